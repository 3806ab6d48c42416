(** C54: the simulation.  Nothing here models code of /repo. *)
From Coq Require Import ZArith Lia Bool List Arith.
From Verif Require Import Sim Ssa SsaCfg SsaMerge SsaFwd SsaFwd2 SsaWf SsaDom SsaProps SsaSub SsaVerify SsaEq SsaPhi SsaCse CodeMotion M2RPriv CondProp CondPropProof.
Import ListNotations.

(** ** specification: the values of type i1 *)
Definition boolV (v : value) : Prop := match v with VInt z => z = 0%Z \/ z = 1%Z | _ => True end.
(** [i1]: the results of type i1; [i1op]: the opcodes with such a result; [i1arg]: the parameters of this type *)
Definition typedI1 (i1 i1op i1arg : nat -> bool) (f : func) : Prop :=
  (forall b bk x t e, get b f = Some bk -> trm bk = TCond (ORes x) t e -> i1 x = true) /\
  (forall b bk i, get b f = Some bk -> In i (body bk) -> i1 (dst i) = true -> i1op (opc i) = true) /\
  (forall b bk q p o, get b f = Some bk -> In q (phis bk) -> i1 (pdst q) = true -> In (p, o) (inc q) ->
    match o with ORes y => i1 y = true | OCst v => boolV v | OArg n => i1arg n = true end).
(** such opcodes compute false or true (or a value that is no integer, as undef) *)
Definition boolSem {W} (m : sem W) (i1op : nat -> bool) : Prop :=
  forall o vs w v w', i1op o = true -> meaning m o vs w = IOk v w' -> boolV v.

Lemma path_rank f (R : nat -> nat) : (forall b bk y, get b f = Some bk -> In y (succs (trm bk)) -> R y <= R b) ->
  forall b l, path f b l -> forall a, In a l -> R b <= R a.
Proof.
  intros H b l P. induction P as [|b l bk t P IH Hb Ht]; intros a Ha.
  - destruct Ha as [<-|[]]. auto.
  - destruct Ha as [<-|Ha]; auto. specialize (IH a Ha). specialize (H b bk t Hb Ht). lia.
Qed.
Lemma rdPhis_src (args : nat -> value) e p l : forall vs y u, rdPhis args e p l = Some vs -> In (y, u) vs ->
  exists q o, In q l /\ pdst q = y /\ get p (inc q) = Some o /\ rd args e o = Some u.
Proof.
  induction l as [|q l IH]; cbn; intros vs y u H Hin.
  - injection H as <-. destruct Hin.
  - destruct (get p (inc q)) as [o|] eqn:Eo; [|discriminate]. destruct (rd args e o) as [v|] eqn:Ev; [|discriminate].
    destruct (rdPhis args e p l) as [vs'|]; [|discriminate]. injection H as <-. destruct Hin as [E|Hin].
    + injection E as <- <-. exists q, o. auto.
    + destruct (IH vs' y u eq_refl Hin) as (q1 & o1 & A & B). exists q1, o1. auto.
Qed.

Section Sim.
Context {W : Type} (m : sem W) (args : nat -> value) (f : func).
Variables (i1 i1op i1arg : nat -> bool) (C : nat -> cset) (R : nat -> nat).
Hypothesis Hf : wfs f.
Hypothesis Ty : typedI1 i1 i1op i1arg f.
Hypothesis Hm : boolSem m i1op.
Hypothesis Ha : forall n, i1arg n = true -> boolV (args n).
Hypothesis Hedge : forall b bk y, get b f = Some bk -> In y (succs (trm bk)) ->
  R y = R b \/ (R y < R b /\ exists c, covers (C b) (C y) c /\ (forall x v, c = Some (x, v) -> condTo (trm bk) y = Some (x, v))).
Hypothesis HC : forall b bk y, get b f = Some bk -> In y (succs (trm bk)) -> R y = R b -> C y = C b.
Hypothesis Hent : cT (C (entry f)) = [] /\ cF (C (entry f)) = [].

(** what the environment must satisfy *)
Definition holds (s : cset) (e : env) : Prop :=
  (forall x, In (ORes x) (cT s) -> e x = Some (VInt 1)) /\ (forall x, In (ORes x) (cF s) -> e x = Some (VInt 0)).
Definition above (b : nat) (s : cset) : Prop :=
  forall x, In (ORes x) (cT s) \/ In (ORes x) (cF s) -> exists d, defIn f x d /\ R b < R d.
Definition bools (e : env) : Prop := forall x v, i1 x = true -> e x = Some v -> boolV v.
Definition J (s : st (W:=W)) : Prop := hist f s /\ bools (en s) /\ holds (C (cur s)) (en s) /\ above (cur s) (C (cur s)).

Lemma known_rd s e o v : holds s e -> rd args e o = Some v -> rd args e (known s o) = Some v.
Proof.
  intros [A B] H. destruct o as [c|n|x]; auto. unfold known. destruct (inO (ORes x) (cT s)) eqn:E1.
  - apply inO_In, A in E1. cbn in *. congruence.
  - destruct (inO (ORes x) (cF s)) eqn:E2; auto. apply inO_In, B in E2. cbn in *. congruence.
Qed.
(** a result that is known is not computed again here *)
Lemma holds_ne s e e' (X : nat -> Prop) : (forall x, X x -> e' x = e x) -> (forall x, In (ORes x) (cT s) \/ In (ORes x) (cF s) -> X x) -> holds s e -> holds s e'.
Proof. intros H K [A B]. split; intros x Hx; rewrite H; auto. Qed.
Lemma above_res b bk s x : get b f = Some bk -> above b s -> In (ORes x) (cT s) \/ In (ORes x) (cF s) -> ~ In x (resultsOf bk).
Proof.
  intros G A Hx K. destruct (A x Hx) as (d & D & L). destruct Hf as ((_ & U & _) & _).
  assert (d = b) by (apply (defIn_unique f x d b U D); exists bk; auto). subst d. lia.
Qed.
Lemma bools_enter b bk e p e1 : get b f = Some bk -> bools e -> enter args e p (phis bk) = Some e1 -> bools e1.
Proof.
  intros G B H. unfold enter in H. destruct p as [p|]; [|destruct (phis bk); [now injection H as <-|discriminate]].
  destruct (rdPhis args e p (phis bk)) as [vs|] eqn:E; [|discriminate]. injection H as <-. intros x v Hx Hv.
  apply updAll_in in Hv as [Hv|Hv]; [|now apply (B x)].
  destruct (rdPhis_src _ _ _ _ _ _ _ E Hv) as (q & o & Hq & <- & Ho & Hr). destruct Ty as (_ & _ & T3).
  pose proof (T3 b bk q p o G Hq Hx (get_In _ _ _ Ho)) as K. destruct o as [c|n|y]; cbn in Hr.
  - now injection Hr as <-.
  - injection Hr as <-. auto.
  - now apply (B y).
Qed.
Lemma body_sim b bk s : get b f = Some bk -> above b s -> forall post e (w : W), incl post (body bk) -> bools e -> holds s e ->
  (forall t, runBody m args e w post <> BBad t) ->
  runBody m args e w (map (mapInst (known s)) post) = runBody m args e w post /\
  (forall e' w' t, runBody m args e w post = BGo e' w' t -> bools e' /\ holds s e').
Proof.
  intros G A. induction post as [|i post IH]; intros e w Hi B H NB.
  - split; auto. intros e' w' t K. cbn in K. injection K as <- _ _. auto.
  - cbn in NB |- *. destruct (rds args e (ops i)) as [vs|] eqn:E1; [|exfalso; eapply NB; eauto].
    rewrite (rds_local args e (known s) (ops i) vs); [|apply Forall_forall; intros o _ v Hv; now apply known_rd|exact E1].
    destruct (meaning m (opc i) vs w) as [v w1|w1|] eqn:E2.
    + destruct (IH (upd e (dst i) v) w1) as [R1 R2].
      * intros j Hj. apply Hi. now right.
      * intros x u Hx Hu. unfold upd in Hu. destruct (Nat.eqb_spec x (dst i)) as [->|_]; [|now apply (B x)]. injection Hu as <-.
        destruct Ty as (_ & T2 & _). apply (Hm _ _ _ _ _ (T2 b bk i G (Hi i (or_introl eq_refl)) Hx) E2).
      * apply (holds_ne s e _ (fun x => x <> dst i)); auto; [intros x Hx; now apply upd_ne|].
        intros x Hx ->. apply (above_res b bk s (dst i) G A Hx). apply in_or_app. right. apply in_map, Hi. now left.
      * intros t Ht. apply (NB (evt m (opc i) vs w ++ t)). rewrite Ht. reflexivity.
      * rewrite R1. split; auto. intros e' w' t K. destruct (runBody m args (upd e (dst i) v) w1 post) as [e2 w2 t2|w2 t2|t2] eqn:E3; try discriminate K.
        cbn in K. injection K as <- <- _. eapply R2; eauto.
    + split; auto. discriminate.
    + split; auto. discriminate.
Qed.
Lemma rank_dom d b : dominates f d b -> reach f b -> R b <= R d.
Proof.
  intros D [l P]. apply (path_rank f R) with (l := l); auto. intros k bk y G Hy. destruct (Hedge k bk y G Hy) as [->|[L _]]; lia.
Qed.
Lemma runTerm_cond e t y x v : runTerm args e t = TGo y -> condTo t y = Some (x, v) ->
  exists u, rd args e x = Some u /\ truth u = Some v /\ exists a b, t = TCond x a b.
Proof.
  destruct t as [| c a b | | [|] |]; cbn; intros H E; try discriminate. destruct (Nat.eqb_spec a b) as [|N]; [discriminate|]. injection E as <- <-.
  destruct (rd args e c) as [u|]; [|discriminate]. exists u. split; auto. split; [|eauto].
  destruct (truth u) as [[]|]; [| |discriminate]; injection H as <-; [now rewrite Nat.eqb_refl|]. destruct (Nat.eqb_spec b a); congruence.
Qed.
Lemma J_step s s' t : J s -> step m args f s = Go s' t -> J s'.
Proof.
  intros (Hh & B & H & A) S. pose proof (hist_step _ _ _ _ _ _ Hh S) as Hh'. pose proof (hist_reach _ _ Hh) as Rc.
  apply step_inv in S as (bk & e1 & e2 & w & H1 & H2 & H3 & H4 & H5). rewrite H5. unfold J. cbn [cur en].
  pose proof (bools_enter _ _ _ _ _ H1 B H2) as B1.
  assert (K1 : holds (C (cur s)) e1).
  { apply (holds_ne _ (en s) _ (fun x => ~ In x (map pdst (phis bk)))); auto; [intros x Hx; eapply enter_ne; eauto|].
    intros x Hx K. apply (above_res (cur s) bk _ x H1 A Hx). apply in_or_app. now left. }
  assert (NB : forall t0, runBody m args e1 (wd s) (body bk) <> BBad t0) by (intros t0 K; congruence).
  destruct (body_sim (cur s) bk _ H1 A (body bk) e1 (wd s) (incl_refl _) B1 K1 NB) as [_ K]. destruct (K _ _ _ H3) as [B2 K2].
  split; [rewrite H5 in Hh'; exact Hh'|]. split; [exact B2|]. set (y := cur s') in *. pose proof (runTerm_succs _ _ _ _ H4) as Hs.
  destruct (Hedge (cur s) bk y H1 Hs) as [E|[L (c & [CT CF] & Cc)]].
  - rewrite (HC (cur s) bk y H1 Hs E). split; [exact K2|]. intros x Hx. destruct (A x Hx) as (d & D & L). exists d. split; auto. lia.
  - assert (Q : forall x v, c = Some (ORes x, v) -> e2 x = Some (VInt (if v then 1 else 0)) /\ exists d, defIn f x d /\ R y < R d).
    { intros x v E. destruct (runTerm_cond _ _ _ _ _ H4 (Cc _ _ E)) as (u & U1 & U2 & a & b & Et). destruct Ty as (T1 & _ & _).
      pose proof (T1 _ _ x a b H1 Et) as Ti. cbn in U1. split.
      - specialize (B2 x u Ti U1). rewrite U1. destruct u as [z| |]; cbn in U2; try discriminate. injection U2 as <-. cbn in B2.
        destruct B2 as [-> | ->]; reflexivity.
      - destruct Hf as (_ & Hs1 & _). destruct (Hs1 _ _ H1 Rc) as (_ & S2 & _). rewrite Et in S2. cbn in S2. apply Forall_inv in S2. rename S2 into S3. cbn in S3.
        apply availOut_at in S3; [|exact H1]. destruct S3 as (d & D & Dm). exists d. split; auto. pose proof (rank_dom d (cur s) Dm Rc). lia. }
    split.
    + split; intros x Hx.
      * destruct (CT _ Hx) as [Hx'|E]; [now apply K2|]. now apply (Q x true).
      * destruct (CF _ Hx) as [Hx'|E]; [now apply K2|]. now apply (Q x false).
    + assert (Lift : forall x, In (ORes x) (cT (C (cur s))) \/ In (ORes x) (cF (C (cur s))) -> exists d, defIn f x d /\ R y < R d).
      { intros x Hx. destruct (A x Hx) as (d & D & L2). exists d. split; auto. lia. }
      intros x [Hx|Hx].
      * destruct (CT _ Hx) as [Hx'|E]; [apply Lift; auto|]. now apply (Q x true).
      * destruct (CF _ Hx) as [Hx'|E]; [apply Lift; auto|]. now apply (Q x false).
Qed.
Definition out : func := substB (fun b => known (C b)) (fun _ b => known (C b)) f.
Theorem sim_ok w : refinesAt (step m args f) (step m args out) (start f w) (start out w).
Proof.
  apply (step_refinesAt m args f out J).
  - unfold out. now rewrite entry_substB.
  - intros s (Hh & B & H & A) Hsafe. assert (NB := fun t => safe_step m args f s t Hsafe). unfold step, out in *. rewrite get_substB.
    destruct (get (cur s) f) as [bk|] eqn:Eb; [|reflexivity]. cbn [option_map]. unfold runBlock in *. cbn [mapBlock phis body trm].
    destruct (enter args (en s) (prev s) (phis bk)) as [e1|] eqn:Ee; [|exfalso; eapply NB; eauto].
    assert (Ee' : enter args (en s) (prev s) (map (mapPhi (fun _ => known (C (cur s)))) (phis bk)) = Some e1).
    { unfold enter in *. destruct (prev s) as [p|]; [|destruct (phis bk); auto; discriminate].
      destruct (rdPhis args (en s) p (phis bk)) as [vs|] eqn:Ev; [|discriminate].
      rewrite (rdPhis_local args (en s) p (fun _ => known (C (cur s))) (phis bk) vs); auto.
      intros ph o v _ _ Hv. now apply known_rd. }
    rewrite Ee'.
    pose proof (bools_enter _ _ _ _ _ Eb B Ee) as B1.
    assert (K1 : holds (C (cur s)) e1).
    { apply (holds_ne _ (en s) _ (fun x => ~ In x (map pdst (phis bk)))); [intros x Hx; exact (enter_ne args _ _ _ _ _ Ee Hx)| |exact H].
      intros z Hz K. apply (above_res (cur s) bk _ z Eb A Hz). apply in_or_app. now left. }
    destruct (body_sim (cur s) bk _ Eb A (body bk) e1 (wd s) (incl_refl _) B1 K1) as [R1 R2].
    { intros t Ht. rewrite Ht in NB. exact (NB t eq_refl). }
    rewrite R1. destruct (runBody m args e1 (wd s) (body bk)) as [e2 w2 t2|w2 t2|t2] eqn:Er; auto.
    destruct (R2 _ _ _ eq_refl) as [_ K2]. rewrite (runTerm_local args e2 (known (C (cur s))) (trm bk)); auto.
    + apply Forall_forall. intros o _ v Hv. now apply known_rd.
    + intros K. rewrite K in NB. exact (NB t2 eq_refl).
  - exact J_step.
  - split; [apply hist_start|]. split; [intros x v _ K; discriminate K|]. cbn [cur start]. destruct Hent as [E1 E2].
    split; [split; intros x Hx; [rewrite E1 in Hx|rewrite E2 in Hx]; destruct Hx|]. intros x [Hx|Hx]; [rewrite E1 in Hx|rewrite E2 in Hx]; destruct Hx.
Qed.
End Sim.
