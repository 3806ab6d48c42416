(** Induction over the points of a run, and replacing operands, occurrence by occurrence, by others of the same value (proofs, C48). *)
From Coq Require Import ZArith Lia Bool List Arith.
From Verif Require Import Sim Ssa SsaCfg SsaMerge SsaFwd SsaWf SsaDom SsaSub SsaEq SsaPhi SsaCse LdSt LdStPts.
Import ListNotations.

Section Ind.
Context {W : Type} (m : sem W) (args : nat -> value) (w0 : W) (f : func).
Variable P : nat -> block -> list inst -> env -> W -> Prop.
Hypothesis Hstart : forall bk, get (entry f) f = Some bk -> phis bk = [] -> P (entry f) bk [] (fun _ => None) w0.
Hypothesis Henter : forall p pb e w b bk vs, atPoint m args w0 f p pb (body pb) e w -> P p pb (body pb) e w -> In b (succs (trm pb)) ->
  get b f = Some bk -> reach f b -> rdPhis args e p (phis bk) = Some vs -> P b bk [] (updAll e vs) w.
Hypothesis Hinst : forall b bk pre i post e w vs v w', atPoint m args w0 f b bk pre e w -> P b bk pre e w -> body bk = pre ++ i :: post ->
  rds args e (ops i) = Some vs -> meaning m (opc i) vs w = IOk v w' -> P b bk (pre ++ [i]) (upd e (dst i) v) w'.
Lemma pts_block n s t b bk e1 : run (step m args f) n (start f w0) = Go s t -> cur s = b -> get b f = Some bk ->
  enter args (en s) (prev s) (phis bk) = Some e1 -> P b bk [] e1 (wd s) ->
  forall pre post, body bk = pre ++ post -> forall e w t', runBody m args e1 (wd s) pre = BGo e w t' -> P b bk pre e w.
Proof using Hinst.
  intros H Ec Gb En F1. induction pre as [|i pre IH] using rev_ind; intros post E e w t' R.
  - cbn in R. injection R as <- <- _. exact F1.
  - rewrite <- app_assoc in E. cbn in E. rewrite runBody_app in R.
    destruct (runBody m args e1 (wd s) pre) as [e0 w1 t1|w1 t1|t1] eqn:E1; try discriminate. cbn in R.
    destruct (rds args e0 (ops i)) as [vs|] eqn:Ev; [|discriminate]. destruct (meaning m (opc i) vs w1) as [v w2|w2|] eqn:Em; try discriminate.
    cbn in R. injection R as <- <- _. pose proof (IH _ E _ _ _ eq_refl) as F0.
    assert (A : atPoint m args w0 f b bk pre e0 w1) by (exists n, s, t, e1, t1, (i :: post); auto 10).
    eapply Hinst; eauto.
Qed.
Lemma pts_state n : forall s t bk e1, run (step m args f) n (start f w0) = Go s t -> get (cur s) f = Some bk ->
  enter args (en s) (prev s) (phis bk) = Some e1 -> P (cur s) bk [] e1 (wd s).
Proof using Hstart Henter Hinst.
  induction n as [|n IH]; intros s t bk e1 H Gb En.
  - cbn in H. injection H as <- _. cbn in *. destruct (phis bk) eqn:E; [|discriminate]. injection En as <-. now apply Hstart.
  - pose proof (hist_reach _ _ (run_hist m args w0 f _ _ _ H)) as R.
    replace (S n) with (n + 1)%nat in H by lia. rewrite run_add in H.
    destruct (run (step m args f) n (start f w0)) as [s1 t1|r t1|t1] eqn:E; try discriminate. cbn in H.
    destruct (step m args f s1) as [s2 t2|r t2|t2] eqn:E2; try discriminate. cbn in H. injection H as <- _.
    assert (H2 : run (step m args f) (n + 1) (start f w0) = Go s2 (t1 ++ t2)) by (rewrite run_add, E; cbn; rewrite E2; cbn; now rewrite app_nil_r).
    destruct (run_last m args w0 f _ _ _ H2) as [[_ Es]|(p & pb & w & Ep & A & Ew & Hin)].
    + rewrite Es in *. cbn in *. destruct (phis bk) eqn:Ef; [|discriminate]. injection En as <-. now apply Hstart.
    + unfold step in E2. destruct (get (cur s1) f) as [bk1|] eqn:Eb; [|discriminate]. unfold runBlock in E2.
      destruct (enter args (en s1) (prev s1) (phis bk1)) as [e2|] eqn:Ee; [|discriminate].
      destruct (runBody m args e2 (wd s1) (body bk1)) as [e3 w2 t3|w2 t3|t3] eqn:Er; try discriminate.
      destruct (runTerm args e3 (trm bk1)) as [b'|v|] eqn:Et; try discriminate. injection E2 as <- <-. cbn in *. injection Ep as <-.
      destruct (atPoint_get _ _ _ _ _ _ _ _ _ A) as [Gp _]. rewrite Eb in Gp. injection Gp as <-.
      destruct (rdPhis args e3 (cur s1) (phis bk)) as [vs|] eqn:Ev; [|discriminate]. injection En as <-. subst w.
      eapply (Henter (cur s1)); eauto. eapply (pts_block n s1 t1 _ _ _ E eq_refl Eb Ee); eauto. now rewrite app_nil_r.
Qed.
Theorem points_ind b bk pre e w : atPoint m args w0 f b bk pre e w -> P b bk pre e w.
Proof using Hstart Henter Hinst.
  intros (n & s & t & e1 & t' & post & H & E & Gb & En & Eb & R). eapply pts_block; eauto. subst b. eapply pts_state; eauto.
Qed.
End Ind.

(** ** replacing operands *)
Section RelSyn.
Variable R : opnd -> opnd -> Prop.
Definition relPhi (a b : phi) : Prop := pdst a = pdst b /\ Forall2 (fun x y => fst x = fst y /\ R (snd x) (snd y)) (inc a) (inc b).
Definition relInst (a b : inst) : Prop := dst a = dst b /\ opc a = opc b /\ Forall2 R (ops a) (ops b).
Inductive relTerm : term -> term -> Prop :=
| rt_br t : relTerm (TBr t) (TBr t)
| rt_cond c c' t e : R c c' -> relTerm (TCond c t e) (TCond c' t e)
| rt_switch c c' cs d : R c c' -> relTerm (TSwitch c cs d) (TSwitch c' cs d)
| rt_ret v v' : R v v' -> relTerm (TRet (Some v)) (TRet (Some v'))
| rt_ret0 : relTerm (TRet None) (TRet None)
| rt_un : relTerm TUnreach TUnreach.
Definition relBlock (a b : block) : Prop := Forall2 relPhi (phis a) (phis b) /\ Forall2 relInst (body a) (body b) /\ relTerm (trm a) (trm b).
Definition relF (f g : func) : Prop := Forall2 (fun x y => fst x = fst y /\ relBlock (snd x) (snd y)) f g.
Lemma relF_get f g b : relF f g -> match get b f, get b g with Some x, Some y => relBlock x y | None, None => True | _, _ => False end.
Proof.
  induction 1 as [|[k x] [k' y] f g [E H] K IH]; cbn; auto. cbn in E. subst k'. destruct (Nat.eqb k b); auto.
Qed.
Lemma relF_entry f g : relF f g -> entry g = entry f.
Proof. destruct 1 as [|[k x] [k' y] f g [E H] K]; cbn; auto. Qed.
Lemma relF_fst f g : relF f g -> map fst g = map fst f.
Proof. induction 1 as [|x y f g [E H] K IH]; cbn; congruence. Qed.
Lemma relTerm_succs a b : relTerm a b -> succs b = succs a.
Proof. destruct 1; reflexivity. Qed.
Lemma relPhis_pdst l l' : Forall2 relPhi l l' -> map pdst l' = map pdst l.
Proof. induction 1 as [|a b l l' [E _] K IH]; cbn; congruence. Qed.
Lemma relInsts_dst l l' : Forall2 relInst l l' -> map dst l' = map dst l.
Proof. induction 1 as [|a b l l' [E _] K IH]; cbn; congruence. Qed.
Lemma relPhi_get a b p : relPhi a b -> match get p (inc a), get p (inc b) with Some x, Some y => R x y | None, None => True | _, _ => False end.
Proof. intros [_ H]. induction H as [|[k x] [k' y] f g [E H] K IH]; cbn; auto. cbn in *. subst k'. destruct (Nat.eqb k p); auto. Qed.
End RelSyn.
Lemma relF_refl (R : opnd -> opnd -> Prop) f : (forall o, R o o) -> relF R f f.
Proof.
  intros H. assert (L : forall l, Forall2 R l l) by (induction l; constructor; auto).
  induction f as [|[b [ps l t]] f IH]; constructor; auto. cbn. split; auto. split; [|split].
  - cbn. clear -H. induction ps as [|[x c] ps IH]; constructor; auto. split; auto. cbn. clear -H. induction c; constructor; auto.
  - cbn. clear -L. induction l as [|[x o a] l IH]; constructor; auto. split; auto.
  - cbn. destruct t as [t|c t e|c cs d|[v|]|]; constructor; auto.
Qed.
Lemma Forall2_trans {A B C} (P : A -> B -> Prop) (P' : B -> C -> Prop) (P'' : A -> C -> Prop) l1 l2 l3 :
  (forall a b c, P a b -> P' b c -> P'' a c) -> Forall2 P l1 l2 -> Forall2 P' l2 l3 -> Forall2 P'' l1 l3.
Proof. intros H K. revert l3. induction K; intros l3 L; inversion L; subst; constructor; eauto. Qed.
Lemma relF_trans (R1 R2 R3 : opnd -> opnd -> Prop) f g h : (forall a b c, R1 a b -> R2 b c -> R3 a c) -> relF R1 f g -> relF R2 g h -> relF R3 f h.
Proof.
  intros H. apply Forall2_trans. intros x y z [E (A & B & C)] [E' (A' & B' & C')]. split; [congruence|]. split; [|split].
  - eapply Forall2_trans; [|exact A|exact A']. intros p q r [P1 P2] [Q1 Q2]. split; [congruence|]. eapply Forall2_trans; [|exact P2|exact Q2].
    intros u v w [U1 U2] [V1 V2]. split; [congruence|eauto].
  - eapply Forall2_trans; [|exact B|exact B']. intros p q r (P1 & P2 & P3) (Q1 & Q2 & Q3). split; [congruence|]. split; [congruence|]. eapply Forall2_trans; eauto.
  - destruct C; inversion C'; subst; constructor; eauto.
Qed.

Section Rel.
Context {W : Type} (m : sem W) (args : nat -> value) (w0 : W).
Variable f g : func.
Variable R : opnd -> opnd -> Prop.
Hypothesis S : ssa f.
Hypothesis Hh : forall b bk pre e w o o' v, atPoint m args w0 f b bk pre e w -> opAvail (availAt f b bk pre) o -> R o o' -> rd args e o = Some v -> rd args e o' = Some v.
Hypothesis Hg : relF R f g.
Lemma rds_rel e l l' vs : Forall2 R l l' -> (forall o o' v, In o l -> R o o' -> rd args e o = Some v -> rd args e o' = Some v) ->
  rds args e l = Some vs -> rds args e l' = Some vs.
Proof using.
  intros K. revert vs. induction K as [|o o' l l' Ho K IH]; cbn; intros vs H E; auto.
  destruct (rd args e o) as [v|] eqn:E1; try discriminate. destruct (rds args e l) as [vs'|]; try discriminate.
  rewrite (H o o' v (or_introl eq_refl) Ho E1), (IH vs'); auto. intros; eapply H; eauto.
Qed.
Lemma rdPhis_rel e p l l' vs : Forall2 (relPhi R) l l' ->
  (forall ph o o' v, In ph l -> get p (inc ph) = Some o -> R o o' -> rd args e o = Some v -> rd args e o' = Some v) ->
  rdPhis args e p l = Some vs -> rdPhis args e p l' = Some vs.
Proof using.
  intros K. revert vs. induction K as [|ph ph' l l' Ho K IH]; cbn; intros vs H E; auto.
  pose proof (relPhi_get R ph ph' p Ho) as G. destruct (get p (inc ph)) as [o|] eqn:E0; [|discriminate]. destruct (get p (inc ph')) as [o'|]; [|contradiction].
  destruct (rd args e o) as [v|] eqn:E1; try discriminate. destruct (rdPhis args e p l) as [vs'|]; try discriminate.
  rewrite (H ph o o' v (or_introl eq_refl) E0 G E1), (IH vs'); auto; [|intros; eapply H; eauto]. destruct Ho as [<- _]. exact E.
Qed.
Lemma runTerm_rel e t t' : relTerm R t t' -> (forall o o' v, In o (termOps t) -> R o o' -> rd args e o = Some v -> rd args e o' = Some v) ->
  runTerm args e t <> TBad -> runTerm args e t' = runTerm args e t.
Proof using.
  intros K H NB. destruct K as [| c c' t e' K| c c' cs d K| v v' K| |]; cbn in *; auto.
  - destruct (rd args e c) as [v|] eqn:E1; [|congruence]. now rewrite (H c c' v (or_introl eq_refl) K E1).
  - destruct (rd args e c) as [v|] eqn:E1; [|congruence]. now rewrite (H c c' v (or_introl eq_refl) K E1).
  - destruct (rd args e v) as [x|] eqn:E1; [|congruence]. now rewrite (H v v' x (or_introl eq_refl) K E1).
Qed.
Lemma rel_body b bk n s t e1 : run (step m args f) n (start f w0) = Go s t -> cur s = b -> get b f = Some bk ->
  enter args (en s) (prev s) (phis bk) = Some e1 -> forall mid mid' pre e w t0, Forall2 (relInst R) mid mid' -> (exists post, body bk = pre ++ mid ++ post) ->
  runBody m args e1 (wd s) pre = BGo e w t0 ->
  (forall t', runBody m args e w mid <> BBad t') -> runBody m args e w mid' = runBody m args e w mid.
Proof using S Hh.
  intros H Ec Gb En. induction mid as [|i mid IH]; intros mid' pre e w t0 K [post E] R0 NB; inversion K as [|? i' ? mid1 Ki K1]; subst; auto.
  assert (A : atPoint m args w0 f (cur s) bk pre e w) by (exists n, s, t, e1, t0, ((i :: mid) ++ post); auto 10).
  cbn in *. destruct (rds args e (ops i)) as [vs|] eqn:E1; [|exfalso; eapply NB; eauto]. destruct Ki as (D1 & D2 & D3). rewrite <- D1, <- D2.
  rewrite (rds_rel e (ops i) (ops i') vs D3); auto.
  - destruct (meaning m (opc i) vs w) as [v w1|w1|] eqn:E2; auto.
    rewrite (IH mid1 (pre ++ [i]) (upd e (dst i) v) w1 (t0 ++ evt m (opc i) vs w)); auto.
    + exists post. rewrite <- app_assoc. exact E.
    + rewrite runBody_app, R0. cbn. rewrite E1, E2. cbn. now rewrite app_nil_r.
    + intros t' Ht. apply (NB (evt m (opc i) vs w ++ t')). rewrite Ht. reflexivity.
  - destruct (S (cur s) bk Gb (atPoint_reach _ _ _ _ _ _ _ _ _ A)) as (S1 & _ & _). specialize (S1 pre i _ E). rewrite Forall_forall in S1.
    intros o o' v Ho Ro Hv. eapply Hh; eauto.
Qed.
Lemma rel_enter n s t bk bk' e1 : run (step m args f) n (start f w0) = Go s t -> get (cur s) f = Some bk -> relBlock R bk bk' ->
  enter args (en s) (prev s) (phis bk) = Some e1 -> enter args (en s) (prev s) (phis bk') = Some e1.
Proof using S Hh.
  intros H Gb (K & _) En. pose proof (run_hist m args w0 f _ _ _ H) as Hs. unfold enter in *.
  destruct (run_last m args w0 f n s t H) as [[Ep _]|(p & pb & w & Ep & A & _ & Hin)]; rewrite Ep in *.
  - destruct K; auto; discriminate.
  - destruct (rdPhis args (en s) p (phis bk)) as [vs|] eqn:Ev; [|discriminate].
    rewrite (rdPhis_rel (en s) p (phis bk) (phis bk') vs K); auto.
    intros ph o o' v Hph Ho Ro Hv. destruct (S (cur s) bk Gb (hist_reach _ _ Hs)) as (_ & _ & S3).
    pose proof (S3 ph p o Hph (get_In _ _ _ Ho) (atPoint_reach _ _ _ _ _ _ _ _ _ A)) as Av. eapply Hh; eauto.
    destruct (atPoint_get _ _ _ _ _ _ _ _ _ A) as [Gp _]. destruct o as [c|k|x]; cbn in *; auto. now apply (availOut_at f p pb x Gp).
Qed.
Lemma rel_step n s t : run (step m args f) n (start f w0) = Go s t -> (forall t', step m args f s <> Bad t') ->
  step m args g s = step m args f s.
Proof using S Hh Hg.
  intros H NB. unfold step in *. pose proof (relF_get R f g (cur s) Hg) as K. destruct (get (cur s) f) as [bk|] eqn:Eb; destruct (get (cur s) g) as [bk'|]; try contradiction; auto.
  unfold runBlock in *.
  destruct (enter args (en s) (prev s) (phis bk)) as [e1|] eqn:Ee; [|exfalso; eapply NB; eauto].
  rewrite (rel_enter n s t bk bk' e1 H Eb K Ee). destruct K as (K1 & K2 & K3).
  rewrite (rel_body (cur s) bk n s t e1 H eq_refl Eb Ee (body bk) (body bk') [] e1 (wd s) []); auto.
  - destruct (runBody m args e1 (wd s) (body bk)) as [e2 w2 t2|w2 t2|t2] eqn:Er; auto.
    rewrite (runTerm_rel e2 (trm bk) (trm bk') K3); auto.
    + destruct (S (cur s) bk Eb (hist_reach _ _ (run_hist m args w0 f _ _ _ H))) as (_ & S2 & _).
      rewrite Forall_forall in S2. intros o o' v Ho Ro Hv. refine (Hh (cur s) bk (body bk) e2 w2 o o' v _ (S2 o Ho) Ro Hv).
      exists n, s, t, e1, t2, []. rewrite app_nil_r. auto 10.
    + intros Kb. rewrite Kb in NB. exact (NB t2 eq_refl).
  - exists []. cbn. now rewrite app_nil_r.
  - intros t' Ht. rewrite Ht in NB. exact (NB t' eq_refl).
Qed.
Theorem rel_run : Sim.safe (step m args f) (start f w0) -> forall n, run (step m args g) n (start g w0) = run (step m args f) n (start f w0).
Proof using S Hh Hg.
  intros Hs. assert (E0 : start g w0 = start f w0) by (unfold start; now rewrite (relF_entry R f g Hg)). rewrite E0.
  induction n as [|n IH]; auto. replace (Datatypes.S n) with (n + 1)%nat by lia. rewrite !run_add, IH.
  destruct (run (step m args f) n (start f w0)) as [s t|r t|t] eqn:E; auto. f_equal. cbn.
  rewrite (rel_step n s t E); auto. intros t' K. apply (Hs (n + 1)%nat (t ++ t')). rewrite run_add, E. cbn. rewrite K. reflexivity.
Qed.
Lemma run_refines : (Sim.safe (step m args f) (start f w0) -> forall n, run (step m args g) n (start g w0) = run (step m args f) n (start f w0)) ->
  refinesAt (step m args f) (step m args g) (start f w0) (start g w0).
Proof using.
  intros K Hs. pose proof (K Hs) as A. split; [|split; [|split]].
  - intros n t. rewrite A. apply Hs.
  - intros r t. unfold finishes. split; intros [n H]; exists n; [rewrite A|rewrite <- A]; auto.
  - intros t. unfold emits. split; intros (n & u & H); exists n, u; [rewrite A|rewrite <- A]; auto.
  - unfold diverges. split; intros H n; destruct (H n) as (s & t & K1); exists s, t; [rewrite A|rewrite <- A]; auto.
Qed.
Theorem rel_refines : refinesAt (step m args f) (step m args g) (start f w0) (start g w0).
Proof using S Hh Hg. apply run_refines. intros Hs. now apply rel_run. Qed.
End Rel.
