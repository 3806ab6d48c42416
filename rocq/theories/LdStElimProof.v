(** Proofs about StoreEliminate (C46). *)
From Coq Require Import ZArith Lia Bool List Arith.
From Verif Require Import Sim Ssa SsaCfg SsaMerge SsaFwd SsaWf SsaDom SsaProps SsaSub SsaEq SsaPhi SsaCse SsaDce LdSt LdStPts LdStProof LdStLoad LdStDrop LdStElim.
Import ListNotations.

Section E.
Context {W X Y : Type} (m : sem W) (args : nat -> value) (w0 : W) (M : memory W) (vE : @event W -> X) (vF : @fin W -> Y).
Variable mk : nat -> mkind.
Variable dist : opnd * nat -> opnd * nat -> bool.
Variable base : opnd -> option opnd.
Variable same : opnd -> opnd -> bool.
Variable escapes : opnd * nat -> opnd -> bool.
Variable isAlloc : opnd -> bool.
Variable touches : inst -> opnd -> bool.
Variable stk : opnd -> bool.
Variable dom : nat -> nat -> bool.
Notation pt := (atPoint m args w0).
Notation differAt := (differAt M).
Notation blindTo := (blindTo m M vE vF).
Notation okSep := (okSep m args w0 M dist base).
Notation scanI := (scanI mk dist escapes isAlloc touches).
Notation scanL := (scanL mk dist escapes isAlloc touches).
Notation scanT := (scanT stk dom).
Notation into := (into mk dist escapes isAlloc touches stk dom).

(** ** what is asked of the analyses and of the program *)
(** a call that does not touch an allocation, according to the analysis, is blind to it *)
Definition okTouch (f : func) : Prop := forall b bk pre i post e w vs p a, pt f b bk pre e w -> body bk = pre ++ i :: post ->
  rds args e (ops i) = Some vs -> opAvail (availAt f b bk pre) p -> rd args e p = Some (VOpq a) ->
  isAlloc p = true -> touches i p = false -> forall t, blindTo (opc i) vs t a.
(** who called the function does not see its own stack after the return *)
Definition okStk (f : func) : Prop := forall b bk e w p a, pt f b bk (body bk) e w -> opAvail (availAt f b bk (body bk)) p ->
  rd args e p = Some (VOpq a) -> stk p = true -> forall t v w1 w2, differAt t a w1 w2 -> vF (Ret v w1) = vF (Ret v w2).
Definition okDom (f : func) : Prop := forall a b, dom a b = true -> dominates f a b.
(** calls of functions without memory reads, and opcodes that are no memory accesses, see nothing of memory *)
Definition okBlind : Prop := forall o, mk o = MOther \/ (exists nw, mk o = MCall nw true) -> forall vs t a, blindTo o vs t a.
(** loads and stores are not observed *)
Definition memQuiet : Prop := forall o t, mk o = MLoad t \/ mk o = MStore t -> visible m o = false.
(** a store has no result to be used *)
Definition storesUnused (f : func) : Prop := forall b bk i t, get b f = Some bk -> In i (body bk) -> mk (opc i) = MStore t ->
  forall b' bk', get b' f = Some bk' -> ~ In (dst i) (usesOf bk').
Definition einv (f : func) : Prop := wfs f /\ okSep f /\ okTouch f /\ okStk f /\ okDom f /\ noAtomic mk f /\ storesUnused f /\
  Sim.safe (step m args f) (start f w0).

Hypothesis MO : memOk M.
Hypothesis MV : memOver M.
Hypothesis MS : memSem mk M m.
Hypothesis BO : okBlind.
Hypothesis QO : memQuiet.
Hypothesis SO : okSame same.

(** ** worlds that differ in one place *)
Lemma differ_sto t a w w' v : differAt t a w w' -> sto M t a v w = sto M t a v w'.
Proof. intros (x & w1 & A & B). destruct MV as (O1 & _). rewrite <- (O1 _ _ _ _ _ A v). now apply (O1 _ _ _ _ _ B). Qed.
Lemma differ_new t a v w w1 : sto M t a v w = Some w1 -> differAt t a w1 w.
Proof. intros H. exists v, w1. split; auto. destruct MV as (O1 & _). now rewrite (O1 _ _ _ _ _ H v). Qed.
Lemma differ_drop t a v w w' w1 : differAt t a w w' -> sto M t a v w = Some w1 -> differAt t a w1 w'.
Proof.
  intros D H. exists v, w1. split; [|now rewrite <- (differ_sto t a w w' v D)]. destruct MV as (O1 & _). now rewrite (O1 _ _ _ _ _ H v).
Qed.
Lemma differ_valid t a w w' : differAt t a w w' -> ld M t a w <> None.
Proof. intros (v & w1 & H & _). destruct MO as (_ & L2 & _). eapply L2; eauto. Qed.
Lemma differ_ld t a w w' u b : differAt t a w w' -> apart b (siz M u) a (siz M t) -> ld M u b w = ld M u b w'.
Proof. intros (v & w1 & A & B) H. destruct MO as (_ & _ & L3 & _). rewrite <- (L3 u b t a v w w1 H A). now apply L3 with (u := t) (b := a) (v := v). Qed.
Lemma differ_some t a w w' u b : differAt t a w w' -> (ld M u b w = None <-> ld M u b w' = None).
Proof. intros (v & w1 & A & B). destruct MV as (_ & _ & O3 & _). rewrite <- (O3 _ _ _ _ _ A u b). apply (O3 _ _ _ _ _ B u b). Qed.
Lemma differ_store t a w w' u b v w2 : differAt t a w w' -> apart a (siz M t) b (siz M u) -> sto M u b v w = Some w2 ->
  exists w2', sto M u b v w' = Some w2' /\ differAt t a w2 w2'.
Proof.
  intros D H E. pose proof D as (x & w1 & A & B). destruct MV as (O1 & O2 & O3 & O4).
  destruct (sto M u b v w') as [w2'|] eqn:E'.
  - exists w2'. split; auto. destruct (O2 _ _ _ _ _ _ _ _ _ H A E) as (w3 & C1 & C2). destruct (O2 _ _ _ _ _ _ _ _ _ H B E') as (w4 & C3 & C4).
    exists x, w3. split; auto. congruence.
  - exfalso. apply (O4 u b v w w'); auto; [congruence|]. rewrite <- (differ_some t a w w' u b D). destruct MO as (_ & L2 & _). eapply L2; eauto.
Qed.

(** ** the scan *)
Section F.
Variable f : func.
Variables (p : opnd) (t : nat).
Definition termOk (V : list nat) (tm : term) : Prop :=
  match tm with
  | TRet _ | TUnreach => stk p = true
  | _ => forall b, In b (succs tm) -> targetOk dom f p b = true /\ In b V
  end.
Fixpoint restOk (V : list nat) (l : list inst) (tm : term) : Prop :=
  match l with
  | [] => termOk V tm
  | i :: r => match scanI p t i with Fail => False | Stop => True | Next => restOk V r tm end
  end.
Definition okBlock (V : list nat) (b : nat) : Prop := forall bk, get b f = Some bk -> restOk V (body bk) (trm bk).
Lemma termOk_mono V V' tm : incl V V' -> termOk V tm -> termOk V' tm.
Proof. intros I. destruct tm; cbn; auto; intros H b Hb; destruct (H b Hb); auto. Qed.
Lemma restOk_mono V V' tm l : incl V V' -> restOk V l tm -> restOk V' l tm.
Proof. intros I. induction l as [|i l IH]; cbn; [now apply termOk_mono|]. destruct (scanI p t i); auto. Qed.
Lemma okBlock_mono V V' b : incl V V' -> okBlock V b -> okBlock V' b.
Proof. intros I H bk Hb. eapply restOk_mono; eauto. Qed.
Lemma scanL_rest V tm l : forall n st n', scanL p t l n = Some (st, n') -> (st = false -> termOk V tm) -> restOk V l tm.
Proof.
  induction l as [|i l IH]; cbn -[Nat.leb lookahead]; intros n st n' H K.
  - injection H as <- _. auto.
  - destruct (Nat.leb lookahead (S n)); [discriminate|]. destruct (scanI p t i); auto; [discriminate|]. eauto.
Qed.
Definition grows (s s' : list nat * nat) : Prop := incl (fst s) (fst s') /\ forall x, In x (fst s') -> In x (fst s) \/ okBlock (fst s') x.
Lemma grows_trans s1 s2 s3 : grows s1 s2 -> grows s2 s3 -> grows s1 s3.
Proof.
  intros [A1 A2] [B1 B2]. split; [eapply incl_tran; eauto|]. intros x Hx. destruct (B2 x Hx) as [H|H]; auto.
  destruct (A2 x H) as [K|K]; auto. right. eapply okBlock_mono; eauto.
Qed.
Lemma scanT_ok go tm : (forall b s s', go b s = Some s' -> grows s s' /\ In b (fst s')) -> forall s s', scanT go f p tm s = Some s' ->
  grows s s' /\ termOk (fst s') tm.
Proof.
  intros G s s' H. unfold LdStElim.scanT in H. destruct (Nat.leb lookahead (S (snd s))); [discriminate|].
  assert (K : forall l s1, fold_left (fun acc b => match acc with Some s' => if targetOk dom f p b then go b s' else None | None => None end) l (Some s1) = Some s' ->
     grows s1 s' /\ forall b, In b l -> targetOk dom f p b = true /\ In b (fst s')).
  { assert (KN : forall l, fold_left (fun acc b => match acc with Some s' => if targetOk dom f p b then go b s' else None | None => None end) l None = None)
      by (induction l; auto).
    induction l as [|b l IH]; cbn; intros s1 E.
    - injection E as <-. split; [|contradiction]. split; [apply incl_refl|auto].
    - destruct (targetOk dom f p b) eqn:Et; [|rewrite KN in E; discriminate]. destruct (go b s1) as [s2|] eqn:Eg; [|rewrite KN in E; discriminate].
      destruct (G _ _ _ Eg) as [G1 G2]. destruct (IH _ E) as [I1 I2]. split; [eapply grows_trans; eauto|]. intros c [<-|Hc]; auto. split; auto. now apply I1. }
  assert (G0 : forall n, grows s (fst s, n)) by (intros n; split; [apply incl_refl|cbn; auto]).
  destruct tm as [b|c b1 b2|c cs d|v|].
  1-3: apply K in H as [H1 H2]; split; [eapply grows_trans; [apply G0|exact H1]|exact H2].
  1-2: cbn in H; destruct (stk p) eqn:Es; [|discriminate]; injection H as <-; split; auto.
Qed.
Lemma into_ok d : forall b s s', into d f p t b s = Some s' -> grows s s' /\ In b (fst s').
Proof.
  induction d as [|d IH]; intros b s s' H; [discriminate|]. cbn -[Nat.leb lookahead] in H.
  destruct (inb b (fst s)) eqn:Ei.
  { injection H as <-. apply existsb_In in Ei. split; auto. split; [apply incl_refl|auto]. }
  destruct (get b f) as [bk|] eqn:Eb; [|discriminate]. destruct (Nat.leb lookahead (snd s + length (phis bk))); [discriminate|].
  destruct (scanL p t (body bk) (snd s + length (phis bk))) as [[[|] n']|] eqn:Es; [| |discriminate].
  - injection H as <-. cbn. split; [|now left]. split; [apply incl_tl, incl_refl|]. cbn. intros x [<-|Hx]; auto. right. intros bk' Hb'.
    assert (bk' = bk) by congruence. subst. eapply scanL_rest; eauto. discriminate.
  - apply (scanT_ok _ _ IH) in H as [[H1 H2] H3]. cbn in H1, H2. split; [|apply H1; now left]. split; [intros x Hx; apply H1; now right|].
    intros x Hx. destruct (H2 x Hx) as [[<-|K]|K]; auto. right. intros bk' Hb'. assert (bk' = bk) by congruence. subst. eapply scanL_rest; eauto.
Qed.
End F.
Lemma splitAt_ok x l : forall k k' i post, splitAt x l k = Some (k', i, post) -> exists pre, l = pre ++ i :: post /\ dst i = x.
Proof.
  induction l as [|j l IH]; cbn; intros k k' i post; [discriminate|]. destruct (Nat.eqb_spec (dst j) x).
  - intros [= <- <- <-]. exists []. auto.
  - intros H. destruct (IH _ _ _ _ H) as (pre & -> & E). exists (j :: pre). auto.
Qed.
Lemma invisible_ok f b x : invisible mk dist escapes isAlloc touches stk dom f b x = true ->
  exists bk pre i post p l t V, get b f = Some bk /\ body bk = pre ++ i :: post /\ dst i = x /\ mk (opc i) = MStore t /\ ops i = p :: l /\
    restOk f p t V post (trm bk) /\ forall c, In c V -> okBlock f p t V c.
Proof.
  unfold invisible. destruct (get b f) as [bk|] eqn:Eb; [|discriminate]. destruct (splitAt x (body bk) 0) as [[[k i] post]|] eqn:Es; [|discriminate].
  apply splitAt_ok in Es as (pre & E & Ex). destruct (mk (opc i)) as [|t| | |] eqn:Ek; try discriminate. destruct (ops i) as [|p l] eqn:Eo; [discriminate|].
  destruct (Nat.leb lookahead _); [discriminate|]. destruct (scanL p t post _) as [[[|] n']|] eqn:El; [| |discriminate]; intros H.
  - exists bk, pre, i, post, p, l, t, []. repeat (split; [solve [auto]|]). split; [|contradiction]. eapply scanL_rest; eauto. discriminate.
  - destruct (scanT _ f p (trm bk) ([], n')) as [s'|] eqn:Et; [|discriminate].
    apply (scanT_ok f p t _ _ (into_ok f p t lookahead)) in Et as [[T1 T2] T3]. exists bk, pre, i, post, p, l, t, (fst s').
    repeat (split; [solve [auto]|]). split; [eapply scanL_rest; eauto|]. intros c Hc. destruct (T2 c Hc) as [[]|K]; auto.
Qed.

(** ** removing an instruction set and what stays true *)
Lemma keep_uses u bk x : In x (usesOf (keepBlock u bk)) -> In x (usesOf bk).
Proof.
  unfold usesOf. cbn. rewrite !in_app_iff. unfold phiUses, bodyUses. rewrite !in_flat_map. intros [(y & A & B)|[(y & A & B)|H]]; auto.
  - left. apply filter_In in A as [A _]. eauto.
  - right. left. apply filter_In in A as [A _]. eauto.
Qed.
Lemma keep_avail u f b bk pre x : availAt (keepIn u f) b (keepBlock u bk) (filter (fun i => u (dst i)) pre) x -> u x = true /\ availAt f b bk pre x.
Proof.
  intros [(d & (bkd & A1 & A2) & B & C)|[H|H]].
  - rewrite get_keepIn in A1. destruct (get d f) as [bd|] eqn:Ed; [|discriminate]. injection A1 as <-. apply keep_results in A2 as [A2 A3]. split; auto.
    left. exists d. split; [exists bd; auto|]. split; auto. now apply (keep_dom u f).
  - cbn in H. apply in_map_iff in H as (ph & <- & H). apply filter_In in H as [H1 H2]. split; auto. right. left. now apply in_map.
  - apply in_map_iff in H as (i & <- & H). apply filter_In in H as [H1 H2]. split; auto. right. right. now apply in_map.
Qed.
Definition onlyStores (u : nat -> bool) (f : func) : Prop :=
  forall x, u x = false -> exists b bk i t, get b f = Some bk /\ In i (body bk) /\ mk (opc i) = MStore t /\ dst i = x.
Definition relOk (f : func) (Rel : nat -> block -> list inst -> env -> W -> W -> Prop) : Prop :=
  forall b bk pre e w w', Rel b bk pre e w w' -> forall t a, ld M t a w = None <-> ld M t a w' = None.
Lemma kept f u : einv f -> onlyStores u f -> forall b bk, get b f = Some bk -> forall x, In x (usesOf (keepBlock u bk)) -> u x = true.
Proof.
  intros (_ & _ & _ & _ & _ & _ & SU & _) OS b bk Gb x Hx. destruct (u x) eqn:E; auto. exfalso.
  destruct (OS x E) as (b' & bk' & i & t & G' & Hi & Ek & <-). apply (SU b' bk' i t G' Hi Ek b bk Gb). eapply keep_uses; eauto.
Qed.
Lemma einv_next f u Rel : einv f -> onlyStores u f -> relOk f Rel ->
  (Sim.safe (step m args (keepIn u f)) (start (keepIn u f) w0)) ->
  (forall b bk' pre' e' w', pt (keepIn u f) b bk' pre' e' w' -> exists bk, get b f = Some bk /\ bk' = keepBlock u bk /\
     forall pre post, body bk = pre ++ post -> filter (fun i => u (dst i)) pre = pre' ->
     exists e w, pt f b bk pre e w /\ agree u e e' /\ Rel b bk pre e w w') ->
  einv (keepIn u f).
Proof.
  intros Inv OS RO Sf Pts. pose proof (kept f u Inv OS) as KU. destruct Inv as ((Wf & Ss & Ep) & SepO & TO & SkO & DO & NA & SU & Hs).
  assert (RDk : forall b bk pre e e' p v, agree u e e' -> opAvail (availAt (keepIn u f) b (keepBlock u bk) (filter (fun i => u (dst i)) pre)) p ->
     rd args e' p = Some v -> opAvail (availAt f b bk pre) p /\ rd args e p = Some v).
  { intros b bk pre e e' [c|n|x] v A Av Hv; cbn in *; auto. apply keep_avail in Av as [Ux Av]. split; auto. now rewrite (A x Ux). }
  split; [|split; [|split; [|split; [|split; [|split; [|split]]]]]]; auto.
  - assert (DK : forall b bk, get b f = Some bk -> deadOk (fun _ => KPure) u bk) by (intros b bk Gb; split; auto; eapply KU; eauto).
    destruct (keep_good (fun _ => KPure) u f (conj Wf (conj Ss Ep)) DK) as [_ K]. exact K.
  - intros b bk' pre' e' w' p t q v a a' Hp Ap Aq Rp Rq Lp Lq D. destruct (atPoint_get _ _ _ _ _ _ _ _ _ Hp) as [_ [post' Eb']].
    destruct (Pts _ _ _ _ _ Hp) as (bk & Gb & -> & Q). cbn [keepBlock body] in Eb'.
    apply filter_app_inv in Eb' as (pre & post & Eb & <- & <-). destruct (Q pre post Eb eq_refl) as (e & w & Hp0 & A & HR).
    destruct (RDk _ _ _ _ _ _ _ A Ap Rp) as [Ap0 Rp0]. destruct (RDk _ _ _ _ _ _ _ A Aq Rq) as [Aq0 Rq0].
    refine (SepO b bk pre e w p t q v a a' Hp0 Ap0 Aq0 Rp0 Rq0 _ _ D); intros N; [apply Lp|apply Lq]; exact (proj1 (RO _ _ _ _ _ _ HR _ _) N).
  - intros b bk' pre' i post' e' w' vs p a Hp E Hr Ap Rp Al Tc. destruct (Pts _ _ _ _ _ Hp) as (bk & Gb & -> & Q). cbn [keepBlock body] in E.
    apply filter_split in E as (pre & post & Eb & <- & Ui). destruct (Q pre (i :: post) Eb eq_refl) as (e & w & Hp0 & A & HR).
    destruct (RDk _ _ _ _ _ _ _ A Ap Rp) as [Ap0 Rp0]. eapply (TO b bk pre i post e w vs p a); eauto.
    rewrite <- Hr. apply (rds_agree args u); auto. intros x Hx. apply (KU b bk Gb). apply in_or_app. right. apply in_or_app. left. cbn.
    apply in_flat_map. exists i. split; auto. apply filter_In. split; auto. rewrite Eb. apply in_or_app. right. now left.
  - intros b bk' e' w' p a Hp Ap Rp Hk. destruct (Pts _ _ _ _ _ Hp) as (bk & Gb & -> & Q).
    destruct (Q (body bk) [] ltac:(now rewrite app_nil_r) eq_refl) as (e & w & Hp0 & A & HR).
    destruct (RDk _ _ _ _ _ _ _ A Ap Rp) as [Ap0 Rp0]. eapply (SkO b bk e w p a); eauto.
  - intros a b H. apply (keep_dom u f). auto.
  - intros b bk i t Gb Hi. rewrite get_keepIn in Gb. destruct (get b f) as [bk0|] eqn:E; [|discriminate]. injection Gb as <-. cbn in Hi.
    apply filter_In in Hi as [Hi _]. eapply NA; eauto.
  - intros b bk i t Gb Hi Ek b' bk' Gb'. rewrite get_keepIn in Gb, Gb'. destruct (get b f) as [bk0|] eqn:E; [|discriminate]. injection Gb as <-. cbn in Hi.
    apply filter_In in Hi as [Hi _]. destruct (get b' f) as [bk1|] eqn:E'; [|discriminate]. injection Gb' as <-. intros K. apply keep_uses in K.
    exact (SU b bk0 i t E Hi Ek b' bk1 E' K).
Qed.
(** ** stores of what is there already *)
Notation selfs := (selfAssigns mk dist base same (fun _ => None) (fun _ => None)).
Notation next := (next mk dist base same (fun _ => None) (fun _ => None)).
Notation cacheOf := (cacheOf mk dist base same (fun _ => None) (fun _ => None)).
Lemma selfs_ok l : forall c x, In x (selfs c l) -> exists pre i post t p v r v', l = pre ++ i :: post /\ dst i = x /\ mk (opc i) = MStore t /\
  ops i = p :: v :: r /\ getLast base (fold_left next pre c) p t = Some v' /\ same v' v = true.
Proof.
  induction l as [|i l IH]; intros c x H; [destruct H|]. cbn in H.
  assert (K : In x (selfs (next c i) l) -> exists pre j post t p v r v', i :: l = pre ++ j :: post /\ dst j = x /\ mk (opc j) = MStore t /\
    ops j = p :: v :: r /\ getLast base (fold_left next pre c) p t = Some v' /\ same v' v = true).
  { intros Hx. destruct (IH _ _ Hx) as (pre & j & post & t & p & v & r & v' & -> & A). exists (i :: pre), j, post, t, p, v, r, v'. split; auto. }
  destruct (mk (opc i)) as [t|t|t|nw nr|] eqn:Ek; auto. destruct (ops i) as [|p [|v r]] eqn:Eo; auto.
  destruct (getLast base c p t) as [v'|] eqn:Eg; auto. destruct (same v' v) eqn:Es; auto. destruct H as [<-|H]; auto.
  exists [], i, l, t, p, v, r, v'. auto 10.
Qed.
Lemma dst_unique f b bk b' bk' i i' : uniqueDefs f -> get b f = Some bk -> get b' f = Some bk' -> In i (body bk) -> In i' (body bk') -> dst i = dst i' ->
  b = b' /\ bk = bk' /\ i = i'.
Proof.
  intros U G1 G2 H1 H2 E. assert (b = b').
  { eapply (results_unique f b bk b' bk' (dst i)); eauto; apply in_or_app; right; [|rewrite E]; now apply in_map. }
  subst b'. assert (bk' = bk) by congruence. subst bk'. split; auto. split; auto. pose proof (body_NoDup f b bk U G1) as N.
  apply in_split in H1 as (p1 & p2 & Eb). rewrite Eb in N, H2. apply in_app_or in H2. rewrite map_app in N. cbn in N. destruct H2 as [H2|[H2|H2]]; auto.
  - exfalso. eapply (NoDup_app_disj _ _ N (dst i)); [rewrite E; now apply in_map|now left].
  - exfalso. apply NoDup_app_r in N. inversion N as [|? ? N1 _]; subst. apply N1. rewrite E. now apply in_map.
Qed.
Definition same_view (f g : func) : Prop := refinesAt (vstep m args vE vF f) (vstep m args vE vF g) (start f w0) (start g w0).
Lemma store_evt i t vs w : mk (opc i) = MStore t -> evt m (opc i) vs w = [].
Proof. intros Ek. unfold evt. now rewrite (QO (opc i) t (or_intror Ek)). Qed.
Theorem removeSelf_ok f b : einv f -> same_view f (removeSelf mk dist base same f b) /\ einv (removeSelf mk dist base same f b).
Proof.
  intros Inv. unfold removeSelf. set (u := fun x => negb (inb x (selfOf mk dist base same f b))).
  assert (Us : forall x, u x = false -> exists bk pre i post t p v r v', get b f = Some bk /\ body bk = pre ++ i :: post /\ dst i = x /\ mk (opc i) = MStore t /\
     ops i = p :: v :: r /\ getLast base (cacheOf pre) p t = Some v' /\ same v' v = true).
  { intros x Hx. unfold u in Hx. rewrite negb_false_iff in Hx. apply existsb_In in Hx. unfold selfOf in Hx. destruct (get b f) as [bk|] eqn:Gb; [|destruct Hx].
    apply selfs_ok in Hx as (pre & i & post & t & p & v & r & v' & A). exists bk, pre, i, post, t, p, v, r, v'. split; auto. }
  assert (OS : onlyStores u f).
  { intros x Hx. destruct (Us x Hx) as (bk & pre & i & post & t & p & v & r & v' & Gb & E & Ex & Ek & _). exists b, bk, i, t. split; auto. split; auto.
    rewrite E. apply in_or_app. right. now left. }
  pose proof (kept f u Inv OS) as KU. pose proof Inv as ((Wf & Ss & Ep) & SepO & _ & _ & _ & NA & SU & Hs). assert (U : uniqueDefs f) by apply Wf.
  set (Rel := fun (_ : nat) (_ : block) (_ : list inst) (_ : env) (w w' : W) => w = w').
  assert (H1 : forall bk, get (entry f) f = Some bk -> Rel (entry f) bk [] (fun _ => None) w0 w0) by (intros; reflexivity).
  assert (H2 : forall b bk pre i post e w w' vs, pt f b bk pre e w -> body bk = pre ++ i :: post -> u (dst i) = true ->
    Rel b bk pre e w w' -> rds args e (ops i) = Some vs -> meaning m (opc i) vs w <> IBad ->
    map vE (evt m (opc i) vs w) = map vE (evt m (opc i) vs w') /\
    match meaning m (opc i) vs w with
    | IOk v w1 => exists w1', meaning m (opc i) vs w' = IOk v w1' /\ Rel b bk (pre ++ [i]) (upd e (dst i) v) w1 w1'
    | IHalt w1 => exists w1', meaning m (opc i) vs w' = IHalt w1' /\ vF (Exit w1) = vF (Exit w1')
    | IBad => True
    end).
  { intros b1 bk pre i post e w w' vs _ _ _ HR _ _. unfold Rel in *. subst w'. split; auto. destruct (meaning m (opc i) vs w) as [v w1|w1|]; eauto. }
  assert (H3 : forall b bk pre i post e w w' vs, pt f b bk pre e w -> body bk = pre ++ i :: post -> u (dst i) = false ->
    Rel b bk pre e w w' -> rds args e (ops i) = Some vs -> meaning m (opc i) vs w <> IBad ->
    map vE (evt m (opc i) vs w) = [] /\ exists v w1, meaning m (opc i) vs w = IOk v w1 /\ Rel b bk (pre ++ [i]) (upd e (dst i) v) w1 w').
  { intros b1 bk1 pre1 i1 post1 e w w' vs Hp E1 Hu HR Hr NB. unfold Rel in HR. subst w'. destruct (Us _ Hu) as (bk & pre & i & post & t & p & v & r & v' & Gb & E & Ex & Ek & Eo & Gl & Sm).
    destruct (atPoint_get _ _ _ _ _ _ _ _ _ Hp) as [Gb1 _].
    destruct (dst_unique f b bk b1 bk1 i i1 U Gb Gb1) as (<- & <- & <-); [rewrite E; apply in_or_app; right; now left|rewrite E1; apply in_or_app; right; now left|auto|].
    destruct (split_unique pre pre1 i i post post1) as (<- & _ & _); [rewrite <- E; eapply body_NoDup; eauto|congruence|auto|].
    destruct (getLast_ok m args w0 M mk dist base same (fun _ => None) (fun _ => None) MO MS SO f U Ss SepO) with (b := b) (bk := bk) (pre := pre) (e := e) (w := w) (p := p) (t := t) (v := v')
      as (_ & a & y & R1 & R2 & R3); auto.
    { intros b2 bk2 pre2 e2 w2 _. split; discriminate. }
    apply SO in Sm. subst v'. rewrite Eo in Hr. cbn in Hr. rewrite R1, R2 in Hr. destruct (rds args e r) as [vr|]; [|discriminate]. injection Hr as <-.
    split; [now rewrite (store_evt i t _ w Ek)|]. destruct MS as (_ & M2 & _). destruct MO as (_ & _ & _ & _ & L5). rewrite (M2 _ _ Ek) in NB |- *. destruct vr; [|congruence].
    rewrite (L5 t a y w R3) in *. exists VUndef, w. split; reflexivity. }
  assert (H4 : forall b bk e w w' b' bk' e1, pt f b bk (body bk) e w -> Rel b bk (body bk) e w w' ->
    runTerm args e (trm bk) = TGo b' -> get b' f = Some bk' -> enter args e (Some b) (phis bk') = Some e1 -> Rel b' bk' [] e1 w w') by (intros; assumption).
  assert (H5 : forall b bk e w w' v, pt f b bk (body bk) e w -> Rel b bk (body bk) e w w' ->
    runTerm args e (trm bk) = TFin v -> vF (Ret v w) = vF (Ret v w')) by (intros b1 bk e w w' v _ HR _; unfold Rel in HR; now subst w').
  split; [exact (drop_refines m args w0 vE vF f u Rel Hs KU H1 H2 H3 H4 H5)|].
  apply (einv_next f u Rel Inv OS).
  - intros b1 bk pre e w w' HR t a. unfold Rel in HR. subst w'. reflexivity.
  - exact (drop_safe m args w0 vE vF f u Rel Hs KU H1 H2 H3 H4 H5).
  - exact (drop_points m args w0 vE vF f u Rel Hs KU H1 H2 H3 H4 H5).
Qed.
(** ** stores nobody can see *)
Lemma avail_def f b bk pre x : get b f = Some bk -> (exists post, body bk = pre ++ post) -> availAt f b bk pre x -> exists d, defIn f x d.
Proof.
  intros Gb [post E] [(d & A & _)|[H|H]]; eauto; exists b, bk; split; auto; apply in_or_app; auto. right. rewrite E, map_app. apply in_or_app. auto.
Qed.
Lemma blockOf_some f x d : uniqueDefs f -> NoDup (map fst f) -> blockOf f (ORes x) = Some d -> defIn f x d.
Proof.
  intros U N. cbn. destruct (find _ f) as [[k bk]|] eqn:E; [|discriminate]. intros [= <-]. apply find_some in E as [E1 E2]. cbn in E2. apply existsb_In in E2.
  exists bk. split; auto. now apply In_get.
Qed.
Lemma blockOf_none f x : blockOf f (ORes x) = None -> forall d, ~ defIn f x d.
Proof.
  cbn. destruct (find _ f) as [[k bk]|] eqn:E; [discriminate|]. intros _ d (bk & G & H). apply get_In in G. pose proof (find_none _ _ E _ G) as K. cbn in K.
  assert (T : inb x (resultsOf bk) = true) by now apply existsb_In. congruence.
Qed.
Lemma enter_ne f b' bk' e q e1 x : get b' f = Some bk' -> ~ defIn f x b' -> enter args e q (phis bk') = Some e1 -> e1 x = e x.
Proof.
  intros G N H. unfold enter in H. destruct q as [q|]; [|destruct (phis bk'); [injection H as <-; auto|discriminate]].
  destruct (rdPhis args e q (phis bk')) as [vs|] eqn:E; [|discriminate]. cbn in H. injection H as <-. apply updAll_ne. rewrite (rdPhis_fst _ _ _ _ _ E).
  intros K. apply N. exists bk'. split; auto. apply in_or_app. auto.
Qed.
Theorem dropInvisible_ok f b x : einv f -> invisible mk dist escapes isAlloc touches stk dom f b x = true ->
  let g := keepIn (fun y => negb (Nat.eqb y x)) f in same_view f g /\ einv g.
Proof.
  intros Inv H. cbn zeta. destruct (invisible_ok f b x H) as (bk & pre & i & post & p & l & t & V & Gb & Eb & Ex & Ek & Eo & Rest & Vok).
  set (u := fun y => negb (Nat.eqb y x)).
  assert (Hi : In i (body bk)) by (rewrite Eb; apply in_or_app; right; now left).
  assert (Ux : forall y, u y = false -> y = x) by (intros y Hy; unfold u in Hy; rewrite negb_false_iff in Hy; now apply Nat.eqb_eq in Hy).
  assert (OS : onlyStores u f) by (intros y Hy; apply Ux in Hy; subst y; exists b, bk, i, t; auto).
  pose proof (kept f u Inv OS) as KU. pose proof Inv as ((Wf & Ss & Ep) & SepO & TO & SkO & DO & NA & SU & Hs). assert (U : uniqueDefs f) by apply Wf.
  set (Rel := fun (b1 : nat) (bk1 : block) (pre1 : list inst) (e : env) (w w' : W) => w = w' \/
    exists a post1, rd args e p = Some (VOpq a) /\ differAt t a w w' /\ opAvail (availAt f b1 bk1 pre1) p /\ body bk1 = pre1 ++ post1 /\ restOk f p t V post1 (trm bk1)).
  assert (H1 : forall bk, get (entry f) f = Some bk -> Rel (entry f) bk [] (fun _ => None) w0 w0) by (intros; now left).
  assert (H2 : forall b bk pre i post e w w' vs, pt f b bk pre e w -> body bk = pre ++ i :: post -> u (dst i) = true ->
    Rel b bk pre e w w' -> rds args e (ops i) = Some vs -> meaning m (opc i) vs w <> IBad ->
    map vE (evt m (opc i) vs w) = map vE (evt m (opc i) vs w') /\
    match meaning m (opc i) vs w with
    | IOk v w1 => exists w1', meaning m (opc i) vs w' = IOk v w1' /\ Rel b bk (pre ++ [i]) (upd e (dst i) v) w1 w1'
    | IHalt w1 => exists w1', meaning m (opc i) vs w' = IHalt w1' /\ vF (Exit w1) = vF (Exit w1')
    | IBad => True
    end).
  { intros b1 bk1 pre1 j post1 e w w' vs Hp E1 Hu HR Hr NB. destruct HR as [<-|(a & post2 & Ra & D & Av & E2 & RO)].
    - split; auto. destruct (meaning m (opc j) vs w) as [v w1|w1|]; eauto. exists w1. split; [reflexivity|now left].
    - assert (post2 = j :: post1) by (rewrite E1 in E2; now apply app_inv_head in E2). subst post2. clear E2.
      destruct (atPoint_get _ _ _ _ _ _ _ _ _ Hp) as [Gb1 _]. pose proof (atPoint_reach _ _ _ _ _ _ _ _ _ Hp) as Rc.
      assert (NEXT : forall v w1 w1', restOk f p t V post1 (trm bk1) -> differAt t a w1 w1' -> Rel b1 bk1 (pre1 ++ [j]) (upd e (dst j) v) w1 w1').
      { intros v w1 w1' K1 K2. right. exists a, post1. rewrite (rd_avail args f b1 bk1 pre1 j post1 e v p U Rc Gb1 E1 Av). split; auto. split; auto.
        split; [now apply avail_more|]. split; auto. now rewrite <- app_assoc. }
      assert (BL : restOk f p t V post1 (trm bk1) -> blindTo (opc j) vs t a -> map vE (evt m (opc j) vs w) = map vE (evt m (opc j) vs w') /\
        match meaning m (opc j) vs w with
        | IOk v w1 => exists w1', meaning m (opc j) vs w' = IOk v w1' /\ Rel b1 bk1 (pre1 ++ [j]) (upd e (dst j) v) w1 w1'
        | IHalt w1 => exists w1', meaning m (opc j) vs w' = IHalt w1' /\ vF (Exit w1) = vF (Exit w1')
        | IBad => True
        end).
      { intros K1 K2. destruct (K2 w w' D) as [B1 B2]. split; auto. destruct (meaning m (opc j) vs w) as [v w1|w1|]; auto.
        destruct B2 as (w1' & B3 & B4). exists w1'. auto. }
      assert (AV : forall o, In o (ops j) -> opAvail (availAt f b1 bk1 pre1) o).
      { destruct (Ss b1 bk1 Gb1 Rc) as (S1 & _ & _). specialize (S1 pre1 j post1 E1). rewrite Forall_forall in S1. auto. }
      assert (SEP : forall q k a', dist (p, t) (q, k) = true -> In q (ops j) -> rd args e q = Some (VOpq a') -> ld M k a' w <> None -> apart a (siz M t) a' (siz M k)).
      { intros q k a' Hd Hq Rq Lq. refine (SepO b1 bk1 pre1 e w p t q k a a' Hp Av (AV q Hq) Ra Rq _ Lq (or_introl Hd)). eapply differ_valid; eauto. }
      destruct MS as (M1 & M2 & _ & _ & _). cbn in RO. unfold LdStElim.scanI in RO.
      destruct (mk (opc j)) as [k|k|k|nw nr|] eqn:Kj.
      + (* load *)
        rewrite (M1 _ _ Kj) in NB. rewrite !(M1 _ _ Kj). unfold evt. rewrite (QO (opc j) k (or_introl Kj)). split; auto.
        destruct vs as [|va [|vb vs]]; try (destruct va; congruence); try congruence. destruct va as [z|a'|]; try congruence.
        destruct (ld M k a' w) as [y|] eqn:El; [|congruence]. destruct (ops j) as [|q r] eqn:Eoj; [discriminate|]. cbn in Hr.
        destruct (rd args e q) as [vq|] eqn:Rq; [|discriminate]. destruct (rds args e r); [|discriminate]. injection Hr as -> _.
        destruct (dist (p, t) (q, k)) eqn:Hd; [|destruct RO].
        assert (Ap : apart a (siz M t) a' (siz M k)) by (eapply SEP; eauto; [now left|congruence]).
        rewrite <- (differ_ld t a w w' k a' D), El; [|unfold apart in *; lia]. exists w'. split; auto.
      + (* store *)
        rewrite (M2 _ _ Kj) in NB. rewrite !(M2 _ _ Kj). unfold evt. rewrite (QO (opc j) k (or_intror Kj)). split; auto.
        destruct vs as [|va [|vb [|vc vs]]]; try (destruct va; congruence); try congruence. destruct va as [z|a'|]; try congruence.
        destruct (sto M k a' vb w) as [w1|] eqn:El; [|congruence].
        destruct (ops j) as [|q [|vo r]] eqn:Eoj; [discriminate|cbn in Hr; destruct (rd args e q); discriminate|]. cbn in Hr.
        destruct (rd args e q) as [vq|] eqn:Rq; [|discriminate]. destruct (rd args e vo) as [vv|] eqn:Rv; [|discriminate].
        destruct (rds args e r) as [rr|]; [|discriminate]. injection Hr as -> -> _.
        destruct (escapes (p, t) vo); [destruct RO|]. destruct (opnd_eqb q p && Nat.eqb k t) eqn:Es.
        * apply andb_prop in Es as [Es1 Es2]. apply Nat.eqb_eq in Es2. subst k. destruct (opnd_eqb_spec q p) as [->|]; [|discriminate].
          assert (a' = a) by congruence. subst a'. rewrite <- (differ_sto t a w w' vb D), El. exists w1. split; auto. now left.
        * destruct (dist (p, t) (q, k)) eqn:Hd; [|destruct RO].
          assert (Ap : apart a (siz M t) a' (siz M k)).
          { eapply SEP; eauto; [now left|]. destruct MO as (_ & L2 & _). eapply L2; eauto. }
          destruct (differ_store t a w w' k a' vb w1 D Ap El) as (w1' & -> & D1). exists w1'. auto.
      + exfalso. apply (NA b1 bk1 j k Gb1); auto. rewrite E1. apply in_or_app. right. now left.
      + destruct (isAlloc p) eqn:Ia.
        * destruct (touches j p) eqn:Tj; [destruct RO|]. apply BL; auto. eapply (TO b1 bk1 pre1 j post1 e w vs p a); eauto.
        * destruct nr; [|destruct RO]. apply BL; auto. apply BO. right. eauto.
      + apply BL; [destruct (ops j); exact RO|]. apply BO. now left. }
  assert (H3 : forall b bk pre i post e w w' vs, pt f b bk pre e w -> body bk = pre ++ i :: post -> u (dst i) = false ->
    Rel b bk pre e w w' -> rds args e (ops i) = Some vs -> meaning m (opc i) vs w <> IBad ->
    map vE (evt m (opc i) vs w) = [] /\ exists v w1, meaning m (opc i) vs w = IOk v w1 /\ Rel b bk (pre ++ [i]) (upd e (dst i) v) w1 w').
  { intros b1 bk1 pre1 j post1 e w w' vs Hp E1 Hu HR Hr NB. apply Ux in Hu. destruct (atPoint_get _ _ _ _ _ _ _ _ _ Hp) as [Gb1 _]. pose proof (atPoint_reach _ _ _ _ _ _ _ _ _ Hp) as Rc.
    destruct (dst_unique f b bk b1 bk1 i j U Gb Gb1) as (<- & <- & <-); [auto|rewrite E1; apply in_or_app; right; now left|congruence|].
    destruct (split_unique pre pre1 i i post post1) as (<- & _ & <-); [rewrite <- Eb; eapply body_NoDup; eauto|congruence|auto|].
    destruct (Ss b bk Gb Rc) as (S1 & _ & _). specialize (S1 pre i post Eb). rewrite Forall_forall in S1.
    assert (Av : opAvail (availAt f b bk pre) p) by (apply S1; rewrite Eo; now left).
    rewrite (store_evt i t _ w Ek). split; auto. destruct MS as (_ & M2 & _ & _ & _). rewrite (M2 _ _ Ek) in NB. rewrite (M2 _ _ Ek).
    destruct vs as [|va [|vb [|vc vs]]]; try (destruct va; congruence); try congruence. destruct va as [z|a|]; try congruence.
    destruct (sto M t a vb w) as [w1|] eqn:El; [|congruence].
    rewrite Eo in Hr. cbn in Hr. destruct (rd args e p) as [vp|] eqn:Rp; [|discriminate]. destruct (rds args e l) as [vl|]; [|discriminate]. injection Hr as -> _.
    exists VUndef, w1. split; auto. right. exists a, post. rewrite (rd_avail args f b bk pre i post e VUndef p U Rc Gb Eb Av). split; auto. split.
    { destruct HR as [<-|(a2 & post2 & Ra & D & _)]; [eapply differ_new; eauto|]. assert (a2 = a) by congruence. subst a2. eapply differ_drop; eauto. }
    split; [now apply avail_more|]. split; auto. now rewrite <- app_assoc. }
  assert (H4 : forall b bk e w w' b' bk' e1, pt f b bk (body bk) e w -> Rel b bk (body bk) e w w' ->
    runTerm args e (trm bk) = TGo b' -> get b' f = Some bk' -> enter args e (Some b) (phis bk') = Some e1 -> Rel b' bk' [] e1 w w').
  { intros b1 bk1 e w w' b' bk' e1 Hp HR Et Gb' En. destruct HR as [<-|(a & post2 & Ra & D & Av & E2 & RO)]; [now left|]. right.
    assert (post2 = []). { rewrite <- (app_nil_r (body bk1)) in E2 at 1. now apply app_inv_head in E2. } subst post2. cbn in RO.
    pose proof (runTerm_succs args e (trm bk1) b' Et) as Hsu.
    assert (TO' : targetOk dom f p b' = true /\ In b' V) by (unfold termOk in RO; destruct (trm bk1); try (destruct Hsu; fail); auto).
    destruct TO' as [T1 T2]. destruct (atPoint_get _ _ _ _ _ _ _ _ _ Hp) as [Gb1 _].
    assert (K : rd args e1 p = rd args e p /\ opAvail (availAt f b' bk' []) p).
    { destruct p as [c|n|y]; cbn [rd opAvail]; auto. unfold targetOk in T1. destruct (blockOf f (ORes y)) as [d|] eqn:Ed.
      - assert (Dy : defIn f y d) by (apply blockOf_some; auto; apply Wf). rewrite andb_true_iff, negb_true_iff, Nat.eqb_neq in T1. destruct T1 as [T1 T3]. split.
        + eapply (enter_ne f b' bk'); eauto. intros K. apply T1. eapply defIn_unique; eauto.
        + left. exists d. split; auto.
      - exfalso. destruct (avail_def f b1 bk1 (body bk1) y Gb1) as [d Hd]; auto; [exists []; now rewrite app_nil_r|]. exact (blockOf_none f y Ed d Hd). }
    destruct K as [K1 K2]. exists a, (body bk'). rewrite K1. split; auto. split; auto. split; auto. split; auto. exact (Vok b' T2 bk' Gb'). }
  assert (H5 : forall b bk e w w' v, pt f b bk (body bk) e w -> Rel b bk (body bk) e w w' ->
    runTerm args e (trm bk) = TFin v -> vF (Ret v w) = vF (Ret v w')).
  { intros b1 bk1 e w w' v Hp HR Et. destruct HR as [<-|(a & post2 & Ra & D & Av & E2 & RO)]; [reflexivity|].
    assert (post2 = []). { rewrite <- (app_nil_r (body bk1)) in E2 at 1. now apply app_inv_head in E2. } subst post2. cbn in RO.
    assert (Sk : stk p = true).
    { unfold termOk in RO. clear -RO Et. destruct (trm bk1) as [c|c x y|c cs d|o|]; auto; cbn in Et.
      - discriminate.
      - destruct (rd args e c) as [z|]; [|discriminate]. destruct (truth z) as [[|]|]; discriminate.
      - destruct (rd args e c) as [[z|z|]|]; discriminate. }
    eapply (SkO b1 bk1 e w p a); eauto. }
  split; [exact (drop_refines m args w0 vE vF f u Rel Hs KU H1 H2 H3 H4 H5)|].
  apply (einv_next f u Rel Inv OS).
  - intros b1 bk1 pre1 e w w' [<-|(a & post2 & _ & D & _)] k a'; [reflexivity|]. eapply differ_some; eauto.
  - exact (drop_safe m args w0 vE vF f u Rel Hs KU H1 H2 H3 H4 H5).
  - exact (drop_points m args w0 vE vF f u Rel Hs KU H1 H2 H3 H4 H5).
Qed.
Lemma same_view_trans f g h : same_view f g -> same_view g h -> same_view f h.
Proof. apply refinesAt_trans. Qed.
Lemma same_view_refl f : same_view f f.
Proof. apply refinesAt_refl. Qed.
Lemma removeInvisible_ok f b : einv f -> let g := removeInvisible mk dist escapes isAlloc touches stk dom f b in same_view f g /\ einv g.
Proof.
  intros Hf. cbn zeta. unfold removeInvisible. destruct (get b f) as [bk|]; [|split; auto; apply same_view_refl].
  generalize (rev (map dst (body bk))). clear bk. intros l. revert f Hf. induction l as [|x l IH]; intros f Hf; cbn; [split; auto; apply same_view_refl|].
  destruct (invisible mk dist escapes isAlloc touches stk dom f b x) eqn:E; auto.
  destruct (dropInvisible_ok f b x Hf E) as [A B]. destruct (IH _ B) as [C D]. split; auto. eapply same_view_trans; eauto.
Qed.
Theorem storeEliminate_ok f : einv f -> let g := storeEliminate mk dist base same escapes isAlloc touches stk dom f in same_view f g /\ einv g.
Proof.
  intros Hf. cbn zeta. unfold storeEliminate. generalize (map fst f). intros l. revert f Hf. induction l as [|b l IH]; intros f Hf; cbn; [split; auto; apply same_view_refl|].
  destruct (removeInvisible_ok f b Hf) as [A B]. destruct (removeSelf_ok _ b B) as [C D]. destruct (IH _ D) as [E F]. split; auto.
  eapply same_view_trans; [exact A|]. eapply same_view_trans; [exact C|exact E].
Qed.
End E.
