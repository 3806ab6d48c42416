(** Facts about where pointers point, and how instructions and phis hand them on (proofs, C47). *)
From Coq Require Import ZArith Lia Bool List Arith.
From Verif Require Import Addr AddrProof Sim Ssa SsaCfg SsaMerge SsaFwd SsaWf SsaDom SsaSub SsaEq SsaPhi SsaCse LdStPts LdStProof LdStLoad Alias AliasPts AliasLayout.
Import ListNotations.

Section Inv.
Context {W : Type} (m : sem W) (args : nat -> value) (w0 : W) (f : func).
Variable P : Z.
Variable objs : nat -> option (Z * ty).
Variable pointee : opnd -> option ty.
Hypothesis Hw : wfs f.
Notation pt := (atPoint m args w0 f).
Notation refers := (refers P objs).
Let U : uniqueDefs f := proj1 (proj2 (proj1 Hw)).
Let S : ssa f := proj1 (proj2 Hw).

(** [y] is [p] or is computed before [p] *)
Definition depOk (p : opnd) (D : list nat) : Prop := forall y, In y D -> p = ORes y \/ exists x, p = ORes x /\ before f x y.
(** a region that depends on the results [D] *)
Definition region := env -> nat -> list nat -> Prop.
Definition framed (D : list nat) (R : region) : Prop := forall e e' o q, (forall y, In y D -> e y = e' y) -> R e o q -> R e' o q.
(** wherever [p] is available, what it points to lies in the region *)
Definition inv (p : opnd) (D : list nat) (R : region) : Prop := depOk p D /\
  forall b bk pre e w, pt b bk pre e w -> opAvail (availAt f b bk pre) p ->
  forall v T o q, rd args e p = Some (VOpq v) -> pointee p = Some T -> refers T v o q -> R e o q.

Definition inF (i : inst) : Prop := exists b bk, get b f = Some bk /\ In i (body bk).
Lemma inF_phi i d bk : inF i -> get d f = Some bk -> In (dst i) (map pdst (phis bk)) -> False.
Proof using Hw.
  intros (b & k & G & I) Hd H. assert (E : b = d).
  { eapply (results_unique f b k d bk (dst i) U G Hd); apply in_or_app; [right; now apply in_map|now left]. }
  subst. assert (bk = k) by congruence. subst. eapply phi_body_disj; [eapply (block_NoDup f d k U G)|exact H|now apply in_map].
Qed.
Lemma inF_same i j b bk pre post : inF i -> get b f = Some bk -> body bk = pre ++ j :: post -> dst j = dst i -> j = i.
Proof using Hw.
  intros (b' & k & G & I) Hb E Ed. assert (b' = b).
  { eapply (results_unique f b' k b bk (dst i) U G Hb); apply in_or_app; right; [now apply in_map|]. rewrite E, map_app. apply in_or_app. right. left. auto. }
  subst. assert (bk = k) by congruence. subst. pose proof (block_NoDup f b k U G) as N. unfold resultsOf in N. apply NoDup_app_r in N.
  destruct (in_split _ _ I) as (p1 & p2 & E'). pose proof (defOf_body f (dst i) b k p1 i p2 U G E' eq_refl) as A.
  pose proof (defOf_body f (dst i) b k pre j post U G E Ed) as B. congruence.
Qed.
Lemma inF_def x i : defOf f x = Some i -> inF i /\ dst i = x.
Proof using Hw.
  intros H. destruct (defOf_In f x i H) as (E & b & bk & A & B). split; auto. exists b, bk. split; auto. apply In_get; auto. exact (proj1 U).
Qed.
Lemma inF_defOf i : inF i -> defOf f (dst i) = Some i.
Proof using Hw. intros (b & bk & G & I). destruct (in_split _ _ I) as (p1 & p2 & E). exact (defOf_body f (dst i) b bk p1 i p2 U G E eq_refl). Qed.
Lemma inst_before i y : inF i -> In (ORes y) (ops i) -> before f (dst i) y.
Proof using Hw. intros I H. eapply ops_before; [exact U|exact S|exact (inF_defOf i I)|exact H]. Qed.
(** what comes before an instruction is available at it *)
Lemma before_at i b bk pre post y : get b f = Some bk -> reach f b -> body bk = pre ++ i :: post -> before f (dst i) y -> availAt f b bk pre y.
Proof using Hw.
  intros G R E H. assert (I : In (dst i) (resultsOf bk)). { apply in_or_app. right. rewrite E, map_app. apply in_or_app. right. now left. }
  destruct (H b bk G R I) as [A|[[A _]|(p0 & j & q0 & E0 & Ej & A)]]; [now left| |].
  - exfalso. eapply (inF_phi i b bk); eauto. exists b, bk. split; auto. rewrite E. apply in_or_app. right. now left.
  - right. destruct A as [A|A]; auto. right.
    assert (N : NoDup (map dst (pre ++ i :: post))) by (rewrite <- E; eapply body_NoDup; eauto). rewrite E in E0.
    destruct (split_unique pre p0 i j post q0 N E0 (eq_sym Ej)) as (-> & _ & _). exact A.
Qed.

(** ** instructions *)
Lemma inst_inv i D R : inF i -> depOk (ORes (dst i)) D -> framed D R ->
  (forall b bk pre post e w vs v w', pt b bk pre e w -> body bk = pre ++ i :: post -> rds args e (ops i) = Some vs ->
     meaning m (opc i) vs w = IOk (VOpq v) w' -> forall T o q, pointee (ORes (dst i)) = Some T -> refers T v o q -> R (upd e (dst i) (VOpq v)) o q) ->
  inv (ORes (dst i)) D R.
Proof using Hw.
  intros I Dp Fr H. split; auto. intros b bk pre e w Hp Av.
  refine (one_points m args w0 f (dst i) (fun e => forall v T o q, rd args e (ORes (dst i)) = Some (VOpq v) -> pointee (ORes (dst i)) = Some T -> refers T v o q -> R e o q)
    (filter (fun y => negb (Nat.eqb y (dst i))) D) U _ _ _ _ b bk pre e w Hp Av).
  - intros e1 e2 E K v T o q A B C. apply (Fr e1 e2).
    + intros y Hy. destruct (Nat.eq_dec y (dst i)) as [->|N]; [apply E; now left|]. apply E. right. apply filter_In. split; auto. apply negb_true_iff. now apply Nat.eqb_neq.
    + apply (K v T o q); auto. cbn in *. rewrite <- A. apply E. now left.
  - intros y Hy. apply filter_In in Hy as [Hy N]. apply negb_true_iff, Nat.eqb_neq in N. destruct (Dp y Hy) as [K|(x & K & L)]; [congruence|]. injection K as <-. exact L.
  - intros b0 bk0 p pb e0 w1 vs G _ _ _ K. exfalso. eapply inF_phi; eauto.
  - intros b0 bk0 pre0 j post e0 w1 vs v w' A B C E F v' T o q G. assert (j = i) as -> by (eapply inF_same; eauto; eapply atPoint_get; eauto).
    cbn in G. rewrite upd_eq in G. injection G as ->. eapply H; eauto.
Qed.
(** a result that does not change what came before *)
Lemma upd_before b bk pre i post e w v y : pt b bk pre e w -> body bk = pre ++ i :: post -> before f (dst i) y -> upd e (dst i) v y = e y.
Proof using Hw.
  intros Hp E H. apply upd_ne. destruct (atPoint_get _ _ _ _ _ _ _ _ _ Hp) as [G _]. pose proof (atPoint_reach _ _ _ _ _ _ _ _ _ Hp) as R.
  eapply avail_ne; eauto. eapply before_at; eauto.
Qed.
Lemma op_avail b bk pre i post e w o : pt b bk pre e w -> body bk = pre ++ i :: post -> In o (ops i) -> opAvail (availAt f b bk pre) o.
Proof using Hw.
  intros Hp E H. destruct (atPoint_get _ _ _ _ _ _ _ _ _ Hp) as [G _]. pose proof (atPoint_reach _ _ _ _ _ _ _ _ _ Hp) as R.
  destruct (S b bk G R) as (S1 & _ & _). pose proof (S1 pre i post E) as K. rewrite Forall_forall in K. auto.
Qed.

(** ** inside what another pointer points to *)
Definition inside (b : opnd) : region := fun e o q => exists v T p, rd args e b = Some (VOpq v) /\ pointee b = Some T /\ refers T v o p /\ prefix p q.
Definition strict (b : opnd) : region := fun e o q => exists v T p, rd args e b = Some (VOpq v) /\ pointee b = Some T /\ refers T v o p /\ prefix p q /\ p <> q.
Lemma framed_rd b e e' : (forall y, In y (res_of b) -> e y = e' y) -> rd args e b = rd args e' b.
Proof. destruct b as [c|n|x]; cbn; auto. Qed.
Lemma inside_framed b : framed (res_of b) (inside b).
Proof. intros e e' o q E (v & T & p & A & B & C & D). exists v, T, p. rewrite <- (framed_rd b e e' E). auto. Qed.
Lemma strict_framed b : framed (res_of b) (strict b).
Proof. intros e e' o q E (v & T & p & A & B & C & D). exists v, T, p. rewrite <- (framed_rd b e e' E). auto. Qed.
Lemma strict_inside p b : inv p (res_of b) (strict b) -> inv p (res_of b) (inside b).
Proof.
  intros [A B]. split; auto. intros b0 bk pre e w Hp Av v T o q H1 H2 H3. destruct (B _ _ _ _ _ Hp Av v T o q H1 H2 H3) as (v' & T' & p' & K1 & K2 & K3 & K4 & _).
  exists v', T', p'. auto.
Qed.
Definition upward (R : region) : Prop := forall e o q q', prefix q q' -> R e o q -> R e o q'.
Lemma dep_trans i b D : inF i -> depOk (ORes (dst i)) (res_of b) -> depOk b D -> depOk (ORes (dst i)) D.
Proof using Hw.
  intros I D1 D2 y Hy. destruct (D2 y Hy) as [->|(x & -> & L)].
  - apply D1. now left.
  - right. exists (dst i). split; auto. destruct (D1 x (or_introl eq_refl)) as [K|(x' & K & L')].
    + injection K as ->. exact L.
    + injection K as <-. eapply (before_trans f U); eauto. intros d bk G _ K. eapply inF_phi; eauto.
Qed.
Lemma inv_through i b D R : inF i -> inv (ORes (dst i)) (res_of b) (inside b) -> inv b D R -> upward R -> inv (ORes (dst i)) D R.
Proof using Hw.
  intros I [D1 H1] [D2 H2] Up. split; [eapply dep_trans; eauto|].
  intros b0 bk pre e w Hp Av v T o q K1 K2 K3. destruct (H1 _ _ _ _ _ Hp Av v T o q K1 K2 K3) as (v' & T' & p & L1 & L2 & L3 & L4).
  apply (Up e o p q L4). eapply (H2 b0 bk pre e w Hp); eauto.
  destruct b as [c|n|x]; cbn; auto. destruct (D1 x (or_introl eq_refl)) as [K|(x' & K & L)].
  - injection K as <-. exact Av.
  - injection K as <-. destruct (atPoint_get _ _ _ _ _ _ _ _ _ Hp) as [G [post E]]. eapply (before_avail f (dst i) x b0 bk pre post U L G); eauto. eapply atPoint_reach; eauto.
Qed.

(** ** phis *)
Lemma preds_avail d bk y : get d f = Some bk -> reach f d -> phis bk <> [] ->
  (forall p pb, reach f p -> get p f = Some pb -> In d (succs (trm pb)) -> availOut f p y) -> availIn f d y.
Proof using Hw.
  intros G [l Hl] N H. pose proof (proj2 (proj2 Hw)) as EN.
  assert (Hdom : exists dy, defIn f y dy /\ forall l, path f d l -> In dy (tl l)).
  { inversion Hl as [E1 E2|p l' pb t Hp Hpb Ht E1 E2]; subst; [exfalso; apply N; apply EN; exact G|].
    destruct (H p pb (ex_intro _ _ Hp) Hpb Ht) as (dy & Dy & Dm). exists dy. split; auto. intros l0 Hl0.
    inversion Hl0 as [E1 E2|p0 l0' pb0 t Hp0 Hpb0 Ht0 E1 E2]; [exfalso; apply N; apply EN; subst; exact G|]. subst l0.
    cbn. destruct (H p0 pb0 (ex_intro _ _ Hp0) Hpb0 Ht0) as (dy' & Dy' & Dm'). assert (dy' = dy) by (eapply defIn_unique; eauto). subst. now apply Dm'. }
  destruct Hdom as (dy & Dy & Dm). exists dy. split; auto. split.
  - intros ->. clear -Hl Dm. remember (length l) as n eqn:En. revert l Hl En. induction n as [n IH] using lt_wf_ind. intros l Hl En.
    pose proof (Dm l Hl) as K. inversion Hl as [E1 E2|p l2 pb t Hp Hpb Ht E1 E2]; subst; [destruct K|]. cbn in K.
    destruct (path_split f p l2 d Hp K) as (l1 & l3 & E3 & Hp3 & _). subst l2.
    apply (IH (length l3)) with (l := l3); auto. cbn. rewrite app_length. lia.
  - intros l0 Hl0. pose proof (Dm l0 Hl0) as K. destruct l0; [destruct K|now right].
Qed.
Lemma phi_inv ph d bk D R : get d f = Some bk -> In ph (phis bk) -> framed D R ->
  (forall p o, In (p, o) (inc ph) -> inv o D R /\ pointee o = pointee (ORes (pdst ph))) -> inv (ORes (pdst ph)) D R.
Proof using Hw.
  intros G Iph Fr H. pose proof (phiAll_R f (proj2 (proj2 (proj2 (proj2 (proj1 Hw)))))) as PA.
  assert (Nphi : phis bk <> []) by (intros K; rewrite K in Iph; destruct Iph).
  assert (Ix : In (pdst ph) (map pdst (phis bk))) by (now apply in_map).
  assert (Un : forall d' bk', get d' f = Some bk' -> In (pdst ph) (resultsOf bk') -> d' = d /\ bk' = bk).
  { intros d' bk' G' I'. assert (d' = d) as -> by (eapply (results_unique f d' bk' d bk (pdst ph) U G' G); auto; apply in_or_app; now left). split; congruence. }
  assert (Din : reach f d -> forall y, In y D -> availIn f d y).
  { intros Rd y Hy. eapply preds_avail; eauto. intros p pb Rp Gp Hs. destruct (get p (inc ph)) as [o|] eqn:Eo.
    2:{ exfalso. exact (PA d bk ph p pb Rd Rp G Iph Gp Hs Eo). }
    apply get_In in Eo. destruct (H p o Eo) as [[Do _] _]. destruct (S d bk G Rd) as (_ & _ & S3). pose proof (S3 ph p o Iph Eo Rp) as A.
    destruct (Do y Hy) as [->|(x & -> & L)]; [exact A|]. eapply (before_out f x y p pb U L); eauto. }
  assert (Dp : depOk (ORes (pdst ph)) D).
  { intros y Hy. right. exists (pdst ph). split; auto. intros d' bk' G' R' I'. destruct (Un d' bk' G' I') as [-> ->]. left. auto. }
  split; auto. intros b bk0 pre e w Hp Av.
  refine (one_points m args w0 f (pdst ph) (fun e => forall v T o q, rd args e (ORes (pdst ph)) = Some (VOpq v) -> pointee (ORes (pdst ph)) = Some T -> refers T v o q -> R e o q)
    (filter (fun y => negb (Nat.eqb y (pdst ph))) D) U _ _ _ _ b bk0 pre e w Hp Av).
  - intros e1 e2 E K v T o q A B C. apply (Fr e1 e2).
    + intros y Hy. destruct (Nat.eq_dec y (pdst ph)) as [->|N]; [apply E; now left|]. apply E. right. apply filter_In. split; auto. apply negb_true_iff. now apply Nat.eqb_neq.
    + apply (K v T o q); auto. cbn in *. rewrite <- A. apply E. now left.
  - intros y Hy. apply filter_In in Hy as [Hy N]. apply negb_true_iff, Nat.eqb_neq in N. destruct (Dp y Hy) as [K|(x & K & L)]; [congruence|]. injection K as <-. exact L.
  - intros b1 bk1 p pb e1 w1 vs G1 Hp1 Hs Hr Hx v T o q A B C.
    destruct (Un b1 bk1 G1) as [-> ->]; [apply in_or_app; now left|].
    destruct (atPoint_get _ _ _ _ _ _ _ _ _ Hp1) as [Gp _]. pose proof (atPoint_reach _ _ _ _ _ _ _ _ _ Hp1) as Rp.
    assert (Rd : reach f d). { destruct Rp as [l Rp]. exists (d :: l). eapply path_next; eauto. }
    destruct (rdPhis_val args e1 p (phis bk) vs ph (phis_NoDup f d bk U G) Hr Iph) as (o1 & v1 & E1 & E2 & E3).
    cbn in A. rewrite E3 in A. injection A as ->. apply get_In in E1. destruct (H p o1 E1) as [[_ Ho] Tp].
    apply (Fr e1).
    + intros y Hy. symmetry. apply updAll_ne. rewrite (rdPhis_fst _ _ _ _ _ Hr). intros K. destruct (Din Rd y Hy) as (dy & Dy & Nd & _).
      apply Nd. eapply defIn_unique; eauto. exists bk. split; auto. apply in_or_app. now left.
    + refine (Ho p pb (body pb) e1 w1 Hp1 _ v T o q E2 _ C); [|congruence].
      destruct (S d bk G Rd) as (_ & _ & S3). pose proof (S3 ph p o1 Iph E1 Rp) as Ao. destruct o1 as [c|n|x]; cbn in *; auto. now apply (availOut_at f p pb).
  - intros b1 bk1 pre1 j post e1 w1 vs v w' A B C E F. exfalso. destruct (atPoint_get _ _ _ _ _ _ _ _ _ A) as [Gb _].
    eapply (inF_phi j d bk); [exists b1, bk1; split; auto; rewrite B; apply in_or_app; right; now left|exact G|rewrite C; exact Ix].
Qed.
End Inv.
