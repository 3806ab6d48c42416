(** Passes over the values of the SSA form: the statements for C34 (redundancy and dead code) and C36 (global value numbering).
    [wfs f]: [f] is well formed (SsaWf.v), every operand is available where it is read (SsaDom.v [ssa]) and the entry block has no phi.
    [refines knd f g] (Ssa.v): whatever the opcodes mean, for all arguments and initial memories, if the run of [f] has no undefined
    behaviour then [g] ends with the same value and memory, shows the same calls, and runs for ever if and only if [f] does. *)
From Coq Require Import ZArith Lia Bool List Arith.
From Verif Require Import Sim Ssa SsaCfg SsaMerge SsaFwd SsaFwd2 SsaWf SsaDom SsaProps SsaSub SsaVerify SsaEq SsaPhi SsaCse SsaDce SsaIns SsaGvn.
Import ListNotations.

Theorem C34_simpleCSE knd f : wfs f -> refines knd f (simpleCSE knd f) /\ wfs (simpleCSE knd f).
Proof. exact (simpleCSE_ok knd f). Qed.
(** for any grouping of the phis into components *)
Theorem C34_phiEliminate knd sccs f : wfs f -> refines knd f (phiEliminate sccs f) /\ wfs (phiEliminate sccs f).
Proof. exact (phiEliminate_ok knd sccs f). Qed.
Theorem C34_reduceConstantPhis knd order f : wfs f -> refines knd f (reduceConstantPhis order f) /\ wfs (reduceConstantPhis order f).
Proof. exact (reduceConstantPhis_ok knd order f). Qed.
Theorem C34_noSideEffectEliminate knd f : wfs f -> refines knd f (noSideEffectEliminate knd f) /\ wfs (noSideEffectEliminate knd f).
Proof. exact (noSideEffectEliminate_ok knd f). Qed.
Theorem C34_cleanupUnusedInsts knd hasVal f : wfs f -> refines knd f (cleanupUnused knd hasVal f) /\ wfs (cleanupUnused knd hasVal f).
Proof. exact (cleanupUnused_ok knd hasVal f). Qed.

(** ** nothing that is not needed survives NoSideEffectEliminate *)
(** the values a store, a call with effects or a terminator needs, directly or through other values *)
Inductive live (knd : nat -> kind) (f : func) : nat -> Prop :=
| live_sink b bk i : get b f = Some bk -> In i (body bk) -> (knd (opc i) = KStore \/ exists s n, knd (opc i) = KCall false s n) -> live knd f (dst i)
| live_term b bk x : get b f = Some bk -> In (ORes x) (termOps (trm bk)) -> live knd f x
| live_inst b bk i x : get b f = Some bk -> In i (body bk) -> live knd f (dst i) -> In (ORes x) (ops i) -> live knd f x
| live_phi b bk ph p x : get b f = Some bk -> In ph (phis bk) -> live knd f (pdst ph) -> In (p, ORes x) (inc ph) -> live knd f x.
Lemma res_of_In x o : In x (res_of o) <-> o = ORes x.
Proof. destruct o; cbn; split; try tauto; try discriminate; [intros [->|[]]; auto|intros [= ->]; auto]. Qed.
Lemma isSink_iff knd i : isSink knd i = true <-> (knd (opc i) = KStore \/ exists s n, knd (opc i) = KCall false s n).
Proof.
  unfold isSink. destruct (knd (opc i)) as [ | | | | |[|] s n]; split; try discriminate; auto; try (intros [H|(? & ? & H)]; discriminate). eauto.
Qed.
Lemma needed_live knd f x : uniqueDefs f -> needed knd f x -> live knd f x.
Proof.
  intros U. induction 1 as [b bk i Hb Hi Hs|b bk x Hb Hx|x y _ IH Hx].
  - eapply live_sink; eauto. now apply isSink_iff.
  - apply in_flat_map in Hx as (o & Ho & Hx). apply res_of_In in Hx. subst o. eapply live_term; eauto.
  - cbn in Hx. apply in_flat_map in Hx as ([b bk] & Hb & Hx). apply In_get in Hb; [|apply U]. cbn in Hx. apply in_app_or in Hx as [Hx|Hx].
    + apply in_flat_map in Hx as (ph & Hp & Hx). apply filter_In in Hp as [Hp Ep]. apply Nat.eqb_eq in Ep. subst y.
      apply in_flat_map in Hx as ([p o] & Hi & Hx). apply res_of_In in Hx. cbn in Hx. subst o. eapply live_phi; eauto.
    + apply in_flat_map in Hx as (i & Hi & Hx). apply filter_In in Hi as [Hi Ei]. apply Nat.eqb_eq in Ei. subst y.
      apply in_flat_map in Hx as (o & Ho & Hx). apply res_of_In in Hx. subst o. eapply live_inst; eauto.
Qed.
Lemma live_used knd f x : live knd f x -> In x (usedBySinks knd f).
Proof.
  destruct (usedBySinks_ok knd f) as (U1 & U2 & U3). induction 1 as [b bk i Hb Hi Hs|b bk x Hb Hx|b bk i x Hb Hi _ IH Hx|b bk ph p x Hb Hp _ IH Hx].
  - eapply U3; eauto. now apply isSink_iff.
  - eapply U2; eauto. apply in_flat_map. exists (ORes x). split; auto. now left.
  - apply (U1 _ IH). cbn. apply in_flat_map. exists (b, bk). split; [now apply get_In|]. apply in_or_app. right. apply in_flat_map. exists i. split.
    + apply filter_In. split; auto. apply Nat.eqb_refl.
    + apply in_flat_map. exists (ORes x). split; auto. now left.
  - apply (U1 _ IH). cbn. apply in_flat_map. exists (b, bk). split; [now apply get_In|]. apply in_or_app. left. apply in_flat_map. exists ph. split.
    + apply filter_In. split; auto. apply Nat.eqb_refl.
    + apply in_flat_map. exists (p, ORes x). split; auto. now left.
Qed.
(** what is left of a block is exactly what is live *)
Theorem C34_noSideEffectEliminate_exact knd f b bk : uniqueDefs f -> get b f = Some bk ->
  exists bk', get b (noSideEffectEliminate knd f) = Some bk' /\ trm bk' = trm bk /\
    (forall i, In i (body bk') <-> In i (body bk) /\ live knd f (dst i)) /\
    (forall ph, In ph (phis bk') <-> In ph (phis bk) /\ live knd f (pdst ph)).
Proof.
  intros U Hb. assert (L : forall x, inb x (usedBySinks knd f) = true <-> live knd f x).
  { intros x. rewrite inb_iff. split; [|apply live_used]. intros H. apply needed_live; auto. now apply usedBySinks_needed. }
  exists (keepBlock (fun x => inb x (usedBySinks knd f)) bk). split.
  - unfold noSideEffectEliminate, keepIn. cbn zeta. generalize (usedBySinks knd f). intros u. clear -Hb. induction f as [|[k c] f IH]; cbn in *; [discriminate|]. destruct (Nat.eqb k b); [congruence|auto].
  - split; auto. split; intros; cbn; rewrite filter_In, L; tauto.
Qed.

(** ** C36: global value numbering *)
(** [order]: the blocks in the order of the dominator analysis.  What is asked of that analysis: the order lists the reachable blocks, a
    common ancestor dominates both blocks, and [domOf] is only true of dominators.  Frequencies and the target's native opcodes are free. *)
Theorem C36_gvn knd E order f : wfs f ->
  (forall b, In b order <-> reach f b) ->
  (forall a b, reach f a -> reach f b -> dominates f (lcaOf E a b) a /\ dominates f (lcaOf E a b) b) ->
  (forall a b, domOf E a b = true -> reach f b -> dominates f a b) ->
  refines knd f (gvn knd E order f) /\ wfs (gvn knd E order f).
Proof. intros Hf Ho Hl Hd. exact (gvn_good knd E order f Hf Ho Hl Hd). Qed.
(** every movable instruction of a reachable block gets a number *)
Theorem C36_numbers_total knd order f : wfs f -> (forall b, In b order -> reach f b) ->
  exists t n, numberAll knd order f = Some (t, n) /\
    forall b bk i, In b order -> get b f = Some bk -> In i (body bk) -> isMovable knd (opc i) = true -> numOf t (ORes (dst i)) <> None.
Proof.
  intros Hf Ho. pose proof (numberAll_enough knd order f Hf Ho) as H. destruct (numberAll knd order f) as [[t n]|] eqn:E; [|congruence].
  exists t, n. split; auto. destruct (numberAll_ok knd order f _ E) as [_ K]. intros b bk i Hb Eb Hi Hm. apply K. unfold visited. apply in_flat_map. exists b.
  split; auto. rewrite Eb. apply in_map. now apply filter_In.
Qed.

(** equal numbers mean equal values: whenever a run is about to leave block [p] for the block [cur s], two values that are available
    at the end of [p] and carry the same number are equal *)
Theorem C36_equal_numbers knd order f t n k x y : wfs f -> numberAll knd order f = Some (t, n) ->
  numOf t (ORes x) = Some k -> numOf t (ORes y) = Some k ->
  forall (W : Type) (m : sem W) args w s p, okSem knd m -> reaches m args f w s -> prev s = Some p ->
  availOut f p x -> availOut f p y -> en s x = en s y.
Proof.
  intros Hf Hnum Hx Hy W m args w s p OK Hr Hp Ax Ay. assert (U : uniqueDefs f) by apply Hf. assert (S : ssa f) by apply Hf.
  destruct (numberAll_ok knd order f _ Hnum) as [[Hc _] _]. pose proof (congr_eqv knd f t Hc k _ _ Hx Hy) as He.
  assert (I : hist f s /\ factsIn f (eqn m args knd f) s).
  { refine (reaches_inv m args f w s (fun s => hist f s /\ factsIn f (eqn m args knd f) s) _ _ Hr).
    - split; [apply hist_start|apply facts_start].
    - intros s1 s2 t1 [H1 H2] Hs. split; [eapply hist_step; eauto|].
      exact (facts_step m args f (eqn m args knd f) (eqnD f) U (eqn_frame m args knd f) (eqn_dep f U S) (eqn_phi m args knd f U) (eqn_body m args knd f U S) s1 s2 t1 H1 H2 Hs). }
  destruct I as [H1 H2]. unfold factsIn in H2. rewrite Hp in H2. destruct (hist_prev f s p H1 Hp) as (Rp & pb & Hpb & _).
  assert (Q : rd args (en s) (ORes x) = rd args (en s) (ORes y)).
  { apply (eqv_rd m args knd f OK U S (availOut f p) (en s)); auto. intros u v Hu Bf. eapply before_out; eauto. }
  exact Q.
Qed.

(** ** any sequence of these passes *)
Inductive valuePass (knd : nat -> kind) (f : func) : func -> Prop :=
| vp_cse : valuePass knd f (simpleCSE knd f)
| vp_phi sccs : valuePass knd f (phiEliminate sccs f)
| vp_const order : valuePass knd f (reduceConstantPhis order f)
| vp_dead : valuePass knd f (noSideEffectEliminate knd f)
| vp_cleanup hasVal : valuePass knd f (cleanupUnused knd hasVal f)
| vp_gvn E order : (forall b, In b order <-> reach f b) ->
    (forall a b, reach f a -> reach f b -> dominates f (lcaOf E a b) a /\ dominates f (lcaOf E a b) b) ->
    (forall a b, domOf E a b = true -> reach f b -> dominates f a b) -> valuePass knd f (gvn knd E order f).
Inductive valuePasses (knd : nat -> kind) : func -> func -> Prop :=
| vps_nil f : valuePasses knd f f
| vps_cons f g h : valuePass knd f g -> valuePasses knd g h -> valuePasses knd f h.
Theorem C34_any_sequence knd f g : wfs f -> valuePasses knd f g -> refines knd f g /\ wfs g.
Proof.
  intros Hf H. induction H as [f|f g h Hp _ IH]; [split; auto; apply refines_refl|].
  assert (K : refines knd f g /\ wfs g).
  { destruct Hp; [now apply C34_simpleCSE|now apply C34_phiEliminate|now apply C34_reduceConstantPhis|now apply C34_noSideEffectEliminate|
      now apply C34_cleanupUnusedInsts|now apply C36_gvn]. }
  destruct K as [K1 K2]. destruct (IH K2) as [A B]. split; auto. eapply refines_trans; eauto.
Qed.

(** ** a function that meets the hypotheses *)
(** two copies of a sum in block 0, the same product of them in both arms, phis that repeat each other, and dead code *)
Definition exD : func :=
  [(0, Block [] [Inst 10 0 [OArg 0; OCst (VInt 1)]; Inst 11 0 [OArg 0; OCst (VInt 1)]; Inst 12 4 [OArg 0; OCst (VInt 7)]] (TCond (ORes 12) 1 2));
   (1, Block [] [Inst 13 0 [ORes 10; ORes 11]] (TBr 3));
   (2, Block [] [Inst 14 0 [ORes 11; ORes 10]] (TBr 3));
   (3, Block [Phi 15 [(1, ORes 13); (2, ORes 14)]; Phi 16 [(1, ORes 10); (2, ORes 10)]] [Inst 17 2 [ORes 15]; Inst 18 0 [ORes 16; ORes 15]] (TRet (Some (ORes 15))))]%nat.
Example exD_wfs : wfs exD.
Proof.
  assert (Hw : wf exD) by (apply wfb_ok; vm_compute; reflexivity). split; [exact Hw|]. destruct Hw as (Hn & U & Hc & R). split.
  - apply (verify_sound (domb exD) (rchb exD)); [now apply domb_ok| |vm_compute; reflexivity].
    apply phiReach_all. apply (allReach_dec exD Hc Hn). vm_compute. reflexivity.
  - intros bk [= <-]. reflexivity.
Qed.
Definition exE : gvnEnv := GvnEnv (fun a b => if Nat.eqb a b then a else 0%nat) (domb exD) (fun _ _ => true) (fun _ => true).
Example exE_ok : (forall b, In b [0; 1; 2; 3]%nat <-> reach exD b) /\
  (forall a b, reach exD a -> reach exD b -> dominates exD (lcaOf exE a b) a /\ dominates exD (lcaOf exE a b) b) /\
  (forall a b, domOf exE a b = true -> reach exD b -> dominates exD a b).
Proof.
  destruct exD_wfs as ((Hn & U & Hc & _) & _). pose proof (domb_ok exD Hc Hn) as [DR DD].
  assert (RR : forall b, In b [0; 1; 2; 3]%nat <-> reach exD b).
  { intros b. rewrite <- DR. split.
    - intros H. repeat destruct H as [<-|H]; try (vm_compute; reflexivity). destruct H.
    - intros H. unfold rchb in H. apply inb_iff in H. vm_compute in H. cbn. tauto. }
  split; auto. split.
  - assert (Z : forall b, reach exD b -> dominates exD 0%nat b).
    { intros b Hb. apply RR in Hb. apply DD. repeat destruct Hb as [<-|Hb]; try (vm_compute; reflexivity). destruct Hb. }
    intros a b Ra Rb. cbn. destruct (Nat.eqb_spec a b) as [->|]; [split; apply dominates_refl|]. auto.
  - intros a b H _. now apply DD.
Qed.
Example exD_gvn : gvn exKnd exE [0; 1; 2; 3]%nat exD =
  [(0, Block [] [Inst 10 0 [OArg 0; OCst (VInt 1)]; Inst 11 0 [OArg 0; OCst (VInt 1)]; Inst 12 4 [OArg 0; OCst (VInt 7)]; Inst 19 0 [ORes 10; ORes 10]] (TCond (ORes 12) 1 2));
   (1, Block [] [Inst 13 0 [ORes 10; ORes 10]] (TBr 3));
   (2, Block [] [Inst 14 0 [ORes 10; ORes 10]] (TBr 3));
   (3, Block [Phi 15 [(1, ORes 19); (2, ORes 19)]; Phi 16 [(1, ORes 10); (2, ORes 10)]] [Inst 17 2 [ORes 15]; Inst 18 0 [ORes 16; ORes 15]] (TRet (Some (ORes 15))))]%nat.
Proof. vm_compute. reflexivity. Qed.
Example exD_cleaned : noSideEffectEliminate exKnd (reduceConstantPhis [0; 1; 2; 3]%nat (gvn exKnd exE [0; 1; 2; 3]%nat exD)) =
  [(0, Block [] [Inst 10 0 [OArg 0; OCst (VInt 1)]; Inst 12 4 [OArg 0; OCst (VInt 7)]; Inst 19 0 [ORes 10; ORes 10]] (TCond (ORes 12) 1 2));
   (1, Block [] [] (TBr 3));
   (2, Block [] [] (TBr 3));
   (3, Block [] [Inst 17 2 [ORes 19]] (TRet (Some (ORes 19))))]%nat.
Proof. vm_compute. reflexivity. Qed.
Example exD_sequence : valuePasses exKnd exD (noSideEffectEliminate exKnd (reduceConstantPhis [0; 1; 2; 3]%nat (gvn exKnd exE [0; 1; 2; 3]%nat exD))).
Proof.
  destruct exE_ok as (A & B & C). eapply vps_cons; [apply (vp_gvn exKnd exD exE [0; 1; 2; 3]%nat A B C)|].
  eapply vps_cons; [apply vp_const|]. eapply vps_cons; [apply vp_dead|]. apply vps_nil.
Qed.
(** CSE in one block *)
Example exD_cse : get 0%nat (simpleCSE exKnd exD) = Some (Block [] [Inst 10 0 [OArg 0; OCst (VInt 1)]; Inst 11 0 [OArg 0; OCst (VInt 1)]; Inst 12 4 [OArg 0; OCst (VInt 7)]] (TCond (ORes 12) 1 2))%nat
  /\ get 1%nat (simpleCSE exKnd exD) = Some (Block [] [Inst 13 0 [ORes 10; ORes 10]] (TBr 3))%nat.
Proof. vm_compute. auto. Qed.
