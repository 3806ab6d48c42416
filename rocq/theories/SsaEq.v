(** Values with equal defining expressions: what common-subexpression elimination and value numbering rely on. *)
From Coq Require Import ZArith Lia Bool List Arith.
From Verif Require Import Sim Ssa SsaCfg SsaMerge SsaFwd SsaFwd2 SsaDom SsaSub.
Import ListNotations.

(** the instruction (not phi) that computes [x] *)
Definition defOf (f : func) (x : nat) : option inst := find (fun i => Nat.eqb (dst i) x) (flat_map (fun b => body (snd b)) f).
(** cmmc/Transforms/Util/BlockUtil.cpp:125-148 isNoSideEffectExpr and 156-174 isMovableExpr, relaxedCtx = false *)
Definition isMovable (knd : nat -> kind) (o : nat) : bool :=
  match knd o with KPure | KDiv => true | KCall ns st nr => ns && st && negb nr | _ => false end.
Lemma movable_sem {W} knd (m : sem W) o : okSem knd m -> isMovable knd o = true ->
  exists g, forall a w, meaning m o a w = match g a with Some v => IOk v w | None => IBad end.
Proof.
  intros (H1 & H2 & _ & _ & _ & _ & H7 & _) H. unfold isMovable in H. destruct (knd o) as [| | | | |ns st nr] eqn:E; try discriminate.
  - destruct (H1 o E) as [g Hg]. exists (fun a => Some (g a)). exact Hg.
  - exact (H2 o E).
  - destruct ns, st, nr; try discriminate. exact (H7 o false E).
Qed.

Lemma defOf_In f x i : defOf f x = Some i -> dst i = x /\ exists b bk, In (b, bk) f /\ In i (body bk).
Proof.
  unfold defOf. intros H. apply find_some in H as [H1 H2]. apply Nat.eqb_eq in H2. split; auto.
  apply in_flat_map in H1 as ([b bk] & H1 & H3). eauto.
Qed.
Lemma defOf_block f x i d bk : uniqueDefs f -> defOf f x = Some i -> get d f = Some bk -> In x (resultsOf bk) ->
  dst i = x /\ exists pre post, body bk = pre ++ i :: post.
Proof.
  intros U H Hd Hx. destruct (defOf_In f x i H) as (E & b & bk' & Hin & Hi). split; auto.
  assert (Hb : get b f = Some bk') by (apply In_get; [apply U|auto]).
  assert (b = d).
  { eapply (results_unique f b bk' d bk x U Hb Hd); auto. apply in_or_app. right. rewrite <- E. now apply in_map. }
  subst. assert (bk' = bk) by congruence. subst. apply in_split in Hi as (pre & post & Hi). eauto.
Qed.
Lemma defOf_body f x b bk pre i post : uniqueDefs f -> get b f = Some bk -> body bk = pre ++ i :: post -> dst i = x -> defOf f x = Some i.
Proof.
  intros U Hb E Hx. destruct (defOf f x) as [j|] eqn:Ej.
  - destruct (defOf_block f x j b bk U Ej Hb) as (Ej' & pre' & post' & E').
    + apply in_or_app. right. rewrite E, map_app. apply in_or_app. right. left. auto.
    + f_equal. assert (N := block_NoDup f b bk U Hb). unfold resultsOf in N.
      assert (Nb : NoDup (map dst (body bk))) by (clear -N; induction (map pdst (phis bk)); auto; inversion N; auto).
      rewrite E in E'. rewrite E in Nb. assert (Hj : In j (pre ++ i :: post)) by (rewrite E'; apply in_or_app; right; now left).
      clear -Nb Hj Hx Ej'. revert Nb Hj. induction pre as [|k pre IH]; cbn; intros Nb Hj; inversion Nb as [|? ? N1 N2]; subst.
      * destruct Hj as [Hj|Hj]; auto. exfalso. apply N1. rewrite <- Ej'. now apply in_map.
      * destruct Hj as [Hj|Hj]; [|auto]. exfalso. subst k. apply N1. rewrite Ej', map_app. apply in_or_app. right. now left.
  - exfalso. unfold defOf in Ej. pose proof (find_none _ _ Ej i) as K. cbn in K. rewrite Hx, Nat.eqb_refl in K.
    assert (true = false); [|discriminate]. apply K. apply in_flat_map. exists (b, bk). split; [now apply get_In|]. cbn. rewrite E.
    apply in_or_app. right. now left.
Qed.
Lemma defOf_phi f x b bk : uniqueDefs f -> get b f = Some bk -> In x (map pdst (phis bk)) -> defOf f x = None.
Proof.
  intros U Hb Hx. destruct (defOf f x) as [i|] eqn:E; auto. exfalso.
  destruct (defOf_block f x i b bk U E Hb) as (E1 & pre & post & E2); [apply in_or_app; now left|].
  apply (phi_body_disj bk x (block_NoDup f b bk U Hb) Hx). rewrite E2, map_app. apply in_or_app. right. now left.
Qed.

(** [z] is available where [x] is defined *)
Definition before (f : func) (x z : nat) : Prop := forall d bk, get d f = Some bk -> reach f d -> In x (resultsOf bk) ->
  availIn f d z \/ (In x (map pdst (phis bk)) /\ In z (map pdst (phis bk))) \/
  (exists pre i post, body bk = pre ++ i :: post /\ dst i = x /\ (In z (map pdst (phis bk)) \/ In z (map dst pre))).
(** ... then wherever [x] is available *)
Lemma before_avail f x z b bk pre post : uniqueDefs f -> before f x z -> get b f = Some bk -> reach f b -> body bk = pre ++ post ->
  availAt f b bk pre x -> availAt f b bk pre z.
Proof.
  intros U Bf Hb [l R] E H. pose proof (block_NoDup f b bk U Hb) as N. destruct H as [H|H].
  - left. destruct H as (d & (kd & Hd & Hx) & Nd & Hdom). pose proof (dom_reach _ _ _ _ R Hdom) as Rd.
    destruct (Bf d kd Hd Rd Hx) as [(d' & Hz & Nd' & Hdom')|K].
    + exists d'. split; auto. split; [|eapply dominates_trans; eauto]. intros ->. eapply (no_mutual f d b); eauto.
    + exists d. split; auto. exists kd. split; auto. apply in_or_app. destruct K as [[_ K]|(p0 & i & q0 & E0 & _ & [K|K])]; auto.
      right. rewrite E0, map_app. apply in_or_app. now left.
  - assert (Hx : In x (resultsOf bk)).
    { apply in_or_app. destruct H as [H|H]; auto. right. rewrite E, map_app. apply in_or_app. now left. }
    destruct (Bf b bk Hb (ex_intro _ l R) Hx) as [K|[[_ K]|(p0 & i & q0 & E0 & Ei & K)]].
    + now left.
    + right. now left.
    + right. destruct K as [K|K]; auto. right. destruct H as [H|H].
      * exfalso. apply (phi_body_disj bk x N H). rewrite E0, map_app. apply in_or_app. right. left. auto.
      * assert (Nb : NoDup (map dst (body bk))) by (unfold resultsOf in N; clear -N; induction (map pdst (phis bk)); auto; inversion N; auto).
        destruct post as [|j post].
        -- rewrite app_nil_r in E. rewrite <- E, E0, map_app. apply in_or_app. now left.
        -- rewrite E in E0, Nb. symmetry in E0. subst x. exact (split_before p0 i q0 pre j post Nb E0 H z K).
Qed.
Lemma before_out f x z p pb : uniqueDefs f -> before f x z -> get p f = Some pb -> reach f p -> availOut f p x -> availOut f p z.
Proof.
  intros U Bf Hp R H. apply (availOut_at f p pb z Hp). apply (availOut_at f p pb x Hp) in H.
  eapply (before_avail f x z p pb (body pb) []); eauto. now rewrite app_nil_r.
Qed.
(** the operands of the instruction that computes [x] are before it *)
Lemma ops_before f x i y : uniqueDefs f -> ssa f -> defOf f x = Some i -> In (ORes y) (ops i) -> before f x y.
Proof.
  intros U S H Hy d bk Hd R Hx. destruct (defOf_block f x i d bk U H Hd Hx) as (E1 & pre & post & E2).
  destruct (S d bk Hd R) as (S1 & _ & _). specialize (S1 pre i post E2). rewrite Forall_forall in S1. specialize (S1 _ Hy). cbn in S1.
  destruct S1 as [S1|S1]; [now left|]. right. right. exists pre, i, post. auto.
Qed.

Lemma rds_ext args e e' l : (forall y, In y (flat_map res_of l) -> e y = e' y) -> rds args e l = rds args e' l.
Proof.
  induction l as [|o l IH]; intros H; auto. cbn. rewrite IH by (intros y Hy; apply H; apply in_or_app; now right).
  replace (rd args e' o) with (rd args e o); auto. destruct o as [c|n|x]; cbn; auto. apply H. cbn. now left.
Qed.

Section Equations.
Context {W : Type} (m : sem W) (args : nat -> value) (knd : nat -> kind) (f : func).
Hypothesis OK : okSem knd m.
Hypothesis U : uniqueDefs f.
Hypothesis S : ssa f.

(** the equation of [x] holds *)
Definition eqn (x : nat) (e : env) : Prop := forall i, defOf f x = Some i -> isMovable knd (opc i) = true ->
  exists vs v w w', rds args e (ops i) = Some vs /\ e x = Some v /\ meaning m (opc i) vs w = IOk v w'.
Definition eqnD (x : nat) : list nat := match defOf f x with Some i => flat_map res_of (ops i) | None => [] end.
Lemma eqn_frame : forall x e e', (forall y, y = x \/ In y (eqnD x) -> e y = e' y) -> eqn x e -> eqn x e'.
Proof.
  intros x e e' H K i Hi Hm. destruct (K i Hi Hm) as (vs & v & w & w' & A & B & C). exists vs, v, w, w'. split; [|split]; auto.
  - rewrite <- A. symmetry. apply rds_ext. intros y Hy. apply H. right. unfold eqnD. now rewrite Hi.
  - rewrite <- (H x); auto.
Qed.
Lemma res_of_In y l : In y (flat_map res_of l) -> In (ORes y) l.
Proof. intros H. apply in_flat_map in H as ([c|n|x] & H1 & H2); try destruct H2 as [->|[]]; auto; destruct H2. Qed.
Lemma eqn_dep : forall x d bk y, get d f = Some bk -> reach f d -> In x (resultsOf bk) -> In y (eqnD x) ->
  availIn f d y \/ (In x (map pdst (phis bk)) /\ In y (map pdst (phis bk))) \/
  (exists pre i post, body bk = pre ++ i :: post /\ dst i = x /\ (In y (map pdst (phis bk)) \/ In y (map dst pre))).
Proof.
  intros x d bk y Hd R Hx Hy. unfold eqnD in Hy. destruct (defOf f x) as [i|] eqn:E; [|destruct Hy].
  apply res_of_In in Hy. exact (ops_before f x i y U S E Hy d bk Hd R Hx).
Qed.
Lemma eqn_phi : forall b bk p pb e vs, get b f = Some bk -> reach f p -> get p f = Some pb -> In b (succs (trm pb)) ->
  (forall x, availOut f p x -> eqn x e) -> rdPhis args e p (phis bk) = Some vs ->
  forall x, In x (map pdst (phis bk)) -> eqn x (updAll e vs).
Proof. intros b bk p pb e vs Hb _ _ _ _ _ x Hx i Hi. rewrite (defOf_phi f x b bk U Hb Hx) in Hi. discriminate. Qed.
Lemma eqn_body : forall b bk pre i post e w vs v w', get b f = Some bk -> reach f b -> body bk = pre ++ i :: post ->
  (forall x, availAt f b bk pre x -> eqn x e) -> rds args e (ops i) = Some vs -> meaning m (opc i) vs w = IOk v w' ->
  eqn (dst i) (upd e (dst i) v).
Proof.
  intros b bk pre i post e w vs v w' Hb R E _ Hr Hm j Hj Hmv.
  rewrite (defOf_body f (dst i) b bk pre i post U Hb E eq_refl) in Hj. injection Hj as <-.
  exists vs, v, w, w'. split; [|split].
  - rewrite <- Hr. apply rds_ext. intros y Hy. apply upd_ne. intros ->. apply res_of_In in Hy.
    destruct (S b bk Hb R) as (S1 & _ & _). specialize (S1 pre i post E). rewrite Forall_forall in S1. specialize (S1 _ Hy). cbn in S1.
    pose proof (block_NoDup f b bk U Hb) as N. destruct S1 as [(d & Hd & Nd & _)|[K|K]].
    + apply Nd. eapply (defIn_unique f (dst i)); eauto. exists bk. split; auto. apply in_or_app. right. rewrite E, map_app. apply in_or_app. right. now left.
    + apply (phi_body_disj bk (dst i) N K). rewrite E, map_app. apply in_or_app. right. now left.
    + unfold resultsOf in N. assert (Nb : NoDup (map dst (body bk))) by (clear -N; induction (map pdst (phis bk)); auto; inversion N; auto).
      rewrite E, map_app in Nb. eapply NoDup_app_disj; [exact Nb|exact K|]. now left.
  - apply upd_eq.
  - exact Hm.
Qed.

(** operands with equal expressions *)
Inductive eqv : opnd -> opnd -> Prop :=
| eqv_refl o : eqv o o
| eqv_inst x z i j : defOf f x = Some i -> defOf f z = Some j -> isMovable knd (opc i) = true -> opc i = opc j ->
    eqvs (ops i) (ops j) -> eqv (ORes x) (ORes z)
with eqvs : list opnd -> list opnd -> Prop :=
| eqvs_nil : eqvs [] []
| eqvs_cons o o' l l' : eqv o o' -> eqvs l l' -> eqvs (o :: l) (o' :: l').
Scheme eqv_mut := Minimality for eqv Sort Prop with eqvs_mut := Minimality for eqvs Sort Prop.

(** at a point where the equations of the available values hold, available operands with equal expressions are equal *)
Lemma eqv_rd (A : nat -> Prop) e : (forall x y, A x -> before f x y -> A y) -> (forall x, A x -> eqn x e) ->
  forall o o', eqv o o' -> opAvail A o -> opAvail A o' -> rd args e o = rd args e o'.
Proof.
  intros Hbf He. apply (eqv_mut
    (fun o o' => opAvail A o -> opAvail A o' -> rd args e o = rd args e o')
    (fun l l' => Forall (opAvail A) l -> Forall (opAvail A) l' -> rds args e l = rds args e l')).
  - auto.
  - intros x z i j Hi Hj Hm Ho _ IH Hx Hz. cbn in Hx, Hz. cbn.
    destruct (He x Hx i Hi Hm) as (vs & v & w1 & w1' & A1 & A2 & A3). rewrite Ho in Hm, A3.
    destruct (He z Hz j Hj Hm) as (vs' & v' & w2 & w2' & B1 & B2 & B3).
    assert (rds args e (ops i) = rds args e (ops j)).
    { apply IH; rewrite Forall_forall; intros [c|n|y] Hy; cbn; auto.
      - apply (Hbf x y Hx). eapply ops_before; eauto.
      - apply (Hbf z y Hz). eapply ops_before; eauto. }
    assert (vs = vs') by congruence. subst vs'. rewrite A2, B2. destruct (movable_sem knd m (opc j) OK Hm) as [g Hg].
    rewrite Hg in A3, B3. destruct (g vs); congruence.
  - auto.
  - intros o o' l l' _ IH1 _ IH2 H1 H2. inversion H1; subst. inversion H2; subst. cbn. rewrite IH1, IH2; auto.
Qed.
End Equations.

(** replacing values by earlier ones with equal expressions *)
Definition subRes (r : nat -> nat) (o : opnd) : opnd := match o with ORes x => ORes (r x) | o => o end.
Theorem eqv_subst_ok knd f r : uniqueDefs f -> ssa f ->
  (forall x, r x = x \/ (eqv knd f (ORes x) (ORes (r x)) /\ before f x (r x))) -> refines knd f (subst (subRes r) f).
Proof.
  intros U S Hr W m args w OK. rewrite subst_substB.
  assert (K : forall (A : nat -> Prop) e o v, (forall x y, A x -> before f x y -> A y) -> (forall x, A x -> eqn m args knd f x e) ->
     opAvail A o -> rd args e o = Some v -> rd args e (subRes r o) = Some v).
  { intros A e o v HA He Ho Hv. destruct o as [c|n|x]; auto. cbn in Ho. cbn [subRes]. destruct (Hr x) as [->|[E B]]; auto.
    rewrite <- Hv. symmetry. apply (eqv_rd m args knd f OK U S A e HA He _ _ E); cbn; auto. eapply HA; eauto. }
  apply (substB_at m args f (eqn m args knd f) (eqnD f) U S).
  - apply eqn_frame.
  - now apply eqn_dep.
  - now apply eqn_phi.
  - now apply (eqn_body m args knd f U S).
  - intros b bk pre post e o v Hb R E F Ho Hv. apply (K (availAt f b bk pre) e o v); auto.
    intros x y Hx Bf. eapply before_avail; eauto.
  - intros p pb b e o v Hp R _ F Ho Hv. apply (K (availOut f p) e o v); auto. intros x y Hx Bf. eapply before_out; eauto.
Qed.

(** ** well-formedness is kept *)
Lemma path_subst h f b l : path (subst h f) b l <-> path f b l.
Proof.
  assert (E : entry (subst h f) = entry f) by (destruct f as [|[? ?] ?]; reflexivity).
  assert (T : forall bk, succs (trm (mapOps h bk)) = succs (trm bk)) by (intros [ps l0 [t|c t e|c cs d|[v|]|]]; reflexivity).
  split; induction 1 as [|b l bk t H IH Hb Ht].
  - rewrite E. apply path_entry.
  - rewrite get_subst in Hb. destruct (get b f) as [bk0|] eqn:Eb; [|discriminate]. injection Hb as <-. rewrite T in Ht. eapply path_next; eauto.
  - rewrite <- E. apply path_entry.
  - eapply path_next; [exact IH|rewrite get_subst, Hb; reflexivity|]. now rewrite T.
Qed.
Lemma defIn_subst h f x d : defIn (subst h f) x d <-> defIn f x d.
Proof.
  unfold defIn. rewrite get_subst. split.
  - intros (bk & H1 & H2). destruct (get d f) as [bk0|]; [|discriminate]. injection H1 as <-. rewrite results_mapOps in H2. eauto.
  - intros (bk & H1 & H2). rewrite H1. cbn. eexists. split; [reflexivity|]. now rewrite results_mapOps.
Qed.
Lemma dominates_subst h f a b : dominates (subst h f) a b <-> dominates f a b.
Proof. split; intros H l Hl; apply H; now apply (path_subst h f). Qed.
Lemma reach_subst h f b : reach (subst h f) b <-> reach f b.
Proof. split; intros [l Hl]; exists l; now apply (path_subst h f). Qed.
Lemma availIn_subst h f b x : availIn (subst h f) b x <-> availIn f b x.
Proof. split; intros (d & H1 & H2 & H3); exists d; (split; [|split]); auto; try (now apply (defIn_subst h f)); now apply (dominates_subst h f). Qed.
Lemma availOut_subst h f b x : availOut (subst h f) b x <-> availOut f b x.
Proof. split; intros (d & H1 & H2); exists d; (split; auto); try (now apply (defIn_subst h f)); now apply (dominates_subst h f). Qed.
Lemma ssa_subst h f : ssa f ->
  (forall b bk pre post o, get b f = Some bk -> reach f b -> body bk = pre ++ post -> opAvail (availAt f b bk pre) o -> opAvail (availAt f b bk pre) (h o)) ->
  (forall p pb o, get p f = Some pb -> reach f p -> opAvail (availOut f p) o -> opAvail (availOut f p) (h o)) ->
  (forall b bk ph p o, get b f = Some bk -> In ph (phis bk) -> In (p, o) (inc ph) -> get p f <> None) ->
  ssa (subst h f).
Proof.
  intros S H1 H2 Hp b bk Hb R. rewrite get_subst in Hb. destruct (get b f) as [bk0|] eqn:Eb; [|discriminate]. injection Hb as <-.
  apply (reach_subst h f) in R. destruct (S b bk0 Eb R) as (S1 & S2 & S3).
  assert (Av : forall pre o, opAvail (availAt f b bk0 pre) o -> opAvail (availAt (subst h f) b (mapOps h bk0) (map (fun i => Inst (dst i) (opc i) (map h (ops i))) pre)) o).
  { intros pre [c|n|x]; cbn; auto. unfold availAt. rewrite availIn_subst. cbn [mapOps phis]. rewrite !map_map. cbn. tauto. }
  split; [|split].
  - intros pre i post E. cbn in E. apply map_eq_app in E as (l1 & l2 & E0 & E1 & E2). destruct l2 as [|i0 l2]; [discriminate|].
    cbn in E2. injection E2 as <- <-. subst pre. cbn. specialize (S1 l1 i0 l2 E0). rewrite Forall_forall in S1 |- *.
    intros o Ho. apply in_map_iff in Ho as (o0 & <- & Ho). apply Av. eapply H1; eauto.
  - rewrite Forall_forall in S2 |- *. intros o Ho. apply Av.
    assert (K : exists o0, In o0 (termOps (trm bk0)) /\ o = h o0).
    { destruct bk0 as [ps l0 [t|c t e|c cs d|[v|]|]]; cbn in *; try tauto; destruct Ho as [<-|[]]; eauto. }
    destruct K as (o0 & K1 & ->). eapply (H1 b bk0 (body bk0) []); eauto. now rewrite app_nil_r.
  - intros ph p o Hph Hi Rp. cbn in Hph. apply in_map_iff in Hph as (ph0 & <- & Hph). cbn in Hi. apply in_map_iff in Hi as ([p0 o0] & E & Hi).
    cbn in E. injection E as <- <-. apply (reach_subst h f) in Rp. pose proof (S3 ph0 p0 o0 Hph Hi Rp) as K.
    destruct (get p0 f) as [pb|] eqn:Ep; [|exfalso; eapply Hp; eauto].
    specialize (H2 p0 pb o0 Ep Rp K). destruct (h o0); cbn in *; auto. now apply availOut_subst.
Qed.
