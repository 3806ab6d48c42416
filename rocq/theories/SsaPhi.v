(** Redundant phis: equal phis of one block, and groups of phis that only ever hold one other value. *)
From Coq Require Import ZArith Lia Bool List Arith.
From Verif Require Import Sim Ssa SsaCfg SsaMerge SsaFwd SsaFwd2 SsaWf SsaDom SsaProps SsaSub SsaVerify SsaEq.
Import ListNotations.

Lemma rdPhis_val args e p l vs ph : NoDup (map pdst l) -> rdPhis args e p l = Some vs -> In ph l ->
  exists o v, get p (inc ph) = Some o /\ rd args e o = Some v /\ updAll e vs (pdst ph) = Some v.
Proof.
  intros N H Hin. enough (K : exists o v, get p (inc ph) = Some o /\ rd args e o = Some v /\ forall e0, updAll e0 vs (pdst ph) = Some v).
  { destruct K as (o & v & A & B & C). eauto. }
  revert vs H. induction l as [|q l IH]; [destruct Hin|]. cbn. intros vs H. inversion N as [|? ? N1 N2]; subst.
  destruct (get p (inc q)) as [o|] eqn:Eo; [|discriminate]. destruct (rd args e o) as [v|] eqn:Ev; [|discriminate].
  destruct (rdPhis args e p l) as [vs'|] eqn:Er; [|discriminate]. injection H as <-.
  destruct Hin as [->|Hin].
  - exists o, v. split; auto. split; auto. intros e0. cbn. fold (updAll (upd e0 (pdst ph) v) vs').
    rewrite updAll_ne; [apply upd_eq|]. rewrite (rdPhis_fst _ _ _ _ _ Er). exact N1.
  - destruct (IH N2 Hin vs' eq_refl) as (o' & v' & A & B & C). exists o', v'. split; auto. split; auto. intros e0. cbn. apply C.
Qed.
Lemma phis_NoDup f b bk : uniqueDefs f -> get b f = Some bk -> NoDup (map pdst (phis bk)).
Proof. intros U Hb. exact (NoDup_app_l _ _ (block_NoDup f b bk U Hb)). Qed.

(** ** substitution of results by operands *)
Definition subOp (r : nat -> option opnd) (o : opnd) : opnd := match o with ORes x => match r x with Some o' => o' | None => o end | _ => o end.
(** ... that are available where the result is keeps [ssa] *)
Lemma ssa_subOp r f : uniqueDefs f -> ssa f -> phiPreds f ->
  (forall x o y, r x = Some o -> In y (res_of o) -> before f x y) -> ssa (subst (subOp r) f).
Proof.
  intros U S PP Hr. apply ssa_subst; auto.
  - intros b bk pre post o Hb R E H. destruct o as [c|n|x]; cbn in *; auto. destruct (r x) as [o'|] eqn:Ex; auto.
    destruct o' as [c|n|y]; cbn; auto. eapply before_avail; eauto. eapply Hr; eauto. now left.
  - intros p pb o Hp R H. destruct o as [c|n|x]; cbn in *; auto. destruct (r x) as [o'|] eqn:Ex; auto.
    destruct o' as [c|n|y]; cbn; auto. eapply before_out; eauto. eapply Hr; eauto. now left.
  - intros b bk ph p o Hb Hph Hi. destruct (PP b bk ph p o Hb Hph Hi) as (pb & Hp & _). congruence.
Qed.
Definition oneOp (x : nat) (o : opnd) (y : nat) : option opnd := if Nat.eqb y x then Some o else None.
(** Value::replaceWith *)
Definition replaceWith (x : nat) (o : opnd) (f : func) : func := subst (subOp (oneOp x o)) f.

(** ** two phis of a block with the same incoming values; PhiInst::isEqual, cmmc/IR/Instruction.cpp:897-909 *)
Definition phiEq (lhs rhs : phi) : bool :=
  forallb (fun x => match get (fst x) (inc rhs) with Some o => opnd_eqb o (snd x) | None => false end) (inc lhs).
Lemma phiEq_get lhs rhs p o : phiEq lhs rhs = true -> get p (inc lhs) = Some o -> get p (inc rhs) = Some o.
Proof.
  unfold phiEq. rewrite forallb_forall. intros H Hg. specialize (H _ (get_In _ _ _ Hg)). cbn in H.
  destruct (get p (inc rhs)) as [o'|]; [|discriminate]. destruct (opnd_eqb_spec o' o); [|discriminate]. congruence.
Qed.
Lemma phi_same_ok knd f b bk px pz : uniqueDefs f -> ssa f -> get b f = Some bk -> In px (phis bk) -> In pz (phis bk) -> phiEq px pz = true ->
  refines knd f (replaceWith (pdst px) (ORes (pdst pz)) f).
Proof.
  intros U S Hb Hx Hz He W m args w OK. unfold replaceWith. rewrite subst_substB.
  set (P := fun x (e : env) => x = pdst px -> e x = e (pdst pz)). set (D := fun x => if Nat.eqb x (pdst px) then [pdst pz] else []).
  assert (Q : forall (A : nat -> Prop) e o v, (forall x, A x -> P x e) -> opAvail A o -> rd args e o = Some v ->
                rd args e (subOp (oneOp (pdst px) (ORes (pdst pz))) o) = Some v).
  { intros A e o v F Ho Hv. destruct o as [c|n|x]; auto. cbn in *. unfold oneOp. destruct (Nat.eqb_spec x (pdst px)) as [->|]; auto.
    cbn. rewrite <- Hv. symmetry. now apply F. }
  apply (substB_at m args f P D U S).
  - intros x e e' H K ->. rewrite <- (H (pdst px)), <- (H (pdst pz)); auto. right. unfold D. rewrite Nat.eqb_refl. now left.
  - intros x d bk' y Hd R Hx' Hy. unfold D in Hy. destruct (Nat.eqb_spec x (pdst px)) as [->|]; [|destruct Hy]. destruct Hy as [<-|[]].
    right. left. assert (d = b). { eapply (results_unique f d bk' b bk); eauto. apply in_or_app. left. now apply in_map. }
    subst d. assert (bk' = bk) by congruence. subst. split; now apply in_map.
  - intros b' bk' p pb e vs Hb' R Hp Hs F Hr x Hx' ->. 
    assert (b' = b). { apply (results_unique f b' bk' b bk (pdst px)); auto; apply in_or_app; left; auto; now apply in_map. }
    subst b'. assert (bk' = bk) by congruence. subst bk'. pose proof (phis_NoDup f b bk U Hb) as N.
    destruct (rdPhis_val args e p _ vs px N Hr Hx) as (o1 & v1 & A1 & A2 & A3).
    destruct (rdPhis_val args e p _ vs pz N Hr Hz) as (o2 & v2 & B1 & B2 & B3).
    rewrite A3, B3. pose proof (phiEq_get px pz p o1 He A1). congruence.
  - intros b' bk' pre i post e w0 vs v w' Hb' R E F Hr Hm K. exfalso.
    assert (b' = b). { eapply (results_unique f b' bk' b bk (dst i)); eauto; apply in_or_app.
      - right. rewrite E, map_app. apply in_or_app. right. now left.
      - left. rewrite K. now apply in_map. }
    subst b'. assert (bk' = bk) by congruence. subst bk'.
    apply (phi_body_disj bk (dst i) (block_NoDup f b bk U Hb)); [rewrite K; now apply in_map|]. rewrite E, map_app. apply in_or_app. right. now left.
  - intros b' bk' pre post e o v _ _ _ F Ho Hv. eapply Q; eauto.
  - intros p pb b' e o v _ _ _ F Ho Hv. eapply Q; eauto.
Qed.
Lemma phi_same_before f b bk px pz : uniqueDefs f -> get b f = Some bk -> In px (phis bk) -> In pz (phis bk) -> before f (pdst px) (pdst pz).
Proof.
  intros U Hb Hx Hz d bk' Hd R Hx'. assert (d = b). { eapply (results_unique f d bk' b bk); eauto. apply in_or_app. left. now apply in_map. }
  subst d. assert (bk' = bk) by congruence. subst. right. left. split; now apply in_map.
Qed.

Lemma res_of_eq o y : In y (res_of o) -> o = ORes y.
Proof. destruct o as [c|n|x]; cbn; try tauto. intros [->|[]]; auto. Qed.
Lemma rd_ext args e e' o : (forall y, In y (res_of o) -> e y = e' y) -> rd args e o = rd args e' o.
Proof. destruct o as [c|n|x]; cbn; auto. Qed.

(** ** a group of phis whose only value from outside is [rep] *)
(** the entry block has no phis (it has no predecessors in functions the front end makes) *)
Definition entryNoPhi (f : func) : Prop := forall bk, get (entry f) f = Some bk -> phis bk = [].
Section Group.
Variable f : func.
Variable inS : nat -> bool.
Variable rep : opnd.
Hypothesis U : uniqueDefs f.
Hypothesis S : ssa f.
Hypothesis PA : phiAllR f.
Hypothesis EN : entryNoPhi f.
Hypothesis HS : forall b bk ph p o, get b f = Some bk -> In ph (phis bk) -> inS (pdst ph) = true -> In (p, o) (inc ph) ->
  o = rep \/ exists q, o = ORes q /\ inS q = true.
Hypothesis HP : forall x b bk, inS x = true -> get b f = Some bk -> In x (resultsOf bk) -> In x (map pdst (phis bk)).

Lemma group_path r : rep = ORes r -> forall n l b bk x, length l <= n -> path f b l -> get b f = Some bk -> inS x = true -> In x (map pdst (phis bk)) ->
  exists d, defIn f r d /\ In d (tl l).
Proof.
  intros Er. induction n as [|n IH]; intros l b bk x Hlen Hl Hb Hin Hx.
  - destruct (path_hd _ _ _ Hl) as [l' ->]. cbn in Hlen. lia.
  - inversion Hl as [E1 E2|p l' pb t Hp Hpb Ht E1 E2]; subst.
    + rewrite (EN bk Hb) in Hx. destruct Hx.
    + apply in_map_iff in Hx as (ph & <- & Hph). cbn [tl].
      destruct (get p (inc ph)) as [o|] eqn:Eo.
      2:{ exfalso. exact (PA b bk ph p pb (ex_intro _ _ Hl) (ex_intro _ _ Hp) Hb Hph Hpb Ht Eo). }
      destruct (S b bk Hb (ex_intro _ _ Hl)) as (_ & _ & S3). pose proof (S3 ph p o Hph (get_In _ _ _ Eo) (ex_intro _ _ Hp)) as A.
      destruct (HS b bk ph p o Hb Hph Hin (get_In _ _ _ Eo)) as [->|(q & -> & Hq)].
      * destruct A as (d & Hd & Hdom). exists d. auto.
      * destruct A as (d' & (kd & Hd & Hqd) & Hdom). destruct (path_split f p l' d' Hp (Hdom l' Hp)) as (l1 & l2 & -> & Hp2 & _).
        destruct (IH l2 d' kd q) as (d & Hdef & Hin2); auto.
        { cbn in Hlen. rewrite app_length in Hlen. lia. } { eapply HP; eauto. }
        exists d. split; auto. apply in_or_app. right. destruct l2; [destruct Hin2|now right].
Qed.
Lemma group_dom r b bk x : rep = ORes r -> get b f = Some bk -> reach f b -> inS x = true -> In x (resultsOf bk) -> availIn f b r.
Proof.
  intros Er Hb [l Hl] Hin Hx. pose proof (HP x b bk Hin Hb Hx) as Hx'.
  destruct (group_path r Er (length l) l b bk x (le_n _) Hl Hb Hin Hx') as (d & Hd & _). exists d. split; auto.
  assert (Hdom : forall l, path f b l -> In d (tl l)).
  { intros l0 Hl0. destruct (group_path r Er (length l0) l0 b bk x (le_n _) Hl0 Hb Hin Hx') as (d' & Hd' & Hin').
    assert (d' = d) by (eapply defIn_unique; eauto). congruence. }
  split.
  - intros ->. clear Hx Hx'. remember (length l) as n eqn:En. revert l Hl En. induction n as [n IH] using lt_wf_ind. intros l Hl En.
    pose proof (Hdom l Hl) as K. destruct (path_hd _ _ _ Hl) as [l' ->]. cbn in K.
    inversion Hl as [E1 E2|p l2 pb t Hp Hpb Ht E1 E2]; subst; [destruct K|].
    destruct (path_split f p l' b Hp K) as (l1 & l3 & E3 & Hp3 & _). subst l'.
    apply (IH (length l3)) with (l := l3); auto. cbn. rewrite app_length. lia.
  - intros l0 Hl0. pose proof (Hdom l0 Hl0) as K. destruct l0; [destruct K|now right].
Qed.
Definition inGroup (x : nat) : option opnd := if inS x then Some rep else None.
Lemma group_before x y : inS x = true -> In y (res_of rep) -> before f x y.
Proof.
  intros Hx Hy d bk Hd R Hxd. left. apply res_of_eq in Hy. eapply group_dom; eauto.
Qed.
Theorem group_ok knd : refines knd f (subst (subOp inGroup) f).
Proof.
  intros W m args w OK. rewrite subst_substB.
  set (P := fun x (e : env) => inS x = true -> e x = rd args e rep). set (D := fun x => if inS x then res_of rep else []).
  assert (Q : forall (A : nat -> Prop) e o v, (forall x, A x -> P x e) -> opAvail A o -> rd args e o = Some v -> rd args e (subOp inGroup o) = Some v).
  { intros A e o v F Ho Hv. destruct o as [c|n|x]; auto. cbn in *. unfold inGroup. destruct (inS x) eqn:Ex; auto.
    rewrite <- Hv. symmetry. now apply F. }
  apply (substB_at m args f P D U S).
  - intros x e e' H K Hx. specialize (K Hx). unfold D in H. rewrite Hx in H. rewrite <- (H x) by auto. rewrite K.
    apply rd_ext. auto.
  - intros x d bk y Hd R Hx Hy. unfold D in Hy. destruct (inS x) eqn:Ex; [|destruct Hy].
    exact (group_before x y Ex Hy d bk Hd R Hx).
  - intros b bk p pb e vs Hb R Hp Hs F Hr x Hx Hin. pose proof (phis_NoDup f b bk U Hb) as N.
    assert (Rb : reach f b). { destruct R as [l Hl]. exists (b :: l). eapply path_next; eauto. }
    apply in_map_iff in Hx as (ph & <- & Hph).
    destruct (rdPhis_val args e p _ vs ph N Hr Hph) as (o & v & A1 & A2 & A3). rewrite A3.
    destruct (S b bk Hb Rb) as (_ & _ & S3). pose proof (S3 ph p o Hph (get_In _ _ _ A1) R) as Av.
    assert (V : rd args e rep = Some v).
    { destruct (HS b bk ph p o Hb Hph Hin (get_In _ _ _ A1)) as [->|(q & -> & Hq)]; auto. cbn in A2, Av. rewrite <- A2. symmetry. now apply F. }
    rewrite <- V. apply rd_ext. intros r Hre. apply res_of_eq in Hre. symmetry. apply updAll_ne. rewrite (rdPhis_fst _ _ _ _ _ Hr). intros K.
    assert (Ai : availIn f b r). { apply (group_dom r b bk (pdst ph)); auto. apply in_or_app. left. now apply in_map. }
    destruct Ai as (d & Hd & Nd & _). apply Nd. eapply (defIn_unique f r); eauto. exists bk. split; auto. apply in_or_app. now left.
  - intros b bk pre i post e w0 vs v w' Hb R E F Hr Hm K. exfalso.
    assert (Hi : In (dst i) (map dst (body bk))) by (rewrite E, map_app; apply in_or_app; right; now left).
    apply (phi_body_disj bk (dst i) (block_NoDup f b bk U Hb)); auto. apply (HP (dst i) b bk); auto. apply in_or_app. auto.
  - intros b' bk' pre post e o v _ _ _ F Ho Hv. eapply Q; eauto.
  - intros p pb b' e o v _ _ _ F Ho Hv. eapply Q; eauto.
Qed.
End Group.
