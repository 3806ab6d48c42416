(** The structural conditions the IR verifier checks (cmmc/IR/Function.cpp:138-260) are kept by the clean-up passes.
    Not included: that definitions dominate their uses, and types. *)
From Coq Require Import ZArith Lia Bool List Arith.
From Verif Require Import Sim Ssa SsaCfg SsaMerge SsaFwd SsaFwd2.
Import ListNotations.

(** well-formed: there is an entry, block and result names are unique, branch targets exist, a phi has incoming values for
    the predecessors of its block and for nothing else *)
Definition wf (f : func) : Prop :=
  f <> [] /\ uniqueDefs f /\ closed f /\ phiPreds f /\ phiAll f.

(** *** results, block by block *)
Definition uniqR (f : func) : Prop :=
  (forall k bk, get k f = Some bk -> NoDup (resultsOf bk)) /\
  (forall k1 k2 b1 b2 x, get k1 f = Some b1 -> get k2 f = Some b2 -> In x (resultsOf b1) -> In x (resultsOf b2) -> k1 = k2).
Lemma NoDup_app_l {A} (l1 l2 : list A) : NoDup (l1 ++ l2) -> NoDup l1.
Proof.
  induction l1 as [|a l1 IH]; cbn; intros N; [constructor|]. inversion N as [|? ? N1 N2]; subst. constructor; auto.
  intros K. apply N1. apply in_or_app. auto.
Qed.
Lemma NoDup_app_r {A} (l1 l2 : list A) : NoDup (l1 ++ l2) -> NoDup l2.
Proof. induction l1 as [|a l1 IH]; cbn; intros N; auto. inversion N; auto. Qed.
Lemma NoDup_app_i {A} (l1 l2 : list A) : NoDup l1 -> NoDup l2 -> (forall x, In x l1 -> In x l2 -> False) -> NoDup (l1 ++ l2).
Proof.
  induction l1 as [|a l1 IH]; cbn; intros N1 N2 D; auto. inversion N1; subst. constructor.
  - intros K. apply in_app_or in K as [K|K]; auto. apply (D a); auto.
  - apply IH; auto. intros x H1' H2'. apply (D x); auto.
Qed.
Lemma uniqR_iff f : NoDup (map fst f) -> (NoDup (allResults f) <-> uniqR f).
Proof.
  intros Nf. split.
  - intros N. split.
    + intros k bk Hg. apply get_In in Hg. unfold allResults in N. clear Nf. induction f as [|[k0 b0] f IH]; [contradiction|]. cbn in N.
      destruct Hg as [Hg|Hg]; [|apply IH; auto; exact (NoDup_app_r _ _ N)]. injection Hg as -> ->. exact (NoDup_app_l _ _ N).
    + intros k1 k2 b1 b2 x H1 H2 X1 X2. apply (results_unique f k1 b1 k2 b2 x); auto. split; auto.
  - intros [U1 U2]. unfold allResults. induction f as [|[k0 b0] f IH]; cbn; [constructor|].
    cbn in Nf. inversion Nf as [|? ? F1 F2]; subst.
    assert (Hk : forall k bk, get k f = Some bk -> get k ((k0, b0) :: f) = Some bk).
    { intros k bk Hg. cbn. destruct (Nat.eqb_spec k0 k) as [->|]; auto. exfalso. apply F1. exact (get_In_fst _ _ _ Hg). }
    apply NoDup_app_i.
    + apply (U1 k0). cbn. now rewrite Nat.eqb_refl.
    + apply IH; auto.
      * intros k bk Hg. exact (U1 k bk (Hk k bk Hg)).
      * intros k1 k2 b1 b2 x G1 G2. apply U2; auto.
    + intros x X1 X2. apply in_flat_map in X2 as ([k bk] & Hin & X2). cbn in X2.
      assert (Hg : get k f = Some bk) by (apply In_get; auto).
      assert (k0 = k). { apply (U2 k0 k b0 bk x); auto. cbn. now rewrite Nat.eqb_refl. }
      subst k. apply F1. exact (get_In_fst _ _ _ Hg).
Qed.

(** the same blocks, changed one by one *)
Lemma wf_same f g (h : nat -> block -> block) : wf f -> map fst g = map fst f ->
  (forall k, get k g = option_map (h k) (get k f)) ->
  (forall k bk, get k f = Some bk -> (forall x, In x (resultsOf (h k bk)) -> In x (resultsOf bk)) /\ NoDup (resultsOf (h k bk))) ->
  (forall k bk x, get k f = Some bk -> In x (succs (trm (h k bk))) -> In x (map fst f)) ->
  (forall k bk ph p o, get k f = Some bk -> In ph (phis (h k bk)) -> In (p, o) (inc ph) ->
     exists pb, get p f = Some pb /\ In k (succs (trm (h p pb)))) ->
  (forall k bk ph p pb, get k f = Some bk -> In ph (phis (h k bk)) -> get p f = Some pb -> In k (succs (trm (h p pb))) -> get p (inc ph) <> None) ->
  wf g.
Proof.
  intros (W1 & (W2 & W3) & W4 & W5 & W6) Hfst Hg Hr Hs Hp Ha.
  destruct (proj1 (uniqR_iff f W2) W3) as [U1 U2].
  split; [|split; [split|split; [|split]]].
  - intros ->. cbn in Hfst. destruct f; [congruence|discriminate].
  - rewrite Hfst. exact W2.
  - apply uniqR_iff; [now rewrite Hfst|]. split.
    + intros k bk Hk. rewrite Hg in Hk. destruct (get k f) as [b0|] eqn:E; try discriminate. cbn in Hk. injection Hk as <-. now apply (Hr k b0).
    + intros k1 k2 b1 b2 x H1 H2 X1 X2. rewrite Hg in H1, H2. destruct (get k1 f) as [c1|] eqn:E1; try discriminate. destruct (get k2 f) as [c2|] eqn:E2; try discriminate.
      cbn in H1, H2. injection H1 as <-. injection H2 as <-. apply (U2 k1 k2 c1 c2 x); auto; [now apply (Hr k1 c1)|now apply (Hr k2 c2)].
  - intros b bk t Hb Ht. rewrite Hfst. rewrite Hg in Hb. destruct (get b f) as [b0|] eqn:E; try discriminate. cbn in Hb. injection Hb as <-. exact (Hs b b0 t E Ht).
  - intros k bk ph p o Hk Hph Hin. rewrite Hg in Hk. destruct (get k f) as [b0|] eqn:E; try discriminate. cbn in Hk. injection Hk as <-.
    destruct (Hp k b0 ph p o E Hph Hin) as (pb & A & B). rewrite Hg, A. cbn. eauto.
  - intros k bk ph p pb Hk Hph Hpp Hin. rewrite Hg in Hk, Hpp. destruct (get k f) as [b0|] eqn:E; try discriminate. cbn in Hk. injection Hk as <-.
    destruct (get p f) as [p0|] eqn:E0; try discriminate. cbn in Hpp. injection Hpp as <-. exact (Ha k b0 ph p p0 E Hph E0 Hin).
Qed.
Lemma wf_uniqR f : wf f -> uniqR f.
Proof. intros (_ & (N & R) & _). now apply uniqR_iff. Qed.

Lemma wf_subst h f : wf f -> wf (subst h f).
Proof.
  intros Hw. pose proof (wf_uniqR f Hw) as [U1 _]. destruct Hw as (W1 & W2 & W4 & W5 & W6) eqn:EW. clear EW.
  apply (wf_same f (subst h f) (fun _ bk => mapOps h bk)); auto.
  - unfold subst. rewrite map_map. reflexivity.
  - intros k. apply get_subst.
  - intros k bk Hk. rewrite results_mapOps. split; eauto.
  - intros k bk x Hk Hx. apply (W4 k bk x Hk). cbn in Hx. destruct (trm bk) as [| | |[|]|]; auto.
  - intros k bk ph p o Hk Hph Hin. cbn in Hph. apply in_map_iff in Hph as (ph0 & <- & Hph0). cbn in Hin. apply in_map_iff in Hin as ([q o0] & E & Hin).
    cbn in E. injection E as -> _. destruct (W5 k bk ph0 p o0 Hk Hph0 Hin) as (pb & A & B). exists pb. split; auto.
    cbn. destruct (trm pb) as [| | |[|]|]; auto.
  - intros k bk ph p pb Hk Hph Hp Hin. cbn in Hph. apply in_map_iff in Hph as (ph0 & <- & Hph0). cbn. rewrite get_map.
    assert (K : get p (inc ph0) <> None).
    { apply (W6 k bk ph0 p pb); auto. cbn in Hin. destruct (trm pb) as [| | |[|]|]; auto. }
    destruct (get p (inc ph0)); cbn; congruence.
Qed.

(** a block loses some of its edges; the phis behind them are corrected *)
Lemma removePhis_all b l : (forall ph, In ph l -> get b (inc ph) <> None) -> removePhis b l = map (removeSource b) l.
Proof.
  induction l as [|ph l IH]; cbn; intros H; auto. unfold hasSource. pose proof (H ph (or_introl eq_refl)) as A.
  destruct (get b (inc ph)); [|congruence]. f_equal. apply IH. intros q Hq. apply H. now right.
Qed.
Lemma wf_dropEdges f g b bk D nb t' : wf f -> get b f = Some bk -> map fst g = map fst f ->
  (forall k, get k g = option_map (fun bk0 => Block (if existsb (Nat.eqb k) D then removePhis b (phis bk0) else phis bk0)
       (if Nat.eqb k b then nb else body bk0) (if Nat.eqb k b then t' else trm bk0)) (get k f)) ->
  (forall x, In x (map dst nb) -> In x (map dst (body bk))) -> NoDup (map pdst (phis bk) ++ map dst nb) ->
  (forall x, In x (succs t') -> In x (succs (trm bk))) ->
  (forall x, In x D -> In x (succs (trm bk)) /\ ~ In x (succs t')) ->
  (forall x xb, In x (succs (trm bk)) -> ~ In x (succs t') -> In x D \/ get x f = Some xb -> In x D \/ (get x f = Some xb -> phis xb = [])) ->
  wf g.
Proof.
  intros Hw Hb Hfst Hg Hnb Hnd Hsub HD Hdrop. pose proof (wf_uniqR f Hw) as [U1 _]. destruct Hw as (W1 & W2 & W4 & W5 & W6) eqn:EW. clear EW.
  set (h := fun k bk0 => Block (if existsb (Nat.eqb k) D then removePhis b (phis bk0) else phis bk0)
       (if Nat.eqb k b then nb else body bk0) (if Nat.eqb k b then t' else trm bk0)) in *.
  assert (HphD : forall k bk0, get k f = Some bk0 -> In k D -> removePhis b (phis bk0) = map (removeSource b) (phis bk0)).
  { intros k bk0 Hk HkD. apply removePhis_all. intros ph Hph. apply (W6 k bk0 ph b bk); auto. now apply HD. }
  apply (wf_same f g h); auto.
  - intros k bk0 Hk. unfold h, resultsOf. cbn [phis body].
    assert (E1 : map pdst (if existsb (Nat.eqb k) D then removePhis b (phis bk0) else phis bk0) = map pdst (phis bk0)).
    { destruct (existsb (Nat.eqb k) D); auto. apply removePhis_pdst. }
    rewrite E1. destruct (Nat.eqb_spec k b) as [->|].
    + assert (bk0 = bk) by congruence. subst bk0. split; auto. intros x Hx. apply in_app_or in Hx as [Hx|Hx]; apply in_or_app; auto.
    + split; auto. exact (U1 k bk0 Hk).
  - intros k bk0 x Hk Hx. cbn in Hx. destruct (Nat.eqb_spec k b) as [->|]; [|eapply W4; eauto].
    assert (bk0 = bk) by congruence. subst bk0. apply (W4 b bk x Hk). auto.
  - intros k bk0 ph p o Hk Hph Hin. cbn in Hph.
    assert (K : (In k D -> p <> b) -> (exists ph0, In ph0 (phis bk0) /\ In (p, o) (inc ph0)) -> exists pb, get p f = Some pb /\ In k (succs (trm (h p pb)))).
    { intros Hne (ph0 & H1 & H2). destruct (W5 k bk0 ph0 p o Hk H1 H2) as (pb & A & B). exists pb. split; auto. cbn.
      destruct (Nat.eqb_spec p b) as [->|]; auto. assert (pb = bk) by congruence. subst pb.
      destruct (in_dec Nat.eq_dec k (succs t')) as [|Hn]; auto. exfalso.
      destruct (Hdrop k bk0 B Hn) as [H|H]; auto.
      - apply (Hne H). reflexivity.
      - rewrite (H Hk) in H1. contradiction. }
    destruct (existsb (Nat.eqb k) D) eqn:EkD.
    + apply existsb_In in EkD. rewrite (HphD k bk0 Hk EkD) in Hph. apply in_map_iff in Hph as (ph0 & <- & Hph0).
      apply removeSource_In in Hin as [Hne Hin]. apply K; eauto.
    + apply K; eauto. intros H. apply existsb_In in H. congruence.
  - intros k bk0 ph p pb Hk Hph Hp Hin. cbn in Hph, Hin.
    assert (Hin0 : In k (succs (trm pb)) /\ (p = b -> ~ In k D)).
    { destruct (Nat.eqb_spec p b) as [->|]; [|split; auto; congruence]. assert (pb = bk) by congruence. subst pb. split; auto.
      intros _ HkD. apply HD in HkD. tauto. }
    destruct Hin0 as [Hin0 Hne]. destruct (existsb (Nat.eqb k) D) eqn:EkD; [|exact (W6 k bk0 ph p pb Hk Hph Hp Hin0)].
    apply existsb_In in EkD. rewrite (HphD k bk0 Hk EkD) in Hph. apply in_map_iff in Hph as (ph0 & <- & Hph0).
    rewrite get_removeSource; [exact (W6 k bk0 ph0 p pb Hk Hph0 Hp Hin0)|]. intros ->. tauto.
Qed.

Lemma fst_onBlock b h f : map fst (onBlock b h f) = map fst f.
Proof. apply (fst_mapk (fun k bk => if Nat.eqb k b then h bk else bk)). Qed.
Lemma wf_fold {A} (g : func -> A -> func) l : (forall f a, wf f -> wf (g f a)) -> forall f, wf f -> wf (fold_left g l f).
Proof. intros H. induction l as [|a l IH]; cbn; auto. Qed.

Lemma wf_NoDup_block f b bk : wf f -> get b f = Some bk -> NoDup (map pdst (phis bk) ++ map dst (body bk)).
Proof. intros Hw Hb. exact (proj1 (wf_uniqR f Hw) b bk Hb). Qed.

Lemma mergeBranch1_wf f b : wf f -> wf (mergeBranch1 f b).
Proof.
  intros Hw. unfold mergeBranch1. destruct (get b f) as [bk|] eqn:Eb; auto. destruct (trm bk) as [|c t e| | |] eqn:Et; auto.
  destruct (Nat.eqb_spec t e) as [->|]; auto.
  apply (wf_dropEdges f _ b bk [] (body bk) (TBr e)); auto.
  - apply fst_onBlock.
  - intros k. rewrite get_onBlock. destruct (get k f) as [bk0|] eqn:Ek; auto. cbn. destruct (Nat.eqb_spec k b) as [->|]; [|now destruct bk0].
    assert (bk0 = bk) by congruence. now subst.
  - eapply wf_NoDup_block; eauto.
  - rewrite Et. cbn. tauto.
  - intros x [].
  - intros x xb. rewrite Et. cbn. tauto.
Qed.
Lemma simplifyBranch1_wf f b : wf f -> wf (simplifyBranch1 f b).
Proof.
  intros Hw. unfold simplifyBranch1. destruct (get b f) as [bk|] eqn:Eb; auto. destruct (trm bk) as [|c t e| | |] eqn:Et; auto.
  destruct c as [[z|z|]| |]; auto. set (keep := if Z.eqb z 0 then e else t). set (drop := if Z.eqb z 0 then t else e).
  assert (HR : forall x, In x (succs (trm bk)) <-> x = keep \/ x = drop).
  { intros x. rewrite Et. unfold keep, drop. cbn. destruct (Z.eqb z 0); intuition auto. }
  destruct (Nat.eqb_spec t e) as [Ete|Dte].
  - apply (wf_dropEdges f _ b bk [] (body bk) (TBr keep)); auto.
    + apply fst_onBlock.
    + intros k. rewrite get_onBlock. destruct (get k f) as [bk0|] eqn:Ek; auto. cbn. destruct (Nat.eqb_spec k b) as [->|]; [|now destruct bk0].
      assert (bk0 = bk) by congruence. now subst.
    + eapply wf_NoDup_block; eauto.
    + intros x [<-|[]]. apply HR. auto.
    + intros x [].
    + intros x xb Hx Hn. exfalso. apply Hn. apply HR in Hx. cbn. unfold keep, drop in *. destruct (Z.eqb z 0); intuition congruence.
  - assert (Hkd : drop <> keep) by (unfold keep, drop; destruct (Z.eqb z 0); congruence).
    apply (wf_dropEdges f _ b bk [drop] (body bk) (TBr keep)); auto.
    + now rewrite !fst_onBlock.
    + intros k. rewrite !get_onBlock. destruct (get k f) as [bk0|] eqn:Ek; auto. cbn [option_map existsb]. rewrite orb_false_r.
      destruct (Nat.eqb_spec k b) as [->|].
      * assert (bk0 = bk) by congruence. subst. destruct (Nat.eqb b drop); reflexivity.
      * destruct (Nat.eqb k drop), bk0; reflexivity.
    + eapply wf_NoDup_block; eauto.
    + intros x [<-|[]]. apply HR. auto.
    + intros x [<-|[]]. split; [apply HR; auto|]. cbn. intuition congruence.
    + intros x xb Hx Hn. left. apply HR in Hx. cbn in *. intuition congruence.
Qed.
Lemma simplifyPartial1_wf f b : wf f -> wf (simplifyPartial1 f b).
Proof.
  intros Hw. unfold simplifyPartial1. destruct (get b f) as [bk|] eqn:Eb; auto. destruct (trm bk) as [|c t e| | |] eqn:Et; auto.
  assert (K : forall t', (forall x, In x (succs t') -> x = t \/ x = e) ->
     (forall x, x = t \/ x = e -> ~ In x (succs t') -> isUnreachablePath f x = true) -> wf (onBlock b (setTerm t') f)).
  { intros t' H1 H2. apply (wf_dropEdges f _ b bk [] (body bk) t'); auto.
    - apply fst_onBlock.
    - intros k. rewrite get_onBlock. destruct (get k f) as [bk0|] eqn:Ek; auto. cbn. destruct (Nat.eqb_spec k b) as [->|]; [|now destruct bk0].
      assert (bk0 = bk) by congruence. now subst.
    - eapply wf_NoDup_block; eauto.
    - rewrite Et. intros x Hx. cbn. destruct (H1 x Hx); auto.
    - intros x [].
    - intros x xb Hx Hn _. right. intros Hg. rewrite Et in Hx. assert (Hx' : x = t \/ x = e) by (cbn in Hx; intuition auto).
      specialize (H2 x Hx' Hn). unfold isUnreachablePath in H2. rewrite Hg in H2. destruct xb as [[|] ? ?]; [reflexivity|discriminate]. }
  destruct (isUnreachablePath f t) eqn:Eu, (isUnreachablePath f e) eqn:Ev; cbn; auto; apply K; cbn.
  - tauto.
  - intros x [->| ->]; auto.
  - intuition auto.
  - intros x [->| ->]; auto; tauto.
  - intuition auto.
  - intros x [->| ->]; auto; tauto.
Qed.
Lemma unreachableEliminate_wf f : wf f -> wf (unreachableEliminate f).
Proof.
  intros Hw. pose proof (wf_uniqR f Hw) as [U1 _]. destruct Hw as (W1 & W2 & W4 & W5 & W6) eqn:EW. clear EW.
  set (h := fun bk => match trm bk with TUnreach => Block [] [] TUnreach | _ => bk end).
  assert (Ht : forall bk, trm (h bk) = trm bk) by (intros bk; unfold h; destruct (trm bk) eqn:E; auto).
  assert (Hp : forall bk ph, In ph (phis (h bk)) -> In ph (phis bk)) by (intros bk ph; unfold h; destruct (trm bk); auto; contradiction).
  apply (wf_same f _ (fun _ bk => h bk)); auto.
  - unfold unreachableEliminate. rewrite map_map. reflexivity.
  - intros k. unfold unreachableEliminate. apply (get_map h).
  - intros k bk Hk. pose proof (U1 k bk Hk). split; unfold h; destruct (trm bk); auto; try contradiction. constructor.
  - intros k bk x Hk. rewrite Ht. apply (W4 k bk x Hk).
  - intros k bk ph p o Hk Hph Hin. destruct (W5 k bk ph p o Hk (Hp _ _ Hph) Hin) as (pb & A & B). exists pb. rewrite Ht. auto.
  - intros k bk ph p pb Hk Hph Hpp. rewrite Ht. apply (W6 k bk ph p pb); auto.
Qed.

Lemma get_removePhis_fold b l : NoDup l -> forall f k,
  get k (fold_left (fun g t => onBlock t (removePhi b) g) l f) = option_map (fun bk => if existsb (Nat.eqb k) l then removePhi b bk else bk) (get k f).
Proof.
  induction l as [|s l IH]; intros N f k; cbn.
  - now destruct (get k f).
  - inversion N as [|? ? N1 N2]; subst. rewrite IH; auto. rewrite get_onBlock. destruct (get k f) as [bk|]; cbn; auto.
    destruct (Nat.eqb_spec k s) as [->|]; cbn; auto. rewrite (proj2 (existsb_nIn s l) N1). reflexivity.
Qed.
Lemma fst_removePhis_fold b l : forall f, map fst (fold_left (fun g t => onBlock t (removePhi b) g) l f) = map fst f.
Proof. induction l as [|s l IH]; intros f; cbn; auto. rewrite IH. apply fst_onBlock. Qed.
Lemma noReturn1_wf knd f b : wf f -> wf (noReturn1 knd f b).
Proof.
  intros Hw. unfold noReturn1. destruct (get b f) as [bk|] eqn:Eb; auto. destruct (splitCall knd (body bk)) as [[a c]|] eqn:Es; auto.
  pose proof (splitCall_app _ _ _ _ Es) as Hac. set (h := undefO (map dst c)). set (L := nodup Nat.eq_dec (succs (trm bk))).
  assert (NL : NoDup L) by apply NoDup_nodup.
  assert (HL : forall x, In x L <-> In x (succs (trm bk))) by (intros x; apply nodup_In).
  apply (wf_dropEdges (subst h f) _ b (mapOps h bk) L (map (fun i => Inst (dst i) (opc i) (map h (ops i))) a) TUnreach).
  - now apply wf_subst.
  - now rewrite get_subst, Eb.
  - rewrite fst_onBlock. unfold subst. rewrite !map_map. cbn. apply fst_removePhis_fold.
  - intros k. rewrite get_onBlock, !get_subst, (get_removePhis_fold b L NL). destruct (get k f) as [bk0|] eqn:Ek; auto. cbn [option_map].
    assert (E : forall l, removePhis b (map (fun ph => Phi (pdst ph) (map (fun x => (fst x, h (snd x))) (inc ph))) l) =
       map (fun ph => Phi (pdst ph) (map (fun x => (fst x, h (snd x))) (inc ph))) (removePhis b l)).
    { induction l as [|ph l IH]; cbn; auto. unfold hasSource. cbn [inc]. rewrite get_map. destruct (get b (inc ph)); cbn; auto. rewrite IH. f_equal.
      unfold removeSource. cbn. f_equal. clear. induction (inc ph) as [|[x y] q IHq]; cbn; auto. destruct (Nat.eqb x b); cbn; congruence. }
    f_equal. destruct (Nat.eqb_spec k b) as [->|].
    + assert (bk0 = bk) by congruence. subst. cbn.
      assert (Ef : firstn (length a) (map (fun i => Inst (dst i) (opc i) (map h (ops i))) (body bk)) = map (fun i => Inst (dst i) (opc i) (map h (ops i))) a).
      { rewrite Hac, map_app. rewrite <- (map_length (fun i => Inst (dst i) (opc i) (map h (ops i))) a) at 1. apply firstn_len. }
      destruct (existsb (Nat.eqb b) L); cbn; rewrite ?E, Ef; reflexivity.
    + destruct (existsb (Nat.eqb k) L); cbn; rewrite ?E; reflexivity.
  - intros x. cbn. rewrite !map_map. cbn. rewrite Hac, map_app. intros H. apply in_or_app. auto.
  - cbn. rewrite !map_map. cbn. pose proof (wf_NoDup_block f b bk Hw Eb) as N. rewrite Hac, map_app, app_assoc in N. exact (NoDup_app_l _ _ N).
  - intros x [].
  - intros x Hx. split; [|intros []]. apply HL in Hx. cbn. destruct (trm bk) as [| | |[|]|]; auto.
  - intros x xb Hx _ _. left. apply HL. cbn in Hx. destruct (trm bk) as [| | |[|]|]; auto.
Qed.

(** *** BlockEliminate *)
Lemma removePhis_idem b l : removePhis b (removePhis b l) = removePhis b l.
Proof.
  induction l as [|ph l IH]; cbn; auto. destruct (hasSource b ph) eqn:E; cbn; [|now rewrite E].
  assert (N : hasSource b (removeSource b ph) = false).
  { unfold hasSource, removeSource. cbn. clear. induction (inc ph) as [|[x o] q IH]; cbn; auto.
    destruct (Nat.eqb_spec x b) as [->|D]; cbn; auto. destruct (Nat.eqb_spec x b); [congruence|]. exact IH. }
  now rewrite N.
Qed.
Lemma get_removeKept (keep : nat -> bool) x l : forall g k,
  get k (fold_left (fun g' t => if keep t then onBlock t (removePhi x) g' else g') l g) =
  option_map (fun bk => if existsb (Nat.eqb k) l && keep k then removePhi x bk else bk) (get k g).
Proof.
  induction l as [|s l IH]; intros g k; cbn; [now destruct (get k g)|].
  rewrite IH. destruct (keep s) eqn:Es.
  - rewrite get_onBlock. destruct (get k g) as [bk|]; cbn; auto. f_equal. destruct (Nat.eqb_spec k s) as [->|]; cbn; auto.
    rewrite Es, andb_true_r. destruct (existsb (Nat.eqb s) l); auto. unfold removePhi. cbn. now rewrite removePhis_idem.
  - destruct (get k g) as [bk|]; cbn; auto. f_equal. destruct (Nat.eqb_spec k s) as [->|]; cbn; auto. now rewrite Es, andb_false_r.
Qed.
Definition strip (S : list nat) (ph : phi) : phi := Phi (pdst ph) (filter (fun x => negb (existsb (Nat.eqb (fst x)) S)) (inc ph)).
Lemma get_strip S p ph : ~ In p S -> get p (inc (strip S ph)) = get p (inc ph).
Proof. intros H. cbn. rewrite (get_filter (fun x => negb (existsb (Nat.eqb x) S))). now rewrite (proj2 (existsb_nIn p S) H). Qed.
Lemma strip_nil ph : strip [] ph = ph.
Proof. destruct ph as [x l]. unfold strip. cbn. f_equal. induction l as [|a l IH]; cbn; congruence. Qed.
Lemma strip_app x S ph : removeSource x (strip S ph) = strip (x :: S) ph.
Proof.
  unfold removeSource, strip. cbn. f_equal. induction (inc ph) as [|[p o] l IH]; cbn; auto.
  destruct (existsb (Nat.eqb p) S) eqn:E; cbn.
  - rewrite orb_true_r. cbn. exact IH.
  - rewrite orb_false_r. destruct (Nat.eqb p x); cbn; congruence.
Qed.
Lemma strip_absent x S ph : (forall o, ~ In (x, o) (inc ph)) -> strip (x :: S) ph = strip S ph.
Proof.
  intros H. unfold strip. cbn. f_equal. induction (inc ph) as [|[p o] l IH]; cbn; auto.
  assert (p <> x) by (intros ->; apply (H o); cbn; auto).
  destruct (Nat.eqb_spec p x); [congruence|]. cbn. rewrite IH; auto. intros o' Ho'. apply (H o'). cbn. auto.
Qed.
Lemma NoDup_fst_filter {A} q (f : list (nat * A)) : NoDup (map fst f) -> NoDup (map fst (filter q f)).
Proof.
  induction f as [|[k b] f IH]; cbn; intros N; [constructor|]. inversion N as [|? ? N1 N2]; subst.
  destruct (q (k, b)); auto. cbn. constructor; auto. intros K. apply N1. apply in_map_iff in K as ([a c] & <- & K). apply filter_In in K as [K _].
  apply (in_map fst) in K. exact K.
Qed.
Lemma fst_filterk {A} (q : nat -> bool) (f : list (nat * A)) : map fst (filter (fun x => q (fst x)) f) = filter q (map fst f).
Proof. induction f as [|[k b] f IH]; cbn; auto. destruct (q k); cbn; congruence. Qed.
Lemma blockEliminate_wf f : wf f -> wf (blockEliminate f).
Proof.
  intros (W1 & W2 & W4 & W5 & W6). pose proof (proj1 (uniqR_iff f (proj1 W2)) (proj2 W2)) as [U1 U2]. unfold blockEliminate.
  destruct (reachable_closed f W4 W1) as [Hr Hr2].
  set (r := reachable f) in *. set (keep := fun b => existsb (Nat.eqb b) r).
  set (removed := filter (fun x => negb (keep (fst x))) f).
  set (h := undefO (flat_map (fun x => resultsOf (snd x)) removed)).
  set (kept := filter (fun x => keep (fst x)) f).
  assert (Hgk : forall b, get b kept = if keep b then get b f else None) by (intros; apply get_filter).
  (* the blocks processed so far *)
  assert (HF : forall l S g, (forall x xb, In (x, xb) l -> get x f = Some xb /\ keep x = false) -> NoDup (map fst l ++ S) ->
     map fst g = map fst kept ->
     (forall k, get k g = option_map (fun bk => Block (map (strip S) (phis (mapOps h bk))) (body (mapOps h bk)) (trm (mapOps h bk))) (get k kept)) ->
     let g' := fold_left (fun g x => fold_left (fun g' t => if keep t then onBlock t (removePhi (fst x)) g' else g') (succs (trm (snd x))) g) l g in
     map fst g' = map fst kept /\
     forall k, get k g' = option_map (fun bk => Block (map (strip (rev (map fst l) ++ S)) (phis (mapOps h bk))) (body (mapOps h bk)) (trm (mapOps h bk))) (get k kept)).
  { induction l as [|[x xb] l IH]; intros S g Hl N Hfst Hg; [cbn; auto|]. cbn [fold_left fst snd].
    destruct (Hl x xb (or_introl eq_refl)) as [Hx Hkx].
    cbn [map fst app] in N. inversion N as [|? ? N1 N2]; subst.
    set (g1 := fold_left (fun g' t => if keep t then onBlock t (removePhi x) g' else g') (succs (trm xb)) g).
    destruct (IH (x :: S) g1) as [A B].
    - intros y yb Hy. apply Hl. now right.
    - clear - N. cbn in N. inversion N as [|? ? A B]; subst. apply (NoDup_Add (a := x) (l := map fst l ++ S)); [apply Add_app|]. auto.
    - assert (K : forall l0 g0, map fst (fold_left (fun (g' : func) t => if keep t then onBlock t (removePhi x) g' else g') l0 g0) = map fst g0).
      { induction l0 as [|s l0 IHl]; intros g0; [reflexivity|]. cbn [fold_left]. rewrite IHl. destruct (keep s); [apply fst_onBlock|reflexivity]. }
      unfold g1. now rewrite K.
    - intros k. unfold g1. rewrite get_removeKept, Hg. rewrite Hgk. destruct (keep k) eqn:Ekk; cbn; auto.
      destruct (get k f) as [kb|] eqn:Ek; cbn; auto. f_equal. rewrite andb_true_r.
      destruct (existsb (Nat.eqb k) (succs (trm xb))) eqn:Es.
      + apply existsb_In in Es. unfold removePhi. cbn. f_equal. rewrite removePhis_all.
        * rewrite map_map. apply map_ext. intros ph. apply strip_app.
        * intros ph Hph. apply in_map_iff in Hph as (ph1 & <- & Hph1). apply in_map_iff in Hph1 as (ph2 & <- & Hph2).
          rewrite get_strip. 2:{ intros K. apply N1. apply in_or_app. auto. }
          cbn. rewrite get_map. pose proof (W6 k kb ph2 x xb Ek Hph2 Hx Es). destruct (get x (inc ph2)); cbn; congruence.
      + f_equal. rewrite !map_map. apply map_ext_in. intros ph Hph. symmetry. apply strip_absent. intros o Ho. cbn in Ho.
        apply in_map_iff in Ho as ([q o0] & E & Ho). cbn in E. injection E as -> _.
        destruct (W5 k kb ph x o0 Ek Hph Ho) as (pb & Hp & Hs). assert (pb = xb) by congruence. subst pb. apply existsb_In in Hs. congruence.
    - split; [exact A|]. intros k. rewrite (B k). cbn [map rev fst]. rewrite <- app_assoc. reflexivity. }
  assert (HN : NoDup (map fst removed)).
  { unfold removed. apply NoDup_fst_filter. apply W2. }
  assert (Hrem : forall x xb, In (x, xb) removed -> get x f = Some xb /\ keep x = false).
  { intros x xb H. apply filter_In in H as [H1 H2]. cbn in H2. split; [apply In_get; auto; apply W2|]. now apply negb_true_iff. }
  match goal with |- wf ?G => set (g := G) end.
  destruct (HF removed [] (subst h kept) Hrem) as [Afst Aget].
  - now rewrite app_nil_r.
  - unfold subst. now rewrite map_map.
  - intros k. rewrite get_subst. destruct (get k kept) as [kb|]; cbn; auto. f_equal. unfold mapOps. f_equal. cbn. rewrite map_map.
    apply map_ext. intros ph. symmetry. apply strip_nil.
  - change (map fst g = map fst kept) in Afst.
    change (forall k, get k g = option_map (fun bk => Block (map (strip (rev (map fst removed) ++ [])) (phis (mapOps h bk))) (body (mapOps h bk)) (trm (mapOps h bk))) (get k kept)) in Aget.
    rewrite app_nil_r in Aget. set (S := rev (map fst removed)) in *.
    assert (HS : forall p, In p S <-> exists pb, get p f = Some pb /\ keep p = false).
    { intros p. unfold S. rewrite <- in_rev, in_map_iff. split.
      - intros ([q qb] & <- & H). exists qb. exact (Hrem q qb H).
      - intros (pb & A & B). exists (p, pb). split; auto. apply filter_In. split; [now apply get_In|]. cbn [fst]. now rewrite B. }
    assert (Hgg : forall k, get k g = if keep k then option_map (fun bk => Block (map (strip S) (phis (mapOps h bk))) (body (mapOps h bk)) (trm (mapOps h bk))) (get k f) else None).
    { intros k. rewrite Aget, Hgk. now destruct (keep k). }
    assert (Hfst2 : map fst g = filter keep (map fst f)).
    { rewrite Afst. unfold kept. apply fst_filterk. }
    assert (Hres : forall bk, resultsOf (Block (map (strip S) (phis (mapOps h bk))) (body (mapOps h bk)) (trm (mapOps h bk))) = resultsOf bk).
    { intros bk. unfold resultsOf. cbn. rewrite !map_map. reflexivity. }
    assert (Hsu : forall bk, succs (trm (mapOps h bk)) = succs (trm bk)) by (intros bk; cbn; destruct (trm bk) as [| | |[|]|]; reflexivity).
    assert (HB : exists HB : block -> block, (forall k, get k g = if keep k then option_map HB (get k f) else None) /\
       (forall bk, resultsOf (HB bk) = resultsOf bk) /\ (forall bk, succs (trm (HB bk)) = succs (trm bk)) /\
       (forall bk ph, In ph (phis (HB bk)) -> exists ph2, In ph2 (phis bk) /\ inc ph = filter (fun x => negb (existsb (Nat.eqb (fst x)) S)) (map (fun x => (fst x, h (snd x))) (inc ph2)))).
    { eexists. split; [exact Hgg|]. split; [exact Hres|]. split; [exact Hsu|]. intros bk ph Hph. cbn in Hph.
      apply in_map_iff in Hph as (ph1 & <- & Hph1). apply in_map_iff in Hph1 as (ph2 & <- & Hph2). exists ph2. split; auto. }
    clear Hgg Hres Hsu. destruct HB as (HB & Hgg & Hres & Hsu & Hphs).
    assert (Hinv : forall k bk, get k g = Some bk -> exists kb, get k f = Some kb /\ keep k = true /\ bk = HB kb).
    { intros k bk Hk. rewrite Hgg in Hk. destruct (keep k) eqn:E1; try discriminate. destruct (get k f) as [kb|]; try discriminate. injection Hk as <-. eauto. }
    clearbody g. split; [|split; [split|split; [|split]]].
    + intros ->. cbn in Hfst2. assert (In (entry f) (filter keep (map fst f))).
      { apply filter_In. split; [|now apply existsb_In]. destruct f as [|[b0 k0] f0]; [congruence|]. cbn. auto. }
      rewrite <- Hfst2 in H. contradiction.
    + rewrite Hfst2. apply NoDup_filter. apply W2.
    + apply uniqR_iff; [rewrite Hfst2; apply NoDup_filter; apply W2|]. split.
      * intros k bk Hk. apply Hinv in Hk as (kb & Hk & _ & ->). rewrite Hres. eauto.
      * intros k1 k2 b1 b2 x H1 H2 X1 X2. apply Hinv in H1 as (c1 & E1 & _ & ->). apply Hinv in H2 as (c2 & E2 & _ & ->).
        rewrite Hres in X1, X2. eauto.
    + intros b bk t Hb Ht. apply Hinv in Hb as (b0 & E & Ekb & ->). rewrite Hsu in Ht. rewrite Hfst2. apply filter_In. split; [eapply W4; eauto|].
      apply existsb_In. apply (Hr2 b b0 t); auto. now apply existsb_In.
    + intros k bk ph p o Hk Hph Hin. apply Hinv in Hk as (kb & E & Ekk & ->). apply Hphs in Hph as (ph2 & Hph2 & Ei). rewrite Ei in Hin.
      apply filter_In in Hin as [Hin Hns]. cbn in Hns. apply negb_true_iff in Hns. apply in_map_iff in Hin as ([q o0] & E1 & Hin). cbn in E1. injection E1 as -> _.
      destruct (W5 k kb ph2 p o0 E Hph2 Hin) as (pb & Hp & Hs). rewrite Hgg, Hp.
      assert (Hkp : keep p = true). { destruct (keep p) eqn:Ekp; auto. exfalso. apply existsb_nIn in Hns. apply Hns. apply HS. eauto. }
      rewrite Hkp. cbn [option_map]. eexists; split; [reflexivity|]. now rewrite Hsu.
    + intros k bk ph p pb Hk Hph Hp Hin. apply Hinv in Hk as (kb & E & Ekk & ->). apply Hinv in Hp as (p0 & E0 & Ekp & ->). rewrite Hsu in Hin.
      apply Hphs in Hph as (ph2 & Hph2 & Ei). rewrite Ei. rewrite (get_filter (fun x => negb (existsb (Nat.eqb x) S))).
      rewrite (proj2 (existsb_nIn p S)). 2:{ intros K. apply HS in K as (pb & _ & K). congruence. }
      cbn [negb]. rewrite get_map. pose proof (W6 k kb ph2 p p0 E Hph2 E0 Hin). destruct (get p (inc ph2)); cbn; congruence.
Qed.

(** *** BlockMerge *)
Lemma join_wf f b t bk tb : wf f -> get b f = Some bk -> trm bk = TBr t -> b <> t -> t <> entry f -> get t f = Some tb -> phis tb = [] ->
  (forall p pb, get p f = Some pb -> In t (succs (trm pb)) -> p = b) -> wf (joinBlocks f b t tb).
Proof.
  intros (W1 & W2 & W4 & W5 & W6) Hb Htr D Hte Ht Hph Honly. pose proof (proj1 (uniqR_iff f (proj1 W2)) (proj2 W2)) as [U1 U2].
  set (g := joinBlocks f b t tb).
  assert (Hr : forall bk0, resultsOf (retargetBlock t b bk0) = resultsOf bk0).
  { intros bk0. unfold resultsOf. cbn. rewrite map_map. f_equal. apply map_ext. intros ph. apply pdst_retarget. }
  assert (Hinv : forall k kb', get k g = Some kb' -> k <> t /\ exists kb, get k f = Some kb /\
     resultsOf kb' = (if Nat.eqb k b then resultsOf kb ++ map dst (body tb) else resultsOf kb) /\
     trm kb' = (if Nat.eqb k b then trm tb else trm kb) /\
     phis kb' = (if existsb (Nat.eqb k) (succs (trm tb)) then map (retargetPhi t b) (phis kb) else phis kb)).
  { intros k kb' Hk. unfold g in Hk. rewrite get_join in Hk. destruct (Nat.eqb_spec k t) as [|Dk]; try discriminate. split; auto.
    destruct (get k f) as [kb|] eqn:Ek; try discriminate. cbn [option_map] in Hk. injection Hk as <-. exists kb. split; auto.
    destruct (existsb (Nat.eqb k) (succs (trm tb))), (Nat.eqb k b); rewrite ?Hr; unfold resultsOf; cbn; rewrite ?map_app, ?app_assoc; auto. }
  assert (Hex : forall k kb, get k f = Some kb -> k <> t -> exists kb', get k g = Some kb').
  { intros k kb Hk Dk. unfold g. rewrite get_join, Hk. destruct (Nat.eqb_spec k t); [congruence|]. cbn. eauto. }
  assert (Rt : resultsOf tb = map dst (body tb)) by (unfold resultsOf; now rewrite Hph).
  split; [|split; [split|split; [|split]]].
  - intros E. unfold g in E. pose proof (entry_join f b t tb (not_eq_sym Hte)) as E1. pose proof (fst_join f b t tb) as E2. rewrite E in E2. cbn in E2.
    assert (In (entry f) (filter (fun x => negb (Nat.eqb x t)) (map fst f))).
    { apply filter_In. split; [destruct f as [|[b0 k0] f0]; [congruence|]; cbn; auto|]. apply negb_true_iff, Nat.eqb_neq. auto. }
    rewrite <- E2 in H. contradiction.
  - unfold g. rewrite fst_join. apply NoDup_filter. apply W2.
  - apply uniqR_iff; [unfold g; rewrite fst_join; apply NoDup_filter; apply W2|]. split.
    + intros k kb' Hk. apply Hinv in Hk as (Dk & kb & Ek & Er & _ & _). rewrite Er. destruct (Nat.eqb_spec k b) as [->|]; [|eauto].
      assert (kb = bk) by congruence. subst kb. apply NoDup_app_i; eauto.
      * rewrite <- Rt. eauto.
      * intros x X1 X2. rewrite <- Rt in X2. apply D. apply (U2 b t bk tb x); auto.
    + intros k1 k2 b1 b2 x H1 H2 X1 X2. apply Hinv in H1 as (D1 & c1 & E1 & R1 & _ & _). apply Hinv in H2 as (D2 & c2 & E2 & R2 & _ & _).
      assert (K : forall k c, get k f = Some c -> k <> t -> In x (if Nat.eqb k b then resultsOf c ++ map dst (body tb) else resultsOf c) ->
                 In x (resultsOf c) \/ (k = b /\ In x (resultsOf tb))).
      { intros k c Hc Dk Hx. destruct (Nat.eqb_spec k b) as [->|]; auto. apply in_app_or in Hx as [Hx|Hx]; auto. right. rewrite Rt. auto. }
      rewrite R1 in X1. rewrite R2 in X2. apply K in X1; auto. apply K in X2; auto.
      destruct X1 as [X1|[-> X1]], X2 as [X2|[-> X2]]; auto.
      * apply (U2 k1 k2 c1 c2 x); auto.
      * exfalso. apply D1. apply (U2 k1 t c1 tb x); auto.
      * exfalso. apply D2. apply (U2 k2 t c2 tb x); auto.
  - intros k kb' x Hk Hx. apply Hinv in Hk as (Dk & kb & Ek & _ & Et & _). rewrite Et in Hx. unfold g. rewrite fst_join. apply filter_In. split.
    + destruct (Nat.eqb k b); [exact (W4 t tb x Ht Hx)|exact (W4 k kb x Ek Hx)].
    + apply negb_true_iff, Nat.eqb_neq. intros ->. destruct (Nat.eqb_spec k b) as [->|Dkb].
      * apply D. symmetry. exact (Honly t tb Ht Hx).
      * apply Dkb. exact (Honly k kb Ek Hx).
  - unfold g. eapply phiPreds_join; eauto.
  - intros k kb' ph p pb' Hk Hph' Hp Hin. apply Hinv in Hk as (Dk & kb & Ek & _ & _ & Ep). apply Hinv in Hp as (Dp & pb & Ep0 & _ & Et & _).
    rewrite Et in Hin. rewrite Ep in Hph'.
    assert (Hnob : forall ph0, In ph0 (phis kb) -> get b (inc ph0) = None).
    { intros ph0 H0. apply pred_get. intros o Ho. destruct (W5 k kb ph0 b o Ek H0 Ho) as (qb & Hq & Hs). assert (qb = bk) by congruence. subst qb.
      rewrite Htr in Hs. destruct Hs as [Hs|[]]. congruence. }
    destruct (Nat.eqb_spec p b) as [->|Dpb].
    + rewrite (proj2 (existsb_In k _) Hin) in Hph'. apply in_map_iff in Hph' as (ph0 & <- & Hph0). rewrite get_retarget_new by auto.
      exact (W6 k kb ph0 t tb Ek Hph0 Ht Hin).
    + destruct (existsb (Nat.eqb k) (succs (trm tb))).
      * apply in_map_iff in Hph' as (ph0 & <- & Hph0). rewrite get_retarget_other by auto. exact (W6 k kb ph0 p pb Ek Hph0 Ep0 Hin).
      * exact (W6 k kb ph p pb Ek Hph' Ep0 Hin).
Qed.
Lemma merge1_wf dom ref e0 f b : (forall a, a <> e0 -> dom a e0 = false) -> mergeInv ref e0 f -> wf f -> wf (merge1 dom ref f b).
Proof.
  intros Hd (N & Hpp & He & Hr) Hw. unfold merge1. destruct (get b f) as [bk|] eqn:Eb; auto.
  destruct (trm bk) as [t| | | |] eqn:Et; auto.
  destruct (Nat.eqb_spec b t) as [|D]; auto.
  destruct (dom b t) eqn:Edom; cbn [negb]; auto.
  destruct (Nat.eqb_spec (ref t) 1) as [Er|]; cbn [negb]; auto.
  destruct (get t f) as [tb|] eqn:Ett; auto.
  destruct (phis tb) eqn:Eph; auto.
  apply join_wf with (bk := bk); auto.
  - rewrite He. intros ->. rewrite (Hd b D) in Edom. discriminate.
  - intros p pb Hp Hin. rewrite (Hr t (get_In_fst _ _ _ Ett)) in Er. unfold blockRef in Er.
    assert ((p, pb) = (b, bk)); [|congruence].
    apply (filter_one (leadsTo t) f); auto; try (apply get_In; auto).
    + unfold leadsTo. cbn. now apply existsb_In.
    + unfold leadsTo. cbn. rewrite Et. cbn. now rewrite Nat.eqb_refl.
Qed.
Lemma tryMerge_wf dom f : (forall a, a <> entry f -> dom a (entry f) = false) -> wf f -> wf (tryMerge dom f).
Proof.
  intros Hd Hw. unfold tryMerge. assert (Hi : mergeInv (blockRef f) (entry f) f) by (destruct Hw as (? & ? & ? & ? & ?); repeat split; auto; apply H0).
  revert Hi. generalize (blockRef f) (entry f) Hd. clear Hd. intros ref e0 Hd Hi. generalize (map fst f). intros l. revert f Hw Hi.
  induction l as [|b l IH]; intros f Hw Hi; cbn; auto. apply IH.
  - eapply merge1_wf; eauto.
  - now apply (merge1_ok (fun _ => KPure)).
Qed.
Lemma wf_NoDup f : wf f -> NoDup (map fst f).
Proof. intros (_ & (N & _) & _). exact N. Qed.
Lemma wf_phiPreds f : wf f -> phiPreds f.
Proof. intros (_ & _ & _ & N & _). exact N. Qed.
Lemma blockMergeN_wf dom n : forall f, (forall a, a <> entry f -> dom a (entry f) = false) -> wf f -> wf (blockMergeN dom n f) /\ entry (blockMergeN dom n f) = entry f.
Proof.
  induction n as [|n IH]; intros f Hd Hw; cbn; auto.
  destruct (tryMerge_ok (fun _ => KPure) dom f Hd (wf_NoDup f Hw) (wf_phiPreds f Hw)) as (_ & _ & _ & E & _).
  pose proof (tryMerge_wf dom f Hd Hw) as Hw'. destruct (Nat.eqb (length (tryMerge dom f)) (length f)); auto.
  destruct (IH (tryMerge dom f)) as [A B]; auto.
  - rewrite E. exact Hd.
  - split; auto. congruence.
Qed.

(** *** CombineBranch, ForwardBranch, UnifyReturn *)
Lemma wf_res f g : wf f -> map fst g = map fst f -> sameResults f g -> closed g -> phiPreds g -> phiAll g -> wf g.
Proof.
  intros (W1 & W2 & W4 & W5 & W6) Hfst Hs Hc Hpp Hpa. pose proof (proj1 (uniqR_iff f (proj1 W2)) (proj2 W2)) as [U1 U2].
  split; [|split; [split|split; [|split]]]; auto.
  - intros ->. cbn in Hfst. destruct f; [congruence|discriminate].
  - rewrite Hfst. apply W2.
  - apply uniqR_iff; [rewrite Hfst; apply W2|]. split.
    + intros k kb' Hk. apply Hs in Hk as (kb & Ek & ->). eauto.
    + intros k1 k2 b1 b2 x H1 H2 X1 X2. apply Hs in H1 as (c1 & E1 & R1). apply Hs in H2 as (c2 & E2 & R2). rewrite R1 in X1. rewrite R2 in X2. eauto.
Qed.
Lemma combineBranch_wf f : wf f -> wf (combineBranch f).
Proof.
  intros Hw. unfold combineBranch. set (fwd := map fst (filter isForwardBlock f)).
  assert (H0 : fwdInv fwd f).
  { intros t Ht. apply in_map_iff in Ht. destruct Ht as ([x y] & <- & H). apply filter_In in H. destruct H as [H1 H2]. cbn.
    unfold isForwardBlock in H2. cbn in H2. destruct y as [[|] [|] [r| | | |]]; try discriminate. exists r. apply In_get; auto. now apply wf_NoDup. }
  clearbody fwd. generalize (map fst f). intros l. revert f Hw H0.
  assert (S1 : forall f b a, wf f -> fwdInv fwd f -> wf (foldArm fwd b f a) /\ fwdInv fwd (foldArm fwd b f a)).
  { intros f b a Hw H0. destruct (foldArm_ok (fun _ => KPure) fwd b f a H0) as (_ & A & B & C & D & E & F); try apply Hw.
    split; auto. apply (wf_res f); auto. apply F. apply Hw. }
  induction l as [|b l IH]; intros f Hw H0; [exact Hw|]. cbn [fold_left].
  destruct (S1 f b true Hw H0) as [A1 B1]. destruct (S1 _ b false A1 B1) as [A2 B2]. apply IH; auto.
Qed.
Lemma forwardBranchChecked_wf f : wf f -> wf (forwardBranchChecked f).
Proof.
  unfold forwardBranchChecked. apply wf_fold. clear f. intros f b Hw.
  assert (S1 : forall f a, wf f -> distinctArms f b = true -> wf (tryForward b a f)).
  { clear. intros f a Hw E. destruct (tryForward_ok (fun _ => KPure) f b a E) as (_ & A & B & C & D & F); try apply Hw.
    apply (wf_res f); auto. apply F. apply Hw. }
  unfold forwardBranchChecked1. destruct (distinctArms f b) eqn:E1; auto. pose proof (S1 f true Hw E1) as H1.
  destruct (distinctArms (tryForward b true f) b) eqn:E2; auto.
Qed.

Lemma get_filterMap_In (l : list (nat * option opnd)) p o :
  In (p, o) (filterMap (fun r => match snd r with Some o => Some (fst r, o) | None => None end) l) -> In (p, Some o) l.
Proof.
  induction l as [|[x [v|]] l IH]; cbn; auto. intros [H|H]; auto. left. congruence.
Qed.
Lemma retsOf_In f p v : In (p, v) (retsOf f) -> exists bk, In (p, bk) f /\ trm bk = TRet v.
Proof.
  unfold retsOf. induction f as [|[x xb] f IH]; cbn; [contradiction|]. unfold retOf at 1. cbn [snd fst].
  assert (K : In (p, v) (filterMap retOf f) -> exists bk, ((x, xb) = (p, bk) \/ In (p, bk) f) /\ trm bk = TRet v).
  { intros H. destruct (IH H) as (bk & A & B). eauto. }
  destruct (trm xb) eqn:Et; auto. intros [H|H]; auto. injection H as -> ->. eauto.
Qed.
Lemma unifyReturn_wf noReturn isVoid ex px f : wf f -> ~ In ex (map fst f) -> ~ In px (allResults f) ->
  (forall b bk v, get b f = Some bk -> trm bk = TRet v -> isVoid = true <-> v = None) -> wf (unifyReturn noReturn isVoid ex px f).
Proof.
  intros Hw Hex Hpx Hty. unfold unifyReturn. destruct noReturn; auto. destruct (Nat.eqb (length f) 1); auto. destruct (Nat.leb (length (retsOf f)) 1); auto.
  set (g := map (fun x => (fst x, branchTo ex (snd x))) f ++ [(ex, exitBlock isVoid px (retsOf f))]).
  pose proof (wf_uniqR f Hw) as [U1 U2]. destruct Hw as (W1 & W2 & W4 & W5 & W6).
  assert (Hfst : map fst g = map fst f ++ [ex]) by (unfold g; rewrite map_app, map_map; reflexivity).
  assert (Hg : forall k, get k g = match get k f with Some bk => Some (branchTo ex bk) | None => if Nat.eqb ex k then Some (exitBlock isVoid px (retsOf f)) else None end).
  { intros k. unfold g. rewrite get_app, (get_map (branchTo ex)). destruct (get k f); reflexivity. }
  assert (Hexf : get ex f = None) by (now apply get_None).
  assert (HN : NoDup (map fst g)).
  { rewrite Hfst. apply NoDup_app_i; [apply W2|constructor; [auto|constructor]|]. intros x H [<-|[]]. tauto. }
  assert (Hres : forall bk, resultsOf (branchTo ex bk) = resultsOf bk) by (intros bk; unfold branchTo; destruct (trm bk); reflexivity).
  assert (Hphi : forall bk, phis (branchTo ex bk) = phis bk) by (intros bk; unfold branchTo; destruct (trm bk); reflexivity).
  assert (Hsu : forall bk x, In x (succs (trm (branchTo ex bk))) <-> In x (succs (trm bk)) \/ (x = ex /\ exists v, trm bk = TRet v)).
  { intros bk x. unfold branchTo. destruct (trm bk) eqn:Et; cbn [trm setTerm]; rewrite ?Et; cbn; split; intros H;
      try (destruct H as [H|[_ [? H]]]; [|discriminate]); auto; try (destruct H as [<-|[]]; eauto); try (destruct H as [[]|[-> _]]; auto). }
  assert (Hpn : forall k kb x, get k f = Some kb -> In x (succs (trm kb)) -> x <> ex).
  { intros k kb x Hk Hx ->. apply Hex. exact (W4 k kb ex Hk Hx). }
  assert (Hpr : forall k kb, get k f = Some kb -> ~ In px (resultsOf kb)).
  { intros k kb Hk Hin. apply Hpx. apply in_flat_map. exists (k, kb). split; auto. now apply get_In. }
  assert (Hxr : forall x, In x (resultsOf (exitBlock isVoid px (retsOf f))) -> x = px).
  { intros x. unfold exitBlock. destruct isVoid; cbn; intuition auto. }
  split; [|split; [split|split; [|split]]].
  - intros E. rewrite E in Hfst. destruct (map fst f); discriminate.
  - exact HN.
  - apply uniqR_iff; auto. split.
    + intros k kb' Hk. rewrite Hg in Hk. destruct (get k f) as [kb|] eqn:Ek.
      * injection Hk as <-. rewrite Hres. eauto.
      * destruct (Nat.eqb ex k); try discriminate. injection Hk as <-. unfold exitBlock. destruct isVoid; cbn; repeat constructor; auto.
    + intros k1 k2 b1 b2 x H1 H2 X1 X2. rewrite Hg in H1, H2. destruct (get k1 f) as [c1|] eqn:E1, (get k2 f) as [c2|] eqn:E2.
      * injection H1 as <-. injection H2 as <-. rewrite Hres in X1, X2. eauto.
      * destruct (Nat.eqb_spec ex k2); try discriminate. injection H1 as <-. injection H2 as <-. rewrite Hres in X1. apply Hxr in X2. subst x. exfalso. eapply Hpr; eauto.
      * destruct (Nat.eqb_spec ex k1); try discriminate. injection H1 as <-. injection H2 as <-. rewrite Hres in X2. apply Hxr in X1. subst x. exfalso. eapply Hpr; eauto.
      * destruct (Nat.eqb_spec ex k1), (Nat.eqb_spec ex k2); congruence.
  - intros k kb' x Hk Hx. rewrite Hfst. apply in_or_app. rewrite Hg in Hk. destruct (get k f) as [kb|] eqn:Ek.
    + injection Hk as <-. apply Hsu in Hx as [Hx|[-> _]]; [left; exact (W4 k kb x Ek Hx)|right; cbn; auto].
    + destruct (Nat.eqb ex k); try discriminate. injection Hk as <-. unfold exitBlock in Hx. destruct isVoid; contradiction.
  - intros k kb' ph p o Hk Hph Hin. rewrite Hg in Hk. destruct (get k f) as [kb|] eqn:Ek.
    + injection Hk as <-. rewrite Hphi in Hph. destruct (W5 k kb ph p o Ek Hph Hin) as (pb & Hp & Hs). rewrite Hg, Hp. eexists; split; [reflexivity|]. apply Hsu. auto.
    + destruct (Nat.eqb_spec ex k) as [<-|]; try discriminate. injection Hk as <-. unfold exitBlock in Hph. destruct isVoid; [contradiction|]. cbn in Hph. destruct Hph as [<-|[]].
      cbn in Hin. apply get_filterMap_In in Hin. apply retsOf_In in Hin as (bk & Hin & Ht). apply In_get in Hin; [|apply W2]. rewrite Hg, Hin. eexists; split; [reflexivity|].
      apply Hsu. right. eauto.
  - intros k kb' ph p pb' Hk Hph Hp Hin. rewrite Hg in Hk. destruct (get k f) as [kb|] eqn:Ek.
    + injection Hk as <-. rewrite Hphi in Hph. rewrite Hg in Hp. destruct (get p f) as [pb|] eqn:Ep.
      * injection Hp as <-. apply Hsu in Hin as [Hin|[-> _]]; [|congruence]. exact (W6 k kb ph p pb Ek Hph Ep Hin).
      * destruct (Nat.eqb ex p); try discriminate. injection Hp as <-. unfold exitBlock in Hin. destruct isVoid; contradiction.
    + destruct (Nat.eqb_spec ex k) as [<-|]; try discriminate. injection Hk as <-. unfold exitBlock in Hph. destruct isVoid eqn:Ev; [contradiction|]. cbn in Hph. destruct Hph as [<-|[]].
      rewrite Hg in Hp. destruct (get p f) as [pb|] eqn:Ep.
      * injection Hp as <-. apply Hsu in Hin as [Hin|[_ [v Ht]]]; [exfalso; exact (Hpn p pb ex Ep Hin eq_refl)|].
        destruct (Hty p pb v Ep Ht) as [_ T2]. destruct v as [o|]; [|specialize (T2 eq_refl); discriminate]. cbn [inc].
        rewrite (get_incs f p pb o Ep Ht); [discriminate| |apply W2]. intros b' bk' Hb' Ht'. destruct (Hty b' bk' None Hb' Ht') as [_ T3]. specialize (T3 eq_refl). discriminate.
      * destruct (Nat.eqb ex p); try discriminate. injection Hp as <-. contradiction.
Qed.
