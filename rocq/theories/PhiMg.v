(** C51: a block of phis that only hands them on is merged into its successor, PhiMerge (cmmc/Transforms/ControlFlow/PhiMerge.cpp). *)
From Coq Require Import ZArith Lia Bool List Arith.
From Verif Require Import Sim Ssa SsaCfg SsaMerge SsaFwd SsaFwd2 SsaWf SsaDom SsaProps SsaSub SsaVerify SsaEq SsaPhi SsaCse SsaDce SsaIns SsaGvn CodeMotion M2RRun.
Import ListNotations.

(** ** the pass *)
(** lines 79-97: a result of a phi of [b] is used at most once, by a phi of [t] as its value for [b] *)
Definition phiUse (x : nat) (ph : phi) : bool := existsb (fun z => opnd_eqb (snd z) (ORes x)) (inc ph).
Definition handsOn (f : func) (b t x : nat) : bool :=
  (count_occ Nat.eq_dec (flat_map (fun kb => usesOf (snd kb)) f) x <=? 1) &&
  forallb (fun kb => negb (inb x (bodyUses (body (snd kb)) ++ termUses (trm (snd kb)))) &&
                     forallb (fun ph => negb (phiUse x ph) || (Nat.eqb (fst kb) t && match get b (inc ph) with Some o => opnd_eqb o (ORes x) | None => false end))
                             (phis (snd kb))) f.
(** lines 54-113: the block to merge into.  predecessors, successors: CFGAnalysis *)
Definition phiMergeTo (f : func) (b : nat) (bb : block) : option nat :=
  match body bb, trm bb with
  | [], TBr t =>
    match get t f with
    | Some tb =>
      if negb (Nat.eqb t b) && negb (match phis bb with [] => true | _ => false end) && negb (match phis tb with [] => true | _ => false end) &&
         forallb (handsOn f b t) (map pdst (phis bb)) &&
         forallb (fun kb => negb (inb b (succs (trm (snd kb)))) || negb (inb t (succs (trm (snd kb))))) f
      then Some t else None
    | None => None
    end
  | _, _ => None
  end.
(** cmmc/Transforms/Util/BlockUtil.cpp:200-217 resetTarget *)
Definition resetT (b t k : nat) : nat := if Nat.eqb k b then t else k.
Definition resetTarget (b t : nat) (tm : term) : term :=
  match tm with
  | TBr x => TBr (resetT b t x)
  | TCond c x y => TCond c (resetT b t x) (resetT b t y)
  | TSwitch c cs d => TSwitch c (map (fun z => (fst z, resetT b t (snd z))) cs) (resetT b t d)
  | _ => tm
  end.
Definition predsOf (f : func) (b : nat) : list nat := map fst (filter (fun kb => inb b (succs (trm (snd kb)))) f).
Definition incAt (p : nat) (ph : phi) : opnd := match get p (inc ph) with Some o => o | None => OCst VUndef end.
(** lines 120-128: the value for [p] of a phi of [t]: through the phi of [b] if it is one, or what it was *)
Definition through (bphis : list phi) (b p : nat) (ph : phi) : opnd :=
  match incAt b ph with
  | ORes x => match find (fun q => Nat.eqb (pdst q) x) bphis with Some q => incAt p q | None => ORes x end
  | o => o
  end.
(** lines 115-145: lines 117 and 133-140 *)
Definition mergedPhi (f : func) (b : nat) (bphis : list phi) (ph : phi) : phi :=
  Phi (pdst ph) (inc (removeSource b ph) ++ map (fun p => (p, through bphis b p ph)) (predsOf f b)).
Definition mergeBlk (f : func) (b t : nat) (bphis : list phi) (k : nat) (bk : block) : block :=
  Block (if Nat.eqb k t then map (mergedPhi f b bphis) (phis bk) else phis bk) (body bk) (resetTarget b t (trm bk)).
Definition mergePhis (f : func) (b t : nat) (bphis : list phi) : func :=
  map (fun kb => (fst kb, mergeBlk f b t bphis (fst kb) (snd kb))) (filter (fun kb => negb (Nat.eqb (fst kb) b)) f).
(** line 116: as<BranchInst> of a switch is a null pointer, which resetTarget then reads *)
Definition isSwitch (tm : term) : bool := match tm with TSwitch _ _ _ => true | _ => false end.
Definition crashes (f : func) (b : nat) : bool := existsb (fun kb => inb b (succs (trm (snd kb))) && isSwitch (trm (snd kb))) f.
(** lines 47-53, 146-152: the first block that can be merged *)
Fixpoint phiMergeFind (f : func) (l : func) : option (nat * nat * block) :=
  match l with
  | [] => None
  | (b, bb) :: l' => match phiMergeTo f b bb with Some t => Some (b, t, bb) | None => phiMergeFind f l' end
  end.
(** again until there is none; [None]: the compiler crashes *)
Fixpoint phiMergeLoop (n : nat) (f : func) : option func :=
  match n with
  | O => Some f
  | S n' =>
    match phiMergeFind f f with
    | Some (b, t, bb) => if crashes f b then None else phiMergeLoop n' (mergePhis f b t (phis bb))
    | None => Some f
    end
  end.
Definition phiMerge (f : func) : option func := phiMergeLoop (length f) f.

Lemma NoDup_fst_filter {A} (q : nat * A -> bool) l : NoDup (map fst l) -> NoDup (map fst (filter q l)).
Proof.
  induction l as [|z l IH]; cbn; intros N; auto. inversion N as [|? ? N1 N2]; subst. destruct (q z); cbn; auto. constructor; auto.
  intros H. apply N1. apply in_map_iff in H as (z' & E & H). apply filter_In in H as [H _]. rewrite <- E. now apply in_map.
Qed.
(** ** one step *)
Section PM.
Variables (f : func) (b t : nat) (bb tb : block).
Hypothesis Hf : wfs f.
Hypothesis Hb : get b f = Some bb.
Hypothesis Ht : get t f = Some tb.
Hypothesis Eb : body bb = [].
Hypothesis Tb : trm bb = TBr t.
Hypothesis Ntb : t <> b.
Hypothesis Pb : phis bb <> [].
Let X := map pdst (phis bb).
Hypothesis U1 : forall k bk x, get k f = Some bk -> In x (bodyUses (body bk) ++ termUses (trm bk)) -> ~ In x X.
Hypothesis U2 : forall k bk ph p x, get k f = Some bk -> In ph (phis bk) -> In (p, ORes x) (inc ph) -> In x X -> k = t /\ p = b.
Hypothesis NP : forall p pb, get p f = Some pb -> In b (succs (trm pb)) -> ~ In t (succs (trm pb)).
Let h := mergeBlk f b t (phis bb).
Let g := mergePhis f b t (phis bb).

Lemma pm_entry_ne : b <> entry f.
Proof using All. intros ->. apply Pb. exact (proj2 (proj2 Hf) bb Hb). Qed.
Lemma pm_get k : get k g = if Nat.eqb k b then None else option_map (h k) (get k f).
Proof using All.
  unfold g, mergePhis. rewrite (get_mapk h). rewrite (get_filter (fun k => negb (Nat.eqb k b))). destruct (Nat.eqb k b); reflexivity.
Qed.
Lemma pm_some k bk : get k g = Some bk -> k <> b /\ exists b1, get k f = Some b1 /\ bk = h k b1.
Proof using All.
  rewrite pm_get. destruct (Nat.eqb_spec k b); [discriminate|]. destruct (get k f) as [b1|]; [|discriminate]. intros [= <-]. eauto.
Qed.
Lemma pm_of k bk : get k f = Some bk -> k <> b -> get k g = Some (h k bk).
Proof using All. intros H N. rewrite pm_get, H. destruct (Nat.eqb_spec k b); [contradiction|reflexivity]. Qed.
Lemma pm_entry : entry g = entry f.
Proof using All.
  unfold g, mergePhis. rewrite (entry_mapk h). pose proof pm_entry_ne as N. destruct f as [|[e eb] r]; [reflexivity|]. cbn in N |- *.
  destruct (Nat.eqb_spec e b); [congruence|reflexivity].
Qed.
Lemma pm_fst_in k : In k (map fst g) <-> In k (map fst f) /\ k <> b.
Proof using All.
  unfold g, mergePhis. rewrite (fst_mapk h). rewrite in_map_iff. split.
  - intros ([k1 b1] & <- & H). apply filter_In in H as [H1 H2]. cbn in *. apply negb_true_iff, Nat.eqb_neq in H2. split; auto. apply (in_map fst) in H1. exact H1.
  - intros [H N]. apply in_map_iff in H as ([k1 b1] & <- & H). exists (k1, b1). split; auto. apply filter_In. split; auto. now apply negb_true_iff, Nat.eqb_neq.
Qed.
(** *** edges *)
Lemma resetT_b x : resetT b t x <> b.
Proof using All. unfold resetT. destruct (Nat.eqb_spec x b); auto. Qed.
Lemma reset_succs tm x : In x (succs (resetTarget b t tm)) <-> (x <> b /\ In x (succs tm)) \/ (x = t /\ In b (succs tm)).
Proof using All.
  assert (E : succs (resetTarget b t tm) = map (resetT b t) (succs tm)).
  { destruct tm; cbn; auto. f_equal. rewrite !map_map. reflexivity. }
  rewrite E, in_map_iff. split.
  - intros (y & <- & H). unfold resetT. destruct (Nat.eqb_spec y b) as [->|]; auto.
  - intros [[N H]|[-> H]]; [exists x|exists b]; split; auto; unfold resetT; [destruct (Nat.eqb_spec x b); congruence|now rewrite Nat.eqb_refl].
Qed.
Lemma h_trm k bk : trm (h k bk) = resetTarget b t (trm bk).
Proof using All. reflexivity. Qed.
(** a path of the new function, with [b] put in where it was, is one of the old *)
Lemma pm_path k l : path g k l -> k <> b /\ exists l', path f k l' /\ forall a, In a l' <-> In a l \/ (a = b /\ In b l').
Proof using All.
  induction 1 as [|k l bk x H [N (l' & Hl & Hi)] Hk Hx].
  - rewrite pm_entry. split; [exact (not_eq_sym pm_entry_ne)|]. exists [entry f]. split; [apply path_entry|]. intros a. split; [auto|intros [H|[-> H]]; auto].
  - apply pm_some in Hk as (_ & b1 & Hk & ->). rewrite h_trm in Hx. apply reset_succs in Hx as [[Nx Hx]|[-> Hx]].
    + split; auto. exists (x :: l'). split; [eapply path_next; eauto|]. intros a. cbn. rewrite Hi. split; [|intros [[->|Ha]|[-> [->|Ha]]]; auto; right; apply Hi; auto].
      intros [->|[Ha|[-> Ha]]]; auto.
    + split; auto. exists (t :: b :: l'). split.
      * eapply path_next; [eapply path_next; [exact Hl|exact Hk|exact Hx]|exact Hb|]. rewrite Tb. now left.
      * intros a. cbn. rewrite Hi. split; [|intros [[->|Ha]|[-> _]]; auto]. intros [->|[->|[Ha|[-> Ha]]]]; auto.
Qed.
Lemma pm_reach k : reach g k -> reach f k /\ k <> b.
Proof using All. intros [l H]. apply pm_path in H as (N & l' & H & _). split; auto. now exists l'. Qed.
Lemma pm_dom a k : a <> b -> dominates f a k -> dominates g a k.
Proof using All.
  intros N H l Hl. apply pm_path in Hl. destruct Hl as (_ & l1 & Hl & Hi). pose proof (H l1 Hl) as K. apply Hi in K. destruct K as [K|[E _]]; [exact K|contradiction].
Qed.
(** *** results *)
Lemma mergedPhi_dst l : map pdst (map (mergedPhi f b (phis bb)) l) = map pdst l.
Proof using All. now rewrite map_map. Qed.
Lemma h_results k bk : resultsOf (h k bk) = resultsOf bk.
Proof using All. unfold resultsOf. cbn. destruct (Nat.eqb k t); auto. now rewrite mergedPhi_dst. Qed.
Lemma b_results x : In x (resultsOf bb) <-> In x X.
Proof using All. unfold resultsOf. rewrite Eb. cbn. rewrite app_nil_r. tauto. Qed.
Lemma pm_defIn x d : defIn f x d -> ~ In x X -> d <> b /\ defIn g x d.
Proof using All.
  intros (bk & H & Hx) N. assert (D : d <> b) by (intros ->; assert (bk = bb) by congruence; subst; apply N; now apply b_results).
  split; auto. exists (h d bk). split; [now apply pm_of|]. now rewrite h_results.
Qed.
Lemma pm_availIn k x : availIn f k x -> ~ In x X -> availIn g k x.
Proof using All. intros (d & A & B & C) N. apply pm_defIn in A as [D A]; auto. exists d. split; auto. split; auto. now apply pm_dom. Qed.
Lemma pm_availOut k x : availOut f k x -> ~ In x X -> availOut g k x.
Proof using All. intros (d & A & B) N. apply pm_defIn in A as [D A]; auto. exists d. split; auto. now apply pm_dom. Qed.
Lemma pm_availAt k bk pre x : availAt f k bk pre x -> ~ In x X -> availAt g k (h k bk) pre x.
Proof using All.
  intros [H|[H|H]] N; [left; now apply pm_availIn|right; left|right; right; auto]. cbn. destruct (Nat.eqb k t); auto. now rewrite mergedPhi_dst.
Qed.
Lemma opImp2 (P Q : nat -> Prop) o : (forall x, P x -> In x (res_of o) -> Q x) -> opAvail P o -> opAvail Q o.
Proof using All. destruct o; cbn; auto. Qed.
Lemma preds_in p : In p (predsOf f b) <-> exists pb, get p f = Some pb /\ In b (succs (trm pb)).
Proof using All.
  unfold predsOf. rewrite in_map_iff. split.
  - intros ([k bk] & <- & H). apply filter_In in H as [H1 H2]. apply inb_iff in H2. exists bk. split; auto. apply In_get; auto. apply (proj1 (proj2 (proj1 Hf))).
  - intros (pb & H1 & H2). exists (p, pb). split; auto. apply filter_In. split; [now apply get_In|]. now apply inb_iff.
Qed.
Lemma pred_ne p : In p (predsOf f b) -> p <> b.
Proof using All. intros H ->. apply preds_in in H as (pb & H1 & H2). assert (pb = bb) by congruence. subst pb. rewrite Tb in H2. destruct H2 as [H2|[]]. auto. Qed.
Lemma merged_In ph p o : In (p, o) (inc (mergedPhi f b (phis bb) ph)) -> (p <> b /\ In (p, o) (inc ph)) \/ (In p (predsOf f b) /\ o = through (phis bb) b p ph).
Proof using All.
  unfold mergedPhi. cbn. intros H. apply in_app_or in H as [H|H].
  - apply filter_In in H as [H1 H2]. cbn in H2. apply negb_true_iff, Nat.eqb_neq in H2. auto.
  - apply in_map_iff in H as (p0 & [= <- <-] & H). auto.
Qed.
Lemma get_map_pred (q : nat -> opnd) p l : In p l -> get p (map (fun p => (p, q p)) l) = Some (q p).
Proof using All.
  induction l as [|a l IH]; [intros []|]. intros H. cbn. destruct (Nat.eqb_spec a p) as [->|N]; auto. destruct H as [H|H]; [contradiction|auto].
Qed.
Lemma get_app_r (l1 l2 : list (nat * opnd)) p : get p l1 = None -> get p (l1 ++ l2) = get p l2.
Proof using All. induction l1 as [|[a o] l1 IH]; cbn; auto. destruct (Nat.eqb a p); [discriminate|auto]. Qed.
Lemma get_app_l (l1 l2 : list (nat * opnd)) p o : get p l1 = Some o -> get p (l1 ++ l2) = Some o.
Proof using All. induction l1 as [|[a o1] l1 IH]; cbn; [discriminate|]. destruct (Nat.eqb a p); auto. Qed.
Lemma rs_get ph p : p <> b -> get p (inc (removeSource b ph)) = get p (inc ph).
Proof using All. intros N. unfold removeSource. cbn. rewrite (get_filter (fun k => negb (Nat.eqb k b))). destruct (Nat.eqb_spec p b); [contradiction|reflexivity]. Qed.
(** phis of [t] have no value for predecessors of [b] *)
Lemma t_no ph p : In ph (phis tb) -> In p (predsOf f b) -> get p (inc ph) = None.
Proof using All.
  intros Hph Hp. destruct (get p (inc ph)) as [o|] eqn:E; auto. exfalso. apply get_In in E. destruct (proj1 (proj2 (proj2 (proj2 (proj1 Hf)))) t tb ph p o Ht Hph E) as (pb & H1 & H2).
  apply preds_in in Hp as (pb' & H3 & H4). assert (pb' = pb) by congruence. subst pb'. exact (NP p pb H1 H4 H2).
Qed.
Lemma merged_pred ph p : In ph (phis tb) -> In p (predsOf f b) -> get p (inc (mergedPhi f b (phis bb) ph)) = Some (through (phis bb) b p ph).
Proof using All.
  intros Hph Hp. unfold mergedPhi. cbn [inc]. rewrite get_app_r; [now apply (get_map_pred (fun p => through (phis bb) b p ph))|]. rewrite rs_get by (now apply pred_ne). now apply t_no.
Qed.
Lemma merged_other ph p : p <> b -> ~ In p (predsOf f b) -> get p (inc (mergedPhi f b (phis bb) ph)) = get p (inc ph).
Proof using All.
  intros N1 N2. unfold mergedPhi. cbn [inc]. destruct (get p (inc ph)) as [o|] eqn:E.
  - apply get_app_l. now rewrite rs_get.
  - rewrite get_app_r by (now rewrite rs_get). destruct (get p (map _ _)) as [o|] eqn:E2; auto. apply get_In in E2. apply in_map_iff in E2 as (p0 & [= -> _] & H). contradiction.
Qed.

Lemma find_phi x : match find (fun q => Nat.eqb (pdst q) x) (phis bb) with Some q => In q (phis bb) /\ pdst q = x /\ In x X | None => ~ In x X end.
Proof using All.
  destruct (find _ (phis bb)) as [q|] eqn:E.
  - apply find_some in E as [E1 E2]. apply Nat.eqb_eq in E2. split; auto. split; auto. rewrite <- E2. now apply in_map.
  - intros H. apply in_map_iff in H as (q & Eq & Hq). pose proof (find_none _ _ E q Hq) as K. cbn in K. rewrite Eq, Nat.eqb_refl in K. discriminate.
Qed.
Lemma q_has q p : In q (phis bb) -> In p (predsOf f b) -> exists o, get p (inc q) = Some o.
Proof using All.
  intros Hq Hp. apply preds_in in Hp as (pb & H1 & H2). pose proof (proj2 (proj2 (proj2 (proj2 (proj1 Hf)))) b bb q p pb Hb Hq H1 H2) as K. destruct (get p (inc q)); [eauto|congruence].
Qed.
Lemma t_has ph : In ph (phis tb) -> exists o, get b (inc ph) = Some o.
Proof using All.
  intros Hph. assert (K : get b (inc ph) <> None). { apply (proj2 (proj2 (proj2 (proj2 (proj1 Hf)))) t tb ph b bb Ht Hph Hb). rewrite Tb. now left. }
  destruct (get b (inc ph)); [eauto|congruence].
Qed.
Lemma pred_reach_b p : In p (predsOf f b) -> reach f p -> reach f b.
Proof using All. intros Hp R. apply preds_in in Hp as (pb & H1 & H2). eapply succ_reach; eauto. Qed.
Lemma through_avail ph p : In ph (phis tb) -> In p (predsOf f b) -> reach f p ->
  opAvail (availOut f p) (through (phis bb) b p ph) /\ forall x, In x (res_of (through (phis bb) b p ph)) -> ~ In x X.
Proof using All.
  intros Hph Hp R. pose proof (pred_reach_b p Hp R) as Rb. destruct (t_has ph Hph) as [o Eo]. unfold through, incAt at 1 3. rewrite Eo.
  assert (Rt : reach f t). { eapply succ_reach; [exact Rb|exact Hb|rewrite Tb; now left]. }
  destruct (proj1 (proj2 Hf) t tb Ht Rt) as (_ & _ & S3). pose proof (S3 ph b o Hph (get_In _ _ _ Eo) Rb) as A. destruct o as [v|n|x]; cbn; try tauto.
  pose proof (find_phi x) as F. destruct (find _ (phis bb)) as [q|].
  - destruct F as (F1 & F2 & F3). destruct (q_has q p F1 Hp) as [o2 Eo2]. unfold incAt. rewrite Eo2. apply get_In in Eo2.
    destruct (proj1 (proj2 Hf) b bb Hb Rb) as (_ & _ & S3b). split; [exact (S3b q p o2 F1 Eo2 R)|]. intros y Hy Hx. destruct o2 as [v|n|y']; cbn in Hy; try tauto.
    destruct Hy as [->|[]]. destruct (U2 b bb q p y Hb F1 Eo2 Hx) as [E _]. auto.
  - cbn in A |- *. split; [|intros y [<-|[]]; exact F]. destruct A as (d & A1 & A2). exists d. split; auto. intros l Hl.
    apply preds_in in Hp as (pb & H1 & H2). pose proof (A2 (b :: l) (path_next f p l pb b Hl H1 H2)) as [Ed|K]; auto. exfalso. apply F.
    destruct A1 as (bk & B1 & B2). rewrite <- Ed in B1. assert (Ek : bk = bb) by congruence. rewrite Ek in B2. now apply b_results.
Qed.
Lemma pm_wf : wf g.
Proof using All.
  pose proof Hf as ((Hn & U & Hc & PP & PAll) & _). pose proof (wf_uniqR f (proj1 Hf)) as [V1 V2].
  assert (ND : NoDup (map fst g)). { unfold g, mergePhis. rewrite (fst_mapk h). apply NoDup_fst_filter. apply U. }
  split; [|split; [|split; [|split]]].
  - intros E. assert (K : In (entry f) (map fst g)). { apply pm_fst_in. split; [|exact (not_eq_sym pm_entry_ne)]. destruct f; [congruence|now left]. } rewrite E in K. destruct K.
  - split; [exact ND|]. apply uniqR_iff; [exact ND|]. split.
    + intros k bk Hk. apply pm_some in Hk as (_ & b1 & Hk & ->). rewrite h_results. eauto.
    + intros k1 k2 b1 b2 x H1 H2 X1 X2. apply pm_some in H1 as (_ & c1 & H1 & ->). apply pm_some in H2 as (_ & c2 & H2 & ->). rewrite h_results in X1, X2. eauto.
  - intros k bk x Hk Hx. apply pm_some in Hk as (_ & b1 & Hk & ->). apply pm_fst_in. rewrite h_trm in Hx. apply reset_succs in Hx as [[N Hx]|[-> Hx]]; [split; eauto|]. split; auto.
    exact (get_In_fst _ _ _ Ht).
  - intros k bk ph p o Hk Hph Hin. apply pm_some in Hk as (Nk & b1 & Hk & ->). cbn in Hph.
    assert (Old : forall ph0, In ph0 (phis b1) -> In (p, o) (inc ph0) -> p <> b -> exists pb, get p g = Some pb /\ In k (succs (trm pb))).
    { intros ph0 H0 H1 Np. destruct (PP k b1 ph0 p o Hk H0 H1) as (pb & Hp & Hs). exists (h p pb). split; [now apply pm_of|]. rewrite h_trm. apply reset_succs. auto. }
    destruct (Nat.eqb_spec k t) as [->|Nt].
    + apply in_map_iff in Hph as (ph0 & <- & Hph). apply merged_In in Hin as [[Np Hin]|[Hp ->]]; [eauto|]. pose proof (pred_ne p Hp) as Np. apply preds_in in Hp as (pb & H1 & H2).
      exists (h p pb). split; [now apply pm_of|]. rewrite h_trm. apply reset_succs. auto.
    + apply (Old ph Hph Hin). intros ->. destruct (PP k b1 ph b o Hk Hph Hin) as (pb & Hp & Hs). assert (pb = bb) by congruence. subst pb. rewrite Tb in Hs. destruct Hs as [Hs|[]]. auto.
  - intros k bk ph p pb Hk Hph Hp Hs. apply pm_some in Hk as (Nk & b1 & Hk & ->). apply pm_some in Hp as (Np & p1 & Hp & ->). cbn in Hph. rewrite h_trm in Hs.
    destruct (Nat.eqb_spec k t) as [->|Nt].
    + apply in_map_iff in Hph as (ph0 & <- & Hph). assert (b1 = tb) by congruence. subst b1. destruct (in_dec Nat.eq_dec p (predsOf f b)) as [I|I].
      * rewrite (merged_pred ph0 p Hph I). discriminate.
      * rewrite (merged_other ph0 p Np I). apply reset_succs in Hs as [[_ Hs]|[_ Hs]]; [eauto|]. exfalso. apply I. apply preds_in. eauto.
    + apply reset_succs in Hs as [[_ Hs]|[Hs _]]; [eauto|contradiction].
Qed.
Lemma pm_ssa : ssa g.
Proof using All.
  intros k bk Hk R. apply pm_some in Hk as (Nk & b1 & Hk & ->). apply pm_reach in R as [R _]. destruct (proj1 (proj2 Hf) k b1 Hk R) as (S1 & S2 & S3). split; [|split].
  - intros pre i post E. cbn in E. specialize (S1 pre i post E). rewrite Forall_forall in *. intros o Ho. specialize (S1 o Ho). revert S1. apply opImp2. intros x Hx Hr. apply pm_availAt; auto.
    apply (U1 k b1 x Hk). apply in_or_app. left. rewrite E. unfold bodyUses. apply in_flat_map. exists i. split; [apply in_or_app; right; now left|]. apply in_flat_map. eauto.
  - rewrite h_trm. replace (termOps (resetTarget b t (trm b1))) with (termOps (trm b1)) by (destruct (trm b1); reflexivity).
    rewrite Forall_forall in *. intros o Ho. specialize (S2 o Ho). revert S2. apply opImp2. intros x Hx Hr. change (body (h k b1)) with (body b1). apply pm_availAt; auto.
    apply (U1 k b1 x Hk). apply in_or_app. right. unfold termUses. apply in_flat_map. eauto.
  - intros ph p o Hph Hin Rp. apply pm_reach in Rp as [Rp Np]. cbn in Hph.
    assert (Old : forall ph0, In ph0 (phis b1) -> In (p, o) (inc ph0) -> opAvail (availOut g p) o).
    { intros ph0 H0 H1. specialize (S3 ph0 p o H0 H1 Rp). revert S3. apply opImp2. intros x Hx Hr. apply pm_availOut; auto. intros HX. apply Np.
      destruct o as [v|n|y]; cbn in Hr; try tauto. destruct Hr as [->|[]]. apply (U2 k b1 ph0 p x Hk H0 H1 HX). }
    destruct (Nat.eqb_spec k t) as [->|Nt]; [|eauto]. apply in_map_iff in Hph as (ph0 & <- & Hph). assert (b1 = tb) by congruence. subst b1.
    apply merged_In in Hin as [[_ Hin]|[Hp ->]]; [eauto|]. destruct (through_avail ph0 p Hph Hp Rp) as [A B]. revert A. apply opImp2. intros x Hx Hr. apply pm_availOut; auto.
Qed.
Lemma pm_wfs : wfs g.
Proof using All.
  split; [exact pm_wf|]. split; [exact pm_ssa|]. intros bk Hk. rewrite pm_entry in Hk. apply pm_some in Hk as (_ & b1 & Hk & ->). pose proof (proj2 (proj2 Hf) b1 Hk) as E. cbn. rewrite E.
  destruct (Nat.eqb (entry f) t); reflexivity.
Qed.

(** *** the runs *)
Section Sim.
Context {W : Type} (m : sem W) (args : nat -> value).
Definition handed (s s' : st (W:=W)) : Prop :=
  (prev s' = prev s /\ prev s <> Some b) \/
  (cur s = t /\ prev s = Some b /\ exists p, prev s' = Some p /\
     forall vs, rdPhis args (en s) b (phis tb) = Some vs -> rdPhis args (en s') p (phis (h t tb)) = Some vs).
Definition Rel (s s' : st (W:=W)) : Prop :=
  cur s <> b /\ cur s' = cur s /\ wd s' = wd s /\ eqOff X (en s) (en s') /\ hist f s /\ handed s s'.
Lemma rdPhis_map (F : phi -> phi) e p l : (forall ph, In ph l -> pdst (F ph) = pdst ph /\ get p (inc (F ph)) = get p (inc ph)) -> rdPhis args e p (map F l) = rdPhis args e p l.
Proof using All.
  induction l as [|ph l IH]; intros H; auto. cbn. destruct (H ph (or_introl eq_refl)) as [-> ->]. rewrite IH; auto. intros ph' Hin. apply H. now right.
Qed.
Lemma rel_enter s s' bk e1 : Rel s s' -> get (cur s) f = Some bk -> enter args (en s) (prev s) (phis bk) = Some e1 ->
  exists e2, enter args (en s') (prev s') (phis (h (cur s) bk)) = Some e2 /\ eqOff X e1 e2.
Proof using All.
  intros (N & Ec & Ew & He & Hh & Hp) Hk H. destruct Hp as [[Ep Np]|(Ek & Ep & p & Ep' & Hp)].
  - rewrite Ep. unfold enter in *. destruct (prev s) as [p|] eqn:Eps.
    + assert (Npb : p <> b) by (intros ->; auto). destruct (hist_prev f s p Hh Eps) as (Rp & pb & Hpb & Hin).
      destruct (rdPhis args (en s) p (phis bk)) as [vs|] eqn:Ev; [|discriminate]. injection H as <-.
      assert (Same : rdPhis args (en s') p (phis bk) = Some vs).
      { rewrite <- Ev. symmetry. apply rdPhis_at. intros ph o Hph Eo. apply (rd_eqOff args X); auto. intros x Hx HX. destruct o as [v|n|y]; cbn in Hx; try tauto. destruct Hx as [->|[]].
        apply Npb. apply (U2 (cur s) bk ph p x Hk Hph (get_In _ _ _ Eo) HX). }
      exists (updAll (en s') vs). split; [|now apply updAll_eqOff]. cbn. destruct (Nat.eqb_spec (cur s) t) as [Ek|Nk]; [|now rewrite Same].
      rewrite rdPhis_map; [now rewrite Same|]. intros ph Hph. split; auto. apply merged_other; auto. intros I. apply preds_in in I as (pb' & H1 & H2). assert (pb' = pb) by congruence. subst pb'.
      rewrite Ek in Hin. exact (NP p pb H1 H2 Hin).
    + destruct (phis bk) eqn:Eph; [|discriminate]. injection H as <-. exists (en s'). split; auto. cbn. rewrite Eph. destruct (Nat.eqb (cur s) t); reflexivity.
  - rewrite Ep in H. rewrite Ep'. unfold enter in *. rewrite Ek in Hk |- *. assert (bk = tb) by congruence. subst bk.
    destruct (rdPhis args (en s) b (phis tb)) as [vs|]; [|discriminate]. injection H as <-. rewrite (Hp vs eq_refl). exists (updAll (en s') vs). split; auto. now apply updAll_eqOff.
Qed.
Lemma term_reset (e : env) tm : runTerm args e (resetTarget b t tm) = match runTerm args e tm with TGo x => TGo (resetT b t x) | r => r end.
Proof using All.
  destruct tm as [x|c x y|c cs d|[o|]|]; cbn; auto.
  - destruct (rd args e c) as [v|]; auto. destruct (truth v) as [[]|]; auto.
  - destruct (rd args e c) as [[z|u|]|]; auto. f_equal. induction cs as [|[k k1] cs IH]; cbn; auto. destruct (Z.eqb z k); auto.
  - destruct (rd args e o); auto.
Qed.
Lemma updAll_at p l : NoDup (map pdst l) -> forall (e e0 : env) vs, rdPhis args e p l = Some vs -> forall q o, In q l -> get p (inc q) = Some o -> updAll e0 vs (pdst q) = rd args e o.
Proof using All.
  induction l as [|a l IH]; intros N e e0 vs H q o Hq Ho; [destruct Hq|]. cbn in H. destruct (get p (inc a)) as [oa|] eqn:Ea; [|discriminate]. destruct (rd args e oa) as [v|] eqn:Er; [|discriminate].
  destruct (rdPhis args e p l) as [vs1|] eqn:Ev; [|discriminate]. injection H as <-. inversion N as [|? ? N1 N2]; subst. destruct Hq as [->|Hq].
  - assert (oa = o) by congruence. subst oa. change (updAll (upd e0 (pdst q) v) vs1 (pdst q) = rd args e o). rewrite updAll_ne; [|rewrite (rdPhis_fst _ _ _ _ _ Ev); exact N1]. rewrite upd_eq. auto.
  - change (updAll (upd e0 (pdst a) v) vs1 (pdst q) = rd args e o). eapply IH; eauto.
Qed.
Lemma phis_through p ea eb vs : In p (predsOf f b) -> eqOff X ea eb -> rdPhis args ea p (phis bb) = Some vs -> forall l, incl l (phis tb) -> forall vs1,
  rdPhis args (updAll ea vs) b l = Some vs1 -> rdPhis args eb p (map (mergedPhi f b (phis bb)) l) = Some vs1.
Proof using All.
  intros Hp E Hv. induction l as [|ph l IH]; intros I vs1 H; [exact H|]. cbn [map rdPhis] in *. pose proof (I ph (or_introl eq_refl)) as Hph.
  rewrite (merged_pred ph p Hph Hp). destruct (get b (inc ph)) as [o|] eqn:Eo; [|discriminate]. destruct (rd args (updAll ea vs) o) as [v|] eqn:Er; [|discriminate].
  destruct (rdPhis args (updAll ea vs) b l) as [vs2|] eqn:E2; [|discriminate]. injection H as <-. rewrite (IH (fun q Hq => I q (or_intror Hq)) vs2 eq_refl).
  assert (K : rd args eb (through (phis bb) b p ph) = Some v); [|now rewrite K].
  unfold through, incAt at 1. rewrite Eo. destruct o as [c|n|x]; [exact Er|exact Er|]. pose proof (find_phi x) as F. destruct (find _ (phis bb)) as [q|].
  - destruct F as (F1 & F2 & F3). destruct (q_has q p F1 Hp) as [o2 Eo2]. unfold incAt. rewrite Eo2.
    assert (N : NoDup (map pdst (phis bb))). { apply (NoDup_app_l _ (map dst (body bb))). exact (block_NoDup f b bb (proj1 (proj2 (proj1 Hf))) Hb). }
    pose proof (updAll_at p (phis bb) N ea ea vs Hv q o2 F1 Eo2) as K. cbn in Er. rewrite F2, Er in K. rewrite K. symmetry. apply (rd_eqOff args X); auto.
    intros y Hy HX. destruct o2 as [c|n|z]; cbn in Hy; try tauto. destruct Hy as [->|[]]. apply Ntb. symmetry. apply (U2 b bb q p y Hb F1 (get_In _ _ _ Eo2) HX).
  - cbn in Er |- *. rewrite <- (E x F). rewrite <- Er. symmetry. apply updAll_ne. rewrite (rdPhis_fst _ _ _ _ _ Hv). exact F.
Qed.
Lemma rel_meets s s' : Sim.safe (step m args f) s -> Rel s s' -> meets (step m args f) (step m args g) Rel s s'.
Proof using All.
  intros Hs HR. pose proof HR as (N & Ec & Ew & He & Hh & Hp).
  assert (NB : forall u, step m args f s <> Bad u). { intros u Et. apply (Hs 1 u). cbn. now rewrite Et. }
  destruct (get (cur s) f) as [bk|] eqn:Hk. 2:{ exfalso. apply (NB []). unfold step. now rewrite Hk. }
  destruct (enter args (en s) (prev s) (phis bk)) as [e1|] eqn:Ee. 2:{ exfalso. apply (NB []). unfold step, runBlock. now rewrite Hk, Ee. }
  destruct (rel_enter s s' bk e1 HR Hk Ee) as (e2 & Ee2 & A1).
  assert (HG : get (cur s') g = Some (h (cur s) bk)) by (rewrite Ec; now apply pm_of).
  assert (KB := runBody_eqOff m args X (body bk) (fun x Hx => U1 (cur s) bk x Hk (in_or_app _ _ _ (or_introl Hx))) e1 e2 (wd s) A1).
  assert (Sf : step m args f s = match runBody m args e1 (wd s) (body bk) with BBad u => Bad u | BHalt w1 u => Fin (Exit w1) u
    | BGo ea w1 u => match runTerm args ea (trm bk) with TGo b' => Go (St b' (Some (cur s)) ea w1) u | TFin v => Fin (Ret v w1) u | TBad => Bad u end end).
  { unfold step, runBlock. now rewrite Hk, Ee. }
  assert (Sg : step m args g s' = match runBody m args e2 (wd s) (body bk) with BBad u => Bad u | BHalt w1 u => Fin (Exit w1) u
    | BGo ea w1 u => match runTerm args ea (trm (h (cur s) bk)) with TGo b' => Go (St b' (Some (cur s)) ea w1) u | TFin v => Fin (Ret v w1) u | TBad => Bad u end end).
  { unfold step, runBlock. rewrite HG, Ee2, Ew, Ec. reflexivity. }
  destruct (runBody m args e1 (wd s) (body bk)) as [ea w1 t1|w1 t1|t1] eqn:R1; destruct (runBody m args e2 (wd s) (body bk)) as [eb w2 t2|w2 t2|t2] eqn:R2; try contradiction.
  2:{ destruct KB as (-> & ->). apply meets1. rewrite Sf, Sg. auto. }
  2:{ exfalso. exact (NB _ Sf). }
  destruct KB as (A2 & <- & <-). rewrite h_trm, term_reset in Sg.
  rewrite <- (runTerm_eqOff args X ea eb (trm bk) A2 (fun x Hx => U1 (cur s) bk x Hk (in_or_app _ _ _ (or_intror Hx)))) in Sg.
  destruct (runTerm args ea (trm bk)) as [b'|v|] eqn:Et; [|apply meets1; rewrite Sf, Sg; auto|exfalso; exact (NB _ Sf)].
  pose proof (hist_step _ _ _ _ _ _ Hh Sf) as Hh1. unfold resetT in Sg. destruct (Nat.eqb_spec b' b) as [->|Nb].
  - (* through the block *)
    set (s1 := St b (Some (cur s)) ea w1) in *.
    assert (NB2 : forall u, step m args f s1 <> Bad u). { intros u Eu. apply (Hs 2 (t1 ++ u)). cbn. rewrite Sf, Eu. reflexivity. }
    assert (Ipred : In (cur s) (predsOf f b)). { apply preds_in. exists bk. split; auto. eapply runTerm_succs; eauto. }
    destruct (rdPhis args ea (cur s) (phis bb)) as [vs|] eqn:Ev. 2:{ exfalso. apply (NB2 []). unfold step, s1. cbn [cur prev en wd]. rewrite Hb. unfold runBlock, enter. now rewrite Ev. }
    assert (Sf2 : step m args f s1 = Go (St t (Some b) (updAll ea vs) w1) []).
    { unfold step, s1. cbn [cur prev en wd]. rewrite Hb. unfold runBlock, enter. rewrite Ev. cbn [option_map]. rewrite Eb, Tb. reflexivity. }
    pose proof (hist_step _ _ _ _ _ _ Hh1 Sf2) as Hh2. exists 2, 1. split; [lia|]. split; [lia|]. cbn [run]. rewrite Sf, Sf2, Sg. cbn. split; auto.
    split; [|split; [|split; [|split; [|split]]]]; auto.
    + intros y Hy. cbn. rewrite updAll_ne; [auto|]. rewrite (rdPhis_fst _ _ _ _ _ Ev). exact Hy.
    + right. cbn [cur prev en]. split; auto. split; auto. exists (cur s). split; auto. intros vs1 Hvs1. cbn. rewrite Nat.eqb_refl.
      apply (phis_through (cur s) ea eb vs Ipred A2 Ev (phis tb)); auto. intros q Hq. exact Hq.
  - apply meets1. rewrite Sf, Sg. split; auto. split; [|split; [|split; [|split; [|split]]]]; auto. left. cbn. split; auto. intros [= K]. exact (N K).
Qed.
Theorem pm_refinesAt w : refinesAt (step m args f) (step m args g) (start f w) (start g w).
Proof using All.
  apply (sim_refines _ _ Rel rel_meets). unfold start. rewrite pm_entry. split; [exact (not_eq_sym pm_entry_ne)|]. split; auto. split; auto. split; [apply eqOff_refl|].
  split; [apply (hist_start f)|]. left. cbn. split; auto. discriminate.
Qed.
End Sim.
End PM.

(** ** the conditions of the pass *)
Lemma count_flat {A} (F : A -> list nat) x l a : In a l -> count_occ Nat.eq_dec (F a) x <= count_occ Nat.eq_dec (flat_map F l) x.
Proof.
  induction l as [|z l IH]; [intros []|]. cbn. rewrite count_occ_app. intros [->|H]; [lia|]. specialize (IH H). lia.
Qed.
Lemma count_flat2 {A} (F : A -> list nat) x l a c : In a l -> In c l -> a <> c ->
  count_occ Nat.eq_dec (F a) x + count_occ Nat.eq_dec (F c) x <= count_occ Nat.eq_dec (flat_map F l) x.
Proof.
  induction l as [|z l IH]; [intros []|]. cbn. rewrite count_occ_app. intros [->|Ha] [->|Hc] N.
  - contradiction.
  - pose proof (count_flat F x l c Hc). lia.
  - pose proof (count_flat F x l a Ha). lia.
  - specialize (IH Ha Hc N). lia.
Qed.
Lemma handsOn_U1 f b t x : handsOn f b t x = true -> forall k bk, In (k, bk) f -> ~ In x (bodyUses (body bk) ++ termUses (trm bk)).
Proof.
  unfold handsOn. intros H k bk Hk Hx. apply andb_true_iff in H as [_ H]. rewrite forallb_forall in H. specialize (H _ Hk). apply andb_true_iff in H as [H _].
  apply inb_In in Hx. cbn [snd] in H. rewrite Hx in H. discriminate.
Qed.
Lemma handsOn_U2 f b t x : handsOn f b t x = true -> forall k bk ph p, In (k, bk) f -> In ph (phis bk) -> In (p, ORes x) (inc ph) -> k = t /\ p = b.
Proof.
  unfold handsOn. intros H k bk ph p Hk Hph Hin. apply andb_true_iff in H as [C H]. rewrite forallb_forall in H. specialize (H _ Hk). apply andb_true_iff in H as [_ H].
  rewrite forallb_forall in H. specialize (H _ Hph). assert (U : phiUse x ph = true). { apply existsb_exists. exists (p, ORes x). split; auto. apply opnd_eqb_refl. }
  rewrite U in H. cbn [negb orb fst snd] in H. apply andb_true_iff in H as [E1 E2]. split; [now apply Nat.eqb_eq|]. destruct (get b (inc ph)) as [o|] eqn:Eo; [|discriminate].
  destruct (opnd_eqb_spec o (ORes x)) as [Eq|]; [|discriminate]. subst o. apply get_In in Eo. destruct (Nat.eq_dec p b) as [|N]; auto. exfalso. apply Nat.leb_le in C.
  pose proof (count_flat (fun kb => usesOf (snd kb)) x f (k, bk) Hk) as C1. cbn [snd] in C1. unfold usesOf at 1 in C1. rewrite count_occ_app in C1. unfold phiUses in C1.
  pose proof (count_flat (fun ph => flat_map (fun z => res_of (snd z)) (inc ph)) x (phis bk) ph Hph) as C2. cbn beta in C2.
  pose proof (count_flat2 (fun z => res_of (snd z)) x (inc ph) (p, ORes x) (b, ORes x) Hin Eo ltac:(congruence)) as C3. cbn in C3.
  destruct (Nat.eq_dec x x) as [_|]; [|congruence]. lia.
Qed.
(** phiMergeTo gives the hypotheses of the section above *)
Lemma phiMergeTo_ok f b bb t : get b f = Some bb -> phiMergeTo f b bb = Some t -> exists tb, get t f = Some tb /\ body bb = [] /\ trm bb = TBr t /\ t <> b /\ phis bb <> [] /\
  (forall k bk x, get k f = Some bk -> In x (bodyUses (body bk) ++ termUses (trm bk)) -> ~ In x (map pdst (phis bb))) /\
  (forall k bk ph p x, get k f = Some bk -> In ph (phis bk) -> In (p, ORes x) (inc ph) -> In x (map pdst (phis bb)) -> k = t /\ p = b) /\
  (forall p pb, get p f = Some pb -> In b (succs (trm pb)) -> ~ In t (succs (trm pb))).
Proof.
  intros Hb H. unfold phiMergeTo in H. destruct (body bb); [|discriminate]. destruct (trm bb) as [t'| | | |]; try discriminate. destruct (get t' f) as [tb|] eqn:Ht; [|discriminate].
  match type of H with (if ?c then _ else _) = _ => destruct c eqn:Ec; [|discriminate] end. injection H as ->.
  repeat (apply andb_true_iff in Ec as [Ec ?]). rewrite forallb_forall in H, H0. exists tb. split; auto. split; auto. split; auto. split; [now apply Nat.eqb_neq, negb_true_iff|].
  split; [intros E; rewrite E in H2; discriminate|]. split; [|split].
  - intros k bk x Hk Hx HX. apply (handsOn_U1 f b t x (H0 x HX) k bk (get_In _ _ _ Hk) Hx).
  - intros k bk ph p x Hk Hph Hin HX. apply (handsOn_U2 f b t x (H0 x HX) k bk ph p (get_In _ _ _ Hk) Hph Hin).
  - intros p pb Hp H3 H4. specialize (H _ (get_In _ _ _ Hp)). cbn [snd] in H. apply inb_In in H3, H4. rewrite H3, H4 in H. discriminate.
Qed.
Lemma phiMergeFind_ok f : NoDup (map fst f) -> forall l, incl l f -> forall b t bb, phiMergeFind f l = Some (b, t, bb) -> get b f = Some bb /\ phiMergeTo f b bb = Some t.
Proof.
  intros N. induction l as [|[k bk] l IH]; intros I b t bb H; [discriminate|]. cbn in H. destruct (phiMergeTo f k bk) as [t'|] eqn:E.
  - injection H as -> -> ->. split; auto. apply In_get; auto. apply I. now left.
  - apply IH; auto. intros z Hz. apply I. now right.
Qed.
Lemma phiMergeFind_none f l : phiMergeFind f l = None -> forall b bb, In (b, bb) l -> phiMergeTo f b bb = None.
Proof.
  induction l as [|[k bk] l IH]; intros H b bb Hin; [destruct Hin|]. cbn in H. destruct (phiMergeTo f k bk) eqn:E; [discriminate|]. destruct Hin as [[= -> ->]|Hin]; auto.
Qed.
Lemma mergePhis_good knd f b t bb : wfs f -> get b f = Some bb -> phiMergeTo f b bb = Some t -> good knd f (mergePhis f b t (phis bb)).
Proof.
  intros Hf Hb H. destruct (phiMergeTo_ok f b bb t Hb H) as (tb & Ht & Eb & Tb & N & P & U1 & U2 & NP). split.
  - intros W m args w _. exact (pm_refinesAt f b t bb tb Hf Hb Ht Eb Tb N P U1 U2 NP m args w).
  - exact (pm_wfs f b t bb tb Hf Hb Ht Eb Tb N P U1 U2 NP).
Qed.
Lemma mergePhis_length f b t bb bphis : NoDup (map fst f) -> get b f = Some bb -> length f = S (length (mergePhis f b t bphis)).
Proof.
  unfold mergePhis. rewrite map_length. clear t bphis. induction f as [|[k bk] f IH]; [discriminate|]. intros N H. inversion N as [|? ? N1 N2]; subst. cbn in H |- *. destruct (Nat.eqb_spec k b) as [->|Nk]; cbn.
  - f_equal. clear - N1. induction f as [|[k2 b2] f IH]; auto. cbn in *. destruct (Nat.eqb_spec k2 b) as [->|]; cbn; [tauto|]. f_equal. apply IH. tauto.
  - f_equal. apply IH; auto.
Qed.
Lemma phiMergeLoop_good knd n : forall f g, wfs f -> phiMergeLoop n f = Some g -> good knd f g.
Proof.
  induction n as [|n IH]; intros f g Hf H; cbn in H.
  - injection H as <-. now apply good_refl.
  - destruct (phiMergeFind f f) as [[[b t] bb]|] eqn:E; [|injection H as <-; now apply good_refl]. destruct (crashes f b); [discriminate|].
    destruct (phiMergeFind_ok f (proj1 (proj1 (proj2 (proj1 Hf)))) f (fun z Hz => Hz) b t bb E) as [Hb Hto].
    eapply good_trans; [exact (mergePhis_good knd f b t bb Hf Hb Hto)|]. intros Hg. now apply IH.
Qed.
(** the loop ends where no block can be merged *)
Lemma phiMergeLoop_done n : forall f g, wfs f -> length f <= n -> phiMergeLoop n f = Some g -> forall b bb, get b g = Some bb -> phiMergeTo g b bb = None.
Proof.
  induction n as [|n IH]; intros f g Hf L H b bb Hb; cbn in H.
  - injection H as <-. destruct f; [discriminate|cbn in L; lia].
  - destruct (phiMergeFind f f) as [[[b0 t0] bb0]|] eqn:E.
    + destruct (crashes f b0); [discriminate|]. destruct (phiMergeFind_ok f (proj1 (proj1 (proj2 (proj1 Hf)))) f (fun z Hz => Hz) b0 t0 bb0 E) as [Hb0 Hto].
      apply (IH _ _ (proj2 (mergePhis_good (fun _ => KPure) f b0 t0 bb0 Hf Hb0 Hto))) with (3 := Hb); auto.
      pose proof (mergePhis_length f b0 t0 bb0 (phis bb0) (proj1 (proj1 (proj2 (proj1 Hf)))) Hb0). lia.
    + injection H as <-. apply (phiMergeFind_none f f E b bb). now apply get_In.
Qed.
Lemma noSwitch_reset b t tm : isSwitch (resetTarget b t tm) = isSwitch tm.
Proof. destruct tm; reflexivity. Qed.
(** no crash in functions without switches *)
Lemma phiMergeLoop_some n : forall f, forallb (fun kb => negb (isSwitch (trm (snd kb)))) f = true -> exists g, phiMergeLoop n f = Some g.
Proof.
  induction n as [|n IH]; intros f Hf; cbn; [eauto|]. destruct (phiMergeFind f f) as [[[b t] bb]|]; [|eauto]. destruct (crashes f b) eqn:C.
  - exfalso. apply existsb_exists in C as (kb & H1 & H2). rewrite forallb_forall in Hf. specialize (Hf kb H1). apply andb_true_iff in H2 as [_ H2]. rewrite H2 in Hf. discriminate.
  - apply IH. apply forallb_forall. intros kb H. unfold mergePhis in H. apply in_map_iff in H as ([k bk] & <- & H). apply filter_In in H as [H _]. cbn. rewrite noSwitch_reset.
    rewrite forallb_forall in Hf. exact (Hf _ H).
Qed.
Theorem phiMerge_good knd f g : wfs f -> phiMerge f = Some g -> good knd f g /\ forall b bb, get b g = Some bb -> phiMergeTo g b bb = None.
Proof. intros Hf H. split; [exact (phiMergeLoop_good knd _ f g Hf H)|exact (phiMergeLoop_done _ f g Hf (le_n _) H)]. Qed.
