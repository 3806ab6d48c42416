(** C57: SmallBlockInlining keeps every operand available where it is read, and does not look up results that it has not made. *)
From Coq Require Import ZArith Lia Bool List Arith.
From Verif Require Import Sim Ssa SsaCfg SsaMerge SsaFwd SsaFwd2 SsaWf SsaDom SsaProps SsaEq SsaPhi SsaCse SsaDce SsaGvn CodeMotion CodeMotionProps SsaVerify M2RRun Ifc TailStoreProps SmallInl SmallInlProof SmallInlProps.
Import ListNotations.

(** ** proofs *)
Lemma ordered_intro l : (forall pre i post, l = pre ++ i :: post -> forall x, In x (flat_map res_of (ops i)) -> ~ In x (map dst (i :: post))) -> ordered l = true.
Proof.
  induction l as [|i l IH]; intros H; auto. cbn [ordered]. rewrite IH.
  - rewrite andb_true_r. apply forallb_forall. intros x Hx. apply negb_true_iff, not_true_iff_false. intros K. apply inb_In in K. exact (H [] i l eq_refl x Hx K).
  - intros pre j post E. apply (H (i :: pre) j post). now rewrite E.
Qed.
Lemma In_flat_res x os : In x (flat_map res_of os) <-> In (ORes x) os.
Proof.
  rewrite in_flat_map. split.
  - intros (o & Ho & K). destruct o as [c|n|y]; cbn in K; try contradiction. destruct K as [<-|[]]. exact Ho.
  - intros H. exists (ORes x). split; [exact H|now left].
Qed.
Lemma copies_avail (A0 : nat -> Prop) nam l : forall s j P, ordered l = true ->
  (forall x, In x (bodyUses l) -> ~ In x (map dst l) -> opAvail (fun y => A0 y \/ In y P) (subO s (ORes x))) ->
  forall pre i post, copies nam s j l = pre ++ i :: post -> Forall (opAvail (fun y => A0 y \/ In y P \/ In y (map dst pre))) (ops i).
Proof.
  induction l as [|a l IH]; intros s j P Ho H pre i post E; [destruct pre; discriminate|]. cbn [ordered] in Ho. apply andb_true_iff in Ho as [Ho1 Ho2].
  cbn [copies] in E. destruct pre as [|c pre]; cbn [app] in E.
  - injection E as <- _. cbn [ops]. apply Forall_forall. intros o' Hin. apply in_map_iff in Hin as (o & <- & Hin). destruct o as [c|n|x]; cbn [subO opAvail]; auto.
    assert (Hx : In x (flat_map res_of (ops a))) by now apply In_flat_res.
    rewrite forallb_forall in Ho1. specialize (Ho1 x Hx). apply negb_true_iff in Ho1.
    assert (K : opAvail (fun y => A0 y \/ In y P) (subO s (ORes x))).
    { apply H; [cbn; apply in_or_app; auto|]. intros K. apply inb_In in K. congruence. }
    cbn [subO] in K. destruct (get x s) as [[c|n|y]|]; cbn [opAvail] in *; tauto.
  - injection E as <- E. cbn [map dst].
    assert (H' : forall x, In x (bodyUses l) -> ~ In x (map dst l) -> opAvail (fun y => A0 y \/ In y (nam j :: P)) (subO ((dst a, ORes (nam j)) :: s) (ORes x))).
    { intros x Hx Nx. cbn [subO get]. destruct (Nat.eqb_spec (dst a) x) as [<-|D]; [right; now left|].
      assert (K : opAvail (fun y => A0 y \/ In y P) (subO s (ORes x))).
      { apply H; [cbn; apply in_or_app; auto|]. intros [K|K]; auto. }
      cbn [subO] in K. destruct (get x s) as [[c|n|y]|]; cbn [opAvail In] in *; tauto. }
    specialize (IH _ _ _ Ho2 H' pre i post E). eapply Forall_impl; [|exact IH]. intros [c|n|y]; cbn; tauto.
Qed.

(** copies at the end of a block, names that are dropped only if nothing needs them *)
Section Ssa.
Variables (f : func) (b d : nat) (tb : block).
Hypothesis Hw : wf f.
Hypothesis Hs : ssa f.
Hypothesis Hb : get b f = Some tb.
Hypothesis Tb : trm tb = TBr d.
Hypothesis HP : forall p pb, get p f = Some pb -> In b (succs (trm pb)) -> p <> b /\ forall t, In t (succs (trm pb)) -> t = b.
Let n := freshBase f.
Let len := length (body tb).
Let g : func := map (fun kb => (fst kb, sbBlk f b tb (fst kb) (snd kb))) f.

Lemma sb_path k l : path f k l <-> path g k l.
Proof.
  assert (E : entry g = entry f) by (unfold g; destruct f as [|[a0 b0] f0]; reflexivity).
  split; induction 1 as [|p l bk t H IH G I].
  - rewrite <- E. constructor.
  - eapply path_next; [exact IH| |].
    + unfold g. rewrite (sb_get f b tb), G. reflexivity.
    + now rewrite sbBlk_trm.
  - rewrite E. constructor.
  - unfold g in G. rewrite (sb_get f b tb) in G. destruct (get p f) as [b0|] eqn:E0; [|discriminate]. injection G as <-. rewrite sbBlk_trm in I.
    eapply path_next; eauto.
Qed.
Lemma sb_reach k : reach f k <-> reach g k.
Proof. split; intros [l H]; exists l; now apply sb_path. Qed.
Lemma sb_dom a k : dominates f a k -> dominates g a k.
Proof. intros H l Hl. apply H. now apply sb_path. Qed.
Lemma sb_def x k : defIn f x k -> k <> b \/ usedOut f b x = true -> defIn g x k.
Proof.
  intros (bk & G & H) U. exists (sbBlk f b tb k bk). split; [unfold g; now rewrite (sb_get f b tb), G|]. unfold sbBlk.
  destruct (Nat.eqb_spec k b) as [->|D]; [|destruct (inb b (succs (trm bk))); auto].
  - destruct U as [U|U]; [now destruct U|]. unfold resultsOf in *. cbn [phis body map]. rewrite app_nil_r, map_app, outPhis_dst.
    apply in_app_or in H as [H|H]; apply in_or_app; auto. right. apply filter_In. auto.
  - unfold resultsOf in *. cbn [phis body]. rewrite map_app, app_assoc. apply in_or_app. auto.
Qed.
Lemma sb_availOut p x : availOut f p x -> usedOut f b x = true -> availOut g p x.
Proof. intros (k & D & Dom) U. exists k. split; [apply sb_def; auto|now apply sb_dom]. Qed.
Lemma used_other k bk x : get k f = Some bk -> k <> b -> In x (usesOf bk) -> usedOut f b x = true.
Proof.
  intros G N H. eapply usedOut_In; eauto. destruct (Nat.eqb_spec k b); [contradiction|exact H].
Qed.
Lemma used_phi x : In x (phiUses (phis tb)) -> usedOut f b x = true.
Proof. intros H. eapply usedOut_In; [exact Hb|]. rewrite Nat.eqb_refl. apply in_or_app. auto. Qed.
Lemma b_ordered : reach f b -> ordered (body tb) = true.
Proof.
  intros R. apply ordered_intro. intros pre i post E x Hx K. destruct (Hs b tb Hb R) as (S1 & _ & _). specialize (S1 pre i post E).
  rewrite Forall_forall in S1. apply In_flat_res in Hx. specialize (S1 _ Hx). cbn in S1.
  pose proof (wf_NoDup_block f b tb Hw Hb) as N.
  assert (Kb : In x (map dst (body tb))) by (rewrite E, map_app; apply in_or_app; auto).
  destruct S1 as [(k & D & Nk & _)|[S1|S1]].
  - apply Nk. eapply defIn_unique; [apply Hw|exact D|]. exists tb. split; auto. unfold resultsOf. apply in_or_app. auto.
  - exact (NoDup_app_disj _ _ N x S1 Kb).
  - apply NoDup_app_r in N. rewrite E, map_app in N. exact (NoDup_app_disj _ _ N x S1 K).
Qed.
(** the results a copy reads *)
Lemma start_avail k bk : get k f = Some bk -> In b (succs (trm bk)) -> reach f k -> forall x, In x (bodyUses (body tb)) -> ~ In x (map dst (body tb)) ->
  opAvail (fun y => availOut f k y /\ (usedOut f b y = true \/ ~ defIn f y b)) (subO (startMap k (phis tb)) (ORes x)).
Proof.
  intros G I R x Hx Nx. assert (Rb : reach f b) by (destruct R as [l R]; exists (b :: l); eapply path_next; eauto).
  destruct (Hs b tb Hb Rb) as (S1 & _ & S3). destruct ND with (f := f) (b := b) (tb := tb) as (N1 & N2 & N3); auto.
  unfold bodyUses in Hx. apply in_flat_map in Hx as (i & Hi & Hx). apply in_split in Hi as (pre & post & E).
  specialize (S1 pre i post E). rewrite Forall_forall in S1. apply In_flat_res in Hx. specialize (S1 _ Hx). cbn [opAvail] in S1.
  destruct (in_dec Nat.eq_dec x (map pdst (phis tb))) as [K|K].
  - apply in_map_iff in K as (ph & <- & K). cbn [subO]. rewrite (get_startMap k _ N1 ph K). unfold atInc. destruct (get k (inc ph)) as [o|] eqn:Eo; [|exact Logic.I].
    pose proof (S3 ph k o K (get_In _ _ _ Eo) R) as A. destruct o as [c|q|y]; cbn in *; auto. split; auto. left. apply used_phi.
    unfold phiUses. apply in_flat_map. exists ph. split; auto. apply in_flat_map. exists (k, ORes y). split; [now apply get_In|now left].
  - cbn [subO]. replace (get x (startMap k (phis tb))) with (@None opnd) by (symmetry; apply get_None; now rewrite startMap_fst). cbn [opAvail].
    destruct S1 as [S1|[S1|S1]]; [|contradiction|].
    + split; [eapply availIn_edge; eauto|]. right. intros (tb' & G' & D). assert (tb' = tb) by congruence. subst tb'. unfold resultsOf in D.
      apply in_app_or in D as [D|D]; contradiction.
    + exfalso. apply Nx. rewrite E, map_app. apply in_or_app. auto.
Qed.
Lemma sb_ssa : ordered (body tb) = true -> ssa g.
Proof.
  intros Ho k bk' G R. apply sb_reach in R. unfold g in G. rewrite (sb_get f b tb) in G. destruct (get k f) as [bk|] eqn:E0; [|discriminate]. cbn in G. injection G as <-.
  destruct (Hs k bk E0 R) as (S1 & S2 & S3).
  assert (Old : forall ph p o, In ph (phis bk) -> In (p, o) (inc ph) -> reach g p -> opAvail (availOut g p) o).
  { intros ph p o Hp Hi Rp. apply sb_reach in Rp. specialize (S3 ph p o Hp Hi Rp). destruct o as [c|q|x]; cbn in *; auto. apply sb_availOut; auto.
    assert (Hx : In x (phiUses (phis bk))).
    { unfold phiUses. apply in_flat_map. exists ph. split; auto. apply in_flat_map. exists (p, ORes x). split; auto. now left. }
    destruct (Nat.eq_dec k b) as [->|D]; [apply used_phi; congruence|]. apply (used_other k bk); auto. unfold usesOf. apply in_or_app. auto. }
  assert (Av : k <> b -> forall pre x bk', availAt f k bk pre x -> In x (usesOf bk) -> phis bk' = phis bk -> availAt g k bk' pre x).
  { intros D pre x bk' A Ux Ep. unfold availAt in *. rewrite Ep. destruct A as [(q & Q & Nq & Dom)|A]; [left|auto]. exists q. split; [|split; [auto|now apply sb_dom]].
    apply sb_def; auto. right. now apply (used_other k bk). }
  assert (Uo : forall pre i post x, body bk = pre ++ i :: post -> In (ORes x) (ops i) -> In x (usesOf bk)).
  { intros pre i post x E H. unfold usesOf, bodyUses. apply in_or_app. right. apply in_or_app. left. apply in_flat_map. exists i. split; [rewrite E; apply in_or_app; right; now left|].
    now apply In_flat_res. }
  assert (Ut : forall x, In (ORes x) (termOps (trm bk)) -> In x (usesOf bk)).
  { intros x H. unfold usesOf, termUses. apply in_or_app. right. apply in_or_app. right. now apply In_flat_res. }
  unfold sbBlk. destruct (Nat.eqb_spec k b) as [->|D]; [|destruct (inb b (succs (trm bk))) eqn:Ei]; cbn [phis body trm].
  - assert (bk = tb) by congruence. subst bk. split; [|split].
    + intros pre i post E. destruct pre; discriminate.
    + rewrite Tb. constructor.
    + intros ph p o Hp Hi Rp. apply in_app_or in Hp as [Hp|Hp]; [eauto|].
      assert (K : exists j, j < len /\ o = ORes (nm n len p j)).
      { clear - Hp Hi. assert (Gen : forall l j, In ph (outPhis f b (nm n len) (predsIn f b) j l) -> exists q, q < j + length l /\ o = ORes (nm n len p q)).
        { induction l as [|i l IH]; intros j H; [destruct H|]. cbn [outPhis] in H. apply in_app_or in H as [H|H].
          - destruct (usedOut f b (dst i)); [|destruct H]. destruct H as [<-|[]]. cbn in Hi. apply in_map_iff in Hi as (p' & [= <- <-] & _). exists j. cbn. split; [lia|reflexivity].
          - apply IH in H as (q & L & E). exists q. split; auto. cbn. lia. }
        apply (Gen (body tb) 0). exact Hp. }
      destruct K as (j & L & ->). apply outPhis_inc in Hp. apply (in_map fst) in Hi. rewrite Hp in Hi. cbn [fst] in Hi. apply In_predsIn in Hi as (pb & Gp & Ip); auto.
      cbn [opAvail]. exists p. split; [|apply dominates_refl]. exists (sbBlk f b tb p pb). split; [unfold g; now rewrite (sb_get f b tb), Gp|].
      unfold sbBlk. destruct (Nat.eqb_spec p b) as [->|Np]; [now destruct (HP b pb Gp Ip)|]. rewrite (proj2 (inb_In b _) Ip). unfold resultsOf. cbn [phis body].
      rewrite map_app, copies_dst. apply in_or_app. right. apply in_or_app. right. apply in_map. apply in_seq. fold len. lia.
  - apply inb_In in Ei. split; [|split; [|exact Old]].
    + intros pre i post E.
      assert (Cases : (exists post', body bk = pre ++ i :: post') \/ exists pre2, pre = body bk ++ pre2 /\ copies (nm n len k) (startMap k (phis tb)) 0 (body tb) = pre2 ++ i :: post).
      { clear - E. revert pre E. fold n len. induction (body bk) as [|a l IH]; intros pre E; [right; exists pre; auto|]. destruct pre as [|c pre]; cbn in E.
        - injection E as -> _. left. exists l. reflexivity.
        - injection E as -> E. destruct (IH pre E) as [(post' & ->)|(pre2 & -> & E')]; [left; exists post'; reflexivity|right; exists pre2; auto]. }
      destruct Cases as [(post' & E1)|(pre2 & -> & E1)].
      * specialize (S1 pre i post' E1). rewrite Forall_forall in S1 |- *. intros [c|q|x] Hi; cbn [opAvail]; auto. apply Av; auto; [exact (S1 _ Hi)|eapply Uo; eauto].
      * pose proof (copies_avail (fun y => availOut f k y /\ (usedOut f b y = true \/ ~ defIn f y b)) (nm n len k) (body tb) (startMap k (phis tb)) 0 [] Ho) as C.
        assert (C1 : forall x, In x (bodyUses (body tb)) -> ~ In x (map dst (body tb)) -> opAvail (fun y => (availOut f k y /\ (usedOut f b y = true \/ ~ defIn f y b)) \/ In y []) (subO (startMap k (phis tb)) (ORes x))).
        { intros x Hx Nx. pose proof (start_avail k bk E0 Ei R x Hx Nx) as A. destruct (subO (startMap k (phis tb)) (ORes x)); cbn in *; auto. }
        specialize (C C1 pre2 i post E1). eapply Forall_impl; [|exact C]. intros [c|q|y]; cbn [opAvail]; auto. intros [A|[[]|A]].
        -- destruct A as [A Uy]. apply (availOut_at f k bk y E0) in A. destruct A as [(q & Q & Nq & Dom)|[A|A]].
           ++ left. exists q. split; [|split; [auto|now apply sb_dom]]. apply sb_def; auto. destruct Uy as [Uy|Uy]; auto. left. intros ->. contradiction.
           ++ right. now left.
           ++ right. right. rewrite map_app. apply in_or_app. auto.
        -- right. right. rewrite map_app. apply in_or_app. auto.
    + rewrite Forall_forall in S2 |- *. intros [c|q|x] Hi; cbn [opAvail]; auto.
      assert (A : availAt g k (Block (phis bk) (body bk ++ copies (nm n len k) (startMap k (phis tb)) 0 (body tb)) (trm bk)) (body bk) x) by (apply Av; auto; exact (S2 _ Hi)).
      destruct A as [A|[A|A]]; [left; exact A|right; left; exact A|]. right. right. rewrite map_app. apply in_or_app. auto.
  - split; [|split; [|exact Old]].
    + intros pre i post E. specialize (S1 pre i post E). rewrite Forall_forall in S1 |- *. intros [c|q|x] Hi; cbn [opAvail]; auto. apply Av; auto; [exact (S1 _ Hi)|eapply Uo; eauto].
    + rewrite Forall_forall in S2 |- *. intros [c|q|x] Hi; cbn [opAvail]; auto. apply Av; auto. exact (S2 _ Hi).
Qed.
Lemma sb_entryNoPhi : b <> entry f -> entryNoPhi f -> entryNoPhi g.
Proof.
  intros NE H bk G. assert (E : entry g = entry f) by (unfold g; destruct f as [|[a0 b0] f0]; reflexivity). rewrite E in G.
  unfold g in G. rewrite (sb_get f b tb) in G. destruct (get (entry f) f) as [b0|] eqn:E0; [|discriminate]. cbn in G. injection G as <-. specialize (H b0 E0).
  unfold sbBlk. destruct (Nat.eqb_spec (entry f) b) as [K|_]; [now destruct NE|]. destruct (inb b (succs (trm b0))); exact H.
Qed.
End Ssa.

(** ** the properties *)
(** one block: the pass does not fail, and the operands are still available where they are read *)
Definition allReach (f : func) : Prop := forall b, In b (map fst f) -> reach f b.
Theorem C57_one_block_keeps_ssa knd f b : wfs f -> entryNoPred f -> reach f b -> exists g, sbOne knd f b = Some g /\ wfs g /\ map fst g = map fst f /\ forall k, reach g k <-> reach f k.
Proof.
  intros (Hw & Hs & Hp) He R. assert (Same : wfs f /\ map fst f = map fst f /\ forall k, reach f k <-> reach f k) by (split; [split; auto|split; [auto|tauto]]).
  unfold sbOne. destruct (get b f) as [tb|] eqn:Hb; [|eauto].
  destruct (trm tb) as [d|c x y|c cs x|o|] eqn:Tb; try (eexists; split; [reflexivity|exact Same]).
  destruct (hasCall knd tb); [eexists; split; [reflexivity|exact Same]|]. destruct (Nat.eqb_spec (length (predsIn f b)) 0) as [|Hn]; [eexists; split; [reflexivity|exact Same]|].
  destruct (predsValid f b) eqn:Hv; [|eexists; split; [reflexivity|exact Same]]. destruct (5 <? length (body tb)); [eexists; split; [reflexivity|exact Same]|].
  destruct (Nat.eqb (length (body tb)) 0); [eexists; split; [reflexivity|exact Same]|]. cbn [orb negb].
  pose proof (b_ordered f b tb Hw Hs Hb R) as Ho. rewrite Ho. eexists. split; [reflexivity|].
  assert (NE : b <> entry f).
  { destruct (predsIn f b) as [|p ps] eqn:Ep; [now destruct Hn|]. destruct (In_predsIn f b p Hw) as (pb & G & I); [rewrite Ep; now left|].
    intros ->. exact (He p pb G I). }
  split; [split; [now apply sb_wf|split]|split].
  - apply (sb_ssa f b d tb Hw Hs Hb Tb (predsValid_HP f b Hv) Ho).
  - eapply sb_entryNoPhi; try eassumption; now apply predsValid_HP.
  - rewrite map_map. reflexivity.
  - intros k. symmetry. eapply sb_reach; try eassumption; now apply predsValid_HP.
Qed.
(** the pass: there is a result (no failing look-up), it behaves the same and passes the verifier *)
Theorem C57_total_and_keeps_ssa knd f : wfs f -> entryNoPred f -> allReach f ->
  exists g, smallInline knd f = Some g /\ refines knd f g /\ wfs g /\ entryNoPred g /\ map fst g = map fst f /\ forall k, reach g k <-> reach f k.
Proof.
  intros Hf He Hr. assert (Gen : forall l h, wfs h -> entryNoPred h -> (forall b, In b l -> reach h b) ->
    exists g, fold_left (fun o b => match o with Some g => sbOne knd g b | None => None end) l (Some h) = Some g /\
      refines knd h g /\ wfs g /\ entryNoPred g /\ map fst g = map fst h /\ forall k, reach g k <-> reach h k).
  { induction l as [|b l IH]; intros h Hh Eh Rh; cbn [fold_left].
    - exists h. split; auto. split; [apply refines_refl|]. split; auto. split; auto. split; [auto|tauto].
    - destruct (C57_one_block_keeps_ssa knd h b Hh Eh) as (h1 & E1 & W1 & F1 & R1); [apply Rh; now left|]. rewrite E1.
      destruct (C57_one_block_keeps_behaviour knd h b h1 (proj1 Hh) Eh E1) as (Rf & _ & Eh1).
      destruct (IH h1 W1 Eh1) as (g & G1 & G2 & G3 & G4 & G5 & G6); [intros k Hk; apply R1, Rh; now right|].
      exists g. split; auto. split; [eapply refines_trans; eauto|]. split; auto. split; auto. split; [congruence|]. intros k. rewrite G6. apply R1. }
  destruct (Gen (map fst f) f Hf He Hr) as (g & H). exists g. exact H.
Qed.
Example sbf_total : exists g, smallInline sbKnd sbf = Some g /\ refines sbKnd sbf g /\ wfs g.
Proof.
  destruct (C57_total_and_keeps_ssa sbKnd sbf sbf_wfs sbf_entry) as (g & A & B & C & _); eauto. pose proof (proj1 sbf_wfs) as (Hn & _ & Hc & _).
  unfold allReach. apply (allReach_dec _ Hc Hn). vm_compute. reflexivity.
Qed.

