(** C57: SmallBlockInlining keeps the behaviour and the structure of the function. *)
From Coq Require Import ZArith Lia Bool List Arith.
From Verif Require Import Sim Ssa SsaCfg SsaMerge SsaFwd SsaFwd2 SsaWf SsaDom SsaProps SsaEq SsaPhi SsaCse SsaDce SsaGvn CodeMotion CodeMotionProps M2RRun Ifc TailStoreProps InfElimProps SmallInl SmallInlProof.
Import ListNotations.

(** ** proofs *)
Lemma length_nodup1 (l : list nat) b : In b l -> length (nodup Nat.eq_dec l) = 1 -> forall t, In t l -> t = b.
Proof.
  intros H L t Ht. apply (nodup_In Nat.eq_dec) in H. apply (nodup_In Nat.eq_dec) in Ht. destruct (nodup Nat.eq_dec l) as [|a [|c l']]; cbn in L; try discriminate.
  destruct H as [<-|[]]. destruct Ht as [<-|[]]. reflexivity.
Qed.
Lemma predsIn_In f b k bk : get k f = Some bk -> In b (succs (trm bk)) -> In k (predsIn f b).
Proof.
  intros G H. unfold predsIn. apply in_map_iff. exists (k, bk). split; auto. apply filter_In. split; [now apply get_In|]. cbn. now apply inb_In.
Qed.
Lemma In_predsIn f b k : wf f -> In k (predsIn f b) -> exists bk, get k f = Some bk /\ In b (succs (trm bk)).
Proof.
  intros Hw H. unfold predsIn in H. apply in_map_iff in H as ([k' bk] & <- & H). apply filter_In in H as [H I]. cbn in *. exists bk. split; [|now apply inb_In].
  apply In_get; auto. apply Hw.
Qed.
Lemma predsValid_HP f b : predsValid f b = true -> forall p pb, get p f = Some pb -> In b (succs (trm pb)) -> p <> b /\ forall t, In t (succs (trm pb)) -> t = b.
Proof.
  unfold predsValid. rewrite forallb_forall. intros H p pb G I. specialize (H p (predsIn_In f b p pb G I)). rewrite G in H. apply andb_true_iff in H as [H1 H2].
  apply negb_true_iff, Nat.eqb_neq in H1. apply Nat.eqb_eq in H2. split; auto. now apply length_nodup1.
Qed.
Lemma copies_dst nam l : forall s j, map dst (copies nam s j l) = map nam (seq j (length l)).
Proof. induction l as [|i l IH]; intros s j; cbn; auto. now rewrite IH. Qed.
Lemma outPhis_dst f b nam ps l : forall j, map pdst (outPhis f b nam ps j l) = filter (usedOut f b) (map dst l).
Proof. induction l as [|i l IH]; intros j; cbn; auto. rewrite map_app, IH. destruct (usedOut f b (dst i)); reflexivity. Qed.
Lemma outPhis_inc f b nam ps l : forall j ph, In ph (outPhis f b nam ps j l) -> map fst (inc ph) = ps.
Proof.
  induction l as [|i l IH]; intros j ph H; [destruct H|]. cbn [outPhis] in H. apply in_app_or in H as [H|H]; [|eapply IH; eauto].
  destruct (usedOut f b (dst i)); [|destruct H]. destruct H as [<-|[]]. cbn. rewrite map_map. apply map_id.
Qed.
Lemma NoDup_map_inj {A B} (h : A -> B) l : (forall x y, h x = h y -> x = y) -> NoDup l -> NoDup (map h l).
Proof.
  intros I. induction l as [|a l IH]; intros N; cbn; [constructor|]. inversion N; subst. constructor; auto.
  intros K. apply in_map_iff in K as (y & K & K'). apply I in K. subst. contradiction.
Qed.
Lemma nm_block n len k1 k2 j1 j2 : j1 < len -> j2 < len -> nm n len k1 j1 = nm n len k2 j2 -> k1 = k2.
Proof. unfold nm. intros L1 L2 H. nia. Qed.

Section Wf.
Variables (f : func) (b : nat) (tb : block).
Hypothesis Hw : wf f.
Hypothesis Hb : get b f = Some tb.
Let n := freshBase f.
Let len := length (body tb).
Let g : func := map (fun kb => (fst kb, sbBlk f b tb (fst kb) (snd kb))) f.

Lemma sbBlk_trm k bk : trm (sbBlk f b tb k bk) = trm bk.
Proof. unfold sbBlk. destruct (Nat.eqb k b); auto. destruct (inb b (succs (trm bk))); auto. Qed.
Lemma sbBlk_results k bk : get k f = Some bk -> NoDup (resultsOf (sbBlk f b tb k bk)) /\
  forall x, In x (resultsOf (sbBlk f b tb k bk)) -> In x (resultsOf bk) \/ exists j, j < len /\ x = nm n len k j.
Proof.
  intros G. pose proof (wf_NoDup_block f k bk Hw G) as N. unfold sbBlk, resultsOf.
  destruct (Nat.eqb_spec k b) as [->|D]; [|destruct (inb b (succs (trm bk)))]; cbn [phis body].
  - rewrite map_app, outPhis_dst. cbn [map]. rewrite app_nil_r. split.
    + apply NoDup_app_i; [now apply NoDup_app_l in N|apply NoDup_filter; now apply NoDup_app_r in N|].
      intros x H1 H2. apply filter_In in H2 as [H2 _]. exact (NoDup_app_disj _ _ N x H1 H2).
    + intros x H. left. apply in_app_or in H as [H|H]; apply in_or_app; auto. apply filter_In in H as [H _]. auto.
  - rewrite map_app, copies_dst, app_assoc. fold len n. split.
    + apply NoDup_app_i; auto.
      * apply NoDup_map_inj; [apply nm_inj|apply seq_NoDup].
      * intros x H1 H2. apply in_map_iff in H2 as (j & <- & _). assert (L : nm n len k j < n).
        { apply freshBase_res. unfold allResults. apply in_flat_map. exists (k, bk). split; [now apply get_In|exact H1]. }
        unfold nm in L. lia.
    + intros x H. apply in_app_or in H as [H|H]; auto. right. apply in_map_iff in H as (j & <- & H). apply in_seq in H. exists j. split; auto. lia.
  - split; auto.
Qed.
Lemma sb_wf : wf g.
Proof.
  pose proof Hw as (W1 & (W2 & W3) & W4 & W5 & W6). destruct (proj1 (uniqR_iff f W2) W3) as [U1 U2].
  assert (Fg : map fst g = map fst f) by (unfold g; rewrite map_map; reflexivity).
  pose proof (sb_get f b tb) as Hg. fold g in Hg.
  assert (Inv : forall k bk, get k g = Some bk -> exists b0, get k f = Some b0 /\ bk = sbBlk f b tb k b0).
  { intros k bk H. rewrite Hg in H. destruct (get k f) as [b0|]; [|discriminate]. injection H as <-. eauto. }
  assert (Ph : forall k bk ph, In ph (phis (sbBlk f b tb k bk)) -> In ph (phis bk) \/ (k = b /\ map fst (inc ph) = predsIn f b)).
  { intros k bk ph H. unfold sbBlk in H. destruct (Nat.eqb_spec k b) as [->|D].
    - cbn in H. apply in_app_or in H as [H|H]; auto. right. split; auto. eapply outPhis_inc; eauto.
    - destruct (inb b (succs (trm bk))); auto. }
  split; [|split; [split|split; [|split]]].
  - intros K. apply W1. apply (f_equal (map fst)) in K. rewrite Fg in K. destruct f; [auto|discriminate].
  - now rewrite Fg.
  - apply uniqR_iff; [now rewrite Fg|]. split.
    + intros k bk H. destruct (Inv k bk H) as (b0 & G & ->). now apply sbBlk_results.
    + intros k1 k2 b1 b2 x H1 H2 X1 X2. destruct (Inv k1 b1 H1) as (c1 & G1 & ->). destruct (Inv k2 b2 H2) as (c2 & G2 & ->).
      assert (Fr : forall k c, get k f = Some c -> In x (resultsOf c) -> x < n).
      { intros k c G H. apply freshBase_res. unfold allResults. apply in_flat_map. exists (k, c). split; [now apply get_In|exact H]. }
      apply (sbBlk_results k1 c1 G1) in X1. apply (sbBlk_results k2 c2 G2) in X2. destruct X1 as [X1|(j1 & L1 & X1)], X2 as [X2|(j2 & L2 & X2)].
      * eapply U2; eauto.
      * apply (Fr k1 c1 G1) in X1. unfold nm in X2. lia.
      * apply (Fr k2 c2 G2) in X2. unfold nm in X1. lia.
      * eapply (nm_block n len); [exact L1|exact L2|congruence].
  - intros k bk t H Ht. rewrite Fg. destruct (Inv k bk H) as (b0 & G & ->). rewrite sbBlk_trm in Ht. eapply W4; eauto.
  - intros k bk ph p o H Hph Hin. destruct (Inv k bk H) as (b0 & G & ->). assert (K : exists pb, get p f = Some pb /\ In k (succs (trm pb))).
    { apply Ph in Hph as [Hph|[-> E]]; [exact (W5 k b0 ph p o G Hph Hin)|]. apply In_predsIn; auto. rewrite <- E. now apply (in_map fst) in Hin. }
    destruct K as (pb & G' & I). rewrite Hg, G'. cbn. eexists. split; eauto. now rewrite sbBlk_trm.
  - intros k bk ph p pb H Hph Hp Hin. destruct (Inv k bk H) as (b0 & G & ->). destruct (Inv p pb Hp) as (b1 & G1 & ->). rewrite sbBlk_trm in Hin.
    apply Ph in Hph as [Hph|[-> E]]; [exact (W6 k b0 ph p b1 G Hph G1 Hin)|]. intros K. apply get_None in K. apply K. rewrite E. eapply predsIn_In; eauto.
Qed.
Lemma sb_entryNoPred : entryNoPred f -> entryNoPred g.
Proof.
  intros H k bk G I. assert (E : entry g = entry f) by (unfold g; destruct f as [|[a0 b0] f0]; reflexivity). rewrite E in I.
  unfold g in G. rewrite (sb_get f b tb) in G. destruct (get k f) as [b0|] eqn:E0; [|discriminate]. injection G as <-. rewrite sbBlk_trm in I. eapply H; eauto.
Qed.
End Wf.

(** ** the properties *)
(** one block *)
Theorem C57_one_block_keeps_behaviour knd f b g : wf f -> entryNoPred f -> sbOne knd f b = Some g -> refines knd f g /\ wf g /\ entryNoPred g.
Proof.
  intros Hw He H. unfold sbOne in H.
  assert (Same : refines knd f f /\ wf f /\ entryNoPred f) by (split; [apply refines_refl|auto]).
  destruct (get b f) as [tb|] eqn:Hb; [|injection H as <-; exact Same].
  destruct (trm tb) as [d|c x y|c cs x|o|] eqn:Tb; try (injection H as <-; exact Same).
  destruct (hasCall knd tb); [injection H as <-; exact Same|]. destruct (Nat.eqb_spec (length (predsIn f b)) 0) as [|Hn]; [injection H as <-; exact Same|].
  destruct (predsValid f b) eqn:Hv; [|injection H as <-; exact Same]. destruct (5 <? length (body tb)); [injection H as <-; exact Same|].
  destruct (Nat.eqb (length (body tb)) 0); [injection H as <-; exact Same|]. cbn [orb negb] in H.
  destruct (ordered (body tb)) eqn:Ho; [|discriminate]. injection H as <-.
  assert (NE : b <> entry f).
  { destruct (predsIn f b) as [|p ps] eqn:Ep; [now destruct Hn|]. destruct (In_predsIn f b p Hw) as (pb & G & I); [rewrite Ep; now left|].
    intros ->. exact (He p pb G I). }
  split; [|split].
  - apply (sb_refines f b d tb Hw Hb Tb NE (predsValid_HP f b Hv) Ho).
  - now apply sb_wf.
  - now apply sb_entryNoPred.
Qed.
(** the pass *)
Theorem C57_small_block_inlining_keeps_behaviour knd f g : wf f -> entryNoPred f -> smallInline knd f = Some g -> refines knd f g /\ wf g /\ entryNoPred g.
Proof.
  unfold smallInline. generalize (map fst f). intros l. assert (N : forall l, fold_left (fun o b => match o with Some g => sbOne knd g b | None => None end) l None = None).
  { clear. induction l; cbn; auto. }
  revert f. induction l as [|b l IH]; intros f Hw He H; cbn in H.
  - injection H as <-. split; [apply refines_refl|auto].
  - destruct (sbOne knd f b) as [f1|] eqn:E; [|rewrite N in H; discriminate]. destruct (C57_one_block_keeps_behaviour knd f b f1 Hw He E) as (R1 & W1 & E1).
    destruct (IH f1 W1 E1 H) as (R2 & W2 & E2). split; auto. eapply refines_trans; eauto.
Qed.

(** ** examples *)
(** opcode 1 compares, 2 adds, 3 is a call, 5 a store of which the world keeps the sum *)
Definition sbSem : sem Z := Sem
  (fun o a w =>
     match o, a with
     | 1, [VInt x; VInt y] => IOk (VInt (if Z.ltb x y then 1 else 0)) w
     | 2, [VInt x; VInt y] => IOk (VInt (x + y)) w
     | 3, [VInt x] => IOk VUndef (w + x)%Z
     | 5, [VInt x] => IOk VUndef (w + x)%Z
     | _, _ => IBad
     end)
  (fun o => Nat.eqb o 3).
Definition sbKnd (o : nat) : kind := if Nat.eqb o 3 then KCall false false false else KStore.
(** [if (a < b) c = 7; else print(c = a); d = c + a; store(d); while (d < b) ...; return c + d] *)
Definition sbf : func :=
  [(0, Block [] [Inst 1 1 [OArg 0; OArg 1]] (TCond (ORes 1) 1 2));
   (1, Block [] [] (TBr 3));
   (2, Block [] [Inst 2 3 [OArg 0]] (TBr 3));
   (3, Block [Phi 3 [(1, OCst (VInt 7)); (2, OArg 0)]] [Inst 4 2 [ORes 3; OArg 0]; Inst 5 2 [ORes 4; ORes 4]; Inst 6 5 [ORes 5]] (TBr 4));
   (4, Block [Phi 7 [(3, ORes 4); (4, ORes 8)]] [Inst 8 2 [ORes 7; ORes 3]; Inst 9 1 [ORes 8; OArg 1]] (TCond (ORes 9) 4 5));
   (5, Block [] [Inst 10 2 [ORes 8; ORes 3]] (TRet (Some (ORes 10))))].
Definition sbfOut : func :=
  [(0, Block [] [Inst 1 1 [OArg 0; OArg 1]] (TCond (ORes 1) 1 2));
   (1, Block [] [Inst 14 2 [OCst (VInt 7); OArg 0]; Inst 15 2 [ORes 14; ORes 14]; Inst 16 5 [ORes 15]] (TBr 3));
   (2, Block [] [Inst 2 3 [OArg 0]; Inst 17 2 [OArg 0; OArg 0]; Inst 18 2 [ORes 17; ORes 17]; Inst 19 5 [ORes 18]] (TBr 3));
   (3, Block [Phi 3 [(1, OCst (VInt 7)); (2, OArg 0)]; Phi 4 [(1, ORes 14); (2, ORes 17)]] [] (TBr 4));
   (4, Block [Phi 7 [(3, ORes 4); (4, ORes 8)]] [Inst 8 2 [ORes 7; ORes 3]; Inst 9 1 [ORes 8; OArg 1]] (TCond (ORes 9) 4 5));
   (5, Block [] [Inst 10 2 [ORes 8; ORes 3]] (TRet (Some (ORes 10))))].
Example sbf_out : smallInline sbKnd sbf = Some sbfOut.
Proof. vm_compute. reflexivity. Qed.
Lemma sbf_wfs : wfs sbf.
Proof. wfs_dec sbf. Qed.
Lemma sbf_entry : entryNoPred sbf.
Proof. apply entryNoPredb_ok. vm_compute. reflexivity. Qed.
Example sbf_same : refines sbKnd sbf sbfOut.
Proof. exact (proj1 (C57_small_block_inlining_keeps_behaviour sbKnd sbf sbfOut (proj1 sbf_wfs) sbf_entry sbf_out)). Qed.
Example sbf_runs : finishes (step sbSem (fun n => VInt (2 - Z.of_nat n)) sbfOut) (start sbfOut 0%Z) (Ret (Some (VInt 8)) 10%Z)
  [(3, [VInt 2], 0%Z)].
Proof. exists 5. vm_compute. reflexivity. Qed.

(** the condition on the entry is needed: [do { store(a); } while (a < b)] with the store in the entry *)
Definition sbe : func :=
  [(0, Block [] [Inst 1 5 [OArg 0]] (TBr 1));
   (1, Block [] [Inst 2 1 [OArg 0; OArg 1]] (TCond (ORes 2) 2 3));
   (2, Block [] [] (TBr 0));
   (3, Block [] [] (TRet None))].
Theorem C57_entry_refuted : exists f knd g, wfs f /\ smallInline knd f = Some g /\ ~ refines knd f g /\
  exists args, okSem knd sbSem /\ finishes (step sbSem args f) (start f 0%Z) (Ret None 1%Z) [] /\
    finishes (step sbSem args g) (start g 0%Z) (Ret None 0%Z) [].
Proof.
  exists sbe, sbKnd. eexists. split; [wfs_dec sbe|]. split; [vm_compute; reflexivity|].
  assert (O : okSem sbKnd sbSem).
  { unfold okSem, sbKnd. repeat split; intros o; cbn [visible sbSem]; destruct (Nat.eqb o 3); intros; try discriminate; eauto. }
  assert (F : finishes (step sbSem (fun n => VInt (1 - Z.of_nat n)) sbe) (start sbe 0%Z) (Ret None 1%Z) []) by (exists 3; vm_compute; reflexivity).
  match goal with |- ~ refines _ _ ?g /\ _ =>
    assert (G : finishes (step sbSem (fun n => VInt (1 - Z.of_nat n)) g) (start g 0%Z) (Ret None 0%Z) []) by (exists 3; vm_compute; reflexivity) end.
  split; [|eauto]. intros R. destruct (R Z sbSem (fun n => VInt (1 - Z.of_nat n)) 0%Z O) as (_ & H & _).
  - exact (proj1 (run_fin_safe _ _ _ _ F)).
  - apply H in F. pose proof (fin_det _ _ _ _ _ _ F G) as K. destruct K as [K _]. discriminate.
Qed.
