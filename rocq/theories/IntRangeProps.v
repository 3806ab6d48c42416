(** Properties C01-C04: soundness of the integer-range domain. Statements use only IntRangeSpec. *)
From Coq Require Import ZArith Lia Bool.
From Verif Require Import Word IntRangeModel IntRangeSpec IntRangeProofs IntRangeOps IntRangeExact.
Local Open Scope Z_scope.

(** *** C01 *)
Theorem C01_add_sound : sound2 radd m_add always2.
Proof. exact radd_sound_lemma. Qed.
Theorem C01_sub_sound : sound2 rsub m_sub always2.
Proof. exact rsub_sound_lemma. Qed.
Theorem C01_mul_sound : sound2 rmul m_mul always2.
Proof. exact rmul_sound_lemma. Qed.
Theorem C01_neg_sound : sound1 rneg m_neg always1.
Proof. exact rneg_sound_lemma. Qed.

(** *** C02 ([shift_ok x y] is 0 <= y <= 31, the shift amounts with defined behaviour) *)
Theorem C02_and_sound : sound2 rand m_and always2.
Proof. exact rand_sound_lemma. Qed.
Theorem C02_or_sound : sound2 ror m_or always2.
Proof. exact ror_sound_lemma. Qed.
Theorem C02_xor_sound : sound2 rxor m_xor always2.
Proof. exact rxor_sound_lemma. Qed.
Theorem C02_shl_sound : sound2 rshl m_shl (fun _ y => 0 <= y <= 31).
Proof. exact rshl_sound_lemma. Qed.
Theorem C02_lshr_sound : sound2 rlshr m_lshr (fun _ y => 0 <= y <= 31).
Proof. exact rlshr_sound_lemma. Qed.
Theorem C02_ashr_sound : sound2 rashr m_ashr (fun _ y => 0 <= y <= 31).
Proof. exact rashr_sound_lemma. Qed.

(** *** C03 *)
Theorem C03_udiv_sound : sound2 rudiv m_udiv (fun _ y => y <> 0).
Proof. exact rudiv_sound_lemma. Qed.
Theorem C03_urem_sound : sound2 rurem m_urem (fun _ y => y <> 0).
Proof. exact rurem_sound_lemma. Qed.
Theorem C03_srem_sound : sound2 rsrem m_srem (fun _ y => y <> 0).
Proof. exact rsrem_sound_lemma. Qed.
(** signed division: true whenever the dividend range excludes INT_MIN, or the divisor range is
    non-negative, or it lies below -1.  The unrestricted claim is refuted just below. *)
Theorem C03_sdiv_sound_partial :
  forall ck a b x y, wf a -> wf b -> describes a x -> describes b y -> y <> 0 ->
  smin a <> INT_MIN \/ 0 <= smin b \/ smax b <= -2 ->
  exists r, rsdiv ck a b = Some r /\ wf r /\ describes r (m_sdiv x y).
Proof. exact rsdiv_partial. Qed.

(** The range of "x / -1" for x in [INT_MIN, -5] claims at most 5, but -100 / -1 = 100. *)
Definition sdiv_bad_a : range := mkR 0 2147483648 2147483648 4294967291 INT_MIN (-5).
Theorem C03_sdiv_refuted :
  exists a b x y r, wf a /\ wf b /\ describes a x /\ describes b y /\ y <> 0 /\
    s32 x <> INT_MIN /\ rsdiv true a b = Some r /\ ~ describes r (m_sdiv x y).
Proof.
  exists sdiv_bad_a, (ofConst (-1)), (u32 (-100)), (u32 (-1)).
  eexists. split; [unfold wf, sdiv_bad_a, INT_MIN, INT_MAX; cbn; lia|].
  split; [apply ofConst_wf|].
  split.
  { unfold describes, sdiv_bad_a; cbn [umin umax smin smax kz ko].
    split; [vm_compute; split; congruence|]. split; [vm_compute; split; congruence|].
    split; [vm_compute; split; congruence|].
    split; intros i Hi Hb; [rewrite Z.bits_0 in Hb; discriminate|].
    change 2147483648 with (2 ^ 31) in Hb. rewrite Z.pow2_bits_eqb in Hb by lia.
    apply Z.eqb_eq in Hb. subst i. reflexivity. }
  split; [apply ofConst_exact; reflexivity|].
  split; [discriminate|]. split; [discriminate|].
  split; [vm_compute; reflexivity|].
  intros (_ & _ & (_ & H) & _). vm_compute in H. congruence.
Qed.

(** *** C04 *)
Theorem C04_sync_exact : forall ck r x, wf r -> describes r x ->
  exists r', sync ck r = Some r' /\ wf r' /\ forall y, describes r' y <-> describes r y.
Proof. exact sync_exact_lemma. Qed.
Theorem C04_intersect_sound : forall ck a b x, wf a -> wf b -> describes a x -> describes b x ->
  exists r, intersectSet ck a b = Some r /\ wf r /\ describes r x.
Proof. exact intersectSet_ok. Qed.
Theorem C04_union_sound : forall ck a b x, wf a -> wf b -> describes a x \/ describes b x ->
  exists r, unionSet ck a b = Some r /\ wf r /\ describes r x.
Proof. exact unionSet_ok. Qed.
Theorem C04_const_exact : forall c x, describes (ofConst c) x <-> x = u32 c.
Proof. exact ofConst_exact. Qed.
Theorem C04_full_top : forall x, 0 <= x < 4294967296 -> describes full x.
Proof. exact describes_full. Qed.
Theorem C04_inferConstant_sound : forall r c x, wf r -> describes r x -> inferConstant r = Some c -> s32 x = c.
Proof. exact inferConstant_ok. Qed.
Theorem C04_intersectWith_complete : forall a b x, wf a -> wf b -> describes a x -> describes b x ->
  intersectWith a b = true.
Proof. exact intersectWith_ok. Qed.
Theorem C04_nonNegative_exact : forall ck, exists r, nonNegative ck = Some r /\ wf r /\
  forall x, describes r x <-> 0 <= x <= INT_MAX.
Proof. exact nonNegative_ok. Qed.
Theorem C04_smax_sound : sound2 rsmax m_smax always2.
Proof. exact rsmax_sound_lemma. Qed.
Theorem C04_smin_sound : sound2 rsmin m_smin always2.
Proof. exact rsmin_sound_lemma. Qed.
Theorem C04_abs_sound_partial : forall ck a x, wf a -> describes a x -> smin a <> INT_MIN \/ smax a < 0 ->
  exists r, rabs ck a = Some r /\ wf r /\ describes r (m_abs x).
Proof. exact rabs_partial. Qed.
(** abs of a range that contains INT_MIN and a non-negative value: an assertion failure in a build with
    assertions; in an NDEBUG build the result claims "non-negative" although |INT_MIN| wraps to INT_MIN. *)
Theorem C04_abs_refuted :
  rabs true full = None /\
  exists r, rabs false full = Some r /\ isNonNegative r = true /\ wf full /\
    describes full (u32 INT_MIN) /\ ~ describes r (m_abs (u32 INT_MIN)).
Proof.
  split; [vm_compute; reflexivity|]. eexists. split; [vm_compute; reflexivity|].
  split; [reflexivity|]. split; [apply wf_full|]. split; [apply describes_full; apply u32_range|].
  intros (_ & _ & (H & _) & _). vm_compute in H. congruence.
Qed.
(** isEmpty answers true on every range with more than one unsigned value, e.g. the full range. *)
Theorem C04_isEmpty_refuted : exists r x, wf r /\ describes r x /\ isEmpty r = true.
Proof. exists full, 0. split; [apply wf_full|]. split; [apply describes_full; lia|reflexivity]. Qed.

(** *** the premises are satisfiable: ranges that are neither full nor constant *)
Definition ex_a : range := mkR 4294967280 0 3 12 3 12.      (* 3..12, top 28 bits zero *)
Definition ex_b : range := mkR 4294967292 0 1 2 1 2.        (* 1..2 *)
Example ex_a_wf : wf ex_a. Proof. unfold wf, INT_MIN, INT_MAX; cbn; lia. Qed.
Example ex_b_wf : wf ex_b. Proof. unfold wf, INT_MIN, INT_MAX; cbn; lia. Qed.
Lemma describes_check r x :
  (0 <=? x) && (x <? 4294967296) && (umin r <=? x) && (x <=? umax r) && (smin r <=? s32 x) && (s32 x <=? smax r)
  && (Z.land (kz r) x =? 0) && (Z.land (ko r) x =? ko r) = true -> describes r x.
Proof.
  rewrite !andb_true_iff, !Z.leb_le, Z.ltb_lt, !Z.eqb_eq.
  intros (((((((H1 & H2) & H3) & H4) & H5) & H6) & H7) & H8).
  unfold describes. repeat split; try lia; intros i Hi Hb.
  - assert (Z.testbit (Z.land (kz r) x) i = false) as H by (rewrite H7; apply Z.bits_0).
    rewrite Z.land_spec, Hb in H. exact H.
  - rewrite <- H8, Z.land_spec in Hb. apply andb_prop in Hb. tauto.
Qed.
Example ex_a_describes : describes ex_a 5. Proof. apply describes_check. reflexivity. Qed.
Example ex_b_describes : describes ex_b 2. Proof. apply describes_check. reflexivity. Qed.
Example ex_add : exists r, radd true ex_a ex_b = Some r /\ smax r = 14 /\ smin r = 4.
Proof. eexists. split; [vm_compute; reflexivity|]. split; reflexivity. Qed.
Example ex_mul : exists r, rmul true ex_a ex_b = Some r /\ smax r = 24 /\ smin r = 3.
Proof. eexists. split; [vm_compute; reflexivity|]. split; reflexivity. Qed.
Example ex_sdiv : exists r, rsdiv true ex_a ex_b = Some r /\ smax r = 12 /\ smin r = 1.
Proof. eexists. split; [vm_compute; reflexivity|]. split; reflexivity. Qed.
Example ex_shl : exists r, rshl true ex_a ex_b = Some r /\ smax r = 48 /\ smin r = 6.
Proof. eexists. split; [vm_compute; reflexivity|]. split; reflexivity. Qed.
Example ex_sdiv_safe : smin ex_a <> INT_MIN. Proof. discriminate. Qed.

Print Assumptions C01_add_sound. Print Assumptions C01_sub_sound. Print Assumptions C01_mul_sound.
Print Assumptions C01_neg_sound. Print Assumptions C02_and_sound. Print Assumptions C02_or_sound.
Print Assumptions C02_xor_sound. Print Assumptions C02_shl_sound. Print Assumptions C02_lshr_sound.
Print Assumptions C02_ashr_sound. Print Assumptions C03_udiv_sound. Print Assumptions C03_urem_sound.
Print Assumptions C03_srem_sound. Print Assumptions C03_sdiv_sound_partial. Print Assumptions C03_sdiv_refuted.
Print Assumptions C04_sync_exact. Print Assumptions C04_intersect_sound. Print Assumptions C04_union_sound.
Print Assumptions C04_const_exact. Print Assumptions C04_inferConstant_sound.
Print Assumptions C04_intersectWith_complete. Print Assumptions C04_nonNegative_exact.
Print Assumptions C04_smax_sound. Print Assumptions C04_smin_sound. Print Assumptions C04_abs_sound_partial.
Print Assumptions C04_abs_refuted. Print Assumptions C04_isEmpty_refuted.
