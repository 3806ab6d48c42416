From Coq Require Import ZArith Lia Bool ZifyBool List.
From Verif Require Import Word IntRangeModel IntRangeSpec.
Import ListNotations.
Local Open Scope Z_scope.
Ltac Zify.zify_post_hook ::= Z.div_mod_to_equations.

Arguments Z.pow : simpl never.

(** ** masks *)
Lemma shl32_testbit x i j : 0 <= i -> 0 <= j < 32 ->
  Z.testbit (shl32 x i) j = Z.testbit x (j - i).
Proof. intros. unfold shl32. rewrite u32_testbit by lia. apply Z.shiftl_spec; lia. Qed.
Lemma shl32_range x i : 0 <= shl32 x i < 4294967296.
Proof. apply u32_range. Qed.
Lemma shr32_testbit x i j : 0 <= i -> 0 <= j -> Z.testbit (shr32 x i) j = Z.testbit x (j + i).
Proof. intros. unfold shr32. apply Z.shiftr_spec; lia. Qed.
Lemma shr32_range x i : 0 <= i -> 0 <= x < 4294967296 -> 0 <= shr32 x i < 4294967296.
Proof.
  intros. unfold shr32. rewrite Z.shiftr_div_pow2 by lia.
  assert (0 < 2 ^ i) by (apply Z.pow_pos_nonneg; lia).
  split; [apply Z.div_pos; lia|]. apply Z.div_lt_upper_bound; [lia|nia].
Qed.
Lemma UINT_MAX_testbit i : 0 <= i -> Z.testbit UINT_MAX i = (i <? 32).
Proof. intros. change UINT_MAX with (2 ^ 32 - 1). apply testbit_ones_shift; lia. Qed.
Lemma topMask_range l : 0 <= topMask l < 4294967296.
Proof. apply not32_range. Qed.
Lemma topMask_testbit l i : 0 <= l <= 31 -> 0 <= i < 32 -> Z.testbit (topMask l) i = (32 - l <=? i).
Proof.
  intros. unfold topMask. rewrite not32_testbit by lia. rewrite shr32_testbit by lia.
  destruct (Z_lt_le_dec (i + l) 32).
  - rewrite shl32_testbit by lia. rewrite UINT_MAX_testbit by lia. lia.
  - rewrite range_testbit_high; [|apply shl32_range|lia]. lia.
Qed.
Lemma shl32_1 l : 0 <= l <= 31 -> shl32 1 l = 2 ^ l.
Proof.
  intros. unfold shl32. rewrite Z.shiftl_mul_pow2 by lia. rewrite Z.mul_1_l. apply u32_small.
  split; [apply Z.pow_nonneg; lia|]. change 4294967296 with (2^32). apply Z.pow_lt_mono_r; lia.
Qed.
Lemma pow2_le31 l : 0 <= l <= 31 -> 1 <= 2 ^ l <= 2147483648.
Proof.
  intros. change 2147483648 with (2^31). change 1 with (2^0). split; apply Z.pow_le_mono_r; lia.
Qed.

(** ** set-bits helper: describe the known-bit part *)
Definition dbits (z o x : Z) : Prop :=
  (forall i, 0 <= i < 32 -> Z.testbit z i = true -> Z.testbit x i = false) /\
  (forall i, 0 <= i < 32 -> Z.testbit o i = true -> Z.testbit x i = true).

Lemma describes_bits r x : describes r x -> dbits (kz r) (ko r) x.
Proof. unfold describes, dbits; tauto. Qed.

Lemma dbits_disjoint z o x : 0 <= z < 4294967296 -> 0 <= o < 4294967296 -> dbits z o x -> Z.land z o = 0.
Proof.
  intros Hz Ho [H1 H2]. apply Z.bits_inj'. intros i Hi. rewrite Z.land_spec, Z.bits_0.
  destruct (Z_lt_le_dec i 32).
  - destruct (Z.testbit z i) eqn:E1, (Z.testbit o i) eqn:E2; try reflexivity.
    specialize (H2 i ltac:(lia) E2). specialize (H1 i ltac:(lia) E1). congruence.
  - rewrite (range_testbit_high z) by lia. reflexivity.
Qed.

Lemma check_true ck c A (a : A) : c = true -> check ck c a = Some a.
Proof. unfold check; intros ->; destruct ck; reflexivity. Qed.

(** ** full *)
Lemma wf_full : wf full.
Proof. unfold wf, full, INT_MIN, INT_MAX, UINT_MAX; cbn; lia. Qed.
Lemma describes_full x : 0 <= x < 4294967296 -> describes full x.
Proof.
  intros. unfold describes, full, UINT_MAX; cbn [umin umax smin smax kz ko].
  pose proof (s32_range x).
  split; [lia|]. split; [lia|]. split; [lia|].
  split; intros i Hi Hb; rewrite Z.bits_0 in Hb; discriminate.
Qed.

(** ** signed2Unsigned *)
Lemma s2u_sound r x : wf r -> describes r x -> wf (signed2Unsigned r) /\ describes (signed2Unsigned r) x.
Proof.
  intros Hw (Hx & Hu & Hs & Hz & Ho). unfold wf, INT_MIN, INT_MAX in *.
  pose proof (s32_spec x Hx) as Es.
  unfold signed2Unsigned. 
  destruct (0 <=? smin r) eqn:E1; cbn [setU smax smin umin umax kz ko];
  destruct (smax r <? 0) eqn:E2; unfold describes; cbn [setU smax smin umin umax kz ko];
  destruct (x <? 2147483648) eqn:E3; unfold u64, u32; repeat split; try lia; auto.
Qed.

(** ** unsigned2Signed *)
Lemma u2s_sound r x : wf r -> describes r x -> wf (unsigned2Signed r) /\ describes (unsigned2Signed r) x.
Proof.
  intros Hw (Hx & Hu & Hs & Hz & Ho). unfold wf, INT_MIN, INT_MAX in *.
  pose proof (s32_spec x Hx) as Es.
  unfold unsigned2Signed, INT_MAX.
  destruct (umax r <=? 2147483647) eqn:E1; cbn [setS smax smin umin umax kz ko];
  destruct (2147483647 <? umin r) eqn:E2; unfold describes; cbn [setS smax smin umin umax kz ko];
  destruct (x <? 2147483648) eqn:E3; unfold s32 in *; repeat split; try lia; auto.
Qed.

(** ** prefix lemma *)
Lemma common_prefix lo hi x k : 0 <= k ->
  (forall i, k <= i -> Z.testbit lo i = Z.testbit hi i) -> lo <= x <= hi ->
  forall i, k <= i -> Z.testbit x i = Z.testbit lo i.
Proof.
  intros Hk Hb Hx i Hi.
  assert (E : Z.shiftr lo k = Z.shiftr hi k).
  { apply Z.bits_inj'. intros j Hj. rewrite !Z.shiftr_spec by lia. apply Hb. lia. }
  assert (E2 : Z.shiftr x k = Z.shiftr lo k).
  { rewrite !Z.shiftr_div_pow2 in * by lia.
    assert (0 < 2 ^ k) by (apply Z.pow_pos_nonneg; lia).
    assert (lo / 2 ^ k <= x / 2 ^ k) by (apply Z.div_le_mono; lia).
    assert (x / 2 ^ k <= hi / 2 ^ k) by (apply Z.div_le_mono; lia). lia. }
  replace i with ((i - k) + k) by lia.
  rewrite <- !Z.shiftr_spec by lia. rewrite E2. reflexivity.
Qed.

(** adding known bits copied from [v] above position k (or everywhere) *)
Lemma addK_sound r v x M : wf r -> describes r x -> 0 <= v < 4294967296 -> 0 <= M < 4294967296 ->
  (forall i, 0 <= i < 32 -> Z.testbit M i = true -> Z.testbit x i = Z.testbit v i) ->
  let r' := setK r (Z.lor (kz r) (Z.land (not32 v) M)) (Z.lor (ko r) (Z.land v M)) in
  wf r' /\ describes r' x.
Proof.
  intros (W1 & W2 & W3 & W4 & W5 & W6) (Hx & Hu & Hs & Hz & Ho) Hv HM Hm r'.
  split.
  - unfold wf, r'; cbn [setK smax smin umin umax kz ko].
    pose proof (not32_range v).
    repeat split; try lia; try (apply Z.lor_nonneg; split; try lia; apply Z.land_nonneg; lia);
      apply lor_range32; try lia; apply land_range32; lia.
  - unfold describes, r'; cbn [setK smax smin umin umax kz ko].
    repeat split; try lia.
    + intros i Hi. rewrite Z.lor_spec, Z.land_spec, not32_testbit by lia. intros Hb.
      destruct (Z.testbit (kz r) i) eqn:E; [auto|]. cbn in Hb.
      apply andb_prop in Hb as [Hb1 Hb2]. rewrite Hm by assumption.
      apply negb_true_iff; assumption.
    + intros i Hi. rewrite Z.lor_spec, Z.land_spec by lia. intros Hb.
      destruct (Z.testbit (ko r) i) eqn:E; [auto|]. cbn in Hb.
      apply andb_prop in Hb as [Hb1 Hb2]. rewrite Hm by assumption. assumption.
Qed.

Lemma land_UINT_MAX v : 0 <= v < 4294967296 -> Z.land v UINT_MAX = v.
Proof. intros. change UINT_MAX with (2^32 - 1). rewrite land_low by lia. apply Z.mod_small. lia. Qed.

Lemma addK_all_sound r v x : wf r -> describes r x -> 0 <= v < 4294967296 ->
  (forall i, 0 <= i < 32 -> Z.testbit x i = Z.testbit v i) ->
  let r' := setK r (Z.lor (kz r) (not32 v)) (Z.lor (ko r) v) in
  wf r' /\ describes r' x.
Proof.
  intros Hw Hd Hv Hm.
  pose proof (addK_sound r v x UINT_MAX Hw Hd Hv ltac:(unfold UINT_MAX; lia) ltac:(auto)) as H.
  rewrite (land_UINT_MAX v), (land_UINT_MAX (not32 v)) in H by (try apply not32_range; lia). exact H.
Qed.

(** ** unsigned2Bit *)
Lemma u2b_sound r x : wf r -> describes r x -> wf (unsigned2Bit r) /\ describes (unsigned2Bit r) x.
Proof.
  intros Hw Hd. pose proof Hw as (W1 & W2 & W3 & W4 & W5 & W6).
  pose proof Hd as (Hx & Hu & Hs & Hz & Ho).
  assert (Hc : u32 (Z.lxor (umin r) (umax r)) = Z.lxor (umin r) (umax r)).
  { apply u32_small. apply lxor_range32; lia. }
  unfold unsigned2Bit. rewrite Hc. rewrite (u32_small (umin r)) by lia.
  destruct (Z.lxor (umin r) (umax r) =? 0) eqn:E.
  - apply Z.eqb_eq in E. apply Z.lxor_eq in E.
    apply (addK_all_sound r (umin r) x); auto; try lia.
    intros. replace x with (umin r) by lia. reflexivity.
  - apply Z.eqb_neq in E. pose proof (lxor_range32 (umin r) (umax r) ltac:(lia) ltac:(lia)) as HR.
    pose proof (clz32_spec (Z.lxor (umin r) (umax r)) ltac:(lia)) as HL.
    apply addK_sound; auto; try lia; [apply topMask_range|].
    intros i Hi Hb. rewrite topMask_testbit in Hb by lia.
    apply (common_prefix (umin r) (umax r) x (32 - clz32 (Z.lxor (umin r) (umax r)))); try lia.
    intros j Hj.
    assert (Z.testbit (Z.lxor (umin r) (umax r)) j = false) as Hf by (apply clz32_high; lia).
    rewrite Z.lxor_spec in Hf. destruct (Z.testbit (umin r) j), (Z.testbit (umax r) j); auto; discriminate.
Qed.

Lemma s32_high_bits x i : INT_MIN <= x <= INT_MAX -> 31 <= i -> Z.testbit x i = (x <? 0).
Proof.
  unfold INT_MIN, INT_MAX. intros Hx Hi.
  destruct (x <? 0) eqn:E.
  - replace x with (Z.lnot (- x - 1)) by (unfold Z.lnot; lia).
    rewrite Z.lnot_spec by lia. destruct (Z.eq_dec (-x-1) 0) as [->|]; [rewrite Z.bits_0; reflexivity|].
    rewrite Z.bits_above_log2; [reflexivity|lia|].
    assert (Z.log2 (- x - 1) < 31) by (apply Z.log2_lt_pow2; lia). lia.
  - destruct (Z.eq_dec x 0) as [->|]; [apply Z.bits_0|].
    rewrite Z.bits_above_log2; [reflexivity|lia|].
    assert (Z.log2 x < 31) by (apply Z.log2_lt_pow2; lia). lia.
Qed.
Lemma s32_testbit x i : 0 <= i < 32 -> Z.testbit (s32 x) i = Z.testbit x i.
Proof.
  intros. rewrite <- (u32_testbit (s32 x)) by lia. rewrite u32_s32. apply u32_testbit; lia.
Qed.

(** ** signed2Bit *)
Lemma s2b_sound r x : wf r -> describes r x -> wf (signed2Bit r) /\ describes (signed2Bit r) x.
Proof.
  intros Hw Hd. pose proof Hw as (W1 & W2 & W3 & W4 & W5 & W6).
  pose proof Hd as (Hx & Hu & Hs & Hz & Ho).
  pose proof (s32_range x) as Hxs.
  set (c := u32 (Z.lxor (smin r) (smax r))).
  assert (Hcb : forall i, 0 <= i < 32 -> Z.testbit c i = xorb (Z.testbit (smin r) i) (Z.testbit (smax r) i)).
  { intros. unfold c. rewrite u32_testbit by lia. apply Z.lxor_spec. }
  assert (Hx32 : forall i, 0 <= i < 32 -> Z.testbit x i = Z.testbit (s32 x) i).
  { intros. symmetry. apply s32_testbit; lia. }
  assert (Hv : forall i, 0 <= i < 32 -> Z.testbit (u32 (smin r)) i = Z.testbit (smin r) i).
  { intros; apply u32_testbit; lia. }
  pose proof (u32_range (smin r)) as Hvr.
  pose proof (u32_range (Z.lxor (smin r) (smax r))) as Hcr. fold c in Hcr.
  unfold signed2Bit. fold c.
  destruct (c =? 0) eqn:E.
  - apply Z.eqb_eq in E.
    apply (addK_all_sound r (u32 (smin r)) x); auto; try lia.
    intros i Hi. rewrite Hx32, Hv by lia.
    assert (Hall : forall j, 0 <= j -> Z.testbit (smin r) j = Z.testbit (smax r) j).
    { intros j Hj. destruct (Z_lt_le_dec j 32).
      - specialize (Hcb j ltac:(lia)). rewrite E, Z.bits_0 in Hcb.
        destruct (Z.testbit (smin r) j), (Z.testbit (smax r) j); auto; discriminate.
      - assert (H31 : Z.testbit (smin r) 31 = Z.testbit (smax r) 31).
        { specialize (Hcb 31 ltac:(lia)). rewrite E, Z.bits_0 in Hcb.
          destruct (Z.testbit (smin r) 31), (Z.testbit (smax r) 31); auto; discriminate. }
        rewrite !s32_high_bits in * by (unfold INT_MIN, INT_MAX in *; lia). assumption. }
    apply (common_prefix (smin r) (smax r) (s32 x) 0); try lia. intros; apply Hall; lia.
  - apply Z.eqb_neq in E.
    pose proof (clz32_spec c ltac:(lia)) as HL.
    apply addK_sound; auto; try lia; [apply topMask_range|].
    intros i Hi Hb. rewrite topMask_testbit in Hb by lia.
    rewrite Hx32, Hv by lia.
    apply (common_prefix (smin r) (smax r) (s32 x) (32 - clz32 c)); try lia.
    assert (Hlow : forall j, 32 - clz32 c <= j < 32 -> Z.testbit (smin r) j = Z.testbit (smax r) j).
    { intros j Hj. assert (Z.testbit c j = false) as Hf by (apply clz32_high; lia).
      rewrite Hcb in Hf by lia. destruct (Z.testbit (smin r) j), (Z.testbit (smax r) j); auto; discriminate. }
    intros j Hj. destruct (Z_lt_le_dec j 32); [apply Hlow; lia|].
    assert (H31 := Hlow 31 ltac:(lia)).
    rewrite !s32_high_bits in * by (unfold INT_MIN, INT_MAX in *; lia). assumption.
Qed.

(** ** inferSuffix *)
Lemma inferSuffix_spec r x : wf r -> describes r x ->
  let '(suf, len) := inferSuffix r in
  0 <= len <= 32 /\ suf = x mod 2 ^ len.
Proof.
  intros Hw Hd. pose proof Hw as (W1 & W2 & W3 & W4 & W5 & W6).
  pose proof Hd as (Hx & Hu & Hs & Hz & Ho).
  unfold inferSuffix.
  destruct (Z.lor (ko r) (kz r) =? UINT_MAX) eqn:E.
  - split; [lia|]. apply Z.eqb_eq in E. change (2 ^ 32) with 4294967296. rewrite Z.mod_small by lia.
    apply bits32_eq; try lia. intros i Hi.
    assert (Hb : Z.testbit (Z.lor (ko r) (kz r)) i = true).
    { rewrite E. rewrite UINT_MAX_testbit by lia. lia. }
    rewrite Z.lor_spec in Hb. destruct (Z.testbit (ko r) i) eqn:E1.
    + symmetry; apply Ho; [lia|assumption].
    + cbn in Hb. symmetry; apply Hz; [lia|assumption].
  - apply Z.eqb_neq in E.
    set (d := Z.lor (ko r) (kz r)) in *.
    assert (Hd32 : 0 <= d < 4294967296) by (apply lor_range32; lia).
    assert (Hn : 0 < not32 d < 4294967296).
    { rewrite not32_eq by lia. unfold UINT_MAX in E. lia. }
    pose proof (ctz_nonneg (not32 d)). pose proof (ctz_lt32 (not32 d) ltac:(lia)).
    set (len := ctz (not32 d)) in *.
    split; [lia|]. rewrite shl32_1 by lia. rewrite <- land_low by lia.
    pose proof (pow2_le31 len ltac:(lia)).
    apply bits32_eq.
    + apply land_range32; lia.
    + apply land_range32; lia.
    + intros i Hi. rewrite !Z.land_spec. rewrite testbit_ones_shift by lia.
      destruct (i <? len) eqn:El; [|rewrite !andb_false_r; reflexivity].
      rewrite !andb_true_r.
      assert (Hb : Z.testbit (not32 d) i = false) by (apply ctz_spec_low; fold len; lia).
      rewrite not32_testbit in Hb by lia. apply negb_false_iff in Hb.
      unfold d in Hb. rewrite Z.lor_spec in Hb. destruct (Z.testbit (ko r) i) eqn:E1.
      * symmetry; apply Ho; [lia|assumption].
      * cbn in Hb. symmetry; apply Hz; [lia|assumption].
Qed.

Lemma wf_setU r lo hi : wf r -> 0 <= lo -> hi < 4294967296 -> wf (setU r lo hi).
Proof. unfold wf; cbn [setU smax smin umin umax kz ko]; tauto. Qed.
Lemma describes_setU r lo hi x : describes r x -> lo <= x <= hi -> describes (setU r lo hi) x.
Proof. unfold describes; cbn [setU smax smin umin umax kz ko]; tauto. Qed.
Lemma wf_setS r lo hi : wf r -> INT_MIN <= lo -> hi <= INT_MAX -> wf (setS r lo hi).
Proof. unfold wf; cbn [setS smax smin umin umax kz ko]; tauto. Qed.
Lemma describes_setS r lo hi x : describes r x -> lo <= s32 x <= hi -> describes (setS r lo hi) x.
Proof. unfold describes; cbn [setS smax smin umin umax kz ko]; tauto. Qed.
Lemma wf_setK r z o : wf r -> 0 <= z < 4294967296 -> 0 <= o < 4294967296 -> wf (setK r z o).
Proof. unfold wf; cbn [setK smax smin umin umax kz ko]; tauto. Qed.
Lemma describes_setK r z o x : describes r x -> dbits z o x -> describes (setK r z o) x.
Proof. unfold describes, dbits; cbn [setK smax smin umin umax kz ko]; tauto. Qed.

Lemma land_not_low v k : 0 <= k <= 32 -> 0 <= v < 4294967296 ->
  Z.land v (not32 (2 ^ k - 1)) = v - v mod 2 ^ k.
Proof.
  intros Hk Hv.
  assert (E : Z.lor (Z.land v (not32 (2 ^ k - 1))) (Z.land v (2 ^ k - 1)) = v).
  { pose proof (not32_range (2 ^ k - 1)).
    assert (0 < 2^k) by (apply Z.pow_pos_nonneg; lia).
    apply bits32_eq.
    - apply lor_range32; apply land_range32; lia.
    - lia.
    - intros i Hi. rewrite Z.lor_spec, !Z.land_spec, not32_testbit by lia.
      destruct (Z.testbit v i), (Z.testbit (2 ^ k - 1) i); reflexivity. }
  rewrite lor_disjoint in E.
  - rewrite land_low in E by lia. lia.
  - apply Z.bits_inj'. intros i Hi. rewrite Z.bits_0, !Z.land_spec.
    destruct (Z_lt_le_dec i 32).
    + rewrite not32_testbit by lia. destruct (Z.testbit v i), (Z.testbit (2 ^ k - 1) i); reflexivity.
    + rewrite (range_testbit_high v) by lia. reflexivity.
Qed.

Lemma round_or v k suf : 0 <= k <= 32 -> 0 <= v < 4294967296 -> 0 <= suf < 2 ^ k ->
  Z.lor (Z.land v (not32 (2 ^ k - 1))) suf = v - v mod 2 ^ k + suf.
Proof.
  intros Hk Hv Hs. rewrite lor_disjoint; [rewrite land_not_low by lia; reflexivity|].
  rewrite <- (Z.mod_small suf (2^k)) by lia. rewrite <- land_low by lia.
  apply Z.bits_inj'. intros i Hi. rewrite Z.bits_0, !Z.land_spec.
  destruct (Z_lt_le_dec i 32).
  - rewrite not32_testbit by lia.
    destruct (Z.testbit v i), (Z.testbit (2 ^ k - 1) i), (Z.testbit suf i); reflexivity.
  - rewrite (range_testbit_high v) by lia. reflexivity.
Qed.

(** numeric core of the suffix rounding *)
Lemma mod_ge_round m lo x s : 0 < m -> 0 <= lo -> lo <= x -> x mod m = s -> lo mod m <> s ->
  lo - lo mod m + s < lo -> lo - lo mod m + s + m <= x.
Proof.
  intros Hm Hlo Hx Hs Hne Hlt.
  pose proof (Z.div_mod x m ltac:(lia)). pose proof (Z.div_mod lo m ltac:(lia)).
  pose proof (Z.mod_pos_bound x m ltac:(lia)). pose proof (Z.mod_pos_bound lo m ltac:(lia)).
  assert (lo / m < x / m) by nia. nia.
Qed.
Lemma mod_ge_round2 m lo x s : 0 < m -> 0 <= lo -> lo <= x -> x mod m = s ->
  lo - lo mod m + s <= x.
Proof.
  intros Hm Hlo Hx Hs.
  pose proof (Z.div_mod x m ltac:(lia)). pose proof (Z.div_mod lo m ltac:(lia)).
  assert (lo / m <= x / m) by (apply Z.div_le_mono; lia). nia.
Qed.
Lemma mod_le_round m hi x s : 0 < m -> x <= hi -> x mod m = s ->
  x <= hi - hi mod m + s.
Proof.
  intros Hm Hx Hs.
  pose proof (Z.div_mod x m ltac:(lia)). pose proof (Z.div_mod hi m ltac:(lia)).
  assert (x / m <= hi / m) by (apply Z.div_le_mono; lia). nia.
Qed.
Lemma mod_le_round2 m hi x s : 0 < m -> x <= hi -> x mod m = s ->
  hi < hi - hi mod m + s -> x <= hi - hi mod m + s - m.
Proof.
  intros Hm Hx Hs Hlt.
  pose proof (Z.div_mod x m ltac:(lia)). pose proof (Z.div_mod hi m ltac:(lia)).
  pose proof (Z.mod_pos_bound x m ltac:(lia)). pose proof (Z.mod_pos_bound hi m ltac:(lia)).
  assert (x / m < hi / m) by nia. nia.
Qed.

(** first half of bit2Unsigned: the known prefix *)
Definition b2u1 (r : range) : range :=
  if Z.lor (ko r) (kz r) =? UINT_MAX then
      setU r (Z.max (umin r) (ko r)) (Z.min (umax r) (ko r))
    else
      setU r (Z.max (umin r) (Z.land (ko r) (topMask (clz32 (not32 (Z.lor (ko r) (kz r)))))))
             (Z.min (umax r) (Z.lor (Z.land (ko r) (topMask (clz32 (not32 (Z.lor (ko r) (kz r))))))
                                    (not32 (topMask (clz32 (not32 (Z.lor (ko r) (kz r)))))))).
Lemma b2u_first r x : wf r -> describes r x -> wf (b2u1 r) /\ describes (b2u1 r) x.
Proof.
  intros Hw Hd. pose proof Hw as (W1 & W2 & W3 & W4 & W5 & W6).
  pose proof Hd as (Hx & Hu & Hs & Hz & Ho).
  unfold b2u1. destruct (Z.lor (ko r) (kz r) =? UINT_MAX) eqn:E.
  - assert (ko r = x).
    { pose proof (inferSuffix_spec r x Hw Hd) as Hi. unfold inferSuffix in Hi. rewrite E in Hi.
      destruct Hi as [_ Hi]. change (2 ^ 32) with 4294967296 in Hi. rewrite Z.mod_small in Hi by lia. assumption. }
    split; [apply wf_setU|apply describes_setU]; auto; lia.
  - apply Z.eqb_neq in E.
    set (d := Z.lor (ko r) (kz r)) in *.
    assert (Hd32 : 0 <= d < 4294967296) by (apply lor_range32; lia).
    assert (Hn : 0 < not32 d < 4294967296).
    { rewrite not32_eq by lia. unfold UINT_MAX in E. lia. }
    pose proof (clz32_spec (not32 d) ltac:(lia)) as HL. set (l := clz32 (not32 d)) in *.
    pose proof (topMask_range l) as HM. pose proof (not32_range (topMask l)) as HN.
    assert (Ex : Z.land (ko r) (topMask l) = Z.land x (topMask l)).
    { apply bits32_eq; try (apply land_range32; lia).
      intros i Hi. rewrite !Z.land_spec. rewrite topMask_testbit by lia.
      destruct (32 - l <=? i) eqn:El; [|rewrite !andb_false_r; reflexivity].
      rewrite !andb_true_r.
      assert (Hb : Z.testbit (not32 d) i = false) by (apply clz32_high; fold l; lia).
      rewrite not32_testbit in Hb by lia. apply negb_false_iff in Hb.
      unfold d in Hb. rewrite Z.lor_spec in Hb. destruct (Z.testbit (ko r) i) eqn:E1.
      * symmetry; apply Ho; [lia|assumption].
      * cbn in Hb. symmetry; apply Hz; [lia|assumption]. }
    rewrite Ex.
    assert (Hlor : Z.lor (Z.land x (topMask l)) (Z.land x (not32 (topMask l))) = x).
    { apply bits32_eq; [apply lor_range32; apply land_range32; lia|lia|].
      intros i Hi. rewrite Z.lor_spec, !Z.land_spec, not32_testbit by lia.
      destruct (Z.testbit x i), (Z.testbit (topMask l) i); reflexivity. }
    assert (Hdis : forall v, Z.land (Z.land x (topMask l)) (Z.land v (not32 (topMask l))) = 0).
    { intros v. apply Z.bits_inj'. intros i Hi. rewrite Z.bits_0, !Z.land_spec.
      destruct (Z_lt_le_dec i 32).
      - rewrite not32_testbit by lia. destruct (Z.testbit x i), (Z.testbit v i), (Z.testbit (topMask l) i); reflexivity.
      - rewrite (range_testbit_high x) by lia. reflexivity. }
    pose proof (land_range32 x (topMask l) ltac:(lia) ltac:(lia)).
    pose proof (land_range32 x (not32 (topMask l)) ltac:(lia) ltac:(lia)).
    pose proof (lor_disjoint _ _ (Hdis x)) as Hsum. rewrite Hlor in Hsum.
    assert (Hle : Z.land x (not32 (topMask l)) <= not32 (topMask l)).
    { rewrite Z.land_comm. pose proof (Z.ldiff_nonneg (not32 (topMask l)) x).
      assert (Z.lor (Z.land (not32 (topMask l)) x) (Z.ldiff (not32 (topMask l)) x) = not32 (topMask l)) as Hq.
      { rewrite Z.lor_comm. apply Z.lor_ldiff_and. }
      rewrite lor_disjoint in Hq.
      - assert (0 <= Z.ldiff (not32 (topMask l)) x) by (apply Z.ldiff_nonneg; lia). lia.
      - apply Z.bits_inj'. intros i Hi. rewrite Z.bits_0, Z.land_spec, Z.land_spec, Z.ldiff_spec.
        destruct (Z.testbit x i), (Z.testbit (not32 (topMask l)) i); reflexivity. }
    assert (Hup : Z.lor (Z.land x (topMask l)) (not32 (topMask l)) =
                  Z.land x (topMask l) + not32 (topMask l)).
    { apply lor_disjoint. rewrite <- (land_UINT_MAX (not32 (topMask l))) by lia.
      rewrite (Z.land_comm (not32 (topMask l)) UINT_MAX). apply Hdis. }
    pose proof (lor_range32 (Z.land x (topMask l)) (not32 (topMask l)) ltac:(lia) ltac:(lia)).
    split; [apply wf_setU|apply describes_setU]; auto; lia. 
Qed.

(** ** bit2Unsigned *)
Lemma b2u_sound ck r x : wf r -> describes r x ->
  exists r', bit2Unsigned ck r = Some r' /\ wf r' /\ describes r' x.
Proof.
  intros Hw Hd. pose proof Hw as (W1 & W2 & W3 & W4 & W5 & W6).
  pose proof Hd as (Hx & Hu & Hs & Hz & Ho).
  unfold bit2Unsigned.
  match goal with |- context [check ck _ (setU ?R _ _)] => set (r1 := R) end.
  assert (H1 : wf r1 /\ describes r1 x) by (exact (b2u_first r x Hw Hd)).
  clearbody r1. destruct H1 as [Hw1 Hd1].
  pose proof Hw1 as (V1 & V2 & V3 & V4 & V5 & V6).
  pose proof Hd1 as (_ & Hu1 & Hs1 & _ & _).
  pose proof (inferSuffix_spec r1 x Hw1 Hd1) as Hsuf.
  destruct (inferSuffix r1) as [suf len]. destruct Hsuf as [Hlen Hsuf]. cbn [fst snd].
  assert (Hpow : 0 < 2 ^ len) by (apply Z.pow_pos_nonneg; lia).
  assert (HM : (if len =? 32 then UINT_MAX else shl32 1 len - 1) = 2 ^ len - 1).
  { destruct (len =? 32) eqn:El; [apply Z.eqb_eq in El; subst; reflexivity|]. rewrite shl32_1 by lia. reflexivity. }
  rewrite HM.
  pose proof (Z.mod_pos_bound x (2 ^ len) Hpow) as Hsr. rewrite <- Hsuf in Hsr.
  rewrite !land_low by lia. rewrite !round_or by lia.
  match goal with |- context [check ck (?L <=? ?H) _] => set (lo := L); set (hi := H) end.
  assert (Hlo : 0 <= lo <= x).
  { unfold lo. destruct (umin r1 mod 2 ^ len =? suf) eqn:E; cbn [negb]; [lia|].
    apply Z.eqb_neq in E.
    pose proof (Z.mod_le (umin r1) (2^len) V3 Hpow).
    pose proof (mod_ge_round2 (2 ^ len) (umin r1) x suf Hpow V3 ltac:(lia) ltac:(lia)).
    destruct (umin r1 - umin r1 mod 2 ^ len + suf <? umin r1) eqn:E2; [|lia].
    apply Z.ltb_lt in E2.
    pose proof (mod_ge_round (2 ^ len) (umin r1) x suf Hpow V3 ltac:(lia) ltac:(lia) E E2) as HH.
    assert (Hu32 : 0 <= u32 (2 ^ len - 1 + 1) <= 2 ^ len).
    { replace (2 ^ len - 1 + 1) with (2 ^ len) by lia. unfold u32.
      pose proof (Z.mod_le (2 ^ len) 4294967296 ltac:(lia) ltac:(lia)).
      pose proof (Z.mod_pos_bound (2 ^ len) 4294967296 ltac:(lia)). lia. }
    unfold u64. rewrite Z.mod_small by lia. lia. }
  assert (Hhi : x <= hi < 4294967296).
  { unfold hi. destruct (umax r1 mod 2 ^ len =? suf) eqn:E; cbn [negb]; [lia|].
    apply Z.eqb_neq in E.
    pose proof (mod_le_round (2 ^ len) (umax r1) x suf Hpow ltac:(lia) ltac:(lia)).
    destruct (umax r1 <? umax r1 - umax r1 mod 2 ^ len + suf) eqn:E2; [|lia].
    apply Z.ltb_lt in E2.
    pose proof (mod_le_round2 (2 ^ len) (umax r1) x suf Hpow ltac:(lia) ltac:(lia) E2) as HH.
    assert (Hne32 : len <> 32).
    { intros ->. change (2 ^ 32) with 4294967296 in *. rewrite (Z.mod_small (umax r1)) in * by lia.
      rewrite (Z.mod_small x) in Hsuf by lia. lia. }
    assert (Hu32 : u32 (2 ^ len - 1 + 1) = 2 ^ len).
    { replace (2 ^ len - 1 + 1) with (2 ^ len) by lia. apply u32_small.
      pose proof (pow2_le31 len ltac:(lia)). lia. }
    rewrite Hu32. unfold u64. pose proof (pow2_le31 len ltac:(lia)).
    pose proof (Z.mod_pos_bound (umax r1) (2^len) Hpow).
    rewrite Z.mod_small by lia. lia. }
  clearbody lo hi.
  rewrite check_true by lia. eexists; split; [reflexivity|].
  split; [apply wf_setU|apply describes_setU]; auto; lia.
Qed.

(** ** sync *)
Lemma sync_sound_lemma ck r x : wf r -> describes r x ->
  exists r', sync ck r = Some r' /\ wf r' /\ describes r' x.
Proof.
  intros Hw Hd. unfold sync.
  destruct (s2u_sound r x Hw Hd) as [Hw1 Hd1].
  destruct (u2b_sound _ x Hw1 Hd1) as [Hw2 Hd2].
  destruct (b2u_sound ck _ x Hw2 Hd2) as (r' & -> & Hw3 & Hd3). cbn [bind].
  destruct (u2s_sound _ x Hw3 Hd3) as [Hw4 Hd4].
  destruct (s2b_sound _ x Hw4 Hd4) as [Hw5 Hd5].
  eexists; split; [reflexivity|]. split; assumption.
Qed.
