From Coq Require Import ZArith Lia Bool ZifyBool List.
From Verif Require Import Word IntRangeModel IntRangeSpec IntRangeProofs.
Import ListNotations.
Local Open Scope Z_scope.
Ltac Zify.zify_post_hook ::= Z.div_mod_to_equations.
Arguments Z.pow : simpl never.
Arguments Z.quot : simpl never.
Arguments Z.rem : simpl never.

Ltac unf := unfold INT_MIN, INT_MAX, UINT_MAX in *.

Lemma nso x : signedOverflow x = false <-> -2147483648 <= x <= 2147483647.
Proof. unfold signedOverflow, INT_MIN, INT_MAX. lia. Qed.
Lemma nuo x : unsignedOverflow x = false <-> x < 4294967296.
Proof. unfold unsignedOverflow, UINT_MAX. lia. Qed.
Ltac ovf H := repeat rewrite andb_true_iff in H; repeat rewrite negb_true_iff in H;
  repeat rewrite nso in H; repeat rewrite nuo in H.
Lemma u64_small x : 0 <= x < 18446744073709551616 -> u64 x = x.
Proof. apply Z.mod_small. Qed.
Lemma bind_some {A B} (a : A) (f : A -> option B) : bind (Some a) f = f a.
Proof. reflexivity. Qed.

Lemma setS_ok ck r lo hi x : wf r -> describes r x -> INT_MIN <= lo -> hi <= INT_MAX -> lo <= s32 x <= hi ->
  exists r', setSignedRange ck r lo hi = Some r' /\ wf r' /\ describes r' x.
Proof.
  intros. unfold setSignedRange. rewrite check_true by lia. eexists; split; [reflexivity|].
  split; [apply wf_setS|apply describes_setS]; auto; lia.
Qed.
Lemma setU_ok ck r lo hi x : wf r -> describes r x -> 0 <= lo -> hi < 4294967296 -> lo <= x <= hi ->
  exists r', setUnsignedRange ck r lo hi = Some r' /\ wf r' /\ describes r' x.
Proof.
  intros. unfold setUnsignedRange. rewrite check_true by lia. eexists; split; [reflexivity|].
  split; [apply wf_setU|apply describes_setU]; auto; lia.
Qed.
Lemma setK_ok ck r z o x : wf r -> describes r x -> 0 <= z < 4294967296 -> 0 <= o < 4294967296 -> dbits z o x ->
  exists r', setKnownBits ck r z o = Some r' /\ wf r' /\ describes r' x.
Proof.
  intros. unfold setKnownBits. rewrite check_true.
  - eexists; split; [reflexivity|]. split; [apply wf_setK|apply describes_setK]; auto.
  - apply Z.eqb_eq. eapply dbits_disjoint; eauto.
Qed.
Lemma if_ok (c : bool) (m : option range) r x :
  wf r -> describes r x ->
  (c = true -> exists r', m = Some r' /\ wf r' /\ describes r' x) ->
  exists r', (if c then m else Some r) = Some r' /\ wf r' /\ describes r' x.
Proof. intros. destruct c; [auto|]. eexists; eauto. Qed.

(** modular facts *)
Lemma s32_add_s x y : s32 (u32 (x + y)) = s32 (s32 x + s32 y).
Proof. rewrite s32_u32. unfold s32; lia. Qed.
Lemma s32_sub_s x y : s32 (u32 (x - y)) = s32 (s32 x - s32 y).
Proof. rewrite s32_u32. unfold s32; lia. Qed.
Lemma s32_opp_s x : s32 (u32 (- x)) = s32 (- s32 x).
Proof. rewrite s32_u32. unfold s32; lia. Qed.
Lemma s32_mul_s x y : s32 (u32 (x * y)) = s32 (s32 x * s32 y).
Proof.
  rewrite s32_u32. destruct (s32_eqm x) as [k1 ->]. destruct (s32_eqm y) as [k2 ->].
  replace ((x + k1 * 4294967296) * (y + k2 * 4294967296)) with
    (x * y + (x * k2 + k1 * y + k1 * k2 * 4294967296) * 4294967296) by ring.
  rewrite s32_add_mult. reflexivity.
Qed.

Lemma describes_range r x : describes r x -> 0 <= x < 4294967296.
Proof. unfold describes; tauto. Qed.
#[export] Hint Resolve wf_full : core.

Lemma dbits_low z x k : (forall i, 0 <= i < 32 -> Z.testbit z i = true -> i < k) -> x mod 2 ^ k = 0 -> 0 <= k ->
  dbits z 0 x.
Proof.
  intros Hz Hm Hk. split; intros i Hi Hb.
  - specialize (Hz i Hi Hb). rewrite <- (Z.mod_pow2_bits_low x k i) by lia. rewrite Hm. apply Z.bits_0.
  - rewrite Z.bits_0 in Hb. discriminate.
Qed.

Lemma zeros_ctz_mod r x : wf r -> describes r x -> kz r <> UINT_MAX ->
  0 <= ctz (not32 (kz r)) <= 31 /\ x mod 2 ^ ctz (not32 (kz r)) = 0.
Proof.
  intros Hw Hd Hne. destruct Hw as (W1 & W2 & W3 & W4 & W5 & W6).
  pose proof Hd as (Hx & Hu & Hs & Hz & Ho).
  assert (Hn : 0 < not32 (kz r) < 4294967296).
  { rewrite not32_eq by lia. unfold UINT_MAX in Hne. lia. }
  pose proof (ctz_nonneg (not32 (kz r))). pose proof (ctz_lt32 (not32 (kz r)) Hn).
  split; [lia|]. set (k := ctz (not32 (kz r))) in *.
  apply Z.bits_inj'. intros i Hi. rewrite Z.bits_0.
  destruct (Z_lt_le_dec i k).
  - rewrite Z.mod_pow2_bits_low by lia. apply Hz; [lia|].
    assert (Hb : Z.testbit (not32 (kz r)) i = false) by (apply ctz_spec_low; fold k; lia).
    rewrite not32_testbit in Hb by lia. apply negb_false_iff in Hb. assumption.
  - apply Z.mod_pow2_bits_high. lia.
Qed.

Lemma mod_pow2_weaken x j k : 0 <= j <= k -> x mod 2 ^ k = 0 -> x mod 2 ^ j = 0.
Proof.
  intros Hj Hm. replace k with (j + (k - j)) in Hm by lia.
  rewrite Z.pow_add_r in Hm by lia.
  assert (0 < 2 ^ j) by (apply Z.pow_pos_nonneg; lia). assert (0 < 2 ^ (k - j)) by (apply Z.pow_pos_nonneg; lia).
  apply Z.mod_divide in Hm; [|nia]. destruct Hm as [q ->].
  rewrite Z.mul_assoc, (Z.mul_comm (q * 2^j)), Z.mul_assoc. apply Z.mod_mul. lia.
Qed.
Lemma u32_mod_pow2 x k : 0 <= k <= 32 -> u32 x mod 2 ^ k = x mod 2 ^ k.
Proof.
  intros. apply Z.bits_inj'. intros i Hi. destruct (Z_lt_le_dec i k).
  - rewrite !Z.mod_pow2_bits_low by lia. apply u32_testbit; lia.
  - rewrite !Z.mod_pow2_bits_high by lia. reflexivity.
Qed.

Lemma lowmask_bits k : 0 <= k <= 31 -> forall i, 0 <= i < 32 -> Z.testbit (shl32 1 k - 1) i = true -> i < k.
Proof. intros Hk i Hi Hb. rewrite shl32_1 in Hb by lia. rewrite testbit_ones_shift in Hb by lia. lia. Qed.

Lemma all_zero_bits r x : wf r -> describes r x -> kz r = UINT_MAX -> x = 0.
Proof.
  intros Hw (Hx & Hu & Hs & Hz & Ho) E. apply bits32_eq; try lia. intros i Hi. rewrite Z.bits_0.
  apply Hz; [lia|]. rewrite E, UINT_MAX_testbit by lia. lia.
Qed.

Ltac get_d H := let H1 := fresh "Dx" in let H2 := fresh "Du" in let H3 := fresh "Ds" in
  let H4 := fresh "Dz" in let H5 := fresh "Do" in pose proof H as (H1 & H2 & H3 & H4 & H5).
Ltac get_w H := let H1 := fresh "W" in let H2 := fresh "W" in let H3 := fresh "W" in
  let H4 := fresh "W" in let H5 := fresh "W" in let H6 := fresh "W" in pose proof H as (H1 & H2 & H3 & H4 & H5 & H6).

Ltac step_fin H := let r := fresh "r" in let E := fresh "E" in let Hw := fresh "Hw" in let Hd := fresh "Hd" in
  destruct H as (r & E & Hw & Hd); rewrite E; clear E; rewrite bind_some; cbv beta.
Ltac spec_all H := lazymatch type of H with
  | ?P -> _ => let HP := fresh "HP" in assert (HP : P); [ | specialize (H HP); clear HP; spec_all H ]
  | _ => step_fin H end.
Ltac step L := let H := fresh "HL" in pose proof L as H; spec_all H.

(** ** add *)
Lemma radd_sound_lemma : sound2 radd m_add always2.
Proof.
  intros ck a b x y Ha Hb Dx Dy _. unfold radd, m_add.
  get_w Ha. get_w Hb. get_d Dx. get_d Dy. unf.
  pose proof (u32_range (x + y)) as HR.
  destruct (kz a =? 4294967295) eqn:E1.
  { exists b. split; [reflexivity|]. split; [assumption|].
    rewrite (all_zero_bits a x) by (unf; auto; lia). cbn. rewrite u32_small by lia. assumption. }
  destruct (kz b =? 4294967295) eqn:E2.
  { exists a. split; [reflexivity|]. split; [assumption|].
    rewrite (all_zero_bits b y) by (unf; auto; lia). rewrite Z.add_0_r, u32_small by lia. assumption. }
  step (if_ok (negb (signedOverflow (smin a + smin b)) && negb (signedOverflow (smax a + smax b)))
     (setSignedRange ck full (smin a + smin b) (smax a + smax b)) full (u32 (x + y)) wf_full
     (describes_full _ HR)).
  { intros Hc. ovf Hc. apply setS_ok; auto; try apply describes_full; auto; unfold INT_MIN, INT_MAX; try lia.
    rewrite s32_add_s. rewrite s32_small by (unfold INT_MIN, INT_MAX; lia). lia. }
  step (if_ok (negb (unsignedOverflow (u64 (umin a + umin b))) && negb (unsignedOverflow (u64 (umax a + umax b))))
     (setUnsignedRange ck r (u64 (umin a + umin b)) (u64 (umax a + umax b))) r (u32 (x + y)) Hw Hd).
  { intros Hc. ovf Hc. rewrite !u64_small in * by lia.
    apply setU_ok; auto; try lia.
    rewrite u32_small by lia. lia. }
  destruct (zeros_ctz_mod a x Ha Dx ltac:(unf; lia)) as [K1 M1].
  destruct (zeros_ctz_mod b y Hb Dy ltac:(unf; lia)) as [K2 M2].
  set (k := Z.min (ctz (not32 (kz a))) (ctz (not32 (kz b)))) in *.
  step (setK_ok ck r0 (shl32 1 k - 1) 0 (u32 (x + y)) Hw0 Hd0).
  { rewrite shl32_1 by lia. pose proof (pow2_le31 k ltac:(lia)). lia. }
  { lia. }
  { apply (dbits_low _ _ k); [apply lowmask_bits; lia| |lia].
    rewrite u32_mod_pow2 by lia.
    rewrite Z.add_mod by (apply Z.pow_nonzero; lia).
    rewrite (mod_pow2_weaken x k (ctz (not32 (kz a)))) by (auto; lia).
    rewrite (mod_pow2_weaken y k (ctz (not32 (kz b)))) by (auto; lia).
    apply Z.mod_0_l. apply Z.pow_nonzero; lia. }
  apply sync_sound_lemma; auto.
Qed.

(** ** sub *)
Lemma rsub_sound_lemma : sound2 rsub m_sub always2.
Proof.
  intros ck a b x y Ha Hb Dx Dy _. unfold rsub, m_sub.
  get_w Ha. get_w Hb. get_d Dx. get_d Dy. unf.
  pose proof (u32_range (x - y)) as HR.
  step (if_ok (negb (signedOverflow (smin a - smax b)) && negb (signedOverflow (smax a - smin b)))
     (setSignedRange ck full (smin a - smax b) (smax a - smin b)) full (u32 (x - y)) wf_full
     (describes_full _ HR)).
  { intros Hc. ovf Hc. apply setS_ok; auto; try apply describes_full; auto; unfold INT_MIN, INT_MAX; try lia.
    rewrite s32_sub_s. rewrite s32_small by (unfold INT_MIN, INT_MAX; lia). lia. }
  step (if_ok (negb (unsignedOverflow (u64 (umin a - umax b))) && negb (unsignedOverflow (u64 (umax a - umin b))))
     (setUnsignedRange ck r (u64 (umin a - umax b)) (u64 (umax a - umin b))) r (u32 (x - y)) Hw Hd).
  { intros Hc. ovf Hc.
    assert (0 <= umin a - umax b) by (unfold u64 in Hc; lia).
    rewrite !u64_small in * by lia.
    apply setU_ok; auto; try lia.
    rewrite u32_small by lia. lia. }
  apply sync_sound_lemma; auto.
Qed.

(** ** neg *)
Lemma rneg_sound_lemma : sound1 rneg m_neg always1.
Proof.
  intros ck a x Ha Dx _. unfold rneg, m_neg.
  get_w Ha. get_d Dx. unf. pose proof (u32_range (- x)) as HR.
  step (if_ok (negb (smin a =? -2147483648)) (setSignedRange ck full (- smax a) (- smin a)) full (u32 (- x)) wf_full
     (describes_full _ HR)).
  { intros Hc. apply setS_ok; auto; try apply describes_full; auto; unfold INT_MIN, INT_MAX; try lia.
    rewrite s32_opp_s. rewrite s32_small by (unfold INT_MIN, INT_MAX; lia). lia. }
  apply sync_sound_lemma; auto.
Qed.

(** ** mul *)
Lemma mul_lin l h x y : l <= x <= h -> Z.min (l * y) (h * y) <= x * y <= Z.max (l * y) (h * y).
Proof. intros. destruct (Z_le_gt_dec 0 y); nia. Qed.
Lemma mul_box l1 h1 l2 h2 x y : l1 <= x <= h1 -> l2 <= y <= h2 ->
  min4 (l1 * l2) (l1 * h2) (h1 * l2) (h1 * h2) <= x * y <= max4 (l1 * l2) (l1 * h2) (h1 * l2) (h1 * h2).
Proof.
  intros H1 H2. unfold min4, max4.
  pose proof (mul_lin l1 h1 x y H1). pose proof (mul_lin l2 h2 y l1 H2). pose proof (mul_lin l2 h2 y h1 H2).
  rewrite (Z.mul_comm l2 l1), (Z.mul_comm h2 l1), (Z.mul_comm y l1), (Z.mul_comm l2 h1), (Z.mul_comm h2 h1), (Z.mul_comm y h1) in *.
  lia.
Qed.

Lemma lowMask_spec k : 0 <= k <= 32 -> lowMask k = 2 ^ k - 1.
Proof.
  intros. unfold lowMask. destruct (32 <=? k) eqn:E.
  - replace k with 32 by lia. reflexivity.
  - rewrite shl32_1 by lia. reflexivity.
Qed.
Lemma pow2_le32 l : 0 <= l <= 32 -> 1 <= 2 ^ l <= 4294967296.
Proof.
  intros. change 4294967296 with (2^32). change 1 with (2^0). split; apply Z.pow_le_mono_r; lia.
Qed.
Lemma mul_mod_cong x y a b k : 0 <= k -> x mod 2^k = a mod 2^k -> y mod 2^k = b mod 2^k ->
  (x * y) mod 2^k = (a * b) mod 2^k.
Proof.
  intros Hk H1 H2. rewrite Z.mul_mod, H1, H2, <- Z.mul_mod by (apply Z.pow_nonzero; lia). reflexivity.
Qed.
Lemma mod_mod_pow2 x j k : 0 <= j <= k -> (x mod 2 ^ k) mod 2 ^ j = x mod 2 ^ j.
Proof.
  intros. apply Z.bits_inj'. intros i Hi. destruct (Z_lt_le_dec i j).
  - rewrite !Z.mod_pow2_bits_low by lia. reflexivity.
  - rewrite !Z.mod_pow2_bits_high by lia. reflexivity.
Qed.

Lemma suffix_mul_zeros x y len suf : 0 <= len <= 32 -> suf = x mod 2 ^ len -> 0 <= x < 4294967296 ->
  let k := if suf =? 0 then len else ctz suf in
  0 <= k <= 32 /\ u32 (x * y) mod 2 ^ k = 0.
Proof.
  intros Hl Hs Hx k.
  pose proof (pow2_le32 len Hl). 
  pose proof (Z.mod_pos_bound x (2 ^ len) ltac:(lia)).
  assert (Hk : 0 <= k <= 32 /\ x mod 2 ^ k = 0).
  { unfold k. destruct (suf =? 0) eqn:E.
    - split; [lia|]. lia.
    - apply Z.eqb_neq in E. pose proof (ctz_nonneg suf).
      pose proof (ctz_lt32 suf ltac:(lia)).
      split; [lia|].
      destruct (ctz_div suf ltac:(lia)) as [q Hq].
      assert (ctz suf < len).
      { destruct (Z_lt_le_dec (ctz suf) len); [lia|].
        assert (2 ^ len <= 2 ^ ctz suf) by (apply Z.pow_le_mono_r; lia).
        set (P := 2 ^ ctz suf) in *. assert (suf < 2 ^ len) by lia. assert (0 < suf) by lia.
        clear - Hq H2 H3 H4 H5 H. assert (1 <= q) by nia. nia. }
      rewrite <- (mod_mod_pow2 x (ctz suf) len) by lia. rewrite <- Hs. rewrite Hq at 1.
      apply Z.mod_mul. apply Z.pow_nonzero; lia. }
  destruct Hk as [Hk Hm]. split; [lia|].
  rewrite u32_mod_pow2 by lia.
  rewrite Z.mul_mod by (apply Z.pow_nonzero; lia). rewrite Hm. rewrite Z.mul_0_l.
  apply Z.mod_0_l. apply Z.pow_nonzero; lia.
Qed.

Lemma lowMask_dbits k x : 0 <= k <= 32 -> x mod 2 ^ k = 0 -> dbits (lowMask k) 0 x.
Proof.
  intros Hk Hm. rewrite lowMask_spec by lia.
  apply (dbits_low _ _ k); auto; try lia.
  intros i Hi Hb. rewrite testbit_ones_shift in Hb by lia. lia.
Qed.


Lemma rmul_sound_lemma : sound2 rmul m_mul always2.
Proof.
  intros ck a b x y Ha Hb Dx Dy _. unfold rmul, m_mul.
  pose proof (inferSuffix_spec a x Ha Dx) as SA. pose proof (inferSuffix_spec b y Hb Dy) as SB.
  get_w Ha. get_w Hb. get_d Dx. get_d Dy. unf.
  pose proof (u32_range (x * y)) as HR.
  pose proof (mul_box _ _ _ _ _ _ Ds Ds0) as HB.
  set (s1 := smin a * smin b) in *. set (s2 := smin a * smax b) in *.
  set (s3 := smax a * smin b) in *. set (s4 := smax a * smax b) in *.
  step (if_ok (negb (signedOverflow s1) && negb (signedOverflow s2)
               && negb (signedOverflow s3) && negb (signedOverflow s4))
     (setSignedRange ck full (min4 s1 s2 s3 s4) (max4 s1 s2 s3 s4)) full (u32 (x * y)) wf_full
     (describes_full _ HR)).
  { intros Hc. ovf Hc. apply setS_ok; auto; try apply describes_full; auto;
      unfold INT_MIN, INT_MAX; unfold min4, max4 in *; try lia.
    rewrite s32_mul_s. rewrite s32_small by (unfold INT_MIN, INT_MAX; lia). lia. }
  assert (Hul : umin a * umin b <= x * y <= umax a * umax b) by nia.
  assert (Hup : umax a * umax b < 18446744073709551616) by nia.
  assert (Hul0 : 0 <= umin a * umin b) by nia.
  step (if_ok (negb (unsignedOverflow (u64 (umin a * umin b))) && negb (unsignedOverflow (u64 (umax a * umax b))))
     (setUnsignedRange ck r (u64 (umin a * umin b)) (u64 (umax a * umax b))) r (u32 (x * y)) Hw Hd).
  { intros Hc. ovf Hc. rewrite !u64_small in * by lia.
    apply setU_ok; auto; try lia.
    rewrite u32_small by lia. lia. }
  destruct (inferSuffix a) as [lsuf llen]. destruct (inferSuffix b) as [rsuf rlen].
  destruct SA as [SA1 SA2]. destruct SB as [SB1 SB2].
  assert (HK : exists r', 
    (if negb (llen =? 0) && negb (rlen =? 0)
      then setKnownBits ck r0 (Z.land (not32 (u32 (lsuf * rsuf))) (lowMask (Z.min llen rlen)))
             (Z.land (u32 (lsuf * rsuf)) (lowMask (Z.min llen rlen)))
      else if negb (llen =? 0) then setKnownBits ck r0 (lowMask (if lsuf =? 0 then llen else ctz lsuf)) 0
        else if negb (rlen =? 0) then setKnownBits ck r0 (lowMask (if rsuf =? 0 then rlen else ctz rsuf)) 0
          else Some r0) = Some r' /\ wf r' /\ describes r' (u32 (x * y))).
  { destruct (negb (llen =? 0) && negb (rlen =? 0)).
    - set (k := Z.min llen rlen). pose proof (pow2_le32 k ltac:(lia)).
      pose proof (u32_range (lsuf * rsuf)). pose proof (not32_range (u32 (lsuf * rsuf))).
      rewrite lowMask_spec by lia.
      apply setK_ok; auto; try (apply land_range32; lia).
      assert (EQ : u32 (x * y) mod 2 ^ k = u32 (lsuf * rsuf) mod 2 ^ k).
      { rewrite !u32_mod_pow2 by lia. apply mul_mod_cong; [lia| |]; subst; rewrite mod_mod_pow2 by lia; reflexivity. }
      assert (EB : forall i, 0 <= i < k -> Z.testbit (u32 (x * y)) i = Z.testbit (u32 (lsuf * rsuf)) i).
      { intros i Hi. rewrite <- (Z.mod_pow2_bits_low (u32 (x * y)) k i) by lia. rewrite EQ.
        apply Z.mod_pow2_bits_low; lia. }
      split; intros i Hi; rewrite Z.land_spec, testbit_ones_shift by lia; intros Hb2;
        apply andb_prop in Hb2 as [Hb1 Hb2].
      + rewrite not32_testbit in Hb1 by lia. rewrite EB by lia. apply negb_true_iff; assumption.
      + rewrite EB by lia. assumption.
    - destruct (negb (llen =? 0)).
      + destruct (suffix_mul_zeros x y llen lsuf SA1 SA2 Dx0) as [K1 K2].
        apply setK_ok; auto; try lia; [|apply lowMask_dbits; auto].
        rewrite lowMask_spec by lia. pose proof (pow2_le32 _ K1). lia.
      + destruct (negb (rlen =? 0)); [|exists r0; auto].
        destruct (suffix_mul_zeros y x rlen rsuf SB1 SB2 Dx1) as [K1 K2].
        rewrite (Z.mul_comm x y) in *.
        apply setK_ok; auto; try lia; [|apply lowMask_dbits; auto].
        rewrite lowMask_spec by lia. pose proof (pow2_le32 _ K1). lia. }
  step HK. apply sync_sound_lemma; auto.
Qed.

(** ** bitwise *)
Lemma rand_sound_lemma : sound2 rand m_and always2.
Proof.
  intros ck a b x y Ha Hb Dx Dy _. unfold rand, m_and.
  get_w Ha. get_w Hb. get_d Dx. get_d Dy.
  pose proof (land_range32 x y ltac:(lia) ltac:(lia)) as HR.
  step (setK_ok ck full (Z.lor (kz a) (kz b)) (Z.land (ko a) (ko b)) (Z.land x y) wf_full (describes_full _ HR)).
  { apply lor_range32; lia. } { apply land_range32; lia. }
  { split; intros i Hi; rewrite ?Z.lor_spec, !Z.land_spec; intros Hbb.
    - apply orb_prop in Hbb as [H|H]; [rewrite Dz by assumption|rewrite Dz0 by assumption];
       rewrite ?andb_false_r; reflexivity.
    - apply andb_prop in Hbb as [H1 H2]. rewrite Do, Do0 by assumption. reflexivity. }
  apply sync_sound_lemma; auto.
Qed.
Lemma ror_sound_lemma : sound2 ror m_or always2.
Proof.
  intros ck a b x y Ha Hb Dx Dy _. unfold ror, m_or.
  get_w Ha. get_w Hb. get_d Dx. get_d Dy.
  pose proof (lor_range32 x y ltac:(lia) ltac:(lia)) as HR.
  step (setK_ok ck full (Z.land (kz a) (kz b)) (Z.lor (ko a) (ko b)) (Z.lor x y) wf_full (describes_full _ HR)).
  { apply land_range32; lia. } { apply lor_range32; lia. }
  { split; intros i Hi; rewrite ?Z.lor_spec, ?Z.land_spec; intros Hbb.
    - apply andb_prop in Hbb as [H1 H2]. rewrite Dz, Dz0 by assumption. reflexivity.
    - apply orb_prop in Hbb as [H|H]; [rewrite Do by assumption|rewrite Do0 by assumption];
       rewrite ?orb_true_r; reflexivity. }
  apply sync_sound_lemma; auto.
Qed.
Lemma rxor_sound_lemma : sound2 rxor m_xor always2.
Proof.
  intros ck a b x y Ha Hb Dx Dy _. unfold rxor, m_xor.
  get_w Ha. get_w Hb. get_d Dx. get_d Dy.
  pose proof (lxor_range32 x y ltac:(lia) ltac:(lia)) as HR.
  step (setK_ok ck full (Z.lor (Z.land (kz a) (kz b)) (Z.land (ko a) (ko b)))
          (Z.lor (Z.land (kz a) (ko b)) (Z.land (ko a) (kz b))) (Z.lxor x y) wf_full (describes_full _ HR)).
  1,2: apply lor_range32; apply land_range32; lia.
  { split; intros i Hi; rewrite ?Z.lor_spec, ?Z.land_spec, ?Z.lxor_spec; intros Hbb;
      apply orb_prop in Hbb as [H|H]; apply andb_prop in H as [H1 H2];
      first [rewrite (Dz i) by assumption | rewrite (Do i) by assumption];
      first [rewrite (Dz0 i) by assumption | rewrite (Do0 i) by assumption]; reflexivity. }
  apply sync_sound_lemma; auto.
Qed.

(** ** union / intersection *)
Lemma unionSet_ok ck a b x : wf a -> wf b -> describes a x \/ describes b x ->
  exists r, unionSet ck a b = Some r /\ wf r /\ describes r x.
Proof.
  intros Ha Hb HD. unfold unionSet. get_w Ha. get_w Hb.
  assert (HR : 0 <= x < 4294967296) by (destruct HD as [H|H]; apply describes_range in H; lia).
  step (setS_ok ck full (Z.min (smin a) (smin b)) (Z.max (smax a) (smax b)) x wf_full (describes_full _ HR)).
  { lia. } { lia. } { destruct HD as [H|H]; get_d H; lia. }
  step (setU_ok ck r (Z.min (umin a) (umin b)) (Z.max (umax a) (umax b)) x Hw Hd).
  { lia. } { lia. } { destruct HD as [H|H]; get_d H; lia. }
  step (setK_ok ck r0 (Z.land (kz a) (kz b)) (Z.land (ko a) (ko b)) x Hw0 Hd0).
  { apply land_range32; lia. } { apply land_range32; lia. }
  { split; intros i Hi; rewrite Z.land_spec; intros Hbb; apply andb_prop in Hbb as [H1 H2];
      destruct HD as [H|H]; get_d H; auto. }
  apply sync_sound_lemma; auto.
Qed.
Lemma intersectSet_ok ck a b x : wf a -> wf b -> describes a x -> describes b x ->
  exists r, intersectSet ck a b = Some r /\ wf r /\ describes r x.
Proof.
  intros Ha Hb D1 D2. unfold intersectSet. get_w Ha. get_w Hb. get_d D1. get_d D2.
  step (setS_ok ck full (Z.max (smin a) (smin b)) (Z.min (smax a) (smax b)) x wf_full (describes_full _ Dx)).
  { lia. } { lia. } { lia. }
  step (setU_ok ck r (Z.max (umin a) (umin b)) (Z.min (umax a) (umax b)) x Hw Hd).
  { lia. } { lia. } { lia. }
  step (setK_ok ck r0 (Z.lor (kz a) (kz b)) (Z.lor (ko a) (ko b)) x Hw0 Hd0).
  { apply lor_range32; lia. } { apply lor_range32; lia. }
  { split; intros i Hi; rewrite Z.lor_spec; intros Hbb; apply orb_prop in Hbb as [H|H]; auto. }
  apply sync_sound_lemma; auto.
Qed.

(** ** shifts *)
Lemma shiftLoop_sound ck sub f n : forall i acc,
  (forall j, i <= j < i + Z.of_nat n -> exists s, sub j = Some s /\ wf s /\ describes s (f j)) ->
  (match acc with Some r => wf r | None => True end) ->
  exists acc', shiftLoop ck sub n i acc = Some acc' /\
    (match acc' with Some r => wf r | None => True end) /\
    (acc <> None \/ (n > 0)%nat -> acc' <> None) /\
    forall v, ((exists r, acc = Some r /\ describes r v) \/ (exists j, i <= j < i + Z.of_nat n /\ v = f j)) ->
       exists r', acc' = Some r' /\ describes r' v.
Proof.
  induction n as [|n IH]; intros i acc Hsub Hacc; cbn [shiftLoop].
  - exists acc. split; [reflexivity|]. split; [assumption|]. split; [intros [H|H]; [assumption|lia]|].
    intros v [(r & Hr & Hd)|(j & Hj & _)]; [eauto|lia].
  - destruct (Hsub i ltac:(lia)) as (s & Es & Ws & Ds). rewrite Es. rewrite bind_some.
    destruct acc as [r|].
    + destruct (unionSet_ok ck r s (f i) Hacc Ws (or_intror Ds)) as (u & Eu & Wu & Du). rewrite Eu. rewrite bind_some.
      destruct (IH (i + 1) (Some u)) as (acc' & E' & W' & N' & H').
      { intros j Hj. apply Hsub. lia. } { exact Wu. }
      exists acc'. split; [assumption|]. split; [assumption|].
      split; [intros _; apply N'; left; discriminate|].
      intros v [(r0 & Hr & Hd)|(j & Hj & ->)].
      * apply H'. left. exists u. split; [reflexivity|]. inversion Hr; subst r0.
        destruct (unionSet_ok ck r s v Hacc Ws (or_introl Hd)) as (u' & Eu' & _ & Du').
        rewrite Eu in Eu'. inversion Eu'; subst; assumption.
      * destruct (Z.eq_dec j i) as [->|].
        -- apply H'. left. exists u. auto.
        -- apply H'. right. exists j. split; [lia|reflexivity].
    + destruct (IH (i + 1) (Some s)) as (acc' & E' & W' & N' & H').
      { intros j Hj. apply Hsub. lia. } { exact Ws. }
      exists acc'. split; [assumption|]. split; [assumption|].
      split; [intros _; apply N'; left; discriminate|].
      intros v [(r0 & Hr & Hd)|(j & Hj & ->)]; [discriminate|].
      destruct (Z.eq_dec j i) as [->|].
      * apply H'. left. exists s. auto.
      * apply H'. right. exists j. split; [lia|reflexivity].
Qed.

Lemma m_shl_testbit x i j : 0 <= i -> 0 <= j < 32 -> Z.testbit (m_shl x i) j = Z.testbit x (j - i).
Proof.
  intros. unfold m_shl. rewrite <- Z.shiftl_mul_pow2 by lia. rewrite u32_testbit by lia. apply Z.shiftl_spec; lia.
Qed.

Definition shift_ok (x y : Z) : Prop := 0 <= y <= 31.

Lemma s32_id31 y : 0 <= y <= 31 -> s32 y = y.
Proof. unfold s32; lia. Qed.

Lemma shift_in b y : describes b y -> 0 <= y <= 31 -> shiftBeg b <= y < shiftBeg b + Z.of_nat (shiftCount b).
Proof.
  intros Db Hy. get_d Db. rewrite (s32_id31 y) in * by lia. unfold shiftCount, shiftBeg, shiftEnd. lia.
Qed.
Lemma shift_amt b j : shiftBeg b <= j < shiftBeg b + Z.of_nat (shiftCount b) -> 0 <= j <= 31.
Proof. unfold shiftCount, shiftBeg, shiftEnd. lia. Qed.

Lemma sub_shl_ok ck a x i : wf a -> describes a x -> 0 <= i <= 31 ->
  exists s, setKnownBits ck full (Z.lor (shl32 (kz a) i) (shl32 1 i - 1)) (shl32 (ko a) i) = Some s /\
    wf s /\ describes s (m_shl x i).
Proof.
  intros Ha Da Hi. get_w Ha. get_d Da.
  pose proof (pow2_le31 i Hi). rewrite shl32_1 by lia.
  apply setK_ok; auto.
  - apply describes_full. apply u32_range.
  - apply lor_range32; [apply shl32_range|lia].
  - apply shl32_range.
  - split; intros j Hj.
    + rewrite Z.lor_spec, shl32_testbit, testbit_ones_shift by lia. rewrite m_shl_testbit by lia.
      intros Hbb. destruct (j <? i) eqn:E.
      * apply Z.testbit_neg_r. lia.
      * rewrite orb_false_r in Hbb. apply Dz; [lia|assumption].
    + rewrite shl32_testbit by lia. rewrite m_shl_testbit by lia. intros Hbb.
      destruct (Z_lt_le_dec j i); [rewrite Z.testbit_neg_r in Hbb by lia; discriminate|].
      apply Do; [lia|assumption].
Qed.

Lemma rshl_sound_lemma : sound2 rshl m_shl shift_ok.
Proof.
  intros ck a b x y Ha Hb Dx Dy Hy. unfold rshl. unfold shift_ok in Hy.
  pose proof (shift_in b y Dy Hy) as Hin.
  match goal with |- context [shiftLoop ck ?S (shiftCount b) (shiftBeg b) None] => set (sub := S) end.
  destruct (shiftLoop_sound ck sub (m_shl x) (shiftCount b) (shiftBeg b) None) as (acc & E & W & N & H).
  { intros j Hj. apply shift_amt in Hj. apply sub_shl_ok; auto. } { exact I. }
  rewrite E. rewrite bind_some.
  get_d Dy. rewrite (s32_id31 y) in Ds by lia.
  assert (Hbe : 0 <= shiftBeg b <= y /\ y <= shiftEnd b <= 31) by (unfold shiftBeg, shiftEnd; lia).
  destruct ((shiftEnd b <? 0) || (64 <=? shiftBeg b)) eqn:Eub; [lia|].
  rewrite !Z.shiftl_mul_pow2 by lia. rewrite !Z.mul_1_l.
  assert (Hp : 1 <= 2 ^ shiftBeg b <= 2 ^ y /\ 2 ^ y <= 2 ^ shiftEnd b <= 2147483648).
  { pose proof (pow2_le31 (shiftBeg b) ltac:(lia)). pose proof (pow2_le31 (shiftEnd b) ltac:(lia)).
    repeat split; try lia; apply Z.pow_le_mono_r; lia. }
  step (setU_ok ck full (2 ^ shiftBeg b) (2 ^ shiftEnd b) (2 ^ y) wf_full
     (describes_full (2^y) ltac:(lia))). { lia. } { lia. } { lia. }
  step (sync_sound_lemma ck r (2 ^ y) Hw Hd).
  step (rmul_sound_lemma ck a r0 x (2 ^ y) Ha Hw0 Dx Hd0 I).
  change (m_mul x (2 ^ y)) with (m_shl x y) in *.
  destruct (H (m_shl x y)) as (q & Eq & Dq). { right. exists y. auto. }
  subst acc.
  step (intersectSet_ok ck r1 q (m_shl x y) Hw1 W Hd1 Dq).
  apply sync_sound_lemma; auto.
Qed.

Lemma m_lshr_testbit x i j : 0 <= i -> 0 <= j -> Z.testbit (m_lshr x i) j = Z.testbit x (j + i).
Proof. intros. unfold m_lshr. rewrite <- Z.shiftr_div_pow2 by lia. apply Z.shiftr_spec; lia. Qed.
Lemma m_lshr_range x i : 0 <= i -> 0 <= x < 4294967296 -> 0 <= m_lshr x i < 4294967296.
Proof. intros. unfold m_lshr. rewrite <- Z.shiftr_div_pow2 by lia. apply shr32_range; auto. Qed.

Lemma rlshr_sound_lemma : sound2 rlshr m_lshr shift_ok.
Proof.
  intros ck a b x y Ha Hb Dx Dy Hy. unfold rlshr. unfold shift_ok in Hy.
  pose proof (shift_in b y Dy Hy) as Hin.
  match goal with |- context [shiftLoop ck ?S (shiftCount b) (shiftBeg b) None] => set (sub := S) end.
  destruct (shiftLoop_sound ck sub (m_lshr x) (shiftCount b) (shiftBeg b) None) as (acc & E & W & N & H).
  { intros i Hi. apply shift_amt in Hi. unfold sub. get_w Ha. get_d Dx.
    apply setK_ok; auto.
    - apply describes_full. apply m_lshr_range; lia.
    - apply lor_range32; [apply shr32_range; lia|apply topMask_range].
    - apply shr32_range; lia.
    - split; intros j Hj.
      + rewrite Z.lor_spec, shr32_testbit, topMask_testbit by lia. rewrite m_lshr_testbit by lia.
        intros Hbb. destruct (32 - i <=? j) eqn:E.
        * apply range_testbit_high; lia.
        * rewrite orb_false_r in Hbb. apply Dz; [lia|assumption].
      + rewrite shr32_testbit by lia. rewrite m_lshr_testbit by lia. intros Hbb.
        destruct (Z_lt_le_dec (j + i) 32); [apply Do; [lia|assumption]|].
        rewrite range_testbit_high in Hbb by lia. discriminate. }
  { exact I. }
  rewrite E. rewrite bind_some.
  destruct (H (m_lshr x y)) as (q & -> & Dq). { right. exists y. auto. }
  apply sync_sound_lemma; auto.
Qed.

Lemma m_ashr_testbit x i j : 0 <= i -> 0 <= j < 32 -> 0 <= x < 4294967296 ->
  Z.testbit (m_ashr x i) j = if j + i <? 32 then Z.testbit x (j + i) else Z.testbit x 31.
Proof.
  intros. unfold m_ashr. rewrite <- Z.shiftr_div_pow2 by lia. rewrite u32_testbit by lia.
  rewrite Z.shiftr_spec by lia.
  destruct (j + i <? 32) eqn:E.
  - apply s32_testbit; lia.
  - rewrite s32_high_bits; [|apply s32_range|lia].
    rewrite <- (s32_testbit x 31) by lia. rewrite s32_high_bits; [reflexivity|apply s32_range|lia].
Qed.

Lemma hi_bit z : 0 <= z < 4294967296 -> negb (Z.land z 2147483648 =? 0) = Z.testbit z 31.
Proof.
  intros Hz. destruct (Z.testbit z 31) eqn:E.
  - apply negb_true_iff, Z.eqb_neq. intros HH.
    assert (Z.testbit (Z.land z 2147483648) 31 = true) as H by (rewrite Z.land_spec, E; reflexivity).
    rewrite HH in H. discriminate.
  - apply negb_false_iff, Z.eqb_eq. apply Z.bits_inj'. intros i Hi. rewrite Z.land_spec, Z.bits_0.
    change 2147483648 with (2^31). rewrite Z.pow2_bits_eqb by lia.
    destruct (31 =? i) eqn:Ei; [|apply andb_false_r]. apply Z.eqb_eq in Ei. subst. rewrite E. reflexivity.
Qed.

Lemma rashr_sound_lemma : sound2 rashr m_ashr shift_ok.
Proof.
  intros ck a b x y Ha Hb Dx Dy Hy. unfold rashr. unfold shift_ok in Hy.
  pose proof (shift_in b y Dy Hy) as Hin.
  match goal with |- context [shiftLoop ck ?S (shiftCount b) (shiftBeg b) None] => set (sub := S) end.
  destruct (shiftLoop_sound ck sub (m_ashr x) (shiftCount b) (shiftBeg b) None) as (acc & E & W & N & H).
  { intros i Hi. apply shift_amt in Hi. unfold sub. get_w Ha. get_d Dx.
    rewrite !hi_bit by lia.
    pose proof (topMask_range i).
    apply setK_ok; auto.
    - apply describes_full. apply u32_range.
    - apply lor_range32; [apply shr32_range; lia|destruct (Z.testbit (kz a) 31); lia].
    - apply lor_range32; [apply shr32_range; lia|destruct (Z.testbit (ko a) 31); lia].
    - split; intros j Hj; rewrite Z.lor_spec, shr32_testbit by lia; rewrite m_ashr_testbit by lia.
      + destruct (j + i <? 32) eqn:Ej.
        * destruct (Z.testbit (kz a) 31); rewrite ?topMask_testbit, ?Z.bits_0 by lia; intros Hbb;
            apply orb_prop in Hbb as [Hbb|Hbb]; try discriminate; try lia; apply Dz; auto; lia.
        * rewrite (range_testbit_high (kz a)) by lia. cbn [orb].
          destruct (Z.testbit (kz a) 31) eqn:E31; rewrite ?Z.bits_0; intros Hbb; [|discriminate].
          apply Dz; [lia|assumption].
      + destruct (j + i <? 32) eqn:Ej.
        * destruct (Z.testbit (ko a) 31); rewrite ?topMask_testbit, ?Z.bits_0 by lia; intros Hbb;
            apply orb_prop in Hbb as [Hbb|Hbb]; try discriminate; try lia; apply Do; auto; lia.
        * rewrite (range_testbit_high (ko a)) by lia. cbn [orb].
          destruct (Z.testbit (ko a) 31) eqn:E31; rewrite ?Z.bits_0; intros Hbb; [|discriminate].
          apply Do; [lia|assumption]. }
  { exact I. }
  rewrite E. rewrite bind_some.
  destruct (H (m_ashr x y)) as (q & -> & Dq). { right. exists y. auto. }
  apply sync_sound_lemma; auto.
Qed.

(** ** min / max *)
Lemma s32_u32_small z : INT_MIN <= z <= INT_MAX -> s32 (u32 z) = z.
Proof. intros. rewrite s32_u32. apply s32_small. assumption. Qed.

Lemma rsmax_sound_lemma : sound2 rsmax m_smax always2.
Proof.
  intros ck a b x y Ha Hb Dx Dy _. unfold rsmax, m_smax. get_w Ha. get_w Hb. get_d Dx. get_d Dy.
  pose proof (s32_range x). pose proof (s32_range y).
  step (setS_ok ck full (Z.max (smin a) (smin b)) (Z.max (smax a) (smax b)) (u32 (Z.max (s32 x) (s32 y)))
    wf_full (describes_full _ (u32_range _))).
  1,2: lia. { rewrite s32_u32_small by lia. lia. }
  apply sync_sound_lemma; auto.
Qed.
Lemma rsmin_sound_lemma : sound2 rsmin m_smin always2.
Proof.
  intros ck a b x y Ha Hb Dx Dy _. unfold rsmin, m_smin. get_w Ha. get_w Hb. get_d Dx. get_d Dy.
  pose proof (s32_range x). pose proof (s32_range y).
  step (setS_ok ck full (Z.min (smin a) (smin b)) (Z.min (smax a) (smax b)) (u32 (Z.min (s32 x) (s32 y)))
    wf_full (describes_full _ (u32_range _))).
  1,2: lia. { rewrite s32_u32_small by lia. lia. }
  apply sync_sound_lemma; auto.
Qed.

(** ** abs, for ranges whose lower bound is not INT_MIN or which are entirely negative *)
Lemma rabs_partial ck a x : wf a -> describes a x -> smin a <> INT_MIN \/ smax a < 0 ->
  exists r, rabs ck a = Some r /\ wf r /\ describes r (m_abs x).
Proof.
  intros Ha Dx Hne. unfold rabs, m_abs. get_w Ha. get_d Dx.
  pose proof (u32_range (Z.abs (s32 x))) as HR. unf.
  assert (HK : exists r, (if (smin a <? 0) && (0 <=? smax a)
     then setSignedRange ck full 0 (Z.max (Z.abs (smin a)) (Z.abs (smax a)))
     else if negb (smin a =? -2147483648)
      then if Z.abs (smax a) <? Z.abs (smin a) then setSignedRange ck full (Z.abs (smax a)) (Z.abs (smin a))
            else setSignedRange ck full (Z.abs (smin a)) (Z.abs (smax a))
      else Some full) = Some r /\ wf r /\ describes r (u32 (Z.abs (s32 x)))).
  { destruct ((smin a <? 0) && (0 <=? smax a)) eqn:E1.
    - apply setS_ok; auto using describes_full; unfold INT_MIN, INT_MAX; try lia.
      rewrite s32_u32_small by (unfold INT_MIN, INT_MAX; lia). lia.
    - destruct (smin a =? -2147483648) eqn:E2; cbn [negb].
      + exists full. auto using describes_full.
      + destruct (Z.abs (smax a) <? Z.abs (smin a)) eqn:E3;
        apply setS_ok; auto using describes_full; unfold INT_MIN, INT_MAX; try lia;
        rewrite s32_u32_small by (unfold INT_MIN, INT_MAX; lia); lia. }
  step HK. apply sync_sound_lemma; auto.
Qed.

(** ** unsigned division *)
Definition nonzero_divisor (x y : Z) : Prop := y <> 0.
Lemma rudiv_sound_lemma : sound2 rudiv m_udiv nonzero_divisor.
Proof.
  intros ck a b x y Ha Hb Dx Dy Hy. unfold rudiv, m_udiv, nonzero_divisor in *. get_w Ha. get_w Hb. get_d Dx. get_d Dy.
  destruct ((umin b =? 0) && (umax b =? 0)) eqn:E; [lia|].
  assert (HL : umin a / Z.max 1 (umax b) <= x / y).
  { apply Z.le_trans with (umin a / y).
    - apply Z.div_le_compat_l; lia.
    - apply Z.div_le_mono; lia. }
  assert (HU : x / y <= umax a / Z.max 1 (umin b)).
  { apply Z.le_trans with (umax a / y).
    - apply Z.div_le_mono; lia.
    - apply Z.div_le_compat_l; lia. }
  assert (0 <= umin a / Z.max 1 (umax b)) by (apply Z.div_pos; lia).
  assert (umax a / Z.max 1 (umin b) < 4294967296) by (apply Z.div_lt_upper_bound; lia).
  set (q := x / y) in *. set (l := umin a / Z.max 1 (umax b)) in *. set (h := umax a / Z.max 1 (umin b)) in *.
  clearbody q l h.
  step (setU_ok ck full l h q wf_full (describes_full q ltac:(lia))). 1,2,3: lia.
  apply sync_sound_lemma; auto.
Qed.
Lemma rurem_sound_lemma : sound2 rurem m_urem nonzero_divisor.
Proof.
  intros ck a b x y Ha Hb Dx Dy Hy. unfold rurem, m_urem, nonzero_divisor in *. get_w Ha. get_w Hb. get_d Dx. get_d Dy.
  destruct ((umin b =? 0) && (umax b =? 0)) eqn:E; [lia|].
  pose proof (Z.mod_pos_bound x y ltac:(lia)) as HM. set (q := x mod y) in *. clearbody q.
  step (setU_ok ck full 0 (umax b - 1) q wf_full (describes_full q ltac:(lia))). 1,2,3: lia.
  apply sync_sound_lemma; auto.
Qed.

(** ** signed remainder *)
Lemma s32_zero y : 0 <= y < 4294967296 -> y <> 0 -> s32 y <> 0.
Proof. unfold s32; lia. Qed.

Ltac Zify.zify_post_hook ::= idtac.
Lemma rem_facts x y : y <> 0 -> Z.abs (Z.rem x y) < Z.abs y /\ Z.abs (Z.rem x y) <= Z.abs x /\ 0 <= Z.rem x y * x.
Proof.
  intros. pose proof (Z.rem_bound_abs x y ltac:(assumption)). pose proof (Z.rem_sign_mul x y ltac:(assumption)).
  split; [assumption|]. split; [|lia].
  rewrite <- Z.rem_abs by assumption.
  destruct (Z.eq_dec (Z.abs x) 0) as [->|]; [rewrite Z.rem_0_l; lia|].
  apply Z.rem_le; lia.
Qed.

Lemma rsrem_sound_lemma : sound2 rsrem m_srem nonzero_divisor.
Proof.
  intros ck a b x y Ha Hb Dx Dy Hy. unfold rsrem, m_srem, nonzero_divisor in *.
  get_w Ha. get_w Hb. get_d Dx. get_d Dy.
  pose proof (s32_zero y ltac:(lia) Hy) as Hy'.
  destruct ((smin b =? 0) && (smax b =? 0)) eqn:E; [lia|].
  destruct (rem_facts (s32 x) (s32 y) Hy') as (F1 & F2 & F3).
  set (v := Z.rem (s32 x) (s32 y)) in *. unf.
  pose proof (u32_range v) as HR.
  assert (HS : s32 (u32 v) = v) by (apply s32_u32_small; unfold INT_MIN, INT_MAX; lia).
  assert (HK : exists r, (if 0 <=? smin b
     then bind (if isNonNegative a then setSignedRange ck full 0 (smax b - 1)
               else setSignedRange ck full (- smax b + 1) (smax b - 1))
          (fun r => if negb (smin a =? -2147483648)
           then if Z.max (Z.abs (smax a)) (Z.abs (smin a)) <? smax b
              then Some (setS r (Z.max (smin r) (- Z.max (Z.abs (smax a)) (Z.abs (smin a))))
                              (Z.min (smax r) (Z.max (Z.abs (smax a)) (Z.abs (smin a))))) else Some r
           else Some r)
     else if smax b <=? 0 then setSignedRange ck full (smin b + 1) (- smin b - 1)
      else setSignedRange ck full (- Z.max (- smin b) (smax b) + 1) (Z.max (- smin b) (smax b) - 1)) = Some r
       /\ wf r /\ describes r (u32 v)).
  { destruct (0 <=? smin b) eqn:E1.
    - assert (HJ : exists r, (if isNonNegative a then setSignedRange ck full 0 (smax b - 1)
               else setSignedRange ck full (- smax b + 1) (smax b - 1)) = Some r /\ wf r /\ describes r (u32 v)).
      { unfold isNonNegative. destruct (0 <=? smin a) eqn:E2;
        apply setS_ok; auto using describes_full; unfold INT_MIN, INT_MAX; try lia. 
        rewrite HS. assert (0 <= v) by (destruct (Z.eq_dec (s32 x) 0) as [e|];
          [rewrite e in F2; lia|nia]). lia. }
      step HJ. get_w Hw. get_d Hd. unf.
      destruct (negb (smin a =? -2147483648)); [|eauto].
      destruct (Z.max (Z.abs (smax a)) (Z.abs (smin a)) <? smax b); [|eauto].
      eexists; split; [reflexivity|]. split; [apply wf_setS; [assumption| |]; unfold INT_MIN, INT_MAX; lia|].
      apply describes_setS; auto. lia.
    - destruct (smax b <=? 0) eqn:E2; apply setS_ok; auto using describes_full; unfold INT_MIN, INT_MAX; lia. }
  step HK. apply sync_sound_lemma; auto.
Qed.

(** ** signed division *)
Lemma quot_mono_pos l h y x : 1 <= l <= y -> y <= h ->
  Z.min (Z.quot x l) (Z.quot x h) <= Z.quot x y <= Z.max (Z.quot x l) (Z.quot x h).
Proof.
  intros Hl Hh. destruct (Z_le_gt_dec 0 x).
  - assert (Z.quot x h <= Z.quot x y) by (apply Z.quot_le_compat_l; lia).
    assert (Z.quot x y <= Z.quot x l) by (apply Z.quot_le_compat_l; lia). lia.
  - assert (Z.quot (- x) h <= Z.quot (- x) y) by (apply Z.quot_le_compat_l; lia).
    assert (Z.quot (- x) y <= Z.quot (- x) l) by (apply Z.quot_le_compat_l; lia).
    rewrite !Z.quot_opp_l in * by lia. lia.
Qed.
Lemma quot_box a b x l h y : a <= x <= b -> 1 <= l <= y -> y <= h ->
  min4 (Z.quot a l) (Z.quot a h) (Z.quot b l) (Z.quot b h) <= Z.quot x y
  <= max4 (Z.quot a l) (Z.quot a h) (Z.quot b l) (Z.quot b h).
Proof.
  intros Hx Hl Hh. unfold min4, max4.
  pose proof (quot_mono_pos l h y a Hl Hh). pose proof (quot_mono_pos l h y b Hl Hh).
  assert (Z.quot a y <= Z.quot x y) by (apply Z.quot_le_mono; lia).
  assert (Z.quot x y <= Z.quot b y) by (apply Z.quot_le_mono; lia). lia.
Qed.
Lemma quot_box_neg a b x l h y : a <= x <= b -> l <= y -> y <= h <= -1 ->
  min4 (Z.quot a l) (Z.quot a h) (Z.quot b l) (Z.quot b h) <= Z.quot x y
  <= max4 (Z.quot a l) (Z.quot a h) (Z.quot b l) (Z.quot b h).
Proof.
  intros Hx Hl Hh.
  pose proof (quot_box a b x (- h) (- l) (- y) Hx ltac:(lia) ltac:(lia)) as HH.
  rewrite !Z.quot_opp_r in HH by lia. unfold min4, max4 in *. lia.
Qed.
Lemma quot_abs_le x y : y <> 0 -> Z.abs (Z.quot x y) <= Z.abs x.
Proof.
  intros. rewrite <- Z.quot_abs by assumption.
  destruct (Z.eq_dec (Z.abs x) 0) as [->|]; [rewrite Z.quot_0_l; lia|].
  destruct (Z.eq_dec (Z.abs y) 1) as [->|]; [rewrite Z.quot_1_r; lia|].
  assert (Z.quot (Z.abs x) (Z.abs y) < Z.abs x) by (apply Z.quot_lt; lia). lia.
Qed.

Lemma quot_pos_bounds l q : -2147483648 <= l <= 2147483647 -> 1 <= q -> -2147483648 <= Z.quot l q <= 2147483647.
Proof.
  intros Hl Hq. pose proof (quot_abs_le l q ltac:(lia)) as HA.
  destruct (Z_le_gt_dec 0 l); [lia|].
  assert (HN : Z.quot l q <= 0); [|lia].
  replace l with (- (- l)) by lia. rewrite Z.quot_opp_l by lia.
  assert (0 <= Z.quot (- l) q) by (apply Z.quot_pos; lia). lia.
Qed.
Lemma sdivWrap_id z : z <> 2147483648 -> sdivWrap z = z.
Proof. intros. unfold sdivWrap. destruct (z =? 2147483648) eqn:E; [lia|reflexivity]. Qed.

Lemma quot_lt_2_31 x y : -2147483648 <= x <= 2147483647 -> y <= -2 -> Z.abs (Z.quot x y) <= 1073741824.
Proof.
  intros. rewrite <- Z.quot_abs by lia.
  apply Z.quot_le_upper_bound; lia.
Qed.

(** the hypothesis excludes the case where the dividend may be INT_MIN and the divisor may be -1 *)
Definition sdiv_safe (a b : range) : Prop := smin a <> INT_MIN \/ 0 <= smin b \/ smax b <= -2.

Lemma rsdiv_partial ck a b x y : wf a -> wf b -> describes a x -> describes b y -> y <> 0 ->
  sdiv_safe a b -> exists r, rsdiv ck a b = Some r /\ wf r /\ describes r (m_sdiv x y).
Proof.
  intros Ha Hb Dx Dy Hy Hsafe. unfold rsdiv, m_sdiv.
  get_w Ha. get_w Hb. get_d Dx. get_d Dy.
  pose proof (s32_zero y ltac:(lia) Hy) as Hy'.
  destruct ((smin b =? 0) && (smax b =? 0)) eqn:E; [lia|].
  set (v := Z.quot (s32 x) (s32 y)) in *.
  pose proof (quot_abs_le (s32 x) (s32 y) Hy') as Habs. fold v in Habs.
  unfold sdiv_safe in Hsafe. unf.
  assert (Hv : -2147483648 <= v <= 2147483647).
  { destruct (Z.eq_dec (smin a) (-2147483648)) as [e|]; [|lia].
    destruct Hsafe as [Hs|[Hs|Hs]]; [lia| |].
    - split; [lia|]. destruct (Z_le_gt_dec 0 (s32 x)); [lia|].
      assert (v <= 0); [|lia]. unfold v.
      replace (s32 x) with (- (- s32 x)) by lia. rewrite Z.quot_opp_l by lia.
      assert (0 <= Z.quot (- s32 x) (s32 y)) by (apply Z.quot_pos; lia). lia.
    - pose proof (quot_lt_2_31 (s32 x) (s32 y) ltac:(lia) ltac:(lia)) as HH. fold v in HH. lia. }
  pose proof (u32_range v) as HR.
  assert (HS : s32 (u32 v) = v) by (apply s32_u32_small; unfold INT_MIN, INT_MAX; lia).
  match goal with |- exists r, bind ?M _ = _ /\ _ => 
    assert (HK : exists r, M = Some r /\ wf r /\ describes r (u32 v)) end.
  { destruct (0 <=? smin b) eqn:E1.
    - pose proof (quot_box (smin a) (smax a) (s32 x) (Z.max 1 (smin b)) (Z.max 1 (smax b)) (s32 y)
        ltac:(lia) ltac:(lia) ltac:(lia)) as HB. fold v in HB.
      assert (HQ : forall q, -2147483648 <= Z.quot (smin a) (Z.max 1 q) <= 2147483647 /\
                             -2147483648 <= Z.quot (smax a) (Z.max 1 q) <= 2147483647).
      { intros q. split; apply quot_pos_bounds; lia. }
      pose proof (HQ (smin b)) as [HQ1 HQ2]. pose proof (HQ (smax b)) as [HQ3 HQ4]. clear HQ Habs.
      set (q1 := Z.quot (smin a) (Z.max 1 (smin b))) in *. set (q2 := Z.quot (smin a) (Z.max 1 (smax b))) in *.
      set (q3 := Z.quot (smax a) (Z.max 1 (smin b))) in *. set (q4 := Z.quot (smax a) (Z.max 1 (smax b))) in *.
      clearbody q1 q2 q3 q4.
      unfold min4, max4 in *. rewrite !Z.min_le_iff, !Z.max_le_iff in HB.
      apply setS_ok; auto using describes_full; unfold INT_MIN, INT_MAX;
        [repeat apply Z.min_glb; lia|repeat apply Z.max_lub; lia|].
      rewrite HS, !Z.min_le_iff, !Z.max_le_iff. tauto.
    - destruct (smax b <=? 0) eqn:E2.
      + pose proof (quot_box_neg (smin a) (smax a) (s32 x) (Z.min (-1) (smin b)) (Z.min (-1) (smax b)) (s32 y)
          ltac:(lia) ltac:(lia) ltac:(lia)) as HB. fold v in HB.
        assert (HQ : forall l q, (l = smin a \/ l = smax a) -> (q = smin b \/ q = smax b) ->
           -2147483648 <= Z.quot l (Z.min (-1) q) <= 2147483647).
        { intros l q Hl Hq. pose proof (quot_abs_le l (Z.min (-1) q) ltac:(lia)).
          destruct (Z.eq_dec (smin a) (-2147483648)) as [e|]; [|lia].
          destruct Hsafe as [Hs|[Hs|Hs]]; [lia|lia|].
          pose proof (quot_lt_2_31 l (Z.min (-1) q) ltac:(lia) ltac:(lia)). lia. }
        pose proof (HQ (smin a) (smin b) (or_introl eq_refl) (or_introl eq_refl)).
        pose proof (HQ (smin a) (smax b) (or_introl eq_refl) (or_intror eq_refl)).
        pose proof (HQ (smax a) (smin b) (or_intror eq_refl) (or_introl eq_refl)).
        pose proof (HQ (smax a) (smax b) (or_intror eq_refl) (or_intror eq_refl)).
        rewrite !sdivWrap_id by lia.
        unfold min4, max4 in *. rewrite !Z.min_le_iff, !Z.max_le_iff in HB.
        apply setS_ok; auto using describes_full; unfold INT_MIN, INT_MAX;
          [repeat apply Z.min_glb; lia|repeat apply Z.max_lub; lia|].
        rewrite HS, !Z.min_le_iff, !Z.max_le_iff. tauto.
      + cbn [flat_map map app fold_left].
        destruct (smin b =? 0) eqn:Z1; [lia|]. destruct (smax b =? 0) eqn:Z2; [lia|].
        change (-1 =? 0) with false. change (1 =? 0) with false. cbv iota.
        assert (HQ : forall l q, (l = smin a \/ l = smax a) -> q <> 0 -> 
           -2147483648 <= Z.quot l q <= 2147483647).
        { intros l q Hl Hq. pose proof (quot_abs_le l q ltac:(lia)). lia. }
        pose proof (HQ (smin a) (smin b) (or_introl eq_refl) ltac:(lia)).
        pose proof (HQ (smin a) (-1) (or_introl eq_refl) ltac:(lia)).
        pose proof (HQ (smin a) 1 (or_introl eq_refl) ltac:(lia)).
        pose proof (HQ (smin a) (smax b) (or_introl eq_refl) ltac:(lia)).
        pose proof (HQ (smax a) (smin b) (or_intror eq_refl) ltac:(lia)).
        pose proof (HQ (smax a) (-1) (or_intror eq_refl) ltac:(lia)).
        pose proof (HQ (smax a) 1 (or_intror eq_refl) ltac:(lia)).
        pose proof (HQ (smax a) (smax b) (or_intror eq_refl) ltac:(lia)).
        rewrite !sdivWrap_id by lia.
        apply setS_ok; auto using describes_full;
          [unfold INT_MIN, INT_MAX; repeat apply Z.min_glb; lia|unfold INT_MIN, INT_MAX; repeat apply Z.max_lub; lia|].
        rewrite HS, !Z.min_le_iff, !Z.max_le_iff.
        destruct (Z_lt_le_dec (s32 y) 0).
        * pose proof (quot_box_neg (smin a) (smax a) (s32 x) (smin b) (-1) (s32 y)
            ltac:(lia) ltac:(lia) ltac:(lia)) as HB. fold v in HB. unfold min4, max4 in HB.
          rewrite !Z.min_le_iff, !Z.max_le_iff in HB. tauto.
        * pose proof (quot_box (smin a) (smax a) (s32 x) 1 (smax b) (s32 y)
            ltac:(lia) ltac:(lia) ltac:(lia)) as HB. fold v in HB. unfold min4, max4 in HB.
          rewrite !Z.min_le_iff, !Z.max_le_iff in HB. tauto. }
  step HK. apply sync_sound_lemma; auto.
Qed.

(** ** constants *)
Lemma ofConst_exact c x : describes (ofConst c) x <-> x = u32 c.
Proof.
  split.
  - intros D. get_d D. unfold ofConst in *; cbn [umin umax] in *. lia.
  - intros ->. pose proof (u32_range c). unfold describes, ofConst; cbn [umin umax smin smax kz ko].
    rewrite s32_u32. repeat split; try lia; intros i Hi.
    rewrite not32_testbit by lia. apply negb_true_iff.
    auto.
Qed.
Lemma ofConst_wf c : wf (ofConst c).
Proof.
  pose proof (u32_range c). pose proof (s32_range c). pose proof (not32_range (u32 c)).
  unfold wf, ofConst; cbn [umin umax smin smax kz ko]. lia.
Qed.

Lemma inferConstant_ok r c x : wf r -> describes r x -> inferConstant r = Some c -> s32 x = c.
Proof.
  intros Hw Hd. get_w Hw. pose proof (inferSuffix_spec r x Hw Hd) as HS. get_d Hd. unfold inferConstant.
  destruct (smin r =? smax r) eqn:E1; [intros [= <-]; lia|].
  destruct (umin r =? umax r) eqn:E2; [intros [= <-]; f_equal; lia|].
  unfold inferSuffix in HS.
  destruct (Z.lor (ko r) (kz r) =? UINT_MAX) eqn:E3; [|discriminate].
  intros [= <-]. destruct HS as [_ HS]. change (2^32) with 4294967296 in HS. rewrite Z.mod_small in HS by lia. congruence.
Qed.

Lemma intersectWith_ok a b x : wf a -> wf b -> describes a x -> describes b x -> intersectWith a b = true.
Proof.
  intros Ha Hb D1 D2. get_w Ha. get_w Hb. get_d D1. get_d D2. unfold intersectWith.
  rewrite !andb_true_iff. repeat split; [lia|lia|].
  apply Z.eqb_eq. apply (dbits_disjoint _ _ x); try (apply lor_range32; lia).
  split; intros i Hi; rewrite Z.lor_spec; intros H; apply orb_prop in H as [H|H]; auto.
Qed.

Lemma nonNegative_ok ck : exists r, nonNegative ck = Some r /\ wf r /\
  forall x, describes r x <-> 0 <= x <= INT_MAX.
Proof.
  destruct ck; (eexists; split; [vm_compute; reflexivity|]);
  (split; [unfold wf, INT_MIN, INT_MAX; cbn; lia|]);
  (intros x; unfold describes, INT_MAX; cbn [umin umax smin smax kz ko];
  split; [lia|]; intros H; repeat split; try lia; try (rewrite s32_small by (unfold INT_MIN, INT_MAX; lia); lia);
  intros i Hi Hb;
  [ change 2147483648 with (2^31) in Hb; rewrite Z.pow2_bits_eqb in Hb by lia;
    destruct (Z.eq_dec x 0) as [->|]; [apply Z.bits_0|];
    apply Z.bits_above_log2; [lia|]; assert (Z.log2 x < 31) by (apply Z.log2_lt_pow2; lia); lia
  | rewrite Z.bits_0 in Hb; discriminate ]).
Qed.
