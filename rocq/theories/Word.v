(** Two's-complement machine words as [Z], shared by every model file.
    A w-bit pattern is a [Z] in [0, 2^w); [sgn w] is its signed reading.
    These are the C++ casts static_cast<uintW_t>(x) and static_cast<intW_t>(x). *)
From Coq Require Import ZArith Lia Bool ZifyBool.
Local Open Scope Z_scope.

(** static_cast<uintW_t>(x) *)
Definition uns (w x : Z) : Z := x mod 2 ^ w.
(** static_cast<intW_t>(x) *)
Definition sgn (w x : Z) : Z := (x + 2 ^ (w - 1)) mod 2 ^ w - 2 ^ (w - 1).

Definition u32 (x : Z) : Z := x mod 4294967296.
Definition s32 (x : Z) : Z := (x + 2147483648) mod 4294967296 - 2147483648.
Definition u64 (x : Z) : Z := x mod 18446744073709551616.
Definition s64 (x : Z) : Z := (x + 9223372036854775808) mod 18446744073709551616 - 9223372036854775808.
(** ~x on uint32_t *)
Definition not32 (x : Z) : Z := u32 (Z.lnot x).

Definition INT_MIN : Z := -2147483648.
Definition INT_MAX : Z := 2147483647.
Definition UINT_MAX : Z := 4294967295.

(** __builtin_clz on a non-zero 32-bit argument *)
Definition clz32 (x : Z) : Z := 31 - Z.log2 x.
(** __builtin_ctz on a non-zero argument: exponent of the largest power of two dividing it *)
Fixpoint ctz_pos (p : positive) : Z :=
  match p with
  | xO q => 1 + ctz_pos q
  | _ => 0
  end.
Definition ctz (x : Z) : Z :=
  match x with Zpos p => ctz_pos p | _ => 0 end.

Ltac Zify.zify_post_hook ::= Z.div_mod_to_equations.

Lemma u32_range x : 0 <= u32 x < 4294967296.
Proof. unfold u32; apply Z.mod_pos_bound; lia. Qed.
Lemma s32_range x : INT_MIN <= s32 x <= INT_MAX.
Proof. unfold s32, INT_MIN, INT_MAX; lia. Qed.
Lemma u32_small x : 0 <= x < 4294967296 -> u32 x = x.
Proof. apply Z.mod_small. Qed.
Lemma s32_small x : INT_MIN <= x <= INT_MAX -> s32 x = x.
Proof. unfold s32, INT_MIN, INT_MAX; lia. Qed.
Lemma s32_u32 x : s32 (u32 x) = s32 x.
Proof. unfold s32, u32; lia. Qed.
Lemma u32_s32 x : u32 (s32 x) = u32 x.
Proof. unfold s32, u32; lia. Qed.
Lemma s32_spec x : 0 <= x < 4294967296 -> s32 x = if x <? 2147483648 then x else x - 4294967296.
Proof. unfold s32; intros; destruct (x <? 2147483648) eqn:?; lia. Qed.
Lemma s32_eqm x : exists k, s32 x = x + k * 4294967296.
Proof. unfold s32. exists (- ((x + 2147483648) / 4294967296)). lia. Qed.
Lemma u32_eqm x : exists k, u32 x = x + k * 4294967296.
Proof. unfold u32. exists (- (x / 4294967296)). lia. Qed.
Lemma u32_add_mult x k : u32 (x + k * 4294967296) = u32 x.
Proof. unfold u32. apply Z.mod_add; lia. Qed.
Lemma s32_add_mult x k : s32 (x + k * 4294967296) = s32 x.
Proof. unfold s32. replace (x + k * 4294967296 + 2147483648) with (x + 2147483648 + k * 4294967296) by lia.
  rewrite Z.mod_add; lia. Qed.
Lemma s32_inj x y : 0 <= x < 4294967296 -> 0 <= y < 4294967296 -> s32 x = s32 y -> x = y.
Proof. unfold s32; lia. Qed.
Lemma u32_inj_s x y : INT_MIN <= x <= INT_MAX -> INT_MIN <= y <= INT_MAX -> u32 x = u32 y -> x = y.
Proof. unfold u32, INT_MIN, INT_MAX; lia. Qed.

(** bits *)
Lemma pow32 : 2 ^ 32 = 4294967296. Proof. reflexivity. Qed.
Lemma u32_testbit x i : 0 <= i < 32 -> Z.testbit (u32 x) i = Z.testbit x i.
Proof. intros. unfold u32. change 4294967296 with (2 ^ 32). apply Z.mod_pow2_bits_low. lia. Qed.
Lemma u32_testbit_high x i : 32 <= i -> Z.testbit (u32 x) i = false.
Proof. intros. unfold u32. change 4294967296 with (2 ^ 32). apply Z.mod_pow2_bits_high. lia. Qed.
Lemma range_testbit_high x i : 0 <= x < 4294967296 -> 32 <= i -> Z.testbit x i = false.
Proof. intros. rewrite <- (u32_small x) by lia. apply u32_testbit_high; lia. Qed.
Lemma bits32_eq x y : 0 <= x < 4294967296 -> 0 <= y < 4294967296 ->
  (forall i, 0 <= i < 32 -> Z.testbit x i = Z.testbit y i) -> x = y.
Proof.
  intros Hx Hy H. apply Z.bits_inj'. intros i Hi.
  destruct (Z_lt_le_dec i 32).
  - apply H; lia.
  - rewrite !range_testbit_high by lia. reflexivity.
Qed.
Lemma not32_testbit x i : 0 <= i < 32 -> Z.testbit (not32 x) i = negb (Z.testbit x i).
Proof. intros. unfold not32. rewrite u32_testbit by lia. apply Z.lnot_spec. lia. Qed.
Lemma not32_range x : 0 <= not32 x < 4294967296.
Proof. apply u32_range. Qed.
Lemma not32_eq x : 0 <= x < 4294967296 -> not32 x = 4294967295 - x.
Proof. intros. unfold not32, u32, Z.lnot. lia. Qed.
Lemma land_range32 x y : 0 <= x < 4294967296 -> 0 <= y -> 0 <= Z.land x y < 4294967296.
Proof.
  intros Hx Hy. split; [apply Z.land_nonneg; lia|].
  destruct (Z.eq_dec (Z.land x y) 0) as [->|]; [lia|].
  change 4294967296 with (2^32). apply Z.log2_lt_pow2.
  - assert (0 <= Z.land x y) by (apply Z.land_nonneg; lia). lia.
  - eapply Z.le_lt_trans; [apply Z.log2_land; lia|].
    destruct (Z.eq_dec x 0) as [->|]; [rewrite Z.land_0_l in *; lia|].
    eapply Z.le_lt_trans; [apply Z.le_min_l|]. apply Z.log2_lt_pow2; lia.
Qed.
Lemma lor_range32 x y : 0 <= x < 4294967296 -> 0 <= y < 4294967296 -> 0 <= Z.lor x y < 4294967296.
Proof.
  intros Hx Hy. split; [apply Z.lor_nonneg; lia|].
  destruct (Z.eq_dec (Z.lor x y) 0) as [->|]; [lia|].
  assert (0 <= Z.lor x y) by (apply Z.lor_nonneg; lia).
  change 4294967296 with (2^32). apply Z.log2_lt_pow2; [lia|].
  rewrite Z.log2_lor by lia.
  apply Z.max_lub_lt.
  - destruct (Z.eq_dec x 0) as [->|]; [reflexivity|]. apply Z.log2_lt_pow2; lia.
  - destruct (Z.eq_dec y 0) as [->|]; [reflexivity|]. apply Z.log2_lt_pow2; lia.
Qed.
Lemma lxor_range32 x y : 0 <= x < 4294967296 -> 0 <= y < 4294967296 -> 0 <= Z.lxor x y < 4294967296.
Proof.
  intros Hx Hy.
  assert (Z.lxor x y = u32 (Z.lxor x y)) as ->; [|apply u32_range].
  apply Z.bits_inj'. intros i Hi. destruct (Z_lt_le_dec i 32).
  - rewrite u32_testbit by lia. reflexivity.
  - rewrite u32_testbit_high by lia. rewrite Z.lxor_spec, !range_testbit_high by lia. reflexivity.
Qed.

(** mask of the top [l] of 32 bits *)
Lemma testbit_ones_shift k i : 0 <= k -> 0 <= i -> Z.testbit (2 ^ k - 1) i = (i <? k).
Proof.
  intros. replace (2 ^ k - 1) with (Z.ones k) by (rewrite Z.ones_equiv; lia).
  destruct (i <? k) eqn:E.
  - apply Z.ones_spec_low; lia.
  - apply Z.ones_spec_high; lia.
Qed.
Lemma land_low x k : 0 <= k -> Z.land x (2 ^ k - 1) = x mod 2 ^ k.
Proof. intros. replace (2 ^ k - 1) with (Z.ones k) by (rewrite Z.ones_equiv; lia). apply Z.land_ones; lia. Qed.
Lemma lor_disjoint x y : Z.land x y = 0 -> Z.lor x y = x + y.
Proof. intros H. rewrite Z.add_nocarry_lxor by assumption. symmetry. apply Z.lxor_lor; assumption. Qed.

Lemma ctz_pos_nonneg p : 0 <= ctz_pos p.
Proof. induction p; cbn [ctz_pos]; lia. Qed.
Lemma ctz_nonneg x : 0 <= ctz x.
Proof. destruct x; cbn [ctz]; try lia. apply ctz_pos_nonneg. Qed.
Lemma ctz_spec_low x i : 0 < x -> 0 <= i < ctz x -> Z.testbit x i = false.
Proof.
  destruct x as [|p|p]; try lia. intros _. cbn [ctz]. revert i.
  induction p; cbn [ctz_pos]; intros i Hi; try lia.
  destruct (Z.eq_dec i 0) as [->|]; [reflexivity|].
  replace i with (Z.succ (i - 1)) by lia.
  change (Z.pos p~0) with (2 * Z.pos p). rewrite Z.testbit_even_succ by lia. apply IHp. lia.
Qed.
Lemma ctz_spec_bit x : 0 < x -> Z.testbit x (ctz x) = true.
Proof.
  destruct x as [|p|p]; try lia. intros _. cbn [ctz].
  induction p; cbn [ctz_pos]; try reflexivity.
  replace (1 + ctz_pos p) with (Z.succ (ctz_pos p)) by lia.
  change (Z.pos p~0) with (2 * Z.pos p). rewrite Z.testbit_even_succ by (apply ctz_pos_nonneg). exact IHp.
Qed.
Lemma ctz_lt32 x : 0 < x < 4294967296 -> ctz x < 32.
Proof.
  intros H. destruct (Z_lt_le_dec (ctz x) 32); [lia|].
  pose proof (ctz_spec_bit x ltac:(lia)) as Hb. rewrite range_testbit_high in Hb by lia. discriminate.
Qed.
Lemma ctz_div x : 0 < x -> exists q, x = q * 2 ^ ctz x.
Proof.
  destruct x as [|p|p]; try lia. intros _. cbn [ctz].
  induction p; cbn [ctz_pos].
  - exists (Z.pos p~1). lia.
  - destruct IHp as [q Hq]. exists q. pose proof (ctz_pos_nonneg p).
    rewrite Z.pow_add_r by lia. lia.
  - exists 1. lia.
Qed.
Lemma clz32_spec x : 0 < x < 4294967296 -> 0 <= clz32 x <= 31.
Proof.
  intros. unfold clz32. pose proof (Z.log2_nonneg x).
  assert (Z.log2 x < 32) by (apply Z.log2_lt_pow2; lia). lia.
Qed.
Lemma clz32_high x i : 0 < x < 4294967296 -> 32 - clz32 x <= i -> Z.testbit x i = false.
Proof. intros H Hi. unfold clz32 in Hi. apply Z.bits_above_log2; lia. Qed.
