(** C29: 32-bit signed division and remainder by constants, as expanded by the RISC-V and ARM back ends. *)
From Coq Require Import ZArith Lia Bool ZifyBool List.
From Verif Require Import Word Rv64 Magic.
Import ListNotations.
Local Open Scope Z_scope.
Ltac Zify.zify_post_hook ::= idtac.

(* ------------------------------------------------------------------ *)
(** * RISC-V *)

(** cmmc/Target/RISCV/RISCVISelInfo.cpp:297-325 buildMul64Imm: the product (a shift when the multiplier is a
    power of two; otherwise InstMul on a 64-bit register with a loaded immediate, RISCV.yml:921-930), its upper
    half by a logical shift, and the correction.  Returns (product, out). *)
Definition isPow2 (x : Z) : bool := (0 <? x) && (x =? 2 ^ Z.log2 x).
Definition rvMulHi (x m f : Z) : Z * Z :=
  let mul := if isPow2 (u64 m) then Rv.SLLI x (Z.log2 (u64 m)) else Rv.MUL x (u64 m) in
  let out := Rv.SRLI mul 32 in
  (mul, if f =? 0 then out else if f =? 1 then Rv.ADD out x else Rv.SUB out x).
(** RISCVISelInfo.cpp:327-336 buildSRAIW *)
Definition rvSra (x sh : Z) : Z := if sh =? 0 then x else Rv.SRAIW x sh.
(** RISCV.yml:1069-1089 the expansion of InstSDiv by a constant *)
Definition rvDivMagic (x m sh f : Z) : Z :=
  let out := snd (rvMulHi x m f) in
  Rv.ADD (Rv.SRLIW out 31) (rvSra out sh).
(** RISCV.yml:1111-1145: the two peepholes that fuse SRLI 32 with the following SRLIW / SRAIW
    (they fire when no correction was added, so that out is the SRLI itself) *)
Definition rvDivMagicFused (x m sh f : Z) : Z :=
  let '(mul, out) := rvMulHi x m f in
  if f =? 0 then
    Rv.ADD (Rv.SRLI mul (31 + 32)) (if sh =? 0 then out else Rv.SRAI mul (sh + 32))
  else Rv.ADD (Rv.SRLIW out 31) (rvSra out sh).
(** RISCV.yml:1044-1090, 1091-1108, 1147-1160: which form is used.  [profitable] is isSDivExpandProfitable
    (RISCVISelInfo.cpp:338-355), any answer.  Power of two: RISCV.yml:988-1010 with Select_GPR_Arith read as
    documented there (Rd = cond ? Rs1 op Rs2 : Rs1, expanded at RISCVISelInfo.cpp:870-911) and
    selectAddImm32 (RISCVISelInfo.cpp:478-488) choosing ADDIW or ADDW with a loaded immediate. *)
Definition rvAddImm32 (x v : Z) : Z :=
  if (-2048 <=? v) && (v <? 2048) then Rv.ADDIW x v else Rv.ADDW x (u64 v).
Definition rvDivPow2 (x d : Z) : Z :=
  let sel := if s64 x <? 0 then rvAddImm32 x (d - 1) else x in
  Rv.SRAIW sel (Z.log2 d).
Definition rvSDivConst (profitable fused : bool) (x d : Z) : Z :=
  if (1 <? d) && isPow2 d then rvDivPow2 x d
  else match selectMagic d with
       | Some (m, sh, f) =>
           if profitable then (if fused then rvDivMagicFused x m sh f else rvDivMagic x m sh f)
           else Rv.DIVW x (u64 d)
       | None => Rv.DIVW x (u64 d)
       end.
(** RISCV.yml:1171-1195 remainder by a constant: n - (n / d) * d, MULW on a 32-bit destination *)
Definition rvSRemConst (profitable fused : bool) (x d : Z) : Z :=
  match selectMagic d with
  | Some _ => if profitable then Rv.SUBW x (Rv.MULW (rvSDivConst profitable fused x d) (u64 d))
              else Rv.REMW x (u64 d)
  | None => Rv.REMW x (u64 d)
  end.
(** RISCV.yml:1037-1066 division by 1 << s: SLLIW/SLLW give the divisor, which is reused *)
Definition rvDivShl (x sx : Z) : Z :=
  let shl := Rv.SLLW (u64 1) sx in
  let sel := if s64 x <? 0 then Rv.ADDW x (Rv.ADDIW shl (-1)) else x in
  Rv.SRAW sel sx.

(* ------------------------------------------------------------------ *)
(** * ARM (32-bit registers, values in [0, 2^32)) *)
(** The architecture's meaning of the instructions used (specification). *)
Definition armSMMUL a b := u32 ((s32 a * s32 b) / 4294967296).
Definition armSMMLA a b c := u32 ((c * 4294967296 + s32 a * s32 b) / 4294967296).
Definition armSUB a b := u32 (a - b).
Definition armASR a k := u32 (s32 a / 2 ^ k).
Definition armLSR a k := if k <? 32 then a / 2 ^ k else 0.
Definition armADD_LSR a b k := u32 (a + armLSR b k).
Definition armMUL a b := u32 (a * b).
Definition armSDIV a b := u32 (if s32 b =? 0 then 0 else Z.quot (s32 a) (s32 b)).

(** cmmc/Target/ARM/ARMISelInfo.cpp:531-559 buildMulHiImm, 561-569 buildASR, ARM.yml:753-771 *)
Definition armMulHi (x m f : Z) : Z :=
  if f =? 0 then armSMMUL x (u32 m)
  else if f =? 1 then armSMMLA x (u32 m) x
  else armSUB (armSMMUL x (u32 m)) x.
Definition armDivMagic (x m sh f : Z) : Z :=
  let out := armMulHi x m f in
  armADD_LSR (if sh =? 0 then out else armASR out sh) out 31.
(** ARM.yml:679-718: divisor 2, other powers of two *)
Definition armDivPow2 (x d : Z) : Z :=
  if d =? 2 then armASR (armADD_LSR x x 31) 1
  else armASR (armADD_LSR x (armASR x 31) (32 - Z.log2 d)) (Z.log2 d).
(** ARM.yml:720-744 division by 1 << s with register shifts (s is the register's value) *)
Definition armDivShl (x s : Z) : Z :=
  armASR (armADD_LSR x (armASR x 31) (32 - s)) s.
Definition armSDivConst (profitable : bool) (x d : Z) : Z :=
  if (1 <? d) && isPow2 d then armDivPow2 x d
  else match selectMagic d with
       | Some (m, sh, f) => if profitable then armDivMagic x m sh f else armSDIV x (u32 d)
       | None => armSDIV x (u32 d)
       end.
(** ARM.yml:808-860: n - (n / d) << k for a power of two, n - (n / d) * d otherwise *)
Definition armSRemConst (profitable : bool) (x d : Z) : Z :=
  if (1 <? d) && isPow2 d then u32 (x - u32 (armSDivConst profitable x d * 2 ^ Z.log2 d))
  else armSUB x (armMUL (armSDivConst profitable x d) (u32 d)).

(* ------------------------------------------------------------------ *)
(** * Proofs *)
Lemma isPow2_spec x : isPow2 x = true -> 0 < x /\ x = 2 ^ Z.log2 x.
Proof. unfold isPow2. lia. Qed.

Ltac eqm := match goal with
  | |- u32 ?a = u32 ?b => unfold u32; apply Z.mod_unique
  end.

Lemma u64_mul_u64 x y : u64 (u64 x * u64 y) = u64 (x * y).
Proof. unfold u64. rewrite <- Z.mul_mod by lia. reflexivity. Qed.
Lemma u64_mul_u64_l x y : u64 (u64 x * y) = u64 (x * y).
Proof. unfold u64. rewrite Z.mul_mod_idemp_l by lia. reflexivity. Qed.
Lemma u32_mul_u32_l x y : u32 (u32 x * y) = u32 (x * y).
Proof. unfold u32. rewrite Z.mul_mod_idemp_l by lia. reflexivity. Qed.
Lemma u32_mul_u32_r x y : u32 (x * u32 y) = u32 (x * y).
Proof. unfold u32. rewrite Z.mul_mod_idemp_r by lia. reflexivity. Qed.
Lemma u32_add_l x y : u32 (u32 x + y) = u32 (x + y).
Proof. unfold u32. rewrite Z.add_mod_idemp_l by lia. reflexivity. Qed.
Lemma u32_add_r x y : u32 (x + u32 y) = u32 (x + y).
Proof. unfold u32. rewrite Z.add_mod_idemp_r by lia. reflexivity. Qed.
Lemma u32_sub_l x y : u32 (u32 x - y) = u32 (x - y).
Proof. unfold u32. rewrite Zminus_mod_idemp_l. reflexivity. Qed.
Lemma u32_sub_r x y : u32 (x - u32 y) = u32 (x - y).
Proof. unfold u32. rewrite Zminus_mod_idemp_r. reflexivity. Qed.
Lemma u64_add_l x y : u64 (u64 x + y) = u64 (x + y).
Proof. unfold u64. rewrite Z.add_mod_idemp_l by lia. reflexivity. Qed.
Lemma u64_add_r x y : u64 (x + u64 y) = u64 (x + y).
Proof. unfold u64. rewrite Z.add_mod_idemp_r by lia. reflexivity. Qed.

(** upper half of a wrapped 64-bit value *)
Lemma u32_hi z : u32 (u64 z / 4294967296) = u32 (z / 4294967296).
Proof.
  unfold u64, u32.
  pose proof (Z.div_mod z 18446744073709551616 ltac:(lia)) as D.
  set (k := z / 18446744073709551616) in *. set (r := z mod 18446744073709551616) in *.
  rewrite D. replace (18446744073709551616 * k + r) with (r + (k * 4294967296) * 4294967296) by ring.
  rewrite Z.div_add by lia. rewrite Z.mod_add by lia. reflexivity.
Qed.

Lemma rv_product x n m : holds32 x n ->
  fst (rvMulHi x m 0) = u64 (n * m).
Proof.
  intros [-> R]. unfold rvMulHi. cbn [fst].
  destruct (isPow2 (u64 m)) eqn:P.
  - apply isPow2_spec in P. destruct P as [_ P]. unfold Rv.SLLI. rewrite <- P.
    apply u64_mul_u64.
  - unfold Rv.MUL. apply u64_mul_u64.
Qed.

Lemma rv_out x n m f : holds32 x n -> f = 0 \/ f = 1 \/ f = -1 ->
  u32 (snd (rvMulHi x m f)) = u32 ((m + f * 4294967296) * n / 4294967296).
Proof.
  intros H Hf. pose proof (rv_product x n m H) as P. unfold rvMulHi in *. cbn [fst snd] in *.
  rewrite P. unfold Rv.SRLI. change (2 ^ 32) with 4294967296.
  assert (E : (m + f * 4294967296) * n / 4294967296 = n * m / 4294967296 + f * n).
  { replace ((m + f * 4294967296) * n) with (n * m + f * n * 4294967296) by ring. apply Z.div_add. lia. }
  rewrite E. destruct H as [-> R].
  destruct Hf as [-> | [-> | ->]]; cbn [Z.eqb Pos.eqb].
  - rewrite u32_hi. f_equal. lia.
  - unfold Rv.ADD. rewrite u32_u64, <- u32_add_r, u32_u64, u32_add_r, <- u32_add_l, u32_hi, u32_add_l.
    f_equal. lia.
  - unfold Rv.SUB. rewrite u32_u64, <- u32_sub_r, u32_u64, u32_sub_r, <- u32_sub_l, u32_hi, u32_sub_l.
    f_equal; lia.
Qed.

Lemma hi_range c n : -4294967296 < c < 4294967296 -> INT_MIN <= n <= INT_MAX ->
  INT_MIN <= c * n / 4294967296 <= INT_MAX.
Proof.
  unfold INT_MIN, INT_MAX. intros Hc Hn.
  assert (-2147483648 * 4294967296 <= c * n <= 2147483648 * 4294967296 - 1).
  { assert (-4294967295 * 2147483648 <= c * n <= 4294967295 * 2147483648) by nia. lia. }
  split; [apply Z.div_le_lower_bound; lia|].
  apply Z.lt_succ_r, Z.div_lt_upper_bound; lia.
Qed.

Lemma sign_bit E : INT_MIN <= E <= INT_MAX -> u32 E / 2147483648 = if E <? 0 then 1 else 0.
Proof.
  unfold INT_MIN, INT_MAX. intros R. destruct (E <? 0) eqn:S.
  - assert (u32 E = E + 4294967296) as ->. { unfold u32. symmetry. apply (Z.mod_unique E 4294967296 (-1)); lia. }
    apply div_between; lia.
  - rewrite u32_small by lia. apply div_between; lia.
Qed.

Lemma asr_comp c n sh : 0 <= sh -> c * n / 4294967296 / 2 ^ sh = c * n / 2 ^ (32 + sh).
Proof.
  intros H. rewrite Z.div_div by (try (apply Z.pow_pos_nonneg); lia).
  rewrite Z.pow_add_r by lia. reflexivity.
Qed.
Lemma asr_neg E sh : 0 <= sh -> (E / 2 ^ sh <? 0) = (E <? 0).
Proof.
  intros H. assert (0 < 2 ^ sh) by (apply Z.pow_pos_nonneg; lia).
  destruct (E <? 0) eqn:S.
  - apply Z.ltb_lt. apply Z.div_lt_upper_bound; lia.
  - apply Z.ltb_ge. apply Z.div_pos; lia.
Qed.

(** Fusing the shifts changes nothing (RISCV.yml:1111-1145) *)
Lemma fuse_sraiw z k : 0 <= z < 18446744073709551616 -> 0 <= k < 32 ->
  Rv.SRAIW (Rv.SRLI z 32) k = Rv.SRAI z (k + 32).
Proof.
  intros Hz Hk. unfold Rv.SRAIW, Rv.SRLI, Rv.SRAI, Rv.w. change (2 ^ 32) with 4294967296.
  assert (E : s32 (z / 4294967296) = s64 z / 4294967296).
  { unfold s32, s64.
    pose proof (Z.div_mod z 4294967296 ltac:(lia)) as D. pose proof (Z.mod_pos_bound z 4294967296 ltac:(lia)) as B.
    set (h := z / 4294967296) in *. set (l := z mod 4294967296) in *.
    assert (0 <= h < 4294967296) by lia.
    destruct (Z_lt_le_dec h 2147483648).
    - rewrite (Z.mod_small (h + 2147483648)) by lia. rewrite (Z.mod_small (z + 9223372036854775808)) by lia.
      rewrite (div_between _ _ h) by lia. lia.
    - assert ((h + 2147483648) mod 4294967296 = h - 2147483648) as ->.
      { symmetry. apply (Z.mod_unique _ _ 1); lia. }
      assert ((z + 9223372036854775808) mod 18446744073709551616 = z - 9223372036854775808) as ->.
      { symmetry. apply (Z.mod_unique _ _ 1); lia. }
      rewrite (div_between _ _ (h - 4294967296)) by lia. lia. }
  assert (Pk : 0 < 2 ^ k) by (apply Z.pow_pos_nonneg; lia).
  assert (E2 : s64 z / 2 ^ (k + 32) = s32 (z / 4294967296) / 2 ^ k).
  { rewrite E, Z.div_div by lia. rewrite (Z.add_comm k 32), Z.pow_add_r by lia. reflexivity. }
  rewrite E2. f_equal. apply s32_small.
  pose proof (s32_range (z / 4294967296)) as R. unfold INT_MIN, INT_MAX in *.
  split; [apply Z.div_le_lower_bound; nia|]. apply Z.lt_succ_r, Z.div_lt_upper_bound; nia.
Qed.
Lemma fuse_srliw z k : 0 <= z < 18446744073709551616 -> 1 <= k < 32 ->
  Rv.SRLIW (Rv.SRLI z 32) k = Rv.SRLI z (k + 32).
Proof.
  intros Hz Hk. unfold Rv.SRLIW, Rv.SRLI, Rv.w. change (2 ^ 32) with 4294967296.
  assert (B : 0 <= z / 4294967296 < 4294967296).
  { split; [apply Z.div_pos; lia|apply Z.div_lt_upper_bound; lia]. }
  assert (Pk : 0 < 2 ^ k) by (apply Z.pow_pos_nonneg; lia).
  rewrite u32_small by lia. rewrite (Z.add_comm k 32), Z.pow_add_r by lia. change (2 ^ 32) with 4294967296.
  rewrite <- Z.div_div by lia.
  assert (2 ^ 1 <= 2 ^ k) by (apply Z.pow_le_mono_r; lia). change (2 ^ 1) with 2 in *.
  assert (0 <= z / 4294967296 / 2 ^ k < 2147483648).
  { split; [apply Z.div_pos; lia|apply Z.div_lt_upper_bound; nia]. }
  rewrite s32_small by (unfold INT_MIN, INT_MAX; lia). unfold u64. apply Z.mod_small. lia.
Qed.

Lemma rv_fused_eq x n m sh f : holds32 x n -> 0 <= sh <= 31 ->
  rvDivMagicFused x m sh f = rvDivMagic x m sh f.
Proof.
  intros H Hs. unfold rvDivMagicFused, rvDivMagic.
  destruct (f =? 0) eqn:F.
  - apply Z.eqb_eq in F. subst f. pose proof (rv_product x n m H) as P.
    assert (O : snd (rvMulHi x m 0) = Rv.SRLI (fst (rvMulHi x m 0)) 32) by reflexivity.
    destruct (rvMulHi x m 0) as [mul out]. cbn [fst snd] in *. subst out.
    assert (B : 0 <= mul < 18446744073709551616) by (rewrite P; apply u64_range).
    rewrite fuse_srliw by lia. unfold rvSra. destruct (sh =? 0); [reflexivity|].
    rewrite fuse_sraiw by lia. reflexivity.
  - destruct (rvMulHi x m f) as [mul out]. reflexivity.
Qed.

Lemma quot_range n d : INT_MIN <= n <= INT_MAX -> constDivisor d = true ->
  INT_MIN <= Z.quot n d <= INT_MAX.
Proof.
  intros Hn Hd. apply constDivisor_spec in Hd. unfold INT_MIN, INT_MAX in *.
  assert (Z.abs (Z.quot n d) <= 1073741824).
  { rewrite <- Z.quot_abs by lia. rewrite Z.quot_div_nonneg by lia.
    apply Z.lt_succ_r. apply Z.div_lt_upper_bound; [lia|]. nia. }
  lia.
Qed.

Lemma rv_magic_facts x n d m sh f : holds32 x n -> magicOk d m sh f -> constDivisor d = true ->
  let out := snd (rvMulHi x m f) in
  exists E32, s32 out = E32 /\ u32 out = u32 E32 /\ INT_MIN <= E32 <= INT_MAX /\ 0 <= sh <= 31 /\
    E32 / 2 ^ sh + (if E32 <? 0 then 1 else 0) = Z.quot n d.
Proof.
  intros H (m0 & B0 & N0 & Hs & Hm & Hc & Hf & K) Hd out.
  set (c := if d <? 0 then - m0 else m0) in *.
  exists (c * n / 4294967296).
  assert (R : INT_MIN <= c * n / 4294967296 <= INT_MAX).
  { apply hi_range; [unfold c; destruct (d <? 0); lia|apply H]. }
  assert (U : u32 out = u32 (c * n / 4294967296)) by (unfold out; rewrite (rv_out x n m f H Hf), Hc; reflexivity).
  split; [rewrite <- (s32_small _ R); apply s32_eq_iff, U|]. split; [exact U|]. split; [exact R|]. split; [exact Hs|].
  specialize (K n (proj2 H)). cbv zeta in K. rewrite asr_comp by lia.
  rewrite <- K. f_equal. rewrite <- asr_comp by lia. rewrite asr_neg by lia. reflexivity.
Qed.

Lemma rv_magic_low x n d m sh f : holds32 x n -> magicOk d m sh f -> constDivisor d = true ->
  u32 (rvDivMagic x m sh f) = u32 (Z.quot n d).
Proof.
  intros H M Hd. destruct (rv_magic_facts x n d m sh f H M Hd) as (E & S & U & R & Hs & K).
  unfold rvDivMagic. set (out := snd (rvMulHi x m f)) in *.
  unfold Rv.ADD. rewrite u32_u64. rewrite <- u32_add_l. unfold Rv.SRLIW. rewrite u32_w, U.
  change (2 ^ 31) with 2147483648. rewrite (sign_bit E R). rewrite u32_add_l.
  rewrite <- u32_add_r. unfold rvSra. destruct (sh =? 0) eqn:Z0.
  - apply Z.eqb_eq in Z0. subst sh. rewrite Z.div_1_r in K. rewrite U, u32_add_r. f_equal. lia.
  - unfold Rv.SRAIW. rewrite u32_w, S, u32_add_r. f_equal. lia.
Qed.

Lemma rv_magic_full x n d m sh f : holds32 x n -> magicOk d m sh f -> constDivisor d = true -> sh <> 0 ->
  holds32 (rvDivMagic x m sh f) (Z.quot n d).
Proof.
  intros H M Hd Nz. pose proof (quot_range n d (proj2 H) Hd) as QR.
  destruct (rv_magic_facts x n d m sh f H M Hd) as (E & S & U & R & Hs & K).
  split; [|exact QR]. unfold rvDivMagic. set (out := snd (rvMulHi x m f)) in *.
  unfold rvSra. replace (sh =? 0) with false by lia.
  unfold Rv.ADD, Rv.SRLIW, Rv.SRAIW, Rv.w. rewrite S, U. change (2 ^ 31) with 2147483648.
  rewrite (sign_bit E R), u64_add_l, u64_add_r. f_equal.
  rewrite (s32_small (E / 2 ^ sh)), (s32_small (if E <? 0 then 1 else 0)).
  - lia.
  - unfold INT_MIN, INT_MAX. destruct (E <? 0); lia.
  - assert (P : 0 < 2 ^ sh) by (apply Z.pow_pos_nonneg; lia). unfold INT_MIN, INT_MAX in *.
    split; [apply Z.div_le_lower_bound; nia|]. apply Z.lt_succ_r, Z.div_lt_upper_bound; nia.
Qed.

(** ** Powers of two *)
Lemma quot_pow2 n k : 0 <= k -> Z.quot n (2 ^ k) = (n + (if n <? 0 then 2 ^ k - 1 else 0)) / 2 ^ k.
Proof.
  intros Hk. assert (P : 0 < 2 ^ k) by (apply Z.pow_pos_nonneg; lia).
  destruct (n <? 0) eqn:S.
  - replace n with (- - n) at 1 by lia. rewrite Z.quot_opp_l by lia. rewrite Z.quot_div_nonneg by lia.
    pose proof (Z.div_mod (- n) (2 ^ k) ltac:(lia)) as D. pose proof (Z.mod_pos_bound (- n) (2 ^ k) P) as B.
    set (q := - n / 2 ^ k) in *. symmetry. apply div_between; lia.
  - rewrite Z.quot_div_nonneg by lia. f_equal. lia.
Qed.

Lemma pow2_bound d : d <= INT_MAX -> isPow2 d = true -> 0 <= Z.log2 d <= 30.
Proof.
  intros R P. apply isPow2_spec in P. destruct P as [P0 P]. unfold INT_MAX in R.
  split; [apply Z.log2_nonneg|]. assert (2 ^ Z.log2 d < 2 ^ 31) by (change (2 ^ 31) with 2147483648; lia).
  apply Z.pow_lt_mono_r_iff in H; lia.
Qed.

Lemma sra_range z k : INT_MIN <= z <= INT_MAX -> 0 <= k -> INT_MIN <= z / 2 ^ k <= INT_MAX.
Proof.
  intros R Hk. assert (P : 0 < 2 ^ k) by (apply Z.pow_pos_nonneg; lia). unfold INT_MIN, INT_MAX in *.
  split; [apply Z.div_le_lower_bound; nia|]. apply Z.lt_succ_r, Z.div_lt_upper_bound; nia.
Qed.

Lemma rv_biased x n k b : holds32 x n -> 0 <= k <= 30 -> (n < 0 -> holds32 b (n + (2 ^ k - 1))) ->
  holds32 (Rv.SRAIW (if s64 x <? 0 then b else x) k) (Z.quot n (2 ^ k)).
Proof.
  intros H Hk Hb. rewrite (holds32_s64 x n H), quot_pow2 by lia.
  destruct (n <? 0) eqn:S.
  - specialize (Hb ltac:(lia)). apply w_holds'; [apply sra_range; [apply Hb|lia]|].
    rewrite (holds32_s32 _ _ Hb). reflexivity.
  - rewrite Z.add_0_r. apply w_holds'; [apply sra_range; [apply H|lia]|].
    rewrite (holds32_s32 _ _ H). reflexivity.
Qed.

Lemma rv_pow2 x n d : holds32 x n -> 1 < d <= INT_MAX -> isPow2 d = true ->
  holds32 (rvDivPow2 x d) (Z.quot n d).
Proof.
  intros H R P. pose proof (pow2_bound d ltac:(lia) P) as K. apply isPow2_spec in P. destruct P as [_ P].
  unfold rvDivPow2. rewrite P at 3. apply rv_biased; [exact H|exact K|].
  intros Ln. rewrite <- P.
  assert (RR : INT_MIN <= n + (d - 1) <= INT_MAX) by (destruct H as [_ H]; unfold INT_MIN, INT_MAX in *; lia).
  destruct H as [-> _]. unfold rvAddImm32. destruct ((-2048 <=? d - 1) && (d - 1 <? 2048)).
  - apply w_holds'; [exact RR|]. rewrite <- u32_add_l, u32_u64, u32_add_l. reflexivity.
  - apply w_holds'; [exact RR|]. rewrite <- u32_add_l, u32_u64, u32_add_l, <- u32_add_r, u32_u64, u32_add_r. reflexivity.
Qed.

Lemma rv_shl x n sx s : holds32 x n -> holds32 sx s -> 0 <= s <= 30 ->
  holds32 (rvDivShl x sx) (Z.quot n (2 ^ s)).
Proof.
  intros H Hs R. unfold rvDivShl.
  assert (Es : sx = s). { destruct Hs as [-> _]. unfold u64. apply Z.mod_small. lia. }
  rewrite Es. unfold Rv.SRAW. rewrite (Z.mod_small s 32) by lia.
  change (Rv.w (s32 ?a / 2 ^ s)) with (Rv.SRAIW a s).
  apply rv_biased; [exact H|exact R|]. intros Ln.
  assert (B1 : 2 ^ s <= 2 ^ 30) by (apply Z.pow_le_mono_r; lia). change (2 ^ 30) with 1073741824 in B1.
  assert (B0 : 0 < 2 ^ s) by (apply Z.pow_pos_nonneg; lia).
  assert (RR : INT_MIN <= n + (2 ^ s - 1) <= INT_MAX) by (destruct H as [_ H]; unfold INT_MIN, INT_MAX in *; lia).
  destruct H as [-> _]. apply w_holds'; [exact RR|].
  unfold Rv.SLLW. rewrite (Z.mod_small s 32) by lia.
  assert (E : u32 (Rv.ADDIW (Rv.w (u64 1 * 2 ^ s)) (-1)) = u32 (2 ^ s - 1)).
  { unfold Rv.ADDIW. rewrite u32_w, <- u32_add_l, u32_w, u32_add_l. change (u64 1) with 1. f_equal. lia. }
  rewrite <- u32_add_r, E, u32_add_r, <- u32_add_l, u32_u64, u32_add_l. reflexivity.
Qed.

(** ** ARM *)
Lemma arm_pow2_gen n s : INT_MIN <= n <= INT_MAX -> 0 <= s <= 30 ->
  armASR (armADD_LSR (u32 n) (armASR (u32 n) 31) (32 - s)) s = u32 (Z.quot n (2 ^ s)).
Proof.
  intros R Hs. rewrite quot_pow2 by lia.
  assert (B1 : 2 ^ s <= 2 ^ 30) by (apply Z.pow_le_mono_r; lia). change (2 ^ 30) with 1073741824 in B1.
  assert (B0 : 0 < 2 ^ s) by (apply Z.pow_pos_nonneg; lia).
  assert (A : armLSR (armASR (u32 n) 31) (32 - s) = if n <? 0 then 2 ^ s - 1 else 0).
  { unfold armASR. rewrite s32_u32, (s32_small n R). change (2 ^ 31) with 2147483648.
    unfold INT_MIN, INT_MAX in R. unfold armLSR. destruct (n <? 0) eqn:S.
    - rewrite (div_between n _ (-1)) by lia. change (u32 (-1)) with 4294967295.
      destruct (32 - s <? 32) eqn:L.
      + assert (2 ^ (32 - s) * 2 ^ s = 4294967296).
        { rewrite <- Z.pow_add_r by lia. replace (32 - s + s) with 32 by lia. reflexivity. }
        assert (0 < 2 ^ (32 - s)) by (apply Z.pow_pos_nonneg; lia).
        apply div_between; nia.
      + replace s with 0 by lia. reflexivity.
    - rewrite (div_between n _ 0) by lia. change (u32 0) with 0.
      destruct (32 - s <? 32); [apply Z.div_0_l|reflexivity].
      apply Z.pow_nonzero; lia. }
  unfold armADD_LSR. rewrite A, u32_add_l. unfold armASR. rewrite s32_u32, s32_small; [reflexivity|].
  unfold INT_MIN, INT_MAX in *. destruct (n <? 0) eqn:S; lia.
Qed.

Lemma arm_pow2 n d : INT_MIN <= n <= INT_MAX -> 1 < d <= INT_MAX -> isPow2 d = true ->
  armDivPow2 (u32 n) d = u32 (Z.quot n d).
Proof.
  intros R Hd P. pose proof (pow2_bound d ltac:(lia) P) as K. apply isPow2_spec in P. destruct P as [_ P].
  unfold armDivPow2. destruct (d =? 2) eqn:D2.
  - apply Z.eqb_eq in D2. subst d. change 2 with (2 ^ 1) at 1. rewrite quot_pow2 by lia.
    unfold armADD_LSR, armLSR. change (31 <? 32) with true. cbv iota. change (2 ^ 31) with 2147483648.
    rewrite (sign_bit n R), u32_add_l. unfold armASR. rewrite s32_u32, s32_small; [reflexivity|].
    unfold INT_MIN, INT_MAX in *. destruct (n <? 0) eqn:S; lia.
  - rewrite arm_pow2_gen by assumption. rewrite <- P. reflexivity.
Qed.

Lemma arm_magic n d m sh f : INT_MIN <= n <= INT_MAX -> magicOk d m sh f ->
  armDivMagic (u32 n) m sh f = u32 (Z.quot n d).
Proof.
  intros R (m0 & B0 & N0 & Hs & Hm & Hc & Hf & K).
  set (c := if d <? 0 then - m0 else m0) in *.
  assert (R32 : INT_MIN <= c * n / 4294967296 <= INT_MAX).
  { apply hi_range; [unfold c; destruct (d <? 0); lia|exact R]. }
  assert (O : armMulHi (u32 n) m f = u32 (c * n / 4294967296)).
  { assert (E : c * n / 4294967296 = n * m / 4294967296 + f * n).
    { rewrite <- Hc. replace ((m + f * 4294967296) * n) with (n * m + f * n * 4294967296) by ring.
      apply Z.div_add. lia. }
    rewrite E. unfold armMulHi, armSMMUL, armSMMLA, armSUB.
    rewrite !s32_u32, (s32_small n R), (s32_small m) by (unfold INT_MIN, INT_MAX in *; lia).
    destruct Hf as [-> | [-> | ->]]; cbn [Z.eqb Pos.eqb].
    - f_equal. lia.
    - rewrite Z.add_comm, Z.div_add by lia. rewrite u32_add_r. f_equal. lia.
    - rewrite u32_sub_r, u32_sub_l. f_equal; lia. }
  unfold armDivMagic. rewrite O. set (E := c * n / 4294967296) in *.
  specialize (K n R). cbv zeta in K. rewrite <- asr_comp in K by lia. fold E in K. rewrite asr_neg in K by lia.
  unfold armADD_LSR, armLSR. change (31 <? 32) with true. cbv iota. change (2 ^ 31) with 2147483648.
  rewrite (sign_bit E R32). destruct (sh =? 0) eqn:Z0.
  - apply Z.eqb_eq in Z0. subst sh. rewrite Z.div_1_r in K. rewrite u32_add_l. f_equal. exact K.
  - unfold armASR. rewrite s32_u32, (s32_small E R32), u32_add_l. f_equal. exact K.
Qed.

(** ** All divisors *)
Lemma not_magic d : constDivisor d = false -> selectMagic d = None.
Proof. unfold selectMagic. intros ->. reflexivity. Qed.

Lemma rv_divw x n d : holds32 x n -> INT_MIN <= d <= INT_MAX -> d <> 0 ->
  holds32 (Rv.DIVW x (u64 d)) (s32 (Z.quot n d)).
Proof.
  intros H R Nz. unfold Rv.DIVW. rewrite (holds32_s32 x n H), s32_u64, (s32_small d R).
  replace (d =? 0) with false by lia. apply w_holds.
Qed.
Lemma rv_remw x n d : holds32 x n -> INT_MIN <= d <= INT_MAX -> d <> 0 ->
  holds32 (Rv.REMW x (u64 d)) (Z.rem n d).
Proof.
  intros H R Nz. unfold Rv.REMW. rewrite (holds32_s32 x n H), s32_u64, (s32_small d R).
  replace (d =? 0) with false by lia. apply w_holds'; [|reflexivity].
  destruct H as [_ H]. unfold INT_MIN, INT_MAX in *.
  pose proof (Z.rem_bound_abs n d Nz). assert (Z.abs (Z.rem n d) <= Z.abs n).
  { rewrite <- Z.rem_abs by lia. rewrite Z.rem_mod_nonneg by lia. apply Z.mod_le; lia. }
  pose proof (Z.rem_sign_nz n d Nz). lia.
Qed.

Lemma rv_sdiv_gen p fu x n d : holds32 x n -> INT_MIN <= d <= INT_MAX -> d <> 0 ->
  u32 (rvSDivConst p fu x d) = u32 (Z.quot n d) /\
  ((forall m f, selectMagic d <> Some (m, 0, f)) -> holds32 (rvSDivConst p fu x d) (s32 (Z.quot n d))).
Proof.
  intros H R Nz. unfold rvSDivConst.
  destruct ((1 <? d) && isPow2 d) eqn:P.
  { apply andb_prop in P. destruct P as [P1 P2].
    assert (HH : holds32 (rvDivPow2 x d) (Z.quot n d)) by (apply rv_pow2; [exact H|lia|exact P2]).
    split; [apply holds32_u32, HH|]. intros _. rewrite s32_small by apply HH. exact HH. }
  assert (DW := rv_divw x n d H R Nz).
  assert (DWu : u32 (Rv.DIVW x (u64 d)) = u32 (Z.quot n d)).
  { rewrite (holds32_u32 _ _ DW). apply u32_s32. }
  destruct (constDivisor d) eqn:C.
  - destruct (selectMagic_ok d C) as (m & sh & f & -> & M).
    assert (F : rvDivMagicFused x m sh f = rvDivMagic x m sh f).
    { destruct M as (m0 & _ & _ & Hs & _). apply (rv_fused_eq x n); assumption. }
    destruct p; [|split; [exact DWu|intros _; exact DW]].
    rewrite F. replace (if fu then rvDivMagic x m sh f else rvDivMagic x m sh f) with (rvDivMagic x m sh f)
      by (destruct fu; reflexivity).
    split; [apply (rv_magic_low x n d m sh f H M C)|].
    intros N. assert (HH := rv_magic_full x n d m sh f H M C).
    assert (sh <> 0) by (intros ->; exact (N m f eq_refl)). specialize (HH H0).
    rewrite s32_small by apply HH. exact HH.
  - rewrite (not_magic d C). split; [exact DWu|intros _; exact DW].
Qed.

(* ------------------------------------------------------------------ *)
(** * C29 *)
(** The chosen multiplier, shift and correction are right for every divisor and dividend: the full-precision
    product, shifted and corrected by its sign, is the truncated quotient.  [m + f * 2^32] is the multiplier the
    expansions effectively use. *)
Theorem C29_multiplier_choice : forall d, INT_MIN <= d <= INT_MAX -> d < -1 \/ 1 < d ->
  exists m sh f, selectMagic d = Some (m, sh, f) /\ INT_MIN <= m <= INT_MAX /\ 0 <= sh <= 31 /\ -1 <= f <= 1 /\
    forall n, INT_MIN <= n <= INT_MAX ->
      let E := ((m + f * 2 ^ 32) * n) / 2 ^ (32 + sh) in
      Z.quot n d = if E <? 0 then E + 1 else E.
Proof.
  intros d R O. destruct (selectMagic_ok d) as (m & sh & f & E & M).
  { apply constDivisor_spec. split; assumption. }
  exists m, sh, f. destruct M as (m0 & B0 & N0 & Hs & Hm & Hc & Hf & K).
  split; [exact E|]. split; [lia|]. split; [exact Hs|]. split; [lia|].
  intros n Hn. specialize (K n Hn). cbv zeta in K |- *. change (2 ^ 32) with 4294967296. rewrite Hc, <- K.
  match goal with |- _ = if ?b then _ else _ => destruct b end; lia.
Qed.

(** RISC-V: whatever the cost model and the peepholes decide, the low 32 bits of the result register are the
    quotient (INT_MIN / -1 wraps).  Partial: the register may not be sign-extended, see below. *)
Theorem C29_riscv_quotient_low_word_partial : forall profitable fused x n d,
  holds32 x n -> INT_MIN <= d <= INT_MAX -> d <> 0 ->
  u32 (rvSDivConst profitable fused x d) = u32 (Z.quot n d).
Proof. intros p fu x n d H R Nz. apply (rv_sdiv_gen p fu x n d H R Nz). Qed.

(** RISC-V: the whole register is the sign-extended quotient when the selected shift is not 0. *)
Theorem C29_riscv_quotient_register_partial : forall profitable fused x n d,
  holds32 x n -> INT_MIN <= d <= INT_MAX -> d <> 0 ->
  (forall m f, selectMagic d <> Some (m, 0, f)) ->
  holds32 (rvSDivConst profitable fused x d) (s32 (Z.quot n d)).
Proof. intros p fu x n d H R Nz N. apply (rv_sdiv_gen p fu x n d H R Nz), N. Qed.

(** Not so for a selected shift of 0: -7 / 3 leaves 0x00000000FFFFFFFE, and the 64-bit signed compare the back end
    emits for [-7 / 3 < 0] (RISCV.yml:1315-1330, SLT on the registers) answers no. *)
Theorem C29_riscv_quotient_register_refuted : exists x n d r,
  holds32 x n /\ r = rvSDivConst true true x d /\ Z.quot n d < 0 /\
  ~ holds32 r (Z.quot n d) /\ Rv.SLT r (u64 0) = 0.
Proof.
  exists (u64 (-7)), (-7), 3, (rvSDivConst true true (u64 (-7)) 3).
  split; [split; [reflexivity|unfold INT_MIN, INT_MAX; lia]|].
  split; [reflexivity|]. split; [reflexivity|].
  split; [|vm_compute; reflexivity].
  intros [E _]. vm_compute in E. discriminate.
Qed.

(** RISC-V remainder: exact, sign-extended, for every divisor. *)
Theorem C29_riscv_remainder : forall profitable fused x n d,
  holds32 x n -> INT_MIN <= d <= INT_MAX -> d <> 0 ->
  holds32 (rvSRemConst profitable fused x d) (Z.rem n d).
Proof.
  intros p fu x n d H R Nz. unfold rvSRemConst. assert (RW := rv_remw x n d H R Nz).
  destruct (selectMagic d) as [u|]; [|exact RW]. destruct p; [|exact RW].
  apply w_holds'; [apply RW|].
  assert (L := C29_riscv_quotient_low_word_partial true fu x n d H R Nz).
  destruct H as [-> _]. rewrite <- u32_sub_l, u32_u64, u32_sub_l, <- u32_sub_r.
  unfold Rv.MULW. rewrite u32_w, <- u32_mul_u32_l, L, u32_mul_u32_l, <- u32_mul_u32_r, u32_u64, u32_mul_u32_r, u32_sub_r.
  f_equal. rewrite (Z.rem_eq n d Nz). ring.
Qed.

(** RISC-V division by 1 << s, for every shift that gives a positive divisor; and its failure at s = 31. *)
Theorem C29_riscv_division_by_shifted_one_partial : forall x n sx s,
  holds32 x n -> holds32 sx s -> 0 <= s <= 30 -> holds32 (rvDivShl x sx) (Z.quot n (2 ^ s)).
Proof. exact rv_shl. Qed.
Theorem C29_division_by_shifted_one_refuted : exists n s d,
  0 <= s <= 31 /\ d = s32 (2 ^ s) /\ Z.quot n d = 1 /\
  s32 (rvDivShl (u64 n) (u64 s)) = -1 /\ s32 (armDivShl (u32 n) s) = -1.
Proof. exists INT_MIN, 31, INT_MIN. vm_compute. repeat split; discriminate. Qed.

(** ARM: quotient and remainder are exact for every divisor. *)
Theorem C29_arm_quotient : forall profitable n d,
  INT_MIN <= n <= INT_MAX -> INT_MIN <= d <= INT_MAX -> d <> 0 ->
  armSDivConst profitable (u32 n) d = u32 (Z.quot n d).
Proof.
  intros p n d Hn R Nz. unfold armSDivConst.
  destruct ((1 <? d) && isPow2 d) eqn:P.
  { apply andb_prop in P. destruct P as [P1 P2]. apply arm_pow2; [exact Hn|lia|exact P2]. }
  assert (SD : armSDIV (u32 n) (u32 d) = u32 (Z.quot n d)).
  { unfold armSDIV. rewrite !s32_u32, (s32_small n Hn), (s32_small d R). replace (d =? 0) with false by lia. reflexivity. }
  destruct (constDivisor d) eqn:C.
  - destruct (selectMagic_ok d C) as (m & sh & f & -> & M). destruct p; [|exact SD].
    apply arm_magic; assumption.
  - rewrite (not_magic d C). exact SD.
Qed.
Theorem C29_arm_remainder : forall profitable n d,
  INT_MIN <= n <= INT_MAX -> INT_MIN <= d <= INT_MAX -> d <> 0 ->
  armSRemConst profitable (u32 n) d = u32 (Z.rem n d).
Proof.
  intros p n d Hn R Nz. unfold armSRemConst.
  destruct ((1 <? d) && isPow2 d) eqn:P.
  - rewrite (C29_arm_quotient p n d Hn R Nz). assert (P2 : isPow2 d = true) by (apply andb_prop in P; apply P).
    apply isPow2_spec in P2. rewrite <- (proj2 P2). rewrite u32_sub_l, u32_sub_r, <- u32_sub_r, u32_mul_u32_l, u32_sub_r.
    f_equal. rewrite (Z.rem_eq n d Nz). ring.
  - rewrite (C29_arm_quotient p n d Hn R Nz). unfold armSUB, armMUL.
    rewrite u32_sub_l, <- u32_sub_r, u32_mul_u32_l, u32_mul_u32_r, !u32_sub_r.
    f_equal. rewrite (Z.rem_eq n d Nz). ring.
Qed.
Theorem C29_arm_division_by_shifted_one_partial : forall n s,
  INT_MIN <= n <= INT_MAX -> 0 <= s <= 30 -> armDivShl (u32 n) s = u32 (Z.quot n (2 ^ s)).
Proof. exact arm_pow2_gen. Qed.

(** The hypotheses are met, and each correction value, a zero and a non-zero shift and both signs occur. *)
Example C29_witness :
  map selectMagic [3; 7; -7; 10; -2147483648; 2147483647]
  = [Some (1431655766, 0, 0); Some (-1840700269, 2, 1); Some (1840700269, 2, -1); Some (1717986919, 2, 0);
     Some (2147483647, 30, -1); Some (1073741825, 29, 0)] /\
  holds32 (u64 (-7)) (-7) /\
  s32 (rvSDivConst true true (u64 (-100)) 7) = -14 /\ s32 (rvSRemConst true false (u64 (-100)) 7) = -2 /\
  s32 (armSDivConst true (u32 100) (-7)) = -14 /\ s32 (armSRemConst true (u32 (-100)) 16) = -4.
Proof. vm_compute. repeat split; discriminate. Qed.
