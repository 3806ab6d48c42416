(** RV64 integer instructions on register values: a register holds a [Z] in [0, 2^64).
    This is the instruction-set manual's meaning of the opcodes named in cmmc/Target/RISCV/RISCV.yml:1-400
    (the compiler itself gives no semantics); it is specification, not a model of code in /repo. *)
From Coq Require Import ZArith Lia Bool ZifyBool.
From Verif Require Import Word.
Local Open Scope Z_scope.

Module Rv.
(** a 32-bit result is written sign-extended to 64 bits *)
Definition w (x : Z) : Z := u64 (s32 x).
Definition ADD a b := u64 (a + b).
Definition SUB a b := u64 (a - b).
Definition MUL a b := u64 (a * b).
Definition ADDW a b := w (a + b).
Definition SUBW a b := w (a - b).
Definition MULW a b := w (a * b).
Definition SLLI a k := u64 (a * 2 ^ k).
Definition SRLI a k := a / 2 ^ k.
Definition SRAI a k := u64 (s64 a / 2 ^ k).
Definition SLLIW a k := w (a * 2 ^ k).
Definition SRLIW a k := w (u32 a / 2 ^ k).
Definition SRAIW a k := w (s32 a / 2 ^ k).
Definition SRAW a b := w (s32 a / 2 ^ (b mod 32)).
Definition SLLW a b := w (a * 2 ^ (b mod 32)).
Definition SRLW a b := w (u32 a / 2 ^ (b mod 32)).
(** immediates are sign-extended *)
Definition ADDI a i := u64 (a + i).
Definition ADDIW a i := w (a + i).
Definition ANDI a i := Z.land a (u64 i).
Definition ORI a i := Z.lor a (u64 i).
Definition XORI a i := Z.lxor a (u64 i).
Definition AND a b := Z.land a b.
Definition OR a b := Z.lor a b.
Definition XOR a b := Z.lxor a b.
Definition LUI i := u64 (s32 (i * 4096)).
Definition SLT a b := if s64 a <? s64 b then 1 else 0.
Definition SLTU a b := if a <? b then 1 else 0.
Definition SLTI a i := if s64 a <? i then 1 else 0.
Definition SLTIU a i := if a <? u64 i then 1 else 0.
Definition SEXT_W a := w a.
Definition ZEXT_W a := u32 a.
Definition SH_ADD k a b := u64 (a * 2 ^ k + b).
(** division never traps *)
Definition DIVW a b := w (if s32 b =? 0 then -1 else Z.quot (s32 a) (s32 b)).
Definition REMW a b := w (if s32 b =? 0 then s32 a else Z.rem (s32 a) (s32 b)).
Definition DIVUW a b := w (if u32 b =? 0 then -1 else u32 a / u32 b).
Definition REMUW a b := w (if u32 b =? 0 then a else u32 a mod u32 b).
End Rv.

(** a register holding the 32-bit value n in the form the calling convention and every 64-bit
    compare of the back end expect: sign-extended *)
Definition holds32 (x n : Z) : Prop := x = u64 n /\ INT_MIN <= n <= INT_MAX.

Ltac Zify.zify_post_hook ::= Z.div_mod_to_equations.
Lemma u64_range x : 0 <= u64 x < 18446744073709551616.
Proof. unfold u64. apply Z.mod_pos_bound. lia. Qed.
Lemma s32_u64 x : s32 (u64 x) = s32 x.
Proof. unfold s32, u64. lia. Qed.
Lemma u32_u64 x : u32 (u64 x) = u32 x.
Proof. unfold u32, u64. lia. Qed.
Lemma s64_u64_small x : -9223372036854775808 <= x < 9223372036854775808 -> s64 (u64 x) = x.
Proof. unfold s64, u64. lia. Qed.
Lemma u64_u64 x : u64 (u64 x) = u64 x.
Proof. unfold u64. lia. Qed.
Lemma s32_w x : s32 (Rv.w x) = s32 x.
Proof. unfold Rv.w. rewrite s32_u64. apply s32_small. apply s32_range. Qed.
Lemma u32_w x : u32 (Rv.w x) = u32 x.
Proof. unfold Rv.w. rewrite u32_u64. apply u32_s32. Qed.
Lemma s32_eq_iff x y : s32 x = s32 y <-> u32 x = u32 y.
Proof. unfold s32, u32. lia. Qed.
Lemma w_eq x y : u32 x = u32 y -> Rv.w x = Rv.w y.
Proof. intros H. unfold Rv.w. f_equal. apply s32_eq_iff, H. Qed.
Lemma w_holds x : holds32 (Rv.w x) (s32 x).
Proof. split; [reflexivity|apply s32_range]. Qed.
Lemma w_holds' x n : INT_MIN <= n <= INT_MAX -> u32 x = u32 n -> holds32 (Rv.w x) n.
Proof.
  intros R H. split; [|exact R]. unfold Rv.w. f_equal. rewrite <- (s32_small n R). apply s32_eq_iff, H.
Qed.
Lemma holds32_s32 x n : holds32 x n -> s32 x = n.
Proof. intros [-> R]. rewrite s32_u64. apply s32_small, R. Qed.
Lemma holds32_s64 x n : holds32 x n -> s64 x = n.
Proof. intros [-> R]. apply s64_u64_small. unfold INT_MIN, INT_MAX in R. lia. Qed.
Lemma holds32_u32 x n : holds32 x n -> u32 x = u32 n.
Proof. intros [-> R]. apply u32_u64. Qed.
