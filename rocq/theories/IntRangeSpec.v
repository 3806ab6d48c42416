(** Independent specification for the integer-range domain (properties C01-C04).
    A 32-bit run-time value is its bit pattern [x], 0 <= x < 2^32; [s32 x] is its signed reading. *)
From Coq Require Import ZArith.
From Verif Require Import Word IntRangeModel.
Local Open Scope Z_scope.

(** The value [x] is consistent with everything the range [r] claims. *)
Definition describes (r : range) (x : Z) : Prop :=
  0 <= x < 4294967296 /\
  umin r <= x <= umax r /\
  smin r <= s32 x <= smax r /\
  (forall i, 0 <= i < 32 -> Z.testbit (kz r) i = true -> Z.testbit x i = false) /\
  (forall i, 0 <= i < 32 -> Z.testbit (ko r) i = true -> Z.testbit x i = true).

(** The fields stay within their 32-bit meaning (documented "only support i32"). *)
Definition wf (r : range) : Prop :=
  0 <= kz r < 4294967296 /\ 0 <= ko r < 4294967296 /\
  0 <= umin r /\ umax r < 4294967296 /\ INT_MIN <= smin r /\ smax r <= INT_MAX.

(** 32-bit machine operations on patterns (what the interpreter and the targets compute). *)
Definition m_add x y := u32 (x + y).
Definition m_sub x y := u32 (x - y).
Definition m_mul x y := u32 (x * y).
Definition m_neg x := u32 (- x).
Definition m_and x y := Z.land x y.
Definition m_or x y := Z.lor x y.
Definition m_xor x y := Z.lxor x y.
Definition m_shl x y := u32 (x * 2 ^ y).
Definition m_lshr x y := x / 2 ^ y.
Definition m_ashr x y := u32 (s32 x / 2 ^ y).          (* floor division = arithmetic shift *)
Definition m_sdiv x y := u32 (Z.quot (s32 x) (s32 y)). (* truncating; INT_MIN / -1 wraps *)
Definition m_srem x y := u32 (Z.rem (s32 x) (s32 y)).
Definition m_udiv x y := x / y.
Definition m_urem x y := x mod y.
Definition m_smax x y := u32 (Z.max (s32 x) (s32 y)).
Definition m_smin x y := u32 (Z.min (s32 x) (s32 y)).
Definition m_abs x := u32 (Z.abs (s32 x)).             (* abs(INT_MIN) wraps to INT_MIN *)

(** A transfer function [op] soundly over-approximates [f] on the operands satisfying [pre]:
    it raises no assertion failure (whether or not asserts are compiled in), stays well formed and
    describes the result. *)
Definition sound2 (op : bool -> range -> range -> option range) (f : Z -> Z -> Z) (pre : Z -> Z -> Prop) : Prop :=
  forall ck a b x y, wf a -> wf b -> describes a x -> describes b y -> pre x y ->
  exists r, op ck a b = Some r /\ wf r /\ describes r (f x y).
Definition sound1 (op : bool -> range -> option range) (f : Z -> Z) (pre : Z -> Prop) : Prop :=
  forall ck a x, wf a -> describes a x -> pre x ->
  exists r, op ck a = Some r /\ wf r /\ describes r (f x).
Definition always2 (x y : Z) : Prop := True.
Definition always1 (x : Z) : Prop := True.
