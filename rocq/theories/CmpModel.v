(** Model of the compare predicates of cmmc/IR/Instruction.hpp (CompareOp, getReversedOp,
    getInvertedOp) and their integer meaning in the interpreter.  Property C25. *)
From Coq Require Import ZArith Lia Bool.
From Verif Require Import Word.
Local Open Scope Z_scope.

(** Instruction.hpp: enum class CompareOp, integer part *)
Inductive icmp := Ieq | Ine | Islt | Isle | Isgt | Isge | Iult | Iule | Iugt | Iuge.
(** Instruction.hpp: enum class CompareOp, floating point part (O = ordered, U = unordered) *)
Inductive fcmp := FOeq | FOne | FOlt | FOle | FOgt | FOge | FUeq | FUne | FUlt | FUle | FUgt | FUge.

(** Instruction.hpp:454-475 getReversedOp on integer predicates *)
Definition revI (c : icmp) : icmp :=
  match c with
  | Ieq => Ieq | Ine => Ine | Islt => Isgt | Isle => Isge | Isgt => Islt | Isge => Isle
  | Iult => Iugt | Iule => Iuge | Iugt => Iult | Iuge => Iule
  end.
(** Instruction.hpp:476-503 getReversedOp on floating point predicates *)
Definition revF (c : fcmp) : fcmp :=
  match c with
  | FOeq => FOeq | FOne => FOne | FOlt => FOgt | FOle => FOge | FOgt => FOlt | FOge => FOle
  | FUeq => FUeq | FUne => FUne | FUlt => FUgt | FUle => FUge | FUgt => FUlt | FUge => FUle
  end.
(** Instruction.hpp:505-526 getInvertedOp on integer predicates *)
Definition invI (c : icmp) : icmp :=
  match c with
  | Ieq => Ine | Ine => Ieq | Islt => Isge | Isle => Isgt | Isgt => Isle | Isge => Islt
  | Iult => Iuge | Iule => Iugt | Iugt => Iule | Iuge => Iult
  end.
(** Instruction.hpp:527-556 getInvertedOp on floating point predicates *)
Definition invF (c : fcmp) : fcmp :=
  match c with
  | FOeq => FUne | FOne => FUeq | FOlt => FUge | FOle => FUgt | FOgt => FUle | FOge => FUlt
  | FUeq => FOne | FUne => FOeq | FUlt => FOge | FUle => FOgt | FUgt => FOle | FUge => FOlt
  end.

(** Interpreter.cpp:655-678 doCompare: operands arrive sign extended to int64; the unsigned
    predicates cast them to uint64. *)
Definition doCompare (c : icmp) (l r : Z) : bool :=
  match c with
  | Ieq => l =? r | Ine => negb (l =? r)
  | Islt => l <? r | Isle => l <=? r | Isgt => l >? r | Isge => l >=? r
  | Iult => u64 l <? u64 r | Iule => u64 l <=? u64 r
  | Iugt => u64 l >? u64 r | Iuge => u64 l >=? u64 r
  end.

(** Interpreter.cpp:690-716 doCompareFP.  A C++ double comparison is abstracted by the result
    [r : option comparison] of comparing the two operands; [None] means unordered (a NaN operand).
    C++ [<], [<=], [==], ... are false on NaN and [!=] is true.  Predicates the interpreter does not
    implement (it reports "unreachable") are [None]: ONE and UEQ. *)
Definition cpp_eq (r : option comparison) := match r with Some Eq => true | _ => false end.
Definition cpp_lt (r : option comparison) := match r with Some Lt => true | _ => false end.
Definition cpp_gt (r : option comparison) := match r with Some Gt => true | _ => false end.
Definition cpp_le (r : option comparison) := cpp_lt r || cpp_eq r.
Definition cpp_ge (r : option comparison) := cpp_gt r || cpp_eq r.
Definition doCompareFP (c : fcmp) (r : option comparison) : option bool :=
  match c with
  | FOeq => Some (cpp_eq r) | FOlt => Some (cpp_lt r) | FOle => Some (cpp_le r)
  | FOgt => Some (cpp_gt r) | FOge => Some (cpp_ge r)
  | FUne => Some (negb (cpp_eq r))
  | FUlt => Some (negb (cpp_ge r)) | FUle => Some (negb (cpp_gt r))
  | FUgt => Some (negb (cpp_le r)) | FUge => Some (negb (cpp_lt r))
  | FOne | FUeq => None
  end.

(** * Specification: what the predicates mean *)
(** integer predicates on w-bit patterns: equality, the order of the signed readings, the order of
    the unsigned readings *)
Definition meansI (w : Z) (c : icmp) (x y : Z) : Prop :=
  match c with
  | Ieq => x = y | Ine => x <> y
  | Islt => sgn w x < sgn w y | Isle => sgn w x <= sgn w y
  | Isgt => sgn w x > sgn w y | Isge => sgn w x >= sgn w y
  | Iult => x < y | Iule => x <= y | Iugt => x > y | Iuge => x >= y
  end.
(** "ordered" predicates are false on NaN, "unordered" ones are true on NaN; otherwise the usual
    order relation. *)
Definition meansF (c : fcmp) (r : option comparison) : Prop :=
  match c, r with
  | (FOeq | FOne | FOlt | FOle | FOgt | FOge), None => False
  | (FUeq | FUne | FUlt | FUle | FUgt | FUge), None => True
  | (FOeq | FUeq), Some o => o = Eq
  | (FOne | FUne), Some o => o <> Eq
  | (FOlt | FUlt), Some o => o = Lt
  | (FOle | FUle), Some o => o <> Gt
  | (FOgt | FUgt), Some o => o = Gt
  | (FOge | FUge), Some o => o <> Lt
  end.
(** comparing the operands in the other order *)
Definition swapF (r : option comparison) : option comparison :=
  match r with Some Lt => Some Gt | Some Gt => Some Lt | x => x end.

(** * Theorems *)
(** the interpreter computes the specified predicate (w-bit patterns, w <= 64) *)
Theorem C25_interpreter_icmp_exact : forall w c x y, 1 <= w <= 64 ->
  0 <= x < 2 ^ w -> 0 <= y < 2 ^ w ->
  (doCompare c (sgn w x) (sgn w y) = true <-> meansI w c x y).
Proof.
  intros w c x y Hw Hx Hy.
  assert (E : 2 ^ w = 2 * 2 ^ (w - 1)) by (rewrite <- Z.pow_succ_r by lia; f_equal; lia).
  assert (P : 0 < 2 ^ (w - 1)) by (apply Z.pow_pos_nonneg; lia).
  assert (L : 2 ^ w <= 2 ^ 64) by (apply Z.pow_le_mono_r; lia).
  change (2 ^ 64) with 18446744073709551616 in L.
  assert (S : forall z, 0 <= z < 2 ^ w -> sgn w z = if z <? 2 ^ (w - 1) then z else z - 2 ^ w).
  { intros z Hz. unfold sgn. destruct (z <? 2 ^ (w - 1)) eqn:D.
    - rewrite Z.mod_small; lia.
    - replace (z + 2 ^ (w - 1)) with (z - 2 ^ (w-1) + 1 * 2 ^ w) by lia.
      rewrite Z.mod_add by lia. rewrite Z.mod_small by lia. lia. }
  unfold doCompare, meansI. rewrite (S x Hx), (S y Hy).
  set (M := 2 ^ w) in *. set (H := 2 ^ (w - 1)) in *. clearbody M H.
  assert (U : forall z, 0 <= z < M -> u64 (if z <? H then z else z - M)
             = if z <? H then z else z - M + 18446744073709551616).
  { intros z Hz. unfold u64. destruct (z <? H) eqn:D; lia. }
  destruct c; rewrite ?(U x Hx), ?(U y Hy);
    destruct (x <? H) eqn:Dx; destruct (y <? H) eqn:Dy; lia.
Qed.

Theorem C25_interpreter_fcmp_exact : forall c r b, doCompareFP c r = Some b -> (b = true <-> meansF c r).
Proof. intros c [[]|] b; destruct c; cbn; intros H; inversion H; split; intros; subst; cbn; congruence || auto. Qed.

(** the inverted predicate is the negation *)
Theorem C25_inverted_int : forall w c x y, meansI w (invI c) x y <-> ~ meansI w c x y.
Proof. intros w [] x y; cbn; lia. Qed.
Theorem C25_inverted_float : forall c r, meansF (invF c) r <-> ~ meansF c r.
Proof. intros [] [[]|]; cbn; split; intros; try tauto; try discriminate; try congruence;
  try (exfalso; apply H; congruence); try (intro; congruence). Qed.
(** the reversed predicate holds of the swapped operands iff the predicate holds *)
Theorem C25_reversed_int : forall w c x y, meansI w (revI c) y x <-> meansI w c x y.
Proof. intros w [] x y; cbn; lia. Qed.
Theorem C25_reversed_float : forall c r, meansF (revF c) (swapF r) <-> meansF c r.
Proof. intros [] [[]|]; cbn; split; intros; congruence. Qed.
(** both are involutions *)
Theorem C25_involutive : (forall c, invI (invI c) = c) /\ (forall c, revI (revI c) = c)
  /\ (forall c, invF (invF c) = c) /\ (forall c, revF (revF c) = c).
Proof. repeat split; intros []; reflexivity. Qed.
(** hence the computed bits are complementary *)
Theorem C25_inverted_computed : forall c l r, doCompare (invI c) l r = negb (doCompare c l r).
Proof. intros [] l r; cbn; rewrite ?negb_involutive; try reflexivity; lia. Qed.

(** the statement is not vacuous: -1 <u 5 fails while -1 <s 5 holds, on 8-bit patterns *)
Example ex_C25 : meansI 8 Islt 255 5 /\ ~ meansI 8 Iult 255 5 /\ meansF FUlt None /\ ~ meansF FOlt None.
Proof. cbn. unfold sgn. cbn. lia. Qed.
Print Assumptions C25_interpreter_icmp_exact.
Print Assumptions C25_inverted_float.
