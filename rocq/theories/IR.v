(** Pure integer fragment of the cmmc IR (cmmc/IR/Instruction.hpp, ConstantValue.cpp) as expression
    trees, with the reference semantics of cmmc/ExecutionEngine/Interpreter.cpp.
    Simplifications: an SSA value is the tree of the pure instructions that compute it; anything else
    (arguments, loads, phis, calls) is an opaque [Var].  Pointer identity of values is an oracle (see
    PatternMatch.v).  Values are w-bit patterns; the interpreter keeps int64 storage and truncates on
    every read (ConstantValue.cpp:44-68), which is the same thing for w > 1.  Out-of-range shifts are
    undefined ([None]) as in C++, although the interpreter gives some of them a value. *)
From Coq Require Import ZArith Lia Bool List ZifyBool Setoid Morphisms.
From Verif Require Import Word CmpModel.
Import ListNotations.
Local Open Scope Z_scope.

(** IR/Type.hpp IntegerType: the widths the IR admits *)
Inductive ty := I1 | I8 | I16 | I32 | I64.
Definition bits (t : ty) : Z := match t with I1 => 1 | I8 => 8 | I16 => 16 | I32 => 32 | I64 => 64 end.
Definition md (t : ty) : Z :=
  match t with I1 => 2 | I8 => 256 | I16 => 65536 | I32 => 4294967296 | I64 => 18446744073709551616 end.
Definition hf (t : ty) : Z :=
  match t with I1 => 1 | I8 => 128 | I16 => 32768 | I32 => 2147483648 | I64 => 9223372036854775808 end.
Definition ty_eqb (a b : ty) : bool :=
  match a, b with I1, I1 | I8, I8 | I16, I16 | I32, I32 | I64, I64 => true | _, _ => false end.
Definition is_bool (t : ty) : bool := ty_eqb t I1.

(** ConstantValue.cpp:61-68 getZeroExtended of a stored value *)
Definition wrap (t : ty) (z : Z) : Z := z mod md t.
(** ConstantValue.cpp:48-59 getSignExtended of a w-bit pattern; i1 reads as 0/1 *)
Definition sv (t : ty) (x : Z) : Z :=
  match t with I1 => x | _ => if x <? hf t then x else x - md t end.

Inductive unop := ONeg | OAbs.
Inductive binop := OAdd | OSub | OMul | OSDiv | OUDiv | OSRem | OURem
  | OAnd | OOr | OXor | OShl | OLShr | OAShr | OSMin | OSMax.
Inductive castop := OZExt | OSExt | OUTrunc | OSTrunc.

Inductive expr :=
| Var (t : ty) (n : nat)            (* opaque SSA value *)
| Cst (t : ty) (v : Z)              (* ConstantInteger::get(t, v) *)
| Un (op : unop) (a : expr)
| Bin (op : binop) (a b : expr)
| Cmp (c : icmp) (a b : expr)
| Cast (op : castop) (t : ty) (a : expr)
| Sel (c a b : expr).

(** Instruction constructors: BinaryInst/UnaryInst take the type of the first operand, CompareInst
    is boolean, SelectInst takes the type of its second operand. *)
Fixpoint ty_of (e : expr) : ty :=
  match e with
  | Var t _ | Cst t _ | Cast _ t _ => t
  | Un _ a | Bin _ a _ => ty_of a
  | Cmp _ _ _ => I1
  | Sel _ a _ => ty_of a
  end.

(** How signed overflow is read: [Wr] two's complement wrapping (interpreter, all targets);
    [Ub] undefined, as in the C source language. *)
Inductive mode := Wr | Ub.
Definition ar (m : mode) (t : ty) (z : Z) : option Z :=
  match m with
  | Wr => Some (wrap t z)
  | Ub => if (- hf t <=? z) && (z <? hf t) then Some (wrap t z) else None
  end.

(** Interpreter.cpp:808-886 *)
Definition evalUn (m : mode) (op : unop) (t : ty) (x : Z) : option Z :=
  match op with
  | ONeg => ar m t (- sv t x)
  | OAbs => ar m t (Z.abs (sv t x))
  end.
Definition evalBin (m : mode) (op : binop) (t : ty) (x y : Z) : option Z :=
  match op with
  | OAdd => ar m t (sv t x + sv t y)
  | OSub => ar m t (sv t x - sv t y)
  | OMul => ar m t (sv t x * sv t y)
  | OSDiv => if sv t y =? 0 then None else ar m t (Z.quot (sv t x) (sv t y))
  | OUDiv => if y =? 0 then None else Some (x / y)
  | OSRem => if sv t y =? 0 then None else Some (wrap t (Z.rem (sv t x) (sv t y)))
  | OURem => if y =? 0 then None else Some (x mod y)
  | OAnd => Some (Z.land x y)
  | OOr => Some (Z.lor x y)
  | OXor => Some (Z.lxor x y)
  | OShl => if y <? bits t then Some (wrap t (x * 2 ^ y)) else None
  | OLShr => if y <? bits t then Some (x / 2 ^ y) else None
  | OAShr => if y <? bits t then Some (wrap t (sv t x / 2 ^ y)) else None
  | OSMin => Some (wrap t (Z.min (sv t x) (sv t y)))
  | OSMax => Some (wrap t (Z.max (sv t x) (sv t y)))
  end.
(** Interpreter.cpp:919-922 ICmp: sign-extended operands *)
Definition evalCmp (c : icmp) (t : ty) (x y : Z) : Z :=
  if doCompare c (sv t x) (sv t y) then 1 else 0.
(** Interpreter.cpp:927-938 SExt/SignedTrunc and ZExt/UnsignedTrunc *)
Definition evalCast (op : castop) (t t' : ty) (x : Z) : Z :=
  match op with
  | OZExt | OUTrunc => wrap t' x
  | OSExt | OSTrunc => wrap t' (sv t x)
  end.

(** All operands are evaluated, as in the IR where they are earlier instructions. *)
Fixpoint eval (m : mode) (env : nat -> Z) (e : expr) : option Z :=
  match e with
  | Var t n => Some (wrap t (env n))
  | Cst t v => Some (wrap t v)
  | Un op a => match eval m env a with Some x => evalUn m op (ty_of a) x | None => None end
  | Bin op a b =>
      match eval m env a, eval m env b with
      | Some x, Some y => evalBin m op (ty_of a) x y | _, _ => None end
  | Cmp c a b =>
      match eval m env a, eval m env b with
      | Some x, Some y => Some (evalCmp c (ty_of a) x y) | _, _ => None end
  | Cast op t a => match eval m env a with Some x => Some (evalCast op (ty_of a) t x) | None => None end
  | Sel c a b =>
      match eval m env c, eval m env a, eval m env b with
      | Some k, Some x, Some y => Some (if k =? 0 then y else x) | _, _, _ => None end
  end.

(** Well-typed expressions.  On i1 only logic, eq/ne/unsigned compares, select, zext-from and
    trunc-to are admitted: the front ends promote booleans before doing arithmetic on them. *)
Definition is_logic (op : binop) : bool := match op with OAnd | OOr | OXor => true | _ => false end.
Definition is_scmp (c : icmp) : bool := match c with Islt | Isle | Isgt | Isge => true | _ => false end.
Fixpoint wt (e : expr) : Prop :=
  match e with
  | Var _ _ | Cst _ _ => True
  | Un _ a => wt a /\ ty_of a <> I1
  | Bin op a b => wt a /\ wt b /\ ty_of b = ty_of a /\ (is_logic op = true \/ ty_of a <> I1)
  | Cmp c a b => wt a /\ wt b /\ ty_of b = ty_of a /\ (is_scmp c = false \/ ty_of a <> I1)
  | Cast op t a => wt a /\
      match op with
      | OZExt => bits (ty_of a) < bits t
      | OSExt => bits (ty_of a) < bits t /\ ty_of a <> I1
      | OUTrunc | OSTrunc => bits t <= bits (ty_of a)  (* CastInst::verify, Instruction.cpp:942-960 *)
      end
  | Sel c a b => wt c /\ wt a /\ wt b /\ ty_of c = I1 /\ ty_of b = ty_of a
  end.

(** * Lemmas *)
Lemma ty_eqb_eq a b : ty_eqb a b = true <-> a = b.
Proof. destruct a, b; cbn; split; congruence. Qed.
Lemma md_hf t : md t = 2 * hf t. Proof. destruct t; reflexivity. Qed.
Lemma hf_pos t : 0 < hf t. Proof. destruct t; reflexivity. Qed.
Lemma md_pos t : 0 < md t. Proof. destruct t; reflexivity. Qed.
Lemma md_pow t : md t = 2 ^ bits t. Proof. destruct t; reflexivity. Qed.
Lemma hf_pow t : hf t = 2 ^ (bits t - 1). Proof. destruct t; reflexivity. Qed.
Lemma bits_pos t : 0 < bits t. Proof. destruct t; reflexivity. Qed.
Lemma wrap_range t z : 0 <= wrap t z < md t.
Proof. apply Z.mod_pos_bound, md_pos. Qed.
Lemma wrap_small t z : 0 <= z < md t -> wrap t z = z.
Proof. apply Z.mod_small. Qed.
Lemma wrap_wrap t z : wrap t (wrap t z) = wrap t z.
Proof. apply wrap_small, wrap_range. Qed.
Lemma sv_range t x : 0 <= x < md t -> - hf t <= sv t x < md t.
Proof. destruct t; unfold sv, md, hf; intros; try destruct (_ <? _) eqn:E; lia. Qed.
Lemma sv_range_s t x : t <> I1 -> 0 <= x < md t -> - hf t <= sv t x < hf t.
Proof. destruct t; unfold sv, md, hf; intros; try congruence; try destruct (_ <? _) eqn:E; lia. Qed.
Lemma sv_inj t x y : 0 <= x < md t -> 0 <= y < md t -> sv t x = sv t y -> x = y.
Proof. destruct t; unfold sv, md, hf; intros; auto; destruct (x <? _) eqn:?, (y <? _) eqn:?; lia. Qed.
Lemma sv_eq t x : exists k, sv t x = x + k * md t.
Proof. destruct t; unfold sv; try (exists 0; lia); destruct (x <? _); (exists 0; lia) || (exists (-1); lia). Qed.
Lemma wrap_sv t x : wrap t (sv t x) = wrap t x.
Proof. destruct (sv_eq t x) as [k ->]. unfold wrap. apply Z.mod_add. pose proof (md_pos t); lia. Qed.
Lemma sv_wrap_small t z : t <> I1 -> - hf t <= z < hf t -> sv t (wrap t z) = z.
Proof. destruct t; unfold sv, wrap, md, hf; intros; try congruence; destruct (_ <? _) eqn:E; lia. Qed.
Lemma sv_0 t : sv t 0 = 0. Proof. destruct t; reflexivity. Qed.
Lemma sv_zero t x : 0 <= x < md t -> (sv t x = 0 <-> x = 0).
Proof.
  intros H; split; intros E; [|subst; apply sv_0]. pose proof (md_pos t).
  apply (sv_inj t); [lia|lia|]. rewrite sv_0; exact E.
Qed.

(** congruence modulo 2^w *)
Definition eqm (t : ty) (x y : Z) : Prop := wrap t x = wrap t y.
Global Instance eqm_equiv t : Equivalence (eqm t).
Proof. split; unfold eqm; [intro|intros ? ?|intros ? ? ?]; congruence. Qed.
Global Instance eqm_add t : Proper (eqm t ==> eqm t ==> eqm t) Z.add.
Proof. intros a b H c d K. unfold eqm, wrap in *. rewrite Z.add_mod, H, K, <- Z.add_mod; auto; pose proof (md_pos t); lia. Qed.
Global Instance eqm_mul t : Proper (eqm t ==> eqm t ==> eqm t) Z.mul.
Proof. intros a b H c d K. unfold eqm, wrap in *. rewrite Z.mul_mod, H, K, <- Z.mul_mod; auto; pose proof (md_pos t); lia. Qed.
Global Instance eqm_opp t : Proper (eqm t ==> eqm t) Z.opp.
Proof. intros a b H. replace (- a) with ((-1) * a) by lia. replace (- b) with ((-1) * b) by lia.
  apply eqm_mul; [reflexivity|exact H]. Qed.
Global Instance eqm_sub t : Proper (eqm t ==> eqm t ==> eqm t) Z.sub.
Proof. intros a b H c d K. replace (a - c) with (a + - c) by lia. replace (b - d) with (b + - d) by lia.
  apply eqm_add; [exact H|apply eqm_opp; exact K]. Qed.
Lemma eqm_wrap t z : eqm t (wrap t z) z. Proof. apply wrap_wrap. Qed.
Lemma eqm_sv t z : eqm t (sv t z) z. Proof. apply wrap_sv. Qed.
Global Instance eqm_svp t : Proper (eqm t ==> eqm t) (sv t).
Proof. intros a b H. rewrite !eqm_sv. exact H. Qed.
Global Instance eqm_wrapp t : Proper (eqm t ==> eqm t) (wrap t).
Proof. intros a b H. rewrite !eqm_wrap. exact H. Qed.
Lemma eqm_eq t x y : 0 <= x < md t -> 0 <= y < md t -> eqm t x y -> x = y.
Proof. unfold eqm. intros. rewrite !wrap_small in * by assumption. assumption. Qed.

Lemma land_range t x y : 0 <= x < md t -> 0 <= y < md t -> 0 <= Z.land x y < md t.
Proof. rewrite md_pow. intros. split; [apply Z.land_nonneg; lia|].
  assert (Z.land x y = wrap t (Z.land x y)) as ->.
  { unfold wrap. rewrite md_pow, <- Z.land_ones by (pose proof (bits_pos t); lia).
    rewrite <- Z.land_assoc. f_equal. rewrite Z.land_ones, Z.mod_small by (pose proof (bits_pos t); lia). reflexivity. }
  rewrite <- md_pow. apply wrap_range. Qed.
Lemma wrap_testbit t z i : 0 <= i -> Z.testbit (wrap t z) i = (i <? bits t) && Z.testbit z i.
Proof.
  intros. unfold wrap. rewrite md_pow. destruct (i <? bits t) eqn:E.
  - rewrite Z.mod_pow2_bits_low by lia. reflexivity.
  - rewrite Z.mod_pow2_bits_high by (pose proof (bits_pos t); lia). reflexivity.
Qed.
Lemma range_of_bits t x : 0 <= x -> (forall i, bits t <= i -> Z.testbit x i = false) -> 0 <= x < md t.
Proof.
  intros H K. assert (x = wrap t x) as ->.
  { apply Z.bits_inj'. intros i Hi. rewrite wrap_testbit by lia.
    destruct (i <? bits t) eqn:E; auto. apply K; lia. }
  apply wrap_range.
Qed.
Lemma range_bits t x i : 0 <= x < md t -> bits t <= i -> Z.testbit x i = false.
Proof. intros H K. rewrite <- (wrap_small t x H), wrap_testbit by (pose proof (bits_pos t); lia).
  destruct (i <? bits t) eqn:E; auto. lia. Qed.
Lemma lor_range t x y : 0 <= x < md t -> 0 <= y < md t -> 0 <= Z.lor x y < md t.
Proof. intros. apply range_of_bits. - apply Z.lor_nonneg; lia.
  - intros. rewrite Z.lor_spec, (range_bits t x), (range_bits t y) by auto. reflexivity. Qed.
Lemma lxor_range t x y : 0 <= x < md t -> 0 <= y < md t -> 0 <= Z.lxor x y < md t.
Proof. intros. apply range_of_bits. - apply Z.lxor_nonneg; lia.
  - intros. rewrite Z.lxor_spec, (range_bits t x), (range_bits t y) by auto. reflexivity. Qed.

Lemma ar_range m t z v : ar m t z = Some v -> 0 <= v < md t.
Proof. unfold ar. destruct m; [|destruct (_ && _)]; intros H; inversion H; apply wrap_range. Qed.
Lemma ar_UW t z v : ar Ub t z = Some v -> ar Wr t z = Some v /\ - hf t <= z < hf t.
Proof. unfold ar. destruct (_ && _) eqn:E; intros H; inversion H. split; auto. lia. Qed.
Lemma pow2_pos i : 0 <= i -> 1 <= 2 ^ i.
Proof. intros. pose proof (Z.pow_pos_nonneg 2 i). lia. Qed.
Lemma div_range t x y : 0 <= x < md t -> 1 <= y -> 0 <= x / y < md t.
Proof. intros. split; [apply Z.div_pos; lia|]. apply Z.le_lt_trans with x; [|lia].
  apply Z.div_le_upper_bound; nia. Qed.
Lemma evalBin_range m op t x y v : 0 <= x < md t -> 0 <= y < md t ->
  evalBin m op t x y = Some v -> 0 <= v < md t.
Proof.
  intros Hx Hy. destruct op; cbn; intros H;
    repeat match type of H with (if ?b then _ else _) = _ => destruct b eqn:? end; try discriminate;
    try (eapply ar_range; eassumption); inversion H; subst; clear H;
    auto using wrap_range, land_range, lor_range, lxor_range.
  - apply div_range; lia.
  - pose proof (Z.mod_pos_bound x y). lia.
  - apply div_range; auto. apply pow2_pos; lia.
Qed.
Lemma evalCmp_range c t x y : 0 <= evalCmp c t x y < 2.
Proof. unfold evalCmp. destruct (doCompare _ _ _); lia. Qed.
Lemma evalCast_range op t t' x : 0 <= evalCast op t t' x < md t'.
Proof. destruct op; apply wrap_range. Qed.

Lemma eval_range m env e v : wt e -> eval m env e = Some v -> 0 <= v < md (ty_of e).
Proof.
  revert v. induction e; cbn; intros r H E.
  - inversion E; apply wrap_range.
  - inversion E; apply wrap_range.
  - destruct (eval m env e); try discriminate. destruct op; eapply ar_range; eauto.
  - destruct H as (H1 & H2 & H3 & _).
    destruct (eval m env e1), (eval m env e2); try discriminate.
    eapply evalBin_range; [| |exact E]; [apply IHe1|rewrite <- H3; apply IHe2]; auto.
  - destruct (eval m env e1), (eval m env e2); try discriminate. inversion E. apply evalCmp_range.
  - destruct (eval m env e); try discriminate. inversion E. apply evalCast_range.
  - destruct H as (H1 & H2 & H3 & H4 & H5).
    destruct (eval m env e1), (eval m env e2), (eval m env e3); try discriminate. inversion E.
    destruct (_ =? _); [rewrite <- H5|]; auto.
Qed.

Lemma evalBin_UW op t x y v : evalBin Ub op t x y = Some v -> evalBin Wr op t x y = Some v.
Proof.
  destruct op; cbn -[ar]; auto; try (intros H; apply ar_UW in H; tauto).
  destruct (_ =? 0); auto. intros H; apply ar_UW in H; tauto.
Qed.
(** an evaluation without signed overflow is an evaluation *)
Lemma eval_UW env e v : eval Ub env e = Some v -> eval Wr env e = Some v.
Proof.
  revert v. induction e; cbn -[ar]; intros r H; auto.
  - destruct (eval Ub env e); try discriminate. rewrite (IHe _ eq_refl).
    destruct op; apply ar_UW in H; tauto.
  - destruct (eval Ub env e1), (eval Ub env e2); try discriminate.
    rewrite (IHe1 _ eq_refl), (IHe2 _ eq_refl).
    destruct op; cbn -[ar] in *; auto; try (apply ar_UW in H; tauto).
    destruct (_ =? 0); auto. apply ar_UW in H; tauto.
  - destruct (eval Ub env e1), (eval Ub env e2); try discriminate.
    rewrite (IHe1 _ eq_refl), (IHe2 _ eq_refl). auto.
  - destruct (eval Ub env e); try discriminate. rewrite (IHe _ eq_refl). auto.
  - destruct (eval Ub env e1), (eval Ub env e2), (eval Ub env e3); try discriminate.
    rewrite (IHe1 _ eq_refl), (IHe2 _ eq_refl), (IHe3 _ eq_refl). auto.
Qed.
