(** Concrete inputs on which a rule of ArithmeticReduce.cpp changes the computed value, and the
    oracle used for them: every target operation is native, every value has one use, and two values
    are the same object when their expressions are equal. *)
From Coq Require Import ZArith Lia Bool List.
From Verif Require Import Word CmpModel IR PatternMatch ArithRules ArithTac.
Import ListNotations.
Local Open Scope Z_scope.

Definition binop_eqb (a b : binop) : bool :=
  match a, b with
  | OAdd, OAdd | OSub, OSub | OMul, OMul | OSDiv, OSDiv | OUDiv, OUDiv | OSRem, OSRem | OURem, OURem
  | OAnd, OAnd | OOr, OOr | OXor, OXor | OShl, OShl | OLShr, OLShr | OAShr, OAShr | OSMin, OSMin | OSMax, OSMax => true
  | _, _ => false end.
Definition unop_eqb (a b : unop) : bool := match a, b with ONeg, ONeg | OAbs, OAbs => true | _, _ => false end.
Definition castop_eqb (a b : castop) : bool :=
  match a, b with OZExt, OZExt | OSExt, OSExt | OUTrunc, OUTrunc | OSTrunc, OSTrunc => true | _, _ => false end.
Fixpoint expr_eqb (a b : expr) : bool :=
  match a, b with
  | Var t n, Var s m => ty_eqb t s && Nat.eqb n m
  | Cst t n, Cst s m => ty_eqb t s && Z.eqb n m
  | Un o x, Un p y => unop_eqb o p && expr_eqb x y
  | Bin o x y, Bin p u w => binop_eqb o p && expr_eqb x u && expr_eqb y w
  | Cmp o x y, Cmp p u w => icmp_eqb o p && expr_eqb x u && expr_eqb y w
  | Cast o t x, Cast p s y => castop_eqb o p && ty_eqb t s && expr_eqb x y
  | Sel x y z, Sel u v w => expr_eqb x u && expr_eqb y v && expr_eqb z w
  | _, _ => false end.
Lemma expr_eqb_eq a b : expr_eqb a b = true -> a = b.
Proof.
  revert b. induction a; destruct b; cbn; intros H; try discriminate;
    repeat match goal with
    | H : _ && _ = true |- _ => apply andb_true_iff in H; destruct H
    | H : ty_eqb _ _ = true |- _ => apply ty_eqb_eq in H; subst
    | H : Nat.eqb _ _ = true |- _ => apply PeanoNat.Nat.eqb_eq in H; subst
    | H : Z.eqb _ _ = true |- _ => apply Z.eqb_eq in H; subst
    | H : icmp_eqb _ _ = true |- _ => apply icmp_eqb_eq in H; subst
    | H : binop_eqb ?a ?b = true |- _ => assert (a = b) by (destruct a, b; cbn in H; congruence); subst; clear H
    | H : unop_eqb ?a ?b = true |- _ => assert (a = b) by (destruct a, b; cbn in H; congruence); subst; clear H
    | H : castop_eqb ?a ?b = true |- _ => assert (a = b) by (destruct a, b; cbn in H; congruence); subst; clear H
    end; f_equal; auto.
Qed.
Definition stdO : oracle := mkO expr_eqb (fun _ => true) (fun _ => true) (fun _ => false) (fun _ => false).
Lemma stdO_ok : oracle_ok stdO.
Proof. intros a b. apply expr_eqb_eq. Qed.

(** [e] has value [v] under mode [m], the simplifier replaces it by rule [n], and the machine then
    computes something else (or traps). *)
Definition breaks (m : mode) (n : Z) : Prop :=
  exists O e e' env v, oracle_ok O /\ wt e /\ reduce O e = Some (n, e') /\
    eval m env e = Some v /\ eval Wr env e' <> Some v.
Lemma break m n e e' env v : wt e -> reduce stdO e = Some (n, e') -> eval m env e = Some v ->
  eval Wr env e' <> Some v -> breaks m n.
Proof. intros. exists stdO, e, e', env, v. auto using stdO_ok. Qed.
Ltac brk e env := eapply (break _ _ e _ env); [cbn; intuition (discriminate || lia)|reflexivity|reflexivity|discriminate].

Local Notation x := (Var I32 0).
Local Notation y := (Var I32 1).
Local Notation c z := (Cst I32 z).
Definition at1 (a : Z) : nat -> Z := fun _ => a.
Definition at2 (a b : Z) : nat -> Z := fun n => match n with O => a | _ => b end.
Definition at3 (a b d : Z) : nat -> Z := fun n => match n with O => a | 1%nat => b | _ => d end.

(** wrong for wrapping arithmetic *)
Lemma bad159 : breaks Wr 159. Proof. brk (Bin OSDiv x (Un ONeg x)) (at1 INT_MIN). Qed.
Lemma bad164 : breaks Wr 164. Proof. brk (Bin OSDiv (Un ONeg x) x) (at1 INT_MIN). Qed.
Lemma bad922 : breaks Wr 922. Proof. brk (Bin OSDiv (Bin OMul x (c 4)) (c 2)) (at1 1073741824). Qed.
Lemma bad928 : breaks Wr 928. Proof. brk (Bin OSRem (Bin OMul x (c 6)) (c 3)) (at1 1073741824). Qed.
Lemma bad937 : breaks Wr 937. Proof. brk (Bin OSDiv (Un ONeg x) (c 3)) (at1 INT_MIN). Qed.
Lemma bad942 : breaks Wr 942. Proof. brk (Bin OSRem (Un ONeg x) (c 3)) (at1 INT_MIN). Qed.
Lemma bad1139 : breaks Wr 1139. Proof. brk (Cmp Islt (Bin OMul x x) (c 0)) (at1 65535). Qed.
Lemma bad1214 : breaks Wr 1214.
Proof. brk (Cmp Islt (Bin OSub x (Cast OZExt I32 (Var I1 1))) x) (at2 INT_MIN 1). Qed.
(** wrong even when the source has no signed overflow *)
Lemma bad181 : breaks Ub 181. Proof. brk (Bin OSDiv (Bin OSDiv x (c 65536)) (c 32768)) (at1 INT_MIN). Qed.
Lemma bad443 : breaks Ub 443. Proof. brk (Cmp Islt (Un ONeg x) (c INT_MIN)) (at1 0). Qed.
Lemma bad460 : breaks Ub 460.
Proof. brk (Bin OSRem (Bin OAdd (Bin OSRem (Bin OAdd (Bin OSRem x (c 5)) (c 1)) (c 5)) (c 4)) (c 5)) (at1 (-3)). Qed.
Lemma bad509 : breaks Ub 509. Proof. brk (Bin OAShr (Bin OAShr x (c 20)) (c 20)) (at1 (-1)). Qed.
Lemma bad736 : breaks Ub 736.
Proof. brk (Sel (Cmp Ieq (Var I1 0) (Var I1 1)) (Var I1 2) (Var I1 0)) (at3 0 1 0). Qed.
Lemma bad749 : breaks Ub 749.
Proof. brk (Bin OAnd (Cmp Isge (Var I16 0) (Cst I16 (-32768))) (Cmp Isle (Var I16 0) (Cst I16 32767))) (at1 0). Qed.
Lemma bad1051 : breaks Ub 1051.
Proof. brk (Cmp Ieq (Bin OSDiv x (c 3)) (c 715827882)) (at1 INT_MIN). Qed.
Lemma bad1194 : breaks Ub 1194. Proof. brk (Cmp Isle x (c INT_MAX)) (at1 0). Qed.
Lemma bad1269 : breaks Ub 1269.
Proof. brk (Bin OAnd (Cmp Isge x y) (Cmp Isgt x (Var I32 2))) (at3 5 3 2). Qed.
(** ill typed replacement: the two values tested have different widths *)
Definition illtyped (n : Z) : Prop :=
  exists O e e', oracle_ok O /\ wt e /\ reduce O e = Some (n, e') /\ ~ wt e'.
Ltac ill e := exists stdO, e; eexists; split; [apply stdO_ok|split; [cbn; intuition (discriminate || lia)|split; [reflexivity|cbn; intuition discriminate]]].
Lemma ill1161 : illtyped 1161. Proof. ill (Bin OAnd (Cmp Isgt x (c (-1))) (Cmp Isgt (Var I64 1) (Cst I64 (-1)))). Qed.
Lemma ill1167 : illtyped 1167. Proof. ill (Bin OAnd (Cmp Islt x (c 0)) (Cmp Islt (Var I64 1) (Cst I64 0))). Qed.
Lemma ill1176 : illtyped 1176. Proof. ill (Bin OOr (Cmp Isgt x (c (-1))) (Cmp Isgt (Var I64 1) (Cst I64 (-1)))). Qed.
Lemma ill1182 : illtyped 1182. Proof. ill (Bin OOr (Cmp Islt x (c 0)) (Cmp Islt (Var I64 1) (Cst I64 0))). Qed.
