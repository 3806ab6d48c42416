(** * C09: compile-time constant folding agrees with the interpreter *)
From Coq Require Import ZArith Bool List SpecFloat.
From Verif Require Import Word CmpModel IR ConstFold ConstFoldProofs.
Import ListNotations.
Local Open Scope Z_scope.

(** The floating-point operations are arbitrary functions, the same for the compiler and
    the interpreter; the conversion to a signed integer yields an int64 or is undefined. *)
Section Any.
Variable F : Type.
Variable rnd32 : F -> F.
Variable fop : fbin -> F -> F -> F.
Variable fop1 : fun1 -> F -> F.
Variable ffma : F -> F -> F -> F.
Variable fcmp3 : F -> F -> option comparison.
Variable f2s f2u : F -> option Z.
Variable z2f : Z -> F.
Hypothesis f2s_range : forall x z, f2s x = Some z -> -9223372036854775808 <= z < 9223372036854775808.
Notation eval := (eval F rnd32 fop fop1 ffma fcmp3 f2s f2u z2f).
Notation cp := (cp F rnd32 fop fop1 ffma fcmp3 f2s f2u z2f).

(** C09 (partial: the expression produces no boolean by arithmetic or truncation and no
    float by select; [G] are the types of the variables).  For every expression tree,
    every environment: if the interpreter computes a value, folding does not run into
    undefined behaviour; and whenever the interpreter's run is defined, the folded
    expression gives a value no instruction can tell apart (both integer views equal), or
    reports the same division by zero.  What is missing is refuted below. *)
Theorem C09_folding_agrees_partial : forall (G : nat -> option ty) (env : nat -> value F) (e : expr F),
  plain F G e = true -> consts_ok F e ->
  (forall v, eval env e = Val v -> exists e', cp e = Some e') /\
  (forall e', cp e = Some e' -> eval env e <> Undef -> same_outcome F rnd32 (eval env e) (eval env e')).
Proof.
  intros G env e P C.
  destruct (all_good F rnd32 fop fop1 ffma fcmp3 f2s f2u z2f f2s_range G env e P C) as [H1 H2]. split.
  - intros v Hv. specialize (H1 v Hv). destruct (cp e); [eauto|congruence].
  - intros e' He N. destruct (H2 e' He) as [[W|W] _]; [congruence|exact W].
Qed.

(** Division by zero is never folded away: an expression that the interpreter stops on still stops. *)
Theorem C09_division_by_zero_kept_partial : forall (G : nat -> option ty) env (e e' : expr F),
  plain F G e = true -> consts_ok F e -> cp e = Some e' -> eval env e = Div0 -> eval env e' = Div0.
Proof.
  intros G env e e' P C H D. destruct (C09_folding_agrees_partial G env e P C) as [_ A].
  specialize (A e' H). rewrite D in A. specialize (A ltac:(discriminate)). destruct (eval env e'); cbn in A; tauto.
Qed.

(** A closed expression without select that has a value is replaced by that value. *)
Theorem C09_closed_expressions_become_constants : forall env (e : expr F) v,
  closed F e = true -> plain F (fun _ => None) e = true -> consts_ok F e -> eval env e = Val v ->
  exists k, cp e = Some (EK k) /\ same F rnd32 v k.
Proof.
  intros env e v CL P C E.
  destruct (all_folded F rnd32 fop fop1 ffma fcmp3 f2s f2u z2f f2s_range (fun _ => None) env e CL P C (ex_intro _ v E)) as [k K].
  exists k. split; auto. destruct (C09_folding_agrees_partial _ env e P C) as [_ A].
  specialize (A _ K). rewrite E in A. specialize (A ltac:(discriminate)). exact A.
Qed.
End Any.
Print Assumptions C09_folding_agrees_partial.
Print Assumptions C09_closed_expressions_become_constants.

(** ** Concrete instance: IEEE binary64 of the standard library, with conversions left undefined *)
Definition b64 := spec_float.
Definition d_fop (o : fbin) : b64 -> b64 -> b64 :=
  match o with FAdd => SFadd 53 1024 | FSub => SFsub 53 1024 | FMul => SFmul 53 1024 | FDiv => SFdiv 53 1024 end.
Definition d_fop1 (o : fun1) : b64 -> b64 := match o with FNeg => SFopp | FAbs => SFabs end.
Definition d_ffma (x y z : b64) : b64 := SFadd 53 1024 (SFmul 53 1024 x y) z.
Definition d_none (x : b64) : option Z := None.
Definition d_z2f (z : Z) : b64 := match z with Z0 => S754_zero false | _ => S754_nan end.
Definition deval := eval b64 (fun x => x) d_fop d_fop1 d_ffma SFcompare d_none d_none d_z2f.
Definition dcp := cp b64 (fun x => x) d_fop d_fop1 d_ffma SFcompare d_none d_none d_z2f.
Definition noenv : nat -> value b64 := fun _ => VI I32 0.

(** non-vacuity: (7 *' 0x60000000) sdiv x with a variable, and a closed tree with wrap-around *)
Definition ex1 : expr b64 :=
  EBin OSDiv (EBin OMul (EK (VI I32 7)) (EK (VI I32 1610612736))) (EVar 0).
Example C09_example1 :
  plain b64 (fun _ => Some I32) ex1 = true /\ consts_ok b64 ex1 /\
  dcp ex1 = Some (EBin OSDiv (EK (VI I32 11274289152)) (EVar 0)) /\
  deval (fun _ => VI I32 (-3)) ex1 = Val (VI I32 536870912) /\
  deval (fun _ => VI I32 0) ex1 = Div0.
Proof. vm_compute. repeat split; discriminate. Qed.
Example C09_example2 :
  let e := ECmp Iult (EBin OSRem (EK (VI I32 4294967289)) (EK (VI I32 4))) (EK (VI I32 5)) in
  closed b64 e = true /\ plain b64 (fun _ => None) e = true /\ consts_ok b64 e /\
  deval noenv e = Val (VI I1 0) /\ dcp e = Some (EK (VI I1 0)).
Proof. vm_compute. repeat split; discriminate. Qed.

(** C09 is false of the code when a boolean is made by truncation: the interpreter keeps the
    raw 2 whose signed view is 1, the folder keeps one bit.  [icmp ne (trunc i32 2 to i1), 0]. *)
Theorem C09_truncation_to_boolean_refuted : exists (e e' : expr b64),
  consts_ok b64 e /\ dcp e = Some e' /\
  deval noenv e = Val (VI I1 1) /\ deval noenv e' = Val (VI I1 0).
Proof.
  exists (ECmp Ine (ECast OUTrunc I1 (EK (VI I32 2))) (EK (VI I1 0))), (EK (VI I1 0)).
  split; [cbn; repeat split; auto; discriminate|]. vm_compute. auto.
Qed.
Print Assumptions C09_truncation_to_boolean_refuted.

(** ... and for [select c, +0.0, -0.0], which is folded to +0.0 whatever the condition:
    1.0 / (select false, +0.0, -0.0) is -inf in the interpreter and +inf after folding. *)
Definition one64 : b64 := S754_finite false 4503599627370496 (-52).
Theorem C09_select_of_zeros_refuted : exists (e e' : expr b64),
  consts_ok b64 e /\ dcp e = Some e' /\
  deval noenv e = Val (VF false (S754_infinity true)) /\ deval noenv e' = Val (VF false (S754_infinity false)).
Proof.
  exists (EFBin FDiv (EK (VF false one64))
           (ESel (EK (VI I1 0)) (EK (VF false (S754_zero false))) (EK (VF false (S754_zero true))))).
  exists (EK (VF false (S754_infinity false))).
  split; [cbn; auto|]. split; [vm_compute; reflexivity|]. split; vm_compute; reflexivity.
Qed.
Print Assumptions C09_select_of_zeros_refuted.
