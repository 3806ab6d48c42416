(** Properties C05 and C06: rewrites justified by integer ranges (RangeAwareArithReduce.cpp).
    [rangeReduce ck Q O e = Some (n, e')]: the pass replaces the instruction [e] by [e'], using the
    rewrite at source line [n], when the analysis answers the queries with [Q].
    Specification: [describes] (IntRangeSpec.v) says a 32-bit value is in a range, [meansI] (CmpModel.v)
    is the meaning of a compare predicate, [eval] (IR.v) the reference semantics.  [right Q env]: at the
    values [env] of the operands every answer of the analysis is right. *)
From Coq Require Import ZArith Lia Bool List ZifyBool.
From Verif Require Import Word CmpModel IR PatternMatch ArithRules ArithTac ArithRefuted IntRangeModel IntRangeSpec
  IntRangeProofs IntRangeOps IntRangeProps RangeRules RangeRulesProofs.
Import ListNotations.
Local Open Scope Z_scope.

(** every i32 expression with a value has that value in its range; other types carry no information *)
Definition right (Q : query) (env : nat -> Z) : Prop := forall s, wt s ->
  (ty_of s <> I32 -> Q s = full) /\
  (ty_of s = I32 -> forall x, eval Wr env s = Some x -> wf (Q s) /\ describes (Q s) x).

Lemma rfirst_in l ck Q O e n e' : rfirst l ck Q O e = Some (n, e') -> exists r, In (n, r) l /\ r ck Q O e = Some e'.
Proof.
  induction l as [|[k r] l IH]; cbn [rfirst]; intros H; [discriminate|]. destruct (r ck Q O e) eqn:E.
  - injection H as -> ->. exists r. split; [left; reflexivity|assumption].
  - destruct (IH H) as (r' & I & K). exists r'. split; [right; assumption|assumption].
Qed.

(** *** C05 *)
(** the constant chosen is the truth value of the predicate on every pair of described values *)
Theorem C05_fold_decides_the_predicate : forall c l r k x y,
  wf l -> wf r -> describes l x -> describes r y -> foldCmp c l r = Some k ->
  (meansI 32 c x y <-> k = true).
Proof.
  intros c l r k x y Wl Wr Dl Dr H. pose proof (foldCmp_ranges c l r x y k Wl Wr Dl Dr H) as D.
  pose proof Dl as (Rx & _). pose proof Dr as (Ry & _).
  rewrite <- (C25_interpreter_icmp_exact 32 c x y) by (lia || assumption).
  change (sgn 32 x) with (s32 x). change (sgn 32 y) with (s32 y). rewrite D. tauto.
Qed.
(** comparisons of 32-bit values in disjoint ranges are always folded (so the theorem is not vacuous) *)
Theorem C05_separated_ranges_are_folded : forall l r,
  (smax l < smin r -> foldCmp Islt l r = Some true /\ foldCmp Isle l r = Some true /\ foldCmp Ieq l r = Some false
                      /\ foldCmp Ine l r = Some true) /\
  (smax r < smin l -> foldCmp Isgt l r = Some true /\ foldCmp Isge l r = Some true) /\
  (umax l < umin r -> foldCmp Iult l r = Some true /\ foldCmp Iule l r = Some true).
Proof.
  intros l r. unfold foldCmp, intersectWith. split; [|split]; intros.
  - replace (smax l <? smin r) with true by lia. replace (smax l <=? smin r) with true by lia.
    replace (Z.max (smin l) (smin r) <=? Z.min (smax l) (smax r)) with false by lia. auto.
  - replace (smin l >? smax r) with true by lia. replace (smin l >=? smax r) with true by lia. auto.
  - replace (umax l <? umin r) with true by lia. replace (umax l <=? umin r) with true by lia. auto.
Qed.
(** inside the pass: a comparison replaced because of the ranges (directly, line 144, or under a
    select, line 163) keeps its value *)
Theorem C05_pass_keeps_comparisons : forall ck Q O e n e' env v, oracle_ok O -> wt e -> right Q env ->
  rangeReduce ck Q O e = Some (n, e') -> n = 144 \/ n = 163 ->
  eval Wr env e = Some v -> ty_of e' = I1 /\ wt e' /\ eval Wr env e' = Some v.
Proof.
  intros ck Q O e n e' env v OK W QO H N EV.
  assert (T : ty_of e = I1).
  { apply rfirst_in in H. destruct H as (r & I & K). unfold rrules in I. cbn [In] in I.
    repeat (destruct I as [I|I]; [injection I as <- <-; try (exfalso; lia)|]); try contradiction;
      (destruct e; try discriminate; reflexivity). }
  assert (K : keeps env e e').
  { apply rfirst_in in H. destruct H as (r & I & K). unfold rrules in I. cbn [In] in I.
    repeat (destruct I as [I|I]; [injection I as <- <-; try (exfalso; lia)|]); try contradiction.
    - eapply ok144; eauto.
    - eapply ok163; eauto. }
  destruct K as (A & B & C). split; [congruence|]. auto.
Qed.

(** *** C06 *)
(** Everything the pass does preserves the value, except for two rewrites that need a fact the pass
    does not check: srem -> urem (149) needs a constant divisor or a non-negative dividend, and the
    merged product (203) must not overflow. *)
Theorem C06_pass_preserves_value_partial : forall ck Q O e n e' env v, oracle_ok O -> wt e -> right Q env ->
  rangeReduce ck Q O e = Some (n, e') ->
  (n = 149 -> forall a b, e' = Bin OURem a b ->
     isConst b = true \/ (forall x, eval Wr env a = Some x -> 0 <= sv (ty_of a) x)) ->
  (n = 203 -> forall a b m, e' = Bin OSRem (Bin OMul a b) m -> forall x y,
     eval Wr env a = Some x -> eval Wr env b = Some y ->
     - hf (ty_of a) <= sv (ty_of a) x * sv (ty_of a) y < hf (ty_of a)) ->
  eval Wr env e = Some v -> ty_of e' = ty_of e /\ wt e' /\ eval Wr env e' = Some v.
Proof.
  intros ck Q O e n e' env v OK W QO H S1 S2 EV.
  assert (K : keeps env e e'); [|destruct K as (A & B & C); auto].
  apply rfirst_in in H. destruct H as (r & I & K). unfold rrules in I. cbn [In] in I.
  repeat (destruct I as [I|I]; [injection I as <- <-|]); try contradiction.
  - eapply ok54; eauto.
  - eapply ok144; eauto.
  - eapply ok149_partial; eauto.
  - eapply ok163; eauto.
  - eapply ok178; eauto.
  - eapply ok185; eauto.
  - eapply ok195; eauto.
  - eapply ok203_partial; eauto.
  - eapply ok213; eauto.
  - eapply ok231; eauto.
  - eapply ok245; eauto.
Qed.
(** in particular nothing is lost for the other nine rewrites *)
Theorem C06_other_rewrites_preserve_value : forall ck Q O e n e' env v, oracle_ok O -> wt e -> right Q env ->
  rangeReduce ck Q O e = Some (n, e') -> n <> 149 -> n <> 203 ->
  eval Wr env e = Some v -> ty_of e' = ty_of e /\ wt e' /\ eval Wr env e' = Some v.
Proof. intros. eapply C06_pass_preserves_value_partial; eauto; intros; contradiction. Qed.

(** The unrestricted claim fails.  x = -6, y = 3: x % y = 0 is in the reported range 0..4 and the
    divisor in 3..5, yet the unsigned remainder is 1. *)
Definition r04 : range := mkR 4294967288 0 0 4 0 4.
Definition r35 : range := mkR 4294967288 0 3 5 3 5.
Definition Qbad149 : query := fun s => match s with
  | Var I32 1 => r35 | Bin OSRem (Var I32 0) (Var I32 1) => r04 | _ => full end.
Definition env149 (n : nat) : Z := match n with 0%nat => -6 | _ => 3 end.
Theorem C06_srem_to_urem_refuted : exists Q e e' env, right Q env /\ wt e /\
  rangeReduce true Q stdO e = Some (149, e') /\ eval Wr env e = Some 0 /\ eval Wr env e' = Some 1.
Proof.
  exists Qbad149, (Bin OSRem (Var I32 0) (Var I32 1)), (Bin OURem (Var I32 0) (Var I32 1)), env149.
  split; [|split; [cbn; intuition congruence|split; [reflexivity|split; reflexivity]]].
  intros s W. split.
  - intros T. destruct s as [t k| | |op a b| | |]; try reflexivity.
    + destruct t; try reflexivity. destruct k as [|[|]]; try reflexivity. cbn in T. congruence.
    + destruct op; try reflexivity. destruct a as [ta ka| | | | | |]; try reflexivity. destruct ta; try reflexivity. destruct ka; try reflexivity.
      cbn in T. congruence.
  - intros T x E. 
    assert (G : 0 <= x < 4294967296). { pose proof (eval_range Wr env149 s x W E) as R. rewrite T in R. exact R. }
    assert (C : (exists r, Qbad149 s = r /\ (r = r35 /\ s = Var I32 1 \/ r = r04 /\ s = Bin OSRem (Var I32 0) (Var I32 1))) \/ Qbad149 s = full).
    { destruct s as [t k| | |op a b| | |]; try (right; reflexivity).
      - destruct t; try (right; reflexivity). destruct k as [|[|]]; try (right; reflexivity). left. eexists; split; [reflexivity|]. left; split; reflexivity.
      - destruct op; try (right; reflexivity). destruct a as [ta ka| | | | | |]; try (right; reflexivity). destruct ta; try (right; reflexivity). destruct ka; try (right; reflexivity).
        destruct b as [tb kb| | | | | |]; try (right; reflexivity). destruct tb; try (right; reflexivity). destruct kb as [|[|]]; try (right; reflexivity).
        left. eexists; split; [reflexivity|]. right; split; reflexivity. }
    destruct C as [(r & -> & [[-> ->]|[-> ->]])| ->].
    + injection E as <-. split; [unfold wf, r35, INT_MIN, INT_MAX; cbn; lia|]. apply describes_check. reflexivity.
    + injection E as <-. split; [unfold wf, r04, INT_MIN, INT_MAX; cbn; lia|]. apply describes_check. reflexivity.
    + split; [apply wf_full|apply describes_full; exact G].
Qed.

(** x in 65536..65537, y in 40000..40001, m = 7: the product does not fit in 32 bits, but its
    unsigned range does and the check looks at the wrapped result. *)
Definition rA : range := mkR 4294901758 65536 65536 65537 65536 65537.
Definition rB : range := mkR 4294927294 40000 40000 40001 40000 40001.
Definition Qbad203 : query := fun s => match s with Var I32 0 => rA | Var I32 1 => rB | _ => full end.
Definition env203 (n : nat) : Z := match n with 0%nat => 65536 | 1%nat => 40000 | _ => 7 end.
Definition e203 := Bin OSRem (Bin OMul (Bin OSRem (Var I32 0) (Var I32 2)) (Var I32 1)) (Var I32 2).
Theorem C06_product_merge_refuted : exists Q e e' env v w, right Q env /\ wt e /\
  rangeReduce true Q stdO e = Some (203, e') /\ eval Wr env e = Some v /\ eval Wr env e' = Some w /\ v <> w.
Proof.
  exists Qbad203, e203, (Bin OSRem (Bin OMul (Var I32 0) (Var I32 1)) (Var I32 2)), env203. eexists. eexists.
  split; [|split; [cbn; intuition congruence|split; [vm_compute; reflexivity|split; [vm_compute; reflexivity|split; [vm_compute; reflexivity|discriminate]]]]].
  intros s W. split.
  - intros T. destruct s as [t k| | | | | |]; try reflexivity. destruct t; try reflexivity. cbn in T; congruence.
  - intros T x E.
    assert (G : 0 <= x < 4294967296). { pose proof (eval_range Wr env203 s x W E) as R. rewrite T in R. exact R. }
    assert (C : s = Var I32 0 \/ s = Var I32 1 \/ Qbad203 s = full).
    { destruct s as [t k| | | | | |]; try (right; right; reflexivity). destruct t; try (right; right; reflexivity).
      destruct k as [|[|]]; auto. }
    destruct C as [-> |[-> | ->]].
    + injection E as <-. split; [unfold wf, Qbad203, rA, INT_MIN, INT_MAX; cbn; lia|]. apply describes_check. reflexivity.
    + injection E as <-. split; [unfold wf, Qbad203, rB, INT_MIN, INT_MAX; cbn; lia|]. apply describes_check. reflexivity.
    + split; [apply wf_full|apply describes_full; exact G].
Qed.

(** the premises are met: a program on which each family of rewrites fires, with right ranges *)
Definition r3_12 : range := ex_a.
Definition Qex : query := fun s => match s with Var I32 0 => r3_12 | Var I32 1 => r3_12 | _ => full end.
Definition envex (n : nat) : Z := match n with 0%nat => 5 | 1%nat => 12 | _ => -3 end.
Lemma Qex_right : right Qex envex.
Proof.
  intros s W. split.
  - intros T. destruct s as [t k| | | | | |]; try reflexivity. destruct t; try reflexivity. cbn in T; congruence.
  - intros T x E.
    assert (G : 0 <= x < 4294967296). { pose proof (eval_range Wr envex s x W E) as R. rewrite T in R. exact R. }
    assert (C : s = Var I32 0 \/ s = Var I32 1 \/ Qex s = full).
    { destruct s as [t k| | | | | |]; try (right; right; reflexivity). destruct t; try (right; right; reflexivity).
      destruct k as [|[|]]; auto. }
    destruct C as [-> |[-> | ->]].
    + injection E as <-. split; [exact ex_a_wf|]. apply describes_check. reflexivity.
    + injection E as <-. split; [exact ex_a_wf|]. apply describes_check. reflexivity.
    + split; [apply wf_full|apply describes_full; exact G].
Qed.
Example C06_examples :
  rangeReduce true Qex stdO (Cmp Islt (Var I32 0) (Cst I32 7)) = None /\
  rangeReduce true Qex stdO (Un OAbs (Var I32 0)) = Some (178, Var I32 0) /\
  rangeReduce true Qex stdO (Bin OAnd (Cmp Isge (Var I32 2) (Cst I32 0)) (Cmp Isgt (Var I32 0) (Var I32 2)))
    = Some (213, Cmp Iult (Var I32 2) (Var I32 0)) /\
  rangeReduce true Qex stdO (Bin OSRem (Bin OAdd (Bin OSRem (Var I32 2) (Var I32 1)) (Var I32 1)) (Var I32 1))
    = Some (245, Sel (Cmp Islt (Bin OSRem (Var I32 2) (Var I32 1)) (Cst I32 0))
                     (Bin OAdd (Bin OSRem (Var I32 2) (Var I32 1)) (Var I32 1)) (Bin OSRem (Var I32 2) (Var I32 1))) /\
  eval Wr envex (Bin OSRem (Bin OAdd (Bin OSRem (Var I32 2) (Var I32 1)) (Var I32 1)) (Var I32 1)) = Some 9.
Proof. repeat split; vm_compute; reflexivity. Qed.

Print Assumptions C05_fold_decides_the_predicate. Print Assumptions C05_pass_keeps_comparisons.
Print Assumptions C06_pass_preserves_value_partial. Print Assumptions C06_srem_to_urem_refuted.
Print Assumptions C06_product_merge_refuted.
