(** * Modular-arithmetic rewrites (property C11)

    Model of [cmmc/Transforms/Combine/ModuloOpt.cpp] and of
    [cmmcAddRec3SRem] (Runtime/cmmc_sysy_rt.cpp 300-303).  32-bit values are their signed
    readings; an IR [add]/[sub]/[mul] wraps ([s32]), [srem] is [Z.rem]. *)
From Coq Require Import ZArith Lia Bool List ZifyBool Znumtheory.
From Verif Require Import Word IntRangeModel IntRangeSpec IntRangeProofs IntRangeExact IntRangeOps.
Import ListNotations.
Local Open Scope Z_scope.

Definition i32 (x : Z) := INT_MIN <= x <= INT_MAX.
Definition add32 (x y : Z) := s32 (x + y).
Definition sub32 (x y : Z) := s32 (x - y).
Definition shl1 (x : Z) := s32 (2 * x).

(** ** Merging modular sums (:47-115) *)

(** the shapes the pass looks at; anything else is a leaf *)
Inductive ex := Leaf (n : nat) | EAdd (a b : ex) | ERem (a : ex) (c : Z).
Fixpoint ev (env : nat -> Z) (e : ex) : Z :=
  match e with
  | Leaf n => env n
  | EAdd a b => add32 (ev env a) (ev env b)
  | ERem a c => Z.rem (ev env a) c
  end.

Section Merge.
  Variable q : ex -> range.        (** IntegerRangeAnalysisResult::query *)
  Variable m : Z.
  Variable checkOverflow : bool.
  (** operator+; the assertions inside are off *)
  Definition rplus (a b : range) : range := match radd false a b with Some r => r | None => full end.
  Definition okR (r : range) : bool := negb checkOverflow || isNoSignedOverflow r.
  Definition push (e : ex) (st : list ex * range * bool) : list ex * range * bool :=
    let '(co, r, h) := st in (co ++ [e], rplus r (q e), h).
  (** :47-91 collectSum *)
  Fixpoint collect (e : ex) (allow : bool) (st : list ex * range * bool) : list ex * range * bool :=
    match e with
    | EAdd v1 v2 =>
        let t l r := collect v2 r (collect v1 l st) in
        let ok s := okR (snd (fst s)) in
        if ok (t true true) then t true true
        else if ok (t true false) then t true false
        else if ok (t false true) then t false true
        else push e st
    | ERem v1 c =>
        let '(co, r, h) := st in
        if allow && (c =? m) && okR (rplus r (q v1)) then collect v1 true (co, r, true) else push e st
    | Leaf _ => push e st
    end.
End Merge.
Fixpoint addAll (acc : ex) (l : list ex) : ex := match l with [] => acc | x :: l => addAll (EAdd acc x) l end.
(** :92-115 mergeSum on the instruction [val srem m] *)
Definition mergeSum (q : ex -> range) (val : ex) (m : Z) : option ex :=
  if m =? 0 then None
  else
    let ck := negb (4294967296 mod m =? 0) in
    if negb ck || isNoSignedOverflow (q val) then
      let '(co, _, h) := collect q m ck val true ([], ofConst 0, false) in
      match co with
      | x :: (_ :: _) as l => if h then Some (ERem (addAll x l) m) else None
      | _ => None
      end
    else None.

(** no addition in [e] overflows *)
Fixpoint noOvf (env : nat -> Z) (e : ex) : Prop :=
  match e with
  | Leaf _ => True
  | EAdd a b => noOvf env a /\ noOvf env b /\ i32 (ev env a + ev env b)
  | ERem a _ => noOvf env a
  end.
Definition sumZ (env : nat -> Z) (l : list ex) : Z := fold_right (fun e s => ev env e + s) 0 l.

Lemma sumZ_app env a b : sumZ env (a ++ b) = sumZ env a + sumZ env b.
Proof. unfold sumZ. induction a as [|x a IH]; cbn [app fold_right]; lia. Qed.
Lemma rem_cong a m : m <> 0 -> (m | Z.rem a m - a).
Proof. intros N. exists (- (a ÷ m)). pose proof (Z.quot_rem a m N). lia. Qed.
Lemma s32_cong a m : (m | 4294967296) -> (m | s32 a - a).
Proof. intros (k & K). destruct (s32_eqm a) as (j & J). exists (j * k). rewrite J. rewrite K. ring. Qed.

Lemma collect_spec q m ck env : m <> 0 -> forall e allow co r h co' r' h',
  collect q m ck e allow (co, r, h) = (co', r', h') ->
  exists L, co' = co ++ L /\ ((m | 4294967296) \/ noOvf env e -> (m | sumZ env L - ev env e)).
Proof.
  intros M. induction e as [n|a IHa b IHb|a IHa c]; intros allow co r h co' r' h'.
  - cbn [collect push]. intros E. injection E as <- _ _. exists [Leaf n]. split; [reflexivity|].
    intros _. cbn. replace (_ - _) with 0 by lia. apply Z.divide_0_r.
  - assert (T : forall l rr s, collect q m ck b rr (collect q m ck a l (co, r, h)) = s ->
      exists L, fst (fst s) = co ++ L /\ ((m | 4294967296) \/ noOvf env (EAdd a b) -> (m | sumZ env L - ev env (EAdd a b)))).
    { intros l rr s E. destruct (collect q m ck a l (co, r, h)) as ((c1, r1), h1) eqn:E1. destruct s as ((c2, r2), h2).
      destruct (IHa _ _ _ _ _ _ _ E1) as (L1 & -> & D1). destruct (IHb _ _ _ _ _ _ _ E) as (L2 & -> & D2).
      exists (L1 ++ L2). split; [cbn; rewrite app_assoc; reflexivity|]. intros H. rewrite sumZ_app. cbn [ev].
      assert (DA : (m | sumZ env L1 - ev env a)) by (apply D1; destruct H as [H|(H & _)]; auto).
      assert (DB : (m | sumZ env L2 - ev env b)) by (apply D2; destruct H as [H|(_ & H & _)]; auto).
      assert (DS : (m | add32 (ev env a) (ev env b) - (ev env a + ev env b))).
      { unfold add32. destruct H as [H|(_ & _ & H)]; [apply s32_cong; exact H|].
        rewrite s32_small by exact H. rewrite Z.sub_diag. apply Z.divide_0_r. }
      replace (sumZ env L1 + sumZ env L2 - add32 (ev env a) (ev env b))
        with ((sumZ env L1 - ev env a) + (sumZ env L2 - ev env b) - (add32 (ev env a) (ev env b) - (ev env a + ev env b))) by lia.
      apply Z.divide_sub_r; [apply Z.divide_add_r; assumption|exact DS]. }
    cbn [collect]. cbv zeta.
    destruct (okR _ _).
    { intros E. destruct (T _ _ _ E) as (L & HL & D). exists L. cbn [fst] in HL. auto. }
    destruct (okR _ _).
    { intros E. destruct (T _ _ _ E) as (L & HL & D). exists L. cbn [fst] in HL. auto. }
    destruct (okR _ _).
    { intros E. destruct (T _ _ _ E) as (L & HL & D). exists L. cbn [fst] in HL. auto. }
    cbn [push]. intros E. injection E as <- _ _. exists [EAdd a b]. split; [reflexivity|].
    intros _. cbn [sumZ fold_right]. replace (_ - _) with 0 by lia. apply Z.divide_0_r.
  - cbn [collect]. destruct (allow && (c =? m) && okR ck (rplus r (q a))) eqn:C.
    + intros E. destruct (IHa _ _ _ _ _ _ _ E) as (L & -> & D). exists L. split; [reflexivity|].
      intros H. cbn [ev]. assert (c = m) by lia. subst c.
      replace (sumZ env L - Z.rem (ev env a) m) with ((sumZ env L - ev env a) - (Z.rem (ev env a) m - ev env a)) by lia.
      apply Z.divide_sub_r; [apply D; exact H|apply rem_cong; exact M].
    + cbn [push]. intros E. injection E as <- _ _. exists [ERem a c]. split; [reflexivity|].
      intros _. cbn [sumZ fold_right]. replace (_ - _) with 0 by lia. apply Z.divide_0_r.
Qed.

Lemma addAll_ev m env l : forall acc, (m | 4294967296) \/ noOvf env (addAll acc l) ->
  (m | ev env (addAll acc l) - (ev env acc + sumZ env l)) /\ ((m | 4294967296) \/ noOvf env acc).
Proof.
  induction l as [|x l IH]; intros acc H.
  - cbn [addAll sumZ fold_right] in *. split; [|exact H]. replace (_ - _) with 0 by lia. apply Z.divide_0_r.
  - cbn [addAll] in *. destruct (IH _ H) as (D & H1). split.
    + cbn [ev sumZ fold_right] in *. fold (sumZ env l) in *.
      assert (DS : (m | add32 (ev env acc) (ev env x) - (ev env acc + ev env x))).
      { unfold add32. destruct H1 as [H1|(_ & _ & H1)]; [apply s32_cong; exact H1|].
        rewrite s32_small by exact H1. rewrite Z.sub_diag. apply Z.divide_0_r. }
      replace (ev env (addAll (EAdd acc x) l) - (ev env acc + (ev env x + sumZ env l))) with
        ((ev env (addAll (EAdd acc x) l) - (add32 (ev env acc) (ev env x) + sumZ env l)) + (add32 (ev env acc) (ev env x) - (ev env acc + ev env x))) by lia.
      apply Z.divide_add_r; assumption.
    + destruct H1 as [H1|(H1 & _)]; auto.
Qed.

Lemma rem_same_sign a b m : m <> 0 -> (m | a - b) -> (0 <= a /\ 0 <= b) \/ (a <= 0 /\ b <= 0) -> Z.rem a m = Z.rem b m.
Proof.
  intros M D. 
  assert (P : forall a b, 0 <= a -> 0 <= b -> (m | a - b) -> Z.rem a m = Z.rem b m).
  { clear a b D. intros a b A B D. rewrite <- (Z.rem_abs_r a m M), <- (Z.rem_abs_r b m M).
    rewrite !Z.rem_mod_nonneg by lia.
    assert (D' : (Z.abs m | a - b)) by (apply Z.divide_abs_l; exact D).
    destruct D' as (k & K). replace a with (b + k * Z.abs m) by lia. apply Z.mod_add. lia. }
  intros [(A & B)|(A & B)]; [apply P; assumption|].
  assert (E : Z.rem (- a) m = Z.rem (- b) m).
  { apply P; [lia|lia|]. replace (- a - - b) with (- (a - b)) by lia. apply Z.divide_opp_r. exact D. }
  rewrite !Z.rem_opp_l in E by exact M. lia.
Qed.

(** For every range oracle whatsoever: the merged sum has the remainder of the original one if
    the original sum and the merged sum have the same sign and, unless the modulus divides
    2^32, no addition overflows in either. *)
Theorem C11_merged_sum_partial : forall q env val m e,
  mergeSum q val m = Some e ->
  let sum := match e with ERem s _ => s | _ => e end in
  (0 <= ev env val /\ 0 <= ev env sum) \/ (ev env val <= 0 /\ ev env sum <= 0) ->
  (m | 4294967296) \/ (noOvf env val /\ noOvf env sum) ->
  ev env e = Z.rem (ev env val) m.
Proof.
  intros q env val m e H sum SG OV. unfold mergeSum in H.
  destruct (m =? 0) eqn:M0; [discriminate|]. assert (M : m <> 0) by lia. 
  cbv zeta in H. set (ck := negb (4294967296 mod m =? 0)) in *.
  destruct (negb ck || isNoSignedOverflow (q val)); [|discriminate].
  destruct (collect q m ck val true ([], ofConst 0, false)) as ((co, r), h) eqn:C.
  destruct (collect_spec q m ck env M _ _ _ _ _ _ _ _ C) as (L & EL & D). cbn [app] in EL. subst co.
  destruct L as [|x [|y L]]; try discriminate. destruct h; [|discriminate]. injection H as <-. cbn in sum. subst sum.
  change (ev env (ERem (addAll (EAdd x y) L) m)) with (Z.rem (ev env (addAll x (y :: L))) m).
  change (addAll (EAdd x y) L) with (addAll x (y :: L)) in *.
  destruct (addAll_ev m env (y :: L) x) as (DA & _).
  { destruct OV as [OV|(_ & OV)]; auto. }
  specialize (D ltac:(destruct OV as [OV|(OV & _)]; auto)).
  apply rem_same_sign; [exact M| |tauto].
  change (sumZ env (x :: y :: L)) with (ev env x + sumZ env (y :: L)) in D.
  replace (ev env (addAll x (y :: L)) - ev env val) with
    ((ev env (addAll x (y :: L)) - (ev env x + sumZ env (y :: L))) + ((ev env x + sumZ env (y :: L)) - ev env val)) by lia.
  apply Z.divide_add_r; assumption.
Qed.
(** (7 % 4 + 2) % 4, merged to (7 + 2) % 4 *)
Example C11_merged_sum_witness :
  let q := fun _ => full in let val := EAdd (ERem (Leaf 0) 4) (Leaf 1) in
  let env := fun n => match n with O => 7 | _ => 2 end in
  mergeSum q val 4 = Some (ERem (EAdd (Leaf 0) (Leaf 1)) 4) /\
  0 <= ev env val /\ 0 <= ev env (EAdd (Leaf 0) (Leaf 1)) /\ (4 | 4294967296).
Proof.
  split; [vm_compute; reflexivity|]. split; [vm_compute; discriminate|]. split; [vm_compute; discriminate|].
  exists 1073741824. reflexivity.
Qed.
(** Without the sign condition the rewrite is wrong, whatever the analysis knows: the remainder
    takes the sign of the dividend. *)
Theorem C11_merged_sum_sign_refuted : exists val e env,
  mergeSum (fun _ => full) val 4 = Some e /\ (forall n, i32 (env n)) /\ noOvf env val /\
  ev env e <> Z.rem (ev env val) 4.
Proof.
  exists (EAdd (ERem (Leaf 0) 4) (Leaf 1)), (ERem (EAdd (Leaf 0) (Leaf 1)) 4), (fun n => match n with O => 7 | _ => -4 end).
  split; [vm_compute; reflexivity|]. split; [intros [|n]; unfold i32, INT_MIN, INT_MAX; lia|].
  split; [split; [exact I|split; [exact I|split; vm_compute; discriminate]]|]. vm_compute. discriminate.
Qed.
(** The overflow check of the pass does not exclude overflow: with all operands non-negative,
    nothing in the original overflowing and exact ranges, the merged sum wraps around. *)
Theorem C11_merged_sum_overflow_refuted : exists q val e env,
  (forall x, describes (q x) (u32 (ev env x))) /\
  mergeSum q val 3 = Some e /\ (forall n, i32 (env n) /\ 0 <= env n) /\ noOvf env val /\
  ev env e <> Z.rem (ev env val) 3.
Proof.
  set (env := fun n => match n with O => 2147483646 | _ => 5 end : Z).
  exists (fun x => ofConst (ev env x)), (EAdd (ERem (Leaf 0) 3) (Leaf 1)), (ERem (EAdd (Leaf 0) (Leaf 1)) 3), env.
  split; [intros x; apply ofConst_exact; reflexivity|].
  split; [vm_compute; reflexivity|]. split; [intros [|n]; unfold env, i32, INT_MIN, INT_MAX; lia|].
  split; [split; [exact I|split; [exact I|split; vm_compute; discriminate]]|]. vm_compute. discriminate.
Qed.
