(** C58: UnusedTypeEliminate (cmmc/Transforms/DCE/UnusedTypeEliminate.cpp): the module lists the struct types that it needs. *)
From Coq Require Import Lia Bool List Arith.
Import ListNotations.

(** ** the model *)
(** types are names; [shape] says what a type is made of (cmmc/IR/Type.hpp:111-285): void, integers and floats ([TyScalar]), pointers, functions, structs, arrays,
    and the invalid type ([TyInvalid]).  A struct may contain a pointer to itself, so a name is needed *)
Inductive shape :=
| TyScalar | TyPtr (pointee : nat) | TyFun (args : list nat) (ret : nat) | TyStruct (fields : list nat) | TyArr (scalar : nat) | TyInvalid.
Section Model.
Variable sh : nat -> shape.
(** UnusedTypeEliminate.cpp:38-56: the order in which the lambda calls itself *)
Definition kids (t : nat) : list nat :=
  match sh t with TyScalar | TyInvalid => [] | TyPtr p => [p] | TyFun a r => a ++ [r] | TyStruct fs => fs | TyArr s => [s] end.
Definition isStruct (t : nat) : bool := match sh t with TyStruct _ => true | _ => false end.
Definition inn (x : nat) (l : list nat) : bool := existsb (Nat.eqb x) l.
(** state: visited, types, and whether reportNotImplemented (line 55) has been reached.  [fuel] bounds the depth of the recursion;
    line 35 says that a type is entered once, so the number of types is enough: the theorems hold for every such bound *)
Record tst := TSt { visited : list nat; left : list nat; failed : bool }.
(** lines 34-56 *)
Fixpoint removeType (fuel : nat) (s : tst) (t : nat) : tst :=
  match fuel with
  | 0 => s
  | S n =>
    if inn t (visited s) then s
    else
      let s1 := TSt (t :: visited s) (if isStruct t then filter (fun x => negb (Nat.eqb x t)) (left s) else left s)
                    (failed s || match sh t with TyInvalid => true | _ => false end) in
      fold_left (removeType n) (kids t) s1
  end.
(** what lines 57-75 look at: [early] says that types.empty() is asked after this group of types (lines 67, 71: after a block, after a global) *)
Fixpoint visitAll (fuel : nat) (s : tst) (groups : list (list nat)) : tst * bool :=
  match groups with
  | [] => (s, false)
  | ts :: rest => let s1 := fold_left (removeType fuel) ts s in match left s1 with [] => (s1, true) | _ => visitAll fuel s1 rest end
  end.
(** lines 30-82: the types the module lists afterwards, and whether the pass says that it changed something; [None] is reportNotImplemented *)
Definition unusedTypeEliminate (fuel : nat) (listed : list nat) (groups : list (list nat)) : option (list nat * bool) :=
  match nodup Nat.eq_dec listed with
  | [] => Some (listed, false)
  | ts => let '(s, stop) := visitAll fuel (TSt [] ts false) groups in
    if failed s then None
    else if stop then Some (listed, false)
    else match left s with [] => Some (listed, false) | l => Some (filter (fun t => negb (inn t l)) listed, true) end
  end.
End Model.

(** ** the specification *)
(** a type the module uses: one of the types of its values, or part of one *)
Inductive usedType (sh : nat -> shape) (roots : list nat) : nat -> Prop :=
| used_root t : In t roots -> usedType sh roots t
| used_part t p : usedType sh roots t ->
    match sh t with TyPtr q => p = q | TyFun a r => In p a \/ p = r | TyStruct fs => In p fs | TyArr q => p = q | _ => False end -> usedType sh roots p.

(** ** proofs *)
Lemma inn_In x l : inn x l = true <-> In x l.
Proof. unfold inn. rewrite existsb_exists. split; [intros (y & H & E); apply Nat.eqb_eq in E; now subst|intros H; exists x; split; auto; apply Nat.eqb_refl]. Qed.
Section Proofs.
Variable sh : nat -> shape.
Lemma kids_part t p : In p (kids sh t) <-> match sh t with TyPtr q => p = q | TyFun a r => In p a \/ p = r | TyStruct fs => In p fs | TyArr q => p = q | _ => False end.
Proof.
  unfold kids. destruct (sh t); cbn; try tauto; try (split; [intros [<-|[]]; reflexivity|intros ->; now left]).
  rewrite in_app_iff. cbn. split; [intros [H|[<-|[]]]; auto|intros [H| ->]; auto].
Qed.
(** all the types there are *)
Variable U : list nat.
Hypothesis UN : NoDup U.
Hypothesis UC : forall t p, In t U -> In p (kids sh t) -> In p U.
Definition unseen (v : list nat) : nat := length (filter (fun x => negb (inn x v)) U).
Lemma filter_le {A} (p q : A -> bool) l : (forall x, In x l -> q x = true -> p x = true) -> length (filter q l) <= length (filter p l).
Proof.
  induction l as [|a l IH]; intros H; cbn; auto. assert (K : length (filter q l) <= length (filter p l)) by (apply IH; intros x Hx; apply H; now right).
  destruct (q a) eqn:Eq; [rewrite (H a (or_introl eq_refl) Eq); cbn; lia|destruct (p a); cbn; lia].
Qed.
Lemma unseen_mono v v' : incl v v' -> unseen v' <= unseen v.
Proof.
  intros I. apply filter_le. intros x _ H. apply negb_true_iff, not_true_iff_false in H. apply negb_true_iff, not_true_iff_false. intros K. apply H.
  apply inn_In. apply I. now apply inn_In.
Qed.
Lemma unseen_cons t v : In t U -> ~ In t v -> unseen (t :: v) < unseen v.
Proof.
  intros Ht Nt. unfold unseen. clear UC UN. induction U as [|a l IH]; [destruct Ht|]. cbn [filter].
  assert (K : length (filter (fun x => negb (inn x (t :: v))) l) <= length (filter (fun x => negb (inn x v)) l)).
  { apply filter_le. intros x _ H. cbn in H. destruct (Nat.eqb x t); [discriminate|exact H]. }
  destruct (Nat.eq_dec a t) as [->|D].
  - assert (E1 : inn t v = false) by (apply not_true_iff_false; rewrite inn_In; exact Nt).
    assert (E2 : inn t (t :: v) = true) by (apply inn_In; now left). rewrite E1, E2. cbn [negb length]. lia.
  - destruct Ht as [Ht|Ht]; [contradiction|].
    assert (K' : length (filter (fun x => negb (inn x (t :: v))) l) < length (filter (fun x => negb (inn x v)) l)).
    { apply IH; auto. }
    assert (E : inn a (t :: v) = inn a v) by (cbn; destruct (Nat.eqb_spec a t); [contradiction|reflexivity]). rewrite E.
    destruct (inn a v); cbn [negb length]; lia.
Qed.
(** what one call does to [visited] *)
Definition reaches (ts : list nat) (s s' : tst) : Prop :=
  incl (visited s) (visited s') /\ incl ts (visited s') /\
  (forall y, In y (visited s') -> In y (visited s) \/ (incl (kids sh y) (visited s') /\ usedType sh ts y)).
Lemma used_mono r r' : (forall t, In t r -> usedType sh r' t) -> forall y, usedType sh r y -> usedType sh r' y.
Proof. intros H y K. induction K as [t Ht|t q K IH E]; auto. eapply used_part; eauto. Qed.
Lemma used_kid t y : In y (kids sh t) -> usedType sh [t] y.
Proof. intros H. eapply used_part; [apply used_root; now left|]. now apply kids_part. Qed.
Lemma remove_reaches fuel : forall s t, In t U -> unseen (visited s) <= fuel -> reaches [t] s (removeType sh fuel s t).
Proof.
  induction fuel as [|n IH]; intros s t Ht Hf; cbn [removeType].
  - assert (K : In t (visited s)).
    { destruct (in_dec Nat.eq_dec t (visited s)) as [K|K]; auto. pose proof (unseen_cons t (visited s) Ht K). lia. }
    split; [apply incl_refl|]. split; [intros x [<-|[]]; exact K|]. auto.
  - destruct (inn t (visited s)) eqn:E.
    + apply inn_In in E. split; [apply incl_refl|]. split; [intros x [<-|[]]; exact E|]. auto.
    + assert (Nt : ~ In t (visited s)) by (rewrite <- inn_In; congruence). pose proof (unseen_cons t (visited s) Ht Nt) as Lt.
      set (s1 := TSt _ _ _). assert (V1 : visited s1 = t :: visited s) by reflexivity.
      assert (Gen : forall l s0, incl l (kids sh t) -> incl (visited s1) (visited s0) -> reaches l s0 (fold_left (removeType sh n) l s0)).
      { induction l as [|x l IHl]; intros s0 Hl Hs0; cbn [fold_left].
        - split; [apply incl_refl|]. split; [intros ? []|]. auto.
        - destruct (IH s0 x) as (A1 & A2 & A3).
          + eapply UC; [exact Ht|]. apply Hl. now left.
          + pose proof (unseen_mono _ _ Hs0) as M. rewrite V1 in M. lia.
          + destruct (IHl (removeType sh n s0 x)) as (B1 & B2 & B3); [intros y Hy; apply Hl; now right|eapply incl_tran; eauto|].
            split; [eapply incl_tran; eauto|]. split.
            * intros y [<-|Hy]; [apply B1, A2; now left|now apply B2].
            * intros y Hy. destruct (B3 y Hy) as [Hy'|[C1 C2]]; [|right; split; auto; apply (used_mono l); [intros q Hq; apply used_root; now right|exact C2]].
              destruct (A3 y Hy') as [K|[C1 C2]]; auto. right. split; [eapply incl_tran; eauto|]. apply (used_mono [x]); auto.
              intros q [<-|[]]. apply used_root. now left. }
      destruct (Gen (kids sh t) s1 (incl_refl _) (incl_refl _)) as (B1 & B2 & B3). rewrite V1 in B1, B3. split; [|split].
      * intros y Hy. apply B1. now right.
      * intros y [<-|[]]. apply B1. now left.
      * intros y Hy. destruct (B3 y Hy) as [[<-|K]|[C1 C2]]; auto.
        -- right. split; [exact B2|apply used_root; now left].
        -- right. split; auto. apply (used_mono (kids sh t)); auto. intros q Hq. now apply used_kid.
Qed.
Lemma fold_reaches fuel l : forall s, incl l U -> unseen (visited s) <= fuel -> reaches l s (fold_left (removeType sh fuel) l s).
Proof.
  induction l as [|x l IHl]; intros s Hl Hf; cbn [fold_left].
  - split; [apply incl_refl|]. split; [intros ? []|]. auto.
  - destruct (remove_reaches fuel s x) as (A1 & A2 & A3); [apply Hl; now left|exact Hf|].
    destruct (IHl (removeType sh fuel s x)) as (B1 & B2 & B3); [intros y Hy; apply Hl; now right|pose proof (unseen_mono _ _ A1); lia|].
    split; [eapply incl_tran; eauto|]. split.
    + intros y [<-|Hy]; [apply B1, A2; now left|now apply B2].
    + intros y Hy. destruct (B3 y Hy) as [Hy'|[C1 C2]]; [|right; split; auto; apply (used_mono l); [intros q Hq; apply used_root; now right|exact C2]].
      destruct (A3 y Hy') as [K|[C1 C2]]; auto. right. split; [eapply incl_tran; eauto|]. apply (used_mono [x]); auto.
      intros q [<-|[]]. apply used_root. now left.
Qed.
(** [types] and the failure follow [visited] *)
Variable ts0 : list nat.
Definition inv (s : tst) : Prop :=
  left s = filter (fun x => negb (isStruct sh x && inn x (visited s))) ts0 /\ (failed s = true <-> exists y, In y (visited s) /\ sh y = TyInvalid).
Lemma filter_filter {A} (p q : A -> bool) l : filter p (filter q l) = filter (fun x => q x && p x) l.
Proof. induction l as [|a l IH]; cbn; auto. destruct (q a); cbn; [destruct (p a)|]; now rewrite IH. Qed.
Lemma remove_inv fuel : forall s t, inv s -> inv (removeType sh fuel s t).
Proof.
  induction fuel as [|n IH]; intros s t H; cbn [removeType]; auto. destruct (inn t (visited s)) eqn:E; auto.
  assert (Gen : forall l s0, inv s0 -> inv (fold_left (removeType sh n) l s0)) by (induction l as [|x l IHl]; intros s0 H0; cbn; auto).
  apply Gen. destruct H as [H1 H2]. split; cbn [visited left failed].
  - destruct (isStruct sh t) eqn:Es.
    + rewrite H1, filter_filter. apply filter_ext. intros x. cbn [inn existsb]. change (existsb (Nat.eqb x) (visited s)) with (inn x (visited s)).
      destruct (Nat.eqb_spec x t) as [->|D]; cbn [orb negb]; [rewrite Es, andb_false_r; reflexivity|now rewrite andb_true_r].
    + rewrite H1. apply filter_ext. intros x. cbn [inn existsb]. change (existsb (Nat.eqb x) (visited s)) with (inn x (visited s)).
      destruct (Nat.eqb_spec x t) as [->|D]; cbn [orb]; auto. now rewrite Es.
  - rewrite orb_true_iff, H2. split.
    + intros [(y & Hy & K)|K]; [exists y; split; auto; now right|]. exists t. split; [now left|]. destruct (sh t); auto; discriminate.
    + intros (y & [<-|Hy] & K); [right; now rewrite K|left; eauto].
Qed.
Lemma fold_inv fuel l : forall s, inv s -> inv (fold_left (removeType sh fuel) l s).
Proof. induction l as [|x l IHl]; intros s0 H0; cbn; auto. apply IHl. now apply remove_inv. Qed.
End Proofs.
