(** C58: after UnusedTypeEliminate the module lists exactly those of its types that are used. *)
From Coq Require Import Lia Bool List Arith.
From Verif Require Import UnusedTypes.
Import ListNotations.

(** ** proofs *)
Section Props.
Variable sh : nat -> shape.
Variable U : list nat.
Hypothesis UC : forall t p, In t U -> In p (kids sh t) -> In p U.
Lemma unseen_all v : unseen U v <= length U.
Proof. unfold unseen. clear UC. induction U as [|a l IH]; cbn; auto. destruct (negb (inn a v)); cbn; lia. Qed.
Lemma visitAll_spec fuel ts0 groups : length U <= fuel -> (forall ts, In ts groups -> incl ts U) -> forall s s' stop, inv sh ts0 s -> visitAll sh fuel s groups = (s', stop) ->
  inv sh ts0 s' /\ incl (visited s) (visited s') /\
  (forall y, In y (visited s') -> In y (visited s) \/ (incl (kids sh y) (visited s') /\ usedType sh (concat groups) y)) /\
  (if stop then left s' = [] else incl (concat groups) (visited s')).
Proof.
  intros Hf. induction groups as [|ts groups IH]; intros Hg s s' stop Hi H; cbn [visitAll] in H.
  - injection H as <- <-. split; auto. split; [apply incl_refl|]. split; auto. intros x [].
  - destruct (fold_reaches sh U UC fuel ts s) as (A1 & A2 & A3); [apply Hg; now left|pose proof (unseen_all (visited s)); lia|].
    pose proof (fold_inv sh ts0 fuel ts s Hi) as Hi1. set (s1 := fold_left (removeType sh fuel) ts s) in *.
    assert (A4 : forall y, usedType sh ts y -> usedType sh (concat (ts :: groups)) y).
    { intros y. apply used_mono. intros q Hq. apply used_root. cbn. apply in_or_app. auto. }
    destruct (left s1) eqn:El.
    + injection H as <- <-. split; auto. split; auto. split; auto. intros y Hy. destruct (A3 y Hy) as [K|[K1 K2]]; auto.
    + destruct (IH (fun t Ht => Hg t (or_intror Ht)) s1 s' stop Hi1 H) as (B0 & B1 & B2 & B3). split; auto. split; [eapply incl_tran; eauto|]. split.
      * intros y Hy. destruct (B2 y Hy) as [K|[K1 K2]].
        -- destruct (A3 y K) as [K'|[K1 K2]]; auto. right. split; auto. eapply incl_tran; eauto.
        -- right. split; auto. apply (used_mono sh (concat groups)); auto. intros q Hq. apply used_root. cbn. apply in_or_app. auto.
      * destruct stop; auto. cbn. apply incl_app; auto. eapply incl_tran; eauto.
Qed.
Lemma inv_start ts : inv sh ts (TSt [] ts false).
Proof.
  split; cbn.
  - assert (E : forall l, filter (fun x => negb (isStruct sh x && false)) l = l) by (induction l as [|a l IH]; cbn; auto; rewrite andb_false_r; cbn; now rewrite IH).
    now rewrite E.
  - split; [discriminate|]. intros (y & [] & _).
Qed.
End Props.

(** ** the properties.  [U]: the types there are; [groups]: the types of the values of the module; [listed]: the module's list of struct types *)
Section C58.
Variable sh : nat -> shape.
Variables (U listed : list nat) (groups : list (list nat)) (fuel : nat).
Hypothesis UC : forall t p, In t U -> In p (kids sh t) -> In p U.
Hypothesis UG : forall ts, In ts groups -> incl ts U.
Hypothesis UF : length U <= fuel.
Hypothesis LS0 : forall t, In t listed -> exists fields, sh t = TyStruct fields.
Lemma LS : forall t, In t listed -> isStruct sh t = true.
Proof. intros t H. destruct (LS0 t H) as (fs & E). unfold isStruct. now rewrite E. Qed.

Lemma C58_aux : match unusedTypeEliminate sh fuel listed groups with
  | Some (l, changed) => (exists p, l = filter p listed) /\ (forall t, In t l <-> In t listed /\ usedType sh (concat groups) t) /\
      (changed = true <-> exists t, In t listed /\ ~ usedType sh (concat groups) t)
  | None => exists t, usedType sh (concat groups) t /\ sh t = TyInvalid
  end.
Proof.
  unfold unusedTypeEliminate.
  assert (Id : forall l : list nat, exists p, l = filter p l).
  { intros l. exists (fun _ => true). induction l as [|a l IH]; cbn; congruence. }
  destruct (nodup Nat.eq_dec listed) as [|t0 ts1] eqn:En.
  - assert (Nl : forall t, ~ In t listed) by (intros t H; apply (nodup_In Nat.eq_dec) in H; rewrite En in H; destruct H).
    split; auto. split; [intros t; split; [intros H; now destruct (Nl t)|tauto]|]. split; [discriminate|intros (t & H & _); now destruct (Nl t)].
  - rewrite <- En. set (ts := nodup Nat.eq_dec listed) in *. destruct (visitAll sh fuel (TSt [] ts false) groups) as [s stop] eqn:Ev.
    destruct (visitAll_spec sh U UC fuel ts groups UF UG _ _ _ (inv_start sh ts) Ev) as ((L & F) & _ & V & C). cbn [visited] in V.
    assert (Vu : forall y, In y (visited s) -> usedType sh (concat groups) y) by (intros y Hy; destruct (V y Hy) as [[]|[_ K]]; exact K).
    destruct (failed s) eqn:Ef.
    { destruct (proj1 F eq_refl) as (y & Hy & E). eauto. }
    assert (Lt : forall t, In t (left s) <-> In t listed /\ ~ In t (visited s)).
    { intros t. rewrite L, filter_In. unfold ts. rewrite nodup_In. split; intros [H1 H2]; split; auto; rewrite (LS t H1) in *; cbn in *.
      - intros K. apply inn_In in K. rewrite K in H2. discriminate.
      - apply negb_true_iff, not_true_iff_false. now rewrite inn_In. }
    assert (All : left s = [] -> (exists p, listed = filter p listed) /\ (forall t, In t listed <-> In t listed /\ usedType sh (concat groups) t) /\
      (false = true <-> exists t, In t listed /\ ~ usedType sh (concat groups) t)).
    { intros E. assert (K : forall t, In t listed -> usedType sh (concat groups) t).
      { intros t Ht. apply Vu. destruct (in_dec Nat.eq_dec t (visited s)) as [K|K]; auto. assert (Z : In t (left s)) by (apply Lt; auto). rewrite E in Z. destruct Z. }
      split; auto. split; [intros t; split; [auto|tauto]|]. split; [discriminate|]. intros (t & H1 & H2). now destruct (H2 (K t H1)). }
    destruct stop; [now apply All|]. destruct (left s) as [|x0 l0] eqn:El; [now apply All|]. rewrite <- El in *.
    assert (Uv : forall t, usedType sh (concat groups) t -> In t (visited s)).
    { induction 1 as [t Ht|t q K IH E]; [now apply C|]. destruct (V t IH) as [[]|[Kd _]]. apply Kd. now apply kids_part. }
    split; [eexists; reflexivity|]. split.
    + intros t. rewrite filter_In, negb_true_iff, <- not_true_iff_false, inn_In, Lt. split.
      * intros [H1 H2]. split; auto. apply Vu. destruct (in_dec Nat.eq_dec t (visited s)) as [K|K]; auto. now destruct H2.
      * intros [H1 H2]. split; auto. intros [_ K]. apply K. now apply Uv.
    + split; auto. intros _. exists x0. assert (Z : In x0 (left s)) by (rewrite El; now left). apply Lt in Z as [Z1 Z2]. split; auto.
Qed.
(** the list keeps its order, loses the types that nothing uses and no other; the pass says whether it lost some *)
Theorem C58_keeps_exactly_the_used : forall l changed, unusedTypeEliminate sh fuel listed groups = Some (l, changed) ->
  (exists p, l = filter p listed) /\ (forall t, In t l <-> In t listed /\ usedType sh (concat groups) t) /\
  (changed = true <-> exists t, In t listed /\ ~ usedType sh (concat groups) t).
Proof. intros l changed H. pose proof C58_aux as K. rewrite H in K. exact K. Qed.
(** no listed type that a kept one is made of is lost *)
Theorem C58_nothing_dangles : forall l changed, unusedTypeEliminate sh fuel listed groups = Some (l, changed) ->
  forall t p, In t l -> usedType sh [t] p -> In p listed -> In p l.
Proof.
  intros l changed H t p Ht Hp Hl. destruct (C58_keeps_exactly_the_used l changed H) as (_ & K & _). apply K in Ht as [_ Ht]. apply K. split; auto.
  revert p Hp Hl. assert (Gen : forall p, usedType sh [t] p -> usedType sh (concat groups) p).
  { induction 1 as [q [<-|[]]|q r _ IH E]; auto. eapply used_part; eauto. }
  auto.
Qed.
(** the pass ends, and reports something unsupported only if a value has the invalid type or a type made of it *)
Theorem C58_no_failure : (forall t, usedType sh (concat groups) t -> sh t <> TyInvalid) -> exists r, unusedTypeEliminate sh fuel listed groups = Some r.
Proof.
  intros H. pose proof C58_aux as K. destruct (unusedTypeEliminate sh fuel listed groups) as [r|]; eauto. destruct K as (t & K1 & K2). now destruct (H t K1).
Qed.
End C58.

(** ** examples *)
(** 0 int, 1 struct node { int; node*; list }, 2 node*, 3 struct list { node*[4] }, 4 node*[4], 5 struct unused { list }, 6 int(list-pointer), 7 list*, 8 struct never { never-pointer }, 9 never* *)
Definition uSh (t : nat) : shape :=
  match t with
  | 1 => TyStruct [0; 2; 3] | 2 => TyPtr 1 | 3 => TyStruct [4] | 4 => TyArr 2 | 5 => TyStruct [3] | 6 => TyFun [7] 0 | 7 => TyPtr 3
  | 8 => TyStruct [9] | 9 => TyPtr 8 | 10 => TyInvalid | _ => TyScalar
  end.
Example u_removes : unusedTypeEliminate uSh 10 [5; 1; 8; 3] [[0]; [0; 6; 7]; [0]] = Some ([1; 3], true).
Proof. vm_compute. reflexivity. Qed.
Example u_keeps : unusedTypeEliminate uSh 10 [1; 3] [[6]; [10]] = Some ([1; 3], false).
Proof. vm_compute. reflexivity. Qed.
Example u_fails : unusedTypeEliminate uSh 11 [1; 5; 3] [[6]; [10]] = None.
Proof. vm_compute. reflexivity. Qed.
Lemma u_closed : forall t p, In t (seq 0 10) -> In p (kids uSh t) -> In p (seq 0 10).
Proof.
  intros t p Ht. apply in_seq in Ht. do 10 (destruct t as [|t]; [cbn; intuition (subst; auto 20)|]). lia.
Qed.
Example u_used : usedType uSh [0; 0; 6; 7; 0] 1 /\ ~ usedType uSh [0; 0; 6; 7; 0] 8.
Proof.
  assert (K : forall t, In t [1; 3] <-> In t [5; 1; 8; 3] /\ usedType uSh (concat [[0]; [0; 6; 7]; [0]]) t).
  { eapply (C58_keeps_exactly_the_used uSh (seq 0 10) [5; 1; 8; 3] [[0]; [0; 6; 7]; [0]] 10 u_closed); [| |  |exact u_removes].
    - intros ts H x Hx. apply in_seq. cbn in H. intuition (subst; cbn in Hx; intuition lia).
    - cbn. lia.
    - intros t H. cbn in H. intuition (subst; cbn; eauto). }
  split; [apply (K 1); cbn; auto|]. intros H. assert (Z : In 8 [1; 3]) by (apply K; split; [cbn; auto|exact H]). cbn in Z. intuition discriminate.
Qed.
