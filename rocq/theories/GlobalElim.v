(** C59: GlobalEliminate (cmmc/Transforms/DCE/GlobalEliminate.cpp): internal functions and variables that nothing uses are dropped. *)
From Coq Require Import Lia Bool List Arith.
From Verif Require Import UnusedTypes.
Import ListNotations.

(** ** the model *)
Section Model.
(** the functions and variables of a module: which are functions, which are internal (getLinkage() == Linkage::Internal), and the globals among
    the operands of the instructions of a function *)
Variables (isFun internal : nat -> bool) (refs : nat -> list nat) (globals : list nat).
Record gst := GSt { unused : list nat; colored : list nat; modified : bool; stop : bool }.
(** GlobalEliminate.cpp:65-77, with color of lines 50-59: one function; [stop] is the return of line 75.  C++ asks for unused.empty() once the whole
    function is done, as here *)
Definition visitGlobal (s : gst) (g : nat) : gst :=
  if stop s then s
  else if isFun g && negb (inn g (colored s) || inn g (unused s)) then
    let u := filter (fun x => negb (inn x (refs g))) (unused s) in
    GSt u (g :: colored s) true (match u with [] => true | _ => false end)
  else s.
(** lines 63-81; [fuel] bounds the rounds: every one but the last colors a function *)
Fixpoint rounds (fuel : nat) (u c : list nat) : gst :=
  match fuel with
  | 0 => GSt u c true false
  | S n => let s := fold_left visitGlobal globals (GSt u c false false) in
    if stop s then s else if modified s then rounds n (unused s) (colored s) else s
  end.
(** lines 41-91: the globals that are left, and whether the pass says that it changed something *)
Definition globalEliminate : list nat * bool :=
  match filter internal globals with
  | [] => (globals, false)
  | u => let s := rounds (S (length globals)) u [] in
    if stop s then (globals, false)
    else (filter (fun g => negb (inn g (unused s))) globals, match unused s with [] => false | _ => true end)
  end.
End Model.

(** ** the specification *)
(** what the module needs: what others may see, and what the functions it needs refer to *)
Inductive needed (isFun internal : nat -> bool) (refs : nat -> list nat) (globals : list nat) : nat -> Prop :=
| needed_external g : In g globals -> internal g = false -> needed isFun internal refs globals g
| needed_ref f g : needed isFun internal refs globals f -> In f globals -> isFun f = true -> In g (refs f) -> needed isFun internal refs globals g.

(** ** proofs *)
Section Proofs.
Variables (isFun internal : nat -> bool) (refs : nat -> list nat) (globals : list nat).
Let need := needed isFun internal refs globals.
Let step := visitGlobal isFun refs.
Definition inv (s : gst) : Prop :=
  (forall x, In x (unused s) <-> In x globals /\ internal x = true /\ forall c, In c (colored s) -> ~ In x (refs c)) /\
  (forall c, In c (colored s) -> need c /\ In c globals /\ isFun c = true) /\ NoDup (colored s) /\ (stop s = true -> unused s = []).
Lemma inv_needed s x : inv s -> In x globals -> ~ In x (unused s) -> need x.
Proof.
  intros (I1 & I2 & _) Hx N. destruct (internal x) eqn:E; [|now apply needed_external].
  destruct (existsb (fun c => inn x (refs c)) (colored s)) eqn:Ec.
  - apply existsb_exists in Ec as (c & Hc & K). apply inn_In in K. destruct (I2 c Hc) as (A & B & C). eapply needed_ref; eauto.
  - exfalso. apply N. apply I1. split; auto. split; auto. intros c Hc K. apply not_true_iff_false in Ec. apply Ec. apply existsb_exists. exists c. split; auto. now apply inn_In.
Qed.
Lemma step_inv s g : In g globals -> inv s -> inv (step s g).
Proof.
  intros Hg H. unfold step, visitGlobal. destruct (stop s) eqn:Es; auto. destruct (isFun g) eqn:Ef; auto. destruct (inn g (colored s) || inn g (unused s)) eqn:Ei; auto.
  cbn [andb negb]. apply orb_false_iff in Ei as [Ec Eu]. apply not_true_iff_false in Ec, Eu. rewrite inn_In in Ec, Eu.
  pose proof (inv_needed s g H Hg Eu) as Ng. destruct H as (I1 & I2 & I3 & I4). split; [|split; [|split]]; cbn [unused colored stop].
  - intros x. rewrite filter_In, I1, negb_true_iff, <- not_true_iff_false, inn_In. split.
    + intros ((A & B & C) & D). split; auto. split; auto. intros c [<-|Hc]; auto.
    + intros (A & B & C). split; [split; auto; split; auto; intros c Hc; apply C; now right|]. apply C. now left.
  - intros c [<-|Hc]; auto.
  - constructor; auto.
  - destruct (filter _ (unused s)); [auto|discriminate].
Qed.
Lemma fold_inv l : forall s, incl l globals -> inv s -> inv (fold_left step l s).
Proof. induction l as [|g l IH]; intros s Hl H; cbn; auto. apply IH; [intros x Hx; apply Hl; now right|]. apply step_inv; auto. apply Hl. now left. Qed.
Lemma step_mod s g : modified s = true -> modified (step s g) = true.
Proof. unfold step, visitGlobal. intros H. destruct (stop s); auto. destruct (isFun g && _); auto. Qed.
Lemma fold_mod l : forall s, modified s = true -> modified (fold_left step l s) = true.
Proof. induction l as [|g l IH]; intros s H; cbn; auto. apply IH. now apply step_mod. Qed.
(** a round that does nothing *)
Lemma fold_idle l : forall s, stop s = false -> modified (fold_left step l s) = false ->
  fold_left step l s = s /\ forall g, In g l -> isFun g = true -> In g (colored s) \/ In g (unused s).
Proof.
  induction l as [|g l IH]; intros s Hs H; cbn [fold_left] in *; [split; [auto|intros ? []]|].
  assert (E : step s g = s /\ (isFun g = true -> In g (colored s) \/ In g (unused s))).
  { unfold step, visitGlobal in *. rewrite Hs in *. destruct (isFun g); [|cbn; split; [auto|discriminate]]. cbn [andb] in *.
    destruct (inn g (colored s) || inn g (unused s)) eqn:Ei; cbn [negb] in *.
    - split; auto. intros _. apply orb_true_iff in Ei. rewrite !inn_In in Ei. exact Ei.
    - exfalso. rewrite fold_mod in H; [discriminate|reflexivity]. }
  destruct E as [E1 E2]. rewrite E1 in *. destruct (IH s Hs H) as [A B]. split; auto. intros x [<-|Hx]; auto.
Qed.
(** a round that does something colors a function *)
Lemma step_grow s g : length (colored s) <= length (colored (step s g)) /\ (modified s = false -> modified (step s g) = true -> length (colored s) < length (colored (step s g))).
Proof. unfold step, visitGlobal. destruct (stop s); [split; [lia|congruence]|]. destruct (isFun g && _); cbn; split; try lia. congruence. Qed.
Lemma fold_grow l : forall s, length (colored s) <= length (colored (fold_left step l s)) /\
  (modified s = false -> modified (fold_left step l s) = true -> length (colored s) < length (colored (fold_left step l s))).
Proof.
  induction l as [|g l IH]; intros s; cbn [fold_left]; [split; [lia|congruence]|]. destruct (IH (step s g)) as [A B]. destruct (step_grow s g) as [C D]. split; [lia|].
  intros E F. destruct (modified (step s g)) eqn:Em; [specialize (D E eq_refl); lia|specialize (B eq_refl F); lia].
Qed.
Lemma rounds_spec fuel : forall u c, inv (GSt u c false false) -> length globals < fuel + length c ->
  let s := rounds isFun refs globals fuel u c in
  inv s /\ (stop s = false -> forall g, In g globals -> isFun g = true -> In g (colored s) \/ In g (unused s)).
Proof.
  induction fuel as [|n IH]; intros u c Hi Hf s.
  - exfalso. destruct Hi as (_ & I2 & I3 & _). cbn in I2, I3, Hf. assert (L : length c <= length globals) by (apply NoDup_incl_length; [exact I3|intros x Hx; apply I2; exact Hx]). lia.
  - subst s. cbn [rounds]. fold step. set (s := fold_left step globals (GSt u c false false)). assert (Is : inv s) by (apply fold_inv; [apply incl_refl|exact Hi]).
    destruct (stop s) eqn:Es; [split; [exact Is|congruence]|]. destruct (modified s) eqn:Em.
    + apply IH.
      * destruct Is as (I1 & I2 & I3 & _). split; [exact I1|]. split; [exact I2|]. split; [exact I3|]. discriminate.
      * destruct (fold_grow globals (GSt u c false false)) as [_ G]. specialize (G eq_refl Em). cbn [colored] in G. fold s in G. lia.
    + split; [exact Is|]. intros _. destruct (fold_idle globals (GSt u c false false) eq_refl Em) as [E K]. fold s in E. rewrite E. exact K.
Qed.
Lemma ge_spec : let '(l, changed) := globalEliminate isFun internal refs globals in
  (exists p, l = filter p globals) /\ (forall g, In g l <-> In g globals /\ need g) /\ (changed = true <-> exists g, In g globals /\ ~ need g).
Proof.
  assert (Id : forall l : list nat, exists p, l = filter p l) by (intros l; exists (fun _ => true); induction l as [|a l IH]; cbn; congruence).
  assert (All : (forall g, In g globals -> need g) -> (exists p, globals = filter p globals) /\ (forall g, In g globals <-> In g globals /\ need g) /\ (false = true <-> exists g, In g globals /\ ~ need g)).
  { intros H. split; auto. split; [intros g; split; [auto|tauto]|]. split; [discriminate|]. intros (g & A & B). now destruct (B (H g A)). }
  unfold globalEliminate. destruct (filter internal globals) as [|u0 u1] eqn:Ei.
  - apply All. intros g Hg. apply needed_external; auto. destruct (internal g) eqn:E; auto. assert (K : In g (filter internal globals)) by (apply filter_In; auto). rewrite Ei in K. destruct K.
  - rewrite <- Ei. set (u := filter internal globals) in *.
    assert (I0 : inv (GSt u [] false false)).
    { split; [|split; [|split]]; cbn [unused colored stop]; [|intros c []|constructor|discriminate]. intros x. unfold u. rewrite filter_In. split; [intros [A B]; split; auto; split; auto; intros c []|tauto]. }
    destruct (rounds_spec (S (length globals)) u [] I0) as [Is K]; [cbn; lia|]. set (s := rounds isFun refs globals (S (length globals)) u []) in *.
    destruct (stop s) eqn:Es.
    + apply All. intros g Hg. apply (inv_needed s); auto. destruct Is as (_ & _ & _ & I4). rewrite (I4 Es). intros [].
    + specialize (K eq_refl). assert (Nu : forall g, need g -> ~ In g (unused s)).
      { destruct Is as (I1 & _). induction 1 as [g Hg E|f g Hf IH Gf Ff Rf]; intros N; apply I1 in N as (A & B & C); [congruence|].
        destruct (K f Gf Ff) as [Kc|Ku]; [exact (C f Kc Rf)|exact (IH Ku)]. }
      split; [eexists; reflexivity|]. split.
      * intros g. rewrite filter_In, negb_true_iff, <- not_true_iff_false, inn_In. split; intros [A B]; split; auto. now apply (inv_needed s).
      * split.
        -- destruct (unused s) as [|x l] eqn:Eu; [discriminate|]. intros _. exists x. split; [apply (proj1 Is); rewrite Eu; now left|]. intros N. apply (Nu x N). now left.
        -- intros (g & Hg & N). destruct (unused s) as [|x l] eqn:Eu; auto. exfalso. apply N. apply (inv_needed s); auto. rewrite Eu. intros [].
Qed.

(** ** the properties *)
(** the list keeps its order, loses what nothing needs and nothing else; the pass says whether it lost something *)
Theorem C59_keeps_exactly_the_needed : forall l changed, globalEliminate isFun internal refs globals = (l, changed) ->
  (exists p, l = filter p globals) /\ (forall g, In g l <-> In g globals /\ needed isFun internal refs globals g) /\
  (changed = true <-> exists g, In g globals /\ ~ needed isFun internal refs globals g).
Proof. intros l changed H. pose proof ge_spec as K. rewrite H in K. exact K. Qed.
(** no function that is left refers to something that was dropped *)
Theorem C59_nothing_dangles : forall l changed, globalEliminate isFun internal refs globals = (l, changed) ->
  forall f g, In f l -> isFun f = true -> In g (refs f) -> In g globals -> In g l.
Proof.
  intros l changed H f g Hf Ff Rf Hg. destruct (C59_keeps_exactly_the_needed l changed H) as (_ & K & _). apply K in Hf as [Hf Nf]. apply K. split; auto.
  eapply needed_ref; eauto.
Qed.
(** what others may see stays *)
Theorem C59_external_stays : forall l changed, globalEliminate isFun internal refs globals = (l, changed) -> forall g, In g globals -> internal g = false -> In g l.
Proof. intros l changed H g Hg E. destruct (C59_keeps_exactly_the_needed l changed H) as (_ & K & _). apply K. split; auto. now apply needed_external. Qed.
End Proofs.

(** ** examples: 0 main, 1 its helper, which calls 2, which comes before main; 3 and 4 call each other and read the variable 5; 6 is a variable of 2 *)
Definition geFun (g : nat) : bool := negb (Nat.eqb g 5 || Nat.eqb g 6).
Definition geInt (g : nat) : bool := negb (Nat.eqb g 0).
Definition geRefs (g : nat) : list nat := match g with 0 => [1; 1] | 1 => [2; 1] | 2 => [6] | 3 => [4; 5; 6] | 4 => [3] | _ => [] end.
Example ge_drops : globalEliminate geFun geInt geRefs [5; 2; 6; 3; 1; 0; 4] = ([2; 6; 1; 0], true).
Proof. vm_compute. reflexivity. Qed.
Example ge_keeps : globalEliminate geFun geInt geRefs [2; 6; 1; 0] = ([2; 6; 1; 0], false).
Proof. vm_compute. reflexivity. Qed.
Example ge_cycle : ~ needed geFun geInt geRefs [5; 2; 6; 3; 1; 0; 4] 3.
Proof.
  intros H. destruct (C59_keeps_exactly_the_needed geFun geInt geRefs _ _ _ ge_drops) as (_ & K & _).
  assert (Z : In 3 [2; 6; 1; 0]) by (apply K; split; [cbn; tauto|exact H]). cbn in Z. intuition discriminate.
Qed.
