(** Soundness statement for rewrite rules and the proof automation shared by the rule proofs. *)
From Coq Require Import ZArith Lia Bool List ZifyBool Setoid Morphisms.
From Verif Require Import Word CmpModel IR PatternMatch ArithRules.
Import ListNotations.
Local Open Scope Z_scope.

(** [e'] may replace [e]: same type, well typed, and whenever [e] has a value under mode [ms]
    ([Wr] wrapping, [Ub] signed overflow undefined) the machine computes the same value for [e']
    (in particular it does not trap). *)
Definition refines (ms : mode) (e e' : expr) : Prop :=
  ty_of e' = ty_of e /\ wt e' /\
  forall env v, eval ms env e = Some v -> eval Wr env e' = Some v.
Definition rule_ok (ms : mode) (r : rule) : Prop :=
  forall O e e', oracle_ok O -> wt e -> r O e = Some e' -> refines ms e e'.

Lemma on_inv p k O e e' : oracle_ok O -> linear p = true -> on p k O e = Some e' ->
  exists b, inst b p e /\ k O e b = Some e'.
Proof.
  intros OK L H. unfold on in H. destruct (pmatch O p e b0) as [[] b] eqn:E; [|discriminate].
  exists b. split; auto. eapply pmatch_sound; eauto.
Qed.
Lemma guard_inv c r e' : guard c r = Some e' -> c = true /\ r = e'.
Proof. unfold guard. destruct c; intros H; inversion H; auto. Qed.
Lemma icmp_eqb_eq a b : icmp_eqb a b = true -> a = b.
Proof. destruct a, b; cbn; congruence. Qed.
Lemma is_bool_eq t : is_bool t = true -> t = I1.
Proof. destruct t; cbn; congruence. Qed.
Lemma is_bool_ne t : is_bool t = false -> t <> I1.
Proof. destruct t; cbn; congruence. Qed.
Lemma nI1_bool t : t <> I1 -> is_bool t = false.
Proof. destruct t; cbn; congruence. Qed.

Lemma ms_dec (ms : mode) env e v : eval ms env e = Some v -> eval Wr env e = Some v.
Proof. destruct ms; auto using eval_UW. Qed.

Lemma sim_use e f : sim e f -> wt e -> ty_of e = ty_of f /\ wt f /\ forall m env, eval m env e = eval m env f.
Proof. auto. Qed.

(** open the match: existentials, conjunctions, guards *)
Ltac open_hyps := repeat match goal with
  | H : exists _, _ |- _ => destruct H
  | H : _ /\ _ |- _ => destruct H
  | H : guard _ _ = Some _ |- _ => apply guard_inv in H; destruct H
  | H : Some _ = Some _ |- _ => injection H as H
  | H : _ && _ = true |- _ => apply andb_true_iff in H; destruct H
  | H : icmp_eqb _ _ = true |- _ => apply icmp_eqb_eq in H
  | H : is_bool _ = true |- _ => apply is_bool_eq in H
  | H : is_bool _ = false |- _ => apply is_bool_ne in H
  | H : ty_eqb _ _ = true |- _ => apply ty_eqb_eq in H
  | H : negb _ = true |- _ => apply negb_true_iff in H
  | OK : oracle_ok ?O, H : same ?O _ _ = true |- _ => apply OK in H
  | H : None = Some _ |- _ => discriminate H
  end.
Ltac subst_vars := repeat match goal with
  | H : ?x = _ |- _ => is_var x; subst x
  | H : _ = ?x |- _ => is_var x; subst x
  end.
(** use well-typedness and the orientation lemmas from the outside in *)
Ltac push_wt := repeat match goal with
  | H : wt (Bin _ _ _) |- _ => cbn [wt ty_of is_logic] in H; destruct H as (? & ? & ? & ?)
  | H : wt (Un _ _) |- _ => cbn [wt ty_of] in H; destruct H as (? & ?)
  | H : wt (Cmp _ _ _) |- _ => cbn [wt ty_of] in H; destruct H as (? & ? & ? & ?)
  | H : wt (Cast _ _ _) |- _ => cbn [wt ty_of] in H; destruct H as (? & ?)
  | H : wt (Sel _ _ _) |- _ => cbn [wt ty_of] in H; destruct H as (? & ? & ? & ? & ?)
  | H : wt (Cst _ _) |- _ => clear H
  | S : sim ?e ?f, W : wt ?e |- _ => apply sim_use in S; [|exact W]; destruct S as (? & ? & ?)
  end.
Ltac names := repeat match goal with
  | |- context [vb ?b ?k] => let v := fresh "v" in set (v := vb b k) in *; clearbody v
  | H : context [vb ?b ?k] |- _ => let v := fresh "v" in set (v := vb b k) in *; clearbody v
  | |- context [ib ?b ?k] => let v := fresh "i" in set (v := ib b k) in *; clearbody v
  | H : context [ib ?b ?k] |- _ => let v := fresh "i" in set (v := ib b k) in *; clearbody v
  | |- context [cb ?b ?k] => let v := fresh "c" in set (v := cb b k) in *; clearbody v
  | H : context [cb ?b ?k] |- _ => let v := fresh "c" in set (v := cb b k) in *; clearbody v
  end.
Ltac start r := unfold rule_ok; intros O e e' OK W H; unfold r in H; cbv beta delta [shiftshift] in H;
  apply on_inv in H; [|assumption|reflexivity]; destruct H as (b & HI & H); cbv beta zeta delta [factor signfill] in H;
  cbn [inst PNot] in HI; open_hyps.

(** normalise the types: every type becomes the same variable *)
Ltac tys := cbn [ty_of] in *; repeat match goal with
  | H : ?t = ?t |- _ => clear H
  | H : ?t <> ?t |- _ => destruct (H eq_refl)
  | H : ?x = _ |- _ => is_var x; match type of x with ty => subst x end
  | H : _ = ?x |- _ => is_var x; match type of x with ty => subst x end
  | H : ty_of ?x = I1 |- _ => rewrite H in *; revert H
  | H : I1 = ty_of ?x |- _ => symmetry in H
  | H : ty_of ?x = ty_of ?y |- _ => rewrite H in *; revert H
  end; intros.
Ltac rng := repeat match goal with
  | E : eval ?m ?env ?v = Some ?x, W : wt ?v |- _ =>
      lazymatch goal with H : 0 <= x < md _ |- _ => fail | _ => pose proof (eval_range m env v x W E) end
  end.
Ltac evs := repeat match goal with
  | H : context [match eval ?m ?env ?v with Some _ => _ | None => None end] |- _ =>
      is_var v; let x := fresh "x" in let E := fresh "E" in destruct (eval m env v) as [x|] eqn:E; try discriminate H
  end.
(** evaluate: turns the goal into an equation between integers *)
Ltac ev_rw := repeat match goal with
  | E : forall m env, eval m env ?x = _ |- context [eval _ _ ?x] => rewrite E
  | E : forall m env, eval m env ?x = _, H : context [eval _ _ ?x] |- _ => rewrite E in H
  end.
Ltac go :=
  let env := fresh "env" in let r := fresh "r" in let EV := fresh "EV" in
  intros env r EV; ev_rw; cbn [eval ty_of] in EV;
  repeat (progress (ev_rw; cbn [eval ty_of] in EV));
  evs; rng;
  repeat match goal with E : eval Ub _ _ = Some _ |- _ => apply ms_dec in E end;
  cbn [eval ty_of like makeNeg eAbs]; ev_rw; cbn [eval ty_of like];
  repeat match goal with E : eval _ _ ?v = Some _ |- context [eval _ _ ?v] => rewrite E end;
  tys.
Lemma b1le t : bits I1 <= bits t. Proof. destruct t; cbn; lia. Qed.
Lemma b1lt t : t <> I1 -> bits I1 < bits t. Proof. destruct t; cbn; intros; try congruence; lia. Qed.
Ltac wtac := cbn [wt ty_of like is_logic is_scmp makeNeg makeNot eAbs invI revI is_bool ty_eqb] in *; tys;
  repeat match goal with H : true = false \/ _ |- _ => destruct H; [discriminate|]
                       | H : false = true \/ _ |- _ => destruct H; [discriminate|] end;
  repeat match goal with |- _ /\ _ => split end;
  first [assumption | exact I | reflexivity | congruence | left; reflexivity | right; congruence | apply or_intror; congruence
        | right; assumption | tauto | apply b1le | apply b1lt; congruence | lia | idtac].
Ltac goalifs := repeat match goal with |- context [if ?b then _ else _] => destruct b eqn:? end.
Ltac fin1 := unfold refines, makeNot, eTrue, eFalse; cbn [ty_of like makeNeg eAbs];
  cbn [ty_of] in *; tys; cbn [is_bool ty_eqb]; cbn [ty_of like makeNeg eAbs];
  split; [try congruence|split; [wtac|go]].
Ltac fin := goalifs; fin1.
(** split the case analyses that choose the replacement *)
Ltac cases := repeat match goal with
  | H : context [match ?c with Ieq => _ | Ine => _ | Islt => _ | Isle => _ | Isgt => _ | Isge => _
                 | Iult => _ | Iule => _ | Iugt => _ | Iuge => _ end] |- _ => is_var c; destruct c
  | H : (if ?b then _ else _) = Some _ |- _ => destruct b eqn:?
  | H : match (if ?b then _ else _) with Some _ => _ | None => _ end = Some _ |- _ => destruct b eqn:?; cbv beta iota in H
  | H : None = Some _ |- _ => discriminate H
  | H : Some _ = Some _ |- _ => injection H as H
  | H : orb _ _ = true |- _ => apply orb_true_iff in H; destruct H
  | H : andb _ _ = true |- _ => apply andb_true_iff in H; destruct H
  | H : icmp_eqb _ _ = true |- _ => apply icmp_eqb_eq in H
  | H : is_bool _ = true |- _ => apply is_bool_eq in H
  | H : is_bool _ = false |- _ => apply is_bool_ne in H
  | H : ty_eqb _ _ = true |- _ => apply ty_eqb_eq in H
  | H : negb _ = true |- _ => apply negb_true_iff in H
  | OK : oracle_ok ?O, H : same ?O _ _ = true |- _ => apply OK in H
  | H : ?x = _ |- _ => is_var x; subst x
  | H : _ = ?x |- _ => is_var x; subst x
  end.
Ltac prep r := start r; subst_vars; push_wt; names; open_hyps; subst_vars; push_wt; cases; push_wt.
Ltac std r := prep r; fin.

Ltac no_range x := lazymatch goal with H : 0 <= x < md _ |- _ => fail | _ => idtac end.
(** constants: every [wrap t v] of a constant becomes a variable in range *)
Ltac csts := repeat match goal with
  | |- context [wrap ?t ?v] => is_var v; no_range v; let c := fresh "k" in let H := fresh "Hk" in
      pose proof (wrap_range t v) as H; set (c := wrap t v) in *; clearbody c
  | K : context [wrap ?t ?v] |- _ => is_var v; no_range v; let c := fresh "k" in let H := fresh "Hk" in
      pose proof (wrap_range t v) as H; set (c := wrap t v) in *; clearbody c
  end.
Ltac gen_ty := repeat match goal with
  | |- context [ty_of ?v] => let t := fresh "t" in set (t := ty_of v) in *; clearbody t
  | H : context [ty_of ?v] |- _ => let t := fresh "t" in set (t := ty_of v) in *; clearbody t
  end.
Ltac inj := repeat match goal with H : Some _ = Some _ |- _ => injection H as H end; subst.

(** modular ring equations *)
Ltac modring t := apply (f_equal Some); apply (eqm_eq t); [try apply wrap_range; auto|try apply wrap_range; auto|];
  repeat (rewrite eqm_wrap || rewrite eqm_sv).
(** concrete widths *)
Ltac widths := repeat match goal with t : ty |- _ => destruct t end; try congruence.

Ltac ifs := repeat match goal with
  | |- context [if ?b then _ else _] => destruct b eqn:?; try discriminate
  | H : context [if ?b then _ else _] |- _ => destruct b eqn:?; try discriminate
  end.
Ltac tidy := repeat match goal with
  | H : True |- _ => clear H
  | H : _ \/ _ |- _ => destruct H; [discriminate|]
  | H : true = true \/ _ |- _ => clear H
  | H : false = false \/ _ |- _ => clear H
  | H : ?x <> ?x |- _ => destruct (H eq_refl)
  | H : forall (m : mode) (env : nat -> Z), _ |- _ => clear H
  | H : wt _ |- _ => clear H
  | H : eval _ _ _ = Some _ |- _ => clear H
  end.
Lemma md_lt s t : bits s < bits t -> md s <= hf t.
Proof. destruct s, t; unfold bits, md, hf; lia. Qed.
Lemma wrap_up s t x : bits s < bits t -> 0 <= x < md s -> wrap t x = x.
Proof. intros. apply wrap_small. pose proof (md_lt s t). pose proof (md_hf t). lia. Qed.
Lemma sv_up s t x : bits s < bits t -> 0 <= x < md s -> sv t x = x.
Proof. intros. pose proof (md_lt s t). destruct t; auto; unfold sv; destruct (x <? hf _) eqn:?; lia. Qed.
Ltac zx := repeat match goal with
  | B : bits ?s < bits ?t, R : 0 <= ?x < md ?s |- context [wrap ?t ?x] => rewrite (wrap_up s t x B R)
  | B : bits ?s < bits ?t, R : 0 <= ?x < md ?s |- context [sv ?t ?x] => rewrite (sv_up s t x B R)
  | B : bits ?s < bits ?t, R : 0 <= ?x < md ?s, H : context [wrap ?t ?x] |- _ => rewrite (wrap_up s t x B R) in H
  | B : bits ?s < bits ?t, R : 0 <= ?x < md ?s, H : context [sv ?t ?x] |- _ => rewrite (sv_up s t x B R) in H
  end.
Ltac z := cbn [evalBin evalUn ar evalCast makeNot is_bool ty_eqb] in *; tidy; zx; csts; gen_ty; ifs; inj; tidy.

Lemma sv_is t k c : 0 <= k < md t -> sv t k = c -> k = wrap t c.
Proof. intros H E. subst c. rewrite wrap_sv, wrap_small; auto. Qed.
Lemma sv_0_inv t k : 0 <= k < md t -> sv t k = 0 -> k = 0.
Proof. intros. apply sv_zero in H0; auto. Qed.
Lemma sv_1_inv t k : 0 <= k < md t -> sv t k = 1 -> k = 1.
Proof. intros. apply sv_is in H0; auto. subst. destruct t; reflexivity. Qed.
Lemma sv_2_inv t k : t <> I1 -> 0 <= k < md t -> sv t k = 2 -> k = 2.
Proof. intros. apply sv_is in H1; auto. subst. destruct t; try reflexivity; congruence. Qed.
Lemma sv_m1_inv t k : 0 <= k < md t -> sv t k = -1 -> k = md t - 1 /\ t <> I1.
Proof. intros. pose proof (sv_is _ _ _ H H0). split; [subst; destruct t; reflexivity|]. intros ->. cbn in *. lia. Qed.
Lemma ones_testbit t i : 0 <= i -> Z.testbit (md t - 1) i = (i <? bits t).
Proof. intros. rewrite md_pow. replace (2 ^ bits t - 1) with (Z.ones (bits t)) by (rewrite Z.ones_equiv; lia).
  destruct (i <? bits t) eqn:E; [apply Z.ones_spec_low; lia|apply Z.ones_spec_high; pose proof (bits_pos t); lia]. Qed.
Lemma one_testbit i : 0 <= i -> Z.testbit 1 i = (i =? 0).
Proof. intros. destruct (i =? 0) eqn:E; [replace i with 0 by lia; reflexivity|].
  replace 1 with (2 ^ 0) by reflexivity. apply Z.pow2_bits_false. lia. Qed.
(** equality of two bitwise expressions over t-bit values *)
Ltac bitblast t := apply Z.bits_inj'; let i := fresh "i" in let Hi := fresh in intros i Hi;
  repeat first [rewrite Z.land_spec | rewrite Z.lor_spec | rewrite Z.lxor_spec
               | rewrite Z.bits_0 | rewrite ones_testbit by assumption];
  let D := fresh in destruct (i <? bits t) eqn:D;
  [|repeat match goal with R : 0 <= ?x < md t |- context [Z.testbit ?x i] =>
      rewrite (range_bits t x i R) by lia end];
  repeat match goal with |- context [Z.testbit ?x i] => destruct (Z.testbit x i) end; reflexivity.
Lemma not_sub t x : 0 <= x < md t -> Z.lxor x (md t - 1) = md t - 1 - x.
Proof.
  intros H. assert (Z.lxor x (md t - 1) + x = md t - 1); [|lia].
  rewrite Z.add_nocarry_lxor.
  - bitblast t.
  - bitblast t.
Qed.
Lemma land_ones_id t x : 0 <= x < md t -> Z.land x (md t - 1) = x.
Proof. intros. bitblast t. Qed.
Lemma lor_ones t x : 0 <= x < md t -> Z.lor x (md t - 1) = md t - 1.
Proof. intros. bitblast t. Qed.
Lemma land_1 x : Z.land x 1 = x mod 2.
Proof. replace 1 with (Z.ones 1) by reflexivity. rewrite Z.land_ones by lia. reflexivity. Qed.
Lemma sv_ones t : t <> I1 -> sv t (md t - 1) = -1.
Proof. destruct t; intros; try congruence; reflexivity. Qed.
Lemma wrap_m1 t : wrap t (-1) = md t - 1. Proof. destruct t; reflexivity. Qed.
Lemma wrap_0 t : wrap t 0 = 0. Proof. destruct t; reflexivity. Qed.
Lemma wrap_1 t : wrap t 1 = 1. Proof. destruct t; reflexivity. Qed.
Lemma sv_1 t : sv t 1 = 1. Proof. destruct t; reflexivity. Qed.
Lemma sv_I1 x : sv I1 x = x. Proof. reflexivity. Qed.

Ltac consts := repeat match goal with
  | R : 0 <= ?k < md ?t, H : sv ?t ?k = 0 |- _ => apply (sv_0_inv t k R) in H; subst k
  | R : 0 <= ?k < md ?t, H : sv ?t ?k = 1 |- _ => apply (sv_1_inv t k R) in H; subst k
  | R : 0 <= ?k < md ?t, H : sv ?t ?k = 2, N : ?t <> I1 |- _ => apply (sv_2_inv t k N R) in H; subst k
  | R : 0 <= ?k < md ?t, H : sv ?t ?k = -1 |- _ => apply (sv_m1_inv t k R) in H; destruct H as [H ?]; subst k
  end; rewrite ?wrap_0, ?wrap_1, ?wrap_m1, ?sv_0, ?sv_1, ?sv_I1 in *;
  repeat match goal with N : ?t <> I1 |- context [sv ?t (md ?t - 1)] => rewrite (sv_ones t N) end;
  repeat match goal with N : ?t <> I1, H : context [sv ?t (md ?t - 1)] |- _ => rewrite (sv_ones t N) in H end.
Ltac mr := match goal with |- eqm ?t ?a ?b => replace a with b by ring; reflexivity end.
Lemma b1_cases x : 0 <= x < md I1 -> x = 0 \/ x = 1. Proof. unfold md. lia. Qed.
Ltac b1s := repeat match goal with R : 0 <= ?x < md I1 |- _ => is_var x; apply b1_cases in R; destruct R; subst x end.
Lemma quot_m1 x : - x = Z.quot x (-1).
Proof. change (-1) with (- (1)). rewrite Z.quot_opp_r by lia. rewrite Z.quot_1_r. reflexivity. Qed.
Ltac dr := repeat match goal with
  | H : ?a =? ?b = false |- _ => apply Z.eqb_neq in H
  | H : ?a =? ?b = true |- _ => apply Z.eqb_eq in H
  | H : ?x <> 0 |- context [Z.quot ?x ?x] => rewrite (Z.quot_same x H)
  | H : ?x <> 0 |- context [Z.rem ?x ?x] => rewrite (Z.rem_same x H)
  | H : ?x <> 0 |- context [?x / ?x] => rewrite (Z.div_same x H)
  | H : ?x <> 0 |- context [?x mod ?x] => rewrite (Z.mod_same x H)
  end; repeat match goal with |- context [Z.quot ?x (-1)] => replace (Z.quot x (-1)) with (- x) by (apply quot_m1) end;
  rewrite ?Z.quot_1_r, ?Z.rem_1_r, ?Z.div_1_r, ?Z.mod_1_r.
Lemma u64_sv t : exists h C, 0 <= C /\ forall x, 0 <= x < md t -> u64 (sv t x) = if x <? h then x else x + C.
Proof.
  exists (match t with I1 => 2 | _ => hf t end), (md I64 - md t). split; [destruct t; unfold md; lia|]. intros x H.
  assert (B : md t <= md I64) by (destruct t; unfold md; lia).
  unfold u64. change 18446744073709551616 with (md I64).
  destruct (x <? match t with I1 => 2 | _ => hf t end) eqn:E.
  - replace (sv t x) with x; [apply Z.mod_small; lia|]. destruct t; unfold sv; auto; rewrite E; auto.
  - replace (sv t x) with (x + (md I64 - md t) + (-1) * md I64).
    + rewrite Z.mod_add by (unfold md; lia). apply Z.mod_small. lia.
    + destruct t; unfold sv; [unfold md in H; lia|rewrite E; lia..].
Qed.
Lemma u64_lt t x y : 0 <= x < md t -> 0 <= y < md t -> (u64 (sv t x) <? u64 (sv t y)) = (x <? y).
Proof.
  intros Hx Hy. destruct (u64_sv t) as (h & C & HC & E). rewrite !E by assumption.
  destruct (x <? h) eqn:?, (y <? h) eqn:?; lia.
Qed.
Lemma u64_le t x y : 0 <= x < md t -> 0 <= y < md t -> (u64 (sv t x) <=? u64 (sv t y)) = (x <=? y).
Proof.
  intros Hx Hy. destruct (u64_sv t) as (h & C & HC & E). rewrite !E by assumption.
  destruct (x <? h) eqn:?, (y <? h) eqn:?; lia.
Qed.
Lemma sv_eqb t x y : 0 <= x < md t -> 0 <= y < md t -> (sv t x =? sv t y) = (x =? y).
Proof. intros. apply eq_true_iff_eq. rewrite !Z.eqb_eq. split; [apply sv_inj; auto|congruence]. Qed.
Ltac cmpz := unfold evalCmp, doCompare in *;
  repeat match goal with
  | Hx : 0 <= ?x < md ?t, Hy : 0 <= ?y < md ?t |- context [u64 (sv ?t ?x) <? u64 (sv ?t ?y)] => rewrite (u64_lt t x y Hx Hy)
  | Hx : 0 <= ?x < md ?t, Hy : 0 <= ?y < md ?t |- context [u64 (sv ?t ?x) <=? u64 (sv ?t ?y)] => rewrite (u64_le t x y Hx Hy)
  | Hx : 0 <= ?x < md ?t, Hy : 0 <= ?y < md ?t |- context [sv ?t ?x =? sv ?t ?y] => rewrite (sv_eqb t x y Hx Hy)
  end.
Ltac pre := z; b1s; consts; dr.
Ltac e1 := 
  match goal with |- Some ?a = Some _ => match a with context [wrap ?t _] => modring t | _ => 
    match goal with |- Some _ = Some (wrap ?t _) => modring t end end end; mr.
Ltac e2 := widths; cmpz; unfold u64, sv, wrap, md, hf, bits in *; ifs; try congruence; f_equal; lia.
Ltac e3 := match goal with t : ty |- Some _ = Some _ => f_equal; bitblast t end.
Ltac e4 := cmpz; ifs; cbn in *; try congruence; f_equal; lia.
Lemma invI_scmp c : is_scmp (invI c) = is_scmp c. Proof. destruct c; reflexivity. Qed.
Lemma invI_val c t x y : evalCmp (invI c) t x y = Z.lxor (evalCmp c t x y) 1.
Proof. unfold evalCmp. rewrite C25_inverted_computed. destruct (doCompare c _ _); reflexivity. Qed.
Ltac ea := first [reflexivity | congruence | e1 | e3 | e4 | e2].
