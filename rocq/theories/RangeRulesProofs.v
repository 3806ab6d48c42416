(** Soundness of the range-driven rewrites (RangeRules.v), one lemma per rewrite. *)
From Coq Require Import ZArith Lia Bool List ZifyBool Setoid Morphisms.
From Verif Require Import Word CmpModel IR PatternMatch ArithRules ArithTac ArithSound2 IntRangeModel IntRangeSpec
  IntRangeProofs IntRangeOps IntRangeExact RangeRules.
Import ListNotations.
Local Open Scope Z_scope.

(** The ranges are right at the program point with operand values [env]: i32 values are described by
    their range, values of other types have the full range. *)
Definition query_ok (Q : query) (env : nat -> Z) : Prop := forall s, wt s ->
  (ty_of s <> I32 -> Q s = full) /\
  (ty_of s = I32 -> forall x, eval Wr env s = Some x -> wf (Q s) /\ describes (Q s) x).
Definition keeps (env : nat -> Z) (e e' : expr) : Prop :=
  ty_of e' = ty_of e /\ wt e' /\ forall v, eval Wr env e = Some v -> eval Wr env e' = Some v.
Definition rr_ok (r : rrule) : Prop := forall ck Q O e e' env, oracle_ok O -> wt e -> query_ok Q env ->
  (exists v, eval Wr env e = Some v) -> r ck Q O e = Some e' -> keeps env e e'.

Lemma sv32 x : 0 <= x < 4294967296 -> sv I32 x = s32 x.
Proof. intros. rewrite s32_spec by assumption. reflexivity. Qed.
Lemma q_full Q env s : query_ok Q env -> wt s -> ty_of s <> I32 -> Q s = full.
Proof. intros H W. apply H; assumption. Qed.
Lemma q_desc Q env s x : query_ok Q env -> wt s -> ty_of s = I32 -> eval Wr env s = Some x -> wf (Q s) /\ describes (Q s) x.
Proof. intros H W T. apply H; assumption. Qed.
Lemma ty32_dec t : t = I32 \/ t <> I32. Proof. destruct t; (left; congruence) || (right; congruence). Qed.
Lemma foldCmp_full c : foldCmp c full full = None. Proof. destruct c; reflexivity. Qed.

Lemma foldCmp_ranges c l r x y k : wf l -> wf r -> describes l x -> describes r y -> foldCmp c l r = Some k ->
  doCompare c (s32 x) (s32 y) = k.
Proof.
  intros Wl Wr Dl Dr H. pose proof Dl as (Rx & Ux & Sx & _). pose proof Dr as (Ry & Uy & Sy & _).
  assert (E : forall a, 0 <= a < 4294967296 -> u64 (s32 a) = if a <? 2147483648 then a else a + (18446744073709551616 - 4294967296)).
  { intros a Ha. rewrite s32_spec by assumption. unfold u64. destruct (a <? 2147483648) eqn:?; [apply Z.mod_small; lia|].
    replace (a - 4294967296) with (a + (18446744073709551616 - 4294967296) + (-1) * 18446744073709551616) by lia.
    rewrite Z.mod_add by lia. apply Z.mod_small. lia. }
  pose proof (E x Rx) as Ex. pose proof (E y Ry) as Ey. clear E.
  destruct c; cbn [foldCmp doCompare] in *.
  1,2: destruct (intersectWith l r) eqn:I; [discriminate|]; cbn [negb] in H; injection H as <-;
    assert (N : x <> y) by (intros ->; rewrite (intersectWith_ok l r y) in I; [discriminate|assumption..]);
    assert (s32 x <> s32 y) by (intros F; apply N; apply s32_inj; assumption); destruct (s32 x =? s32 y) eqn:?; auto; lia.
  1-4: repeat match type of H with (if ?b then _ else _) = _ => destruct b eqn:? end; inversion H; subst; lia.
  all: rewrite Ex, Ey; repeat match type of H with (if ?b then _ else _) = _ => destruct b eqn:? end; inversion H; subst;
    destruct (x <? 2147483648) eqn:?, (y <? 2147483648) eqn:?; lia.
Qed.
Lemma foldCmp_sound Q env c a b x y k : query_ok Q env -> wt a -> wt b -> ty_of b = ty_of a ->
  eval Wr env a = Some x -> eval Wr env b = Some y -> foldCmp c (Q a) (Q b) = Some k ->
  evalCmp c (ty_of a) x y = if k then 1 else 0.
Proof.
  intros QO Wa Wb T Ea Eb H. destruct (ty32_dec (ty_of a)) as [E|N].
  - destruct (q_desc Q env a x) as [W1 D1]; auto. destruct (q_desc Q env b y) as [W2 D2]; auto; [congruence|].
    rewrite E. unfold evalCmp. rewrite !sv32 by (apply D1 || apply D2).
    rewrite (foldCmp_ranges c _ _ x y k W1 W2 D1 D2 H). reflexivity.
  - rewrite (q_full Q env a), (q_full Q env b), foldCmp_full in H; auto; congruence.
Qed.
Lemma eBool_wt k : wt (eBool k) /\ ty_of (eBool k) = I1 /\ forall m env, eval m env (eBool k) = Some (if k then 1 else 0).
Proof. destruct k; repeat split. Qed.

Ltac rstart := unfold rr_ok; intros ck Q O e e' env OK W QO EX H;
  lazymatch type of H with ?r ck Q O e = _ => unfold r in H end;
  apply on_inv in H; [|assumption|reflexivity]; destruct H as (b & HI & H);
  unfold orient in H; cbn [inst] in HI; open_hyps; subst_vars; push_wt; names; open_hyps; subst_vars; push_wt.

Lemma ok54 : rr_ok Q54.
Proof.
  intros ck Q O e e' env OK W QO [v EX] H. unfold Q54 in H.
  destruct (ty32_dec (ty_of e)) as [E|N].
  - destruct (q_desc Q env e v) as [W1 D1]; auto.
    destruct (inferConstant (Q e)) as [c|] eqn:I; [|discriminate]. injection H as <-.
    split; [reflexivity|]. split; [exact Logic.I|]. intros v' EV. assert (v' = v) by congruence. subst v'.
    cbn [eval]. rewrite E. f_equal. pose proof (inferConstant_ok _ _ _ W1 D1 I) as <-.
    destruct D1 as (R & _). change (wrap I32 (s32 v)) with (u32 (s32 v)). rewrite u32_s32. apply u32_small; assumption.
  - rewrite (q_full Q env e) in H; auto. discriminate.
Qed.
Lemma ok144 : rr_ok Q144.
Proof.
  rstart. destruct (foldCmp _ _ _) as [k|] eqn:F; [|discriminate]. injection H as <-.
  destruct (eBool_wt k) as (A & B & C).
  split; [rewrite B; cbn [ty_of] in *; congruence|]. split; [exact A|].
  intros r EV. rewrite C. ev_rw. cbn [eval] in EV. evs.
  pose proof (foldCmp_sound Q env _ _ _ _ _ k QO H2 H4 H5 E E0 F). congruence.
Qed.
Ltac rgo := let r := fresh "r" in let EV := fresh "EV" in
  intros r EV; ev_rw; cbn [eval ty_of] in EV;
  repeat (progress (ev_rw; cbn [eval ty_of] in EV)); evs; rng;
  cbn [eval ty_of]; ev_rw; cbn [eval ty_of];
  repeat match goal with E : eval _ _ ?v = Some _ |- context [eval _ _ ?v] => rewrite E end.

Lemma side_ok Q env c u w (s := match foldCmp c (Q u) (Q w) with Some k => eBool k | None => Cmp c u w end) :
  query_ok Q env -> wt u -> wt w -> ty_of w = ty_of u -> is_scmp c = false \/ ty_of u <> I1 ->
  wt s /\ ty_of s = I1 /\
  forall x y, eval Wr env u = Some x -> eval Wr env w = Some y -> eval Wr env s = Some (evalCmp c (ty_of u) x y).
Proof.
  intros QO Wu Ww T S. subst s. destruct (foldCmp c (Q u) (Q w)) as [k|] eqn:F.
  - destruct (eBool_wt k) as (A & B & C). split; [|split]; auto. intros x y Ex Ey. rewrite C.
    rewrite (foldCmp_sound Q env c u w x y k); auto.
  - cbn [wt ty_of eval]. split; [|split; auto]. + tauto. + intros x y -> ->. reflexivity.
Qed.
Lemma ok163 : rr_ok Q163.
Proof.
  rstart.
  assert (e' = Sel v1 match foldCmp c (Q v) (Q v0) with Some k => eBool k | None => Cmp c v v0 end
                      match foldCmp c (Q v2) (Q v0) with Some k => eBool k | None => Cmp c v2 v0 end) as ->.
  { destruct (foldCmp c (Q v) (Q v0)), (foldCmp c (Q v2) (Q v0)); congruence. } clear H.
  destruct (side_ok Q env c v v0) as (A1 & B1 & C1); auto.
  destruct (side_ok Q env c v2 v0) as (A2 & B2 & C2); auto; [congruence|destruct H6; [left|right]; congruence|].
  set (s1 := match foldCmp c (Q v) _ with Some _ => _ | None => _ end) in *.
  set (s2 := match foldCmp c (Q v2) _ with Some _ => _ | None => _ end) in *. clearbody s1 s2.
  cbn [ty_of] in *. split; [cbn [ty_of]; congruence|]. split; [cbn [wt]; repeat split; auto; congruence|].
  rgo. rewrite (C1 _ _ eq_refl eq_refl), (C2 _ _ eq_refl eq_refl). rewrite <- EV, H10. destruct (x =? 0); reflexivity.
Qed.

Ltac rsp := split; [cbn [ty_of] in *; congruence|split; [cbn [wt ty_of]; tauto|rgo]].
(** facts about an operand whose range is not full *)
Lemma q_nf Q env s x : query_ok Q env -> wt s -> eval Wr env s = Some x -> Q s = full \/ 
  (ty_of s = I32 /\ wf (Q s) /\ describes (Q s) x /\ sv (ty_of s) x = s32 x /\ smin (Q s) <= s32 x <= smax (Q s)).
Proof.
  intros QO W E. destruct (ty32_dec (ty_of s)) as [T|T]; [right|left; eapply q_full; eauto].
  destruct (q_desc Q env s x QO W T E) as [A B]. pose proof B as (R & _ & S & _). rewrite T, sv32 by assumption. tauto.
Qed.
Lemma ok178 : rr_ok Q178.
Proof.
  rstart. unfold isNonNegative in *. rsp. 
  destruct (q_nf Q env v x QO) as [F|(T & _ & _ & S & B)]; auto; [rewrite F in *; discriminate|].
  cbn [evalUn ar] in EV. rewrite Z.abs_eq in EV by lia. rewrite <- EV, wrap_sv, wrap_small by assumption. reflexivity.
Qed.
Lemma q_two Q env a b x y : query_ok Q env -> wt a -> wt b -> ty_of b = ty_of a ->
  eval Wr env a = Some x -> eval Wr env b = Some y ->
  (Q a = full /\ Q b = full) \/
  (ty_of a = I32 /\ (wf (Q a) /\ describes (Q a) x /\ sv (ty_of a) x = s32 x /\ smin (Q a) <= s32 x <= smax (Q a)) /\
   (wf (Q b) /\ describes (Q b) y /\ sv (ty_of a) y = s32 y /\ smin (Q b) <= s32 y <= smax (Q b))).
Proof.
  intros QO Wa Wb T Ea Eb. destruct (ty32_dec (ty_of a)) as [N|N]; [right|left; split; eapply q_full; eauto; congruence].
  destruct (q_desc Q env a x QO Wa N Ea) as [A B]. pose proof B as (R & _ & S & _).
  destruct (q_desc Q env b y QO Wb ltac:(congruence) Eb) as [A' B']. pose proof B' as (R' & _ & S' & _).
  rewrite N, !sv32 by assumption. tauto.
Qed.
Lemma ok185 : rr_ok Q185.
Proof.
  rstart. cbv zeta in H. destruct (smax (Q v) <=? smin (Q v0)) eqn:C1; [|destruct (_ >=? _) eqn:C2; [|discriminate]]; injection H as <-;
  rsp; (destruct (q_two Q env v v0 x x0 QO) as [[F F']|(T & (_ & _ & S & B) & (_ & _ & S' & B'))]; auto);
    try (rewrite F, F' in *; discriminate).
  all: cbn [evalBin] in EV; rewrite <- EV, S, S'.
  - rewrite Z.max_r, <- S', wrap_sv, wrap_small by (lia || (rewrite <- H5; assumption)). reflexivity.
  - rewrite Z.max_l, <- S, wrap_sv, wrap_small by (lia || assumption). reflexivity.
Qed.
Lemma ok195 : rr_ok Q195.
Proof.
  rstart. cbv zeta in H. destruct (smax (Q v) <=? smin (Q v0)) eqn:C1; [|destruct (_ >=? _) eqn:C2; [|discriminate]]; injection H as <-;
  rsp; (destruct (q_two Q env v v0 x x0 QO) as [[F F']|(T & (_ & _ & S & B) & (_ & _ & S' & B'))]; auto);
    try (rewrite F, F' in *; discriminate).
  all: cbn [evalBin] in EV; rewrite <- EV, S, S'.
  - rewrite Z.min_l, <- S, wrap_sv, wrap_small by (lia || assumption). reflexivity.
  - rewrite Z.min_r, <- S', wrap_sv, wrap_small by (lia || (rewrite <- H5; assumption)). reflexivity.
Qed.
Lemma boolz (p q : bool) : Z.land (if p then 1 else 0) (if q then 1 else 0) = (if p && q then 1 else 0).
Proof. destruct p, q; reflexivity. Qed.
Lemma boolzo (p q : bool) : Z.lor (if p then 1 else 0) (if q then 1 else 0) = (if p || q then 1 else 0).
Proof. destruct p, q; reflexivity. Qed.
(** signed and unsigned order agree with the position of the sign *)
Lemma ord_su t x y : t <> I1 -> 0 <= x < md t -> 0 <= y < md t -> 0 <= sv t y ->
  (u64 (sv t x) <? u64 (sv t y)) = (0 <=? sv t x) && (sv t x <? sv t y) /\
  (u64 (sv t x) <=? u64 (sv t y)) = (0 <=? sv t x) && (sv t x <=? sv t y).
Proof.
  intros N Hx Hy P. rewrite (u64_lt t x y Hx Hy), (u64_le t x y Hx Hy).
  destruct t; try congruence; unfold sv in *;
    match goal with |- context [hf ?t] => destruct (x <? hf t) eqn:?, (y <? hf t) eqn:? end; unfold md, hf in *; split; lia.
Qed.
Lemma cmp2b c t x y : evalCmp c t x y = if doCompare c (sv t x) (sv t y) then 1 else 0. Proof. reflexivity. Qed.
Lemma pred0 v c t (k : Z) z (Z0 : z = 0 /\ c = Isge \/ z = -1 /\ c = Isgt) : doCompare c (sv t v) z = (0 <=? sv t v).
Proof. destruct Z0 as [[-> ->]|[-> ->]]; cbn [doCompare]; lia. Qed.
Lemma pred0o v c t z (Z0 : z = 0 /\ c = Islt \/ z = -1 /\ c = Isle) : doCompare c (sv t v) z = negb (0 <=? sv t v).
Proof. destruct Z0 as [[-> ->]|[-> ->]]; cbn [doCompare]; lia. Qed.
Lemma ifs_inv (G S N P1 P2 : bool) (a b e' : expr) :
  (if G then if S && N then if P1 then Some a else if P2 then Some b else None else None else None) = Some e' ->
  G = true /\ S = true /\ N = true /\ (P1 = true /\ e' = a \/ P2 = true /\ e' = b).
Proof. destruct G, S, N, P1, P2; cbn; intros H; inversion H; subst; auto 6. Qed.
Lemma g_inv (z : Z) c k1 p1 k2 p2 : ((z =? k1) && (c ==c p1)) || ((z =? k2) && (c ==c p2)) = true ->
  z = k1 /\ c = p1 \/ z = k2 /\ c = p2.
Proof.
  rewrite orb_true_iff, !andb_true_iff. intros [[A B]|[A B]]; apply icmp_eqb_eq in B; [left|right]; split; auto; lia.
Qed.
Lemma nn_facts Q env v n x y : query_ok Q env -> wt v -> wt n -> ty_of n = ty_of v ->
  eval Wr env v = Some x -> eval Wr env n = Some y -> isNonNegative (Q n) = true ->
  ty_of v <> I1 /\ 0 <= x < md (ty_of v) /\ 0 <= y < md (ty_of v) /\ 0 <= sv (ty_of v) y.
Proof.
  intros QO Wv Wn T Ev En N. pose proof (eval_range Wr env v x Wv Ev). pose proof (eval_range Wr env n y Wn En) as R.
  rewrite T in R. destruct (q_two Q env v n x y QO) as [[_ F]|(T' & _ & (_ & _ & S & B))]; auto.
  - rewrite F in N. discriminate.
  - unfold isNonNegative in N. rewrite S. repeat split; try tauto; [congruence|lia].
Qed.
Lemma rev_cmp c t x y : evalCmp (revI c) t y x = evalCmp c t x y.
Proof. unfold evalCmp. destruct c; cbn [revI doCompare]; rewrite ?(Z.eqb_sym (sv t y)), ?Z.gtb_ltb, ?Z.geb_leb; reflexivity. Qed.
Lemma scmp_or c t : is_scmp c = false \/ t <> I1 -> is_scmp (revI c) = false \/ t <> I1.
Proof. destruct c; auto. Qed.
Lemma ok213_core Q env v n k c c2 x y p : query_ok Q env -> wt v -> wt n -> ty_of n = ty_of v ->
  eval Wr env v = Some x -> eval Wr env n = Some y -> isNonNegative (Q n) = true ->
  sv (ty_of v) k = 0 /\ c = Isge \/ sv (ty_of v) k = -1 /\ c = Isgt ->
  c2 = Isle /\ p = Iule \/ c2 = Islt /\ p = Iult ->
  Z.land (evalCmp c (ty_of v) x k) (evalCmp c2 (ty_of v) x y) = evalCmp p (ty_of v) x y.
Proof.
  intros QO Wv Wn T Ev En N Z0 C2. destruct (nn_facts Q env v n x y) as (N1 & R1 & R2 & P); auto.
  destruct (ord_su _ _ _ N1 R1 R2 P) as [O1 O2].
  unfold evalCmp. rewrite (pred0 _ _ _ 0 _ Z0), boolz.
  destruct C2 as [[-> ->]|[-> ->]]; cbn [doCompare]; rewrite ?O1, ?O2; reflexivity.
Qed.
Lemma ok231_core Q env v n k c c2 x y p : query_ok Q env -> wt v -> wt n -> ty_of n = ty_of v ->
  eval Wr env v = Some x -> eval Wr env n = Some y -> isNonNegative (Q n) = true ->
  sv (ty_of v) k = 0 /\ c = Islt \/ sv (ty_of v) k = -1 /\ c = Isle ->
  c2 = Isge /\ p = Iuge \/ c2 = Isgt /\ p = Iugt ->
  Z.lor (evalCmp c (ty_of v) x k) (evalCmp c2 (ty_of v) x y) = evalCmp p (ty_of v) x y.
Proof.
  intros QO Wv Wn T Ev En N Z0 C2. destruct (nn_facts Q env v n x y) as (N1 & R1 & R2 & P); auto.
  destruct (ord_su _ _ _ N1 R1 R2 P) as [O1 O2].
  unfold evalCmp. rewrite (pred0o _ _ _ _ Z0), boolzo.
  assert (D : doCompare c2 (sv (ty_of v) x) (sv (ty_of v) y) = negb (doCompare (invI c2) (sv (ty_of v) x) (sv (ty_of v) y))).
  { destruct C2 as [[-> ->]|[-> ->]]; cbn [invI doCompare]; lia. }
  assert (D' : doCompare p (sv (ty_of v) x) (sv (ty_of v) y) = negb (doCompare (invI p) (sv (ty_of v) x) (sv (ty_of v) y))).
  { destruct C2 as [[-> ->]|[-> ->]]; cbn [invI doCompare]; lia. }
  rewrite D, D'. destruct C2 as [[-> ->]|[-> ->]]; cbn [invI doCompare]; rewrite ?O1, ?O2, ?negb_andb; reflexivity.
Qed.
Lemma ok213 : rr_ok Q213.
Proof.
  rstart. match type of H with context [if same O ?a ?b then (_, _, _) else _] => destruct (same O a b) eqn:S;
    [apply OK in S; try subst a; try subst b|] end; cbv beta iota zeta in H; apply ifs_inv in H;
    destruct H as (G & S' & N & P); apply g_inv in G; apply OK in S'; clear H1; cbn [ty_of] in *.
  - clear S'. assert (P' : exists p, e' = Cmp p v0 v1 /\ is_scmp p = false /\ (revI c = Isle /\ p = Iule \/ revI c = Islt /\ p = Iult)).
    { destruct P as [[P ->]|[P ->]]; apply icmp_eqb_eq in P; [exists Iule|exists Iult]; auto. }
    destruct P' as (p & -> & PS & P'). split; [cbn [ty_of] in *; congruence|]. split; [cbn [wt]; auto|].
    rgo. cbn [evalBin] in EV. rewrite <- EV. f_equal. rewrite <- H13, <- (rev_cmp c).
    symmetry. match goal with N : isNonNegative (Q ?m) = true, E : eval Wr env ?w = Some ?x |- Z.land (evalCmp _ _ ?x _) _ = _ => eapply (ok213_core Q env w m) | N : isNonNegative (Q ?m) = true, E : eval Wr env ?w = Some ?x |- Z.lor (evalCmp _ _ ?x _) _ = _ => eapply (ok213_core Q env w m) end; eauto; congruence.
  - match type of S' with ?a = ?b => subst a || subst b end.
    match type of P with _ /\ _ = Cmp _ ?a ?n \/ _ => 
      assert (P' : exists p, e' = Cmp p a n /\ is_scmp p = false /\ (c = Isle /\ p = Iule \/ c = Islt /\ p = Iult)) end.
    { destruct P as [[P ->]|[P ->]]; apply icmp_eqb_eq in P; [exists Iule|exists Iult]; auto. }
    destruct P' as (p & -> & PS & P'). split; [cbn [ty_of] in *; congruence|]. split; [cbn [wt]; auto|].
    rgo. cbn [evalBin] in EV. rewrite <- EV. f_equal.
    symmetry. match goal with N : isNonNegative (Q ?m) = true, E : eval Wr env ?w = Some ?x |- Z.land (evalCmp _ _ ?x _) _ = _ => eapply (ok213_core Q env w m) | N : isNonNegative (Q ?m) = true, E : eval Wr env ?w = Some ?x |- Z.lor (evalCmp _ _ ?x _) _ = _ => eapply (ok213_core Q env w m) end; eauto; congruence.
Qed.
Lemma ok231 : rr_ok Q231.
Proof.
  rstart. match type of H with context [if same O ?a ?b then (_, _, _) else _] => destruct (same O a b) eqn:S;
    [apply OK in S; try subst a; try subst b|] end; cbv beta iota zeta in H; apply ifs_inv in H;
    destruct H as (G & S' & N & P); apply g_inv in G; apply OK in S'; clear H1; cbn [ty_of] in *.
  - clear S'. assert (P' : exists p, e' = Cmp p v0 v1 /\ is_scmp p = false /\ (revI c = Isge /\ p = Iuge \/ revI c = Isgt /\ p = Iugt)).
    { destruct P as [[P ->]|[P ->]]; apply icmp_eqb_eq in P; [exists Iuge|exists Iugt]; auto. }
    destruct P' as (p & -> & PS & P'). split; [cbn [ty_of] in *; congruence|]. split; [cbn [wt]; auto|].
    rgo. cbn [evalBin] in EV. rewrite <- EV. f_equal. rewrite <- H13, <- (rev_cmp c).
    symmetry. match goal with N : isNonNegative (Q ?m) = true, E : eval Wr env ?w = Some ?x |- Z.land (evalCmp _ _ ?x _) _ = _ => eapply (ok231_core Q env w m) | N : isNonNegative (Q ?m) = true, E : eval Wr env ?w = Some ?x |- Z.lor (evalCmp _ _ ?x _) _ = _ => eapply (ok231_core Q env w m) end; eauto; congruence.
  - match type of S' with ?a = ?b => subst a || subst b end.
    match type of P with _ /\ _ = Cmp _ ?a ?n \/ _ => 
      assert (P' : exists p, e' = Cmp p a n /\ is_scmp p = false /\ (c = Isge /\ p = Iuge \/ c = Isgt /\ p = Iugt)) end.
    { destruct P as [[P ->]|[P ->]]; apply icmp_eqb_eq in P; [exists Iuge|exists Iugt]; auto. }
    destruct P' as (p & -> & PS & P'). split; [cbn [ty_of] in *; congruence|]. split; [cbn [wt]; auto|].
    rgo. cbn [evalBin] in EV. rewrite <- EV. f_equal.
    symmetry. match goal with N : isNonNegative (Q ?m) = true, E : eval Wr env ?w = Some ?x |- Z.land (evalCmp _ _ ?x _) _ = _ => eapply (ok231_core Q env w m) | N : isNonNegative (Q ?m) = true, E : eval Wr env ?w = Some ?x |- Z.lor (evalCmp _ _ ?x _) _ = _ => eapply (ok231_core Q env w m) end; eauto; congruence.
Qed.

Lemma ok149_partial ck Q O e e' env : oracle_ok O -> wt e -> query_ok Q env ->
  Q149 ck Q O e = Some e' ->
  (forall a b, e' = Bin OURem a b -> isConst b = true \/ (forall x, eval Wr env a = Some x -> 0 <= sv (ty_of a) x)) ->
  keeps env e e'.
Proof.
  intros OK W QO H SC. unfold Q149 in H. destruct e; try discriminate. destruct op; try discriminate.
  cbn -[isNonPowerOf2Constant isPow2] in H. apply guard_inv in H. destruct H as [H <-].
  rewrite !andb_true_iff in H. destruct H as [[H1 H2] H3]. unfold isPositive, isNonNegative in *.
  cbn [wt] in W. pose proof W as (W1 & W2 & T & L). destruct L as [L|L]; [discriminate|].
  split; [reflexivity|]. split; [cbn [wt]; auto|]. intros v EV. pose proof EV as EV0. cbn [eval] in EV. evs. rng. cbn [eval]; rewrite E, E0.
  cbn [ty_of] in *.
  destruct (q_two Q env e1 e2 x x0 QO) as [[_ F]|(T' & (_ & _ & S & B) & (_ & _ & S' & B'))]; auto.
  { rewrite F in H1. discriminate. }
  destruct (q_nf Q env (Bin OSRem e1 e2) v QO W EV0) as [F|(_ & _ & _ & S0 & B0)].
  { rewrite F in H2. discriminate. }
  cbn [ty_of] in *. rewrite T' in *. rewrite T in *. cbn [evalBin] in *. rewrite S, S' in *.
  destruct (s32 x0 =? 0) eqn:Z0; [discriminate|]. injection EV as <-.
  assert (X0 : s32 x0 = x0). { assert (Q0 : 0 < s32 x0) by lia. revert Q0. rewrite s32_spec by assumption. change (md I32) with 4294967296 in *. destruct (x0 <? _) eqn:?; lia. }
  rewrite X0 in *. assert (P0 : 0 < x0) by lia. destruct (x0 =? 0) eqn:?; [lia|]. f_equal.
  destruct (SC _ _ eq_refl) as [K|K].
  - destruct e2; try discriminate. cbn [isNonPowerOf2Constant] in H3. cbn [eval] in E0. cbn [ty_of] in T. subst t. injection E0 as E0. rewrite E0 in H3.
    apply negb_true_iff, negb_false_iff in H3. apply isPow2_inv in H3; [|congruence|assumption]. destruct H3 as (n & Hn & P2). change (bits I32) with 32 in Hn.
    change (md I32) with 4294967296 in *. 
    assert (R0 : 0 <= Z.rem (s32 x) x0).
    { destruct (Z_lt_le_dec (Z.rem (s32 x) x0) 0); [|assumption]. exfalso. pose proof (Z.rem_bound_abs (s32 x) x0 ltac:(lia)) as RB.
      pose proof (s32_range x0) as RR. rewrite X0 in RR.
      change (wrap I32) with u32 in B0. set (rr := Z.rem (s32 x) x0) in *. clearbody rr.
      rewrite s32_u32, s32_small in B0 by (unfold INT_MIN, INT_MAX in *; lia). lia. }
    assert (D : exists q, x = s32 x + q * x0).
    { destruct (s32_eqm x) as [q Eq]. exists (- q * 2 ^ (32 - n)). rewrite P2, Eq, <- Z.mul_assoc, <- Z.pow_add_r by lia.
      replace (32 - n + n) with 32 by lia. change (2 ^ 32) with 4294967296. lia. }
    destruct D as [q D]. pose proof (Z.rem_bound_abs (s32 x) x0 ltac:(lia)) as RB.
    change (wrap I32) with u32. rewrite u32_small by lia.
    pose proof (Z.quot_rem' (s32 x) x0) as QR.
    set (rr := Z.rem (s32 x) x0) in *. set (qq := Z.quot (s32 x) x0) in *. clearbody rr qq.
    symmetry. apply (Z.mod_unique_pos _ _ (qq + q)); [lia|]. rewrite D, QR. ring.
  - specialize (K _ E). rewrite T', S in K.
    assert (X : s32 x = x). { revert K. rewrite s32_spec by assumption. change (md I32) with 4294967296 in *. destruct (x <? _) eqn:?; lia. }
    rewrite X in *. rewrite Z.rem_mod_nonneg by lia. symmetry. apply wrap_small. pose proof (Z.mod_pos_bound x x0). change (md I32) with 4294967296 in *. lia.
Qed.

Lemma rem_abs_le x m : m <> 0 -> Z.abs (Z.rem x m) <= Z.abs x.
Proof. intros M. rewrite <- Z.rem_abs by assumption. apply Z.rem_le; lia. Qed.
Lemma rem_mul_core t X Y M : t <> I1 -> - hf t <= X < hf t -> M <> 0 -> - hf t <= M < hf t -> - hf t <= X * Y < hf t ->
  Z.rem (sv t (wrap t (sv t (wrap t (Z.rem X M)) * Y))) M = Z.rem (sv t (wrap t (X * Y))) M.
Proof.
  intros N RX M0 RM RP. pose proof (hf_pos t). pose proof (rem_abs_le X M M0) as A.
  pose proof (Z.rem_sign_nz X M M0) as SG. pose proof (Z.rem_bound_abs X M M0) as BB.
  assert (E : Z.rem (Z.rem X M * Y) M = Z.rem (X * Y) M) by (apply Z.mul_rem_idemp_l; assumption).
  set (rr := Z.rem X M) in *.
  assert (D : Z.abs (rr * Y) <= Z.abs (X * Y)) by (rewrite !Z.abs_mul; nia).
  assert (P : 0 <= (rr * Y) * (X * Y)).
  { assert (0 <= rr * X). { destruct (Z.eq_dec rr 0) as [->|Nz]; [lia|]. specialize (SG Nz). nia. }
    replace (rr * Y * (X * Y)) with ((rr * X) * (Y * Y)) by ring. nia. }
  clearbody rr. rewrite !sv_wrap_small; auto. 2: { rewrite sv_wrap_small by (auto; lia). nia. } lia.
Qed.
Lemma ok203_partial ck Q O e e' env : oracle_ok O -> wt e -> query_ok Q env ->
  Q203 ck Q O e = Some e' ->
  (forall a b m, e' = Bin OSRem (Bin OMul a b) m -> forall x y, eval Wr env a = Some x -> eval Wr env b = Some y -> 
     - hf (ty_of a) <= sv (ty_of a) x * sv (ty_of a) y < hf (ty_of a)) ->
  keeps env e e'.
Proof.
  intros OK W QO H SC. unfold Q203 in H. 
  apply on_inv in H; [|assumption|reflexivity]. destruct H as (b & HI & H).
  cbn [inst] in HI; open_hyps; subst_vars; push_wt; names; open_hyps; subst_vars; push_wt.
  destruct (rmul ck (Q _) (Q _)) as [pr|]; [|discriminate]. apply guard_inv in H. destruct H as [G <-].
  apply andb_true_iff in G. destruct G as [G _]. apply OK in G. subst v2.
  cbn [ty_of] in *. destruct H17 as [?|N]; [discriminate|].
  split; [cbn [ty_of]; congruence|]. split; [cbn [wt ty_of]; repeat split; auto; congruence|].
  rgo.
  2: { exfalso. cbn [evalBin] in EV. repeat match type of EV with context [if ?b then _ else _] => destruct b end; discriminate. }
  specialize (SC _ _ _ eq_refl _ _ E E1). rewrite ?H1, ?H3 in *. rewrite H16 in H.
  cbn [evalBin ar] in *. set (t := ty_of v) in *. destruct (sv t x2 =? 0) eqn:Z0; [discriminate|]. cbv beta iota in EV.
  rewrite <- EV. f_equal. f_equal. symmetry. apply rem_mul_core; auto; try (apply sv_range_s; auto); lia.
Qed.

(** a range without bit or unsigned information and with both signs is a fixed point of sync *)
Lemma sync_neutral ck a b : INT_MIN <= a < 0 -> 0 <= b <= INT_MAX ->
  sync ck (mkR 0 0 0 UINT_MAX a b) = Some (mkR 0 0 0 UINT_MAX a b).
Proof.
  intros Ha Hb. unfold sync.
  assert (S2U : signed2Unsigned (mkR 0 0 0 UINT_MAX a b) = mkR 0 0 0 UINT_MAX a b).
  { unfold signed2Unsigned. cbn [smin smax]. replace (0 <=? a) with false by lia. cbv iota. cbn [smin smax].
    replace (b <? 0) with false by lia. reflexivity. }
  rewrite S2U. change (unsigned2Bit (mkR 0 0 0 UINT_MAX a b)) with (mkR 0 0 0 UINT_MAX a b).
  assert (B2U : bit2Unsigned ck (mkR 0 0 0 UINT_MAX a b) = Some (mkR 0 0 0 UINT_MAX a b)).
  { unfold bit2Unsigned. cbn [kz ko umin umax smin smax]. change (Z.lor 0 0 =? UINT_MAX) with false. cbv iota.
    change (topMask (clz32 (not32 (Z.lor 0 0)))) with 0. change (Z.land 0 0) with 0. change (Z.max 0 0) with 0.
    change (Z.lor 0 (not32 0)) with UINT_MAX. change (Z.min UINT_MAX UINT_MAX) with UINT_MAX.
    unfold setU, inferSuffix. cbn [kz ko umin umax smin smax].
    destruct ck; reflexivity. }
  rewrite B2U. cbn [bind]. f_equal. unfold unsigned2Signed. cbn [umin umax].
  change (UINT_MAX <=? INT_MAX) with false. cbv iota. cbn [umin]. change (INT_MAX <? 0) with false. cbv iota.
  unfold signed2Bit. cbn [smin smax kz ko].
  set (c := u32 (Z.lxor a b)).
  assert (T : Z.testbit c 31 = true).
  { unfold c. rewrite u32_testbit, Z.lxor_spec by lia. rewrite !s32_high_bits by (unfold INT_MIN, INT_MAX in *; lia). 
    replace (a <? 0) with true by lia. replace (b <? 0) with false by lia. reflexivity. }
  pose proof (u32_range (Z.lxor a b)) as R. fold c in R. clearbody c.
  assert (C31 : 2147483648 <= c).
  { destruct (Z_lt_le_dec c 2147483648); [|assumption]. rewrite Z.bits_above_log2 in T; [discriminate|lia|].
    destruct (Z.eq_dec c 0); [subst; reflexivity|]. apply Z.log2_lt_pow2; lia. }
  replace (c =? 0) with false by lia. unfold clz32. replace (Z.log2 c) with 31. 
  - change (topMask (31 - 31)) with 0. rewrite !Z.land_0_r. reflexivity.
  - symmetry. apply Z.log2_unique; lia.
Qed.
(** the guard of the rewrite at line 245 excludes overflow of (x % m) + m *)
Lemma guard245 ck r s t m : wf r -> describes r m -> smin r > 1 -> rsrem ck full r = Some s -> radd ck r s = Some t ->
  isNoSignedOverflow t = true -> 2 * s32 m - 1 <= INT_MAX.
Proof.
  intros Wf D R1 Hs Ht G. pose proof D as (Rm & Um & Sm & Kz & _).
  pose proof Wf as (_ & _ & _ & _ & _ & SM).
  unfold rsrem in Hs. replace (smin r =? 0) with false in Hs by lia. cbn [andb] in Hs.
  replace (0 <=? smin r) with true in Hs by lia.
  change (isNonNegative full) with false in Hs. cbv iota in Hs.
  unfold setSignedRange, check in Hs. change (smin full) with INT_MIN in Hs. rewrite Z.eqb_refl in Hs. cbn [negb] in Hs.
  match type of Hs with context [if ?b then _ else _] => replace b with false in Hs by (unfold INT_MIN, INT_MAX in *; lia) end.
  cbn [bind] in Hs. unfold setS, full in Hs. cbn [kz ko umin umax] in Hs. rewrite sync_neutral in Hs by (unfold INT_MIN, INT_MAX in *; lia).
  injection Hs as <-.
  unfold radd in Ht. cbn [kz ko umin umax smin smax] in Ht.
  assert (KZ : kz r =? UINT_MAX = false).
  { apply Z.eqb_neq. intros F. assert (m = 0); [|subst m; change (s32 0) with 0 in Sm; lia].
    apply bits32_eq; try lia. intros i Hi. rewrite Z.bits_0. apply Kz; auto. rewrite F. unfold UINT_MAX.
    change 4294967295 with (2 ^ 32 - 1). rewrite testbit_ones_shift by lia. lia. }
  rewrite KZ in Ht. change (0 =? UINT_MAX) with false in Ht. cbv iota in Ht.
  destruct (Z_le_gt_dec (2 * smax r - 1) INT_MAX) as [L|L]; [lia|]. exfalso.
  replace (signedOverflow (smax r + (smax r - 1))) with true in Ht by (unfold signedOverflow; lia).
  rewrite andb_false_r in Ht. cbn [bind] in Ht.
  assert (U64 : u64 (umax r + UINT_MAX) = umax r + UINT_MAX).
  { apply u64_small. unfold UINT_MAX. destruct Wf as (_ & _ & ? & ? & _). lia. }
  rewrite U64 in Ht.
  assert (M1 : 1 < m). { assert (1 < s32 m) by lia. rewrite s32_spec in H by assumption. destruct (m <? _) eqn:?; lia. }
  replace (unsignedOverflow (umax r + UINT_MAX)) with true in Ht by (unfold unsignedOverflow, UINT_MAX; lia).
  rewrite andb_false_r in Ht. cbn [bind] in Ht.
  change (ctz (not32 0)) with 0 in Ht. rewrite Z.min_r in Ht by apply ctz_nonneg.
  change (shl32 1 0 - 1) with 0 in Ht. unfold setKnownBits, check in Ht. change (Z.land 0 0 =? 0) with true in Ht.
  rewrite andb_false_r in Ht. cbn [bind] in Ht. unfold setK, full in Ht. cbn [kz ko umin umax smin smax] in Ht.
  rewrite sync_neutral in Ht by (unfold INT_MIN, INT_MAX; lia). injection Ht as <-. discriminate.
Qed.

Lemma rem_add_core x m : 1 < m -> 
  Z.rem (Z.rem x m + m) m = if Z.rem x m <? 0 then Z.rem x m + m else Z.rem x m.
Proof.
  intros M. pose proof (Z.rem_bound_abs x m ltac:(lia)) as B. set (r := Z.rem x m) in *. clearbody r.
  destruct (r <? 0) eqn:E.
  - apply Z.rem_small. lia.
  - replace (r + m) with (r + 1 * m) by lia. rewrite Z.rem_add by nia. apply Z.rem_small. lia.
Qed.
Lemma ok245 : rr_ok Q245.
Proof.
  rstart. cbn [ty_of] in *.
  destruct (rsrem ck full (Q v)) as [s|] eqn:Es; [|discriminate]. cbn [bind] in H.
  destruct (radd ck (Q v) s) as [t|] eqn:Et; [|discriminate]. apply guard_inv in H. destruct H as [G <-].
  apply andb_true_iff in G. destruct G as [G1 G2]. destruct H18 as [?|N]; [discriminate|].
  split; [cbn [ty_of]; congruence|]. split.
  { cbn [wt ty_of]. repeat split; auto; try congruence. right; congruence. }
  rgo. repeat (progress (rewrite ?H10, ?H15, ?E, ?E0; cbn [eval])). unfold evalCmp. cbn [evalBin ar] in *.
  destruct (q_nf Q env v x0 QO) as [F|(T & WQ & D & S & B)]; auto; [rewrite F in G1; discriminate|].
  pose proof (guard245 ck _ _ _ _ WQ D ltac:(lia) Es Et G2) as GG.
  assert (T2 : ty_of v2 = I32) by congruence. assert (T0 : ty_of v0 = I32) by congruence. assert (T1 : ty_of v1 = I32) by congruence.
  rewrite T, ?T0, ?T1, ?T2 in *. change (wrap I32 0) with 0.
  assert (M : 1 < s32 x0) by lia. rewrite S in *. replace (s32 x0 =? 0) with false in * by lia. cbv beta iota in *.
  replace (s32 x0 =? 0) with false in EV by lia. rewrite <- EV. unfold doCompare. 
  change (md I32) with 4294967296 in *. rewrite (sv32 x) in * by assumption. change (sv I32 0) with 0.
  pose proof (Z.rem_bound_abs (s32 x) (s32 x0) ltac:(lia)) as RB. pose proof (s32_range x0) as RR. unfold INT_MIN, INT_MAX in *.
  pose proof (rem_add_core (s32 x) (s32 x0) M) as RC. set (q := Z.rem (s32 x) (s32 x0)) in *. clearbody q.
  rewrite (sv_wrap_small I32 q) by (try congruence; unfold hf; lia).
  rewrite (sv_wrap_small I32 (q + s32 x0)) by (try congruence; unfold hf; lia).
  rewrite RC. destruct (q <? 0); reflexivity.
Qed.
