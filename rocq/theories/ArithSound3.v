From Coq Require Import ZArith Lia Bool List ZifyBool Setoid Morphisms.
From Verif Require Import Word CmpModel IR PatternMatch ArithRules ArithTac ArithSound2.
Import ListNotations.
Local Open Scope Z_scope.



(** * Rules that are right when signed overflow is undefined *)
Ltac ubs := repeat match goal with
  | H : (- hf ?t <=? ?z) && (?z <? hf ?t) = true |- _ =>
     let A := fresh in assert (A : - hf t <= z < hf t) by lia; clear H
  end;
  repeat match goal with N : ?t <> I1, A : - hf ?t <= ?z < hf ?t |- context [sv ?t (wrap ?t ?z)] => rewrite (sv_wrap_small t z N A) 
  | N : ?t <> I1, A : - hf ?t <= ?z < hf ?t, H : context [sv ?t (wrap ?t ?z)] |- _ => rewrite (sv_wrap_small t z N A) in H end.
Lemma ok159 : rule_ok Ub R159.
Proof. std R159; pre; ubs. f_equal. rewrite Z.quot_opp_r, Z.quot_same by lia. rewrite wrap_m1. reflexivity. Qed.
Lemma ok164 : rule_ok Ub R164.
Proof. std R164; pre; ubs. f_equal. rewrite Z.quot_opp_l, Z.quot_same by lia. rewrite wrap_m1. reflexivity. Qed.
Lemma ok922 : rule_ok Ub R922.
Proof.
  std R922; pre; ubs. f_equal. pose proof (Z.quot_rem' (sv t k) (sv t k0)) as D. rewrite H9, Z.add_0_r in D.
  set (q := sv t k ÷ sv t k0) in *. rewrite D. replace (sv t x0 * (sv t k0 * q)) with (sv t x0 * q * sv t k0) by ring.
  rewrite Z.quot_mul by assumption. apply (eqm_eq t); auto with rng. rewrite !eqm_wrap, (eqm_sv t q). reflexivity.
Qed.
Lemma ok928 : rule_ok Ub R928.
Proof.
  std R928; pre; ubs. f_equal. pose proof (Z.quot_rem' (sv t k) (sv t k0)) as D. rewrite H8, Z.add_0_r in D.
  set (q := sv t k ÷ sv t k0) in *. rewrite D. replace (sv t x0 * (sv t k0 * q)) with (sv t x0 * q * sv t k0) by ring.
  rewrite Z.rem_mul by assumption. rewrite wrap_0. reflexivity.
Qed.
Lemma sv_neg t k : t <> I1 -> 0 <= k < md t -> sv t (wrap t (- sv t k)) = - sv t k \/ (sv t k = - hf t /\ sv t (wrap t (- sv t k)) = - hf t).
Proof.
  intros N R. pose proof (sv_range_s t k N R). destruct (Z.eq_dec (sv t k) (- hf t)) as [E|E].
  - right. split; auto. rewrite E. destruct t; try congruence; reflexivity.
  - left. apply sv_wrap_small; auto. lia.
Qed.
Lemma ok937 : rule_ok Ub R937.
Proof.
  std R937; pre; ubs.
  - pose proof (hf_pos t). destruct (sv_neg t k) as [E|[? E]]; auto; lia.
  - f_equal. f_equal. destruct (sv_neg t k) as [E|[E F]]; auto.
    + rewrite E. rewrite Z.quot_opp_l, Z.quot_opp_r by lia. reflexivity.
    + rewrite F, E. pose proof (hf_pos t). pose proof (sv_range_s t x H2 H3). rewrite Z.quot_opp_l, !Z.quot_opp_r by lia.
      destruct (Z_le_gt_dec 0 (sv t x)).
      * rewrite Z.quot_small by lia. reflexivity.
      * replace (sv t x) with (- (- sv t x)) by lia. rewrite Z.quot_opp_l by lia. rewrite Z.quot_small by lia. reflexivity.
Qed.
Lemma ok942 : rule_ok Ub R942.
Proof.
  std R942; pre; ubs; rewrite ?wrap_sv_id in * by assumption.
  - congruence.
  - f_equal. rewrite Z.rem_opp_l by assumption. apply (eqm_eq t); auto with rng. rewrite !eqm_wrap, eqm_sv. reflexivity.
Qed.
Lemma ok1139 : rule_ok Ub R1139.
Proof.
  std R1139; pre; ubs; unfold evalCmp, doCompare; ubs; rewrite ?sv_0; ifs; try reflexivity; exfalso; nia.
Qed.
Lemma ok1214 : rule_ok Ub R1214.
Proof.
  std R1214; pre; ubs; unfold evalCmp, doCompare; ubs; ifs; try reflexivity; exfalso; lia.
Qed.

(** * Rules that are right only under a side condition; the unconditional claims are refuted in ArithRefuted.v *)
Ltac open1 r := start r; subst_vars; push_wt; names; open_hyps; subst_vars; push_wt; cases; push_wt.
(** :181, product of the divisors representable *)
Lemma s64_small z : -9223372036854775808 <= z < 9223372036854775808 -> s64 z = z.
Proof. intros. unfold s64. rewrite Z.mod_small by lia. lia. Qed.
Lemma ok181 O e e' : oracle_ok O -> wt e -> R181 O e = Some e' -> isConst e' = false -> bits (ty_of e') <= 32 -> refines Ub e e'.
Proof.
  revert O e e'. open1 R181; intros NC WB; [|discriminate NC]. cbn [ty_of] in WB. fin; pre; ubs.
  all: assert (S : s64 (sv t k * sv t k0) = sv t k * sv t k0) by
    (apply s64_small; pose proof (sv_range_s t k H7 Hk); pose proof (sv_range_s t k0 H7 Hk0);
     assert (hf t <= 2147483648) by (destruct t; cbn in *; lia); nia); rewrite S in *;
    rewrite sv_wrap_small in * by (auto; lia).
  - nia.
  - rewrite Z.quot_quot by assumption. reflexivity.
Qed.
Lemma ok443 O e e' : oracle_ok O -> wt e -> R443 O e = Some e' ->
  (forall c t k x, e' = Cmp c (Cst t k) x -> wrap t k <> hf t) -> refines Ub e e'.
Proof.
  revert O e e'. open1 R443; intros NC; specialize (NC _ _ _ _ eq_refl); fin; pre; ubs.
  all: destruct (sv_neg t k) as [E|[E F]]; auto; [|exfalso; apply NC; rewrite E, Z.opp_involutive; apply wrap_small; pose proof (md_hf t); pose proof (hf_pos t); lia].
  all: unfold evalCmp, doCompare; rewrite E; ubs; ifs; try reflexivity; exfalso; lia.
Qed.
(** :460, the inner remainder non-negative *)
Lemma ok460 O e e' a c d: oracle_ok O -> wt e -> R460 O e = Some e' -> e' = Bin OSRem (Bin OAdd a c) d ->
  32 <= bits (ty_of a) ->
  ty_of e' = ty_of e /\ wt e' /\ forall env x v, eval Wr env a = Some x -> 0 <= sv (ty_of a) x ->
  eval Wr env e = Some v -> eval Wr env e' = Some v.
Proof.
  revert O e e'. open1 R460; intros NC WB. injection NC as <- <- <-. cbn [ty_of like] in *. tys.
  split; [congruence|]. split; [wtac|].
  intros env x11 r E11 NN EV.
  assert (RX : exists y, eval Wr env v1 = Some y /\ sv (ty_of v1) (wrap (ty_of v1) x18) <> 0 /\
     x11 = wrap (ty_of v1) (Z.rem (sv (ty_of v1) y) (sv (ty_of v1) (wrap (ty_of v1) x18)))).
  { rewrite H37 in E11. cbn [eval ty_of evalBin] in E11. destruct (eval Wr env v1) as [y|]; [|discriminate].
    destruct (_ =? 0) eqn:Q; [discriminate|]. exists y. apply Z.eqb_neq in Q. repeat split; auto. congruence. }
  destruct RX as (y & Ey & NZ & EX). pose proof (eval_range _ _ _ _ H36 Ey) as RY.
  rewrite H5 in EV. cbn [eval] in EV. rewrite H15 in EV. cbn [eval] in EV. rewrite H27 in EV. cbn [eval] in EV.
  rewrite H32 in EV. cbn [eval] in EV. rewrite E11 in EV. cbn [eval ty_of like]. rewrite E11. rewrite H13, H7, H4, H1 in *.
  clear H5 H15 H27 H32 H37 E11 Ey. set (t := ty_of v1) in *.
  assert (N : t <> I1) by (destruct H40; [discriminate|assumption]).
  cbn [evalBin ar] in *. csts.
  repeat match goal with H : (sv ?t ?a =? sv ?t ?b) = true |- _ => apply Z.eqb_eq in H; apply sv_inj in H; [subst b|assumption|assumption] end.
  apply Z.ltb_lt in H, H19. apply Z.leb_le in H20, H21.
  pose proof (sv_range_s _ _ N Hk) as R2. pose proof (sv_range_s _ _ N RY) as RYs.
  clearbody t. subst x11. set (C := sv t k) in *. set (a := sv t k0) in *. set (b' := sv t k1) in *. set (Y := sv t y) in *.
  assert (HI : INT_MAX <= hf t) by (unfold INT_MAX; destruct t; cbn in *; try lia).
  clearbody C a b' Y. destruct (Z.eqb_spec C 0) as [|_]; [contradiction|].
  assert (RB : Z.abs (Z.rem Y C) < Z.abs C) by (apply Z.rem_bound_abs; assumption).
  set (q := Z.rem Y C) in *. clearbody q.
  rewrite (sv_wrap_small t q) in * by (auto; lia).
  rewrite (sv_wrap_small t (q + a)) in EV by (auto; lia).
  rewrite (Z.rem_mod_nonneg (q + a) C) in EV by lia.
  assert (RB2 : 0 <= (q + a) mod C < C) by (apply Z.mod_pos_bound; lia).
  rewrite (sv_wrap_small t ((q + a) mod C)) in EV by (auto; lia).
  rewrite (sv_wrap_small t ((q + a) mod C + b')) in EV by (auto; lia).
  rewrite (Z.rem_mod_nonneg _ C) in EV by lia.
  rewrite (Z.rem_mod_nonneg (a + b') C) by lia.
  assert (RB3 : 0 <= (a + b') mod C < C) by (apply Z.mod_pos_bound; lia).
  assert (RB4 : (a + b') mod C <= a + b') by (apply Z.mod_le; lia).
  rewrite (sv_wrap_small t ((a + b') mod C)) by (auto; lia).
  rewrite (sv_wrap_small t (q + (a + b') mod C)) by (auto; lia).
  rewrite (Z.rem_mod_nonneg _ C) by lia. rewrite <- EV. f_equal. f_equal.
  rewrite Zplus_mod_idemp_l, Zplus_mod_idemp_r. f_equal. lia.
Qed.
(** :47 *)
Lemma ok47 : rule_ok Wr R47.
Proof.
  intros O e e' OK W H. unfold R47 in H. destruct e; try discriminate. apply guard_inv in H. destruct H as [G <-].
  apply andb_true_iff in G. destruct G as [G _]. apply andb_true_iff in G. destruct G as [G _].
  destruct (sim_comm op e1 e2 G W) as (T & W' & E). split; [auto|]. split; [auto|]. intros. rewrite <- E. auto.
Qed.
Lemma sv_lor t x y : t <> I1 -> 0 <= x < md t -> 0 <= y < md t -> (sv t (Z.lor x y) <? 0) = (sv t x <? 0) || (sv t y <? 0).
Proof. intros. rewrite <- !testbit_sign by (auto; apply lor_range; auto). apply Z.lor_spec. Qed.
Lemma sv_land t x y : t <> I1 -> 0 <= x < md t -> 0 <= y < md t -> (sv t (Z.land x y) <? 0) = (sv t x <? 0) && (sv t y <? 0).
Proof. intros. rewrite <- !testbit_sign by (auto; apply land_range; auto). apply Z.land_spec. Qed.
(** :1161-1192, when the two operands have the same type (the code does not check it) *)
Lemma ok1161 O e e' : oracle_ok O -> wt e -> R1161 O e = Some e' -> wt e' -> refines Wr e e'.
Proof.
  revert O e e'. open1 R1161; intros WE; cbn [wt ty_of like is_logic] in WE; open_hyps; fin; pre.
  unfold evalCmp, doCompare. rewrite sv_ones by assumption. pose proof (sv_lor t x1 x2). ifs; try reflexivity; lia.
Qed.
Lemma ok1176 O e e' : oracle_ok O -> wt e -> R1176 O e = Some e' -> wt e' -> refines Wr e e'.
Proof.
  revert O e e'. open1 R1176; intros WE; cbn [wt ty_of like is_logic] in WE; open_hyps; fin; pre.
  unfold evalCmp, doCompare. rewrite sv_ones by assumption. pose proof (sv_land t x1 x2). ifs; try reflexivity; lia.
Qed.
Lemma ok1167 O e e' : oracle_ok O -> wt e -> R1167 O e = Some e' -> wt e' -> refines Wr e e'.
Proof.
  revert O e e'. open1 R1167; intros WE; cbn [wt ty_of like is_logic] in WE; open_hyps; fin; pre; signt; try discriminate.
  unfold evalCmp, doCompare. rewrite sv_0, sign_bit by (auto; apply land_range; auto). rewrite sv_land by auto. 
  destruct (_ <? 0), (_ <? 0); reflexivity.
Qed.
Lemma ok1182 O e e' : oracle_ok O -> wt e -> R1182 O e = Some e' -> wt e' -> refines Wr e e'.
Proof.
  revert O e e'. open1 R1182; intros WE; cbn [wt ty_of like is_logic] in WE; open_hyps; fin; pre; signt; try discriminate.
  unfold evalCmp, doCompare. rewrite sv_0, sign_bit by (auto; apply lor_range; auto). rewrite sv_lor by auto. 
  destruct (_ <? 0), (_ <? 0); reflexivity.
Qed.
(** :1194, when c+1 / c-1 do not wrap *)
Lemma sv_hf t : t <> I1 -> sv t (hf t) = - hf t.
Proof. destruct t; intros; try congruence; reflexivity. Qed.
Lemma sv_inc t k : t <> I1 -> 0 <= k < md t -> wrap t (sv t k + 1) <> hf t -> sv t (wrap t (sv t k + 1)) = sv t k + 1.
Proof. intros N R E. apply sv_wrap_small; auto. pose proof (sv_range_s t k N R). 
  assert (sv t k <> hf t - 1); [|lia]. intros F. apply E. rewrite F. replace (hf t - 1 + 1) with (hf t) by lia.
  apply wrap_small. pose proof (md_hf t). pose proof (hf_pos t). lia. Qed.
Lemma sv_dec t k : t <> I1 -> 0 <= k < md t -> wrap t (sv t k - 1) <> hf t - 1 -> sv t (wrap t (sv t k - 1)) = sv t k - 1.
Proof. intros N R E. apply sv_wrap_small; auto. pose proof (sv_range_s t k N R). 
  assert (sv t k <> - hf t); [|lia]. intros F. apply E. rewrite F. replace (- hf t - 1) with (hf t - 1 + (-1) * md t) by (rewrite md_hf; lia).
  unfold wrap. rewrite Z.mod_add by (pose proof (md_pos t); lia). apply wrap_small. pose proof (md_hf t). pose proof (hf_pos t). lia. Qed.
Lemma ok1194 O e e' : oracle_ok O -> wt e -> R1194 O e = Some e' ->
  (forall x t k, e' = Cmp Islt x (Cst t k) -> wrap t k <> hf t) ->
  (forall x t k, e' = Cmp Isgt x (Cst t k) -> wrap t k <> hf t - 1) -> refines Wr e e'.
Proof.
  revert O e e'. open1 R1194; intros N1 N2; [specialize (N1 _ _ _ eq_refl); clear N2|specialize (N2 _ _ _ eq_refl); clear N1]; fin; pre.
  - unfold evalCmp, doCompare. rewrite sv_inc by assumption. ifs; reflexivity || lia.
  - unfold evalCmp, doCompare. rewrite sv_dec by assumption. ifs; reflexivity || lia.
Qed.
(** :736 *)
Lemma ok736 O e e' a c x : oracle_ok O -> wt e -> R736 O e = Some e' -> e' = Bin OXor (Bin OXor a c) x ->
  ty_of e' = ty_of e /\ wt e' /\ forall env v, eval Wr env a <> eval Wr env c -> eval Wr env e = Some v -> eval Wr env e' = Some v.
Proof.
  revert O e e'. start R736; subst_vars; push_wt; names.
  destruct (native O NXor); [|intros ?; cases; discriminate].
  destruct (is_bool _) eqn:IB; [|discriminate H]. apply is_bool_eq in IB.
  match type of H with context [if same ?O ?p ?q || _ then _ else _] => destruct (same O p q) eqn:S1 | context [same ?O ?p ?q || _] => destruct (same O p q) eqn:S1 end; cbn [andb orb] in H; open_hyps; subst_vars; push_wt; cases; push_wt;
    intros NC; injection NC as <- <- <-; cbn [ty_of] in *; tys.
  all: split; [reflexivity|split; [wtac|]]; intros env0 r0 NE EV0; revert EV0; revert r0; 
    intros r0 EV; repeat (progress (ev_rw; cbn [eval ty_of] in EV)); evs; rng; cbn [eval ty_of]; ev_rw; 
  repeat match goal with E : eval _ _ ?v = Some _ |- context [eval _ _ ?v] => rewrite E end;
    repeat match goal with E : eval _ _ ?v = Some _, H : context [eval _ _ ?v] |- _ => rewrite E in H end; tys; cbn [evalBin] in *; tys; b1s; cbn in EV |- *; congruence.
Qed.
(** :1051, when the range of dividends with quotient c2 lies inside the type *)
Lemma range_add t x lo n : t <> I1 -> 0 <= x < md t -> - hf t <= lo -> 0 < n < md t -> lo + n <= hf t ->
  evalCmp Iult t (wrap t (sv t x + sv t (wrap t (- lo)))) (wrap t n) =
  if (lo <=? sv t x) && (sv t x <? lo + n) then 1 else 0.
Proof.
  intros. replace (wrap t (sv t x + sv t (wrap t (- lo)))) with (wrap t (sv t x - sv t (wrap t lo))).
  - replace n with (lo + n - 1 - lo + 1) at 1 by lia. rewrite (range_in t x lo (lo + n - 1)) by (auto; lia).
    replace (sv t x <=? lo + n - 1) with (sv t x <? lo + n) by lia. reflexivity.
  - change (eqm t (sv t x - sv t (wrap t lo)) (sv t x + sv t (wrap t (- lo)))).
    rewrite !eqm_wrap, (eqm_sv t lo), (eqm_sv t (- lo)). replace (sv t x + - lo) with (sv t x - lo) by lia. reflexivity.
Qed.
Lemma quot_iff X c q : 0 < c ->
  (X ÷ c =? q) = ((if 0 <? q then c * q else c * q - (c - 1)) <=? X) &&
                 (X <? (if 0 <? q then c * q + c else if q =? 0 then c * q + c else c * q + 1)).
Proof.
  intros C. pose proof (Z.quot_rem' X c) as D. pose proof (Z.rem_bound_abs X c ltac:(lia)).
  pose proof (Z.rem_nonneg X c ltac:(lia)) as S1. pose proof (Z.rem_nonpos X c ltac:(lia)) as S2. set (r := Z.rem X c) in *. set (p := X ÷ c) in *. clearbody r p.
  assert (- c < r < c) by lia. clear H.
  subst X. destruct (p =? q) eqn:E.
  - assert (p = q) by lia. subst. destruct (0 <? q) eqn:?; [|destruct (q =? 0) eqn:?]; symmetry; apply andb_true_iff; rewrite Z.leb_le, Z.ltb_lt; nia.
  - symmetry. apply not_true_is_false. rewrite andb_true_iff, Z.leb_le, Z.ltb_lt. intros [A B].
    assert (p <= q - 1 \/ q + 1 <= p) by lia. 
    destruct (0 <? q) eqn:?; [|destruct (q =? 0) eqn:?]; nia.
Qed.
Lemma b32 t : bits t = 32 -> t = I32. Proof. destruct t; cbn; intros; try lia; reflexivity. Qed.
Ltac Zify.zify_post_hook ::= idtac.
Lemma core1051 x c1 c2 lo up : 0 <= x < md I32 -> 0 <= c2 < md I32 -> 0 < c1 ->
  lo = (if 0 <? sv I32 c2 then c1 * sv I32 c2 else c1 * sv I32 c2 - (c1 - 1)) ->
  up = (if 0 <? sv I32 c2 then c1 * sv I32 c2 + c1 else if sv I32 c2 =? 0 then c1 * sv I32 c2 + c1 else c1 * sv I32 c2 + 1) ->
  up - lo <= UINT_MAX -> - INT_MAX <= lo <= INT_MAX -> up <= 2147483648 ->
  evalCmp Iult I32 (wrap I32 (sv I32 x + sv I32 (wrap I32 (- lo)))) (wrap I32 (up - lo)) =
  evalCmp Ieq I32 (wrap I32 (sv I32 x ÷ c1)) c2.
Proof.
  intros R R2 C L U B1 B2 B3. assert (N : I32 <> I1) by discriminate. pose proof (sv_range_s I32 x N R).
  assert (UL : 0 < up - lo). { subst lo up. destruct (0 <? _) eqn:?; [|destruct (_ =? 0) eqn:?]; lia. }
  rewrite range_add; auto; unfold hf, md, INT_MAX, UINT_MAX in *; try lia.
  assert (Q : - hf I32 <= sv I32 x ÷ c1 < hf I32).
  { pose proof (Z.quot_rem' (sv I32 x) c1) as D. pose proof (Z.rem_bound_abs (sv I32 x) c1 ltac:(lia)).
    pose proof (Z.rem_nonneg (sv I32 x) c1 ltac:(lia)) as S1. pose proof (Z.rem_nonpos (sv I32 x) c1 ltac:(lia)) as S2. set (r := Z.rem _ c1) in *. set (p := _ ÷ c1) in *. clearbody r p.
    unfold hf in *. nia. }
  unfold evalCmp, doCompare. rewrite sv_wrap_small by assumption. rewrite quot_iff by assumption. rewrite <- L, <- U.
  replace (lo + (up - lo)) with up by lia. reflexivity.
Qed.
Lemma ok1051 O e e' : oracle_ok O -> wt e -> R1051 O e = Some e' -> 
  (forall a t nl n, e' = Cmp Iult (Bin OAdd a (Cst t nl)) (Cst t n) -> wrap t n - sv t (wrap t nl) <= hf t) -> refines Wr e e'.
Proof.
  revert O e e'. open1 R1051; intros NC. apply Z.eqb_eq, b32 in H17. cbn [ty_of] in H1. rewrite H17 in *. rewrite H1 in *.
  match goal with |- context [if ?l =? 0 then _ else _] => set (lo := l) in * end.
  match goal with |- context [like (?u - lo) _] => set (up := u) in * end.
  assert (L : lo = lo) by reflexivity. unfold lo at 2 in L. assert (U : up = up) by reflexivity. unfold up at 2 in U. clearbody lo up.
  pose proof (wrap_range I32 x2) as R2. set (c2 := wrap I32 x2) in *.
  apply Z.ltb_lt in H15. set (c1 := sv I32 (wrap I32 x6)) in *.
  assert (UL : 0 < up - lo). { subst lo up. destruct (0 <? sv _ _) eqn:?; [|destruct (_ =? 0) eqn:?]; lia. }
  apply Z.leb_le in H3, H6, H7. unfold like in *. rewrite ?H17 in *.
  assert (WN : wrap I32 (up - lo) = up - lo) by (apply wrap_small; unfold UINT_MAX in *; cbn; lia).
  unfold refines. split; [rewrite H0; reflexivity|]. split.
  { destruct (lo =? 0); cbn [wt ty_of is_logic is_scmp]; rewrite ?H17; intuition congruence. }
  intros env r EV. rewrite H4 in EV. cbn [eval ty_of] in EV. rewrite H10, H1 in EV. cbn [eval ty_of] in EV.
  destruct (eval Wr env v) as [y|] eqn:EY; [|discriminate]. pose proof (eval_range _ _ _ _ H9 EY) as RY. rewrite H17 in *.
  cbn [evalBin] in EV. fold c1 in EV. destruct (c1 =? 0) eqn:?; [discriminate|]. cbn [ar] in EV. fold c2 in EV.
  assert (UB : up <= 2147483648).
  { destruct (lo =? 0) eqn:L0.
    - destruct (0 <? sv I32 c2) eqn:?; [nia|]. destruct (sv I32 c2 =? 0) eqn:?; nia.
    - specialize (NC _ _ _ _ eq_refl). rewrite WN, sv_wrap_small in NC by (try discriminate; unfold INT_MAX, hf in *; lia). unfold hf in NC. lia. }
  pose proof (core1051 y c1 c2 lo up RY R2 H15 L U H3 (conj H7 H6) UB) as K. rewrite <- EV. clear EV. fold c1. rewrite <- K. clear K.
  destruct (lo =? 0) eqn:L0.
  - apply Z.eqb_eq in L0. rewrite L0. cbn [eval ty_of]. rewrite EY, H17. f_equal. f_equal.
    replace (-0) with 0 by reflexivity. rewrite wrap_0, sv_0, Z.add_0_r. symmetry. apply wrap_sv_id. assumption.
  - cbn [eval ty_of evalBin ar]. rewrite EY, H17. reflexivity.
Qed.
(** :1269, when no operand had to be adjusted by one *)
Definition noOffset (e : expr) : Prop :=
  forall c x m y k z, e <> Cmp c x (Bin m (Bin OAdd y (Cst (ty_of y) k)) z) /\ e <> Cmp c x (Bin m z (Bin OAdd y (Cst (ty_of y) k))).
Lemma evalCmp_rev c t x y : evalCmp (revI c) t y x = evalCmp c t x y.
Proof. unfold evalCmp, doCompare. destruct c; cbn [revI]; rewrite ?(Z.eqb_sym (sv t y)), ?Z.gtb_ltb, ?Z.geb_leb; reflexivity. Qed.
Lemma getDir_s c : getDir c <> 0 -> is_scmp c = true. Proof. destruct c; cbn; intros; congruence. Qed.
Lemma mc_ok O ca x1 y1 cb x2 y2 e' : oracle_ok O -> matchCompare O ca x1 y1 cb x2 y2 = Some e' -> noOffset e' ->
  wt (Cmp ca x1 y1) -> wt (Cmp cb x2 y2) -> refines Wr (Bin OAnd (Cmp ca x1 y1) (Cmp cb x2 y2)) e'.
Proof.
  intros OK H NO W1 W2. unfold matchCompare in H. destruct (same O x1 x2) eqn:S; [|discriminate]. apply OK in S. subst x2. cbn [negb] in H.
  destruct (getDir ca =? 0) eqn:D1; [discriminate|]. destruct (getDir cb =? 0) eqn:D2; [discriminate|]. cbn [negb andb] in H.
  destruct (getDir ca =? getDir cb) eqn:D3; [|discriminate]. cbn [negb] in H.
  destruct (ca ==c cb) eqn:CE.
  - apply icmp_eqb_eq in CE. subst cb. injection H as <-. cbn [wt] in *. destruct W1 as (? & ? & ? & ?), W2 as (? & ? & ? & ?).
    assert (N : ty_of x1 <> I1) by (destruct ca; cbn in D1; try discriminate; intuition discriminate).
    split; [reflexivity|]. split.
    { cbn [wt ty_of]. destruct (getDir ca =? 1); cbn [is_logic]; repeat split; auto; try congruence; right; congruence. }
    intros env v EV. cbn [eval ty_of] in *. 
    destruct (eval Wr env x1) as [x|] eqn:E1; [|discriminate]. destruct (eval Wr env y1) as [y|] eqn:E2; [|discriminate].
    destruct (eval Wr env y2) as [y'|] eqn:E3; [|discriminate]. rewrite <- EV. cbn [evalBin]. 
    pose proof (eval_range _ _ _ _ H0 E2) as RY. pose proof (eval_range _ _ _ _ H4 E3) as RY'. rewrite H1 in *. rewrite H5 in *.
    set (t := ty_of x1) in *. clearbody t.
    assert (MN : sv t (wrap t (Z.min (sv t y) (sv t y'))) = Z.min (sv t y) (sv t y'))
      by (destruct (Z.min_spec (sv t y) (sv t y')) as [[_ ->]|[_ ->]]; rewrite wrap_sv_id; auto).
    assert (MX : sv t (wrap t (Z.max (sv t y) (sv t y'))) = Z.max (sv t y) (sv t y'))
      by (destruct (Z.max_spec (sv t y) (sv t y')) as [[_ ->]|[_ ->]]; rewrite wrap_sv_id; auto).
    destruct ca; cbn in D1; try discriminate; cbn [getDir Z.eqb Pos.eqb evalBin]; unfold evalCmp, doCompare; rewrite ?MN, ?MX;
      repeat match goal with |- context [if ?b then _ else _] => destruct b eqn:? end; cbn; f_equal; lia.
  - exfalso. destruct ca, cb; cbn in D1, D2, D3, CE; try discriminate; cbn in H; injection H as <-; 
    unfold noOffset, addOffset, like in NO; first [eapply (proj1 (NO _ _ _ _ _ _)); reflexivity|eapply (proj2 (NO _ _ _ _ _ _)); reflexivity].
Qed.
Lemma wt_rev c x y : wt (Cmp c x y) -> wt (Cmp (revI c) y x).
Proof. cbn [wt]. intros (? & ? & E & S). rewrite E. repeat split; auto. destruct c; cbn in *; auto. Qed.
Lemma eval_rev m env c x y : wt (Cmp c x y) -> eval m env (Cmp (revI c) y x) = eval m env (Cmp c x y).
Proof. cbn [wt eval]. intros (_ & _ & E & _). rewrite E. destruct (eval m env x), (eval m env y); auto. rewrite evalCmp_rev. reflexivity. Qed.
Lemma orElse_inv {T} (a b : option T) r : orElse a b = Some r -> a = Some r \/ b = Some r.
Proof. destruct a; cbn; auto. Qed.
Lemma refines_sim e f e' : refines Wr f e' -> ty_of e = ty_of f -> (forall env, eval Wr env e = eval Wr env f) -> refines Wr e e'.
Proof. intros (T & W & E) T' E'. split; [congruence|]. split; auto. intros env v H. apply E. congruence. Qed.
Lemma and_cong env c c' x y x' y' d d' u w u' w' : eval Wr env (Cmp c x y) = eval Wr env (Cmp c' x' y') ->
  eval Wr env (Cmp d u w) = eval Wr env (Cmp d' u' w') ->
  match eval Wr env (Cmp c x y) with Some a => match eval Wr env (Cmp d u w) with Some b => evalBin Wr OAnd I1 a b | None => None end | None => None end =
  eval Wr env (Bin OAnd (Cmp c' x' y') (Cmp d' u' w')).
Proof. intros -> ->. reflexivity. Qed.
Lemma ok1269 O e e' : oracle_ok O -> wt e -> R1269 O e = Some e' -> noOffset e' -> refines Wr e e'.
Proof.
  revert O e e'. start R1269; subst_vars; push_wt; names. destruct (mm O); [|discriminate]. intros NO.
  apply orElse_inv in H; destruct H as [H|H]; [|apply orElse_inv in H; destruct H as [H|H]; [|apply orElse_inv in H; destruct H as [H|H]]].
  all: assert (WA : wt (Cmp c v v0)) by (cbn [wt]; auto); assert (WB : wt (Cmp c0 v1 v2)) by (cbn [wt]; auto).
  all: apply mc_ok in H; auto using wt_rev.
  all: apply (refines_sim e _ _ H); [rewrite H0; cbn [ty_of]; rewrite H1; reflexivity|];
    intros env; rewrite H4; cbn [eval]; rewrite H14, H9, H1; apply and_cong; auto using eval_rev, eq_sym.
Qed.
