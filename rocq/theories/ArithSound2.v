(** Rule proofs that need a specific argument. *)
From Coq Require Import ZArith Lia Bool List ZifyBool Setoid Morphisms.
From Verif Require Import Word CmpModel IR PatternMatch ArithRules ArithTac.
Import ListNotations.
Local Open Scope Z_scope.

Lemma ev_eq t x y : 0 <= x < md t -> 0 <= y < md t -> evalCmp Ieq t x y = if x =? y then 1 else 0.
Proof. intros. unfold evalCmp, doCompare. rewrite sv_eqb by assumption. reflexivity. Qed.
Lemma ev_ne t x y : 0 <= x < md t -> 0 <= y < md t -> evalCmp Ine t x y = if x =? y then 0 else 1.
Proof. intros. unfold evalCmp, doCompare. rewrite sv_eqb by assumption. destruct (x =? y); reflexivity. Qed.
Lemma rng0 t : 0 <= 0 < md t. Proof. pose proof (md_pos t). lia. Qed.
Lemma rng1 t : 0 <= 1 < md t. Proof. destruct t; unfold md; lia. Qed.
#[export] Hint Resolve rng0 rng1 land_range lor_range lxor_range wrap_range : rng.
Lemma wrap_sv_id t x : 0 <= x < md t -> wrap t (sv t x) = x.
Proof. intros. rewrite wrap_sv. apply wrap_small. assumption. Qed.
Lemma lor_eqb x y : (Z.lor x y =? 0) = (x =? 0) && (y =? 0).
Proof. apply eq_true_iff_eq. rewrite andb_true_iff, !Z.eqb_eq. apply Z.lor_eq_0_iff. Qed.
Lemma lxor_eqb x y : (Z.lxor x y =? 0) = (x =? y).
Proof. apply eq_true_iff_eq. rewrite !Z.eqb_eq. split; [apply Z.lxor_eq|intros ->; apply Z.lxor_nilpotent]. Qed.

Lemma ok278 : rule_ok Wr R278.
Proof. std R278; pre; ea. Qed.
Lemma ok295 : rule_ok Wr R295.
Proof. std R295; pre; ea. Qed.

Lemma ok321 : rule_ok Wr R321.
Proof. std R321; pre; rewrite ?ev_eq, ?ev_ne by auto with rng; ifs; try reflexivity; lia. Qed.
Lemma ok407 : rule_ok Wr R407.
Proof. std R407; [rewrite invI_scmp; auto|pre; rewrite invI_val; reflexivity]. Qed.
Lemma ok469 : rule_ok Wr R469.
Proof.
  std R469; pre; rewrite ?wrap_sv_id by assumption; rewrite !ev_eq by auto with rng; rewrite lor_eqb, ?lxor_eqb;
  repeat match goal with H : sv _ _ = 0 |- _ => apply sv_zero in H; [subst|assumption] end; 
  destruct (x1 =? _), (x2 =? _); reflexivity.
Qed.
Lemma ok486 : rule_ok Wr R486.
Proof. std R486; pre. rewrite !ev_ne by auto with rng. rewrite lor_eqb. destruct (x1 =? _), (x2 =? _); reflexivity. Qed.
Lemma land_mod2 x y : Z.land (Z.land x 1) y = (x mod 2) * (y mod 2).
Proof.
  rewrite <- Z.land_assoc, (Z.land_comm 1 y), land_1. 
  assert (x = 2 * (x / 2) + x mod 2) as E by (apply Z.div_mod; lia). 
  rewrite E at 1. pose proof (Z.mod_pos_bound x 2). pose proof (Z.mod_pos_bound y 2).
  assert (x mod 2 = 0 \/ x mod 2 = 1) as [->| ->] by lia; assert (y mod 2 = 0 \/ y mod 2 = 1) as [->| ->] by lia;
  rewrite ?Z.land_0_r, ?land_1; try lia. 
Qed.
Lemma ok479 : rule_ok Wr R479.
Proof.
  std R479; pre. rewrite !ev_ne by auto with rng. rewrite land_mod2, !land_1. unfold wrap, md in *.
  pose proof (Z.mod_pos_bound x2 2). pose proof (Z.mod_pos_bound x3 2).
  assert (x2 mod 2 = 0 \/ x2 mod 2 = 1) as [->| ->] by lia; assert (x3 mod 2 = 0 \/ x3 mod 2 = 1) as [->| ->] by lia; reflexivity.
Qed.

Lemma min_if t x y : 0 <= x < md t -> 0 <= y < md t ->
  wrap t (Z.min (sv t x) (sv t y)) = if sv t x <=? sv t y then x else y.
Proof. intros. destruct (sv t x <=? sv t y) eqn:E; [rewrite Z.min_l by lia|rewrite Z.min_r by lia]; apply wrap_sv_id; auto. Qed.
Lemma max_if t x y : 0 <= x < md t -> 0 <= y < md t ->
  wrap t (Z.max (sv t x) (sv t y)) = if sv t x <=? sv t y then y else x.
Proof. intros. destruct (sv t x <=? sv t y) eqn:E; [rewrite Z.max_r by lia|rewrite Z.max_l by lia]; apply wrap_sv_id; auto. Qed.
Ltac mm_rw := repeat match goal with
  | |- context [wrap ?t (Z.min (sv ?t ?x) (sv ?t ?y))] => rewrite (min_if t x y) by auto with rng
  | |- context [wrap ?t (Z.max (sv ?t ?x) (sv ?t ?y))] => rewrite (max_if t x y) by auto with rng
  | H : context [wrap ?t (Z.min (sv ?t ?x) (sv ?t ?y))] |- _ => rewrite (min_if t x y) in H by auto with rng
  | H : context [wrap ?t (Z.max (sv ?t ?x) (sv ?t ?y))] |- _ => rewrite (max_if t x y) in H by auto with rng
  | _ => progress ifs
  end.
Ltac fin_sv := ifs; try reflexivity; try lia; f_equal;
  match goal with R : 0 <= ?x < md ?t |- ?x = _ => apply (sv_inj t); auto with rng; lia end.
Lemma ok614 : rule_ok Wr R614.
Proof. std R614; try (right; assumption); pre; unfold evalCmp, doCompare in *; mm_rw; fin_sv. Qed.
Lemma ok631 : rule_ok Wr R631.
Proof. std R631; try (right; assumption); pre; unfold evalCmp, doCompare in *; mm_rw; fin_sv. Qed.
Lemma ok638 : rule_ok Wr R638.
Proof. std R638; try (right; assumption); pre; unfold evalCmp, doCompare in *; mm_rw; fin_sv. Qed.
Lemma fs4 t : fixedSize t = 4 -> t = I32. Proof. destruct t; cbn; intros; try lia; reflexivity. Qed.
Ltac t32 := match goal with H : fixedSize ?t = 4 |- _ => apply fs4 in H; subst t end.
Ltac e32 := cbn [sv] in *; unfold wrap, md, hf, INT_MIN, INT_MAX in *; ifs; f_equal; lia.
Lemma ok593 : rule_ok Wr R593. Proof. std R593; pre; t32; e32. Qed.
Lemma ok598 : rule_ok Wr R598. Proof. std R598; pre; t32; e32. Qed.
Lemma ok603 : rule_ok Wr R603. Proof. std R603; pre; t32; e32. Qed.
Lemma ok608 : rule_ok Wr R608. Proof. std R608; pre; t32; e32. Qed.
Lemma ok536 : rule_ok Wr R536. Proof. std R536; pre. exfalso. destruct t; cbn in *; lia. Qed.
Lemma bits_hf t : t <> I1 -> bits t <= hf t /\ 2 * bits t < md t.
Proof. destruct t; intros; try congruence; cbn; lia. Qed.
Lemma sv_shamt t k : t <> I1 -> 0 <= k -> k < bits t -> sv t k = k.
Proof. intros H ? ?. destruct (bits_hf t H). destruct t; try congruence; unfold sv; destruct (k <? hf _) eqn:?; lia. Qed.
Ltac shamts := repeat match goal with
  | N : ?t <> I1, R : 0 <= ?k < md ?t, B : (?k <? bits ?t) = true |- _ =>
    let Q := fresh in assert (Q : 0 <= k < bits t) by lia; clear B; rewrite (sv_shamt t k N (proj1 Q) (proj2 Q)) in *
  end.
Lemma wrap_shamt t k : t <> I1 -> 0 <= k -> k < bits t -> wrap t k = k.
Proof. intros H ? ?. destruct (bits_hf t H). apply wrap_small. lia. Qed.

Lemma ok496 : rule_ok Wr R496.
Proof.
  prep R496; unfold isLegalShamt in *; fin; pre; shamts.
  - rewrite (wrap_shamt t (k + k0)) by (auto; lia). modring t.
    rewrite Z.pow_add_r by lia. mr.
  - rewrite (wrap_shamt t (k + k0)) in * by (auto; lia). lia.
  - f_equal. symmetry. transitivity (wrap t (x0 * 2 ^ (k + k0))).
    + apply (eqm_eq t); auto with rng. rewrite !eqm_wrap, Z.pow_add_r by lia. mr.
    + unfold wrap. rewrite md_pow. replace (k + k0) with (k + k0 - bits t + bits t) by lia.
      rewrite Z.pow_add_r, Z.mul_assoc by lia. apply Z.mod_mul. pose proof (pow2_pos (bits t)). lia.
Qed.
Lemma ok503 : rule_ok Wr R503.
Proof.
  prep R503; unfold isLegalShamt in *; fin; pre; shamts; rewrite ?Z.div_div by (try apply Z.pow_nonzero; try apply Z.pow_pos_nonneg; lia);
    rewrite <- ?Z.pow_add_r by lia.
  - rewrite (wrap_shamt t (k + k0)) by (auto; lia). reflexivity.
  - rewrite (wrap_shamt t (k + k0)) in * by (auto; lia). lia.
  - f_equal. symmetry. apply Z.div_small. rewrite md_pow in *.
    pose proof (Z.pow_le_mono_r 2 (bits t) (k + k0)). lia.
Qed.
(** an arithmetic shift stays in range *)
Lemma ashr_range t x k : t <> I1 -> 0 <= x < md t -> 0 <= k -> - hf t <= sv t x / 2 ^ k < hf t.
Proof.
  intros N R K. pose proof (sv_range_s t x N R). pose proof (pow2_pos k K). pose proof (hf_pos t).
  split; [apply Z.div_le_lower_bound; nia|apply Z.div_lt_upper_bound; nia].
Qed.
(** the arithmetic shift rule is right when the summed amount is legal *)
Lemma ok509_legal O e e' : oracle_ok O -> wt e -> R509 O e = Some e' ->
  (match e' with Cst _ _ => false | _ => true end = true) -> refines Wr e e'.
Proof.
  intros OK W H NC. revert NC. revert W H. revert e'. revert e. intros e e' W H. unfold R509 in H. cbv beta delta [shiftshift] in H.
  apply on_inv in H; [|assumption|reflexivity]; destruct H as (b & HI & H); cbv beta zeta in H; cbn [inst] in HI; open_hyps.
  subst_vars; push_wt; names; open_hyps; subst_vars; push_wt; cases; push_wt; intros NC; [|discriminate NC].
  unfold isLegalShamt in *; fin; pre; shamts.
  - rewrite (wrap_shamt t (k + k0)) by (auto; lia). rewrite (sv_wrap_small t (sv t x0 / 2 ^ k)) by (auto; apply ashr_range; auto; lia).
    rewrite Z.div_div by (try apply Z.pow_nonzero; try apply Z.pow_pos_nonneg; lia). rewrite <- Z.pow_add_r by lia. reflexivity.
  - rewrite (wrap_shamt t (k + k0)) in * by (auto; lia). lia.
Qed.
Lemma land_mask t k x : 0 <= k -> k <= bits t -> Z.land x (wrap t (2 ^ k - 1)) = x mod 2 ^ k.
Proof.
  intros. rewrite wrap_small. - replace (2 ^ k - 1) with (Z.ones k) by (rewrite Z.ones_equiv; lia). apply Z.land_ones; lia.
  - rewrite md_pow. pose proof (pow2_pos k). pose proof (Z.pow_le_mono_r 2 k (bits t)). lia.
Qed.

Lemma ok666 : rule_ok Wr R666.
Proof.
  std R666; pre. pose proof (bits_pos x1). rewrite land_mask by lia.
  rewrite (wrap_up x1 t (wrap x1 x)) by auto with rng. unfold wrap. rewrite md_pow. reflexivity.
Qed.
Lemma m1_not_bool t k : sv t (wrap t k) = -1 -> is_bool t = false.
Proof. destruct t; auto. cbn [sv]. pose proof (wrap_range I1 k). lia. Qed.
Lemma ok674 : rule_ok Wr R674.
Proof.
  prep R674. unfold makeNot. cbn [ty_of] in *. tys. match goal with H : sv _ _ = -1 |- _ => rewrite (m1_not_bool _ _ H) end.
  fin; pre. e3.
Qed.
Lemma ok679 : rule_ok Wr R679.
Proof.
  prep R679. unfold makeNot. cbn [ty_of] in *. tys. match goal with H : sv _ _ = -1 |- _ => rewrite (m1_not_bool _ _ H) end.
  fin; pre. e3.
Qed.
Lemma eqm_md t : eqm t (md t) 0.
Proof. unfold eqm, wrap. rewrite Z.mod_same by (pose proof (md_pos t); lia). reflexivity. Qed.
Ltac nr t := rewrite not_sub by auto with rng; apply (f_equal Some); apply (eqm_eq t);
  [first [apply wrap_range|lia|match goal with |- context [wrap t ?z] => pose proof (wrap_range t z); lia end]
  |first [apply wrap_range|lia|match goal with |- context [wrap t ?z] => pose proof (wrap_range t z); lia end]|];
  rewrite ?eqm_wrap, ?eqm_sv, ?eqm_wrap, ?eqm_sv, ?eqm_md; mr.
Lemma ok685 : rule_ok Wr R685. Proof. std R685; pre. nr t. Qed.
Lemma ok690 : rule_ok Wr R690. Proof. std R690; pre. nr t. Qed.
Lemma ok700 : rule_ok Wr R700. Proof. std R700; pre. nr t. Qed.
Lemma ok705 : rule_ok Wr R705. Proof. std R705; pre. nr t. Qed.
Lemma ok1244 : rule_ok Wr R1244. Proof. std R1244; pre. nr t. Qed.
Lemma lor_sub_land x y : Z.lor x y - Z.land x y = Z.lxor x y.
Proof.
  assert (Z.lxor x y + Z.land x y = Z.lor x y); [|lia].
  rewrite Z.add_nocarry_lxor; apply Z.bits_inj'; intros i Hi; rewrite ?Z.land_spec, ?Z.lxor_spec, ?Z.lor_spec, ?Z.land_spec, ?Z.bits_0;
  destruct (Z.testbit x i), (Z.testbit y i); reflexivity.
Qed.
Lemma ok710 : rule_ok Wr R710.
Proof. std R710; pre. f_equal. apply (eqm_eq t0); auto with rng. rewrite eqm_wrap, !eqm_sv, lor_sub_land. reflexivity. Qed.
Lemma ok265 : rule_ok Wr R265. Proof. std R265; pre; ea. Qed.
(** signed view lemmas for negation and absolute value *)
Lemma neg_wrap t x : wrap t (- sv t x) = wrap t (- x).
Proof. apply (eqm_eq t); auto with rng. rewrite !eqm_wrap, eqm_sv. reflexivity. Qed.
Ltac absz := repeat match goal with
  | |- context [Z.abs ?x] => destruct (Z.abs_spec x) as [[? ->]|[? ->]]
  end.
Ltac abscase := pre; unfold evalCmp, doCompare in *; rewrite ?sv_0 in *; ifs; try lia; absz; try lia; rewrite ?wrap_sv_id by assumption;
  try reflexivity.
Lemma sv_2 t : t <> I1 -> sv t 2 = 2. Proof. destruct t; intros; try congruence; reflexivity. Qed.
Ltac z0 := match goal with R : 0 <= ?x < md ?t, H : 0 <= sv ?t ?x |- _ =>
  let Q := fresh in assert (Q : sv t x = 0) by lia; apply sv_zero in Q; [subst x|assumption]; rewrite sv_0, ?wrap_0; reflexivity end.
Lemma hf_big t : t <> I1 -> 128 <= hf t. Proof. destruct t; intros; try congruence; cbn; lia. Qed.
Lemma ok846 : rule_ok Wr R846. Proof. prep R846; unfold isGt, isLt in *; cases; fin; abscase; try e1; z0. Qed.
Lemma ok854 : rule_ok Wr R854. Proof. prep R854; unfold isGt, isLt in *; cases; fin; abscase; try e1; z0. Qed.
Lemma rem2_abs x : Z.abs (Z.rem x 2) = x mod 2.
Proof. rewrite <- Z.rem_abs_l by lia. rewrite Z.rem_mod_nonneg by lia. 
  destruct (Z.abs_spec x) as [[? ->]|[? ->]]; auto. pose proof (Z.mod_pos_bound x 2). pose proof (Z.mod_pos_bound (-x) 2).
  pose proof (Z.div_mod x 2). pose proof (Z.div_mod (-x) 2). lia. Qed.
Lemma ok898 : rule_ok Wr R898.
Proof.
  std R898; pre. rewrite sv_2 in * by assumption.
  assert (Hr : -1 <= Z.rem (sv t x0) 2 <= 1) by (pose proof (rem2_abs (sv t x0)); pose proof (Z.mod_pos_bound (sv t x0) 2); lia).
  pose proof (hf_big t H0). rewrite sv_wrap_small by (auto; lia).
  rewrite rem2_abs, land_1. f_equal. 
  destruct (sv_eq t x0) as [q ->]. replace (q * md t) with (q * hf t * 2) by (rewrite md_hf; ring).
  rewrite Z.mod_add by lia. symmetry. apply wrap_small. pose proof (Z.mod_pos_bound x0 2). pose proof (md_hf t). lia.
Qed.
Lemma ok910 : rule_ok Wr R910. 
Proof. std R910; pre. rewrite ev_ne, land_1 by auto with rng. unfold wrap, md in *. f_equal. pose proof (Z.mod_pos_bound x0 2).
  destruct (_ =? 0) eqn:?; lia. Qed.
Lemma wrap_land t x y : wrap t (Z.land x y) = Z.land (wrap t x) (wrap t y).
Proof. apply Z.bits_inj'. intros. rewrite Z.land_spec, !wrap_testbit, Z.land_spec by lia. destruct (_ <? _), (Z.testbit x n), (Z.testbit y n); reflexivity. Qed.
Lemma ok915 : rule_ok Wr R915.
Proof. std R915; pre. rewrite wrap_land. reflexivity. Qed.

Lemma bits_m1 t : t <> I1 -> wrap t (bits t - 1) = bits t - 1 /\ (bits t - 1 <? bits t) = true.
Proof. intros. pose proof (bits_pos t). destruct (bits_hf t H). split; [|lia]. apply wrap_small. lia. Qed.
Lemma sign_shift t x : t <> I1 -> 0 <= x < md t -> sv t x / 2 ^ (bits t - 1) = if sv t x <? 0 then -1 else 0.
Proof.
  intros N R. rewrite <- hf_pow. pose proof (sv_range_s t x N R). destruct (sv t x <? 0) eqn:E.
  - symmetry. apply Z.div_unique with (sv t x + hf t); lia.
  - apply Z.div_small. lia.
Qed.
Ltac signt := match goal with N : ?t <> I1 |- context [wrap ?t (bits ?t - 1)] =>
   let E := fresh in let F := fresh in destruct (bits_m1 t N) as [E F]; rewrite E in *; rewrite F in *; clear E F
  | N : ?t <> I1, K : context [wrap ?t (bits ?t - 1)] |- _ => 
   let E := fresh in let F := fresh in destruct (bits_m1 t N) as [E F]; rewrite E in *; rewrite F in *; clear E F end.
Ltac signfin := match goal with N : ?t <> I1, R : 0 <= ?x < md ?t |- context [sv ?t ?x / 2 ^ (bits ?t - 1)] =>
   rewrite (sign_shift t x N R); pose proof (hf_big t N) end;
   unfold evalCmp, doCompare in *; rewrite ?sv_0, ?sv_ones in * by assumption; ifs; try lia;
   rewrite ?sv_wrap_small by (auto; lia); rewrite ?wrap_m1, ?wrap_0; try reflexivity.
Lemma ty_eqb_ne a b : ty_eqb a b = false -> a <> b.
Proof. intros H E. apply ty_eqb_eq in E. congruence. Qed.
Ltac teq := repeat match goal with H : ty_eqb _ _ = true |- _ => apply ty_eqb_eq in H; try rewrite H in * end.
Lemma ok960 : rule_ok Wr R960. 
Proof. prep R960. unfold makeSignedCast. cbn [ty_of]. 
  destruct (ty_eqb (ty_of v) x6) eqn:TE; [apply ty_eqb_eq in TE|]; fin; pre; try congruence; signt; try discriminate; signfin. Qed.
Lemma ok964 : rule_ok Wr R964. 
Proof. prep R964. unfold makeSignedCast. cbn [ty_of]. 
  destruct (ty_eqb (ty_of v) x6) eqn:TE; [apply ty_eqb_eq in TE|]; fin; pre; try congruence; signt; try discriminate; signfin. Qed.
Lemma eqm_s64 t z : eqm t (s64 z) z.
Proof.
  unfold eqm, wrap, s64. 
  assert (D : exists q, 18446744073709551616 = q * md t) by (destruct t; [exists 9223372036854775808|exists 72057594037927936|exists 281474976710656|exists 4294967296|exists 1]; reflexivity).
  destruct D as [q D]. pose proof (md_pos t).
  replace ((z + 9223372036854775808) mod 18446744073709551616 - 9223372036854775808)
    with (z + (- q * ((z + 9223372036854775808) / 18446744073709551616)) * md t).
  - apply Z.mod_add. lia.
  - pose proof (Z.div_mod (z + 9223372036854775808) 18446744073709551616) as E.
    set (d := (z + 9223372036854775808) / 18446744073709551616) in *. 
    replace (- q * d * md t) with (- ((q * md t) * d)) by ring. rewrite <- D. lia.
Qed.
Lemma ok969 : rule_ok Wr R969. Proof. std R969; pre; try e1; rewrite ?Z.add_0_l, ?Z.sub_0_r, ?wrap_sv_id by assumption; try reflexivity; try congruence; f_equal;
  match goal with H : sv ?t ?k = s64 ?z |- _ => apply (eqm_eq t); auto with rng; assert (E : eqm t k z) by (rewrite <- (eqm_sv t k), H; apply eqm_s64);
   rewrite eqm_wrap, eqm_sv, ?E, eqm_sv end; mr. Qed.


Lemma eqm1_wrap t z : eqm I1 (wrap t z) z.
Proof.
  unfold eqm, wrap. change (md I1) with 2. rewrite (Z.mod_eq z (md t)) by (pose proof (md_pos t); lia).
  rewrite md_hf. replace (z - 2 * hf t * (z / (2 * hf t))) with (z + (- hf t * (z / (2 * hf t))) * 2) by ring.
  apply Z.mod_add. lia.
Qed.
Lemma eqm1_sv t z : eqm I1 (sv t z) z.
Proof. destruct (sv_eq t z) as [k ->]. rewrite md_hf. unfold eqm, wrap. change (md I1) with 2.
  replace (k * (2 * hf t)) with (k * hf t * 2) by ring. apply Z.mod_add. lia. Qed.
Lemma eqm1_land z : eqm I1 (Z.land z 1) z.
Proof. rewrite land_1. apply eqm_wrap. Qed.
Lemma land1_wrap z : Z.land z 1 = wrap I1 z. Proof. apply land_1. Qed.
Lemma parity t x k : Z.land (wrap t (sv t x + sv t (wrap t (Z.land (sv t k) 1)))) 1 = Z.land (wrap t (sv t x + sv t k)) 1.
Proof.
  rewrite (land1_wrap (wrap t _)), (land1_wrap (wrap t (_ + sv t k))). apply (eqm_eq I1); auto with rng.
  rewrite !(eqm_wrap I1), (eqm1_wrap t (sv t x + sv t k)), (eqm1_wrap t (_ + sv t (wrap t _))), (eqm1_sv t (wrap t _)), (eqm1_wrap t (Z.land _ _)), eqm1_land. reflexivity.
Qed.
Lemma ok1015 : rule_ok Wr R1015. Proof. std R1015; pre. rewrite parity. reflexivity. Qed.
Lemma ok1021 : rule_ok Wr R1021. Proof. std R1021; pre; rewrite ?parity; reflexivity. Qed.
Lemma sign_bit t x : t <> I1 -> 0 <= x < md t -> x / 2 ^ (bits t - 1) = if sv t x <? 0 then 1 else 0.
Proof.
  intros N R. rewrite <- hf_pow. pose proof (md_hf t). pose proof (hf_pos t).
  assert (E : (sv t x <? 0) = negb (x <? hf t)). { destruct t; try congruence; unfold sv; destruct (x <? _) eqn:?; unfold md in *; lia. }
  rewrite E. destruct (x <? hf t) eqn:?; cbn [negb].
  - apply Z.div_small. lia.
  - symmetry. apply Z.div_unique with (x - hf t); lia.
Qed.
Lemma ok1037 : rule_ok Wr R1037.
Proof.
  std R1037; pre; signt; try discriminate. rewrite sign_bit by assumption. unfold evalCmp, doCompare. rewrite sv_0.
  destruct (_ <? 0); rewrite ?wrap_0, ?wrap_1; reflexivity.
Qed.

Lemma isPow2_inv t k : t <> I1 -> 0 <= k < md t -> isPow2 (sv t k) = true ->
  exists n, 0 <= n < bits t /\ k = 2 ^ n.
Proof.
  intros N R H. unfold isPow2 in H. apply andb_true_iff in H. destruct H as [P E].
  apply Z.ltb_lt in P. apply Z.eqb_eq in E.
  assert (U : u64 (sv t k) = k \/ (hf t <= k /\ u64 (sv t k) = k + (md I64 - md t))).
  { unfold u64. change 18446744073709551616 with (md I64). assert (md t <= md I64) by (destruct t; unfold md; lia).
    destruct (k <? hf t) eqn:L.
    - left. replace (sv t k) with k; [apply Z.mod_small; lia|]. destruct t; unfold sv; auto; rewrite L; auto.
    - right. split; [lia|]. replace (sv t k) with (k + (md I64 - md t) + (-1) * md I64).
      + rewrite Z.mod_add by (unfold md; lia). apply Z.mod_small. lia.
      + destruct t; unfold sv; [congruence|rewrite L; lia..]. }
  assert (K : u64 (sv t k) = k).
  { destruct U as [U|[L U]]; auto. rewrite U in *. destruct (Z.eq_dec (md I64) (md t)) as [Q|Q]; [lia|]. exfalso.
    (* the value lies strictly between 2^63 and 2^64 *)
    assert (S : md I64 - hf t <= k + (md I64 - md t) < md I64) by (pose proof (md_hf t); lia).
    assert (hf t < md I64 / 2) by (destruct t; try (exfalso; apply Q; reflexivity); cbn; lia).
    set (m := Z.log2 (k + (md I64 - md t))) in *.
    assert (m = 63). { apply Z.log2_unique; [lia|]. change (2 ^ 63) with (md I64 / 2). change (2 ^ Z.succ 63) with (md I64).
      change (md I64 / 2) with (hf I64) in *. pose proof (md_hf I64). lia. }
    rewrite H0 in E. change (2 ^ 63) with (hf I64) in E. change (md I64 / 2) with (hf I64) in *. pose proof (md_hf I64). lia. }
  rewrite K in *. exists (Z.log2 k). split; [|congruence]. split; [apply Z.log2_nonneg|].
  apply Z.log2_lt_pow2; [lia|]. rewrite <- md_pow. lia.
Qed.
Lemma eqm_sub1 t x : wrap t (sv t x - 1) = wrap t (x - 1).
Proof. apply (eqm_eq t); auto with rng. rewrite !eqm_wrap, eqm_sv. reflexivity. Qed.
Lemma land_pow2 t x n : 0 <= n < bits t -> Z.land x (wrap t (sv t (2 ^ n) - 1)) = x mod 2 ^ n.
Proof. intros. rewrite eqm_sub1. apply land_mask; lia. Qed.
Lemma sv_pow2 t n : t <> I1 -> 0 <= n < bits t -> sv t (2 ^ n) = 2 ^ n \/ sv t (2 ^ n) = - 2 ^ n.
Proof.
  intros N R. destruct (2 ^ n <? hf t) eqn:E; [left|right].
  - destruct t; try congruence; unfold sv; rewrite E; reflexivity.
  - assert (n = bits t - 1). { rewrite hf_pow in E. assert (~ n < bits t - 1); [|lia]. intro. 
      pose proof (Z.pow_lt_mono_r 2 n (bits t - 1)). lia. }
    subst n. rewrite <- hf_pow. destruct t; try congruence; reflexivity.
Qed.
Lemma rem_pow2 t x n : t <> I1 -> 0 <= x < md t -> 0 <= n < bits t ->
  exists r, Z.rem (sv t x) (sv t (2 ^ n)) = r /\ - 2 ^ n < r < 2 ^ n /\ (r = x mod 2 ^ n \/ r < 0 /\ r + 2 ^ n = x mod 2 ^ n).
Proof.
  intros N R L. exists (Z.rem (sv t x) (2 ^ n)). pose proof (pow2_pos n (proj1 L)).
  split. { destruct (sv_pow2 t n N L) as [-> | ->]; auto. apply Z.rem_opp_r. lia. }
  assert (M : x mod 2 ^ n = sv t x mod 2 ^ n).
  { destruct (sv_eq t x) as [q ->]. rewrite md_pow. replace (bits t) with (bits t - n + n) by lia.
    rewrite Z.pow_add_r, Z.mul_assoc by lia. rewrite Z.mod_add by lia. reflexivity. }
  pose proof (Z.rem_bound_abs (sv t x) (2 ^ n)). split; [lia|]. rewrite M.
  pose proof (Z.quot_rem (sv t x) (2 ^ n)) as D. set (r := Z.rem _ _) in *. clearbody r. set (q := Z.quot _ _) in *. clearbody q.
  destruct (Z_le_gt_dec 0 r); [left|right; split; [lia|]].
  - apply Z.mod_unique with q; lia.
  - apply Z.mod_unique with (q - 1); lia.
Qed.
Ltac p1226 := match goal with H : sv ?t ?k = sv ?t ?k1, R : 0 <= ?x < md ?t |- context [Z.rem (sv ?t ?x) _] =>
   apply sv_inj in H; auto; subst k1; destruct (isPow2_inv t k) as (n & Hn & ->); auto; rewrite land_pow2 by assumption;
   destruct (rem_pow2 t x n) as (r & Er & Br & Cr); auto; rewrite Er in *; unfold evalCmp, doCompare in *;
   assert (2 ^ n <= hf t) by (rewrite hf_pow; apply Z.pow_le_mono_r; lia);
   rewrite sv_wrap_small, sv_0 in * by (auto; lia); ifs; try lia; f_equal; pose proof (md_hf t) end.
Lemma ok1226 : rule_ok Wr R1226.
Proof.
  std R1226; pre; p1226.
  - pose proof (Z.mod_pos_bound x1 (2 ^ n)). rewrite wrap_small by lia. lia.
  - transitivity (wrap t (r + 2 ^ n)); [|apply (eqm_eq t); auto with rng; rewrite !eqm_wrap, eqm_sv; reflexivity].
    pose proof (Z.mod_pos_bound x1 (2 ^ n)). destruct Cr as [->|[_ ->]]; [lia|]. symmetry. apply wrap_small. lia.
Qed.
Lemma wrap_pow2 t n : 0 <= n -> (n <? bits t) = true -> wrap t (1 * 2 ^ n) = 2 ^ n.
Proof. intros. rewrite Z.mul_1_l. apply wrap_small. rewrite md_pow. pose proof (pow2_pos n). 
  pose proof (Z.pow_lt_mono_r 2 n (bits t)). lia. Qed.
Lemma ok314 : rule_ok Wr R314.
Proof.
  prep R314. match goal with H : _ \/ _ |- _ => destruct H as [H|H] end; open_hyps; subst_vars; push_wt; fin; pre.
  - rewrite wrap_pow2 in * by (auto; lia). rewrite land_pow2 by lia. reflexivity.
  - destruct (isPow2_inv t k) as (n & Hn & ->); auto. rewrite land_pow2 by lia. reflexivity.
Qed.
(** Replacement valid only where the value is compared with 0: same type, well typed, and zero exactly
    when the original is. *)
Definition refines0 (e e' : expr) : Prop :=
  ty_of e' = ty_of e /\ wt e' /\
  forall env v, eval Wr env e = Some v -> exists v', eval Wr env e' = Some v' /\ (v' = 0 <-> v = 0).
Lemma rem0 t x n : t <> I1 -> 0 <= x < md t -> 0 <= n < bits t ->
  (x mod 2 ^ n = 0 <-> wrap t (Z.rem (sv t x) (sv t (2 ^ n))) = 0).
Proof.
  intros. destruct (rem_pow2 t x n) as (r & -> & B & C); auto.
  assert (2 ^ n <= hf t) by (rewrite hf_pow; apply Z.pow_le_mono_r; lia). pose proof (md_hf t).
  pose proof (Z.mod_pos_bound x (2 ^ n)).
  assert (wrap t r = 0 <-> r = 0) as ->. { split; [|intros ->; apply wrap_0]. intros E.
    rewrite <- (sv_wrap_small t r) by (auto; lia). rewrite E. apply sv_0. }
  lia.
Qed.
Lemma ok646 O e e' : oracle_ok O -> wt e -> R646 O e = Some e' -> refines0 e e'.
Proof.
  revert O e e'. start R646. subst_vars; push_wt; names; open_hyps; subst_vars; push_wt; cases; push_wt.
  match goal with H : _ \/ _ |- _ => destruct H as [H|H] end; open_hyps; subst_vars; push_wt; unfold refines0; 
  (split; [wtac|split; [wtac|go]]); cbn [evalBin ar] in *; consts.
  all: gen_ty; csts; ifs; inj.
  all: try (eexists; split; [reflexivity|]).
  - assert (t <> I1) by (destruct H6; [discriminate|assumption]). consts. rewrite wrap_pow2 in * by (auto; lia).
    rewrite land_pow2 by lia. apply rem0; auto; lia.
  - assert (t <> I1) by (destruct H6; [discriminate|assumption]).
    destruct (isPow2_inv t k) as (n & Hn & ->); auto. rewrite land_pow2 by lia. apply rem0; auto.
Qed.
Lemma land_pow2_bit x n : 0 <= n -> Z.land x (2 ^ n) = if Z.testbit x n then 2 ^ n else 0.
Proof.
  intros. apply Z.bits_inj'. intros i Hi. rewrite Z.land_spec, Z.pow2_bits_eqb by lia.
  destruct (n =? i) eqn:E.
  - apply Z.eqb_eq in E. subst i. rewrite andb_true_r. destruct (Z.testbit x n); [rewrite Z.pow2_bits_true by lia; reflexivity|rewrite Z.bits_0; reflexivity].
  - rewrite andb_false_r. destruct (Z.testbit x n); [rewrite Z.pow2_bits_eqb by lia; auto|rewrite Z.bits_0; reflexivity].
Qed.
Lemma testbit_sign t x : t <> I1 -> 0 <= x < md t -> Z.testbit x (bits t - 1) = (sv t x <? 0).
Proof.
  intros. rewrite Z.testbit_odd, Z.shiftr_div_pow2 by (pose proof (bits_pos t); lia). rewrite sign_bit by assumption.
  destruct (_ <? 0); reflexivity.
Qed.
Lemma mask902 t x : t <> I1 -> 0 <= x < md t ->
  Z.land x (wrap t (- (s64 (2 ^ (bits t - 1)) - 1))) = (if sv t x <? 0 then hf t else 0) + x mod 2.
Proof.
  intros N R. pose proof (hf_big t N). pose proof (bits_pos t).
  assert (wrap t (- (s64 (2 ^ (bits t - 1)) - 1)) = Z.lor (hf t) 1) as ->.
  { destruct t; try congruence; reflexivity. }
  rewrite Z.land_lor_distr_r, land_1. rewrite hf_pow, land_pow2_bit by lia. rewrite testbit_sign by assumption. rewrite <- hf_pow.
  pose proof (Z.mod_pos_bound x 2). destruct (sv t x <? 0); [|apply Z.lor_0_l].
  assert (x mod 2 = 0 \/ x mod 2 = 1) as [->| ->] by lia; [rewrite Z.lor_0_r; lia|]. destruct t; try congruence; reflexivity.
Qed.
Lemma ok902 : rule_ok Wr R902.
Proof.
  std R902; pre. rewrite sv_2 in * by assumption. rewrite mask902 by assumption.
  assert (Hr : -1 <= Z.rem (sv t x0) 2 <= 1) by (pose proof (rem2_abs (sv t x0)); pose proof (Z.mod_pos_bound (sv t x0) 2); lia).
  pose proof (hf_big t H3). pose proof (md_hf t). pose proof (Z.mod_pos_bound x0 2).
  rewrite ev_eq; [|destruct (sv t x0 <? 0); lia|auto with rng].
  unfold evalCmp, doCompare. rewrite sv_wrap_small, sv_1 by (auto; lia).
  assert (P : x0 mod 2 = sv t x0 mod 2). { destruct (sv_eq t x0) as [q ->]. rewrite md_hf. 
    replace (q * (2 * hf t)) with (q * hf t * 2) by ring. rewrite Z.mod_add by lia. reflexivity. }
  pose proof (rem2_abs (sv t x0)). rewrite P in *.
  assert (0 <= sv t x0 -> 0 <= Z.rem (sv t x0) 2) by (intros; apply Z.rem_nonneg; lia).
  assert (sv t x0 < 0 -> Z.rem (sv t x0) 2 <= 0) by (intros; apply Z.rem_nonpos; lia).
  destruct (sv t x0 <? 0) eqn:?; ifs; try reflexivity; lia.
Qed.

Lemma ev_ult t x y : 0 <= x < md t -> 0 <= y < md t -> evalCmp Iult t x y = if x <? y then 1 else 0.
Proof. intros. unfold evalCmp, doCompare. rewrite u64_lt by assumption. reflexivity. Qed.
Lemma ev_ugt t x y : 0 <= x < md t -> 0 <= y < md t -> evalCmp Iugt t x y = if y <? x then 1 else 0.
Proof. intros. unfold evalCmp, doCompare. rewrite Z.gtb_ltb, u64_lt by assumption. reflexivity. Qed.
Lemma sub_lo t x lo : t <> I1 -> 0 <= x < md t -> - hf t <= lo < hf t ->
  wrap t (sv t x - sv t (wrap t lo)) = if lo <=? sv t x then sv t x - lo else sv t x - lo + md t.
Proof.
  intros N R L. pose proof (sv_range_s t x N R). pose proof (md_hf t). rewrite sv_wrap_small by assumption.
  destruct (lo <=? sv t x) eqn:E.
  - apply wrap_small. lia.
  - unfold wrap. rewrite <- (Z.mod_small (sv t x - lo + md t) (md t)) by lia. 
    rewrite <- (Z.mod_add (sv t x - lo) 1 (md t)) by lia. f_equal. lia.
Qed.
Lemma range_in t x lo hi : t <> I1 -> 0 <= x < md t -> - hf t <= lo -> lo <= hi -> hi < hf t -> hi - lo + 1 < md t ->
  evalCmp Iult t (wrap t (sv t x - sv t (wrap t lo))) (wrap t (hi - lo + 1)) =
  if (lo <=? sv t x) && (sv t x <=? hi) then 1 else 0.
Proof.
  intros N R ? ? ? ?. pose proof (sv_range_s t x N R). pose proof (md_hf t).
  rewrite ev_ult by auto with rng. rewrite (wrap_small t (hi - lo + 1)) by lia. rewrite sub_lo by (auto; lia).
  destruct (lo <=? sv t x) eqn:?, (sv t x <=? hi) eqn:?; cbn [andb]; ifs; lia.
Qed.
Lemma range_out t x lo hi : t <> I1 -> 0 <= x < md t -> - hf t <= lo -> lo <= hi -> hi < hf t ->
  evalCmp Iugt t (wrap t (sv t x - sv t (wrap t lo))) (wrap t (hi - lo)) =
  if (sv t x <? lo) || (hi <? sv t x) then 1 else 0.
Proof.
  intros N R ? ? ?. pose proof (sv_range_s t x N R). pose proof (md_hf t).
  rewrite ev_ugt by auto with rng. rewrite (wrap_small t (hi - lo)) by lia. rewrite sub_lo by (auto; lia).
  destruct (lo <=? sv t x) eqn:?, (sv t x <? lo) eqn:?, (hi <? sv t x) eqn:?; cbn [orb]; ifs; lia.
Qed.
Lemma ev_eqk t x k : t <> I1 -> 0 <= x < md t -> - hf t <= k < hf t -> evalCmp Ieq t x (wrap t k) = if sv t x =? k then 1 else 0.
Proof. intros. unfold evalCmp, doCompare. rewrite sv_wrap_small by assumption. reflexivity. Qed.
Lemma ev_nek t x k : t <> I1 -> 0 <= x < md t -> - hf t <= k < hf t -> evalCmp Ine t x (wrap t k) = if sv t x =? k then 0 else 1.
Proof. intros. unfold evalCmp, doCompare. rewrite sv_wrap_small by assumption. destruct (_ =? _); reflexivity. Qed.


(** bound checks on i8 / i16 can wrap the number of values in the interval to 0; on wider types they cannot *)
Definition wideCmp (e : expr) : Prop := match e with Cmp _ a _ => 32 <= bits (ty_of a) | _ => True end.
Ltac kr := repeat match goal with N : ?t <> I1, R : 0 <= ?k < md ?t |- _ =>
   lazymatch goal with H : - hf t <= sv t k < hf t |- _ => fail | _ => pose proof (sv_range_s t k N R) end end.
Ltac rc := kr; repeat match goal with 
  | N : ?t <> I1 |- context [evalCmp Iult ?t (wrap ?t (sv ?t ?x - sv ?t (wrap ?t ?lo))) (wrap ?t (?hi - ?lo + 1))] =>
      rewrite (range_in t x lo hi) by (auto; lia)
  | N : ?t <> I1 |- context [evalCmp Iugt ?t (wrap ?t (sv ?t ?x - sv ?t (wrap ?t ?lo))) (wrap ?t (?hi - ?lo))] =>
      rewrite (range_out t x lo hi) by (auto; lia)
  | N : ?t <> I1, R : 0 <= ?x < md ?t |- context [evalCmp Ieq ?t ?x (wrap ?t ?k)] => rewrite (ev_eqk t x k) by (auto; lia)
  | N : ?t <> I1, R : 0 <= ?x < md ?t |- context [evalCmp Ine ?t ?x (wrap ?t ?k)] => rewrite (ev_nek t x k) by (auto; lia)
  end;
  unfold evalCmp, doCompare; repeat match goal with |- context [if ?b then _ else _] => destruct b eqn:? end; try reflexivity; exfalso; lia.
Lemma ok749 O e e' : oracle_ok O -> wt e -> R749 O e = Some e' -> wideCmp e' -> refines Wr e e'.
Proof.
  revert O e e'. start R749. subst_vars; push_wt; names; open_hyps; subst_vars; push_wt; cases; push_wt.
  intros WC.
  destruct c, c0; cbn [legalizeAnd] in H; cbv beta iota in H; cbn [icmp_eqb andb] in H; try discriminate H; cbv beta iota in H.
  all: cases; cbn [wideCmp ty_of like] in WC; fin; pre.
  all: try (assert (65537 < md t) by (destruct t; cbn in *; lia)).
  all: rc.
Qed.
Lemma ok794 : rule_ok Wr R794.
Proof.
  prep R794.
  destruct c, c0; cbn [legalizeOr] in H; cbv beta iota in H; cbn [icmp_eqb andb] in H; try discriminate H; cbv beta iota in H.
  all: cases; fin; pre.
  all: rc.
Qed.
