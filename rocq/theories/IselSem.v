(** C42: the arithmetic behind the selection patterns: what each target instruction computes on sign-extended
    operands. *)
From Coq Require Import ZArith List Bool Lia PeanoNat ZifyBool.
From Verif Require Import Word Rv64 CmpModel DivConst Isel.
Import ListNotations.
Local Open Scope Z_scope.
Ltac Zify.zify_post_hook ::= Z.div_mod_to_equations.

Definition B64 (x : Z) : Prop := -9223372036854775808 <= x < 9223372036854775808.
Lemma inR_64 t v : inR t v -> B64 v.
Proof. unfold B64. destruct t; cbn [inR bits]; intros H; lia. Qed.
Lemma sgn_range w v : 0 < w -> - 2 ^ (w - 1) <= sgn w v < 2 ^ (w - 1).
Proof.
  intros Hw. unfold sgn. pose proof (Z.mod_pos_bound (v + 2 ^ (w - 1)) (2 ^ w) ltac:(apply Z.pow_pos_nonneg; lia)).
  replace (2 ^ w) with (2 * 2 ^ (w - 1)) in * by (rewrite <- Z.pow_succ_r by lia; f_equal; lia). lia.
Qed.
Lemma sgn_small w v : 0 < w -> - 2 ^ (w - 1) <= v < 2 ^ (w - 1) -> sgn w v = v.
Proof.
  intros Hw H. unfold sgn. rewrite Z.mod_small; [lia|].
  replace (2 ^ w) with (2 * 2 ^ (w - 1)) by (rewrite <- Z.pow_succ_r by lia; f_equal; lia). lia.
Qed.
Lemma norm_range t v : inR t (norm t v).
Proof. destruct t; cbn [inR norm bits]; [pose proof (Z.mod_pos_bound v 2); lia| | | |]; apply sgn_range; lia. Qed.
Lemma norm_small t v : inR t v -> norm t v = v.
Proof. destruct t; cbn [inR norm bits]; intros H; [rewrite Z.mod_small; lia| | | |]; apply sgn_small; lia. Qed.
Lemma canon_small t v : inR t v -> canon t v = u64 v.
Proof. intros H. unfold canon. rewrite norm_small by exact H. reflexivity. Qed.
Lemma s64_u64 x : B64 x -> s64 (u64 x) = x.
Proof. unfold B64. apply s64_u64_small. Qed.
Lemma u64_s64 x : u64 (s64 x) = u64 x.
Proof. unfold u64, s64. lia. Qed.
Lemma canon32 v : canon I32 v = Rv.w v.
Proof. reflexivity. Qed.
Lemma canon64 v : canon I64 v = u64 v.
Proof. unfold canon, norm. change (sgn (bits I64) v) with (s64 v). apply u64_s64. Qed.
Lemma s64_canon t v : s64 (canon t v) = norm t v.
Proof. unfold canon. apply s64_u64, (inR_64 t), norm_range. Qed.
Lemma w_u64_add a b : Rv.w (u64 a + u64 b) = Rv.w (a + b).
Proof. apply w_eq. rewrite <- u32_add_l, u32_u64, u32_add_l, <- u32_add_r, u32_u64, u32_add_r. reflexivity. Qed.
Lemma w_u64_addz a b : Rv.w (u64 a + b) = Rv.w (a + b).
Proof. apply w_eq. rewrite <- u32_add_l, u32_u64, u32_add_l. reflexivity. Qed.
Lemma w_u64_sub a b : Rv.w (u64 a - u64 b) = Rv.w (a - b).
Proof. apply w_eq. rewrite <- u32_sub_l, u32_u64, u32_sub_l, <- u32_sub_r, u32_u64, u32_sub_r. reflexivity. Qed.
Lemma w_u64_mul a b : Rv.w (u64 a * u64 b) = Rv.w (a * b).
Proof. apply w_eq. rewrite <- u32_mul_u32_l, u32_u64, u32_mul_u32_l, <- u32_mul_u32_r, u32_u64, u32_mul_u32_r. reflexivity. Qed.
Lemma w_u64_mulz a b : Rv.w (u64 a * b) = Rv.w (a * b).
Proof. apply w_eq. rewrite <- u32_mul_u32_l, u32_u64, u32_mul_u32_l. reflexivity. Qed.
Lemma u64_sub2 a b : u64 (u64 a - u64 b) = u64 (a - b).
Proof. unfold u64. lia. Qed.
Lemma u64_add2 a b : u64 (u64 a + u64 b) = u64 (a + b).
Proof. unfold u64. lia. Qed.
Lemma u64_add1 a b : u64 (u64 a + b) = u64 (a + b).
Proof. unfold u64. lia. Qed.
Lemma s32_of32 a : inR I32 a -> s32 a = a.
Proof. intros H. apply s32_small. unfold inR, bits, INT_MIN, INT_MAX in *. change (2 ^ (32 - 1)) with 2147483648 in H. lia. Qed.

(** ** bitwise operations *)
Lemma u64_land a b : u64 (Z.land a b) = Z.land (u64 a) (u64 b).
Proof.
  unfold u64. change 18446744073709551616 with (2 ^ 64). rewrite <- !Z.land_ones by lia.
  rewrite <- !Z.land_assoc. f_equal. rewrite (Z.land_comm (Z.ones 64)), <- Z.land_assoc, Z.land_diag. reflexivity.
Qed.
Lemma u64_lor a b : u64 (Z.lor a b) = Z.lor (u64 a) (u64 b).
Proof. unfold u64. change 18446744073709551616 with (2 ^ 64). rewrite <- !Z.land_ones by lia. apply Z.land_lor_distr_l. Qed.
Lemma u64_bit x i : 0 <= i -> Z.testbit (u64 x) i = Z.testbit x i && (i <? 64).
Proof.
  intros Hi. unfold u64. change 18446744073709551616 with (2 ^ 64). destruct (i <? 64) eqn:E.
  - rewrite Z.mod_pow2_bits_low by lia. rewrite andb_true_r. reflexivity.
  - rewrite Z.mod_pow2_bits_high by lia. rewrite andb_false_r. reflexivity.
Qed.
Lemma u64_lxor a b : u64 (Z.lxor a b) = Z.lxor (u64 a) (u64 b).
Proof.
  apply Z.bits_inj'. intros i Hi. rewrite Z.lxor_spec, !u64_bit, Z.lxor_spec by lia.
  destruct (i <? 64); rewrite ?andb_true_r, ?andb_false_r; reflexivity.
Qed.
Lemma u64_lnot_u64 a : u64 (Z.lnot (u64 a)) = u64 (Z.lnot a).
Proof.
  apply Z.bits_inj'. intros i Hi. rewrite !u64_bit, !Z.lnot_spec, u64_bit by lia.
  destruct (i <? 64); rewrite ?andb_true_r, ?andb_false_r; reflexivity.
Qed.
Lemma range_shift k a : 0 <= k -> (- 2 ^ k <= a < 2 ^ k <-> Z.shiftr a k = 0 \/ Z.shiftr a k = -1).
Proof.
  intros Hk. rewrite Z.shiftr_div_pow2 by lia. assert (P : 0 < 2 ^ k) by (apply Z.pow_pos_nonneg; lia).
  split; intros H.
  - destruct (Z_lt_ge_dec a 0).
    + right. symmetry. apply (Z.div_unique a (2 ^ k) (-1) (a + 2 ^ k)); lia.
    + left. apply Z.div_small. lia.
  - pose proof (Z.div_mod a (2 ^ k) ltac:(lia)). pose proof (Z.mod_pos_bound a (2 ^ k) P). destruct H as [H | H]; rewrite H in *; lia.
Qed.
Lemma range_shift1 a : 0 <= a <= 1 <-> Z.shiftr a 1 = 0.
Proof. rewrite Z.shiftr_div_pow2 by lia. change (2 ^ 1) with 2. lia. Qed.
Lemma bits_pos t : 0 < bits t.
Proof. destruct t; cbn; lia. Qed.
Lemma inR_land t a b : inR t a -> inR t b -> inR t (Z.land a b).
Proof.
  assert (G : forall k, 0 <= k -> - 2 ^ k <= a < 2 ^ k -> - 2 ^ k <= b < 2 ^ k -> - 2 ^ k <= Z.land a b < 2 ^ k).
  { intros k Hk Ha Hb. apply range_shift in Ha, Hb; try lia. apply range_shift; [lia|]. rewrite Z.shiftr_land.
    destruct Ha as [-> | ->], Hb as [-> | ->]; auto. }
  destruct t; cbn [inR]; intros Ha Hb; try (apply G; [cbn; lia|exact Ha|exact Hb]).
  apply range_shift1 in Ha, Hb. apply range_shift1. rewrite Z.shiftr_land, Ha, Hb. reflexivity.
Qed.
Lemma inR_lor t a b : inR t a -> inR t b -> inR t (Z.lor a b).
Proof.
  assert (G : forall k, 0 <= k -> - 2 ^ k <= a < 2 ^ k -> - 2 ^ k <= b < 2 ^ k -> - 2 ^ k <= Z.lor a b < 2 ^ k).
  { intros k Hk Ha Hb. apply range_shift in Ha, Hb; try lia. apply range_shift; [lia|]. rewrite Z.shiftr_lor.
    destruct Ha as [-> | ->], Hb as [-> | ->]; auto. }
  destruct t; cbn [inR]; intros Ha Hb; try (apply G; [cbn; lia|exact Ha|exact Hb]).
  apply range_shift1 in Ha, Hb. apply range_shift1. rewrite Z.shiftr_lor, Ha, Hb. reflexivity.
Qed.
Lemma inR_lxor t a b : inR t a -> inR t b -> inR t (Z.lxor a b).
Proof.
  assert (G : forall k, 0 <= k -> - 2 ^ k <= a < 2 ^ k -> - 2 ^ k <= b < 2 ^ k -> - 2 ^ k <= Z.lxor a b < 2 ^ k).
  { intros k Hk Ha Hb. apply range_shift in Ha, Hb; try lia. apply range_shift; [lia|]. rewrite Z.shiftr_lxor.
    destruct Ha as [-> | ->], Hb as [-> | ->]; auto. }
  destruct t; cbn [inR]; intros Ha Hb; try (apply G; [cbn; lia|exact Ha|exact Hb]).
  apply range_shift1 in Ha, Hb. apply range_shift1. rewrite Z.shiftr_lxor, Ha, Hb. reflexivity.
Qed.
Lemma lxor_m1 a : Z.lxor a (-1) = Z.lnot a.
Proof. apply Z.lxor_m1_r. Qed.
Lemma inR_lnot t a : t <> B1 -> inR t a -> inR t (Z.lnot a).
Proof. unfold Z.lnot. destruct t; cbn [inR]; intros N H; try congruence; lia. Qed.

(** ** one lemma per family of patterns *)
Lemma logicR_ok o orr t a b v : logicR o = Some orr -> inR t a -> inR t b -> gbinV o t a b = Some v ->
  evRR orr (u64 a) (u64 b) = canon t v.
Proof.
  intros L Ha Hb G. destruct o; try discriminate L; cbn in L; injection L as <-; cbn [gbinV] in G; injection G as <-;
    cbn [evRR]; unfold Rv.AND, Rv.OR, Rv.XOR.
  - rewrite canon_small by (apply inR_land; assumption). symmetry. apply u64_land.
  - rewrite canon_small by (apply inR_lor; assumption). symmetry. apply u64_lor.
  - rewrite canon_small by (apply inR_lxor; assumption). symmetry. apply u64_lxor.
Qed.
Lemma logicI_ok o oi t a z v : logicI o = Some oi -> inR t a -> inR t z -> gbinV o t a z = Some v ->
  evRI oi (u64 a) z = canon t v.
Proof.
  intros L Ha Hb G. destruct o; try discriminate L; cbn in L; injection L as <-; cbn [gbinV] in G; injection G as <-;
    cbn [evRI]; unfold Rv.ANDI, Rv.ORI, Rv.XORI.
  - rewrite canon_small by (apply inR_land; assumption). symmetry. apply u64_land.
  - rewrite canon_small by (apply inR_lor; assumption). symmetry. apply u64_lor.
  - rewrite canon_small by (apply inR_lxor; assumption). symmetry. apply u64_lxor.
Qed.
Definition tw (w : bool) : ty := if w then I32 else I64.
Lemma u64_nonneg a : 0 <= u64 a.
Proof. apply u64_range. Qed.
Lemma arithR_ok o w orr a b v : arithR o w = Some orr -> inR (tw w) a -> inR (tw w) b ->
  gbinV o (tw w) a b = Some v -> evRR orr (u64 a) (u64 b) = canon (tw w) v.
Proof.
  intros L Ha Hb G. destruct o; try discriminate L; destruct w; cbn in L; injection L as <-; cbn [tw] in *; rewrite ?canon32, ?canon64;
    cbn [gbinV bits] in G; cbn [evRR].
  - injection G as <-. apply w_u64_mul.
  - injection G as <-. unfold Rv.MUL. apply u64_mul_u64.
  - destruct ((b =? 0) || ((a =? - 2 ^ (32 - 1)) && (b =? -1))) eqn:E; [discriminate|]. injection G as <-.
    unfold Rv.DIVW. rewrite !s32_u64, !s32_of32 by assumption. destruct (b =? 0); [discriminate|reflexivity].
  - destruct ((b =? 0) || ((a =? - 2 ^ (64 - 1)) && (b =? -1))) eqn:E; [discriminate|]. injection G as <-.
    rewrite !s64_u64 by (apply (inR_64 I64); assumption). destruct (b =? 0); [discriminate|reflexivity].
  - destruct ((b =? 0) || ((a =? - 2 ^ (32 - 1)) && (b =? -1))) eqn:E; [discriminate|]. injection G as <-.
    unfold Rv.REMW. rewrite !s32_u64, !s32_of32 by assumption. destruct (b =? 0); [discriminate|reflexivity].
  - destruct ((b =? 0) || ((a =? - 2 ^ (64 - 1)) && (b =? -1))) eqn:E; [discriminate|]. injection G as <-.
    rewrite !s64_u64 by (apply (inR_64 I64); assumption). destruct (b =? 0); [discriminate|reflexivity].
  - change (b mod 2 ^ 32) with (u32 b) in G. change (a mod 2 ^ 32) with (u32 a) in G.
    destruct (u32 b =? 0) eqn:E; [discriminate|]. injection G as <-. unfold Rv.DIVUW. rewrite !u32_u64, E. reflexivity.
  - change (b mod 2 ^ 64) with (u64 b) in G. change (a mod 2 ^ 64) with (u64 a) in G.
    destruct (u64 b =? 0) eqn:E; [discriminate|]. injection G as <-. reflexivity.
  - change (b mod 2 ^ 32) with (u32 b) in G. change (a mod 2 ^ 32) with (u32 a) in G.
    destruct (u32 b =? 0) eqn:E; [discriminate|]. injection G as <-. unfold Rv.REMUW. rewrite !u32_u64, E. reflexivity.
  - change (b mod 2 ^ 64) with (u64 b) in G. change (a mod 2 ^ 64) with (u64 a) in G.
    destruct (u64 b =? 0) eqn:E; [discriminate|]. injection G as <-. reflexivity.
Qed.
Lemma shiftI_ok o w oi a z v : shiftI o w = Some oi -> inR (tw w) a ->
  gbinV o (tw w) a z = Some v -> evRI oi (u64 a) z = canon (tw w) v.
Proof.
  intros L Ha G. destruct o; try discriminate L; destruct w; cbn in L; injection L as <-; cbn [tw] in *; rewrite ?canon32, ?canon64;
    cbn [gbinV bits] in G; destruct ((0 <=? z) && (z <? _)) eqn:E; try discriminate; injection G as <-; cbn [evRI].
  - apply w_u64_mulz.
  - unfold Rv.SLLI. apply u64_mul_u64_l.
  - unfold Rv.SRAIW. rewrite s32_u64, s32_of32 by assumption. reflexivity.
  - unfold Rv.SRAI. rewrite s64_u64 by (apply (inR_64 I64); assumption). reflexivity.
  - unfold Rv.SRLIW. rewrite u32_u64. reflexivity.
  - unfold Rv.SRLI. change (a mod 2 ^ 64) with (u64 a). unfold u64 at 2. symmetry. apply Z.mod_small.
    assert (P : 0 < 2 ^ z) by (apply Z.pow_pos_nonneg; lia). pose proof (u64_range a).
    split; [apply Z.div_pos; lia|]. apply Z.div_lt_upper_bound; nia.
Qed.
Lemma u64_amount b w : inR (tw w) b -> 0 <= b < bits (tw w) -> u64 b mod bits (tw w) = b.
Proof. intros H R. unfold u64. destruct w; cbn [tw bits inR] in *; lia. Qed.
Lemma shiftR_ok o w orr a b v : shiftR o w = Some orr -> inR (tw w) a -> inR (tw w) b ->
  gbinV o (tw w) a b = Some v -> evRR orr (u64 a) (u64 b) = canon (tw w) v.
Proof.
  intros L Ha Hb G.
  assert (Rb : 0 <= b < bits (tw w)).
  { destruct o; try discriminate L; cbn [gbinV] in G; destruct ((0 <=? b) && (b <? bits (tw w))) eqn:E; try discriminate; lia. }
  pose proof (u64_amount b w Hb Rb) as A.
  destruct (shiftI o w) as [oi|] eqn:LI; [|destruct o, w; discriminate].
  rewrite <- (shiftI_ok o w oi a b v LI Ha G).
  destruct o; try discriminate L; destruct w; cbn in L, LI; injection L as <-; injection LI as <-; cbn [tw bits] in A; cbn [evRR evRI];
    unfold Rv.SLLW, Rv.SRLW, Rv.SRAW, Rv.SLLIW, Rv.SRLIW, Rv.SRAIW, Rv.SLLI, Rv.SRLI, Rv.SRAI; rewrite A; reflexivity.
Qed.
Lemma minmax_ok t a b : inR t a -> inR t b -> evRR MIN (u64 a) (u64 b) = canon t (Z.min a b) /\ evRR MAX (u64 a) (u64 b) = canon t (Z.max a b).
Proof.
  intros Ha Hb. cbn [evRR]. rewrite !s64_u64 by (eapply inR_64; eassumption).
  rewrite !canon_small; [split; reflexivity| |].
  - destruct (Z.max_spec a b) as [[_ ->] | [_ ->]]; assumption.
  - destruct (Z.min_spec a b) as [[_ ->] | [_ ->]]; assumption.
Qed.
(** comparisons *)
Lemma cmpV_u64 c a b : B64 a -> B64 b -> cmpV c (u64 a) (u64 b) = doCompare c a b.
Proof. intros Ha Hb. unfold cmpV. rewrite !s64_u64 by assumption. reflexivity. Qed.
Lemma slt_ok a b : B64 a -> B64 b -> Rv.SLT (u64 a) (u64 b) = b2z (doCompare Islt a b).
Proof. intros Ha Hb. unfold Rv.SLT, b2z. rewrite !s64_u64 by assumption. reflexivity. Qed.
Lemma sltu_ok a b : Rv.SLTU (u64 a) (u64 b) = b2z (doCompare Iult a b).
Proof. reflexivity. Qed.
Lemma doCompare_rev c a b : doCompare (revI c) b a = doCompare c a b.
Proof. destruct c; cbn [doCompare revI]; lia. Qed.
Lemma doCompare_inv c a b : doCompare (invI c) a b = negb (doCompare c a b).
Proof. destruct c; cbn [doCompare invI]; lia. Qed.
(** the rewrites of inclusive comparisons with a constant: when the signed or unsigned constant is not the extreme
    one, c + 1 and c - 1 have the expected order on sign-extended operands *)
Lemma tighten_ok c z t c' b' a : inR t z -> inR t a -> tighten c (OI z t) = Some (c', b') ->
  exists z', b' = OI z' t /\ B64 z' /\ doCompare c' a z' = doCompare c a z.
Proof.
  intros Hz Ha H. pose proof (inR_64 _ _ Hz) as Bz. pose proof (inR_64 _ _ Ha) as Ba. unfold B64 in *.
  destruct c; cbn [tighten] in H;
    try (injection H as <- <-; exists z; split; [reflexivity|]; split; [unfold B64; lia|reflexivity]);
    destruct t; cbn [maxS minS maxU unsImm] in H; try discriminate;
    match type of H with context[if ?x then _ else _] => destruct x eqn:E end;
    injection H as <- <-;
    try (exists z; split; [reflexivity|]; split; [unfold B64; lia|reflexivity]);
    (eexists; split; [reflexivity|]; split; [unfold B64; unfold s64; lia|]); cbn [doCompare inR bits] in *;
    unfold u64, u32, s64 in *; lia.
Qed.
(** signed rewrites need no agreement of types *)
Lemma tighten_signed c z t c' b' a : B64 z -> B64 a -> c <> Iule -> c <> Iuge -> tighten c (OI z t) = Some (c', b') ->
  exists z', b' = OI z' t /\ B64 z' /\ doCompare c' a z' = doCompare c a z.
Proof.
  intros Bz Ba N1 N2 H. unfold B64 in *.
  destruct c; try congruence; cbn [tighten] in H;
    try (injection H as <- <-; exists z; split; [reflexivity|]; split; [unfold B64; lia|reflexivity]);
    destruct t; cbn [maxS minS maxU unsImm] in H; try discriminate;
    match type of H with context[if ?x then _ else _] => destruct x eqn:E end;
    injection H as <- <-;
    try (exists z; split; [reflexivity|]; split; [unfold B64; lia|reflexivity]);
    (eexists; split; [reflexivity|]; split; [unfold B64; unfold s64; lia|]); cbn [doCompare inR bits] in *;
    unfold u64, u32, s64 in *; lia.
Qed.
