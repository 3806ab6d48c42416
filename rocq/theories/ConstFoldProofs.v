(** Proofs for ConstFold.v *)
From Coq Require Import ZArith Lia Bool List ZifyBool.
From Verif Require Import Word CmpModel IR ConstFold.
Import ListNotations.
Local Open Scope Z_scope.

Definition M63 : Z := 9223372036854775808.
Definition in64 (z : Z) := -9223372036854775808 <= z < 9223372036854775808.

Lemma i64_in z r : i64 z = Some r -> r = z /\ in64 z.
Proof. unfold i64, in64. destruct (_ && _) eqn:E; [|discriminate]. intros H; injection H as <-. lia. Qed.
Lemma s64_in z : in64 (s64 z).
Proof. unfold s64, in64. pose proof (Z.mod_pos_bound (z + 9223372036854775808) 18446744073709551616 ltac:(lia)). lia. Qed.
Lemma getU_range t s : 0 <= getU t s < md t.
Proof. unfold getU. apply Z.mod_pos_bound. destruct t; reflexivity. Qed.
Lemma getS_bool s : getS I1 s = 0 \/ getS I1 s = 1.
Proof. cbn. destruct (s =? 0); auto. Qed.
Lemma getU_bool s : getU I1 s = 0 \/ getU I1 s = 1.
Proof. pose proof (getU_range I1 s). change (md I1) with 2 in *. lia. Qed.
Lemma getS_in t s : in64 s -> in64 (getS t s).
Proof.
  unfold in64, getS. intros H. pose proof (getU_range t s) as R. unfold getU in R.
  destruct t; cbn [md hf] in *; try (destruct (_ =? _); lia); try (destruct (_ <? _); lia); auto.
Qed.
(** the signed view is a function of the unsigned one, given a legal storage *)
Lemma getS_of_U t s : t <> I1 -> in64 s -> getS t s = if getU t s <? hf t then getU t s else getU t s - md t.
Proof.
  intros N H. unfold getS, getU. destruct t; try reflexivity; try congruence.
  unfold in64 in H. cbn [md hf]. 
  destruct (Z_lt_le_dec s 0).
  - replace (s mod 18446744073709551616) with (s + 18446744073709551616).
    + replace (_ <? _) with false by lia. lia.
    + symmetry. rewrite <- (Z.mod_add _ 1) by lia. apply Z.mod_small. lia.
  - rewrite Z.mod_small by lia. replace (_ <? _) with true by lia. reflexivity.
Qed.
Lemma boolS s : s = 0 \/ s = 1 -> getS I1 s = s /\ getU I1 s = s.
Proof. intros [-> | ->]; split; reflexivity. Qed.
Lemma mk_id t s : t <> I1 -> mk t s = s.
Proof. destruct t; auto. congruence. Qed.
Lemma mk_bool s : s = 0 \/ s = 1 -> mk I1 s = s.
Proof. intros [-> | ->]; reflexivity. Qed.
Lemma mk_bool_in s : mk I1 s = 0 \/ mk I1 s = 1.
Proof. cbn. pose proof (Z.mod_pos_bound s 2 ltac:(lia)). lia. Qed.

Section FP.
Variable F : Type.
Variable rnd32 : F -> F.
Variable fop : fbin -> F -> F -> F.
Variable fop1 : fun1 -> F -> F.
Variable ffma : F -> F -> F -> F.
Variable fcmp3 : F -> F -> option comparison.
Variable f2s : F -> option Z.
Variable f2u : F -> option Z.
Variable z2f : Z -> F.
Hypothesis f2s_range : forall x z, f2s x = Some z -> in64 z.

Notation value := (value F).
Notation expr := (expr F).
Notation eval := (eval F rnd32 fop fop1 ffma fcmp3 f2s f2u z2f).
Notation cp := (cp F rnd32 fop fop1 ffma fcmp3 f2s f2u z2f).
Notation same := (same F rnd32).
Notation stored := (stored F).
Notation same_outcome := (same_outcome F rnd32).

Definition tyv (v : value) : option ty := match v with VI t _ => Some t | VF _ _ => None end.

Lemma same_refl v : same v v.
Proof. destruct v; cbn; auto. Qed.
Lemma same_trans u v w : same u v -> same v w -> same u w.
Proof.
  destruct u, v, w; cbn; try tauto.
  - intros (-> & ? & ?) (-> & ? & ?). repeat split; congruence.
  - intros (-> & ?) (-> & ?). split; congruence.
Qed.

Lemma stored_int t s : stored (VI t s) -> t <> I1 -> in64 s.
Proof. destruct t; cbn; auto; congruence. Qed.
Lemma stored_any t s : stored (VI t s) -> in64 s.
Proof. destruct t; cbn; auto. unfold in64. lia. Qed.
Lemma stored_mk t z : in64 z -> stored (VI t (mk t z)).
Proof. destruct t; cbn; auto. intros _. pose proof (Z.mod_pos_bound z 2 ltac:(lia)). lia. Qed.

(** ** what an instruction must satisfy *)
(** congruence: it sees its operands only through the views *)
Definition weak (o o' : outcome value) : Prop := o = Undef \/ same_outcome o o'.
(** agreement of the folder with the interpreter *)
Definition agree (i : outcome value) (f : fout F) : Prop :=
  match i with
  | Val r => match f with FVal r' => same r r' | FNone => True | FUB => False end
  | Div0 => f = FNone
  | Undef => True
  end.
Definition sres (t : option ty) (f : fout F) : Prop :=
  match f with FVal r => stored r /\ tyv r = t | _ => True end.

Lemma raw_same t z : (t = I1 -> z = 0 \/ z = 1) -> same (VI t z) (VI t (mk t z)).
Proof.
  intros H. destruct t; try (cbn; tauto). rewrite mk_bool by auto. apply same_refl.
Qed.

Lemma rawUn_cong op t a a' : getS t a = getS t a' -> rawUn op t a = rawUn op t a'.
Proof. intros H. destruct op; cbn; now rewrite H. Qed.
Lemma rawBin_cong op t a a' b b' : getS t a = getS t a' -> getU t a = getU t a' ->
  getS t b = getS t b' -> getU t b = getU t b' -> rawBin op t a b = rawBin op t a' b'.
Proof. intros H1 H2 H3 H4. destruct op; unfold rawBin; now rewrite ?H1, ?H2, ?H3, ?H4. Qed.

Ltac solve_cong :=
  repeat match goal with |- context [if ?b then _ else _] => destruct b end;
  cbn [ob weak same_outcome]; try (left; reflexivity); right; try exact I; try apply same_refl.

Lemma cUn op v v' : same v v' -> weak (iUn F op v) (iUn F op v').
Proof.
  destruct v as [t a|g x], v' as [t' a'|g' x']; cbn; try tauto; try (now left).
  intros (<- & S & U). rewrite (rawUn_cong op t a a' S). destruct (rawUn op t a'); solve_cong.
Qed.
Lemma cBin op v v' w w' : same v v' -> same w w' -> weak (iBin F op v w) (iBin F op v' w').
Proof.
  destruct v as [t a|g x], v' as [t' a'|g' x']; cbn; try tauto; try (now left).
  intros (<- & S & U). destruct w as [r b|h y], w' as [r' b'|h' y']; cbn; try tauto; try (now left).
  intros (<- & S2 & U2). destruct (ty_eqb t r) eqn:E; [|now left].
  assert (t = r) by (destruct t, r; try reflexivity; discriminate). subst r.
  rewrite (rawBin_cong op t a a' b b') by auto. destruct (rawBin op t a' b'); solve_cong.
Qed.
Lemma cCmp c v v' w w' : same v v' -> same w w' -> weak (iCmp F c v w) (iCmp F c v' w').
Proof.
  destruct v as [t a|g x], v' as [t' a'|g' x']; cbn; try tauto; try (now left).
  intros (<- & S & U). destruct w as [r b|h y], w' as [r' b'|h' y']; cbn; try tauto; try (now left).
  intros (<- & S2 & U2). destruct (ty_eqb t r) eqn:E; [|now left].
  assert (t = r) by (destruct t, r; try reflexivity; discriminate). subst r. rewrite S, S2. right. apply same_refl.
Qed.
Lemma cCast op t v v' : same v v' -> weak (iCast F op t v) (iCast F op t v').
Proof.
  destruct v as [t0 a|g x], v' as [t' a'|g' x']; cbn; try tauto; try (now left).
  intros (<- & S & U). right. unfold rawCast. destruct op; rewrite ?S, ?U; apply same_refl.
Qed.
Lemma cSel u u' v v' w w' : same u u' -> same v v' -> same w w' -> weak (iSel F u v w) (iSel F u' v' w').
Proof.
  destruct u as [t a|g x], u' as [t' a'|g' x']; cbn; try tauto; try (now left).
  intros (<- & S & U) H1 H2. unfold iSel. assert (same_type F v w = same_type F v' w') as <-.
  { destruct v, v'; cbn in H1; try tauto; destruct w, w'; cbn in H2; try tauto; cbn; try reflexivity.
    - destruct H1 as (-> & _), H2 as (-> & _). reflexivity.
    - destruct H1 as (-> & _), H2 as (-> & _). reflexivity. }
  destruct (same_type F v w); [right|now left]. rewrite U. destruct (_ =? 0); auto.
Qed.
Lemma cFUn op v v' : same v v' -> weak (iFUn F rnd32 fop1 op v) (iFUn F rnd32 fop1 op v').
Proof.
  destruct v as [t a|g x], v' as [t' a'|g' x']; cbn; try tauto; try (now left).
  intros (<- & H). right. rewrite H. apply same_refl.
Qed.
Lemma cFBin op v v' w w' : same v v' -> same w w' -> weak (iFBin F rnd32 fop op v w) (iFBin F rnd32 fop op v' w').
Proof.
  destruct v as [t a|g x], v' as [t' a'|g' x']; cbn; try tauto; try (now left).
  intros (<- & H). destruct w as [r b|h y], w' as [r' b'|h' y']; cbn; try tauto; try (now left).
  intros (<- & H2). rewrite H, H2. solve_cong.
Qed.
Lemma cFFma u u' v v' w w' : same u u' -> same v v' -> same w w' ->
  weak (iFFma F rnd32 ffma u v w) (iFFma F rnd32 ffma u' v' w').
Proof.
  destruct u as [t a|g x], u' as [t' a'|g' x']; cbn; try tauto; try (now left). intros (<- & H).
  destruct v as [r b|h y], v' as [r' b'|h' y']; cbn; try tauto; try (now left). intros (<- & H2).
  destruct w as [q c|k z], w' as [q' c'|k' z']; cbn; try tauto; try (now left). intros (<- & H3).
  rewrite H, H2, H3. solve_cong.
Qed.
Lemma cFCmp c v v' w w' : same v v' -> same w w' -> weak (iFCmp F rnd32 fcmp3 c v w) (iFCmp F rnd32 fcmp3 c v' w').
Proof.
  destruct v as [t a|g x], v' as [t' a'|g' x']; cbn; try tauto; try (now left).
  intros (<- & H). destruct w as [r b|h y], w' as [r' b'|h' y']; cbn; try tauto; try (now left).
  intros (<- & H2). rewrite H, H2. destruct (doCompareFP _ _); solve_cong.
Qed.
Lemma cF2S t v v' : same v v' -> weak (iF2S F rnd32 f2s t v) (iF2S F rnd32 f2s t v').
Proof.
  destruct v as [r a|g x], v' as [r' a'|g' x']; cbn; try tauto; try (now left).
  intros (<- & H). rewrite H. destruct (f2s _); solve_cong.
Qed.
Lemma cF2U t v v' : same v v' -> weak (iF2U F rnd32 f2u t v) (iF2U F rnd32 f2u t v').
Proof.
  destruct v as [r a|g x], v' as [r' a'|g' x']; cbn; try tauto; try (now left).
  intros (<- & H). rewrite H. destruct (f2u _); solve_cong.
Qed.
Lemma cS2F g v v' : same v v' -> weak (iS2F F z2f g v) (iS2F F z2f g v').
Proof.
  destruct v as [r a|h x], v' as [r' a'|h' x']; cbn; try tauto; try (now left).
  intros (<- & S & U). right. rewrite S. apply same_refl.
Qed.
Lemma cU2F g v v' : same v v' -> weak (iU2F F z2f g v) (iU2F F z2f g v').
Proof.
  destruct v as [r a|h x], v' as [r' a'|h' x']; cbn; try tauto; try (now left).
  intros (<- & S & U). right. rewrite U. apply same_refl.
Qed.
Lemma cFCast g v v' : same v v' -> weak (iFCast F rnd32 g v) (iFCast F rnd32 g v').
Proof.
  destruct v as [r a|h x], v' as [r' a'|h' x']; cbn; try tauto; try (now left).
  intros (<- & H). right. rewrite H. apply same_refl.
Qed.

(** ** folding one instruction *)
Lemma aUn op v t : stored v -> tyv v = t -> t <> Some I1 -> agree (iUn F op v) (fUn F op v) /\ sres t (fUn F op v).
Proof.
  destruct v as [r a|g x]; cbn [tyv]; [|intros; cbn; auto]. intros S <- N. assert (r <> I1) by congruence.
  unfold iUn, fUn, rawUn. destruct op.
  - destruct (i64 _) eqn:E; cbn; auto. apply i64_in in E as [-> E]. unfold makeInt.
    split; [apply raw_same; congruence|]. split; [apply stored_mk; auto|reflexivity].
  - destruct (i64 _) eqn:E; cbn; auto. apply i64_in in E as [-> E]. unfold makeInt.
    split; [apply raw_same; congruence|]. split; [apply stored_mk; auto|reflexivity].
Qed.
Lemma quot_in a b : in64 a -> b <> 0 -> ~ (a = -9223372036854775808 /\ b = -1) -> in64 (Z.quot a b).
Proof.
  unfold in64. intros A B N. destruct (Z.eq_dec b (-1)) as [->|].
  { replace (Z.quot a (-1)) with (- a); [lia|]. change (-1) with (- (1)). rewrite Z.quot_opp_r, Z.quot_1_r by lia. reflexivity. }
  destruct (Z.eq_dec b 1) as [->|]. { rewrite Z.quot_1_r. lia. }
  assert (Z.abs (Z.quot a b) <= Z.abs a / 2).
  { rewrite <- Z.quot_abs by auto. rewrite Z.quot_div_nonneg by lia. apply Z.div_le_compat_l; lia. }
  assert (Z.abs a / 2 <= 9223372036854775808 / 2) by (apply Z.div_le_mono; lia). change (9223372036854775808 / 2) with 4611686018427387904 in *. lia.
Qed.
Lemma rem_in a b : in64 a -> b <> 0 -> in64 (Z.rem a b).
Proof.
  unfold in64. intros A B. destruct (Z_le_gt_dec 0 a).
  - pose proof (Z.rem_bound_pos a (Z.abs b) ltac:(lia) ltac:(lia)). rewrite Z.rem_abs_r in H by auto.
    pose proof (Z.rem_le a (Z.abs b) ltac:(lia) ltac:(lia)). rewrite Z.rem_abs_r in H0 by auto. lia.
  - pose proof (Z.rem_bound_pos (- a) (Z.abs b) ltac:(lia) ltac:(lia)). rewrite Z.rem_abs_r, Z.rem_opp_l in H by auto.
    pose proof (Z.rem_le (- a) (Z.abs b) ltac:(lia) ltac:(lia)). rewrite Z.rem_abs_r, Z.rem_opp_l in H0 by auto. lia.
Qed.
Lemma shr_in a n : in64 a -> 0 <= n -> in64 (a / 2 ^ n).
Proof.
  unfold in64. intros A N. assert (P : 0 < 2 ^ n) by (apply Z.pow_pos_nonneg; lia).
  assert (a / 2 ^ n <= Z.max a 0). { destruct (Z_le_gt_dec 0 a); [|assert (a / 2 ^ n < 0) by (apply Z.div_lt_upper_bound; lia); lia].
    assert (a / 2 ^ n <= a) by (apply Z.div_le_upper_bound; nia). lia. }
  assert (Z.min a 0 <= a / 2 ^ n). { apply Z.div_le_lower_bound; [lia|]. destruct (Z_le_gt_dec 0 a); [|nia]. lia. }
  lia.
Qed.

Lemma fin_val t z : (t = I1 -> z = 0 \/ z = 1) -> in64 z ->
  agree (Val (VI t z)) (FVal (makeInt F t z)) /\ sres (Some t) (FVal (makeInt F t z)).
Proof. intros H R. split; [apply raw_same; auto|]. split; [apply stored_mk; auto|reflexivity]. Qed.

Lemma fin_val2 t z : in64 z -> sres (Some t) (FVal (makeInt F t z)).
Proof. intros H. split; [apply stored_mk; auto|reflexivity]. Qed.
Ltac bit01 := first [left; vm_compute; reflexivity | right; vm_compute; reflexivity].
Lemma aBin op v w t : stored v -> stored w -> tyv v = t -> (t = Some I1 -> boolop op = true) ->
  agree (iBin F op v w) (fBin F op v w) /\ sres t (fBin F op v w).
Proof.
  destruct v as [r a|g x]; cbn [tyv]; [|intros; cbn; auto]. intros SA SB <- N.
  destruct w as [r' b|h y]; [|cbn; auto].
  assert (RA : in64 (getS r a)) by (apply getS_in, (stored_any r), SA).
  assert (RB : in64 (getS r' b)) by (apply getS_in, (stored_any r'), SB).
  unfold iBin. destruct (ty_eqb r r') eqn:E.
  2:{ split; [exact I|]. assert (J : forall z, in64 z -> sres (Some r) (FVal (makeInt F r z))) by (intros z Hz; apply fin_val2, Hz).
      unfold fBin, fo. destruct op;
      repeat match goal with |- context [if ?b then _ else _] => destruct b eqn:? | |- context [i64 ?b] => destruct (i64 b) eqn:? end;
      try exact I; apply J;
      repeat match goal with H : i64 _ = Some _ |- _ => apply i64_in in H as [-> H] end; auto using s64_in.
      - apply quot_in; auto; lia.
      - apply rem_in; auto; lia.
      - apply shr_in; auto. apply (getU_range r' b).
      - unfold in64 in *; lia.
      - unfold in64 in *; lia. }
  assert (r = r') by (destruct r, r'; try reflexivity; discriminate). subst r'.
  pose proof (getU_range r a) as UA. pose proof (getU_range r b) as UB.
  assert (NB : boolop op = false -> r <> I1) by (intros Q ->; rewrite N in Q; [discriminate|reflexivity]).
  unfold fBin, rawBin. destruct op; cbn [boolop] in NB.
  - destruct (i64 _) eqn:Q; cbn; auto. apply i64_in in Q as [-> Q]. apply fin_val; auto. intros ->. now destruct NB.
  - destruct (i64 _) eqn:Q; cbn; auto. apply i64_in in Q as [-> Q]. apply fin_val; auto. intros ->. now destruct NB.
  - destruct (i64 _) eqn:Q; cbn; auto. apply i64_in in Q as [-> Q]. apply fin_val; auto. intros ->. now destruct NB.
  - destruct (_ =? 0) eqn:Z0; [cbn; auto|]. destruct (_ && _) eqn:Q.
    + assert (i64 (Z.quot (getS r a) (getS r b)) = None).
      { replace (getS r a) with (-9223372036854775808) by lia. replace (getS r b) with (-1) by lia. reflexivity. }
      rewrite H. cbn [oo ob agree]. split; auto. split; [apply stored_mk; auto|reflexivity].
    + assert (in64 (Z.quot (getS r a) (getS r b))) by (apply quot_in; auto; lia).
      unfold i64. replace (_ && _) with true by (unfold in64 in *; lia). cbn [oo ob].
      apply fin_val; auto. intros ->. now destruct NB.
  - destruct (_ =? 0) eqn:Z0; [cbn; auto|]. cbn [ob]. apply fin_val; [|apply s64_in]. intros ->. clear - UA UB Z0.
    change (md I1) with 2 in *. assert (getU I1 b = 1) by lia. rewrite H, Z.div_1_r.
    assert (getU I1 a = 0 \/ getU I1 a = 1) as [-> | ->] by lia; bit01.
  - destruct (_ =? 0) eqn:Z0; [cbn; auto|]. destruct (_ && _); [cbn; auto|]. cbn [ob].
    apply fin_val; [intros ->; now destruct NB|]. apply rem_in; auto; lia.
  - destruct (_ =? 0) eqn:Z0; [cbn; auto|]. cbn [ob]. apply fin_val; [|apply s64_in]. intros ->. clear - UA UB Z0.
    change (md I1) with 2 in *. assert (getU I1 b = 1) by lia. rewrite H, Z.mod_1_r. auto.
  - cbn [ob]. apply fin_val; [|apply s64_in]. intros ->.
    destruct (getU_bool a) as [-> | ->], (getU_bool b) as [-> | ->]; bit01.
  - cbn [ob]. apply fin_val; [|apply s64_in]. intros ->.
    destruct (getU_bool a) as [-> | ->], (getU_bool b) as [-> | ->]; bit01.
  - cbn [ob]. apply fin_val; [|apply s64_in]. intros ->.
    destruct (getU_bool a) as [-> | ->], (getU_bool b) as [-> | ->]; bit01.
  - destruct (64 <=? _) eqn:Q; [cbn; auto|]. cbn [ob]. apply fin_val; [|apply s64_in]. intros ->. now destruct NB.
  - destruct (64 <=? _) eqn:Q; [cbn; auto|]. cbn [ob]. apply fin_val; [|apply s64_in]. intros ->.
    destruct (getU_bool a) as [-> | ->], (getU_bool b) as [-> | ->]; bit01.
  - assert (HI : r <> I1) by auto. pose proof (getS_of_U r b HI (stored_any _ _ SB)) as SU.
    destruct (_ || _) eqn:Q.
    + split; [exact I|]. destruct (64 <=? getU r b); [exact I|]. split; [|reflexivity]. apply stored_mk, shr_in; auto. lia.
    + assert (getU r b = getS r b) as ->.
      { rewrite SU. destruct (_ <? hf r) eqn:L; auto. rewrite SU in Q. destruct r; cbn [hf md] in *; try lia. }
      replace (64 <=? getS r b) with false by lia. cbn [ob]. apply fin_val; [congruence|]. apply shr_in; auto. lia.
  - cbn [ob]. apply fin_val; [|unfold in64 in *; lia]. intros ->. pose proof (getS_bool a). pose proof (getS_bool b). lia.
  - cbn [ob]. apply fin_val; [|unfold in64 in *; lia]. intros ->. pose proof (getS_bool a). pose proof (getS_bool b). lia.
Qed.
Lemma b2z_bool b : b2z b = 0 \/ b2z b = 1. Proof. destruct b; auto. Qed.
Lemma b2z_in b : in64 (b2z b). Proof. unfold in64. destruct b; cbn; lia. Qed.
Lemma aCmp c v w : agree (iCmp F c v w) (fCmp F c v w) /\ sres (Some I1) (fCmp F c v w).
Proof.
  destruct v as [r a|g x], w as [r' b|h y]; try (cbn; auto; fail). unfold iCmp, fCmp.
  destruct (ty_eqb r r') eqn:E.
  - assert (r = r') by (destruct r, r'; try reflexivity; discriminate). subst r'.
    apply fin_val; auto using b2z_bool, b2z_in.
  - split; [exact I|]. split; [apply stored_mk, b2z_in|reflexivity].
Qed.
Lemma aCast op t v : stored v -> t <> I1 -> agree (iCast F op t v) (fCast F op t v) /\ sres (Some t) (fCast F op t v).
Proof.
  destruct v as [r a|g x]; [|cbn; auto]. intros S N. unfold iCast, fCast, rawCast.
  apply fin_val; [congruence|]. destruct op; auto using s64_in.
  all: apply getS_in, (stored_any r); auto.
Qed.
Lemma same_U t a b : stored (VI t a) -> stored (VI t b) -> getU t a = getU t b -> same (VI t a) (VI t b).
Proof.
  intros SA SB U. cbn. repeat split; auto. destruct (ty_eqb t I1) eqn:E.
  - destruct t; try discriminate. cbn in SA, SB. destruct (boolS a SA) as [-> H], (boolS b SB) as [-> H']. congruence.
  - assert (t <> I1) by (intros ->; discriminate). rewrite !getS_of_U by (auto; eapply stored_int; eauto). now rewrite U.
Qed.
Lemma aSel u v w t : stored v -> stored w -> tyv v = t -> t <> None ->
  agree (iSel F u v w) (fSel F rnd32 fcmp3 v w) /\ sres t (fSel F rnd32 fcmp3 v w).
Proof.
  intros SV SW <- N. destruct v as [r a|g x]; [|cbn in N; congruence]. destruct w as [r' b|h y].
  2:{ unfold iSel. cbn [same_type]. destruct u; cbn; auto. }
  cbn [fSel]. split.
  - unfold iSel. cbn [same_type]. destruct u as [q c|]; [|exact I]. destruct (ty_eqb r r') eqn:E; [|exact I].
    assert (r = r') by (destruct r, r'; try reflexivity; discriminate). subst r'.
    destruct (getU r a =? getU r b) eqn:Q; cbn [agree]; [|destruct (getU q c =? 0); exact I].
    apply Z.eqb_eq in Q. destruct (getU q c =? 0); [|apply same_refl].
    assert (J : same (VI r a) (VI r b)) by (apply same_U; auto). destruct J as (? & ? & ?). cbn. auto.
  - destruct (_ =? _); cbn; auto.
Qed.
Lemma fin_f (i : outcome value) v : (i = Undef \/ i = Val v) -> tyv v = None -> agree i (FVal v) /\ sres None (FVal v).
Proof.
  intros [-> | ->] N; (split; [|split; [destruct v; [discriminate|exact I]|auto]]); [exact I|apply same_refl].
Qed.
Lemma aFUn op v : agree (iFUn F rnd32 fop1 op v) (fFUn F rnd32 fop1 op v) /\ sres None (fFUn F rnd32 fop1 op v).
Proof. destruct v; cbn [iFUn fFUn]; [cbn; auto|]. apply fin_f; auto. Qed.
Lemma aFBin op v w : agree (iFBin F rnd32 fop op v w) (fFBin F rnd32 fop op v w) /\ sres None (fFBin F rnd32 fop op v w).
Proof. destruct v, w; try (cbn; auto; fail). apply fin_f; auto. unfold iFBin. destruct (eqb _ _); auto. Qed.
Lemma aFFma u v w : agree (iFFma F rnd32 ffma u v w) (fFFma F rnd32 ffma u v w) /\ sres None (fFFma F rnd32 ffma u v w).
Proof. destruct u, v, w; try (cbn; auto; fail). apply fin_f; auto. unfold iFFma. destruct (_ && _); auto. Qed.
Lemma aFCmp c v w : agree (iFCmp F rnd32 fcmp3 c v w) (fFCmp F rnd32 fcmp3 c v w) /\ sres (Some I1) (fFCmp F rnd32 fcmp3 c v w).
Proof.
  destruct v, w; try (cbn; auto; fail). unfold iFCmp, fFCmp. destruct (doCompareFP _ _); [|cbn; auto].
  cbn [oo ob fo]. apply fin_val; auto using b2z_bool, b2z_in.
Qed.
Lemma aF2S t v : t <> I1 -> agree (iF2S F rnd32 f2s t v) (fF2S F rnd32 f2s t v) /\ sres (Some t) (fF2S F rnd32 f2s t v).
Proof.
  intros N. destruct v; [cbn; auto|]. unfold iF2S, fF2S. destruct (f2s _) eqn:E; [|cbn; auto].
  cbn [oo ob fo]. apply fin_val; [congruence|eauto].
Qed.
Lemma aF2U t v : t <> I1 -> agree (iF2U F rnd32 f2u t v) (fF2U F rnd32 f2u t v) /\ sres (Some t) (fF2U F rnd32 f2u t v).
Proof.
  intros N. destruct v; [cbn; auto|]. unfold iF2U, fF2U. destruct (f2u _) eqn:E; [|cbn; auto].
  cbn [oo ob fo]. apply fin_val; [congruence|apply s64_in].
Qed.
Lemma aS2F g v : agree (iS2F F z2f g v) (fS2F F z2f g v) /\ sres None (fS2F F z2f g v).
Proof. destruct v; cbn [iS2F fS2F]; [|cbn; auto]. apply fin_f; auto. Qed.
Lemma aU2F g v : agree (iU2F F z2f g v) (fU2F F z2f g v) /\ sres None (fU2F F z2f g v).
Proof. destruct v; cbn [iU2F fU2F]; [|cbn; auto]. apply fin_f; auto. Qed.
Lemma aFCast g v : agree (iFCast F rnd32 g v) (fFCast F rnd32 g v) /\ sres None (fFCast F rnd32 g v).
Proof. destruct v; cbn [iFCast fFCast]; [cbn; auto|]. apply fin_f; auto. Qed.

(** ** Whole expressions *)
Section Whole.
Variable G : nat -> option ty.
Variable env : nat -> value.
Notation typ := (typ F G).
Notation plain := (plain F G).
Notation consts_ok := (consts_ok F).

(** what is proved of every expression and its folded form *)
Definition good (e : expr) : Prop :=
  (forall v, eval env e = Val v -> cp e <> None) /\
  (forall e', cp e = Some e' ->
     weak (eval env e) (eval env e') /\
     forall k, e' = EK k -> stored k /\ tyv k = typ e).

Lemma weak_bind o o' (k k' : value -> outcome value) : weak o o' ->
  (forall v v', same v v' -> weak (k v) (k' v')) -> weak (ob o k) (ob o' k').
Proof.
  intros [-> | H] K; [now left|]. destruct o as [v| |], o' as [v'| |]; cbn in *; try tauto.
  - apply K. exact H.
  - now right.
Qed.
Lemma weak_agree i f e : agree i f -> weak i (eval env e) -> forall e', use F e f = Some e' -> weak i (eval env e').
Proof.
  intros A W e' U. destruct f; cbn in U; try discriminate; injection U as <-; auto.
  cbn. destruct i; cbn in A; [right; exact A|discriminate|now left].
Qed.
Lemma use_K e f e' k : use F e f = Some e' -> e' = EK k -> (forall q, e <> EK q) -> f = FVal k.
Proof. intros U -> N. destruct f; cbn in U; try discriminate; injection U as U; [now apply N in U|congruence]. Qed.

Lemma pick2 o1 o2 o3 : weak o1 o2 -> o1 <> Undef -> weak o2 o3 -> weak o1 o3.
Proof.
  intros [W|W] N W'; [congruence|]. destruct W' as [W'|W'].
  - subst o2. destruct o1; contradiction.
  - right. destruct o1, o2, o3; cbn in *; try tauto. eapply same_trans; eauto.
Qed.
Lemma weak_refl o : weak o o.
Proof. destruct o; [right; apply same_refl|right; exact Logic.I|now left]. Qed.
Lemma undef_dec (o : outcome value) : o = Undef \/ o <> Undef.
Proof. destruct o; [right|right|left]; congruence. Qed.

(** the common part of the cases below: [i] is the run-time outcome with the original operands, [j]
    with the folded ones, which are all constants *)
Lemma fold_ok i j e e' f : weak i j -> eval env e = j -> agree j f -> use F e f = Some e' -> weak i (eval env e').
Proof.
  intros W E A U. destruct (undef_dec i) as [->|N]; [now left|]. apply (pick2 i j); auto.
  eapply weak_agree; eauto. rewrite E. apply weak_refl.
Qed.
Lemma fold_def v j e f : weak (Val v) j -> agree j f -> use F e f <> None.
Proof.
  intros [W|W] A; [discriminate|]. destruct j; cbn in *; try tauto. destruct f; cbn; try discriminate. tauto.
Qed.

Lemma good1 a (K : expr -> expr) (I : value -> outcome value) (f : value -> fout F) :
  (forall x, eval env (K x) = ob (eval env x) I) -> (forall x q, K x <> EK q) ->
  cp (K a) = op1 F (cp a) K f ->
  (forall v v', same v v' -> weak (I v) (I v')) ->
  (forall v, stored v -> tyv v = typ a -> agree (I v) (f v) /\ sres (typ (K a)) (f v)) ->
  good a -> good (K a).
Proof.
  intros E NK C W A [G1 G2]. unfold good. rewrite C, E. clear C. unfold op1.
  assert (WK : forall a', cp a = Some a' -> weak (ob (eval env a) I) (ob (eval env a') I)).
  { intros a' CA. apply weak_bind; [apply (G2 _ CA)|]. auto. }
  split.
  - intros v H. destruct (eval env a) as [x| |] eqn:EA; try discriminate. specialize (G1 _ eq_refl).
    destruct (cp a) as [a'|] eqn:CA; [|congruence].
    specialize (WK _ eq_refl). rewrite H in WK.
    destruct a'; try discriminate. cbn [ConstFold.eval ob] in WK.
    destruct (G2 _ eq_refl) as [_ SA].
    destruct (SA _ eq_refl) as [S1 S2]. destruct (A _ S1 S2) as [A1 _].
    eapply fold_def; eauto.
  - destruct (cp a) as [a'|] eqn:CA; [|discriminate].
    intros e' H. specialize (WK _ eq_refl).
    assert (CASE : (exists v, a' = EK v /\ use F (K a') (f v) = Some e') \/ e' = K a').
    { destruct a'; try (injection H as <-; auto; fail). left. eauto 6. }
    destruct CASE as [(v & -> & U)| ->]; [|rewrite E; split; auto; intros k Hk; now apply NK in Hk].
    destruct (G2 _ eq_refl) as [_ SA].
    destruct (SA _ eq_refl) as [S1 S2]. destruct (A _ S1 S2) as [A1 A2]. split.
    + cbn [ConstFold.eval ob] in WK. eapply fold_ok; eauto. rewrite E. reflexivity.
    + intros k Hk. apply (use_K _ _ _ k) in U; auto. rewrite U in A2. exact A2.
Qed.
Lemma good2 a b (K : expr -> expr -> expr) (I : value -> value -> outcome value) (f : value -> value -> fout F) :
  (forall x y, eval env (K x y) = ob (eval env x) (fun v => ob (eval env y) (I v))) -> (forall x y q, K x y <> EK q) ->
  cp (K a b) = op2 F (cp a) (cp b) K f ->
  (forall v v' w w', same v v' -> same w w' -> weak (I v w) (I v' w')) ->
  (forall v w, stored v -> stored w -> tyv v = typ a -> agree (I v w) (f v w) /\ sres (typ (K a b)) (f v w)) ->
  good a -> good b -> good (K a b).
Proof.
  intros E NK C W A [G1 G2] [H1 H2]. unfold good. rewrite C, E. clear C. unfold op2.
  assert (WK : forall a' b', cp a = Some a' -> cp b = Some b' ->
     weak (ob (eval env a) (fun v => ob (eval env b) (I v))) (ob (eval env a') (fun v => ob (eval env b') (I v)))).
  { intros a' b' CA CB. apply weak_bind; [apply (G2 _ CA)|]. intros v v' S. apply weak_bind; [apply (H2 _ CB)|]. auto. }
  split.
  - intros v H. destruct (eval env a) as [x| |] eqn:EA; try discriminate. destruct (eval env b) as [y| |] eqn:EB; try discriminate.
    specialize (G1 _ eq_refl). specialize (H1 _ eq_refl).
    destruct (cp a) as [a'|] eqn:CA; [|congruence]. destruct (cp b) as [b'|] eqn:CB; [|congruence].
    specialize (WK _ _ eq_refl eq_refl). rewrite H in WK.
    destruct a'; try discriminate. destruct b'; try discriminate. cbn [ConstFold.eval ob] in WK.
    destruct (G2 _ eq_refl) as [_ SA]. destruct (H2 _ eq_refl) as [_ SB].
    destruct (SA _ eq_refl) as [S1 S2]. destruct (SB _ eq_refl) as [S3 _]. destruct (A _ _ S1 S3 S2) as [A1 _].
    eapply fold_def; eauto.
  - destruct (cp a) as [a'|] eqn:CA; [|discriminate]. destruct (cp b) as [b'|] eqn:CB; [|discriminate].
    intros e' H. specialize (WK _ _ eq_refl eq_refl).
    assert (CASE : (exists v w, a' = EK v /\ b' = EK w /\ use F (K a' b') (f v w) = Some e') \/ e' = K a' b').
    { destruct a'; try (injection H as <-; auto; fail). destruct b'; try (injection H as <-; auto; fail). left. eauto 6. }
    destruct CASE as [(v & w & -> & -> & U)| ->]; [|rewrite E; split; auto; intros k Hk; now apply NK in Hk].
    destruct (G2 _ eq_refl) as [_ SA]. destruct (H2 _ eq_refl) as [_ SB].
    destruct (SA _ eq_refl) as [S1 S2]. destruct (SB _ eq_refl) as [S3 _]. destruct (A _ _ S1 S3 S2) as [A1 A2]. split.
    + cbn [ConstFold.eval ob] in WK. eapply fold_ok; eauto. rewrite E. reflexivity.
    + intros k Hk. apply (use_K _ _ _ k) in U; auto. rewrite U in A2. exact A2.
Qed.
Lemma good3 a b c (K : expr -> expr -> expr -> expr) (I : value -> value -> value -> outcome value) f :
  (forall x y z, eval env (K x y z) = ob (eval env x) (fun u => ob (eval env y) (fun v => ob (eval env z) (I u v)))) ->
  (forall x y z q, K x y z <> EK q) ->
  cp (K a b c) = op3 F (cp a) (cp b) (cp c) K f ->
  (forall u u' v v' w w', same u u' -> same v v' -> same w w' -> weak (I u v w) (I u' v' w')) ->
  (forall u v w, stored u -> stored v -> stored w -> tyv v = typ b ->
     agree (I u v w) (f u v w) /\ sres (typ (K a b c)) (f u v w)) ->
  good a -> good b -> good c -> good (K a b c).
Proof.
  intros E NK C W A [G1 G2] [H1 H2] [J1 J2]. unfold good. rewrite C, E. clear C. unfold op3.
  assert (WK : forall a' b' c', cp a = Some a' -> cp b = Some b' -> cp c = Some c' ->
     weak (ob (eval env a) (fun u => ob (eval env b) (fun v => ob (eval env c) (I u v))))
          (ob (eval env a') (fun u => ob (eval env b') (fun v => ob (eval env c') (I u v))))).
  { intros a' b' c' CA CB CC. apply weak_bind; [apply (G2 _ CA)|]. intros u u' S. apply weak_bind; [apply (H2 _ CB)|].
    intros v v' S'. apply weak_bind; [apply (J2 _ CC)|]. auto. }
  split.
  - intros v H. destruct (eval env a) as [x| |] eqn:EA; try discriminate. destruct (eval env b) as [y| |] eqn:EB; try discriminate.
    destruct (eval env c) as [z| |] eqn:EC; try discriminate.
    specialize (G1 _ eq_refl). specialize (H1 _ eq_refl). specialize (J1 _ eq_refl).
    destruct (cp a) as [a'|] eqn:CA; [|congruence]. destruct (cp b) as [b'|] eqn:CB; [|congruence].
    destruct (cp c) as [c'|] eqn:CC; [|congruence].
    specialize (WK _ _ _ eq_refl eq_refl eq_refl). rewrite H in WK.
    destruct a'; try discriminate. destruct b'; try discriminate. destruct c'; try discriminate. cbn [ConstFold.eval ob] in WK.
    destruct (G2 _ eq_refl) as [_ SA]. destruct (H2 _ eq_refl) as [_ SB]. destruct (J2 _ eq_refl) as [_ SC].
    destruct (SA _ eq_refl) as [S1 _]. destruct (SB _ eq_refl) as [S2 S3]. destruct (SC _ eq_refl) as [S4 _].
    destruct (A _ _ _ S1 S2 S4 S3) as [A1 _].
    eapply fold_def; eauto.
  - destruct (cp a) as [a'|] eqn:CA; [|discriminate]. destruct (cp b) as [b'|] eqn:CB; [|discriminate].
    destruct (cp c) as [c'|] eqn:CC; [|discriminate].
    intros e' H. specialize (WK _ _ _ eq_refl eq_refl eq_refl).
    assert (CASE : (exists u v w, a' = EK u /\ b' = EK v /\ c' = EK w /\ use F (K a' b' c') (f u v w) = Some e') \/ e' = K a' b' c').
    { destruct a'; try (injection H as <-; auto; fail). destruct b'; try (injection H as <-; auto; fail).
      destruct c'; try (injection H as <-; auto; fail). left. eauto 8. }
    destruct CASE as [(u & v & w & -> & -> & -> & U)| ->]; [|rewrite E; split; auto; intros k Hk; now apply NK in Hk].
    destruct (G2 _ eq_refl) as [_ SA]. destruct (H2 _ eq_refl) as [_ SB]. destruct (J2 _ eq_refl) as [_ SC].
    destruct (SA _ eq_refl) as [S1 _]. destruct (SB _ eq_refl) as [S2 S3]. destruct (SC _ eq_refl) as [S4 _].
    destruct (A _ _ _ S1 S2 S4 S3) as [A1 A2]. split.
    + cbn [ConstFold.eval ob] in WK. eapply fold_ok; eauto. rewrite E. reflexivity.
    + intros k Hk. apply (use_K _ _ _ k) in U; auto. rewrite U in A2. exact A2.
Qed.

Lemma all_good e : plain e = true -> consts_ok e -> good e.
Proof.
  induction e; cbn [ConstFold.plain ConstFold.consts_ok]; rewrite ?andb_true_iff; intros P C;
    repeat match goal with H : _ /\ _ |- _ => destruct H end.
  - split; [discriminate|]. intros e' H. cbn in H. injection H as <-. split; [right; apply same_refl|discriminate].
  - split; [discriminate|]. intros e' H. cbn in H. injection H as <-. split; [right; apply same_refl|].
    intros k Hk. injection Hk as <-. auto.
  - eapply (good1 e (EUn op) (iUn F op) (fUn F op)); auto using cUn; try discriminate.
    intros v S T. apply aUn; auto. cbn [ConstFold.typ]. intros Q. rewrite Q in *. discriminate.
  - eapply (good2 e1 e2 (EBin op) (iBin F op) (fBin F op)); auto using cBin; try discriminate.
    intros v w S S' T. apply aBin; auto. cbn [ConstFold.typ]. intros Q. rewrite Q in *. auto.
  - eapply (good2 e1 e2 (ECmp c) (iCmp F c) (fCmp F c)); auto using cCmp; try discriminate. intros. apply aCmp.
  - eapply (good1 e (ECast op t) (iCast F op t) (fCast F op t)); auto using cCast; try discriminate.
    intros v S T. apply aCast; auto. intros ->. discriminate.
  - eapply (good3 e1 e2 e3 ESel (iSel F) (fun _ => fSel F rnd32 fcmp3)); auto using cSel; try discriminate.
    intros u v w S1 S2 S3 T. apply aSel; auto. cbn [ConstFold.typ]. intros Q. rewrite Q in *. discriminate.
  - eapply (good1 e (EFUn op) (iFUn F rnd32 fop1 op) (fFUn F rnd32 fop1 op)); auto using cFUn; try discriminate. intros. apply aFUn.
  - eapply (good2 e1 e2 (EFBin op) (iFBin F rnd32 fop op) (fFBin F rnd32 fop op)); auto using cFBin; try discriminate. intros. apply aFBin.
  - eapply (good3 e1 e2 e3 EFFma (iFFma F rnd32 ffma) (fFFma F rnd32 ffma)); auto using cFFma; try discriminate. intros. apply aFFma.
  - eapply (good2 e1 e2 (EFCmp c) (iFCmp F rnd32 fcmp3 c) (fFCmp F rnd32 fcmp3 c)); auto using cFCmp; try discriminate. intros. apply aFCmp.
  - eapply (good1 e (EF2S t) (iF2S F rnd32 f2s t) (fF2S F rnd32 f2s t)); auto using cF2S; try discriminate.
    intros v S T. apply aF2S; auto. intros ->. discriminate.
  - eapply (good1 e (EF2U t) (iF2U F rnd32 f2u t) (fF2U F rnd32 f2u t)); auto using cF2U; try discriminate.
    intros v S T. apply aF2U; auto. intros ->. discriminate.
  - eapply (good1 e (ES2F single) (iS2F F z2f single) (fS2F F z2f single)); auto using cS2F; try discriminate. intros. apply aS2F.
  - eapply (good1 e (EU2F single) (iU2F F z2f single) (fU2F F z2f single)); auto using cU2F; try discriminate. intros. apply aU2F.
  - eapply (good1 e (EFCast single) (iFCast F rnd32 single) (fFCast F rnd32 single)); auto using cFCast; try discriminate. intros. apply aFCast.
Qed.

(** ** Completeness: a closed expression without select is folded to a constant *)
Fixpoint closed (e : expr) : bool :=
  match e with
  | EVar _ | ESel _ _ _ => false
  | EK _ => true
  | EUn _ a | ECast _ _ a | EF2S _ a | EF2U _ a | EFUn _ a | ES2F _ a | EU2F _ a | EFCast _ a => closed a
  | EBin _ a b | ECmp _ a b | EFBin _ a b | EFCmp _ a b => closed a && closed b
  | EFFma a b c => closed a && closed b && closed c
  end.
Definition isK (r : option expr) : Prop := exists k, r = Some (EK k).
Lemma use_isK i f e : agree i f -> (forall r, i = Val r -> f <> FNone) -> (exists r, i = Val r) -> isK (use F e f).
Proof.
  intros A N [r H]. specialize (N r H). subst i. cbn in A. destruct f; try tauto. eexists. reflexivity.
Qed.
Lemma weak_val o v : weak (Val v) o -> exists v', o = Val v'.
Proof. intros [W|W]; [discriminate|]. destruct o; cbn in W; try tauto. eauto. Qed.
Ltac nofnone := intros; cbn in *; repeat match goal with
  | H : context [match ?b with _ => _ end] |- _ => destruct b eqn:?; cbn in * end; try discriminate; try congruence.
Lemma nUn op v r : iUn F op v = Val r -> fUn F op v <> FNone.
Proof. destruct v; [|discriminate]. unfold iUn, fUn, rawUn. destruct op; destruct (i64 _); cbn; discriminate. Qed.
Lemma nBin op v w r : iBin F op v w = Val r -> fBin F op v w <> FNone.
Proof.
  destruct v as [t a|], w as [t' b|]; cbn; try discriminate. destruct (ty_eqb t t') eqn:E; [|discriminate].
  assert (t = t') by (destruct t, t'; try reflexivity; discriminate). subst t'.
  unfold rawBin. destruct op; try discriminate.
  1-3: destruct (i64 _); cbn; discriminate.
  - destruct (_ =? 0); [discriminate|]. destruct (_ && _); discriminate.
  - destruct (_ =? 0); [discriminate|]. discriminate.
  - destruct (_ =? 0); [discriminate|]. destruct (_ && _); discriminate.
  - destruct (_ =? 0); [discriminate|]. discriminate.
  - destruct (_ <=? _); discriminate.
  - destruct (_ <=? _); discriminate.
  - intros _. destruct (_ <=? _); discriminate.
Qed.

Lemma all_folded e : closed e = true -> plain e = true -> consts_ok e -> (exists v, eval env e = Val v) -> isK (cp e).
Proof.
  induction e; cbn [closed ConstFold.plain ConstFold.consts_ok]; rewrite ?andb_true_iff; intros CL P C [v0 EV]; try discriminate;
    repeat match goal with H : _ /\ _ |- _ => destruct H end.
  1: eexists; reflexivity.
  all: cbn [ConstFold.eval] in EV;
    repeat match type of EV with ob ?o _ = _ => destruct o eqn:?; cbn [ob] in EV; try discriminate EV end.
  all: repeat match goal with
    | IH : _ -> _ -> _ -> _ -> isK _ |- _ =>
       let K := fresh "K" in destruct IH as [? K]; [assumption|assumption|assumption|eauto|] end.
  all: repeat match goal with
    | P : plain ?x = true, C : consts_ok ?x, E : eval env ?x = Val _, K : cp ?x = Some _ |- _ =>
       let G1 := fresh "G" in let S1 := fresh "S" in let G2 := fresh "W" in
       destruct (all_good x P C) as [_ G1]; destruct (G1 _ K) as [G2 S1]; destruct (S1 _ eq_refl) as [? ?];
       rewrite E in G2; destruct G2 as [G2|G2]; [discriminate|]; cbn in G2; clear G1 S1 P C E end.
  all: cbn [ConstFold.cp]; repeat match goal with K : cp _ = _ |- _ => rewrite K; clear K end; cbn [op1 op2 op3].
  - destruct (weak_val (iUn F op x) v0) as [r R]; [rewrite <- EV; apply cUn; auto|].
    eapply use_isK; [apply (aUn op x (typ e)); auto; intros Q; rewrite Q in *; discriminate| |eauto].
    intros ? ?. eapply nUn; eauto.
  - destruct (weak_val (iBin F op x0 x) v0) as [r R]; [rewrite <- EV; apply cBin; auto|].
    eapply use_isK; [apply (aBin op x0 x (typ e1)); auto; intros Q; rewrite Q in *; auto| |eauto]. intros ? ?. eapply nBin; eauto.
  - destruct (weak_val (iCmp F c x0 x) v0) as [r R]; [rewrite <- EV; apply cCmp; auto|].
    eapply use_isK; [apply aCmp| |eauto]. destruct x, x0; nofnone.
  - destruct (weak_val (iCast F op t x) v0) as [r R]; [rewrite <- EV; apply cCast; auto|].
    eapply use_isK; [apply aCast; auto; intros ->; discriminate| |eauto]. destruct x; nofnone.
  - destruct (weak_val (iFUn F rnd32 fop1 op x) v0) as [r R]; [rewrite <- EV; apply cFUn; auto|].
    eapply use_isK; [apply aFUn| |eauto]. destruct x; nofnone.
  - destruct (weak_val (iFBin F rnd32 fop op x0 x) v0) as [r R]; [rewrite <- EV; apply cFBin; auto|].
    eapply use_isK; [apply aFBin| |eauto]. destruct x, x0; nofnone.
  - destruct (weak_val (iFFma F rnd32 ffma x1 x0 x) v0) as [r R]; [rewrite <- EV; apply cFFma; auto|].
    eapply use_isK; [apply aFFma| |eauto]. destruct x, x0, x1; nofnone.
  - destruct (weak_val (iFCmp F rnd32 fcmp3 c x0 x) v0) as [r R]; [rewrite <- EV; apply cFCmp; auto|].
    eapply use_isK; [apply aFCmp| |eauto]. destruct x, x0; try discriminate. unfold fFCmp. intros ? _. destruct (doCompareFP _ _); discriminate.
  - destruct (weak_val (iF2S F rnd32 f2s t x) v0) as [r R]; [rewrite <- EV; apply cF2S; auto|].
    eapply use_isK; [apply aF2S; auto; intros ->; discriminate| |eauto]. destruct x; try discriminate. unfold fF2S. intros ? _. destruct (f2s _); discriminate.
  - destruct (weak_val (iF2U F rnd32 f2u t x) v0) as [r R]; [rewrite <- EV; apply cF2U; auto|].
    eapply use_isK; [apply aF2U; auto; intros ->; discriminate| |eauto]. destruct x; try discriminate. unfold fF2U. intros ? _. destruct (f2u _); discriminate.
  - destruct (weak_val (iS2F F z2f single x) v0) as [r R]; [rewrite <- EV; apply cS2F; auto|].
    eapply use_isK; [apply aS2F| |eauto]. destruct x; nofnone.
  - destruct (weak_val (iU2F F z2f single x) v0) as [r R]; [rewrite <- EV; apply cU2F; auto|].
    eapply use_isK; [apply aU2F| |eauto]. destruct x; nofnone.
  - destruct (weak_val (iFCast F rnd32 single x) v0) as [r R]; [rewrite <- EV; apply cFCast; auto|].
    eapply use_isK; [apply aFCast| |eauto]. destruct x; nofnone.
Qed.
End Whole.
End FP.
