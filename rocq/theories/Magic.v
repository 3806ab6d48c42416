(** Selection of the multiplier, shift and correction for a signed 32-bit division by a constant.
    Models cmmc/CodeGen/ISelInfo.cpp:529-592 (Hacker's Delight figure 10-1 with uint32_t arithmetic). *)
From Coq Require Import ZArith Lia Bool ZifyBool List.
From Verif Require Import Word.
Local Open Scope Z_scope.
Ltac Zify.zify_post_hook ::= idtac.

(** ISelInfo.cpp:529-532 isOperandSDiv32ByConstantDivisor: the immediate is a signed 32-bit
    constant outside [-1, 1].  (That the operand is an immediate of type Int32 is implicit.) *)
Definition constDivisor (d : Z) : bool :=
  (INT_MIN <=? d) && (d <=? INT_MAX) && negb ((-1 <=? d) && (d <=? 1)).

(** ISelInfo.cpp:550-567, one round of the loop body on (p, q1, r1, q2, r2); every variable is a uint32_t
    except p *)
Record mst := Mst { mp : Z; mq1 : Z; mr1 : Z; mq2 : Z; mr2 : Z }.
Definition dbl (q r m : Z) : Z * Z :=
  let q := u32 (q * 2) in
  let r := u32 (r * 2) in
  if r >=? m then (u32 (q + 1), u32 (r - m)) else (q, r).
Definition mstep (anc ad : Z) (s : mst) : mst :=
  let '(q1, r1) := dbl (mq1 s) (mr1 s) anc in
  let '(q2, r2) := dbl (mq2 s) (mr2 s) ad in
  Mst (mp s + 1) q1 r1 q2 r2.
(** ISelInfo.cpp:566-567: delta and the loop condition *)
Definition mdelta (ad : Z) (s : mst) : Z := u32 (ad - mr2 s).
Definition mcontinue (ad : Z) (s : mst) : bool :=
  (mq1 s <? mdelta ad s) || ((mq1 s =? mdelta ad s) && (mr1 s =? 0)).
(** ISelInfo.cpp:550-567 do { } while; fuel bounds the rounds ([None]: it ran out) *)
Fixpoint mloop (fuel : nat) (anc ad : Z) (s : mst) : option mst :=
  match fuel with
  | O => None
  | S f => let s := mstep anc ad s in
           if mcontinue ad s then mloop f anc ad s else Some s
  end.
(** ISelInfo.cpp:533-592.  std::abs(INT_MIN) is undefined in C++; it is read as the wrapped value here,
    whose cast to uint32_t is 2^31. *)
Definition selectMagic (d : Z) : option (Z * Z * Z) :=
  if negb (constDivisor d) then None else
  let two31 := 2147483648 in
  let ad := u32 (Z.abs d) in
  let t := u32 (two31 + Z.shiftr (u32 d) 31) in
  let anc := u32 (t - 1 - t mod ad) in
  let q1 := two31 / anc in
  let r1 := u32 (two31 - q1 * anc) in
  let q2 := two31 / ad in
  let r2 := u32 (two31 - q2 * ad) in
  match mloop 64 anc ad (Mst 31 q1 r1 q2 r2) with
  | None => None
  | Some s =>
      let m := s32 (u32 (mq2 s + 1)) in
      let '(m, f) := if d <? 0 then (if - m >? 0 then (- m, -1) else (- m, 0))
                     else if (d >? 0) && (m <? 0) then (m, 1) else (m, 0) in
      Some (m, mp s - 32, f)
  end.

(* ------------------------------------------------------------------ *)
(** * The number theory *)
Lemma dbl_ok q r m P : q * m + r = P -> 0 <= r < m -> 0 <= q -> m <= 2147483648 -> 2 * P < 4294967296 * m ->
  fst (dbl q r m) * m + snd (dbl q r m) = 2 * P /\ 0 <= snd (dbl q r m) < m /\ 0 <= fst (dbl q r m).
Proof.
  intros E R Q M L. unfold dbl.
  assert (B1 : q * 2 < 4294967296).
  { apply (Z.mul_lt_mono_pos_r m); [lia|]. replace (q * 2 * m) with (2 * (q * m)) by ring. lia. }
  rewrite (u32_small (q * 2)), (u32_small (r * 2)) by lia.
  destruct (r * 2 >=? m) eqn:C; cbn [fst snd].
  - assert (B2 : q * 2 + 1 < 4294967296).
    { apply (Z.mul_lt_mono_pos_r m); [lia|]. replace ((q * 2 + 1) * m) with (2 * (q * m) + m) by ring. lia. }
    rewrite !u32_small by lia. replace ((q * 2 + 1) * m) with (2 * (q * m) + m) by ring. lia.
  - replace (q * 2 * m) with (2 * (q * m)) by ring. lia.
Qed.

Section Num.
Variables (a T : Z).
Hypothesis Ha : 2 <= a <= 2147483648.
Hypothesis HT : T = 2147483648 /\ a < 2147483648 \/ T = 2147483649.

Definition nc := T - 1 - T mod a.

Lemma nc_eq : nc + 1 = a * (T / a).
Proof. unfold nc. pose proof (Z.div_mod T a). lia. Qed.
Lemma nc_bounds : 1073741824 <= nc <= T - 1 /\ a - 1 <= nc.
Proof.
  pose proof nc_eq as E. pose proof (Z.div_mod T a ltac:(lia)) as D.
  pose proof (Z.mod_pos_bound T a ltac:(lia)) as B.
  assert (1 <= T / a). { apply Z.div_le_lower_bound; lia. }
  assert (a <= a * (T / a)) by nia. lia.
Qed.

Definition Inv (P q1 r1 q2 r2 : Z) : Prop :=
  q1 * nc + r1 = P /\ 0 <= r1 < nc /\ q2 * a + r2 = P /\ 0 <= r2 < a /\ 0 <= q1 /\ 0 <= q2.

Lemma inv_dbl P q1 r1 q2 r2 : Inv P q1 r1 q2 r2 ->
  2 * P < 4294967296 * nc -> 2 * P < 4294967296 * a ->
  Inv (2 * P) (fst (dbl q1 r1 nc)) (snd (dbl q1 r1 nc)) (fst (dbl q2 r2 a)) (snd (dbl q2 r2 a)).
Proof.
  intros (E1 & R1 & E2 & R2 & Q1 & Q2) L1 L2.
  pose proof nc_bounds as NB.
  destruct (dbl_ok q1 r1 nc P) as (A1 & A2 & A3); try assumption; [lia|].
  destruct (dbl_ok q2 r2 a P) as (B1 & B2 & B3); try assumption; [lia|].
  repeat split; tauto || lia.
Qed.

Lemma cont_iff P q1 r1 q2 r2 : Inv P q1 r1 q2 r2 ->
  ((q1 <? u32 (a - r2)) || ((q1 =? u32 (a - r2)) && (r1 =? 0))) = (P <=? nc * (a - r2)).
Proof.
  intros (E1 & R1 & E2 & R2 & Q1 & Q2). rewrite u32_small by lia.
  pose proof nc_bounds as NB.
  destruct (Z.lt_trichotomy q1 (a - r2)) as [L | [L | L]].
  - replace (q1 <? a - r2) with true by lia. cbn [orb]. symmetry. apply Z.leb_le. nia.
  - replace (q1 <? a - r2) with false by lia. replace (q1 =? a - r2) with true by lia. cbn [orb andb].
    rewrite <- L. destruct (r1 =? 0) eqn:Z0; symmetry; [apply Z.leb_le|apply Z.leb_gt]; nia.
  - replace (q1 <? a - r2) with false by lia. replace (q1 =? a - r2) with false by lia. cbn [orb andb].
    symmetry. apply Z.leb_gt. nia.
Qed.

(** ** Bounds that keep the loop inside uint32_t *)
Lemma delta_pos_odd r2 P : T mod a = 0 -> T = 2147483649 -> 0 <= r2 < a -> (a | P - r2) -> (exists k, 0 <= k /\ P = 2 ^ k) ->
  1 <= r2.
Proof.
  intros D ET R X (k & Hk & ->).
  destruct (Z.eq_dec r2 0) as [-> |]; [exfalso|lia].
  rewrite Z.sub_0_r in X.
  assert (D' : (a | T)) by (apply Z.mod_divide; [lia|exact D]).
  assert (C : Z.gcd a 2 = 1).
  { apply Z.bezout_1_gcd. destruct D' as [c Ec]. exists c, (-1073741824). lia. }
  assert (C' : Z.gcd a (2 ^ k) = 1).
  { apply Z.bezout_1_gcd. clear X. revert k Hk. apply natlike_ind.
    - exists 0, 1. reflexivity.
    - intros k Hk (u & v & Huv). rewrite Z.pow_succ_r by lia.
      apply Z.gcd_bezout in C. destruct C as (x & y & Hxy).
      exists (u * x * a + u * y * 2 + v * x * 2 ^ k), (v * y).
      transitivity ((u * a + v * 2 ^ k) * (x * a + y * 2)); [ring|rewrite Huv, Hxy; reflexivity]. }
  apply Z.divide_gcd_iff in X; lia.
Qed.

Lemma cont_bounds k q1 r1 q2 r2 : 0 <= k -> Inv (2 ^ k) q1 r1 q2 r2 -> 2 ^ k <= nc * (a - r2) ->
  k <= 62 /\ 2 * 2 ^ k < 4294967296 * nc /\ 2 * 2 ^ k < 4294967295 * a.
Proof.
  intros Hk (E1 & R1 & E2 & R2 & Q1 & Q2) C. pose proof nc_bounds as NB.
  assert (M : nc * (a - r2) <= nc * a) by (apply Z.mul_le_mono_nonneg_l; lia).
  assert (M2 : nc * a <= nc * 2147483648) by (apply Z.mul_le_mono_nonneg_l; lia).
  assert (K : k <= 62).
  { assert (2 ^ k < 2 ^ 63) by (change (2 ^ 63) with 9223372036854775808; lia).
    apply Z.pow_lt_mono_r_iff in H; lia. }
  split; [exact K|]. split.
  - destruct (Z_lt_le_dec (a - r2) 2147483648) as [L | L].
    + assert (nc * (a - r2) <= nc * 2147483647) by (apply Z.mul_le_mono_nonneg_l; lia). lia.
    + assert (Ea : a = 2147483648) by lia. assert (r2 = 0) by lia.
      assert (En : nc = 2147483647).
      { unfold nc. destruct HT as [[? ?] | ->]; [lia|]. rewrite Ea. reflexivity. }
      assert (2 ^ k < 2 ^ 62) by (change (2 ^ 62) with 4611686018427387904; lia).
      apply Z.pow_lt_mono_r_iff in H0; [|lia|lia].
      assert (2 ^ k <= 2 ^ 61) by (apply Z.pow_le_mono_r; lia).
      change (2 ^ 61) with 2305843009213693952 in H1. lia.
  - destruct (Z_le_gt_dec nc 2147483647) as [L | L].
    + assert (nc * a <= 2147483647 * a) by (apply Z.mul_le_mono_nonneg_r; lia). lia.
    + assert (En : nc = 2147483648) by lia.
      assert (ET : T = 2147483649) by lia.
      assert (T mod a = 0) by (unfold nc in En; lia).
      assert (1 <= r2).
      { apply (delta_pos_odd r2 (2 ^ k)); try assumption.
        - exists q2. lia.
        - exists k. split; [exact Hk|reflexivity]. }
      assert (nc * (a - r2) <= nc * (a - 1)) by (apply Z.mul_le_mono_nonneg_l; lia). lia.
Qed.

Lemma mloop_ok fuel : forall s, 31 <= mp s <= 62 -> 63 - mp s <= Z.of_nat fuel ->
  Inv (2 ^ mp s) (mq1 s) (mr1 s) (mq2 s) (mr2 s) ->
  2 * 2 ^ mp s < 4294967296 * nc -> 2 * 2 ^ mp s < 4294967295 * a ->
  exists s', mloop fuel nc a s = Some s' /\ 32 <= mp s' <= 63 /\
    Inv (2 ^ mp s') (mq1 s') (mr1 s') (mq2 s') (mr2 s') /\
    nc * (a - mr2 s') < 2 ^ mp s' /\ mq2 s' + 1 < 4294967296.
Proof.
  induction fuel as [|fuel IH]; intros s Hp Hf I L1 L2; [lia|].
  cbn [mloop]. pose proof (inv_dbl _ _ _ _ _ I L1 ltac:(lia)) as I'.
  rewrite <- Z.pow_succ_r in I' by lia.
  set (s' := mstep nc a s).
  assert (Es : s' = Mst (mp s + 1) (fst (dbl (mq1 s) (mr1 s) nc)) (snd (dbl (mq1 s) (mr1 s) nc))
                        (fst (dbl (mq2 s) (mr2 s) a)) (snd (dbl (mq2 s) (mr2 s) a))).
  { unfold s', mstep. destruct (dbl (mq1 s) (mr1 s) nc), (dbl (mq2 s) (mr2 s) a). reflexivity. }
  assert (I2 : Inv (2 ^ mp s') (mq1 s') (mr1 s') (mq2 s') (mr2 s')) by (rewrite Es; exact I').
  assert (Hp' : mp s' = mp s + 1) by (rewrite Es; reflexivity).
  clearbody s'. clear Es I'.
  unfold mcontinue, mdelta. rewrite (cont_iff _ _ _ _ _ I2).
  destruct (2 ^ mp s' <=? nc * (a - mr2 s')) eqn:C.
  - apply Z.leb_le in C.
    destruct (cont_bounds (mp s') _ _ _ _ ltac:(lia) I2 C) as (K & B1 & B2).
    apply IH; try assumption; lia.
  - apply Z.leb_gt in C. exists s'. split; [reflexivity|]. split; [lia|]. split; [exact I2|]. split; [lia|].
    destruct I2 as (E1 & R1 & E2 & R2 & Q1 & Q2).
    assert (E : 2 ^ mp s' = 2 * 2 ^ mp s) by (rewrite Hp', Z.pow_add_r by lia; ring).
    apply (Z.mul_lt_mono_pos_r a); [lia|]. lia.
Qed.


(** ** The quotient: E = floor(+-m0 n / 2^p) is the truncated quotient up to its sign correction *)
Lemma delta_le_pow P31 r2 q2 : T = 2147483648 -> T mod a = a - 1 -> 0 < P31 -> 0 <= r2 < a ->
  q2 * a + r2 = 2147483648 * P31 -> a - r2 <= P31.
Proof.
  intros ET Em HP R E.
  pose proof (Z.div_mod T a ltac:(lia)) as D. rewrite Em, ET in D.
  (* 2^31 = a*Q + a - 1, so 2^31 = -1 mod a *)
  set (Q := 2147483648 / a) in *.
  assert (E' : a - r2 = P31 + a * (1 + q2 - (Q + 1) * P31)).
  { replace 2147483648 with (a * Q + (a - 1)) in E by lia. lia. }
  destruct (Z_lt_le_dec P31 (a - r2)) as [L | L]; [exfalso|exact L].
  assert (0 < 1 + q2 - (Q + 1) * P31).
  { apply (Z.mul_pos_cancel_l a); lia. }
  assert (a * 1 <= a * (1 + q2 - (Q + 1) * P31)) by (apply Z.mul_le_mono_nonneg_l; lia). lia.
Qed.

Lemma quo_bound P31 q1 r1 q2 r2 n : 0 < P31 ->
  let P := 2147483648 * P31 in
  Inv P q1 r1 q2 r2 -> nc * (a - r2) < P ->
  0 < n -> n <= T - 1 \/ n <= T /\ n = 2147483648 ->
  (n / a) * P < (q2 + 1) * n /\
  (n <= T - 1 -> (q2 + 1) * n < (n / a + 1) * P) /\ (q2 + 1) * n <= (n / a + 1) * P.
Proof.
  intros HP31 P (E1 & R1 & E2 & R2 & Q1 & Q2) X Hn Hn'.
  pose proof nc_bounds as NB. pose proof nc_eq as NE.
  pose proof (Z.div_mod n a ltac:(lia)) as D. pose proof (Z.mod_pos_bound n a ltac:(lia)) as B.
  set (q := n / a) in *. set (r := n mod a) in *.
  set (dl := a - r2) in *. assert (Hdl : 1 <= dl <= a) by lia.
  assert (HP : 0 < P) by (unfold P; lia).
  assert (M : (q2 + 1) * n * a = n * P + n * dl).
  { transitivity ((q2 * a + r2 + dl) * n); [unfold dl; ring|]. rewrite E2. ring. }
  assert (Mq : n * P = q * P * a + r * P) by (rewrite D at 1; ring).
  assert (Hnd : 0 < n * dl) by (apply Z.mul_pos_pos; lia).
  assert (HrP : 0 <= r * P) by (apply Z.mul_nonneg_nonneg; lia).
  (* the key bound *)
  assert (K : n * dl < (a - r) * P \/ n = T /\ r = a - 1 /\ n * dl <= P).
  { destruct (Z_le_gt_dec n nc) as [L | L].
    - left. assert (n * dl <= nc * dl) by (apply Z.mul_le_mono_nonneg_r; lia).
      assert (1 * P <= (a - r) * P) by (apply Z.mul_le_mono_nonneg_r; lia). lia.
    - (* n > nc *)
      assert (Hq : q = T / a /\ r = n - (nc + 1)).
      { assert (DT := Z.div_mod T a ltac:(lia)). assert (BT := Z.mod_pos_bound T a ltac:(lia)).
        assert (0 <= n - (nc + 1) < a) by (unfold nc in *; lia).
        assert (EE : n = a * (T / a) + (n - (nc + 1))) by lia.
        split; [symmetry; apply (Z.div_unique n a (T / a) (n - (nc + 1))); [left; assumption|exact EE]|].
        symmetry; apply (Z.mod_unique n a (T / a) (n - (nc + 1))); [left; assumption|exact EE]. }
      destruct Hq as [Hq Hr].
      destruct (Z_le_gt_dec r (a - 2)) as [Lr | Lr].
      + left. assert (n <= 2 * nc) by lia.
        assert (n * dl <= 2 * nc * dl) by (apply Z.mul_le_mono_nonneg_r; lia).
        assert (2 * P <= (a - r) * P) by (apply Z.mul_le_mono_nonneg_r; lia). lia.
      + right. assert (Er : r = a - 1) by lia.
        assert (BT := Z.mod_pos_bound T a ltac:(lia)).
        assert (nT : n = T /\ T mod a = a - 1) by (unfold nc in Hr; lia).
        destruct nT as [nT mT]. split; [exact nT|]. split; [exact Er|].
        assert (T = 2147483648) by lia.
        assert (dl <= P31) by (apply (delta_le_pow P31 r2 q2); assumption || lia).
        rewrite nT, H. unfold P. apply Z.mul_le_mono_nonneg_l; lia. }
  split; [|split].
  - apply (Z.mul_lt_mono_pos_r a); [lia|]. rewrite M, Mq. lia.
  - intros Ln. destruct K as [K | (K & _)]; [|lia].
    apply (Z.mul_lt_mono_pos_r a); [lia|]. rewrite M, Mq.
    replace ((q + 1) * P * a) with (q * P * a + a * P) by ring.
    replace ((a - r) * P) with (a * P - r * P) in K by ring. lia.
  - apply (Z.mul_le_mono_pos_r _ _ a); [lia|]. rewrite M, Mq.
    replace ((q + 1) * P * a) with (q * P * a + a * P) by ring.
    destruct K as [K | (_ & Er & K)].
    + replace ((a - r) * P) with (a * P - r * P) in K by ring. lia.
    + rewrite Er. replace ((a - 1) * P) with (a * P - P) by ring. lia.
Qed.
End Num.

(** ** The selector *)
Lemma constDivisor_spec d : constDivisor d = true <-> INT_MIN <= d <= INT_MAX /\ (d < -1 \/ 1 < d).
Proof. unfold constDivisor, INT_MIN, INT_MAX. lia. Qed.

(** What the instruction expansions rely on: m0 is the unwrapped multiplier. *)
Definition magicOk (d m sh f : Z) : Prop :=
  exists m0, 0 < m0 < 4294967296 /\ m0 <> 2147483648 /\ 0 <= sh <= 31 /\
    (* the 32-bit immediate and the correction stand for m0 with the sign of d *)
    INT_MIN < m <= INT_MAX /\
    m + f * 4294967296 = (if d <? 0 then - m0 else m0) /\ (f = 0 \/ f = 1 \/ f = -1) /\
    (* and m0 n / 2^(32+sh) rounds as the quotient does *)
    forall n, INT_MIN <= n <= INT_MAX ->
      let E := ((if d <? 0 then - m0 else m0) * n) / 2 ^ (32 + sh) in
      E + (if E <? 0 then 1 else 0) = Z.quot n d.

Lemma div_between x P q : 0 < P -> q * P <= x -> x < (q + 1) * P -> x / P = q.
Proof.
  intros HP L U. symmetry. apply (Z.div_unique x P q (x - q * P)); [left|]; lia.
Qed.

Lemma selectMagic_ok d : constDivisor d = true ->
  exists m sh f, selectMagic d = Some (m, sh, f) /\ magicOk d m sh f.
Proof.
  intros C. pose proof C as C0. apply constDivisor_spec in C0. unfold INT_MIN, INT_MAX in C0.
  unfold selectMagic. rewrite C. cbn [negb].
  set (a := Z.abs d).
  assert (Ha : 2 <= a <= 2147483648) by lia.
  rewrite (u32_small a) by lia.
  assert (Et : u32 (2147483648 + Z.shiftr (u32 d) 31) = if d <? 0 then 2147483649 else 2147483648).
  { assert (Z.shiftr (u32 d) 31 = if d <? 0 then 1 else 0) as ->.
    { rewrite Z.shiftr_div_pow2 by lia. change (2 ^ 31) with 2147483648.
      destruct (d <? 0) eqn:S.
      - assert (u32 d = d + 4294967296) as ->.
        { unfold u32. symmetry. apply (Z.mod_unique d 4294967296 (-1)); lia. }
        apply div_between; lia.
      - rewrite u32_small by lia. apply div_between; lia. }
    destruct (d <? 0); rewrite u32_small by lia; reflexivity. }
  rewrite Et. set (T := if d <? 0 then 2147483649 else 2147483648) in *. clear Et.
  assert (HT : T = 2147483648 /\ a < 2147483648 \/ T = 2147483649) by (unfold T; destruct (d <? 0) eqn:S; lia).
  pose proof (nc_bounds a T Ha HT) as NB.
  change (T - 1 - T mod a) with (nc a T).
  rewrite (u32_small (nc a T)) by lia.
  assert (D1 := Z.div_mod 2147483648 (nc a T) ltac:(lia)).
  assert (B1 := Z.mod_pos_bound 2147483648 (nc a T) ltac:(lia)).
  assert (D2 := Z.div_mod 2147483648 a ltac:(lia)).
  assert (B2 := Z.mod_pos_bound 2147483648 a ltac:(lia)).
  assert (P1 : 0 <= 2147483648 / nc a T) by (apply Z.div_pos; lia).
  assert (P2 : 0 <= 2147483648 / a) by (apply Z.div_pos; lia).
  replace (2147483648 - 2147483648 / nc a T * nc a T) with (2147483648 mod nc a T) by lia.
  replace (2147483648 - 2147483648 / a * a) with (2147483648 mod a) by lia.
  rewrite (u32_small (2147483648 mod nc a T)), (u32_small (2147483648 mod a)) by lia.
  destruct (mloop_ok a T Ha HT 64
     (Mst 31 (2147483648 / nc a T) (2147483648 mod nc a T) (2147483648 / a) (2147483648 mod a)))
    as (s & -> & Hp & I & X & M).
  { cbn. lia. }
  { cbn [mp]. lia. }
  { cbn [mp mq1 mr1 mq2 mr2]. change (2 ^ 31) with 2147483648. unfold Inv. lia. }
  { cbn [mp]. change (2 ^ 31) with 2147483648. lia. }
  { cbn [mp]. change (2 ^ 31) with 2147483648. lia. }
  set (p := mp s) in *. set (q2 := mq2 s) in *.
  assert (Hp31 : 2 ^ p = 2147483648 * 2 ^ (p - 31)).
  { change 2147483648 with (2 ^ 31). rewrite <- Z.pow_add_r by lia. f_equal. lia. }
  assert (Hpos : 0 < 2 ^ (p - 31)) by (apply Z.pow_pos_nonneg; lia).
  rewrite Hp31 in I, X.
  assert (Q2 : 0 <= q2) by (destruct I as (_ & _ & _ & _ & _ & ?); assumption).
  assert (Mn : q2 + 1 <> 2147483648).
  { destruct I as (_ & _ & E2 & R2 & _ & _). intros Em. fold q2 in E2. replace q2 with 2147483647 in E2 by lia.
    (* 2^31 (a - 2^(p-31)) = a - r2 in (0, 2^31] *)
    assert (a - 2 ^ (p - 31) = 1 /\ a - mr2 s = 2147483648) by lia.
    assert (E3 : 2 ^ (p - 31) = 2147483647) by lia.
    assert (32 <= p) by lia. assert (2 ^ (p - 31) = 2 * 2 ^ (p - 32)).
    { rewrite <- Z.pow_succ_r by lia. f_equal. lia. }
    lia. }
  rewrite (u32_small (q2 + 1)) by lia.
  rewrite s32_spec by lia.
  set (m0 := q2 + 1) in *.
  exists (if d <? 0 then - (if m0 <? 2147483648 then m0 else m0 - 4294967296)
          else (if m0 <? 2147483648 then m0 else m0 - 4294967296)).
  exists (p - 32).
  exists (if m0 <? 2147483648 then 0 else if d <? 0 then -1 else 1).
  split.
  { destruct (d <? 0) eqn:S, (m0 <? 2147483648) eqn:Sm; cbv beta iota zeta.
    - replace (- m0 >? 0) with false by lia. reflexivity.
    - replace (- (m0 - 4294967296) >? 0) with true by lia. reflexivity.
    - replace (m0 <? 0) with false by lia. rewrite andb_false_r. reflexivity.
    - replace (m0 - 4294967296 <? 0) with true by lia. replace (d >? 0) with true by lia. reflexivity. }
  exists m0. split; [lia|]. split; [exact Mn|]. split; [lia|].
  split. { unfold INT_MIN, INT_MAX. destruct (d <? 0), (m0 <? 2147483648) eqn:Sm; lia. }
  split. { destruct (d <? 0), (m0 <? 2147483648) eqn:Sm; lia. }
  split. { destruct (d <? 0), (m0 <? 2147483648) eqn:Sm; lia. }
  intros n Hn. unfold INT_MIN, INT_MAX in Hn. cbv zeta.
  replace (32 + (p - 32)) with p by lia. rewrite Hp31. set (P := 2147483648 * 2 ^ (p - 31)) in *.
  assert (HP : 0 < P) by (unfold P; lia).
  assert (KB := fun k => quo_bound a T Ha HT (2 ^ (p - 31)) _ _ _ _ k Hpos I X).
  fold P in KB. fold q2 in KB. fold m0 in KB. clear - KB HP Hn C0.
  assert (QP : forall k, 0 <= k -> 0 <= k / a) by (intros k Hk; apply Z.div_pos; lia).
  destruct (Z.eq_dec n 0) as [-> | Nz].
  { rewrite Z.mul_0_r, Z.div_0_l by lia. rewrite Z.quot_0_l by lia. reflexivity. }
  destruct (d <? 0) eqn:S.
  - assert (Da : d = - a) by lia. rewrite Da.
    destruct (Z_lt_le_dec n 0) as [Ln | Ln].
    + destruct (KB (- n)) as (K1 & K2 & K3); [lia|left; unfold T; lia|].
      specialize (K2 ltac:(unfold T; lia)). specialize (QP (- n) ltac:(lia)).
      replace (- m0 * n) with (m0 * - n) by ring.
      rewrite (div_between _ P (- n / a)) by lia.
      replace (- n / a <? 0) with false by lia. cbv iota. rewrite Z.quot_opp_r by lia.
      rewrite <- Z.quot_opp_l by lia. rewrite Z.quot_div_nonneg by lia. lia.
    + destruct (KB n) as (K1 & K2 & K3); [lia|left; unfold T; lia|]. specialize (QP n ltac:(lia)).
      replace (- m0 * n) with (- (m0 * n)) by ring.
      rewrite (div_between _ P (- (n / a) - 1)) by lia.
      replace (- (n / a) - 1 <? 0) with true by lia. cbv iota. rewrite Z.quot_opp_r by lia.
      rewrite Z.quot_div_nonneg by lia. lia.
  - assert (Da : d = a) by lia. rewrite Da.
    destruct (Z_lt_le_dec n 0) as [Ln | Ln].
    + destruct (KB (- n)) as (K1 & K2 & K3); [lia|unfold T; lia|]. specialize (QP (- n) ltac:(lia)).
      replace (m0 * n) with (- (m0 * - n)) by ring.
      rewrite (div_between _ P (- (- n / a) - 1)) by lia.
      replace (- (- n / a) - 1 <? 0) with true by lia. cbv iota.
      replace n with (- - n) at 2 by lia. rewrite Z.quot_opp_l by lia.
      rewrite Z.quot_div_nonneg by lia. lia.
    + destruct (KB n) as (K1 & K2 & K3); [lia|left; unfold T; lia|]. specialize (QP n ltac:(lia)).
      specialize (K2 ltac:(unfold T; lia)).
      rewrite (div_between _ P (n / a)) by lia.
      replace (n / a <? 0) with false by lia. cbv iota.
      rewrite Z.quot_div_nonneg by lia. lia.
Qed.
