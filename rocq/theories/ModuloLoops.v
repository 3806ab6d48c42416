(** * Modular recurrences in loops, remainder to select (property C11, continued) *)
From Coq Require Import ZArith Lia Bool List ZifyBool Znumtheory.
From Verif Require Import Word IntRangeModel IntRangeSpec IntRangeProofs IntRangeExact IntRangeOps Modulo.
Import ListNotations.
Local Open Scope Z_scope.

(** ** Specification: the loop
<<
    i = initial; s = 0; k = 0;
    do { s = (s + inc[k]) % rem[k]; i = i + 1; k++; } while(i < bound);
>>
    (a single block, LoopAnalysis.cpp:29-115 with step 1).  [run inc rem bound k i s v]: from
    iteration [k] with these values the loop ends with [s] = [v], and no signed addition
    overflowed on the way. *)
Inductive run (inc rem : nat -> Z) (bound : Z) : nat -> Z -> Z -> Z -> Prop :=
| run_stop : forall k i s, i32 (s + inc k) -> i32 (i + 1) -> ~ (i + 1 < bound) ->
    run inc rem bound k i s (Z.rem (s + inc k) (rem k))
| run_next : forall k i s v, i32 (s + inc k) -> i32 (i + 1) -> i + 1 < bound ->
    run inc rem bound (S k) (i + 1) (Z.rem (s + inc k) (rem k)) v -> run inc rem bound k i s v.
Definition loopFinal (inc rem : nat -> Z) (initial bound v : Z) := run inc rem bound 0 initial 0 v.

(** ** Model *)
(** ModuloOpt.cpp:262-274 (64-bit registers): sext, mul, srem in i64, then truncation *)
Definition fold2_64 (initial bound inc rem : Z) : Z :=
  s32 (Z.rem (s64 (inc * sub32 bound initial)) rem).
(** :288-303 the unrolled double-and-add for a constant increment, [srem] *)
Fixpoint dblS (p : positive) (res add rem : Z) : Z :=
  match p with
  | xH => Z.rem (add32 add res) rem
  | xO p => dblS p res (Z.rem (shl1 add) rem) rem
  | xI p => dblS p (Z.rem (add32 add res) rem) (Z.rem (shl1 add) rem) rem
  end.
(** :314-331 the same with [urem] *)
Definition urem32 (a b : Z) : Z := s32 (u32 a mod u32 b).
Fixpoint dblU (p : positive) (res add rem : Z) : Z :=
  match p with
  | xH => urem32 (add32 add res) rem
  | xO p => dblU p res (urem32 (shl1 add) rem) rem
  | xI p => dblU p (urem32 (add32 add res) rem) (urem32 (shl1 add) rem) rem
  end.
(** :117-195 __cmmc_mulmod; [None]: not finished within [fuel] iterations *)
Fixpoint mulmod (fuel : nat) (a b res m : Z) : option Z :=
  match fuel with
  | O => None
  | S f =>
      let nextRes := if u32 b mod 2 =? 1 then Z.rem (add32 res a) m else res in
      let nextB := u32 b / 2 in
      let remA := Z.rem (shl1 a) m in
      if nextB =? 0 then Some nextRes else mulmod f remA nextB nextRes m
  end.
(** :216-343 foldAddRec2SRem: which replacement is chosen.  [rr], [ir]: ranges of the modulus and
    of the increment; [cinc]: the increment is a literal constant *)
Definition fold2 (reg64 : bool) (rr ir : range) (cinc : bool) (initial bound inc rem : Z) : option Z :=
  if reg64 then Some (fold2_64 initial bound inc rem)
  else if negb (isPositive ir) then None
  else
    let rR := match rsrem false full rr with Some r => r | None => full end in
    let a := Z.rem (sub32 bound initial) rem in
    if isNoSignedOverflow (rplus rR rR) then
      if cinc then match inc with Zpos p => Some (dblS p 0 a rem) | _ => None end
      else mulmod 33 a inc 0 rem
    else if cinc then match inc with Zpos p => Some (dblU p 0 a rem) | _ => None end
    else None.
(** :345-436 foldAddRec3SRem (the increment is the iteration number); the call is
    cmmcAddRec3SRem, cmmc_sysy_rt.cpp:300-303 *)
Definition fold3 (reg64 : bool) (rr : range) (initial bound rem : Z) : option Z :=
  let rR := match rsrem false full rr with Some r => r | None => full end in
  if negb (isNoSignedOverflow (rplus rR rR)) then None
  else
    let n := sub32 bound initial in
    if reg64 then Some (s32 (Z.rem (s64 (u64 (s64 ((n - 1) * n)) / 2)) rem))
    else Some (s32 (Z.rem (Z.quot (n * (n - 1)) 2) rem)).
(** :438-470 srem2select; [rconst]: the divisor is a literal constant *)
Definition srem2select (lr rr : range) (rconst : bool) (l r : Z) : option Z :=
  if negb (isNonNegative lr) then None
  else if negb (isPositive rr) then None
  else if smax lr <? smin rr then Some l
  else if isNoSignedOverflow lr && rconst then
    let nn := match nonNegative false with Some x => x | None => full end in
    let rg := match rsrem false nn rr with Some x => x | None => full end in
    let dbl := rplus rg rg in
    if isNoSignedOverflow dbl && (smax lr <=? smax dbl) then Some (if r <=? l then sub32 l r else l) else None
  else None.

(** ** Proofs *)
Lemma run_unique inc rem bound k i s v : run inc rem bound k i s v -> forall v', run inc rem bound k i s v' -> v = v'.
Proof.
  induction 1 as [k i s A B C|k i s v A B C R IH]; intros v' H; inversion H; subst; try contradiction; try reflexivity.
  apply IH. assumption.
Qed.

Lemma rem_range a m : m <> 0 -> - Z.abs m < Z.rem a m < Z.abs m.
Proof. intros M. pose proof (Z.rem_bound_abs a m M). lia. Qed.
Lemma rem_sign_pos a m : m <> 0 -> 0 <= a -> 0 <= Z.rem a m < Z.abs m.
Proof. intros M A. pose proof (Z.rem_nonneg a m M A). pose proof (rem_range a m M). lia. Qed.
Lemma rem_small a m : m <> 0 -> Z.abs a < Z.abs m -> Z.rem a m = a.
Proof. intros M A. apply Z.rem_small_iff; [exact M|exact A]. Qed.

Lemma rec_step k inc m : m <> 0 -> 0 <= k -> Z.rem (Z.rem (k * inc) m + inc) m = Z.rem ((k + 1) * inc) m.
Proof.
  intros M K. apply rem_same_sign; [exact M| |].
  - destruct (rem_cong (k * inc) m M) as (j & J). exists j. lia.
  - destruct (Z_le_gt_dec 0 inc) as [P|P].
    + left. pose proof (rem_sign_pos (k * inc) m M ltac:(nia)). nia.
    + right. pose proof (rem_sign_pos (k * - inc) m M ltac:(nia)) as X.
      replace (k * - inc) with (- (k * inc)) in X by ring. rewrite Z.rem_opp_l in X by exact M. nia.
Qed.
Lemma linear_final inc m bound : m <> 0 -> forall k i s v, run (fun _ => inc) (fun _ => m) bound k i s v ->
  s = Z.rem (Z.of_nat k * inc) m -> i + 1 <= bound ->
  v = Z.rem ((Z.of_nat k + (bound - i)) * inc) m.
Proof.
  intros M. induction 1 as [k i s A B C|k i s v A B C R IH]; intros -> L.
  - rewrite rec_step by lia. f_equal. f_equal. lia.
  - rewrite IH; [f_equal; f_equal; lia| |lia]. rewrite rec_step by lia. f_equal. f_equal. lia.
Qed.
Lemma linear_exists inc m bound : m <> 0 -> (forall s, - Z.abs m < s < Z.abs m -> i32 (s + inc)) -> i32 bound ->
  forall n k i s, i + 1 + Z.of_nat n = bound -> INT_MIN <= i -> - Z.abs m < s < Z.abs m ->
  exists v, run (fun _ => inc) (fun _ => m) bound k i s v.
Proof.
  intros M H B. induction n as [|n IH]; intros k i s E L S.
  - eexists. apply run_stop; [apply H; exact S|unfold i32 in *; lia|lia].
  - destruct (IH (Datatypes.S k) (i + 1) (Z.rem (s + inc) m) ltac:(lia) ltac:(lia) (rem_range _ _ M)) as (v & R).
    exists v. apply run_next; [apply H; exact S|unfold i32 in *; lia|lia|exact R].
Qed.

Lemma s64_small x : -9223372036854775808 <= x < 9223372036854775808 -> s64 x = x.
Proof. intros H. unfold s64. rewrite Z.mod_small; lia. Qed.

Lemma fold2_64_ok initial bound inc m : i32 inc -> i32 m -> m <> 0 -> 0 < bound - initial <= INT_MAX ->
  fold2_64 initial bound inc m = Z.rem ((bound - initial) * inc) m.
Proof.
  intros I M N T. unfold fold2_64, sub32. unfold i32, INT_MIN, INT_MAX in *.
  rewrite (s32_small (bound - initial)) by (unfold INT_MIN, INT_MAX; lia).
  rewrite s64_small by nia. rewrite Z.mul_comm.
  pose proof (rem_range ((bound - initial) * inc) m N). rewrite s32_small; [reflexivity|unfold INT_MIN, INT_MAX; lia].
Qed.

(** double and add *)
Lemma dbl_step add m : m <> 0 -> Z.abs m <= 1073741824 -> 0 <= add < Z.abs m ->
  0 <= Z.rem (shl1 add) m < Z.abs m /\ (m | Z.rem (shl1 add) m - 2 * add).
Proof.
  intros M B A. unfold shl1. rewrite s32_small by (unfold INT_MIN, INT_MAX; lia).
  split; [apply rem_sign_pos; [exact M|lia]|apply rem_cong; exact M].
Qed.
Lemma add_step add res m : m <> 0 -> Z.abs m <= 1073741824 -> 0 <= add < Z.abs m -> 0 <= res < Z.abs m ->
  0 <= Z.rem (add32 add res) m < Z.abs m /\ (m | Z.rem (add32 add res) m - (add + res)).
Proof.
  intros M B A R. unfold add32. rewrite s32_small by (unfold INT_MIN, INT_MAX; lia).
  split; [apply rem_sign_pos; [exact M|lia]|apply rem_cong; exact M].
Qed.
Lemma dblS_ok m : m <> 0 -> Z.abs m <= 1073741824 -> forall p res add,
  0 <= add < Z.abs m -> 0 <= res < Z.abs m ->
  0 <= dblS p res add m < Z.abs m /\ (m | dblS p res add m - (res + Zpos p * add)).
Proof.
  intros M B. induction p as [p IH|p IH|]; intros res add A R; cbn [dblS].
  - destruct (dbl_step add m M B A) as (A1 & (d & D)). destruct (add_step add res m M B A R) as (R1 & (e & E)).
    destruct (IH _ _ A1 R1) as (X & (f & F)). split; [exact X|].
    exists (f + e + Zpos p * d). rewrite (Pos2Z.inj_xI p). nia.
  - destruct (dbl_step add m M B A) as (A1 & (d & D)).
    destruct (IH _ _ A1 R) as (X & (f & F)). split; [exact X|].
    exists (f + Zpos p * d). rewrite (Pos2Z.inj_xO p). nia.
  - destruct (add_step add res m M B A R) as (R1 & (e & E)). split; [exact R1|]. exists e. lia.
Qed.
Lemma rem_unique x y m : m <> 0 -> 0 <= x < Z.abs m -> 0 <= y -> (m | x - y) -> x = Z.rem y m.
Proof.
  intros M X Y D. rewrite <- (rem_small x m M) by lia. apply rem_same_sign; [exact M|exact D|left; lia].
Qed.

(** the same modulo a positive 32-bit number, unsigned *)
Lemma urem_ok x m : 0 < m <= INT_MAX -> 0 <= x < 4294967296 -> 0 <= urem32 (s32 x) m < m /\ (m | urem32 (s32 x) m - x).
Proof.
  intros M X. unfold urem32. rewrite u32_s32, (u32_small x X), (u32_small m) by (unfold INT_MAX in *; lia).
  pose proof (Z.mod_pos_bound x m ltac:(lia)) as B. rewrite s32_small by (unfold INT_MIN, INT_MAX in *; lia).
  split; [exact B|]. exists (- (x / m)). pose proof (Z.div_mod x m ltac:(lia)). nia.
Qed.
Lemma dblU_ok m : 0 < m <= INT_MAX -> forall p res add,
  0 <= add < m -> 0 <= res < m ->
  0 <= dblU p res add m < m /\ (m | dblU p res add m - (res + Zpos p * add)).
Proof.
  intros M. induction p as [p IH|p IH|]; intros res add A R; cbn [dblU]; unfold shl1, add32.
  - destruct (urem_ok (2 * add) m M ltac:(unfold INT_MAX in *; lia)) as (A1 & (d & D)).
    destruct (urem_ok (add + res) m M ltac:(unfold INT_MAX in *; lia)) as (R1 & (e & E)).
    destruct (IH _ _ A1 R1) as (X & (f & F)). split; [exact X|].
    exists (f + e + Zpos p * d). rewrite (Pos2Z.inj_xI p). pose proof (f_equal (Z.mul (Zpos p)) D). clear - F E H. lia.
  - destruct (urem_ok (2 * add) m M ltac:(unfold INT_MAX in *; lia)) as (A1 & (d & D)).
    destruct (IH _ _ A1 R) as (X & (f & F)). split; [exact X|].
    exists (f + Zpos p * d). rewrite (Pos2Z.inj_xO p). pose proof (f_equal (Z.mul (Zpos p)) D). clear - F H. lia.
  - destruct (urem_ok (add + res) m M ltac:(unfold INT_MAX in *; lia)) as (R1 & (e & E)).
    split; [exact R1|]. exists e. lia.
Qed.

(** __cmmc_mulmod *)
Lemma mulmod_ok m : m <> 0 -> Z.abs m <= 1073741824 -> forall fuel a b res,
  0 <= a < Z.abs m -> 0 <= res < Z.abs m -> 0 < b < 2 ^ Z.of_nat fuel -> b <= INT_MAX ->
  exists v, mulmod fuel a b res m = Some v /\ 0 <= v < Z.abs m /\ (m | v - (res + b * a)).
Proof.
  intros M B. induction fuel as [|fuel IH]; intros a b res A R HB BM; [cbn in HB; lia|].
  rewrite Nat2Z.inj_succ, Z.pow_succ_r in HB by lia. cbn [mulmod].
  rewrite !(u32_small b) by (unfold INT_MAX in *; lia).
  pose proof (Z.div_mod b 2 ltac:(lia)) as DM. pose proof (Z.mod_pos_bound b 2 ltac:(lia)) as MB.
  set (nr := if b mod 2 =? 1 then Z.rem (add32 res a) m else res).
  assert (NR : 0 <= nr < Z.abs m /\ (m | nr - (res + b mod 2 * a))).
  { unfold nr. destruct (b mod 2 =? 1) eqn:E.
    - destruct (add_step res a m M B R A) as (X & (e & Y)). split; [exact X|]. exists e. nia.
    - split; [exact R|]. exists 0. nia. }
  destruct NR as (NR & (e & E)). destruct (dbl_step a m M B A) as (A1 & (d & D)).
  destruct (b / 2 =? 0) eqn:Z0.
  - exists nr. split; [reflexivity|]. split; [exact NR|]. exists e. nia.
  - destruct (IH _ (b / 2) nr A1 NR) as (v & V & V1 & (f & F)); [split; [lia|]|unfold INT_MAX in *; lia|].
    + apply Z.div_lt_upper_bound; lia.
    + exists v. split; [exact V|]. split; [exact V1|]. exists (f + e + b / 2 * d). nia.
Qed.

(** ranges: a double of the remainder range that cannot overflow bounds the modulus *)
Lemma double_bound rr m x : wf rr -> describes rr (u32 m) -> i32 m -> m <> 0 ->
  (forall r, rsrem false x rr = Some r -> True) -> wf x ->
  (forall y, 0 <= y <= INT_MAX -> describes x y) ->
  let rR := match rsrem false x rr with Some r => r | None => full end in
  isNoSignedOverflow (rplus rR rR) = true -> Z.abs m <= 1073741824.
Proof.
  intros W D I M _ WX DX rR H. destruct (Z_le_gt_dec (Z.abs m) 1073741824) as [|G]; [assumption|exfalso].
  assert (MS : s32 (u32 m) = m) by (rewrite s32_u32; apply s32_small; exact I).
  assert (U0 : u32 m <> 0) by (intros E; rewrite E in MS; vm_compute in MS; congruence).
  assert (X : forall y, 0 <= y < Z.abs m -> describes rR y /\ wf rR).
  { intros y Y. unfold i32, INT_MIN, INT_MAX in *.
    destruct (rsrem_sound_lemma false x rr y (u32 m) WX W (DX y ltac:(lia)) D U0) as (r & E & WR & DR).
    unfold rR. rewrite E. split; [|exact WR].
    unfold m_srem in DR. rewrite MS in DR. rewrite (s32_small y) in DR by (unfold INT_MIN, INT_MAX; lia).
    rewrite rem_small in DR by lia. rewrite u32_small in DR by lia. exact DR. }
  destruct (X (Z.abs m - 1)) as (D1 & W1); [lia|]. 
  destruct (X (2147483647 - (Z.abs m - 1))) as (D2 & _); [unfold i32, INT_MIN, INT_MAX in *; lia|].
  destruct (radd_sound_lemma false rR rR _ _ W1 W1 D1 D2 Logic.I) as (r & E & WR & DR).
  unfold rplus in H. rewrite E in H. unfold m_add in DR.
  replace (Z.abs m - 1 + (2147483647 - (Z.abs m - 1))) with 2147483647 in DR by lia.
  change (u32 2147483647) with 2147483647 in DR. destruct DR as (_ & _ & S & _).
  change (s32 2147483647) with 2147483647 in S. unfold isNoSignedOverflow, INT_MAX in H. lia.
Qed.
Lemma isPositive_ok r x : describes r x -> isPositive r = true -> 0 < s32 x.
Proof. intros (_ & _ & S & _) H. unfold isPositive in H. lia. Qed.

(** ** Theorems *)

(** The last value of the recurrence: for every loop entered with initial < bound and at most
    2^31-1 iterations, modulus and increment not changing in the loop, no signed overflow in
    the program, and right ranges, whatever replacement the pass chooses has the loop's final
    value -- except that the unsigned replacement needs a positive modulus. *)
Theorem C11_linear_recurrence_final_value_partial : forall reg64 rr ir cinc initial bound inc rem v v',
  wf rr -> wf ir -> describes rr (u32 rem) -> describes ir (u32 inc) ->
  i32 initial -> i32 bound -> i32 inc -> i32 rem -> rem <> 0 ->
  initial < bound -> bound - initial <= INT_MAX ->
  loopFinal (fun _ => inc) (fun _ => rem) initial bound v ->
  fold2 reg64 rr ir cinc initial bound inc rem = Some v' ->
  (reg64 = false -> cinc = true -> 0 < rem) ->
  v' = v.
Proof.
  intros reg64 rr ir cinc initial bound inc rem v v' W1 W2 D1 D2 II IB IC IR N L T R F SG.
  unfold loopFinal in R. apply linear_final in R; [|exact N|cbn [Z.of_nat]; rewrite Z.mul_0_l; symmetry; apply Z.rem_0_l; exact N|lia].
  replace (Z.of_nat 0 + (bound - initial)) with (bound - initial) in R by lia. subst v.
  set (n := bound - initial) in *.
  unfold fold2 in F. destruct reg64.
  - injection F as <-. apply fold2_64_ok; try assumption. lia.
  - destruct (isPositive ir) eqn:P; [|discriminate]. cbn [negb] in F.
    apply (isPositive_ok _ _ D2) in P. rewrite s32_u32, (s32_small inc IC) in P.
    set (rR := match rsrem false full rr with Some r => r | None => full end) in *.
    cbv zeta in F. unfold sub32 in F. fold n in F. rewrite (s32_small n) in F by (unfold INT_MIN, INT_MAX in *; lia).
    set (a := Z.rem n rem) in *.
    pose proof (rem_sign_pos n rem N ltac:(lia)) as AR. fold a in AR.
    destruct (rem_cong n rem N) as (j & J). fold a in J.
    destruct (isNoSignedOverflow (rplus rR rR)) eqn:NO.
    + assert (B : Z.abs rem <= 1073741824).
      { refine (double_bound rr rem full W1 D1 IR N (fun _ _ => Logic.I) wf_full _ NO).
        intros y Y. apply describes_full. unfold INT_MAX in Y. lia. }
      destruct cinc.
      * destruct inc as [|p|p]; try discriminate. injection F as <-.
        destruct (dblS_ok rem N B p 0 a AR ltac:(lia)) as (X & (f & E)).
        apply rem_unique; [exact N|exact X|nia|]. exists (f + Zpos p * j). nia.
      * destruct (mulmod_ok rem N B 33 a inc 0 AR ltac:(lia)) as (w & E & X & (f & E2)).
        { change (2 ^ Z.of_nat 33) with 8589934592. unfold i32, INT_MAX in *. lia. }
        { apply IC. }
        rewrite E in F. injection F as <-. apply rem_unique; [exact N|exact X|nia|]. exists (f + inc * j). nia.
    + destruct cinc; [|discriminate]. destruct inc as [|p|p]; try discriminate. injection F as <-.
      assert (PR : 0 < rem) by (apply SG; reflexivity).
      destruct (dblU_ok rem ltac:(unfold i32, INT_MAX in *; lia) p 0 a ltac:(lia) ltac:(lia)) as (X & (f & E)).
      apply rem_unique; [exact N|lia|nia|]. exists (f + Zpos p * j). nia.
Qed.
(** 10 iterations, increment 7, modulus 5, on both kinds of target *)
Example C11_linear_recurrence_witness :
  (exists v, loopFinal (fun _ => 7) (fun _ => 5) 0 10 v) /\
  fold2 true full full true 0 10 7 5 = Some 0 /\ fold2 false (ofConst 5) (ofConst 7) true 0 10 7 5 = Some 0 /\
  fold2 false (ofConst 5) (ofConst 7) false 0 8 7 5 = Some 1 /\ fold2 false full (ofConst 7) true 0 8 7 5 = Some 1.
Proof.
  split.
  - apply (linear_exists 7 5 10 ltac:(lia)) with (n := 9%nat); unfold i32, INT_MIN, INT_MAX; cbn; intros; lia.
  - split; [|split; [|split]]; vm_compute; reflexivity.
Qed.

(** The arithmetic series: inc is the iteration number *)
Lemma tri_even k : exists t, k * (k - 1) = 2 * t.
Proof.
  destruct (Z.Even_or_Odd k) as [(j & ->)|(j & ->)]; [exists (j * (2 * j - 1))|exists ((2 * j + 1) * j)]; ring.
Qed.
Lemma series_final m bound : m <> 0 -> forall k i s v, run Z.of_nat (fun _ => m) bound k i s v ->
  forall t, Z.of_nat k * (Z.of_nat k - 1) = 2 * t -> s = Z.rem t m -> i + 1 <= bound ->
  exists t', (Z.of_nat k + (bound - i)) * (Z.of_nat k + (bound - i) - 1) = 2 * t' /\ v = Z.rem t' m.
Proof.
  intros M.
  assert (ST : forall k t, 0 <= k -> k * (k - 1) = 2 * t -> (k + 1) * k = 2 * (t + k) /\ Z.rem (Z.rem t m + k) m = Z.rem (t + k) m).
  { intros k t K E. split; [lia|]. apply rem_same_sign; [exact M| |].
    - destruct (rem_cong t m M) as (j & J). exists j. lia.
    - left. assert (0 <= t) by nia. pose proof (rem_sign_pos t m M H). lia. }
  induction 1 as [k i s A B C|k i s v A B C R IH]; intros t E -> L.
  - destruct (ST (Z.of_nat k) t ltac:(lia) E) as (E1 & E2). exists (t + Z.of_nat k). split; [|exact E2].
    replace (bound - i) with 1 by lia. replace (Z.of_nat k + 1 - 1) with (Z.of_nat k) by lia. exact E1.
  - destruct (ST (Z.of_nat k) t ltac:(lia) E) as (E1 & E2).
    destruct (IH (t + Z.of_nat k)) as (t' & T1 & T2).
    + rewrite Nat2Z.inj_succ. replace (Z.succ (Z.of_nat k) - 1) with (Z.of_nat k) by lia. exact E1.
    + exact E2.
    + lia.
    + exists t'. split; [|exact T2]. rewrite <- T1. rewrite Nat2Z.inj_succ. f_equal; lia.
Qed.
Theorem C11_arithmetic_series_final_value_partial : forall reg64 rr initial bound rem v v',
  i32 initial -> i32 bound -> i32 rem -> rem <> 0 ->
  initial < bound -> bound - initial <= INT_MAX ->
  loopFinal Z.of_nat (fun _ => rem) initial bound v ->
  fold3 reg64 rr initial bound rem = Some v' -> v' = v.
Proof.
  intros reg64 rr initial bound rem v v' II IB IR N L T R F.
  unfold loopFinal in R. apply (series_final rem bound N) with (t := 0) in R;
    [|reflexivity|symmetry; apply Z.rem_0_l; exact N|lia].
  destruct R as (t & E & ->). replace (Z.of_nat 0 + (bound - initial)) with (bound - initial) in E by lia.
  unfold fold3 in F. destruct (negb _); [discriminate|]. cbv zeta in F.
  unfold sub32 in F. rewrite (s32_small (bound - initial)) in F by (unfold INT_MIN, INT_MAX in *; lia).
  set (n := bound - initial) in *. unfold i32, INT_MIN, INT_MAX in *.
  assert (TB : 0 <= t < 2305843009213693952) by nia.
  pose proof (rem_range t rem N) as RB.
  destruct reg64; injection F as <-.
  - replace ((n - 1) * n) with (2 * t) by lia. rewrite (s64_small (2 * t)) by lia.
    unfold u64. rewrite Z.mod_small by lia. replace (2 * t / 2) with t by (rewrite Z.mul_comm, Z.div_mul; lia).
    rewrite s64_small by lia. apply s32_small. unfold INT_MIN, INT_MAX. lia.
  - rewrite E. rewrite Z.mul_comm, Z.quot_mul by lia. apply s32_small. unfold INT_MIN, INT_MAX. lia.
Qed.
Example C11_arithmetic_series_witness :
  loopFinal Z.of_nat (fun _ => 7) 2 6 6 /\ fold3 true (ofConst 7) 2 6 7 = Some 6 /\ fold3 false (ofConst 7) 2 6 7 = Some 6.
Proof.
  split; [|split; vm_compute; reflexivity].
  unfold loopFinal. do 3 (apply run_next; [split; vm_compute; discriminate|split; vm_compute; discriminate|lia|]).
  apply (run_stop Z.of_nat (fun _ => 7) 6 3 5 3); [split; vm_compute; discriminate|split; vm_compute; discriminate|lia].
Qed.

(** ** Where the folding is wrong *)

(** The replacement is used in every iteration, not only after the last one: the value the
    instruction has in the first iteration differs (nothing checks that it is not used inside). *)
Theorem C11_recurrence_used_inside_loop_refuted : exists initial bound inc rem,
  initial < bound /\ loopFinal (fun _ => inc) (fun _ => rem) initial bound (Z.rem (bound * inc) rem) /\
  let first := Z.rem (0 + inc) rem in
  fold2 true full full true initial bound inc rem <> Some first.
Proof.
  exists 0, 2, 1, 5. split; [lia|]. split.
  - unfold loopFinal. apply run_next; [unfold i32, INT_MIN, INT_MAX; lia|unfold i32, INT_MIN, INT_MAX; lia|lia|].
    apply (run_stop (fun _ => 1) (fun _ => 5) 2 1 1 1); unfold i32, INT_MIN, INT_MAX; lia.
  - vm_compute. discriminate.
Qed.
(** The loop body runs once even if initial >= bound; the replacement then uses bound - initial *)
Theorem C11_recurrence_unguarded_loop_refuted : exists initial bound inc rem v,
  loopFinal (fun _ => inc) (fun _ => rem) initial bound v /\
  fold2 true full full true initial bound inc rem <> Some v.
Proof.
  exists 0, 0, 1, 5, 1. split.
  - apply (run_stop (fun _ => 1) (fun _ => 5) 0 0 0 0); unfold i32, INT_MIN, INT_MAX; lia.
  - vm_compute. discriminate.
Qed.
(** More than 2^31-1 iterations: bound - initial wraps *)
Theorem C11_recurrence_long_loop_refuted : exists initial bound inc rem v,
  i32 initial /\ i32 bound /\ initial < bound /\
  loopFinal (fun _ => inc) (fun _ => rem) initial bound v /\
  fold2 true full full true initial bound inc rem <> Some v.
Proof.
  destruct (linear_exists 1 7 2147483647 ltac:(lia)) with (n := Z.to_nat 4294967294) (k := 0%nat) (i := -2147483648) (s := 0) as (v & R).
  - unfold i32, INT_MIN, INT_MAX. lia.
  - unfold i32, INT_MIN, INT_MAX. lia.
  - rewrite Z2Nat.id; lia.
  - unfold INT_MIN. lia.
  - lia.
  - exists (-2147483648), 2147483647, 1, 7, v. split; [unfold i32, INT_MIN, INT_MAX; lia|]. split; [unfold i32, INT_MIN, INT_MAX; lia|].
    split; [lia|]. split; [exact R|].
    apply linear_final in R; [|lia|reflexivity|lia]. subst v. vm_compute. discriminate.
Qed.
(** The modulus is not required to be the same in every iteration *)
Theorem C11_recurrence_varying_modulus_refuted : exists initial bound inc rem v,
  loopFinal (fun _ => inc) rem initial bound v /\ rem 0%nat <> 0 /\ rem 1%nat <> 0 /\
  fold2 true full full true initial bound inc (rem 1%nat) <> Some v.
Proof.
  exists 0, 2, 3, (fun k => match k with O => 2 | _ => 7 end), 4. split.
  - unfold loopFinal. apply run_next; [unfold i32, INT_MIN, INT_MAX; lia|unfold i32, INT_MIN, INT_MAX; lia|lia|].
    apply (run_stop (fun _ => 3) (fun k => match k with O => 2 | _ => 7 end) 2 1 1 1); unfold i32, INT_MIN, INT_MAX; lia.
  - split; [lia|]. split; [lia|]. vm_compute. discriminate.
Qed.
(** On 32-bit targets, an unknown modulus that is negative at run time: unsigned remainders *)
Theorem C11_recurrence_negative_modulus_refuted : exists initial bound inc rem v,
  initial < bound /\ describes full (u32 rem) /\ describes (ofConst inc) (u32 inc) /\
  loopFinal (fun _ => inc) (fun _ => rem) initial bound v /\
  fold2 false full (ofConst inc) true initial bound inc rem = Some 5 /\ v = 2.
Proof.
  exists 0, 1, 5, (-3), 2. split; [lia|]. split; [apply describes_full; apply u32_range|].
  split; [apply ofConst_exact; reflexivity|]. split.
  - apply (run_stop (fun _ => 5) (fun _ => -3) 1 0 0 0); unfold i32, INT_MIN, INT_MAX; lia.
  - split; [vm_compute; reflexivity|reflexivity].
Qed.

(** ** Remainder to select *)
Lemma b2u_s ck r r' : bit2Unsigned ck r = Some r' -> smax r' = smax r /\ smin r' = smin r.
Proof.
  unfold bit2Unsigned. cbv zeta.
  set (r1 := if _ =? _ then _ else _).
  assert (S : smax r1 = smax r /\ smin r1 = smin r) by (unfold r1; destruct (_ =? _); auto).
  unfold check. match goal with |- (if ?c then _ else _) = _ -> _ => destruct c; [discriminate|] end. intros E. injection E as <-. exact S.
Qed.
Lemma s2u_s r : smax (signed2Unsigned r) = smax r /\ smin (signed2Unsigned r) = smin r.
Proof.
  unfold signed2Unsigned. cbv zeta.
  set (r1 := if 0 <=? smin r then _ else _).
  assert (S : smax r1 = smax r /\ smin r1 = smin r) by (unfold r1; destruct (_ <=? _); auto).
  destruct (smax r1 <? 0); exact S.
Qed.
Lemma u2b_s r : smax (unsigned2Bit r) = smax r /\ smin (unsigned2Bit r) = smin r.
Proof. unfold unsigned2Bit. cbv zeta. destruct (_ =? _); auto. Qed.
Lemma s2b_s r : smax (signed2Bit r) = smax r /\ smin (signed2Bit r) = smin r.
Proof. unfold signed2Bit. cbv zeta. destruct (_ =? _); auto. Qed.
Lemma u2s_s r : smax (unsigned2Signed r) <= smax r /\ smin r <= smin (unsigned2Signed r).
Proof.
  unfold unsigned2Signed. cbv zeta.
  set (r1 := if umax r <=? INT_MAX then _ else _).
  assert (S : smax r1 <= smax r /\ smin r <= smin r1) by (unfold r1; destruct (_ <=? _); cbn [setS smax smin]; lia).
  destruct (INT_MAX <? umin r1); cbn [setS smax smin]; lia.
Qed.
Lemma sync_s ck r r' : sync ck r = Some r' -> smax r' <= smax r /\ smin r <= smin r'.
Proof.
  unfold sync. destruct (bit2Unsigned ck (unsigned2Bit (signed2Unsigned r))) as [r2|] eqn:E; [|discriminate].
  cbn [bind]. intros H. injection H as <-.
  apply b2u_s in E. pose proof (s2u_s r). pose proof (u2b_s (signed2Unsigned r)).
  pose proof (u2s_s r2). pose proof (s2b_s (unsigned2Signed r2)). lia.
Qed.
Lemma radd_s a r : radd false a a = Some r -> 0 <= smin a -> smax a <= 1073741823 -> smin a <= smax a -> smax r <= 2 * smax a.
Proof.
  unfold radd. destruct (kz a =? UINT_MAX).
  { intros H. injection H as <-. lia. }
  intros H A B C. cbv zeta in H.
  replace (negb (signedOverflow (smin a + smin a)) && negb (signedOverflow (smax a + smax a))) with true in H.
  2: { unfold signedOverflow, INT_MIN, INT_MAX. lia. }
  unfold setSignedRange, check in H. cbn [andb bind] in H.
  set (c := negb _ && negb _) in H. destruct c; unfold setUnsignedRange, setKnownBits, check in H; cbn [andb bind] in H;
    apply sync_s in H; cbn [setS setU setK smax smin] in H; lia.
Qed.
Theorem C11_remainder_to_select : forall lr rr rconst l r v,
  wf lr -> wf rr -> describes lr (u32 l) -> describes rr (u32 r) -> i32 l -> i32 r ->
  (rconst = true -> rr = ofConst r) ->
  srem2select lr rr rconst l r = Some v -> v = Z.rem l r.
Proof.
  intros lr rr rconst l r v W1 W2 D1 D2 IL IR RC H. unfold srem2select in H.
  destruct (isNonNegative lr) eqn:NN; [|discriminate]. destruct (isPositive rr) eqn:PP; [|discriminate]. cbn [negb] in H.
  pose proof (isPositive_ok _ _ D2 PP) as P. rewrite s32_u32, (s32_small r IR) in P.
  assert (L0 : 0 <= l /\ smin lr <= l <= smax lr).
  { destruct D1 as (_ & _ & S & _). rewrite s32_u32, (s32_small l IL) in S. unfold isNonNegative in NN. lia. }
  assert (R0 : smin rr <= r).
  { destruct D2 as (_ & _ & S & _). rewrite s32_u32, (s32_small r IR) in S. lia. }
  destruct (smax lr <? smin rr) eqn:Q.
  { injection H as <-. symmetry. apply Z.rem_small. lia. }
  destruct (isNoSignedOverflow lr && rconst) eqn:Q2; [|discriminate].
  apply andb_true_iff in Q2. specialize (RC (proj2 Q2)). subst rr. cbv zeta in H.
  set (nn := match nonNegative false with Some x => x | None => full end) in *.
  assert (EN : nn = mkR 2147483648 0 0 2147483647 0 2147483647) by (vm_compute; reflexivity).
  set (rg := match rsrem false nn (ofConst r) with Some x => x | None => full end) in *.
  assert (EG : rg = match rsrem false nn (ofConst r) with Some x => x | None => full end) by reflexivity.
  clearbody rg nn.
  match type of H with (if ?c then _ else _) = _ => destruct c eqn:Q3; [|discriminate] end.
  apply andb_true_iff in Q3. destruct Q3 as (Q3 & Q4). injection H as <-.
  assert (WN : wf nn) by (rewrite EN; unfold wf; cbn [kz ko umin umax smin smax]; unfold INT_MIN, INT_MAX; lia).
  assert (DN : forall y, 0 <= y <= INT_MAX -> describes nn y).
  { intros y Y. rewrite EN. unfold describes. cbn [kz ko umin umax smin smax]. unfold INT_MAX in Y.
    rewrite s32_small by (unfold INT_MIN, INT_MAX; lia). split; [lia|]. split; [lia|]. split; [lia|]. split; intros i Hi.
    - intros T. assert (i = 31).
      { change 2147483648 with (2 ^ 31) in T. rewrite Z.pow2_bits_eqb in T by lia. lia. }
      subst i. rewrite <- (Z.mod_small y (2 ^ 31)) by (change (2 ^ 31) with 2147483648; lia). apply Z.mod_pow2_bits_high. lia.
    - rewrite Z.bits_0. discriminate. }
  pose proof Q3 as Q5. rewrite EG in Q5.
  pose proof (double_bound (ofConst r) r nn W2 D2 IR ltac:(lia) (fun _ _ => Logic.I) WN DN Q5) as B. clear Q5.
  assert (RG : 0 <= smin rg /\ smax rg <= r - 1 /\ smin rg <= smax rg).
  { destruct (rsrem_sound_lemma false nn (ofConst r) 0 (u32 r) WN W2) as (x & E & WX & DX).
    { apply DN. unfold INT_MAX. lia. }
    { exact D2. }
    { unfold nonzero_divisor. rewrite u32_small by (unfold i32, INT_MAX in *; lia). lia. }
    rewrite EG. rewrite E. split; [|split].
    3: { destruct DX as (_ & _ & S & _). lia. }
    all: unfold rsrem in E; cbn [ofConst smin smax] in E; rewrite (s32_small r IR) in E.
    all: replace ((r =? 0) && (r =? 0)) with false in E by lia; replace (0 <=? r) with true in E by lia.
    all: rewrite EN in E; unfold isNonNegative in E; cbn [smin smax] in E; cbn [Z.leb Z.compare Z.eqb negb INT_MIN] in E.
    all: unfold setSignedRange, check in E; cbn [andb bind] in E.
    all: destruct (_ <? r); cbn [bind] in E; apply sync_s in E; cbn [setS smin smax] in E; lia. }
  destruct RG as (G1 & G2 & G3).
  assert (DB : smax (rplus rg rg) <= 2 * (r - 1)).
  { unfold rplus. destruct (radd false rg rg) as [x|] eqn:E.
    - apply radd_s in E; lia.
    - unfold rplus in Q3. rewrite E in Q3. vm_compute in Q3. discriminate. }
  destruct (r <=? l) eqn:C.
  - unfold sub32. rewrite s32_small by (unfold i32, INT_MIN, INT_MAX in *; lia).
    replace l with ((l - r) + 1 * r) at 2 by lia. rewrite Z.rem_add by nia. symmetry. apply Z.rem_small. lia.
  - symmetry. apply Z.rem_small. lia.
Qed.
Example C11_remainder_to_select_witness :
  let lr := setU (setS full 0 150) 0 150 in
  wf lr /\ describes lr (u32 130) /\ describes (ofConst 100) (u32 100) /\ wf (ofConst 100) /\
  srem2select lr (ofConst 100) true 130 100 = Some 30.
Proof.
  split; [unfold wf, setU, setS, full, INT_MIN, INT_MAX, UINT_MAX; cbn [kz ko umin umax smin smax]; lia|]. split.
  - unfold describes, setU, setS, full. cbn [kz ko umin umax smin smax]. change (u32 130) with 130. change (s32 130) with 130.
    split; [lia|]. split; [lia|]. split; [lia|]. split; intros i Hi; rewrite Z.bits_0; discriminate.
  - split; [apply ofConst_exact; reflexivity|]. split; [apply ofConst_wf|]. vm_compute. reflexivity.
Qed.
