(** C30, second half: relaxWInst (cmmc/Target/RISCV/RISCVScheduleModel.cpp:997-1195), which turns 32-bit
    instructions into their 64-bit forms when nobody looks at the upper half. *)
From Coq Require Import ZArith Lia Bool ZifyBool List Arith.
From Verif Require Import Word Rv64 RvMachine RvPeephole.
Import ListNotations.
Local Open Scope Z_scope.

(* ------------------------------------------------------------------ *)
(** * What the loop guarantees *)
Definition changed (p q : prog) (u : nat) (i : instr) : Prop :=
  nth_error p u = Some i /\ isInterest i = true /\ noRelax0 p u = false /\ nth_error q u = Some (relaxed i).

Lemma setNth_length n x p : length (setNth n x p) = length p.
Proof. revert n. induction p as [|y p IH]; intros [|n]; cbn; try reflexivity. rewrite IH. reflexivity. Qed.
Lemma setNth_same n x p : (n < length p)%nat -> nth_error (setNth n x p) n = Some x.
Proof. revert n. induction p as [|y p IH]; intros [|n] H; cbn in *; try lia; [reflexivity|]. apply IH. lia. Qed.
Lemma setNth_other n x p j : j <> n -> nth_error (setNth n x p) j = nth_error p j.
Proof.
  revert n j. induction p as [|y p IH]; intros [|n] [|j] H; cbn; try reflexivity; try lia. apply IH. lia.
Qed.
Lemma relaxed_idem i : relaxed (relaxed i) = relaxed i.
Proof. destruct i; try reflexivity; destruct o; reflexivity. Qed.
Lemma relaxed_not_user i : isInterest i = true -> isWUser (relaxed i) = false.
Proof. destruct i; try discriminate; destruct o; try discriminate; reflexivity. Qed.
Lemma relaxed_not_interest i : isInterest i = false -> relaxed i = i.
Proof. destruct i; try reflexivity; destruct o; try reflexivity; discriminate. Qed.
Lemma interest_user i : isInterest i = true -> isWUser i = true.
Proof. destruct i; try discriminate; destruct o; try discriminate; reflexivity. Qed.
Lemma interest_changes i : isInterest i = true -> relaxed i <> i.
Proof. destruct i; try discriminate; destruct o; try discriminate; cbn; congruence. Qed.

Record loopInv (p q : prog) (no : list nat) : Prop := {
  L1 : forall u, nth_error q u = nth_error p u \/ exists i, changed p q u i;
  L2 : forall u i j, changed p q u i -> isSRAI (relaxed i) = false -> In j (usersOf p u) -> j <> u ->
         nth_error q j = nth_error p j /\ In j no /\ exists ij, nth_error p j = Some ij /\ isWUser ij = true }.

Lemma usersOf_In p u j : In j (usersOf p u) <->
  exists i d ij, nth_error p u = Some i /\ dst i = Some d /\ nth_error p j = Some ij /\ In d (uses ij).
Proof.
  unfold usersOf. split.
  - destruct (nth_error p u) as [i|] eqn:E; [|intros []]. destruct (dst i) as [d|] eqn:D; [|intros []].
    intros H. apply filter_In in H. destruct H as [_ H]. destruct (nth_error p j) as [ij|] eqn:Ej; [|discriminate].
    exists i, d, ij. repeat split; try assumption.
    unfold usesReg in H. apply existsb_exists in H. destruct H as [x [Hx E2]]. apply Nat.eqb_eq in E2. subst x. exact Hx.
  - intros (i & d & ij & -> & -> & Ej & U). apply filter_In. split.
    + apply in_seq. assert (j < length p)%nat by (apply nth_error_Some; congruence). lia.
    + rewrite Ej. unfold usesReg. apply existsb_exists. exists d. split; [exact U|apply Nat.eqb_refl].
Qed.

Lemma loop_ok p : forall order q no, loopInv p q no -> exists no', loopInv p (relaxLoop p order q no) no'.
Proof.
  induction order as [|u order IH]; intros q no I; [exists no; exact I|]. cbn [relaxLoop].
  destruct (existsb (Nat.eqb u) no || noRelax0 p u) eqn:G; [apply IH, I|].
  apply orb_false_elim in G. destruct G as [Gn G0].
  assert (Nin : ~ In u no).
  { intros H. assert (existsb (Nat.eqb u) no = true); [|congruence].
    apply existsb_exists. exists u. split; [exact H|apply Nat.eqb_refl]. }
  destruct (forallb _ (usersOf p u)) eqn:F; [|apply IH, I].
  destruct (nth_error q u) as [i'|] eqn:Eq; [|apply IH, I].
  apply IH. clear IH.
  assert (Lu : (u < length q)%nat) by (apply nth_error_Some; congruence).
  (* the original instruction *)
  assert (Orig : exists i, nth_error p u = Some i /\ relaxed i' = relaxed i).
  { destruct (L1 _ _ _ I u) as [E | (i & E1 & _ & _ & E4)].
    - exists i'. split; [congruence|reflexivity].
    - exists i. split; [exact E1|]. rewrite E4 in Eq. injection Eq as <-. apply relaxed_idem. }
  destruct Orig as (i & Ep & Er). rewrite Er.
  assert (US : forall j, In j (usersOf p u) -> j <> u ->
     nth_error q j = nth_error p j /\ exists ij, nth_error p j = Some ij /\ isWUser ij = true).
  { intros j Hj Nj. rewrite forallb_forall in F. specialize (F j Hj).
    destruct (nth_error q j) as [qj|] eqn:Ej; [|discriminate].
    destruct (L1 _ _ _ I j) as [E | (ij & C1 & C2 & _ & C4)].
    - split; [congruence|]. exists qj. split; [congruence|exact F].
    - rewrite C4 in Ej. injection Ej as <-. rewrite (relaxed_not_user ij C2) in F. discriminate. }
  split.
  - intros v. destruct (Nat.eq_dec v u) as [-> | Nv].
    + destruct (isInterest i) eqn:II.
      * right. exists i. repeat split; try assumption. apply setNth_same, Lu.
      * left. rewrite setNth_same by exact Lu. rewrite relaxed_not_interest by exact II. congruence.
    + rewrite setNth_other by exact Nv. destruct (L1 _ _ _ I v) as [E | (iv & C1 & C2 & C3 & C4)].
      * left. exact E.
      * right. exists iv. repeat split; try assumption. rewrite setNth_other by exact Nv. exact C4.
  - intros v iv j (C1 & C2 & C3 & C4) NS Hj Nj. destruct (Nat.eq_dec v u) as [-> | Nv].
    + rewrite Ep in C1. injection C1 as <-. rewrite NS. rewrite setNth_other by exact Nj.
      destruct (US j Hj Nj) as [A B]. split; [exact A|]. split; [apply in_or_app; left; exact Hj|exact B].
    + rewrite setNth_other in C4 by exact Nv.
      destruct (L2 _ _ _ I v iv j) as (A & B & C); try assumption; [repeat split; assumption|].
      assert (Nju : j <> u) by (intros ->; exact (Nin B)).
      split; [rewrite setNth_other by exact Nju; exact A|].
      split; [|exact C]. destruct (isSRAI (relaxed i)); [exact B|apply in_or_app; right; exact B].
Qed.

Lemma relax_ok p order : exists no, loopInv p (relaxWInst order p) no.
Proof.
  apply loop_ok. split.
  - intros u. left. reflexivity.
  - intros u i j (C1 & C2 & _ & C4) _. rewrite C4 in C1. injection C1 as C1.
    exfalso. exact (interest_changes i C2 C1).
Qed.

(* ------------------------------------------------------------------ *)
(** * Simulation *)
Section Sim.
Variables (p q : prog) (no : list nat) (e : env).
Hypothesis LI : loopInv p q no.
Hypothesis OKP : Forall okW p.
(** address operands are 64-bit values, never the result of a 32-bit instruction the pass may relax *)
Definition addrOk : Prop := forall i j, In i p -> In j p -> isInterest j = true ->
  match i with St _ _ _ b | I2 ADD_UW _ _ b => dst j <> Some b | _ => True end.
Hypothesis AOK : addrOk.

Definition Loose (x : reg) : Prop :=
  exists u i, changed p q u i /\ isSRAI (relaxed i) = false /\ dst i = Some x.
Definition Rel (r r' : regs) : Prop :=
  forall x, u32 (rd r x) = u32 (rd r' x) /\ (~ Loose x -> rd r x = rd r' x).
Definition Sx (r : regs) : Prop := forall x, operandOk p x = true -> sext (rd r x).

Lemma exact_use j i x : nth_error p j = Some i -> In x (uses i) ->
  isWUser i = false \/ (isSRAI (relaxed i) = true /\ changed p q j i) -> ~ Loose x.
Proof.
  intros Ej Ux Hi (u & iu & C & NS & D).
  assert (Hj : In j (usersOf p u)).
  { apply usersOf_In. destruct C as (C1 & _). exists iu, x, i. repeat split; assumption. }
  assert (Nj : j <> u).
  { intros ->. destruct C as (C1 & C2 & _). rewrite Ej in C1. injection C1 as <-.
    destruct Hi as [Hi | [Hi _]]; [rewrite (interest_user i C2) in Hi; discriminate|congruence]. }
  destruct (L2 _ _ _ LI u iu j C NS Hj Nj) as (A & _ & (ij & B1 & B2)).
  rewrite Ej in B1. injection B1 as <-. destruct Hi as [Hi | [_ (D1 & D2 & _ & D4)]]; [congruence|].
  rewrite A, Ej in D4. injection D4 as D4. symmetry in D4. exact (interest_changes i D2 D4).
Qed.

Lemma addr_exact i j b : In i p -> (exists o v off, i = St o v off b) \/ (exists d a, i = I2 ADD_UW d a b) ->
  j = b -> ~ Loose b.
Proof.
  intros Hi Hf _ (u & iu & (C1 & C2 & _) & _ & D).
  pose proof (AOK i iu Hi (nth_error_In _ _ C1) C2) as A.
  destruct Hf as [(o & v & off & ->) | (d & a & ->)]; cbn in A; exact (A D).
Qed.

Lemma Rel_wr r r' d v v' : Rel r r' -> u32 v = u32 v' -> (~ Loose d -> v = v') -> Rel (wr r d v) (wr r' d v').
Proof.
  intros H U E x. rewrite !rd_wr. destruct (Nat.eqb x zero); [split; reflexivity|].
  destruct (Nat.eqb x d) eqn:X; [|apply H]. apply Nat.eqb_eq in X. subst x. split; [exact U|exact E].
Qed.
Lemma Rel_wr_eq r r' d v v' : Rel r r' -> v = v' -> Rel (wr r d v) (wr r' d v').
Proof. intros H ->. apply Rel_wr; [exact H|reflexivity|reflexivity]. Qed.

Definition SRel (s s' : state) : Prop :=
  pc s = pc s' /\ Mm s = Mm s' /\ tr s = tr s' /\ Rel (R s) (R s').

(** an instruction all of whose inputs are exact behaves exactly *)
Lemma exact_inputs i s s' : SRel s s' -> (forall x, In x (uses i) -> rd (R s) x = rd (R s') x) ->
  SRel (exec1 e i s) (exec1 e i s').
Proof.
  intros (P & M & T & Hr) U.
  destruct i as [o d a b | o d a c | o d a | d v | o d off base | o v off base | o a b t | t | id d us |];
    cbn [exec1 uses] in *; unfold SRel; cbn [pc Mm tr R].
  - rewrite (U a), (U b) by (cbn; tauto). repeat split; try congruence; apply Rel_wr_eq; auto.
  - rewrite (U a) by (cbn; tauto). repeat split; try congruence; apply Rel_wr_eq; auto.
  - rewrite (U a) by (cbn; tauto). repeat split; try congruence; apply Rel_wr_eq; auto.
  - repeat split; try congruence; apply Rel_wr_eq; auto.
  - rewrite (U base), M by (cbn; tauto). repeat split; try congruence; apply Rel_wr_eq; auto.
  - rewrite (U v), (U base), M by (cbn; tauto). repeat split; try congruence; apply Hr.
  - rewrite (U a), (U b), P by (cbn; tauto). repeat split; try congruence; apply Hr.
  - repeat split; try congruence; apply Hr.
  - assert (E : map (rd (R s)) us = map (rd (R s')) us) by (apply map_ext_in; exact U).
    rewrite E, M. destruct (ext e id (map (rd (R s')) us) (Mm s')) as [v m]. cbn [pc Mm tr R].
    rewrite T, P. repeat split; destruct d as [d|]; try apply Hr; apply Rel_wr_eq; auto.
  - rewrite P. repeat split; try congruence; apply Hr.
Qed.

Lemma stBytes_ext n m : forall a v v', v mod 256 ^ Z.of_nat n = v' mod 256 ^ Z.of_nat n ->
  stBytes n m a v = stBytes n m a v'.
Proof.
  revert m. induction n as [|n IH]; intros m a v v' H; [reflexivity|]. cbn [stBytes].
  rewrite Nat2Z.inj_succ, Z.pow_succ_r in H by lia.
  assert (P : 0 < 256 ^ Z.of_nat n) by (apply Z.pow_pos_nonneg; lia).
  rewrite !Z.rem_mul_r in H by lia.
  pose proof (Z.mod_pos_bound v 256 ltac:(lia)). pose proof (Z.mod_pos_bound v' 256 ltac:(lia)).
  assert (E : v mod 256 = v' mod 256).
  { set (A := (v / 256) mod 256 ^ Z.of_nat n) in *. set (B := (v' / 256) mod 256 ^ Z.of_nat n) in *.
    clearbody A B. set (x := v mod 256) in *. set (y := v' mod 256) in *. clearbody x y. clear - H H0 H1. lia. }
  rewrite E. apply IH. rewrite E in H.
  set (A := (v / 256) mod 256 ^ Z.of_nat n) in *. set (B := (v' / 256) mod 256 ^ Z.of_nat n) in *. clearbody A B.
  set (y := v' mod 256) in *. clearbody y. clear - H. lia.
Qed.
Lemma u32_mod_256 v v' n : u32 v = u32 v' -> (n <= 4)%nat -> v mod 256 ^ Z.of_nat n = v' mod 256 ^ Z.of_nat n.
Proof.
  intros U L.
  assert (D : exists k, 4294967296 = 256 ^ Z.of_nat n * k).
  { exists (256 ^ Z.of_nat (4 - n)). rewrite <- Z.pow_add_r by lia. replace (Z.of_nat n + Z.of_nat (4 - n)) with 4 by lia. reflexivity. }
  destruct D as [k D]. unfold u32 in U. assert (P : 0 < 256 ^ Z.of_nat n) by (apply Z.pow_pos_nonneg; lia).
  assert (Pk : 0 < k) by nia.
  rewrite D in U. rewrite !Z.rem_mul_r in U by lia.
  assert (E : forall z, (z mod 256 ^ Z.of_nat n + 256 ^ Z.of_nat n * ((z / 256 ^ Z.of_nat n) mod k)) mod 256 ^ Z.of_nat n = z mod 256 ^ Z.of_nat n).
  { intros z. rewrite (Z.mul_comm (256 ^ Z.of_nat n)), Z.mod_add by lia. apply Z.mod_mod. lia. }
  rewrite <- (E v), <- (E v'), U. reflexivity.
Qed.

(** an unchanged reader of low halves behaves exactly *)
Lemma w_inputs i s s' : In i p -> isWUser i = true -> SRel s s' -> SRel (exec1 e i s) (exec1 e i s').
Proof.
  intros Hi HW (P & M & T & Hr).
  assert (U : forall x, u32 (rd (R s) x) = u32 (rd (R s') x)) by (intros x; apply Hr).
  assert (S : forall x, s32 (rd (R s) x) = s32 (rd (R s') x)) by (intros x; apply s32_eq_iff, U).
  assert (AD : forall a b, u32 a = u32 b -> forall c d, u32 c = u32 d -> u32 (a + c) = u32 (b + d)).
  { intros a b H c d H'. unfold u32 in *. rewrite Z.add_mod, H, H', <- Z.add_mod by lia. reflexivity. }
  assert (MU : forall a b, u32 a = u32 b -> forall c d, u32 c = u32 d -> u32 (a * c) = u32 (b * d)).
  { intros a b H c d H'. unfold u32 in *. rewrite Z.mul_mod, H, H', <- Z.mul_mod by lia. reflexivity. }
  assert (SB_ : forall a b, u32 a = u32 b -> forall c d, u32 c = u32 d -> u32 (a - c) = u32 (b - d)).
  { intros a b H c d H'. unfold u32 in *. rewrite Zminus_mod, H, H', <- Zminus_mod. reflexivity. }
  assert (M5 : forall x, rd (R s) x mod 32 = rd (R s') x mod 32).
  { intros x. specialize (U x). unfold u32 in U.
    rewrite <- (Z.mod_mod (rd (R s) x) 32), <- (Z.mod_mod (rd (R s') x) 32) by lia.
    assert (K : forall z, z mod 32 = (z mod 4294967296) mod 32).
    { intros z. pose proof (Z.div_mod z 4294967296 ltac:(lia)) as D.
      rewrite D at 1. replace (4294967296 * (z / 4294967296) + z mod 4294967296)
        with (z mod 4294967296 + (134217728 * (z / 4294967296)) * 32) by ring. apply Z.mod_add. lia. }
    rewrite (K (rd (R s) x)), (K (rd (R s') x)), U. reflexivity. }
  assert (IMM : forall a c, u32 (rd (R s) a + c) = u32 (rd (R s') a + c)) by (intros; apply AD; [apply U|reflexivity]).
  destruct i as [o d a b | o d a c | o d a | d v | o d off b | o v off b | | | id d us |]; try discriminate HW;
    cbn [exec1]; unfold SRel; cbn [pc Mm tr R].
  - repeat split; try congruence; apply Rel_wr_eq; try exact Hr.
    all: destruct o; try discriminate HW; cbn [ev2];
      unfold Rv.ADDW, Rv.SUBW, Rv.MULW, Rv.DIVW, Rv.DIVUW, Rv.REMW, Rv.REMUW, Rv.SLLW, Rv.SRAW, Rv.SRLW;
      rewrite ?S, ?U, ?M5; try reflexivity.
    all: try (apply w_eq; first [apply SB_ | apply AD | apply MU]; try apply U; reflexivity).
    all: try (destruct (u32 (rd (R s') b) =? 0); [apply w_eq, U|reflexivity]).
    all: assert (NL : ~ Loose b) by (apply (addr_exact (I2 ADD_UW d a b) b b Hi); [right; eauto|reflexivity]);
      rewrite (proj2 (Hr b) NL); reflexivity.
  - repeat split; try congruence; apply Rel_wr_eq; try exact Hr.
    all: destruct o; try discriminate HW; cbn [evi];
      unfold Rv.ADDIW, Rv.SLLIW, Rv.SRLIW, Rv.SRAIW; rewrite ?S, ?U; try reflexivity.
    all: apply w_eq; first [apply IMM | apply MU; [apply U|reflexivity]].
  - repeat split; try congruence; apply Rel_wr_eq; try exact Hr.
    all: destruct o; try discriminate HW; cbn [ev1]; unfold Rv.SEXT_W; rewrite ?S; try reflexivity; apply w_eq, U.
  - assert (NL : ~ Loose b) by (apply (addr_exact (St o v off b) b b Hi); [left; eauto|reflexivity]).
    rewrite (proj2 (Hr b) NL), M.
    repeat split; try congruence; try apply Hr.
    apply stBytes_ext, u32_mod_256; [apply U|]. destruct o; cbn in *; try discriminate HW; lia.
Qed.

Lemma relaxed_step j i s s' : changed p q j i -> SRel s s' -> Sx (R s) ->
  SRel (exec1 e i s) (exec1 e (relaxed i) s').
Proof.
  intros C (P & M & T & Hr) HS. pose proof C as C0. destruct C0 as (Ej & II & N0 & _).
  assert (Oi : okW i) by (rewrite Forall_forall in OKP; apply OKP, (nth_error_In _ _ Ej)). destruct Oi as [IO _].
  assert (LO : isSRAI (relaxed i) = false -> forall d, dst i = Some d -> Loose d).
  { intros NS d D. exists j, i. repeat split; try assumption; apply C. }
  destruct i as [o d a b | o d a c | o d a | d v | o d off b | o v off b | | | id d us |]; try discriminate II.
  - destruct o; try discriminate II; cbn [relaxed exec1] in *; unfold SRel; cbn [pc Mm tr R];
      (split; [congruence|]); (split; [exact M|]); (split; [exact T|]).
    + apply Rel_wr; [exact Hr| |intros NL; exfalso; apply NL, LO; reflexivity].
      cbn [evi]. unfold Rv.ADDIW, Rv.ADDI. rewrite u32_w, u32_u64. unfold u32.
      rewrite Z.add_mod, (Z.add_mod (rd (R s') a)) by lia.
      pose proof (proj1 (Hr a)) as Ua. unfold u32 in Ua. rewrite Ua. reflexivity.
    + apply Rel_wr; [exact Hr| |intros NL; exfalso; apply NL, LO; reflexivity].
      cbn [evi]. unfold Rv.SLLIW, Rv.SLLI. rewrite u32_w, u32_u64. unfold u32.
      rewrite Z.mul_mod, (Z.mul_mod (rd (R s') a)) by lia.
      pose proof (proj1 (Hr a)) as Ua. unfold u32 in Ua. rewrite Ua. reflexivity.
    + apply Rel_wr_eq; [exact Hr|]. cbn [evi].
      assert (NL : ~ Loose a).
      { apply (exact_use j (RvMachine.II SRAIW d a c)); [exact Ej|cbn; tauto|right; split; [reflexivity|exact C]]. }
      rewrite <- (proj2 (Hr a) NL).
      assert (SX : sext (rd (R s) a)).
      { apply HS. unfold noRelax0 in N0. rewrite Ej in N0. cbn [needW uses forallb andb] in N0.
        destruct (operandOk p a); [reflexivity|discriminate N0]. }
      unfold Rv.SRAIW, Rv.SRAI, Rv.w. cbn [immOk shiftOk] in IO.
      set (x := rd (R s) a) in *. red in SX. rewrite SX at 2. unfold Rv.w.
      assert (RG := s32_range x). unfold INT_MIN, INT_MAX in RG.
      rewrite s64_u64_small by lia. f_equal. apply s32_small. unfold INT_MIN, INT_MAX.
      assert (0 < 2 ^ c) by (apply Z.pow_pos_nonneg; lia).
      split; [apply Z.div_le_lower_bound; nia|apply Z.lt_succ_r, Z.div_lt_upper_bound; nia].
  - destruct o; try discriminate II; cbn [relaxed exec1] in *; unfold SRel; cbn [pc Mm tr R].
    split; [congruence|]. split; [exact M|]. split; [exact T|].
    apply Rel_wr; [exact Hr| |intros NL; exfalso; apply NL, LO; reflexivity].
    cbn [ev1]. unfold Rv.SEXT_W. rewrite u32_w. apply Hr.
Qed.

Lemma Sx_step i s : In i p -> wfR (R s) -> Sx (R s) -> Sx (R (exec1 e i s)).
Proof.
  intros Hi W HS x Ox.
  assert (Oi : okW i) by (rewrite Forall_forall in OKP; apply OKP, Hi).
  destruct (dst i) as [d|] eqn:D; [|rewrite exec1_other by congruence; apply HS, Ox].
  destruct (Nat.eq_dec d x) as [-> | N]; [|rewrite exec1_other by congruence; apply HS, Ox].
  apply (provider_sext e i s x); try apply Oi; try assumption.
  unfold operandOk in Ox.
  assert (Hd : In i (defsOf p x)).
  { apply filter_In. split; [exact Hi|]. unfold defines. rewrite D. apply Nat.eqb_refl. }
  destruct (defsOf p x) as [|y l]; [destruct Hd|]. rewrite forallb_forall in Ox. apply Ox, Hd.
Qed.

Lemma sim_step s s' : SRel s s' -> wfR (R s) -> Sx (R s) ->
  match step e p s, step e q s' with
  | Some t, Some t' => SRel t t' /\ wfR (R t) /\ Sx (R t)
  | None, None => True
  | _, _ => False
  end.
Proof.
  intros H W HS. pose proof H as H0. destruct H0 as (P & _). unfold step. rewrite <- P.
  destruct (L1 _ _ _ LI (pc s)) as [E | (i & C)].
  - rewrite E. destruct (nth_error p (pc s)) as [i|] eqn:Ei; [|exact I].
    assert (Hi : In i p) by (apply (nth_error_In _ _ Ei)).
    assert (Oi : okW i) by (rewrite Forall_forall in OKP; apply OKP, Hi).
    split; [|split; [apply exec1_wf; [apply Oi|exact W]|apply Sx_step; assumption]].
    destruct (isWUser i) eqn:WU; [apply w_inputs; assumption|].
    apply exact_inputs; [exact H|]. intros x Ux. destruct H as (_ & _ & _ & Hr). apply Hr.
    apply (exact_use (pc s) i); [exact Ei|exact Ux|left; exact WU].
  - pose proof C as C0. destruct C0 as (C1 & _ & _ & C4). rewrite C1, C4.
    assert (Hi : In i p) by (apply (nth_error_In _ _ C1)).
    assert (Oi : okW i) by (rewrite Forall_forall in OKP; apply OKP, Hi).
    split; [apply (relaxed_step (pc s) i); assumption|].
    split; [apply exec1_wf; [apply Oi|exact W]|apply Sx_step; assumption].
Qed.

Lemma sim_steps n : forall s s', SRel s s' -> wfR (R s) -> Sx (R s) ->
  match steps e p n s, steps e q n s' with
  | Some t, Some t' => SRel t t'
  | None, None => True
  | _, _ => False
  end.
Proof.
  induction n as [|n IH]; intros s s' H W HS; [exact H|]. cbn [steps].
  pose proof (sim_step s s' H W HS) as X.
  destruct (step e p s) as [t|], (step e q s') as [t'|]; try exact X; try contradiction.
  destruct X as (X & W' & S'). apply IH; assumption.
Qed.
End Sim.
