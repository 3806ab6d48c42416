(** C30: the RISC-V peephole passes that rewrite instructions in place.
    Models cmmc/Target/RISCV/RISCVScheduleModel.cpp: branch2jump 292-343, removeDeadBranch 345-415,
    simplifyOpWithZero 833-967, isWProvider 968-996, relaxWInst 997-1195, removeSExtW 1197-1226.
    A function is a flat list of instructions; [leader] marks the first instruction of each block.
    An erased instruction is modelled as [Nop] in its place. *)
From Coq Require Import ZArith Lia Bool ZifyBool List Arith.
From Verif Require Import Word Rv64 RvMachine.
Import ListNotations.
Local Open Scope Z_scope.

(* ------------------------------------------------------------------ *)
(** * The passes *)
Definition isX0 (r : reg) : bool := Nat.eqb r zero.

(** 833-967 simplifyOpWithZero *)
Definition simplifyZero (i : instr) : instr :=
  match i with
  | I2 MUL d a b | I2 MULW d a b => if isX0 a || isX0 b then I1 MoveGPR d zero else i
  | II ADDI d a c | II ADDIW d a c => if isX0 a then LoadImm d c else i
  | I2 SUBW d a b => if isX0 b then I1 SEXT_W d a else i
  | I2 REMW d a b => if isX0 a then I1 MoveGPR d zero else i
  | II SLLI d a c | II SLLIW d a c | II SRLI d a c | II SRLIW d a c | II SRAI d a c | II SRAIW d a c =>
      if isX0 a then I1 MoveGPR d zero else i
  | I2 SH1ADD d a b | I2 SH2ADD d a b | I2 SH3ADD d a b => if isX0 a then I1 MoveGPR d b else i
  | I2 ADD d a b => if isX0 a then I1 MoveGPR d b else if isX0 b then I1 MoveGPR d a else i
  | I2 ADDW d a b => if isX0 a then I1 SEXT_W d b else if isX0 b then I1 SEXT_W d a else i
  | II ANDI d a c => if isX0 a then I1 MoveGPR d zero else i
  | II SLTI d a c => if isX0 a then (if 0 <? c then LoadImm d 1 else I1 MoveGPR d zero) else i
  | I2 OR d a b => if isX0 a then I1 MoveGPR d b else if isX0 b then I1 MoveGPR d a else i
  | I1 SEXT_W d a => if isX0 a then I1 MoveGPR d zero else i
  | I2 ADD_UW d a b =>
      if isX0 a && isX0 b then I1 MoveGPR d zero
      else if isX0 a then I1 MoveGPR d b
      else if isX0 b then I1 ZEXT_W d a else i
  | _ => i
  end.

(** 292-343 branch2jump.  [nextLabel k]: the first instruction of the block after the one holding k;
    [term] is ctx.flags.endsWithTerminator. *)
Definition branch2jump (term : bool) (nextLabel : nat -> nat) (k : nat) (i : instr) : instr :=
  match i with
  | Br o a b t =>
      if isX0 a && isX0 b then
        match o with
        | BEQ | BLE | BGE | BLEU | BGEU => Jmp t
        | BNE | BLT | BGT | BLTU | BGTU => if term then Jmp (nextLabel k) else Nop
        end
      else i
  | _ => i
  end.

(** 968-996 isWProvider.  LoadImm12 is told from LoadImm32/64 by its value. *)
Definition isWProvider (i : instr) : bool :=
  match i with
  | II ADDIW _ _ _ | I2 ADDW _ _ _ | I2 SUBW _ _ _ | I2 MULW _ _ _ | I2 DIVW _ _ _ | I2 DIVUW _ _ _
  | I2 REMW _ _ _ | I2 REMUW _ _ _ | I1 SEXT_W _ _ | II SLLIW _ _ _ | II SRAIW _ _ _ | II SRLIW _ _ _
  | I2 SLLW _ _ _ | I2 SRAW _ _ _ | I2 SRLW _ _ _ | Ld LW _ _ _ | Ld LH _ _ _ | Ld LB _ _ _ => true
  | LoadImm _ v => (-2048 <=? v) && (v <? 2048)
  | II SRLI _ _ c | II SRAI _ _ c => 32 <=? c
  | _ => false
  end.

(** A forward walk over each block with a set of facts that is forgotten at every block start *)
Section Scan.
Context {A : Type} (init : A) (tr : A -> instr -> instr * A) (leader : nat -> bool).
Fixpoint scan (k : nat) (a : A) (p : prog) : list (A * instr) :=
  match p with
  | [] => []
  | i :: p' =>
      let a := if leader k then init else a in
      (a, fst (tr a i)) :: scan (S k) (snd (tr a i)) p'
  end.
Definition scanned (p : prog) : prog := map snd (scan 0 init p).
End Scan.

(** 1197-1226 removeSExtW: the facts are the map from registers to their latest definition in the block *)
Fixpoint lookupDef (d : list (reg * instr)) (r : reg) : option instr :=
  match d with [] => None | (x, i) :: d' => if Nat.eqb x r then Some i else lookupDef d' r end.
Definition sextStep (isCall : nat -> bool) (defs : list (reg * instr)) (i : instr) : instr * list (reg * instr) :=
  match i with
  | I1 SEXT_W d a =>
      let i' := match lookupDef defs a with
                | Some j => if isWProvider j then I1 MoveGPR d a else i
                | None => i
                end in
      (i', (d, i') :: defs)
  | Ext id _ _ => if isCall id then (i, []) else (i, match dst i with Some d => (d, i) :: defs | None => defs end)
  | _ => (i, match dst i with Some d => (d, i) :: defs | None => defs end)
  end.
Definition removeSExtW (isCall : nat -> bool) (leader : nat -> bool) (p : prog) : prog :=
  scanned [] (sextStep isCall) leader p.

(** 345-415 removeDeadBranch: the facts are the branches of the block already passed *)
Definition br := (brop * reg * reg)%type.
Definition brop_eqb (x y : brop) : bool :=
  match x, y with
  | BEQ, BEQ | BNE, BNE | BLT, BLT | BLE, BLE | BGT, BGT | BGE, BGE
  | BLTU, BLTU | BLEU, BLEU | BGTU, BGTU | BGEU, BGEU => true
  | _, _ => false
  end.
Definition sameBranch (x y : br) : bool :=
  let '(o, a, b) := x in let '(o', a', b') := y in brop_eqb o o' && Nat.eqb a a' && Nat.eqb b b'.
Definition invalidate (isCall : nat -> bool) (i : instr) (l : list br) : list br :=
  let l := match i with Ext id _ _ => if isCall id then [] else l | _ => l end in
  match dst i with
  | Some d => filter (fun x => let '(_, a, b) := x in negb (Nat.eqb a d || Nat.eqb b d)) l
  | None => l
  end.
Definition deadBranchStep (isCall : nat -> bool) (l : list br) (i : instr) : instr * list br :=
  let l := invalidate isCall i l in
  match i with
  | Br o a b t => if existsb (sameBranch (o, a, b)) l then (Nop, l) else (i, l ++ [(o, a, b)])
  | _ => (i, l)
  end.
Definition removeDeadBranch (isCall : nat -> bool) (leader : nat -> bool) (p : prog) : prog :=
  scanned [] (deadBranchStep isCall) leader p.

(** 1003-1030 isWUser: operands are read as 32-bit values *)
Definition isWUser (i : instr) : bool :=
  match i with
  | II ADDIW _ _ _ | I2 ADD_UW _ _ _ | I2 ADDW _ _ _ | I2 SUBW _ _ _ | I2 MULW _ _ _ | I2 DIVW _ _ _
  | I2 DIVUW _ _ _ | I2 REMW _ _ _ | I2 REMUW _ _ _ | I1 SEXT_W _ _ | II SLLIW _ _ _ | II SRAIW _ _ _
  | II SRLIW _ _ _ | I2 SLLW _ _ _ | I2 SRAW _ _ _ | I2 SRLW _ _ _
  | St SW _ _ _ | St SH _ _ _ | St SB _ _ _ | I1 FCVT_S_W _ _ => true
  | _ => false
  end.
(** 1033-1043 isInterestWInst, 1045-1061 needWProvider (restricted to the interesting opcodes) *)
Definition isInterest (i : instr) : bool :=
  match i with II ADDIW _ _ _ | I1 SEXT_W _ _ | II SLLIW _ _ _ | II SRAIW _ _ _ => true | _ => false end.
Definition needW (i : instr) : bool :=
  match i with II ADDIW _ _ _ | II SLLIW _ _ _ | II SRAIW _ _ _ => true | _ => false end.
(** 1071-1098 definitions of a register, users of a definition (as instruction positions) *)
Definition defines (r : reg) (i : instr) : bool := match dst i with Some d => Nat.eqb d r | None => false end.
Definition defsOf (p : prog) (r : reg) : list instr := filter (defines r) p.
Definition usesReg (r : reg) (i : instr) : bool := existsb (Nat.eqb r) (uses i).
Definition usersOf (p : prog) (u : nat) : list nat :=
  match nth_error p u with
  | Some i => match dst i with
              | Some d => filter (fun j => match nth_error p j with Some ij => usesReg d ij | None => false end)
                                 (seq 0 (length p))
              | None => []
              end
  | None => []
  end.
(** 1100-1128 instructions some operand of which may not be sign-extended *)
Definition operandOk (p : prog) (r : reg) : bool :=
  match defsOf p r with [] => false | l => forallb isWProvider l end.
Definition noRelax0 (p : prog) (u : nat) : bool :=
  match nth_error p u with
  | Some i => needW i && negb (forallb (operandOk p) (uses i))
  | None => true
  end.
(** 1143-1180 the relaxed instruction *)
Definition relaxed (i : instr) : instr :=
  match i with
  | II ADDIW d a c => II ADDI d a c
  | I1 SEXT_W d a => I1 MoveGPR d a
  | II SLLIW d a c => II SLLI d a c
  | II SRAIW d a c => II SRAI d a c
  | _ => i
  end.
Definition isSRAI (i : instr) : bool := match i with II SRAI _ _ _ => true | _ => false end.
Fixpoint setNth (n : nat) (x : instr) (p : prog) : prog :=
  match p, n with
  | [], _ => []
  | _ :: p', O => x :: p'
  | y :: p', S k => y :: setNth k x p'
  end.
(** 1130-1188 the main loop; [p0] gives the user lists, [p] the current opcodes; [order] is the iteration order of
    the hash map of interesting instructions *)
Fixpoint relaxLoop (p0 : prog) (order : list nat) (p : prog) (no : list nat) : prog :=
  match order with
  | [] => p
  | u :: order' =>
      if existsb (Nat.eqb u) no || noRelax0 p0 u then relaxLoop p0 order' p no
      else
        let us := usersOf p0 u in
        if forallb (fun j => match nth_error p j with Some i => isWUser i | None => false end) us then
          match nth_error p u with
          | Some i => relaxLoop p0 order' (setNth u (relaxed i) p)
                        (if isSRAI (relaxed i) then no else us ++ no)
          | None => relaxLoop p0 order' p no
          end
        else relaxLoop p0 order' p no
  end.
Definition interesting (p : prog) : list nat :=
  filter (fun u => match nth_error p u with Some i => isInterest i | None => false end) (seq 0 (length p)).
Definition relaxWInst (order : list nat) (p : prog) : prog := relaxLoop p order p [].

(* ------------------------------------------------------------------ *)
(** * simplifyOpWithZero *)
Definition immOk (i : instr) : Prop := match i with II o _ _ c => shiftOk o c | _ => True end.

Ltac x0 := match goal with
  | H : isX0 ?a = true |- _ => apply Nat.eqb_eq in H; subst a
  end.

Lemma rd_zero r : rd r zero = 0. Proof. reflexivity. Qed.
Lemma w_0 : Rv.w 0 = 0. Proof. reflexivity. Qed.
Lemma u64_small x : 0 <= x < 18446744073709551616 -> u64 x = x.
Proof. apply Z.mod_small. Qed.
Lemma wr_eq k r d v v' m t : v = v' -> St_ k (wr r d v) m t = St_ k (wr r d v') m t.
Proof. intros ->. reflexivity. Qed.

Lemma simplifyZero_exact e i s : wfR (R s) -> immOk i -> exec1 e (simplifyZero i) s = exec1 e i s.
Proof.
  intros W IO.
  assert (RB : forall x, 0 <= rd (R s) x < 18446744073709551616) by (intros x; apply rd_range, W).
  destruct i as [o d a b | o d a c | o d a | | | | | | |]; try reflexivity.
  - destruct o; cbn [simplifyZero]; try reflexivity;
      destruct (isX0 a) eqn:A, (isX0 b) eqn:B; cbn [orb andb]; try reflexivity;
      cbn [exec1]; apply wr_eq; cbn [ev1 ev2];
      repeat x0; rewrite ?rd_zero;
      unfold Rv.ADD, Rv.MUL, Rv.MULW, Rv.ADDW, Rv.SUBW, Rv.SEXT_W, Rv.REMW, Rv.OR, Rv.SH_ADD, Rv.ZEXT_W;
      rewrite ?Z.mul_0_l, ?Z.mul_0_r, ?Z.add_0_l, ?Z.add_0_r, ?Z.sub_0_r, ?Z.lor_0_l, ?Z.lor_0_r;
      try reflexivity; try (symmetry; apply u64_small; apply RB);
      try (change (s32 0) with 0; rewrite Z.rem_0_l by (destruct (s32 _ =? 0) eqn:?; lia);
           destruct (s32 _ =? 0); reflexivity).
    all: try (change (u32 0) with 0; rewrite Z.add_0_l; symmetry; apply u64_small; apply RB).
    all: try (symmetry; apply u64_small; pose proof (u32_range (rd (R s) a)); lia).
    all: try (change (s32 0) with 0; destruct (s32 _ =? 0) eqn:Q; [reflexivity|];
              rewrite Z.rem_0_l by lia; reflexivity).
  - cbn [immOk] in IO. destruct o; cbn [simplifyZero]; try reflexivity;
      destruct (isX0 a) eqn:A; try reflexivity;
      x0; try (destruct (0 <? c) eqn:C);
      cbn [exec1]; apply wr_eq; cbn [ev1 evi]; rewrite ?rd_zero; cbn [shiftOk] in IO;
      unfold Rv.ADDI, Rv.ADDIW, Rv.ANDI, Rv.SLTI, Rv.SLLI, Rv.SLLIW, Rv.SRLI, Rv.SRLIW, Rv.SRAI, Rv.SRAIW, Rv.w;
      change (s64 0) with 0; change (s32 0) with 0; change (u32 0) with 0; rewrite ?C;
      rewrite ?Z.mul_0_l, ?Z.add_0_l, ?Z.div_0_l by (apply Z.pow_nonzero; lia);
      try reflexivity.
    all: rewrite s32_small by (unfold INT_MIN, INT_MAX; lia); reflexivity.
  - destruct o; cbn [simplifyZero]; try reflexivity. destruct (isX0 a) eqn:A; [|reflexivity].
    x0. cbn [exec1]. apply wr_eq. reflexivity.
Qed.

(** ** Register values stay 64-bit patterns *)
Lemma u64_rng x : 0 <= u64 x < 18446744073709551616. Proof. apply u64_range. Qed.
Lemma bits64 x : 0 <= x -> (forall i, 64 <= i -> Z.testbit x i = false) -> x < 18446744073709551616.
Proof.
  intros P H. destruct (Z_lt_le_dec x 18446744073709551616) as [|L]; [assumption|exfalso].
  assert (64 <= Z.log2 x) by (apply Z.log2_le_pow2; [lia|exact L]).
  specialize (H (Z.log2 x) H0). rewrite Z.bit_log2 in H by lia. discriminate.
Qed.
Lemma tb64 x i : 0 <= x < 18446744073709551616 -> 64 <= i -> Z.testbit x i = false.
Proof.
  intros B H. destruct (Z.eq_dec x 0) as [-> |]; [apply Z.bits_0|].
  apply Z.bits_above_log2; [lia|]. apply Z.log2_lt_pow2; [lia|].
  assert (2 ^ 64 <= 2 ^ i) by (apply Z.pow_le_mono_r; lia). change (2 ^ 64) with 18446744073709551616 in *. lia.
Qed.
Lemma bitop_rng (f : Z -> Z -> Z) (g : bool -> bool -> bool) a b :
  (forall x y i, Z.testbit (f x y) i = g (Z.testbit x i) (Z.testbit y i)) -> g false false = false ->
  (0 <= f a b) ->
  0 <= a < 18446744073709551616 -> 0 <= b < 18446744073709551616 -> 0 <= f a b < 18446744073709551616.
Proof.
  intros S G P A B. split; [exact P|]. apply bits64; [exact P|]. intros i Hi. rewrite S, !tb64 by assumption. exact G.
Qed.
Lemma land_rng a b : 0 <= a < 18446744073709551616 -> 0 <= b < 18446744073709551616 ->
  0 <= Z.land a b < 18446744073709551616.
Proof. intros A B. apply (bitop_rng Z.land andb); auto using Z.land_spec. apply Z.land_nonneg; lia. Qed.
Lemma lor_rng a b : 0 <= a < 18446744073709551616 -> 0 <= b < 18446744073709551616 ->
  0 <= Z.lor a b < 18446744073709551616.
Proof. intros A B. apply (bitop_rng Z.lor orb); auto using Z.lor_spec. apply Z.lor_nonneg; lia. Qed.
Lemma lxor_rng a b : 0 <= a < 18446744073709551616 -> 0 <= b < 18446744073709551616 ->
  0 <= Z.lxor a b < 18446744073709551616.
Proof. intros A B. apply (bitop_rng Z.lxor xorb); auto using Z.lxor_spec. apply Z.lxor_nonneg; lia. Qed.
Lemma ldBytes_rng n m : forall a, 0 <= ldBytes n m a < 256 ^ Z.of_nat n.
Proof.
  induction n as [|n IH]; intros a; cbn [ldBytes]; [lia|].
  rewrite Nat2Z.inj_succ, Z.pow_succ_r by lia. specialize (IH (a + 1)).
  pose proof (Z.mod_pos_bound (m (u64 a)) 256 ltac:(lia)). lia.
Qed.
Lemma exec1_wf e i s : immOk i -> wfR (R s) -> wfR (R (exec1 e i s)).
Proof.
  intros IO W.
  assert (RB : forall x, 0 <= rd (R s) x < 18446744073709551616) by (intros x; apply rd_range, W).
  destruct i as [o d a b | o d a c | o d a | d v | o d off b | | | | id d us |]; cbn [exec1 R]; try exact W.
  - apply wfR_wr; [exact W|].
    destruct o; cbn [ev2]; try apply u64_rng;
      [apply land_rng|apply lor_rng|apply lxor_rng| |]; try apply RB;
      unfold Rv.SLT, Rv.SLTU; match goal with |- context[if ?b then _ else _] => destruct b end; lia.
  - apply wfR_wr; [exact W|]. cbn [immOk] in IO.
    destruct o; cbn [evi]; try apply u64_rng; cbn [shiftOk] in IO;
      try (first [apply land_rng|apply lor_rng|apply lxor_rng]; [apply RB|apply u64_rng]);
      try (unfold Rv.SLTI, Rv.SLTIU; match goal with |- context[if ?b then _ else _] => destruct b end; lia).
    unfold Rv.SRLI. specialize (RB a). assert (0 < 2 ^ c) by (apply Z.pow_pos_nonneg; lia).
    split; [apply Z.div_pos; lia|]. apply Z.div_lt_upper_bound; [lia|]. nia.
  - apply wfR_wr; [exact W|]. destruct o; cbn [ev1]; try apply u64_rng; [apply RB|].
    unfold Rv.ZEXT_W. pose proof (u32_range (rd (R s) a)). lia.
  - apply wfR_wr; [exact W|apply u64_rng].
  - apply wfR_wr; [exact W|].
    destruct o; cbn [evLd]; try apply u64_rng.
    + pose proof (ldBytes_rng 1 (Mm s) (rd (R s) b + off)) as L. change (256 ^ Z.of_nat 1) with 256 in L. lia.
    + pose proof (ldBytes_rng 2 (Mm s) (rd (R s) b + off)) as L. change (256 ^ Z.of_nat 2) with 65536 in L. lia.
    + pose proof (ldBytes_rng 4 (Mm s) (rd (R s) b + off)) as L. change (256 ^ Z.of_nat 4) with 4294967296 in L. lia.
    + pose proof (ldBytes_rng 8 (Mm s) (rd (R s) b + off)) as L. change (256 ^ Z.of_nat 8) with 18446744073709551616 in L. lia.
  - destruct (ext e id (map (rd (R s)) us) (Mm s)) as [v m]. cbn [R]. destruct d as [d|]; [|exact W].
    apply wfR_wr; [exact W|apply u64_rng].
Qed.

(* ------------------------------------------------------------------ *)
(** * Forward walks *)
(** branch targets are block starts *)
Definition targetsOk (leader : nat -> bool) (p : prog) : Prop :=
  forall i, In i p -> match i with Br _ _ _ t | Jmp t => leader t = true | _ => True end.
(** the instruction falls through to the next one *)
Definition fallsThrough (i : instr) (r : regs) : Prop :=
  match i with Br o a b _ => evBr o (rd r a) (rd r b) = false | Jmp _ => False | _ => True end.

Section ScanProof.
Context {A : Type} (init : A) (tr : A -> instr -> instr * A) (leader : nat -> bool).
Variable Holds : A -> regs -> Prop.
Variable e : env.
Variable okI : instr -> Prop.
Hypothesis Hinit : forall r, Holds init r.
Hypothesis Hwf : forall i s, okI i -> wfR (R s) -> wfR (R (exec1 e i s)).
Hypothesis Hexact : forall a i s, okI i -> wfR (R s) -> Holds a (R s) -> exec1 e (fst (tr a i)) s = exec1 e i s.
Hypothesis Hnext : forall a i s, okI i -> wfR (R s) -> Holds a (R s) -> fallsThrough i (R s) ->
  Holds (snd (tr a i)) (R (exec1 e i s)).

Lemma scan_nth p : forall k0 a0 j i, nth_error p j = Some i ->
  exists a, nth_error (scan init tr leader k0 a0 p) j = Some (a, fst (tr a i)) /\
    (leader (k0 + j) = true -> a = init) /\
    (forall i2, nth_error p (S j) = Some i2 -> leader (k0 + S j) = false ->
       nth_error (scan init tr leader k0 a0 p) (S j) = Some (snd (tr a i), fst (tr (snd (tr a i)) i2))).
Proof using.
  clear Hinit Hwf Hexact Hnext Holds okI e.
  induction p as [|x p IH]; intros k0 a0 j i Hj; [destruct j; discriminate|].
  destruct j as [|j]; cbn [nth_error] in Hj.
  - injection Hj as ->. cbn [scan nth_error]. rewrite Nat.add_0_r.
    eexists. split; [reflexivity|]. split; [intros ->; reflexivity|].
    intros i2 H2 L2. destruct p as [|y p]; [discriminate|]. cbn [nth_error] in H2. injection H2 as ->.
    cbn [scan nth_error]. replace (k0 + 1)%nat with (S k0) in L2 by lia. rewrite L2. reflexivity.
  - destruct (IH (S k0) (snd (tr (if leader k0 then init else a0) x)) j i Hj) as (a & E & L & N).
    exists a. cbn [scan nth_error]. split; [exact E|].
    replace (k0 + S j)%nat with (S k0 + j)%nat by lia. split; [exact L|].
    intros i2 H2 L2. apply N; [exact H2|]. replace (S k0 + S j)%nat with (k0 + S (S j))%nat by lia. exact L2.
Qed.

Lemma scan_length p : forall k a, length (scan init tr leader k a p) = length p.
Proof using. induction p as [|x p IH]; intros k a; cbn; [reflexivity|]. rewrite IH. reflexivity. Qed.

(** the facts attached to the current instruction hold *)
Definition good (p : prog) (s : state) : Prop :=
  forall a i, nth_error (scan init tr leader 0 init p) (pc s) = Some (a, i) -> Holds a (R s).

Lemma good_step p s i : targetsOk leader p -> Forall okI p -> wfR (R s) -> good p s ->
  nth_error p (pc s) = Some i -> good p (exec1 e i s).
Proof.
  intros TO OK W G Hi a' i' E'.
  assert (Oi : okI i) by (rewrite Forall_forall in OK; apply OK, (nth_error_In _ _ Hi)).
  destruct (scan_nth p 0 init (pc s) i Hi) as (a & Ea & La & Na).
  assert (HA : Holds a (R s)) by (apply (G _ _ Ea)).
  assert (Hlen : (pc (exec1 e i s) < length p)%nat).
  { rewrite <- (scan_length p 0 init). apply nth_error_Some. rewrite E'. discriminate. }
  destruct (nth_error p (pc (exec1 e i s))) as [i2|] eqn:E2; [|apply nth_error_None in E2; lia].
  destruct (scan_nth p 0 init _ i2 E2) as (b & Eb & Lb & _). rewrite Eb in E'. injection E' as <- _.
  destruct (leader (pc (exec1 e i s))) eqn:L; [rewrite (Lb L); apply Hinit|].
  assert (F : fallsThrough i (R s) /\ pc (exec1 e i s) = S (pc s)).
  { specialize (TO i (nth_error_In _ _ Hi)).
    destruct i; cbn [exec1 pc fallsThrough] in *; try (split; [exact I|reflexivity]).
    - destruct (evBr o (rd (R s) a0) (rd (R s) b0)) eqn:B; [congruence|split; reflexivity].
    - congruence.
    - destruct (ext e id (map (rd (R s)) uses) (Mm s)). split; [exact I|reflexivity]. }
  destruct F as [F Epc]. rewrite Epc in *.
  rewrite (Na i2 E2 L) in Eb. injection Eb as <- _. apply Hnext; assumption.
Qed.

Theorem scanned_exact p n : targetsOk leader p -> Forall okI p -> forall s, wfR (R s) -> good p s ->
  steps e (scanned init tr leader p) n s = steps e p n s.
Proof.
  intros TO OK. induction n as [|n IH]; intros s W G; [reflexivity|]. cbn [steps]. unfold step, scanned.
  rewrite nth_error_map. destruct (nth_error p (pc s)) as [i|] eqn:Hi.
  - destruct (scan_nth p 0 init (pc s) i Hi) as (a & Ea & _). rewrite Ea. cbn [option_map snd].
    assert (Oi : okI i) by (rewrite Forall_forall in OK; apply OK, (nth_error_In _ _ Hi)).
    rewrite Hexact; [|exact Oi|exact W|apply (G _ _ Ea)].
    apply IH; [apply Hwf; assumption|apply good_step; assumption].
  - assert (nth_error (scan init tr leader 0 init p) (pc s) = None) as ->.
    { apply nth_error_None. rewrite scan_length. apply nth_error_None, Hi. }
    reflexivity.
Qed.

Lemma good_leader p s : leader (pc s) = true -> good p s.
Proof using Hinit.
  clear Hwf Hexact Hnext okI e.
  intros L a i E. destruct (nth_error p (pc s)) as [x|] eqn:Hx.
  - destruct (scan_nth p 0 init (pc s) x Hx) as (a' & Ea & La & _). rewrite E in Ea. injection Ea as -> _.
    rewrite (La L). apply Hinit.
  - apply nth_error_None in Hx. rewrite <- (scan_length p 0 init) in Hx. apply nth_error_None in Hx. congruence.
Qed.
End ScanProof.

(** ** Sign-extension facts *)
Definition sext (x : Z) : Prop := x = Rv.w x.
Lemma sext_w x : sext (Rv.w x).
Proof. unfold sext. rewrite (w_eq (Rv.w x) x); [reflexivity|apply u32_w]. Qed.
Lemma sext_small x : INT_MIN <= x <= INT_MAX -> sext (u64 x).
Proof. intros H. unfold sext, Rv.w. rewrite s32_u64, s32_small by exact H. reflexivity. Qed.
Lemma sgn_range w0 x : 1 <= w0 -> - 2 ^ (w0 - 1) <= sgn w0 x < 2 ^ (w0 - 1).
Proof.
  intros H. unfold sgn. assert (2 ^ w0 = 2 * 2 ^ (w0 - 1)).
  { rewrite <- Z.pow_succ_r by lia. f_equal. lia. }
  pose proof (Z.mod_pos_bound (x + 2 ^ (w0 - 1)) (2 ^ w0)). assert (0 < 2 ^ (w0 - 1)) by (apply Z.pow_pos_nonneg; lia).
  lia.
Qed.

(** a W provider writes a sign-extended value, unless it is SRLI by exactly 32 (which isWProvider accepts) *)
Definition notSrli32 (i : instr) : Prop := match i with II SRLI _ _ c => c <> 32 | _ => True end.
Lemma provider_sext e i s d : isWProvider i = true -> notSrli32 i -> immOk i -> wfR (R s) ->
  dst i = Some d -> sext (rd (R (exec1 e i s)) d).
Proof.
  intros P N IO W D.
  assert (RB : forall x, 0 <= rd (R s) x < 18446744073709551616) by (intros x; apply rd_range, W).
  assert (X : forall r v, sext v -> sext (rd (wr r d v) d)).
  { intros r v Hv. rewrite rd_wr. destruct (Nat.eqb d zero); [reflexivity|]. rewrite Nat.eqb_refl. exact Hv. }
  destruct i as [o dd a b | o dd a c | o dd a | dd v | o dd off b | | | | |]; try discriminate P;
    cbn [dst] in D; injection D as ->; cbn [exec1 R]; apply X.
  - destruct o; try discriminate P; cbn [ev2]; apply sext_w.
  - cbn [immOk shiftOk] in IO. destruct o; try discriminate P; cbn [evi]; try apply sext_w; cbn [isWProvider] in P.
    + (* SRLI *) cbn [notSrli32] in N. unfold Rv.SRLI. specialize (RB a).
      assert (B : 0 <= rd (R s) a / 2 ^ c < 2147483648).
      { split; [apply Z.div_pos; [lia|apply Z.pow_pos_nonneg; lia]|].
        apply Z.div_lt_upper_bound; [apply Z.pow_pos_nonneg; lia|].
        assert (2 ^ 33 <= 2 ^ c) by (apply Z.pow_le_mono_r; lia). change (2 ^ 33) with 8589934592 in *. lia. }
      unfold sext, Rv.w. rewrite s32_small by (unfold INT_MIN, INT_MAX; lia).
      symmetry. apply u64_small. lia.
    + unfold Rv.SRAI. apply sext_small. set (x := s64 (rd (R s) a)).
      assert (-9223372036854775808 <= x < 9223372036854775808).
      { unfold x, s64. pose proof (Z.mod_pos_bound (rd (R s) a + 9223372036854775808) 18446744073709551616). lia. }
      assert (2 ^ 32 <= 2 ^ c) by (apply Z.pow_le_mono_r; lia). change (2 ^ 32) with 4294967296 in *.
      unfold INT_MIN, INT_MAX. split; [apply Z.div_le_lower_bound; nia|apply Z.lt_succ_r, Z.div_lt_upper_bound; nia].
  - destruct o; try discriminate P; cbn [ev1]. apply sext_w.
  - cbn [isWProvider] in P. apply sext_small. unfold INT_MIN, INT_MAX. lia.
  - destruct o; try discriminate P; cbn [evLd]; try apply sext_w; apply sext_small;
      unfold INT_MIN, INT_MAX.
    + pose proof (sgn_range 8 (ldBytes 1 (Mm s) (rd (R s) b + off)) ltac:(lia)) as G.
      change (2 ^ (8 - 1)) with 128 in G. lia.
    + pose proof (sgn_range 16 (ldBytes 2 (Mm s) (rd (R s) b + off)) ltac:(lia)) as G.
      change (2 ^ (16 - 1)) with 32768 in G. lia.
Qed.

(** ** removeSExtW *)
Definition sextHolds (defs : list (reg * instr)) (r : regs) : Prop :=
  forall x j, lookupDef defs x = Some j -> isWProvider j = true -> sext (rd r x).
Definition okW (i : instr) : Prop := immOk i /\ notSrli32 i.

Lemma lookup_cons x i defs y j : lookupDef ((x, i) :: defs) y = Some j ->
  (x = y /\ j = i) \/ (x <> y /\ lookupDef defs y = Some j).
Proof.
  cbn [lookupDef]. destruct (Nat.eqb x y) eqn:E.
  - apply Nat.eqb_eq in E. intros H. left. split; congruence.
  - apply Nat.eqb_neq in E. intros H. right. split; assumption.
Qed.

Lemma exec1_other e i s x : dst i <> Some x -> rd (R (exec1 e i s)) x = rd (R s) x.
Proof.
  intros N. assert (X : forall d v, Some d <> Some x -> rd (wr (R s) d v) x = rd (R s) x).
  { intros d v H. rewrite rd_wr. destruct (Nat.eqb x zero) eqn:Zx; [unfold rd; rewrite Zx; reflexivity|].
    destruct (Nat.eqb x d) eqn:E; [|reflexivity]. apply Nat.eqb_eq in E. congruence. }
  destruct i; cbn [exec1 R dst] in *; try reflexivity; try (apply X; exact N).
  destruct (ext e id (map (rd (R s)) uses) (Mm s)) as [v m]. cbn [R]. destruct d as [d|]; [apply X, N|reflexivity].
Qed.

(** the fact recorded for the definition just executed, whatever the list was *)
Lemma sext_record e i s defs : okW i -> wfR (R s) -> sextHolds defs (R s) ->
  sextHolds (match dst i with Some d => (d, i) :: defs | None => defs end) (R (exec1 e i s)).
Proof.
  intros [IO N] W H x j L P. destruct (dst i) as [d|] eqn:D.
  - apply lookup_cons in L. destruct L as [[-> ->] | [Ne L]].
    + apply (provider_sext e i s x); assumption.
    + rewrite exec1_other by congruence. apply (H _ _ L P).
  - rewrite exec1_other by congruence. apply (H _ _ L P).
Qed.

Lemma sextStep_exact isCall e a i s : okW i -> wfR (R s) -> sextHolds a (R s) ->
  exec1 e (fst (sextStep isCall a i)) s = exec1 e i s.
Proof.
  intros O W H. destruct i; try reflexivity.
  - destruct o; try reflexivity. cbn [sextStep fst].
    destruct (lookupDef a a0) as [j|] eqn:L; [|reflexivity]. destruct (isWProvider j) eqn:P; [|reflexivity].
    cbn [exec1]. apply wr_eq. cbn [ev1]. unfold Rv.SEXT_W. apply (H _ _ L P).
  - cbn [sextStep]. destruct (isCall id); reflexivity.
Qed.
Lemma sextStep_next isCall e a i s : okW i -> wfR (R s) -> sextHolds a (R s) -> fallsThrough i (R s) ->
  sextHolds (snd (sextStep isCall a i)) (R (exec1 e i s)).
Proof.
  intros O W H _.
  assert (G := sext_record e i s a O W H).
  destruct i; try exact G.
  - destruct o; try exact G. rewrite <- (sextStep_exact isCall e a _ s O W H).
    set (i' := fst (sextStep isCall a (I1 SEXT_W d a0))).
    assert (E : snd (sextStep isCall a (I1 SEXT_W d a0)) = (d, i') :: a) by reflexivity. rewrite E.
    assert (Di : dst i' = Some d /\ okW i').
    { unfold i'. cbn [sextStep fst]. destruct (lookupDef a a0) as [j|]; [destruct (isWProvider j)|]; split; try reflexivity; split; exact I. }
    destruct Di as [Di Oi]. assert (G' := sext_record e i' s a Oi W H). rewrite Di in G'. exact G'.
  - cbn [sextStep]. destruct (isCall id); [|exact G]. intros x j L. discriminate L.
Qed.

(** ** removeDeadBranch *)
Definition brHolds (l : list br) (r : regs) : Prop :=
  forall o a b, In (o, a, b) l -> evBr o (rd r a) (rd r b) = false.
Lemma brop_eqb_eq x y : brop_eqb x y = true -> x = y.
Proof. destruct x, y; intros H; try reflexivity; discriminate H. Qed.
Lemma invalidate_In isCall i l x : In x (invalidate isCall i l) ->
  In x l /\ (forall d, dst i = Some d -> snd (fst x) <> d /\ snd x <> d).
Proof.
  unfold invalidate. set (l' := match i with Ext id _ _ => if isCall id then [] else l | _ => l end).
  assert (S : In x l' -> In x l). { unfold l'. destruct i; auto. destruct (isCall id); [intros []|auto]. }
  destruct (dst i) as [d|].
  - intros H. apply filter_In in H. destruct H as [H E]. split; [apply S, H|]. intros d' [= <-].
    destruct x as [[o a] b]. cbn [fst snd]. destruct (Nat.eqb a d) eqn:A, (Nat.eqb b d) eqn:B; try discriminate E.
    apply Nat.eqb_neq in A, B. split; assumption.
  - intros H. split; [apply S, H|]. intros d D. discriminate D.
Qed.
Lemma br_invalidate isCall e i s l : brHolds l (R s) -> brHolds (invalidate isCall i l) (R (exec1 e i s)).
Proof.
  intros H o a b I. apply invalidate_In in I. destruct I as [I D]. cbn [fst snd] in D.
  rewrite !exec1_other; [apply H, I| |]; intros E; specialize (D _ E); tauto.
Qed.
Lemma deadBranch_exact isCall e a i s : True -> wfR (R s) -> brHolds a (R s) ->
  exec1 e (fst (deadBranchStep isCall a i)) s = exec1 e i s.
Proof.
  intros _ W H. destruct i; try reflexivity. unfold deadBranchStep.
  destruct (existsb (sameBranch (o, a0, b)) (invalidate isCall (Br o a0 b target) a)) eqn:E; [|reflexivity].
  apply existsb_exists in E. destruct E as [[[o' a'] b'] [In' S]].
  apply invalidate_In in In'. destruct In' as [In' _]. cbn [sameBranch] in S.
  apply andb_prop in S. destruct S as [S Sb]. apply andb_prop in S. destruct S as [So Sa].
  apply brop_eqb_eq in So. apply Nat.eqb_eq in Sa, Sb. subst o' a' b'.
  cbn [fst exec1]. rewrite (H _ _ _ In'). reflexivity.
Qed.
Lemma deadBranch_next isCall e a i s : True -> wfR (R s) -> brHolds a (R s) -> fallsThrough i (R s) ->
  brHolds (snd (deadBranchStep isCall a i)) (R (exec1 e i s)).
Proof.
  intros _ W H F. assert (G := br_invalidate isCall e i s a H).
  destruct i; try exact G. unfold deadBranchStep.
  destruct (existsb (sameBranch (o, a0, b)) (invalidate isCall (Br o a0 b target) a)); [exact G|].
  cbn [snd]. intros o' a' b' I. apply in_app_or in I. destruct I as [I | [I | []]]; [apply G, I|].
  injection I as <- <- <-. exact F.
Qed.
