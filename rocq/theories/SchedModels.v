(** The schedule models of RISC-V (SiFive U74) and ARM (Cortex-A72): cmmc/Target/RISCV/RISCVScheduleModel.cpp:33-281,
    cmmc/Target/ARM/ARMScheduleModel.cpp:28-221, on the state of cmmc/CodeGen/Scheduler.cpp:374-415.
    Simplified: cycle counts are natural numbers (uint32_t in the code), and what a class looks at in an instruction is
    given as a record: the registers of the operands it waits for, the registers it defines, immediates.
    Not modelled: makeRegisterReady reads the rename map with .at(0), which throws if operand 0 is no register;
    ARMScheduleClassGeneralMove is not reached with mixed registers (reportUnreachable). *)
From Coq Require Import ZArith Lia Bool List Arith Permutation.
From Verif Require Import GMir RaMir RaLive RaColor Sched SchedTop.
Import ListNotations.

Record mst := MS { cyc : nat; regT : nat -> nat; pipeT : nat -> nat; isA : bool; isB : bool }.
(** ScheduleState, Scheduler.cpp:374-415 *)
Definition mst0 : mst := MS 0 (fun _ => 0) (fun _ => 0) false false.
Definition latency (s : mst) (r : nat) : nat := regT s r - cyc s.
Definition pipeReady (s : mst) (p : nat) : bool := Nat.leb (pipeT s p) (cyc s).
Definition ready (s : mst) (r d : nat) : mst := MS (cyc s) (fupdN (regT s) r (cyc s + d)) (pipeT s) (isA s) (isB s).
Definition reset (s : mst) (p d : nat) : mst := MS (cyc s) (regT s) (fupdN (pipeT s) p (cyc s + d)) (isA s) (isB s).
Definition tickM (s : mst) : mst := MS (S (cyc s)) (regT s) (pipeT s) false false.
(** the issue masks A, B and A|B *)
Inductive mask := MA | MB | MAB.
Definition available (s : mst) (m : mask) : bool :=
  match m with MA => negb (isA s) | MB => negb (isB s) | MAB => negb (isA s && isB s) end.
Definition setIssued (s : mst) (m : mask) : mst :=
  match m with
  | MA => MS (cyc s) (regT s) (pipeT s) true (isB s)
  | MB => MS (cyc s) (regT s) (pipeT s) (isA s) true
  | MAB => if negb (isA s) then MS (cyc s) (regT s) (pipeT s) true (isB s) else MS (cyc s) (regT s) (pipeT s) (isA s) true
  end.
Definition allBelow (s : mst) (rs : list nat) (d : nat) : bool := forallb (fun r => Nat.leb (latency s r) d) rs.

(* ------------------------------------------------------------------ *)
(** * RISC-V *)
Inductive rvClass :=
| RvInt (m : mask) (early late : bool)      (* 43-88 *)
| RvSlowImm (imm12 : bool)                  (* 90-102 *)
| RvBranch                                  (* 103-119 *)
| RvLoadStore | RvFPLoadStore               (* 120-141, 231-253; GeneralLoad 255-267 is one of the two *)
| RvMulti                                   (* 142-159 *)
| RvDivRem                                  (* 160-181 *)
| RvSDivRemW (logDividend logDivisor : Z) (hint : nat)   (* 182-207 *)
| RvFP (lat : nat)                          (* 208-231 *)
| RvFPDiv.                                  (* 233-254 *)
(** the class, the registers of its Use operands, the register of operand 0 and whether that is a Def operand *)
Record rvInst := RvI { rcls : rvClass; ruse : list nat; rdst : nat; rdef0 : bool }.
(** RISCVISelInfo.cpp:339-349; [hint]: 0, 1 or 2 for the two sign questions *)
Definition sdivLatency (a b : Z) (hint : nat) : nat := 2 + Z.to_nat (Z.max 4 (a - b)) + hint.
Definition rvSched (i : rvInst) (s : mst) : option mst :=
  match rcls i with
  | RvInt m early late =>
      if negb (available s m) then None
      else if negb (allBelow s (ruse i) 2) then None
      else if early && allBelow s (ruse i) 0 then Some (ready (setIssued s m) (rdst i) 1)
      else if late then Some (ready (setIssued s m) (rdst i) 3)
      else None
  | RvSlowImm imm12 => Some (ready s (rdst i) (if imm12 then 1 else 3))
  | RvBranch =>
      if negb (available s MB) then None
      else if negb (allBelow s (ruse i) 2) then None else Some (setIssued s MB)
  | RvLoadStore =>
      if negb (available s MA) then None
      else if negb (allBelow s (ruse i) 0) then None
      else Some (setIssued (if rdef0 i then ready s (rdst i) 3 else s) MA)
  | RvFPLoadStore =>
      if negb (available s MA) then None
      else if negb (allBelow s (ruse i) 0) then None
      else Some (setIssued (if rdef0 i then ready s (rdst i) 2 else s) MA)
  | RvMulti =>
      if negb (available s MB) then None
      else if negb (allBelow s (ruse i) 0) then None
      else Some (setIssued (ready s (rdst i) 3) MB)
  | RvDivRem =>
      if negb (available s MB) then None
      else if negb (pipeReady s 0) then None
      else if negb (allBelow s (ruse i) 0) then None
      else Some (setIssued (ready (reset s 0 65) (rdst i) 68) MB)
  | RvSDivRemW a b h =>
      if negb (available s MB) then None
      else if negb (pipeReady s 0) then None
      else if negb (allBelow s (ruse i) 0) then None
      else Some (setIssued (ready (reset s 0 (sdivLatency a b h - 3)) (rdst i) (sdivLatency a b h)) MB)
  | RvFP lat =>
      if negb (available s MB) then None
      else if negb (allBelow s (ruse i) 0) then None
      else Some (setIssued (ready s (rdst i) lat) MB)
  | RvFPDiv =>
      if negb (available s MB) then None
      else if negb (pipeReady s 1) then None
      else if negb (allBelow s (ruse i) 0) then None
      else Some (setIssued (ready (reset s 1 33) (rdst i) 36) MB)
  end.
(** what the static_assert of line 45, the four instances of RvFP and the operands of a division guarantee: the two
    logarithms are those of 64 bit numbers *)
Definition rvFits (i : rvInst) : Prop :=
  match rcls i with
  | RvInt _ early late => early || late = true
  | RvFP lat => lat <= 5
  | RvSDivRemW a b h => (0 <= a <= 64 /\ 0 <= b)%Z /\ h <= 2
  | _ => True
  end.

(* ------------------------------------------------------------------ *)
(** * ARM *)
Inductive armClass :=
| ArmSimple (p1 : nat) (p2 : option nat) (lat dur : nat)   (* 52-91 *)
| ArmSDiv (logDividend logDivisor : Z)                     (* 93-111 *)
| ArmBranchLink                                            (* 113-130 *)
| ArmMla                                                   (* 132-150 *)
| ArmFma                                                   (* 152-170 *)
| ArmInOrder.                                              (* 203-211 *)
(** the registers it waits for, those it waits for until at most 3 cycles remain (the accumulator), the registers of
    its Def operands *)
Record armInst := ArmI { acls : armClass; ause : list nat; aacc : list nat; adefs : list nat }.
Definition readyAll (s : mst) (rs : list nat) (d : nat) : mst := fold_left (fun s r => ready s r d) rs s.
(** ARMISelInfo.cpp:520-524 *)
Definition armDivLatency (a b : Z) : nat := 4 + Z.to_nat (Z.max 0 (Z.quot (a + 3) 4 - Z.quot b 4)).
Definition armSched (i : armInst) (s : mst) : option mst :=
  match acls i with
  | ArmSimple p1 p2 lat dur =>
      if negb (pipeReady s p1) && negb (match p2 with Some p => pipeReady s p | None => false end) then None
      else if negb (allBelow s (ause i) 0) then None
      else Some (readyAll (reset s (if pipeReady s p1 then p1 else match p2 with Some p => p | None => 0 end) dur) (adefs i) lat)
  | ArmSDiv a b =>
      if negb (pipeReady s 4) then None
      else if negb (allBelow s (ause i) 0) then None
      else Some (readyAll (reset s 4 (armDivLatency a b)) (adefs i) (armDivLatency a b))
  | ArmBranchLink =>
      if negb (pipeReady s 1) then None
      else if negb (pipeReady s 2) && negb (pipeReady s 3) then None
      else if negb (allBelow s (ause i) 0) then None
      else let s1 := reset s 1 1 in Some (reset s1 (if pipeReady s1 2 then 2 else 3) 1)
  | ArmMla =>
      if negb (pipeReady s 4) then None
      else if negb (allBelow s (ause i) 0) then None
      else if negb (allBelow s (aacc i) 3) then None
      else Some (readyAll (reset s 4 1) (adefs i) 4)
  | ArmFma =>
      if negb (pipeReady s 5) && negb (pipeReady s 6) then None
      else if negb (allBelow s (ause i) 0) then None
      else if negb (allBelow s (aacc i) 3) then None
      else Some (readyAll (reset s (if pipeReady s 5 then 5 else 6) 3) (adefs i) 7)
  | ArmInOrder => Some s
  end.
Definition armFits (i : armInst) : Prop :=
  match acls i with
  | ArmSimple _ _ lat dur => lat <= 12 /\ dur <= 12
  | ArmSDiv a b => (0 <= a <= 64 /\ 0 <= b)%Z
  | _ => True
  end.

(* ================================================================== *)
(** * No machine waits for 200 cycles *)
Section Progress.
Variable S : Type.
Variable sched : S -> nat -> option S.
Variable nextCycle : S -> S.
Variable ord : nat -> list nat -> list nat.
Variable width : nat.
Variable dp : list dep.
Variable n : nat.
Hypothesis ordP : forall k l, Permutation (ord k l) l.
Hypothesis dpN : NoDup dp.
Hypothesis dpL : forall u v, In (u, v) dp -> v < u /\ u < n.
Hypothesis W1 : 0 < width.
(** [J]: nothing is booked too far ahead *)
Variable J : S -> Prop.
Hypothesis J_sched : forall s x s', J s -> x < n -> sched s x = Some s' -> J s'.
Hypothesis J_next : forall s, J s -> J (nextCycle s).
Hypothesis J_go : forall s k x, J s -> 199 <= k -> x < n -> sched (Nat.iter k nextCycle s) x <> None.

Lemma issue_J w : forall s, tinv S dp n s -> J (ms S s) -> J (ms S (issue S sched ord dp w s)).
Proof.
  induction w as [|w IH]; intros s T H; cbn [issue]; [exact H|].
  pose proof (pick_spec S sched (ms S s) (ord (tick S s) (plane S s))) as P.
  destruct (pick S sched (ms S s) (ord (tick S s) (plane S s))) as [[[x st'] r]|]; [|exact H].
  destruct P as [E P]. assert (P' : Permutation (x :: r) (plane S s)) by (etransitivity; [exact P|apply ordP]).
  apply IH.
  - exact (step_inv S sched nextCycle width dp n dpN dpL x r st' s (Datatypes.S (tick S s)) T P').
  - cbn. apply (J_sched (ms S s) x); [exact H| |exact E].
    assert (X : In x (out S s ++ plane S s ++ fresh S s)).
    { rewrite !in_app_iff. right. left. eapply Permutation_in; [exact P'|now left]. }
    apply (t_rdy S dp n s T) in X. tauto.
Qed.
(** nothing issued: the machine did not change, and everything ready was refused *)
Lemma issue_idle w s : 0 < w -> tinv S dp n s -> length (out S (issue S sched ord dp w s)) = length (out S s) ->
  ms S (issue S sched ord dp w s) = ms S s /\ forall x, In x (plane S s) -> sched (ms S s) x = None.
Proof.
  destruct w as [|w]; [lia|]. intros _ T L. cbn [issue] in *.
  pose proof (pick_spec S sched (ms S s) (ord (tick S s) (plane S s))) as P.
  destruct (pick S sched (ms S s) (ord (tick S s) (plane S s))) as [[[x st'] r]|].
  - exfalso. destruct P as [E P]. assert (P' : Permutation (x :: r) (plane S s)) by (etransitivity; [exact P|apply ordP]).
    pose proof (step_inv S sched nextCycle width dp n dpN dpL x r st' s (Datatypes.S (tick S s)) T P') as T1. cbv zeta in T1.
    destruct (issue_inv S sched nextCycle ord width dp n ordP dpN dpL w _ T1) as [_ (l & El)].
    rewrite El in L. cbn in L. rewrite !app_length in L. cbn in L. lia.
  - split; [reflexivity|]. intros x Hx. apply P. eapply Permutation_in; [symmetry; apply ordP|exact Hx].
Qed.
Lemma loop_go fuel : forall busy s st k, tinv S dp n s -> fresh S s = [] -> J st -> ms S s = Nat.iter k nextCycle st ->
  busy <= Datatypes.S k -> loop S sched nextCycle ord width dp fuel n busy s <> Failed.
Proof.
  induction fuel as [|fuel IH]; intros busy s st k T F Js Em Bk; cbn [loop].
  - destruct (Nat.eqb (length (out S s)) n); discriminate.
  - destruct (Nat.eqb_spec (length (out S s)) n) as [E|NE]; [discriminate|].
    set (s0 := TS S (plane S s) (deg S s) (out S s) [] (ms S s) (tick S s)).
    assert (T0 : tinv S dp n s0) by (destruct T as [A B C D]; rewrite F in *; split; assumption).
    destruct (issue_inv S sched nextCycle ord width dp n ordP dpN dpL width s0 T0) as [T1 _].
    assert (Jm : J (ms S s)).
    { rewrite Em. clear -Js J_next. induction k as [|k IHk]; [exact Js|]. cbn. now apply J_next. }
    pose proof (issue_J width s0 T0 Jm) as J1. pose proof (issue_idle width s0 W1 T0) as Id.
    set (s1 := issue S sched ord dp width s0) in *. change (out S s0) with (out S s) in Id.
    destruct (Nat.eqb_spec (length (out S s1)) (length (out S s))) as [E1|E1].
    + specialize (Id E1). destruct Id as [Em1 Nn]. change (ms S s0) with (ms S s) in Em1, Nn. change (plane S s0) with (plane S s) in Nn.
      destruct (Nat.ltb_spec maxBusyCycles (Datatypes.S busy)) as [Lt|Ge].
      * exfalso. pose proof (some_ready S dp n dpL s T NE) as Ne. rewrite F, app_nil_r in Ne.
        destruct (plane S s) as [|x pl] eqn:Ep; [contradiction|]. specialize (Nn x (or_introl eq_refl)).
        rewrite Em in Nn. revert Nn. apply J_go; [exact Js|unfold maxBusyCycles in Lt; lia|].
        assert (X : In x (out S s ++ plane S s ++ fresh S s)) by (rewrite !in_app_iff, Ep; right; left; now left).
        apply (t_rdy S dp n s T) in X. tauto.
      * apply (IH _ _ st (Datatypes.S k)); [now apply next_inv|reflexivity|exact Js| |lia].
        cbn [ms]. rewrite Em1, Em. reflexivity.
    + destruct (Nat.ltb_spec maxBusyCycles 1) as [Lt|Ge]; [unfold maxBusyCycles in Lt; lia|].
      apply (IH _ _ (nextCycle (ms S s1)) 0); [now apply next_inv|reflexivity|now apply J_next|reflexivity|lia].
Qed.
Theorem topDown_go st : J st -> exists l, topDown S sched nextCycle ord width dp n st = Done l.
Proof.
  intros H. pose proof (topDown_fuel S sched nextCycle ord width dp n ordP dpN dpL st) as A.
  assert (B : topDown S sched nextCycle ord width dp n st <> Failed).
  { unfold topDown. apply (loop_go _ _ _ st 0); [apply start_inv|reflexivity|exact H|reflexivity|lia]. }
  destruct (topDown S sched nextCycle ord width dp n st) as [l| |]; [eauto|contradiction|contradiction].
Qed.
End Progress.

(** both machines: bookings reach at most 70 cycles ahead *)
Definition near (s : mst) : Prop := (forall r, regT s r <= cyc s + 70) /\ (forall p, pipeT s p <= cyc s + 70).
Lemma near0 : near mst0.
Proof. split; intros; cbn; lia. Qed.
Lemma near_tick s : near s -> near (tickM s).
Proof. intros [A B]. split; intros x; unfold ready, reset, tickM; cbn [cyc regT pipeT]; [specialize (A x)|specialize (B x)]; lia. Qed.
Lemma near_ready s r d : d <= 70 -> near s -> near (ready s r d).
Proof. intros D [A B]. split; intros x; unfold ready, reset, tickM; cbn [cyc regT pipeT]; [|apply B]. unfold fupdN. specialize (A x). destruct (Nat.eqb x r); lia. Qed.
Lemma near_reset s p d : d <= 70 -> near s -> near (reset s p d).
Proof. intros D [A B]. split; intros x; unfold ready, reset, tickM; cbn [cyc regT pipeT]; [apply A|]. unfold fupdN. specialize (B x). destruct (Nat.eqb x p); lia. Qed.
Lemma near_issued s m : near s -> near (setIssued s m).
Proof. intros [A B]. destruct m; cbn; [split; assumption|split; assumption|]. destruct (negb (isA s)); split; assumption. Qed.
Lemma near_readyAll rs d : d <= 70 -> forall s, near s -> near (readyAll s rs d).
Proof. intros D. induction rs as [|r rs IH]; intros s H; cbn; [exact H|]. now apply IH, near_ready. Qed.
Lemma some_inj {A} (x y : A) : Some x = Some y -> x = y.
Proof. congruence. Qed.
Lemma rvSched_near i s s' : rvFits i -> near s -> rvSched i s = Some s' -> near s'.
Proof.
  intros F N. unfold rvSched, rvFits in *. destruct (rcls i) as [m e l|b| | | | | |a b h|lat|].
  1: { destruct (negb (available s m)); [discriminate|]. destruct (negb (allBelow s (ruse i) 2)); [discriminate|].
       destruct (e && allBelow s (ruse i) 0); [|destruct l; [|discriminate]]; intros H; apply some_inj in H; rewrite <- H;
         (apply near_ready; [lia|now apply near_issued]). }
  1: { intros H. apply some_inj in H. rewrite <- H. apply near_ready; [destruct b; lia|exact N]. }
  all: repeat match goal with |- (if ?b then None else _) = _ -> _ => destruct b; [discriminate|] end;
       intros H; apply some_inj in H; rewrite <- H; apply near_issued.
  - exact N.
  - destruct (rdef0 i); [apply near_ready; [lia|exact N]|exact N].
  - destruct (rdef0 i); [apply near_ready; [lia|exact N]|exact N].
  - apply near_ready; [lia|exact N].
  - apply near_ready; [lia|]. apply near_reset; [lia|exact N].
  - assert (L : sdivLatency a b h <= 70) by (unfold sdivLatency; lia).
    apply near_ready; [exact L|]. apply near_reset; [lia|exact N].
  - apply near_ready; [lia|exact N].
  - apply near_ready; [lia|]. apply near_reset; [lia|exact N].
Qed.
Lemma armSched_near i s s' : armFits i -> near s -> armSched i s = Some s' -> near s'.
Proof.
  intros F N. unfold armSched, armFits in *. destruct (acls i) as [p1 p2 lat dur|a b| | | |].
  all: repeat match goal with |- (if ?b then None else _) = _ -> _ => destruct b; [discriminate|] end;
       intros H; apply some_inj in H; rewrite <- H.
  - apply near_readyAll; [lia|]. apply near_reset; [lia|exact N].
  - assert (L : armDivLatency a b <= 70).
    { unfold armDivLatency. assert (Z.quot (a + 3) 4 <= 17)%Z by (rewrite Z.quot_div_nonneg by lia; apply Z.div_le_upper_bound; lia).
      assert (0 <= Z.quot b 4)%Z by (apply Z.quot_pos; lia). lia. }
    apply near_readyAll; [exact L|]. apply near_reset; [exact L|exact N].
  - apply near_reset; [lia|]. apply near_reset; [lia|exact N].
  - apply near_readyAll; [lia|]. apply near_reset; [lia|exact N].
  - apply near_readyAll; [lia|]. apply near_reset; [lia|exact N].
  - exact N.
Qed.
(** after a while everything is free *)
Lemma iter_tick k s : cyc (Nat.iter k tickM s) = k + cyc s /\ regT (Nat.iter k tickM s) = regT s /\
  pipeT (Nat.iter k tickM s) = pipeT s /\ (0 < k -> isA (Nat.iter k tickM s) = false /\ isB (Nat.iter k tickM s) = false).
Proof.
  induction k as [|k IH]; [cbn; repeat split; lia|].
  change (Nat.iter (S k) tickM s) with (tickM (Nat.iter k tickM s)). destruct IH as (A & B & C & _).
  unfold tickM at 1 3 5 7 9. cbn [cyc regT pipeT isA isB]. rewrite A, B, C. auto.
Qed.
Lemma idle_free k s : near s -> 70 <= k -> (forall rs d, allBelow (Nat.iter k tickM s) rs d = true) /\
  (forall p, pipeReady (Nat.iter k tickM s) p = true) /\ (forall m, available (Nat.iter k tickM s) m = true).
Proof.
  intros [A B] K. destruct (iter_tick k s) as (Ec & Er & Ep & Ei). destruct (Ei ltac:(lia)) as [Ia Ib]. split; [|split].
  - intros rs d. unfold allBelow. apply forallb_forall. intros r _. apply Nat.leb_le. unfold latency. rewrite Ec, Er. specialize (A r). lia.
  - intros p. unfold pipeReady. apply Nat.leb_le. rewrite Ec, Ep. specialize (B p). lia.
  - intros m. unfold available. rewrite Ia, Ib. now destruct m.
Qed.
Lemma rv_go i s k : rvFits i -> near s -> 199 <= k -> rvSched i (Nat.iter k tickM s) <> None.
Proof.
  intros F N K. destruct (idle_free k s N ltac:(lia)) as (A & B & C). unfold rvSched, rvFits in *.
  destruct (rcls i); rewrite ?A, ?B, ?C; cbn [negb]; try discriminate. rewrite andb_true_r. destruct early; [discriminate|].
  destruct late; [discriminate|]. discriminate F.
Qed.
Lemma arm_go i s k : near s -> 199 <= k -> armSched i (Nat.iter k tickM s) <> None.
Proof.
  intros N K. destruct (idle_free k s N ltac:(lia)) as (A & B & C). unfold armSched.
  destruct (acls i); rewrite ?A, ?B, ?C; cbn [negb andb]; discriminate.
Qed.
