(** C30: the RISC-V peephole passes that rewrite instructions in place keep the program's behaviour.
    Statements only use the machine of RvMachine.v (ISA semantics) and the passes of RvPeephole.v. *)
From Coq Require Import ZArith Lia Bool ZifyBool List Arith.
From Verif Require Import Word Rv64 RvMachine RvPeephole RvRelax.
Import ListNotations.
Local Open Scope Z_scope.

(** ** Rewrites that look at one instruction at a time *)
Fixpoint mapAt (f : nat -> instr -> instr) (k : nat) (p : prog) : prog :=
  match p with [] => [] | i :: p' => f k i :: mapAt f (S k) p' end.
(** 292-343 over the whole function, 833-967 over the whole function *)
Definition branch2jumpPass term nextLabel p := mapAt (branch2jump term nextLabel) 0 p.
Definition simplifyZeroPass (p : prog) : prog := map simplifyZero p.

Lemma nth_mapAt f p : forall k j, nth_error (mapAt f k p) j =
  match nth_error p j with Some i => Some (f (k + j)%nat i) | None => None end.
Proof.
  induction p as [|x p IH]; intros k [|j]; cbn [mapAt nth_error]; try reflexivity.
  - rewrite Nat.add_0_r. reflexivity.
  - rewrite IH. replace (S k + j)%nat with (k + S j)%nat by lia. reflexivity.
Qed.

Theorem C30_simplify_zero_exact : forall e p n s,
  Forall immOk p -> wfR (R s) -> steps e (simplifyZeroPass p) n s = steps e p n s.
Proof.
  intros e p n. induction n as [|n IH]; intros s OK W; [reflexivity|]. cbn [steps]. unfold step, simplifyZeroPass.
  rewrite nth_error_map. destruct (nth_error p (pc s)) as [i|] eqn:E; cbn [option_map]; [|reflexivity].
  assert (O : immOk i) by (rewrite Forall_forall in OK; apply OK, (nth_error_In _ _ E)).
  rewrite simplifyZero_exact by assumption. apply IH; [exact OK|apply exec1_wf; assumption].
Qed.
Theorem C30_simplify_zero_witness : exists p e s,
  Forall immOk p /\ wfR (R s) /\ simplifyZeroPass p <> p /\
  exists t, steps e (simplifyZeroPass p) 3 s = Some t /\ R t 1%nat = 7 /\ R t 3%nat = 7.
Proof.
  exists [II ADDI 1%nat zero 7; I2 ADDW 2%nat zero 1%nat; I2 ADD_UW 3%nat 2%nat zero].
  exists (Env (fun _ _ m => (0, m)) (fun x => x)), (St_ 0 (fun _ => 0) (fun _ => 0) []).
  split; [repeat constructor; cbn; lia|]. split; [intros x; cbn; lia|]. split; [discriminate|].
  eexists. split; [reflexivity|]. split; reflexivity.
Qed.

(** When blocks end with a terminator the instruction after a conditional branch starts the next block. *)
Theorem C30_branch_to_jump_exact : forall e term nextLabel p n s,
  (term = true -> forall k o a b t, nth_error p k = Some (Br o a b t) -> nextLabel k = S k) ->
  steps e (branch2jumpPass term nextLabel p) n s = steps e p n s.
Proof.
  intros e term nl p n s HL. revert s. induction n as [|n IH]; intros s; [reflexivity|]. cbn [steps].
  unfold step, branch2jumpPass. rewrite nth_mapAt. cbn [Nat.add].
  destruct (nth_error p (pc s)) as [i|] eqn:E; [|reflexivity].
  assert (X : exec1 e (branch2jump term nl (pc s) i) s = exec1 e i s).
  { destruct i as [| | | | | |o a b t| | |]; try reflexivity. cbn [branch2jump].
    destruct (isX0 a && isX0 b) eqn:Z0; [|reflexivity]. apply andb_prop in Z0. destruct Z0 as [A B].
    apply Nat.eqb_eq in A, B. subst a b.
    destruct o; try reflexivity; (destruct term; [|reflexivity]); cbn [exec1]; rewrite (HL eq_refl _ _ _ _ _ E); reflexivity. }
  rewrite X. apply IH.
Qed.
Theorem C30_branch_to_jump_witness : exists p e s, branch2jumpPass true S p = [Jmp 2%nat; Nop; Jmp 3%nat; Nop] /\
  (forall k o a b t, nth_error p k = Some (Br o a b t) -> S k = S k) /\
  exists t, steps e p 3 s = Some t /\ pc t = 4%nat.
Proof.
  exists [Br BGE zero zero 2%nat; Nop; Br BLTU zero zero 0%nat; Nop].
  exists (Env (fun _ _ m => (0, m)) (fun x => x)), (St_ 0 (fun _ => 0) (fun _ => 0) []).
  split; [reflexivity|]. split; [reflexivity|]. eexists. split; reflexivity.
Qed.
(** without the fall-through assumption the statement is false: the target matters *)
Theorem C30_branch_to_jump_needs_fallthrough : exists nextLabel p e s,
  steps e (branch2jumpPass true nextLabel p) 1 s <> steps e p 1 s.
Proof.
  exists (fun _ => 5%nat), [Br BNE zero zero 0%nat], (Env (fun _ _ m => (0, m)) (fun x => x)), (St_ 0 (fun _ => 0) (fun _ => 0) []).
  cbn. congruence.
Qed.

(** ** Rewrites that remember facts of the current block *)
Theorem C30_remove_dead_branch_exact : forall e isCall leader p n s,
  targetsOk leader p -> leader (pc s) = true -> Forall immOk p -> wfR (R s) ->
  steps e (removeDeadBranch isCall leader p) n s = steps e p n s.
Proof.
  intros e isCall leader p n s TO L OK W. unfold removeDeadBranch.
  apply (scanned_exact [] (deadBranchStep isCall) leader brHolds e immOk); try assumption.
  - intros r o a b [].
  - intros. apply exec1_wf; assumption.
  - intros. apply deadBranch_exact; auto.
  - intros. apply deadBranch_next; auto.
  - apply (good_leader [] (deadBranchStep isCall) leader brHolds); [|exact L]. intros r o a b [].
Qed.
Theorem C30_remove_dead_branch_witness : exists leader p,
  targetsOk leader p /\ leader 0%nat = true /\ Forall immOk p /\
  removeDeadBranch (fun _ => true) leader p =
    [Br BLT 1%nat 2%nat 4%nat; Nop; II ADDI 1%nat 1%nat 1; Br BLT 1%nat 2%nat 4%nat; Nop].
Proof.
  exists (fun k => match k with 0 | 4 => true | _ => false end)%nat,
    [Br BLT 1%nat 2%nat 4%nat; Br BLT 1%nat 2%nat 4%nat; II ADDI 1%nat 1%nat 1; Br BLT 1%nat 2%nat 4%nat; Nop].
  split; [intros i H; cbn in H; repeat (destruct H as [<- | H]; [cbn; auto|]); destruct H|].
  split; [reflexivity|]. split; [repeat constructor; cbn; lia|reflexivity].
Qed.

(** removeSExtW: exact for programs without a logical shift right by exactly 32. *)
Theorem C30_remove_sext_partial : forall e isCall leader p n s,
  targetsOk leader p -> leader (pc s) = true -> Forall immOk p -> wfR (R s) ->
  Forall (fun i => match i with II SRLI _ _ c => c <> 32 | _ => True end) p ->
  steps e (removeSExtW isCall leader p) n s = steps e p n s.
Proof.
  intros e isCall leader p n s TO L OK W N32. unfold removeSExtW.
  apply (scanned_exact [] (sextStep isCall) leader sextHolds e okW); try assumption.
  - intros r x j H. discriminate H.
  - intros i s0 [IO _] W0. apply exec1_wf; assumption.
  - intros. apply sextStep_exact; auto.
  - intros. apply sextStep_next; auto.
  - rewrite Forall_forall in *. intros i Hi. split; [apply OK, Hi|apply N32, Hi].
  - apply (good_leader [] (sextStep isCall) leader sextHolds); [|exact L]. intros r x j H. discriminate H.
Qed.
Theorem C30_remove_sext_witness : exists leader p e s,
  targetsOk leader p /\ leader (pc s) = true /\ Forall immOk p /\ wfR (R s) /\
  Forall (fun i => match i with II SRLI _ _ c => c <> 32 | _ => True end) p /\
  removeSExtW (fun _ => true) leader p =
    [Ld LW 2%nat 0 1%nat; I1 MoveGPR 3%nat 2%nat; II SRAI 4%nat 3%nat 33; I1 MoveGPR 5%nat 4%nat; I1 SEXT_W 6%nat 3%nat] /\
  exists t, steps e p 5 s = Some t /\ R t 6%nat = 18446744073709551615.
Proof.
  exists (fun k => Nat.eqb k 0), [Ld LW 2%nat 0 1%nat; I1 SEXT_W 3%nat 2%nat; II SRAI 4%nat 3%nat 33; I1 SEXT_W 5%nat 4%nat; I1 SEXT_W 6%nat 3%nat].
  exists (Env (fun _ _ m => (0, m)) (fun x => x)), (St_ 0 (fun _ => 0) (fun _ => 255) []).
  split; [intros i H; cbn in H; repeat (destruct H as [<- | H]; [cbn; auto|]); destruct H|].
  split; [reflexivity|]. split; [repeat constructor; cbn; lia|]. split; [intros x; cbn; lia|].
  split; [repeat constructor; cbn; lia|]. split; [reflexivity|]. eexists. split; reflexivity.
Qed.
(** The code counts SRLI by 32 as producing a sign-extended word (line 991: imm >= 32), which it does not. *)
Theorem C30_remove_sext_refuted : exists e leader p s t t',
  targetsOk leader p /\ leader (pc s) = true /\ Forall immOk p /\ wfR (R s) /\
  steps e p 2 s = Some t /\ steps e (removeSExtW (fun _ => true) leader p) 2 s = Some t' /\
  R t 3%nat = 18446744073709551615 /\ R t' 3%nat = 4294967295.
Proof.
  exists (Env (fun _ _ m => (0, m)) (fun x => x)), (fun k => Nat.eqb k 0), [II SRLI 2%nat 1%nat 32; I1 SEXT_W 3%nat 2%nat].
  exists (St_ 0 (fun _ => 18446744073709551615) (fun _ => 0) []). do 2 eexists.
  split; [intros i H; cbn in H; repeat (destruct H as [<- | H]; [cbn; auto|]); destruct H|].
  split; [reflexivity|]. split; [repeat constructor; cbn; lia|]. split; [intros x; cbn; lia|].
  split; [reflexivity|]. split; [reflexivity|]. split; reflexivity.
Qed.

(** ** relaxWInst *)
(** What can be observed: where the program is, memory, the calls made with their arguments, the low half of every
    register, and the whole of every register that no relaxable instruction writes. *)
Definition sameObservation (p : prog) (t t' : state) : Prop :=
  pc t = pc t' /\ Mm t = Mm t' /\ tr t = tr t' /\
  (forall x, u32 (rd (R t) x) = u32 (rd (R t') x)) /\
  (forall x, (forall i, In i p -> isInterest i = true -> dst i <> Some x) -> rd (R t) x = rd (R t') x).

(** registers the pass believes to be sign-extended are so initially (in SSA form: they are written before use) *)
Definition initiallyExtended (p : prog) (r : regs) : Prop :=
  forall x, (exists i, In i p /\ dst i = Some x) -> (forall i, In i p -> dst i = Some x -> isWProvider i = true) ->
  rd r x = Rv.w (rd r x).
(** 64-bit address operands of ADD.UW and of the stores are not results of relaxable 32-bit instructions *)
Definition wideOperandsOk (p : prog) : Prop := forall i j b, In i p -> In j p -> isInterest j = true ->
  (exists o v off, i = St o v off b) \/ (exists d a, i = I2 ADD_UW d a b) -> dst j <> Some b.

Theorem C30_relax_w_partial : forall e order p n s,
  Forall immOk p -> Forall (fun i => match i with II SRLI _ _ c => c <> 32 | _ => True end) p ->
  wideOperandsOk p -> wfR (R s) -> initiallyExtended p (R s) ->
  match steps e p n s, steps e (relaxWInst order p) n s with
  | Some t, Some t' => sameObservation p t t'
  | None, None => True
  | _, _ => False
  end.
Proof.
  intros e order p n s OK N32 WO W IE. destruct (relax_ok p order) as [no LI].
  assert (OKP : Forall okW p).
  { rewrite Forall_forall in *. intros i Hi. split; [apply OK, Hi|apply N32, Hi]. }
  assert (AOK : addrOk p).
  { intros i j Hi Hj Ij. destruct i as [o d a b| | | | |o v off b| | | |]; try exact I.
    - destruct o; try exact I. apply (WO _ _ b Hi Hj Ij). right. eauto.
    - apply (WO _ _ b Hi Hj Ij). left. eauto. }
  assert (SX : Sx p (R s)).
  { intros x Hx. unfold operandOk in Hx. apply IE.
    - destruct (defsOf p x) as [|y l] eqn:D; [discriminate Hx|].
      assert (Hy : In y (defsOf p x)) by (rewrite D; left; reflexivity).
      apply filter_In in Hy. destruct Hy as [Hy Dy]. exists y. split; [exact Hy|].
      unfold defines in Dy. destruct (dst y); [|discriminate]. apply Nat.eqb_eq in Dy. congruence.
    - intros i Hi Di. assert (Hd : In i (defsOf p x)).
      { apply filter_In. split; [exact Hi|]. unfold defines. rewrite Di. apply Nat.eqb_refl. }
      destruct (defsOf p x) as [|y l]; [destruct Hd|]. rewrite forallb_forall in Hx. apply Hx, Hd. }
  assert (R0 : SRel p (relaxWInst order p) s s).
  { split; [reflexivity|]. split; [reflexivity|]. split; [reflexivity|]. intros x. split; reflexivity. }
  pose proof (sim_steps p _ no e LI OKP AOK n s s R0 W SX) as H.
  destruct (steps e p n s) as [t|], (steps e (relaxWInst order p) n s) as [t'|]; try exact H.
  destruct H as (A & B & C & D). split; [exact A|]. split; [exact B|]. split; [exact C|]. split; [intros x; apply D|].
  intros x Hx. apply D. intros (u & i & (C1 & C2 & _) & _ & Di). exact (Hx i (nth_error_In _ _ C1) C2 Di).
Qed.

Ltac inall H := cbn in H; repeat (destruct H as [<- | H]; [|]); try destruct H.
Theorem C30_relax_w_witness : exists e p s,
  Forall immOk p /\ Forall (fun i => match i with II SRLI _ _ c => c <> 32 | _ => True end) p /\
  wideOperandsOk p /\ wfR (R s) /\ initiallyExtended p (R s) /\
  relaxWInst (interesting p) p = [Ld LW 2%nat 0 1%nat; II ADDI 3%nat 2%nat 1; St SW 3%nat 4 1%nat] /\
  p <> relaxWInst (interesting p) p /\
  exists t t', steps e p 2 s = Some t /\ steps e (relaxWInst (interesting p) p) 2 s = Some t' /\
    R t 3%nat = 18446744071562067968 /\ R t' 3%nat = 2147483648.
Proof.
  exists (Env (fun _ _ m => (0, m)) (fun x => x)), [Ld LW 2%nat 0 1%nat; II ADDIW 3%nat 2%nat 1; St SW 3%nat 4 1%nat].
  exists (St_ 0 (fun _ => 0) (fun a => if a =? 3 then 127 else 255) []).
  split; [repeat constructor; cbn; lia|]. split; [repeat constructor|].
  split. { intros i j b Hi Hj Ij Hf D.
    cbn in Hj. destruct Hj as [<- | [<- | [<- | []]]]; try discriminate Ij. cbn in D. injection D as <-.
    cbn in Hi. destruct Hi as [<- | [<- | [<- | []]]]; destruct Hf as [(o & v & off & E) | (d & a & E)]; discriminate E. }
  split; [intros x; cbn; lia|]. split. { intros x _ _. cbn. unfold rd. destruct (Nat.eqb x zero); reflexivity. }
  split; [reflexivity|]. split; [discriminate|]. do 2 eexists. split; [reflexivity|]. split; [reflexivity|].
  split; reflexivity.
Qed.

(** The same SRLI-by-32 mistake: SRAIW of such a value is turned into SRAI and a store sees the difference. *)
Theorem C30_relax_w_refuted : exists e p s t t',
  Forall immOk p /\ wideOperandsOk p /\ wfR (R s) /\ initiallyExtended p (R s) /\
  steps e p 3 s = Some t /\ steps e (relaxWInst (interesting p) p) 3 s = Some t' /\
  Mm t 3 = 255 /\ Mm t' 3 = 15.
Proof.
  exists (Env (fun _ _ m => (0, m)) (fun x => x)), [II SRLI 2%nat 1%nat 32; II SRAIW 3%nat 2%nat 4; St SW 3%nat 0 4%nat].
  exists (St_ 0 (fun x => if Nat.eqb x 1 then 18446744073709551615 else 0) (fun a => 0) []).
  do 2 eexists. split; [repeat constructor; cbn; lia|].
  split. { intros i j b Hi Hj Ij Hf D.
    cbn in Hj. destruct Hj as [<- | [<- | [<- | []]]]; try discriminate Ij. cbn in D. injection D as <-.
    cbn in Hi. destruct Hi as [<- | [<- | [<- | []]]]; destruct Hf as [(o & v & off & E) | (d & a & E)]; discriminate E. }
  split; [intros x; cbn; destruct (Nat.eqb x 1); lia|].
  split. { intros x (i & Hi & Di) _. cbn in Hi. destruct Hi as [<- | [<- | [<- | []]]]; cbn in Di; try discriminate Di;
    injection Di as <-; reflexivity. }
  split; [reflexivity|]. split; [reflexivity|]. split; reflexivity.
Qed.
(** ADD.UW is counted as a reader of 32-bit values although its second operand is read in full. *)
Theorem C30_relax_add_uw_refuted : exists e p s t t',
  Forall immOk p /\ Forall (fun i => match i with II SRLI _ _ c => c <> 32 | _ => True end) p /\
  wfR (R s) /\ initiallyExtended p (R s) /\
  steps e p 3 s = Some t /\ steps e (relaxWInst (interesting p) p) 3 s = Some t' /\ Mm t <> Mm t'.
Proof.
  exists (Env (fun _ _ m => (0, m)) (fun x => x)), [I1 SEXT_W 2%nat 1%nat; I2 ADD_UW 3%nat 4%nat 2%nat; St SD 3%nat 0 4%nat].
  exists (St_ 0 (fun x => if Nat.eqb x 1 then 4294967295 else 0) (fun a => 0) []).
  do 2 eexists. split; [repeat constructor; cbn; lia|]. split; [repeat constructor|].
  split; [intros x; cbn; destruct (Nat.eqb x 1); lia|].
  split. { intros x (i & Hi & Di) _. cbn in Hi. destruct Hi as [<- | [<- | [<- | []]]]; cbn in Di; try discriminate Di;
    injection Di as <-; reflexivity. }
  split; [reflexivity|]. split; [reflexivity|]. intros E. apply (f_equal (fun m => m 5)) in E. vm_compute in E. discriminate E.
Qed.
