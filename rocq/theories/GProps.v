(** C32: the target-independent machine passes do not change what a function does.
    For every target whose flags are truthful (GMir.v) and every function: the transformed function makes the same
    calls with the same arguments and the same visible registers, and has the same memory, spill slots, visible
    registers and position after every number of block transitions ([sameBehaviour], [sameFromEntry]).
    cmmc/CodeGen/Peephole.cpp:38-776. *)
From Coq Require Import ZArith Lia Bool List Arith.
From Verif Require Import GMir GCopy GCse GDead GConst.
Import ListNotations.
Local Open Scope Z_scope.

(* ------------------------------------------------------------------ *)
(** * A small target for the examples *)
Definition oAdd := 5%nat.  Definition oLi := 6%nat.  Definition oCall := 7%nat.  Definition oBeqz := 8%nat.
Definition oRet := 9%nat.  Definition oAdds := 10%nat.  Definition oSel := 11%nat.  Definition oSw := 12%nat.
Definition exFl (o : nat) : flags :=
  match o with
  | 0%nat | 2%nat => Flags false false false false false false false true false false false
  | 1%nat => Flags false false false false false false true true false false false
  | 3%nat => Flags true false false false false false false false false false false
  | 4%nat | 12%nat => Flags false true false false false false false false false false false
  | 6%nat => Flags false false false false false true false false false false false
  | 7%nat => Flags false false false false true false false false false false false
  | 8%nat => Flags false false true true false false false false false false false
  | 9%nat => Flags false false true false false false false false false false true
  | 10%nat => Flags false false false false false false false false false true false
  | _ => noFlags
  end.
Definition exOps (o : nat) : list opflag :=
  match o with
  | 0%nat | 1%nat | 2%nat => [FDef; FUse]
  | 3%nat | 6%nat => [FDef; FMeta]
  | 4%nat => [FUse; FMeta]
  | 5%nat | 11%nat => [FDef; FUse; FUse]
  | 7%nat => [FMeta]
  | 8%nat => [FUse; FMeta]
  | 10%nat => [FDef; FDef; FUse; FUse]
  | 12%nat => [FUse; FUse]
  | _ => []
  end.
Definition exPure (o : nat) (ts : list nat) (pl : nat) (a : list arg) (k : nat) : Z :=
  match o, a with
  | 5%nat, [_; AReg x; AReg y] => x + y
  | 6%nat, [_; ATok (OImm c)] => c
  | 10%nat, [_; _; AReg x; AReg y] => match k with O => x + y | _ => if x + y =? 0 then 1 else 0 end
  | 11%nat, [_; AReg c; AReg x] => if c =? 0 then 0 else x
  | _, _ => 0
  end.
Definition exCtl (o : nat) (a : list arg) (m : mem) : control :=
  match o, a with
  | 8%nat, [AReg x; ATok (OLbl b)] => if x =? 0 then Goto b else Next
  | 9%nat, _ => Stop
  | _, _ => Next
  end.
Definition exMem (o : nat) (a : list arg) (m : mem) : mem :=
  match o, a with
  | 12%nat, [AReg v; AReg x] => fun y => if y =? x then v else m y
  | _, _ => m
  end.
Definition ex : target :=
  Target exOps exFl (fun _ => 0%nat) [0%nat; 1%nat] exPure (fun _ _ _ _ _ => 0) exMem exCtl
         (fun _ _ v _ _ n => match n with 0%nat => hd 0 v + 1 | _ => 0 end) (fun _ _ _ _ m => m).
Lemma ex_ok : okTarget ex /\ singleDef ex /\ okLoadConst ex /\ okControl ex.
Proof.
  split; [repeat split|]. split; [|split].
  - intros o. do 13 (destruct o as [|o]; [cbn; (lia || discriminate)|]). cbn. lia.
  - intros o. do 13 (destruct o as [|o]; [cbn; (discriminate || (intros _; split; [reflexivity|split; [reflexivity|auto]]))|]).
    cbn. discriminate.
  - intros o a m. do 13 (destruct o as [|o]; [cbn; try discriminate; try (intros _; reflexivity)|]); cbn; auto.
Qed.
Definition V (n : nat) := OReg (Virt n).
Definition P (n : nat) := OReg (Phys n).
Definition I3 (o : nat) (a b c : operand) := Inst o [a; b; c] 0.
Definition I2 (o : nat) (a b : operand) := Inst o [a; b] 0.
Definition s0 : state := State (fun _ => 0) (fun _ => 0) (fun _ => 0) [].

(* ------------------------------------------------------------------ *)
(** * Copies *)
Lemma same_of_blocks t (f : list inst -> list inst) p :
  (forall b, In b p -> forall s s', agree All s s' -> outs_agree (runB t b s) (runB t (f b) s')) -> sameBehaviour t p (map f p).
Proof. intros H. apply (local_same t All); [unfold All; auto|]. intros b Hb s s' A. exact (H b Hb s s' A). Qed.

(** removeIdentityCopies, whatever matchCopy's register-class test says *)
Theorem C32_identity_copies : forall t copyOk p, okTarget t -> sameBehaviour t p (map (removeIdentityCopies t copyOk) p).
Proof. intros t copyOk p OK. apply same_of_blocks. intros b _. apply identity_block. exact OK. Qed.

(** removeIndirectCopy, whatever [legal] and [allow] let through *)
Theorem C32_indirect_copies : forall t copyOk legal allow p, okTarget t ->
  sameBehaviour t p (map (removeIndirectCopy t copyOk legal allow) p).
Proof.
  intros t copyOk legal allow p OK. apply same_of_blocks. intros b _ s s' A. apply indirect_block; auto.
  exists (fun _ => 0). split; intros; discriminate.
Qed.
(** v1 := p0; v2 := v1; call; p1 := v2 + v1: v2 is replaced by v1, but p0 is not used across the call *)
Theorem C32_indirect_copies_witness :
  map (removeIndirectCopy ex (fun _ => true) (fun _ => true) (fun _ => true))
    [[I2 opcCopyFrom (V 1) (P 0); I2 opcCopy (V 2) (V 1); I3 oAdd (V 3) (V 2) (V 2); Inst oCall [OImm 0] 0;
      I3 oAdd (P 1) (V 2) (V 1)]]
  = [[I2 opcCopyFrom (V 1) (P 0); I2 opcCopyFrom (V 2) (P 0); I3 oAdd (V 3) (P 0) (P 0); Inst oCall [OImm 0] 0;
      I3 oAdd (P 1) (V 2) (V 1)]].
Proof. reflexivity. Qed.

(** eliminateStackLoads *)
Theorem C32_stack_loads : forall t p, okTarget t -> sameBehaviour t p (map (eliminateStackLoads t) p).
Proof.
  intros t p OK. apply same_of_blocks. intros b _ s s' A. apply stack_block; auto.
  exists (fun _ => 0). split; intros; discriminate.
Qed.
Theorem C32_stack_loads_witness :
  eliminateStackLoads ex [I2 opcStStk (P 0) (OStk 3); I2 opcLdStk (P 1) (OStk 3); I3 oAdd (P 0) (P 1) (P 1); I2 opcLdStk (P 1) (OStk 3)]
  = [I2 opcStStk (P 0) (OStk 3); I2 opcCopy (P 1) (P 0); I3 oAdd (P 0) (P 1) (P 1); I2 opcLdStk (P 1) (OStk 3)].
Proof. reflexivity. Qed.

(** createIndirectCopy *)
Theorem C32_create_indirect_copies : forall t copyOk p, okTarget t -> sameBehaviour t p (map (createIndirectCopy t copyOk) p).
Proof.
  intros t copyOk p OK. apply same_of_blocks. intros b _ s s' A. apply create_block; auto.
  exists (fun _ => 0). intros r n H. discriminate.
Qed.
Theorem C32_create_indirect_copies_witness :
  createIndirectCopy ex (fun _ => true) [I2 oLi (V 1) (OImm 5); I2 opcCopy (V 2) (V 1); I3 oAdd (P 0) (V 1) (V 1)]
  = [I2 oLi (V 1) (OImm 5); I2 opcCopy (V 2) (V 1); I3 oAdd (P 0) (V 2) (V 2)].
Proof. reflexivity. Qed.

(* ------------------------------------------------------------------ *)
(** * Repeated computations *)
(** machineInstCSE *)
Theorem C32_instruction_cse : forall t p, okTarget t -> singleDef t -> sameBehaviour t p (map (machineInstCSE t) p).
Proof.
  intros t p OK SD. apply same_of_blocks. intros b _ s s' A. apply cse_block; auto.
  exists (fun _ => 0). split; [split; intros; discriminate|intros e []].
Qed.
Theorem C32_instruction_cse_witness :
  machineInstCSE ex [I3 oAdd (V 1) (P 0) (P 1); I3 oAdd (V 2) (P 0) (P 1); I3 oAdd (P 0) (V 2) (V 1); I3 oAdd (V 3) (P 0) (P 1)]
  = [I3 oAdd (V 1) (P 0) (P 1); I2 opcCopy (V 2) (V 1); I3 oAdd (P 0) (V 2) (V 1); I3 oAdd (V 3) (P 0) (P 1)].
Proof. reflexivity. Qed.

(** deadInstElimination, for functions without instructions flagged MultiDef *)
Theorem C32_repeated_instructions_partial : forall t p, okTarget t -> singleDef t ->
  (forall i, In i (concat p) -> multiDef (flagsOf t i) = false) ->
  sameBehaviour t p (map (deadInstElimination t) p).
Proof.
  intros t p OK SD MD. apply same_of_blocks. intros b Hb s s' A. apply dead_block; auto.
  - intros i Hi. apply MD. apply in_concat. eauto.
  - exists (fun _ => 0). split; [split; intros; discriminate|intros d e H; discriminate].
Qed.
Theorem C32_repeated_instructions_witness :
  deadInstElimination ex [I3 oAdd (P 1) (P 0) (P 0); I2 oSw (P 1) (P 0); I3 oAdd (P 1) (P 0) (P 0); I3 oAdd (P 0) (P 1) (P 1);
                          I3 oAdd (P 1) (P 0) (P 0)]
  = [I3 oAdd (P 1) (P 0) (P 0); I2 oSw (P 1) (P 0); I3 oAdd (P 0) (P 1) (P 1); I3 oAdd (P 1) (P 0) (P 0)].
Proof. reflexivity. Qed.
(** With such an instruction (ADDS, SUBS of ARM.yml: result and condition flags) the pass forgets that its second
    result changed and drops a conditional move that must be repeated. *)
Theorem C32_repeated_instructions_multidef_refuted : exists p n,
  observed ex (runF ex p n 0 s0) <> observed ex (runF ex (map (deadInstElimination ex) p) n 0 s0) /\
  okTarget ex /\ singleDef ex.
Proof.
  exists [[I2 oLi (V 1) (OImm 1); I2 oLi (V 9) (OImm (-1));
           Inst oAdds [V 5; V 2; V 1; V 9] 0; I3 oSel (P 0) (V 2) (V 1);
           I2 oSw (P 0) (V 9);
           Inst oAdds [V 5; V 2; V 1; V 1] 0; I3 oSel (P 0) (V 2) (V 1)]], 1%nat.
  split; [|split; apply ex_ok]. intros E. apply (f_equal (fun x => snd (fst x))) in E. cbv in E. discriminate.
Qed.

(* ------------------------------------------------------------------ *)
(** * Instructions whose results are not needed *)
(** removeUnusedInsts; the worklist is always exhausted *)
Theorem C32_unused_instructions : forall t p, okTarget t -> singleDef t ->
  exists q, removeUnusedInsts t p = Some q /\ sameBehaviour t p q.
Proof. intros t p OK SD. destruct (removeUnused_defined t p) as [q E]. exists q. split; [exact E|]. now apply removeUnused_same. Qed.
Theorem C32_unused_instructions_witness :
  removeUnusedInsts ex [[I2 oLi (V 1) (OImm 5); I2 oLi (V 2) (OImm 6); I3 oAdd (V 3) (V 1) (V 2); I2 oBeqz (V 1) (OLbl 1)];
                        [I3 oAdd (P 0) (V 1) (V 1); I3 oAdd (V 3) (V 3) (V 2)]]
  = Some [[I2 oLi (V 1) (OImm 5); I2 oBeqz (V 1) (OLbl 1)]; [I3 oAdd (P 0) (V 1) (V 1)]].
Proof. reflexivity. Qed.

(** removeInvisibleInsts, after register allocation *)
Theorem C32_overwritten_instructions : forall t p, okTarget t -> okControl t -> (forall b, In b p -> allocated t b) ->
  sameBehaviour t p (map (removeInvisibleInsts t) p).
Proof.
  intros t p OK CT AL. apply same_of_blocks. intros b Hb s s' A. unfold removeInvisibleInsts.
  apply (invisible_block t OK CT b [] 0 [] [] s s' _ (AL b Hb)); auto.
  - intros r j H. discriminate.
  - intros j [].
Qed.
Theorem C32_overwritten_instructions_witness : exists b, allocated ex b /\
  b = [I3 oAdd (P 0) (P 1) (P 1); I3 oAdd (P 2) (P 1) (P 1); I3 oAdd (P 0) (P 1) (P 2); I2 oBeqz (P 1) (OLbl 0)] /\
  removeInvisibleInsts ex b = [I3 oAdd (P 2) (P 1) (P 1); I3 oAdd (P 0) (P 1) (P 2); I2 oBeqz (P 1) (OLbl 0)].
Proof.
  eexists. split; [|split; reflexivity]. split.
  - intros i r Hi Hr. cbn in Hi. destruct Hi as [<-|[<-|[<-|[<-|[]]]]]; cbn in Hr; intuition subst; reflexivity.
  - intros pre i post E Np T. do 4 (destruct pre as [|? pre]; [injection E as <- <-; cbn in T |- *; (discriminate || reflexivity)|];
      injection E as <- E). destruct pre; discriminate.
Qed.
(** Before allocation it deletes every computation of a virtual register that has no other effect. *)
Theorem C32_overwritten_instructions_virtual_refuted : exists p n s, observed ex (runF ex p n 0 s) <>
  observed ex (runF ex (map (removeInvisibleInsts ex) p) n 0 s).
Proof.
  exists [[I2 oLi (V 1) (OImm 5); I3 oAdd (P 0) (V 1) (V 1)]], 1%nat, s0.
  intros E. apply (f_equal (fun x => snd (fst x))) in E. cbv in E. discriminate.
Qed.

(* ------------------------------------------------------------------ *)
(** * Constants *)
(** applySSAPropagation: a use of a copy of a constant reads the constant's register instead *)
Theorem C32_ssa_propagation : forall t copyOk p, okTarget t -> okLoadConst t -> constForm t p -> strict t p ->
  sameFromEntry t p (applySSAPropagation t copyOk p).
Proof. intros t copyOk p OK LC CF ST. now apply ssa_same. Qed.
(** machineConstantCSE *)
Theorem C32_constant_cse_partial : forall t p, okTarget t -> okLoadConst t -> okControl t -> constForm t p ->
  (forall i, In i (concat p) -> loadConst (flagsOf t i) = true -> pcRel (flagsOf t i) = false) ->
  (forall b, In b p -> noReload t b) -> (forall b0 p', p = b0 :: p' -> straight t b0) ->
  sameFromEntry t p (machineConstantCSE t p).
Proof. intros t p OK LC CT CF NP NR St. now apply constCse_same. Qed.
(** machineConstantHoist, whatever blocks are taken to be hot and in whatever order *)
Theorem C32_constant_hoist_partial : forall t hot order fresh maxCount here p,
  okTarget t -> okLoadConst t -> okControl t -> constForm t p -> strict t p ->
  (forall i, In i (concat p) -> loadConst (flagsOf t i) = true -> pcRel (flagsOf t i) = false) ->
  (forall l, incl (order l) l) ->
  (forall i r, In i (concat p) -> In r (defs t i) -> forall v, r = Virt v -> (v < fresh)%nat) ->
  (forall b0 p', p = b0 :: p' -> b0 <> [] /\ straight t b0) ->
  sameFromEntry t p (machineConstantHoist t hot order fresh maxCount here p).
Proof. intros t hot order fresh maxCount here p OK LC CT CF ST NP ORD FR SB. now apply hoist_same. Qed.

(** one function that meets the hypotheses of all three and is changed by all three *)
Definition exP : func :=
  [[I2 oLi (V 1) (OImm 5); I2 opcCopy (V 2) (V 1); I2 oBeqz (P 0) (OLbl 2)];
   [I2 oLi (V 3) (OImm 5); I2 oLi (V 4) (OImm 9); I3 oAdd (P 1) (V 3) (V 4); I3 oAdd (P 1) (P 1) (V 2)];
   [I2 oLi (P 0) (OImm 5); Inst oRet [] 0]].
Lemma exP_strict : strict ex exP.
Proof.
  intros n s. destruct n as [|n]; [exact I|]. unfold exP. cbn - [okF Z.eqb after]. 
  assert (X : forall n D s, okF ex exP n 3 D s).
  { intros n'. destruct n'; intros; cbn; auto. }
  assert (R2 : forall n D s, okF ex exP n 2 D s).
  { intros n' D s'. destruct n' as [|n']; [exact I|]. cbn. repeat split; intros; tauto. }
  assert (R1 : forall n D s, In (Virt 2) D -> okF ex exP n 1 D s).
  { intros n' D s' H. destruct n' as [|n']; [exact I|]. unfold exP. cbn - [okF after In]. split.
    - repeat split; intros; cbn in *; repeat match goal with H : _ \/ _ |- _ => destruct H end; subst; try discriminate; try tauto; auto.
    - cbn [after]. apply R2. }
  split.
  - cbn. repeat split; intros; repeat match goal with H : _ \/ _ |- _ => destruct H end; subst; try discriminate; try tauto; auto.
  - cbn - [okF Z.eqb]. destruct (_ =? 0); cbn [after snd]; [apply R2|apply R1]. cbn. auto.
Qed.

Theorem C32_constants_witness :
  okTarget ex /\ okLoadConst ex /\ okControl ex /\ constForm ex exP /\ strict ex exP /\
  (forall i, In i (concat exP) -> loadConst (flagsOf ex i) = true -> pcRel (flagsOf ex i) = false) /\
  (forall b, In b exP -> noReload ex b) /\ (forall b0 p', exP = b0 :: p' -> b0 <> [] /\ straight ex b0) /\
  (forall i r, In i (concat exP) -> In r (defs ex i) -> forall v, r = Virt v -> (v < 10)%nat) /\
  applySSAPropagation ex (fun _ => true) exP =
    [[I2 oLi (V 1) (OImm 5); I2 opcCopy (V 2) (V 1); I2 oBeqz (P 0) (OLbl 2)];
     [I2 oLi (V 3) (OImm 5); I2 oLi (V 4) (OImm 9); I3 oAdd (P 1) (V 3) (V 4); I3 oAdd (P 1) (P 1) (V 1)];
     [I2 oLi (P 0) (OImm 5); Inst oRet [] 0]] /\
  machineConstantCSE ex exP =
    [[I2 oLi (V 1) (OImm 5); I2 opcCopy (V 2) (V 1); I2 oBeqz (P 0) (OLbl 2)];
     [I2 opcCopy (V 3) (V 1); I2 oLi (V 4) (OImm 9); I3 oAdd (P 1) (V 3) (V 4); I3 oAdd (P 1) (P 1) (V 2)];
     [I2 opcCopyTo (P 0) (V 1); Inst oRet [] 0]] /\
  machineConstantHoist ex (fun _ => true) (fun l => l) 10 2 0 exP =
    [[I2 oLi (V 1) (OImm 5); I2 opcCopy (V 2) (V 1); I2 oLi (V 3) (OImm 5); I2 oBeqz (P 0) (OLbl 2)];
     [I2 opcCopy (V 10) (V 3); I2 oLi (V 4) (OImm 9); I3 oAdd (P 1) (V 3) (V 4); I3 oAdd (P 1) (P 1) (V 2)];
     [I2 oLi (P 0) (OImm 5); Inst oRet [] 0]].
Proof.
  destruct ex_ok as (A & _ & B & C). split; [exact A|]. split; [exact B|]. split; [exact C|].
  assert (Cs : forall i, In i (concat exP) -> (loadConst (flagsOf ex i) = true -> pcRel (flagsOf ex i) = false /\
            exists d o, ops i = [OReg d; o] /\ forall r, o <> OReg r) /\
            forall r, In r (defs ex i) -> forall v, r = Virt v -> (v < 10)%nat).
  { intros i Hi. cbn in Hi. repeat (destruct Hi as [<-|Hi]; [
      split; [cbn; intros L; (discriminate L || (split; [reflexivity|]; do 2 eexists; split; [reflexivity|intros; discriminate]))|
              cbn; intros r Hr v E; subst r; repeat (destruct Hr as [Hr|Hr]; [first [discriminate Hr | injection Hr as <-; lia]|]);
              destruct Hr]|]). destruct Hi. }
  split; [intros i Hi L; now apply (Cs i Hi) in L|]. split; [exact exP_strict|].
  split; [intros i Hi L; now apply (Cs i Hi) in L|]. split; [|split; [|split; [|split; [reflexivity|split; reflexivity]]]].
  - intros b Hb pre i post d E L Dd Vd I. cbn in Hb. destruct Hb as [<-|[<-|[<-|[]]]];
      repeat (destruct pre as [|? pre]; [injection E as <- <-; cbn in L, Dd, I; try discriminate L;
        destruct Dd as [<-|[]]; try discriminate Vd; intuition discriminate|]; injection E as <- E);
      destruct pre; discriminate.
  - intros b0 p' E. injection E as <- <-. split; [discriminate|]. intros pre i post E Np.
    repeat (destruct pre as [|? pre]; [injection E as <- <-; (reflexivity || now destruct Np)|]; injection E as <- E).
    destruct pre; discriminate.
  - intros i r Hi. apply (Cs i Hi).
Qed.
(** A register loaded twice within a block: the second load of 5 is replaced by a copy of a register that meanwhile
    holds 7. *)
Theorem C32_constant_cse_reload_refuted : exists p n, constForm ex p /\ strict ex p /\
  (forall b0 p', p = b0 :: p' -> straight ex b0) /\
  observed ex (runF ex p n 0 s0) <> observed ex (runF ex (machineConstantCSE ex p) n 0 s0).
Proof.
  exists [[I2 oLi (V 1) (OImm 5); I2 oLi (V 1) (OImm 7); I2 oLi (P 0) (OImm 5)]], 1%nat.
  split; [|split; [|split]].
  - intros i Hi _. cbn in Hi. destruct Hi as [<-|[<-|[<-|[]]]]; do 2 eexists; (split; [reflexivity|discriminate]).
  - intros n s. destruct n as [|[|n]]; cbn; tauto.
  - intros b0 p' E. injection E as <- <-. intros pre i post E Np.
    repeat (destruct pre as [|? pre]; [injection E as <- <-; reflexivity|]; injection E as <- E). destruct pre; discriminate.
  - intros E. apply (f_equal (fun x => snd (fst x))) in E. cbv in E. discriminate.
Qed.
(** A constant load whose value depends on its place (AUIPC of RISCV.yml:41-43 carries both flags) is shared as well;
    the code relies on its address being completed afterwards. *)
Definition exPc : target :=
  Target (opfl ex) (fun o => match o with 6%nat => Flags false false false false false true false false true false false | _ => exFl o end)
         (ty ex) (alloc ex) (fun o ts pl a k => match o with 6%nat => Z.of_nat pl + exPure o ts pl a k | _ => exPure o ts pl a k end)
         (effVal ex) (effMem ex) (effCtl ex) (callReg ex) (callMem ex).
Theorem C32_constant_cse_pcrel_refuted : exists p n, okTarget exPc /\
  observed exPc (runF exPc p n 0 s0) <> observed exPc (runF exPc (machineConstantCSE exPc p) n 0 s0).
Proof.
  exists [[Inst oLi [V 1; OImm 5] 1; Inst oLi [P 0; OImm 5] 2]], 1%nat. split; [repeat split|].
  intros E. apply (f_equal (fun x => snd (fst x))) in E. cbv in E. discriminate.
Qed.
