(** C41: instruction scheduling keeps what a program does, and comes to an end on the machine models. *)
From Coq Require Import ZArith Lia Bool List Arith Permutation.
From Verif Require Import GMir RaMir RaLive RaColor RaAlloc RaProps Sched SchedTop SchedSim SchedModels.
Import ListNotations.

(* ------------------------------------------------------------------ *)
(** * Specification *)
(** two instructions whose order matters: both have side effects, one of them is a barrier (call, terminator, in-order),
    or one of them writes a register the other one mentions *)
Inductive orderMatters {W} (t : mach W) (sideF ordF : nat -> bool) (i j : inst) : Prop :=
| om_side : sideF (opc i) = true -> sideF (opc j) = true -> orderMatters t sideF ordF i j
| om_barrier_l : sideF (opc i) = true -> ordF (opc i) = true -> orderMatters t sideF ordF i j
| om_barrier_r : sideF (opc j) = true -> ordF (opc j) = true -> orderMatters t sideF ordF i j
| om_raw r : In r (rdefs t i) -> In r (ruses t j) -> orderMatters t sideF ordF i j
| om_war r : In r (ruses t i) -> In r (rdefs t j) -> orderMatters t sideF ordF i j
| om_waw r : In r (rdefs t i) -> In r (rdefs t j) -> orderMatters t sideF ordF i j.
(** [blk'] is [blk] in another order, given by where each instruction goes; the instructions above keep their order *)
Definition legalOrder {W} (t : mach W) (sideF ordF : nat -> bool) (blk blk' : list inst) : Prop :=
  exists pos : nat -> nat,
    (forall a, a < length blk -> pos a < length blk') /\
    (forall a b, a < length blk -> b < length blk -> pos a = pos b -> a = b) /\
    length blk' = length blk /\
    (forall a i, nth_error blk a = Some i -> nth_error blk' (pos a) = Some i) /\
    (forall a b i j, a < b -> nth_error blk a = Some i -> nth_error blk b = Some j -> orderMatters t sideF ordF i j -> pos a < pos b).

Lemma orderMatters_clash {W} (t : mach W) sideF ordF sp i j : orderMatters t sideF ordF i j -> clash t sideF ordF sp i j.
Proof.
  intros [A B|A B|A B|r A B|r A B|r A B]; unfold clash, isOrd.
  - auto.
  - right. left. now rewrite A, B.
  - right. right. left. now rewrite A, B.
  - right. right. right. exists r. left. split; [now apply defs_in|left; now apply uses_in].
  - right. right. right. exists r. right. split; [now apply uses_in|now apply defs_in].
  - right. right. right. exists r. left. split; [now apply defs_in|right; now apply defs_in].
Qed.

Lemma reorder_full blk l : (forall k, In k l -> k < length blk) -> length (reorder blk l) = length l /\
  forall n k, nth_error l n = Some k -> nth_error (reorder blk l) n = nth_error blk k.
Proof.
  induction l as [|k l IH]; intros H; [split; [reflexivity|intros [|n] k Hk; discriminate]|].
  destruct (IH (fun x Hx => H x (or_intror Hx))) as [A B]. assert (Hk : k < length blk) by (apply H; now left).
  destruct (nth_error blk k) as [i|] eqn:E; [|apply nth_error_None in E; lia].
  assert (X : reorder blk (k :: l) = i :: reorder blk l) by (unfold reorder; cbn; now rewrite E). rewrite X.
  split; [cbn; now rewrite A|]. intros [|n] x Hx; cbn in Hx |- *; [injection Hx as <-; now rewrite E|auto].
Qed.
Lemma nth_posOf l k : In k l -> nth_error l (posOf l k) = Some k.
Proof.
  induction l as [|x l IH]; cbn; [intros []|]. destruct (Nat.eqb_spec x k) as [->|N]; [reflexivity|].
  intros [H|H]; [contradiction|]. now apply IH.
Qed.

(* ------------------------------------------------------------------ *)
(** * For every machine model *)
Section AnyModel.
Context {W : Type}.
Variable t : mach W.
Variables sideF ordF : nat -> bool.
Variable sp : nat.
Variable S : Type.
Variable sched : list inst -> S -> nat -> option S.
Variable nextCycle : S -> S.
Variable ord : list inst -> nat -> list nat -> list nat.
Variable width : nat.
Variable st0 : S.
Hypothesis ordP : forall blk k l, Permutation (ord blk k l) l.
Notation schedBlock := (schedBlock t sideF ordF sp S sched nextCycle ord width st0).
Notation schedFunc := (schedFunc t sideF ordF sp S sched nextCycle ord width st0).

(** the order of a scheduled block is legal, whatever the flags mean *)
Theorem C41_order_is_legal blk blk' : schedBlock blk = Some blk' -> legalOrder t sideF ordF blk blk'.
Proof using ordP.
  intros H. destruct (schedBlock_topo t sideF ordF sp S sched nextCycle ord width st0 ordP blk blk' H) as (l & TL & ->).
  pose proof (l_nodup t sideF ordF sp blk l TL) as N.
  assert (In_l : forall a, In a l <-> a < length blk).
  { intros a. split; intros X.
    - apply (Permutation_in _ (proj1 TL)), in_seq in X. lia.
    - apply (Permutation_in _ (Permutation_sym (proj1 TL))), in_seq. lia. }
  destruct (reorder_full blk l) as [L1 L2]; [intros k; apply In_l|].
  assert (Ll : length l = length blk) by (rewrite (Permutation_length (proj1 TL)); apply seq_length).
  exists (posOf l). split; [|split; [|split; [|split]]].
  - intros a Ha. rewrite L1. now apply posOf_in, In_l.
  - intros a b Ha Hb E. pose proof (nth_posOf l a (proj2 (In_l a) Ha)). pose proof (nth_posOf l b (proj2 (In_l b) Hb)). congruence.
  - congruence.
  - intros a i Hi. assert (Ha : a < length blk) by (apply nth_error_Some; congruence).
    rewrite (L2 _ a); [exact Hi|]. now apply nth_posOf, In_l.
  - intros a b i j Hab Hi Hj O. apply (orderMatters_clash t sideF ordF sp) in O.
    assert (K : kept t sideF ordF sp (posOf l) blk (length blk)).
    { apply deps_enough. intros u v D. pose proof (proj2 (deps_ok t sideF ordF sp blk) u v D) as [A B].
      assert (Hu : In u l) by (apply In_l; lia). apply in_split in Hu as (x & y & E).
      pose proof (proj2 TL x u y v E D) as Hv. rewrite E. apply posOf_split; [|exact Hv]. now rewrite <- E. }
    apply (K a b i j Hab); try assumption. apply nth_error_Some. congruence.
Qed.

Hypothesis T : schedTarget t sideF ordF.
(** a scheduled block leaves every register, slot and the world as the block does *)
Theorem C41_block_same_state blk blk' s : schedBlock blk = Some blk' ->
  let a := fst (rrunB t blk s 0) in let b := fst (rrunB t blk' s 0) in
  (forall r, RG a r = RG b r) /\ (forall k, SL a k = SL b k) /\ WD a = WD b.
Proof using ordP T.
  intros H. destruct (schedBlock_topo t sideF ordF sp S sched nextCycle ord width st0 ordP blk blk' H) as (l & TL & ->).
  cbv zeta. rewrite !run_rrunB. apply req_sym. exact (block_run t sideF ordF sp T blk l TL s).
Qed.
(** a scheduled function does what the function does *)
Theorem C41_schedule_same_behaviour p q : ends sideF ordF p -> schedFunc p = Some q -> rsame t p q.
Proof using ordP T. exact (schedFunc_same t sideF ordF sp S sched nextCycle ord width st0 T ordP p q). Qed.
End AnyModel.

(* ------------------------------------------------------------------ *)
(** * The machine models of RISC-V and ARM *)
Section Models.
Context {W : Type}.
Variable t : mach W.
Variables sideF ordF : nat -> bool.
Variable sp : nat.
Variable ord : list inst -> nat -> list nat -> list nat.
Hypothesis ordP : forall blk k l, Permutation (ord blk k l) l.

Definition rvBlockSched (cls : inst -> rvInst) (blk : list inst) (s : mst) (k : nat) : option mst :=
  match nth_error blk k with Some i => rvSched (cls i) s | None => None end.
Definition armBlockSched (cls : inst -> armInst) (blk : list inst) (s : mst) (k : nat) : option mst :=
  match nth_error blk k with Some i => armSched (cls i) s | None => None end.
(** RISCVScheduleModel.cpp:1250-1263, ARMScheduleModel.cpp:601-614: issue width *)
Definition rvSchedule (cls : inst -> rvInst) (p : mfunc) : option mfunc :=
  schedFunc t sideF ordF sp mst (rvBlockSched cls) tickM ord 2 mst0 p.
Definition armSchedule (cls : inst -> armInst) (p : mfunc) : option mfunc :=
  schedFunc t sideF ordF sp mst (armBlockSched cls) tickM ord 3 mst0 p.

Lemma schedFunc_some S (sched : list inst -> S -> nat -> option S) next width st0 (p : mfunc) :
  (forall blk, In blk p -> exists l, topDown S (sched blk) next (ord blk) width (deps t sideF ordF sp blk) (length blk) st0 = Done l) ->
  exists q, schedFunc t sideF ordF sp S sched next ord width st0 p = Some q.
Proof.
  induction p as [|b p IH]; intros H; cbn; [eauto|]. destruct (H b (or_introl eq_refl)) as (l & E).
  destruct IH as (q & Eq); [intros; apply H; now right|]. unfold schedBlock. rewrite E, Eq. eauto.
Qed.
Theorem C41_riscv_always_schedules cls p : (forall blk i, In blk p -> In i blk -> rvFits (cls i)) ->
  exists q, rvSchedule cls p = Some q.
Proof using ordP.
  intros F. apply schedFunc_some. intros blk Hb. destruct (deps_ok t sideF ordF sp blk) as [A B].
  apply (topDown_go mst (rvBlockSched cls blk) tickM (ord blk) 2 _ (length blk) (ordP blk) A B ltac:(lia) near).
  - intros s x s' N Hx. unfold rvBlockSched. destruct (nth_error blk x) as [i|] eqn:E; [|discriminate].
    apply rvSched_near; [|exact N]. apply (F blk); [exact Hb|]. eapply nth_error_In, E.
  - exact near_tick.
  - intros s k x N K Hx. unfold rvBlockSched. destruct (nth_error blk x) as [i|] eqn:E; [|apply nth_error_None in E; lia].
    apply rv_go; [|exact N|exact K]. apply (F blk); [exact Hb|]. eapply nth_error_In, E.
  - exact near0.
Qed.
Theorem C41_arm_always_schedules cls p : (forall blk i, In blk p -> In i blk -> armFits (cls i)) ->
  exists q, armSchedule cls p = Some q.
Proof using ordP.
  intros F. apply schedFunc_some. intros blk Hb. destruct (deps_ok t sideF ordF sp blk) as [A B].
  apply (topDown_go mst (armBlockSched cls blk) tickM (ord blk) 3 _ (length blk) (ordP blk) A B ltac:(lia) near).
  - intros s x s' N Hx. unfold armBlockSched. destruct (nth_error blk x) as [i|] eqn:E; [|discriminate].
    apply armSched_near; [|exact N]. apply (F blk); [exact Hb|]. eapply nth_error_In, E.
  - exact near_tick.
  - intros s k x N K Hx. unfold armBlockSched. destruct (nth_error blk x) as [i|] eqn:E; [|apply nth_error_None in E; lia].
    now apply arm_go.
  - exact near0.
Qed.
(** together: on RISC-V every function gets a schedule, and it does the same *)
Theorem C41_riscv_schedule cls p : schedTarget t sideF ordF -> ends sideF ordF p ->
  (forall blk i, In blk p -> In i blk -> rvFits (cls i)) ->
  exists q, rvSchedule cls p = Some q /\ rsame t p q.
Proof using ordP.
  intros T E F. destruct (C41_riscv_always_schedules cls p F) as (q & Q). exists q. split; [exact Q|].
  exact (C41_schedule_same_behaviour t sideF ordF sp mst (rvBlockSched cls) tickM ord 2 mst0 ordP T p q E Q).
Qed.
End Models.

(* ------------------------------------------------------------------ *)
(** * An example: the program of C39 after allocation, scheduled for RISC-V *)
Definition exSide (o : nat) : bool := existsb (Nat.eqb o) [1; 3; 4; 6; 7; 8; 9; 12].
Definition exOrd (o : nat) : bool := existsb (Nat.eqb o) [6; 7; 8; 9].
Example C41_target : schedTarget exT exSide exOrd.
Proof.
  split.
  - intros o H. cbn in H. apply Nat.eqb_eq in H. subst. split; reflexivity.
  - intros o l H. cbn in H. destruct (Nat.eqb_spec o 8) as [->|]; [split; reflexivity|].
    destruct (Nat.eqb_spec o 9) as [->|]; [split; reflexivity|]. now destruct H.
  - split; reflexivity.
  - split; reflexivity.
  - intros o a r w w' H. split; [|reflexivity]. do 13 (destruct o as [|o]; [first [discriminate H|reflexivity]|]). reflexivity.
Qed.
Definition num1 (r : reg) : nat := match r with Phys n => n | Virt v => 64 + v end.
Definition exCls (i : inst) : rvInst :=
  RvI (match opc i with 5 => RvMulti | 6 | 7 | 8 | 9 => RvBranch | 12 => RvLoadStore | 10 => RvSlowImm true | _ => RvInt MAB true true end)
      (map num1 (ruses exT i)) (match rdefs exT i with r :: _ => num1 r | [] => 0 end)
      (match rdefs exT i with [] => false | _ => true end).
(** a chain of two slow instructions followed by work that does not need them *)
Definition exB : mfunc :=
  [ [ mk 10 [P 8; OImm 3]; mk 5 [P 9; P 8; P 8]; mk 5 [P 9; P 9; P 8]; mk 12 [P 9]; mk 10 [P 18; OImm 7]; mk 10 [P 19; OImm 9];
      mk 5 [P 20; P 18; P 19]; mk 12 [P 20]; mk 1 [P 10; P 9]; mk 9 [] ] ].
Definition exRank (_ : list inst) (k : nat) (l : list nat) : list nat := l.
Definition exB' : mfunc :=
  [ [ mk 10 [P 8; OImm 3]; mk 10 [P 18; OImm 7]; mk 10 [P 19; OImm 9]; mk 5 [P 9; P 8; P 8]; mk 5 [P 20; P 18; P 19];
      mk 5 [P 9; P 9; P 8]; mk 12 [P 9]; mk 12 [P 20]; mk 1 [P 10; P 9]; mk 9 [] ] ].
Example C41_witness : rvSchedule exT exSide exOrd 2 exRank exCls exB = Some exB' /\ exB' <> exB /\
  ends exSide exOrd exB /\ (forall blk i, In blk exB -> In i blk -> rvFits (exCls i)) /\
  robs (rrunF exT exB 1 0 (RSt (fun _ => 0%Z) (fun _ => 0%Z) [])) = ([16; 9]%Z, None).
Proof.
  split; [|split; [|split; [|split]]].
  - vm_compute. reflexivity.
  - discriminate.
  - intros blk [<-|[]]. exists (removelast (hd [] exB)), (mk 9 []). split; reflexivity.
  - intros blk i [<-|[]] Hi. each Hi; exact Logic.I || reflexivity.
  - vm_compute. reflexivity.
Qed.
(** moving the output across the other one would be wrong *)
Example C41_order_matters : orderMatters exT exSide exOrd (mk 12 [P 9]) (mk 12 [P 20]) /\
  orderMatters exT exSide exOrd (mk 5 [P 9; P 8; P 8]) (mk 5 [P 9; P 9; P 8]).
Proof. split; [apply om_side; reflexivity|apply (om_raw _ _ _ _ _ (Phys 9)); cbn; auto]. Qed.
