(** A machine for the code the register allocator works on: machine IR with virtual and physical registers, calls that
    change physical registers, and spill slots.  It reuses registers, operands and operand flags of [GMir].
    The semantics is specification.  It says that the operand flags and the flags a call carries are truthful:
    - an instruction reads its Use operands and the physical registers [rd] (the argument registers of a call, the
      result registers of a return) and changes its Def operands and the physical registers [clob] of a call;
    - only the last instruction of a block transfers control, and only in the way its kind allows;
    - spill slots are reached by InstLoadRegFromStack and InstStoreRegToStack only; everything else an instruction may
      depend on or change (memory, output, ...) is the world [W].
    What is observed of a run is the world and the block to be run next. *)
From Coq Require Import ZArith Lia Bool List Arith.
From Verif Require Import GMir.
Import ListNotations.

(** what calcCFG distinguishes (cmmc/CodeGen/MIRCFGAnalysis.cpp:50-77): an unconditional branch, a conditional branch
    that falls through, a jump through a table, and instructions that are none of these ([TStop]: return, unreachable) *)
Inductive tkind := TNone | TJump (b : nat) | TBranch (b : nat) | TTable (bs : list nat) | TStop.

(** the operands without their registers: what the kind and the implicit registers of an instruction may depend on *)
Definition blank (o : operand) : operand := match o with OReg _ => OImm 0 | _ => o end.

Record mach (W : Type) := Mach {
  ofl : nat -> list opflag;               (* cmmc/CodeGen/InstInfo.hpp:20-28 *)
  callF : nat -> bool;                    (* InstFlagCall *)
  constF : nat -> bool;                   (* InstFlagLoadConstant *)
  tko : nat -> list operand -> tkind;     (* matchBranch, NoFallthrough, IndirectJump *)
  rdo : nat -> list operand -> list nat;  (* physical registers read although they are not operands *)
  clo : nat -> list operand -> list nat;  (* physical registers a call changes *)
  outDef : nat -> list arg -> list Z -> W -> nat -> Z;   (* value of the k-th Def operand *)
  outClob : nat -> list arg -> list Z -> W -> nat -> Z;  (* value of a physical register after a call *)
  outW : nat -> list arg -> list Z -> W -> W;
  outDec : nat -> list arg -> list Z -> W -> nat         (* which way a terminator goes *) }.
Arguments ofl {W}. Arguments callF {W}. Arguments constF {W}. Arguments tko {W}. Arguments rdo {W}. Arguments clo {W}.
Arguments outDef {W}. Arguments outClob {W}. Arguments outW {W}. Arguments outDec {W}.

Record rst (W : Type) := RSt { RG : reg -> Z; SL : nat -> Z; WD : W }.
Arguments RSt {W}. Arguments RG {W}. Arguments SL {W}. Arguments WD {W}.

Definition mfunc := list (list inst).

Section Machine.
Context {W : Type}.
Variable t : mach W.

Definition kindOf (i : inst) : tkind := tko t (opc i) (map blank (ops i)).
Definition rd (i : inst) : list nat := rdo t (opc i) (map blank (ops i)).
Definition clob (i : inst) : list nat := if callF t (opc i) then clo t (opc i) (map blank (ops i)) else [].

(** operands with their flags *)
Definition fops (i : inst) : list (opflag * operand) := combine (ofl t (opc i)) (ops i).
Definition rdefs (i : inst) : list reg :=
  flat_map (fun x => match x with (FDef, OReg r) => [r] | _ => [] end) (fops i).
Definition ruses (i : inst) : list reg :=
  flat_map (fun x => match x with (FUse, OReg r) => [r] | _ => [] end) (fops i).
Definition rargs (g : reg -> Z) (i : inst) : list arg := map (argOf g) (fops i).

Definition clobber (g : reg -> Z) (l : list nat) (f : nat -> Z) : reg -> Z :=
  fun r => match r with Phys n => if existsb (Nat.eqb n) l then f n else g r | Virt _ => g r end.

(** one instruction: the state after it and the decision it takes if it ends a block *)
Definition rexec (i : inst) (s : rst W) : rst W * nat :=
  let a := rargs (RG s) i in
  let r := map (fun n => RG s (Phys n)) (rd i) in
  match stkLoad i, stkStore i with
  | Some (x, k), _ => (RSt (wr (RG s) x (SL s k)) (SL s) (WD s), 0)
  | None, Some (x, k) => (RSt (RG s) (fun j => if Nat.eqb j k then RG s x else SL s j) (WD s), 0)
  | None, None =>
      (RSt (wrAll (clobber (RG s) (clob i) (outClob t (opc i) a r (WD s))) (rdefs i) (outDef t (opc i) a r (WD s)) 0)
           (SL s) (outW t (opc i) a r (WD s)),
       outDec t (opc i) a r (WD s))
  end.

Fixpoint rrunB (blk : list inst) (s : rst W) (d : nat) : rst W * nat :=
  match blk with
  | [] => (s, d)
  | i :: r => let '(s', d') := rexec i s in rrunB r s' d'
  end.

Definition lastKind (blk : list inst) : tkind :=
  match rev blk with [] => TNone | i :: _ => kindOf i end.
Definition rnext (b : nat) (k : tkind) (d : nat) : option nat :=
  match k with
  | TJump x => Some x
  | TBranch x => if Nat.eqb d 0 then Some (S b) else Some x
  | TTable bs => nth_error bs d
  | TNone | TStop => None
  end.

(** [n] block transitions from the start of block [b]; [None]: the function has been left *)
Fixpoint rrunF (p : mfunc) (n : nat) (b : nat) (s : rst W) : rst W * option nat :=
  match n with
  | O => (s, Some b)
  | S n' =>
      match nth_error p b with
      | None => (s, None)
      | Some blk =>
          let '(s', d) := rrunB blk s 0 in
          match rnext b (lastKind blk) d with
          | Some b' => rrunF p n' b' s'
          | None => (s', None)
          end
      end
  end.
Definition robs (r : rst W * option nat) : W * option nat := (WD (fst r), snd r).

(** the program [q] does what [p] does, whatever the registers, the slots and the world hold at the start *)
Definition rsame (p q : mfunc) : Prop :=
  forall n s, robs (rrunF p n 0 s) = robs (rrunF q n 0 s).

(** cmmc/CodeGen/MIRCFGAnalysis.cpp:33-80 calcCFG (probabilities are left out).  The two edges of a conditional branch
    to the next block are one edge. *)
Definition succs (p : mfunc) (b : nat) : list nat :=
  match nth_error p b with
  | None => []
  | Some blk =>
      match lastKind blk with
      | TJump x => [x]
      | TBranch x => if Nat.ltb (S b) (length p) then (if Nat.eqb x (S b) then [x] else [x; S b]) else [x]
      | TTable bs => bs
      | TNone | TStop => []
      end
  end.

Definition virtOf (r : reg) : list nat := match r with Virt v => [v] | Phys _ => [] end.
Definition physOf (r : reg) : list nat := match r with Phys n => [n] | Virt _ => [] end.
Definition vdefs (i : inst) : list nat := flat_map virtOf (rdefs i).
Definition vuses (i : inst) : list nat := flat_map virtOf (ruses i).
Definition pdefs (i : inst) : list nat := flat_map physOf (rdefs i).
Definition puses (i : inst) : list nat := flat_map physOf (ruses i).

Lemma in_vdefs i v : In v (vdefs i) <-> In (Virt v) (rdefs i).
Proof.
  unfold vdefs. rewrite in_flat_map. split.
  - intros (r & H & H1). destruct r; cbn in H1; [tauto|]. destruct H1 as [<-|[]]. exact H.
  - intros H. exists (Virt v). split; [exact H|now left].
Qed.
Lemma in_vuses i v : In v (vuses i) <-> In (Virt v) (ruses i).
Proof.
  unfold vuses. rewrite in_flat_map. split.
  - intros (r & H & H1). destruct r; cbn in H1; [tauto|]. destruct H1 as [<-|[]]. exact H.
  - intros H. exists (Virt v). split; [exact H|now left].
Qed.
Lemma in_pdefs i v : In v (pdefs i) <-> In (Phys v) (rdefs i).
Proof.
  unfold pdefs. rewrite in_flat_map. split.
  - intros (r & H & H1). destruct r; cbn in H1; [|tauto]. destruct H1 as [<-|[]]. exact H.
  - intros H. exists (Phys v). split; [exact H|now left].
Qed.
Lemma in_puses i v : In v (puses i) <-> In (Phys v) (ruses i).
Proof.
  unfold puses. rewrite in_flat_map. split.
  - intros (r & H & H1). destruct r; cbn in H1; [|tauto]. destruct H1 as [<-|[]]. exact H.
  - intros H. exists (Phys v). split; [exact H|now left].
Qed.

(** every transition of the machine is along an edge of calcCFG, or leaves the function *)
Lemma rnext_succs p b blk d x : nth_error p b = Some blk -> rnext b (lastKind blk) d = Some x ->
  x < length p -> In x (succs p b).
Proof.
  unfold succs. intros E H L. rewrite E. destruct (lastKind blk) as [|y|y|bs|]; unfold rnext in H; try discriminate.
  - injection H as <-. now left.
  - destruct (Nat.eqb_spec d 0) as [D|D].
    + injection H as <-. destruct (Nat.ltb_spec (S b) (length p)); [|lia].
      destruct (Nat.eqb_spec y (S b)) as [->|]; cbn; auto.
    + injection H as <-. destruct (Nat.ltb (S b) (length p)); [|now left].
      destruct (Nat.eqb y (S b)); now left.
  - now apply nth_error_In in H.
Qed.
End Machine.

(** A virtual register [v] is live before the [j]-th instruction of block [b] (after the last one if [j] is the length
    of the block): some path from there reaches an instruction that uses [v] without passing one that defines it.
    Specification. *)
Inductive liveAt {W} (t : mach W) (p : mfunc) : nat -> nat -> nat -> Prop :=
| live_use b blk j i v : nth_error p b = Some blk -> nth_error blk j = Some i ->
    In v (vuses t i) -> liveAt t p b j v
| live_pass b blk j i v : nth_error p b = Some blk -> nth_error blk j = Some i ->
    ~ In v (vdefs t i) -> liveAt t p b (S j) v -> liveAt t p b j v
| live_edge b blk s v : nth_error p b = Some blk -> In s (succs t p b) ->
    liveAt t p s 0 v -> liveAt t p b (length blk) v.
