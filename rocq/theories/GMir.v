(** A machine for the target-independent machine IR, used to state what the generic machine passes must preserve.
    Instructions are an opcode with operands; what an opcode means is given by the target, and the pass sees only the
    opcode's flags (cmmc/CodeGen/InstInfo.hpp:30-54) and the Def/Use/Metadata flag of each operand
    (cmmc/CodeGen/InstInfo.hpp:20-28, cmmc/Target/Generic/Generic.yml:1-135).
    The semantics is specification; it says that the flags are truthful, i.e.
    - an instruction changes only its Def operands, and a call also the physical registers;
    - memory, spill slots and control are touched only by instructions that carry a side-effect flag;
    - the result of an instruction depends only on its opcode, the types of its Def operands, its Use and Metadata
      operands and, if flagged PCRel, on the place of the instruction.
    A function is a list of blocks; a block may be left early by a branch and otherwise falls into the next block. *)
From Coq Require Import ZArith Lia Bool List Arith.
Import ListNotations.
Local Open Scope Z_scope.

(** cmmc/CodeGen/MIR.hpp:59-70 *)
Inductive reg := Phys (n : nat) | Virt (n : nat).
Definition isPhys (r : reg) : bool := match r with Phys _ => true | Virt _ => false end.
Definition isVirt (r : reg) : bool := negb (isPhys r).
Definition reg_eqb (a b : reg) : bool :=
  match a, b with Phys x, Phys y | Virt x, Virt y => Nat.eqb x y | _, _ => false end.
Lemma reg_eqb_spec a b : reflect (a = b) (reg_eqb a b).
Proof.
  destruct a, b; cbn; try (constructor; congruence);
    destruct (Nat.eqb_spec n n0); constructor; congruence.
Qed.
Lemma reg_eqb_refl a : reg_eqb a a = true.
Proof. destruct (reg_eqb_spec a a); congruence. Qed.

(** cmmc/CodeGen/MIR.hpp:136-200; equality (158-160) ignores the operand's type *)
Inductive operand := OReg (r : reg) | OImm (z : Z) | OStk (k : nat) | OLbl (b : nat).
Definition operand_eqb (a b : operand) : bool :=
  match a, b with
  | OReg x, OReg y => reg_eqb x y
  | OImm x, OImm y => Z.eqb x y
  | OStk x, OStk y | OLbl x, OLbl y => Nat.eqb x y
  | _, _ => false
  end.
Lemma operand_eqb_spec a b : reflect (a = b) (operand_eqb a b).
Proof.
  destruct a as [r|z|k|k], b as [r0|z0|k0|k0]; cbn; try (constructor; congruence).
  - destruct (reg_eqb_spec r r0); constructor; congruence.
  - destruct (Z.eqb_spec z z0); constructor; congruence.
  - destruct (Nat.eqb_spec k k0); constructor; congruence.
  - destruct (Nat.eqb_spec k k0); constructor; congruence.
Qed.

Inductive opflag := FDef | FUse | FMeta.
(** cmmc/CodeGen/InstInfo.hpp:30-54.  [other]: the remaining members of InstFlagSideEffect
    (Push, Return, WithDelaySlot, Padding, IndirectJump). *)
Record flags := Flags {
  load : bool; store : bool; term : bool; branch : bool; call : bool; loadConst : bool; regDef : bool;
  regCopy : bool; pcRel : bool; multiDef : bool; other : bool }.
Definition sideEffect (f : flags) : bool :=
  load f || store f || term f || branch f || call f || regDef f || other f.

(** an instruction; [place] identifies where it stands and is not compared by any pass *)
Record inst := Inst { opc : nat; ops : list operand; place : nat }.
Definition opcCopy := 0%nat.      (* InstCopy *)
Definition opcCopyTo := 1%nat.    (* InstCopyToReg *)
Definition opcCopyFrom := 2%nat.  (* InstCopyFromReg *)
Definition opcLdStk := 3%nat.     (* InstLoadRegFromStack *)
Definition opcStStk := 4%nat.     (* InstStoreRegToStack *)
Definition copyInst (o : nat) (d s : reg) (pl : nat) : inst := Inst o [OReg d; OReg s] pl.

Definition mem := Z -> Z.
(** what an instruction sees of an operand *)
Inductive arg := AReg (v : Z) | ATok (o : operand) | AHole.
Inductive control := Next | Goto (b : nat) | Stop.

(** The target: operand and instruction flags, the type of each register, the registers a call or a return may
    read, and the meaning of opcodes. *)
Record target := Target {
  opfl : nat -> list opflag;
  fl : nat -> flags;
  ty : reg -> nat;
  alloc : list nat;
  (* opcode, types of the definitions, place (0 unless PCRel), arguments -> value of each definition *)
  pureVal : nat -> list nat -> nat -> list arg -> nat -> Z;
  (* the same with memory: values, memory, control *)
  effVal : nat -> list nat -> list arg -> mem -> nat -> Z;
  effMem : nat -> list arg -> mem -> mem;
  effCtl : nat -> list arg -> mem -> control;
  (* calls: opcode, arguments, allocatable registers, slots, memory *)
  callReg : nat -> list arg -> list Z -> (nat -> Z) -> mem -> nat -> Z;
  callMem : nat -> list arg -> list Z -> (nat -> Z) -> mem -> mem }.

(** flags of the generic opcodes, cmmc/Target/Generic/Generic.yml:108-135 *)
Definition noFlags := Flags false false false false false false false false false false false.
Definition okTarget (t : target) : Prop :=
  opfl t opcCopy = [FDef; FUse] /\ fl t opcCopy = Flags false false false false false false false true false false false /\
  opfl t opcCopyFrom = [FDef; FUse] /\
  fl t opcCopyFrom = Flags false false false false false false false true false false false /\
  opfl t opcCopyTo = [FDef; FUse] /\
  fl t opcCopyTo = Flags false false false false false false true true false false false /\
  opfl t opcLdStk = [FDef; FMeta] /\
  fl t opcLdStk = Flags true false false false false false false false false false false /\
  opfl t opcStStk = [FUse; FMeta] /\
  fl t opcStStk = Flags false true false false false false false false false false false.

Definition call_event := (nat * list arg * list Z * (nat -> Z) * mem)%type.
Record state := State { G : reg -> Z; slot : nat -> Z; M : mem; trace : list call_event }.
Definition wr (g : reg -> Z) (r : reg) (v : Z) : reg -> Z := fun x => if reg_eqb x r then v else g x.

Section Machine.
Variable t : target.

(** the operands of an instruction paired with their flags *)
Definition flagged (i : inst) : list (opflag * operand) := combine (opfl t (opc i)) (ops i).
Definition defs (i : inst) : list reg :=
  flat_map (fun x => match x with (FDef, OReg r) => [r] | _ => [] end) (flagged i).
Definition uses (i : inst) : list reg :=
  flat_map (fun x => match x with (FUse, OReg r) => [r] | _ => [] end) (flagged i).
Definition argOf (g : reg -> Z) (x : opflag * operand) : arg :=
  match x with
  | (FDef, _) => AHole
  | (FUse, OReg r) => AReg (g r)
  | (_, o) => ATok o
  end.
Definition args (g : reg -> Z) (i : inst) : list arg := map (argOf g) (flagged i).
Definition flagsOf (i : inst) : flags := fl t (opc i).
Definition tys (i : inst) : list nat := if loadConst (flagsOf i) then [] else map (ty t) (defs i).
Definition placeOf (i : inst) : nat := if pcRel (flagsOf i) then place i else 0%nat.
Definition view (g : reg -> Z) : list Z := map (fun n => g (Phys n)) (alloc t).

(** cmmc/CodeGen/InstInfo.cpp:271-279 (the register classes are left to the passes) *)
Definition copyOf (i : inst) : option (reg * reg) :=
  if regCopy (flagsOf i) then
    match opfl t (opc i), ops i with
    | [FDef; FUse], [OReg d; OReg s] => Some (d, s)
    | _, _ => None
    end
  else None.

Fixpoint wrAll (g : reg -> Z) (ds : list reg) (f : nat -> Z) (k : nat) : reg -> Z :=
  match ds with [] => g | d :: ds' => wrAll (wr g d (f k)) ds' f (S k) end.

Definition slotOf (i : inst) : option (reg * nat) :=
  match ops i with [OReg r; OStk k] => Some (r, k) | _ => None end.

(** the two instructions that access spill slots; other memory is reached through [M] *)
Definition stkLoad (i : inst) : option (reg * nat) := if Nat.eqb (opc i) opcLdStk then slotOf i else None.
Definition stkStore (i : inst) : option (reg * nat) := if Nat.eqb (opc i) opcStStk then slotOf i else None.

(** one instruction *)
Definition exec (i : inst) (s : state) : state * control :=
  let f := flagsOf i in
  let a := args (G s) i in
  match copyOf i with
  | Some (d, x) => (State (wr (G s) d (G s x)) (slot s) (M s) (trace s), Next)
  | None =>
    if call f then
      let v := view (G s) in
      let g := fun r => match r with Phys n => callReg t (opc i) a v (slot s) (M s) n | Virt _ => G s r end in
      (State (wrAll g (defs i) (effVal t (opc i) (tys i) a (M s)) 0) (slot s)
             (callMem t (opc i) a v (slot s) (M s)) ((opc i, a, v, slot s, M s) :: trace s), Next)
    else match stkLoad i, stkStore i with
    | Some (r, k), _ => (State (wr (G s) r (slot s k)) (slot s) (M s) (trace s), Next)
    | None, Some (r, k) =>
        (State (G s) (fun j => if Nat.eqb j k then G s r else slot s j) (M s) (trace s), Next)
    | None, None =>
    if sideEffect f then
      (State (wrAll (G s) (defs i) (effVal t (opc i) (tys i) a (M s)) 0) (slot s)
             (effMem t (opc i) a (M s)) (trace s), effCtl t (opc i) a (M s))
    else
      (State (wrAll (G s) (defs i) (pureVal t (opc i) (tys i) (placeOf i) a) 0) (slot s) (M s) (trace s), Next)
    end
  end.

Fixpoint runB (b : list inst) (s : state) : state * control :=
  match b with
  | [] => (s, Next)
  | i :: b' => match exec i s with (s', Next) => runB b' s' | r => r end
  end.

(** [n] block transitions; the result is the state and the block to run next ([None]: the function returned) *)
Definition func := list (list inst).
Definition after (b : nat) (c : control) : option nat :=
  match c with Next => Some (S b) | Goto x => Some x | Stop => None end.
Fixpoint runF (p : func) (n : nat) (b : nat) (s : state) : state * option nat :=
  match n with
  | O => (s, Some b)
  | S n' =>
      match nth_error p b with
      | None => (s, None)
      | Some blk =>
          let '(s', c) := runB blk s in
          match after b c with Some b' => runF p n' b' s' | None => (s', None) end
      end
  end.
End Machine.

(** what can be observed of a run: the calls made with everything they could see, memory, the spill slots, the
    registers a caller may read, and where the execution is *)
Definition observed (t : target) (r : state * option nat) :=
  (trace (fst r), M (fst r), slot (fst r), view t (G (fst r)), snd r).
Definition sameBehaviour (t : target) (p q : func) : Prop :=
  forall n b s, observed t (runF t p n b s) = observed t (runF t q n b s).

(* ------------------------------------------------------------------ *)
(** * Agreement on a set of registers *)
Record agree (L : reg -> Prop) (s s' : state) : Prop := Agree {
  ag_G : forall r, L r -> G s r = G s' r;
  ag_slot : slot s = slot s';
  ag_M : M s = M s';
  ag_tr : trace s = trace s' }.
Definition All (r : reg) : Prop := True.

Section Facts.
Variable t : target.

Lemma wr_same g r v : wr g r v r = v.
Proof. unfold wr. now rewrite reg_eqb_refl. Qed.
Lemma wr_ne g r v x : x <> r -> wr g r v x = g x.
Proof. unfold wr. destruct (reg_eqb_spec x r); congruence. Qed.

Lemma wrAll_other ds : forall g f k r, ~ In r ds -> wrAll g ds f k r = g r.
Proof.
  induction ds as [|d ds IH]; intros g f k r H; cbn; [reflexivity|].
  rewrite IH by (intro; apply H; now right). apply wr_ne. intro; apply H; now left.
Qed.
Lemma wrAll_agree (L : reg -> Prop) ds : forall g g' f k,
  (forall r, L r -> g r = g' r) -> forall r, L r \/ In r ds -> wrAll g ds f k r = wrAll g' ds f k r.
Proof.
  induction ds as [|d ds IH]; intros g g' f k H r Hr; cbn.
  - destruct Hr as [Hr|[]]; auto.
  - assert (X : forall x, L x \/ x = d -> wr g d (f k) x = wr g' d (f k) x).
    { intros x [Hx|Hx]; unfold wr; destruct (reg_eqb_spec x d); auto. congruence. }
    destruct (in_dec (fun a b => match reg_eqb_spec a b with ReflectT _ e => left e | ReflectF _ e => right e end) r ds)
      as [I|N].
    + specialize (IH (wr g d (f k)) (wr g' d (f k)) f (S k)).
      apply IH; [|right; exact I]. intros x Hx. apply X. now left.
    + rewrite !wrAll_other by exact N. apply X. destruct Hr as [Hr|[Hr|Hr]]; auto. contradiction.
Qed.

Lemma args_agree g g' i : (forall r, In r (uses t i) -> g r = g' r) -> args t g i = args t g' i.
Proof.
  unfold args, uses. intros H. induction (flagged t i) as [|[f o] l IH]; [reflexivity|].
  cbn. f_equal.
  - destruct f; cbn; try reflexivity. destruct o; try reflexivity.
    f_equal. apply H. apply in_flat_map. exists (FUse, OReg r). split; [now left|now left].
  - apply IH. intros r Hr. apply H. cbn. apply in_or_app. now right.
Qed.

Lemma copyOf_ops i d x : copyOf t i = Some (d, x) ->
  opfl t (opc i) = [FDef; FUse] /\ ops i = [OReg d; OReg x] /\ regCopy (flagsOf t i) = true.
Proof.
  unfold copyOf. destruct (regCopy (flagsOf t i)); [|discriminate].
  destruct (opfl t (opc i)) as [|[] [|[] [|]]]; try discriminate.
  destruct (ops i) as [|[] [|[] [|]]]; try discriminate. intros E. injection E as <- <-. auto.
Qed.
Lemma copyOf_uses i d x : copyOf t i = Some (d, x) -> uses t i = [x] /\ defs t i = [d].
Proof. intros H. apply copyOf_ops in H as (F & O & _). unfold uses, defs, flagged. rewrite F, O. auto. Qed.

Hypothesis OK : okTarget t.
Definition reg_dec (a b : reg) : {a = b} + {a <> b}.
Proof. decide equality; apply Nat.eq_dec. Defined.
Lemma slot_uses i r k : stkStore i = Some (r, k) -> uses t i = [r] /\ defs t i = [] /\ ops i = [OReg r; OStk k] /\ opc i = opcStStk.
Proof using OK.
  destruct OK as (_ & _ & _ & _ & _ & _ & _ & _ & F & _). unfold stkStore, uses, defs, flagged, slotOf.
  destruct (Nat.eqb_spec (opc i) opcStStk) as [E|]; [|discriminate]. rewrite E, F.
  destruct (ops i) as [|[] [|[] [|]]]; try discriminate. intros H. injection H as <- <-. auto.
Qed.
Lemma slot_defs i r k : stkLoad i = Some (r, k) -> defs t i = [r] /\ uses t i = [] /\ ops i = [OReg r; OStk k] /\ opc i = opcLdStk.
Proof using OK.
  destruct OK as (_ & _ & _ & _ & _ & _ & F & _). unfold stkLoad, uses, defs, flagged, slotOf.
  destruct (Nat.eqb_spec (opc i) opcLdStk) as [E|]; [|discriminate]. rewrite E, F.
  destruct (ops i) as [|[] [|[] [|]]]; try discriminate. intros H. injection H as <- <-. auto.
Qed.

(** An instruction run in two states that agree on what it reads has the same effect on both *)
Lemma exec_agree (L : reg -> Prop) i s s' :
  agree L s s' -> (forall r, In r (uses t i) -> L r) ->
  (call (flagsOf t i) = true -> forall n, In n (alloc t) -> L (Phys n)) ->
  agree (fun r => L r \/ In r (defs t i) \/ (call (flagsOf t i) = true /\ copyOf t i = None /\ isPhys r = true))
        (fst (exec t i s)) (fst (exec t i s')) /\
  snd (exec t i s) = snd (exec t i s').
Proof using OK.
  intros [HG HS HM HT] HU HC.
  assert (EA : args t (G s) i = args t (G s') i) by (apply args_agree; intros; apply HG, HU; assumption).
  unfold exec. destruct (copyOf t i) as [[d x]|] eqn:Ec.
  { destruct (copyOf_uses _ _ _ Ec) as [U D]. split; [|reflexivity].
    constructor; cbn; auto. intros r Hr. rewrite D in Hr. unfold wr.
    rewrite (HG x) by (apply HU; rewrite U; now left).
    destruct (reg_eqb_spec r d); [reflexivity|]. apply HG.
    destruct Hr as [Hr|[[Hr|[]]|(_ & C & _)]]; [exact Hr|congruence|discriminate]. }
  rewrite <- EA, <- HS, <- HM, <- HT.
  destruct (call (flagsOf t i)) eqn:Ek.
  { assert (EV : view t (G s) = view t (G s')).
    { unfold view. apply map_ext_in. intros n Hn. apply HG, HC; auto. }
    rewrite <- EV. split; [|reflexivity]. constructor; cbn; auto.
    intros r Hr. apply (wrAll_agree (fun r => L r \/ isPhys r = true)).
    - intros x [Hx|Hx]; destruct x; auto. discriminate.
    - destruct Hr as [Hr|[Hr|(_ & _ & Hr)]]; auto. }
  assert (X : forall r, L r \/ In r (defs t i) \/ (false = true /\ None = None :> option (reg * reg) /\ isPhys r = true) ->
                        L r \/ In r (defs t i)) by (intros r [?|[?|(X & _)]]; [auto|auto|discriminate]).
  destruct (stkLoad i) as [[r k]|] eqn:El.
  { destruct (slot_defs _ _ _ El) as (D & _). split; [|reflexivity]. constructor; cbn; auto. intros x Hx.
    apply X in Hx. rewrite D in Hx. unfold wr. destruct (reg_eqb_spec x r); [reflexivity|].
    apply HG. destruct Hx as [Hx|[Hx|[]]]; [exact Hx|congruence]. }
  destruct (stkStore i) as [[r k]|] eqn:Es.
  { destruct (slot_uses _ _ _ Es) as (U & D & _). split; [|reflexivity]. constructor; cbn; auto.
    - intros x Hx. apply X in Hx. rewrite D in Hx. apply HG. destruct Hx as [Hx|[]]; exact Hx.
    - rewrite (HG r) by (apply HU; rewrite U; now left). reflexivity. }
  destruct (sideEffect (flagsOf t i)); (split; [|reflexivity]); constructor; cbn; auto;
    intros x Hx; apply (wrAll_agree L); auto.
Qed.

(** outside its definitions an instruction other than a call leaves the registers alone *)
Lemma exec_other i s r :
  ~ In r (defs t i) -> call (flagsOf t i) = false \/ isPhys r = false \/ copyOf t i <> None ->
  G (fst (exec t i s)) r = G s r.
Proof using OK.
  intros N H. unfold exec. destruct (copyOf t i) as [[d x]|] eqn:Ec.
  { destruct (copyOf_uses _ _ _ Ec) as [U D]. rewrite D in N. cbn. apply wr_ne. intro; apply N; now left. }
  destruct (call (flagsOf t i)) eqn:Ek.
  { cbn. rewrite wrAll_other by exact N. destruct H as [H|[H|H]]; [discriminate| |congruence].
    destruct r; [discriminate|reflexivity]. }
  destruct (stkLoad i) as [[y k]|] eqn:El.
  { destruct (slot_defs _ _ _ El) as (D & _). rewrite D in N. cbn. apply wr_ne. intro; apply N; now left. }
  destruct (stkStore i) as [[y k]|] eqn:Es; [reflexivity|].
  destruct (sideEffect (flagsOf t i)); cbn; apply wrAll_other; exact N.
Qed.

(** an instruction without side effects *)
Lemma exec_pure i s : sideEffect (flagsOf t i) = false -> copyOf t i = None ->
  exec t i s = (State (wrAll (G s) (defs t i) (pureVal t (opc i) (tys t i) (placeOf t i) (args t (G s) i)) 0)
                      (slot s) (M s) (trace s), Next).
Proof using OK.
  intros H Ec. unfold exec. rewrite Ec, H.
  assert (call (flagsOf t i) = false) as ->.
  { unfold sideEffect in H. repeat (apply orb_false_elim in H as [H ?]). assumption. }
  assert (stkLoad i = None) as ->.
  { unfold stkLoad. destruct (Nat.eqb_spec (opc i) opcLdStk) as [E|]; [|reflexivity].
    destruct OK as (_ & _ & _ & _ & _ & _ & _ & F & _). unfold flagsOf in H. rewrite E, F in H. discriminate. }
  assert (stkStore i = None) as ->.
  { unfold stkStore. destruct (Nat.eqb_spec (opc i) opcStStk) as [E|]; [|reflexivity].
    destruct OK as (_ & _ & _ & _ & _ & _ & _ & _ & _ & F). unfold flagsOf in H. rewrite E, F in H. discriminate. }
  reflexivity.
Qed.
Lemma exec_nonSE i s : sideEffect (flagsOf t i) = false ->
  snd (exec t i s) = Next /\ slot (fst (exec t i s)) = slot s /\ M (fst (exec t i s)) = M s /\
  trace (fst (exec t i s)) = trace s.
Proof using OK.
  intros H. destruct (copyOf t i) as [[d x]|] eqn:Ec.
  - unfold exec. rewrite Ec. cbn. auto.
  - rewrite exec_pure by assumption. cbn. auto.
Qed.
Lemma exec_copy i d x s : copyOf t i = Some (d, x) ->
  exec t i s = (State (wr (G s) d (G s x)) (slot s) (M s) (trace s), Next).
Proof. intros H. unfold exec. now rewrite H. Qed.

(** * Block-wise simulation *)
Lemma agree_refl L s : agree L s s.
Proof. constructor; reflexivity. Qed.
Lemma agree_weaken (L L' : reg -> Prop) s s' : (forall r, L' r -> L r) -> agree L s s' -> agree L' s s'.
Proof. intros H [A B C D]. constructor; auto. Qed.

(** If corresponding blocks take agreeing states to agreeing states and leave by the same exit then so do whole runs *)
Lemma runF_agree (L : reg -> Prop) p q :
  length p = length q ->
  (forall k b b', nth_error p k = Some b -> nth_error q k = Some b' ->
     forall s s', agree L s s' -> agree L (fst (runB t b s)) (fst (runB t b' s')) /\ snd (runB t b s) = snd (runB t b' s')) ->
  forall n b s s', agree L s s' ->
    agree L (fst (runF t p n b s)) (fst (runF t q n b s')) /\ snd (runF t p n b s) = snd (runF t q n b s').
Proof.
  clear OK. intros EL H n. induction n as [|n IH]; intros b s s' A; cbn [runF]; [auto|].
  destruct (nth_error p b) as [x|] eqn:E1.
  - destruct (nth_error q b) as [y|] eqn:E2.
    + specialize (H _ _ _ E1 E2 _ _ A). destruct (runB t x s) as [s1 c], (runB t y s') as [s2 c2].
      cbn in H. destruct H as [H <-]. destruct (after b c); auto.
    + exfalso. apply nth_error_None in E2. assert (b < length p)%nat by (apply nth_error_Some; congruence). lia.
  - destruct (nth_error q b) as [y|] eqn:E2; [|auto].
    exfalso. apply nth_error_None in E1. assert (b < length q)%nat by (apply nth_error_Some; congruence). lia.
Qed.
Lemma agree_observed (L : reg -> Prop) r r' :
  (forall n, In n (alloc t) -> L (Phys n)) -> agree L (fst r) (fst r') -> snd r = snd r' -> observed t r = observed t r'.
Proof.
  clear OK. intros H [A B C D] E. unfold observed. rewrite B, C, D, E.
  assert (view t (G (fst r)) = view t (G (fst r'))) as ->; [|reflexivity].
  unfold view. apply map_ext_in. auto.
Qed.
(** for a pass that works block by block *)
Lemma local_same (L : reg -> Prop) (f : list inst -> list inst) p :
  (forall n, In n (alloc t) -> L (Phys n)) ->
  (forall b, In b p -> forall s s', agree L s s' ->
     agree L (fst (runB t b s)) (fst (runB t (f b) s')) /\ snd (runB t b s) = snd (runB t (f b) s')) ->
  sameBehaviour t p (map f p).
Proof.
  clear OK. intros HA H n b s.
  destruct (runF_agree L p (map f p)) with (n := n) (b := b) (s := s) (s' := s) as [X Y].
  - now rewrite map_length.
  - intros k x y E1 E2. rewrite nth_error_map, E1 in E2. injection E2 as <-.
    apply H. eapply nth_error_In; eassumption.
  - apply agree_refl.
  - apply (agree_observed L); auto.
Qed.
End Facts.
