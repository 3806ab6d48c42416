(** A small RV64 machine over the compiler's machine instructions, used to state what the RISC-V peephole
    passes must preserve.  The instruction set is the subset those passes inspect
    (cmmc/Target/RISCV/RISCV.yml:1-400, opcode names kept) plus one opaque instruction [Ext] standing for calls and
    everything else.  The meaning is the ISA's, i.e. specification. *)
From Coq Require Import ZArith Lia Bool ZifyBool List Arith.
From Verif Require Import Word Rv64.
Import ListNotations.
Local Open Scope Z_scope.

Inductive op2 := ADD | SUB | MUL | ADDW | SUBW | MULW | DIVW | DIVUW | REMW | REMUW | SLLW | SRAW | SRLW
  | AND | OR | XOR | SLT | SLTU | SH1ADD | SH2ADD | SH3ADD | ADD_UW.
Inductive opi := ADDI | ADDIW | ANDI | ORI | XORI | SLTI | SLTIU | SLLI | SRLI | SRAI | SLLIW | SRLIW | SRAIW.
Inductive op1 := MoveGPR | SEXT_W | ZEXT_W | FCVT_S_W.
Inductive ldop := LB | LH | LW | LBU | LHU | LWU | LD.
Inductive stop := SB | SH | SW | SD.
Inductive brop := BEQ | BNE | BLT | BLE | BGT | BGE | BLTU | BLEU | BGTU | BGEU.

Definition reg := nat.
(** [X0] *)
Definition zero : reg := 0%nat.

Inductive instr :=
| I2 (o : op2) (d a b : reg)
| II (o : opi) (d a : reg) (imm : Z)
| I1 (o : op1) (d a : reg)
| LoadImm (d : reg) (v : Z)                        (* LoadImm12 / LoadImm32 / LoadImm64 *)
| Ld (o : ldop) (d : reg) (off : Z) (base : reg)
| St (o : stop) (v : reg) (off : Z) (base : reg)
| Br (o : brop) (a b : reg) (target : nat)
| Jmp (target : nat)
| Ext (id : nat) (d : option reg) (uses : list reg) (* calls and all other instructions *)
| Nop.

Definition regs := reg -> Z.
Definition mem := Z -> Z.
Definition rd (r : regs) (x : reg) : Z := if Nat.eqb x zero then 0 else r x.
Definition wr (r : regs) (x : reg) (v : Z) : regs :=
  if Nat.eqb x zero then r else fun y => if Nat.eqb y x then v else r y.

Definition ev2 (o : op2) (a b : Z) : Z :=
  match o with
  | ADD => Rv.ADD a b | SUB => Rv.SUB a b | MUL => Rv.MUL a b
  | ADDW => Rv.ADDW a b | SUBW => Rv.SUBW a b | MULW => Rv.MULW a b
  | DIVW => Rv.DIVW a b | DIVUW => Rv.DIVUW a b | REMW => Rv.REMW a b | REMUW => Rv.REMUW a b
  | SLLW => Rv.SLLW a b | SRAW => Rv.SRAW a b | SRLW => Rv.SRLW a b
  | AND => Rv.AND a b | OR => Rv.OR a b | XOR => Rv.XOR a b
  | SLT => Rv.SLT a b | SLTU => Rv.SLTU a b
  | SH1ADD => Rv.SH_ADD 1 a b | SH2ADD => Rv.SH_ADD 2 a b | SH3ADD => Rv.SH_ADD 3 a b
  | ADD_UW => u64 (u32 a + b)
  end.
Definition evi (o : opi) (a i : Z) : Z :=
  match o with
  | ADDI => Rv.ADDI a i | ADDIW => Rv.ADDIW a i | ANDI => Rv.ANDI a i | ORI => Rv.ORI a i | XORI => Rv.XORI a i
  | SLTI => Rv.SLTI a i | SLTIU => Rv.SLTIU a i
  | SLLI => Rv.SLLI a i | SRLI => Rv.SRLI a i | SRAI => Rv.SRAI a i
  | SLLIW => Rv.SLLIW a i | SRLIW => Rv.SRLIW a i | SRAIW => Rv.SRAIW a i
  end.
(** shift amounts fit the encoding *)
Definition shiftOk (o : opi) (i : Z) : Prop :=
  match o with
  | SLLI | SRLI | SRAI => 0 <= i < 64
  | SLLIW | SRLIW | SRAIW => 0 <= i < 32
  | _ => -2048 <= i < 2048
  end.
Definition evBr (o : brop) (a b : Z) : bool :=
  match o with
  | BEQ => a =? b | BNE => negb (a =? b)
  | BLT => s64 a <? s64 b | BLE => s64 a <=? s64 b | BGT => s64 b <? s64 a | BGE => s64 b <=? s64 a
  | BLTU => a <? b | BLEU => a <=? b | BGTU => b <? a | BGEU => b <=? a
  end.

(** little-endian bytes; addresses are 64-bit *)
Fixpoint ldBytes (n : nat) (m : mem) (a : Z) : Z :=
  match n with O => 0 | S k => m (u64 a) mod 256 + 256 * ldBytes k m (a + 1) end.
Fixpoint stBytes (n : nat) (m : mem) (a v : Z) : mem :=
  match n with
  | O => m
  | S k => stBytes k (fun x => if x =? u64 a then v mod 256 else m x) (a + 1) (v / 256)
  end.
Definition evLd (o : ldop) (m : mem) (a : Z) : Z :=
  match o with
  | LB => u64 (sgn 8 (ldBytes 1 m a)) | LH => u64 (sgn 16 (ldBytes 2 m a)) | LW => Rv.w (ldBytes 4 m a)
  | LBU => ldBytes 1 m a | LHU => ldBytes 2 m a | LWU => ldBytes 4 m a | LD => ldBytes 8 m a
  end.
Definition stSize (o : stop) : nat := match o with SB => 1 | SH => 2 | SW => 4 | SD => 8 end%nat.

(** one instruction: the environment [ext] answers opaque instructions, [fcvt] is int-to-float conversion *)
Record env := Env { ext : nat -> list Z -> mem -> Z * mem; fcvt : Z -> Z }.
Definition ev1 (e : env) (o : op1) (a : Z) : Z :=
  match o with MoveGPR => a | SEXT_W => Rv.SEXT_W a | ZEXT_W => Rv.ZEXT_W a | FCVT_S_W => u64 (fcvt e (s32 a)) end.

(** what the outside sees: the opaque instructions executed, with their arguments and the memory they saw *)
Definition event := (nat * list Z)%type.
Record state := St_ { pc : nat; R : regs; Mm : mem; tr : list (event * mem) }.
Definition exec1 (e : env) (i : instr) (s : state) : state :=
  let k := S (pc s) in
  match i with
  | I2 o d a b => St_ k (wr (R s) d (ev2 o (rd (R s) a) (rd (R s) b))) (Mm s) (tr s)
  | II o d a c => St_ k (wr (R s) d (evi o (rd (R s) a) c)) (Mm s) (tr s)
  | I1 o d a => St_ k (wr (R s) d (ev1 e o (rd (R s) a))) (Mm s) (tr s)
  | LoadImm d v => St_ k (wr (R s) d (u64 v)) (Mm s) (tr s)
  | Ld o d off b => St_ k (wr (R s) d (evLd o (Mm s) (rd (R s) b + off))) (Mm s) (tr s)
  | St o v off b => St_ k (R s) (stBytes (stSize o) (Mm s) (rd (R s) b + off) (rd (R s) v)) (tr s)
  | Br o a b t => St_ (if evBr o (rd (R s) a) (rd (R s) b) then t else k) (R s) (Mm s) (tr s)
  | Jmp t => St_ t (R s) (Mm s) (tr s)
  | Ext id d us =>
      let args := map (rd (R s)) us in
      let '(v, m) := ext e id args (Mm s) in
      St_ k (match d with Some d => wr (R s) d (u64 v) | None => R s end) m (((id, args), Mm s) :: tr s)
  | Nop => St_ k (R s) (Mm s) (tr s)
  end.
Definition prog := list instr.
Definition step (e : env) (p : prog) (s : state) : option state :=
  match nth_error p (pc s) with Some i => Some (exec1 e i s) | None => None end.
Fixpoint steps (e : env) (p : prog) (n : nat) (s : state) : option state :=
  match n with O => Some s | S k => match step e p s with Some s' => steps e p k s' | None => None end end.

(** defined register and used registers, as the Def/Use operand flags say *)
Definition dst (i : instr) : option reg :=
  match i with
  | I2 _ d _ _ | II _ d _ _ | I1 _ d _ | LoadImm d _ | Ld _ d _ _ => Some d
  | Ext _ d _ => d
  | _ => None
  end.
Definition uses (i : instr) : list reg :=
  match i with
  | I2 _ _ a b => [a; b] | II _ _ a _ => [a] | I1 _ _ a => [a] | Ld _ _ _ b => [b]
  | St _ v _ b => [v; b] | Br _ a b _ => [a; b] | Ext _ _ us => us
  | _ => []
  end.

(** every register holds a 64-bit pattern *)
Definition wfR (r : regs) : Prop := forall x, 0 <= r x < 18446744073709551616.
Lemma wfR_wr r d v : wfR r -> 0 <= v < 18446744073709551616 -> wfR (wr r d v).
Proof. intros H Hv x. unfold wr. destruct (Nat.eqb d zero); [apply H|]. destruct (Nat.eqb x d); [exact Hv|apply H]. Qed.
Lemma rd_range r x : wfR r -> 0 <= rd r x < 18446744073709551616.
Proof. intros H. unfold rd. destruct (Nat.eqb x zero); [lia|apply H]. Qed.
Lemma rd_wr r d v x : rd (wr r d v) x = if Nat.eqb x zero then 0 else if Nat.eqb x d then v else rd r x.
Proof.
  unfold rd, wr. destruct (Nat.eqb x zero) eqn:E; [reflexivity|].
  destruct (Nat.eqb d zero) eqn:D.
  - destruct (Nat.eqb x d) eqn:X; [|reflexivity]. apply Nat.eqb_eq in X. subst. congruence.
  - reflexivity.
Qed.
