(** Pre-allocation legalization of RISC-V code: the expansion of conditional moves into branches and of constants into
    instruction sequences.  cmmc/CodeGen/ISelInfo.cpp:336-364 preRALegalizeFunc and
    cmmc/Target/RISCV/RISCVISelInfo.cpp:796-973 emitImm, preRALegalizeInst.  Property C43.

    Instructions and their meaning are those of Isel.v.  Left out: Select_FPR_GPR, block probabilities (a hint for the
    layout), the peephole passes that follow (C30-C32). *)
From Coq Require Import ZArith List Bool Lia PeanoNat ZifyBool.
From Verif Require Import Word Rv64 CmpModel DivConst Sim Isel IselSem IselStep.
Import ListNotations.
Local Open Scope Z_scope.

(** a machine function: labelled blocks in layout order; a block that ends without a jump falls through to the next
    one.  [PT]: any other terminator (return, tail call, indirect jump) with its possible targets *)
Inductive pin := PI (i : inst) | PJ (k : nat) | PT (t : nat) (us : list opnd) (ls : list nat).
Notation blk := (nat * list pin)%type.

Section Mach.
Context {W : Type}.
Variable opq : nat -> list Z -> W -> W * (reg -> Z).
(** which target a terminator takes; None: the function is left *)
Variable term : nat -> list Z -> W -> option nat.
Fixpoint goto (k : nat) (f : list blk) : option (list pin * list blk) :=
  match f with [] => None | (j, c) :: q => if Nat.eqb j k then Some (c, q) else goto k q end.
(** what is left of the current block, the blocks laid out after it, and the machine *)
Notation pst := (list pin * list blk * st W)%type.
Notation res := (sres pst W (nat * list Z * W)).
Definition jump (f : list blk) (k : nat) (s : st W) : res :=
  match goto k f with Some (c, q) => Go (c, q, s) [] | None => Bad [] end.
(** one instruction; every opaque instruction shows the world it leaves *)
Definition pstep (f : list blk) (x : pst) : res :=
  let '(c, rest, s) := x in
  match c with
  | [] => match rest with [] => Bad [] | (_, c') :: q => Go (c', q, s) [] end
  | PJ k :: _ => jump f k s
  | PT t us ls :: _ =>
    match term t (map (rd s) us) (Wd s) with
    | None => Fin (t, map (rd s) us, Wd s) []
    | Some j => match nth_error ls j with Some k => jump f k s | None => Bad [] end
    end
  | PI (BrR cc l r k) :: q => if cmpV cc (rd s l) (rd s r) then jump f k s else Go (q, rest, s) []
  | PI (Brn _ _) :: _ => Bad []
  | PI i :: q =>
    match exec1 opq i s with
    | Some s' => Go (q, rest, s') (match i with Opq _ _ _ => [Wd s'] | _ => [] end)
    | None => Bad []
    end
  end.
Definition start (f : list blk) (s : st W) : pst := ([], f, s).
End Mach.

(* ------------------------------------------------------------------ *)
(** * Constants, RISCVISelInfo.cpp:900-973 *)
(** __builtin_ctzll of a non-zero number *)
Fixpoint ctzP (p : positive) : Z := match p with xO q => 1 + ctzP q | _ => 0 end.
Definition ctz (z : Z) : Z := match z with Z0 => 64 | Zpos p | Zneg p => ctzP p end.
(** 926-932: the low 12 bits as a signed number; the upper 20 bits of the rest.  [val32 - lo] is a 32-bit subtraction,
    which for values above 0x7ffff7ff overflows; the model wraps it as the compiled program does *)
Definition lo12 (v : Z) : Z := let l := Z.land v 4095 in if 2047 <? l then l - 4096 else l.
Definition hi20 (v : Z) : Z := Z.land (s32 (v - lo12 v) / 4096) 1048575.
Definition legLi (n : nat) (d : reg) (z : Z) : nat * list inst :=
  if imm12 z then (n, [Li LoadImm12 d z]) else
  if imm12 (z / 2 ^ ctz z) then                                                         (* imm12 << shift *)
    let b := Rg n I32 in (S n, [Li LoadImm12 b (z / 2 ^ ctz z); RI SLLI d (OR b) (ctz z)])
  else if (-2147483648 <=? z) && (z <? 2147483648) then                                 (* lui + addiw *)
    if lo12 z =? 0 then (n, [Li LUI d (hi20 z)])
    else let b := Rg n I32 in (S n, [Li LUI b (hi20 z); RI ADDIW d (OR b) (lo12 z)])
  else if (0 <=? z) && (z <? 4294967296) then                                           (* lui + addiw + zext.w *)
    let v := s32 z in
    let x := Rg n I32 in
    if lo12 v =? 0 then (S n, [Li LUI x (hi20 v); R1 ZEXT_W d (OR x)])
    else let b := Rg (S n) I32 in (S (S n), [Li LUI b (hi20 v); RI ADDIW x (OR b) (lo12 v); R1 ZEXT_W d (OR x)])
  else                                                                                  (* imm12 << 32 + imm12 *)
    let hi := z / 4294967296 in
    let lo := z - hi * 4294967296 in
    if imm12 hi && imm12 lo then
      let b := Rg n I64 in
      let x := Rg (S n) I64 in
      (S (S n), [Li LoadImm12 b hi; RI SLLI x (OR b) 32; RI ADDI d (OR x) lo])
    else (n, [Li LoadImm64 d z]).        (* LoadImm64Complex: left to the assembler's li, same meaning *)
(** instructions flagged LegalizePreRA that stay in their block *)
Definition leg1 (n : nat) (i : inst) : nat * list inst :=
  match i with Li LoadImm32 d z | Li LoadImm64 d z => legLi n d z | _ => (n, [i]) end.

(** * Selects, 796-899 *)
(** selectOperandNonZeroHigh20Bits and the classes of immediates are those of Isel.v *)
Definition moveTo (d : reg) (o : opnd) : option inst :=
  match o with
  | OR _ => Some (R1 MoveGPR d o)
  | OI z t =>                                                                           (* emitImm *)
    if z =? 0 then Some (R1 MoveGPR d (OR (X0 t)))
    else if imm12 z then Some (Li LoadImm12 d z)
    else match high20 z with
         | Some v => Some (Li LUI d v)
         | None => if imm32 z then Some (Li LoadImm32 d z) else None                    (* reportUnreachable *)
         end
  end.
Definition arInst (o : arith) (d : reg) (a b : opnd) : option inst :=
  match o, b with
  | ARR o, _ => Some (RR o d a b)
  | ARI o, OI z _ => Some (RI o d a z)
  | ARI _, OR _ => None
  end.
(** [lhs == rs1 && !isZero(lhs) ? dst : lhs] *)
Definition viaDst (d : reg) (a l : opnd) : opnd := if opnd_eqb l a && negb (isZero l) then OR d else l.
(** the rest of a block from one instruction on: what stays in the current block, and the blocks laid out behind it.
    The loop of preRALegalizeFunc also visits the instructions and blocks just inserted *)
Fixpoint legC (c : list pin) (n : nat) : option (list pin * list blk * nat) :=
  match c with
  | [] => Some ([], [], n)
  | PI (SelG cc d a b l r) :: q =>
    match moveTo d a, moveTo d b with
    | Some ma, Some mb =>
      let '(n1, la) := leg1 (S (S n)) ma in
      let '(n2, lb) := leg1 n1 mb in
      match legC q n2 with
      | Some (c', bs, n3) =>
        Some (PI (R1 MoveGPR d (OR d)) :: map PI la ++ [PI (BrR cc l r (S n))],
              (n, map PI lb ++ [PJ (S n)]) :: (S n, c') :: bs, n3)
      | None => None
      end
    | _, _ => None
    end
  | PI (SelA o cc d a b l r) :: q =>
    match arInst o d (OR d) b with
    | Some i =>
      match legC q (S (S n)) with
      | Some (c', bs, n3) =>
        Some ([PI (R1 MoveGPR d (OR d)); PI (R1 MoveGPR d a); PI (BrR (invI cc) (viaDst d a l) (viaDst d a r) (S n))],
              (n, [PI i; PJ (S n)]) :: (S n, c') :: bs, n3)
      | None => None
      end
    | None => None
    end
  | PI i :: q =>
    let '(n1, l) := leg1 n i in
    match legC q n1 with Some (c', bs, n2) => Some (map PI l ++ c', bs, n2) | None => None end
  | x :: q => match legC q n with Some (c', bs, n2) => Some (x :: c', bs, n2) | None => None end
  end.
Fixpoint legF (f : list blk) (n : nat) : option (list blk * nat) :=
  match f with
  | [] => Some ([], n)
  | (k, c) :: q =>
    match legC c n with
    | Some (c', bs, n1) => match legF q n1 with Some (g, n2) => Some ((k, c') :: bs ++ g, n2) | None => None end
    | None => None
    end
  end.
