(** RISC-V instruction selection for integers: the generic machine instructions the lowering emits, the legalization
    step (cmmc/Target/RISCV/RISCVISelInfo.cpp:510-745 legalizeInst) and the selection patterns
    (cmmc/Target/RISCV/RISCV.yml:413-2178, compiled by cmmc/Target/Template/generate.py and
    cmmc/Target/Template/ISelInfoImpl.hpp.jinja2 into matchAndSelectImpl).  Property C42.

    Left out: floating point, loads and stores, global addresses, and the expansions of division by a constant or by
    1 << s (property C29).  Loads, stores, calls and everything else that may stand between the instructions modelled
    here is the opaque instruction [Opq]. *)
From Coq Require Import ZArith List Bool Lia PeanoNat.
From Verif Require Import Word Rv64 CmpModel DivConst.
Import ListNotations.
Local Open Scope Z_scope.

(** cmmc/CodeGen/MIR.hpp:72-80 OperandType, integer part *)
Inductive ty := B1 | I8 | I16 | I32 | I64.
Definition bits (t : ty) : Z := match t with B1 => 1 | I8 => 8 | I16 => 16 | I32 => 32 | I64 => 64 end.
(** a virtual register: its number and its type (every register is created with one type).  Number 0 stands for the
    hardware register X0, which reads as zero at any type (getZero, RISCVISelInfo.cpp:84-86) *)
Record reg := Rg { rid : nat; rty : ty }.
Definition X0 (t : ty) : reg := Rg 0 t.
(** MIROperand: a register, or an immediate (a 64-bit signed number) of some type *)
Inductive opnd := OR (r : reg) | OI (z : Z) (t : ty).
Definition oty (o : opnd) : ty := match o with OR r => rty r | OI _ t => t end.

(** cmmc/Target/Generic/Generic.yml:17-68 *)
Inductive gbin := GAdd | GSub | GMul | GSDiv | GSRem | GUDiv | GURem | GAnd | GOr | GXor | GShl | GAShr | GLShr | GSMin | GSMax.
Inductive gun := GNeg | GAbs | GZExt | GSExt | GTrunc | GCopy.
(** RISC-V opcodes used by the patterns, RISCV.yml:6-70, 300-400 *)
Inductive rr := ADD | SUB | MUL | ADDW | SUBW | MULW | DIV | DIVU | REM | REMU | DIVW | DIVUW | REMW | REMUW
  | SLL | SRL | SRA | SLLW | SRLW | SRAW | AND | OR_ | XOR | SLT | SLTU | SH1ADD | SH2ADD | SH3ADD | ADD_UW | ANDN | ORN | XNOR | MIN | MAX.
Inductive ri := ADDI | ADDIW | ANDI | ORI | XORI | SLTI | SLTIU | SLLI | SRLI | SRAI | SLLIW | SRLIW | SRAIW.
Inductive r1 := MoveGPR | SEXT_B | SEXT_H | SEXT_W | ZEXT_H | ZEXT_W.
Inductive li := LoadImm12 | LoadImm32 | LoadImm64 | LUI.
(** the operation stored in a Select_GPR_Arith *)
Inductive arith := ARR (o : rr) | ARI (o : ri).

Inductive inst :=
| Bin (o : gbin) (d : reg) (a b : opnd)
| Un (o : gun) (d : reg) (a : opnd)
| Cmp (c : icmp) (d : reg) (a b : opnd)                        (* InstICmp *)
| LdI (d : reg) (z : Z)                                        (* InstLoadImm *)
| Sel (d : reg) (c a b : opnd)                                 (* InstSelect *)
| Brn (c : opnd) (k : nat)                                     (* InstBranch to block k when c is nonzero *)
| RR (o : rr) (d : reg) (a b : opnd)
| RI (o : ri) (d : reg) (a : opnd) (z : Z)
| R1 (o : r1) (d : reg) (a : opnd)
| Li (o : li) (d : reg) (z : Z)
| SelG (c : icmp) (d : reg) (a b l r : opnd)                   (* Select_GPR_GPR *)
| SelA (o : arith) (c : icmp) (d : reg) (a b l r : opnd)       (* Select_GPR_Arith *)
| BrR (c : icmp) (l r : opnd) (k : nat)                        (* BEQ ... BGEU *)
| Opq (k : nat) (ds : list reg) (us : list opnd).              (* anything else: call, load, store, ... *)

(* ------------------------------------------------------------------ *)
(** * What the instructions mean *)
(** a value of type t inside a 64-bit register: sign-extended (a Bool is 0 or 1) *)
Definition norm (t : ty) (v : Z) : Z := match t with B1 => v mod 2 | _ => sgn (bits t) v end.
Definition inR (t : ty) (v : Z) : Prop :=
  match t with B1 => 0 <= v <= 1 | _ => - 2 ^ (bits t - 1) <= v < 2 ^ (bits t - 1) end.
Definition canon (t : ty) (v : Z) : Z := u64 (norm t v).
(** the generic operations on values; None: the result is undefined (division by zero, overflowing division, shift
    by the width or more) *)
Definition gbinV (o : gbin) (t : ty) (a b : Z) : option Z :=
  let ua := a mod 2 ^ bits t in
  let ub := b mod 2 ^ bits t in
  let inSh := (0 <=? b) && (b <? bits t) in
  match o with
  | GAdd => Some (a + b) | GSub => Some (a - b) | GMul => Some (a * b)
  | GSDiv => if (b =? 0) || ((a =? - 2 ^ (bits t - 1)) && (b =? -1)) then None else Some (Z.quot a b)
  | GSRem => if (b =? 0) || ((a =? - 2 ^ (bits t - 1)) && (b =? -1)) then None else Some (Z.rem a b)
  | GUDiv => if ub =? 0 then None else Some (ua / ub)
  | GURem => if ub =? 0 then None else Some (ua mod ub)
  | GAnd => Some (Z.land a b) | GOr => Some (Z.lor a b) | GXor => Some (Z.lxor a b)
  | GShl => if inSh then Some (a * 2 ^ b) else None
  | GAShr => if inSh then Some (a / 2 ^ b) else None
  | GLShr => if inSh then Some (ua / 2 ^ b) else None
  | GSMin => Some (Z.min a b) | GSMax => Some (Z.max a b)
  end.
Definition gunV (o : gun) (ts : ty) (a : Z) : Z :=
  match o with
  | GNeg => - a | GAbs => Z.abs a
  | GZExt => a mod 2 ^ bits ts
  | GSExt => match ts with B1 => - a | _ => a end
  | GTrunc => a | GCopy => a
  end.
Definition b2z (b : bool) : Z := if b then 1 else 0.
(** RV64 (instruction-set manual) *)
Definition evRR (o : rr) (a b : Z) : Z :=
  match o with
  | ADD => Rv.ADD a b | SUB => Rv.SUB a b | MUL => Rv.MUL a b | ADDW => Rv.ADDW a b | SUBW => Rv.SUBW a b | MULW => Rv.MULW a b
  | DIV => u64 (if s64 b =? 0 then -1 else Z.quot (s64 a) (s64 b))
  | REM => u64 (if s64 b =? 0 then s64 a else Z.rem (s64 a) (s64 b))
  | DIVU => u64 (if b =? 0 then -1 else a / b)
  | REMU => u64 (if b =? 0 then a else a mod b)
  | DIVW => Rv.DIVW a b | DIVUW => Rv.DIVUW a b | REMW => Rv.REMW a b | REMUW => Rv.REMUW a b
  | SLL => u64 (a * 2 ^ (b mod 64)) | SRL => a / 2 ^ (b mod 64) | SRA => u64 (s64 a / 2 ^ (b mod 64))
  | SLLW => Rv.SLLW a b | SRLW => Rv.SRLW a b | SRAW => Rv.SRAW a b
  | AND => Rv.AND a b | OR_ => Rv.OR a b | XOR => Rv.XOR a b | SLT => Rv.SLT a b | SLTU => Rv.SLTU a b
  | SH1ADD => Rv.SH_ADD 1 a b | SH2ADD => Rv.SH_ADD 2 a b | SH3ADD => Rv.SH_ADD 3 a b
  | ADD_UW => u64 (u32 a + b)
  | ANDN => u64 (Z.land a (Z.lnot b)) | ORN => u64 (Z.lor a (Z.lnot b)) | XNOR => u64 (Z.lnot (Z.lxor a b))
  | MIN => u64 (Z.min (s64 a) (s64 b)) | MAX => u64 (Z.max (s64 a) (s64 b))
  end.
Definition evRI (o : ri) (a i : Z) : Z :=
  match o with
  | ADDI => Rv.ADDI a i | ADDIW => Rv.ADDIW a i | ANDI => Rv.ANDI a i | ORI => Rv.ORI a i | XORI => Rv.XORI a i
  | SLTI => Rv.SLTI a i | SLTIU => Rv.SLTIU a i | SLLI => Rv.SLLI a i | SRLI => Rv.SRLI a i | SRAI => Rv.SRAI a i
  | SLLIW => Rv.SLLIW a i | SRLIW => Rv.SRLIW a i | SRAIW => Rv.SRAIW a i
  end.
Definition evR1 (o : r1) (a : Z) : Z :=
  match o with
  | MoveGPR => a | SEXT_B => u64 (sgn 8 a) | SEXT_H => u64 (sgn 16 a) | SEXT_W => Rv.SEXT_W a
  | ZEXT_H => a mod 65536 | ZEXT_W => Rv.ZEXT_W a
  end.
Definition evLi (o : li) (z : Z) : Z := match o with LUI => Rv.LUI z | _ => u64 z end.
Definition evAr (o : arith) (a b : Z) : Z :=
  match o with ARR o => evRR o a b | ARI o => evRI o a (s64 b) end.
(** comparison of two registers; the generic InstICmp compares the (sign-extended) values, as the interpreter does
    (cmmc/Analysis... Interpreter.cpp:655-678), the branches compare the registers *)
Definition cmpV (c : icmp) (a b : Z) : bool := doCompare c (s64 a) (s64 b).

(** which target instructions can be encoded: 12-bit immediates, shift amounts, 20-bit upper immediates, registers
    where registers are needed (RISCV.yml:6-70 operand classes) *)
Definition imm12 (z : Z) : bool := (-2048 <=? z) && (z <? 2048).
Definition isR (o : opnd) : bool := match o with OR _ => true | OI _ _ => false end.
Definition immFor (o : ri) (z : Z) : bool :=
  match o with
  | SLLI | SRLI | SRAI => (0 <=? z) && (z <? 64)
  | SLLIW | SRLIW | SRAIW => (0 <=? z) && (z <? 32)
  | _ => imm12 z
  end.
Definition encodable (i : inst) : bool :=
  match i with
  | RR _ _ a b => isR a && isR b
  | RI o _ a z => isR a && immFor o z
  | R1 _ _ a => isR a
  | Li LoadImm12 _ z => imm12 z && negb (z =? 0)
  | Li LUI _ z => (0 <=? z) && (z <? 1048576)
  | Li LoadImm32 _ z => negb (z =? 0) && (-2147483648 <=? z) && (z <? 4294967296)
  | Li LoadImm64 _ z => (-9223372036854775808 <=? z) && (z <? 9223372036854775808)
  | SelG _ _ a b l r => isR l && isR r
  | SelA _ _ _ a _ l r => isR a && isR l && isR r
  | BrR _ l r _ => isR l && isR r
  | _ => true
  end.

Section Exec.
Context {W : Type}.
(** what the opaque instructions do: new world and, for each defined register, a value (of the register's type) *)
Variable opq : nat -> list Z -> W -> W * (reg -> Z).
Record st := St { R : reg -> Z; Wd : W; Tk : list nat }.
Definition reg_eqb (a b : reg) : bool := Nat.eqb (rid a) (rid b) &&
  match rty a, rty b with B1, B1 | I8, I8 | I16, I16 | I32, I32 | I64, I64 => true | _, _ => false end.
Definition rd (s : st) (o : opnd) : Z :=
  match o with OR r => if Nat.eqb (rid r) 0 then 0 else R s r | OI z _ => u64 z end.
Definition set (s : st) (d : reg) (v : Z) : st := St (fun r => if reg_eqb r d then v else R s r) (Wd s) (Tk s).
Definition sets (s : st) (ds : list reg) (w : W) (f : reg -> Z) : st :=
  St (fun r => if existsb (reg_eqb r) ds then canon (rty r) (f r) else R s r) w (Tk s).
(** taken branches are recorded *)
Definition take (s : st) (b : bool) (k : nat) : st := if b then St (R s) (Wd s) (Tk s ++ [k]) else s.
Definition exec1 (i : inst) (s : st) : option st :=
  match i with
  | Bin o d a b => option_map (fun v => set s d (canon (rty d) v)) (gbinV o (rty d) (s64 (rd s a)) (s64 (rd s b)))
  | Un o d a => Some (set s d (canon (rty d) (gunV o (oty a) (s64 (rd s a)))))
  | Cmp c d a b => Some (set s d (b2z (cmpV c (rd s a) (rd s b))))
  | LdI d z => Some (set s d (u64 z))
  | Sel d c a b => Some (set s d (if s64 (rd s c) =? 0 then rd s b else rd s a))
  | Brn c k => Some (take s (negb (s64 (rd s c) =? 0)) k)
  | RR o d a b => Some (set s d (evRR o (rd s a) (rd s b)))
  | RI o d a z => Some (set s d (evRI o (rd s a) z))
  | R1 o d a => Some (set s d (evR1 o (rd s a)))
  | Li o d z => Some (set s d (evLi o z))
  | SelG c d a b l r => Some (set s d (if cmpV c (rd s l) (rd s r) then rd s a else rd s b))
  | SelA o c d a b l r => Some (set s d (if cmpV c (rd s l) (rd s r) then evAr o (rd s a) (rd s b) else rd s a))
  | BrR c l r k => Some (take s (cmpV c (rd s l) (rd s r)) k)
  | Opq k ds us => let '(w, f) := opq k (map (rd s) us) (Wd s) in Some (sets s ds w f)
  end.
Fixpoint exec (l : list inst) (s : st) : option st :=
  match l with [] => Some s | i :: l' => match exec1 i s with Some s' => exec l' s' | None => None end end.
End Exec.
Arguments st : clear implicits.

Definition defs (i : inst) : list reg :=
  match i with
  | Bin _ d _ _ | Un _ d _ | Cmp _ d _ _ | LdI d _ | Sel d _ _ _ | RR _ d _ _ | RI _ d _ _ | R1 _ d _ | Li _ d _
  | SelG _ d _ _ _ _ | SelA _ _ d _ _ _ _ => [d]
  | Brn _ _ | BrR _ _ _ _ => []
  | Opq _ ds _ => ds
  end.
Definition oreg (o : opnd) : list reg := match o with OR r => [r] | OI _ _ => [] end.
Definition uses (i : inst) : list reg :=
  match i with
  | Bin _ _ a b | Cmp _ _ a b | RR _ _ a b | BrR _ a b _ => oreg a ++ oreg b
  | Un _ _ a | RI _ _ a _ | R1 _ _ a | Brn a _ => oreg a
  | LdI _ _ | Li _ _ _ => []
  | Sel _ c a b => oreg c ++ oreg a ++ oreg b
  | SelG _ _ a b l r | SelA _ _ _ a b l r => oreg a ++ oreg b ++ oreg l ++ oreg r
  | Opq _ _ us => flat_map oreg us
  end.

(* ------------------------------------------------------------------ *)
(** * Legalization, RISCVISelInfo.cpp:510-745 *)
(** ISelContext as the patterns see it (CodeGen/ISelInfo.cpp:189-286): lookupDef, hasOneUse and isSafeToUse.
    The last two only say whether a rewrite is allowed; they are arbitrary answers here *)
Record ctx := Ctx { lk : reg -> option inst; one : reg -> bool; safe : opnd -> reg -> bool }.
Definition lkO (C : ctx) (o : opnd) : option inst := match o with OR r => lk C r | OI _ _ => None end.

Definition isZero (o : opnd) : bool := match o with OR r => Nat.eqb (rid r) 0 | OI z _ => z =? 0 end.   (* 42-46 *)
Definition isOne (o : opnd) : bool := match o with OI z _ => z =? 1 | _ => false end.                    (* 239-241 *)
Definition isNegOne (o : opnd) : bool := match o with OI z _ => u32 z =? 4294967295 | _ => false end.    (* 242-244 *)
Definition isNotImm (t : ty) (o : opnd) : bool :=                                                        (* 245-247 *)
  match o with OI z _ => u32 z =? (match t with B1 => 1 | _ => 4294967295 end) | _ => false end.
Definition is12 (o : opnd) : bool := match o with OI z _ => imm12 z | _ => false end.
(** 541-552 imm2reg.  The fresh register gets the operand's type; when the constant does not fit the type (the
    comparison rewrites below make such constants) the model gives it the type Int64, which changes nothing but the
    model's own bookkeeping of register contents *)
Definition inRb (t : ty) (z : Z) : bool :=
  match t with B1 => (0 <=? z) && (z <=? 1) | _ => (- 2 ^ (bits t - 1) <=? z) && (z <? 2 ^ (bits t - 1)) end.
Definition constTy (t : ty) (z : Z) : ty := if inRb t z then t else I64.
Definition imm2reg (n : nat) (o : opnd) : nat * list inst * opnd :=
  match o with
  | OR _ => (n, [], o)
  | OI z t => if z =? 0 then (n, [], OR (X0 t))
              else let r := Rg n (constTy t z) in (S n, [LdI r z], OR r)
  end.
(** 553-557 *)
Definition largeImm2reg (n : nat) (o : opnd) : nat * list inst * opnd := if is12 o then (n, [], o) else imm2reg n o.
Definition commutative (o : gbin) : bool :=
  match o with GAdd | GMul | GAnd | GOr | GXor | GSMin | GSMax => true | _ => false end.
(** 512-521 swapImmReg *)
Definition swapImm (a b : opnd) : opnd * opnd := if negb (isR a) && isR b then (b, a) else (a, b).
(** 566-577 isNot *)
Definition isNot (C : ctx) (o : opnd) : bool :=
  match lkO C o with Some (Bin GXor _ _ b) => isNotImm (oty o) b | _ => false end.
(** cmmc/CodeGen/ISelInfo.cpp:475-513; None: reportUnreachable *)
Definition maxS (t : ty) : option Z := match t with I32 => Some 2147483647 | I64 => Some 9223372036854775807 | _ => None end.
Definition minS (t : ty) : option Z := match t with I32 => Some (-2147483648) | I64 => Some (-9223372036854775808) | _ => None end.
Definition maxU (t : ty) : option Z := match t with I32 => Some 4294967295 | I64 => Some 18446744073709551615 | _ => None end.
Definition unsImm (t : ty) (z : Z) : option Z := match t with I32 => Some (u32 z) | I64 => Some (u64 z) | _ => None end.
Definition isLess (c : icmp) : bool := match c with Islt | Isle | Iult | Iule => true | _ => false end.
Definition isGreater (c : icmp) : bool := match c with Isgt | Isge | Iugt | Iuge => true | _ => false end.
Definition isEquality (c : icmp) : bool := match c with Ieq | Ine => true | _ => false end.
(** 635-667: the four rewrites of an inclusive comparison with a constant (signed 64-bit overflow of imm()+1 wraps) *)
Definition tighten (c : icmp) (b : opnd) : option (icmp * opnd) :=
  match b with
  | OR _ => Some (c, b)
  | OI z t =>
    match c with
    | Isle => match maxS t with Some m => Some (if z <? m then (Islt, OI (s64 (z + 1)) t) else (c, b)) | None => None end
    | Isge => match minS t with Some m => Some (if m <? z then (Isgt, OI (s64 (z - 1)) t) else (c, b)) | None => None end
    | Iule => match maxU t, unsImm t z with Some m, Some u => Some (if u <? m then (Iult, OI (s64 (z + 1)) t) else (c, b)) | _, _ => None end
    | Iuge => match unsImm t z with Some u => Some (if 0 <? u then (Iugt, OI (s64 (z - 1)) t) else (c, b)) | None => None end
    | _ => Some (c, b)
    end
  end.
(** 626-690 InstICmp *)
Definition legCmp (n : nat) (c : icmp) (d : reg) (a b : opnd) : option (nat * list inst * inst) :=
  let '(c1, a1, b1) := if negb (isLess c) && negb (isR a) && isR b then (revI c, b, a) else (c, a, b) in
  match tighten c1 b1 with
  | None => None
  | Some (c2, b2) =>
    let '(c3, a3, b3) := if isGreater c2 then (revI c2, b2, a1) else (c2, a1, b2) in
    let '(n1, l1, a4) := imm2reg n a3 in
    if isEquality c3 && negb (isZero b3) then
      let x := Rg n1 (oty a4) in
      Some (S n1, l1 ++ [Bin GXor x a4 b3], Cmp c3 d (OR x) (OR (X0 (oty b3))))
    else
      let '(n2, l2, b4) := match c3 with Iule => imm2reg n1 b3 | _ => largeImm2reg n1 b3 end in
      Some (n2, l1 ++ l2, Cmp c3 d a4 b4)
  end.
(** divisions left to property C29: by a constant with |d| > 1 (ISelInfo.cpp:528-531, 583-586) *)
Definition constDiv (o : opnd) : bool :=
  match o with OI z I32 => inRb I32 z && negb ((-1 <=? z) && (z <=? 1)) | _ => false end.
(** 558-745 legalizeInst: the rewritten instruction and the instructions inserted before it *)
Definition legBin (C : ctx) (n : nat) (o : gbin) (d : reg) (a0 b0 : opnd) : nat * list inst * inst :=
  let '(a, b) := if commutative o then swapImm a0 b0 else (a0, b0) in
  match o with
  | GAdd | GAnd | GOr | GXor =>                                                         (* 560-596 *)
    let '(a1, b1) := if (match o with GAdd => false | _ => true end) && isR a && isR b && isNot C a && negb (isNot C b) then (b, a) else (a, b) in
    let '(n1, l1, a2) := imm2reg n a1 in
    match o, b1 with
    | GAnd, OI z _ =>
      if z =? 65535 then (n1, l1, R1 ZEXT_H d a2)
      else if z =? 4294967295 then (n1, l1, R1 ZEXT_W d a2)
      else let '(n2, l2, b2) := largeImm2reg n1 b1 in (n2, l1 ++ l2, Bin o d a2 b2)
    | _, _ => let '(n2, l2, b2) := largeImm2reg n1 b1 in (n2, l1 ++ l2, Bin o d a2 b2)
    end
  | GSub =>                                                                             (* 597-611 *)
    let '(n1, l1, a1) := imm2reg n a in
    match b with
    | OI z t => if imm12 (- z) then (n1, l1, Bin GAdd d a1 (OI (- z) t))
                else let '(n2, l2, b2) := imm2reg n1 b in (n2, l1 ++ l2, Bin GSub d a1 b2)
    | OR _ => (n1, l1, Bin GSub d a1 b)
    end
  | GMul | GUDiv | GURem | GSDiv | GSRem =>                                             (* 621-635 *)
    let '(n1, l1, a1) := imm2reg n a in
    if (match o with GSDiv | GSRem => true | _ => false end) && constDiv b then (n1, l1, Bin o d a1 b)
    else let '(n2, l2, b2) := imm2reg n1 b in (n2, l1 ++ l2, Bin o d a1 b2)
  | GShl | GAShr | GLShr =>                                                             (* 707-716 *)
    let '(n1, l1, a1) := imm2reg n a in
    match b with
    | OI z _ => if (0 <=? z) && (z <? 32) then (n1, l1, Bin o d a1 b)
                else let '(n2, l2, b2) := imm2reg n1 b in (n2, l1 ++ l2, Bin o d a1 b2)
    | OR _ => (n1, l1, Bin o d a1 b)
    end
  | GSMin | GSMax =>                                                                    (* 717-724 *)
    let '(n1, l1, a1) := imm2reg n a in
    let '(n2, l2, b2) := imm2reg n1 b in (n2, l1 ++ l2, Bin o d a1 b2)
  end.
Definition legalize (C : ctx) (n : nat) (i : inst) : option (nat * list inst * inst) :=
  match i with
  | Bin o d a b => Some (legBin C n o d a b)
  | Un GNeg d a => Some (n, [], Bin GSub d (OR (X0 (oty a))) a)                         (* 612-619 *)
  | Un GAbs d a => let '(n1, l1, a1) := imm2reg n a in Some (n1, l1, Un GAbs d a1)      (* 620-623 *)
  | Un GZExt d a =>                                                                     (* 691-699 *)
    let '(n1, l1, a1) := imm2reg n a in
    Some (n1, l1, Un (match oty a1 with B1 => GCopy | _ => GZExt end) d a1)
  | Un GSExt d a => let '(n1, l1, a1) := imm2reg n a in Some (n1, l1, Un GSExt d a1)    (* 700-704 *)
  | Un GTrunc d a => let '(n1, l1, a1) := imm2reg n a in Some (n1, l1, Un GTrunc d a1)
  | Cmp c d a b => legCmp n c d a b
  | Sel d c a b => let '(n1, l1, c1) := imm2reg n c in Some (n1, l1, Sel d c1 a b)      (* 725-729 *)
  | _ => Some (n, [], i)
  end.

(* ------------------------------------------------------------------ *)
(** * Selection patterns, RISCV.yml:413-2178.  Each function is one pattern (or a family that differs in one
    constant); the list of an opcode is tried in the order of the file.  None: does not match *)
Definition pat := ctx -> nat -> inst -> option (nat * list inst).
Definition is64 (d : reg) : bool := match rty d with I64 => true | _ => false end.
Definition is32 (d : reg) : bool := match rty d with I32 => true | _ => false end.

(** 429-479 InstLoadImm; selectOperandNonZeroHigh20Bits, RISCVISelInfo.cpp:379-391 *)
Definition high20 (z : Z) : option Z :=
  let v := Z.land (z / 4096) 1048575 in
  if negb (z =? 0) && (s32 (v * 4096) =? z) then Some v else None.
Definition imm32 (z : Z) : bool := (-2147483648 <=? z) && (z <? 4294967296).
Definition pLoadImm : pat := fun C n i =>
  match i with
  | LdI d z => if z =? 0 then Some (n, [R1 MoveGPR d (OR (X0 (rty d)))])
               else if imm12 z then Some (n, [Li LoadImm12 d z])
               else match high20 z with
                    | Some v => Some (n, [Li LUI d v])
                    | None => if imm32 z then Some (n, [Li LoadImm32 d z]) else Some (n, [Li LoadImm64 d z])
                    end
  | _ => None
  end.
(** 482-563 SH1ADD, SH2ADD, SH3ADD; the shifted operand on the left, then on the right *)
Definition shadd (k : Z) : rr := if k =? 1 then SH1ADD else if k =? 2 then SH2ADD else SH3ADD.
Definition pShAddL (k : Z) : pat := fun C n i =>
  match i with
  | Bin GAdd d a b =>
    match lkO C a with
    | Some (Bin GShl _ x (OI z _)) => if isR x && isR b && (z =? k) then Some (n, [RR (shadd k) d x b]) else None
    | _ => None
    end
  | _ => None
  end.
Definition pShAddR (k : Z) : pat := fun C n i =>
  match i with
  | Bin GAdd d a b =>
    match lkO C b with
    | Some (Bin GShl _ x (OI z _)) => if isR a && isR x && (z =? k) then Some (n, [RR (shadd k) d x a]) else None
    | _ => None
    end
  | _ => None
  end.
(** 566-611 *)
Definition pAdd : pat := fun C n i =>
  match i with
  | Bin GAdd d a b =>
    if is64 d && isR a && is12 b then match b with OI z _ => Some (n, [RI ADDI d a z]) | _ => None end
    else if is64 d && isR a && isR b then Some (n, [RR ADD d a b])
    else if is32 d && isR a && is12 b then match b with OI z _ => Some (n, [RI ADDIW d a z]) | _ => None end
    else if is32 d && isR a && isR b then Some (n, [RR ADDW d a b])
    else None
  | _ => None
  end.
(** 613-626 *)
Definition pAndn : pat := fun C n i =>
  match i with
  | Bin GAnd d a b =>
    match lkO C b with
    | Some (Bin GXor _ x y) => if isR a && isR x && isNotImm (rty d) y then Some (n, [RR ANDN d a x]) else None
    | _ => None
    end
  | _ => None
  end.
(** 628-641 *)
Definition pOrn : pat := fun C n i =>
  match i with
  | Bin GOr d a b =>
    match lkO C b with
    | Some (Bin GXor _ x y) => if isR a && isR x && isNegOne y then Some (n, [RR ORN d a x]) else None
    | _ => None
    end
  | _ => None
  end.
(** 643-656 and 657-670 *)
Definition pXnorL : pat := fun C n i =>
  match i with
  | Bin GXor d a b =>
    match lkO C a with
    | Some (Bin GXor _ x y) => if isR x && isR y && isNotImm (rty d) b then Some (n, [RR XNOR d x y]) else None
    | _ => None
    end
  | _ => None
  end.
Definition pXnorR : pat := fun C n i =>
  match i with
  | Bin GXor d a b =>
    match lkO C b with
    | Some (Bin GXor _ x y) => if isR a && isR x && isNotImm (rty d) y then Some (n, [RR XNOR d a x]) else None
    | _ => None
    end
  | _ => None
  end.
(** 672-698; getIntegerBinaryImmOpcode / getIntegerBinaryRegOpcode, RISCVISelInfo.cpp:249-273 *)
Definition logicI (o : gbin) : option ri := match o with GAnd => Some ANDI | GOr => Some ORI | GXor => Some XORI | _ => None end.
Definition logicR (o : gbin) : option rr := match o with GAnd => Some AND | GOr => Some OR_ | GXor => Some XOR | _ => None end.
Definition pLogic : pat := fun C n i =>
  match i with
  | Bin o d a b =>
    match logicI o, logicR o with
    | Some oi, Some orr => if isR a && is12 b then match b with OI z _ => Some (n, [RI oi d a z]) | _ => None end
                         else if isR a && isR b then Some (n, [RR orr d a b]) else None
    | _, _ => None
    end
  | _ => None
  end.
(** 700-719 0 - abs(x) *)
Definition pNegAbs : pat := fun C n i =>
  match i with
  | Bin GSub d a b =>
    match lkO C b with
    | Some (Un GAbs _ x) => if isR x && isZero a && is32 d
                            then let r := Rg n (rty d) in Some (S n, [RR SUBW r (OR (X0 (rty d))) x; RR MIN d (OR r) x]) else None
    | _ => None
    end
  | _ => None
  end.
(** 721-745 *)
Definition pSub : pat := fun C n i =>
  match i with
  | Bin GSub d a b => if is64 d && isR a && isR b then Some (n, [RR SUB d a b])
                      else if is32 d && isR a && isR b then Some (n, [RR SUBW d a b]) else None
  | _ => None
  end.
(** 747-891: the six shift patterns with an immediate come first, then the six with a register *)
Definition shiftI (o : gbin) (w : bool) : option ri :=
  match o, w with GShl, false => Some SLLI | GShl, true => Some SLLIW | GAShr, false => Some SRAI | GAShr, true => Some SRAIW
  | GLShr, false => Some SRLI | GLShr, true => Some SRLIW | _, _ => None end.
Definition shiftR (o : gbin) (w : bool) : option rr :=
  match o, w with GShl, false => Some SLL | GShl, true => Some SLLW | GAShr, false => Some SRA | GAShr, true => Some SRAW
  | GLShr, false => Some SRL | GLShr, true => Some SRLW | _, _ => None end.
Definition is6 (o : opnd) : bool := match o with OI z _ => (0 <=? z) && (z <? 64) | _ => false end.
Definition pShift : pat := fun C n i =>
  match i with
  | Bin o d a b =>
    if negb (is64 d || is32 d) then None else
    match shiftI o (is32 d), shiftR o (is32 d) with
    | Some oi, Some orr => if isR a && is6 b then match b with OI z _ => Some (n, [RI oi d a z]) | _ => None end
                         else if isR a && isR b then Some (n, [RR orr d a b]) else None
    | _, _ => None
    end
  | _ => None
  end.
(** 893-940, 1148-1170, 1217-1278: min, max, mul, div, rem on registers *)
Definition arithR (o : gbin) (w : bool) : option rr :=
  match o, w with
  | GMul, false => Some MUL | GMul, true => Some MULW
  | GSDiv, false => Some DIV | GSDiv, true => Some DIVW | GSRem, false => Some REM | GSRem, true => Some REMW
  | GUDiv, false => Some DIVU | GUDiv, true => Some DIVUW | GURem, false => Some REMU | GURem, true => Some REMUW
  | _, _ => None
  end.
Definition pMinMax : pat := fun C n i =>
  match i with
  | Bin GSMin d a b => if isR a && isR b then Some (n, [RR MIN d a b]) else None
  | Bin GSMax d a b => if isR a && isR b then Some (n, [RR MAX d a b]) else None
  | _ => None
  end.
(** division by a constant or by 1 << s is property C29; here nothing is selected for it *)
Definition byShl (C : ctx) (o : opnd) : bool := match lkO C o with Some (Bin GShl _ x _) => isOne x | _ => false end.
Definition pArith : pat := fun C n i =>
  match i with
  | Bin o d a b =>
    if negb (is64 d || is32 d) then None else
    if (match o with GSDiv => true | _ => false end) && is32 d && byShl C b then None else
    match arithR o (is32 d) with
    | Some orr => if isR a && isR b then Some (n, [RR orr d a b]) else None
    | None => None
    end
  | _ => None
  end.
(** 1111-1145 fusion of SRLI 32 with a following 32-bit right shift *)
Definition pFuseShift : pat := fun C n i =>
  match i with
  | RI o d a z =>
    match o with
    | SRLIW | SRAIW =>
      match lkO C a with
      | Some (RI SRLI m x z1) => if (z1 =? 32) && safe C x m
                                 then Some (n, [RI (match o with SRLIW => SRLI | _ => SRAI end) d x (z + 32)]) else None
      | _ => None
      end
    | _ => None
    end
  | _ => None
  end.
(** 1280-1298; selectShiftImm12Mask, RISCVISelInfo.cpp:357-364 *)
Definition pMask : pat := fun C n i =>
  match i with
  | RI o d a z =>
    match o with
    | SLLI | SLLIW =>
      match lkO C a with
      | Some (RI SRAIW m x z1) => if (z1 =? z) && (0 <? z) && (z <? 32) && imm12 (- 2 ^ z)
                                  then Some (n, [RI ANDI d x (- 2 ^ z)]) else None
      | _ => None
      end
    | _ => None
    end
  | _ => None
  end.
(** 1313-1452 InstICmp *)
Definition pCmp : pat := fun C n i =>
  match i with
  | Cmp c d a b =>
    if negb (isR a) then None else
    match b with
    | OR _ =>
      match c with
      | Islt => Some (n, [RR SLT d a b]) | Iult => Some (n, [RR SLTU d a b])
      | Isgt => Some (n, [RR SLT d b a]) | Iugt => Some (n, [RR SLTU d b a])
      | Ieq => if isZero b then Some (n, [RI SLTIU d a 1]) else None
      | Ine => if isZero b then Some (n, [RR SLTU d (OR (X0 (oty b))) a]) else None
      | Isle => let r := Rg n (rty d) in Some (S n, [RR SLT r b a; RI XORI d (OR r) 1])
      | Iule => let r := Rg n (rty d) in Some (S n, [RR SLTU r b a; RI XORI d (OR r) 1])
      | _ => None
      end
    | OI z _ =>
      match c with
      | Islt => if imm12 z then Some (n, [RI SLTI d a z]) else None
      | Iult => if imm12 z then Some (n, [RI SLTIU d a z]) else None
      | Ieq => if z =? 0 then Some (n, [RI SLTIU d a 1]) else None
      | Ine => if z =? 0 then Some (n, [RR SLTU d (OR (X0 (oty b))) a]) else None
      | _ => None
      end
    end
  | _ => None
  end.
(** 1454-1512, 1963-2010 extensions and truncation.  ZExt patterns in file order: Bool, Int8, Int32, Int16; the
    fused pattern at 1963-1974 and the last ZExt pattern can only see what these four leave (an Int64 source) *)
Definition pExt : pat := fun C n i =>
  match i with
  | Un GZExt d a =>
    if isR a then
      match oty a with
      | B1 => Some (n, [Un GCopy d a])
      | I8 => Some (n, [RI ANDI d a 255])
      | I32 => Some (n, [R1 ZEXT_W d a])
      | I16 => Some (n, [R1 ZEXT_H d a])
      | I64 => None
      end
    else None
  | Un GSExt d a => if isR a then Some (n, [Un GCopy d a]) else None
  | Un GTrunc d a =>
    if isR a then
      if is32 d && (match oty a with I32 => true | _ => false end) then Some (n, [Un GCopy d a])
      else match rty d with I8 => Some (n, [R1 SEXT_B d a]) | I16 => Some (n, [R1 SEXT_H d a]) | I32 => Some (n, [R1 SEXT_W d a]) | _ => None end
    else None
  | Un GAbs d a =>                                                                      (* 1918-1933 *)
    if isR a && is32 d then let r := Rg n (rty d) in Some (S n, [RR SUBW r (OR (X0 (rty d))) a; RR MAX d (OR r) a]) else None
  | _ => None
  end.
(** 1519-1697 InstBranch on an integer comparison *)
Definition pBranch : pat := fun C n i =>
  match i with
  | Brn c k =>
    match lkO C c with
    | Some (Cmp p m a b) =>
      if isR a && isZero b && safe C a m then Some (n, [BrR p a (OR (X0 (oty a))) k])
      else if isR a && isOne b && (match p with Isge => true | _ => false end) && safe C a m then Some (n, [BrR Isgt a (OR (X0 (oty a))) k])
      else if isR a && isNegOne b && (match p with Isgt => true | _ => false end) && safe C a m then Some (n, [BrR Isge a (OR (X0 (oty a))) k])
      else if isR a && isOne b && (match p with Islt => true | _ => false end) && safe C a m then Some (n, [BrR Isle a (OR (X0 (oty a))) k])
      else if isR a && isNegOne b && (match p with Isle => true | _ => false end) && safe C a m then Some (n, [BrR Islt a (OR (X0 (oty a))) k])
      else if isR a && negb (isR b) && safe C a m then
        match b with OI z _ => let r := Rg n (constTy (oty a) z) in Some (S n, [LdI r z; BrR p a (OR r) k]) | _ => None end
      else if isR a && isR b && safe C a m && safe C b m then Some (n, [BrR p a b k])
      else if isR c then Some (n, [BrR Ine c (OR (X0 (oty c))) k]) else None
    | _ => if isR c then Some (n, [BrR Ine c (OR (X0 (oty c))) k]) else None
    end
  | _ => None
  end.
(** 1935-1960 subtractions *)
Definition pSubSub : pat := fun C n i =>
  match i with
  | RR SUBW d a b =>
    match b, lkO C b with
    | OR q, Some (RR SUBW _ x y) =>
      if one C q then let r := Rg n (rty d) in Some (S n, [RR ADDW r a y; RR SUBW d (OR r) x])
      else if isZero a then Some (n, [RR SUBW d y x]) else None
    | _, _ => None
    end
  | _ => None
  end.
(** 2012-2031; selectSFBArith, RISCVISelInfo.cpp:425-476 *)
Definition sfbOk (i : inst) : option (arith * opnd * opnd) :=
  match i with
  | RR o _ a b => match o with ADD | ADDW | SUB | SUBW | MUL | MULW | AND | OR_ | XOR | SLL | SLLW | SRL | SRLW | SRA | SRAW => Some (ARR o, a, b) | _ => None end
  | RI o _ a z => match o with ADDI | ADDIW | ANDI | ORI | XORI | SLLI | SLLIW | SRLI | SRLIW | SRAI | SRAIW => Some (ARI o, a, OI z I32) | _ => None end
  | _ => None
  end.
Definition opnd_eqb (a b : opnd) : bool :=
  match a, b with OR x, OR y => reg_eqb x y | OI x _, OI y _ => x =? y | _, _ => false end.
Definition pSfb : pat := fun C n i =>
  match i with
  | SelG c d a b l r =>
    if isR a && isR b then
      match a with
      | OR q => if one C q then
                  match lkO C a with
                  | Some e => match sfbOk e with
                              | Some (o, x, y) => if opnd_eqb x b then Some (n, [SelA o c d x y l r]) else None
                              | None => None
                              end
                  | None => None
                  end
                else None
      | _ => None
      end
    else None
  | _ => None
  end.
(** 2033-2047; selectCompare, RISCVISelInfo.cpp:392-419 *)
Definition asIReg (n : nat) (o : opnd) : nat * list inst * opnd :=
  match o with
  | OR r => (n, [], OR r)
  | OI z t => if z =? 0 then (n, [], OR (X0 t)) else let r := Rg n (constTy t z) in (S n, [LdI r z], OR r)
  end.
Definition pSelect : pat := fun C n i =>
  match i with
  | Sel d c a b =>
    let plain := let '(n1, l1, c1) := asIReg n c in Some (n1, l1 ++ [SelG Ine d a b c1 (OR (X0 (oty c)))]) in
    match c with
    | OR q => if one C q then
                match lkO C c with
                | Some (Cmp p _ x y) => let '(n1, l1, x1) := asIReg n x in let '(n2, l2, y1) := asIReg n1 y in
                                        Some (n2, l1 ++ l2 ++ [SelG p d a b x1 y1])
                | _ => plain
                end
              else plain
    | _ => plain
    end
  | _ => None
  end.
(** 2065-2085 inverted condition *)
Definition pInvSel : pat := fun C n i =>
  match i with
  | SelG c d a b l r =>
    match l, lkO C l with
    | OR q, Some (RI XORI _ x z) => if one C q && isR x && (z =? 1) && isZero r && (match c with Ine => true | _ => false end)
                                    then Some (n, [SelG c d b a x r]) else None
    | _, _ => None
    end
  | _ => None
  end.
(** 2116-2175 constants *)
Definition pConst : pat := fun C n i =>
  match i with
  | RI SLLI d a z =>
    match a, lkO C a with
    | _, Some (Li LoadImm12 _ v) => Some (n, [Li LoadImm64 d (s64 (v * 2 ^ z))])
    | OR q, Some (Li LoadImm32 _ v) => if one C q then Some (n, [Li LoadImm64 d (s64 (v * 2 ^ z))]) else None
    | _, _ => None
    end
  | RI ORI d a z =>
    match a, lkO C a with
    | OR q, Some (Li LoadImm64 _ v) => if one C q then Some (n, [Li LoadImm64 d (Z.lor v z)]) else None
    | _, _ => None
    end
  | RR ADD_UW d a b =>
    match lkO C a, lkO C b with
    | Some (Li LoadImm12 _ v), Some (RI SLLI _ _ z) => if (0 <? v) && (z =? 32) then Some (n, [RI ORI d b v]) else None
    | _, _ => None
    end
  | _ => None
  end.

(** matchAndSelectImpl: the patterns in file order *)
Definition patterns : list pat :=
  [pLoadImm; pShAddL 1; pShAddR 1; pShAddL 2; pShAddR 2; pShAddL 3; pShAddR 3; pAdd; pAndn; pOrn; pXnorL; pXnorR; pLogic;
   pNegAbs; pSub; pShift; pMinMax; pArith; pFuseShift; pMask; pCmp; pExt; pBranch; pSubSub; pSfb; pSelect; pInvSel; pConst].
Fixpoint firstMatch (ps : list pat) (C : ctx) (n : nat) (i : inst) : option (nat * list inst) :=
  match ps with
  | [] => None
  | p :: ps' => match p C n i with Some r => Some r | None => firstMatch ps' C n i end
  end.
(** RISCVISelInfo.cpp:747-753 matchAndSelect: legalize, then select; what the instruction is replaced by *)
Definition matchAndSelect (C : ctx) (n : nat) (i : inst) : option (nat * list inst) :=
  match legalize C n i with
  | None => None
  | Some (n1, l1, i1) =>
    match firstMatch patterns C n1 i1 with
    | Some (n2, l2) => Some (n2, l1 ++ l2)
    | None => Some (n1, l1 ++ [i1])
    end
  end.

(** the definitions seen from an instruction: the instruction of the block that defines the register
    (CodeGen/ISelInfo.cpp:88-103, 189-197; the register is defined once in the block), otherwise a constant of the
    function (62-74) *)
Definition lookup (consts : reg -> option inst) (pre : list inst) (r : reg) : option inst :=
  match find (fun i => existsb (reg_eqb r) (defs i)) pre with Some i => Some i | None => consts r end.
(** one pass over a block, last instruction first (111-136).  [legal i]: not visited (already a target instruction
    in the first phase, or a copy); new instructions get numbers from n on.  The instructions inserted by
    getRegRef are left out (they only concern hardware registers).  [pre] is the part still to visit *)
Fixpoint iselRound (one : reg -> bool) (safe : opnd -> reg -> bool) (legal : inst -> bool) (consts : reg -> option inst)
    (rpre : list inst) (n : nat) (post : list inst) : option (nat * list inst) :=
  match rpre with
  | [] => Some (n, post)
  | i :: rpre' =>
    if legal i then iselRound one safe legal consts rpre' n (i :: post)
    else match matchAndSelect (Ctx (lookup consts (rev rpre')) one safe) n i with
         | None => None
         | Some (n', l) => iselRound one safe legal consts rpre' n' (l ++ post)
         end
  end.
Definition isel (one : reg -> bool) (safe : opnd -> reg -> bool) (legal : inst -> bool) (consts : reg -> option inst)
    (n : nat) (blk : list inst) : option (nat * list inst) := iselRound one safe legal consts (rev blk) n [].
