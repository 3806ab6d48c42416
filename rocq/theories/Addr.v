(** Types, their layout and the addresses computed from them: cmmc/IR/Type.cpp (getSize, getAlignment, getFieldOffset),
    cmmc/IR/Instruction.cpp:564-625 (GetElementPtrInst), cmmc/ExecutionEngine/Interpreter.cpp:983-1011 and 340-356,
    cmmc/CodeGen/Lowering.cpp:325-374 and 973-1000, cmmc/Transforms/Combine/GEPCombine.cpp, Misc/GEPDecompose.cpp,
    Combine/PointerArithmeticCombine.cpp.  Property C44.

    Simplifications: a type is a finite tree (no struct that contains a pointer to itself); sizes are unbounded (no
    size_t overflow); addresses are 64 bits wide. *)
From Coq Require Import ZArith List Bool Lia PeanoNat.
From Verif Require Import Word.
Import ListNotations.
Local Open Scope Z_scope.

Inductive ty := TInt (w : Z) | TFp (single : bool) | TPtr (t : ty) | TArr (n : nat) (t : ty) | TStruct (fs : list ty).

Section Layout.
Variable P : Z.                                              (* DataLayout::getPointerSize: 8, or 4 for MIPS *)
Definition up (off al : Z) : Z := (off + al - 1) / al * al.
(** Type.cpp: getAlignment.  Primitive types are aligned to their size (Target/RISCV/RISCVTarget.cpp:68-73) *)
Fixpoint align (t : ty) : Z :=
  match t with
  | TInt w => w / 8 + (if w mod 8 =? 0 then 0 else 1)        (* getFixedSize, Type.cpp:81-83 *)
  | TFp s => if s then 4 else 8
  | TPtr _ => P
  | TArr _ t => align t                                      (* 269-271 *)
  | TStruct fs => (fix go m l := match l with [] => m | f :: r => go (Z.max m (align f)) r end) 1 fs      (* 208-213 *)
  end.
Fixpoint size (t : ty) : Z :=
  match t with
  | TInt w => w / 8 + (if w mod 8 =? 0 then 0 else 1)
  | TFp s => if s then 4 else 8
  | TPtr _ => P
  | TArr n t => up (size t) (align t) * Z.of_nat n           (* 264-268 *)
  | TStruct fs => (fix go off l := match l with [] => off | f :: r => go (up off (align f) + size f) r end) 0 fs   (* 199-207 *)
  end.
(** 232-249 getFieldOffset; None: no such field *)
Fixpoint fieldOffFrom (off : Z) (fs : list ty) (k : nat) : option Z :=
  match fs with
  | [] => None
  | f :: r => match k with O => Some (up off (align f)) | S k' => fieldOffFrom (up off (align f) + size f) r k' end
  end.
Definition fieldOff (fs : list ty) (k : nat) : option Z := fieldOffFrom 0 fs k.

(** ** GetElementPtr *)
(** an index: an integer constant of width w, a variable of width w, an undefined constant, or a field *)
Inductive idx := IC (w z : Z) | IV (w : Z) (x : nat) | IU | IF (k : nat).
(** the signed value of an integer index ([ConstantInteger::getSignExtended]); undef may be anything: 0 here, as the
    lowering takes it *)
Definition sx (w z : Z) : Z := if w =? 1 then (if z =? 0 then 0 else 1) else sgn w z.     (* ConstantValue.cpp:48-58 *)
Definition ival (env : nat -> Z) (i : idx) : Z :=
  match i with IC w z => sx w z | IV w x => sx w (env x) | _ => 0 end.
(** the type reached by one integer index: Instruction.cpp:568-580 *)
Definition elem (t : ty) : option ty := match t with TArr _ e => Some e | TPtr e => Some e | _ => None end.
(** GetElementPtrInst::getValueType *)
Fixpoint gepTy (t : ty) (is : list idx) : option ty :=
  match is with
  | [] => Some t
  | IF k :: r => match t with TStruct fs => match nth_error fs k with Some f => gepTy f r | None => None end | _ => None end
  | _ :: r => match elem t with Some e => gepTy e r | None => None end
  end.
(** Interpreter.cpp:983-1006 *)
Fixpoint interp (env : nat -> Z) (addr : Z) (t : ty) (is : list idx) : option Z :=
  match is with
  | [] => Some addr
  | IF k :: r =>
    match t with
    | TStruct fs => match nth_error fs k, fieldOff fs k with Some f, Some o => interp env (u64 (addr + o)) f r | _, _ => None end
    | _ => None
    end
  | i :: r => match elem t with Some e => interp env (u64 (addr + ival env i * size e)) e r | None => None end
  end.
(** Instruction.cpp:590-625 gatherOffsets: the constant offset and the scaled variables *)
Fixpoint gather (c : Z) (t : ty) (is : list idx) : option (Z * list (Z * idx)) :=
  match is with
  | [] => Some (c, [])
  | IF k :: r =>
    match t with
    | TStruct fs => match nth_error fs k, fieldOff fs k with Some f, Some o => gather (c + o) f r | _, _ => None end
    | _ => None
    end
  | i :: r =>
    match elem t with
    | Some e =>
      match i with
      | IC w z => gather (c + size e * sx w z) e r
      | IV w x => match gather c e r with Some (c', l) => Some (c', (size e, i) :: l) | None => None end
      | _ => gather c e r
      end
    | None => None
    end
  end.
(** Lowering.cpp:973-1000: one multiplication (of the width of the first index) and one addition for each variable.
    Registers hold sign-extended values *)
Definition widthOf (is : list idx) : Z := match is with IC w _ :: _ | IV w _ :: _ => w | _ => 64 end.
Definition lowerGep (env : nat -> Z) (addr : Z) (t : ty) (is : list idx) : option Z :=
  match gather 0 t is with
  | Some (c, l) =>
    let ptr := fold_left (fun p si => u64 (p + (if fst si =? 1 then ival env (snd si) else sgn (widthOf is) (ival env (snd si) * fst si)))) l addr in
    Some (if c =? 0 then ptr else u64 (ptr + c))
  | None => None
  end.

(** ** passes on GetElementPtr *)
(** GEPCombine.cpp:58-105: the indices of [gep (gep p, inner), outer] when all are constant; None: left alone *)
Definition isC (i : idx) : bool := match i with IV _ _ => false | _ => true end.
Definition isZeroC (i : idx) : bool := match i with IC w z => uns w z =? 0 | _ => false end.
Definition combine (inner outer : list idx) : option (list idx) :=
  if forallb isC inner && forallb isC outer then
    match outer, rev inner with
    | o1 :: orest, ilast :: irev =>
      if isZeroC o1 then Some (inner ++ orest)
      else if isZeroC ilast then Some (rev irev ++ outer)
      else match o1, ilast with
           | IC w a, IC v b => Some (rev irev ++ IC w (sx w a + sx v b) :: orest)
           | _, _ => None
           end
    | _, _ => None
    end
  else None.
(** PointerArithmeticCombine.cpp:43-72: the indices for [inttoptr (ptrtoint p + c)] with p : [n * e]* *)
Definition ptrArith (pointee : ty) (c : Z) : option (list idx) :=
  match pointee with
  | TArr _ e => if size e =? 0 then None else if Z.rem c (size e) =? 0 then Some [IC 64 0; IC 64 (Z.quot c (size e))] else None
  | _ => None
  end.

(** ** initial values of globals *)
Inductive cval := CInt (z : Z) | CFp (bits : Z) | CArr (vs : list cval).
Fixpoint bytes (n : nat) (z : Z) : list Z := match n with O => [] | S m => z mod 256 :: bytes m (z / 256) end.
(** Lowering.cpp:325-368 expand: the bytes written into the object file; None: not implemented.  A 64-bit integer
    falls through all cases (332-349) *)
Fixpoint image (t : ty) (v : cval) : option (list Z) :=
  match t, v with
  | TArr n e, CArr vs =>
    match (fix go l := match l with [] => Some [] | x :: r => match image e x, go r with Some a, Some b => Some (a ++ b) | _, _ => None end end) vs with
    | Some a => Some (a ++ repeat 0 (Z.to_nat (size e) * (n - length vs)))
    | None => None
    end
  | TInt w, CInt z =>
    let s := align (TInt w) in
    Some (if s =? 4 then bytes 4 (uns w z) else if s =? 1 then bytes 1 (uns w z) else if s =? 2 then bytes 2 (uns w z) else [])
  | TFp true, CFp b => Some (bytes 4 b)
  | _, _ => None
  end.
(** Interpreter.cpp:306-356 storeValue of a constant: what it leaves in memory *)
Definition mwrite (m : Z -> Z) (a : Z) (bs : list Z) : Z -> Z :=
  fun x => if (a <=? x) && (x <? a + Z.of_nat (length bs)) then nth (Z.to_nat (x - a)) bs 0 else m x.
Fixpoint storeC (m : Z -> Z) (a : Z) (t : ty) (v : cval) : option (Z -> Z) :=
  match t, v with
  | TInt w, CInt z => Some (mwrite m a (bytes (Z.to_nat (align t)) (uns w z)))
  | TFp s, CFp b => Some (mwrite m a (bytes (Z.to_nat (align t)) b))
  | TArr n e, CArr vs =>
    match (fix go k (m : Z -> Z) l {struct l} := match l with [] => Some m | x :: r => match storeC m (a + Z.of_nat k * size e) e x with Some m' => go (S k) m' r | None => None end end) 0%nat m vs with
    | Some m' => Some (mwrite m' (a + Z.of_nat (length vs) * size e) (repeat 0 (Z.to_nat (size e) * (n - length vs))))
    | None => None
    end
  | _, _ => None
  end.
End Layout.
