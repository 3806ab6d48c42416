(** * Constant folding against the interpreter (property C09)

    Model of [cmmc/Transforms/Combine/ConstantPropagation.cpp] 64-264 (folding of an
    instruction all of whose operands are constants), of the constants
    [cmmc/IR/ConstantValue.cpp] 44-100 and of the instructions of the interpreter
    [cmmc/ExecutionEngine/Interpreter.cpp] 632-716, 808-981.

    A ConstantInteger keeps an int64 "storage"; instructions read it through a
    sign-extended or a zero-extended view.  The interpreter stores the raw int64
    result of an operation; constant folding builds the constant with
    [ConstantInteger::get], which reduces booleans to one bit.  Operations whose C++
    meaning is undefined (int64 overflow, shift by 64 or more, float-to-integer out of
    range, a predicate that is not implemented) give [Undef], in the interpreter and in
    the compiler.  Floating-point operations are parameters: both sides call the same
    C++ operation.  Simplifications: an SSA value is the tree of the pure instructions
    that compute it, other values are variables; Bitcast and pointers are left out
    (constant folding does not touch them). *)
From Coq Require Import ZArith Lia Bool List ZifyBool.
From Verif Require Import Word CmpModel IR.
Import ListNotations.
Local Open Scope Z_scope.

(** int64 arithmetic: [None] = signed overflow *)
Definition i64 (z : Z) : option Z :=
  if (-9223372036854775808 <=? z) && (z <? 9223372036854775808) then Some z else None.

(** ConstantValue.cpp:48-59 getSignExtended *)
Definition getS (t : ty) (s : Z) : Z :=
  match t with
  | I1 => if s =? 0 then 0 else 1
  | I64 => s
  | _ => if s mod md t <? hf t then s mod md t else s mod md t - md t
  end.
(** ConstantValue.cpp:61-68 getZeroExtended *)
Definition getU (t : ty) (s : Z) : Z := s mod md t.
(** ConstantValue.cpp:80-97 ConstantInteger::get: the storage of the constant built *)
Definition mk (t : ty) (s : Z) : Z := match t with I1 => s mod 2 | _ => s end.

Inductive fbin := FAdd | FSub | FMul | FDiv.
Inductive fun1 := FNeg | FAbs.

(** result of an evaluation *)
Inductive outcome (A : Type) := Val (a : A) | Div0 | Undef.
Arguments Val {A} _. Arguments Div0 {A}. Arguments Undef {A}.
Definition ob {A B} (m : outcome A) (k : A -> outcome B) : outcome B :=
  match m with Val a => k a | Div0 => Div0 | Undef => Undef end.
Definition oo {A} (m : option A) : outcome A := match m with Some a => Val a | None => Undef end.

Section FP.
Variable F : Type.
Variable rnd32 : F -> F.                 (* conversion to float and back *)
Variable fop : fbin -> F -> F -> F.
Variable fop1 : fun1 -> F -> F.
Variable ffma : F -> F -> F -> F.
Variable fcmp3 : F -> F -> option comparison.   (* None: a NaN operand *)
Variable f2s : F -> option Z.
Variable f2u : F -> option Z.
Variable z2f : Z -> F.

(** values: integer with storage; float (single precision?) with storage *)
Inductive value := VI (t : ty) (s : Z) | VF (single : bool) (x : F).

Inductive expr :=
| EVar (n : nat)
| EK (v : value)
| EUn (op : unop) (a : expr)
| EBin (op : binop) (a b : expr)
| ECmp (c : icmp) (a b : expr)
| ECast (op : castop) (t : ty) (a : expr)
| ESel (c a b : expr)
| EFUn (op : fun1) (a : expr)
| EFBin (op : fbin) (a b : expr)
| EFFma (a b c : expr)
| EFCmp (c : fcmp) (a b : expr)
| EF2S (t : ty) (a : expr)
| EF2U (t : ty) (a : expr)
| ES2F (single : bool) (a : expr)
| EU2F (single : bool) (a : expr)
| EFCast (single : bool) (a : expr).

(** ConstantValue.cpp:102-106 getValue *)
Definition getF (single : bool) (x : F) : F := if single then rnd32 x else x.

(** Interpreter.cpp:808-886: raw int64 result of an integer operation *)
Definition rawUn (op : unop) (t : ty) (s : Z) : outcome Z :=
  match op with
  | ONeg => oo (i64 (- getS t s))
  | OAbs => oo (i64 (Z.abs (getS t s)))
  end.
Definition rawBin (op : binop) (t : ty) (a b : Z) : outcome Z :=
  match op with
  | OAdd => oo (i64 (getS t a + getS t b))
  | OSub => oo (i64 (getS t a - getS t b))
  | OMul => oo (i64 (getS t a * getS t b))
  | OSDiv => if getS t b =? 0 then Div0 else oo (i64 (Z.quot (getS t a) (getS t b)))
  | OUDiv => if getU t b =? 0 then Div0 else Val (s64 (getU t a / getU t b))
  | OSRem => if getS t b =? 0 then Div0
             else if (getS t a =? -9223372036854775808) && (getS t b =? -1) then Undef
             else Val (Z.rem (getS t a) (getS t b))
  | OURem => if getU t b =? 0 then Div0 else Val (s64 (getU t a mod getU t b))
  | OAnd => Val (s64 (Z.land (getU t a) (getU t b)))
  | OOr => Val (s64 (Z.lor (getU t a) (getU t b)))
  | OXor => Val (s64 (Z.lxor (getU t a) (getU t b)))
  | OShl => if 64 <=? getU t b then Undef else Val (s64 (getU t a * 2 ^ getU t b))
  | OLShr => if 64 <=? getU t b then Undef else Val (s64 (getU t a / 2 ^ getU t b))
  | OAShr => if (getS t b <? 0) || (64 <=? getS t b) then Undef else Val (getS t a / 2 ^ getS t b)
  | OSMin => Val (Z.min (getS t a) (getS t b))
  | OSMax => Val (Z.max (getS t a) (getS t b))
  end.
(** Interpreter.cpp:927-938 *)
Definition rawCast (op : castop) (t : ty) (s : Z) : Z :=
  match op with
  | OSExt | OSTrunc => getS t s
  | OZExt | OUTrunc => s64 (getU t s)
  end.
Definition b2z (b : bool) : Z := if b then 1 else 0.

(** one instruction of the interpreter; an ill-typed operand is [Undef] *)
Definition iUn op v := match v with VI t s => ob (rawUn op t s) (fun r => Val (VI t r)) | _ => Undef end.
Definition iBin op v w :=
  match v, w with
  | VI t a, VI t' b => if ty_eqb t t' then ob (rawBin op t a b) (fun r => Val (VI t r)) else Undef
  | _, _ => Undef end.
Definition iCmp c v w :=
  match v, w with
  | VI t a, VI t' b => if ty_eqb t t' then Val (VI I1 (b2z (doCompare c (getS t a) (getS t b)))) else Undef
  | _, _ => Undef end.
Definition iCast op t v := match v with VI t0 s => Val (VI t (rawCast op t0 s)) | _ => Undef end.
(** Interpreter.cpp:1031-1035 Select reads the condition zero-extended *)
Definition same_type (v w : value) : bool :=
  match v, w with VI t _, VI t' _ => ty_eqb t t' | VF g _, VF h _ => eqb g h | _, _ => false end.
Definition iSel (c v w : value) : outcome value :=
  match c with
  | VI t s => if same_type v w then Val (if getU t s =? 0 then w else v) else Undef
  | _ => Undef end.
Definition iFUn op v := match v with VF g x => Val (VF g (fop1 op (getF g x))) | _ => Undef end.
Definition iFBin op v w :=
  match v, w with
  | VF g x, VF h y => if eqb g h then Val (VF g (fop op (getF g x) (getF h y))) else Undef
  | _, _ => Undef end.
Definition iFFma u v w :=
  match u, v, w with
  | VF g x, VF h y, VF k z =>
      if eqb g h && eqb g k then Val (VF g (ffma (getF g x) (getF h y) (getF k z))) else Undef
  | _, _, _ => Undef end.
Definition iFCmp c v w :=
  match v, w with
  | VF g x, VF h y => ob (oo (doCompareFP c (fcmp3 (getF g x) (getF h y)))) (fun r => Val (VI I1 (b2z r)))
  | _, _ => Undef end.
Definition iF2S t v := match v with VF g x => ob (oo (f2s (getF g x))) (fun z => Val (VI t z)) | _ => Undef end.
Definition iF2U t v := match v with VF g x => ob (oo (f2u (getF g x))) (fun z => Val (VI t (s64 z))) | _ => Undef end.
Definition iS2F g v := match v with VI t s => Val (VF g (z2f (getS t s))) | _ => Undef end.
Definition iU2F g v := match v with VI t s => Val (VF g (z2f (getU t s))) | _ => Undef end.
Definition iFCast g v := match v with VF h x => Val (VF g (getF h x)) | _ => Undef end.

(** Interpreter.cpp:622-633: operands are evaluated first *)
Fixpoint eval (env : nat -> value) (e : expr) : outcome value :=
  match e with
  | EVar n => Val (env n)
  | EK v => Val v
  | EUn op a => ob (eval env a) (iUn op)
  | EBin op a b => ob (eval env a) (fun v => ob (eval env b) (iBin op v))
  | ECmp c a b => ob (eval env a) (fun v => ob (eval env b) (iCmp c v))
  | ECast op t a => ob (eval env a) (iCast op t)
  | ESel c a b => ob (eval env c) (fun u => ob (eval env a) (fun v => ob (eval env b) (iSel u v)))
  | EFUn op a => ob (eval env a) (iFUn op)
  | EFBin op a b => ob (eval env a) (fun v => ob (eval env b) (iFBin op v))
  | EFFma a b c => ob (eval env a) (fun u => ob (eval env b) (fun v => ob (eval env c) (iFFma u v)))
  | EFCmp c a b => ob (eval env a) (fun v => ob (eval env b) (iFCmp c v))
  | EF2S t a => ob (eval env a) (iF2S t)
  | EF2U t a => ob (eval env a) (iF2U t)
  | ES2F g a => ob (eval env a) (iS2F g)
  | EU2F g a => ob (eval env a) (iU2F g)
  | EFCast g a => ob (eval env a) (iFCast g)
  end.

(** ** The pass *)

(** what the folder does with an instruction: leaves it, replaces it by a constant, or
    runs into undefined behaviour of the compiler *)
Inductive fout := FNone | FVal (v : value) | FUB.
Definition fo {A} (m : option A) (k : A -> value) : fout := match m with Some a => FVal (k a) | None => FUB end.
(** makeInt / makeUInt / makeBool, ConstantPropagation.cpp:69-74, 191-193 *)
Definition makeInt (t : ty) (z : Z) : value := VI t (mk t z).

(** ConstantPropagation.cpp:85-89 *)
Definition fUn op v :=
  match v with
  | VI t s => match op with
      | ONeg => fo (i64 (- getS t s)) (makeInt t)
      | OAbs => fo (i64 (Z.abs (getS t s))) (makeInt t) end
  | _ => FNone end.
(** ConstantPropagation.cpp:90-127 *)
Definition fBin op v w :=
  match v, w with
  | VI t a, VI t' b =>
      let i1 := getS t a in let i2 := getS t' b in let u1 := getU t a in let u2 := getU t' b in
      match op with
      | OAdd => fo (i64 (i1 + i2)) (makeInt t)
      | OSub => fo (i64 (i1 - i2)) (makeInt t)
      | OMul => fo (i64 (i1 * i2)) (makeInt t)
      | OSDiv => if i2 =? 0 then FNone
                 else if (i1 =? -9223372036854775808) && (i2 =? -1) then FVal (makeInt t i1)
                 else FVal (makeInt t (Z.quot i1 i2))
      | OUDiv => if u2 =? 0 then FNone else FVal (makeInt t (s64 (u1 / u2)))
      | OSRem => if i2 =? 0 then FNone
                 else if (i1 =? -9223372036854775808) && (i2 =? -1) then FUB
                 else FVal (makeInt t (Z.rem i1 i2))
      | OURem => if u2 =? 0 then FNone else FVal (makeInt t (s64 (u1 mod u2)))
      | OShl => if 64 <=? u2 then FUB else FVal (makeInt t (s64 (u1 * 2 ^ u2)))
      | OLShr => if 64 <=? u2 then FUB else FVal (makeInt t (s64 (u1 / 2 ^ u2)))
      | OAShr => if 64 <=? u2 then FUB else FVal (makeInt t (i1 / 2 ^ u2))
      | OSMin => FVal (makeInt t (Z.min i1 i2))
      | OSMax => FVal (makeInt t (Z.max i1 i2))
      | OAnd => FVal (makeInt t (s64 (Z.land u1 u2)))
      | OOr => FVal (makeInt t (s64 (Z.lor u1 u2)))
      | OXor => FVal (makeInt t (s64 (Z.lxor u1 u2)))
      end
  | _, _ => FNone end.
(** ConstantPropagation.cpp:146-170, 195-198 *)
Definition fCmp c v w :=
  match v, w with
  | VI t a, VI t' b => FVal (makeInt I1 (b2z (doCompare c (getS t a) (getS t' b))))
  | _, _ => FNone end.
(** ConstantPropagation.cpp:208-220 *)
Definition fCast op t v :=
  match v with
  | VI t0 s => FVal (makeInt t (match op with OSExt | OSTrunc => getS t0 s | OZExt | OUTrunc => s64 (getU t0 s) end))
  | _ => FNone end.
(** ConstantPropagation.cpp:250-260; C++ == on doubles *)
Definition fSel (v w : value) :=
  match v, w with
  | VI t a, VI t' b => if getU t a =? getU t' b then FVal v else FNone
  | VF g x, VF h y => match fcmp3 (getF g x) (getF h y) with Some Eq => FVal v | _ => FNone end
  | _, _ => FNone end.
(** ConstantPropagation.cpp:128-145 *)
Definition fFUn op v := match v with VF g x => FVal (VF g (fop1 op (getF g x))) | _ => FNone end.
Definition fFBin op v w :=
  match v, w with VF g x, VF h y => FVal (VF g (fop op (getF g x) (getF h y))) | _, _ => FNone end.
Definition fFFma u v w :=
  match u, v, w with
  | VF g x, VF h y, VF k z => FVal (VF g (ffma (getF g x) (getF h y) (getF k z)))
  | _, _, _ => FNone end.
(** ConstantPropagation.cpp:172-190, 199-200 *)
Definition fFCmp c v w :=
  match v, w with
  | VF g x, VF h y => fo (doCompareFP c (fcmp3 (getF g x) (getF h y))) (fun r => makeInt I1 (b2z r))
  | _, _ => FNone end.
(** ConstantPropagation.cpp:221-247 *)
Definition fF2S t v := match v with VF g x => fo (f2s (getF g x)) (makeInt t) | _ => FNone end.
Definition fF2U t v := match v with VF g x => fo (f2u (getF g x)) (fun z => makeInt t (s64 z)) | _ => FNone end.
Definition fS2F g v := match v with VI t s => FVal (VF g (z2f (getS t s))) | _ => FNone end.
Definition fU2F g v := match v with VI t s => FVal (VF g (z2f (getU t s))) | _ => FNone end.
Definition fFCast g v := match v with VF h x => FVal (VF g (getF h x)) | _ => FNone end.

(** replace the instruction [e] by what the folder found *)
Definition use (e : expr) (r : fout) : option expr :=
  match r with FNone => Some e | FVal v => Some (EK v) | FUB => None end.

(** BlockUtil.cpp:41-63 reduceBlock visits the instructions in order, so the operands of
    an instruction have been folded before it ([None]: undefined behaviour of the
    compiler).  ConstantPropagation.cpp:79-81: only if all operands are constants. *)
Definition op1 (r : option expr) (k : expr -> expr) (f : value -> fout) : option expr :=
  match r with
  | Some a => match a with EK v => use (k a) (f v) | _ => Some (k a) end
  | None => None end.
Definition op2 (ra rb : option expr) (k : expr -> expr -> expr) (f : value -> value -> fout) : option expr :=
  match ra, rb with
  | Some a, Some b => match a, b with EK v, EK w => use (k a b) (f v w) | _, _ => Some (k a b) end
  | _, _ => None end.
Definition op3 (ra rb rc : option expr) (k : expr -> expr -> expr -> expr)
  (f : value -> value -> value -> fout) : option expr :=
  match ra, rb, rc with
  | Some a, Some b, Some c =>
      match a, b, c with EK u, EK v, EK w => use (k a b c) (f u v w) | _, _, _ => Some (k a b c) end
  | _, _, _ => None end.
Fixpoint cp (e : expr) : option expr :=
  match e with
  | EVar _ | EK _ => Some e
  | EUn op a => op1 (cp a) (EUn op) (fUn op)
  | EBin op a b => op2 (cp a) (cp b) (EBin op) (fBin op)
  | ECmp c a b => op2 (cp a) (cp b) (ECmp c) (fCmp c)
  | ECast op t a => op1 (cp a) (ECast op t) (fCast op t)
  | ESel c a b => op3 (cp c) (cp a) (cp b) ESel (fun _ => fSel)
  | EFUn op a => op1 (cp a) (EFUn op) (fFUn op)
  | EFBin op a b => op2 (cp a) (cp b) (EFBin op) (fFBin op)
  | EFFma a b c => op3 (cp a) (cp b) (cp c) EFFma fFFma
  | EFCmp c a b => op2 (cp a) (cp b) (EFCmp c) (fFCmp c)
  | EF2S t a => op1 (cp a) (EF2S t) (fF2S t)
  | EF2U t a => op1 (cp a) (EF2U t) (fF2U t)
  | ES2F g a => op1 (cp a) (ES2F g) (fS2F g)
  | EU2F g a => op1 (cp a) (EU2F g) (fU2F g)
  | EFCast g a => op1 (cp a) (EFCast g) (fFCast g)
  end.

(** ** Specification *)

(** two values no instruction can tell apart *)
Definition same (v w : value) : Prop :=
  match v, w with
  | VI t a, VI t' b => t = t' /\ getS t a = getS t b /\ getU t a = getU t b
  | VF g x, VF h y => g = h /\ getF g x = getF g y
  | _, _ => False
  end.
Definition same_outcome (o o' : outcome value) : Prop :=
  match o, o' with
  | Val v, Val w => same v w
  | Div0, Div0 => True
  | _, _ => False
  end.
(** storage of a variable or constant: an int64, and 0 or 1 for a boolean *)
Definition stored (v : value) : Prop :=
  match v with
  | VI I1 s => s = 0 \/ s = 1
  | VI _ s => -9223372036854775808 <= s < 9223372036854775808
  | VF _ _ => True
  end.
(** static type *)
Fixpoint typ (G : nat -> option ty) (e : expr) : option ty :=
  match e with
  | EVar n => G n
  | EK (VI t _) | ECast _ t _ | EF2S t _ | EF2U t _ => Some t
  | EK (VF _ _) | EFUn _ _ | EFBin _ _ _ | EFFma _ _ _ | ES2F _ _ | EU2F _ _ | EFCast _ _ => None
  | EUn _ a | EBin _ a _ => typ G a
  | ECmp _ _ _ | EFCmp _ _ _ => Some I1
  | ESel _ a _ => typ G a
  end.
(** boolean operations whose raw result is again 0 or 1 *)
Definition boolop (op : binop) : bool :=
  match op with OUDiv | OURem | OAnd | OOr | OXor | OLShr | OSMin | OSMax => true | _ => false end.
(** no boolean is produced by arithmetic or truncation, and no float by select *)
Fixpoint plain (G : nat -> option ty) (e : expr) : bool :=
  match e with
  | EVar _ => true
  | EK _ => true
  | EUn _ a => plain G a && match typ G a with Some I1 => false | _ => true end
  | EBin op a b => plain G a && plain G b && match typ G a with Some I1 => boolop op | _ => true end
  | ECmp _ a b | EFBin _ a b | EFCmp _ a b => plain G a && plain G b
  | ECast _ t a | EF2S t a | EF2U t a => plain G a && negb (is_bool t)
  | ESel c a b => plain G c && plain G a && plain G b && match typ G a with Some _ => true | None => false end
  | EFFma a b c => plain G a && plain G b && plain G c
  | EFUn _ a | ES2F _ a | EU2F _ a | EFCast _ a => plain G a
  end.
Fixpoint consts_ok (e : expr) : Prop :=
  match e with
  | EVar _ => True
  | EK v => stored v
  | EUn _ a | ECast _ _ a | EF2S _ a | EF2U _ a | EFUn _ a | ES2F _ a | EU2F _ a | EFCast _ a => consts_ok a
  | EBin _ a b | ECmp _ a b | EFBin _ a b | EFCmp _ a b => consts_ok a /\ consts_ok b
  | ESel a b c | EFFma a b c => consts_ok a /\ consts_ok b /\ consts_ok c
  end.
End FP.
Arguments VI {F} _ _. Arguments VF {F} _ _. Arguments EVar {F} _. Arguments EK {F} _. Arguments EUn {F} _ _.
Arguments EBin {F} _ _ _. Arguments ECmp {F} _ _ _. Arguments ECast {F} _ _ _. Arguments ESel {F} _ _ _.
Arguments EFUn {F} _ _. Arguments EFBin {F} _ _ _. Arguments EFFma {F} _ _ _. Arguments EFCmp {F} _ _ _.
Arguments EF2S {F} _ _. Arguments EF2U {F} _ _. Arguments ES2F {F} _ _. Arguments EU2F {F} _ _. Arguments EFCast {F} _ _.
Arguments FNone {F}. Arguments FVal {F} _. Arguments FUB {F}.
