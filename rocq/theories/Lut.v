(** Lookup tables replaced by expressions.

    Models cmmc/Transforms/Combine/LUT2Expr.cpp:41-382: recognition of the table
    patterns, the bookkeeping of which array elements are known while walking a block,
    the inheritance of that knowledge along the dominator tree, and the rewriting of
    loads.

    Simplifications:
    - SSA values are numbered variables ([VV]) and constant objects ([VC], compared by
      identity as the code compares pointers); variable [x] is an integer of [ty x] bits;
    - an address is what a chain of getelementptr instructions on an array gives:
      [AGepN b i] is element [i] of the array [b] (indices 0, i), [AGep2 a i] moves an
      element pointer by [i] (the form with two operands).  Pointers made in any other
      way have an unknown base ([IStoreU], or [IPure] for loads); the pointer-base
      analysis is taken to be right;
    - the iteration order of [std::unordered_map] is an arbitrary permutation [order];
    - replacing the uses of the load by the expression is modelled as replacing the
      load itself by an instruction computing the expression. *)
From Coq Require Import ZArith List Lia Bool Permutation.
From Verif Require Import Word.
Import ListNotations.
Open Scope Z_scope.

Inductive value := VC (c : nat) | VV (x : nat).
Definition value_eqb (a b : value) : bool :=
  match a, b with VC x, VC y => Nat.eqb x y | VV x, VV y => Nat.eqb x y | _, _ => false end.

Inductive addr := AGepN (b : nat) (i : value) | AGep2 (a : addr) (i : value).

(** LUT2Expr.cpp:43-51. *)
Inductive pat := PUnknown | PConstant | PIdentity | PShl | PAdd | PSub.

(** [Crash]: an exception ([unordered_map::at] on a missing key) or a failed lookup;
    [Undef]: undefined behaviour of the compiler itself (shift by 64 or more). *)
Inductive outcome (A : Type) := Done (a : A) | Crash | Undef.
Arguments Done {A} _. Arguments Crash {A}. Arguments Undef {A}.

Definition env := nat -> Z.
Definition mem := nat -> Z -> Z.

Inductive inst :=
  | ILoad (d : nat) (a : addr)
  | IStore (a : addr) (v : value)
  | IStoreU (f : env -> mem -> mem)                       (* store/atomic, unknown base *)
  | ICall (nowrite : bool) (d : nat) (f : env -> mem -> Z) (g : env -> mem -> mem)
  | IAtomic (d : nat) (a : addr) (v : value)
  | IPure (d : nat) (f : env -> mem -> option Z).

Fixpoint abase (a : addr) : nat := match a with AGepN b _ => b | AGep2 a' _ => abase a' end.

Section LUT.
Variable ty : nat -> Z.        (* width of a variable *)
Variable cty : nat -> Z.       (* width of a constant *)
Variable cval : nat -> Z.      (* value of a constant *)
Variable ew : nat -> Z.        (* element width of an array *)
Variable sz : nat -> Z.        (* element count of an array *)
Variable isLut : nat -> bool.  (* member of lutAddr: entry-block array, at most 1024 integers *)
Variable order : list (Z * value) -> list (Z * value).

Definition vty (v : value) : Z := match v with VC c => cty c | VV x => ty x end.
Definition cv (c : nat) : Z := sgn (cty c) (cval c).     (* getSignExtended *)
Definition oval (e : env) (v : value) : Z :=
  match v with VC c => cv c | VV x => sgn (ty x) (e x) end.

(** ** Meaning of the instructions *)
Fixpoint off (e : env) (a : addr) : Z :=
  match a with AGepN _ i => oval e i | AGep2 a' i => off e a' + oval e i end.
Definition inb (e : env) (a : addr) : bool := (0 <=? off e a) && (off e a <? sz (abase a)).
Definition sete (e : env) (d : nat) (z : Z) : env := fun x => if Nat.eqb x d then z else e x.
Definition setm (m : mem) (b : nat) (k z : Z) : mem :=
  fun b' k' => if Nat.eqb b' b && (k' =? k) then z else m b' k'.

(** [None]: undefined behaviour of the program. *)
Definition exec1 (i : inst) (s : env * mem) : option (env * mem) :=
  let (e, m) := s in
  match i with
  | ILoad d a => if inb e a then Some (sete e d (m (abase a) (off e a)), m) else None
  | IStore a v => if inb e a then Some (e, setm m (abase a) (off e a) (oval e v)) else None
  | IStoreU f => Some (e, f e m)
  | ICall nw d f g => Some (sete e d (f e m), if nw then m else g e m)
  | IAtomic d a v =>
      if inb e a then
        let old := m (abase a) (off e a) in
        Some (sete e d old, setm m (abase a) (off e a) (sgn (ew (abase a)) (old + oval e v)))
      else None
  | IPure d f => match f e m with Some z => Some (sete e d z, m) | None => None end
  end.
Fixpoint exec (c : list inst) (s : env * mem) : option (env * mem) :=
  match c with [] => Some s | i :: c' => match exec1 i s with Some s' => exec c' s' | None => None end end.

(** ** The pass *)
Record storage := mkSt { imap : list (Z * value); ctype : option pat }.   (* 53-55; None = Dirty *)
Definition lut := nat -> option storage.
Definition empty : lut := fun _ => None.

Fixpoint assoc {A} (k : Z) (l : list (Z * A)) : option A :=
  match l with [] => None | (k', v) :: l' => if k' =? k then Some v else assoc k l' end.

(** LUT2Expr.cpp:57-65. *)
Definition matchConstant (l : list (Z * value)) : bool :=
  match l with [] => true | (_, c) :: _ => forallb (fun p => value_eqb c (snd p)) l end.
(** LUT2Expr.cpp:67-73. *)
Definition matchIdentity (l : list (Z * Z)) : bool := forallb (fun p => fst p =? snd p) l.
(** LUT2Expr.cpp:86-94 and 96-104. *)
Definition matchAdd (l : list (Z * Z)) : outcome bool :=
  match assoc 0 l with Some b => Done (forallb (fun p => snd p =? b + fst p) l) | None => Crash end.
Definition matchSub (l : list (Z * Z)) : outcome bool :=
  match assoc 0 l with Some b => Done (forallb (fun p => snd p =? b - fst p) l) | None => Crash end.
(** LUT2Expr.cpp:75-84: [base << k] on intmax_t, undefined for k >= 64; entries are
    visited in iteration order up to the first mismatch. *)
Fixpoint shlLoop (b : Z) (l : list (Z * Z)) : outcome bool :=
  match l with
  | [] => Done true
  | (k, v) :: l' => if 64 <=? k then Undef else if v =? s64 (b * 2 ^ k) then shlLoop b l' else Done false
  end.
Definition matchShl (l : list (Z * Z)) : outcome bool :=
  match assoc 0 l with Some b => shlLoop b l | None => Crash end.

(** LUT2Expr.cpp:117-123: all entries must be constants. *)
Fixpoint constants (l : list (Z * value)) : option (list (Z * Z)) :=
  match l with
  | [] => Some []
  | (k, VC c) :: l' => match constants l' with Some r => Some ((k, cv c) :: r) | None => None end
  | (_, VV _) :: _ => None
  end.

Definition orElse (a : outcome bool) (yes : pat) (no : outcome pat) : outcome pat :=
  match a with Done true => Done yes | Done false => no | Crash => Crash | Undef => Undef end.

(** LUT2Expr.cpp:110-138. *)
Definition matchExpr (m : list (Z * value)) : outcome pat :=
  match m with
  | [] => Done PUnknown
  | _ =>
      if matchConstant (order m) then Done PConstant
      else match constants (order m) with
      | None => Done PUnknown
      | Some l =>
          if matchIdentity l then Done PIdentity
          else orElse (matchAdd l) PAdd (orElse (matchSub l) PSub (orElse (matchShl l) PShl (Done PUnknown)))
      end
  end.

(** LUT2Expr.cpp:140-147; the result also carries the storage with its cache filled. *)
Definition query (s : storage) (size : Z) : outcome (pat * storage) :=
  if negb (Z.of_nat (length (imap s)) =? size) then Done (PUnknown, s)
  else match ctype s with
  | Some p => Done (p, s)
  | None => match matchExpr (imap s) with
            | Done p => Done (p, mkSt (imap s) (Some p))
            | Crash => Crash | Undef => Undef
            end
  end.

(** LUT2Expr.cpp:151-171. *)
Fixpoint getConstantIndex (a : addr) : option Z :=
  match a with
  | AGep2 a' (VC c) => match getConstantIndex a' with Some k => Some (k + cv c) | None => None end
  | AGepN _ (VC c) => Some (cv c)
  | _ => None
  end.
(** LUT2Expr.cpp:173-195. *)
Fixpoint getDynamicIndex (a : addr) (offset : Z) : option (value * Z) :=
  match a with
  | AGep2 a' (VC c) => getDynamicIndex a' (offset + cv c)
  | AGep2 a' (VV x) => match getConstantIndex a' with Some k => if k =? 0 then Some (VV x, offset) else None | None => None end
  | AGepN _ (VV x) => Some (VV x, offset)
  | AGepN _ (VC _) => None
  end.

(** LUT2Expr.cpp:197-212 with the IR meaning of the instruction built: w-bit results, a
    shift amount of w or more is undefined (unless zero is shifted, which gives zero in
    the interpreter and on every target). *)
Definition buildPattern (w : Z) (p : pat) (b i : Z) : option Z :=
  match p with
  | PConstant => Some b
  | PIdentity => Some i
  | PShl => if (uns w i <? w) || (b =? 0) then Some (sgn w (b * 2 ^ uns w i)) else None
  | PAdd => Some (sgn w (i + b))
  | PSub => Some (sgn w (b - i))
  | PUnknown => None
  end.
(** LUT2Expr.cpp:242-251: the index, with the constant offset added if there is one. *)
Definition indexExpr (w : Z) (i o : Z) : Z := if o =? 0 then i else sgn w (i + sgn w o).

Definition lset (L : lut) (b : nat) (s : storage) : lut := fun b' => if Nat.eqb b' b then Some s else L b'.
Definition lerase (L : lut) (b : nat) : lut := fun b' => if Nat.eqb b' b then None else L b'.
Fixpoint mset (k : Z) (v : value) (l : list (Z * value)) : list (Z * value) :=
  match l with [] => [(k, v)] | (k', v') :: l' => if k' =? k then (k, v) :: l' else (k', v') :: mset k v l' end.

(** LUT2Expr.cpp:217-296: one instruction of [runBlock]. *)
Definition tinst (i : inst) (L : lut) : outcome (inst * lut) :=
  match i with
  | ILoad d a =>
      match L (abase a) with
      | None => Done (i, L)
      | Some s =>
          match query s (sz (abase a)) with
          | Crash => Crash | Undef => Undef
          | Done (p, s') =>
              let L' := lset L (abase a) s' in
              match p with
              | PUnknown => Done (i, L')
              | _ =>
                  match getDynamicIndex a 0 with
                  | None => Done (i, L')
                  | Some (ix, o) =>
                      match assoc 0 (imap s) with
                      | None => Crash
                      | Some bv =>
                          if negb (vty bv =? vty ix) then Done (i, L')
                          else Done (IPure d (fun e _ =>
                                 buildPattern (vty ix) p (oval e bv) (indexExpr (vty ix) (oval e ix) o)), L')
                      end
                  end
              end
          end
      end
  | IStore a v =>
      if isLut (abase a) then
        match getConstantIndex a with
        | Some k =>
            let m := match L (abase a) with Some s => imap s | None => [] end in
            Done (i, lset L (abase a) (mkSt (mset (u32 k) v m) None))
        | None => Done (i, lerase L (abase a))
        end
      else Done (i, L)
  | IStoreU _ => Done (i, empty)
  | ICall nw _ _ _ => Done (i, if nw then L else empty)
  | IAtomic _ a _ => Done (i, if isLut (abase a) then lerase L (abase a) else L)
  | IPure _ _ => Done (i, L)
  end.
Fixpoint tblock (c : list inst) (L : lut) : outcome (list inst * lut) :=
  match c with
  | [] => Done ([], L)
  | i :: c' => match tinst i L with
      | Done (i', L1) => match tblock c' L1 with Done (c1, L2) => Done (i' :: c1, L2) | Crash => Crash | Undef => Undef end
      | Crash => Crash | Undef => Undef end
  end.

(** LUT2Expr.cpp:349-372: the parent's table with everything the block itself may write
    removed (in a self loop the block is its own predecessor). *)
Definition inherit1 (i : inst) (L : lut) : lut :=
  match i with
  | ICall nw _ _ _ => if nw then L else empty
  | IStore a _ | IAtomic _ a _ => lerase L (abase a)
  | IStoreU _ => empty
  | _ => L
  end.
Definition inherit (c : list inst) (L : lut) : lut := fold_left (fun L i => inherit1 i L) c L.
End LUT.
