(** Alignment of pointers: cmmc/Analysis/PointerAlignmentAnalysis.cpp.  Property C45.

    Simplifications: pointer values of one function (and the globals) are numbered; [users] is the list of the users
    that the code enqueues (pointer instructions of the same function), in any order.  The answers of the range analysis
    and of the scalar evolution analysis are given. *)
From Coq Require Import ZArith List Bool Lia PeanoNat.
From Verif Require Import Word Addr.
Import ListNotations.
Local Open Scope Z_scope.

(** how a pointer is made *)
Inductive pk :=
  | PFix (al : Z)                                   (* a global variable or a stack object, with its declared alignment *)
  | POpq                                            (* an argument, a loaded pointer, the result of a call, a constant *)
  | PPhi (inc : list nat)
  | PSel (x y : nat)
  | PGep (base : nat) (is : list idx)
  | PCast (x : nat)
  | PAdd (x : nat) (c : Z).
Record pprog := { knd : nat -> pk; pty : nat -> ty;            (* pointee type *)
                  users : nat -> list nat;
                  ids : list nat;                              (* globals, pointer arguments, pointer instructions, in order *)
                  kz : nat -> nat -> Z;                        (* range.query(idx, dom, u, 5).knownZeros(): uint32_t *)
                  stp : nat -> option Z }.                     (* the step, if scev.query(idx) is {0, +, step} *)
Section A.
Variable P : Z.
Variable pr : pprog.
Notation natural i := (align P (pty pr i)).
Definition lowb (x : Z) : Z := Z.land x (- x).
Definition c32 (x : Z) : Z := x mod 4294967296.                (* static_cast<uint32_t> *)

(** the state of the analysis: the storage and the queue *)
Record ast := { sto : nat -> option Z; que : list nat; inQ : nat -> bool; cnt : nat -> nat }.
(** 190-194 lookup *)
Definition lookup (s : ast) (i : nat) : Z := match sto s i with Some v => v | None => natural i end.
(** 54-68 *)
Definition push (s : ast) (u : nat) : ast :=
  if inQ s u then s
  else if Nat.ltb (cnt s u) 32 then {| sto := sto s; que := que s ++ [u]; inQ := fun x => if Nat.eqb x u then true else inQ s x; cnt := fun x => if Nat.eqb x u then S (cnt s x) else cnt s x |}
  else {| sto := sto s; que := que s; inQ := inQ s; cnt := fun x => if Nat.eqb x u then S (cnt s x) else cnt s x |}.
Definition update (s : ast) (p : nat) (v : Z) : ast :=
  let old := match sto s p with Some x => x | None => 0 end in
  let set z := {| sto := fun x => if Nat.eqb x p then Some z else sto s x; que := que s; inQ := inQ s; cnt := cnt s |} in
  if old <? v then fold_left push (users pr p) (set v) else set old.
(** 70-94: the initial claims *)
Definition init : ast :=
  fold_left (fun s i => match knd pr i with PFix al => update s i (c32 al) | _ => update s i (lookup s i) end) (ids pr)
            {| sto := fun _ => None; que := []; inQ := fun _ => false; cnt := fun _ => O |}.
(** 101-136: the claim for a phi *)
Definition selfGep (u v : nat) : option idx := match knd pr v with PGep b (i :: _) => if Nat.eqb b u then Some i else None | _ => None end.
Fixpoint phiScan (s : ast) (u : nat) (l : list nat) (m : Z) (incs : list (idx * Z)) : Z * list (idx * Z) :=
  match l with
  | [] => (m, incs)
  | v :: r =>
    if Nat.eqb v u then phiScan s u r m incs
    else match selfGep u v with
         | Some i => phiScan s u r m (incs ++ [(i, lookup s v)])
         | None => phiScan s u r (Z.min m (lookup s v)) incs
         end
  end.
Definition phiInc (u : nat) (m : Z) (ia : idx * Z) : Z :=
  match fst ia with
  | IC w z => let inc := sgn 64 (sx w z * size P (pty pr u)) in if inc =? 0 then m else Z.min m (c32 (lowb inc))
  | _ => Z.min m (snd ia)
  end.
(** 141-174: the claim for a getelementptr *)
Definition scale (u x : nat) : Z :=
  let mask := c32 (kz pr u x + 1) in
  let s := Z.max 1 (lowb mask) in
  match stp pr x with Some d => Z.max s d | None => s end.
Definition gepStep (u : nat) (m : Z) (si : Z * idx) : Z :=
  match snd si with
  | IV _ x => let times := sgn 64 (fst si * scale u x) in if times =? 0 then m else Z.min m (c32 (lowb times))
  | _ => m
  end.
(** 96-187: one round of the loop *)
Definition visit (s : ast) (u : nat) : ast :=
  match knd pr u with
  | PPhi l => let '(m, incs) := phiScan s u l 16 [] in update s u (fold_left (phiInc u) incs m)
  | PSel x y => update s u (Z.min (lookup s x) (lookup s y))
  | PGep b is =>
    match gather P 0 (TPtr (pty pr b)) is with
    | Some (c, l) => update s u (fold_left (gepStep u) l (let a := lookup s b in if c =? 0 then a else Z.min a (c32 (lowb c))))
    | None => s
    end
  | PCast x => update s u (lookup s x)
  | PAdd x c => let a := c32 (lowb c) in if a =? 0 then update s u (lookup s x) else update s u (Z.min (lookup s x) a)
  | _ => s
  end.
Definition round (s : ast) : option ast :=
  match que s with
  | [] => None
  | u :: r => Some (visit {| sto := sto s; que := r; inQ := fun x => if Nat.eqb x u then false else inQ s x; cnt := cnt s |} u)
  end.
Fixpoint rounds (n : nat) (s : ast) : ast := match n with O => s | S m => match round s with Some s' => rounds m s' | None => s end end.
(** the result, after at most [n] rounds *)
Definition claim (n : nat) (i : nat) : Z := lookup (rounds n init) i.
End A.
