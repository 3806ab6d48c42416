(** C54: what a branch tells about its condition, ConditionalPropagation
    (cmmc/Transforms/Combine/ConditionalPropagation.cpp).  The components are those of the model of calcSCC, SccModel.v. *)
From Coq Require Import ZArith Lia Bool List Arith.
From Verif Require Import Ssa SsaCfg SsaFwd SsaSub.
From Verif Require SccModel.
Import ListNotations.

(** lines 31-34 Condition: a condition and its value; [None] for a null pointer *)
Definition cond := option (opnd * bool).
(** lines 40-43 ConditionSet.  Simplification: the sets are lists, of which only membership matters *)
Record cset := Cs { cT : list opnd; cF : list opnd; cE : bool }.
Definition emptySet : cset := Cs [] [] true.
Definition inO (o : opnd) (l : list opnd) : bool := existsb (opnd_eqb o) l.
Definition isC (v : bool) (c : cond) (o : opnd) : bool :=
  match c with Some (x, b) => Bool.eqb b v && opnd_eqb o x | None => false end.
Definition addC (v : bool) (c : cond) (l : list opnd) : list opnd :=
  match c with Some (x, b) => if Bool.eqb b v then x :: l else l | None => l end.
(** lines 45-71 merge *)
Definition merge (s rhs : cset) (c : cond) : cset :=
  if cE s then Cs (addC true c (cT rhs)) (addC false c (cF rhs)) false
  else Cs (filter (fun o => inO o (cT rhs) || isC true c o) (cT s)) (filter (fun o => inO o (cF rhs) || isC false c o) (cF s)) false.
(** lines 73-83 finalize *)
Definition finalize (s : cset) : cset :=
  Cs (filter (fun o => negb (inO o (cF s))) (cT s)) (filter (fun o => negb (inO o (cT s))) (cF s)) (cE s).

(** ** lines 161-191: the queue.  [cnt]: the number of components; [dag]: their successors; [ec]: what is known on an edge *)
Definition setf {A} (f : nat -> A) (k : nat) (x : A) : nat -> A := fun i => if Nat.eqb i k then x else f i.
Section Queue.
Variables (cnt : nat) (dag : nat -> list nat) (ec : nat -> nat -> cond).
Definition qst := (list nat * (nat -> nat) * (nat -> cset))%type.
(** lines 173-190: one edge.  Line 187 counts down a number that is not zero *)
Definition visit (u : nat) (s : qst) (v : nat) : qst :=
  let '(q, ind, color) := s in
  let n := pred (ind v) in
  (if Nat.eqb n 0 then q ++ [v] else q, setf ind v n, setf color v (merge (color v) (color u) (ec u v))).
(** lines 167-191; [fuel]: the components not taken yet *)
Fixpoint queue (fuel : nat) (s : qst) : option (nat -> cset) :=
  let '(q, ind, color) := s in
  match q, fuel with
  | [], _ => Some color
  | _, O => None
  | u :: q', S n => queue n (fold_left (visit u) (dag u) (q', ind, setf color u (finalize (color u))))
  end.
(** lines 120-132: the number of edges to a component.  Simplification: counted at once, not edge by edge *)
Definition indeg0 (v : nat) : nat := length (filter (fun u => existsb (Nat.eqb v) (dag u)) (seq 0 cnt)).
(** lines 161-164 *)
Definition colors : option (nat -> cset) :=
  queue cnt (filter (fun v => Nat.eqb (indeg0 v) 0) (seq 0 cnt), indeg0, fun _ => emptySet).
End Queue.

(** ** the function *)
(** lines 106-109: the position of a block *)
Fixpoint idx (f : func) (b : nat) : nat :=
  match f with [] => 0 | (k, _) :: l => if Nat.eqb k b then 0 else S (idx l b) end.
(** CFGAnalysis.cpp:33-53: the successors, each once *)
Definition succU (bk : block) : list nat := nodup Nat.eq_dec (succs (trm bk)).
(** lines 110-116 *)
Definition graphOf (f : func) : SccModel.graph := map (fun kb => map (idx f) (succU (snd kb))) f.
Section Fn.
Variables (ord : nat -> list nat -> list nat) (f : func) (cols : list nat).
Definition colOf (b : nat) : nat := nth (idx f b) cols 0.
(** lines 120-132; [ord]: the order of an std::unordered_set (line 173) *)
Definition dagOf (u : nat) : list nat :=
  ord u (nodup Nat.eq_dec (flat_map (fun kb => if Nat.eqb (colOf (fst kb)) u
    then filter (fun v => negb (Nat.eqb v u)) (map colOf (succU (snd kb))) else []) f)).
(** lines 148-156: what is known behind the branch [t] to [y] *)
Definition condTo (t : term) (y : nat) : cond :=
  match t with TCond c a b => if Nat.eqb a b then None else Some (c, Nat.eqb y a) | _ => None end.
(** lines 134-159 *)
Definition edgeConds (u v : nat) : list cond :=
  flat_map (fun kb => if Nat.eqb (colOf (fst kb)) u
    then map (condTo (trm (snd kb))) (filter (fun y => Nat.eqb (colOf y) v) (succU (snd kb))) else []) f.
Definition sameC (a b : cond) : bool :=
  match a, b with Some (x, v), Some (y, w) => opnd_eqb x y && Bool.eqb v w | None, None => true | _, _ => false end.
(** lines 174-182.  Simplification: constants are compared by value, not by address; no constant is replaced *)
Definition edgeCond (u v : nat) : cond :=
  match edgeConds u v with
  | Some c :: l => if forallb (sameC (Some c)) (Some c :: l) then Some c else None
  | _ => None
  end.
End Fn.
(** lines 193-206: replaceWithInBlock (cmmc/IR/Instruction.cpp:175-187) of what is known in the block of the use *)
Definition known (s : cset) (o : opnd) : opnd :=
  match o with
  | ORes _ => if inO o (cT s) then OCst (VInt 1) else if inO o (cF s) then OCst (VInt 0) else o
  | _ => o
  end.
(** lines 103-209 run *)
Definition condProp (ord : nat -> list nat -> list nat) (f : func) : option func :=
  match SccModel.calcSCC (graphOf f) with
  | None => None
  | Some (cnt, cols) =>
    match colors cnt (dagOf ord f cols) (edgeCond f cols) with
    | None => None
    | Some color =>
      let k b := known (color (colOf f cols b)) in Some (substB k (fun _ b => k b) f)
    end
  end.
