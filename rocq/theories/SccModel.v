(** Strongly connected components.

    Models cmmc/Support/Graph.cpp:19-50 ([calcSCC], Tarjan's algorithm), used by
    the call-graph SCC analysis, phi elimination, SCC elimination, conditional
    propagation and phi lowering.

    Simplifications (said once here):
    - [NodeIndex] is [uint32_t]; every number occurring in the run ([icnt], [top],
      [ccnt]) is at most the number of nodes, so [nat] without wrap-around is exact
      for graphs of fewer than 2^32 nodes;
    - the vectors [dfn low col flag] are functions from indices; an access with an
      index that is not below [size] is undefined behaviour in C++ and the model
      returns [None] for it;
    - the array [st] together with [top] is a list with the top of the stack first;
      popping the empty stack (unsigned wrap of [--top], then an out-of-bounds read)
      is also [None];
    - the recursive lambda takes fuel, running out of which is [None] too.
    The theorems in SccProps.v show that [None] does not happen. *)
From Coq Require Import List Arith Lia Bool.
Import ListNotations.

(** Graph.hpp:24: adjacency lists. *)
Definition graph := list (list nat).
Definition succs (g : graph) (u : nat) : list nat := nth u g [].

Record st8 := mkS {
  dfn : nat -> nat; low : nat -> nat; flag : nat -> bool; col : nat -> nat;
  stk : list nat; ccnt : nat; icnt : nat }.

Definition upd {A} (f : nat -> A) (k : nat) (x : A) : nat -> A :=
  fun i => if Nat.eqb i k then x else f i.

(** Graph.cpp:25-27. *)
Definition enter (u : nat) (s : st8) : st8 :=
  mkS (upd (dfn s) u (S (icnt s))) (upd (low s) u (S (icnt s))) (upd (flag s) u true) (col s)
      (u :: stk s) (ccnt s) (S (icnt s)).

(** Graph.cpp:31 and 34: [low[u] = std::min(low[u], x)]. *)
Definition setmin (u x : nat) (s : st8) : st8 :=
  mkS (dfn s) (upd (low s) u (Nat.min (low s u) x)) (flag s) (col s) (stk s) (ccnt s) (icnt s).

(** Graph.cpp:39-43: the do-while loop popping the stack until [u]. *)
Fixpoint poploop (u c : nat) (st : list nat) (fl : nat -> bool) (cl : nat -> nat)
  : option (list nat * (nat -> bool) * (nat -> nat)) :=
  match st with
  | [] => None
  | v :: st' =>
      if Nat.eqb v u then Some (st', upd fl v false, upd cl v c)
      else poploop u c st' (upd fl v false) (upd cl v c)
  end.

(** Graph.cpp:37-44. *)
Definition leave (u : nat) (s : st8) : option st8 :=
  if Nat.eqb (dfn s u) (low s u) then
    match poploop u (ccnt s) (stk s) (flag s) (col s) with
    | Some (st', fl, cl) => Some (mkS (dfn s) (low s) fl cl st' (S (ccnt s)) (icnt s))
    | None => None
    end
  else Some s.

(** Graph.cpp:28-36: the loop over the successors, with the recursive call [self]. *)
Fixpoint edges (n : nat) (self : nat -> st8 -> option st8) (u : nat) (vs : list nat) (s : st8) : option st8 :=
  match vs with
  | [] => Some s
  | v :: vs' =>
      if negb (v <? n) then None
      else if negb (Nat.eqb (dfn s v) 0) then
        edges n self u vs' (if flag s v then setmin u (dfn s v) s else s)
      else match self v s with
           | None => None
           | Some s' => edges n self u vs' (setmin u (low s' v) s')
           end
  end.

(** Graph.cpp:24-45: the recursive lambda [dfs]. *)
Fixpoint dfs (g : graph) (fuel : nat) (u : nat) (s : st8) : option st8 :=
  match fuel with
  | O => None
  | S f => match edges (length g) (dfs g f) u (succs g u) (enter u s) with
           | None => None
           | Some s' => leave u s'
           end
  end.

(** Graph.cpp:47-49: [for(i < size) if(!dfn[i]) dfs(dfs, i)]. *)
Fixpoint outer (g : graph) (is : list nat) (s : st8) : option st8 :=
  match is with
  | [] => Some s
  | i :: is' =>
      if Nat.eqb (dfn s i) 0
      then match dfs g (S (length g)) i s with Some s' => outer g is' s' | None => None end
      else outer g is' s
  end.

Definition init : st8 := mkS (fun _ => 0) (fun _ => 0) (fun _ => false) (fun _ => 0) [] 0 0.

(** Graph.cpp:19-50: returns the number of components and the component of each node. *)
Definition calcSCC (g : graph) : option (nat * list nat) :=
  match outer g (seq 0 (length g)) init with
  | Some s => Some (ccnt s, map (col s) (seq 0 (length g)))
  | None => None
  end.
