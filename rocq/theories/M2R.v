(** Promotion of scalar variables to values: cmmc/Transforms/Combine/ScalarMem2Reg.cpp.  Property C48.

    Simplifications: [pr] gives the predecessors (CFGAnalysis), [order] the order in which blocks are visited
    (DominateAnalysis::blocks and the rest).  The counters [degree] of unvisited predecessor edges (148-155, 184-187) are replaced
    by the test that all predecessors have been visited, which is when they are 0.  Value* is an operand; [same] is the identity
    of Value*, so that different objects for equal constants may be taken for different values.  Values are not typed: a phi of
    pointers is any phi.  The recursion of useVar and of tryRemoveTrivalPhi is bounded; a bound that is reached yields [None] in
    the first and no further removal in the second. *)
From Coq Require Import ZArith Lia Bool List Arith.
From Verif Require Import Sim Ssa SsaCfg SsaMerge SsaFwd SsaWf SsaDom SsaPhi SsaCse LdSt.
Import ListNotations.

Inductive pkind := PkAlloc (t : nat) | PkLoad (t : nat) | PkStore (t : nat) | PkSelect | PkCast | PkCall | PkAtomic | PkOther.

Section Code.
Variable pk : nat -> pkind.
Variable scalar : nat -> bool.                    (* Type::isPrimitive *)
Variable same : opnd -> opnd -> bool.
Variable pr : nat -> list nat.

(** ** which variables are promoted *)
(** 236-246: the allocs at the beginning of the entry block *)
Fixpoint leading (l : list inst) : list nat :=
  match l with
  | i :: r => match pk (opc i) with PkAlloc t => (if scalar t then [dst i] else []) ++ leading r | _ => [] end
  | [] => []
  end.
(** 194-230: the operands through which the address gets away *)
Definition escapes (i : inst) : list opnd :=
  match pk (opc i) with
  | PkStore _ => match ops i with _ :: v :: _ => [v] | _ => [] end
  | PkSelect => match ops i with _ :: a :: b :: _ => [a; b] | _ => [] end
  | PkCast | PkAtomic => match ops i with p :: _ => [p] | _ => [] end
  | PkCall => ops i
  | _ => []
  end.
Definition escaping (f : func) : list opnd :=
  flat_map (fun b => flat_map (fun ph => map snd (inc ph)) (phis (snd b)) ++ flat_map escapes (body (snd b))) f.
Definition promotable (f : func) : list nat :=
  match get (entry f) f with
  | Some bk => filter (fun v => negb (existsb (opnd_eqb (ORes v)) (escaping f))) (leading (body bk))
  | None => []
  end.

(** ** the state of ScalarMem2RegContext *)
Record mst := Mst {
  fn : func;                                       (* the function as changed so far *)
  defs : list (nat * nat * opnd);                  (* mCurrentDef: variable, block, value; the newest entry counts *)
  seal : list nat;                                 (* mSealedBlocks *)
  todo : list (nat * (nat * nat));                 (* mIncompletePhis: block, variable, phi *)
  nxt : nat }.                                     (* the next new name *)
(** 55-57 defVar *)
Definition defVar (v b : nat) (o : opnd) (s : mst) : mst := Mst (fn s) ((v, b, o) :: defs s) (seal s) (todo s) (nxt s).
Definition findDef (v b : nat) (l : list (nat * nat * opnd)) : option opnd :=
  option_map snd (find (fun x => Nat.eqb (fst (fst x)) v && Nat.eqb (snd (fst x)) b) l).
Definition setFn (g : func) (s : mst) : mst := Mst g (defs s) (seal s) (todo s) (nxt s).
(** createPhi and insertBefore(block, begin) *)
Definition addPhi (b x : nat) (g : func) : func := map (fun y => if Nat.eqb (fst y) b then (fst y, Block (Phi x [] :: phis (snd y)) (body (snd y)) (trm (snd y))) else y) g.
Definition newPhi (b : nat) (s : mst) : mst := Mst (addPhi b (nxt s) (fn s)) (defs s) (seal s) (todo s) (S (nxt s)).
(** PhiInst::addIncoming *)
Definition addInc (x p : nat) (o : opnd) (g : func) : func :=
  map (fun y => (fst y, Block (map (fun ph => if Nat.eqb (pdst ph) x then Phi x (inc ph ++ [(p, o)]) else ph) (phis (snd y))) (body (snd y)) (trm (snd y)))) g.
Definition allPhis (g : func) : list phi := flat_map (fun y => phis (snd y)) g.
Definition incOf (x : nat) (g : func) : list opnd := flat_map (fun ph => if Nat.eqb (pdst ph) x then map snd (inc ph) else []) (allPhis g).
(** Value::replaceWith *)
Definition replace (x : nat) (c : opnd) (g : func) : func := subst (fun o => if opnd_eqb o (ORes x) then c else o) g.

(** 70-78: [None] if there are two different operands besides the phi itself *)
Fixpoint common (x : nat) (acc : option opnd) (l : list opnd) : option opnd :=
  match l with
  | [] => Some (match acc with Some c => c | None => OCst VUndef end)
  | o :: r =>
    if opnd_eqb o (ORes x) || match acc with Some c => same o c | None => false end then common x acc r
    else match acc with Some _ => None | None => common x (Some o) r end
  end.
(** 81-85 *)
Definition phiUsers (x : nat) (g : func) : list nat :=
  map pdst (filter (fun ph => negb (Nat.eqb (pdst ph) x) && existsb (fun o => opnd_eqb (snd o) (ORes x)) (inc ph)) (allPhis g)).
(** 68-97 tryRemoveTrivalPhi.  The phi stays where it is *)
Fixpoint tryRemove (n x : nat) (g : func) : func * opnd :=
  match n with
  | O => (g, ORes x)
  | S n' =>
    match common x None (incOf x g) with
    | None => (g, ORes x)
    | Some c => (fold_left (fun g' u => fst (tryRemove n' u g')) (phiUsers x g) (replace x c g), c)
    end
  end.
Variable deep : nat.                               (* the bound of tryRemove *)
(** 98-103 addPhiOperands without the last line; [uv] is useVar *)
Fixpoint fill (uv : nat -> mst -> option (mst * opnd)) (x : nat) (ps : list nat) (s : mst) : option mst :=
  match ps with
  | [] => Some s
  | p :: r => match uv p s with Some (s1, o) => fill uv x r (setFn (addInc x p o (fn s1)) s1) | None => None end
  end.
(** 58-67 and 107-127 useVar, useVarRecursive *)
Fixpoint useVar (n : nat) (e : nat) (v b : nat) (s : mst) : option (mst * opnd) :=
  match n with
  | O => None
  | S n' =>
    match findDef v b (defs s) with
    | Some o => Some (s, o)
    | None =>
      if Nat.eqb b e then Some (s, OCst VUndef)
      else if negb (existsb (Nat.eqb b) (seal s)) then
        let x := nxt s in let s1 := newPhi b s in
        Some (defVar v b (ORes x) (Mst (fn s1) (defs s1) (seal s1) (todo s1 ++ [(b, (v, x))]) (nxt s1)), ORes x)
      else match pr b with
      | [p] => match useVar n' e v p s with Some (s1, o) => Some (defVar v b o s1, o) | None => None end
      | ps =>
        let x := nxt s in
        match fill (useVar n' e v) x ps (defVar v b (ORes x) (newPhi b s)) with
        | Some s2 => let r := tryRemove deep x (fn s2) in Some (defVar v b (snd r) (setFn (fst r) s2), snd r)
        | None => None
        end
      end
    end
  end.
Variable fuel : nat.                               (* the bound of useVar *)
(** 128-138 sealBlock *)
Fixpoint fillAll (e b : nat) (l : list (nat * nat)) (s : mst) : option mst :=
  match l with
  | [] => Some s
  | (v, x) :: r =>
    match fill (useVar fuel e v) x (pr b) s with
    | Some s1 => fillAll e b r (setFn (fst (tryRemove deep x (fn s1))) s1)
    | None => None
    end
  end.
Definition todoOf (b : nat) (s : mst) : list (nat * nat) := map snd (filter (fun y => Nat.eqb (fst y) b) (todo s)).
Definition sealBlock (e b : nat) (s : mst) : option mst :=
  match fillAll e b (todoOf b s) s with
  | Some s1 => Some (Mst (fn s1) (defs s1) (b :: seal s1) (filter (fun y => negb (Nat.eqb (fst y) b)) (todo s1)) (nxt s1))
  | None => None
  end.
(** 146-149 tryMarkSealed; [done]: the blocks whose edges have been counted *)
Definition trySeal (e : nat) (done : list nat) (s : option mst) (b : nat) : option mst :=
  match s with
  | Some s => if forallb (fun p => existsb (Nat.eqb p) done) (pr b) && negb (existsb (Nat.eqb b) (seal s)) then sealBlock e b s else Some s
  | None => None
  end.
Variable vars : list nat.                          (* the promoted variables *)
Definition isVar (v : nat) : bool := existsb (Nat.eqb v) vars.
(** 157-181: the instruction at position [k] of block [b] *)
Definition visitInst (e b : nat) (s : option mst) (k : nat) : option mst :=
  match s with
  | None => None
  | Some s =>
    match get b (fn s) with
    | Some bk =>
      match nth_error (body bk) k with
      | Some i =>
        match pk (opc i), ops i with
        | PkLoad _, ORes v :: _ => if isVar v then
            match useVar fuel e v b s with Some (s1, o) => Some (setFn (replace (dst i) o (fn s1)) s1) | None => None end else Some s
        | PkStore _, ORes v :: o :: _ => if isVar v then Some (defVar v b o s) else Some s
        | _, _ => Some s
        end
      | None => Some s
      end
    | None => Some s
    end
  end.
Definition bodyLen (g : func) (b : nat) : nat := match get b g with Some bk => length (body bk) | None => 0 end.
Definition succsOf (g : func) (b : nat) : list nat := match get b g with Some bk => succs (trm bk) | None => [] end.
(** 155-188; the list of visited blocks goes along *)
Definition visit (e : nat) (a : list nat * option mst) (b : nat) : list nat * option mst :=
  let (done, s) := a in
  match s with
  | None => (done, None)
  | Some s0 =>
    let s1 := fold_left (visitInst e b) (seq 0 (bodyLen (fn s0) b)) (Some s0) in
    let s2 := trySeal e done s1 b in
    (b :: done, fold_left (trySeal e (b :: done)) (succsOf (fn s0) b) s2)
  end.
End Code.
(** all operands *)
Definition operands (f : func) : list opnd :=
  flat_map (fun y => flat_map (fun ph => map snd (inc ph)) (phis (snd y)) ++ flat_map ops (body (snd y)) ++ termOps (trm (snd y))) f.
(** a name that does not occur *)
Definition freshName (f : func) : nat := S (list_max (allResults f ++ flat_map res_of (operands f))).
(** the pass, 140-190 and 232-255 *)
Definition mem2reg (pk : nat -> pkind) (scalar : nat -> bool) (same : opnd -> opnd -> bool) (pr : nat -> list nat) (deep fuel : nat) (order : list nat) (f : func) : option func :=
  match promotable pk scalar f with
  | [] => Some f
  | vars => option_map fn (snd (fold_left (visit pk same pr deep fuel vars (entry f)) order ([], Some (Mst f [] [] [] (freshName f)))))
  end.

(** ** what memory is (specification) *)
Section Spec.
Context {W : Type} (m : sem W) (M : memory W) (pk : nat -> pkind).
(** loads and stores do what Interpreter.cpp says; an alloc gives memory with undefined contents *)
Definition memMeaning : Prop :=
  (forall o t, pk o = PkLoad t -> forall vs w, meaning m o vs w =
     match vs with [VOpq a] => match ld M t a w with Some v => IOk v w | None => IBad end | _ => IBad end) /\
  (forall o t, pk o = PkStore t -> forall vs w, meaning m o vs w =
     match vs with [VOpq a; v] => match sto M t a v w with Some w' => IOk VUndef w' | None => IBad end | _ => IBad end) /\
  (forall o t, pk o = PkAlloc t -> forall vs w v w', meaning m o vs w = IOk v w' -> exists a, v = VOpq a /\ ld M t a w' = Some VUndef) /\
  (forall t a v w w', sto M t a v w = Some w' -> ld M t a w' = Some v).

(** who has an address: [knows u a]: with the value [u] one gets at the cell [a]; [priv a w]: nothing in the world gives [a] away.
    An instruction that is not given an address does not get at a private cell, and does not give it away *)
Record secrecy := Sec { knows : value -> Z -> Prop; priv : Z -> W -> Prop }.
Definition secret (K : secrecy) : Prop :=
  (forall z a, ~ knows K (VInt z) a) /\ (forall a, ~ knows K VUndef a) /\
  (forall o vs w v w' a, meaning m o vs w = IOk v w' -> priv K a w -> (forall u, In u vs -> ~ knows K u a) ->
     ~ knows K v a /\ priv K a w' /\ forall t, ld M t a w' = ld M t a w) /\
  (forall t a w u, ld M t a w = Some u -> priv K a w -> ~ knows K u a) /\
  (forall t a u w w', sto M t a u w = Some w' -> priv K a w -> ~ knows K u a -> priv K a w').
End Spec.
(** instruction [i] passes the value of [o] on: stores it, selects it, casts it, uses it atomically or calls with it *)
Definition passesOn (pk : nat -> pkind) (i : inst) (o : opnd) : Prop :=
  (exists t p r, pk (opc i) = PkStore t /\ ops i = p :: o :: r) \/
  (exists c a b r, pk (opc i) = PkSelect /\ ops i = c :: a :: b :: r /\ (a = o \/ b = o)) \/
  (exists r, (pk (opc i) = PkCast \/ pk (opc i) = PkAtomic) /\ ops i = o :: r) \/
  (pk (opc i) = PkCall /\ In o (ops i)).
(** the uses of a variable of type [t] that the verifier admits, apart from those that make it escape and from address arithmetic *)
Definition usedAs (pk : nat -> pkind) (f : func) (v t : nat) : Prop :=
  forall b bk i, get b f = Some bk -> In i (body bk) -> In (ORes v) (ops i) ->
    (pk (opc i) = PkLoad t /\ ops i = [ORes v]) \/ (exists o, pk (opc i) = PkStore t /\ ops i = [ORes v; o]) \/ passesOn pk i (ORes v).
Definition plainVars (pk : nat -> pkind) (scalar : nat -> bool) (f : func) : Prop :=
  forall bk i t, get (entry f) f = Some bk -> In i (body bk) -> pk (opc i) = PkAlloc t -> In (dst i) (promotable pk scalar f) -> usedAs pk f (dst i) t.
Lemma passesOn_escapes pk i o : passesOn pk i o -> In o (escapes pk i).
Proof.
  unfold escapes. intros [(t & p & r & -> & ->)|[(c & a & b & r & -> & -> & K)|[(r & [-> | ->] & ->)|[-> K]]]]; cbn; auto.
  destruct K; auto.
Qed.
