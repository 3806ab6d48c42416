(** cmmc/Transforms/DCE/StoreEliminate.cpp, the pass StoreEliminate (lines 46-173): stores nobody can see and stores of what is
    there already.  Property C46.

    Simplifications: the answers of the analyses are parameters: [dist] AliasAnalysisResult::isDistinct, [base]
    PointerBaseAnalysisResult::lookup, [dom] DominateAnalysisResult::dominate, [stk] PointerAddressSpaceAnalysisResult::mustBe
    InternalStack, [touches] StackAddressLeakAnalysisResult::mayRead or mayModify, [isAlloc] whether the address is the result of
    an alloc instruction.  The analyses are computed once for the function and not again while stores are removed. *)
From Coq Require Import ZArith Lia Bool List Arith.
From Verif Require Import Sim Ssa SsaCfg SsaDom SsaProps SsaPhi SsaCse SsaDce LdSt.
Import ListNotations.

Section Elim.
Variable mk : nat -> mkind.
Variable dist : opnd * nat -> opnd * nat -> bool.
Variable base : opnd -> option opnd.
Variable same : opnd -> opnd -> bool.
Variable escapes : opnd * nat -> opnd -> bool.     (* 89: the stored value is a pointer not known to be distinct from the address *)
Variable isAlloc : opnd -> bool.
Variable touches : inst -> opnd -> bool.
Variable stk : opnd -> bool.
Variable dom : nat -> nat -> bool.

(** 46: maxLookaheadCount *)
Definition lookahead : nat := 100.
(** 68-106: what one instruction that is no terminator means for a store to [p] (of type [t]) not yet overwritten *)
Inductive scan := Fail | Stop | Next.
Definition scanI (p : opnd) (t : nat) (i : inst) : scan :=
  match mk (opc i), ops i with
  | MCall _ noRead, _ => if isAlloc p then (if touches i p then Fail else Next) else if noRead then Next else Fail
  | MStore u, q :: v :: _ | MAtomic u, q :: v :: _ =>
    if escapes (p, t) v then Fail
    else if opnd_eqb q p && Nat.eqb u t then Stop
    else if dist (p, t) (q, u) then Next else Fail
  | MLoad u, q :: _ => if dist (p, t) (q, u) then Next else Fail
  | _, _ => Next
  end.
(** 62-112 the loop over the instructions, without the terminator; [n] is lookaheadCount.  Some (true, _): overwritten *)
Fixpoint scanL (p : opnd) (t : nat) (l : list inst) (n : nat) : option (bool * nat) :=
  match l with
  | [] => Some (false, n)
  | i :: r => if Nat.leb lookahead (S n) then None else
    match scanI p t i with Fail => None | Stop => Some (true, S n) | Next => scanL p t r (S n) end
  end.
(** Instruction::getBlock of the address *)
Definition blockOf (f : func) (p : opnd) : option nat :=
  match p with ORes x => option_map fst (find (fun b => inb x (resultsOf (snd b))) f) | _ => None end.
(** 71-75 *)
Definition targetOk (f : func) (p : opnd) (b : nat) : bool :=
  match blockOf f p with Some d => negb (Nat.eqb d b) && dom d b | None => true end.
(** 68-86 and 101-102: the terminator; the state is the set of visited blocks and lookaheadCount *)
Definition scanT (go : nat -> list nat * nat -> option (list nat * nat)) (f : func) (p : opnd) (tm : term) (s : list nat * nat) : option (list nat * nat) :=
  if Nat.leb lookahead (S (snd s)) then None else
  match tm with
  | TRet _ | TUnreach => if stk p then Some (fst s, S (snd s)) else None
  | _ => fold_left (fun acc b => match acc with Some s' => if targetOk f p b then go b s' else None | None => None end)
           (succs tm) (Some (fst s, S (snd s)))
  end.
(** 49-114 isInvisible with a null store.  Every call that looks at a block counts at least its terminator, so [d] = [lookahead]
    calls inside one another are enough *)
Fixpoint into (d : nat) (f : func) (p : opnd) (t : nat) (b : nat) (s : list nat * nat) : option (list nat * nat) :=
  match d with
  | O => None
  | S d' =>
    if inb b (fst s) then Some s else
    match get b f with
    | None => None
    | Some bk =>
      let n := snd s + length (phis bk) in
      if Nat.leb lookahead n then None else
      match scanL p t (body bk) n with
      | None => None
      | Some (true, n') => Some (b :: fst s, n')
      | Some (false, n') => scanT (into d' f p t) f p (trm bk) (b :: fst s, n')
      end
    end
  end.
Fixpoint splitAt (x : nat) (l : list inst) (k : nat) : option (nat * inst * list inst) :=
  match l with [] => None | i :: r => if Nat.eqb (dst i) x then Some (k, i, r) else splitAt x r (S k) end.
(** 123-130 and 49-114: the store [x] of the block [b] is invisible *)
Definition invisible (f : func) (b x : nat) : bool :=
  match get b f with
  | None => false
  | Some bk =>
    match splitAt x (body bk) 0 with
    | None => false
    | Some (k, i, post) =>
      match mk (opc i), ops i with
      | MStore t, p :: _ =>
        let n := length (phis bk) + k + 1 in
        if Nat.leb lookahead n then false else
        match scanL p t post n with
        | None => false
        | Some (true, _) => true
        | Some (false, n') => match scanT (into lookahead f p t) f p (trm bk) ([], n') with Some _ => true | None => false end
        end
      | _, _ => false
      end
    end
  end.
(** 121-132; IntrusiveList::remove_if walks from the last instruction to the first *)
Definition removeInvisible (f : func) (b : nat) : func :=
  match get b f with
  | Some bk => fold_left (fun g x => if invisible g b x then keepIn (fun y => negb (Nat.eqb y x)) g else g) (rev (map dst (body bk))) f
  | None => f
  end.
(** 133-147.  The entries of SimpleValueAnalysis for read-only globals are left out: their base is a global no store goes to *)
Definition selfOf (f : func) (b : nat) : list nat :=
  match get b f with
  | Some bk => selfAssigns mk dist base same (fun _ => None) (fun _ => None) [] (body bk)
  | None => []
  end.
Definition removeSelf (f : func) (b : nat) : func := keepIn (fun x => negb (inb x (selfOf f b))) f.
(** 151-164 *)
Definition storeEliminate (f : func) : func := fold_left (fun g b => removeSelf (removeInvisible g b) b) (map fst f) f.
End Elim.

(** ** what the proofs ask of memory and of opcodes (specification) *)
Section Spec.
Context {W Y X : Type} (m : sem W) (M : memory W) (vE : @event W -> X) (vF : @fin W -> Y).
Definition memOver : Prop :=
  (* a second store to a place hides the first *)
  (forall t a v w w1, sto M t a v w = Some w1 -> forall v2, sto M t a v2 w1 = sto M t a v2 w) /\
  (* stores to places with no common byte commute *)
  (forall t a x w w1 u b v w2, apart a (siz M t) b (siz M u) -> sto M t a x w = Some w1 -> sto M u b v w = Some w2 ->
     exists w3, sto M t a x w2 = Some w3 /\ sto M u b v w1 = Some w3) /\
  (* stores do not change which accesses are valid *)
  (forall t a v w w1, sto M t a v w = Some w1 -> forall u b, ld M u b w1 = None <-> ld M u b w = None) /\
  (forall t a v w w', sto M t a v w <> None -> ld M t a w' <> None -> sto M t a v w' <> None).
(** two worlds that differ at most in the contents of one place *)
Definition differAt (t : nat) (a : Z) (w w' : W) : Prop := exists v w1, sto M t a v w = Some w1 /\ sto M t a v w' = Some w1.
(** an opcode applied to [vs] neither shows nor depends on what is at the place *)
Definition blindTo (o : nat) (vs : list value) (t : nat) (a : Z) : Prop := forall w w', differAt t a w w' ->
  map vE (evt m o vs w) = map vE (evt m o vs w') /\
  match meaning m o vs w with
  | IOk v w1 => exists w1', meaning m o vs w' = IOk v w1' /\ differAt t a w1 w1'
  | IHalt w1 => exists w1', meaning m o vs w' = IHalt w1' /\ vF (Exit w1) = vF (Exit w1')
  | IBad => True
  end.
End Spec.
