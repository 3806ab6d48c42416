(** Which pointers cannot overlap: cmmc/Analysis/AliasAnalysis.cpp.  Property C47.

    Simplifications: a global is an argument of the function ([isGlob]), since both are values fixed for the whole call.  The
    numbers the code hands out for attributes are the terms of [attr]; the pairs and groups of numbers that are distinct are
    [pairDistinct].  Types are compared by structure.  Sets and maps are lists, and the order in which the edges of the
    inheritance graph are followed is arbitrary. *)
From Coq Require Import ZArith Lia Bool List Arith.
From Verif Require Import Addr AddrProof Sim Ssa SsaCfg SsaMerge SsaFwd SsaWf SsaDom SsaSub SsaEq SsaPhi SsaCse LdStPts.
Import ListNotations.

(** ** types *)
(** Type::isSame *)
Fixpoint ty_eqb (a b : ty) : bool :=
  match a, b with
  | TInt w, TInt v => Z.eqb w v
  | TFp s, TFp r => Bool.eqb s r
  | TPtr t, TPtr u => ty_eqb t u
  | TArr n t, TArr k u => Nat.eqb n k && ty_eqb t u
  | TStruct fs, TStruct gs =>
    (fix go l k := match l, k with [], [] => true | x :: l', y :: k' => ty_eqb x y && go l' k' | _, _ => false end) fs gs
  | _, _ => false
  end.
(** ArrayType::getScalarType *)
Fixpoint scalarOf (t : ty) : ty := match t with TArr _ e => scalarOf e | _ => t end.
Definition isArr (t : ty) : bool := match t with TArr _ _ => true | _ => false end.
(** 151-172 TBAAQuery::includes.  The code goes on from the scalar type of an array when [b] is no array, which comes to the
    same as going on from its element type ([includes_code] in AliasProof.v) *)
Fixpoint includes (a b : ty) : bool :=
  ty_eqb a b ||
  match a with
  | TArr _ e => includes e b
  | TStruct fs => (fix go l := match l with [] => false | f :: r => includes f b || go r end) fs
  | _ => false
  end.
(** 176-184 and 372-387: char* is left out *)
Definition typesDistinct (t u : ty) : bool :=
  negb (ty_eqb t (TInt 8)) && negb (ty_eqb u (TInt 8)) && negb (includes t u) && negb (includes u t).

(** ** attributes *)
Inductive attr :=
| AGlobal | AStack                                (* globalID, stackID *)
| AGlob (n : nat)                                  (* the number of one global *)
| AArg | AOwn (n : nat)                            (* argID; the number of one argument under FunctionAttribute::NoAlias *)
| AAlloc (x : nat)                                 (* the number of one alloc *)
| AOff1 (x : nat) (b : opnd) | AOff2 (x : nat) (b : opnd)     (* a1, a2 of the getelementptr [x] on [b], 273-282 *)
| AType (t : ty)
| ACl (b : opnd) (h : list (option value)) (k : nat) (c : value).  (* one cluster of [divide], 106-134 *)

Fixpoint hist_eqb (a b : list (option value)) : bool :=
  match a, b with
  | [], [] => true
  | None :: r, None :: s => hist_eqb r s
  | Some x :: r, Some y :: s => value_eqb x y && hist_eqb r s
  | _, _ => false
  end.
Definition attr_eqb (a b : attr) : bool :=
  match a, b with
  | AGlobal, AGlobal | AStack, AStack | AArg, AArg => true
  | AGlob n, AGlob k | AOwn n, AOwn k | AAlloc n, AAlloc k => Nat.eqb n k
  | AOff1 x b, AOff1 y c | AOff2 x b, AOff2 y c => Nat.eqb x y && opnd_eqb b c
  | AType t, AType u => ty_eqb t u
  | ACl b h k c, ACl b' h' k' c' => opnd_eqb b b' && hist_eqb h h' && Nat.eqb k k' && value_eqb c c'
  | _, _ => false
  end.
(** mDistinctPairs and mDistinctGroups *)
Definition pairDistinct (a b : attr) : bool :=
  match a, b with
  | AGlobal, AStack | AStack, AGlobal => true                                             (* 191 *)
  | AAlloc _, AArg | AArg, AAlloc _ => true                                               (* 256 *)
  | AGlob n, AGlob k => negb (Nat.eqb n k)                                                (* 413 *)
  | AAlloc x, AAlloc y => negb (Nat.eqb x y)                                              (* 414 *)
  | AOff1 x b, AOff2 y c | AOff2 x b, AOff1 y c => Nat.eqb x y && opnd_eqb b c            (* 278 *)
  | AType t, AType u => typesDistinct t u                                                 (* 386 *)
  | ACl b h k c, ACl b' h' k' c' => opnd_eqb b b' && hist_eqb h h' && Nat.eqb k k' && negb (value_eqb c c')   (* 129 *)
  | _, _ => false
  end.

(** what the analysis knows of an opcode; everything else that yields a pointer (loads, calls, function pointers) is [AkNone] *)
Inductive akind := AkAlloc | AkGep | AkCast | AkSelect | AkIntToPtr | AkPtrAdd | AkNone.

Section Analysis.
Variable ak : nat -> akind.
Variable isGlob : nat -> bool.
Variable pointee : opnd -> option ty.             (* what the type of the value points to, if it is a pointer type *)
Variable noAlias : bool.                          (* FunctionAttribute::NoAlias *)
Variable nargs : nat.                             (* arguments and globals *)
Variable live : nat -> bool.                      (* DominateAnalysisResult::blocks *)
Definition isPtr (o : opnd) : bool := match pointee o with Some _ => true | None => false end.
Definition isCst (o : opnd) : bool := match o with OCst _ => true | _ => false end.

(** Instruction::lastOperand and the indices of a getelementptr *)
Definition gepBase (i : inst) : opnd := last (ops i) (OCst VUndef).
Definition gepIdx (i : inst) : list opnd := removelast (ops i).
Definition isGep (i : inst) : bool := match ak (opc i) with AkGep => true | _ => false end.
Definition zeroFirst (i : inst) : bool := match ops i with OCst (VInt z) :: _ => Z.eqb z 0 | _ => false end.
Definition constFirst (i : inst) : bool := match ops i with OCst (VInt z) :: _ => negb (Z.eqb z 0) | _ => false end.
(** 262-288: the value a getelementptr inherits from *)
Fixpoint gepRoot (n : nat) (f : func) (i : inst) : option opnd :=
  match n with
  | O => None
  | S n' =>
    if zeroFirst i then Some (gepBase i) else
    match gepBase i with
    | ORes y => match defOf f y with Some j => if isGep j then gepRoot n' f j else None | None => None end
    | _ => None
    end
  end.
Fixpoint dedup (l : list opnd) : list opnd :=
  match l with [] => [] | o :: r => o :: filter (fun x => negb (opnd_eqb x o)) (dedup r) end.

(** 244-353: attributes and edges of one instruction with a pointer result *)
Definition attrsI (i : inst) : list (opnd * attr) :=
  let x := ORes (dst i) in
  match ak (opc i) with
  | AkAlloc => [(x, AStack); (x, AAlloc (dst i))]
  | AkGep => if constFirst i then [(x, AOff1 (dst i) (gepBase i)); (gepBase i, AOff2 (dst i) (gepBase i))] else []
  | AkIntToPtr => match ops i with OArg n :: _ => if isGlob n then [] else [(x, AArg)] | _ => [] end
  | _ => []
  end.
Definition edgesI (n : nat) (f : func) (i : inst) : list (opnd * list opnd) :=
  let x := ORes (dst i) in
  match ak (opc i) with
  | AkGep => match gepRoot n f i with Some b => [(x, [b])] | None => [] end
  | AkCast | AkPtrAdd => match ops i with p :: _ => [(x, [p])] | [] => [] end
  | AkSelect => match ops i with _ :: p :: q :: _ => [(x, [p; q])] | _ => [] end
  | _ => []
  end.
(** 319-339 *)
Definition edgesPhi (ph : phi) : list (opnd * list opnd) :=
  match dedup (filter (fun o => negb (isCst o)) (map snd (inc ph))) with
  | [p] => [(ORes (pdst ph), [p])]
  | [p; q] => [(ORes (pdst ph), [p; q])]
  | _ => []
  end.

Variable f : func.
Definition liveBlocks : list (nat * block) := filter (fun b => live (fst b)) f.
Definition ptrInsts : list inst := filter (fun i => isPtr (ORes (dst i))) (flat_map (fun b => body (snd b)) liveBlocks).
Definition ptrPhis : list phi := filter (fun ph => isPtr (ORes (pdst ph))) (flat_map (fun b => phis (snd b)) liveBlocks).
(** the longest possible chain of getelementptrs *)
Definition depth : nat := S (length (flat_map (fun b => body (snd b)) f)).
(** 214-234 *)
Definition attrsArg (n : nat) : list (opnd * attr) :=
  if isPtr (OArg n) then
    if isGlob n then [(OArg n, AGlobal); (OArg n, AGlob n)]
    else if noAlias then [(OArg n, AArg); (OArg n, AOwn n)] else [(OArg n, AArg)]
  else [].
(** 389-395 *)
Definition typed1 (o : opnd) : list (opnd * attr) := match pointee o with Some t => [(o, AType t)] | None => [] end.
Definition attrsType : list (opnd * attr) := flat_map typed1 (map OArg (seq 0 nargs) ++ map ORes (allResults f)).

(** 99-134 divide; [l] are getelementptrs on [b]; [n] bounds the depth *)
Definition indexAt (k : nat) (i : inst) : option value :=
  if Nat.leb (length (ops i)) (S k) then None else match nth_error (ops i) k with Some (OCst c) => Some c | _ => None end.
Definition hasIndex (k : nat) (c : value) (i : inst) : bool := match indexAt k i with Some d => value_eqb c d | None => false end.
Fixpoint vdedup (l : list value) : list value :=
  match l with [] => [] | o :: r => o :: filter (fun x => negb (value_eqb x o)) (vdedup r) end.
Definition keysAt (k : nat) (l : list inst) : list value :=
  vdedup (flat_map (fun i => match indexAt k i with Some c => [c] | None => [] end) l).
Fixpoint divide (n : nat) (b : opnd) (h : list (option value)) (k : nat) (l : list inst) : list (opnd * attr) :=
  match n with
  | O => []
  | S n' =>
    if Nat.leb (length l) 1 then [] else
    match keysAt k l with
    | [] => []
    | [_] => divide n' b (h ++ [None]) (S k) l
    | cs => flat_map (fun c => let ms := filter (hasIndex k c) l in
              map (fun i => (ORes (dst i), ACl b h k c)) ms ++ divide n' b (h ++ [Some c]) (S k) ms) cs
    end
  end.
(** 399-407 *)
Definition geps : list inst := filter isGep ptrInsts.
Definition attrsCl : list (opnd * attr) :=
  flat_map (fun b => let l := filter (fun i => opnd_eqb (gepBase i) b) geps in
    divide (S (list_max (map (fun i => length (ops i)) l))) b [] 0 l) (dedup (map gepBase geps)).

Definition attrs0 : list (opnd * attr) :=
  flat_map attrsArg (seq 0 nargs) ++ flat_map attrsI ptrInsts ++ attrsType ++ attrsCl.
Definition edges : list (opnd * list opnd) := flat_map (edgesI depth f) ptrInsts ++ flat_map edgesPhi ptrPhis.

(** 69-74 inheritFrom *)
Definition attrsOf (A : list (opnd * attr)) (o : opnd) : list attr :=
  if isCst o then [] else map snd (filter (fun x => opnd_eqb (fst x) o) A).
Definition hasAttr (A : list (opnd * attr)) (a : attr) (o : opnd) : bool := existsb (attr_eqb a) (attrsOf A o).
(** 416-434: one edge; [es] is the order in which edges are followed *)
Definition follow (A : list (opnd * attr)) (ed : opnd * list opnd) : list (opnd * attr) :=
  match snd ed with
  | s :: r => A ++ map (pair (fst ed)) (filter (fun a => forallb (hasAttr A a) r) (attrsOf A s))
  | [] => A
  end.
Definition analysis (es : list (opnd * list opnd)) : list (opnd * attr) := fold_left follow es attrs0.
(** 47-68 isDistinct *)
Definition isDistinct (A : list (opnd * attr)) (p q : opnd) : bool :=
  negb (isCst p) && negb (isCst q) && negb (opnd_eqb p q) &&
  existsb (fun a => existsb (pairDistinct a) (attrsOf A q)) (attrsOf A p).
End Analysis.

(** ** what pointers point to (specification) *)
Definition prefix (p q : list nat) : Prop := exists r, q = p ++ r.
Section Spec.
Variable P : Z.                                   (* the size of a pointer *)
(** the objects that exist during the call: address and type *)
Variable objs : nat -> option (Z * ty).
(** [a] is the address of the element of type [t] at the path [p] (array indices and field numbers) of the object [o] *)
Definition refers (t : ty) (a : Z) (o : nat) (p : list nat) : Prop :=
  exists base T off, objs o = Some (base, T) /\ locate P T p = Some (off, t) /\ a = (base + off)%Z.
(** objects do not overlap *)
Definition objsOk : Prop :=
  (forall o a t, objs o = Some (a, t) -> wfT t = true) /\
  (forall o o' a t a' t', objs o = Some (a, t) -> objs o' = Some (a', t') -> o <> o' -> (a + size P t <= a' \/ a' + size P t' <= a)%Z).
(** the path a getelementptr with the indices [zs] leads to from the path [p]: the first index moves among the elements of the
    array that [p] is an element of, the others go inside *)
Definition moves (p : list nat) (zs : list Z) (q : list nat) : Prop :=
  match zs with
  | [] => False
  | z :: inner => Forall (fun i => (0 <= i)%Z) inner /\ exists m, q = m ++ map Z.to_nat inner /\
      ((z = 0%Z /\ m = p) \/ exists p0 j, p = p0 ++ [j] /\ (0 <= Z.of_nat j + z)%Z /\ m = p0 ++ [Z.to_nat (Z.of_nat j + z)])
  end.
End Spec.
