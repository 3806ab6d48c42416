(** C53: tail calls of a function by itself become a loop, TailCallEliminate
    (cmmc/Transforms/ControlFlow/TailCallEliminate.cpp).  The semantics is that of Rec.v. *)
From Coq Require Import ZArith Lia Bool List Arith.
From Verif Require Import Sim Ssa SsaCfg SsaMerge SsaFwd SsaFwd2 SsaWf SsaDom SsaProps SsaSub SsaVerify SsaEq SsaPhi SsaCse CodeMotion M2RRun Ifc Rec.
Import ListNotations.

(** ** the pass *)
Section Pass.
(** [slf]: the opcode of a call of the function by itself (lines 39-44); [nargs]: func->args().size(); [osel]: select at the
    return type; [acc]: lines 115-124 with getIdentity (lines 55-73): [Some (Some c)] for add, and, or, xor, mul of an
    integer type with identity c, [Some None] for smax and smin, which are accumulators at line 119 but not known to
    getIdentity *)
Variables (slf nargs osel : nat) (acc : nat -> option (option value)).

(** lines 45-54 getLastRecursiveCall: what is before it, the call, what is after it *)
Fixpoint lastCall (l : list inst) : option (list inst * inst * list inst) :=
  match l with
  | [] => None
  | i :: l' => match lastCall l' with
               | Some (p, c, q) => Some (i :: p, c, q)
               | None => if Nat.eqb (opc i) slf then Some ([], i, l') else None
               end
  end.
(** how the result of the call is used: returned (or there is none), combined by [a] and returned, not used *)
Inductive mode := MRet | MAcc (a : inst) (id : value) | MSel (o : opnd).
Inductive choice := CNo | CCrash | CMode (md : mode).
Definition isRes (x : nat) (o : opnd) : bool := opnd_eqb o (ORes x).
(** lines 97-130.  Simplification: "used once, by a ret" (line 128) and "the call is used" (line 191) are read as
    "returned by this block"; the block has no successors, so in a function without unreachable blocks nothing else can
    use the two values.  The function has at most one accumulator as a second instruction ends the search (line 111) *)
Definition choose (c : inst) (post : list inst) (ret : option opnd) : choice :=
  match post with
  | [] => match ret with
          | None => CMode MRet
          | Some o => if isRes (dst c) o then CMode MRet else CMode (MSel o)
          end
  | [a] =>
    match acc (opc a), ops a with
    | Some id, [x; y] =>
      if xorb (isRes (dst c) x) (isRes (dst c) y) && match ret with Some o => isRes (dst a) o | None => false end
      then match id with Some v => CMode (MAcc a v) | None => CCrash end
      else CNo
    | _, _ => CNo
    end
  | _ => CNo
  end.

Definition freshBlock (f : func) : nat := S (list_max (map fst f)).
Section Elim.
Variables (base N h k : nat) (c : inst) (md : mode).
(** line 153: [argument->replaceWith(phi)] *)
Definition sig (o : opnd) : opnd := match o with OArg i => if i <? nargs then ORes (base + i) else o | _ => o end.
Definition accN : nat := base + nargs.
(** lines 145-157 and 171-176: one phi for each argument.  Simplification: the phis of the header are in another order *)
Definition argPhis : list phi :=
  map (fun i => Phi (base + i) [(N, OArg i); (k, sig (nth i (ops c) (OCst VUndef)))]) (seq 0 nargs).
(** lines 158-167, 178-183, 190-206, 218-220: the phis of the result *)
Definition resPhis : list phi :=
  match md with
  | MRet => []
  | MAcc a id => [Phi accN [(N, OCst id); (k, ORes (dst a))]]
  | MSel _ => [Phi accN [(N, OCst VUndef); (k, ORes (accN + 2))]; Phi (accN + 1) [(N, OCst (VInt 0)); (k, OCst (VInt 1))]]
  end.
(** lines 185 and 197-199: what the block of the call computes before it branches *)
Definition tailInsts : list inst :=
  match md with
  | MRet => []
  | MAcc a _ => [Inst (dst a) (opc a) (map (fun x => if isRes (dst c) x then ORes accN else sig x) (ops a))]
  | MSel o => [Inst (accN + 2) osel [ORes (accN + 1); ORes accN; sig o]]
  end.
(** lines 216-255: what a block that returns [o] computes before it returns *)
Definition leafInsts (b : nat) (o : opnd) : list inst :=
  match md with
  | MRet => []
  | MAcc a _ => [Inst (accN + 3 + b) (opc a) (map (fun x => if isRes (dst c) x then ORes accN else sig o) (ops a))]
  | MSel _ => [Inst (accN + 3 + b) osel [ORes (accN + 1); ORes accN; sig o]]
  end.
Definition leafTail (b : nat) (bk : block) : list inst := match trm bk with TRet (Some o) => leafInsts b o | _ => [] end.
Definition leafTrm (b : nat) (bk : block) : term :=
  match md, trm bk with
  | (MAcc _ _ | MSel _), TRet (Some _) => TRet (Some (ORes (accN + 3 + b)))
  | _, t => mapTerm sig t
  end.
(** lines 208-214: the block of the call ([pre]: what is before the call) *)
Definition tceBlock (pre : list inst) (b : nat) (bk : block) : block :=
  let ph := map (mapPhi (fun _ => sig)) (phis bk) in
  Block (if Nat.eqb b h then argPhis ++ resPhis ++ ph else ph)
        (if Nat.eqb b k then map (mapInst sig) pre ++ tailInsts else map (mapInst sig) (body bk) ++ leafTail b bk)
        (if Nat.eqb b k then TBr h else leafTrm b bk).
End Elim.
Definition elimTo (f : func) (k : nat) (pre : list inst) (c : inst) (md : mode) : func :=
  let base := freshBase f in let N := freshBlock f in let h := entry f in
  (N, Block [] [] (TBr h)) :: map (fun kb => (fst kb, tceBlock base N h k c md pre (fst kb) (snd kb))) f.

Inductive out := Same | Crash | Done (g : func).
Definition voidRet (t : term) : bool := match t with TRet None => true | _ => false end.
(** lines 93-258 eliminateCall.  Line 225 and line 237 read the operand of a ret that may have none *)
Definition elim (f : func) (k : nat) (pre : list inst) (c : inst) (post : list inst) (ret : option opnd) : out :=
  match choose c post ret with
  | CNo => Same
  | CCrash => Crash
  | CMode MRet => Done (elimTo f k pre c MRet)
  | CMode md => if existsb (fun kb => voidRet (trm (snd kb))) f then Crash else Done (elimTo f k pre c md)
  end.
(** lines 287-303: the block [k] returns by itself instead of going to [t], which only returns *)
Definition retAt (k : nat) (tphis : list phi) (o : opnd) : opnd :=
  match o with
  | ORes x => match find (fun q => Nat.eqb (pdst q) x) tphis with Some q => atInc k q | None => o end
  | _ => o
  end.
Definition retify (f : func) (k t : nat) (tphis : list phi) (ro : option opnd) : func :=
  map (fun kb => (fst kb,
    if Nat.eqb (fst kb) k then Block (phis (snd kb)) (body (snd kb)) (TRet (option_map (retAt k tphis) ro))
    else if Nat.eqb (fst kb) t then Block (map (removeSource k) (phis (snd kb))) (body (snd kb)) (trm (snd kb))
    else snd kb)) f.
(** lines 259-311 handleBlock *)
Definition handle (f : func) (k : nat) (bk : block) : out :=
  match trm bk with
  | TRet ro => match lastCall (body bk) with Some (pre, c, post) => elim f k pre c post ro | None => Same end
  | TBr t =>
    match get t f with
    | Some tb =>
      match body tb, trm tb, lastCall (body bk) with
      | [], TRet ro, Some (pre, c, post) =>
        let f2 := retify f k t (phis tb) ro in
        match elim f2 k pre c post (option_map (retAt k (phis tb)) ro) with Same => Done f2 | r => r end
      | _, _, _ => Same
      end
    | None => Same
    end
  | _ => Same
  end.
(** lines 322-328: what is before the first recursive call of the entry block *)
Fixpoint firstCall (l : list inst) : option (list inst) :=
  match l with
  | [] => None
  | i :: l' => if Nat.eqb (opc i) slf then Some [] else option_map (cons i) (firstCall l')
  end.
(** lines 329-340.  The uses of what is cut off become undef *)
Definition cutOps (gone : list nat) (o : opnd) : opnd := match o with ORes x => if inb x gone then OCst VUndef else o | _ => o end.
Definition cutEntry (f : func) (pre : list inst) (eb : block) : func :=
  let gone := map dst (skipn (length pre) (body eb)) in
  map (fun kb => (fst kb, if Nat.eqb (fst kb) (entry f) then Block (phis (snd kb)) pre TUnreach
                          else mapOps (cutOps gone) (snd kb))) f.
Fixpoint firstDone (f : func) (l : list (nat * block)) : out :=
  match l with
  | [] => Same
  | kb :: l' => if Nat.eqb (fst kb) (entry f) then firstDone f l'
                else match handle f (fst kb) (snd kb) with Same => firstDone f l' | r => r end
  end.
(** lines 314-348 run *)
Definition isAlloc (knd : nat -> kind) (i : inst) : bool := match knd (opc i) with KAlloc => true | _ => false end.
Definition tailCall (knd : nat -> kind) (f : func) : out :=
  match get (entry f) f with
  | None => Same
  | Some eb =>
    if match body eb with i :: _ => isAlloc knd i | [] => false end then Same
    else match firstCall (body eb) with
         | Some pre => Done (cutEntry f pre eb)
         | None => firstDone f f
         end
  end.
End Pass.
