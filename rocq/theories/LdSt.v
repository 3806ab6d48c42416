(** Loads, stores and what is known about memory inside a block: cmmc/Analysis/SimpleValueAnalysis.cpp,
    cmmc/Transforms/Combine/LoadReduce.cpp (the intra-block part) and cmmc/Transforms/DCE/StoreEliminate.cpp.
    Property C46.

    Simplifications: a Value* that is an address is an operand together with the type of what is accessed (a constant
    operand of Ssa.v has no type of its own).  The answers of the alias analysis, of the pointer base analysis and the
    initial values of read-only globals are parameters ([dist], [base], [roGlob], [roGep]). *)
From Coq Require Import ZArith Lia Bool List Arith.
From Verif Require Import Sim Ssa SsaCfg SsaDom SsaPhi SsaCse.
Import ListNotations.

(** ** what memory is (specification) *)
Record memory (W : Type) := Mem {
  ld : nat -> Z -> W -> option value;              (* load a value of a type from an address; None: not a valid access *)
  sto : nat -> Z -> value -> W -> option W;        (* store *)
  siz : nat -> Z }.                                (* size of a type in bytes *)
Arguments ld {W}. Arguments sto {W}. Arguments siz {W}.
Definition apart (a n b k : Z) : Prop := (a + n <= b \/ b + k <= a)%Z.
Definition memOk {W} (M : memory W) : Prop :=
  (forall t a v w w', sto M t a v w = Some w' -> ld M t a w' = Some v) /\
  (forall t a v w w', sto M t a v w = Some w' -> ld M t a w <> None) /\
  (forall t a u b v w w', apart a (siz M t) b (siz M u) -> sto M u b v w = Some w' -> ld M t a w' = ld M t a w) /\
  (* accesses are aligned: two accesses of one type touch the same bytes or none in common *)
  (forall t a b v w w', ld M t a w = Some v -> sto M t b v w = Some w' -> ld M t a w' = Some v) /\
  (* what a location holds already can be stored there without effect *)
  (forall t a v w, ld M t a w = Some v -> sto M t a v w = Some w).

(** what the memory passes know of an opcode.  [MCall noWrite noRead]: FunctionAttribute::NoMemoryWrite, NoMemoryRead of the callee *)
Inductive mkind := MLoad (t : nat) | MStore (t : nat) | MAtomic (t : nat) | MCall (noWrite noRead : bool) | MOther.
(** the opcodes do what their kinds say (Interpreter.cpp: Load, Store) *)
Definition memSem {W} (mk : nat -> mkind) (M : memory W) (m : sem W) : Prop :=
  (forall o t, mk o = MLoad t -> forall vs w, meaning m o vs w =
     match vs with [VOpq a] => match ld M t a w with Some v => IOk v w | None => IBad end | _ => IBad end) /\
  (forall o t, mk o = MStore t -> forall vs w, meaning m o vs w =
     match vs with [VOpq a; v] => match sto M t a v w with Some w' => IOk VUndef w' | None => IBad end | _ => IBad end) /\
  (forall o t, mk o = MAtomic t -> forall vs w v w', meaning m o vs w = IOk v w' ->
     exists a x z y, vs = [VOpq a; x] /\ ld M t a w = Some y /\ sto M t a z w = Some w') /\
  (forall o nr, mk o = MCall true nr -> forall vs w v w', meaning m o vs w = IOk v w' -> forall t a, ld M t a w' = ld M t a w) /\
  (forall o, mk o = MOther -> forall vs w v w', meaning m o vs w = IOk v w' -> forall t a, ld M t a w' = ld M t a w).

(** ** the code *)
Section Sva.
Variable mk : nat -> mkind.
Variable dist : opnd * nat -> opnd * nat -> bool.           (* AliasAnalysisResult::isDistinct *)
Variable base : opnd -> option opnd.                         (* PointerBaseAnalysisResult::lookup *)
Variable same : opnd -> opnd -> bool.                        (* identity of Value*: floating point constants are not shared *)
Variable roGlob : opnd -> option (nat * value).              (* ReadOnly globals with their initial values *)
Variable roGep : inst -> option (nat * value).               (* SimpleValueAnalysis.cpp:154-167: extractConstant of a getelementptr on one *)

(** mLastValue, SimpleValueAnalysis.hpp:25.  Entries under the base nullptr are never found by getLastValue and left out *)
Record ent := Ent { eb : opnd; ep : opnd; et : nat; ev : opnd }.
Definition isKey (b p : opnd) (t : nat) (x : ent) : bool := opnd_eqb (eb x) b && opnd_eqb (ep x) p && Nat.eqb (et x) t.
(** 175-184 getLastValue *)
Definition getLast (c : list ent) (p : opnd) (t : nat) : option opnd :=
  match base p with Some b => option_map ev (find (isKey b p t) c) | None => None end.
(** 69-87 invalidate: what stays in the map of the base [b] *)
Definition stays (b p : opnd) (t : nat) (val : option opnd) (x : ent) : bool :=
  negb (opnd_eqb (eb x) b) ||
  (opnd_eqb (ep x) p && Nat.eqb (et x) t) ||
  match val with Some v => same (ev x) v && Nat.eqb (et x) t | None => false end ||
  dist (ep x, et x) (p, t).
(** 88-94 replace *)
Definition put (b p : opnd) (t : nat) (v : opnd) (force : bool) (c : list ent) : list ent :=
  match find (isKey b p t) c with
  | Some _ => if force then map (fun x => if isKey b p t x then Ent b p t v else x) c else c
  | None => Ent b p t v :: c
  end.
(** 96-113 update, for a known base *)
Definition update (b p : opnd) (t : nat) (val : option opnd) (force : bool) (c : list ent) : list ent :=
  let c1 := filter (stays b p t val) c in
  match val with Some v => put b p t v force c1 | None => c1 end.
(** 115-124: read-only globals among the operands *)
Definition addRo (c : list ent) (o : opnd) : list ent :=
  match roGlob o with Some (t, v) => put o o t (OCst v) false c | None => c end.
(** 63-173 next *)
Definition next (c : list ent) (i : inst) : list ent :=
  let c0 := fold_left addRo (ops i) c in
  match mk (opc i), ops i with
  | MLoad t, p :: _ => match base p with Some b => update b p t (Some (ORes (dst i))) false c0 | None => c0 end
  | MStore t, p :: v :: _ => match base p with Some b => update b p t (Some v) true c0 | None => [] end
  | MAtomic t, p :: _ => match base p with Some b => update b p t None false c0 | None => [] end
  | MCall noWrite _, _ => if noWrite then c0 else []
  | MOther, _ =>
    match roGep i, base (ORes (dst i)) with
    | Some (t, v), Some b => put b (ORes (dst i)) t (OCst v) true c0
    | _, _ => c0
    end
  | _, _ => c0
  end.
(** the state of the analysis after the instructions [pre] of a block *)
Definition cacheOf (pre : list inst) : list ent := fold_left next pre [].

(** LoadReduce.cpp:76-86 runBlock: [names] are the instructions still to visit *)
Fixpoint lrBody (b : nat) (names : list nat) (c : list ent) (f : func) : func :=
  match names with
  | [] => f
  | x :: r =>
    match instIn f b x with
    | None => f
    | Some i =>
      let f' := match mk (opc i), ops i with
                | MLoad t, p :: _ => match getLast c p t with Some v => replaceWith x v f | None => f end
                | _, _ => f
                end in
      match instIn f' b x with Some i' => lrBody b r (next c i') f' | None => f' end
    end
  end.
Definition lrBlock (f : func) (b : nat) : func := match get b f with Some bk => lrBody b (map dst (body bk)) [] f | None => f end.
(** LoadReduce.cpp:189-199, the intra-block part *)
Definition loadReduce (f : func) : func := fold_left lrBlock (map fst f) f.

(** StoreEliminate.cpp:147-163: the stores of what is there already *)
Fixpoint selfAssigns (c : list ent) (l : list inst) : list nat :=
  match l with
  | [] => []
  | i :: r =>
    let rest := selfAssigns (next c i) r in
    match mk (opc i), ops i with
    | MStore t, p :: v :: _ => match getLast c p t with Some v' => if same v' v then dst i :: rest else rest | None => rest end
    | _, _ => rest
    end
  end.
End Sva.
