(** * The interpreter's memory (properties C15, C16)

    Model of [MemoryContext] in [cmmc/ExecutionEngine/Interpreter.cpp] 82-429.
    A storage ([std::vector<ByteStorage>]) is a size and a function from index to
    cell.  Offsets are integers, addresses wrap modulo 2^64.  Simplifications: the
    footprint counters are dropped; the initial value of a global is given as its bytes;
    a float is given by its bit pattern ([reinterpret_cast]); the host is little endian. *)
From Coq Require Import ZArith Lia Bool List Permutation ZifyBool.
From Verif Require Import Word IR ConstFold.
Import ListNotations.
Local Open Scope Z_scope.

(** :51-76 ByteState flags and a byte *)
Record cell := mkC { rd : bool; wr : bool; byte : Z }.
Record stor := mkStor { ssize : Z; cells : Z -> cell }.
Definition invalid := mkC false false 204.                     (* :91-92, 0xCC *)

(** :104-108 extendTo *)
Definition extendTo (s : stor) (n : Z) : stor :=
  if ssize s <? n
  then mkStor n (fun i => if (ssize s <=? i) && (i <? n) then invalid else cells s i)
  else s.
Definition setRange (s : stor) (lo hi : Z) (f : cell -> cell) : stor :=
  mkStor (ssize s) (fun i => if (lo <=? i) && (i <? hi) then f (cells s i) else cells s i).
(** :109-116 paddingTo *)
Definition padPos (base al : Z) : Z := (base / al + 1) * al.
Definition paddingTo (s : stor) (base al : Z) : stor * Z :=
  let pos := padPos base al in
  (setRange (extendTo s pos) base pos (fun _ => invalid), pos).
(** :117-121 setTag, :123-127 removeTag(Write) *)
Definition setTag (s : stor) (base size : Z) (r w : bool) : stor :=
  setRange (extendTo s (base + size)) base (base + size) (fun c => mkC r w (byte c)).
Definition removeWrite (s : stor) (base size : Z) : stor :=
  setRange (extendTo s (base + size)) base (base + size) (fun c => mkC (rd c) false (byte c)).

Definition globalOffset : Z := 17293822569102704640.            (* :88 0xf000000000000000 *)
Definition stackOffset : Z := 1152921504606846976.              (* :89 0x1000000000000000 *)

Record mem := mkM {
  gs : stor; galloc : list (nat * Z);
  ss : stor; salloc : list (Z * Z);        (* top first *)
  popped : list Z; err : bool }.
(** :155-157 constructor *)
Definition mem0 : mem :=
  mkM (mkStor 0 (fun _ => invalid)) [] (mkStor 0 (fun _ => invalid)) [(0, 16)] [] false.

(** :131-140 load of one byte of a storage; [None]: memory error *)
Definition loadS (s : stor) (p : Z) : option Z :=
  if p <? ssize s then if rd (cells s p) then Some (byte (cells s p)) else None else None.
(** :141-152 store *)
Definition storeS (s : stor) (p v : Z) : option stor :=
  if p <? ssize s then
    if wr (cells s p) then Some (setRange s p (p + 1) (fun c => mkC (rd c) (wr c) v)) else None
  else None.

Definition setErr (m : mem) : mem := mkM (gs m) (galloc m) (ss m) (salloc m) (popped m) true.
Definition setG (m : mem) (s : stor) : mem := mkM s (galloc m) (ss m) (salloc m) (popped m) (err m).
Definition setSS (m : mem) (s : stor) : mem := mkM (gs m) (galloc m) s (salloc m) (popped m) (err m).

(** :225-230 load *)
Definition load (m : mem) (ptr : Z) : mem * Z :=
  match (if globalOffset <=? ptr then loadS (gs m) (u64 (ptr - globalOffset))
         else loadS (ss m) (u64 (ptr - stackOffset))) with
  | Some b => (m, b)
  | None => (setErr m, 204)
  end.
(** :231-236 store *)
Definition store (m : mem) (ptr v : Z) : mem :=
  if globalOffset <=? ptr then
    match storeS (gs m) (u64 (ptr - globalOffset)) v with Some s => setG m s | None => setErr m end
  else
    match storeS (ss m) (u64 (ptr - stackOffset)) v with Some s => setSS m s | None => setErr m end.

(** the loops [for(idx < size) store(ptr + idx, base[idx])] *)
Fixpoint storeBytes (m : mem) (ptr : Z) (bs : list Z) : mem :=
  match bs with [] => m | b :: bs => storeBytes (store m (u64 ptr) b) (ptr + 1) bs end.
Fixpoint loadBytes (m : mem) (ptr : Z) (n : nat) : mem * list Z :=
  match n with
  | O => (m, [])
  | S n => let (m1, b) := load m (u64 ptr) in let (m2, bs) := loadBytes m1 (ptr + 1) n in (m2, b :: bs)
  end.

(** little-endian bytes of an integer *)
Fixpoint toBytes (n : nat) (z : Z) : list Z :=
  match n with O => [] | S n => z mod 256 :: toBytes n (z / 256) end.
Fixpoint ofBytes (bs : list Z) : Z := match bs with [] => 0 | b :: bs => b + 256 * ofBytes bs end.

(** Type::getFixedSize: a boolean occupies one byte *)
Definition bytesOf (t : ty) : nat := match t with I1 | I8 => 1 | I16 => 2 | I32 => 4 | I64 => 8 end%nat.

(** :362-369 storeValue of a ConstantInteger with the given storage *)
Definition storeInt (m : mem) (ptr : Z) (t : ty) (s : Z) : mem := storeBytes m ptr (toBytes (bytesOf t) (getU t s)).
(** :238-252 loadValue of an integer; the alignment of an integer type is its size.
    [None]: std::monostate *)
Definition loadInt (m : mem) (ptr : Z) (t : ty) : mem * option Z :=
  if negb (ptr mod Z.of_nat (bytesOf t) =? 0) then (setErr m, None)
  else let (m', bs) := loadBytes m ptr (bytesOf t) in (m', Some (s64 (ofBytes bs))).
(** :383-387, :264-270 pointers *)
Definition storePtr (m : mem) (ptr v : Z) : mem := storeBytes m ptr (toBytes 8 v).
Definition loadPtr (m : mem) (ptr : Z) : mem * option Z :=
  if negb (ptr mod 8 =? 0) then (setErr m, None)
  else let (m', bs) := loadBytes m ptr 8 in (m', Some (ofBytes bs)).
(** :370-382, :253-263 floating point, [n] = 4 or 8 bytes, by bit pattern *)
Definition storeBits (n : nat) (m : mem) (ptr v : Z) : mem := storeBytes m ptr (toBytes n v).
Definition loadBits (n : nat) (m : mem) (ptr : Z) : mem * option Z :=
  if negb (ptr mod Z.of_nat n =? 0) then (setErr m, None)
  else let (m', bs) := loadBytes m ptr n in (m', Some (ofBytes bs)).
(** :295-298 memReset *)
Definition memReset (m : mem) (ptr size b : Z) : mem := storeBytes m ptr (repeat b (Z.to_nat size)).

(** :193-202 stackPush *)
Definition topEnd (m : mem) : Z := match salloc m with [] => 0 | (_, e) :: _ => e end.
Definition stackPush (m : mem) (size al : Z) : mem * Z :=
  let (s, ptr) := paddingTo (ss m) (topEnd m) al in
  let s := setTag s ptr size true true in
  (mkM (gs m) (galloc m) s ((ptr, ptr + size) :: salloc m) (popped m) (err m), u64 (ptr + stackOffset)).

(** :206-210 stackPopOne *)
Definition popOne (m : mem) : mem :=
  match salloc m with
  | [] => m
  | (b, e) :: r => mkM (gs m) (galloc m) (setTag (ss m) b (e - b) false false) r (popped m) (err m)
  end.
Definition zmem (x : Z) (l : list Z) : bool := existsb (Z.eqb x) l.
(** :212-218 the loop popping what had been released earlier; [fuel] bounds it by the
    number of allocations *)
Fixpoint popLoop (fuel : nat) (m : mem) : mem :=
  match fuel with
  | O => m
  | S f =>
      match salloc m with
      | [] => m
      | (b, _) :: _ =>
          if zmem b (popped m) then
            let m1 := popOne m in
            popLoop f (mkM (gs m1) (galloc m1) (ss m1) (salloc m1) (filter (fun x => negb (x =? b)) (popped m1)) (err m1))
          else m
      end
  end.
(** :203-222 stackPop *)
Definition stackPop (m : mem) (addr : Z) : mem :=
  let base := u64 (addr - stackOffset) in
  match salloc m with
  | (b, _) :: _ =>
      if b =? base then popLoop (length (salloc m)) (popOne m)
      else mkM (gs m) (galloc m) (ss m) (salloc m) (if zmem base (popped m) then popped m else base :: popped m) (err m)
  | [] => m
  end.

(** :165-192 getGlobalVarAddress: global number [g] of [size] bytes, alignment [al],
    initial bytes [ini] (zero if there is none), [ro] = read-only *)
Definition lookupG (g : nat) (l : list (nat * Z)) : option Z :=
  match find (fun p => Nat.eqb (fst p) g) l with Some p => Some (snd p) | None => None end.
Definition getGlobal (m : mem) (g : nat) (size al : Z) (ini : option (list Z)) (ro : bool) : mem * Z :=
  match lookupG g (galloc m) with
  | Some a => (m, a)
  | None =>
      let (s, ptr) := paddingTo (gs m) (ssize (gs m)) al in
      let s := setTag s ptr size true true in
      let a := u64 (ptr + globalOffset) in
      let m1 := setG m s in
      let m2 := match ini with Some bs => storeBytes m1 a bs | None => memReset m1 a size 0 end in
      let m3 := if ro then setG m2 (removeWrite (gs m2) ptr size) else m2 in
      (mkM (gs m3) ((g, a) :: galloc m3) (ss m3) (salloc m3) (popped m3) (err m3), a)
  end.
