(** Model of cmmc/Analysis/IntegerRange.{hpp,cpp}: the 32-bit integer range domain.
    [ck = true] models a build with assertions enabled (a failing assert is [None]);
    [ck = false] models an NDEBUG build (the assertion has no effect).
    C++ undefined behaviour (shift by a negative / too large amount) is [None] in both. *)
From Coq Require Import ZArith List Bool.
From Verif Require Import Word.
Import ListNotations.
Local Open Scope Z_scope.

(** IntegerRange.hpp:25-28 (fields) *)
Record range := mkR {
  kz : Z;  (* mKnownZeros : uint32_t *)
  ko : Z;  (* mKnownOnes : uint32_t *)
  umin : Z; (* mMinUnsignedValue : uint64_t *)
  umax : Z; (* mMaxUnsignedValue : uint64_t *)
  smin : Z; (* mMinSignedValue : int64_t *)
  smax : Z  (* mMaxSignedValue : int64_t *)
}.

Definition bind {A B} (m : option A) (f : A -> option B) : option B :=
  match m with Some a => f a | None => None end.
Notation "'let*' x := m 'in' k" := (bind m (fun x => k))
  (at level 200, x name, m at level 100, k at level 200).

(** assert(cond): IntegerRange.cpp uses the C assert macro *)
Definition check (ck cond : bool) {A} (a : A) : option A :=
  if ck && negb cond then None else Some a.

(** IntegerRange.cpp:27-29 *)
Definition signedOverflow (x : Z) : bool := (x <? INT_MIN) || (INT_MAX <? x).
(** IntegerRange.cpp:31-33 *)
Definition unsignedOverflow (x : Z) : bool := UINT_MAX <? x.

Definition shl32 (x i : Z) : Z := u32 (Z.shiftl x i).
Definition shr32 (x i : Z) : Z := Z.shiftr x i.
(** the idiom ~((0xffffffff << l) >> l) (IntegerRange.cpp:49,80,92,428,450) *)
Definition topMask (l : Z) : Z := not32 (shr32 (shl32 UINT_MAX l) l).

Definition setU (r : range) (lo hi : Z) : range := mkR (kz r) (ko r) lo hi (smin r) (smax r).
Definition setS (r : range) (lo hi : Z) : range := mkR (kz r) (ko r) (umin r) (umax r) lo hi.
Definition setK (r : range) (zeros ones : Z) : range := mkR zeros ones (umin r) (umax r) (smin r) (smax r).

(** IntegerRange.cpp:193-199 inferSuffix *)
Definition inferSuffix (r : range) : Z * Z :=
  let determined := Z.lor (ko r) (kz r) in
  if determined =? UINT_MAX then (ko r, 32)
  else let length := ctz (not32 determined) in
       (Z.land (ko r) (shl32 1 length - 1), length).

(** IntegerRange.cpp:41-72 bit2Unsigned *)
Definition bit2Unsigned (ck : bool) (r : range) : option range :=
  let determined := Z.lor (ko r) (kz r) in
  let r1 :=
    if determined =? UINT_MAX then
      let val := ko r in
      setU r (Z.max (umin r) val) (Z.min (umax r) val)
    else
      let lcpLength := clz32 (not32 determined) in
      let mask := topMask lcpLength in
      let minV := Z.land (ko r) mask in
      let maxV := Z.lor minV (not32 mask) in
      setU r (Z.max (umin r) minV) (Z.min (umax r) maxV) in
  let suffix := fst (inferSuffix r1) in
  let suffixLength := snd (inferSuffix r1) in
  let mask := if suffixLength =? 32 then UINT_MAX else shl32 1 suffixLength - 1 in
  let lo :=
    if negb (Z.land (umin r1) mask =? suffix) then
      let next := Z.lor (Z.land (umin r1) (not32 mask)) suffix in
      if next <? umin r1 then u64 (next + u32 (mask + 1)) else next
    else umin r1 in
  let hi :=
    if negb (Z.land (umax r1) mask =? suffix) then
      let next := Z.lor (Z.land (umax r1) (not32 mask)) suffix in
      if umax r1 <? next then u64 (next - u32 (mask + 1)) else next
    else umax r1 in
  check ck (lo <=? hi) (setU r1 lo hi).

(** IntegerRange.cpp:73-84 unsigned2Bit *)
Definition unsigned2Bit (r : range) : range :=
  let common := u32 (Z.lxor (umin r) (umax r)) in
  if common =? 0 then
    setK r (Z.lor (kz r) (not32 (u32 (umin r)))) (Z.lor (ko r) (u32 (umin r)))
  else
    let mask := topMask (clz32 common) in
    setK r (Z.lor (kz r) (Z.land (not32 (u32 (umin r))) mask))
           (Z.lor (ko r) (Z.land (u32 (umin r)) mask)).

(** IntegerRange.cpp:85-96 signed2Bit *)
Definition signed2Bit (r : range) : range :=
  let common := u32 (Z.lxor (smin r) (smax r)) in
  if common =? 0 then
    setK r (Z.lor (kz r) (not32 (u32 (smin r)))) (Z.lor (ko r) (u32 (smin r)))
  else
    let mask := topMask (clz32 common) in
    setK r (Z.lor (kz r) (Z.land (not32 (u32 (smin r))) mask))
           (Z.lor (ko r) (Z.land (u32 (smin r)) mask)).

(** IntegerRange.cpp:97-110 unsigned2Signed *)
Definition unsigned2Signed (r : range) : range :=
  let r1 := if umax r <=? INT_MAX
            then setS r (Z.max (smin r) (umin r)) (Z.min (smax r) (umax r)) else r in
  if INT_MAX <? umin r1
  then setS r1 (Z.max (smin r1) (s32 (umin r1))) (Z.min (smax r1) (s32 (umax r1)))
  else r1.

(** IntegerRange.cpp:111-124 signed2Unsigned *)
Definition signed2Unsigned (r : range) : range :=
  let r1 := if 0 <=? smin r
            then setU r (Z.max (umin r) (u64 (smin r))) (Z.min (umax r) (u64 (smax r))) else r in
  if smax r1 <? 0
  then setU r1 (Z.max (umin r1) (u32 (smin r1))) (Z.min (umax r1) (u32 (smax r1)))
  else r1.

(** IntegerRange.cpp:126-142 setUnsignedRange / setSignedRange / setKnownBits *)
Definition setUnsignedRange (ck : bool) (r : range) (lo hi : Z) : option range :=
  check ck (lo <=? hi) (setU r lo hi).
Definition setSignedRange (ck : bool) (r : range) (lo hi : Z) : option range :=
  check ck ((lo <=? hi) && (INT_MIN <=? lo) && (hi <=? INT_MAX)) (setS r lo hi).
Definition setKnownBits (ck : bool) (r : range) (zeros ones : Z) : option range :=
  check ck (Z.land zeros ones =? 0) (setK r zeros ones).

(** IntegerRange.cpp:143-155 sync *)
Definition sync (ck : bool) (r : range) : option range :=
  let* r2 := bit2Unsigned ck (unsigned2Bit (signed2Unsigned r)) in
  Some (signed2Bit (unsigned2Signed r2)).

(** IntegerRange.cpp:157-161 IntegerRange() *)
Definition full : range := mkR 0 0 0 UINT_MAX INT_MIN INT_MAX.
(** IntegerRange.cpp:162-168 IntegerRange(int64_t) *)
Definition ofConst (sval : Z) : range :=
  mkR (not32 (u32 sval)) (u32 sval) (u32 sval) (u32 sval) (s32 sval) (s32 sval).

(** IntegerRange.cpp:170-177 operator== *)
Definition range_eqb (a b : range) : bool :=
  (kz a =? kz b) && (ko a =? ko b) && (umax a =? umax b) && (umin a =? umin b)
  && (smax a =? smax b) && (smin a =? smin b).

(** IntegerRange.hpp:52-60 *)
Definition isNonNegative (r : range) : bool := 0 <=? smin r.
Definition isPositive (r : range) : bool := 0 <? smin r.
Definition isNoSignedOverflow (r : range) : bool := (INT_MIN <? smin r) && (smax r <? INT_MAX).

(** IntegerRange.cpp:179-183 intersectWith *)
Definition intersectWith (a b : range) : bool :=
  (Z.max (smin a) (smin b) <=? Z.min (smax a) (smax b))
  && (Z.max (umin a) (umin b) <=? Z.min (umax a) (umax b))
  && (Z.land (Z.lor (kz a) (kz b)) (Z.lor (ko a) (ko b)) =? 0).

(** IntegerRange.cpp:184-192 inferConstant *)
Definition inferConstant (r : range) : option Z :=
  if smin r =? smax r then Some (smin r)
  else if umin r =? umax r then Some (s32 (umin r))
  else if Z.lor (ko r) (kz r) =? UINT_MAX then Some (s32 (ko r))
  else None.

(** IntegerRange.cpp:200-207 intersectSet *)
Definition intersectSet (ck : bool) (a b : range) : option range :=
  let* r := setSignedRange ck full (Z.max (smin a) (smin b)) (Z.min (smax a) (smax b)) in
  let* r := setUnsignedRange ck r (Z.max (umin a) (umin b)) (Z.min (umax a) (umax b)) in
  let* r := setKnownBits ck r (Z.lor (kz a) (kz b)) (Z.lor (ko a) (ko b)) in
  sync ck r.

(** IntegerRange.cpp:208-215 unionSet *)
Definition unionSet (ck : bool) (a b : range) : option range :=
  let* r := setSignedRange ck full (Z.min (smin a) (smin b)) (Z.max (smax a) (smax b)) in
  let* r := setUnsignedRange ck r (Z.min (umin a) (umin b)) (Z.max (umax a) (umax b)) in
  let* r := setKnownBits ck r (Z.land (kz a) (kz b)) (Z.land (ko a) (ko b)) in
  sync ck r.

(** IntegerRange.cpp:217-219 isEmpty *)
Definition isEmpty (r : range) : bool :=
  (smax r <? smin r) || (umin r <? umax r) || negb (Z.land (ko r) (kz r) =? 0).
(** IntegerRange.cpp:220-222 isFull *)
Definition isFull (r : range) : bool := range_eqb r full.

(** IntegerRange.cpp:224-243 operator+ *)
Definition radd (ck : bool) (a b : range) : option range :=
  if kz a =? UINT_MAX then Some b
  else if kz b =? UINT_MAX then Some a
  else
    let sl := smin a + smin b in let sh := smax a + smax b in
    let* r := if negb (signedOverflow sl) && negb (signedOverflow sh)
              then setSignedRange ck full sl sh else Some full in
    let ul := u64 (umin a + umin b) in let uh := u64 (umax a + umax b) in
    let* r := if negb (unsignedOverflow ul) && negb (unsignedOverflow uh)
              then setUnsignedRange ck r ul uh else Some r in
    let* r := setKnownBits ck r (shl32 1 (Z.min (ctz (not32 (kz a))) (ctz (not32 (kz b)))) - 1) 0 in
    sync ck r.

(** IntegerRange.cpp:244-254 operator- *)
Definition rsub (ck : bool) (a b : range) : option range :=
  let sl := smin a - smax b in let sh := smax a - smin b in
  let* r := if negb (signedOverflow sl) && negb (signedOverflow sh)
            then setSignedRange ck full sl sh else Some full in
  let ul := u64 (umin a - umax b) in let uh := u64 (umax a - umin b) in
  let* r := if negb (unsignedOverflow ul) && negb (unsignedOverflow uh)
            then setUnsignedRange ck r ul uh else Some r in
  sync ck r.

(** IntegerRange.cpp:255-285 operator* *)
Definition min4 (a b c d : Z) := Z.min (Z.min a b) (Z.min c d).
Definition max4 (a b c d : Z) := Z.max (Z.max a b) (Z.max c d).
Definition lowMask (length : Z) : Z := if 32 <=? length then UINT_MAX else shl32 1 length - 1.
Definition rmul (ck : bool) (a b : range) : option range :=
  let s1 := smin a * smin b in let s2 := smin a * smax b in
  let s3 := smax a * smin b in let s4 := smax a * smax b in
  let* r := if negb (signedOverflow s1) && negb (signedOverflow s2)
               && negb (signedOverflow s3) && negb (signedOverflow s4)
            then setSignedRange ck full (min4 s1 s2 s3 s4) (max4 s1 s2 s3 s4) else Some full in
  let ul := u64 (umin a * umin b) in let uh := u64 (umax a * umax b) in
  let* r := if negb (unsignedOverflow ul) && negb (unsignedOverflow uh)
            then setUnsignedRange ck r ul uh else Some r in
  let '(lsuf, llen) := inferSuffix a in
  let '(rsuf, rlen) := inferSuffix b in
  let* r :=
    if negb (llen =? 0) && negb (rlen =? 0) then
      let mask := lowMask (Z.min llen rlen) in
      let val := u32 (lsuf * rsuf) in
      setKnownBits ck r (Z.land (not32 val) mask) (Z.land val mask)
    else if negb (llen =? 0) then
      setKnownBits ck r (lowMask (if lsuf =? 0 then llen else ctz lsuf)) 0
    else if negb (rlen =? 0) then
      setKnownBits ck r (lowMask (if rsuf =? 0 then rlen else ctz rsuf)) 0
    else Some r in
  sync ck r.

(** IntegerRange.cpp:291-294 wrap *)
Definition sdivWrap (x : Z) : Z := if x =? 2147483648 then INT_MIN else x.

(** IntegerRange.cpp:286-329 sdiv; int64_t '/' truncates = Z.quot *)
Definition rsdiv (ck : bool) (a b : range) : option range :=
  if (smin b =? 0) && (smax b =? 0) then Some full
  else
    let* r :=
      if 0 <=? smin b then
        let s1 := Z.quot (smin a) (Z.max 1 (smin b)) in
        let s2 := Z.quot (smin a) (Z.max 1 (smax b)) in
        let s3 := Z.quot (smax a) (Z.max 1 (smin b)) in
        let s4 := Z.quot (smax a) (Z.max 1 (smax b)) in
        setSignedRange ck full (min4 s1 s2 s3 s4) (max4 s1 s2 s3 s4)
      else if smax b <=? 0 then
        let s1 := sdivWrap (Z.quot (smin a) (Z.min (-1) (smin b))) in
        let s2 := sdivWrap (Z.quot (smin a) (Z.min (-1) (smax b))) in
        let s3 := sdivWrap (Z.quot (smax a) (Z.min (-1) (smin b))) in
        let s4 := sdivWrap (Z.quot (smax a) (Z.min (-1) (smax b))) in
        setSignedRange ck full (min4 s1 s2 s3 s4) (max4 s1 s2 s3 s4)
      else
        let lhs := [smin a; smax a] in
        let rhsList := [smin b; -1; 1; smax b] in
        let pairs := flat_map (fun l => map (fun q => (l, q)) rhsList) lhs in
        let '(minV, maxV) :=
          fold_left (fun acc (p : Z * Z) =>
            let '(mn, mx) := acc in let '(l, q) := p in
            if q =? 0 then (mn, mx)
            else let v := sdivWrap (Z.quot l q) in (Z.min mn v, Z.max mx v))
            pairs (INT_MAX, INT_MIN) in
        setSignedRange ck full minV maxV in
    sync ck r.

(** IntegerRange.cpp:330-339 udiv *)
Definition rudiv (ck : bool) (a b : range) : option range :=
  if (umin b =? 0) && (umax b =? 0) then Some full
  else
    let* r := setUnsignedRange ck full (umin a / Z.max 1 (umax b)) (umax a / Z.max 1 (umin b)) in
    sync ck r.

(** IntegerRange.cpp:340-367 srem *)
Definition rsrem (ck : bool) (a b : range) : option range :=
  if (smin b =? 0) && (smax b =? 0) then Some full
  else
    let* r :=
      if 0 <=? smin b then
        let* r := if isNonNegative a
                  then setSignedRange ck full 0 (smax b - 1)
                  else setSignedRange ck full (- smax b + 1) (smax b - 1) in
        if negb (smin a =? INT_MIN) then
          let maxRange := Z.max (Z.abs (smax a)) (Z.abs (smin a)) in
          if maxRange <? smax b
          then Some (setS r (Z.max (smin r) (- maxRange)) (Z.min (smax r) maxRange))
          else Some r
        else Some r
      else if smax b <=? 0 then setSignedRange ck full (smin b + 1) (- smin b - 1)
      else let val := Z.max (- smin b) (smax b) in
           setSignedRange ck full (- val + 1) (val - 1) in
    sync ck r.

(** IntegerRange.cpp:368-375 urem *)
Definition rurem (ck : bool) (a b : range) : option range :=
  if (umin b =? 0) && (umax b =? 0) then Some full
  else let* r := setUnsignedRange ck full 0 (umax b - 1) in sync ck r.

(** IntegerRange.cpp:377-395 operator& | ^ *)
Definition rand (ck : bool) (a b : range) : option range :=
  let* r := setKnownBits ck full (Z.lor (kz a) (kz b)) (Z.land (ko a) (ko b)) in sync ck r.
Definition ror (ck : bool) (a b : range) : option range :=
  let* r := setKnownBits ck full (Z.land (kz a) (kz b)) (Z.lor (ko a) (ko b)) in sync ck r.
Definition rxor (ck : bool) (a b : range) : option range :=
  let* r := setKnownBits ck full
     (Z.lor (Z.land (kz a) (kz b)) (Z.land (ko a) (ko b)))
     (Z.lor (Z.land (kz a) (ko b)) (Z.land (ko a) (kz b))) in sync ck r.

(** the for(i = beg; i <= end; ++i) loops of shl/lshr/ashr (IntegerRange.cpp:401-410,427-436,449-459):
    [n] iterations starting at [i], accumulating the union of the per-amount sub-ranges *)
Fixpoint shiftLoop (ck : bool) (sub : Z -> option range) (n : nat) (i : Z) (acc : option range)
  : option (option range) :=
  match n with
  | O => Some acc
  | S n' =>
      let* s := sub i in
      match acc with
      | Some r => let* u := unionSet ck r s in shiftLoop ck sub n' (i + 1) (Some u)
      | None => shiftLoop ck sub n' (i + 1) (Some s)
      end
  end.
Definition shiftBeg (b : range) : Z := Z.max 0 (smin b).
Definition shiftEnd (b : range) : Z := Z.min 31 (smax b).
Definition shiftCount (b : range) : nat := Z.to_nat (shiftEnd b - shiftBeg b + 1).

(** IntegerRange.cpp:397-422 shl *)
Definition rshl (ck : bool) (a b : range) : option range :=
  let beg := shiftBeg b in let end_ := shiftEnd b in
  let sub i := setKnownBits ck full (Z.lor (shl32 (kz a) i) (shl32 1 i - 1)) (shl32 (ko a) i) in
  let* retRange := shiftLoop ck sub (shiftCount b) beg None in
  if (end_ <? 0) || (64 <=? beg) then None (* 1ULL << beg / 1ULL << end undefined *)
  else
    let* mul := setUnsignedRange ck full (Z.shiftl 1 beg) (Z.shiftl 1 end_) in
    let* mul := sync ck mul in
    let* ret := rmul ck a mul in
    let* ret := match retRange with Some q => intersectSet ck ret q | None => Some ret end in
    sync ck ret.

(** IntegerRange.cpp:423-444 lshr *)
Definition rlshr (ck : bool) (a b : range) : option range :=
  let sub i := setKnownBits ck full (Z.lor (shr32 (kz a) i) (topMask i)) (shr32 (ko a) i) in
  let* retRange := shiftLoop ck sub (shiftCount b) (shiftBeg b) None in
  sync ck (match retRange with Some q => q | None => full end).

(** IntegerRange.cpp:445-467 ashr *)
Definition rashr (ck : bool) (a b : range) : option range :=
  let hi z := negb (Z.land z 2147483648 =? 0) in
  let sub i := setKnownBits ck full
     (Z.lor (shr32 (kz a) i) (if hi (kz a) then topMask i else 0))
     (Z.lor (shr32 (ko a) i) (if hi (ko a) then topMask i else 0)) in
  let* retRange := shiftLoop ck sub (shiftCount b) (shiftBeg b) None in
  sync ck (match retRange with Some q => q | None => full end).

(** IntegerRange.cpp:469-480 smax smin *)
Definition rsmax (ck : bool) (a b : range) : option range :=
  let* r := setSignedRange ck full (Z.max (smin a) (smin b)) (Z.max (smax a) (smax b)) in sync ck r.
Definition rsmin (ck : bool) (a b : range) : option range :=
  let* r := setSignedRange ck full (Z.min (smin a) (smin b)) (Z.min (smax a) (smax b)) in sync ck r.

(** IntegerRange.cpp:481-494 abs *)
Definition rabs (ck : bool) (a : range) : option range :=
  let* r :=
    if (smin a <? 0) && (0 <=? smax a) then
      setSignedRange ck full 0 (Z.max (Z.abs (smin a)) (Z.abs (smax a)))
    else if negb (smin a =? INT_MIN) then
      let s1 := Z.abs (smin a) in let s2 := Z.abs (smax a) in
      if s2 <? s1 then setSignedRange ck full s2 s1 else setSignedRange ck full s1 s2
    else Some full in
  sync ck r.

(** IntegerRange.cpp:496-503 neg *)
Definition rneg (ck : bool) (a : range) : option range :=
  let* r := if negb (smin a =? INT_MIN) then setSignedRange ck full (- smax a) (- smin a) else Some full in
  sync ck r.

(** IntegerRange.cpp:505-510 getNonNegative *)
Definition nonNegative (ck : bool) : option range :=
  let* r := setSignedRange ck full 0 INT_MAX in sync ck r.
