(** Model of the integer rewrite rules of cmmc/Transforms/Combine/ArithmeticReduce.cpp (lambda of
    runOnBlock, lines 46-1358), one definition per rule, named after the source line, in source order.
    Not modelled: the floating point rules, [gep x 0], the f2s/s2f rule, and the float part of the
    "not cmp" rule.  intmax_t arithmetic on constants is done in Z where the result only goes through
    ConstantInteger::get (which truncates); where the code inspects the result, int64 wrapping is
    modelled with [s64]. *)
From Coq Require Import ZArith Lia Bool List.
From Verif Require Import Word CmpModel IR PatternMatch.
Import ListNotations.
Local Open Scope Z_scope.

Definition rule := oracle -> expr -> option expr.
(** if(pattern(matchCtx)) ... with the captured variables in [b] *)
Definition on (p : pat) (k : oracle -> expr -> bnd -> option expr) : rule :=
  fun O e => let '(ok, b) := pmatch O p e b0 in if ok then k O e b else None.
Definition guard (c : bool) (r : expr) : option expr := if c then Some r else None.

(** target.isNativeSupported queries *)
Definition NSExt := 0%nat. Definition NSMin := 1%nat. Definition NSMax := 2%nat.
Definition NXor := 3%nat. Definition NAbs := 4%nat. Definition NICmp := 5%nat.

(** ArithmeticReduce.cpp:69 makeIntLike *)
Definition like (z : Z) (e : expr) : expr := Cst (ty_of e) z.
(** :70-74 makeNot *)
Definition makeNot (e : expr) : expr :=
  if is_bool (ty_of e) then Bin OXor e (Cst I1 1) else Bin OXor e (like (-1) e).
(** :75-78 makeNeg *)
Definition makeNeg (e : expr) : expr := Un ONeg e.
(** :79-85 makeSignedCast, [t] the type of the instruction *)
Definition makeSignedCast (t : ty) (e : expr) : expr :=
  if ty_eqb (ty_of e) t then e
  else if bits (ty_of e) <? bits t then Cast OSExt t e else Cast OSTrunc t e.
Definition eTrue := Cst I1 1.
Definition eFalse := Cst I1 0.
Definition isConst (e : expr) : bool := match e with Cst _ _ => true | _ => false end.
Definition icmp_eqb (a b : icmp) : bool :=
  match a, b with
  | Ieq, Ieq | Ine, Ine | Islt, Islt | Isle, Isle | Isgt, Isgt | Isge, Isge
  | Iult, Iult | Iule, Iule | Iugt, Iugt | Iuge, Iuge => true | _, _ => false end.
Notation "a ==c b" := (icmp_eqb a b) (at level 70).
(** Type::getFixedSize: i1 and i8 occupy one byte *)
Definition fixedSize (t : ty) : Z := match t with I1 => 1 | _ => bits t / 8 end.

Local Notation "'V' b k" := (vb b k%nat) (at level 10, b at level 0, k at level 0).
Local Notation "'K' b k" := (ib b k%nat) (at level 10, b at level 0, k at level 0).
Local Notation "'P' b k" := (cb b k%nat) (at level 10, b at level 0, k at level 0).
Local Notation A := PAny.
Local Notation X := PExact.

(** :47-66 commutative c x -> commutative x c (in place) *)
Definition R47 : rule := fun O e =>
  match e with
  | Bin op x y => guard (comm op && isConst x && negb (isConst y)) (Bin op y x)
  | _ => None end.
(** :91 *)
Definition R91 := on (PBin OAdd (A 1) (PCInt 0)) (fun O e b => Some (V b 1)).
(** :96 *)
Definition R96 := on (PBin OSub (A 1) (PCInt 0)) (fun O e b => Some (V b 1)).
(** :101 a - c -> a + (-c) *)
Definition R101 := on (PBin OSub (A 1) (PInt 2)) (fun O e b => Some (Bin OAdd (V b 1) (like (- K b 2) e))).
(** :104 -(a-b) -> b-a *)
Definition R104 := on (PUn ONeg (PBin OSub (A 1) (A 2))) (fun O e b => Some (Bin OSub (V b 2) (V b 1))).
(** :107 0 - a -> -a *)
Definition R107 := on (PBin OSub (PCInt 0) (A 1)) (fun O e b => Some (Un ONeg (V b 1))).
(** :112 a - a -> 0 *)
Definition R112 := on (PBin OSub (A 1) (X 1)) (fun O e b => Some (like 0 e)).
(** :117 a * 0 -> 0 *)
Definition R117 := on (PBin OMul (A 1) (PCInt 0)) (fun O e b => Some (like 0 e)).
(** :122 a * 1 -> a *)
Definition R122 := on (PBin OMul (A 1) (PCInt 1)) (fun O e b => Some (V b 1)).
(** :134 a * -1 -> -a *)
Definition R134 := on (PBin OMul (A 1) (PCInt (-1))) (fun O e b => Some (Un ONeg (V b 1))).
(** :139 0 / a -> 0 *)
Definition R139s := on (PBin OSDiv (PCInt 0) (A 1)) (fun O e b => Some (like 0 e)).
Definition R139u := on (PBin OUDiv (PCUInt 0) (A 1)) (fun O e b => Some (like 0 e)).
(** :144 a / a -> 1 *)
Definition R144s := on (PBin OSDiv (A 1) (X 1)) (fun O e b => Some (like 1 e)).
Definition R144u := on (PBin OUDiv (A 1) (X 1)) (fun O e b => Some (like 1 e)).
(** :149 a / 1 -> a *)
Definition R149s := on (PBin OSDiv (A 1) (PCInt 1)) (fun O e b => Some (V b 1)).
Definition R149u := on (PBin OUDiv (A 1) (PCUInt 1)) (fun O e b => Some (V b 1)).
(** :154 a / -1 -> -a *)
Definition R154 := on (PBin OSDiv (A 1) (PCInt (-1))) (fun O e b => Some (Un ONeg (V b 1))).
(** :159 a / -a -> -1 *)
Definition R159 := on (PBin OSDiv (A 1) (PUn ONeg (X 1))) (fun O e b => Some (like (-1) e)).
(** :164 -a / a -> -1 *)
Definition R164 := on (PBin OSDiv (PUn ONeg (A 1)) (X 1)) (fun O e b => Some (like (-1) e)).
(** :181-190 a / c1 / c2 -> a / (c1 * c2), or 0 when c1*c2 does not fit *)
Definition R181 := on (PBin OSDiv (PBin OSDiv (A 1) (PInt 1)) (PInt 2)) (fun O e b =>
  let val := s64 (K b 1 * K b 2) in
  let t := ty_of (V b 1) in
  let mn := - hf t in let mx := - (mn + 1) in
  if (mn <=? val) && (val <=? mx) then Some (Bin OSDiv (V b 1) (like val e)) else Some (like 0 e)).
(** :192 0 % a -> 0 *)
Definition R192s := on (PBin OSRem (PCInt 0) (A 1)) (fun O e b => Some (like 0 e)).
Definition R192u := on (PBin OURem (PCUInt 0) (A 1)) (fun O e b => Some (like 0 e)).
(** :195 a % a -> 0 *)
Definition R195s := on (PBin OSRem (A 1) (X 1)) (fun O e b => Some (like 0 e)).
Definition R195u := on (PBin OURem (A 1) (X 1)) (fun O e b => Some (like 0 e)).
(** :198 a % 1 -> 0 *)
Definition R198s := on (PBin OSRem (A 1) (PCInt 1)) (fun O e b => Some (like 0 e)).
Definition R198u := on (PBin OURem (A 1) (PCUInt 1)) (fun O e b => Some (like 0 e)).
(** :202 a ^ a -> 0 *)
Definition R202 := on (PBin OXor (A 1) (A 2)) (fun O e b => guard (same O (V b 1) (V b 2)) (like 0 e)).
(** :205 a ^ 0 -> a *)
Definition R205 := on (PBin OXor (A 1) (PCUInt 0)) (fun O e b => Some (V b 1)).
(** :208 a & a -> a *)
Definition R208 := on (PBin OAnd (A 1) (A 2)) (fun O e b => guard (same O (V b 1) (V b 2)) (V b 1)).
(** :211 a & 0 -> 0 *)
Definition R211 := on (PBin OAnd (A 1) (PCUInt 0)) (fun O e b => Some (like 0 e)).
(** :214 a & -1 -> a *)
Definition R214 := on (PBin OAnd (A 1) (PCInt (-1))) (fun O e b => Some (V b 1)).
(** :217 bool a & 1 -> a *)
Definition R217 := on (PBin OAnd (A 1) (PCUInt 1)) (fun O e b => guard (is_bool (ty_of (V b 1))) (V b 1)).
(** :219 (zext bool) & 1 -> zext bool *)
Definition R219 := on (PBin OAnd (PCap (PCast OZExt (A 1)) 2) (PCUInt 1)) (fun O e b =>
  guard (is_bool (ty_of (V b 1))) (V b 2)).
(** :222 a | a -> a *)
Definition R222 := on (PBin OOr (A 1) (A 2)) (fun O e b => guard (same O (V b 1) (V b 2)) (V b 1)).
(** :225 a | 0 -> a *)
Definition R225 := on (PBin OOr (A 1) (PCUInt 0)) (fun O e b => Some (V b 1)).
(** :228 a | -1 -> -1 *)
Definition R228 := on (PBin OOr (A 1) (PCInt (-1))) (fun O e b => Some (like (-1) e)).
(** :231 bool a | 1 -> 1 *)
Definition R231 := on (PBin OOr (A 1) (PCUInt 1)) (fun O e b => guard (is_bool (ty_of (V b 1))) (like 1 e)).
(** :233 (zext bool) | 1 -> 1 *)
Definition R233 := on (PBin OOr (PCast OZExt (A 1)) (PCUInt 1)) (fun O e b =>
  guard (is_bool (ty_of (V b 1))) (like 1 e)).
(** :239-248 uint >= 0, uint < 0 *)
Definition R239 := on (PCmp 1 (A 1) (PCUInt 0)) (fun O e b =>
  match P b 1 with Iuge => Some eTrue | Iult => Some eFalse | _ => None end).
(** :250 !!a -> a *)
Definition R250 := on (PNot (PNot (A 1))) (fun O e b => Some (V b 1)).
(** :253 a + -b -> a - b *)
Definition R253 := on (PBin OAdd (A 1) (PUn ONeg (A 2))) (fun O e b => Some (Bin OSub (V b 1) (V b 2))).
(** :257 a - -b -> a + b *)
Definition R257 := on (PBin OSub (A 1) (PUn ONeg (A 2))) (fun O e b => Some (Bin OAdd (V b 1) (V b 2))).
(** :261 select c?a:a -> a *)
Definition R261 := on (PSel (A 1) (A 2) (X 2)) (fun O e b => Some (V b 2)).
(** :265 select const a b *)
Definition R265 := on (PSel (PUInt 1) (A 2) (A 3)) (fun O e b =>
  Some (if K b 1 =? 0 then V b 3 else V b 2)).
(** :270 a + a -> 2 * a *)
Definition R270 := on (PBin OAdd (A 1) (X 1)) (fun O e b => Some (Bin OMul (V b 1) (like 2 e))).
(** :273 b*a + a -> (b+1)*a *)
Definition R273 := on (PBin OAdd (A 1) (POne (PBin OMul (X 1) (A 2)))) (fun O e b =>
  Some (Bin OMul (Bin OAdd (V b 2) (like 1 e)) (V b 1))).
(** :278-293, :295-310 common factor selection *)
Definition factor (O : oracle) (b : bnd) : option (expr * expr * expr) :=
  if same O (V b 1) (V b 3) then Some (V b 1, V b 2, V b 4)
  else if same O (V b 1) (V b 4) then Some (V b 1, V b 2, V b 3)
  else if same O (V b 2) (V b 3) then Some (V b 2, V b 1, V b 4)
  else if same O (V b 2) (V b 4) then Some (V b 2, V b 1, V b 3)
  else None.
Definition R278 := on (PBin OAdd (POne (PBin OMul (A 1) (A 2))) (POne (PBin OMul (A 3) (A 4)))) (fun O e b =>
  match factor O b with Some (a, x, y) => Some (Bin OMul (Bin OAdd x y) a) | None => None end).
Definition R295 := on (PBin OSub (POne (PBin OMul (A 1) (A 2))) (POne (PBin OMul (A 3) (A 4)))) (fun O e b =>
  match factor O b with Some (a, x, y) => Some (Bin OMul (Bin OSub x y) a) | None => None end).
(** :314 c % (2^k) = c & (2^k - 1) *)
Definition R314 := on (PBin OURem (A 1) (PCap (PLog2 2) 3)) (fun O e b =>
  Some (Bin OAnd (V b 1) (Bin OSub (V b 3) (like 1 (V b 3))))).
(** :321-338 (zext bool) ==/!= c *)
Definition R321 := on (PCmp 1 (PCast OZExt (A 1)) (PUInt 1)) (fun O e b =>
  if is_bool (ty_of (V b 1)) then
    let c := K b 1 in
    match P b 1 with
    | Ieq => Some (if c =? 0 then makeNot (V b 1) else if c =? 1 then V b 1 else eFalse)
    | Ine => Some (if c =? 0 then V b 1 else if c =? 1 then makeNot (V b 1) else eTrue)
    | _ => None end
  else None).
(** :341 *)
Definition R341 := on (PCmp 1 (PCast OZExt (A 1)) (PCUInt 1)) (fun O e b =>
  guard ((P b 1 ==c Ieq) && is_bool (ty_of (V b 1))) (V b 1)).
(** :346 bool == true -> bool *)
Definition R346 := on (PCmp 1 (A 1) (PCUInt 1)) (fun O e b =>
  guard ((P b 1 ==c Ieq) && is_bool (ty_of (V b 1))) (V b 1)).
(** :351 select x 1 0 -> zext x *)
Definition R351 := on (PSel (A 1) (PCUInt 1) (PCUInt 0)) (fun O e b =>
  if native O NSExt then
    if is_bool (ty_of e) then Some (V b 1) else Some (Cast OZExt (ty_of e) (V b 1))
  else None).
(** :365 add (add x c1) c2 *)
Definition R365 := on (PBin OAdd (PBin OAdd (A 1) (PInt 1)) (PInt 2)) (fun O e b =>
  Some (Bin OAdd (V b 1) (like (K b 1 + K b 2) (V b 1)))).
(** :368 add (sub x c1) c2 *)
Definition R368 := on (PBin OAdd (PBin OSub (A 1) (PInt 1)) (PInt 2)) (fun O e b =>
  Some (Bin OAdd (V b 1) (like (K b 2 - K b 1) (V b 1)))).
(** :371 sub (sub x c1) c2 *)
Definition R371 := on (PBin OSub (PBin OSub (A 1) (PInt 1)) (PInt 2)) (fun O e b =>
  Some (Bin OAdd (V b 1) (like (- (K b 1 + K b 2)) (V b 1)))).
(** :374 sub (add x c1) c2 *)
Definition R374 := on (PBin OSub (PBin OAdd (A 1) (PInt 1)) (PInt 2)) (fun O e b =>
  Some (Bin OAdd (V b 1) (like (K b 1 - K b 2) (V b 1)))).
(** :378 a - c -> a + (-c) *)
Definition R378 := on (PBin OSub (A 1) (PInt 1)) (fun O e b =>
  guard (negb (isConst (V b 1))) (Bin OAdd (V b 1) (like (- K b 1) (V b 1)))).
(** :384 select cond, x, x+1 -> sub x+1, zext cond *)
Definition R384 := on (PSel (A 1) (A 2) (PCap (PBin OAdd (X 2) (PCUInt 1)) 5)) (fun O e b =>
  guard (native O NSExt && (4 <=? fixedSize (ty_of (V b 2))))
    (Bin OSub (V b 5) (Cast OZExt (ty_of (V b 5)) (V b 1)))).
(** :397 select (not cond) x y -> select cond y x (in place) *)
Definition R397 := on (PSel (PNot (A 1)) (A 2) (A 3)) (fun O e b => Some (Sel (V b 1) (V b 3) (V b 2))).
(** :407 not cmp *)
Definition R407 := on (PBin OXor (PCap (PCmp 1 (A 1) (A 2)) 3) (PCUInt 1)) (fun O e b =>
  Some (Cmp (invI (P b 1)) (V b 1) (V b 2))).
(** :414 a cmp a *)
Definition R414 := on (PCmp 1 (A 1) (X 1)) (fun O e b =>
  match P b 1 with Ieq | Isle | Isge | Iule | Iuge => Some eTrue | _ => Some eFalse end).
(** :443 -x cmp c -> -c cmp x *)
Definition R443 := on (PCmp 1 (PUn ONeg (A 1)) (PInt 1)) (fun O e b =>
  match P b 1 with
  | Ieq | Ine | Islt | Isle | Isgt | Isge => Some (Cmp (P b 1) (like (- K b 1) (V b 1)) (V b 1))
  | _ => None end).
(** :460 (((x % c1) + c2) % c1 + c3) % c1 *)
Definition R460 := on (PBin OSRem (PBin OAdd (PBin OSRem (PBin OAdd (PCap (PBin OSRem (A 1) (PCap (PInt 1) 3)) 2)
    (PInt 2)) (PInt 3)) (PInt 4)) (PInt 5)) (fun O e b =>
  guard ((0 <? K b 1) && (K b 1 =? K b 3) && (K b 3 =? K b 5) && (0 <=? K b 2) && (0 <=? K b 4)
         && (K b 1 + K b 2 + K b 4 <? INT_MAX))
    (Bin OSRem (Bin OAdd (V b 2) (like (Z.rem (K b 2 + K b 4) (K b 1)) (V b 2))) (V b 3))).
(** :469 (a == c1) & (b == c2) -> ((a^c1) | (b^c2)) == 0 *)
Definition R469 := on (PBin OAnd (POne (PCmp 1 (A 1) (PInt 1))) (POne (PCmp 2 (A 2) (PInt 2)))) (fun O e b =>
  guard ((P b 1 ==c Ieq) && (P b 2 ==c Ieq) && ty_eqb (ty_of (V b 1)) (ty_of (V b 2)))
    (Cmp Ieq (Bin OOr (if K b 1 =? 0 then V b 1 else Bin OXor (V b 1) (like (K b 1) (V b 1)))
                      (if K b 2 =? 0 then V b 2 else Bin OXor (V b 2) (like (K b 2) (V b 2))))
             (like 0 (V b 1)))).
(** :479 (a & 1 != 0) & (b & 1 != 0) -> trunc (a & 1 & b) to i1 *)
Definition R479 := on (PBin OAnd (POne (PCmp 1 (PCap (PBin OAnd (A 1) (PCUInt 1)) 3) (PCInt 0)))
    (POne (PCmp 2 (PBin OAnd (A 2) (PCUInt 1)) (PCInt 0)))) (fun O e b =>
  guard ((P b 1 ==c Ine) && (P b 2 ==c Ine) && ty_eqb (ty_of (V b 1)) (ty_of (V b 2)))
    (Cast OUTrunc I1 (Bin OAnd (V b 3) (V b 2)))).
(** :486 (a != 0) | (b != 0) -> (a | b) != 0 *)
Definition R486 := on (PBin OOr (POne (PCmp 1 (A 1) (PCInt 0))) (POne (PCmp 2 (A 2) (PCInt 0)))) (fun O e b =>
  guard ((P b 1 ==c Ine) && (P b 2 ==c Ine) && ty_eqb (ty_of (V b 1)) (ty_of (V b 2)))
    (Cmp Ine (Bin OOr (V b 1) (V b 2)) (like 0 (V b 1)))).
(** :492-495 isLegalShamt *)
Definition isLegalShamt (z : Z) (t : ty) : bool := (0 <=? z) && (z <? bits t).
(** :496-515 shift of shift *)
Definition shiftshift (op : binop) := on (PBin op (PBin op (A 1) (PInt 1)) (PInt 2)) (fun O e b =>
  let shamt := K b 1 + K b 2 in
  if isLegalShamt shamt (ty_of (V b 1)) then Some (Bin op (V b 1) (like shamt (V b 1)))
  else Some (like 0 (V b 1))).
Definition R496 := shiftshift OShl.
Definition R503 := shiftshift OLShr.
Definition R509 := shiftshift OAShr.
(** :518 select c1, c2, false -> c1 & c2 *)
Definition R518 := on (PSel (A 1) (A 2) (PCInt 0)) (fun O e b =>
  guard (is_bool (ty_of (V b 2))) (Bin OAnd (V b 1) (V b 2))).
(** :521 select c1, c2, true -> !c1 | c2 *)
Definition R521 := on (PSel (A 1) (A 2) (PCInt 1)) (fun O e b =>
  guard (is_bool (ty_of (V b 2))) (Bin OOr (Bin OXor (V b 1) (like 1 (V b 1))) (V b 2))).
(** :525 select c1, false, c2 -> !c1 & c2 *)
Definition R525 := on (PSel (A 1) (PCInt 0) (A 2)) (fun O e b =>
  guard (is_bool (ty_of (V b 2))) (Bin OAnd (Bin OXor (V b 1) (like 1 (V b 1))) (V b 2))).
(** :529 select c1, true, c2 -> c1 | c2 *)
Definition R529 := on (PSel (A 1) (PCInt 1) (A 2)) (fun O e b =>
  guard (is_bool (ty_of (V b 2))) (Bin OOr (V b 1) (V b 2))).
(** :533 a << 0 *)
Definition R533 := on (PBin OShl (A 1) (PCUInt 0)) (fun O e b => Some (V b 1)).
(** :536 a << c, c >= width -> 0 *)
Definition R536 := on (PBin OShl (A 1) (PUInt 1)) (fun O e b =>
  guard (fixedSize (ty_of (V b 1)) * 8 <=? K b 1) (like 0 e)).
(** :539, :541 a >> 0 *)
Definition R539 := on (PBin OAShr (A 1) (PCUInt 0)) (fun O e b => Some (V b 1)).
Definition R541 := on (PBin OLShr (A 1) (PCUInt 0)) (fun O e b => Some (V b 1)).
(** :545 1 - bool x *)
Definition R545 := on (PBin OSub (PCInt 1) (A 1)) (fun O e b =>
  guard (is_bool (ty_of (V b 1))) (Bin OXor (V b 1) (like 1 (V b 1)))).
(** :547 1 - zext bool x *)
Definition R547 := on (PBin OSub (PCInt 1) (PCast OZExt (A 1))) (fun O e b =>
  guard (is_bool (ty_of (V b 1))) (Cast OZExt (ty_of e) (Bin OXor (V b 1) (like 1 (V b 1))))).
(** :563 ((zext a) & (zext b)) !=/== 0 *)
Definition R563 := on (PCmp 1 (PBin OAnd (PCast OZExt (PBool 1)) (PCast OZExt (PBool 2))) (PCUInt 0)) (fun O e b =>
  match P b 1 with
  | Ine => Some (Bin OAnd (V b 1) (V b 2))
  | Ieq => Some (makeNot (Bin OAnd (V b 1) (V b 2)))
  | _ => None end).
(** :570-648 min/max rules, all under isNativeSupported(SMin) && isNativeSupported(SMax) *)
Definition mm (O : oracle) : bool := native O NSMin && native O NSMax.
Definition R572 := on (PBin OSMin (PBin OSMin (A 1) (A 2)) (A 3)) (fun O e b =>
  guard (mm O && (same O (V b 1) (V b 3) || same O (V b 2) (V b 3))) (Bin OSMin (V b 1) (V b 2))).
Definition R577 := on (PBin OSMax (PBin OSMax (A 1) (A 2)) (A 3)) (fun O e b =>
  guard (mm O && (same O (V b 1) (V b 3) || same O (V b 2) (V b 3))) (Bin OSMax (V b 1) (V b 2))).
Definition R582 := on (PBin OSMin (PBin OSMax (A 1) (A 2)) (A 3)) (fun O e b =>
  guard (mm O && (same O (V b 1) (V b 3) || same O (V b 2) (V b 3))) (V b 3)).
Definition R587 := on (PBin OSMax (PBin OSMin (A 1) (A 2)) (A 3)) (fun O e b =>
  guard (mm O && (same O (V b 1) (V b 3) || same O (V b 2) (V b 3))) (V b 3)).
Definition R593 := on (PBin OSMin (A 1) (PCInt INT_MIN)) (fun O e b =>
  guard (mm O && (fixedSize (ty_of e) =? 4)) (like INT_MIN e)).
Definition R598 := on (PBin OSMin (A 1) (PCInt INT_MAX)) (fun O e b =>
  guard (mm O && (fixedSize (ty_of e) =? 4)) (V b 1)).
Definition R603 := on (PBin OSMax (A 1) (PCInt INT_MAX)) (fun O e b =>
  guard (mm O && (fixedSize (ty_of e) =? 4)) (like INT_MAX e)).
Definition R608 := on (PBin OSMax (A 1) (PCInt INT_MIN)) (fun O e b =>
  guard (mm O && (fixedSize (ty_of e) =? 4)) (V b 1)).
Definition R614 := on (PSel (PCmp 1 (A 1) (A 2)) (A 3) (A 4)) (fun O e b =>
  let lt := (P b 1 ==c Islt) || (P b 1 ==c Isle) in
  let gt := (P b 1 ==c Isgt) || (P b 1 ==c Isge) in
  let st := same O (V b 1) (V b 3) && same O (V b 2) (V b 4) in
  let sw := same O (V b 1) (V b 4) && same O (V b 2) (V b 3) in
  if mm O then
    if st && lt then Some (Bin OSMin (V b 1) (V b 2))
    else if st && gt then Some (Bin OSMax (V b 1) (V b 2))
    else if sw && lt then Some (Bin OSMax (V b 1) (V b 2))
    else if sw && gt then Some (Bin OSMin (V b 1) (V b 2))
    else None
  else None).
(** :631 x >/>= c1 ? c1 : smax(x, c2), c1 > c2 -> smin(smax(x, c2), c1) *)
Definition R631 := on (PSel (PCmp 1 (A 1) (PCap (PInt 1) 2)) (X 2) (PCap (PBin OSMax (X 1) (PInt 2)) 5)) (fun O e b =>
  guard (((P b 1 ==c Isgt) || (P b 1 ==c Isge)) && (K b 2 <? K b 1)) (Bin OSMin (V b 5) (V b 2))).
(** :638 x </<= c1 ? c1 : smin(x, c2), c1 < c2 *)
Definition R638 := on (PSel (PCmp 1 (A 1) (PCap (PInt 1) 2)) (X 2) (PCap (PBin OSMin (X 1) (PInt 2)) 5)) (fun O e b =>
  guard (((P b 1 ==c Islt) || (P b 1 ==c Isle)) && (K b 1 <? K b 2)) (Bin OSMax (V b 5) (V b 2))).
(** :646 srem x 2^k only compared with 0 -> x & (2^k - 1); context dependent, see R646_ctx *)
Definition R646 := on (PBin OSRem (A 1) (PCap (PLog2 2) 3)) (fun O e b =>
  guard (usersZeroCmp O e) (Bin OAnd (V b 1) (Bin OSub (V b 3) (like 1 e)))).
(** :666 zext (ztrunc x) -> x & mask *)
Definition R666 := on (PCast OZExt (PCap (PCast OUTrunc (A 1)) 2)) (fun O e b =>
  guard (ty_eqb (ty_of (V b 1)) (ty_of e)) (Bin OAnd (V b 1) (like (2 ^ bits (ty_of (V b 2)) - 1) e))).
(** :674 ~x | ~y -> ~(x & y) *)
Definition R674 := on (PBin OOr (PNot (A 1)) (PNot (A 2))) (fun O e b => Some (makeNot (Bin OAnd (V b 1) (V b 2)))).
(** :679 ~x & ~y -> ~(x | y) *)
Definition R679 := on (PBin OAnd (PNot (A 1)) (PNot (A 2))) (fun O e b => Some (makeNot (Bin OOr (V b 1) (V b 2)))).
(** :685 ~x + 1 -> -x *)
Definition R685 := on (PBin OAdd (PNot (A 1)) (PCInt 1)) (fun O e b => Some (makeNeg (V b 1))).
(** :690 ~(x - 1) -> -x *)
Definition R690 := on (PNot (PBin OAdd (A 1) (PCInt (-1)))) (fun O e b => Some (makeNeg (V b 1))).
(** :700 ~(-x) -> x - 1 *)
Definition R700 := on (PNot (PUn ONeg (A 1))) (fun O e b => Some (Bin OAdd (V b 1) (like (-1) e))).
(** :705 -(~x) -> x + 1 *)
Definition R705 := on (PUn ONeg (PNot (A 1))) (fun O e b => Some (Bin OAdd (V b 1) (like 1 e))).
(** :710 (x | y) - (x & y) -> x ^ y *)
Definition R710 := on (PBin OSub (PBin OOr (A 1) (A 2)) (PBin OAnd (X 1) (X 2))) (fun O e b =>
  Some (Bin OXor (V b 1) (V b 2))).
(** :736 bool: x == a ? b : a -> a ^ b ^ x *)
Definition R736 := on (PSel (POne (PCmp 1 (A 1) (A 2))) (A 3) (A 4)) (fun O e b =>
  if is_bool (ty_of e) && (same O (V b 1) (V b 4) || same O (V b 2) (V b 4)) && (P b 1 ==c Ieq) then
    let x := if same O (V b 1) (V b 4) then V b 2 else V b 1 in
    Some (if native O NXor then Bin OXor (Bin OXor (V b 4) (V b 3)) x
          else Bin OSub (Bin OAdd (V b 4) (V b 3)) x)
  else None).
(** :749-791 (v >= c1) && (v <= c2) *)
Definition legalizeAnd (c : icmp) (v : Z) : icmp * Z :=
  match c with Islt => (Isle, v - 1) | Isgt => (Isge, v + 1) | _ => (c, v) end.
Definition R749 := on (PBin OAnd (POne (PCmp 1 (A 1) (PInt 1))) (POne (PCmp 2 (A 2) (PInt 2)))) (fun O e b =>
  if same O (V b 1) (V b 2) then
    let '(c1, k1) := legalizeAnd (P b 1) (K b 1) in
    let '(c2, k2) := legalizeAnd (P b 2) (K b 2) in
    match (if (c1 ==c Isge) && (c2 ==c Isle) then Some (k1, k2)
           else if (c1 ==c Isle) && (c2 ==c Isge) then Some (k2, k1) else None) with
    | Some (lo, hi) =>
        if hi <? lo then Some eFalse
        else if lo =? hi then Some (Cmp Ieq (V b 1) (like lo (V b 1)))
        else if (lo <? hi) && (hi <=? lo + 65536) then
          Some (Cmp Iult (Bin OSub (V b 1) (like lo (V b 1))) (like (hi - lo + 1) (V b 1)))
        else None
    | None => None end
  else None).
(** :794-836 (v < c1) || (v > c2) *)
Definition legalizeOr (c : icmp) (v : Z) : icmp * Z :=
  match c with Isle => (Islt, v + 1) | Isge => (Isgt, v - 1) | _ => (c, v) end.
Definition R794 := on (PBin OOr (POne (PCmp 1 (A 1) (PInt 1))) (POne (PCmp 2 (A 2) (PInt 2)))) (fun O e b =>
  if same O (V b 1) (V b 2) then
    let '(c1, k1) := legalizeOr (P b 1) (K b 1) in
    let '(c2, k2) := legalizeOr (P b 2) (K b 2) in
    match (if (c1 ==c Islt) && (c2 ==c Isgt) then Some (k1, k2)
           else if (c1 ==c Isgt) && (c2 ==c Islt) then Some (k2, k1) else None) with
    | Some (lo, hi) =>
        if hi <? lo then Some eTrue
        else if lo =? hi then Some (Cmp Ine (V b 1) (like lo (V b 1)))
        else if (lo <? hi) && (hi <=? lo + 65536) then
          Some (Cmp Iugt (Bin OSub (V b 1) (like lo (V b 1))) (like (hi - lo) (V b 1)))
        else None
    | None => None end
  else None).
(** :845-883 abs recognition *)
Definition isGt (c : icmp) := (c ==c Isgt) || (c ==c Isge).
Definition isLt (c : icmp) := (c ==c Islt) || (c ==c Isle).
Definition eAbs (e : expr) := Un OAbs e.
Definition R846 := on (PSel (PCmp 1 (A 1) (PCInt 0)) (X 1) (PUn ONeg (X 1))) (fun O e b =>
  if native O NAbs then
    if isGt (P b 1) then Some (eAbs (V b 1))
    else if isLt (P b 1) then Some (makeNeg (eAbs (V b 1))) else None
  else None).
Definition R854 := on (PSel (PCmp 1 (A 1) (PCInt 0)) (PUn ONeg (X 1)) (X 1)) (fun O e b =>
  if native O NAbs then
    if isGt (P b 1) then Some (makeNeg (eAbs (V b 1)))
    else if isLt (P b 1) then Some (eAbs (V b 1)) else None
  else None).
Definition R862 := on (PSel (PCmp 1 (A 1) (PCInt 1)) (X 1) (PUn ONeg (X 1))) (fun O e b =>
  guard (native O NAbs && (P b 1 ==c Islt)) (makeNeg (eAbs (V b 1)))).
Definition R867 := on (PSel (PCmp 1 (A 1) (PCInt 1)) (PUn ONeg (X 1)) (X 1)) (fun O e b =>
  guard (native O NAbs && (P b 1 ==c Islt)) (eAbs (V b 1))).
Definition R872 := on (PSel (PCmp 1 (A 1) (PCInt (-1))) (X 1) (PUn ONeg (X 1))) (fun O e b =>
  guard (native O NAbs && (P b 1 ==c Isgt)) (eAbs (V b 1))).
Definition R877 := on (PSel (PCmp 1 (A 1) (PCInt (-1))) (PUn ONeg (X 1)) (X 1)) (fun O e b =>
  guard (native O NAbs && (P b 1 ==c Isgt)) (makeNeg (eAbs (V b 1)))).
(** :885 abs(abs x), :889 abs(-x), :894 -(-x) *)
Definition R885 := on (PUn OAbs (PUn OAbs (A 1))) (fun O e b => Some (eAbs (V b 1))).
Definition R889 := on (PUn OAbs (PUn ONeg (A 1))) (fun O e b => Some (eAbs (V b 1))).
Definition R894 := on (PUn ONeg (PUn ONeg (A 1))) (fun O e b => Some (V b 1)).
(** :898 abs(srem(x,2)) -> x & 1 *)
Definition R898 := on (PUn OAbs (PBin OSRem (A 1) (PCInt 2))) (fun O e b =>
  Some (Bin OAnd (V b 1) (like 1 (V b 1)))).
(** :902 (srem x 2) == 1 -> (x & -max) == 1 *)
Definition R902 := on (PCmp 1 (POne (PBin OSRem (A 1) (PCInt 2))) (PCap (PCInt 1) 2)) (fun O e b =>
  guard (P b 1 ==c Ieq)
    (Cmp Ieq (Bin OAnd (V b 1) (like (- (s64 (2 ^ (bits (ty_of (V b 1)) - 1)) - 1)) (V b 1))) (V b 2))).
(** :910 (x & 1) != 0 -> trunc x to i1 *)
Definition R910 := on (PCmp 1 (PBin OAnd (A 1) (PCInt 1)) (PCInt 0)) (fun O e b =>
  guard (P b 1 ==c Ine) (Cast OUTrunc I1 (V b 1))).
(** :915 and of truncs to i1 *)
Definition R915 := on (PBin OAnd (POne (PCast OUTrunc (A 1))) (POne (PCast OUTrunc (A 2)))) (fun O e b =>
  guard (is_bool (ty_of e) && ty_eqb (ty_of (V b 1)) (ty_of (V b 2)))
    (Cast OUTrunc (ty_of e) (Bin OAnd (V b 1) (V b 2)))).
(** :922 sdiv (mul x c1) c2, c1 % c2 == 0 -> mul x (c1/c2) *)
Definition R922 := on (PBin OSDiv (PBin OMul (A 1) (PInt 1)) (PInt 2)) (fun O e b =>
  guard (negb (K b 2 =? 0) && (Z.rem (K b 1) (K b 2) =? 0)
         && negb ((K b 1 =? -9223372036854775808) && (K b 2 =? -1)))
    (Bin OMul (V b 1) (like (Z.quot (K b 1) (K b 2)) (V b 1)))).
(** :928 srem (mul x c1) c2, c1 % c2 == 0 -> 0 *)
Definition R928 := on (PBin OSRem (PBin OMul (A 1) (PInt 1)) (PInt 2)) (fun O e b =>
  guard (negb (K b 2 =? 0) && (Z.rem (K b 1) (K b 2) =? 0)) (like 0 e)).
(** :937 sdiv (neg x) c -> sdiv x -c *)
Definition R937 := on (PBin OSDiv (POne (PUn ONeg (A 1))) (PInt 1)) (fun O e b =>
  Some (Bin OSDiv (V b 1) (like (- K b 1) (V b 1)))).
(** :942 srem (neg x) c -> neg (srem x c) *)
Definition R942 := on (PBin OSRem (POne (PUn ONeg (A 1))) (PInt 1)) (fun O e b =>
  Some (makeNeg (Bin OSRem (V b 1) (like (K b 1) (V b 1))))).
(** :947 b - (a + b) -> -a *)
Definition R947 := on (PBin OSub (A 1) (PBin OAdd (A 2) (X 1))) (fun O e b => Some (makeNeg (V b 2))).
(** :953 a == b ? a : smax(a, b) -> smax(a, b) *)
Definition R953 := on (PSel (PCmp 1 (A 1) (A 2)) (X 1) (PCap (PBin OSMax (X 1) (X 2)) 6)) (fun O e b =>
  guard (P b 1 ==c Ieq) (V b 6)).
(** :960, :964 select x >= 0, 0, -1 -> x >>s (w-1) *)
Definition signfill (t : ty) (v : expr) : expr :=
  makeSignedCast t (Bin OAShr v (like (bits (ty_of v) - 1) v)).
Definition R960 := on (PSel (PCmp 1 (A 1) (PCInt 0)) (PCInt 0) (PCInt (-1))) (fun O e b =>
  guard (P b 1 ==c Isge) (signfill (ty_of e) (V b 1))).
Definition R964 := on (PSel (PCmp 1 (A 1) (PCInt (-1))) (PCInt 0) (PCInt (-1))) (fun O e b =>
  guard (P b 1 ==c Isgt) (signfill (ty_of e) (V b 1))).
(** :969 select x, c1, c1+/-1 *)
Definition R969 := on (PSel (A 1) (PCap (PInt 1) 2) (PCap (PInt 2) 3)) (fun O e b =>
  if negb (is_bool (ty_of e)) && (4 <=? fixedSize (ty_of e)) then
    if K b 2 =? s64 (K b 1 + 1) then Some (Bin OSub (V b 3) (Cast OZExt (ty_of e) (V b 1)))
    else if K b 2 =? s64 (K b 1 - 1) then Some (Bin OAdd (Cast OZExt (ty_of e) (V b 1)) (V b 3))
    else None
  else None).
(** :980 select x, y-1, y -> y - zext x; :984 select x, y+1, y -> y + zext x *)
Definition R980 := on (PSel (A 1) (PBin OAdd (A 2) (PCInt (-1))) (X 2)) (fun O e b =>
  Some (Bin OSub (V b 2) (Cast OZExt (ty_of e) (V b 1)))).
Definition R984 := on (PSel (A 1) (PBin OAdd (A 2) (PCInt 1)) (X 2)) (fun O e b =>
  Some (Bin OAdd (V b 2) (Cast OZExt (ty_of e) (V b 1)))).
(** :990 neg(x) * c -> x * -c *)
Definition R990 := on (PBin OMul (POne (PUn ONeg (A 1))) (PInt 1)) (fun O e b =>
  Some (Bin OMul (V b 1) (like (- K b 1) (V b 1)))).
(** :995-1006 trunc of trunc *)
Definition R995 := on (PCast OUTrunc (PCap (PCast OUTrunc (A 1)) 2)) (fun O e b =>
  guard (ty_eqb (ty_of (V b 1)) (ty_of e)) (V b 2)).
Definition R998 := on (PCast OUTrunc (PCast OSTrunc (A 1))) (fun O e b =>
  guard (ty_eqb (ty_of (V b 1)) (ty_of e)) (Cast OUTrunc (ty_of e) (V b 1))).
Definition R1001 := on (PCast OSTrunc (PCap (PCast OSTrunc (A 1)) 2)) (fun O e b =>
  guard (ty_eqb (ty_of (V b 1)) (ty_of e)) (V b 2)).
Definition R1004 := on (PCast OSTrunc (PCast OUTrunc (A 1))) (fun O e b =>
  guard (ty_eqb (ty_of (V b 1)) (ty_of e)) (Cast OSTrunc (ty_of e) (V b 1))).
(** :1008 (x < y) || (x != y) -> x != y *)
Definition R1008 := on (PBin OOr (PCap (PCmp 1 (A 1) (A 2)) 5) (PCap (PCmp 2 (X 1) (X 2)) 6)) (fun O e b =>
  guard ((P b 1 ==c Islt) && (P b 2 ==c Ine)) (V b 6)).
(** :1015 (x + c) & 1 *)
Definition R1015 := on (PBin OAnd (POne (PBin OAdd (A 1) (PInt 1))) (PCap (PCInt 1) 2)) (fun O e b =>
  guard (negb (Z.land (K b 1) 1 =? K b 1))
    (Bin OAnd (Bin OAdd (V b 1) (like (Z.land (K b 1) 1) (V b 1))) (V b 2))).
(** :1021 (select x (y + c) z) & 1 *)
Definition R1021 := on (PBin OAnd (POne (PSel (A 1) (POne (PBin OAdd (A 2) (PInt 1))) (A 3))) (PCap (PCInt 1) 4)) (fun O e b =>
  guard (negb (Z.land (K b 1) 1 =? K b 1))
    (Bin OAnd (Sel (V b 1) (Bin OAdd (V b 2) (like (Z.land (K b 1) 1) (V b 2))) (V b 3)) (V b 4))).
(** :1031 *)
Definition R1031 := on (PSel (A 1) (PBin OAdd (A 2) (PCInt 1)) (X 2)) (fun O e b =>
  Some (Bin OAdd (V b 2) (Cast OZExt (ty_of (V b 2)) (V b 1)))).
(** :1037 zext (x < 0) -> x >>u (w-1) *)
Definition R1037 := on (PCast OZExt (POne (PCmp 1 (A 1) (PCInt 0)))) (fun O e b =>
  guard (ty_eqb (ty_of e) (ty_of (V b 1)) && negb (usersHaveCmp O e) && (P b 1 ==c Islt))
    (Bin OLShr (V b 1) (like (bits (ty_of (V b 1)) - 1) (V b 1)))).
(** :1051 (sdiv x c1) == c2 -> range check *)
Definition R1051 := on (PCmp 1 (PBin OSDiv (A 1) (PInt 1)) (PInt 2)) (fun O e b =>
  let i1 := K b 1 in let i2 := K b 2 in
  if native O NICmp && (bits (ty_of (V b 1)) =? 32) && (P b 1 ==c Ieq) && (0 <? i1) && negb (i2 =? INT_MAX) then
    let lower := if 0 <? i2 then i1 * i2 else i1 * i2 - (i1 - 1) in
    let upper := if 0 <? i2 then i1 * i2 + i1 else if i2 =? 0 then i1 * i2 + i1 else i1 * i2 + 1 in
    if (upper - lower <=? UINT_MAX) && (- INT_MAX <=? lower) && (lower <=? INT_MAX) then
      Some (Cmp Iult (if lower =? 0 then V b 1 else Bin OAdd (V b 1) (like (- lower) (V b 1)))
                (like (upper - lower) (V b 1)))
    else None
  else None).
(** :1092 select c1, (select c2, a, b), b -> select (c1 & c2), a, b *)
Definition R1092 := on (PSel (A 1) (POne (PSel (A 2) (A 3) (A 4))) (X 4)) (fun O e b =>
  Some (Sel (Bin OAnd (V b 1) (V b 2)) (V b 3) (V b 4))).
(** :1096-1111 select with zext bool arms *)
Definition R1096 := on (PSel (A 1) (PCast OZExt (A 2)) (PCInt 0)) (fun O e b =>
  guard (is_bool (ty_of (V b 2))) (Cast OZExt (ty_of e) (Bin OAnd (V b 1) (V b 2)))).
Definition R1100 := on (PSel (A 1) (PCast OZExt (A 2)) (PCInt 1)) (fun O e b =>
  guard (is_bool (ty_of (V b 2))) (Cast OZExt (ty_of e) (Bin OOr (makeNot (V b 1)) (V b 2)))).
Definition R1104 := on (PSel (A 1) (PCInt 0) (PCast OZExt (A 2))) (fun O e b =>
  guard (is_bool (ty_of (V b 2))) (Cast OZExt (ty_of e) (Bin OAnd (makeNot (V b 1)) (V b 2)))).
Definition R1108 := on (PSel (A 1) (PCInt 1) (PCast OZExt (A 2))) (fun O e b =>
  guard (is_bool (ty_of (V b 2))) (Cast OZExt (ty_of e) (Bin OOr (V b 1) (V b 2)))).
(** :1113 -((a - b) + c) -> b - (a + c) *)
Definition R1113 := on (PUn ONeg (POne (PBin OAdd (POne (PBin OSub (A 1) (A 2))) (A 3)))) (fun O e b =>
  Some (Bin OSub (V b 2) (Bin OAdd (V b 1) (V b 3)))).
(** :1122 (select c, a, 0) - b -> select c, a - b, -b *)
Definition R1122 := on (PBin OSub (POne (PSel (A 1) (A 2) (PCInt 0))) (A 3)) (fun O e b =>
  Some (Sel (V b 1) (Bin OSub (V b 2) (V b 3)) (Un ONeg (V b 3)))).
(** :1127-1138 absorption *)
Definition R1127 := on (PBin OAnd (A 1) (PBin OOr (X 1) (A 2))) (fun O e b => Some (V b 1)).
Definition R1130 := on (PBin OAnd (A 1) (PNot (PBin OOr (X 1) (A 2)))) (fun O e b => Some (like 0 e)).
Definition R1133 := on (PBin OOr (A 1) (PBin OAnd (X 1) (A 2))) (fun O e b => Some (V b 1)).
Definition R1136 := on (PBin OOr (A 1) (PNot (PBin OAnd (X 1) (A 2)))) (fun O e b => Some (like (-1) e)).
(** :1139 (x*x) cmp 0 *)
Definition R1139 := on (PCmp 1 (PBin OMul (A 1) (X 1)) (PCInt 0)) (fun O e b =>
  match P b 1 with
  | Ieq | Ine => Some (Cmp (P b 1) (V b 1) (like 0 (V b 1)))
  | Islt => Some eFalse
  | Isle => Some (Cmp Ieq (V b 1) (like 0 (V b 1)))
  | Isgt => Some (Cmp Ine (V b 1) (like 0 (V b 1)))
  | Isge => Some eTrue
  | _ => None end).
(** :1157 c1 - (x + c2) *)
Definition R1157 := on (PBin OSub (PInt 1) (PBin OAdd (A 1) (PInt 2))) (fun O e b =>
  Some (Bin OSub (like (K b 1 - K b 2) (V b 1)) (V b 1))).
(** :1161-1192 sign tests combined *)
Definition R1161 := on (PBin OAnd (PCmp 1 (A 1) (PCap (PCInt (-1)) 3)) (PCmp 2 (A 2) (PCInt (-1)))) (fun O e b =>
  guard ((P b 1 ==c Isgt) && (P b 2 ==c Isgt)) (Cmp Isgt (Bin OOr (V b 1) (V b 2)) (V b 3))).
Definition R1167 := on (PBin OAnd (PCmp 1 (A 1) (PCInt 0)) (PCmp 2 (A 2) (PCInt 0))) (fun O e b =>
  guard ((P b 1 ==c Islt) && (P b 2 ==c Islt))
    (Cast OUTrunc (ty_of e) (Bin OLShr (Bin OAnd (V b 1) (V b 2)) (like (bits (ty_of (V b 1)) - 1) (V b 1))))).
Definition R1176 := on (PBin OOr (PCmp 1 (A 1) (PCap (PCInt (-1)) 3)) (PCmp 2 (A 2) (PCInt (-1)))) (fun O e b =>
  guard ((P b 1 ==c Isgt) && (P b 2 ==c Isgt)) (Cmp Isgt (Bin OAnd (V b 1) (V b 2)) (V b 3))).
Definition R1182 := on (PBin OOr (PCmp 1 (A 1) (PCap (PCInt 0) 3)) (PCmp 2 (A 2) (PCInt 0))) (fun O e b =>
  guard ((P b 1 ==c Islt) && (P b 2 ==c Islt))
    (Cast OUTrunc (ty_of e) (Bin OLShr (Bin OOr (V b 1) (V b 2)) (like (bits (ty_of (V b 1)) - 1) (V b 1))))).
(** :1194 le x c -> lt x c+1, ge x c -> gt x c-1 *)
Definition R1194 := on (PCmp 1 (A 1) (PInt 1)) (fun O e b =>
  match P b 1 with
  | Isle => Some (Cmp Islt (V b 1) (like (K b 1 + 1) (V b 1)))
  | Isge => Some (Cmp Isgt (V b 1) (like (K b 1 - 1) (V b 1)))
  | _ => None end).
(** :1214 (v - zext b) cmp v *)
Definition R1214 := on (PCmp 1 (PBin OSub (A 1) (PCast OZExt (PBool 2))) (X 1)) (fun O e b =>
  match P b 1 with
  | Ieq => Some (makeNot (V b 2))
  | Ine | Islt => Some (V b 2)
  | _ => None end).
(** :1226 r = x % 2^k; r < 0 ? r + 2^k : r -> x & (2^k - 1) *)
Definition R1226 := on (PSel (PCmp 1 (PCap (PBin OSRem (A 2) (PInt 1)) 1) (PCInt 0)) (PBin OAdd (X 1) (PInt 2)) (X 1)) (fun O e b =>
  guard ((K b 1 =? K b 2) && isPow2 (K b 1) && (P b 1 ==c Islt))
    (Bin OAnd (V b 2) (like (K b 1 - 1) (V b 2)))).
(** :1244 -1 - x -> ~x *)
Definition R1244 := on (PBin OSub (PCap (PCInt (-1)) 1) (A 2)) (fun O e b => Some (Bin OXor (V b 2) (V b 1))).
(** :1247 (zext b + 1) cmp 1 *)
Definition R1247 := on (PCmp 1 (PBin OAdd (PCast OZExt (PBool 1)) (PCInt 1)) (PCInt 1)) (fun O e b =>
  match P b 1 with
  | Ieq => Some (makeNot (V b 1))
  | Ine => Some (V b 1)
  | Islt | Iult => Some eFalse
  | Isle | Iule => Some (makeNot (V b 1))
  | Isgt | Iugt => Some (V b 1)
  | Isge | Iuge => Some eTrue end).
(** :1269-1328 x < a && x < b -> x < min(a, b) *)
Definition getDir (c : icmp) : Z := match c with Islt | Isle => 1 | Isgt | Isge => 2 | _ => 0 end.
Definition addOffset (v : expr) (k : Z) : expr := Bin OAdd v (like k v).
(** :1286-1301 legalize; note that the SGE case sets op to SLT *)
Definition legalizeMM (c : icmp) (v : expr) : icmp * expr :=
  match c with Isle => (Islt, addOffset v 1) | Isge => (Islt, addOffset v (-1)) | _ => (c, v) end.
Definition matchCompare (O : oracle) (ca : icmp) (x1 y1 : expr) (cb' : icmp) (x2 y2 : expr) : option expr :=
  if negb (same O x1 x2) then None
  else if negb (negb (getDir ca =? 0) && negb (getDir cb' =? 0) && (getDir ca =? getDir cb')) then None
  else
    let '(ca', y1') := if ca ==c cb' then (ca, y1) else legalizeMM ca y1 in
    let '(cb'', y2') := if ca ==c cb' then (cb', y2) else legalizeMM cb' y2 in
    (* assert(cmpA == cmpB) is not enabled in release builds: cmpA is used *)
    Some (Cmp ca' x1 (Bin (if getDir ca =? 1 then OSMin else OSMax) y1' y2')).
Definition orElse {T} (a b : option T) : option T := match a with Some _ => a | None => b end.
Definition R1269 := on (PBin OAnd (POne (PCmp 1 (A 1) (A 2))) (POne (PCmp 2 (A 3) (A 4)))) (fun O e b =>
  if mm O then
    orElse (matchCompare O (P b 1) (V b 1) (V b 2) (P b 2) (V b 3) (V b 4))
    (orElse (matchCompare O (P b 1) (V b 1) (V b 2) (revI (P b 2)) (V b 4) (V b 3))
    (orElse (matchCompare O (revI (P b 1)) (V b 2) (V b 1) (P b 2) (V b 3) (V b 4))
            (matchCompare O (revI (P b 1)) (V b 2) (V b 1) (revI (P b 2)) (V b 4) (V b 3))))
  else None).

(** The rules in source order, tagged with their source line (a/b when one line holds two). *)
Definition rules : list (Z * rule) := [
  (47, R47); (91, R91); (96, R96); (101, R101); (104, R104); (107, R107); (112, R112); (117, R117);
  (122, R122); (134, R134); (139, R139s); (139, R139u); (144, R144s); (144, R144u); (149, R149s); (149, R149u);
  (154, R154); (159, R159); (164, R164); (181, R181); (192, R192s); (192, R192u); (195, R195s); (195, R195u);
  (198, R198s); (198, R198u); (202, R202); (205, R205); (208, R208); (211, R211); (214, R214); (217, R217);
  (219, R219); (222, R222); (225, R225); (228, R228); (231, R231); (233, R233); (239, R239); (250, R250);
  (253, R253); (257, R257); (261, R261); (265, R265); (270, R270); (273, R273); (278, R278); (295, R295);
  (314, R314); (321, R321); (341, R341); (346, R346); (351, R351); (365, R365); (368, R368); (371, R371);
  (374, R374); (378, R378); (384, R384); (397, R397); (407, R407); (414, R414); (443, R443); (460, R460);
  (469, R469); (479, R479); (486, R486); (496, R496); (503, R503); (509, R509); (518, R518); (521, R521);
  (525, R525); (529, R529); (533, R533); (536, R536); (539, R539); (541, R541); (545, R545); (547, R547);
  (563, R563); (572, R572); (577, R577); (582, R582); (587, R587); (593, R593); (598, R598); (603, R603);
  (608, R608); (614, R614); (631, R631); (638, R638); (646, R646); (666, R666); (674, R674); (679, R679);
  (685, R685); (690, R690); (700, R700); (705, R705); (710, R710); (736, R736); (749, R749); (794, R794);
  (846, R846); (854, R854); (862, R862); (867, R867); (872, R872); (877, R877); (885, R885); (889, R889);
  (894, R894); (898, R898); (902, R902); (910, R910); (915, R915); (922, R922); (928, R928); (937, R937);
  (942, R942); (947, R947); (953, R953); (960, R960); (964, R964); (969, R969); (980, R980); (984, R984);
  (990, R990); (995, R995); (998, R998); (1001, R1001); (1004, R1004); (1008, R1008); (1015, R1015);
  (1021, R1021); (1031, R1031); (1037, R1037); (1051, R1051); (1092, R1092); (1096, R1096); (1100, R1100);
  (1104, R1104); (1108, R1108); (1113, R1113); (1122, R1122); (1127, R1127); (1130, R1130); (1133, R1133);
  (1136, R1136); (1139, R1139); (1157, R1157); (1161, R1161); (1167, R1167); (1176, R1176); (1182, R1182);
  (1194, R1194); (1214, R1214); (1226, R1226); (1244, R1244); (1247, R1247); (1269, R1269)].

(** The lambda: the first rule that applies, with its line. *)
Fixpoint first (l : list (Z * rule)) (O : oracle) (e : expr) : option (Z * expr) :=
  match l with
  | [] => None
  | (n, r) :: l => match r O e with Some e' => Some (n, e') | None => first l O e end
  end.
Definition reduce := first rules.
