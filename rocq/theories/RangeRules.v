(** Model of cmmc/Transforms/Combine/RangeAwareArithReduce.cpp (lambda of runOnBlock, lines 40-255):
    the rewrites that are justified by integer-range facts.
    [Q v] models rangeAnalysis.query(v, dom, inst, 8): the range the analysis reports for the value
    [v] at the instruction being visited (IntegerRangeAnalysis.cpp:50-91; only i32 values get a range,
    every other value gets the full one).  [ck] is as in IntRangeModel.v (assertions compiled in).
    Only integer instructions are visited (:42-47), as everything in IR.v is. *)
From Coq Require Import ZArith Lia Bool List.
From Verif Require Import Word CmpModel IR PatternMatch ArithRules IntRangeModel.
Import ListNotations.
Local Open Scope Z_scope.

Definition query := expr -> range.
Definition rrule := bool -> query -> rule.

(** RangeAwareArithReduce.cpp:58-137 foldCmp: the constant a comparison is folded to *)
Definition foldCmp (c : icmp) (l r : range) : option bool :=
  let dec (t f : bool) := if t then Some true else if f then Some false else None in
  match c with
  | Ieq => if negb (intersectWith l r) then Some false else None
  | Ine => if negb (intersectWith l r) then Some true else None
  | Islt => dec (smax l <? smin r) (smin l >=? smax r)
  | Isle => dec (smax l <=? smin r) (smin l >? smax r)
  | Isgt => dec (smin l >? smax r) (smax l <=? smin r)
  | Isge => dec (smin l >=? smax r) (smax l <? smin r)
  | Iult => dec (umax l <? umin r) (umin l >=? umax r)
  | Iule => dec (umax l <=? umin r) (umin l >? umax r)
  | Iugt => dec (umin l >? umax r) (umax l <=? umin r)
  | Iuge => dec (umin l >=? umax r) (umax l <? umin r)
  end.
Definition eBool (b : bool) : expr := if b then eTrue else eFalse.

Local Notation "'V' b k" := (vb b k%nat) (at level 10, b at level 0, k at level 0).
Local Notation "'K' b k" := (ib b k%nat) (at level 10, b at level 0, k at level 0).
Local Notation "'P' b k" := (cb b k%nat) (at level 10, b at level 0, k at level 0).
Local Notation A := PAny.
Local Notation X := PExact.

(** :48-55 the instruction is a known constant *)
Definition Q54 : rrule := fun ck Q O e =>
  match inferConstant (Q e) with Some c => Some (Cst (ty_of e) c) | None => None end.
(** :144-147 *)
Definition Q144 : rrule := fun ck Q => on (PCmp 1 (A 1) (A 2)) (fun O e b =>
  match foldCmp (P b 1) (Q (V b 1)) (Q (V b 2)) with Some r => Some (eBool r) | None => None end).
(** :152-156 isNonPowerOf2Constant *)
Definition isNonPowerOf2Constant (e : expr) : bool :=
  match e with Cst t v => negb (isPow2 (sv t (wrap t v))) | _ => false end.
(** :149-161 srem -> urem *)
Definition Q149 : rrule := fun ck Q => on (PBin OSRem (A 1) (A 2)) (fun O e b =>
  guard (isPositive (Q (V b 2)) && isNonNegative (Q e) && negb (isNonPowerOf2Constant (V b 2)))
        (Bin OURem (V b 1) (V b 2))).
(** :163-175 icmp of select *)
Definition Q163 : rrule := fun ck Q => on (PCmp 1 (POne (PSel (A 1) (A 2) (A 3))) (A 4)) (fun O e b =>
  let tc := foldCmp (P b 1) (Q (V b 2)) (Q (V b 4)) in
  let fc := foldCmp (P b 1) (Q (V b 3)) (Q (V b 4)) in
  let side r v := match r with Some k => eBool k | None => Cmp (P b 1) v (V b 4) end in
  match tc, fc with
  | None, None => None
  | _, _ => Some (Sel (V b 1) (side tc (V b 2)) (side fc (V b 3)))
  end).
(** :178-182 abs of a non-negative value *)
Definition Q178 : rrule := fun ck Q => on (PUn OAbs (A 1)) (fun O e b =>
  guard (isNonNegative (Q (V b 1))) (V b 1)).
(** :185-192 smax *)
Definition Q185 : rrule := fun ck Q => on (PBin OSMax (A 1) (A 2)) (fun O e b =>
  let l := Q (V b 1) in let r := Q (V b 2) in
  if smax l <=? smin r then Some (V b 2) else if smin l >=? smax r then Some (V b 1) else None).
(** :195-202 smin *)
Definition Q195 : rrule := fun ck Q => on (PBin OSMin (A 1) (A 2)) (fun O e b =>
  let l := Q (V b 1) in let r := Q (V b 2) in
  if smax l <=? smin r then Some (V b 1) else if smin l >=? smax r then Some (V b 2) else None).
(** :203-211 ((x % m) * y) % m -> (x * y) % m *)
Definition Q203 : rrule := fun ck Q =>
  on (PBin OSRem (POne (PBin OMul (POne (PBin OSRem (A 1) (A 2))) (A 3))) (A 4)) (fun O e b =>
  match rmul ck (Q (V b 1)) (Q (V b 3)) with
  | Some product => guard (same O (V b 2) (V b 4) && isNoSignedOverflow product)
                          (Bin OSRem (Bin OMul (V b 1) (V b 3)) (V b 2))
  | None => None
  end).
(** :219-222 and :235-238 if(v1 == v3) { cmp2 = getReversedOp(cmp2); std::swap(v2, v3); } *)
Definition orient (O : oracle) (b : bnd) : icmp * expr * expr :=
  if same O (V b 1) (V b 3) then (revI (P b 2), V b 3, V b 2) else (P b 2, V b 2, V b 3).
(** :213-229 0 <= v && v < n -> v <u n *)
Definition Q213 : rrule := fun ck Q =>
  on (PBin OAnd (PCmp 1 (A 1) (PInt 1)) (PCmp 2 (A 2) (A 3))) (fun O e b =>
  let '(c2, v2, v3) := orient O b in
  if ((K b 1 =? 0) && (P b 1 ==c Isge)) || ((K b 1 =? -1) && (P b 1 ==c Isgt)) then
    if same O (V b 1) v2 && isNonNegative (Q v3) then
      if c2 ==c Isle then Some (Cmp Iule v2 v3)
      else if c2 ==c Islt then Some (Cmp Iult v2 v3) else None
    else None
  else None).
(** :231-244 v < 0 || v >= n -> v >=u n *)
Definition Q231 : rrule := fun ck Q =>
  on (PBin OOr (PCmp 1 (A 1) (PInt 1)) (PCmp 2 (A 2) (A 3))) (fun O e b =>
  let '(c2, v2, v3) := orient O b in
  if ((K b 1 =? 0) && (P b 1 ==c Islt)) || ((K b 1 =? -1) && (P b 1 ==c Isle)) then
    if same O (V b 1) v2 && isNonNegative (Q v3) then
      if c2 ==c Isge then Some (Cmp Iuge v2 v3)
      else if c2 ==c Isgt then Some (Cmp Iugt v2 v3) else None
    else None
  else None).
(** :245-253 ((x % m) + m) % m -> (x % m) < 0 ? (x % m) + m : x % m *)
Definition Q245 : rrule := fun ck Q =>
  on (PBin OSRem (PCap (PBin OAdd (PCap (PBin OSRem (A 1) (A 2)) 3) (X 2)) 4) (X 2)) (fun O e b =>
  let r := Q (V b 2) in
  match (let* s := rsrem ck full r in radd ck r s) with
  | Some t => guard ((smin r >? 1) && isNoSignedOverflow t)
                    (Sel (Cmp Islt (V b 3) (Cst (ty_of (V b 3)) 0)) (V b 4) (V b 3))
  | None => None
  end).

(** the rewrites in source order, named after their source line *)
Definition rrules : list (Z * rrule) :=
  [(54, Q54); (144, Q144); (149, Q149); (163, Q163); (178, Q178); (185, Q185); (195, Q195);
   (203, Q203); (213, Q213); (231, Q231); (245, Q245)].
Fixpoint rfirst (l : list (Z * rrule)) (ck : bool) (Q : query) (O : oracle) (e : expr) : option (Z * expr) :=
  match l with
  | [] => None
  | (n, r) :: l => match r ck Q O e with Some e' => Some (n, e') | None => rfirst l ck Q O e end
  end.
(** the lambda: which rewrite fires on [e], and its result *)
Definition rangeReduce (ck : bool) (Q : query) (O : oracle) (e : expr) : option (Z * expr) :=
  rfirst rrules ck Q O e.
