(** Multiplication by a constant, expanded into shifts, additions and subtractions.

    Models cmmc/CodeGen/MultiplyByConstant.cpp:27-204.

    Simplifications:
    - a plan (chain of [shared_ptr<ShiftArithNode>], outermost node first, ended by the
      null parent) is the list of its nodes; [cost], which the constructor computes from
      the parent's cost (lines 40-43), is the function [cost];
    - the static [memo[12]] array of hash maps is a function of (upper, n);
    - [intmax_t]/[int32_t] arithmetic is exact because values stay below 2^62 except
      where the model says [UB]: an index of [memo] outside the array (line 107, only
      asserted), [1 << 63] and the signed overflow that follows it (lines 84-86), and
      n <= 0, for which the loop of line 116 does not terminate or the assertion of
      line 63 fails;
    - recursion takes fuel; running out is also [UB].  The theorems show that neither
      happens for the constants in range. *)
From Coq Require Import ZArith List Lia Bool.
Import ListNotations.
Open Scope Z_scope.

(** MultiplyByConstant.cpp:28-36. *)
Inductive ar := ADD | SUB | NOP.
Inductive rh := CHAIN | ORIGIN.
Record step := mkStep { shamt : Z; arith : ar; rhs : rh }.
Definition plan := list step.

(** MultiplyByConstant.cpp:40-43. *)
Definition ar_cost (a : ar) : Z := match a with NOP => 0 | _ => 1 end.
Fixpoint cost (p : plan) : Z :=
  match p with
  | [] => 0
  | s :: par => cost par + ar_cost (arith s) + (if 0 <? shamt s then 1 else 0)
  end.

(** MultiplyByConstant.cpp:45-49: cheaper first, additions preferred. *)
Definition ar_rank (a : ar) : Z := match a with ADD => 0 | SUB => 1 | NOP => 2 end.
Definition top_rank (p : plan) : Z := match p with [] => 2 | s :: _ => ar_rank (arith s) end.
Definition plan_lt (p q : plan) : bool :=
  if cost p =? cost q then top_rank p <? top_rank q else cost p <? cost q.

(** MultiplyByConstant.cpp:54-61. *)
Definition minPlan (l r : option plan) : option plan :=
  match l, r with
  | None, _ => r
  | _, None => l
  | Some p, Some q => if plan_lt p q then l else r
  end.

Definition memo := Z -> Z -> option plan.
Definition memo_set (M : memo) (u n : Z) (p : plan) : memo :=
  fun u' n' => if (u' =? u) && (n' =? n) then Some p else M u' n'.

Inductive res := UB | Ok (M : memo) (p : option plan).

(** MultiplyByConstant.cpp:114-119: strip the factors of two. *)
Fixpoint strip2 (p : positive) : positive * Z :=
  match p with
  | xO q => let (m, s) := strip2 q in (m, s + 1)
  | _ => (p, 0)
  end.

(** MultiplyByConstant.cpp:73: [currentUpper]. *)
Definition currentUpper (upper : Z) (pl : option plan) : Z :=
  match pl with Some p => Z.min upper (cost p) | None => upper end.

Section Odd.
Variable self : Z -> Z -> memo -> res.   (* findMultiplyPlan *)

(** MultiplyByConstant.cpp:74-80: one attempt, with the recursive query that feeds it. *)
Definition attempt (n upper cut : Z) (sh : Z) (a : ar) (r : rh) (pl : option plan) (M : memo) : res :=
  match self n (currentUpper upper pl - cut) M with
  | UB => UB
  | Ok M' None => Ok M' pl
  | Ok M' (Some q) => Ok M' (minPlan pl (Some (mkStep sh a r :: q)))
  end.

(** MultiplyByConstant.cpp:86-95: the loop over [i], from [i], at most [k] turns. *)
Fixpoint oddloop (k : nat) (i n upper : Z) (pl : option plan) (M : memo) : res :=
  if 63 <=? i then UB
  else if n <? 2 ^ i then Ok M pl
  else match k with
  | O => UB
  | S k' =>
      let p1 := 2 ^ i + 1 in
      let p2 := 2 ^ i - 1 in
      match (if n mod p1 =? 0 then attempt (n / p1) upper 2 i ADD CHAIN pl M else Ok M pl) with
      | UB => UB
      | Ok M1 pl1 =>
          match (if n mod p2 =? 0 then attempt (n / p2) upper 2 i SUB CHAIN pl1 M1 else Ok M1 pl1) with
          | UB => UB
          | Ok M2 pl2 => oddloop k' (i + 1) n upper pl2 M2
          end
      end
  end.

(** MultiplyByConstant.cpp:64-101: [findMultiplyPlanOdd]. *)
Definition findOdd (n upper : Z) (M : memo) : res :=
  if upper <? 0 then Ok M None
  else match M upper n with
  | Some p => Ok M (Some p)
  | None =>
      match attempt (n - 1) upper 1 0 ADD ORIGIN None M with
      | UB => UB
      | Ok M1 pl1 =>
          match attempt (n + 1) upper 1 0 SUB ORIGIN pl1 M1 with
          | UB => UB
          | Ok M2 pl2 =>
              match oddloop 63 1 n upper pl2 M2 with
              | UB => UB
              | Ok M3 None => Ok M3 None
              | Ok M3 (Some p) => Ok (memo_set M3 upper n p) (Some p)
              end
          end
      end
  end.
End Odd.

(** MultiplyByConstant.cpp:104-131: [findMultiplyPlan]. *)
Fixpoint find (fuel : nat) (n upper : Z) (M : memo) : res :=
  match fuel with
  | O => UB
  | S f =>
      if 12 <=? upper then UB
      else if upper <? 0 then Ok M None
      else match M upper n with
      | Some p => Ok M (Some p)
      | None =>
          match n with
          | Zpos p =>
              let (m, sh) := strip2 p in
              if Pos.eqb m 1 then
                let q := [mkStep sh NOP ORIGIN] in Ok (memo_set M upper n q) (Some q)
              else
                match findOdd (find f) (Zpos m) (upper - (if 0 <? sh then 1 else 0)) M with
                | UB => UB
                | Ok M' None => Ok M' None
                | Ok M' (Some q) =>
                    let q' := if 0 <? sh then mkStep sh NOP ORIGIN :: q else q in
                    Ok (memo_set M' upper n q') (Some q')
                end
          | _ => UB
          end
      end
  end.

Definition findMultiplyPlan (n upper : Z) (M : memo) : res := find 14 n upper M.

(** ** Emission (lines 133-186) *)

(** Machine operands: virtual registers and immediates. *)
Inductive opnd := Reg (r : nat) | Imm (v : Z).
(** The instructions the expansion emits: InstShl, InstAdd, InstSub, InstCopy. *)
Inductive minst :=
  | MShl (d : nat) (a : opnd) (amt : Z)
  | MAdd (d : nat) (a b : opnd)
  | MSub (d : nat) (a b : opnd)
  | MCopy (d : nat) (a : opnd).

(** MultiplyByConstant.cpp:144-170: the recursive lambda [expand].  [nx] is the next
    virtual register [nextId] returns; the result is the code, the operand holding the
    product and the new next register. *)
Fixpoint expand (lhs : opnd) (p : plan) (nx : nat) : list minst * opnd * nat :=
  match p with
  | [] => ([], lhs, nx)
  | s :: par =>
      let '(c, v, nx1) := expand lhs par nx in
      let '(c2, ret, nx2) :=
        if 0 <? shamt s then (c ++ [MShl nx1 v (shamt s)], Reg nx1, S nx1) else (c, v, nx1) in
      let r := match rhs s with CHAIN => v | ORIGIN => lhs end in
      match arith s with
      | NOP => (c2, ret, nx2)
      | ADD => (c2 ++ [MAdd nx2 ret r], Reg nx2, S nx2)
      | SUB => (c2 ++ [MSub nx2 ret r], Reg nx2, S nx2)
      end
  end.

Inductive eres := EUB | ENo (M : memo) | EYes (M : memo) (code : list minst) (nx : nat).

(** MultiplyByConstant.cpp:133-186: [expandMulWithConstantImpl] on [dst = lhs * v2];
    [ENo]: left alone. *)
Definition expandMul (dst : nat) (lhs : opnd) (v2 : Z) (maxCost : Z) (nx : nat) (M : memo) : eres :=
  if (v2 =? 0) || (v2 =? - 2 ^ 63) then ENo M
  else match findMultiplyPlan (Z.abs v2) maxCost M with
  | UB => EUB
  | Ok M' None => ENo M'
  | Ok M' (Some p) =>
      let '(c, ret, nx') := expand lhs p nx in
      EYes M' (c ++ [if v2 <? 0 then MSub dst (Imm 0) ret else MCopy dst ret]) nx'
  end.

(** ** Meaning of the emitted code: registers hold w-bit values *)
Section Sem.
Variable w : Z.
Definition wrapw (x : Z) : Z := x mod 2 ^ w.
Definition oval (e : nat -> Z) (o : opnd) : Z := match o with Reg r => e r | Imm v => wrapw v end.
Definition setr (e : nat -> Z) (d : nat) (v : Z) : nat -> Z := fun r => if Nat.eqb r d then v else e r.
(** A shift amount outside [0, w) has no defined result: [None]. *)
Definition exec1 (e : nat -> Z) (i : minst) : option (nat -> Z) :=
  match i with
  | MShl d a amt => if (0 <=? amt) && (amt <? w) then Some (setr e d (wrapw (oval e a * 2 ^ amt))) else None
  | MAdd d a b => Some (setr e d (wrapw (oval e a + oval e b)))
  | MSub d a b => Some (setr e d (wrapw (oval e a - oval e b)))
  | MCopy d a => Some (setr e d (oval e a))
  end.
Fixpoint exec (c : list minst) (e : nat -> Z) : option (nat -> Z) :=
  match c with
  | [] => Some e
  | i :: c' => match exec1 e i with Some e' => exec c' e' | None => None end
  end.
End Sem.
