(** C50: turning a branch over a few instructions into selects keeps the behaviour. *)
From Coq Require Import ZArith Lia Bool List Arith.
From Verif Require Import Sim Ssa SsaCfg SsaWf SsaDom SsaProps SsaSub SsaVerify SsaEq SsaPhi SsaCse CodeMotion CodeMotionProps Ifc.
Import ListNotations.

(** for every function the verifier accepts whose first block nothing branches to: whatever the operations mean, if a select chooses and
    loads from global variables and stack slots cannot fail, the program does what it did, and is well formed *)
Theorem C50_branch2Select_preserves_partial knd glob sel f : knd sel = KPure -> wfs f -> entryNoPred f ->
  refinesSel knd glob sel f (branch2Select knd glob sel f) /\ wfs (branch2Select knd glob sel f) /\ entryNoPred (branch2Select knd glob sel f).
Proof. intros H Hf He. now apply branch2Select_good. Qed.

(** ** operations for the examples: 0-4 as in [exKnd], 6 select, 7 stack slot, 8 load, 9 store; one slot, which is the world *)
Definition iKnd (o : nat) : kind :=
  match o with 0 | 4 | 6 => KPure | 1 => KDiv | 2 => KCall false false false | 7 => KAlloc | 8 => KLoad | 9 => KStore | _ => KPure end%nat.
Definition iMeaning (o : nat) (a : list value) (w : Z) : @ires Z :=
  match o with
  | 0%nat => IOk (match a with [VInt x; VInt y] => VInt (x + y) | _ => VUndef end) w
  | 1%nat => match a with [VInt x; VInt y] => if Z.eqb y 0 then IBad else IOk (VInt (Z.quot x y)) w | [_; VInt y] => if Z.eqb y 0 then IBad else IOk VUndef w | _ => IBad end
  | 2%nat => IOk VUndef w
  | 4%nat => IOk (match a with [VInt x; VInt y] => VInt (if Z.ltb x y then 1 else 0) | _ => VUndef end) w
  | 6%nat => IOk (match a with [VInt z; x; y] => if Z.eqb z 0 then y else x | _ => VUndef end) w
  | 7%nat => IOk (VOpq 0) w
  | 8%nat => match a with [VOpq _] => IOk (VInt w) w | _ => IBad end
  | 9%nat => match a with [VInt v; VOpq _] => IOk VUndef v | _ => IBad end
  | _ => IOk VUndef w
  end.
Definition iSem : sem Z := Sem iMeaning (fun o => Nat.eqb o 2).
Definition noGlob (v : value) : bool := false.
Lemma iSem_ok : okSem iKnd iSem.
Proof.
  repeat split.
  - intros o Ho. destruct o as [|[|[|[|[|[|[|[|[|[|o]]]]]]]]]]; try discriminate; cbn; eexists; intros; reflexivity.
  - intros o Ho. destruct o as [|[|[|[|[|[|[|[|[|[|o]]]]]]]]]]; try discriminate.
    exists (fun a => match a with [VInt x; VInt y] => if Z.eqb y 0 then None else Some (VInt (Z.quot x y)) | [_; VInt y] => if Z.eqb y 0 then None else Some VUndef | _ => None end).
    intros a w. cbn. destruct a as [|[x|x|] [|[y|y|] [|]]]; auto; destruct (Z.eqb y 0); reflexivity.
  - intros o Ho a z w Hz. destruct o as [|[|[|[|[|[|[|[|[|[|o]]]]]]]]]]; try discriminate. cbn. rewrite (proj2 (Z.eqb_neq z 0) Hz). destruct a; discriminate.
  - intros o Ho. destruct o as [|[|[|[|[|[|[|[|[|[|o]]]]]]]]]]; try discriminate.
    exists (fun a w => match a with [VOpq _] => Some (VInt w) | _ => None end). intros a w. cbn. destruct a as [|[x|x|] [|]]; reflexivity.
  - intros o Ho. destruct o as [|[|[|[|[|[|[|[|[|[|o]]]]]]]]]]; try discriminate. exists (fun _ => VOpq 0). reflexivity.
  - intros o st nr Ho. destruct o as [|[|[|[|[|[|[|[|[|[|o]]]]]]]]]]; discriminate.
  - intros o nr Ho. destruct o as [|[|[|[|[|[|[|[|[|[|o]]]]]]]]]]; discriminate.
  - intros o ns st Ho. destruct o as [|[|[|[|[|[|[|[|[|[|o]]]]]]]]]]; discriminate.
  - intros o Ho. destruct o as [|[|[|o]]]; try discriminate. cbn. eauto.
Qed.
Lemma iSem_sel : selMeaning iSem 6.
Proof. intros z x y w. reflexivity. Qed.
Lemma iSem_slots : slotsLoad iKnd iSem noGlob.
Proof.
  split; [discriminate|]. intros o a w v w' Ho Hm o2 w2 Ho2. destruct o as [|[|[|[|[|[|[|[|[|[|o]]]]]]]]]]; try discriminate.
  injection Hm as <- <-. destruct o2 as [|[|[|[|[|[|[|[|[|[|o2]]]]]]]]]]; try discriminate.
Qed.

(** ** [if (x < 0) { r = slot + x; f = (x < 0); }] *)
Definition idiam : func :=
  [(0, Block [] [Inst 1 7 []; Inst 2 9 [OArg 1; ORes 1]; Inst 3 4 [OArg 0; OCst (VInt 0)]] (TCond (ORes 3) 1 2));
   (1, Block [] [Inst 4 8 [ORes 1]; Inst 5 0 [ORes 4; OArg 0]] (TBr 2));
   (2, Block [Phi 6 [(0, OArg 0); (1, ORes 5)]; Phi 7 [(0, OCst (VInt 1)); (1, ORes 3)]] [Inst 8 2 [ORes 6; ORes 7]] (TRet (Some (ORes 6))))].
Definition iflat : func :=
  [(0, Block [] [Inst 1 7 []; Inst 2 9 [OArg 1; ORes 1]; Inst 3 4 [OArg 0; OCst (VInt 0)]] (TBr 1));
   (1, Block [] [Inst 4 8 [ORes 1]; Inst 5 0 [ORes 4; OArg 0]; Inst 9 6 [ORes 3; ORes 5; OArg 0]; Inst 10 6 [ORes 3; ORes 3; OCst (VInt 1)]] (TBr 2));
   (2, Block [Phi 6 [(1, ORes 9)]; Phi 7 [(1, ORes 10)]] [Inst 8 2 [ORes 6; ORes 7]] (TRet (Some (ORes 6))))].
Example idiam_flat : branch2Select iKnd noGlob 6 idiam = iflat.
Proof. vm_compute. reflexivity. Qed.
Lemma idiam_wfs : wfs idiam.
Proof.
  assert (Hw : wf idiam) by (apply wfb_ok; vm_compute; reflexivity). split; [exact Hw|]. destruct Hw as (Hn & U & Hc & R). split.
  - apply (verify_sound (domb idiam) (rchb idiam)); [now apply domb_ok| |vm_compute; reflexivity].
    apply phiReach_all. apply (allReach_dec idiam Hc Hn). vm_compute. reflexivity.
  - intros bk [= <-]. reflexivity.
Qed.
Example idiam_same x y : refinesAt (step iSem (fun n => match n with 0%nat => x | _ => y end) idiam) (step iSem (fun n => match n with 0%nat => x | _ => y end) iflat) (start idiam 0%Z) (start iflat 0%Z).
Proof.
  rewrite <- idiam_flat. apply (C50_branch2Select_preserves_partial iKnd noGlob 6 idiam eq_refl idiam_wfs (entryNoPredb_ok idiam eq_refl)); auto using iSem_ok, iSem_sel, iSem_slots.
Qed.
Example idiam_runs : finishes (step iSem (fun n => VInt (match n with 0%nat => -5 | _ => 7 end)) idiam) (start idiam 0%Z) (Ret (Some (VInt 2)) 7%Z) [(2%nat, [VInt 2; VInt 1], 7%Z)].
Proof. exists 3. vm_compute. reflexivity. Qed.
Example iflat_skips : finishes (step iSem (fun n => VInt (match n with 0%nat => 5 | _ => 7 end)) iflat) (start iflat 0%Z) (Ret (Some (VInt 5)) 7%Z) [(2%nat, [VInt 5; VInt 1], 7%Z)].
Proof. exists 3. vm_compute. reflexivity. Qed.

(** ** the one predecessor of the first block is not its only way in: the selects then read the condition before there is one *)
Definition iback : func :=
  [(0, Block [] [Inst 1 0 [OArg 0; OArg 0]] (TBr 1));
   (1, Block [Phi 2 [(0, ORes 1); (2, OCst (VInt 7))]] [] (TCond (OArg 0) 2 3));
   (2, Block [] [Inst 3 4 [ORes 2; OCst (VInt 5)]] (TCond (ORes 3) 0 1));
   (3, Block [] [] (TRet (Some (ORes 2))))].
Theorem C50_entry_refuted : exists g, wfs iback /\ branch2Select iKnd noGlob 6 iback = g /\
  finishes (step iSem (fun _ => VInt 0) iback) (start iback 0%Z) (Ret (Some (VInt 0)) 0%Z) [] /\
  ~ Sim.safe (step iSem (fun _ => VInt 0) g) (start g 0%Z).
Proof.
  assert (W : wfs iback).
  { assert (Hw : wf iback) by (apply wfb_ok; vm_compute; reflexivity). split; [exact Hw|]. destruct Hw as (Hn & U & Hc & R). split.
    - apply (verify_sound (domb iback) (rchb iback)); [now apply domb_ok| |vm_compute; reflexivity].
      apply phiReach_all. apply (allReach_dec iback Hc Hn). vm_compute. reflexivity.
    - intros bk [= <-]. reflexivity. }
  eexists. split; [exact W|]. split; [vm_compute; reflexivity|split].
  - exists 3. vm_compute. reflexivity.
  - intros S. apply (S 1 []). vm_compute. reflexivity.
Qed.

(** ** the other way: Select2Branch (cmmc/Transforms/ControlFlow/Select2Branch.cpp) *)
(** lines 28-41, 43-55: an operand that only the select uses and that is worth computing on one branch only; [costly]: isExpensive *)
Definition shouldExpand (knd : nat -> kind) (costly : nat -> bool) (f : func) (o : opnd) : option inst :=
  match o with
  | ORes y =>
    match defOf f y with
    | Some i => if (count_occ Nat.eq_dec (flat_map (fun kb => SsaFwd.usesOf (snd kb)) f) y =? 1) && costly (opc i) &&
                   match knd (opc i) with KCall _ st _ => st | _ => true end then Some i else None
    | None => None
    end
  | _ => None
  end.
(** lines 61-67: the first select with such an operand, what is before it and what is behind it *)
Fixpoint findSelect (X : opnd -> option inst) (sel : nat) (l : list inst) : option (list inst * inst * list inst) :=
  match l with
  | [] => None
  | i :: l' =>
    match (if Nat.eqb (opc i) sel then match ops i with [_; a; b] => match X a, X b with None, None => false | _, _ => true end | _ => false end else false) with
    | true => Some ([], i, l')
    | false => match findSelect X sel l' with Some (p, s, q) => Some (i :: p, s, q) | None => None end
    end
  end.
Definition replaceSource (a b : nat) (ph : phi) : phi := Phi (pdst ph) (map (fun x => (if Nat.eqb (fst x) a then b else fst x, snd x)) (inc ph)).
Definition optList {A} (o : option A) : list A := match o with Some a => [a] | None => [] end.
(** lines 69-98, one block; [n], [t], [e]: the new blocks nextBlock, trueBlock and falseBlock *)
Definition s2bOne (knd : nat -> kind) (costly : nat -> bool) (sel n t e : nat) (f : func) (k : nat) : func :=
  match get k f with
  | Some bk =>
    match findSelect (shouldExpand knd costly f) sel (body bk) with
    | Some (p, s, q) =>
      match ops s with
      | [c; a; b] =>
        let ia := optList (shouldExpand knd costly f a) in
        let ib := optList (shouldExpand knd costly f b) in
        let keep := fun i => negb (inb (dst i) (map dst (ia ++ ib))) in
        let fix1 := fun kb : nat * block => (fst kb, Block (if inb (fst kb) (succs (trm bk)) then map (replaceSource k n) (phis (snd kb)) else phis (snd kb))
                                              (filter keep (body (snd kb))) (trm (snd kb))) in
        flat_map (fun kb => if Nat.eqb (fst kb) k
                            then [(k, Block (phis (snd (fix1 kb))) (filter keep p) (TCond c t e));
                                  (n, Block [Phi (dst s) [(t, a); (e, b)]] (filter keep q) (trm bk))]
                            else [fix1 kb]) f
          ++ [(t, Block [] ia (TBr n)); (e, Block [] ib (TBr n))]
      | _ => f
      end
    | None => f
    end
  | None => f
  end.
(** [r = *p; *p = 5; return arg0 ? r : 0;] *)
Definition isel : func :=
  [(0, Block [] [Inst 1 7 []; Inst 2 9 [OArg 1; ORes 1]; Inst 3 8 [ORes 1]; Inst 4 9 [OCst (VInt 5); ORes 1]; Inst 5 6 [OArg 0; ORes 3; OCst (VInt 0)]] (TRet (Some (ORes 5))))].
Definition iCostly (o : nat) : bool := Nat.eqb o 1 || Nat.eqb o 8.
Lemma isel_split : s2bOne iKnd iCostly 6 1 2 3 isel 0 =
  [(0, Block [] [Inst 1 7 []; Inst 2 9 [OArg 1; ORes 1]; Inst 4 9 [OCst (VInt 5); ORes 1]] (TCond (OArg 0) 2 3));
   (1, Block [Phi 5 [(2, ORes 3); (3, OCst (VInt 0))]] [] (TRet (Some (ORes 5))));
   (2, Block [] [Inst 3 8 [ORes 1]] (TBr 1));
   (3, Block [] [] (TBr 1))].
Proof. vm_compute. reflexivity. Qed.
(** the load is moved behind the store: given 1 and 2 the program returned 2 and now returns 5 *)
Theorem C50_select2Branch_refuted : exists g, wfs isel /\ okSem iKnd iSem /\ selMeaning iSem 6 /\ s2bOne iKnd iCostly 6 1 2 3 isel 0 = g /\ wfs g /\
  finishes (step iSem (fun n => VInt (1 + Z.of_nat n)) isel) (start isel 0%Z) (Ret (Some (VInt 2)) 5%Z) [] /\
  finishes (step iSem (fun n => VInt (1 + Z.of_nat n)) g) (start g 0%Z) (Ret (Some (VInt 5)) 5%Z) [].
Proof.
  assert (W : forall f, f = isel \/ f = s2bOne iKnd iCostly 6 1 2 3 isel 0 -> wfs f).
  { intros f Hf0. assert (Hw : wf f) by (apply wfb_ok; destruct Hf0 as [-> | ->]; vm_compute; reflexivity). split; [exact Hw|]. destruct Hw as (Hn & U & Hc & R). split.
    - apply (verify_sound (domb f) (rchb f)); [now apply domb_ok| |destruct Hf0 as [-> | ->]; vm_compute; reflexivity].
      apply phiReach_all. apply (allReach_dec f Hc Hn). destruct Hf0 as [-> | ->]; vm_compute; reflexivity.
    - intros bk. destruct Hf0 as [-> | ->]; intros [= <-]; reflexivity. }
  eexists. split; [apply W; auto|]. split; [exact iSem_ok|]. split; [exact iSem_sel|]. split; [reflexivity|]. split; [apply W; auto|]. split.
  - exists 1. vm_compute. reflexivity.
  - exists 3. vm_compute. reflexivity.
Qed.
