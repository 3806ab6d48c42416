(** C52: sharing the last store of all predecessors keeps the behaviour. *)
From Coq Require Import ZArith Lia Bool List Arith.
From Verif Require Import Sim Ssa SsaCfg SsaWf SsaDom SsaProps SsaSub SsaVerify SsaEq SsaPhi SsaCse CodeMotion CodeMotionProps TailStore.
Import ListNotations.

(** for every function the verifier accepts whose first block nothing branches to, whatever the operations mean (the store may fail or end the program):
    the program does what it did, and is well formed *)
Theorem C52_tailStoreMerge_preserves_partial knd st f : wfs f -> entryNoPred f ->
  refines knd f (tailStoreMerge st f) /\ wfs (tailStoreMerge st f) /\ entryNoPred (tailStoreMerge st f).
Proof. intros Hf He. destruct (tailStoreMerge_good knd st f Hf He) as [[A B] C]. auto. Qed.

(** ** operations for the examples: 0-4 as in [exKnd], 7 stack slot, 8 load, 9 store of an address and a value; one slot, which is the world *)
Definition tKnd (o : nat) : kind :=
  match o with 0 | 4 => KPure | 1 => KDiv | 2 => KCall false false false | 7 => KAlloc | 8 => KLoad | 9 => KStore | _ => KPure end%nat.
Definition tMeaning (o : nat) (a : list value) (w : Z) : @ires Z :=
  match o with
  | 0%nat => IOk (match a with [VInt x; VInt y] => VInt (x + y) | _ => VUndef end) w
  | 1%nat => match a with [VInt x; VInt y] => if Z.eqb y 0 then IBad else IOk (VInt (Z.quot x y)) w | [_; VInt y] => if Z.eqb y 0 then IBad else IOk VUndef w | _ => IBad end
  | 7%nat => IOk (VOpq 0) w
  | 8%nat => match a with [VOpq _] => IOk (VInt w) w | _ => IBad end
  | 9%nat => match a with [VOpq _; VInt v] => IOk VUndef v | _ => IBad end
  | _ => IOk VUndef w
  end.
Definition tSem : sem Z := Sem tMeaning (fun o => Nat.eqb o 2).
Lemma tSem_ok : okSem tKnd tSem.
Proof.
  repeat split.
  - intros o Ho. destruct o as [|[|[|[|[|[|[|[|[|[|o]]]]]]]]]]; try discriminate; cbn; eexists; intros; reflexivity.
  - intros o Ho. destruct o as [|[|[|[|[|[|[|[|[|[|o]]]]]]]]]]; try discriminate.
    exists (fun a => match a with [VInt x; VInt y] => if Z.eqb y 0 then None else Some (VInt (Z.quot x y)) | [_; VInt y] => if Z.eqb y 0 then None else Some VUndef | _ => None end).
    intros a w. cbn. destruct a as [|[x|x|] [|[y|y|] [|]]]; auto; destruct (Z.eqb y 0); reflexivity.
  - intros o Ho a z w Hz. destruct o as [|[|[|[|[|[|[|[|[|[|o]]]]]]]]]]; try discriminate. cbn. rewrite (proj2 (Z.eqb_neq z 0) Hz). destruct a; discriminate.
  - intros o Ho. destruct o as [|[|[|[|[|[|[|[|[|[|o]]]]]]]]]]; try discriminate.
    exists (fun a w => match a with [VOpq _] => Some (VInt w) | _ => None end). intros a w. cbn. destruct a as [|[x|x|] [|]]; reflexivity.
  - intros o Ho. destruct o as [|[|[|[|[|[|[|[|[|[|o]]]]]]]]]]; try discriminate. exists (fun _ => VOpq 0). reflexivity.
  - intros o st nr Ho. destruct o as [|[|[|[|[|[|[|[|[|[|o]]]]]]]]]]; discriminate.
  - intros o nr Ho. destruct o as [|[|[|[|[|[|[|[|[|[|o]]]]]]]]]]; discriminate.
  - intros o ns st Ho. destruct o as [|[|[|[|[|[|[|[|[|[|o]]]]]]]]]]; discriminate.
  - intros o Ho. destruct o as [|[|[|o]]]; try discriminate. cbn. eauto.
Qed.

(** ** [if (x) { p = 5; } else { p = y + y; } use(p)], and the same again behind it *)
Definition tdiam : func :=
  [(0, Block [] [Inst 1 7 []] (TCond (OArg 0) 1 2));
   (1, Block [] [Inst 2 9 [ORes 1; OCst (VInt 5)]] (TBr 3));
   (2, Block [] [Inst 3 0 [OArg 1; OArg 1]; Inst 4 9 [ORes 1; ORes 3]] (TBr 3));
   (3, Block [Phi 5 [(1, OArg 1); (2, ORes 3)]] [Inst 6 8 [ORes 1]; Inst 7 2 [ORes 6; ORes 5]] (TRet (Some (ORes 6))))].
Definition tjoin : func :=
  [(0, Block [] [Inst 1 7 []] (TCond (OArg 0) 1 2));
   (1, Block [] [] (TBr 3));
   (2, Block [] [Inst 3 0 [OArg 1; OArg 1]] (TBr 3));
   (3, Block [Phi 5 [(1, OArg 1); (2, ORes 3)]; Phi 8 [(1, OCst (VInt 5)); (2, ORes 3)]] [Inst 9 9 [ORes 1; ORes 8]; Inst 6 8 [ORes 1]; Inst 7 2 [ORes 6; ORes 5]] (TRet (Some (ORes 6))))].
Example tdiam_join : tailStoreMerge 9 tdiam = tjoin.
Proof. vm_compute. reflexivity. Qed.
Ltac wfs_dec g := let Hw := fresh "Hw" in
  assert (Hw : wf g) by (apply wfb_ok; vm_compute; reflexivity); split; [exact Hw|]; destruct Hw as (Hn & U & Hc & R); split;
  [apply (verify_sound (domb g) (rchb g)); [now apply domb_ok| |vm_compute; reflexivity];
   apply phiReach_all; apply (allReach_dec _ Hc Hn); vm_compute; reflexivity
  |intros bk [= <-]; reflexivity].
Lemma tdiam_wfs : wfs tdiam.
Proof. wfs_dec tdiam. Qed.
Example tdiam_same args : refinesAt (step tSem args tdiam) (step tSem args tjoin) (start tdiam 0%Z) (start tjoin 0%Z).
Proof. rewrite <- tdiam_join. destruct (C52_tailStoreMerge_preserves_partial tKnd 9 tdiam tdiam_wfs (entryNoPredb_ok tdiam eq_refl)) as [H _]. exact (H Z tSem args 0%Z tSem_ok). Qed.
Example tdiam_runs : finishes (step tSem (fun n => VInt (match n with 0%nat => 0 | _ => 21 end)) tdiam) (start tdiam 0%Z) (Ret (Some (VInt 42)) 42%Z) [(2%nat, [VInt 42; VInt 42], 42%Z)].
Proof. exists 3. vm_compute. reflexivity. Qed.
Example tjoin_runs : finishes (step tSem (fun n => VInt (match n with 0%nat => 1 | _ => 21 end)) tjoin) (start tjoin 0%Z) (Ret (Some (VInt 5)) 5%Z) [(2%nat, [VInt 5; VInt 21], 5%Z)].
Proof. exists 3. vm_compute. reflexivity. Qed.

(** ** the predecessors of the first block are not its only ways in *)
Definition tback : func :=
  [(0, Block [] [] (TCond (OArg 0) 1 4));
   (1, Block [] [] (TCond (OArg 1) 2 3));
   (2, Block [] [Inst 1 9 [OArg 2; OCst (VInt 5)]] (TBr 0));
   (3, Block [] [Inst 2 9 [OArg 2; OCst (VInt 6)]] (TBr 0));
   (4, Block [] [] (TRet None))].
Theorem C52_entry_refuted : wfs tback /\ finishes (step tSem (fun _ => VInt 0) tback) (start tback 0%Z) (Ret None 0%Z) [] /\
  ~ Sim.safe (step tSem (fun _ => VInt 0) (tailStoreMerge 9 tback)) (start (tailStoreMerge 9 tback) 0%Z).
Proof.
  split; [wfs_dec tback|]. split; [exists 2; vm_compute; reflexivity|]. intros H. apply (H 1%nat []). vm_compute. reflexivity.
Qed.
