(** C51: merging a block of phis into its successor keeps the behaviour. *)
From Coq Require Import ZArith Lia Bool List Arith.
From Verif Require Import Sim Ssa SsaCfg SsaWf SsaDom SsaProps SsaSub SsaVerify SsaEq SsaPhi SsaCse CodeMotionProps IfcProps PhiMg.
Import ListNotations.

(** for every function the verifier accepts: if the pass ends, then whatever the operations mean the program does what it did, it is well
    formed, and there is no block left that the pass would merge *)
Theorem C51_phiMerge_preserves knd f g : wfs f -> phiMerge f = Some g ->
  refines knd f g /\ wfs g /\ forall b bb, get b g = Some bb -> phiMergeTo g b bb = None.
Proof. intros Hf H. destruct (phiMerge_good knd f g Hf H) as [[A B] C]. auto. Qed.
(** it ends if no block ends in a switch *)
Theorem C51_phiMerge_ends f : (forall b bk c cs d, get b f = Some bk -> trm bk <> TSwitch c cs d) -> NoDup (map fst f) -> exists g, phiMerge f = Some g.
Proof.
  intros H N. apply phiMergeLoop_some. apply forallb_forall. intros [b bk] Hin. cbn. destruct (trm bk) eqn:E; auto. exfalso. refine (H b bk _ _ _ _ E). apply In_get; auto.
Qed.

(** ** [x ? (y ? 7 : 9) : y], the 7 and the [y] through a block of their own *)
Definition pjoin (t2 : term) : func :=
  [(0, Block [] [] (TCond (OArg 0) 1 2));
   (1, Block [] [] (TCond (OArg 1) 3 4));
   (2, Block [] [Inst 9 2 [OArg 1]] t2);
   (3, Block [Phi 5 [(1, OCst (VInt 7)); (2, OArg 1)]; Phi 6 [(1, OArg 0); (2, ORes 9)]] [] (TBr 5));
   (4, Block [] [] (TBr 5));
   (5, Block [Phi 7 [(3, ORes 5); (4, OCst (VInt 9))]; Phi 8 [(4, OArg 1); (3, OArg 0)]; Phi 10 [(3, ORes 6); (4, OArg 0)]] [Inst 11 2 [ORes 8; ORes 10]] (TRet (Some (ORes 7))))].
Definition pjoined : func :=
  [(0, Block [] [] (TCond (OArg 0) 1 2));
   (1, Block [] [] (TCond (OArg 1) 5 4));
   (2, Block [] [Inst 9 2 [OArg 1]] (TBr 5));
   (4, Block [] [] (TBr 5));
   (5, Block [Phi 7 [(4, OCst (VInt 9)); (1, OCst (VInt 7)); (2, OArg 1)]; Phi 8 [(4, OArg 1); (1, OArg 0); (2, OArg 0)]; Phi 10 [(4, OArg 0); (1, OArg 0); (2, ORes 9)]]
      [Inst 11 2 [ORes 8; ORes 10]] (TRet (Some (ORes 7))))].
Example pjoin_merged : phiMerge (pjoin (TBr 3)) = Some pjoined.
Proof. vm_compute. reflexivity. Qed.
Lemma pjoin_wfs t2 : t2 = TBr 3 \/ t2 = TSwitch (OArg 1) [(4%Z, 3)] 3 -> wfs (pjoin t2).
Proof.
  intros [-> | ->].
  - match goal with |- wfs ?f => assert (Hw : wf f) by (apply wfb_ok; vm_compute; reflexivity) end. split; [exact Hw|]. destruct Hw as (Hn & U & Hc & R). split.
    + apply (verify_sound (domb (pjoin (TBr 3))) (rchb (pjoin (TBr 3)))); [now apply domb_ok| |vm_compute; reflexivity].
      apply phiReach_all. apply (allReach_dec _ Hc Hn). vm_compute. reflexivity.
    + intros bk [= <-]. reflexivity.
  - match goal with |- wfs ?f => set (g := f); assert (Hw : wf g) by (apply wfb_ok; vm_compute; reflexivity) end. split; [exact Hw|]. destruct Hw as (Hn & U & Hc & R). split.
    + apply (verify_sound (domb g) (rchb g)); [now apply domb_ok| |vm_compute; reflexivity].
      apply phiReach_all. apply (allReach_dec _ Hc Hn). vm_compute. reflexivity.
    + intros bk [= <-]. reflexivity.
Qed.
Example pjoin_same args : refinesAt (step iSem args (pjoin (TBr 3))) (step iSem args pjoined) (start (pjoin (TBr 3)) 0%Z) (start pjoined 0%Z).
Proof. apply (C51_phiMerge_preserves iKnd _ _ (pjoin_wfs _ (or_introl eq_refl)) pjoin_merged). exact iSem_ok. Qed.
Example pjoin_runs : finishes (step iSem (fun n => VInt (match n with 0%nat => 1 | _ => 1 end)) pjoined) (start pjoined 0%Z) (Ret (Some (VInt 7)) 0%Z) [(2%nat, [VInt 1; VInt 1], 0%Z)].
Proof. exists 3. vm_compute. reflexivity. Qed.

(** ** a switch to the block: as<BranchInst> of it is a null pointer, and the compiler crashes *)
Theorem C51_phiMerge_crash_refuted : exists f, wfs f /\ phiMerge f = None.
Proof. exists (pjoin (TSwitch (OArg 1) [(4%Z, 3)] 3)). split; [apply pjoin_wfs; auto|vm_compute; reflexivity]. Qed.
