(** C33: the control-flow clean-up passes on the SSA IR keep the behaviour of every function.
    Specification: [refines] (Ssa.v): for every meaning of the opcodes that respects what their kinds promise, every
    argument vector and initial world, if the run of [f] has no undefined behaviour, [g] returns the same value and world
    or ends in the same call, makes the same visible calls with the same arguments, and runs for ever exactly if [f] does.
    [wf] (SsaWf.v): the structural conditions of the IR verifier. *)
From Coq Require Import ZArith Lia Bool List Arith.
From Verif Require Import Sim Ssa SsaCfg SsaMerge SsaFwd SsaFwd2 SsaWf SsaDom.
Import ListNotations.

(** * the passes one by one *)
Theorem C33_simplifyBranch k f : refines k f (simplifyBranch f).
Proof. apply simplifyBranch_ok. Qed.
Theorem C33_mergeBranch k f : refines k f (mergeBranch f).
Proof. apply mergeBranch_ok. Qed.
Theorem C33_simplifyPartialUnreachableBranch k f : refines k f (simplifyPartial f).
Proof. apply simplifyPartial_ok. Qed.
Theorem C33_noReturnCallEliminate k f : uniqueDefs f -> refines k f (noReturnCallEliminate k f).
Proof. apply noReturn_ok. Qed.
Theorem C33_blockEliminate k f : f <> [] -> closed f -> uniqueDefs f -> refines k f (blockEliminate f).
Proof. intros. now apply blockEliminate_ok. Qed.
(** [dominates]: SsaDom.v, by paths of the control-flow graph *)
Theorem C33_blockMerge k dom f : (forall a b, dom a b = true -> dominates f a b) -> NoDup (map fst f) -> phiPreds f ->
  refines k f (blockMerge dom f).
Proof.
  intros Hd. apply blockMerge_ok. intros a Ha. destruct (dom a (entry f)) eqn:E; auto. exfalso.
  destruct (Hd a (entry f) E [entry f] (path_entry f)) as [H|[]]. congruence.
Qed.
Theorem C33_combineBranch k f : phiPreds f -> closed f -> NoDup (map fst f) -> refines k f (combineBranch f).
Proof. apply combineBranch_ok. Qed.
Theorem C33_unifyReturn k noReturn isVoid ex px f : ~ In ex (map fst f) -> NoDup (map fst f) ->
  (forall b bk v, get b f = Some bk -> trm bk = TRet v -> isVoid = true <-> v = None) ->
  refines k f (unifyReturn noReturn isVoid ex px f).
Proof. apply unifyReturn_ok. Qed.
(** one edge that leads through a block which tests the same condition again, or a phi known on that edge *)
Theorem C33_forwardBranch_edge_partial k f b a : distinctArms f b = true -> phiPreds f -> phiAll f -> refines k f (tryForward b a f).
Proof. intros. now apply tryForward_ok. Qed.
(** the pass with the test for distinct targets repeated before the second arm; without it see [C33_forwardBranch_refuted] *)
Theorem C33_forwardBranch_partial k f : phiPreds f -> phiAll f -> refines k f (forwardBranchChecked f).
Proof. apply forwardBranchChecked_ok. Qed.
(** sound if no call ends the program; otherwise see [C33_unreachableEliminate_refuted] *)
Theorem C33_unreachableEliminate_partial (W : Type) (m : sem W) args f w :
  (forall o a w1 w2, meaning m o a w1 <> IHalt w2) ->
  refinesAt (step m args f) (step m args (unreachableEliminate f)) (start f w) (start (unreachableEliminate f) w).
Proof. apply unreachableEliminate_at. Qed.

(** * any sequence of them *)
Inductive cleanup (k : nat -> kind) : func -> func -> Prop :=
| cu_done f : cleanup k f f
| cu_simplifyBranch f g : cleanup k (simplifyBranch f) g -> cleanup k f g
| cu_mergeBranch f g : cleanup k (mergeBranch f) g -> cleanup k f g
| cu_simplifyPartial f g : cleanup k (simplifyPartial f) g -> cleanup k f g
| cu_noReturn f g : cleanup k (noReturnCallEliminate k f) g -> cleanup k f g
| cu_blockEliminate f g : cleanup k (blockEliminate f) g -> cleanup k f g
| cu_blockMerge f g dom : (forall a b, dom a b = true -> dominates f a b) -> cleanup k (blockMerge dom f) g -> cleanup k f g
| cu_combineBranch f g : cleanup k (combineBranch f) g -> cleanup k f g
| cu_forwardBranch f g : cleanup k (forwardBranchChecked f) g -> cleanup k f g
| cu_unifyReturn f g noReturn isVoid ex px : ~ In ex (map fst f) -> ~ In px (allResults f) ->
    (forall b bk v, get b f = Some bk -> trm bk = TRet v -> isVoid = true <-> v = None) ->
    cleanup k (unifyReturn noReturn isVoid ex px f) g -> cleanup k f g.

Theorem C33_any_sequence k f g : wf f -> cleanup k f g -> refines k f g /\ wf g.
Proof.
  intros Hw H. revert Hw. induction H as [f|f g _ IH|f g _ IH|f g _ IH|f g _ IH|f g _ IH|f g dom Hd _ IH|f g _ IH|f g _ IH|f g nr iv ex px H1 H2 H3 _ IH]; intros Hw.
  - split; auto. apply refines_refl.
  - destruct IH as [A B]; [apply wf_fold; auto using simplifyBranch1_wf|]. split; auto. eapply refines_trans; [apply C33_simplifyBranch|exact A].
  - destruct IH as [A B]; [apply wf_fold; auto using mergeBranch1_wf|]. split; auto. eapply refines_trans; [apply C33_mergeBranch|exact A].
  - destruct IH as [A B]; [apply wf_fold; auto using simplifyPartial1_wf|]. split; auto. eapply refines_trans; [apply C33_simplifyPartialUnreachableBranch|exact A].
  - destruct IH as [A B]; [apply wf_fold; auto using noReturn1_wf|]. split; auto. eapply refines_trans; [apply C33_noReturnCallEliminate; apply Hw|exact A].
  - destruct IH as [A B]; [now apply blockEliminate_wf|]. split; auto. eapply refines_trans; [apply C33_blockEliminate; apply Hw|exact A].
  - assert (Hd' : forall a, a <> entry f -> dom a (entry f) = false).
    { intros a Ha. destruct (dom a (entry f)) eqn:E; auto. exfalso. destruct (Hd a (entry f) E [entry f] (path_entry f)) as [H|[]]. congruence. }
    destruct IH as [A B]; [now apply blockMergeN_wf|]. split; auto. eapply refines_trans; [exact (C33_blockMerge k dom f Hd (wf_NoDup f Hw) (wf_phiPreds f Hw))|exact A].
  - destruct IH as [A B]; [now apply combineBranch_wf|]. split; auto. eapply refines_trans; [apply C33_combineBranch; apply Hw|exact A].
  - destruct IH as [A B]; [now apply forwardBranchChecked_wf|]. split; auto. eapply refines_trans; [apply C33_forwardBranch_partial; apply Hw|exact A].
  - destruct IH as [A B]; [now apply unifyReturn_wf|]. split; auto. eapply refines_trans; [exact (C33_unifyReturn k nr iv ex px f H1 (wf_NoDup f Hw) H3)|exact A].
Qed.

(** * examples *)
(** opcodes: 0 add, 1 division, 2 print (visible), 3 exit, 4 less-than *)
Definition exKnd (o : nat) : kind :=
  match o with
  | 0 | 4 => KPure | 1 => KDiv | 2 => KCall false false false | 3 => KCall false false true | _ => KPure
  end%nat.
Definition exMeaning (o : nat) (a : list value) (w : nat) : @ires nat :=
  match o with
  | 0%nat => IOk (match a with [VInt x; VInt y] => VInt (x + y) | _ => VUndef end) w
  | 1%nat => match a with [VInt x; VInt y] => if Z.eqb y 0 then IBad else IOk (VInt (Z.quot x y)) w | [_; VInt y] => if Z.eqb y 0 then IBad else IOk VUndef w | _ => IBad end
  | 2%nat => IOk VUndef (S w)
  | 3%nat => IHalt w
  | 4%nat => IOk (match a with [VInt x; VInt y] => VInt (if Z.ltb x y then 1 else 0) | _ => VUndef end) w
  | _ => IOk VUndef w
  end.
Definition exSem : sem nat := Sem exMeaning (fun o => Nat.eqb o 2).
Lemma exSem_ok : okSem exKnd exSem.
Proof.
  repeat split.
  - intros o Ho. destruct o as [|[|[|[|[|o]]]]]; try discriminate.
    + exists (fun a => match a with [VInt x; VInt y] => VInt (x + y) | _ => VUndef end). reflexivity.
    + exists (fun a => match a with [VInt x; VInt y] => VInt (if Z.ltb x y then 1 else 0) | _ => VUndef end). reflexivity.
    + exists (fun _ => VUndef). reflexivity.
  - intros o Ho. destruct o as [|[|[|[|[|o]]]]]; try discriminate.
    exists (fun a => match a with [VInt x; VInt y] => if Z.eqb y 0 then None else Some (VInt (Z.quot x y)) | [_; VInt y] => if Z.eqb y 0 then None else Some VUndef | _ => None end).
    intros a w. cbn. destruct a as [|[x|x|] [|[y|y|] [|]]]; auto; destruct (Z.eqb y 0); reflexivity.
  - intros o Ho a z w Hz. destruct o as [|[|[|[|[|o]]]]]; try discriminate. cbn. rewrite (proj2 (Z.eqb_neq z 0) Hz). destruct a; discriminate.
  - intros o Ho. destruct o as [|[|[|[|[|o]]]]]; try discriminate.
  - intros o Ho. destruct o as [|[|[|[|[|o]]]]]; try discriminate.
  - intros o st nr Ho. destruct o as [|[|[|[|[|o]]]]]; try discriminate.
  - intros o nr Ho. destruct o as [|[|[|[|[|o]]]]]; try discriminate.
  - intros o ns st Ho a w v w'. destruct o as [|[|[|[|[|o]]]]]; try discriminate.
  - intros o Ho. destruct o as [|[|[|o]]]; try discriminate. cbn. eauto.
Qed.

(** a loop that prints 0..2, with a forwarding block (4), an unreachable block (9), a test of a constant (7), two returns and
    a call of exit on a path that is not taken *)
Definition exF : func :=
  [(0, Block [] [] (TBr 1));
   (1, Block [Phi 10 [(0, OCst (VInt 0)); (4, ORes 11)]] [Inst 12 4 [ORes 10; OCst (VInt 3)]] (TCond (ORes 12) 2 5));
   (2, Block [] [Inst 13 2 [ORes 10]] (TBr 3));
   (3, Block [] [Inst 11 0 [ORes 10; OCst (VInt 1)]] (TBr 4));
   (4, Block [] [] (TBr 1));
   (5, Block [] [] (TBr 7));
   (7, Block [] [] (TCond (OCst (VInt 1)) 8 6));
   (6, Block [] [Inst 14 3 []; Inst 15 0 [OCst (VInt 1); OCst (VInt 1)]] (TRet (Some (ORes 15))));
   (8, Block [] [] (TRet (Some (ORes 10))));
   (9, Block [] [Inst 16 2 [OCst (VInt 7)]] (TRet (Some (ORes 16))))]%nat.

(** deciders for the well-formedness of concrete functions *)
Definition nodupb (l : list nat) : bool := Nat.eqb (length (nodup Nat.eq_dec l)) (length l).
Lemma nodup_len l : (length (nodup Nat.eq_dec l) <= length l)%nat.
Proof. induction l as [|a l IH]; cbn; auto. destruct (in_dec Nat.eq_dec a l); cbn; lia. Qed.
Lemma nodupb_ok l : nodupb l = true -> NoDup l.
Proof.
  unfold nodupb. intros H. apply Nat.eqb_eq in H. induction l as [|a l IH]; [constructor|]. cbn in H.
  pose proof (nodup_len l). destruct (in_dec Nat.eq_dec a l); cbn in H; [lia|]. constructor; auto.
Qed.
Definition inb (x : nat) (l : list nat) : bool := existsb (Nat.eqb x) l.
Definition edgeb (f : func) (p k : nat) : bool := match get p f with Some pb => inb k (succs (trm pb)) | None => false end.
Definition wfb (f : func) : bool :=
  negb (Nat.eqb (length f) 0) && nodupb (map fst f) && nodupb (allResults f) &&
  forallb (fun x => forallb (fun t => inb t (map fst f)) (succs (trm (snd x)))) f &&
  forallb (fun x => forallb (fun ph => forallb (fun i => edgeb f (fst i) (fst x)) (inc ph) &&
                                       forallb (fun y => implb (inb (fst x) (succs (trm (snd y)))) (match get (fst y) (inc ph) with Some _ => true | None => false end)) f) (phis (snd x))) f.
Lemma wfb_ok f : wfb f = true -> wf f.
Proof.
  unfold wfb. rewrite !andb_true_iff. intros ((((H1 & H2) & H3) & H4) & H5). rewrite forallb_forall in H4, H5.
  split; [|split; [split|split; [|split]]].
  - intros ->. discriminate.
  - now apply nodupb_ok.
  - now apply nodupb_ok.
  - intros b bk t Hb Ht. apply get_In in Hb. specialize (H4 _ Hb). cbn in H4. rewrite forallb_forall in H4. apply existsb_In. exact (H4 t Ht).
  - intros k bk ph p o Hk Hph Hin. apply get_In in Hk. specialize (H5 _ Hk). cbn in H5. rewrite forallb_forall in H5. specialize (H5 _ Hph).
    apply andb_true_iff in H5 as [A _]. rewrite forallb_forall in A. specialize (A _ Hin). unfold edgeb in A. cbn in A.
    destruct (get p f) as [pb|]; [|discriminate]. exists pb. split; auto. now apply existsb_In.
  - intros k bk ph p pb Hk Hph Hp Hin. apply get_In in Hk. specialize (H5 _ Hk). cbn in H5. rewrite forallb_forall in H5. specialize (H5 _ Hph).
    apply andb_true_iff in H5 as [_ A]. rewrite forallb_forall in A. apply get_In in Hp. specialize (A _ Hp). cbn in A.
    unfold inb in A. rewrite (proj2 (existsb_In k _) Hin) in A. cbn in A. destruct (get p (inc ph)); [discriminate|discriminate].
Qed.

Example exF_wf : wf exF.
Proof. apply wfb_ok. vm_compute. reflexivity. Qed.
(** a run of the passes that changes the function a lot *)
Definition exG1 := noReturnCallEliminate exKnd (simplifyBranch exF).
Definition exG2 := blockEliminate (combineBranch exG1).
Definition exG3 := simplifyPartial exG2.
Definition exG4 := blockMerge (fun a b => Nat.eqb a 0 || Nat.eqb a b) exG3.
Example exG_shape : map fst exG1 = map fst exF /\ map fst exG2 = [0; 1; 2; 3; 7; 8]%nat /\ length exG4 = 6%nat.
Proof. vm_compute. auto. Qed.
Example exF_finishes : exists t, run (step exSem (fun _ => VUndef) exF) 30 (start exF 0%nat) = Fin (Ret (Some (VInt 3)) 3%nat) t /\ length t = 3%nat.
Proof. vm_compute. eexists. split; reflexivity. Qed.
Example exG2_finishes : exists t, run (step exSem (fun _ => VUndef) exG2) 30 (start exG2 0%nat) = Fin (Ret (Some (VInt 3)) 3%nat) t /\ length t = 3%nat.
Proof. vm_compute. eexists. split; reflexivity. Qed.
Example exF_cleanup : cleanup exKnd exF (unifyReturn false false 20 21 (forwardBranchChecked exG2))%nat.
Proof.
  apply cu_simplifyBranch. apply cu_noReturn. apply cu_combineBranch. apply cu_blockEliminate. fold exG1. fold exG2. apply cu_forwardBranch.
  apply cu_unifyReturn with (noReturn := false) (isVoid := false) (ex := 20%nat) (px := 21%nat).
  - vm_compute. intuition discriminate.
  - vm_compute. intuition discriminate.
  - assert (E : forwardBranchChecked exG2 = exG2) by (vm_compute; reflexivity). rewrite E.
    intros b bk v Hb Ht. apply get_In in Hb.
    assert (A : forallb (fun x => match trm (snd x) with TRet None => false | _ => true end) exG2 = true) by (vm_compute; reflexivity).
    rewrite forallb_forall in A. specialize (A _ Hb). cbn in A. rewrite Ht in A. destruct v; [|discriminate]. split; discriminate.
  - apply cu_done.
Qed.

(** * what does not hold *)
(** a block that ends the program by a call: after NoReturnCallEliminate it is [call exit; unreachable] *)
Definition exExit : func := [(0, Block [] [Inst 1 2 [OCst (VInt 5)]; Inst 2 3 []] TUnreach)]%nat.
Theorem C33_unreachableEliminate_refuted : wf exExit /\ ~ refines exKnd exExit (unreachableEliminate exExit).
Proof.
  split; [apply wfb_ok; vm_compute; reflexivity|]. intros H.
  destruct (H nat exSem (fun _ => VUndef) 0%nat exSem_ok) as [Hs _].
  - intros [|[|n]] t; vm_compute; discriminate.
  - apply (Hs 1%nat []). vm_compute. reflexivity.
Qed.
(** ForwardBranch as written: after the first arm of block 0 is forwarded, both arms lead to block 2; forwarding the second one then
    removes the incoming value of the first *)
Definition exFwd : func :=
  [(0, Block [] [Inst 10 4 [OArg 0; OCst (VInt 1)]] (TCond (ORes 10) 1 2));
   (1, Block [] [] (TCond (ORes 10) 2 3));
   (2, Block [Phi 11 [(0, OCst (VInt 1)); (1, OCst (VInt 1))]] [] (TCond (ORes 11) 3 4));
   (3, Block [] [] (TRet (Some (OCst (VInt 3)))));
   (4, Block [] [] (TRet (Some (OCst (VInt 4)))))]%nat.
Theorem C33_forwardBranch_refuted : wf exFwd /\ ~ wf (forwardBranch exFwd) /\ ~ refines exKnd exFwd (forwardBranch exFwd).
Proof.
  split; [apply wfb_ok; vm_compute; reflexivity|].
  assert (E : forwardBranch exFwd =
    [(0, Block [] [Inst 10 4 [OArg 0; OCst (VInt 1)]] (TCond (ORes 10) 2 3));
     (1, Block [] [] (TCond (ORes 10) 3 3));
     (2, Block [Phi 11 []] [] (TCond (ORes 11) 3 4));
     (3, Block [] [] (TRet (Some (OCst (VInt 3)))));
     (4, Block [] [] (TRet (Some (OCst (VInt 4)))))]%nat) by (vm_compute; reflexivity).
  split.
  - rewrite E. intros (_ & _ & _ & _ & W6).
    specialize (W6 2%nat (Block [Phi 11 []] [] (TCond (ORes 11) 3 4)) (Phi 11 []) 0%nat
      (Block [] [Inst 10 4 [OArg 0; OCst (VInt 1)]] (TCond (ORes 10) 2 3)) eq_refl (or_introl eq_refl) eq_refl (or_introl eq_refl)).
    apply W6. reflexivity.
  - rewrite E. intros H. destruct (H nat exSem (fun _ => VInt 0) 0%nat exSem_ok) as [Hs _].
    + intros [|[|[|[|n]]]] t; vm_compute; discriminate.
    + apply (Hs 2%nat []). vm_compute. reflexivity.
Qed.
(** with the test repeated the pass still forwards the first arm *)
Example forwardBranchChecked_example : wf exFwd /\ get 0 (forwardBranchChecked exFwd) <> get 0 exFwd.
Proof. split; [apply wfb_ok; vm_compute; reflexivity|]. vm_compute. discriminate. Qed.
(** a meaning without calls that end the program, and a function with an unreachable block that is emptied *)
Definition exQuiet : sem nat := Sem (fun o a w => match exMeaning o a w with IHalt _ => IBad | r => r end) (fun o => Nat.eqb o 2).
Example exQuiet_noHalt : forall o a w1 w2, meaning exQuiet o a w1 <> IHalt w2.
Proof. intros o a w1 w2. cbn. destruct (exMeaning o a w1); discriminate. Qed.
Example unreachableEliminate_example : unreachableEliminate exExit <> exExit.
Proof. vm_compute. discriminate. Qed.
