(** C49: moving instructions between blocks keeps the behaviour. *)
From Coq Require Import ZArith Lia Bool List Arith.
From Verif Require Import Sim Ssa SsaCfg SsaMerge SsaFwd SsaFwd2 SsaWf SsaDom SsaProps SsaSub SsaVerify SsaEq SsaPhi SsaCse SsaDce SsaIns SsaGvn SsaMove CodeMotion DomDfs DomTree DomProps.
Import ListNotations.

(** ** CodeMove *)
(** for every function the verifier accepts, every table of trip counts and every target: if the dominance answers are right, cold covers
    unreachable code and there is no call the pass takes for an expression, the program does what it did, and is well formed *)
Theorem C49_codeMove_preserves_partial knd E f : wfs f -> domSpec E f -> noStatelessCalls knd f ->
  (forall b, In b (map fst f) -> cmHot E b = true -> reach f b) -> refines knd f (codeMove knd E f) /\ wfs (codeMove knd E f).
Proof. intros Hf HD NC HR. exact (proj1 (codeMove_good knd E f Hf HD NC HR)). Qed.
(** ** CodeSink: calls may be sunk, as code is then only run less often *)
Theorem C49_codeSink_preserves_partial knd E f : wfs f -> domSpec E f -> entryNoPred f ->
  (forall b, In b (map fst f) -> cmHot E b = true -> reach f b) -> refines knd f (codeSink knd E f) /\ wfs (codeSink knd E f).
Proof. intros Hf HD EN HR. exact (proj1 (codeSink_good knd E f Hf HD EN HR)). Qed.
(** with the dominator tree the compiler builds *)
Lemma analysis_spec E f o : wfs f -> ordersOf f o -> cmDom E = dominateQ (domAnalysis f o) -> domSpec E f.
Proof. intros ((Hn & _ & Hc & _) & _) Ho HE a b Ra Rb. rewrite HE, (C37_dominate_exact f o a b Hn Hc Ho). tauto. Qed.
Theorem C49_with_analysis_partial knd E f o : wfs f -> ordersOf f o -> cmDom E = dominateQ (domAnalysis f o) ->
  (forall b, In b (map fst f) -> cmHot E b = true -> reach f b) ->
  (noStatelessCalls knd f -> refines knd f (codeMove knd E f)) /\ (entryNoPred f -> refines knd f (codeSink knd E f)).
Proof.
  intros Hf Ho HE HR. pose proof (analysis_spec E f o Hf Ho HE) as HD. split; intros H.
  - now apply C49_codeMove_preserves_partial.
  - now apply C49_codeSink_preserves_partial.
Qed.


(** ** nothing is lost and nothing is made: the blocks, their phis and terminators, and the instructions are those of the given function *)
Theorem C49_same_code knd E f : wfs f -> domSpec E f -> (forall b, In b (map fst f) -> cmHot E b = true -> reach f b) ->
  (noStatelessCalls knd f -> sameCode f (codeMove knd E f)) /\ (entryNoPred f -> sameCode f (codeSink knd E f)).
Proof.
  intros Hf HD HR. split; intros H.
  - apply (codeMove_good knd E f Hf HD H HR).
  - apply (codeSink_good knd E f Hf HD H HR).
Qed.

(** ** examples *)
(** in the loop 1 - 2, [arg0 + arg1] and the sum of that and 7 are computed again and again *)
Definition mloop : func :=
  [(0, Block [] [] (TBr 1));
   (1, Block [Phi 1 [(0, OCst (VInt 0)); (2, ORes 5)]] [Inst 2 4 [ORes 1; OArg 0]] (TCond (ORes 2) 2 3));
   (2, Block [] [Inst 3 0 [OArg 0; OArg 1]; Inst 4 0 [ORes 3; OCst (VInt 7)]; Inst 6 2 [ORes 4]; Inst 5 0 [ORes 1; OCst (VInt 1)]] (TBr 1));
   (3, Block [] [] (TRet (Some (ORes 1))))].
Definition mE (f : func) : cmEnv := CmEnv (domb f) (fun _ => true) (fun t b => Nat.eqb t 0) (fun t b => negb (Nat.eqb t 1)) (fun _ => true).
Lemma domb_spec E f : wfs f -> cmDom E = domb f -> domSpec E f.
Proof.
  intros ((Hn & _ & Hc & _) & _) HE a b Ra Rb. rewrite HE. destruct (domb_ok f Hc Hn) as [_ D]. rewrite (D a b). tauto.
Qed.
Lemma mloop_wfs : wfs mloop.
Proof.
  assert (Hw : wf mloop) by (apply wfb_ok; vm_compute; reflexivity). split; [exact Hw|]. destruct Hw as (Hn & U & Hc & R). split.
  - apply (verify_sound (domb mloop) (rchb mloop)); [now apply domb_ok| |vm_compute; reflexivity].
    apply phiReach_all. apply (allReach_dec mloop Hc Hn). vm_compute. reflexivity.
  - intros bk [= <-]. reflexivity.
Qed.
Lemma mloop_reach b : In b (map fst mloop) -> reach mloop b.
Proof. destruct mloop_wfs as ((Hn & _ & Hc & _) & _). intros I. apply (allReach_dec mloop Hc Hn); [vm_compute; reflexivity|exact I]. Qed.
Lemma mloop_calls : noStatelessCalls exKnd mloop.
Proof.
  intros b bk i G I. apply get_In in G. cbn in G. repeat (destruct G as [G|G]; [injection G as <- <-; cbn in I; repeat (destruct I as [<-|I]; [cbn; discriminate|]); destruct I|]). destruct G.
Qed.
(** both sums leave the loop, one behind the other; [arg0] bounds the loop *)
Definition mmoved : func :=
  [(0, Block [] [Inst 3 0 [OArg 0; OArg 1]; Inst 4 0 [ORes 3; OCst (VInt 7)]] (TBr 1));
   (1, Block [Phi 1 [(0, OCst (VInt 0)); (2, ORes 5)]] [Inst 2 4 [ORes 1; OArg 0]] (TCond (ORes 2) 2 3));
   (2, Block [] [Inst 6 2 [ORes 4]; Inst 5 0 [ORes 1; OCst (VInt 1)]] (TBr 1));
   (3, Block [] [] (TRet (Some (ORes 1))))].
Example mloop_moved : codeMove exKnd (mE mloop) mloop = mmoved.
Proof. vm_compute. reflexivity. Qed.
Example mloop_same : refines exKnd mloop mmoved.
Proof.
  rewrite <- mloop_moved. refine (proj1 (C49_codeMove_preserves_partial exKnd (mE mloop) mloop mloop_wfs (domb_spec (mE mloop) mloop mloop_wfs eq_refl) mloop_calls _)).
  intros b I _. now apply mloop_reach.
Qed.
Example mloop_runs : finishes (step exSem (fun n => VInt (3 + Z.of_nat n)) mloop) (start mloop 0) (Ret (Some (VInt 3)) 3)
  [(2, [VInt 14], 0); (2, [VInt 14], 1); (2, [VInt 14], 2)]%nat.
Proof. exists 9. vm_compute. reflexivity. Qed.
(** one of the two sums is needed on the true branch only *)
Definition mdown : func :=
  [(0, Block [] [Inst 10 0 [OArg 0; OArg 1]; Inst 13 1 [ORes 10; OArg 1]; Inst 11 4 [OArg 0; OCst (VInt 3)]; Inst 12 0 [OArg 0; OCst (VInt 1)]] (TCond (ORes 11) 1 2));
   (1, Block [] [] (TRet (Some (ORes 13))));
   (2, Block [] [] (TRet (Some (ORes 12))))].
Definition msunk : func :=
  [(0, Block [] [Inst 10 0 [OArg 0; OArg 1]; Inst 11 4 [OArg 0; OCst (VInt 3)]; Inst 12 0 [OArg 0; OCst (VInt 1)]] (TCond (ORes 11) 1 2));
   (1, Block [] [Inst 13 1 [ORes 10; OArg 1]] (TRet (Some (ORes 13))));
   (2, Block [] [] (TRet (Some (ORes 12))))].
Definition mkS (f : func) : cmEnv := CmEnv (domb f) (fun _ => true) (fun _ _ => false) (fun _ _ => true) (fun _ => true).
(** even the division goes: it is run only if it was run before *)
Example mdown_sunk : codeSink exKnd (mkS mdown) mdown = msunk.
Proof. vm_compute. reflexivity. Qed.
Lemma mdown_wfs : wfs mdown.
Proof.
  assert (Hw : wf mdown) by (apply wfb_ok; vm_compute; reflexivity). split; [exact Hw|]. destruct Hw as (Hn & U & Hc & R). split.
  - apply (verify_sound (domb mdown) (rchb mdown)); [now apply domb_ok| |vm_compute; reflexivity].
    apply phiReach_all. apply (allReach_dec mdown Hc Hn). vm_compute. reflexivity.
  - intros bk [= <-]. reflexivity.
Qed.
Definition entryNoPredb (f : func) : bool := forallb (fun kb => negb (inb (entry f) (succs (trm (snd kb))))) f.
Lemma entryNoPredb_ok f : entryNoPredb f = true -> entryNoPred f.
Proof.
  unfold entryNoPredb. rewrite forallb_forall. intros H b bk G I. specialize (H (b, bk) (get_In _ _ _ G)). cbn in H. apply inb_In in I. rewrite I in H. discriminate.
Qed.
Example mdown_same : refines exKnd mdown msunk.
Proof.
  rewrite <- mdown_sunk. refine (proj1 (C49_codeSink_preserves_partial exKnd (mkS mdown) mdown mdown_wfs (domb_spec (mkS mdown) mdown mdown_wfs eq_refl) (entryNoPredb_ok mdown eq_refl) _)).
  intros b I _. destruct mdown_wfs as ((Hn & _ & Hc & _) & _). apply (allReach_dec mdown Hc Hn); [vm_compute; reflexivity|exact I].
Qed.

(** * what goes wrong *)
(** opcodes as in [exKnd], and 5: a call of a function that FunctionAttrInfer.cpp:120-155 marks NoSideEffect and Stateless, [int f(int x) {
    return 100 / x; }] *)
Definition fKnd (o : nat) : kind := if Nat.eqb o 5 then KCall true true false else exKnd o.
Definition fMeaning (o : nat) (a : list value) (w : nat) : @ires nat :=
  if Nat.eqb o 5 then match a with [VInt x] => if Z.eqb x 0 then IBad else IOk (VInt (Z.quot 100 x)) w | _ => IOk VUndef w end else exMeaning o a w.
Definition fSem : sem nat := Sem fMeaning (fun o => Nat.eqb o 2).
Lemma fSem_ok : okSem fKnd fSem.
Proof.
  pose proof exSem_ok as (A & B & C & D & E & F & G & H & I). unfold fKnd. cbn [meaning visible] in *.
  assert (T : forall o (P : kind -> Prop) (Q : (list value -> nat -> ires) -> Prop), (forall o, P (exKnd o) -> Q (exMeaning o)) ->
    (P (KCall true true false) -> Q (fMeaning 5)) -> P (if Nat.eqb o 5 then KCall true true false else exKnd o) -> Q (fMeaning o)).
  { intros o P Q H1 H2 HP. destruct (Nat.eqb_spec o 5) as [->|N]; [auto|]. specialize (H1 o HP). unfold fMeaning. rewrite (proj2 (Nat.eqb_neq o 5) N). exact H1. }
  assert (F5 : exists g, forall a w, fMeaning 5 a w = match g a with Some v => IOk v w | None => IBad end).
  { exists (fun a => match a with [VInt x] => if Z.eqb x 0 then None else Some (VInt (Z.quot 100 x)) | _ => Some VUndef end).
    intros a w. cbn. destruct a as [|[x|x|] [|? ?]]; auto. destruct (Z.eqb x 0); reflexivity. }
  repeat split.
  - intros o. apply (T o (fun k => k = KPure) (fun q => exists g, forall a w, q a w = IOk (g a) w)); [exact A|discriminate].
  - intros o. apply (T o (fun k => k = KDiv) (fun q => exists g, forall a w, q a w = match g a with Some v => IOk v w | None => IBad end)); [exact B|discriminate].
  - intros o. apply (T o (fun k => k = KDiv) (fun q => forall a z w, z <> 0%Z -> q [a; VInt z] w <> IBad)); [exact C|discriminate].
  - intros o. apply (T o (fun k => k = KLoad) (fun q => exists g, forall a w, q a w = match g a w with Some v => IOk v w | None => IBad end)); [exact D|discriminate].
  - intros o. apply (T o (fun k => k = KAlloc) (fun q => exists g, forall a w, q a w = IOk (g a) w)); [exact E|discriminate].
  - intros o st nr. apply (T o (fun k => k = KCall true st nr) (fun q => exists g, forall a w, q a w = match g a w with Some v => IOk v w | None => IBad end)); [intros o'; apply F|].
    intros _. destruct F5 as [g Hg]. exists (fun a _ => g a). exact Hg.
  - intros o nr. apply (T o (fun k => k = KCall true true nr) (fun q => exists g, forall a w, q a w = match g a with Some v => IOk v w | None => IBad end)); [intros o'; apply G|auto].
  - intros o ns st. apply (T o (fun k => k = KCall ns st true) (fun q => forall a w v w', q a w <> IOk v w')); [intros o'; apply H|discriminate].
  - intros o Ho. destruct (I o Ho) as (st & nr & K). exists st, nr. destruct (Nat.eqb_spec o 5) as [->|]; [discriminate|exact K].
Qed.
(** [while (x) print(f(x))], where the loop is left by [exit] *)
Definition mguard : func :=
  [(0, Block [] [] (TCond (OArg 0) 1 3));
   (1, Block [] [Inst 1 5 [OArg 0]; Inst 2 2 [ORes 1]; Inst 3 3 []] (TBr 1));
   (3, Block [] [] (TRet (Some (OCst (VInt 0)))))].
(** CodeMove takes the call out of the loop and past the test that guards it: with argument 0 the program now divides by zero *)
Theorem C49_hoisting_calls_refuted : exists g,
  wfs mguard /\ domSpec (mE mguard) mguard /\ (forall b, In b (map fst mguard) -> reach mguard b) /\ okSem fKnd fSem /\
  codeMove fKnd (mE mguard) mguard = g /\
  finishes (step fSem (fun _ => VInt 0) mguard) (start mguard 0) (Ret (Some (VInt 0)) 0) [] /\
  ~ Sim.safe (step fSem (fun _ => VInt 0) g) (start g 0).
Proof.
  assert (W : wfs mguard).
  { assert (Hw : wf mguard) by (apply wfb_ok; vm_compute; reflexivity). split; [exact Hw|]. destruct Hw as (Hn & U & Hc & R). split.
    - apply (verify_sound (domb mguard) (rchb mguard)); [now apply domb_ok| |vm_compute; reflexivity].
      apply phiReach_all. apply (allReach_dec mguard Hc Hn). vm_compute. reflexivity.
    - intros bk [= <-]. reflexivity. }
  eexists. split; [exact W|]. split; [apply domb_spec; [exact W|reflexivity]|]. split; [|split; [exact fSem_ok|split; [vm_compute; reflexivity|split]]].
  - intros b I. destruct W as ((Hn & _ & Hc & _) & _). apply (allReach_dec mguard Hc Hn); [vm_compute; reflexivity|exact I].
  - exists 2. vm_compute. reflexivity.
  - intros S. apply (S 1 []). vm_compute. reflexivity.
Qed.
(** the verifier allows branches to the first block, and CodeSink moves an instruction there whose uses the first block dominates, as it dominates everything:
    the first time round its operand has no value yet *)
Definition mback : func :=
  [(0, Block [] [] (TCond (OArg 0) 1 2));
   (1, Block [] [Inst 1 0 [OArg 0; OCst (VInt 1)]; Inst 2 0 [ORes 1; ORes 1]; Inst 3 2 [ORes 2]] (TCond (ORes 1) 0 2));
   (2, Block [] [] (TRet (Some (OCst (VInt 0)))))].
Theorem C49_sink_into_entry_refuted : exists g,
  wfs mback /\ domSpec (mE mback) mback /\ (forall b, In b (map fst mback) -> reach mback b) /\
  codeSink exKnd (mE mback) mback = g /\
  finishes (step exSem (fun _ => VInt 0) mback) (start mback 0) (Ret (Some (VInt 0)) 0) [] /\
  ~ Sim.safe (step exSem (fun _ => VInt 0) g) (start g 0).
Proof.
  assert (W : wfs mback).
  { assert (Hw : wf mback) by (apply wfb_ok; vm_compute; reflexivity). split; [exact Hw|]. destruct Hw as (Hn & U & Hc & R). split.
    - apply (verify_sound (domb mback) (rchb mback)); [now apply domb_ok| |vm_compute; reflexivity].
      apply phiReach_all. apply (allReach_dec mback Hc Hn). vm_compute. reflexivity.
    - intros bk [= <-]. reflexivity. }
  eexists. split; [exact W|]. split; [apply domb_spec; [exact W|reflexivity]|]. split; [|split; [vm_compute; reflexivity|split]].
  - intros b I. destruct W as ((Hn & _ & Hc & _) & _). apply (allReach_dec mback Hc Hn); [vm_compute; reflexivity|exact I].
  - exists 2. vm_compute. reflexivity.
  - intros S. apply (S 1 []). vm_compute. reflexivity.
Qed.
