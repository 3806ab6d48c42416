(** C56: the theorems about BlockSort.  Specification and proofs only; nothing here models code of /repo. *)
From Coq Require Import ZArith Lia Bool List Arith Permutation Sorted.
From Verif Require Import Sim Ssa SsaCfg SsaMerge SsaWf SsaDom SsaCse CodeMotion CodeMotionProps TailStoreProps SsaProps BlockSort.
Import ListNotations.

(** ** the order of the blocks after the first does not matter *)
Lemma get_perm {A} (f g : list (nat * A)) : NoDup (map fst f) -> Permutation f g -> forall k, get k g = get k f.
Proof.
  intros N P k. assert (N' : NoDup (map fst g)) by (eapply Permutation_NoDup; [apply Permutation_map; exact P|exact N]).
  destruct (get k f) as [a|] eqn:E.
  - apply In_get; auto. eapply Permutation_in; [exact P|]. now apply get_In.
  - apply get_None. apply get_None in E. intros H. apply E. eapply Permutation_in; [apply Permutation_map, Permutation_sym; exact P|exact H].
Qed.
Section Same.
Variables f g : func.
Hypothesis He : entry g = entry f.
Hypothesis Hg : forall k, get k g = get k f.
Lemma path_same b l : path f b l -> path g b l.
Proof. induction 1 as [|b l bk t _ IH G Ht]; [rewrite <- He; apply path_entry|]. eapply path_next; eauto. now rewrite Hg. Qed.
End Same.
Lemma ssa_same f g : entry g = entry f -> (forall k, get k g = get k f) -> ssa f -> ssa g.
Proof.
  intros He Hg S. assert (Pb : forall b l, path g b l -> path f b l) by (apply path_same; auto).
  assert (Rb : forall b, reach g b -> reach f b) by (intros b [l H]; exists l; auto).
  assert (D : forall a b, dominates f a b -> dominates g a b) by (intros a b H l Hl; auto).
  assert (Df : forall x d, defIn f x d -> defIn g x d) by (intros x d (bk & G & H); exists bk; rewrite Hg; auto).
  intros b bk G R. rewrite Hg in G. destruct (S b bk G (Rb b R)) as (S1 & S2 & S3).
  assert (Av : forall pre o, opAvail (availAt f b bk pre) o -> opAvail (availAt g b bk pre) o).
  { intros pre [c|n|x]; cbn; auto. intros [(d & Hd & Hn & Hdom)|H]; [left; exists d; auto|right; auto]. }
  split; [|split].
  - intros pre i post E. eapply Forall_impl; [|exact (S1 pre i post E)]. apply Av.
  - eapply Forall_impl; [|exact S2]. apply Av.
  - intros ph p o Hp Hi Rp. specialize (S3 ph p o Hp Hi (Rb p Rp)). destruct o as [c|n|x]; cbn in *; auto. destruct S3 as (d & Hd & Hdom). exists d. auto.
Qed.
Lemma wf_perm f g : wf f -> Permutation f g -> wf g.
Proof.
  intros (W1 & (N & R) & C & P1 & P2) P. pose proof (get_perm f g N P) as G. split; [|split; [split|split; [|split]]].
  - intros ->. apply Permutation_sym, Permutation_nil in P. auto.
  - eapply Permutation_NoDup; [apply Permutation_map; exact P|exact N].
  - eapply Permutation_NoDup; [apply Permutation_flat_map; exact P|exact R].
  - intros b bk t Hb Ht. rewrite G in Hb. eapply Permutation_in; [apply Permutation_map; exact P|]. eapply C; eauto.
  - intros k bk ph p o Hk. rewrite G in Hk. intros Hp Hi. destruct (P1 k bk ph p o Hk Hp Hi) as (pb & A & B). exists pb. now rewrite G.
  - intros k bk ph p pb Hk Hp Hpp. rewrite G in Hk, Hpp. eauto.
Qed.
Lemma step_perm {W} (m : sem W) args f g : (forall k, get k g = get k f) -> forall s, step m args g s = step m args f s.
Proof. intros G s. unfold step. now rewrite G. Qed.
Lemma run_ext {S E F} (a b : S -> sres S E F) : (forall s, a s = b s) -> forall n s, run a n s = run b n s.
Proof. intros H. induction n as [|n IH]; intros s; cbn; auto. rewrite H. destruct (b s); auto. now rewrite IH. Qed.

(** ** the theorems *)
(** the weights fit into 32 bits: fewer than some 42 million blocks and cases *)
Definition smallEnough (f : func) : Prop := exists K, (0 <= K)%Z /\
  (forall b bk c cs d, get b f = Some bk -> trm bk = TSwitch c cs d -> (Z.of_nat (length cs) <= K)%Z) /\
  (101 * Z.of_nat (length f) + K + 1000300 < 2 ^ 32)%Z.
Theorem C56_first_block_stays : forall f, closed f -> smallEnough f -> exists l, blockSort f = firstn 1 f ++ l.
Proof.
  intros f Hc (K & K0 & HK & Hs). unfold blockSort. destruct (Nat.leb_spec (length f) 1).
  - exists []. rewrite app_nil_r. symmetry. now apply firstn_all2.
  - destruct f as [|[k bk] l]; [cbn in *; lia|]. cbn [firstn app]. apply sortW_head. intros y _. cbn [fst].
    change k with (entry ((k, bk) :: l)) at 2. eapply entry_least; eauto. discriminate.
Qed.
Theorem C56_same_blocks : forall f, Permutation f (blockSort f).
Proof. intros f. unfold blockSort. destruct (length f <=? 1); [auto|apply sortW_perm]. Qed.
Theorem C56_sorted : forall f, StronglySorted (fun x y => weightOf (weights f) (fst x) <= weightOf (weights f) (fst y))%Z (blockSort f).
Proof.
  intros f. unfold blockSort. destruct (Nat.leb_spec (length f) 1); [|apply sortW_sorted].
  destruct f as [|x [|y l]]; [constructor|repeat constructor|cbn in *; lia].
Qed.
(** the search visits every reachable block: its queue is empty at the end *)
Theorem C56_search_ends : forall f, f <> [] -> closed f -> smallEnough f -> (forall bk, get (entry f) f = Some bk -> trm bk <> TUnreach) ->
  snd (wbfs f (length f) [(entry f, 0%Z)] [entry f]) = [].
Proof.
  intros f Hn Hc (K & K0 & HK & Hs) NU. apply (wbfs_inv f Hc K HK Hs NU).
  - cbn [length]. destruct f; [congruence|cbn [length]; lia].
  - apply start_inv; auto.
Qed.
Lemma sort_entry f : closed f -> smallEnough f -> entry (blockSort f) = entry f.
Proof.
  intros Hc Hs. destruct f as [|[k bk] f']; [reflexivity|]. destruct (C56_first_block_stays _ Hc Hs) as [l ->]. reflexivity.
Qed.
(** every run is the run before, step for step *)
Theorem C56_same_runs_partial : forall f, wf f -> smallEnough f -> forall (W : Type) (m : sem W) (args : nat -> value) (w : W) n,
  run (step m args (blockSort f)) n (start (blockSort f) w) = run (step m args f) n (start f w).
Proof.
  intros f Hw Hs W m args w n. unfold start. rewrite sort_entry; auto; [|apply Hw]. apply run_ext, step_perm.
  apply get_perm; [apply Hw|apply C56_same_blocks].
Qed.
Theorem C56_refines_partial : forall knd f, wf f -> smallEnough f -> refines knd f (blockSort f) /\ refines knd (blockSort f) f.
Proof.
  intros knd f Hw Hs.
  assert (K : forall W (m : sem W) args w, refinesAt (step m args f) (step m args (blockSort f)) (start f w) (start (blockSort f) w) /\
     refinesAt (step m args (blockSort f)) (step m args f) (start (blockSort f) w) (start f w)).
  { intros W m args w. pose proof (C56_same_runs_partial f Hw Hs W m args w) as R. unfold refinesAt, Sim.safe, finishes, emits, diverges.
    split; intros Sf; (split; [intros n t; specialize (Sf n t); rewrite R in *; auto|]);
      (split; [intros r t; split; intros [n H]; exists n; (rewrite R || rewrite <- R); auto|]);
      (split; [intros t; split; intros (n & u & H); exists n, u; (rewrite R || rewrite <- R); auto|]);
      split; intros H n; specialize (H n); (rewrite R || rewrite <- R); auto. }
  split; intros W m args w _; apply K.
Qed.
Theorem C56_wfs : forall f, wfs f -> smallEnough f -> wfs (blockSort f).
Proof.
  intros f (Hw & S & He) Hs. assert (E : entry (blockSort f) = entry f) by (apply sort_entry; auto; apply Hw).
  assert (G : forall k, get k (blockSort f) = get k f) by (apply get_perm; [apply Hw|apply C56_same_blocks]).
  split; [eapply wf_perm; [exact Hw|apply C56_same_blocks]|]. split; [eapply ssa_same; eauto|].
  intros bk Hb. rewrite E, G in Hb. auto.
Qed.

(** examples: [if (a < b) return a; else while (1 < a) print(a); return b], with the blocks out of order, and dead code;
    opcode 1 compares, 3 prints *)
Definition bsSem : sem Z := Sem
  (fun o a w =>
     match o, a with
     | 1%nat, [VInt x; VInt y] => IOk (VInt (if Z.ltb x y then 1 else 0)) w
     | 3%nat, [VInt x] => IOk VUndef (w + x)%Z
     | _, _ => IBad
     end)
  (fun o => Nat.eqb o 3).
Definition bsf : func :=
  [(0, Block [] [Inst 1 1 [OArg 0; OArg 1]] (TCond (ORes 1) 4 2));
   (7, Block [] [] (TRet None));
   (3, Block [] [] (TRet (Some (OArg 1))));
   (5, Block [] [Inst 6 3 [OArg 0]] (TBr 2));
   (2, Block [] [Inst 3 1 [OCst (VInt 1); OArg 0]] (TSwitch (ORes 3) [(0%Z, 3)] 5));
   (4, Block [] [] (TRet (Some (OArg 0))))].
Definition bsfOut : func :=
  [(0, Block [] [Inst 1 1 [OArg 0; OArg 1]] (TCond (ORes 1) 4 2));
   (5, Block [] [Inst 6 3 [OArg 0]] (TBr 2));
   (2, Block [] [Inst 3 1 [OCst (VInt 1); OArg 0]] (TSwitch (ORes 3) [(0%Z, 3)] 5));
   (3, Block [] [] (TRet (Some (OArg 1))));
   (4, Block [] [] (TRet (Some (OArg 0))));
   (7, Block [] [] (TRet None))].
Example bsf_out : blockSort bsf = bsfOut.
Proof. vm_compute. reflexivity. Qed.
Lemma bsf_wf : wf bsf.
Proof. apply wfb_ok; vm_compute; reflexivity. Qed.
(** without the dead block *)
Definition bsf2 : func := filter (fun x => negb (Nat.eqb (fst x) 7)) bsf.
Lemma bsf2_wfs : wfs bsf2.
Proof. wfs_dec bsf2. Qed.
Lemma bsf_small : smallEnough bsf.
Proof.
  exists 1%Z. split; [lia|]. split; [|cbn; lia]. intros b bk c cs d G E. apply get_In in G. cbn in G.
  repeat (destruct G as [[= <- <-]|G]; [cbn in E; try discriminate; injection E as <- <- <-; cbn; lia|]). destruct G.
Qed.
Example bsf_same args (w : Z) n : run (step bsSem args bsfOut) n (start bsfOut w) = run (step bsSem args bsf) n (start bsf w).
Proof. rewrite <- bsf_out. apply C56_same_runs_partial; [exact bsf_wf|exact bsf_small]. Qed.
Example bsf_runs : finishes (step bsSem (fun n => VInt (Z.of_nat n)) bsfOut) (start bsfOut 0%Z) (Ret (Some (VInt 0)) 0%Z) [].
Proof. exists 2. vm_compute. reflexivity. Qed.
