(** C55: the theorems about InfiniteEliminate.  Specification and proofs only; nothing here models code of /repo. *)
From Coq Require Import ZArith Lia Bool List Arith.
From Verif Require Import Sim Ssa SsaCfg SsaMerge SsaWf SsaDom SsaCse CodeMotion CodeMotionProps TailStoreProps InfElim.
Import ListNotations.

Section Run.
Context {W : Type}.
Variable m : sem W.
Variable args : nat -> value.
Variable f : func.
Hypothesis Hw : wf f.
Notation g := (infiniteEliminate f).
Notation F := (step m args f).
Notation G := (step m args g).
Lemma kept_step s : In (cur s) (visited f) -> G s = F s.
Proof.
  intros V. unfold step. destruct (get (cur s) f) as [bk|] eqn:E.
  - destruct (result_blocks f Hw _ _ E) as (bg & A & _ & _ & _ & B). rewrite A, B; auto. unfold cutb. now rewrite (proj2 (existsb_In _ _) V).
  - destruct (get (cur s) g) as [bg|] eqn:E2; auto. destruct (result_get f Hw _ _ E2). congruence.
Qed.
(** a run that ends in a return stays among the blocks that lead to one *)
Lemma ret_visited n : forall s v w t, run F n s = Fin (Ret v w) t -> In (cur s) (visited f).
Proof.
  pose proof (proj1 (proj1 (proj2 Hw))) as N.
  induction n as [|n IH]; intros s v w t H; cbn in H; [discriminate|].
  destruct (F s) as [s' t'|r t'|t'] eqn:Es; [|injection H as -> <-|discriminate].
  - destruct (run F n s') as [| |] eqn:E'; cbn in H; try discriminate. injection H as -> <-. specialize (IH _ _ _ _ E').
    destruct (step_inv m args f s s' t' Es) as (bk & e1 & e2 & w' & A & _ & _ & B & _). eapply visited_pred; eauto. eapply runTerm_succs; eauto.
  - unfold step, Ssa.step, runBlock in Es. destruct (get (cur s) f) as [bk|] eqn:E0; [|discriminate].
    destruct (enter args (en s) (prev s) (phis bk)) as [e1|]; [|discriminate].
    destruct (runBody m args e1 (wd s) (body bk)) as [e2 w2 t2| |]; try discriminate.
    apply visited_iff; auto. destruct (trm bk) as [b|c x y|c cs d|o|] eqn:Et; try (eapply leads_ret; eauto; fail); exfalso; cbn in Es.
    + discriminate.
    + destruct (rd args e2 c) as [v0|]; [|discriminate]. destruct (truth v0) as [[|]|]; discriminate.
    + destruct (rd args e2 c) as [[z| | ]|]; discriminate.
    + discriminate.
Qed.
Lemma ret_same n : forall s v w t, run F n s = Fin (Ret v w) t -> run G n s = Fin (Ret v w) t.
Proof.
  induction n as [|n IH]; intros s v w t H; [discriminate|]. pose proof (ret_visited _ _ _ _ _ H) as V. cbn in H |- *. rewrite (kept_step s V).
  destruct (F s) as [s' t'|r t'|t']; auto. destruct (run F n s') as [| |] eqn:E'; cbn in H; try discriminate. injection H as -> <-.
  now rewrite (IH _ _ _ _ E').
Qed.
End Run.

Lemma run_fin_safe {S E F} (st : S -> sres S E F) s r t : finishes st s r t -> Sim.safe st s /\ ~ diverges st s.
Proof.
  intros [n Hn]. split.
  - intros k u Hk. destruct (le_ge_dec n k) as [L|L].
    + replace k with (n + (k - n)) in Hk by lia. rewrite run_add, Hn in Hk. discriminate.
    + replace n with (k + (n - k)) in Hn by lia. rewrite run_add, Hk in Hn. discriminate.
  - intros D. destruct (D n) as (s' & t' & K). congruence.
Qed.

(** whatever the opcodes mean: a run that ends with a return ends the same way after the pass, in as many steps: same
    value, same world, same calls, no undefined behaviour *)
Theorem C55_returns_keep_partial : forall f, wf f ->
  forall (W : Type) (m : sem W) (args : nat -> value) (w w' : W) v t,
  finishes (step m args f) (start f w) (Ret v w') t ->
  finishes (step m args (infiniteEliminate f)) (start (infiniteEliminate f) w) (Ret v w') t /\
  Sim.safe (step m args (infiniteEliminate f)) (start (infiniteEliminate f) w).
Proof.
  intros f Hw W m args w w' v t H.
  assert (K : finishes (step m args (infiniteEliminate f)) (start (infiniteEliminate f) w) (Ret v w') t).
  { destruct H as [n Hn]. exists n. unfold start. rewrite (result_entry f Hw). now apply ret_same. }
  split; auto. now apply (run_fin_safe _ _ _ _ K).
Qed.

(** so a function all of whose defined runs return, which is what the compiler assumes of every function where it uses
    the pass, behaves as before in every way *)
Definition alwaysReturns {W} (m : sem W) (args : nat -> value) (f : func) (w : W) : Prop :=
  Sim.safe (step m args f) (start f w) -> exists v w' t, finishes (step m args f) (start f w) (Ret v w') t.
Lemma emits_fin {S E F} (st : S -> sres S E F) s r t u : finishes st s r t -> (emits st s u <-> exists x, t = u ++ x).
Proof.
  intros [n Hn]. split.
  - intros (k & x & Hk). destruct (le_ge_dec n k) as [L|L].
    + replace k with (n + (k - n)) in Hk by lia. rewrite run_add, Hn in Hk. cbn in Hk. eauto.
    + replace n with (k + (n - k)) in Hn by lia. rewrite run_add in Hn. destruct (run st k s) as [s1 t1|r1 t1|t1]; cbn in Hk.
      * destruct (run st (n - k) s1) as [|r2 t2|]; cbn in Hn; try discriminate. injection Hn as _ <-. exists (x ++ t2). now rewrite app_assoc, Hk.
      * injection Hn as _ <-. eauto.
      * discriminate.
  - intros [x ->]. exists n, x. now rewrite Hn.
Qed.
Lemma fin_det {S E F} (st : S -> sres S E F) s r t r' t' : finishes st s r t -> finishes st s r' t' -> r = r' /\ t = t'.
Proof.
  assert (K : forall n k r t r' t', (n <= k)%nat -> run st n s = Fin r t -> run st k s = Fin r' t' -> r = r' /\ t = t').
  { intros n k r0 t0 r1 t1 L H1 H2. replace k with (n + (k - n)) in H2 by lia. rewrite run_add, H1 in H2. injection H2 as <- <-. auto. }
  intros [n Hn] [k Hk]. destruct (le_ge_dec n k) as [L|L]; [eapply K; eauto|]. destruct (K k n r' t' r t L Hk Hn). auto.
Qed.
Theorem C55_refines_partial : forall f, wf f -> forall (W : Type) (m : sem W) (args : nat -> value) (w : W), alwaysReturns m args f w ->
  refinesAt (step m args f) (step m args (infiniteEliminate f)) (start f w) (start (infiniteEliminate f) w).
Proof.
  intros f Hw W m args w Hr Hs. destruct (Hr Hs) as (v & w' & t & H). destruct (C55_returns_keep_partial f Hw W m args w w' v t H) as [H1 H2].
  split; auto. split; [|split].
  - intros r u. split; intros K.
    + destruct (fin_det _ _ _ _ _ _ H K) as [<- <-]. exact H1.
    + destruct (fin_det _ _ _ _ _ _ H1 K) as [<- <-]. exact H.
  - intros u. rewrite (emits_fin _ _ _ _ u H), (emits_fin _ _ _ _ u H1). tauto.
  - split; intros D; exfalso; [now apply (run_fin_safe _ _ _ _ H)|now apply (run_fin_safe _ _ _ _ H1)].
Qed.

(** on every other run the result does the same up to the first block that cannot return, runs that block's
    instructions and stops there: it never does anything else *)
Lemma rdPhis_sub args K p e l l0 : K p = false -> Forall2 (phiSub K) l l0 -> rdPhis args e p l = rdPhis args e p l0.
Proof.
  intros Kp. induction 1 as [|a b l l0 (A & _ & B) _ IH]; cbn; auto. rewrite (B p Kp), IH, A. reflexivity.
Qed.
Definition fromKept {W} (f : func) (s : st (W:=W)) : Prop := match prev s with Some p => cutb f p = false | None => True end.
Lemma cut_stepG {W} (m : sem W) args f s : wf f -> fromKept f s -> cutb f (cur s) = true ->
  let r := step m args f s in let r' := step m args (infiniteEliminate f) s in
  (forall s' t, r' <> Go s' t) /\ (r' = r \/ r' = Bad (traceOf r)).
Proof.
  intros Hw Hp Hc. cbn. unfold step. destruct (get (cur s) f) as [bk|] eqn:E.
  - destruct (result_blocks f Hw _ _ E) as (bg & A & B & C & D & _). rewrite A. rewrite Hc in C. unfold runBlock. rewrite B, C.
    replace (enter args (en s) (prev s) (phis bg)) with (enter args (en s) (prev s) (phis bk)).
    + destruct (enter args (en s) (prev s) (phis bk)) as [e1|]; [|split; [discriminate|auto]].
      destruct (runBody m args e1 (wd s) (body bk)) as [e2 w2 t2| |]; try (split; [discriminate|auto; fail]). cbn. split; [discriminate|]. right.
      destruct (runTerm args e2 (trm bk)) as [| |]; reflexivity.
    + unfold enter, fromKept in *. destruct (prev s) as [p|].
      * symmetry. f_equal. now apply (rdPhis_sub args (cutb f)).
      * destruct D; reflexivity.
  - destruct (get (cur s) (infiniteEliminate f)) as [bg|] eqn:E2.
    + destruct (result_get f Hw _ _ E2). congruence.
    + split; [discriminate|auto].
Qed.
Theorem C55_nothing_else : forall f, wf f ->
  forall (W : Type) (m : sem W) (args : nat -> value) (w : W) n,
  let r := run (step m args f) n (start f w) in
  let r' := run (step m args (infiniteEliminate f)) n (start (infiniteEliminate f) w) in
  r' = r \/ exists t u, r' = Bad t /\ traceOf r = t ++ u.
Proof.
  intros f Hw W m args w n. cbn. unfold start. rewrite (result_entry f Hw). fold (start f w).
  assert (K : fromKept f (start f w)) by exact I. revert K. generalize (start f w). clear w.
  induction n as [|n IH]; intros s K; [now left|]. cbn.
  destruct (cutb f (cur s)) eqn:Ec.
  - destruct (cut_stepG m args f s Hw K Ec) as [A [B|B]]; rewrite B.
    + destruct (step m args f s) as [s' t'| |]; [now destruct (A s' t')|now left|now left].
    + right. exists (traceOf (step m args f s)). destruct (step m args f s) as [s' t'|r t'|t']; cbn.
      * exists (traceOf (run (step m args f) n s')). split; auto. now destruct (run (step m args f) n s').
      * exists []. now rewrite app_nil_r.
      * exists []. now rewrite app_nil_r.
  - rewrite (kept_step m args f Hw s).
    + destruct (step m args f s) as [s' t'|r t'|t'] eqn:Es; auto.
      assert (K' : fromKept f s').
      { destruct (step_inv m args f s s' t' Es) as (bk & e1 & e2 & w' & _ & _ & _ & _ & E). rewrite E. exact Ec. }
      destruct (IH s' K') as [->|(t & u & -> & E)]; [now left|]. right. exists (t' ++ t), u. split; auto.
      destruct (run (step m args f) n s'); cbn in E |- *; rewrite E; now rewrite app_assoc.
    + unfold cutb in Ec. apply negb_false_iff in Ec. now apply existsb_In.
Qed.

(** which blocks: those from which no return can be reached, and no others; they keep their instructions *)
Theorem C55_cut_iff : forall f b bk, wf f -> get b f = Some bk -> exists bg, get b (infiniteEliminate f) = Some bg /\ body bg = body bk /\
  map pdst (phis bg) = map pdst (phis bk) /\ (leads f b -> bg = bk) /\ (~ leads f b -> trm bg = TUnreach).
Proof.
  intros f b bk Hw E. destruct (result_blocks f Hw _ _ E) as (bg & A & B & C & D & F). exists bg. split; auto. split; auto. split; [now apply phisSub_pdst in D|].
  pose proof (visited_iff f (proj1 (proj1 (proj2 Hw))) b) as V. split; intros L.
  - apply F. unfold cutb. apply negb_false_iff, existsb_In. tauto.
  - rewrite C. unfold cutb. replace (existsb (Nat.eqb b) (visited f)) with false; [reflexivity|]. symmetry. apply existsb_nIn. tauto.
Qed.
Theorem C55_wf : forall f, wf f -> wf (infiniteEliminate f) /\ map fst (infiniteEliminate f) = map fst f.
Proof. intros f Hw. now apply result_wf. Qed.

(** values stay defined before use *)
Section Keep.
Variable f : func.
Hypothesis Hw : wf f.
Notation g := (infiniteEliminate f).
Lemma path_back b l : path g b l -> path f b l.
Proof.
  induction 1 as [|b l bk t _ IH Hb Ht]; [rewrite (result_entry f Hw); apply path_entry|].
  destruct (result_get f Hw _ _ Hb) as [b0 H0]. destruct (result_blocks f Hw _ _ H0) as (bg & A & _ & C & _). assert (bg = bk) by congruence. subst bg.
  rewrite C in Ht. destruct (cutb f b); [destruct Ht|]. eapply path_next; eauto.
Qed.
Lemma reach_back b : reach g b -> reach f b.
Proof. intros [l H]. exists l. now apply path_back. Qed.
Lemma dom_fwd a b : dominates f a b -> dominates g a b.
Proof. intros H l Hl. apply H. now apply path_back. Qed.
Lemma defIn_fwd x d : defIn f x d -> defIn g x d.
Proof.
  intros (bk & G & Hx). destruct (result_blocks f Hw _ _ G) as (bg & A & B & _ & D & _). exists bg. split; auto. unfold resultsOf in *.
  rewrite B, (phisSub_pdst _ _ _ D). exact Hx.
Qed.
Theorem result_ssa : ssa f -> ssa g.
Proof.
  intros S b bg Hb R. destruct (result_get f Hw _ _ Hb) as [bk G]. destruct (result_blocks f Hw _ _ G) as (bg' & A & B & C & D & E).
  assert (bg' = bg) by congruence. subst bg'. destruct (S b bk G (reach_back _ R)) as (S1 & S2 & S3).
  assert (Av : forall pre o, opAvail (availAt f b bk pre) o -> opAvail (availAt g b bg pre) o).
  { intros pre [c|n|x]; cbn; auto. intros [(d & Hd & Hn & Hdom)|[H|H]]; [left; exists d; auto using defIn_fwd, dom_fwd| |right; right; auto].
    right; left. now rewrite (phisSub_pdst _ _ _ D). }
  split; [|split].
  - intros pre i post Hp. rewrite B in Hp. eapply Forall_impl; [|exact (S1 pre i post Hp)]. apply Av.
  - rewrite C. destruct (cutb f b); [constructor|]. rewrite B. eapply Forall_impl; [|exact S2]. apply Av.
  - intros ph p o Hp Hi Rp. destruct (phisSub_In _ _ _ D ph Hp) as (ph0 & H0 & _ & H1 & _). pose proof (S3 ph0 p o H0 (H1 _ Hi) (reach_back _ Rp)) as K.
    destruct o as [c|n|x]; cbn in *; auto. destruct K as (d & Hd & Hdom). exists d. auto using defIn_fwd, dom_fwd.
Qed.
End Keep.
Theorem C55_wfs : forall f, wfs f -> wfs (infiniteEliminate f).
Proof.
  intros f (Hw & S & He). split; [now apply result_wf|]. split; [now apply result_ssa|].
  intros bg Hb. rewrite (result_entry f Hw) in Hb. destruct (result_get f Hw _ _ Hb) as [bk G]. specialize (He bk G).
  destruct (result_blocks f Hw _ _ G) as (bg' & A & _ & _ & D & _). assert (bg' = bg) by congruence. subst bg'. rewrite He in D. now inversion D.
Qed.

(** a second run finds nothing to do *)
Lemma fold_id {A B} (h : A -> B -> A) l a : (forall b, In b l -> h a b = a) -> fold_left h l a = a.
Proof. induction l as [|b l IH]; intros H; cbn; auto. rewrite (H b (or_introl eq_refl)). apply IH. intros c Hc. apply H. now right. Qed.
Theorem C55_all_return_same : forall f, wf f ->
  (forall b bk, get b f = Some bk -> leads f b \/ trm bk = TUnreach) -> infiniteEliminate f = f.
Proof.
  intros f Hw H. unfold infiniteEliminate. apply fold_id. intros b Hb. destruct (In_get_ex f b Hb) as [bk G]. destruct (H b bk G) as [L|E].
  - apply (visited_iff f (proj1 (proj1 (proj2 Hw)))) in L. now rewrite (proj2 (existsb_In _ _) L).
  - destruct (existsb _ _); auto. unfold cutOne. now rewrite G, E.
Qed.
Lemma leads_fwd f b : wf f -> leads f b -> leads (infiniteEliminate f) b.
Proof.
  intros Hw L. induction L as [b bk o G E|b bk t G Ht L IH].
  - assert (L : leads f b) by (eapply leads_ret; eauto). destruct (C55_cut_iff f b bk Hw G) as (bg & A & _ & _ & B & _). rewrite (B L) in A. eapply leads_ret; eauto.
  - assert (L' : leads f b) by (eapply leads_next; eauto). destruct (C55_cut_iff f b bk Hw G) as (bg & A & _ & _ & B & _). rewrite (B L') in A. eapply leads_next; eauto.
Qed.
Theorem C55_idempotent : forall f, wf f -> infiniteEliminate (infiniteEliminate f) = infiniteEliminate f.
Proof.
  intros f Hw. apply C55_all_return_same; [now apply result_wf|]. intros b bg Hb. destruct (result_get f Hw _ _ Hb) as [bk G].
  destruct (result_blocks f Hw _ _ G) as (bg' & A & _ & C & _). assert (bg' = bg) by congruence. subst bg'.
  destruct (cutb f b) eqn:E; [now right|]. left. apply leads_fwd; auto. apply (visited_iff f (proj1 (proj1 (proj2 Hw)))).
  unfold cutb in E. apply negb_false_iff in E. now apply existsb_In.
Qed.

(** examples: opcode 1 compares, 2 adds, 3 prints, 4 ends the program *)
Definition ieSem : sem Z := Sem
  (fun o a w =>
     match o, a with
     | 1%nat, [VInt x; VInt y] => IOk (VInt (if Z.ltb x y then 1 else 0)) w
     | 2%nat, [VInt x; VInt y] => IOk (VInt (x + y)) w
     | 3%nat, [VInt x] => IOk VUndef (w + x)%Z
     | 4%nat, [] => IHalt w
     | _, _ => IBad
     end)
  (fun o => Nat.eqb o 3).
Definition ieKnd (o : nat) : kind := KCall false false false.
Lemma ieSem_ok : okSem ieKnd ieSem.
Proof. unfold okSem, ieKnd. repeat split; intros; try discriminate. eauto. Qed.
(** [if (a < b) return a; else for (i = 5;;) { print(i); i += b; }] *)
Definition ief : func :=
  [(0, Block [] [Inst 1 1 [OArg 0; OArg 1]] (TCond (ORes 1) 1 2));
   (1, Block [] [] (TRet (Some (OArg 0))));
   (2, Block [] [] (TBr 3));
   (3, Block [Phi 3 [(2, OCst (VInt 5)); (3, ORes 4)]] [Inst 5 3 [ORes 3]; Inst 4 2 [ORes 3; OArg 1]] (TBr 3))].
Definition iefOut : func :=
  [(0, Block [] [Inst 1 1 [OArg 0; OArg 1]] (TCond (ORes 1) 1 2));
   (1, Block [] [] (TRet (Some (OArg 0))));
   (2, Block [] [] TUnreach);
   (3, Block [Phi 3 []] [Inst 5 3 [ORes 3]; Inst 4 2 [ORes 3; OArg 1]] TUnreach)].
Example ief_out : infiniteEliminate ief = iefOut.
Proof. vm_compute. reflexivity. Qed.
Lemma ief_wfs : wfs ief.
Proof. wfs_dec ief. Qed.
Example ief_returns : finishes (step ieSem (fun n => VInt (Z.of_nat n)) iefOut) (start iefOut 0%Z) (Ret (Some (VInt 0)) 0%Z) [].
Proof.
  pose proof (C55_returns_keep_partial ief (proj1 ief_wfs) Z ieSem (fun n => VInt (Z.of_nat n)) 0%Z 0%Z (Some (VInt 0)) []) as H.
  rewrite ief_out in H. apply H. exists 2. vm_compute. reflexivity.
Qed.
Example ief_always : alwaysReturns ieSem (fun n => VInt (Z.of_nat n)) ief 0%Z.
Proof. intros _. exists (Some (VInt 0)), 0%Z, []. exists 2. vm_compute. reflexivity. Qed.
Example ief_leads : leads ief 0 /\ ~ leads ief 2.
Proof.
  pose proof (fun b => visited_iff ief (proj1 (proj1 (proj2 (proj1 ief_wfs)))) b) as V. rewrite <- !V. vm_compute. split; auto. intros K; intuition discriminate.
Qed.

(** a program that prints for ever is defined, and its result is not: it must be assumed that functions return *)
Lemma ief_never : let args := fun n => VInt (- Z.of_nat n) in
  forall n (s : st), cur s = 3 -> (exists z, prev s = Some 2 \/ (prev s = Some 3 /\ en s 4 = Some (VInt z))) -> exists s' t, run (step ieSem args ief) n s = Go s' t.
Proof.
  intros args. induction n as [|n IH]; intros s Hc Hp; [cbn; eauto|].
  assert (K : exists s' t z, step ieSem args ief s = Go s' t /\ cur s' = 3 /\ prev s' = Some 3 /\ en s' 4 = Some (VInt z)).
  { unfold step. rewrite Hc. cbn [get ief Nat.eqb]. unfold runBlock. cbn [phis body trm]. destruct Hp as (z & [->|[-> E]]).
    - do 3 eexists. cbn. repeat split.
    - cbn. rewrite E. cbn. do 3 eexists. repeat split. }
  destruct K as (s' & t & z & E & K1 & K2 & K3). destruct (IH s' K1) as (s2 & t2 & E2); [exists z; auto|].
  cbn. rewrite E, E2. cbn. eauto.
Qed.
Theorem C55_forever_refuted : exists f knd, wfs f /\ ~ refines knd f (infiniteEliminate f) /\
  exists args, okSem knd ieSem /\ diverges (step ieSem args f) (start f 0%Z) /\ emits (step ieSem args f) (start f 0%Z) [(3, [VInt 5], 0%Z)] /\
    exists t, run (step ieSem args (infiniteEliminate f)) 2 (start (infiniteEliminate f) 0%Z) = Bad t.
Proof.
  exists ief, ieKnd. split; [exact ief_wfs|].
  assert (D : diverges (step ieSem (fun n => VInt (- Z.of_nat n)) ief) (start ief 0%Z)).
  { intros n. destruct n as [|[|n]]; [cbn; eauto|cbn; eauto|]. change (S (S n)) with (2 + n). rewrite run_add.
    destruct (run (step ieSem (fun k => VInt (- Z.of_nat k)) ief) 2 (start ief 0%Z)) as [s t| |] eqn:E; try (vm_compute in E; discriminate).
    assert (Ks : cur s = 3 /\ prev s = Some 2) by (cbn in E; injection E as <- <-; auto).
    destruct (ief_never n s (proj1 Ks)) as (s' & t' & ->); [exists 0%Z; left; tauto|]. cbn. eauto. }
  assert (B : run (step ieSem (fun n => VInt (- Z.of_nat n)) (infiniteEliminate ief)) 2 (start (infiniteEliminate ief) 0%Z) = Bad []).
  { rewrite ief_out. vm_compute. reflexivity. }
  split.
  - intros R. destruct (R Z ieSem (fun n => VInt (- Z.of_nat n)) 0%Z ieSem_ok) as [Sf _].
    + intros n t K. destruct (D n) as (s' & t' & K'). congruence.
    + exact (Sf 2 [] B).
  - exists (fun n => VInt (- Z.of_nat n)). split; [exact ieSem_ok|]. split; [exact D|]. split; [|eauto].
    exists 3, []. vm_compute. reflexivity.
Qed.
(** so is a program that ends in a call that does not come back, if that call is not in the block itself *)
Definition iex : func :=
  [(0, Block [] [Inst 1 3 [OArg 0]] (TBr 1));
   (1, Block [] [Inst 2 4 []] TUnreach)].
Theorem C55_exit_refuted : exists f knd, wfs f /\ okSem knd ieSem /\ forall x, exists t,
  finishes (step ieSem (fun _ => VInt x) f) (start f 0%Z) (Exit x) t /\
  run (step ieSem (fun _ => VInt x) (infiniteEliminate f)) 1 (start (infiniteEliminate f) 0%Z) = Bad t.
Proof.
  exists iex, ieKnd. split; [wfs_dec iex|]. split; [exact ieSem_ok|]. intros x. exists [(3, [VInt x], 0%Z)]. split; [exists 2; reflexivity|reflexivity].
Qed.
