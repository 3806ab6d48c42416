(** Instructions that do not clash can be exchanged; a schedule keeps what the block does. *)
From Coq Require Import ZArith Lia Bool List Arith Permutation Sorting.
From Verif Require Import GMir RaMir RaLive RaColor RaSpillSim Sched SchedTop.
Import ListNotations.

Lemma fop_mid {A} (R : A -> A -> Prop) x a y : ForallOrdPairs R (x ++ a :: y) -> ForallOrdPairs R (x ++ y) /\ forall b, In b x -> R b a.
Proof.
  induction x as [|b x IH]; cbn; intros H; inversion H as [|? ? F O]; subst.
  - split; [exact O|intros b []].
  - destruct (IH O) as [IA IB]. split.
    + constructor; [|exact IA]. rewrite Forall_forall in *. intros c Hc. apply F. rewrite in_app_iff in *. cbn. tauto.
    + intros c [<-|Hc]; [|auto]. rewrite Forall_forall in F. apply F. rewrite in_app_iff. cbn. tauto.
Qed.

Section Sim.
Context {W : Type}.
Variable t : mach W.
Variables sideF ordF : nat -> bool.
Variable sp : nat.

(** What the flags of a target have to mean.  The instructions that touch what is not an operand carry the flags for it:
    a call and an instruction that reads registers besides its operands is kept in order, an instruction without a side
    effect neither changes nor reads the world, and the accesses to spill slots count as memory accesses. *)
Record schedTarget : Prop := {
  sg_call : forall o, callF t o = true -> sideF o = true /\ ordF o = true;
  sg_rd : forall o l, rdo t o l <> [] -> sideF o = true /\ ordF o = true;
  sg_ld : ofl t opcLdStk = [FDef; FMeta] /\ sideF opcLdStk = true;
  sg_st : ofl t opcStStk = [FUse; FMeta] /\ sideF opcStStk = true;
  sg_pure : forall o a r w w', sideF o = false -> outW t o a r w = w /\ outDef t o a r w = outDef t o a r w' }.
Hypothesis T : schedTarget.

Definition req (s s' : rst W) : Prop :=
  (forall r, RG s r = RG s' r) /\ (forall k, SL s k = SL s' k) /\ WD s = WD s'.
Lemma req_refl s : req s s. Proof. repeat split. Qed.
Lemma req_sym s s' : req s s' -> req s' s.
Proof. intros (A & B & C). split; [auto|]. split; [auto|congruence]. Qed.
Lemma req_trans a b c : req a b -> req b c -> req a c.
Proof. intros (A & B & C) (A' & B' & C'). split; [intros; now rewrite A|]. split; [intros; now rewrite B|congruence]. Qed.

Lemma rargs_on g g' i : (forall r, In r (ruses t i) -> g r = g' r) -> rargs t g i = rargs t g' i.
Proof.
  intros H. unfold rargs. apply map_ext_in. intros [f o] Hx. destruct f; cbn; try reflexivity.
  destruct o as [r|z|k|k]; cbn; try reflexivity. f_equal. apply H. unfold ruses. apply in_flat_map.
  exists (FUse, OReg r). split; [exact Hx|now left].
Qed.
Lemma wrAll_on ds : forall g g' f k r, In r ds -> wrAll g ds f k r = wrAll g' ds f k r.
Proof. intros g g' f k r H. apply (wrAll_agree (fun _ => False)); [intros ? []|now right]. Qed.
Lemma rexec_req i s s' : req s s' -> req (fst (rexec t i s)) (fst (rexec t i s')) /\ snd (rexec t i s) = snd (rexec t i s').
Proof.
  intros (A & B & C). unfold rexec. rewrite (rargs_on (RG s) (RG s') i) by auto.
  assert (E : map (fun n => RG s (Phys n)) (rd t i) = map (fun n => RG s' (Phys n)) (rd t i)) by (apply map_ext; auto).
  rewrite E, C. destruct (stkLoad i) as [[x k]|]; [|destruct (stkStore i) as [[x k]|]]; cbn [fst snd].
  - split; [|reflexivity]. split; [|split; [exact B|reflexivity]]. intros r. cbn. unfold wr. rewrite B. now destruct (reg_eqb r x).
  - split; [|reflexivity]. split; [exact A|]. split; [|reflexivity]. intros j. cbn. rewrite A, B. reflexivity.
  - split; [|reflexivity]. split; [|split; [exact B|reflexivity]]. intros r. cbn.
    apply (wrAll_agree All); [|left; exact Logic.I]. intros x _. unfold clobber. destruct x; [|apply A]. now rewrite A.
Qed.
Lemma rrunB_req l : forall s s' d, req s s' -> req (fst (rrunB t l s d)) (fst (rrunB t l s' d)) /\
  snd (rrunB t l s d) = snd (rrunB t l s' d).
Proof.
  induction l as [|i l IH]; intros s s' d H; cbn; [auto|].
  destruct (rexec_req i s s' H) as [A B]. destruct (rexec t i s) as [u e], (rexec t i s') as [u' e']. cbn in A, B. subst e'.
  now apply IH.
Qed.
Definition ex (i : inst) (s : rst W) : rst W := fst (rexec t i s).
Definition run (l : list inst) (s : rst W) : rst W := fold_left (fun s i => ex i s) l s.
Lemma run_rrunB l : forall s d, fst (rrunB t l s d) = run l s.
Proof.
  induction l as [|i l IH]; intros s d; cbn; [reflexivity|]. unfold ex. destruct (rexec t i s) as [u e]. apply IH.
Qed.
Lemma ex_req i s s' : req s s' -> req (ex i s) (ex i s').
Proof. intros H. apply (rexec_req i s s' H). Qed.
Lemma run_req l : forall s s', req s s' -> req (run l s) (run l s').
Proof. induction l as [|i l IH]; intros s s' H; cbn; [exact H|]. now apply IH, ex_req. Qed.
Lemma run_app l1 l2 s : run (l1 ++ l2) s = run l2 (run l1 s).
Proof. apply fold_left_app. Qed.

Lemma uses_in i r : In r (ruses t i) -> In r (suses t sp i).
Proof.
  unfold ruses, suses. rewrite !in_flat_map. intros ([f o] & H & X). exists (f, o). split; [exact H|].
  destruct f, o; cbn in *; tauto.
Qed.
Lemma defs_in i r : In r (rdefs t i) -> In r (sdefs t sp i).
Proof.
  unfold rdefs, sdefs. rewrite !in_flat_map. intros ([f o] & H & X). exists (f, o). split; [exact H|].
  destruct f, o; cbn in *; tauto.
Qed.

(** ** what an instruction that is not kept in order reads and changes *)
Definition free (i : inst) : Prop := isOrd sideF ordF i = false.
Lemma free_call i : free i -> callF t (opc i) = false.
Proof using T.
  intros H. destruct (callF t (opc i)) eqn:E; [|reflexivity]. destruct (sg_call T _ E) as [A B].
  unfold free, isOrd in H. rewrite A, B in H. discriminate.
Qed.
Lemma free_rd i : free i -> rd t i = [].
Proof using T.
  intros H. unfold rd. destruct (rdo t (opc i) (map blank (ops i))) as [|x l] eqn:E; [reflexivity|].
  destruct (sg_rd T (opc i) (map blank (ops i))) as [A B]; [rewrite E; discriminate|].
  unfold free, isOrd in H. rewrite A, B in H. discriminate.
Qed.
Lemma free_clob i g f r : free i -> clobber g (clob t i) f r = g r.
Proof using T. intros H. unfold clob. rewrite (free_call i H). destruct r; reflexivity. Qed.
Lemma frame i s r : free i -> ~ In r (rdefs t i) -> RG (ex i s) r = RG s r.
Proof using T.
  intros H N. unfold ex, rexec. destruct (stkLoad i) as [[x k]|] eqn:El; [|destruct (stkStore i) as [[x k]|] eqn:Es].
  - destruct (load_defs t (proj1 (sg_ld T)) i x k El) as [D _]. cbn. apply wr_ne. rewrite D in N. intros ->. apply N. now left.
  - reflexivity.
  - cbn. rewrite wrAll_other by exact N. now apply free_clob.
Qed.
Lemma determined i s s' : free i -> (forall r, In r (ruses t i) -> RG s r = RG s' r) -> (forall k, SL s k = SL s' k) ->
  WD s = WD s' -> (forall r, In r (rdefs t i) -> RG (ex i s) r = RG (ex i s') r) /\
  (forall k, SL (ex i s) k = SL (ex i s') k) /\ WD (ex i s) = WD (ex i s').
Proof using T.
  intros H A B C. unfold ex, rexec. rewrite (rargs_on (RG s) (RG s') i A), (free_rd i H), C. cbn [map].
  destruct (stkLoad i) as [[x k]|] eqn:El; [|destruct (stkStore i) as [[x k]|] eqn:Es]; cbn.
  - split; [|auto]. intros r Hr. destruct (load_defs t (proj1 (sg_ld T)) i x k El) as [D _]. rewrite D in Hr.
    destruct Hr as [<-|[]]. rewrite !wr_same. apply B.
  - destruct (store_uses t (proj1 (sg_st T)) i x k Es) as [U D]. split; [intros r Hr; rewrite D in Hr; destruct Hr|].
    split; [|reflexivity]. intros j. rewrite (A x) by (rewrite U; now left). rewrite B. reflexivity.
  - split; [|split; [exact B|reflexivity]]. intros r Hr. now apply wrAll_on.
Qed.
(** ... and if it has no side effect *)
Lemma pure_frame i s : sideF (opc i) = false -> (forall k, SL (ex i s) k = SL s k) /\ WD (ex i s) = WD s.
Proof using T.
  intros H. unfold ex, rexec. destruct (stkLoad i) as [[x k]|] eqn:El; [|destruct (stkStore i) as [[x k]|] eqn:Es]; cbn.
  - auto.
  - exfalso. unfold stkStore in Es. destruct (Nat.eqb_spec (opc i) opcStStk) as [E|]; [|discriminate].
    pose proof (proj2 (sg_st T)). congruence.
  - split; [reflexivity|]. apply (sg_pure T); [exact (WD s)|exact H].
Qed.
Lemma pure_determined i s s' : sideF (opc i) = false -> (forall r, In r (ruses t i) -> RG s r = RG s' r) ->
  forall r, In r (rdefs t i) -> RG (ex i s) r = RG (ex i s') r.
Proof using T.
  intros H A r Hr. assert (F : free i) by (unfold free, isOrd; now rewrite H).
  unfold ex, rexec. rewrite (rargs_on (RG s) (RG s') i A), (free_rd i F). cbn [map].
  destruct (stkLoad i) as [[x k]|] eqn:El; [|destruct (stkStore i) as [[x k]|] eqn:Es]; cbn.
  - exfalso. unfold stkLoad in El. destruct (Nat.eqb_spec (opc i) opcLdStk) as [E|]; [|discriminate].
    pose proof (proj2 (sg_ld T)). congruence.
  - exfalso. unfold stkStore in Es. destruct (Nat.eqb_spec (opc i) opcStStk) as [E|]; [|discriminate].
    pose proof (proj2 (sg_st T)). congruence.
  - rewrite (proj2 (sg_pure T (opc i) (rargs t (RG s') i) [] (WD s) (WD s') H)). now apply wrAll_on.
Qed.

Notation clash := (clash t sideF ordF sp).
Lemma clash_sym i j : clash i j -> clash j i.
Proof.
  intros [[A B]|[A|[A|(r & [[A [B|B]]|[A B]])]]]; unfold Sched.clash; [auto|auto|auto| | |].
  - right. right. right. exists r. auto.
  - right. right. right. exists r. auto.
  - right. right. right. exists r. auto.
Qed.
Lemma commute_pure i j s : ~ clash i j -> sideF (opc i) = false -> req (ex j (ex i s)) (ex i (ex j s)).
Proof using T.
  intros N Hi.
  assert (Fi : free i) by (unfold free, isOrd; now rewrite Hi).
  assert (Fj : free j).
  { unfold free. destruct (isOrd sideF ordF j) eqn:E; [|reflexivity]. destruct N. unfold Sched.clash. auto. }
  assert (Nr : forall r, ~ ((In r (rdefs t i) /\ (In r (ruses t j) \/ In r (rdefs t j))) \/ (In r (ruses t i) /\ In r (rdefs t j)))).
  { intros r X. apply N. right. right. right. exists r. destruct X as [[X [Y|Y]]|[X Y]].
    - left. split; [now apply defs_in|left; now apply uses_in].
    - left. split; [now apply defs_in|right; now apply defs_in].
    - right. split; [now apply uses_in|now apply defs_in]. }
  destruct (pure_frame i s Hi) as [Si Wi]. destruct (pure_frame i (ex j s) Hi) as [Sij Wij].
  assert (Uj : forall r, In r (ruses t j) -> RG (ex i s) r = RG s r).
  { intros r Hr. apply frame; [exact Fi|]. intros X. apply (Nr r). tauto. }
  destruct (determined j (ex i s) s Fj Uj Si Wi) as (Dj & Sj & Wj).
  split; [|split].
  - intros r. destruct (in_dec reg_dec r (rdefs t i)) as [Hr|Hr].
    + rewrite (frame j (ex i s) r Fj) by (intros X; apply (Nr r); tauto).
      apply (pure_determined i s (ex j s) Hi); [|exact Hr]. intros x Hx. symmetry. apply frame; [exact Fj|].
      intros X. apply (Nr x). tauto.
    + rewrite (frame i (ex j s) r Fi Hr). destruct (in_dec reg_dec r (rdefs t j)) as [Hj|Hj]; [now apply Dj|].
      rewrite (frame j (ex i s) r Fj Hj), (frame j s r Fj Hj). now apply frame.
  - intros k. rewrite Sj, Sij. reflexivity.
  - congruence.
Qed.
Lemma commute i j s : ~ clash i j -> req (ex j (ex i s)) (ex i (ex j s)).
Proof using T.
  intros N. destruct (sideF (opc i)) eqn:Hi; [|now apply commute_pure].
  destruct (sideF (opc j)) eqn:Hj; [destruct N; unfold Sched.clash; auto|].
  apply req_sym, commute_pure; [|exact Hj]. intros X. apply N, clash_sym, X.
Qed.

(** ** reordering *)
Definition num := (nat * inst)%type.
Definition code (l : list num) : list inst := map snd l.
Lemma move x a y s : (forall b, In b x -> ~ clash (snd b) (snd a)) -> req (run (code (x ++ a :: y)) s) (run (code (a :: x ++ y)) s).
Proof using T.
  revert s. induction x as [|b x IH]; intros s N; cbn.
  - apply req_refl.
  - eapply req_trans.
    + apply (IH (ex (snd b) s)). intros c Hc. apply N. now right.
    + cbn. apply run_req. apply commute. apply N. now left.
Qed.
Variable pos : nat -> nat.
Definition before (a b : num) : Prop := pos (fst a) < pos (fst b).
Definition keeps (a b : num) : Prop := clash (snd a) (snd b) -> before a b.
Lemma reorder_run l' : forall l, StronglySorted before l' -> Permutation l' l -> ForallOrdPairs keeps l ->
  forall s, req (run (code l') s) (run (code l) s).
Proof using T.
  induction l' as [|a l' IH]; intros l S P O s.
  - apply Permutation_nil in P. subst. apply req_refl.
  - assert (Ha : In a l) by (eapply Permutation_in; [exact P|now left]). apply in_split in Ha as (x & y & ->).
    destruct (fop_mid (keeps) x a y O) as [O' K]. apply Permutation_cons_app_inv in P.
    inversion S as [|? ? S1 S2]; subst. eapply req_trans.
    + cbn. apply (IH (x ++ y) S1 P O').
    + apply req_sym, move. intros b Hb Cl. specialize (K b Hb Cl). rewrite Forall_forall in S2.
      assert (Hb' : In b l') by (eapply Permutation_in; [symmetry; exact P|apply in_app_iff; now left]).
      specialize (S2 b Hb'). unfold before in *. lia.
Qed.
End Sim.

(* ------------------------------------------------------------------ *)
(** * A block *)
Fixpoint posOf (l : list nat) (k : nat) : nat :=
  match l with [] => 0 | x :: r => if Nat.eqb x k then 0 else S (posOf r k) end.
Lemma posOf_in l k : In k l -> posOf l k < length l.
Proof.
  induction l as [|x l IH]; cbn; [intros []|]. destruct (Nat.eqb_spec x k); [lia|]. intros [H|H]; [contradiction|].
  specialize (IH H). lia.
Qed.
Lemma posOf_app_in a b k : In k a -> posOf (a ++ b) k = posOf a k.
Proof.
  induction a as [|x a IH]; cbn; [intros []|]. destruct (Nat.eqb_spec x k); [reflexivity|]. intros [H|H]; [contradiction|].
  f_equal. auto.
Qed.
Lemma posOf_app_out a b k : ~ In k a -> posOf (a ++ b) k = length a + posOf b k.
Proof.
  induction a as [|x a IH]; cbn; [reflexivity|]. destruct (Nat.eqb_spec x k) as [->|]; [intros H; destruct H; now left|].
  intros H. f_equal. apply IH. tauto.
Qed.
Lemma posOf_split a u b v : NoDup (a ++ u :: b) -> In v a -> posOf (a ++ u :: b) v < posOf (a ++ u :: b) u.
Proof.
  intros N H. rewrite posOf_app_in by exact H. rewrite posOf_app_out.
  - pose proof (posOf_in a v H). lia.
  - intros X. apply NoDup_remove_2 in N. apply N. rewrite in_app_iff. now left.
Qed.
Lemma sorted_pos l : NoDup l -> StronglySorted (fun a b => posOf l a < posOf l b) l.
Proof.
  assert (G : forall r p, NoDup (p ++ r) -> StronglySorted (fun a b => posOf (p ++ r) a < posOf (p ++ r) b) r).
  { induction r as [|x r IH]; intros p N; [constructor|]. constructor.
    - specialize (IH (p ++ [x])). rewrite <- app_assoc in IH. exact (IH N).
    - apply Forall_forall. intros y Hy. assert (X : p ++ x :: r = (p ++ [x]) ++ r) by now rewrite <- app_assoc.
      assert (Nx : ~ In x p) by (intros Z; apply NoDup_remove_2 in N; apply N; rewrite in_app_iff; now left).
      assert (Ny : ~ In y (p ++ [x])).
      { rewrite X in N. intros Z. apply in_split in Z as (z1 & z2 & Z). rewrite Z in N.
        rewrite <- app_assoc in N. cbn in N. apply NoDup_remove_2 in N. apply N. rewrite !in_app_iff. tauto. }
      rewrite (posOf_app_out p (x :: r) x Nx). cbn [posOf]. rewrite Nat.eqb_refl.
      rewrite X, (posOf_app_out _ _ _ Ny), app_length. cbn. lia. }
  exact (G l []).
Qed.

Definition withInst (blk : list inst) (l : list nat) : list num :=
  flat_map (fun k => match nth_error blk k with Some i => [(k, i)] | None => [] end) l.
Lemma code_withInst blk l : code (withInst blk l) = reorder blk l.
Proof.
  unfold code, withInst, reorder. induction l as [|k l IH]; cbn; [reflexivity|]. rewrite map_app, IH. f_equal.
  destruct (nth_error blk k); reflexivity.
Qed.
Lemma in_withInst blk l k i : In (k, i) (withInst blk l) <-> In k l /\ nth_error blk k = Some i.
Proof.
  unfold withInst. rewrite in_flat_map. split.
  - intros (x & H & X). destruct (nth_error blk x) as [j|] eqn:E; [|destruct X]. destruct X as [X|[]]. injection X as -> ->. auto.
  - intros [H E]. exists k. split; [exact H|]. rewrite E. now left.
Qed.
Lemma reorder_id blk : reorder blk (seq 0 (length blk)) = blk.
Proof.
  unfold reorder.
  assert (G : forall p, flat_map (fun k => match nth_error (p ++ blk) k with Some i => [i] | None => [] end)
    (seq (length p) (length blk)) = blk); [|exact (G [])].
  induction blk as [|i b IH]; intros p; [reflexivity|]. cbn [length seq flat_map].
  rewrite nth_error_app2, Nat.sub_diag by lia. cbn. f_equal. specialize (IH (p ++ [i])).
  rewrite app_length, Nat.add_1_r, <- app_assoc in IH. exact IH.
Qed.
Lemma withInst_sorted blk (R : nat -> nat -> Prop) l : StronglySorted R l ->
  StronglySorted (fun a b : num => R (fst a) (fst b)) (withInst blk l).
Proof.
  induction l as [|k l IH]; intros H; [constructor|]. inversion H as [|? ? H1 H2]; subst. cbn.
  destruct (nth_error blk k); cbn; [|auto]. constructor; [auto|]. apply Forall_forall. intros [x jx] Hx.
  apply in_withInst in Hx as [Hx _]. rewrite Forall_forall in H2. cbn. auto.
Qed.
Lemma sorted_fop {A} (R : A -> A -> Prop) l : StronglySorted R l -> ForallOrdPairs R l.
Proof. induction 1; constructor; assumption. Qed.
Lemma fop_weaken {A} (R Q : A -> A -> Prop) l : (forall a b, In a l -> In b l -> R a b -> Q a b) ->
  ForallOrdPairs R l -> ForallOrdPairs Q l.
Proof.
  intros H O. induction O as [|a l F O IH]; constructor.
  - rewrite Forall_forall in *. intros b Hb. apply H; [now left|now right|auto].
  - apply IH. intros x y Hx Hy. apply H; now right.
Qed.
Lemma seq_sorted n : forall a, StronglySorted lt (seq a n).
Proof.
  induction n as [|n IH]; intros a; cbn; constructor; [auto|]. apply Forall_forall. intros x Hx. apply in_seq in Hx. lia.
Qed.
Lemma sorted_app_l {A} (R : A -> A -> Prop) x y : StronglySorted R (x ++ y) -> StronglySorted R x.
Proof.
  induction x as [|a x IH]; cbn; intros H; [constructor|]. inversion H as [|? ? H1 H2]; subst.
  constructor; [auto|]. rewrite Forall_forall in *. intros b Hb. apply H2. rewrite in_app_iff. now left.
Qed.
Lemma fop_app_l {A} (R : A -> A -> Prop) x y : ForallOrdPairs R (x ++ y) -> ForallOrdPairs R x.
Proof.
  induction x as [|a x IH]; cbn; intros H; [constructor|]. inversion H as [|? ? H1 H2]; subst.
  constructor; [|auto]. rewrite Forall_forall in *. intros b Hb. apply H1. rewrite in_app_iff. now left.
Qed.

Section Block.
Context {W : Type}.
Variable t : mach W.
Variables sideF ordF : nat -> bool.
Variable sp : nat.
Hypothesis T : schedTarget t sideF ordF.
Variable blk : list inst.
Variable l : list nat.
Hypothesis TL : topological (deps t sideF ordF sp blk) (length blk) l.

Lemma l_nodup : NoDup l.
Proof. eapply Permutation_NoDup; [symmetry; exact (proj1 TL)|apply seq_NoDup]. Qed.
Lemma l_keeps : ForallOrdPairs (keeps t sideF ordF sp (posOf l)) (withInst blk (seq 0 (length blk))).
Proof.
  assert (K : kept t sideF ordF sp (posOf l) blk (length blk)).
  { apply deps_enough. intros u v H. pose proof (proj2 (deps_ok t sideF ordF sp blk) u v H) as [A B].
    assert (Hu : In u l) by (eapply Permutation_in; [symmetry; exact (proj1 TL)|apply in_seq; lia]).
    apply in_split in Hu as (a & b & E). pose proof (proj2 TL a u b v E H) as Hv. rewrite E. apply posOf_split; [|exact Hv].
    rewrite <- E. apply l_nodup. }
  eapply fop_weaken; [|apply sorted_fop, withInst_sorted, seq_sorted].
  intros [a i] [b j] Ha Hb Hab. apply in_withInst in Ha as [_ Ha]. apply in_withInst in Hb as [_ Hb]. cbn in Hab.
  intros Cl. unfold before. cbn. apply (K a b i j Hab); try assumption. apply nth_error_Some. unfold at_ in Hb. congruence.
Qed.
Lemma l_sorted : StronglySorted (before (posOf l)) (withInst blk l).
Proof. apply (withInst_sorted blk (fun a b => posOf l a < posOf l b)), sorted_pos, l_nodup. Qed.
Lemma l_perm : Permutation (withInst blk l) (withInst blk (seq 0 (length blk))).
Proof. unfold withInst. apply Permutation_flat_map, (proj1 TL). Qed.
Lemma block_perm : Permutation (reorder blk l) blk.
Proof.
  rewrite <- (reorder_id blk) at 2. rewrite <- !code_withInst. unfold code. apply Permutation_map, l_perm.
Qed.
(** whatever the block is *)
Lemma block_run s : req (run t (reorder blk l) s) (run t blk s).
Proof.
  rewrite <- (reorder_id blk) at 2. rewrite <- !code_withInst.
  apply (reorder_run t sideF ordF sp T (posOf l)); [exact l_sorted|exact l_perm|exact l_keeps].
Qed.
(** a block that ends with an instruction that is kept in order *)
Lemma block_last x e : blk = x ++ [e] -> isOrd sideF ordF e = true ->
  exists y, reorder blk l = y ++ [e] /\ Permutation y x /\ forall s, req (run t y s) (run t x s).
Proof.
  intros E O. pose proof l_sorted as L1. pose proof l_perm as L2. pose proof l_keeps as L3.
  set (N := length x).
  assert (E0 : withInst blk (seq 0 (length blk)) = withInst blk (seq 0 N) ++ [(N, e)]).
  { rewrite E, app_length, Nat.add_1_r. rewrite seq_S. unfold withInst. rewrite flat_map_app. f_equal. cbn.
    rewrite nth_error_app2, Nat.sub_diag by (fold N; lia). reflexivity. }
  assert (Ex : code (withInst blk (seq 0 N)) = x).
  { assert (X : code (withInst blk (seq 0 (length blk))) = blk) by now rewrite code_withInst, reorder_id.
    rewrite E0 in X. unfold code in X. rewrite map_app in X. cbn in X. rewrite E in X at 2. apply app_inj_tail in X. apply X. }
  rewrite E0 in L2, L3.
  assert (Hin : In (N, e) (withInst blk l)) by (eapply Permutation_in; [symmetry; exact L2|apply in_app_iff; right; now left]).
  apply in_split in Hin as (y & z & Ey). destruct z as [|b z].
  - exists (code y). split; [|split].
    + rewrite <- code_withInst, Ey. unfold code. now rewrite map_app.
    + rewrite <- Ex. unfold code. apply Permutation_map. rewrite Ey in L2. apply Permutation_app_inv_r in L2. exact L2.
    + intros s. rewrite <- Ex. rewrite Ey in L1, L2. apply Permutation_app_inv_r in L2.
      apply (reorder_run t sideF ordF sp T (posOf l)); [now apply sorted_app_l in L1|exact L2|now apply fop_app_l in L3].
  - exfalso.
    (* [b] comes behind [e] although [e] is kept behind everything *)
    assert (Hb : In b (withInst blk (seq 0 N))).
    { rewrite Ey in L2.
      assert (L2' : Permutation (y ++ b :: z) (withInst blk (seq 0 N))).
      { apply Permutation_cons_inv with (a := (N, e)). etransitivity; [apply Permutation_middle|].
        etransitivity; [exact L2|]. rewrite Permutation_app_comm. reflexivity. }
      eapply Permutation_in; [exact L2'|]. rewrite in_app_iff. right. now left. }
    apply fop_mid in L3 as [_ L3]. specialize (L3 b Hb).
    assert (B1 : before (posOf l) b (N, e)) by (apply L3; right; right; left; exact O).
    rewrite Ey in L1. apply sorted_fop in L1.
    assert (B2 : before (posOf l) (N, e) b).
    { clear -L1. induction y as [|c y IH]; cbn in L1; inversion L1 as [|? ? F O']; subst; [|auto].
      rewrite Forall_forall in F. apply F. now left. }
    unfold before in *. lia.
Qed.
End Block.

(* ------------------------------------------------------------------ *)
(** * A function: postRASchedule (362-372) *)
Section Func.
Context {W : Type}.
Variable t : mach W.
Variables sideF ordF : nat -> bool.
Variable sp : nat.
Variable S : Type.
Variable sched : list inst -> S -> nat -> option S.   (* the classes of the instructions of a block *)
Variable nextCycle : S -> S.
Variable ord : list inst -> nat -> list nat -> list nat.
Variable width : nat.
Variable st0 : S.
(** postRAScheduleBlock (263-360); [None]: "Failed to schedule instructions" *)
Definition schedBlock (blk : list inst) : option (list inst) :=
  match topDown S (sched blk) nextCycle (ord blk) width (deps t sideF ordF sp blk) (length blk) st0 with
  | Done l => Some (reorder blk l)
  | _ => None
  end.
Fixpoint schedFunc (p : mfunc) : option mfunc :=
  match p with
  | [] => Some []
  | b :: r => match schedBlock b, schedFunc r with Some b', Some r' => Some (b' :: r') | _, _ => None end
  end.

Hypothesis T : schedTarget t sideF ordF.
Hypothesis ordP : forall blk k l, Permutation (ord blk k l) l.
(** the last instruction of every block is a terminator and is flagged as one *)
Definition ends (p : mfunc) : Prop := forall blk, In blk p -> exists x e, blk = x ++ [e] /\ isOrd sideF ordF e = true.

Lemma schedBlock_topo blk blk' : schedBlock blk = Some blk' ->
  exists l, topological (deps t sideF ordF sp blk) (length blk) l /\ blk' = reorder blk l.
Proof using ordP.
  unfold schedBlock. destruct (topDown _ _ _ _ _ _ _ _) as [l| |] eqn:E; [|discriminate|discriminate].
  intros H. injection H as <-. exists l. split; [|reflexivity]. destruct (deps_ok t sideF ordF sp blk) as [A B].
  exact (topDown_ok S (sched blk) nextCycle (ord blk) width _ (length blk) (ordP blk) A B st0 l E).
Qed.
Lemma schedFunc_nth p : forall q, schedFunc p = Some q -> length q = length p /\ forall k b, nth_error p k = Some b -> exists b', nth_error q k = Some b' /\ schedBlock b = Some b'.
Proof.
  induction p as [|b p IH]; intros q H; cbn in H.
  - injection H as <-. split; [reflexivity|]. intros [|k] b H; discriminate.
  - destruct (schedBlock b) as [b'|] eqn:Eb; [|discriminate]. destruct (schedFunc p) as [q'|] eqn:Ep; [|discriminate].
    injection H as <-. destruct (IH q' eq_refl) as [A B]. split; [cbn; now rewrite A|].
    intros [|k] c Hc; cbn in *; [injection Hc as <-; eauto|eauto].
Qed.
Theorem schedFunc_same p q : ends p -> schedFunc p = Some q -> rsame t p q.
Proof using T ordP.
  intros En Hq n s. destruct (schedFunc_nth p q Hq) as [Ln Nth].
  assert (G : forall n b s s', req s s' ->
    req (fst (rrunF t p n b s)) (fst (rrunF t q n b s')) /\ snd (rrunF t p n b s) = snd (rrunF t q n b s')).
  { clear n s. induction n as [|n IH]; intros b s s' H; cbn; [auto|].
    destruct (nth_error p b) as [blk|] eqn:Eb.
    - destruct (Nth b blk Eb) as (blk' & Eb' & Sb). rewrite Eb'.
      destruct (schedBlock_topo blk blk' Sb) as (l & Tl & ->).
      destruct (En blk (nth_error_In _ _ Eb)) as (x & e & Ex & Oe).
      destruct (block_last t sideF ordF sp T blk l Tl x e Ex Oe) as (y & Ey & _ & Ry).
      assert (K : forall z u, rrunB t (z ++ [e]) u 0 = rexec t e (run t z u)).
      { clear. intros z u. rewrite <- (run_rrunB t z u 0). generalize 0. revert u. induction z as [|i z IHz]; intros u d; cbn.
        - now destruct (rexec t e u).
        - destruct (rexec t i u) as [u1 d1]. apply IHz. }
      assert (L : forall z, lastKind t (z ++ [e]) = kindOf t e) by (intros z; unfold lastKind; now rewrite rev_unit).
      rewrite Ey, Ex, !K, !L.
      assert (R : req (run t x s) (run t y s')) by (eapply req_trans; [apply run_req; exact H|apply req_sym, Ry]).
      destruct (rexec_req t e _ _ R) as [R1 R2].
      destruct (rexec t e (run t x s)) as [u d], (rexec t e (run t y s')) as [u' d']. cbn in R1, R2. subst d'.
      destruct (rnext b (kindOf t e) d) as [b'|]; [now apply IH|cbn; auto].
    - assert (Eq : nth_error q b = None) by (apply nth_error_None; apply nth_error_None in Eb; lia).
      rewrite Eq. cbn. auto. }
  destruct (G n 0 s s (req_refl s)) as [(_ & _ & A) B]. unfold robs. now rewrite A, B.
Qed.
End Func.
