(** C37: the dominator analysis (cmmc/Analysis/DominateAnalysis.cpp) computes dominance as SsaDom.v defines it by paths of the
    control-flow graph; with it the hypotheses that C33, C35 and C36 make about that analysis are discharged. *)
From Coq Require Import ZArith Lia Bool List Arith.
From Verif Require Import Sim Ssa SsaCfg SsaMerge SsaFwd SsaWf SsaProps SsaDom SsaVerify SsaCse SsaGvn SsaValProps DomDfs DomLt DomAlg DomTree.
Import ListNotations.

(** The analysis iterates over hash tables.  [sc]: the successors CFGAnalysis lists (cmmc/Analysis/CFGAnalysis.cpp:26-56, duplicates removed),
    [pr]: the sets g, [od]: the entries of idom.  Nothing is known about their orders *)
Record orders := Orders { sc : nat -> list nat; pr : nat -> list nat; od : list nat }.
(** DominateAnalysis::run, lines 97-221 *)
Definition dfseqOf (f : func) (o : orders) : list nat := fst (dfs (sc o) (entry f) (S (length f))).
Definition faOf (f : func) (o : orders) : nat -> nat := snd (dfs (sc o) (entry f) (S (length f))).
Definition idoms (f : func) (o : orders) : nat -> nat := idomOf (entry f) (dfseqOf f o) (faOf f o) (pr o).
Definition domAnalysis (f : func) (o : orders) : tst := domTree (entry f) (idoms f o) (length (dfseqOf f o)) (od o).
(** what is known about the contents of those tables *)
Definition ordersOf (f : func) (o : orders) : Prop :=
  (forall b y, In y (sc o b) <-> exists bk, get b f = Some bk /\ In y (succs (trm bk))) /\
  (forall v w, In v (pr o w) <-> In v (dfseqOf f o) /\ In w (sc o v)) /\
  NoDup (od o) /\ (forall v, In v (od o) <-> In v (dfseqOf f o) /\ v <> entry f).

Section Bridge.
Variables (f : func) (o : orders).
Hypothesis Hn : f <> [].
Hypothesis Hc : closed f.
Hypothesis Ho : ordersOf f o.
Notation V := (dfseqOf f o).
Notation succ := (sc o).
Notation root := (entry f).
Lemma treeOf : dfsTree succ root V (faOf f o).
Proof.
  unfold dfseqOf, faOf. replace (length f) with (length (map fst f)) by apply map_length. apply dfs_ok.
  - intros x y _ Hy. apply (proj1 Ho) in Hy as (bk & E & Hy). exact (Hc x bk y E Hy).
  - destruct f as [|[b bk] r]; [congruence|]. now left.
Qed.
Lemma walk_snoc a l b y : walk succ a l b -> In y (succ b) -> walk succ a (l ++ [y]) y.
Proof. intros H Hy. eapply walk_app; [exact H|]. constructor; [exact Hy|constructor]. Qed.
Lemma path_walk b l : path f b l -> exists w, walk succ root w b /\ forall x, In x l <-> In x (root :: w).
Proof.
  induction 1 as [|b l bk t H (w & W & E) Hb Ht].
  - exists []. split; [constructor|tauto].
  - exists (w ++ [t]). split; [eapply walk_snoc; [exact W|]; apply (proj1 Ho); eauto|]. intros x. cbn [In]. rewrite in_app_iff, E. cbn [In]. tauto.
Qed.
Lemma walk_path w : forall b, walk succ root w b -> exists l, path f b l /\ forall x, In x l <-> In x (root :: w).
Proof.
  induction w as [|y w IH] using rev_ind; intros b H.
  - inversion H; subst. exists [root]. split; [constructor|tauto].
  - assert (K : exists c, walk succ root w c /\ In b (succ c) /\ b = y).
    { clear -H. revert H. generalize root. induction w as [|a w IHw]; intros r H; cbn in H; inversion H as [|? ? ? ? H1 H2]; subst.
      - inversion H2; subst. exists r. split; [constructor|auto].
      - destruct (IHw _ H2) as (c & A1 & A2 & A3). exists c. split; [now constructor|auto]. }
    destruct K as (c & W & Hb & ->). destruct (IH c W) as (l & Pl & E). apply (proj1 Ho) in Hb as (bk & Eb & Hb). exists (y :: l).
    split; [exact (path_next f c l bk y Pl Eb Hb)|]. intros x. cbn [In]. rewrite in_app_iff, E. cbn [In]. tauto.
Qed.
Lemma V_reach_iff b : In b V <-> reach f b.
Proof.
  split.
  - intros H. destruct (V_reach succ root V (faOf f o) treeOf b H) as (w & W & _). destruct (walk_path w b W) as (l & Pl & _). now exists l.
  - intros [l Pl]. destruct (path_walk b l Pl) as (w & W & _). exact (reach_V succ root V (faOf f o) treeOf w b W).
Qed.
Lemma gdom_iff a b : gdom succ root a b <-> dominates f a b.
Proof.
  split; intros H.
  - intros l Pl. destruct (path_walk b l Pl) as (w & W & E). apply E. auto.
  - intros w W. destruct (walk_path w b W) as (l & Pl & E). apply E. auto.
Qed.
Lemma idoms_root : idoms f o root = root.
Proof.
  pose proof treeOf as T. unfold idoms, idomOf. set (S0 := sd _). assert (E : im (lt root V (faOf f o) (pr o)) root = root).
  { unfold lt. assert (K : forall l s, im s root = root -> (forall q, ~ In root (tr s q)) -> (im (fold_left (blkStep root V (faOf f o) (pr o)) l s) root = root)).
    { induction l as [|b l IH]; intros s H1 H2; auto. cbn [fold_left].
      assert (Kp : forall l' s', im (fold_left (predStep V b) l' s') = im s' /\ tr (fold_left (predStep V b) l' s') = tr s').
      { induction l' as [|p l' IHp]; intros s'; auto. cbn [fold_left]. destruct (IHp (predStep V b s' p)) as [A1 A2]. rewrite A1, A2. unfold predStep.
        destruct (merge V (S (length V)) (sd s') (ff s', ran s') p) as [[f1 r1] res]. auto. }
      assert (Kf : forall q l' s', ~ In root l' -> im (fold_left (flushStep V q) l' s') root = im s' root /\ tr (fold_left (flushStep V q) l' s') = tr s').
      { intros q. induction l' as [|p l' IHp]; intros s' Hni; auto. cbn [fold_left]. destruct (IHp (flushStep V q s' p)) as [A1 A2]; [intros X; apply Hni; now right|].
        rewrite A1, A2. unfold flushStep. destruct (merge V (S (length V)) (sd s') (ff s', ran s') p) as [[f1 r1] res]. cbn. split; auto. apply fset_ne. intros X. apply Hni. now left. }
      assert (B : im (blkStep root V (faOf f o) (pr o) s b) root = root /\ forall q, ~ In root (tr (blkStep root V (faOf f o) (pr o) s b) q)).
      { unfold blkStep. destruct (Nat.eqb_spec b root) as [|D]; [auto|]. destruct (Kp (pr o b) s) as [P1 P2]. cbv zeta.
        set (s1 := fold_left (predStep V b) (pr o b) s) in *.
        set (s2 := Lst (fset (ff s1) b (faOf f o b)) (ran s1) (sd s1) (tset (tr s1) (sd s1 b) (tr s1 (sd s1 b) ++ [b])) (im s1)).
        assert (N2 : forall q, ~ In root (tr s2 q)).
        { intros q. cbn. unfold tset. rewrite P2. destruct (Nat.eqb q (sd s1 b)); [|apply H2]. intros X. apply in_app_or in X as [X|[X|[]]]; [exact (H2 _ X)|congruence]. }
        destruct (Kf (faOf f o b) (tr s2 (faOf f o b)) s2 (N2 _)) as [F1 F2]. set (s3 := fold_left (flushStep V (faOf f o b)) (tr s2 (faOf f o b)) s2) in *.
        change (im s3 root = root /\ forall q, ~ In root (tset (tr s3) (faOf f o b) [] q)). rewrite F1, F2. split; [cbn; now rewrite P1|].
        intros q. unfold tset at 1. destruct (Nat.eqb q (faOf f o b)); [intros []|apply N2]. }
      apply IH; apply B. }
    apply K; cbn; auto. }
  generalize V at 1 as l. revert E. generalize (im (lt root V (faOf f o) (pr o))) as i0. intros i0 E l. revert i0 E. induction l as [|b l IH]; intros i0 E; auto. cbn [fold_left]. apply IH.
  unfold fixStep. destruct (Nat.eqb_spec b root) as [|D]; auto. destruct (Nat.eqb (i0 b) (S0 b)); auto. rewrite fset_ne; auto.
Qed.
Lemma idoms_ok w : In w V -> w <> root -> isIdom succ root (idoms f o w) w.
Proof. apply idomOf_ok; [exact treeOf|apply Ho]. Qed.
Lemma idoms_lt w : In w V -> w <> root -> In (idoms f o w) V /\ idx (idoms f o w) V < idx w V.
Proof.
  intros Hw D. destruct (idoms_ok w Hw D) as (A1 & A2 & _). pose proof (dom_anc succ root V (faOf f o) treeOf _ w Hw A1) as A. split.
  - exact (anc_V succ root V (faOf f o) treeOf _ w Hw A).
  - exact (anc_lt succ root V (faOf f o) treeOf _ w Hw A A2).
Qed.
Lemma idom_tree d w : In w V -> (anc (idoms f o) d w <-> gdom succ root d w).
Proof.
  intros Hw. remember (idx w V) as k eqn:E. revert w E Hw. induction k as [k IH] using lt_wf_ind. intros w E Hw.
  destruct (Nat.eq_dec w root) as [->|D].
  - split.
    + intros [n Hn']. assert (Z : forall n, up (idoms f o) n root = root) by (induction n0 as [|n0 IHn]; cbn; auto; now rewrite idoms_root). rewrite Z in Hn'. subst d. intros l _. now left.
    + intros H. destruct (H [] (w_nil succ root)) as [<-|[]]. apply anc_refl.
  - destruct (idoms_ok w Hw D) as (A1 & A2 & A3). destruct (idoms_lt w Hw D) as [B1 B2]. assert (IHw := IH _ ltac:(rewrite E; exact B2) _ eq_refl B1). split.
    + intros H. apply anc_inv in H as [->|H]; [apply gdom_iff, dominates_refl|]. apply IHw in H. apply gdom_iff. apply gdom_iff in H, A1. exact (dominates_trans f _ _ _ H A1).
    + intros H. destruct (Nat.eq_dec d w) as [->|Dd]; [apply anc_refl|]. eapply anc_trans; [|apply anc_fa]. apply IHw. now apply A3.
Qed.
Lemma idom_dominates d w : reach f w -> (anc (idoms f o) d w <-> dominates f d w).
Proof. intros Hw. rewrite <- gdom_iff. apply idom_tree. now apply V_reach_iff. Qed.
Lemma hyp_root : In root V.
Proof. exact (root_V succ root V (faOf f o) treeOf). Qed.
Lemma hyp_B v : In v V -> idx v V < length V.
Proof. apply idx_lt. Qed.
End Bridge.

(** ** C37 *)
(** the block [a] dominates [b]: every path from the entry to [b] passes through [a].  The query answers exactly that, for reachable blocks *)
Theorem C37_dominate_exact f o a b : f <> [] -> closed f -> ordersOf f o ->
  dominateQ (domAnalysis f o) a b = true <-> reach f a /\ reach f b /\ dominates f a b.
Proof.
  intros Hn Hc Ho. unfold domAnalysis.
  rewrite (dominateQ_ok (entry f) (dfseqOf f o) (idoms f o) (fun v => idx v (dfseqOf f o)) _ (od o) (hyp_root f o Hn Hc Ho) (idoms_root f o Hn Hc Ho) (idoms_lt f o Hn Hc Ho) (hyp_B f o)
    (proj1 (proj2 (proj2 Ho))) (proj2 (proj2 (proj2 Ho)))).
  rewrite !(V_reach_iff f o Hn Hc Ho). split; intros (A & B & C); (split; [exact A|]; split; [exact B|]); now apply (idom_dominates f o Hn Hc Ho a b B).
Qed.
Theorem C37_reachable_exact f o b : f <> [] -> closed f -> ordersOf f o -> reachableQ (domAnalysis f o) b = true <-> reach f b.
Proof.
  intros Hn Hc Ho. unfold domAnalysis.
  rewrite (reachableQ_ok (entry f) (dfseqOf f o) (idoms f o) (fun v => idx v (dfseqOf f o)) _ (od o) (hyp_root f o Hn Hc Ho) (idoms_root f o Hn Hc Ho) (idoms_lt f o Hn Hc Ho) (hyp_B f o)
    (proj1 (proj2 (proj2 Ho))) (proj2 (proj2 (proj2 Ho)))). apply (V_reach_iff f o Hn Hc Ho).
Qed.
(** the parent of a block is its closest strict dominator; only the entry has none *)
Theorem C37_parent f o b : f <> [] -> closed f -> ordersOf f o -> reach f b ->
  match parentQ (domAnalysis f o) b with
  | None => b = entry f
  | Some p => b <> entry f /\ p <> b /\ dominates f p b /\ forall d, dominates f d b -> d <> b -> dominates f d p
  end.
Proof.
  intros Hn Hc Ho Hb. unfold domAnalysis. assert (Hb' := proj2 (V_reach_iff f o Hn Hc Ho b) Hb).
  rewrite (parentQ_ok (entry f) (dfseqOf f o) (idoms f o) (fun v => idx v (dfseqOf f o)) _ (od o) (hyp_root f o Hn Hc Ho) (idoms_root f o Hn Hc Ho) (idoms_lt f o Hn Hc Ho) (hyp_B f o)
    (proj1 (proj2 (proj2 Ho))) (proj2 (proj2 (proj2 Ho)))) by exact Hb'.
  destruct (Nat.eqb_spec b (entry f)) as [|D]; auto. destruct (idoms_ok f o Hn Hc Ho b Hb' D) as (A1 & A2 & A3). split; auto. split; auto.
  split; [now apply (gdom_iff f o Ho)|]. intros d Hd Nd. apply (gdom_iff f o Ho). apply A3; auto. now apply (gdom_iff f o Ho).
Qed.
(** the blocks listed: each reachable block once, the entry first, a dominator before what it dominates *)
Theorem C37_blocks f o : f <> [] -> closed f -> ordersOf f o ->
  NoDup (blocksQ (domAnalysis f o)) /\ hd_error (blocksQ (domAnalysis f o)) = Some (entry f) /\ (forall b, In b (blocksQ (domAnalysis f o)) <-> reach f b) /\
  forall l1 b l2 a, blocksQ (domAnalysis f o) = l1 ++ b :: l2 -> dominates f a b -> a <> b -> In a l1.
Proof.
  intros Hn Hc Ho. set (m := fun v => idx v (dfseqOf f o)). pose proof (hyp_root f o Hn Hc Ho) as H1. pose proof (idoms_root f o Hn Hc Ho) as H2.
  pose proof (idoms_lt f o Hn Hc Ho) as H3. pose proof (hyp_B f o) as H4. pose proof (proj1 (proj2 (proj2 Ho))) as H5. pose proof (proj2 (proj2 (proj2 Ho))) as H6.
  assert (E : blocksQ (domAnalysis f o) = L (entry f) (idoms f o) (length (dfseqOf f o)) (od o)) by exact (blocksQ_ok (entry f) (dfseqOf f o) (idoms f o) m _ (od o) H1 H2 H3 H4 H5 H6).
  assert (N : NoDup (blocksQ (domAnalysis f o))) by (rewrite E; exact (P_nodup (entry f) (dfseqOf f o) (idoms f o) m _ (od o) H2 H3 H4 H5 H6 (entry f) H1)).
  assert (R : forall b, In b (blocksQ (domAnalysis f o)) <-> reach f b).
  { intros b. rewrite E, (L_in (entry f) (dfseqOf f o) (idoms f o) m _ (od o) H1 H2 H3 H4 H6). apply (V_reach_iff f o Hn Hc Ho). }
  split; [exact N|]. split; [|split; [exact R|]].
  - rewrite E. unfold L. rewrite (P_eq (entry f) (dfseqOf f o) (idoms f o) m _ (od o) H2 H3 H4 H6 (entry f) H1). reflexivity.
  - intros l1 b l2 a El Hd Na. assert (Rb : reach f b) by (apply R; rewrite El; apply in_or_app; right; now left). destruct Rb as [lb Pb].
    assert (Ra : reach f a) by exact (dom_reach f a b lb Pb Hd). pose proof (proj2 (V_reach_iff f o Hn Hc Ho a) Ra) as Va. pose proof (proj2 (V_reach_iff f o Hn Hc Ho b) (ex_intro _ lb Pb)) as Vb.
    assert (A : anc (idoms f o) a b) by (apply (idom_dominates f o Hn Hc Ho a b); auto; now exists lb).
    pose proof (blocksQ_order (entry f) (dfseqOf f o) (idoms f o) m _ (od o) H1 H2 H3 H4 H5 H6 a b Va Vb A) as Le. fold (domAnalysis f o) in Le. rewrite El in Le, N.
    assert (Nb : ~ In b l1) by (intros X; exact (nodup_app_disj l1 (b :: l2) b N X (or_introl eq_refl))). rewrite (idx_mid b l1 l2 Nb) in Le.
    destruct (in_dec Nat.eq_dec a l1) as [|X]; auto. exfalso. assert (Ia : In a (l1 ++ b :: l2)) by (rewrite <- El; now apply R).
    rewrite idx_r in Le by auto. cbn in Le. destruct (Nat.eqb_spec b a); [congruence|]. lia.
Qed.
(** the size of the subtree of a block is the number of reachable blocks it dominates *)
Theorem C37_subtree_size f o b : f <> [] -> closed f -> ordersOf f o ->
  exists l, NoDup l /\ (forall x, In x l <-> reach f x /\ reach f b /\ dominates f b x) /\ subTreeSizeQ (domAnalysis f o) b = length l.
Proof.
  intros Hn Hc Ho. set (m := fun v => idx v (dfseqOf f o)). pose proof (hyp_root f o Hn Hc Ho) as H1. pose proof (idoms_root f o Hn Hc Ho) as H2.
  pose proof (idoms_lt f o Hn Hc Ho) as H3. pose proof (hyp_B f o) as H4. pose proof (proj1 (proj2 (proj2 Ho))) as H5. pose proof (proj2 (proj2 (proj2 Ho))) as H6.
  destruct (subTreeSizeQ_ok (entry f) (dfseqOf f o) (idoms f o) m _ (od o) H1 H2 H3 H4 H5 H6 b) as [S1 S2].
  destruct (in_dec Nat.eq_dec b (dfseqOf f o)) as [Hb|Hb].
  - exists (P (idoms f o) (length (dfseqOf f o)) (od o) b). split; [exact (P_nodup (entry f) (dfseqOf f o) (idoms f o) m _ (od o) H2 H3 H4 H5 H6 b Hb)|].
    split; [|exact (S1 Hb)]. intros x. rewrite (P_in (entry f) (dfseqOf f o) (idoms f o) m _ (od o) H2 H3 H4 H6 b x Hb).
    rewrite (V_reach_iff f o Hn Hc Ho) in *. split.
    + intros [A B]. split; [exact A|]. split; [exact Hb|]. now apply (idom_dominates f o Hn Hc Ho b x A).
    + intros (A & _ & B). split; [exact A|]. now apply (idom_dominates f o Hn Hc Ho b x A).
  - exists []. split; [constructor|]. split; [|exact (S2 Hb)]. intros x. split; [intros []|]. intros (_ & A & _). apply (V_reach_iff f o Hn Hc Ho) in A. contradiction.
Qed.
(** the lowest common dominator, for trees whose depth fits the ancestor tables (2^21 levels; at most that many blocks are enough) *)
Theorem C37_lca f o a b : f <> [] -> closed f -> ordersOf f o -> length f <= 2 ^ 21 -> NoDup (map fst f) -> reach f a -> reach f b ->
  exists r, lcaQ (domAnalysis f o) a b = Some (Some r) /\ dominates f r a /\ dominates f r b /\ forall d, dominates f d a -> dominates f d b -> dominates f d r.
Proof.
  intros Hn Hc Ho Hl Hd Ha Hb. set (m := fun v => idx v (dfseqOf f o)). pose proof (hyp_root f o Hn Hc Ho) as H1. pose proof (idoms_root f o Hn Hc Ho) as H2.
  pose proof (idoms_lt f o Hn Hc Ho) as H3. pose proof (hyp_B f o) as H4. pose proof (proj1 (proj2 (proj2 Ho))) as H5. pose proof (proj2 (proj2 (proj2 Ho))) as H6.
  pose proof (proj2 (V_reach_iff f o Hn Hc Ho a) Ha) as Va. pose proof (proj2 (V_reach_iff f o Hn Hc Ho b) Hb) as Vb.
  assert (LV : length (dfseqOf f o) <= length f).
  { rewrite <- (map_length fst f). apply NoDup_incl_length; [apply (treeOf f o Hn Hc Ho)|]. intros x Hx. apply (V_reach_iff f o Hn Hc Ho) in Hx as [l Pl]. destruct Pl as [|x0 l bk t _ E Ht].
    - clear -Hn. destruct f as [|[y bk] r]; [congruence|now left].
    - exact (Hc _ _ _ E Ht). }
  assert (Dl : forall x, In x (dfseqOf f o) -> dep (entry f) (idoms f o) m x < 2 ^ S maxDepth).
  { intros x Hx. pose proof (dep_le (entry f) (dfseqOf f o) (idoms f o) m H2 H3 x Hx) as X1. pose proof (H4 x Hx) as X2. unfold m in X1 at 2. change (S maxDepth) with 21.
    eapply Nat.le_lt_trans; [exact X1|]. eapply Nat.lt_le_trans; [exact X2|]. eapply Nat.le_trans; [exact LV|exact Hl]. }
  destruct (lcaQ_ok (entry f) (dfseqOf f o) (idoms f o) m _ (od o) H1 H2 H3 H4 H5 H6 a b Va Vb (Dl a Va) (Dl b Vb)) as (r & R1 & R2 & R3 & R4 & R5). clear Hl Dl.
  exists r. split; [exact R1|]. assert (Rr : reach f r) by now apply (V_reach_iff f o Hn Hc Ho).
  split; [now apply (idom_dominates f o Hn Hc Ho r a Ha)|]. split; [now apply (idom_dominates f o Hn Hc Ho r b Hb)|].
  intros d D1 D2. apply (idom_dominates f o Hn Hc Ho d r Rr). apply R5; [now apply (idom_dominates f o Hn Hc Ho d a Ha)|now apply (idom_dominates f o Hn Hc Ho d b Hb)].
Qed.

(** ** what C33, C35 and C36 ask of the analysis *)
Theorem C37_domOk f o : f <> [] -> closed f -> ordersOf f o -> domOk (dominateQ (domAnalysis f o)) (reachableQ (domAnalysis f o)) f.
Proof. intros Hn Hc Ho. split; [intros b; now apply C37_reachable_exact|intros a b; now apply C37_dominate_exact]. Qed.
Theorem C33_blockMerge_with_analysis k f o : f <> [] -> closed f -> ordersOf f o -> NoDup (map fst f) -> phiPreds f -> refines k f (blockMerge (dominateQ (domAnalysis f o)) f).
Proof. intros Hn Hc Ho. apply C33_blockMerge. intros a b H. now apply (C37_dominate_exact f o a b Hn Hc Ho). Qed.
Theorem C35_verifier_with_analysis_partial W (m : sem W) args f o w s : f <> [] -> closed f -> ordersOf f o -> phiReach f ->
  verifyFn (dominateQ (domAnalysis f o)) (reachableQ (domAnalysis f o)) f = true -> reaches m args f w s -> ~ readsUnset m args f s.
Proof. intros Hn Hc Ho. apply C35_no_unset_read_partial. now apply C37_domOk. Qed.
(** global value numbering with the analysis it uses.  [worth] and [native] are the frequency and target questions *)
Definition envOf (f : func) (o : orders) (worth : list nat -> nat -> bool) (native : nat -> bool) : gvnEnv :=
  GvnEnv (fun a b => match lcaQ (domAnalysis f o) a b with Some (Some r) => r | _ => a end) (dominateQ (domAnalysis f o)) worth native.
Theorem C36_gvn_with_analysis knd f o worth native : wfs f -> ordersOf f o -> length f <= 2 ^ 21 ->
  refines knd f (gvn knd (envOf f o worth native) (blocksQ (domAnalysis f o)) f) /\ wfs (gvn knd (envOf f o worth native) (blocksQ (domAnalysis f o)) f).
Proof.
  intros Hw Ho Hl. pose proof Hw as ((Hn & U & Hc & _) & _). apply C36_gvn; auto.
  - now apply (C37_blocks f o Hn Hc Ho).
  - intros a b Ra Rb. destruct (C37_lca f o a b Hn Hc Ho Hl (proj1 U) Ra Rb) as (r & E & A & B & _). unfold envOf. cbn [lcaOf]. rewrite E. auto.
  - intros a b H _. now apply (C37_dominate_exact f o a b Hn Hc Ho).
Qed.

(** ** orders exist for every function, and a graph with a loop, a join that a semidominator does not decide, and unreachable code *)
Definition ordersFor (f : func) : orders :=
  let s b := match get b f with Some bk => nodup Nat.eq_dec (succs (trm bk)) | None => [] end in
  let V := fst (dfs s (entry f) (S (length f))) in
  Orders s (fun w => filter (fun v => mem w (s v)) V) (filter (fun v => negb (Nat.eqb v (entry f))) V).
Theorem ordersFor_ok f : f <> [] -> closed f -> ordersOf f (ordersFor f).
Proof.
  intros Hn Hc. assert (S : forall b y, In y (sc (ordersFor f) b) <-> exists bk, get b f = Some bk /\ In y (succs (trm bk))).
  { intros b y. cbn. destruct (get b f) as [bk|] eqn:E.
    - rewrite nodup_In. split; [eauto|]. intros (bk' & [= <-] & H). exact H.
    - split; [intros []|intros (bk & X & _); discriminate]. }
  assert (T : dfsTree (sc (ordersFor f)) (entry f) (dfseqOf f (ordersFor f)) (faOf f (ordersFor f))).
  { unfold dfseqOf, faOf. replace (length f) with (length (map fst f)) by apply map_length. apply dfs_ok.
    - intros x y _ Hy. apply S in Hy as (bk & E & Hy). exact (Hc x bk y E Hy).
    - destruct f as [|[b bk] r]; [congruence|]. now left. }
  split; [exact S|]. split; [|split].
  - intros v w. unfold dfseqOf. cbn [ordersFor sc pr]. rewrite filter_In, mem_In. reflexivity.
  - apply NoDup_filter. apply T.
  - intros v. unfold dfseqOf. cbn [ordersFor sc od]. rewrite filter_In, negb_true_iff, Nat.eqb_neq. reflexivity.
Qed.
(** 0 -> 1, 2; 1 -> 3; 2 -> 3, 4; 3 -> 5; 4 -> 5; 5 -> 2, 6; 7 unreachable, with an edge to 6 *)
Definition exDom : func :=
  [(0, Block [] [] (TCond (OArg 0) 1 2)); (1, Block [] [] (TBr 3)); (2, Block [] [] (TCond (OArg 1) 3 4)); (3, Block [] [] (TBr 5));
   (4, Block [] [] (TBr 5)); (5, Block [] [] (TSwitch (OArg 0) [(1%Z, 2); (2%Z, 6); (3%Z, 2)] 6)); (6, Block [] [] (TRet None)); (7, Block [] [] (TBr 6))].
Example exDom_ok : exDom <> [] /\ closed exDom /\ ordersOf exDom (ordersFor exDom) /\ length exDom <= 2 ^ 21.
Proof.
  assert (C : closed exDom).
  { assert (W : wf exDom) by (apply wfb_ok; vm_compute; reflexivity). apply W. }
  assert (N : exDom <> []) by discriminate. split; [exact N|]. split; [exact C|]. split; [now apply ordersFor_ok|].
  apply Nat.le_trans with (2 ^ 3); [cbn; lia|]. apply Nat.pow_le_mono_r; lia.
Qed.
Example exDom_parents : map (parentQ (domAnalysis exDom (ordersFor exDom))) [0; 1; 2; 3; 4; 5; 6; 7] = [None; Some 0; Some 0; Some 0; Some 2; Some 0; Some 5; None] /\
  lcaQ (domAnalysis exDom (ordersFor exDom)) 4 6 = Some (Some 0) /\ lcaQ (domAnalysis exDom (ordersFor exDom)) 5 6 = Some (Some 5) /\
  dominateQ (domAnalysis exDom (ordersFor exDom)) 5 6 = true /\ dominateQ (domAnalysis exDom (ordersFor exDom)) 2 5 = false /\
  reachableQ (domAnalysis exDom (ordersFor exDom)) 7 = false /\ lcaQ (domAnalysis exDom (ordersFor exDom)) 4 7 = Some None.
Proof. vm_compute. repeat split. Qed.
