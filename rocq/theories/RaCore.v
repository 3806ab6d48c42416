(** When the colouring gives up, and what an intersection of live intervals means. *)
From Coq Require Import ZArith Lia Bool List Arith.
From Verif Require Import GMir RaMir RaLive RaIv RaColor.
Import ListNotations.

(* ------------------------------------------------------------------ *)
(** * Spilling starts only if it must *)
(** A set of registers each of which has [k] or more neighbours that are physical or in the set. *)
Definition core (k : nat) (g : graph) (S : list nat) : Prop :=
  S <> [] /\ NoDup S /\ incl S (nodes g) /\
  forall u, In u S -> k <= length (filter (later S) (gadj g (Virt u))).

Lemma filter_all {A} (f : A -> bool) l : (forall x, In x l -> f x = true) -> filter f l = l.
Proof. induction l as [|a l IH]; intros H; cbn; [reflexivity|]. rewrite H by now left. rewrite IH; auto. intros; apply H; now right. Qed.

Section Core.
Variable k : nat.
Variable top : nat -> list nat -> nat.
Hypothesis topOk : forall n q, q <> [] -> In (top n q) q.

Lemma simplify_none n : forall g q, gok g -> qok k g q -> length (nodes g) <= n -> simplify k top n g q = None ->
  exists S, core k g S.
Proof using topOk.
  induction n as [|n IH]; intros g q G Q L H; cbn [simplify] in H.
  - destruct (nodes g); [discriminate|cbn in L; lia].
  - destruct (nodes g) as [|n0 r0] eqn:E; [discriminate|]. rewrite <- E in L.
    pose proof (pick_ok k top topOk (S n) g q G Q) as P.
    destruct (pickToAssign k top (S n) g q) as [[[u g'] q']|].
    + destruct P as (P1 & P2 & P3 & P4 & P5 & P6).
      destruct (simplify k top n g' q') eqn:Es; [discriminate|].
      destruct (IH g' q' P3 P4) as (S & S1 & S2 & S3 & S4); [|exact Es|].
      { rewrite P5. unfold ndel. clear -L P1. enough (length (filter (fun x => negb (Nat.eqb x u)) (nodes g)) < length (nodes g)) by lia.
        revert P1. generalize (nodes g) as l. induction l as [|a l IHl]; cbn; intros [].
        - subst a. rewrite Nat.eqb_refl. cbn. clear. induction l as [|a l IHl]; cbn; [lia|]. destruct (negb (Nat.eqb a u)); cbn; lia.
        - specialize (IHl H). destruct (negb (Nat.eqb a u)); cbn; lia. }
      exists S. split; [exact S1|]. split; [exact S2|].
      assert (Su : ~ In u S). { intros X. apply S3 in X. rewrite P5 in X. apply in_ndel in X. tauto. }
      split; [intros x Hx; apply S3 in Hx; rewrite P5 in Hx; now apply in_ndel in Hx|].
      intros v Hv. etransitivity; [exact (S4 v Hv)|]. apply NoDup_incl_length; [apply NoDup_filter, (g_nd g' P3)|].
      intros w Hw. apply filter_In in Hw as [W1 W2]. apply filter_In. split; [|exact W2].
      apply P6 in W1; [tauto|]. intros ->. contradiction.
    + exists (nodes g). split; [congruence|]. split; [apply (g_nodes g G)|]. split; [intros x; auto|].
      intros v Hv. rewrite filter_all.
      * rewrite <- (g_deg g G). destruct (le_lt_dec k (deg g v)); [assumption|]. exfalso.
        assert (X : In v q) by (apply Q; auto). rewrite P in X. destruct X.
      * intros [x|x] Hx; [reflexivity|]. cbn. apply nmem_In. now apply (g_virt g G (Virt v)).
Qed.
Lemma first_in (S : list nat) : S <> [] -> forall order, (forall v, In v S -> In v order) ->
  exists pre u post, order = pre ++ u :: post /\ In u S /\ (forall v, In v S -> v = u \/ In v post).
Proof.
  intros N. induction order as [|x r IH]; intros H.
  - destruct S as [|s S']; [congruence|]. destruct (H s (or_introl eq_refl)).
  - destruct (in_dec Nat.eq_dec x S) as [Hx|Hx].
    + exists [], x, r. split; [reflexivity|]. split; [exact Hx|]. intros v Hv. destruct (H v Hv); auto.
    + destruct IH as (pre & u & post & E & H1 & H2).
      { intros v Hv. destruct (H v Hv); [subst; contradiction|assumption]. }
      exists (x :: pre), u, post. split; [now rewrite E|]. auto.
Qed.
Lemma simplify_core n g q S order : gok g -> qok k g q -> core k g S -> simplify k top n g q = Some order -> False.
Proof using topOk.
  intros G Q (S1 & S2 & S3 & S4) H. destruct (simplify_ok k top topOk n g q order G Q H) as (O1 & O2 & O3).
  destruct (first_in S S1 order ltac:(intros v Hv; apply O2, S3, Hv)) as (pre & u & post & E & H1 & H2).
  specialize (O3 pre u post E). specialize (S4 u H1).
  assert (length (filter (later S) (gadj g (Virt u))) <= length (filter (later post) (gadj g (Virt u)))); [|lia].
  apply NoDup_incl_length; [apply NoDup_filter, (g_nd g G)|]. intros w Hw. apply filter_In in Hw as [W1 W2].
  apply filter_In. split; [exact W1|]. destruct w as [x|x]; [reflexivity|]. cbn in *. apply nmem_In in W2.
  apply nmem_In. destruct (H2 x W2) as [->|]; [|assumption]. destruct (g_irr g G _ W1).
Qed.
Variable alloc : list nat.
Variable hints : nat -> list reg.
Variable best choose : nat -> list nat -> nat.
Theorem spill_core g m : gok g -> (color k top alloc hints best choose g m = Spill <-> exists S, core k g S).
Proof using topOk.
  intros G. unfold color. destruct (simplify k top (length (nodes g)) g (prepare k g)) as [order|] eqn:E.
  - split.
    + destruct (select alloc hints best choose g (rev order) m); discriminate.
    + intros (S & HS). destruct (simplify_core _ _ _ S order G (prepare_ok k g G) HS E).
  - split; [|reflexivity]. intros _. exact (simplify_none _ g _ G (prepare_ok k g G) (le_n _) E).
Qed.
End Core.

(* ------------------------------------------------------------------ *)
(** * Intersections *)
(** segments start at an instruction or right after it *)
Definition begOk (b : nat) : Prop := exists k, b = numOf k \/ b = numOf k + 1.
Section Beg.
Context {W : Type}.
Variable t : mach W.
Definition begInv (s : sst) : Prop := forall v, (forall x, In x (iv s v) -> begOk (fst x)) /\
  match cur s v with Some x => begOk (fst x) | None => True end.
Lemma useOp_beg first k s v : begOk first -> begInv s -> begInv (useOp first k s v).
Proof.
  intros F H x. destruct (H x) as [H1 H2]. cbn. split; [exact H1|]. unfold fupdN.
  destruct (Nat.eqb_spec x v) as [->|]; [|exact H2]. destruct (cur s v) as [[b e]|]; cbn; [exact H2|exact F].
Qed.
Lemma defOp_beg k s v : begInv s -> begInv (defOp k s v).
Proof.
  intros H x. pose proof (H v) as [V1 V2]. destruct (H x) as [H1 H2]. unfold defOp.
  assert (B : begOk (numOf k + 1)) by (exists k; auto).
  destruct (cur s v) as [[b e]|] eqn:E.
  - destruct (Nat.eqb e (numOf k + 1)); cbn; unfold fupdN.
    + split; [exact H1|]. destruct (Nat.eqb_spec x v) as [->|]; [exact V2|exact H2].
    + destruct (Nat.eqb_spec x v) as [->|]; cbn; [|split; [exact H1|exact H2]]. split; [|exact B].
      intros y Hy. apply in_app_or in Hy as [Hy|[<-|[]]]; [auto|exact V2].
  - cbn. split; [exact H1|]. unfold fupdN. destruct (Nat.eqb_spec x v) as [->|]; [exact B|exact H2].
Qed.
Lemma scanBlk_beg blk : forall first k s, begOk first -> begInv s -> begInv (scanBlk t first k s blk).
Proof.
  induction blk as [|i r IH]; intros first k s F H; cbn; [exact H|]. apply IH; [exact F|]. unfold scanInst.
  assert (U : begInv (fold_left (useOp first k) (vuses t i) s)).
  { revert s H. induction (vuses t i) as [|v l IHl]; intros s H; cbn; [exact H|]. apply IHl. now apply useOp_beg. }
  revert U. generalize (fold_left (useOp first k) (vuses t i) s) as s0.
  induction (vdefs t i) as [|v l IHl]; intros s0 U; cbn; [exact U|]. apply IHl. now apply defOp_beg.
Qed.
Lemma scanAll_beg ins outs p : forall b k s, begInv s -> begInv (scanAll t ins outs b k s p).
Proof.
  induction p as [|blk p IH]; intros b k s H; cbn; [exact H|]. apply IH. unfold blkScan.
  assert (F : begOk (blkFirst k blk)). { unfold blkFirst. destruct blk; [exists 0|exists k]; auto. }
  pose proof (scanBlk_beg blk (blkFirst k blk) k s F H) as U. intros v. destruct (U v) as [U1 U2].
  cbn. split; [|exact Logic.I]. intros x Hx. apply in_app_or in Hx as [Hx|Hx]; [auto|].
  destruct (cur (scanBlk t (blkFirst k blk) k s blk) v) as [[b0 e]|].
  - destruct Hx as [<-|[]]. exact U2.
  - destruct (nmem v (outs b) && nmem v (ins b)); [|destruct Hx]. destruct Hx as [<-|[]]. exact F.
Qed.
Lemma optimize_beg l : (forall x, In x l -> begOk (fst x)) -> forall x, In x (optimize l) -> begOk (fst x).
Proof.
  destruct l as [|c l]; cbn; [auto|].
  assert (X : forall l acc c, (forall x, In x acc -> begOk (fst x)) -> begOk (fst c) -> (forall x, In x l -> begOk (fst x)) ->
    forall x, In x (optLoop acc c l) -> begOk (fst x)).
  { clear. induction l as [|y l IH]; intros acc c A C H x Hx; cbn [optLoop] in Hx.
    - apply in_app_or in Hx as [Hx|[<-|[]]]; auto.
    - destruct (Nat.ltb (snd c) (fst y)).
      + eapply IH; [| | |exact Hx].
        * intros z Hz. apply in_app_or in Hz as [Hz|[<-|[]]]; auto.
        * apply H. now left.
        * intros z Hz. apply H. now right.
      + eapply IH; [exact A| | |exact Hx]; [exact C|]. intros z Hz. apply H. now right. }
  intros H x Hx. eapply X; [| | |exact Hx]; [intros z []|apply H; now left|intros z Hz; apply H; now right].
Qed.
Lemma calc_beg p li : calcLiveIntervals t p = Some li -> forall v x, In x (liIv li v) -> begOk (fst x).
Proof.
  unfold calcLiveIntervals. destruct (solve t p) as [[ins outs]|]; [|discriminate]. intros H. injection H as <-. cbn.
  intros v. apply optimize_beg. apply (scanAll_beg ins outs p 0 0 sst0).
  intros w. cbn. split; [intros x []|exact Logic.I].
Qed.
Lemma covers_round (l : list seg) k d : (forall x, In x l -> begOk (fst x)) -> 2 <= d < 4 ->
  covers l (numOf k + d) -> covers l (numOf k + 1).
Proof.
  intros B D (s & H1 & H2). exists s. split; [exact H1|]. destruct (B s H1) as (j & Hj). unfold inSeg, numOf in *. lia.
Qed.
Lemma locate p : forall q, q < length (concat p) ->
  exists b blk j i, nth_error p b = Some blk /\ nth_error blk j = Some i /\ q = base p b + j.
Proof.
  induction p as [|blk p IH]; intros q L; cbn in L; [lia|]. rewrite app_length in L.
  destruct (le_lt_dec (length blk) q) as [X|X].
  - destruct (IH (q - length blk) ltac:(lia)) as (b & blk' & j & i & E1 & E2 & E3).
    exists (S b), blk', j, i. split; [exact E1|]. split; [exact E2|]. rewrite base_cons. lia.
  - destruct (nth_error blk q) as [i|] eqn:E; [|apply nth_error_None in E; lia].
    exists 0, blk, q, i. rewrite base_0. auto.
Qed.

(** [v] occupies a register just before the instruction / just after it *)
Definition holdsBefore (p : mfunc) (b j v : nat) : Prop := liveAt t p b j v.
Definition holdsAfter (p : mfunc) (b j : nat) (i : inst) (v : nat) : Prop := liveAt t p b (S j) v \/ In v (vdefs t i).

Theorem intersect_meaning p li : calcLiveIntervals t p = Some li -> liveSpec t p li -> forall u v,
  intersectWith (liIv li u) (liIv li v) = true <->
  exists b blk j i, nth_error p b = Some blk /\ nth_error blk j = Some i /\
    ((holdsBefore p b j u /\ holdsBefore p b j v) \/ (holdsAfter p b j i u /\ holdsAfter p b j i v)).
Proof.
  intros C LS u v. rewrite (intersect_exact _ _ _ _ _ _ (ls_chain _ _ _ LS u) (ls_chain _ _ _ LS v)). split.
  - intros (x & Xu & Xv).
    assert (R : exists k, (covers (liIv li u) (numOf k) /\ covers (liIv li v) (numOf k)) \/
                          (covers (liIv li u) (numOf k + 1) /\ covers (liIv li v) (numOf k + 1))).
    { exists (x / 4). pose proof (Nat.div_mod x 4 ltac:(lia)) as D. pose proof (Nat.mod_upper_bound x 4 ltac:(lia)) as M.
      remember (x mod 4) as r. remember (x / 4) as k. change (4 * k) with (numOf k) in D. subst x.
      destruct r as [|[|r]].
      - rewrite Nat.add_0_r in *. auto.
      - auto.
      - right. split; apply covers_round with (S (S r)); try lia; auto; apply (calc_beg p li C). }
    destruct R as [k R].
    assert (L : k < length (concat p)).
    { destruct R as [[R _]|[R _]]; apply (chain_bound _ _ _ _ (ls_chain _ _ _ LS u)) in R; unfold numOf in R; lia. }
    destruct (locate p k L) as (b & blk & j & i & E1 & E2 & ->). exists b, blk, j, i. split; [exact E1|]. split; [exact E2|].
    destruct R as [[Ru Rv]|[Ru Rv]].
    + left. split; apply (ls_use t p li LS b blk j i); auto.
    + right. split; apply (ls_def t p li LS b blk j i); auto.
  - intros (b & blk & j & i & E1 & E2 & [[A B]|[A B]]).
    + exists (numOf (base p b + j)). split; apply (ls_use t p li LS b blk j i); auto.
    + exists (numOf (base p b + j) + 1). split; apply (ls_def t p li LS b blk j i); auto.
Qed.
End Beg.
