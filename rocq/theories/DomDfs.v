(** Depth-first search of DominateAnalysis::run (cmmc/Analysis/DominateAnalysis.cpp:97-124) and the facts about it the dominator
    algorithm needs. *)
From Coq Require Import Lia Bool List Arith.
Import ListNotations.

Definition mem (x : nat) (l : list nat) : bool := existsb (Nat.eqb x) l.
Lemma mem_In x l : mem x l = true <-> In x l.
Proof. unfold mem. rewrite existsb_exists. split; [intros (y & Hy & E); apply Nat.eqb_eq in E; congruence|intros H; exists x; rewrite Nat.eqb_refl; auto]. Qed.
Lemma mem_nIn x l : mem x l = false <-> ~ In x l.
Proof. rewrite <- mem_In. destruct (mem x l); intuition congruence. Qed.
Definition fset (h : nat -> nat) (x v : nat) : nat -> nat := fun y => if Nat.eqb y x then v else h y.
Lemma fset_eq h x v : fset h x v x = v.
Proof. unfold fset. now rewrite Nat.eqb_refl. Qed.
Lemma fset_ne h x v y : y <> x -> fset h x v y = h y.
Proof. unfold fset. intros H. destruct (Nat.eqb_spec y x); congruence. Qed.

(** ** positions in a list *)
Fixpoint idx (x : nat) (l : list nat) : nat := match l with [] => 0 | a :: l' => if Nat.eqb a x then 0 else S (idx x l') end.
Lemma idx_l x l1 l2 : In x l1 -> idx x (l1 ++ l2) = idx x l1.
Proof. induction l1 as [|a l1 IH]; cbn; [intros []|]. destruct (Nat.eqb_spec a x); auto. intros [->|H]; [congruence|]. now rewrite IH. Qed.
Lemma idx_r x l1 l2 : ~ In x l1 -> idx x (l1 ++ l2) = length l1 + idx x l2.
Proof. induction l1 as [|a l1 IH]; cbn; auto. intros H. destruct (Nat.eqb_spec a x) as [->|]; [tauto|]. rewrite IH; auto. Qed.
Lemma idx_lt x l : In x l <-> idx x l < length l.
Proof.
  induction l as [|a l IH]; cbn; [split; [intros []|lia]|]. destruct (Nat.eqb_spec a x) as [->|N]; [split; [lia|auto]|]. rewrite <- Nat.succ_lt_mono, <- IH.
  split; [intros [->|H]; [congruence|auto]|auto].
Qed.
Lemma idx_inj l x y : In x l -> idx x l = idx y l -> x = y.
Proof.
  induction l as [|a l IH]; cbn; [intros []|]. intros H. destruct (Nat.eqb_spec a x) as [->|N].
  - destruct (Nat.eqb_spec x y); [auto|discriminate].
  - destruct (Nat.eqb_spec a y) as [->|]; [discriminate|]. intros [= E]. apply IH; auto. destruct H; [congruence|auto].
Qed.
Lemma idx_mid x l1 l2 : ~ In x l1 -> idx x (l1 ++ x :: l2) = length l1.
Proof. intros H. rewrite idx_r by auto. cbn. rewrite Nat.eqb_refl. lia. Qed.

Section Dfs.
Variable succ : nat -> list nat.
Variable root : nat.
(** lines 108-121 color; [fst]: dfseq (dfn is one more than the position in it), [snd]: fa.  [fuel] bounds the nesting; dfs_ok shows that
    the number of blocks is enough *)
Fixpoint color (fuel : nat) (st : list nat * (nat -> nat)) (cur parent : nat) : list nat * (nat -> nat) :=
  if mem cur (fst st) then st
  else match fuel with
       | O => st
       | S k => fold_left (fun s x => color k s x cur) (succ cur) (fst st ++ [cur], fset (snd st) cur parent)
       end.
(** the entry is its own parent: fa has no entry for it *)
Definition dfs (fuel : nat) : list nat * (nat -> nat) := color fuel ([], fun x => x) root root.

(** a depth-first forest: the nodes [L], numbered after [pre], hang below [p] *)
Inductive forest (fa : nat -> nat) : list nat -> nat -> list nat -> Prop :=
| f_nil pre p : forest fa pre p []
| f_node pre p c L1 L2 : fa c = p -> In c (succ p) -> (forall y, In y (succ c) -> In y (pre ++ c :: L1)) ->
    forest fa (pre ++ [c]) c L1 -> forest fa (pre ++ c :: L1) p L2 -> forest fa pre p (c :: L1 ++ L2).
Lemma forest_ext fa fa' pre p L : forest fa pre p L -> (forall x, In x L -> fa' x = fa x) -> forest fa' pre p L.
Proof.
  induction 1 as [|pre p c L1 L2 H1 H2 H3 _ IH1 _ IH2]; intros E; [constructor|]. constructor; auto.
  - rewrite E; auto. now left.
  - apply IH1. intros x Hx. apply E. right. apply in_or_app. auto.
  - apply IH2. intros x Hx. apply E. right. apply in_or_app. auto.
Qed.
Lemma forest_app fa pre p L : forest fa pre p L -> forall L', forest fa (pre ++ L) p L' -> forest fa pre p (L ++ L').
Proof.
  induction 1 as [|pre p c L1 L2 H1 H2 H3 HL1 IH1 HL2 IH2]; intros L' H.
  - now rewrite app_nil_r in H.
  - cbn. rewrite <- app_assoc. constructor; auto. apply IH2. rewrite <- app_assoc. exact H.
Qed.
Definition unseen (N pre : list nat) : nat := length (filter (fun x => negb (mem x pre)) N).
Lemma unseen_le N pre pre' : incl pre pre' -> unseen N pre' <= unseen N pre.
Proof.
  intros H. unfold unseen. induction N as [|a N IH]; cbn; auto. destruct (mem a pre) eqn:E1, (mem a pre') eqn:E2; cbn; try lia.
  apply mem_In in E1. apply mem_nIn in E2. exfalso. auto.
Qed.
Lemma unseen_lt N pre c : In c N -> ~ In c pre -> unseen N (pre ++ [c]) < unseen N pre.
Proof.
  intros Hc Hn. induction N as [|a N IH]; [destruct Hc|]. cbn in Hc. assert (K := unseen_le N pre (pre ++ [c]) (fun x h => in_or_app _ _ _ (or_introl h))).
  unfold unseen in *. cbn [filter]. destruct (Nat.eq_dec a c) as [->|D].
  - replace (mem c (pre ++ [c])) with true by (symmetry; apply mem_In, in_or_app; right; now left).
    apply mem_nIn in Hn. rewrite Hn. cbn. lia.
  - destruct Hc as [->|Hc]; [congruence|]. specialize (IH Hc). destruct (mem a pre) eqn:E1, (mem a (pre ++ [c])) eqn:E2; cbn; try lia.
    apply mem_In in E1. apply mem_nIn in E2. exfalso. apply E2. apply in_or_app. auto.
Qed.
(** one call: it appends a tree with root [cur], or nothing if [cur] was there already *)
Lemma color_ok N : (forall x y, In x N -> In y (succ x) -> In y N) -> forall fuel pre fa cur p, In cur N -> incl pre N -> NoDup pre -> unseen N pre < fuel ->
  let st' := color fuel (pre, fa) cur p in
  exists L, fst st' = pre ++ L /\ NoDup (pre ++ L) /\ incl L N /\ In cur (pre ++ L) /\ (forall x, ~ In x L -> snd st' x = fa x) /\
    (L = [] \/ exists L1, L = cur :: L1 /\ snd st' cur = p /\ (forall y, In y (succ cur) -> In y (pre ++ cur :: L1)) /\ forest (snd st') (pre ++ [cur]) cur L1).
Proof.
  intros HN. induction fuel as [|fuel IH]; intros pre fa cur p Hc Hi Hd Hu; [lia|]. cbn [color fst snd].
  destruct (mem cur pre) eqn:Em.
  { apply mem_In in Em. exists []. rewrite app_nil_r. cbn. repeat split; auto. intros x []. }
  apply mem_nIn in Em. assert (Hu' : unseen N (pre ++ [cur]) < fuel) by (pose proof (unseen_lt N pre cur Hc Em); lia).
  assert (Hd' : NoDup (pre ++ [cur])).
  { clear -Hd Em. induction Hd as [|a l Ha Hd IH]; cbn; [constructor; [intros []|constructor]|]. constructor; [|apply IH; intros H; apply Em; now right].
    intros H. apply in_app_or in H as [H|[->|[]]]; [auto|]. apply Em. now left. }
  assert (Hi' : incl (pre ++ [cur]) N) by (intros x Hx; apply in_app_or in Hx as [Hx|[<-|[]]]; auto).
  (* the loop over the successors *)
  assert (K : forall l pre0 fa0, incl l (succ cur) -> incl (pre ++ [cur]) pre0 -> incl pre0 N -> NoDup pre0 ->
     let st' := fold_left (fun s x => color fuel s x cur) l (pre0, fa0) in
     exists L, fst st' = pre0 ++ L /\ NoDup (pre0 ++ L) /\ incl L N /\ (forall y, In y l -> In y (pre0 ++ L)) /\ (forall x, ~ In x L -> snd st' x = fa0 x) /\ forest (snd st') pre0 cur L).
  { induction l as [|a l IHl]; intros pre0 fa0 Hl Hp0 Hi0 Hd0; cbn zeta.
    - exists []. rewrite app_nil_r. cbn. repeat split; auto; try (intros x []). constructor.
    - cbn [fold_left]. assert (Ha : In a (succ cur)) by (apply Hl; now left). assert (Hu0 : unseen N pre0 < fuel) by (pose proof (unseen_le N _ _ Hp0); lia).
      destruct (IH pre0 fa0 a cur (HN cur a Hc Ha) Hi0 Hd0 Hu0) as (L1 & A1 & A2 & A3 & A4 & A5 & A6).
      destruct (color fuel (pre0, fa0) a cur) as [pre1 fa1] eqn:Ec. cbn [fst snd] in *. subst pre1.
      destruct (IHl (pre0 ++ L1) fa1) as (L2 & B1 & B2 & B3 & B4 & B5 & B6).
      + intros y Hy. apply Hl. now right.
      + intros y Hy. apply in_or_app. left. auto.
      + intros y Hy. apply in_app_or in Hy as [Hy|Hy]; auto.
      + exact A2.
      + exists (L1 ++ L2). rewrite !app_assoc in *. repeat split; auto.
        * intros y Hy. apply in_app_or in Hy as [Hy|Hy]; auto.
        * intros y [<-|Hy]; auto. apply in_or_app. now left.
        * intros x Hx. rewrite B5, A5; auto; intros H; apply Hx; apply in_or_app; auto.
        * assert (Fa : forall x, In x L1 -> snd (fold_left (fun s x => color fuel s x cur) l (pre0 ++ L1, fa1)) x = fa1 x).
          { intros x Hx. apply B5. intros H2. rewrite <- app_assoc in B2. clear -B2 Hx H2. induction pre0 as [|b q IHq]; cbn in B2.
            - induction L1 as [|b q IHq]; [destruct Hx|]. cbn in B2. inversion B2; subst. destruct Hx as [->|Hx]; [|auto]. apply H1. apply in_or_app. auto.
            - inversion B2; subst. auto. }
          destruct A6 as [->|(L1' & -> & F1 & F2 & F3)]; [cbn [app]; rewrite app_nil_r in B6 |- *; exact B6|].
          cbn. constructor; auto.
          -- rewrite Fa; auto. now left.
          -- eapply forest_ext; [exact F3|]. intros x Hx. apply Fa. now right. }
  destruct (K (succ cur) (pre ++ [cur]) (fset fa cur p) (fun y h => h) (fun y h => h) Hi' Hd') as (L & A1 & A2 & A3 & A4 & A5 & A6).
  set (st' := fold_left (fun s x => color fuel s x cur) (succ cur) (pre ++ [cur], fset fa cur p)) in *.
  exists (cur :: L). rewrite <- app_assoc in A1, A2. cbn in A1, A2. repeat split; auto.
  - intros y [<-|Hy]; auto.
  - apply in_or_app. right. now left.
  - intros x Hx. rewrite A5; [apply fset_ne; intros ->; apply Hx; now left|]. intros H. apply Hx. now right.
  - right. exists L. repeat split; auto.
    + rewrite A5; [apply fset_eq|]. intros H. clear -A2 H. induction pre as [|b q IHq]; cbn in A2; inversion A2; subst; auto.
    + intros y Hy. specialize (A4 y Hy). rewrite <- app_assoc in A4. exact A4.
Qed.

(** *** ancestors *)
Fixpoint up (fa : nat -> nat) (n x : nat) : nat := match n with O => x | S k => up fa k (fa x) end.
Definition anc (fa : nat -> nat) (u x : nat) : Prop := exists n, up fa n x = u.
Lemma anc_refl fa x : anc fa x x.
Proof. now exists 0. Qed.
Lemma up_add fa n m x : up fa (n + m) x = up fa m (up fa n x).
Proof. revert x. induction n as [|n IH]; intros x; cbn; auto. Qed.
Lemma anc_trans fa a b c : anc fa a b -> anc fa b c -> anc fa a c.
Proof. intros [n Hn] [m Hm]. exists (m + n). now rewrite up_add, Hm. Qed.
Lemma anc_fa fa x : anc fa (fa x) x.
Proof. now exists 1. Qed.
Lemma anc_inv fa u x : anc fa u x -> u = x \/ anc fa u (fa x).
Proof. intros [[|n] H]; [left; auto|right; exists n; auto]. Qed.
Lemma anc_chain fa a b x : anc fa a x -> anc fa b x -> anc fa a b \/ anc fa b a.
Proof.
  intros [n Hn] [m Hm]. destruct (Nat.le_ge_cases n m).
  - right. exists (m - n). rewrite <- Hn, <- up_add. now replace (n + (m - n)) with m by lia.
  - left. exists (n - m). rewrite <- Hm, <- up_add. now replace (m + (n - m)) with n by lia.
Qed.
Lemma forest_anc fa pre p L : forest fa pre p L -> forall x, In x L -> anc fa p x.
Proof.
  induction 1 as [|pre p c L1 L2 H1 H2 H3 _ IH1 _ IH2]; intros x Hx; [destruct Hx|]. assert (A : anc fa p c) by (rewrite <- H1; apply anc_fa).
  destruct Hx as [<-|Hx]; auto. apply in_app_or in Hx as [Hx|Hx]; auto. eapply anc_trans; eauto.
Qed.
Lemma forest_parent fa pre p L : forest fa pre p L -> forall x, In x L -> fa x = p \/ In (fa x) L.
Proof.
  induction 1 as [|pre p c L1 L2 H1 H2 H3 _ IH1 _ IH2]; intros x Hx; [destruct Hx|]. destruct Hx as [<-|Hx]; auto. apply in_app_or in Hx as [Hx|Hx].
  - destruct (IH1 x Hx) as [K|K]; right; [left; auto|right; apply in_or_app; auto].
  - destruct (IH2 x Hx) as [K|K]; auto. right. right. apply in_or_app. auto.
Qed.
Lemma nodup_app_disj (l1 l2 : list nat) x : NoDup (l1 ++ l2) -> In x l1 -> In x l2 -> False.
Proof. induction l1 as [|a l1 IH]; cbn; [auto|]. intros H [->|H1] H2; inversion H as [|? ? Ha Hb]; subst; auto. apply Ha. apply in_or_app. auto. Qed.
Lemma nodup_app_r (l1 l2 : list nat) : NoDup (l1 ++ l2) -> NoDup l2.
Proof. induction l1 as [|a l1 IH]; cbn; auto. intros H. inversion H; auto. Qed.
(** the part of the search below a node *)
Lemma forest_sub fa pre p L : forest fa pre p L -> NoDup (pre ++ L) -> In p pre -> forall c, In c L -> exists A L1 B, L = A ++ c :: L1 ++ B /\
  (forall x, In x L1 -> anc fa c x) /\ (forall y, In y (succ c) -> In y (pre ++ A ++ c :: L1)) /\ (forall x, In x (A ++ B) -> ~ In (fa x) (c :: L1)) /\
  In (fa c) (p :: A) /\ In c (succ (fa c)).
Proof.
  induction 1 as [|pre p c L1 L2 H1 H2 H3 HL1 IH1 HL2 IH2]; intros Nd Hp d Hd; [destruct Hd|].
  assert (N1 : NoDup ((pre ++ [c]) ++ L1 ++ L2)) by (rewrite <- app_assoc; exact Nd).
  assert (N2 : NoDup ((pre ++ c :: L1) ++ L2)) by (rewrite <- app_assoc; exact Nd).
  assert (N1' : NoDup ((pre ++ [c]) ++ L1)). { rewrite app_assoc in N1. clear -N1. induction ((pre ++ [c]) ++ L1); [constructor|]. cbn in N1. inversion N1; subst. constructor; auto. intros H. apply H1. apply in_or_app. auto. }
  assert (Np : ~ In p (c :: L1 ++ L2)) by (intros H; exact (nodup_app_disj pre (c :: L1 ++ L2) p Nd Hp H)).
  assert (P2 : forall x, In x L2 -> ~ In (fa x) (c :: L1)).
  { intros x Hx K. destruct (forest_parent fa _ _ _ HL2 x Hx) as [E|E].
    - apply Np. rewrite E in K. destruct K as [K|K]; [now left|right; apply in_or_app; auto].
    - apply (nodup_app_disj (pre ++ c :: L1) L2 (fa x) N2); auto. apply in_or_app. auto. }
  destruct Hd as [<-|Hd]; [|apply in_app_or in Hd as [Hd|Hd]].
  - exists [], L1, L2. cbn. repeat split; auto; try congruence. apply (forest_anc fa _ _ _ HL1).
  - assert (Hcc : In c (pre ++ [c])) by (apply in_or_app; right; now left).
    destruct (IH1 N1' Hcc d Hd) as (A & M & B & E & A1 & A2 & A3 & A4 & A5).
    exists (c :: A), M, (B ++ L2). split; [rewrite E; cbn; rewrite <- app_assoc; cbn; rewrite <- app_assoc; reflexivity|]. split; auto. split; [|split; [|split; auto]].
    + intros y Hy. specialize (A2 y Hy). rewrite <- app_assoc in A2. exact A2.
    + intros x Hx. assert (Hx' : x = c \/ In x (A ++ B) \/ In x L2).
      { cbn in Hx. destruct Hx as [->|Hx]; auto. right. apply in_app_or in Hx as [Hx|Hx]; [left; apply in_or_app; auto|]. apply in_app_or in Hx as [Hx|Hx]; auto. left. apply in_or_app. auto. }
      assert (IM : incl (d :: M) L1) by (rewrite E; intros y Hy; apply in_or_app; right; destruct Hy as [<-|Hy]; [now left|right; apply in_or_app; auto]).
      destruct Hx' as [->|[Hx'|Hx']]; auto.
      * rewrite H1. intros K. apply Np. right. apply in_or_app. left. auto.
      * intros K. apply (P2 x Hx'). right. auto.
    + destruct A4 as [A4|A4]; [right; left; auto|right; right; auto].
  - assert (Hpp : In p (pre ++ c :: L1)) by (apply in_or_app; now left).
    destruct (IH2 N2 Hpp d Hd) as (A & M & B & E & A1 & A2 & A3 & A4 & A5).
    exists (c :: L1 ++ A), M, B. split; [rewrite E; cbn; now rewrite <- app_assoc|]. split; auto. split; [|split; [|split; auto]].
    + intros y Hy. specialize (A2 y Hy). rewrite <- app_assoc in A2. cbn in *. rewrite <- app_assoc. exact A2.
    + assert (IM : incl (d :: M) L2) by (rewrite E; intros y Hy; apply in_or_app; right; destruct Hy as [<-|Hy]; [now left|right; apply in_or_app; auto]).
      intros x Hx. assert (Hx' : x = c \/ In x L1 \/ In x (A ++ B)).
      { cbn in Hx. destruct Hx as [->|Hx]; auto. right. apply in_app_or in Hx as [Hx|Hx]; [|right; apply in_or_app; auto]. apply in_app_or in Hx as [Hx|Hx]; auto. right. apply in_or_app. auto. }
      destruct Hx' as [->|[Hx'|Hx']]; auto.
      * rewrite H1. intros K. apply Np. right. apply in_or_app. right. auto.
      * intros K. apply (nodup_app_disj (pre ++ c :: L1) L2 (fa x) N2); [|auto]. apply in_or_app. right.
        destruct (forest_parent fa _ _ _ HL1 x Hx') as [Ep|Ep]; [left; auto|right; auto].
    + destruct A4 as [A4|A4]; [left; auto|right; right; apply in_or_app; auto].
Qed.

(** *** what the rest of the algorithm relies on *)
Record dfsTree (V : list nat) (fa : nat -> nat) : Prop := {
  t_root : exists L, V = root :: L;
  t_nodup : NoDup V;
  t_faroot : fa root = root;
  t_closed : forall x y, In x V -> In y (succ x) -> In y V;
  t_fa : forall x, In x V -> x <> root -> In (fa x) V /\ idx (fa x) V < idx x V /\ In x (succ (fa x));
  t_edge : forall x y, In x V -> In y (succ x) -> idx x V < idx y V -> anc fa x y;
  t_between : forall u x y, In u V -> In x V -> In y V -> anc fa u x -> idx u V <= idx y V -> idx y V <= idx x V -> anc fa u y
}.
Theorem dfs_ok N : (forall x y, In x N -> In y (succ x) -> In y N) -> In root N -> dfsTree (fst (dfs (S (length N)))) (snd (dfs (S (length N)))).
Proof.
  intros HN Hr. destruct (color_ok N HN (S (length N)) [] (fun x => x) root root Hr) as (L & A1 & A2 & A3 & A4 & A5 & A6).
  { intros x []. } { constructor. }
  { unfold unseen. assert (K : forall (q : nat -> bool) l, length (filter q l) <= length l) by (induction l as [|a l IH]; cbn; [lia|destruct (q a); cbn; lia]).
    specialize (K (fun x => negb (mem x [])) N). lia. }
  unfold dfs. set (st := color (S (length N)) ([], fun x => x) root root) in *. destruct st as [V fa]. cbn [fst snd] in *. subst V. cbn in A2, A4 |- *.
  destruct A6 as [->|(L1 & -> & F0 & F1 & F2)]; [destruct A4|].
  pose proof (forest_sub fa [root] root L1 F2 A2 (or_introl eq_refl)) as Sub.
  assert (Nr : ~ In root L1) by (inversion A2; auto).
  (* every node but the root, with the part of the search below it *)
  assert (Seg : forall c, In c (root :: L1) -> exists A M B, root :: L1 = A ++ c :: M ++ B /\ (forall x, In x M -> anc fa c x) /\
     (forall y, In y (succ c) -> In y (A ++ c :: M)) /\ (forall x, In x (A ++ B) -> ~ In (fa x) (c :: M)) /\ (c <> root -> In (fa c) A /\ In c (succ (fa c)))).
  { intros c [<-|Hc].
    - exists [], L1, []. cbn. rewrite app_nil_r. split; auto. split; [apply (forest_anc fa _ _ _ F2)|]. split; auto. split; [intros x []|congruence].
    - destruct (Sub c Hc) as (A & M & B & E & B1 & B2 & B3 & B4 & B5). exists (root :: A), M, B. split; [now rewrite E|]. split; [exact B1|]. split; [exact B2|]. split; [|intros _; split; [exact B4|exact B5]].
      intros x [<-|Hx]; [|now apply B3]. rewrite F0. intros [K|K]; [congruence|]. apply Nr. rewrite E. apply in_or_app. right. right. apply in_or_app. auto. }
  assert (Desc : forall A c M B, root :: L1 = A ++ c :: M ++ B -> (forall x, In x (A ++ B) -> ~ In (fa x) (c :: M)) ->
     forall x, In x (root :: L1) -> anc fa c x -> In x (c :: M)).
  { intros A c M B E HB x Hx [n Hn]. revert x Hx Hn. induction n as [|n IH]; intros x Hx Hn; [cbn in Hn; subst; now left|].
    cbn in Hn. assert (Hx' : In x (A ++ B) \/ In x (c :: M)).
    { rewrite E in Hx. apply in_app_or in Hx as [Hx|[Hx|Hx]]; [left; apply in_or_app; auto|right; now left|]. apply in_app_or in Hx as [Hx|Hx]; [right; now right|left; apply in_or_app; auto]. }
    destruct Hx' as [Hx'|Hx']; auto. exfalso. apply (HB x Hx'). apply IH; auto.
    destruct (Nat.eq_dec x root) as [->|D]; [rewrite F0; now left|]. destruct Hx as [Hx|Hx]; [congruence|].
    destruct (forest_parent fa _ _ _ F2 x Hx) as [K|K]; [rewrite K; now left|now right]. }
  constructor.
  - eauto.
  - exact A2.
  - exact F0.
  - intros x y Hx Hy. destruct (Seg x Hx) as (A & M & B & E & _ & B2 & _). rewrite E. specialize (B2 y Hy).
    apply in_app_or in B2 as [H|[H|H]]; apply in_or_app; auto; right; [now left|right; apply in_or_app; auto].
  - intros x Hx D. destruct (Seg x Hx) as (A & M & B & E & _ & _ & _ & B4). destruct (B4 D) as [K1 K2]. rewrite E. split; [apply in_or_app; auto|]. split; auto.
    rewrite E in A2. rewrite (idx_l (fa x)) by auto. rewrite idx_mid; [now apply idx_lt|]. intros H. eapply nodup_app_disj; [exact A2|exact H|now left].
  - intros x y Hx Hy Hlt. destruct (Seg x Hx) as (A & M & B & E & B1 & B2 & _). specialize (B2 y Hy). rewrite E in Hlt, A2.
    rewrite idx_mid in Hlt by (intros H; eapply nodup_app_disj; [exact A2|exact H|now left]).
    apply in_app_or in B2 as [H|[H|H]]; auto.
    + rewrite (idx_l y) in Hlt by auto. apply idx_lt in H. lia.
    + subst. apply anc_refl.
  - intros u x y Hu Hx Hy Ha H1 H2. destruct (Seg u Hu) as (A & M & B & E & B1 & B2 & B3 & _).
    pose proof (Desc A u M B E B3 x Hx Ha) as Dx.
    assert (NA : forall z, In z (u :: M) -> ~ In z A).
    { intros z Hz HA. rewrite E in A2. eapply nodup_app_disj; [exact A2|exact HA|]. destruct Hz as [<-|Hz]; [now left|right; apply in_or_app; auto]. }
    assert (Dy : In y (u :: M)).
    { rewrite E in Hy, H1, H2. rewrite (idx_mid u) in H1 by (apply NA; now left). rewrite (idx_r x) in H2 by auto.
      assert (L0 : idx x (u :: M ++ B) < length (u :: M)) by (change (u :: M ++ B) with ((u :: M) ++ B); rewrite idx_l by auto; now apply idx_lt).
      apply in_app_or in Hy as [Hy|Hy]; [rewrite (idx_l y) in H1 by auto; apply idx_lt in Hy; lia|].
      change (u :: M ++ B) with ((u :: M) ++ B) in *. destruct (in_dec Nat.eq_dec y (u :: M)) as [|Hn]; auto. exfalso.
      rewrite idx_r in H2; [|intros HA; rewrite E in A2; eapply nodup_app_disj; [exact A2|exact HA|exact Hy]].
      rewrite (idx_r y (u :: M)) in H2 by auto. lia. }
    destruct Dy as [<-|Dy]; [apply anc_refl|auto].
Qed.
End Dfs.
