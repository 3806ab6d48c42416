(** Facts about the interval scan of [RaLive]: the intervals cover exactly the points where a register is live, their
    segments are separated, and a dead flag is put only on a use after which the register is not live. *)
From Coq Require Import ZArith Lia Bool List Arith.
From Verif Require Import GMir RaMir RaLive.
Import ListNotations.

Definition inSeg (x : nat) (s : seg) : Prop := fst s <= x < snd s.
(** the point [x] lies in a list of segments; specification *)
Definition covers (l : list seg) (x : nat) : Prop := exists s, In s l /\ inSeg x s.
Lemma covers_app a b x : covers (a ++ b) x <-> covers a x \/ covers b x.
Proof.
  unfold covers. split.
  - intros (s & H & H1). apply in_app_or in H as [H|H]; eauto.
  - intros [(s & H & H1)|(s & H & H1)]; exists s; split; auto; apply in_or_app; auto.
Qed.
Lemma covers_one b e x : covers [(b, e)] x <-> b <= x < e.
Proof.
  unfold covers, inSeg. split.
  - intros (s & [<-|[]] & H). exact H.
  - intros H. exists (b, e). split; [now left|exact H].
Qed.
Lemma covers_nil x : ~ covers [] x.
Proof. intros (s & [] & _). Qed.

(** nonempty segments in ascending order, with a gap between them, all within [lo, hi) and at least one before [hi] *)
Fixpoint chain (lo : nat) (l : list seg) (hi : nat) : Prop :=
  match l with [] => lo <= hi | (b, e) :: r => lo <= b /\ b < e /\ chain (S e) r hi end.
Lemma chain_le l : forall lo hi, chain lo l hi -> lo <= hi.
Proof. induction l as [|[b e] r IH]; cbn; intros lo hi H; [exact H|]. destruct H as (H1 & H2 & H3). apply IH in H3. lia. Qed.
Lemma chain_app l : forall lo m r hi, chain lo l m -> chain m r hi -> chain lo (l ++ r) hi.
Proof.
  induction l as [|[b e] l IH]; cbn; intros lo m r hi H1 H2.
  - destruct r as [|[b e] r]; cbn in *; [lia|]. destruct H2 as (A & B & C). repeat split; auto. lia.
  - destruct H1 as (A & B & C). repeat split; auto. now apply IH with m.
Qed.
Lemma chain_weak l : forall lo hi lo' hi', lo' <= lo -> hi <= hi' -> chain lo l hi -> chain lo' l hi'.
Proof.
  induction l as [|[b e] l IH]; cbn; intros lo hi lo' hi' H1 H2 H; [lia|].
  destruct H as (A & B & C). repeat split; try lia. apply (IH (S e) hi); auto.
Qed.
Lemma chain_bound l : forall lo hi x, chain lo l hi -> covers l x -> lo <= x /\ S x < hi.
Proof.
  induction l as [|[b e] l IH]; cbn; intros lo hi x H C; [destruct (covers_nil _ C)|].
  destruct H as (A & B & D). change ((b, e) :: l) with ([(b, e)] ++ l) in C. apply covers_app in C as [C|C].
  - apply covers_one in C. apply chain_le in D. lia.
  - apply (IH _ _ _ D) in C. lia.
Qed.

(** ** verify, optimize, intersectWith on such lists *)
Lemma verifyLoop_chain l : forall val lo hi, val < lo -> chain lo l hi -> verifyLoop val l = true.
Proof.
  induction l as [|[b e] l IH]; cbn [verifyLoop chain]; intros val lo hi H C; [reflexivity|]. destruct C as (A & B & D).
  destruct (Nat.leb_spec e b); [lia|]. destruct (Nat.leb_spec e val); [lia|]. apply (IH e (S e) hi); auto.
Qed.
Lemma verify_chain l hi : chain 0 l hi -> verifyIv l = true.
Proof.
  unfold verifyIv. destruct l as [|[b e] l]; cbn [verifyLoop chain]; [reflexivity|]. intros (A & B & D).
  destruct (Nat.leb_spec e b); [lia|]. destruct (Nat.leb_spec e 0); [lia|]. apply (verifyLoop_chain l e (S e) hi); auto.
Qed.
Lemma optLoop_chain l : forall acc b e lo hi, e < lo -> chain lo l hi -> optLoop acc (b, e) l = acc ++ (b, e) :: l.
Proof.
  induction l as [|[b2 e2] l IH]; cbn [optLoop chain fst snd]; intros acc b e lo hi H C; [reflexivity|]. destruct C as (A & B & D).
  destruct (Nat.ltb_spec e b2); [|lia]. etransitivity; [apply (IH _ b2 e2 (S e2) hi); [lia|exact D]|]. now rewrite <- app_assoc.
Qed.
Lemma optimize_chain l lo hi : chain lo l hi -> optimize l = l.
Proof.
  destruct l as [|[b e] l]; [reflexivity|]. cbn. intros (A & B & D).
  exact (optLoop_chain l [] b e (S e) hi (Nat.lt_succ_diag_r e) D).
Qed.
Lemma skipTo_chain beg l : forall lo hi, chain lo l hi ->
  (exists lo', chain lo' (skipTo beg l) hi) /\
  (forall x, beg <= x -> (covers l x <-> covers (skipTo beg l) x)) /\
  (match skipTo beg l with [] => True | (b, e) :: _ => beg < e /\ b < e end).
Proof.
  induction l as [|[b e] l IH]; intros lo hi C; cbn [skipTo].
  - split; [eauto|]. split; [tauto|exact I].
  - destruct C as (A & B & D). destruct (Nat.leb_spec e beg) as [L|L].
    + destruct (IH _ _ D) as (H1 & H2 & H3). split; [exact H1|]. split; [|exact H3].
      intros x Hx. rewrite <- H2 by exact Hx. change ((b, e) :: l) with ([(b, e)] ++ l). rewrite covers_app, covers_one.
      intuition lia.
    + split; [exists lo; cbn; auto|]. split; [tauto|auto].
Qed.
Lemma intersect_exact l : forall r lo hi lo2 hi2, chain lo l hi -> chain lo2 r hi2 ->
  (intersectWith l r = true <-> exists x, covers l x /\ covers r x).
Proof.
  induction l as [|[b e] l IH]; intros r lo hi lo2 hi2 C1 C2; cbn [intersectWith].
  - split; [discriminate|]. intros (x & H & _). destruct (covers_nil _ H).
  - destruct C1 as (A & B & D). destruct (skipTo_chain b r lo2 hi2 C2) as ((lo3 & H1) & H2 & H3).
    assert (Low : forall x, covers ((b, e) :: l) x -> b <= x).
    { intros x Hx. change ((b, e) :: l) with ([(b, e)] ++ l) in Hx. rewrite covers_app, covers_one in Hx.
      destruct Hx as [Hx|Hx]; [lia|]. apply (chain_bound _ _ _ _ D) in Hx. lia. }
    destruct (skipTo b r) as [|[b2 e2] r'] eqn:Es.
    + split; [discriminate|]. intros (x & X1 & X2). apply H2 in X2; [|now apply Low]. destruct (covers_nil _ X2).
    + destruct H3 as [H3 H4]. destruct (Nat.ltb_spec b2 e) as [L|L].
      * split; [intros _|auto]. exists (Nat.max b b2). split.
        -- exists (b, e). split; [now left|]. unfold inSeg; cbn; lia.
        -- apply H2; [lia|]. exists (b2, e2). split; [now left|]. unfold inSeg; cbn; lia.
      * rewrite (IH ((b2, e2) :: r') _ _ _ _ D H1). split; intros (x & X1 & X2); exists x.
        -- split; [|apply H2; [|exact X2]].
           ++ change ((b, e) :: l) with ([(b, e)] ++ l). apply covers_app. now right.
           ++ apply (chain_bound _ _ _ _ D) in X1. lia.
        -- apply H2 in X2; [|now apply Low]. split; [|exact X2].
           change ((b, e) :: l) with ([(b, e)] ++ l) in X1. rewrite covers_app, covers_one in X1.
           destruct X1 as [X1|X1]; [|exact X1]. exfalso.
           destruct H1 as (P1 & P2 & P3). change ((b2, e2) :: r') with ([(b2, e2)] ++ r') in X2.
           rewrite covers_app, covers_one in X2. destruct X2 as [X2|X2]; [lia|].
           apply (chain_bound _ _ _ _ P3) in X2. lia.
Qed.

(* ------------------------------------------------------------------ *)
(** * The scan seen from one register *)
Section Scan.
Context {W : Type}.
Variable t : mach W.
Variable v : nat.
Definition pst := (option seg * option nat * list seg * list nat)%type.
Definition proj (s : sst) : pst := (cur s v, lst s v, iv s v, dead s v).
Definition pUse (first k : nat) (x : pst) : pst :=
  let '(c, l, i, d) := x in
  (Some (match c with Some (b, _) => (b, numOf k + 1) | None => (first, numOf k + 1) end), Some k, i, d).
Definition pDef (k : nat) (x : pst) : pst :=
  let '(c, l, i, d) := x in
  match c with
  | Some (b, e) =>
      if Nat.eqb e (numOf k + 1) then (Some (b, numOf k + 2), l, i, d)
      else (Some (numOf k + 1, numOf k + 2), None, i ++ [(b, e)], match l with Some j => j :: d | None => d end)
  | None => (Some (numOf k + 1, numOf k + 2), l, i, d)
  end.
Definition pInst (first k : nat) (x : pst) (i : inst) : pst :=
  let y := if nmem v (vuses t i) then pUse first k x else x in
  if nmem v (vdefs t i) then pDef k y else y.
Fixpoint pBlk (first k : nat) (x : pst) (blk : list inst) : pst :=
  match blk with [] => x | i :: r => pBlk first (S k) (pInst first k x i) r end.

Lemma useOp_proj first k s x :
  proj (useOp first k s x) = if Nat.eqb v x then pUse first k (proj s) else proj s.
Proof.
  unfold proj, useOp, fupdN, pUse. cbn. destruct (Nat.eqb_spec v x) as [->|N]; reflexivity.
Qed.
Lemma defOp_proj k s x : proj (defOp k s x) = if Nat.eqb v x then pDef k (proj s) else proj s.
Proof.
  unfold proj, defOp, pDef, fupdN. destruct (Nat.eqb_spec v x) as [<-|N].
  - destruct (cur s v) as [[b e]|]; [destruct (Nat.eqb e (numOf k + 1))|]; cbn; rewrite ?Nat.eqb_refl; try reflexivity.
    destruct (lst s v); cbn; rewrite ?Nat.eqb_refl; reflexivity.
  - apply Nat.eqb_neq in N. destruct (cur s x) as [[b e]|]; [destruct (Nat.eqb e (numOf k + 1))|]; cbn; rewrite ?N; try reflexivity.
    destruct (lst s x); cbn; rewrite ?N; reflexivity.
Qed.
Lemma pUse_idem first k x : pUse first k (pUse first k x) = pUse first k x.
Proof. destruct x as [[[[[b e]|] l] i] d]; reflexivity. Qed.
Lemma uses_proj first k l : forall s,
  proj (fold_left (useOp first k) l s) = if nmem v l then pUse first k (proj s) else proj s.
Proof.
  induction l as [|x l IH]; intros s; cbn [fold_left]; [reflexivity|].
  rewrite IH, useOp_proj. cbn [nmem existsb]. fold (nmem v l).
  destruct (Nat.eqb v x), (nmem v l); cbn [orb]; try reflexivity. apply pUse_idem.
Qed.
Lemma defs_proj k l : NoDup l -> forall s,
  proj (fold_left (defOp k) l s) = if nmem v l then pDef k (proj s) else proj s.
Proof.
  induction l as [|x l IH]; intros ND s; cbn [fold_left]; [reflexivity|].
  inversion ND as [|? ? N1 N2]; subst. rewrite IH by exact N2. rewrite defOp_proj. cbn [nmem existsb]. fold (nmem v l).
  destruct (Nat.eqb_spec v x) as [E|E]; cbn [orb]; [|reflexivity].
  rewrite E in *. apply nmem_nIn in N1. rewrite N1. reflexivity.
Qed.
Lemma scanInst_proj first k s i : NoDup (vdefs t i) -> proj (scanInst t first k s i) = pInst first k (proj s) i.
Proof.
  intros ND. unfold scanInst, pInst. rewrite (defs_proj k _ ND), uses_proj. reflexivity.
Qed.
Lemma scanBlk_proj blk : forall first k s, (forall i, In i blk -> NoDup (vdefs t i)) ->
  proj (scanBlk t first k s blk) = pBlk first k (proj s) blk.
Proof.
  induction blk as [|i r IH]; intros first k s H; cbn [scanBlk pBlk]; [reflexivity|].
  rewrite IH by (intros; apply H; now right). rewrite scanInst_proj by (apply H; now left). reflexivity.
Qed.

(** the segments a block yields, from a state of the scan *)
Section Blk.
Variables first : nat.
Variable out : bool.
Definition live (suf : list inst) : Prop := sufLive t suf (out = true) v.
(** [k]: position of the next instruction *)
Definition fin (k : nat) (x : pst) : list seg :=
  let '(c, l, i, d) := x in
  i ++ match c with
       | Some (b, e) => [(b, if out then numOf (k - 1) + 2 else e)]
       | None => if out then [(first, numOf (k - 1) + 2)] else []
       end.
Definition okSt (k : nat) (x : pst) : Prop :=
  let '(c, l, i, d) := x in
  exists hi, chain first i hi /\
  match c with
  | Some (b, e) => hi <= b /\ b < e /\ e + 2 <= numOf k
  | None => i = []
  end.

Lemma pInst_ok k x i : first <= numOf k -> okSt k x -> okSt (S k) (pInst first k x i).
Proof.
  intros F H. unfold pInst. destruct x as [[[c l] iv0] d]. cbn in H. destruct H as (hi & H1 & H2).
  destruct (nmem v (vuses t i)), (nmem v (vdefs t i)), c as [[b e]|]; cbn [pUse pDef]; unfold numOf in *;
    rewrite ?Nat.eqb_refl; cbn [okSt];
    try (destruct (Nat.eqb_spec e (4 * k + 1)); [lia|]); cbn [okSt].
  all: try (exists hi; split; [exact H1|unfold numOf; lia]).
  all: try (subst iv0; exists first; split; [cbn; lia|unfold numOf; lia]).
  - exists (S e). split; [|unfold numOf; lia]. apply chain_app with hi; [exact H1|]. cbn. lia.
  - exists hi. split; [exact H1|exact H2].
Qed.

(** the points before the next instruction that the block will have covered *)
Lemma pBlk_before suf : forall k x c l i d, x = (c, l, i, d) -> first <= numOf k -> okSt k x ->
  forall y, y + 2 < numOf k ->
  (covers (fin (k + length suf) (pBlk first k x suf)) y <->
   covers i y \/ match c with
                 | Some (b, e) => b <= y /\ (live suf \/ y < e)
                 | None => live suf /\ first <= y
                 end).
Proof.
  induction suf as [|a suf IH]; intros k x c l i d -> F H y Y.
  - cbn [length pBlk]. rewrite Nat.add_0_r. cbn [fin]. rewrite covers_app. unfold live, numOf in *. cbn [sufLive].
    cbn [okSt] in H. destruct H as (hi & H1 & H2). unfold numOf in *.
    destruct c as [[b e]|].
    + rewrite covers_one. destruct out; intuition (try lia; try discriminate).
    + pose proof (covers_nil y). destruct out; [rewrite covers_one|]; intuition (try lia; try discriminate).
  - cbn [pBlk length]. replace (k + S (length suf)) with (S k + length suf) by lia.
    pose proof (pInst_ok k _ a F H) as H'.
    destruct (pInst first k (c, l, i, d) a) as [[[c' l'] i'] d'] eqn:E.
    assert (F' : first <= numOf (S k)) by (unfold numOf in *; lia).
    assert (Y' : y + 2 < numOf (S k)) by (unfold numOf in *; lia).
    rewrite (IH (S k) _ c' l' i' d' eq_refl F' H' y Y'). clear IH.
    unfold pInst in E. unfold live. cbn [sufLive]. fold (live suf).
    cbn [okSt] in H. destruct H as (hi & H1 & H2).
    destruct (nmem v (vuses t a)) eqn:Eu, (nmem v (vdefs t a)) eqn:Ed;
      (apply nmem_In in Eu || apply nmem_nIn in Eu); (apply nmem_In in Ed || apply nmem_nIn in Ed);
      destruct c as [[b e]|]; cbn [pUse pDef] in E; unfold numOf in *; rewrite ?Nat.eqb_refl in E;
      try (destruct (Nat.eqb_spec e (4 * k + 1)); [lia|]); injection E as <- <- <- <-;
      rewrite ?covers_app, ?covers_one; unfold live in *; intuition lia.
Qed.

(** exactness at each instruction of the rest of the block *)
Lemma pBlk_at suf : forall k x, first <= numOf k -> okSt k x ->
  forall j a, nth_error suf j = Some a ->
  let R := fin (k + length suf) (pBlk first k x suf) in
  (covers R (numOf (k + j)) <-> live (skipn j suf)) /\
  (covers R (numOf (k + j) + 1) <-> live (skipn (S j) suf) \/ In v (vdefs t a)).
Proof.
  induction suf as [|a suf IH]; intros k x F H j a0 Ej; [destruct j; discriminate|].
  pose proof (pInst_ok k _ a F H) as H'. assert (F' : first <= numOf (S k)) by (unfold numOf in *; lia).
  destruct j as [|j].
  - cbn in Ej. injection Ej as <-. rewrite Nat.add_0_r. cbn zeta. cbn [length pBlk].
    replace (k + S (length suf)) with (S k + length suf) by lia.
    destruct x as [[[c l] i] d]. cbn [skipn].
    destruct (pInst first k (c, l, i, d) a) as [[[c' l'] i'] d'] eqn:E.
    rewrite !(pBlk_before suf (S k) _ c' l' i' d' eq_refl F' H') by (unfold numOf; lia).
    unfold pInst in E. unfold live. cbn [sufLive]. fold (live suf).
    cbn [okSt] in H. destruct H as (hi & H1 & H2).
    assert (Nc : forall y, numOf k <= y -> c = None \/ (exists b e, c = Some (b, e)) -> ~ covers i y).
    { intros y Hy _ C. destruct c as [[b e]|]; [apply (chain_bound _ _ _ _ H1) in C; lia|]. subst i.
      destruct (covers_nil _ C). }
    destruct (nmem v (vuses t a)) eqn:Eu, (nmem v (vdefs t a)) eqn:Ed;
      (apply nmem_In in Eu || apply nmem_nIn in Eu); (apply nmem_In in Ed || apply nmem_nIn in Ed);
      destruct c as [[b e]|]; cbn [pUse pDef] in E;
      pose proof (fun y Hy => Nc y Hy ltac:(eauto)) as Nc'; unfold numOf in *; rewrite ?Nat.eqb_refl in E;
      try (destruct (Nat.eqb_spec e (4 * k + 1)); [lia|]); injection E as <- <- <- <-;
      pose proof (Nc' (4 * k) ltac:(lia)); pose proof (Nc' (4 * k + 1) ltac:(lia)); clear Nc Nc';
      rewrite ?covers_app, ?covers_one; unfold live in *; split; intuition lia.
  - cbn in Ej. cbn zeta. cbn [length pBlk skipn].
    replace (k + S (length suf)) with (S k + length suf) by lia.
    replace (k + S j) with (S k + j) by lia. exact (IH (S k) _ F' H' j a0 Ej).
Qed.

(** order and bounds *)
Lemma pBlk_ok suf : forall k x, first <= numOf k -> okSt k x -> okSt (k + length suf) (pBlk first k x suf).
Proof.
  induction suf as [|a suf IH]; intros k x F H; cbn [pBlk length]; [now rewrite Nat.add_0_r|].
  replace (k + S (length suf)) with (S k + length suf) by lia. apply IH; [unfold numOf in *; lia|].
  now apply pInst_ok.
Qed.
Lemma fin_chain k x : first + 4 <= numOf k -> okSt k x -> chain first (fin k x) (numOf k).
Proof.
  destruct x as [[[c l] i] d]. cbn [okSt fin]. intros F (hi & H1 & H2). unfold numOf in *.
  destruct c as [[b e]|].
  - apply chain_app with hi; [exact H1|]. destruct out; cbn; lia.
  - subst i. destruct out; cbn; lia.
Qed.

(** ** dead flags *)
Definition finDead (x : pst) : list nat :=
  let '(c, l, i, d) := x in match l with Some j => if out then d else j :: d | None => d end.
(** a use of [v] in the block at position [j], after which [v] is not live unless the same instruction defines it *)
Definition deadOk (k0 : nat) (blk : list inst) (j : nat) : Prop :=
  k0 <= j /\ exists a, nth_error blk (j - k0) = Some a /\ In v (vuses t a) /\
  (live (skipn (S (j - k0)) blk) -> In v (vdefs t a)).
(** while the instructions from [k] on are still to come: the recorded last use is a use, and between it and [k] there
    is neither a use nor, unless at that instruction, a definition *)
Definition lastOk (k0 k : nat) (blk : list inst) (l : option nat) : Prop :=
  match l with
  | None => True
  | Some j => k0 <= j < k /\ exists a, nth_error blk (j - k0) = Some a /\ In v (vuses t a) /\
      forall m b, j < m < k -> nth_error blk (m - k0) = Some b -> ~ In v (vuses t b) /\ ~ In v (vdefs t b)
  end.
Lemma skip_cons {A} (l : list A) j a : nth_error l j = Some a -> skipn j l = a :: skipn (S j) l.
Proof.
  revert j; induction l as [|x r IHb]; intros [|j] E; cbn in *; try discriminate.
  - injection E as ->. reflexivity.
  - now apply IHb.
Qed.
Lemma live_gap blk k0 : forall n j, (forall m b, j < m < j + S n -> nth_error blk (m - k0) = Some b ->
    ~ In v (vuses t b) /\ ~ In v (vdefs t b)) -> k0 <= j -> j + S n - k0 <= length blk ->
  live (skipn (S (j - k0)) blk) -> live (skipn (j + S n - k0) blk).
Proof.
  induction n as [|n IH]; intros j H K L X.
  - replace (j + 1 - k0) with (S (j - k0)) by lia. exact X.
  - destruct (nth_error blk (S j - k0)) as [b|] eqn:E; [|apply nth_error_None in E; lia].
    replace (j + S (S n) - k0) with (S j + S n - k0) by lia. apply IH.
    + intros m b0 Hm E0. apply (H m b0); [lia|exact E0].
    + lia.
    + lia.
    + replace (S (j - k0)) with (S j - k0) in X by lia. rewrite (skip_cons _ _ _ E) in X.
      destruct (H (S j) b ltac:(lia) E) as [U D]. unfold live in X. cbn [sufLive] in X. unfold live. tauto.
Qed.

Lemma pBlk_dead blk k0 : first <= numOf k0 -> forall suf pfx k c l i d, blk = pfx ++ suf -> k = k0 + length pfx ->
  okSt k (c, l, i, d) -> lastOk k0 k blk l ->
  (c = None -> l = None) ->
  forall j, In j (finDead (pBlk first k (c, l, i, d) suf)) -> In j d \/ deadOk k0 blk j.
Proof.
  intros F0. induction suf as [|a suf IH]; intros pfx k c l i d Eb Ek OK LO CN j Hj.
  - cbn [pBlk finDead] in Hj. destruct l as [q|]; [|now left].
    destruct out eqn:Eo; [now left|]. destruct Hj as [<-|Hj]; [|now left]. right.
    cbn [lastOk] in LO. destruct LO as (L1 & a & E1 & U & G). split; [lia|]. exists a. split; [exact E1|]. split; [exact U|].
    intros X. exfalso. rewrite app_nil_r in Eb. rewrite Eb in *.
    assert (Y : live (skipn (q + S (k - 1 - q) - k0) pfx)).
    { apply live_gap; [|lia|lia|exact X]. intros m b Hm Em. apply (G m b); [lia|exact Em]. }
    replace (q + S (k - 1 - q) - k0) with (length pfx) in Y by lia. rewrite skipn_all in Y.
    unfold live in Y. cbn in Y. congruence.
  - cbn [pBlk] in Hj.
    assert (Ea : nth_error blk (k - k0) = Some a).
    { rewrite Eb, nth_error_app2 by lia. replace (k - k0 - length pfx) with 0 by lia. reflexivity. }
    assert (Fk : first <= numOf k) by (unfold numOf in *; lia).
    pose proof (pInst_ok k _ a Fk OK) as OK'.
    destruct (pInst first k (c, l, i, d) a) as [[[c' l'] i'] d'] eqn:E.
    assert (Step : (forall j, In j d' -> In j d \/ deadOk k0 blk j) /\ lastOk k0 (S k) blk l' /\ (c' = None -> l' = None)).
    { unfold pInst in E. cbn [okSt] in OK. destruct OK as (hi & H1 & H2).
      destruct (nmem v (vuses t a)) eqn:Eu; (apply nmem_In in Eu || apply nmem_nIn in Eu).
      - assert (E' : l' = Some k /\ d' = d /\ c' <> None).
        { destruct (nmem v (vdefs t a)), c as [[b e]|]; cbn [pUse pDef] in E; rewrite ?Nat.eqb_refl in E;
            injection E as <- <- <- <-; repeat split; discriminate. }
        destruct E' as (-> & -> & N). split; [tauto|]. split; [|tauto]. cbn [lastOk].
        split; [lia|]. exists a. split; [exact Ea|]. split; [exact Eu|]. intros m b Hm. lia.
      - destruct (nmem v (vdefs t a)) eqn:Ed; (apply nmem_In in Ed || apply nmem_nIn in Ed).
        + cbn [pDef] in E. destruct c as [[b e]|].
          * destruct (Nat.eqb_spec e (numOf k + 1)) as [X|_]; [unfold numOf in *; lia|].
            injection E as <- <- <- <-. split; [|split; [exact I|discriminate]].
            intros q Hq. destruct l as [q0|]; [|now left]. destruct Hq as [<-|Hq]; [|now left]. right.
            cbn [lastOk] in LO. destruct LO as (L1 & a0 & E1 & U & G).
            split; [lia|]. exists a0. split; [exact E1|]. split; [exact U|]. intros X. exfalso.
            assert (Y : live (skipn (q0 + S (k - 1 - q0) - k0) blk)).
            { apply live_gap; [|lia| |exact X].
              - intros m b0 Hm Em. apply (G m b0); [lia|exact Em].
              - rewrite Eb, app_length. lia. }
            replace (q0 + S (k - 1 - q0) - k0) with (k - k0) in Y by lia.
            rewrite (skip_cons _ _ _ Ea) in Y. unfold live in Y. cbn [sufLive] in Y. tauto.
          * injection E as <- <- <- <-. rewrite (CN eq_refl). split; [tauto|]. split; [exact I|reflexivity].
        + injection E as <- <- <- <-. split; [tauto|]. split; [|exact CN].
          destruct l as [q|]; [|exact I]. cbn [lastOk] in *. destruct LO as (L1 & a0 & E1 & U & G).
          split; [lia|]. exists a0. split; [exact E1|]. split; [exact U|]. intros m b Hm Em.
          destruct (Nat.eq_dec m k) as [->|N]; [rewrite Ea in Em; injection Em as <-; tauto|].
          apply (G m b); [lia|exact Em]. }
    destruct Step as (S1 & S2 & S3).
    destruct (IH (pfx ++ [a]) (S k) c' l' i' d') with (j := j) as [X|X].
    + rewrite <- app_assoc. exact Eb.
    + rewrite app_length. cbn. lia.
    + exact OK'.
    + exact S2.
    + exact S3.
    + exact Hj.
    + now apply S1.
    + now right.
Qed.
End Blk.

Lemma pInst_frame first k c l i d a c' l' i' d' : pInst first k (c, l, [], []) a = (c', l', i', d') ->
  pInst first k (c, l, i, d) a = (c', l', i ++ i', d' ++ d).
Proof.
  unfold pInst. destruct (nmem v (vuses t a)), (nmem v (vdefs t a)), c as [[b e]|]; cbn [pUse pDef];
    rewrite ?Nat.eqb_refl; try (destruct (Nat.eqb e (numOf k + 1))); intros H; injection H as <- <- <- <-;
    rewrite ?app_nil_r; try reflexivity. destruct l; reflexivity.
Qed.
Lemma pBlk_frame first blk : forall k c l i d i0 d0 c' l' i' d',
  pBlk first k (c, l, i, d) blk = (c', l', i', d') ->
  pBlk first k (c, l, i0 ++ i, d ++ d0) blk = (c', l', i0 ++ i', d' ++ d0).
Proof.
  induction blk as [|a r IH]; intros k c l i d i0 d0 c' l' i' d' H; cbn [pBlk] in *.
  - injection H as <- <- <- <-. reflexivity.
  - destruct (pInst first k (c, l, [], []) a) as [[[c1 l1] i1] d1] eqn:E.
    rewrite (pInst_frame first k c l i d a _ _ _ _ E) in H.
    rewrite (pInst_frame first k c l (i0 ++ i) (d ++ d0) a _ _ _ _ E).
    rewrite <- (app_assoc i0 i i1), (app_assoc d1 d d0). apply IH. exact H.
Qed.
(** a register with no segment at the end of the block is not mentioned in it *)
Lemma pBlk_none first blk : forall k c l i d l' i' d', pBlk first k (c, l, i, d) blk = (None, l', i', d') ->
  c = None /\ forall a, In a blk -> ~ In v (vuses t a) /\ ~ In v (vdefs t a).
Proof.
  induction blk as [|a r IH]; intros k c l i d l' i' d' H; cbn [pBlk] in *.
  - injection H as -> _ _ _. split; [reflexivity|intros a []].
  - destruct (pInst first k (c, l, i, d) a) as [[[c1 l1] i1] d1] eqn:E.
    destruct (IH _ _ _ _ _ _ _ _ H) as [-> H1].
    unfold pInst in E. destruct (nmem v (vuses t a)) eqn:Eu, (nmem v (vdefs t a)) eqn:Ed, c as [[b e]|];
      cbn [pUse pDef] in E; rewrite ?Nat.eqb_refl in E;
      try (destruct (Nat.eqb e (numOf k + 1))); try discriminate.
    apply nmem_nIn in Eu. apply nmem_nIn in Ed. split; [reflexivity|]. intros x [<-|Hx]; auto.
Qed.
End Scan.

(* ------------------------------------------------------------------ *)
(** * The whole function *)
Definition base (p : mfunc) (b : nat) : nat := length (concat (firstn b p)).
Lemma base_0 p : base p 0 = 0.
Proof. reflexivity. Qed.
Lemma base_cons blk p b : base (blk :: p) (S b) = length blk + base p b.
Proof. unfold base. cbn. now rewrite app_length. Qed.

Section Func.
Context {W : Type}.
Variable t : mach W.
Definition okBlk (blk : list inst) : Prop := blk <> [] /\ forall i, In i blk -> NoDup (vdefs t i).

Section V.
Variable v : nat.
Variables ins outs : flowMap.
(** what the intervals must satisfy for block number [b] whose first instruction has position [k] *)
Definition segOk (R : list seg) (b k : nat) (blk : list inst) : Prop :=
  forall m a, nth_error blk m = Some a ->
    (covers R (numOf (k + m)) <-> sufLive t (skipn m blk) (In v (outs b)) v) /\
    (covers R (numOf (k + m) + 1) <-> sufLive t (skipn (S m) blk) (In v (outs b)) v \/ In v (vdefs t a)).
Definition deadAt (b k : nat) (blk : list inst) (q : nat) : Prop :=
  k <= q /\ exists a, nth_error blk (q - k) = Some a /\ In v (vuses t a) /\
  (sufLive t (skipn (S (q - k)) blk) (In v (outs b)) v -> In v (vdefs t a)).

Lemma blkScan_ok b k s blk : okBlk blk ->
  (In v (outs b) -> (forall i, In i blk -> ~ In v (vdefs t i)) -> In v (ins b)) ->
  cur s v = None -> lst s v = None ->
  let s' := blkScan t ins outs b k s blk in
  cur s' v = None /\ lst s' v = None /\
  exists R D, iv s' v = iv s v ++ R /\ dead s' v = D ++ dead s v /\
    chain (numOf k) R (numOf (k + length blk)) /\ segOk R b k blk /\ (forall q, In q D -> deadAt b k blk q).
Proof.
  intros [NE ND] Hin Ec El. cbn zeta. unfold blkScan, finishBlk. cbn [cur lst iv dead].
  split; [reflexivity|]. split; [reflexivity|].
  assert (Ef : blkFirst k blk = numOf k) by (destruct blk; [congruence|reflexivity]).
  assert (Es : blkStop k blk = numOf (k + length blk - 1) + 2) by (destruct blk; [congruence|reflexivity]).
  assert (Ln : 0 < length blk) by (destruct blk; [congruence|cbn; lia]).
  rewrite Ef, Es. pose proof (scanBlk_proj t v blk (numOf k) k s ND) as P.
  unfold proj in P. rewrite Ec, El in P.
  destruct (pBlk t v (numOf k) k (None, None, [], []) blk) as [[[c l] i] d] eqn:E.
  pose proof (pBlk_frame t v (numOf k) blk k None None [] [] (iv s v) (dead s v) _ _ _ _ E) as Fr.
  rewrite app_nil_r in Fr. cbn [app] in Fr. rewrite Fr in P. injection P as P1 P2 P3 P4.
  set (out := nmem v (outs b)).
  assert (Ho : out = true <-> In v (outs b)) by apply nmem_In.
  exists (fin (numOf k) out (k + length blk) (c, l, i, d)), (finDead out (c, l, i, d)).
  assert (OK : okSt (numOf k) k (None, None, [], [])) by (cbn; exists (numOf k); split; [cbn; lia|reflexivity]).
  assert (SL : forall suf, live t v out suf <-> sufLive t suf (In v (outs b)) v).
  { intros suf. unfold live. split; apply sufLive_mono; tauto. }
  repeat apply conj.
  - rewrite P1, P3, <- app_assoc. f_equal. cbn [fin]. f_equal.
    fold out. destruct c as [[b0 e0]|]; [reflexivity|]. destruct out eqn:Eo; [|reflexivity].
    apply pBlk_none in E as [_ E]. assert (X : nmem v (ins b) = true).
    { apply nmem_In, Hin; [tauto|]. intros a Ha. now apply E. }
    rewrite X. reflexivity.
  - rewrite P2, P4. cbn [finDead]. fold out. destruct l as [j|]; [|reflexivity]. destruct out; reflexivity.
  - apply fin_chain; [unfold numOf in *; lia|]. rewrite <- E. apply pBlk_ok; auto.
  - intros m a Em. pose proof (pBlk_at t v (numOf k) out blk k (None, None, [], []) (le_n _) OK m a Em) as X.
    cbn zeta in X. rewrite E in X. rewrite !SL in X. exact X.
  - intros q Hq. rewrite <- E in Hq.
    destruct (pBlk_dead t v (numOf k) out blk k (le_n _) blk [] k None None [] []) with (j := q) as [X|X]; auto.
    + cbn. lia.
    + destruct X.
    + destruct X as (X1 & a & X2 & X3 & X4). split; [exact X1|]. exists a. split; [exact X2|]. split; [exact X3|].
      rewrite <- SL. exact X4.
Qed.

Lemma scanAll_ok p : forall b k s, (forall blk, In blk p -> okBlk blk) ->
  (forall j blk, nth_error p j = Some blk -> In v (outs (b + j)) -> (forall i, In i blk -> ~ In v (vdefs t i)) -> In v (ins (b + j))) ->
  cur s v = None -> lst s v = None ->
  exists R D, iv (scanAll t ins outs b k s p) v = iv s v ++ R /\ dead (scanAll t ins outs b k s p) v = D ++ dead s v /\
    chain (numOf k) R (numOf (k + length (concat p))) /\
    (forall j blk, nth_error p j = Some blk -> segOk R (b + j) (k + base p j) blk) /\
    (forall q, In q D -> exists j blk, nth_error p j = Some blk /\ deadAt (b + j) (k + base p j) blk q).
Proof.
  induction p as [|blk p IH]; intros b k s OK Hin Ec El; cbn [scanAll].
  - exists [], []. rewrite app_nil_r. repeat apply conj; auto.
    + cbn. unfold numOf. lia.
    + intros [|j] blk H; discriminate.
    + intros q [].
  - pose proof (blkScan_ok b k s blk (OK blk (or_introl eq_refl))) as B.
    specialize (B ltac:(intros X Y; specialize (Hin 0 blk eq_refl); rewrite Nat.add_0_r in Hin; exact (Hin X Y)) Ec El).
    cbn zeta in B. destruct B as (B1 & B2 & R1 & D1 & B3 & B4 & B5 & B6 & B7).
    destruct (IH (S b) (k + length blk) (blkScan t ins outs b k s blk)) as (R2 & D2 & H1 & H2 & H3 & H4 & H5); auto.
    + intros; apply OK; now right.
    + intros j blk0 E. replace (S b + j) with (b + S j) by lia. apply (Hin (S j)). exact E.
    + exists (R1 ++ R2), (D2 ++ D1). rewrite H1, H2, B3, B4, <- !app_assoc.
      replace (k + length blk + length (concat p)) with (k + length (concat (blk :: p))) in H3 by (cbn; rewrite app_length; lia).
      repeat apply conj; auto.
      * eapply chain_app; eauto.
      * intros [|j] blk0 E.
        -- cbn in E. injection E as <-. rewrite base_0, !Nat.add_0_r. intros m a Em. destruct (B6 m a Em) as [X Y].
           assert (m < length blk) by (apply nth_error_Some; congruence).
           rewrite !covers_app.
           assert (N : forall y, y < numOf (k + length blk) -> ~ covers R2 y).
           { intros y Hy C. apply (chain_bound _ _ _ _ H3) in C. lia. }
           pose proof (N (numOf (k + m)) ltac:(unfold numOf; lia)).
           pose proof (N (numOf (k + m) + 1) ltac:(unfold numOf; lia)). tauto.
        -- cbn in E. rewrite base_cons. replace (b + S j) with (S b + j) by lia.
           replace (k + (length blk + base p j)) with (k + length blk + base p j) by lia.
           intros m a Em. destruct (H4 j blk0 E m a Em) as [X Y]. rewrite !covers_app.
           assert (N : forall y, numOf (k + length blk) <= y -> ~ covers R1 y).
           { intros y Hy C. apply (chain_bound _ _ _ _ B5) in C. lia. }
           pose proof (N (numOf (k + length blk + base p j + m)) ltac:(unfold numOf; lia)).
           pose proof (N (numOf (k + length blk + base p j + m) + 1) ltac:(unfold numOf; lia)). tauto.
      * intros q Hq. apply in_app_or in Hq as [Hq|Hq].
        -- destruct (H5 q Hq) as (j & blk0 & E & X). exists (S j), blk0. split; [exact E|]. rewrite base_cons.
           replace (b + S j) with (S b + j) by lia.
           replace (k + (length blk + base p j)) with (k + length blk + base p j) by lia. exact X.
        -- exists 0, blk. split; [reflexivity|]. rewrite base_0, !Nat.add_0_r. now apply B7.
Qed.
End V.

(** what the allocator uses of the analysis *)
Record liveSpec (p : mfunc) (li : liveInfo) : Prop := LiveSpec {
  ls_ins : forall b v, In v (liIns li b) <-> liveAt t p b 0 v;
  ls_outs : forall b v blk, nth_error p b = Some blk -> (In v (liOuts li b) <-> liveAt t p b (length blk) v);
  ls_use : forall b blk j i v, nth_error p b = Some blk -> nth_error blk j = Some i ->
    (covers (liIv li v) (numOf (base p b + j)) <-> liveAt t p b j v);
  ls_def : forall b blk j i v, nth_error p b = Some blk -> nth_error blk j = Some i ->
    (covers (liIv li v) (numOf (base p b + j) + 1) <-> liveAt t p b (S j) v \/ In v (vdefs t i));
  ls_chain : forall v, chain 0 (liIv li v) (numOf (length (concat p)));
  ls_dead : forall v q, In q (liDead li v) -> exists b blk j i, nth_error p b = Some blk /\ nth_error blk j = Some i /\
    q = base p b + j /\ In v (vuses t i) /\ (liveAt t p b (S j) v -> In v (vdefs t i)) }.

Theorem calc_ok p : (forall blk, In blk p -> okBlk blk) -> (forall blk, In blk p -> tieOk t [] blk = true) ->
  exists li, calcLiveIntervals t p = Some li /\ liveSpec p li.
Proof.
  intros OK T. unfold calcLiveIntervals. destruct (solve_ok t p) as (ins & outs & E & S). rewrite E.
  eexists. split; [reflexivity|].
  assert (Sc : forall v, exists R D, iv (scanAll t ins outs 0 0 sst0 p) v = R /\ dead (scanAll t ins outs 0 0 sst0 p) v = D /\
    chain 0 R (numOf (length (concat p))) /\
    (forall j blk, nth_error p j = Some blk -> segOk v outs R j (base p j) blk) /\
    (forall q, In q D -> exists j blk, nth_error p j = Some blk /\ deadAt v outs j (base p j) blk q)).
  { intros v. destruct (scanAll_ok v ins outs p 0 0 sst0) as (R & D & H1 & H2 & H3 & H4 & H5); auto.
    - intros j blk Ej Ho Hd. cbn in *. assert (L : j < length p) by (apply nth_error_Some; congruence).
      apply (proj2 (proj2 S j L)). unfold Fv. rewrite insFrom_In. right. rewrite <- (proj1 (proj2 S j L)).
      split; [exact Ho|]. rewrite collect_defs. assert (Eb : blkAt p j = blk) by (unfold blkAt; now apply nth_error_nth).
      rewrite Eb. intros (i & X & Y). exact (Hd i X Y).
    - cbn in H1, H2. rewrite app_nil_r in H2. exists R, D. repeat apply conj; auto. }
  assert (Opt : forall v, optimize (iv (scanAll t ins outs 0 0 sst0 p) v) = iv (scanAll t ins outs 0 0 sst0 p) v).
  { intros v. destruct (Sc v) as (R & D & -> & _ & C & _). now apply optimize_chain with 0 (numOf (length (concat p))). }
  split; cbn [liIv liIns liOuts liDead].
  - intros b v. now apply ins_exact with outs.
  - intros b v blk Eb. now apply outs_exact with ins.
  - intros b blk j i v Eb Ej. rewrite Opt. destruct (Sc v) as (R & D & -> & _ & _ & H & _).
    rewrite (proj1 (H b blk Eb j i Ej)). symmetry. apply live_iff with ins; auto.
    apply Nat.lt_le_incl, nth_error_Some. congruence.
  - intros b blk j i v Eb Ej. rewrite Opt. destruct (Sc v) as (R & D & -> & _ & _ & H & _).
    rewrite (proj2 (H b blk Eb j i Ej)). rewrite (live_iff t p ins outs S T b (1 + j) v blk Eb); [reflexivity|].
    apply nth_error_Some. congruence.
  - intros v. rewrite Opt. destruct (Sc v) as (R & D & -> & _ & C & _). exact C.
  - intros v q Hq. destruct (Sc v) as (R & D & _ & Ed & _ & _ & H). rewrite Ed in Hq.
    destruct (H q Hq) as (b & blk & Eb & X1 & a & X2 & X3 & X4). exists b, blk, (q - base p b), a.
    repeat apply conj; auto; [lia|]. intros L. apply X4.
    apply (live_iff t p ins outs S T b (1 + (q - base p b)) v blk Eb); [|exact L].
    apply nth_error_Some. congruence.
Qed.
End Func.
