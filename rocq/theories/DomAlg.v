(** The loops of DominateAnalysis::run (cmmc/Analysis/DominateAnalysis.cpp:126-174): union-find with path compression, semidominators,
    immediate dominators. *)
From Coq Require Import Lia Bool List Arith.
From Verif Require Import DomDfs DomLt.
Import ListNotations.

Section Alg.
Variables (succ : nat -> list nat) (root : nat) (V : list nat) (fa : nat -> nat).
(** g: the predecessors seen by the search, in any order (an unordered_set) *)
Variable preds : nat -> list nat.
Notation num x := (idx x V).

(** lines 127-134 merge; the pair is (f, ran).  [fuel]: the nesting, at most the depth of the tree *)
Fixpoint merge (fuel : nat) (sd : nat -> nat) (s : (nat -> nat) * (nat -> nat)) (cur : nat) : ((nat -> nat) * (nat -> nat)) * nat :=
  match fuel with
  | O => (s, cur)
  | S k =>
    if Nat.eqb (fst s cur) cur then (s, cur)
    else let '(s1, res) := merge k sd s (fst s cur) in
         let r1 := snd s1 (fst s1 cur) in
         let ran1 := if num (sd r1) <? num (sd (snd s1 cur)) then fset (snd s1) cur r1 else snd s1 in
         ((fset (fst s1) cur res, ran1), res)
  end.
Record lst := Lst { ff : nat -> nat; ran : nat -> nat; sd : nat -> nat; tr : nat -> list nat; im : nat -> nat }.
Definition tset (h : nat -> list nat) (x : nat) (v : list nat) : nat -> list nat := fun y => if Nat.eqb y x then v else h y.
(** lines 148-154 *)
Definition predStep (blk : nat) (s : lst) (p : nat) : lst :=
  let '((f1, r1), _) := merge (S (length V)) (sd s) (ff s, ran s) p in
  Lst f1 r1 (if num (sd s (r1 p)) <? num (sd s blk) then fset (sd s) blk (sd s (r1 p)) else sd s) (tr s) (im s).
(** lines 158-164 *)
Definition flushStep (q : nat) (s : lst) (t : nat) : lst :=
  let '((f1, r1), _) := merge (S (length V)) (sd s) (ff s, ran s) t in
  Lst f1 r1 (sd s) (tr s) (fset (im s) t (if Nat.eqb q (sd s (r1 t)) then q else r1 t)).
(** lines 144-166 *)
Definition blkStep (s : lst) (blk : nat) : lst :=
  if Nat.eqb blk root then s else
  let s1 := fold_left (predStep blk) (preds blk) s in
  let s2 := Lst (fset (ff s1) blk (fa blk)) (ran s1) (sd s1) (tset (tr s1) (sd s1 blk) (tr s1 (sd s1 blk) ++ [blk])) (im s1) in
  let s3 := fold_left (flushStep (fa blk)) (tr s2 (fa blk)) s2 in
  Lst (ff s3) (ran s3) (sd s3) (tset (tr s3) (fa blk) []) (im s3).
(** lines 138-167 *)
Definition lt : lst := fold_left blkStep (rev V) (Lst (fun x => x) (fun x => x) (fun x => x) (fun _ => []) (fun x => x)).
(** lines 168-173 *)
Definition fixStep (sd im : nat -> nat) (b : nat) : nat -> nat :=
  if Nat.eqb b root then im else if Nat.eqb (im b) (sd b) then im else fset im b (im (im b)).
Definition idomOf : nat -> nat := fold_left (fixStep (sd lt)) V (im lt).

(** ** proofs *)
Hypothesis T : dfsTree succ root V fa.
Hypothesis Hpreds : forall v w, In v (preds w) <-> In v V /\ In w (succ v).
Notation anc := (anc fa).
Notation semi := (semi succ V).
Notation isSdom := (isSdom succ V).
Notation ancV := (anc_V succ root V fa T).
Notation ancLe := (anc_le succ root V fa T).
Notation ancLt := (anc_lt succ root V fa T).
Definition between (q x t : nat) : Prop := anc q x /\ x <> q /\ anc x t.
Record MI (c : nat) (sd f r : nat -> nat) : Prop := {
  m_un : forall v, In v V -> num v <= c -> f v = v /\ r v = v;
  m_ln : forall v, In v V -> c < num v -> anc (f v) v /\ f v <> v /\ anc (f v) (r v) /\ anc (r v) v;
  m_min : forall v x, In v V -> c < num v -> between (f v) x v -> c < num x /\ num (sd (r v)) <= num (sd x)
}.
Lemma merge_ok c sd : forall fuel f r v, MI c sd f r -> In v V -> num v < fuel ->
  let '((f', r'), res) := merge fuel sd (f, r) v in
  MI c sd f' r' /\ f' v = res /\ num res <= c /\ anc res v /\ In res V /\ forall x, ~ anc x v -> f' x = f x /\ r' x = r x.
Proof.
  induction fuel as [|fuel IH]; intros f r v M Hv Hf; [lia|]. cbn [merge fst snd]. destruct (Nat.eqb_spec (f v) v) as [E|N].
  - split; [exact M|]. split; [exact E|]. split; [|split; [apply anc_refl|auto]]. destruct (Nat.le_gt_cases (num v) c) as [|L]; auto.
    exfalso. destruct (m_ln _ _ _ _ M v Hv L) as (_ & K & _). auto.
  - destruct (Nat.le_gt_cases (num v) c) as [L|L]; [exfalso; apply N; apply (m_un _ _ _ _ M v Hv L)|].
    destruct (m_ln _ _ _ _ M v Hv L) as (A1 & A2 & A3 & A4). assert (Wv : In (f v) V) by exact (ancV _ _ Hv A1). pose proof (ancLt (f v) v Hv A1 A2) as Lw.
    specialize (IH f r (f v) M Wv). destruct (merge fuel sd (f, r) (f v)) as [[f1 r1] res]. destruct IH as (M1 & B1 & B2 & B3 & B4 & B5); [lia|]. cbn [fst snd].
    assert (Nv : ~ anc v (f v)) by (intros K; pose proof (ancLe v (f v) Wv K); lia). destruct (B5 v Nv) as [C1 C2]. rewrite C1, C2.
    set (ran1 := if num (sd (r1 (f v))) <? num (sd (r v)) then fset r1 v (r1 (f v)) else r1).
    assert (Ro : forall x, x <> v -> ran1 x = r1 x) by (intros x D; unfold ran1; destruct (num (sd (r1 (f v))) <? num (sd (r v))); auto; now apply fset_ne).
    assert (Rv : (ran1 v = r1 (f v) \/ ran1 v = r v) /\ num (sd (ran1 v)) <= num (sd (r1 (f v))) /\ num (sd (ran1 v)) <= num (sd (r v))).
    { unfold ran1. destruct (Nat.ltb_spec (num (sd (r1 (f v)))) (num (sd (r v)))); [rewrite fset_eq; split; auto; lia|rewrite C2; split; auto; lia]. }
    destruct Rv as (R1 & R2 & R3).
    (* the part below f v *)
    assert (Rw : anc res (r1 (f v)) /\ anc (r1 (f v)) (f v) /\ forall x, between res x (f v) -> c < num x /\ num (sd (r1 (f v))) <= num (sd x)).
    { destruct (Nat.le_gt_cases (num (f v)) c) as [Lf|Lf].
      - destruct (m_un _ _ _ _ M1 (f v) Wv Lf) as [D1 D2]. rewrite D2. assert (res = f v) by congruence. subst res. split; [rewrite H; apply anc_refl|]. split; [apply anc_refl|].
        intros x (K1 & K2 & K3). exfalso. apply K2. rewrite H in K1. rewrite H. symmetry. apply (anc_antisym succ root V fa T); auto. exact (ancV x _ Wv K3).
      - destruct (m_ln _ _ _ _ M1 (f v) Wv Lf) as (D1 & D2 & D3 & D4). rewrite B1 in *. split; auto. split; auto. intros x Hx.
        apply (m_min _ _ _ _ M1 (f v) x Wv Lf). now rewrite B1. }
    destruct Rw as (W1 & W2 & W3). split; [constructor|split; [|split; [|split; [|split]]]].
    + intros y Hy Ly. assert (y <> v) by (intros ->; lia). rewrite fset_ne, Ro by auto. now apply (m_un _ _ _ _ M1).
    + intros y Hy Ly. destruct (Nat.eq_dec y v) as [->|D].
      * rewrite fset_eq. split; [exact (anc_trans fa res (f v) v B3 A1)|]. split; [intros Z; rewrite Z in B2; lia|]. destruct R1 as [-> | ->].
        -- split; [exact W1|exact (anc_trans fa _ (f v) v W2 A1)].
        -- split; [exact (anc_trans fa res (f v) (r v) B3 A3)|exact A4].
      * rewrite fset_ne, Ro by auto. now apply (m_ln _ _ _ _ M1).
    + intros y x Hy Ly. destruct (Nat.eq_dec y v) as [->|D].
      * rewrite fset_eq. intros (K1 & K2 & K3). assert (Xv : In x V) by exact (ancV _ _ Hv K3).
        destruct (anc_chain fa x (f v) v K3 A1) as [K|K].
        -- destruct (W3 x) as [Q1 Q2]; [split; auto|]. split; auto. lia.
        -- destruct (Nat.eq_dec x (f v)) as [->|Dx]; [destruct (W3 (f v)) as [Q1 Q2]; [split; auto; split; auto; apply anc_refl|]; split; auto; lia|].
           destruct (m_min _ _ _ _ M v x Hv L) as [Q1 Q2]; [split; auto|]. split; auto. lia.
      * rewrite fset_ne, Ro by auto. intros K. now apply (m_min _ _ _ _ M1).
    + apply fset_eq.
    + auto.
    + exact (anc_trans fa res (f v) v B3 A1).
    + auto.
    + intros x Hx. assert (x <> v) by (intros ->; apply Hx, anc_refl). rewrite fset_ne, Ro by auto. apply B5. intros K. apply Hx. exact (anc_trans fa x (f v) v K A1).
Qed.
(** lowering the semidominator of a node that is not linked yet *)
Lemma MI_dec c sd f r w v : MI c sd f r -> num w <= c -> num v <= num (sd w) -> MI c (fset sd w v) f r.
Proof.
  intros M Hw Hv. constructor; [apply M|apply M|]. intros y x Hy Ly Hx. destruct (m_min _ _ _ _ M y x Hy Ly Hx) as [A B]. split; auto.
  rewrite (fset_ne sd w v x) by (intros ->; lia). destruct (Nat.eq_dec (r y) w) as [E|D]; [rewrite E in *; rewrite fset_eq; lia|now rewrite fset_ne].
Qed.
Definition IMok (c : nat) (sd im : nat -> nat) (t : nat) : Prop := let q := sd t in
  (forall u, between q u t -> c < num u) /\
  ((im t = q /\ forall u, between q u t -> num q <= num (sd u)) \/
   (between q (im t) t /\ num (sd (im t)) < num q /\ forall u, between q u t -> num (sd (im t)) <= num (sd u))).
Record OI (c : nat) (s : lst) : Prop := {
  o_mi : MI c (sd s) (ff s) (ran s);
  o_sd : forall w, In w V -> c < num w -> isSdom (sd s w) w;
  o_sd0 : forall w, In w V -> num w <= c -> sd s w = w;
  o_tr : forall q t, In t (tr s q) -> In t V /\ c < num t /\ sd s t = q /\ forall x, In x V -> fa x = q -> x <> q -> anc x t -> num x <= c;
  o_im : forall t, In t V -> c < num t -> In t (tr s (sd s t)) \/ IMok c (sd s) (im s) t
}.
Lemma numlt x : In x V -> num x < S (length V).
Proof. intros H. apply idx_lt in H. lia. Qed.
(** *** the semidominator of [w] *)
Lemma preds_ok w s : In w V -> w <> root -> OI (num w) s ->
  let s1 := fold_left (predStep w) (preds w) s in
  MI (num w) (sd s1) (ff s1) (ran s1) /\ (forall x, x <> w -> sd s1 x = sd s x) /\ tr s1 = tr s /\ im s1 = im s /\ isSdom (sd s1 w) w.
Proof.
  intros Hw Nr I. cbn zeta.
  assert (K : forall l s0, incl l (preds w) -> MI (num w) (sd s0) (ff s0) (ran s0) -> (forall x, x <> w -> sd s0 x = sd s x) ->
     tr s0 = tr s -> im s0 = im s -> (sd s0 w = w \/ semi (sd s0 w) w) ->
     let s1 := fold_left (predStep w) l s0 in
     MI (num w) (sd s1) (ff s1) (ran s1) /\ (forall x, x <> w -> sd s1 x = sd s x) /\ tr s1 = tr s /\ im s1 = im s /\ (sd s1 w = w \/ semi (sd s1 w) w) /\
     num (sd s1 w) <= num (sd s0 w) /\
     forall p, In p l -> (num p < num w -> num (sd s1 w) <= num p) /\ (forall u, anc u p -> num w < num u -> num (sd s1 w) <= num (sd s u))).
  { induction l as [|p l IH]; intros s0 Hl M E Et Ei Hc; cbn zeta.
    - cbn. split; [exact M|]. split; [exact E|]. split; [exact Et|]. split; [exact Ei|]. split; [exact Hc|]. split; [lia|]. intros p [].
    - cbn [fold_left]. assert (Hp : In p (preds w)) by (apply Hl; now left). apply Hpreds in Hp as [Pv Pe].
      pose proof (merge_ok (num w) (sd s0) (S (length V)) (ff s0) (ran s0) p M Pv (numlt p Pv)) as MG.
      assert (Est : predStep w s0 p = let '((f1, r1), _) := merge (S (length V)) (sd s0) (ff s0, ran s0) p in
        Lst f1 r1 (if num (sd s0 (r1 p)) <? num (sd s0 w) then fset (sd s0) w (sd s0 (r1 p)) else sd s0) (tr s0) (im s0)) by reflexivity.
      destruct (merge (S (length V)) (sd s0) (ff s0, ran s0) p) as [[f1 r1] res]. rewrite Est. clear Est. destruct MG as (M1 & B1 & B2 & B3 & B4 & _).
      set (sd1 := if num (sd s0 (r1 p)) <? num (sd s0 w) then fset (sd s0) w (sd s0 (r1 p)) else sd s0).
      assert (Ew : num (sd1 w) <= num (sd s0 w) /\ num (sd1 w) <= num (sd s0 (r1 p))).
      { unfold sd1. destruct (Nat.ltb_spec (num (sd s0 (r1 p))) (num (sd s0 w))); [rewrite fset_eq|]; lia. }
      assert (Wle : num (sd s0 w) <= num w). { destruct Hc as [-> |Hc]; [lia|]. destruct Hc as (_ & Hc & _). lia. }
      assert (En : forall x, x <> w -> sd1 x = sd s0 x).
      { intros x D. unfold sd1. destruct (num (sd s0 (r1 p)) <? num (sd s0 w)); auto. now apply fset_ne. }
      assert (M2 : MI (num w) sd1 f1 r1).
      { unfold sd1. destruct (Nat.ltb_spec (num (sd s0 (r1 p))) (num (sd s0 w))); auto. apply MI_dec; auto; lia. }
      assert (Hc2 : sd1 w = w \/ semi (sd1 w) w).
      { unfold sd1. destruct (Nat.ltb_spec (num (sd s0 (r1 p))) (num (sd s0 w))) as [L|L]; auto. rewrite fset_eq. right.
        destruct (Nat.le_gt_cases (num p) (num w)) as [Lp|Lp].
        - destruct (m_un _ _ _ _ M1 p Pv Lp) as [_ R]. rewrite R in *. assert (p <> w) by (intros ->; lia). rewrite E in * by auto.
          rewrite (o_sd0 _ _ I p Pv Lp) in *. apply (semi_edge succ V p w); auto. lia.
        - destruct (m_ln _ _ _ _ M1 p Pv Lp) as (D1 & D2 & D3 & D4). rewrite B1 in *.
          assert (Rv : In (r1 p) V) by exact (ancV _ _ Pv D4). assert (r1 p <> w) by (intros X; rewrite X in *; lia). rewrite E in * by auto.
          destruct (Nat.le_gt_cases (num (r1 p)) (num w)) as [Lr|Lr].
          + (* the root of the union *)
            rewrite (o_sd0 _ _ I _ Rv Lr) in *.
            assert (X : r1 p = res).
            { destruct (Nat.eq_dec (r1 p) res) as [|Dx]; auto. exfalso. destruct (m_min _ _ _ _ M1 p (r1 p) Pv Lp) as [X _]; [rewrite B1; split; auto|lia]. }
            rewrite X in *. apply (semi_root succ root V fa T p w res); auto; [lia|]. intros x X1 X2 X3. destruct (m_min _ _ _ _ M1 p x Pv Lp) as [Y _]; auto.
            rewrite B1. split; auto.
          + apply (semi_up succ root V fa T p w (r1 p) (sd s (r1 p))); auto; [|lia]. apply (o_sd _ _ I (r1 p) Rv Lr). }
      destruct (IH (Lst f1 r1 sd1 (tr s0) (im s0))) as (C1 & C2 & C3 & C4 & C5 & C6 & C7); cbn [sd ff ran tr im]; auto.
      { intros y Hy. apply Hl. now right. } { intros x Hx. rewrite En, E; auto. }
      cbn [sd] in C6. set (s1 := fold_left (predStep w) l (Lst f1 r1 sd1 (tr s0) (im s0))) in *.
      split; [exact C1|]. split; [exact C2|]. split; [exact C3|]. split; [exact C4|]. split; [exact C5|]. split; [lia|].
      intros p' [<-|Hp']; auto. split.
      + intros Lp. destruct (m_un _ _ _ _ M1 p Pv) as [_ R]; [lia|]. rewrite R in Ew. assert (Dp : p <> w) by (intros ->; lia). rewrite (E p Dp) in Ew.
        rewrite (o_sd0 _ _ I p Pv) in Ew by lia. lia.
      + intros u Hu Lu. assert (Lp : num w < num p) by (pose proof (ancLe u p Pv Hu); lia). assert (Uv : In u V) by exact (ancV _ _ Pv Hu).
        destruct (m_min _ _ _ _ M1 p u Pv Lp) as [_ Q].
        { rewrite B1. split; [|split; auto].
          - destruct (anc_chain fa res u p B3 Hu) as [Q|Q]; auto. exfalso. pose proof (ancLe u res B4 Q). lia.
          - intros ->. lia. }
        rewrite (E u) in Q by (intros ->; lia). lia. }
  destruct (K (preds w) s (fun x h => h) (o_mi _ _ I)) as (C1 & C2 & C3 & C4 & C5 & C6 & C7); auto.
  { left. apply (o_sd0 _ _ I); auto. }
  set (s1 := fold_left (predStep w) (preds w) s) in *. split; [exact C1|]. split; [exact C2|]. split; [exact C3|]. split; [exact C4|].
  destruct (t_fa _ _ _ _ T w Hw Nr) as (F1 & F2 & F3).
  assert (S1 : semi (sd s1 w) w).
  { destruct C5 as [C5|C5]; auto. exfalso. destruct (C7 (fa w)) as [C _]; [now apply Hpreds|]. specialize (C F2). rewrite C5 in C. lia. }
  split; auto. intros v Hv. pose proof Hv as (Vv & Lv & _). destruct (semi_inv succ root V fa T v w Hw Hv) as [He|(p & u & P1 & P2 & P3 & P4 & P5)].
  - destruct (C7 v) as [C _]; [now apply Hpreds|]. auto.
  - destruct (C7 p) as [_ C]; [now apply Hpreds|]. specialize (C u P3 P4). assert (Uv : In u V) by exact (ancV _ _ P1 P3).
    destruct (o_sd _ _ I u Uv P4) as [_ Q]. specialize (Q v P5). lia.
Qed.
Lemma IMok_ext c c' sd sd' im im' t : IMok c sd im t -> c' <= c -> sd' t = sd t -> im' t = im t -> (forall x, c < num x -> sd' x = sd x) -> IMok c' sd' im' t.
Proof.
  unfold IMok. intros [H1 H2] Hc E1 E2 E3. rewrite E1, E2. split; [intros u Hu; specialize (H1 u Hu); lia|].
  destruct H2 as [[A B]|(A & B & C)]; [left|right].
  - split; auto. intros u Hu. rewrite E3; auto.
  - split; auto. rewrite (E3 (im t)) by auto. split; auto. intros u Hu. rewrite E3; auto.
Qed.
(** *** the candidates waiting at [q] *)
Lemma flush_ok c q l : forall s, MI c (sd s) (ff s) (ran s) -> In q V -> num q <= c -> sd s q = q ->
  (forall t, In t l -> In t V /\ c < num t /\ sd s t = q /\ anc q t /\ forall u, between q u t -> c < num u) ->
  let s3 := fold_left (flushStep q) l s in
  MI c (sd s3) (ff s3) (ran s3) /\ sd s3 = sd s /\ tr s3 = tr s /\ (forall t, In t l -> IMok c (sd s) (im s3) t) /\ (forall t, ~ In t l -> im s3 t = im s t).
Proof.
  induction l as [|t l IH]; intros s M Hq Lq Sq Hl; cbn zeta.
  - cbn. split; [exact M|]. split; [auto|]. split; [auto|]. split; [intros t []|auto].
  - cbn [fold_left]. destruct (Hl t (or_introl eq_refl)) as (Tv & Lt' & St & At & Bt).
    pose proof (merge_ok c (sd s) (S (length V)) (ff s) (ran s) t M Tv (numlt t Tv)) as MG.
    assert (Est : flushStep q s t = let '((f1, r1), _) := merge (S (length V)) (sd s) (ff s, ran s) t in
        Lst f1 r1 (sd s) (tr s) (fset (im s) t (if Nat.eqb q (sd s (r1 t)) then q else r1 t))) by reflexivity.
    destruct (merge (S (length V)) (sd s) (ff s, ran s) t) as [[f1 r1] res]. rewrite Est. clear Est. destruct MG as (M1 & B1 & B2 & B3 & B4 & _).
    set (im1 := fset (im s) t (if Nat.eqb q (sd s (r1 t)) then q else r1 t)).
    destruct (IH (Lst f1 r1 (sd s) (tr s) im1)) as (C1 & C2 & C3 & C4 & C5); cbn [sd ff ran tr im]; auto.
    { intros t' Ht'. apply Hl. now right. }
    cbn [sd tr im] in *. set (s3 := fold_left (flushStep q) l (Lst f1 r1 (sd s) (tr s) im1)) in *.
    split; [exact C1|]. split; [exact C2|]. split; [exact C3|]. split.
    + intros t' [<-|Ht']; auto. destruct (in_dec Nat.eq_dec t l) as [Hi|Hn]; [auto|].
      (* the root of the union is q *)
      destruct (m_ln _ _ _ _ M1 t Tv Lt') as (D1 & D2 & D3 & D4). rewrite B1 in *.
      assert (X : res = q).
      { destruct (Nat.eq_dec res q) as [|Dx]; auto. exfalso. destruct (anc_chain fa res q t D1 At) as [Q|Q].
        - destruct (m_min _ _ _ _ M1 t q Tv Lt') as [Y _]; [rewrite B1; split; auto|lia].
        - specialize (Bt res). assert (c < num res) by (apply Bt; split; auto). lia. }
      rewrite X in B1, D1, D2, D3. unfold IMok. rewrite St, (C5 t Hn). unfold im1. rewrite fset_eq. split; auto.
      assert (Mn : forall u, between q u t -> num (sd s (r1 t)) <= num (sd s u)).
      { intros u Hu. apply (m_min _ _ _ _ M1 t u Tv Lt'). now rewrite B1. }
      destruct (Nat.eqb_spec q (sd s (r1 t))) as [Eq|Nq].
      * left. split; auto. intros u Hu. rewrite Eq. auto.
      * right. assert (Nr : r1 t <> q) by (intros Z; rewrite Z in Nq; congruence). assert (Tb : between q t t).
        { split; auto. split; [intros ->; lia|apply anc_refl]. }
        split; [split; auto|]. split; auto. specialize (Mn t Tb). rewrite St in Mn. assert (num (sd s (r1 t)) <> num q); [|lia].
        intros Z. apply Nq. apply (num_inj V); auto.
    + intros t' Ht'. rewrite C5 by (intros Z; apply Ht'; now right). unfold im1. apply fset_ne. intros ->. apply Ht'. now left.
Qed.
Lemma blkStep_ok w s : In w V -> w <> root -> OI (num w) s -> OI (num w - 1) (blkStep s w).
Proof.
  intros Hw Nr I. unfold blkStep. destruct (Nat.eqb_spec w root) as [|_]; [contradiction|].
  destruct (preds_ok w s Hw Nr I) as (P1 & P2 & P3 & P4 & P5). set (s1 := fold_left (predStep w) (preds w) s) in *.
  destruct (t_fa _ _ _ _ T w Hw Nr) as (F1 & F2 & F3).
  assert (Lw : 0 < num w) by lia. assert (Fne : fa w <> w) by (intros Z; rewrite Z in F2; lia).
  set (c := num w - 1). cbn zeta.
  set (s2 := Lst (fset (ff s1) w (fa w)) (ran s1) (sd s1) (tset (tr s1) (sd s1 w) (tr s1 (sd s1 w) ++ [w])) (im s1)).
  assert (M2 : MI c (sd s2) (ff s2) (ran s2)).
  { cbn. destruct (m_un _ _ _ _ P1 w Hw (le_n _)) as [U1 U2]. constructor.
    - intros v Hv Lv. assert (v <> w) by (intros ->; unfold c in Lv; lia). rewrite fset_ne by auto. apply (m_un _ _ _ _ P1 v Hv). unfold c in Lv. lia.
    - intros v Hv Lv. destruct (Nat.eq_dec v w) as [->|D].
      + rewrite fset_eq, U2. split; [apply anc_fa|]. split; auto. split; [apply anc_fa|apply anc_refl].
      + rewrite fset_ne by auto. apply (m_ln _ _ _ _ P1 v Hv). assert (num v <> num w) by (intros Z; apply D; now apply (num_inj V)). unfold c in Lv. lia.
    - intros v x Hv Lv. destruct (Nat.eq_dec v w) as [->|D].
      + rewrite fset_eq, U2. intros (X1 & X2 & X3). assert (x = w).
        { apply anc_inv in X3 as [X3|X3]; auto. exfalso. apply X2. apply (anc_antisym succ root V fa T); auto. }
        subst x. unfold c. split; lia.
      + rewrite fset_ne by auto. intros Hx. destruct (m_min _ _ _ _ P1 v x Hv) as [A B]; auto; [|unfold c; split; lia].
        assert (num v <> num w) by (intros Z; apply D; now apply (num_inj V)). unfold c in Lv. lia. }
  assert (Sd2 : forall x, In x V -> c < num x -> isSdom (sd s1 x) x).
  { intros x Hx Lx. destruct (Nat.eq_dec x w) as [->|D]; auto. rewrite P2 by auto. apply (o_sd _ _ I); auto.
    assert (num x <> num w) by (intros Z; apply D; now apply (num_inj V)). unfold c in Lx. lia. }
  assert (Sd0 : forall x, In x V -> num x <= c -> sd s1 x = x).
  { intros x Hx Lx. assert (x <> w) by (intros ->; unfold c in Lx; lia). rewrite P2 by auto. apply (o_sd0 _ _ I); auto. unfold c in Lx. lia. }
  (* what waits where *)
  assert (Tr2 : forall q t, In t (tr s2 q) -> In t V /\ c < num t /\ sd s1 t = q /\ (t = w \/ (In t (tr s q) /\ num w < num t))).
  { intros q t Ht. cbn in Ht. unfold tset in Ht. assert (K : In t (tr s q) \/ (t = w /\ q = sd s1 w)).
    { rewrite P3 in Ht. destruct (Nat.eqb_spec q (sd s1 w)) as [->|]; auto. apply in_app_or in Ht as [Ht|[<-|[]]]; auto. }
    destruct K as [K|[-> ->]]; [|split; auto; split; [unfold c; lia|auto]]. destruct (o_tr _ _ I q t K) as (A1 & A2 & A3 & _). split; auto. split; [unfold c; lia|].
    split; [rewrite P2; auto; intros ->; lia|auto]. }
  assert (Tr3 : forall t, In t V -> (t = w \/ In t (tr s (sd s1 t))) -> In t (tr s2 (sd s1 t))).
  { intros t Ht H. cbn. unfold tset. rewrite P3. destruct (Nat.eqb_spec (sd s1 t) (sd s1 w)) as [E|D].
    - apply in_or_app. destruct H as [->|H]; [right; now left|]. left. congruence.
    - destruct H as [->|H]; [congruence|auto]. }
  assert (Qv : In (fa w) V) by auto. assert (Lq : num (fa w) <= c) by (unfold c; lia).
  destruct (flush_ok c (fa w) (tr s2 (fa w)) s2 M2 Qv Lq) as (G1 & G2 & G3 & G4 & G5).
  { cbn. now apply Sd0. }
  { intros t Ht. destruct (Tr2 _ _ Ht) as (A1 & A2 & A3 & A4). split; auto. split; auto. split; [exact A3|].
    assert (Aq : anc (fa w) t /\ fa w <> t). { destruct (Sd2 t A1 A2) as [K _]. rewrite A3 in K. exact (semi_anc succ root V fa T _ _ A1 K). }
    destruct Aq as [Aq Nq]. split; auto.
    assert (Wt : anc w t).
    { destruct A4 as [->|[K Lt']]; [apply anc_refl|]. destruct (o_tr _ _ I _ _ K) as (_ & _ & _ & Ch).
      (* the child of fa w above t *)
      assert (Ex : forall n x, In x V -> anc (fa w) x -> fa w <> x -> num x <= n -> exists b, In b V /\ fa b = fa w /\ b <> fa w /\ anc b x).
      { induction n as [|n IHn]; intros x Hx Ax Nx Ln.
        - exfalso. pose proof (ancLt _ _ Hx Ax Nx). lia.
        - destruct (Nat.eq_dec (fa x) (fa w)) as [Ef|Df].
          + exists x. split; auto. split; auto. split; [auto|apply anc_refl].
          + apply anc_inv in Ax as [Ax|Ax]; [contradiction|]. assert (Rx : x <> root).
            { intros ->. rewrite (t_faroot _ _ _ _ T) in *. pose proof (ancLt _ _ Hx Ax Nx). rewrite (num_root succ root V fa T) in *. lia. }
            destruct (t_fa _ _ _ _ T x Hx Rx) as (Y1 & Y2 & _). destruct (IHn (fa x)) as (b & Z1 & Z2 & Z3 & Z4); auto; [lia|].
            exists b. split; auto. split; auto. split; auto. eapply anc_trans; [exact Z4|apply anc_fa]. }
      destruct (Ex (num t) t A1 Aq Nq (le_n _)) as (b & Z1 & Z2 & Z3 & Z4). specialize (Ch b Z1 Z2 Z3 Z4).
      assert (Bw : anc b w) by (apply (t_between _ _ _ _ T b t w); auto; lia).
      destruct (Nat.eq_dec b w) as [->|D]; auto. exfalso. apply anc_inv in Bw as [Bw|Bw]; [congruence|]. apply Z3. apply (anc_antisym succ root V fa T); auto.
      rewrite <- Z2. apply anc_fa. }
    intros u (U1 & U2 & U3). assert (Uv : In u V) by exact (ancV _ _ A1 U3).
    destruct (anc_chain fa u w t U3 Wt) as [Q|Q].
    - apply anc_inv in Q as [->|Q]; [unfold c; lia|]. exfalso. apply U2. apply (anc_antisym succ root V fa T); auto.
    - pose proof (ancLe w u Uv Q). unfold c. lia. }
  set (s3 := fold_left (flushStep (fa w)) (tr s2 (fa w)) s2) in *. cbn [sd s2] in G2. constructor; cbn [sd ff ran tr im].
  - exact G1.
  - rewrite G2. exact Sd2.
  - rewrite G2. exact Sd0.
  - intros q t Ht. unfold tset in Ht. destruct (Nat.eqb_spec q (fa w)) as [|Dq]; [destruct Ht|]. rewrite G3 in Ht. rewrite G2.
    destruct (Tr2 _ _ Ht) as (A1 & A2 & A3 & A4). split; auto. split; auto. split; auto. intros x Hx Ex Nx Ax.
    assert (x <> w) by (intros ->; congruence). assert (num x <> num w) by (intros Z; apply H; now apply (num_inj V)).
    destruct A4 as [->|[K _]].
    + pose proof (ancLe x w Hw Ax). unfold c. lia.
    + destruct (o_tr _ _ I _ _ K) as (_ & _ & _ & Ch). specialize (Ch x Hx Ex Nx Ax). unfold c. lia.
  - intros t Ht Lt'. rewrite G2, G3. unfold tset. assert (Keep : In t (tr s2 (sd s1 t)) -> In t (if Nat.eqb (sd s1 t) (fa w) then [] else tr s2 (sd s1 t)) \/ IMok c (sd s1) (im s3) t).
    { intros K. destruct (Nat.eqb_spec (sd s1 t) (fa w)) as [E|D]; auto. right. apply G4. now rewrite <- E. }
    destruct (Nat.eq_dec t w) as [->|D]; [apply Keep; apply Tr3; auto|].
    assert (Lt2 : num w < num t). { assert (num t <> num w) by (intros Z; apply D; now apply (num_inj V)). unfold c in Lt'. lia. }
    destruct (o_im _ _ I t Ht Lt2) as [K|K].
    + apply Keep. apply Tr3; auto. right. rewrite P2; auto.
    + destruct (in_dec Nat.eq_dec t (tr s2 (fa w))) as [Hi|Hn]; [right; now apply G4|]. right.
      eapply IMok_ext; [exact K|unfold c; lia|now apply P2| |].
      * rewrite (G5 t Hn). cbn. now rewrite P4.
      * intros x Lx. apply P2. intros ->. lia.
Qed.
Lemma lt_ok : OI 0 lt.
Proof.
  unfold lt. set (s0 := Lst (fun x => x) (fun x => x) (fun x => x) (fun _ => []) (fun x => x)).
  assert (I0 : OI (length V - 1) s0).
  { assert (Nn : forall x, In x V -> ~ length V - 1 < num x) by (intros x Hx; apply idx_lt in Hx; lia). constructor.
    - constructor; [cbn; auto| |]; intros; exfalso; eapply Nn; eauto.
    - intros w Hw L. exfalso. eapply Nn; eauto.
    - cbn. auto.
    - cbn. intros q t [].
    - intros w Hw L. exfalso. eapply Nn; eauto. }
  assert (K : forall B A, V = A ++ B -> A <> [] -> OI (length A - 1) (fold_left blkStep (rev B) s0)).
  { induction B as [|x B IH]; intros A E Na.
    - cbn. rewrite app_nil_r in E. now rewrite <- E.
    - cbn [rev]. rewrite fold_left_app. cbn [fold_left]. specialize (IH (A ++ [x])). rewrite <- app_assoc in IH. specialize (IH E).
      assert (Na' : A ++ [x] <> []) by (destruct A; discriminate). specialize (IH Na'). rewrite app_length in IH. cbn in IH.
      assert (Xv : In x V) by (rewrite E; apply in_or_app; right; now left).
      assert (Nx : ~ In x A) by (intros H; eapply nodup_app_disj; [rewrite <- E; apply (t_nodup _ _ _ _ T)|exact H|now left]).
      assert (Ex : num x = length A). { rewrite E at 1. apply idx_mid. exact Nx. }
      replace (length A + 1 - 1) with (num x) in IH by lia. rewrite <- Ex. apply blkStep_ok; auto.
      intros ->. rewrite (num_root succ root V fa T) in Ex. destruct A; [congruence|discriminate]. }
  destruct (t_root _ _ _ _ T) as [L EL]. specialize (K L [root]). rewrite EL at 1. cbn [rev]. rewrite fold_left_app. cbn [fold_left].
  unfold blkStep at 1. rewrite Nat.eqb_refl. apply K; [exact EL|discriminate].
Qed.
Lemma lt_im w : In w V -> w <> root -> IMok 0 (sd lt) (im lt) w /\ isSdom (sd lt w) w.
Proof.
  intros Hw Nr. pose proof lt_ok as I. assert (Lw : 0 < num w) by (assert (num w <> 0); [|lia]; intros Z; apply Nr; now apply (num0 succ root V fa T)).
  pose proof (o_sd _ _ I w Hw Lw) as S. split; auto. destruct (o_im _ _ I w Hw Lw) as [K|K]; auto. exfalso.
  destruct (o_tr _ _ I _ _ K) as (_ & _ & _ & Ch). destruct (semi_anc succ root V fa T _ _ Hw (proj1 S)) as [As Ns].
  assert (Ex : forall n x, In x V -> anc (sd lt w) x -> sd lt w <> x -> num x <= n -> exists b, In b V /\ fa b = sd lt w /\ b <> sd lt w /\ anc b x /\ b <> root).
  { induction n as [|n IHn]; intros x Hx Ax Nx Ln.
    - exfalso. pose proof (ancLt _ _ Hx Ax Nx). lia.
    - assert (Rx : x <> root) by (intros ->; pose proof (ancLt _ _ Hx Ax Nx); rewrite (num_root succ root V fa T) in *; lia).
      destruct (Nat.eq_dec (fa x) (sd lt w)) as [Ef|Df].
      + exists x. split; auto. split; auto. split; [auto|]. split; [apply anc_refl|auto].
      + apply anc_inv in Ax as [Ax|Ax]; [contradiction|].
        destruct (t_fa _ _ _ _ T x Hx Rx) as (Y1 & Y2 & _). destruct (IHn (fa x)) as (b & Z1 & Z2 & Z3 & Z4 & Z5); auto; [lia|].
        exists b. split; auto. split; auto. split; auto. split; auto. eapply anc_trans; [exact Z4|apply anc_fa]. }
  destruct (Ex (num w) w Hw As Ns (le_n _)) as (b & Z1 & Z2 & Z3 & Z4 & Z5). specialize (Ch b Z1 Z2 Z3 Z4). apply Z5. apply (num0 succ root V fa T); auto. lia.
Qed.
(** the result: the immediate dominator of every block but the entry *)
Theorem idomOf_ok w : In w V -> w <> root -> isIdom succ root (idomOf w) w.
Proof.
  unfold idomOf. set (S0 := sd lt). set (I0 := im lt).
  assert (K : forall l A im0, V = A ++ l -> (forall x, In x A -> x <> root -> isIdom succ root (im0 x) x) -> (forall x, In x l -> im0 x = I0 x) ->
     forall x, In x V -> x <> root -> isIdom succ root (fold_left (fixStep S0) l im0 x) x).
  { induction l as [|b l IH]; intros A im0 E HA Hl x Hx Nx.
    - cbn. rewrite app_nil_r in E. subst A. auto.
    - cbn [fold_left]. apply (IH (A ++ [b])); auto; [now rewrite <- app_assoc| |].
      + assert (Bv : In b V) by (rewrite E; apply in_or_app; right; now left).
        assert (Nb : ~ In b A) by (intros H; eapply nodup_app_disj; [rewrite <- E; apply (t_nodup _ _ _ _ T)|exact H|now left]).
        intros y Hy Ny. assert (Oth : y <> b -> isIdom succ root (fixStep S0 im0 b y) y).
        { intros D. unfold fixStep. apply in_app_or in Hy as [Hy|[Hy|[]]]; [|congruence]. destruct (Nat.eqb b root); auto. destruct (Nat.eqb (im0 b) (S0 b)); auto. rewrite fset_ne; auto. }
        destruct (Nat.eq_dec y b) as [->|D]; auto. clear Oth Hy. unfold fixStep. destruct (Nat.eqb_spec b root) as [|_]; [contradiction|].
        destruct (lt_im b Bv Ny) as [[_ Im] Sd]. fold S0 I0 in Im, Sd. rewrite <- (Hl b (or_introl eq_refl)) in Im.
        assert (Hsemi : forall u v, In u V -> u <> root -> semi v u -> num (S0 u) <= num v) by (intros u v Hu Nu Hs; apply (lt_im u Hu Nu); exact Hs).
        assert (Nroot : forall q u, In u V -> anc q u -> u <> q -> u <> root).
        { intros q u Hu Aq Nq ->. pose proof (ancLt q root Hu Aq (fun e => Nq (eq_sym e))). rewrite (num_root succ root V fa T) in *. lia. }
        destruct (Nat.eqb_spec (im0 b) (S0 b)) as [Eq|Nq].
        * rewrite Eq. destruct Im as [[_ Im]|(Im & _)]; [|destruct Im as (_ & Z & _); contradiction].
          apply (idom1 succ root V fa T); auto; [apply Sd|]. intros u v U1 U2 U3 Hs. assert (Uv : In u V) by exact (ancV _ _ Bv U3).
          specialize (Im u (conj U1 (conj U2 U3))). specialize (Hsemi u v Uv (Nroot _ _ Uv U1 U2) Hs). lia.
        * rewrite fset_eq. destruct Im as [[Z _]|(Bt & Lt' & Mn)]; [contradiction|]. destruct Bt as (B1 & B2 & B3).
          assert (Uv : In (im0 b) V) by exact (ancV _ _ Bv B3). pose proof (Nroot _ _ Uv B1 B2) as Nu.
          assert (Ne : im0 b <> b) by (intros Z; rewrite Z in Lt'; lia). pose proof (ancLt _ _ Bv B3 Ne) as Lu.
          assert (Ua : In (im0 b) A).
          { assert (Eb : num b = length A) by (rewrite E at 1; now apply idx_mid). rewrite Eb in Lu. rewrite E in Lu, Uv. apply in_app_or in Uv as [|Uv]; auto. exfalso.
            rewrite idx_r in Lu; [lia|]. intros H. eapply nodup_app_disj; [rewrite <- E; apply (t_nodup _ _ _ _ T)|exact H|exact Uv]. }
          eapply (idom2 succ root V fa T (S0 b) b (im0 b) (S0 (im0 b))); auto; try apply Sd.
          -- apply (lt_im (im0 b) Uv Nu).
          -- intros y v Y1 Y2 Y3 Hs. assert (Yv : In y V) by exact (ancV _ _ Bv Y3). specialize (Mn y (conj Y1 (conj Y2 Y3))).
             specialize (Hsemi y v Yv (Nroot _ _ Yv Y1 Y2) Hs). lia.
      + intros y Hy. unfold fixStep. assert (y <> b).
        { intros ->. pose proof (t_nodup _ _ _ _ T) as N. rewrite E in N. apply nodup_app_r in N. inversion N; auto. }
        destruct (Nat.eqb b root); [apply Hl; now right|]. destruct (Nat.eqb (im0 b) (S0 b)); [apply Hl; now right|]. rewrite fset_ne; auto. apply Hl. now right. }
  intros Hw Nr. apply (K V [] I0); auto. intros x [].
Qed.
End Alg.
