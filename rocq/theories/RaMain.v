(** The allocator as a whole: when no class needs spilling, the program it yields has no virtual registers and does
    what the given one does. *)
From Coq Require Import ZArith Lia Bool List Arith.
From Verif Require Import GMir RaMir RaLive RaIv RaColor RaAlloc RaSim.
Import ListNotations.

Section Main.
Context {W : Type}.
Variable t : mach W.
Variable I : rinfo.
Hypothesis RT : raTarget t I.
Variable p : mfunc.
Hypothesis IN : raInput t I p.

(** ** what the scan records *)
Section Rec.
Variable c : nat.
Variable li : liveInfo.
Definition clsOp (o : gop) : Prop := match o with GT v => vcls I v = c | GE v _ => vcls I v = c end.
Lemma defStep_cls l : forall st st' e, defStep I c l st = (st', e) -> (forall v, In v (liv st) -> vcls I v = c) ->
  (forall v, In v (liv st') -> vcls I v = c) /\ (forall o, In o e -> clsOp o).
Proof.
  induction l as [|[f o] l IH]; intros st st' e H C; cbn [defStep] in H.
  - injection H as <- <-. split; [exact C|intros o []].
  - destruct f, o as [[n0|n0]|z|q|q]; try exact (IH _ _ _ H C).
    + destruct (Nat.eqb (pcls I n0) c && negb (zero I n0)); [|exact (IH _ _ _ H C)].
      destruct (defStep I c l (Sc (und st) (nadd n0 (lck st)) (liv st))) as [st1 e1] eqn:Ed. injection H as <- <-.
      destruct (IH _ _ _ Ed C) as [A B]. split; [exact A|]. intros o Ho. apply in_app_or in Ho as [Ho|Ho]; [|auto].
      apply in_map_iff in Ho as (v & <- & Hv). now apply C.
    + destruct (Nat.eqb_spec (vcls I n0) c) as [E|E]; [|exact (IH _ _ _ H C)].
      destruct (defStep I c l (Sc (und st) (lck st) (nadd n0 (liv st)))) as [st1 e1] eqn:Ed. injection H as <- <-.
      destruct (IH _ _ _ Ed) as [A B].
      { cbn [liv]. intros v Hv. apply in_nadd in Hv as [->|Hv]; auto. }
      split; [exact A|]. intros o [<-|Ho]; [exact E|]. apply in_app_or in Ho as [Ho|Ho].
      * apply in_map_iff in Ho as (n & <- & _). exact E.
      * apply in_app_or in Ho as [Ho|Ho]; [|auto]. apply in_map_iff in Ho as (n & <- & _). exact E.
Qed.
Lemma useSteps_cls k l : forall st, (forall v, In v (liv st) -> vcls I v = c) ->
  forall v, In v (liv (fold_left (useStep I c li k) l st)) -> vcls I v = c.
Proof.
  induction l as [|[f o] l IH]; intros st C; cbn [fold_left]; [exact C|]. apply IH.
  destruct f, o as [[n0|n0]|z|q|q]; cbn [useStep]; try exact C.
  - destruct (Nat.eqb (pcls I n0) c && negb (zero I n0)); exact C.
  - destruct (Nat.eqb (vcls I n0) c && nmem k (liDead li n0)); [|exact C]. cbn. intros v Hv. apply in_ndel in Hv. now apply C.
Qed.
Lemma scInst_cls k i rest st st' e : scInst t I c li k i rest st = (st', e) ->
  (forall v, In v (liv st) -> vcls I v = c) ->
  (forall v, In v (liv st') -> vcls I v = c) /\ (forall o, In o e -> clsOp o).
Proof.
  unfold scInst. intros H C. pose proof (useSteps_cls k (fops t i) st C) as C1.
  set (st1 := fold_left (useStep I c li k) (fops t i) st) in *.
  set (s2 := if callF t (opc i) then _ else _) in H.
  assert (X : (forall v, In v (liv (fst s2)) -> vcls I v = c) /\ (forall o, In o (snd s2) -> clsOp o)).
  { subst s2. destruct (callF t (opc i)); cbn; [|split; [exact C1|intros o []]]. split; [exact C1|].
    intros o Ho. apply in_flat_map in Ho as (n & _ & Ho). apply in_map_iff in Ho as (v & <- & Hv). now apply C1. }
  destruct s2 as [st2 e2]. cbn [fst snd] in X. destruct X as [X1 X2].
  destruct (defStep I c (fops t i) st2) as [st3 e3] eqn:Ed. injection H as <- <-.
  destruct (defStep_cls _ _ _ _ Ed X1) as [A B]. split; [exact A|]. intros o Ho.
  apply in_app_or in Ho as [Ho|Ho]; [|apply in_app_or in Ho as [Ho|Ho]; auto].
  apply in_flat_map in Ho as ([f x] & _ & Ho). destruct f; try (destruct Ho; fail).
  destruct x as [[n|v]|z|q|q]; try (destruct Ho; fail). cbn in Ho.
  destruct (Nat.eqb_spec (vcls I v) c); [|destruct Ho]. destruct Ho as [<-|[]]. assumption.
Qed.
Lemma scBlk_cls blk : forall k st, (forall v, In v (liv st) -> vcls I v = c) ->
  forall o, In o (scBlk t I c li k blk st) -> clsOp o.
Proof.
  induction blk as [|i r IH]; intros k st C o H; cbn [scBlk] in H; [destruct H|].
  destruct (scInst t I c li k i r st) as [st' e] eqn:E. destruct (scInst_cls _ _ _ _ _ _ E C) as [A B].
  apply in_app_or in H as [H|H]; [auto|]. exact (IH _ _ A o H).
Qed.
Lemma scAll_cls q : forall b k o, In o (scAll t I c li b k q) -> clsOp o.
Proof.
  induction q as [|blk q IH]; intros b k o H; cbn [scAll] in H; [destruct H|].
  apply in_app_or in H as [H|H]; [|exact (IH _ _ _ H)]. apply scBlk_cls in H; [exact H|].
  cbn. intros v Hv. apply filter_In in Hv as [_ Hv]. now apply Nat.eqb_eq.
Qed.

(** every register of the class that is used or defined is touched *)
Lemma scInst_touch k i rest st st' e v : scInst t I c li k i rest st = (st', e) -> vcls I v = c ->
  In v (vuses t i) \/ In v (vdefs t i) -> In (GT v) e.
Proof.
  unfold scInst. intros H C M. set (s2 := if callF t (opc i) then _ else _) in H. destruct s2 as [st2 e2].
  destruct (defStep I c (fops t i) st2) as [st3 e3] eqn:Ed. injection H as <- <-. apply in_or_app. destruct M as [M|M].
  - left. apply in_vuses, ruses_in in M. apply in_flat_map. exists (FUse, OReg (Virt v)). split; [exact M|].
    cbn. rewrite C, Nat.eqb_refl. now left.
  - right. apply in_or_app. right. destruct (defStep_spec I c _ _ _ _ Ed) as (_ & _ & _ & _ & _ & D). apply D.
    split; [|exact C]. now apply rdefs_in, in_vdefs.
Qed.
Lemma scBlk_touch blk : forall k st v i, In i blk -> vcls I v = c -> In v (vuses t i) \/ In v (vdefs t i) ->
  In (GT v) (scBlk t I c li k blk st).
Proof.
  induction blk as [|x r IH]; intros k st v i Hi C M; [destruct Hi|]. cbn [scBlk].
  destruct (scInst t I c li k x r st) as [st' e] eqn:E. apply in_or_app. destruct Hi as [->|Hi].
  - left. exact (scInst_touch _ _ _ _ _ _ v E C M).
  - right. now apply IH with i.
Qed.
Lemma scAll_touch q : forall b k v blk i, In blk q -> In i blk -> vcls I v = c -> In v (vuses t i) \/ In v (vdefs t i) ->
  In (GT v) (scAll t I c li b k q).
Proof.
  induction q as [|x q IH]; intros b k v blk i Hb Hi C M; [destruct Hb|]. cbn [scAll]. apply in_or_app.
  destruct Hb as [->|Hb]; [left; now apply scBlk_touch with i|right; now apply IH with blk i].
Qed.

(** ** the graph *)
Definition okCls (g : graph) : Prop := gok g /\ forall v, In v (nodes g) -> vcls I v = c.
Lemma gapply_ok g o : okCls g -> clsOp o -> okCls (gapply g o).
Proof.
  intros [G C] H. destruct o as [v|v n]; cbn [gapply].
  - split; [now apply touch_ok|]. cbn. intros x Hx. apply in_nadd in Hx as [->|Hx]; auto.
  - split; [apply addEdge_ok; [discriminate|exact G]|]. intros x Hx. unfold addEdge in Hx.
    destruct (rmem (Phys n) (gadj g (Virt v))); [auto|]. cbn in Hx. apply in_nadd in Hx as [->|Hx]; auto.
Qed.
Lemma gapply_mono g o : gok g -> (forall x y, In y (gadj g x) -> In y (gadj (gapply g o) x)) /\
  (forall v, In v (nodes g) -> In v (nodes (gapply g o))).
Proof.
  intros G. destruct o as [v|v n]; cbn [gapply].
  - split; [auto|]. cbn. intros x Hx. apply in_nadd. auto.
  - split; [|intros; now apply addEdge_nodes]. intros x y H. apply addEdge_adj; auto. discriminate.
Qed.
Lemma gapplys_ok l : forall g, okCls g -> (forall o, In o l -> clsOp o) ->
  okCls (fold_left gapply l g) /\
  (forall x y, In y (gadj g x) -> In y (gadj (fold_left gapply l g) x)) /\
  (forall v, In v (nodes g) -> In v (nodes (fold_left gapply l g))) /\
  (forall v, In (GT v) l -> In v (nodes (fold_left gapply l g))) /\
  (forall v n, In (GE v n) l -> In (Phys n) (gadj (fold_left gapply l g) (Virt v))).
Proof.
  induction l as [|o l IH]; intros g G H; cbn [fold_left].
  - split; [exact G|]. split; [auto|]. split; [auto|]. split; [intros v []|intros v n []].
  - assert (Go := gapply_ok g o G (H o (or_introl eq_refl))).
    destruct (IH (gapply g o) Go) as (A & B & C & D & E); [intros; apply H; now right|].
    destruct (gapply_mono g o (proj1 G)) as [M1 M2].
    split; [exact A|]. split; [auto|]. split; [auto|]. split.
    + intros v [->|Hv]; [|auto]. apply C. cbn. apply in_nadd. auto.
    + intros v n [->|Hv]; [|auto]. apply B. cbn [gapply]. apply addEdge_adj; [discriminate|exact (proj1 G)|auto].
Qed.
Lemma pairs_in l : NoDup l -> forall u v, In (u, v) (pairs l) -> In u l /\ In v l /\ u <> v.
Proof.
  induction l as [|x l IH]; intros ND u v H; [destruct H|]. inversion ND as [|? ? N1 N2]; subst. cbn in H.
  apply in_app_or in H as [H|H].
  - apply in_map_iff in H as (y & E & Hy). injection E as <- <-. split; [now left|]. split; [now right|]. congruence.
  - destruct (IH N2 u v H) as (A & B & C). split; [now right|]. split; [now right|exact C].
Qed.
Lemma pairs_all l : forall u v, In u l -> In v l -> u <> v -> In (u, v) (pairs l) \/ In (v, u) (pairs l).
Proof.
  induction l as [|x l IH]; intros u v Hu Hv N; [destruct Hu|]. cbn. rewrite !in_app_iff.
  destruct Hu as [->|Hu], Hv as [->|Hv].
  - congruence.
  - left. left. apply in_map_iff. exists v. auto.
  - right. left. apply in_map_iff. exists u. auto.
  - destruct (IH u v Hu Hv N); auto.
Qed.

Hypothesis LS : liveSpec t p li.
Lemma graphOf_ok : okCls (graphOf t I c li p) /\
  (forall v, mentioned t p v -> vcls I v = c -> In v (nodes (graphOf t I c li p))) /\
  (forall v n, In (GE v n) (scAll t I c li 0 0 p) -> In (Phys n) (gadj (graphOf t I c li p) (Virt v))) /\
  (forall u v, mentioned t p u -> mentioned t p v -> vcls I u = c -> vcls I v = c -> u <> v ->
     (exists x, covers (liIv li u) x /\ covers (liIv li v) x) -> In (Virt v) (gadj (graphOf t I c li p) (Virt u))).
Proof using LS.
  unfold graphOf. destruct (gapplys_ok (scAll t I c li 0 0 p) graph0) as (A & _ & _ & D & E).
  { split; [apply gok0|intros v []]. }
  { intros o. apply scAll_cls. }
  set (g1 := fold_left gapply (scAll t I c li 0 0 p) graph0) in *.
  assert (Dif : forall e, In e (vedges li (nodes g1)) -> fst e <> snd e).
  { intros e He. unfold vedges in He. apply in_map_iff in He as ([u v] & <- & He). apply filter_In in He as [He _].
    apply pairs_in in He; [|apply (g_nodes g1 (proj1 A))]. cbn. intros X. injection X as X. tauto. }
  assert (Nd : forall l g v, (forall e, In e l -> exists x y, e = (Virt x, Virt y) /\ In x (nodes g) /\ In y (nodes g)) ->
    In v (nodes (fold_left addEdge l g)) -> In v (nodes g)).
  { clear. induction l as [|e l IH]; intros g v H Hv; [exact Hv|]. cbn [fold_left] in Hv.
    destruct (H e (or_introl eq_refl)) as (x & y & -> & Hx & Hy).
    assert (S : forall z, In z (nodes (addEdge g (Virt x, Virt y))) -> In z (nodes g)).
    { intros z. unfold addEdge. destruct (rmem (Virt y) (gadj g (Virt x))); [auto|]. cbn.
      rewrite !in_nadd. intros [->|[->|X]]; auto. }
    apply S. apply (IH (addEdge g (Virt x, Virt y))); [|exact Hv].
    intros e He. destruct (H e (or_intror He)) as (x' & y' & -> & Hx' & Hy'). exists x', y'.
    split; [reflexivity|]. split; now apply addEdge_nodes. }
  split; [split|split; [|split]].
  - apply addEdges_ok; [exact Dif|apply A].
  - intros v Hv. apply (proj2 A). apply (Nd _ _ _) with (2 := Hv). intros e He.
    unfold vedges in He. apply in_map_iff in He as ([u w] & <- & He). apply filter_In in He as [He _].
    apply pairs_in in He; [|apply (g_nodes g1 (proj1 A))]. exists u, w. cbn. tauto.
  - intros v (blk & i & H1 & H2 & H3) C. apply addEdges_nodes. apply D. now apply scAll_touch with blk i.
  - intros v n H. apply addEdges_mono; [exact Dif|apply A|]. now apply E.
  - intros u v (b1 & i1 & U1 & U2 & U3) (b2 & i2 & W1 & W2 & W3) Cu Cv N X.
    assert (Hu : In u (nodes g1)) by (apply D; now apply scAll_touch with b1 i1).
    assert (Hv : In v (nodes g1)) by (apply D; now apply scAll_touch with b2 i2).
    assert (Int : forall a b, (exists x, covers (liIv li a) x /\ covers (liIv li b) x) -> intersectWith (liIv li a) (liIv li b) = true).
    { intros a b Y. apply (intersect_exact _ _ _ _ _ _ (ls_chain t p li LS a) (ls_chain t p li LS b)). exact Y. }
    destruct (pairs_all (nodes g1) u v Hu Hv N) as [P|P].
    + apply (addEdges_in (vedges li (nodes g1)) g1 (Virt u) (Virt v) Dif (proj1 A)). unfold vedges.
      apply in_map_iff. exists (u, v). split; [reflexivity|]. apply filter_In. split; [exact P|]. now apply Int.
    + apply (addEdges_in (vedges li (nodes g1)) g1 (Virt v) (Virt u) Dif (proj1 A)). unfold vedges.
      apply in_map_iff. exists (v, u). split; [reflexivity|]. apply filter_In. split; [exact P|]. apply Int.
      destruct X as (x & X1 & X2). exists x. auto.
Qed.
End Rec.

(** ** the classes one after the other *)
Variable top : nat -> nat -> list nat -> nat.
Variable best : nat -> nat -> list nat -> nat.
Variable choose : nat -> nat -> list nat -> nat.
Hypothesis topOk : forall c n q, q <> [] -> In (top c n q) q.
Hypothesis bestOk : forall c u l, l <> [] -> In (best c u l) l.
Hypothesis chooseOk : forall c u l, l <> [] -> In (choose c u l) l.
Variable li : liveInfo.
Hypothesis LI : calcLiveIntervals t p = Some li.
Hypothesis LS : liveSpec t p li.

Lemma hints_ok c u w : vcls I u = c -> In u (nodes (graphOf t I c li p)) -> In w (hintsOf I c p u) ->
  match w with Phys n => In n (al I c) | Virt v => In v (nodes (graphOf t I c li p)) end.
Proof using IN LS RT.
  intros Cu Hu Hw. unfold hintsOf in Hw. apply in_flat_map in Hw as (i & Hi & Hw).
  apply in_concat in Hi as (blk & Hb & Hi).
  destruct (ops i) as [|[a|z|q|q] [|[b|z2|q2|q2] [|]]] eqn:Eo; try (destruct Hw; fail).
  destruct (Nat.eqb (opc i) opcCopyFrom && rmem b (map Phys (al I c))) eqn:E1.
  - apply andb_true_iff in E1 as [_ E1]. apply rmem_In, in_map_iff in E1 as (n & <- & Hn).
    destruct (reg_eqb a (Virt u)); [|destruct Hw]. destruct Hw as [<-|[]]. exact Hn.
  - destruct (Nat.eqb (opc i) opcCopyTo && rmem a (map Phys (al I c))) eqn:E2.
    + apply andb_true_iff in E2 as [_ E2]. apply rmem_In, in_map_iff in E2 as (n & <- & Hn).
      destruct (reg_eqb b (Virt u)); [|destruct Hw]. destruct Hw as [<-|[]]. exact Hn.
    + destruct (Nat.eqb_spec (opc i) opcCopy) as [E3|]; cbn [andb] in Hw; [|destruct Hw].
      destruct (reg_eqb_spec a b) as [|Nab]; cbn [negb] in Hw; [destruct Hw|].
      pose proof (ri_copy t I p IN blk i a b Hb Hi E3 Eo Nab) as X.
      assert (Ma : forall v, a = Virt v \/ b = Virt v -> mentioned t p v).
      { intros v Hv. exists blk, i. split; [exact Hb|]. split; [exact Hi|].
        unfold vuses, vdefs, ruses, rdefs, fops. rewrite E3, (proj1 (rt_copy t I RT)), Eo. cbn.
        destruct Hv as [-> | ->]; [right|left]; cbn; auto. }
      destruct (graphOf_ok c li LS) as (_ & Gm & _).
      apply in_app_or in Hw as [Hw|Hw].
      * destruct (reg_eqb_spec a (Virt u)) as [-> | ]; [|destruct Hw]. destruct Hw as [<-|[]].
        destruct b as [n|v]; [now rewrite Cu in X|]. apply Gm; [apply Ma; auto|congruence].
      * destruct (reg_eqb_spec b (Virt u)) as [-> | ]; [|destruct Hw]. destruct Hw as [<-|[]].
        destruct a as [n|v]; [now rewrite Cu in X|]. apply Gm; [apply Ma; auto|congruence].
Qed.

Lemma allocClass_ok c m0 : (forall v, vcls I v = c -> m0 v = None) ->
  match allocClass t I top best choose p c m0 with
  | Spill => True
  | Stuck => False
  | Colored m => (forall u, In u (nodes (graphOf t I c li p)) -> properAt (al I c) (graphOf t I c li p) m u) /\
                 (forall v, vcls I v <> c -> m v = m0 v)
  end.
Proof using IN LS RT LI topOk bestOk chooseOk.
  intros M0. unfold allocClass. rewrite LI.
  destruct (graphOf_ok c li LS) as ([G C] & _).
  pose proof (color_ok (length (al I c)) (al I c) (hintsOf I c p) (best c) (choose c) (bestOk c) (chooseOk c)
                (conj (rt_nd t I RT c) eq_refl) m0 (graphOf t I c li p) G) as X.
  specialize (X ltac:(intros u Hu w Hw; pose proof (hints_ok c u w (C u Hu) Hu Hw) as Y; destruct w; [exact Y|now left])).
  specialize (X ltac:(intros v Hv; apply M0, C, Hv) (top c) (topOk c)).
  destruct (color _ _ _ _ _ _ _ _) as [|m|]; [exact Logic.I| |exact X].
  destruct X as [X1 X2]. split; [exact X1|]. intros v Hv. apply X2. intros Y. apply Hv, C, Y.
Qed.

Lemma allocFrom_ok cs : forall m0, NoDup cs -> (forall v, In (vcls I v) cs -> m0 v = None) ->
  match allocFrom t I top best choose p cs m0 with
  | Spill => True
  | Stuck => False
  | Colored m =>
      (forall c u, In c cs -> In u (nodes (graphOf t I c li p)) -> properAt (al I c) (graphOf t I c li p) m u) /\
      (forall v, ~ In (vcls I v) cs -> m v = m0 v)
  end.
Proof using IN LS RT LI topOk bestOk chooseOk.
  induction cs as [|c cs IH]; intros m0 ND M0; cbn [allocFrom].
  - split; [intros c u []|reflexivity].
  - inversion ND as [|? ? N1 N2]; subst.
    pose proof (allocClass_ok c m0 ltac:(intros v Hv; apply M0; left; congruence)) as A.
    destruct (allocClass t I top best choose p c m0) as [|m1|]; [exact Logic.I| |exact A].
    destruct A as [A1 A2].
    specialize (IH m1 N2). specialize (IH ltac:(intros v Hv; rewrite A2; [apply M0; now right|intros X; rewrite X in Hv; contradiction])).
    destruct (allocFrom t I top best choose p cs m1) as [|m|]; [exact Logic.I| |exact IH].
    destruct IH as [I1 I2]. split.
    + intros c' u [<-|Hc'] Hu; [|now apply I1].
      destruct (graphOf_ok c li LS) as ([G C] & _).
      assert (St : forall v, vcls I v = c -> m v = m1 v) by (intros v Hv; apply I2; intros X; apply N1; congruence).
      destruct (A1 u Hu) as (x & X1 & X2 & X3). exists x. rewrite St by (now apply C). split; [exact X1|]. split; [exact X2|].
      intros w Hw. specialize (X3 w Hw). destruct w as [n|v]; [exact X3|]. rewrite St; [exact X3|].
      apply C. now apply (g_virt _ G (Virt u)).
    + intros v Hv. rewrite I2 by (intros X; apply Hv; now right). apply A2. intros X. apply Hv. left. congruence.
Qed.
End Main.

(** the operands of the renamed program *)
Definition noVirt (p : mfunc) : Prop := forall blk i v, In blk p -> In i blk -> ~ In (OReg (Virt v)) (ops i).

Section Top.
Context {W : Type}.
Variable t : mach W.
Variable I : rinfo.
Hypothesis RT : raTarget t I.
Variable top : nat -> nat -> list nat -> nat.
Variable best : nat -> nat -> list nat -> nat.
Variable choose : nat -> nat -> list nat -> nat.
Hypothesis topOk : forall c n q, q <> [] -> In (top c n q) q.
Hypothesis bestOk : forall c u l, l <> [] -> In (best c u l) l.
Hypothesis chooseOk : forall c u l, l <> [] -> In (choose c u l) l.

Lemma calc_live p : raInput t I p -> exists li, calcLiveIntervals t p = Some li /\ liveSpec t p li.
Proof.
  intros IN. apply calc_ok; [|apply (ri_tie t I p IN)]. intros blk Hb. split; [now apply (ri_ne t I p IN)|].
  intros i Hi. pose proof (ri_nd t I p IN blk i Hb Hi) as ND. unfold vdefs. clear -ND.
  induction (rdefs t i) as [|r l IH]; cbn; [constructor|]. inversion ND as [|? ? N1 N2]; subst.
  destruct r as [n|v]; cbn; [auto|]. constructor; [|auto]. intros H. apply N1.
  apply in_flat_map in H as ([n|x] & H1 & H2); cbn in H2; [destruct H2|]. destruct H2 as [->|[]]. exact H1.
Qed.

Theorem allocAll_ok p : raInput t I p ->
  match allocAll t I top best choose p with
  | Spill => True
  | Stuck => False
  | Colored m => rsame t p (rename m p) /\ noVirt (rename m p)
  end.
Proof using RT topOk bestOk chooseOk.
  intros IN. destruct (calc_live p IN) as (li & LI & LS). unfold allocAll.
  pose proof (allocFrom_ok t I RT p IN top best choose topOk bestOk chooseOk li LI LS (seq 0 (ncls I)) (fun _ => None)
                (seq_NoDup _ _) ltac:(reflexivity)) as A.
  destruct (allocFrom t I top best choose p (seq 0 (ncls I)) (fun _ => None)) as [|m|]; [exact Logic.I| |exact A].
  destruct A as [A _].
  assert (P : forall v, mentioned t p v -> vcls I v < ncls I /\ In v (nodes (graphOf t I (vcls I v) li p))).
  { intros v Hv. split; [now apply (ri_cls t I p IN)|]. now apply (graphOf_ok t I p (vcls I v) li LS). }
  assert (Pr : forall v, mentioned t p v -> properAt (al I (vcls I v)) (graphOf t I (vcls I v) li p) m v).
  { intros v Hv. destruct (P v Hv) as [H1 H2]. apply A; [apply in_seq; lia|exact H2]. }
  set (col := fun v => match m v with Some x => x | None => 0 end).
  assert (Mc : forall v, mentioned t p v -> m v = Some (col v)).
  { intros v Hv. destruct (Pr v Hv) as (x & X & _). unfold col. now rewrite X. }
  split.
  - apply (rename_same t I RT p IN li LS m col Mc).
    + intros v Hv. destruct (Pr v Hv) as (x & X1 & X2 & _). unfold col. now rewrite X1.
    + intros c v n Hc Hg E. destruct (graphOf_ok t I p c li LS) as ([G C] & _ & Ge & _).
      pose proof (Ge v n Hg) as Ad.
      assert (Hn : In v (nodes (graphOf t I c li p))) by (apply (g_virt _ G (Phys n)), (g_sym _ G), Ad).
      destruct (A c v ltac:(apply in_seq; lia) Hn) as (x & X1 & _ & X3).
      specialize (X3 (Phys n) Ad). cbn in X3. unfold col in E. rewrite X1 in E. congruence.
    + intros u v Hu Hv N E X. destruct (graphOf_ok t I p (vcls I u) li LS) as (_ & _ & _ & Gv).
      pose proof (Gv u v Hu Hv eq_refl (eq_sym E) N X) as Ad.
      destruct (Pr u Hu) as (x & X1 & _ & X3). specialize (X3 (Virt v) Ad). cbn in X3.
      rewrite (Mc v Hv) in X3. unfold col at 1. rewrite X1. congruence.
  - intros blk i v Hb Hi H. unfold rename in Hb. apply in_map_iff in Hb as (b0 & <- & Hb0).
    apply in_map_iff in Hi as (i0 & <- & Hi0). cbn in H. apply in_map_iff in H as (o & E & Ho).
    destruct o as [[n|x]|z|k|k]; cbn in E; try discriminate.
    destruct (ri_flag t I p IN b0 i0 Hb0 Hi0) as [L F].
    assert (M : mentioned t p x).
    { assert (X : exists f, In (f, OReg (Virt x)) (fops t i0)).
      { clear -Ho L. unfold fops. revert L. generalize (ofl t (opc i0)) as fl.
        induction (ops i0) as [|y r IH]; intros fl L; [destruct Ho|]. destruct fl as [|f fl]; [cbn in L; lia|].
        destruct Ho as [->|Ho]; [exists f; now left|]. destruct (IH Ho fl ltac:(cbn in L; lia)) as [f' X]. exists f'. now right. }
      destruct X as [f X]. exists b0, i0. split; [exact Hb0|]. split; [exact Hi0|].
      destruct (fops_in t i0 f (Virt x) X) as [Fd Fu]. destruct f.
      - right. now apply in_vdefs, Fd.
      - left. now apply in_vuses, Fu.
      - exfalso. exact (F x X). }
    rewrite (Mc x M) in E. discriminate.
Qed.
End Top.
