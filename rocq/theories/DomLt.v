(** The Lengauer-Tarjan theorems: semidominators and immediate dominators, over the depth-first tree of DomDfs.v. *)
From Coq Require Import Lia Bool List Arith.
From Verif Require Import DomDfs.
Import ListNotations.

Section Walk.
Variable succ : nat -> list nat.
(** from the first node to the last, passing through (and ending with) the list *)
Inductive walk : nat -> list nat -> nat -> Prop :=
| w_nil a : walk a [] a
| w_cons a x l b : In x (succ a) -> walk x l b -> walk a (x :: l) b.
Lemma walk_app a l b l' c : walk a l b -> walk b l' c -> walk a (l ++ l') c.
Proof. induction 1 as [a|a x l b Hx _ IH]; cbn; intros H; auto. constructor; auto. Qed.
Lemma walk_end a l b : walk a l b -> In b (a :: l).
Proof. induction 1 as [a|a x l b Hx _ IH]; [now left|]. right. exact IH. Qed.
Lemma walk_split a l b : walk a l b -> forall A x B, a :: l = A ++ x :: B -> walk x B b /\ exists l', walk a l' x /\ a :: l' = A ++ [x].
Proof.
  induction 1 as [a|a y l b Hy Hw IH]; intros A x B E.
  - destruct A as [|a0 A]; [|destruct A; discriminate]. injection E as -> <-. split; [constructor|]. exists []. split; [constructor|auto].
  - destruct A as [|a0 A].
    + injection E as -> <-. split; [now constructor|]. exists []. split; [constructor|auto].
    + injection E as -> E. destruct (IH A x B E) as (H1 & l' & H2 & H3). split; auto. exists (y :: l'). split; [now constructor|]. cbn. now rewrite H3.
Qed.
End Walk.

Section Lt.
Variables (succ : nat -> list nat) (root : nat) (V : list nat) (fa : nat -> nat).
Hypothesis T : dfsTree succ root V fa.
Notation num x := (idx x V).
Notation walk := (walk succ).
Notation anc := (anc fa).
Definition gdom (d b : nat) : Prop := forall l, walk root l b -> In d (root :: l).

Lemma root_V : In root V.
Proof. destruct (t_root _ _ _ _ T) as [L ->]. now left. Qed.
Lemma num_root : num root = 0.
Proof. destruct (t_root _ _ _ _ T) as [L ->]. cbn. now rewrite Nat.eqb_refl. Qed.
Lemma num0 x : In x V -> num x = 0 -> x = root.
Proof. intros H E. apply (idx_inj V); auto. now rewrite num_root. Qed.
Lemma num_inj x y : In x V -> num x = num y -> x = y.
Proof. apply idx_inj. Qed.
Lemma anc_V u x : In x V -> anc u x -> In u V.
Proof.
  intros Hx [n Hn]. revert x Hx Hn. induction n as [|n IH]; intros x Hx Hn; [cbn in Hn; congruence|]. cbn in Hn. apply (IH (fa x)); auto.
  destruct (Nat.eq_dec x root) as [->|D]; [rewrite (t_faroot _ _ _ _ T); auto|]. now apply (t_fa _ _ _ _ T).
Qed.
Lemma anc_le u x : In x V -> anc u x -> num u <= num x.
Proof.
  intros Hx [n Hn]. revert x Hx Hn. induction n as [|n IH]; intros x Hx Hn; [cbn in Hn; subst; auto|]. cbn in Hn.
  destruct (Nat.eq_dec x root) as [->|D].
  - rewrite (t_faroot _ _ _ _ T) in Hn. apply (IH root); auto.
  - destruct (t_fa _ _ _ _ T x Hx D) as (H1 & H2 & _). specialize (IH (fa x) H1 Hn). lia.
Qed.
Lemma anc_lt u x : In x V -> anc u x -> u <> x -> num u < num x.
Proof. intros Hx Ha D. pose proof (anc_le u x Hx Ha). assert (num u <> num x); [|lia]. intros E. apply D. apply num_inj; auto. eapply anc_V; eauto. Qed.
Lemma anc_antisym u x : In x V -> anc u x -> anc x u -> u = x.
Proof. intros Hx H1 H2. destruct (Nat.eq_dec u x); auto. pose proof (anc_lt u x Hx H1 n). pose proof (anc_le x u (anc_V u x Hx H1) H2). lia. Qed.
Lemma anc_root x : In x V -> anc root x.
Proof.
  remember (num x) as k. revert x Heqk. induction k as [k IH] using lt_wf_ind. intros x Ek Hx. destruct (Nat.eq_dec x root) as [->|D]; [apply anc_refl|].
  destruct (t_fa _ _ _ _ T x Hx D) as (H1 & H2 & _). eapply anc_trans; [|apply anc_fa]. apply (IH (num (fa x))); auto. lia.
Qed.
Lemma anc_dec u x : In x V -> anc u x \/ ~ anc u x.
Proof.
  remember (num x) as k. revert x Heqk. induction k as [k IH] using lt_wf_ind. intros x Ek Hx. destruct (Nat.eq_dec u x) as [->|N]; [left; apply anc_refl|].
  destruct (Nat.eq_dec x root) as [->|D].
  - right. intros H. pose proof (anc_lt u root Hx H N). rewrite num_root in *. lia.
  - destruct (t_fa _ _ _ _ T x Hx D) as (H1 & H2 & _). destruct (IH (num (fa x))) with (x := fa x) as [K|K]; auto; [lia| |].
    + left. eapply anc_trans; [exact K|apply anc_fa].
    + right. intros H. apply anc_inv in H as [H|H]; auto.
Qed.
Lemma walk_V a l b : In a V -> walk a l b -> Forall (fun x => In x V) (a :: l).
Proof.
  intros Ha H. induction H as [a|a x l b Hx _ IH]; [constructor; auto|]. constructor; auto. apply IH. eapply (t_closed _ _ _ _ T); eauto.
Qed.
Lemma reach_V l b : walk root l b -> In b V.
Proof. intros H. pose proof (walk_V root l b root_V H) as F. rewrite Forall_forall in F. apply F. eapply walk_end; eauto. Qed.
(** the tree path *)
Lemma tree_walk u x : In x V -> anc u x -> exists l, walk u l x /\ forall y, In y l -> anc u y /\ u <> y /\ anc y x.
Proof.
  remember (num x) as k. revert x Heqk. induction k as [k IH] using lt_wf_ind. intros x Ek Hx Ha. destruct (Nat.eq_dec u x) as [->|N].
  - exists []. split; [constructor|intros y []].
  - destruct (Nat.eq_dec x root) as [->|D].
    { exfalso. pose proof (anc_lt u root Hx Ha N). rewrite num_root in *. lia. }
    destruct (t_fa _ _ _ _ T x Hx D) as (H1 & H2 & H3). apply anc_inv in Ha as [Ha|Ha]; [congruence|].
    destruct (IH (num (fa x))) with (x := fa x) as (l & W & Hl); auto; [lia|]. exists (l ++ [x]). split.
    + eapply walk_app; [exact W|]. constructor; [auto|constructor].
    + intros y Hy. apply in_app_or in Hy as [Hy|[<-|[]]].
      * destruct (Hl y Hy) as (A & B & C). split; auto. split; auto. eapply anc_trans; [exact C|apply anc_fa].
      * split; [eapply anc_trans; [exact Ha|apply anc_fa]|]. split; auto. apply anc_refl.
Qed.
Lemma V_reach x : In x V -> exists l, walk root l x /\ forall y, In y (root :: l) -> anc y x.
Proof.
  intros Hx. destruct (tree_walk root x Hx (anc_root x Hx)) as (l & W & Hl). exists l. split; auto. intros y [<-|Hy]; [now apply anc_root|now apply Hl].
Qed.

(** *** the path lemma *)
Lemma below_min v l w m : In v V -> walk v l w -> anc m v -> (forall x, In x (v :: l) -> num m <= num x) -> anc m w.
Proof.
  intros Hv H. induction H as [a|a x l b Hx _ IH]; intros Ha Hm; auto. assert (Xv : In x V) by (eapply (t_closed _ _ _ _ T); eauto). apply IH; auto.
  - destruct (Nat.lt_ge_cases (num a) (num x)) as [L|L].
    + eapply anc_trans; [exact Ha|]. now apply (t_edge _ _ _ _ T).
    + apply (t_between _ _ _ _ T m a x); auto; [now apply (anc_V m a)|]. apply Hm. right. now left.
  - intros y Hy. apply Hm. now right.
Qed.
Lemma min_In (h : nat -> nat) a l : exists m, In m (a :: l) /\ forall x, In x (a :: l) -> h m <= h x.
Proof.
  revert a. induction l as [|b l IH]; intros a; [exists a; split; [now left|intros x [<-|[]]; auto]|]. destruct (IH b) as (m & Hm & K).
  destruct (Nat.le_ge_cases (h a) (h m)).
  - exists a. split; [now left|]. intros x [<-|Hx]; auto. specialize (K x Hx). lia.
  - exists m. split; [now right|]. intros x [<-|Hx]; auto.
Qed.
Lemma path_lemma v l w : In v V -> walk v l w -> num v <= num w -> exists u, In u (v :: l) /\ anc u v /\ anc u w.
Proof.
  intros Hv W Hle. destruct (min_In (fun x => num x) v l) as (u & Hu & Hmin). apply in_split in Hu as (A & B & E).
  destruct (walk_split succ v l w W A u B E) as (W2 & _). pose proof (walk_V v l w Hv W) as F. rewrite Forall_forall in F.
  assert (Uv : In u V) by (apply F; rewrite E; apply in_or_app; right; now left).
  assert (Aw : anc u w). { eapply below_min; [exact Uv|exact W2|apply anc_refl|]. intros x Hx. apply Hmin. rewrite E. apply in_or_app. now right. }
  exists u. split; [rewrite E; apply in_or_app; right; now left|]. split; auto.
  apply (t_between _ _ _ _ T u w v); auto; [apply F; eapply walk_end; eauto|]. apply Hmin. now left.
Qed.

(** *** semidominators *)
Definition semi (v w : nat) : Prop := In v V /\ num v < num w /\ exists l, walk v (l ++ [w]) w /\ forall x, In x l -> num w < num x.
Definition isSdom (s w : nat) : Prop := semi s w /\ forall v, semi v w -> num s <= num v.
Lemma semi_anc s w : In w V -> semi s w -> anc s w /\ s <> w.
Proof.
  intros Hw (Hs & Hlt & l & W & Hl). split; [|intros ->; lia]. destruct (path_lemma s (l ++ [w]) w Hs W) as (u & Hu & A1 & A2); [lia|].
  destruct Hu as [<-|Hu]; auto. apply in_app_or in Hu as [Hu|[<-|[]]].
  - exfalso. specialize (Hl u Hu). pose proof (anc_le u w Hw A2). lia.
  - exfalso. pose proof (anc_le w s Hs A1). lia.
Qed.
(** strict dominators lie above the semidominator *)
Lemma dom_anc d w : In w V -> gdom d w -> anc d w.
Proof. intros Hw H. destruct (V_reach w Hw) as (l & W & Hl). apply Hl. now apply H. Qed.
Lemma sd_lower d s w : In w V -> semi s w -> gdom d w -> d <> w -> anc d s /\ gdom d s.
Proof.
  intros Hw Hs Hd D. pose proof (dom_anc d w Hw Hd) as Aw. destruct (semi_anc s w Hw Hs) as [As Ns]. destruct Hs as (Sv & Slt & l & W & Hl).
  pose proof (anc_lt d w Hw Aw D) as Ldw.
  assert (Av : ~ In d (l ++ [w])). { intros H. apply in_app_or in H as [H|[H|[]]]; [specialize (Hl d H); lia|congruence]. }
  assert (G : gdom d s).
  { intros l0 W0. specialize (Hd (l0 ++ l ++ [w]) (walk_app succ _ _ _ _ _ W0 W)). destruct Hd as [Hd|Hd]; [now left|].
    apply in_app_or in Hd as [Hd|Hd]; [now right|contradiction]. }
  split; auto. now apply dom_anc.
Qed.
Lemma first_split (P : nat -> Prop) l : (forall x, In x l -> P x \/ ~ P x) -> (exists x, In x l /\ P x) -> exists A y B, l = A ++ y :: B /\ P y /\ forall x, In x A -> ~ P x.
Proof.
  induction l as [|a l IH]; intros Hd (x & Hx & Px); [destruct Hx|]. destruct (Hd a (or_introl eq_refl)) as [Pa|Na].
  - exists [], a, l. split; [reflexivity|]. split; [exact Pa|intros z []].
  - destruct IH as (A & y & B & -> & Py & HA).
    + intros z Hz. apply Hd. now right.
    + destruct Hx as [->|Hx]; [contradiction|]. exists x. auto.
    + exists (a :: A), y, B. split; auto. split; auto. intros z [<-|Hz]; auto.
Qed.
Lemma last_split (P : nat -> Prop) l : (forall x, P x \/ ~ P x) -> (exists x, In x l /\ P x) -> exists A y B, l = A ++ y :: B /\ P y /\ forall x, In x B -> ~ P x.
Proof.
  intros Hd. induction l as [|a l IH]; intros (x & Hx & Px); [destruct Hx|].
  assert (K : (exists x, In x l /\ P x) \/ forall x, In x l -> ~ P x).
  { clear -Hd. induction l as [|b l IH]; [right; intros x []|]. destruct (Hd b) as [Pb|Nb]; [left; exists b; split; auto; now left|].
    destruct IH as [(y & Hy & Py)|K]; [left; exists y; split; auto; now right|]. right. intros x [<-|Hx]; auto. }
  destruct K as [K|K].
  - destruct (IH K) as (A & y & B & -> & Py & HB). exists (a :: A), y, B. split; auto.
  - destruct Hx as [->|Hx]; [|exfalso; apply (K x Hx Px)]. exists [], x, l. split; auto.
Qed.
(** a walk to [w] that avoids the ancestor [z] enters the part of the tree path below [z] through a semidominator path that starts above [z] *)
Lemma bypass z w l : In w V -> anc z w -> walk root l w -> ~ In z (root :: l) -> exists x y, num x < num z /\ anc z y /\ y <> z /\ anc y w /\ semi x y.
Proof.
  intros Hw Ha W Hz. pose proof (walk_V root l w root_V W) as F. rewrite Forall_forall in F. assert (Zv : In z V) by (eapply anc_V; eauto).
  destruct (last_split (fun x => num x < num z) (root :: l)) as (A & x & B & E & Px & HB).
  - intros x. lia.
  - exists root. split; [now left|]. rewrite num_root. assert (num z <> 0); [|lia]. intros E0. apply (num0 z Zv) in E0. subst. apply Hz. now left.
  - destruct (walk_split succ root l w W A x B E) as (W2 & _). assert (Xv : In x V) by (apply F; rewrite E; apply in_or_app; right; now left).
    assert (HBv : forall y, In y B -> In y V /\ num z < num y).
    { intros y Hy. assert (In y (root :: l)) by (rewrite E; apply in_or_app; right; now right). split; auto. specialize (HB y Hy). assert (num y <> num z); [|lia].
      intros K. apply Hz. assert (y = z) by (apply num_inj; auto). congruence. }
    assert (WB : In w B).
    { pose proof (walk_end succ x B w W2) as [K|K]; auto. subst w. pose proof (anc_le z x Xv Ha). lia. }
    destruct (first_split (fun y => anc z y /\ anc y w) B) as (C & y & D & E2 & [P1 P2] & HC).
    + intros y Hy. destruct (HBv y Hy) as [Yv _]. destruct (anc_dec z y Yv) as [K1|K1]; [|right; tauto]. destruct (anc_dec y w Hw) as [K2|K2]; [left; auto|right; tauto].
    + exists w. split; auto. split; auto. apply anc_refl.
    + assert (Yb : In y B) by (rewrite E2; apply in_or_app; right; now left). destruct (HBv y Yb) as [Yv Ylt].
      exists x, y. split; auto. split; auto. split; [intros ->; lia|]. split; auto. split; auto. split; [lia|]. exists C. split.
      * assert (E3 : x :: B = (x :: C) ++ y :: D) by (cbn; now rewrite E2). destruct (walk_split succ x B w W2 _ _ _ E3) as (_ & l' & W3 & E4).
        cbn in E4. injection E4 as ->. exact W3.
      * intros c Hc. assert (Cb : In c B) by (rewrite E2; apply in_or_app; now left). destruct (HBv c Cb) as [Cv Clt].
        destruct (Nat.lt_ge_cases (num y) (num c)) as [|Hle]; auto. exfalso.
        apply in_split in Hc as (C1 & C2 & ->). assert (E3 : x :: B = (x :: C1) ++ c :: C2 ++ y :: D) by (cbn; rewrite E2, <- app_assoc; reflexivity).
        destruct (walk_split succ x B w W2 _ _ _ E3) as (W3 & _).
        assert (E4 : c :: C2 ++ y :: D = (c :: C2) ++ y :: D) by reflexivity. destruct (walk_split succ c _ w W3 _ _ _ E4) as (_ & l' & W4 & E5).
        cbn in E5. injection E5 as ->. destruct (path_lemma c _ y Cv W4 Hle) as (v & Hv & V1 & V2).
        assert (Hv' : In v (C1 ++ c :: C2) \/ v = y).
        { destruct Hv as [<-|Hv]; [left; apply in_or_app; right; now left|]. apply in_app_or in Hv as [Hv|[<-|[]]]; auto. left. apply in_or_app. right. now right. }
        destruct Hv' as [Hv'| ->].
        -- apply (HC v Hv'). split; [|eapply anc_trans; eauto]. assert (Vb : In v B) by (rewrite E2; apply in_or_app; now left). destruct (HBv v Vb) as [Vv Vlt].
           destruct (anc_chain fa z v y P1 V2) as [K|K]; auto. exfalso. pose proof (anc_le v z Zv K). lia.
        -- pose proof (anc_le y c Cv V1). assert (y = c) by (apply num_inj; [auto|lia]). subst y. apply (HC c); [apply in_or_app; right; now left|]. split; auto.
Qed.
(** first theorem: nothing on the tree path below [s] has a smaller semidominator *)
Lemma idom_sdom s w : In w V -> semi s w -> (forall u x, anc s u -> u <> s -> anc u w -> semi x u -> num s <= num x) -> gdom s w.
Proof.
  intros Hw Hs Hmin l W. destruct (in_dec Nat.eq_dec s (root :: l)) as [|N]; auto. exfalso. destruct (semi_anc s w Hw Hs) as [As _].
  destruct (bypass s w l Hw As W N) as (x & y & B1 & B2 & B3 & B4 & B5). specialize (Hmin y x B2 B3 B4 B5). lia.
Qed.
(** second theorem: otherwise a node with the smallest one has the same immediate dominator *)
Lemma idom_other s w u su z : In w V -> semi s w -> anc s u -> u <> s -> anc u w -> semi su u -> num su < num s ->
  (forall y x, anc s y -> y <> s -> anc y w -> semi x y -> num su <= num x) -> gdom z u -> z <> u -> gdom z w.
Proof.
  intros Hw Hs Au Nu Uw Hsu Hlt Hmin Hz Nz l W. destruct (in_dec Nat.eq_dec z (root :: l)) as [|N]; auto. exfalso.
  assert (Uv : In u V) by (eapply anc_V; eauto). destruct (sd_lower z su u Uv Hsu Hz Nz) as [Az _]. destruct (semi_anc su u Uv Hsu) as [Asu _].
  assert (Zu : anc z u) by (eapply anc_trans; eauto). assert (Zw : anc z w) by (eapply anc_trans; eauto). destruct Hsu as (Suv & _).
  pose proof (anc_le z su Suv Az) as Lz.
  destruct (bypass z w l Hw Zw W N) as (x & y & B1 & B2 & B3 & B4 & B5).
  assert (Yv : In y V) by exact (anc_V y w Hw B4).
  assert (Yu : anc y u).
  { destruct (anc_chain fa s y w (anc_trans fa s u w Au Uw) B4) as [K|K].
    - destruct (Nat.eq_dec y s) as [->|D]; auto. exfalso. specialize (Hmin y x K D B4 B5). lia.
    - eapply anc_trans; eauto. }
  destruct B5 as (Xv & _ & lx & Wx & Hx). destruct (V_reach x Xv) as (l0 & W0 & H0). destruct (tree_walk y u Uv Yu) as (l1 & W1 & H1).
  pose proof (anc_lt z y Yv B2 (fun e => B3 (eq_sym e))) as Lzy.
  specialize (Hz (l0 ++ (lx ++ [y]) ++ l1) (walk_app succ _ _ _ _ _ W0 (walk_app succ _ _ _ _ _ Wx W1))).
  assert (K : In z (root :: l0) \/ In z lx \/ z = y \/ In z l1).
  { destruct Hz as [Hz|Hz]; [left; now left|]. apply in_app_or in Hz as [Hz|Hz]; [left; now right|]. apply in_app_or in Hz as [Hz|Hz]; auto.
    apply in_app_or in Hz as [Hz|[Hz|[]]]; auto. }
  destruct K as [K|[K|[K|K]]].
  - apply H0 in K. pose proof (anc_le z x Xv K). lia.
  - specialize (Hx z K). lia.
  - congruence.
  - destruct (H1 z K) as (K1 & K2 & _). pose proof (anc_le y z (anc_V z u Uv Zu) K1). lia.
Qed.
Definition isIdom (i w : nat) : Prop := gdom i w /\ i <> w /\ forall d, gdom d w -> d <> w -> gdom d i.
Lemma idom1 s w : In w V -> semi s w -> (forall u x, anc s u -> u <> s -> anc u w -> semi x u -> num s <= num x) -> isIdom s w.
Proof.
  intros Hw Hs Hmin. split; [now apply idom_sdom|]. split; [now apply semi_anc|]. intros d Hd D. now apply (sd_lower d s w).
Qed.
Lemma idom2 s w u su z : In w V -> semi s w -> anc s u -> u <> s -> anc u w -> semi su u -> num su < num s ->
  (forall y x, anc s y -> y <> s -> anc y w -> semi x y -> num su <= num x) -> isIdom z u -> isIdom z w.
Proof.
  intros Hw Hs Au Nu Uw Hsu Hlt Hmin (Z1 & Z2 & Z3). assert (Uv : In u V) by (eapply anc_V; eauto). split; [eapply idom_other; eauto|]. split.
  - intros ->. pose proof (dom_anc w u Uv Z1). apply Z2. now apply anc_antisym.
  - intros d Hd D. destruct (sd_lower d s w Hw Hs Hd D) as [Ads _]. assert (Sv : In s V) by (eapply anc_V; eauto).
    pose proof (anc_le d s Sv Ads). pose proof (anc_lt s u Uv Au (fun e => Nu (eq_sym e))).
    apply Z3; [|intros ->; lia]. intros l0 W0. destruct (tree_walk u w Hw Uw) as (l1 & W1 & H1).
    specialize (Hd (l0 ++ l1) (walk_app succ _ _ _ _ _ W0 W1)). destruct Hd as [Hd|Hd]; [now left|]. apply in_app_or in Hd as [Hd|Hd]; [now right|].
    exfalso. destruct (H1 d Hd) as (K & _ & K2). pose proof (anc_le u d (anc_V d w Hw K2) K). lia.
Qed.
(** *** semidominators from predecessors *)
Lemma semi_edge v w : In v V -> In w (succ v) -> num v < num w -> semi v w.
Proof. intros Hv Hw L. split; auto. split; auto. exists []. split; [constructor; [auto|constructor]|intros x []]. Qed.
(** [v] precedes [w]; a node [u] above [v] and after [w] hands its semidominators on, and a node [r] before [w] is one itself *)
Lemma semi_up v w u s : In v V -> In w (succ v) -> anc u v -> num w < num u -> semi s u -> num s < num w -> semi s w.
Proof.
  intros Hv Hw Ha Lu (Sv & _ & l & W & Hl) Ls. split; auto. split; auto. destruct (tree_walk u v Hv Ha) as (l1 & W1 & H1). exists ((l ++ [u]) ++ l1). split.
  - rewrite <- app_assoc. eapply walk_app; [exact W|]. eapply walk_app; [exact W1|]. constructor; [auto|constructor].
  - intros x Hx. apply in_app_or in Hx as [Hx|Hx].
    + apply in_app_or in Hx as [Hx|[<-|[]]]; auto. specialize (Hl x Hx). lia.
    + destruct (H1 x Hx) as (K & _ & K2). pose proof (anc_le u x (anc_V x v Hv K2) K). lia.
Qed.
Lemma semi_root v w r : In v V -> In w (succ v) -> anc r v -> num r < num w -> (forall x, anc r x -> x <> r -> anc x v -> num w < num x) -> semi r w.
Proof.
  intros Hv Hw Ha Lr Hx. split; [eapply anc_V; eauto|]. split; auto. destruct (tree_walk r v Hv Ha) as (l1 & W1 & H1). exists l1. split.
  - eapply walk_app; [exact W1|]. constructor; [auto|constructor].
  - intros x K. destruct (H1 x K) as (K1 & K2 & K3). apply Hx; auto.
Qed.
(** every semidominator path arises in this way *)
Lemma semi_inv s w : In w V -> semi s w -> (In w (succ s)) \/ exists v u, In v V /\ In w (succ v) /\ anc u v /\ num w < num u /\ semi s u.
Proof.
  intros Hw (Sv & Ls & l & W & Hl). destruct (list_eq_dec Nat.eq_dec l []) as [->|Nl].
  - left. inversion W; subst. auto.
  - right. destruct (exists_last Nl) as (l0 & v & ->). assert (E : s :: (l0 ++ [v]) ++ [w] = (s :: l0) ++ v :: [w]) by (cbn; rewrite <- app_assoc; reflexivity).
    destruct (walk_split succ s _ w W _ _ _ E) as (Wv & l' & W' & E'). cbn in E'. injection E' as ->.
    assert (Hvw : In w (succ v)) by (inversion Wv; subst; auto). pose proof (walk_V s _ v Sv W') as F. rewrite Forall_forall in F.
    assert (Vv : In v V) by (apply F; right; apply in_or_app; right; now left).
    destruct (first_split (fun u => anc u v) (l0 ++ [v])) as (A & u & B & E2 & Pu & HA).
    + intros x Hx. apply anc_dec; auto.
    + exists v. split; [apply in_or_app; right; now left|apply anc_refl].
    + assert (Ul : In u (l0 ++ [v])) by (rewrite E2; apply in_or_app; right; now left). assert (Uv : In u V) by (apply F; now right).
      exists v, u. split; auto. split; auto. split; auto. split; [now apply Hl|]. split; auto. split; [specialize (Hl u Ul); lia|]. exists A. split.
      * assert (E3 : s :: l0 ++ [v] = (s :: A) ++ u :: B) by (cbn; now rewrite E2). destruct (walk_split succ s _ v W' _ _ _ E3) as (_ & l'' & W3 & E4).
        cbn in E4. injection E4 as ->. exact W3.
      * intros c Hc. assert (Cl : In c (l0 ++ [v])) by (rewrite E2; apply in_or_app; now left). assert (Cv : In c V) by (apply F; now right).
        destruct (Nat.lt_ge_cases (num u) (num c)) as [|Hle]; auto. exfalso. pose proof (HA c Hc) as Nc.
        apply in_split in Hc as (C1 & C2 & ->). assert (E3 : s :: l0 ++ [v] = (s :: C1) ++ c :: C2 ++ u :: B) by (cbn; rewrite E2, <- app_assoc; reflexivity).
        destruct (walk_split succ s _ v W' _ _ _ E3) as (W3 & _).
        assert (E4 : c :: C2 ++ u :: B = (c :: C2) ++ u :: B) by reflexivity. destruct (walk_split succ c _ v W3 _ _ _ E4) as (_ & l' & W4 & E5).
        cbn in E5. injection E5 as ->. destruct (path_lemma c _ u Cv W4 Hle) as (q & Hq & Q1 & Q2).
        assert (Hq' : In q (C1 ++ c :: C2) \/ q = u).
        { destruct Hq as [<-|Hq]; [left; apply in_or_app; right; now left|]. apply in_app_or in Hq as [Hq|[<-|[]]]; auto. left. apply in_or_app. right. now right. }
        destruct Hq' as [Hq'| ->].
        -- apply (HA q Hq'). eapply anc_trans; eauto.
        -- pose proof (anc_le u c Cv Q1). assert (u = c) by (apply num_inj; [auto|lia]). subst u. auto.
Qed.
End Lt.
