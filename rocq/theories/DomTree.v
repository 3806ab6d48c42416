(** The tree of immediate dominators that DominateAnalysis::run numbers (cmmc/Analysis/DominateAnalysis.cpp:176-205) and the queries
    of its result (lines 26-93). *)
From Coq Require Import Lia Bool List Arith.
From Verif Require Import DomDfs.
Import ListNotations.

(** DominateAnalysis.hpp:28-42 DomTreeNode; [None]: invalidNode *)
Record node := Node { nblk : nat; ndepth : nat; nsize : nat; nanc : list (option nat) }.
(** lines 182-205: cnt, invMap, domTree.  Cells of domTree that are not written yet hold anything *)
Record tst := Tst { cnt : nat; inv : nat -> option nat; nodes : nat -> node }.
Definition nset (h : nat -> node) (x : nat) (v : node) : nat -> node := fun y => if Nat.eqb y x then v else h y.
Definition iset (h : nat -> option nat) (x : nat) (v : option nat) : nat -> option nat := fun y => if Nat.eqb y x then v else h y.
Definition addSize (n : node) (k : nat) : node := Node (nblk n) (ndepth n) (nsize n + k) (nanc n).
(** lines 188, 191-194: ancestor[i] *)
Fixpoint ancs (nd : nat -> node) (p : option nat) (i : nat) : option nat :=
  match i with
  | O => p
  | S j => match ancs nd p j with None => None | Some v => nth j (nanc (nd v)) None end
  end.
Definition maxDepth : nat := 20.

Section Build.
(** lines 176-179 children *)
Variable children : nat -> list nat.
(** lines 185-203 dfs.  [fuel] bounds the nesting *)
Fixpoint build (fuel : nat) (s : tst) (cur : nat) (p : option nat) : tst * nat :=
  let u := cnt s in
  let s1 := Tst (S u) (iset (inv s) cur (Some u))
    (nset (nodes s) u (Node cur (match p with None => 0 | Some q => S (ndepth (nodes s q)) end) 1 (map (ancs (nodes s) p) (seq 0 (S maxDepth))))) in
  match fuel with
  | O => (s1, u)
  | S k => (fold_left (fun s2 v => let '(s3, c) := build k s2 v (Some u) in
                         Tst (cnt s3) (inv s3) (nset (nodes s3) u (addSize (nodes s3 u) (nsize (nodes s3 c))))) (children cur) s1, u)
  end.
End Build.

(** lines 86-93 dominate *)
Definition dominateQ (t : tst) (a b : nat) : bool :=
  match inv t a, inv t b with Some u, Some v => (u <=? v) && (v <? u + nsize (nodes t u)) | _, _ => false end.
(** lines 53-55 reachable *)
Definition reachableQ (t : tst) (b : nat) : bool := match inv t b with Some _ => true | None => false end.
(** lines 37-45 parent *)
Definition parentQ (t : tst) (b : nat) : option nat :=
  match inv t b with None => None | Some u => match nth 0 (nanc (nodes t u)) None with None => None | Some p => Some (nblk (nodes t p)) end end.
(** lines 29-30 blocks *)
Definition blocksQ (t : tst) : list nat := map (fun i => nblk (nodes t i)) (seq 0 (cnt t)).
(** lines 56-62 subTreeSize *)
Definition subTreeSizeQ (t : tst) (b : nat) : nat := match inv t b with Some u => nsize (nodes t u) | None => 0 end.
(** lines 73-76: the deeper one goes up by the difference; [None]: an index outside of the array, or of no node *)
Fixpoint climb (t : tst) (fuel i diff v : nat) : option nat :=
  if Nat.eqb diff 0 then Some v
  else match fuel with
       | O => None
       | S k => if Nat.odd diff then match nth_error (nanc (nodes t v)) i with Some (Some w) => climb t k (S i) (Nat.div2 diff) w | _ => None end
                else climb t k (S i) (Nat.div2 diff) v
       end.
Definition oeqb (a b : option nat) : bool := match a, b with Some x, Some y => Nat.eqb x y | None, None => true | _, _ => false end.
(** lines 78-81; the loop index is [k - 1] *)
Fixpoint together (t : tst) (k u v : nat) : option (nat * nat) :=
  match k with
  | O => Some (u, v)
  | S i => if Nat.eqb u v then Some (u, v)
           else match nth_error (nanc (nodes t u)) i, nth_error (nanc (nodes t v)) i with
                | Some pu, Some pv => if oeqb pu pv then together t i u v
                                      else match pu, pv with Some x, Some y => together t i x y | _, _ => None end
                | _, _ => None
                end
  end.
(** lines 64-84 lca: [Some None] is nullptr, [None] is an access outside of an array *)
Definition lcaQ (t : tst) (a b : nat) : option (option nat) :=
  match inv t a, inv t b with
  | Some u0, Some v0 =>
    let '(u, v) := if ndepth (nodes t v0) <? ndepth (nodes t u0) then (v0, u0) else (u0, v0) in
    let diff := ndepth (nodes t v) - ndepth (nodes t u) in
    match climb t (S diff) 0 diff v with
    | None => None
    | Some v1 =>
      if Nat.eqb u v1 then Some (Some (nblk (nodes t u)))
      else match together t (S maxDepth) u v1 with
           | None => None
           | Some (x, _) => match nth 0 (nanc (nodes t x)) None with Some p => Some (Some (nblk (nodes t p))) | None => None end
           end
    end
  | _, _ => Some None
  end.

Section Tree.
Variables (root : nat) (V : list nat) (im : nat -> nat) (m : nat -> nat) (B : nat) (order : list nat).
Hypothesis Hroot : In root V.
Hypothesis Hr : im root = root.
Hypothesis Him : forall v, In v V -> v <> root -> In (im v) V /\ m (im v) < m v.
Hypothesis HB : forall v, In v V -> m v < B.
Hypothesis Hnd : NoDup order.
Hypothesis Hord : forall v, In v order <-> In v V /\ v <> root.
(** lines 176-179: the children of [u], in the order of the iteration over [idom] *)
Definition kids (u : nat) : list nat := filter (fun v => Nat.eqb (im v) u) order.
Lemma kids_in u v : In v (kids u) <-> In v V /\ v <> root /\ im v = u.
Proof. unfold kids. rewrite filter_In, Hord, Nat.eqb_eq. tauto. Qed.
Lemma kids_nodup u : NoDup (kids u).
Proof. apply NoDup_filter. exact Hnd. Qed.
Lemma up_V n x : In x V -> In (up im n x) V.
Proof. revert x. induction n as [|n IH]; intros x Hx; cbn; auto. apply IH. destruct (Nat.eq_dec x root) as [->|D]; [now rewrite Hr|now apply Him]. Qed.
Lemma up_root n : up im n root = root.
Proof. induction n as [|n IH]; cbn; auto. now rewrite Hr. Qed.
Lemma anc_m u x : In x V -> anc im u x -> m u <= m x.
Proof.
  intros Hx [n Hn]. revert x Hx Hn. induction n as [|n IH]; intros x Hx Hn; [cbn in Hn; subst; auto|]. cbn in Hn.
  destruct (Nat.eq_dec x root) as [->|D]; [rewrite Hr in Hn; now apply IH|]. destruct (Him x Hx D) as [H1 H2]. specialize (IH _ H1 Hn). lia.
Qed.
(** *** depth *)
Fixpoint dp (fuel b : nat) : nat := match fuel with O => 0 | S k => if Nat.eqb b root then 0 else S (dp k (im b)) end.
Lemma dp_fuel k1 : forall k2 b, In b V -> m b < k1 -> m b < k2 -> dp k1 b = dp k2 b.
Proof.
  induction k1 as [|k1 IH]; intros [|k2] b Hb H1 H2; try lia. cbn. destruct (Nat.eqb_spec b root) as [|D]; auto.
  destruct (Him b Hb D) as [A1 A2]. f_equal. apply IH; auto; lia.
Qed.
Definition dep (b : nat) : nat := dp (S (m b)) b.
Arguments dep : simpl never.
Lemma dep_root : dep root = 0.
Proof. unfold dep. cbn [dp]. now rewrite Nat.eqb_refl. Qed.
Lemma dep_im b : In b V -> b <> root -> dep b = S (dep (im b)).
Proof.
  intros Hb D. destruct (Him b Hb D) as [A1 A2]. assert (E : dep b = if Nat.eqb b root then 0 else S (dp (m b) (im b))) by reflexivity. rewrite E.
  destruct (Nat.eqb_spec b root) as [|_]; [contradiction|]. f_equal. apply dp_fuel; auto.
Qed.
Lemma dep_le b : In b V -> dep b <= m b.
Proof.
  remember (m b) as k eqn:E. revert b E. induction k as [k IH] using lt_wf_ind. intros b E Hb. destruct (Nat.eq_dec b root) as [->|D]; [rewrite dep_root; lia|].
  rewrite dep_im by auto. destruct (Him b Hb D) as [A1 A2]. assert (L : m (im b) < k) by lia. specialize (IH (m (im b)) L (im b) eq_refl A1). lia.
Qed.
Lemma dep_up n : forall b, In b V -> dep (up im n b) = dep b - n.
Proof.
  induction n as [|n IH]; intros b Hb; cbn; [lia|]. destruct (Nat.eq_dec b root) as [->|D].
  - rewrite Hr, up_root, dep_root. lia.
  - destruct (Him b Hb D) as [A1 A2]. rewrite IH, (dep_im b Hb D) by auto. lia.
Qed.
Lemma dep0 b : In b V -> dep b = 0 -> b = root.
Proof. intros Hb E. destruct (Nat.eq_dec b root); auto. rewrite dep_im in E; auto; lia. Qed.
Lemma up_sat n b : In b V -> dep b <= n -> up im n b = root.
Proof. intros Hb L. apply dep0; [now apply up_V|]. rewrite dep_up; auto. lia. Qed.
Lemma anc_dep u x : In x V -> anc im u x -> up im (dep x - dep u) x = u /\ dep u <= dep x.
Proof.
  intros Hx [n Hn]. assert (E := dep_up n x Hx). rewrite Hn in E. split; [|lia]. destruct (Nat.le_gt_cases n (dep x)) as [L|L].
  - replace (dep x - dep u) with n by lia. exact Hn.
  - assert (Z : u = root) by (rewrite <- Hn; apply up_sat; auto; lia). rewrite Z, dep_root. apply up_sat; auto. lia.
Qed.
(** *** the preorder of a subtree *)
Fixpoint pre (fuel u : nat) : list nat := match fuel with O => [u] | S k => u :: flat_map (pre k) (kids u) end.
Lemma pre_fuel k1 : forall k2 u, In u V -> B - m u <= k1 -> B - m u <= k2 -> pre k1 u = pre k2 u.
Proof.
  induction k1 as [|k1 IH]; intros [|k2] u Hu H1 H2; cbn; auto; try (pose proof (HB u Hu); lia). f_equal.
  assert (K : forall l, incl l (kids u) -> flat_map (pre k1) l = flat_map (pre k2) l).
  { induction l as [|c l IHl]; intros Hl; cbn; auto. f_equal; [|apply IHl; intros x Hx; apply Hl; now right].
    assert (Hc : In c (kids u)) by (apply Hl; now left). apply kids_in in Hc as (A1 & A2 & A3). destruct (Him c A1 A2) as [_ A4]. rewrite A3 in A4. apply IH; auto; lia. }
  apply K. intros x Hx. exact Hx.
Qed.
Definition P (u : nat) : list nat := pre B u.
Lemma P_eq u : In u V -> P u = u :: flat_map P (kids u).
Proof.
  intros Hu. unfold P at 1. rewrite (pre_fuel B (S B) u Hu) by lia. reflexivity.
Qed.
Lemma P_self u : In u V -> In u (P u).
Proof. intros Hu. rewrite P_eq by auto. now left. Qed.
Lemma tree_ind (Q : nat -> Prop) : (forall u, In u V -> (forall c, In c (kids u) -> Q c) -> Q u) -> forall u, In u V -> Q u.
Proof.
  intros H u. remember (B - m u) as k eqn:E. revert u E. induction k as [k IH] using lt_wf_ind. intros u E Hu. apply H; auto. intros c Hc.
  apply kids_in in Hc as (A1 & A2 & A3). destruct (Him c A1 A2) as [_ A4]. rewrite A3 in A4. pose proof (HB c A1). apply (IH (B - m c)); auto. lia.
Qed.
Lemma P_down u : In u V -> forall y x, In y (P u) -> In x (kids y) -> In x (P u).
Proof.
  revert u. apply (tree_ind (fun u => forall y x, In y (P u) -> In x (kids y) -> In x (P u))). intros u Hu IH y x Hy Hx. rewrite P_eq in * by auto. right. apply in_flat_map. destruct Hy as [<-|Hy].
  - exists x. split; auto. apply P_self. now apply kids_in in Hx.
  - apply in_flat_map in Hy as (c & Hc & Hy). exists c. split; auto. eapply IH; eauto.
Qed.
Lemma P_anc u : In u V -> forall x, In x (P u) -> In x V /\ anc im u x.
Proof.
  revert u. apply (tree_ind (fun u => forall x, In x (P u) -> In x V /\ anc im u x)). intros u Hu IH x Hx. rewrite P_eq in Hx by auto. destruct Hx as [<-|Hx]; [split; auto; apply anc_refl|].
  apply in_flat_map in Hx as (c & Hc & Hx). destruct (IH c Hc x Hx) as [A1 A2]. split; auto. apply kids_in in Hc as (_ & _ & Hc). eapply anc_trans; [|exact A2]. rewrite <- Hc. apply anc_fa.
Qed.
Lemma P_in u x : In u V -> (In x (P u) <-> In x V /\ anc im u x).
Proof.
  intros Hu. split; [now apply P_anc|]. intros [Hx Ha]. remember (m x) as k eqn:E. revert x E Hx Ha. induction k as [k IH] using lt_wf_ind. intros x E Hx Ha.
  destruct (Nat.eq_dec u x) as [<-|D]; [now apply P_self|]. destruct (Nat.eq_dec x root) as [->|Dr].
  - destruct Ha as [n Hn]. rewrite up_root in Hn. congruence.
  - destruct (Him x Hx Dr) as [A1 A2]. apply anc_inv in Ha as [Ha|Ha]; [congruence|]. apply (P_down u Hu (im x)); [|apply kids_in; auto]. apply (IH (m (im x))); auto. lia.
Qed.
Lemma nodup_flat (h : nat -> list nat) l : NoDup l -> (forall c, In c l -> NoDup (h c)) ->
  (forall c1 c2 x, In c1 l -> In c2 l -> In x (h c1) -> In x (h c2) -> c1 = c2) -> NoDup (flat_map h l).
Proof.
  induction l as [|c l IH]; cbn; intros Hd Hn Hi; [constructor|]. inversion Hd as [|? ? N1 N2]; subst. 
  assert (K : NoDup (flat_map h l)) by (apply IH; auto; intros c1 c2 x A1 A2; apply Hi; auto).
  assert (K1 : NoDup (h c)) by auto. assert (D : forall x, In x (h c) -> ~ In x (flat_map h l)).
  { intros x Hx Hf. apply in_flat_map in Hf as (c' & Hc' & Hx'). assert (c = c') by (apply (Hi c c' x); auto). congruence. }
  clear -K K1 D. induction (h c) as [|a q IH]; cbn; auto. inversion K1; subst. constructor; [|apply IH; auto; intros x Hx; apply D; now right].
  intros H. apply in_app_or in H as [H|H]; auto. apply (D a); auto. now left.
Qed.
Lemma P_nodup u : In u V -> NoDup (P u).
Proof.
  revert u. apply (tree_ind (fun u => NoDup (P u))). intros u Hu IH. rewrite P_eq by auto. constructor.
  - intros H. apply in_flat_map in H as (c & Hc & Hx). apply kids_in in Hc as (A1 & A2 & A3). destruct (Him c A1 A2) as [_ A4].
    destruct (P_anc c A1 u Hx) as [_ A5]. apply anc_m in A5; auto. rewrite A3 in A4. lia.
  - apply nodup_flat; [apply kids_nodup|auto|].
    assert (K : forall c1 c2, In c1 (kids u) -> In c2 (kids u) -> anc im c1 c2 -> c1 = c2).
    { intros c1 c2 H1 H2 Ha. apply kids_in in H1 as (A1 & A2 & A3), H2 as (B1 & B2 & B3). apply anc_inv in Ha as [|Ha]; auto. exfalso.
      apply anc_m in Ha; [|rewrite B3; auto]. destruct (Him c1 A1 A2). rewrite A3, B3 in *. lia. }
    intros c1 c2 x H1 H2 X1 X2. assert (C1 : In c1 V) by now apply kids_in in H1. assert (C2 : In c2 V) by now apply kids_in in H2.
    apply P_anc in X1 as [_ X1], X2 as [_ X2]; auto. destruct (anc_chain im c1 c2 x X1 X2) as [H|H]; [auto|symmetry; auto].
Qed.
Lemma P_seg u : In u V -> forall v, In v (P u) -> exists A C, P u = A ++ P v ++ C.
Proof.
  revert u. apply (tree_ind (fun u => forall v, In v (P u) -> exists A C, P u = A ++ P v ++ C)). intros u Hu IH v Hv. pose proof Hv as Hv'. rewrite P_eq in Hv by auto. destruct Hv as [<-|Hv].
  - exists [], []. now rewrite app_nil_r.
  - apply in_flat_map in Hv as (c & Hc & Hx). destruct (IH c Hc v Hx) as (A & C & E). rewrite P_eq by auto. apply in_split in Hc as (l1 & l2 & ->).
    rewrite flat_map_app. cbn. rewrite E. exists (u :: flat_map P l1 ++ A), (C ++ flat_map P l2). cbn. f_equal. now rewrite <- !app_assoc.
Qed.
(** *** the numbering *)
Definition ancSpec (done : list nat) (b : nat) : list (option nat) :=
  map (fun i => if 2 ^ i <=? dep b then Some (idx (up im (2 ^ i) b) done) else None) (seq 0 (S maxDepth)).
Arguments ancSpec : simpl never.
Record Good (s : tst) (done : list nat) : Prop := {
  g_cnt : cnt s = length done;
  g_inv : forall b, inv s b = if mem b done then Some (idx b done) else None;
  g_nd : forall b, In b done -> nblk (nodes s (idx b done)) = b /\ ndepth (nodes s (idx b done)) = dep b /\ nanc (nodes s (idx b done)) = ancSpec done b;
  g_closed : forall b, In b done -> In b V /\ (b <> root -> In (im b) done)
}.
Lemma closed_up s done : Good s done -> forall n b, In b done -> In (up im n b) done.
Proof.
  intros G. induction n as [|n IH]; intros b Hb; cbn; auto. destruct (Nat.eq_dec b root) as [->|D]; [rewrite Hr; auto|]. apply IH. now apply (g_closed _ _ G).
Qed.
Lemma ancSpec_ext s done done' b : Good s done -> In b done -> ancSpec (done ++ done') b = ancSpec done b.
Proof.
  intros G Hb. unfold ancSpec. apply map_ext. intros i. destruct (2 ^ i <=? dep b); auto. f_equal. apply idx_l. now apply (closed_up s done G).
Qed.
Lemma nth_ancSpec done b j : j <= maxDepth -> nth_error (ancSpec done b) j = Some (if 2 ^ j <=? dep b then Some (idx (up im (2 ^ j) b) done) else None).
Proof.
  intros L. unfold ancSpec. rewrite nth_error_map. assert (E : nth_error (seq 0 (S maxDepth)) j = Some j).
  { rewrite (nth_error_nth' _ 0) by (rewrite seq_length; lia). now rewrite seq_nth by lia. }
  now rewrite E.
Qed.
Lemma ancs_ok s done u p : Good s done -> In u V -> (p = if Nat.eqb u root then None else Some (idx (im u) done)) -> (u <> root -> In (im u) done) ->
  forall i, i <= maxDepth -> ancs (nodes s) p i = if 2 ^ i <=? dep u then Some (idx (up im (2 ^ i) u) done) else None.
Proof.
  intros G Hu Ep Hi. induction i as [|j IH]; intros L.
  - cbn [ancs Nat.pow up]. rewrite Ep. destruct (Nat.eqb_spec u root) as [->|D]; [now rewrite dep_root|]. rewrite dep_im by auto. reflexivity.
  - cbn [ancs]. rewrite IH by lia. rewrite Nat.pow_succ_r'. destruct (Nat.leb_spec (2 ^ j) (dep u)) as [L1|L1].
    + set (v := up im (2 ^ j) u). assert (Hv : In v done).
      { unfold v. assert (0 < 2 ^ j) by (apply Nat.neq_0_lt_0, Nat.pow_nonzero; lia). assert (u <> root) by (intros ->; rewrite dep_root in *; lia).
        destruct (2 ^ j) as [|q]; [lia|]. cbn. apply (closed_up s done G). auto. }
      destruct (g_nd _ _ G v Hv) as (_ & _ & E). rewrite E. rewrite (nth_error_nth (ancSpec done v) j None (nth_ancSpec done v j ltac:(lia))).
      assert (Ed : dep v = dep u - 2 ^ j) by (unfold v; now apply dep_up). rewrite Ed.
      replace (2 ^ j <=? dep u - 2 ^ j) with (2 * 2 ^ j <=? dep u) by (destruct (Nat.leb_spec (2 * 2 ^ j) (dep u)), (Nat.leb_spec (2 ^ j) (dep u - 2 ^ j)); lia).
      destruct (2 * 2 ^ j <=? dep u); auto. unfold v. rewrite <- up_add. now replace (2 ^ j + 2 ^ j) with (2 * 2 ^ j) by lia.
    + destruct (Nat.leb_spec (2 * 2 ^ j) (dep u)); auto. lia.
Qed.
Lemma mem_app x l1 l2 : mem x (l1 ++ l2) = mem x l1 || mem x l2.
Proof. unfold mem. apply existsb_app. Qed.
Lemma nodup_app_l (l1 l2 : list nat) : NoDup (l1 ++ l2) -> NoDup l1.
Proof. induction l1 as [|a l1 IH]; cbn; intros H; [constructor|]. inversion H as [|? ? H1 H2]; subst. constructor; auto. intros H3. apply H1. apply in_or_app. auto. Qed.
(** *** one call *)
Definition sizeAt (s : tst) (done : list nat) (b : nat) : nat := nsize (nodes s (idx b done)).
Lemma build_ok : forall fuel u s done p, In u V -> B - m u <= fuel -> Good s done -> NoDup (done ++ P u) ->
  (p = if Nat.eqb u root then None else Some (idx (im u) done)) -> (u <> root -> In (im u) done) ->
  let '(s', c) := build kids fuel s u p in
  c = length done /\ Good s' (done ++ P u) /\ (forall b, In b done -> sizeAt s' (done ++ P u) b = sizeAt s done b) /\
  (forall b, In b (P u) -> sizeAt s' (done ++ P u) b = length (P b)).
Proof.
  induction fuel as [|fuel IH]; intros u s done p Hu Hf G Nd Ep Hi; [pose proof (HB u Hu); lia|]. cbn [build].
  set (nu := Node u _ 1 _). set (s1 := Tst _ _ _). assert (Nu : ~ In u done) by (intros H; exact (nodup_app_disj done (P u) u Nd H (P_self u Hu))).
  assert (Ec : cnt s = length done) by apply G.
  assert (Iu : idx u (done ++ [u]) = length done) by now apply idx_mid.
  assert (G1 : Good s1 (done ++ [u])).
  { constructor.
    - cbn. rewrite app_length. cbn. lia.
    - intros b. cbn. unfold iset. rewrite mem_app, Ec. destruct (Nat.eqb_spec b u) as [->|D].
      + rewrite Iu. cbn. rewrite Nat.eqb_refl. cbn. now rewrite !orb_true_r.
      + cbn. rewrite orb_false_r. replace (Nat.eqb b u) with false by (symmetry; now apply Nat.eqb_neq). rewrite orb_false_r, (g_inv _ _ G).
        destruct (mem b done) eqn:E; auto. rewrite idx_l; auto. now apply mem_In.
    - intros b Hb. cbn [s1 nodes]. unfold nset. rewrite Ec. apply in_app_or in Hb as [Hb|[<-|[]]].
      + rewrite idx_l by auto. assert (L := proj1 (idx_lt b done) Hb). destruct (Nat.eqb_spec (idx b done) (length done)); [lia|].
        rewrite (ancSpec_ext s done [u] b G Hb). now apply (g_nd _ _ G).
      + rewrite Iu, Nat.eqb_refl. cbn [nu nblk ndepth nanc]. split; auto. split.
        * rewrite Ep. destruct (Nat.eqb_spec u root) as [->|D]; [now rewrite dep_root|]. rewrite (dep_im u Hu D). f_equal. now apply (g_nd _ _ G), Hi.
        * unfold ancSpec. apply map_ext_in. intros i Hin. apply in_seq in Hin. rewrite (ancs_ok s done u p G Hu Ep Hi i) by lia.
          destruct (Nat.leb_spec (2 ^ i) (dep u)) as [L|L]; auto. f_equal. symmetry. apply idx_l.
          assert (0 < 2 ^ i) by (apply Nat.neq_0_lt_0, Nat.pow_nonzero; lia). assert (u <> root) by (intros ->; rewrite dep_root in *; lia).
          destruct (2 ^ i) as [|q]; [lia|]. cbn. apply (closed_up s done G). auto.
    - intros b Hb. apply in_app_or in Hb as [Hb|[<-|[]]].
      + destruct (g_closed _ _ G b Hb) as [A1 A2]. split; auto. intros D. apply in_or_app. left. auto.
      + split; auto. intros D. apply in_or_app. left. auto. }
  (* the loop *)
  assert (K : forall l X s2, incl l (kids u) -> Good s2 (done ++ u :: X) -> NoDup (done ++ u :: X ++ flat_map P l) ->
     (forall b, In b done -> sizeAt s2 (done ++ u :: X) b = sizeAt s done b) -> sizeAt s2 (done ++ u :: X) u = S (length X) ->
     (forall b, In b X -> sizeAt s2 (done ++ u :: X) b = length (P b)) ->
     let s3 := fold_left (fun s2 v => let '(s3, c) := build kids fuel s2 v (Some (cnt s)) in
                         Tst (cnt s3) (inv s3) (nset (nodes s3) (cnt s) (addSize (nodes s3 (cnt s)) (nsize (nodes s3 c))))) l s2 in
     let Y := X ++ flat_map P l in
     Good s3 (done ++ u :: Y) /\ (forall b, In b done -> sizeAt s3 (done ++ u :: Y) b = sizeAt s done b) /\ sizeAt s3 (done ++ u :: Y) u = S (length Y) /\
     (forall b, In b Y -> sizeAt s3 (done ++ u :: Y) b = length (P b))).
  { induction l as [|c l IHl]; intros X s2 Hl G2 N2 S1 S2 S3; cbn zeta.
    - cbn. rewrite app_nil_r. auto.
    - cbn [fold_left flat_map]. assert (Hc : In c (kids u)) by (apply Hl; now left). pose proof Hc as Hc'. apply kids_in in Hc' as (C1 & C2 & C3).
      destruct (Him c C1 C2) as [_ C4]. rewrite C3 in C4.
      assert (In_u : In u (done ++ u :: X)) by (apply in_or_app; right; now left). assert (Iu2 : idx u (done ++ u :: X) = length done) by now apply idx_mid.
      cbn [flat_map] in N2. assert (N3 : NoDup ((done ++ u :: X) ++ P c)).
      { apply (nodup_app_l _ (flat_map P l)). rewrite <- !app_assoc. exact N2. }
      pose proof (IH c s2 (done ++ u :: X) (Some (cnt s)) C1 ltac:(lia) G2 N3) as IHc.
      assert (Est : build kids fuel s2 c (Some (cnt s)) = build kids fuel s2 c (Some (cnt s))) by reflexivity.
      destruct (build kids fuel s2 c (Some (cnt s))) as [s4 k] eqn:Eb. clear Est.
      destruct IHc as (D1 & D2 & D3 & D4).
      { destruct (Nat.eqb_spec c root); [contradiction|]. now rewrite C3, Iu2, Ec. }
      { intros _. now rewrite C3. }
      rewrite <- app_assoc in D2, D3, D4. cbn [app] in D2, D3, D4.
      set (s5 := Tst (cnt s4) (inv s4) (nset (nodes s4) (cnt s) (addSize (nodes s4 (cnt s)) (nsize (nodes s4 k))))).
      assert (In_u2 : In u (done ++ u :: X ++ P c)) by (apply in_or_app; right; now left). assert (Iu3 : idx u (done ++ u :: X ++ P c) = length done) by now apply idx_mid.
      assert (Ik : idx c (done ++ u :: X ++ P c) = k).
      { rewrite D1. replace (done ++ u :: X ++ P c) with ((done ++ u :: X) ++ P c) by now rewrite <- app_assoc. rewrite (P_eq c C1). apply idx_mid.
        intros H. exact (nodup_app_disj (done ++ u :: X) (P c) c N3 H (P_self c C1)). }
      assert (Sz : forall b, In b (done ++ u :: X ++ P c) -> sizeAt s5 (done ++ u :: X ++ P c) b = if Nat.eqb b u then sizeAt s4 (done ++ u :: X ++ P c) u + length (P c) else sizeAt s4 (done ++ u :: X ++ P c) b).
      { intros b Hb. unfold sizeAt at 1. cbn [s5 nodes]. unfold nset. rewrite Ec. destruct (Nat.eqb_spec b u) as [->|D].
        - rewrite Iu3, Nat.eqb_refl. cbn [addSize nsize]. f_equal; [unfold sizeAt; now rewrite Iu3|]. rewrite <- Ik. apply D4. now apply P_self.
        - destruct (Nat.eqb_spec (idx b (done ++ u :: X ++ P c)) (length done)) as [E|]; auto. exfalso. apply D. eapply idx_inj; [exact Hb|]. rewrite Iu3. exact E. }
      assert (G5 : Good s5 (done ++ u :: X ++ P c)).
      { constructor; [apply D2|apply D2| |apply D2]. intros b Hb. cbn [s5 nodes]. unfold nset. rewrite Ec. destruct (g_nd _ _ D2 b Hb) as (E1 & E2 & E3).
        destruct (Nat.eqb_spec (idx b (done ++ u :: X ++ P c)) (length done)) as [E|]; auto. cbn [addSize nblk ndepth nanc]. rewrite <- E. auto. }
      assert (Eu : u <> root -> Nat.eqb u u = true) by (intros; apply Nat.eqb_refl).
      destruct (IHl (X ++ P c) s5) as (F1 & F2 & F3 & F4).
      + intros y Hy. apply Hl. now right.
      + exact G5.
      + rewrite <- app_assoc. exact N2.
      + intros b Hb. rewrite Sz by (apply in_or_app; now left). destruct (Nat.eqb_spec b u) as [->|]; [contradiction|]. rewrite D3 by (apply in_or_app; now left). auto.
      + rewrite Sz, Nat.eqb_refl by auto. rewrite D3 by auto. rewrite S2, app_length. lia.
      + intros b Hb. assert (Nb : b <> u).
        { intros ->. apply nodup_app_r in N2. inversion N2 as [|? ? Q1 Q2]; subst. apply Q1. apply in_app_or in Hb as [Hb|Hb]; apply in_or_app; [now left|right; apply in_or_app; now left]. }
        rewrite Sz by (apply in_or_app; right; now right). destruct (Nat.eqb_spec b u) as [->|]; [contradiction|]. apply in_app_or in Hb as [Hb|Hb]; [|auto].
        rewrite D3 by (apply in_or_app; right; now right). auto.
      + rewrite <- app_assoc in F1, F2, F3, F4. split; [exact F1|]. split; [exact F2|]. split; [exact F3|exact F4]. }
  destruct (K (kids u) [] s1) as (F1 & F2 & F3 & F4).
  - intros y Hy. exact Hy.
  - exact G1.
  - cbn. rewrite P_eq in Nd by auto. exact Nd.
  - intros b Hb. unfold sizeAt. rewrite idx_l by auto. cbn [s1 nodes]. unfold nset. rewrite Ec. assert (L := proj1 (idx_lt b done) Hb). destruct (Nat.eqb_spec (idx b done) (length done)); [lia|auto].
  - unfold sizeAt. rewrite Iu. cbn [s1 nodes]. unfold nset. rewrite Ec, Nat.eqb_refl. reflexivity.
  - intros b [].
  - cbn [app] in *. rewrite <- (P_eq u Hu) in *. split; [exact Ec|]. split; [exact F1|]. split; [exact F2|]. intros b Hb. rewrite (P_eq u Hu) in Hb. destruct Hb as [<-|Hb]; [|auto].
    rewrite F3. rewrite (P_eq u Hu). reflexivity.
Qed.
(** line 205 *)
Definition domTree : tst := fst (build kids B (Tst 0 (fun _ => None) (fun _ => Node 0 0 0 [])) root None).
Definition L : list nat := P root.
Lemma L_in x : In x L <-> In x V.
Proof.
  unfold L. rewrite P_in by auto. split; [tauto|]. intros Hx. split; auto. exists (dep x). now apply up_sat.
Qed.
Lemma domTree_ok : Good domTree L /\ forall b, In b L -> sizeAt domTree L b = length (P b).
Proof.
  unfold domTree. pose proof (build_ok B root (Tst 0 (fun _ => None) (fun _ => Node 0 0 0 [])) [] None Hroot) as K.
  destruct (build kids B _ root None) as [s c]. cbn [fst app] in *. destruct K as (_ & K1 & _ & K2); auto.
  - lia.
  - constructor; cbn; auto; try (intros b []).
  - now apply P_nodup.
  - now rewrite Nat.eqb_refl.
  - intros D. congruence.
Qed.
Lemma inv_ok b : inv domTree b = if mem b L then Some (idx b L) else None.
Proof. apply (g_inv _ _ (proj1 domTree_ok)). Qed.
Lemma inv_V b : In b V -> inv domTree b = Some (idx b L).
Proof. intros H. rewrite inv_ok. replace (mem b L) with true; auto. symmetry. now apply mem_In, L_in. Qed.
Lemma inv_nV b : ~ In b V -> inv domTree b = None.
Proof. intros H. rewrite inv_ok. replace (mem b L) with false; auto. symmetry. apply mem_nIn. now rewrite L_in. Qed.
Lemma blk_ok b : In b V -> nblk (nodes domTree (idx b L)) = b.
Proof. intros H. apply (g_nd _ _ (proj1 domTree_ok)). now apply L_in. Qed.
Theorem dominateQ_ok a b : dominateQ domTree a b = true <-> In a V /\ In b V /\ anc im a b.
Proof.
  unfold dominateQ. destruct (in_dec Nat.eq_dec a V) as [Ha|Na]; [|rewrite (inv_nV a Na); split; [discriminate|tauto]].
  destruct (in_dec Nat.eq_dec b V) as [Hb|Nb]; [|rewrite (inv_nV b Nb); destruct (inv domTree a); split; try discriminate; tauto].
  rewrite (inv_V a Ha), (inv_V b Hb). destruct domTree_ok as [G S]. assert (Ea := S a (proj2 (L_in a) Ha)). unfold sizeAt in Ea. rewrite Ea.
  rewrite andb_true_iff, Nat.leb_le, Nat.ltb_lt. 
  assert (Nd : NoDup L) by now apply P_nodup. destruct (P_seg root Hroot a) as (A & C & E); [now apply L_in|]. fold L in E.
  assert (Na : ~ In a A) by (intros H; rewrite E in Nd; eapply nodup_app_disj; [exact Nd|exact H|apply in_or_app; left; now apply P_self]).
  assert (Ia : idx a L = length A). { rewrite E, (P_eq a Ha). now apply idx_mid. }
  rewrite Ia. assert (Key : length A <= idx b L < length A + length (P a) <-> In b (P a)).
  { assert (Hb' : In b L) by now apply L_in. rewrite E in *. destruct (in_dec Nat.eq_dec b A) as [X|X].
    - rewrite idx_l by auto. assert (Q := proj1 (idx_lt b A) X). split; [lia|]. intros Y. exfalso. eapply nodup_app_disj; [exact Nd|exact X|apply in_or_app; now left].
    - rewrite idx_r by auto. destruct (in_dec Nat.eq_dec b (P a)) as [Y|Y].
      + rewrite idx_l by auto. assert (Q := proj1 (idx_lt b (P a)) Y). split; [auto|lia].
      + rewrite idx_r by auto. split; [lia|contradiction]. }
  rewrite Key, P_in by auto. tauto.
Qed.
Theorem reachableQ_ok b : reachableQ domTree b = true <-> In b V.
Proof. unfold reachableQ. destruct (in_dec Nat.eq_dec b V) as [H|H]; [rewrite (inv_V b H)|rewrite (inv_nV b H)]; split; auto; discriminate. Qed.
Theorem parentQ_ok b : In b V -> parentQ domTree b = if Nat.eqb b root then None else Some (im b).
Proof.
  intros Hb. unfold parentQ. rewrite (inv_V b Hb). destruct domTree_ok as [G _]. assert (Lb : In b L) by now apply L_in. destruct (g_nd _ _ G b Lb) as (_ & _ & E). rewrite E.
  rewrite (nth_error_nth (ancSpec L b) 0 None (nth_ancSpec L b 0 ltac:(lia))). cbn [Nat.pow up]. destruct (Nat.eqb_spec b root) as [->|D].
  - now rewrite dep_root.
  - rewrite (dep_im b Hb D). cbn [Nat.leb]. now rewrite blk_ok by now apply Him.
Qed.
Lemma map_idx (h : nat -> nat) l : NoDup l -> (forall b, In b l -> h (idx b l) = b) -> map h (seq 0 (length l)) = l.
Proof.
  revert h. induction l as [|a l IH]; intros h Hd H; cbn; auto. inversion Hd; subst. f_equal; [specialize (H a (or_introl eq_refl)); cbn in H; now rewrite Nat.eqb_refl in H|].
  rewrite <- seq_shift, map_map. apply IH; auto. intros b Hb. specialize (H b (or_intror Hb)). cbn in H. destruct (Nat.eqb_spec a b) as [->|]; [contradiction|exact H].
Qed.
Theorem blocksQ_ok : blocksQ domTree = L.
Proof.
  unfold blocksQ. destruct domTree_ok as [G _]. rewrite (g_cnt _ _ G). apply map_idx; [now apply P_nodup|]. intros b Hb. now apply (g_nd _ _ G).
Qed.
Theorem blocksQ_order a b : In a V -> In b V -> anc im a b -> idx a (blocksQ domTree) <= idx b (blocksQ domTree).
Proof.
  intros Ha Hb H. rewrite blocksQ_ok. assert (K : dominateQ domTree a b = true) by now apply dominateQ_ok. unfold dominateQ in K. rewrite (inv_V a Ha), (inv_V b Hb) in K.
  apply andb_true_iff in K as [K _]. now apply Nat.leb_le.
Qed.
Theorem subTreeSizeQ_ok b : (In b V -> subTreeSizeQ domTree b = length (P b)) /\ (~ In b V -> subTreeSizeQ domTree b = 0).
Proof.
  unfold subTreeSizeQ. split; intros H; [rewrite (inv_V b H)|now rewrite (inv_nV b H)].
  destruct domTree_ok as [_ S]. exact (S b (proj2 (L_in b) H)).
Qed.
(** *** the lowest common ancestor *)
Lemma nd_ok b : In b V -> ndepth (nodes domTree (idx b L)) = dep b /\
  forall i, i <= maxDepth -> nth_error (nanc (nodes domTree (idx b L))) i = Some (if 2 ^ i <=? dep b then Some (idx (up im (2 ^ i) b) L) else None).
Proof.
  intros Hb. destruct domTree_ok as [G _]. destruct (g_nd _ _ G b (proj2 (L_in b) Hb)) as (_ & E1 & E2). split; auto. intros i Hi. rewrite E2. now apply nth_ancSpec.
Qed.
Lemma div2_lt d : d <> 0 -> Nat.div2 d < d.
Proof. intros H. apply Nat.lt_div2. lia. Qed.
Lemma climb_ok fuel : forall i diff b, In b V -> diff < fuel -> diff * 2 ^ i <= dep b -> dep b < 2 ^ (S maxDepth) ->
  climb domTree fuel i diff (idx b L) = Some (idx (up im (diff * 2 ^ i) b) L).
Proof.
  induction fuel as [|fuel IH]; intros i diff b Hb Hf Hd Hmax; [lia|]. cbn [climb]. destruct (Nat.eqb_spec diff 0) as [->|D]; [reflexivity|].
  pose proof (div2_lt diff D) as Ld. pose proof (Nat.div2_odd diff) as Eo. assert (P2 : 2 ^ (S i) = 2 * 2 ^ i) by apply Nat.pow_succ_r'.
  assert (Ppos : 0 < 2 ^ i) by (apply Nat.neq_0_lt_0, Nat.pow_nonzero; lia).
  assert (Li : 2 ^ i <= dep b) by nia. destruct (Nat.odd diff); cbn [Nat.b2n] in Eo.
  - assert (Hi : i <= maxDepth). { destruct (Nat.le_gt_cases i maxDepth); auto. assert (2 ^ (S maxDepth) <= 2 ^ i) by (apply Nat.pow_le_mono_r; lia). lia. }
    destruct (nd_ok b Hb) as [_ N]. rewrite (N i Hi). destruct (Nat.leb_spec (2 ^ i) (dep b)) as [_|]; [|lia]. set (w := up im (2 ^ i) b).
    assert (Hw : In w V) by now apply up_V. assert (Ew : dep w = dep b - 2 ^ i) by (unfold w; now apply dep_up).
    rewrite IH; auto; [|lia|rewrite P2; nia|lia]. f_equal. f_equal. unfold w. rewrite <- up_add. f_equal. rewrite P2. nia.
  - rewrite IH; auto; [|lia|rewrite P2; nia]. f_equal. f_equal. f_equal. rewrite P2. nia.
Qed.
Lemma idx_eqb a b : In a V -> In b V -> Nat.eqb (idx a L) (idx b L) = Nat.eqb a b.
Proof.
  intros Ha Hb. destruct (Nat.eqb_spec a b) as [->|D]; [apply Nat.eqb_refl|]. apply Nat.eqb_neq. intros E. apply D. eapply idx_inj; [|exact E]. now apply L_in.
Qed.
Lemma together_ok k : forall a b, In a V -> In b V -> a <> b -> dep a = dep b -> k <= S maxDepth -> up im (2 ^ k) a = up im (2 ^ k) b ->
  exists x y, together domTree k (idx a L) (idx b L) = Some (idx x L, idx y L) /\ In x V /\ In y V /\ x <> y /\ dep x = dep y /\ im x = im y /\ anc im x a /\ anc im y b.
Proof.
  induction k as [|i IH]; intros a b Ha Hb D Ed Hk Hu.
  - exists a, b. cbn in Hu. split; [reflexivity|]. split; [exact Ha|]. split; [exact Hb|]. split; [exact D|]. split; [exact Ed|]. split; [exact Hu|]. split; apply anc_refl.
  - cbn [together]. rewrite idx_eqb by auto. destruct (Nat.eqb_spec a b) as [|_]; [contradiction|].
    destruct (nd_ok a Ha) as [_ Na]. destruct (nd_ok b Hb) as [_ Nb]. rewrite (Na i), (Nb i) by lia. rewrite <- Ed. rewrite Nat.pow_succ_r' in Hu.
    destruct (Nat.leb_spec (2 ^ i) (dep a)) as [Li|Li]; cbn [oeqb].
    + rewrite idx_eqb by now apply up_V. destruct (Nat.eqb_spec (up im (2 ^ i) a) (up im (2 ^ i) b)) as [E|N].
      * apply IH; auto; lia.
      * destruct (IH (up im (2 ^ i) a) (up im (2 ^ i) b)) as (x & y & R1 & R2 & R3 & R4 & R5 & R6 & R7 & R8); auto; try (now apply up_V); try lia.
        -- rewrite !dep_up by auto. lia.
        -- rewrite <- !up_add. replace (2 ^ i + 2 ^ i) with (2 * 2 ^ i) by lia. exact Hu.
        -- exists x, y. split; [exact R1|]. split; [exact R2|]. split; [exact R3|]. split; [exact R4|]. split; [exact R5|]. split; [exact R6|]. split; [eapply anc_trans; [exact R7|now exists (2 ^ i)]|eapply anc_trans; [exact R8|now exists (2 ^ i)]].
    + apply IH; auto; [lia|]. rewrite !up_sat; auto; lia.
Qed.
Definition isLca (r a b : nat) : Prop := anc im r a /\ anc im r b /\ forall d, anc im d a -> anc im d b -> anc im d r.
Theorem lcaQ_ok a b : In a V -> In b V -> dep a < 2 ^ (S maxDepth) -> dep b < 2 ^ (S maxDepth) -> exists r, lcaQ domTree a b = Some (Some r) /\ In r V /\ isLca r a b.
Proof.
  intros Ha Hb La Lb. unfold lcaQ. rewrite (inv_V a Ha), (inv_V b Hb). destruct (nd_ok a Ha) as [Da _]. destruct (nd_ok b Hb) as [Db _]. rewrite Da, Db.
  assert (K : forall u v, In u V -> In v V -> dep u <= dep v -> dep v < 2 ^ S maxDepth -> exists r,
    match climb domTree (S (ndepth (nodes domTree (idx v L)) - ndepth (nodes domTree (idx u L)))) 0 (ndepth (nodes domTree (idx v L)) - ndepth (nodes domTree (idx u L))) (idx v L) with
    | None => None
    | Some v1 => if Nat.eqb (idx u L) v1 then Some (Some (nblk (nodes domTree (idx u L))))
      else match together domTree (S maxDepth) (idx u L) v1 with
           | None => None
           | Some (x, _) => match nth 0 (nanc (nodes domTree x)) None with Some p => Some (Some (nblk (nodes domTree p))) | None => None end
           end
    end = Some (Some r) /\ In r V /\ isLca r u v).
  { clear La Lb Da Db. intros u v Hu Hv Le Lv. destruct (nd_ok u Hu) as [Du _]. destruct (nd_ok v Hv) as [Dv _]. rewrite Du, Dv.
    rewrite climb_ok; auto; [|cbn; lia]. cbn [Nat.pow]. rewrite Nat.mul_1_r. set (w := up im (dep v - dep u) v).
    assert (Hw : In w V) by now apply up_V. assert (Ew : dep w = dep u) by (unfold w; rewrite dep_up by auto; lia). assert (Aw : anc im w v) by now exists (dep v - dep u).
    rewrite idx_eqb by auto. destruct (Nat.eqb_spec u w) as [E|D].
    - exists u. rewrite blk_ok by auto. split; auto. split; auto. split; [apply anc_refl|]. split; [rewrite E; auto|auto].
    - assert (Eup : up im (2 ^ S maxDepth) u = up im (2 ^ S maxDepth) w).
      { rewrite (up_sat (2 ^ S maxDepth) u Hu), (up_sat (2 ^ S maxDepth) w Hw); [reflexivity| |]; rewrite ?Ew; apply Nat.lt_le_incl; [exact (Nat.le_lt_trans _ _ _ Le Lv)|exact (Nat.le_lt_trans _ _ _ Le Lv)]. }
      destruct (together_ok (S maxDepth) u w Hu Hw D (eq_sym Ew) (le_n _) Eup) as (x & y & R1 & R2 & R3 & R4 & R5 & R6 & R7 & R8). clear Eup Lv.
      rewrite R1. destruct (nd_ok x R2) as [_ Nx]. rewrite (nth_error_nth _ 0 None (Nx 0 ltac:(lia))). cbn [Nat.pow up].
      assert (Rx : x <> root). { intros ->. apply R4. rewrite dep_root in R5. symmetry. now apply dep0. }
      assert (Ry : y <> root). { intros ->. apply R4. rewrite dep_root in R5. now apply dep0. }
      rewrite (dep_im x R2 Rx). cbn [Nat.leb]. destruct (Him x R2 Rx) as [Hx _]. rewrite blk_ok by auto. exists (im x). split; auto. split; auto.
      assert (Xv : anc im y v) by (eapply anc_trans; [exact R8|exact Aw]).
      split; [eapply anc_trans; [apply anc_fa|exact R7]|]. split; [rewrite R6; eapply anc_trans; [apply anc_fa|exact Xv]|].
      intros d D1 D2. destruct (anc_chain im d x u D1 R7) as [Q|Q].
      + apply anc_inv in Q as [->|Q]; auto. exfalso. (* x is above both *)
        destruct (anc_chain im x y v D2 Xv) as [Z|Z]; [destruct (anc_dep x y R3 Z) as [Z' _]|destruct (anc_dep y x R2 Z) as [Z' _]]; rewrite R5, Nat.sub_diag in Z'; cbn in Z'; auto.
      + (* x is above d: x is above v *)
        exfalso. assert (Z0 : anc im x v) by (eapply anc_trans; eauto).
        destruct (anc_chain im x y v Z0 Xv) as [Z|Z]; [destruct (anc_dep x y R3 Z) as [Z' _]|destruct (anc_dep y x R2 Z) as [Z' _]]; rewrite R5, Nat.sub_diag in Z'; cbn in Z'; auto. }
  destruct (Nat.ltb_spec (dep b) (dep a)) as [Lt|Ge].
  - destruct (K b a Hb Ha ltac:(lia) La) as (r & K1 & K2 & K3 & K4 & K5). clear La Lb. exists r. split; [cbv beta iota zeta; exact K1|]. split; auto. split; auto.
  - destruct (K a b Ha Hb Ge Lb) as (r & K1 & K2 & K3). clear La Lb. exists r. split; [cbv beta iota zeta; exact K1|]. auto.
Qed.
End Tree.
