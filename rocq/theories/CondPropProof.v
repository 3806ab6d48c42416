(** C54: proofs about CondProp.v.  Nothing here models code of /repo. *)
From Coq Require Import ZArith Lia Bool List Arith Permutation.
From Verif Require Import Sim Ssa SsaCfg SsaMerge SsaFwd SsaFwd2 SsaWf SsaDom SsaProps SsaSub SsaVerify SsaEq SsaPhi SsaCse CodeMotion CondProp.
From Verif Require SccModel SccProofs SccProps.
Import ListNotations.

Lemma inO_In o l : inO o l = true <-> In o l.
Proof.
  unfold inO. rewrite existsb_exists. split.
  - intros (x & H & E). destruct (opnd_eqb_spec o x); [now subst|discriminate].
  - intros H. exists o. split; auto. destruct (opnd_eqb_spec o o); congruence.
Qed.
Lemma isC_iff v c o : isC v c o = true <-> c = Some (o, v).
Proof.
  destruct c as [[x b]|]; unfold isC; [|split; discriminate]. rewrite andb_true_iff, Bool.eqb_true_iff. destruct (opnd_eqb_spec o x) as [->|N]; split; intuition congruence.
Qed.
Lemma addC_In v c l o : In o (addC v c l) <-> In o l \/ c = Some (o, v).
Proof.
  destruct c as [[x b]|]; unfold addC; [|split; [auto|intros [H|H]; [auto|discriminate]]]. destruct (Bool.eqb b v) eqn:E.
  - apply Bool.eqb_prop in E. rewrite E. cbn. split; [intros [->|H]; auto|intros [H|H]; [auto|left; congruence]].
  - split; [auto|intros [H|H]; [auto|]]. injection H as _ H. rewrite H, Bool.eqb_reflx in E. discriminate.
Qed.

(** what is known of [b] is known of [a], or on the edge *)
Definition covers (a b : cset) (c : cond) : Prop :=
  (forall o, In o (cT b) -> In o (cT a) \/ c = Some (o, true)) /\ (forall o, In o (cF b) -> In o (cF a) \/ c = Some (o, false)).
Definition subS (a b : cset) : Prop := incl (cT a) (cT b) /\ incl (cF a) (cF b).
Lemma covers_sub a b b' c : subS b' b -> covers a b c -> covers a b' c.
Proof. intros [S1 S2] [A B]. split; intros o H; [apply A, S1, H|apply B, S2, H]. Qed.
Lemma finalize_sub s : subS (finalize s) s.
Proof. split; cbn; intros o H; apply filter_In in H; tauto. Qed.
Lemma merge_covers s r c : covers r (merge s r c) c.
Proof.
  unfold merge. destruct (cE s); split; cbn; intros o H.
  - now apply addC_In.
  - now apply addC_In.
  - apply filter_In in H as [_ H]. apply orb_true_iff in H as [H|H]; [left; now apply inO_In|right; now apply isC_iff].
  - apply filter_In in H as [_ H]. apply orb_true_iff in H as [H|H]; [left; now apply inO_In|right; now apply isC_iff].
Qed.
Lemma merge_sub s r c : cE s = false -> subS (merge s r c) s.
Proof. intros E. unfold merge. rewrite E. split; cbn; intros o H; apply filter_In in H; tauto. Qed.
Lemma merge_E s r c : cE (merge s r c) = false.
Proof. unfold merge. destruct (cE s); reflexivity. Qed.

Lemma setf_eq {A} (f : nat -> A) k x : setf f k x k = x.
Proof. unfold setf. now rewrite Nat.eqb_refl. Qed.
Lemma setf_ne {A} (f : nat -> A) k x i : i <> k -> setf f k x i = f i.
Proof. unfold setf. intros H. now destruct (Nat.eqb_spec i k). Qed.

Section Queue.
Variables (cnt : nat) (dag : nat -> list nat) (ec : nat -> nat -> cond).
Hypothesis Dn : forall u, NoDup (dag u).
Hypothesis Dd : forall u v, In v (dag u) -> v < u.
Hypothesis Dc : forall u v, In v (dag u) -> u < cnt.
Definition edgeb (u v : nat) : bool := existsb (Nat.eqb v) (dag u).
Lemma edgeb_In u v : edgeb u v = true <-> In v (dag u).
Proof.
  unfold edgeb. rewrite existsb_exists. split; [intros (x & H & E); apply Nat.eqb_eq in E; now subst|intros H; exists v; now rewrite Nat.eqb_refl].
Qed.
Definition open (pr : nat -> nat -> bool) (v : nat) : nat := length (filter (fun u => edgeb u v && negb (pr u v)) (seq 0 cnt)).
Lemma open_zero pr v : open pr v = 0 <-> forall u, In v (dag u) -> pr u v = true.
Proof.
  unfold open. split.
  - intros H u Hu. destruct (filter _ _) as [|x l] eqn:E; [|discriminate]. destruct (pr u v) eqn:P; auto.
    assert (K : In u (filter (fun u => edgeb u v && negb (pr u v)) (seq 0 cnt))).
    { apply filter_In. split; [apply in_seq; pose proof (Dc u v Hu); lia|]. apply edgeb_In in Hu. now rewrite Hu, P. }
    rewrite E in K. destruct K.
  - intros H. destruct (filter _ _) as [|x l] eqn:E; [reflexivity|]. assert (K : In x (x :: l)) by now left. rewrite <- E in K.
    apply filter_In in K as [_ K]. apply andb_true_iff in K as [K1 K2]. apply edgeb_In in K1. rewrite (H x K1) in K2. discriminate.
Qed.
Lemma filter_one {A} (p q : A -> bool) (l : list A) a : NoDup l -> In a l -> p a = true -> q a = false -> (forall x, x <> a -> p x = q x) ->
  length (filter p l) = S (length (filter q l)).
Proof.
  intros N I Pa Qa H. induction l as [|x l IH]; [destruct I|]. inversion N as [|? ? N1 N2]; subst. cbn. destruct I as [->|I].
  - rewrite Pa, Qa. cbn. f_equal. f_equal. clear IH N N2. induction l as [|y l IH]; auto. cbn. rewrite (H y); [|intros ->; apply N1; now left].
    rewrite IH; auto. intros K. apply N1. now right.
  - rewrite (H x) by (intros ->; contradiction). destruct (q x); cbn; rewrite (IH N2 I); reflexivity.
Qed.
(** [pr]: the edges done *)
Record Inv (dn : list nat) (pr : nat -> nat -> bool) (q : list nat) (ind : nat -> nat) (color : nat -> cset) : Prop := {
  i1 : forall v, ind v = open pr v;
  i2 : NoDup (dn ++ q);
  i2b : forall v, In v (dn ++ q) -> v < cnt;
  i3 : forall v, v < cnt -> (In v (dn ++ q) <-> ind v = 0);
  i4 : forall u v, In v (dag u) -> pr u v = true -> covers (color u) (color v) (ec u v);
  i5 : forall v, cE (color v) = true -> forall u, In v (dag u) -> pr u v = false;
  i5b : forall v, (forall u, In v (dag u) -> pr u v = false) -> cT (color v) = [] /\ cF (color v) = [];
  i6 : forall u v, pr u v = true -> In v (dag u) /\ In u dn }.
Definition addP (pr : nat -> nat -> bool) (u v : nat) : nat -> nat -> bool := fun a b => pr a b || (Nat.eqb a u && Nat.eqb b v).
Lemma Inv_visit dn pr q ind color u v : Inv dn pr q ind color -> In u dn -> In v (dag u) -> pr u v = false ->
  exists q' ind' color', visit ec u (q, ind, color) v = (q', ind', color') /\ Inv dn (addP pr u v) q' ind' color'.
Proof.
  intros I Hu Hv Hp. unfold visit. do 3 eexists. split; [reflexivity|].
  assert (Ho : open pr v = S (open (addP pr u v) v)).
  { unfold open. apply (filter_one _ _ _ u).
    - apply seq_NoDup.
    - apply in_seq. pose proof (Dc u v Hv). lia.
    - apply edgeb_In in Hv. now rewrite Hv, Hp.
    - unfold addP. now rewrite !Nat.eqb_refl, orb_true_r, andb_false_r.
    - intros x Hx. unfold addP. destruct (Nat.eqb_spec x u); [contradiction|]. cbn. now rewrite orb_false_r. }
  assert (Hoo : forall w, w <> v -> open (addP pr u v) w = open pr w).
  { intros w Hw. unfold open. f_equal. apply filter_ext. intros x. unfold addP. destruct (Nat.eqb_spec w v); [contradiction|]. now rewrite andb_false_r, orb_false_r. }
  assert (Lv : v < cnt) by (pose proof (Dd u v Hv); pose proof (Dc u v Hv); lia).
  assert (Nv : ~ In v (dn ++ q)).
  { intros K. apply (i3 _ _ _ _ _ I v Lv) in K. rewrite (i1 _ _ _ _ _ I), Ho in K. discriminate. }
  assert (Ndn : ~ In v dn) by (intros K; apply Nv, in_or_app; now left).
  assert (Nuv : u <> v) by congruence.
  assert (Hn : pred (ind v) = open (addP pr u v) v) by (rewrite (i1 _ _ _ _ _ I), Ho; reflexivity).
  set (q' := if Nat.eqb (pred (ind v)) 0 then q ++ [v] else q).
  assert (Hq : forall w, In w (dn ++ q') <-> In w (dn ++ q) \/ (w = v /\ open (addP pr u v) v = 0)).
  { intros w. unfold q'. rewrite Hn. destruct (Nat.eqb_spec (open (addP pr u v) v) 0) as [E|E].
    - rewrite app_assoc, !in_app_iff. cbn. intuition congruence.
    - tauto. }
  constructor.
  - intros w. destruct (Nat.eq_dec w v) as [->|N]; [rewrite setf_eq; exact Hn|]. rewrite setf_ne, Hoo; auto. apply (i1 _ _ _ _ _ I).
  - unfold q'. destruct (Nat.eqb (pred (ind v)) 0); [|apply (i2 _ _ _ _ _ I)]. rewrite app_assoc.
    eapply Permutation_NoDup; [apply Permutation_cons_append|]. constructor; [exact Nv|apply (i2 _ _ _ _ _ I)].
  - intros w K. apply Hq in K as [K|[-> _]]; auto. now apply (i2b _ _ _ _ _ I).
  - intros w Lw. rewrite Hq. destruct (Nat.eq_dec w v) as [->|N].
    + rewrite setf_eq, Hn. tauto.
    + rewrite setf_ne by auto. rewrite (i3 _ _ _ _ _ I w Lw). tauto.
  - intros a b Hb P. destruct (Nat.eq_dec a v) as [->|Na].
    { exfalso. unfold addP in P. apply orb_true_iff in P as [P|P]; [apply Ndn, (i6 _ _ _ _ _ I _ _ P)|]. apply andb_true_iff in P as [P _]. apply Nat.eqb_eq in P. congruence. }
    rewrite (setf_ne _ v _ a Na). destruct (Nat.eq_dec b v) as [->|Nb].
    + rewrite setf_eq. unfold addP in P. rewrite Nat.eqb_refl, andb_true_r in P. destruct (Nat.eq_dec a u) as [Ea|N]; [subst a|apply Nat.eqb_neq in N; rewrite N in P].
      * apply merge_covers.
      * rewrite orb_false_r in P. destruct (cE (color v)) eqn:E; [rewrite (i5 _ _ _ _ _ I v E a Hb) in P; discriminate|].
        eapply covers_sub; [apply merge_sub, E|]. now apply (i4 _ _ _ _ _ I).
    + rewrite setf_ne by auto. apply (i4 _ _ _ _ _ I); auto. unfold addP in P. destruct (Nat.eqb_spec b v); [contradiction|]. now rewrite andb_false_r, orb_false_r in P.
  - intros w E a Ha. destruct (Nat.eq_dec w v) as [->|N]; [rewrite setf_eq, merge_E in E; discriminate|]. rewrite setf_ne in E by auto.
    unfold addP. rewrite (i5 _ _ _ _ _ I w E a Ha). destruct (Nat.eqb_spec w v); [contradiction|]. now rewrite andb_false_r.
  - intros w H. destruct (Nat.eq_dec w v) as [->|N].
    { specialize (H u Hv). unfold addP in H. rewrite !Nat.eqb_refl, orb_true_r in H. discriminate. }
    rewrite setf_ne by auto. apply (i5b _ _ _ _ _ I). intros a Ha. specialize (H a Ha). unfold addP in H. now apply orb_false_iff in H.
  - intros a b P. unfold addP in P. apply orb_true_iff in P as [P|P]; [now apply (i6 _ _ _ _ _ I)|]. apply andb_true_iff in P as [P1 P2].
    apply Nat.eqb_eq in P1, P2. subst. auto.
Qed.
Lemma Inv_visits dn u : forall r pr q ind color, Inv dn pr q ind color -> In u dn -> incl r (dag u) -> NoDup r -> (forall v, In v r -> pr u v = false) ->
  exists pr' q' ind' color', fold_left (visit ec u) r (q, ind, color) = (q', ind', color') /\ Inv dn pr' q' ind' color' /\
    (forall a b, pr a b = true -> pr' a b = true) /\ (forall v, In v r -> pr' u v = true).
Proof.
  induction r as [|v r IH]; intros pr q ind color I Hu Hi N Hp.
  - exists pr, q, ind, color. cbn. intuition.
  - destruct (Inv_visit dn pr q ind color u v I Hu (Hi v (or_introl eq_refl)) (Hp v (or_introl eq_refl))) as (q1 & ind1 & c1 & E & I1).
    inversion N as [|? ? N1 N2]; subst.
    destruct (IH (addP pr u v) q1 ind1 c1 I1 Hu (fun x Hx => Hi x (or_intror Hx)) N2) as (pr' & q' & ind' & c' & E' & I' & M1 & M2).
    + intros w Hw. unfold addP. rewrite (Hp w (or_intror Hw)). destruct (Nat.eqb_spec w v) as [->|_]; [contradiction|]. now rewrite andb_false_r.
    + exists pr', q', ind', c'. split; [cbn [fold_left]; rewrite E; exact E'|]. split; [exact I'|]. split.
      * intros a b P. apply M1. unfold addP. now rewrite P.
      * intros w [<-|Hw]; auto. apply M1. unfold addP. now rewrite !Nat.eqb_refl, orb_true_r.
Qed.
Lemma Inv_pop dn pr u q ind color : Inv dn pr (u :: q) ind color -> Inv (u :: dn) pr q ind (setf color u (finalize (color u))).
Proof.
  intros I. assert (Hq : forall w, In w ((u :: dn) ++ q) <-> In w (dn ++ u :: q)) by (intros w; rewrite !in_app_iff; cbn; tauto).
  assert (Nu : ~ In u dn).
  { intros K. pose proof (i2 _ _ _ _ _ I) as N. apply NoDup_remove_2 in N. apply N, in_or_app. now left. }
  assert (Es : forall w, subS (setf color u (finalize (color u)) w) (color w)).
  { intros w. destruct (Nat.eq_dec w u) as [->|N]; [rewrite setf_eq; apply finalize_sub|rewrite setf_ne by auto; split; intros o; auto]. }
  constructor.
  - apply (i1 _ _ _ _ _ I).
  - eapply Permutation_NoDup; [|apply (i2 _ _ _ _ _ I)]. apply Permutation_sym. exact (Permutation_middle dn q u).
  - intros v K. apply Hq in K. now apply (i2b _ _ _ _ _ I).
  - intros v L. rewrite Hq. now apply (i3 _ _ _ _ _ I).
  - intros a b Hb P. rewrite (setf_ne _ u _ a) by (intros ->; apply Nu, (i6 _ _ _ _ _ I _ _ P)). eapply covers_sub; [apply Es|]. now apply (i4 _ _ _ _ _ I).
  - intros v E. apply (i5 _ _ _ _ _ I). destruct (Nat.eq_dec v u) as [->|N]; [now rewrite setf_eq in E|now rewrite setf_ne in E by auto].
  - intros v H. destruct (i5b _ _ _ _ _ I v H) as [A B]. destruct (Es v) as [S1 S2]. rewrite A in S1. rewrite B in S2.
    split; [destruct (cT (setf color u (finalize (color u)) v)) as [|o l]; auto; destruct (S1 o (or_introl eq_refl))|
            destruct (cF (setf color u (finalize (color u)) v)) as [|o l]; auto; destruct (S2 o (or_introl eq_refl))].
  - intros a b P. destruct (i6 _ _ _ _ _ I a b P) as [A B]. split; auto. now right.
Qed.
Lemma queue_ok : forall fuel dn pr q ind color, Inv dn pr q ind color -> (forall u v, In u dn -> In v (dag u) -> pr u v = true) -> cnt <= length dn + fuel ->
  exists color', queue dag ec fuel (q, ind, color) = Some color' /\
    (forall u v, In v (dag u) -> covers (color' u) (color' v) (ec u v)) /\
    (forall v, (forall u, ~ In v (dag u)) -> cT (color' v) = [] /\ cF (color' v) = []).
Proof.
  induction fuel as [|n IH]; intros dn pr q ind color I Hd Hf.
  all: destruct q as [|u q].
  1,3: exists color; split; [reflexivity|]; assert (A : forall d v, cnt <= v + d -> v < cnt -> In v dn).
  1,3: induction d as [|d IHd]; intros v Lv Lc; [lia|]; destruct (in_dec Nat.eq_dec v dn) as [K|K]; auto; exfalso;
       assert (Z : ind v <> 0) by (intros Z; apply (i3 _ _ _ _ _ I v Lc) in Z; rewrite app_nil_r in Z; contradiction);
       rewrite (i1 _ _ _ _ _ I) in Z; apply Z, open_zero; intros u Hu; pose proof (Dd u v Hu); apply (Hd u v); auto; apply IHd; [lia|exact (Dc u v Hu)].
  1,2: split; [intros u v Hv; apply (i4 _ _ _ _ _ I); auto; apply (Hd u v); auto; apply (A cnt); [lia|exact (Dc u v Hv)]|];
       intros v H; apply (i5b _ _ _ _ _ I); intros u Hu; destruct (H u Hu).
  - exfalso. pose proof (i2 _ _ _ _ _ I) as N. assert (L : length (dn ++ u :: q) <= length (seq 0 cnt)).
    { apply NoDup_incl_length; auto. intros x Hx. apply in_seq. pose proof (i2b _ _ _ _ _ I x Hx). lia. }
    rewrite app_length, seq_length in L. cbn in L. lia.
  - cbn [queue]. pose proof (Inv_pop _ _ _ _ _ _ I) as I1.
    assert (Nu : ~ In u dn).
    { intros K. pose proof (i2 _ _ _ _ _ I) as N. apply NoDup_remove_2 in N. apply N, in_or_app. now left. }
    destruct (Inv_visits (u :: dn) u (dag u) pr q ind _ I1 (or_introl eq_refl) (incl_refl _) (Dn u)) as (pr' & q' & ind' & c' & E & I' & M1 & M2).
    { intros v Hv. destruct (pr u v) eqn:P; auto. destruct Nu. apply (i6 _ _ _ _ _ I u v P). }
    rewrite E. apply (IH (u :: dn) pr' q' ind' c' I'); [|cbn; lia].
    intros a b [<-|Ha] Hb; [now apply M2|apply M1; now apply (Hd a b)].
Qed.
Theorem colors_ok : exists color, colors cnt dag ec = Some color /\
    (forall u v, In v (dag u) -> covers (color u) (color v) (ec u v)) /\
    (forall v, (forall u, ~ In v (dag u)) -> cT (color v) = [] /\ cF (color v) = []).
Proof.
  unfold colors. apply (queue_ok cnt [] (fun _ _ => false)); [|intros u v []|cbn; lia].
  assert (E : forall v, indeg0 cnt dag v = open (fun _ _ => false) v).
  { intros v. unfold indeg0, open. f_equal. apply filter_ext. intros u. now rewrite andb_true_r. }
  constructor; cbn [app]; auto.
  - apply NoDup_filter, seq_NoDup.
  - intros v K. apply filter_In in K as [K _]. apply in_seq in K. lia.
  - intros v L. rewrite filter_In, in_seq, Nat.eqb_eq. intuition lia.
  - intros u v _ H. discriminate.
  - intros u v H. discriminate.
Qed.
End Queue.
