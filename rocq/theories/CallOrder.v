(** C61: CallGraphSCC (cmmc/Analysis/CallGraphSCC.cpp): the order in which functions are handled, callees first. *)
From Coq Require Import Lia Bool List Arith Permutation Relations.
From Verif Require Import SccModel SccProofs SccProps SsaWf UnusedTypes.
Import ListNotations.

(** ** the model *)
Section Model.
(** [n] functions in the order of the module; [calls u]: the functions that the call instructions of function [u] name.
    [iter]: the order in which the elements of an unordered_set come (line 105) *)
Variable n : nat.
Variable calls : nat -> list nat.
Variable iter : list nat -> list nat.
(** CallGraphSCC.cpp:56-71 *)
Definition graphOf : list (list nat) := map (fun u => filter (fun v => negb (Nat.eqb u v)) (calls u)) (seq 0 n).
Section Order.
Variable cnt : nat.
Variable col : nat -> nat.
(** lines 75-88: scc, the components a component calls, and dag, the components that call it *)
Definition scc (c : nat) : list nat := filter (fun u => Nat.eqb (col u) c) (seq 0 n).
Definition dests (c : nat) : list nat :=
  nodup Nat.eq_dec (flat_map (fun u => filter (fun d => negb (Nat.eqb d c)) (map col (nth u graphOf []))) (scc c)).
Definition dag (c : nat) : list nat := filter (fun d => inn c (dests d)) (seq 0 cnt).
(** lines 105-108 *)
Definition release (s : (nat -> nat) * list nat) (v : nat) : (nat -> nat) * list nat :=
  let d := fst s v - 1 in (fun x => if Nat.eqb x v then d else fst s x, if Nat.eqb d 0 then snd s ++ [v] else snd s).
(** lines 98-109: the components in the order in which they leave the queue; each does so once, so [fuel] bounds the loop *)
Fixpoint kahn (fuel : nat) (deg : nat -> nat) (q out : list nat) : list nat :=
  match fuel, q with
  | S k, u :: q' => let '(deg', q2) := fold_left release (iter (dag u)) (deg, q') in kahn k deg' q2 (out ++ [u])
  | _, _ => out
  end.
(** lines 90-103 *)
Definition orderOf : list nat :=
  let deg := fun c => length (dests c) in flat_map scc (kahn cnt deg (filter (fun c => Nat.eqb (deg c) 0) (seq 0 cnt)) []).
End Order.
(** lines 41-114; [None]: calcSCC did not answer *)
Definition callGraphOrder : option (list nat) :=
  match calcSCC graphOf with Some (cnt, cols) => Some (orderOf cnt (fun u => nth u cols 0)) | None => None end.
End Model.

(** ** proofs *)
Section Kahn.
Variable n : nat.
Variable calls : nat -> list nat.
Variable iter : list nat -> list nat.
Hypothesis Hiter : forall l, Permutation l (iter l).
Variable cnt : nat.
Variable col : nat -> nat.
Let ds := dests n calls col.
Let dg := dag n calls cnt col.
(** a component calls components with smaller numbers only *)
Hypothesis Hless : forall c d, c < cnt -> In d (ds c) -> d < c.
Lemma ds_NoDup c : NoDup (ds c).
Proof. apply NoDup_nodup. Qed.
Lemma dg_In c d : In d (dg c) <-> d < cnt /\ In c (ds d).
Proof. unfold dg, dag. rewrite filter_In, in_seq, inn_In. fold ds. intuition lia. Qed.
Lemma release_fold l : NoDup l -> forall deg q, fst (fold_left release l (deg, q)) = fst (fold_left release l (deg, q)) /\
  (forall x, fst (fold_left release l (deg, q)) x = if inn x l then deg x - 1 else deg x) /\
  snd (fold_left release l (deg, q)) = q ++ filter (fun v => Nat.eqb (deg v - 1) 0) l.
Proof.
  induction l as [|v l IH]; intros N deg q; cbn [fold_left]; [split; auto; split; [auto|cbn; now rewrite app_nil_r]|]. inversion N as [|? ? N1 N2]; subst.
  change (release (deg, q) v) with ((fun x => if Nat.eqb x v then deg v - 1 else deg x), if Nat.eqb (deg v - 1) 0 then q ++ [v] else q). specialize (IH N2 (fun x => if Nat.eqb x v then deg v - 1 else deg x) (if Nat.eqb (deg v - 1) 0 then q ++ [v] else q)).
  destruct IH as (_ & A & B). split; auto. split.
  - intros x. rewrite A. cbn [inn existsb]. change (existsb (Nat.eqb x) l) with (inn x l). destruct (Nat.eqb_spec x v) as [->|D]; cbn [orb]; auto.
    destruct (inn v l) eqn:E; auto. apply inn_In in E. contradiction.
  - rewrite B. cbn [filter]. assert (E : filter (fun v0 => Nat.eqb ((if Nat.eqb v0 v then deg v - 1 else deg v0) - 1) 0) l = filter (fun v0 => Nat.eqb (deg v0 - 1) 0) l).
    { apply filter_ext_in. intros x Hx. destruct (Nat.eqb_spec x v) as [->|D]; [contradiction|reflexivity]. }
    rewrite E. destruct (Nat.eqb (deg v - 1) 0); [now rewrite <- app_assoc|reflexivity].
Qed.
Definition open (out : list nat) (c : nat) : nat := length (filter (fun d => negb (inn d out)) (ds c)).
Lemma open_zero out c : open out c = 0 <-> incl (ds c) out.
Proof.
  unfold open. split.
  - intros H d Hd. destruct (inn d out) eqn:E; [now apply inn_In|]. exfalso. apply length_zero_iff_nil in H.
    assert (K : In d (filter (fun d => negb (inn d out)) (ds c))) by (apply filter_In; rewrite E; auto). rewrite H in K. destruct K.
  - intros H. apply length_zero_iff_nil. destruct (filter _ (ds c)) as [|d l] eqn:E; auto. assert (K : In d (d :: l)) by now left. rewrite <- E in K.
    apply filter_In in K as [K1 K2]. apply negb_true_iff, not_true_iff_false in K2. exfalso. apply K2. apply inn_In. auto.
Qed.
Lemma open_snoc out u c : ~ In u out -> open (out ++ [u]) c = if inn u (ds c) then open out c - 1 else open out c.
Proof.
  intros Nu. unfold open. generalize (ds_NoDup c). generalize (ds c). induction l as [|d l IH]; intros N; [reflexivity|]. inversion N as [|? ? N1 N2]; subst. specialize (IH N2).
  cbn [filter inn existsb]. change (existsb (Nat.eqb u) l) with (inn u l).
  assert (E : inn d (out ++ [u]) = inn d out || Nat.eqb d u) by (unfold inn; rewrite existsb_app; cbn; now rewrite orb_false_r). rewrite E.
  rewrite (Nat.eqb_sym u d). destruct (Nat.eqb_spec d u) as [->|D]; cbn [orb].
  - replace (inn u out) with false by (symmetry; apply not_true_iff_false; now rewrite inn_In). cbn [orb negb length].
    replace (inn u l) with false in IH by (symmetry; apply not_true_iff_false; now rewrite inn_In). rewrite IH. lia.
  - rewrite orb_false_r. destruct (inn d out); cbn [negb]; auto. cbn [length]. rewrite IH. destruct (inn u l) eqn:Eu; [|reflexivity].
    assert (P : 0 < length (filter (fun d0 => negb (inn d0 out)) l)); [|lia]. apply inn_In in Eu.
    assert (K : In u (filter (fun d0 => negb (inn d0 out)) l)).
    { apply filter_In. split; auto. apply negb_true_iff, not_true_iff_false. now rewrite inn_In. }
    destruct (filter (fun d0 => negb (inn d0 out)) l); [destruct K|cbn; lia].
Qed.
Definition inv (deg : nat -> nat) (q out : list nat) : Prop :=
  (forall c, c < cnt -> deg c = open out c) /\ NoDup (out ++ q) /\ (forall c, In c (out ++ q) <-> c < cnt /\ open out c = 0) /\
  (forall l1 c l2, out = l1 ++ c :: l2 -> incl (ds c) l1).
Lemma kahn_inv fuel : forall deg q out, inv deg q out -> cnt <= fuel + length out ->
  let r := kahn n calls iter cnt col fuel deg q out in
  NoDup r /\ (forall c, In c r <-> c < cnt) /\ forall l1 c l2, r = l1 ++ c :: l2 -> incl (ds c) l1.
Proof.
  induction fuel as [|k IH]; intros deg q out (I1 & I2 & I3 & I4) Hf r.
  - assert (E : q = []).
    { destruct q as [|u q]; auto. exfalso. assert (L : length (out ++ u :: q) <= length (seq 0 cnt)).
      { apply NoDup_incl_length; auto. intros c Hc. apply I3 in Hc. apply in_seq. lia. }
      rewrite app_length, seq_length in L. cbn in L. lia. }
    subst q r. rewrite app_nil_r in *. cbn [kahn]. split; auto. split; auto. intros c. rewrite I3. split; [tauto|]. intros Hc. split; auto.
    revert Hc. induction c as [c IHc] using lt_wf_ind. intros Hc. apply open_zero. intros d Hd. pose proof (Hless c d Hc Hd). apply I3. split; [lia|]. apply IHc; lia.
  - destruct q as [|u q].
    + subst r. rewrite app_nil_r in *. cbn [kahn]. split; auto. split; auto. intros c. rewrite I3. split; [tauto|]. intros Hc. split; auto.
      revert Hc. induction c as [c IHc] using lt_wf_ind. intros Hc. apply open_zero. intros d Hd. pose proof (Hless c d Hc Hd). apply I3. split; [lia|]. apply IHc; lia.
    + assert (Iu : u < cnt /\ open out u = 0) by (apply I3; apply in_or_app; right; now left). destruct Iu as [Lu Ou].
      assert (Nu : ~ In u out). { apply NoDup_remove_2 in I2. intros K. apply I2. apply in_or_app. auto. }
      subst r. cbn [kahn]. pose proof (Hiter (dag n calls cnt col u)) as Pm. fold dg in Pm |- *.
      assert (Nd : NoDup (iter (dg u))) by (eapply Permutation_NoDup; [exact Pm|]; apply NoDup_filter, seq_NoDup).
      assert (Id : forall v, In v (iter (dg u)) <-> v < cnt /\ In u (ds v)).
      { intros v. rewrite <- dg_In. split; intros H; [eapply Permutation_in; [apply Permutation_sym; exact Pm|exact H]|eapply Permutation_in; [exact Pm|exact H]]. }
      destruct (release_fold (iter (dg u)) Nd deg q) as (_ & R1 & R2). destruct (fold_left release (iter (dg u)) (deg, q)) as [deg' q2]. cbn [fst snd] in R1, R2. subst q2.
      apply IH; [|rewrite app_length; cbn; lia].
      assert (Pos : forall v, In u (ds v) -> 0 < open out v).
      { intros v Hv. destruct (open out v) eqn:E; [|lia]. apply open_zero in E. now destruct (Nu (E u Hv)). }
      assert (Dg : forall v, inn v (iter (dg u)) = true <-> v < cnt /\ In u (ds v)) by (intros v; rewrite inn_In; apply Id).
      split; [|split; [|split]].
      * intros c Hc. rewrite R1, open_snoc by exact Nu. rewrite (I1 c Hc). destruct (inn c (iter (dg u))) eqn:E1, (inn u (ds c)) eqn:E2; auto.
        -- apply Dg in E1 as [_ E1]. apply inn_In in E1. congruence.
        -- apply inn_In in E2. assert (K : inn c (iter (dg u)) = true) by (apply Dg; auto). congruence.
      * rewrite <- app_assoc. cbn [app]. rewrite app_comm_cons, app_assoc. apply SsaWf.NoDup_app_i.
        -- exact I2.
        -- now apply NoDup_filter.
        -- intros v Hv Kv. apply filter_In in Kv as [Kv _]. apply Id in Kv as [Kv1 Kv2]. apply I3 in Hv as [_ Hv]. specialize (Pos v Kv2). lia.
      * intros c. rewrite <- app_assoc. cbn [app]. rewrite app_comm_cons, app_assoc, in_app_iff, I3, filter_In, Id, open_snoc by exact Nu. rewrite Nat.eqb_eq.
        split.
        -- intros [[A B]|[[A B] C]]; (split; [exact A|]).
           ++ destruct (inn u (ds c)); lia.
           ++ rewrite (proj2 (inn_In u (ds c)) B). rewrite <- (I1 c A). exact C.
        -- intros [A B]. destruct (inn u (ds c)) eqn:E; [|left; auto]. apply inn_In in E. right. split; auto. rewrite (I1 c A). exact B.
      * intros l1 c l2 E. destruct l2 as [|x l2 _] using rev_ind.
        -- apply app_inj_tail in E as [<- <-]. apply open_zero. exact Ou.
        -- rewrite app_comm_cons, app_assoc in E. apply app_inj_tail in E as [E _]. exact (I4 _ _ _ E).
Qed.
End Kahn.

(** ** the properties *)
Section C61.
Variable n : nat.
Variable calls : nat -> list nat.
Variable iter : list nat -> list nat.
Hypothesis Hiter : forall l, Permutation l (iter l).
Hypothesis Hcalls : forall u v, u < n -> In v (calls u) -> v < n.
(** [callsInto u v]: u calls v, perhaps through others *)
Inductive callsInto : nat -> nat -> Prop :=
| ci_self u : callsInto u u
| ci_call u w v : u < n -> In w (calls u) -> callsInto w v -> callsInto u v.
Lemma graph_len : length (graphOf n calls) = n.
Proof. unfold graphOf. now rewrite map_length, seq_length. Qed.
Lemma graph_nth u : u < n -> nth u (graphOf n calls) [] = filter (fun v => negb (Nat.eqb u v)) (calls u).
Proof.
  intros H. apply nth_error_nth. unfold graphOf. apply map_nth_error with (f := fun u => filter (fun v => negb (Nat.eqb u v)) (calls u)).
  rewrite (nth_error_nth' _ 0) by (now rewrite seq_length). now rewrite seq_nth.
Qed.
Lemma graph_valid : valid_graph (graphOf n calls).
Proof.
  intros l Hl v Hv. rewrite graph_len. unfold graphOf in Hl. apply in_map_iff in Hl as (u & <- & Hu). apply in_seq in Hu. apply filter_In in Hv as [Hv _]. eapply Hcalls; [|exact Hv]. lia.
Qed.
Lemma reaches_calls u v : SccProps.reaches (graphOf n calls) u v -> callsInto u v.
Proof.
  intros H. apply clos_rt_rt1n_iff in H. induction H as [u|u w v E _ IH]; [constructor|].
  destruct (Nat.ltb_spec u n) as [L|L].
  - rewrite graph_nth in E by exact L. apply filter_In in E as [E _]. eapply ci_call; eauto.
  - rewrite nth_overflow in E by (now rewrite graph_len). destruct E.
Qed.
(** there is an answer; it has every function exactly once; a function comes after all the functions it calls, unless they call it as well *)
Theorem C61_callees_first : exists order, callGraphOrder n calls iter = Some order /\ Permutation order (seq 0 n) /\
  forall u v, u < n -> In v (calls u) -> callsInto v u \/ exists l1 l2 l3, order = l1 ++ v :: l2 ++ u :: l3.
Proof.
  destruct (C22_calcSCC_correct (graphOf n calls) graph_valid) as (cnt & cols & E & _ & S1 & S2 & S3 & _). rewrite graph_len in *.
  unfold callGraphOrder. rewrite E. eexists. split; [reflexivity|]. set (col := fun u => nth u cols 0).
  assert (Dest : forall c d, In d (dests n calls col c) <-> exists u v, u < n /\ col u = c /\ In v (calls u) /\ u <> v /\ col v = d /\ d <> c).
  { intros c d. unfold dests. rewrite nodup_In, in_flat_map. split.
    - intros (u & Hu & Hd). unfold scc in Hu. apply filter_In in Hu as [Hu Ec]. apply in_seq in Hu. apply Nat.eqb_eq in Ec. apply filter_In in Hd as [Hd Ne]. apply in_map_iff in Hd as (v & Ed & Hv).
      rewrite graph_nth in Hv by lia. apply filter_In in Hv as [Hv Nv]. apply negb_true_iff, Nat.eqb_neq in Ne, Nv. exists u, v. repeat split; auto; lia.
    - intros (u & v & Hu & Ec & Hv & Nv & Ed & Ne). exists u. split; [unfold scc; apply filter_In; split; [apply in_seq; lia|now apply Nat.eqb_eq]|].
      apply filter_In. split; [|now apply negb_true_iff, Nat.eqb_neq]. apply in_map_iff. exists v. split; auto. rewrite graph_nth by exact Hu. apply filter_In. split; auto.
      now apply negb_true_iff, Nat.eqb_neq. }
  assert (Less : forall c d, c < cnt -> In d (dests n calls col c) -> d < c).
  { intros c d _ Hd. apply Dest in Hd as (u & v & Hu & <- & Hv & Nv & <- & Ne). destruct (S2 u v Hu) as [K|K]; [|now symmetry in K|exact K].
    rewrite graph_nth by exact Hu. apply filter_In. split; auto. now apply negb_true_iff, Nat.eqb_neq. }
  set (deg := fun c => length (dests n calls col c)). set (q := filter (fun c => Nat.eqb (deg c) 0) (seq 0 cnt)).
  assert (Op : forall c, open n calls col [] c = deg c).
  { intros c. unfold open, deg. f_equal. generalize (dests n calls col c). induction l as [|a l IH]; cbn; [reflexivity|now f_equal]. }
  destruct (kahn_inv n calls iter Hiter cnt col Less cnt deg q []) as (K1 & K2 & K3).
  { split; [intros c _; now rewrite Op|]. split; [apply NoDup_filter, seq_NoDup|]. split.
    - intros c. cbn [app]. unfold q. rewrite filter_In, in_seq, Nat.eqb_eq, Op. intuition lia.
    - intros l1 c l2 K. destruct l1; discriminate. }
  { cbn. lia. }
  set (r := kahn n calls iter cnt col cnt deg q []) in *.
  change (fun u => nth u cols 0) with col. change (orderOf n calls iter cnt col) with (flat_map (scc n col) r). clearbody r.
  assert (Scc : forall c x, In x (scc n col c) <-> x < n /\ col x = c) by (intros c x; unfold scc; rewrite filter_In, in_seq, Nat.eqb_eq; intuition lia).
  split.
  - apply NoDup_Permutation; [|apply seq_NoDup|].
    + clear K2 K3. induction r as [|c l IH]; [constructor|]. inversion K1 as [|? ? N1 N2]; subst. cbn. apply NoDup_app_i; [apply NoDup_filter, seq_NoDup|now apply IH|].
      intros x Hx Kx. apply Scc in Hx as [_ Hx]. apply in_flat_map in Kx as (c' & Hc & Kx). apply Scc in Kx as [_ Kx]. congruence.
    + intros x. rewrite in_flat_map, in_seq. split; [intros (c & _ & Hx); apply Scc in Hx as [Hx _]; lia|]. intros [_ Hx]. exists (col x). split; [apply K2, S3; exact Hx|now apply Scc].
  - intros u v Hu Hv. assert (Lv : v < n) by eauto. destruct (Nat.eq_dec (col v) (col u)) as [Ec|Ec].
    + left. apply reaches_calls. now apply S1.
    + right. assert (Hd : In (col v) (dests n calls col (col u))).
      { apply Dest. exists u, v. repeat split; auto. }
      assert (Ru : In (col u) r) by (apply K2, S3; exact Hu). apply in_split in Ru as (l1 & l2 & Er). pose proof (K3 l1 (col u) l2 Er _ Hd) as Kd. apply in_split in Kd as (l3 & l4 & ->).
      assert (Iu : In u (scc n col (col u))) by (now apply Scc). assert (Iv : In v (scc n col (col v))) by (now apply Scc).
      apply in_split in Iu as (a1 & a2 & Ea). apply in_split in Iv as (b1 & b2 & Eb).
      exists (flat_map (scc n col) l3 ++ b1), (b2 ++ flat_map (scc n col) l4 ++ a1), (a2 ++ flat_map (scc n col) l2).
      rewrite Er, !flat_map_app. cbn [flat_map]. rewrite Ea, Eb. repeat (rewrite <- !app_assoc; cbn [app]). reflexivity.
Qed.
End C61.

(** ** examples: 0 main calls 1 and 3; 1 calls 2 and itself; 2 and 3 call 4; 3 and 5 call each other; 4 calls nothing *)
Definition coCalls (u : nat) : list nat := match u with 0 => [1; 3; 1] | 1 => [2; 1] | 2 => [4] | 3 => [5; 4] | 5 => [3] | _ => [] end.
Example co_order : callGraphOrder 6 coCalls (fun l => l) = Some [4; 2; 3; 5; 1; 0].
Proof. vm_compute. reflexivity. Qed.
Example co_order2 : callGraphOrder 6 coCalls (@rev nat) = Some [4; 3; 5; 2; 1; 0].
Proof. vm_compute. reflexivity. Qed.
Lemma co_calls : forall u v, u < 6 -> In v (coCalls u) -> v < 6.
Proof. intros u v Hu Hv. do 6 (destruct u as [|u]; [cbn in Hv; intuition lia|]). lia. Qed.
Example co_first : exists order, callGraphOrder 6 coCalls (@rev nat) = Some order /\ Permutation order (seq 0 6).
Proof. destruct (C61_callees_first 6 coCalls (@rev nat) (@Permutation_rev nat) co_calls) as (o & A & B & _). eauto. Qed.
