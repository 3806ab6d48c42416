(** C22: calcSCC computes the strongly connected components, in dependency order.
    [SccProofs.edge g u v] is "v is listed among the successors of u" and [reach] its
    reflexive-transitive closure. *)
From Coq Require Import List Arith Lia Bool Relations.
From Verif Require Import SccModel SccProofs.
Import ListNotations.

(** Every successor listed in the graph is a node of the graph (what every caller
    builds; an index outside the vector is undefined behaviour). *)
Definition valid_graph (g : graph) : Prop := forall l, In l g -> forall v, In v l -> v < length g.

Definition reaches (g : graph) : nat -> nat -> Prop :=
  clos_refl_trans nat (fun u v => In v (nth u g [])).

Lemma valid_wfg g : valid_graph g -> wfg g.
Proof.
  intros V u v E. unfold edge, succs in E. destruct (Nat.ltb_spec u (length g)) as [L|L].
  - eapply V; eauto. now apply nth_In.
  - rewrite nth_overflow in E by lia. destruct E.
Qed.

Lemma reaches_reach g u v : reaches g u v <-> reach g u v.
Proof. unfold reaches, reach. apply clos_rt_rt1n_iff. Qed.

(** The run finishes without undefined behaviour; the numbering has one entry per
    node; two nodes share a number iff they reach each other; an edge never goes to a
    larger number, and an edge between different components goes to a strictly smaller
    one; the numbers used are exactly 0 .. count-1. *)
Theorem C22_calcSCC_correct : forall g, valid_graph g ->
  exists cnt cols, calcSCC g = Some (cnt, cols) /\
  length cols = length g /\
  (forall u v, u < length g -> v < length g ->
     (nth u cols 0 = nth v cols 0 <-> reaches g u v /\ reaches g v u)) /\
  (forall u v, u < length g -> In v (nth u g []) ->
     nth u cols 0 = nth v cols 0 \/ nth v cols 0 < nth u cols 0) /\
  (forall u, u < length g -> nth u cols 0 < cnt) /\
  (forall c, c < cnt -> exists u, u < length g /\ nth u cols 0 = c).
Proof.
  intros g VG. pose proof (valid_wfg g VG) as W.
  destruct (outer_ok g W (seq 0 (length g)) init) as (s & E & V & _ & A).
  { apply inv_init. }
  { intros i Hi. apply in_seq in Hi. lia. }
  unfold calcSCC. rewrite E. do 2 eexists. split; [reflexivity|].
  assert (N : forall u, u < length g -> nth u (map (col s) (seq 0 (length g))) 0 = col s u).
  { intros u L. rewrite nth_indep with (d' := col s 0) by (rewrite map_length, seq_length; auto).
    rewrite map_nth, seq_nth by auto. reflexivity. }
  assert (F : forall u, u < length g -> fin s u).
  { intros u L. assert (Vu : visited s u) by (apply A, in_seq; lia). split; auto.
    destruct (flag s u) eqn:Fu; auto. assert (I : In u (stk s)) by (apply (iStk _ _ _ V); auto).
    destruct (iUp _ _ _ V u I) as (y & [] & _). }
  split; [now rewrite map_length, seq_length|]. split.
  { intros u v Lu Lv. rewrite !N by auto. rewrite (iCol _ _ _ V) by auto. rewrite !reaches_reach. tauto. }
  split.
  { intros u v Lu I. assert (Lv : v < length g) by (eapply W; exact I). rewrite !N by auto.
    pose proof (iOrd _ _ _ V u v (F u Lu) I). lia. }
  split.
  { intros u Lu. rewrite N by auto. apply (iCnt _ _ _ V); auto. }
  intros c Hc. destruct (iSurj _ _ _ V c Hc) as (x & Fx & Ex). exists x.
  assert (x < length g) by (apply (iDom _ _ _ V); apply Fx). split; auto. now rewrite N.
Qed.

(** Seven nodes, components {0,1,2}, {3,4}, {5}, {6} with a self loop on 6. *)
Example C22_example :
  let g := [[1]; [2; 3]; [0; 5]; [4]; [3; 5]; []; [6; 0]] in
  valid_graph g /\ calcSCC g = Some (4, [2; 2; 2; 1; 1; 0; 3]).
Proof.
  split; [|reflexivity]. intros l Hl v Hv. cbn in Hl.
  repeat (destruct Hl as [<-|Hl]; [cbn in Hv |- *; intuition lia|]). destruct Hl.
Qed.
