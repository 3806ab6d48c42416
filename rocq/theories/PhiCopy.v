(** Phi lowering: the parallel copy emitted at the end of every control-flow edge.

    Models cmmc/CodeGen/Lowering.cpp:762-863 (emitBranch).

    Not modelled: creation of the MIR blocks and the final jump (:861-862), operand types (MIROperand equality ignores
    them, MIR.hpp:156-161), the loads that mapOperand may emit for global addresses and floating constants (they are
    emitted before every copy, :768-771, and only write fresh registers). *)
From Coq Require Import ZArith List Lia Bool Arith Permutation Relations.
From Verif Require Import SccModel SccProps.
Import ListNotations.

(** MIR.hpp:147-160 MIROperand: a virtual register, or anything whose value the copies cannot change (immediate, address) *)
Inductive operand := Reg (r : nat) | Const (v : Z).
Definition op_eqb (a b : operand) : bool :=
  match a, b with Reg x, Reg y => Nat.eqb x y | Const x, Const y => Z.eqb x y | _, _ => false end.

(** Lowering.cpp:784-786 nodeMap: emplace keeps the first index of an operand *)
Fixpoint index_of (dst : list nat) (o : operand) (i : nat) : option nat :=
  match dst with
  | [] => None
  | d :: ds => if op_eqb (Reg d) o then Some i else index_of ds o (S i)
  end.
(** :788-795 the direct copy graph *)
Definition copyGraph (dst : list nat) (src : list operand) : graph :=
  map (fun o => match index_of dst o 0 with Some j => [j] | None => [] end) src.

(** :798-810 the quotient graph: dag[cu] is a set, in[cv] counts the components with an edge to cv *)
Fixpoint addEdges (col : list nat) (cu : nat) (vs : list nat) (s : (nat -> list nat) * (nat -> nat)) :=
  match vs with
  | [] => s
  | v :: vs' =>
      let cv := nth v col 0 in
      let '(dag, deg) := s in
      addEdges col cu vs'
        (if negb (Nat.eqb cu cv) && negb (existsb (Nat.eqb cv) (dag cu))
         then (upd dag cu (cv :: dag cu), upd deg cv (S (deg cv))) else s)
  end.
Fixpoint buildDag (g : graph) (col : list nat) (us : list nat) (s : (nat -> list nat) * (nat -> nat)) :=
  match us with
  | [] => s
  | u :: us' => buildDag g col us' (addEdges col (nth u col 0) (nth u g []) s)
  end.
(** :799,804 groups *)
Definition group (n : nat) (col : list nat) (c : nat) : list nat :=
  filter (fun u => Nat.eqb (nth u col 0) c) (seq 0 n).

(** :827-831 the successors of the dequeued component, in the unspecified iteration order of unordered_set *)
Fixpoint relax (vs : list nat) (deg : nat -> nat) (q : list nat) : (nat -> nat) * list nat :=
  match vs with
  | [] => (deg, q)
  | v :: vs' => let d := deg v - 1 in
                relax vs' (upd deg v d) (if Nat.eqb d 0 then q ++ [v] else q)
  end.
(** :812-833 the queue loop; [it u s] is the order in which the set dag[u] is iterated *)
Fixpoint kahn (fuel : nat) (n : nat) (col : list nat) (dag : nat -> list nat) (it : nat -> list nat -> list nat)
         (deg : nat -> nat) (q order : list nat) : option (list nat) :=
  match q with
  | [] => Some order
  | u :: q' =>
      match fuel with
      | O => None
      | S f => let '(deg', q'') := relax (it u (dag u)) deg q' in
               kahn f n col dag it deg' q'' (order ++ group n col u)
      end
  end.

(** :837-859 one copy; state: dirtyRegRemapping, next virtual register, copies emitted so far *)
Definition lookup (m : list (nat * nat)) (o : operand) : operand :=
  match o with
  | Reg r => match find (fun p => Nat.eqb (fst p) r) m with Some p => Reg (snd p) | None => o end
  | Const _ => o
  end.
Definition needStaging (src : list operand) (d : nat) : bool := existsb (op_eqb (Reg d)) src.
Record est := mkE { remap : list (nat * nat); nxt : nat; out : list (nat * operand) }.
Definition emitOne (dst : list nat) (src : list operand) (idx : nat) (s : est) : option est :=
  match nth_error dst idx, nth_error src idx with
  | Some d, Some o =>
      let arg := lookup (remap s) o in
      if op_eqb arg (Reg d) then Some s
      else if needStaging src d
           then Some (mkE ((d, nxt s) :: remap s) (S (nxt s)) (out s ++ [(nxt s, Reg d); (d, arg)]))
           else Some (mkE (remap s) (nxt s) (out s ++ [(d, arg)]))
  | _, _ => None
  end.
Fixpoint emitAll (dst : list nat) (src : list operand) (order : list nat) (s : est) : option est :=
  match order with
  | [] => Some s
  | i :: os => match emitOne dst src i s with Some s' => emitAll dst src os s' | None => None end
  end.

(** :775-860 the whole sequence. [None]: a table is read out of bounds or the queue loop does not terminate. *)
Definition phiCopies (dst : list nat) (src : list operand) (next : nat) (it : nat -> list nat -> list nat)
  : option (list (nat * operand)) :=
  if match src with [] => true | _ => false end then Some [] else
  let n := length dst in
  let g := copyGraph dst src in
  match calcSCC g with
  | None => None
  | Some (ccnt, col) =>
      let '(dag, deg) := buildDag g col (seq 0 n) (fun _ => [], fun _ => 0) in
      let q := filter (fun u => Nat.eqb (deg u) 0) (seq 0 ccnt) in
      match kahn ccnt n col dag it deg q [] with
      | None => None
      | Some order =>
          if Nat.eqb (length order) n
          then match emitAll dst src order (mkE [] next []) with Some s => Some (out s) | None => None end
          else None
      end
  end.

(** ** Specification *)
Definition regs := nat -> Z.
Definition valueOf (rho : regs) (o : operand) : Z := match o with Reg r => rho r | Const v => v end.
(** the emitted copies are executed one after the other *)
Fixpoint execCopies (l : list (nat * operand)) (rho : regs) : regs :=
  match l with
  | [] => rho
  | (d, o) :: l' => execCopies l' (upd rho d (valueOf rho o))
  end.

(** ** Proofs *)
Lemma upd_same {A} (f : nat -> A) k x : upd f k x k = x.
Proof. unfold upd. now rewrite Nat.eqb_refl. Qed.
Lemma upd_other {A} (f : nat -> A) k x j : j <> k -> upd f k x j = f j.
Proof. unfold upd. destruct (Nat.eqb_spec j k); congruence. Qed.
Lemma op_eqb_ok a b : op_eqb a b = true <-> a = b.
Proof.
  destruct a, b; cbn; rewrite ?Nat.eqb_eq, ?Z.eqb_eq; split; intros H; try congruence; injection H; auto.
Qed.
Lemma execCopies_app a b rho : execCopies (a ++ b) rho = execCopies b (execCopies a rho).
Proof. revert rho. induction a as [|(d, o) a IH]; intros rho; cbn; auto. Qed.

Lemma index_of_in dst o i j : index_of dst o i = Some j -> i <= j < i + length dst.
Proof.
  revert i. induction dst as [|d ds IH]; intros i; cbn [index_of]; [discriminate|].
  destruct (op_eqb (Reg d) o).
  - intros H. injection H as <-. cbn [length]. lia.
  - intros H. apply IH in H. cbn [length]. lia.
Qed.
Lemma copyGraph_valid dst src : length dst = length src -> valid_graph (copyGraph dst src).
Proof.
  intros L l I v V. unfold copyGraph in *. rewrite map_length. apply in_map_iff in I.
  destruct I as (o & <- & _). destruct (index_of dst o 0) as [j|] eqn:E; [|destruct V].
  destruct V as [<-|[]]. apply index_of_in in E. lia.
Qed.

Lemma NoDup_app_intro {A} (a b : list A) : NoDup a -> NoDup b -> (forall x, In x a -> In x b -> False) -> NoDup (a ++ b).
Proof.
  induction a as [|x a IH]; intros Na Nb D; cbn; auto. inversion Na; subst. constructor.
  - rewrite in_app_iff. intros [I|I]; [contradiction|]. apply (D x); auto. now left.
  - apply IH; auto. intros y Y Z. apply (D y); auto. now right.
Qed.

Definition inb (l : list nat) (v : nat) : bool := existsb (Nat.eqb v) l.
Lemma inb_in l v : inb l v = true <-> In v l.
Proof.
  unfold inb. rewrite existsb_exists. split.
  - intros (x & I & E). apply Nat.eqb_eq in E. now subst.
  - intros I. exists v. split; auto. apply Nat.eqb_refl.
Qed.
(** how many components of [L] have an edge to [v] *)
Definition preds (dag : nat -> list nat) (L : list nat) (v : nat) : nat :=
  length (filter (fun c => inb (dag c) v) L).

Lemma preds_ext dag dag' L v : (forall c, In c L -> inb (dag c) v = inb (dag' c) v) -> preds dag L v = preds dag' L v.
Proof.
  intros H. unfold preds. f_equal. induction L as [|a L IH]; cbn; auto.
  rewrite (H a) by now left. rewrite IH by (intros; apply H; now right). reflexivity.
Qed.
Lemma preds_split dag L v u : NoDup L -> In u L ->
  preds dag L v = (if inb (dag u) v then 1 else 0) + preds dag (filter (fun c => negb (Nat.eqb c u)) L) v.
Proof.
  unfold preds. induction L as [|a L IH]; intros N I; [destruct I|].
  inversion N as [|? ? Na N']; subst. cbn [filter].
  destruct (Nat.eqb_spec a u) as [->|D].
  - cbn [negb]. assert (F : filter (fun c => negb (Nat.eqb c u)) L = L).
    { clear -Na. induction L as [|b L IH]; cbn; auto. destruct (Nat.eqb_spec b u) as [->|]; [exfalso; apply Na; now left|].
      cbn. rewrite IH; auto. intros I. apply Na. now right. }
    rewrite F. destruct (inb (dag u) v); cbn [length]; lia.
  - cbn [negb filter]. destruct I as [->|I]; [congruence|]. specialize (IH N' I).
    destruct (inb (dag a) v); cbn [length]; rewrite IH; lia.
Qed.

Lemma relax_ok l : forall deg q, NoDup l ->
  let '(deg', q') := relax l deg q in
  (forall v, deg' v = if inb l v then deg v - 1 else deg v) /\
  q' = q ++ filter (fun v => Nat.eqb (deg v - 1) 0) l.
Proof.
  induction l as [|a l IH]; intros deg q N; cbn [relax].
  - split; [reflexivity|]. cbn. now rewrite app_nil_r.
  - inversion N as [|? ? Na N']; subst. cbv zeta.
    specialize (IH (upd deg a (deg a - 1)) (if deg a - 1 =? 0 then q ++ [a] else q) N').
    destruct (relax l _ _) as (deg', q'). destruct IH as (H1 & H2). split.
    + intros v. rewrite H1. unfold inb. cbn [existsb].
      destruct (Nat.eqb_spec v a) as [->|D]; cbn [orb].
      * rewrite upd_same. destruct (existsb (Nat.eqb a) l) eqn:E; [|reflexivity].
        exfalso. apply Na. now apply inb_in.
      * rewrite upd_other by auto. reflexivity.
    + subst q'. cbn [filter]. assert (F : filter (fun v => Nat.eqb (upd deg a (deg a - 1) v - 1) 0) l
        = filter (fun v => Nat.eqb (deg v - 1) 0) l).
      { apply filter_ext_in. intros v V. rewrite upd_other; auto. intros ->. contradiction. }
      rewrite F. destruct (deg a - 1 =? 0); [rewrite <- app_assoc|]; reflexivity.
Qed.

Section Order.
Variables (n ccnt : nat) (g : graph) (col : list nat).
Hypothesis Cord : forall u v, u < n -> In v (nth u g []) -> nth u col 0 = nth v col 0 \/ nth v col 0 < nth u col 0.
Hypothesis Clt : forall u, u < n -> nth u col 0 < ccnt.
Variable it : nat -> list nat -> list nat.
Hypothesis Hit : forall c l, Permutation (it c l) l.

Record DagOk (dag : nat -> list nat) (deg : nat -> nat) : Prop := {
  dNd : forall c, NoDup (dag c);
  dLt : forall c v, In v (dag c) -> v < c /\ c < ccnt;
  dDeg : forall v, deg v = preds dag (seq 0 ccnt) v }.

Lemma addEdges_ok cu vs : forall dag deg, cu < ccnt -> (forall v, In v vs -> nth v col 0 = cu \/ nth v col 0 < cu) ->
  DagOk dag deg -> let '(dag', deg') := addEdges col cu vs (dag, deg) in DagOk dag' deg'.
Proof.
  induction vs as [|v vs IH]; intros dag deg C O D; cbn [addEdges]; auto.
  cbv zeta. destruct (negb (cu =? nth v col 0) && negb (existsb (Nat.eqb (nth v col 0)) (dag cu))) eqn:E.
  2: { apply IH; auto. intros w W. apply O. now right. }
  apply andb_true_iff in E. destruct E as (E1 & E2). apply negb_true_iff in E1, E2. apply Nat.eqb_neq in E1.
  apply IH; auto. { intros w W. apply O. now right. }
  destruct (O v (or_introl eq_refl)) as [O'|O']; [congruence|].
  assert (NI : ~ In (nth v col 0) (dag cu)).
  { intros I. apply inb_in in I. unfold inb in I. congruence. }
  constructor.
  - intros c. destruct (Nat.eq_dec c cu) as [->|N]; [rewrite upd_same|rewrite upd_other by auto; apply D].
    constructor; auto. apply D.
  - intros c w. destruct (Nat.eq_dec c cu) as [->|N]; [rewrite upd_same|rewrite upd_other by auto; apply D].
    intros [<-|I]; [lia|]. eapply D; eauto.
  - intros w. assert (NS : NoDup (seq 0 ccnt)) by apply seq_NoDup. assert (IS : In cu (seq 0 ccnt)) by (apply in_seq; lia).
    rewrite (preds_split _ _ w cu NS IS). rewrite upd_same.
    rewrite (preds_ext _ dag (filter _ _)).
    2: { intros c Hc. apply filter_In in Hc. destruct Hc as (_ & Hc). rewrite upd_other; auto.
         intros ->. rewrite Nat.eqb_refl in Hc. discriminate. }
    destruct (Nat.eq_dec w (nth v col 0)) as [->|N].
    + rewrite upd_same. rewrite (dDeg _ _ D). rewrite (preds_split dag _ _ cu NS IS).
      assert (F : inb (dag cu) (nth v col 0) = false) by exact E2. rewrite F.
      unfold inb. cbn [existsb]. rewrite Nat.eqb_refl. cbn. lia.
    + rewrite upd_other by auto. rewrite (dDeg _ _ D). rewrite (preds_split dag _ _ cu NS IS).
      unfold inb. cbn [existsb]. destruct (Nat.eqb_spec w (nth v col 0)); [congruence|]. reflexivity.
Qed.
Lemma buildDag_ok us : forall dag deg, (forall u, In u us -> u < n) -> DagOk dag deg ->
  let '(dag', deg') := buildDag g col us (dag, deg) in DagOk dag' deg'.
Proof.
  induction us as [|u us IH]; intros dag deg B D; cbn [buildDag]; auto.
  pose proof (addEdges_ok (nth u col 0) (nth u g []) dag deg) as A.
  destruct (addEdges col (nth u col 0) (nth u g []) (dag, deg)) as (dag', deg').
  apply IH; [intros; apply B; now right|]. apply A; auto.
  - apply Clt, B. now left.
  - intros v V. destruct (Cord u v) as [E|E]; auto. apply B. now left.
Qed.
Lemma dag0 : DagOk (fun _ => []) (fun _ => 0).
Proof.
  constructor; [intros; constructor|intros c v []|]. intros v. unfold preds. cbn.
  induction (seq 0 ccnt); auto.
Qed.

Variables (dag : nat -> list nat).
Hypothesis DN : forall c, NoDup (dag c).
Hypothesis DL : forall c v, In v (dag c) -> v < c /\ c < ccnt.

Definition unproc (P : list nat) : list nat := filter (fun c => negb (inb P c)) (seq 0 ccnt).
Record KInv (P q : list nat) (deg : nat -> nat) : Prop := {
  kNd : NoDup (P ++ q);
  kLt : forall c, In c (P ++ q) -> c < ccnt;
  kDeg : forall v, deg v = preds dag (unproc P) v;
  kZero : forall v, v < ccnt -> (In v (P ++ q) <-> deg v = 0) }.

Lemma unproc_in P c : In c (unproc P) <-> c < ccnt /\ ~ In c P.
Proof.
  unfold unproc. rewrite filter_In, in_seq, negb_true_iff. split; intros (A & B); (split; [lia|]).
  - intros I. apply inb_in in I. congruence.
  - destruct (inb P c) eqn:E; auto. apply inb_in in E. contradiction.
Qed.
Lemma unproc_step P u : filter (fun c => negb (Nat.eqb c u)) (unproc P) = unproc (P ++ [u]).
Proof.
  unfold unproc. induction (seq 0 ccnt) as [|a l IH]; cbn [filter]; auto.
  assert (E : inb (P ++ [u]) a = inb P a || (a =? u)).
  { unfold inb. rewrite existsb_app. cbn [existsb]. now rewrite orb_false_r. }
  rewrite E. destruct (inb P a); cbn [negb orb filter]; auto.
  destruct (a =? u); cbn [negb filter]; rewrite IH; auto.
Qed.
Lemma NoDup_bound (l : list nat) k : NoDup l -> (forall c, In c l -> c < k) -> length l <= k.
Proof.
  intros N B. rewrite <- (seq_length k 0). apply NoDup_incl_length; auto. intros c I. apply in_seq. specialize (B c I). lia.
Qed.
Lemma kahn_ok : forall f P q deg, KInv P q deg -> ccnt <= f + length P ->
  exists P', kahn f n col dag it deg q (flat_map (group n col) P) = Some (flat_map (group n col) P') /\
             NoDup P' /\ (forall c, In c P' <-> c < ccnt).
Proof.
  induction f as [|f IH]; intros P q deg K F; destruct q as [|u q'].
  1,3: exists P; cbn [kahn]; split; [reflexivity|];
       pose proof (kNd _ _ _ K) as N; rewrite app_nil_r in N; split; [exact N|]; intros c; split;
       [intros I; apply (kLt _ _ _ K); rewrite app_nil_r; exact I|]; intros C;
       (assert (A : forall k d, d < ccnt -> ccnt - d <= k -> In d P);
        [|apply (A (ccnt - c) c); auto]);
       induction k as [|k IHk]; intros d Hd Hk; [lia|];
       (assert (Z : In d (P ++ [])); [apply (kZero _ _ _ K); auto; rewrite (kDeg _ _ _ K); unfold preds;
        rewrite (proj2 (length_zero_iff_nil _)); auto;
        destruct (filter _ _) as [|x l] eqn:E; auto; exfalso;
        assert (X : In x (x :: l)) by (now left); rewrite <- E in X; apply filter_In in X; destruct X as (X1 & X2);
        apply unproc_in in X1; apply inb_in in X2; apply DL in X2; apply (proj2 X1); apply IHk; lia
        | now rewrite app_nil_r in Z]).
  - exfalso. pose proof (NoDup_bound _ ccnt (kNd _ _ _ K) (kLt _ _ _ K)) as B. rewrite app_length in B. cbn in B. lia.
  - cbn [kahn].
    assert (NL : NoDup (it u (dag u))) by (eapply Permutation_NoDup; [symmetry; apply Hit|apply DN]).
    pose proof (relax_ok (it u (dag u)) deg q' NL) as R. destruct (relax _ deg q') as (deg', q''). destruct R as (R1 & R2).
    assert (MI : forall v, In v (it u (dag u)) <-> In v (dag u)).
    { intros v. split; intros I; (eapply Permutation_in; [|exact I]); [|symmetry]; apply Hit. }
    assert (Bu : u < ccnt) by (apply (kLt _ _ _ K), in_or_app; right; now left).
    assert (NP : ~ In u P).
    { intros I. pose proof (kNd _ _ _ K) as N. apply NoDup_remove_2 in N. apply N, in_or_app. now left. }
    assert (NS : NoDup (unproc P)) by (apply NoDup_filter, seq_NoDup).
    assert (IU : In u (unproc P)) by (apply unproc_in; auto).
    assert (PS : forall v, preds dag (unproc P) v = (if inb (dag u) v then 1 else 0) + preds dag (unproc (P ++ [u])) v).
    { intros v. rewrite (preds_split dag _ v u NS IU), unproc_step. reflexivity. }
    assert (EB : forall v, inb (it u (dag u)) v = inb (dag u) v).
    { intros v. destruct (inb (it u (dag u)) v) eqn:E1, (inb (dag u) v) eqn:E2; auto.
      - apply inb_in, MI, inb_in in E1. congruence.
      - apply inb_in, MI, inb_in in E2. congruence. }
    assert (K' : KInv (P ++ [u]) q'' deg').
    { assert (NEW : forall v, In v (filter (fun v => Nat.eqb (deg v - 1) 0) (it u (dag u))) ->
                    In v (dag u) /\ v < ccnt /\ ~ In v (P ++ u :: q') /\ deg v = 1).
      { intros v V. apply filter_In in V. destruct V as (V1 & V2). apply MI in V1. apply Nat.eqb_eq in V2.
        pose proof (DL _ _ V1) as (L1 & L2). assert (Lv : v < ccnt) by lia.
        assert (deg v <> 0). { rewrite (kDeg _ _ _ K), PS. apply inb_in in V1. rewrite V1. lia. }
        split; auto. split; auto. split; [|lia]. intros I. apply (kZero _ _ _ K) in I; auto. }
      constructor.
      - subst q''. rewrite <- app_assoc. cbn [app].
        assert (N := kNd _ _ _ K).
        replace (P ++ u :: q' ++ filter (fun v => Nat.eqb (deg v - 1) 0) (it u (dag u)))
          with ((P ++ u :: q') ++ filter (fun v => Nat.eqb (deg v - 1) 0) (it u (dag u))) by (rewrite <- app_assoc; reflexivity).
        apply NoDup_app_intro; auto; [now apply NoDup_filter|]. intros x X Y. apply NEW in Y. tauto.
      - intros c I. subst q''. rewrite !in_app_iff in I. destruct I as [[I|I]|[I|I]].
        + apply (kLt _ _ _ K), in_or_app. now left.
        + destruct I as [<-|[]]. exact Bu.
        + apply (kLt _ _ _ K), in_or_app. right. now right.
        + apply NEW in I. tauto.
      - intros v. rewrite R1, EB, (kDeg _ _ _ K), PS. destruct (inb (dag u) v); lia.
      - intros v Lv. rewrite R1, EB. subst q''. rewrite !in_app_iff. cbn [In]. split.
        + intros H. assert (H' : In v (P ++ u :: q') \/ In v (filter (fun v => Nat.eqb (deg v - 1) 0) (it u (dag u)))).
          { rewrite in_app_iff. cbn [In]. tauto. }
          destruct H' as [H'|H'].
          * apply (kZero _ _ _ K) in H'; auto. destruct (inb _ v); lia.
          * apply NEW in H'. destruct H' as (A & _ & _ & B). apply inb_in in A. rewrite A. lia.
        + destruct (inb (dag u) v) eqn:E; intros Z.
          * right. right. apply filter_In. split; [apply MI, inb_in, E|]. now apply Nat.eqb_eq.
          * assert (I : In v (P ++ u :: q')) by (apply (kZero _ _ _ K); auto).
            rewrite in_app_iff in I. cbn [In] in I. tauto. }
    specialize (IH (P ++ [u]) q'' deg' K').
    rewrite flat_map_app in IH. cbn [flat_map] in IH. rewrite app_nil_r in IH. apply IH.
    rewrite app_length. cbn. lia.
Qed.
End Order.

Lemma group_in n col c i : In i (group n col c) <-> i < n /\ nth i col 0 = c.
Proof. unfold group. rewrite filter_In, in_seq, Nat.eqb_eq. intuition lia. Qed.
Lemma flat_group n ccnt col P : NoDup P -> (forall c, In c P <-> c < ccnt) -> (forall u, u < n -> nth u col 0 < ccnt) ->
  Permutation (flat_map (group n col) P) (seq 0 n).
Proof.
  intros N I C. apply NoDup_Permutation; [|apply seq_NoDup|].
  - clear I. induction P as [|a P IH]; cbn; [constructor|]. inversion N; subst.
    apply NoDup_app_intro; [apply NoDup_filter, seq_NoDup|auto|].
    intros x X Y. apply in_flat_map in Y. destruct Y as (c & Y1 & Y2). apply group_in in X, Y2.
    destruct X as (_ & <-). destruct Y2 as (_ & <-). contradiction.
  - intros i. rewrite in_flat_map, in_seq. split.
    + intros (c & _ & G). apply group_in in G. lia.
    + intros L. exists (nth i col 0). split; [apply I, C; lia|]. apply group_in. lia.
Qed.

Section Emit.
Variables (dst : list nat) (src : list operand) (next : nat).
Hypothesis Len : length dst = length src.
Hypothesis ND : NoDup dst.
Hypothesis Bd : forall d, In d dst -> d < next.
Hypothesis Bs : forall r, In (Reg r) src -> r < next.
Variable rho0 : regs.

Record EInv (S : list nat) (s : est) : Prop := {
  eNx : next <= nxt s;
  eDone : forall i d o, In i S -> nth_error dst i = Some d -> nth_error src i = Some o ->
            execCopies (out s) rho0 d = valueOf rho0 o;
  eTodo : forall i d, ~ In i S -> nth_error dst i = Some d ->
            execCopies (out s) rho0 d = rho0 d /\ ~ In d (map fst (remap s));
  eOther : forall r, r < next -> ~ In r dst -> execCopies (out s) rho0 r = rho0 r;
  eMap : forall d t, In (d, t) (remap s) -> next <= t < nxt s;
  eSrc : forall o, In o src -> valueOf (execCopies (out s) rho0) (lookup (remap s) o) = valueOf rho0 o }.

Lemma lookup_spec m o : lookup m o = o \/ exists d t, o = Reg d /\ lookup m o = Reg t /\ In (d, t) m.
Proof.
  destruct o as [r|v]; cbn; auto. destruct (find _ m) as [(d, t)|] eqn:E; auto.
  right. apply find_some in E. cbn in E. destruct E as (I & E). apply Nat.eqb_eq in E. subst. eauto.
Qed.
Lemma lookup_reg S s o r : EInv S s -> In o src -> lookup (remap s) o = Reg r ->
  (o = Reg r /\ r < next) \/ next <= r < nxt s.
Proof.
  intros K I E. destruct (lookup_spec (remap s) o) as [H|(d & t & -> & H & M)].
  - left. rewrite H in E. subst o. split; auto.
  - right. rewrite H in E. injection E as <-. eapply eMap; eauto.
Qed.
Lemma nth_unique i j d : nth_error dst i = Some d -> nth_error dst j = Some d -> i = j.
Proof.
  intros A B. rewrite NoDup_nth_error in ND. apply ND; [apply nth_error_Some|]; congruence.
Qed.

Lemma emitOne_ok S s i : EInv S s -> ~ In i S -> i < length dst ->
  exists s', emitOne dst src i s = Some s' /\ EInv (i :: S) s'.
Proof.
  intros K NI L. unfold emitOne.
  destruct (nth_error dst i) as [d|] eqn:Ed; [|apply nth_error_None in Ed; lia].
  destruct (nth_error src i) as [o|] eqn:Eo; [|apply nth_error_None in Eo; lia].
  assert (Id : In d dst) by (eapply nth_error_In; eauto). assert (Io : In o src) by (eapply nth_error_In; eauto).
  pose proof (Bd d Id) as Ld. pose proof (eNx _ _ K) as NX. cbv zeta.
  set (arg := lookup (remap s) o).
  destruct (op_eqb arg (Reg d)) eqn:Q.
  { exists s. split; auto. apply op_eqb_ok in Q. destruct K as [k1 k2 k3 k4 k5 k6]. constructor; auto.
    - intros j e p [<-|J] E1 E2; [|eauto]. assert (e = d) by congruence. assert (p = o) by congruence. subst.
      rewrite <- (k6 o Io). fold arg. rewrite Q. reflexivity.
    - intros j e J E. apply k3 with (i := j); auto. intros I. apply J. now right. }
  assert (ARG : arg <> Reg d). { intros E. apply op_eqb_ok in E. congruence. }
  pose proof (eTodo _ _ K i d NI Ed) as (OLD & NR).
  destruct (needStaging src d) eqn:Z.
  - set (t := nxt s) in *. eexists. split; [reflexivity|].
    set (rho := execCopies (out s) rho0) in *.
    assert (EX : execCopies (out s ++ [(t, Reg d); (d, arg)]) rho0 = upd (upd rho t (rho d)) d (valueOf rho arg)).
    { rewrite execCopies_app. cbn [execCopies]. fold rho. cbn [valueOf]. f_equal.
      destruct arg as [r|v] eqn:EA; cbn [valueOf]; auto.
      rewrite upd_other; auto. intros ->. destruct (lookup_reg S s o t K Io EA) as [(_ & X)|X]; unfold t in *; lia. }
    constructor; cbn [out nxt remap]; rewrite ?EX.
    + lia.
    + intros j e p J E1 E2. destruct (Nat.eq_dec j i) as [->|N].
      * assert (e = d) by congruence. assert (p = o) by congruence. subst. rewrite upd_same. apply (eSrc _ _ K o Io).
      * destruct J as [->|J]; [congruence|]. assert (e <> d) by (intros ->; apply N; eapply nth_unique; eauto).
        rewrite upd_other by auto. pose proof (Bd e (nth_error_In _ _ E1)). rewrite upd_other by (first [lia | unfold t in *; lia]).
        eapply (eDone _ _ K); eauto.
    + intros j e J E. assert (N : j <> i) by (intros ->; apply J; now left).
      assert (e <> d) by (intros ->; apply N; eapply nth_unique; eauto).
      pose proof (Bd e (nth_error_In _ _ E)). rewrite upd_other by auto. rewrite upd_other by (first [lia | unfold t in *; lia]).
      destruct (eTodo _ _ K j e) as (A & B); auto. { intros I. apply J. now right. }
      split; auto. cbn. intros [X|X]; [congruence|contradiction].
    + intros r R NIr. rewrite upd_other by congruence. rewrite upd_other by (first [lia | unfold t in *; lia]). apply (eOther _ _ K); auto.
    + intros e u [X|X]; [injection X as <- <-; lia|]. apply (eMap _ _ K) in X. lia.
    + intros p Ip. destruct p as [r|v]; [|cbn; reflexivity]. unfold lookup. cbn [find fst snd].
      destruct (Nat.eqb_spec d r) as [<-|N].
      * cbn [valueOf snd]. rewrite upd_other by (first [lia | unfold t in *; lia]). rewrite upd_same. exact OLD.
      * pose proof (eSrc _ _ K (Reg r) Ip) as H. unfold lookup in H.
        destruct (find _ (remap s)) as [(d', t')|] eqn:F; cbn [valueOf snd] in *.
        -- apply find_some in F. destruct F as (F & _). apply (eMap _ _ K) in F.
           rewrite upd_other by lia. rewrite upd_other by (first [lia | unfold t in *; lia]). exact H.
        -- rewrite upd_other by congruence. pose proof (Bs r Ip). rewrite upd_other by (first [lia | unfold t in *; lia]). exact H.
  - eexists. split; [reflexivity|]. set (rho := execCopies (out s) rho0) in *.
    assert (EX : execCopies (out s ++ [(d, arg)]) rho0 = upd rho d (valueOf rho arg)).
    { rewrite execCopies_app. reflexivity. }
    assert (ND' : forall p, In p src -> p <> Reg d).
    { intros p Ip ->. assert (X : needStaging src d = true) by (apply existsb_exists; exists (Reg d); split; auto; now apply op_eqb_ok).
      congruence. }
    constructor; cbn [out nxt remap]; rewrite ?EX.
    + lia.
    + intros j e p J E1 E2. destruct (Nat.eq_dec j i) as [->|N].
      * assert (e = d) by congruence. assert (p = o) by congruence. subst. rewrite upd_same. apply (eSrc _ _ K o Io).
      * destruct J as [->|J]; [congruence|]. assert (e <> d) by (intros ->; apply N; eapply nth_unique; eauto).
        rewrite upd_other by auto. eapply (eDone _ _ K); eauto.
    + intros j e J E. assert (N : j <> i) by (intros ->; apply J; now left).
      assert (e <> d) by (intros ->; apply N; eapply nth_unique; eauto).
      rewrite upd_other by auto. apply (eTodo _ _ K j e); auto. intros I. apply J. now right.
    + intros r R NIr. rewrite upd_other by congruence. apply (eOther _ _ K); auto.
    + intros e u X. apply (eMap _ _ K) in X. lia.
    + intros p Ip. pose proof (eSrc _ _ K p Ip) as H.
      destruct (lookup (remap s) p) as [r|v] eqn:F; cbn [valueOf] in *; auto.
      rewrite upd_other; auto. intros ->. destruct (lookup_reg S s p d K Ip F) as [(-> & _)|X]; [|lia].
      apply (ND' _ Ip eq_refl).
Qed.
Lemma emitAll_ok os : forall S s, EInv S s -> NoDup os -> (forall i, In i os -> ~ In i S /\ i < length dst) ->
  exists s', emitAll dst src os s = Some s' /\ EInv (rev os ++ S) s'.
Proof.
  induction os as [|i os IH]; intros S s K N B; cbn [emitAll rev app]; [eauto|].
  destruct (B i (or_introl eq_refl)) as (B1 & B2).
  destruct (emitOne_ok S s i K B1 B2) as (s1 & -> & K1). inversion N as [|? ? N1 N2]; subst.
  destruct (IH (i :: S) s1 K1 N2) as (s2 & E & K2).
  { intros j J. destruct (B j (or_intror J)) as (X & Y). split; auto. intros [<-|Z]; contradiction. }
  exists s2. split; auto. rewrite <- app_assoc. exact K2.
Qed.
End Emit.

(** ** The copies on an edge perform a parallel assignment

    For every set of phi registers [dst] (distinct), every incoming operands [src] and every iteration order of the hash
    sets, code is produced, and running it leaves every phi register with the value its incoming operand had before the
    edge, and every other register that existed before untouched. *)
Theorem C27_phi_copies_are_a_parallel_assignment : forall dst src next it,
  length dst = length src -> NoDup dst ->
  (forall d, In d dst -> d < next) -> (forall r, In (Reg r) src -> r < next) ->
  (forall c l, Permutation (it c l) l) ->
  exists copies, phiCopies dst src next it = Some copies /\
  forall rho,
    (forall i d o, nth_error dst i = Some d -> nth_error src i = Some o ->
       execCopies copies rho d = valueOf rho o) /\
    (forall r, r < next -> ~ In r dst -> execCopies copies rho r = rho r).
Proof.
  intros dst src next it Len ND Bd Bs Hit. unfold phiCopies.
  destruct src as [|o0 src0] eqn:ES.
  { exists []. split; auto. intros rho. split; [|auto]. intros i d o E. cbn in Len. destruct dst; [|discriminate].
    destruct i; discriminate. }
  rewrite <- ES in *. clear ES. cbv zeta.
  assert (VG := copyGraph_valid dst src Len).
  assert (LG : length (copyGraph dst src) = length dst) by (unfold copyGraph; rewrite map_length; auto).
  destruct (C22_calcSCC_correct _ VG) as (ccnt & col & -> & LC & _ & CO & CL & _). rewrite LG in *.
  pose proof (buildDag_ok (length dst) ccnt (copyGraph dst src) col CO CL (seq 0 (length dst)) (fun _ => []) (fun _ => 0)) as BD.
  destruct (buildDag _ col _ _) as (dag, deg).
  specialize (BD ltac:(intros u U; apply in_seq in U; lia) (dag0 ccnt)).
  destruct BD as [D1 D2 D3].
  destruct (kahn_ok (length dst) ccnt col it Hit dag D1 D2 ccnt [] (filter (fun u => Nat.eqb (deg u) 0) (seq 0 ccnt)) deg)
    as (P & EK & NP & IP).
  { assert (U0 : unproc ccnt [] = seq 0 ccnt).
    { unfold unproc. generalize (seq 0 ccnt). intros l. induction l as [|a l IH]; [reflexivity|]. cbn [filter inb existsb negb]. f_equal. exact IH. }
    constructor; cbn [app].
    - apply NoDup_filter, seq_NoDup.
    - intros c C. apply filter_In in C. destruct C as (C & _). apply in_seq in C. lia.
    - intros v. rewrite U0. apply D3.
    - intros v L. rewrite filter_In, in_seq, Nat.eqb_eq. intuition lia. }
  { cbn. lia. }
  cbn [flat_map] in EK. rewrite EK.
  pose proof (flat_group (length dst) ccnt col P NP IP CL) as PM.
  assert (LO : length (flat_map (group (length dst) col) P) = length dst) by (rewrite (Permutation_length PM), seq_length; auto).
  rewrite LO, Nat.eqb_refl.
  set (order := flat_map (group (length dst) col) P) in *.
  assert (NO : NoDup order) by (eapply Permutation_NoDup; [symmetry; exact PM|apply seq_NoDup]).
  assert (IO : forall i, In i order <-> i < length dst).
  { intros i. split; intros I.
    - eapply Permutation_in in I; [|exact PM]. apply in_seq in I. lia.
    - eapply Permutation_in; [symmetry; exact PM|]. apply in_seq. lia. }
  assert (E0 : forall rho, EInv dst src next rho [] (mkE [] next [])).
  { intros rho. constructor; cbn; auto.
    - intros i d o [].
    - intros d t [].
    - intros o I. destruct o; reflexivity. }
  assert (RUN : forall rho, exists s', emitAll dst src order (mkE [] next []) = Some s' /\ EInv dst src next rho (rev order ++ []) s').
  { intros rho. apply emitAll_ok; auto. intros i I. split; [intros []|]. now apply IO. }
  destruct (RUN (fun _ => 0%Z)) as (s & ES & _). rewrite ES. exists (out s). split; [reflexivity|].
  intros rho. destruct (RUN rho) as (s' & ES' & K). assert (s' = s) by congruence. subst s'. split.
  - intros i d o A B. apply (eDone _ _ _ _ _ _ K i d o); auto. rewrite app_nil_r, <- in_rev. apply IO.
    apply nth_error_Some. congruence.
  - intros r R N. apply (eOther _ _ _ _ _ _ K); auto.
Qed.
(** a swap, a chain hanging off it, a self copy and a constant *)
Example C27_phi_copies_witness :
  let dst := [0; 1; 2; 3; 4] in
  let src := [Reg 1; Reg 0; Reg 1; Reg 3; Const 7%Z] in
  length dst = length src /\ NoDup dst /\ (forall d, In d dst -> d < 10) /\ (forall r, In (Reg r) src -> r < 10) /\
  exists copies, phiCopies dst src 10 (fun _ l => l) = Some copies /\ length copies = 6 /\
    let rho := fun r => Z.of_nat r in
    map (execCopies copies rho) dst = [1; 0; 1; 3; 7]%Z.
Proof.
  cbv zeta. split; [reflexivity|]. split.
  { repeat constructor; cbn; intuition discriminate. }
  split. { cbn. intuition (subst; lia). }
  split. { cbn. intros r H. intuition (try discriminate); match goal with X : Reg _ = Reg _ |- _ => injection X as <- end; lia. }
  eexists. split; [vm_compute; reflexivity|]. split; reflexivity.
Qed.
