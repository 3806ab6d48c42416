(** The list scheduler issues every instruction once, each one after everything it depends on. *)
From Coq Require Import ZArith Lia Bool List Arith Permutation.
From Verif Require Import GMir RaMir RaLive RaColor Sched.
Import ListNotations.

Section TopProofs.
Variable S : Type.
Variable sched : S -> nat -> option S.
Variable nextCycle : S -> S.
Variable ord : nat -> list nat -> list nat.
Variable width : nat.
Variable dp : list dep.
Variable n : nat.
Hypothesis ordP : forall k l, Permutation (ord k l) l.
Hypothesis dpN : NoDup dp.
Hypothesis dpL : forall u v, In (u, v) dp -> v < u /\ u < n.

Notation pick := (pick S sched).
Notation issue := (issue S sched ord dp).
Notation tst := (tst S).

(** dependences of [u] on instructions that are not in [l] *)
Definition waits (l : list nat) (u : nat) : nat :=
  length (filter (fun d => Nat.eqb (fst d) u && negb (nmem (snd d) l)) dp).
Record tinv (s : tst) : Prop := {
  t_nd : NoDup (out S s ++ plane S s ++ fresh S s);
  t_deg : forall u, deg S s u = waits (out S s) u;
  t_rdy : forall u, In u (out S s ++ plane S s ++ fresh S s) <-> u < n /\ waits (out S s) u = 0;
  t_top : forall a u b v, out S s = a ++ u :: b -> In (u, v) dp -> In v a }.

Lemma pick_spec st l : match pick st l with
  | Some (x, st', r) => sched st x = Some st' /\ Permutation (x :: r) l
  | None => forall x, In x l -> sched st x = None
  end.
Proof.
  induction l as [|x l IH]; cbn; [intros x []|]. destruct (sched st x) as [st'|] eqn:E; [auto|].
  destruct (pick st l) as [[[y st'] r]|].
  - destruct IH as [A B]. split; [exact A|]. rewrite perm_swap. now constructor.
  - intros y [<-|Hy]; auto.
Qed.
Lemma in_users u x : In u (users dp x) <-> In (u, x) dp.
Proof.
  unfold users. rewrite in_map_iff. split.
  - intros ((a & b) & <- & H). apply filter_In in H as [H E]. cbn in E. apply Nat.eqb_eq in E. now subst.
  - intros H. exists (u, x). split; [reflexivity|]. apply filter_In. split; [exact H|]. cbn. apply Nat.eqb_refl.
Qed.
Lemma users_nodup x : NoDup (users dp x).
Proof.
  unfold users. assert (H : NoDup (filter (fun d => Nat.eqb (snd d) x) dp)) by now apply NoDup_filter.
  assert (E : forall d, In d (filter (fun d => Nat.eqb (snd d) x) dp) -> snd d = x).
  { intros d Hd. apply filter_In in Hd as [_ Hd]. now apply Nat.eqb_eq. }
  induction (filter (fun d => Nat.eqb (snd d) x) dp) as [|[a b] l IH]; cbn; constructor.
  - intros X. apply in_map_iff in X as ([c d] & X & Y). cbn in X. subst c. inversion H; subst.
    pose proof (E (a, b) (or_introl eq_refl)). pose proof (E (a, d) (or_intror Y)). cbn in *. subst. contradiction.
  - apply IH; [now inversion H|]. intros d Hd. apply E. now right.
Qed.
Lemma waits_step l x u : ~ In x l -> waits l u = waits (l ++ [x]) u + (if in_dec Nat.eq_dec u (users dp x) then 1 else 0).
Proof.
  intros Hx. unfold waits.
  assert (G : forall q, NoDup q -> length (filter (fun d => Nat.eqb (fst d) u && negb (nmem (snd d) l)) q) =
    length (filter (fun d => Nat.eqb (fst d) u && negb (nmem (snd d) (l ++ [x]))) q) +
    (if in_dec Nat.eq_dec u (users q x) then 1 else 0)).
  { induction q as [|[a b] q IH]; intros N; [reflexivity|]. inversion N as [|? ? N1 N2]; subst. specialize (IH N2).
    assert (Ul : users ((a, b) :: q) x = if Nat.eqb b x then a :: users q x else users q x).
    { unfold users. cbn. now destruct (Nat.eqb b x). }
    rewrite Ul. clear Ul. cbn [filter fst snd].
    assert (Mm : nmem b (l ++ [x]) = nmem b l || Nat.eqb b x).
    { unfold nmem. rewrite existsb_app. cbn. now rewrite orb_false_r. }
    rewrite Mm. destruct (Nat.eqb_spec b x) as [->|Nb].
    - assert (X0 : nmem x l = false) by (apply nmem_nIn; exact Hx). rewrite X0. cbn [orb negb]. rewrite andb_false_r, andb_true_r.
      destruct (Nat.eqb_spec a u) as [->|Na].
      + cbn [length]. destruct (in_dec Nat.eq_dec u (u :: users q x)) as [_|Y]; [|destruct Y; now left].
        assert (Z : ~ In u (users q x)).
        { intros Z. apply N1. unfold users in Z. apply in_map_iff in Z as ([c d] & Z1 & Z2). apply filter_In in Z2 as [Z2 Z3].
          cbn in *. apply Nat.eqb_eq in Z3. now subst. }
        destruct (in_dec Nat.eq_dec u (users q x)); [contradiction|]. lia.
      + destruct (in_dec Nat.eq_dec u (a :: users q x)) as [Y|Y]; destruct (in_dec Nat.eq_dec u (users q x)) as [Z|Z]; try lia.
        * destruct Y; [congruence|contradiction].
        * destruct Y. now right.
    - rewrite orb_false_r. destruct (Nat.eqb a u && negb (nmem b l)); cbn [length]; lia. }
  apply G. exact dpN.
Qed.
Lemma waits_app l x u : In x l -> waits (l ++ [x]) u = waits l u.
Proof.
  intros H. unfold waits. f_equal. apply filter_ext. intros [a b]. cbn. f_equal. f_equal.
  unfold nmem. rewrite existsb_app. cbn. rewrite orb_false_r. destruct (Nat.eqb_spec b x) as [->|]; [|now rewrite orb_false_r].
  assert (X : nmem x l = true) by now apply nmem_In. unfold nmem in X. now rewrite X.
Qed.

(** 83-89 for all instructions that wait for the one issued *)
Lemma release_spec us : NoDup us -> forall d0 f0, (forall u, In u us -> 0 < d0 u) ->
  (forall u, fst (fold_left release us (d0, f0)) u = d0 u - (if in_dec Nat.eq_dec u us then 1 else 0)) /\
  exists g, snd (fold_left release us (d0, f0)) = f0 ++ g /\ NoDup g /\ forall u, In u g <-> In u us /\ d0 u = 1.
Proof.
  induction us as [|x us IH]; intros N d0 f0 P; cbn [fold_left].
  - split; [intros u; cbn; lia|]. exists []. rewrite app_nil_r. split; [reflexivity|]. split; [constructor|]. cbn. tauto.
  - inversion N as [|? ? N1 N2]; subst.
    set (f1 := if Nat.eqb (d0 x - 1) 0 then f0 ++ [x] else f0).
    destruct (IH N2 (fupdN d0 x (d0 x - 1)) f1) as (A & g & B & C & D).
    { intros u Hu. unfold fupdN. destruct (Nat.eqb_spec u x) as [->|]; [contradiction|]. apply P. now right. }
    change (release (d0, f0) x) with (fupdN d0 x (d0 x - 1), f1).
    split.
    + intros u. rewrite A. unfold fupdN. destruct (Nat.eqb_spec u x) as [->|Nu].
      * destruct (in_dec Nat.eq_dec x us); [contradiction|]. destruct (in_dec Nat.eq_dec x (x :: us)) as [_|Y]; [lia|destruct Y; now left].
      * destruct (in_dec Nat.eq_dec u us) as [Y|Y]; destruct (in_dec Nat.eq_dec u (x :: us)) as [Z|Z]; try lia.
        -- destruct Z. now right.
        -- destruct Z; [congruence|contradiction].
    + assert (Px : 0 < d0 x) by (apply P; now left).
      assert (Dx : forall u, In u g <-> In u us /\ d0 u = 1).
      { intros u. rewrite D. unfold fupdN. destruct (Nat.eqb_spec u x) as [->|]; [|tauto]. tauto. }
      rewrite B. subst f1. destruct (Nat.eqb_spec (d0 x - 1) 0) as [E|E].
      * exists (x :: g). rewrite <- app_assoc. split; [reflexivity|]. split.
        -- constructor; [|exact C]. rewrite Dx. tauto.
        -- intros u. cbn. rewrite Dx. split; [intros [<-|[H1 H2]]; [split; [auto|lia]|auto]|intros [[<-|H1] H2]; auto].
      * exists g. split; [reflexivity|]. split; [exact C|]. intros u. rewrite Dx. cbn.
        split; [intros [H1 H2]; auto|intros [[<-|H1] H2]; [lia|auto]].
Qed.

Lemma tinv_perm p s : Permutation p (plane S s) -> tinv s -> forall k st,
  tinv (TS S p (deg S s) (out S s) (fresh S s) st k).
Proof.
  intros Pp [A B C D] k st.
  assert (E : Permutation (out S s ++ p ++ fresh S s) (out S s ++ plane S s ++ fresh S s)).
  { apply Permutation_app_head, Permutation_app_tail, Pp. }
  split; cbn.
  - eapply Permutation_NoDup; [symmetry; exact E|exact A].
  - exact B.
  - intros u. rewrite <- C. split; apply Permutation_in; [exact E|now symmetry].
  - exact D.
Qed.
Lemma waits_pos l u v : In (u, v) dp -> ~ In v l -> 0 < waits l u.
Proof.
  intros H N. unfold waits. assert (X : In (u, v) (filter (fun d => Nat.eqb (fst d) u && negb (nmem (snd d) l)) dp)).
  { apply filter_In. split; [exact H|]. cbn. rewrite Nat.eqb_refl. cbn. apply negb_true_iff, nmem_nIn. exact N. }
  destruct (filter (fun d => Nat.eqb (fst d) u && negb (nmem (snd d) l)) dp); [destruct X|cbn; lia].
Qed.
Lemma waits_in l u v : waits l u = 0 -> In (u, v) dp -> In v l.
Proof. intros H Hd. destruct (in_dec Nat.eq_dec v l) as [|N]; [assumption|]. pose proof (waits_pos l u v Hd N). lia. Qed.

Lemma step_inv x r st' s k : tinv s -> Permutation (x :: r) (plane S s) ->
  let a := fold_left release (users dp x) (deg S s, fresh S s) in
  tinv (TS S r (fst a) (out S s ++ [x]) (snd a) st' k).
Proof.
  intros T Pp a. pose proof (tinv_perm (x :: r) s Pp T k (ms S s)) as T1. destruct T as [_ _ _ D].
  destruct T1 as [A B C _]. cbn in A, B, C.
  assert (Nx : ~ In x (out S s)).
  { intros X. apply in_split in X as (l1 & l2 & X). rewrite X in A.
    rewrite <- app_assoc in A. apply NoDup_remove_2 in A. apply A. rewrite !in_app_iff. cbn. tauto. }
  assert (Wx : waits (out S s) x = 0) by (apply C; rewrite in_app_iff; cbn; tauto).
  destruct (release_spec (users dp x) (users_nodup x) (deg S s) (fresh S s)) as (R1 & g & R2 & R3 & R4).
  { intros u Hu. rewrite B. apply in_users in Hu. now apply (waits_pos _ u x). }
  fold a in R1, R2.
  assert (Wu : forall u, waits (out S s) u = waits (out S s ++ [x]) u + (if in_dec Nat.eq_dec u (users dp x) then 1 else 0)).
  { intros u. now apply waits_step. }
  assert (Old : forall u, In u ((out S s ++ [x]) ++ r ++ fresh S s) <-> u < n /\ waits (out S s) u = 0).
  { intros u. rewrite <- C. rewrite <- app_assoc. reflexivity. }
  assert (Ng : forall u, In u g -> ~ In u ((out S s ++ [x]) ++ r ++ fresh S s)).
  { intros u Hu X. apply Old in X as [_ X]. apply R4 in Hu as [_ Hu]. rewrite B in Hu. lia. }
  split; cbn [out plane fresh deg].
  - rewrite R2. rewrite !app_assoc. assert (X : NoDup (((out S s ++ [x]) ++ r) ++ fresh S s)).
    { rewrite <- !app_assoc. cbn. exact A. }
    assert (Ng' : forall u, In u g -> ~ In u (((out S s ++ [x]) ++ r) ++ fresh S s)).
    { intros u Hu. rewrite <- (app_assoc (out S s ++ [x])). now apply Ng. }
    clear -X R3 Ng'. revert X Ng'. generalize (((out S s ++ [x]) ++ r) ++ fresh S s).
    induction l as [|y l IH]; cbn; intros X Q; [exact R3|].
    inversion X as [|? ? X1 X2]; subst. constructor; [|apply IH; [exact X2|]].
    + rewrite in_app_iff. intros [Z|Z]; [contradiction|]. apply (Q y Z). now left.
    + intros u Hu Z. apply (Q u Hu). now right.
  - intros u. rewrite R1, B. specialize (Wu u). destruct (in_dec Nat.eq_dec u (users dp x)); lia.
  - intros u. rewrite R2. replace ((out S s ++ [x]) ++ r ++ fresh S s ++ g) with (((out S s ++ [x]) ++ r ++ fresh S s) ++ g)
      by now rewrite <- !app_assoc.
    rewrite (in_app_iff _ g), Old, R4, B. specialize (Wu u).
    destruct (in_dec Nat.eq_dec u (users dp x)) as [Hu|Hu].
    + assert (Lu : u < n) by (apply in_users in Hu; apply dpL in Hu; lia).
      assert (Pu : 0 < waits (out S s) u) by (apply in_users in Hu; now apply (waits_pos _ u x)).
      split; [intros [[_ X]|[_ X]]; [lia|split; [exact Lu|lia]]|intros [_ X]; right; split; [exact Hu|lia]].
    + rewrite Nat.add_0_r in Wu. rewrite <- Wu. tauto.
  - intros l1 u l2 v E Hd. destruct l2 as [|y l2].
    + apply app_inj_tail in E as [<- <-]. apply (waits_in _ x); assumption.
    + assert (X : exists l3, y :: l2 = l3 ++ [x] /\ out S s = l1 ++ u :: l3).
      { destruct (exists_last (l := y :: l2) ltac:(discriminate)) as (l3 & z & E3). rewrite E3 in E.
        rewrite app_comm_cons, app_assoc in E. apply app_inj_tail in E as [E ->]. eauto. }
      destruct X as (l3 & _ & X). exact (D l1 u l3 v X Hd).
Qed.

Lemma issue_inv w : forall s, tinv s -> tinv (issue w s) /\ exists l, out S (issue w s) = out S s ++ l.
Proof.
  induction w as [|w IH]; intros s T; cbn [Sched.issue].
  - split; [exact T|]. exists []. now rewrite app_nil_r.
  - pose proof (pick_spec (ms S s) (ord (tick S s) (plane S s))) as P.
    destruct (pick (ms S s) (ord (tick S s) (plane S s))) as [[[x st'] r]|].
    + destruct P as [_ P]. assert (P' : Permutation (x :: r) (plane S s)) by (etransitivity; [exact P|apply ordP]).
      pose proof (step_inv x r st' s (Datatypes.S (tick S s)) T P') as T1. cbv zeta in T1.
      destruct (IH _ T1) as [T2 (l & E)]. split; [exact T2|]. cbn in E. rewrite E. exists (x :: l). now rewrite <- app_assoc.
    + split; [|exists []; cbn; now rewrite app_nil_r]. cbn.
      apply (tinv_perm (ord (tick S s) (plane S s)) s (ordP _ _) T (Datatypes.S (tick S s)) (ms S s)).
Qed.
Lemma next_inv s st k : tinv s -> tinv (TS S (plane S s ++ fresh S s) (deg S s) (out S s) [] st k).
Proof.
  intros [A B C D]. split; cbn; rewrite ?app_nil_r; assumption.
Qed.

(** an order that contains every instruction once, each after what it depends on *)
Definition topological (l : list nat) : Prop :=
  Permutation l (seq 0 n) /\ forall a u b v, l = a ++ u :: b -> In (u, v) dp -> In v a.
Lemma done_ok s : tinv s -> length (out S s) = n -> topological (out S s).
Proof.
  intros [A B C D] L. split; [|exact D].
  assert (N : NoDup (out S s)).
  { clear -A. induction (out S s) as [|x l IH]; [constructor|]. cbn in A. inversion A; subst.
    constructor; [|auto]. intros X. apply H1. rewrite in_app_iff. now left. }
  apply NoDup_Permutation_bis; [exact N|rewrite seq_length; lia|].
  intros u Hu. apply in_seq. assert (X : In u (out S s ++ plane S s ++ fresh S s)) by (rewrite in_app_iff; now left).
  apply C in X. lia.
Qed.
Lemma loop_ok fuel : forall busy s l, tinv s -> fresh S s = [] -> loop S sched nextCycle ord width dp fuel n busy s = Done l ->
  topological l.
Proof.
  induction fuel as [|fuel IH]; intros busy s l T F; cbn [loop].
  - destruct (Nat.eqb_spec (length (out S s)) n) as [E|]; [|discriminate]. intros H. injection H as <-. now apply done_ok.
  - destruct (Nat.eqb_spec (length (out S s)) n) as [E|]; [intros H; injection H as <-; now apply done_ok|].
    set (s0 := TS S (plane S s) (deg S s) (out S s) [] (ms S s) (tick S s)).
    assert (T0 : tinv s0) by (destruct T as [A B C D]; rewrite F in *; split; assumption).
    match goal with |- context [Nat.ltb ?a ?b] => destruct (Nat.ltb a b); [discriminate|] end.
    apply IH; [|reflexivity]. apply next_inv. exact (proj1 (issue_inv width s0 T0)).
Qed.
Lemma start_inv st : tinv (TS S (filter (fun u => Nat.eqb (degree dp u) 0) (seq 0 n)) (degree dp) [] [] st 0).
Proof.
  assert (E : forall u, waits [] u = degree dp u).
  { intros u. unfold waits, degree. f_equal. apply filter_ext. intros d. cbn. now rewrite andb_true_r. }
  split; cbn.
  - rewrite app_nil_r. apply NoDup_filter, seq_NoDup.
  - intros u. now rewrite E.
  - intros u. rewrite app_nil_r, filter_In, in_seq, Nat.eqb_eq, E. split; [intros [H1 H2]|intros [H1 H2]]; split; auto; lia.
  - intros [|] u b v X; discriminate.
Qed.
Theorem topDown_ok st l : topDown S sched nextCycle ord width dp n st = Done l -> topological l.
Proof. intros H. exact (loop_ok _ 0 _ l (start_inv st) eq_refl H). Qed.

(** ** the scheduler comes to an end *)
Lemma out_le s : tinv s -> length (out S s) <= n.
Proof.
  intros [A B C D]. transitivity (length (seq 0 n)); [|rewrite seq_length; lia]. apply NoDup_incl_length.
  - clear -A. induction (out S s) as [|x l IH]; [constructor|]. cbn in A. inversion A; subst.
    constructor; [|auto]. intros X. apply H1. rewrite in_app_iff. now left.
  - intros u Hu. apply in_seq. assert (X : In u (out S s ++ plane S s ++ fresh S s)) by (rewrite in_app_iff; now left).
    apply C in X. lia.
Qed.
Lemma loop_fuel fuel : forall busy s, tinv s -> fresh S s = [] -> busy <= maxBusyCycles ->
  (n - length (out S s)) * Datatypes.S (Datatypes.S maxBusyCycles) + (Datatypes.S maxBusyCycles - busy) <= fuel ->
  loop S sched nextCycle ord width dp fuel n busy s <> NoFuel.
Proof.
  induction fuel as [|fuel IH]; intros busy s T F Bz L; cbn [loop].
  - revert L. generalize ((n - length (out S s)) * Datatypes.S (Datatypes.S maxBusyCycles)). intros m L. lia.
  - destruct (Nat.eqb_spec (length (out S s)) n) as [E|NE]; [discriminate|].
    set (s0 := TS S (plane S s) (deg S s) (out S s) [] (ms S s) (tick S s)).
    assert (T0 : tinv s0) by (destruct T as [A B C D]; rewrite F in *; split; assumption).
    destruct (issue_inv width s0 T0) as [T1 (l & El)].
    assert (Le : length (out S s) <= length (out S (issue width s0))).
    { rewrite El, app_length. change (out S s0) with (out S s). lia. }
    pose proof (out_le _ T1) as Ln. set (s1 := issue width s0) in *.
    destruct (Nat.eqb_spec (length (out S s1)) (length (out S s))) as [E1|E1].
    + destruct (Nat.ltb_spec maxBusyCycles (Datatypes.S busy)); [discriminate|].
      apply IH; [now apply next_inv|reflexivity|lia|]. cbn [out]. rewrite E1. lia.
    + destruct (Nat.ltb_spec maxBusyCycles 1); [discriminate|].
      apply IH; [now apply next_inv|reflexivity|lia|]. cbn [out].
      clearbody s1. clear -L Le Ln E1 NE Bz.
      assert (X : (n - length (out S s1)) * Datatypes.S (Datatypes.S maxBusyCycles) + Datatypes.S (Datatypes.S maxBusyCycles)
        <= (n - length (out S s)) * Datatypes.S (Datatypes.S maxBusyCycles)).
      { generalize (Datatypes.S (Datatypes.S maxBusyCycles)). intros M. nia. }
      revert L X. generalize ((n - length (out S s)) * Datatypes.S (Datatypes.S maxBusyCycles)),
        ((n - length (out S s1)) * Datatypes.S (Datatypes.S maxBusyCycles)). intros. lia.
Qed.
Theorem topDown_fuel st : topDown S sched nextCycle ord width dp n st <> NoFuel.
Proof.
  unfold topDown. apply loop_fuel; [apply start_inv|reflexivity|unfold maxBusyCycles; lia|].
  cbn [out length]. rewrite Nat.sub_0_r. cbn [Nat.mul]. set (M := Datatypes.S (Datatypes.S maxBusyCycles)). subst M. lia.
Qed.
(** something is ready as long as something is left *)
Lemma some_ready s : tinv s -> length (out S s) <> n -> plane S s ++ fresh S s <> [].
Proof.
  intros [A B C D] L E.
  assert (X : exists u, u < n /\ ~ In u (out S s)).
  { assert (N : NoDup (out S s)).
    { clear -A. induction (out S s) as [|x l IH]; [constructor|]. cbn in A. inversion A; subst.
      constructor; [|auto]. intros X. apply H1. rewrite in_app_iff. now left. }
    destruct (Forall_dec (fun u => In u (out S s)) (fun u => in_dec Nat.eq_dec u (out S s)) (seq 0 n)) as [F|F].
    - exfalso. apply L. apply Nat.le_antisymm.
      + transitivity (length (seq 0 n)); [|rewrite seq_length; lia]. apply NoDup_incl_length; [exact N|].
        intros u Hu. apply in_seq. assert (X : In u (out S s ++ plane S s ++ fresh S s)) by (rewrite in_app_iff; now left).
        apply C in X. lia.
      + rewrite <- (seq_length n 0) at 1. apply NoDup_incl_length; [apply seq_NoDup|]. intros u Hu.
        rewrite Forall_forall in F. auto.
    - apply neg_Forall_Exists_neg in F; [|intros u; apply in_dec, Nat.eq_dec]. apply Exists_exists in F as (u & Hu & Nu).
      apply in_seq in Hu. exists u. split; [lia|exact Nu]. }
  destruct X as (u & Hu & Nu). revert u Hu Nu.
  assert (G : forall m u, u < m -> u < n -> In u (out S s)).
  { induction m as [|m IHm]; intros u Hm Hu; [lia|].
    assert (W0 : waits (out S s) u = 0).
    { unfold waits. destruct (filter (fun d => Nat.eqb (fst d) u && negb (nmem (snd d) (out S s))) dp) as [|[a v] l] eqn:Ef; [reflexivity|]. exfalso.
      assert (X : In (a, v) (filter (fun d => Nat.eqb (fst d) u && negb (nmem (snd d) (out S s))) dp)) by (rewrite Ef; now left).
      apply filter_In in X as [X Y]. apply andb_true_iff in Y as [Y1 Y2]. cbn in Y1, Y2. apply Nat.eqb_eq in Y1. subst a.
      apply negb_true_iff, nmem_nIn in Y2. apply Y2. apply dpL in X. apply IHm; lia. }
    assert (X : In u (out S s ++ plane S s ++ fresh S s)) by (apply C; auto).
    rewrite E, app_nil_r in X. exact X. }
  intros u Hu Nu. apply Nu. apply (G (Datatypes.S u)); lia.
Qed.
End TopProofs.
