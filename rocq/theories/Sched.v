(** Instruction scheduling: cmmc/CodeGen/Scheduler.cpp.
    [deps] is the dependence graph of postRAScheduleBlock (263-326; preRAScheduleBlock builds the same one), [topDown] is
    topDownScheduling (29-122).  Instructions are numbered by their position in the block.
    Not modelled: the ranks (328-352).  They decide in which order the ready instructions are tried; here that order is
    any function [ord], so the results hold for every ranking.  What a schedule class accepts is any function [sched]
    of the state of the machine model; an instruction that is not accepted leaves that state alone. *)
From Coq Require Import ZArith Lia Bool List Arith Permutation.
From Verif Require Import GMir RaMir RaLive RaColor.
Import ListNotations.

(* ------------------------------------------------------------------ *)
(** * The dependence graph *)
Section Deps.
Context {W : Type}.
Variable t : mach W.
Variables sideF ordF : nat -> bool.   (* InstFlagSideEffect; InstFlagInOrder | InstFlagCall | InstFlagTerminator *)
Variable sp : nat.                    (* the stack pointer: a stack object counts as a use of it (270-276, 293-295) *)

Definition suses (i : inst) : list reg :=
  flat_map (fun x => match x with (_, OStk _) => [Phys sp] | (FUse, OReg r) => [r] | _ => [] end) (fops t i).
Definition sdefs (i : inst) : list reg :=
  flat_map (fun x => match x with (FDef, OStk _) => [Phys sp] | (FDef, OReg r) => [r] | _ => [] end) (fops t i).

Definition dep := (nat * nat)%type.   (* (u, v): [u] stays behind [v] *)
Definition dep_eqb (a b : dep) : bool := Nat.eqb (fst a) (fst b) && Nat.eqb (snd a) (snd b).
(** 245-257 *)
Definition addDep (u : nat) (l : list dep) (v : nat) : list dep :=
  if Nat.eqb u v then l else if existsb (dep_eqb (u, v)) l then l else l ++ [(u, v)].
Record dst := DS { tou : reg -> list nat; ldf : reg -> option nat; lsd : option nat; lor : option nat; dl : list dep }.
(** 280-286 *)
Definition useDep (k : nat) (s : dst) (r : reg) : dst :=
  DS (rupd (tou s) r (tou s r ++ [k])) (ldf s) (lsd s) (lor s)
     (match ldf s r with Some d => addDep k (dl s) d | None => dl s end).
(** 298-305 *)
Definition defDep (k : nat) (s : dst) (r : reg) : dst :=
  DS (rupd (tou s) r [k]) (rupd (ldf s) r (Some k)) (lsd s) (lor s) (fold_left (addDep k) (tou s r) (dl s)).
(** 308-325 *)
Definition ordDep (k : nat) (s : dst) : dst :=
  DS (tou s) (ldf s) (lsd s) (lor s) (match lor s with Some o => addDep k (dl s) o | None => dl s end).
Definition sideDep (k : nat) (i : inst) (s : dst) : dst :=
  if sideF (opc i) then
    let l1 := match lsd s with Some d => addDep k (dl s) d | None => dl s end in
    if ordF (opc i) then DS (tou s) (ldf s) (Some k) (Some k) (fold_left (addDep k) (seq 0 k) l1)
    else DS (tou s) (ldf s) (Some k) (lor s) l1
  else s.
Definition instDep (k : nat) (i : inst) (s : dst) : dst :=
  sideDep k i (ordDep k (fold_left (defDep k) (sdefs i) (fold_left (useDep k) (suses i) s))).
Fixpoint depsFrom (k : nat) (blk : list inst) (s : dst) : dst :=
  match blk with [] => s | i :: r => depsFrom (S k) r (instDep k i s) end.
Definition deps (blk : list inst) : list dep :=
  dl (depsFrom 0 blk (DS (fun _ => []) (fun _ => None) None None [])).
End Deps.

(* ------------------------------------------------------------------ *)
(** * The list scheduler *)
Section Top.
Variable S : Type.                                  (* ScheduleState *)
Variable sched : S -> nat -> option S.              (* ScheduleClass::schedule of instruction number ... *)
Variable nextCycle : S -> S.
Variable ord : nat -> list nat -> list nat.         (* the order of 72, for each issue attempt *)
Variable width : nat.                               (* issueWidth *)
Variable dp : list dep.

(** 73-98: the first instruction of the plane that is accepted; the others stay *)
Fixpoint pick (st : S) (plane : list nat) : option (nat * S * list nat) :=
  match plane with
  | [] => None
  | x :: r =>
      match sched st x with
      | Some st' => Some (x, st', r)
      | None => match pick st r with Some (y, st', r') => Some (y, st', x :: r') | None => None end
      end
  end.
Definition users (x : nat) : list nat := map fst (filter (fun d => Nat.eqb (snd d) x) dp).
(** 83-89 *)
Definition release (a : (nat -> nat) * list nat) (u : nat) : (nat -> nat) * list nat :=
  let n := fst a u - 1 in (fupdN (fst a) u n, if Nat.eqb n 0 then snd a ++ [u] else snd a).
Record tst := TS { plane : list nat; deg : nat -> nat; out : list nat; fresh : list nat; ms : S; tick : nat }.
(** 66-101: one cycle *)
Fixpoint issue (w : nat) (s : tst) : tst :=
  match w with
  | O => s
  | Datatypes.S w' =>
      match pick (ms s) (ord (tick s) (plane s)) with
      | None => TS (ord (tick s) (plane s)) (deg s) (out s) (fresh s) (ms s) (Datatypes.S (tick s))
      | Some (x, st', r) =>
          let a := fold_left release (users x) (deg s, fresh s) in
          issue w' (TS r (fst a) (out s ++ [x]) (snd a) st' (Datatypes.S (tick s)))
      end
  end.
Definition maxBusyCycles : nat := 200.
Inductive result := Done (l : list nat) | Failed | NoFuel.
(** 64-119 *)
Fixpoint loop (fuel n busy : nat) (s : tst) : result :=
  if Nat.eqb (length (out s)) n then Done (out s)
  else
    match fuel with
    | O => NoFuel
    | Datatypes.S k =>
        let s1 := issue width (TS (plane s) (deg s) (out s) [] (ms s) (tick s)) in
        let busy1 := Datatypes.S (if Nat.eqb (length (out s1)) (length (out s)) then busy else 0) in
        if Nat.ltb maxBusyCycles busy1 then Failed
        else loop k n busy1 (TS (plane s1 ++ fresh s1) (deg s1) (out s1) [] (nextCycle (ms s1)) (tick s1))
    end.
Definition degree (u : nat) : nat := length (filter (fun d => Nat.eqb (fst d) u) dp).
(** enough for every cycle, see [topDown_fuel] *)
Definition topDown (n : nat) (st : S) : result :=
  loop (Datatypes.S n * Datatypes.S (Datatypes.S maxBusyCycles)) n 0
    (TS (filter (fun u => Nat.eqb (degree u) 0) (seq 0 n)) degree [] [] st 0).
End Top.

(** the block in the new order *)
Definition reorder (blk : list inst) (l : list nat) : list inst :=
  flat_map (fun k => match nth_error blk k with Some i => [i] | None => [] end) l.

(* ================================================================== *)
(** * Every dependence is kept: the graph *)
Section DepProofs.
Context {W : Type}.
Variable t : mach W.
Variables sideF ordF : nat -> bool.
Variable sp : nat.
Notation suses := (suses t sp).
Notation sdefs := (sdefs t sp).

Definition isOrd (i : inst) : bool := sideF (opc i) && ordF (opc i).
(** two instructions that must not be exchanged *)
Definition clash (i j : inst) : Prop :=
  (sideF (opc i) = true /\ sideF (opc j) = true) \/ isOrd i = true \/ isOrd j = true \/
  exists r, (In r (sdefs i) /\ (In r (suses j) \/ In r (sdefs j))) \/ (In r (suses i) /\ In r (sdefs j)).

Lemma addDep_in u l v x : In x (addDep u l v) <-> In x l \/ (u <> v /\ x = (u, v)).
Proof.
  unfold addDep. destruct (Nat.eqb_spec u v) as [->|N]; [tauto|].
  destruct (existsb (dep_eqb (u, v)) l) eqn:E.
  - apply existsb_exists in E as (y & Hy & E). unfold dep_eqb in E. apply andb_true_iff in E as [E1 E2].
    apply Nat.eqb_eq in E1, E2. destruct y as [a b]. cbn in E1, E2. subst. split; [auto|]. intros [H|[_ ->]]; auto.
  - rewrite in_app_iff. cbn. split; [intros [H|[H|[]]]; auto|intros [H|[_ H]]; auto].
Qed.
Lemma addDeps_in u vs : forall l x, In x (fold_left (addDep u) vs l) <-> In x l \/ exists v, In v vs /\ u <> v /\ x = (u, v).
Proof.
  induction vs as [|v vs IH]; intros l x; cbn.
  - split; [auto|]. intros [H|(v & [] & _)]; auto.
  - rewrite IH, addDep_in. split.
    + intros [[H|[N ->]]|(w & Hw & N & ->)]; [auto|right; exists v; auto|right; exists w; auto].
    + intros [H|(w & [<-|Hw] & N & ->)]; [auto|auto|right; exists w; auto].
Qed.
Lemma addDep_nodup u l v : NoDup l -> NoDup (addDep u l v).
Proof.
  intros H. unfold addDep. destruct (Nat.eqb_spec u v); [exact H|]. destruct (existsb (dep_eqb (u, v)) l) eqn:E; [exact H|].
  rewrite <- (rev_involutive (l ++ [(u, v)])). apply NoDup_rev. rewrite rev_app_distr. cbn. constructor; [|now apply NoDup_rev].
  rewrite <- in_rev. intros X. assert (Y : existsb (dep_eqb (u, v)) l = true).
  { apply existsb_exists. exists (u, v). split; [exact X|]. unfold dep_eqb. cbn. now rewrite !Nat.eqb_refl. }
  congruence.
Qed.
Lemma addDeps_nodup u vs : forall l, NoDup l -> NoDup (fold_left (addDep u) vs l).
Proof. induction vs as [|v vs IH]; intros l H; cbn; [exact H|]. now apply IH, addDep_nodup. Qed.

(** any numbering of the instructions that respects the recorded dependences *)
Variable pos : nat -> nat.
Variable blk : list inst.
Definition respects (l : list dep) : Prop := forall u v, In (u, v) l -> pos v < pos u.
Definition at_ (k : nat) (i : inst) : Prop := nth_error blk k = Some i.


Lemma useDeps_spec k l : forall s,
  (forall r x, In x (tou (fold_left (useDep k) l s) r) <-> In x (tou s r) \/ (x = k /\ In r l)) /\
  ldf (fold_left (useDep k) l s) = ldf s /\ lsd (fold_left (useDep k) l s) = lsd s /\
  lor (fold_left (useDep k) l s) = lor s /\
  (forall y, In y (dl (fold_left (useDep k) l s)) <->
     In y (dl s) \/ exists r d, In r l /\ ldf s r = Some d /\ k <> d /\ y = (k, d)) /\
  (NoDup (dl s) -> NoDup (dl (fold_left (useDep k) l s))).
Proof.
  induction l as [|r0 l IH]; intros s; cbn [fold_left].
  - split; [intros r x; cbn; tauto|]. repeat (split; [reflexivity|]). split; [|auto].
    intros y. split; [auto|]. intros [H|(r & d & [] & _)]; auto.
  - destruct (IH (useDep k s r0)) as (A & B & C & D & E & F). cbn [useDep tou ldf lsd lor dl] in *.
    split; [|split; [exact B|split; [exact C|split; [exact D|split]]]].
    + intros r x. rewrite A. unfold rupd. destruct (reg_eqb_spec r r0) as [->|N].
      * rewrite in_app_iff. cbn. split; [intros [[H|[<-|[]]]|[-> H]]|intros [H|[-> [_|H]]]]; auto.
      * cbn. split; [intros [H|[-> H]]|intros [H|[-> [->|H]]]]; auto. contradiction.
    + intros y. rewrite E. destruct (ldf s r0) as [d0|] eqn:E0.
      * rewrite addDep_in. split.
        -- intros [[H|[N ->]]|(r & d & Hr & Ed & N & ->)]; [auto|right; exists r0, d0; cbn; auto|right; exists r, d; cbn; auto].
        -- intros [H|(r & d & [<-|Hr] & Ed & N & ->)]; [auto| |right; exists r, d; auto].
           rewrite E0 in Ed. injection Ed as <-. auto.
      * split.
        -- intros [H|(r & d & Hr & Ed & N & ->)]; [auto|right; exists r, d; cbn; auto].
        -- intros [H|(r & d & [<-|Hr] & Ed & N & ->)]; [auto|congruence|right; exists r, d; auto].
    + intros H. apply F. destruct (ldf s r0); [now apply addDep_nodup|exact H].
Qed.
Lemma defDeps_spec k l : forall s,
  (forall r, ~ In r l -> tou (fold_left (defDep k) l s) r = tou s r /\ ldf (fold_left (defDep k) l s) r = ldf s r) /\
  (forall r, In r l -> tou (fold_left (defDep k) l s) r = [k] /\ ldf (fold_left (defDep k) l s) r = Some k) /\
  lsd (fold_left (defDep k) l s) = lsd s /\ lor (fold_left (defDep k) l s) = lor s /\
  (forall y, In y (dl (fold_left (defDep k) l s)) <->
     In y (dl s) \/ exists r x, In r l /\ In x (tou s r) /\ k <> x /\ y = (k, x)) /\
  (NoDup (dl s) -> NoDup (dl (fold_left (defDep k) l s))).
Proof.
  induction l as [|r0 l IH]; intros s; cbn [fold_left].
  - split; [auto|]. split; [intros r []|]. repeat (split; [reflexivity|]). split; [|auto].
    intros y. split; [auto|]. intros [H|(r & d & [] & _)]; auto.
  - destruct (IH (defDep k s r0)) as (A & B & C & D & E & F). cbn [defDep tou ldf lsd lor dl] in *.
    split; [|split; [|split; [exact C|split; [exact D|split]]]].
    + intros r N. cbn in N. destruct (A r ltac:(tauto)) as [-> ->]. unfold rupd.
      destruct (reg_eqb_spec r r0) as [->|]; [tauto|auto].
    + intros r Hr. destruct (in_dec reg_dec r l) as [Hl|Hl]; [auto|]. destruct (A r Hl) as [-> ->].
      destruct Hr as [->|Hr]; [|contradiction]. unfold rupd. destruct (reg_eqb_spec r r); [auto|contradiction].
    + intros y. rewrite E, addDeps_in. split.
      * intros [[H|(v & Hv & N & ->)]|(r & x & Hr & Hx & N & ->)]; [auto|right; exists r0, v; cbn; auto|].
        unfold rupd in Hx. destruct (reg_eqb_spec r r0) as [->|]; [destruct Hx as [->|[]]; contradiction|].
        right. exists r, x. cbn. auto.
      * intros [H|(r & x & Hr & Hx & N & ->)]; [auto|]. destruct (reg_dec r r0) as [->|Nr].
        -- left. right. eauto.
        -- right. exists r, x. destruct Hr as [->|Hr]; [contradiction|]. split; [exact Hr|]. unfold rupd.
           destruct (reg_eqb_spec r r0); [contradiction|auto].
    + intros H. apply F. now apply addDeps_nodup.
Qed.

(** what the records mean after the first [k] instructions *)
Record okD (k : nat) (s : dst) : Prop := {
  d_nd : NoDup (dl s);
  d_lt : forall u v, In (u, v) (dl s) -> v < u /\ u < k;
  d_tou : forall r x, In x (tou s r) -> x < k;
  d_ldf : forall r d, ldf s r = Some d -> d < k /\ In d (tou s r);
  d_lsd : forall d, lsd s = Some d -> d < k;
  d_lor : forall d, lor s = Some d -> d < k }.
(** clashing pairs among the first [k] instructions stay in order *)
Definition kept (k : nat) : Prop := forall a b i j, a < b -> b < k -> at_ a i -> at_ b j -> clash i j -> pos a < pos b.
Record meanD (k : nat) (s : dst) : Prop := {
  m_touch : forall a i r, a < k -> at_ a i -> In r (suses i) \/ In r (sdefs i) -> exists x, In x (tou s r) /\ pos a <= pos x;
  m_def : forall a i r, a < k -> at_ a i -> In r (sdefs i) -> exists d, ldf s r = Some d /\ pos a <= pos d;
  m_side : forall a i, a < k -> at_ a i -> sideF (opc i) = true -> exists d, lsd s = Some d /\ pos a <= pos d;
  m_ord : forall a i, a < k -> at_ a i -> isOrd i = true -> exists o, lor s = Some o /\ pos a <= pos o;
  m_kept : kept k }.

Lemma instDep_ok k i s : okD k s -> okD (S k) (instDep t sideF ordF sp k i s) /\
  (forall y, In y (dl s) -> In y (dl (instDep t sideF ordF sp k i s))).
Proof.
  intros [A B C D E F]. unfold instDep.
  destruct (useDeps_spec k (suses i) s) as (U1 & U2 & U3 & U4 & U5 & U6).
  set (s1 := fold_left (useDep k) (suses i) s) in *.
  destruct (defDeps_spec k (sdefs i) s1) as (V1 & V2 & V3 & V4 & V5 & V6).
  set (s2 := fold_left (defDep k) (sdefs i) s1) in *.
  assert (L1 : forall u v, In (u, v) (dl s1) -> v < u /\ u < S k).
  { intros u v H. apply U5 in H as [H|(r & d & _ & Hd & N & X)]; [apply B in H; lia|]. injection X as -> ->.
    apply D in Hd. lia. }
  assert (T1 : forall r x, In x (tou s1 r) -> x < S k).
  { intros r x H. apply U1 in H as [H|[-> _]]; [apply C in H|]; lia. }
  assert (L2 : forall u v, In (u, v) (dl s2) -> v < u /\ u < S k).
  { intros u v H. apply V5 in H as [H|(r & d & _ & Hd & N & X)]; [auto|]. injection X as -> ->. apply T1 in Hd. lia. }
  assert (L3 : forall u v, In (u, v) (dl (ordDep k s2)) -> v < u /\ u < S k).
  { intros u v H. unfold ordDep in H. cbn in H. rewrite V4, U4 in H. destruct (lor s) as [o|] eqn:Eo; [|auto].
    apply addDep_in in H as [H|[N X]]; [auto|]. injection X as -> ->. specialize (F o eq_refl). lia. }
  assert (T2 : forall r x, In x (tou s2 r) -> x < S k).
  { intros r x H. destruct (in_dec reg_dec r (sdefs i)) as [Hr|Hr].
    - destruct (V2 r Hr) as [X _]. rewrite X in H. destruct H as [<-|[]]. lia.
    - destruct (V1 r Hr) as [X _]. rewrite X in H. eauto. }
  assert (N2 : NoDup (dl s2)) by auto.
  assert (N3 : NoDup (dl (ordDep k s2))).
  { unfold ordDep. cbn. destruct (lor s2); [now apply addDep_nodup|exact N2]. }
  assert (M3 : forall y, In y (dl s) -> In y (dl (ordDep k s2))).
  { intros y H. assert (H2 : In y (dl s2)) by (apply V5; left; apply U5; now left).
    unfold ordDep. cbn. destruct (lor s2); [apply addDep_in; now left|exact H2]. }
  assert (D2 : forall r d, ldf s2 r = Some d -> d < S k /\ In d (tou s2 r)).
  { intros r d H. destruct (in_dec reg_dec r (sdefs i)) as [Hr|Hr].
    - destruct (V2 r Hr) as [X Y]. rewrite Y in H. injection H as <-. rewrite X. cbn. auto.
    - destruct (V1 r Hr) as [X Y]. rewrite Y, U2 in H. rewrite X. destruct (D r d H) as [P Q].
      split; [lia|]. apply U1. now left. }
  unfold sideDep. destruct (sideF (opc i)).
  - set (l1 := match lsd (ordDep k s2) with Some d => addDep k (dl (ordDep k s2)) d | None => dl (ordDep k s2) end).
    assert (L4 : (forall u v, In (u, v) l1 -> v < u /\ u < S k) /\ NoDup l1 /\ (forall y, In y (dl s) -> In y l1)).
    { subst l1. change (lsd (ordDep k s2)) with (lsd s2). rewrite V3, U3. destruct (lsd s) as [d|] eqn:Ed; [|auto].
      split; [|split].
      - intros u v H. apply addDep_in in H as [H|[N X]]; [auto|]. injection X as -> ->. specialize (E d eq_refl). lia.
      - now apply addDep_nodup.
      - intros y H. apply addDep_in. left. auto. }
    destruct L4 as (L4 & N4 & M4). destruct (ordF (opc i)).
    + split.
      * split; cbn; [now apply addDeps_nodup| |exact T2|exact D2| |].
        -- intros u v H. apply addDeps_in in H as [H|(w & Hw & N & X)]; [auto|]. injection X as -> ->. apply in_seq in Hw. lia.
        -- intros d H. injection H as <-. lia.
        -- intros d H. injection H as <-. lia.
      * cbn. intros y H. apply addDeps_in. left. auto.
    + split; [|cbn; exact M4]. split; cbn; [exact N4|exact L4|exact T2|exact D2| |].
      * intros d H. injection H as <-. lia.
      * rewrite V4, U4. intros d H. apply F in H. lia.
  - split; [|exact M3]. split; cbn [ordDep lsd lor tou ldf]; [exact N3|exact L3|exact T2|exact D2| |].
    + rewrite V3, U3. intros d H. apply E in H. lia.
    + rewrite V4, U4. intros d H. apply F in H. lia.
Qed.

Lemma instDep_mean k i s : okD k s -> meanD k s -> at_ k i -> respects (dl (instDep t sideF ordF sp k i s)) ->
  meanD (S k) (instDep t sideF ordF sp k i s).
Proof.
  intros [A B C D E F] [M1 M2 M3 M4 M5] Hi. unfold instDep.
  destruct (useDeps_spec k (suses i) s) as (U1 & U2 & U3 & U4 & U5 & U6).
  set (s1 := fold_left (useDep k) (suses i) s) in *.
  destruct (defDeps_spec k (sdefs i) s1) as (V1 & V2 & V3 & V4 & V5 & V6).
  set (s2 := fold_left (defDep k) (sdefs i) s1) in *. intros Rs.
  set (s3 := ordDep k s2) in *. set (s4 := sideDep sideF ordF k i s3) in *.
  assert (I34 : forall y, In y (dl s3) -> In y (dl s4)).
  { intros y H. subst s4. unfold sideDep. destruct (sideF (opc i)); [|exact H]. destruct (ordF (opc i)); cbn.
    - apply addDeps_in. left. destruct (lsd s2); [apply addDep_in; now left|exact H].
    - destruct (lsd s2); [apply addDep_in; now left|exact H]. }
  assert (I23 : forall y, In y (dl s2) -> In y (dl s3)).
  { intros y H. subst s3. unfold ordDep. cbn. destruct (lor s2); [apply addDep_in; now left|exact H]. }
  assert (G2 : forall x, In (k, x) (dl s2) -> pos x < pos k) by (intros x H; apply Rs; auto).
  (* the edges of the new instruction *)
  assert (P1 : forall r d, In r (suses i) -> ldf s r = Some d -> pos d < pos k).
  { intros r d Hr Hd. apply G2, V5. left. apply U5. right. exists r, d. pose proof (proj1 (D r d Hd)).
    split; [exact Hr|]. split; [exact Hd|]. split; [lia|reflexivity]. }
  assert (P2 : forall r x, In r (sdefs i) -> In x (tou s r) -> pos x < pos k).
  { intros r x Hr Hx. apply G2, V5. right. exists r, x. pose proof (C r x Hx). split; [exact Hr|].
    split; [apply U1; now left|]. split; [lia|reflexivity]. }
  assert (P3 : forall o, lor s = Some o -> pos o < pos k).
  { intros o Ho. apply Rs, I34. subst s3. unfold ordDep. cbn. rewrite V4, U4, Ho. apply addDep_in. right.
    specialize (F o Ho). split; [lia|reflexivity]. }
  assert (P4 : forall d, lsd s = Some d -> sideF (opc i) = true -> pos d < pos k).
  { intros d Hd Hs. apply Rs. subst s4. unfold sideDep. rewrite Hs.
    assert (X : In (k, d) (match lsd s3 with Some d0 => addDep k (dl s3) d0 | None => dl s3 end)).
    { change (lsd s3) with (lsd s2). rewrite V3, U3, Hd. apply addDep_in. right. specialize (E d Hd). split; [lia|reflexivity]. }
    destruct (ordF (opc i)); cbn [dl]; [apply addDeps_in; now left|exact X]. }
  assert (P5 : forall a, a < k -> isOrd i = true -> pos a < pos k).
  { intros a Ha Ho. apply Rs. subst s4. unfold sideDep. unfold isOrd in Ho. apply andb_true_iff in Ho as [-> ->]. cbn [dl].
    apply addDeps_in. right. exists a. split; [apply in_seq; lia|]. split; [lia|reflexivity]. }
  assert (T4 : tou s4 = tou s2 /\ ldf s4 = ldf s2).
  { subst s4. unfold sideDep. destruct (sideF (opc i)); [destruct (ordF (opc i))|]; split; reflexivity. }
  destruct T4 as [T4 D4].
  assert (Inst : forall a j, a < S k -> at_ a j -> a < k \/ (a = k /\ j = i)).
  { intros a j Ha Hj. destruct (Nat.eq_dec a k) as [->|]; [|left; lia]. right. split; [reflexivity|]. unfold at_ in *. congruence. }
  split.
  - intros a j r Ha Hj Hr. rewrite T4. destruct (in_dec reg_dec r (sdefs i)) as [Hd|Hd].
    + destruct (V2 r Hd) as [-> _]. exists k. split; [now left|].
      destruct (Inst a j Ha Hj) as [Ha'|[-> ->]]; [|lia]. destruct (M1 a j r Ha' Hj Hr) as (x & Hx & Px).
      specialize (P2 r x Hd Hx). lia.
    + destruct (V1 r Hd) as [-> _]. destruct (Inst a j Ha Hj) as [Ha'|[-> ->]].
      * destruct (M1 a j r Ha' Hj Hr) as (x & Hx & Px). exists x. split; [apply U1; now left|exact Px].
      * exists k. split; [|lia]. apply U1. destruct Hr as [Hr|Hr]; [auto|contradiction].
  - intros a j r Ha Hj Hr. rewrite D4. destruct (in_dec reg_dec r (sdefs i)) as [Hd|Hd].
    + destruct (V2 r Hd) as [_ ->]. exists k. split; [reflexivity|].
      destruct (Inst a j Ha Hj) as [Ha'|[-> ->]]; [|lia]. destruct (M1 a j r Ha' Hj (or_intror Hr)) as (x & Hx & Px).
      specialize (P2 r x Hd Hx). lia.
    + destruct (V1 r Hd) as [_ ->]. rewrite U2. destruct (Inst a j Ha Hj) as [Ha'|[-> ->]]; [|contradiction].
      exact (M2 a j r Ha' Hj Hr).
  - intros a j Ha Hj Hs. subst s4. unfold sideDep. destruct (sideF (opc i)) eqn:Es.
    + exists k. split; [destruct (ordF (opc i)); reflexivity|]. destruct (Inst a j Ha Hj) as [Ha'|[-> ->]]; [|lia].
      destruct (M3 a j Ha' Hj Hs) as (d & Hd & Pd). specialize (P4 d Hd eq_refl). lia.
    + change (lsd s3) with (lsd s2). rewrite V3, U3. destruct (Inst a j Ha Hj) as [Ha'|[-> ->]]; [|congruence].
      exact (M3 a j Ha' Hj Hs).
  - intros a j Ha Hj Ho. destruct (isOrd i) eqn:Eo.
    + exists k. split.
      * subst s4. unfold sideDep. unfold isOrd in Eo. apply andb_true_iff in Eo as [-> ->]. reflexivity.
      * destruct (Inst a j Ha Hj) as [Ha'|[-> ->]]; [|lia]. specialize (P5 a Ha' eq_refl). lia.
    + assert (X : lor s4 = lor s).
      { subst s4. unfold sideDep. unfold isOrd in Eo. destruct (sideF (opc i)); [|cbn; now rewrite V4, U4].
        cbn in Eo. rewrite Eo. cbn. now rewrite V4, U4. }
      rewrite X. destruct (Inst a j Ha Hj) as [Ha'|[-> ->]]; [|congruence]. exact (M4 a j Ha' Hj Ho).
  - intros a b j1 j2 Hab Hb H1 H2 Cl. destruct (Inst b j2 Hb H2) as [Hb'|[-> ->]]; [exact (M5 a b j1 j2 Hab Hb' H1 H2 Cl)|].
    destruct Cl as [[Sa Sb]|[Oa|[Ob|(r & [[Ra [Rb|Rb]]|[Ra Rb]])]]].
    + destruct (M3 a j1 Hab H1 Sa) as (d & Hd & Pd). specialize (P4 d Hd Sb). lia.
    + destruct (M4 a j1 Hab H1 Oa) as (o & Ho & Po). specialize (P3 o Ho). lia.
    + auto.
    + destruct (M2 a j1 r Hab H1 Ra) as (d & Hd & Pd). specialize (P1 r d Rb Hd). lia.
    + destruct (M1 a j1 r Hab H1 (or_intror Ra)) as (x & Hx & Px). specialize (P2 r x Rb Hx). lia.
    + destruct (M1 a j1 r Hab H1 (or_introl Ra)) as (x & Hx & Px). specialize (P2 r x Rb Hx). lia.
Qed.

Lemma depsFrom_ok l : forall k s, okD k s -> okD (k + length l) (depsFrom t sideF ordF sp k l s) /\
  (forall y, In y (dl s) -> In y (dl (depsFrom t sideF ordF sp k l s))).
Proof.
  induction l as [|i l IH]; intros k s H; cbn [depsFrom length].
  - rewrite Nat.add_0_r. auto.
  - destruct (instDep_ok k i s H) as [H1 H2]. destruct (IH (S k) _ H1) as [H3 H4].
    rewrite <- Nat.add_succ_comm. split; [exact H3|]. auto.
Qed.
Lemma depsFrom_mean l : forall k s, blk = firstn k blk ++ l -> k + length l = length blk -> okD k s -> meanD k s ->
  respects (dl (depsFrom t sideF ordF sp k l s)) -> meanD (length blk) (depsFrom t sideF ordF sp k l s).
Proof.
  induction l as [|i l IH]; intros k s E L H M R; cbn [depsFrom].
  - cbn in L. rewrite Nat.add_0_r in L. now rewrite <- L.
  - cbn [length] in L. destruct (instDep_ok k i s H) as [H1 _].
    assert (Hk : at_ k i).
    { unfold at_. rewrite E, nth_error_app2; rewrite firstn_length_le; try lia. now rewrite Nat.sub_diag. }
    apply IH; [|lia|exact H1| |exact R].
    + rewrite E at 1. assert (X : firstn (S k) blk = firstn k blk ++ [i]).
      { clear -Hk. unfold at_ in Hk. revert k Hk. induction blk as [|x b IHb]; intros [|k] Hk; cbn in *; try discriminate.
        - injection Hk as ->. reflexivity.
        - f_equal. now apply IHb. }
      rewrite X, <- app_assoc. reflexivity.
    + apply instDep_mean; auto. intros u v X. apply R. cbn. now apply (proj2 (depsFrom_ok l (S k) _ H1)).
Qed.
Definition ds0 : dst := DS (fun _ => []) (fun _ => None) None None [].
Lemma ds0_ok : okD 0 ds0.
Proof. split; cbn; try constructor; try (intros; contradiction); intros; discriminate. Qed.
(** any order that respects the graph keeps clashing instructions in order *)
Theorem deps_enough : respects (deps t sideF ordF sp blk) -> kept (length blk).
Proof.
  intros R. apply (m_kept _ (depsFrom t sideF ordF sp 0 blk ds0)). apply depsFrom_mean; [reflexivity|reflexivity|exact ds0_ok| |exact R].
  split; try (intros; lia). intros a b i j Hab Hb. lia.
Qed.
End DepProofs.
Lemma deps_ok {W} (t : mach W) sideF ordF sp blk :
  NoDup (deps t sideF ordF sp blk) /\ forall u v, In (u, v) (deps t sideF ordF sp blk) -> v < u /\ u < length blk.
Proof.
  destruct (depsFrom_ok t sideF ordF sp (fun x => x) blk 0 ds0 ds0_ok) as [[A B C D E F] _]. split; [exact A|exact B].
Qed.
