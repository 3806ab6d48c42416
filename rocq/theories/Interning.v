(** * String interning (property C21)

    Model of [cmmc/Support/StringFlyWeight.cpp]: [StringManager] (26-78),
    [String] (80-110) and the header.  Memory is a list of blocks of bytes; a
    string_view is a block number, an offset and a length.  [malloc] returns a
    fresh block, initially filled with unknown bytes (argument [junk]).
    The hash function is a parameter: nothing is assumed about it, not even that
    it avoids collisions.  Simplification: [std::unordered_map] is a list of
    entries searched for the first view whose contents equal the key (which is
    what lookup by hash and equality does, since the hash is a function of the
    contents). *)

From Coq Require Import ZArith List Lia Bool Arith.
Import ListNotations.

Definition bytes := list Z.
Record sview := mkV { vblk : nat; voff : nat; vlen : nat }.

(** A [String]: storage view, cached hash, id (StringFlyWeight.hpp 25-28). *)
Record str := mkStr { storage : sview; shash : Z; sid : Z }.

(** StringFlyWeight.cpp:28-31 *)
Record manager := mkM {
  blocks : list bytes;          (* mStorage; the last one is mCurrentPtr *)
  curOff : nat; curEnd : nat;
  bases : list (sview * Z) }.

Definition empty := mkM [] 0 0 [].
Definition blockSize : nat := Z.to_nat 16384.

Definition bytes_eqb (a b : bytes) : bool := if list_eq_dec Z.eq_dec a b then true else false.

(** the bytes a view refers to, now *)
Definition read (bl : list bytes) (v : sview) : bytes :=
  firstn (vlen v) (skipn (voff v) (nth (vblk v) bl [])).

(** memcpy into a block *)
Definition writeAt (b : bytes) (off : nat) (s : bytes) : bytes :=
  firstn off b ++ s ++ skipn (off + length s) b.

Fixpoint updNth (l : list bytes) (i : nat) (b : bytes) : list bytes :=
  match l, i with
  | [], _ => []
  | _ :: l, 0 => b :: l
  | x :: l, S i => x :: updNth l i b
  end.

(** StringFlyWeight.cpp:33-53 createCopy.  [junk n] are the contents of a fresh
    block of n bytes. *)
Definition createCopy (junk : nat -> bytes) (m : manager) (s : bytes) : manager * sview :=
  let size := length s in
  if curOff m + size <=? curEnd m then
    let i := pred (length (blocks m)) in
    (mkM (updNth (blocks m) i (writeAt (nth i (blocks m) []) (curOff m) s))
         (curOff m + size) (curEnd m) (bases m),
     mkV i (curOff m) size)
  else
    let alloc := Nat.max size blockSize in
    let i := length (blocks m) in
    (mkM (blocks m ++ [writeAt (junk alloc) 0 s]) size alloc (bases m), mkV i 0 size).

Section Hash.
Variable hash : bytes -> Z.
Variable junk : nat -> bytes.

(** StringFlyWeight.cpp:56-63 create *)
Definition create (m : manager) (s : bytes) : manager * str :=
  match find (fun e => bytes_eqb (read (blocks m) (fst e)) s) (bases m) with
  | Some e => (m, mkStr (fst e) (snd e) (-1))
  | None =>
      let (m', v) := createCopy junk m s in
      let h := hash (read (blocks m') v) in
      (mkM (blocks m') (curOff m') (curEnd m') (bases m' ++ [(v, h)]), mkStr v h (-1))
  end.

(** StringFlyWeight.cpp:85-89 operator== (compares hash, contents and id) *)
Definition str_eqb (bl : list bytes) (a b : str) : bool :=
  if negb (Z.eqb (shash a) (shash b)) then false
  else bytes_eqb (read bl (storage a)) (read bl (storage b)) && Z.eqb (sid a) (sid b).
(** :90-92 comparison with a string_view *)
Definition str_eqs (bl : list bytes) (a : str) (s : bytes) : bool :=
  (sid a <? 0)%Z && bytes_eqb (read bl (storage a)) s.
(** :101-109 *)
Definition withoutID (a : str) := mkStr (storage a) (shash a) (-1).
Definition withID (a : str) (i : Z) := mkStr (storage a) (shash a) i.
Definition withDefaultID (a : str) (i : Z) :=
  mkStr (storage a) (shash a) (if Z.eqb (sid a) (-1) then i else sid a).

(** A history of interned strings and the handles handed out, in order. *)
Fixpoint internAll (m : manager) (l : list bytes) : manager * list str :=
  match l with
  | [] => (m, [])
  | s :: l => let (m1, h) := create m s in
              let (m2, hs) := internAll m1 l in (m2, h :: hs)
  end.

(** ** Invariant *)

Definition inBlock (bl : list bytes) (co : nat) (v : sview) : Prop :=
  vlen v = 0 \/
  (vblk v < length bl /\ voff v + vlen v <= length (nth (vblk v) bl []) /\
   (vblk v = pred (length bl) -> voff v + vlen v <= co)).

Definition good (m : manager) : Prop :=
  (curEnd m <= length (nth (pred (length (blocks m))) (blocks m) [])) /\
  curOff m <= curEnd m /\
  Forall (fun e => inBlock (blocks m) (curOff m) (fst e) /\ snd e = hash (read (blocks m) (fst e))) (bases m) /\
  NoDup (map (fun e => read (blocks m) (fst e)) (bases m)).

Lemma bytes_eqb_eq a b : bytes_eqb a b = true <-> a = b.
Proof. unfold bytes_eqb. destruct (list_eq_dec Z.eq_dec a b); split; congruence. Qed.

Lemma updNth_length l i b : length (updNth l i b) = length l.
Proof. revert i. induction l; destruct i; cbn; auto. Qed.
Lemma updNth_same l i b : i < length l -> nth i (updNth l i b) [] = b.
Proof. revert i. induction l; destruct i; cbn; intros; auto; try lia. apply IHl. lia. Qed.
Lemma updNth_other l i j b : i <> j -> nth j (updNth l i b) [] = nth j l [].
Proof. revert i j. induction l; destruct i, j; cbn; intros; auto; try lia. Qed.

Lemma writeAt_length b off s : off + length s <= length b -> length (writeAt b off s) = length b.
Proof. intros. unfold writeAt. rewrite !app_length, firstn_length, skipn_length. lia. Qed.

Lemma read_written b off s : off + length s <= length b ->
  firstn (length s) (skipn off (writeAt b off s)) = s.
Proof.
  intros. unfold writeAt. rewrite skipn_app.
  rewrite skipn_all2 by (rewrite firstn_length; lia).
  rewrite firstn_length, Nat.min_l by lia. rewrite Nat.sub_diag. cbn [skipn app].
  rewrite firstn_app, firstn_all, Nat.sub_diag. cbn. apply app_nil_r.
Qed.

Lemma read_below b off s o n : off + length s <= length b -> o + n <= off ->
  firstn n (skipn o (writeAt b off s)) = firstn n (skipn o b).
Proof.
  intros. unfold writeAt. rewrite skipn_app, firstn_app.
  rewrite skipn_length, firstn_length, Nat.min_l by lia.
  replace (n - (off - o)) with 0 by lia. cbn [firstn]. rewrite app_nil_r.
  rewrite skipn_firstn_comm, firstn_firstn, Nat.min_l by lia. reflexivity.
Qed.

(** Creating a copy disturbs no earlier view and the new view reads back. *)
Lemma copy_ok m s m' v :
  (curEnd m <= length (nth (pred (length (blocks m))) (blocks m) [])) ->
  curOff m <= curEnd m -> (forall n, length (junk n) = n) ->
  createCopy junk m s = (m', v) ->
  read (blocks m') v = s /\ inBlock (blocks m') (curOff m') v /\
  (curEnd m' <= length (nth (pred (length (blocks m'))) (blocks m') [])) /\
  curOff m' <= curEnd m' /\ bases m' = bases m /\
  forall u, inBlock (blocks m) (curOff m) u ->
    inBlock (blocks m') (curOff m') u /\ read (blocks m') u = read (blocks m) u.
Proof.
  intros H1 H2 HJ. unfold createCopy. destruct (Nat.leb_spec (curOff m + length s) (curEnd m)) as [L|L]; intros E.
  - injection E as <- <-. cbn [blocks curOff curEnd bases]. rewrite updNth_length.
    remember (pred (length (blocks m))) as i eqn:Ei.
    destruct (blocks m) as [|b0 bs] eqn:Eb.
    { subst i; cbn in H1. assert (length s = 0) by lia. destruct s; [|discriminate].
      cbn in *. split; [reflexivity|]. split; [left; reflexivity|]. split; [lia|]. split; [lia|].
      split; [reflexivity|]. intros u [Hu|(U1 & _)]; [|cbn in U1; lia].
      split; [left; auto|reflexivity]. }
    rewrite <- Eb in *. assert (Hi : i < length (blocks m)) by (rewrite Ei, Eb; cbn; lia).
    unfold read at 1; cbn [vblk voff vlen]. rewrite updNth_same by auto.
    rewrite read_written by lia. split; auto. split.
    { right. cbn [vblk voff vlen]. rewrite updNth_length, updNth_same by auto.
      rewrite writeAt_length by lia. lia. }
    split. { rewrite writeAt_length by lia. lia. }
    split; [lia|]. split; [reflexivity|]. intros u [Hu|(U1 & U2 & U3)].
    { split; [left; auto|]. unfold read. rewrite Hu. reflexivity. }
    unfold read, inBlock. rewrite updNth_length. rewrite <- Ei in *.
    destruct (Nat.eq_dec (vblk u) i) as [E|Hne].
    + rewrite E in *. specialize (U3 eq_refl). rewrite updNth_same by auto. rewrite writeAt_length by lia.
      split; [right; lia|]. apply read_below; lia.
    + rewrite updNth_other by auto. split; auto. right. intuition lia.
  - injection E as <- <-. cbn [blocks curOff curEnd bases]. rewrite app_length. cbn [length].
    replace (pred (length (blocks m) + 1)) with (length (blocks m)) by lia.
    unfold read at 1; cbn [vblk voff vlen]. rewrite app_nth2, Nat.sub_diag by lia. cbn [nth].
    set (a := Nat.max (length s) blockSize). assert (length s <= a) by (unfold a; lia).
    rewrite read_written by (rewrite HJ; lia). split; auto. split.
    { right. cbn [vblk voff vlen]. rewrite app_length. cbn [length].
      rewrite app_nth2, Nat.sub_diag by lia. cbn [nth]. rewrite writeAt_length, HJ by (rewrite HJ; lia). lia. }
    split. { rewrite writeAt_length, HJ by (rewrite HJ; lia). lia. }
    split; [lia|]. split; [reflexivity|]. intros u [Hu|(U1 & U2 & U3)].
    { split; [left; auto|]. unfold read. rewrite Hu. reflexivity. }
    unfold read, inBlock. rewrite app_length, app_nth1 by lia. cbn [length]. split; auto.
    right. split; [lia|]. split; [lia|]. lia.
Qed.

Hypothesis junk_length : forall n, length (junk n) = n.

(** One interning step. *)
Lemma create_ok m s m' h : good m -> create m s = (m', h) ->
  good m' /\ read (blocks m') (storage h) = s /\ shash h = hash s /\ sid h = (-1)%Z /\
  In (storage h, shash h) (bases m') /\
  forall e, In e (bases m) -> In e (bases m') /\ read (blocks m') (fst e) = read (blocks m) (fst e).
Proof.
  intros (G1 & G2 & G3 & G4). unfold create.
  destruct (find _ (bases m)) as [e|] eqn:F.
  - apply find_some in F as [F1 F2]. apply bytes_eqb_eq in F2.
    intros E; injection E as <- <-. cbn [storage shash sid].
    rewrite Forall_forall in G3. destruct (G3 e F1) as [_ Hh].
    split; [repeat split; auto; apply Forall_forall; auto|].
    repeat split; auto. congruence. destruct e; auto.
  - destruct (createCopy junk m s) as [m1 v] eqn:C.
    destruct (copy_ok m s m1 v G1 G2 junk_length C) as (R & V & G1' & G2' & B & K).
    intros E; injection E as <- <-. cbn [blocks curOff curEnd bases storage shash sid].
    rewrite R, B.
    assert (KE : forall e, In e (bases m) -> inBlock (blocks m1) (curOff m1) (fst e) /\ read (blocks m1) (fst e) = read (blocks m) (fst e)).
    { intros e He. rewrite Forall_forall in G3. apply K. now apply G3. }
    split; [split; [exact G1'|split; [exact G2'|split]]|].
    + cbn [blocks curOff bases]. apply Forall_app. split.
      * apply Forall_forall. intros e He. destruct (KE e He) as [A1 A2]. split; auto.
        rewrite A2. rewrite Forall_forall in G3. now apply G3.
      * constructor; auto. cbn. now rewrite R.
    + cbn [blocks bases]. rewrite map_app. cbn. rewrite R.
      rewrite (map_ext_in _ (fun e => read (blocks m) (fst e))) by (intros e He; now apply KE).
      apply NoDup_rev in G4. rewrite <- (rev_involutive (map _ (bases m))).
      change [s] with (rev [s]). rewrite <- rev_app_distr. apply NoDup_rev. cbn. constructor; auto.
      rewrite <- in_rev, in_map_iff. intros (e & He1 & He2).
      pose proof (find_none _ _ F e He2) as N. cbn in N. apply bytes_eqb_eq in He1. congruence.
    + repeat split; auto.
      * apply in_or_app. right. left. reflexivity.
      * apply in_or_app. now left.
      * now apply KE.
Qed.

Lemma good_empty : good empty.
Proof. repeat split; cbn; auto. constructor. Qed.

(** What a history of internings guarantees about all its handles. *)
Lemma internAll_ok : forall l m m' hs, good m -> internAll m l = (m', hs) ->
  good m' /\ map (fun h => read (blocks m') (storage h)) hs = l /\
  Forall (fun h => shash h = hash (read (blocks m') (storage h)) /\ sid h = (-1)%Z /\
                   In (storage h, shash h) (bases m')) hs /\
  forall e, In e (bases m) -> In e (bases m') /\ read (blocks m') (fst e) = read (blocks m) (fst e).
Proof.
  induction l as [|s l IH]; intros m m' hs G E; cbn in E.
  - injection E as <- <-. repeat split; auto; apply G.
  - destruct (create m s) as [m1 h] eqn:C. destruct (internAll m1 l) as [m2 hs'] eqn:I.
    injection E as <- <-.
    destruct (create_ok m s m1 h G C) as (G1 & R & Hh & Hi & B & K).
    destruct (IH m1 m2 hs' G1 I) as (G2 & M & F & K2).
    destruct (K2 _ B) as [B2 R2]. cbn [fst] in R2.
    split; auto. split; [cbn; rewrite R2, R, M; reflexivity|]. split.
    + constructor; auto. rewrite R2, R. auto.
    + intros e He. destruct (K e He) as [A1 A2]. destruct (K2 e A1) as [A3 A4]. split; auto. congruence.
Qed.

(** C21: after any history of internings, every handle ever handed out still
    resolves to its own string; two handles compare equal exactly when they were
    created from equal strings (whatever the hash function does); and equal
    strings share their storage. *)
Theorem C21_interning_injective_and_stable :
  forall l m hs i j, internAll empty l = (m, hs) -> i < length l -> j < length l ->
  let d := mkStr (mkV 0 0 0) 0 0 in
  length hs = length l /\
  read (blocks m) (storage (nth i hs d)) = nth i l [] /\
  (str_eqb (blocks m) (nth i hs d) (nth j hs d) = true <-> nth i l [] = nth j l []) /\
  (nth i l [] = nth j l [] -> nth i hs d = nth j hs d).
Proof.
  intros l m hs i j E Hi Hj d.
  destruct (internAll_ok l empty m hs good_empty E) as (G & M & F & _).
  assert (L : length hs = length l) by (rewrite <- M, map_length; reflexivity).
  assert (R : forall k, k < length l -> read (blocks m) (storage (nth k hs d)) = nth k l []).
  { intros k Hk. rewrite <- M. rewrite (nth_indep _ [] (read (blocks m) (storage d))) by (rewrite map_length; lia).
    now rewrite (map_nth (fun h => read (blocks m) (storage h))). }
  rewrite Forall_forall in F.
  destruct (F (nth i hs d)) as (H1 & I1 & B1); [apply nth_In; lia|].
  destruct (F (nth j hs d)) as (H2 & I2 & B2); [apply nth_In; lia|].
  split; auto. split; auto. split.
  - unfold str_eqb. rewrite H1, H2, I1, I2, !R by auto. split.
    + destruct (Z.eqb _ _); cbn; [|discriminate]. rewrite andb_true_r. apply bytes_eqb_eq.
    + intros ->. rewrite Z.eqb_refl. cbn. rewrite andb_true_r. now apply bytes_eqb_eq.
  - intros Q. destruct G as (_ & _ & _ & ND).
    assert (EE : (storage (nth i hs d), shash (nth i hs d)) = (storage (nth j hs d), shash (nth j hs d))).
    { assert (NI : forall (es : list (sview * Z)) a b, NoDup (map (fun e => read (blocks m) (fst e)) es) ->
        In a es -> In b es -> read (blocks m) (fst a) = read (blocks m) (fst b) -> a = b).
      { clear. induction es as [|e es IH]; cbn; [tauto|]. intros a b N [->|Ha] [->|Hb] Q; auto.
        - inversion N; subst. exfalso. apply H1. rewrite Q. now apply (in_map (fun e => read (blocks m) (fst e))).
        - inversion N; subst. exfalso. apply H1. rewrite <- Q. now apply (in_map (fun e => read (blocks m) (fst e))).
        - inversion N; subst. auto. }
      apply (NI (bases m)); auto. cbn [fst]. rewrite !R by auto. exact Q. }
    destruct (nth i hs d) as [a1 a2 a3], (nth j hs d) as [b1 b2 b3]; cbn in *. congruence.
Qed.

(** Numbered variants of a name stay apart: handles with ids are equal exactly
    when both the text and the id agree, and dropping the id gives the base back. *)
Theorem C21_numbered_names_distinct :
  forall l m hs i j a b, internAll empty l = (m, hs) -> i < length l -> j < length l ->
  let d := mkStr (mkV 0 0 0) 0 0 in
  (str_eqb (blocks m) (withID (nth i hs d) a) (withID (nth j hs d) b) = true
     <-> nth i l [] = nth j l [] /\ a = b) /\
  withoutID (withID (nth i hs d) a) = nth i hs d /\
  withDefaultID (nth i hs d) a = withID (nth i hs d) a /\
  (forall s, str_eqs (blocks m) (nth i hs d) s = true <-> s = nth i l []).
Proof.
  intros l m hs i j a b E Hi Hj d.
  destruct (C21_interning_injective_and_stable l m hs i j E Hi Hj) as (L & R & Q & S).
  destruct (internAll_ok l empty m hs good_empty E) as (G & M & F & _). rewrite Forall_forall in F.
  fold d in R, Q, S.
  destruct (F (nth i hs d)) as (H1 & I1 & B1); [apply nth_In; lia|].
  destruct (F (nth j hs d)) as (H2 & I2 & B2); [apply nth_In; lia|].
  split; [|split; [|split]].
  - unfold str_eqb in *. cbn [withID shash storage sid] in *. rewrite I1, I2 in Q. rewrite Z.eqb_refl, andb_true_r in Q.
    destruct (Z.eqb (shash (nth i hs d)) (shash (nth j hs d))); cbn [negb] in *.
    + rewrite andb_true_iff, Z.eqb_eq, Q. tauto.
    + split; [discriminate|]. intros [K _]. apply Q in K. discriminate.
  - unfold withoutID, withID; cbn. destruct (nth i hs d); cbn in *. congruence.
  - unfold withDefaultID, withID. rewrite I1. reflexivity.
  - intros s. unfold str_eqs. rewrite I1, R. cbn. rewrite bytes_eqb_eq. split; congruence.
Qed.
End Hash.

(** A history with a duplicate, a hash function where everything collides, and
    the two equal strings sharing storage. *)
Example C21_example :
  let '(m, hs) := internAll (fun _ => 7%Z) (fun n => repeat 0%Z n) empty
                    [[97; 98]; [99]; [97; 98]; []]%Z in
  map storage hs = [mkV 0 0 2; mkV 0 2 1; mkV 0 0 2; mkV 0 3 0] /\
  map (fun h => read (blocks m) (storage h)) hs = [[97; 98]; [99]; [97; 98]; []]%Z.
Proof. vm_compute. split; reflexivity. Qed.
