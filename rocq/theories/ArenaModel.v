(** * The arena allocator (property C20)

    Model of [cmmc/Support/Arena.cpp] 24-75 and of the wrapper
    [ArenaAllocator] of [Arena.hpp] 72-103.  Addresses are unbounded integers
    (simplification: no wrap-around of [uintptr_t]; alignments need not be
    powers of two).  [malloc]/[aligned_alloc] are modelled by their contract:
    they return any address of a region of the requested size that is aligned
    and disjoint from every region obtained before and not yet freed. *)

From Coq Require Import ZArith List Lia Bool.
Import ListNotations.
Local Open Scope Z_scope.

(** a region obtained from the system: base and length *)
Definition region := (Z * Z)%type.

(** Arena.hpp 36-41 (the length of a block is ghost information) *)
Record arena := mkA { mBlocks : list region; mLarge : list region; mPtr : Z; mEnd : Z }.

Definition blockSize : Z := 32 * 4096.                          (* Arena.cpp:24 *)
Definition arena0 := mkA [] [] 0 0.                             (* :26 *)
Definition roundUp (ptr al : Z) : Z := (ptr + al - 1) / al * al. (* :37-39 alloc *)

Inductive need := Large | NewBlock | Bump.
Definition needs (a : arena) (size al : Z) : need :=
  if blockSize <=? size then Large
  else if mEnd a <? roundUp (mPtr a) al + size then NewBlock else Bump.

(** Arena.cpp:41-67 allocate; [p] is what aligned_alloc returns if it is called *)
Definition allocate (a : arena) (p size al : Z) : arena * Z :=
  match needs a size al with
  | Large => (mkA (mBlocks a) ((p, size) :: mLarge a) (mPtr a) (mEnd a), p)
  | NewBlock =>
      let bs := (p, blockSize) :: mBlocks a in
      if mEnd a - mPtr a <? blockSize - size
      then (mkA bs (mLarge a) (p + size) (p + blockSize), p)
      else (mkA bs (mLarge a) (mPtr a) (mEnd a), p)
  | Bump =>
      let q := roundUp (mPtr a) al in
      (mkA (mBlocks a) (mLarge a) (q + size) (mEnd a), q)
  end.

(** Arena.cpp:68-73 deallocate: the freed pointer, if any *)
Definition deallocate (a : arena) (p size : Z) : arena * option Z :=
  if blockSize <=? size
  then (mkA (mBlocks a) (filter (fun r => negb (fst r =? p)) (mLarge a)) (mPtr a) (mEnd a), Some p)
  else (a, None).

Definition owned a := mBlocks a ++ mLarge a.
Definition apart (r s : region) : Prop := fst r + snd r <= fst s \/ fst s + snd s <= fst r.

(** contract of aligned_alloc(al, len) *)
Definition fresh a (p len al : Z) : Prop :=
  0 < p /\ p mod al = 0 /\ forall r, In r (owned a) -> apart (p, len) r.

(** A live allocation: address, element count, element size, alignment.  The
    wrapper allocates [n * esz] bytes but releases with [n] (Arena.hpp:88-94). *)
Record obj := mkO { oaddr : Z; on : Z; oesz : Z; oal : Z }.
Definition obytes o := on o * oesz o.
Definition extent o : region := (oaddr o, obytes o).

(** Histories of the arena: the arena, the live objects, the pointers freed. *)
Inductive reach : arena -> list obj -> list Z -> Prop :=
| r_init : reach arena0 [] []
| r_alloc a L F p n esz al a' q :
    reach a L F -> 0 <= n -> 0 < esz -> 0 < al ->
    (match needs a (n * esz) al with
     | Large => fresh a p (n * esz) al
     | NewBlock => fresh a p blockSize al
     | Bump => True end) ->
    allocate a p (n * esz) al = (a', q) ->
    reach a' (mkO q n esz al :: L) F
| r_dealloc a L1 o L2 F a' f :
    reach a (L1 ++ o :: L2) F -> deallocate a (oaddr o) (on o) = (a', f) ->
    reach a' (L1 ++ L2) (match f with Some p => p :: F | None => F end).

(** ** Invariant *)

Definition inside (o r : region) := fst r <= fst o /\ fst o + snd o <= fst r + snd r.

Fixpoint pairwise {A} (P : A -> A -> Prop) (l : list A) : Prop :=
  match l with [] => True | x :: l => (forall y, In y l -> P x y) /\ pairwise P l end.

Definition placed a (o : obj) : Prop :=
  obytes o = 0 \/
  0 < obytes o /\
  ( (blockSize <= obytes o /\ In (extent o) (mLarge a)) \/
    (obytes o < blockSize /\ exists b, In (b, blockSize) (mBlocks a) /\ inside (extent o) (b, blockSize) /\
       (mEnd a = b + blockSize -> oaddr o + obytes o <= mPtr a))).

Definition inv a L :=
  pairwise apart (owned a) /\
  (forall r, In r (mBlocks a) -> snd r = blockSize) /\
  (forall r, In r (mLarge a) -> blockSize <= snd r) /\
  ((mPtr a = 0 /\ mEnd a = 0 /\ mBlocks a = []) \/
   exists b, In (b, blockSize) (mBlocks a) /\ mEnd a = b + blockSize /\ b <= mPtr a <= mEnd a) /\
  (forall r, In r (owned a) -> 0 < fst r) /\
  (forall o, In o L -> 0 <= on o /\ 0 < oesz o /\ 0 < oal o /\ oaddr o mod oal o = 0 /\ placed a o) /\
  pairwise (fun o o' => obytes o = 0 \/ obytes o' = 0 \/ apart (extent o) (extent o')) L.

Lemma roundUp_spec p al : 0 < al -> p <= roundUp p al /\ roundUp p al mod al = 0.
Proof.
  intros. unfold roundUp. split; [|apply Z.mod_mul; lia].
  pose proof (Z.div_mod (p + al - 1) al ltac:(lia)). pose proof (Z.mod_pos_bound (p + al - 1) al ltac:(lia)). lia.
Qed.

Lemma pairwise_mid {A} (P : A -> A -> Prop) l1 x l2 : (forall a b, P a b -> P b a) ->
  pairwise P (l1 ++ x :: l2) <-> (pairwise P (l1 ++ l2) /\ forall y, In y (l1 ++ l2) -> P x y).
Proof.
  intros S. induction l1 as [|a l1 IH]; cbn.
  - tauto.
  - rewrite IH. split.
    + intros (H1 & H2 & H3). repeat split; auto.
      * intros y Hy. apply H1. apply in_or_app. apply in_app_or in Hy. cbn. tauto.
      * intros y [<-|Hy]; auto. apply S, H1. apply in_or_app. cbn. auto.
    + intros ((H1 & H2) & H3). repeat split; auto.
      intros y Hy. apply in_app_or in Hy. destruct Hy as [Hy|[<-|Hy]].
      * apply H1, in_or_app. auto.
      * apply S, H3. auto.
      * apply H1, in_or_app. auto.
Qed.

Lemma apart_sym r s : apart r s -> apart s r.
Proof. unfold apart. tauto. Qed.

Lemma pairwise_filter {A} (P : A -> A -> Prop) f l1 l2 :
  pairwise P (l1 ++ l2) -> pairwise P (l1 ++ filter f l2).
Proof.
  assert (F : forall l, pairwise P l -> pairwise P (filter f l)).
  { induction l as [|x l IH]; cbn; auto. intros (H1 & H2). destruct (f x); cbn; auto.
    split; auto. intros y Hy. apply filter_In in Hy. apply H1. tauto. }
  induction l1 as [|x l1 IH]; cbn; auto. intros (H1 & H2). split; auto.
  intros y Hy. apply H1. apply in_or_app. apply in_app_or in Hy. destruct Hy as [Hy|Hy]; auto.
  apply filter_In in Hy. tauto.
Qed.

Lemma pairwise_in {A} (P : A -> A -> Prop) l x y : (forall a b, P a b -> P b a) ->
  pairwise P l -> In x l -> In y l -> x = y \/ P x y.
Proof.
  intros S. induction l as [|a l IH]; cbn; [tauto|]. intros (H1 & H2) [->|Hx] [->|Hy]; auto.
Qed.

(** Two blocks with the same end are the same. *)
Lemma same_block a L b b' : inv a L -> In (b, blockSize) (mBlocks a) -> In (b', blockSize) (mBlocks a) ->
  b = b' \/ apart (b, blockSize) (b', blockSize).
Proof.
  intros (P & _) H1 H2.
  destruct (pairwise_in apart (owned a) (b, blockSize) (b', blockSize) apart_sym P) as [E|E];
    try (apply in_or_app; auto); auto. left. congruence.
Qed.

Lemma bs_pos : 0 < blockSize. Proof. reflexivity. Qed.

(** The region around an object lies in an owned region. *)
Lemma placed_owned a o : placed a o -> obytes o = 0 \/ exists r, In r (owned a) /\ inside (extent o) r.
Proof.
  intros [H|(H & [(H1 & H2)|(H1 & b & H2 & H3 & H4)])]; auto; right.
  - exists (extent o). split; [apply in_or_app; auto|]. unfold inside. lia.
  - exists (b, blockSize). split; [apply in_or_app; auto|]. auto.
Qed.

Lemma inside_apart o r s : inside o r -> apart s r -> apart s o.
Proof. unfold inside, apart. lia. Qed.

Lemma inside_apart_r o o' r s : inside o r -> inside o' s -> apart r s -> apart o o'.
Proof. unfold inside, apart. lia. Qed.

Lemma inv_alloc a L p n esz al a' q :
  inv a L -> 0 <= n -> 0 < esz -> 0 < al ->
  (match needs a (n * esz) al with
   | Large => fresh a p (n * esz) al
   | NewBlock => fresh a p blockSize al
   | Bump => True end) ->
  allocate a p (n * esz) al = (a', q) ->
  inv a' (mkO q n esz al :: L).
Proof.
  intros HI Hn He Ha Hf Hal. pose proof bs_pos as BP.
  pose proof HI as (I1 & I2 & I3 & I4 & I5 & I6 & I7).
  assert (Hsz : 0 <= n * esz) by nia. set (size := n * esz) in *.
  unfold allocate in Hal. unfold needs in *.
  destruct (Z.leb_spec blockSize size) as [Q1|Q1].
  { (* large *)
    injection Hal as <- <-. destruct Hf as (F1 & F2 & F3).
    assert (D : forall o, In o L -> obytes o = 0 \/ apart (p, size) (extent o)).
    { intros o Ho. destruct (I6 o Ho) as (_ & _ & _ & _ & P).
      destruct (placed_owned a o P) as [|(r & R1 & R2)]; auto. right. eapply inside_apart; eauto. }
    unfold inv, owned in *; cbn [mBlocks mLarge mPtr mEnd] in *. split; [|split; [|split; [|split; [|split; [|split]]]]]; auto.
    - apply pairwise_mid; [apply apart_sym|]. split; auto.
    - intros r [<-|Hr]; auto.
    - intros r Hr. apply in_app_or in Hr. destruct Hr as [Hr|[<-|Hr]]; cbn; auto; apply I5, in_or_app; auto.
    - intros o [<-|H]; (split; [|split; [|split; [|split]]]); try (now apply I6); auto.
      + right. unfold extent. change (obytes (mkO p n esz al)) with size. split; [lia|]. left. split; [lia|]. left. reflexivity.
      + destruct (I6 o H) as (_ & _ & _ & _ & [P|(P1 & [(P2 & P3)|(P2 & P3)])]); [left; auto|right|right]; split; auto.
        left. split; auto. cbn. auto.
    - split; [|auto]. intros o Ho. unfold extent at 1; change (obytes (mkO _ n esz al)) with size; cbn [oaddr]. destruct (D o Ho); auto. }
  destruct (Z.ltb_spec (mEnd a) (roundUp (mPtr a) al + size)) as [Q2|Q2].
  - (* new block *)
    destruct Hf as (F1 & F2 & F3).
    assert (D : forall o, In o L -> obytes o = 0 \/ apart (p, size) (extent o)).
    { intros o Ho. destruct (I6 o Ho) as (_ & _ & _ & _ & P).
      destruct (placed_owned a o P) as [|(r & R1 & R2)]; auto. right.
      apply apart_sym. eapply (inside_apart_r _ _ r (p, blockSize)); auto.
      - unfold inside; cbn [fst snd]; lia.
      - apply apart_sym; auto. }
    assert (NP : forall b, In (b, blockSize) (mBlocks a) -> apart (p, blockSize) (b, blockSize)).
    { intros b Hb. apply F3, in_or_app; auto. }
    assert (X : a' = (if mEnd a - mPtr a <? blockSize - size
        then mkA ((p, blockSize) :: mBlocks a) (mLarge a) (p + size) (p + blockSize)
        else mkA ((p, blockSize) :: mBlocks a) (mLarge a) (mPtr a) (mEnd a)) /\ q = p).
    { destruct (_ <? blockSize - size); injection Hal as <- <-; auto. }
    destruct X as [-> ->]. clear Hal.
    assert (Y : forall pt en, 
       (exists b, In (b, blockSize) ((p, blockSize) :: mBlocks a) /\ en = b + blockSize /\ b <= pt <= en) ->
       (en = p + blockSize -> p + size <= pt) ->
       (forall o, In o L -> placed a o -> placed (mkA ((p, blockSize) :: mBlocks a) (mLarge a) pt en) o) ->
       inv (mkA ((p, blockSize) :: mBlocks a) (mLarge a) pt en) (mkO p n esz al :: L)).
    { intros pt en Y1 Y2 Y3. unfold inv, owned in *; cbn [mBlocks mLarge mPtr mEnd] in *. split; [|split; [|split; [|split; [|split; [|split]]]]]; auto.
      - cbn. split; auto.
      - intros r [<-|Hr]; auto.
      - intros r Hr. cbn in Hr. destruct Hr as [<-|Hr]; cbn; auto.
      - intros o [<-|H]; (split; [|split; [|split; [|split]]]); try (now apply I6); auto; [|apply Y3; auto; now apply I6].
        unfold placed, extent, inside; change (obytes (mkO _ n esz al)) with size; cbn [fst snd oaddr mBlocks mEnd mPtr mLarge].
        destruct (Z.eq_dec size 0); [left; auto|right]. split; [lia|]. right. split; [lia|].
        exists p. split; [left; reflexivity|]. split; [lia|auto].
      - split; [|auto]. intros o Ho. unfold extent at 1; change (obytes (mkO _ n esz al)) with size; cbn [oaddr]. destruct (D o Ho); auto. }
    destruct (Z.ltb_spec (mEnd a - mPtr a) (blockSize - size)).
    + apply Y.
      * exists p. split; [left; auto|]. lia.
      * lia.
      * intros o Ho [P|(P1 & [(P2 & P3)|(P2 & b & P3 & P4 & P5)])]; [left; auto|right; split; auto; left; auto|].
        right. split; auto. right. split; auto. exists b. cbn [mBlocks mEnd mPtr]. split; [right; auto|]. split; auto.
        intros E. pose proof (NP b P3) as N. unfold apart in N; cbn in N. lia.
    + apply Y.
      * destruct I4 as [(E1 & E2 & E3)|(b & B1 & B2 & B3)].
        { rewrite E1, E2 in *. unfold roundUp in Q2. lia. }
        exists b. split; [right; auto|]. auto.
      * destruct I4 as [(E1 & E2 & E3)|(b & B1 & B2 & B3)].
        { intros E. rewrite E1, E2 in *. lia. }
        intros E. pose proof (NP b B1) as N. unfold apart in N; cbn in N. lia.
      * intros o Ho [P|(P1 & [(P2 & P3)|(P2 & b & P3 & P4 & P5)])]; [left; auto|right; split; auto; left; auto|].
        right. split; auto. right. split; auto. exists b. cbn [mBlocks mEnd mPtr]. split; [right; auto|]. auto.
  - (* bump *)
    injection Hal as <- <-. destruct (roundUp_spec (mPtr a) al Ha) as [R1 R2].
    set (q := roundUp (mPtr a) al) in *.
    assert (D : size = 0 \/ forall o, In o L -> obytes o = 0 \/ apart (q, size) (extent o)).
    { destruct I4 as [(E1 & E2 & E3)|(b & B1 & B2 & B3)].
      { left. lia. }
      right. intros o Ho. destruct (I6 o Ho) as (_ & _ & _ & _ & P).
      destruct P as [P|(P1 & [(P2 & P3)|(P2 & b' & P3 & P4 & P5)])]; auto; right.
      - destruct (pairwise_in apart (owned a) (b, blockSize) (extent o) apart_sym I1) as [E|E];
          try (apply in_or_app; auto); auto.
        + exfalso. assert (blockSize = obytes o) by (unfold extent in E; congruence).
          (* a large region equal to a block cannot happen: the owned regions are pairwise apart *)
          assert (In (b, blockSize) (mLarge a)) by (rewrite E; auto).
          apply in_split in B1 as (l1 & l2 & B1). unfold owned in I1. rewrite B1, <- app_assoc in I1. cbn in I1.
          apply pairwise_mid in I1; [|apply apart_sym]. destruct I1 as [_ I1].
          specialize (I1 (b, blockSize) ltac:(rewrite app_assoc; apply in_or_app; auto)).
          unfold apart in I1; cbn in I1; lia.
        + unfold apart in *; cbn in *. lia.
      - destruct (same_block a L b b' HI B1 P3) as [<-|E].
        + specialize (P5 B2). unfold apart; cbn. lia.
        + unfold apart, inside in *; cbn in *. lia. }
    unfold inv, owned in *; cbn [mBlocks mLarge mPtr mEnd] in *. split; [|split; [|split; [|split; [|split; [|split]]]]]; auto.
    + destruct I4 as [(E1 & E2 & E3)|(b & B1 & B2 & B3)].
      * left. rewrite E1, E2 in *. unfold q, roundUp in *.
        assert ((0 + al - 1) / al = 0) by (apply Z.div_small; lia). repeat split; auto; lia.
      * right. exists b. repeat split; auto; lia.
    + intros o [<-|H]; (split; [|split; [|split; [|split]]]); try (now apply I6); auto.
      * unfold placed, extent, inside; change (obytes (mkO _ n esz al)) with size; cbn [fst snd oaddr mBlocks mEnd mPtr mLarge].
        destruct (Z.eq_dec size 0); [left; auto|right]. split; [lia|]. right. split; [lia|].
        destruct I4 as [(E1 & E2 & E3)|(b & B1 & B2 & B3)]; [lia|].
        exists b. split; auto. split; lia.
      * destruct (I6 o H) as (_ & _ & _ & _ & [P|(P1 & [(P2 & P3)|(P2 & b & P3 & P4 & P5)])]);
          [left; auto|right; split; auto; left; auto|].
        right. split; auto. right. split; auto. exists b. split; auto. split; auto.
        cbn [mEnd mPtr]. intros E. specialize (P5 E). lia.
    + split; [|auto]. intros o Ho. unfold extent at 1; change (obytes (mkO _ n esz al)) with size; cbn [oaddr]. destruct D as [D|D]; [auto|]. destruct (D o Ho); auto.
Qed.

Lemma inv_dealloc a L1 o L2 a' f :
  inv a (L1 ++ o :: L2) -> deallocate a (oaddr o) (on o) = (a', f) ->
  inv a' (L1 ++ L2) /\
  match f with
  | None => a' = a
  | Some p => p = oaddr o /\ In (extent o) (mLarge a) /\ ~ In (oaddr o) (map fst (owned a'))
  end.
Proof.
  intros (I1 & I2 & I3 & I4 & I5 & I6 & I7) Hd. pose proof bs_pos as BP.
  assert (S : forall x y, (fun o o' => obytes o = 0 \/ obytes o' = 0 \/ apart (extent o) (extent o')) x y ->
     (fun o o' => obytes o = 0 \/ obytes o' = 0 \/ apart (extent o) (extent o')) y x).
  { intros x y. cbn. pose proof (apart_sym (extent x) (extent y)). tauto. }
  apply pairwise_mid in I7; [|exact S]. destruct I7 as [I7 I8].
  assert (I6' : forall x, In x (L1 ++ L2) -> In x (L1 ++ o :: L2)).
  { intros x Hx. apply in_or_app. apply in_app_or in Hx. cbn. tauto. }
  unfold deallocate in Hd. destruct (Z.leb_spec blockSize (on o)) as [Q|Q]; injection Hd as <- <-.
  - destruct (I6 o) as (O1 & O2 & O3 & O4 & P); [apply in_or_app; cbn; auto|].
    assert (B : blockSize <= obytes o) by (unfold obytes; nia).
    destruct P as [P|(P1 & [(P2 & P3)|(P2 & _)])]; try lia.
    assert (U : forall r, In r (owned a) -> r = extent o \/ apart (extent o) r).
    { intros r Hr. destruct (pairwise_in apart (owned a) (extent o) r apart_sym I1); auto. apply in_or_app; auto. }
    split.
    + unfold inv, owned in *; cbn [mBlocks mLarge mPtr mEnd] in *. split; [|split; [|split; [|split; [|split; [|split]]]]]; auto.
      * now apply pairwise_filter.
      * intros r Hr. apply filter_In in Hr. apply I3. tauto.
      * intros r Hr. apply I5. apply in_or_app. apply in_app_or in Hr. destruct Hr as [Hr|Hr]; auto.
        apply filter_In in Hr. tauto.
      * intros o0 H. (split; [|split; [|split; [|split]]]); try (now apply I6, I6'); auto.
        destruct (I6 o0 (I6' _ H)) as (_ & _ & _ & _ & P). destruct P as [P|(P4 & [(P5 & P6)|P5])];
          [left; auto| |right; split; auto; right; auto].
        right. split; auto. left. split; auto. cbn. apply filter_In. split; auto.
        apply negb_true_iff, Z.eqb_neq. cbn. specialize (I8 o0 H). unfold apart in I8; cbn in I8. lia.
    + split; auto. split; auto. rewrite in_map_iff. intros (r & R1 & R2). unfold owned in R2; cbn in R2.
      apply in_app_or in R2. destruct R2 as [R2|R2].
      * assert (H2 := I2 r R2).
        (* a block is not the large region *)
        apply in_split in R2 as (l1 & l2 & R2). unfold owned in I1. rewrite R2, <- app_assoc in I1. cbn in I1.
        apply pairwise_mid in I1; [|apply apart_sym]. destruct I1 as [_ I1].
        specialize (I1 (extent o) ltac:(rewrite app_assoc; apply in_or_app; auto)).
        unfold apart in I1; cbn in I1; lia.
      * apply filter_In in R2 as [R2 R3]. apply negb_true_iff, Z.eqb_neq in R3. auto.
  - split; [|reflexivity]. unfold inv. split; [|split; [|split; [|split; [|split; [|split]]]]]; auto.
Qed.

Lemma inv_init : inv arena0 [].
Proof. unfold inv, owned, arena0; cbn. repeat split; auto; try (intros; contradiction). Qed.

Lemma inv_reach a L F : reach a L F -> inv a L.
Proof.
  induction 1.
  - apply inv_init.
  - eapply inv_alloc; eauto.
  - eapply inv_dealloc; eauto.
Qed.

(** ** C20 *)

(** At every point of every history, each live object is aligned and lies inside
    a region obtained from the system and not yet freed. *)
Theorem C20_live_objects_aligned_inside_owned_blocks :
  forall a L F o, reach a L F -> In o L ->
  oaddr o mod oal o = 0 /\
  (obytes o = 0 \/ exists r, In r (owned a) /\ fst r <= oaddr o /\ oaddr o + obytes o <= fst r + snd r).
Proof.
  intros a L F o R Ho. destruct (inv_reach a L F R) as (_ & _ & _ & _ & _ & I6 & _).
  destruct (I6 o Ho) as (_ & _ & _ & A & P). split; auto. apply (placed_owned a o P).
Qed.

(** No two live objects overlap. *)
Theorem C20_live_objects_disjoint :
  forall a L1 o L2 o' L3 F, reach a (L1 ++ o :: L2 ++ o' :: L3) F ->
  forall x, ~ (oaddr o <= x < oaddr o + obytes o /\ oaddr o' <= x < oaddr o' + obytes o').
Proof.
  intros a L1 o L2 o' L3 F R x [H1 H2]. destruct (inv_reach _ _ _ R) as (_ & _ & _ & _ & _ & I6 & I7).
  revert I7. clear -H1 H2. induction L1 as [|y L1 IH]; cbn.
  - intros [H _]. specialize (H o' ltac:(apply in_or_app; cbn; auto)). unfold apart, extent in H; cbn in H. lia.
  - intros [_ H]. auto.
Qed.

(** [free] is only ever called on a region that was obtained from the system as
    a whole for that object, that is still owned, and that is no longer owned
    afterwards; so no block is freed twice and no live object loses its memory
    (the destructor frees what is still owned). *)
Theorem C20_free_only_own_large_blocks :
  forall a L1 o L2 F a' p, reach a (L1 ++ o :: L2) F -> deallocate a (oaddr o) (on o) = (a', Some p) ->
  p = oaddr o /\ In (p, obytes o) (owned a) /\ ~ In p (map fst (owned a')).
Proof.
  intros a L1 o L2 F a' p R D. pose proof (inv_reach _ _ _ R) as HI.
  destruct (inv_dealloc _ _ _ _ _ _ HI D) as (_ & -> & H1 & H2). repeat split; auto.
  apply in_or_app. auto.
Qed.

(** The regions the destructor frees are pairwise different. *)
Theorem C20_destructor_frees_each_block_once :
  forall a L F, reach a L F -> NoDup (map fst (owned a)).
Proof.
  intros a L F R. destruct (inv_reach _ _ _ R) as (I1 & I2 & I3 & _).
  assert (Pos : forall r, In r (owned a) -> 0 < snd r).
  { pose proof bs_pos. intros r Hr. apply in_app_or in Hr. destruct Hr as [Hr|Hr]; [rewrite (I2 r Hr)|specialize (I3 r Hr)]; lia. }
  revert Pos I1. generalize (owned a). clear. induction l as [|r l IH]; cbn; [constructor|].
  intros P (H1 & H2). constructor; auto. rewrite in_map_iff. intros (s & E & Hs).
  specialize (H1 s Hs). pose proof (P r (or_introl eq_refl)). pose proof (P s (or_intror Hs)).
  unfold apart in H1. lia.
Qed.

(** A concrete history: a small object, a large one, a small one again, then the
    large one is released. *)
Example C20_example :
  exists a, reach a [mkO 1008 3 8 16; mkO 1000 1 5 8] [500000].
Proof.
  assert (R1 : reach (mkA [(1000, blockSize)] [] 1005 (1000 + blockSize)) [mkO 1000 1 5 8] []).
  { apply (r_alloc arena0 [] [] 1000 1 5 8 _ _ r_init); try lia; try reflexivity.
    change (needs arena0 (1 * 5) 8) with NewBlock. split; [lia|]. split; [reflexivity|]. intros r []. }
  assert (R2 : reach (mkA [(1000, blockSize)] [(500000, 200000)] 1005 (1000 + blockSize))
                     [mkO 500000 200000 1 16; mkO 1000 1 5 8] []).
  { apply (r_alloc _ _ _ 500000 200000 1 16 _ _ R1); try lia; try reflexivity.
    change (needs _ _ _) with Large. split; [lia|]. split; [reflexivity|].
    intros r [<-|[]]. unfold apart, blockSize; cbn [fst snd]. lia. }
  assert (R3 : reach (mkA [(1000, blockSize)] [(500000, 200000)] 1032 (1000 + blockSize))
                     [mkO 1008 3 8 16; mkO 500000 200000 1 16; mkO 1000 1 5 8] []).
  { apply (r_alloc _ _ _ 0 3 8 16 _ _ R2); try lia; try reflexivity. }
  eexists. eapply (r_dealloc _ [mkO 1008 3 8 16] (mkO 500000 200000 1 16) [mkO 1000 1 5 8] _ _ (Some 500000)).
  - exact R3.
  - reflexivity.
Qed.
