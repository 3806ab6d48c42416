(** * C16: stack and global allocations of the interpreter over all histories *)
From Coq Require Import ZArith Lia Bool List Permutation ZifyBool Znumtheory.
From Verif Require Import Word IR ConstFold MemModel MemProofs.
Import ListNotations.
Local Open Scope Z_scope.

(** ** Specification: histories of allocations, calls, returns and accesses *)

(** a live stack allocation and a global: address, size, alignment *)
Record blk := mkB { ba : Z; bsz : Z; bal : Z }.
Record gblk := mkG { gid : nat; ga : Z; gsz : Z; gal : Z; gro : bool }.
Definition inB (a : Z) (b : blk) : bool := (ba b <=? a) && (a <? ba b + bsz b).
Definition inG (a : Z) (g : gblk) : bool := (ga g <=? a) && (a <? ga g + gsz g).

(** [reach m fs gl]: a history of the interpreter that leads to memory [m], the frames on the
    call stack (innermost first) having the live allocations [fs] (newest first), and the
    globals materialised so far being [gl] (newest first).  The address space is not
    exhausted: an allocation must end below the end of its region. *)
Inductive reach : mem -> list (list blk) -> list gblk -> Prop :=
| R_init : reach mem0 [[]] []
| R_alloc : forall m f fs gl size al m' a,
    reach m (f :: fs) gl -> 1 <= size -> (exists k, 0 <= k <= 60 /\ al = 2 ^ k) ->
    topEnd m + al + size <= globalOffset - stackOffset ->
    stackPush m size al = (m', a) ->
    reach m' ((mkB a size al :: f) :: fs) gl
| R_call : forall m fs gl, reach m fs gl -> reach m ([] :: fs) gl
| R_ret : forall m f fs gl order,
    reach m (f :: fs) gl -> Permutation order (map ba f) ->
    reach (fold_left stackPop order m) fs gl
| R_global : forall m fs gl g size al ini ro m' a,
    reach m fs gl -> 1 <= size -> (exists k, 0 <= k <= 60 /\ al = 2 ^ k) ->
    (forall bs, ini = Some bs -> Z.of_nat (length bs) = size) ->
    ssize (gs m) + al + size <= 18446744073709551616 - globalOffset ->
    getGlobal m g size al ini ro = (m', a) ->
    ~ In g (map gid gl) ->
    reach m' fs (mkG g a size al ro :: gl)
| R_store : forall m fs gl p v, reach m fs gl -> addr p -> reach (store m p v) fs gl
| R_load : forall m fs gl p, reach m fs gl -> addr p -> reach (fst (load m p)) fs gl.

Definition apart (x y : Z * Z) : Prop := fst x + snd x <= fst y \/ fst y + snd y <= fst x.
Definition extent (fs : list (list blk)) (gl : list gblk) : list (Z * Z) :=
  map (fun b => (ba b, bsz b)) (concat fs) ++ map (fun g => (ga g, gsz g)) gl.

(** ** Cells of a storage, seen as total *)
Definition pc (s : stor) (i : Z) : cell := if i <? ssize s then cells s i else invalid.
Lemma u64_sub a o : addr a -> 0 <= o < 18446744073709551616 ->
  u64 (a - o) = if o <=? a then a - o else a - o + 18446744073709551616.
Proof.
  unfold addr, u64. intros A O. destruct (o <=? a) eqn:E.
  - apply Z.mod_small. lia.
  - symmetry. apply Z.mod_unique with (q := -1); lia.
Qed.
Lemma view_pc m a : addr a ->
  view m a = if globalOffset <=? a then pc (gs m) (a - globalOffset)
             else pc (ss m) (if stackOffset <=? a then a - stackOffset else a - stackOffset + 18446744073709551616).
Proof.
  intros A. unfold view, pc. destruct (globalOffset <=? a) eqn:G.
  - rewrite u64_sub by (unfold globalOffset in *; try assumption; lia). rewrite G. reflexivity.
  - rewrite u64_sub by (unfold stackOffset in *; try assumption; lia). reflexivity.
Qed.

Lemma pc_padtag s base al size i :
  0 <= base -> 0 < al -> 0 <= size -> 0 <= i ->
  let pos := padPos base al in
  pc (setTag (fst (paddingTo s base al)) pos size true true) i =
    if (pos <=? i) && (i <? pos + size) then mkC true true (byte (pc (setTag (fst (paddingTo s base al)) pos size true true) i))
    else if (base <=? i) && (i <? pos) then invalid else pc s i.
Proof.
  intros HB HA HS HI pos. unfold pc, setTag, paddingTo. cbn [fst]. fold pos. unfold setRange, extendTo.
  cbn [ssize cells].
  repeat (match goal with |- context [if ?c <? ?d then mkStor _ _ else _] => destruct (c <? d) eqn:?; cbn [ssize cells] in * end).
  all: destruct ((pos <=? i) && (i <? pos + size)) eqn:?.
  all: destruct ((base <=? i) && (i <? pos)) eqn:?.
  all: cbn [byte].
  all: repeat (match goal with |- context [if ?c then _ else _] => destruct c eqn:?; cbn [byte] in * end).
  all: try reflexivity; try lia.
Qed.
Lemma pad_gt base al : 0 <= base -> 0 < al -> base < padPos base al <= base + al.
Proof.
  intros B A. unfold padPos. pose proof (Z.div_mod base al ltac:(lia)). pose proof (Z.mod_pos_bound base al A). nia.
Qed.
Lemma pad_size s base al size : 0 <= base -> 0 < al -> 0 <= size ->
  let pos := padPos base al in
  let s' := setTag (fst (paddingTo s base al)) pos size true true in
  ssize s <= ssize s' /\ pos + size <= ssize s' /\ ssize s' = Z.max (ssize s) (pos + size).
Proof.
  intros HB HA HS pos s'. subst s'. unfold setTag, paddingTo. cbn [fst]. fold pos. unfold setRange, extendTo.
  cbn [ssize]. destruct (ssize s <? pos) eqn:?; cbn [ssize].
  all: repeat (match goal with |- context [if ?c <? ?d then mkStor _ _ else _] => destruct (c <? d) eqn:?; cbn [ssize cells] in * end).
  all: pose proof (pad_gt base al HB HA); fold pos in H; lia.
Qed.

(** ** Releasing in any order *)
Definition inR (i : Z) (x : Z * Z) : bool := (fst x <=? i) && (i <? snd x).
Definition clr (c : cell) : cell := mkC false false (byte c).
(** [m'] is [m] after popping the allocations [P] *)
Definition poppedOff (m m' : mem) (P : list (Z * Z)) : Prop :=
  gs m' = gs m /\ galloc m' = galloc m /\ err m' = err m /\ ssize (ss m') = ssize (ss m) /\
  forall i, cells (ss m') i = if existsb (inR i) P then clr (cells (ss m) i) else cells (ss m) i.
Lemma poppedOff_trans a b c P Q : poppedOff a b P -> poppedOff b c Q -> poppedOff a c (P ++ Q).
Proof.
  intros (A1 & A2 & A3 & A4 & A5) (B1 & B2 & B3 & B4 & B5). repeat (split; [congruence|]).
  intros i. rewrite existsb_app, B5, A5. destruct (existsb (inR i) Q), (existsb (inR i) P); reflexivity.
Qed.
Lemma popOne_off m b e r : salloc m = (b, e) :: r -> 0 <= b <= e -> e <= ssize (ss m) ->
  salloc (popOne m) = r /\ popped (popOne m) = popped m /\ poppedOff m (popOne m) [(b, e)].
Proof.
  intros S R L. unfold popOne. rewrite S. cbn [salloc popped]. split; [reflexivity|]. split; [reflexivity|].
  unfold poppedOff. cbn [gs galloc err ss]. repeat (split; [reflexivity|]).
  unfold setTag, setRange, extendTo. replace (b + (e - b)) with e by lia.
  replace (ssize (ss m) <? e) with false by lia. cbn [ssize cells]. split; [reflexivity|].
  intros i. cbn [existsb]. unfold inR. cbn [fst snd]. rewrite orb_false_r. reflexivity.
Qed.

Lemma filter_perm b l : NoDup l -> In b l -> Permutation l (b :: filter (fun x => negb (x =? b)) l).
Proof.
  induction l as [|x l IH]; intros N I; [destruct I|].
  inversion N as [|? ? N1 N2]; subst. cbn [filter].
  destruct (x =? b) eqn:E; cbn [negb].
  - assert (x = b) by lia. subst x. apply perm_skip.
    clear IH N2 I N E. induction l as [|y l IH]; [constructor|]. cbn [filter].
    replace (y =? b) with false by (cbn in N1; lia). cbn [negb]. apply perm_skip. apply IH. cbn in N1. tauto.
  - destruct I as [->|I]; [lia|]. rewrite perm_swap. apply perm_skip. apply IH; assumption.
Qed.
Lemma zmem_In x l : zmem x l = true <-> In x l.
Proof.
  unfold zmem. rewrite existsb_exists. split.
  - intros (y & H & E). assert (x = y) by lia. subst; exact H.
  - intros H. exists x. split; [exact H|lia].
Qed.

Lemma NoDup_app_remove_l {A} (l l' : list A) : NoDup (l ++ l') -> NoDup l'.
Proof. induction l as [|x l IH]; intros H; [exact H|]. apply IH. cbn in H. inversion H; assumption. Qed.
Lemma NoDup_app_remove_r {A} (l l' : list A) : NoDup (l ++ l') -> NoDup l.
Proof.
  induction l as [|x l IH]; intros H; [constructor|]. cbn in H. inversion H as [|? ? X Y]; subst.
  constructor; [|apply IH; exact Y]. intros I. apply X. apply in_or_app. left. exact I.
Qed.

Lemma popLoop_spec fuel : forall m T B,
  (length T < fuel)%nat -> salloc m = T ++ B -> B <> [] ->
  NoDup (map fst (T ++ B)) -> NoDup (popped m) -> incl (popped m) (map fst T) ->
  Forall (fun x => 0 <= fst x <= snd x /\ snd x <= ssize (ss m)) T ->
  exists T1 T2, T = T1 ++ T2 /\ salloc (popLoop fuel m) = T2 ++ B /\
    poppedOff m (popLoop fuel m) T1 /\
    Permutation (popped m) (map fst T1 ++ popped (popLoop fuel m)) /\
    match T2 with [] => True | x :: _ => ~ In (fst x) (popped (popLoop fuel m)) end.
Proof.
  induction fuel as [|fuel IH]; intros m T B L S NB ND NP IN F; [lia|].
  cbn [popLoop]. destruct T as [|(b, e) T].
  - cbn [app] in *. rewrite S. destruct B as [|(b, e) B]; [congruence|].
    destruct (zmem b (popped m)) eqn:Z.
    + apply zmem_In in Z. apply IN in Z. destruct Z.
    + exists [], []. cbn [app map]. split; [reflexivity|]. split; [exact S|]. split; [|split; [reflexivity|exact I]].
      unfold poppedOff. auto 6.
  - rewrite S. cbn [app]. destruct (zmem b (popped m)) eqn:Z.
    + apply zmem_In in Z. inversion F as [|? ? [F1 F2] F3]; subst. cbn [fst snd] in *.
      destruct (popOne_off m b e (T ++ B) S F1 F2) as (P1 & P2 & P3).
      set (m1 := popOne m) in *.
      set (m2 := mkM (gs m1) (galloc m1) (ss m1) (salloc m1) (filter (fun x => negb (x =? b)) (popped m1)) (err m1)).
      pose proof (filter_perm b (popped m) NP Z) as FP.
      assert (O2 : poppedOff m m2 [(b, e)]) by exact P3.
      assert (NDT : NoDup (map fst (T ++ B)) /\ ~ In b (map fst (T ++ B))).
      { cbn in ND. inversion ND; auto. }
      destruct (IH m2 T B) as (T1 & T2 & Q1 & Q2 & Q3 & Q4 & Q5).
      * cbn in L. lia.
      * exact P1.
      * exact NB.
      * apply NDT.
      * cbn [popped m2]. rewrite P2. apply NoDup_filter. exact NP.
      * cbn [popped m2]. rewrite P2. intros x X. apply filter_In in X. destruct X as (X1 & X2).
        apply IN in X1. cbn in X1. destruct X1 as [->|X1]; [lia|exact X1].
      * destruct O2 as (_ & _ & _ & SZ & _). rewrite SZ. exact F3.
      * exists ((b, e) :: T1), T2. split; [cbn; congruence|]. split; [exact Q2|]. split; [|split].
        -- apply (poppedOff_trans m m2 _ [(b, e)] T1 O2 Q3).
        -- cbn [map fst app]. rewrite FP. apply perm_skip. rewrite <- Q4. cbn [popped m2]. rewrite P2. reflexivity.
        -- exact Q5.
    + exists [], ((b, e) :: T). cbn [app map]. split; [reflexivity|]. split; [exact S|]. split; [|split; [reflexivity|]].
      * unfold poppedOff. auto 6.
      * cbn [fst]. intros X. apply zmem_In in X. congruence.
Qed.

Lemma pops_spec order : forall m T B,
  salloc m = T ++ B -> B <> [] -> NoDup (map fst (T ++ B)) ->
  Permutation (map (fun a => u64 (a - stackOffset)) order ++ popped m) (map fst T) ->
  match T with [] => True | x :: _ => ~ In (fst x) (popped m) end ->
  Forall (fun x => 0 <= fst x <= snd x /\ snd x <= ssize (ss m)) T ->
  let m' := fold_left stackPop order m in
  salloc m' = B /\ popped m' = [] /\ poppedOff m m' T.
Proof.
  induction order as [|a order IH]; intros m T B S NB ND PM HD F.
  - cbn [map app fold_left] in *. cbn zeta. destruct T as [|x T].
    + cbn [map] in PM. apply Permutation_sym, Permutation_nil in PM. split; [exact S|]. split; [exact PM|].
      unfold poppedOff. auto 6.
    + exfalso. apply HD. apply (Permutation_in _ (Permutation_sym PM)). left. reflexivity.
  - cbn [map app fold_left] in *. cbn zeta. set (b := u64 (a - stackOffset)) in *.
    assert (NDT : NoDup (map fst T)).
    { rewrite map_app in ND. apply NoDup_app_remove_r in ND. exact ND. }
    assert (NDA : NoDup (b :: map (fun a => u64 (a - stackOffset)) order ++ popped m)).
    { apply (Permutation_NoDup (Permutation_sym PM)). exact NDT. }
    assert (NDP : NoDup (popped m)).
    { inversion NDA as [|? ? _ X]; subst. apply NoDup_app_remove_l in X. exact X. }
    destruct T as [|(b0, e0) T].
    { cbn in PM. apply Permutation_sym, Permutation_nil in PM. discriminate. }
    assert (SP : stackPop m a = if b0 =? b then popLoop (length (salloc m)) (popOne m)
      else mkM (gs m) (galloc m) (ss m) (salloc m) (b :: popped m) (err m)).
    { unfold stackPop. fold b. rewrite S. cbn [app]. destruct (b0 =? b) eqn:E; [reflexivity|].
      destruct (zmem b (popped m)) eqn:Z; [|reflexivity]. exfalso.
      apply zmem_In in Z. inversion NDA as [|? ? X _]; subst. apply X. apply in_or_app. right. exact Z. }
    rewrite SP. destruct (b0 =? b) eqn:E.
    + assert (b0 = b) by lia. subst b0.
      inversion F as [|? ? [F1 F2] F3]; subst. cbn [fst snd] in *.
      destruct (popOne_off m b e0 (T ++ B) S F1 F2) as (P1 & P2 & P3).
      cbn [map fst] in PM. apply Permutation_cons_inv in PM.
      destruct (popLoop_spec (length (salloc m)) (popOne m) T B) as (T1 & T2 & Q1 & Q2 & Q3 & Q4 & Q5).
      * rewrite S. rewrite app_length. cbn. lia.
      * exact P1.
      * exact NB.
      * cbn in ND. inversion ND; assumption.
      * rewrite P2. exact NDP.
      * rewrite P2. intros x X. apply (Permutation_in _ PM). apply in_or_app. right. exact X.
      * destruct P3 as (_ & _ & _ & SZ & _). rewrite SZ. exact F3.
      * set (m1 := popLoop (length (salloc m)) (popOne m)) in *.
        rewrite P2 in Q4.
        destruct (IH m1 T2 B) as (R1 & R2 & R3).
        -- exact Q2.
        -- exact NB.
        -- subst T. cbn in ND. inversion ND as [|? ? _ X]; subst. rewrite <- app_assoc, map_app in X.
           apply NoDup_app_remove_l in X. exact X.
        -- subst T. rewrite map_app in PM. rewrite Q4 in PM.
           apply Permutation_app_inv_l with (l := map fst T1). rewrite <- PM.
           rewrite !app_assoc. apply Permutation_app_tail. apply Permutation_app_comm.
        -- exact Q5.
        -- destruct P3 as (_ & _ & _ & SZ & _). destruct Q3 as (_ & _ & _ & SZ2 & _). rewrite SZ2, SZ.
           subst T. apply Forall_app in F3. apply F3.
        -- split; [exact R1|]. split; [exact R2|]. subst T.
           apply (poppedOff_trans m (popOne m) _ [(b, e0)] (T1 ++ T2) P3).
           apply (poppedOff_trans _ m1 _ T1 T2 Q3 R3).
    + destruct (IH (mkM (gs m) (galloc m) (ss m) (salloc m) (b :: popped m) (err m)) ((b0, e0) :: T) B) as (R1 & R2 & R3).
      * exact S.
      * exact NB.
      * exact ND.
      * cbn [popped]. rewrite <- PM. symmetry. apply Permutation_middle.
      * cbn [popped fst] in *. intros [X|X]; [lia|tauto].
      * exact F.
      * split; [exact R1|]. split; [exact R2|]. exact R3.
Qed.

(** ** The invariant *)
Definition rng (b : blk) : Z * Z := (ba b - stackOffset, ba b - stackOffset + bsz b).
Definition anyB (a : Z) (l : list blk) : bool := existsb (inB a) l.
Record inv (m : mem) (L : list blk) (gl : list gblk) : Prop := {
  i_pop : popped m = [];
  i_sal : salloc m = map rng L ++ [(0, 16)];
  i_ord : ForallOrdPairs (fun x y => snd y <= fst x) (salloc m);
  i_blk : Forall (fun b => 1 <= bsz b /\ (bal b | ba b) /\ stackOffset + 16 <= ba b /\
                           ba b + bsz b <= globalOffset /\ ba b - stackOffset + bsz b <= ssize (ss m)) L;
  i_gal : galloc m = map (fun g => (gid g, ga g)) gl;
  i_gsz : 0 <= ssize (gs m) <= 18446744073709551616 - globalOffset;
  i_gbl : Forall (fun g => 1 <= gsz g /\ (gal g | ga g) /\ globalOffset <= ga g /\
                           ga g + gsz g <= globalOffset + ssize (gs m)) gl;
  i_gap : ForallOrdPairs apart (map (fun g => (ga g, gsz g)) gl);
  i_rd : forall a, addr a -> rd (view m a) = anyB a L || existsb (inG a) gl;
  i_wr : forall a, addr a -> wr (view m a) = anyB a L || existsb (fun g => inG a g && negb (gro g)) gl }.

Lemma anyB_stack m L gl a : inv m L gl -> anyB a L = true -> stackOffset + 16 <= a < globalOffset /\ a - stackOffset < topEnd m.
Proof.
  intros I H. unfold anyB in H. rewrite existsb_exists in H. destruct H as (b & Hb & E).
  pose proof (i_blk _ _ _ I) as F. rewrite Forall_forall in F. destruct (F b Hb) as (F1 & _ & F2 & F3 & _).
  unfold inB in E. split; [lia|].
  pose proof (i_ord _ _ _ I) as O. pose proof (i_sal _ _ _ I) as S. unfold topEnd. rewrite S in O |- *.
  destruct L as [|x L]; [destruct Hb|]. cbn [map app rng]. destruct Hb as [->|Hb]; [lia|].
  cbn [map app] in O. inversion O as [|? ? O1 _]; subst. rewrite Forall_forall in O1.
  specialize (O1 (rng b) ltac:(apply in_or_app; left; apply in_map; exact Hb)).
  cbn [rng fst snd] in O1. destruct (F x (or_introl eq_refl)) as (G1 & _). lia.
Qed.
Lemma topEnd_pos m L gl : inv m L gl -> 16 <= topEnd m.
Proof.
  intros I. unfold topEnd. rewrite (i_sal _ _ _ I). destruct L as [|b L]; [cbn; lia|].
  cbn [map app rng]. pose proof (i_blk _ _ _ I) as F. inversion F as [|? ? (F1 & _ & F2 & _) _]; subst. lia.
Qed.
Lemma anyG_glob m L gl a : inv m L gl -> existsb (inG a) gl = true ->
  globalOffset <= a < globalOffset + ssize (gs m).
Proof.
  intros I H. rewrite existsb_exists in H. destruct H as (g & Hg & E).
  pose proof (i_gbl _ _ _ I) as F. rewrite Forall_forall in F. destruct (F g Hg) as (F1 & _ & F2 & F3).
  unfold inG in E. lia.
Qed.
Lemma anyG_w a gl : existsb (inG a) gl = false -> existsb (fun g => inG a g && negb (gro g)) gl = false.
Proof.
  induction gl as [|g gl IH]; cbn; [auto|]. intros H. apply orb_false_elim in H. destruct H as (H1 & H2).
  rewrite H1, IH by exact H2. reflexivity.
Qed.
Lemma inv_init : inv mem0 [] [].
Proof.
  constructor; cbn; auto.
  - repeat constructor.
  - unfold globalOffset. lia.
  - constructor.
  - intros a A. rewrite view_pc by exact A. unfold pc. cbn. destruct (_ <=? a); destruct (_ <? 0); reflexivity.
  - intros a A. rewrite view_pc by exact A. unfold pc. cbn. destruct (_ <=? a); destruct (_ <? 0); reflexivity.
Qed.

Lemma pow2_60 k : 0 <= k <= 60 -> 0 < 2 ^ k /\ (2 ^ k | stackOffset) /\ (2 ^ k | globalOffset).
Proof.
  intros K. split; [apply Z.pow_pos_nonneg; lia|].
  assert (E : stackOffset = 2 ^ (60 - k) * 2 ^ k).
  { rewrite <- Z.pow_add_r by lia. replace (60 - k + k) with 60 by lia. reflexivity. }
  split; [exists (2 ^ (60 - k)); exact E|].
  replace globalOffset with (15 * stackOffset) by reflexivity. apply Z.divide_mul_r. exists (2 ^ (60 - k)). exact E.
Qed.

(** what a push does *)
Lemma push_spec m L gl size al m' a : inv m L gl -> 1 <= size -> (exists k, 0 <= k <= 60 /\ al = 2 ^ k) ->
  topEnd m + al + size <= globalOffset - stackOffset -> stackPush m size al = (m', a) ->
  a = stackOffset + padPos (topEnd m) al /\ stackOffset + topEnd m < a /\ a + size <= globalOffset /\ (al | a) /\
  gs m' = gs m /\ galloc m' = galloc m /\ popped m' = popped m /\ err m' = err m /\
  salloc m' = (a - stackOffset, a - stackOffset + size) :: salloc m /\
  ssize (ss m) <= ssize (ss m') /\ a - stackOffset + size <= ssize (ss m') /\
  forall x, addr x ->
    (a <= x < a + size -> rd (view m' x) = true /\ wr (view m' x) = true) /\
    (~ (a <= x < a + size) -> view m' x = view m x \/
       view m' x = invalid /\ stackOffset + topEnd m <= x < a).
Proof.
  intros I S (k & K & ->) BD H. set (al := 2 ^ k) in *.
  destruct (pow2_60 k K) as (AP & DS & _). fold al in AP, DS.
  pose proof (topEnd_pos _ _ _ I) as TP. pose proof (pad_gt (topEnd m) al ltac:(lia) AP) as PG.
  unfold stackPush in H. unfold paddingTo in H. set (pos := padPos (topEnd m) al) in *.
  injection H as <- <-. cbn [gs galloc ss salloc popped err].
  pose proof (pad_size (ss m) (topEnd m) al size ltac:(lia) AP ltac:(lia)) as PS. cbn zeta in PS. fold pos in PS.
  unfold paddingTo in PS. cbn [fst] in PS. fold pos in PS.
  set (s' := setTag (setRange (extendTo (ss m) pos) (topEnd m) pos (fun _ : cell => invalid)) pos size true true) in *.
  assert (UA : u64 (pos + stackOffset) = stackOffset + pos).
  { rewrite u64_small; [lia|]. unfold addr, stackOffset, globalOffset in *. lia. }
  rewrite UA. split; [reflexivity|]. split; [lia|]. split; [lia|].
  split. { apply Z.divide_add_r; [exact DS|]. unfold pos, padPos. apply Z.divide_mul_r. apply Z.divide_refl. }
  do 4 (split; [reflexivity|]). replace (stackOffset + pos - stackOffset) with pos by lia.
  split; [reflexivity|]. split; [lia|]. split; [lia|].
  intros x X. rewrite !(view_pc _ x X). cbn [gs ss].
  assert (PC : forall i, 0 <= i -> pc s' i = if (pos <=? i) && (i <? pos + size) then mkC true true (byte (pc s' i))
    else if (topEnd m <=? i) && (i <? pos) then invalid else pc (ss m) i).
  { intros i Hi. exact (pc_padtag (ss m) (topEnd m) al size i ltac:(lia) AP ltac:(lia) Hi). }
  destruct (globalOffset <=? x) eqn:G.
  - split; [lia|]. auto.
  - set (i := if stackOffset <=? x then x - stackOffset else x - stackOffset + 18446744073709551616) in *.
    assert (Hi : 0 <= i).
    { unfold i. unfold addr in X. destruct (stackOffset <=? x) eqn:E0; unfold stackOffset in *; lia. }
    assert (II : i = x - stackOffset /\ stackOffset <= x \/ x < stackOffset /\ globalOffset - stackOffset <= i).
    { unfold i. unfold addr in X. destruct (stackOffset <=? x) eqn:E0; unfold stackOffset, globalOffset in *; lia. }
    rewrite (PC i Hi). split.
    + intros R. replace ((pos <=? i) && (i <? pos + size)) with true by lia. auto.
    + intros R. replace ((pos <=? i) && (i <? pos + size)) with false by lia.
      destruct ((topEnd m <=? i) && (i <? pos)) eqn:E; [right|left; reflexivity]. split; [reflexivity|lia].
Qed.

Lemma inv_push m L gl size al m' a : inv m L gl -> 1 <= size -> (exists k, 0 <= k <= 60 /\ al = 2 ^ k) ->
  topEnd m + al + size <= globalOffset - stackOffset -> stackPush m size al = (m', a) ->
  inv m' (mkB a size al :: L) gl.
Proof.
  intros I S AL BD H. 
  destruct (push_spec _ _ _ _ _ _ _ I S AL BD H) as (A1 & A2 & A3 & A4 & G1 & G2 & P1 & _ & SA & Z1 & Z2 & V).
  pose proof (topEnd_pos _ _ _ I) as TP.
  constructor.
  - rewrite P1. apply I.
  - rewrite SA, (i_sal _ _ _ I). reflexivity.
  - rewrite SA. constructor; [|apply I]. cbn [fst].
    rewrite Forall_forall. intros y Hy. 
    assert (snd y <= topEnd m); [|lia].
    pose proof (i_ord _ _ _ I) as O. unfold topEnd. pose proof (i_sal _ _ _ I) as SL. pose proof (i_blk _ _ _ I) as FB.
    destruct (salloc m) as [|(b, e) r]; [destruct Hy|]. destruct Hy as [<-|Hy]; [cbn; lia|].
    inversion O as [|? ? O1 _]; subst. rewrite Forall_forall in O1. specialize (O1 y Hy). cbn [fst] in O1.
    assert (b <= e); [|lia].
    destruct L as [|b0 L]; cbn [map app rng] in SL; injection SL as -> -> _; [lia|].
    inversion FB as [|? ? (F1 & _) _]; subst. lia.
  - constructor; [cbn [ba bsz bal]; repeat split; try assumption; lia|].
    pose proof (i_blk _ _ _ I) as F. rewrite Forall_forall in *. intros b Hb. destruct (F b Hb) as (? & ? & ? & ? & ?).
    repeat split; try assumption; lia.
  - rewrite G2. apply I.
  - rewrite G1. apply I.
  - rewrite G1. apply I.
  - apply I.
  - intros x X. destruct (V x X) as (V1 & V2). cbn [anyB existsb]. unfold inB at 1. cbn [ba bsz].
    destruct ((a <=? x) && (x <? a + size)) eqn:E.
    + destruct V1 as (-> & _); [lia|]. reflexivity.
    + rewrite orb_false_l. destruct (V2 ltac:(lia)) as [-> | (-> & R)]; [apply I; exact X|].
      cbn [rd invalid]. symmetry. apply orb_false_intro.
      * destruct (existsb (inB x) L) eqn:E2; [|reflexivity]. apply (anyB_stack _ _ _ _ I) in E2. lia.
      * destruct (existsb (inG x) gl) eqn:E2; [|reflexivity]. apply (anyG_glob _ _ _ _ I) in E2. lia.
  - intros x X. destruct (V x X) as (V1 & V2). cbn [anyB existsb]. unfold inB at 1. cbn [ba bsz].
    destruct ((a <=? x) && (x <? a + size)) eqn:E.
    + destruct V1 as (_ & ->); [lia|]. reflexivity.
    + rewrite orb_false_l. destruct (V2 ltac:(lia)) as [-> | (-> & R)]; [apply I; exact X|].
      cbn [wr invalid]. symmetry. apply orb_false_intro.
      * destruct (existsb (inB x) L) eqn:E2; [|reflexivity]. apply (anyB_stack _ _ _ _ I) in E2. lia.
      * apply anyG_w. destruct (existsb (inG x) gl) eqn:E2; [|reflexivity]. apply (anyG_glob _ _ _ _ I) in E2. lia.
Qed.

Lemma begins_nodup l : ForallOrdPairs (fun x y => snd y <= fst x) l -> Forall (fun x : Z * Z => fst x < snd x) l ->
  NoDup (map fst l).
Proof.
  induction 1 as [|x l F O IH]; intros H; [constructor|]. inversion H as [|? ? H1 H2]; subst.
  cbn [map]. constructor; [|apply IH; exact H2].
  intros X. apply in_map_iff in X. destruct X as (y & E & Y). rewrite Forall_forall in F, H2.
  specialize (F y Y). specialize (H2 y Y). lia.
Qed.
Lemma FOP_app {A} (R : A -> A -> Prop) l l' : ForallOrdPairs R (l ++ l') ->
  ForallOrdPairs R l' /\ forall x y, In x l -> In y l' -> R x y.
Proof.
  induction l as [|x l IH]; intros H; [split; [exact H|intros ? ? []]|].
  cbn in H. inversion H as [|? ? H1 H2]; subst. destruct (IH H2) as (I1 & I2). split; [exact I1|].
  intros a b [<-|Ha] Hb; [|auto]. rewrite Forall_forall in H1. apply H1. apply in_or_app. auto.
Qed.

Lemma ret_spec m f L gl order : inv m (f ++ L) gl -> Permutation order (map ba f) ->
  let m' := fold_left stackPop order m in
  salloc m' = map rng L ++ [(0, 16)] /\ popped m' = [] /\ poppedOff m m' (map rng f).
Proof.
  intros I PM. pose proof (i_blk _ _ _ I) as FB. rewrite Forall_forall in FB.
  apply (pops_spec order m (map rng f) (map rng L ++ [(0, 16)])).
  - rewrite (i_sal _ _ _ I), map_app, app_assoc. reflexivity.
  - destruct (map rng L); discriminate.
  - rewrite app_assoc, <- map_app, <- (i_sal _ _ _ I). apply begins_nodup; [apply I|].
    rewrite (i_sal _ _ _ I). apply Forall_app. split; [|constructor; [cbn; lia|constructor]].
    rewrite Forall_forall. intros y Y. apply in_map_iff in Y. destruct Y as (b & <- & B).
    destruct (FB b B) as (F1 & _). cbn. lia.
  - rewrite (i_pop _ _ _ I), app_nil_r. rewrite map_map. cbn [rng fst].
    assert (E : map (fun x => ba x - stackOffset) f = map (fun a => u64 (a - stackOffset)) (map ba f)).
    { rewrite map_map. apply map_ext_in. intros b B. destruct (FB b ltac:(apply in_or_app; auto)) as (F1 & _ & F2 & F3 & _).
      rewrite u64_small; [reflexivity|]. unfold addr, stackOffset, globalOffset in *. lia. }
    rewrite E. apply Permutation_map. exact PM.
  - rewrite (i_pop _ _ _ I). destruct (map rng f); auto.
  - rewrite Forall_forall. intros y Y. apply in_map_iff in Y. destruct Y as (b & <- & B).
    destruct (FB b ltac:(apply in_or_app; auto)) as (F1 & _ & F2 & F3 & F4). cbn. lia.
Qed.

Lemma ret_view m f L gl order a : inv m (f ++ L) gl -> Permutation order (map ba f) -> addr a ->
  view (fold_left stackPop order m) a = if anyB a f then clr (view m a) else view m a.
Proof.
  intros I PM A. destruct (ret_spec m f L gl order I PM) as (_ & _ & (G & _ & _ & SZ & C)).
  cbn zeta in *. set (m' := fold_left stackPop order m) in *.
  pose proof (i_blk _ _ _ I) as FB. rewrite Forall_forall in FB.
  rewrite !view_pc by exact A. rewrite G.
  assert (RANGE : anyB a f = true -> stackOffset <= a < globalOffset /\ a - stackOffset < ssize (ss m)).
  { intros H. unfold anyB in H. rewrite existsb_exists in H. destruct H as (b & B & E).
    destruct (FB b ltac:(apply in_or_app; auto)) as (F1 & _ & F2 & F3 & F4). unfold inB in E. lia. }
  destruct (globalOffset <=? a) eqn:E0.
  - destruct (anyB a f); [specialize (RANGE eq_refl); lia|reflexivity].
  - set (i := if stackOffset <=? a then a - stackOffset else a - stackOffset + 18446744073709551616) in *.
    assert (EX : existsb (inR i) (map rng f) = anyB a f).
    { unfold anyB. clear - A FB i. 
      assert (II : i = a - stackOffset /\ stackOffset <= a \/ a < stackOffset /\ globalOffset - stackOffset <= i).
      { unfold i. unfold addr in A. destruct (stackOffset <=? a) eqn:?; unfold stackOffset, globalOffset in *; lia. }
      assert (FB' : forall b, In b f -> stackOffset + 16 <= ba b /\ ba b + bsz b <= globalOffset).
      { intros b B. destruct (FB b ltac:(apply in_or_app; auto)) as (F1 & _ & F2 & F3 & F4). lia. }
      clear FB. induction f as [|b f IH]; [reflexivity|]. cbn [map existsb]. rewrite IH by (intros; apply FB'; right; assumption).
      f_equal. unfold inR, inB, rng. cbn [fst snd]. destruct (FB' b (or_introl eq_refl)). lia. }
    unfold pc. rewrite SZ, C, EX.
    destruct (anyB a f) eqn:AB; [|reflexivity]. specialize (RANGE eq_refl).
    assert (i < ssize (ss m)) by (unfold i; destruct (stackOffset <=? a) eqn:?; lia).
    replace (i <? ssize (ss m)) with true by lia. reflexivity.
Qed.

Lemma apartBB m f L gl a : inv m (f ++ L) gl -> anyB a f = true -> anyB a L = false.
Proof.
  intros I H. destruct (anyB a L) eqn:E; [|reflexivity]. exfalso. unfold anyB in *.
  rewrite existsb_exists in H, E. destruct H as (b & B & Eb). destruct E as (c & C & Ec).
  pose proof (i_ord _ _ _ I) as O. rewrite (i_sal _ _ _ I), map_app, <- app_assoc in O.
  apply FOP_app in O. destruct O as (_ & O).
  specialize (O (rng b) (rng c) ltac:(apply in_map; exact B) ltac:(apply in_or_app; left; apply in_map; exact C)).
  unfold inB, rng in *. cbn [fst snd] in *. lia.
Qed.

Lemma inv_ret m f L gl order : inv m (f ++ L) gl -> Permutation order (map ba f) ->
  inv (fold_left stackPop order m) L gl.
Proof.
  intros I PM. pose proof (ret_spec m f L gl order I PM) as (S & P & (G & GA & E & SZ & C)). cbn zeta in *.
  pose proof (fun a => ret_view m f L gl order a I PM) as V.
  set (m' := fold_left stackPop order m) in *.
  pose proof (i_blk _ _ _ I) as FB. apply Forall_app in FB. destruct FB as (FB1 & FB2).
  constructor; try (rewrite ?G, ?GA, ?SZ; apply I).
  - exact P.
  - exact S.
  - rewrite S. pose proof (i_ord _ _ _ I) as O. rewrite (i_sal _ _ _ I), map_app, <- app_assoc in O.
    apply FOP_app in O. apply O.
  - rewrite SZ. exact FB2.
  - intros a A. rewrite V by exact A. pose proof (i_rd _ _ _ I a A) as R. unfold anyB in R. rewrite existsb_app in R.
    fold (anyB a f) in R. fold (anyB a L) in R.
    destruct (anyB a f) eqn:AB; cbn [rd clr].
    + rewrite (apartBB _ _ _ _ _ I AB). symmetry.
      destruct (existsb (inG a) gl) eqn:X; [|reflexivity]. apply (anyG_glob _ _ _ _ I) in X.
      assert (Y : anyB a (f ++ L) = true) by (unfold anyB in *; rewrite existsb_app; rewrite AB; reflexivity).
      apply (anyB_stack _ _ _ _ I) in Y. lia.
    + exact R.
  - intros a A. rewrite V by exact A. pose proof (i_wr _ _ _ I a A) as R. unfold anyB in R. rewrite existsb_app in R.
    fold (anyB a f) in R. fold (anyB a L) in R.
    destruct (anyB a f) eqn:AB; cbn [wr clr].
    + rewrite (apartBB _ _ _ _ _ I AB). symmetry. cbn [orb]. apply anyG_w.
      destruct (existsb (inG a) gl) eqn:X; [|reflexivity]. apply (anyG_glob _ _ _ _ I) in X.
      assert (Y : anyB a (f ++ L) = true) by (unfold anyB in *; rewrite existsb_app; rewrite AB; reflexivity).
      apply (anyB_stack _ _ _ _ I) in Y. lia.
    + exact R.
Qed.

Lemma inv_same m m' L gl : inv m L gl -> sameTables m m' ->
  (forall a, addr a -> rd (view m' a) = rd (view m a) /\ wr (view m' a) = wr (view m a)) -> inv m' L gl.
Proof.
  intros I (T1 & T2 & T3 & T4 & T5) V. constructor; try (rewrite ?T1, ?T2, ?T3, ?T4, ?T5; apply I).
  - intros a A. destruct (V a A) as (-> & _). apply I. exact A.
  - intros a A. destruct (V a A) as (_ & ->). apply I. exact A.
Qed.
Lemma inv_store m L gl p v : inv m L gl -> addr p -> inv (store m p v) L gl.
Proof.
  intros I P. destruct (store_any m p v P) as (T & _ & V). apply (inv_same m); auto.
  intros a A. destruct (V a A) as (? & ? & _). auto.
Qed.
Lemma inv_load m L gl p : inv m L gl -> inv (fst (load m p)) L gl.
Proof.
  intros I. rewrite load_spec. destruct (rd (view m p)); [exact I|].
  apply (inv_same m); [exact I|apply (sameTables_refl m)|auto].
Qed.

(** what materialising a global does *)
Lemma glob_spec m L gl g size al ini ro m' a : inv m L gl -> 1 <= size -> (exists k, 0 <= k <= 60 /\ al = 2 ^ k) ->
  (forall bs, ini = Some bs -> Z.of_nat (length bs) = size) ->
  ssize (gs m) + al + size <= 18446744073709551616 - globalOffset ->
  ~ In g (map gid gl) -> getGlobal m g size al ini ro = (m', a) ->
  globalOffset + ssize (gs m) < a /\ a + size <= globalOffset + ssize (gs m') /\ a + size <= 18446744073709551616 /\ (al | a) /\
  ssize (gs m') <= 18446744073709551616 - globalOffset /\ ssize (gs m) <= ssize (gs m') /\
  ss m' = ss m /\ salloc m' = salloc m /\ popped m' = popped m /\ err m' = err m /\ galloc m' = (g, a) :: galloc m /\
  (forall x, addr x -> ~ (a <= x < a + size) -> view m' x = view m x) /\
  forall k, 0 <= k < size -> view m' (a + k) =
     mkC true (negb ro) (match ini with Some bs => nth (Z.to_nat k) bs 0 | None => 0 end).
Proof.
  intros I S (k & K & ->) LI BD NI H. set (al := 2 ^ k) in *.
  destruct (pow2_60 k K) as (AP & _ & DG). fold al in AP, DG.
  pose proof (i_gsz _ _ _ I) as GS. pose proof (pad_gt (ssize (gs m)) al ltac:(lia) AP) as PG.
  unfold getGlobal in H.
  assert (LK : lookupG g (galloc m) = None).
  { rewrite (i_gal _ _ _ I). unfold lookupG. clear - NI. induction gl as [|x gl IH]; [reflexivity|].
    cbn [map find fst]. cbn in NI. destruct (Nat.eqb (gid x) g) eqn:E; [apply Nat.eqb_eq in E; tauto|]. apply IH. tauto. }
  rewrite LK in H. unfold paddingTo in H. set (pos := padPos (ssize (gs m)) al) in *.
  assert (UA : u64 (pos + globalOffset) = globalOffset + pos).
  { rewrite u64_small; [lia|]. unfold addr, globalOffset in *. lia. }
  rewrite UA in H.
  pose proof (pad_size (gs m) (ssize (gs m)) al size ltac:(lia) AP ltac:(lia)) as PS. cbn zeta in PS.
  unfold paddingTo in PS. cbn [fst] in PS. fold pos in PS.
  assert (PC : forall i, 0 <= i -> 
    let s' := setTag (setRange (extendTo (gs m) pos) (ssize (gs m)) pos (fun _ : cell => invalid)) pos size true true in
    pc s' i = if (pos <=? i) && (i <? pos + size) then mkC true true (byte (pc s' i))
    else if (ssize (gs m) <=? i) && (i <? pos) then invalid else pc (gs m) i).
  { intros i Hi. exact (pc_padtag (gs m) (ssize (gs m)) al size i ltac:(lia) AP ltac:(lia) Hi). }
  cbn zeta in PC.
  set (s' := setTag (setRange (extendTo (gs m) pos) (ssize (gs m)) pos (fun _ : cell => invalid)) pos size true true) in *.
  set (ga0 := globalOffset + pos) in *.
  assert (V1 : forall x, addr x -> (ga0 <= x < ga0 + size -> rd (view (setG m s') x) = true /\ wr (view (setG m s') x) = true) /\
     (~ (ga0 <= x < ga0 + size) -> view (setG m s') x = view m x)).
  { intros x X. rewrite !(view_pc _ x X). cbn [gs ss setG]. destruct (globalOffset <=? x) eqn:G; [|unfold ga0; split; [lia|auto]].
    rewrite (PC (x - globalOffset)) by lia. split.
    - intros R. replace (_ && _) with true by (unfold ga0 in R; lia). auto.
    - intros R. replace ((pos <=? _) && _) with false by (unfold ga0 in R; lia).
      destruct (_ && _) eqn:E; [|reflexivity]. unfold pc. replace (_ <? _) with false by lia. reflexivity. }
  set (bs := match ini with Some bs => bs | None => repeat 0 (Z.to_nat size) end).
  assert (LB : Z.of_nat (length bs) = size).
  { unfold bs. destruct ini as [b|]; [apply LI; reflexivity|]. rewrite repeat_length. lia. }
  assert (E2 : match ini with Some bs => storeBytes (setG m s') ga0 bs | None => memReset (setG m s') ga0 size 0 end
     = storeBytes (setG m s') ga0 bs) by (unfold bs, memReset; destruct ini; reflexivity).
  rewrite E2 in H.
  assert (GA0 : 0 <= ga0 /\ ga0 + size <= 18446744073709551616) by (unfold ga0, globalOffset in *; lia).
  destruct (storeBytes_good bs (setG m s') ga0 ltac:(lia) ltac:(lia)) as (ER & BY).
  { intros x X. apply V1; unfold addr; lia. }
  destruct (storeBytes_any bs (setG m s') ga0 ltac:(lia) ltac:(lia)) as ((T1 & T2 & T3 & T4 & T5) & _ & V2).
  set (m2 := storeBytes (setG m s') ga0 bs) in *. cbn [setG gs ss galloc salloc popped] in T1, T2, T3, T4, T5.
  assert (SS2 : ss m2 = ss m).
  { assert (PP : globalOffset <= ga0) by (unfold ga0; lia). unfold m2. clear - GA0 LB PP. 
    assert (X : forall bs m p, globalOffset <= p -> p + Z.of_nat (length bs) <= 18446744073709551616 -> ss (storeBytes m p bs) = ss m).
    { clear. induction bs as [|b bs IH]; intros m p P L; [reflexivity|]. cbn [storeBytes length] in *. rewrite Nat2Z.inj_succ in L.
      rewrite IH by lia. rewrite u64_small by (unfold addr, globalOffset in *; lia). unfold store.
      replace (globalOffset <=? p) with true by lia. destruct (storeS _ _ _); reflexivity. }
    rewrite X; [reflexivity|exact PP|lia]. }
  set (m3 := if ro then setG m2 (removeWrite (gs m2) pos size) else m2) in *.
  injection H as <- <-. cbn [gs galloc ss salloc popped err].
  assert (EX3 : ssize (removeWrite (gs m2) pos size) = ssize (gs m2) /\
     forall i, cells (removeWrite (gs m2) pos size) i = if (pos <=? i) && (i <? pos + size) then mkC (rd (cells (gs m2) i)) false (byte (cells (gs m2) i)) else cells (gs m2) i).
  { unfold removeWrite, setRange, extendTo. rewrite T4. replace (ssize s' <? pos + size) with false by lia. cbn [ssize cells]. auto. }
  destruct EX3 as (EX3 & EX4).
  assert (SZ3 : ssize (gs m3) = ssize s').
  { unfold m3. destruct ro; [cbn [setG gs]; rewrite EX3|]; exact T4. }
  assert (V3 : forall x, addr x -> view m3 x = if (ga0 <=? x) && (x <? ga0 + size) then mkC (rd (view m2 x)) (wr (view m2 x) && negb ro) (byte (view m2 x)) else view m2 x).
  { intros x X. unfold m3. destruct ro.
    - rewrite !(view_pc _ x X). cbn [setG gs ss]. destruct (globalOffset <=? x) eqn:G.
      + unfold pc. rewrite EX3, EX4. unfold ga0.
        replace ((globalOffset + pos <=? x) && (x <? globalOffset + pos + size)) with ((pos <=? x - globalOffset) && (x - globalOffset <? pos + size)) by lia.
        destruct (x - globalOffset <? ssize (gs m2)) eqn:Z.
        * destruct (_ && _); [|reflexivity]. rewrite andb_false_r. reflexivity.
        * destruct (_ && _) eqn:Z2; [|reflexivity]. exfalso. rewrite T4 in Z. lia.
      + unfold ga0. replace (_ && _) with false by lia. reflexivity.
    - destruct (_ && _); [|reflexivity]. rewrite andb_true_r. destruct (view m2 x); reflexivity. }
  split; [lia|]. split; [rewrite SZ3; unfold ga0; lia|]. split; [lia|].
  split. { unfold ga0. apply Z.divide_add_r; [exact DG|]. unfold pos, padPos. apply Z.divide_mul_r. apply Z.divide_refl. }
  split; [lia|]. split; [lia|].
  split. { unfold m3. destruct ro; exact SS2. }
  split. { unfold m3. destruct ro; exact T2. }
  split. { unfold m3. destruct ro; exact T3. }
  split. { unfold m3. destruct ro; exact ER. }
  split. { unfold m3. destruct ro; cbn [galloc setG]; rewrite T1; reflexivity. }
  assert (VV : forall x, view {| gs := gs m3; galloc := (g, ga0) :: galloc m3; ss := ss m3; salloc := salloc m3; popped := popped m3; err := err m3 |} x = view m3 x) by reflexivity.
  split.
  - intros x X N. rewrite VV, V3 by exact X. replace (_ && _) with false by lia.
    destruct (V2 x X) as (_ & _ & Y). rewrite Y by (left; lia). apply V1; [exact X|lia].
  - intros j J. assert (X : addr (ga0 + j)) by (unfold addr; lia). rewrite VV, V3 by exact X.
    replace (_ && _) with true by lia. destruct (V2 _ X) as (R & W & _). rewrite R, W.
    destruct (V1 _ X) as (Y & _). destruct (Y ltac:(lia)) as (-> & ->). cbn [andb].
    specialize (BY (Z.to_nat j) ltac:(lia)). rewrite Z2Nat.id in BY by lia. rewrite BY. f_equal.
    unfold bs. destruct ini; [reflexivity|]. apply nth_repeat.
Qed.

Lemma inv_glob m L gl g size al ini ro m' a : inv m L gl -> 1 <= size -> (exists k, 0 <= k <= 60 /\ al = 2 ^ k) ->
  (forall bs, ini = Some bs -> Z.of_nat (length bs) = size) ->
  ssize (gs m) + al + size <= 18446744073709551616 - globalOffset ->
  ~ In g (map gid gl) -> getGlobal m g size al ini ro = (m', a) ->
  inv m' L (mkG g a size al ro :: gl).
Proof.
  intros I S AL LI BD NI H.
  destruct (glob_spec _ _ _ _ _ _ _ _ _ _ I S AL LI BD NI H) as (A1 & A2 & A3 & A4 & Z1 & Z2 & SS & SA & PO & _ & GA & V & W).
  assert (W' : forall x, a <= x < a + size -> rd (view m' x) = true /\ wr (view m' x) = negb ro).
  { intros x X. specialize (W (x - a) ltac:(lia)). replace (a + (x - a)) with x in W by lia. rewrite W. auto. }
  assert (OUT : forall x, a <= x < a + size -> anyB x L = false /\ existsb (inG x) gl = false).
  { intros x X. split.
    - destruct (anyB x L) eqn:E; [|reflexivity]. apply (anyB_stack _ _ _ _ I) in E. pose proof (i_gsz _ _ _ I). lia.
    - destruct (existsb (inG x) gl) eqn:E; [|reflexivity]. apply (anyG_glob _ _ _ _ I) in E. lia. }
  pose proof (i_gsz _ _ _ I) as GS.
  constructor; try (rewrite ?SS, ?SA, ?PO; apply I).
  - rewrite GA, (i_gal _ _ _ I). reflexivity.
  - lia.
  - constructor; [cbn [ga gsz gal]; repeat split; try assumption; lia|].
    pose proof (i_gbl _ _ _ I) as F. rewrite Forall_forall in *. intros y Y. destruct (F y Y) as (? & ? & ? & ?).
    repeat split; try assumption; lia.
  - cbn [map]. constructor; [|apply I]. rewrite Forall_forall. intros y Y. apply in_map_iff in Y. destruct Y as (x & <- & X).
    pose proof (i_gbl _ _ _ I) as F. rewrite Forall_forall in F. destruct (F x X) as (? & ? & ? & ?).
    right. cbn [fst snd ga gsz]. lia.
  - intros x X. cbn [existsb]. unfold inG at 1. cbn [ga gsz]. destruct ((a <=? x) && (x <? a + size)) eqn:E.
    + destruct (W' x ltac:(lia)) as (-> & _). rewrite orb_true_r. reflexivity.
    + rewrite V by (try assumption; lia). apply I. exact X.
  - intros x X. cbn [existsb]. unfold inG at 1. cbn [ga gsz gro]. destruct ((a <=? x) && (x <? a + size)) eqn:E.
    + destruct (W' x ltac:(lia)) as (_ & ->). destruct (OUT x ltac:(lia)) as (O1 & O2).
      rewrite O1, (anyG_w _ _ O2). rewrite orb_false_r. reflexivity.
    + rewrite V by (try assumption; lia). apply I. exact X.
Qed.

Theorem reach_inv m fs gl : reach m fs gl -> inv m (concat fs) gl.
Proof.
  induction 1 as [ | m f fs gl size al m' a R IH S AL BD H | m fs gl R IH | m f fs gl order R IH PM
    | m fs gl g size al ini ro m' a R IH S AL LI BD H NI | m fs gl p v R IH P | m fs gl p R IH P ].
  - exact inv_init.
  - exact (inv_push _ _ _ _ _ _ _ IH S AL BD H).
  - exact IH.
  - exact (inv_ret _ _ _ _ _ IH PM).
  - exact (inv_glob _ _ _ _ _ _ _ _ _ _ IH S AL LI BD NI H).
  - exact (inv_store _ _ _ _ _ IH P).
  - exact (inv_load _ _ _ _ IH).
Qed.

Lemma inv_apart m L gl : inv m L gl ->
  ForallOrdPairs apart (map (fun b => (ba b, bsz b)) L ++ map (fun g => (ga g, gsz g)) gl).
Proof.
  intros I. pose proof (i_ord _ _ _ I) as O. rewrite (i_sal _ _ _ I) in O.
  pose proof (i_blk _ _ _ I) as F. rewrite Forall_forall in F.
  pose proof (i_gbl _ _ _ I) as FG. rewrite Forall_forall in FG.
  pose proof (i_gap _ _ _ I) as GAP. clear I.
  induction L as [|b L IH]; [exact GAP|].
  cbn [map app] in *. inversion O as [|? ? O1 O2]; subst. constructor; [|apply IH; [exact O2|intros; apply F; right; assumption]].
  apply Forall_app. split; rewrite Forall_forall.
  - intros y Y. apply in_map_iff in Y. destruct Y as (c & <- & C). rewrite Forall_forall in O1.
    specialize (O1 (rng c) ltac:(apply in_or_app; left; apply in_map; exact C)). unfold rng in O1. cbn [fst snd] in O1.
    right. cbn [fst snd]. lia.
  - intros y Y. apply in_map_iff in Y. destruct Y as (c & <- & C). destruct (FG c C) as (? & ? & ? & ?).
    destruct (F b (or_introl eq_refl)) as (? & ? & ? & ? & ?). left. cbn [fst snd]. lia.
Qed.

(** ** Theorems *)

(** In every reachable memory, the live stack allocations of all frames and all the globals
    are pairwise disjoint and aligned; a byte may be read iff it lies in one of them, and
    written iff it lies in a stack allocation or a global that is not read-only. *)
Theorem C16_live_allocations_disjoint_aligned_accessible : forall m fs gl,
  reach m fs gl ->
  ForallOrdPairs apart (extent fs gl) /\
  Forall (fun b => (bal b | ba b)) (concat fs) /\ Forall (fun g => (gal g | ga g)) gl /\
  forall a, addr a ->
    (readable m a <-> (exists b, In b (concat fs) /\ ba b <= a < ba b + bsz b) \/
                      (exists g, In g gl /\ ga g <= a < ga g + gsz g)) /\
    (writable m a <-> (exists b, In b (concat fs) /\ ba b <= a < ba b + bsz b) \/
                      (exists g, In g gl /\ gro g = false /\ ga g <= a < ga g + gsz g)).
Proof.
  intros m fs gl R. apply reach_inv in R. split; [exact (inv_apart _ _ _ R)|].
  split. { eapply Forall_impl; [|exact (i_blk _ _ _ R)]. intros b (_ & D & _). exact D. }
  split. { eapply Forall_impl; [|exact (i_gbl _ _ _ R)]. intros b (_ & D & _). exact D. }
  intros a A. unfold readable, writable. rewrite (i_rd _ _ _ R a A), (i_wr _ _ _ R a A).
  unfold anyB. rewrite !orb_true_iff, !existsb_exists. unfold inB, inG. split.
  - split; (intros [(b & B & E)|(b & B & E)]; [left; exists b; split; [exact B|lia]|right; exists b; split; [exact B|lia]]).
  - split.
    + intros [(b & B & E)|(b & B & E)]; [left; exists b; split; [exact B|lia]|].
      right. exists b. split; [exact B|]. destruct (gro b); [lia|]. split; [reflexivity|lia].
    + intros [(b & B & E)|(b & B & G & E)]; [left; exists b; split; [exact B|lia]|].
      right. exists b. split; [exact B|]. rewrite G. lia.
Qed.

(** A new stack allocation: the address is aligned, no byte of it belongs to a live
    allocation, no error is raised and no byte of a live allocation changes. *)
Theorem C16_stack_allocation_fresh : forall m f fs gl size al m' a,
  reach m (f :: fs) gl -> 1 <= size -> (exists k, 0 <= k <= 60 /\ al = 2 ^ k) ->
  topEnd m + al + size <= globalOffset - stackOffset ->
  stackPush m size al = (m', a) ->
  a mod al = 0 /\ Forall (apart (a, size)) (extent (f :: fs) gl) /\ err m' = err m /\
  forall x, addr x -> readable m x -> view m' x = view m x.
Proof.
  intros m f fs gl size al m' a R S AL BD H. pose proof (reach_inv _ _ _ R) as I.
  destruct (push_spec _ _ _ _ _ _ _ I S AL BD H) as (A1 & A2 & A3 & A4 & _ & _ & _ & E & _ & _ & _ & V).
  assert (R' : reach m' ((mkB a size al :: f) :: fs) gl) by (eapply R_alloc; eassumption).
  pose proof (inv_apart _ _ _ (reach_inv _ _ _ R')) as AP. cbn in AP. inversion AP as [|? ? AP1 _]; subst.
  assert (AL0 : al <> 0) by (destruct AL as (k & K & ->); destruct (pow2_60 k K); lia).
  split; [apply Z.mod_divide; assumption|]. split; [exact AP1|]. split; [exact E|].
  intros x X RX. destruct (V x X) as (_ & V2). unfold readable in RX. rewrite (i_rd _ _ _ I x X) in RX.
  assert (OUT : ~ stackOffset + topEnd m <= x < globalOffset).
  { intros O. apply orb_true_iff in RX. destruct RX as [RX|RX].
    - apply (anyB_stack _ _ _ _ I) in RX. lia.
    - apply (anyG_glob _ _ _ _ I) in RX. lia. }
  destruct V2 as [V2|(_ & V2)]; [lia|exact V2|lia].
Qed.

(** Returning from a frame, its allocations being released in whatever order: every byte of
    the frame's allocations loses all permissions, so reading or writing it reports an error;
    every other byte keeps permissions and contents; no error is raised by the release. *)
Theorem C16_return_releases_exactly_the_frame : forall m f fs gl order,
  reach m (f :: fs) gl -> Permutation order (map ba f) ->
  let m' := fold_left stackPop order m in
  err m' = err m /\
  (forall x b, addr x -> In b f -> ba b <= x < ba b + bsz b ->
     err (fst (load m' x)) = true /\ forall v, err (store m' x v) = true) /\
  (forall x, addr x -> (forall b, In b f -> ~ (ba b <= x < ba b + bsz b)) -> view m' x = view m x).
Proof.
  intros m f fs gl order R PM. pose proof (reach_inv _ _ _ R) as I. cbn [concat] in I.
  pose proof (fun a => ret_view m f _ gl order a I PM) as V.
  destruct (ret_spec m f _ gl order I PM) as (_ & _ & (_ & _ & E & _)). cbn zeta in *.
  split; [exact E|]. split.
  - intros x b X B IN. 
    assert (AB : anyB x f = true) by (unfold anyB; rewrite existsb_exists; exists b; split; [exact B|unfold inB; lia]).
    specialize (V x X). rewrite AB in V. split.
    + rewrite load_spec, V. reflexivity.
    + intros v. rewrite store_bad; [reflexivity|]. rewrite V. reflexivity.
  - intros x X N. rewrite V by exact X.
    destruct (anyB x f) eqn:AB; [|reflexivity]. unfold anyB in AB. rewrite existsb_exists in AB.
    destruct AB as (b & B & IN). unfold inB in IN. exfalso. apply (N b B). lia.
Qed.

(** ... and the allocation state is exactly that of before the call: permissions, the address
    the next allocation gets.  (Both memories have the same live frames.) *)
Theorem C16_allocation_state_determined_by_live_frames : forall m m' fs gl gl',
  reach m fs gl -> reach m' fs gl' ->
  (forall size al, snd (stackPush m size al) = snd (stackPush m' size al)) /\
  (forall x, addr x -> x < globalOffset -> (readable m x <-> readable m' x) /\ (writable m x <-> writable m' x)).
Proof.
  intros m m' fs gl gl' R R'. apply reach_inv in R. apply reach_inv in R'. split.
  - intros size al. unfold stackPush, topEnd. rewrite (i_sal _ _ _ R), (i_sal _ _ _ R'). reflexivity.
  - intros x X L. unfold readable, writable.
    rewrite (i_rd _ _ _ R x X), (i_rd _ _ _ R' x X), (i_wr _ _ _ R x X), (i_wr _ _ _ R' x X).
    assert (G : existsb (inG x) gl = false).
    { destruct (existsb (inG x) gl) eqn:E; [|reflexivity]. apply (anyG_glob _ _ _ _ R) in E. lia. }
    assert (G' : existsb (inG x) gl' = false).
    { destruct (existsb (inG x) gl') eqn:E; [|reflexivity]. apply (anyG_glob _ _ _ _ R') in E. lia. }
    rewrite G, G', (anyG_w _ _ G), (anyG_w _ _ G'). tauto.
Qed.

(** Materialising a global: aligned, disjoint from everything live, holding its initial bytes
    (zeros without initialiser), writable iff not read-only, nothing else changes; and asking
    again returns the same address and changes nothing. *)
Theorem C16_global_materialisation : forall m fs gl g size al ini ro m' a,
  reach m fs gl -> 1 <= size -> (exists k, 0 <= k <= 60 /\ al = 2 ^ k) ->
  (forall bs, ini = Some bs -> Z.of_nat (length bs) = size) ->
  ssize (gs m) + al + size <= 18446744073709551616 - globalOffset ->
  ~ In g (map gid gl) -> getGlobal m g size al ini ro = (m', a) ->
  a mod al = 0 /\ Forall (apart (a, size)) (extent fs gl) /\ err m' = err m /\
  (forall k, 0 <= k < size ->
     load m' (a + k) = (m', match ini with Some bs => nth (Z.to_nat k) bs 0 | None => 0 end) /\
     (writable m' (a + k) <-> ro = false)) /\
  (forall x, addr x -> ~ (a <= x < a + size) -> view m' x = view m x) /\
  (forall size' al' ini' ro', getGlobal m' g size' al' ini' ro' = (m', a)).
Proof.
  intros m fs gl g size al ini ro m' a R S AL LI BD NI H. pose proof (reach_inv _ _ _ R) as I.
  destruct (glob_spec _ _ _ _ _ _ _ _ _ _ I S AL LI BD NI H) as (A1 & A2 & A3 & A4 & Z1 & Z2 & SS & SA & PO & E & GA & V & W).
  assert (AL0 : al <> 0) by (destruct AL as (k & K & ->); destruct (pow2_60 k K); lia).
  split; [apply Z.mod_divide; assumption|]. split.
  { unfold extent. apply Forall_app. split; rewrite Forall_forall; intros y Y; apply in_map_iff in Y; destruct Y as (c & <- & C).
    - pose proof (i_blk _ _ _ I) as F. rewrite Forall_forall in F. destruct (F c C) as (? & ? & ? & ? & ?). 
      pose proof (i_gsz _ _ _ I). right. cbn [fst snd]. lia.
    - pose proof (i_gbl _ _ _ I) as F. rewrite Forall_forall in F. destruct (F c C) as (? & ? & ? & ?). right. cbn [fst snd]. lia. }
  split; [exact E|]. split.
  { intros k K. specialize (W k K). split.
    - rewrite load_spec, W. reflexivity.
    - unfold writable. rewrite W. cbn [wr]. destruct ro; cbn; split; congruence. }
  split; [exact V|]. intros. unfold getGlobal, lookupG. rewrite GA. cbn [find fst]. rewrite Nat.eqb_refl. reflexivity.
Qed.

(** At the granularity of a single release (the frame-level claim above is unaffected): [stackPop] of an allocation that is not on
    top is deferred, so its bytes stay readable and writable until everything above is released. *)
Theorem C16_single_release_is_deferred :
  exists m b c fs, reach m ([c; b] :: fs) [] /\
    let m' := stackPop m (ba b) in
    err (fst (load m' (ba b))) = false /\ err (store m' (ba b) 7) = false /\ err m' = false.
Proof.
  set (r1 := stackPush mem0 4 4). set (r2 := stackPush (fst r1) 4 4).
  exists (fst r2), (mkB (snd r1) 4 4), (mkB (snd r2) 4 4), []. split.
  - eapply R_alloc with (m := fst r1); [eapply R_alloc with (m := mem0); [apply R_init| | | |]| | | |].
    + lia.
    + exists 2. split; [lia|reflexivity].
    + apply Z.leb_le. vm_compute. reflexivity.
    + apply (surjective_pairing r1).
    + lia.
    + exists 2. split; [lia|reflexivity].
    + apply Z.leb_le. vm_compute. reflexivity.
    + apply (surjective_pairing r2).
  - split; [|split]; vm_compute; reflexivity.
Qed.

(** a concrete history: two allocations in a callee, released oldest first, and a read-only global *)
Definition w0 := getGlobal mem0 0%nat 4 4 (Some [1; 2; 3; 4]) true.
Definition w1 := stackPush (fst w0) 4 4.
Definition w2 := stackPush (fst w1) 8 8.
Example C16_witness :
  let b := mkB (snd w1) 4 4 in let c := mkB (snd w2) 8 8 in let gl := [mkG 0 (snd w0) 4 4 true] in
  let m' := fold_left stackPop [ba b; ba c] (fst w2) in
  reach (fst w2) ([c; b] :: [[]]) gl /\ Permutation [ba b; ba c] (map ba [c; b]) /\ reach m' [[]] gl /\ err m' = false /\ err (fst (load m' (ba b))) = true /\ err (fst (load m' (snd w0))) = false /\ err (store m' (snd w0) 1) = true.
Proof.
  intros b c gl m'.
  assert (R : reach (fst w2) ([c; b] :: [[]]) gl).
  { eapply R_alloc with (m := fst w1); [eapply R_alloc with (m := fst w0); [apply R_call; eapply R_global with (m := mem0) (ini := Some [1; 2; 3; 4]); [apply R_init| | | | | |]| | | |]| | | |].
    all: try lia. all: try (exists 2; split; [lia|reflexivity]). all: try (exists 3; split; [lia|reflexivity]).
    - intros bs H. injection H as <-. reflexivity.
    - apply Z.leb_le. vm_compute. reflexivity.
    - apply (surjective_pairing w0).
    - cbn. tauto.
    - apply Z.leb_le. vm_compute. reflexivity.
    - apply (surjective_pairing w1).
    - apply Z.leb_le. vm_compute. reflexivity.
    - apply (surjective_pairing w2). }
  assert (PM : Permutation [ba b; ba c] (map ba [c; b])).
  { clear. generalize b, c. intros x y. cbn [map]. apply perm_swap. }
  split; [exact R|]. split; [exact PM|].
  split; [exact (R_ret _ _ _ _ _ R PM)|].
  split; [vm_compute; reflexivity|]. split; [vm_compute; reflexivity|]. split; vm_compute; reflexivity.
Qed.
