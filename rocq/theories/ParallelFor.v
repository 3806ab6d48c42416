(** Model of the loop splitting and thread-count tuning of cmmc/Runtime/cmmc_sysy_rt.cpp (sequential
    part; the worker handshake is in ParallelSched.v). *)
From Coq Require Import ZArith Lia Bool List ZifyBool FinFun.
From Verif Require Import Word.
Import ListNotations.
Local Open Scope Z_scope.

(** one call of the loop body: worker (None = the calling thread), sub-range *)
Record chunk := mkC { who : option nat; lo : Z; hi : Z }.

(** cmmc_sysy_rt.cpp:229-245 the range given to thread [i] of [n]; int32 arithmetic wraps (the C++
    overflow is undefined; see C12 for when it can happen) *)
Definition incr (size n : Z) : Z := s32 (u32 (((size / n) + 4 - 1) / 4 * 4)).
Definition sub (beg fin inc n i : Z) : option chunk :=
  let b := s32 (beg + s32 (i * inc)) in
  let e0 := Z.min (s32 (b + inc)) fin in
  let e := if i =? n - 1 then fin else e0 in
  if b >=? e then None else Some (mkC (Some (Z.to_nat i)) b e).
Fixpoint somes {A} (l : list (option A)) : list A :=
  match l with [] => [] | Some a :: l => a :: somes l | None :: l => somes l end.
Definition upto (n : Z) : list Z := map Z.of_nat (seq 0 (Z.to_nat n)).
(** :217-246 spawnAndJoin: the chunks started, in order *)
Definition spawn (beg fin n : Z) : list chunk :=
  if n =? 1 then [mkC None beg fin]
  else somes (map (sub beg fin (incr (u32 (fin - beg)) n) n) (upto n)).
(** :207-215, :258 cmmcParallelFor with the number of threads chosen by the tuner *)
Definition parallelFor (beg fin n : Z) : list chunk :=
  if fin <=? beg then []
  else if u32 (fin - beg) <? 16 then [mkC None beg fin]
  else spawn beg fin n.

(** specification: how often index [k] is executed *)
Definition times_run (k : Z) (l : list chunk) : nat :=
  length (filter (fun c => (lo c <=? k) && (k <? hi c)) l).

Lemma times_cons k c l : times_run k (c :: l) = Nat.add (if (lo c <=? k) && (k <? hi c) then 1%nat else 0%nat) (times_run k l).
Proof. unfold times_run. cbn [filter]. destruct (_ && _); reflexivity. Qed.
Lemma times_app k l1 l2 : times_run k (l1 ++ l2) = (times_run k l1 + times_run k l2)%nat.
Proof. induction l1 as [|c l IH]; [reflexivity|]. rewrite <- app_comm_cons, !times_cons, IH. lia. Qed.
Lemma somes_app {A} (l1 l2 : list (option A)) : somes (l1 ++ l2) = somes l1 ++ somes l2.
Proof. induction l1 as [|[a|] l IH]; cbn; congruence. Qed.
Ltac inv_ok H := injection H as <-.
Definition size_ok (beg fin n : Z) : Prop :=
  INT_MIN <= beg /\ fin <= INT_MAX /\ 0 < fin - beg <= INT_MAX /\ 1 <= n /\
  (n = 1 \/ incr (fin - beg) n = ((fin - beg) / n + 3) / 4 * 4 /\
   (n - 1) * incr (fin - beg) n <= INT_MAX /\ beg + (n - 1) * incr (fin - beg) n <= INT_MAX).
(** without overflow, chunk i < n-1 is [beg + i*inc, min (beg + (i+1)*inc) fin) *)
Lemma sub_eq beg fin n i inc : INT_MIN <= beg -> fin <= INT_MAX -> 0 <= inc -> 0 <= i < n ->
  (n - 1) * inc <= INT_MAX -> beg + (n - 1) * inc <= INT_MAX ->
  sub beg fin inc n i =
  let b := beg + i * inc in let e := if i =? n - 1 then fin else Z.min (beg + (i + 1) * inc) fin in
  if b >=? e then None else Some (mkC (Some (Z.to_nat i)) b e).
Proof.
  intros. unfold sub. assert (0 <= i * inc <= (n - 1) * inc) by nia.
  rewrite (s32_small (i * inc)) by (unfold INT_MIN, INT_MAX in *; lia).
  rewrite (s32_small (beg + i * inc)) by (unfold INT_MIN, INT_MAX in *; lia).
  destruct (i =? n - 1) eqn:E; cbv zeta; [reflexivity|].
  assert (i * inc + inc <= (n - 1) * inc) by (apply Z.eqb_neq in E; nia).
  rewrite (s32_small (beg + i * inc + inc)) by (unfold INT_MIN, INT_MAX in *; lia).
  replace (beg + (i + 1) * inc) with (beg + i * inc + inc) by ring. reflexivity.
Qed.
Lemma upto_S n : 0 <= n -> upto (n + 1) = upto n ++ [n].
Proof.
  intros. unfold upto. replace (Z.to_nat (n + 1)) with (Z.to_nat n + 1)%nat by lia.
  rewrite seq_app, map_app. cbn. rewrite Z2Nat.id by lia. reflexivity.
Qed.
(** the first m < n threads cover exactly the first m*inc indices *)
Lemma prefix_cover beg fin n inc k m : INT_MIN <= beg -> fin <= INT_MAX -> beg < fin -> 0 <= inc ->
  (n - 1) * inc <= INT_MAX -> beg + (n - 1) * inc <= INT_MAX -> 0 <= m <= n - 1 ->
  times_run k (somes (map (sub beg fin inc n) (upto m))) =
  if (beg <=? k) && (k <? Z.min (beg + m * inc) fin) then 1%nat else 0%nat.
Proof.
  intros ? ? ? ? ? ? Hm. destruct Hm as [Hm1 Hm2]. revert Hm2. pattern m. apply natlike_ind; [| |assumption].
  - intros _. change (times_run k (somes (map (sub beg fin inc n) (upto 0)))) with 0%nat. rewrite Z.mul_0_l.
    destruct (beg <=? k) eqn:?, (k <? Z.min (beg + 0) fin) eqn:?; try reflexivity; exfalso; lia.
  - clear m Hm1. intros m Hm IH Hn. unfold Z.succ in *. rewrite upto_S, map_app, somes_app, times_app, IH by lia. clear IH.
    cbn [map]. rewrite sub_eq by (auto; lia). cbv zeta. replace (m =? n - 1) with false by lia.
    assert (0 <= m * inc) by nia. replace ((m + 1) * inc) with (m * inc + inc) by ring.
    set (p := m * inc) in *. clearbody p.
    destruct (_ >=? _) eqn:E; cbn [somes].
    + cbn [times_run filter length]. destruct (beg <=? k) eqn:?, (k <? Z.min (beg + p) fin) eqn:?, (k <? Z.min (beg + (p + inc)) fin) eqn:?; cbn; try reflexivity; exfalso; lia.
    + rewrite times_cons. cbn [lo hi times_run filter length].
      destruct (beg <=? k) eqn:?, (k <? Z.min (beg + p) fin) eqn:?, (k <? Z.min (beg + (p + inc)) fin) eqn:?, (beg + p <=? k) eqn:?; cbn; try reflexivity; exfalso; lia.
Qed.
Lemma spawn_cover beg fin n k : size_ok beg fin n ->
  times_run k (spawn beg fin n) = if (beg <=? k) && (k <? fin) then 1%nat else 0%nat.
Proof.
  intros (B & F & S & N & C1). unfold spawn. destruct (n =? 1) eqn:N1.
  { rewrite times_cons. cbn [lo hi times_run filter length]. rewrite Nat.add_0_r. reflexivity. }
  destruct C1 as [C1|(I & J1 & J2)]; [lia|].
  rewrite u32_small by (unfold INT_MAX in *; lia). set (inc := incr (fin - beg) n) in *.
  assert (0 <= inc) by (rewrite I; assert (0 <= (fin - beg) / n) by (apply Z.div_pos; lia); lia). clearbody inc. 
  replace (upto n) with (upto (n - 1 + 1)) by (f_equal; lia). rewrite upto_S, map_app, somes_app, times_app by lia.
  rewrite prefix_cover by (auto; lia). cbn [map]. rewrite sub_eq by (auto; lia). cbv zeta. rewrite Z.eqb_refl.
  assert (0 <= (n - 1) * inc) by nia. set (p := (n - 1) * inc) in *. clearbody p. clear I.
  destruct (_ >=? _) eqn:E; cbn [somes]; rewrite ?times_cons; cbn [lo hi times_run filter length];
    destruct (beg <=? k) eqn:?, (k <? Z.min (beg + p) fin) eqn:?, (k <? fin) eqn:?, (beg + p <=? k) eqn:?; cbn; try reflexivity; exfalso; lia.
Qed.
(** each chunk started is a non-empty sub-range of [beg, fin), aligned to 4 from beg, on its own worker *)
Lemma spawn_chunks beg fin n c : size_ok beg fin n -> In c (spawn beg fin n) ->
  beg <= lo c /\ lo c < hi c /\ hi c <= fin /\ (lo c - beg) mod 4 = 0.
Proof.
  intros (B & F & S & N & C1). unfold spawn. destruct (n =? 1) eqn:N1.
  { cbn. intros [<-|[]]. cbn. replace (beg - beg) with 0 by lia. cbn. lia. }
  destruct C1 as [C1|(I & J1 & J2)]; [lia|].
  rewrite u32_small by (unfold INT_MAX in *; lia). set (inc := incr (fin - beg) n) in *.
  assert (P : 0 <= inc /\ inc mod 4 = 0) by (rewrite I; assert (0 <= (fin - beg) / n) by (apply Z.div_pos; lia); split; [lia|apply Z.mod_mul; lia]).
  destruct P as [P1 P2]. clearbody inc. clear I.
  assert (G : forall l, (forall i, In i l -> 0 <= i < n) -> In c (somes (map (sub beg fin inc n) l)) -> exists i, In i l /\ sub beg fin inc n i = Some c).
  { induction l as [|i l IH]; cbn [map somes In]; [tauto|]. intros A H. destruct (sub beg fin inc n i) eqn:E.
    - destruct H as [<-|H]; [eauto|]. destruct IH as (j & ? & ?); eauto.
    - destruct IH as (j & ? & ?); eauto. }
  intros H. destruct (G (upto n)) as (i & Hi & E); auto.
  { intros i Hi. unfold upto in Hi. apply in_map_iff in Hi. destruct Hi as (j & <- & Hj). apply in_seq in Hj. lia. }
  assert (Ri : 0 <= i < n). { unfold upto in Hi. apply in_map_iff in Hi. destruct Hi as (j & <- & Hj). apply in_seq in Hj. lia. }
  rewrite sub_eq in E by auto. cbv zeta in E. assert (0 <= i * inc) by nia.
  assert (AL : (beg + i * inc - beg) mod 4 = 0).
  { replace (beg + i * inc - beg) with (i * inc) by lia. rewrite Z.mul_mod, P2, Z.mul_0_r by lia. reflexivity. }
  destruct (_ >=? _) eqn:G2 in E; [discriminate|]. injection E as <-. cbn [lo hi]. destruct (i =? n - 1); lia.
Qed.
Lemma somes_who beg fin n inc l : NoDup l -> (forall i, In i l -> 0 <= i < n) ->
  NoDup (map who (somes (map (sub beg fin inc n) l))) /\
  forall w, In w (map who (somes (map (sub beg fin inc n) l))) -> exists i, In i l /\ w = Some (Z.to_nat i).
Proof.
  induction l as [|i l IH]; intros ND R; [split; [constructor|intros ? []]|].
  inversion ND as [|? ? NI ND']; subst. destruct IH as [IH1 IH2]; auto; [intros; apply R; right; auto|].
  cbn [map somes]. destruct (sub beg fin inc n i) eqn:E.
  - assert (W : who c = Some (Z.to_nat i)) by (unfold sub in E; cbv zeta in E; destruct (_ >=? _) in E; [discriminate|injection E as <-; reflexivity]).
    cbn [map]. split.
    + constructor; auto. rewrite W. intros H. destruct (IH2 _ H) as (j & Hj & EJ). injection EJ as EJ.
      assert (i = j); [|congruence]. pose proof (R i (or_introl eq_refl)). pose proof (R j (or_intror Hj)). lia.
    + intros w [<-|H]; [exists i; split; [left; auto|auto]|]. destruct (IH2 _ H) as (j & Hj & EJ). exists j; split; [right|]; auto.
  - split; auto. intros w H. destruct (IH2 _ H) as (j & Hj & EJ). exists j; split; [right|]; auto.
Qed.
Lemma upto_in n i : In i (upto n) -> 0 <= i < n.
Proof. unfold upto. intros H. apply in_map_iff in H. destruct H as (j & <- & Hj). apply in_seq in Hj. lia. Qed.
Lemma upto_nodup n : NoDup (upto n).
Proof. unfold upto. apply Injective_map_NoDup; [intros a b; lia|apply seq_NoDup]. Qed.
Lemma spawn_workers beg fin n : 1 <= n -> NoDup (map who (spawn beg fin n)) /\
  forall w, In (Some w) (map who (spawn beg fin n)) -> (w < Z.to_nat n)%nat.
Proof.
  intros N. unfold spawn. destruct (n =? 1).
  - cbn. split; [constructor; [intros []|constructor]|]. intros w [H|[]]. discriminate.
  - destruct (somes_who beg fin n (incr (u32 (fin - beg)) n) (upto n) (upto_nodup n) (fun i => upto_in n i)) as [A B].
    split; auto. intros w H. destruct (B _ H) as (i & Hi & E). injection E as ->. apply upto_in in Hi. lia.
Qed.
(** no overflow for the thread counts the runtime uses *)
Lemma size_ok_124 beg fin n : INT_MIN <= beg -> fin <= INT_MAX - 4 -> 16 <= fin - beg <= INT_MAX -> In n [1; 2; 4] ->
  size_ok beg fin n.
Proof.
  intros B F S N. unfold size_ok, incr, INT_MIN, INT_MAX in *. cbn in N.
  split; [lia|]. split; [lia|]. split; [lia|]. split; [lia|].
  destruct (Z.eq_dec n 1) as [E1|E1]; [left; assumption|right].
  assert (R : 0 <= ((fin - beg) / n + 4 - 1) / 4 * 4 <= 2147483647).
  { destruct N as [<-|[<-|[<-|[]]]]; lia. }
  rewrite u32_small by lia. rewrite s32_small by (unfold INT_MIN, INT_MAX; lia).
  replace ((fin - beg) / n + 4 - 1) with ((fin - beg) / n + 3) in * by lia.
  destruct N as [<-|[<-|[<-|[]]]]; lia.
Qed.

(** *** C12 *)
Theorem C12_every_index_exactly_once :
  forall beg fin n k, INT_MIN <= beg -> fin <= INT_MAX - 4 -> fin - beg <= INT_MAX -> In n [1; 2; 4] ->
  times_run k (parallelFor beg fin n) = if (beg <=? k) && (k <? fin) then 1%nat else 0%nat.
Proof.
  intros beg fin n k B F S N. unfold parallelFor. destruct (fin <=? beg) eqn:E.
  { cbn. destruct (beg <=? k) eqn:?, (k <? fin) eqn:?; try reflexivity; exfalso; lia. }
  rewrite u32_small by (unfold INT_MAX in *; lia). destruct (_ <? 16) eqn:E2.
  { rewrite times_cons. cbn [lo hi times_run filter length]. rewrite Nat.add_0_r. reflexivity. }
  apply spawn_cover, size_ok_124; auto. lia.
Qed.
(** the same for any number of threads (not only the 1, 2, 4 in use) when int32 does not overflow *)
Theorem C12_any_thread_count :
  forall beg fin n k, size_ok beg fin n -> times_run k (spawn beg fin n) = if (beg <=? k) && (k <? fin) then 1%nat else 0%nat.
Proof. exact spawn_cover. Qed.
Theorem C12_chunks_nonempty_inside_aligned :
  forall beg fin n c, INT_MIN <= beg -> fin <= INT_MAX - 4 -> fin - beg <= INT_MAX -> In n [1; 2; 4] ->
  In c (parallelFor beg fin n) -> beg <= lo c /\ lo c < hi c /\ hi c <= fin /\ (lo c - beg) mod 4 = 0.
Proof.
  intros beg fin n c B F S N. unfold parallelFor. destruct (fin <=? beg) eqn:E; [intros []|].
  rewrite u32_small by (unfold INT_MAX in *; lia). destruct (_ <? 16) eqn:E2.
  { cbn. intros [<-|[]]. cbn. replace (beg - beg) with 0 by lia. cbn. lia. }
  apply spawn_chunks, size_ok_124; auto. lia.
Qed.
(** every chunk runs on its own worker and worker numbers stay inside the worker array *)
Theorem C12_one_chunk_per_worker :
  forall beg fin n, In n [1; 2; 4] -> NoDup (map who (parallelFor beg fin n)) /\
  forall w, In (Some w) (map who (parallelFor beg fin n)) -> (w < 4)%nat.
Proof.
  intros beg fin n N. unfold parallelFor. destruct (fin <=? beg); [split; [constructor|intros ? []]|].
  destruct (_ <? 16).
  { cbn. split; [constructor; [intros []|constructor]|]. intros w [H|[]]; discriminate. }
  destruct (spawn_workers beg fin n) as [A C]; [cbn in N; lia|]. split; auto.
  intros w H. specialize (C w H). cbn in N. destruct N as [<-|[<-|[<-|[]]]]; cbn in C; lia.
Qed.
Example C12_example : map (fun c => (lo c, hi c)) (parallelFor (-3) 98 4) = [(-3, 25); (25, 53); (53, 81); (81, 98)].
Proof. reflexivity. Qed.
(** The bound on [fin] cannot be dropped: twenty iterations ending at INT_MAX - 3 on four threads make the
    last sub-range start wrap (undefined behaviour in C++) and index 0 is executed although it is outside. *)
Theorem C12_end_near_INT_MAX_refuted :
  exists beg fin k, INT_MIN <= beg /\ fin <= INT_MAX /\ fin - beg = 20 /\ ~ (beg <= k < fin) /\
    times_run k (parallelFor beg fin 4) = 1%nat.
Proof. exists (INT_MAX - 23), (INT_MAX - 3), 0. unfold INT_MIN, INT_MAX. repeat split; try lia. Qed.

(** * Thread-count tuning *)
(** cmmc_sysy_rt.cpp:121-131 ParallelForEntry *)
Record entry := mkE { func : Z; esize : Z; valid : bool; hitCount : Z; time1 : Z; time2 : Z; time4 : Z; bestThreads : Z }.
Definition entry0 := mkE 0 0 false 0 0 0 0 0.
(** :132-134 the table and lookupPtr, statically zero-initialised *)
Record cache := mkK { entries : list entry; ptr : nat }.
Definition cache0 := mkK (repeat entry0 16) 0.
Definition getE (k : cache) (i : nat) : entry := nth i (entries k) entry0.
Fixpoint setL (l : list entry) (i : nat) (e : entry) : list entry :=
  match l, i with [], _ => [] | _ :: l, O => e :: l | a :: l, S i => a :: setL l i e end.
Definition setE (k : cache) (i : nat) (e : entry) : cache := mkK (setL (entries k) i e) (ptr k).
Definition isKey (f s : Z) (e : entry) : bool := valid e && (func e =? f) && (esize e =? s).
(** :136-144 first loop *)
Fixpoint lookup (fuel : nat) (l : list entry) (p : nat) (f s : Z) : option nat * nat :=
  match fuel with
  | O => (None, p)
  | S fuel => let p := if Nat.eqb p 16 then O else p in
      if isKey f s (nth p l entry0) then (Some p, p) else lookup fuel l (S p) f s
  end.
(** :146-156 first empty slot *)
Fixpoint emptySlot (l : list entry) (i : nat) : option nat :=
  match l with [] => None | e :: l => if valid e then emptySlot l (S i) else Some i end.
(** :158-166 entry with the smallest hit count *)
Fixpoint minHit (l : list entry) (i best : nat) (m : Z) : nat :=
  match l with [] => best | e :: l => if hitCount e <? m then minHit l (S i) i (hitCount e) else minHit l (S i) best m end.
Definition withHit (e : entry) h := mkE (func e) (esize e) (valid e) h (time1 e) (time2 e) (time4 e) (bestThreads e).
(** :135-173 selectEntry *)
Definition selectEntry (k : cache) (f s : Z) : cache * nat :=
  let '(r, p) := lookup 16 (entries k) (ptr k) f s in
  match r with
  | Some i => let e := getE k i in (setE (mkK (entries k) p) i (withHit e (u32 (hitCount e + 1))), i)
  | None =>
    match emptySlot (entries k) 0 with
    | Some i => let e := getE k i in
        (setE (mkK (entries k) i) i (mkE f s true 1 (time1 e) (time2 e) (time4 e) (bestThreads e)), i)
    | None => let i := minHit (entries k) 0 0 UINT_MAX in let e := getE k i in
        (setE (mkK (entries k) i) i (mkE f s (valid e) 1 (time1 e) (time2 e) (time4 e) (bestThreads e)), i)
    end
  end.
(** :190-199 index of the smallest time *)
Definition bestOf (e : entry) : Z :=
  let '(b, m) := if time1 e <? 9223372036854775807 then (0, time1 e) else (0, 9223372036854775807) in
  let '(b, m) := if time2 e <? m then (1, time2 e) else (b, m) in
  if time4 e <? m then 2 else b.
(** :181-206 selectNumberOfThreads: log2 of the thread count, and whether to sample *)
Definition selectThreads (k : cache) (f s : Z) : cache * nat * Z * bool :=
  let '(k, i) := selectEntry k f s in
  let e := getE k i in
  if hitCount e <? 100 then (k, i, 2, false)
  else if hitCount e <? 160 then (k, i, (hitCount e - 100) / 20, true)
  else
    let e' := if bestThreads e =? 0
              then mkE (func e) (esize e) (valid e) (hitCount e) (time1 e) (time2 e) (time4 e) (bestOf e) else e in
    (setE k i e', i, bestThreads e', false).
(** :249-263 one cmmcParallelFor call of at least 16 iterations: pick, run, record the time [d] *)
Definition addTime (e : entry) (t d : Z) : entry :=
  mkE (func e) (esize e) (valid e) (hitCount e)
    (if t =? 0 then s64 (time1 e + d) else time1 e) (if t =? 1 then s64 (time2 e + d) else time2 e)
    (if t =? 2 then s64 (time4 e + d) else time4 e) (bestThreads e).
Definition call (k : cache) (f s d : Z) : cache * Z :=
  let '(k, i, t, sample) := selectThreads k f s in
  (if sample then setE k i (addTime (getE k i) t d) else k, t).
(** caches reachable by any history of calls *)
Inductive reach : cache -> Prop :=
| reach0 : reach cache0
| reachS k f s d : reach k -> reach (fst (call k f s d)).

Definition inv (k : cache) : Prop :=
  length (entries k) = 16%nat /\ (ptr k < 16)%nat /\
  (forall i, 0 <= bestThreads (getE k i) <= 2) /\ (forall i, 0 <= hitCount (getE k i) <= UINT_MAX) /\
  (forall i j, (i < 16)%nat -> (j < 16)%nat -> valid (getE k i) = true -> valid (getE k j) = true ->
     func (getE k i) = func (getE k j) -> esize (getE k i) = esize (getE k j) -> i = j).
Lemma setL_length l i e : length (setL l i e) = length l.
Proof. revert i. induction l; intros [|i]; cbn; auto. Qed.
Lemma nth_setL l i j e : (i < length l)%nat -> nth j (setL l i e) entry0 = if Nat.eqb j i then e else nth j l entry0.
Proof.
  revert i j. induction l as [|a l IH]; intros [|i] [|j] H; cbn in *; try lia; auto.
  apply IH. lia.
Qed.
Lemma get_set k i j e : length (entries k) = 16%nat -> (i < 16)%nat -> getE (setE k i e) j = if Nat.eqb j i then e else getE k j.
Proof. intros L I. unfold getE, setE. cbn [entries]. apply nth_setL. lia. Qed.
Lemma get_setp k q i j e : length (entries k) = 16%nat -> (i < 16)%nat -> getE (setE (mkK (entries k) q) i e) j = if Nat.eqb j i then e else getE k j.
Proof. intros L I. unfold getE, setE. cbn [entries]. apply nth_setL. lia. Qed.
Lemma lookup_some fuel l p f s i q : lookup fuel l p f s = (Some i, q) -> (p <= 16)%nat ->
  (i < 16)%nat /\ q = i /\ isKey f s (nth i l entry0) = true.
Proof.
  revert p. induction fuel as [|fuel IH]; cbn; intros p H P; [discriminate|].
  destruct (Nat.eqb p 16) eqn:E.
  - destruct (isKey f s (nth 0 l entry0)) eqn:K; [injection H as <- <-; repeat split; auto; lia|]. apply (IH 1%nat) in H; auto. lia.
  - apply PeanoNat.Nat.eqb_neq in E. destruct (isKey f s (nth p l entry0)) eqn:K; [injection H as <- <-; repeat split; auto; lia|].
    apply (IH (S p)) in H; auto. lia.
Qed.
Lemma lookup_none fuel l p f s q : lookup fuel l p f s = (None, q) -> (p <= 16)%nat ->
  forall j, (j < fuel)%nat -> (j < 16)%nat -> isKey f s (nth ((p + j) mod 16) l entry0) = false.
Proof.
  revert p. induction fuel as [|fuel IH]; cbn [lookup]; intros p H P j J1 J2; [lia|]. cbv zeta in H.
  destruct (Nat.eqb p 16) eqn:E.
  - apply PeanoNat.Nat.eqb_eq in E. subst p. destruct (isKey f s (nth 0 l entry0)) eqn:K; [discriminate|]. destruct j as [|j].
    + change ((16 + 0) mod 16)%nat with 0%nat. assumption.
    + specialize (IH 1%nat H ltac:(lia) j ltac:(lia) ltac:(lia)).
      replace (16 + S j)%nat with (1 + j + 1 * 16)%nat by lia. rewrite PeanoNat.Nat.mod_add by lia. assumption.
  - apply PeanoNat.Nat.eqb_neq in E. destruct (isKey f s (nth p l entry0)) eqn:K; [discriminate|]. destruct j as [|j].
    + rewrite PeanoNat.Nat.add_0_r, PeanoNat.Nat.mod_small by lia. assumption.
    + specialize (IH (S p) H ltac:(lia) j ltac:(lia) ltac:(lia)). replace (p + S j)%nat with (S p + j)%nat by lia. assumption.
Qed.
Lemma lookup_none_all l p f s q : lookup 16 l p f s = (None, q) -> (p < 16)%nat -> forall j, (j < 16)%nat -> isKey f s (nth j l entry0) = false.
Proof.
  intros H P j J. pose proof (lookup_none 16 l p f s q H ltac:(lia) ((16 - p + j) mod 16)%nat) as K.
  assert (B : ((16 - p + j) mod 16 < 16)%nat) by (apply PeanoNat.Nat.mod_upper_bound; lia).
  specialize (K B B). rewrite PeanoNat.Nat.add_mod_idemp_r in K by lia. replace (p + (16 - p + j))%nat with (j + 1 * 16)%nat in K by lia.
  rewrite PeanoNat.Nat.mod_add, PeanoNat.Nat.mod_small in K by lia. assumption.
Qed.
Lemma emptySlot_some l i j : emptySlot l i = Some j -> (i <= j < i + length l)%nat /\ valid (nth (j - i) l entry0) = false.
Proof.
  revert i. induction l as [|e l IH]; cbn; intros i H; [discriminate|]. destruct (valid e) eqn:E.
  - apply IH in H. destruct H as [A B]. split; [lia|]. replace (j - i)%nat with (S (j - S i)) by lia. assumption.
  - injection H as <-. split; [lia|]. rewrite PeanoNat.Nat.sub_diag. assumption.
Qed.
Lemma emptySlot_none l i : emptySlot l i = None -> forall j, (j < length l)%nat -> valid (nth j l entry0) = true.
Proof.
  revert i. induction l as [|e l IH]; cbn; intros i H j J; [lia|]. destruct (valid e) eqn:E; [|discriminate].
  destruct j; auto. eapply IH; eauto. lia.
Qed.
Lemma minHit_bound l i best m n : (best < n)%nat -> (i + length l <= n)%nat -> (minHit l i best m < n)%nat.
Proof. revert i best m. induction l as [|e l IH]; cbn; intros i best m B L; auto. destruct (_ <? _); apply IH; lia. Qed.
Lemma isKey_true f s e : isKey f s e = true <-> valid e = true /\ func e = f /\ esize e = s.
Proof. unfold isKey. rewrite !andb_true_iff, !Z.eqb_eq. tauto. Qed.

(** what one selectEntry call guarantees *)
Lemma selectEntry_ok k f s k' i : inv k -> selectEntry k f s = (k', i) ->
  (i < 16)%nat /\ inv k' /\ valid (getE k' i) = true /\ func (getE k' i) = f /\ esize (getE k' i) = s.
Proof.
  intros (L & P & B & HC & U) H. unfold selectEntry in H.
  destruct (lookup 16 (entries k) (ptr k) f s) as [[j|] q] eqn:E.
  - apply lookup_some in E; [|lia]. destruct E as (J & -> & K). apply isKey_true in K. destruct K as (K1 & K2 & K3).
    injection H as <- <-. fold (getE k j) in *.
    assert (G : forall m, getE (setE (mkK (entries k) j) j (withHit (getE k j) (u32 (hitCount (getE k j) + 1)))) m =
      if Nat.eqb m j then withHit (getE k j) (u32 (hitCount (getE k j) + 1)) else getE k m) by (intros; apply get_setp; auto).
    split; [auto|]. split; [|rewrite !G, !PeanoNat.Nat.eqb_refl; cbn; auto].
    split; [cbn [setE entries]; rewrite setL_length; auto|]. split; [cbn; lia|]. split; [|split].
    + intros m. rewrite G. destruct (Nat.eqb m j); cbn; auto.
    + intros m. rewrite G. destruct (Nat.eqb m j); [cbn; pose proof (u32_range (hitCount (getE k j) + 1)); unfold UINT_MAX; lia|auto].
    + intros a b A1 B1. rewrite !G. destruct (Nat.eqb a j) eqn:Ea, (Nat.eqb b j) eqn:Eb; 
      rewrite ?PeanoNat.Nat.eqb_eq in *; subst; cbn [withHit valid func esize]; intros; auto; try (apply U; auto; congruence).
  - pose proof (lookup_none_all _ _ _ _ _ E P) as NK.
    assert (N : exists h v, forall m, (m < 16)%nat -> k' = setE (mkK (entries k) i) i (mkE f s v h (time1 (getE k i)) (time2 (getE k i)) (time4 (getE k i)) (bestThreads (getE k i))) /\ h = 1 /\ v = true /\ (i < 16)%nat).
    { destruct (emptySlot (entries k) 0) as [j|] eqn:ES.
      - apply emptySlot_some in ES. injection H as <- <-. exists 1, true. intros; repeat split; lia.
      - injection H as <- <-. exists 1, (valid (getE k (minHit (entries k) 0 0 UINT_MAX))).
        assert (MB : (minHit (entries k) 0 0 UINT_MAX < 16)%nat) by (apply minHit_bound; lia).
        intros m Hm. repeat split; auto. apply (emptySlot_none _ _ ES). lia. }
    destruct N as (h & v & N). destruct (N 0%nat ltac:(lia)) as (-> & -> & -> & I). clear N H.
    set (ne := mkE f s true 1 _ _ _ _).
    assert (G : forall m, getE (setE (mkK (entries k) i) i ne) m = if Nat.eqb m i then ne else getE k m) by (intros; apply get_setp; auto).
    split; [auto|]. split; [|rewrite !G, !PeanoNat.Nat.eqb_refl; cbn; auto].
    split; [cbn [setE entries]; rewrite setL_length; auto|]. split; [cbn; lia|]. split; [|split].
    + intros m. rewrite G. destruct (Nat.eqb m i); cbn; auto.
    + intros m. rewrite G. destruct (Nat.eqb m i); [cbn; unfold UINT_MAX; lia|auto].
    + intros a b A1 B1. rewrite !G. destruct (Nat.eqb a i) eqn:Ea, (Nat.eqb b i) eqn:Eb;
      rewrite ?PeanoNat.Nat.eqb_eq in *; subst; cbn [ne valid func esize]; intros; auto.
      * exfalso. pose proof (NK b B1) as X. fold (getE k b) in X. assert (isKey f s (getE k b) = true) by (apply isKey_true; auto). congruence.
      * exfalso. pose proof (NK a A1) as X. fold (getE k a) in X. assert (isKey f s (getE k a) = true) by (apply isKey_true; auto). congruence.
Qed.
Lemma inv_set k i e : inv k -> (i < 16)%nat -> valid e = valid (getE k i) -> func e = func (getE k i) -> esize e = esize (getE k i) ->
  0 <= hitCount e <= UINT_MAX -> 0 <= bestThreads e <= 2 -> inv (setE k i e).
Proof.
  intros (L & P & B & HC & U) I V F S H1 H2.
  assert (G : forall m, getE (setE k i e) m = if Nat.eqb m i then e else getE k m) by (intros; apply get_set; auto).
  split; [cbn [setE entries]; rewrite setL_length; auto|]. split; [cbn; lia|]. split; [|split].
  - intros m. rewrite G. destruct (Nat.eqb m i); auto.
  - intros m. rewrite G. destruct (Nat.eqb m i); auto.
  - intros a b A1 B1. rewrite !G. destruct (Nat.eqb a i) eqn:Ea, (Nat.eqb b i) eqn:Eb;
      rewrite ?PeanoNat.Nat.eqb_eq in *; subst; intros; auto; apply U; auto; congruence.
Qed.
Lemma bestOf_range e : 0 <= bestOf e <= 2.
Proof. unfold bestOf. repeat destruct (_ <? _); lia. Qed.
Lemma selectThreads_ok k f s k' i t b : inv k -> selectThreads k f s = (k', i, t, b) ->
  (i < 16)%nat /\ inv k' /\ valid (getE k' i) = true /\ func (getE k' i) = f /\ esize (getE k' i) = s /\ 0 <= t <= 2.
Proof.
  intros K H. unfold selectThreads in H. destruct (selectEntry k f s) as [k1 j] eqn:E.
  destruct (selectEntry_ok k f s k1 j K E) as (J & K1 & V & F & S). pose proof K1 as (L & P & B & HC & U).
  destruct (hitCount (getE k1 j) <? 100) eqn:H1.
  { injection H as <- <- <- <-. repeat split; auto; lia. }
  destruct (hitCount (getE k1 j) <? 160) eqn:H2.
  { injection H as <- <- <- <-. split; [auto|]. split; [auto|]. repeat split; auto; lia. }
  set (e' := if bestThreads (getE k1 j) =? 0 then _ else _) in H. injection H as <- <- <- <-.
  assert (E' : valid e' = valid (getE k1 j) /\ func e' = func (getE k1 j) /\ esize e' = esize (getE k1 j) /\
    hitCount e' = hitCount (getE k1 j) /\ 0 <= bestThreads e' <= 2).
  { unfold e'. destruct (_ =? 0); cbn; repeat split; auto; try apply bestOf_range; apply B. }
  destruct E' as (E1 & E2 & E3 & E4 & E5). rewrite get_set, PeanoNat.Nat.eqb_refl by auto.
  split; [auto|]. split; [apply inv_set; auto; rewrite E4; auto|]. repeat split; auto; congruence || lia.
Qed.
Lemma call_ok k f s d : inv k -> inv (fst (call k f s d)) /\ 0 <= snd (call k f s d) <= 2.
Proof.
  intros K. unfold call. destruct (selectThreads k f s) as [[[k1 i] t] b] eqn:E.
  destruct (selectThreads_ok _ _ _ _ _ _ _ K E) as (I & K1 & V & F & S & T). cbn [fst snd]. split; [|assumption].
  destruct b; auto. pose proof K1 as (L & P & B & HC & U). apply inv_set; auto; cbn; auto.
Qed.
Lemma inv0 : inv cache0.
Proof.
  split; [reflexivity|]. split; [cbn; lia|]. assert (G : forall i, getE cache0 i = entry0).
  { intros i. unfold getE. cbn [cache0 entries]. do 16 (destruct i; [reflexivity|]). destruct i; reflexivity. }
  split; [intros; rewrite G; cbn; lia|]. split; [intros; rewrite G; cbn; unfold UINT_MAX; lia|]. intros i j _ _. rewrite !G. discriminate.
Qed.
Lemma reach_inv k : reach k -> inv k.
Proof. induction 1; [apply inv0|apply call_ok; assumption]. Qed.

(** *** C24 *)
Theorem C24_entry_in_bounds_and_for_the_key :
  forall k f s k' i, reach k -> selectEntry k f s = (k', i) ->
  (i < length (entries k))%nat /\ valid (getE k' i) = true /\ func (getE k' i) = f /\ esize (getE k' i) = s.
Proof.
  intros k f s k' i R H. apply reach_inv in R. pose proof (proj1 R) as L.
  destruct (selectEntry_ok _ _ _ _ _ R H) as (I & K & V & F & S). rewrite L. auto.
Qed.
Theorem C24_no_key_twice :
  forall k i j, reach k -> (i < 16)%nat -> (j < 16)%nat -> valid (getE k i) = true -> valid (getE k j) = true ->
  func (getE k i) = func (getE k j) -> esize (getE k i) = esize (getE k j) -> i = j.
Proof. intros k i j R. apply reach_inv in R. destruct R as (_ & _ & _ & _ & U). apply U. Qed.
Theorem C24_thread_count_supported :
  forall k f s d, reach k -> In (2 ^ snd (call k f s d)) [1; 2; 4].
Proof.
  intros k f s d R. apply reach_inv in R. destruct (call_ok k f s d R) as [_ T].
  assert (snd (call k f s d) = 0 \/ snd (call k f s d) = 1 \/ snd (call k f s d) = 2) as [->|[->| ->]] by lia; cbn; auto.
Qed.
(** together with C12: whatever happened before, a call runs every index exactly once *)
Theorem C24_parallelFor_after_any_history :
  forall h f d beg fin k, reach h -> INT_MIN <= beg -> fin <= INT_MAX - 4 -> fin - beg <= INT_MAX ->
  times_run k (parallelFor beg fin (2 ^ snd (call h f (u32 (fin - beg)) d))) = if (beg <=? k) && (k <? fin) then 1%nat else 0%nat.
Proof. intros. apply C12_every_index_exactly_once; auto. apply C24_thread_count_supported; auto. Qed.
(** Tuning data is not per loop: an evicted slot keeps the other loop's timings (and its decision), so the
    measurements of one loop can decide the thread count of a loop that never ran before. *)
Definition runs (h : list (Z * Z * Z)) : cache := fold_left (fun k c => let '(f, s, d) := c in fst (call k f s d)) h cache0.
Lemma runs_reach h : reach (runs h).
Proof.
  unfold runs. assert (G : forall k, reach k -> reach (fold_left (fun k c => let '(f, s, d) := c in fst (call k f s d)) h k)).
  { induction h as [|[[f s] d] h IH]; intros k K; cbn [fold_left]; auto. apply IH. apply reachS. assumption. }
  apply G. constructor.
Qed.
Definition stale_history : list (Z * Z * Z) :=
  concat (map (fun f => repeat (f, 100, 5) 101) [1;2;3;4;5;6;7;8;9;10;11;12;13;14;15;16]).
Theorem C26_stale_timings_refuted :
  exists h f s, (forall c, In c h -> fst (fst c) <> f) /\
    let '(k, i) := selectEntry (runs h) f s in time1 (getE k i) <> 0.
Proof.
  exists stale_history, 17, 100. split.
  - intros c H. unfold stale_history in H. apply in_concat in H. destruct H as (l & Hl & H). apply in_map_iff in Hl.
    destruct Hl as (f & <- & Hf). apply repeat_spec in H. subst c. cbn [fst]. cbn in Hf. lia.
  - vm_compute. discriminate.
Qed.
(** As long as fewer than 16 loops are known, a loop seen for the first time starts without timings. *)
Definition clean (k : cache) : Prop := forall i, valid (getE k i) = false -> getE k i = entry0.
Lemma clean_set k i e : length (entries k) = 16%nat -> (i < 16)%nat -> valid e = true -> clean k -> clean (setE k i e).
Proof. intros L I V C j. rewrite get_set by auto. destruct (Nat.eqb j i); [congruence|apply C]. Qed.
Lemma clean_ptr k q : clean k -> clean (mkK (entries k) q).
Proof. intros C i. exact (C i). Qed.
Lemma selectEntry_clean k f s k' i : inv k -> clean k -> selectEntry k f s = (k', i) -> clean k'.
Proof.
  intros K C H. pose proof K as (L & P & B & HC & U). destruct (selectEntry_ok k f s k' i K H) as (I & _ & V & _ & _).
  unfold selectEntry in H. destruct (lookup 16 (entries k) (ptr k) f s) as [[j|] q].
  - injection H as <- <-. rewrite get_setp, PeanoNat.Nat.eqb_refl in V by auto. apply clean_set; auto using clean_ptr.
  - destruct (emptySlot (entries k) 0); injection H as <- <-; rewrite get_setp, PeanoNat.Nat.eqb_refl in V by auto;
      apply clean_set; auto using clean_ptr.
Qed.
Lemma call_clean k f s d : inv k -> clean k -> clean (fst (call k f s d)).
Proof.
  intros K C. unfold call. destruct (selectThreads k f s) as [[[k1 i] t] b] eqn:E.
  pose proof (selectThreads_ok _ _ _ _ _ _ _ K E) as (I & K1 & V & _ & _). pose proof (proj1 K1) as L. cbn [fst].
  assert (C1 : clean k1).
  { unfold selectThreads in E. destruct (selectEntry k f s) as [k2 j] eqn:E2. pose proof (selectEntry_clean _ _ _ _ _ K C E2) as C2.
    destruct (selectEntry_ok k f s k2 j K E2) as (J & K2 & V2 & _ & _). pose proof (proj1 K2) as L2.
    destruct (_ <? 100); [injection E as <- <- <- <-; auto|]. destruct (_ <? 160); [injection E as <- <- <- <-; auto|].
    injection E as <- <- <- <-. apply clean_set; auto. destruct (_ =? 0); auto. }
  destruct b; auto. apply clean_set; auto.
Qed.
Lemma reach_clean k : reach k -> clean k.
Proof.
  induction 1; [|apply call_clean; auto; apply reach_inv; auto]. intros i _. unfold getE. cbn [cache0 entries].
  do 16 (destruct i; [reflexivity|]). destruct i; reflexivity.
Qed.
Theorem C26_fresh_loop_has_no_timings_partial :
  forall k f s k' i, reach k -> (exists j, (j < 16)%nat /\ valid (getE k j) = false) ->
  (forall j, (j < 16)%nat -> isKey f s (getE k j) = false) -> selectEntry k f s = (k', i) ->
  getE k' i = mkE f s true 1 0 0 0 0.
Proof.
  intros k f s k' i R (j & J & V) NK H. pose proof (reach_inv _ R) as K. pose proof (reach_clean _ R) as C. pose proof K as (L & P & _).
  unfold selectEntry in H. destruct (lookup 16 (entries k) (ptr k) f s) as [[m|] q] eqn:E.
  - apply lookup_some in E; [|lia]. destruct E as (M & _ & E). pose proof (NK m M). unfold getE in H0. congruence.
  - destruct (emptySlot (entries k) 0) as [m|] eqn:ES.
    + pose proof (emptySlot_some _ _ _ ES) as [M MV]. rewrite PeanoNat.Nat.sub_0_r in MV. fold (getE k m) in MV.
      injection H as <- <-. rewrite get_setp, PeanoNat.Nat.eqb_refl by (auto; lia). rewrite (C _ MV). reflexivity.
    + pose proof (emptySlot_none _ _ ES j ltac:(lia)). unfold getE in V. congruence.
Qed.
Example C26_example : exists k, reach k /\ (exists j, (j < 16)%nat /\ valid (getE k j) = false) /\ getE k 0 <> entry0 /\
  (forall j, (j < 16)%nat -> isKey 2 100 (getE k j) = false).
Proof.
  exists (runs [(1, 100, 5)]). split; [apply runs_reach|]. split; [exists 1%nat; split; [lia|reflexivity]|]. split; [discriminate|].
  intros j J. do 16 (destruct j; [reflexivity|]). lia.
Qed.
