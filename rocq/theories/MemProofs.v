(** * Byte-level reasoning about the interpreter's memory (C15) *)
From Coq Require Import ZArith Lia Bool List Permutation ZifyBool Znumtheory.
From Verif Require Import Word IR ConstFold ConstFoldProofs MemModel.
Import ListNotations.
Local Open Scope Z_scope.

(** the byte a 64-bit address designates: an address at or above [globalOffset] is in the
    global storage, any other in the stack storage; a byte beyond the end of the storage
    is neither readable nor writable *)
Definition view (m : mem) (a : Z) : cell :=
  let s := if globalOffset <=? a then gs m else ss m in
  let i := u64 (a - (if globalOffset <=? a then globalOffset else stackOffset)) in
  if i <? ssize s then cells s i else invalid.
Definition addr (a : Z) := 0 <= a < 18446744073709551616.
Definition readable (m : mem) (a : Z) : Prop := rd (view m a) = true.
Definition writable (m : mem) (a : Z) : Prop := wr (view m a) = true.
(** allocation tables are the same *)
Definition sameTables (m m' : mem) : Prop :=
  galloc m' = galloc m /\ salloc m' = salloc m /\ popped m' = popped m /\
  ssize (gs m') = ssize (gs m) /\ ssize (ss m') = ssize (ss m).
Lemma sameTables_refl m : sameTables m m. Proof. unfold sameTables; auto. Qed.
Lemma sameTables_trans a b c : sameTables a b -> sameTables b c -> sameTables a c.
Proof. unfold sameTables. intuition congruence. Qed.

Lemma u64_small x : addr x -> u64 x = x.
Proof. intros H. unfold u64. apply Z.mod_small. exact H. Qed.
Lemma u64_addr x : addr (u64 x).
Proof. unfold u64, addr. apply Z.mod_pos_bound. lia. Qed.
Lemma u64_off_inj a b o : addr a -> addr b -> u64 (a - o) = u64 (b - o) -> a = b.
Proof.
  unfold u64, addr. intros A B H.
  pose proof (Z.div_mod (a - o) 18446744073709551616 ltac:(lia)).
  pose proof (Z.div_mod (b - o) 18446744073709551616 ltac:(lia)). 
  set (q1 := (a - o) / 18446744073709551616) in *. set (q2 := (b - o) / 18446744073709551616) in *.
  assert (q1 = q2) by nia. nia.
Qed.

Lemma load_spec m p : load m p = if rd (view m p) then (m, byte (view m p)) else (setErr m, 204).
Proof.
  unfold load, view, loadS. destruct (globalOffset <=? p); cbn zeta.
  - destruct (u64 (p - globalOffset) <? ssize (gs m)); [destruct (rd _); reflexivity|reflexivity].
  - destruct (u64 (p - stackOffset) <? ssize (ss m)); [destruct (rd _); reflexivity|reflexivity].
Qed.

Lemma view_setErr m a : view (setErr m) a = view m a. Proof. reflexivity. Qed.

Lemma store_bad m p v : wr (view m p) = false -> store m p v = setErr m.
Proof.
  unfold store, view, storeS. destruct (globalOffset <=? p); cbn zeta.
  - destruct (u64 (p - globalOffset) <? ssize (gs m)); [intros ->|]; reflexivity.
  - destruct (u64 (p - stackOffset) <? ssize (ss m)); [intros ->|]; reflexivity.
Qed.
Lemma store_good m p v : addr p -> wr (view m p) = true ->
  err (store m p v) = err m /\ sameTables m (store m p v) /\
  forall a, addr a -> view (store m p v) a =
    if a =? p then mkC (rd (view m a)) (wr (view m a)) v else view m a.
Proof.
  intros P. unfold store, storeS. unfold view at 1. 
  destruct (globalOffset <=? p) eqn:G; cbn zeta.
  - destruct (u64 (p - globalOffset) <? ssize (gs m)) eqn:L; [|discriminate]. intros W. rewrite W.
    split; [reflexivity|]. split; [split; auto|].
    intros a A. unfold view, setRange. cbn [gs ss setG ssize cells].
    destruct (globalOffset <=? a) eqn:G'; cbn zeta.
    + cbn [ssize cells]. destruct (a =? p) eqn:E.
      * assert (a = p) by lia. subst a. rewrite L.
        replace (_ && _) with true by lia. reflexivity.
      * assert (u64 (a - globalOffset) <> u64 (p - globalOffset)) by (intros H; apply (u64_off_inj a p _ A P) in H; lia).
        destruct (u64 (a - globalOffset) <? ssize _) eqn:?; [|reflexivity].
        replace (_ && _) with false by lia. reflexivity.
    + destruct (a =? p) eqn:E; [|reflexivity]. lia.
  - destruct (u64 (p - stackOffset) <? ssize (ss m)) eqn:L; [|discriminate]. intros W. rewrite W.
    split; [reflexivity|]. split; [split; auto|].
    intros a A. unfold view, setRange. cbn [gs ss setSS ssize cells].
    destruct (globalOffset <=? a) eqn:G'; cbn zeta.
    + destruct (a =? p) eqn:E; [|reflexivity]. lia.
    + cbn [ssize cells]. destruct (a =? p) eqn:E.
      * assert (a = p) by lia. subst a. rewrite L.
        replace (_ && _) with true by lia. reflexivity.
      * assert (u64 (a - stackOffset) <> u64 (p - stackOffset)) by (intros H; apply (u64_off_inj a p _ A P) in H; lia).
        destruct (u64 (a - stackOffset) <? ssize _) eqn:?; [|reflexivity].
        replace (_ && _) with false by lia. reflexivity.
Qed.

(** one store: only the byte written changes, and only its contents *)
Lemma store_any m p v : addr p ->
  sameTables m (store m p v) /\ (err m = true -> err (store m p v) = true) /\
  forall a, addr a -> rd (view (store m p v) a) = rd (view m a) /\ wr (view (store m p v) a) = wr (view m a) /\
    (a <> p \/ wr (view m a) = false -> view (store m p v) a = view m a).
Proof.
  intros P. destruct (wr (view m p)) eqn:W.
  - destruct (store_good m p v P W) as (E & T & V). split; [exact T|]. split; [congruence|].
    intros a A. rewrite V by exact A. destruct (a =? p) eqn:EQ; [|auto].
    cbn. split; [reflexivity|]. split; [reflexivity|]. assert (a = p) by lia. subst a. intros [?|?]; [lia|congruence].
  - rewrite store_bad by exact W. split; [apply (sameTables_refl m)|]. split; [auto|]. intros a A. auto.
Qed.

Lemma storeBytes_any bs : forall m p, 0 <= p -> p + Z.of_nat (length bs) <= 18446744073709551616 ->
  sameTables m (storeBytes m p bs) /\ (err m = true -> err (storeBytes m p bs) = true) /\
  forall a, addr a -> rd (view (storeBytes m p bs) a) = rd (view m a) /\
    wr (view (storeBytes m p bs) a) = wr (view m a) /\
    (~ (p <= a < p + Z.of_nat (length bs)) \/ wr (view m a) = false -> view (storeBytes m p bs) a = view m a).
Proof.
  induction bs as [|b bs IH]; intros m p P L.
  - cbn. split; [apply sameTables_refl|]. auto.
  - cbn [storeBytes length] in *. rewrite Nat2Z.inj_succ in *.
    assert (AP : addr p) by (unfold addr; lia). rewrite (u64_small p AP).
    destruct (store_any m p b AP) as (T & E & V).
    destruct (IH (store m p b) (p + 1) ltac:(lia) ltac:(lia)) as (T2 & E2 & V2).
    split; [eapply sameTables_trans; eauto|]. split; [auto|].
    intros a A. destruct (V a A) as (V1 & V3 & V4). destruct (V2 a A) as (W1 & W3 & W4).
    split; [congruence|]. split; [congruence|].
    intros H. rewrite W4, V4; auto.
    + destruct H; [left; lia|auto].
    + destruct H; [left; lia|right; congruence].
Qed.

Lemma storeBytes_good bs : forall m p, 0 <= p -> p + Z.of_nat (length bs) <= 18446744073709551616 ->
  (forall a, p <= a < p + Z.of_nat (length bs) -> wr (view m a) = true) ->
  err (storeBytes m p bs) = err m /\
  forall k, (k < length bs)%nat -> byte (view (storeBytes m p bs) (p + Z.of_nat k)) = nth k bs 0.
Proof.
  induction bs as [|b bs IH]; intros m p P L W.
  - cbn. split; [auto|]. lia.
  - cbn [storeBytes length] in *. rewrite Nat2Z.inj_succ in *.
    assert (AP : addr p) by (unfold addr; lia). rewrite (u64_small p AP).
    destruct (store_good m p b AP ltac:(apply W; lia)) as (E & T & V).
    destruct (IH (store m p b) (p + 1) ltac:(lia) ltac:(lia)) as (E2 & V2).
    { intros a A. rewrite V by (unfold addr; lia). replace (a =? p) with false by lia. apply W. lia. }
    split; [congruence|].
    intros [|k] K.
    + destruct (storeBytes_any bs (store m p b) (p + 1) ltac:(lia) ltac:(lia)) as (_ & _ & X).
      destruct (X p AP) as (_ & _ & X1). replace (p + Z.of_nat 0) with p by lia.
      rewrite X1 by (left; lia). rewrite V by exact AP. rewrite Z.eqb_refl. reflexivity.
    + replace (p + Z.of_nat (S k)) with (p + 1 + Z.of_nat k) by lia. rewrite V2 by lia. reflexivity.
Qed.

Lemma storeBytes_bad bs : forall m p, 0 <= p -> p + Z.of_nat (length bs) <= 18446744073709551616 ->
  (exists a, p <= a < p + Z.of_nat (length bs) /\ wr (view m a) = false) ->
  err (storeBytes m p bs) = true.
Proof.
  induction bs as [|b bs IH]; intros m p P L (a & A & W).
  - cbn in A. lia.
  - cbn [storeBytes length] in *. rewrite Nat2Z.inj_succ in *.
    assert (AP : addr p) by (unfold addr; lia). rewrite (u64_small p AP).
    destruct (Z.eq_dec a p) as [->|N].
    + rewrite store_bad by exact W.
      destruct (storeBytes_any bs (setErr m) (p + 1) ltac:(lia) ltac:(lia)) as (_ & X & _). apply X. reflexivity.
    + apply IH; [lia|lia|]. exists a. split; [lia|].
      destruct (store_any m p b AP) as (_ & _ & V). destruct (V a ltac:(unfold addr; lia)) as (_ & V1 & _). congruence.
Qed.

Lemma loadBytes_any n : forall m p, 0 <= p -> p + Z.of_nat n <= 18446744073709551616 ->
  (fst (loadBytes m p n) = m \/ fst (loadBytes m p n) = setErr m) /\
  ((forall a, p <= a < p + Z.of_nat n -> rd (view m a) = true) ->
     loadBytes m p n = (m, map (fun k => byte (view m (p + Z.of_nat k))) (seq 0 n))) /\
  ((exists a, p <= a < p + Z.of_nat n /\ rd (view m a) = false) -> fst (loadBytes m p n) = setErr m).
Proof.
  induction n as [|n IH]; intros m p P L.
  - cbn. split; [auto|]. split; [auto|]. intros (a & A & _). lia.
  - cbn [loadBytes]. rewrite Nat2Z.inj_succ in *.
    assert (AP : addr p) by (unfold addr; lia). rewrite (u64_small p AP). rewrite load_spec.
    destruct (rd (view m p)) eqn:R.
    + destruct (IH m (p + 1) ltac:(lia) ltac:(lia)) as (H1 & H2 & H3).
      destruct (loadBytes m (p + 1) n) as (m2, bs) eqn:EL. cbn [fst] in *.
      split; [auto|]. split.
      * intros H. specialize (H2 ltac:(intros a A; apply H; lia)). injection H2 as -> ->.
        f_equal. cbn [seq map]. f_equal; [f_equal; f_equal; lia|].
        rewrite <- seq_shift, map_map. apply map_ext. intros k. f_equal. f_equal. lia.
      * intros (a & A & RA). apply H3. exists a. split; [|exact RA].
        destruct (Z.eq_dec a p); [subst; congruence|lia].
    + destruct (IH (setErr m) (p + 1) ltac:(lia) ltac:(lia)) as (H1 & H2 & H3).
      destruct (loadBytes (setErr m) (p + 1) n) as (m2, bs) eqn:EL. cbn [fst] in *.
      assert (SE : setErr (setErr m) = setErr m) by reflexivity.
      split; [right; destruct H1; congruence|]. split; [|intros _; destruct H1; congruence].
      intros H. specialize (H p ltac:(lia)). congruence.
Qed.

Lemma toBytes_length n : forall z, length (toBytes n z) = n.
Proof. induction n; intros z; cbn [toBytes length]; auto. Qed.
Lemma of_toBytes n : forall z, 0 <= z < 256 ^ Z.of_nat n -> ofBytes (toBytes n z) = z.
Proof.
  induction n as [|n IH]; intros z H.
  - cbn in *. lia.
  - cbn [toBytes ofBytes]. rewrite Nat2Z.inj_succ, Z.pow_succ_r in H by lia.
    rewrite IH.
    + pose proof (Z.div_mod z 256 ltac:(lia)). lia.
    + split; [apply Z.div_pos; lia|]. apply Z.div_lt_upper_bound; lia.
Qed.
Lemma map_nth_seq (f : nat -> Z) bs : (forall k, (k < length bs)%nat -> f k = nth k bs 0) ->
  map f (seq 0 (length bs)) = bs.
Proof.
  intros H. apply nth_ext with (d := 0) (d' := 0).
  - rewrite map_length, seq_length. reflexivity.
  - rewrite map_length, seq_length. intros k K.
    rewrite nth_indep with (d' := f 0%nat) by (rewrite map_length, seq_length; exact K).
    rewrite map_nth, seq_nth by exact K. cbn. apply H. exact K.
Qed.

(** the central fact: storing bytes where all bytes may be read and written, and loading
    as many back, gives the bytes stored *)
Lemma storeBytes_loadBytes bs m p : 0 <= p -> p + Z.of_nat (length bs) <= 18446744073709551616 ->
  (forall a, p <= a < p + Z.of_nat (length bs) -> rd (view m a) = true /\ wr (view m a) = true) ->
  loadBytes (storeBytes m p bs) p (length bs) = (storeBytes m p bs, bs).
Proof.
  intros P L H.
  destruct (storeBytes_good bs m p P L ltac:(intros a A; apply H; exact A)) as (_ & G).
  destruct (storeBytes_any bs m p P L) as (_ & _ & V).
  destruct (loadBytes_any (length bs) (storeBytes m p bs) p P L) as (_ & X & _).
  rewrite X. 
  - f_equal. apply map_nth_seq. exact G.
  - intros a A. destruct (V a ltac:(unfold addr; lia)) as (R & _). rewrite R. apply H. exact A.
Qed.

Lemma aligned_fits p n : addr p -> (n | 18446744073709551616) -> 0 < n -> p mod n = 0 ->
  p + n <= 18446744073709551616.
Proof.
  unfold addr. intros A (q & Q) N M. 
  apply Z.mod_divide in M; [|lia]. destruct M as (k & K). subst p.
  assert (k < q) by nia. nia.
Qed.
Lemma bytes_div t : (Z.of_nat (bytesOf t) | 18446744073709551616).
Proof. 
  destruct t; cbn [bytesOf].
  - exists 18446744073709551616; reflexivity.
  - exists 18446744073709551616; reflexivity.
  - exists 9223372036854775808; reflexivity.
  - exists 4611686018427387904; reflexivity.
  - exists 2305843009213693952; reflexivity.
Qed.
Lemma md_bytes t : md t <= 256 ^ Z.of_nat (bytesOf t) /\ (256 ^ Z.of_nat (bytesOf t) | 18446744073709551616).
Proof.
  destruct t; (split; [vm_compute; discriminate|]).
  - exists 72057594037927936; reflexivity.
  - exists 72057594037927936; reflexivity.
  - exists 281474976710656; reflexivity.
  - exists 4294967296; reflexivity.
  - exists 1; reflexivity.
Qed.
Lemma md_div t : (md t | 18446744073709551616).
Proof.
  destruct t.
  - exists 9223372036854775808; reflexivity.
  - exists 72057594037927936; reflexivity.
  - exists 281474976710656; reflexivity.
  - exists 4294967296; reflexivity.
  - exists 1; reflexivity.
Qed.
Lemma s64_getU t z : 0 <= z < md t -> getU t (s64 z) = z.
Proof.
  intros H. unfold getU, s64.
  pose proof (Z.div_mod (z + 9223372036854775808) 18446744073709551616 ltac:(lia)) as E.
  set (q := (z + 9223372036854775808) / 18446744073709551616) in *.
  destruct (md_div t) as (k & K).
  assert (md t > 0) by (destruct t; reflexivity).
  symmetry. apply Z.mod_unique with (q := - q * k); [left; lia|].
  replace ((z + 9223372036854775808) mod 18446744073709551616) with (z + 9223372036854775808 - 18446744073709551616 * q) by lia.
  rewrite K at 1. ring.
Qed.
