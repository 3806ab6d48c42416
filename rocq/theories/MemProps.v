(** * C15: what a load returns, what a store disturbs, what is reported *)
From Coq Require Import ZArith Lia Bool List ZifyBool Znumtheory.
From Verif Require Import Word IR ConstFold ConstFoldProofs MemModel MemProofs.
Import ListNotations.
Local Open Scope Z_scope.

(** [view], [readable], [writable]: MemProofs.v.  [m'] differs from [m] at most in the
    contents (not the permissions) of the bytes in [p, p+n) *)
Definition onlyChanges (m m' : mem) (p n : Z) : Prop :=
  sameTables m m' /\
  forall a, addr a ->
    rd (view m' a) = rd (view m a) /\ wr (view m' a) = wr (view m a) /\
    (~ (p <= a < p + n) -> byte (view m' a) = byte (view m a)).
Definition allRW (m : mem) (p n : Z) : Prop := forall a, p <= a < p + n -> readable m a /\ writable m a.

Lemma storeBytes_changes m p bs : 0 <= p -> p + Z.of_nat (length bs) <= 18446744073709551616 ->
  onlyChanges m (storeBytes m p bs) p (Z.of_nat (length bs)).
Proof.
  intros P L. destruct (storeBytes_any bs m p P L) as (T & _ & V). split; [exact T|].
  intros a A. destruct (V a A) as (R & W & E). split; [exact R|]. split; [exact W|].
  intros N. rewrite E by auto. reflexivity.
Qed.

(** Integers of every width: an aligned store into readable and writable bytes raises no
    error, a load of that type from there raises none and yields a constant with the same
    value modulo the width, and nothing else in memory changed. *)
Theorem C15_integer_round_trip : forall m p t s,
  addr p -> p mod Z.of_nat (bytesOf t) = 0 -> allRW m p (Z.of_nat (bytesOf t)) ->
  let m1 := storeInt m p t s in
  err m1 = err m /\
  (exists v, loadInt m1 p t = (m1, Some v) /\ getU t v = getU t s /\
             (t <> I1 -> in64 s -> getS t v = getS t s)) /\
  onlyChanges m m1 p (Z.of_nat (bytesOf t)).
Proof.
  intros m p t s A AL RW m1. subst m1. unfold storeInt.
  pose proof (aligned_fits p _ A (bytes_div t) ltac:(destruct t; reflexivity) AL) as F.
  set (bs := toBytes (bytesOf t) (getU t s)).
  assert (LB : length bs = bytesOf t) by apply toBytes_length.
  destruct A as [A0 A1].
  destruct (storeBytes_good bs m p A0 ltac:(lia)) as (E & _).
  { intros a H. rewrite LB in H. apply RW. exact H. }
  split; [exact E|]. split.
  - pose proof (storeBytes_loadBytes bs m p A0 ltac:(lia)) as X. rewrite LB in X.
    specialize (X ltac:(intros a H; apply RW; exact H)).
    unfold loadInt. rewrite AL. cbn [Z.eqb negb]. rewrite X.
    eexists. split; [reflexivity|].
    pose proof (getU_range t s) as R. destruct (md_bytes t) as (MB & _).
    unfold bs. rewrite of_toBytes by lia.
    assert (G : getU t (s64 (getU t s)) = getU t s) by (apply s64_getU; exact R).
    split; [exact G|]. intros N I.
    rewrite (getS_of_U t (s64 (getU t s)) N (s64_in _)), (getS_of_U t s N I), G. reflexivity.
  - rewrite <- LB. apply storeBytes_changes; lia.
Qed.

(** Pointers *)
Theorem C15_pointer_round_trip : forall m p v,
  addr p -> p mod 8 = 0 -> addr v -> allRW m p 8 ->
  let m1 := storePtr m p v in
  err m1 = err m /\ loadPtr m1 p = (m1, Some v) /\ onlyChanges m m1 p 8.
Proof.
  intros m p v A AL AV RW m1. subst m1. unfold storePtr.
  pose proof (aligned_fits p 8 A ltac:(exists 2305843009213693952; reflexivity) ltac:(lia) AL) as F.
  set (bs := toBytes 8 v). assert (LB : length bs = 8%nat) by apply toBytes_length.
  destruct A as [A0 A1].
  destruct (storeBytes_good bs m p A0 ltac:(lia)) as (E & _).
  { intros a H. apply RW. lia. }
  split; [exact E|]. split.
  - pose proof (storeBytes_loadBytes bs m p A0 ltac:(lia)) as X. rewrite LB in X.
    specialize (X ltac:(intros a H; apply RW; lia)).
    unfold loadPtr. rewrite AL. cbn [Z.eqb negb]. rewrite X. f_equal. f_equal.
    apply of_toBytes. unfold addr in AV. change (256 ^ Z.of_nat 8) with 18446744073709551616. lia.
  - change 8 with (Z.of_nat 8). rewrite <- LB. apply storeBytes_changes; lia.
Qed.

(** Floating point values, given by the bit pattern of the [float] (4 bytes) or [double] (8) *)
Theorem C15_float_bits_round_trip : forall n m p v,
  n = 4%nat \/ n = 8%nat ->
  addr p -> p mod Z.of_nat n = 0 -> 0 <= v < 256 ^ Z.of_nat n -> allRW m p (Z.of_nat n) ->
  let m1 := storeBits n m p v in
  err m1 = err m /\ loadBits n m1 p = (m1, Some v) /\ onlyChanges m m1 p (Z.of_nat n).
Proof.
  intros n m p v HN A AL AV RW m1. subst m1. unfold storeBits.
  assert (D : (Z.of_nat n | 18446744073709551616)).
  { destruct HN as [-> | ->]; [exists 4611686018427387904|exists 2305843009213693952]; reflexivity. }
  pose proof (aligned_fits p _ A D ltac:(lia) AL) as F.
  set (bs := toBytes n v). assert (LB : length bs = n) by apply toBytes_length.
  destruct A as [A0 A1].
  destruct (storeBytes_good bs m p A0 ltac:(lia)) as (E & _).
  { intros a H. apply RW. lia. }
  split; [exact E|]. split.
  - pose proof (storeBytes_loadBytes bs m p A0 ltac:(lia)) as X. rewrite LB in X.
    specialize (X ltac:(intros a H; apply RW; lia)).
    unfold loadBits. rewrite AL. cbn [Z.eqb negb]. rewrite X. f_equal. f_equal.
    apply of_toBytes. exact AV.
  - rewrite <- LB. apply storeBytes_changes; lia.
Qed.

(** Any store of bytes, permitted or not, changes at most writable bytes of its interval,
    and never takes back an error; a load changes nothing but the error flag. *)
Theorem C15_stores_disturb_nothing_else : forall m p bs,
  0 <= p -> p + Z.of_nat (length bs) <= 18446744073709551616 ->
  onlyChanges m (storeBytes m p bs) p (Z.of_nat (length bs)) /\
  (forall a, addr a -> ~ writable m a -> view (storeBytes m p bs) a = view m a) /\
  (err m = true -> err (storeBytes m p bs) = true).
Proof.
  intros m p bs P L. split; [apply storeBytes_changes; assumption|].
  destruct (storeBytes_any bs m p P L) as (_ & E & V). split; [|exact E].
  intros a A W. destruct (V a A) as (_ & _ & X). apply X. right. unfold writable in W.
  destruct (wr (view m a)); congruence.
Qed.
Theorem C15_loads_change_nothing : forall m p t,
  addr p ->
  let m' := fst (loadInt m p t) in
  (forall a, view m' a = view m a) /\ sameTables m m' /\ (err m = true -> err m' = true).
Proof.
  intros m p t A. cbn zeta. unfold loadInt.
  destruct (p mod Z.of_nat (bytesOf t) =? 0) eqn:AL; cbn [negb fst].
  - pose proof (aligned_fits p _ A (bytes_div t) ltac:(destruct t; reflexivity) ltac:(lia)) as F.
    destruct (loadBytes_any (bytesOf t) m p ltac:(unfold addr in A; lia) F) as (X & _).
    destruct (loadBytes m p (bytesOf t)) as (m', bs). cbn [fst] in *.
    destruct X as [-> | ->].
    + split; [reflexivity|]. split; [apply sameTables_refl|auto].
    + split; [intros a; apply view_setErr|]. split; [apply (sameTables_refl m)|auto].
  - split; [intros a; apply view_setErr|]. split; [apply (sameTables_refl m)|auto].
Qed.

(** Errors are reported: a store touching a byte without write permission, a load touching a
    byte without read permission, a misaligned load. *)
Theorem C15_bad_accesses_reported : forall m p,
  addr p ->
  (forall bs a, p + Z.of_nat (length bs) <= 18446744073709551616 ->
     p <= a < p + Z.of_nat (length bs) -> ~ writable m a -> err (storeBytes m p bs) = true) /\
  (forall t s a, p + Z.of_nat (bytesOf t) <= 18446744073709551616 ->
     p <= a < p + Z.of_nat (bytesOf t) -> ~ writable m a -> err (storeInt m p t s) = true) /\
  (forall t a, p <= a < p + Z.of_nat (bytesOf t) -> ~ readable m a -> err (fst (loadInt m p t)) = true) /\
  (forall t, p mod Z.of_nat (bytesOf t) <> 0 -> err (fst (loadInt m p t)) = true) /\
  (forall a, p <= a < p + 8 -> ~ readable m a -> err (fst (loadPtr m p)) = true) /\
  (p mod 8 <> 0 -> err (fst (loadPtr m p)) = true).
Proof.
  intros m p A.
  assert (ST : forall bs a, p + Z.of_nat (length bs) <= 18446744073709551616 ->
     p <= a < p + Z.of_nat (length bs) -> ~ writable m a -> err (storeBytes m p bs) = true).
  { intros bs a L H W. apply storeBytes_bad; [unfold addr in A; lia|exact L|].
    exists a. split; [exact H|]. unfold writable in W. destruct (wr (view m a)); congruence. }
  assert (LD : forall n a, (Z.of_nat n | 18446744073709551616) -> (0 < n)%nat ->
     p <= a < p + Z.of_nat n -> ~ readable m a ->
     err (fst (if negb (p mod Z.of_nat n =? 0) then (setErr m, @None Z)
       else let (m', bs) := loadBytes m p n in (m', Some 0))) = true).
  { intros n a D N H R. destruct (p mod Z.of_nat n =? 0) eqn:AL; cbn [negb]; [|reflexivity].
    pose proof (aligned_fits p _ A D ltac:(lia) ltac:(lia)) as F.
    destruct (loadBytes_any n m p ltac:(unfold addr in A; lia) F) as (_ & _ & X).
    destruct (loadBytes m p n) as (m', bs). cbn [fst] in *. rewrite X; [reflexivity|].
    exists a. split; [exact H|]. unfold readable in R. destruct (rd (view m a)); congruence. }
  split; [exact ST|]. split.
  { intros t s a L H W. unfold storeInt. apply ST with (a := a); rewrite ?toBytes_length; assumption. }
  split.
  { intros t a H R. specialize (LD (bytesOf t) a (bytes_div t) ltac:(destruct t; cbn; lia) H R).
    unfold loadInt. destruct (negb _); [exact LD|]. destruct (loadBytes m p (bytesOf t)). exact LD. }
  split.
  { intros t N. unfold loadInt. replace (p mod Z.of_nat (bytesOf t) =? 0) with false by lia. reflexivity. }
  split.
  { intros a H R. specialize (LD 8%nat a ltac:(exists 2305843009213693952; reflexivity) ltac:(lia) H R).
    unfold loadPtr. change (Z.of_nat 8) with 8 in LD. destruct (negb _); [exact LD|]. destruct (loadBytes m p 8). exact LD. }
  { intros N. unfold loadPtr. replace (p mod 8 =? 0) with false by lia. reflexivity. }
Qed.

(** a concrete case: a 32-bit store of -2 in a fresh 8-byte allocation *)
Example C15_witness :
  let (m, p) := stackPush mem0 8 8 in
  addr p /\ p mod Z.of_nat (bytesOf I32) = 0 /\ allRW m p (Z.of_nat (bytesOf I32)) /\
  (exists v, snd (loadInt (storeInt m p I32 (-2)) p I32) = Some v /\ getS I32 v = -2) /\
  err (fst (loadInt m (p + 4) I32)) = false /\
  err (fst (loadInt m (p + 8) I32)) = true /\ err (fst (loadInt m (p + 2) I32)) = true /\
  err (storeInt m (p + 6) I32 1) = true.
Proof.
  cbv beta zeta. destruct (stackPush mem0 8 8) as (m, p) eqn:E.
  vm_compute in E. injection E as <- <-.
  split; [split; vm_compute; [discriminate|reflexivity]|]. split; [reflexivity|]. split.
  - intros a H. change (Z.of_nat (bytesOf I32)) with 4 in H.
    assert (C : a = 1152921504606847000 \/ a = 1152921504606847001 \/ a = 1152921504606847002 \/ a = 1152921504606847003) by lia.
    destruct C as [-> |[-> |[-> | ->]]]; split; reflexivity.
  - split; [exists 4294967294; split; vm_compute; reflexivity|]. split; [vm_compute; reflexivity|].
    split; [vm_compute; reflexivity|]. split; vm_compute; reflexivity.
Qed.
