(** * Memoisation of pure recursive functions (property C14)

    Model of the transformation [cmmc/Transforms/Misc/StatelessCache.cpp] 50-142 and of the
    run-time table it calls, [cmmc/Runtime/cmmc_sysy_rt.cpp] 267-299.

    Simplifications: the body of the (stateless) function, between its recursive calls, is an
    arbitrary pure computation; so the body is a tree of recursive calls.  A [float]
    argument or result is its bit pattern.  Results are stored in the 32 bits of the table
    entry unchanged (they are of a 32-bit type). *)
From Coq Require Import ZArith Lia Bool List ZifyBool Znumtheory.
From Verif Require Import Word.
Import ListNotations.
Local Open Scope Z_scope.

(** cmmc_sysy_rt.cpp:268-272 LUTEntry; the table is a zero-initialised global of 1021 entries
    (StatelessCache.cpp:96-101) *)
Record entry := mkE { ekey : Z; eval_ : Z; ehas : bool }.
Definition table := Z -> entry.
Definition table0 : table := fun _ => mkE 0 0 false.
Definition upd (T : table) (i : Z) (e : entry) : table := fun j => if j =? i then e else T j.

(** :274 the key: both conversions of [int] to [uint64_t] extend the sign *)
Definition mkey (k1 k2 : Z) : Z := Z.lor (u64 (u64 k1 * 4294967296)) (u64 k2).
(** :275-293 the probe loop; [count] starts at [maxLookupCount] = 5 *)
Fixpoint probe (fuel : nat) (T : table) (key ha hb count cur : Z) : table * Z :=
  match fuel with
  | O => (T, ha)
  | S f =>
      let e := T cur in
      if negb (ehas e) then (upd T cur (mkE key (eval_ e) (ehas e)), cur)
      else if ekey e =? key then (T, cur)
      else if count + 1 >=? 5 then (upd T ha (mkE key (eval_ (T ha)) false), ha)      (* :294-298 evict *)
      else probe f T key ha hb (count + 1) (if cur + hb >=? 1021 then cur + hb - 1021 else cur + hb)
  end.
Definition lookup (T : table) (k1 k2 : Z) : table * Z :=
  let key := mkey k1 k2 in
  probe 8 T key (key mod 1021) (1 + key mod 1019) 5 (key mod 1021).

(** ** Specification: the function's body and what the untransformed function returns *)
Inductive prog := PRet (v : Z) | PCall (a b : Z) (k : Z -> prog).
Section Fn.
  Variable body : Z -> Z -> prog.
  (** the untransformed function: [eval p v]: the computation [p] ends with value [v] *)
  Inductive eval : prog -> Z -> Prop :=
  | EvRet : forall v, eval (PRet v) v
  | EvCall : forall a b k u v, eval (body a b) u -> eval (k u) v -> eval (PCall a b k) v.
  Definition returns (a b v : Z) : Prop := eval (body a b) v.
  (** [(x,y)] is called, directly or not, during the computation [p] *)
  Inductive desc : prog -> Z -> Z -> Prop :=
  | D_here : forall a b k, desc (PCall a b k) a b
  | D_in : forall a b k x y, desc (body a b) x y -> desc (PCall a b k) x y
  | D_after : forall a b k u x y, eval (body a b) u -> desc (k u) x y -> desc (PCall a b k) x y.

  (** ** The transformed function (StatelessCache.cpp:112-137): look the arguments up; if the
      entry found has a value return it, else evaluate and store the result in that entry. *)
  Inductive mrun : table -> prog -> Z -> table -> Prop :=
  | MRet : forall T v, mrun T (PRet v) v T
  | MCall : forall T a b k u T' v T'', mcall T a b u T' -> mrun T' (k u) v T'' -> mrun T (PCall a b k) v T''
  with mcall : table -> Z -> Z -> Z -> table -> Prop :=
  | MHit : forall T a b T1 i, lookup T a b = (T1, i) -> ehas (T1 i) = true -> mcall T a b (eval_ (T1 i)) T1
  | MMiss : forall T a b T1 i v T2, lookup T a b = (T1, i) -> ehas (T1 i) = false ->
      mrun T1 (body a b) v T2 -> mcall T a b v (upd T2 i (mkE (ekey (T2 i)) v true)).
  (** a history of calls from outside with the values returned *)
  Inductive hist : table -> list (Z * Z * Z) -> table -> Prop :=
  | HNil : forall T, hist T [] T
  | HCons : forall T a b v T1 l T2, mcall T a b v T1 -> hist T1 l T2 -> hist T ((a, b, v) :: l) T2.

  Scheme mrun_ind2 := Minimality for mrun Sort Prop with mcall_ind2 := Minimality for mcall Sort Prop.
  Combined Scheme mrun_mcall_ind from mrun_ind2, mcall_ind2.

  Lemma eval_det p v : eval p v -> forall v', eval p v' -> v = v'.
  Proof.
    induction 1 as [v|a b k u v E1 IH1 E2 IH2]; intros v' H; inversion H; subst; [reflexivity|].
    match goal with X : eval (body a b) _ |- _ => apply IH1 in X; subst end. auto.
  Qed.
  Lemma mrun_det :
    (forall T p v T1, mrun T p v T1 -> forall v' T1', mrun T p v' T1' -> v = v' /\ T1 = T1') /\
    (forall T a b v T1, mcall T a b v T1 -> forall v' T1', mcall T a b v' T1' -> v = v' /\ T1 = T1').
  Proof.
    apply mrun_mcall_ind.
    - intros T v v' T1' H. inversion H; subst. auto.
    - intros T a b k u T' v T'' _ IH1 _ IH2 v' T1' H. inversion H; subst.
      match goal with X : mcall T a b _ _ |- _ => apply IH1 in X; destruct X as (<- & <-) end. auto.
    - intros T a b T1 i L HH v' T1' H. inversion H; subst.
      + match goal with X : lookup T a b = _ |- _ => rewrite L in X; injection X as <- <- end. auto.
      + match goal with X : lookup T a b = _ |- _ => rewrite L in X; injection X as <- <- end. congruence.
    - intros T a b T1 i v T2 L HH _ IH v' T1' H. inversion H; subst.
      + match goal with X : lookup T a b = _ |- _ => rewrite L in X; injection X as <- <- end. congruence.
      + match goal with X : lookup T a b = _ |- _ => rewrite L in X; injection X as <- <- end.
        match goal with X : mrun T1 (body a b) _ _ |- _ => apply IH in X; destruct X as (<- & <-) end. auto.
  Qed.
  Lemma hist_det T l T1 : hist T l T1 -> forall l' T1', map fst l = map fst l' -> hist T l' T1' -> l = l' /\ T1 = T1'.
  Proof.
    induction 1 as [T|T a b v T1 l T2 C H IH]; intros l' T' E H'.
    - destruct l'; [|discriminate]. inversion H'; subst. auto.
    - destruct l' as [|((a', b'), v') l']; [discriminate|]. cbn in E. injection E as <- <- E.
      inversion H' as [|? ? ? ? T1' ? ? C' H'']; subst.
      destruct (proj2 mrun_det _ _ _ _ _ C _ _ C') as (<- & <-).
      destruct (IH _ _ E H'') as (<- & <-). auto.
  Qed.
End Fn.

(** the table slot of a call *)
Definition slot (a b : Z) : Z := mkey a b mod 1021.

Lemma lookup_eq T a b :
  lookup T a b =
    if negb (ehas (T (slot a b))) then (upd T (slot a b) (mkE (mkey a b) (eval_ (T (slot a b))) (ehas (T (slot a b)))), slot a b)
    else if ekey (T (slot a b)) =? mkey a b then (T, slot a b)
    else (upd T (slot a b) (mkE (mkey a b) (eval_ (T (slot a b))) false), slot a b).
Proof. reflexivity. Qed.

Section Sound.
  Variable body : Z -> Z -> prog.
  Variable U : Z -> Z -> Prop.
  Hypothesis Uclosed : forall a b x y, U a b -> desc body (body a b) x y -> U x y.
  Hypothesis Unoclash : forall a b x y, U a b -> desc body (body a b) x y -> slot x y <> slot a b.
  Hypothesis Uinj : forall a b x y, U a b -> U x y -> mkey a b = mkey x y -> a = x /\ b = y.

  (** every entry with a value holds the value of the call its key stands for *)
  Definition okT (T : table) : Prop :=
    forall i, ehas (T i) = true -> exists a b, U a b /\ ekey (T i) = mkey a b /\ returns body a b (eval_ (T i)).

  Lemma mrun_sound p v : eval body p v -> (forall x y, desc body p x y -> U x y) ->
    forall T, okT T -> exists T', mrun body T p v T' /\ okT T' /\
      (forall i, (forall x y, desc body p x y -> slot x y <> i) -> T' i = T i).
  Proof.
    induction 1 as [v|a b k u v E1 IH1 E2 IH2]; intros HU T OK.
    - exists T. split; [constructor|]. auto.
    - assert (UA : U a b) by (apply HU; constructor).
      assert (C : exists T', mcall body T a b u T' /\ okT T' /\
         (forall i, slot a b <> i -> (forall x y, desc body (body a b) x y -> slot x y <> i) -> T' i = T i)).
      { pose proof (lookup_eq T a b) as L.
        assert (MISS : forall T1, lookup T a b = (T1, slot a b) -> ehas (T1 (slot a b)) = false -> ekey (T1 (slot a b)) = mkey a b ->
          (forall i, i <> slot a b -> T1 i = T i) ->
          exists T', mcall body T a b u T' /\ okT T' /\
         (forall i, slot a b <> i -> (forall x y, desc body (body a b) x y -> slot x y <> i) -> T' i = T i)).
        { intros T1 L1 N1 K1 O1.
          destruct (IH1 ltac:(intros x y D; exact (Uclosed _ _ _ _ UA D)) T1) as (T2 & M2 & OK2 & S2).
          { intros i Hi. destruct (Z.eq_dec i (slot a b)) as [->|N]; [congruence|]. rewrite O1 in * by exact N. apply OK. exact Hi. }
          assert (SL : T2 (slot a b) = T1 (slot a b)).
          { apply S2. intros x y D. apply (Unoclash _ _ _ _ UA D). }
          exists (upd T2 (slot a b) (mkE (ekey (T2 (slot a b))) u true)). split; [|split].
          - exact (MMiss body T a b T1 _ u T2 L1 N1 M2).
          - intros i Hi. unfold upd in *. destruct (i =? slot a b) eqn:E.
            + cbn [ekey eval_]. exists a, b. split; [exact UA|]. split; [congruence|exact E1].
            + apply OK2. exact Hi.
          - intros i N D. unfold upd. replace (i =? slot a b) with false by lia. rewrite S2 by exact D. apply O1. lia. }
        destruct (ehas (T (slot a b))) eqn:H0; cbn [negb] in L.
        - destruct (ekey (T (slot a b)) =? mkey a b) eqn:K.
          + exists T. destruct (OK _ H0) as (a' & b' & U' & K' & R').
            destruct (Uinj a b a' b' UA U' ltac:(lia)) as (<- & <-).
            rewrite <- (eval_det body _ _ R' _ E1).
            split; [exact (MHit body T a b T _ L H0)|]. auto.
          + apply (MISS _ L).
            * unfold upd. rewrite Z.eqb_refl. reflexivity.
            * unfold upd. rewrite Z.eqb_refl. reflexivity.
            * intros i N. unfold upd. replace (i =? slot a b) with false by lia. reflexivity.
        - apply (MISS _ L).
          + unfold upd. rewrite Z.eqb_refl. reflexivity.
          + unfold upd. rewrite Z.eqb_refl. reflexivity.
          + intros i N. unfold upd. replace (i =? slot a b) with false by lia. reflexivity. }
      destruct C as (T1 & C1 & OK1 & S1).
      destruct (IH2 ltac:(intros x y D; apply HU; eapply D_after; eauto) T1 OK1) as (T2 & M2 & OK2 & S2).
      exists T2. split; [econstructor; eauto|]. split; [exact OK2|].
      intros i HI. rewrite S2, S1; [reflexivity| | |].
      + apply HI. constructor.
      + intros x y D. apply HI. apply D_in. exact D.
      + intros x y D. apply HI. eapply D_after; eauto.
  Qed.

  Lemma hist_sound l : (forall a b v, In (a, b, v) l -> U a b /\ returns body a b v) ->
    forall T, okT T -> exists T', hist body T l T' /\ okT T'.
  Proof.
    induction l as [|((a, b), v) l IH]; intros H T OK.
    - exists T. split; [constructor|exact OK].
    - destruct (H a b v (or_introl eq_refl)) as (UA & R).
      destruct (mrun_sound (PCall a b PRet) v) with (T := T) as (T1 & M & OK1 & _).
      + econstructor; [exact R|constructor].
      + intros x y D. inversion D as [|? ? ? ? ? D'|? ? ? ? ? ? ? D']; subst; [exact UA|exact (Uclosed _ _ _ _ UA D')|inversion D'].
      + exact OK.
      + inversion M as [|? ? ? ? u T' ? ? C M']; subst. inversion M'; subst.
        destruct (IH ltac:(intros; apply H; right; assumption) T1 OK1) as (T2 & H2 & OK2).
        exists T2. split; [econstructor; eauto|exact OK2].
  Qed.
End Sound.

Definition int32 (x : Z) := -2147483648 <= x < 2147483648.
Lemma mkey_nonneg a b : int32 a -> 0 <= b < 2147483648 -> mkey a b = u64 (a * 4294967296) + b.
Proof.
  unfold int32. intros A B. unfold mkey.
  assert (E1 : u64 (u64 a * 4294967296) = u64 (a * 4294967296)).
  { unfold u64. rewrite Z.mul_mod_idemp_l by lia. reflexivity. }
  rewrite E1. replace (u64 b) with b by (unfold u64; rewrite Z.mod_small; lia).
  assert (E2 : u64 (a * 4294967296) = Z.shiftl (a mod 4294967296) 32).
  { rewrite Z.shiftl_mul_pow2 by lia. unfold u64. change (2 ^ 32) with 4294967296.
    change 18446744073709551616 with (4294967296 * 4294967296).
    rewrite Z.mul_mod_distr_r by lia. reflexivity. }
  rewrite E2. rewrite <- Z.lxor_lor.
  - rewrite <- Z.add_nocarry_lxor; [reflexivity|].
    apply Z.bits_inj'. intros n N. rewrite Z.land_spec, Z.bits_0, Z.shiftl_spec by lia.
    destruct (Z_lt_le_dec n 32).
    + rewrite Z.testbit_neg_r by lia. reflexivity.
    + rewrite <- (Z.mod_small b (2 ^ 32)) by (change (2 ^ 32) with 4294967296; lia).
      rewrite Z.mod_pow2_bits_high by lia. apply andb_false_r.
  - apply Z.bits_inj'. intros n N. rewrite Z.land_spec, Z.bits_0, Z.shiftl_spec by lia.
    destruct (Z_lt_le_dec n 32).
    + rewrite Z.testbit_neg_r by lia. reflexivity.
    + rewrite <- (Z.mod_small b (2 ^ 32)) by (change (2 ^ 32) with 4294967296; lia).
      rewrite Z.mod_pow2_bits_high by lia. apply andb_false_r.
Qed.
Lemma mkey_inj a b x y : int32 a -> 0 <= b < 2147483648 -> int32 x -> 0 <= y < 2147483648 ->
  mkey a b = mkey x y -> a = x /\ b = y.
Proof.
  intros A B X Y. rewrite !mkey_nonneg by assumption. unfold u64, int32 in *.
  change 18446744073709551616 with (4294967296 * 4294967296).
  rewrite !Z.mul_mod_distr_r by lia. intros E.
  pose proof (Z.mod_pos_bound a 4294967296 ltac:(lia)). pose proof (Z.mod_pos_bound x 4294967296 ltac:(lia)).
  assert (M : a mod 4294967296 = x mod 4294967296) by lia.
  split; [|lia].
  pose proof (Z.div_mod a 4294967296 ltac:(lia)). pose proof (Z.div_mod x 4294967296 ltac:(lia)). lia.
Qed.

(** ** Theorems *)

(** Transparency, for every body, every history and every state of the table built up by it,
    under two conditions: second arguments are non-negative (one-argument functions pass 0),
    and no call made during a call [f(a,b)] shares its table slot. *)
Theorem C14_memoisation_transparent_partial : forall body (U : Z -> Z -> Prop),
  (forall a b, U a b -> int32 a /\ 0 <= b < 2147483648) ->
  (forall a b x y, U a b -> desc body (body a b) x y -> U x y /\ slot x y <> slot a b) ->
  forall calls, (forall a b v, In (a, b, v) calls -> U a b /\ returns body a b v) ->
  (exists T', hist body table0 calls T') /\
  (forall calls' T', map fst calls' = map fst calls -> hist body table0 calls' T' -> calls' = calls).
Proof.
  intros body U HR HC calls HV.
  assert (X : exists T', hist body table0 calls T' /\ okT body U T').
  { apply hist_sound.
    - intros a b x y UA D. apply (HC a b x y UA D).
    - intros a b x y UA D. apply (HC a b x y UA D).
    - intros a b x y UA UX E. destruct (HR a b UA). destruct (HR x y UX). apply mkey_inj; assumption.
    - exact HV.
    - intros i H. discriminate H. }
  destruct X as (T1 & H1 & _). split; [exists T1; exact H1|].
  intros calls' T' E H'. destruct (hist_det body _ _ _ H1 _ _ (eq_sym E) H') as (-> & _). reflexivity.
Qed.

Lemma small_slot_inj a x : 0 <= a <= 1020 -> 0 <= x <= 1020 -> slot a 0 = slot x 0 -> a = x.
Proof.
  intros A X. unfold slot. rewrite !mkey_nonneg by (unfold int32; lia). rewrite !Z.add_0_r.
  unfold u64. rewrite (Z.mod_small (a * 4294967296)), (Z.mod_small (x * 4294967296)) by lia. intros E.
  assert (D : (1021 | (a - x) * 4294967296)).
  { apply Z.mod_divide; [lia|]. rewrite Z.mul_sub_distr_r. rewrite Zminus_mod, E, Z.sub_diag. reflexivity. }
  rewrite Z.mul_comm in D. apply Gauss in D; [|apply Zgcd_1_rel_prime; reflexivity].
  destruct D as (q & Q). lia.
Qed.

(** One-argument functions called, at the top and recursively, with arguments 0..1020 only:
    memoisation is transparent over every history. *)
Theorem C14_small_arguments_transparent_partial : forall body,
  (forall a x y, 0 <= a <= 1020 -> desc body (body a 0) x y -> 0 <= x <= 1020 /\ y = 0 /\ x <> a) ->
  forall calls, (forall a b v, In (a, b, v) calls -> b = 0 /\ 0 <= a <= 1020 /\ returns body a 0 v) ->
  (exists T', hist body table0 calls T') /\  (forall calls' T', map fst calls' = map fst calls -> hist body table0 calls' T' -> calls' = calls).
Proof.
  intros body H calls HV.
  apply (C14_memoisation_transparent_partial body (fun a b => b = 0 /\ 0 <= a <= 1020)).
  - intros a b (-> & A). unfold int32. lia.
  - intros a b x y (-> & A) D. destruct (H a x y A D) as (X & -> & N). split; [auto|].
    intros E. apply N. apply small_slot_inj; auto.
  - intros a b v I. destruct (HV a b v I) as (-> & A & R). auto.
Qed.

Lemma mcall_hit body T a b v : ehas (fst (lookup T a b) (snd (lookup T a b))) = true ->
  eval_ (fst (lookup T a b) (snd (lookup T a b))) = v -> mcall body T a b v (fst (lookup T a b)).
Proof. intros H <-. apply (MHit body T a b _ _ (surjective_pairing _) H). Qed.

(** Fibonacci meets the hypotheses *)
Definition fib (a b : Z) : prog :=
  if a <=? 1 then PRet a else PCall (a - 1) b (fun u => PCall (a - 2) b (fun v => PRet (u + v))).
Lemma fib_desc p x y : desc fib p x y -> forall a b, p = fib a b -> 0 <= a -> 0 <= x < a /\ y = b.
Proof.
  assert (K : forall n p x y, desc fib p x y -> forall a b, a <= Z.of_nat n -> p = fib a b -> 0 <= a -> 0 <= x < a /\ y = b).
  { induction n as [|n IH]; intros p0 x0 y0 D a b L -> A.
    - unfold fib in D. replace (a <=? 1) with true in D by lia. inversion D.
    - unfold fib in D. destruct (a <=? 1) eqn:E; [inversion D|].
      inversion D as [|? ? ? ? ? D1|? ? ? u ? ? E1 D1]; subst.
      + lia.
      + destruct (IH _ _ _ D1 (a - 1) b ltac:(lia) eq_refl ltac:(lia)). lia.
      + inversion D1 as [|? ? ? ? ? D2|? ? ? u2 ? ? E2 D2]; subst.
        * lia.
        * destruct (IH _ _ _ D2 (a - 2) b ltac:(lia) eq_refl ltac:(lia)). lia.
        * inversion D2. }
  intros D a b E A. apply (K (Z.to_nat a) p x y D a b); auto. lia.
Qed.
Example C14_fib_meets : forall a x y, 0 <= a <= 1020 -> desc fib (fib a 0) x y -> 0 <= x <= 1020 /\ y = 0 /\ x <> a.
Proof. intros a x y A D. destruct (fib_desc _ _ _ D a 0 eq_refl ltac:(lia)). lia. Qed.
Example C14_fib_values : returns fib 5 0 5 /\ returns fib 7 0 13.
Proof. split; repeat (econstructor; cbn). Qed.

(** Refuted when a second argument is negative: its sign extension covers the first argument,
    so [f(1,-1)] and [f(0,-1)] are the same entry: a single call returns a wrong value. *)
Theorem C14_negative_argument_refuted : exists body a b v v' T',
  int32 a /\ int32 b /\ returns body a b v /\ hist body table0 [(a, b, v')] T' /\ v' <> v.
Proof.
  exists fib, 2, (-1), 1, 2. eexists. split; [unfold int32; lia|]. split; [unfold int32; lia|]. split.
  - repeat (econstructor; cbn).
  - split; [|discriminate].
    eapply HCons; [|constructor].
    eapply MMiss with (T1 := fst (lookup table0 2 (-1))); [apply surjective_pairing|reflexivity|].
    unfold fib at 2. cbn [Z.leb Z.compare].
    eapply MCall.
    { eapply MMiss with (T1 := fst (lookup _ _ _)); [apply surjective_pairing|reflexivity|]. apply (MRet fib _ 1). }
    eapply MCall.
    { eapply MHit with (T1 := fst (lookup _ _ _)); [apply surjective_pairing|reflexivity]. }
    apply (MRet fib _ 2).
Qed.

(** Refuted for non-negative arguments too: a recursive call in the same slot takes the entry
    over, and the outer result is then stored under the inner call's key. *)
Definition skipper (a b : Z) : prog :=
  if a <? 1021 then PRet a else PCall (a - 1021) b (fun u => PCall (a - 1020) b (fun v => PRet (u + v))).
Theorem C14_slot_collision_refuted : exists body T',
  returns body 1021 0 1 /\ returns body 0 0 0 /\
  hist body table0 [(1021, 0, 1); (0, 0, 1)] T'.
Proof.
  exists skipper. eexists. split; [repeat (econstructor; cbn)|]. split; [repeat (econstructor; cbn)|].
  eapply HCons.
  { eapply MMiss with (T1 := fst (lookup table0 1021 0)); [apply surjective_pairing|reflexivity|].
    unfold skipper at 2. cbn [Z.ltb Z.compare Pos.compare Pos.compare_cont].
    eapply MCall.
    { eapply MMiss with (T1 := fst (lookup _ _ _)); [apply surjective_pairing|reflexivity|]. apply (MRet skipper _ 0). }
    eapply MCall.
    { eapply MMiss with (T1 := fst (lookup _ _ _)); [apply surjective_pairing|reflexivity|]. apply (MRet skipper _ 1). }
    apply (MRet skipper _ 1). }
  eapply HCons; [|constructor].
  apply mcall_hit; vm_compute; reflexivity.
Qed.
