(** C44: layout and address arithmetic — statements.

    [locate P t p]: the type and byte offset of the part of a value of type [t] reached by array indices and field
    numbers [p], by the sizes of the code.  [interp]: what the interpreter computes for a getelementptr; [lowerGep]: what
    the generated code computes. *)
From Coq Require Import ZArith List Bool Lia PeanoNat ZifyBool.
From Verif Require Import Word Addr AddrProof AddrInit.
Import ListNotations.
Local Open Scope Z_scope.

(** ** specification *)
(** the indices of a getelementptr, with the values of [env], name the part [p] of [t], within its bounds *)
Fixpoint selects (env : nat -> Z) (t : ty) (is : list idx) (p : list nat) : Prop :=
  match is, p with
  | [], [] => True
  | i :: r, k :: q =>
    match t with
    | TArr n e => match i with IC _ _ | IV _ _ => ival env i = Z.of_nat k | _ => False end /\ (k < n)%nat /\ selects env e r q
    | TStruct fs => i = IF k /\ match nth_error fs k with Some f => selects env f r q | None => False end
    | _ => False
    end
  | _, _ => False
  end.
Definition zeroIdx (env : nat -> Z) (i : idx) : Prop := match i with IC _ _ | IV _ _ => ival env i = 0 | _ => False end.
Definition addr64 (a : Z) : Prop := 0 <= a < 18446744073709551616.

Section P.
Variable P : Z.
Hypothesis HP : P = 4 \/ P = 8.

Lemma interp_locate env is : forall t p a, selects env t is p -> addr64 a -> exists o s, locate P t p = Some (o, s) /\ gepTy t is = Some s /\ interp P env a t is = Some (u64 (a + o)).
Proof.
  induction is as [|i r IH]; intros t p a S A; destruct p as [|k q]; try contradiction.
  { exists 0, t. cbn. rewrite Z.add_0_r. unfold u64. rewrite Z.mod_small by exact A. auto. }
  cbn [selects] in S. destruct t as [| | |n e|fs]; try contradiction.
  - destruct S as (V & K & S). assert (U : addr64 (u64 (a + Z.of_nat k * size P e))) by (unfold addr64, u64; apply Z.mod_pos_bound; lia).
    destruct (IH e q _ S U) as (o & s & L & G & E). exists (Z.of_nat k * size P e + o), s. cbn [locate]. rewrite (proj2 (Nat.ltb_lt k n) K), L. split; [reflexivity|].
    destruct i as [w z|w x| |k']; try contradiction; cbn [gepTy elem Addr.interp]; rewrite V; (split; [exact G|]); rewrite E; f_equal; rewrite u64_add; f_equal; lia.
  - destruct S as (-> & S). destruct (nth_error fs k) as [f|] eqn:N; [|contradiction]. destruct (field_total P fs 0 k f N) as (x & F).
    assert (U : addr64 (u64 (a + x))) by (unfold addr64, u64; apply Z.mod_pos_bound; lia).
    destruct (IH f q _ S U) as (o & s & L & G & E). exists (x + o), s. cbn [locate gepTy Addr.interp]. unfold fieldOff. rewrite N, F, L. split; [reflexivity|]. split; [exact G|].
    rewrite E. f_equal. rewrite u64_add. f_equal. lia.
Qed.

(** ** theorems *)
(** In-bounds getelementptrs into one object that name different scalars yield disjoint addresses, inside the object;
    this holds for every type. *)
Theorem C44_elements_disjoint : forall env t a i is p j js q x y s s', wfT t = true -> 0 <= a -> a + size P t <= 18446744073709551616 -> addr64 a ->
  zeroIdx env i -> selects env t is p -> zeroIdx env j -> selects env t js q ->
  interp P env a (TPtr t) (i :: is) = Some x -> interp P env a (TPtr t) (j :: js) = Some y ->
  gepTy t is = Some s -> gepTy t js = Some s' -> scalar s -> scalar s' -> p <> q ->
  a <= x /\ x + size P s <= a + size P t /\ a <= y /\ y + size P s' <= a + size P t /\ (x + size P s <= y \/ y + size P s' <= x).
Proof using HP.
  intros env t a i is p j js q x y s s' W A B A64 Zi Sp Zj Sq Ex Ey Gs Gs' S S' N.
  assert (St : forall i is x, zeroIdx env i -> interp P env a (TPtr t) (i :: is) = Some x -> interp P env a t is = Some x).
  { intros i0 is0 x0 Z0 E0. assert (U : u64 a = a) by (unfold u64; apply Z.mod_small, A64).
    destruct i0; cbn [zeroIdx] in Z0; try contradiction; cbn [Addr.interp elem] in E0; rewrite Z0 in E0; replace (a + 0 * size P t) with a in E0 by lia; rewrite U in E0; exact E0. }
  apply St in Ex; [|exact Zi]. apply St in Ey; [|exact Zj].
  destruct (interp_locate env is t p a Sp A64) as (o & s1 & L1 & G1 & E1). destruct (interp_locate env js t q a Sq A64) as (o' & s2 & L2 & G2 & E2).
  assert (s1 = s) as -> by congruence. assert (s2 = s') as -> by congruence.
  destruct (locate_range P HP p t o s W L1) as (R1 & R2 & R3). destruct (locate_range P HP q t o' s' W L2) as (R4 & R5 & R6).
  assert (0 < size P s) by (rewrite scalar_size by exact S; apply align_pos; auto). assert (0 < size P s') by (rewrite scalar_size by exact S'; apply align_pos; auto).
  rewrite Ex in E1. rewrite Ey in E2. injection E1 as ->. injection E2 as ->. unfold u64. rewrite !Z.mod_small by lia.
  destruct (locate_disjoint P HP p t q o s o' s' W L1 L2 S S' N); lia.
Qed.
(** An aligned object has aligned scalars, if no array holds structs whose size is not a multiple of their alignment. *)
Theorem C44_scalars_aligned_partial : forall env t a i is p x s, wfT t = true -> tight P t = true -> (align P t | a) -> a + size P t <= 18446744073709551616 -> addr64 a ->
  zeroIdx env i -> selects env t is p -> interp P env a (TPtr t) (i :: is) = Some x -> gepTy t is = Some s -> scalar s ->
  (align P s | x).
Proof using HP.
  intros env t a i is p x s W T D B A64 Zi Sp Ex Gs S.
  assert (U : u64 a = a) by (unfold u64; apply Z.mod_small, A64).
  assert (E0 : interp P env a t is = Some x). { destruct i; cbn [zeroIdx] in Zi; try contradiction; cbn [Addr.interp elem] in Ex; rewrite Zi in Ex; replace (a + 0 * size P t) with a in Ex by lia; rewrite U in Ex; exact Ex. }
  destruct (interp_locate env is t p a Sp A64) as (o & s1 & L1 & G1 & E1). assert (s1 = s) as -> by congruence. rewrite E0 in E1. injection E1 as ->.
  destruct (locate_range P HP p t o s W L1) as (R1 & R2 & R3). assert (0 < size P s) by (rewrite scalar_size by exact S; apply align_pos; auto). unfold addr64 in A64.
  unfold u64. rewrite Z.mod_small by lia. destruct (locate_aligned P HP p t o s W T L1) as [Q1 Q2]. apply Z.divide_add_r; [|exact Q1]. eapply Z.divide_trans; eauto.
Qed.
(** The address the interpreter computes is the base plus the constant offset plus the scaled variables the other passes
    see. *)
Theorem C44_offsets_gathered : forall env a t is c l b, addr64 a -> gather P 0 t is = Some (c, l) -> interp P env a t is = Some b ->
  b = u64 (a + c + fold_right (fun si acc => fst si * ival env (snd si) + acc) 0 l).
Proof.
  intros env a t is c l b A G E. pose proof (interp_gather P env is t a) as H. rewrite G, E in H. destruct H as [H1 H2]. rewrite <- H2; [exact H1|]. unfold u64. apply Z.mod_small, A.
Qed.
(** The generated code computes the interpreter's address when the first index is 64 bits wide, or 32 bits and no
    scaled index leaves the range of 32 bits. *)
Theorem C44_lowering_agrees_partial : forall env a t is b, addr64 a -> interp P env a t is = Some b ->
  (widthOf is = 64 \/ widthOf is = 32 /\ forall c l si, gather P 0 t is = Some (c, l) -> In si l -> -2147483648 <= ival env (snd si) * fst si < 2147483648) ->
  lowerGep P env a t is = Some b.
Proof.
  intros env a t is b A E H. pose proof (interp_gather P env is t a) as K. unfold lowerGep. destruct (gather P 0 t is) as [[c l]|] eqn:G; rewrite E in K; [|contradiction].
  destruct K as [K1 K2]. assert (Ua : u64 a = a) by (unfold u64; apply Z.mod_small, A). f_equal. rewrite <- (K2 Ua), K1.
  set (F := fold_left _ l a).
  assert (FE : u64 F = u64 (a + vsum env l)).
  { apply lower_fold. intros si Hi. right. destruct H as [-> | [-> H]]; [apply sgn64_u64|]. rewrite sgn32_fit; [reflexivity|]. exact (H c l si eq_refl Hi). }
  assert (FU : u64 F = F).
  { assert (GEN : forall l a, u64 a = a -> u64 (fold_left (fun p si => u64 (p + (if fst si =? 1 then ival env (snd si) else sgn (widthOf is) (ival env (snd si) * fst si)))) l a) =
       fold_left (fun p si => u64 (p + (if fst si =? 1 then ival env (snd si) else sgn (widthOf is) (ival env (snd si) * fst si)))) l a).
    { clear. induction l as [|x l IH]; intros a Ha; cbn [fold_left]; [exact Ha|]. apply IH. unfold u64. apply Zmod_mod. }
    apply GEN, Ua. }
  destruct (c =? 0) eqn:C; [apply Z.eqb_eq in C as ->; rewrite <- FU, FE; f_equal; lia|]. rewrite <- FU, u64_add. rewrite <- (u64_add F), FE, u64_add. f_equal. lia.
Qed.

(** ** combining getelementptrs *)
Definition okC (i : idx) : Prop := match i with IC w z => (w = 1 /\ (z = 0 \/ z = 1)) \/ w = 8 \/ w = 16 \/ w = 32 \/ w = 64 | _ => True end.
Lemma zeroC_val env i : isZeroC i = true -> okC i -> ival env i = 0.
Proof.
  destruct i as [w z| | |]; cbn [isZeroC okC ival]; try discriminate. intros H O. apply Z.eqb_eq in H. unfold sx, uns, sgn in *.
  assert (G : forall w, 0 < w -> z mod 2 ^ w = 0 -> (z + 2 ^ (w - 1)) mod 2 ^ w - 2 ^ (w - 1) = 0).
  { clear. intros w Hw H. assert (2 ^ w = 2 * 2 ^ (w - 1)) by (rewrite <- Z.pow_succ_r by lia; f_equal; lia). assert (0 < 2 ^ (w - 1)) by (apply Z.pow_pos_nonneg; lia).
    rewrite <- Zplus_mod_idemp_l, H, Z.add_0_l, Z.mod_small by lia. lia. }
  destruct O as [[-> O] | O].
  - change (1 =? 1) with true. cbv iota. destruct O as [-> | ->]; [reflexivity|discriminate H].
  - assert (w =? 1 = false) as -> by lia. apply G; [lia|exact H].
Qed.
Lemma interp_app env l1 : forall a t l2 b t', interp P env a t l1 = Some b -> gepTy t l1 = Some t' -> interp P env a t (l1 ++ l2) = interp P env b t' l2.
Proof.
  induction l1 as [|i r IH]; intros a t l2 b t' E G; cbn [app Addr.interp gepTy] in *; [congruence|].
  destruct i as [w z|w x| |k]; try (destruct (elem t) as [e|]; [|discriminate]; eapply IH; eassumption).
  destruct t; try discriminate. destruct (nth_error fs k) as [f|]; [|discriminate]. destruct (fieldOff P fs k) as [o|]; [|discriminate]. eapply IH; eassumption.
Qed.
Lemma gepTy_app l1 : forall t l2 t', gepTy t (l1 ++ l2) = Some t' -> exists t1, gepTy t l1 = Some t1 /\ gepTy t1 l2 = Some t'.
Proof.
  induction l1 as [|i r IH]; intros t l2 t' G; cbn [app gepTy] in *; [eauto|].
  destruct i as [w z|w x| |k]; try (destruct (elem t) as [e|]; [|discriminate]; apply IH; exact G).
  destruct t; try discriminate. destruct (nth_error fs k) as [f|]; [|discriminate]. apply IH; exact G.
Qed.
Lemma interp_app_inv env l1 : forall a t l2 c, interp P env a t (l1 ++ l2) = Some c -> exists b, interp P env a t l1 = Some b.
Proof.
  induction l1 as [|i r IH]; intros a t l2 c E; cbn [app Addr.interp] in *; [eauto|].
  destruct i as [w z|w x| |k]; try (destruct (elem t) as [e|]; [|discriminate]; eapply IH; eassumption).
  destruct t; try discriminate. destruct (nth_error fs k) as [f|]; [|discriminate]. destruct (fieldOff P fs k) as [o|]; [|discriminate]. eapply IH; eassumption.
Qed.
Lemma u64_u64 x : u64 (u64 x) = u64 x. Proof. unfold u64. apply Zmod_mod. Qed.
Lemma interp_u64 env a t is b : u64 a = a -> interp P env a t is = Some b -> u64 b = b.
Proof. intros A E. pose proof (interp_gather P env is t a) as H. rewrite E in H. destruct (gather P 0 t is) as [[c l]|]; [|contradiction]. apply H, A. Qed.
(** adding an outer getelementptr's first index to the last index of an inner one *)
Lemma interp_merge env init last i0 i1 orest a t0 t1 b c : addr64 a ->
  match last with IF _ => False | _ => True end -> match i0 with IF _ => False | _ => True end -> match i1 with IF _ => False | _ => True end ->
  u64 (ival env i1 * size P t1) = u64 ((ival env last + ival env i0) * size P t1) ->
  interp P env a t0 (init ++ [last]) = Some b -> gepTy t0 (init ++ [last]) = Some t1 -> interp P env b (TPtr t1) (i0 :: orest) = Some c ->
  interp P env a t0 (init ++ i1 :: orest) = Some c.
Proof.
  intros A Kl K0 K1 V E G Ec. destruct (gepTy_app init t0 [last] t1 G) as (t2 & G2 & G1). destruct (interp_app_inv env init a t0 [last] b E) as (b2 & E2).
  rewrite (interp_app env init a t0 [last] b2 t2 E2 G2) in E. rewrite (interp_app env init a t0 (i1 :: orest) b2 t2 E2 G2).
  assert (El : elem t2 = Some t1 /\ b = u64 (b2 + ival env last * size P t1)).
  { destruct last; try contradiction; cbn [gepTy Addr.interp] in G1, E; destruct (elem t2) as [e|]; try discriminate; injection G1 as ->; injection E as <-; auto. }
  destruct El as [El ->].
  assert (Q : interp P env (u64 (u64 (b2 + ival env last * size P t1) + ival env i0 * size P t1)) t1 orest = Some c).
  { destruct i0; try contradiction; cbn [Addr.interp elem] in Ec; exact Ec. }
  rewrite u64_add in Q.
  assert (X : u64 (b2 + ival env i1 * size P t1) = u64 (b2 + ival env last * size P t1 + ival env i0 * size P t1)).
  { rewrite (Z.add_comm b2), <- u64_add, V, u64_add. f_equal. lia. }
  destruct i1; try contradiction; cbn [Addr.interp]; rewrite El, X; exact Q.
Qed.
(** GEPCombine keeps the address, unless the sum of the two constants leaves the range of their type. *)
Theorem C44_combine_preserves_partial : forall env a t0 t1 inner outer is b c, addr64 a ->
  combine inner outer = Some is -> Forall okC inner -> Forall okC outer ->
  (forall w x v y orest init, outer = IC w x :: orest -> inner = init ++ [IC v y] -> sx w (sx w x + sx v y) = sx w x + sx v y) ->
  interp P env a t0 inner = Some b -> gepTy t0 inner = Some t1 -> interp P env b (TPtr t1) outer = Some c ->
  interp P env a t0 is = Some c.
Proof.
  intros env a t0 t1 inner outer is b c A H Oi Oo F E G Ec. unfold combine in H. destruct (forallb isC inner && forallb isC outer); [|discriminate].
  destruct outer as [|o1 orest]; [discriminate|]. destruct (rev inner) as [|ilast irev] eqn:R; [discriminate|].
  assert (Ei : inner = rev irev ++ [ilast]) by (rewrite <- (rev_involutive inner), R; reflexivity).
  assert (Oo1 : okC o1) by (inversion Oo; assumption). assert (Ol : okC ilast) by (rewrite Ei, Forall_app in Oi; destruct Oi as [_ Oi]; inversion Oi; assumption).
  assert (Ub : u64 b = b) by (apply (interp_u64 env a t0 inner b); [unfold u64; apply Z.mod_small, A|exact E]).
  destruct (isZeroC o1) eqn:Z1.
  { injection H as <-. rewrite (interp_app env inner a t0 orest b t1 E G). pose proof (zeroC_val env o1 Z1 Oo1) as V. destruct o1; try discriminate Z1.
    cbn [Addr.interp elem] in Ec. rewrite V in Ec. replace (b + 0 * size P t1) with b in Ec by lia. rewrite Ub in Ec. exact Ec. }
  destruct (isZeroC ilast) eqn:Z2.
  { injection H as <-. pose proof (zeroC_val env ilast Z2 Ol) as V. destruct ilast; try discriminate Z2. rewrite Ei in E, G.
    assert (K0 : match o1 with IF _ => False | _ => True end) by (destruct o1; try exact I; cbn [Addr.interp] in Ec; discriminate Ec).
    apply (interp_merge env (rev irev) (IC w z) o1 o1 orest a t0 t1 b c); auto; try exact I; rewrite V; f_equal; lia. }
  destruct o1 as [w x| | |]; try discriminate H. destruct ilast as [v y| | |]; try discriminate H. injection H as <-. rewrite Ei in E, G.
  apply (interp_merge env (rev irev) (IC v y) (IC w x) (IC w (sx w x + sx v y)) orest a t0 t1 b c); auto; try exact I.
  cbn [ival]. rewrite (F w x v y orest (rev irev) eq_refl Ei). f_equal. lia.
Qed.
Lemma u64_mul_cong x y n : u64 x = u64 y -> u64 (x * n) = u64 (y * n).
Proof. unfold u64. intros H. rewrite <- Zmult_mod_idemp_l, H, Zmult_mod_idemp_l. reflexivity. Qed.
Lemma u64_sum x y x' y' : u64 x = u64 x' -> u64 y = u64 y' -> u64 (x + y) = u64 (x' + y').
Proof. unfold u64. intros H H'. rewrite Zplus_mod, H, H', <- Zplus_mod. reflexivity. Qed.
(** GEPDecompose: [gep p, pre, x + y] becomes [gep (gep p, pre, x), y].  The address is kept when the indices are 64
    bits wide, or the addition does not wrap. *)
Theorem C44_decompose_preserves_partial : forall env a t0 t1 pre w s x y b c d, addr64 a ->
  env s = env x + env y -> (w = 64 \/ sx w (env s) = sx w (env x) + sx w (env y)) ->
  interp P env a t0 (pre ++ [IV w s]) = Some d ->
  interp P env a t0 (pre ++ [IV w x]) = Some b -> gepTy t0 (pre ++ [IV w x]) = Some t1 -> interp P env b (TPtr t1) [IV w y] = Some c ->
  c = d.
Proof.
  intros env a t0 t1 pre w s x y b c d A V Hw Ed E G Ec. assert (Q : interp P env a t0 (pre ++ [IV w s]) = Some c).
  { apply (interp_merge env pre (IV w x) (IV w y) (IV w s) [] a t0 t1 b c); auto; try exact I. cbn [ival]. destruct Hw as [-> | ->]; [|reflexivity].
    apply u64_mul_cong. unfold sx. change (64 =? 1) with false. cbv iota. rewrite sgn64_u64, V. symmetry. apply u64_sum; apply sgn64_u64. }
  congruence.
Qed.
(** GEPDecompose: [gep p, pre, (x + i) * j] becomes [gep (gep p, pre, x * j), i * j].  The address is kept when the
    indices are 64 bits wide, or nothing wraps. *)
Theorem C44_decompose_mul_partial : forall env a t0 t1 pre w s i j xj b c d, addr64 a ->
  (exists x, env s = (env x + i) * j /\ env xj = env x * j) -> (w = 64 \/ sx w (env s) = sx w (env xj) + sx w (i * j)) ->
  interp P env a t0 (pre ++ [IV w s]) = Some d ->
  interp P env a t0 (pre ++ [IV w xj]) = Some b -> gepTy t0 (pre ++ [IV w xj]) = Some t1 -> interp P env b (TPtr t1) [IC w (i * j)] = Some c ->
  c = d.
Proof.
  intros env a t0 t1 pre w s i j xj b c d A (x & V & V') Hw Ed E G Ec. assert (Q : interp P env a t0 (pre ++ [IV w s]) = Some c).
  { apply (interp_merge env pre (IV w xj) (IC w (i * j)) (IV w s) [] a t0 t1 b c); auto; try exact I. cbn [ival]. destruct Hw as [-> | ->]; [|reflexivity].
    apply u64_mul_cong. unfold sx. change (64 =? 1) with false. cbv iota. rewrite sgn64_u64, V, V'. symmetry. replace ((env x + i) * j) with (env x * j + i * j) by ring. apply u64_sum; apply sgn64_u64. }
  congruence.
Qed.
(** PointerArithmeticCombine: inttoptr (ptrtoint p + c) is the address of the element. *)
Theorem C44_pointer_arithmetic : forall env a e c n is, addr64 a -> -9223372036854775808 <= c < 9223372036854775808 -> wfT e = true -> ptrArith P (TArr n e) c = Some is ->
  interp P env a (TPtr (TArr n e)) is = Some (u64 (a + c)).
Proof using HP.
  intros env a e c n is A C W H. unfold ptrArith in H. destruct (size P e =? 0) eqn:Z0; [discriminate|]. destruct (Z.rem c (size P e) =? 0) eqn:R; [|discriminate]. injection H as <-.
  cbn [Addr.interp elem ival]. unfold sx. change (64 =? 1) with false. cbv iota. change (sgn 64 0) with 0. f_equal. rewrite u64_add.
  assert (Q : Z.quot c (size P e) * size P e = c) by (pose proof (Z.quot_rem' c (size P e)); lia).
  assert (B : sgn 64 (Z.quot c (size P e)) = Z.quot c (size P e)).
  { pose proof (size_nonneg P HP e W). unfold sgn. change (2 ^ 64) with 18446744073709551616. change (2 ^ (64 - 1)) with 9223372036854775808. rewrite Z.mod_small; [lia|].
    assert (Z.abs (Z.quot c (size P e)) <= Z.abs c) by nia. assert (c = -9223372036854775808 -> Z.quot c (size P e) < 9223372036854775808) by (intros ->; nia). lia. }
  rewrite B, Q. f_equal. lia.
Qed.
End P.

(** ** initial values *)
(** For a global of integers of at most 32 bits, single-precision numbers, or arrays of these, the object file gets as many bytes
    as the type has, ... *)
Theorem C44_initializer_size : forall P t v, (P = 4 \/ P = 8) -> emT t -> hasTy t v -> exists bs, image P t v = Some bs /\ Z.of_nat (length bs) = size P t.
Proof. intros P t v HP M V. exact (image_ok P HP t M v V). Qed.
(** ... and the bytes at the address of each scalar are the little-endian bit pattern of the number the initializer has
    there, or zero past the end of a short array; *)
Theorem C44_initializer_bytes : forall P env t v bs a i is p x s, (P = 4 \/ P = 8) -> emT t -> hasTy t v -> image P t v = Some bs ->
  addr64 a -> a + size P t <= 18446744073709551616 -> zeroIdx env i -> selects env t is p ->
  interp P env a (TPtr t) (i :: is) = Some x -> gepTy t is = Some s -> scalar s ->
  slice (x - a) (size P s) bs = bytes (Z.to_nat (size P s)) (patt s (leaf v p)).
Proof.
  intros P env t v bs a i is p x s HP M V E A64 B Zi Sp Ex G S.
  assert (U : u64 a = a) by (unfold u64; apply Z.mod_small, A64).
  assert (E0 : interp P env a t is = Some x). { destruct i; cbn [zeroIdx] in Zi; try contradiction; cbn [Addr.interp elem] in Ex; rewrite Zi in Ex; replace (a + 0 * size P t) with a in Ex by lia; rewrite U in Ex; exact Ex. }
  destruct (interp_locate P env is t p a Sp A64) as (o & s1 & L1 & G1 & E1). assert (s1 = s) as -> by congruence. rewrite E0 in E1. injection E1 as ->.
  pose proof (em_wf t M) as W. destruct (locate_range P HP p t o s W L1) as (R1 & R2 & R3). assert (0 < size P s) by (rewrite scalar_size by exact S; apply align_pos; auto). unfold addr64 in A64.
  unfold u64. rewrite Z.mod_small by lia. replace (a + o - a) with o by lia. exact (image_leaf P HP p t v o s bs M V L1 S E).
Qed.
(** the interpreter fills its memory with the same bytes. *)
Theorem C44_initializer_interpreter : forall P t v m a, (P = 4 \/ P = 8) -> emT t -> hasTy t v ->
  exists bs m', image P t v = Some bs /\ storeC P m a t v = Some m' /\ forall x, m' x = mwrite m a bs x.
Proof. intros P t v m a HP M V. exact (storeC_ok P HP t M v m a V). Qed.

(** ** refutations *)
(** A struct has no padding at its end: the second element of an array of {i32, i8} is at offset 5, so an access to its
    first field is misaligned, although the array is aligned (and the interpreter rejects it). *)
Theorem C44_scalars_aligned_refuted : exists env t a is p x s, wfT t = true /\ (align 8 t | a) /\ addr64 a /\ a + size 8 t <= 18446744073709551616 /\ selects env t is p /\
  interp 8 env a (TPtr t) (IC 64 0 :: is) = Some x /\ gepTy t is = Some s /\ scalar s /\ ~ (align 8 s | x).
Proof.
  exists (fun _ => 0), (TArr 3 (TStruct [TInt 32; TInt 8])), 64, [IC 64 1; IF 0], [1; 0]%nat, 69, (TInt 32). split; [reflexivity|]. split; [exists 16; reflexivity|]. split; [unfold addr64; lia|].
  split; [vm_compute; discriminate|]. split; [cbn; repeat split; lia|]. split; [reflexivity|]. split; [reflexivity|]. split; [exact I|]. intros [k K]. cbn in K. lia.
Qed.
(** With 32-bit indices the generated code multiplies in 32 bits, the interpreter in 64. *)
Theorem C44_lowering_agrees_refuted : exists env a t is b c, addr64 a /\ interp 8 env a t is = Some b /\ lowerGep 8 env a t is = Some c /\ b <> c.
Proof.
  exists (fun _ => 536870912), 64, (TPtr (TInt 32)), [IV 32 0]. do 2 eexists. split; [unfold addr64; lia|]. split; [vm_compute; reflexivity|]. split; [vm_compute; reflexivity|]. discriminate.
Qed.
(** GEPCombine adds constants in the type of the outer one. *)
Theorem C44_combine_preserves_refuted : exists env a t0 t1 inner outer is b c d, addr64 a /\ combine inner outer = Some is /\ Forall okC inner /\ Forall okC outer /\
  interp 8 env a t0 inner = Some b /\ gepTy t0 inner = Some t1 /\ interp 8 env b (TPtr t1) outer = Some c /\ interp 8 env a t0 is = Some d /\ c <> d.
Proof.
  exists (fun _ => 0), 64, (TPtr (TInt 32)), (TInt 32), [IC 32 2147483647], [IC 32 1], [IC 32 2147483648]. do 3 eexists. split; [unfold addr64; lia|]. split; [reflexivity|].
  split; [repeat constructor; cbn; lia|]. split; [repeat constructor; cbn; lia|]. split; [vm_compute; reflexivity|]. split; [reflexivity|]. split; [vm_compute; reflexivity|]. split; [vm_compute; reflexivity|]. discriminate.
Qed.
(** GEPDecompose moves 32-bit products out of a sum that does not wrap. *)
Theorem C44_decompose_refuted : exists env a t0 t1 x i j b c d, addr64 a /\ env 1%nat = (env x + i) * j /\ env 2%nat = env x * j /\
  -2147483648 <= env x + i < 2147483648 /\ -2147483648 <= env 1%nat < 2147483648 /\
  interp 8 env a t0 [IV 32 1] = Some d /\ interp 8 env a t0 [IV 32 2] = Some b /\ gepTy t0 [IV 32 2] = Some t1 /\ interp 8 env b (TPtr t1) [IC 32 (i * j)] = Some c /\ c <> d.
Proof.
  exists (fun n => match n with O => 2 | 1%nat => 1073741824 | _ => 2147483648 end), 64, (TPtr (TInt 32)), (TInt 32), 0%nat, (-1), 1073741824. do 3 eexists.
  split; [unfold addr64; lia|]. split; [reflexivity|]. split; [reflexivity|]. split; [lia|]. split; [lia|]. split; [vm_compute; reflexivity|]. split; [vm_compute; reflexivity|]. split; [reflexivity|]. split; [vm_compute; reflexivity|]. discriminate.
Qed.
(** The initial value of a 64-bit integer is not emitted. *)
Theorem C44_initializer_size_refuted : exists t v bs, wfT t = true /\ hasTy t v /\ image 8 t v = Some bs /\ Z.of_nat (length bs) <> size 8 t.
Proof. exists (TInt 64), (CInt 5), []. split; [reflexivity|]. split; [constructor|]. split; [reflexivity|]. discriminate. Qed.

(** ** the hypotheses are met *)
Definition exT : ty := TStruct [TInt 8; TArr 3 (TArr 2 (TInt 32)); TPtr (TInt 8)].
Example ex_ok : wfT exT = true /\ tight 8 exT = true /\ size 8 exT = 40 /\ selects (fun _ => 1) exT [IF 1; IC 64 2; IV 64 0] [1; 2; 1]%nat /\
  interp 8 (fun _ => 1) 64 (TPtr exT) [IC 64 0; IF 1; IC 64 2; IV 64 0] = Some 88 /\ lowerGep 8 (fun _ => 1) 64 (TPtr exT) [IC 64 0; IF 1; IC 64 2; IV 64 0] = Some 88.
Proof. repeat split; try reflexivity; cbn; lia. Qed.
Example ex_combine : combine [IC 64 0; IF 1; IC 64 1] [IC 64 1; IC 64 1] = Some [IC 64 0; IF 1; IC 64 2; IC 64 1].
Proof. reflexivity. Qed.
Example ex_image : emT (TArr 3 (TArr 2 (TInt 16))) /\ hasTy (TArr 3 (TArr 2 (TInt 16))) (CArr [CArr [CInt 258; CInt (-1)]; CArr [CInt 7]]) /\
  image 8 (TArr 3 (TArr 2 (TInt 16))) (CArr [CArr [CInt 258; CInt (-1)]; CArr [CInt 7]]) = Some [2; 1; 255; 255; 7; 0; 0; 0; 0; 0; 0; 0].
Proof. split; [cbn; auto|]. split; [|reflexivity]. repeat (constructor; cbn; try lia). Qed.
Example ex_decompose : interp 8 (fun n => match n with O => 5 | 1%nat => 2 | _ => 3 end) 64 (TPtr (TInt 32)) [IV 64 0] = Some 84 /\ interp 8 (fun n => match n with O => 5 | 1%nat => 2 | _ => 3 end) 64 (TPtr (TInt 32)) [IV 64 1] = Some 72 /\
  interp 8 (fun n => match n with O => 5 | 1%nat => 2 | _ => 3 end) 72 (TPtr (TInt 32)) [IV 64 2] = Some 84.
Proof. repeat split. Qed.
Example ex_ptr : ptrArith 8 (TArr 10 (TInt 32)) (-8) = Some [IC 64 0; IC 64 (-2)].
Proof. reflexivity. Qed.
