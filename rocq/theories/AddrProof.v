(** C44: layout and address arithmetic — proofs. *)
From Coq Require Import ZArith List Bool Lia PeanoNat ZifyBool.
From Verif Require Import Word Addr.
Import ListNotations.
Local Open Scope Z_scope.
Ltac Zify.zify_post_hook ::= idtac.

(** induction on types *)
Lemma ty_ind2 (Q : ty -> Prop) : (forall w, Q (TInt w)) -> (forall s, Q (TFp s)) -> (forall t, Q t -> Q (TPtr t)) ->
  (forall n t, Q t -> Q (TArr n t)) -> (forall fs, Forall Q fs -> Q (TStruct fs)) -> forall t, Q t.
Proof.
  intros H1 H2 H3 H4 H5. fix IH 1. intros [w|s|t|n t|fs]; [apply H1|apply H2|apply H3, IH|apply H4, IH|]. apply H5. induction fs as [|f r IHr]; constructor; [apply IH|exact IHr].
Qed.
Section L.
Variable P : Z.
Notation size := (size P). Notation align := (align P). Notation interp := (interp P). Notation gather := (gather P).

(** types of the IR: widths 1, 8, 16, 32, 64; P is 4 or 8 *)
Fixpoint wfT (t : ty) : bool :=
  match t with
  | TInt w => (w =? 1) || (w =? 8) || (w =? 16) || (w =? 32) || (w =? 64)
  | TFp _ => true
  | TPtr _ => true
  | TArr _ t => wfT t
  | TStruct fs => forallb wfT fs
  end.
Definition al4 (a : Z) : Prop := a = 1 \/ a = 2 \/ a = 4 \/ a = 8.
Hypothesis HP : P = 4 \/ P = 8.
Definition maxA : Z -> list ty -> Z := fix go m l := match l with [] => m | f :: r => go (Z.max m (align f)) r end.
Definition endO : Z -> list ty -> Z := fix go off l := match l with [] => off | f :: r => go (up off (align f) + size f) r end.
Lemma maxA_al fs : Forall (fun f => wfT f = true -> al4 (align f)) fs -> forallb wfT fs = true -> forall m, al4 m -> al4 (maxA m fs).
Proof.
  induction 1 as [|f r Hf _ IH]; cbn [forallb maxA]; intros W m Hm; [exact Hm|]. apply andb_prop in W as [W1 W2]. apply IH; [exact W2|].
  specialize (Hf W1). unfold al4 in *. lia.
Qed.
Lemma align_al t : wfT t = true -> al4 (align t).
Proof using HP.
  induction t as [w|s|t IH|n t IH|fs IH] using ty_ind2; intros W.
  - cbn [wfT] in W. unfold al4. rewrite !orb_true_iff, !Z.eqb_eq in W. destruct W as [[[[-> | ->] | ->] | ->] | ->]; cbn; auto.
  - unfold al4. destruct s; cbn; auto.
  - unfold al4. cbn. lia.
  - cbn [wfT Addr.align] in *. auto.
  - change (align (TStruct fs)) with (maxA 1 fs). apply maxA_al; auto. unfold al4. auto.
Qed.
Lemma align_pos t : wfT t = true -> 0 < align t.
Proof using HP. intros W. destruct (align_al t W) as [-> | [-> | [-> | ->]]]; lia. Qed.
Lemma up_spec o a : 0 < a -> o <= up o a < o + a /\ exists k, up o a = k * a.
Proof.
  intros H. unfold up. split; [|eexists; reflexivity]. pose proof (Z.div_mod (o + a - 1) a ltac:(lia)). pose proof (Z.mod_pos_bound (o + a - 1) a H). nia.
Qed.
Lemma endO_ge fs : Forall (fun f => wfT f = true -> 0 <= size f) fs -> forallb wfT fs = true -> forall o, o <= endO o fs.
Proof using HP.
  induction 1 as [|f r Hf _ IH]; cbn [forallb endO]; intros W o; [lia|]. apply andb_prop in W as [W1 W2]. specialize (IH W2 (up o (align f) + size f)). specialize (Hf W1).
  pose proof (up_spec o (align f) (align_pos f W1)). lia.
Qed.
Lemma size_nonneg t : wfT t = true -> 0 <= size t.
Proof using HP.
  induction t as [w|s|t IH|n t IH|fs IH] using ty_ind2; intros W.
  - pose proof (align_pos (TInt w) W). cbn in *. lia.
  - destruct s; cbn; lia.
  - cbn. lia.
  - cbn [Addr.size wfT] in *. specialize (IH W). pose proof (up_spec (size t) (align t) (align_pos t W)). nia.
  - change (size (TStruct fs)) with (endO 0 fs). apply endO_ge; [exact IH|exact W].
Qed.
Lemma endO_ge' fs o : forallb wfT fs = true -> o <= endO o fs.
Proof using HP. intros W. apply endO_ge; [|exact W]. apply Forall_forall. intros f _. apply size_nonneg. Qed.
Lemma scalar_size t : match t with TInt _ | TFp _ | TPtr _ => True | _ => False end -> size t = align t.
Proof. destruct t; cbn; intros H; try contradiction; reflexivity. Qed.

(** ** fields *)
Lemma field_range fs : forall o k f x, forallb wfT fs = true -> nth_error fs k = Some f -> fieldOffFrom P o fs k = Some x -> o <= x /\ x + size f <= endO o fs /\ exists c, x = c * align f.
Proof using HP.
  induction fs as [|g r IH]; intros o k f x W N F; [destruct k; discriminate|]. cbn [forallb] in W. apply andb_prop in W as [W1 W2].
  pose proof (up_spec o (align g) (align_pos g W1)) as [U1 U2]. pose proof (size_nonneg g W1). destruct k as [|k]; cbn [nth_error fieldOffFrom endO] in *.
  - injection N as ->. injection F as <-. split; [lia|]. split; [apply endO_ge', W2|exact U2].
  - destruct (IH _ _ _ _ W2 N F) as (A & B & C). split; [lia|]. split; [exact B|exact C].
Qed.
Lemma field_disj fs : forall o i j f g x y, forallb wfT fs = true -> (i < j)%nat -> nth_error fs i = Some f -> nth_error fs j = Some g ->
  fieldOffFrom P o fs i = Some x -> fieldOffFrom P o fs j = Some y -> x + size f <= y.
Proof using HP.
  induction fs as [|h r IH]; intros o i j f g x y W L Ni Nj Fi Fj; [destruct i; discriminate|]. cbn [forallb] in W. apply andb_prop in W as [W1 W2].
  destruct j as [|j]; [lia|]. cbn [nth_error fieldOffFrom] in Nj, Fj. destruct i as [|i]; cbn [nth_error fieldOffFrom] in Ni, Fi.
  - injection Ni as ->. injection Fi as <-. destruct (field_range r _ j g y W2 Nj Fj) as (A & _). exact A.
  - exact (IH _ i j f g x y W2 ltac:(lia) Ni Nj Fi Fj).
Qed.
Lemma field_total fs : forall o k f, nth_error fs k = Some f -> exists x, fieldOffFrom P o fs k = Some x.
Proof.
  induction fs as [|g r IH]; intros o k f N; [destruct k; discriminate|]. destruct k as [|k]; cbn [nth_error fieldOffFrom] in *; [eauto|eapply IH; eauto].
Qed.

(** ** paths *)
(** the part of [t] reached by array indices and field numbers, and its offset *)
Fixpoint locate (t : ty) (p : list nat) : option (Z * ty) :=
  match p with
  | [] => Some (0, t)
  | i :: r =>
    match t with
    | TArr n e => if Nat.ltb i n then match locate e r with Some (o, s) => Some (Z.of_nat i * size e + o, s) | None => None end else None
    | TStruct fs =>
      match nth_error fs i, fieldOff P fs i with
      | Some f, Some x => match locate f r with Some (o, s) => Some (x + o, s) | None => None end
      | _, _ => None
      end
    | _ => None
    end
  end.
Lemma wf_field fs i f : forallb wfT fs = true -> nth_error fs i = Some f -> wfT f = true.
Proof. intros W N. rewrite forallb_forall in W. apply W. eapply nth_error_In; eauto. Qed.
Lemma arr_stride n e : wfT e = true -> size e * Z.of_nat n <= size (TArr n e).
Proof using HP. intros W. cbn [Addr.size]. pose proof (up_spec (size e) (align e) (align_pos e W)). nia. Qed.
Lemma locate_range p : forall t o s, wfT t = true -> locate t p = Some (o, s) -> 0 <= o /\ o + size s <= size t /\ wfT s = true.
Proof using HP.
  induction p as [|i r IH]; intros t o s W L; cbn [locate] in L.
  { injection L as <- <-. split; [lia|]. split; [lia|exact W]. }
  destruct t as [w|b|t|n e|fs]; try discriminate.
  - destruct (Nat.ltb_spec i n) as [Li|]; [|discriminate]. destruct (locate e r) as [[o' s']|] eqn:E; [|discriminate]. injection L as <- <-.
    cbn [wfT] in W. destruct (IH e o' s' W E) as (A & B & C). pose proof (size_nonneg e W). pose proof (arr_stride n e W). split; [nia|]. split; [|exact C]. nia.
  - destruct (nth_error fs i) as [f|] eqn:N; [|discriminate]. destruct (fieldOff P fs i) as [x|] eqn:F; [|discriminate].
    destruct (locate f r) as [[o' s']|] eqn:E; [|discriminate]. injection L as <- <-. cbn [wfT] in W. destruct (IH f o' s' (wf_field fs i f W N) E) as (A & B & C).
    destruct (field_range fs 0 i f x W N F) as (X & Y & _). change (size (TStruct fs)) with (endO 0 fs). split; [lia|]. split; [lia|exact C].
Qed.
Definition scalar (t : ty) : Prop := match t with TInt _ | TFp _ | TPtr _ => True | _ => False end.
Lemma locate_disjoint p : forall t q o s o' s', wfT t = true -> locate t p = Some (o, s) -> locate t q = Some (o', s') -> scalar s -> scalar s' -> p <> q ->
  o + size s <= o' \/ o' + size s' <= o.
Proof using HP.
  induction p as [|i r IH]; intros t q o s o' s' W L1 L2 S1 S2 N.
  { destruct q as [|j q]; [contradiction|]. cbn [locate] in L1, L2. injection L1 as <- <-. destruct t; try contradiction; discriminate. }
  destruct q as [|j q].
  { cbn [locate] in L1, L2. injection L2 as <- <-. destruct t; try contradiction; discriminate. }
  cbn [locate] in L1, L2. destruct t as [w|b|t|n e|fs]; try discriminate.
  - destruct (Nat.ltb_spec i n) as [Li|]; [|discriminate]. destruct (Nat.ltb_spec j n) as [Lj|]; [|discriminate].
    destruct (locate e r) as [[a s1]|] eqn:E1; [|discriminate]. destruct (locate e q) as [[b s2]|] eqn:E2; [|discriminate]. injection L1 as <- <-. injection L2 as <- <-.
    cbn [wfT] in W. destruct (locate_range r e a s1 W E1) as (A1 & B1 & _). destruct (locate_range q e b s2 W E2) as (A2 & B2 & _). pose proof (size_nonneg e W).
    destruct (Nat.lt_trichotomy i j) as [Lt | [-> | Lt]].
    + left. assert (Z.of_nat i * size e + size e <= Z.of_nat j * size e) by nia. lia.
    + destruct (IH e q a s1 b s2 W E1 E2 S1 S2 ltac:(congruence)); [left|right]; lia.
    + right. assert (Z.of_nat j * size e + size e <= Z.of_nat i * size e) by nia. lia.
  - destruct (nth_error fs i) as [f|] eqn:N1; [|discriminate]. destruct (fieldOff P fs i) as [x|] eqn:F1; [|discriminate]. destruct (locate f r) as [[a s1]|] eqn:E1; [|discriminate].
    destruct (nth_error fs j) as [g|] eqn:N2; [|discriminate]. destruct (fieldOff P fs j) as [y|] eqn:F2; [|discriminate]. destruct (locate g q) as [[b s2]|] eqn:E2; [|discriminate].
    injection L1 as <- <-. injection L2 as <- <-. cbn [wfT] in W.
    destruct (locate_range r f a s1 (wf_field _ _ _ W N1) E1) as (A1 & B1 & _). destruct (locate_range q g b s2 (wf_field _ _ _ W N2) E2) as (A2 & B2 & _).
    destruct (Nat.lt_trichotomy i j) as [Lt | [-> | Lt]].
    + left. pose proof (field_disj fs 0 i j f g x y W Lt N1 N2 F1 F2). lia.
    + assert (g = f) as -> by congruence. assert (y = x) as -> by congruence.
      destruct (IH f q a s1 b s2 (wf_field _ _ _ W N1) E1 E2 S1 S2 ltac:(congruence)); [left|right]; lia.
    + right. pose proof (field_disj fs 0 j i g f y x W Lt N2 N1 F2 F1). lia.
Qed.

(** ** alignment *)
(** no array of structs whose size is not a multiple of their alignment *)
Fixpoint tight (t : ty) : bool :=
  match t with
  | TArr _ e => tight e && (size e mod align e =? 0)
  | TStruct fs => forallb tight fs
  | _ => true
  end.
Lemma al4_div a b : al4 a -> al4 b -> a <= b -> (a | b).
Proof.
  intros [-> | [-> | [-> | ->]]] [-> | [-> | [-> | ->]]] L; try lia; try (apply Z.divide_refl); try apply Z.divide_1_l; try (exists 2; reflexivity); try (exists 4; reflexivity).
Qed.
Lemma maxA_ge fs : forall m, m <= maxA m fs.
Proof. induction fs as [|f r IH]; intros m; cbn [maxA]; [lia|]. specialize (IH (Z.max m (align f))). lia. Qed.
Lemma maxA_in fs : forall m f, In f fs -> align f <= maxA m fs.
Proof.
  induction fs as [|g r IH]; intros m f Hf; [destruct Hf|]. cbn [maxA]. destruct Hf as [-> | Hf]; [|apply IH, Hf]. pose proof (maxA_ge r (Z.max m (align f))). lia.
Qed.
Lemma locate_aligned p : forall t o s, wfT t = true -> tight t = true -> locate t p = Some (o, s) -> (align s | o) /\ (align s | align t).
Proof using HP.
  induction p as [|i r IH]; intros t o s W T L; cbn [locate] in L.
  { injection L as <- <-. split; [apply Z.divide_0_r|apply Z.divide_refl]. }
  destruct t as [w|b|t|n e|fs]; try discriminate.
  - destruct (Nat.ltb i n); [|discriminate]. destruct (locate e r) as [[o' s']|] eqn:E; [|discriminate]. injection L as <- <-. cbn [wfT tight] in W, T.
    apply andb_prop in T as [T1 T2]. destruct (IH e o' s' W T1 E) as (A & B). cbn [Addr.align]. split; [|exact B]. apply Z.divide_add_r; [|exact A]. apply Z.divide_mul_r.
    apply Z.eqb_eq in T2. apply Z.mod_divide in T2; [|pose proof (align_pos e W); lia]. eapply Z.divide_trans; eauto.
  - destruct (nth_error fs i) as [f|] eqn:N; [|discriminate]. destruct (fieldOff P fs i) as [x|] eqn:F; [|discriminate].
    destruct (locate f r) as [[o' s']|] eqn:E; [|discriminate]. injection L as <- <-. cbn [wfT tight] in W, T.
    assert (Tf : tight f = true) by (rewrite forallb_forall in T; apply T; eapply nth_error_In; eauto). pose proof (wf_field fs i f W N) as Wf.
    destruct (IH f o' s' Wf Tf E) as (A & B). destruct (field_range fs 0 i f x W N F) as (_ & _ & c & X). split.
    + apply Z.divide_add_r; [|exact A]. rewrite X. apply Z.divide_mul_r, B.
    + eapply Z.divide_trans; [exact B|]. apply al4_div; [apply align_al, Wf|apply (align_al (TStruct fs)); exact W|].
      change (align (TStruct fs)) with (maxA 1 fs). apply maxA_in. eapply nth_error_In; eauto.
Qed.

(** ** the three ways to compute an address *)
Lemma u64_add x y : u64 (u64 x + y) = u64 (x + y).
Proof. unfold u64. rewrite Zplus_mod_idemp_l. reflexivity. Qed.
Definition vsum (env : nat -> Z) (l : list (Z * idx)) : Z := fold_right (fun si a => fst si * ival env (snd si) + a) 0 l.
Lemma gather_shift is : forall t c d, gather (c + d) t is = match gather c t is with Some (x, l) => Some (x + d, l) | None => None end.
Proof.
  induction is as [|i r IH]; intros t c d; cbn [Addr.gather]; [reflexivity|].
  destruct i as [w z|w x| |k].
  - destruct (elem t) as [e|]; [|reflexivity]. replace (c + d + size e * sx w z) with (c + size e * sx w z + d) by lia. apply IH.
  - destruct (elem t) as [e|]; [|reflexivity]. rewrite IH. destruct (gather c e r) as [[y l]|]; reflexivity.
  - destruct (elem t) as [e|]; [|reflexivity]. apply IH.
  - destruct t; try reflexivity. destruct (nth_error fs k); [|reflexivity]. destruct (fieldOff P fs k) as [o|]; [|reflexivity].
    replace (c + d + o) with (c + o + d) by lia. apply IH.
Qed.
Lemma interp_gather env is : forall t a, 
  match gather 0 t is, interp env a t is with
  | Some (c, l), Some b => u64 b = u64 (a + c + vsum env l) /\ (u64 a = a -> u64 b = b)
  | None, None => True
  | _, _ => False
  end.
Proof.
  assert (U : forall x, u64 (u64 x) = u64 x) by (intros; unfold u64; apply Zmod_mod).
  induction is as [|i r IH]; intros t a; cbn [Addr.gather Addr.interp].
  { cbn [vsum fold_right]. split; [f_equal; lia|auto]. }
  assert (K : forall e y x, 0 + y = x -> match gather x e r, interp env (u64 (a + y)) e r with
     | Some (c, l), Some b => u64 b = u64 (a + c + vsum env l) /\ (u64 a = a -> u64 b = b) | None, None => True | _, _ => False end).
  { intros e y x <-. rewrite gather_shift. specialize (IH e (u64 (a + y))). destruct (gather 0 e r) as [[c l]|], (interp env (u64 (a + y)) e r) as [b|]; try exact IH.
    destruct IH as [I1 I2]. split; [|intros _; apply I2, U]. rewrite I1. replace (u64 (a + y) + c + vsum env l) with (u64 (a + y) + (c + vsum env l)) by lia. rewrite u64_add. f_equal. lia. }
  destruct i as [w z|w x| |k].
  - destruct (elem t) as [e|]; [|exact I]. apply K. cbn [ival]. lia.
  - destruct (elem t) as [e|]; [|exact I]. specialize (IH e (u64 (a + ival env (IV w x) * size e))).
    destruct (gather 0 e r) as [[c l]|], (interp env (u64 (a + ival env (IV w x) * size e)) e r) as [b|]; try exact IH.
    destruct IH as [I1 I2]. split; [|intros _; apply I2, U]. rewrite I1. cbn [vsum fold_right fst snd]. change (fold_right (fun si a => fst si * ival env (snd si) + a) 0 l) with (vsum env l).
    replace (u64 (a + ival env (IV w x) * size e) + c + vsum env l) with (u64 (a + ival env (IV w x) * size e) + (c + vsum env l)) by lia. rewrite u64_add. f_equal. lia.
  - destruct (elem t) as [e|]; [|exact I]. apply K. cbn [ival]. lia.
  - destruct t; try exact I. destruct (nth_error fs k) as [f|]; [|exact I]. destruct (fieldOff P fs k) as [o|]; [|exact I]. apply K. lia.
Qed.
Lemma lower_fold env w l : forall p, (forall si, In si l -> fst si =? 1 = true \/ u64 (sgn w (ival env (snd si) * fst si)) = u64 (ival env (snd si) * fst si)) ->
  u64 (fold_left (fun p si => u64 (p + (if fst si =? 1 then ival env (snd si) else sgn w (ival env (snd si) * fst si)))) l p) = u64 (p + vsum env l).
Proof.
  induction l as [|[s i] l IH]; intros p H; cbn [fold_left vsum fold_right fst snd]; [f_equal; lia|].
  rewrite IH by (intros si Hi; apply H; right; exact Hi). change (fold_right (fun si a => fst si * ival env (snd si) + a) 0 l) with (vsum env l).
  rewrite u64_add. destruct (s =? 1) eqn:E; [apply Z.eqb_eq in E as ->; f_equal; lia|].
  destruct (H (s, i) (or_introl eq_refl)) as [Q | Q]; cbn [fst snd] in Q; [congruence|].
  replace (p + sgn w (ival env i * s) + vsum env l) with (sgn w (ival env i * s) + (p + vsum env l)) by lia. rewrite <- u64_add, Q, u64_add. f_equal. lia.
Qed.
Lemma sgn64_u64 x : u64 (sgn 64 x) = u64 x.
Proof. unfold sgn, u64. change (2 ^ 64) with 18446744073709551616. change (2 ^ (64 - 1)) with 9223372036854775808. rewrite Zminus_mod_idemp_l. f_equal. lia. Qed.
Lemma sgn32_fit x : -2147483648 <= x < 2147483648 -> sgn 32 x = x.
Proof. intros H. unfold sgn. change (2 ^ 32) with 4294967296. change (2 ^ (32 - 1)) with 2147483648. rewrite Z.mod_small by lia. lia. Qed.
End L.
