(** C44: initial values of globals: the bytes of the object file and the memory of the interpreter. *)
From Coq Require Import ZArith List Bool Lia PeanoNat ZifyBool.
From Verif Require Import Word Addr AddrProof.
Import ListNotations.
Local Open Scope Z_scope.

(** ** specification *)
(** the types whose initial values are emitted, and the constants of a type (an array may have fewer elements than its
    type; the rest is zero) *)
Fixpoint emT (t : ty) : Prop := match t with TInt w => w = 1 \/ w = 8 \/ w = 16 \/ w = 32 | TFp s => s = true | TArr _ e => emT e | _ => False end.
Inductive hasTy : ty -> cval -> Prop :=
  | hInt w z : hasTy (TInt w) (CInt z)
  | hFp s b : hasTy (TFp s) (CFp b)
  | hArr n e vs : (length vs <= n)%nat -> Forall (hasTy e) vs -> hasTy (TArr n e) (CArr vs).
(** the number at a place of a constant *)
Fixpoint leaf (v : cval) (p : list nat) : Z :=
  match v, p with
  | CInt z, _ => z
  | CFp b, _ => b
  | CArr vs, k :: q => match nth_error vs k with Some x => leaf x q | None => 0 end
  | CArr _, [] => 0
  end.
(** its bit pattern *)
Definition patt (s : ty) (z : Z) : Z := match s with TInt w => uns w z | _ => z end.
Definition slice (o n : Z) (l : list Z) : list Z := firstn (Z.to_nat n) (skipn (Z.to_nat o) l).

Section P.
Variable P : Z.
Hypothesis HP : P = 4 \/ P = 8.
Definition imgL (e : ty) : list cval -> option (list Z) :=
  fix go l := match l with [] => Some [] | x :: r => match image P e x, go r with Some a, Some b => Some (a ++ b) | _, _ => None end end.
Definition stoL (e : ty) (a : Z) : nat -> (Z -> Z) -> list cval -> option (Z -> Z) :=
  fix go k (m : Z -> Z) l {struct l} := match l with [] => Some m | x :: r => match storeC P m (a + Z.of_nat k * size P e) e x with Some m' => go (S k) m' r | None => None end end.
Lemma image_arr n e vs : image P (TArr n e) (CArr vs) = match imgL e vs with Some a => Some (a ++ repeat 0 (Z.to_nat (size P e) * (n - length vs))) | None => None end.
Proof. reflexivity. Qed.
Lemma storeC_arr m a n e vs : storeC P m a (TArr n e) (CArr vs) =
  match stoL e a 0 m vs with Some m' => Some (mwrite m' (a + Z.of_nat (length vs) * size P e) (repeat 0 (Z.to_nat (size P e) * (n - length vs)))) | None => None end.
Proof. reflexivity. Qed.
Lemma bytes_len n z : length (bytes n z) = n.
Proof. revert z. induction n; intros z; cbn; auto. Qed.
Lemma em_wf t : emT t -> wfT t = true.
Proof. induction t; cbn [emT wfT]; intros H; try contradiction; auto. destruct H as [-> | [-> | [-> | ->]]]; reflexivity. Qed.
Lemma em_tight t : emT t -> up (size P t) (align P t) = size P t.
Proof using HP.
  induction t as [w|s|t IH|n t IH|fs]; cbn [emT]; intros H; try contradiction.
  - destruct H as [-> | [-> | [-> | ->]]]; reflexivity.
  - subst. reflexivity.
  - specialize (IH H). cbn [size align]. rewrite IH. pose proof (align_pos P HP t (em_wf t H)) as Ap. destruct (up_spec (size P t) (align P t) Ap) as [_ [k K]]. rewrite IH in K. rewrite K.
    unfold up. replace (k * align P t * Z.of_nat n + align P t - 1) with ((align P t - 1) + (k * Z.of_nat n) * align P t) by lia. rewrite Z.div_add by lia. rewrite (Z.div_small (align P t - 1)) by lia. lia.
Qed.
Lemma em_size n t : emT t -> size P (TArr n t) = size P t * Z.of_nat n.
Proof using HP. intros H. cbn [size]. rewrite em_tight by exact H. reflexivity. Qed.
Lemma em_pos t : emT t -> 0 <= size P t.
Proof using HP. intros H. apply size_nonneg; auto. apply em_wf, H. Qed.

(** ** the emitted bytes *)
Lemma imgL_ok e : (forall v, hasTy e v -> exists bs, image P e v = Some bs /\ Z.of_nat (length bs) = size P e) ->
  forall vs, Forall (hasTy e) vs -> exists bs, imgL e vs = Some bs /\ Z.of_nat (length bs) = size P e * Z.of_nat (length vs).
Proof.
  intros H vs. induction 1 as [|x r Hx _ IH]; cbn [imgL length]; [exists []; split; [reflexivity|cbn; lia]|].
  destruct (H x Hx) as (a & E & L). destruct IH as (b & E' & L'). exists (a ++ b). rewrite E. fold (imgL e). rewrite E'. split; [reflexivity|]. rewrite app_length. lia.
Qed.
Lemma image_ok t : emT t -> forall v, hasTy t v -> exists bs, image P t v = Some bs /\ Z.of_nat (length bs) = size P t.
Proof using HP.
  induction t as [w|s|t IH|n t IH|fs]; cbn [emT]; intros H v V; try contradiction; inversion V; subst.
  - destruct H as [-> | [-> | [-> | ->]]]; eexists; (split; [reflexivity|]); reflexivity.
  - eexists; split; [reflexivity|reflexivity].
  - rewrite image_arr. destruct (imgL_ok t (IH H) vs ltac:(assumption)) as (bs & E & L). rewrite E. eexists; split; [reflexivity|]. rewrite app_length, repeat_length, em_size by exact H.
    pose proof (em_pos t H). nia.
Qed.

Lemma skip_app_r {A} n (l1 l2 : list A) : (length l1 <= n)%nat -> skipn n (l1 ++ l2) = skipn (n - length l1) l2.
Proof. intros H. rewrite skipn_app, skipn_all2 by exact H. reflexivity. Qed.
Lemma slice_l o n l1 l2 : 0 <= o -> 0 <= n -> o + n <= Z.of_nat (length l1) -> slice o n (l1 ++ l2) = slice o n l1.
Proof.
  intros A B C. unfold slice. rewrite skipn_app, firstn_app. replace (Z.to_nat n - length (skipn (Z.to_nat o) l1))%nat with 0%nat by (rewrite skipn_length; lia). cbn [firstn]. apply app_nil_r.
Qed.
Lemma slice_r o n l1 l2 : Z.of_nat (length l1) <= o -> slice o n (l1 ++ l2) = slice (o - Z.of_nat (length l1)) n l2.
Proof. intros A. unfold slice. rewrite skip_app_r by lia. do 2 f_equal. lia. Qed.
Lemma slice_zero o n k : 0 <= o -> 0 <= n -> o + n <= Z.of_nat k -> slice o n (repeat 0 k) = repeat 0 (Z.to_nat n).
Proof.
  intros A B C. unfold slice.
  assert (G : forall i j k, (i + j <= k)%nat -> firstn j (skipn i (repeat 0 k)) = repeat 0 j).
  { clear. induction i as [|i IH]; intros j k H; cbn [skipn].
    - revert k H. induction j as [|j IHj]; intros k H; [reflexivity|]. destruct k as [|k]; [lia|]. cbn [repeat firstn]. f_equal. apply IHj. lia.
    - destruct k as [|k]; [lia|]. cbn [repeat]. apply IH. lia. }
  apply G. lia.
Qed.
Lemma bytes_zero n : bytes n 0 = repeat 0 n.
Proof. induction n as [|n IH]; [reflexivity|]. cbn [bytes repeat]. f_equal. exact IH. Qed.
Lemma leaf_nil s v : scalar s -> hasTy s v -> leaf v [] = match v with CInt z => z | CFp b => b | _ => 0 end.
Proof. destruct v; reflexivity. Qed.
Lemma locate_em p : forall t o s, emT t -> locate P t p = Some (o, s) -> emT s.
Proof.
  induction p as [|i r IH]; intros t o s H L; cbn [locate] in L; [congruence|]. destruct t; cbn [emT] in H; try discriminate; try contradiction.
  destruct (Nat.ltb i n); [|discriminate]. destruct (locate P t r) as [[o' s']|] eqn:E; [|discriminate]. injection L as <- <-. eapply IH; eauto.
Qed.
Lemma patt0 s : emT s -> patt s 0 = 0.
Proof. destruct s; cbn; intros H; try reflexivity. Qed.
Lemma imgL_nth e : (forall v, hasTy e v -> exists bs, image P e v = Some bs /\ Z.of_nat (length bs) = size P e) -> 0 <= size P e ->
  forall vs bs rest i x o n, Forall (hasTy e) vs -> imgL e vs = Some bs -> nth_error vs i = Some x -> 0 <= o -> 0 <= n -> o + n <= size P e ->
  exists b, image P e x = Some b /\ slice (Z.of_nat i * size P e + o) n (bs ++ rest) = slice o n b.
Proof.
  intros H Hs. induction vs as [|y r IH]; intros bs rest i x o n F E N O1 O2 O3; [destruct i; discriminate|]. inversion F as [|? ? Fy Fr]; subst.
  destruct (H y Fy) as (a & Ea & La). cbn [imgL] in E. rewrite Ea in E. fold (imgL e) in E. destruct (imgL e r) as [b|] eqn:Er; [|discriminate]. injection E as <-. rewrite <- app_assoc.
  destruct i as [|i]; cbn [nth_error] in N.
  - injection N as ->. exists a. split; [exact Ea|]. rewrite slice_l; [f_equal; lia|lia..].
  - destruct (IH b rest i x o n Fr eq_refl N O1 O2 O3) as (b' & B1 & B2). exists b'. split; [exact B1|]. rewrite slice_r by lia. rewrite <- B2. f_equal. lia.
Qed.
Lemma image_leaf p : forall t v o s bs, emT t -> hasTy t v -> locate P t p = Some (o, s) -> scalar s -> image P t v = Some bs ->
  slice o (size P s) bs = bytes (Z.to_nat (size P s)) (patt s (leaf v p)).
Proof using HP.
  induction p as [|i r IH]; intros t v o s bs M V L S E; cbn [locate] in L.
  - injection L as <- <-. unfold slice. cbn [Z.to_nat skipn]. destruct V as [w z|s b|]; try contradiction; cbn [emT] in M.
    + destruct M as [-> | [-> | [-> | ->]]]; cbn in E; injection E as <-; reflexivity.
    + subst s. cbn in E. injection E as <-. reflexivity.
  - destruct V as [| |n e vs Hl F]; try discriminate. cbn [emT] in M. destruct (Nat.ltb_spec i n) as [Li|]; [|discriminate].
    destruct (locate P e r) as [[o' s']|] eqn:Le; [|discriminate]. injection L as <- <-. rewrite image_arr in E. destruct (imgL e vs) as [b|] eqn:Eb; [|discriminate]. injection E as <-.
    destruct (locate_range P HP r e o' s' (em_wf e M) Le) as (R1 & R2 & R3). pose proof (em_pos e M) as Hp.
    assert (Hs : 0 <= size P s') by (apply em_pos, (locate_em r e o' s' M Le)). cbn [leaf].
    destruct (nth_error vs i) as [x|] eqn:N.
    + destruct (imgL_nth e (image_ok e M) Hp vs b (repeat 0 (Z.to_nat (size P e) * (n - length vs))) i x o' (size P s') F Eb N R1 Hs R2) as (bx & B1 & B2).
      rewrite B2. apply (IH e x o' s' bx M); auto. apply nth_error_In in N. rewrite Forall_forall in F. apply F, N.
    + destruct (imgL_ok e (image_ok e M) vs F) as (b' & B1 & B2). rewrite Eb in B1. injection B1 as <-. apply nth_error_None in N.
      rewrite patt0 by (apply (locate_em r e o' s' M Le)). rewrite bytes_zero.
      assert (Hi : Z.of_nat (length b) <= Z.of_nat i * size P e + o') by nia. rewrite slice_r by exact Hi. apply slice_zero; [lia|exact Hs|].
      rewrite B2. rewrite Nat2Z.inj_mul, Z2Nat.id, Nat2Z.inj_sub by lia. nia.
Qed.

(** ** the interpreter writes the same bytes *)
Lemma mwrite_ext m m' a l : (forall x, m x = m' x) -> forall x, mwrite m a l x = mwrite m' a l x.
Proof. intros H x. unfold mwrite. rewrite H. reflexivity. Qed.
Lemma mwrite_app m a l1 l2 x : mwrite (mwrite m a l1) (a + Z.of_nat (length l1)) l2 x = mwrite m a (l1 ++ l2) x.
Proof.
  unfold mwrite. rewrite app_length, Nat2Z.inj_add. destruct (Z.leb_spec (a + Z.of_nat (length l1)) x) as [A|A]; cbn [andb].
  - destruct (Z.ltb_spec x (a + Z.of_nat (length l1) + Z.of_nat (length l2))) as [B|B].
    + rewrite (proj2 (Z.leb_le a x)) by lia. cbn [andb]. rewrite (proj2 (Z.ltb_lt x _)) by lia. rewrite app_nth2 by lia. f_equal. lia.
    + rewrite (proj2 (Z.ltb_ge x (a + Z.of_nat (length l1)))) by lia. rewrite andb_false_r. rewrite (proj2 (Z.ltb_ge x _)) by lia. rewrite andb_false_r. reflexivity.
  - destruct (Z.leb_spec a x) as [C|C]; cbn [andb]; [|reflexivity]. rewrite (proj2 (Z.ltb_lt x (a + Z.of_nat (length l1)))) by lia. rewrite (proj2 (Z.ltb_lt x _)) by lia. rewrite app_nth1 by lia. reflexivity.
Qed.
Lemma stoL_ok e a : emT e -> (forall v m a, hasTy e v -> exists bs m', image P e v = Some bs /\ storeC P m a e v = Some m' /\ forall x, m' x = mwrite m a bs x) ->
  forall vs k m, Forall (hasTy e) vs -> exists bs m', imgL e vs = Some bs /\ stoL e a k m vs = Some m' /\ forall x, m' x = mwrite m (a + Z.of_nat k * size P e) bs x.
Proof using HP.
  intros M H vs. induction vs as [|y r IH]; intros k m F; cbn [imgL stoL].
  { exists [], m. split; [reflexivity|]. split; [reflexivity|]. intros x. unfold mwrite. cbn [length]. rewrite (proj2 (Bool.andb_false_iff _ _)); [reflexivity|]. destruct (Z.leb_spec (a + Z.of_nat k * size P e) x); [right|left]; lia. }
  inversion F as [|? ? Fy Fr]; subst. destruct (H y m (a + Z.of_nat k * size P e) Fy) as (b & m1 & E1 & E2 & E3). rewrite E1, E2. fold (imgL e) (stoL e a).
  destruct (IH (S k) m1 Fr) as (br & m2 & G1 & G2 & G3). rewrite G1. exists (b ++ br), m2. split; [reflexivity|]. split; [exact G2|]. intros x. rewrite G3.
  destruct (image_ok e M y Fy) as (b' & B1 & B2). rewrite E1 in B1. injection B1 as <-.
  rewrite (mwrite_ext _ _ _ _ E3). rewrite <- mwrite_app. replace (a + Z.of_nat (S k) * size P e) with (a + Z.of_nat k * size P e + Z.of_nat (length b)) by lia. reflexivity.
Qed.
Lemma storeC_ok t : emT t -> forall v m a, hasTy t v -> exists bs m', image P t v = Some bs /\ storeC P m a t v = Some m' /\ forall x, m' x = mwrite m a bs x.
Proof using HP.
  induction t as [w|s|t IH|n t IH|fs]; cbn [emT]; intros H v m a V; try contradiction; inversion V; subst.
  - destruct H as [-> | [-> | [-> | ->]]]; do 2 eexists; (split; [reflexivity|]); (split; [reflexivity|]); reflexivity.
  - do 2 eexists; split; [reflexivity|]; split; reflexivity.
  - destruct (stoL_ok t a H (IH H) vs 0%nat m ltac:(assumption)) as (bs & m' & E1 & E2 & E3). rewrite image_arr, storeC_arr, E1, E2. do 2 eexists. split; [reflexivity|]. split; [reflexivity|]. intros x.
    destruct (imgL_ok t (image_ok t H) vs ltac:(assumption)) as (b' & B1 & B2). rewrite E1 in B1. injection B1 as <-.
    rewrite (mwrite_ext _ _ _ _ E3). rewrite <- mwrite_app. replace (a + Z.of_nat 0 * size P t) with a by lia. replace (a + Z.of_nat (length vs) * size P t) with (a + Z.of_nat (length bs)) by lia. reflexivity.
Qed.
End P.
