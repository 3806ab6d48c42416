(** C45: the claimed alignments hold in every execution.

    An execution assigns addresses to the pointers; in one step any set of pointers is computed from the addresses
    before the step (so the phis of a block may be computed together), with any values of the integer variables that the
    range analysis and the scalar evolution analysis allow. *)
From Coq Require Import ZArith List Bool Lia PeanoNat ZifyBool Znumtheory Zpow_facts.
From Verif Require Import Word Addr AddrProof PtrAlign.
Import ListNotations.
Local Open Scope Z_scope.

(** ** specification *)
Section S.
Variable P : Z.
Variable pr : pprog.
Notation natural i := (align P (pty pr i)).
(** integer values allowed at the getelementptr [u] *)
Definition allowed (u : nat) (ie : nat -> Z) (is : list idx) : Prop :=
  forall w x, In (IV w x) is -> Z.land (sx w (ie x)) (kz pr u x) = 0 /\ (forall d, stp pr x = Some d -> d < 2 ^ w /\ exists k, sx w (ie x) = sgn w (k * d)).
(** [a] is an address instruction [i] may compute when the pointers have the addresses [env].  Casts, pointer additions
    and opaque pointers only give addresses that fit their type: anything else is undefined behaviour in the source
    language. *)
Definition computes (env : nat -> option Z) (i : nat) (a : Z) : Prop :=
  match knd pr i with
  | PFix al => (al | a) /\ 0 <= a < 18446744073709551616
  | POpq => (natural i | a) /\ 0 <= a < 18446744073709551616
  | PPhi l => exists v, In v l /\ env v = Some a
  | PSel x y => env x = Some a \/ env y = Some a
  | PGep b is => exists ba ie, env b = Some ba /\ allowed i ie is /\ interp P ie ba (TPtr (pty pr b)) is = Some a
  | PCast x => env x = Some a /\ (natural i | a)
  | PAdd x c => (exists ba, env x = Some ba /\ a = u64 (ba + c)) /\ (natural i | a)
  end.
Inductive reaches : (nat -> option Z) -> Prop :=
  | r0 : reaches (fun _ => None)
  | rS env env' : reaches env -> (forall i, env' i = env i \/ exists a, env' i = Some a /\ computes env i a) -> reaches env'.

(** programs the compiler builds: powers of two as declared alignments, at least the natural alignment; operands have
    matching types; answers of the analyses fit
    their types *)
Fixpoint noPtr (t : ty) (is : list idx) : Prop :=
  match is with
  | [] => True
  | IF k :: r => match t with TStruct fs => match nth_error fs k with Some f => noPtr f r | None => False end | _ => False end
  | _ :: r => match t with TArr _ e => noPtr e r | _ => False end
  end.
Definition okIdx (i : idx) : Prop := match i with IV w _ => w = 8 \/ w = 16 \/ w = 32 \/ w = 64 | _ => True end.
(** [padded]: exclude structs whose size is not a multiple of their alignment *)
Definition okNode (padded : bool) (i : nat) : Prop :=
  match knd pr i with
  | PFix al => (exists k, 0 <= k < 32 /\ al = 2 ^ k) /\ (natural i | al)
  | POpq => True
  | PPhi l => forall v, In v l -> pty pr v = pty pr i
  | PSel x y => pty pr x = pty pr i /\ pty pr y = pty pr i
  | PGep b is => match is with [] => False | j :: r => match j with IF _ => False | _ => True end /\ noPtr (pty pr b) r /\ gepTy (pty pr b) r = Some (pty pr i) end /\
      Forall okIdx is /\ (padded = true -> tight P (TArr 1 (pty pr b)) = true)
  | PCast _ | PAdd _ _ => True
  end.
Definition okProg (padded : bool) : Prop := (forall i, wfT (pty pr i) = true /\ okNode padded i) /\ (forall u x, 0 <= kz pr u x < 4294967296) /\
  (forall p u, In u (users pr p) -> In u (ids pr)).
End S.

(** ** low bits *)
Definition pw (x : Z) : Prop := exists k, 0 <= k < 32 /\ x = 2 ^ k.
Lemma lowb_spec x : x <> 0 -> exists k, 0 <= k /\ lowb x = 2 ^ k /\ (2 ^ k | x).
Proof.
  assert (G : forall n x, Z.abs x <= Z.of_nat n -> x <> 0 -> exists k, 0 <= k /\ lowb x = 2 ^ k /\ (2 ^ k | x)).
  { clear x. induction n as [|n IH]; intros x B N; [lia|]. destruct (Z.Even_or_Odd x) as [[y E]|[y E]]; subst x.
    - destruct (IH y ltac:(lia) ltac:(lia)) as (k & K & L & D). exists (k + 1). split; [lia|]. rewrite Z.pow_add_r by lia. change (2 ^ 1) with 2. split.
      + unfold lowb in *. replace (- (2 * y)) with (2 * - y) by lia. rewrite <- L. apply Z.bits_inj'. intros m Hm. rewrite Z.land_spec. destruct (Z.eq_dec m 0) as [-> | M].
        * rewrite !Z.testbit_even_0. rewrite (Z.mul_comm _ 2), Z.testbit_even_0. reflexivity.
        * replace m with (Z.succ (m - 1)) by lia. rewrite !Z.testbit_even_succ by lia. rewrite (Z.mul_comm _ 2), Z.testbit_even_succ by lia. rewrite Z.land_spec. reflexivity.
      + destruct D as [z ->]. exists z. lia.
    - exists 0. split; [lia|]. split; [|apply Z.divide_1_l]. unfold lowb. replace (- (2 * y + 1)) with (2 * Z.lnot y + 1) by (unfold Z.lnot; lia). change (2 ^ 0) with 1.
      apply Z.bits_inj'. intros m Hm. rewrite Z.land_spec. destruct (Z.eq_dec m 0) as [-> | M].
      * rewrite !Z.testbit_odd_0. reflexivity.
      * replace m with (Z.succ (m - 1)) by lia. rewrite !Z.testbit_odd_succ by lia. rewrite Z.lnot_spec by lia. rewrite andb_negb_r. change 1 with (2 * 0 + 1). rewrite Z.testbit_odd_succ by lia. rewrite Z.testbit_0_l. reflexivity. }
  intros N. apply (G (Z.to_nat (Z.abs x))); lia.
Qed.
Lemma c32_pow k : 0 <= k -> c32 (2 ^ k) = 0 \/ (k < 32 /\ c32 (2 ^ k) = 2 ^ k).
Proof.
  intros K. unfold c32. change 4294967296 with (2 ^ 32). destruct (Z.lt_ge_cases k 32) as [L|L].
  - right. split; [exact L|]. apply Z.mod_small. split; [apply Z.pow_nonneg; lia|apply Z.pow_lt_mono_r; lia].
  - left. replace k with ((k - 32) + 32) by lia. rewrite Z.pow_add_r by lia. apply Z.mod_mul. discriminate.
Qed.
(** the low bit as the code uses it: 0, or a power of two that divides the number *)
Lemma c32_lowb x : x <> 0 -> c32 (lowb x) = 0 \/ (pw (c32 (lowb x)) /\ (c32 (lowb x) | x)).
Proof.
  intros N. destruct (lowb_spec x N) as (k & K & E & D). rewrite E. destruct (c32_pow k K) as [-> | [L ->]]; [auto|right]. split; [exists k; auto|exact D].
Qed.
Lemma pow_div a b : 0 <= a <= b -> (2 ^ a | 2 ^ b).
Proof. intros H. exists (2 ^ (b - a)). rewrite <- Z.pow_add_r by lia. f_equal. lia. Qed.
Lemma pw_div x y : pw x -> pw y -> x <= y -> (x | y).
Proof.
  intros (k & K & ->) (j & J & ->) L. apply pow_div. split; [lia|]. apply (Z.pow_le_mono_r_iff 2) in L; lia.
Qed.
Lemma pw_pos x : pw x -> 0 < x. Proof. intros (k & K & ->). apply Z.pow_pos_nonneg; lia. Qed.
Lemma pw_wrap x y : pw x -> (x | y) -> (x | u64 y).
Proof.
  intros (k & K & ->) D. unfold u64. change 18446744073709551616 with (2 ^ 64). rewrite Z.mod_eq by (apply Z.pow_nonzero; lia). apply Z.divide_sub_r; [exact D|]. apply Z.divide_mul_l, pow_div. lia.
Qed.
Lemma pw_unwrap x y : pw x -> (x | u64 y) -> (x | y).
Proof.
  intros (k & K & ->) D. rewrite (Z.div_mod y (2 ^ 64)) by (apply Z.pow_nonzero; lia). apply Z.divide_add_r; [apply Z.divide_mul_l, pow_div; lia|exact D].
Qed.
Lemma pw_sgn64 x y : pw x -> (x | sgn 64 y) -> (x | y).
Proof. intros H D. apply pw_unwrap; [exact H|]. rewrite <- sgn64_u64. apply pw_wrap; assumption. Qed.
(** a claim of at most [m]: 0 or a power of two that divides *)
Definition cl (m y : Z) : Prop := m = 0 \/ (pw m /\ (m | y)).
Lemma min_pw m n : (m = 0 \/ pw m) -> (n = 0 \/ pw n) -> Z.min m n = 0 \/ (pw (Z.min m n) /\ (Z.min m n | m) /\ (Z.min m n | n)).
Proof.
  intros [-> | Hm] [-> | Hn]; [auto|left; pose proof (pw_pos n Hn); lia|left; pose proof (pw_pos m Hm); lia|].
  right. destruct (Z.min_spec m n) as [[L ->] | [L ->]]; (split; [assumption|]); split; try apply Z.divide_refl; apply pw_div; auto; lia.
Qed.
Lemma sx_sgn w z : w = 8 \/ w = 16 \/ w = 32 \/ w = 64 -> sx w z = sgn w z.
Proof. intros H. unfold sx. destruct (Z.eqb_spec w 1); [lia|reflexivity]. Qed.
Lemma sgn_mod w x : 0 < w -> exists q, sgn w x = x - q * 2 ^ w.
Proof.
  intros W. unfold sgn. exists ((x + 2 ^ (w - 1)) / 2 ^ w). rewrite Z.mod_eq by (apply Z.pow_nonzero; lia). lia.
Qed.
Lemma odd_cancel k s d : 0 <= k -> Z.Odd d -> (2 ^ k | s * d) -> (2 ^ k | s).
Proof.
  intros K O D. rewrite Z.mul_comm in D. apply (Gauss (2 ^ k) d s D). apply rel_prime_sym, rel_prime_Zpower_r; [exact K|]. destruct O as [m ->].
  apply bezout_rel_prime. apply (Bezout_intro _ _ _ 1 (- m)). lia.
Qed.
Lemma step_wrap k n : forall s d, 0 <= k -> 0 < d < 2 ^ Z.of_nat n -> (2 ^ k | s * d) -> (2 ^ k | s * 2 ^ Z.of_nat n).
Proof.
  induction n as [|n IH]; intros s d K B D; [cbn in B; lia|]. rewrite Nat2Z.inj_succ, Z.pow_succ_r in * by lia. destruct (Z.Even_or_Odd d) as [[y ->] | O].
  - replace (s * (2 * 2 ^ Z.of_nat n)) with ((s * 2) * 2 ^ Z.of_nat n) by lia. apply (IH (s * 2) y K); [lia|]. replace (s * 2 * y) with (s * (2 * y)) by lia. exact D.
  - apply Z.divide_mul_l. exact (odd_cancel k s d K O D).
Qed.
Lemma known_zero v z j : 0 <= j -> (2 ^ j | z + 1) -> Z.land v z = 0 -> (2 ^ j | v).
Proof.
  intros J [m M] L. apply Z.mod_divide; [apply Z.pow_nonzero; lia|]. rewrite <- Z.land_ones by exact J. apply Z.bits_inj'. intros i Hi. rewrite Z.land_spec, Z.testbit_0_l.
  destruct (Z.lt_ge_cases i j) as [A|A]; [|rewrite Z.ones_spec_high by lia; apply andb_false_r]. rewrite Z.ones_spec_low by lia. rewrite andb_true_r.
  assert (T : Z.testbit z i = true).
  { assert (E : z mod 2 ^ j = Z.ones j). { rewrite Z.ones_equiv. replace z with ((2 ^ j - 1) + (m - 1) * 2 ^ j) by lia. rewrite Z_mod_plus_full, Z.mod_small; [lia|]. assert (0 < 2 ^ j) by (apply Z.pow_pos_nonneg; lia). lia. }
    rewrite <- Z.land_ones in E by exact J. assert (Q : Z.testbit (Z.land z (Z.ones j)) i = Z.testbit (Z.ones j) i) by (rewrite E; reflexivity).
    rewrite Z.land_spec, Z.ones_spec_low, andb_true_r in Q by lia. exact Q. }
  assert (Q : Z.testbit (Z.land v z) i = false) by (rewrite L; apply Z.testbit_0_l). rewrite Z.land_spec, T, andb_true_r in Q. exact Q.
Qed.

(** ** soundness *)
Section S.
Variable P : Z.
Hypothesis HP : P = 4 \/ P = 8.
Variable pr : pprog.
Hypothesis OK : okProg P pr true.
Notation natural i := (align P (pty pr i)).

(** all addresses of all executions *)
Inductive R : nat -> Z -> Prop :=
  | RFix i al a : knd pr i = PFix al -> (al | a) -> 0 <= a < 18446744073709551616 -> R i a
  | ROpq i a : knd pr i = POpq -> (natural i | a) -> 0 <= a < 18446744073709551616 -> R i a
  | RPhi i l v a : knd pr i = PPhi l -> In v l -> R v a -> R i a
  | RSelL i x y a : knd pr i = PSel x y -> R x a -> R i a
  | RSelR i x y a : knd pr i = PSel x y -> R y a -> R i a
  | RGep i b is ba ie a : knd pr i = PGep b is -> R b ba -> allowed pr i ie is -> interp P ie ba (TPtr (pty pr b)) is = Some a -> R i a
  | RCast i x a : knd pr i = PCast x -> R x a -> (natural i | a) -> R i a
  | RAdd i x c ba a : knd pr i = PAdd x c -> R x ba -> a = u64 (ba + c) -> (natural i | a) -> R i a.
Lemma reaches_R env : reaches P pr env -> forall i a, env i = Some a -> R i a.
Proof.
  induction 1 as [|env env' _ IH H]; intros i a E; [discriminate|]. destruct (H i) as [Q | (b & Q & C)]; [apply IH; congruence|]. assert (b = a) as -> by congruence. unfold computes in C.
  destruct (knd pr i) as [al| |l|x y|b is|x|x c] eqn:K.
  - eapply RFix; try eassumption; apply C.
  - eapply ROpq; try eassumption; apply C.
  - destruct C as (v & V & C). eapply RPhi; eauto.
  - destruct C as [C | C]; [eapply RSelL|eapply RSelR]; eauto.
  - destruct C as (ba & ie & C1 & C2 & C3). eapply RGep; eauto.
  - destruct C as [C1 C2]. eapply RCast; eauto.
  - destruct C as [(ba & C1 & C2) C3]. eapply RAdd; eauto.
Qed.
Lemma R_word i a : R i a -> u64 a = a.
Proof.
  induction 1 as [i al a K D B|i a K D B|i l v a K V _ IH|i x y a K _ IH|i x y a K _ IH|i b is ba ie a K _ IH A E|i x a K _ IH D|i x c ba a K _ IH E D]; auto; try (unfold u64; apply Z.mod_small; assumption).
  - pose proof (interp_gather P ie is (TPtr (pty pr b)) ba) as G. rewrite E in G. destruct (gather P 0 (TPtr (pty pr b)) is) as [[c l]|]; [|contradiction]. apply G, IH.
  - subst. unfold u64. apply Zmod_mod.
Qed.
(** ** natural alignment *)
Lemma al_pw t : wfT t = true -> pw (align P t).
Proof. intros W. destruct (align_al P HP t W) as [-> | [-> | [-> | ->]]]; [exists 0|exists 1|exists 2|exists 3]; split; try lia; reflexivity. Qed.
Lemma path_aligned ie is : forall t a b s, wfT t = true -> tight P t = true -> noPtr t is -> (align P t | a) -> interp P ie a t is = Some b -> gepTy t is = Some s -> (align P s | b).
Proof using HP.
  induction is as [|i r IH]; intros t a b s W T N D E G; cbn [interp gepTy] in *; [congruence|]. cbn [noPtr] in N.
  destruct t as [w|f|t|n e|fs]; try (destruct i; contradiction).
  - cbn [wfT tight align] in *. apply andb_prop in T as [T1 T2]. apply Z.eqb_eq in T2. apply Z.mod_divide in T2; [|pose proof (align_pos P HP e W); lia].
    assert (K : forall v, (align P e | u64 (a + v * size P e))) by (intros v; apply pw_wrap; [apply al_pw, W|]; apply Z.divide_add_r; [exact D|]; apply Z.divide_mul_r, T2).
    destruct i as [w z|w x| |k]; try contradiction; cbn [elem] in *; (eapply (IH e); [exact W|exact T1|exact N|apply K|exact E|exact G]).
  - destruct i as [w z|w x| |k]; try contradiction. destruct (nth_error fs k) as [f|] eqn:Nf; [|contradiction]. destruct (fieldOff P fs k) as [o|] eqn:F; [|discriminate]. cbn [wfT tight] in W, T.
    assert (Tf : tight P f = true) by (rewrite forallb_forall in T; apply T; eapply nth_error_In; eauto). pose proof (wf_field fs k f W Nf) as Wf.
    eapply (IH f); [exact Wf|exact Tf|exact N| |exact E|exact G]. apply pw_wrap; [apply al_pw, Wf|].
    assert (L : locate P (TStruct fs) [k] = Some (o + 0, f)) by (cbn [locate]; rewrite Nf, F; reflexivity).
    destruct (locate_aligned P HP [k] (TStruct fs) (o + 0) f W T L) as [A B]. replace (o + 0) with o in A by lia. apply Z.divide_add_r; [|exact A]. eapply Z.divide_trans; [exact B|exact D].
Qed.
Lemma R_natural i a : R i a -> (natural i | a).
Proof using HP OK.
  destruct OK as [WF _].
  induction 1 as [i al a K D B|i a K D B|i l v a K V _ IH|i x y a K _ IH|i x y a K _ IH|i b is ba ie a K _ IH A E|i x a K _ IH D|i x c ba a K _ IH E D]; auto; destruct (WF i) as [Wi Ni]; unfold okNode in Ni; rewrite K in Ni.
  - destruct Ni as [_ Ni]. eapply Z.divide_trans; eauto.
  - rewrite <- (Ni v V). exact IH.
  - destruct Ni as [N1 _]. rewrite <- N1. exact IH.
  - destruct Ni as [_ N1]. rewrite <- N1. exact IH.
  - destruct is as [|j r]; [destruct Ni as [[] _]|]. destruct Ni as ((Nj & N1 & N2) & _ & T). specialize (T eq_refl). destruct (WF b) as [Wb _]. cbn [tight] in T. apply andb_prop in T as [T1 T2].
    apply Z.eqb_eq in T2. apply Z.mod_divide in T2; [|pose proof (align_pos P HP _ Wb); lia].
    assert (E' : interp P ie (u64 (ba + ival ie j * size P (pty pr b))) (pty pr b) r = Some a) by (destruct j; try contradiction; exact E).
    eapply (path_aligned ie r (pty pr b)); [exact Wb|exact T1|exact N1| |exact E'|exact N2]. apply pw_wrap; [apply al_pw, Wb|]. apply Z.divide_add_r; [exact IH|]. apply Z.divide_mul_r, T2.
Qed.

(** the claims of a state hold *)
Definition sound (s : ast) : Prop := forall i, pw (lookup P pr s i) /\ forall a, R i a -> (lookup P pr s i | a).
(** a new claim for [u] is justified by a state *)
Definition just (u : nat) (v : Z) : Prop := v = 0 \/ (pw v /\ forall a, R u a -> (v | a)).
Lemma push_sto s u : sto (push s u) = sto s.
Proof. unfold push. destruct (inQ s u); [reflexivity|]. destruct (Nat.ltb (cnt s u) 32); reflexivity. Qed.
Lemma fold_push_sto l : forall s, sto (fold_left push l s) = sto s.
Proof. induction l as [|u l IH]; intros s; cbn [fold_left]; [reflexivity|]. rewrite IH. apply push_sto. Qed.
(** storage may hold a 0 only where nothing was claimed yet; all claims are positive here *)
Definition solid (s : ast) : Prop := forall i v, sto s i = Some v -> pw v /\ forall a, R i a -> (v | a).
Lemma solid_sound s : solid s -> sound s.
Proof using HP OK.
  intros H i. unfold lookup. destruct (sto s i) as [v|] eqn:E; [exact (H i v E)|]. split; [apply al_pw, OK|apply R_natural].
Qed.
Lemma update_solid s u v : solid s -> just u v -> (sto s u = None -> v <> 0) -> solid (update pr s u v).
Proof.
  intros H J N. unfold update. destruct (sto s u) as [x|] eqn:E.
  - destruct (H u x E) as [Hx Hx']. destruct (Z.ltb_spec x v) as [L|L].
    + intros i y. rewrite fold_push_sto. cbn [sto]. destruct (Nat.eqb_spec i u) as [-> | D]; [|apply H]. intros Q. injection Q as <-. pose proof (pw_pos x Hx). destruct J as [-> | J]; [lia|exact J].
    + intros i y. cbn [sto]. destruct (Nat.eqb_spec i u) as [-> | D]; [|apply H]. intros Q. injection Q as <-. auto.
  - specialize (N eq_refl). destruct J as [-> | J]; [contradiction|]. pose proof (pw_pos v (proj1 J)). rewrite (proj2 (Z.ltb_lt 0 v)) by lia.
    intros i y. rewrite fold_push_sto. cbn [sto]. destruct (Nat.eqb_spec i u) as [-> | D]; [|apply H]. intros Q. injection Q as <-. exact J.
Qed.

(** ** the claims of one round *)
Definition le0 (m n : Z) : Prop := m = 0 \/ (pw m /\ pw n /\ (m | n)).
Definition ok0 (m : Z) : Prop := m = 0 \/ pw m.
Lemma le0_trans a b c : le0 a b -> le0 b c -> le0 a c.
Proof. intros [-> | (A & B & C)]; [left; reflexivity|]. intros [-> | (D & E & F)]; [pose proof (pw_pos 0 B); lia|]. right. split; [exact A|]. split; [exact E|]. eapply Z.divide_trans; eauto. Qed.
Lemma le0_refl a : ok0 a -> le0 a a.
Proof. intros [-> | A]; [left; reflexivity|right]. auto using Z.divide_refl. Qed.
Lemma le0_ok a b : le0 a b -> ok0 a. Proof. intros [-> | (A & _)]; [left|right]; auto. Qed.
Lemma min_le0 m n : ok0 m -> ok0 n -> le0 (Z.min m n) m /\ le0 (Z.min m n) n.
Proof.
  intros Hm Hn. destruct (min_pw m n Hm Hn) as [-> | (A & B & C)]; [split; left; reflexivity|].
  assert (pw m /\ pw n) as [Pm Pn]. { pose proof (pw_pos _ A). destruct Hm as [-> | Hm]; [destruct Hn as [-> | Hn]; [lia|pose proof (pw_pos n Hn); lia]|]. destruct Hn as [-> | Hn]; [pose proof (pw_pos m Hm); lia|auto]. }
  split; right; auto.
Qed.
Lemma lowb_ok x : x <> 0 -> ok0 (c32 (lowb x)).
Proof. intros N. destruct (c32_lowb x N) as [-> | [A _]]; [left|right]; auto. Qed.
Lemma lowb_div m x : x <> 0 -> le0 m (c32 (lowb x)) -> m = 0 \/ (pw m /\ (m | x)).
Proof.
  intros N [-> | (A & B & C)]; [auto|right]. split; [exact A|]. destruct (c32_lowb x N) as [E | [_ D]]; [rewrite E in B; pose proof (pw_pos 0 B); lia|]. eapply Z.divide_trans; eauto.
Qed.
Lemma scan_spec s u : sound s -> forall l m incs m' incs', ok0 m -> phiScan P pr s u l m incs = (m', incs') ->
  le0 m' m /\ incl incs incs' /\ (forall x, In x incs' -> In x incs \/ exists v, snd x = lookup P pr s v) /\
  (forall v, In v l -> v <> u -> match selfGep pr u v with Some i => In (i, lookup P pr s v) incs' | None => le0 m' (lookup P pr s v) end).
Proof.
  intros S. induction l as [|v r IH]; intros m incs m' incs' Hm E; cbn [phiScan] in E.
  { injection E as <- <-. split; [apply le0_refl, Hm|]. split; [apply incl_refl|]. split; [auto|]. intros v []. }
  destruct (Nat.eqb_spec v u) as [-> | D].
  - destruct (IH m incs m' incs' Hm E) as (A & B & C & F). split; [exact A|]. split; [exact B|]. split; [exact C|]. intros w [-> | W] Nw; [contradiction|]. apply F; assumption.
  - destruct (selfGep pr u v) as [i|] eqn:Sg.
    + destruct (IH m _ m' incs' Hm E) as (A & B & C & F). split; [exact A|]. split; [intros x Hx; apply B, in_app_iff; auto|]. split.
      * intros x Hx. destruct (C x Hx) as [Q | Q]; [|auto]. apply in_app_iff in Q as [Q | [Q | []]]; [auto|right; exists v; rewrite <- Q; reflexivity].
      * intros w [-> | W] Nw; [|apply F; assumption]. rewrite Sg. apply B, in_app_iff. right. left. reflexivity.
    + destruct (min_le0 m (lookup P pr s v) Hm (or_intror (proj1 (S v)))) as [M1 M2].
      destruct (IH _ incs m' incs' (le0_ok _ _ M1) E) as (A & B & C & F). split; [eapply le0_trans; eauto|]. split; [exact B|]. split; [exact C|].
      intros w [-> | W] Nw; [|apply F; assumption]. rewrite Sg. eapply le0_trans; eauto.
Qed.
Lemma inc_spec u : forall incs m, ok0 m -> (forall x, In x incs -> ok0 (snd x)) -> le0 (fold_left (phiInc P pr u) incs m) m /\
  forall i v, In (i, v) incs -> match i with IC w z => let k := sgn 64 (sx w z * size P (pty pr u)) in k <> 0 -> le0 (fold_left (phiInc P pr u) incs m) (c32 (lowb k)) | _ => le0 (fold_left (phiInc P pr u) incs m) v end.
Proof.
  induction incs as [|x incs IH]; intros m Hm H; cbn [fold_left]; [split; [apply le0_refl, Hm|intros i v []]|].
  assert (K : le0 (phiInc P pr u m x) m /\ match fst x with IC w z => let k := sgn 64 (sx w z * size P (pty pr u)) in k <> 0 -> le0 (phiInc P pr u m x) (c32 (lowb k)) | _ => le0 (phiInc P pr u m x) (snd x) end).
  { unfold phiInc. pose proof (min_le0 m (snd x) Hm (H x (or_introl eq_refl))) as [M1 M2]. destruct (fst x) as [w z| | |]; auto.
    set (k := sgn 64 (sx w z * size P (pty pr u))). cbv zeta. destruct (Z.eqb_spec k 0) as [E|E]; [split; [apply le0_refl, Hm|contradiction]|].
    destruct (min_le0 m (c32 (lowb k)) Hm (lowb_ok k E)) as [M3 M4]. auto. }
  destruct K as [K1 K2]. destruct (IH (phiInc P pr u m x) (le0_ok _ _ K1) (fun y Hy => H y (or_intror Hy))) as [I1 I2]. split; [eapply le0_trans; eauto|].
  intros i v [-> | Hi]; [|exact (I2 i v Hi)]. cbn [fst snd] in K2. destruct i; try (eapply le0_trans; eauto). cbv zeta in *. intros N. eapply le0_trans; [exact I1|exact (K2 N)].
Qed.
(** a path inside a type leads to a smaller type *)
Fixpoint tsz (t : ty) : nat := match t with TArr _ e => S (tsz e) | TStruct fs => S (list_sum (map tsz fs)) | _ => O end.
Lemma path_small r : forall t s, noPtr t r -> gepTy t r = Some s -> (tsz s <= tsz t)%nat /\ (r <> [] -> (tsz s < tsz t)%nat).
Proof.
  induction r as [|i r IH]; intros t s N G; cbn [noPtr gepTy] in *; [injection G as <-; split; [lia|contradiction]|].
  destruct t as [w|f|t|n e|fs]; try (destruct i; contradiction).
  - assert (H : noPtr e r /\ gepTy e r = Some s) by (destruct i; try contradiction; auto). destruct (IH e s (proj1 H) (proj2 H)) as [A _]. cbn [tsz]. split; [lia|intros _; lia].
  - destruct i as [w z|w x| |k]; try contradiction. destruct (nth_error fs k) as [f|] eqn:E; [|contradiction]. destruct (IH f s N G) as [A _]. cbn [tsz].
    assert (tsz f <= list_sum (map tsz fs))%nat. { apply nth_error_In in E. clear - E. induction fs as [|g l IH]; [destruct E|]. cbn [map]. change (list_sum (tsz g :: map tsz l)) with (tsz g + list_sum (map tsz l))%nat. destruct E as [-> | E]; [lia|]. specialize (IH E). lia. }
    split; [lia|intros _; lia].
Qed.
Lemma self_gep u l v i : knd pr u = PPhi l -> In v l -> selfGep pr u v = Some i -> knd pr v = PGep u [i] /\ match i with IF _ => False | _ => True end.
Proof using OK.
  intros K V E. unfold selfGep in E. destruct (knd pr v) as [| | | |b is| |] eqn:Kv; try discriminate. destruct is as [|j r]; [discriminate|]. destruct (Nat.eqb_spec b u) as [-> | ]; [|discriminate]. injection E as ->.
  destruct OK as [WF _]. destruct (WF v) as [_ Nv]. unfold okNode in Nv. rewrite Kv in Nv. destruct Nv as ((Nj & N1 & N2) & _). destruct (WF u) as [_ Nu]. unfold okNode in Nu. rewrite K in Nu.
  rewrite (Nu v V) in N2. destruct (path_small r _ _ N1 N2) as [_ L]. destruct r as [|j r]; [auto|]. specialize (L ltac:(discriminate)). lia.
Qed.
Lemma phi_just s u l : sound s -> knd pr u = PPhi l -> just u (let '(m, incs) := phiScan P pr s u l 16 [] in fold_left (phiInc P pr u) incs m).
Proof using HP OK.
  intros S K. destruct (phiScan P pr s u l 16 []) as [m incs] eqn:E. assert (O16 : ok0 16) by (right; exists 4; split; [lia|reflexivity]).
  destruct (scan_spec s u S l 16 [] m incs O16 E) as (A & _ & C & F).
  assert (Oi : forall x, In x incs -> ok0 (snd x)). { intros x Hx. destruct (C x Hx) as [[] | (v & ->)]. right. apply S. }
  destruct (inc_spec u incs m (le0_ok _ _ A) Oi) as [I1 I2]. set (v := fold_left (phiInc P pr u) incs m) in *.
  destruct (le0_ok _ _ I1) as [Z | Pv]; [left; exact Z|right]. split; [exact Pv|].
  assert (DV : forall y, le0 v y -> (v | y)) by (intros y [Z | (_ & _ & D)]; [pose proof (pw_pos v Pv); lia|exact D]).
  assert (G : forall i a, R i a -> (i = u -> (v | a)) /\ (forall j, knd pr i = PGep u [j] -> exists ba ie, R u ba /\ (v | ba) /\ interp P ie ba (TPtr (pty pr u)) [j] = Some a)).
  { induction 1 as [i al a Ki D B|i a Ki D B|i l' w a Ki V Rw IH|i x y a Ki _ IH|i x y a Ki _ IH|i b is ba ie a Ki Rb IH Al Ei|i x a Ki _ IH D|i x c ba a Ki _ IH Ei D]; (split; [intros ->; rewrite K in Ki; try discriminate Ki|intros j Kj; rewrite Kj in Ki; try discriminate Ki]).
    - injection Ki as <-. destruct (Nat.eq_dec w u) as [-> | Nw]; [apply IH; reflexivity|]. specialize (F w V Nw). destruct (selfGep pr u w) as [j|] eqn:Sg.
      + destruct (self_gep u l w j K V Sg) as [Kw Kj]. destruct IH as [_ IH]. destruct (IH j Kw) as (ba & ie & Rb & Db & Ei). specialize (I2 j (lookup P pr s w) F).
        destruct j as [w0 z| | |]; try contradiction; try (destruct (S w) as [Pw Sw]; eapply Z.divide_trans; [exact (DV _ I2)|exact (Sw a Rw)]).
        cbn [interp elem ival] in Ei. injection Ei as <-. apply pw_wrap; [exact Pv|]. apply Z.divide_add_r; [exact Db|]. cbv zeta in I2. apply pw_sgn64; [exact Pv|].
        destruct (Z.eq_dec (sgn 64 (sx w0 z * size P (pty pr u))) 0) as [-> | Nk]; [apply Z.divide_0_r|]. destruct (lowb_div v _ Nk (I2 Nk)) as [Zv | [_ D]]; [pose proof (pw_pos v Pv); lia|exact D].
      + destruct (S w) as [Pw Sw]. apply Z.divide_trans with (lookup P pr s w); [|apply Sw, Rw]. apply DV. eapply le0_trans; eauto.
    - injection Ki as <- <-. exists ba, ie. split; [exact Rb|]. split; [apply IH; reflexivity|exact Ei]. }
  intros a Ra. apply (G u a Ra). reflexivity.
Qed.

(** getelementptr *)
Lemma scale_ok u x w val st v : 0 <= kz pr u x < 4294967296 -> w = 8 \/ w = 16 \/ w = 32 \/ w = 64 -> Z.land val (kz pr u x) = 0 -> (forall d, stp pr x = Some d -> d < 2 ^ w /\ exists k, val = sgn w (k * d)) ->
  pw v -> (v | st * scale pr u x) -> (v | st * val).
Proof.
  clear. intros Kz Hw L D Pv H. unfold scale in H.
  assert (B : (v | st * Z.max 1 (lowb (c32 (kz pr u x + 1)))) -> (v | st * val)).
  { intros Q. destruct (Z.eq_dec (c32 (kz pr u x + 1)) 0) as [E|E].
    - rewrite E in Q. change (Z.max 1 (lowb 0)) with 1 in Q. rewrite Z.mul_1_r in Q. apply Z.divide_mul_l, Q.
    - destruct (lowb_spec _ E) as (j & J & Ej & Dj). rewrite Ej in Q. assert (1 <= 2 ^ j) by (assert (0 < 2 ^ j) by (apply Z.pow_pos_nonneg; lia); lia). rewrite Z.max_r in Q by lia.
      assert (M : c32 (kz pr u x + 1) = kz pr u x + 1). { unfold c32 in *. destruct (Z.eq_dec (kz pr u x) 4294967295) as [F|F]; [rewrite F in E; contradiction E; reflexivity|]. apply Z.mod_small. lia. }
      rewrite M in Dj. destruct (known_zero val (kz pr u x) j J Dj L) as [q ->]. replace (st * (q * 2 ^ j)) with (st * 2 ^ j * q) by lia. apply Z.divide_mul_l, Q. }
  destruct (stp pr x) as [d|] eqn:Sd; [|apply B, H]. destruct (D d eq_refl) as (Dw & k & ->).
  destruct (Z.max_spec (Z.max 1 (lowb (c32 (kz pr u x + 1)))) d) as [[Lt Em] | [Lt Em]]; rewrite Em in H; [|apply B, H].
  destruct (sgn_mod w (k * d) ltac:(lia)) as [q ->]. destruct Pv as (e & Ke & ->). replace (st * (k * d - q * 2 ^ w)) with (st * d * k - st * 2 ^ w * q) by lia.
  apply Z.divide_sub_r; [apply Z.divide_mul_l, H|]. apply Z.divide_mul_l. replace w with (Z.of_nat (Z.to_nat w)) by lia. apply step_wrap with (d := d); [lia| |exact H]. rewrite Z2Nat.id by lia. lia.
Qed.
Lemma gather_in is : forall t c c' l st i, gather P c t is = Some (c', l) -> In (st, i) l -> exists w x, i = IV w x /\ In i is.
Proof.
  clear. induction is as [|j r IH]; intros t c c' l st i G H; cbn [gather] in G; [injection G as <- <-; destruct H|].
  destruct j as [w z|w x| |k].
  - destruct (elem t); [|discriminate]. destruct (IH _ _ _ _ _ _ G H) as (w' & x' & -> & I'). exists w', x'. split; [reflexivity|right; exact I'].
  - destruct (elem t) as [e|]; [|discriminate]. destruct (gather P c e r) as [[c1 l1]|] eqn:G1; [|discriminate]. injection G as <- <-. destruct H as [Q | H].
    + injection Q as <- <-. exists w, x. split; [reflexivity|left; reflexivity].
    + destruct (IH _ _ _ _ _ _ G1 H) as (w' & x' & -> & I'). exists w', x'. split; [reflexivity|right; exact I'].
  - destruct (elem t); [|discriminate]. destruct (IH _ _ _ _ _ _ G H) as (w' & x' & -> & I'). exists w', x'. split; [reflexivity|right; exact I'].
  - destruct t; try discriminate. destruct (nth_error fs k); [|discriminate]. destruct (fieldOff P fs k); [|discriminate]. destruct (IH _ _ _ _ _ _ G H) as (w' & x' & -> & I'). exists w', x'. split; [reflexivity|right; exact I'].
Qed.
Lemma gep_fold u : forall l m, ok0 m -> le0 (fold_left (gepStep pr u) l m) m /\
  forall st w x, In (st, IV w x) l -> let k := sgn 64 (st * scale pr u x) in k <> 0 -> le0 (fold_left (gepStep pr u) l m) (c32 (lowb k)).
Proof.
  clear. induction l as [|[st i] l IH]; intros m Hm; cbn [fold_left]; [split; [apply le0_refl, Hm|intros st w x []]|].
  assert (K : le0 (gepStep pr u m (st, i)) m /\ forall w x, i = IV w x -> let k := sgn 64 (st * scale pr u x) in k <> 0 -> le0 (gepStep pr u m (st, i)) (c32 (lowb k))).
  { unfold gepStep. cbn [fst snd]. destruct i as [w z|w x| |k]; try (split; [apply le0_refl, Hm|intros ? ? Q; discriminate Q]). cbv zeta. destruct (Z.eqb_spec (sgn 64 (st * scale pr u x)) 0) as [E|E].
    - split; [apply le0_refl, Hm|]. intros w' x' Q. injection Q as <- <-. contradiction.
    - destruct (min_le0 m (c32 (lowb (sgn 64 (st * scale pr u x)))) Hm (lowb_ok _ E)) as [M3 M4]. split; [exact M3|]. intros w' x' Q. injection Q as <- <-. intros _. exact M4. }
  destruct K as [K1 K2]. destruct (IH _ (le0_ok _ _ K1)) as [I1 I2]. split; [eapply le0_trans; eauto|]. intros st' w x [Q | H].
  - injection Q as -> ->. cbv zeta. intros N. eapply le0_trans; [exact I1|]. exact (K2 w x eq_refl N).
  - exact (I2 st' w x H).
Qed.
Lemma vsum_div v ie l : (forall st i, In (st, i) l -> (v | st * ival ie i)) -> (v | vsum ie l).
Proof.
  clear. induction l as [|[st i] l IH]; intros H; cbn [vsum fold_right fst snd]; [apply Z.divide_0_r|]. apply Z.divide_add_r; [apply H; left; reflexivity|]. apply IH. intros st' i' Q. apply H. right. exact Q.
Qed.
Lemma gep_just s u b is c l : sound s -> knd pr u = PGep b is -> gather P 0 (TPtr (pty pr b)) is = Some (c, l) ->
  just u (fold_left (gepStep pr u) l (let a := lookup P pr s b in if c =? 0 then a else Z.min a (c32 (lowb c)))).
Proof using HP OK.
  intros S K G. destruct (S b) as [Pb Sb]. cbv zeta. set (m := if c =? 0 then _ else _).
  assert (M : le0 m (lookup P pr s b) /\ (c <> 0 -> le0 m (c32 (lowb c)))).
  { unfold m. destruct (Z.eqb_spec c 0) as [->|N]; [split; [apply le0_refl; right; exact Pb|contradiction]|]. destruct (min_le0 (lookup P pr s b) (c32 (lowb c)) (or_intror Pb) (lowb_ok c N)). auto. }
  destruct M as [M1 M2]. destruct (gep_fold u l m (le0_ok _ _ M1)) as [F1 F2]. set (v := fold_left (gepStep pr u) l m) in *.
  destruct (le0_ok _ _ F1) as [Z | Pv]; [left; exact Z|right]. split; [exact Pv|].
  assert (DV : forall y, le0 v y -> (v | y)) by (intros y [Z | (_ & _ & D)]; [pose proof (pw_pos v Pv); lia|exact D]).
  intros a Ra. inversion Ra; subst; try congruence.
  match goal with H : knd pr u = PGep ?b' ?is', H' : knd pr u = PGep _ _ |- _ => assert (b' = b /\ is' = is) as [-> ->] by (split; congruence) end.
  match goal with Rb : R b ?b1, Al : allowed pr u ?ie is, Ei : interp P ?ie ?b1 _ is = Some a |- _ => rename Rb into Rbase; rename Al into HAl; rename Ei into HEi; set (ba' := b1) in *; set (ie' := ie) in * end.
  pose proof (interp_gather P ie' is (TPtr (pty pr b)) ba') as IG. rewrite G, HEi in IG. destruct IG as [IG _]. apply pw_unwrap; [exact Pv|]. rewrite IG. apply pw_wrap; [exact Pv|].
  apply Z.divide_add_r; [apply Z.divide_add_r|].
  - eapply Z.divide_trans; [|exact (Sb _ Rbase)]. apply DV. eapply le0_trans; eauto.
  - destruct (Z.eq_dec c 0) as [-> | N]; [apply Z.divide_0_r|]. destruct (lowb_div v c N (le0_trans _ _ _ F1 (M2 N))) as [Zv | [_ D]]; [pose proof (pw_pos v Pv); lia|exact D].
  - apply vsum_div. intros st i Hi. destruct (gather_in is _ _ _ _ _ _ G Hi) as (w & x & -> & Hx). cbn [ival]. destruct (HAl w x Hx) as [L D].
    destruct OK as (WF & Kz & _). destruct (WF u) as [_ Nu]. unfold okNode in Nu. rewrite K in Nu. destruct Nu as (_ & Fi & _). rewrite Forall_forall in Fi. specialize (Fi _ Hx). cbn [okIdx] in Fi.
    apply (scale_ok u x w _ st v (Kz u x) Fi L D Pv). apply pw_sgn64; [exact Pv|]. destruct (Z.eq_dec (sgn 64 (st * scale pr u x)) 0) as [-> | N]; [apply Z.divide_0_r|].
    destruct (lowb_div v _ N (F2 st w x Hi N)) as [Zv | [_ Dv]]; [pose proof (pw_pos v Pv); lia|exact Dv].
Qed.

(** ** the whole analysis *)
Definition inv (s : ast) : Prop := solid s /\ (forall i, In i (ids pr) -> sto s i <> None) /\ (forall u, In u (que s) -> In u (ids pr)).
Lemma push_que s u x : In x (que (push s u)) -> In x (que s) \/ x = u.
Proof. clear. unfold push. destruct (inQ s u); [auto|]. destruct (Nat.ltb (cnt s u) 32); cbn [que]; [|auto]. rewrite in_app_iff. cbn. intuition. Qed.
Lemma fold_push_que l : forall s x, In x (que (fold_left push l s)) -> In x (que s) \/ In x l.
Proof. clear. induction l as [|u l IH]; intros s x H; cbn [fold_left] in H; [auto|]. destruct (IH _ _ H) as [Q | Q]; [|right; right; exact Q]. destruct (push_que _ _ _ Q) as [Q' | ->]; [auto|right; left; reflexivity]. Qed.
Lemma update_sto s u v i : sto s i <> None \/ i = u -> sto (update pr s u v) i <> None.
Proof.
  clear. intros H. unfold update. destruct (_ <? v).
  - rewrite fold_push_sto. cbn [sto]. destruct (Nat.eqb_spec i u) as [->|D]; [discriminate|]. destruct H; [assumption|contradiction].
  - cbn [sto]. destruct (Nat.eqb_spec i u) as [->|D]; [discriminate|]. destruct H; [assumption|contradiction].
Qed.
Lemma update_que s u v x : In x (que (update pr s u v)) -> In x (que s) \/ In x (users pr u).
Proof. clear. unfold update. destruct (_ <? v); [|auto]. intros H. apply fold_push_que in H. exact H. Qed.
Lemma update_inv s u v : inv s -> In u (ids pr) -> just u v -> inv (update pr s u v).
Proof using OK.
  intros (A & B & C) Hu J. split; [apply update_solid; auto; intros E; contradiction (B u Hu)|]. split.
  - intros i Hi. apply update_sto. left. apply B, Hi.
  - intros x Hx. apply update_que in Hx as [Q | Q]; [apply C, Q|]. destruct OK as (_ & _ & U). exact (U u x Q).
Qed.
Lemma visit_inv s u : inv s -> In u (ids pr) -> inv (visit P pr s u).
Proof using HP OK.
  intros V Hu. pose proof (solid_sound s (proj1 V)) as S. unfold visit. destruct (knd pr u) as [al| |l|x y|b is|x|x c] eqn:K; auto.
  - pose proof (phi_just s u l S K) as J. destruct (phiScan P pr s u l 16 []) as [m incs]. apply update_inv; auto.
  - apply update_inv; auto. destruct (S x) as [Px Sx], (S y) as [Py Sy]. destruct (min_pw _ _ (or_intror Px) (or_intror Py)) as [Z | (A & B & C)]; [left; exact Z|right]. split; [exact A|].
    intros a Ra. inversion Ra; subst; try congruence.
    + eapply Z.divide_trans; [exact B|]. apply Sx. match goal with H : knd pr u = PSel ?x' _, H' : R ?x' a |- _ => assert (x' = x) as <- by congruence; exact H' end.
    + eapply Z.divide_trans; [exact C|]. apply Sy. match goal with H : knd pr u = PSel _ ?x', H' : R ?x' a |- _ => assert (x' = y) as <- by congruence; exact H' end.
  - destruct (gather P 0 (TPtr (pty pr b)) is) as [[c l]|] eqn:G; [|exact V]. apply update_inv; auto. apply (gep_just s u b is c l S K G).
  - apply update_inv; auto. right. split; [apply S|]. intros a Ra. inversion Ra; subst; try congruence. match goal with H : knd pr u = PCast ?x', H' : R ?x' a |- _ => assert (x' = x) as <- by congruence; apply S, H' end.
  - assert (AD : forall v, pw v -> (v | lookup P pr s x) -> (v | c) -> forall a, R u a -> (v | a)).
    { intros v Pv D1 D2 a Ra. inversion Ra; subst; try congruence. match goal with H : knd pr u = PAdd ?x' ?c', H' : R ?x' ?b |- _ => assert (x' = x /\ c' = c) as [-> ->] by (split; congruence); rename H' into Rx end.
      apply pw_wrap; [exact Pv|]. apply Z.divide_add_r; [|exact D2]. eapply Z.divide_trans; [exact D1|]. apply S, Rx. }
    cbv zeta. destruct (Z.eq_dec c 0) as [-> | N].
    + change (c32 (lowb 0)) with 0. cbn [Z.eqb]. apply update_inv; auto. right. split; [apply S|]. apply AD; [apply S|apply Z.divide_refl|apply Z.divide_0_r].
    + destruct (Z.eqb_spec (c32 (lowb c)) 0) as [E|E].
      * (* the low bit is 2^32 or more: every claim divides it *)
        apply update_inv; auto. right. split; [apply S|]. apply AD; [apply S|apply Z.divide_refl|]. destruct (S x) as [(k & Kk & Ek) _]. rewrite Ek. destruct (lowb_spec c N) as (j & J & Lj & Dj). rewrite Lj in E.
        destruct (c32_pow j J) as [_ | [_ Q]]; [|assert (0 < 2 ^ j) by (apply Z.pow_pos_nonneg; lia); lia]. eapply Z.divide_trans; [|exact Dj]. apply pow_div. split; [lia|].
        destruct (Z.lt_ge_cases j k) as [F|F]; [|lia]. unfold c32 in E. rewrite Z.mod_small in E; [assert (0 < 2 ^ j) by (apply Z.pow_pos_nonneg; lia); lia|]. split; [apply Z.pow_nonneg; lia|]. change 4294967296 with (2 ^ 32). apply Z.pow_lt_mono_r; lia.
      * apply update_inv; auto. destruct (S x) as [Px Sx]. destruct (min_le0 (lookup P pr s x) (c32 (lowb c)) (or_intror Px) (lowb_ok c N)) as [M1 M2]. destruct (le0_ok _ _ M1) as [Z | Pv]; [left; exact Z|right]. split; [exact Pv|].
        apply AD; [exact Pv| |]. { destruct M1 as [Z | (_ & _ & D)]; [pose proof (pw_pos _ Pv); lia|exact D]. } destruct (lowb_div _ c N M2) as [Zv | [_ D]]; [pose proof (pw_pos _ Pv); lia|exact D].
Qed.

Definition one (s : ast) (i : nat) : ast := match knd pr i with PFix al => update pr s i (c32 al) | _ => update pr s i (lookup P pr s i) end.
Lemma init_inv : inv (init P pr).
Proof using HP OK.
  unfold init. change (fun s i => match knd pr i with PFix al => update pr s i (c32 al) | _ => update pr s i (lookup P pr s i) end) with one.
  assert (G : forall l s, solid s -> (forall u, In u (que s) -> In u (ids pr)) -> let s' := fold_left one l s in
     solid s' /\ (forall u, In u (que s') -> In u (ids pr)) /\ (forall i, In i l \/ sto s i <> None -> sto s' i <> None)).
  { induction l as [|i l IH]; intros s A B; cbn [fold_left]; cbv zeta.
    - split; [exact A|]. split; [exact B|]. intros i [[] | H]. exact H.
    - assert (K : exists v, one s i = update pr s i v /\ v <> 0 /\ just i v).
      { unfold one. destruct OK as (WF & _ & _). destruct (WF i) as [_ Ni]. unfold okNode in Ni. pose proof (solid_sound s A i) as [Pi Si]. pose proof (pw_pos _ Pi).
        destruct (knd pr i) as [al| |l'|x y|b is|x|x c] eqn:Ki; try (exists (lookup P pr s i); split; [reflexivity|]; split; [lia|]; right; split; [exact Pi|exact Si]).
        exists (c32 al). split; [reflexivity|]. destruct Ni as [(k & Kk & ->) _]. destruct (c32_pow k) as [Q | [_ Q]]; [lia| |].
        - unfold c32 in Q. rewrite Z.mod_small in Q; [assert (0 < 2 ^ k) by (apply Z.pow_pos_nonneg; lia); lia|]. split; [apply Z.pow_nonneg; lia|]. change 4294967296 with (2 ^ 32). apply Z.pow_lt_mono_r; lia.
        - rewrite Q. split; [assert (0 < 2 ^ k) by (apply Z.pow_pos_nonneg; lia); lia|]. right. split; [exists k; auto|]. intros a Ra. inversion Ra; subst; try congruence. }
      destruct K as (v & E & Nz & J). rewrite E. destruct (IH (update pr s i v)) as (I1 & I2 & I3).
      + apply update_solid; auto.
      + intros u Hu. apply update_que in Hu as [Q | Q]; [apply B, Q|]. destruct OK as (_ & _ & U). exact (U i u Q).
      + split; [exact I1|]. split; [exact I2|]. intros j Hj. apply I3. destruct Hj as [[-> | Hj] | Hj]; [right; apply update_sto; auto|left; exact Hj|right; apply update_sto; auto]. }
  destruct (G (ids pr) {| sto := fun _ => None; que := []; inQ := fun _ => false; cnt := fun _ => O |}) as (A & B & C).
  - intros i v H. discriminate H.
  - intros u [].
  - split; [exact A|]. split; [|exact B]. intros i Hi. apply C. auto.
Qed.
Lemma round_inv s s' : inv s -> round P pr s = Some s' -> inv s'.
Proof using HP OK.
  intros V E. unfold round in E. destruct (que s) as [|u r] eqn:Q; [discriminate|]. injection E as <-. destruct V as (A & B & C). apply visit_inv; [|apply C; rewrite Q; left; reflexivity].
  split; [exact A|]. split; [exact B|]. intros x Hx. apply C. rewrite Q. right. exact Hx.
Qed.
Lemma rounds_inv n : forall s, inv s -> inv (rounds P pr n s).
Proof using HP OK. induction n as [|n IH]; intros s V; cbn [rounds]; [exact V|]. destruct (round P pr s) as [s'|] eqn:E; [|exact V]. apply IH. eapply round_inv; eauto. Qed.

End S.

(** ** the queue runs empty *)
Section T.
Variable P : Z.
Variable pr : pprog.
Hypothesis U : forall p u, In u (users pr p) -> In u (ids pr).
Definition nds : list nat := nodup Nat.eq_dec (ids pr).
Definition pot (s : ast) : nat := (length (que s) + list_sum (map (fun i => 32 - cnt s i) nds))%nat.
Lemma sum_upd (f g : nat -> nat) u l : NoDup l -> In u l -> (forall x, x <> u -> g x = f x) -> (list_sum (map g l) + f u = list_sum (map f l) + g u)%nat.
Proof.
  clear. induction 1 as [|x l Nx Nd IH]; intros Hu H; [destruct Hu|]. cbn [map]. change (list_sum (?a :: ?b)) with (a + list_sum b)%nat. destruct Hu as [-> | Hu].
  - assert (E : map g l = map f l). { apply map_ext_in. intros y Hy. apply H. intros ->. contradiction. }
    rewrite E. change (list_sum (g u :: map f l)) with (g u + list_sum (map f l))%nat. change (list_sum (f u :: map f l)) with (f u + list_sum (map f l))%nat. lia.
  - specialize (IH Hu H). change (list_sum (g x :: map g l)) with (g x + list_sum (map g l))%nat. change (list_sum (f x :: map f l)) with (f x + list_sum (map f l))%nat. rewrite (H x); [lia|]. intros ->. contradiction.
Qed.
Lemma pot_push s u : In u (ids pr) -> (pot (push s u) <= pot s)%nat.
Proof.
  intros Hu. assert (Hn : In u nds) by (apply nodup_In, Hu). pose proof (NoDup_nodup Nat.eq_dec (ids pr)) as Nd. fold nds in Nd. unfold push. destruct (inQ s u); [lia|].
  pose proof (sum_upd (fun i => 32 - cnt s i)%nat (fun i => 32 - (if Nat.eqb i u then S (cnt s i) else cnt s i))%nat u nds Nd Hn) as H.
  assert (K : forall x, x <> u -> (32 - (if Nat.eqb x u then S (cnt s x) else cnt s x) = 32 - cnt s x)%nat) by (intros x N; rewrite (proj2 (Nat.eqb_neq x u) N); reflexivity).
  specialize (H K). cbv beta in H. rewrite Nat.eqb_refl in H. destruct (Nat.ltb_spec (cnt s u) 32) as [L|L]; unfold pot; cbn [que cnt]; [rewrite app_length; cbn [length]|]; lia.
Qed.
Lemma pot_fold l : forall s, (forall u, In u l -> In u (ids pr)) -> (pot (fold_left push l s) <= pot s)%nat.
Proof. induction l as [|u l IH]; intros s H; cbn [fold_left]; [lia|]. specialize (IH (push s u) (fun x Hx => H x (or_intror Hx))). pose proof (pot_push s u (H u (or_introl eq_refl))). lia. Qed.
Lemma pot_update s u v : (pot (update pr s u v) <= pot s)%nat.
Proof using U.
  unfold update. destruct (_ <? v); [|unfold pot; cbn [que cnt]; lia]. pose proof (pot_fold (users pr u) {| sto := fun x => if Nat.eqb x u then Some v else sto s x; que := que s; inQ := inQ s; cnt := cnt s |} (U u)) as H.
  unfold pot at 2 in H. cbn [que cnt] in H. unfold pot at 2. exact H.
Qed.
Lemma pot_visit s u : (pot (visit P pr s u) <= pot s)%nat.
Proof using U.
  unfold visit. destruct (knd pr u) as [al| |l|x y|b is|x|x c]; try apply pot_update; try lia.
  - destruct (phiScan P pr s u l 16 []) as [m incs]. apply pot_update.
  - destruct (gather P 0 (TPtr (pty pr b)) is) as [[c l]|]; [apply pot_update|lia].
  - cbv zeta. destruct (c32 (lowb c) =? 0); apply pot_update.
Qed.
Lemma pot_round s s' : round P pr s = Some s' -> (pot s' < pot s)%nat.
Proof using U.
  unfold round. destruct (que s) as [|u r] eqn:Q; [discriminate|]. intros E. injection E as <-. set (s0 := {| sto := sto s; que := r; inQ := _; cnt := cnt s |}).
  pose proof (pot_visit s0 u). assert (pot s0 < pot s)%nat; [|lia]. unfold pot, s0. cbn [que cnt]. rewrite Q. cbn [length]. lia.
Qed.
Lemma drains n : forall s, (pot s <= n)%nat -> que (rounds P pr n s) = [].
Proof using U.
  induction n as [|n IH]; intros s H; cbn [rounds].
  - unfold pot in H. destruct (que s) as [|u r]; [reflexivity|]. cbn [length] in H. lia.
  - destruct (round P pr s) as [s'|] eqn:E; [|unfold round in E; destruct (que s); [reflexivity|discriminate]]. apply IH. pose proof (pot_round s s' E). lia.
Qed.
Lemma pot_init : (pot (init P pr) <= 32 * length (ids pr))%nat.
Proof using U.
  unfold init. change (fun s i => match knd pr i with PFix al => update pr s i (c32 al) | _ => update pr s i (lookup P pr s i) end) with (one P pr).
  assert (G : forall l s, (pot (fold_left (one P pr) l s) <= pot s)%nat). { induction l as [|i l IH]; intros s; cbn [fold_left]; [lia|]. specialize (IH (one P pr s i)). assert (pot (one P pr s i) <= pot s)%nat by (unfold one; destruct (knd pr i); apply pot_update). lia. }
  specialize (G (ids pr) {| sto := fun _ => None; que := []; inQ := fun _ => false; cnt := fun _ => O |}). unfold pot at 2 in G. cbn [que cnt length] in G.
  assert (L : forall l : list nat, list_sum (map (fun _ => 32 - 0)%nat l) = (32 * length l)%nat). { clear. induction l as [|x l IH]; [reflexivity|]. cbn [map length]. change (list_sum (32 - 0 :: map (fun _ => 32 - 0)%nat l))%nat with (32 + list_sum (map (fun _ => 32 - 0)%nat l))%nat. rewrite IH. lia. }
  rewrite L in G. assert (length nds <= length (ids pr))%nat by (apply NoDup_incl_length; [apply NoDup_nodup|intros x Hx; apply nodup_In in Hx; exact Hx]). lia.
Qed.
End T.

(** ** theorems *)
(** In every execution every pointer is a multiple of its claimed alignment, after any number of rounds of the analysis;
    the claims are powers of two.  Excluded: arrays of structs whose size is not a multiple of their alignment. *)
Theorem C45_alignment_sound_partial : forall P pr n env i a, (P = 4 \/ P = 8) -> okProg P pr true -> reaches P pr env -> env i = Some a -> (claim P pr n i | a).
Proof.
  intros P pr n env i a HP OK Re E. destruct (solid_sound P HP pr OK _ (proj1 (rounds_inv P HP pr OK n _ (init_inv P HP pr OK))) i) as [_ H]. apply H. exact (reaches_R P pr env Re i a E).
Qed.
Theorem C45_claims_powers : forall P pr n i, (P = 4 \/ P = 8) -> okProg P pr true -> exists k, 0 <= k < 32 /\ claim P pr n i = 2 ^ k.
Proof.
  intros P pr n i HP OK. destruct (solid_sound P HP pr OK _ (proj1 (rounds_inv P HP pr OK n _ (init_inv P HP pr OK))) i) as [H _]. exact H.
Qed.
(** The analysis ends: after at most 32 rounds for each pointer no work is left. *)
Theorem C45_analysis_terminates : forall P pr padded, okProg P pr padded -> que (rounds P pr (32 * length (ids pr)) (init P pr)) = [].
Proof.
  intros P pr padded OK.
  assert (U : forall p u, In u (users pr p) -> In u (ids pr)) by apply OK. apply drains; [exact U|]. apply pot_init; exact U.
Qed.

(** ** the hypotheses are met, and the exclusion is needed *)
Lemma reaches_upd P pr env i a : reaches P pr env -> computes P pr env i a -> reaches P pr (fun x => if Nat.eqb x i then Some a else env x).
Proof. intros H C. apply (rS P pr env _ H). intros x. destruct (Nat.eqb_spec x i) as [-> | ]; [right; exists a; auto|auto]. Qed.
(** for (p = g; ..; p += 4) use(p[x]), with x known to be a multiple of 4 *)
Definition exPr : pprog :=
  {| knd := fun i => match i with 0 => PFix 16 | 1 => PGep 0 [IC 64 0; IC 64 0] | 2 => PPhi [1; 3] | 3 => PGep 2 [IC 64 4] | 4 => PGep 2 [IV 64 0] | _ => POpq end%nat;
     pty := fun i => match i with O => TArr 100 (TInt 32) | _ => TInt 32 end;
     users := fun i => match i with 0 => [1] | 1 => [2] | 2 => [3; 4] | 3 => [2] | _ => [] end%nat;
     ids := [0; 1; 2; 3; 4]%nat; kz := fun _ _ => 3; stp := fun _ => None |}.
Example exPr_ok : okProg 8 exPr true.
Proof.
  split; [|split].
  - intros i. split; [destruct i; reflexivity|]. destruct i as [|[|[|[|[|i]]]]]; cbn.
    + split; [exists 4; split; [lia|reflexivity]|exists 4; reflexivity].
    + split; [auto|]. split; [repeat constructor|reflexivity].
    + intros v [<- | [<- | []]]; reflexivity.
    + split; [auto|]. split; [repeat constructor|reflexivity].
    + split; [auto|]. split; [|reflexivity]. constructor; [|constructor]. cbn. auto.
    + exact I.
  - intros u x. cbn. lia.
  - intros p u H. destruct p as [|[|[|[|p]]]]; cbn in H; intuition (subst; cbn; auto 10).
Qed.
Example exPr_claims : claim 8 exPr 160 2 = 16 /\ claim 8 exPr 160 3 = 16 /\ claim 8 exPr 160 4 = 16.
Proof. vm_compute. auto. Qed.
Example exPr_run : exists env, reaches 8 exPr env /\ env 2%nat = Some 80 /\ env 4%nat = Some 112.
Proof.
  eexists. split.
  - eapply (reaches_upd 8 exPr _ 4 112); [eapply (reaches_upd 8 exPr _ 2 80); [eapply (reaches_upd 8 exPr _ 3 80); [eapply (reaches_upd 8 exPr _ 2 64); [eapply (reaches_upd 8 exPr _ 1 64); [eapply (reaches_upd 8 exPr _ 0 64); [apply r0|]|]|]|]|]|].
    + cbn. split; [exists 4; reflexivity|lia].
    + exists 64, (fun _ => 0). split; [reflexivity|]. split; [|reflexivity]. intros w x [H | [H | []]]; discriminate.
    + exists 1%nat. cbn. auto.
    + exists 64, (fun _ => 0). split; [reflexivity|]. split; [|reflexivity]. intros w x [H | []]; discriminate.
    + exists 3%nat. cbn. auto.
    + exists 80, (fun _ => 8). split; [reflexivity|]. split; [|reflexivity]. intros w x [H | []]. injection H as <- <-. split; [reflexivity|]. intros d H. discriminate.
  - split; reflexivity.
Qed.
(** The second element of an array of {i32, i8}: the claim is 4, the address is odd. *)
Definition badPr : pprog :=
  {| knd := fun i => match i with 0 => PFix 4 | 1 => PGep 0 [IC 64 0; IC 64 1; IF 0] | _ => POpq end%nat;
     pty := fun i => match i with O => TArr 3 (TStruct [TInt 32; TInt 8]) | _ => TInt 32 end;
     users := fun i => match i with 0 => [1] | _ => [] end%nat; ids := [0; 1]%nat; kz := fun _ _ => 0; stp := fun _ => None |}.
Theorem C45_alignment_sound_refuted : exists pr env i a, okProg 8 pr false /\ reaches 8 pr env /\ env i = Some a /\ ~ (claim 8 pr (32 * length (ids pr)) i | a).
Proof.
  exists badPr. eexists. exists 1%nat, 69. split; [|split; [|split]].
  - split; [|split].
    + intros i. split; [destruct i; reflexivity|]. destruct i as [|[|i]]; cbn.
      * split; [exists 2; split; [lia|reflexivity]|exists 1; reflexivity].
      * split; [auto|]. split; [repeat constructor|discriminate].
      * exact I.
    + intros u x. cbn. lia.
    + intros p u H. destruct p as [|p]; cbn in H; intuition (subst; cbn; auto 10).
  - eapply (reaches_upd 8 badPr _ 1 69); [eapply (reaches_upd 8 badPr _ 0 64); [apply r0|]|].
    + cbn. split; [exists 16; reflexivity|lia].
    + exists 64, (fun _ => 0). split; [reflexivity|]. split; [|reflexivity]. intros w x [H | [H | [H | []]]]; discriminate.
  - reflexivity.
  - assert (E : claim 8 badPr (32 * length (ids badPr)) 1 = 4) by (vm_compute; reflexivity). rewrite E. intros [k K]. lia.
Qed.
