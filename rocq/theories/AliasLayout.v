(** Paths into objects, the bytes they stand for, and types included in types (proofs, C47). *)
From Coq Require Import ZArith Lia Bool List Arith.
From Verif Require Import Addr AddrProof Sim Ssa Alias.
Import ListNotations.

Lemma ty_eqb_eq a : forall b, ty_eqb a b = true <-> a = b.
Proof.
  induction a as [w|s|t IH|n t IH|fs IH] using ty_ind2; intros [v|r|u|k u|gs]; cbn [ty_eqb]; try (split; discriminate).
  - rewrite Z.eqb_eq. split; congruence.
  - rewrite Bool.eqb_true_iff. split; congruence.
  - rewrite IH. split; congruence.
  - rewrite andb_true_iff, Nat.eqb_eq, IH. split; [intros [-> ->]; reflexivity|intros E; injection E; auto].
  - transitivity (fs = gs); [|split; congruence]. revert gs. induction IH as [|f fs Hf _ IHf]; intros [|g gs]; try (split; (discriminate || reflexivity)).
    rewrite andb_true_iff, Hf, IHf. split; [intros [-> ->]; reflexivity|intros E; injection E; auto].
Qed.
Lemma ty_eqb_refl a : ty_eqb a a = true.
Proof. now apply ty_eqb_eq. Qed.
Lemma includes_refl a : includes a a = true.
Proof. destruct a; cbn [includes]; now rewrite ty_eqb_refl. Qed.
(** the recursion as the code has it (159-162) *)
Lemma includes_code n e b : includes (TArr n e) b = ty_eqb (TArr n e) b || (if isArr b then includes e b else includes (scalarOf e) b).
Proof.
  cbn [includes]. f_equal. destruct (isArr b) eqn:Eb; auto. induction e as [w|s|t IH|k e IH|fs _] using ty_ind2; auto.
  cbn [scalarOf includes]. rewrite IH. destruct b; try discriminate; reflexivity.
Qed.

Section L.
Variable P : Z.
Hypothesis HP : P = 4%Z \/ P = 8%Z.
Notation size := (size P). Notation locate := (locate P).

Lemma prefix_refl p : prefix p p.
Proof. exists []. now rewrite app_nil_r. Qed.
Lemma prefix_trans p q r : prefix p q -> prefix q r -> prefix p r.
Proof. intros [a ->] [b ->]. exists (a ++ b). now rewrite app_assoc. Qed.
Lemma prefix_app p q : prefix p (p ++ q).
Proof. now exists q. Qed.
Lemma prefix_cons i p q : prefix p q -> prefix (i :: p) (i :: q).
Proof. intros [r ->]. now exists r. Qed.
Lemma prefix_both p q r : prefix p r -> prefix q r -> prefix p q \/ prefix q p.
Proof.
  revert q r. induction p as [|i p IH]; intros q r [a ->] [b E]; [left; now exists q|].
  destruct q as [|j q]; [right; now exists (i :: p)|]. cbn in E. injection E as -> E.
  destruct (IH q (p ++ a) (prefix_app _ _) (ex_intro _ b E)) as [K|K]; [left|right]; now apply prefix_cons.
Qed.
Lemma prefix_nth p q k v : prefix p q -> nth_error p k = Some v -> nth_error q k = Some v.
Proof. intros [r ->] H. rewrite nth_error_app1; auto. apply nth_error_Some. congruence. Qed.
Lemma prefix_dec p q : {prefix p q} + {~ prefix p q}.
Proof.
  revert q. induction p as [|i p IH]; intros q; [left; now exists q|]. destruct q as [|j q]; [right; intros [r E]; discriminate|].
  destruct (Nat.eq_dec i j) as [->|N]; [|right; intros [r E]; injection E; congruence].
  destruct (IH q) as [K|K]; [left; now apply prefix_cons|right; intros [r E]; injection E as E; apply K; now exists r].
Qed.

Lemma locate_app p : forall t q, locate t (p ++ q) =
  match locate t p with Some (o, s) => match locate s q with Some (o', s') => Some ((o + o')%Z, s') | None => None end | None => None end.
Proof.
  induction p as [|i p IH]; intros t q.
  - cbn [app AddrProof.locate]. destruct (locate t q) as [[o s]|]; auto.
  - cbn [app AddrProof.locate]. destruct t as [w|b|t|n e|fs]; auto.
    + destruct (Nat.ltb i n); auto. rewrite IH. destruct (locate e p) as [[o s]|]; auto. destruct (locate s q) as [[o' s']|]; auto. do 2 f_equal. lia.
    + destruct (nth_error fs i) as [f|]; auto. destruct (fieldOff P fs i) as [x|]; auto. rewrite IH. destruct (locate f p) as [[o s]|]; auto.
      destruct (locate s q) as [[o' s']|]; auto. do 2 f_equal. lia.
Qed.
Lemma locate_apart p : forall t q o s o' s', wfT t = true -> locate t p = Some (o, s) -> locate t q = Some (o', s') ->
  ~ prefix p q -> ~ prefix q p -> (o + size s <= o' \/ o' + size s' <= o)%Z.
Proof using HP.
  induction p as [|i r IH]; intros t q o s o' s' W L1 L2 N1 N2; [exfalso; apply N1; now exists q|].
  destruct q as [|j q]; [exfalso; apply N2; now exists (i :: r)|].
  cbn [AddrProof.locate] in L1, L2. destruct t as [w|b|t|n e|fs]; try discriminate.
  - destruct (Nat.ltb_spec i n) as [Li|]; [|discriminate]. destruct (Nat.ltb_spec j n) as [Lj|]; [|discriminate].
    destruct (locate e r) as [[a s1]|] eqn:E1; [|discriminate]. destruct (locate e q) as [[b s2]|] eqn:E2; [|discriminate]. injection L1 as <- <-. injection L2 as <- <-.
    cbn [wfT] in W. destruct (locate_range P HP r e a s1 W E1) as (A1 & B1 & _). destruct (locate_range P HP q e b s2 W E2) as (A2 & B2 & _). pose proof (size_nonneg P HP e W).
    destruct (Nat.lt_trichotomy i j) as [Lt | [-> | Lt]].
    + left. assert (Z.of_nat i * size e + size e <= Z.of_nat j * size e)%Z by nia. lia.
    + destruct (IH e q a s1 b s2 W E1 E2); [|intros K; apply N2; now apply prefix_cons|left; lia|right; lia]. intros K. apply N1. now apply prefix_cons.
    + right. assert (Z.of_nat j * size e + size e <= Z.of_nat i * size e)%Z by nia. lia.
  - destruct (nth_error fs i) as [f|] eqn:M1; [|discriminate]. destruct (fieldOff P fs i) as [x|] eqn:F1; [|discriminate]. destruct (locate f r) as [[a s1]|] eqn:E1; [|discriminate].
    destruct (nth_error fs j) as [g|] eqn:M2; [|discriminate]. destruct (fieldOff P fs j) as [y|] eqn:F2; [|discriminate]. destruct (locate g q) as [[b s2]|] eqn:E2; [|discriminate].
    injection L1 as <- <-. injection L2 as <- <-. cbn [wfT] in W.
    destruct (locate_range P HP r f a s1 (wf_field _ _ _ W M1) E1) as (A1 & B1 & _). destruct (locate_range P HP q g b s2 (wf_field _ _ _ W M2) E2) as (A2 & B2 & _).
    destruct (Nat.lt_trichotomy i j) as [Lt | [-> | Lt]].
    + left. pose proof (field_disj P HP fs 0%Z i j f g x y W Lt M1 M2 F1 F2). lia.
    + assert (g = f) as -> by congruence. assert (y = x) as -> by congruence.
      destruct (IH f q a s1 b s2 (wf_field _ _ _ W M1) E1 E2); [|intros K; apply N2; now apply prefix_cons|left; lia|right; lia]. intros K. apply N1. now apply prefix_cons.
    + right. pose proof (field_disj P HP fs 0%Z j i g f y x W Lt M2 M1 F2 F1). lia.
Qed.

(** the type of an element is included in the type of what contains it *)
Lemma includes_complete p : forall t o s, locate t p = Some (o, s) -> includes t s = true.
Proof.
  induction p as [|i p IH]; intros t o s L; cbn [AddrProof.locate] in L.
  - injection L as _ <-. apply includes_refl.
  - destruct t as [w|b|t|n e|fs]; try discriminate.
    + destruct (Nat.ltb i n); [|discriminate]. destruct (locate e p) as [[a s1]|] eqn:E1; [|discriminate]. injection L as _ <-.
      cbn [includes]. rewrite (IH e _ _ E1). apply orb_true_r.
    + destruct (nth_error fs i) as [f|] eqn:M1; [|discriminate]. destruct (fieldOff P fs i) as [x|]; [|discriminate]. destruct (locate f p) as [[a s1]|] eqn:E1; [|discriminate].
      injection L as _ <-. cbn [includes]. apply orb_true_iff. right. pose proof (IH f _ _ E1) as K. clear IH E1. revert fs M1. induction i as [|i IHi]; intros [|g gs] M1; try discriminate; cbn in M1.
      * injection M1 as ->. now rewrite K.
      * rewrite (IHi gs M1). apply orb_true_r.
Qed.
Fixpoint tsize (t : ty) : nat :=
  match t with
  | TArr _ e => S (tsize e)
  | TStruct fs => S ((fix go l := match l with [] => 0 | f :: r => tsize f + go r end) fs)
  | TPtr t => S (tsize t)
  | _ => 1
  end.
Lemma tsize_pos t : 1 <= tsize t.
Proof. destruct t; cbn; lia. Qed.
Lemma locate_small p : forall t o s, locate t p = Some (o, s) -> tsize s + length p <= tsize t.
Proof.
  induction p as [|i p IH]; intros t o s L; cbn [AddrProof.locate] in L.
  - injection L as _ <-. cbn. lia.
  - destruct t as [w|b|t|n e|fs]; try discriminate.
    + destruct (Nat.ltb i n); [|discriminate]. destruct (locate e p) as [[a s1]|] eqn:E1; [|discriminate]. injection L as _ <-.
      apply IH in E1. cbn. lia.
    + destruct (nth_error fs i) as [f|] eqn:M1; [|discriminate]. destruct (fieldOff P fs i) as [x|]; [|discriminate]. destruct (locate f p) as [[a s1]|] eqn:E1; [|discriminate].
      injection L as _ <-. apply IH in E1. assert (K : tsize f < tsize (TStruct fs)); [|cbn [length]; lia]. clear -M1.
      cbn [tsize]. revert fs M1. induction i as [|i IHi]; intros [|g gs] M1; try discriminate; cbn in M1; [injection M1 as ->; lia|]. specialize (IHi gs M1). pose proof (tsize_pos g). lia.
Qed.

Variable objs : nat -> option (Z * ty).
Hypothesis OK : objsOk P objs.
Notation refers := (refers P objs).
Lemma refers_apart t a o p u b o' q : refers t a o p -> refers u b o' q -> (o <> o' \/ (~ prefix p q /\ ~ prefix q p)) ->
  (a + size t <= b \/ b + size u <= a)%Z.
Proof using HP OK.
  intros (b1 & T1 & f1 & O1 & L1 & ->) (b2 & T2 & f2 & O2 & L2 & ->) H. destruct OK as [Wf Dj].
  pose proof (locate_range P HP _ _ _ _ (Wf _ _ _ O1) L1) as (A1 & A2 & _). pose proof (locate_range P HP _ _ _ _ (Wf _ _ _ O2) L2) as (B1 & B2 & _).
  destruct (Nat.eq_dec o o') as [->|N].
  - rewrite O1 in O2. injection O2 as <- <-. destruct H as [H|[H1 H2]]; [congruence|].
    destruct (locate_apart p T1 q f1 t f2 u (Wf _ _ _ O1) L1 L2 H1 H2); lia.
  - destruct (Dj _ _ _ _ _ _ O1 O2 N); lia.
Qed.
Lemma refers_unique t a o p o' q : (0 < size t)%Z -> refers t a o p -> refers t a o' q -> o = o' /\ p = q.
Proof using HP OK.
  intros S R1 R2.
  destruct (Nat.eq_dec o o') as [->|N]; [|destruct (refers_apart _ _ _ _ _ _ _ _ R1 R2 (or_introl N)); lia]. split; auto.
  assert (K : prefix p q \/ prefix q p).
  { destruct (prefix_dec p q) as [K|K1]; auto. destruct (prefix_dec q p) as [K|K2]; auto. destruct (refers_apart _ _ _ _ _ _ _ _ R1 R2 (or_intror (conj K1 K2))); lia. }
  assert (Z : forall p q, refers t a o' p -> refers t a o' q -> prefix p q -> p = q).
  { clear. intros p q (b1 & T1 & f1 & O1 & L1 & E1) (b2 & T2 & f2 & O2 & L2 & E2) [r ->]. rewrite O1 in O2. injection O2 as <- <-.
    rewrite locate_app, L1 in L2. destruct (locate t r) as [[x s]|] eqn:E; [|discriminate]. injection L2 as _ ->. apply locate_small in E.
    destruct r; [now rewrite app_nil_r|cbn in E; lia]. }
  destruct K as [K|K]; [|symmetry]; eauto.
Qed.
End L.
