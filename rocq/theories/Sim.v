(** Deterministic transition systems and what it means for one to refine another.  Specification, used for every
    function-level transformation: nothing in this file models code of /repo. *)
From Coq Require Import Lia Bool List Arith.
Import ListNotations.

(** a step either goes on, finishes with a result, or goes wrong (undefined behaviour); it emits events *)
Inductive sres (S E F : Type) := Go (s : S) (t : list E) | Fin (r : F) (t : list E) | Bad (t : list E).
Arguments Go {S E F} s t.
Arguments Fin {S E F} r t.
Arguments Bad {S E F} t.

Definition pre {S E F} (t : list E) (r : sres S E F) : sres S E F :=
  match r with Go s t' => Go s (t ++ t') | Fin x t' => Fin x (t ++ t') | Bad t' => Bad (t ++ t') end.
Definition traceOf {S E F} (r : sres S E F) : list E :=
  match r with Go _ t => t | Fin _ t => t | Bad t => t end.

(** [n] steps; the trace is that of the whole run *)
Fixpoint run {S E F} (step : S -> sres S E F) (n : nat) (s : S) : sres S E F :=
  match n with
  | O => Go s []
  | Datatypes.S n' => match step s with Go s' t => pre t (run step n' s') | r => r end
  end.

(** the run finishes with result [r] and trace [t] *)
Definition finishes {S E F} (step : S -> sres S E F) (s : S) (r : F) (t : list E) : Prop :=
  exists n, run step n s = Fin r t.
(** at some moment the run has emitted at least [t] *)
Definition emits {S E F} (step : S -> sres S E F) (s : S) (t : list E) : Prop :=
  exists n u, traceOf (run step n s) = t ++ u.
Definition safe {S E F} (step : S -> sres S E F) (s : S) : Prop :=
  forall n t, run step n s <> Bad t.
(** the run goes on for ever *)
Definition diverges {S E F} (step : S -> sres S E F) (s : S) : Prop :=
  forall n, exists s' t, run step n s = Go s' t.

(** [g] started at [s'] shows exactly what [f] started at [s] shows, if the latter has no undefined behaviour *)
Definition refinesAt {S S' E F} (f : S -> sres S E F) (g : S' -> sres S' E F) (s : S) (s' : S') : Prop :=
  safe f s ->
  safe g s' /\ (forall r t, finishes f s r t <-> finishes g s' r t) /\ (forall t, emits f s t <-> emits g s' t) /\
  (diverges f s <-> diverges g s').

Lemma pre_nil {S E F} (r : sres S E F) : pre [] r = r.
Proof. destruct r; reflexivity. Qed.
Lemma pre_app {S E F} a b (r : sres S E F) : pre a (pre b r) = pre (a ++ b) r.
Proof. destruct r; cbn; now rewrite app_assoc. Qed.

Lemma run_add {S E F} (step : S -> sres S E F) n m s :
  run step (n + m) s = match run step n s with Go s' t => pre t (run step m s') | r => r end.
Proof.
  revert s; induction n as [|n IH]; intros s; cbn.
  - now rewrite pre_nil.
  - destruct (step s) as [s' t|r t|t]; auto.
    rewrite IH. destruct (run step n s') as [s2 t2|r t2|t2]; cbn; auto. now rewrite pre_app.
Qed.

Lemma safe_go {S E F} (step : S -> sres S E F) n s s' t : safe step s -> run step n s = Go s' t -> safe step s'.
Proof.
  intros H E1 m u E2. apply (H (n + m) (t ++ u)). rewrite run_add, E1, E2. reflexivity.
Qed.

Lemma run_mono {S E F} (step : S -> sres S E F) n m s : (n <= m)%nat ->
  (exists u, traceOf (run step m s) = traceOf (run step n s) ++ u) /\
  (forall r t, run step n s = Fin r t -> run step m s = Fin r t) /\
  (forall t, run step n s = Bad t -> run step m s = Bad t).
Proof.
  intros L. replace m with (n + (m - n))%nat by lia. rewrite run_add.
  destruct (run step n s) as [s' t|r t|t] eqn:E1; repeat split; try congruence.
  - destruct (run step (m - n) s') as [s2 t2|r t2|t2]; cbn; eauto.
  - exists []. now rewrite app_nil_r.
  - exists []. now rewrite app_nil_r.
Qed.

(** ** simulation: after some positive number of steps on either side the runs agree again *)
Section Sim.
Context {S S' E F : Type} (f : S -> sres S E F) (g : S' -> sres S' E F) (R : S -> S' -> Prop).
Definition meets (s : S) (s' : S') : Prop :=
  exists n m, (1 <= n)%nat /\ (1 <= m)%nat /\
    match run f n s, run g m s' with
    | Go s1 t1, Go s2 t2 => t1 = t2 /\ R s1 s2
    | Fin r1 t1, Fin r2 t2 => r1 = r2 /\ t1 = t2
    | _, _ => False
    end.
Hypothesis Hm : forall s s', R s s' -> meets s s'.

Lemma sim_fin n : forall s s' r t, R s s' -> run f n s = Fin r t -> finishes g s' r t.
Proof using Hm.
  induction n as [n IH] using lt_wf_ind; intros s s' r t HR Hf.
  destruct (Hm s s' HR) as (a & b & La & Lb & H).
  destruct (run f a s) as [s1 t1|r1 t1|t1] eqn:Ea, (run g b s') as [s2 t2|r2 t2|t2] eqn:Eb; try tauto.
  - destruct H as [<- HR1].
    destruct (Nat.le_gt_cases n a) as [Lna|Lna].
    { destruct (run_mono f n a s Lna) as (_ & M & _). rewrite (M _ _ Hf) in Ea. discriminate. }
    replace n with (a + (n - a))%nat in Hf by lia. rewrite run_add, Ea in Hf.
    destruct (run f (n - a) s1) as [s3 t3|r3 t3|t3] eqn:E3; cbn in Hf; try discriminate.
    injection Hf as <- <-.
    destruct (IH (n - a) ltac:(lia) s1 s2 r3 t3 HR1 E3) as [k Hk].
    exists (b + k)%nat. rewrite run_add, Eb, Hk. reflexivity.
  - destruct H as [<- <-]. exists b. rewrite Eb.
    destruct (Nat.le_gt_cases n a) as [Lna|Lna].
    + destruct (run_mono f n a s Lna) as (_ & M & _). rewrite (M _ _ Hf) in Ea. congruence.
    + destruct (run_mono f a n s ltac:(lia)) as (_ & M & _). rewrite (M _ _ Ea) in Hf. congruence.
Qed.

Lemma sim_noBad n : forall s s' t, R s s' -> run g n s' <> Bad t.
Proof using Hm.
  induction n as [n IH] using lt_wf_ind; intros s s' t HR Hb.
  destruct (Hm s s' HR) as (a & b & La & Lb & H).
  destruct (run f a s) as [s1 t1|r1 t1|t1] eqn:Ea, (run g b s') as [s2 t2|r2 t2|t2] eqn:Eb; try tauto.
  - destruct H as [<- HR1].
    destruct (Nat.le_gt_cases n b) as [L|L].
    { destruct (run_mono g n b s' L) as (_ & _ & M). rewrite (M _ Hb) in Eb. discriminate. }
    replace n with (b + (n - b))%nat in Hb by lia. rewrite run_add, Eb in Hb.
    destruct (run g (n - b) s2) as [s3 t3|r3 t3|t3] eqn:E3; cbn in Hb; try discriminate.
    exact (IH (n - b) ltac:(lia) s1 s2 t3 HR1 E3).
  - destruct (Nat.le_gt_cases n b) as [L|L].
    + destruct (run_mono g n b s' L) as (_ & _ & M). rewrite (M _ Hb) in Eb. discriminate.
    + destruct (run_mono g b n s' ltac:(lia)) as (_ & M & _). rewrite (M _ _ Eb) in Hb. discriminate.
Qed.

Lemma sim_emit n : forall s s', R s s' -> exists k u, traceOf (run g k s') = traceOf (run f n s) ++ u.
Proof using Hm.
  induction n as [n IH] using lt_wf_ind; intros s s' HR.
  destruct (Hm s s' HR) as (a & b & La & Lb & H).
  destruct (run f a s) as [s1 t1|r1 t1|t1] eqn:Ea, (run g b s') as [s2 t2|r2 t2|t2] eqn:Eb; try tauto.
  - destruct H as [<- HR1].
    destruct (Nat.le_gt_cases n a) as [L|L].
    + destruct (run_mono f n a s L) as ((u & Hu) & _). rewrite Ea in Hu. cbn in Hu.
      exists b, u. rewrite Eb. exact Hu.
    + destruct (IH (n - a) ltac:(lia) s1 s2 HR1) as (k & u & Hk).
      exists (b + k)%nat, u. replace n with (a + (n - a))%nat by lia. rewrite !run_add, Ea, Eb.
      destruct (run f (n - a) s1), (run g k s2); cbn in *; rewrite Hk, app_assoc; reflexivity.
  - destruct H as [<- <-]. exists b. rewrite Eb.
    destruct (Nat.le_gt_cases n a) as [L|L].
    + destruct (run_mono f n a s L) as ((u & Hu) & _). rewrite Ea in Hu. cbn in Hu. eauto.
    + destruct (run_mono f a n s ltac:(lia)) as (_ & M & _). rewrite (M _ _ Ea). cbn. exists []. now rewrite app_nil_r.
Qed.
End Sim.

Lemma diverges_iff {S E F} (f : S -> sres S E F) s : safe f s -> (diverges f s <-> ~ exists r t, finishes f s r t).
Proof.
  intros Hs; split.
  - intros H (r & t & n & Hn). destruct (H n) as (s' & u & E1). congruence.
  - intros H n. destruct (run f n s) as [s' t|r t|t] eqn:E1; eauto.
    + exfalso. apply H. exists r, t, n. exact E1.
    + exfalso. exact (Hs n t E1).
Qed.

(** the invariant [R] may use that the source is safe *)
Theorem sim_refines {S S' E F} (f : S -> sres S E F) (g : S' -> sres S' E F) (R : S -> S' -> Prop) :
  (forall s s', safe f s -> R s s' -> meets f g R s s') ->
  forall s s', R s s' -> refinesAt f g s s'.
Proof.
  intros H s s' HR Hs.
  set (P := fun a b => safe f a /\ R a b).
  assert (HP : forall a b, P a b -> meets f g P a b).
  { intros a b [Ha Hb]. destruct (H a b Ha Hb) as (n & m & Ln & Lm & K). exists n, m. repeat split; auto.
    destruct (run f n a) eqn:E1, (run g m b) eqn:E2; auto. destruct K as [K1 K2].
    repeat split; auto. eapply safe_go; eauto. }
  set (Q := fun b a => P a b).
  assert (HQ : forall b a, Q b a -> meets g f Q b a).
  { intros b a Hab. destruct (HP a b Hab) as (n & m & Ln & Lm & K). exists m, n. repeat split; auto.
    destruct (run f n a) eqn:E1, (run g m b) eqn:E2; auto; destruct K as [K1 K2]; auto. }
  assert (HPs : P s s') by (split; auto).
  assert (HQs : Q s' s) by exact HPs.
  assert (Hg : safe g s') by (intros n t; eapply sim_noBad; eauto).
  assert (Hfin : forall r t, finishes f s r t <-> finishes g s' r t).
  { intros r t; split; intros [n Hn]; eapply sim_fin; eauto. }
  repeat split; auto; try (apply Hfin).
  - intros (n & u & Hn). destruct (sim_emit f g P HP n s s' HPs) as (k & v & Hk).
    exists k, (u ++ v). rewrite Hk, Hn, app_assoc. reflexivity.
  - intros (n & u & Hn). destruct (sim_emit g f Q HQ n s' s HQs) as (k & v & Hk).
    exists k, (u ++ v). rewrite Hk, Hn, app_assoc. reflexivity.
  - rewrite !diverges_iff by auto. intros K (r & t & Hr). apply K. exists r, t. now apply Hfin.
  - rewrite !diverges_iff by auto. intros K (r & t & Hr). apply K. exists r, t. now apply Hfin.
Qed.

Lemma refinesAt_refl {S E F} (f : S -> sres S E F) s : refinesAt f f s s.
Proof. intros H. repeat split; auto. Qed.
Lemma refinesAt_trans {S1 S2 S3 E F} (f : S1 -> sres S1 E F) (g : S2 -> sres S2 E F) (h : S3 -> sres S3 E F) a b c :
  refinesAt f g a b -> refinesAt g h b c -> refinesAt f h a c.
Proof.
  intros H1 H2 Hs. destruct (H1 Hs) as (S1' & F1 & E1 & D1). destruct (H2 S1') as (S2' & F2 & E2 & D2).
  split; auto. split; [|split].
  - intros r t. rewrite F1. apply F2.
  - intros t. rewrite E1. apply E2.
  - rewrite D1. exact D2.
Qed.

(** one step on either side *)
Lemma meets1 {S S' E F} (f : S -> sres S E F) (g : S' -> sres S' E F) (R : S -> S' -> Prop) s s' :
  match f s, g s' with
  | Go s1 t1, Go s2 t2 => t1 = t2 /\ R s1 s2
  | Fin r1 t1, Fin r2 t2 => r1 = r2 /\ t1 = t2
  | _, _ => False
  end -> meets f g R s s'.
Proof.
  intros H. exists 1%nat, 1%nat. repeat split; auto. cbn.
  destruct (f s), (g s'); cbn; rewrite ?app_nil_r; auto.
Qed.
