(** Dominance and facts about values that hold wherever the value is available.
    The notion of a well-formed function follows Function::verify and Block::verify (cmmc/IR/Function.cpp:257-292,
    cmmc/IR/Block.cpp:113-140): every operand of an instruction is defined in a block that dominates the instruction's
    block, or earlier in the same block; the value a phi takes on an edge is available at the end of the edge's source. *)
From Coq Require Import ZArith Lia Bool List Arith.
From Verif Require Import Sim Ssa SsaCfg SsaMerge SsaFwd.
Import ListNotations.

(** paths of the control-flow graph from the entry, most recent block first, and dominance *)
Inductive path (f : func) : nat -> list nat -> Prop :=
| path_entry : path f (entry f) [entry f]
| path_next b l bk t : path f b l -> get b f = Some bk -> In t (succs (trm bk)) -> path f t (t :: l).
Definition dominates (f : func) (a b : nat) : Prop := forall l, path f b l -> In a l.

Lemma path_hd f b l : path f b l -> exists l', l = b :: l'.
Proof. destruct 1; eauto. Qed.
Lemma dominates_refl f b : dominates f b b.
Proof. intros l H. destruct (path_hd _ _ _ H) as [l' ->]. now left. Qed.
Lemma path_split f b l a : path f b l -> In a l -> exists l1 l2, l = l1 ++ l2 /\ path f a l2 /\ (a <> b -> l1 <> []).
Proof.
  induction 1 as [|b l bk t H IH Hb Ht]; intros Ha.
  - destruct Ha as [<-|[]]. exists [], [entry f]. split; [|split]; auto using path_entry; congruence.
  - destruct (Nat.eq_dec a t) as [->|N].
    + exists [], (t :: l). split; [|split]; eauto using path_next; congruence.
    + destruct Ha as [Ha|Ha]; [congruence|]. destruct (IH Ha) as (l1 & l2 & -> & Hp & _).
      exists (t :: l1), l2. split; [|split]; auto; discriminate.
Qed.
Lemma dominates_trans f a b c : dominates f a b -> dominates f b c -> dominates f a c.
Proof.
  intros H1 H2 l Hl. destruct (path_split f c l b Hl (H2 l Hl)) as (l1 & l2 & -> & Hp & _).
  apply in_or_app. right. auto.
Qed.
Lemma no_mutual f a b : a <> b -> forall l, path f b l -> dominates f a b -> dominates f b a -> False.
Proof.
  intros N l. remember (length l) as n eqn:En. revert a b N l En.
  induction n as [n IH] using lt_wf_ind. intros a b N l En Hl H1 H2.
  destruct (path_split f b l a Hl (H1 l Hl)) as (l1 & l2 & -> & Hp & Hn). specialize (Hn N).
  eapply (IH (length l2)); [| |reflexivity|exact Hp|exact H2|exact H1].
  - rewrite En, app_length. destruct l1; [congruence|cbn; lia].
  - congruence.
Qed.
(** a strict dominator of the target of an edge dominates its source *)
Lemma dom_edge f a p b pb : dominates f a b -> a <> b -> get p f = Some pb -> In b (succs (trm pb)) -> dominates f a p.
Proof.
  intros H N Hp Hb l Hl. assert (K := H (b :: l) (path_next f p l pb b Hl Hp Hb)). destruct K; [congruence|auto].
Qed.
Lemma dom_reach f a b l : path f b l -> dominates f a b -> exists l', path f a l'.
Proof. intros H D. destruct (path_split f b l a H (D l H)) as (l1 & l2 & _ & K & _). eauto. Qed.

(** where values are defined and available *)
Definition defIn (f : func) (x d : nat) : Prop := exists bk, get d f = Some bk /\ In x (resultsOf bk).
(** at the entry of [b], from above *)
Definition availIn (f : func) (b x : nat) : Prop := exists d, defIn f x d /\ d <> b /\ dominates f d b.
(** in [b], after its phis and the instructions [pre] *)
Definition availAt (f : func) (b : nat) (bk : block) (pre : list inst) (x : nat) : Prop :=
  availIn f b x \/ In x (map pdst (phis bk)) \/ In x (map dst pre).
(** at the end of [p] *)
Definition availOut (f : func) (p x : nat) : Prop := exists d, defIn f x d /\ dominates f d p.
Definition reach (f : func) (b : nat) : Prop := exists l, path f b l.
Definition opAvail (A : nat -> Prop) (o : opnd) : Prop := match o with ORes x => A x | _ => True end.

(** every operand is available where it is read *)
Definition ssa (f : func) : Prop := forall b bk, get b f = Some bk -> reach f b ->
  (forall pre i post, body bk = pre ++ i :: post -> Forall (opAvail (availAt f b bk pre)) (ops i)) /\
  Forall (opAvail (availAt f b bk (body bk))) (termOps (trm bk)) /\
  (forall ph p o, In ph (phis bk) -> In (p, o) (inc ph) -> reach f p -> opAvail (availOut f p) o).

Lemma availOut_at f p pb x : get p f = Some pb -> availOut f p x <-> availAt f p pb (body pb) x.
Proof.
  intros Hp. split.
  - intros (d & Hd & Hdom). destruct (Nat.eq_dec d p) as [->|N].
    + right. destruct Hd as (bk & Hb & Hx). assert (bk = pb) by congruence. subst. unfold resultsOf in Hx. now apply in_app_or in Hx.
    + left. exists d. auto.
  - intros [(d & Hd & N & Hdom)|H].
    + exists d. auto.
    + exists p. split; [|apply dominates_refl]. exists pb. split; auto. unfold resultsOf. now apply in_or_app.
Qed.
Lemma availIn_edge f p b pb x : get p f = Some pb -> In b (succs (trm pb)) -> availIn f b x -> availOut f p x.
Proof. intros Hp Hb (d & Hd & N & Hdom). exists d. split; auto. eapply dom_edge; eauto. Qed.

(** the run follows a path *)
Definition hist {W} (f : func) (s : st (W:=W)) : Prop := exists l, path f (cur s) (cur s :: l) /\ prev s = hd_error l.
Lemma hist_start {W} f (w : W) : hist f (start f w).
Proof. exists []. split; [apply path_entry|reflexivity]. Qed.
Lemma hist_step {W} (m : sem W) args f s s' t : hist f s -> step m args f s = Go s' t -> hist f s'.
Proof.
  intros (l & Hl & Hp) H. apply step_inv in H as (bk & e1 & e2 & w & H1 & H2 & H3 & H4 & H5).
  apply runTerm_succs in H4. exists (cur s :: l). rewrite H5. split; [|reflexivity].
  cbn [cur]. eapply path_next; eauto.
Qed.
Lemma hist_reach {W} f (s : st (W:=W)) : hist f s -> reach f (cur s).
Proof. intros (l & H & _). now exists (cur s :: l). Qed.
Lemma hist_prev {W} f (s : st (W:=W)) p : hist f s -> prev s = Some p ->
  reach f p /\ exists pb, get p f = Some pb /\ In (cur s) (succs (trm pb)).
Proof.
  intros (l & H & Hp) E. rewrite E in Hp. inversion H; subst; try discriminate.
  destruct (path_hd _ _ _ H1) as [l0 ->]. cbn in Hp. injection Hp as ->. split; eauto. now exists (b :: l0).
Qed.

Lemma defIn_unique f x a b : uniqueDefs f -> defIn f x a -> defIn f x b -> a = b.
Proof. intros U (k1 & H1 & H2) (k2 & H3 & H4). eapply results_unique; eauto. Qed.
Lemma block_NoDup f b bk : uniqueDefs f -> get b f = Some bk -> NoDup (resultsOf bk).
Proof.
  intros [_ H] Hb. apply get_In in Hb. unfold allResults in H. clear -H Hb. induction f as [|x f IH]; [destruct Hb|].
  cbn in H. destruct Hb as [->|Hb].
  - cbn in H. clear -H. induction (resultsOf bk) as [|a l IH]; [constructor|]. cbn in H. inversion H; subst. constructor; auto.
    intros K. apply H2. apply in_or_app. now left.
  - apply IH; auto. clear -H. induction (resultsOf (snd x)) as [|a l IH]; auto. cbn in H. inversion H; auto.
Qed.
Lemma phi_body_disj bk x : NoDup (resultsOf bk) -> In x (map pdst (phis bk)) -> In x (map dst (body bk)) -> False.
Proof. unfold resultsOf. intros H. eapply NoDup_app_disj. exact H. Qed.
Lemma split_before pre0 i0 post0 : forall pre i post, NoDup (map dst (pre ++ i :: post)) ->
  pre0 ++ i0 :: post0 = pre ++ i :: post -> In (dst i0) (map dst pre) -> incl (map dst pre0) (map dst pre).
Proof.
  induction pre0 as [|j pre0 IH]; intros pre i post N E H.
  - intros x [].
  - destruct pre as [|k pre]; [destruct H|]. cbn in E. injection E as -> E. cbn in N. inversion N as [|? ? N1 N2]; subst.
    intros x [<-|Hx]; [now left|]. right. refine (IH pre i post N2 E _ x Hx).
    destruct H as [H|H]; auto. exfalso. apply N1. rewrite <- E, H, map_app. apply in_or_app. right. now left.
Qed.

Section Facts.
Context {W : Type} (m : sem W) (args : nat -> value) (f : func).
Variable P : nat -> env -> Prop.
(** the values a fact about [x] speaks of besides [x] *)
Variable D : nat -> list nat.
Hypothesis U : uniqueDefs f.
Hypothesis Hframe : forall x e e', (forall y, y = x \/ In y (D x) -> e y = e' y) -> P x e -> P x e'.
Hypothesis Hdep : forall x d bk y, get d f = Some bk -> reach f d -> In x (resultsOf bk) -> In y (D x) ->
  availIn f d y \/ (In x (map pdst (phis bk)) /\ In y (map pdst (phis bk))) \/
  (exists pre i post, body bk = pre ++ i :: post /\ dst i = x /\ (In y (map pdst (phis bk)) \/ In y (map dst pre))).
Hypothesis Hphi : forall b bk p pb e vs, get b f = Some bk -> reach f p -> get p f = Some pb -> In b (succs (trm pb)) ->
  (forall x, availOut f p x -> P x e) -> rdPhis args e p (phis bk) = Some vs ->
  forall x, In x (map pdst (phis bk)) -> P x (updAll e vs).
Hypothesis Hbody : forall b bk pre i post e w vs v w', get b f = Some bk -> reach f b -> body bk = pre ++ i :: post ->
  (forall x, availAt f b bk pre x -> P x e) -> rds args e (ops i) = Some vs -> meaning m (opc i) vs w = IOk v w' ->
  P (dst i) (upd e (dst i) v).

Definition factsIn (s : st (W:=W)) : Prop :=
  match prev s with None => True | Some p => forall x, availOut f p x -> P x (en s) end.
Definition factsAt (b : nat) (bk : block) (pre : list inst) (e : env) : Prop := forall x, availAt f b bk pre x -> P x e.

Lemma dep_block x d y : reach f d -> defIn f x d -> In y (D x) -> exists d', defIn f y d' /\ dominates f d' d.
Proof.
  intros R (bk & Hb & Hx) Hy. destruct (Hdep x d bk y Hb R Hx Hy) as [(d' & A & _ & B)|[[_ A]|(pre & i & post & E & _ & A)]].
  - eauto.
  - exists d. split; [|apply dominates_refl]. exists bk. split; auto. apply in_or_app. now left.
  - exists d. split; [|apply dominates_refl]. exists bk. split; auto. apply in_or_app. destruct A as [A|A]; auto. right.
    rewrite E, map_app. apply in_or_app. now left.
Qed.
(** nothing defined in [b] occurs in a fact about a value from above *)
Lemma above_ne b x z y : reach f b -> availIn f b x -> defIn f z b -> y = x \/ In y (D x) -> y <> z.
Proof.
  intros [l R] (d & Hd & N & Hdom) Hz [->|Hy] ->.
  - apply N. eapply defIn_unique; eauto.
  - destruct (dep_block x d z (dom_reach _ _ _ _ R Hdom) Hd Hy) as (d' & H1 & H2).
    assert (d' = b) by (eapply defIn_unique; eauto). subst. eapply (no_mutual f d b); eauto.
Qed.

Lemma facts_enter s bk e1 : hist f s -> factsIn s -> get (cur s) f = Some bk ->
  enter args (en s) (prev s) (phis bk) = Some e1 -> factsAt (cur s) bk [] e1.
Proof.
  intros Hh Hf Hb He x Hx. pose proof (hist_reach _ _ Hh) as R. unfold enter in He. destruct (prev s) as [p|] eqn:Ep.
  - destruct (hist_prev f s p Hh Ep) as (Rp & pb & Hpb & Hin). unfold factsIn in Hf. rewrite Ep in Hf.
    destruct (rdPhis args (en s) p (phis bk)) as [vs|] eqn:Ev; [|discriminate]. injection He as <-.
    destruct Hx as [Hx|[Hx|[]]].
    + eapply Hframe; [|apply Hf; eapply availIn_edge; eauto]. intros y Hy. symmetry. apply updAll_ne.
      rewrite (rdPhis_fst _ _ _ _ _ Ev). intros K. refine (above_ne (cur s) x y y R Hx _ Hy eq_refl).
      exists bk. split; auto. apply in_or_app. now left.
    + exact (Hphi (cur s) bk p pb (en s) vs Hb Rp Hpb Hin Hf Ev x Hx).
  - destruct (phis bk) eqn:Eph; [|discriminate]. injection He as <-. destruct Hx as [Hx|[Hx|[]]].
    + exfalso. destruct Hh as (l & Hl & Hp). rewrite Ep in Hp. destruct l; [|discriminate].
      destruct Hx as (d & Hd & N & Hdom). destruct (Hdom _ Hl) as [K|[]]. congruence.
    + rewrite Eph in Hx. destruct Hx.
Qed.

Lemma facts_inst b bk pre i post e w vs v w' : reach f b -> get b f = Some bk -> body bk = pre ++ i :: post ->
  factsAt b bk pre e -> rds args e (ops i) = Some vs -> meaning m (opc i) vs w = IOk v w' ->
  factsAt b bk (pre ++ [i]) (upd e (dst i) v).
Proof.
  intros R Hb E Hf Hr Hm x Hx. pose proof (block_NoDup f b bk U Hb) as N.
  assert (Di : defIn f (dst i) b).
  { exists bk. split; auto. apply in_or_app. right. rewrite E, map_app. apply in_or_app. right. now left. }
  assert (Nb : NoDup (map dst (pre ++ i :: post))).
  { rewrite <- E. unfold resultsOf in N. clear -N. induction (map pdst (phis bk)); auto. inversion N; auto. }
  assert (Npre : forall y, In y (map dst pre) -> y <> dst i).
  { intros y Hy ->. rewrite map_app in Nb. eapply NoDup_app_disj; [exact Nb|exact Hy|]. now left. }
  assert (Nphi : forall y, In y (map pdst (phis bk)) -> y <> dst i).
  { intros y Hy ->. apply (phi_body_disj bk (dst i) N Hy). rewrite E, map_app. apply in_or_app. right. now left. }
  assert (Hin : x = dst i \/ availAt f b bk pre x).
  { unfold availAt in *. rewrite map_app in Hx. destruct Hx as [Hx|[Hx|Hx]]; auto. apply in_app_or in Hx. destruct Hx as [Hx|[<-|[]]]; auto. }
  destruct Hin as [->|Hx']; [eapply Hbody; eauto|]. eapply Hframe; [|apply Hf; exact Hx'].
  intros y Hy. symmetry. apply upd_ne. destruct Hx' as [Hx'|Hx'].
  - eapply above_ne; eauto.
  - assert (Hxb : In x (resultsOf bk)).
    { apply in_or_app. destruct Hx' as [Hx'|Hx']; auto. right. rewrite E, map_app. apply in_or_app. now left. }
    destruct Hy as [->|Hy]; [destruct Hx' as [Hx'|Hx']; auto|].
    destruct (Hdep x b bk y Hb R Hxb Hy) as [(d' & A & B & _)|[[_ A]|(pre0 & i0 & post0 & E0 & Ex & A)]].
    + intros ->. apply B. eapply defIn_unique; eauto.
    + auto.
    + destruct A as [A|A]; auto. destruct Hx' as [Hx'|Hx'].
      * exfalso. apply (phi_body_disj bk x N Hx'). rewrite E0, map_app. apply in_or_app. right. left. auto.
      * apply Npre. rewrite E in E0. subst x. eapply (split_before pre0 i0 post0 pre i post); eauto.
Qed.

Lemma facts_body b bk : reach f b -> get b f = Some bk -> forall post pre e w e' w' t, body bk = pre ++ post ->
  factsAt b bk pre e -> runBody m args e w post = BGo e' w' t -> factsAt b bk (body bk) e'.
Proof.
  intros R Hb. induction post as [|i post IH]; intros pre e w e' w' t E Hf H.
  - rewrite app_nil_r in E. cbn in H. injection H as <- _ _. now rewrite E.
  - cbn in H. destruct (rds args e (ops i)) as [vs|] eqn:Er; [|discriminate].
    destruct (meaning m (opc i) vs w) as [v w1|w1|] eqn:Em; try discriminate.
    destruct (runBody m args (upd e (dst i) v) w1 post) as [e2 w2 t2|w2 t2|t2] eqn:Eb; try discriminate.
    cbn in H. injection H as <- <- _. refine (IH (pre ++ [i]) _ _ _ _ _ _ _ Eb).
    + rewrite <- app_assoc. exact E.
    + eapply facts_inst; eauto.
Qed.
Lemma facts_step s s' t : hist f s -> factsIn s -> step m args f s = Go s' t -> factsIn s'.
Proof.
  intros Hh Hf H. unfold step in H. destruct (get (cur s) f) as [bk|] eqn:Eb; [|discriminate]. unfold runBlock in H.
  destruct (enter args (en s) (prev s) (phis bk)) as [e1|] eqn:Ee; [|discriminate].
  destruct (runBody m args e1 (wd s) (body bk)) as [e2 w2 t2|w2 t2|t2] eqn:Er; try discriminate.
  destruct (runTerm args e2 (trm bk)); try discriminate. injection H as <- <-. unfold factsIn. cbn.
  intros x Hx. apply (availOut_at f (cur s) bk x Eb) in Hx. revert x Hx. change (factsAt (cur s) bk (body bk) e2).
  exact (facts_body _ bk (hist_reach _ _ Hh) Eb (body bk) [] _ _ _ _ _ eq_refl (facts_enter s bk e1 Hh Hf Eb Ee) Er).
Qed.
Lemma facts_start w : factsIn (start f w).
Proof. exact I. Qed.
End Facts.
