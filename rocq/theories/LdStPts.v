(** Points of a run inside blocks, facts that hold at them, and replacing operands by equal ones (proof infrastructure, C46). *)
From Coq Require Import ZArith Lia Bool List Arith.
From Verif Require Import Sim Ssa SsaCfg SsaMerge SsaFwd SsaWf SsaDom SsaSub SsaEq SsaPhi SsaCse.
Import ListNotations.

Section Pts.
Context {W : Type} (m : sem W) (args : nat -> value) (w0 : W).

(** the run of [f] from the world [w0] gets to the point of block [b] after the instructions [pre], with environment [e]
    and world [w] *)
Definition atPoint (f : func) (b : nat) (bk : block) (pre : list inst) (e : env) (w : W) : Prop :=
  exists n s t e1 t' post, run (step m args f) n (start f w0) = Go s t /\ cur s = b /\ get b f = Some bk /\
    enter args (en s) (prev s) (phis bk) = Some e1 /\ body bk = pre ++ post /\ runBody m args e1 (wd s) pre = BGo e w t'.

Lemma runBody_app l1 : forall l2 e w, runBody m args e w (l1 ++ l2) =
  match runBody m args e w l1 with BGo e1 w1 t => bpre t (runBody m args e1 w1 l2) | r => r end.
Proof.
  induction l1 as [|i l1 IH]; intros l2 e w; cbn.
  - destruct (runBody m args e w l2); reflexivity.
  - destruct (rds args e (ops i)) as [vs|]; auto. destruct (meaning m (opc i) vs w) as [v w1|w1|]; auto. rewrite IH.
    destruct (runBody m args (upd e (dst i) v) w1 l1) as [e2 w2 t2|w2 t2|t2]; cbn; auto.
    destruct (runBody m args e2 w2 l2); cbn; now rewrite app_assoc.
Qed.
Lemma run_hist f n s t : run (step m args f) n (start f w0) = Go s t -> hist f s.
Proof.
  revert s t. induction n as [|n IH]; intros s t H.
  - cbn in H. injection H as <- _. apply hist_start.
  - replace (S n) with (n + 1)%nat in H by lia. rewrite run_add in H.
    destruct (run (step m args f) n (start f w0)) as [s1 t1|r t1|t1] eqn:E; try discriminate. cbn in H.
    destruct (step m args f s1) as [s2 t2|r t2|t2] eqn:E2; try discriminate. cbn in H. injection H as <- _.
    eapply hist_step; eauto.
Qed.
Lemma atPoint_reach f b bk pre e w : atPoint f b bk pre e w -> reach f b.
Proof. intros (n & s & t & e1 & t' & post & H & <- & _). eapply hist_reach, run_hist; eauto. Qed.
Lemma atPoint_get f b bk pre e w : atPoint f b bk pre e w -> get b f = Some bk /\ exists post, body bk = pre ++ post.
Proof. intros (n & s & t & e1 & t' & post & H & _ & A & _ & B & _). eauto. Qed.
(** the point before the last instruction *)
Lemma atPoint_snoc f b bk pre i e w : atPoint f b bk (pre ++ [i]) e w ->
  exists e0 w1 vs v, atPoint f b bk pre e0 w1 /\ rds args e0 (ops i) = Some vs /\ meaning m (opc i) vs w1 = IOk v w /\ e = upd e0 (dst i) v.
Proof.
  intros (n & s & t & e1 & t' & post & H & E & Gb & En & Eb & R). rewrite runBody_app in R.
  destruct (runBody m args e1 (wd s) pre) as [e0 w1 t1|w1 t1|t1] eqn:E1; try discriminate. cbn in R.
  destruct (rds args e0 (ops i)) as [vs|] eqn:Ev; [|discriminate]. destruct (meaning m (opc i) vs w1) as [v w2|w2|] eqn:Em; try discriminate.
  cbn in R. injection R as <- <- _. exists e0, w1, vs, v. split; [|auto].
  exists n, s, t, e1, t1, (i :: post). rewrite <- app_assoc in Eb. auto 10.
Qed.
Lemma atPoint_next f b bk pre i post e w vs v w' : atPoint f b bk pre e w -> body bk = pre ++ i :: post ->
  rds args e (ops i) = Some vs -> meaning m (opc i) vs w = IOk v w' -> atPoint f b bk (pre ++ [i]) (upd e (dst i) v) w'.
Proof.
  intros (n & s & t & e1 & t' & post' & H & E & Gb & En & Eb & R) Eb' Hr Hm.
  exists n, s, t, e1. eexists. exists post. repeat (split; [solve [eauto]|]). split; [now rewrite <- app_assoc|].
  rewrite runBody_app, R. cbn. rewrite Hr, Hm. reflexivity.
Qed.
(** a state after at least one step: the end of the block before *)
Lemma run_last f n s t : run (step m args f) n (start f w0) = Go s t ->
  (prev s = None /\ s = start f w0) \/
  exists p pb w, prev s = Some p /\ atPoint f p pb (body pb) (en s) w /\ w = wd s /\ In (cur s) (succs (trm pb)).
Proof.
  destruct n as [|n]; intros H.
  - cbn in H. injection H as <- _. left. split; reflexivity.
  - right. replace (S n) with (n + 1)%nat in H by lia. rewrite run_add in H.
    destruct (run (step m args f) n (start f w0)) as [s1 t1|r t1|t1] eqn:E; try discriminate. cbn in H.
    destruct (step m args f s1) as [s2 t2|r t2|t2] eqn:E2; try discriminate. cbn in H. injection H as <- _.
    unfold step in E2. destruct (get (cur s1) f) as [bk|] eqn:Eb; [|discriminate]. unfold runBlock in E2.
    destruct (enter args (en s1) (prev s1) (phis bk)) as [e1|] eqn:Ee; [|discriminate].
    destruct (runBody m args e1 (wd s1) (body bk)) as [e2 w2 t3|w2 t3|t3] eqn:Er; try discriminate.
    destruct (runTerm args e2 (trm bk)) as [b'|v|] eqn:Et; try discriminate. injection E2 as <- <-. cbn.
    exists (cur s1), bk, w2. split; auto. split; [|split; auto].
    + exists n, s1, t1, e1, t3, []. rewrite app_nil_r. auto 10.
    + clear -Et. destruct (trm bk) as [t|c a b|c cs d|[o|]|]; cbn in Et; try discriminate.
      * injection Et as ->. now left.
      * destruct (rd args e2 c) as [v|]; [|discriminate]. destruct (truth v) as [[|]|]; try discriminate; injection Et as ->; cbn; auto.
      * destruct (rd args e2 c) as [[z|z|]|]; try discriminate. injection Et as <-.
        cbn. clear. induction cs as [|[k x] cs IH]; cbn; auto. destruct (Z.eqb z k); auto. destruct IH; auto.
      * destruct (rd args e2 o); discriminate.
Qed.

(** ** facts about results that hold at every point where they are available *)
Section Facts.
Variable f : func.
Variable P : nat -> env -> Prop.
Variable D : nat -> list nat.
Hypothesis U : uniqueDefs f.
Hypothesis Hframe : forall x e e', (forall y, y = x \/ In y (D x) -> e y = e' y) -> P x e -> P x e'.
Hypothesis Hdep : forall x d bk y, get d f = Some bk -> reach f d -> In x (resultsOf bk) -> In y (D x) ->
  availIn f d y \/ (In x (map pdst (phis bk)) /\ In y (map pdst (phis bk))) \/
  (exists pre i post, body bk = pre ++ i :: post /\ dst i = x /\ (In y (map pdst (phis bk)) \/ In y (map dst pre))).
Hypothesis Hphi : forall b bk p pb e vs, get b f = Some bk -> reach f p -> get p f = Some pb -> In b (succs (trm pb)) ->
  (forall x, availOut f p x -> P x e) -> rdPhis args e p (phis bk) = Some vs ->
  forall x, In x (map pdst (phis bk)) -> P x (updAll e vs).
Hypothesis Hbody : forall b bk pre i post e w vs v w', atPoint f b bk pre e w -> body bk = pre ++ i :: post ->
  (forall x, availAt f b bk pre x -> P x e) -> rds args e (ops i) = Some vs -> meaning m (opc i) vs w = IOk v w' ->
  P (dst i) (upd e (dst i) v).

Lemma facts_frame b bk pre i post e v : reach f b -> get b f = Some bk -> body bk = pre ++ i :: post ->
  factsAt f P b bk pre e -> P (dst i) (upd e (dst i) v) -> factsAt f P b bk (pre ++ [i]) (upd e (dst i) v).
Proof.
  intros R Hb E Hf Hi x Hx. pose proof (block_NoDup f b bk U Hb) as N.
  assert (Di : defIn f (dst i) b).
  { exists bk. split; auto. apply in_or_app. right. rewrite E, map_app. apply in_or_app. right. now left. }
  assert (Nb : NoDup (map dst (pre ++ i :: post))).
  { rewrite <- E. unfold resultsOf in N. clear -N. induction (map pdst (phis bk)); auto. inversion N; auto. }
  assert (Npre : forall y, In y (map dst pre) -> y <> dst i).
  { intros y Hy ->. rewrite map_app in Nb. eapply NoDup_app_disj; [exact Nb|exact Hy|]. now left. }
  assert (Nphi : forall y, In y (map pdst (phis bk)) -> y <> dst i).
  { intros y Hy ->. apply (phi_body_disj bk (dst i) N Hy). rewrite E, map_app. apply in_or_app. right. now left. }
  assert (Hin : x = dst i \/ availAt f b bk pre x).
  { unfold availAt in *. rewrite map_app in Hx. destruct Hx as [Hx|[Hx|Hx]]; auto. apply in_app_or in Hx. destruct Hx as [Hx|[<-|[]]]; auto. }
  destruct Hin as [->|Hx']; [exact Hi|]. eapply Hframe; [|apply Hf; exact Hx'].
  intros y Hy. symmetry. apply upd_ne. destruct Hx' as [Hx'|Hx'].
  - eapply (above_ne f D U Hdep); eauto.
  - assert (Hxb : In x (resultsOf bk)).
    { apply in_or_app. destruct Hx' as [Hx'|Hx']; auto. right. rewrite E, map_app. apply in_or_app. now left. }
    destruct Hy as [->|Hy]; [destruct Hx' as [Hx'|Hx']; auto|].
    destruct (Hdep x b bk y Hb R Hxb Hy) as [(d' & A & B & _)|[[_ A]|(pre0 & i0 & post0 & E0 & Ex & A)]].
    + intros ->. apply B. eapply defIn_unique; eauto.
    + auto.
    + destruct A as [A|A]; auto. destruct Hx' as [Hx'|Hx'].
      * exfalso. apply (phi_body_disj bk x N Hx'). rewrite E0, map_app. apply in_or_app. right. left. auto.
      * apply Npre. rewrite E in E0. subst x. eapply (split_before pre0 i0 post0 pre i post); eauto.
Qed.
Lemma facts_prefix n s t b bk e1 : run (step m args f) n (start f w0) = Go s t -> cur s = b -> get b f = Some bk ->
  enter args (en s) (prev s) (phis bk) = Some e1 -> factsAt f P b bk [] e1 ->
  forall pre post, body bk = pre ++ post -> forall e w t', runBody m args e1 (wd s) pre = BGo e w t' -> factsAt f P b bk pre e.
Proof.
  intros H Ec Gb En F1. induction pre as [|i pre IH] using rev_ind; intros post E e w t' R.
  - cbn in R. injection R as <- _ _. exact F1.
  - rewrite <- app_assoc in E. cbn in E. rewrite runBody_app in R.
    destruct (runBody m args e1 (wd s) pre) as [e0 w1 t1|w1 t1|t1] eqn:E1; try discriminate. cbn in R.
    destruct (rds args e0 (ops i)) as [vs|] eqn:Ev; [|discriminate]. destruct (meaning m (opc i) vs w1) as [v w2|w2|] eqn:Em; try discriminate.
    cbn in R. injection R as <- <- _. pose proof (IH _ E _ _ _ eq_refl) as F0.
    assert (A : atPoint f b bk pre e0 w1) by (exists n, s, t, e1, t1, (i :: post); auto 10).
    eapply facts_frame; eauto. eapply atPoint_reach; eauto.
Qed.
Lemma facts_run n : forall s t, run (step m args f) n (start f w0) = Go s t -> factsIn f P s.
Proof.
  induction n as [|n IH]; intros s t H.
  - cbn in H. injection H as <- _. exact I.
  - replace (S n) with (n + 1)%nat in H by lia. rewrite run_add in H.
    destruct (run (step m args f) n (start f w0)) as [s1 t1|r t1|t1] eqn:E; try discriminate. cbn in H.
    destruct (step m args f s1) as [s2 t2|r t2|t2] eqn:E2; try discriminate. cbn in H. injection H as <- _.
    pose proof (IH _ _ eq_refl) as F. pose proof (run_hist _ _ _ _ E) as Hh.
    unfold step in E2. destruct (get (cur s1) f) as [bk|] eqn:Eb; [|discriminate]. unfold runBlock in E2.
    destruct (enter args (en s1) (prev s1) (phis bk)) as [e1|] eqn:Ee; [|discriminate].
    destruct (runBody m args e1 (wd s1) (body bk)) as [e2 w2 t3|w2 t3|t3] eqn:Er; try discriminate.
    destruct (runTerm args e2 (trm bk)); try discriminate. injection E2 as <- <-. unfold factsIn. cbn.
    intros x Hx. apply (availOut_at f (cur s1) bk x Eb) in Hx. revert x Hx. change (factsAt f P (cur s1) bk (body bk) e2).
    eapply (facts_prefix n s1 t1 (cur s1) bk e1 E eq_refl Eb Ee); eauto.
    + eapply (facts_enter args f P D); eauto.
    + now rewrite app_nil_r.
Qed.
Lemma facts_points b bk pre e w : atPoint f b bk pre e w -> factsAt f P b bk pre e.
Proof.
  intros (n & s & t & e1 & t' & post & H & E & Gb & En & Eb & R).
  eapply (facts_prefix n s t b bk e1); eauto. subst b.
  eapply (facts_enter args f P D); eauto; [eapply run_hist; eauto|eapply facts_run; eauto].
Qed.
End Facts.

(** ** replacing operands by others with the same value: the runs are the same *)
(** [g] runs exactly as [f], and at corresponding points the same results are available *)
Definition sameRun (f g : func) : Prop :=
  (forall n, run (step m args g) n (start g w0) = run (step m args f) n (start f w0)) /\
  (forall b bk' pre' e w, atPoint g b bk' pre' e w -> exists bk pre, atPoint f b bk pre e w /\
     forall x, availAt g b bk' pre' x <-> availAt f b bk pre x).
Lemma sameRun_refl f : sameRun f f.
Proof. split; auto. intros b bk pre e w H. exists bk, pre. split; auto. intros x. reflexivity. Qed.
Lemma sameRun_trans f g h : sameRun f g -> sameRun g h -> sameRun f h.
Proof.
  intros [A1 A2] [B1 B2]. split; [intros n; now rewrite B1|]. intros b bk pre e w H.
  destruct (B2 _ _ _ _ _ H) as (bk1 & pre1 & H1 & K1). destruct (A2 _ _ _ _ _ H1) as (bk2 & pre2 & H2 & K2).
  exists bk2, pre2. split; auto. intros x. now rewrite K1.
Qed.
Lemma sameRun_safe f g : sameRun f g -> Sim.safe (step m args f) (start f w0) -> Sim.safe (step m args g) (start g w0).
Proof. intros [A _] H n t. rewrite A. apply H. Qed.
Lemma sameRun_refines f g : (Sim.safe (step m args f) (start f w0) -> sameRun f g) ->
  refinesAt (step m args f) (step m args g) (start f w0) (start g w0).
Proof.
  intros K Hs. destruct (K Hs) as [A B]. split; [eapply sameRun_safe; eauto|]. split; [|split].
  - intros r t. unfold finishes. split; intros [n H]; exists n; [rewrite A|rewrite <- A]; auto.
  - intros t. unfold emits. split; intros (n & u & H); exists n, u; [rewrite A|rewrite <- A]; auto.
  - unfold diverges. split; intros H n; destruct (H n) as (s & t & K1); exists s, t; [rewrite A|rewrite <- A]; auto.
Qed.

Section Subst.
Variable f : func.
Variable h : opnd -> opnd.
Hypothesis S : ssa f.
Hypothesis Hh : forall b bk pre e w o v, atPoint f b bk pre e w -> opAvail (availAt f b bk pre) o -> rd args e o = Some v -> rd args e (h o) = Some v.
Notation g := (substB (fun _ => h) (fun _ _ => h) f).
Lemma pts_body b bk n s t e1 : run (step m args f) n (start f w0) = Go s t -> cur s = b -> get b f = Some bk ->
  enter args (en s) (prev s) (phis bk) = Some e1 -> forall mid pre e w t0, (exists post, body bk = pre ++ mid ++ post) ->
  runBody m args e1 (wd s) pre = BGo e w t0 ->
  (forall t', runBody m args e w mid <> BBad t') -> runBody m args e w (map (mapInst h) mid) = runBody m args e w mid.
Proof.
  intros H Ec Gb En. induction mid as [|i mid IH]; intros pre e w t0 [post E] R NB; auto.
  assert (A : atPoint f b bk pre e w) by (exists n, s, t, e1, t0, ((i :: mid) ++ post); auto 10).
  cbn in *. destruct (rds args e (ops i)) as [vs|] eqn:E1; [|exfalso; eapply NB; eauto].
  rewrite (rds_local args e h (ops i) vs); auto.
  - destruct (meaning m (opc i) vs w) as [v w1|w1|] eqn:E2; auto.
    rewrite (IH (pre ++ [i]) (upd e (dst i) v) w1 (t0 ++ evt m (opc i) vs w)); auto.
    + exists post. rewrite <- app_assoc. exact E.
    + rewrite runBody_app, R. cbn. rewrite E1, E2. cbn. now rewrite app_nil_r.
    + intros t' Ht. apply (NB (evt m (opc i) vs w ++ t')). rewrite Ht. reflexivity.
  - destruct (S b bk Gb (atPoint_reach _ _ _ _ _ _ A)) as (S1 & _ & _). specialize (S1 pre i _ E). rewrite Forall_forall in S1 |- *.
    intros o Ho v Hv. eapply Hh; eauto.
Qed.
Lemma pts_enter n s t bk e1 : run (step m args f) n (start f w0) = Go s t -> get (cur s) f = Some bk ->
  enter args (en s) (prev s) (phis bk) = Some e1 -> enter args (en s) (prev s) (map (mapPhi (fun _ => h)) (phis bk)) = Some e1.
Proof.
  intros H Gb En. pose proof (run_hist _ _ _ _ H) as Hs. unfold enter in *.
  destruct (run_last f n s t H) as [[Ep _]|(p & pb & w & Ep & A & _ & Hin)]; rewrite Ep in *.
  - destruct (phis bk); auto; discriminate.
  - destruct (rdPhis args (en s) p (phis bk)) as [vs|] eqn:Ev; [|discriminate].
    rewrite (rdPhis_local args (en s) p (fun _ => h) (phis bk) vs); auto.
    intros ph o v Hph Ho Hv. destruct (S (cur s) bk Gb (hist_reach _ _ Hs)) as (_ & _ & S3).
    pose proof (S3 ph p o Hph (get_In _ _ _ Ho) (atPoint_reach _ _ _ _ _ _ A)) as K. eapply Hh; eauto.
    destruct (atPoint_get _ _ _ _ _ _ A) as [Gp _]. destruct o as [c|k|x]; cbn in *; auto. now apply (availOut_at f p pb x Gp).
Qed.
Lemma pts_step n s t : run (step m args f) n (start f w0) = Go s t -> (forall t', step m args f s <> Bad t') ->
  step m args g s = step m args f s.
Proof.
  intros H NB. unfold step in *. rewrite get_substB. destruct (get (cur s) f) as [bk|] eqn:Eb; [|reflexivity].
  cbn [option_map]. unfold runBlock in *. cbn [mapBlock phis body trm].
  destruct (enter args (en s) (prev s) (phis bk)) as [e1|] eqn:Ee; [|exfalso; eapply NB; eauto].
  rewrite (pts_enter n s t bk e1 H Eb Ee).
  rewrite (pts_body (cur s) bk n s t e1 H eq_refl Eb Ee (body bk) [] e1 (wd s) []).
  - destruct (runBody m args e1 (wd s) (body bk)) as [e2 w2 t2|w2 t2|t2] eqn:Er; auto.
    rewrite (runTerm_local args e2 h (trm bk)); auto.
    + destruct (S (cur s) bk Eb (hist_reach _ _ (run_hist _ _ _ _ H))) as (_ & S2 & _).
      rewrite Forall_forall in S2 |- *. intros o Ho v Hv. refine (Hh (cur s) bk (body bk) e2 w2 o v _ (S2 o Ho) Hv).
      exists n, s, t, e1, t2, []. rewrite app_nil_r. auto 10.
    + intros K. rewrite K in NB. exact (NB t2 eq_refl).
  - exists []. cbn. now rewrite app_nil_r.
  - reflexivity.
  - intros t' Ht. rewrite Ht in NB. exact (NB t' eq_refl).
Qed.
Lemma pts_run : Sim.safe (step m args f) (start f w0) -> forall n, run (step m args g) n (start g w0) = run (step m args f) n (start f w0).
Proof.
  intros Hs. assert (E0 : start g w0 = start f w0) by (unfold start; now rewrite entry_substB). rewrite E0.
  induction n as [|n IH]; auto. replace (Datatypes.S n) with (n + 1)%nat by lia. rewrite !run_add, IH.
  destruct (run (step m args f) n (start f w0)) as [s t|r t|t] eqn:E; auto. f_equal. cbn.
  rewrite (pts_step n s t E); auto. intros t' K. apply (Hs (n + 1)%nat (t ++ t')). rewrite run_add, E. cbn. rewrite K. reflexivity.
Qed.
Theorem subst_same : Sim.safe (step m args f) (start f w0) -> sameRun f (subst h f).
Proof.
  intros Hs. rewrite subst_substB. pose proof (pts_run Hs) as A. split; auto.
  intros b bk' pre' e w (n & s & t & e1 & t' & post & H & E & Gb & En & Eb & R).
  rewrite A in H. rewrite get_substB in Gb. destruct (get b f) as [bk|] eqn:Gf; [|discriminate]. cbn in Gb. injection Gb as <-.
  cbn [mapBlock body phis] in *. apply map_eq_app in Eb as (pre & post0 & Eb & <- & <-).
  assert (NB : forall t', step m args f s <> Bad t').
  { intros u K. apply (Hs (n + 1)%nat (t ++ u)). rewrite run_add, H. cbn. rewrite K. reflexivity. }
  assert (Ee : enter args (en s) (prev s) (phis bk) = Some e1).
  { destruct (enter args (en s) (prev s) (phis bk)) as [e2|] eqn:Ee.
    - rewrite <- E in Gf. rewrite (pts_enter n s t bk e2 H Gf Ee) in En. congruence.
    - exfalso. apply (NB []). unfold step, runBlock. rewrite E, Gf, Ee. reflexivity. }
  exists bk, pre. split.
  - exists n, s, t, e1, t', post0. rewrite (pts_body b bk n s t e1 H E Gf Ee pre [] e1 (wd s) []) in R; auto 10.
    + exists post0. exact Eb.
    + intros u K. apply (NB u). unfold step, runBlock. rewrite E, Gf, Ee, Eb, runBody_app, K. reflexivity.
  - intros x. unfold availAt. cbn [mapBlock phis]. rewrite <- subst_substB, availIn_subst, !map_map. reflexivity.
Qed.
End Subst.
End Pts.
