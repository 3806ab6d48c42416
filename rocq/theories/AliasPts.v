(** A fact about one result that holds wherever the result is available (proof infrastructure, C47). *)
From Coq Require Import ZArith Lia Bool List Arith.
From Verif Require Import Sim Ssa SsaCfg SsaMerge SsaFwd SsaWf SsaDom SsaSub SsaEq SsaPhi SsaCse LdStPts.
Import ListNotations.

Section One.
Context {W : Type} (m : sem W) (args : nat -> value) (w0 : W) (f : func).
Notation pt := (atPoint m args w0 f).
Variable x : nat.
Variable Q : env -> Prop.
Variable D : list nat.
Hypothesis U : uniqueDefs f.
Hypothesis Hfr : forall e e', (forall y, y = x \/ In y D -> e y = e' y) -> Q e -> Q e'.
Hypothesis Hbef : forall y, In y D -> before f x y.
Hypothesis Hphi : forall b bk p pb e w vs, get b f = Some bk -> pt p pb (body pb) e w -> In b (succs (trm pb)) ->
  rdPhis args e p (phis bk) = Some vs -> In x (map pdst (phis bk)) -> Q (updAll e vs).
Hypothesis Hbody : forall b bk pre i post e w vs v w', pt b bk pre e w -> body bk = pre ++ i :: post -> dst i = x ->
  rds args e (ops i) = Some vs -> meaning m (opc i) vs w = IOk v w' -> Q (upd e x v).

Let P (y : nat) (e : env) : Prop := y = x -> Q e.
Let D' (y : nat) : list nat := if Nat.eqb y x then D else [].
Lemma one_frame y e e' : (forall z, z = y \/ In z (D' y) -> e z = e' z) -> P y e -> P y e'.
Proof using Hfr. intros H K ->. apply (Hfr e e'); [|apply K; reflexivity]. unfold D' in H. rewrite Nat.eqb_refl in H. exact H. Qed.
Lemma one_dep y d bk z : get d f = Some bk -> reach f d -> In y (resultsOf bk) -> In z (D' y) ->
  availIn f d z \/ (In y (map pdst (phis bk)) /\ In z (map pdst (phis bk))) \/
  (exists pre i post, body bk = pre ++ i :: post /\ dst i = y /\ (In z (map pdst (phis bk)) \/ In z (map dst pre))).
Proof using Hbef.
  intros G R I H. unfold D' in H. destruct (Nat.eqb_spec y x) as [->|]; [|destruct H]. exact (Hbef z H d bk G R I).
Qed.
Lemma one_enter n s t bk e1 : run (step m args f) n (start f w0) = Go s t -> (forall p, prev s = Some p -> availOut f p x -> Q (en s)) ->
  get (cur s) f = Some bk -> enter args (en s) (prev s) (phis bk) = Some e1 -> factsAt f P (cur s) bk [] e1.
Proof using U Hfr Hbef Hphi.
  intros H Hf Hb He y Hx ->. pose proof (hist_reach _ _ (run_hist m args w0 f _ _ _ H)) as R.
  destruct (run_last m args w0 f n s t H) as [[Ep ->]|(p & pb & w & Ep & Hpt & _ & Hin)].
  - unfold enter in He. rewrite Ep in He. destruct (phis bk) eqn:Eph; [|discriminate]. destruct Hx as [Hx|[Hx|[]]].
    + exfalso. destruct Hx as (d & Hd & N & Hdom). destruct (Hdom _ (path_entry f)) as [K|[]]. cbn in *. congruence.
    + rewrite Eph in Hx. destruct Hx.
  - unfold enter in He. rewrite Ep in He. destruct (rdPhis args (en s) p (phis bk)) as [vs|] eqn:Ev; [|discriminate]. injection He as <-.
    destruct Hx as [Hx|[Hx|[]]].
    + apply (one_frame x (en s) (updAll (en s) vs)); [|intros _; apply (Hf p Ep); eapply availIn_edge; eauto; eapply atPoint_get; eauto|reflexivity].
      intros z Hz. symmetry. apply updAll_ne. rewrite (rdPhis_fst _ _ _ _ _ Ev). intros K.
      refine (above_ne f D' U one_dep (cur s) x z z R Hx _ Hz eq_refl). exists bk. split; auto. apply in_or_app. now left.
    + eapply Hphi; eauto.
Qed.
Lemma one_run n : forall s t, run (step m args f) n (start f w0) = Go s t -> forall p, prev s = Some p -> availOut f p x -> Q (en s).
Proof using U Hfr Hbef Hphi Hbody.
  induction n as [|n IH]; intros s t H p Ep Hx.
  - cbn in H. injection H as <- _. discriminate.
  - replace (S n) with (n + 1)%nat in H by lia. rewrite run_add in H.
    destruct (run (step m args f) n (start f w0)) as [s1 t1|r t1|t1] eqn:E; try discriminate. cbn in H.
    destruct (step m args f s1) as [s2 t2|r t2|t2] eqn:E2; try discriminate. cbn in H. injection H as <- _.
    pose proof (IH _ _ eq_refl) as F.
    unfold step in E2. destruct (get (cur s1) f) as [bk|] eqn:Eb; [|discriminate]. unfold runBlock in E2.
    destruct (enter args (en s1) (prev s1) (phis bk)) as [e1|] eqn:Ee; [|discriminate].
    destruct (runBody m args e1 (wd s1) (body bk)) as [e2 w2 t3|w2 t3|t3] eqn:Er; try discriminate.
    destruct (runTerm args e2 (trm bk)); try discriminate. injection E2 as <- <-. cbn in *. injection Ep as <-.
    apply (availOut_at f (cur s1) bk x Eb) in Hx.
    refine (facts_prefix m args w0 f P D' U one_frame one_dep _ n s1 t1 (cur s1) bk e1 E eq_refl Eb Ee _ (body bk) [] _ e2 w2 t3 Er x Hx eq_refl).
    + intros b0 bk0 pre i post e w vs v w' A B _ C G Ei. rewrite Ei. eapply Hbody; eauto.
    + eapply one_enter; eauto.
    + now rewrite app_nil_r.
Qed.
Theorem one_points b bk pre e w : pt b bk pre e w -> availAt f b bk pre x -> Q e.
Proof using U Hfr Hbef Hphi Hbody.
  intros (n & s & t & e1 & t' & post & H & E & Gb & En & Eb & R) Hx. subst b.
  refine (facts_prefix m args w0 f P D' U one_frame one_dep _ n s t (cur s) bk e1 H eq_refl Gb En _ pre post Eb e w t' R x Hx eq_refl).
  - intros b0 bk0 pre0 i post0 e0 w1 vs v w' A B _ C G Ei. rewrite Ei. eapply Hbody; eauto.
  - eapply one_enter; eauto. eapply one_run; eauto.
Qed.
End One.

(** ** the values before a value *)
Section Before.
Variable f : func.
Hypothesis U : uniqueDefs f.
Lemma before_trans x y z : before f x y -> (forall d bk, get d f = Some bk -> In x (resultsOf bk) -> ~ In x (map pdst (phis bk))) -> before f y z -> before f x z.
Proof using U.
  intros H1 N H2 d bk Hd R Hx. destruct (H1 d bk Hd R Hx) as [A|[[A _]|(pre & i & post & E & Ex & A)]].
  - left. destruct (before_avail f y z d bk [] (body bk) U H2 Hd R eq_refl (or_introl A)) as [B|B]; auto.
    destruct R as [l R]. destruct A as (d1 & (k1 & G1 & I1) & Nd & Dm).
    destruct (H2 d1 k1 G1 (dom_reach _ _ _ _ R Dm) I1) as [(d2 & J1 & J2 & J3)|K].
    + exists d2. split; auto. split; [|eapply dominates_trans; eauto]. intros ->. eapply (no_mutual f d1 d); eauto.
    + exists d1. split; auto. exists k1. split; auto. apply in_or_app. destruct K as [[_ K]|(p0 & i & q0 & E0 & _ & [K|K])]; auto.
      right. rewrite E0, map_app. apply in_or_app. now left.
  - exfalso. exact (N d bk Hd Hx A).
  - destruct (before_avail f y z d bk pre (i :: post) U H2 Hd R E (or_intror A)) as [B|B]; auto.
    right. right. exists pre, i, post. auto.
Qed.
End Before.
