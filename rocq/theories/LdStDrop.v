(** Removing instructions whose effect on memory does not matter (proof infrastructure, C46). *)
From Coq Require Import ZArith Lia Bool List Arith.
From Verif Require Import Sim Ssa SsaCfg SsaMerge SsaFwd SsaWf SsaDom SsaSub SsaEq SsaPhi SsaCse SsaDce LdSt LdStPts.
Import ListNotations.

(** what an observer sees of a step, given what he sees of an event and of the end of the run *)
Definition vres {W X Y} (vE : @event W -> X) (vF : @fin W -> Y) (r : @res W) : sres (@st W) X Y :=
  match r with Go s t => Go s (map vE t) | Fin x t => Fin (vF x) (map vE t) | Bad t => Bad (map vE t) end.
Definition vstep {W X Y} (m : sem W) args (vE : @event W -> X) (vF : @fin W -> Y) (f : func) (s : st) : sres st X Y :=
  vres vE vF (step m args f s).

Section V.
Context {W X Y : Type} (m : sem W) (args : nat -> value) (w0 : W) (vE : @event W -> X) (vF : @fin W -> Y).
Lemma vpre t (r : @res W) : vres vE vF (pre t r) = pre (map vE t) (vres vE vF r).
Proof. destruct r; cbn; now rewrite map_app. Qed.
Lemma vrun f n : forall s, run (vstep m args vE vF f) n s = vres vE vF (run (step m args f) n s).
Proof.
  induction n as [|n IH]; intros s; cbn; auto. unfold vstep at 1. destruct (step m args f s) as [s1 t|r t|t]; cbn; auto.
  now rewrite IH, vpre.
Qed.
Lemma vsafe f s : Sim.safe (vstep m args vE vF f) s <-> Sim.safe (step m args f) s.
Proof.
  split; intros H n t E.
  - apply (H n (map vE t)). now rewrite vrun, E.
  - rewrite vrun in E. destruct (run (step m args f) n s) eqn:K; try discriminate. eapply H; eauto.
Qed.
(** two runs that look the same step by step *)
Definition look (r r' : @res W) : Prop :=
  match r, r' with
  | Go _ t, Go _ t' => map vE t = map vE t'
  | Fin x t, Fin x' t' => vF x = vF x' /\ map vE t = map vE t'
  | _, _ => False
  end.
Lemma look_refines f g : (Sim.safe (step m args f) (start f w0) -> forall n, look (run (step m args f) n (start f w0)) (run (step m args g) n (start g w0))) ->
  refinesAt (vstep m args vE vF f) (vstep m args vE vF g) (start f w0) (start g w0).
Proof.
  intros H0 Hs. rewrite vsafe in Hs. specialize (H0 Hs). split; [|split; [|split]].
  - apply vsafe. intros n t E. specialize (H0 n). rewrite E in H0. destruct (run (step m args f) n (start f w0)); auto.
  - intros r t. split; intros [n E]; exists n; rewrite vrun in *; specialize (H0 n);
      destruct (run (step m args f) n (start f w0)), (run (step m args g) n (start g w0)); cbn in *; try discriminate; try tauto;
      destruct H0 as [A B]; congruence.
  - intros t. split; intros (n & u & E); exists n, u; rewrite vrun in *; specialize (H0 n);
      destruct (run (step m args f) n (start f w0)), (run (step m args g) n (start g w0)); cbn in *; try tauto; try destruct H0; congruence.
  - split; intros K n; destruct (K n) as (s & t & E); rewrite vrun in E; specialize (H0 n);
      destruct (run (step m args f) n (start f w0)) as [s1 t1|r1 t1|t1] eqn:E1, (run (step m args g) n (start g w0)) as [s2 t2|r2 t2|t2] eqn:E2; cbn in *; try discriminate; try tauto.
    + exists s2, (map vE t2). now rewrite vrun, E2.
    + exists s1, (map vE t1). now rewrite vrun, E1.
Qed.

Section Drop.
Variable f : func.
Variable u : nat -> bool.
(** how the worlds of the two runs are related at a point of [f] *)
Variable Rel : nat -> block -> list inst -> env -> W -> W -> Prop.
Hypothesis Hs : Sim.safe (step m args f) (start f w0).
Hypothesis Hu : forall b bk, get b f = Some bk -> forall x, In x (usesOf (keepBlock u bk)) -> u x = true.
Hypothesis Hstart : forall bk, get (entry f) f = Some bk -> Rel (entry f) bk [] (fun _ => None) w0 w0.
Hypothesis Hkeep : forall b bk pre i post e w w' vs, atPoint m args w0 f b bk pre e w -> body bk = pre ++ i :: post -> u (dst i) = true ->
  Rel b bk pre e w w' -> rds args e (ops i) = Some vs -> meaning m (opc i) vs w <> IBad ->
  map vE (evt m (opc i) vs w) = map vE (evt m (opc i) vs w') /\
  match meaning m (opc i) vs w with
  | IOk v w1 => exists w1', meaning m (opc i) vs w' = IOk v w1' /\ Rel b bk (pre ++ [i]) (upd e (dst i) v) w1 w1'
  | IHalt w1 => exists w1', meaning m (opc i) vs w' = IHalt w1' /\ vF (Exit w1) = vF (Exit w1')
  | IBad => True
  end.
Hypothesis Hdrop : forall b bk pre i post e w w' vs, atPoint m args w0 f b bk pre e w -> body bk = pre ++ i :: post -> u (dst i) = false ->
  Rel b bk pre e w w' -> rds args e (ops i) = Some vs -> meaning m (opc i) vs w <> IBad ->
  map vE (evt m (opc i) vs w) = [] /\ exists v w1, meaning m (opc i) vs w = IOk v w1 /\ Rel b bk (pre ++ [i]) (upd e (dst i) v) w1 w'.
Hypothesis Hterm : forall b bk e w w' b' bk' e1, atPoint m args w0 f b bk (body bk) e w -> Rel b bk (body bk) e w w' ->
  runTerm args e (trm bk) = TGo b' -> get b' f = Some bk' -> enter args e (Some b) (phis bk') = Some e1 -> Rel b' bk' [] e1 w w'.
Hypothesis Hret : forall b bk e w w' v, atPoint m args w0 f b bk (body bk) e w -> Rel b bk (body bk) e w w' ->
  runTerm args e (trm bk) = TFin v -> vF (Ret v w) = vF (Ret v w').
Notation g := (keepIn u f).
Notation flt := (filter (fun i => u (dst i))).

Definition R (s s' : @st W) : Prop := cur s' = cur s /\ prev s' = prev s /\ agree u (en s) (en s') /\
  forall bk e1, get (cur s) f = Some bk -> enter args (en s) (prev s) (phis bk) = Some e1 -> Rel (cur s) bk [] e1 (wd s) (wd s').
Lemma drop_body b bk n s t e1 : run (step m args f) n (start f w0) = Go s t -> cur s = b -> get b f = Some bk ->
  enter args (en s) (prev s) (phis bk) = Some e1 -> forall mid pre e w t0 e' w', (exists post, body bk = pre ++ mid ++ post) ->
  runBody m args e1 (wd s) pre = BGo e w t0 -> agree u e e' -> Rel b bk pre e w w' ->
  match runBody m args e w mid with
  | BGo e2 w2 t2 => exists e2' w2' t2', runBody m args e' w' (flt mid) = BGo e2' w2' t2' /\ map vE t2 = map vE t2' /\
                      agree u e2 e2' /\ Rel b bk (pre ++ mid) e2 w2 w2'
  | BHalt w2 t2 => exists w2' t2', runBody m args e' w' (flt mid) = BHalt w2' t2' /\ map vE t2 = map vE t2' /\ vF (Exit w2) = vF (Exit w2')
  | BBad _ => True
  end.
Proof.
  intros H Ec Gb En. induction mid as [|i mid IH]; intros pre e w t0 e' w' [post E] Rp A HR.
  - cbn. rewrite app_nil_r. exists e', w', []. auto.
  - assert (P : atPoint m args w0 f b bk pre e w) by (exists n, s, t, e1, t0, ((i :: mid) ++ post); auto 10).
    cbn [runBody]. destruct (rds args e (ops i)) as [vs|] eqn:Er; auto.
    assert (Dec : meaning m (opc i) vs w = IBad \/ meaning m (opc i) vs w <> IBad) by (destruct (meaning m (opc i) vs w); auto; right; discriminate).
    destruct Dec as [Eb|NB]; [now rewrite Eb|].
    destruct (u (dst i)) eqn:Ei.
    + destruct (Hkeep b bk pre i (mid ++ post) e w w' vs P E Ei HR Er NB) as [K1 K2].
      cbn [filter]. rewrite Ei. cbn [runBody]. rewrite <- (rds_agree args u e e' (ops i) A), Er.
      2:{ intros x Hx. apply (Hu b bk Gb). apply in_or_app. right. apply in_or_app. left. cbn. apply in_flat_map. exists i. split; auto.
          apply filter_In. split; auto. rewrite E. apply in_or_app. right. now left. }
      destruct (meaning m (opc i) vs w) as [v w1|w1|] eqn:Em; auto.
      * destruct K2 as (w1' & -> & HR1). specialize (IH (pre ++ [i]) (upd e (dst i) v) w1 (t0 ++ evt m (opc i) vs w) (upd e' (dst i) v) w1').
        replace ((pre ++ [i]) ++ mid) with (pre ++ i :: mid) in IH by (now rewrite <- app_assoc).
        assert (Ex : exists post0, body bk = (pre ++ [i]) ++ mid ++ post0) by (exists post; rewrite <- app_assoc; exact E). specialize (IH Ex).
        assert (Q : runBody m args e1 (wd s) (pre ++ [i]) = BGo (upd e (dst i) v) w1 (t0 ++ evt m (opc i) vs w)).
        { rewrite runBody_app, Rp. cbn. rewrite Er, Em. cbn. now rewrite app_nil_r. }
        specialize (IH Q (agree_upd u e e' (dst i) v A) HR1).
        destruct (runBody m args (upd e (dst i) v) w1 mid) as [e2 w2 t2|w2 t2|t2]; cbn [bpre].
        -- destruct IH as (e2' & w2' & t2' & -> & I1 & I2 & I3). cbn [bpre]. eexists _, _, _. split; [reflexivity|]. rewrite !map_app. split; [now rewrite K1, I1|]. auto.
        -- destruct IH as (w2' & t2' & -> & I1 & I2). cbn [bpre]. eexists _, _. split; [reflexivity|]. rewrite !map_app. split; [now rewrite K1, I1|]. auto.
        -- exact I.
      * destruct K2 as (w1' & -> & Kv). eexists _, _. split; [reflexivity|]. auto.
    + destruct (Hdrop b bk pre i (mid ++ post) e w w' vs P E Ei HR Er NB) as [K1 (v & w1 & Em & HR1)].
      cbn [filter]. rewrite Ei, Em. specialize (IH (pre ++ [i]) (upd e (dst i) v) w1 (t0 ++ evt m (opc i) vs w) e' w').
      replace ((pre ++ [i]) ++ mid) with (pre ++ i :: mid) in IH by (now rewrite <- app_assoc).
        assert (Ex : exists post0, body bk = (pre ++ [i]) ++ mid ++ post0) by (exists post; rewrite <- app_assoc; exact E). specialize (IH Ex).
      assert (Q : runBody m args e1 (wd s) (pre ++ [i]) = BGo (upd e (dst i) v) w1 (t0 ++ evt m (opc i) vs w)).
      { rewrite runBody_app, Rp. cbn. rewrite Er, Em. cbn. now rewrite app_nil_r. }
      specialize (IH Q (agree_drop u e e' (dst i) v A Ei) HR1).
      destruct (runBody m args (upd e (dst i) v) w1 mid) as [e2 w2 t2|w2 t2|t2]; cbn [bpre].
      * destruct IH as (e2' & w2' & t2' & -> & I1 & I2 & I3). eexists _, _, _. split; [reflexivity|]. rewrite !map_app. split; [now rewrite K1, I1|]. auto.
      * destruct IH as (w2' & t2' & -> & I1 & I2). eexists _, _. split; [reflexivity|]. rewrite !map_app. split; [now rewrite K1, I1|]. auto.
      * exact I.
Qed.
Lemma drop_enter s s' bk e1 : R s s' -> get (cur s) f = Some bk -> enter args (en s) (prev s) (phis bk) = Some e1 ->
  exists e1', enter args (en s') (prev s') (phis (keepBlock u bk)) = Some e1' /\ agree u e1 e1'.
Proof.
  intros (Hc & Hp & A & _) Eb En. rewrite Hp. destruct (prev s) as [p|]; cbn in En |- *.
  - destruct (rdPhis args (en s) p (phis bk)) as [vs|] eqn:Ev; [|discriminate]. cbn in En. injection En as <-.
    destruct (keep_phis args u p (phis bk) (en s) (en s) (en s') vs) as (vs' & Q & Q'); auto.
    { intros x Hx. apply (Hu _ _ Eb). apply in_or_app. auto. }
    rewrite Q. cbn. eauto.
  - destruct (phis bk); [|discriminate]. injection En as <-. cbn. eauto.
Qed.
Definition lock (r r' : @res W) : Prop := look r r' /\ match r, r' with Go s _, Go s' _ => R s s' | _, _ => True end.
Lemma drop_step n s t s' : run (step m args f) n (start f w0) = Go s t -> R s s' -> lock (step m args f s) (step m args g s').
Proof.
  intros H HR. assert (NB : forall t', step m args f s <> Bad t').
  { intros t' K. apply (Hs (n + 1)%nat (t ++ t')). rewrite run_add, H. cbn. rewrite K. reflexivity. }
  pose proof HR as (Hc & Hp & A & HW). unfold step in *. rewrite Hc, get_keepIn. destruct (get (cur s) f) as [bk|] eqn:Eb; [|destruct (NB [] eq_refl)].
  cbn [option_map]. unfold runBlock in *. destruct (enter args (en s) (prev s) (phis bk)) as [e1|] eqn:En; [|destruct (NB [] eq_refl)].
  destruct (drop_enter s s' bk e1 HR Eb En) as (e1' & -> & A1).
  assert (K := drop_body (cur s) bk n s t e1 H eq_refl Eb En (body bk) [] e1 (wd s) [] e1' (wd s') ltac:(exists []; cbn; now rewrite app_nil_r) eq_refl A1 (HW bk e1 eq_refl En)).
  change (body (keepBlock u bk)) with (flt (body bk)). change (trm (keepBlock u bk)) with (trm bk). cbn [app] in K.
  destruct (runBody m args e1 (wd s) (body bk)) as [e2 w2 t2|w2 t2|t2] eqn:Er.
  - destruct K as (e2' & w2' & t2' & -> & K1 & K2 & K3).
    assert (P : atPoint m args w0 f (cur s) bk (body bk) e2 w2) by (exists n, s, t, e1, t2, []; rewrite app_nil_r; auto 10).
    rewrite <- (runTerm_agree args u e2 e2' (trm bk) K2).
    2:{ intros x Hx. apply (Hu _ _ Eb). apply in_or_app. right. apply in_or_app. auto. }
    destruct (runTerm args e2 (trm bk)) as [b'|v|] eqn:Et; [| |destruct (NB t2 eq_refl)].
    + split; [exact K1|]. split; [reflexivity|]. split; [cbn; congruence|]. cbn. split; auto.
      intros bk' e3 Gb' En'. eapply (Hterm _ bk e2 w2 w2'); eauto.
    + split; [|exact I]. cbn. split; auto. eapply Hret; eauto.
  - destruct K as (w2' & t2' & -> & K1 & K2). split; [|exact I]. cbn. auto.
  - destruct (NB t2 eq_refl).
Qed.
Lemma drop_run n : lock (run (step m args f) n (start f w0)) (run (step m args g) n (start g w0)).
Proof.
  induction n as [|n IH].
  - cbn. split; [reflexivity|]. unfold start. rewrite entry_keepIn. repeat (split; [reflexivity|]). cbn. split; [intros x _; reflexivity|].
    intros bk e1 Gb En. destruct (phis bk); [|discriminate]. injection En as <-. auto.
  - replace (Datatypes.S n) with (n + 1)%nat by lia. rewrite !run_add. destruct IH as [L1 L2].
    destruct (run (step m args f) n (start f w0)) as [s t|r t|t] eqn:E1, (run (step m args g) n (start g w0)) as [s' t'|r' t'|t'] eqn:E2; cbn in L1; try contradiction; try (split; auto; fail).
    cbn [run]. destruct (drop_step n s t s' E1 L2) as [K1 K2].
    destruct (step m args f s) as [s1 t1|r1 t1|t1], (step m args g s') as [s2 t2|r2 t2|t2]; cbn in K1, K2 |- *; try tauto.
    + cbn in L1. split; auto. cbn. rewrite !app_nil_r, !map_app. congruence.
    + cbn in L1. destruct K1 as [K1 K3]. split; auto. cbn. rewrite !map_app. split; congruence.
Qed.
Theorem drop_refines : refinesAt (vstep m args vE vF f) (vstep m args vE vF g) (start f w0) (start g w0).
Proof. apply look_refines. intros _ n. apply drop_run. Qed.
Lemma filter_app_inv {A} (q : A -> bool) l : forall l1 l2, filter q l = l1 ++ l2 -> exists k1 k2, l = k1 ++ k2 /\ filter q k1 = l1 /\ filter q k2 = l2.
Proof.
  induction l as [|a l IH]; intros l1 l2; cbn.
  - intros E. symmetry in E. apply app_eq_nil in E as [-> ->]. exists [], []. auto.
  - destruct (q a) eqn:Ea.
    + destruct l1 as [|b l1]; cbn; intros E.
      * subst l2. exists [], (a :: l). cbn. rewrite Ea. auto.
      * injection E as -> E. destruct (IH _ _ E) as (k1 & k2 & -> & <- & <-). exists (b :: k1), k2. cbn. rewrite Ea. auto.
    + intros E. destruct (IH _ _ E) as (k1 & k2 & -> & <- & <-). exists (a :: k1), k2. cbn. rewrite Ea. auto.
Qed.
(** every point of the new function is one of the old one *)
Theorem drop_points b bk' pre' e' w' : atPoint m args w0 g b bk' pre' e' w' -> exists bk, get b f = Some bk /\ bk' = keepBlock u bk /\
  forall pre post, body bk = pre ++ post -> flt pre = pre' ->
  exists e w, atPoint m args w0 f b bk pre e w /\ agree u e e' /\ Rel b bk pre e w w'.
Proof.
  intros (n & s' & t & e1' & t' & post' & H & Ec & Gb & En & Eb' & Q). pose proof (drop_run n) as [L1 L2]. rewrite H in L1, L2.
  destruct (run (step m args f) n (start f w0)) as [s t0|r t0|t0] eqn:E1; cbn in L1; try contradiction.
  rewrite get_keepIn in Gb. destruct (get b f) as [bk|] eqn:Gf; [|discriminate]. cbn in Gb. injection Gb as <-.
  exists bk. split; auto. split; auto. intros pre post Eb Ep. subst pre'. clear Eb'.
  pose proof L2 as (Hc & Hp & A & HW).
  assert (NB : forall t', step m args f s <> Bad t').
  { intros u0 K. apply (Hs (n + 1)%nat (t0 ++ u0)). rewrite run_add, E1. cbn. rewrite K. reflexivity. }
  assert (Gs : get (cur s) f = Some bk) by congruence.
  destruct (enter args (en s) (prev s) (phis bk)) as [e1|] eqn:Ee.
  2:{ exfalso. apply (NB []). unfold step, runBlock. rewrite Gs, Ee. reflexivity. }
  destruct (drop_enter s s' bk e1 L2 Gs Ee) as (e2 & En2 & A1). assert (e2 = e1') by congruence. subst e2.
  assert (K := drop_body (cur s) bk n s t0 e1 E1 eq_refl Gs Ee pre [] e1 (wd s) [] e1' (wd s') ltac:(exists post; cbn; exact Eb) eq_refl A1 (HW bk e1 Gs Ee)).
  cbn [app] in K. destruct (runBody m args e1 (wd s) pre) as [e3 w3 t3|w3 t3|t3] eqn:Er.
  - destruct K as (e4 & w4 & t4 & Q' & _ & A2 & HR). assert (E4 : BGo e' w' t' = BGo e4 w4 t4) by congruence. injection E4 as -> -> _.
    exists e3, w3. split; [|rewrite <- Ec, Hc; auto]. exists n, s, t0, e1, t3, post. split; auto. split; [congruence|]. auto.
  - destruct K as (w4 & t4 & Q' & _). congruence.
  - exfalso. apply (NB t3). unfold step, runBlock. rewrite Gs, Ee, Eb, runBody_app, Er. reflexivity.
Qed.
Lemma drop_safe : Sim.safe (step m args g) (start g w0).
Proof.
  intros n t E. pose proof (drop_run n) as [L _]. rewrite E in L. destruct (run (step m args f) n (start f w0)); exact L.
Qed.
End Drop.
End V.
