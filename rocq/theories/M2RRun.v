(** The run with the new phis, and the values of promoted variables along it (proofs, C48). *)
From Coq Require Import ZArith Lia Bool List Arith.
From Verif Require Import Sim Ssa SsaCfg SsaMerge SsaFwd SsaWf SsaDom SsaSub SsaEq SsaPhi SsaCse LdSt LdStPts M2R M2RVal M2RRel M2RPriv.
Import ListNotations.

Section Run.
Context {W : Type} (m : sem W) (M : memory W) (K : secrecy (W:=W)) (args : nat -> value) (w0 : W).
Variable pk : nat -> pkind.
Variable scalar : nat -> bool.
Variable pr : nat -> list nat.
Variable f : func.
Notation vars := (promotable pk scalar f).
Hypothesis Hw : wfs f.
Hypothesis Hpr : forall b p, In p (pr b) <-> exists pb, get p f = Some pb /\ In b (succs (trm pb)).
Hypothesis Hentry : pr (entry f) = [].
Variable Gs : list gphi.
Variable Q : list (nat * opnd).
Hypothesis Sol : solved pk pr vars f Gs Q.
Notation h := (ghost Gs f).
Notation prefVal := (prefVal pk pr f Gs Q).
Notation entryVal := (entryVal pk pr f Gs Q).
Notation N := (map gname Gs).
Lemma Hh : wfs h. Proof using Hw Hpr Hentry Sol. exact (ghost_wfs pk pr vars f Hw Hpr Hentry Gs Q Sol). Qed.
Lemma Uh : uniqueDefs h. Proof using Hw Sol. exact (ghost_unique pk pr vars f Hw Gs Q Sol). Qed.

Lemma old_not_new x : In x (allResults f) -> ~ In x N.
Proof using Sol.
  intros H I. apply in_map_iff in I as (g & <- & I). destruct Sol as (_ & S & _). destruct (S g I) as [L _]. pose proof (fresh_ge f _ H). lia.
Qed.
Lemma def_not_new x d : defIn f x d -> ~ In x N.
Proof using Sol. intros (bk & G & I). apply old_not_new. eapply result_in; eauto. Qed.
Lemma avail_not_new b bk pre post x : get b f = Some bk -> body bk = pre ++ post -> availAt f b bk pre x -> ~ In x N.
Proof using Sol.
  intros G E [(d & D & _)|H]; [eapply def_not_new; eauto|]. apply (def_not_new x b). exists bk. split; auto. apply in_or_app. destruct H as [H|H]; auto. right. rewrite E, map_app. apply in_or_app. now left.
Qed.
Lemma body_uses b bk x : get b f = Some bk -> reach f b -> In x (bodyUses (body bk)) -> ~ In x N.
Proof using Hw Sol.
  intros G R I. apply in_flat_map in I as (i & Ii & I). apply in_split in Ii as (pre & post & E). destruct Hw as (_ & Hs & _). destruct (Hs b bk G R) as (A & _). specialize (A pre i post E).
  apply in_flat_map in I as (o & Io & I). rewrite Forall_forall in A. specialize (A o Io). rewrite (res_of_eq _ _ I) in A. eapply (avail_not_new b bk pre (i :: post)); eauto.
Qed.
Lemma term_uses b bk x : get b f = Some bk -> reach f b -> In x (termUses (trm bk)) -> ~ In x N.
Proof using Hw Sol.
  intros G R I. destruct Hw as (_ & Hs & _). destruct (Hs b bk G R) as (_ & A & _). apply in_flat_map in I as (o & Io & I). rewrite Forall_forall in A. specialize (A o Io).
  rewrite (res_of_eq _ _ I) in A. eapply (avail_not_new b bk (body bk) []); eauto. now rewrite app_nil_r.
Qed.
Lemma rdPhis_at e e' p l : (forall ph o, In ph l -> get p (inc ph) = Some o -> rd args e o = rd args e' o) -> rdPhis args e p l = rdPhis args e' p l.
Proof using.
  induction l as [|ph l IH]; cbn; intros H; auto. rewrite IH by eauto. destruct (get p (inc ph)) as [o|] eqn:E; auto. now rewrite (H ph o (or_introl eq_refl) E).
Qed.
Lemma rdPhis_app e p l1 l2 : rdPhis args e p (l1 ++ l2) = match rdPhis args e p l1, rdPhis args e p l2 with Some a, Some b => Some (a ++ b) | _, _ => None end.
Proof using.
  induction l1 as [|ph l1 IH]; cbn; [now destruct (rdPhis args e p l2)|]. destruct (get p (inc ph)) as [o|]; auto. rewrite IH. destruct (rd args e o); auto.
  destruct (rdPhis args e p l1); auto. destruct (rdPhis args e p l2); auto.
Qed.
Lemma rdPhis_ok e p l : (forall ph, In ph l -> exists o v, get p (inc ph) = Some o /\ rd args e o = Some v) -> exists vs, rdPhis args e p l = Some vs.
Proof using.
  induction l as [|ph l IH]; cbn; intros H; [eauto|]. destruct (H ph (or_introl eq_refl)) as (o & v & -> & ->). destruct IH as [vs ->]; eauto.
Qed.
Lemma updAll_app e l1 l2 : updAll e (l1 ++ l2) = updAll (updAll e l1) l2.
Proof using. unfold updAll. apply fold_left_app. Qed.
Lemma updAll_new X e l : incl (map fst l) X -> eqOff X e (updAll e l).
Proof using. intros H y Ny. symmetry. apply updAll_ne. auto. Qed.

Definition rel (s s' : st (W:=W)) : Prop := cur s' = cur s /\ prev s' = prev s /\ wd s' = wd s /\ eqOff N (en s) (en s').
Lemma corr_enter s s' bk e1 : rel s s' -> hist f s -> hist h s' -> definedIn h s' -> get (cur s) f = Some bk ->
  enter args (en s) (prev s) (phis bk) = Some e1 -> exists e1', enter args (en s') (prev s') (map gph (gAt Gs (cur s)) ++ phis bk) = Some e1' /\ eqOff N e1 e1'.
Proof using Hw Hpr Hentry Sol.
  intros (C1 & C2 & C3 & C4) Hs Hs' Df Gb En. unfold enter in *. rewrite C2. destruct (prev s) as [p|] eqn:Ep.
  - destruct (rdPhis args (en s) p (phis bk)) as [vs|] eqn:Ev; [|discriminate]. injection En as <-.
    destruct (hist_prev f s p Hs Ep) as (Rp & pb & Gp & Hin).
    destruct (rdPhis_ok (en s') p (map gph (gAt Gs (cur s)))) as [vn Hn].
    { intros ph I. apply in_map_iff in I as (g & <- & I). apply gAt_in in I as [I Eb]. cbn. destruct Sol as (_ & S & _). destruct (S g I) as (_ & _ & _ & _ & A & B).
      assert (Ip : In p (pr (gblk g))) by (apply Hpr; rewrite Eb; eauto). specialize (A p Ip). destruct (get p (ginc g)) as [o|] eqn:Eo; [|congruence]. exists o.
      destruct (B p o (get_In _ _ _ Eo)) as (_ & bp & Gbp & Pv). rewrite Gp in Gbp. injection Gbp as <-.
      assert (Gph : get p h = Some (Block (map gph (gAt Gs p) ++ phis pb) (body pb) (trm pb))) by (rewrite get_ghost, Gp; reflexivity).
      pose proof (prefVal_avail pk pr vars f Hw Hpr Hentry Gs Q Sol p _ (body pb) [] _ o Rp Gph (eq_sym (app_nil_r _)) Pv) as Av.
      unfold definedIn in Df. rewrite C2 in Df. destruct o as [c|n|y]; cbn; eauto. cbn in Av. apply (proj2 (availOut_at h p _ y Gph)) in Av. specialize (Df y Av).
      destruct (en s' y); eauto. congruence. }
    exists (updAll (en s') (vn ++ vs)). split.
    + rewrite rdPhis_app, Hn. rewrite <- (rdPhis_at (en s) (en s')).
      * rewrite Ev. reflexivity.
      * intros ph o Iph Go. apply (rd_eqOff args N); auto. intros x Ix. rewrite (res_of_eq _ _ Ix) in Go. destruct Hw as (_ & Hss & _).
        destruct (Hss (cur s) bk Gb (hist_reach _ _ Hs)) as (_ & _ & Hc). specialize (Hc ph p _ Iph (get_In _ _ _ Go) Rp). destruct Hc as (d & D & _). eapply def_not_new; eauto.
    + rewrite updAll_app. apply updAll_eqOff. intros y Ny. rewrite C4 by auto. apply (updAll_new N); auto. rewrite (rdPhis_fst _ _ _ _ _ Hn).
      intros z Iz. apply in_map_iff in Iz as (ph & <- & I). apply in_map_iff in I as (g & <- & I). apply gAt_in in I as [I _]. cbn. now apply in_map.
  - destruct (phis bk) as [|? ?] eqn:Eph; [|discriminate]. injection En as <-.
    destruct (gAt Gs (cur s)) as [|g l] eqn:Eg; [cbn; eauto|]. exfalso.
    assert (I : In g (gAt Gs (cur s))) by (rewrite Eg; now left). apply gAt_in in I as [I Eb]. destruct Sol as (_ & S & _). destruct (S g I) as (_ & Ne & _).
    destruct Hs as (l0 & Hl & Hp). rewrite Ep in Hp. destruct l0; [|discriminate]. inversion Hl as [|p0 l0 bk0 t0 Hp0 G0 T0]; subst; [congruence|]. inversion Hp0.
Qed.
Lemma corr_step s s' : rel s s' -> hist f s -> hist h s' -> definedIn h s' ->
  match step m args f s with Go s1 t => exists s1', step m args h s' = Go s1' t /\ rel s1 s1' | Fin r t => step m args h s' = Fin r t | Bad _ => True end.
Proof using Hw Hpr Hentry Sol.
  intros Rl Hs Hs' Df. pose proof Rl as (C1 & C2 & C3 & C4). unfold step. rewrite C1, get_ghost. destruct (get (cur s) f) as [bk|] eqn:Gb; cbn [option_map]; auto.
  unfold runBlock. cbn [phis body trm]. destruct (enter args (en s) (prev s) (phis bk)) as [e1|] eqn:Ee; auto.
  destruct (corr_enter s s' bk e1 Rl Hs Hs' Df Gb Ee) as (e1' & -> & E1). rewrite C3. pose proof (hist_reach _ _ Hs) as R.
  pose proof (runBody_eqOff m args N (body bk) (fun x => body_uses (cur s) bk x Gb R) e1 e1' (wd s) E1) as H.
  destruct (runBody m args e1 (wd s) (body bk)) as [e2 w2 t2|w2 t2|t2], (runBody m args e1' (wd s) (body bk)) as [e2' w2' t2'|w2' t2'|t2']; try contradiction; auto.
  - destruct H as (E2 & -> & ->). rewrite (runTerm_eqOff args N e2 e2' (trm bk) E2) by (intros x; eapply term_uses; eauto).
    destruct (runTerm args e2' (trm bk)); auto. eexists. split; [reflexivity|]. repeat split; auto.
  - destruct H as (-> & ->). reflexivity.
Qed.
Lemma corr n : match run (step m args f) n (start f w0) with
  | Go s t => exists s', run (step m args h) n (start h w0) = Go s' t /\ rel s s' /\ definedIn h s'
  | Fin r t => run (step m args h) n (start h w0) = Fin r t | Bad _ => True end.
Proof using Hw Hpr Hentry Sol.
  induction n as [|n IH].
  - cbn. exists (start h w0). split; auto. split; [|exact I]. unfold rel, start. cbn. rewrite entry_ghost. repeat split.
  - replace (S n) with (n + 1)%nat by lia. rewrite !run_add. destruct (run (step m args f) n (start f w0)) as [s t|r t|t] eqn:E; auto.
    + destruct IH as (s' & E' & Rl & Df). rewrite E'. cbn. pose proof (run_hist m args w0 f _ _ _ E) as Hs. pose proof (run_hist m args w0 h _ _ _ E') as Hs'.
      pose proof (corr_step s s' Rl Hs Hs' Df) as H. destruct (step m args f s) as [s1 t1|r1 t1|t1]; cbn; auto.
      * destruct H as (s1' & H1 & R1). rewrite H1. cbn. exists s1'. split; auto. split; auto. eapply (defined_step m args h Uh); eauto.
      * now rewrite H.
    + now rewrite IH.
Qed.
Hypothesis Hsafe : Sim.safe (step m args f) (start f w0).
Lemma corr_point b bk' pre e' w : atPoint m args w0 h b bk' pre e' w -> exists bk e, atPoint m args w0 f b bk pre e w /\ eqOff N e e' /\ bk' = Block (map gph (gAt Gs b) ++ phis bk) (body bk) (trm bk).
Proof using Hw Hpr Hentry Sol Hsafe.
  intros (n & s' & t & e1' & t' & post & H & E & Gb & En & Eb & R). pose proof (corr n) as C. pose proof (fun t => Hsafe n t) as Sf.
  destruct (run (step m args f) n (start f w0)) as [s t0|r t0|t0] eqn:Er; [|rewrite C in H; discriminate|exfalso; eapply Sf; eauto].
  destruct C as (s1 & C1 & Rl & Df). rewrite C1 in H. injection H as -> ->. pose proof Rl as (D1 & D2 & D3 & D4).
  pose proof (run_hist m args w0 f _ _ _ Er) as Hs. pose proof (run_hist m args w0 h _ _ _ C1) as Hs'.
  rewrite get_ghost in Gb. destruct (get b f) as [bk|] eqn:Gf; [|discriminate]. injection Gb as <-. cbn [phis body trm] in *.
  assert (Gc : get (cur s) f = Some bk) by (rewrite <- D1, E; exact Gf).
  destruct (enter args (en s) (prev s) (phis bk)) as [e1|] eqn:Ee.
  - destruct (corr_enter s s' bk e1 Rl Hs Hs' Df Gc Ee) as (e2 & E2 & E3). rewrite <- D1, E in E2. rewrite En in E2. injection E2 as <-.
    assert (Hu : forall x, In x (bodyUses pre) -> ~ In x N).
    { intros x Ix. apply (body_uses (cur s) bk x Gc (hist_reach _ _ Hs)). rewrite Eb. unfold bodyUses. rewrite flat_map_app. apply in_or_app. now left. }
    pose proof (runBody_eqOff m args N pre Hu e1 e1' (wd s') E3) as H. rewrite R in H.
    destruct (runBody m args e1 (wd s') pre) as [e w1 t1|w1 t1|t1] eqn:Eq; try contradiction. destruct H as (H1 & <- & ->).
    exists bk, e. split; [|auto]. exists n, s, t, e1, t', post. rewrite D3 in Eq. rewrite D1 in E. auto 10.
  - exfalso. apply (Hsafe (n + 1)%nat (t ++ [])). rewrite run_add, Er. cbn. unfold step. rewrite Gc. unfold runBlock. rewrite Ee. reflexivity.
Qed.
Lemma ghost_refines : refinesAt (step m args f) (step m args h) (start f w0) (start h w0).
Proof using Hw Hpr Hentry Sol.
  intros Sf. assert (C := corr). split; [|split; [|split]].
  - intros n t H. specialize (C n). specialize (Sf n). destruct (run (step m args f) n (start f w0)) as [s u|r u|u]; [|congruence|exfalso; eapply Sf; eauto].
    destruct C as (s' & C & _). congruence.
  - intros r t. unfold finishes. split; intros [n H]; exists n; specialize (C n); specialize (Sf n).
    + rewrite H in C. exact C.
    + destruct (run (step m args f) n (start f w0)) as [s u|r1 u|u]; [|congruence|exfalso; eapply Sf; eauto]. destruct C as (s' & C & _). congruence.
  - intros t. unfold emits. split; intros (n & u & H); exists n, u; specialize (C n); specialize (Sf n).
    + destruct (run (step m args f) n (start f w0)) as [s u1|r1 u1|u1]; [|rewrite C; exact H|exfalso; eapply Sf; eauto].
      destruct C as (s' & C & _). rewrite C. exact H.
    + destruct (run (step m args f) n (start f w0)) as [s u1|r1 u1|u1]; [|rewrite C in H; exact H|exfalso; eapply Sf; eauto].
      destruct C as (s' & C & _). rewrite C in H. exact H.
  - unfold diverges. split; intros H n; destruct (H n) as (s & t & K1); specialize (C n); specialize (Sf n).
    + rewrite K1 in C. destruct C as (s' & C & _). eauto.
    + destruct (run (step m args f) n (start f w0)) as [s1 u1|r1 u1|u1]; [eauto|congruence|exfalso; eapply Sf; eauto].
Qed.
End Run.
