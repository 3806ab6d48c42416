(** C57: one block of SmallBlockInlining keeps the behaviour.  Proofs only. *)
From Coq Require Import ZArith Lia Bool List Arith.
From Verif Require Import Sim Ssa SsaCfg SsaMerge SsaFwd SsaFwd2 SsaWf SsaDom SsaProps SsaEq SsaPhi SsaCse SsaDce SsaGvn CodeMotion M2RRun Ifc SmallInl.
Import ListNotations.

Lemma updAll_phi args p l : NoDup (map pdst l) -> forall (e e0 : env) vs, rdPhis args e p l = Some vs -> forall q o, In q l -> get p (inc q) = Some o ->
  updAll e0 vs (pdst q) = rd args e o.
Proof.
  induction l as [|a l IH]; intros N e e0 vs H q o Hq Ho; [destruct Hq|]. cbn in H. destruct (get p (inc a)) as [oa|] eqn:Ea; [|discriminate].
  destruct (rd args e oa) as [v|] eqn:Ev; [|discriminate]. destruct (rdPhis args e p l) as [vs0|] eqn:E0; [|discriminate]. injection H as <-.
  cbn in N. inversion N as [|? ? N1 N2]; subst. destruct Hq as [->|Hq].
  - change (updAll (upd e0 (pdst q) v) vs0 (pdst q) = rd args e o). rewrite updAll_ne; [|rewrite (rdPhis_fst _ _ _ _ _ E0); exact N1]. unfold upd. rewrite Nat.eqb_refl. congruence.
  - change (updAll (upd e0 (pdst a) v) vs0 (pdst q) = rd args e o). eapply IH; eauto.
Qed.
Lemma updAll_hit (vs : list (nat * value)) : forall e x, In x (map fst vs) -> exists v, In (x, v) vs /\ updAll e vs x = Some v.
Proof.
  induction vs as [|[y v] vs IH]; intros e x H; [destruct H|]. change (exists v0, In (x, v0) ((y, v) :: vs) /\ updAll (upd e y v) vs x = Some v0). destruct (in_dec Nat.eq_dec x (map fst vs)) as [K|K].
  - destruct (IH (upd e y v) x K) as (v' & A & B). exists v'. split; [now right|exact B].
  - destruct H as [H|H]; [cbn in H; subst y|contradiction]. exists v. split; [now left|]. rewrite updAll_ne; auto. unfold upd. now rewrite Nat.eqb_refl.
Qed.
Lemma get_startMap k l : NoDup (map pdst l) -> forall ph, In ph l -> get (pdst ph) (startMap k l) = Some (atInc k ph).
Proof.
  unfold startMap. induction l as [|a l IH]; intros N ph H; [destruct H|]. cbn in N |- *. inversion N as [|? ? N1 N2]; subst. destruct H as [->|H].
  - now rewrite Nat.eqb_refl.
  - destruct (Nat.eqb_spec (pdst a) (pdst ph)) as [E|_]; auto. exfalso. apply N1. rewrite E. now apply in_map.
Qed.
Lemma startMap_fst k l : map fst (startMap k l) = map pdst l.
Proof. unfold startMap. rewrite map_map. reflexivity. Qed.

Lemma nm_inj n len p i j : nm n len p i = nm n len p j -> i = j.
Proof. unfold nm. lia. Qed.
Lemma nm_new n len p j : (nm n len p j <? n) = false.
Proof. unfold nm. apply Nat.ltb_ge. lia. Qed.

Section One.
Variables (f : func) (b d : nat) (tb : block).
Hypothesis Hw : wf f.
Hypothesis Hb : get b f = Some tb.
Hypothesis Tb : trm tb = TBr d.
Hypothesis NE : b <> entry f.
Hypothesis HP : forall p pb, get p f = Some pb -> In b (succs (trm pb)) -> p <> b /\ forall t, In t (succs (trm pb)) -> t = b.
Hypothesis Hord : ordered (body tb) = true.
Let n := freshBase f.
Let len := length (body tb).
Let nam := nm n len.
Let g : func := map (fun kb => (fst kb, sbBlk f b tb (fst kb) (snd kb))) f.
Let okn (x : nat) : bool := x <? n.
Let hid (x : nat) : bool := inb x (map dst (body tb)) && negb (usedOut f b x).
Let u (x : nat) : bool := okn x && negb (hid x).

Lemma sb_get k : get k g = option_map (sbBlk f b tb k) (get k f).
Proof using. apply (get_mapk (sbBlk f b tb)). Qed.
Lemma nam_new p j : okn (nam p j) = false.
Proof using. apply nm_new. Qed.
Lemma nam_inj p i j : nam p i = nam p j -> i = j.
Proof using. apply nm_inj. Qed.
Lemma ok_use k bk x : get k f = Some bk -> In x (usesOf bk) -> okn x = true.
Proof using. intros G H. unfold okn. apply Nat.ltb_lt. eapply freshBase_use; eauto. Qed.
Lemma usedOut_In k bk x : get k f = Some bk -> In x (if Nat.eqb k b then phiUses (phis bk) ++ termUses (trm bk) else usesOf bk) -> usedOut f b x = true.
Proof using. intros G H. unfold usedOut. apply existsb_exists. exists (k, bk). split; [now apply get_In|]. cbn. now apply inb_In. Qed.
Lemma u_other k bk x : get k f = Some bk -> k <> b -> In x (usesOf bk) -> u x = true.
Proof using.
  intros G N H. unfold u. rewrite (ok_use k bk x G H). unfold hid. rewrite (usedOut_In k bk x G); [now rewrite andb_false_r|].
  destruct (Nat.eqb_spec k b); [contradiction|exact H].
Qed.
Lemma u_b x : In x (phiUses (phis tb) ++ termUses (trm tb)) -> u x = true.
Proof using Hb.
  intros H. unfold u. rewrite (ok_use b tb x Hb).
  - unfold hid. rewrite (usedOut_In b tb x Hb); [now rewrite andb_false_r|]. now rewrite Nat.eqb_refl.
  - unfold usesOf. apply in_app_or in H as [H|H]; apply in_or_app; [auto|]. right. apply in_or_app. auto.
Qed.
Lemma ok_res k bk x : get k f = Some bk -> In x (resultsOf bk) -> okn x = true.
Proof using.
  intros G H. unfold okn. apply Nat.ltb_lt. apply freshBase_res. unfold allResults. apply in_flat_map. exists (k, bk). split; auto. now apply get_In.
Qed.
Lemma ND : NoDup (map pdst (phis tb)) /\ NoDup (map dst (body tb)) /\ forall x, In x (map pdst (phis tb)) -> In x (map dst (body tb)) -> False.
Proof using Hw Hb.
  pose proof (wf_NoDup_block f b tb Hw Hb) as N. split; [now apply NoDup_app_l in N|]. split; [now apply NoDup_app_r in N|]. now apply NoDup_app_disj.
Qed.

Section Run.
Context {W : Type}.
Variable m : sem W.
Variable args : nat -> value.
Lemma start_mapOk k e2 e2' vs : agree u e2 e2' -> rdPhis args e2 k (phis tb) = Some vs ->
  mapOk args okn (nam k) (updAll e2 vs) e2' (startMap k (phis tb)) 0 (body tb).
Proof using Hw Hb.
  intros A Hvs. destruct ND as (N1 & N2 & N3). split.
  - intros x Hx Nx. cbn [rd]. destruct (in_dec Nat.eq_dec x (map pdst (phis tb))) as [K|K].
    + apply in_map_iff in K as (ph & <- & K). cbn [subO]. rewrite (get_startMap k _ N1 ph K). unfold atInc.
      destruct (get k (inc ph)) as [o|] eqn:Eo.
      * rewrite (updAll_phi args k _ N1 e2 e2 vs Hvs ph o K Eo). apply (rd_agree args u); auto. intros y Hy. apply u_b. apply in_or_app. left.
        unfold phiUses. apply in_flat_map. exists ph. split; auto. apply in_flat_map. exists (k, o). split; auto. now apply get_In.
      * exfalso. clear - Hvs K Eo. revert vs Hvs. induction (phis tb) as [|a l IH]; intros vs H; [destruct K|]. cbn in H. destruct (get k (inc a)) as [oa|] eqn:Ea; [|discriminate].
        destruct K as [->|K]; [congruence|]. destruct (rd args e2 oa); [|discriminate]. destruct (rdPhis args e2 k l) as [vs0|]; [|discriminate]. eapply IH; eauto.
    + cbn [subO]. replace (get x (startMap k (phis tb))) with (@None opnd) by (symmetry; apply get_None; now rewrite startMap_fst).
      cbn [rd]. rewrite updAll_ne by (now rewrite (rdPhis_fst _ _ _ _ _ Hvs)). apply A. unfold u. rewrite Hx. unfold hid.
      replace (inb x (map dst (body tb))) with false; [reflexivity|]. symmetry. apply not_true_iff_false. intros H. apply inb_In in H. contradiction.
  - intros x o H. unfold startMap in H. apply in_map_iff in H as (ph & E & H). injection E as <- <-. unfold atInc. destruct (get k (inc ph)) as [o|] eqn:Eo; auto.
    destruct o as [c|q|y]; auto. left. assert (K : u y = true); [|unfold u in K; now apply andb_true_iff in K as [K _]]. apply u_b. apply in_or_app. left.
    unfold phiUses. apply in_flat_map. exists ph. split; auto. apply in_flat_map. exists (k, ORes y). split; [now apply get_In|]. now left.
Qed.
Lemma get_self (h : nat -> opnd) k ps : In k ps -> get k (map (fun p => (p, h p)) ps) = Some (h k).
Proof using. induction ps as [|p ps IH]; intros H; [destruct H|]. cbn. destruct (Nat.eqb_spec p k) as [->|D]; auto. destruct H; [congruence|auto]. Qed.
Lemma outPhis_rd k ps e4 e4' l : In k ps -> forall j,
  (forall q i, nth_error l q = Some i -> exists v, e4 (dst i) = Some v /\ e4' (nam k (j + q)) = Some v) ->
  exists nvs, rdPhis args e4' k (outPhis f b nam ps j l) = Some nvs /\ (forall x v, In (x, v) nvs -> e4 x = Some v) /\
    (forall x, In x (map fst nvs) -> In x (map dst l)) /\ (forall x, In x (map dst l) -> usedOut f b x = true -> In x (map fst nvs)).
Proof using NE.
  intros Hk. induction l as [|i l IH]; intros j H.
  - exists []. split; [reflexivity|]. split; [intros x v []|]. split; intros x [].
  - destruct (IH (S j)) as (nvs & A & B & C & D).
    { intros q i0 Hq. specialize (H (S q) i0 Hq). now replace (S j + q) with (j + S q) by lia. }
    cbn [outPhis]. destruct (H 0 i eq_refl) as (v & H1 & H2). rewrite Nat.add_0_r in H2. destruct (usedOut f b (dst i)) eqn:E.
    + exists ((dst i, v) :: nvs). cbn [app rdPhis inc pdst]. rewrite (get_self (fun p => ORes (nam p j)) k ps Hk). cbn [rd]. rewrite H2, A. split; auto. split; [|split].
      * intros x v0 [[= <- <-]|K]; auto.
      * intros x [<-|K]; [now left|right; auto].
      * intros x [<-|K] Ux; [now left|right; auto].
    + exists nvs. split; auto. split; auto. split; [intros x K; right; auto|]. intros x [<-|K] Ux; [congruence|auto].
Qed.
Let R (s s' : st (W:=W)) : Prop := cur s' = cur s /\ prev s' = prev s /\ wd s' = wd s /\ cur s <> b /\ agree u (en s) (en s').
Lemma enter_agree (l : list phi) e e' p : agree u e e' -> (forall x, In x (phiUses l) -> u x = true) ->
  match enter args e p l with Some e1 => exists e1', enter args e' p l = Some e1' /\ agree u e1 e1' | None => True end.
Proof using.
  intros A H. unfold enter. destruct p as [p|].
  - rewrite <- (rdPhis_agree args u e e' p l A H). destruct (rdPhis args e p l) as [vs|]; cbn; auto. eexists. split; eauto. now apply updAll_agree.
  - destruct l; eauto.
Qed.
Lemma sb_step s s' : Sim.safe (step m args f) s -> R s s' -> meets (step m args f) (step m args g) R s s'.
Proof using Hw Hb Tb NE HP Hord.
  intros Hs (Hc & Hp & Hwd & Nb & A). pose proof (fun t => safe_step m args f s t Hs) as Sf.
  destruct (get (cur s) f) as [bk|] eqn:Eb; [|exfalso; apply (Sf []); unfold step; now rewrite Eb].
  set (k := cur s) in *.
  assert (Uk : forall x, In x (usesOf bk) -> u x = true) by (intros x; apply (u_other k bk x Eb Nb)).
  assert (U1 : forall x, In x (phiUses (phis bk)) -> u x = true) by (intros x Hx; apply Uk; apply in_or_app; auto).
  assert (U2 : forall x, In x (bodyUses (body bk)) -> u x = true) by (intros x Hx; apply Uk; apply in_or_app; right; apply in_or_app; auto).
  assert (U3 : forall x, In x (termUses (trm bk)) -> u x = true) by (intros x Hx; apply Uk; apply in_or_app; right; apply in_or_app; auto).
  pose proof (enter_agree (phis bk) (en s) (en s') (prev s) A U1) as En.
  assert (Fs : step m args f s = runBlock m args k bk (prev s) (en s) (wd s)) by (unfold step; fold k; now rewrite Eb).
  destruct (enter args (en s) (prev s) (phis bk)) as [e1|] eqn:E1; [|exfalso; apply (Sf []); rewrite Fs; unfold runBlock; now rewrite E1].
  destruct En as (e1' & E1' & A1).
  pose proof (body_agree m args u (body bk) U2 e1 e1' (wd s) A1) as Bd.
  destruct (in_dec Nat.eq_dec b (succs (trm bk))) as [Hin|Hin].
  - destruct (HP k bk Eb Hin) as [_ Only].
    assert (Gs : step m args g s' = runBlock m args k (Block (phis bk) (body bk ++ copies (nam k) (startMap k (phis tb)) 0 (body tb)) (trm bk)) (prev s) (en s') (wd s)).
    { unfold step. rewrite Hc, Hp, Hwd. fold k. rewrite sb_get, Eb. cbn [option_map]. unfold sbBlk. destruct (Nat.eqb_spec k b); [contradiction|].
      rewrite (proj2 (inb_In b _) Hin). reflexivity. }
    unfold runBlock in Fs. rewrite E1 in Fs. unfold runBlock in Gs. cbn [phis body trm] in Gs. rewrite E1', runBody_app in Gs.
    destruct (runBody m args e1 (wd s) (body bk)) as [e2 w2 t2|w2 t2|t2]; [|apply meets1; rewrite Bd in Gs; rewrite Fs, Gs; auto|exfalso; exact (Sf _ Fs)].
    destruct Bd as (e2' & E2' & A2). rewrite E2' in Gs.
    destruct (runTerm args e2 (trm bk)) as [t|r|] eqn:Et; [| |exfalso; exact (Sf _ Fs)].
    2:{ exfalso. destruct (trm bk) as [x|c x y|c cs x|o|]; cbn in Et, Hin; try discriminate; try contradiction.
        - destruct (rd args e2 c) as [v|]; [|discriminate]. destruct (truth v) as [[|]|]; discriminate.
        - destruct (rd args e2 c) as [[z| | ]|]; discriminate. }
    assert (t = b) by (apply Only; eapply runTerm_succs; eauto). subst t.
    assert (Hs2 : Sim.safe (step m args f) (St b (Some k) e2 w2)).
    { eapply (safe_go _ 1 s); [exact Hs|]. cbn. rewrite Fs. cbn. reflexivity. }
    pose proof (fun t => safe_step m args f _ t Hs2) as Sf2.
    assert (Fs2 : step m args f (St b (Some k) e2 w2) = runBlock m args b tb (Some k) e2 w2) by (unfold step; cbn [cur]; now rewrite Hb).
    unfold runBlock, enter in Fs2. destruct (rdPhis args e2 k (phis tb)) as [vs|] eqn:Ev; [|exfalso; exact (Sf2 _ Fs2)]. cbn [option_map] in Fs2.
    pose proof (start_mapOk k e2 e2' vs A2 Ev) as M.
    destruct ND as (N1 & N2 & N3).
    assert (Ub : forall x, In x (bodyUses (body tb)) -> okn x = true).
    { intros x Hx. apply (ok_use b tb x Hb). unfold usesOf. apply in_or_app. right. apply in_or_app. auto. }
    pose proof (copies_run m args okn (nam k) (nam_new k) (nam_inj k) (body tb) (updAll e2 vs) e2' w2 (startMap k (phis tb)) 0 Hord N2 Ub M) as Cp.
    exists 2, 2. split; [lia|]. split; [lia|]. cbn [run]. rewrite Fs. rewrite Fs2.
    destruct (runBody m args (updAll e2 vs) w2 (body tb)) as [e4 w4 t4|w4 t4|t4]; [|rewrite Cp in Gs; rewrite Gs; cbn; auto|exfalso; exact (Sf2 _ Fs2)].
    destruct Cp as (e4' & s4 & Cp & M4 & K1 & _ & K3 & K4). rewrite Cp in Gs.
    assert (A4 : agree u e2 e4').
    { intros x Hx. rewrite (A2 x Hx). symmetry. apply K1. unfold u in Hx. now apply andb_true_iff in Hx as [Hx _]. }
    rewrite <- (runTerm_agree args u e2 e4' (trm bk) A4 U3), Et in Gs. rewrite Gs. rewrite Tb. cbn [runTerm pre]. rewrite !app_nil_r.
    assert (Kp : In k (predsIn f b)).
    { unfold predsIn. apply in_map_iff. exists (k, bk). split; auto. apply filter_In. split; [now apply get_In|]. cbn. now apply inb_In. }
    destruct (outPhis_rd k (predsIn f b) e4 e4' (body tb) Kp 0 K3) as (nvs & O1 & O2 & O3 & O4).
    assert (Gs2 : step m args g (St b (Some k) e4' w4) = Go (St d (Some b) (updAll (updAll e4' vs) nvs) w4) []).
    { unfold step. cbn [cur]. rewrite sb_get, Hb. cbn [option_map]. unfold sbBlk. rewrite Nat.eqb_refl. cbn [prev en wd]. unfold runBlock, enter. cbn [phis body trm].
      rewrite rdPhis_app. rewrite <- (rdPhis_agree args u e2 e4' k (phis tb) A4), Ev.
      2:{ intros x Hx. apply u_b. apply in_or_app. auto. }
      fold n len nam. rewrite O1. cbn [option_map runBody]. rewrite Tb. cbn [runTerm]. now rewrite updAll_app. }
    rewrite Gs2. cbn [pre]. rewrite app_nil_r. split; auto. split; [|split; [|split; [|split]]]; cbn [cur prev wd en]; auto.
    + intros ->. assert (K : In b (succs (trm tb))) by (rewrite Tb; now left). destruct (HP b tb Hb K) as [K' _]. congruence.
    + intros x Hx. destruct (in_dec Nat.eq_dec x (map fst nvs)) as [Kx|Kx].
      * destruct (updAll_hit nvs (updAll e4' vs) x Kx) as (v & V1 & V2). rewrite V2. auto.
      * rewrite updAll_ne by exact Kx. assert (Nx : ~ In x (map dst (body tb))).
        { intros Ix. apply Kx, O4; auto. unfold u, hid in Hx. rewrite (proj2 (inb_In x _) Ix) in Hx. apply andb_true_iff in Hx as [_ Hx].
          cbn in Hx. now rewrite negb_involutive in Hx. }
        rewrite (K4 x Nx). exact (updAll_agree u vs e2 e4' A4 x Hx).
  - assert (Gs : step m args g s' = runBlock m args k bk (prev s) (en s') (wd s)).
    { unfold step. rewrite Hc, Hp, Hwd. fold k. rewrite sb_get, Eb. cbn [option_map]. unfold sbBlk. destruct (Nat.eqb_spec k b); [contradiction|].
      destruct (inb b (succs (trm bk))) eqn:Ei; auto. apply inb_In in Ei. contradiction. }
    apply meets1. rewrite Gs. unfold runBlock in Fs |- *. rewrite E1 in Fs. rewrite E1'. rewrite Fs.
    destruct (runBody m args e1 (wd s) (body bk)) as [e2 w2 t2|w2 t2|t2]; [|rewrite Bd; auto|exact (Sf _ Fs)].
    destruct Bd as (e2' & -> & A2). rewrite <- (runTerm_agree args u e2 e2' (trm bk) A2 U3).
    destruct (runTerm args e2 (trm bk)) as [t|r|] eqn:Et; [|auto|exact (Sf _ Fs)]. split; auto. split; [|split; [|split; [|split]]]; cbn; auto.
    intros ->. apply Hin. eapply runTerm_succs; eauto.
Qed.
End Run.
Theorem sb_refines knd : refines knd f g.
Proof using Hw Hb Tb NE HP Hord.
  intros W m args w _. apply (sim_refines (step m args f) (step m args g) (fun s s' => cur s' = cur s /\ prev s' = prev s /\ wd s' = wd s /\ cur s <> b /\ agree u (en s) (en s'))).
  - intros s s' Hs HR. exact (sb_step m args s s' Hs HR).
  - unfold start. replace (entry g) with (entry f) by (symmetry; apply (entry_mapk (sbBlk f b tb))). repeat split; auto.
Qed.
End One.
