(** C53: the whole pass.  Proofs only; nothing here models code of /repo. *)
From Coq Require Import ZArith Lia Bool List Arith.
From Verif Require Import Sim Ssa SsaCfg SsaMerge SsaFwd SsaFwd2 SsaWf SsaDom SsaProps SsaSub SsaVerify SsaEq SsaPhi SsaCse CodeMotion M2RRun Ifc PhiMg Rec TailCall TailCallProof.
Import ListNotations.

(** what the opcodes the pass knows must mean *)
Definition tceSem {W} (m : sem W) (rty : option value -> bool) (slf osel : nat) (acc : nat -> option (option value)) : Prop :=
  (forall o id, acc o = Some (Some id) -> accOk m rty o id) /\ selOk m osel /\ osel <> slf.
(** a return type: a value or nothing *)
Definition retTy (rty : option value -> bool) : Prop := forall x, rty None = true -> rty (Some x) = true -> False.

Lemma lastCall_spec slf l : forall p c q, lastCall slf l = Some (p, c, q) -> l = p ++ c :: q /\ opc c = slf /\ Forall (fun i => opc i <> slf) q.
Proof.
  assert (N : forall l, lastCall slf l = None -> Forall (fun i => opc i <> slf) l).
  { clear l. induction l as [|i l IH]; cbn; intros H; [constructor|]. destruct (lastCall slf l) as [[[p c] q]|]; try discriminate.
    destruct (Nat.eqb_spec (opc i) slf) as [E|E]; try discriminate. constructor; auto. }
  induction l as [|i l IH]; cbn; intros p c q H; [discriminate|].
  destruct (lastCall slf l) as [[[p0 c0] q0]|] eqn:E.
  - injection H as <- <- <-. destruct (IH _ _ _ eq_refl) as (-> & A & B). auto.
  - destruct (Nat.eqb_spec (opc i) slf) as [Ei|Ei]; [|discriminate]. injection H as <- <- <-. auto.
Qed.

Lemma updAll_phi (args : nat -> value) p l : NoDup (map pdst l) -> forall (e e0 : env) vs, rdPhis args e p l = Some vs -> forall q o, In q l -> get p (inc q) = Some o -> updAll e0 vs (pdst q) = rd args e o.
Proof.
  induction l as [|a l IH]; intros N e e0 vs H q o Hq Ho; [destruct Hq|]. cbn in H. destruct (get p (inc a)) as [oa|] eqn:Ea; [|discriminate]. destruct (rd args e oa) as [v|] eqn:Er; [|discriminate].
  destruct (rdPhis args e p l) as [vs1|] eqn:Ev; [|discriminate]. injection H as <-. inversion N as [|? ? N1 N2]; subst. destruct Hq as [->|Hq].
  - assert (oa = o) by congruence. subst oa. change (updAll (upd e0 (pdst q) v) vs1 (pdst q) = rd args e o). rewrite updAll_ne; [|rewrite (rdPhis_fst _ _ _ _ _ Ev); exact N1]. rewrite upd_eq. auto.
  - change (updAll (upd e0 (pdst a) v) vs1 (pdst q) = rd args e o). eapply IH; eauto.
Qed.

Section P.
Context {W : Type} (m : sem W).
Variables (slf nargs osel : nat) (acc : nat -> option (option value)) (rty : option value -> bool).
Hypothesis Hrty : retTy rty.
Hypothesis Hm : tceSem m rty slf osel acc.

Lemma choose_ok c post ret md bk : choose acc c post ret = CMode md -> Forall (fun i => opc i <> slf) post -> trm bk = TRet ret ->
  exists F, modeOk m slf rty bk post c md F.
Proof.
  intros H Hp Et. destruct Hm as (Ha & _ & _). unfold choose in H. destruct post as [|a [|a2 post]]; try discriminate.
  - exists (fun x _ => x). destruct ret as [o|].
    + unfold isRes in H. destruct (opnd_eqb_spec o (ORes (dst c))) as [E|E]; injection H as <-; cbn.
      * split; auto. right. congruence.
      * auto.
    + injection H as <-. cbn. auto.
  - destruct (acc (opc a)) as [id|] eqn:Ea; try discriminate. destruct (ops a) as [|x [|y [|z l]]] eqn:Eo; try discriminate.
    destruct (xorb (isRes (dst c) x) (isRes (dst c) y)) eqn:Ex; cbn in H; [|discriminate]. destruct ret as [o|]; [|discriminate].
    destruct (isRes (dst a) o) eqn:Er; [|discriminate]. destruct id as [v|]; [|discriminate]. injection H as <-.
    destruct (Ha _ _ Ea) as [F HF]. exists F. cbn. unfold isRes in *. inversion Hp; subst.
    destruct (opnd_eqb_spec o (ORes (dst a))) as [E|E]; [|discriminate]. split; auto. split; auto. split; auto. split; [congruence|].
    destruct (opnd_eqb_spec x (ORes (dst c))) as [E1|E1], (opnd_eqb_spec y (ORes (dst c))) as [E2|E2]; try discriminate.
    + exists y. split; auto. left. congruence.
    + exists x. split; auto. right. congruence.
Qed.
Theorem elimTo_ok f k bk pre c post md F : wfs f -> entryNoPred f -> get k f = Some bk -> k <> entry f -> body bk = pre ++ c :: post -> opc c = slf ->
  modeOk m slf rty bk post c md F -> match md with MRet => True | _ => forall b bb, get b f = Some bb -> trm bb <> TRet None end ->
  forall vs w, refinesAt (rstep0 m slf nargs rty f) (rstep0 m slf nargs rty (elimTo nargs osel f k pre c md)) (Boot vs w) (Boot vs w).
Proof.
  intros Wf EN Hk Nk Hb Hc Hmd Hv. destruct Hm as (_ & Hsel & Hso).
  assert (Hs : match md with MSel _ => osel <> slf | _ => True end) by (destruct md; auto).
  apply (boot_refines m slf nargs rty _ _ (relC nargs osel f k post c md F)).
  - intros s s' Hsafe HR. destruct HR as [ys A B S S' w HF HK].
    exact (step_ok m slf nargs osel rty Hrty Hsel f Wf EN k bk pre post c md Hk Nk Hb Hc F Hmd Hv Hs ys A B S S' w HF HK Hsafe).
  - intros vs w NB.
    assert (L : length vs = nargs).
    { unfold callF in NB. destruct (Nat.eqb_spec (length vs) nargs) as [E|E]; auto. exfalso. eapply NB. reflexivity. }
    destruct (call_g m slf nargs osel rty f Wf EN k bk pre post c md Hk Nk Hc F Hv Hs vs [] w L) as (eb & B & G1 & G2 & G3 & G4 & G5).
    exists (Cf (Fr (entry f) (fun _ => None) vs (body eb)) [] w), 1, (Cf B [] w). split; [|split].
    + exact (callF_f nargs f vs [] w eb G1 G2 L).
    + cbn [run]. unfold rstep0. rewrite G3. cbn [liftR]. rewrite G4. reflexivity.
    + econstructor; [exact G5|constructor].
Qed.
Theorem elim_ok f k bk pre c post ret g : wfs f -> entryNoPred f -> get k f = Some bk -> k <> entry f -> lastCall slf (body bk) = Some (pre, c, post) ->
  trm bk = TRet ret -> elim nargs osel acc f k pre c post ret = Done g ->
  forall vs w, refinesAt (rstep0 m slf nargs rty f) (rstep0 m slf nargs rty g) (Boot vs w) (Boot vs w).
Proof.
  intros Wf EN Hk Nk Hl Et H. destruct (lastCall_spec _ _ _ _ _ Hl) as (Hb & Hc & Hp). unfold elim in H.
  destruct (choose acc c post ret) as [| |md] eqn:Ec; try discriminate. destruct (choose_ok c post ret md bk Ec Hp Et) as [F HF].
  assert (X : match md with MRet => True | _ => forall b bb, get b f = Some bb -> trm bb <> TRet None end /\ g = elimTo nargs osel f k pre c md).
  { assert (Y : existsb (fun kb : nat * block => voidRet (trm (snd kb))) f = false -> forall b bb, get b f = Some bb -> trm bb <> TRet None).
    { intros E b bb G T. assert (existsb (fun kb : nat * block => voidRet (trm (snd kb))) f = true) by (apply existsb_exists; exists (b, bb); split; [now apply get_In|cbn; now rewrite T]).
      congruence. }
    destruct md; [injection H as <-; split; [exact I|reflexivity]| |]; destruct (existsb (fun kb : nat * block => voidRet (trm (snd kb))) f) eqn:E; try discriminate; injection H as <-; (split; [exact (Y eq_refl)|reflexivity]). }
  destruct X as [X ->]. exact (elimTo_ok f k bk pre c post md F Wf EN Hk Nk Hb Hc HF X).
Qed.

(** *** the block that goes to a block that only returns *)
Section Retify.
Variable f : func.
Hypothesis Wf : wfs f.
Hypothesis EN : entryNoPred f.
Variables (k t : nat) (bk tb : block) (ro : option opnd).
Hypothesis Hk : get k f = Some bk.
Hypothesis Ht : get t f = Some tb.
Hypothesis Tk : trm bk = TBr t.
Hypothesis Bt : body tb = [].
Hypothesis Tt : trm tb = TRet ro.
Let g := retify f k t (phis tb) ro.
Definition rB (b : nat) (bb : block) : block :=
  if Nat.eqb b k then Block (phis bb) (body bb) (TRet (option_map (retAt k (phis tb)) ro))
  else if Nat.eqb b t then Block (map (removeSource k) (phis bb)) (body bb) (trm bb) else bb.
Lemma get_r b : get b g = option_map (rB b) (get b f).
Proof. exact (get_mapk rB b f). Qed.
Lemma t_ne_k : t <> k.
Proof. intros E. assert (tb = bk) by congruence. subst. congruence. Qed.
Lemma entry_r : entry g = entry f.
Proof. exact (entry_mapk rB f). Qed.
Lemma t_ne_entry : t <> entry f.
Proof. intros E. apply (EN k bk Hk). rewrite Tk, <- E. now left. Qed.
Lemma succs_r b bb : incl (succs (trm (rB b bb))) (succs (trm bb)).
Proof. unfold rB. destruct (Nat.eqb b k); [intros x []|]. destruct (Nat.eqb b t); apply incl_refl. Qed.
Lemma succs_r_ne b bb : b <> k -> trm (rB b bb) = trm bb.
Proof. intros N. unfold rB. destruct (Nat.eqb_spec b k); [congruence|]. now destruct (Nat.eqb b t). Qed.
Lemma body_r b bb : body (rB b bb) = body bb.
Proof. unfold rB. destruct (Nat.eqb b k); auto. now destruct (Nat.eqb b t). Qed.
Lemma pdst_r b bb : map pdst (phis (rB b bb)) = map pdst (phis bb).
Proof. unfold rB. destruct (Nat.eqb b k); auto. destruct (Nat.eqb b t); auto. cbn. rewrite map_map. reflexivity. Qed.
Lemma results_r b bb : resultsOf (rB b bb) = resultsOf bb.
Proof. unfold resultsOf. now rewrite pdst_r, body_r. Qed.
Lemma entryNoPred_r : entryNoPred g.
Proof.
  intros b bb H Hi. rewrite get_r in H. destruct (get b f) as [b0|] eqn:E; [|discriminate]. injection H as <-. rewrite entry_r in Hi.
  exact (EN b b0 E (succs_r b b0 _ Hi)).
Qed.
Lemma path_r b l : path g b l -> path f b l.
Proof.
  induction 1 as [|b l bb t0 Hp IH Hg Hi]; [rewrite entry_r; constructor|]. rewrite get_r in Hg. destruct (get b f) as [b0|] eqn:E; [|discriminate].
  injection Hg as <-. econstructor; eauto. eapply succs_r; eauto.
Qed.
Lemma defIn_r x d : defIn f x d -> defIn g x d.
Proof. intros (b0 & G & H). exists (rB d b0). rewrite get_r, G, results_r. auto. Qed.
Lemma dom_r a b : dominates f a b -> dominates g a b.
Proof. intros H l Hl. apply H. now apply path_r. Qed.
Lemma availIn_r b x : availIn f b x -> availIn g b x.
Proof. intros (d & A & B & C). exists d. split; [now apply defIn_r|]. split; auto. now apply dom_r. Qed.
Lemma availOut_r b x : availOut f b x -> availOut g b x.
Proof. intros (d & A & C). exists d. split; [now apply defIn_r|]. now apply dom_r. Qed.
Lemma availAt_r b bb p x : availAt f b bb p x -> availAt g b (rB b bb) p x.
Proof. intros [H|[H|H]]; [left; now apply availIn_r|right; left; now rewrite pdst_r|right; now right]. Qed.
Lemma inc_r b bb ph p o : In ph (phis (rB b bb)) -> In (p, o) (inc ph) -> exists ph0, In ph0 (phis bb) /\ In (p, o) (inc ph0) /\ (b = t -> p <> k).
Proof.
  unfold rB. destruct (Nat.eqb_spec b k) as [E|N]; [intros H1 H2; exists ph; split; auto; split; auto; intros E2; pose proof t_ne_k; congruence|].
  destruct (Nat.eqb_spec b t) as [E|N2]; [|intros H1 H2; exists ph; split; auto; split; auto; congruence].
  cbn. intros H1 H2. apply in_map_iff in H1 as (ph0 & E0 & H1). subst ph. cbn in H2. apply filter_In in H2 as [H2 H3]. exists ph0. split; auto. split; auto.
  intros _ E4. cbn in H3. rewrite E4, Nat.eqb_refl in H3. discriminate.
Qed.
Lemma phi_r b bb ph : In ph (phis (rB b bb)) -> exists ph0, In ph0 (phis bb) /\ forall p, p <> k -> get p (inc ph) = get p (inc ph0).
Proof.
  unfold rB. destruct (Nat.eqb_spec b k) as [E|N]; [intros H1; exists ph; auto|].
  destruct (Nat.eqb_spec b t) as [E|N2]; [|intros H1; exists ph; auto].
  cbn. intros H1. apply in_map_iff in H1 as (ph0 & E0 & H1). subst ph. exists ph0. split; auto. intros p Np. cbn.
  rewrite (get_filter (fun x => negb (Nat.eqb x k))). destruct (Nat.eqb_spec p k); [congruence|]. reflexivity.
Qed.
Lemma wfs_r : wfs g.
Proof.
  destruct Wf as ((Hne & (U1 & U2) & Hcl & Hpp & Hpa) & Hssa & Hen). split; [|split].
  - split; [unfold g, retify; destruct f; [congruence|discriminate]|]. split; [|split; [|split]].
    + split.
      * unfold g, retify. now rewrite map_map.
      * assert (E : allResults g = allResults f); [|now rewrite E]. unfold allResults, g, retify. clear. rewrite !flat_map_concat_map, map_map. f_equal. apply map_ext.
        intros [b bb]. exact (results_r b bb).
    + intros b bb x H Hx. rewrite get_r in H. destruct (get b f) as [b0|] eqn:E; [|discriminate]. injection H as <-.
      unfold g, retify. rewrite map_map. cbn. exact (Hcl b b0 x E (succs_r _ _ _ Hx)).
    + intros b bb ph p o H H1 H2. rewrite get_r in H. destruct (get b f) as [b0|] eqn:E; [|discriminate]. injection H as <-.
      destruct (inc_r _ _ _ _ _ H1 H2) as (ph0 & A & B & C). destruct (Hpp b b0 ph0 p o E A B) as (pb & Gp & Hs).
      exists (rB p pb). rewrite get_r, Gp. split; auto. rewrite succs_r_ne; auto. intros Ep. rewrite Ep in *. assert (pb = bk) by congruence. subst pb. rewrite Tk in Hs.
      destruct Hs as [Hs|[]]. now apply C.
    + intros b bb ph p pb H H1 H2 H3. rewrite get_r in H, H2. destruct (get b f) as [b0|] eqn:E; [|discriminate]. destruct (get p f) as [p0|] eqn:Ep; [|discriminate].
      injection H as <-. injection H2 as <-. destruct (phi_r _ _ _ H1) as (ph0 & A & B).
      assert (Np : p <> k) by (intros X; unfold rB in H3; rewrite X, Nat.eqb_refl in H3; destruct H3).
      rewrite (B p Np). apply (Hpa b b0 ph0 p p0); auto. exact (succs_r _ _ _ H3).
  - intros b bb H Hr. rewrite get_r in H. destruct (get b f) as [b0|] eqn:E; [|discriminate]. injection H as <-.
    assert (Rf : reach f b) by (destruct Hr as [l Hl]; exists l; now apply path_r).
    destruct (Hssa b b0 E Rf) as (S1 & S2 & S3). split; [|split].
    + intros p i q H. rewrite body_r in H. specialize (S1 p i q H). eapply opAvail_imp; [|exact S1]. intros x. apply availAt_r.
    + rewrite body_r. destruct (Nat.eq_dec b k) as [Ek|Nk].
      * unfold rB at 2. rewrite Ek, Nat.eqb_refl. cbn [trm]. rewrite Ek in *. assert (b0 = bk) by congruence. subst b0.
        destruct ro as [o|] eqn:Er in |- *; [|constructor]. cbn. constructor; [|constructor].
        assert (Rt : reach f t) by (destruct Rf as [l Hl]; exists (t :: l); econstructor; eauto; rewrite Tk; now left).
        destruct (Hssa t tb Ht Rt) as (_ & T2 & T3). rewrite Tt, Bt, Er in T2. cbn in T2. pose proof (Forall_inv T2) as T2'.
        assert (K : opAvail (availOut f k) (retAt k (phis tb) o)).
        { unfold retAt. destruct o as [v|n|x]; auto. destruct (find (fun q => Nat.eqb (pdst q) x) (phis tb)) as [q|] eqn:Ef.
          - apply find_some in Ef as [Hq _]. unfold atInc. destruct (get k (inc q)) as [o|] eqn:Eo; [|exact I]. apply (T3 q k o Hq (get_In _ _ _ Eo) Rf).
          - cbn in *. destruct T2' as [Ha|[Ha|[]]].
            + eapply availIn_edge; eauto. rewrite Tk. now left.
            + exfalso. apply in_map_iff in Ha as (q & Eq & Hq). pose proof (find_none _ _ Ef q Hq) as Q. cbn in Q. rewrite Eq, Nat.eqb_refl in Q. discriminate. }
        destruct (retAt k (phis tb) o) as [v|n|x]; auto. cbn in *. apply availAt_r. now apply (availOut_at f k bk x Hk).
      * rewrite succs_r_ne by auto. eapply opAvail_imp; [|exact S2]. intros x. apply availAt_r.
    + intros ph p o H1 H2 Rp. destruct (inc_r _ _ _ _ _ H1 H2) as (ph0 & A & B & _).
      assert (Rp' : reach f p) by (destruct Rp as [l Hl]; exists l; now apply path_r).
      pose proof (S3 ph0 p o A B Rp') as Q. destruct o; auto. cbn in *. now apply availOut_r.
  - intros bb H. rewrite entry_r, get_r in H. destruct (get (entry f) f) as [b0|] eqn:E; [|discriminate]. injection H as <-.
    pose proof (Hen b0 E) as P0. assert (P : map pdst (phis (rB (entry f) b0)) = []) by (rewrite pdst_r, P0; reflexivity).
    destruct (phis (rB (entry f) b0)); [reflexivity|discriminate].
Qed.
Lemma retAt_rd a e vs : rdPhis a e k (phis tb) = Some vs ->
  forall o, rd a e (retAt k (phis tb) o) = rd a (updAll e vs) o.
Proof.
  intros Hv o. destruct Wf as ((_ & U & _) & _). destruct o as [v|n|x]; auto. unfold retAt.
  destruct (find (fun q => Nat.eqb (pdst q) x) (phis tb)) as [q|] eqn:Ef.
  - apply find_some in Ef as [Hq Eq]. apply Nat.eqb_eq in Eq.
    assert (ND : NoDup (map pdst (phis tb))) by (apply (NoDup_app_l _ (map dst (body tb))); exact (block_NoDup f t tb U Ht)).
    assert (Hg : get k (inc q) <> None).
    { destruct Wf as ((_ & _ & _ & _ & Hpa) & _). apply (Hpa t tb q k bk); auto. rewrite Tk. now left. }
    unfold atInc. destruct (get k (inc q)) as [o|] eqn:Eo; [|congruence].
    cbn [rd]. rewrite <- Eq. symmetry. exact (updAll_phi a k (phis tb) ND e e vs Hv q o Hq Eo).
  - cbn. symmetry. apply updAll_ne. rewrite (rdPhis_fst _ _ _ _ _ Hv). intros Hx. apply in_map_iff in Hx as (q & Eq & Hq).
    pose proof (find_none _ _ Ef q Hq) as Q. cbn in Q. rewrite Eq, Nat.eqb_refl in Q. discriminate.
Qed.
Lemma rdPhis_rm a e p l : p <> k -> rdPhis a e p (map (removeSource k) l) = rdPhis a e p l.
Proof.
  intros Np. induction l as [|ph l IH]; cbn; auto. rewrite (get_filter (fun x => negb (Nat.eqb x k))). destruct (Nat.eqb_spec p k); [congruence|]. cbn. now rewrite IH.
Qed.
Theorem retify_refines vs w : refinesAt (rstep0 m slf nargs rty f) (rstep0 m slf nargs rty g) (Boot vs w) (Boot vs w).
Proof.
  apply (boot_refines m slf nargs rty _ _ eq).
  - intros s s' Hs <-. destruct s as [A S w0].
    assert (NB : forall t0, rstep m slf nargs rty f (Cf A S w0) <> Bad t0) by (intros t0 K; apply (Hs 1 t0); cbn; rewrite K; reflexivity).
    destruct (Nat.eq_dec (fb A) k) as [Ek|Nk]; [destruct (fr A) as [|i r] eqn:Er|].
    + exists 2, 1. split; auto. split; auto. assert (EA : A = Fr k (fe A) (fa A) []) by (rewrite <- Ek, <- Er; now destruct A). rewrite EA in *. clear Ek Er.
      set (e := fe A) in *. set (a := fa A) in *. unfold rstep in NB. cbn [top fr fb fe fa stk cw] in NB. rewrite Hk, Tk in NB. cbn [runTerm] in NB. unfold goTo in NB. rewrite Ht in NB. cbn [enter] in NB.
      destruct (rdPhis (argsOf a) e k (phis tb)) as [us|] eqn:Eu; [|exfalso; eapply NB; reflexivity].
      assert (NB2 : forall t0, rstep m slf nargs rty f (Cf (Fr t (updAll e us) a []) S w0) <> Bad t0).
      { intros t0 K. apply (Hs 2 t0). cbn [run]. unfold rstep at 1. cbn [top fr fb fe fa stk cw]. rewrite Hk, Tk. cbn [runTerm]. unfold goTo. rewrite Ht. cbn [enter]. rewrite Eu.
        cbn [option_map]. rewrite Bt. rewrite K. reflexivity. }
      cbn [run]. unfold rstep at 1. cbn [top fr fb fe fa stk cw]. rewrite Hk, Tk. cbn [runTerm]. unfold goTo. rewrite Ht. cbn [enter]. rewrite Eu. cbn [option_map]. rewrite Bt.
      assert (E2 : rstep m slf nargs rty g (Cf (Fr k e a []) S w0) = rstep m slf nargs rty f (Cf (Fr t (updAll e us) a []) S w0)).
      { unfold rstep. cbn [top fr fb fe fa stk cw]. rewrite get_r, Hk, Ht, Tt. cbn [option_map]. unfold rB. rewrite Nat.eqb_refl. cbn [trm].
        destruct ro as [o|]; [|reflexivity]. cbn [option_map runTerm]. rewrite (retAt_rd _ _ _ Eu). destruct (rd (argsOf a) (updAll e us) o); reflexivity. }
      rewrite E2. destruct (rstep m slf nargs rty f (Cf (Fr t (updAll e us) a []) S w0)) as [s1 t1|x t1|t1]; cbn; auto. exact (NB2 t1 eq_refl).
    + apply meets1. unfold rstep in *. cbn [top fr fb fe fa stk cw] in *. rewrite Er in *. destruct (rds (argsOf (fa A)) (fe A) (ops i)) as [us|]; [|exact (NB _ eq_refl)].
      assert (EC : forall ss, callF nargs g us ss w0 = callF nargs f us ss w0).
      { intros ss. unfold callF. rewrite entry_r, get_r. destruct (get (entry f) f) as [eb|]; auto. cbn [option_map enter]. rewrite body_r.
        pose proof (pdst_r (entry f) eb) as P. destruct (phis eb), (phis (rB (entry f) eb)); try discriminate; reflexivity. }
      rewrite EC. destruct (Nat.eqb (opc i) slf).
      * destruct (callF nargs f us _ w0) eqn:E; auto. exact (NB _ eq_refl).
      * destruct (meaning m (opc i) us w0); auto. exact (NB _ eq_refl).
    + apply meets1. unfold rstep in *. cbn [top fr fb fe fa stk cw] in *. destruct (fr A) as [|i r].
      * rewrite get_r. destruct (get (fb A) f) as [b0|] eqn:Eb; [|exact (NB _ eq_refl)]. cbn [option_map]. rewrite succs_r_ne by auto.
        destruct (runTerm (argsOf (fa A)) (fe A) (trm b0)) as [b|v|]; [| |exact (NB _ eq_refl)].
        -- assert (EG : goTo g (fb A) (fe A) (fa A) b S w0 = goTo f (fb A) (fe A) (fa A) b S w0).
           { unfold goTo. rewrite get_r. destruct (get b f) as [b2|]; auto. cbn [option_map enter]. rewrite body_r.
             assert (EP : rdPhis (argsOf (fa A)) (fe A) (fb A) (phis (rB b b2)) = rdPhis (argsOf (fa A)) (fe A) (fb A) (phis b2)).
             { unfold rB. destruct (Nat.eqb b k); auto. destruct (Nat.eqb b t); auto. cbn. now apply rdPhis_rm. }
             now rewrite EP. }
           rewrite EG. destruct (goTo f (fb A) (fe A) (fa A) b S w0); auto. exact (NB _ eq_refl).
        -- destruct (retTo rty S v w0); auto. exact (NB _ eq_refl).
      * destruct (rds (argsOf (fa A)) (fe A) (ops i)) as [us|]; [|exact (NB _ eq_refl)].
        assert (EC : forall ss, callF nargs g us ss w0 = callF nargs f us ss w0).
        { intros ss. unfold callF. rewrite entry_r, get_r. destruct (get (entry f) f) as [eb|]; auto. cbn [option_map enter]. rewrite body_r.
          pose proof (pdst_r (entry f) eb) as P. destruct (phis eb), (phis (rB (entry f) eb)); try discriminate; reflexivity. }
        rewrite EC. destruct (Nat.eqb (opc i) slf).
        -- destruct (callF nargs f us _ w0) eqn:E; auto. exact (NB _ eq_refl).
        -- destruct (meaning m (opc i) us w0); auto. exact (NB _ eq_refl).
  - intros us w0 NB. unfold callF in *. destruct (Nat.eqb (length us) nargs) eqn:El; [|exfalso; eapply NB; reflexivity].
    destruct (get (entry f) f) as [eb|] eqn:Ee; [|exfalso; eapply NB; reflexivity].
    destruct Wf as (_ & _ & Hen). pose proof (Hen eb Ee) as P0. rewrite P0 in *. cbn [enter] in *. eexists. exists 0. eexists. split; [reflexivity|]. split; [|reflexivity].
    cbn [run]. unfold rstep0, callF. rewrite El, entry_r, get_r, Ee. cbn [option_map].
    assert (P : map pdst (phis (rB (entry f) eb)) = []) by (rewrite pdst_r, P0; reflexivity). destruct (phis (rB (entry f) eb)); [|discriminate].
    cbn [enter]. rewrite body_r. reflexivity.
Qed.
End Retify.
End P.
