(** Nobody but its own loads and stores gets at a promoted variable (proofs, C48). *)
From Coq Require Import ZArith Lia Bool List Arith.
From Verif Require Import Sim Ssa SsaCfg SsaMerge SsaFwd SsaWf SsaDom SsaSub SsaEq SsaPhi SsaCse LdSt LdStPts M2R M2RVal M2RRel.
Import ListNotations.

Section Priv.
Context {W : Type} (m : sem W) (M : memory W) (K : secrecy (W:=W)) (pk : nat -> pkind) (scalar : nat -> bool) (args : nat -> value) (w0 : W) (f : func).
(** an alloc gives memory that nobody else has *)
Definition freshAllocs : Prop := forall b bk pre i e w t a, atPoint m args w0 f b bk (pre ++ [i]) e w -> pk (opc i) = PkAlloc t -> e (dst i) = Some (VOpq a) ->
  priv K a w /\ (forall n, ~ knows K (args n) a) /\ (forall c, In (OCst c) (operands f) -> ~ knows K c a) /\
  (forall y u, y <> dst i -> e y = Some u -> ~ knows K u a).
Hypothesis Hm : memMeaning m M pk.
Hypothesis Hk : secret m M K.
Hypothesis Hfresh : freshAllocs.
Hypothesis Hu : uniqueDefs f.
Hypothesis Hp : plainVars pk scalar f.
Notation vars := (promotable pk scalar f).

Lemma leading_split l v : In v (leading pk scalar l) -> exists pre i post t, l = pre ++ i :: post /\ dst i = v /\ pk (opc i) = PkAlloc t /\
  forall j, In j pre -> exists t', pk (opc j) = PkAlloc t'.
Proof using.
  induction l as [|i l IH]; cbn; [contradiction|]. destruct (pk (opc i)) as [t| | | | | | |] eqn:E; try contradiction. intros H. apply in_app_or in H as [H|H].
  - destruct (scalar t); [|contradiction]. destruct H as [<-|[]]. exists [], i, l, t. split; auto. split; auto. split; auto. intros j [].
  - destruct (IH H) as (pre & j & post & t' & -> & A & B & C). exists (i :: pre), j, post, t'. split; auto. split; auto. split; auto. intros k [<-|I]; eauto.
Qed.
Lemma var_split v : In v vars -> exists bk pre i post t, get (entry f) f = Some bk /\ body bk = pre ++ i :: post /\ dst i = v /\ pk (opc i) = PkAlloc t /\
  (forall j, In j pre -> exists t', pk (opc j) = PkAlloc t') /\ ~ In (ORes v) (escaping pk f) /\ usedAs pk f v t.
Proof using Hp.
  intros V. pose proof V as V0. unfold promotable in V. destruct (get (entry f) f) as [bk|] eqn:G; [|contradiction]. apply filter_In in V as [V N].
  destruct (leading_split _ _ V) as (pre & i & post & t & E & A & B & C). exists bk, pre, i, post, t. split; auto. split; auto. split; auto. split; auto. split; auto. split.
  - intros I. apply negb_true_iff in N. assert (X : existsb (opnd_eqb (ORes v)) (escaping pk f) = true); [|congruence].
    apply existsb_exists. exists (ORes v). split; auto. destruct (opnd_eqb_spec (ORes v) (ORes v)); congruence.
  - rewrite <- A. apply (Hp bk i t); auto; [rewrite E; apply in_or_app; right; now left|]. now rewrite A.
Qed.
Definition usable (o : opnd) : Prop := match o with OCst _ => In o (operands f) | _ => True end.
Definition Inv (b : nat) (bk : block) (pre : list inst) (e : env) (w : W) : Prop :=
  forall v a, In v vars -> e v = Some (VOpq a) -> priv K a w /\ forall o u, o <> ORes v -> usable o -> rd args e o = Some u -> ~ knows K u a.
Lemma usable_body b bk i o : get b f = Some bk -> In i (body bk) -> In o (ops i) -> usable o.
Proof using.
  intros G I J. destruct o; cbn; auto. apply in_flat_map. exists (b, bk). split; [now apply get_In|]. cbn. apply in_or_app. right. apply in_or_app. left. apply in_flat_map. eauto.
Qed.
Lemma usable_phi b bk ph p o : get b f = Some bk -> In ph (phis bk) -> In (p, o) (inc ph) -> usable o.
Proof using.
  intros G I J. destruct o; cbn; auto. apply in_flat_map. exists (b, bk). split; [now apply get_In|]. cbn. apply in_or_app. left. apply in_flat_map. exists ph. split; auto.
  apply in_map_iff. exists (p, OCst v). auto.
Qed.
Lemma escaping_phi b bk ph p o : get b f = Some bk -> In ph (phis bk) -> In (p, o) (inc ph) -> In o (escaping pk f).
Proof using.
  intros G I J. apply in_flat_map. exists (b, bk). split; [now apply get_In|]. cbn. apply in_or_app. left. apply in_flat_map. exists ph. split; auto. apply in_map_iff. exists (p, o). auto.
Qed.
Lemma escaping_inst b bk i o : get b f = Some bk -> In i (body bk) -> In o (escapes pk i) -> In o (escaping pk f).
Proof using.
  intros G I J. apply in_flat_map. exists (b, bk). split; [now apply get_In|]. cbn. apply in_or_app. right. apply in_flat_map. eauto.
Qed.
Lemma rds_in e l vs : rds args e l = Some vs -> forall u, In u vs -> exists o, In o l /\ rd args e o = Some u.
Proof using.
  revert vs. induction l as [|o l IH]; cbn; intros vs H u I; [injection H as <-; destruct I|]. destruct (rd args e o) as [v|] eqn:E; [|discriminate].
  destruct (rds args e l) as [vs'|]; [|discriminate]. injection H as <-. destruct I as [<-|I]; [exists o; auto|]. destruct (IH vs' eq_refl u I) as (o' & A & B). exists o'. auto.
Qed.
(** one instruction *)
Lemma inst_priv b bk i e w vs r w' v a : get b f = Some bk -> In i (body bk) -> rds args e (ops i) = Some vs -> meaning m (opc i) vs w = IOk r w' ->
  In v vars -> e v = Some (VOpq a) -> priv K a w -> (forall o u, o <> ORes v -> usable o -> rd args e o = Some u -> ~ knows K u a) ->
  ~ knows K r a /\ priv K a w' /\ (storeTo pk v i = None -> forall t, ld M t a w' = ld M t a w).
Proof using Hm Hk Hp.
  intros Gb I Er Em V Ev Pa No. destruct Hk as (K1 & K2 & K3 & K4 & K5). destruct Hm as (M1 & M2 & M3 & M4).
  destruct (in_dec (fun x y => reflect_dec _ _ (opnd_eqb_spec x y)) (ORes v) (ops i)) as [J|J].
  - destruct (var_split v V) as (_ & _ & _ & _ & t & _ & _ & _ & _ & _ & Nes & Us). destruct (Us b bk i Gb I J) as [[Pi Oi]|[(o & Pi & Oi)|Es]].
    + rewrite Oi in Er. cbn in Er. rewrite Ev in Er. injection Er as <-. rewrite (M1 _ t Pi) in Em. destruct (ld M t a w) as [x|] eqn:El; [|discriminate].
      injection Em as <- <-. split; [eapply K4; eauto|]. auto.
    + rewrite Oi in Er. cbn in Er. rewrite Ev in Er. destruct (rd args e o) as [x|] eqn:Eo; [|discriminate]. injection Er as <-. rewrite (M2 _ t Pi) in Em.
      destruct (sto M t a x w) as [w1|] eqn:Es; [|discriminate]. injection Em as <- <-. split; auto.
      assert (Nx : ~ knows K x a).
      { apply (No o x); auto.
        - intros ->. apply Nes. apply (escaping_inst b bk i); auto. unfold escapes. rewrite Pi, Oi. now left.
        - eapply usable_body; eauto. rewrite Oi. right. now left. }
      split; [eapply K5; eauto|]. intros Hs. exfalso. unfold storeTo in Hs. rewrite Pi, Oi, Nat.eqb_refl in Hs. discriminate.
    + exfalso. apply Nes. apply passesOn_escapes in Es. eapply escaping_inst; eauto.
  - destruct (K3 _ _ _ _ _ a Em Pa) as (A & B & C); [|auto]. intros u Iu. destruct (rds_in e _ _ Er u Iu) as (o & Io & Eo). apply (No o u); auto; [intros ->; auto|].
    eapply usable_body; eauto.
Qed.
Lemma var_body v b bk : In v vars -> get b f = Some bk -> In v (map pdst (phis bk)) -> False.
Proof using Hu Hp.
  intros V G I. destruct (var_split v V) as (bk0 & pre & i & post & t & G0 & E & Ex & _).
  assert (D : defIn f v (entry f)) by (exists bk0; split; auto; apply in_or_app; right; rewrite E, map_app, <- Ex; apply in_or_app; right; now left).
  assert (D' : defIn f v b) by (exists bk; split; auto; apply in_or_app; now left). rewrite <- (defIn_unique f v _ _ Hu D D') in G. rewrite G0 in G. injection G as <-.
  apply (phi_body_disj bk0 v (block_NoDup f _ _ Hu G0) I). rewrite E, map_app, <- Ex. apply in_or_app. right. now left.
Qed.
Lemma var_inst b bk i : get b f = Some bk -> In i (body bk) -> In (dst i) vars -> exists t, pk (opc i) = PkAlloc t.
Proof using Hu Hp.
  intros G I V. destruct (var_split _ V) as (bk0 & pre & j & post & t & G0 & E & Ex & Pt & _).
  assert (D : defIn f (dst i) (entry f)) by (exists bk0; split; auto; apply in_or_app; right; rewrite E, map_app, <- Ex; apply in_or_app; right; now left).
  assert (D' : defIn f (dst i) b) by (exists bk; split; auto; apply in_or_app; right; now apply in_map). rewrite <- (defIn_unique f _ _ _ Hu D D') in G. rewrite G0 in G. injection G as <-.
  pose proof (block_NoDup f _ _ Hu G0) as N. unfold resultsOf in N. apply NoDup_app_r in N. assert (j = i); [|subst; eauto].
  assert (J : In j (body bk0)) by (rewrite E; apply in_or_app; right; now left). clear -N I J Ex. induction (body bk0) as [|x l IH]; [contradiction|]. cbn in N. apply NoDup_cons_iff in N as [N1 N2].
  destruct I as [<-|I], J as [<-|J]; auto; exfalso; apply N1; [rewrite <- Ex|rewrite Ex]; now apply in_map.
Qed.
Lemma updAll_in vs : forall e y u, updAll e vs y = Some u -> In (y, u) vs \/ e y = Some u.
Proof using.
  induction vs as [|[z x] vs IH]; cbn; intros e y u H; auto. destruct (IH _ _ _ H) as [A|A]; auto. unfold upd in A. destruct (Nat.eqb_spec y z) as [->|]; auto. injection A as ->. auto.
Qed.
Lemma rdPhis_in e p l vs : rdPhis args e p l = Some vs -> forall y u, In (y, u) vs -> exists ph o, In ph l /\ pdst ph = y /\ In (p, o) (inc ph) /\ rd args e o = Some u.
Proof using.
  revert vs. induction l as [|ph l IH]; cbn; intros vs H y u I; [injection H as <-; destruct I|]. destruct (get p (inc ph)) as [o|] eqn:G; [|discriminate].
  destruct (rd args e o) as [v|] eqn:E; [|discriminate]. destruct (rdPhis args e p l) as [vs'|]; [|discriminate]. injection H as <-.
  destruct I as [I|I]; [injection I as <- <-; exists ph, o; auto using get_In|]. destruct (IH vs' eq_refl y u I) as (ph' & o' & A & B & C & D). exists ph', o'. auto.
Qed.
Theorem priv_points b bk pre e w : atPoint m args w0 f b bk pre e w -> Inv b bk pre e w.
Proof using Hm Hk Hfresh Hu Hp.
  apply (points_ind m args w0 f Inv).
  - intros bk0 _ _ v a _ H. discriminate.
  - intros p pb e0 w1 b0 bk0 vs A I0 Hs G R Er v a V Ev.
    assert (Ev0 : e0 v = Some (VOpq a)).
    { rewrite updAll_ne in Ev; auto. rewrite (rdPhis_fst _ _ _ _ _ Er). intros I. eapply var_body; eauto. }
    destruct (I0 v a V Ev0) as [Pa No]. split; auto. intros o u No1 Us Ro. destruct o as [c|n|y]; [apply (No (OCst c) u); auto|apply (No (OArg n) u); auto|].
    cbn in Ro. apply updAll_in in Ro as [Ro|Ro]; [|apply (No (ORes y) u); auto].
    destruct (rdPhis_in e0 p _ _ Er y u Ro) as (ph & o' & Iph & Ed & Io & Eo). apply (No o' u); auto.
    + intros ->. destruct (var_split v V) as (_ & _ & _ & _ & t & _ & _ & _ & _ & _ & Nes & _). apply Nes. eapply escaping_phi; eauto.
    + eapply usable_phi; eauto.
  - intros b0 bk0 pre0 i post e0 w1 vs r w' A I0 E Er Em v a V Ev. destruct (atPoint_get _ _ _ _ _ _ _ _ _ A) as [Gb _].
    assert (Ii : In i (body bk0)) by (rewrite E; apply in_or_app; right; now left).
    destruct (Nat.eq_dec (dst i) v) as [<-|Nv].
    + destruct (var_inst b0 bk0 i Gb Ii V) as [t Pt]. pose proof (atPoint_next m args w0 f b0 bk0 pre0 i post e0 w1 vs r w' A E Er Em) as A'.
      destruct (Hfresh b0 bk0 pre0 i _ _ t a A' Pt Ev) as (P1 & P2 & P3 & P4). split; auto. intros o u No Us Ro. destruct o as [c|n|y].
      * cbn in Ro. injection Ro as <-. auto.
      * cbn in Ro. injection Ro as <-. auto.
      * apply (P4 y u); auto; congruence.
    + rewrite upd_ne in Ev by auto. destruct (I0 v a V Ev) as [Pa No]. destruct (inst_priv b0 bk0 i e0 w1 vs r w' v a Gb Ii Er Em V Ev Pa No) as (A1 & A2 & A3). split; auto.
      intros o u No1 Us Ro. destruct o as [c|n|y]; [apply (No (OCst c) u); auto|apply (No (OArg n) u); auto|].
      cbn in Ro. unfold upd in Ro. destruct (Nat.eqb y (dst i)) eqn:Ey; [injection Ro as <-; auto|]. apply (No (ORes y) u); auto.
Qed.
(** the memory of a variable stays the same until the variable is stored to *)
Theorem priv_frame b bk pre i post e w vs r w' v a t : atPoint m args w0 f b bk pre e w -> body bk = pre ++ i :: post -> rds args e (ops i) = Some vs ->
  meaning m (opc i) vs w = IOk r w' -> In v vars -> e v = Some (VOpq a) -> storeTo pk v i = None -> ld M t a w' = ld M t a w.
Proof using Hm Hk Hfresh Hu Hp.
  intros A E Er Em V Ev Hs. destruct (atPoint_get _ _ _ _ _ _ _ _ _ A) as [Gb _]. destruct (priv_points _ _ _ _ _ A v a V Ev) as [Pa No].
  assert (Ii : In i (body bk)) by (rewrite E; apply in_or_app; right; now left).
  destruct (inst_priv b bk i e w vs r w' v a Gb Ii Er Em V Ev Pa No) as (_ & _ & A3). auto.
Qed.
End Priv.
