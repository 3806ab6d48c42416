(** What the steps of ScalarMem2Reg do to the function (proofs, C48). *)
From Coq Require Import ZArith Lia Bool List Arith.
From Verif Require Import Sim Ssa SsaCfg SsaMerge SsaFwd SsaWf SsaDom SsaSub SsaEq SsaPhi SsaCse LdSt M2R M2RVal M2RRel.
Import ListNotations.

Lemma Forall2_mapk {A B C} (P : B -> C -> Prop) (F F' : A -> B) (phi : C -> C) l g : Forall2 P (map F l) g ->
  (forall y z, In y l -> P (F y) z -> P (F' y) (phi z)) -> Forall2 P (map F' l) (map phi g).
Proof.
  revert g. induction l as [|y l IH]; cbn; intros g H K; inversion H as [|? z ? g' H1 H2]; subst; cbn; constructor; auto.
Qed.
Lemma Forall2_impl' {A B} (P P' : A -> B -> Prop) l g : (forall y z, P y z -> P' y z) -> Forall2 P l g -> Forall2 P' l g.
Proof. intros H. induction 1; constructor; auto. Qed.
Lemma Forall2_mapr {A B C} (P : A -> B -> Prop) (P' : A -> C -> Prop) (phi : B -> C) l g : (forall y z, P y z -> P' y (phi z)) -> Forall2 P l g -> Forall2 P' l (map phi g).
Proof. intros H. induction 1; constructor; auto. Qed.
Lemma Forall2_in_r {A B} (P : A -> B -> Prop) l g z : Forall2 P l g -> In z g -> exists y, In y l /\ P y z.
Proof. induction 1 as [|y z' l g H K IH]; [contradiction|]. intros [<-|I]; [exists y; split; auto; now left|]. destruct (IH I) as (y' & A1 & A2). exists y'. split; auto. now right. Qed.
Lemma Forall2_in_l {A B} (P : A -> B -> Prop) l g y : Forall2 P l g -> In y l -> exists z, In z g /\ P y z.
Proof. induction 1 as [|y' z l g H K IH]; [contradiction|]. intros [<-|I]; [exists z; split; auto; now left|]. destruct (IH I) as (z' & A1 & A2). exists z'. split; auto. now right. Qed.

(** ** replacing *)
Lemma relF_subst (R R' : opnd -> opnd -> Prop) h H g : (forall a b, R a b -> R' a (h b)) -> relF R H g -> relF R' H (subst h g).
Proof.
  intros K. rewrite subst_substB. apply Forall2_mapr. intros [b bk] [b' bk'] [E (A & B & C)]. cbn in *. split; auto. split; [|split]; cbn.
  - revert A. apply Forall2_mapr. intros p q [E1 F]. split; auto. cbn. revert F. apply Forall2_mapr. intros [u1 u2] [z1 z2] [E2 E3]. cbn in *. auto.
  - revert B. apply Forall2_mapr. intros i j (E1 & E2 & F). split; auto. split; auto. cbn. revert F. apply Forall2_mapr. auto.
  - destruct C; cbn; constructor; auto.
Qed.
Lemma relF_impl (R R' : opnd -> opnd -> Prop) H g : (forall a b, R a b -> R' a b) -> relF R H g -> relF R' H g.
Proof.
  intros K. apply Forall2_impl'. intros [b bk] [b' bk'] [E (A & B & C)]. cbn in *. split; auto. split; [|split]; cbn.
  - revert A. apply Forall2_impl'. intros p q [E1 F]. split; auto. revert F. apply Forall2_impl'. intros [u1 u2] [z1 z2] [E2 E3]. auto.
  - revert B. apply Forall2_impl'. intros i j (E1 & E2 & F). split; auto. split; auto. revert F. apply Forall2_impl'. auto.
  - destruct C; constructor; auto.
Qed.
Lemma relF_replace Q Q' x c H g : incl Q Q' -> In (x, c) Q' -> relF (fwd Q) H g -> relF (fwd Q') H (replace x c g).
Proof.
  intros I J. apply relF_subst. intros a b F. apply (fwd_mono Q Q') in F; auto. destruct (opnd_eqb_spec b (ORes x)) as [->|]; auto.
  eapply fwd_trans; [exact F|]. eapply fwd_step; [exact J|constructor].
Qed.

(** ** phis of a function *)
Lemma allPhis_in g ph : In ph (allPhis g) <-> exists b bk, In (b, bk) g /\ In ph (phis bk).
Proof. unfold allPhis. rewrite in_flat_map. split; [intros ([b bk] & A & B); eauto|intros (b & bk & A & B); exists (b, bk); auto]. Qed.
Lemma relF_phi R H g ph : relF R H g -> In ph (allPhis g) -> exists b bk ph0, In (b, bk) H /\ In ph0 (phis bk) /\ relPhi R ph0 ph.
Proof.
  intros F I. apply allPhis_in in I as (b & bk & I & J). destruct (Forall2_in_r _ _ _ _ F I) as ([b' bk'] & I' & E & A & _). cbn in *.
  destruct (Forall2_in_r _ _ _ _ A J) as (ph0 & I0 & R0). eauto 8.
Qed.
Lemma relF_phi_l R H g b bk ph0 : relF R H g -> In (b, bk) H -> In ph0 (phis bk) -> exists ph, In ph (allPhis g) /\ relPhi R ph0 ph.
Proof.
  intros F I J. destruct (Forall2_in_l _ _ _ _ F I) as ([b' bk'] & I' & E & A & _). cbn in *. destruct (Forall2_in_l _ _ _ _ A J) as (ph & Ip & Rp).
  exists ph. split; auto. apply allPhis_in. eauto.
Qed.
Lemma relF_names R H g : relF R H g -> map pdst (allPhis g) = map pdst (allPhis H).
Proof.
  unfold allPhis. induction 1 as [|[b bk] [b' bk'] H' g' [E (A & _)] F IH]; auto. cbn in *. rewrite !map_app, IH. f_equal. now apply (relPhis_pdst R).
Qed.
Lemma allPhis_replace x c g ph : In ph (allPhis (replace x c g)) -> exists ph0, In ph0 (allPhis g) /\ pdst ph = pdst ph0 /\
  map snd (inc ph) = map (fun o => if opnd_eqb o (ORes x) then c else o) (map snd (inc ph0)) /\ (~ In (ORes x) (map snd (inc ph0)) -> ph = ph0).
Proof.
  unfold replace. rewrite subst_substB. intros I. apply allPhis_in in I as (b & bk & I & J). apply in_map_iff in I as ([b0 bk0] & E & I). injection E as <- <-. cbn in J.
  apply in_map_iff in J as (ph0 & <- & J). exists ph0. split; [apply allPhis_in; eauto|]. cbn. split; auto. split.
  - rewrite !map_map. reflexivity.
  - intros N. destruct ph0 as [y l]. unfold mapPhi. cbn in *. f_equal. clear -N. induction l as [|[p o] l IH]; auto. cbn in *. f_equal; [|tauto].
    destruct (opnd_eqb_spec o (ORes x)); auto. exfalso. auto.
Qed.
Lemma incOf_in x g ph o : In ph (allPhis g) -> pdst ph = x -> In o (map snd (inc ph)) -> In o (incOf x g).
Proof. intros I E J. apply in_flat_map. exists ph. split; auto. rewrite E, Nat.eqb_refl. exact J. Qed.
Lemma incOf_inv x g o : In o (incOf x g) -> exists ph, In ph (allPhis g) /\ pdst ph = x /\ In o (map snd (inc ph)).
Proof. intros I. apply in_flat_map in I as (ph & I & J). destruct (Nat.eqb_spec (pdst ph) x); [|destruct J]. eauto. Qed.
Lemma allPhis_addPhi b x g ph : In ph (allPhis (addPhi b x g)) -> ph = Phi x [] \/ In ph (allPhis g).
Proof.
  intros I. apply allPhis_in in I as (b1 & bk & I & J). apply in_map_iff in I as ([b0 bk0] & E & I). cbn in E. destruct (Nat.eqb b0 b); injection E as <- <-; cbn in J.
  - destruct J as [<-|J]; auto. right. apply allPhis_in. eauto.
  - right. apply allPhis_in. eauto.
Qed.
Lemma allPhis_addInc x p o g ph : In ph (allPhis (addInc x p o g)) -> pdst ph = x \/ In ph (allPhis g).
Proof.
  intros I. apply allPhis_in in I as (b1 & bk & I & J). apply in_map_iff in I as ([b0 bk0] & E & I). cbn in E. injection E as <- <-. cbn in J.
  apply in_map_iff in J as (ph0 & E & J). destruct (Nat.eqb (pdst ph0) x); [left; now rewrite <- E|]. subst ph0. right. apply allPhis_in. eauto.
Qed.

(** ** a new phi, and a new operand *)
Definition gInc (x p : nat) (o : opnd) (Gs : list gphi) : list gphi :=
  map (fun g => if Nat.eqb (gname g) x then G (gname g) (gblk g) (gvar g) (ginc g ++ [(p, o)]) else g) Gs.
Lemma relF_addPhi Q Gs f b x v g : relF (fwd Q) (ghost Gs f) g -> relF (fwd Q) (ghost (G x b v [] :: Gs) f) (addPhi b x g).
Proof.
  intros H. refine (Forall2_mapk _ _ _ _ f g H _). intros [k bk] [k' z] _ [E (A & B & C)]. cbn in *. subst k'. rewrite (Nat.eqb_sym b k).
  destruct (Nat.eqb k b); cbn; (split; [reflexivity|]); (split; [|auto]); cbn; auto. constructor; auto. split; cbn; auto.
Qed.
Lemma gAt_gInc x p o Gs b : gAt (gInc x p o Gs) b = gInc x p o (gAt Gs b).
Proof.
  unfold gAt, gInc. induction Gs as [|g l IH]; auto. cbn [map filter].
  replace (gblk (if Nat.eqb (gname g) x then G (gname g) (gblk g) (gvar g) (ginc g ++ [(p, o)]) else g)) with (gblk g) by (now destruct (Nat.eqb (gname g) x)).
  destruct (Nat.eqb (gblk g) b); cbn [map]; rewrite IH; reflexivity.
Qed.
Lemma relF_addInc Q Gs f x p o g : (forall b bk ph, In (b, bk) f -> In ph (phis bk) -> pdst ph <> x) ->
  relF (fwd Q) (ghost Gs f) g -> relF (fwd Q) (ghost (gInc x p o Gs) f) (addInc x p o g).
Proof.
  intros N H. refine (Forall2_mapk _ _ _ _ f g H _). intros [k bk] [k' z] I [E (A & B & C)]. cbn in *. subst k'. split; [reflexivity|]. split; [|auto]. cbn.
  assert (N' : forall ph, In ph (phis bk) -> pdst ph <> x) by eauto. clear B C N I H. rewrite gAt_gInc. revert A. generalize (phis z). generalize (gAt Gs k). intros l. induction l as [|a l IH]; cbn.
  - intros l' A. revert N'. induction A as [|q q' l1 l2 [E1 E2] A IH]; intros N'; cbn; constructor.
    + destruct (Nat.eqb_spec (pdst q') x) as [Ex|]; [|split; auto]. exfalso. apply (N' q); [now left|congruence].
    + apply IH. intros ph I. apply N'. now right.
  - intros l' A. inversion A as [|? q' ? l2 [E1 E2] A']; subst. cbn in *. constructor; [|apply IH; auto]. rewrite <- E1.
    destruct (Nat.eqb (gname a) x) eqn:Ex; [|split; auto]. apply Nat.eqb_eq in Ex. split; cbn; auto. apply Forall2_app; auto. constructor; [|constructor]. cbn. split; auto. constructor.
Qed.

(** ** common *)
Section Common.
Variable same : opnd -> opnd -> bool.
Hypothesis Hsame : forall a b, same a b = true -> a = b.
Lemma common_ok x l : forall acc c, common same x acc l = Some c ->
  (forall o, In o l -> o = ORes x \/ o = c) /\ (forall a, acc = Some a -> c = a) /\ (acc = None -> c = OCst VUndef \/ In c l).
Proof using Hsame.
  induction l as [|o l IH]; cbn; intros acc c H.
  - injection H as <-. split; [intros o []|]. split; [intros a ->; auto|intros ->; auto].
  - destruct (opnd_eqb o (ORes x) || match acc with Some c => same o c | None => false end) eqn:E.
    + destruct (IH acc c H) as (A & B & C). split; [|split; auto; intros N; destruct (C N); auto]. intros o' [<-|I]; auto. apply orb_true_iff in E as [E|E].
      * left. now destruct (opnd_eqb_spec o (ORes x)).
      * destruct acc as [a|]; [|discriminate]. right. rewrite (B a eq_refl). now apply Hsame.
    + destruct acc as [a|]; [discriminate|]. destruct (IH (Some o) c H) as (A & B & C). rewrite (B o eq_refl) in *. split; [|split; [discriminate|auto]]. intros o' [<-|I]; auto.
Qed.
End Common.

(** ** removing trivial phis *)
Section Remove.
Variable pk : nat -> pkind.
Variable pr : nat -> list nat.
Variable same : opnd -> opnd -> bool.
Hypothesis Hsame : forall a b, same a b = true -> a = b.
Variable f : func.
Hypothesis Nf : NoDup (map fst f).
Variable Gs : list gphi.
Variable okv : opnd -> Prop.
Hypothesis Hundef : okv (OCst VUndef).
Hypothesis Hgo : forall b bk ph o, In (b, bk) (ghost Gs f) -> In ph (phis bk) -> In o (map snd (inc ph)) -> okv o.
Variable K : nat -> Prop.
Definition closed (g : func) : Prop := forall ph y, In ph (allPhis g) -> In (ORes y) (map snd (inc ph)) -> K y -> K (pdst ph).
Definition okQ (Q : list (nat * opnd)) : Prop := forall x c, In (x, c) Q -> okv c.
Lemma fwd_okv Q o o' : okQ Q -> okv o -> fwd Q o o' -> okv o'.
Proof using. intros H. intros A F. induction F; auto. apply IHF. eapply H; eauto. Qed.
Lemma phi_okv Q g ph o : okQ Q -> relF (fwd Q) (ghost Gs f) g -> In ph (allPhis g) -> In o (map snd (inc ph)) -> okv o.
Proof using Hgo.
  intros HQ F I J. destruct (relF_phi _ _ _ _ F I) as (b & bk & ph0 & A & B & C & D). apply in_map_iff in J as ([p o1] & <- & J).
  destruct (Forall2_in_r _ _ _ _ D J) as ([p0 o0] & I0 & _ & E). cbn in *. apply (fwd_okv Q o0 o1); auto. apply (Hgo b bk ph0); auto. apply in_map_iff. exists (p0, o0). auto.
Qed.
Definition okT (Q : list (nat * opnd)) (g : func) : Prop := relF (fwd Q) (ghost Gs f) g /\ closed g /\ okQ Q.
Definition outcome (Q : list (nat * opnd)) (g : func) (Q' : list (nat * opnd)) (g' : func) : Prop :=
  incl Q Q' /\ okT Q' g' /\ (forall y d, In (y, d) Q' -> In (y, d) Q \/ (K y /\ phiJust f Gs Q' y d)) /\ (forall ph, In ph (allPhis g') -> ~ K (pdst ph) -> In ph (allPhis g)).
Lemma phiJust_mono Q Q' x c : incl Q Q' -> phiJust f Gs Q x c -> phiJust f Gs Q' x c.
Proof using. intros I (b & bk & ph & A & B & C & D). exists b, bk, ph. split; auto. split; auto. split; auto. intros p o J. destruct (D p o J); [left|right]; eapply fwd_mono; eauto. Qed.
Lemma outcome_trans Q g Q1 g1 Q2 g2 : outcome Q g Q1 g1 -> outcome Q1 g1 Q2 g2 -> outcome Q g Q2 g2.
Proof using.
  intros (A1 & A2 & A3 & A4) (B1 & B2 & B3 & B4). split; [eapply incl_tran; eauto|]. split; auto. split.
  - intros y d I. destruct (B3 y d I) as [J|J]; auto. destruct (A3 y d J) as [J'|[J1 J2]]; auto. right. split; auto. eapply phiJust_mono; eauto.
  - intros ph I N. apply A4; auto.
Qed.
Lemma remove_ok n : forall x g Q, okT Q g -> K x -> In x (map pdst (allPhis g)) ->
  exists Q', outcome Q g Q' (fst (tryRemove same n x g)) /\ fwd Q' (ORes x) (snd (tryRemove same n x g)).
Proof using Hsame Hgo Nf Hundef.
  induction n as [|n IH]; intros x g Q T Kx Ix; cbn [tryRemove].
  - exists Q. split; [|constructor]. split; [apply incl_refl|]. auto.
  - destruct (common same x None (incOf x g)) as [c|] eqn:Ec; [|exists Q; split; [split; [apply incl_refl|]; auto|constructor]].
    destruct (common_ok same Hsame x _ None c Ec) as (C1 & _ & C3). specialize (C3 eq_refl). destruct T as (T1 & T2 & T3).
    assert (Oc : okv c). { destruct C3 as [->|I]; auto. apply incOf_inv in I as (ph & I1 & I2 & I3). eapply phi_okv; eauto. }
    assert (Step : outcome Q g ((x, c) :: Q) (replace x c g)).
    { split; [intros q Iq; now right|]. split; [split; [|split]|split].
      - eapply relF_replace; eauto; [intros q Iq; now right|now left].
      - intros ph y I J Ky. destruct (allPhis_replace x c g ph I) as (ph0 & I0 & -> & E & U). 
        destruct (in_dec (fun a b => reflect_dec _ _ (opnd_eqb_spec a b)) (ORes x) (map snd (inc ph0))) as [Jx|Jx]; [exact (T2 ph0 x I0 Jx Kx)|].
        rewrite (U Jx) in J. exact (T2 ph0 y I0 J Ky).
      - intros y d [E|I]; [injection E as <- <-; auto|]. eapply T3; eauto.
      - intros y d [E|I]; auto. injection E as <- <-. right. split; auto. apply in_map_iff in Ix as (ph & Ex & Iph).
        destruct (relF_phi _ _ _ _ T1 Iph) as (b & bk & ph0 & A & B & Cn & D). exists b, bk, ph0. split; [apply In_get; auto; rewrite fst_ghost; exact Nf|]. split; auto. split; [congruence|].
        intros p o I. destruct (Forall2_in_l _ _ _ _ D I) as ([p1 o1] & I1 & _ & F). cbn in F.
        destruct (C1 o1) as [->| ->]; [apply (incOf_in x g ph); auto; apply in_map_iff; exists (p1, o1); auto| |]; [left|right]; (eapply fwd_mono; [|exact F]); intros q Iq; now right.
      - intros ph I N. destruct (allPhis_replace x c g ph I) as (ph0 & I0 & E0 & E & U). rewrite U; auto. intros J. apply N. rewrite E0. exact (T2 ph0 x I0 J Kx). }
    assert (Fold : forall us g1 Q1, okT Q1 g1 -> (forall u, In u us -> K u /\ In u (map pdst (allPhis g1))) ->
      exists Q2, outcome Q1 g1 Q2 (fold_left (fun g' u => fst (tryRemove same n u g')) us g1)).
    { induction us as [|u us IHu]; intros g1 Q1 T U; cbn.
      - exists Q1. split; [apply incl_refl|]. auto.
      - destruct (U u (or_introl eq_refl)) as [Ku Iu]. destruct (IH u g1 Q1 T Ku Iu) as (Q2 & O1 & _). pose proof O1 as (_ & T' & _ & _).
        destruct (IHu (fst (tryRemove same n u g1)) Q2 T') as (Q3 & O2); [|exists Q3; eapply outcome_trans; eauto].
        intros u' I'. destruct (U u' (or_intror I')) as [A B]. split; auto. destruct T' as (T1' & _). destruct T as (T1a & _).
        rewrite (relF_names _ _ _ T1'), <- (relF_names _ _ _ T1a). exact B. }
    pose proof Step as (_ & T' & _ & _). destruct (Fold (phiUsers x g) (replace x c g) ((x, c) :: Q) T') as (Q2 & O2).
    + intros u Iu. apply in_map_iff in Iu as (ph & <- & Iu). apply filter_In in Iu as [Iu E]. apply andb_true_iff in E as [_ E]. apply existsb_exists in E as ([p o] & Io & E). cbn in E.
      destruct (opnd_eqb_spec o (ORes x)) as [->|]; [|discriminate]. split.
      * apply (T2 ph x Iu); auto. apply in_map_iff. exists (p, ORes x). auto.
      * destruct T' as (T1' & _). rewrite (relF_names _ _ _ T1'), <- (relF_names _ _ _ T1). now apply in_map.
    + exists Q2. split; [eapply outcome_trans; eauto|]. cbn. destruct O2 as (I2 & _). eapply fwd_step; [apply I2; now left|constructor].
Qed.
End Remove.
