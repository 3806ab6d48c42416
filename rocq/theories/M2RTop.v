(** ScalarMem2Reg as a whole arrives at a solution (proofs, C48). *)
From Coq Require Import ZArith Lia Bool List Arith.
From Verif Require Import Sim Ssa SsaCfg SsaMerge SsaFwd SsaWf SsaDom SsaSub SsaEq SsaPhi SsaCse LdSt M2R M2RVal M2RRel M2RSyn M2RAlg.
Import ListNotations.

Section Top.
Variable pk : nat -> pkind.
Variable pr : nat -> list nat.
Variable same : opnd -> opnd -> bool.
Hypothesis Hsame : forall a b, same a b = true -> a = b.
Variable deep fuel : nat.
Variable f : func.
Variable vars : list nat.
Hypothesis Nf : NoDup (map fst f).
Hypothesis Hpr : forall b p, In p (pr b) <-> exists pb, get p f = Some pb /\ In b (succs (trm pb)).
Hypothesis Hesc : forall v, In v vars -> ~ In (ORes v) (escaping pk f).
Hypothesis Hvar : forall v, In v vars -> v < freshName f.
Hypothesis Hnl : forall v b bk i t, In v vars -> get b f = Some bk -> In i (body bk) -> dst i = v -> pk (opc i) <> PkLoad t.
Hypothesis Hnp : forall v b bk, In v vars -> get b f = Some bk -> ~ In v (map pdst (phis bk)).
Notation prefVal := (prefVal pk pr f).
Notation e := (entry f).
Notation Inv := (Inv pk pr f vars).
Notation prefOk := (prefOk f).
Notation uv := (useVar same pr deep fuel e).

Definition tnames (l : list (nat * (nat * nat))) : list nat := map (fun t => snd (snd t)) l.
Definition pd (s : mst) (y : nat) : Prop := In y (tnames (todo s)).
Definition doneAt (pref : nat -> list inst) (p : nat) : Prop := exists bp, get p f = Some bp /\ pref p = body bp.

(** ** sealing *)
Section Seal.
Variable pref : nat -> list inst.
Hypothesis Hpref : prefOk pref.
Variable b : nat.
Hypothesis Hb : forall p, In p (pr b) -> doneAt pref p.
Lemma fillAll_ok : forall l s pend Gs Q s', Inv [] pend pref s Gs Q -> (forall y, pend y -> freshName f <= y) ->
  (forall v x, In (v, x) l -> pend x /\ In v vars /\ findDef v b (defs s) <> None /\ exists g, In g Gs /\ gname g = x /\ gblk g = b /\ gvar g = v) -> NoDup (map snd l) ->
  fillAll same pr deep fuel e b l s = Some s' ->
  exists pend' Gs' Q' new, Inv [] pend' pref s' Gs' Q' /\ (forall y, pend' y -> freshName f <= y) /\ nxt s <= nxt s' /\ seal s' = seal s /\ gsame Gs Gs' /\
    (forall u c, findDef u c (defs s) <> None -> findDef u c (defs s') <> None) /\ todo s' = todo s ++ new /\
    (forall b' v' x', In (b', (v', x')) new -> b' <> b /\ nxt s <= x' < nxt s') /\ NoDup (tnames new) /\
    (forall y, pend' y <-> (pend y /\ ~ In y (map snd l)) \/ In y (tnames new)).
Proof using Hsame Nf Hpr Hesc Hvar Hpref Hb.
  induction l as [|[v x] l IH]; intros s pend Gs Q s' H Hp Hl N E; cbn [fillAll] in E.
  - injection E as <-. exists pend, Gs, Q, []. split; auto. split; auto. split; auto. split; auto. split; [apply gsame_refl|]. split; auto. split; [now rewrite app_nil_r|].
    split; [intros ? ? ? []|]. split; [constructor|]. intros y. cbn. split; [intros P; left; auto|intros [[P _]|[]]; auto].
  - destruct (fill (uv v) x (pr b) s) as [s1|] eqn:Ef; [|discriminate]. destruct (Hl v x (or_introl eq_refl)) as (Px & V & Dx & g & Ig & Eg & Eb & Ev). cbn in N. apply NoDup_cons_iff in N as [Nx N].
    pose proof (inv_fromPend pk pr f vars [] pend pref s Gs Q x H Px) as H0.
    destruct (fill_ok pk pr f vars Nf Hpr pref uv x v b [] (useVar_ok pk pr same Hsame deep f vars Nf Hpr Hesc Hvar pref Hpref fuel) V (pr b) s _ Gs Q g s1 H0 Ig Eg Ev Eb (fun p Ip => conj Ip (Hb p Ip)) Ef) as
      (pend1 & Gs1 & Q1 & g1 & H1 & X & I1 & E1 & E2 & E3 & C1).
    destruct X as (X1 & X2 & X3 & X4 & X5 & X6 & X7 & n1 & X8 & X9 & XN & X10).
    assert (H2 : Inv [] pend1 pref s1 Gs1 Q1). { apply (inv_close pk pr f vars [] pend1 pref s1 Gs1 Q1 x g1); auto. intros p Ip. apply C1. left. now rewrite E3 in Ip. }
    assert (Np : ~ pend1 x). { intros P. destruct (i_pend _ _ _ _ _ _ _ _ _ _ H1 x P) as [_ K]. apply K. now left. }
    assert (Fr : forall y, pend1 y -> freshName f <= y).
    { intros y P. apply X10 in P as [[P _]|P]; [auto|]. apply in_map_iff in P as ([b' [v' x']] & <- & I). cbn.
      assert (It : In (b', (v', x')) (todo s1)) by (rewrite X8; apply in_or_app; now right).
      destruct (i_todo _ _ _ _ _ _ _ _ _ _ H2 b' v' x' It) as (_ & _ & _ & g' & Ig' & <- & _). apply (i_g _ _ _ _ _ _ _ _ _ _ H2 g' Ig'). }
    set (K := fun y => ~ pend1 y).
    assert (Cl : closed K (fn s1)).
    { intros ph y I J _ P. assert (Em : inc ph = []) by (apply (pend_empty pk pr f vars Nf H2 ph I P); auto). rewrite Em in J. destruct J. }
    assert (Nm : In x (map pdst (allPhis (fn s1)))) by (rewrite <- E1; apply (name_in pk pr f vars H2); auto).
    destruct (inv_remove pk pr same Hsame deep f vars Nf Hesc Hvar H2 K x) as (Q3 & H5 & I3 & F3 & U3); auto.
    set (s2 := setFn (fst (tryRemove same deep x (fn s1))) s1) in *.
    destruct (IH s2 pend1 Gs1 Q3 s' H5 Fr) as (pend4 & Gs4 & Q4 & n4 & A1 & A2 & A3 & A4 & A5 & A6 & A7 & A8 & A9 & A10); auto.
    { intros v' x' I. destruct (Hl v' x' (or_intror I)) as (P' & V' & D' & g' & Ig' & Eg' & Eb' & Ev'). split.
      - apply X10. left. split; auto. intros ->. apply Nx. apply in_map_iff. exists (v', x). auto.
      - split; auto. split; [apply X3; auto|]. destruct (X6 g' Ig') as (g2 & J1 & J2 & J3 & J4). exists g2. split; auto. split; [congruence|]. split; congruence. }
    assert (New : forall b' v' x', In (b', (v', x')) n1 -> b' <> b /\ ~ In x' (map snd l)).
    { intros b' v' x' I. destruct (X9 b' v' x' I) as (-> & D & _). assert (Nb : b' <> b) by (intros ->; auto). split; auto. intros J. apply in_map_iff in J as ([v2 x2] & Ex & J). cbn in Ex. subst x2.
      destruct (Hl v2 x' (or_intror J)) as (_ & _ & _ & g' & Ig' & Eg' & Eb' & _). destruct (X6 g' Ig') as (g2 & J1 & J2 & J3 & _).
      assert (It : In (b', (v, x')) (todo s1)) by (rewrite X8; apply in_or_app; now right).
      destruct (i_todo _ _ _ _ _ _ _ _ _ _ H2 b' v x' It) as (_ & _ & _ & g3 & Ig3 & Eg3 & Eb3 & _).
      assert (g3 = g2) by (apply (gname_eq pk pr f vars H2); auto; congruence). subst g3. congruence. }
    exists pend4, Gs4, Q4, (n1 ++ n4). split; auto. split; auto. split; [cbn in *; lia|]. split; [cbn in *; congruence|]. split; [eapply gsame_trans; eauto|].
    split; [intros u c D; apply A6; cbn; auto|]. split; [rewrite A7; cbn; now rewrite X8, app_assoc|]. split; [|split].
    + intros b' v' x' I. apply in_app_or in I as [I|I].
      * split; [apply (New b' v' x' I)|]. destruct (X9 b' v' x' I) as (_ & _ & L). cbn in *. lia.
      * destruct (A8 b' v' x' I) as [B1 B2]. split; auto. cbn in *. lia.
    + unfold tnames. rewrite map_app. apply NoDup_join; auto. intros y I J. apply in_map_iff in I as ([b1 [v1 x1]] & F1 & I). apply in_map_iff in J as ([b2 [v2 x2]] & F2 & J). cbn in *.
      destruct (X9 _ _ _ I) as (_ & _ & L1). destruct (A8 _ _ _ J) as (_ & L2). lia.
    + intros y. unfold tnames. rewrite A10, map_app, in_app_iff, X10. cbn [map snd]. cbn [In]. split.
      * intros [[[[P1 P2]|P1] P3]|P1]; auto. left. split; auto. intros [->|P4]; auto.
      * intros [[P1 P2]|[P1|P1]]; auto.
        -- left. split; [left; split; [exact P1|intros ->; apply P2; now left]|intros P3; apply P2; now right].
        -- left. split; [auto|]. apply in_map_iff in P1 as ([b1 [v1 x1]] & <- & I). cbn. apply (New b1 v1 x1 I).
Qed.
Lemma todoOf_in v x s : In (v, x) (todoOf b s) <-> In (b, (v, x)) (todo s).
Proof using.
  unfold todoOf. rewrite in_map_iff. split.
  - intros ([b' [v' x']] & E & I). cbn in E. injection E as -> ->. apply filter_In in I as [I Eb]. apply Nat.eqb_eq in Eb. cbn in Eb. now subst.
  - intros I. exists (b, (v, x)). split; auto. apply filter_In. split; auto. apply Nat.eqb_refl.
Qed.
Lemma NoDup_todoOf s : NoDup (tnames (todo s)) -> NoDup (map snd (todoOf b s)).
Proof using.
  unfold todoOf, tnames. induction (todo s) as [|[b' [v x]] l IH]; cbn; auto. intros N. apply NoDup_cons_iff in N as [N1 N2].
  destruct (Nat.eqb b' b); cbn; auto. constructor; auto. intros I. apply N1. apply in_map_iff in I as ([v1 x1] & E & I). cbn in E. subst x1.
  apply in_map_iff in I as ([b2 q] & E & I). cbn in E. subst q. apply filter_In in I as [I _]. apply in_map_iff. exists (b2, (v1, x)). auto.
Qed.
Lemma NoDup_filterk (l : list (nat * (nat * nat))) F : NoDup (tnames l) -> NoDup (tnames (filter F l)).
Proof using.
  unfold tnames. induction l as [|a l IH]; cbn; auto. intros N. apply NoDup_cons_iff in N as [N1 N2]. destruct (F a); cbn; auto. constructor; auto. intros I. apply N1.
  apply in_map_iff in I as (a' & E & I). apply filter_In in I as [I _]. apply in_map_iff. eauto.
Qed.
Lemma pd_fresh open s Gs Q y : Inv open (pd s) pref s Gs Q -> pd s y -> freshName f <= y.
Proof using.
  intros H P. apply in_map_iff in P as ([b' [v' x']] & <- & I). destruct (i_todo _ _ _ _ _ _ _ _ _ _ H b' v' x' I) as (_ & _ & _ & g' & Ig' & <- & _). apply (i_g _ _ _ _ _ _ _ _ _ _ H g' Ig').
Qed.
Lemma pd_lt open s Gs Q b' v' x' : Inv open (pd s) pref s Gs Q -> In (b', (v', x')) (todo s) -> x' < nxt s.
Proof using.
  intros H I. destruct (i_todo _ _ _ _ _ _ _ _ _ _ H b' v' x' I) as (_ & _ & _ & g' & Ig' & <- & _). apply (i_g _ _ _ _ _ _ _ _ _ _ H g' Ig').
Qed.
Lemma seal_ok s Gs Q s' : Inv [] (pd s) pref s Gs Q -> NoDup (tnames (todo s)) -> sealBlock same pr deep fuel e b s = Some s' ->
  exists Gs' Q', Inv [] (pd s') pref s' Gs' Q' /\ NoDup (tnames (todo s')) /\ seal s' = b :: seal s.
Proof using Hsame Nf Hpr Hesc Hvar Hpref Hb.
  intros H N E. unfold sealBlock in E. destruct (fillAll same pr deep fuel e b (todoOf b s) s) as [s1|] eqn:Ef; [|discriminate]. injection E as <-.
  destruct (fillAll_ok (todoOf b s) s (pd s) Gs Q s1 H) as (pend1 & Gs1 & Q1 & new & H1 & _ & L & S1 & GS & D1 & T1 & New & Nn & P1); auto.
  { intros y. apply (pd_fresh [] s Gs Q y H). }
  { intros v x I. apply todoOf_in in I. destruct (i_todo _ _ _ _ _ _ _ _ _ _ H b v x I) as (V & D & _ & g & G1). split; [apply in_map_iff; exists (b, (v, x)); auto|]. split; auto. split; auto. exists g. exact G1. }
  { now apply NoDup_todoOf. }
  exists Gs1, Q1. cbn [todo seal]. split; [|split; [|now rewrite S1]].
  - apply (inv_pend_iff pk pr f vars [] pend1).
    + intros y. rewrite P1. unfold pd, tnames. cbn [todo]. rewrite T1, filter_app, map_app, in_app_iff. split.
      * intros [[A B]|A].
        -- left. apply in_map_iff in A as ([b' [v' x']] & <- & I). apply in_map_iff. exists (b', (v', x')). split; auto. apply filter_In. split; auto. cbn.
           destruct (Nat.eqb_spec b' b) as [->|]; auto. exfalso. apply B. cbn. apply in_map_iff. exists (v', x'). split; auto. now apply todoOf_in.
        -- right. apply in_map_iff in A as ([b' [v' x']] & <- & I). apply in_map_iff. exists (b', (v', x')). split; auto. apply filter_In. split; auto. cbn.
           destruct (New b' v' x' I) as [Nb _]. destruct (Nat.eqb_spec b' b); auto.
      * intros [A|A]; apply in_map_iff in A as ([b' [v' x']] & <- & I); apply filter_In in I as [I F]; cbn in F.
        -- left. split; [apply in_map_iff; exists (b', (v', x')); auto|]. cbn. intros J. apply in_map_iff in J as ([v2 x2] & Ex & J). cbn in Ex. subst x2. apply todoOf_in in J.
           destruct (i_todo _ _ _ _ _ _ _ _ _ _ H b' v' x' I) as (_ & _ & _ & g & Ig & Eg & Eb & _). destruct (i_todo _ _ _ _ _ _ _ _ _ _ H b v2 x' J) as (_ & _ & _ & g2 & Ig2 & Eg2 & Eb2 & _).
           assert (g2 = g) by (apply (gname_eq pk pr f vars H); auto; congruence). subst g2. assert (b' = b) by congruence. subst. rewrite Nat.eqb_refl in F. discriminate.
        -- right. apply in_map_iff. exists (b', (v', x')). auto.
    + destruct H1. constructor; cbn [fn nxt seal todo defs]; auto.
      * intros b' p [<-|I] Ip; [now apply Hb|eauto].
      * intros b' v x I. apply filter_In in I as [I F]. cbn in F. destruct (i_todo b' v x I) as (A & B & C & D). split; auto. split; auto. split; auto. intros [->|J]; auto. rewrite Nat.eqb_refl in F. discriminate.
  - apply NoDup_filterk. unfold tnames. rewrite T1, map_app. apply NoDup_join; auto. intros y I J. apply in_map_iff in I as ([b1 [v1 x1]] & F1 & I). apply in_map_iff in J as ([b2 [v2 x2]] & F2 & J). cbn in *.
    pose proof (pd_lt [] s Gs Q b1 v1 x1 H I). destruct (New _ _ _ J) as (_ & L2). lia.
Qed.
End Seal.
Definition okS (pref : nat -> list inst) (s : mst) : Prop := NoDup (tnames (todo s)) /\ exists Gs Q, Inv [] (pd s) pref s Gs Q.
Lemma trySeal_ok pref done s b s' : prefOk pref -> (forall p, In p done -> doneAt pref p) -> okS pref s -> trySeal same pr deep fuel e done (Some s) b = Some s' ->
  okS pref s' /\ incl (seal s) (seal s') /\ (incl (pr b) done -> In b (seal s')).
Proof using Hsame Nf Hpr Hesc Hvar.
  intros Hpref Hd (N & Gs & Q & H) E. cbn in E. destruct (forallb (fun p => existsb (Nat.eqb p) done) (pr b)) eqn:Ea; cbn in E.
  - destruct (existsb (Nat.eqb b) (seal s)) eqn:Es; cbn in E.
    + injection E as <-. split; [split; eauto|]. split; [apply incl_refl|]. intros _. apply existsb_exists in Es as (b' & I & E'). apply Nat.eqb_eq in E'. now subst.
    + assert (Hb : forall p, In p (pr b) -> doneAt pref p). { intros p Ip. apply Hd. rewrite forallb_forall in Ea. specialize (Ea p Ip). apply existsb_exists in Ea as (p' & I & E'). apply Nat.eqb_eq in E'. now subst. }
      destruct (seal_ok pref Hpref b Hb s Gs Q s' H N E) as (Gs' & Q' & H' & N' & S'). split; [split; eauto|]. rewrite S'. split; [intros y I; now right|intros _; now left].
  - injection E as <-. split; [split; eauto|]. split; [apply incl_refl|]. intros I. exfalso. enough (forallb (fun p => existsb (Nat.eqb p) done) (pr b) = true) by congruence.
    apply forallb_forall. intros p Ip. apply existsb_exists. exists p. split; auto. apply Nat.eqb_refl.
Qed.
Lemma trySeals_ok pref done : prefOk pref -> (forall p, In p done -> doneAt pref p) -> forall l s s', okS pref s -> fold_left (trySeal same pr deep fuel e done) l (Some s) = Some s' ->
  okS pref s' /\ incl (seal s) (seal s') /\ (forall b, In b l -> incl (pr b) done -> In b (seal s')).
Proof using Hsame Nf Hpr Hesc Hvar.
  intros Hpref Hd. induction l as [|b l IH]; intros s s' H E.
  - injection E as <-. split; auto. split; [apply incl_refl|intros b []].
  - cbn [fold_left] in E. destruct (trySeal same pr deep fuel e done (Some s) b) as [s1|] eqn:E1.
    + destruct (trySeal_ok pref done s b s1 Hpref Hd H E1) as (A & B & C). destruct (IH s1 s' A E) as (A' & B' & C'). split; auto. split; [eapply incl_tran; eauto|]. intros b' [<-|I] J; auto.
    + exfalso. clear -E. induction l; [discriminate|]. cbn in E. auto.
Qed.

(** ** visiting *)
Definition setP (pref : nat -> list inst) (b : nat) (l : list inst) (c : nat) : list inst := if Nat.eqb c b then l else pref c.
Lemma prefOk_set pref b bk l : prefOk pref -> get b f = Some bk -> incl l (body bk) -> prefOk (setP pref b l).
Proof using. intros H G I c. unfold setP. destruct (Nat.eqb_spec c b) as [->|]; auto. intros _. eauto. Qed.
Lemma inv_ext open pend pref pref' s Gs Q : (forall c, pref c = pref' c) -> Inv open pend pref s Gs Q -> Inv open pend pref' s Gs Q.
Proof using.
  intros E H. destruct H. constructor; auto.
  - intros v b o V D. rewrite <- E. auto.
  - intros v b V L. rewrite <- E in L. auto.
  - intros b p I Ip. rewrite <- E. eauto.
Qed.
Lemma not_sealed pend pref s Gs Q b bk pre i post b' : Inv [] pend pref s Gs Q -> get b f = Some bk -> body bk = pre ++ i :: post -> pref b = pre -> In b' (seal s) -> ~ In b (pr b').
Proof using.
  intros H G E P I Ip. destruct (i_seal _ _ _ _ _ _ _ _ _ _ H b' b I Ip) as (bp & Gp & Pp). assert (bp = bk) by congruence. subst bp. rewrite P, E in Pp.
  apply (f_equal (@length inst)) in Pp. rewrite app_length in Pp. cbn in Pp. lia.
Qed.
Lemma inv_adv pend pref s Gs Q b bk pre i post : Inv [] pend pref s Gs Q -> get b f = Some bk -> body bk = pre ++ i :: post -> pref b = pre ->
  (forall v, In v vars -> storeTo pk v i = None) -> Inv [] pend (setP pref b (pre ++ [i])) s Gs Q.
Proof using.
  intros H G E P St. pose proof (fun b' => not_sealed pend pref s Gs Q b bk pre i post b' H G E P) as NS. destruct H. constructor; auto.
  - intros v c o V D. specialize (i_def v c o V D). unfold setP. destruct (Nat.eqb_spec c b) as [->|]; auto. unfold M2RVal.prefVal in *. rewrite lastStore_snoc, St; auto. now rewrite P in i_def.
  - intros v c V L. apply i_sto; auto. unfold setP in L. destruct (Nat.eqb_spec c b) as [->|]; auto. rewrite lastStore_snoc, St in L; auto. now rewrite P.
  - intros b' p I Ip. unfold setP. destruct (Nat.eqb_spec p b) as [->|]; [|eauto]. exfalso. exact (NS b' I Ip).
Qed.
Lemma storeTo_inv v i o : storeTo pk v i = Some o -> exists t r, pk (opc i) = PkStore t /\ ops i = ORes v :: o :: r.
Proof using.
  unfold storeTo. destruct (pk (opc i)) eqn:Ek; try discriminate. destruct (ops i) as [|[| |u] [|o' r]]; try discriminate. destruct (Nat.eqb_spec u v); [|discriminate]. intros K. injection K as ->. subst. eauto.
Qed.
Lemma inv_advS pend pref s Gs Q b bk pre i post v o o' : Inv [] pend pref s Gs Q -> get b f = Some bk -> body bk = pre ++ i :: post -> pref b = pre ->
  storeTo pk v i = Some o -> fwd Q o o' -> Inv [] pend (setP pref b (pre ++ [i])) (defVar v b o' s) Gs Q.
Proof using.
  intros H G E P St F. pose proof (fun b' => not_sealed pend pref s Gs Q b bk pre i post b' H G E P) as NS.
  assert (Ot : forall u, u <> v -> storeTo pk u i = None).
  { intros u N. destruct (storeTo pk u i) as [x|] eqn:Eu; auto. apply storeTo_inv in Eu as (t1 & r1 & _ & E1). apply storeTo_inv in St as (t2 & r2 & _ & E2). rewrite E1 in E2. injection E2. congruence. }
  destruct H. constructor; cbn [fn nxt seal todo defs defVar]; auto.
  - intros u c x V D. rewrite findDef_cons in D. unfold setP. destruct (Nat.eqb_spec v u) as [<-|Nu]; cbn in D.
    + destruct (Nat.eqb_spec b c) as [<-|Nc].
      * injection D as <-. rewrite Nat.eqb_refl. unfold M2RVal.prefVal. now rewrite lastStore_snoc, St.
      * destruct (Nat.eqb_spec c b); [congruence|]. auto.
    + specialize (i_def u c x V D). destruct (Nat.eqb_spec c b) as [->|]; auto. unfold M2RVal.prefVal in *. rewrite lastStore_snoc, Ot; auto. now rewrite P in i_def.
  - intros u c V L. rewrite findDef_cons. unfold setP in L. destruct (Nat.eqb_spec v u) as [<-|Nu]; cbn.
    + destruct (Nat.eqb_spec b c) as [<-|Nc]; [discriminate|]. apply i_sto; auto. destruct (Nat.eqb_spec c b); [congruence|auto].
    + apply i_sto; auto. destruct (Nat.eqb_spec c b) as [->|]; auto. rewrite lastStore_snoc, Ot in L; auto. now rewrite P.
  - intros b' p I Ip. unfold setP. destruct (Nat.eqb_spec p b) as [->|]; [|eauto]. exfalso. exact (NS b' I Ip).
  - intros b' v' x' I. destruct (i_todo b' v' x' I) as (A0 & A & B & C). split; auto. split; auto. rewrite findDef_cons. destruct (Nat.eqb v v' && Nat.eqb b b'); [discriminate|auto].
Qed.
Lemma inv_load pend pref s Gs Q b bk pre i post v t r o : prefOk pref -> Inv [] pend pref s Gs Q -> (forall y, pend y -> freshName f <= y) ->
  get b f = Some bk -> body bk = pre ++ i :: post -> pref b = pre -> pk (opc i) = PkLoad t -> ops i = ORes v :: r -> In v vars -> prefVal Gs Q v b pre o ->
  Inv [] pend pref (setFn (replace (dst i) o (fn s)) s) Gs ((dst i, o) :: Q).
Proof using Hesc Hvar.
  intros Hpref H Hp G E P Ek Eo V Pv. assert (Ov : okv vars (nxt s) o). { apply (inv_pv_okv pk pr f vars Hesc Hvar Hpref H v b). now rewrite P. }
  assert (Ld : dst i < freshName f). { apply (fresh_ge f). apply (result_in f b bk); auto. apply in_or_app. right. rewrite E, map_app. apply in_or_app. right. now left. }
  assert (IQ : incl Q ((dst i, o) :: Q)) by (intros y I; now right).
  assert (GS : gsame Gs Gs) by apply gsame_refl.
  pose proof (fun v b pre o => pv_mono pk pr f Gs Q Gs _ v b pre o GS IQ) as PM.
  destruct H. constructor; cbn [fn nxt seal todo defs setFn]; auto.
  - apply (relF_replace Q _ (dst i) o _ _ IQ); auto. now left.
  - intros g I. destruct (i_g g I) as (B1 & B2 & B3 & B4 & B5). split; auto. split; auto. split; auto. split; auto. intros p x J. destruct (B5 p x J) as (C1 & bp & C2 & C3). split; auto. exists bp. split; auto.
  - intros y c [I|I].
    + injection I as <- <-. split; [lia|]. split; auto. split; [intros K; apply Hp in K; lia|]. split; [intros []|]. left. exists b, bk, pre, i, post, v, t, r. repeat (split; [solve [auto]|]). now apply PM.
    + destruct (i_Q y c I) as (B1 & B2 & B3 & B4 & B5). split; auto. split; auto. split; auto. split; auto. destruct B5 as [B5|B5]; [left|right].
      * exact (loadJust_mono pk pr f vars Gs Q Gs _ y c GS IQ B5).
      * exact (phiJust_ext f Gs Q Gs _ y c (fun g J _ => J) IQ B5).
Qed.
Lemma var_src open pend pref s Gs Q v o o' : Inv open pend pref s Gs Q -> In v vars -> fwd Q o o' -> o' = ORes v -> o = ORes v.
Proof using.
  intros H V F. induction F as [|x c o I F IH]; auto. intros E. specialize (IH E). exfalso. destruct (i_Q _ _ _ _ _ _ _ _ _ _ H x c I) as (_ & (K & _) & _). exact (K v V IH).
Qed.
Lemma var_dst open pend pref s Gs Q v o' : Inv open pend pref s Gs Q -> In v vars -> fwd Q (ORes v) o' -> o' = ORes v.
Proof using Hvar Hnl Hnp.
  intros H V F. inversion F as [|x c o I F' Ex]; subst; auto. exfalso. destruct (i_Q _ _ _ _ _ _ _ _ _ _ H v c I) as (_ & _ & _ & _ & [J|J]).
  - destruct J as (b & bk & pre & i & post & u & t & r & G & E & D & Ek & _). apply (Hnl v b bk i t V G); auto. rewrite E. apply in_or_app. right. now left.
  - destruct J as (b & bk & ph & G & Ip & D & _). rewrite get_ghost in G. destruct (get b f) as [bk0|] eqn:Eb; [|discriminate]. cbn in G. injection G as <-. cbn in Ip.
    apply in_app_or in Ip as [Ip|Ip].
    + apply in_map_iff in Ip as (g & <- & Ip). apply gAt_in in Ip as [Ip _]. cbn in D. pose proof (proj1 (proj1 (i_g _ _ _ _ _ _ _ _ _ _ H g Ip))). pose proof (Hvar v V). lia.
    + apply (Hnp v b bk0 V Eb). rewrite <- D. now apply in_map.
Qed.
Lemma Forall2_nth {A B} (R : A -> B -> Prop) pre i post l : Forall2 R (pre ++ i :: post) l -> exists j, nth_error l (length pre) = Some j /\ R i j.
Proof using. revert l. induction pre as [|a pre IH]; cbn; intros l H; inversion H; subst; [eexists; split; [reflexivity|auto]|apply IH; auto]. Qed.
Lemma isVar_in v : isVar vars v = true <-> In v vars.
Proof using. unfold isVar. rewrite existsb_exists. split; [intros (y & I & E); apply Nat.eqb_eq in E; now subst|intros I; exists v; split; auto; apply Nat.eqb_refl]. Qed.
Lemma okS_names pref s s' new : okS pref s -> todo s' = todo s ++ new -> (forall b v x, In (b, (v, x)) new -> nxt s <= x) -> NoDup (tnames new) -> NoDup (tnames (todo s')).
Proof using.
  intros (N & Gs & Q & H) E L Nn. rewrite E. unfold tnames. rewrite map_app. apply NoDup_join; auto. intros y I J. apply in_map_iff in I as ([b1 [v1 x1]] & F1 & I). apply in_map_iff in J as ([b2 [v2 x2]] & F2 & J). cbn in *.
  pose proof (pd_lt pref [] s Gs Q b1 v1 x1 H I). pose proof (L _ _ _ J). lia.
Qed.
Lemma visitInst_ok pref s b bk pre i post s' : prefOk pref -> okS pref s -> get b f = Some bk -> body bk = pre ++ i :: post -> pref b = pre ->
  visitInst pk same pr deep fuel vars e b (Some s) (length pre) = Some s' -> okS (setP pref b (pre ++ [i])) s' /\ seal s' = seal s.
Proof using Hsame Nf Hpr Hesc Hvar Hnl Hnp.
  intros Hpref O G E P V. pose proof O as (N & Gs & Q & H). unfold visitInst in V.
  pose proof (relF_get _ _ _ b (i_rel _ _ _ _ _ _ _ _ _ _ H)) as R. rewrite get_ghost, G in R. cbn in R. destruct (get b (fn s)) as [bk'|]; [|contradiction]. destruct R as (_ & R & _). cbn in R. rewrite E in R.
  destruct (Forall2_nth _ _ _ _ _ R) as (j & Ej & D1 & D2 & D3). rewrite Ej in V. rewrite <- D2 in V.
  assert (None' : (forall v, In v vars -> storeTo pk v i = None) -> s' = s -> okS (setP pref b (pre ++ [i])) s' /\ seal s' = seal s).
  { intros K ->. split; auto. split; auto. exists Gs, Q. exact (inv_adv (pd s) pref s Gs Q b bk pre i post H G E P K). }
  assert (NS : forall v, (forall t, pk (opc i) <> PkStore t) -> storeTo pk v i = None).
  { intros v K. destruct (storeTo pk v i) eqn:Eu; auto. apply storeTo_inv in Eu as (t & r & A & _). now apply K in A. }
  destruct (pk (opc i)) as [t|t|t| | | | |] eqn:Ek; try (injection V as <-; apply None'; auto; intros v _; apply NS; intros t'; discriminate).
  - (* load *)
    assert (Same : Some s = Some s' -> okS (setP pref b (pre ++ [i])) s' /\ seal s' = seal s) by (intros K; injection K as <-; apply None'; auto; intros v _; apply NS; intros t'; discriminate).
    destruct (ops j) as [|[| |v] r'] eqn:Eo; auto. destruct (isVar vars v) eqn:Ev; auto. clear Same. apply isVar_in in Ev.
    destruct (uv v b s) as [[s1 o]|] eqn:Eu; [|discriminate]. injection V as <-.
    assert (Ib : In b (map fst f)) by (apply in_map_iff; exists (b, bk); split; auto; now apply get_In).
    destruct (useVar_ok pk pr same Hsame deep f vars Nf Hpr Hesc Hvar pref Hpref fuel v b s s1 o [] (pd s) Gs Q H Ev Ib Eu) as (pend1 & Gs1 & Q1 & H1 & X & Pv).
    destruct X as (X1 & X2 & X3 & X4 & X5 & X6 & X7 & n1 & X8 & X9 & XN & X10). rewrite P in Pv.
    assert (H2 : Inv [] (pd s1) pref s1 Gs1 Q1). { apply (inv_pend_iff pk pr f vars [] pend1); auto. intros y. rewrite X10. unfold pd, tnames. now rewrite X8, map_app, in_app_iff. }
    inversion D3 as [|o0 ? r0 ? F0 F1]; subst; try congruence. assert (o0 = ORes v) by (eapply (var_src [] (pd s) pref s Gs Q); eauto; congruence). subst o0.
    assert (Eoi : ops i = ORes v :: r0) by congruence.
    pose proof (inv_load (pd s1) pref s1 Gs1 Q1 b bk _ i post v t r0 o Hpref H2 (fun y => pd_fresh pref [] s1 Gs1 Q1 y H2) G E eq_refl Ek Eoi Ev Pv) as H3. rewrite D1 in H3.
    split; [|exact X2]. split.
    + apply (okS_names pref s s1 n1 O X8); auto. intros b' v' x' I. apply (X9 b' v' x' I).
    + exists Gs1. eexists. eapply inv_adv; [exact H3|exact G|exact E|reflexivity|]. intros v' _. apply NS. intros t'; discriminate.
  - (* store *)
    assert (Same : (forall v o r', ops j = ORes v :: o :: r' -> isVar vars v = true -> False) -> Some s = Some s' -> okS (setP pref b (pre ++ [i])) s' /\ seal s' = seal s).
    { intros K E'. injection E' as <-. apply None'; auto. intros v Iv. destruct (storeTo pk v i) as [o|] eqn:Eu; auto. exfalso. apply storeTo_inv in Eu as (t' & r & _ & Eo). rewrite Eo in D3.
      inversion D3 as [|? o1 ? r1 F0 F1 A1 A2]; subst. inversion F1 as [|? o2 ? r2 F2 F3 A3 A4]; subst. assert (o1 = ORes v) by (eapply (var_dst [] (pd s) pref s Gs Q); eauto). subst o1.
      apply (K v o2 r2); auto. now apply isVar_in. }
    destruct (ops j) as [|[| |v] [|o r']] eqn:Eo; try (apply Same; auto; intros; discriminate).
    destruct (isVar vars v) eqn:Ev; [|apply Same; auto; intros v0 o0 r0 K; injection K as -> _ _; congruence]. clear Same. injection V as <-. apply isVar_in in Ev. split; auto. split; auto. exists Gs, Q.
    inversion D3 as [|o1 ? r1 ? F0 F1 A1 A2]; subst. inversion F1 as [|o2 ? r2 ? F2 F3 A3 A4]; subst. assert (o1 = ORes v) by (eapply (var_src [] (pd s) (pref) s Gs Q); eauto). subst o1.
    apply (inv_advS (pd s) pref s Gs Q b bk _ i post v o2 o H G E eq_refl); auto. unfold storeTo. now rewrite Ek, <- A1, Nat.eqb_refl.
Qed.

Lemma okS_ext pref pref' s : (forall c, pref c = pref' c) -> okS pref s -> okS pref' s.
Proof using. intros E (N & Gs & Q & H). split; auto. exists Gs, Q. exact (inv_ext [] (pd s) pref pref' s Gs Q E H). Qed.
Lemma visitInst_None b l : fold_left (visitInst pk same pr deep fuel vars e b) l None = None.
Proof using. induction l; auto. Qed.
Lemma trySeal_None done l : fold_left (trySeal same pr deep fuel e done) l None = None.
Proof using. induction l; auto. Qed.
Lemma body_ok b bk : get b f = Some bk -> forall post pre pref s s', body bk = pre ++ post -> pref b = pre -> prefOk pref -> okS pref s ->
  fold_left (visitInst pk same pr deep fuel vars e b) (seq (length pre) (length post)) (Some s) = Some s' -> okS (setP pref b (body bk)) s' /\ seal s' = seal s.
Proof using Hsame Nf Hpr Hesc Hvar Hnl Hnp.
  intros G. induction post as [|i post IH]; intros pre pref s s' E P Hp O F.
  - injection F as <-. split; auto. apply (okS_ext pref); auto. intros c. unfold setP. destruct (Nat.eqb_spec c b) as [->|]; auto. rewrite E, P. now rewrite app_nil_r.
  - cbn [length seq fold_left] in F. destruct (visitInst pk same pr deep fuel vars e b (Some s) (length pre)) as [s1|] eqn:E1; [|rewrite visitInst_None in F; discriminate].
    destruct (visitInst_ok pref s b bk pre i post s1 Hp O G E P E1) as [O1 S1].
    assert (E2 : body bk = (pre ++ [i]) ++ post) by (rewrite <- app_assoc; exact E).
    assert (P2 : setP pref b (pre ++ [i]) b = pre ++ [i]) by (unfold setP; now rewrite Nat.eqb_refl).
    assert (Hp2 : prefOk (setP pref b (pre ++ [i]))). { apply (prefOk_set pref b bk); auto. rewrite E2. intros y I. apply in_or_app. auto. }
    assert (F2 : fold_left (visitInst pk same pr deep fuel vars e b) (seq (length (pre ++ [i])) (length post)) (Some s1) = Some s') by (rewrite app_length; cbn; rewrite Nat.add_1_r; exact F).
    destruct (IH (pre ++ [i]) _ s1 s' E2 P2 Hp2 O1 F2) as [O3 S3]. split; [|congruence]. revert O3. apply okS_ext. intros c. unfold setP. destruct (Nat.eqb c b); auto.
Qed.
Definition prefOf (done : list nat) (c : nat) : list inst := if existsb (Nat.eqb c) done then match get c f with Some bk => body bk | None => [] end else [].
Lemma prefOf_ok done : prefOk (prefOf done).
Proof using. intros c N. unfold prefOf in *. destruct (existsb (Nat.eqb c) done); [|congruence]. destruct (get c f) as [bk|]; [|congruence]. exists bk. split; auto. apply incl_refl. Qed.
Lemma prefOf_done done p : incl done (map fst f) -> In p done -> doneAt (prefOf done) p.
Proof using Nf.
  intros I J. pose proof (I p J) as K. apply in_map_iff in K as ([p' bp] & E & K). cbn in E. subst p'. exists bp. assert (G : get p f = Some bp) by now apply In_get. split; auto. unfold prefOf.
  replace (existsb (Nat.eqb p) done) with true; [now rewrite G|]. symmetry. apply existsb_exists. exists p. split; auto. apply Nat.eqb_refl.
Qed.
Definition topOk (done : list nat) (s : mst) : Prop :=
  incl done (map fst f) /\ okS (prefOf done) s /\ forall c, incl (pr c) done -> In c done \/ pr c <> [] -> In c (seal s).
Lemma visit_ok done s b done' s' : topOk done s -> ~ In b done -> In b (map fst f) -> visit pk same pr deep fuel vars e (done, Some s) b = (done', Some s') -> done' = b :: done /\ topOk (b :: done) s'.
Proof using Hsame Nf Hpr Hesc Hvar Hnl Hnp.
  intros (Id & O & J) Nb Ib E. apply in_map_iff in Ib as ([b0 bk] & E0 & Ib). cbn in E0. subst b0. assert (G : get b f = Some bk) by now apply In_get.
  unfold visit in E. injection E as <- E. split; auto.
  assert (R : exists bk', get b (fn s) = Some bk' /\ length (body bk') = length (body bk) /\ succs (trm bk') = succs (trm bk)).
  { destruct O as (_ & Gs & Q & H). pose proof (relF_get _ _ _ b (i_rel _ _ _ _ _ _ _ _ _ _ H)) as R. rewrite get_ghost, G in R. cbn in R. destruct (get b (fn s)) as [bk'|]; [|contradiction]. destruct R as (_ & R1 & R2). cbn in *.
    exists bk'. split; auto. split; [clear -R1; induction R1; cbn; congruence|eapply relTerm_succs; eauto]. }
  destruct R as (bk' & G' & Len & Suc). unfold bodyLen, succsOf in E. rewrite G', Len, Suc in E.
  destruct (fold_left (visitInst pk same pr deep fuel vars e b) (seq 0 (length (body bk))) (Some s)) as [s1|] eqn:E1.
  2:{ cbn in E. rewrite trySeal_None in E. discriminate. }
  assert (P0 : prefOf done b = []). { unfold prefOf. destruct (existsb (Nat.eqb b) done) eqn:Ex; auto. exfalso. apply Nb. apply existsb_exists in Ex as (y & I & Ey). apply Nat.eqb_eq in Ey. now subst. }
  destruct (body_ok b bk G (body bk) [] (prefOf done) s s1 eq_refl P0 (prefOf_ok done) O E1) as [O1 S1].
  assert (O1' : okS (prefOf (b :: done)) s1).
  { revert O1. apply okS_ext. intros c. unfold setP, prefOf. cbn [existsb]. destruct (Nat.eqb_spec c b) as [->|]; cbn; auto. now rewrite G. }
  assert (Id' : incl (b :: done) (map fst f)). { intros y [<-|I]; auto. apply in_map_iff. exists (b, bk). auto. }
  destruct (trySeal same pr deep fuel e done (Some s1) b) as [s2|] eqn:E2; [|rewrite trySeal_None in E; discriminate].
  destruct (trySeal_ok (prefOf (b :: done)) done s1 b s2 (prefOf_ok _)) as (O2 & I2 & K2); auto.
  { intros p Ip. apply prefOf_done; auto. now right. }
  destruct (trySeals_ok (prefOf (b :: done)) (b :: done) (prefOf_ok _) (fun p Ip => prefOf_done _ p Id' Ip) (succs (trm bk)) s2 s' O2 E) as (O3 & I3 & K3).
  split; auto. split; auto. intros c Ic Dc. destruct (in_dec Nat.eq_dec b (pr c)) as [Ip|Np].
  - apply K3; auto. apply Hpr in Ip as (pb & Gp & Is). now replace bk with pb by congruence.
  - assert (Ic' : incl (pr c) done). { intros p Ip. destruct (Ic p Ip) as [<-|]; auto. contradiction. }
    apply I3. destruct (Nat.eq_dec c b) as [->|Ne]; [auto|]. apply I2. rewrite S1. apply J; auto. destruct Dc as [[Dc|Dc]|Dc]; auto; congruence.
Qed.
Lemma visit_None l done : snd (fold_left (visit pk same pr deep fuel vars e) l (done, None)) = None.
Proof using. revert done. induction l; cbn; auto. Qed.
Lemma visits_ok : forall l done s s', topOk done s -> NoDup l -> (forall b, In b l -> ~ In b done /\ In b (map fst f)) ->
  snd (fold_left (visit pk same pr deep fuel vars e) l (done, Some s)) = Some s' -> exists done', topOk done' s' /\ incl (l ++ done) done'.
Proof using Hsame Nf Hpr Hesc Hvar Hnl Hnp.
  induction l as [|b l IH]; intros done s s' T N D E.
  - injection E as <-. exists done. split; auto. apply incl_refl.
  - cbn [fold_left] in E. apply NoDup_cons_iff in N as [N1 N2]. destruct (D b (or_introl eq_refl)) as [D1 D2].
    destruct (visit pk same pr deep fuel vars e (done, Some s) b) as [done1 [s1|]] eqn:E1; [|rewrite visit_None in E; discriminate].
    destruct (visit_ok done s b done1 s1 T D1 D2 E1) as [-> T1].
    destruct (IH (b :: done) s1 s' T1 N2) as (done' & T' & I'); auto.
    + intros c Ic. destruct (D c (or_intror Ic)) as [A B]. split; auto. intros [<-|K]; auto.
    + exists done'. split; auto. intros y [<-|I]; apply I'; apply in_or_app; [right; now left|]. apply in_app_or in I as [I|I]; auto. right. now right.
Qed.
Lemma ghost_nil : ghost [] f = f.
Proof using. unfold ghost. rewrite <- (map_id f) at 2. apply map_ext. intros [b [p l t]]. reflexivity. Qed.
Lemma start_ok : topOk [] (Mst f [] [] [] (freshName f)).
Proof using.
  split; [intros y []|]. split.
  - split; [constructor|]. exists [], []. constructor; cbn [fn nxt seal todo defs]; auto; try (intros; contradiction); try (intros; discriminate).
    + rewrite ghost_nil. apply relF_refl. constructor.
    + constructor.
  - intros c I [[]|N]. destruct (pr c) as [|p l]; [congruence|]. destruct (I p (or_introl eq_refl)).
Qed.
Theorem arrives order g : NoDup order -> (forall b, In b order <-> In b (map fst f)) ->
  option_map fn (snd (fold_left (visit pk same pr deep fuel vars e) order ([], Some (Mst f [] [] [] (freshName f))))) = Some g ->
  exists Gs Q, solved pk pr vars f Gs Q /\ relF (fwd Q) (ghost Gs f) g.
Proof using Hsame Nf Hpr Hesc Hvar Hnl Hnp.
  intros N Ho E. destruct (snd (fold_left (visit pk same pr deep fuel vars e) order ([], Some (Mst f [] [] [] (freshName f))))) as [s|] eqn:Es; [|discriminate]. injection E as <-.
  destruct (visits_ok order [] _ s start_ok N) as (done & (Id & (Nn & Gs & Q & H) & J) & I); auto.
  { intros b Ib. split; [intros []|now apply Ho]. }
  assert (All : forall b, In b (map fst f) -> In b (seal s)).
  { intros b Ib. assert (Ad : forall c, In c (map fst f) -> In c done) by (intros c Ic; apply I; apply in_or_app; left; now apply Ho). apply J; auto.
    intros p Ip. apply Ad. exact (pred_in pr f Hpr b p Ip). }
  assert (Np : forall y, ~ pd s y).
  { intros y P. apply in_map_iff in P as ([b [v x]] & _ & P). destruct (i_todo _ _ _ _ _ _ _ _ _ _ H b v x P) as (_ & _ & Ns & g & Ig & _ & <- & _). apply Ns. apply All. apply (i_g _ _ _ _ _ _ _ _ _ _ H g Ig). }
  exists Gs, Q. split; [|exact (i_rel _ _ _ _ _ _ _ _ _ _ H)]. split; [exact (i_nd _ _ _ _ _ _ _ _ _ _ H)|]. split.
  - intros g Ig. destruct (i_g _ _ _ _ _ _ _ _ _ _ H g Ig) as (A & B & C & D & F). split; [apply A|]. split; auto. split; auto. split; auto. split; [|exact F].
    apply (proj2 (i_stat _ _ _ _ _ _ _ _ _ _ H g Ig)); auto.
  - intros x c Ix. apply (i_Q _ _ _ _ _ _ _ _ _ _ H x c Ix).
Qed.
End Top.
