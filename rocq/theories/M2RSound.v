(** Promoted variables hold the values computed for them, and the function with the values in place runs as before (proofs, C48). *)
From Coq Require Import ZArith Lia Bool List Arith.
From Verif Require Import Sim Ssa SsaCfg SsaMerge SsaFwd SsaWf SsaDom SsaSub SsaEq SsaPhi SsaCse LdSt LdStPts M2R M2RVal M2RRel M2RPriv M2RRun.
Import ListNotations.

Section Sound.
Context {W : Type} (m : sem W) (M : memory W) (K : secrecy (W:=W)) (args : nat -> value) (w0 : W).
Variable pk : nat -> pkind.
Variable scalar : nat -> bool.
Variable pr : nat -> list nat.
Variable f : func.
Notation vars := (promotable pk scalar f).
Hypothesis Hw : wfs f.
Hypothesis Hpr : forall b p, In p (pr b) <-> exists pb, get p f = Some pb /\ In b (succs (trm pb)).
Hypothesis Hentry : pr (entry f) = [].
Variable Gs : list gphi.
Variable Q : list (nat * opnd).
Hypothesis Sol : solved pk pr vars f Gs Q.
Hypothesis Hm : memMeaning m M pk.
Hypothesis Hk : secret m M K.
Hypothesis Hfresh : freshAllocs m K pk args w0 f.
Hypothesis Hp : plainVars pk scalar f.
Hypothesis Hsafe : Sim.safe (step m args f) (start f w0).
Notation h := (ghost Gs f).
Notation prefVal := (prefVal pk pr f Gs Q).
Notation entryVal := (entryVal pk pr f Gs Q).
Lemma Us : uniqueDefs h. Proof using Hw Sol. exact (ghost_unique pk pr vars f Hw Gs Q Sol). Qed.
Lemma Uf : uniqueDefs f. Proof using Hw. exact (proj1 (proj2 (proj1 Hw))). Qed.
Lemma Ss : ssa h. Proof using Hw Hpr Hentry Sol. exact (proj1 (proj2 (ghost_wfs pk pr vars f Hw Hpr Hentry Gs Q Sol))). Qed.
Notation Qb := (Q_before pk pr vars f Hw Hpr Hentry Gs Q Sol).
Notation pvAvail := (prefVal_avail pk pr vars f Hw Hpr Hentry Gs Q Sol).

(** ** replaced names have the values that replaced them *)
Definition P1 (x : nat) (e : env) : Prop := forall c, In (x, c) Q -> e x = rd args e c.
Definition DQ (x : nat) : list nat := flat_map (fun q => if Nat.eqb (fst q) x then res_of (snd q) else []) Q.
Lemma DQ_in x y : In y (DQ x) <-> In (x, ORes y) Q.
Proof using.
  unfold DQ. rewrite in_flat_map. split.
  - intros ([x' c] & I & J). cbn in J. destruct (Nat.eqb_spec x' x) as [->|]; [|destruct J]. now rewrite (res_of_eq _ _ J) in I.
  - intros I. exists (x, ORes y). split; auto. cbn. rewrite Nat.eqb_refl. now left.
Qed.
Lemma P1_frame x e e' : (forall y, y = x \/ In y (DQ x) -> e y = e' y) -> P1 x e -> P1 x e'.
Proof using.
  intros H P c I. rewrite <- (H x) by auto. rewrite (P c I). apply rd_ext. intros y Iy. apply H. right. apply DQ_in. now rewrite <- (res_of_eq _ _ Iy).
Qed.
Lemma P1_dep x d bk y : get d h = Some bk -> reach h d -> In x (resultsOf bk) -> In y (DQ x) ->
  availIn h d y \/ (In x (map pdst (phis bk)) /\ In y (map pdst (phis bk))) \/
  (exists pre i post, body bk = pre ++ i :: post /\ dst i = x /\ (In y (map pdst (phis bk)) \/ In y (map dst pre))).
Proof using Hw Hpr Hentry Sol. intros G R I J. apply DQ_in in J. exact (Qb x y J d bk G R I). Qed.
Lemma chain_rd b bk pre post e o o' : get b h = Some bk -> reach h b -> body bk = pre ++ post -> factsAt h P1 b bk pre e ->
  fwd Q o o' -> opAvail (availAt h b bk pre) o -> rd args e o = rd args e o' /\ opAvail (availAt h b bk pre) o'.
Proof using Hw Hpr Hentry Sol.
  intros G R E F. induction 1 as [o|x c o I H IH]; intros A; auto. cbn in A.
  assert (Ac : opAvail (availAt h b bk pre) c). { destruct c as [| |y]; cbn; auto. eapply (before_avail h x y); eauto; [exact Us|exact (Qb x y I)]. }
  destruct (IH Ac) as [B C]. split; auto. rewrite <- B. exact (F x A c I).
Qed.
Lemma out_facts p pb e : get p h = Some pb -> (forall x, availOut h p x -> P1 x e) -> factsAt h P1 p pb (body pb) e.
Proof using. intros G H x A. apply H. now apply (availOut_at h p pb x G). Qed.
Lemma ne_upd e o i v b bk pre post : get b h = Some bk -> reach h b -> body bk = pre ++ i :: post -> opAvail (availAt h b bk pre) o -> rd args (upd e (dst i) v) o = rd args e o.
Proof using Hw Sol.
  intros G R E A. apply rd_ext. intros y Iy. rewrite (res_of_eq _ _ Iy) in A. cbn in A. apply upd_ne. intros ->.
  pose proof (block_NoDup h b bk Us G) as N. destruct A as [(d & D & Nd & _)|[A|A]].
  - apply Nd. apply (defIn_unique h (dst i) d b Us D). exists bk. split; auto. apply in_or_app. right. rewrite E, map_app. apply in_or_app. right. now left.
  - apply (phi_body_disj bk (dst i) N A). rewrite E, map_app. apply in_or_app. right. now left.
  - unfold resultsOf in N. apply NoDup_app_r in N. rewrite E, map_app in N. eapply NoDup_app_disj; [exact N|exact A|now left].
Qed.
Lemma above_rd e p b bk vs o : get b h = Some bk -> rdPhis args e p (phis bk) = Some vs -> opAvail (availIn h b) o -> rd args (updAll e vs) o = rd args e o.
Proof using Hw Sol.
  intros G Er A. apply rd_ext. intros y Iy. rewrite (res_of_eq _ _ Iy) in A. destruct A as (d & D & Nd & _). apply updAll_ne. rewrite (rdPhis_fst _ _ _ _ _ Er).
  intros I. apply Nd. apply (defIn_unique h y d b Us D). exists bk. split; auto. apply in_or_app. now left.
Qed.
Lemma P1_phi b bk p pb e vs : get b h = Some bk -> reach h b -> reach h p -> get p h = Some pb -> In b (succs (trm pb)) -> factsAt h P1 p pb (body pb) e ->
  rdPhis args e p (phis bk) = Some vs -> forall x, In x (map pdst (phis bk)) -> P1 x (updAll e vs).
Proof using Hw Hpr Hentry Sol.
  intros G R Rp Gp Es F Er x Ix c Ic. pose proof (proj1 (reach_ghost Gs f b) R) as Rf.
  pose proof (phi_above pk pr vars f Hw Hpr Hentry Gs Q Sol x c b bk Ic Rf G Ix) as Av.
  destruct Sol as (_ & _ & S2). destruct (S2 x c Ic) as [J|J]; [exfalso; exact (load_not_phi pk pr vars f Hw Gs Q Sol b bk x c G Ix J)|].
  destruct J as (b' & bk' & ph & G' & Iph & Ex & Hin).
  assert (b' = b) by exact (phi_unique pk pr vars f Hw Gs Q Sol b bk b' bk' ph x G Ix G' Iph Ex). subst b'. rewrite G in G'. injection G' as <-.
  destruct (rdPhis_val args e p (phis bk) vs ph (phis_NoDup h b bk Us G) Er Iph) as (o & v & Go & Ro & Uo). rewrite Ex in Uo. rewrite Uo, <- Ro.
  rewrite (above_rd e p b bk vs c G Er Av). apply get_In in Go.
  assert (Ao : opAvail (availAt h p pb (body pb)) o).
  { destruct (Ss b bk G R) as (_ & _ & S3). specialize (S3 ph p o Iph Go Rp). destruct o as [| |y]; cbn in *; auto. now apply (availOut_at h p pb y Gp). }
  destruct (Hin p o Go) as [Fw|Fw]; destruct (chain_rd p pb (body pb) [] e o _ Gp Rp (eq_sym (app_nil_r _)) F Fw Ao) as [E1 E2].
  - rewrite E1. exact (F x E2 c Ic).
  - exact E1.
Qed.
Lemma P1_enter b bk p pb e vs : get b h = Some bk -> reach h b -> reach h p -> get p h = Some pb -> In b (succs (trm pb)) -> factsAt h P1 p pb (body pb) e ->
  rdPhis args e p (phis bk) = Some vs -> factsAt h P1 b bk [] (updAll e vs).
Proof using Hw Hpr Hentry Sol.
  intros G R Rp Gp Es F Er x [A|[A|[]]]; [|exact (P1_phi b bk p pb e vs G R Rp Gp Es F Er x A)].
  apply (P1_frame x e).
  - intros y Hy. symmetry. apply updAll_ne. rewrite (rdPhis_fst _ _ _ _ _ Er). intros I. refine (above_ne h DQ Us P1_dep b x y y R A _ Hy eq_refl). exists bk. split; auto. apply in_or_app. now left.
  - apply F. apply (availOut_at h p pb x Gp). exact (availIn_edge h p b pb x Gp Es A).
Qed.

(** ** the types of variables *)
Definition vtype (v t : nat) : Prop := exists bk i, get (entry f) f = Some bk /\ In i (body bk) /\ dst i = v /\ pk (opc i) = PkAlloc t.
Lemma same_inst b bk i j : get b f = Some bk -> In i (body bk) -> In j (body bk) -> dst i = dst j -> i = j.
Proof using Hw.
  intros G. pose proof (block_NoDup f _ _ Uf G) as N. unfold resultsOf in N. apply NoDup_app_r in N. induction (body bk) as [|x l IH]; [contradiction|]. cbn in N. apply NoDup_cons_iff in N as [N1 N2].
  intros [<-|I] [<-|J] E; auto; exfalso; apply N1; [rewrite E|rewrite <- E]; now apply in_map.
Qed.
Lemma vtype_use v t : In v vars -> vtype v t -> usedAs pk f v t.
Proof using Hp. intros V (bk & i & G & I & <- & P). eapply Hp; eauto. Qed.
Lemma var_entry v : In v vars -> defIn f v (entry f).
Proof using Hp.
  intros V. destruct (var_split pk scalar f Hp v V) as (bk & pre & i & post & t & G & E & Ex & _). exists bk. split; auto. apply in_or_app. right. rewrite E, map_app, <- Ex. apply in_or_app. right. now left.
Qed.

(** ** a value that comes from the only predecessor is not one of the block's phis *)
Lemma single_out b p y : pr b = [p] -> reach f p -> defIn h y b -> availOut h p y -> False.
Proof using Hw Hpr Hentry Sol.
  intros E [l R] D (d & Dd & Dm). rewrite (defIn_unique h y d b Us Dd D) in Dm. destruct (first_arrival f p l R) as (l1 & P1' & N1 & _).
  assert (I : In b (p :: l1)) by (apply Dm; now apply path_ghost). destruct (path_split f p (p :: l1) b P1' I) as (la & lb & El & Pb & _).
  destruct (path_hd _ _ _ Pb) as [l2 ->]. inversion Pb as [E0|q l0 bq t0 Pq Gq Tq]; subst.
  - rewrite Hentry in E. discriminate.
  - assert (Iq : In q (pr b)) by (apply Hpr; eauto). rewrite E in Iq. destruct Iq as [<-|[]]. destruct (path_hd _ _ _ Pq) as [l3 ->].
    destruct la as [|x la]; cbn in El; injection El as -> ->; apply N1; [now left|]. apply in_or_app. right. right. now left.
Qed.

(** ** variables hold their values *)
Definition D2 (b : nat) (bk : block) (pre : list inst) (e : env) (w : W) : Prop :=
  forall v a o t, In v vars -> availAt h b bk pre v -> e v = Some (VOpq a) -> vtype v t -> prefVal v b pre o -> ld M t a w = rd args e o.
Definition Good (b : nat) (bk : block) (pre : list inst) (e : env) (w : W) : Prop := factsAt h P1 b bk pre e /\ D2 b bk pre e w.
Lemma entryVal_entry v b o : entryVal v b o -> b = entry f -> o = OCst VUndef.
Proof using Hentry Sol.
  induction 1 as [|g Ig Ev|b p bp s o A B C D|b p bp o A B C D _|b o o' A IH F]; intros E; subst; auto.
  - exfalso. destruct Sol as (_ & S & _). destruct (S g Ig) as (_ & N & _). auto.
  - rewrite Hentry in A. discriminate.
  - rewrite Hentry in A. discriminate.
  - rewrite (IH eq_refl) in F. now apply fwd_cst in F.
Qed.
Lemma D2_enter b bk p pb e vs w : get b h = Some bk -> reach h b -> reach h p -> get p h = Some pb -> In b (succs (trm pb)) -> Good p pb (body pb) e w ->
  rdPhis args e p (phis bk) = Some vs -> D2 b bk [] (updAll e vs) w.
Proof using Hw Hpr Hentry Sol Hp.
  intros G R Rp Gp Es [F D] Er v a o t V Av Ev Tv Pv. unfold M2RVal.prefVal in Pv. cbn in Pv.
  pose proof (P1_enter b bk p pb e vs G R Rp Gp Es F Er) as F'. pose proof (proj1 (reach_ghost Gs f b) R) as Rf. pose proof (proj1 (reach_ghost Gs f p) Rp) as Rpf.
  pose proof (var_entry v V) as Dv.
  pose proof Gp as Gpf. rewrite get_ghost in Gpf. destruct (get p f) as [p0|] eqn:Ep; [|discriminate]. injection Gpf as Epb.
  assert (Ip : In p (pr b)) by (apply Hpr; exists p0; split; auto; rewrite <- Epb in Es; exact Es).
  assert (Nph : ~ In v (map pdst (phis bk))).
  { intros I. pose proof (defIn_ghost Gs f v _ Dv) as D1. assert (D3 : defIn h v b) by (exists bk; split; auto; apply in_or_app; now left).
    rewrite <- (defIn_unique h v _ _ Us D1 D3) in Ip. rewrite Hentry in Ip. destruct Ip. }
  assert (Ev0 : e v = Some (VOpq a)) by (rewrite updAll_ne in Ev; auto; now rewrite (rdPhis_fst _ _ _ _ _ Er)).
  assert (Av0 : availAt h p pb (body pb) v).
  { destruct Av as [Av|[Av|[]]]; [|contradiction]. apply (availOut_at h p pb v Gp). eapply availIn_edge; eauto. }
  assert (Old : forall o, prefVal v p (body pb) o -> ld M t a w = rd args e o) by (intros o1 P1'; eapply D; eauto).
  assert (Bp : body pb = body p0) by (rewrite <- Epb; reflexivity).
  assert (Single : forall o1, pr b = [p] -> prefVal v p (body pb) o1 -> ld M t a w = rd args (updAll e vs) o1).
  { intros o1 E1 P1'. rewrite (Old o1 P1'). apply rd_ext. intros y Iy. symmetry. apply updAll_ne. rewrite (rdPhis_fst _ _ _ _ _ Er). intros I.
    apply (single_out b p y E1 Rpf); [exists bk; split; auto; apply in_or_app; now left|]. apply (availOut_at h p pb y Gp).
    pose proof (pvAvail p pb (body pb) [] v o1 Rpf Gp (eq_sym (app_nil_r _)) P1') as A1. now rewrite (res_of_eq _ _ Iy) in A1. }
  assert (Main : forall v0 b0 o0, entryVal v0 b0 o0 -> v0 = v -> b0 = b -> ld M t a w = rd args (updAll e vs) o0).
  { intros v0 b0 o0 H. induction H as [|g Ig Eg|b0 q bq s o0 A B C E|b0 q bq o0 A B C E _|b0 o0 o1 A IH Fw]; intros -> Eb; subst.
    - rewrite Hentry in Ip. destruct Ip.
    - assert (Iph : In (gph g) (phis bk)).
      { rewrite get_ghost in G. destruct (get (gblk g) f) as [b1|]; [|discriminate]. injection G as <-. cbn. apply in_or_app. left. apply in_map. now apply gAt_in. }
      destruct (rdPhis_val args e p (phis bk) vs (gph g) (phis_NoDup h _ bk Us G) Er Iph) as (o1 & v1 & Go & Ro & Uo). cbn in *. rewrite Uo, <- Ro.
      destruct Sol as (_ & S1 & _). destruct (S1 g Ig) as (_ & _ & _ & _ & _ & Hi). destruct (Hi p o1 (get_In _ _ _ Go)) as (_ & bp1 & Gp1 & Pv1).
      rewrite Ep in Gp1. injection Gp1 as <-. apply Old. first [rewrite Bp; exact Pv1|exact Pv1].
    - rewrite A in Ip. destruct Ip as [<-|[]]. rewrite Ep in B. injection B as <-. apply Single; auto. unfold M2RVal.prefVal. cbn [body] in *. first [rewrite C|rewrite Bp, C]. exact E.
    - rewrite A in Ip. destruct Ip as [<-|[]]. rewrite Ep in B. injection B as <-. apply Single; auto. unfold M2RVal.prefVal. cbn [body] in *. first [rewrite C|rewrite Bp, C]. exact E.
    - specialize (IH eq_refl eq_refl). rewrite IH. assert (A0 : opAvail (availAt h b bk []) o0). { apply (pvAvail b bk [] (body bk) v o0 Rf G eq_refl). exact A. }
      now destruct (chain_rd b bk [] (body bk) (updAll e vs) o0 o1 G R eq_refl F' Fw A0). }
  eapply Main; eauto.
Qed.
Theorem good_points b bk pre e w : atPoint m args w0 h b bk pre e w -> Good b bk pre e w.
Proof using Hw Hpr Hentry Sol Hm Hk Hfresh Hp Hsafe.
  apply (points_ind m args w0 h Good).
  - intros bk0 G Np. rewrite entry_ghost in *. split.
    + intros x [(d & D & N & Dm)|[A|[]]].
      * exfalso. pose proof (path_entry h) as Pe. rewrite entry_ghost in Pe. destruct (Dm _ Pe) as [E|[]]. congruence.
      * rewrite Np in A. destruct A.
    + intros v a o t _ _ E. discriminate.
  - intros p pb e0 w1 b0 bk0 vs A Gd Es G R Er. pose proof (atPoint_reach _ _ _ _ _ _ _ _ _ A) as Rp. destruct (atPoint_get _ _ _ _ _ _ _ _ _ A) as [Gp _]. split.
    + destruct Gd as [F _]. eapply P1_enter; eauto.
    + eapply D2_enter; eauto.
  - intros b0 bk0 pre0 i post e0 w1 vs r w' A [F D] E Er Em. destruct (atPoint_get _ _ _ _ _ _ _ _ _ A) as [G _]. pose proof (atPoint_reach _ _ _ _ _ _ _ _ _ A) as R.
    pose proof (proj1 (reach_ghost Gs f b0) R) as Rf.
    destruct (corr_point m args w0 pk scalar pr f Hw Hpr Hentry Gs Q Sol Hsafe b0 bk0 pre0 e0 w1 A) as (bf & ef & Af & Eq & Ebk).
    destruct (atPoint_get _ _ _ _ _ _ _ _ _ Af) as [Gf _]. assert (Ebd : body bk0 = body bf) by (rewrite Ebk; reflexivity).
    assert (Ii : In i (body bf)) by (rewrite <- Ebd, E; apply in_or_app; right; now left).
    pose proof (block_NoDup h b0 bk0 Us G) as Nb.
    assert (Vn : forall v, In v vars -> ~ In v (map gname Gs)) by (intros v V; eapply (def_not_new pk scalar pr f Gs Q Sol v (entry f)); eapply var_entry; eauto).
    assert (F' : factsAt h P1 b0 bk0 (pre0 ++ [i]) (upd e0 (dst i) r)).
    { apply (facts_frame h P1 DQ Us P1_frame P1_dep b0 bk0 pre0 i post e0 r R G E F). intros c Ic.
      destruct (load_before pk pr vars f Hw Hpr Hentry Gs Q Sol (dst i) c b0 bk0 pre0 i post Ic Rf G E eq_refl) as (Ac & t & rr & v & Pi & Oi & V & Pv).
      rewrite upd_eq, (ne_upd e0 c i r b0 bk0 pre0 post G R E Ac).
      destruct (var_split pk scalar f Hp v V) as (be & pre1 & i1 & post1 & t1 & Ge & E1 & Ex1 & Pt1 & _ & Nes & Usd).
      assert (Tv : vtype v t1) by (exists be, i1; split; auto; split; auto; rewrite E1; apply in_or_app; right; now left).
      assert (Iv : In (ORes v) (ops i)) by (rewrite Oi; now left).
      destruct (Usd b0 bf i Gf Ii Iv) as [[Pi' Oi']|[(o & Pi' & _)|Es]]; [|congruence|].
      - rewrite Pi in Pi'. injection Pi' as ->. rewrite Oi' in Er. cbn in Er. destruct (e0 v) as [u|] eqn:Ev; [|discriminate]. injection Er as <-.
        destruct Hm as (M1 & _). rewrite (M1 _ _ Pi) in Em. destruct u as [z|a|]; try discriminate. destruct (ld M t1 a w1) as [x|] eqn:El; [|discriminate]. injection Em as <- <-.
        rewrite <- El. refine (D v a c t1 V _ Ev Tv Pv).
        destruct (Ss b0 bk0 G R) as (S1 & _). specialize (S1 pre0 i post E). rewrite Forall_forall in S1. apply (S1 (ORes v)). rewrite Oi. now left.
      - exfalso. apply Nes. exact (escaping_inst pk f b0 bf i _ Gf Ii (passesOn_escapes pk i _ Es)). }
    split; auto. intros v a o t V Av Ev Tv Pv.
    destruct (Nat.eq_dec (dst i) v) as [Ed|Nd].
    + (* the alloc *)
      destruct (var_split pk scalar f Hp v V) as (be & pre1 & i1 & post1 & t1 & Ge & E1 & Ex1 & Pt1 & Al & Nes & Usd).
      assert (b0 = entry f). { apply (defIn_unique f v b0 (entry f) Uf); [|now apply var_entry]. exists bf. split; auto. apply in_or_app. right. rewrite <- Ed. now apply in_map. }
      subst b0. rewrite Gf in Ge. injection Ge as <-.
      assert (i = i1). { apply (same_inst (entry f) bf); auto; [rewrite E1; apply in_or_app; right; now left|congruence]. } subst i1.
      assert (pre0 = pre1).
      { rewrite <- Ebd, E in E1. unfold resultsOf in Nb. apply NoDup_app_r in Nb. rewrite E in Nb. clear -E1 Nb. revert pre1 E1.
        induction pre0 as [|x l IH]; intros [|y l'] E1; cbn in *; auto; injection E1 as <- E1; apply NoDup_cons_iff in Nb as [N1 N2].
        - exfalso. apply N1. rewrite E1, map_app. apply in_or_app. right. now left.
        - exfalso. apply N1. rewrite map_app. apply in_or_app. right. now left.
        - f_equal. auto. }
      subst pre1. assert (t = t1). { destruct Tv as (b2 & i2 & G2 & I2 & E2 & P2). rewrite Gf in G2. injection G2 as <-. assert (i2 = i) by (apply (same_inst (entry f) bf); auto; congruence). subst i2. congruence. }
      subst t1. assert (Ls : lastStore pk v (pre0 ++ [i]) = None).
      { assert (Al' : forall j, In j (pre0 ++ [i]) -> exists t', pk (opc j) = PkAlloc t') by (intros j J; apply in_app_or in J as [J|[<-|[]]]; eauto). clear -Al'.
        induction (pre0 ++ [i]) as [|j l IH] using rev_ind; auto. rewrite lastStore_snoc. unfold storeTo. destruct (Al' j) as [t' Pt']; [apply in_or_app; right; now left|]. rewrite Pt'.
        apply IH. intros k Ik. apply Al'. apply in_or_app. now left. }
      unfold M2RVal.prefVal in Pv. rewrite Ls in Pv. rewrite (entryVal_entry v _ o Pv eq_refl). cbn.
      destruct Hm as (_ & _ & M3 & _). destruct (M3 _ _ Pt1 _ _ _ _ Em) as (a' & -> & La). rewrite Ed, upd_eq in Ev. injection Ev as <-. exact La.
    + rewrite upd_ne in Ev by auto.
      assert (Av0 : availAt h b0 bk0 pre0 v). { destruct Av as [Av|[Av|Av]]; [now left|right; now left|]. rewrite map_app in Av. apply in_app_or in Av as [Av|[Av|[]]]; [right; now right|congruence]. }
      destruct (storeTo pk v i) as [s|] eqn:Es.
      * unfold M2RVal.prefVal in Pv. rewrite lastStore_snoc, Es in Pv.
        assert (Us' : ops i <> [] /\ exists o1 rr t1, ops i = ORes v :: o1 :: rr /\ s = o1 /\ pk (opc i) = PkStore t1).
        { unfold storeTo in Es. destruct (pk (opc i)) eqn:Ek; try discriminate. destruct (ops i) as [|[| |u] [|o1 rr]]; try discriminate.
          destruct (Nat.eqb_spec u v) as [->|]; [|discriminate]. injection Es as <-. split; [discriminate|]. eauto 8. }
        destruct Us' as (_ & o1 & rr & t1 & Oi & -> & Pi). assert (Iv : In (ORes v) (ops i)) by (rewrite Oi; now left). destruct (vtype_use v t V Tv b0 bf i Gf Ii Iv) as [[Pi' _]|[(o2 & Pi' & Oi')|Esc]]; [congruence| |apply passesOn_escapes in Esc].
        -- rewrite Oi' in Oi. injection Oi as -> <-. rewrite Oi' in Er. cbn in Er. rewrite Ev in Er. destruct (rd args e0 o1) as [x|] eqn:Ex; [|discriminate]. injection Er as <-.
           destruct Hm as (_ & M2' & _ & M4). rewrite (M2' _ _ Pi') in Em. destruct (sto M t a x w1) as [w2|] eqn:Est; [|discriminate]. injection Em as <- <-.
           rewrite (M4 _ _ _ _ _ Est), <- Ex. destruct (Ss b0 bk0 G R) as (S1 & _). specialize (S1 pre0 i post E). rewrite Forall_forall in S1.
           assert (Ao : opAvail (availAt h b0 bk0 pre0) o1) by (apply S1; rewrite Oi'; right; now left).
           rewrite <- (ne_upd e0 o1 i VUndef b0 bk0 pre0 post G R E Ao).
           apply (chain_rd b0 bk0 (pre0 ++ [i]) post _ o1 o G R); auto; [now rewrite <- app_assoc|].
           destruct o1 as [| |y]; cbn in *; auto. destruct Ao as [Ao|[Ao|Ao]]; [now left|right; now left|]. right. right. rewrite map_app. apply in_or_app. now left.
        -- exfalso. destruct (var_split pk scalar f Hp v V) as (_ & _ & _ & _ & _ & _ & _ & _ & _ & _ & Nes & _). apply Nes. exact (escaping_inst pk f b0 bf i _ Gf Ii Esc).
      * assert (Pv0 : prefVal v b0 pre0 o). { unfold M2RVal.prefVal in Pv |- *. rewrite lastStore_snoc, Es in Pv. exact Pv. }
        pose proof (pvAvail b0 bk0 pre0 (i :: post) v o Rf G E Pv0) as Ao. rewrite (ne_upd e0 o i r b0 bk0 pre0 post G R E Ao). rewrite <- (D v a o t V Av0 Ev Tv Pv0).
        assert (Evf : ef v = Some (VOpq a)) by (rewrite (Eq v (Vn v V)); exact Ev).
        assert (Erf : rds args ef (ops i) = Some vs).
        { rewrite <- Er. apply (rds_eqOff args (map gname Gs)); auto. intros x Ix. apply (body_uses pk scalar pr f Hw Gs Q Sol b0 bf x Gf Rf). apply in_flat_map. eauto. }
        apply (priv_frame m M K pk scalar args w0 f Hm Hk Hfresh Uf Hp b0 bf pre0 i post ef w1 vs r w' v a t Af); auto. now rewrite <- Ebd.
Qed.
(** ** the function with the values in place *)
Theorem promoted_refines g : relF (fwd Q) h g -> refinesAt (step m args f) (step m args g) (start f w0) (start g w0).
Proof using Hw Hpr Hentry Sol Hm Hk Hfresh Hp Hsafe.
  intros Rg. eapply refinesAt_trans; [exact (ghost_refines m args w0 pk scalar pr f Hw Hpr Hentry Gs Q Sol)|].
  apply (rel_refines m args w0 h g (fwd Q) Ss); auto. intros b bk pre e w o o' v A Av Fw Ev. destruct (good_points _ _ _ _ _ A) as [F _].
  destruct (atPoint_get _ _ _ _ _ _ _ _ _ A) as [G [post E]]. destruct (chain_rd b bk pre post e o o' G (atPoint_reach _ _ _ _ _ _ _ _ _ A) E F Fw Av) as [E1 _]. congruence.
Qed.
End Sound.
