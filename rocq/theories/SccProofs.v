(** Proof of the model of [calcSCC] (SccModel.v).  The invariant follows Chen, Cohen,
    Levy, Merz and Thery's formalisation of Tarjan's algorithm, adapted to the arrays
    this code keeps. *)
From Coq Require Import List Arith Lia Bool Relations Sorted.
From Verif Require Import SccModel.
Import ListNotations.

Definition edge (g : graph) (u v : nat) : Prop := In v (succs g u).
Definition reach (g : graph) : nat -> nat -> Prop := clos_refl_trans_1n nat (edge g).

Lemma reach_trans g a b c : reach g a b -> reach g b c -> reach g a c.
Proof.
  intros H1 H2. induction H1; auto. econstructor; eauto. now apply IHclos_refl_trans_1n.
Qed.
Lemma reach_step g a b : edge g a b -> reach g a b.
Proof. intros. econstructor; eauto. constructor. Qed.
Lemma reach_refl g a : reach g a a.
Proof. constructor. Qed.

Lemma upd_same {A} (f : nat -> A) k x : upd f k x k = x.
Proof. unfold upd. now rewrite Nat.eqb_refl. Qed.
Lemma upd_other {A} (f : nat -> A) k x i : i <> k -> upd f k x i = f i.
Proof. unfold upd. intros H. apply Nat.eqb_neq in H. now rewrite H. Qed.

Definition wfg (g : graph) : Prop := forall u v, edge g u v -> v < length g.

Section Proofs.
Variable g : graph.
Hypothesis WFG : wfg g.

Definition visited (s : st8) v := dfn s v <> 0.
(** visited and no longer on the stack *)
Definition fin (s : st8) v := visited s v /\ flag s v = false.

Record Inv (G : list nat) (s : st8) : Prop := {
  iStk : forall v, In v (stk s) <-> (visited s v /\ flag s v = true);
  iFl : forall v, flag s v = true -> visited s v;
  iNd : NoDup (stk s);
  iSort : StronglySorted (fun a b => dfn s b < dfn s a) (stk s);
  iLe : forall v, dfn s v <= icnt s;
  iDom : forall v, visited s v -> v < length g;
  iGrey : forall v, In v G -> In v (stk s);
  iBlack : forall v w, visited s v -> ~ In v G -> edge g v w -> visited s w;
  iFin : forall v w, fin s v -> edge g v w -> fin s w;
  iUp : forall x, In x (stk s) -> exists y, In y G /\ dfn s y <= dfn s x /\ reach g x y;
  iDown : forall x y, In x G -> In y (stk s) -> dfn s x <= dfn s y -> reach g x y;
  iCol : forall x y, fin s x -> fin s y -> (col s x = col s y <-> reach g x y /\ reach g y x);
  iOrd : forall x y, fin s x -> edge g x y -> col s y <= col s x;
  iCnt : forall x, fin s x -> col s x < ccnt s;
  iSurj : forall c, c < ccnt s -> exists x, fin s x /\ col s x = c }.

Lemma fin_reach G s x y : Inv G s -> fin s x -> reach g x y -> fin s y.
Proof.
  intros V F R. induction R; auto. apply IHR. eapply iFin; eauto.
Qed.

(** what a call of [dfs u] promises *)
Record Post (G : list nat) (u : nat) (s s' : st8) : Prop := {
  pInv : Inv G s';
  pVis : forall v, visited s v -> visited s' v /\ dfn s' v = dfn s v /\ low s' v = low s v;
  pNew : forall v, visited s' v -> dfn s v = 0 -> icnt s < dfn s' v;
  pU : visited s' u;
  pStk : exists nw, stk s' = nw ++ stk s /\
     ((nw = [] /\ flag s' u = false /\ low s' u = dfn s' u)
      \/ (In u nw /\ (exists x, In x (stk s) /\ dfn s' x = low s' u /\ reach g u x) /\
          (forall y z, In y nw -> edge g y z -> In z (stk s) -> low s' u <= dfn s' z))) }.

Definition unvis (s : st8) : nat := length (filter (fun v => Nat.eqb (dfn s v) 0) (seq 0 (length g))).

Lemma filter_le {A} (f h : A -> bool) l : (forall x, In x l -> f x = true -> h x = true) ->
  length (filter f l) <= length (filter h l).
Proof.
  induction l as [|a l IH]; cbn; intros H; auto.
  assert (IH' : length (filter f l) <= length (filter h l)) by (apply IH; intros; apply H; auto).
  specialize (H a (or_introl eq_refl)).
  destruct (f a) eqn:F; [rewrite H by auto; cbn; lia|]. destruct (h a); cbn; lia.
Qed.
Lemma filter_lt {A} (f h : A -> bool) l a : (forall x, In x l -> f x = true -> h x = true) ->
  In a l -> f a = false -> h a = true -> length (filter f l) < length (filter h l).
Proof.
  induction l as [|b l IH]; intros H I F Hh; [contradiction|].
  assert (HL : forall x, In x l -> f x = true -> h x = true) by (intros; apply H; cbn; auto).
  destruct I as [->|I]; cbn.
  - rewrite F, Hh. cbn. pose proof (filter_le f h l HL). lia.
  - specialize (IH HL I F Hh). specialize (H b (or_introl eq_refl)).
    destruct (f b) eqn:Fb; [rewrite H by auto; cbn; lia|]. destruct (h b); cbn; lia.
Qed.

Lemma unvis_mono s s' : (forall v, visited s v -> visited s' v) -> unvis s' <= unvis s.
Proof.
  intros H. apply filter_le. intros x _ E. apply Nat.eqb_eq in E. apply Nat.eqb_eq.
  destruct (Nat.eq_dec (dfn s x) 0); auto. exfalso. now apply (H x).
Qed.
Lemma unvis_enter s u : u < length g -> dfn s u = 0 -> unvis (enter u s) < unvis s.
Proof.
  intros L Z. apply filter_lt with (a := u).
  - intros x _ E. cbn in E. apply Nat.eqb_eq in E. apply Nat.eqb_eq. unfold upd in E. destruct (Nat.eqb x u); [discriminate|auto].
  - apply in_seq. lia.
  - cbn. rewrite upd_same. reflexivity.
  - apply Nat.eqb_eq. auto.
Qed.

Lemma sorted_app_lt {A} (R : A -> A -> Prop) l1 l2 : StronglySorted R (l1 ++ l2) ->
  forall x y, In x l1 -> In y l2 -> R x y.
Proof.
  induction l1 as [|a l1 IH]; intros S x y Hx Hy; [contradiction|].
  cbn in S. inversion S; subst. destruct Hx as [->|Hx]; auto.
  rewrite Forall_forall in H2. apply H2. apply in_or_app. auto.
Qed.
Lemma sorted_app_r {A} (R : A -> A -> Prop) l1 l2 : StronglySorted R (l1 ++ l2) -> StronglySorted R l2.
Proof. induction l1; cbn; intros S; auto. inversion S; auto. Qed.
Lemma sorted_ext {A} (R R' : A -> A -> Prop) l : (forall x y, In x l -> In y l -> R x y -> R' x y) ->
  StronglySorted R l -> StronglySorted R' l.
Proof.
  induction l as [|a l IH]; intros H S; constructor; inversion S; subst.
  - apply IH; auto. intros. apply H; cbn; auto.
  - rewrite Forall_forall in *. intros x Hx. apply H; cbn; auto.
Qed.
Lemma nodup_app_r {A} (l1 l2 : list A) : NoDup (l1 ++ l2) -> NoDup l2.
Proof. induction l1; cbn; intros S; auto. inversion S; auto. Qed.
Lemma nodup_app_disj {A} (l1 l2 : list A) x : NoDup (l1 ++ l2) -> In x l1 -> In x l2 -> False.
Proof.
  induction l1; cbn; intros S H1 H2; [contradiction|]. inversion S; subst. destruct H1 as [->|H1]; auto.
  apply H3. apply in_or_app. auto.
Qed.

(** entering *)
Lemma inv_enter G s u : Inv G s -> u < length g -> dfn s u = 0 ->
  (forall x, In x G -> reach g x u) -> Inv (u :: G) (enter u s).
Proof.
  intros V L Z RG.
  assert (NS : ~ In u (stk s)). { intros H. apply (iStk _ _ V) in H as [H _]. now apply H. }
  assert (NU : forall v, In v (stk s) -> v <> u) by congruence.
  assert (D : forall v, v <> u -> dfn (enter u s) v = dfn s v) by (intros; cbn; now apply upd_other).
  assert (DU : dfn (enter u s) u = S (icnt s)) by (cbn; apply upd_same).
  assert (VS : forall v, visited (enter u s) v <-> v = u \/ visited s v).
  { intros v. unfold visited. destruct (Nat.eq_dec v u) as [->|N]; [rewrite DU; intuition lia|rewrite D by auto; tauto]. }
  assert (FL : forall v, v <> u -> flag (enter u s) v = flag s v) by (intros; cbn; now apply upd_other).
  assert (FU : flag (enter u s) u = true) by (cbn; apply upd_same).
  assert (FN : forall v, fin (enter u s) v <-> fin s v).
  { intros v. unfold fin. destruct (Nat.eq_dec v u) as [->|N].
    - rewrite FU. split; [intros [_ H]; discriminate|intros [H _]; now elim H].
    - rewrite FL by auto. rewrite VS. intuition congruence. }
  constructor.
  - intros v. rewrite VS. cbn [stk enter In]. destruct (Nat.eq_dec v u) as [->|N]; [tauto|].
    rewrite FL by auto. rewrite (iStk _ _ V v). intuition congruence.
  - intros v H. apply VS. destruct (Nat.eq_dec v u) as [->|N]; auto. right. apply (iFl _ _ V). now rewrite FL in H.
  - cbn [stk enter]. constructor; auto. apply V.
  - cbn [stk enter]. constructor.
    + apply sorted_ext with (R := fun a b => dfn s b < dfn s a); [|apply V].
      intros x y Hx Hy H. rewrite !D by auto. auto.
    + apply Forall_forall. intros x Hx. rewrite DU, D by auto. pose proof (iLe _ _ V x). lia.
  - intros v. cbn [icnt enter]. destruct (Nat.eq_dec v u) as [->|N]; [rewrite DU; lia|rewrite D by auto].
    pose proof (iLe _ _ V v). lia.
  - intros v H. apply VS in H as [->|H]; auto. now apply (iDom _ _ V).
  - intros v [<-|H]; cbn; auto. right. now apply (iGrey _ _ V).
  - intros v w H1 H2 E. apply VS. right. apply VS in H1 as [->|H1]; [cbn in H2; tauto|].
    apply (iBlack _ _ V v); auto. cbn in H2. tauto.
  - intros v w F E. apply FN. apply FN in F. eapply iFin; eauto.
  - intros x [<-|H].
    + exists u. split; [left; auto|]. split; auto. apply reach_refl.
    + destruct (iUp _ _ V x H) as (y & Hy & L2 & R). exists y. split; [right; auto|]. split; auto.
      rewrite !D; auto. apply NU, (iGrey _ _ V); auto.
  - intros x y Hx Hy LE. destruct Hy as [<-|Hy].
    + destruct Hx as [<-|Hx]; [apply reach_refl|auto].
    + destruct Hx as [<-|Hx].
      * exfalso. rewrite DU, D in LE by auto. pose proof (iLe _ _ V y). lia.
      * apply (iDown _ _ V); auto. rewrite !D in LE; auto. apply NU, (iGrey _ _ V); auto.
  - intros x y Fx Fy. apply FN in Fx, Fy. cbn [col enter]. now apply (iCol _ _ V).
  - intros x y Fx. apply FN in Fx. cbn [col enter]. now apply (iOrd _ _ V).
  - intros x Fx. apply FN in Fx. cbn [col ccnt enter]. now apply (iCnt _ _ V).
  - intros c Hc. destruct (iSurj _ _ V c Hc) as (x & Fx & Ex). exists x. split; auto. now apply FN.
Qed.

(** [low] plays no role in [Inv]. *)
Lemma inv_setmin G s u x : Inv G s -> Inv G (setmin u x s).
Proof. intros [? ? ? ? ? ? ? ? ? ? ? ? ? ? ?]. constructor; auto. Qed.

(** state of the successor loop of [u], entered with [s0], after the edges in [dn] *)
Record Lp (G : list nat) (u : nat) (s0 : st8) (dn : list nat) (s : st8) : Prop := {
  lInv : Inv (u :: G) s;
  lVis : forall v, visited s0 v -> visited s v /\ dfn s v = dfn s0 v /\ low s v = low s0 v;
  lNew : forall v, visited s v -> dfn s0 v = 0 -> icnt s0 < dfn s v;
  lU : visited s u;
  lLow : low s u <= dfn s u;
  lWit : exists x, In x (stk s) /\ dfn s x = low s u /\ reach g u x;
  lDone : forall v, In v dn -> visited s v;
  lStk : exists nw, stk s = nw ++ u :: stk s0 /\
     (forall y z, In y nw -> edge g y z -> In z (stk s0) -> low s u <= dfn s z) /\
     (forall z, In z dn -> In z (stk s0) -> low s u <= dfn s z) }.

Lemma lp_edges G u s0 f :
  u < length g -> dfn s0 u = 0 -> Inv G s0 ->
  (forall v s, Inv (u :: G) s -> v < length g -> dfn s v = 0 -> (forall x, In x (u :: G) -> reach g x v) ->
     unvis s <= f -> exists s', dfs g (S f) v s = Some s' /\ Post (u :: G) v s s') ->
  (forall x, In x G -> reach g x u) ->
  forall vs dn s, (forall v, In v (dn ++ vs) -> edge g u v) -> Lp G u s0 dn s -> unvis s <= f ->
  exists s', edges (length g) (dfs g (S f)) u vs s = Some s' /\ Lp G u s0 (dn ++ vs) s'.
Proof.
  intros Lu Zu V0 IHf RG vs. induction vs as [|v vs IH]; intros dn s HE L UN.
  { exists s. rewrite app_nil_r. auto. }
  assert (Ev : edge g u v) by (apply HE; apply in_or_app; cbn; auto).
  assert (Lv : v < length g) by (eapply WFG; eauto).
  assert (Ed : dn ++ v :: vs = (dn ++ [v]) ++ vs) by (rewrite <- app_assoc; reflexivity).
  rewrite Ed in *.
  assert (US0 : ~ In u (stk s0)). { intros H. apply (iStk _ _ V0) in H as [H _]. now apply H. }
  destruct L as [LI LV LN LU LL LW LD LS].
  cbn [edges]. replace (negb (v <? length g)) with false by (symmetry; apply negb_false_iff, Nat.ltb_lt; auto).
  destruct (Nat.eqb_spec (dfn s v) 0) as [Zv|Zv]; cbn [negb].
  - (* recursive call *)
    destruct (IHf v s LI Lv Zv) as (s' & Es & P); auto.
    { intros x [<-|Hx]; [now apply reach_step|]. eapply reach_trans; [|apply reach_step, Ev]. auto. }
    rewrite Es. destruct P as [PI PV PN PU (nw & PS & PC)].
    assert (MV : forall x, visited s x -> visited s' x) by (intros x Hx; now apply PV).
    destruct (PV u LU) as (Vu & Du & Lwu).
    assert (LTv : dfn s' u < dfn s' v).
    { rewrite Du. pose proof (PN v PU Zv). pose proof (iLe _ _ LI u). lia. }
    assert (STK : forall x, In x (stk s) -> dfn s' x = dfn s x).
    { intros x Hx. apply PV. apply (iStk _ _ LI) in Hx. tauto. }
    apply IH; auto.
    2:{ assert (unvis s' <= unvis s) by (apply unvis_mono; auto). change (unvis (setmin u (low s' v) s')) with (unvis s'). lia. }
    constructor.
    + apply inv_setmin; auto.
    + intros x Hx. destruct (LV x Hx) as (A & B & C). destruct (PV x A) as (A' & B' & C').
      cbn [setmin dfn low]. split; [exact A'|]. split; [congruence|].
      rewrite upd_other; [congruence|]. intros ->. now apply Hx.
    + intros x Hx Zx. cbn [setmin dfn] in *. destruct (Nat.eq_dec (dfn s x) 0) as [Z2|Z2].
      * pose proof (PN x Hx Z2). pose proof (LN u LU Zu). pose proof (iLe _ _ LI u). lia.
      * destruct (PV x Z2) as (_ & -> & _). now apply LN.
    + exact Vu.
    + cbn [setmin dfn low]. rewrite upd_same. lia.
    + cbn [setmin dfn low stk]. rewrite upd_same, Lwu.
      assert (OLD : exists x, In x (stk s') /\ dfn s' x = low s u /\ reach g u x).
      { destruct LW as (x & X1 & X2 & X3). exists x. split; [rewrite PS; apply in_or_app; auto|].
        split; auto. now rewrite STK. }
      destruct (Nat.min_spec (low s u) (low s' v)) as [[_ ->]|[LE ->]]; auto.
      destruct PC as [(_ & _ & E)|(_ & (x & X1 & X2 & X3) & _)].
      * exfalso. lia.
      * exists x. split; [rewrite PS; apply in_or_app; auto|]. split; auto.
        eapply reach_trans; [apply reach_step, Ev|auto].
    + cbn [setmin]. intros x Hx. apply in_app_or in Hx as [Hx|[<-|[]]]; [apply MV, LD; auto|exact PU].
    + destruct LS as (nw0 & S1 & S2 & S3). exists (nw ++ nw0). cbn [setmin stk dfn low]. rewrite upd_same.
      split; [rewrite PS, S1, app_assoc; reflexivity|].
      assert (SUB : forall z, In z (stk s0) -> In z (stk s)) by (intros z Hz; rewrite S1; apply in_or_app; cbn; auto).
      split.
      * intros y z Hy E Hz. apply in_app_or in Hy as [Hy|Hy].
        -- destruct PC as [(-> & _)|(_ & _ & PC)]; [contradiction|]. specialize (PC y z Hy E (SUB z Hz)). lia.
        -- specialize (S2 y z Hy E Hz). rewrite STK by auto. lia.
      * intros z Hz Hz0. apply in_app_or in Hz as [Hz|[<-|[]]].
        -- specialize (S3 z Hz Hz0). rewrite STK by auto. lia.
        -- exfalso. apply SUB in Hz0. apply (iStk _ _ LI) in Hz0 as [H _]. now apply H.
  - (* visited *)
    assert (C1 : Lp G u s0 (dn ++ [v]) (if flag s v then setmin u (dfn s v) s else s)).
    { destruct (flag s v) eqn:Fv.
      - assert (Iv : In v (stk s)) by (apply (iStk _ _ LI); auto).
        constructor.
        + apply inv_setmin; auto.
        + intros x Hx. cbn [setmin dfn low]. destruct (LV x Hx) as (A & B & C). split; [exact A|]. split; auto.
          rewrite upd_other; auto. intros ->. now apply Hx.
        + exact LN.
        + exact LU.
        + cbn [setmin dfn low]. rewrite upd_same. lia.
        + cbn [setmin dfn low stk]. rewrite upd_same.
          destruct (Nat.min_spec (low s u) (dfn s v)) as [[_ ->]|[LE ->]]; auto.
          exists v. split; auto. split; auto. now apply reach_step.
        + intros x Hx. apply in_app_or in Hx as [Hx|[<-|[]]]; [apply LD; auto|exact Zv].
        + destruct LS as (nw0 & S1 & S2 & S3). exists nw0. cbn [setmin stk dfn low]. rewrite upd_same. split; auto.
          split.
          * intros y z Hy E Hz. specialize (S2 y z Hy E Hz). lia.
          * intros z Hz Hz0. apply in_app_or in Hz as [Hz|[<-|[]]]; [specialize (S3 z Hz Hz0); lia|lia].
      - constructor; auto.
        + intros x Hx. apply in_app_or in Hx as [Hx|[<-|[]]]; [apply LD; auto|exact Zv].
        + destruct LS as (nw0 & S1 & S2 & S3). exists nw0. split; auto. split; auto.
          intros z Hz Hz0. apply in_app_or in Hz as [Hz|[<-|[]]]; auto.
          exfalso. assert (In v (stk s)) by (rewrite S1; apply in_or_app; cbn; auto).
          apply (iStk _ _ LI) in H as [_ H]. congruence. }
    apply IH; auto. destruct (flag s v); auto.
Qed.

Lemma poploop_ok u c : forall nw st0 fl cl, ~ In u nw ->
  exists fl' cl', poploop u c (nw ++ u :: st0) fl cl = Some (st0, fl', cl') /\
  (forall x, (In x nw \/ x = u) -> fl' x = false /\ cl' x = c) /\
  (forall x, ~ In x nw -> x <> u -> fl' x = fl x /\ cl' x = cl x).
Proof.
  induction nw as [|v nw IH]; intros st0 fl cl N; cbn [poploop app].
  - rewrite Nat.eqb_refl. do 2 eexists. split; [reflexivity|]. split.
    + intros x [[]| ->]. rewrite !upd_same. auto.
    + intros x _ H. rewrite !upd_other by auto. auto.
  - assert (VU : v <> u) by (cbn in N; tauto). apply Nat.eqb_neq in VU. rewrite VU. apply Nat.eqb_neq in VU.
    destruct (IH st0 (upd fl v false) (upd cl v c)) as (fl' & cl' & E & H1 & H2); [cbn in N; tauto|].
    do 2 eexists. split; [exact E|]. split.
    + intros x Hx. destruct (in_dec Nat.eq_dec x nw) as [I|I]; [apply H1; auto|].
      destruct (Nat.eq_dec x u) as [->|XU]; [apply H1; auto|].
      destruct (H2 x I XU) as [-> ->]. assert (x = v) as -> by (cbn in Hx; intuition congruence).
      rewrite !upd_same. auto.
    + intros x I XU. cbn in I. destruct (H2 x) as [-> ->]; try tauto. rewrite !upd_other by (intuition congruence). auto.
Qed.

Lemma lp_leave G u s0 s :
  u < length g -> dfn s0 u = 0 -> Inv G s0 -> Lp G u s0 (succs g u) s ->
  exists s', leave u s = Some s' /\ Post G u s0 s'.
Proof.
  intros Lu Zu V0 [LI LV LN LU LL LW LD (nw & S1 & S2 & S3)].
  assert (US0 : ~ In u (stk s0)). { intros H. apply (iStk _ _ V0) in H as [H _]. now apply H. }
  assert (UNW : ~ In u nw).
  { intros H. eapply (nodup_app_disj nw (u :: stk s0)); eauto; [rewrite <- S1; apply LI|cbn; auto]. }
  assert (UST : In u (stk s)) by (rewrite S1; apply in_or_app; cbn; auto).
  assert (UG : ~ In u G). { intros H. apply US0. now apply (iGrey _ _ V0). }
  assert (SUB : forall z, In z (stk s0) -> In z (stk s)) by (intros z Hz; rewrite S1; apply in_or_app; cbn; auto).
  assert (SRT : forall y z, In y nw \/ y = u -> In z (stk s0) -> dfn s z < dfn s y).
  { pose proof (iSort _ _ LI) as S. rewrite S1 in S. intros y z Hy Hz.
    assert (S' := S). replace (nw ++ u :: stk s0) with ((nw ++ [u]) ++ stk s0) in S' by (rewrite <- app_assoc; reflexivity).
    apply (sorted_app_lt _ _ _ S'); auto. apply in_or_app. cbn. intuition. }
  assert (SRU : forall y, In y nw -> dfn s u < dfn s y).
  { pose proof (iSort _ _ LI) as S. rewrite S1 in S. intros y Hy. apply (sorted_app_lt _ _ _ S); cbn; auto. }
  assert (SPLIT : forall x, In x (stk s) -> (In x nw \/ x = u) \/ In x (stk s0)).
  { intros x Hx. rewrite S1 in Hx. apply in_app_or in Hx. cbn in Hx. intuition. }
  (* crossing edges *)
  assert (CROSS : forall y z, In y nw \/ y = u -> edge g y z -> In z (stk s0) -> low s u <= dfn s z).
  { intros y z [Hy| ->] E Hz; eauto. }
  assert (VISE : forall y z, In y nw \/ y = u -> edge g y z -> visited s z).
  { intros y z Hy E. destruct Hy as [Hy| ->]; [|apply LD; exact E].
    apply (iBlack _ _ LI y); auto.
    - apply (iStk _ _ LI). rewrite S1. apply in_or_app. auto.
    - intros [<-|H]; [tauto|]. apply (iGrey _ _ V0) in H.
      eapply (nodup_app_disj nw (u :: stk s0)); eauto; [rewrite <- S1; apply LI|cbn; auto]. }
  assert (GS : forall v, In v G -> In v (stk s0)) by apply V0.
  assert (BLK : forall v w, visited s v -> ~ In v G -> edge g v w -> visited s w).
  { intros v w H1 H2 E. destruct (Nat.eq_dec v u) as [->|N]; [apply (VISE u w); auto|].
    apply (iBlack _ _ LI v); auto. intros [<-|H]; auto. }
  unfold leave. destruct (Nat.eqb_spec (dfn s u) (low s u)) as [E|NE].
  - (* a component is complete *)
    destruct (poploop_ok u (ccnt s) nw (stk s0) (flag s) (col s) UNW) as (fl & cl & EP & P1 & P2).
    rewrite S1, EP. eexists. split; [reflexivity|].
    set (s' := mkS (dfn s) (low s) fl cl (stk s0) (S (ccnt s)) (icnt s)).
    assert (VS : forall v, visited s' v <-> visited s v) by (intros; reflexivity).
    (* no path leaves the new nodes except into finished ones *)
    assert (STAY : forall y z, In y nw \/ y = u -> reach g y z -> (In z nw \/ z = u) \/ fin s z).
    { intros y z Hy R. revert Hy. induction R as [|y z w Ey R IH]; intros Hy; auto.
      assert (Vz : visited s z) by (eapply VISE; eauto).
      destruct (flag s z) eqn:Fz.
      - assert (Iz : In z (stk s)) by (apply (iStk _ _ LI); auto).
        destruct (SPLIT z Iz) as [Hz|Hz]; auto.
        exfalso. pose proof (CROSS y z Hy Ey Hz). pose proof (SRT u z (or_intror eq_refl) Hz). lia.
      - right. apply (fin_reach (u :: G) s z w); auto. split; auto. }
    assert (NF : forall y, In y nw \/ y = u -> ~ fin s y).
    { intros y Hy [_ F]. assert (In y (stk s)) by (rewrite S1; apply in_or_app; cbn; intuition).
      apply (iStk _ _ LI) in H as [_ H]. congruence. }
    assert (UPU : forall y, In y nw \/ y = u -> reach g y u).
    { intros y Hy. assert (Iy : In y (stk s)) by (rewrite S1; apply in_or_app; cbn; intuition).
      destruct (iUp _ _ LI y Iy) as (x & [<-|Hx] & _ & R); auto.
      exfalso. destruct (STAY y x Hy R) as [H|[_ H]].
      - pose proof (SRT x x H (GS x Hx)). lia.
      - apply GS, SUB in Hx. apply (iStk _ _ LI) in Hx as [_ Hx]. congruence. }
    assert (DNU : forall y, In y nw \/ y = u -> reach g u y).
    { intros y Hy. apply (iDown _ _ LI); cbn; auto.
      - rewrite S1. apply in_or_app. cbn. intuition.
      - destruct Hy as [Hy| ->]; auto. specialize (SRU y Hy). lia. }
    assert (FN : forall v, fin s' v <-> fin s v \/ In v nw \/ v = u).
    { intros v. unfold fin. rewrite VS. cbn [flag s'].
      destruct (in_dec Nat.eq_dec v nw) as [I|I].
      - destruct (P1 v (or_introl I)) as [-> _]. split; [auto|]. intros _. split; auto.
        apply (iStk _ _ LI). rewrite S1. apply in_or_app. auto.
      - destruct (Nat.eq_dec v u) as [->|N].
        + destruct (P1 u (or_intror eq_refl)) as [-> _]. tauto.
        + destruct (P2 v I N) as [-> _]. intuition. }
    assert (CL : forall v, fin s v -> cl v = col s v).
    { intros v F. apply P2; [intros H; exact (NF v (or_introl H) F)|intros ->; exact (NF u (or_intror eq_refl) F)]. }
    assert (CN : forall v, In v nw \/ v = u -> cl v = ccnt s) by (intros; now apply P1).
    constructor.
    + constructor; cbn [s' stk flag dfn icnt col ccnt].
      * intros v. rewrite VS. split.
        -- intros H. assert (A : ~ In v nw). { intros H'. pose proof (SRT v v (or_introl H') H). lia. }
           assert (B : v <> u) by congruence. destruct (P2 v A B) as [-> _]. apply (iStk _ _ LI). auto.
        -- intros [H1 H2]. assert (A : ~ In v nw). { intros H'. destruct (P1 v (or_introl H')). congruence. }
           assert (B : v <> u). { intros ->. destruct (P1 u (or_intror eq_refl)). congruence. }
           destruct (P2 v A B) as [E2 _]. rewrite E2 in H2.
           assert (H : In v (stk s)) by (apply (iStk _ _ LI); auto). destruct (SPLIT v H) as [[?|?]|?]; tauto.
      * intros v H. apply VS. destruct (in_dec Nat.eq_dec v nw) as [I|I]; [destruct (P1 v (or_introl I)); congruence|].
        destruct (Nat.eq_dec v u) as [->|N]; auto. apply (iFl _ _ LI). destruct (P2 v I N). congruence.
      * apply V0.
      * pose proof (iSort _ _ LI) as S. rewrite S1 in S. apply sorted_app_r in S. inversion S; auto.
      * apply (iLe _ _ LI).
      * apply (iDom _ _ LI).
      * apply V0.
      * exact BLK.
      * intros v w F Ev. apply FN. apply FN in F as [F|F].
        -- left. eapply iFin; eauto.
        -- destruct (STAY v w F (reach_step _ _ _ Ev)); auto.
      * intros x Hx. destruct (iUp _ _ LI x (SUB x Hx)) as (y & [<-|Hy] & D & R).
        -- exfalso. pose proof (SRT u x (or_intror eq_refl) Hx). lia.
        -- exists y. auto.
      * intros x y Hx Hy D. apply (iDown _ _ LI); cbn; auto.
      * intros x y Fx Fy. apply FN in Fx, Fy. destruct Fx as [Fx|Fx], Fy as [Fy|Fy].
        -- rewrite !CL by auto. now apply (iCol _ _ LI).
        -- rewrite (CL x) by auto. rewrite (CN y) by auto. pose proof (iCnt _ _ LI x Fx). split; [lia|].
           intros [R _]. exfalso. apply (NF y Fy). eapply fin_reach; eauto.
        -- rewrite (CL y) by auto. rewrite (CN x) by auto. pose proof (iCnt _ _ LI y Fy). split; [lia|].
           intros [_ R]. exfalso. apply (NF x Fx). eapply fin_reach; eauto.
        -- rewrite !CN by auto. split; auto. intros _. split; eapply reach_trans; eauto.
      * intros x y Fx Ey. apply FN in Fx. destruct Fx as [Fx|Fx].
        -- rewrite !CL; auto; [now apply (iOrd _ _ LI)|eapply iFin; eauto].
        -- rewrite (CN x) by auto. destruct (STAY x y Fx (reach_step _ _ _ Ey)) as [H|H].
           ++ rewrite CN; auto.
           ++ rewrite CL by auto. pose proof (iCnt _ _ LI y H). lia.
      * intros x Fx. apply FN in Fx as [Fx|Fx]; [rewrite CL by auto; pose proof (iCnt _ _ LI x Fx); lia|].
        rewrite CN; auto.
      * intros c Hc. destruct (Nat.eq_dec c (ccnt s)) as [->|N].
        -- exists u. split; [apply FN; auto|now apply CN; right].
        -- destruct (iSurj _ _ LI c) as (x & Fx & Ex); [lia|]. exists x. split; [apply FN; auto|]. now rewrite CL.
    + intros v Hv. destruct (LV v Hv) as (A & B & C). cbn [s' dfn low]. auto.
    + intros v Hv Zv. apply LN; auto.
    + exact LU.
    + exists []. split; [reflexivity|]. left. split; auto. cbn [s' flag low dfn]. split; [apply P1; auto|auto].
  - (* still attached to an ancestor *)
    exists s. split; auto. destruct LW as (x & X1 & X2 & X3).
    assert (X0 : In x (stk s0)).
    { destruct (SPLIT x X1) as [[H| ->]|H]; auto; [specialize (SRU x H)|]; lia. }
    constructor; auto.
    + destruct LI as [A1 A2 A3 A4 A5 A6 A7 A8 A9 A10 A11 A12 A13 A14 A15]. constructor; auto.
      * intros y Hy. destruct (A10 y Hy) as (z & [<-|Hz] & D & R); [|exists z; auto].
        destruct (A10 x X1) as (z & [<-|Hz] & D' & R').
        -- exfalso. pose proof (SRT u x (or_intror eq_refl) X0). lia.
        -- exists z. split; auto. split; [lia|]. eapply reach_trans; eauto. eapply reach_trans; eauto.
      * intros a b Ha Hb D. apply A11; cbn; auto.
    + exists (nw ++ [u]). split; [rewrite S1, <- app_assoc; reflexivity|]. right.
      split; [apply in_or_app; cbn; auto|]. split.
      * exists x. auto.
      * intros y z Hy Ey Hz. apply (CROSS y z); auto. apply in_app_or in Hy. cbn in Hy. intuition.
Qed.

Lemma lp_start G u s0 : Inv G s0 -> u < length g -> dfn s0 u = 0 -> (forall x, In x G -> reach g x u) ->
  Lp G u s0 [] (enter u s0).
Proof.
  intros V L Z RG.
  assert (D : forall v, v <> u -> dfn (enter u s0) v = dfn s0 v) by (intros; cbn; now apply upd_other).
  assert (DU : dfn (enter u s0) u = S (icnt s0)) by (cbn; apply upd_same).
  assert (LWU : low (enter u s0) u = S (icnt s0)) by (cbn; apply upd_same).
  constructor.
  - now apply inv_enter.
  - intros v Hv. assert (v <> u) by (intros ->; now apply Hv). unfold visited. rewrite D by auto.
    split; [exact Hv|]. split; auto. cbn. now apply upd_other.
  - intros v Hv Zv. destruct (Nat.eq_dec v u) as [->|N]; [lia|]. unfold visited in Hv. rewrite D in Hv by auto. congruence.
  - unfold visited. lia.
  - lia.
  - exists u. split; [cbn; auto|]. split; [lia|apply reach_refl].
  - intros v [].
  - exists []. split; [reflexivity|]. split; [intros y z []|intros z []].
Qed.

Lemma dfs_ok : forall f G u s, Inv G s -> u < length g -> dfn s u = 0 -> (forall x, In x G -> reach g x u) ->
  unvis s <= f -> exists s', dfs g (S f) u s = Some s' /\ Post G u s s'.
Proof.
  induction f as [|f IH]; intros G u s V L Z RG U.
  - pose proof (unvis_enter s u L Z). lia.
  - destruct (lp_edges G u s f L Z V) with (vs := succs g u) (dn := @nil nat) (s := enter u s) as (s' & E & LP); auto.
    + apply lp_start; auto.
    + pose proof (unvis_enter s u L Z). lia.
    + destruct (lp_leave G u s s' L Z V LP) as (s2 & E2 & P). exists s2. split; auto.
      change (match edges (length g) (dfs g (S f)) u (succs g u) (enter u s) with None => None | Some s' => leave u s' end = Some s2).
      now rewrite E.
Qed.

Lemma inv_init : Inv [] init.
Proof.
  constructor; cbn; try (intros; exfalso; unfold fin, visited in *; cbn in *; intuition lia); try constructor.
  - intros []. 
  - intros [H _]. now elim H.
Qed.

Lemma outer_ok : forall is s, Inv [] s -> (forall i, In i is -> i < length g) ->
  exists s', outer g is s = Some s' /\ Inv [] s' /\ (forall v, visited s v -> visited s' v) /\ (forall i, In i is -> visited s' i).
Proof.
  induction is as [|i is IH]; intros s V L; [exists s; cbn; intuition|]. cbn [outer].
  destruct (Nat.eqb_spec (dfn s i) 0) as [Z|Z].
  - destruct (dfs_ok (length g) [] i s V) as (s1 & E & P); auto; [apply L; cbn; auto|intros x []| |].
    { unfold unvis. rewrite <- (seq_length (length g) 0) at 2.
      clear. induction (seq 0 (length g)) as [|a l IH]; cbn; auto. destruct (Nat.eqb (dfn s a) 0); cbn; lia. }
    rewrite E. destruct P as [PI PV _ PU _].
    destruct (IH s1 PI) as (s2 & E2 & V2 & M & A); [intros; apply L; cbn; auto|].
    exists s2. split; auto. split; auto. split; [intros v Hv; apply M, PV; auto|]. intros j [<-|Hj]; auto.
  - destruct (IH s V) as (s2 & E2 & V2 & M & A); [intros; apply L; cbn; auto|].
    exists s2. split; auto. split; auto. split; auto. intros j [<-|Hj]; auto.
Qed.
End Proofs.
