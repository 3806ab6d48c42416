(** Branches that skip over a block: CombineBranch, ForwardBranch; and UnifyReturn. *)
From Coq Require Import ZArith Lia Bool List Arith.
From Verif Require Import Sim Ssa SsaCfg SsaMerge.
Import ListNotations.

(** ** the passes *)
(** the targets of a BranchInst: getTrueTarget (true), getFalseTarget (false, absent in an unconditional branch) *)
Definition armOf (t : term) (a : bool) : option nat :=
  match t, a with TBr b, true => Some b | TCond _ x _, true => Some x | TCond _ _ y, false => Some y | _, _ => None end.
Definition setArm (a : bool) (d : nat) (t : term) : term :=
  match t, a with TBr _, true => TBr d | TCond c _ y, true => TCond c d y | TCond c x _, false => TCond c x d | _, _ => t end.

(** cmmc/Transforms/Util/BlockUtil.cpp:219-227 copyTarget *)
Definition copyPhi (old new : nat) (ph : phi) : phi :=
  match get old (inc ph) with Some o => Phi (pdst ph) (inc ph ++ [(new, o)]) | None => ph end.
Definition copyTarget (old new : nat) (bk : block) : block := Block (map (copyPhi old new) (phis bk)) (body bk) (trm bk).

(** cmmc/Transforms/ControlFlow/CombineBranch.cpp:46-49 *)
Definition isForwardBlock (x : nat * block) : bool :=
  match snd x with Block [] [] (TBr t) => negb (Nat.eqb t (fst x)) | _ => false end.
(** lines 51-61 foldForward and 78-83, one arm.  hasSamePhiValue (BlockUtil.cpp:241-253) compares the addresses of the
    two use records, which always differ; so it answers yes only if the block has no phi. *)
Definition hasNoPhi (f : func) (b : nat) : bool := match get b f with Some bk => match phis bk with [] => true | _ => false end | None => true end.
Definition foldArm (fwd : list nat) (b : nat) (f : func) (a : bool) : func :=
  match get b f with
  | Some bk =>
    match armOf (trm bk) a with
    | Some t =>
      if Nat.eqb t b || negb (existsb (Nat.eqb t) fwd) then f
      else match get t f with
           | Some tb =>
             match trm tb with
             | TBr real =>
               if Nat.eqb t real then f
               else match armOf (trm bk) (negb a) with
                    | Some rhs =>
                      if Nat.eqb rhs real
                      then if hasNoPhi f real then onBlock b (fun k => setTerm (setArm a real (trm k)) k) f else f
                      else onBlock b (fun k => setTerm (setArm a real (trm k)) k) (onBlock real (copyTarget t b) f)
                    | None => onBlock b (fun k => setTerm (setArm a real (trm k)) k) (onBlock real (copyTarget t b) f)
                    end
             | _ => f
             end
           | None => f
           end
    | None => f
    end
  | None => f
  end.
(** lines 64-88 *)
Definition combineBranch (f : func) : func :=
  let fwd := map fst (filter isForwardBlock f) in
  fold_left (fun g b => fold_left (foldArm fwd b) [true; false] g) (map fst f) f.

(** ** skipping a block *)
Definition res_of (o : opnd) : list nat := match o with ORes x => [x] | _ => [] end.
Definition termOps (t : term) : list opnd :=
  match t with TCond c _ _ | TSwitch c _ _ => [c] | TRet (Some v) => [v] | _ => [] end.
Definition phiUses (l : list phi) : list nat := flat_map (fun ph => flat_map (fun x => res_of (snd x)) (inc ph)) l.
Definition bodyUses (l : list inst) : list nat := flat_map (fun i => flat_map res_of (ops i)) l.
Definition termUses (t : term) : list nat := flat_map res_of (termOps t).
Definition usesOf (bk : block) : list nat := phiUses (phis bk) ++ bodyUses (body bk) ++ termUses (trm bk).

Definition eqOff (X : list nat) (e e' : env) : Prop := forall y, ~ In y X -> e y = e' y.
Lemma eqOff_refl X e : eqOff X e e.
Proof. intros y _. reflexivity. Qed.
Lemma eqOff_upd X e e' x v : eqOff X e e' -> eqOff X (upd e x v) (upd e' x v).
Proof. intros H y Hy. unfold upd. destruct (Nat.eqb y x); auto. Qed.
Lemma rd_eqOff args X e e' o : eqOff X e e' -> (forall x, In x (res_of o) -> ~ In x X) -> rd args e o = rd args e' o.
Proof. intros H Ho. destruct o as [c|n|x]; cbn in *; auto. Qed.
Lemma rds_eqOff args X e e' l : eqOff X e e' -> (forall x, In x (flat_map res_of l) -> ~ In x X) -> rds args e l = rds args e' l.
Proof.
  intros H. induction l as [|o l IH]; cbn; intros Hu; auto.
  rewrite (rd_eqOff args X e e' o H), IH; auto; intros x Hx; apply Hu; apply in_or_app; auto.
Qed.
Lemma rdPhis_eqOff args X e e' p l : eqOff X e e' -> (forall x, In x (phiUses l) -> ~ In x X) -> rdPhis args e p l = rdPhis args e' p l.
Proof.
  intros H. induction l as [|ph l IH]; cbn; intros Hu; auto. destruct (get p (inc ph)) as [o|] eqn:E1; auto.
  rewrite (rd_eqOff args X e e' o H), IH; auto; intros x Hx; apply Hu; apply in_or_app; auto. left.
  apply get_In in E1. apply in_flat_map. exists (p, o). auto.
Qed.
Lemma updAll_eqOff X l : forall e e', eqOff X e e' -> eqOff X (updAll e l) (updAll e' l).
Proof. induction l as [|[x v] l IH]; intros e e' H; cbn; auto. apply IH. now apply eqOff_upd. Qed.
Lemma runBody_eqOff {W} (m : sem W) args X l : (forall x, In x (bodyUses l) -> ~ In x X) -> forall e e' w, eqOff X e e' ->
  match runBody m args e w l, runBody m args e' w l with
  | BGo e1 w1 t1, BGo e2 w2 t2 => eqOff X e1 e2 /\ w1 = w2 /\ t1 = t2
  | BHalt w1 t1, BHalt w2 t2 => w1 = w2 /\ t1 = t2
  | BBad t1, BBad t2 => t1 = t2
  | _, _ => False
  end.
Proof.
  induction l as [|i l IH]; cbn; intros Hu e e' w He; auto.
  rewrite (rds_eqOff args X e e' (ops i) He). 2:{ intros x Hx; apply Hu; apply in_or_app; auto. }
  destruct (rds args e' (ops i)) as [vs|]; auto. destruct (meaning m (opc i) vs w) as [v w1|w1|]; auto.
  specialize (IH (fun x Hx => Hu x (in_or_app _ _ _ (or_intror Hx))) (upd e (dst i) v) (upd e' (dst i) v) w1 (eqOff_upd X e e' _ _ He)).
  destruct (runBody m args (upd e (dst i) v) w1 l), (runBody m args (upd e' (dst i) v) w1 l); try tauto; cbn.
  - destruct IH as (A & -> & ->). auto.
  - destruct IH as (-> & ->). auto.
  - congruence.
Qed.
Lemma runTerm_eqOff args X e e' t : eqOff X e e' -> (forall x, In x (termUses t) -> ~ In x X) -> runTerm args e t = runTerm args e' t.
Proof.
  intros H Hu. unfold termUses in Hu. destruct t as [b|c a b|c cs d|[v|]|]; cbn in *; auto;
    rewrite (rd_eqOff args X e e' _ H); auto; intros x Hx; apply Hu; apply in_or_app; auto.
Qed.

(** [T] is skipped by the block [b]: its terminator [tm] becomes [tm'], the phis of [D] become [pD], those of [T] become [pT];
    [X] are the results of the phis of [T], used by its terminator only *)
Section Skip.
Variables (f g : func) (b T D : nat) (bk tb db : block) (tm' : term) (pD pT : list phi).
Let X := map pdst (phis tb).
Hypothesis Hb : get b f = Some bk.
Hypothesis HT : get T f = Some tb.
Hypothesis HD : get D f = Some db.
Hypothesis DbT : b <> T.
Hypothesis DTD : T <> D.
Hypothesis HbodyT : body tb = [].
Hypothesis Hentry : entry g = entry f.
Hypothesis Hg : forall k, get k g = option_map (fun bk0 =>
   Block (if Nat.eqb k D then pD else if Nat.eqb k T then pT else phis bk0) (body bk0)
         (if Nat.eqb k b then tm' else trm bk0)) (get k f).
(** the results of [T]'s phis are used by its terminator only *)
Hypothesis HusesT : forall x, In x (phiUses (phis tb)) -> ~ In x X.
Hypothesis Huses : forall k bk0, get k f = Some bk0 -> k <> T -> forall x, In x (usesOf bk0) -> ~ In x X.
(** the new terminator goes where the old one went, or past [T] *)
Hypothesis Htm : forall args e,
   runTerm args e (trm bk) = TBad \/ runTerm args e tm' = runTerm args e (trm bk) \/
   (runTerm args e (trm bk) = TGo T /\ runTerm args e tm' = TGo D /\
    forall e1, enter args e (Some b) (phis tb) = Some e1 -> runTerm args e1 (trm tb) = TGo D \/ runTerm args e1 (trm tb) = TBad).
Hypothesis Htm'ops : forall x, In x (termUses tm') -> ~ In x X.
(** the phis of [D] and [T] *)
Hypothesis HpDb : forall args e vs, rdPhis args e T (phis db) = Some vs -> In D (succs tm') -> rdPhis args e b pD = Some vs.
Hypothesis HpDb2 : forall args e vs, rdPhis args e b (phis db) = Some vs -> In D (succs (trm bk)) -> In D (succs tm') -> rdPhis args e b pD = Some vs.
Hypothesis HpDo : forall args e p, p <> b -> rdPhis args e p pD = rdPhis args e p (phis db).
Hypothesis HpD0 : pD = [] <-> phis db = [].
Hypothesis HpT : forall args e p, p <> b \/ In T (succs tm') -> rdPhis args e p pT = rdPhis args e p (phis tb).
Hypothesis HpT0 : pT = [] <-> phis tb = [].

Lemma skip_ok k : refines k f g.
Proof.
  intros W m args w _.
  set (R := fun s s' : st (W:=W) => cur s' = cur s /\ wd s' = wd s /\ eqOff X (en s) (en s') /\ okEdge f s /\ okEdge g s' /\
     (prev s' = prev s \/ (prev s = Some T /\ prev s' = Some b /\ cur s = D))).
  apply (sim_refines (step m args f) (step m args g) R).
  2:{ unfold R, start, okEdge. cbn. rewrite Hentry. repeat split; auto. }
  intros s s' Hs (Hc & Hw & He & Hef & Heg & Hp).
  pose proof (fun u => safe_step m args f s u Hs) as Hsb.
  destruct (get (cur s) f) as [bk1|] eqn:Eg.
  2:{ exfalso. apply (Hsb []). unfold step. now rewrite Eg. }
  pose proof (Hg (cur s)) as Hg1. rewrite Eg in Hg1. cbn in Hg1.
  set (bk2 := Block (if Nat.eqb (cur s) D then pD else if Nat.eqb (cur s) T then pT else phis bk1) (body bk1)
                    (if Nat.eqb (cur s) b then tm' else trm bk1)) in Hg1.
  (* entering *)
  assert (Hrd : forall p p' vs, prev s = Some p -> prev s' = Some p' -> rdPhis args (en s) p (phis bk1) = Some vs ->
                 rdPhis args (en s') p' (phis bk2) = Some vs).
  { intros p p' vs Ep Ep' Hvs.
    assert (Hu : forall x, In x (phiUses (phis bk1)) -> ~ In x X).
    { intros x Hx. destruct (Nat.eq_dec (cur s) T) as [EcT|Dc].
      - assert (bk1 = tb) by congruence. subst bk1. auto.
      - apply (Huses (cur s) bk1 Eg Dc). apply in_or_app. auto. }
    rewrite (rdPhis_eqOff args X _ (en s') p (phis bk1) He Hu) in Hvs.
    unfold okEdge in Hef, Heg. rewrite Ep in Hef. rewrite Ep' in Heg. destruct Hef as (pb & Hpb & Hin). destruct Heg as (pb' & Hpb' & Hin').
    unfold bk2. cbn [phis]. destruct (Nat.eqb_spec (cur s) D) as [EcD|DcD].
    - assert (bk1 = db) by congruence. subst bk1.
      assert (Hsuc : p' = b -> In D (succs tm')).
      { intros ->. rewrite Hg, Hb in Hpb'. cbn in Hpb'. rewrite Nat.eqb_refl in Hpb'. injection Hpb' as <-. cbn in Hin'.
        rewrite Hc, EcD in Hin'. exact Hin'. }
      destruct Hp as [Hp|(Hp1 & Hp2 & _)].
      + assert (p' = p) by congruence. subst p'. destruct (Nat.eq_dec p b) as [->|Dpb].
        * apply HpDb2; auto. rewrite Hb in Hpb. injection Hpb as <-. rewrite EcD in Hin. exact Hin.
        * rewrite HpDo; auto.
      + assert (p = T) by congruence. assert (p' = b) by congruence. subst p p'. apply HpDb; auto.
    - destruct Hp as [Hp|(_ & _ & Hp3)]; [|congruence]. assert (p' = p) by congruence. subst p'.
      destruct (Nat.eqb_spec (cur s) T) as [EcT|]; auto.
      assert (bk1 = tb) by congruence. subst bk1. rewrite HpT; auto.
      destruct (Nat.eq_dec p b) as [->|]; auto. right.
      rewrite Hg, Hb in Hpb'. cbn in Hpb'. rewrite Nat.eqb_refl in Hpb'. injection Hpb' as <-. cbn in Hin'.
      rewrite Hc, EcT in Hin'. exact Hin'. }
  assert (Hent : forall e1, enter args (en s) (prev s) (phis bk1) = Some e1 ->
     exists e1', enter args (en s') (prev s') (phis bk2) = Some e1' /\ eqOff X e1 e1' /\ (cur s = T -> forall y, e1 y = e1' y)).
  { intros e1 H1. destruct (prev s) as [p|] eqn:Ep.
    - destruct (prev s') as [p'|] eqn:Ep'. 2:{ exfalso. destruct Hp as [Hp|(_ & Hp & _)]; discriminate. }
      cbn [enter] in H1 |- *. destruct (rdPhis args (en s) p (phis bk1)) as [vs|] eqn:Evs; try discriminate. cbn in H1. injection H1 as <-.
      rewrite (Hrd p p' vs eq_refl eq_refl Evs). cbn [option_map]. eexists; split; [reflexivity|]. split; [now apply updAll_eqOff|].
      intros EcT y. assert (bk1 = tb) by congruence. subst bk1. destruct (in_dec Nat.eq_dec y X) as [Hy|Hy].
      + pose proof (rdPhis_fst args _ _ _ _ Evs) as Hf. fold X in Hf. rewrite <- Hf in Hy. clear - Hy.
        generalize (en s) (en s'). induction vs as [|[x v] vs IH]; intros e e'; [contradiction|]. cbn.
        destruct (in_dec Nat.eq_dec y (map fst vs)) as [Hin|Hn].
        * apply IH. exact Hin.
        * unfold updAll in *. pose proof (updAll_ne vs (upd e x v) y Hn) as A1. pose proof (updAll_ne vs (upd e' x v) y Hn) as A2.
          unfold updAll in A1, A2. rewrite A1, A2. destruct Hy as [Hy|Hy]; [|tauto]. cbn in Hy. subst y. now rewrite !upd_eq.
      + rewrite (updAll_eqOff X vs _ _ He y Hy). reflexivity.
    - assert (Ep' : prev s' = None) by (destruct Hp as [Hp|(Hp & _)]; congruence). rewrite Ep'. cbn [enter] in H1 |- *.
      destruct (phis bk1) eqn:Eph; try discriminate. injection H1 as <-.
      assert (E2 : phis bk2 = []).
      { unfold bk2. cbn. destruct (Nat.eqb_spec (cur s) D); [apply HpD0; congruence|]. destruct (Nat.eqb_spec (cur s) T); [apply HpT0; congruence|].
        reflexivity. }
      rewrite E2. exists (en s'). split; auto. split; auto. intros EcT y. apply He. unfold X.
      assert (bk1 = tb) by congruence. subst bk1. rewrite Eph. auto. }
  assert (Hst : step m args f s = runBlock m args (cur s) bk1 (prev s) (en s) (wd s)) by (unfold step; now rewrite Eg).
  assert (Hst' : step m args g s' = runBlock m args (cur s) bk2 (prev s') (en s') (wd s)) by (unfold step; rewrite Hc, Hg1, Hw; reflexivity).
  unfold runBlock in Hst, Hst'.
  destruct (enter args (en s) (prev s) (phis bk1)) as [e1|] eqn:Een; [|exfalso; exact (Hsb [] Hst)].
  destruct (Hent e1 eq_refl) as (e1' & Hen' & He1 & HeT). rewrite Hen' in Hst'.
  change (body bk2) with (body bk1) in Hst'.
  (* the body *)
  assert (Hbu : forall x, In x (bodyUses (body bk1)) -> ~ In x X).
  { intros x Hx. destruct (Nat.eq_dec (cur s) T) as [EcT|Dc].
    - assert (bk1 = tb) by congruence. subst bk1. rewrite HbodyT in Hx. contradiction.
    - apply (Huses (cur s) bk1 Eg Dc). apply in_or_app. right. apply in_or_app. auto. }
  pose proof (runBody_eqOff m args X (body bk1) Hbu e1 e1' (wd s) He1) as HB.
  destruct (runBody m args e1 (wd s) (body bk1)) as [e2 w2 t2|w2 t2|t2] eqn:Erb.
  3:{ exfalso. exact (Hsb t2 Hst). }
  2:{ destruct (runBody m args e1' (wd s) (body bk1)) as [|w3 t3|]; try contradiction. destruct HB as (-> & ->).
      apply meets1. rewrite Hst, Hst'. auto. }
  destruct (runBody m args e1' (wd s) (body bk1)) as [e2' w2' t2'| |] eqn:Erb'; try contradiction. destruct HB as (He2 & <- & <-).
  (* the terminator *)
  destruct (Nat.eq_dec (cur s) b) as [Ecb|Dcb].
  - assert (bk1 = bk) by congruence. subst bk1.
    unfold bk2 in Hst'. cbn [trm] in Hst'. rewrite (proj2 (Nat.eqb_eq _ _) Ecb) in Hst'.
    rewrite <- (runTerm_eqOff args X e2 e2' tm' He2 Htm'ops) in Hst'.
    destruct (Htm args e2) as [Hbad|[Hsame|(Hgo & Hgo' & HgoT)]].
    + exfalso. rewrite Hbad in Hst. exact (Hsb t2 Hst).
    + apply meets1. rewrite Hsame in Hst'. rewrite Hst, Hst'. revert Hst Hst'. destruct (runTerm args e2 (trm bk)) as [b'|v|] eqn:Etm; intros Hst Hst'; auto.
      * split; auto. unfold R. cbn. repeat split; auto.
        -- exact (okEdge_step m args f s _ _ Hst).
        -- exact (okEdge_step m args g s' _ _ Hst').
      * exact (Hsb t2 Hst).
    + rewrite Hgo in Hst. rewrite Hgo' in Hst'. rewrite Ecb in Hst, Hst'.
      set (s1 := St T (Some b) e2 w2) in *.
      pose proof (safe_next m args f s s1 t2 Hs Hst) as Hs1.
      pose proof (fun u => safe_step m args f s1 u Hs1) as Hsb1.
      assert (Hst1 : step m args f s1 = runBlock m args T tb (Some b) e2 w2) by (unfold step, s1; cbn [cur prev en wd]; now rewrite HT).
      unfold runBlock in Hst1. destruct (enter args e2 (Some b) (phis tb)) as [e3|] eqn:Een3; [|exfalso; exact (Hsb1 [] Hst1)].
      rewrite HbodyT in Hst1. cbn [runBody] in Hst1.
      destruct (HgoT e3 eq_refl) as [HgT|HgT]; rewrite HgT in Hst1; [|exfalso; exact (Hsb1 _ Hst1)].
      exists 2%nat, 1%nat. split; [lia|]. split; [lia|]. cbn. rewrite Hst, Hst1, Hst'. cbn. rewrite !app_nil_r. split; auto.
      unfold R. cbn. repeat split; auto.
      * intros y Hy. rewrite <- (He2 y Hy). apply (enter_ne args _ _ _ _ y Een3). exact Hy.
      * exact (okEdge_step m args f s1 _ _ Hst1).
      * exact (okEdge_step m args g s' _ _ Hst').
  - apply meets1. unfold bk2 in Hst'. cbn [trm] in Hst'. rewrite (proj2 (Nat.eqb_neq _ _) Dcb) in Hst'.
    assert (Htt : runTerm args e2' (trm bk1) = runTerm args e2 (trm bk1)).
    { destruct (Nat.eq_dec (cur s) T) as [EcT|Dc].
      - assert (bk1 = tb) by congruence. subst bk1. rewrite HbodyT in Erb, Erb'. cbn in Erb, Erb'.
        injection Erb as <- <- <-. injection Erb' as <-. symmetry. apply (runTerm_eqOff args []); auto. intros y _. now apply HeT.
      - symmetry. apply (runTerm_eqOff args X); auto. intros x Hx. apply (Huses (cur s) bk1 Eg Dc). apply in_or_app. right. apply in_or_app. auto. }
    rewrite Htt in Hst'. rewrite Hst, Hst'. revert Hst Hst'. destruct (runTerm args e2 (trm bk1)) as [b'|v|] eqn:Etm; intros Hst Hst'; auto.
    + split; auto. unfold R. cbn. repeat split; auto.
      * exact (okEdge_step m args f s _ _ Hst).
      * exact (okEdge_step m args g s' _ _ Hst').
    + exact (Hsb t2 Hst).
Qed.
End Skip.

(** ** CombineBranch *)
Definition fwdInv (fwd : list nat) (f : func) : Prop := forall t, In t fwd -> exists r, get t f = Some (Block [] [] (TBr r)).

Lemma rdPhis_copy_other args e p l a b : p <> b -> rdPhis args e p (map (copyPhi a b) l) = rdPhis args e p l.
Proof.
  intros D. induction l as [|ph l IH]; cbn [map rdPhis]; auto. rewrite IH. unfold copyPhi.
  destruct (get a (inc ph)) as [o|]; cbn [inc pdst]; auto.
  assert (E : get p (inc ph ++ [(b, o)]) = get p (inc ph)).
  { induction (inc ph) as [|[x y] q IHq]; cbn.
    - destruct (Nat.eqb_spec b p); congruence.
    - destruct (Nat.eqb x p); auto. }
  now rewrite E.
Qed.
Lemma get_app_None {A} k (l : list (nat * A)) o : get k l = None -> get k (l ++ [(k, o)]) = Some o.
Proof.
  induction l as [|[x y] q IHq]; cbn; intros H; [now rewrite Nat.eqb_refl|]. destruct (Nat.eqb x k); [discriminate|auto].
Qed.
Lemma rdPhis_copy_new args e l a b vs : (forall ph, In ph l -> get b (inc ph) = None) ->
  rdPhis args e a l = Some vs -> rdPhis args e b (map (copyPhi a b) l) = Some vs.
Proof.
  revert vs; induction l as [|ph l IH]; cbn [map rdPhis]; intros vs H Hr; auto.
  destruct (get a (inc ph)) as [o|] eqn:Ea; try discriminate.
  assert (E : copyPhi a b ph = Phi (pdst ph) (inc ph ++ [(b, o)])) by (unfold copyPhi; now rewrite Ea). rewrite E. cbn [inc pdst]. rewrite get_app_None by (apply H; cbn; auto).
  destruct (rd args e o) as [v|]; try discriminate. destruct (rdPhis args e a l) as [us|] eqn:Eu; try discriminate.
  rewrite (IH us); auto. intros q Hq. apply H. cbn. auto.
Qed.
Lemma pred_get {A} k (l : list (nat * A)) : (forall o, ~ In (k, o) l) -> get k l = None.
Proof.
  intros H. destruct (get k l) as [o|] eqn:E; auto. exfalso. exact (H o (get_In _ _ _ E)).
Qed.

(** changing an arm of a branch *)
Lemma setArm_succs t a d x old : armOf t a = Some old -> In x (succs (setArm a d t)) -> x = d \/ armOf t (negb a) = Some x.
Proof.
  destruct t as [y|c y z|c cs y|v|], a; cbn; try discriminate; intros H; intuition congruence.
Qed.
Lemma setArm_has t a d old : armOf t a = Some old -> In d (succs (setArm a d t)).
Proof. destruct t as [y|c y z|c cs y|v|], a; cbn; try discriminate; auto. Qed.
Lemma setArm_other t a d x : armOf t (negb a) = Some x -> In x (succs (setArm a d t)).
Proof. destruct t as [y|c y z|c cs y|v|], a; cbn; try discriminate; intros [= ->]; auto. Qed.
Lemma setArm_uses t a d : termUses (setArm a d t) = termUses t.
Proof. destruct t as [y|c y z|c cs y|v|], a; reflexivity. Qed.
Lemma arm_succs t a x : armOf t a = Some x -> In x (succs t).
Proof. destruct t as [y|c y z|c cs y|v|], a; cbn; try discriminate; intros [= ->]; auto. Qed.
Lemma succs_arm t x : In x (succs t) -> (exists c cs d, t = TSwitch c cs d) \/ armOf t true = Some x \/ armOf t false = Some x.
Proof. destruct t as [y|c y z|c cs y|v|]; cbn; intros H; try tauto; [right|right|left]; intuition (subst; eauto). Qed.
Lemma setArm_run args e t a d old : armOf t a = Some old ->
  runTerm args e t = TBad \/ runTerm args e (setArm a d t) = runTerm args e t \/
  (runTerm args e t = TGo old /\ runTerm args e (setArm a d t) = TGo d).
Proof.
  destruct t as [y|c y z|c cs y|v|], a; cbn; try discriminate; intros [= ->]; auto;
    destruct (rd args e c) as [v|]; auto; destruct (truth v) as [[]|]; auto.
Qed.

(** a phi has an incoming value for every predecessor (cmmc/IR/Function.cpp:243-255) *)
Definition phiAll (f : func) : Prop :=
  forall k bk ph p pb, get k f = Some bk -> In ph (phis bk) -> get p f = Some pb -> In k (succs (trm pb)) -> get p (inc ph) <> None.
(** every block has the results it had *)
Definition sameResults (f g : func) : Prop := forall k bk', get k g = Some bk' -> exists bk, get k f = Some bk /\ resultsOf bk' = resultsOf bk.
Lemma sameResults_refl f : sameResults f f.
Proof. intros k bk H. eauto. Qed.
Lemma sameResults_trans f g h : sameResults f g -> sameResults g h -> sameResults f h.
Proof. intros A B k bk H. destruct (B k bk H) as (b1 & H1 & E1). destruct (A k b1 H1) as (b2 & H2 & E2). exists b2. split; congruence. Qed.
Lemma copyPhi_pdst a b l : map pdst (map (copyPhi a b) l) = map pdst l.
Proof. rewrite map_map. apply map_ext. intros ph. unfold copyPhi. destruct (get a (inc ph)); reflexivity. Qed.
Lemma get_copy_other a b p ph : p <> b -> get p (inc (copyPhi a b ph)) = get p (inc ph).
Proof.
  intros D. unfold copyPhi. destruct (get a (inc ph)) as [o|]; auto. cbn. induction (inc ph) as [|[x y] q IH]; cbn.
  - destruct (Nat.eqb_spec b p); congruence.
  - destruct (Nat.eqb x p); auto.
Qed.
Lemma get_copy_new a b ph : get a (inc ph) <> None -> get b (inc (copyPhi a b ph)) <> None.
Proof.
  unfold copyPhi. intros H. destruct (get a (inc ph)) as [o|]; [|congruence]. cbn. induction (inc ph) as [|[x y] q IH]; cbn.
  - rewrite Nat.eqb_refl. discriminate.
  - destruct (Nat.eqb x b); [discriminate|auto].
Qed.
Lemma foldArm_ok k fwd b f a : fwdInv fwd f -> phiPreds f -> closed f ->
  refines k f (foldArm fwd b f a) /\ fwdInv fwd (foldArm fwd b f a) /\ phiPreds (foldArm fwd b f a) /\ closed (foldArm fwd b f a) /\
  map fst (foldArm fwd b f a) = map fst f /\ sameResults f (foldArm fwd b f a) /\ (phiAll f -> phiAll (foldArm fwd b f a)).
Proof.
  intros Hf Hpp Hc. unfold foldArm.
  destruct (get b f) as [bk|] eqn:Eb; [|auto 10 using refines_refl, sameResults_refl].
  destruct (armOf (trm bk) a) as [T|] eqn:Ea; [|auto 10 using refines_refl, sameResults_refl].
  destruct (Nat.eqb_spec T b) as [->|DTb]; [auto 10 using refines_refl, sameResults_refl|]. cbn [orb].
  destruct (existsb (Nat.eqb T) fwd) eqn:Efw; [|cbn; auto 10 using refines_refl, sameResults_refl]. cbn [negb].
  apply existsb_In in Efw. destruct (Hf T Efw) as (D & ET). rewrite ET. cbn [trm].
  destruct (Nat.eqb_spec T D) as [->|DTD]; [auto 10 using refines_refl, sameResults_refl|].
  assert (HDf : In D (map fst f)) by (apply (Hc T _ D ET); cbn; auto).
  destruct (get D f) as [db|] eqn:ED. 2:{ apply get_None in ED. tauto. }
  set (tm' := setArm a D (trm bk)).
  (* both shapes of the result at once *)
  assert (Main : forall (pD : list phi) (g : func),
    (forall k0, get k0 g = option_map (fun bk0 => Block (if Nat.eqb k0 D then pD else if Nat.eqb k0 T then [] else phis bk0) (body bk0)
         (if Nat.eqb k0 b then tm' else trm bk0)) (get k0 f)) ->
    map fst g = map fst f ->
    (forall args e vs, rdPhis args e T (phis db) = Some vs -> rdPhis args e b pD = Some vs) ->
    (forall args e vs, rdPhis args e b (phis db) = Some vs -> In D (succs (trm bk)) -> rdPhis args e b pD = Some vs) ->
    (forall args e p, p <> b -> rdPhis args e p pD = rdPhis args e p (phis db)) ->
    (pD = [] <-> phis db = []) ->
    (forall ph p o, In ph pD -> In (p, o) (inc ph) -> p = b \/ exists ph', In ph' (phis db) /\ In (p, o) (inc ph')) ->
    map pdst pD = map pdst (phis db) ->
    (forall ph, In ph pD -> exists ph', In ph' (phis db) /\ (get T (inc ph') <> None -> get b (inc ph) <> None) /\ forall p, p <> b -> get p (inc ph) = get p (inc ph')) ->
    refines k f g /\ fwdInv fwd g /\ phiPreds g /\ closed g /\ map fst g = map fst f /\ sameResults f g /\ (phiAll f -> phiAll g)).
  { intros pD g Hg Hfst H1 H2 H3 H4 H5 H6 H7. split; [|split; [|split; [|split; [|split; [|split]]]]]; auto.
    - apply (skip_ok f g b T D bk (Block [] [] (TBr D)) db tm' pD []); auto; cbn; try tauto.
      + destruct f as [|[x y] f0], g as [|[x' y'] g0]; cbn in Hfst |- *; congruence.
      + intros args e. destruct (setArm_run args e (trm bk) a D T Ea) as [H|[H|[H H1']]]; auto. right. right. auto.
    - intros t Ht. destruct (Hf t Ht) as (r & Er). rewrite Hg, Er. cbn.
      assert (Hph : (if Nat.eqb t D then pD else if Nat.eqb t T then [] else []) = []).
      { destruct (Nat.eqb_spec t D) as [->|]; [|now destruct (Nat.eqb t T)]. apply H4. rewrite Er in ED. injection ED as <-. reflexivity. }
      rewrite Hph. destruct (Nat.eqb_spec t b) as [->|]; eauto. rewrite Er in Eb. injection Eb as <-. unfold tm'.
      destruct a; cbn in Ea |- *; try discriminate. eauto.
    - intros k0 bk0 ph p o Hk Hph Hin. rewrite Hg in Hk. destruct (get k0 f) as [kb|] eqn:Ek; try discriminate. cbn in Hk. injection Hk as <-. cbn in Hph.
      assert (Old : (exists ph', In ph' (phis kb) /\ In (p, o) (inc ph')) -> k0 <> T -> exists pb, get p g = Some pb /\ In k0 (succs (trm pb))).
      { intros (ph' & Hph' & Hin') DkT. destruct (Hpp k0 kb ph' p o Ek Hph' Hin') as (pb & Hp & Hs). rewrite Hg, Hp. cbn. eexists; split; [reflexivity|].
        cbn. destruct (Nat.eqb_spec p b) as [->|]; auto. assert (pb = bk) by congruence. subst pb.
        destruct (succs_arm _ _ Hs) as [(c & cs & d & E)|[E|E]].
        - rewrite E in Ea. destruct a; discriminate.
        - destruct a; [congruence|]. apply setArm_other. exact E.
        - destruct a; [|congruence]. apply setArm_other. exact E. }
      destruct (Nat.eqb_spec k0 D) as [->|].
      + assert (kb = db) by congruence. subst kb. destruct (H5 ph p o Hph Hin) as [->|H]; auto.
        rewrite Hg, Eb. cbn. rewrite Nat.eqb_refl. eexists; split; [reflexivity|]. cbn. exact (setArm_has _ _ _ _ Ea).
      + destruct (Nat.eqb_spec k0 T); [contradiction|]. apply Old; eauto.
    - intros x bk0 t Hx Ht. rewrite Hfst. rewrite Hg in Hx. destruct (get x f) as [xb|] eqn:Ex; try discriminate. cbn in Hx. injection Hx as <-. cbn in Ht.
      destruct (Nat.eqb_spec x b) as [->|]; [|eapply Hc; eauto]. assert (xb = bk) by congruence. subst xb.
      destruct (setArm_succs _ _ _ _ _ Ea Ht) as [->|H]; auto. apply (Hc b bk t Ex). exact (arm_succs _ _ _ H).
    - intros k0 kb' Hk. rewrite Hg in Hk. destruct (get k0 f) as [kb|] eqn:Ek; try discriminate. cbn in Hk. injection Hk as <-. exists kb. split; auto.
      unfold resultsOf. cbn. f_equal. destruct (Nat.eqb_spec k0 D) as [->|]; [congruence|]. destruct (Nat.eqb_spec k0 T) as [->|]; auto.
      rewrite ET in Ek. injection Ek as <-. reflexivity.
    - intros Hpa k0 kb' ph p pb' Hk Hph Hp Hin. rewrite Hg in Hk, Hp. destruct (get k0 f) as [kb|] eqn:Ek; try discriminate. cbn in Hk. injection Hk as <-. cbn in Hph.
      destruct (get p f) as [pb|] eqn:Ep; try discriminate. cbn in Hp. injection Hp as <-. cbn in Hin.
      assert (Old : (p = b -> k0 <> D) -> forall ph', In ph' (phis kb) -> get p (inc ph') <> None).
      { intros D1 ph' Hph'. apply (Hpa k0 kb ph' p pb Ek Hph' Ep). destruct (Nat.eqb_spec p b) as [->|]; auto.
        assert (pb = bk) by congruence. subst pb. destruct (setArm_succs _ _ _ _ _ Ea Hin) as [E|E]; [exfalso; apply D1; auto|]. exact (arm_succs _ _ _ E). }
      destruct (Nat.eqb_spec k0 D) as [->|].
      + assert (kb = db) by congruence. subst kb. destruct (H7 ph Hph) as (ph' & Hph' & Hnew & Hoth). destruct (Nat.eq_dec p b) as [->|Dp].
        * apply Hnew. apply (Hpa D db ph' T (Block [] [] (TBr D)) ED Hph' ET). cbn. auto.
        * rewrite Hoth by auto. apply Old; auto.
      + destruct (Nat.eqb_spec k0 T) as [->|]; [contradiction|]. apply Old; auto. }
  assert (HTph : forall k0 bk0, get k0 f = Some bk0 -> (if Nat.eqb k0 T then [] else phis bk0) = phis bk0).
  { intros k0 bk0 Hk. destruct (Nat.eqb_spec k0 T) as [->|]; auto. rewrite ET in Hk. injection Hk as <-. reflexivity. }
  assert (Hcopy : (forall r, armOf (trm bk) (negb a) = Some r -> r <> D) ->
     let g := onBlock b (fun k0 => setTerm (setArm a D (trm k0)) k0) (onBlock D (copyTarget T b) f) in
     refines k f g /\ fwdInv fwd g /\ phiPreds g /\ closed g /\ map fst g = map fst f /\ sameResults f g /\ (phiAll f -> phiAll g)).
  { intros Hrhs g.
    assert (Hns : ~ In D (succs (trm bk))).
    { intros H. destruct (succs_arm _ _ H) as [(c & cs & d & E)|[E|E]].
      - rewrite E in Ea. destruct a; discriminate.
      - destruct a; [congruence|]. apply (Hrhs D E). reflexivity.
      - destruct a; [|congruence]. apply (Hrhs D E). reflexivity. }
    apply (Main (map (copyPhi T b) (phis db))).
    - intros k0. unfold g. rewrite !get_onBlock. destruct (get k0 f) as [kb|] eqn:Ek; cbn; auto. rewrite (HTph k0 kb Ek).
      destruct (Nat.eqb_spec k0 D) as [->|].
      + assert (kb = db) by congruence. subst kb. cbn. destruct (Nat.eqb_spec D b) as [EDb|]; cbn; auto. unfold tm'. assert (db = bk) by congruence. now subst db.
      + destruct (Nat.eqb_spec k0 b) as [->|]; [assert (kb = bk) by congruence; subst kb; reflexivity|destruct kb; reflexivity].
    - unfold g, onBlock. rewrite !map_map. cbn. apply map_ext. intros [x y]. reflexivity.
    - intros args e vs Hr. apply rdPhis_copy_new; auto. intros ph Hph. apply pred_get. intros o Ho.
      destruct (Hpp D db ph b o ED Hph Ho) as (pb & Hp & Hs). assert (pb = bk) by congruence. subst pb. tauto.
    - intros args e vs _ H. tauto.
    - intros args e p Hp. now apply rdPhis_copy_other.
    - destruct (phis db); cbn; split; congruence.
    - intros ph p o Hph Hin. apply in_map_iff in Hph. destruct Hph as (ph' & <- & Hph'). unfold copyPhi in Hin.
      destruct (get T (inc ph')) as [o'|]; [|eauto]. cbn in Hin. apply in_app_iff in Hin. destruct Hin as [Hin|[Hin|[]]]; [eauto|]. left. congruence.
    - apply copyPhi_pdst.
    - intros ph Hph. apply in_map_iff in Hph. destruct Hph as (ph' & <- & Hph'). exists ph'. split; auto. split; [apply get_copy_new|].
      intros p Hp. now apply get_copy_other. }
  destruct (armOf (trm bk) (negb a)) as [r|] eqn:Er.
  - destruct (Nat.eqb_spec r D) as [->|Dr].
    + unfold hasNoPhi. rewrite ED. destruct (phis db) as [|] eqn:Eph; [|auto 10 using refines_refl, sameResults_refl].
      apply (Main []); auto; try tauto.
      * intros k0. rewrite get_onBlock. destruct (get k0 f) as [kb|] eqn:Ek; cbn; auto. rewrite (HTph k0 kb Ek).
        assert (Hd : (if Nat.eqb k0 D then [] else phis kb) = phis kb).
        { destruct (Nat.eqb_spec k0 D) as [->|]; auto. congruence. }
        rewrite Hd. destruct (Nat.eqb_spec k0 b) as [->|]; [assert (kb = bk) by congruence; subst kb; reflexivity|destruct kb; reflexivity].
      * unfold onBlock. rewrite map_map. cbn. apply map_ext. intros [x y]. reflexivity.
      * intros ph p o Hph _. contradiction.
      * intros ph Hph. contradiction.
    + apply Hcopy. intros r' [= <-]. exact Dr.
  - apply Hcopy. discriminate.
Qed.

Theorem combineBranch_ok k f : phiPreds f -> closed f -> NoDup (map fst f) -> refines k f (combineBranch f).
Proof.
  intros Hp Hc Hn. unfold combineBranch. set (fwd := map fst (filter isForwardBlock f)).
  assert (H0 : fwdInv fwd f).
  { intros t Ht. apply in_map_iff in Ht. destruct Ht as ([x y] & <- & H). apply filter_In in H. destruct H as [H1 H2]. cbn.
    unfold isForwardBlock in H2. cbn in H2. destruct y as [[|] [|] [r| | | |]]; try discriminate. exists r. now apply In_get. }
  clearbody fwd. generalize (map fst f). intros l.
  enough (A : forall g, fwdInv fwd g -> phiPreds g -> closed g ->
     refines k g (fold_left (fun g b => fold_left (foldArm fwd b) [true; false] g) l g)) by auto. clear f Hp Hc Hn H0.
  induction l as [|b l IH]; intros g H0 Hp Hc; [apply refines_refl|].
  cbn [fold_left]. destruct (foldArm_ok k fwd b g true H0 Hp Hc) as (R1 & A1 & B1 & C1 & _ & _ & _).
  destruct (foldArm_ok k fwd b _ false A1 B1 C1) as (R2 & A2 & B2 & C2 & _ & _ & _).
  eapply refines_trans; [exact R1|]. eapply refines_trans; [exact R2|]. cbn [fold_left] in IH. apply IH; auto.
Qed.
