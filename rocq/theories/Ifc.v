(** C50: if-conversion, Branch2Select (cmmc/Transforms/ControlFlow/Branch2Select.cpp). *)
From Coq Require Import ZArith Lia Bool List Arith.
From Verif Require Import Sim Ssa SsaCfg SsaMerge SsaFwd SsaFwd2 SsaWf SsaDom SsaProps SsaSub SsaVerify SsaEq SsaPhi SsaCse SsaDce SsaIns SsaGvn SsaMove CodeMotion M2RRun.
Import ListNotations.

(** ** the pass *)
(** lines 64-68: addresses from which loading cannot fail; [glob]: Value::isGlobal *)
Definition goodAddr (knd : nat -> kind) (glob : value -> bool) (f : func) (o : opnd) : bool :=
  match o with
  | OCst v => glob v
  | ORes y => match defOf f y with Some i => match knd (opc i) with KAlloc => true | _ => false end | None => false end
  | OArg _ => false
  end.
Definition isLoad (knd : nat -> kind) (i : inst) : bool := match knd (opc i) with KLoad => true | _ => false end.
Definition foldable (knd : nat -> kind) (glob : value -> bool) (f : func) (i : inst) : bool :=
  match knd (opc i) with
  | KPure | KAlloc => true
  | KLoad => match ops i with [o] => goodAddr knd glob f o | _ => false end
  | KDiv | KStore | KCall _ _ _ => false
  end.
(** lines 44-78: canFold, with the target of the branch.  instructions().size() counts the terminator *)
Definition canFold (knd : nat -> kind) (glob : value -> bool) (f : func) (k : nat) (bk : block) : option nat :=
  match phis bk, trm bk with
  | [], TBr t => if (length (body bk) <? 4) && negb (Nat.eqb t k) && forallb (foldable knd glob f) (body bk) &&
                    (length (filter (isLoad knd) (body bk)) <=? 1) then Some t else None
  | _, _ => None
  end.
(** names for the selects *)
Definition freshBase (f : func) : nat := S (list_max (allResults f ++ flat_map (fun kb => usesOf (snd kb)) f)).
(** CFGAnalysis: predecessors *)
Definition predsIn (f : func) (t : nat) : list nat := map fst (filter (fun kb => inb t (succs (trm (snd kb)))) f).
(** phi->incomings().at(b)->value *)
Definition atInc (b : nat) (ph : phi) : opnd := match get b (inc ph) with Some o => o | None => OCst VUndef end.
(** lines 110-120: the select for one phi, the phi without its two incoming values and with the select *)
Definition mkSel (sel : nat) (c : opnd) (t e : nat) (nph : nat * phi) : inst := Inst (fst nph) sel [c; atInc t (snd nph); atInc e (snd nph)].
Definition newPhi (kA kS : nat) (nph : nat * phi) : phi :=
  Phi (pdst (snd nph)) (inc (removeSource kA (removeSource kS (snd nph))) ++ [(kA, ORes (fst nph))]).
(** lines 106-130 *)
Definition named (base : nat) (l : list phi) : list (nat * phi) := combine (seq base (length l)) l.
Definition ifcBlock (sel base kA kS kB : nat) (c : opnd) (t e : nat) (bphis : list phi) (k : nat) (bk : block) : block :=
  Block (if Nat.eqb k kB then map (newPhi kA kS) (named base (phis bk)) else phis bk)
        (if Nat.eqb k kA then body bk ++ map (mkSel sel c t e) (named base bphis) else body bk)
        (if Nat.eqb k kS then TBr kA else trm bk).
(** lines 86-134, one block; [preds]: the answers of CFGAnalysis, which are those for the function before the pass *)
Definition ifcOne (knd : nat -> kind) (glob : value -> bool) (sel : nat) (preds : nat -> list nat) (f : func) (kA : nat) : func :=
  match get kA f with
  | Some ab =>
    match canFold knd glob f kA ab, preds kA with
    | Some kB, [kS] =>
      match get kS f, get kB f with
      | Some sb, Some bb =>
        match trm sb, phis bb with
        | TCond c t e, _ :: _ =>
          if (Nat.eqb t kA && Nat.eqb e kB) || (Nat.eqb t kB && Nat.eqb e kA)
          then let t' := if Nat.eqb t kB then kS else t in
               let e' := if Nat.eqb t kB then e else kS in
               map (fun kb => (fst kb, ifcBlock sel (freshBase f) kA kS kB c t' e' (phis bb) (fst kb) (snd kb))) f
          else f
        | _, _ => f
        end
      | _, _ => f
      end
    | _, _ => f
    end
  | None => f
  end.
(** lines 80-137 *)
Definition branch2Select (knd : nat -> kind) (glob : value -> bool) (sel : nat) (f : func) : func :=
  fold_left (ifcOne knd glob sel (predsIn f)) (map fst f) f.

(** ** what the operators mean *)
(** a select takes the second operand if the first is not zero, the third if it is *)
Definition selMeaning {W} (m : sem W) (sel : nat) : Prop := forall z x y w, meaning m sel [VInt z; x; y] w = IOk (if Z.eqb z 0 then y else x) w.
(** loading from a global variable or a stack slot cannot fail *)
Definition loadable {W} (knd : nat -> kind) (m : sem W) (v : value) : Prop := forall o w, knd o = KLoad -> meaning m o [v] w <> IBad.
Definition slotsLoad {W} (knd : nat -> kind) (m : sem W) (glob : value -> bool) : Prop :=
  (forall v, glob v = true -> loadable knd m v) /\
  (forall o a w v w', knd o = KAlloc -> meaning m o a w = IOk v w' -> loadable knd m v).
Definition refinesSel (knd : nat -> kind) (glob : value -> bool) (sel : nat) (f g : func) : Prop :=
  forall (W : Type) (m : sem W) (args : nat -> value) (w : W), okSem knd m -> selMeaning m sel -> slotsLoad knd m glob ->
    refinesAt (step m args f) (step m args g) (start f w) (start g w).
Lemma refinesSel_refl knd glob sel f : refinesSel knd glob sel f f.
Proof. intros W m args w _ _ _. apply refinesAt_refl. Qed.
Lemma refinesSel_trans knd glob sel f g h : refinesSel knd glob sel f g -> refinesSel knd glob sel g h -> refinesSel knd glob sel f h.
Proof. intros A B W m args w H1 H2 H3. eapply refinesAt_trans; [apply A|apply B]; auto. Qed.

(** ** one step *)
Lemma named_length base l : length (named base l) = length l.
Proof. unfold named. rewrite combine_length, seq_length. lia. Qed.
Lemma named_snd base l : map snd (named base l) = l.
Proof.
  unfold named. revert base. induction l as [|ph l IH]; intros base; auto. cbn. now rewrite IH.
Qed.
Lemma named_fst base l : map fst (named base l) = seq base (length l).
Proof.
  unfold named. revert base. induction l as [|ph l IH]; intros base; auto. cbn. now rewrite IH.
Qed.
Lemma named_pdst kA kS base l : map pdst (map (newPhi kA kS) (named base l)) = map pdst l.
Proof. rewrite map_map. unfold newPhi. cbn [pdst]. rewrite <- (map_map snd pdst). now rewrite named_snd. Qed.
Lemma named_In base l n ph : In (n, ph) (named base l) -> In ph l /\ base <= n.
Proof.
  intros H. split.
  - rewrite <- (named_snd base l). apply (in_map snd) in H. exact H.
  - apply (in_map fst) in H. rewrite named_fst in H. apply in_seq in H. cbn in H. lia.
Qed.
Lemma sels_dst sel c t e base l : map dst (map (mkSel sel c t e) (named base l)) = seq base (length l).
Proof. rewrite map_map. cbn [mkSel dst]. apply named_fst. Qed.
Lemma freshBase_res f x : In x (allResults f) -> x < freshBase f.
Proof.
  intros H. unfold freshBase. assert (K : x <= list_max (allResults f ++ flat_map (fun kb => usesOf (snd kb)) f)); [|lia].
  pose proof (proj1 (list_max_le _ _) (Nat.le_refl (list_max (allResults f ++ flat_map (fun kb => usesOf (snd kb)) f)))) as K. rewrite Forall_forall in K. apply K. apply in_or_app. auto.
Qed.
Lemma freshBase_use f k bk x : get k f = Some bk -> In x (usesOf bk) -> x < freshBase f.
Proof.
  intros H Hx. unfold freshBase. assert (K : x <= list_max (allResults f ++ flat_map (fun kb => usesOf (snd kb)) f)); [|lia].
  pose proof (proj1 (list_max_le _ _) (Nat.le_refl (list_max (allResults f ++ flat_map (fun kb => usesOf (snd kb)) f)))) as K. rewrite Forall_forall in K. apply K. apply in_or_app. right.
  apply in_flat_map. exists (k, bk). split; auto. now apply get_In.
Qed.
Lemma defIn_results f x k : defIn f x k -> In x (allResults f).
Proof. intros (bk & H & Hx). apply in_flat_map. exists (k, bk). split; [now apply get_In|exact Hx]. Qed.

Section Ifc.
Variables (knd : nat -> kind) (glob : value -> bool) (sel : nat) (f : func) (kA kS kB : nat) (ab sb bb : block) (c : opnd) (onTrue : bool).
Hypothesis Hf : wfs f.
Hypothesis HA : get kA f = Some ab.
Hypothesis HS : get kS f = Some sb.
Hypothesis HB : get kB f = Some bb.
Hypothesis PA : phis ab = [].
Hypothesis TA : trm ab = TBr kB.
Hypothesis NAB : kA <> kB.
Hypothesis FA : forall i, In i (body ab) -> foldable knd glob f i = true.
Hypothesis TS : trm sb = if onTrue then TCond c kA kB else TCond c kB kA.
Hypothesis Pred : forall k bk, get k f = Some bk -> In kA (succs (trm bk)) -> k = kS.
Hypothesis NE : kA <> entry f.
Let base := freshBase f.
Let t' := if onTrue then kA else kS.
Let e' := if onTrue then kS else kA.
Let h := ifcBlock sel base kA kS kB c t' e' (phis bb).
Let g := map (fun kb => (fst kb, h (fst kb) (snd kb))) f.
Let sels := map (mkSel sel c t' e') (named base (phis bb)).

Lemma ig_get k : get k g = option_map (h k) (get k f).
Proof using. apply (get_mapk h). Qed.
Lemma ig_fst : map fst g = map fst f.
Proof using. apply (fst_mapk h). Qed.
Lemma ig_entry : entry g = entry f.
Proof using. apply (entry_mapk h). Qed.
Lemma NAS : kA <> kS.
Proof using HA HS TA TS NAB. clear - HA HS TA TS NAB. intros E. subst kS. assert (sb = ab) by congruence. subst sb. rewrite TA in TS. destruct onTrue; discriminate. Qed.
Lemma succS k : In k (succs (trm sb)) <-> k = kA \/ k = kB.
Proof using TS. rewrite TS. clear. destruct onTrue; cbn; intuition. Qed.
Lemma ig_succ k bk x : get k f = Some bk -> In x (succs (trm (h k bk))) -> In x (succs (trm bk)).
Proof using HS TS.
  intros Hk. cbn. destruct (Nat.eqb_spec k kS) as [->|]; auto. intros [<-|[]]. assert (bk = sb) by congruence. subst bk. apply succS. auto.
Qed.
Lemma ig_path k l : path g k l -> path f k l.
Proof using HS TS.
  induction 1 as [|k l bk t H IH Hk Ht]; [rewrite ig_entry; apply path_entry|]. rewrite ig_get in Hk. destruct (get k f) as [bk1|] eqn:Ek; [|discriminate].
  injection Hk as <-. apply (ig_succ k bk1 t Ek) in Ht. eapply path_next; eauto.
Qed.
Lemma ig_reach k : reach g k -> reach f k.
Proof using HS TS. intros [l H]. exists l. now apply ig_path. Qed.
Lemma ig_dom a k : dominates f a k -> dominates g a k.
Proof using HS TS. intros H l Hl. apply H. now apply ig_path. Qed.
Lemma ig_results k bk x : In x (resultsOf bk) -> In x (resultsOf (h k bk)).
Proof using.
  unfold resultsOf. cbn. intros H. apply in_app_or in H as [H|H]; apply in_or_app.
  - left. destruct (Nat.eqb k kB); auto. now rewrite named_pdst.
  - right. destruct (Nat.eqb k kA); auto. rewrite map_app. apply in_or_app. auto.
Qed.
Lemma ig_defIn x k : defIn f x k -> defIn g x k.
Proof using. intros (bk & H & Hx). exists (h k bk). rewrite ig_get, H. split; auto. now apply ig_results. Qed.
Lemma ig_availIn k x : availIn f k x -> availIn g k x.
Proof using HS TS. intros (d & A & B & C). exists d. auto using ig_defIn, ig_dom. Qed.
Lemma ig_availOut k x : availOut f k x -> availOut g k x.
Proof using HS TS. intros (d & A & B). exists d. auto using ig_defIn, ig_dom. Qed.
Lemma opImp (P Q : nat -> Prop) o : (forall x, P x -> Q x) -> opAvail P o -> opAvail Q o.
Proof using. destruct o; cbn; auto. Qed.

(** *** [A] dominates nothing but itself *)
Lemma avoid k l : path f k l -> (k <> kA -> exists l', path f k l' /\ ~ In kA l') /\ (k = kA -> exists l', path f kS l' /\ ~ In kA l').
Proof using HA HS TA TS NAB Pred NE.
  induction 1 as [|k l bk t H [IH1 IH2] Hk Ht].
  - split; [|intros E; symmetry in E; contradiction]. intros N. exists [entry f]. split; [apply path_entry|]. intros [K|[]]. symmetry in K. auto.
  - split; intros Nt.
    + destruct (Nat.eq_dec k kA) as [->|Nk].
      * destruct (IH2 eq_refl) as (l' & Hl' & Nl'). assert (bk = ab) by congruence. subst bk. rewrite TA in Ht. destruct Ht as [<-|[]].
        exists (kB :: l'). split; [eapply path_next; [exact Hl'|exact HS|apply succS; auto]|]. intros [K|K]; auto.
      * destruct (IH1 Nk) as (l' & Hl' & Nl'). exists (t :: l'). split; [eapply path_next; eauto|]. intros [K|K]; auto.
    + subst t. assert (k = kS) by (eapply Pred; eauto). subst k. destruct IH1 as (l' & Hl' & Nl'); [exact (not_eq_sym NAS)|]. eauto.
Qed.
Lemma domA k : reach f k -> dominates f kA k -> k = kA.
Proof using HA HS TA TS NAB Pred NE.
  intros [l Hl] D. destruct (Nat.eq_dec k kA) as [|N]; auto. destruct (proj1 (avoid k l Hl) N) as (l' & Hl' & Nl'). destruct (Nl' (D l' Hl')).
Qed.
Lemma domSA : dominates f kS kA.
Proof using NE Pred HS TS. apply only_pred_dom; auto. Qed.
Lemma availA x : reach f kA -> availOut f kS x -> availIn f kA x.
Proof using HA HS TA TS NAB Pred NE.
  intros R (d & A & B). exists d. split; auto. split; [|exact (dominates_trans f _ _ _ B domSA)]. intros ->.
  destruct R as [l Hl]. exact (no_mutual f kS kA (not_eq_sym NAS) l Hl domSA B).
Qed.
(** results of [A] are read in [A] and in the phis behind it only *)
Lemma fresh_res x : base <= x -> ~ In x (allResults f).
Proof using. intros L H. apply freshBase_res in H. unfold base in L. clear - L H. lia. Qed.
Lemma fresh_use k bk x : get k f = Some bk -> base <= x -> ~ In x (usesOf bk).
Proof using. intros Hk L H. apply (freshBase_use f k bk x Hk) in H. unfold base in L. clear - L H. lia. Qed.
Definition off (x : nat) : Prop := base <= x \/ In x (map dst (body ab)).
Lemma defA x : In x (map dst (body ab)) -> defIn f x kA.
Proof using HA. intros H. exists ab. split; auto. unfold resultsOf. apply in_or_app. auto. Qed.
Lemma at_off k bk pre x : get k f = Some bk -> reach f k -> k <> kA -> (exists q, body bk = pre ++ q) -> availAt f k bk pre x -> ~ off x.
Proof using Hf HA HS TA TS NAB Pred NE.
  intros Hk R N [q Eq] H. assert (D : exists d, defIn f x d /\ dominates f d k /\ d <> kA).
  { destruct H as [(d & A & B & C)|H].
    - exists d. split; auto. split; auto. intros ->. apply N. now apply domA.
    - exists k. split; [|split; auto using dominates_refl]. exists bk. split; auto. unfold resultsOf. apply in_or_app. destruct H as [H|H]; auto.
      right. rewrite Eq, map_app. apply in_or_app. auto. }
  destruct D as (d & A & B & C). intros [L|L].
  - exact (fresh_res x L (defIn_results f x d A)).
  - apply C. apply (defIn_unique f x d kA (proj1 (proj2 (proj1 Hf)))); auto. now apply defA.
Qed.
Lemma out_off p x : reach f p -> p <> kA -> availOut f p x -> ~ off x.
Proof using Hf HA HS TA TS NAB Pred NE.
  intros R N H. destruct (reach_get f p (proj1 Hf) R) as [pb Hp]. apply (availOut_at f p pb x Hp) in H.
  apply (at_off p pb (body pb) x Hp R N); auto. exists []. now rewrite app_nil_r.
Qed.

(** *** the phis behind [A] *)
Lemma np_get_A n ph : get kA (inc (newPhi kA kS (n, ph))) = Some (ORes n).
Proof using.
  unfold newPhi. cbn [inc snd fst removeSource]. generalize (filter (fun x => negb (Nat.eqb (fst x) kS)) (inc ph)) as l.
  induction l as [|[q o] l IH]; cbn; [now rewrite Nat.eqb_refl|]. destruct (Nat.eqb_spec q kA) as [->|N]; cbn; auto.
  destruct (Nat.eqb_spec q kA); [contradiction|auto].
Qed.
Lemma np_get p n ph : p <> kA -> p <> kS -> get p (inc (newPhi kA kS (n, ph))) = get p (inc ph).
Proof using.
  intros N1 N2. unfold newPhi. cbn [inc snd fst removeSource]. generalize (inc ph) as l.
  induction l as [|[q o] l IH]; cbn; [destruct (Nat.eqb_spec kA p); congruence|]. destruct (Nat.eqb_spec q kS) as [->|M]; cbn.
  - destruct (Nat.eqb_spec kS p); congruence.
  - destruct (Nat.eqb_spec q kA) as [->|M2]; cbn; [destruct (Nat.eqb_spec kA p); congruence|]. now rewrite IH.
Qed.
Lemma np_In p o n ph : In (p, o) (inc (newPhi kA kS (n, ph))) -> (p = kA /\ o = ORes n) \/ (p <> kA /\ p <> kS /\ In (p, o) (inc ph)).
Proof using.
  unfold newPhi. cbn [inc snd fst removeSource]. intros H. apply in_app_or in H as [H|[H|[]]].
  - apply filter_In in H as [H H1]. apply filter_In in H as [H H2]. cbn in H1, H2. apply negb_true_iff, Nat.eqb_neq in H1, H2. auto.
  - injection H as <- <-. auto.
Qed.
Lemma h_phis k bk ph : In ph (phis (h k bk)) -> (k <> kB /\ In ph (phis bk)) \/ (k = kB /\ exists n ph0, ph = newPhi kA kS (n, ph0) /\ In (n, ph0) (named base (phis bk))).
Proof using.
  cbn. destruct (Nat.eqb_spec k kB) as [->|N]; [|auto]. intros H. apply in_map_iff in H as ([n ph0] & <- & H). right. split; auto. eauto.
Qed.
Lemma h_res k bk x : In x (resultsOf (h k bk)) -> In x (resultsOf bk) \/ (k = kA /\ base <= x).
Proof using.
  unfold resultsOf. cbn. intros H. apply in_app_or in H as [H|H].
  - left. apply in_or_app. left. destruct (Nat.eqb k kB); auto. now rewrite named_pdst in H.
  - destruct (Nat.eqb_spec k kA) as [->|N]; [|left; apply in_or_app; auto]. rewrite map_app in H. apply in_app_or in H as [H|H]; [left; apply in_or_app; auto|].
    right. split; auto. rewrite sels_dst in H. apply in_seq in H. apply H.
Qed.
Lemma h_trm k bk : k <> kS -> trm (h k bk) = trm bk.
Proof using. intros N. cbn. destruct (Nat.eqb_spec k kS); congruence. Qed.
Lemma ig_wf : wf g.
Proof using All.
  pose proof Hf as ((Hn & U & Hc & PP & PAll) & _). pose proof (wf_uniqR f (proj1 Hf)) as [U1 U2]. pose proof NAS as Nas.
  split; [|split; [split|split; [|split]]].
  - intros E. apply Hn. pose proof ig_fst as F. rewrite E in F. destruct f; [reflexivity|discriminate].
  - rewrite ig_fst. apply U.
  - apply uniqR_iff; [rewrite ig_fst; apply U|]. split.
    + intros k bk Hk. rewrite ig_get in Hk. destruct (get k f) as [bk1|] eqn:Ek; [|discriminate]. injection Hk as <-. specialize (U1 k bk1 Ek).
      assert (E : resultsOf (h k bk1) = resultsOf bk1 ++ (if Nat.eqb k kA then seq base (length (phis bb)) else [])).
      { unfold resultsOf. cbn. rewrite <- app_assoc. f_equal; [destruct (Nat.eqb k kB); [apply named_pdst|reflexivity]|].
        destruct (Nat.eqb k kA); [now rewrite map_app, sels_dst|now rewrite app_nil_r]. }
      rewrite E. apply NoDup_glue; auto; [destruct (Nat.eqb k kA); [apply seq_NoDup|constructor]|].
      intros y Hy Hy'. destruct (Nat.eqb k kA); [|destruct Hy']. apply in_seq in Hy'. apply (fresh_res y (proj1 Hy')). apply (defIn_results f y k). exists bk1. auto.
    + intros k1 k2 b1 b2 x H1 H2 X1 X2. rewrite ig_get in H1, H2. destruct (get k1 f) as [c1|] eqn:E1; [|discriminate]. destruct (get k2 f) as [c2|] eqn:E2; [|discriminate].
      injection H1 as <-. injection H2 as <-. apply h_res in X1 as [X1|[-> X1]]; apply h_res in X2 as [X2|[-> X2]]; auto.
      * exact (U2 k1 k2 c1 c2 x E1 E2 X1 X2).
      * exfalso. apply (fresh_res x X2). apply (defIn_results f x k1). exists c1. auto.
      * exfalso. apply (fresh_res x X1). apply (defIn_results f x k2). exists c2. auto.
  - intros k bk t Hk Ht. rewrite ig_fst. rewrite ig_get in Hk. destruct (get k f) as [bk1|] eqn:Ek; [|discriminate]. injection Hk as <-.
    exact (Hc k bk1 t Ek (ig_succ k bk1 t Ek Ht)).
  - intros k bk ph p o Hk Hph Hin. rewrite ig_get in Hk. destruct (get k f) as [bk1|] eqn:Ek; [|discriminate]. injection Hk as <-.
    apply h_phis in Hph as [[N Hph]|(-> & n & ph0 & -> & Hph)].
    + destruct (PP k bk1 ph p o Ek Hph Hin) as (pb & Hp & Hk). exists (h p pb). rewrite ig_get, Hp. split; auto.
      destruct (Nat.eq_dec p kS) as [->|Np]; [|now rewrite h_trm]. assert (pb = sb) by congruence. subst pb. apply succS in Hk as [->|Hk]; [|contradiction].
      assert (bk1 = ab) by congruence. subst bk1. rewrite PA in Hph. destruct Hph.
    + apply np_In in Hin as [[-> ->]|(N1 & N2 & Hin)].
      * exists (h kA ab). rewrite ig_get, HA. split; auto. rewrite (h_trm kA ab Nas), TA. now left.
      * apply named_In in Hph as [Hph _]. destruct (PP kB bk1 ph0 p o Ek Hph Hin) as (pb & Hp & Hk). exists (h p pb). rewrite ig_get, Hp. split; auto. now rewrite h_trm.
  - intros k bk ph p pb Hk Hph Hp Hin. rewrite ig_get in Hk, Hp. destruct (get k f) as [bk1|] eqn:Ek; [|discriminate]. injection Hk as <-.
    destruct (get p f) as [pb1|] eqn:Ep; [|discriminate]. injection Hp as <-. pose proof (ig_succ p pb1 k Ep Hin) as Hin'.
    apply h_phis in Hph as [[N Hph]|(-> & n & ph0 & -> & Hph)].
    + exact (PAll k bk1 ph p pb1 Ek Hph Ep Hin').
    + destruct (Nat.eq_dec p kA) as [->|N1]; [rewrite np_get_A; discriminate|]. apply named_In in Hph as [Hph _].
      assert (N2 : p <> kS). { intros ->. cbn in Hin. rewrite Nat.eqb_refl in Hin. destruct Hin as [K|[]]. exact (NAB K). }
      rewrite (np_get p n ph0 N1 N2). exact (PAll kB bk1 ph0 p pb1 Ek Hph Ep Hin').
Qed.
Lemma phi_has ph p : In ph (phis bb) -> p = kS \/ p = kA -> exists o, get p (inc ph) = Some o.
Proof using All.
  intros Hph Hp. pose proof Hf as ((_ & _ & _ & _ & PAll) & _). assert (K : get p (inc ph) <> None).
  { destruct Hp as [->| ->].
    - apply (PAll kB bb ph kS sb HB Hph HS). apply succS. auto.
    - apply (PAll kB bb ph kA ab HB Hph HA). rewrite TA. now left. }
  destruct (get p (inc ph)); [eauto|congruence].
Qed.
Lemma tgt : (t' = kA /\ e' = kS) \/ (t' = kS /\ e' = kA).
Proof using All. unfold t', e'. clear. destruct onTrue; auto. Qed.
Lemma sel_ops ph : In ph (phis bb) -> reach f kA -> forall o, In o [c; atInc t' ph; atInc e' ph] -> opAvail (availAt f kA ab (body ab)) o.
Proof using All.
  intros Hph R o Ho. pose proof Hf as (_ & Ss & _). assert (Rs : reach f kS). { destruct R as [l Hl]. destruct (dom_reach f kS kA l Hl domSA) as [l' Hl']. now exists l'. }
  assert (Up : forall o, opAvail (availOut f kS) o -> opAvail (availAt f kA ab (body ab)) o).
  { intros o1. apply opImp. intros x Hx. left. now apply availA. }
  assert (V : forall p, p = kS \/ p = kA -> opAvail (availAt f kA ab (body ab)) (atInc p ph)).
  { intros p Hp. destruct (phi_has ph p Hph Hp) as [o1 E]. unfold atInc. rewrite E. apply get_In in E.
    assert (Rb : reach f kB). { eapply succ_reach; [exact R|exact HA|rewrite TA; now left]. }
    destruct (Ss kB bb HB Rb) as (_ & _ & S3). destruct Hp as [->| ->].
    - apply Up. exact (S3 ph kS o1 Hph E Rs).
    - pose proof (S3 ph kA o1 Hph E R) as K. revert K. apply opImp. intros x. apply (availOut_at f kA ab x HA). }
  destruct Ho as [<-|[<-|[<-|[]]]].
  - apply Up. destruct (Ss kS sb HS Rs) as (_ & S2 & _). rewrite TS in S2. assert (K : opAvail (availAt f kS sb (body sb)) c).
    { clear - S2. rewrite Forall_forall in S2. apply S2. destruct onTrue; now left. }
    revert K. apply opImp. intros x. apply (availOut_at f kS sb x HS).
  - apply V. destruct tgt as [[E _]|[E _]]; rewrite E; auto.
  - apply V. destruct tgt as [[_ E]|[_ E]]; rewrite E; auto.
Qed.
Lemma h_availAt k bk pre x : In k (map fst f) -> availAt f k bk pre x -> availAt g k (h k bk) pre x.
Proof using All.
  intros _ [H|[H|H]]; [left; now apply ig_availIn|right; left|right; right; auto]. cbn. destruct (Nat.eqb k kB); auto. now rewrite named_pdst.
Qed.
Lemma ig_ssa : ssa g.
Proof using All.
  intros k bk Hk R. rewrite ig_get in Hk. destruct (get k f) as [bk1|] eqn:Ek; [|discriminate]. injection Hk as <-. apply ig_reach in R.
  pose proof Hf as (_ & Ss & _). destruct (Ss k bk1 Ek R) as (S1 & S2 & S3). pose proof (get_In_fst _ _ _ Ek) as Ik.
  split; [|split].
  - intros pre i post E. destruct (Nat.eq_dec k kA) as [->|N].
    + assert (bk1 = ab) by congruence. subst bk1. assert (E' : body ab ++ sels = pre ++ i :: post) by (cbn in E; now rewrite Nat.eqb_refl in E).
      assert (D : (exists q, body ab = pre ++ i :: q) \/ (exists q, pre = body ab ++ q /\ In i sels)).
      { clear - E'. revert pre E'. induction (body ab) as [|a l IH]; intros pre E'.
        - right. exists pre. split; auto. cbn in E'. rewrite E'. apply in_or_app. right. now left.
        - destruct pre as [|a' pre]; cbn in E'; injection E' as E1 E2; rewrite <- E1; [left; exists l; reflexivity|]. destruct (IH pre E2) as [[q ->]|(q & -> & K)]; [left; exists q; reflexivity|right; exists q; auto]. }
      destruct D as [[q Eq]|(q & -> & Hi)].
      * specialize (S1 pre i q Eq). eapply opAvail_imp; [|exact S1]. intros x. now apply h_availAt.
      * apply in_map_iff in Hi as ([n ph] & <- & Hi). apply named_In in Hi as [Hi _]. cbn [mkSel ops snd]. rewrite Forall_forall. intros o Ho.
        pose proof (sel_ops ph Hi R o Ho) as K. revert K. apply opImp. intros x Hx. apply (h_availAt kA ab _ _ Ik) in Hx. destruct Hx as [Hx|[Hx|Hx]]; [now left|right; now left|].
        right. right. rewrite map_app. apply in_or_app. auto.
    + assert (Eb : body bk1 = pre ++ i :: post). { rewrite <- E. cbn. destruct (Nat.eqb_spec k kA); [contradiction|reflexivity]. }
      specialize (S1 pre i post Eb). eapply opAvail_imp; [|exact S1]. intros x. now apply h_availAt.
  - assert (K : Forall (opAvail (availAt g k (h k bk1) (body bk1))) (termOps (trm (h k bk1)))).
    { cbn [h ifcBlock trm]. destruct (Nat.eqb k kS); [constructor|]. eapply opAvail_imp; [|exact S2]. intros x. now apply h_availAt. }
    eapply opAvail_imp; [|exact K]. intros x [Hx|[Hx|Hx]]; [now left|right; now left|]. right. right. cbn. destruct (Nat.eqb k kA); auto.
    rewrite map_app. apply in_or_app. auto.
  - intros ph p o Hph Hin Rp. apply ig_reach in Rp. apply h_phis in Hph as [[N Hph]|(-> & n & ph0 & -> & Hph)].
    + specialize (S3 ph p o Hph Hin Rp). revert S3. apply opImp. intros x. apply ig_availOut.
    + apply np_In in Hin as [[-> ->]|(N1 & N2 & Hin)].
      * cbn. exists kA. split; [|apply dominates_refl]. exists (h kA ab). rewrite ig_get, HA. split; auto. unfold resultsOf. apply in_or_app. right. cbn.
        rewrite Nat.eqb_refl, map_app. apply in_or_app. right. fold sels. unfold sels. rewrite sels_dst. assert (bk1 = bb) by congruence. subst bk1.
        apply (in_map fst) in Hph. now rewrite named_fst in Hph.
      * apply named_In in Hph as [Hph _]. specialize (S3 ph0 p o Hph Hin Rp). revert S3. apply opImp. intros x. apply ig_availOut.
Qed.
Lemma ig_wfs : wfs g.
Proof using All.
  split; [exact ig_wf|]. split; [exact ig_ssa|]. intros bk Hk. rewrite ig_entry, ig_get in Hk. destruct (get (entry f) f) as [b1|] eqn:E; [|discriminate].
  injection Hk as <-. pose proof (proj2 (proj2 Hf) b1 E) as Ep. cbn. rewrite Ep. destruct (Nat.eqb (entry f) kB); reflexivity.
Qed.

(** *** the runs *)
Section Sim.
Context {W : Type} (m : sem W) (args : nat -> value).
Hypothesis OK : okSem knd m.
Hypothesis Hsel : selMeaning m sel.
Hypothesis Hpure : knd sel = KPure.
Hypothesis Hslot : slotsLoad knd m glob.
(** a value is there, and the address of a stack slot can be loaded from *)
Definition isSlot (x : nat) : Prop := exists i, defOf f x = Some i /\ knd (opc i) = KAlloc.
Definition Pg (x : nat) (e : env) : Prop := exists v, e x = Some v /\ (isSlot x -> loadable knd m v).
Definition D (x : nat) : list nat := [].
Lemma pg_frame : forall x e e', (forall y, y = x \/ In y (D x) -> e y = e' y) -> Pg x e -> Pg x e'.
Proof using All. intros x e e'0 H (v & A & B). exists v. rewrite <- (H x (or_introl eq_refl)). auto. Qed.
Lemma pg_dep : forall x d bk y, get d g = Some bk -> reach g d -> In x (resultsOf bk) -> In y (D x) ->
  availIn g d y \/ (In x (map pdst (phis bk)) /\ In y (map pdst (phis bk))) \/
  (exists pre i post, body bk = pre ++ i :: post /\ dst i = x /\ (In y (map pdst (phis bk)) \/ In y (map dst pre))).
Proof using All. intros x d bk y _ _ _ []. Qed.
Lemma pg_phi : forall b bk p pb e vs, get b g = Some bk -> reach g p -> get p g = Some pb -> In b (succs (trm pb)) ->
  (forall x, availOut g p x -> Pg x e) -> rdPhis args e p (phis bk) = Some vs -> forall x, In x (map pdst (phis bk)) -> Pg x (updAll e vs).
Proof using All.
  intros b bk p pb e vs Hb _ _ _ _ Hvs x Hx. assert (K : updAll e vs x <> None) by (apply (updAll_some args); rewrite (rdPhis_fst _ _ _ _ _ Hvs); exact Hx).
  destruct (updAll e vs x) as [v|] eqn:Ev; [|congruence]. exists v. split; [exact Ev|]. intros (i & Hi & _). exfalso. rewrite ig_get in Hb.
  destruct (get b f) as [bk1|] eqn:Eb; [|discriminate]. injection Hb as <-. rewrite (defOf_phi f x b bk1 (proj1 (proj2 (proj1 Hf))) Eb) in Hi; [discriminate|].
  cbn in Hx. destruct (Nat.eqb b kB); auto. now rewrite named_pdst in Hx.
Qed.
Lemma pg_body : forall b bk pre i post e w vs v w', get b g = Some bk -> reach g b -> body bk = pre ++ i :: post ->
  (forall x, availAt g b bk pre x -> Pg x e) -> rds args e (ops i) = Some vs -> meaning m (opc i) vs w = IOk v w' -> Pg (dst i) (upd e (dst i) v).
Proof using All.
  intros b bk pre i post e w vs v w' Hb R E _ _ Hm. exists v. rewrite upd_eq. split; auto. intros (i0 & Hi0 & Hk). assert (i0 = i); [|subst; exact (proj2 Hslot _ _ _ _ _ Hk Hm)].
  rewrite ig_get in Hb. destruct (get b f) as [bk1|] eqn:Eb; [|discriminate]. injection Hb as <-. pose proof (proj1 (proj2 (proj1 Hf))) as U.
  assert (K : In i (body bk1) \/ base <= dst i).
  { assert (I : In i (body (h b bk1))) by (rewrite E; apply in_or_app; right; now left). cbn in I. destruct (Nat.eqb b kA); auto.
    apply in_app_or in I as [I|I]; auto. right. apply in_map_iff in I as ([n ph] & <- & I). apply named_In in I as [_ I]. exact I. }
  destruct K as [K|K].
  - apply in_split in K as (p & q & K). pose proof (defOf_body f (dst i) b bk1 p i q U Eb K eq_refl). congruence.
  - exfalso. apply (fresh_res (dst i) K). destruct (defOf_In f (dst i) i0 Hi0) as (Ed & b0 & k0 & I0 & I1). apply in_flat_map. exists (b0, k0). split; auto.
    unfold resultsOf. cbn. apply in_or_app. right. rewrite <- Ed. now apply in_map.
Qed.
Let U : uniqueDefs g := proj1 (proj2 ig_wf).

(** equal where it matters *)
Lemma agree_body l : forall (Q : nat -> Prop) (e e1 : env) w, (forall pre i post, l = pre ++ i :: post -> forall x, In x (flat_map res_of (ops i)) -> Q x \/ In x (map dst pre)) ->
  (forall y, Q y -> e y = e1 y) ->
  match runBody m args e w l, runBody m args e1 w l with
  | BGo a w1 t1, BGo b w2 t2 => (forall y, Q y \/ In y (map dst l) -> a y = b y) /\ w1 = w2 /\ t1 = t2
  | BHalt w1 t1, BHalt w2 t2 => w1 = w2 /\ t1 = t2
  | BBad t1, BBad t2 => t1 = t2
  | _, _ => False
  end.
Proof using All.
  induction l as [|i l IH]; intros Q e e1 w HQ A; cbn.
  - split; auto. intros y [H|[]]; auto.
  - rewrite (rds_ext args e e1 (ops i)). 2:{ intros y Hy. destruct (HQ [] i l eq_refl y Hy) as [K|[]]. auto. }
    destruct (rds args e1 (ops i)) as [vs|]; auto. destruct (meaning m (opc i) vs w) as [v w1|w1|]; auto.
    specialize (IH (fun y => Q y \/ y = dst i) (upd e (dst i) v) (upd e1 (dst i) v) w1).
    destruct (runBody m args (upd e (dst i) v) w1 l), (runBody m args (upd e1 (dst i) v) w1 l); cbn;
      (match type of IH with ?P -> ?R -> _ => assert (I1 : P); [|assert (I2 : R); [|specialize (IH I1 I2)]] end;
      [intros pre j post E x Hx; destruct (HQ (i :: pre) j post (f_equal (cons i) E) x Hx) as [K|[K|K]]; auto
      |intros y [Hy|Hy]; unfold upd; destruct (Nat.eqb_spec y (dst i)); auto; contradiction|]); try tauto.
    + destruct IH as (B & -> & ->). split; auto. intros y [Hy|[Hy|Hy]]; apply B; auto.
    + destruct IH as (-> & ->). auto.
    + congruence.
Qed.
Lemma foldable_evt i vs w : foldable knd glob f i = true -> evt m (opc i) vs w = [].
Proof using All.
  unfold evt. destruct (visible m (opc i)) eqn:E; auto. destruct OK as (_ & _ & _ & _ & _ & _ & _ & _ & P9). destruct (P9 _ E) as (st & nr & K).
  unfold foldable. rewrite K. discriminate.
Qed.
Lemma foldable_runs i pre post e w : foldable knd glob f i = true -> reach g kA -> body (h kA ab) = pre ++ i :: post -> factsAt g Pg kA (h kA ab) pre e ->
  exists vs v, rds args e (ops i) = Some vs /\ meaning m (opc i) vs w = IOk v w.
Proof using All.
  intros Hi R E F. assert (HG : get kA g = Some (h kA ab)) by (rewrite ig_get, HA; reflexivity). destruct (ig_ssa kA _ HG R) as (S1 & _). specialize (S1 pre i post E).
  assert (Rd : rds args e (ops i) <> None).
  { apply rds_def. eapply opAvail_imp; [|exact S1]. intros x Hx. destruct (F x Hx) as (v & -> & _). discriminate. }
  destruct (rds args e (ops i)) as [vs|] eqn:Er; [|congruence]. exists vs. destruct OK as (P1 & _ & _ & P4 & P5 & _).
  unfold foldable in Hi. destruct (knd (opc i)) eqn:Ek; try discriminate.
  - destruct (P1 _ Ek) as [q Hq]. exists (q vs). auto.
  - destruct (P4 _ Ek) as [q Hq]. destruct (ops i) as [|o [|? ?]] eqn:Eo; try discriminate. cbn in Er. destruct (rd args e o) as [v|] eqn:Ev; [|discriminate]. injection Er as <-.
    assert (L : loadable knd m v).
    { destruct o as [c0|n|y]; cbn in Hi, Ev; [injection Ev as <-; exact (proj1 Hslot _ Hi)|discriminate|].
      destruct (defOf f y) as [j|] eqn:Ej; [|discriminate]. destruct (knd (opc j)) eqn:Ekj; try discriminate.
      inversion S1 as [|? ? Hy _]. cbn in Hy. destruct (F y Hy) as (v' & Ev' & L). assert (v' = v) by congruence. subst v'. apply L. exists j. auto. }
    specialize (L (opc i) w Ek). rewrite Hq in L |- *. destruct (q [v] w) as [u|]; [|congruence]. eauto.
  - destruct (P5 _ Ek) as [q Hq]. exists (q vs). auto.
Qed.
Lemma runA l : forall pre e w, reach g kA -> body ab = pre ++ l -> factsAt g Pg kA (h kA ab) pre e ->
  exists e3, runBody m args e w l = BGo e3 w [] /\ factsAt g Pg kA (h kA ab) (body ab) e3 /\ forall y, ~ In y (map dst l) -> e3 y = e y.
Proof using All.
  induction l as [|i l IH]; intros pre e w R E F.
  - rewrite app_nil_r in E. rewrite <- E in F. exists e. cbn. auto.
  - assert (HG : get kA g = Some (h kA ab)) by (rewrite ig_get, HA; reflexivity).
    assert (E2 : body (h kA ab) = pre ++ i :: (l ++ sels)). { cbn. rewrite Nat.eqb_refl, E, <- app_assoc. reflexivity. }
    assert (Hi : foldable knd glob f i = true) by (apply FA; rewrite E; apply in_or_app; right; now left).
    destruct (foldable_runs i pre (l ++ sels) e w Hi R E2 F) as (vs & v & Er & Em).
    assert (F2 : factsAt g Pg kA (h kA ab) (pre ++ [i]) (upd e (dst i) v)).
    { exact (facts_inst m args g Pg D U pg_frame pg_dep pg_body kA (h kA ab) pre i (l ++ sels) e w vs v w R HG E2 F Er Em). }
    destruct (IH (pre ++ [i]) (upd e (dst i) v) w R) as (e3 & H1 & H2 & H3); [rewrite E, <- app_assoc; reflexivity|exact F2|].
    exists e3. cbn. rewrite Er, Em, H1, (foldable_evt i vs w Hi). cbn. split; auto. split; auto. intros y Hy. rewrite H3; [|tauto]. apply upd_ne. intros ->. tauto.
Qed.
Definition chosen (z : Z) (ph : phi) : opnd := if Z.eqb z 0 then atInc e' ph else atInc t' ph.
Lemma sel_run (e0 : env) (w : W) z l : rd args e0 c = Some (VInt z) ->
  (forall n ph o, In (n, ph) l -> In o [c; atInc t' ph; atInc e' ph] -> rd args e0 o <> None /\ forall x, In x (res_of o) -> x < base) ->
  NoDup (map fst l) -> (forall n ph, In (n, ph) l -> base <= n) -> forall e, (forall y, y < base -> e y = e0 y) ->
  exists e3, runBody m args e w (map (mkSel sel c t' e') l) = BGo e3 w [] /\ (forall y, ~ In y (map fst l) -> e3 y = e y) /\
    forall n ph, In (n, ph) l -> e3 n = rd args e0 (chosen z ph).
Proof using All.
  intros Hc. induction l as [|[n ph] l IH]; intros Hl N L e He; cbn.
  - exists e. split; auto. split; auto. intros n ph [].
  - assert (X : forall o, In o [c; atInc t' ph; atInc e' ph] -> exists v, rd args e o = Some v /\ rd args e0 o = Some v).
    { intros o Ho. destruct (Hl n ph o (or_introl eq_refl) Ho) as [H1 H2]. rewrite (rd_ext args e e0 o); [|intros y Hy; apply He; auto].
      destruct (rd args e0 o) as [v|]; [eauto|congruence]. }
    destruct (X c) as (vc & C1 & C2); [now left|]. rewrite Hc in C2. injection C2 as <-.
    destruct (X (atInc t' ph)) as (vt & T1 & T2); [right; now left|]. destruct (X (atInc e' ph)) as (ve & V1 & V2); [right; right; now left|].
    assert (Hv : evt m sel [VInt z; vt; ve] w = []).
    { unfold evt. destruct (visible m sel) eqn:E; auto. destruct OK as (_ & _ & _ & _ & _ & _ & _ & _ & P9). destruct (P9 _ E) as (st & nr & K). congruence. }
    rewrite C1, T1, V1. cbn. rewrite (Hsel z vt ve w), Hv. inversion N as [|? ? N1 N2]; subst.
    destruct (IH (fun n' ph' o Hin => Hl n' ph' o (or_intror Hin)) N2 (fun n' ph' Hin => L n' ph' (or_intror Hin)) (upd e n (if Z.eqb z 0 then ve else vt))) as (e3 & H1 & H2 & H3).
    { intros y Hy. rewrite upd_ne; auto. specialize (L n ph (or_introl eq_refl)). intros ->. lia. }
    exists e3. rewrite H1. cbn. split; auto. split.
    + intros y Hy. rewrite H2; [|tauto]. apply upd_ne. intros ->. tauto.
    + intros n' ph' [E|Hin]; [|auto]. injection E as <- <-. rewrite H2 by auto. rewrite upd_eq. unfold chosen. destruct (Z.eqb z 0); congruence.
Qed.
Lemma in_off x : reach f kA -> availIn f kA x -> ~ off x.
Proof using All.
  intros R (d & A & B & C) [L|L].
  - exact (fresh_res x L (defIn_results f x d A)).
  - apply B. apply (defIn_unique f x d kA (proj1 (proj2 (proj1 Hf)))); auto. now apply defA.
Qed.
Lemma avail_small k bk pre x : get k f = Some bk -> (exists q, body bk = pre ++ q) -> availAt f k bk pre x -> x < base.
Proof using All. 
  intros Hk [q Eq] H. unfold base. apply freshBase_res. destruct H as [(d & A & _)|H]; [exact (defIn_results f x d A)|].
  apply (defIn_results f x k). exists bk. split; auto. unfold resultsOf. apply in_or_app. destruct H as [H|H]; auto. right. rewrite Eq, map_app. apply in_or_app. auto.
Qed.
Lemma off_small x : ~ off x -> x < base /\ ~ In x (map dst (body ab)).
Proof using All. unfold off. intros H. destruct (le_lt_dec base x) as [L|L]; [destruct H; auto|]. split; auto. Qed.
Lemma rd_off (P : nat -> Prop) ea eb o : opAvail P o -> (forall x, P x -> ea x = eb x) -> rd args ea o = rd args eb o.
Proof using All. intros H K. apply rd_ext. intros y Hy. apply K. destruct o; cbn in *; try tauto. destruct Hy as [<-|[]]. exact H. Qed.
(** the new run through [A] *)
Lemma runAg e2 w z : reach f kA -> reach g kA -> factsAt g Pg kA (h kA ab) [] e2 -> rd args e2 c = Some (VInt z) ->
  exists e3 e4, runBody m args e2 w (body ab) = BGo e3 w [] /\ runBody m args e2 w (body (h kA ab)) = BGo e4 w [] /\
    (forall y, ~ off y -> e3 y = e2 y) /\ (forall y, y < base -> e4 y = e3 y) /\
    forall n ph, In (n, ph) (named base (phis bb)) -> e4 n = rd args e3 (chosen z ph).
Proof using All.
  intros Rf R F Hc. destruct (runA (body ab) [] e2 w R eq_refl F) as (e3 & H1 & H2 & H3).
  assert (O3 : forall y, ~ off y -> e3 y = e2 y). { intros y Hy. apply H3. exact (proj2 (off_small y Hy)). }
  assert (Rs : reach f kS). { destruct Rf as [l Hl]. destruct (dom_reach f kS kA l Hl domSA) as [l' Hl']. now exists l'. }
  assert (Cc : opAvail (availAt f kS sb (body sb)) c).
  { destruct (proj1 (proj2 Hf) kS sb HS Rs) as (_ & S2 & _). rewrite TS in S2. clear - S2. rewrite Forall_forall in S2. apply S2. destruct onTrue; now left. }
  destruct (sel_run e3 w z (named base (phis bb))) with (e := e3) as (e4 & K1 & K2 & K3).
  - rewrite <- Hc. apply (rd_off _ _ _ _ Cc). intros x Hx. apply O3. apply (at_off kS sb (body sb) x HS Rs (not_eq_sym NAS)); auto. exists []. now rewrite app_nil_r.
  - intros n ph o Hin Ho. apply named_In in Hin as [Hin _]. pose proof (sel_ops ph Hin Rf o Ho) as K. split.
    + destruct o as [v|q|x]; cbn; try discriminate. cbn in K. apply (h_availAt kA ab _ _ (get_In_fst _ _ _ HA)) in K. destruct (H2 x K) as (v & -> & _). discriminate.
    + intros x Hx. destruct o as [v|q|y]; cbn in Hx; try tauto. destruct Hx as [<-|[]]. cbn in K. apply (avail_small kA ab (body ab) y HA); auto. exists []. now rewrite app_nil_r.
  - rewrite named_fst. apply seq_NoDup.
  - intros n ph Hin. now apply named_In in Hin.
  - auto.
  - exists e3, e4. split; auto. split.
    + cbn. rewrite Nat.eqb_refl, runBody_app, H1. fold sels. unfold sels. rewrite K1. reflexivity.
    + split; auto. split; auto. intros y Hy. apply K2. rewrite named_fst. intros K. apply in_seq in K. clear - K Hy. lia.
Qed.
Lemma phis_through e e3 e4 z p : forall l b, (forall n ph, In (n, ph) (named b l) -> e4 n = rd args e3 (chosen z ph)) ->
  (forall ph, In ph l -> chosen z ph = atInc p ph /\ rd args e3 (atInc p ph) = rd args e (atInc p ph)) -> forall vs,
  rdPhis args e p l = Some vs -> rdPhis args e4 kA (map (newPhi kA kS) (named b l)) = Some vs.
Proof using All. 
  induction l as [|ph l IH]; intros b H1 H2 vs H; [exact H|].
  assert (En : named b (ph :: l) = (b, ph) :: named (S b) l) by reflexivity. rewrite En in *. cbn [map]. cbn [rdPhis] in *.
  rewrite np_get_A. cbn [rd pdst newPhi snd]. rewrite (H1 b ph (or_introl eq_refl)). destruct (H2 ph (or_introl eq_refl)) as [-> ->].
  unfold atInc. destruct (get p (inc ph)) as [o|] eqn:Eo; [|discriminate]. destruct (rd args e o) as [v|]; [|discriminate].
  destruct (rdPhis args e p l) as [vs1|] eqn:Ev; [|discriminate]. rewrite (IH (S b)) with (vs := vs1); auto.
  - intros n ph' Hin. apply H1. now right.
  - intros ph' Hin. apply H2. now right.
Qed.
Lemma phis_same e p : p <> kA -> p <> kS -> forall l b, rdPhis args e p (map (newPhi kA kS) (named b l)) = rdPhis args e p l.
Proof using All. 
  intros N1 N2. induction l as [|ph l IH]; intros b; [reflexivity|].
  assert (En : named b (ph :: l) = (b, ph) :: named (S b) l) by reflexivity. rewrite En. cbn [map rdPhis].
  rewrite (np_get p b ph N1 N2), IH. reflexivity.
Qed.

Definition handed (s s' : st (W:=W)) : Prop :=
  (prev s' = prev s /\ ~ (cur s = kB /\ (prev s = Some kA \/ prev s = Some kS))) \/
  (cur s = kB /\ prev s' = Some kA /\ exists p, prev s = Some p /\
    forall vs, rdPhis args (en s) p (phis bb) = Some vs -> rdPhis args (en s') kA (phis (h kB bb)) = Some vs).
Definition Rel (s s' : st (W:=W)) : Prop :=
  cur s <> kA /\ cur s' = cur s /\ wd s' = wd s /\ (forall y, ~ off y -> en s y = en s' y) /\ hist f s /\ hist g s' /\ factsIn g Pg s' /\ handed s s'.
Lemma updAll_on (Q : nat -> Prop) vs : forall ea eb : env, (forall y, Q y -> ea y = eb y) -> forall y, Q y -> updAll ea vs y = updAll eb vs y.
Proof using All.
  induction vs as [|[x v] vs IH]; intros ea eb H y Hy; cbn; auto. apply IH; auto. intros z Hz. cbn. unfold upd. destruct (Nat.eqb z x); auto.
Qed.
Lemma rel_enter s s' bk e1 : Rel s s' -> get (cur s) f = Some bk -> enter args (en s) (prev s) (phis bk) = Some e1 ->
  exists e2, enter args (en s') (prev s') (phis (h (cur s) bk)) = Some e2 /\ forall y, ~ off y -> e1 y = e2 y.
Proof using All.
  intros (N & Ec & Ew & He & Hh & Hh' & F & Hp) Hb H. destruct Hp as [[Ep Np]|(Ek & Ep & p & Ep' & Hp)].
  - rewrite Ep. unfold enter in *. destruct (prev s) as [p|] eqn:Eps.
    + destruct (rdPhis args (en s) p (phis bk)) as [vs|] eqn:Ev; [|discriminate]. injection H as <-.
      destruct (hist_prev f s p Hh Eps) as (Rp & pb & Hpb & Hin). pose proof (hist_reach _ _ Hh) as R.
      assert (Na : p <> kA). { intros ->. assert (pb = ab) by congruence. subst pb. rewrite TA in Hin. destruct Hin as [K|[]]. apply Np. auto. }
      assert (Same : rdPhis args (en s') p (phis bk) = Some vs).
      { rewrite <- Ev. symmetry. apply rdPhis_at. intros ph o Hph Eo. apply get_In in Eo. destruct (proj1 (proj2 Hf) (cur s) bk Hb R) as (_ & _ & S3).
        apply (rd_off _ _ _ _ (S3 ph p o Hph Eo Rp)). intros x Hx. apply He. exact (out_off p x Rp Na Hx). }
      exists (updAll (en s') vs). split; [|intros y Hy; apply (updAll_on (fun y => ~ off y)); auto].
      cbn. destruct (Nat.eqb_spec (cur s) kB) as [Ek|Nk]; [|now rewrite Same]. rewrite phis_same, Same; auto. intros ->. apply Np. auto.
    + destruct (phis bk) eqn:Eph; [|discriminate]. injection H as <-. exists (en s'). split; auto. cbn. rewrite Eph. destruct (Nat.eqb (cur s) kB); reflexivity.
  - rewrite Ep'  in H. rewrite Ep. unfold enter in *. assert (bk = bb) by congruence. subst bk. rewrite Ek.
    destruct (rdPhis args (en s) p (phis bb)) as [vs|]; [|discriminate]. injection H as <-. rewrite (Hp vs eq_refl). cbn [option_map].
    exists (updAll (en s') vs). split; auto. intros y Hy. apply (updAll_on (fun y => ~ off y)); auto.
Qed.
Lemma rel_body k bk e1 e2 w : get k f = Some bk -> reach f k -> k <> kA -> (forall y, ~ off y -> e1 y = e2 y) ->
  match runBody m args e1 w (body bk), runBody m args e2 w (body bk) with
  | BGo a w1 t1, BGo b w2 t2 => (forall y, ~ off y \/ In y (map dst (body bk)) -> a y = b y) /\ w1 = w2 /\ t1 = t2
  | BHalt w1 t1, BHalt w2 t2 => w1 = w2 /\ t1 = t2
  | BBad t1, BBad t2 => t1 = t2
  | _, _ => False
  end.
Proof using All.
  intros Hk R N H. apply (agree_body (body bk) (fun y => ~ off y)); auto. intros pre i post E x Hx. left.
  destruct (proj1 (proj2 Hf) k bk Hk R) as (S1 & _). specialize (S1 pre i post E). apply (at_off k bk pre x Hk R N); [eauto|].
  apply in_flat_map in Hx as (o & Ho & Hx). rewrite Forall_forall in S1. specialize (S1 o Ho). destruct o; cbn in *; try tauto. destruct Hx as [<-|[]]. exact S1.
Qed.
Lemma rel_term k bk (e1 e2 : env) : get k f = Some bk -> reach f k -> k <> kA -> (forall y, ~ off y -> e1 y = e2 y) ->
  runTerm args e1 (trm bk) = runTerm args e2 (trm bk).
Proof using All.
  intros Hk R N H. destruct (proj1 (proj2 Hf) k bk Hk R) as (_ & S2 & _).
  assert (X : forall o, In o (termOps (trm bk)) -> rd args e1 o = rd args e2 o).
  { intros o Ho. rewrite Forall_forall in S2. apply (rd_off _ _ _ _ (S2 o Ho)). intros x Hx. apply H. apply (at_off k bk (body bk) x Hk R N); auto. exists []. now rewrite app_nil_r. }
  clear - X. destruct (trm bk) as [b|c0 a b|c0 cs d|[o|]|]; cbn in *; auto; rewrite X; auto.
Qed.

Lemma stepA e2 w z : reach f kA -> hist g (St kA (Some kS) e2 w) -> factsIn g Pg (St kA (Some kS) e2 w) -> rd args e2 c = Some (VInt z) ->
  exists e3 e4, runBody m args e2 w (body ab) = BGo e3 w [] /\ step m args g (St kA (Some kS) e2 w) = Go (St kB (Some kA) e4 w) [] /\
    (forall y, ~ off y -> e3 y = e2 y) /\ (forall y, y < base -> e4 y = e3 y) /\
    forall n ph, In (n, ph) (named base (phis bb)) -> e4 n = rd args e3 (chosen z ph).
Proof using All.
  intros Rf Hh F Hc. assert (HG : get kA g = Some (h kA ab)) by (rewrite ig_get, HA; reflexivity).
  assert (EP : phis (h kA ab) = []). { cbn. rewrite PA. destruct (Nat.eqb kA kB); reflexivity. }
  assert (F0 : factsAt g Pg kA (h kA ab) [] e2).
  { apply (facts_enter args g Pg D U pg_frame pg_dep pg_phi (St kA (Some kS) e2 w) (h kA ab) e2 Hh F HG). cbn [en prev]. unfold enter. now rewrite EP. }
  destruct (runAg e2 w z Rf (hist_reach _ _ Hh) F0 Hc) as (e3 & e4 & H1 & H2 & H3 & H4 & H5). exists e3, e4. split; auto. split; auto.
  unfold step. cbn [cur prev en wd]. rewrite HG. unfold runBlock, enter. rewrite EP. cbn [rdPhis option_map updAll fold_left]. rewrite H2, (h_trm kA ab NAS), TA. reflexivity.
Qed.
Lemma runA_f e1 e2 w e3 : reach f kA -> (forall y, ~ off y -> e1 y = e2 y) -> runBody m args e2 w (body ab) = BGo e3 w [] ->
  exists e, step m args f (St kA (Some kS) e1 w) = Go (St kB (Some kA) e w) [] /\ forall y, y < base -> e y = e3 y.
Proof using All.
  intros R H E. assert (K := agree_body (body ab) (fun y => ~ off y) e1 e2 w). rewrite E in K.
  destruct (runBody m args e1 w (body ab)) as [e w1 t1|w1 t1|t1] eqn:E1;
    (match type of K with ?P -> ?Q -> _ => assert (K1 : P); [|specialize (K K1 H)] end;
    [intros pre i post Eb x Hx; destruct (proj1 (proj2 Hf) kA ab HA R) as (S1 & _); specialize (S1 pre i post Eb);
      apply in_flat_map in Hx as (o & Ho & Hx); rewrite Forall_forall in S1; specialize (S1 o Ho); destruct o; cbn in S1, Hx; try tauto; destruct Hx as [<-|[]];
      destruct S1 as [S1|[S1|S1]]; [left; now apply in_off|rewrite PA in S1; destruct S1|now right]|]); try contradiction.
  destruct K as (K & -> & ->). exists e. split.
  - unfold step. cbn [cur prev en wd]. rewrite HA. unfold runBlock, enter. rewrite PA. cbn [rdPhis option_map updAll fold_left]. rewrite E1, TA. reflexivity.
  - intros y Hy. apply K. destruct (in_dec Nat.eq_dec y (map dst (body ab))) as [I|I]; auto. left. intros [L|L]; auto. clear - L Hy. lia.
Qed.
Lemma small_rd (P : nat -> Prop) (ea eb : env) o : (forall x, P x -> x < base) -> (forall y, y < base -> ea y = eb y) -> opAvail P o -> rd args ea o = rd args eb o.
Proof using All. intros H K Ho. apply (rd_off P); auto. Qed.
Lemma rel_meets s s' : Sim.safe (step m args f) s -> Rel s s' -> meets (step m args f) (step m args g) Rel s s'.
Proof using All.
  intros Hs HR. pose proof HR as (N & Ec & Ew & He & Hh & Hh' & F & Hp). pose proof (hist_reach _ _ Hh) as R.
  assert (NB : forall t, step m args f s <> Bad t). { intros t Et. apply (Hs 1 t). cbn. now rewrite Et. }
  destruct (get (cur s) f) as [bk|] eqn:Hb. 2:{ exfalso. apply (NB []). unfold step. now rewrite Hb. }
  destruct (enter args (en s) (prev s) (phis bk)) as [e1|] eqn:Ee. 2:{ exfalso. apply (NB []). unfold step, runBlock. now rewrite Hb, Ee. }
  destruct (rel_enter s s' bk e1 HR Hb Ee) as (e2 & Ee2 & A1).
  assert (HG : get (cur s') g = Some (h (cur s) bk)) by (rewrite Ec, ig_get, Hb; reflexivity).
  assert (Eh : body (h (cur s) bk) = body bk). { cbn. destruct (Nat.eqb_spec (cur s) kA); [contradiction|reflexivity]. }
  pose proof (rel_body (cur s) bk e1 e2 (wd s) Hb R N A1) as KB.
  assert (Sf : step m args f s = match runBody m args e1 (wd s) (body bk) with BBad t => Bad t | BHalt w1 t => Fin (Exit w1) t
    | BGo ea w1 t => match runTerm args ea (trm bk) with TGo b' => Go (St b' (Some (cur s)) ea w1) t | TFin v => Fin (Ret v w1) t | TBad => Bad t end end).
  { unfold step, runBlock. now rewrite Hb, Ee. }
  assert (Sg : step m args g s' = match runBody m args e2 (wd s) (body bk) with BBad t => Bad t | BHalt w1 t => Fin (Exit w1) t
    | BGo ea w1 t => match runTerm args ea (trm (h (cur s) bk)) with TGo b' => Go (St b' (Some (cur s)) ea w1) t | TFin v => Fin (Ret v w1) t | TBad => Bad t end end).
  { unfold step, runBlock. now rewrite HG, Ee2, Eh, Ew, Ec. }
  destruct (runBody m args e1 (wd s) (body bk)) as [ea w1 t1|w1 t1|t1] eqn:R1; destruct (runBody m args e2 (wd s) (body bk)) as [eb w2 t2|w2 t2|t2] eqn:R2; try contradiction.
  2:{ destruct KB as (-> & ->). apply meets1. rewrite Sf, Sg. auto. }
  2:{ exfalso. exact (NB _ Sf). }
  destruct KB as (KB & <- & <-). assert (A2 : forall y, ~ off y -> ea y = eb y) by auto.
  destruct (Nat.eq_dec (cur s) kS) as [Ek|Nk].
  2:{ rewrite (h_trm _ _ Nk) in Sg. rewrite <- (rel_term (cur s) bk ea eb Hb R N A2) in Sg. apply meets1.
    destruct (runTerm args ea (trm bk)) as [b'|v|] eqn:Et; [|rewrite Sf, Sg; auto|exfalso; exact (NB _ Sf)].
    pose proof (hist_step _ _ _ _ _ _ Hh Sf) as Hh1. pose proof (hist_step _ _ _ _ _ _ Hh' Sg) as Hh2.
    pose proof (facts_step m args g Pg D U pg_frame pg_dep pg_phi pg_body s' _ _ Hh' F Sg) as F2. rewrite Sf, Sg. split; auto.
    split; [|split; [|split; [|split; [|split; [|split; [|split]]]]]]; auto.
    - cbn. intros ->. apply Nk. apply (Pred (cur s) bk Hb). eapply runTerm_succs; eauto.
    - left. cbn. split; auto. intros (_ & [K|K]); injection K as K; auto. }
  assert (bk = sb) by congruence. subst bk. rewrite Ek in Sf, Sg. cbn [h ifcBlock trm] in Sg. rewrite Nat.eqb_refl in Sg. cbn [runTerm] in Sg.
  assert (Rs : reach f kS) by (rewrite <- Ek; exact R).
  assert (Ra : reach f kA). { eapply succ_reach; [exact Rs|exact HS|apply succS; auto]. }
  assert (Cc : opAvail (availAt f kS sb (body sb)) c).
  { destruct (proj1 (proj2 Hf) kS sb HS Rs) as (_ & S2 & _). rewrite TS in S2. clear - S2. rewrite Forall_forall in S2. apply S2. destruct onTrue; now left. }
  assert (Ec2 : rd args eb c = rd args ea c).
  { symmetry. apply (rd_off _ _ _ _ Cc). intros x Hx. apply A2. apply (at_off kS sb (body sb) x HS Rs (not_eq_sym NAS)); auto. exists []. now rewrite app_nil_r. }
  assert (Z : exists z, rd args ea c = Some (VInt z) /\ runTerm args ea (trm sb) = TGo (if Z.eqb z 0 then (if onTrue then kB else kA) else (if onTrue then kA else kB))).
  { rewrite TS in Sf |- *. clear - Sf NB. destruct onTrue; cbn [runTerm] in *; destruct (rd args ea c) as [[z|u|]|]; cbn [truth] in *;
      try (exfalso; exact (NB _ Sf)); exists z; split; auto; destruct (Z.eqb z 0); reflexivity. }
  destruct Z as (z & Ez & Et). rewrite Et in Sf. rewrite Ez in Ec2.
  pose proof (hist_step _ _ _ _ _ _ Hh' Sg) as Hh2. pose proof (hist_step _ _ _ _ _ _ Hh Sf) as Hh1.
  pose proof (facts_step m args g Pg D U pg_frame pg_dep pg_phi pg_body s' _ _ Hh' F Sg) as F2.
  destruct (stepA eb w1 z Ra Hh2 F2 Ec2) as (e3 & e4 & H1 & H2 & H3 & H4 & H5).
  pose proof (hist_step _ _ _ _ _ _ Hh2 H2) as Hh3. pose proof (facts_step m args g Pg D U pg_frame pg_dep pg_phi pg_body _ _ _ Hh2 F2 H2) as F3.
  assert (Rb : reach f kB). { eapply succ_reach; [exact Rs|exact HS|apply succS; auto]. }
  assert (S3 : forall ph p o, In ph (phis bb) -> In (p, o) (inc ph) -> reach f p -> opAvail (availOut f p) o) by (destruct (proj1 (proj2 Hf) kB bb HB Rb) as (_ & _ & S3); exact S3).
  assert (O4 : forall y, ~ off y -> ea y = e4 y). { intros y Hy. rewrite (H4 y (proj1 (off_small y Hy))), (H3 y Hy). auto. }
  assert (Eph : phis (h kB bb) = map (newPhi kA kS) (named base (phis bb))) by (cbn; now rewrite Nat.eqb_refl).
  destruct (Bool.bool_dec (Z.eqb z 0) onTrue) as [Eo|No].
  - (* straight to [kB] *)
    assert (Tb : (if Z.eqb z 0 then (if onTrue then kB else kA) else (if onTrue then kA else kB)) = kB) by (rewrite Eo; clear; destruct onTrue; reflexivity).
    rewrite Tb in Sf, Hh1. exists 1, 2. split; [lia|]. split; [lia|]. cbn [run]. rewrite Sf, Sg, H2. cbn. split; [now rewrite !app_nil_r|].
    split; [|split; [|split; [|split; [|split; [|split; [|split]]]]]]; auto.
    right. cbn [cur prev en]. split; auto. split; auto. exists kS. split; auto. intros vs Hvs. rewrite Eph.
    apply (phis_through ea e3 e4 z kS (phis bb) base H5); auto. intros ph Hph. split.
    + unfold chosen. rewrite Eo. unfold t', e'. clear. destruct onTrue; reflexivity.
    + destruct (phi_has ph kS Hph) as [o Eo']; auto. unfold atInc. rewrite Eo'. apply get_In in Eo'.
      apply (rd_off _ _ _ _ (S3 ph kS o Hph Eo' Rs)). intros x Hx. pose proof (out_off kS x Rs (not_eq_sym NAS) Hx) as Nx. rewrite (H3 x Nx). symmetry. auto.
  - (* through [kA] *)
    assert (Tb : (if Z.eqb z 0 then (if onTrue then kB else kA) else (if onTrue then kA else kB)) = kA) by (clear - No; destruct (Z.eqb z 0), onTrue; congruence).
    rewrite Tb in Sf, Hh1. destruct (runA_f ea eb w1 e3 Ra A2 H1) as (e & Sf2 & Es). pose proof (hist_step _ _ _ _ _ _ Hh1 Sf2) as Hh4.
    exists 2, 2. split; [lia|]. split; [lia|]. cbn [run]. rewrite Sf, Sf2, Sg, H2. cbn. split; auto.
    split; [|split; [|split; [|split; [|split; [|split; [|split]]]]]]; auto.
    + intros y Hy. cbn. rewrite (Es y), (H4 y); auto; apply off_small; auto.
    + right. cbn [cur prev en]. split; auto. split; auto. exists kA. split; auto. intros vs Hvs. rewrite Eph.
      apply (phis_through e e3 e4 z kA (phis bb) base H5); auto. intros ph Hph. split.
      * unfold chosen, t', e'. clear - No. destruct (Z.eqb z 0), onTrue; congruence.
      * destruct (phi_has ph kA Hph) as [o Eo']; auto. unfold atInc. rewrite Eo'. apply get_In in Eo'.
        apply (rd_off _ _ _ _ (S3 ph kA o Hph Eo' Ra)). intros x Hx. symmetry. apply Es. apply (avail_small kA ab (body ab) x HA); [exists []; now rewrite app_nil_r|now apply availOut_at].
Qed.
Theorem ig_refinesAt w : refinesAt (step m args f) (step m args g) (start f w) (start g w).
Proof using All.
  apply (sim_refines _ _ Rel rel_meets). unfold start. rewrite ig_entry. split; [cbn; auto|]. split; auto. split; auto. split; auto.
  split; [apply (hist_start f)|]. split; [rewrite <- ig_entry; apply (hist_start g)|]. split; [exact I|]. left. cbn. split; auto. intros (_ & [K|K]); discriminate.
Qed.
End Sim.
End Ifc.

(** ** the whole pass *)
(** [preds] lists every edge of [f], and maybe more *)
Definition predsOver (preds : nat -> list nat) (f : func) : Prop := forall k bk t, get k f = Some bk -> In t (succs (trm bk)) -> In k (preds t).
Lemma predsIn_over f : predsOver (predsIn f) f.
Proof.
  intros k bk t Hk Ht. unfold predsIn. apply in_map_iff. exists (k, bk). split; auto. apply filter_In. split; [now apply get_In|]. now apply inb_iff.
Qed.
Section Pass.
Variables (knd : nat -> kind) (glob : value -> bool) (sel : nat).
Hypothesis Hpure : knd sel = KPure.
Lemma canFold_inv f k bk t : canFold knd glob f k bk = Some t -> phis bk = [] /\ trm bk = TBr t /\ k <> t /\ forall i, In i (body bk) -> foldable knd glob f i = true.
Proof.
  unfold canFold. destruct (phis bk); [|discriminate]. destruct (trm bk) as [b| | | |]; try discriminate.
  destruct (_ && _ && _ && _) eqn:E; [|discriminate]. intros H. injection H as <-. apply andb_prop in E as [E _]. apply andb_prop in E as [E E1]. apply andb_prop in E as [_ E2].
  split; auto. split; auto. split; [intros ->; rewrite Nat.eqb_refl in E2; discriminate|]. apply forallb_forall. exact E1.
Qed.
Definition goodIfc (preds : nat -> list nat) (f f2 : func) : Prop :=
  wfs f -> entryNoPred f -> predsOver preds f -> refinesSel knd glob sel f f2 /\ wfs f2 /\ entryNoPred f2 /\ predsOver preds f2.
Lemma goodIfc_refl preds f : goodIfc preds f f.
Proof. intros A B C. split; auto using refinesSel_refl. Qed.
Lemma ifcOne_good preds f kA : goodIfc preds f (ifcOne knd glob sel preds f kA).
Proof using Hpure.
  unfold ifcOne. destruct (get kA f) as [ab|] eqn:HA; [|apply goodIfc_refl]. destruct (canFold knd glob f kA ab) as [kB|] eqn:CF; [|apply goodIfc_refl].
  destruct (preds kA) as [|kS [|? ?]] eqn:EP; try apply goodIfc_refl. destruct (get kS f) as [sb|] eqn:HS; [|apply goodIfc_refl].
  destruct (get kB f) as [bb|] eqn:HB; [|apply goodIfc_refl]. destruct (trm sb) as [|c t e| | |] eqn:TS; try apply goodIfc_refl.
  destruct (phis bb) as [|p0 ps] eqn:Eph; [apply goodIfc_refl|]. destruct (_ || _) eqn:E; [|apply goodIfc_refl].
  intros Hf Hen Hp. apply canFold_inv in CF as (PA & TA & NAB & FA).
  assert (Pred : forall k bk, get k f = Some bk -> In kA (succs (trm bk)) -> k = kS).
  { intros k bk Hk Hin. pose proof (Hp k bk kA Hk Hin) as K. rewrite EP in K. destruct K as [K|[]]. auto. }
  set (on := Nat.eqb t kA).
  assert (TS' : trm sb = if on then TCond c kA kB else TCond c kB kA).
  { rewrite TS. unfold on. apply orb_prop in E as [E|E]; apply andb_prop in E as [E1 E2]; apply Nat.eqb_eq in E1, E2; rewrite E1, E2.
    - now rewrite Nat.eqb_refl.
    - destruct (Nat.eqb_spec kB kA); congruence. }
  assert (T1 : (if Nat.eqb t kB then kS else t) = (if on then kA else kS) /\ (if Nat.eqb t kB then e else kS) = (if on then kS else kA)).
  { unfold on. apply orb_prop in E as [E|E]; apply andb_prop in E as [E1 E2]; apply Nat.eqb_eq in E1, E2; rewrite E1, E2.
    - rewrite Nat.eqb_refl. destruct (Nat.eqb_spec kA kB); [contradiction|auto].
    - rewrite Nat.eqb_refl. destruct (Nat.eqb_spec kB kA); [congruence|auto]. }
  destruct T1 as [T1 T2]. rewrite T1, T2, <- Eph.
  assert (InA : In kA (succs (trm sb))) by (rewrite TS'; destruct on; cbn; auto).
  assert (NE : kA <> entry f). { intros ->. exact (Hen kS sb HS InA). }
  set (f2 := map _ f).
  assert (W2 : wfs f2) by exact (ig_wfs knd glob sel f kA kS kB ab sb bb c on Hf HA HS HB PA TA NAB FA TS' Pred NE).
  assert (Gf : forall k bk x, get k f2 = Some bk -> In x (succs (trm bk)) -> exists bk1, get k f = Some bk1 /\ In x (succs (trm bk1))).
  { intros k bk x Hk Hx. unfold f2 in Hk. rewrite (get_mapk (ifcBlock sel (freshBase f) kA kS kB c (if on then kA else kS) (if on then kS else kA) (phis bb))) in Hk.
    destruct (get k f) as [bk1|] eqn:Ek; [|discriminate]. injection Hk as <-. exists bk1. split; auto.
    exact (ig_succ sel f kA kS kB sb bb c on HS TS' k bk1 x Ek Hx). }
  split; [|split; [exact W2|split]].
  - intros W m args w OK Hsel Hslot. exact (ig_refinesAt knd glob sel f kA kS kB ab sb bb c on Hf HA HS HB PA TA NAB FA TS' Pred NE m args OK Hsel Hpure Hslot w).
  - unfold entryNoPred in *. intros k bk Hk Hin. destruct (Gf k bk _ Hk Hin) as (bk1 & A & B). apply (Hen k bk1 A).
    unfold f2 in B. rewrite (entry_mapk (ifcBlock sel (freshBase f) kA kS kB c (if on then kA else kS) (if on then kS else kA) (phis bb))) in B. exact B.
  - intros k bk x Hk Hx. destruct (Gf k bk x Hk Hx) as (bk1 & A & B). exact (Hp k bk1 x A B).
Qed.
Theorem branch2Select_good f : wfs f -> entryNoPred f ->
  refinesSel knd glob sel f (branch2Select knd glob sel f) /\ wfs (branch2Select knd glob sel f) /\ entryNoPred (branch2Select knd glob sel f).
Proof using Hpure.
  intros Hf He. unfold branch2Select. assert (X : forall l f1, refinesSel knd glob sel f f1 -> wfs f1 -> entryNoPred f1 -> predsOver (predsIn f) f1 ->
    let f2 := fold_left (ifcOne knd glob sel (predsIn f)) l f1 in refinesSel knd glob sel f f2 /\ wfs f2 /\ entryNoPred f2).
  { induction l as [|k l IH]; intros f1 R1 W1 E1 P1; cbn; auto. destruct (ifcOne_good (predsIn f) f1 k W1 E1 P1) as (A & B & C & D). apply IH; auto. eapply refinesSel_trans; eauto. }
  apply X; auto using refinesSel_refl, predsIn_over.
Qed.
End Pass.
