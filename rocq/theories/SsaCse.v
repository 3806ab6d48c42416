(** SimpleCSE, ConstantPropagation's treatment of phis and PhiEliminate. *)
From Coq Require Import ZArith Lia Bool List Arith.
From Verif Require Import Sim Ssa SsaCfg SsaMerge SsaFwd SsaFwd2 SsaWf SsaDom SsaProps SsaSub SsaVerify SsaEq SsaPhi.
Import ListNotations.

(** ** the passes *)
Definition phiIn (f : func) (b x : nat) : option phi :=
  match get b f with Some bk => find (fun ph => Nat.eqb (pdst ph) x) (phis bk) | None => None end.
Definition instIn (f : func) (b x : nat) : option inst :=
  match get b f with Some bk => find (fun i => Nat.eqb (dst i) x) (body bk) | None => None end.
Fixpoint opnds_eqb (l l' : list opnd) : bool :=
  match l, l' with [], [] => true | o :: l1, o' :: l1' => opnd_eqb o o' && opnds_eqb l1 l1' | _, _ => false end.
(** cmmc/Transforms/Merge/CSE.cpp:41-52 InstEqual.  Constants are compared by value and without their type here, by address there *)
Definition instEq (i j : inst) : bool := Nat.eqb (opc i) (opc j) && opnds_eqb (ops i) (ops j).
(** lines 55-82 instMerge, first the phis; [seen] is phiList *)
Fixpoint csePhis (b : nat) (names seen : list nat) (f : func) : func :=
  match names with
  | [] => f
  | x :: names' =>
    match phiIn f b x with
    | None => f
    | Some px =>
      match find (fun z => match phiIn f b z with Some pz => phiEq px pz | None => false end) seen with
      | Some z => csePhis b names' seen (replaceWith x (ORes z) f)
      | None => csePhis b names' (seen ++ [x]) f
      end
    end
  end.
(** then the other instructions; [lut] is the hash table, searched by comparison *)
Fixpoint cseBody (knd : nat -> kind) (b : nat) (names lut : list nat) (f : func) : func :=
  match names with
  | [] => f
  | x :: names' =>
    match instIn f b x with
    | None => f
    | Some i =>
      if isMovable knd (opc i)
      then match find (fun z => match instIn f b z with Some j => instEq i j | None => false end) lut with
           | Some z => cseBody knd b names' lut (replaceWith x (ORes z) f)
           | None => cseBody knd b names' (lut ++ [x]) f
           end
      else cseBody knd b names' lut f
    end
  end.
Definition cse1 (knd : nat -> kind) (f : func) (b : nat) : func :=
  match get b f with
  | Some bk => cseBody knd b (map dst (body bk)) [] (csePhis b (map pdst (phis bk)) [] f)
  | None => f
  end.
(** lines 85-92 *)
Definition simpleCSE (knd : nat -> kind) (f : func) : func := fold_left (cse1 knd) (map fst f) f.

(** cmmc/Transforms/Combine/ConstantPropagation.cpp:37-63 reduceConstantPhis, one phi *)
Definition phiValue (ph : phi) : option opnd :=
  match filter (fun o => negb (opnd_eqb o (ORes (pdst ph)))) (map snd (inc ph)) with
  | [] => None
  | v :: l => if forallb (opnd_eqb v) l then Some v else None
  end.
Definition reducePhi (b : nat) (f : func) (x : nat) : func :=
  match phiIn f b x with
  | Some ph => match phiValue ph with Some v => replaceWith x v f | None => f end
  | None => f
  end.
Definition reducePhis1 (f : func) (b : nat) : func :=
  match get b f with Some bk => fold_left (reducePhi b) (map pdst (phis bk)) f | None => f end.
(** line 279-280; [order] is dom.blocks() *)
Definition reduceConstantPhis (order : list nat) (f : func) : func := fold_left reducePhis1 order f.

(** cmmc/Transforms/DCE/PhiEliminate.cpp:83-140.  [sccs f set]: the strongly connected components of the graph of the phis in
    [set] and their operands, in the order of lines 89-90 (calcSubgraphSCC).  The results below hold for any grouping.
    [fuel] bounds the nesting of lines 121 and 90: each level is a proper subset of the one above. *)
Definition phiOf (f : func) (x : nat) : option phi := find (fun ph => Nat.eqb (pdst ph) x) (flat_map (fun b => phis (snd b)) f).
Definition isOuter (scc : list nat) (o : opnd) : bool := match o with ORes q => negb (inb q scc) | _ => true end.
Definition outerOf (f : func) (scc : list nat) (x : nat) : list opnd :=
  match phiOf f x with Some ph => filter (isOuter scc) (map snd (inc ph)) | None => [] end.
Definition inScc (scc : list nat) (rep : opnd) (x : nat) : option opnd := if inb x scc then Some rep else None.
Section PhiElim.
Variable sccs : func -> list nat -> list (list nat).
Fixpoint removeRedundant (fuel : nat) (set : list nat) (f : func) : func :=
  match fuel with
  | O => f
  | S n =>
    match set with
    | [] => f
    | _ =>
      fold_left (fun g scc =>
        if Nat.leb (length scc) 1 then g
        else if negb (forallb (fun x => match phiOf g x with Some _ => true | None => false end) scc) then g
        else match flat_map (outerOf g scc) scc with
             | [] => g
             | rep :: outer =>
               if forallb (opnd_eqb rep) outer then subst (subOp (inScc scc rep)) g
               else removeRedundant n (filter (fun x => match outerOf g scc x with [] => true | _ => false end) scc) g
             end) (sccs f set) f
    end
  end.
Definition phiEliminate (f : func) : func :=
  let ps := flat_map (fun b => map pdst (phis (snd b))) f in removeRedundant (S (length ps)) ps f.
End PhiElim.

(** ** proofs *)
(** well-formed with operands available where they are read *)
Definition wfs (f : func) : Prop := wf f /\ ssa f /\ entryNoPhi f.
Definition good (knd : nat -> kind) (f g : func) : Prop := refines knd f g /\ wfs g.
Lemma good_trans knd f g h : good knd f g -> (wfs g -> good knd g h) -> good knd f h.
Proof. intros [A B] H. destruct (H B) as [C D]. split; auto. eapply refines_trans; eauto. Qed.
Lemma good_refl knd f : wfs f -> good knd f f.
Proof. split; auto. apply refines_refl. Qed.
Lemma good_fold {A} knd (g : func -> A -> func) l : (forall f a, wfs f -> good knd f (g f a)) -> forall f, wfs f -> good knd f (fold_left g l f).
Proof.
  intros H. induction l as [|a l IH]; intros f Hf; [now apply good_refl|]. cbn. eapply good_trans; [apply H; exact Hf|]. apply IH.
Qed.

Lemma subst_ext h h' f : (forall o, h o = h' o) -> subst h f = subst h' f.
Proof.
  intros H. apply map_ext. intros [b bk]. f_equal. unfold mapOps. cbn. f_equal.
  - apply map_ext. intros ph. f_equal. apply map_ext. intros [p o]. cbn. now rewrite H.
  - apply map_ext. intros i. f_equal. apply map_ext. exact H.
  - destruct (trm bk) as [t|c t e|c cs d|[v|]|]; rewrite ?H; reflexivity.
Qed.
Lemma entryNoPhi_subst h f : entryNoPhi f -> entryNoPhi (subst h f).
Proof.
  intros H bk. assert (E : entry (subst h f) = entry f) by (destruct f as [|[? ?] ?]; reflexivity). rewrite E, get_subst.
  destruct (get (entry f) f) as [bk0|] eqn:Eb; [|discriminate]. intros [= <-]. cbn. now rewrite (H bk0 Eb).
Qed.
Lemma wfs_subOp r f : wfs f -> (forall x o y, r x = Some o -> In y (res_of o) -> before f x y) -> wfs (subst (subOp r) f).
Proof.
  intros (Hw & Hs & He) H. split; [now apply wf_subst|]. split; [|now apply entryNoPhi_subst].
  apply ssa_subOp; auto; apply Hw.
Qed.
Lemma phiAll_R f : phiAll f -> phiAllR f.
Proof. intros H b bk ph p pb _ _ Hb Hph Hp Hs. exact (H b bk ph p pb Hb Hph Hp Hs). Qed.

Lemma opnds_eqb_eq l : forall l', opnds_eqb l l' = true -> l = l'.
Proof.
  induction l as [|o l IH]; intros [|o' l']; cbn; try discriminate; auto. rewrite andb_true_iff. intros [H1 H2].
  destruct (opnd_eqb_spec o o'); [|discriminate]. f_equal; auto.
Qed.
Lemma eqvs_refl knd f l : eqvs knd f l l.
Proof. induction l; constructor; auto. constructor. Qed.
Lemma same_inst_ok knd f x z i j : wfs f -> defOf f x = Some i -> defOf f z = Some j -> isMovable knd (opc i) = true -> instEq i j = true ->
  before f x z -> good knd f (replaceWith x (ORes z) f).
Proof.
  intros Hf Hi Hj Hm He Hb. unfold instEq in He. apply andb_true_iff in He as [He1 He2]. apply Nat.eqb_eq in He1. apply opnds_eqb_eq in He2.
  split.
  - unfold replaceWith. rewrite (subst_ext _ (subRes (fun y => if Nat.eqb y x then z else y))).
    + apply eqv_subst_ok; [apply Hf|apply Hf|]. intros y. destruct (Nat.eqb_spec y x) as [->|]; auto. right. split; auto.
      eapply eqv_inst; eauto. rewrite He2. apply eqvs_refl.
    + intros [c|n|y]; cbn; auto. unfold oneOp. destruct (Nat.eqb y x); reflexivity.
  - apply wfs_subOp; auto. intros y o u. unfold oneOp. destruct (Nat.eqb_spec y x) as [->|]; [|discriminate]. intros [= <-] [<-|[]]. exact Hb.
Qed.
Lemma same_phi_ok knd f b bk px pz : wfs f -> get b f = Some bk -> In px (phis bk) -> In pz (phis bk) -> phiEq px pz = true ->
  good knd f (replaceWith (pdst px) (ORes (pdst pz)) f).
Proof.
  intros Hf Hb Hx Hz He. split.
  - eapply phi_same_ok; eauto; apply Hf.
  - apply wfs_subOp; auto. intros y o u. unfold oneOp. destruct (Nat.eqb_spec y (pdst px)) as [->|]; [|discriminate]. intros [= <-] [<-|[]].
    eapply phi_same_before; eauto. apply Hf.
Qed.

Lemma phiIn_spec f b x ph : phiIn f b x = Some ph -> exists bk, get b f = Some bk /\ In ph (phis bk) /\ pdst ph = x.
Proof.
  unfold phiIn. destruct (get b f) as [bk|]; [|discriminate]. intros H. apply find_some in H as [H1 H2]. apply Nat.eqb_eq in H2. eauto.
Qed.
Lemma instIn_spec f b x i : instIn f b x = Some i -> exists bk, get b f = Some bk /\ In i (body bk) /\ dst i = x.
Proof.
  unfold instIn. destruct (get b f) as [bk|]; [|discriminate]. intros H. apply find_some in H as [H1 H2]. apply Nat.eqb_eq in H2. eauto.
Qed.
Lemma csePhis_ok knd b names : forall seen f, wfs f -> good knd f (csePhis b names seen f).
Proof.
  induction names as [|x names IH]; intros seen f Hf; cbn; [now apply good_refl|].
  destruct (phiIn f b x) as [px|] eqn:Ex; [|now apply good_refl].
  destruct (find _ seen) as [z|] eqn:Ez; [|now apply IH].
  apply find_some in Ez as [_ Ez]. destruct (phiIn f b z) as [pz|] eqn:Epz; [|discriminate].
  apply phiIn_spec in Ex as (bk & Hb & Hx & <-). apply phiIn_spec in Epz as (bk' & Hb' & Hz & <-). assert (bk' = bk) by congruence. subst bk'.
  eapply good_trans; [exact (same_phi_ok knd f b bk px pz Hf Hb Hx Hz Ez)|]. apply IH.
Qed.
(** the names of the results of a block do not change *)
Definition dstsAt (f : func) (b : nat) : option (list nat) := option_map (fun bk => map dst (body bk)) (get b f).
Lemma dstsAt_subst h f b : dstsAt (subst h f) b = dstsAt f b.
Proof. unfold dstsAt. rewrite get_subst. destruct (get b f) as [bk|]; cbn; auto. now rewrite map_map. Qed.
Lemma csePhis_dsts b names : forall seen f b', dstsAt (csePhis b names seen f) b' = dstsAt f b'.
Proof.
  induction names as [|x names IH]; intros seen f b'; cbn; auto. destruct (phiIn f b x); auto. destruct (find _ seen); auto.
  rewrite IH. apply dstsAt_subst.
Qed.
Lemma cseBody_ok knd b names : forall done lut f, wfs f -> dstsAt f b = Some (done ++ names) -> incl lut done ->
  good knd f (cseBody knd b names lut f).
Proof.
  induction names as [|x names IH]; intros done lut f Hf Hd Hl; cbn; [now apply good_refl|].
  assert (Hd' : forall g, dstsAt g b = dstsAt f b -> dstsAt g b = Some ((done ++ [x]) ++ names)) by (intros g ->; rewrite <- app_assoc; exact Hd).
  assert (Hl' : incl lut (done ++ [x])) by (intros y Hy; apply in_or_app; left; auto).
  destruct (instIn f b x) as [i|] eqn:Ei; [|now apply good_refl].
  destruct (isMovable knd (opc i)) eqn:Em; [|exact (IH (done ++ [x]) lut f Hf (Hd' f eq_refl) Hl')].
  destruct (find _ lut) as [z|] eqn:Ez.
  - apply find_some in Ez as [Hz Ez]. destruct (instIn f b z) as [j|] eqn:Ej; [|discriminate].
    apply instIn_spec in Ei as (bk & Hb & Hi & Hix). apply instIn_spec in Ej as (bk' & Hb' & Hj & Hjz). assert (bk' = bk) by congruence. subst bk'.
    assert (U : uniqueDefs f) by apply Hf.
    assert (Di : defOf f x = Some i) by (apply in_split in Hi as (p & q & E); eapply defOf_body; eauto).
    assert (Dj : defOf f z = Some j) by (apply in_split in Hj as (p & q & E); eapply defOf_body; eauto).
    assert (Bf : before f x z).
    { intros d bkd Hbd R Hxd. destruct (defOf_block f x i d bkd U Di Hbd Hxd) as (_ & p & q & E).
      assert (d = b). { eapply (results_unique f d bkd b bk x); eauto. apply in_or_app. right. rewrite <- Hix. now apply in_map. }
      subst d. assert (bkd = bk) by congruence. subst bkd. right. right.
      unfold dstsAt in Hd. rewrite Hb in Hd. cbn in Hd. injection Hd as Hd. apply map_eq_app in Hd as (l1 & l2 & E1 & E2 & E3).
      destruct l2 as [|i2 l2]; [discriminate|]. cbn in E3. injection E3 as E3 E4. exists l1, i2, l2. split; auto. split; auto. right. rewrite E2. auto. }
    eapply good_trans; [exact (same_inst_ok knd f x z i j Hf Di Dj Em Ez Bf)|]. intros Hg. apply (IH (done ++ [x])); auto. apply Hd'. apply dstsAt_subst.
  - apply (IH (done ++ [x])); auto. intros y Hy. apply in_app_or in Hy as [Hy|[<-|[]]]; apply in_or_app; auto. right. now left.
Qed.
Theorem simpleCSE_ok knd f : wfs f -> good knd f (simpleCSE knd f).
Proof.
  intros Hf. apply good_fold; auto. clear f Hf. intros f b Hf. unfold cse1. destruct (get b f) as [bk|] eqn:Eb; [|now apply good_refl].
  eapply good_trans; [now apply csePhis_ok|]. intros Hg. apply (cseBody_ok knd b _ []); auto.
  - rewrite csePhis_dsts. unfold dstsAt. now rewrite Eb.
  - intros y [].
Qed.

(** *** groups *)
Lemma phiOf_block f x b bk : uniqueDefs f -> get b f = Some bk -> In x (resultsOf bk) -> forall ph, phiOf f x = Some ph ->
  In ph (phis bk) /\ pdst ph = x.
Proof.
  intros U Hb Hx ph H. unfold phiOf in H. apply find_some in H as [H1 H2]. apply Nat.eqb_eq in H2. split; auto.
  apply in_flat_map in H1 as ([d bk'] & Hin & Hph). cbn in Hph.
  assert (Hd : get d f = Some bk') by (apply In_get; [apply U|auto]).
  assert (d = b). { eapply (results_unique f d bk' b bk x); eauto. apply in_or_app. left. rewrite <- H2. now apply in_map. }
  subst. congruence.
Qed.
Lemma phiOf_In f b bk ph : uniqueDefs f -> get b f = Some bk -> In ph (phis bk) -> phiOf f (pdst ph) = Some ph.
Proof.
  intros U Hb Hph. destruct (phiOf f (pdst ph)) as [q|] eqn:E.
  - destruct (phiOf_block f (pdst ph) b bk U Hb) with (ph := q) as [Hq Eq]; auto. { apply in_or_app. left. now apply in_map. }
    f_equal. pose proof (phis_NoDup f b bk U Hb) as N. clear -N Hq Hph Eq. induction (phis bk) as [|a l IH]; [destruct Hq|].
    cbn in N. inversion N as [|? ? N1 N2]; subst. destruct Hq as [->|Hq], Hph as [->|Hph]; auto; exfalso; apply N1.
    + rewrite Eq. now apply in_map.
    + rewrite <- Eq. now apply in_map.
  - exfalso. unfold phiOf in E. pose proof (find_none _ _ E ph) as K. cbn in K. rewrite Nat.eqb_refl in K.
    assert (true = false); [|discriminate]. apply K. apply in_flat_map. exists (b, bk). split; [now apply get_In|auto].
Qed.
Lemma inb_In x l : inb x l = true <-> In x l.
Proof. apply existsb_In. Qed.
Lemma scc_ok knd f scc rep outer : wfs f -> (forall x, In x scc -> phiOf f x <> None) ->
  flat_map (outerOf f scc) scc = rep :: outer -> forallb (opnd_eqb rep) outer = true -> good knd f (subst (subOp (inScc scc rep)) f).
Proof.
  intros Hf Hp Ho Hall. assert (U : uniqueDefs f) by apply Hf. rewrite forallb_forall in Hall.
  assert (HS : forall b bk ph p o, get b f = Some bk -> In ph (phis bk) -> inb (pdst ph) scc = true -> In (p, o) (inc ph) ->
     o = rep \/ exists q, o = ORes q /\ inb q scc = true).
  { intros b bk ph p o Hb Hph Hin Hi. destruct (isOuter scc o) eqn:Eo.
    - left. assert (K : In o (flat_map (outerOf f scc) scc)).
      { apply in_flat_map. exists (pdst ph). split; [now apply inb_In|]. unfold outerOf. rewrite (phiOf_In f b bk ph U Hb Hph).
        apply filter_In. split; auto. apply in_map_iff. exists (p, o). auto. }
      rewrite Ho in K. destruct K as [K|K]; auto. specialize (Hall o K). destruct (opnd_eqb_spec rep o); [auto|discriminate].
    - right. destruct o as [c|n|q]; try discriminate. exists q. split; auto. cbn in Eo. now destruct (inb q scc). }
  assert (HP : forall x b bk, inb x scc = true -> get b f = Some bk -> In x (resultsOf bk) -> In x (map pdst (phis bk))).
  { intros x b bk Hin Hb Hx. apply inb_In in Hin. specialize (Hp x Hin). destruct (phiOf f x) as [ph|] eqn:E; [|congruence].
    destruct (phiOf_block f x b bk U Hb Hx ph E) as [A <-]. now apply in_map. }
  assert (PA : phiAllR f) by (apply phiAll_R; apply Hf). destruct Hf as (Hw & Hs & He).
  split.
  - exact (group_ok f (fun x => inb x scc) rep U Hs PA He HS HP knd).
  - apply wfs_subOp; [split; auto|]. intros x o y. unfold inScc. destruct (inb x scc) eqn:Ex; [|discriminate]. intros [= <-] Hy.
    exact (group_before f (fun x => inb x scc) rep U Hs PA He HS HP x y Ex Hy).
Qed.
Lemma removeRedundant_ok knd sccs fuel : forall set f, wfs f -> good knd f (removeRedundant sccs fuel set f).
Proof.
  induction fuel as [|n IH]; intros set f Hf; cbn [removeRedundant]; [now apply good_refl|]. destruct set as [|s0 set]; [now apply good_refl|].
  apply good_fold; auto. clear f Hf. intros g scc Hg. destruct (Nat.leb (length scc) 1); [now apply good_refl|].
  destruct (forallb _ scc) eqn:Ef; cbn [negb]; [|now apply good_refl].
  destruct (flat_map (outerOf g scc) scc) as [|rep outer] eqn:Eo; [now apply good_refl|].
  destruct (forallb (opnd_eqb rep) outer) eqn:Ea; [|now apply IH].
  eapply scc_ok; eauto. rewrite forallb_forall in Ef. intros x Hx. specialize (Ef x Hx). destruct (phiOf g x); [discriminate|discriminate].
Qed.
Theorem phiEliminate_ok knd sccs f : wfs f -> good knd f (phiEliminate sccs f).
Proof. apply removeRedundant_ok. Qed.

Lemma reducePhi_ok knd b f x : wfs f -> good knd f (reducePhi b f x).
Proof.
  intros Hf. unfold reducePhi. destruct (phiIn f b x) as [ph|] eqn:Ex; [|now apply good_refl].
  destruct (phiValue ph) as [v|] eqn:Ev; [|now apply good_refl].
  apply phiIn_spec in Ex as (bk & Hb & Hph & <-). assert (U : uniqueDefs f) by apply Hf.
  pose proof (phiOf_In f b bk ph U Hb Hph) as Pf. unfold phiValue in Ev.
  destruct (filter _ (map snd (inc ph))) as [|r l] eqn:Ef; [discriminate|]. destruct (forallb (opnd_eqb r) l) eqn:Ea; [|discriminate]. injection Ev as ->.
  assert (E : replaceWith (pdst ph) v f = subst (subOp (inScc [pdst ph] v)) f).
  { apply subst_ext. intros [c|n|y]; cbn; auto. unfold oneOp, inScc. cbn. now destruct (Nat.eqb y (pdst ph)). }
  rewrite E. apply (scc_ok knd f [pdst ph] v l Hf); auto.
  - intros y [<-|[]]. congruence.
  - cbn. rewrite app_nil_r. unfold outerOf. rewrite Pf, <- Ef. apply filter_ext. intros [c|n|q]; cbn; auto. now rewrite orb_false_r.
Qed.
Theorem reduceConstantPhis_ok knd order f : wfs f -> good knd f (reduceConstantPhis order f).
Proof.
  intros Hf. apply good_fold; auto. clear f Hf. intros f b Hf. unfold reducePhis1. destruct (get b f) as [bk|]; [|now apply good_refl].
  apply good_fold; auto. intros g x. apply reducePhi_ok.
Qed.
