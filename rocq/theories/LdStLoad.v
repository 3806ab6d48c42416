(** LoadReduce, the intra-block part (C46). *)
From Coq Require Import ZArith Lia Bool List Arith.
From Verif Require Import Sim Ssa SsaCfg SsaMerge SsaFwd SsaWf SsaDom SsaSub SsaEq SsaPhi SsaCse LdSt LdStPts LdStProof.
Import ListNotations.

Lemma split_unique (pre0 : list inst) : forall pre i0 i post0 post, NoDup (map dst (pre0 ++ i0 :: post0)) ->
  pre0 ++ i0 :: post0 = pre ++ i :: post -> dst i0 = dst i -> pre0 = pre /\ i0 = i /\ post0 = post.
Proof.
  induction pre0 as [|j pre0 IH]; intros pre i0 i post0 post N E D.
  - destruct pre as [|k pre]; cbn in E; [injection E; auto|]. exfalso. injection E as -> E. cbn in N. inversion N as [|? ? N1 _]; subst.
    apply N1. rewrite map_app. apply in_or_app. right. left. auto.
  - destruct pre as [|k pre]; cbn in E; injection E as E1 E2.
    + exfalso. subst. cbn in N. inversion N as [|? ? N1 _]; subst. apply N1. rewrite map_app. apply in_or_app. right. left. auto.
    + subst. cbn in N. inversion N as [|? ? _ N2]; subst. destruct (IH pre i0 i post0 post N2 E2 D) as (-> & -> & ->). auto.
Qed.
Lemma body_NoDup f b bk : uniqueDefs f -> get b f = Some bk -> NoDup (map dst (body bk)).
Proof. intros U Gb. exact (NoDup_app_r _ _ (block_NoDup f b bk U Gb)). Qed.

Section Lr.
Variable mk : nat -> mkind.
Variable dist : opnd * nat -> opnd * nat -> bool.
Variable base : opnd -> option opnd.
Variable same : opnd -> opnd -> bool.
Variable roGlob : opnd -> option (nat * value).
Variable roGep : inst -> option (nat * value).
Notation next := (next mk dist base same roGlob roGep).
Notation cacheOf := (cacheOf mk dist base same roGlob roGep).
Notation lrBody := (lrBody mk dist base same roGlob roGep).
Notation loadReduce := (loadReduce mk dist base same roGlob roGep).

(** the values in the cache are available *)
Lemma put_In x b p t v force c : In x (put b p t v force c) -> In x c \/ x = Ent b p t v.
Proof.
  unfold put. destruct (find (isKey b p t) c).
  - destruct force; auto. rewrite in_map_iff. intros (y & H & Hy). destruct (isKey b p t y); subst; auto.
  - intros [<-|H]; auto.
Qed.
Lemma next_In x c i : In x (next c i) -> In x c \/ (exists v, ev x = OCst v) \/ ev x = ORes (dst i) \/ In (ev x) (ops i).
Proof.
  unfold LdSt.next. set (c0 := fold_left (addRo roGlob) (ops i) c).
  assert (H0 : In x c0 -> In x c \/ (exists v, ev x = OCst v)).
  { unfold c0. generalize (ops i) at 1. intros l. clear c0. revert c. induction l as [|o l IH]; intros c; auto. cbn. intros H. destruct (IH _ H) as [H1|H1]; auto.
    unfold addRo in H1. destruct (roGlob o) as [[t v]|]; auto. apply put_In in H1 as [H1|H1]; auto. right. subst. cbn. eauto. }
  assert (H1 : forall b p t val force, In x (update dist same b p t val force c0) -> In x c0 \/ val = Some (ev x)).
  { intros b p t [v|] force H; unfold update in H.
    - apply put_In in H as [H|H]; [|subst; auto]. left. apply filter_In in H. apply H.
    - left. apply filter_In in H. apply H. }
  clearbody c0.
  destruct (mk (opc i)) as [t|t|t|nw nr|], (ops i) as [|p [|q l]] eqn:Eo; cbn [ops];
    try (intros H; destruct (H0 H); now auto);
    try (destruct (base p); [|intros []]; intros H; apply H1 in H as [H|H]; [destruct (H0 H); now auto|try discriminate; injection H as <-; cbn; now auto 10]);
    try (destruct (base p); [|intros H; destruct (H0 H); now auto]; intros H; apply H1 in H as [H|H]; [destruct (H0 H); now auto|try discriminate; injection H as <-; cbn; now auto 10]);
    try (destruct nw; [intros H; destruct (H0 H); now auto|intros []]).
  all: destruct (roGep i) as [[t v]|]; [|intros H; destruct (H0 H); now auto];
       destruct (base (ORes (dst i))) as [b|]; [|intros H; destruct (H0 H); now auto];
       intros H; apply put_In in H as [H|H]; [destruct (H0 H); now auto|subst; cbn; eauto].
Qed.
Lemma cache_avail f b bk pre post : ssa f -> get b f = Some bk -> reach f b -> body bk = pre ++ post ->
  forall x, In x (cacheOf pre) -> opAvail (availAt f b bk pre) (ev x).
Proof.
  intros S Gb R. revert post. induction pre as [|i pre IH] using rev_ind; intros post E x Hx; [destruct Hx|].
  unfold LdSt.cacheOf in Hx. rewrite fold_left_app in Hx. cbn in Hx. rewrite <- app_assoc in E. cbn in E. apply next_In in Hx as [H|[(v & ->)|[->|H]]].
  - apply avail_more. eapply IH; eauto.
  - exact I.
  - cbn. apply avail_dst.
  - apply avail_more. destruct (S b bk Gb R) as (S1 & _ & _). specialize (S1 pre i post E). rewrite Forall_forall in S1. auto.
Qed.

Lemma last_before f b bk pre i post p t v : wfs f -> get b f = Some bk -> body bk = pre ++ i :: post ->
  (reach f b -> getLast base (cacheOf pre) p t = Some v) -> forall y, In y (res_of v) -> before f (dst i) y.
Proof.
  intros (Wf & S & _) Gb E H y Hy d bkd Gd R Hx. assert (U : uniqueDefs f) by apply Wf.
  assert (d = b). { eapply (results_unique f d bkd b bk (dst i)); eauto. apply in_or_app. right. rewrite E, map_app. apply in_or_app. right. now left. }
  subst d. assert (bkd = bk) by congruence. subst bkd. specialize (H R).
  unfold getLast in H. destruct (base p) as [bp|]; [|discriminate]. destruct (find _ _) as [x|] eqn:Ef; [|discriminate]. cbn in H. injection H as <-.
  apply find_some in Ef as [Hin _]. pose proof (cache_avail f b bk pre (i :: post) S Gb R E x Hin) as A.
  apply res_of_eq in Hy. rewrite Hy in A. cbn in A. destruct A as [A|A]; [now left|]. right. right. exists pre, i, post. auto.
Qed.
Section At.
Context {W : Type} (m : sem W) (args : nat -> value) (w0 : W) (M : memory W).
Hypothesis MO : memOk M.
Hypothesis MS : memSem mk M m.
Hypothesis SO : okSame same.
Notation okSep := (okSep m args w0 M dist base).
Notation okRo := (okRo m args w0 M base roGlob roGep).

Lemma replace_ok f b bk pre i post p l t v : wfs f -> okSep f -> okRo f -> noAtomic mk f ->
  get b f = Some bk -> body bk = pre ++ i :: post -> mk (opc i) = MLoad t -> ops i = p :: l ->
  (reach f b -> getLast base (cacheOf pre) p t = Some v) -> Sim.safe (step m args f) (start f w0) -> sameRun m args w0 f (replaceWith (dst i) v f).
Proof.
  intros Wf OS OR NA Gb E Ek Eo Hl Hs. pose proof (last_before f b bk pre i post p t v Wf Gb E Hl) as Bf.
  destruct Wf as (Wf & S & _). assert (U : uniqueDefs f) by apply Wf.
  set (P := fun y (e : env) => y = dst i -> exists u, e (dst i) = Some u /\ rd args e v = Some u).
  set (D := fun y => if Nat.eqb y (dst i) then res_of v else []).
  assert (F : forall b' bk' pre' e w, atPoint m args w0 f b' bk' pre' e w -> factsAt f P b' bk' pre' e).
  { apply (facts_points m args w0 f P D U).
    - intros x e e' H K Ex. destruct (K Ex) as (u & A1 & A2). exists u. assert (Dx : D x = res_of v) by (unfold D; subst; now rewrite Nat.eqb_refl).
      rewrite Dx in H. split; [rewrite <- (H (dst i)); auto|]. rewrite <- A2. symmetry. apply rd_ext. intros y Hy. apply H. auto.
    - intros x d bkd y Gd R Hx Hy. unfold D in Hy. destruct (Nat.eqb_spec x (dst i)) as [->|]; [|destruct Hy]. exact (Bf y Hy d bkd Gd R Hx).
    - intros b' bk' q qb e vs Gb' _ _ _ _ _ x Hx Ex. exfalso. subst x.
      assert (b' = b). { eapply (results_unique f b' bk' b bk (dst i)); eauto; apply in_or_app; [now left|]. right. rewrite E, map_app. apply in_or_app. right. now left. }
      subst b'. assert (bk' = bk) by congruence. subst bk'. apply (phi_body_disj bk (dst i) (block_NoDup f b bk U Gb) Hx).
      rewrite E, map_app. apply in_or_app. right. now left.
    - intros b' bk' pre' i' post' e w vs u w' Hp E' _ Hr Hm Ex. destruct (atPoint_get _ _ _ _ _ _ _ _ _ Hp) as [Gb' _].
      assert (b' = b). { eapply (results_unique f b' bk' b bk (dst i)); eauto; apply in_or_app; right; rewrite ?E, ?E', map_app; apply in_or_app; right; left; auto. }
      subst b'. assert (bk' = bk) by congruence. subst bk'. rewrite E in E'.
      destruct (split_unique pre pre' i i' post post') as (<- & <- & <-); auto. { rewrite <- E. eapply body_NoDup; eauto. }
      destruct (getLast_ok m args w0 M mk dist base same roGlob roGep MO MS SO f U S OS OR NA b bk pre e w p t v Hp (Hl (atPoint_reach _ _ _ _ _ _ _ _ _ Hp))) as (Av & a & y & A1 & A2 & A3).
      destruct MS as (M1 & _). rewrite (M1 _ _ Ek) in Hm. rewrite Eo in Hr. cbn in Hr. rewrite A1 in Hr. destruct (rds args e l) as [vl|]; [|discriminate].
      injection Hr as <-. destruct vl; [|discriminate]. rewrite A3 in Hm. injection Hm as <- <-. exists y. split; [apply upd_eq|].
      rewrite (rd_avail args f b bk pre i post); auto. eapply atPoint_reach; eauto. }
  unfold replaceWith. apply subst_same; auto.
  intros b' bk' pre' e w o u Hp Ho Hu. destruct o as [c|n|x]; auto. cbn in *. unfold oneOp. destruct (Nat.eqb_spec x (dst i)) as [->|]; auto.
  destruct (F _ _ _ _ _ Hp _ Ho eq_refl) as (u' & A1 & A2). congruence.
Qed.

(** ** the whole pass *)
Definition inv (f : func) : Prop := wfs f /\ okSep f /\ okRo f /\ noAtomic mk f /\ Sim.safe (step m args f) (start f w0).
Lemma inv_next f g : inv f -> sameRun m args w0 f g -> wfs g -> noAtomic mk g -> inv g.
Proof.
  intros (A1 & A2 & A3 & A4 & A5) H B1 B2. repeat (split; [solve [eauto using okSep_same, okRo_same]|]). eapply sameRun_safe; eauto.
Qed.
(** in a reachable block the instructions before [x] do not mention [x] *)
Lemma pre_subst f b bk pre i post v : wfs f -> get b f = Some bk -> reach f b -> body bk = pre ++ i :: post ->
  map (mapInst (subOp (oneOp (dst i) v))) pre = pre.
Proof.
  intros (Wf & S & _) Gb R E. assert (U : uniqueDefs f) by apply Wf. rewrite <- (map_id pre) at 2. apply map_ext_in. intros j Hj.
  destruct j as [dj oj lj]. unfold mapInst. cbn. f_equal. rewrite <- (map_id lj) at 2. apply map_ext_in. intros o Ho.
  destruct o as [c|n|x]; auto. cbn. unfold oneOp. destruct (Nat.eqb_spec x (dst i)) as [->|]; auto. exfalso.
  apply in_split in Hj as (p1 & p2 & Ej). destruct (S b bk Gb R) as (S1 & _ & _).
  specialize (S1 p1 (Inst dj oj lj) (p2 ++ i :: post)). rewrite E, Ej, <- app_assoc in S1. specialize (S1 eq_refl). rewrite Forall_forall in S1.
  specialize (S1 _ Ho). cbn in S1. refine (avail_ne f b bk pre i post (dst i) U R Gb E _ eq_refl).
  destruct S1 as [S1|[S1|S1]]; [now left|right; now left|]. right. right. rewrite Ej, map_app. apply in_or_app. now left.
Qed.
Lemma lrBody_ok b names : forall done c f, inv f -> dstsAt f b = Some (done ++ names) ->
  (reach f b -> exists bk pre post, get b f = Some bk /\ body bk = pre ++ post /\ map dst pre = done /\ c = cacheOf pre) ->
  sameRun m args w0 f (lrBody b names c f) /\ inv (lrBody b names c f).
Proof.
  induction names as [|x names IH]; intros done c f Hf Hd Hc; cbn; [split; auto; apply sameRun_refl|].
  destruct (instIn f b x) as [i|] eqn:Ei; [|split; auto; apply sameRun_refl].
  pose proof Ei as Ei0. apply instIn_spec in Ei0 as (bk & Gb & Hi & Hix).
  assert (U : uniqueDefs f) by apply Hf.
  assert (NDb := body_NoDup f b bk U Gb).
  unfold dstsAt in Hd. rewrite Gb in Hd. cbn in Hd. injection Hd as Hd.
  apply map_eq_app in Hd as (pre & l2 & E & E2 & E3). destruct l2 as [|i2 post]; [discriminate|]. cbn in E3. injection E3 as E3 E4.
  assert (i2 = i). { apply in_split in Hi as (q1 & q2 & Eq). rewrite Eq in E, NDb. symmetry. eapply (split_unique q1 pre i i2 q2 post); eauto. congruence. }
  subst i2.
  set (f' := match mk (opc i), ops i with MLoad t, p :: _ => match getLast base c p t with Some v => replaceWith x v f | None => f end | _, _ => f end).
  assert (Hsub : f' = f \/ exists h, f' = subst h f).
  { unfold f'. destruct (mk (opc i)); auto. destruct (ops i); auto. destruct (getLast _ _ _ _); auto. right. unfold replaceWith. eauto. }
  assert (K : sameRun m args w0 f f' /\ inv f' /\ (reach f b -> exists bk', get b f' = Some bk' /\ exists i' post', body bk' = pre ++ i' :: post')).
  { assert (K0 : sameRun m args w0 f f /\ inv f /\ (reach f b -> exists bk', get b f = Some bk' /\ exists i' post', body bk' = pre ++ i' :: post')).
    { split; [apply sameRun_refl|]. split; auto. intros _. exists bk. split; auto. exists i, post. exact E. }
    unfold f'. destruct (mk (opc i)) as [t|t|t|nw nr|] eqn:Ek; auto. destruct (ops i) as [|p l] eqn:Eo; auto.
    destruct (getLast base c p t) as [v|] eqn:El; auto. subst x.
    assert (El' : reach f b -> getLast base (cacheOf pre) p t = Some v).
    { intros R. destruct (Hc R) as (bk1 & pre1 & post1 & G1 & E1 & D1 & C1). assert (bk1 = bk) by congruence. subst bk1.
      assert (pre1 = pre).
      { rewrite E1 in E. assert (Len : length pre1 = length pre) by (rewrite <- (map_length dst pre1), <- (map_length dst pre); congruence).
        clear -E Len. revert pre Len E. induction pre1; intros [|? pre] Len E; try discriminate; auto. cbn in *. injection E as -> E. f_equal. apply IHpre1; auto. }
      subst pre1 c. exact El. }
      assert (SR : sameRun m args w0 f (replaceWith (dst i) v f)).
      { destruct Hf as (H1 & H2 & H3 & H4 & H5). exact (replace_ok f b bk pre i post p l t v H1 H2 H3 H4 Gb E Ek Eo El' H5). }
      split; auto. split.
      + eapply inv_next; eauto; [|apply noAtomic_subst; apply Hf]. apply wfs_subOp; [apply Hf|]. intros y o z. unfold oneOp.
        destruct (Nat.eqb_spec y (dst i)) as [->|]; [|discriminate]. intros [= <-]. eapply last_before; eauto. apply Hf.
      + intros R. unfold replaceWith. rewrite subst_substB, get_substB, Gb. cbn. eexists. split; [reflexivity|]. cbn. rewrite E, map_app.
        rewrite (pre_subst f b bk pre i post v); auto; [|apply Hf]. cbn. eauto. }
  destruct K as (SR & If & Hpre).
  assert (Hd' : dstsAt f' b = Some ((done ++ [x]) ++ names)).
  { rewrite <- app_assoc. destruct Hsub as [->|[h ->]]; rewrite ?dstsAt_subst; unfold dstsAt; rewrite Gb; cbn; rewrite E, map_app; cbn; congruence. }
  assert (Rf : reach f' b <-> reach f b) by (destruct Hsub as [->|[h ->]]; [reflexivity|apply reach_subst]).
  fold f'. destruct (instIn f' b x) as [i'|] eqn:Ei'; [|auto].
  destruct (IH (done ++ [x]) (next c i') f' If Hd') as [A1 A2].
  - intros R. apply Rf in R. destruct (Hpre R) as (bk' & G' & i1 & post' & E').
    apply instIn_spec in Ei' as (bk1 & G1 & Hi1 & Hx1). assert (bk1 = bk') by congruence. subst bk1.
    assert (U' : uniqueDefs f') by apply If. assert (ND' := body_NoDup f' b bk' U' G').
    assert (Dx : dst i1 = x).
    { unfold dstsAt in Hd'. rewrite G' in Hd'. cbn in Hd'. injection Hd' as Hd'. rewrite E', map_app, E2, <- app_assoc in Hd'. apply app_inv_head in Hd'.
      cbn in Hd'. congruence. }
    assert (i1 = i'). { apply in_split in Hi1 as (q1 & q2 & Eq). rewrite Eq in E', ND'. symmetry. eapply (split_unique q1 pre i' i1 q2 post'); eauto. congruence. }
    subst i1. exists bk', (pre ++ [i']), post'. split; auto. split; [now rewrite <- app_assoc|]. split; [rewrite map_app; cbn; congruence|].
    destruct (Hc R) as (bk1 & pre1 & post1 & G1' & E1 & D1 & C1). assert (bk1 = bk) by congruence. subst bk1.
    assert (pre1 = pre).
    { rewrite E1 in E. assert (Len : length pre1 = length pre) by (rewrite <- (map_length dst pre1), <- (map_length dst pre); congruence).
      clear -E Len. revert pre Len E. induction pre1; intros [|? pre] Len E; try discriminate; auto. cbn in *. injection E as -> E. f_equal. apply IHpre1; auto. }
    subst pre1 c. unfold LdSt.cacheOf. rewrite fold_left_app. reflexivity.
  - split; auto. eapply sameRun_trans; eauto.
Qed.
Lemma lrBlock_ok f b : inv f -> let g := lrBlock mk dist base same roGlob roGep f b in sameRun m args w0 f g /\ inv g.
Proof.
  intros Hf. unfold lrBlock. cbn. destruct (get b f) as [bk|] eqn:Gb; [|split; auto; apply sameRun_refl].
  apply (lrBody_ok b _ []); auto.
  - unfold dstsAt. now rewrite Gb.
  - intros _. exists bk, [], (body bk). auto.
Qed.
Theorem loadReduce_same f : inv f -> sameRun m args w0 f (loadReduce f) /\ inv (loadReduce f).
Proof.
  intros Hf. unfold LdSt.loadReduce. generalize (map fst f). intros l. revert f Hf. induction l as [|b l IH]; intros f Hf; cbn.
  - split; auto. apply sameRun_refl.
  - destruct (lrBlock_ok f b Hf) as [A1 A2]. destruct (IH _ A2) as [B1 B2]. split; auto. eapply sameRun_trans; eauto.
Qed.
End At.
End Lr.
