(** Replacing operands by others that are known to have the same value where they are read. *)
From Coq Require Import ZArith Lia Bool List Arith.
From Verif Require Import Sim Ssa SsaCfg SsaMerge SsaFwd SsaDom.
Import ListNotations.

(** [hb b]: in the instructions and the terminator of [b]; [he p b]: in the phis of [b] for the edge from [p] *)
Definition mapTerm (h : opnd -> opnd) (t : term) : term :=
  match t with
  | TCond c t e => TCond (h c) t e
  | TSwitch c cs d => TSwitch (h c) cs d
  | TRet (Some v) => TRet (Some (h v))
  | t => t
  end.
Definition mapPhi (h : nat -> opnd -> opnd) (ph : phi) : phi := Phi (pdst ph) (map (fun x => (fst x, h (fst x) (snd x))) (inc ph)).
Definition mapInst (h : opnd -> opnd) (i : inst) : inst := Inst (dst i) (opc i) (map h (ops i)).
Definition mapBlock (hb : nat -> opnd -> opnd) (he : nat -> nat -> opnd -> opnd) (b : nat) (bk : block) : block :=
  Block (map (mapPhi (fun p => he p b)) (phis bk)) (map (mapInst (hb b)) (body bk)) (mapTerm (hb b) (trm bk)).
Definition substB (hb : nat -> opnd -> opnd) (he : nat -> nat -> opnd -> opnd) (f : func) : func :=
  map (fun x => (fst x, mapBlock hb he (fst x) (snd x))) f.
Lemma subst_substB h f : subst h f = substB (fun _ => h) (fun _ _ => h) f.
Proof. apply map_ext. intros [b [ps l [t|c t e|c cs d|[v|]|]]]; reflexivity. Qed.
Lemma get_substB hb he f b : get b (substB hb he f) = option_map (mapBlock hb he b) (get b f).
Proof. apply (get_mapk (mapBlock hb he)). Qed.
Lemma entry_substB hb he f : entry (substB hb he f) = entry f.
Proof. apply (entry_mapk (mapBlock hb he)). Qed.

Section Local.
Context {W : Type} (m : sem W) (args : nat -> value).
Lemma rds_local e h l vs : Forall (fun o => forall v, rd args e o = Some v -> rd args e (h o) = Some v) l ->
  rds args e l = Some vs -> rds args e (map h l) = Some vs.
Proof.
  intros K. revert vs. induction K as [|o l Ho K IH]; cbn; intros vs H; auto.
  destruct (rd args e o) as [v|] eqn:E1; try discriminate. destruct (rds args e l) as [vs'|]; try discriminate.
  rewrite (Ho v eq_refl), (IH vs' eq_refl). exact H.
Qed.
Lemma rdPhis_local e p h l vs :
  (forall ph o v, In ph l -> get p (inc ph) = Some o -> rd args e o = Some v -> rd args e (h p o) = Some v) ->
  rdPhis args e p l = Some vs -> rdPhis args e p (map (mapPhi h) l) = Some vs.
Proof.
  revert vs. induction l as [|ph l IH]; cbn; intros vs K H; auto.
  rewrite (get_mapk (fun q o => h q o)). destruct (get p (inc ph)) as [o|] eqn:E0; try discriminate. cbn.
  destruct (rd args e o) as [v|] eqn:E1; try discriminate. destruct (rdPhis args e p l) as [vs'|]; try discriminate.
  rewrite (K ph o v (or_introl eq_refl) E0 E1), (IH vs'); eauto.
Qed.
Lemma runTerm_local e h t : Forall (fun o => forall v, rd args e o = Some v -> rd args e (h o) = Some v) (termOps t) ->
  runTerm args e t <> TBad -> runTerm args e (mapTerm h t) = runTerm args e t.
Proof.
  intros K. destruct t as [b|c a b|c cs d|[v|]|]; cbn in *; auto; inversion K as [|? ? K1 _]; subst.
  - destruct (rd args e c) as [v|] eqn:E1; [|congruence]. now rewrite (K1 v eq_refl).
  - destruct (rd args e c) as [v|] eqn:E1; [|congruence]. now rewrite (K1 v eq_refl).
  - destruct (rd args e v) as [x|] eqn:E1; [|congruence]. now rewrite (K1 x eq_refl).
Qed.
End Local.

Section SubstFacts.
Context {W : Type} (m : sem W) (args : nat -> value) (f : func).
Variable P : nat -> env -> Prop.
Variable D : nat -> list nat.
Hypothesis U : uniqueDefs f.
Hypothesis S : ssa f.
Hypothesis Hframe : forall x e e', (forall y, y = x \/ In y (D x) -> e y = e' y) -> P x e -> P x e'.
Hypothesis Hdep : forall x d bk y, get d f = Some bk -> reach f d -> In x (resultsOf bk) -> In y (D x) ->
  availIn f d y \/ (In x (map pdst (phis bk)) /\ In y (map pdst (phis bk))) \/
  (exists pre i post, body bk = pre ++ i :: post /\ dst i = x /\ (In y (map pdst (phis bk)) \/ In y (map dst pre))).
Hypothesis Hphi : forall b bk p pb e vs, get b f = Some bk -> reach f p -> get p f = Some pb -> In b (succs (trm pb)) ->
  (forall x, availOut f p x -> P x e) -> rdPhis args e p (phis bk) = Some vs ->
  forall x, In x (map pdst (phis bk)) -> P x (updAll e vs).
Hypothesis Hbody : forall b bk pre i post e w vs v w', get b f = Some bk -> reach f b -> body bk = pre ++ i :: post ->
  (forall x, availAt f b bk pre x -> P x e) -> rds args e (ops i) = Some vs -> meaning m (opc i) vs w = IOk v w' ->
  P (dst i) (upd e (dst i) v).
Variable hb : nat -> opnd -> opnd.
Variable he : nat -> nat -> opnd -> opnd.
Hypothesis Hb : forall b bk pre post e o v, get b f = Some bk -> reach f b -> body bk = pre ++ post ->
  factsAt f P b bk pre e -> opAvail (availAt f b bk pre) o -> rd args e o = Some v -> rd args e (hb b o) = Some v.
Hypothesis He : forall p pb b e o v, get p f = Some pb -> reach f p -> In b (succs (trm pb)) ->
  (forall x, availOut f p x -> P x e) -> opAvail (availOut f p) o -> rd args e o = Some v -> rd args e (he p b o) = Some v.

Lemma body_subst b bk : get b f = Some bk -> reach f b -> forall post pre e w, body bk = pre ++ post -> factsAt f P b bk pre e ->
  (forall t, runBody m args e w post <> BBad t) ->
  runBody m args e w (map (mapInst (hb b)) post) = runBody m args e w post.
Proof.
  intros Gb R. induction post as [|i post IH]; intros pre e w E F NB; auto. cbn in *.
  destruct (rds args e (ops i)) as [vs|] eqn:E1; [|exfalso; eapply NB; eauto].
  rewrite (rds_local args e (hb b) (ops i) vs).
  - destruct (meaning m (opc i) vs w) as [v w1|w1|] eqn:E2; auto.
    rewrite (IH (pre ++ [i]) (upd e (dst i) v) w1); auto.
    + now rewrite <- app_assoc.
    + eapply (facts_inst m args f P D); eauto.
    + intros t Ht. apply (NB (evt m (opc i) vs w ++ t)). rewrite Ht. reflexivity.
  - destruct (S b bk Gb R) as (S1 & _ & _). specialize (S1 pre i post E). rewrite Forall_forall in S1 |- *.
    intros o Ho v Hv. eapply Hb; eauto.
  - exact E1.
Qed.
Theorem substB_at w : refinesAt (step m args f) (step m args (substB hb he f)) (start f w) (start (substB hb he f) w).
Proof.
  apply (step_refinesAt m args f (substB hb he f) (fun s => hist f s /\ factsIn f P s)).
  - now rewrite entry_substB.
  - intros s [Hh Hf] Hsafe. pose proof (hist_reach _ _ Hh) as R.
    assert (NB := fun t => safe_step m args f s t Hsafe). unfold step in *. rewrite get_substB.
    destruct (get (cur s) f) as [bk|] eqn:Eb; [|reflexivity]. cbn [option_map]. unfold runBlock in *. cbn [mapBlock phis body trm].
    destruct (S (cur s) bk Eb R) as (S1 & S2 & S3).
    destruct (enter args (en s) (prev s) (phis bk)) as [e1|] eqn:Ee; [|exfalso; eapply NB; eauto].
    assert (Ee' : enter args (en s) (prev s) (map (mapPhi (fun p => he p (cur s))) (phis bk)) = Some e1).
    { unfold enter in *. destruct (prev s) as [p|] eqn:Ep.
      - destruct (hist_prev f s p Hh Ep) as (Rp & pb & Hpb & Hin). unfold factsIn in Hf. rewrite Ep in Hf.
        destruct (rdPhis args (en s) p (phis bk)) as [vs|] eqn:Ev; [|discriminate].
        rewrite (rdPhis_local args (en s) p (fun q => he q (cur s)) (phis bk) vs); auto.
        intros ph o v Hph Ho Hv. eapply He; eauto. apply (S3 ph p o Hph (get_In _ _ _ Ho) Rp).
      - destruct (phis bk); auto; discriminate. }
    rewrite Ee'.
    assert (F1 : factsAt f P (cur s) bk [] e1) by (eapply (facts_enter args f P D); eauto).
    rewrite (body_subst (cur s) bk Eb R (body bk) [] e1 (wd s) eq_refl F1).
    + destruct (runBody m args e1 (wd s) (body bk)) as [e2 w2 t2|w2 t2|t2] eqn:Er; auto.
      assert (F2 : factsAt f P (cur s) bk (body bk) e2).
      { exact (facts_body m args f P D U Hframe Hdep Hbody _ bk R Eb (body bk) [] _ _ _ _ _ eq_refl F1 Er). }
      rewrite (runTerm_local args e2 (hb (cur s)) (trm bk)); auto.
      * rewrite Forall_forall in S2 |- *. intros o Ho v Hv. eapply (Hb (cur s) bk (body bk) []); eauto. now rewrite app_nil_r.
      * intros K. rewrite K in NB. exact (NB t2 eq_refl).
    + intros t Ht. rewrite Ht in NB. exact (NB t eq_refl).
  - intros s s' t [Hh Hf] H. split; [eapply hist_step; eauto|]. eapply (facts_step m args f P D); eauto.
  - split; [apply hist_start|exact I].
Qed.
End SubstFacts.

(** ** the run of a well-formed function never reads a value that has not been computed *)
Section Defined.
Context {W : Type} (m : sem W) (args : nat -> value) (f : func).
Hypothesis U : uniqueDefs f.
Hypothesis S : ssa f.
Let P (x : nat) (e : env) : Prop := e x <> None.
Let D (x : nat) : list nat := [].
Lemma def_frame : forall x e e', (forall y, y = x \/ In y (D x) -> e y = e' y) -> P x e -> P x e'.
Proof. intros x e e' H K. unfold P in *. rewrite <- (H x); auto. Qed.
Lemma updAll_some vs : forall e x, In x (map fst vs) -> updAll e vs x <> None.
Proof.
  induction vs as [|[y v] vs IH]; intros e x H; [destruct H|]. cbn.
  destruct (in_dec Nat.eq_dec x (map fst vs)) as [Hi|Hn]; [now apply IH|].
  destruct H as [H|H]; [cbn in H|tauto]. subst. fold (updAll (upd e x v) vs). rewrite updAll_ne by auto. rewrite upd_eq. discriminate.
Qed.
Lemma def_phi : forall b bk p pb e vs, get b f = Some bk -> reach f p -> get p f = Some pb -> In b (succs (trm pb)) ->
  (forall x, availOut f p x -> P x e) -> rdPhis args e p (phis bk) = Some vs ->
  forall x, In x (map pdst (phis bk)) -> P x (updAll e vs).
Proof. intros b bk p pb e vs _ _ _ _ _ H x Hx. apply updAll_some. now rewrite (rdPhis_fst _ _ _ _ _ H). Qed.
Lemma def_body : forall b bk pre i post e (w : W) vs v w', get b f = Some bk -> reach f b -> body bk = pre ++ i :: post ->
  (forall x, availAt f b bk pre x -> P x e) -> rds args e (ops i) = Some vs -> meaning m (opc i) vs w = IOk v w' ->
  P (dst i) (upd e (dst i) v).
Proof. intros. unfold P. rewrite upd_eq. discriminate. Qed.
Definition definedAt (b : nat) (bk : block) (pre : list inst) (e : env) : Prop := forall x, availAt f b bk pre x -> e x <> None.
Definition definedIn (s : st (W:=W)) : Prop := match prev s with None => True | Some p => forall x, availOut f p x -> en s x <> None end.
Lemma defined_step s s' t : hist f s -> definedIn s -> step m args f s = Go s' t -> definedIn s'.
Proof. apply (facts_step m args f P D U def_frame); [intros x d bk y _ _ _ []|apply def_phi|apply def_body]. Qed.
Lemma defined_enter s bk e1 : hist f s -> definedIn s -> get (cur s) f = Some bk ->
  enter args (en s) (prev s) (phis bk) = Some e1 -> definedAt (cur s) bk [] e1.
Proof. apply (facts_enter args f P D U def_frame); [intros x d bk0 y _ _ _ []|apply def_phi]. Qed.
Lemma defined_inst b bk pre i post e w vs v w' : reach f b -> get b f = Some bk -> body bk = pre ++ i :: post ->
  definedAt b bk pre e -> rds args e (ops i) = Some vs -> meaning m (opc i) vs w = IOk v w' ->
  definedAt b bk (pre ++ [i]) (upd e (dst i) v).
Proof. apply (facts_inst m args f P D U def_frame); [intros x d bk0 y _ _ _ []|apply def_body]. Qed.
Lemma defined_body b bk : reach f b -> get b f = Some bk -> forall post pre e w e' w' t, body bk = pre ++ post ->
  definedAt b bk pre e -> runBody m args e w post = BGo e' w' t -> definedAt b bk (body bk) e'.
Proof. apply (facts_body m args f P D U def_frame); [intros x d bk0 y _ _ _ []|apply def_body]. Qed.

Lemma rds_def e l : Forall (opAvail (fun x => e x <> None)) l -> rds args e l <> None.
Proof.
  induction 1 as [|o l Ho H IH]; cbn; [discriminate|].
  assert (rd args e o <> None) by (destruct o; cbn in *; auto; discriminate).
  destruct (rd args e o); [|congruence]. destruct (rds args e l); [discriminate|congruence].
Qed.
Lemma opAvail_imp (A B : nat -> Prop) l : (forall x, A x -> B x) -> Forall (opAvail A) l -> Forall (opAvail B) l.
Proof. intros H K. eapply Forall_impl; [|exact K]. intros [c|n|x]; cbn; auto. Qed.
End Defined.
