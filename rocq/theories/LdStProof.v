(** Proofs about the value analysis of a block and the loads it replaces (C46). *)
From Coq Require Import ZArith Lia Bool List Arith.
From Verif Require Import Sim Ssa SsaCfg SsaMerge SsaFwd SsaWf SsaDom SsaSub SsaEq SsaPhi SsaCse LdSt LdStPts.
Import ListNotations.

(** [z] is not the result of the instruction that comes next *)
Lemma avail_ne f b bk pre i post y : uniqueDefs f -> reach f b -> get b f = Some bk -> body bk = pre ++ i :: post ->
  availAt f b bk pre y -> y <> dst i.
Proof.
  intros U R Gb E H ->. pose proof (block_NoDup f b bk U Gb) as N. destruct H as [(d & H1 & H2 & _)|[H|H]].
  - apply H2. eapply defIn_unique; eauto. exists bk. split; auto. apply in_or_app. right. rewrite E, map_app. apply in_or_app. right. now left.
  - apply (phi_body_disj bk (dst i) N H). rewrite E, map_app. apply in_or_app. right. now left.
  - unfold resultsOf in N. apply NoDup_app_r in N. rewrite E, map_app in N. eapply NoDup_app_disj; [exact N|exact H|]. now left.
Qed.
Lemma rd_avail args f b bk pre i post e v o : uniqueDefs f -> reach f b -> get b f = Some bk -> body bk = pre ++ i :: post ->
  opAvail (availAt f b bk pre) o -> rd args (upd e (dst i) v) o = rd args e o.
Proof. intros U R Gb E H. destruct o as [c|n|y]; auto. cbn in *. apply upd_ne. eapply avail_ne; eauto. Qed.
Lemma avail_more f b bk pre i o : opAvail (availAt f b bk pre) o -> opAvail (availAt f b bk (pre ++ [i])) o.
Proof.
  destruct o as [c|n|y]; cbn; auto. unfold availAt. rewrite map_app. intros [H|[H|H]]; auto. right. right. apply in_or_app. now left.
Qed.
Lemma avail_dst f b bk pre i : availAt f b bk (pre ++ [i]) (dst i).
Proof. right. right. rewrite map_app. apply in_or_app. right. now left. Qed.

Section V.
Context {W : Type} (m : sem W) (args : nat -> value) (w0 : W) (M : memory W).
Variable mk : nat -> mkind.
Variable dist : opnd * nat -> opnd * nat -> bool.
Variable base : opnd -> option opnd.
Variable same : opnd -> opnd -> bool.
Variable roGlob : opnd -> option (nat * value).
Variable roGep : inst -> option (nat * value).
Notation pt := (atPoint m args w0).

(** ** what is asked of the analyses *)
(** two valid accesses through pointers that the alias analysis calls distinct, or that have different bases, touch no
    common byte *)
Definition okSep (f : func) : Prop := forall b bk pre e w p t q u a a', pt f b bk pre e w ->
  opAvail (availAt f b bk pre) p -> opAvail (availAt f b bk pre) q -> rd args e p = Some (VOpq a) -> rd args e q = Some (VOpq a') ->
  ld M t a w <> None -> ld M u a' w <> None ->
  (dist (p, t) (q, u) = true \/ exists x y, base p = Some x /\ base q = Some y /\ x <> y) -> apart a (siz M t) a' (siz M u).
(** read-only globals hold their initial values *)
Definition okRo (f : func) : Prop := forall b bk pre e w, pt f b bk pre e w ->
  (forall o t c, roGlob o = Some (t, c) -> exists n a, o = OArg n /\ base o = Some o /\ args n = VOpq a /\ ld M t a w = Some c) /\
  (forall i t c vs v w', roGep i = Some (t, c) -> rds args e (ops i) = Some vs -> meaning m (opc i) vs w = IOk v w' ->
     exists a, v = VOpq a /\ ld M t a w' = Some c).
Definition okSame : Prop := forall a b, same a b = true -> a = b.
Definition noAtomic (f : func) : Prop := forall b bk i t, get b f = Some bk -> In i (body bk) -> mk (opc i) <> MAtomic t.

Lemma okSep_same f g : sameRun m args w0 f g -> okSep f -> okSep g.
Proof.
  intros [_ S] H b bk pre e w p t q u a a' Hp A1 A2. destruct (S _ _ _ _ _ Hp) as (bk1 & pre1 & Hp1 & K).
  apply (H b bk1 pre1 e w p t q u a a' Hp1).
  - destruct p; cbn in *; auto. now apply K.
  - destruct q; cbn in *; auto. now apply K.
Qed.
Lemma okRo_same f g : sameRun m args w0 f g -> okRo f -> okRo g.
Proof. intros [_ S] H b bk pre e w Hp. destruct (S _ _ _ _ _ Hp) as (bk1 & pre1 & Hp1 & K). exact (H _ _ _ _ _ Hp1). Qed.
Lemma noAtomic_subst h f : noAtomic f -> noAtomic (subst h f).
Proof.
  intros H b bk i t Gb Hi. rewrite get_subst in Gb. destruct (get b f) as [bk0|] eqn:E; [|discriminate]. cbn in Gb. injection Gb as <-.
  cbn in Hi. apply in_map_iff in Hi as (i0 & <- & Hi). cbn. eapply H; eauto.
Qed.

Hypothesis MO : memOk M.
Hypothesis MS : memSem mk M m.
Hypothesis SO : okSame.
Notation next := (next mk dist base same roGlob roGep).
Notation cacheOf := (cacheOf mk dist base same roGlob roGep).
Section F.
Variable f : func.
Hypothesis U : uniqueDefs f.
Hypothesis SF : ssa f.
Hypothesis SepO : okSep f.
Hypothesis RoO : okRo f.
Hypothesis NA : noAtomic f.

(** an entry tells the truth *)
Definition vEnt (b : nat) (bk : block) (pre : list inst) (e : env) (w : W) (x : ent) : Prop :=
  opAvail (availAt f b bk pre) (ep x) /\ opAvail (availAt f b bk pre) (ev x) /\ base (ep x) = Some (eb x) /\
  exists a v, rd args e (ep x) = Some (VOpq a) /\ rd args e (ev x) = Some v /\ ld M (et x) a w = Some v.

Lemma isKey_eq b p t x : isKey b p t x = true -> eb x = b /\ ep x = p /\ et x = t.
Proof.
  unfold isKey. rewrite !andb_true_iff. intros [[A B] C]. destruct (opnd_eqb_spec (eb x) b); [|discriminate].
  destruct (opnd_eqb_spec (ep x) p); [|discriminate]. apply Nat.eqb_eq in C. auto.
Qed.
Lemma put_force (V : ent -> Prop) b p t v c : (forall x, In x c -> isKey b p t x = false -> V x) -> V (Ent b p t v) -> Forall V (put b p t v true c).
Proof.
  intros H1 H2. unfold put. destruct (find (isKey b p t) c) as [x|] eqn:E.
  - rewrite Forall_map, Forall_forall. intros y Hy. destruct (isKey b p t y) eqn:K; auto.
  - constructor; auto. apply Forall_forall. intros x Hx. apply H1; auto. exact (find_none _ _ E x Hx).
Qed.
Lemma put_keep (V : ent -> Prop) b p t v c : Forall V c -> V (Ent b p t v) -> Forall V (put b p t v false c).
Proof. intros H1 H2. unfold put. destruct (find (isKey b p t) c); auto. Qed.
Lemma addRo_ok b bk pre e w l : pt f b bk pre e w -> forall c, Forall (vEnt b bk pre e w) c ->
  Forall (vEnt b bk pre e w) (fold_left (addRo roGlob) l c).
Proof.
  intros Hp. induction l as [|o l IH]; intros c H; auto. cbn. apply IH. unfold addRo. destruct (roGlob o) as [[t v]|] eqn:E; auto.
  apply put_keep; auto. destruct (RoO _ _ _ _ _ Hp) as [R1 _]. destruct (R1 _ _ _ E) as (n & a & -> & A1 & A2 & A3).
  split; [exact I|]. split; [exact I|]. split; auto. exists a, v. cbn. rewrite A2. auto.
Qed.
Lemma next_ok b bk pre i post e w vs v w' : pt f b bk pre e w -> body bk = pre ++ i :: post ->
  rds args e (ops i) = Some vs -> meaning m (opc i) vs w = IOk v w' ->
  forall c, Forall (vEnt b bk pre e w) c -> Forall (vEnt b bk (pre ++ [i]) (upd e (dst i) v) w') (next c i).
Proof.
  intros Hp E Hr Hm c Hc. pose proof (atPoint_reach _ _ _ _ _ _ _ _ _ Hp) as R. destruct (atPoint_get _ _ _ _ _ _ _ _ _ Hp) as [Gb _].
  assert (RD : forall o, opAvail (availAt f b bk pre) o -> rd args (upd e (dst i) v) o = rd args e o) by (intros o Ho; eapply rd_avail; eauto).
  destruct (SF b bk Gb R) as (S1 & _ & _). specialize (S1 pre i post E). rewrite Forall_forall in S1.
  unfold LdSt.next. set (c0 := fold_left (addRo roGlob) (ops i) c).
  assert (Hc0 : Forall (vEnt b bk pre e w) c0) by (apply addRo_ok; auto). clearbody c0. clear Hc c. rewrite Forall_forall in Hc0.
  (* an entry whose location still holds what it held *)
  assert (CA : forall x, In x c0 -> (forall a, rd args e (ep x) = Some (VOpq a) -> forall y, rd args e (ev x) = Some y -> ld M (et x) a w = Some y -> ld M (et x) a w' = Some y) ->
               vEnt b bk (pre ++ [i]) (upd e (dst i) v) w' x).
  { intros x Hx K. destruct (Hc0 x Hx) as (A1 & A2 & A3 & a & y & A4 & A5 & A6). split; [now apply avail_more|]. split; [now apply avail_more|].
    split; auto. exists a, y. rewrite !RD by auto. split; auto. }
  assert (CW : (forall t a, ld M t a w' = ld M t a w) -> Forall (vEnt b bk (pre ++ [i]) (upd e (dst i) v) w') c0).
  { intros K. apply Forall_forall. intros x Hx. apply CA; auto. intros a _ y _ H. now rewrite K. }
  destruct MO as (L1 & L2 & L3 & L4 & L5). destruct MS as (M1 & M2 & M3 & M4 & M5).
  destruct (mk (opc i)) as [t|t|t|nw nr|] eqn:Ek.
  - (* load *)
    rewrite (M1 _ _ Ek) in Hm. destruct vs as [|va [|vb vs]]; try discriminate; destruct va as [z|a|]; try discriminate.
    destruct (ld M t a w) as [x|] eqn:El; [|discriminate]. injection Hm as <- <-.
    destruct (ops i) as [|p l] eqn:Eo; [discriminate|]. cbn in Hr. destruct (rd args e p) as [vp|] eqn:Ep; [|discriminate].
    destruct (rds args e l); [|discriminate]. injection Hr as -> _.
    destruct (base p) as [bp|] eqn:Eb; [|apply CW; auto]. unfold update. apply put_keep.
    + apply incl_Forall with (l1 := c0); [apply incl_filter|apply CW; auto].
    + assert (Ap := S1 p (or_introl eq_refl)). split; [cbn; apply avail_more; exact Ap|]. split; [cbn; apply avail_dst|]. split; auto.
      exists a, x. cbn [ep ev et]. rewrite RD by exact Ap. split; auto. split; auto. cbn. apply upd_eq.
  - (* store *)
    rewrite (M2 _ _ Ek) in Hm. destruct vs as [|va [|vb [|vc vs]]]; try (destruct va; discriminate); try discriminate. destruct va as [z|a|]; try discriminate.
    destruct (sto M t a vb w) as [w1|] eqn:El; [|discriminate]. injection Hm as <- <-.
    destruct (ops i) as [|p [|q l]] eqn:Eo; [discriminate| |].
    { cbn in Hr. destruct (rd args e p); discriminate. }
    cbn in Hr. destruct (rd args e p) as [vp|] eqn:Ep; [|discriminate]. destruct (rd args e q) as [vq|] eqn:Eq; [|discriminate].
    destruct (rds args e l); [|discriminate]. injection Hr as -> -> _.
    assert (Ap := S1 p (or_introl eq_refl)). assert (Aq := S1 q (or_intror (or_introl eq_refl))).
    destruct (base p) as [bp|] eqn:Eb; [|constructor]. unfold update. apply put_force.
    + intros x Hx Nk. apply filter_In in Hx as [Hx St]. apply CA; auto. intros a0 Ha0 y Hy Hl.
      destruct (Hc0 x Hx) as (A1 & A2 & A3 & _). unfold stays in St. rewrite !orb_true_iff in St.
      assert (AP : dist (ep x, et x) (p, t) = true \/ (exists x0 y0, base (ep x) = Some x0 /\ base p = Some y0 /\ x0 <> y0) -> ld M (et x) a0 w1 = Some y).
      { intros K. rewrite (L3 (et x) a0 t a vb w w1); auto. apply (SepO b bk pre e w (ep x) (et x) p t a0 a Hp); auto.
        - rewrite Hl. discriminate.
        - eapply L2; eauto. }
      destruct St as [[[St|St]|St]|St].
      * apply AP. right. exists (eb x), bp. split; auto. split; auto. intros Q. rewrite negb_true_iff in St.
        destruct (opnd_eqb_spec (eb x) bp); congruence.
      * exfalso. rewrite andb_true_iff in St. destruct St as [B1 B2]. destruct (opnd_eqb_spec (ep x) p) as [B3|]; [|discriminate].
        unfold isKey in Nk. rewrite B2, andb_true_r in Nk. destruct (opnd_eqb_spec (eb x) bp); [|rewrite B3 in A3; congruence].
        destruct (opnd_eqb_spec (ep x) p); [discriminate|auto].
      * rewrite andb_true_iff in St. destruct St as [B1 B2]. apply SO in B1. apply Nat.eqb_eq in B2. rewrite B2 in *.
        assert (y = vb) by congruence. subst y. eapply L4; eauto.
      * apply AP. auto.
    + split; [cbn; now apply avail_more|]. split; [cbn; now apply avail_more|]. split; auto.
      exists a, vb. cbn [ep ev et]. rewrite !RD by auto. split; auto. split; auto. eapply L1; eauto.
  - exfalso. apply (NA b bk i t Gb); auto. rewrite E. apply in_or_app. right. now left.
  - destruct nw; [|constructor]. apply CW. intros t a. eapply M4; eauto.
  - assert (CW' := CW (M5 _ Ek _ _ _ _ Hm)). destruct (roGep i) as [[t c]|] eqn:Eg; auto.
    destruct (base (ORes (dst i))) as [bp|] eqn:Eb; auto. apply put_force.
    + intros x Hx _. rewrite Forall_forall in CW'. auto.
    + destruct (RoO _ _ _ _ _ Hp) as [_ R2]. destruct (R2 _ _ _ _ _ _ Eg Hr Hm) as (a & -> & Hl).
      split; [cbn; apply avail_dst|]. split; [exact I|]. split; auto. exists a, c. cbn. rewrite upd_eq. auto.
Qed.
(** the analysis is right at every point of every run *)
Theorem cache_ok pre : forall b bk e w, pt f b bk pre e w -> Forall (vEnt b bk pre e w) (cacheOf pre).
Proof.
  induction pre as [|i pre IH] using rev_ind; intros b bk e w Hp; [constructor|].
  unfold LdSt.cacheOf. rewrite fold_left_app. cbn. destruct (atPoint_get _ _ _ _ _ _ _ _ _ Hp) as [Gb [post E]].
  destruct (atPoint_snoc _ _ _ _ _ _ _ _ _ _ Hp) as (e0 & w1 & vs & v & Hp0 & Hr & Hm & ->).
  rewrite <- app_assoc in E. eapply next_ok; eauto.
Qed.
Lemma getLast_ok b bk pre e w p t v : pt f b bk pre e w -> getLast base (cacheOf pre) p t = Some v ->
  opAvail (availAt f b bk pre) v /\ exists a y, rd args e p = Some (VOpq a) /\ rd args e v = Some y /\ ld M t a w = Some y.
Proof.
  intros Hp H. pose proof (cache_ok pre b bk e w Hp) as K. unfold getLast in H. destruct (base p) as [bp|] eqn:Eb; [|discriminate].
  destruct (find (isKey bp p t) (cacheOf pre)) as [x|] eqn:Ef; [|discriminate]. cbn in H. injection H as <-.
  apply find_some in Ef as [Hin Hk]. apply isKey_eq in Hk as (_ & E2 & E3). rewrite Forall_forall in K.
  destruct (K x Hin) as (A1 & A2 & A3 & a & y & A4 & A5 & A6). subst p t. split; auto. exists a, y. auto.
Qed.
End F.
End V.
