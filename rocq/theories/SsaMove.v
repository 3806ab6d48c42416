(** Moving an instruction to another block. *)
From Coq Require Import ZArith Lia Bool List Arith.
From Verif Require Import Sim Ssa SsaCfg SsaMerge SsaFwd SsaFwd2 SsaWf SsaDom SsaProps SsaSub SsaVerify SsaEq SsaPhi SsaCse SsaDce SsaIns.
Import ListNotations.

(** Instruction::insertBefore, cmmc/IR/Instruction.cpp:216-222: the instruction is taken out of its block ... *)
Definition cutBlock (x : nat) (bk : block) : block := Block (phis bk) (filter (fun i => negb (Nat.eqb (dst i) x)) (body bk)) (trm bk).
(** ... and put after the phis of the other block ([front]) or before its terminator *)
Definition putBlock (front : bool) (c : inst) (bk : block) : block :=
  Block (phis bk) (if front then c :: body bk else body bk ++ [c]) (trm bk).
Definition mvBlock (front : bool) (x d : nat) (c : inst) (k : nat) (bk : block) : block :=
  if Nat.eqb k d then putBlock front c (cutBlock x bk) else cutBlock x bk.
Definition moveInst (front : bool) (x d : nat) (f : func) : func :=
  match defOf f x with
  | Some c => map (fun kb => (fst kb, mvBlock front x d c (fst kb) (snd kb))) f
  | None => f
  end.

(** operand [x] of an instruction of block [k], of its terminator, of a phi for the edge from [p] *)
Definition usesOk (f : func) (x : nat) (inBody inTerm onEdge : nat -> Prop) : Prop := forall k bk, get k f = Some bk -> reach f k ->
  (forall i, In i (body bk) -> In (ORes x) (ops i) -> inBody k) /\
  (In (ORes x) (termOps (trm bk)) -> inTerm k) /\
  (forall ph p, In ph (phis bk) -> In (p, ORes x) (inc ph) -> reach f p -> onEdge p).

Lemma NoDup_glue {A} (l r : list A) : NoDup l -> NoDup r -> (forall y, In y l -> In y r -> False) -> NoDup (l ++ r).
Proof.
  induction l as [|a l IH]; cbn; intros N1 N2 H; auto. inversion N1 as [|? ? A1 A2]; subst. constructor.
  - intros K. apply in_app_or in K as [K|K]; [contradiction|]. exact (H a (or_introl eq_refl) K).
  - apply IH; auto. intros y H1 H2. exact (H y (or_intror H1) H2).
Qed.

Section Move.
Variables (knd : nat -> kind) (f : func) (front : bool) (x b d : nat) (c : inst) (db : block).
Hypothesis Hf : wfs f.
Hypothesis Hc : defOf f x = Some c.
Hypothesis Hx : defIn f x b.
Hypothesis Rb : reach f b.
Hypothesis Hd : get d f = Some db.
Hypothesis Nbd : b <> d.
Hypothesis Hops : reach f d -> Forall (opAvail (if front then availAt f d db [] else availOut f d)) (ops c).
Hypothesis Huses : usesOk f x (fun k => dominates f d k /\ (k <> d \/ front = true)) (dominates f d) (dominates f d).
Let g := moveInst front x d f.
Let mv := mvBlock front x d c.

Lemma mv_get k : get k g = option_map (mv k) (get k f).
Proof using Hc. unfold g, moveInst. rewrite Hc. apply (get_mapk mv). Qed.
Lemma mv_fst : map fst g = map fst f.
Proof using Hc. unfold g, moveInst. rewrite Hc. apply (fst_mapk mv). Qed.
Lemma mv_entry : entry g = entry f.
Proof using Hc. unfold g, moveInst. rewrite Hc. apply (entry_mapk mv). Qed.
Lemma mv_phis k bk : phis (mv k bk) = phis bk.
Proof using. unfold mv, mvBlock. destruct (Nat.eqb k d); reflexivity. Qed.
Lemma mv_trm k bk : trm (mv k bk) = trm bk.
Proof using. unfold mv, mvBlock. destruct (Nat.eqb k d); reflexivity. Qed.
Lemma mv_path k l : path g k l <-> path f k l.
Proof using Hc.
  split; induction 1 as [|k l bk t H IH Hk Ht].
  - rewrite mv_entry. apply path_entry.
  - rewrite mv_get in Hk. destruct (get k f) as [bk1|] eqn:Ek; [|discriminate]. injection Hk as <-. rewrite mv_trm in Ht. eapply path_next; eauto.
  - rewrite <- mv_entry. apply path_entry.
  - eapply path_next; [exact IH|rewrite mv_get, Hk; reflexivity|]. now rewrite mv_trm.
Qed.
Lemma mv_dom a k : dominates g a k <-> dominates f a k.
Proof using Hc. unfold dominates. split; intros H l Hl; apply H; now apply mv_path. Qed.
Lemma mv_reach k : reach g k <-> reach f k.
Proof using Hc. unfold reach. split; intros [l Hl]; exists l; now apply mv_path. Qed.
Lemma c_dst : dst c = x.
Proof using Hc. now apply defOf_In in Hc. Qed.
Lemma x_split : exists bb p q, get b f = Some bb /\ body bb = p ++ c :: q.
Proof using Hc Hf Hx.
  destruct Hx as (bb & Hb & Hin). destruct (defOf_block f x c b bb (proj1 (proj2 (proj1 Hf))) Hc Hb Hin) as (_ & p & q & E). exists bb, p, q. auto.
Qed.
Lemma cut_In y bk : In y (map dst (body (cutBlock x bk))) <-> In y (map dst (body bk)) /\ y <> x.
Proof using.
  cbn. split.
  - intros H. apply in_map_iff in H as (i & <- & H). apply filter_In in H as [H1 H2]. split; [now apply in_map|].
    intros E. rewrite E, Nat.eqb_refl in H2. discriminate.
  - intros [H N]. apply in_map_iff in H as (i & <- & H). apply in_map_iff. exists i. split; auto. apply filter_In. split; auto.
    destruct (Nat.eqb_spec (dst i) x); [contradiction|reflexivity].
Qed.
Lemma x_noPhi k bk : get k f = Some bk -> ~ In x (map pdst (phis bk)).
Proof using Hc Hf. intros Hk H. rewrite (defOf_phi f x k bk (proj1 (proj2 (proj1 Hf))) Hk H) in Hc. discriminate. Qed.
Lemma mv_results k bk y : get k f = Some bk -> In y (resultsOf (mv k bk)) <-> (In y (resultsOf bk) /\ y <> x) \/ (k = d /\ y = x).
Proof using Hc Hf.
  clear Hops Huses. intros Hk. unfold resultsOf. rewrite mv_phis. pose proof (x_noPhi k bk Hk) as Np. pose proof (cut_In y bk) as C. pose proof c_dst as Dc.
  assert (P : In y (map pdst (phis bk)) -> y <> x) by (intros H ->; contradiction).
  unfold mv, mvBlock. destruct (Nat.eqb_spec k d) as [->|N].
  - assert (E : In y (map dst (body (putBlock front c (cutBlock x bk)))) <-> In y (map dst (body (cutBlock x bk))) \/ y = x).
    { unfold putBlock. cbn [body]. destruct front; cbn [map In]; [|rewrite map_app, in_app_iff; cbn [map In]]; rewrite Dc; clear; intuition. }
    rewrite !in_app_iff, E, C. clear - P. intuition.
  - rewrite !in_app_iff, C. clear - P N. intuition.
Qed.
Lemma mv_defIn y k : defIn g y k <-> (y <> x /\ defIn f y k) \/ (y = x /\ k = d).
Proof using Hc Hf Hd.
  unfold defIn. split.
  - intros (bk & Hk & Hy). rewrite mv_get in Hk. destruct (get k f) as [bk1|] eqn:Ek; [|discriminate]. injection Hk as <-.
    apply (mv_results k bk1 y Ek) in Hy as [[H1 H2]|[-> ->]]; eauto.
  - intros [[N (bk & Hk & Hy)]|[-> ->]].
    + exists (mv k bk). rewrite mv_get, Hk. split; auto. apply (mv_results k bk y Hk). auto.
    + exists (mv d db). rewrite mv_get, Hd. split; auto. apply (mv_results d db x Hd). auto.
Qed.
Lemma mv_availIn k y : y <> x -> availIn f k y -> availIn g k y.
Proof using Hc Hf Hd. intros N (a & A & B & C). exists a. split; [apply mv_defIn; auto|]. split; auto. now apply mv_dom. Qed.
Lemma mv_availOut k y : y <> x -> availOut f k y -> availOut g k y.
Proof using Hc Hf Hd. intros N (a & A & C). exists a. split; [apply mv_defIn; auto|]. now apply mv_dom. Qed.
Lemma x_self : ~ In (ORes x) (ops c).
Proof using Hc Hf Hx Rb.
  intros H. destruct x_split as (bb & p & q & Hb & E). destruct Hf as (Hw & Hs & _). pose proof Hw as (_ & U & _).
  destruct (Hs b bb Hb Rb) as (S1 & _ & _). specialize (S1 p c q E). rewrite Forall_forall in S1. specialize (S1 _ H). cbn in S1.
  pose proof (block_NoDup f b bb U Hb) as N. pose proof c_dst as Dc. destruct S1 as [(a & A & B & _)|[A|A]].
  - apply B. eapply defIn_unique; eauto.
  - exact (x_noPhi b bb Hb A).
  - apply (NoDup_app_r) in N. rewrite E, map_app in N. eapply NoDup_app_disj; [exact N|exact A|]. left. exact Dc.
Qed.
Lemma filter_pos (q : inst -> bool) l : forall pre i post, filter q l = pre ++ i :: post ->
  exists p r, l = p ++ i :: r /\ pre = filter q p /\ q i = true.
Proof using.
  induction l as [|a l IH]; intros pre i post H; [destruct pre; discriminate|]. cbn in H. destruct (q a) eqn:Q.
  - destruct pre as [|a' pre]; cbn in H; injection H as -> H.
    + exists [], l. auto.
    + destruct (IH pre i post H) as (p & r & -> & -> & Qi). exists (a' :: p), r. cbn. rewrite Q. auto.
  - destruct (IH pre i post H) as (p & r & -> & -> & Qi). exists (a :: p), r. cbn. rewrite Q. auto.
Qed.
(** a position in the new body *)
Lemma mv_pos k bk pre i post : get k f = Some bk -> body (mv k bk) = pre ++ i :: post ->
  (i = c /\ k = d /\ (if front then pre = [] else pre = body (cutBlock x bk))) \/
  (exists p r, body bk = p ++ i :: r /\ dst i <> x /\ (forall y, In y (map dst p) -> y <> x -> In y (map dst pre)) /\
     (k = d -> front = true -> In x (map dst pre))).
Proof using Hc.
  clear Hops Huses. intros Hk E. pose proof c_dst as Dc.
  assert (F : forall pre0 post0, body (cutBlock x bk) = pre0 ++ i :: post0 -> exists p r, body bk = p ++ i :: r /\ dst i <> x /\
     (forall y, In y (map dst p) -> y <> x -> In y (map dst pre0))).
  { intros pre0 post0 E0. cbn in E0. destruct (filter_pos _ _ _ _ _ E0) as (p & r & Eb & -> & Q). exists p, r. split; auto. split.
    - intros K. rewrite K, Nat.eqb_refl in Q. discriminate.
    - intros y Hy Ny. exact (proj2 (cut_In y (Block [] p TUnreach)) (conj Hy Ny)). }
  unfold mv, mvBlock in E. destruct (Nat.eqb_spec k d) as [->|N].
  - cbn [body putBlock] in E. destruct front.
    + destruct pre as [|a pre]; cbn in E; injection E as E1 E2.
      * left. auto.
      * right. destruct (F pre post E2) as (p & r & Eb & Ni & Hp). exists p, r. split; auto. split; auto. split.
        -- intros y Hy Ny. cbn. right. auto.
        -- intros _ _. left. rewrite <- E1. exact Dc.
    + destruct (list_eq_dec Nat.eq_dec [] (map dst post)) as [Ep|Ep].
      * destruct post; [|discriminate]. apply app_inj_tail in E as [E1 E2]. left. auto.
      * right. destruct (@exists_last _ post) as (post' & z & ->); [intros ->; apply Ep; reflexivity|].
        rewrite app_comm_cons, app_assoc in E. apply app_inj_tail in E as [E1 E2]. destruct (F pre post' E1) as (p & r & Eb & Ni & Hp).
        exists p, r. split; auto. split; auto. split; auto. intros _ Kf. discriminate Kf.
  - right. destruct (F pre post E) as (p & r & Eb & Ni & Hp). exists p, r. split; auto. split; auto. split; auto. intros; contradiction.
Qed.
Lemma put_In y bk : In y (map dst (body (mv d bk))) <-> (In y (map dst (body bk)) /\ y <> x) \/ y = x.
Proof using Hc.
  clear Hops Huses. pose proof (cut_In y bk) as C. pose proof c_dst as Dc. unfold mv, mvBlock. rewrite Nat.eqb_refl. unfold putBlock. cbn [body].
  rewrite <- C. destruct front; cbn [map In]; [|rewrite map_app, in_app_iff; cbn [map In]]; rewrite Dc; clear; intuition.
Qed.
Lemma mv_body_In k bk y : In y (map dst (body bk)) -> y <> x -> In y (map dst (body (mv k bk))).
Proof using Hc.
  intros H N. destruct (Nat.eq_dec k d) as [->|Nk]; [apply put_In; auto|].
  unfold mv, mvBlock. destruct (Nat.eqb_spec k d); [contradiction|]. apply cut_In. auto.
Qed.
Lemma mv_x_in k pre bk : dominates f d k -> k <> d \/ In x (map dst pre) -> availAt g k bk pre x.
Proof using Hc Hf Hd.
  intros D [N|H]; [|unfold availAt; auto]. left. exists d. split; [apply mv_defIn; auto|]. split; auto. now apply mv_dom.
Qed.
Lemma mv_ssa : ssa g.
Proof using Hc Hf Hd Hops Huses Hx Rb.
  intros k bk Hk R. rewrite mv_get in Hk. destruct (get k f) as [bk1|] eqn:Ek; [|discriminate]. injection Hk as <-. apply mv_reach in R.
  pose proof Hf as (Hw & Hs & _). destruct (Hs k bk1 Ek R) as (S1 & S2 & S3). destruct (Huses k bk1 Ek R) as (U1 & U2 & U3).
  split; [|split].
  - intros pre i post E. destruct (mv_pos k bk1 pre i post Ek E) as [(-> & -> & Epre)|(p & r & Eb & Ni & Hp & Hfr)].
    + specialize (Hops R). rewrite Forall_forall in Hops |- *. intros [v|n|y] Ho; cbn; auto. specialize (Hops _ Ho). cbn in Hops.
      assert (bk1 = db) by congruence. subst bk1.
      assert (Ny : y <> x) by (intros ->; exact (x_self Ho)).
      assert (A : availIn f d y \/ In y (map pdst (phis db)) \/ (In y (map dst (body db)) /\ pre = body (cutBlock x db))).
      { clear - Hops Hd Epre. destruct front.
        - destruct Hops as [A|[A|[]]]; auto.
        - apply (availOut_at f d db y Hd) in Hops. destruct Hops as [A|[A|A]]; auto. }
      destruct A as [A|[A|[A1 A2]]]; [left; now apply mv_availIn|right; left; now rewrite mv_phis|].
      right. right. rewrite A2. apply cut_In. auto.
    + specialize (S1 p i r Eb). rewrite Forall_forall in S1 |- *. intros [v|n|y] Ho; cbn; auto. specialize (S1 _ Ho). cbn in S1.
      destruct (Nat.eq_dec y x) as [->|Ny].
      * destruct (U1 i) as [D K]; auto; [rewrite Eb; apply in_or_app; right; now left|]. apply mv_x_in; auto.
        destruct (Nat.eq_dec k d) as [->|]; auto. destruct K as [K|K]; [contradiction|]. right. auto.
      * destruct S1 as [A|[A|A]]; [left; now apply mv_availIn|right; left; now rewrite mv_phis|]. right. right. auto.
  - rewrite mv_trm. rewrite Forall_forall in S2 |- *. intros [v|n|y] Ho; cbn; auto. specialize (S2 _ Ho). cbn in S2.
    destruct (Nat.eq_dec y x) as [->|Ny].
    + apply mv_x_in; auto. destruct (Nat.eq_dec k d) as [->|]; auto. right. apply put_In. auto.
    + destruct S2 as [A|[A|A]]; [left; now apply mv_availIn|right; left; now rewrite mv_phis|]. right. right. now apply mv_body_In.
  - intros ph p o Hph Hi Rp. rewrite mv_phis in Hph. apply mv_reach in Rp. specialize (S3 ph p o Hph Hi Rp). destruct o as [v|n|y]; cbn in *; auto.
    destruct (Nat.eq_dec y x) as [->|Ny]; [|now apply mv_availOut]. exists d. split; [apply mv_defIn; auto|]. apply mv_dom. eauto.
Qed.
Lemma NoDup_filterd bk : NoDup (resultsOf bk) -> NoDup (resultsOf (cutBlock x bk)).
Proof using.
  unfold resultsOf. cbn. intros N. apply NoDup_glue.
  - exact (NoDup_app_l _ _ N).
  - apply filter_NoDup_map. exact (NoDup_app_r _ _ N).
  - intros y H1 H2. apply in_map_iff in H2 as (i & E2 & H2). apply filter_In in H2 as [H2 _].
    apply (NoDup_app_disj _ _ N y); auto. rewrite <- E2. now apply in_map.
Qed.
Lemma mv_wf : wf g.
Proof using Hc Hf Hd Hx Rb.
  clear Hops Huses. pose proof Hf as (Hw & _). pose proof Hw as (W1 & W2 & W4 & W5 & W6). destruct (wf_uniqR f Hw) as [U1 U2].
  pose proof mv_fst as Nf. split; [|split; [split|split; [|split]]].
  - intros E. apply (f_equal (map fst)) in E. rewrite Nf in E. destruct f; [congruence|discriminate].
  - rewrite Nf. apply W2.
  - apply uniqR_iff; [rewrite Nf; apply W2|]. split.
    + intros k bk Hk. rewrite mv_get in Hk. destruct (get k f) as [bk1|] eqn:Ek; [|discriminate]. injection Hk as <-.
      pose proof (NoDup_filterd bk1 (U1 k bk1 Ek)) as N. unfold mv, mvBlock. destruct (Nat.eqb_spec k d) as [->|]; auto.
      assert (Nx : ~ In x (resultsOf (cutBlock x bk1))).
      { intros K. apply in_app_or in K as [K|K]; [exact (x_noPhi d bk1 Ek K)|]. apply cut_In in K. now apply (proj2 K). }
      unfold resultsOf in *. cbn [phis putBlock body]. pose proof c_dst as Dc.
      destruct front; cbn [map]; rewrite ?map_app; cbn [map]; rewrite Dc.
      * apply NoDup_Add with (a := x) (l := map pdst (phis (cutBlock x bk1)) ++ map dst (body (cutBlock x bk1))); [apply Add_app|auto].
      * rewrite app_assoc. apply NoDup_Add with (a := x) (l := (map pdst (phis (cutBlock x bk1)) ++ map dst (body (cutBlock x bk1))) ++ []); [apply Add_app|].
        rewrite app_nil_r. auto.
    + intros k1 k2 b1 b2 y H1 H2 X1 X2.
      assert (D1 : defIn g y k1) by (exists b1; auto). assert (D2 : defIn g y k2) by (exists b2; auto).
      apply mv_defIn in D1, D2. destruct D1 as [[N1 D1]|[E1 ->]], D2 as [[N2 D2]|[E2 ->]]; try contradiction; auto.
      eapply defIn_unique; eauto.
  - intros k bk t Hk Ht. rewrite Nf. rewrite mv_get in Hk. destruct (get k f) as [bk1|] eqn:Ek; [|discriminate]. injection Hk as <-.
    rewrite mv_trm in Ht. apply (W4 k bk1); auto.
  - intros k bk ph p o Hk Hph Hi. rewrite mv_get in Hk. destruct (get k f) as [bk1|] eqn:Ek; [|discriminate]. injection Hk as <-.
    rewrite mv_phis in Hph. destruct (W5 k bk1 ph p o Ek Hph Hi) as (pb & A & B). exists (mv p pb). rewrite mv_get, A, mv_trm. auto.
  - intros k bk ph p pb Hk Hph Hp Hs. rewrite mv_get in Hk, Hp. destruct (get k f) as [bk1|] eqn:Ek; [|discriminate]. injection Hk as <-.
    destruct (get p f) as [pb1|] eqn:Ep; [|discriminate]. injection Hp as <-. rewrite mv_phis in Hph. rewrite mv_trm in Hs.
    apply (W6 k bk1 ph p pb1); auto.
Qed.
Lemma mv_wfs : wfs g.
Proof using Hc Hf Hd Hops Huses Hx Rb.
  split; [apply mv_wf|split; [apply mv_ssa|]]. destruct Hf as (_ & _ & He). intros bk. rewrite mv_entry, mv_get.
  destruct (get (entry f) f) as [bk1|] eqn:E; [|discriminate]. intros [= <-]. rewrite mv_phis. auto.
Qed.

(** *** the moved instruction has the value it had wherever both are available *)
Hypothesis Hmov : isMovable knd (opc c) = true.
Hypothesis Hsafe : reach f d -> isSpeculatable knd c = true \/ availIn f d x.
Lemma mv_defOf : defOf g x = Some c.
Proof using Hc Hf Hd Hops Huses Hx Rb.
  destruct mv_wfs as ((_ & U & _) & _). pose proof c_dst as Dc.
  assert (K : In c (body (mv d db))).
  { clear. unfold mv, mvBlock. rewrite Nat.eqb_refl. unfold putBlock. cbn [body]. destruct front; [now left|apply in_or_app; right; now left]. }
  apply in_split in K as (p & q & E). refine (defOf_body g x d (mv d db) p c q U _ E Dc). now rewrite mv_get, Hd.
Qed.
Inductive al : list inst -> list inst -> Prop :=
| al_nil : al [] []
| al_same i l l' : dst i <> x -> al l l' -> al (i :: l) (i :: l')
| al_f l l' : al l l' -> al (c :: l) l'
| al_g l l' : al l l' -> al l (c :: l').
Lemma al_filter l : (forall i, In i l -> dst i = x -> i = c) -> al l (filter (fun i => negb (Nat.eqb (dst i) x)) l).
Proof using.
  induction l as [|i l IH]; intros H; cbn; [constructor|]. destruct (Nat.eqb_spec (dst i) x) as [E|N]; cbn.
  - rewrite (H i (or_introl eq_refl) E). apply al_f. apply IH. intros j Hj. apply H. now right.
  - apply al_same; auto. apply IH. intros j Hj. apply H. now right.
Qed.
Lemma al_snoc l l' : al l l' -> al l (l' ++ [c]).
Proof using. induction 1; cbn; constructor; auto. constructor. Qed.
Lemma al_mv k bk : get k f = Some bk -> al (body bk) (body (mv k bk)).
Proof using Hc Hf.
  intros Hk. pose proof Hf as ((_ & U & _) & _).
  assert (A : al (body bk) (body (cutBlock x bk))).
  { apply al_filter. intros i Hi E. apply in_split in Hi as (p & q & Ei). pose proof (defOf_body f x k bk p i q U Hk Ei E). congruence. }
  clear - A. unfold mv, mvBlock. destruct (Nat.eqb k d); auto. unfold putBlock. cbn [body]. destruct front; [now apply al_g|now apply al_snoc].
Qed.

Section Sim.
Context {W : Type} (m : sem W) (args : nat -> value).
Hypothesis OK : okSem knd m.
Let Pf := eqn m args knd f.
Let Pg := eqn m args knd g.
Lemma ops_rds e e' : eqOff [x] e e' -> rds args e (ops c) = rds args e' (ops c).
Proof using Hc Hf Hx Rb.
  intros A. apply rds_ext. intros y Hy. apply A. intros [<-|[]]. apply x_self. now apply res_of_In.
Qed.
Lemma x_agree e e' : eqOff [x] e e' -> Pf x e -> Pg x e' -> e x = e' x.
Proof using Hc Hf Hd Hops Huses Hx Rb Hmov OK.
  intros A F G. destruct (F c Hc Hmov) as (vs & v & w1 & w2 & F1 & F2 & F3). destruct (G c mv_defOf Hmov) as (vs' & v' & w1' & w2' & G1 & G2 & G3).
  rewrite (ops_rds e e' A) in F1. assert (vs' = vs) by congruence. subst vs'. destruct (movable_sem knd m (opc c) OK Hmov) as [h Hh].
  rewrite Hh in F3, G3. rewrite F2, G2. destruct (h vs); congruence.
Qed.
Lemma c_evt vs w : evt m (opc c) vs w = [].
Proof using OK Hmov.
  unfold evt. destruct (visible m (opc c)) eqn:E; auto. destruct OK as (_ & _ & _ & _ & _ & _ & _ & _ & P9). destruct (P9 _ E) as (st & nr & K).
  unfold isMovable in Hmov. rewrite K in Hmov. discriminate.
Qed.
(** an operand available in both *)
Lemma both_rd (A A' : nat -> Prop) e e' o : eqOff [x] e e' -> (forall y, A y -> Pf y e) -> (forall y, A' y -> Pg y e') ->
  opAvail A o -> opAvail A' o -> rd args e o = rd args e' o.
Proof using Hc Hf Hd Hops Huses Hx Rb Hmov OK.
  intros E F G H H'. destruct o as [v|n|y]; auto. cbn in *. destruct (Nat.eq_dec y x) as [->|N].
  - exact (x_agree e e' E (F x H) (G x H')).
  - apply E. intros [K|[]]. congruence.
Qed.
Lemma both_rds (A A' : nat -> Prop) e e' l : eqOff [x] e e' -> (forall y, A y -> Pf y e) -> (forall y, A' y -> Pg y e') ->
  Forall (opAvail A) l -> Forall (opAvail A') l -> rds args e l = rds args e' l.
Proof using Hc Hf Hd Hops Huses Hx Rb Hmov OK.
  intros E F G H. induction H as [|o l Ho H IH]; intros H'; auto. inversion H' as [|? ? Ho' H'']; subst. cbn.
  rewrite (both_rd A A' e e' o E F G Ho Ho'), (IH H''). reflexivity.
Qed.
Lemma both_term (A A' : nat -> Prop) e e' t : eqOff [x] e e' -> (forall y, A y -> Pf y e) -> (forall y, A' y -> Pg y e') ->
  Forall (opAvail A) (termOps t) -> Forall (opAvail A') (termOps t) -> runTerm args e t = runTerm args e' t.
Proof using Hc Hf Hd Hops Huses Hx Rb Hmov OK.
  intros E F G H H'. destruct t as [t|o t1 t2|o cs t|[o|]|]; cbn in *; auto;
    inversion H as [|? ? Ho _]; inversion H' as [|? ? Ho' _]; subst; rewrite (both_rd A A' e e' o E F G Ho Ho'); reflexivity.
Qed.
Lemma both_phis (A A' : nat -> Prop) p e e' l : eqOff [x] e e' -> (forall y, A y -> Pf y e) -> (forall y, A' y -> Pg y e') ->
  (forall ph o, In ph l -> In (p, o) (inc ph) -> opAvail A o /\ opAvail A' o) -> rdPhis args e p l = rdPhis args e' p l.
Proof using Hc Hf Hd Hops Huses Hx Rb Hmov OK.
  intros E F G. induction l as [|ph l IH]; intros H; auto. cbn. rewrite IH; [|intros ph' o Hp; apply H; now right].
  destruct (get p (inc ph)) as [o|] eqn:Eo; auto. destruct (H ph o (or_introl eq_refl) (get_In _ _ _ Eo)) as [H1 H2].
  now rewrite (both_rd A A' e e' o E F G H1 H2).
Qed.

Lemma f_inst : forall k bk pre i post e w vs v w', reach f k -> get k f = Some bk -> body bk = pre ++ i :: post ->
  factsAt f Pf k bk pre e -> rds args e (ops i) = Some vs -> meaning m (opc i) vs w = IOk v w' -> factsAt f Pf k bk (pre ++ [i]) (upd e (dst i) v).
Proof using Hf.
  destruct Hf as ((_ & U & _) & S & _). intros k bk pre i post e w vs v w'.
  exact (facts_inst m args f Pf (eqnD f) U (eqn_frame m args knd f) (eqn_dep f U S) (eqn_body m args knd f U S) k bk pre i post e w vs v w').
Qed.
Lemma g_inst : forall k bk pre i post e w vs v w', reach g k -> get k g = Some bk -> body bk = pre ++ i :: post ->
  factsAt g Pg k bk pre e -> rds args e (ops i) = Some vs -> meaning m (opc i) vs w = IOk v w' -> factsAt g Pg k bk (pre ++ [i]) (upd e (dst i) v).
Proof using Hc Hf Hd Hops Huses Hx Rb.
  destruct mv_wfs as ((_ & U & _) & S & _). intros k bk pre i post e w vs v w'.
  exact (facts_inst m args g Pg (eqnD g) U (eqn_frame m args knd g) (eqn_dep g U S) (eqn_body m args knd g U S) k bk pre i post e w vs v w').
Qed.
Lemma g_defd : forall k bk pre i post e (w : W) vs v w', reach g k -> get k g = Some bk -> body bk = pre ++ i :: post ->
  definedAt g k bk pre e -> rds args e (ops i) = Some vs -> meaning m (opc i) vs w = IOk v w' -> definedAt g k bk (pre ++ [i]) (upd e (dst i) v).
Proof using Hc Hf Hd Hops Huses Hx Rb.
  destruct mv_wfs as ((_ & U & _) & S & _). exact (defined_inst m args g U).
Qed.

Lemma body_sim k bk : get k f = Some bk -> reach f k -> forall l l', al l l' -> forall pre pre' e e' w,
  body bk = pre ++ l -> body (mv k bk) = pre' ++ l' -> eqOff [x] e e' ->
  factsAt f Pf k bk pre e -> factsAt g Pg k (mv k bk) pre' e' -> definedAt g k (mv k bk) pre' e' ->
  match runBody m args e w l with
  | BGo e2 w2 t2 => exists e2', runBody m args e' w l' = BGo e2' w2 t2 /\ eqOff [x] e2 e2'
  | BHalt w2 t2 => runBody m args e' w l' = BHalt w2 t2
  | BBad _ => True
  end.
Proof using Hc Hf Hd Hops Huses Hx Rb Hmov OK Hsafe.
  intros Hk R. pose proof Hf as (Hw & S & _). destruct mv_wfs as (Hw' & S' & _). destruct (S k bk Hk R) as (S1 & _).
  assert (Hk' : get k g = Some (mv k bk)) by (rewrite mv_get, Hk; reflexivity). assert (R' : reach g k) by (now apply mv_reach).
  destruct (S' k (mv k bk) Hk' R') as (S1' & _). pose proof c_dst as Dc.
  induction 1 as [|i l l' Ni H IH|l l' H IH|l l' H IH]; intros pre pre' e e' w E E' A F G D.
  - cbn. eauto.
  - specialize (S1 pre i l E). specialize (S1' pre' i l' E'). cbn.
    rewrite <- (both_rds _ _ e e' (ops i) A F G S1 S1'). destruct (rds args e (ops i)) as [vs|] eqn:Er; [|exact I].
    pose proof Er as Er'. rewrite (both_rds _ _ e e' (ops i) A F G S1 S1') in Er'.
    destruct (meaning m (opc i) vs w) as [v w1|w1|] eqn:Em; auto.
    assert (A1 : eqOff [x] (upd e (dst i) v) (upd e' (dst i) v)). { intros y Hy. unfold upd. destruct (Nat.eqb y (dst i)); auto. }
    assert (X : body bk = (pre ++ [i]) ++ l) by (rewrite <- app_assoc; exact E).
    assert (X' : body (mv k bk) = (pre' ++ [i]) ++ l') by (rewrite <- app_assoc; exact E').
    specialize (IH (pre ++ [i]) (pre' ++ [i]) _ _ w1 X X' A1 (f_inst k bk pre i l e w vs v w1 R Hk E F Er Em) (g_inst k _ pre' i l' e' w vs v w1 R' Hk' E' G Er' Em)
      (g_defd k _ pre' i l' e' w vs v w1 R' Hk' E' D Er' Em)).
    destruct (runBody m args (upd e (dst i) v) w1 l) as [e2 w2 t2|w2 t2|t2]; cbn; auto.
    + destruct IH as (e2' & -> & A2). cbn. eauto.
    + rewrite IH. reflexivity.
  - cbn. destruct (rds args e (ops c)) as [vs|] eqn:Er; [|exact I]. rewrite c_evt. destruct (movable_sem knd m (opc c) OK Hmov) as [h Hh].
    pose proof (Hh vs w) as Hm. destruct (h vs) as [v|]; rewrite Hm; [|exact I].
    assert (A1 : eqOff [x] (upd e (dst c) v) e'). { intros y Hy. rewrite <- (A y Hy). apply upd_ne. intros ->. apply Hy. left. auto. }
    assert (X : body bk = (pre ++ [c]) ++ l) by (rewrite <- app_assoc; exact E).
    specialize (IH (pre ++ [c]) pre' _ _ w X E' A1 (f_inst k bk pre c l e w vs v w R Hk E F Er Hm) G D).
    destruct (runBody m args (upd e (dst c) v) w l) as [e2 w2 t2|w2 t2|t2]; cbn; auto.
  - assert (Ekd : k = d).
    { assert (K : In x (map dst (body (mv k bk)))) by (rewrite E', map_app; apply in_or_app; right; left; exact Dc).
      assert (Dx : defIn g x k). { exists (mv k bk). split; auto. apply in_or_app. now right. }
      apply mv_defIn in Dx as [[N _]|[_ N]]; [now destruct (N eq_refl)|exact N]. }
    assert (Rc : exists vs v, rds args e' (ops c) = Some vs /\ forall w, meaning m (opc c) vs w = IOk v w).
    { specialize (S1' pre' c l' E'). assert (Rd : rds args e' (ops c) <> None).
      { apply rds_def. eapply Forall_impl; [|exact S1']. intros [v|n|y]; cbn; auto. }
      destruct (rds args e' (ops c)) as [vs|] eqn:Er; [|congruence]. exists vs. destruct (movable_sem knd m (opc c) OK Hmov) as [h Hh].
      assert (Rf : reach f d) by (rewrite <- Ekd; exact R). destruct (Hsafe Rf) as [Sp|Av].
      - destruct (spec_sem knd m args c e' w vs OK Sp Er) as [[v Hv] _]. exists v. split; auto. intros w'. rewrite Hh in Hv |- *. destruct (h vs); congruence.
      - assert (F1 : Pf x e). { apply F. left. rewrite Ekd. exact Av. }
        destruct (F1 c Hc Hmov) as (vs' & v & w1 & w2 & Q1 & Q2 & Q3). rewrite (ops_rds e e' A) in Q1. assert (vs' = vs) by congruence. subst vs'.
        exists v. split; auto. intros w'. rewrite Hh in Q3 |- *. destruct (h vs); congruence. }
    destruct Rc as (vs & v & Er & Hm). cbn. rewrite Er, Hm, c_evt.
    assert (A1 : eqOff [x] e (upd e' (dst c) v)). { intros y Hy. rewrite (A y Hy). symmetry. apply upd_ne. intros ->. apply Hy. left. auto. }
    assert (X' : body (mv k bk) = (pre' ++ [c]) ++ l') by (rewrite <- app_assoc; exact E').
    specialize (IH pre (pre' ++ [c]) _ _ w E X' A1 F (g_inst k _ pre' c l' e' w vs v w R' Hk' E' G Er (Hm w)) (g_defd k _ pre' c l' e' w vs v w R' Hk' E' D Er (Hm w))).
    destruct (runBody m args e w l) as [e2 w2 t2|w2 t2|t2]; cbn; auto.
    + destruct IH as (e2' & -> & A2). cbn. eauto.
    + rewrite IH. reflexivity.
Qed.

Lemma move_at w : refinesAt (step m args f) (step m args g) (start f w) (start g w).
Proof using Hc Hf Hd Hops Huses Hx Rb Hmov OK Hsafe.
  pose proof Hf as (Hw & S & _). pose proof Hw as (_ & U & _). destruct mv_wfs as (Hw' & S' & _). pose proof Hw' as (_ & U' & _).
  apply (sim_refines (step m args f) (step m args g)
    (fun s s' => cur s' = cur s /\ prev s' = prev s /\ wd s' = wd s /\ eqOff [x] (en s) (en s') /\ hist f s /\ factsIn f Pf s /\ hist g s' /\ factsIn g Pg s' /\ definedIn g s')).
  2:{ unfold start. rewrite mv_entry. repeat split; auto using eqOff_refl; [exact (hist_start f w)|]. rewrite <- mv_entry. exact (hist_start g w). }
  intros s s' Hs (Hcu & Hp & Hwd & A & Hh & F & Hh' & G & D). pose proof (fun t => safe_step m args f s t Hs) as Hbad. apply meets1.
  assert (NextF : forall s1 t, step m args f s = Go s1 t -> hist f s1 /\ factsIn f Pf s1).
  { intros s1 t H1. split; [eapply hist_step; eauto|].
    exact (facts_step m args f Pf (eqnD f) U (eqn_frame m args knd f) (eqn_dep f U S) (eqn_phi m args knd f U) (eqn_body m args knd f U S) s s1 t Hh F H1). }
  assert (NextG : forall s1 t, step m args g s' = Go s1 t -> hist g s1 /\ factsIn g Pg s1 /\ definedIn g s1).
  { intros s1 t H1. split; [eapply hist_step; eauto|]. split; [|eapply defined_step; eauto].
    exact (facts_step m args g Pg (eqnD g) U' (eqn_frame m args knd g) (eqn_dep g U' S') (eqn_phi m args knd g U') (eqn_body m args knd g U' S') s' s1 t Hh' G H1). }
  unfold step in *. rewrite Hcu in *. rewrite mv_get in *. destruct (get (cur s) f) as [bk|] eqn:Eb; [|exact (Hbad [] eq_refl)].
  assert (Eb' : get (cur s') g = Some (mv (cur s) bk)) by (rewrite Hcu, mv_get, Eb; reflexivity).
  cbn [option_map] in *. unfold runBlock in *. rewrite Hp, Hwd, mv_phis, mv_trm in *.
  pose proof (hist_reach _ _ Hh) as R. pose proof (hist_reach _ _ Hh') as R'. rewrite Hcu in R'.
  destruct (S (cur s) bk Eb R) as (_ & S2 & S3). rewrite Hcu in Eb'. destruct (S' (cur s) _ Eb' R') as (_ & S2' & S3'). rewrite mv_trm in S2'. rewrite mv_phis in S3'.
  destruct (enter args (en s) (prev s) (phis bk)) as [e1|] eqn:En; [|exact (Hbad [] eq_refl)].
  assert (N : exists e1', enter args (en s') (prev s) (phis bk) = Some e1' /\ eqOff [x] e1 e1').
  { unfold enter in *. destruct (prev s) as [p|] eqn:Ep.
    - destruct (hist_prev f s p Hh Ep) as (Rp & _). unfold factsIn in F, G. rewrite Ep in F. rewrite Hp in G.
      rewrite <- (both_phis (availOut f p) (availOut g p) p (en s) (en s') (phis bk) A F G).
      2:{ intros ph o Hph Hi. split; [exact (S3 ph p o Hph Hi Rp)|]. refine (S3' ph p o Hph Hi _). now apply mv_reach. }
      destruct (rdPhis args (en s) p (phis bk)) as [vs|]; [|discriminate]. cbn in *. injection En as <-. eexists. split; [reflexivity|]. now apply updAll_eqOff.
    - destruct (phis bk); [|discriminate]. injection En as <-. eauto. }
  destruct N as (e1' & En' & A1). rewrite En' in *.
  assert (F1 : factsAt f Pf (cur s) bk [] e1).
  { exact (facts_enter args f Pf (eqnD f) U (eqn_frame m args knd f) (eqn_dep f U S) (eqn_phi m args knd f U) s bk e1 Hh F Eb En). }
  assert (En2 : enter args (en s') (prev s') (phis (mv (cur s) bk)) = Some e1') by (rewrite Hp, mv_phis; exact En').
  assert (Eb2 : get (cur s') g = Some (mv (cur s) bk)) by (rewrite Hcu; exact Eb').
  assert (G1 : factsAt g Pg (cur s) (mv (cur s) bk) [] e1').
  { rewrite <- Hcu. rewrite Hcu at 2. exact (facts_enter args g Pg (eqnD g) U' (eqn_frame m args knd g) (eqn_dep g U' S') (eqn_phi m args knd g U') s' _ e1' Hh' G Eb2 En2). }
  assert (D1 : definedAt g (cur s) (mv (cur s) bk) [] e1').
  { rewrite <- Hcu. rewrite Hcu at 2. exact (defined_enter args g U' s' _ e1' Hh' D Eb2 En2). }
  pose proof (body_sim (cur s) bk Eb R _ _ (al_mv (cur s) bk Eb) [] [] e1 e1' (wd s) eq_refl eq_refl A1 F1 G1 D1) as K.
  destruct (runBody m args e1 (wd s) (body bk)) as [e2 w2 t2|w2 t2|t2] eqn:Er; [|rewrite K; auto|exact (Hbad t2 eq_refl)].
  destruct K as (e2' & Er' & A2). rewrite Er' in *.
  assert (F2 : factsAt f Pf (cur s) bk (body bk) e2).
  { exact (facts_body m args f Pf (eqnD f) U (eqn_frame m args knd f) (eqn_dep f U S) (eqn_body m args knd f U S) (cur s) bk R Eb (body bk) [] _ _ _ _ _ eq_refl F1 Er). }
  assert (G2 : factsAt g Pg (cur s) (mv (cur s) bk) (body (mv (cur s) bk)) e2').
  { exact (facts_body m args g Pg (eqnD g) U' (eqn_frame m args knd g) (eqn_dep g U' S') (eqn_body m args knd g U' S') (cur s) _ R' Eb' _ [] _ _ _ _ _ eq_refl G1 Er'). }
  rewrite <- (both_term _ _ e2 e2' (trm bk) A2 F2 G2 S2 S2') in *.
  destruct (runTerm args e2 (trm bk)) as [b'|v|]; auto; [|exact (Hbad t2 eq_refl)].
  split; auto. cbn. destruct (NextF _ _ eq_refl) as (N1 & N2). destruct (NextG _ _ eq_refl) as (N3 & N4 & N5). repeat split; auto.
Qed.
End Sim.
Lemma move_good : good knd f g.
Proof using Hc Hf Hd Hops Huses Hx Rb Hmov Hsafe. split; [|apply mv_wfs]. intros W m args w OK. now apply move_at. Qed.
End Move.
