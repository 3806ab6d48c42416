(** Inserting an instruction that cannot fail. *)
From Coq Require Import ZArith Lia Bool List Arith.
From Verif Require Import Sim Ssa SsaCfg SsaMerge SsaFwd SsaFwd2 SsaWf SsaDom SsaProps SsaSub SsaVerify SsaEq SsaPhi SsaCse.
Import ListNotations.

(** Instruction::insertBefore, cmmc/IR/Instruction.cpp:216-222: [c] becomes instruction number [n] of the body *)
Definition insBlock (n : nat) (c : inst) (bk : block) : block := Block (phis bk) (firstn n (body bk) ++ c :: skipn n (body bk)) (trm bk).
Definition insertAt (b n : nat) (c : inst) (f : func) : func := onBlock b (insBlock n c) f.
(** cmmc/Transforms/Util/BlockUtil.cpp:157-174 isMovableExpr with relaxedCtx, calls left out: cannot fail *)
Definition isSpeculatable (knd : nat -> kind) (i : inst) : bool :=
  match knd (opc i) with
  | KPure => true
  | KDiv => match ops i with [_; OCst (VInt z)] => negb (Z.eqb z 0) | _ => false end
  | _ => false
  end.
Lemma spec_sem {W} knd (m : sem W) args i e w vs : okSem knd m -> isSpeculatable knd i = true -> rds args e (ops i) = Some vs ->
  (exists v, meaning m (opc i) vs w = IOk v w) /\ evt m (opc i) vs w = [].
Proof.
  intros (P1 & P2 & P3 & _ & _ & _ & _ & _ & P9) H Hr. unfold isSpeculatable in H. split.
  - destruct (knd (opc i)) eqn:K; try discriminate.
    + destruct (P1 _ K) as [g Hg]. rewrite Hg. eauto.
    + destruct (ops i) as [|a [|[[z| |]|?|?] [|? ?]]]; try discriminate. cbn in Hr. destruct (rd args e a) as [va|]; [|discriminate]. injection Hr as <-.
      destruct (P2 _ K) as [g Hg]. specialize (P3 _ K va z w). rewrite Hg in *. destruct (g [va; VInt z]); eauto. exfalso. apply P3; auto.
      intros ->. discriminate.
  - unfold evt. destruct (visible m (opc i)) eqn:E; auto. destruct (P9 _ E) as (st & nr & K). rewrite K in H. discriminate.
Qed.
Lemma spec_movable knd i : isSpeculatable knd i = true -> isMovable knd (opc i) = true.
Proof. unfold isSpeculatable, isMovable. destruct (knd (opc i)); auto; discriminate. Qed.

Section Ins.
Variables (knd : nat -> kind) (f : func) (b n : nat) (c : inst) (bk0 : block).
Hypothesis Hf : wfs f.
Hypothesis Hb0 : get b f = Some bk0.
Hypothesis Hspec : isSpeculatable knd c = true.
Hypothesis Hfresh : ~ In (dst c) (allResults f).
Hypothesis Hunused : ~ In (dst c) (usesIn f).
Hypothesis Hself : ~ In (ORes (dst c)) (ops c).
Hypothesis Hops : reach f b -> Forall (opAvail (availAt f b bk0 (firstn n (body bk0)))) (ops c).
Let g := insertAt b n c f.

Lemma ins_get k : get k g = option_map (fun bk => if Nat.eqb k b then insBlock n c bk else bk) (get k f).
Proof. unfold g, insertAt. now rewrite get_onBlock. Qed.
Lemma ins_entry : entry g = entry f.
Proof. apply entry_onBlock. Qed.
Lemma uses_block k bk x : get k f = Some bk -> In x (usesOf bk) -> x <> dst c.
Proof. intros Hk Hx ->. apply Hunused. apply in_flat_map. exists (k, bk). split; [now apply get_In|auto]. Qed.

Lemma ins_refines : refines knd f g.
Proof.
  intros W m args w Hk. set (X := [dst c]).
  assert (U : uniqueDefs f) by apply Hf.
  apply (sim_refines (step m args f) (step m args g)
    (fun s s' => cur s' = cur s /\ prev s' = prev s /\ wd s' = wd s /\ eqOff X (en s) (en s') /\ hist f s /\ definedIn f s)).
  2:{ unfold start. rewrite ins_entry. repeat split; auto using eqOff_refl. exact (hist_start f w). }
  intros s s' Hs (Hc & Hp & Hw & A & Hh & Hd). pose proof (fun t => safe_step m args f s t Hs) as Hbad. apply meets1.
  assert (Next : forall s1 t, step m args f s = Go s1 t -> hist f s1 /\ definedIn f s1).
  { intros s1 t H1. split; [eapply hist_step; eauto|eapply defined_step; eauto]. }
  unfold step in *. rewrite Hc, ins_get. destruct (get (cur s) f) as [bk|] eqn:Eb; [|exact (Hbad [] eq_refl)]. cbn [option_map].
  set (bk' := if Nat.eqb (cur s) b then insBlock n c bk else bk).
  assert (Eph : phis bk' = phis bk) by (unfold bk'; destruct (Nat.eqb (cur s) b); auto).
  assert (Etm : trm bk' = trm bk) by (unfold bk'; destruct (Nat.eqb (cur s) b); auto).
  assert (NX : forall x, In x (usesOf bk) -> ~ In x X). { intros x Hx [<-|[]]. exact (uses_block _ _ _ Eb Hx eq_refl). }
  unfold runBlock in *. rewrite Hp, Hw, Eph, Etm. pose proof (defined_enter args f U s bk) as De.
  destruct (enter args (en s) (prev s) (phis bk)) as [e1|] eqn:En; [|exact (Hbad [] eq_refl)]. specialize (De e1 Hh Hd Eb eq_refl).
  assert (N : exists e1', enter args (en s') (prev s) (phis bk) = Some e1' /\ eqOff X e1 e1').
  { destruct (prev s) as [p|]; cbn in En |- *.
    - rewrite <- (rdPhis_eqOff args X (en s) (en s') p (phis bk) A). 2:{ intros x Hx. apply NX. apply in_or_app. auto. }
      destruct (rdPhis args (en s) p (phis bk)) as [vs|]; [|discriminate]. cbn in *. injection En as <-. eexists. split; [reflexivity|].
      now apply updAll_eqOff.
    - destruct (phis bk); [|discriminate]. injection En as <-. eauto. }
  destruct N as (e1' & -> & A1).
  assert (K : match runBody m args e1 (wd s) (body bk) with
     | BGo e2 w2 t2 => exists e2', runBody m args e1' (wd s) (body bk') = BGo e2' w2 t2 /\ eqOff X e2 e2'
     | BHalt w2 t2 => runBody m args e1' (wd s) (body bk') = BHalt w2 t2
     | BBad _ => True end).
  { assert (NB : forall x, In x (bodyUses (body bk)) -> ~ In x X). { intros x Hx. apply NX. apply in_or_app. right. apply in_or_app. auto. }
    unfold bk'. destruct (Nat.eqb_spec (cur s) b) as [Ecb|].
    - assert (bk = bk0) by congruence. subst bk. cbn [body insBlock].
      assert (Esp : runBody m args e1 (wd s) (body bk0) = runBody m args e1 (wd s) (firstn n (body bk0) ++ skipn n (body bk0))) by (now rewrite firstn_skipn).
      rewrite Esp, !runBody_app. clear Esp.
      assert (NB1 : forall x, In x (bodyUses (firstn n (body bk0))) -> ~ In x X).
      { intros x Hx. apply NB. rewrite <- (firstn_skipn n (body bk0)). unfold bodyUses. rewrite flat_map_app. apply in_or_app. auto. }
      assert (NB2 : forall x, In x (bodyUses (skipn n (body bk0))) -> ~ In x X).
      { intros x Hx. apply NB. rewrite <- (firstn_skipn n (body bk0)). unfold bodyUses. rewrite flat_map_app. apply in_or_app. auto. }
      pose proof (runBody_eqOff m args X (firstn n (body bk0)) NB1 e1 e1' (wd s) A1) as R1.
      destruct (runBody m args e1 (wd s) (firstn n (body bk0))) as [e3 w3 t3|w3 t3|t3] eqn:R3; auto.
      2:{ destruct (runBody m args e1' (wd s) (firstn n (body bk0))); try contradiction. destruct R1 as [-> ->]. reflexivity. }
      destruct (runBody m args e1' (wd s) (firstn n (body bk0))) as [e3' w3' t3'| |]; try contradiction. destruct R1 as (A3 & <- & <-).
      assert (D3 : forall x, availAt f b bk0 (firstn n (body bk0)) x -> e3 x <> None).
      { pose proof (hist_reach _ _ Hh) as R. rewrite Ecb in R, De, Eb. clear - Hf U De R3 R Hb0.
        assert (G : forall post pre e w e' w' t, body bk0 = pre ++ post ++ skipn n (body bk0) -> definedAt f b bk0 pre e ->
           runBody m args e w post = BGo e' w' t -> definedAt f b bk0 (pre ++ post) e').
        { induction post as [|i post IH]; intros pre e w0 e' w' t E HF H.
          - cbn in H. injection H as <- _ _. now rewrite app_nil_r.
          - cbn in H. destruct (rds args e (ops i)) as [vs|] eqn:Er; [|discriminate].
            destruct (meaning m (opc i) vs w0) as [v w1|w1|] eqn:Em; try discriminate.
            destruct (runBody m args (upd e (dst i) v) w1 post) as [e2 w2 t2|w2 t2|t2] eqn:Ebd; try discriminate.
            cbn in H. injection H as <- <- _. replace (pre ++ i :: post) with ((pre ++ [i]) ++ post) by (now rewrite <- app_assoc).
            refine (IH (pre ++ [i]) _ _ _ _ _ _ _ Ebd).
            + rewrite <- app_assoc. exact E.
            + eapply defined_inst; eauto. }
        exact (G (firstn n (body bk0)) [] _ _ _ _ _ (eq_sym (firstn_skipn n (body bk0))) De R3). }
      assert (Rc : rds args e3' (ops c) <> None).
      { apply rds_def. pose proof (hist_reach _ _ Hh) as R. rewrite Ecb in R. specialize (Hops R). rewrite Forall_forall in Hops |- *.
        intros o Ho. specialize (Hops o Ho). destruct o as [v|a|x]; cbn in *; auto. rewrite <- (A3 x); auto.
        intros [<-|[]]. contradiction. }
      destruct (rds args e3' (ops c)) as [vs|] eqn:Ec; [|congruence]. cbn [runBody]. rewrite Ec.
      destruct (spec_sem knd m args c e3' w3 vs Hk Hspec Ec) as [[v ->] ->].
      assert (A4 : eqOff X e3 (upd e3' (dst c) v)). { intros y Hy. rewrite (A3 y Hy). symmetry. apply upd_ne. intros ->. apply Hy. now left. }
      pose proof (runBody_eqOff m args X (skipn n (body bk0)) NB2 e3 _ w3 A4) as R5.
      destruct (runBody m args e3 w3 (skipn n (body bk0))) as [e5 w5 t5|w5 t5|t5]; auto;
        destruct (runBody m args (upd e3' (dst c) v) w3 (skipn n (body bk0))) as [e6 w6 t6|w6 t6|t6]; try contradiction; cbn; auto.
      + destruct R5 as (A6 & <- & <-). eexists. split; [reflexivity|exact A6].
      + destruct R5 as (<- & <-). reflexivity.
    - pose proof (runBody_eqOff m args X (body bk) NB e1 e1' (wd s) A1) as R1.
      destruct (runBody m args e1 (wd s) (body bk)) as [e3 w3 t3|w3 t3|t3]; auto;
        destruct (runBody m args e1' (wd s) (body bk)) as [e6 w6 t6|w6 t6|t6]; try contradiction.
      + destruct R1 as (A6 & <- & <-). eexists. split; [reflexivity|exact A6].
      + destruct R1 as (<- & <-). reflexivity. }
  destruct (runBody m args e1 (wd s) (body bk)) as [e2 w2 t2|w2 t2|t2]; [|rewrite K; auto|exact (Hbad t2 eq_refl)].
  destruct K as (e2' & -> & A2). rewrite <- (runTerm_eqOff args X e2 e2' (trm bk) A2).
  2:{ intros x Hx. apply NX. apply in_or_app. right. apply in_or_app. auto. }
  destruct (runTerm args e2 (trm bk)) as [b'|v|]; auto; [|exact (Hbad t2 eq_refl)].
  split; auto. cbn. destruct (Next _ _ eq_refl). repeat split; auto.
Qed.

(** *** what the insertion keeps *)
Lemma ins_path k l : path g k l <-> path f k l.
Proof.
  assert (T : forall k0 bk, succs (trm (if Nat.eqb k0 b then insBlock n c bk else bk)) = succs (trm bk)) by (intros k0 bk; destruct (Nat.eqb k0 b); auto).
  split; induction 1 as [|k l bk t H IH Hb Ht].
  - rewrite ins_entry. apply path_entry.
  - rewrite ins_get in Hb. destruct (get k f) as [bk1|] eqn:Eb; [|discriminate]. injection Hb as <-. rewrite T in Ht. eapply path_next; eauto.
  - rewrite <- ins_entry. apply path_entry.
  - eapply path_next; [exact IH|rewrite ins_get, Hb; reflexivity|]. now rewrite T.
Qed.
Lemma ins_dom a k : dominates g a k <-> dominates f a k.
Proof. split; intros H l Hl; apply H; now apply ins_path. Qed.
Lemma ins_reach k : reach g k <-> reach f k.
Proof. split; intros [l Hl]; exists l; now apply ins_path. Qed.
Lemma ins_results k bk x : In x (resultsOf (if Nat.eqb k b then insBlock n c bk else bk)) <-> In x (resultsOf bk) \/ (k = b /\ x = dst c).
Proof.
  destruct (Nat.eqb_spec k b) as [->|N]; [|intuition].
  unfold resultsOf. cbn. assert (E : map dst (body bk) = map dst (firstn n (body bk)) ++ map dst (skipn n (body bk))) by (rewrite <- map_app; now rewrite firstn_skipn).
  rewrite E, map_app. cbn. rewrite !in_app_iff. cbn. intuition.
Qed.
Lemma ins_defIn x d : defIn f x d -> defIn g x d.
Proof. intros (bk & H1 & H2). eexists. rewrite ins_get, H1. split; [reflexivity|]. apply ins_results. auto. Qed.
Lemma ins_defIn_inv x d : defIn g x d -> defIn f x d \/ (d = b /\ x = dst c).
Proof.
  intros (bk & H1 & H2). rewrite ins_get in H1. destruct (get d f) as [bk1|] eqn:Ed; [|discriminate]. injection H1 as <-.
  apply ins_results in H2 as [H2|H2]; auto. left. exists bk1. auto.
Qed.
Lemma ins_defC : defIn g (dst c) b.
Proof. eexists. rewrite ins_get, Hb0. split; [reflexivity|]. apply ins_results. auto. Qed.
Lemma ins_availIn k x : availIn f k x -> availIn g k x.
Proof. intros (d & H1 & H2 & H3). exists d. split; [now apply ins_defIn|]. split; auto. now apply ins_dom. Qed.
Lemma ins_availOut k x : availOut f k x -> availOut g k x.
Proof. intros (d & H1 & H3). exists d. split; [now apply ins_defIn|]. now apply ins_dom. Qed.
Lemma ins_wf : wf g.
Proof.
  pose proof Hf as (Hw & _). pose proof Hw as (W1 & W2 & W4 & W5 & W6). destruct (wf_uniqR f Hw) as [U1 U2].
  assert (Hc : forall k bk, get k f = Some bk -> ~ In (dst c) (resultsOf bk)).
  { intros k bk Hk K. apply Hfresh. apply in_flat_map. exists (k, bk). split; [now apply get_In|auto]. }
  assert (Nf : map fst g = map fst f) by apply (fst_mapk (fun k bk => if Nat.eqb k b then insBlock n c bk else bk)).
  split; [|split; [split|split; [|split]]].
  - intros E. apply (f_equal (map fst)) in E. rewrite Nf in E. destruct f; [congruence|discriminate].
  - rewrite Nf. apply W2.
  - apply uniqR_iff; [rewrite Nf; apply W2|]. split.
    + intros k bk Hk. rewrite ins_get in Hk. destruct (get k f) as [bk1|] eqn:Ek; [|discriminate]. injection Hk as <-.
      destruct (Nat.eqb_spec k b) as [->|]; [|eauto]. specialize (U1 b bk1 Ek). specialize (Hc b bk1 Ek). unfold resultsOf in *. cbn.
      assert (E : map dst (body bk1) = map dst (firstn n (body bk1)) ++ map dst (skipn n (body bk1))) by (rewrite <- map_app; now rewrite firstn_skipn).
      rewrite map_app. cbn. rewrite E, app_assoc in U1, Hc. rewrite app_assoc. apply NoDup_Add with (a := dst c) (l := (map pdst (phis bk1) ++ map dst (firstn n (body bk1))) ++ map dst (skipn n (body bk1))).
      * apply Add_app.
      * split; auto.
    + intros k1 k2 b1 b2 x H1 H2 X1 X2. rewrite ins_get in H1, H2. destruct (get k1 f) as [c1|] eqn:E1; [|discriminate].
      destruct (get k2 f) as [c2|] eqn:E2; [|discriminate]. injection H1 as <-. injection H2 as <-.
      apply ins_results in X1, X2. destruct X1 as [X1|[-> ->]], X2 as [X2|[-> X2]].
      * eauto.
      * subst x. exfalso. eapply (Hc k1 c1); eauto.
      * exfalso. eapply (Hc k2 c2); eauto.
      * auto.
  - intros k bk t Hk Ht. rewrite Nf. rewrite ins_get in Hk. destruct (get k f) as [bk1|] eqn:Ek; [|discriminate]. injection Hk as <-.
    apply (W4 k bk1); auto. destruct (Nat.eqb k b); auto.
  - intros k bk ph p o Hk Hph Hi. rewrite ins_get in Hk. destruct (get k f) as [bk1|] eqn:Ek; [|discriminate]. injection Hk as <-.
    assert (Hph' : In ph (phis bk1)) by (destruct (Nat.eqb k b); auto).
    destruct (W5 k bk1 ph p o Ek Hph' Hi) as (pb & A & B). eexists. rewrite ins_get, A. split; [reflexivity|]. destruct (Nat.eqb p b); auto.
  - intros k bk ph p pb Hk Hph Hp Hs. rewrite ins_get in Hk, Hp. destruct (get k f) as [bk1|] eqn:Ek; [|discriminate]. injection Hk as <-.
    destruct (get p f) as [pb1|] eqn:Ep; [|discriminate]. injection Hp as <-.
    apply (W6 k bk1 ph p pb1); auto; [destruct (Nat.eqb k b); auto|destruct (Nat.eqb p b); auto].
Qed.
Lemma ins_entryNoPhi : entryNoPhi g.
Proof.
  destruct Hf as (_ & _ & He). intros bk. rewrite ins_entry, ins_get. destruct (get (entry f) f) as [bk1|] eqn:E; [|discriminate]. intros [= <-].
  specialize (He bk1 E). destruct (Nat.eqb (entry f) b); auto.
Qed.
(** a position in the new body *)
Lemma firstn_pre (A : Type) (x y z : list A) k : firstn k (x ++ y) = z -> length z <= length x -> length z = k -> firstn k x = z.
Proof.
  intros H1 H2 H3. rewrite firstn_app in H1. replace (k - length x) with 0 in H1 by lia. cbn in H1. now rewrite app_nil_r in H1.
Qed.
Lemma ins_pos {A} (l : list A) a pre i post : firstn n l ++ a :: skipn n l = pre ++ i :: post ->
  (i = a /\ pre = firstn n l) \/ (exists p q, l = p ++ i :: q /\ (forall y, In y p -> In y pre) /\ (pre = p \/ pre = firstn n p ++ a :: skipn n p)).
Proof.
  intros E. assert (E0 := firstn_skipn n l). set (u := firstn n l) in *. set (v := skipn n l) in *.
  destruct (Nat.lt_trichotomy (length pre) (length u)) as [L|[L|L]].
  - right. exists pre. assert (Hu : exists u', u = pre ++ i :: u').
    { clear -E L. revert pre E L. induction u as [|x u IH]; intros pre E L; [cbn in L; lia|]. destruct pre as [|y pre]; cbn in E; injection E as -> E.
      - exists u. reflexivity.
      - cbn in L. destruct (IH pre E ltac:(lia)) as (u' & ->). exists u'. reflexivity. }
    destruct Hu as (u' & Hu). exists (u' ++ v). rewrite <- E0, Hu, <- app_assoc. split; auto.
  - left. assert (u = pre /\ a :: v = i :: post) as [-> K].
    { clear -E L. revert pre E L. induction u as [|x u IH]; intros [|y pre] E L; try discriminate; auto. cbn in E, L. injection E as -> E.
      destruct (IH pre E ltac:(lia)) as [-> ->]. auto. }
    injection K as -> _. auto.
  - right. assert (Hu : exists w, pre = u ++ a :: w /\ v = w ++ i :: post).
    { clear -E L. revert pre E L. induction u as [|x u IH]; intros pre E L; destruct pre as [|y pre]; cbn in L; try lia; cbn in E; injection E as -> E.
      - exists pre. auto.
      - destruct (IH pre E ltac:(lia)) as (w & -> & Hv). exists w. auto. }
    destruct Hu as (w & -> & Hv). exists (u ++ w), post. rewrite <- E0, Hv, app_assoc. split; auto. split.
    + intros y Hy. apply in_app_or in Hy as [Hy|Hy]; apply in_or_app; auto. right. now right.
    + right. assert (Lu : length u = n).
      { unfold u. rewrite firstn_length. apply Nat.min_l. destruct (Nat.le_gt_cases n (length l)); auto. exfalso.
        assert (v = []) by (apply skipn_all2; lia). rewrite Hv in *. destruct w; discriminate. }
      rewrite firstn_app, skipn_app, Lu, Nat.sub_diag. cbn. rewrite app_nil_r.
      rewrite (firstn_all2 u) by lia. rewrite (skipn_all2 u) by lia. reflexivity.
Qed.
Lemma ins_availAt k bk pre pre' x : get k f = Some bk -> (forall y, In y pre -> In y pre') -> availAt f k bk pre x ->
  availAt g k (if Nat.eqb k b then insBlock n c bk else bk) pre' x.
Proof.
  intros Hk Hp [H|[H|H]].
  - left. now apply ins_availIn.
  - right. left. destruct (Nat.eqb k b); auto.
  - right. right. apply in_map_iff in H as (i & <- & H). apply in_map. auto.
Qed.
Lemma ins_ssa : ssa g.
Proof.
  destruct Hf as (Hw & Hs & _). intros k bk Hk R. rewrite ins_get in Hk. destruct (get k f) as [bk1|] eqn:Ek; [|discriminate]. injection Hk as <-.
  apply ins_reach in R. destruct (Hs k bk1 Ek R) as (S1 & S2 & S3).
  assert (Imp : forall pre pre' l, (forall y, In y pre -> In y pre') -> Forall (opAvail (availAt f k bk1 pre)) l ->
     Forall (opAvail (availAt g k (if Nat.eqb k b then insBlock n c bk1 else bk1) pre')) l).
  { intros pre pre' l Hp. apply opAvail_imp. intros x. now apply ins_availAt. }
  split; [|split].
  - intros pre i post E. destruct (Nat.eqb_spec k b) as [->|N].
    + cbn [body insBlock] in E. assert (bk1 = bk0) by congruence. subst bk1. apply ins_pos in E as [[-> ->]|(p & q & E & Hp & _)].
      * refine (Imp _ _ _ _ (Hops R)). auto.
      * eapply Imp; [|eapply S1; eauto]. auto.
    + eapply Imp; [|eapply S1; eauto]. auto.
  - replace (trm (if Nat.eqb k b then insBlock n c bk1 else bk1)) with (trm bk1) by (now destruct (Nat.eqb k b)).
    eapply Imp; [|exact S2]. intros y Hy. destruct (Nat.eqb k b); auto. cbn. rewrite <- (firstn_skipn n (body bk1)) in Hy.
    apply in_app_or in Hy as [Hy|Hy]; apply in_or_app; auto. right. now right.
  - intros ph p o Hph Hi Rp. apply ins_reach in Rp. assert (Hph' : In ph (phis bk1)) by (destruct (Nat.eqb k b); auto).
    specialize (S3 ph p o Hph' Hi Rp). destruct o as [v|a|x]; cbn in *; auto. now apply ins_availOut.
Qed.
Lemma ins_good : good knd f g.
Proof. split; [apply ins_refines|]. split; [apply ins_wf|]. split; [apply ins_ssa|apply ins_entryNoPhi]. Qed.
Lemma ins_defOf x i : defOf f x = Some i -> defOf g x = Some i.
Proof.
  intros H. assert (U : uniqueDefs f) by apply Hf. destruct (defOf_In f x i H) as (Ex & k & bk & Hin & Hi).
  assert (Hk : get k f = Some bk) by (apply In_get; [apply U|auto]). assert (Ug : uniqueDefs g) by apply ins_wf.
  assert (Hi' : In i (body (if Nat.eqb k b then insBlock n c bk else bk))).
  { destruct (Nat.eqb k b); auto. cbn. rewrite <- (firstn_skipn n (body bk)) in Hi. apply in_app_or in Hi as [Hi|Hi]; apply in_or_app; auto.
    right. now right. }
  apply in_split in Hi' as (p & q & E). eapply (defOf_body g x k); eauto. now rewrite ins_get, Hk.
Qed.
Lemma ins_defOf_c : defOf g (dst c) = Some c.
Proof.
  assert (Ug : uniqueDefs g) by apply ins_wf. eapply (defOf_body g (dst c) b (insBlock n c bk0) (firstn n (body bk0)) c (skipn n (body bk0))); auto.
  rewrite ins_get, Hb0. cbn. now rewrite Nat.eqb_refl.
Qed.
Lemma ins_before x z : In x (allResults f) -> before f x z -> before g x z.
Proof.
  intros Hxr H d bk Hd R Hx. rewrite ins_get in Hd. destruct (get d f) as [bk1|] eqn:Ed; [|discriminate]. injection Hd as <-.
  apply ins_reach in R. apply ins_results in Hx as [Hx|[-> ->]]; [|contradiction].
  destruct (H d bk1 Ed R Hx) as [K|[K|(pre & i & post & E & Ei & K)]].
  - left. now apply ins_availIn.
  - right. left. destruct (Nat.eqb d b); auto.
  - right. right. destruct (Nat.eqb_spec d b) as [->|N]; [|exists pre, i, post; auto]. cbn [body insBlock phis].
    assert (E0 := firstn_skipn n (body bk1)). rewrite E in E0. rewrite E. clear E.
    destruct (Nat.le_gt_cases n (length pre)) as [L|L].
    + exists (firstn n pre ++ c :: skipn n pre), i, post. rewrite firstn_app, skipn_app. replace (n - length pre) with 0 by lia. cbn. rewrite app_nil_r.
      split; [rewrite <- app_assoc; reflexivity|]. split; auto. destruct K as [K|K]; auto. right.
      rewrite <- (firstn_skipn n pre), map_app in K. rewrite map_app. apply in_app_or in K as [K|K]; apply in_or_app; auto. right. now right.
    + exists pre, i, (firstn (n - length pre - 1) post ++ c :: skipn (n - length pre - 1) post).
      rewrite firstn_app, skipn_app. rewrite (firstn_all2 pre) by lia. rewrite (skipn_all2 pre) by lia.
      replace (n - length pre) with (S (n - length pre - 1)) by lia. cbn. rewrite Nat.sub_0_r. rewrite <- app_assoc. split; auto.
Qed.
End Ins.
