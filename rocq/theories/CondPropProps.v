(** C54: the theorems about ConditionalPropagation.  Specification and proofs only; nothing here models code of /repo. *)
From Coq Require Import ZArith Lia Bool List Arith Relations Permutation.
From Verif Require Import Sim Ssa SsaCfg SsaMerge SsaFwd SsaFwd2 SsaWf SsaDom SsaProps SsaSub SsaVerify SsaEq SsaPhi SsaCse CodeMotion CodeMotionProps TailStoreProps CondProp CondPropProof CondPropSim.
From Verif Require SccModel SccProofs SccProps.
Import ListNotations.

(** ** the graph *)
Section Graph.
Variable f : func.
Hypothesis Hf : wfs f.
Lemma idx_nth b bk (l : func) : get b l = Some bk -> nth_error l (idx l b) = Some (b, bk).
Proof.
  induction l as [|[k bb] l IH]; cbn; [discriminate|]. destruct (Nat.eqb_spec k b) as [->|_]; auto. now intros [= ->].
Qed.
Lemma idx_lt b bk : get b f = Some bk -> idx f b < length f.
Proof. intros G. apply nth_error_Some. rewrite (idx_nth _ _ _ G). discriminate. Qed.
Lemma succ_get b bk y : get b f = Some bk -> In y (succs (trm bk)) -> exists yb, get y f = Some yb.
Proof.
  intros G Hy. destruct Hf as ((_ & (N & _) & Cl & _) & _). pose proof (Cl b bk y G Hy) as K. apply in_map_iff in K as ([y0 yb] & E & K). cbn in E. subst y0.
  exists yb. now apply In_get.
Qed.
Lemma succU_In bk y : In y (succU bk) <-> In y (succs (trm bk)).
Proof. unfold succU. apply nodup_In. Qed.
Lemma graph_nth b bk : get b f = Some bk -> nth (idx f b) (graphOf f) [] = map (idx f) (succU bk).
Proof. intros G. unfold graphOf. apply nth_error_nth. rewrite nth_error_map, (idx_nth _ _ _ G). reflexivity. Qed.
Lemma graph_valid : SccProps.valid_graph (graphOf f).
Proof.
  intros l Hl v Hv. unfold graphOf in *. rewrite map_length. apply in_map_iff in Hl as ([b bk] & <- & Hb). cbn in Hv. apply in_map_iff in Hv as (y & <- & Hy).
  apply succU_In in Hy. pose proof Hf as ((_ & (N & _) & _) & _). destruct (succ_get b bk y (In_get _ _ _ N Hb) Hy) as (yb & G). eapply idx_lt; eauto.
Qed.
Lemma reach_entry : entryNoPred f -> forall u, SccProps.reaches (graphOf f) u 0 -> u = 0.
Proof.
  intros EN u H. unfold SccProps.reaches in H. apply clos_rt_rtn1 in H. inversion H as [|v z E _ Ez]; [reflexivity|]. exfalso.
  destruct (lt_dec v (length (graphOf f))) as [L|L]; [|rewrite nth_overflow in E by lia; destruct E].
  unfold graphOf in E, L. rewrite map_length in L. destruct (nth_error f v) as [[b bk]|] eqn:En; [|apply nth_error_None in En; lia].
  erewrite nth_error_nth in E by (rewrite nth_error_map, En; reflexivity). cbn in E. apply in_map_iff in E as (y & E & Hy). apply succU_In in Hy.
  pose proof Hf as ((_ & (N & _) & _) & _). pose proof (In_get _ _ _ N (nth_error_In _ _ En)) as G. apply (EN b bk G).
  assert (K : entry f = y); [|now rewrite K]. destruct f as [|[k bb] l]; [discriminate|]. cbn in E |- *. destruct (Nat.eqb_spec k y); [auto|discriminate].
Qed.
Lemma entry_idx : idx f (entry f) = 0.
Proof. destruct f as [|[k bb] l]; cbn; auto. now rewrite Nat.eqb_refl. Qed.
End Graph.

Definition anyOrder (ord : nat -> list nat -> list nat) : Prop := forall u l, Permutation l (ord u l).
Lemma dagOf_In ord f cols u v : anyOrder ord -> NoDup (map fst f) -> In v (dagOf ord f cols u) <->
  exists b bk y, get b f = Some bk /\ In y (succs (trm bk)) /\ colOf f cols b = u /\ colOf f cols y = v /\ v <> u.
Proof.
  intros Ho N. unfold dagOf.
  assert (P : forall l, In v (ord u l) <-> In v l) by (intros l; split; apply Permutation_in; [apply Permutation_sym|]; apply Ho).
  rewrite P, nodup_In, in_flat_map. split.
  - intros ([b bk] & Hb & H). cbn in H. destruct (Nat.eqb_spec (colOf f cols b) u) as [E|_]; [|destruct H]. apply filter_In in H as [H H2].
    apply in_map_iff in H as (y & <- & Hy). apply succU_In in Hy. exists b, bk, y. split; [now apply In_get|]. repeat split; auto.
    destruct (Nat.eqb_spec (colOf f cols y) u); [discriminate|auto].
  - intros (b & bk & y & G & Hy & <- & <- & D). exists (b, bk). split; [now apply get_In|]. cbn. rewrite Nat.eqb_refl. apply filter_In.
    split; [apply in_map; now apply succU_In|]. destruct (Nat.eqb_spec (colOf f cols y) (colOf f cols b)); [contradiction|reflexivity].
Qed.
Lemma edgeCond_all f cols u v c : edgeCond f cols u v = Some c -> forall e, In e (edgeConds f cols u v) -> e = Some c.
Proof.
  unfold edgeCond. destruct (edgeConds f cols u v) as [|[c0|] l]; try discriminate. destruct (forallb _ _) eqn:E; [|discriminate]. intros [= <-] e He.
  rewrite forallb_forall in E. specialize (E e He). destruct c0 as [x b], e as [[y w]|]; cbn in E; [|discriminate].
  apply andb_true_iff in E as [E1 E2]. destruct (opnd_eqb_spec x y); [|discriminate]. apply Bool.eqb_prop in E2. congruence.
Qed.

(** what the pass has found, block by block *)
Lemma pass_ok ord f : anyOrder ord -> wfs f -> entryNoPred f -> exists C R,
  condProp ord f = Some (out f C) /\
  (forall b bk y, get b f = Some bk -> In y (succs (trm bk)) ->
    R y = R b \/ (R y < R b /\ exists c, covers (C b) (C y) c /\ (forall x v, c = Some (x, v) -> condTo (trm bk) y = Some (x, v)))) /\
  (forall b bk y, get b f = Some bk -> In y (succs (trm bk)) -> R y = R b -> C y = C b) /\
  (cT (C (entry f)) = [] /\ cF (C (entry f)) = []).
Proof.
  intros Ho Wf EN. pose proof Wf as ((Hn & (N & _) & _) & _).
  destruct (SccProps.C22_calcSCC_correct _ (graph_valid f Wf)) as (cnt & cols & E & L & S1 & S2 & S3 & _).
  assert (LG : length (graphOf f) = length f) by apply map_length.
  assert (Rel : forall b bk y, get b f = Some bk -> In y (succs (trm bk)) -> colOf f cols y = colOf f cols b \/ colOf f cols y < colOf f cols b).
  { intros b bk y G Hy. unfold colOf. destruct (S2 (idx f b) (idx f y)); auto.
    - rewrite LG. eapply idx_lt; eauto.
    - rewrite (graph_nth f _ _ G). apply in_map, succU_In, Hy. }
  destruct (colors_ok cnt (dagOf ord f cols) (edgeCond f cols)) as (color & Ec & K1 & K2).
  - intros u. unfold dagOf. eapply Permutation_NoDup; [apply Ho|apply NoDup_nodup].
  - intros u v H. apply (dagOf_In ord f cols u v Ho N) in H as (b & bk & y & G & Hy & <- & <- & D). destruct (Rel b bk y G Hy); [contradiction|auto].
  - intros u v H. apply (dagOf_In ord f cols u v Ho N) in H as (b & bk & y & G & Hy & <- & _). apply S3. rewrite LG. eapply idx_lt; eauto.
  - exists (fun b => color (colOf f cols b)), (colOf f cols). split; [unfold condProp; rewrite E, Ec; reflexivity|]. split; [|split].
    + intros b bk y G Hy. destruct (Rel b bk y G Hy) as [Eq|Lt]; [auto|]. right. split; [exact Lt|].
      assert (D : colOf f cols y <> colOf f cols b) by lia.
      exists (edgeCond f cols (colOf f cols b) (colOf f cols y)). split; [apply K1, (dagOf_In ord f cols _ _ Ho N); exists b, bk, y; auto|].
      intros x v Hc. apply (edgeCond_all f cols _ _ _ Hc). unfold edgeConds. apply in_flat_map. exists (b, bk). split; [now apply get_In|].
      cbn. rewrite Nat.eqb_refl. apply in_map, filter_In. split; [now apply succU_In|apply Nat.eqb_refl].
    + intros b bk y _ _ Eq. now rewrite Eq.
    + apply K2. intros u H. apply (dagOf_In ord f cols _ _ Ho N) in H as (b & bk & y & G & Hy & <- & Eq & D).
      destruct (succ_get f Wf b bk y G Hy) as (yb & Gy). destruct (get (entry f) f) as [eb|] eqn:Ge.
      * assert (Z : SccProps.reaches (graphOf f) (idx f y) (idx f (entry f))).
        { assert (La : idx f y < length (graphOf f)) by (rewrite LG; eapply idx_lt; eauto). assert (Lb : idx f (entry f) < length (graphOf f)) by (rewrite LG; eapply idx_lt; eauto).
          exact (proj1 (proj1 (S1 _ _ La Lb) Eq)). }
        rewrite (entry_idx f Wf) in Z. apply (reach_entry f Wf EN) in Z. apply (EN b bk G).
        assert (K : entry f = y); [|now rewrite K]. destruct f as [|[k bb] l]; [discriminate|]. cbn in Z |- *. destruct (Nat.eqb_spec k y); [auto|discriminate].
      * destruct f as [|[k bb] l]; [congruence|]. cbn in Ge. rewrite Nat.eqb_refl in Ge. discriminate.
Qed.

(** ** well-formedness is kept *)
Lemma succs_mapTerm h t : succs (mapTerm h t) = succs t.
Proof. destruct t as [| | |[|]|]; reflexivity. Qed.
Lemma known_avail s (A : nat -> Prop) o : opAvail A o -> opAvail A (known s o).
Proof. destruct o; cbn; auto. intros H. destruct (inO _ (cT s)); [exact I|]. destruct (inO _ (cF s)); [exact I|exact H]. Qed.
Lemma results_out C b bk : resultsOf (mapBlock (fun b => known (C b)) (fun _ b => known (C b)) b bk) = resultsOf bk.
Proof. unfold resultsOf. cbn. now rewrite !map_map. Qed.
Lemma get_out f C b : get b (out f C) = option_map (mapBlock (fun b => known (C b)) (fun _ b => known (C b)) b) (get b f).
Proof. apply get_substB. Qed.
Lemma path_out f C b l : path (out f C) b l <-> path f b l.
Proof.
  assert (E : entry (out f C) = entry f) by apply entry_substB. split; induction 1 as [|b l bk t H IH Hb Ht].
  - rewrite E. apply path_entry.
  - rewrite get_out in Hb. destruct (get b f) as [bk0|] eqn:Eb; [|discriminate]. injection Hb as <-. cbn in Ht. rewrite succs_mapTerm in Ht. eapply path_next; eauto.
  - rewrite <- E. apply path_entry.
  - eapply path_next; [exact IH|rewrite get_out, Hb; reflexivity|]. cbn. now rewrite succs_mapTerm.
Qed.
Lemma defIn_out f C x d : defIn (out f C) x d <-> defIn f x d.
Proof.
  unfold defIn. rewrite get_out. split.
  - intros (bk & H1 & H2). destruct (get d f) as [bk0|]; [|discriminate]. injection H1 as <-. rewrite results_out in H2. eauto.
  - intros (bk & H1 & H2). rewrite H1. cbn. eexists. split; [reflexivity|]. now rewrite results_out.
Qed.
Lemma dominates_out f C a b : dominates (out f C) a b <-> dominates f a b.
Proof. split; intros H l Hl; apply H; now apply (path_out f C). Qed.
Lemma reach_out f C b : reach (out f C) b <-> reach f b.
Proof. split; intros [l Hl]; exists l; now apply (path_out f C). Qed.
Lemma availIn_out f C b x : availIn (out f C) b x <-> availIn f b x.
Proof. split; intros (d & H1 & H2 & H3); exists d; (split; [|split]); auto; try (now apply (defIn_out f C)); now apply (dominates_out f C). Qed.
Lemma availOut_out f C b x : availOut (out f C) b x <-> availOut f b x.
Proof. split; intros (d & H1 & H2); exists d; (split; auto); try (now apply (defIn_out f C)); now apply (dominates_out f C). Qed.
Lemma termOps_map h t o : In o (termOps (mapTerm h t)) -> exists o0, In o0 (termOps t) /\ o = h o0.
Proof. destruct t as [b|c a b|c cs d|[v|]|]; cbn; try tauto; intros [<-|[]]; eauto. Qed.
Theorem wfs_out f C : wfs f -> wfs (out f C).
Proof.
  intros (Hw & S & He). split; [|split].
  - pose proof (wf_uniqR f Hw) as [U1 _]. pose proof Hw as (W1 & W2 & W4 & W5 & W6).
    apply (wf_same f (out f C) (mapBlock (fun b => known (C b)) (fun _ b => known (C b)))); auto.
    + unfold out, substB. rewrite map_map. reflexivity.
    + intros k. apply get_out.
    + intros k bk Hk. rewrite results_out. split; eauto.
    + intros k bk x Hk Hx. apply (W4 k bk x Hk). cbn in Hx. now rewrite succs_mapTerm in Hx.
    + intros k bk ph p o Hk Hph Hin. cbn in Hph. apply in_map_iff in Hph as (ph0 & <- & Hph0). cbn in Hin. apply in_map_iff in Hin as ([q o0] & E & Hin).
      cbn in E. injection E as -> _. destruct (W5 k bk ph0 p o0 Hk Hph0 Hin) as (pb & A & B). exists pb. split; auto. cbn. now rewrite succs_mapTerm.
    + intros k bk ph p pb Hk Hph Hp Hin. cbn in Hph. apply in_map_iff in Hph as (ph0 & <- & Hph0). cbn. cbn in Hin. rewrite succs_mapTerm in Hin.
      pose proof (W6 k bk ph0 p pb Hk Hph0 Hp Hin) as K. rewrite (get_mapk (fun _ o => known (C k) o)). destruct (get p (inc ph0)); cbn; congruence.
  - intros b bk Hb R. rewrite get_out in Hb. destruct (get b f) as [bk0|] eqn:Eb; [|discriminate]. injection Hb as <-. cbn [mapBlock phis body trm].
    apply (reach_out f C) in R. destruct (S b bk0 Eb R) as (S1 & S2 & S3).
    assert (Av : forall pre o, opAvail (availAt f b bk0 pre) o -> opAvail (availAt (out f C) b (mapBlock (fun b => known (C b)) (fun _ b => known (C b)) b bk0) (map (mapInst (known (C b))) pre)) o).
    { intros pre [c|n|x]; cbn; auto. unfold availAt. rewrite availIn_out. cbn [mapBlock phis]. rewrite !map_map. cbn. tauto. }
    split; [|split].
    + intros pre i post E. apply map_eq_app in E as (l1 & l2 & E0 & E1 & E2). destruct l2 as [|i0 l2]; [discriminate|].
      cbn in E2. injection E2 as <- <-. subst pre. cbn. specialize (S1 l1 i0 l2 E0). rewrite Forall_forall in S1 |- *.
      intros o Ho. apply in_map_iff in Ho as (o0 & <- & Ho). apply Av, known_avail. auto.
    + rewrite Forall_forall in S2 |- *. intros o Ho. apply termOps_map in Ho as (o0 & Ho & ->). apply Av, known_avail. auto.
    + intros ph p o Hph Hi Rp. apply in_map_iff in Hph as (ph0 & <- & Hph). cbn in Hi. apply in_map_iff in Hi as ([p0 o0] & E & Hi).
      cbn in E. injection E as <- <-. apply (reach_out f C) in Rp. pose proof (known_avail (C b) _ _ (S3 ph0 p0 o0 Hph Hi Rp)) as K.
      destruct (known (C b) o0); cbn in *; auto. now apply availOut_out.
  - intros bk. assert (E : entry (out f C) = entry f) by apply entry_substB. rewrite E, get_out.
    destruct (get (entry f) f) as [bk0|] eqn:Eb; [|discriminate]. intros [= <-]. cbn. now rewrite (He bk0 Eb).
Qed.

(** ** C54 *)
(** every run, for all arguments, all operators and all memories, has the same result, output and final world; the pass
    ends (it never waits for a component twice, and no component is left) and its result is well-formed *)
Theorem C54_condProp_preserves_partial : forall ord f i1 i1op i1arg, anyOrder ord -> wfs f -> entryNoPred f -> typedI1 i1 i1op i1arg f ->
  exists g, condProp ord f = Some g /\ wfs g /\ entryNoPred g /\ typedI1 i1 i1op i1arg g /\
    forall W (m : sem W) args (w : W), boolSem m i1op -> (forall n, i1arg n = true -> boolV (args n)) ->
      refinesAt (step m args f) (step m args g) (start f w) (start g w).
Proof.
  intros ord f i1 i1op i1arg Ho Wf EN Ty. destruct (pass_ok ord f Ho Wf EN) as (C & R & E & H1 & H2 & H3). exists (out f C). split; [exact E|].
  split; [now apply wfs_out|]. split; [|split].
  - intros b bk G. assert (K : entry (out f C) = entry f) by apply entry_substB. rewrite K. rewrite get_out in G. destruct (get b f) as [b0|] eqn:G0; [|discriminate].
    injection G as <-. cbn. rewrite succs_mapTerm. exact (EN b b0 G0).
  - destruct Ty as (T1 & T2 & T3). split; [|split].
    + intros b bk x t e G Et. rewrite get_out in G. destruct (get b f) as [b0|] eqn:G0; [|discriminate]. injection G as <-. cbn in Et.
      destruct (trm b0) as [|c u v| |[|]|] eqn:Et0; cbn in Et; try discriminate. injection Et as Ec _ _.
      destruct c as [c|n|y]; cbn in Ec; try discriminate. destruct (inO _ _); [discriminate|]. destruct (inO _ _); [discriminate|]. injection Ec as ->. eapply T1; eauto.
    + intros b bk i G Hi Hx. rewrite get_out in G. destruct (get b f) as [b0|] eqn:G0; [|discriminate]. injection G as <-. cbn in Hi.
      apply in_map_iff in Hi as (i0 & <- & Hi). cbn in *. eapply T2; eauto.
    + intros b bk q p o G Hq Hx Hp. rewrite get_out in G. destruct (get b f) as [b0|] eqn:G0; [|discriminate]. injection G as <-. cbn in Hq.
      apply in_map_iff in Hq as (q0 & <- & Hq). cbn in Hx, Hp. apply in_map_iff in Hp as ([p0 o0] & Ep & Hp). cbn in Ep. injection Ep as -> <-.
      pose proof (T3 b b0 q0 p o0 G0 Hq Hx Hp) as K. destruct o0 as [c|n|y]; cbn; auto. destruct (inO _ _); [cbn; auto|]. destruct (inO _ _); cbn; auto.
  - intros W m args w Hm Ha. destruct Wf as (A & B & D). exact (sim_ok m args f i1 i1op i1arg C R (conj A (conj B D)) Ty Hm Ha H1 H2 H3 w).
Qed.

(** a graph where nothing branches to the first block is needed: a dead block that branches to it decides its branch *)
Definition cSem : sem Z := Sem
  (fun o a w =>
     match o, a with
     | 1%nat, [VInt x; VInt y] => IOk (VInt (if Z.ltb x y then 1 else 0)) w
     | 2%nat, [VInt x; VInt y] => IOk (VInt (x + y)) w
     | 3%nat, [VInt x] => IOk VUndef (w + x)%Z
     | _, _ => IBad
     end)
  (fun o => Nat.eqb o 3).
Definition cI1 (x : nat) : bool := inb x [1; 5].
Definition cOp (o : nat) : bool := Nat.eqb o 1.
Definition noArg (n : nat) : bool := false.
Definition idOrd (u : nat) (l : list nat) : list nat := l.
Lemma idOrd_ok : anyOrder idOrd.
Proof. intros u l. apply Permutation_refl. Qed.
Lemma cSem_ok : boolSem cSem cOp.
Proof.
  intros o vs w v w' H K. unfold cOp in H. apply Nat.eqb_eq in H. subst o. destruct vs as [|[x| |] [|[y| |] [|]]]; cbn in K; try discriminate.
  injection K as <- _. cbn. destruct (x <? y)%Z; auto.
Qed.
Definition typedb (i1 i1op i1arg : nat -> bool) (f : func) : bool :=
  forallb (fun kb : nat * block =>
    match trm (snd kb) with TCond (ORes x) _ _ => i1 x | _ => true end &&
    forallb (fun i => implb (i1 (dst i)) (i1op (opc i))) (body (snd kb)) &&
    forallb (fun q => implb (i1 (pdst q)) (forallb (fun po : nat * opnd =>
      match snd po with ORes y => i1 y | OCst (VInt z) => Z.eqb z 0 || Z.eqb z 1 | OCst _ => true | OArg n => i1arg n end) (inc q))) (phis (snd kb))) f.
Lemma typedb_ok i1 i1op i1arg f : typedb i1 i1op i1arg f = true -> typedI1 i1 i1op i1arg f.
Proof.
  unfold typedb. rewrite forallb_forall. intros H. split; [|split].
  - intros b bk x t e G E. specialize (H _ (get_In _ _ _ G)). cbn in H. rewrite E in H. apply andb_true_iff in H as [H _]. apply andb_true_iff in H as [H _]. exact H.
  - intros b bk i G Hi Hx. specialize (H _ (get_In _ _ _ G)). cbn in H. apply andb_true_iff in H as [H _]. apply andb_true_iff in H as [_ H].
    rewrite forallb_forall in H. specialize (H i Hi). now rewrite Hx in H.
  - intros b bk q p o G Hq Hx Hp. specialize (H _ (get_In _ _ _ G)). cbn in H. apply andb_true_iff in H as [_ H].
    rewrite forallb_forall in H. specialize (H q Hq). rewrite Hx in H. cbn in H. rewrite forallb_forall in H. specialize (H (p, o) Hp). cbn in H.
    destruct o as [[z| |]|n|y]; cbn; auto. apply orb_true_iff in H as [H|H]; apply Z.eqb_eq in H; auto.
Qed.
(** [if (a < b) do { s += a < b } while (s < 9); else print(a < b); return a < b] *)
Definition cfn : func :=
  [(0, Block [] [Inst 1 1 [OArg 0; OArg 1]] (TCond (ORes 1) 1 2));
   (1, Block [Phi 3 [(0, OCst (VInt 5)); (1, ORes 4)]] [Inst 4 2 [ORes 3; ORes 1]; Inst 5 1 [ORes 4; OCst (VInt 9)]] (TCond (ORes 5) 1 3));
   (2, Block [] [Inst 6 3 [ORes 1]] (TBr 3));
   (3, Block [Phi 7 [(1, ORes 1); (2, ORes 1)]] [] (TRet (Some (ORes 7))))].
Definition cfnOut : func :=
  [(0, Block [] [Inst 1 1 [OArg 0; OArg 1]] (TCond (ORes 1) 1 2));
   (1, Block [Phi 3 [(0, OCst (VInt 5)); (1, ORes 4)]] [Inst 4 2 [ORes 3; OCst (VInt 1)]; Inst 5 1 [ORes 4; OCst (VInt 9)]] (TCond (ORes 5) 1 3));
   (2, Block [] [Inst 6 3 [OCst (VInt 0)]] (TBr 3));
   (3, Block [Phi 7 [(1, ORes 1); (2, ORes 1)]] [] (TRet (Some (ORes 7))))].
Example cfn_out : condProp idOrd cfn = Some cfnOut.
Proof. vm_compute. reflexivity. Qed.
Lemma cfn_wfs : wfs cfn.
Proof. wfs_dec cfn. Qed.
Example cfn_same args (w : Z) : refinesAt (step cSem args cfn) (step cSem args cfnOut) (start cfn w) (start cfnOut w).
Proof.
  destruct (C54_condProp_preserves_partial idOrd cfn cI1 cOp noArg idOrd_ok cfn_wfs (entryNoPredb_ok cfn eq_refl) (typedb_ok cI1 cOp noArg cfn eq_refl)) as (g & E & _ & _ & _ & H).
  rewrite cfn_out in E. injection E as <-. apply H; [exact cSem_ok|]. intros n K. discriminate K.
Qed.
Example cfn_runs : finishes (step cSem (fun n => VInt (Z.of_nat n)) cfnOut) (start cfnOut 0%Z) (Ret (Some (VInt 1)) 0%Z) [] /\
  finishes (step cSem (fun n => VInt (- Z.of_nat n)) cfnOut) (start cfnOut 0%Z) (Ret (Some (VInt 0)) 0%Z) [(3, [VInt 0], 0%Z)].
Proof. split; [exists 6|exists 3]; vm_compute; reflexivity. Qed.

(** block 3 is not reachable: the first block is taken to be behind the branch of it *)
Definition cdead : func :=
  [(0, Block [] [Inst 1 1 [OArg 0; OArg 1]] (TCond (ORes 1) 1 2));
   (1, Block [] [] (TRet (Some (OCst (VInt 10)))));
   (2, Block [] [] (TRet (Some (OCst (VInt 20)))));
   (3, Block [] [] (TCond (ORes 1) 0 1))].
Lemma cdead_wfs : wfs cdead.
Proof.
  assert (Hw : wf cdead) by (apply wfb_ok; vm_compute; reflexivity). split; [exact Hw|]. split; [|intros bk [= <-]; reflexivity].
  assert (N3 : ~ reach cdead 3).
  { intros [l P]. assert (K : forall b l0, path cdead b l0 -> b <> 3).
    { induction 1 as [|b l0 bk t P0 IH G Ht]; [discriminate|]. intros ->. cbn in G.
      destruct b as [|[|[|[|b]]]]; cbn in G; try discriminate; injection G as <-; cbn in Ht; intuition discriminate. }
    exact (K 3 l P eq_refl). }
  intros b bk G R. destruct b as [|[|[|[|b]]]]; cbn in G; try discriminate; [| | |destruct (N3 R)]; injection G as <-; cbn [phis body trm].
  - split; [|split].
    + intros pre i post E. destruct pre as [|i0 [|i2 pre]]; cbn in E; try discriminate. injection E as <- _. repeat constructor.
    + constructor; [|constructor]. right. right. now left.
    + intros ph p o [].
  - split; [intros pre i post E; destruct pre; discriminate|]. split; [repeat constructor|intros ph p o []].
  - split; [intros pre i post E; destruct pre; discriminate|]. split; [repeat constructor|intros ph p o []].
Qed.
Theorem C54_entry_refuted : exists f g i1 i1op i1arg, wfs f /\ typedI1 i1 i1op i1arg f /\ condProp idOrd f = Some g /\
  boolSem cSem i1op /\ exists args, (forall n, i1arg n = true -> boolV (args n)) /\
    finishes (step cSem args f) (start f 0%Z) (Ret (Some (VInt 20)) 0%Z) [] /\
    finishes (step cSem args g) (start g 0%Z) (Ret (Some (VInt 10)) 0%Z) [].
Proof.
  exists cdead. eexists. exists cI1, cOp, noArg. split; [exact cdead_wfs|]. split; [apply typedb_ok; vm_compute; reflexivity|].
  split; [vm_compute; reflexivity|]. split; [exact cSem_ok|]. exists (fun _ => VInt 0). split; [intros n K; discriminate K|].
  split; exists 2; vm_compute; reflexivity.
Qed.
