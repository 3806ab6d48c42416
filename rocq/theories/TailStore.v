(** C52: the same store at the end of every predecessor becomes one store at the join, TailStoreMerge (cmmc/Transforms/Merge/TailStoreMerge.cpp). *)
From Coq Require Import ZArith Lia Bool List Arith Permutation.
From Verif Require Import Sim Ssa SsaCfg SsaMerge SsaFwd SsaFwd2 SsaWf SsaDom SsaProps SsaSub SsaVerify SsaEq SsaPhi SsaCse SsaDce SsaIns SsaGvn CodeMotion M2RRun Ifc.
Import ListNotations.

(** ** the pass *)
(** CFGAnalysis: predecessors *)
Definition predBlocks (f : func) (t : nat) : func := filter (fun kb => inb t (succs (trm (snd kb)))) f.
Definition lastInst (bk : block) : option inst := match rev (body bk) with i :: _ => Some i | [] => None end.
Definition isUsed (f : func) (x : nat) : bool := existsb (fun kb => inb x (usesOf (snd kb))) f.
(** lines 54-77: the address and the value of the store before the branch of [kb].  [st]: the opcode of StoreInst.  A store has no result in the
    IR; here it has a name, which nothing must use *)
Definition storeOf (st : nat) (f : func) (t : nat) (kb : nat * block) : option (opnd * opnd) :=
  if Nat.eqb (fst kb) t then None else
  match trm (snd kb), lastInst (snd kb) with
  | TBr _, Some i => if Nat.eqb (opc i) st && negb (isUsed f (dst i)) then match ops i with [b; v] => Some (b, v) | _ => None end else None
  | _, _ => None
  end.
(** lines 48-53, 78-88: the address all predecessors store to *)
Definition commonBase (st : nat) (f : func) (t : nat) : option opnd :=
  match predBlocks f t with
  | kb1 :: _ :: _ =>
    match storeOf st f t kb1 with
    | Some (b, _) => if forallb (fun kb => match storeOf st f t kb with Some (b', _) => opnd_eqb b' b | None => false end) (predBlocks f t) then Some b else None
    | None => None
    end
  | _ => None
  end.
Definition storedVal (bk : block) : opnd := match lastInst bk with Some i => nth 1 (ops i) (OCst VUndef) | None => OCst VUndef end.
(** lines 93-108: the phi, its values, the erased stores, the new store behind the phis *)
Definition tailBlk (st : nat) (f : func) (t : nat) (b : opnd) (k : nat) (bk : block) : block :=
  if Nat.eqb k t then Block (phis bk ++ [Phi (freshBase f) (map (fun kb => (fst kb, storedVal (snd kb))) (predBlocks f t))])
                            (Inst (S (freshBase f)) st [b; ORes (freshBase f)] :: body bk) (trm bk)
  else if inb t (succs (trm bk)) then Block (phis bk) (removelast (body bk)) (trm bk)
  else bk.
Definition tailStoreOne (st : nat) (f : func) (t : nat) : func :=
  match commonBase st f t with Some b => map (fun kb => (fst kb, tailBlk st f t b (fst kb) (snd kb))) f | None => f end.
(** lines 37-47: all blocks in order; the edges stay as they are, so the answers of CFGAnalysis stay right *)
Definition tailStoreMerge (st : nat) (f : func) : func := fold_left (tailStoreOne st) (map fst f) f.

(** ** one block *)
Lemma removelast_last {A} (l : list A) i : match rev l with x :: _ => Some x | [] => None end = Some i -> l = removelast l ++ [i].
Proof.
  intros H. destruct l as [|a l] using rev_ind; [discriminate|]. rewrite rev_app_distr in H. cbn in H. injection H as ->. now rewrite removelast_last.
Qed.
Lemma NoDup_fst_filter {A} (q : nat * A -> bool) l : NoDup (map fst l) -> NoDup (map fst (filter q l)).
Proof.
  induction l as [|z l IH]; cbn; intros N; auto. inversion N as [|? ? N1 N2]; subst. destruct (q z); cbn; auto. constructor; auto.
  intros H. apply N1. apply in_map_iff in H as (z' & E & H). apply filter_In in H as [H _]. rewrite <- E. now apply in_map.
Qed.
Lemma bodyUses_prefix l x : In x (bodyUses (removelast l)) -> In x (bodyUses l).
Proof.
  destruct l as [|i l _] using rev_ind; auto. rewrite removelast_app by discriminate. cbn. rewrite app_nil_r. unfold bodyUses. rewrite flat_map_app. intros H. apply in_or_app. auto.
Qed.
Lemma path_inv f t l : path f t l -> t <> entry f -> exists k l' bk, l = t :: l' /\ path f k l' /\ get k f = Some bk /\ In t (succs (trm bk)).
Proof. intros H N. inversion H as [|k l' bk t' Hl' Hk Hs]; subst; [congruence|]. exists k, l', bk. auto. Qed.
Section TS.
Variables (st : nat) (f : func) (t : nat) (tb : block) (bs : opnd).
Hypothesis Hf : wfs f.
Hypothesis Ht : get t f = Some tb.
Hypothesis NE : t <> entry f.
Hypothesis HP : forall p pb, get p f = Some pb -> In t (succs (trm pb)) -> p <> t /\ trm pb = TBr t /\
  exists i v, body pb = removelast (body pb) ++ [i] /\ opc i = st /\ ops i = [bs; v] /\ storedVal pb = v /\ forall k bk, get k f = Some bk -> ~ In (dst i) (usesOf bk).
Let n := freshBase f.
Let h := tailBlk st f t bs.
Let g : func := map (fun kb => (fst kb, h (fst kb) (snd kb))) f.
Let Gone (x : nat) : Prop := x = n \/ x = S n \/ exists p pb i, get p f = Some pb /\ In t (succs (trm pb)) /\ body pb = removelast (body pb) ++ [i] /\ dst i = x.

Lemma ts_get k : get k g = option_map (h k) (get k f).
Proof using. apply (get_mapk h). Qed.
Lemma ts_some k bk : get k g = Some bk -> exists b1, get k f = Some b1 /\ bk = h k b1.
Proof using. rewrite ts_get. destruct (get k f) as [b1|]; [|discriminate]. intros [= <-]. eauto. Qed.
Lemma ts_of k bk : get k f = Some bk -> get k g = Some (h k bk).
Proof using. intros H. now rewrite ts_get, H. Qed.
Lemma ts_fst : map fst g = map fst f.
Proof using. apply (fst_mapk h). Qed.
Lemma ts_entry : entry g = entry f.
Proof using. apply (entry_mapk h). Qed.
Lemma h_trm k bk : trm (h k bk) = trm bk.
Proof using. unfold h, tailBlk. destruct (Nat.eqb k t); auto. destruct (inb t (succs (trm bk))); auto. Qed.
Lemma ts_path k l : path g k l <-> path f k l.
Proof using.
  split; induction 1 as [|k l bk x H IH Hk Hx].
  - rewrite ts_entry. apply path_entry.
  - apply ts_some in Hk as (b1 & Hk & ->). rewrite h_trm in Hx. eapply path_next; eauto.
  - rewrite <- ts_entry. apply path_entry.
  - apply ts_of in Hk. eapply path_next; [exact IH|exact Hk|]. now rewrite h_trm.
Qed.
Lemma ts_reach k : reach g k <-> reach f k.
Proof using. split; intros [l H]; exists l; now apply ts_path. Qed.
Lemma ts_dom a k : dominates g a k <-> dominates f a k.
Proof using. split; intros H l Hl; apply H; now apply ts_path. Qed.
(** the three kinds of blocks *)
Lemma h_t : h t tb = Block (phis tb ++ [Phi n (map (fun kb => (fst kb, storedVal (snd kb))) (predBlocks f t))]) (Inst (S n) st [bs; ORes n] :: body tb) (trm tb).
Proof using. unfold h, tailBlk. now rewrite Nat.eqb_refl. Qed.
Lemma h_pred p pb : get p f = Some pb -> In t (succs (trm pb)) -> h p pb = Block (phis pb) (removelast (body pb)) (trm pb).
Proof using HP. intros Hp Hs. unfold h, tailBlk. destruct (HP p pb Hp Hs) as (N & _). destruct (Nat.eqb_spec p t); [contradiction|]. apply inb_In in Hs. now rewrite Hs. Qed.
Lemma h_other k bk : k <> t -> ~ In t (succs (trm bk)) -> h k bk = bk.
Proof using.
  intros N Hs. unfold h, tailBlk. destruct (Nat.eqb_spec k t); [contradiction|]. destruct (inb t (succs (trm bk))) eqn:E; auto. apply inb_In in E. contradiction.
Qed.
Lemma cases k bk : get k f = Some bk -> (k = t /\ bk = tb) \/ (k <> t /\ In t (succs (trm bk))) \/ (k <> t /\ ~ In t (succs (trm bk))).
Proof using Ht.
  intros H. destruct (Nat.eq_dec k t) as [->|N]; [left; split; [auto|congruence]|]. right. destruct (in_dec Nat.eq_dec t (succs (trm bk))); auto.
Qed.
(** *** results *)
Lemma fresh_res x : n <= x -> ~ In x (allResults f).
Proof using. intros L H. apply freshBase_res in H. unfold n in L. clear - L H. lia. Qed.
Lemma used_in k bk x : get k f = Some bk -> In x (usesOf bk) -> ~ Gone x.
Proof using HP.
  intros Hk Hx [->|[->|(p & pb & i & Hp & Hs & Eb & E)]].
  - apply (freshBase_use f k bk _ Hk) in Hx. unfold n in Hx. clear - Hx. lia.
  - apply (freshBase_use f k bk _ Hk) in Hx. unfold n in Hx. clear - Hx. lia.
  - destruct (HP p pb Hp Hs) as (_ & _ & i' & v & Eb' & _ & _ & _ & U). rewrite Eb in Eb'. apply app_inj_tail in Eb' as [_ <-]. rewrite <- E in Hx. exact (U k bk Hk Hx).
Qed.
Lemma h_res k bk x : get k f = Some bk -> In x (resultsOf (h k bk)) -> In x (resultsOf bk) \/ (k = t /\ (x = n \/ x = S n)).
Proof using Ht HP.
  intros Hk. destruct (cases k bk Hk) as [[-> ->]|[[N Hs]|[N Hs]]].
  - rewrite h_t. unfold resultsOf. cbn. rewrite map_app. cbn. rewrite !in_app_iff. cbn. intros [[H|[H|[]]]|[H|H]]; auto.
  - rewrite (h_pred k bk Hk Hs). destruct (HP k bk Hk Hs) as (_ & _ & i & v & Eb & _). unfold resultsOf. cbn. rewrite Eb at 2. rewrite map_app, !in_app_iff. intros [H|H]; auto.
  - rewrite h_other; auto.
Qed.
Lemma h_res_of k bk x : get k f = Some bk -> In x (resultsOf bk) -> ~ Gone x -> In x (resultsOf (h k bk)).
Proof using Ht HP.
  intros Hk. destruct (cases k bk Hk) as [[-> ->]|[[N Hs]|[N Hs]]].
  - rewrite h_t. unfold resultsOf. cbn. rewrite map_app, !in_app_iff. cbn. intros [H|H]; auto.
  - rewrite (h_pred k bk Hk Hs). destruct (HP k bk Hk Hs) as (_ & _ & i & v & Eb & _). unfold resultsOf. cbn. rewrite Eb at 1. rewrite map_app, !in_app_iff. intros [H|[H|H]] G; auto.
    destruct H as [H|[]]. exfalso. apply G. right. right. exists k, bk, i. auto.
  - rewrite h_other; auto.
Qed.
Lemma ts_defIn x d : defIn f x d -> ~ Gone x -> defIn g x d.
Proof using Ht HP. intros (bk & H & Hx) G. exists (h d bk). split; [now apply ts_of|]. now apply h_res_of. Qed.
Lemma ts_availIn k x : availIn f k x -> ~ Gone x -> availIn g k x.
Proof using Ht HP. intros (d & A & B & C) G. exists d. split; [now apply ts_defIn|]. split; auto. now apply ts_dom. Qed.
Lemma ts_availOut k x : availOut f k x -> ~ Gone x -> availOut g k x.
Proof using Ht HP. intros (d & A & B) G. exists d. split; [now apply ts_defIn|]. now apply ts_dom. Qed.
Lemma h_phis k bk x : In x (map pdst (phis bk)) -> In x (map pdst (phis (h k bk))).
Proof using.
  intros H. unfold h, tailBlk. destruct (Nat.eqb k t); [cbn; rewrite map_app; apply in_or_app; auto|]. destruct (inb t (succs (trm bk))); auto.
Qed.
Lemma ts_availAt k bk pre pre' x : incl (map dst pre) (map dst pre') -> availAt f k bk pre x -> ~ Gone x -> availAt g k (h k bk) pre' x.
Proof using Ht HP. intros I [H|[H|H]] G; [left; now apply ts_availIn|right; left; now apply h_phis|right; right; auto]. Qed.
Lemma opImp2 (P Q : nat -> Prop) o : (forall x, P x -> In x (res_of o) -> Q x) -> opAvail P o -> opAvail Q o.
Proof using. destruct o; cbn; auto. Qed.
Lemma pb_in p pb : In (p, pb) (predBlocks f t) <-> get p f = Some pb /\ In t (succs (trm pb)).
Proof using Hf.
  unfold predBlocks. rewrite filter_In. cbn [snd]. rewrite inb_In. split; intros [A B]; split; auto; [apply In_get; auto; apply (proj1 (proj2 (proj1 Hf)))|now apply get_In].
Qed.
Lemma use_body bk pre i post o x : body bk = pre ++ i :: post -> In o (ops i) -> In x (res_of o) -> In x (usesOf bk).
Proof using.
  intros E Ho Hx. unfold usesOf. apply in_or_app. right. apply in_or_app. left. unfold bodyUses. apply in_flat_map. exists i. split; [rewrite E; apply in_or_app; right; now left|].
  apply in_flat_map. eauto.
Qed.
(** *** the address is there at the join *)
Lemma base_def x p pb : bs = ORes x -> get p f = Some pb -> In t (succs (trm pb)) -> reach f p -> exists d, defIn f x d /\ dominates f d p.
Proof using Hf HP.
  intros E Hp Hs R. destruct (HP p pb Hp Hs) as (_ & _ & i & v & Eb & _ & Eo & _). destruct (proj1 (proj2 Hf) p pb Hp R) as (S1 & _). specialize (S1 _ _ _ Eb).
  rewrite Eo, E in S1. inversion S1 as [|? ? A _]; subst. cbn in A.
  assert (B : availOut f p x); [|exact B]. apply (availOut_at f p pb x Hp). destruct A as [A|[A|A]]; [left; auto|right; left; auto|]. right. right. rewrite Eb, map_app. apply in_or_app. auto.
Qed.
Lemma base_dom x d : bs = ORes x -> defIn f x d -> forall l, path f t l -> In d l.
Proof using Hf HP NE.
  intros E D l Hl. destruct (path_inv f t l Hl NE) as (k & l' & bk & El & Hl' & Hk & Hs). destruct (base_def x k bk E Hk Hs (ex_intro _ l' Hl')) as (d' & D' & Dom).
  assert (d' = d) by (eapply defIn_unique; [apply (proj1 (proj2 (proj1 Hf)))| |]; eauto). rewrite El. right. apply Dom in Hl'. congruence.
Qed.
Lemma base_ne x d : bs = ORes x -> defIn f x d -> reach f t -> d <> t.
Proof using Hf HP NE.
  intros E D [l Hl] Edt. rewrite Edt in D. clear d Edt. remember (length l) as m eqn:Em. revert l Em Hl. induction m as [m IH] using lt_wf_ind. intros l Em Hl.
  destruct (path_inv f t l Hl NE) as (k & l' & bk & El & Hl' & Hk & Hs). destruct (base_def x k bk E Hk Hs (ex_intro _ l' Hl')) as (d' & D' & Dom).
  assert (Ed : d' = t) by (eapply defIn_unique; [apply (proj1 (proj2 (proj1 Hf)))| |]; eauto). rewrite Ed in Dom. destruct (path_split f k l' t Hl' (Dom l' Hl')) as (l1 & l2 & El' & Hp & _).
  apply (IH (length l2)) with (l := l2); auto. rewrite Em, El, El'. cbn. rewrite app_length. lia.
Qed.
Lemma base_avail : reach f t -> opAvail (availIn f t) bs.
Proof using Hf HP NE.
  intros R. assert (K : forall x, bs = ORes x -> availIn f t x).
  { intros x E. pose proof R as [l Hl]. destruct (path_inv f t l Hl NE) as (k & l' & bk & El & Hl' & Hk & Hs).
    destruct (base_def x k bk E Hk Hs (ex_intro _ l' Hl')) as (d & D & _). exists d. split; auto. split; [now apply (base_ne x)|]. intros l0 Hl0. eapply base_dom; eauto. }
  clear - K. destruct bs as [c|a|x]; cbn; auto.
Qed.
Lemma base_phis x : bs = ORes x -> reach f t -> ~ In x (map pdst (phis tb)).
Proof using Hf HP NE Ht. intros E R H. apply (base_ne x t E); auto. exists tb. split; auto. unfold resultsOf. apply in_or_app. auto. Qed.
Lemma base_used x p pb : bs = ORes x -> get p f = Some pb -> In t (succs (trm pb)) -> In x (usesOf pb).
Proof using HP.
  intros E Hp Hs. destruct (HP p pb Hp Hs) as (_ & _ & i & v & Eb & _ & Eo & _). apply (use_body pb _ i [] bs x Eb); [rewrite Eo; now left|]. rewrite E. now left.
Qed.
Lemma ts_wf : wf g.
Proof using Hf Ht HP NE.
  pose proof Hf as ((Hn & U & Hc & PP & PAll) & _). pose proof (wf_uniqR f (proj1 Hf)) as [V1 V2].
  assert (ND : NoDup (map fst g)) by (rewrite ts_fst; apply U). split; [|split; [|split; [|split]]].
  - unfold g. intros E. apply Hn. destruct f; [reflexivity|discriminate].
  - split; [exact ND|]. apply uniqR_iff; [exact ND|]. split.
    + intros k bk Hk. apply ts_some in Hk as (b1 & Hk & ->). destruct (cases k b1 Hk) as [[-> ->]|[[N Hs]|[N Hs]]].
      * assert (Q : Permutation (resultsOf (h t tb)) (n :: S n :: resultsOf tb)).
        { rewrite h_t. unfold resultsOf. cbn. rewrite map_app. cbn. rewrite <- app_assoc. cbn. rewrite <- !Permutation_middle. reflexivity. }
        apply (Permutation_NoDup (Permutation_sym Q)). assert (All : forall x, In x (resultsOf tb) -> ~ n <= x).
        { intros x Hx L. apply (fresh_res x L). apply in_flat_map. exists (t, tb). split; [now apply get_In|exact Hx]. }
        constructor; [|constructor; [|exact (V1 t tb Ht)]].
        -- intros [H|H]; [clear - H; lia|]. apply (All n H). apply le_n.
        -- intros H. apply (All (S n) H). apply le_S, le_n.
      * rewrite (h_pred k b1 Hk Hs). pose proof (V1 k b1 Hk) as N1. destruct (HP k b1 Hk Hs) as (_ & _ & i & v & Eb & _). unfold resultsOf in *. cbn. rewrite Eb, map_app, app_assoc in N1.
        exact (NoDup_app_l _ _ N1).
      * rewrite h_other; eauto.
    + assert (All : forall k bk x, get k f = Some bk -> In x (resultsOf bk) -> ~ (x = n \/ x = S n)).
      { intros k bk x Hk Hx E. apply (fresh_res x); [clear - E; lia|]. apply in_flat_map. exists (k, bk). split; [now apply get_In|exact Hx]. }
      intros k1 k2 b1 b2 x H1 H2 X1 X2. apply ts_some in H1 as (c1 & H1 & ->). apply ts_some in H2 as (c2 & H2 & ->).
      apply h_res in X1; auto. apply h_res in X2; auto. destruct X1 as [X1|[E1 X1]]; destruct X2 as [X2|[E2 X2]]; [eauto|destruct (All k1 c1 x H1 X1 X2)|destruct (All k2 c2 x H2 X2 X1)|congruence].
  - intros k bk x Hk Hx. apply ts_some in Hk as (b1 & Hk & ->). rewrite h_trm in Hx. rewrite ts_fst. eauto.
  - intros k bk ph p o Hk Hph Hin. apply ts_some in Hk as (b1 & Hk & ->).
    assert (Old : In ph (phis b1) -> exists pb, get p g = Some pb /\ In k (succs (trm pb))).
    { intros H0. destruct (PP k b1 ph p o Hk H0 Hin) as (pb & Hp & Hs). exists (h p pb). split; [now apply ts_of|]. now rewrite h_trm. }
    destruct (cases k b1 Hk) as [[-> ->]|[[N Hs]|[N Hs]]].
    + rewrite h_t in Hph. cbn in Hph. apply in_app_or in Hph as [Hph|[<-|[]]]; auto. cbn in Hin. apply in_map_iff in Hin as ([p0 pb] & [= -> _] & Hin).
      apply pb_in in Hin as [A B]. exists (h p pb). split; [now apply ts_of|]. now rewrite h_trm.
    + rewrite (h_pred k b1 Hk Hs) in Hph. auto.
    + rewrite h_other in Hph; auto.
  - intros k bk ph p pb Hk Hph Hp Hs. apply ts_some in Hk as (b1 & Hk & ->). apply ts_some in Hp as (p1 & Hp & ->). rewrite h_trm in Hs.
    destruct (cases k b1 Hk) as [[-> ->]|[[N Hs1]|[N Hs1]]].
    + rewrite h_t in Hph. cbn in Hph. apply in_app_or in Hph as [Hph|[<-|[]]]; [eauto|]. cbn. intros E. apply get_None in E. apply E. rewrite map_map. cbn.
      apply in_map_iff. exists (p, p1). split; auto. now apply pb_in.
    + rewrite (h_pred k b1 Hk Hs1) in Hph. eauto.
    + rewrite h_other in Hph; eauto.
Qed.
Lemma ts_ssa : ssa g.
Proof using Hf Ht HP NE.
  intros k bk Hk R. apply ts_some in Hk as (b1 & Hk & ->). apply ts_reach in R. destruct (proj1 (proj2 Hf) k b1 Hk R) as (S1 & S2 & S3).
  assert (Op : forall pre pre' i post o, body b1 = pre ++ i :: post -> incl (map dst pre) (map dst pre') -> In o (ops i) -> opAvail (availAt f k b1 pre) o -> opAvail (availAt g k (h k b1) pre') o).
  { intros pre pre' i post o E I Ho. apply opImp2. intros x Hx Hr. apply (ts_availAt k b1 pre pre' x I Hx). apply (used_in k b1 x Hk). eapply use_body; eauto. }
  assert (Tm : forall pre', incl (map dst (body b1)) (map dst pre') -> Forall (opAvail (availAt g k (h k b1) pre')) (termOps (trm b1))).
  { intros pre' I. rewrite Forall_forall in *. intros o Ho. specialize (S2 o Ho). revert S2. apply opImp2. intros x Hx Hr. apply (ts_availAt k b1 _ pre' x I Hx). apply (used_in k b1 x Hk).
    unfold usesOf. apply in_or_app. right. apply in_or_app. right. unfold termUses. apply in_flat_map. eauto. }
  assert (Ph : forall ph p o, In ph (phis b1) -> In (p, o) (inc ph) -> reach g p -> opAvail (availOut g p) o).
  { intros ph p o Hph Hin Rp. apply ts_reach in Rp. specialize (S3 ph p o Hph Hin Rp). revert S3. apply opImp2. intros x Hx Hr. apply ts_availOut; auto. apply (used_in k b1 x Hk).
    unfold usesOf. apply in_or_app. left. unfold phiUses. apply in_flat_map. exists ph. split; auto. apply in_flat_map. eauto. }
  rewrite h_trm. destruct (cases k b1 Hk) as [[-> ->]|[[N Hs]|[N Hs]]].
  - assert (Eb : body (h t tb) = Inst (S n) st [bs; ORes n] :: body tb) by now rewrite h_t. split; [|split].
    + intros pre i post E. rewrite Eb in E. destruct pre as [|j pre]; cbn in E; injection E as <- E.
      * constructor; [|constructor; [|constructor]].
        -- generalize (base_avail R). apply opImp2. intros x B Hr. left. apply ts_availIn; auto. destruct R as [l Hl]. destruct (path_inv f t l Hl NE) as (p & l' & pb & El & Hl' & Hp & Hs).
           apply (used_in p pb x Hp). apply (base_used x p pb); auto. clear - Hr. destruct bs as [c|a|y]; cbn in Hr; try tauto. destruct Hr as [->|[]]. reflexivity.
        -- right. left. rewrite h_t. cbn. rewrite map_app. apply in_or_app. right. now left.
      * rewrite Forall_forall. intros o Ho. pose proof (S1 pre i post E) as K. rewrite Forall_forall in K. apply (Op pre _ i post o E); auto. intros x Hx. now right.
    + apply Tm. rewrite Eb. intros x Hx. now right.
    + intros ph p o Hph Hin Rp. rewrite h_t in Hph. cbn in Hph. apply in_app_or in Hph as [Hph|[<-|[]]]; [eauto|]. cbn in Hin. apply in_map_iff in Hin as ([p0 pb] & [= -> <-] & Hin).
      apply pb_in in Hin as [Hp Hsp]. apply ts_reach in Rp. destruct (HP p pb Hp Hsp) as (Np & _ & i & v & Eb' & _ & Eo & Ev & _). cbn [snd]. rewrite Ev.
      destruct (proj1 (proj2 Hf) p pb Hp Rp) as (T1 & _). specialize (T1 _ _ _ Eb'). rewrite Eo, Forall_forall in T1. pose proof (T1 v (or_intror (or_introl eq_refl))) as A.
      destruct v as [c|a|x]; cbn in *; auto. apply ts_availOut.
      * apply (availOut_at f p pb x Hp). destruct A as [A|[A|A]]; [left; auto|right; left; auto|]. right. right. rewrite Eb', map_app. apply in_or_app. auto.
      * apply (used_in p pb x Hp). apply (use_body pb _ i [] (ORes x) x Eb'); [rewrite Eo; right; now left|now left].
  - destruct (HP k b1 Hk Hs) as (_ & Et & i & v & Eb & _). assert (Ebh : body (h k b1) = removelast (body b1)) by now rewrite (h_pred k b1 Hk Hs). split; [|split].
    + intros pre j post E. rewrite Ebh in E. rewrite E in Eb. rewrite <- app_assoc in Eb. cbn in Eb. rewrite Forall_forall. intros o Ho. pose proof (S1 pre j _ Eb) as K. rewrite Forall_forall in K.
      apply (Op pre pre j (post ++ [i]) o Eb); auto. intros x Hx. exact Hx.
    + rewrite Et. constructor.
    + intros ph p o Hph. rewrite (h_pred k b1 Hk Hs) in Hph. eauto.
  - assert (Eh : h k b1 = b1) by (apply h_other; auto). split; [|split].
    + intros pre i post E. rewrite Eh in E. rewrite Forall_forall. intros o Ho. pose proof (S1 pre i post E) as K. rewrite Forall_forall in K. apply (Op pre pre i post o E); auto. intros x Hx. exact Hx.
    + apply Tm. rewrite Eh. intros x Hx. exact Hx.
    + intros ph p o Hph. rewrite Eh in Hph. eauto.
Qed.
Lemma ts_wfs : wfs g.
Proof using Hf Ht HP NE.
  split; [exact ts_wf|]. split; [exact ts_ssa|]. intros bk Hk. rewrite ts_entry in Hk. apply ts_some in Hk as (b1 & Hk & ->). pose proof (proj2 (proj2 Hf) b1 Hk) as E.
  destruct (cases _ b1 Hk) as [[K _]|[[N Hs]|[N Hs]]]; [congruence| |].
  - rewrite (h_pred _ b1 Hk Hs). exact E.
  - rewrite h_other; auto.
Qed.
(** *** the runs *)
Section Sim.
Context {W : Type} (m : sem W) (args : nat -> value).
Let X : list nat := n :: S n :: map (fun kb => match lastInst (snd kb) with Some i => dst i | None => n end) (predBlocks f t).
Lemma X_gone x : In x X -> Gone x.
Proof using Hf HP.
  intros [<-|[<-|H]]; [left; auto|right; left; auto|]. apply in_map_iff in H as ([p pb] & E & H). apply pb_in in H as [Hp Hs]. cbn [snd] in E.
  destruct (HP p pb Hp Hs) as (_ & _ & i & v & Eb & _). unfold lastInst in E. rewrite Eb, rev_app_distr in E. cbn in E. right. right. exists p, pb, i. auto.
Qed.
Lemma X_last p pb i : get p f = Some pb -> In t (succs (trm pb)) -> body pb = removelast (body pb) ++ [i] -> In (dst i) X.
Proof using Hf.
  intros Hp Hs Eb. right. right. apply in_map_iff. exists (p, pb). split; [|now apply pb_in]. cbn [snd]. unfold lastInst. rewrite Eb, rev_app_distr. reflexivity.
Qed.
Lemma X_use k bk x : get k f = Some bk -> In x (usesOf bk) -> ~ In x X.
Proof using Hf HP. intros Hk Hx HX. exact (used_in k bk x Hk Hx (X_gone x HX)). Qed.
Lemma X_phi k bk x : get k f = Some bk -> In x (phiUses (phis bk)) -> ~ In x X.
Proof using Hf HP. intros Hk Hx. apply (X_use k bk x Hk). unfold usesOf. apply in_or_app. auto. Qed.
Lemma X_body k bk x : get k f = Some bk -> In x (bodyUses (body bk)) -> ~ In x X.
Proof using Hf HP. intros Hk Hx. apply (X_use k bk x Hk). unfold usesOf. apply in_or_app. right. apply in_or_app. auto. Qed.
Lemma X_term k bk x : get k f = Some bk -> In x (termUses (trm bk)) -> ~ In x X.
Proof using Hf HP. intros Hk Hx. apply (X_use k bk x Hk). unfold usesOf. apply in_or_app. right. apply in_or_app. auto. Qed.
Definition Rel (s s' : Ssa.st (W:=W)) : Prop :=
  cur s <> t /\ cur s' = cur s /\ prev s' = prev s /\ wd s' = wd s /\ eqOff X (en s) (en s') /\ hist f s /\ hist g s' /\ definedIn g s'.
Lemma h_phis_ne k bk : get k f = Some bk -> k <> t -> phis (h k bk) = phis bk.
Proof using Ht HP.
  intros Hk N. destruct (cases k bk Hk) as [[K _]|[[_ Hs]|[_ Hs]]]; [contradiction| |].
  - now rewrite (h_pred k bk Hk Hs).
  - now rewrite h_other.
Qed.
Lemma rel_enter s s' bk e1 : Rel s s' -> get (cur s) f = Some bk -> enter args (en s) (prev s) (phis bk) = Some e1 ->
  exists e2, enter args (en s') (prev s') (phis bk) = Some e2 /\ eqOff X e1 e2.
Proof using Hf HP.
  intros (_ & _ & Ep & _ & He & _) Hk H. rewrite Ep. unfold enter in *. destruct (prev s) as [p|].
  - rewrite <- (rdPhis_eqOff args X (en s) (en s') p (phis bk) He (fun x Hx => X_phi (cur s) bk x Hk Hx)).
    destruct (rdPhis args (en s) p (phis bk)) as [vs|]; [|discriminate]. injection H as <-. exists (updAll (en s') vs). split; auto. now apply updAll_eqOff.
  - destruct (phis bk); [|discriminate]. injection H as <-. eauto.
Qed.
(** the block that now stores *)
Lemma step_t p pb i v vb vv eb w1 : get p f = Some pb -> In t (succs (trm pb)) -> body pb = removelast (body pb) ++ [i] -> ops i = [bs; v] -> storedVal pb = v ->
  reach f p -> definedIn g (St t (Some p) eb w1) -> rd args eb bs = Some vb -> rd args eb v = Some vv ->
  exists vs, rdPhis args eb p (phis tb) = Some vs /\
    step m args g (St t (Some p) eb w1) =
    match meaning m st [vb; vv] w1 with
    | IOk u w2 => match runBody m args (upd (updAll (updAll eb vs) [(n, vv)]) (S n) u) w2 (body tb) with
                  | BGo ec w3 t3 => match runTerm args ec (trm tb) with TGo b' => Go (St b' (Some t) ec w3) (evt m st [vb; vv] w1 ++ t3) | TFin r => Fin (Ret r w3) (evt m st [vb; vv] w1 ++ t3) | TBad => Bad (evt m st [vb; vv] w1 ++ t3) end
                  | BHalt w3 t3 => Fin (Exit w3) (evt m st [vb; vv] w1 ++ t3)
                  | BBad t3 => Bad (evt m st [vb; vv] w1 ++ t3) end
    | IHalt w2 => Fin (Exit w2) (evt m st [vb; vv] w1)
    | IBad => Bad (evt m st [vb; vv] w1)
    end.
Proof using Hf Ht HP NE.
  intros Hp Hs Eb Eo Ev R Df Hb Hv. assert (Rt : reach f t) by (eapply succ_reach; eauto). assert (Rg : reach g p) by now apply ts_reach. pose proof (ts_of t tb Ht) as Hg.
  destruct (ts_ssa t (h t tb) Hg (proj2 (ts_reach t) Rt)) as (_ & _ & S3). unfold definedIn in Df. cbn [prev en] in Df.
  destruct (rdPhis_ok args eb p (phis tb)) as [vs Hvs].
  { intros ph Hph. pose proof (proj2 (proj2 (proj2 (proj2 (proj1 Hf)))) t tb ph p pb Ht Hph Hp Hs) as K. destruct (get p (inc ph)) as [o|] eqn:Ei; [|congruence]. exists o.
    assert (A : opAvail (availOut g p) o). { apply (S3 ph p o); auto; [rewrite h_t; cbn; apply in_or_app; auto|now apply get_In]. }
    destruct o as [c|a|x]; cbn; eauto. cbn in A. pose proof (Df x A) as D. destruct (eb x) as [vx|]; [eauto|congruence]. }
  exists vs. split; auto. unfold step. cbn [cur prev en wd]. rewrite Hg, h_t. unfold runBlock. cbn [phis body trm enter]. rewrite rdPhis_app, Hvs. cbn [rdPhis pdst inc].
  assert (Gp : get p (map (fun kb => (fst kb, storedVal (snd kb))) (predBlocks f t)) = Some v).
  { rewrite <- Ev. apply In_get; [|apply in_map_iff; exists (p, pb); split; auto; now apply pb_in]. rewrite map_map. cbn. unfold predBlocks. apply NoDup_fst_filter. apply (proj1 (proj2 (proj1 Hf))). }
  rewrite Gp, Hv. cbn [option_map]. rewrite updAll_app. cbn [runBody ops opc dst rds].
  assert (Hb2 : rd args (updAll (updAll eb vs) [(n, vv)]) bs = Some vb).
  { rewrite <- Hb. assert (K : forall x, bs = ORes x -> updAll (updAll eb vs) [(n, vv)] x = eb x).
    { intros x Ex. cbn. rewrite upd_ne.
      - apply updAll_ne. rewrite (rdPhis_fst _ _ _ _ _ Hvs). now apply base_phis.
      - intros En. apply (used_in p pb x Hp (base_used x p pb Ex Hp Hs)). left. exact En. }
    clear - K. destruct bs as [c|a|x]; cbn [rd]; auto. }
  rewrite Hb2. cbn [rd]. assert (Hn : updAll (updAll eb vs) [(n, vv)] n = Some vv) by (cbn; apply upd_eq). rewrite Hn.
  destruct (meaning m st [vb; vv] w1) as [u w2|w2|]; auto. destruct (runBody m args _ w2 (body tb)) as [ec w3 t3|w3 t3|t3]; cbn; auto.
Qed.
Lemma rel_meets s s' : Sim.safe (step m args f) s -> Rel s s' -> meets (step m args f) (step m args g) Rel s s'.
Proof using Hf Ht HP NE.
  intros Hsafe HR. pose proof HR as (N & Ec & Ep & Ew & He & Hh & Hh' & Df).
  assert (NB : forall u, step m args f s <> Bad u). { intros u Et. apply (Hsafe 1 u). cbn. now rewrite Et. }
  destruct (get (cur s) f) as [bk|] eqn:Hk. 2:{ exfalso. apply (NB []). unfold step. now rewrite Hk. }
  destruct (enter args (en s) (prev s) (phis bk)) as [e1|] eqn:Ee. 2:{ exfalso. apply (NB []). unfold step, runBlock. now rewrite Hk, Ee. }
  destruct (rel_enter s s' bk e1 HR Hk Ee) as (e2 & Ee2 & A1). pose proof (ts_of (cur s) bk Hk) as Hg.
  assert (Sg0 : step m args g s' = match runBody m args e2 (wd s) (body (h (cur s) bk)) with BBad u => Bad u | BHalt w1 u => Fin (Exit w1) u
    | BGo ea w1 u => match runTerm args ea (trm bk) with TGo b' => Go (St b' (Some (cur s)) ea w1) u | TFin v => Fin (Ret v w1) u | TBad => Bad u end end).
  { unfold step, runBlock. rewrite Ec, Hg, (h_phis_ne (cur s) bk Hk N), Ee2, Ew, h_trm. reflexivity. }
  assert (Sf : step m args f s = match runBody m args e1 (wd s) (body bk) with BBad u => Bad u | BHalt w1 u => Fin (Exit w1) u
    | BGo ea w1 u => match runTerm args ea (trm bk) with TGo b' => Go (St b' (Some (cur s)) ea w1) u | TFin v => Fin (Ret v w1) u | TBad => Bad u end end).
  { unfold step, runBlock. now rewrite Hk, Ee. }
  destruct (cases (cur s) bk Hk) as [[K _]|[[_ Hs]|[_ Hs]]]; [contradiction| |].
  - (* a predecessor *)
    destruct (HP (cur s) bk Hk Hs) as (_ & Et & i & v & Eb & Eop & Eo & Ev & _).
    rewrite (h_pred (cur s) bk Hk Hs) in Sg0. cbn [body] in Sg0. rewrite Et in Sg0, Sf. cbn [runTerm] in Sg0, Sf. rewrite Eb, runBody_app in Sf.
    assert (KB := runBody_eqOff m args X (removelast (body bk)) (fun x Hx => X_body (cur s) bk x Hk (bodyUses_prefix _ x Hx)) e1 e2 (wd s) A1).
    destruct (runBody m args e1 (wd s) (removelast (body bk))) as [ea w1 t1|w1 t1|t1] eqn:R1; destruct (runBody m args e2 (wd s) (removelast (body bk))) as [eb w2 t2|w2 t2|t2] eqn:R2; try contradiction.
    2:{ destruct KB as (-> & ->). apply meets1. rewrite Sf, Sg0. auto. }
    2:{ exfalso. exact (NB _ Sf). }
    destruct KB as (A2 & <- & <-). cbn [runBody] in Sf. rewrite Eo, Eop in Sf. cbn [rds] in Sf.
    destruct (rd args ea bs) as [vb|] eqn:Evb; [|exfalso; exact (NB _ Sf)]. destruct (rd args ea v) as [vv|] eqn:Evv; [|exfalso; exact (NB _ Sf)].
    assert (Uo : forall o, In o (ops i) -> rd args eb o = rd args ea o).
    { intros o Ho. symmetry. apply (rd_eqOff args X); auto. intros x Hx. apply (X_use (cur s) bk x Hk). eapply use_body; eauto. }
    pose proof (hist_step _ _ _ _ _ _ Hh' Sg0) as Hh2. pose proof (defined_step m args g (proj1 (proj2 ts_wf)) _ _ _ Hh' Df Sg0) as Df2.
    destruct (step_t (cur s) bk i v vb vv eb w1 Hk Hs Eb Eo Ev (hist_reach _ _ Hh) Df2) as (vs & Hvs & Sg2).
    { rewrite Uo; auto. rewrite Eo. now left. }
    { rewrite Uo; auto. rewrite Eo. right. now left. }
    destruct (meaning m st [vb; vv] w1) as [u w2|w2|] eqn:Em; [| |exfalso; exact (NB _ Sf)].
    2:{ exists 1, 2. split; [lia|]. split; [lia|]. cbn [run]. rewrite Sf, Sg0, Sg2. cbn. auto. }
    cbn [bpre] in Sf. pose proof (hist_step _ _ _ _ _ _ Hh Sf) as Hh1. set (s1 := St t (Some (cur s)) (upd ea (dst i) u) w2) in *.
    assert (A3 : eqOff X (upd ea (dst i) u) eb).
    { intros y Hy. rewrite upd_ne; [auto|]. intros ->. apply Hy. exact (X_last (cur s) bk i Hk Hs Eb). }
    assert (Ev1 : rdPhis args (upd ea (dst i) u) (cur s) (phis tb) = Some vs).
    { rewrite <- Hvs. apply (rdPhis_eqOff args X); auto. intros x Hx. exact (X_phi t tb x Ht Hx). }
    assert (A4 : eqOff X (updAll (upd ea (dst i) u) vs) (upd (updAll (updAll eb vs) [(n, vv)]) (S n) u)).
    { intros y Hy. assert (y <> n /\ y <> S n) as [Y1 Y2] by (split; intros ->; apply Hy; [now left|right; now left]).
      rewrite upd_ne by auto. cbn. rewrite upd_ne by auto. now apply (updAll_eqOff X vs _ _ A3). }
    assert (Sf2 : step m args f s1 = match runBody m args (updAll (upd ea (dst i) u) vs) w2 (body tb) with BBad u => Bad u | BHalt w1 u => Fin (Exit w1) u
      | BGo ea w1 u => match runTerm args ea (trm tb) with TGo b' => Go (St b' (Some t) ea w1) u | TFin v => Fin (Ret v w1) u | TBad => Bad u end end).
    { unfold step, s1. cbn [cur prev en wd]. rewrite Ht. unfold runBlock, enter. rewrite Ev1. reflexivity. }
    assert (KT := runBody_eqOff m args X (body tb) (fun x Hx => X_body t tb x Ht Hx) _ _ w2 A4).
    assert (NB2 : forall r, step m args f s1 <> Bad r).
    { intros r Er. apply (Hsafe 2 ((t1 ++ evt m st [vb; vv] w1 ++ []) ++ r)). cbn [run]. rewrite Sf. cbn [run]. rewrite Er. reflexivity. }
    destruct (runBody m args (updAll (upd ea (dst i) u) vs) w2 (body tb)) as [ec w3 t3|w3 t3|t3] eqn:R3;
      destruct (runBody m args (upd (updAll (updAll eb vs) [(n, vv)]) (S n) u) w2 (body tb)) as [ed w4 t4|w4 t4|t4] eqn:R4; try contradiction.
    2:{ destruct KT as (-> & ->). exists 2, 2. split; [lia|]. split; [lia|]. cbn [run]. rewrite Sf, Sg0. cbn [run]. rewrite Sf2, Sg2. cbn. rewrite app_nil_r, app_assoc. auto. }
    2:{ exfalso. exact (NB2 _ Sf2). }
    destruct KT as (A5 & <- & <-). rewrite <- (runTerm_eqOff args X ec ed (trm tb) A5 (fun x Hx => X_term t tb x Ht Hx)) in Sg2.
    destruct (runTerm args ec (trm tb)) as [b'|r|] eqn:Etm; [| |exfalso; exact (NB2 _ Sf2)]; exists 2, 2; (split; [lia|]); (split; [lia|]); cbn [run]; rewrite Sf, Sg0; cbn [run]; rewrite Sf2, Sg2; cbn;
      rewrite !app_nil_r, ?app_assoc; (split; [reflexivity|]); auto.
    split; [|split; [|split; [|split; [|split; [|split; [|split]]]]]]; auto.
    + cbn. intros ->. apply runTerm_succs in Etm. destruct (HP t tb Ht Etm) as [K _]. apply K. reflexivity.
    + exact (hist_step _ _ _ _ _ _ Hh1 Sf2).
    + exact (hist_step _ _ _ _ _ _ Hh2 Sg2).
    + exact (defined_step m args g (proj1 (proj2 ts_wf)) _ _ _ Hh2 Df2 Sg2).
  - rewrite (h_other (cur s) bk N Hs) in Sg0. assert (KB := runBody_eqOff m args X (body bk) (fun x Hx => X_body (cur s) bk x Hk Hx) e1 e2 (wd s) A1).
    destruct (runBody m args e1 (wd s) (body bk)) as [ea w1 t1|w1 t1|t1] eqn:R1; destruct (runBody m args e2 (wd s) (body bk)) as [eb w2 t2|w2 t2|t2] eqn:R2; try contradiction.
    2:{ destruct KB as (-> & ->). apply meets1. rewrite Sf, Sg0. auto. }
    2:{ exfalso. exact (NB _ Sf). }
    destruct KB as (A2 & <- & <-). rewrite <- (runTerm_eqOff args X ea eb (trm bk) A2 (fun x Hx => X_term (cur s) bk x Hk Hx)) in Sg0.
    destruct (runTerm args ea (trm bk)) as [b'|v|] eqn:Et; [|apply meets1; rewrite Sf, Sg0; auto|exfalso; exact (NB _ Sf)].
    apply meets1. rewrite Sf, Sg0. split; auto. split; [|split; [|split; [|split; [|split; [|split; [|split]]]]]]; auto.
    + cbn. intros ->. apply Hs. eapply runTerm_succs; eauto.
    + exact (hist_step _ _ _ _ _ _ Hh Sf).
    + exact (hist_step _ _ _ _ _ _ Hh' Sg0).
    + exact (defined_step m args g (proj1 (proj2 ts_wf)) _ _ _ Hh' Df Sg0).
Qed.
Theorem ts_refinesAt w : refinesAt (step m args f) (step m args g) (start f w) (start g w).
Proof using Hf Ht HP NE.
  apply (sim_refines _ _ Rel rel_meets). unfold start. rewrite ts_entry. split; [exact (not_eq_sym NE)|]. split; auto. split; auto. split; auto. split; [apply eqOff_refl|].
  split; [apply (hist_start f)|]. split; [rewrite <- ts_entry; apply (hist_start g)|exact I].
Qed.
End Sim.
End TS.

(** ** the conditions of the pass *)
Lemma isUsed_not f x : isUsed f x = false -> forall k bk, get k f = Some bk -> ~ In x (usesOf bk).
Proof.
  intros H k bk Hk Hx. assert (K : isUsed f x = true); [|congruence]. apply existsb_exists. exists (k, bk). split; [now apply get_In|]. now apply inb_In.
Qed.
Lemma storeOf_ok st f t p pb b v : storeOf st f t (p, pb) = Some (b, v) -> In t (succs (trm pb)) -> p <> t /\ trm pb = TBr t /\
  exists i v, body pb = removelast (body pb) ++ [i] /\ opc i = st /\ ops i = [b; v] /\ storedVal pb = v /\ forall k bk, get k f = Some bk -> ~ In (dst i) (usesOf bk).
Proof.
  unfold storeOf. cbn [fst snd]. intros H Hs. destruct (Nat.eqb_spec p t) as [|N]; [discriminate|]. split; auto. destruct (trm pb) as [t'| | | |]; try discriminate.
  destruct Hs as [->|[]]. split; auto. destruct (lastInst pb) as [i|] eqn:El; [|discriminate]. destruct (Nat.eqb_spec (opc i) st) as [Eo|]; [|discriminate].
  destruct (isUsed f (dst i)) eqn:Eu; [discriminate|]. cbn [andb negb] in H. destruct (ops i) as [|b1 [|v1 [|]]] eqn:Ei; try discriminate. injection H as -> ->. exists i, v.
  split; [now apply removelast_last|]. split; auto. split; auto. split; [unfold storedVal; rewrite El, Ei; reflexivity|]. now apply isUsed_not.
Qed.
Lemma commonBase_ok st f t b : commonBase st f t = Some b ->
  forall p pb, get p f = Some pb -> In t (succs (trm pb)) -> p <> t /\ trm pb = TBr t /\
  exists i v, body pb = removelast (body pb) ++ [i] /\ opc i = st /\ ops i = [b; v] /\ storedVal pb = v /\ forall k bk, get k f = Some bk -> ~ In (dst i) (usesOf bk).
Proof.
  unfold commonBase. intros H p pb Hp Hs. destruct (predBlocks f t) as [|kb1 [|kb2 r]] eqn:E; try discriminate. destruct (storeOf st f t kb1) as [[b1 v1]|]; [|discriminate].
  match type of H with (if ?c then _ else _) = _ => destruct c eqn:Ec; [|discriminate] end. injection H as ->. rewrite forallb_forall in Ec.
  assert (I : In (p, pb) (predBlocks f t)) by (apply filter_In; split; [now apply get_In|now apply inb_In]). rewrite E in I. specialize (Ec _ I).
  destruct (storeOf st f t (p, pb)) as [[b' v]|] eqn:Es; [|discriminate]. destruct (opnd_eqb_spec b' b) as [->|]; [|discriminate]. exact (storeOf_ok st f t p pb b v Es Hs).
Qed.
Definition tailed (knd : nat -> kind) (f g : func) : Prop := good knd f g /\ entryNoPred g.
Lemma tailStoreOne_good knd st f t : wfs f -> entryNoPred f -> tailed knd f (tailStoreOne st f t).
Proof.
  intros Hf He. unfold tailStoreOne. destruct (commonBase st f t) as [b|] eqn:Eb; [|split; [now apply good_refl|exact He]].
  destruct (predBlocks f t) as [|[p pb] r] eqn:Ep; [unfold commonBase in Eb; rewrite Ep in Eb; discriminate|].
  assert (I : In (p, pb) (predBlocks f t)) by (rewrite Ep; now left). apply filter_In in I as [I1 I2]. apply inb_In in I2. cbn [snd] in I2.
  apply In_get in I1; [|apply (proj1 (proj2 (proj1 Hf)))]. assert (NE : t <> entry f) by (intros ->; exact (He p pb I1 I2)).
  assert (HP := commonBase_ok st f t b Eb). destruct (get t f) as [tb|] eqn:Ht.
  2:{ exfalso. apply get_None in Ht. apply Ht. exact (proj1 (proj2 (proj2 (proj1 Hf))) p pb t I1 I2). }
  split; [split|].
  - intros W m args w _. exact (ts_refinesAt st f t tb b Hf Ht NE HP m args w).
  - exact (ts_wfs st f t tb b Hf Ht NE HP).
  - intros k bk Hk. pose proof (ts_entry st f t b) as Ee. cbv zeta in Ee. rewrite Ee. apply (ts_some st f t b) in Hk as (b1 & Hk & ->). rewrite (h_trm st f t b). exact (He k b1 Hk).
Qed.
Theorem tailStoreMerge_good knd st f : wfs f -> entryNoPred f -> tailed knd f (tailStoreMerge st f).
Proof.
  unfold tailStoreMerge. generalize (map fst f) at 1. intros l. revert f. induction l as [|t l IH]; intros f Hf He; [split; [now apply good_refl|exact He]|]. cbn [fold_left].
  destruct (tailStoreOne_good knd st f t Hf He) as [G E]. destruct (IH _ (proj2 G) E) as [G2 E2]. split; [|exact E2]. eapply good_trans; [exact G|]. intros _. exact G2.
Qed.
