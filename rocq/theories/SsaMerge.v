(** BlockMerge: joining a block to its only successor (cmmc/Transforms/ControlFlow/BlockMerge.cpp). *)
From Coq Require Import ZArith Lia Bool List Arith.
From Verif Require Import Sim Ssa SsaCfg.
Import ListNotations.

(** ** the pass *)
(** cmmc/IR/Instruction.cpp:910-916 PhiInst::replaceSource *)
Definition replaceSource (a b : nat) (ph : phi) : phi :=
  Phi (pdst ph) (map (fun x => (if Nat.eqb (fst x) a then b else fst x, snd x)) (inc ph)).
(** cmmc/Transforms/Util/BlockUtil.cpp:182-194 retargetBlock *)
Definition retargetPhi (a b : nat) (ph : phi) : phi := if hasSource b ph then removeSource a ph else replaceSource a b ph.
Definition retargetBlock (a b : nat) (bk : block) : block := Block (map (retargetPhi a b) (phis bk)) (body bk) (trm bk).

(** BlockMerge.cpp:47-61: how many blocks lead to each block (a block counts once even if it has two edges) *)
Definition leadsTo (t : nat) (x : nat * block) : bool := existsb (Nat.eqb t) (succs (trm (snd x))).
Definition blockRef (f : func) (t : nat) : nat := length (filter (leadsTo t) f).

(** lines 84-109: append [t] to [b], correct the phis of its successors; [t] is dropped (line 113) *)
Definition joinBlocks (f : func) (b t : nat) (tb : block) : func :=
  let f1 := onBlock b (fun bk => Block (phis bk) (body bk ++ body tb) (trm tb)) f in
  let f2 := fold_left (fun g s => onBlock s (retargetBlock t b) g) (nodup Nat.eq_dec (succs (trm tb))) f1 in
  filter (fun x => negb (Nat.eqb (fst x) t)) f2.

(** lines 63-111, one block.  A block dropped earlier in the same round is skipped (lines 64-65; here it is no longer
    in the list).  [ref]: counted once per round; [dom]: DominateAnalysisResult::dominate, computed once per run *)
Definition merge1 (dom : nat -> nat -> bool) (ref : nat -> nat) (f : func) (b : nat) : func :=
  match get b f with
  | Some bk =>
    match trm bk with
    | TBr t =>
      if Nat.eqb b t then f else if negb (dom b t) then f else if negb (Nat.eqb (ref t) 1) then f
      else match get t f with
           | Some tb => match phis tb with [] => joinBlocks f b t tb | _ => f end
           | None => f
           end
    | _ => f
    end
  | None => f
  end.
Definition tryMerge (dom : nat -> nat -> bool) (f : func) : func := fold_left (merge1 dom (blockRef f)) (map fst f) f.
(** lines 117-119: until nothing changes; [fuel]: every round that changes something removes a block ([tryMerge_len]) *)
Fixpoint blockMergeN (dom : nat -> nat -> bool) (fuel : nat) (f : func) : func :=
  match fuel with
  | O => f
  | S n => let f' := tryMerge dom f in if Nat.eqb (length f') (length f) then f' else blockMergeN dom n f'
  end.
Definition blockMerge (dom : nat -> nat -> bool) (f : func) : func := blockMergeN dom (S (length f)) f.

(** ** well-formedness: a phi has incoming values only for predecessors (cmmc/IR/Function.cpp:235-242) *)
Definition phiPreds (f : func) : Prop :=
  forall k bk ph p o, get k f = Some bk -> In ph (phis bk) -> In (p, o) (inc ph) ->
    exists pb, get p f = Some pb /\ In k (succs (trm pb)).

(** ** proofs *)
Lemma get_replaceSource a b p ph : p <> a -> p <> b -> get p (inc (replaceSource a b ph)) = get p (inc ph).
Proof.
  intros Ha Hb. cbn. induction (inc ph) as [|[x o] l IH]; cbn; auto.
  destruct (Nat.eqb_spec x a) as [->|D].
  - destruct (Nat.eqb_spec b p); [congruence|]. destruct (Nat.eqb_spec a p); [congruence|]. exact IH.
  - destruct (Nat.eqb x p); auto.
Qed.
Lemma get_replaceSource_new a b ph : get b (inc ph) = None -> get b (inc (replaceSource a b ph)) = get a (inc ph).
Proof.
  cbn. induction (inc ph) as [|[x o] l IH]; cbn; auto.
  destruct (Nat.eqb_spec x b) as [->|D]; try discriminate. intros H.
  destruct (Nat.eqb_spec x a) as [->|D']; [now rewrite Nat.eqb_refl|].
  destruct (Nat.eqb_spec x b); [congruence|]. auto.
Qed.
Lemma get_retarget_other a b p ph : p <> a -> p <> b -> get p (inc (retargetPhi a b ph)) = get p (inc ph).
Proof.
  intros Ha Hb. unfold retargetPhi. destruct (hasSource b ph).
  - now apply get_removeSource.
  - now apply get_replaceSource.
Qed.
Lemma get_retarget_new a b ph : get b (inc ph) = None -> get b (inc (retargetPhi a b ph)) = get a (inc ph).
Proof. intros H. unfold retargetPhi, hasSource. rewrite H. now apply get_replaceSource_new. Qed.
Lemma pdst_retarget a b ph : pdst (retargetPhi a b ph) = pdst ph.
Proof. unfold retargetPhi. destruct (hasSource b ph); reflexivity. Qed.

Lemma rdPhis_retarget_other args a b p e l : p <> a -> p <> b -> rdPhis args e p (map (retargetPhi a b) l) = rdPhis args e p l.
Proof.
  intros Ha Hb. induction l as [|ph l IH]; cbn [map rdPhis]; auto.
  now rewrite get_retarget_other, IH, pdst_retarget.
Qed.
Lemma rdPhis_retarget_new args a b e l : (forall ph, In ph l -> get b (inc ph) = None) ->
  rdPhis args e b (map (retargetPhi a b) l) = rdPhis args e a l.
Proof.
  intros H. induction l as [|ph l IH]; cbn [map rdPhis]; auto.
  rewrite get_retarget_new, pdst_retarget, IH; auto; intros; apply H; cbn; auto.
Qed.

Lemma get_retargets t b l : NoDup l -> forall f k,
  get k (fold_left (fun g s => onBlock s (retargetBlock t b) g) l f) =
  option_map (fun bk => if existsb (Nat.eqb k) l then retargetBlock t b bk else bk) (get k f).
Proof.
  induction l as [|s l IH]; intros N f k; cbn.
  - now destruct (get k f).
  - inversion N as [|? ? N1 N2]; subst. rewrite IH; auto. rewrite get_onBlock. destruct (get k f) as [bk|]; cbn; auto.
    destruct (Nat.eqb_spec k s) as [->|]; cbn; auto. rewrite (proj2 (existsb_nIn s l) N1). reflexivity.
Qed.
Lemma get_join f b t tb k : get k (joinBlocks f b t tb) =
  if Nat.eqb k t then None else
  option_map (fun bk => let bk1 := if Nat.eqb k b then Block (phis bk) (body bk ++ body tb) (trm tb) else bk in
                        if existsb (Nat.eqb k) (succs (trm tb)) then retargetBlock t b bk1 else bk1) (get k f).
Proof.
  unfold joinBlocks. rewrite (get_filter (fun x => negb (Nat.eqb x t))). destruct (Nat.eqb k t); cbn; auto.
  rewrite get_retargets by apply NoDup_nodup. rewrite get_onBlock. destruct (get k f) as [bk|]; cbn; auto. f_equal.
  replace (existsb (Nat.eqb k) (nodup Nat.eq_dec (succs (trm tb)))) with (existsb (Nat.eqb k) (succs (trm tb))); auto.
  apply eq_true_iff_eq. rewrite !existsb_In. symmetry. apply nodup_In.
Qed.

Lemma runBody_app {W} (m : sem W) args l1 l2 : forall e w,
  runBody m args e w (l1 ++ l2) =
  match runBody m args e w l1 with BGo e' w' t => bpre t (runBody m args e' w' l2) | r => r end.
Proof.
  induction l1 as [|i l1 IH]; intros e w; cbn.
  - now destruct (runBody m args e w l2).
  - destruct (rds args e (ops i)) as [vs|]; auto. destruct (meaning m (opc i) vs w) as [v w1|w1|]; auto.
    rewrite IH. destruct (runBody m args (upd e (dst i) v) w1 l1) as [e2 w2 t2|w2 t2|t2]; auto.
    cbn. destruct (runBody m args e2 w2 l2); cbn; now rewrite app_assoc.
Qed.

(** the edge a state came by exists *)
Definition okEdge {W} (f : func) (s : st (W:=W)) : Prop :=
  match prev s with
  | None => cur s = entry f
  | Some p => exists pb, get p f = Some pb /\ In (cur s) (succs (trm pb))
  end.
Lemma okEdge_step {W} (m : sem W) args f s s' t : step m args f s = Go s' t -> okEdge f s'.
Proof.
  intros H. destruct (step_inv m args f s s' t H) as (bk & e1 & e2 & w & Hg & _ & _ & Ht & ->). unfold okEdge. cbn in *.
  exists bk. split; auto. eapply runTerm_succs; eauto.
Qed.

Lemma join_ok k f b t bk tb :
  get b f = Some bk -> trm bk = TBr t -> b <> t -> t <> entry f -> get t f = Some tb -> phis tb = [] ->
  (forall p pb, get p f = Some pb -> In t (succs (trm pb)) -> p = b) -> phiPreds f ->
  refines k f (joinBlocks f b t tb).
Proof.
  intros Hb Htr Dbt Hent Ht Hph Honly Hpp W m args w _.
  set (g := joinBlocks f b t tb).
  set (R := fun s s' : st (W:=W) => cur s' = cur s /\ en s' = en s /\ wd s' = wd s /\ cur s <> t /\ okEdge f s /\
                         prev s' = match prev s with Some p => Some (if Nat.eqb p t then b else p) | None => None end).
  assert (Heg : entry g = entry f).
  { unfold g, joinBlocks. rewrite (entry_filter (fun x => negb (Nat.eqb x t))).
    - clear - Hb. generalize (nodup Nat.eq_dec (succs (trm tb))). intros l.
      assert (H : entry (onBlock b (fun bk0 => Block (phis bk0) (body bk0 ++ body tb) (trm tb)) f) = entry f) by apply entry_onBlock.
      revert H. generalize (onBlock b (fun bk0 => Block (phis bk0) (body bk0 ++ body tb) (trm tb)) f). intros h.
      revert h. induction l as [|s l IH]; intros h H; cbn; auto. apply IH. rewrite entry_onBlock. exact H.
    - intros H. assert (K : forall l h, fold_left (fun g0 s => onBlock s (retargetBlock t b) g0) l h = [] -> h = []).
      { induction l as [|s l IH]; intros h E1; cbn in E1; auto. apply IH in E1. unfold onBlock in E1. now apply map_eq_nil in E1. }
      apply K in H. unfold onBlock in H. apply map_eq_nil in H. subst f. discriminate.
    - assert (K : forall l h, entry (fold_left (fun g0 s => onBlock s (retargetBlock t b) g0) l h) = entry h).
      { induction l as [|s l IH]; intros h; cbn; auto. rewrite IH. apply entry_onBlock. }
      rewrite K, entry_onBlock. destruct (Nat.eqb_spec (entry f) t); [congruence|reflexivity]. }
  (* entering a block other than t *)
  assert (Hphi : forall (s : st (W:=W)) bk1, cur s <> t -> okEdge f s -> get (cur s) f = Some bk1 ->
    enter args (en s) (match prev s with Some p => Some (if Nat.eqb p t then b else p) | None => None end)
      (phis (if existsb (Nat.eqb (cur s)) (succs (trm tb)) then retargetBlock t b bk1 else bk1)) =
    enter args (en s) (prev s) (phis bk1)).
  { intros s bk1 Hct Hed Hg1. unfold okEdge in Hed. destruct (prev s) as [p|].
    2:{ destruct (existsb (Nat.eqb (cur s)) (succs (trm tb))); auto. unfold retargetBlock. cbn.
        destruct (phis bk1); auto. }
    destruct Hed as (pb & Hp & Hin). cbn.
    assert (Hpb : p <> b).
    { intros ->. rewrite Hb in Hp. injection Hp as <-. rewrite Htr in Hin. destruct Hin as [Hin|[]]. congruence. }
    assert (Hnb : forall ph, In ph (phis bk1) -> get b (inc ph) = None).
    { intros ph Hin'. destruct (get b (inc ph)) as [o|] eqn:E1; auto. exfalso. apply get_In in E1.
      destruct (Hpp _ _ _ _ _ Hg1 Hin' E1) as (pb' & Hpb' & Hin2). rewrite Hb in Hpb'. injection Hpb' as <-.
      rewrite Htr in Hin2. destruct Hin2 as [Hin2|[]]. congruence. }
    destruct (Nat.eqb_spec p t) as [->|Dpt].
    - rewrite Ht in Hp. injection Hp as <-. rewrite (proj2 (existsb_In _ _) Hin). cbn [phis retargetBlock].
      now rewrite rdPhis_retarget_new.
    - destruct (existsb (Nat.eqb (cur s)) (succs (trm tb))); auto. cbn [phis retargetBlock].
      now rewrite rdPhis_retarget_other. }
  apply (sim_refines (step m args f) (step m args g) R).
  2:{ unfold R, start. cbn. rewrite Heg. repeat split; auto. }
  intros s s' Hs (Hc & He & Hw & Hct & Hed & Hp).
  pose proof (fun u => safe_step m args f s u Hs) as Hsb.
  assert (Hg2 : get (cur s) g = option_map (fun bk1 => let bk2 := if Nat.eqb (cur s) b then Block (phis bk1) (body bk1 ++ body tb) (trm tb) else bk1 in
                        if existsb (Nat.eqb (cur s)) (succs (trm tb)) then retargetBlock t b bk2 else bk2) (get (cur s) f)).
  { unfold g. rewrite get_join. destruct (Nat.eqb_spec (cur s) t); [congruence|reflexivity]. }
  destruct (get (cur s) f) as [bk1|] eqn:Eg.
  2:{ exfalso. apply (Hsb []). unfold step. now rewrite Eg. }
  cbn in Hg2. specialize (Hphi s bk1 Hct Hed Eg).
  destruct (Nat.eqb_spec (cur s) b) as [Ecb|Dcb].
  - assert (bk1 = bk) by congruence. subst bk1.
    assert (Hent2 : enter args (en s') (prev s') (phis (if existsb (Nat.eqb (cur s)) (succs (trm tb))
                     then retargetBlock t b (Block (phis bk) (body bk ++ body tb) (trm tb))
                     else Block (phis bk) (body bk ++ body tb) (trm tb))) = enter args (en s) (prev s) (phis bk)).
    { rewrite He, Hp, <- Hphi. destruct (existsb (Nat.eqb (cur s)) (succs (trm tb))); reflexivity. }
    assert (Hstep' : step m args g s' = match enter args (en s) (prev s) (phis bk) with
       | None => Bad []
       | Some e1 => match runBody m args e1 (wd s) (body bk ++ body tb) with
                    | BBad u => Bad u | BHalt w' u => Fin (Exit w') u
                    | BGo e2 w' u => match runTerm args e2 (trm tb) with
                                     | TGo b' => Go (St b' (Some b) e2 w') u | TFin v => Fin (Ret v w') u | TBad => Bad u end end end).
    { unfold step. rewrite Hc, Hg2. unfold runBlock. rewrite Hent2, Hw, Ecb.
      destruct (enter args (en s) (prev s) (phis bk)) as [e1|]; auto.
      destruct (existsb (Nat.eqb b) (succs (trm tb))); reflexivity. }
    assert (Hstep : step m args f s = match enter args (en s) (prev s) (phis bk) with
       | None => Bad []
       | Some e1 => match runBody m args e1 (wd s) (body bk) with
                    | BBad u => Bad u | BHalt w' u => Fin (Exit w') u
                    | BGo e2 w' u => Go (St t (Some b) e2 w') u end end).
    { unfold step. rewrite Eg. unfold runBlock. rewrite Htr, Ecb. cbn. reflexivity. }
    destruct (enter args (en s) (prev s) (phis bk)) as [e1|] eqn:Een; [|exfalso; exact (Hsb [] Hstep)].
    destruct (runBody m args e1 (wd s) (body bk)) as [e2 w2 t2|w2 t2|t2] eqn:Erb.
    + set (s1 := St t (Some b) e2 w2) in *.
      pose proof (safe_next m args f s s1 t2 Hs Hstep) as Hs1.
      pose proof (fun u => safe_step m args f s1 u Hs1) as Hsb1.
      assert (Hstep1 : step m args f s1 = match runBody m args e2 w2 (body tb) with
                    | BBad u => Bad u | BHalt w' u => Fin (Exit w') u
                    | BGo e3 w' u => match runTerm args e3 (trm tb) with
                                     | TGo b' => Go (St b' (Some t) e3 w') u | TFin v => Fin (Ret v w') u | TBad => Bad u end end).
      { unfold step, s1. cbn [cur prev en wd]. rewrite Ht. unfold runBlock. rewrite Hph. cbn. reflexivity. }
      rewrite runBody_app, Erb in Hstep'.
      destruct (runBody m args e2 w2 (body tb)) as [e3 w3 t3|w3 t3|t3] eqn:Erb2; cbn [bpre] in Hstep'.
      * destruct (runTerm args e3 (trm tb)) as [b'|v|] eqn:Etm.
        -- exists 2%nat, 1%nat. split; [lia|]. split; [lia|]. cbn. rewrite Hstep, Hstep1, Hstep'. cbn.
           rewrite !app_nil_r. split; auto. unfold R. cbn. rewrite Nat.eqb_refl. repeat split; auto.
           ++ intros ->. apply Dbt. symmetry. apply (Honly t tb Ht). eapply runTerm_succs; eauto.
           ++ apply (okEdge_step m args f s1 _ _ Hstep1).
        -- exists 2%nat, 1%nat. split; [lia|]. split; [lia|]. cbn. rewrite Hstep, Hstep1, Hstep'. cbn. auto.
        -- exfalso. exact (Hsb1 t3 Hstep1).
      * exists 2%nat, 1%nat. split; [lia|]. split; [lia|]. cbn. rewrite Hstep, Hstep1, Hstep'. cbn. auto.
      * exfalso. exact (Hsb1 t3 Hstep1).
    + rewrite runBody_app, Erb in Hstep'. apply meets1. rewrite Hstep, Hstep'. auto.
    + exfalso. exact (Hsb t2 Hstep).
  - apply meets1.
    assert (Hsame : step m args g s' = step m args f s).
    { unfold step. rewrite Hc, Hg2, Eg. unfold runBlock. rewrite He, Hp, Hphi, Hw.
      destruct (enter args (en s) (prev s) (phis bk1)) as [e1|]; auto.
      destruct (existsb (Nat.eqb (cur s)) (succs (trm tb))); reflexivity. }
    rewrite Hsame. destruct (step m args f s) as [s1 t1|r t1|t1] eqn:Est; auto.
    + split; auto. destruct (step_inv m args f s s1 t1 Est) as (bk' & e1 & e2 & w' & Hg' & _ & _ & Htm & Hs1).
      assert (bk' = bk1) by congruence. subst bk'. unfold R. repeat split; auto.
      * intros K. apply Dcb. apply (Honly (cur s) bk1 Eg). rewrite <- K. eapply runTerm_succs; eauto.
      * eapply okEdge_step; eauto.
      * rewrite Hs1. cbn. destruct (Nat.eqb_spec (cur s) t); [congruence|reflexivity].
    + exact (Hsb t1 eq_refl).
Qed.

(** *** the counts stay right during a round *)
Fixpoint tot {A} (w : A -> nat) (l : list A) : nat := match l with [] => 0%nat | x :: l' => (w x + tot w l')%nat end.
Lemma tot_filter {A} (q : A -> bool) l : length (filter q l) = tot (fun x => if q x then 1 else 0)%nat l.
Proof. induction l as [|x l IH]; cbn; auto. destruct (q x); cbn; lia. Qed.
Lemma tot_ext {A} (w w' : A -> nat) l : (forall x, In x l -> w x = w' x) -> tot w l = tot w' l.
Proof.
  induction l as [|x l IH]; cbn; intros H; [reflexivity|].
  rewrite (H x (or_introl eq_refl)), IH; [reflexivity|]. intros y Hy. apply H. now right.
Qed.
Lemma tot_upd (w w' : nat * block -> nat) (f : func) k bk :
  NoDup (map fst f) -> In (k, bk) f -> (forall x, In x f -> fst x <> k -> w' x = w x) ->
  (tot w' f + w (k, bk) = tot w f + w' (k, bk))%nat.
Proof.
  induction f as [|x f IH]; intros N Hin Hw; [contradiction|]. cbn in N. inversion N as [|? ? N1 N2]; subst. cbn [tot].
  destruct Hin as [->|Hin].
  - assert (E1 : tot w' f = tot w f).
    { apply tot_ext. intros y Hy. apply Hw; [now right|]. intros E1. apply N1. cbn. rewrite <- E1. now apply in_map. }
    lia.
  - specialize (IH N2 Hin (fun y Hy => Hw y (or_intror Hy))).
    rewrite (Hw x (or_introl eq_refl)); [lia|]. intros E1. apply N1. rewrite E1. change k with (fst (k, bk)). now apply in_map.
Qed.
Lemma tot_map {A B} (w : B -> nat) (h : A -> B) l : tot w (map h l) = tot (fun x => w (h x)) l.
Proof. induction l as [|x l IH]; cbn; auto. Qed.
Lemma tot_filter_w {A} (w : A -> nat) q l : tot w (filter q l) = tot (fun x => if q x then w x else 0%nat) l.
Proof. induction l as [|x l IH]; cbn; auto. destruct (q x); cbn; auto. Qed.

Lemma tot_retargets (w : nat * block -> nat) t b l : (forall k bk, w (k, retargetBlock t b bk) = w (k, bk)) -> forall f,
  tot w (fold_left (fun g s => onBlock s (retargetBlock t b) g) l f) = tot w f.
Proof.
  intros Hw. induction l as [|s l IH]; intros f; cbn; auto. rewrite IH. unfold onBlock. rewrite tot_map. apply tot_ext.
  intros [k bk] _. cbn. destruct (Nat.eqb k s); auto.
Qed.

Lemma blockRef_join f b t bk tb u :
  NoDup (map fst f) -> get b f = Some bk -> trm bk = TBr t -> b <> t -> get t f = Some tb -> u <> t ->
  blockRef (joinBlocks f b t tb) u = blockRef f u.
Proof.
  intros N Hb Htr D Ht Du. unfold blockRef, joinBlocks. rewrite !tot_filter, tot_filter_w, tot_retargets by reflexivity.
  unfold onBlock. rewrite tot_map. cbn [fst].
  set (w0 := fun x : nat * block => if leadsTo u x then 1%nat else 0%nat).
  set (q := if existsb (Nat.eqb u) (succs (trm tb)) then 1%nat else 0%nat).
  set (w1 := fun x : nat * block => if Nat.eqb (fst x) b then q else w0 x).
  set (w2 := fun x : nat * block => if Nat.eqb (fst x) t then 0%nat else w1 x).
  transitivity (tot w2 f).
  - apply tot_ext. intros [k bk'] _. unfold w2, w1, w0, q, leadsTo. cbn. destruct (Nat.eqb k t); cbn; auto.
    destruct (Nat.eqb k b); reflexivity.
  - assert (A1 : (tot w1 f + w0 (b, bk) = tot w0 f + w1 (b, bk))%nat).
    { apply tot_upd; auto. apply get_In; auto. intros x _ Hx. unfold w1. now rewrite (proj2 (Nat.eqb_neq _ _) Hx). }
    assert (A2 : (tot w2 f + w1 (t, tb) = tot w1 f + w2 (t, tb))%nat).
    { apply tot_upd; auto. apply get_In; auto. intros x _ Hx. unfold w2. now rewrite (proj2 (Nat.eqb_neq _ _) Hx). }
    assert (w2 (t, tb) = 0%nat) by (unfold w2; cbn; now rewrite Nat.eqb_refl).
    assert (w1 (t, tb) = q) by (unfold w1; cbn; destruct (Nat.eqb_spec t b); [congruence|reflexivity]).
    assert (w1 (b, bk) = q) by (unfold w1; cbn; now rewrite Nat.eqb_refl).
    assert (w0 (b, bk) = 0%nat).
    { unfold w0, leadsTo. cbn. rewrite Htr. cbn. destruct (Nat.eqb_spec u t); [congruence|reflexivity]. }
    assert (w0 (t, tb) = q) by reflexivity. lia.
Qed.

Lemma filter_one {A} (q : A -> bool) l x y : length (filter q l) = 1%nat -> In x l -> q x = true -> In y l -> q y = true -> x = y.
Proof.
  intros H Hx Qx Hy Qy. assert (A1 : In x (filter q l)) by (apply filter_In; auto).
  assert (A2 : In y (filter q l)) by (apply filter_In; auto).
  destruct (filter q l) as [|z [|]]; cbn in H; try lia. destruct A1 as [<-|[]], A2 as [<-|[]]. reflexivity.
Qed.

Definition mergeInv (ref : nat -> nat) (e0 : nat) (f : func) : Prop :=
  NoDup (map fst f) /\ phiPreds f /\ entry f = e0 /\ (forall t, In t (map fst f) -> ref t = blockRef f t).

Lemma fst_join f b t tb : map fst (joinBlocks f b t tb) = filter (fun x => negb (Nat.eqb x t)) (map fst f).
Proof.
  unfold joinBlocks.
  assert (K : forall l h, map fst (fold_left (fun g s => onBlock s (retargetBlock t b) g) l h) = map fst h).
  { induction l as [|s l IH]; intros h; cbn; auto. rewrite IH. apply (fst_mapk (fun k bk => if Nat.eqb k s then retargetBlock t b bk else bk)). }
  set (f2 := fold_left _ _ _). assert (E1 : map fst f2 = map fst f).
  { unfold f2. rewrite K. apply (fst_mapk (fun k bk => if Nat.eqb k b then Block (phis bk) (body bk ++ body tb) (trm tb) else bk)). }
  rewrite <- E1. clear. induction f2 as [|[k bk] l IH]; cbn; auto. destruct (Nat.eqb k t); cbn; congruence.
Qed.
Lemma In_get_ex (f : func) k : In k (map fst f) -> exists bk, get k f = Some bk.
Proof. intros H. destruct (get k f) eqn:E1; eauto. apply get_None in E1. tauto. Qed.
Lemma get_In_fst {A} (f : list (nat * A)) k bk : get k f = Some bk -> In k (map fst f).
Proof. intros H. apply get_In in H. change k with (fst (k, bk)). now apply in_map. Qed.

Lemma phiPreds_join f b t bk tb :
  get b f = Some bk -> trm bk = TBr t -> b <> t -> get t f = Some tb -> phiPreds f ->
  phiPreds (joinBlocks f b t tb).
Proof.
  intros Hb Htr D Ht Hpp k bk' ph p o Hg Hph Hin. rewrite get_join in Hg. destruct (Nat.eqb_spec k t) as [|Dk]; try discriminate.
  destruct (get k f) as [bk0|] eqn:Ek; cbn in Hg; try discriminate. injection Hg as Hg.
  set (bk2 := if Nat.eqb k b then Block (phis bk0) (body bk0 ++ body tb) (trm tb) else bk0) in *.
  assert (P2 : phis bk2 = phis bk0) by (unfold bk2; destruct (Nat.eqb k b); reflexivity).
  (* predecessors other than b and t are unchanged; b leads where t led *)
  assert (Hkeep : forall q qb, get q f = Some qb -> q <> b -> q <> t -> In k (succs (trm qb)) ->
                   exists pb, get q (joinBlocks f b t tb) = Some pb /\ In k (succs (trm pb))).
  { intros q qb Hq Dqb Dqt Hk. rewrite get_join, Hq. rewrite (proj2 (Nat.eqb_neq _ _) Dqt), (proj2 (Nat.eqb_neq _ _) Dqb). cbn.
    eexists. split; [reflexivity|]. destruct (existsb (Nat.eqb q) (succs (trm tb))); auto. }
  assert (Hnew : In k (succs (trm tb)) -> exists pb, get b (joinBlocks f b t tb) = Some pb /\ In k (succs (trm pb))).
  { intros Hk. rewrite get_join, Hb, Nat.eqb_refl. rewrite (proj2 (Nat.eqb_neq _ _) D). cbn.
    eexists. split; [reflexivity|]. destruct (existsb (Nat.eqb b) (succs (trm tb))); auto. }
  assert (Horig : forall ph0 q o0, In ph0 (phis bk0) -> In (q, o0) (inc ph0) -> q <> b /\ exists qb, get q f = Some qb /\ In k (succs (trm qb))).
  { intros ph0 q o0 H1 H2. destruct (Hpp k bk0 ph0 q o0 Ek H1 H2) as (qb & Hq & Hk). split; eauto.
    intros ->. rewrite Hb in Hq. injection Hq as <-. rewrite Htr in Hk. destruct Hk as [Hk|[]]. congruence. }
  destruct (existsb (Nat.eqb k) (succs (trm tb))) eqn:Es.
  - subst bk'. cbn in Hph. rewrite P2 in Hph. apply in_map_iff in Hph as (ph0 & <- & Hph0).
    unfold retargetPhi in Hin. destruct (hasSource b ph0).
    + cbn in Hin. apply filter_In in Hin as [Hin Hne]. cbn in Hne. apply negb_true_iff, Nat.eqb_neq in Hne.
      destruct (Horig ph0 p o Hph0 Hin) as (Dq & qb & Hq & Hk). eapply Hkeep; eauto.
    + cbn in Hin. apply in_map_iff in Hin as ([q o0] & E1 & Hin). cbn in E1. injection E1 as Ep Eo. rewrite Eo in Hin. clear Eo o0.
      destruct (Horig ph0 q o Hph0 Hin) as (Dq & qb & Hq & Hk).
      destruct (Nat.eqb_spec q t) as [Eqt|Dqt]; rewrite <- Ep in *; clear Ep p.
      * apply Hnew. now apply existsb_In.
      * eapply Hkeep; eauto.
  - subst bk'. rewrite P2 in Hph. destruct (Horig ph p o Hph Hin) as (Dq & qb & Hq & Hk).
    apply (Hkeep p qb); auto. intros ->. rewrite Ht in Hq. injection Hq as <-. apply existsb_In in Hk. congruence.
Qed.

Lemma entry_join f b t tb : entry f <> t -> entry (joinBlocks f b t tb) = entry f.
Proof.
  intros H. pose proof (fst_join f b t tb) as E1. destruct f as [|[k bk] f].
  { cbn in E1. now apply map_eq_nil in E1 as ->. }
  cbn in *.
  rewrite (proj2 (Nat.eqb_neq _ _) H) in E1. cbn in E1. destruct (joinBlocks ((k, bk) :: f) b t tb) as [|[k' bk'] g]; cbn in *; congruence.
Qed.

Lemma merge1_ok k dom ref e0 f b : (forall a, a <> e0 -> dom a e0 = false) -> mergeInv ref e0 f ->
  refines k f (merge1 dom ref f b) /\ mergeInv ref e0 (merge1 dom ref f b) /\ (length (merge1 dom ref f b) <= length f)%nat.
Proof.
  intros Hd Hinv. unfold merge1. destruct (get b f) as [bk|] eqn:Eb; [|split; [apply refines_refl|auto]].
  destruct (trm bk) as [t| | | |] eqn:Et; try (split; [apply refines_refl|auto]; fail).
  destruct (Nat.eqb_spec b t) as [|D]; [split; [apply refines_refl|auto]|].
  destruct (dom b t) eqn:Edom; cbn [negb]; [|split; [apply refines_refl|auto]].
  destruct (Nat.eqb_spec (ref t) 1) as [Er|]; cbn [negb]; [|split; [apply refines_refl|auto]].
  destruct (get t f) as [tb|] eqn:Ett; [|split; [apply refines_refl|auto]].
  destruct (phis tb) eqn:Eph; [|split; [apply refines_refl|auto]].
  destruct Hinv as (N & Hpp & He & Hr).
  assert (Hte : t <> entry f).
  { rewrite He. intros ->. rewrite (Hd b D) in Edom. discriminate. }
  split; [|split].
  - apply join_ok with (bk := bk); auto. intros p pb Hp Hin.
    rewrite (Hr t (get_In_fst _ _ _ Ett)) in Er. unfold blockRef in Er.
    assert ((p, pb) = (b, bk)); [|congruence].
    apply (filter_one (leadsTo t) f); auto; try (apply get_In; auto).
    + unfold leadsTo. cbn. now apply existsb_In.
    + unfold leadsTo. cbn. rewrite Et. cbn. now rewrite Nat.eqb_refl.
  - split; [|split; [|split]].
    + rewrite fst_join. apply NoDup_filter. exact N.
    + eapply phiPreds_join; eauto.
    + rewrite entry_join; auto.
    + intros u Hu. rewrite fst_join in Hu. apply filter_In in Hu as [Hu Hne]. apply negb_true_iff, Nat.eqb_neq in Hne.
      rewrite (blockRef_join f b t bk tb u); auto.
  - rewrite <- (map_length fst), fst_join. rewrite <- (map_length fst f). clear. induction (map fst f); cbn; auto.
    destruct (Nat.eqb a t); cbn; lia.
Qed.
Lemma merges_ok k dom ref e0 l : (forall a, a <> e0 -> dom a e0 = false) -> forall f, mergeInv ref e0 f ->
  let g := fold_left (merge1 dom ref) l f in
  refines k f g /\ mergeInv ref e0 g /\ (length g <= length f)%nat.
Proof.
  intros Hd. induction l as [|b l IH]; intros f Hi; cbn; [split; [apply refines_refl|auto]|].
  destruct (merge1_ok k dom ref e0 f b Hd Hi) as (A & B & C). destruct (IH _ B) as (A' & B' & C').
  split; [eapply refines_trans; eauto|]. split; auto. lia.
Qed.
Lemma tryMerge_ok k dom f : (forall a, a <> entry f -> dom a (entry f) = false) -> NoDup (map fst f) -> phiPreds f ->
  refines k f (tryMerge dom f) /\ NoDup (map fst (tryMerge dom f)) /\ phiPreds (tryMerge dom f) /\ entry (tryMerge dom f) = entry f /\
  (length (tryMerge dom f) <= length f)%nat.
Proof.
  intros Hd N Hp. destruct (merges_ok k dom (blockRef f) (entry f) (map fst f) Hd f) as (A & (B & C & D & _) & E).
  - repeat split; auto.
  - auto.
Qed.
Lemma blockMergeN_ok k dom n : forall f, (forall a, a <> entry f -> dom a (entry f) = false) -> NoDup (map fst f) -> phiPreds f ->
  refines k f (blockMergeN dom n f).
Proof.
  induction n as [|n IH]; intros f Hd N Hp; cbn; [apply refines_refl|].
  destruct (tryMerge_ok k dom f Hd N Hp) as (A & B & C & D & E).
  destruct (Nat.eqb (length (tryMerge dom f)) (length f)); auto.
  eapply refines_trans; [exact A|]. apply IH; auto. intros a Ha. rewrite D in *. auto.
Qed.
Theorem blockMerge_ok k dom f : (forall a, a <> entry f -> dom a (entry f) = false) -> NoDup (map fst f) -> phiPreds f ->
  refines k f (blockMerge dom f).
Proof. apply blockMergeN_ok. Qed.

(** the fuel suffices: the result is a function on which another round changes nothing in size *)
Lemma blockMergeN_done dom n : forall f, (forall a, a <> entry f -> dom a (entry f) = false) -> NoDup (map fst f) -> phiPreds f ->
  (length f < n)%nat -> exists g, blockMergeN dom n f = tryMerge dom g /\ length (tryMerge dom g) = length g.
Proof.
  induction n as [|n IH]; intros f Hd N Hp L; [lia|]. cbn.
  destruct (tryMerge_ok (fun _ => KPure) dom f Hd N Hp) as (A & B & C & D & E).
  destruct (Nat.eqb_spec (length (tryMerge dom f)) (length f)) as [Eq|Ne]; eauto.
  apply IH; auto; [|lia]. intros a Ha. rewrite D in *. auto.
Qed.
