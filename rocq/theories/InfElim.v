(** C55: InfiniteEliminate (cmmc/Transforms/DCE/InfiniteEliminate.cpp): the blocks from which no return can be reached end in unreachable. *)
From Coq Require Import Lia Bool List Arith.
From Verif Require Import Sim Ssa SsaCfg SsaMerge SsaWf SsaDom SsaCse CodeMotionProps.
Import ListNotations.

(** ** the model *)
(** cmmc/Analysis/CFGAnalysis.cpp:26-52: the blocks that branch to [u], each once, in the order of the function *)
Definition preds (f : func) (u : nat) : list nat := map fst (filter (fun x => existsb (Nat.eqb u) (succs (trm (snd x)))) f).
(** InfiniteEliminate.cpp:36-42: the blocks that end in ret *)
Definition isRet (bk : block) : bool := match trm bk with TRet _ => true | _ => false end.
Definition retBlocks (f : func) : list nat := map fst (filter (fun x => isRet (snd x)) f).
(** InfiniteEliminate.cpp:44-53: the queue; the fuel only makes the recursion structural ([bfsP_closed] needs no more) *)
Fixpoint bfsP (f : func) (fuel : nat) (seen q : list nat) : list nat :=
  match fuel, q with
  | S n, u :: q' => let '(seen', q2) := addSuccs seen q' (preds f u) in bfsP f n seen' q2
  | _, _ => seen
  end.
Definition visited (f : func) : list nat := bfsP f (S (length f)) (retBlocks f) (retBlocks f).
(** InfiniteEliminate.cpp:60-71: one block; the successors are those of the analysis, computed before the pass *)
Definition cutOne (f g : func) (b : nat) : func :=
  match get b g with
  | Some bk =>
    match trm bk with
    | TUnreach => g
    | _ => fold_left (fun g' t => onBlock t (removePhi b) g') (match get b f with Some b0 => nodup Nat.eq_dec (succs (trm b0)) | None => [] end)
             (onBlock b (fun k => Block (phis k) (body k) TUnreach) g)
    end
  | None => g
  end.
(** InfiniteEliminate.cpp:29-75; when every block is visited (line 55) the loop of line 59 does nothing *)
Definition infiniteEliminate (f : func) : func :=
  fold_left (fun g b => if existsb (Nat.eqb b) (visited f) then g else cutOne f g b) (map fst f) f.

(** ** a return can be reached from a block *)
Inductive leads (f : func) : nat -> Prop :=
| leads_ret b bk o : get b f = Some bk -> trm bk = TRet o -> leads f b
| leads_next b bk t : get b f = Some bk -> In t (succs (trm bk)) -> leads f t -> leads f b.

Section Search.
Variable f : func.
Hypothesis N : NoDup (map fst f).
Lemma preds_In b u : In b (preds f u) <-> exists bk, get b f = Some bk /\ In u (succs (trm bk)).
Proof.
  unfold preds. rewrite in_map_iff. split.
  - intros ([b0 bk] & <- & H). apply filter_In in H as [H E]. cbn in *. apply existsb_In in E. exists bk. split; auto. now apply In_get.
  - intros (bk & G & Hu). exists (b, bk). split; auto. apply filter_In. split; [now apply get_In|]. cbn. now apply existsb_In.
Qed.
Lemma ret_In b : In b (retBlocks f) <-> exists bk o, get b f = Some bk /\ trm bk = TRet o.
Proof.
  unfold retBlocks. rewrite in_map_iff. split.
  - intros ([b0 bk] & <- & H). apply filter_In in H as [H E]. cbn in *. unfold isRet in E. destruct (trm bk) eqn:Et; try discriminate. exists bk, v. split; auto. now apply In_get.
  - intros (bk & o & G & E). exists (b, bk). split; auto. apply filter_In. split; [now apply get_In|]. cbn. unfold isRet. now rewrite E.
Qed.
Lemma addSuccs_In l : forall seen q seen' q', addSuccs seen q l = (seen', q') ->
  (forall b, In b seen' -> In b seen \/ In b l) /\ (forall b, In b q' -> In b q \/ In b l).
Proof.
  induction l as [|a l IH]; intros seen q seen' q' H; cbn in H.
  - injection H as <- <-. auto.
  - destruct (existsb (Nat.eqb a) seen).
    + destruct (IH _ _ _ _ H) as [A B]. split; intros b Hb; [destruct (A b Hb)|destruct (B b Hb)]; cbn; auto.
    + destruct (IH _ _ _ _ H) as [A B]. split; intros b Hb.
      * destruct (A b Hb) as [[<-|K]|K]; cbn; auto.
      * destruct (B b Hb) as [K|K]; cbn; auto. apply in_app_or in K as [K|[<-|[]]]; auto.
Qed.
Lemma preds_fst u b : In b (preds f u) -> In b (map fst f).
Proof. intros H. apply preds_In in H as (bk & G & _). eapply get_In_fst; eauto. Qed.
Lemma bfsP_closed : forall fuel seen q, (length q + unseen f seen <= fuel)%nat ->
  (forall u b, In u seen -> In b (preds f u) -> In u q \/ In b seen) ->
  (forall b, In b seen -> In b (bfsP f fuel seen q)) /\
  (forall u b, In u (bfsP f fuel seen q) -> In b (preds f u) -> In b (bfsP f fuel seen q)).
Proof.
  induction fuel as [|n IH]; intros seen q Hf Hi; cbn.
  - destruct q; cbn in Hf; [|lia]. split; auto. intros u b Hu Hb. destruct (Hi u b Hu Hb) as [[]|]; auto.
  - destruct q as [|u q]; [split; auto; intros u b Hu Hb; destruct (Hi u b Hu Hb) as [[]|]; auto|]. cbn in Hf.
    destruct (addSuccs seen q (preds f u)) as [seen' q2] eqn:Ea.
    destruct (addSuccs_spec f _ seen q seen' q2 (preds_fst u) Ea) as (A & B & C & D & E).
    destruct (IH seen' q2) as [P Q]; [lia| |].
    + intros v b Hv Hb. destruct (D v Hv) as [K|K]; auto. destruct (Hi v b K Hb) as [[<-|L]|L]; auto.
    + split; auto.
Qed.
Lemma bfsP_sound : forall fuel seen q, (forall b, In b seen -> leads f b) -> (forall b, In b q -> leads f b) ->
  forall b, In b (bfsP f fuel seen q) -> leads f b.
Proof.
  induction fuel as [|n IH]; intros seen q Hs Hq b; cbn; auto. destruct q as [|u q]; auto.
  destruct (addSuccs seen q (preds f u)) as [seen' q2] eqn:Ea. destruct (addSuccs_In _ _ _ _ _ Ea) as [A B].
  assert (K : forall c, In c (preds f u) -> leads f c).
  { intros c Hc. apply preds_In in Hc as (bk & G & Hu). eapply leads_next; eauto. apply Hq. now left. }
  apply IH.
  - intros c Hc. destruct (A c Hc); auto.
  - intros c Hc. destruct (B c Hc); auto. apply Hq. now right.
Qed.
Lemma unseen_all l : NoDup l -> (forall b, In b l -> In b (map fst f)) -> (length l + unseen f l <= length f)%nat.
Proof.
  induction l as [|a l IH]; intros Nl H.
  - cbn. unfold unseen. rewrite <- (map_length fst f). clear. induction (map fst f) as [|x xs IH]; cbn in *; lia.
  - inversion Nl as [|? ? N1 N2]; subst. specialize (IH N2 (fun b Hb => H b (or_intror Hb))).
    pose proof (unseen_cons f l a (H a (or_introl eq_refl)) N1). cbn [length]. lia.
Qed.
Theorem visited_iff b : In b (visited f) <-> leads f b.
Proof.
  unfold visited. split.
  - apply bfsP_sound; intros c Hc; apply ret_In in Hc as (bk & o & G & E); eapply leads_ret; eauto.
  - destruct (bfsP_closed (S (length f)) (retBlocks f) (retBlocks f)) as [A B].
    + assert (Nr : NoDup (retBlocks f)) by (now apply NoDup_fst_filter).
      assert (Hr : forall b0, In b0 (retBlocks f) -> In b0 (map fst f)).
      { intros c Hc. apply ret_In in Hc as (bk & o & G & _). eapply get_In_fst; eauto. }
      pose proof (unseen_all _ Nr Hr). lia.
    + intros u c Hu _. now left.
    + induction 1 as [b bk o G E|b bk t G Ht _ IH].
      * apply A, ret_In. eauto.
      * apply (B t b IH). apply preds_In. eauto.
Qed.
Lemma visited_pred b bk t : get b f = Some bk -> In t (succs (trm bk)) -> In t (visited f) -> In b (visited f).
Proof. rewrite !visited_iff. intros. eapply leads_next; eauto. Qed.
End Search.

(** ** the blocks of the result *)
(** the same result; a part of the entries; every entry from a block that is not cut *)
Definition phiSub (K : nat -> bool) (ph ph0 : phi) : Prop :=
  pdst ph = pdst ph0 /\ (forall x, In x (inc ph) -> In x (inc ph0)) /\ forall p, K p = false -> get p (inc ph) = get p (inc ph0).
Lemma phiSub_refl K ph : phiSub K ph ph. Proof. repeat split; auto. Qed.
Lemma phisSub_refl K l : Forall2 (phiSub K) l l. Proof. induction l; constructor; auto using phiSub_refl. Qed.
Lemma phisSub_trans K l1 l2 : Forall2 (phiSub K) l1 l2 -> forall l3, Forall2 (phiSub K) l2 l3 -> Forall2 (phiSub K) l1 l3.
Proof.
  induction 1 as [|a b l1 l2 (A & B & B') _ IH]; intros l3 H3; inversion H3 as [|? c ? l3' (C & D & D') H]; subst; constructor; auto.
  split; [congruence|]. split; [auto|]. intros p Hp. rewrite B', D'; auto.
Qed.
Lemma phisSub_remove (K : nat -> bool) b l : K b = true -> Forall2 (phiSub K) (removePhis b l) l.
Proof.
  intros Kb. induction l as [|ph l IH]; cbn; [constructor|]. destruct (hasSource b ph); constructor; auto using phiSub_refl, phisSub_refl.
  split; auto. split.
  - intros x Hx. unfold removeSource in Hx. cbn in Hx. apply filter_In in Hx. tauto.
  - intros p Hp. unfold removeSource. cbn [inc]. rewrite (get_filter (fun x => negb (Nat.eqb x b))).
    destruct (Nat.eqb_spec p b) as [->|]; [congruence|reflexivity].
Qed.
Lemma phisSub_pdst K l l0 : Forall2 (phiSub K) l l0 -> map pdst l = map pdst l0.
Proof. induction 1 as [|a b l l0 (E & _) _ IH]; cbn; congruence. Qed.
Lemma phisSub_In K l l0 : Forall2 (phiSub K) l l0 -> forall ph, In ph l -> exists ph0, In ph0 l0 /\ phiSub K ph ph0.
Proof.
  induction 1 as [|a b l l0 Hab _ IH]; intros ph Hp; [destruct Hp|]. destruct Hp as [<-|Hp]; [exists b; cbn; auto|].
  destruct (IH ph Hp) as (p0 & A & B). exists p0. cbn; auto.
Qed.

Section Result.
Variable f : func.
Hypothesis Hw : wf f.
Definition cutb (b : nat) : bool := negb (existsb (Nat.eqb b) (visited f)).
(** what is true after the blocks [done] *)
Record cutInv (done : list nat) (g : func) : Prop := CI {
  ci_fst : map fst g = map fst f;
  ci_wf : wf g;
  ci_blk : forall k bk, get k f = Some bk -> exists bg, get k g = Some bg /\ body bg = body bk /\
    trm bg = (if existsb (Nat.eqb k) done && cutb k then TUnreach else trm bk) /\ Forall2 (phiSub cutb) (phis bg) (phis bk) /\
    (cutb k = false -> bg = bk) }.
Let N : NoDup (map fst f) := proj1 (proj1 (proj2 Hw)).
Lemma cut_succ b bk t : cutb b = true -> get b f = Some bk -> In t (succs (trm bk)) -> cutb t = true.
Proof.
  unfold cutb. rewrite !negb_true_iff, !existsb_nIn. intros C G Ht K. apply C. eapply visited_pred; eauto.
Qed.
Lemma cutOne_get g b bk bg : get b f = Some bk -> get b g = Some bg -> trm bg = trm bk -> trm bk <> TUnreach ->
  map fst (cutOne f g b) = map fst g /\
  forall k, get k (cutOne f g b) = option_map (fun bk0 => Block (if existsb (Nat.eqb k) (nodup Nat.eq_dec (succs (trm bk))) then removePhis b (phis bk0) else phis bk0)
       (if Nat.eqb k b then body bg else body bk0) (if Nat.eqb k b then TUnreach else trm bk0)) (get k g).
Proof.
  intros G Gg Et Nu. unfold cutOne. rewrite Gg, G, Et.
  assert (E : forall A (x y : A), match trm bk with TUnreach => x | _ => y end = y) by (intros; destruct (trm bk); congruence). rewrite E. clear E.
  split; [rewrite fst_removePhis_fold; apply fst_onBlock|]. intros k.
  rewrite (get_removePhis_fold b _ (NoDup_nodup _ _)), get_onBlock. destruct (get k g) as [bk0|] eqn:Ek; auto. cbn. f_equal.
  destruct (Nat.eqb_spec k b) as [->|].
  - assert (bk0 = bg) by congruence. subst bk0. destruct (existsb _ _); reflexivity.
  - unfold removePhi. destruct (existsb _ _); [reflexivity|now destruct bk0].
Qed.
Lemma cut_step done g b : In b (map fst f) -> ~ In b done -> cutInv done g ->
  cutInv (b :: done) (if existsb (Nat.eqb b) (visited f) then g else cutOne f g b).
Proof.
  intros Hb Nd [I1 I2 I3]. destruct (In_get_ex f b Hb) as [bk G].
  assert (Same : (cutb b = false \/ trm bk = TUnreach) -> cutInv (b :: done) g).
  { intros S. split; auto. intros k bk' Gk. destruct (I3 k bk' Gk) as (bg & A & B & C & D & E). exists bg. repeat (split; auto).
    rewrite C. cbn. destruct (Nat.eqb_spec k b) as [->|]; [|reflexivity]. cbn.
    replace (existsb (Nat.eqb b) done) with false by (symmetry; now apply existsb_nIn). cbn.
    destruct S as [S|S]; [now rewrite S|]. assert (bk' = bk) by congruence. subst bk'. rewrite S. now destruct (cutb b). }
  destruct (existsb (Nat.eqb b) (visited f)) eqn:Ev; [apply Same; left; unfold cutb; now rewrite Ev|].
  assert (Cb : cutb b = true) by (unfold cutb; now rewrite Ev).
  destruct (I3 b bk G) as (bg & Gg & Bg & Tg & Pg & _).
  replace (existsb (Nat.eqb b) done) with false in Tg by (symmetry; now apply existsb_nIn). cbn in Tg.
  assert (Du : trm bk = TUnreach \/ trm bk <> TUnreach) by (destruct (trm bk); auto; right; discriminate).
  destruct Du as [Tu|Tu]; [replace (cutOne f g b) with g; [apply Same; auto|]; unfold cutOne; now rewrite Gg, Tg, Tu|].
  destruct (cutOne_get g b bk bg G Gg Tg Tu) as [Q1 Q2].
  split.
  - congruence.
  - apply (wf_dropEdges g _ b bg (nodup Nat.eq_dec (succs (trm bk))) (body bg) TUnreach); auto.
    + eapply wf_NoDup_block; eauto.
    + intros x [].
    + intros x Hx. apply nodup_In in Hx. rewrite Tg. split; [auto|intros []].
    + intros x xb Hx _ _. left. apply nodup_In. now rewrite <- Tg.
  - intros k bk' Gk. destruct (I3 k bk' Gk) as (bg' & A & B & C & D & E). rewrite Q2, A. cbn [option_map]. eexists. split; [reflexivity|]. cbn [body trm phis]. split; [|split; [|split]].
    + destruct (Nat.eqb_spec k b) as [->|]; auto. congruence.
    + cbn [existsb]. destruct (Nat.eqb_spec k b) as [->|]; cbn [orb andb]; auto. now rewrite Cb.
    + destruct (existsb (Nat.eqb k) (nodup Nat.eq_dec (succs (trm bk)))); auto. eapply phisSub_trans; [apply phisSub_remove; exact Cb|exact D].
    + intros Ck. specialize (E Ck). subst bg'. replace (existsb (Nat.eqb k) (nodup Nat.eq_dec (succs (trm bk)))) with false.
      * destruct (Nat.eqb_spec k b) as [->|]; [congruence|]. now destruct bk'.
      * symmetry. apply existsb_nIn. rewrite nodup_In. intros K. pose proof (cut_succ b bk k Cb G K). congruence.
Qed.
Lemma cut_fold l : forall done g, NoDup l -> (forall b, In b l -> In b (map fst f)) -> (forall b, In b l -> ~ In b done) -> cutInv done g ->
  exists done', (forall b, In b l -> In b done') /\
    cutInv done' (fold_left (fun g b => if existsb (Nat.eqb b) (visited f) then g else cutOne f g b) l g) /\ (forall b, In b done -> In b done').
Proof.
  induction l as [|a l IH]; intros done g Nl Hl Nd I.
  - exists done. split; [intros b []|]. auto.
  - inversion Nl as [|? ? N1 N2]; subst. destruct (IH (a :: done) (if existsb (Nat.eqb a) (visited f) then g else cutOne f g a) N2) as (d & A & B & C).
    + intros b Hb. apply Hl. now right.
    + intros b Hb [->|K]; [contradiction|]. exact (Nd b (or_intror Hb) K).
    + apply cut_step; auto. apply Hl. now left. apply Nd. now left.
    + exists d. cbn [fold_left]. split; [|split; auto]. intros b [<-|Hb]; auto. apply C. now left. intros b Hb. apply C. now right.
Qed.
Theorem result_inv : exists done, (forall b, In b (map fst f) -> In b done) /\ cutInv done (infiniteEliminate f).
Proof.
  destruct (cut_fold (map fst f) [] f N) as (d & A & B & _); eauto.
  split; auto. intros k bk G. exists bk. split; auto. split; auto. split; [reflexivity|]. split; auto using phisSub_refl.
Qed.
Theorem result_blocks k bk : get k f = Some bk -> exists bg, get k (infiniteEliminate f) = Some bg /\ body bg = body bk /\
  trm bg = (if cutb k then TUnreach else trm bk) /\ Forall2 (phiSub cutb) (phis bg) (phis bk) /\ (cutb k = false -> bg = bk).
Proof.
  intros G. destruct result_inv as (d & A & [_ _ B]). destruct (B k bk G) as (bg & C & D & E & F). exists bg. repeat (split; auto). 
  rewrite E, (proj2 (existsb_In k d) (A k (get_In_fst _ _ _ G))). reflexivity. all: apply F.
Qed.
Theorem result_wf : wf (infiniteEliminate f) /\ map fst (infiniteEliminate f) = map fst f.
Proof. destruct result_inv as (d & _ & [A B _]). auto. Qed.
Lemma result_entry : entry (infiniteEliminate f) = entry f.
Proof.
  destruct result_wf as [_ E]. unfold entry. destruct f as [|[k b] l]; destruct (infiniteEliminate _) as [|[k' b'] l']; cbn in *; congruence.
Qed.
Lemma result_get k bg : get k (infiniteEliminate f) = Some bg -> exists bk, get k f = Some bk.
Proof.
  intros G. apply In_get_ex. destruct result_wf as [_ E]. rewrite <- E. eapply get_In_fst; eauto.
Qed.
End Result.
