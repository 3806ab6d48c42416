(** Removal of instructions nobody uses: NoSideEffectEliminate and cleanupUnusedInsts. *)
From Coq Require Import ZArith Lia Bool List Arith.
From Verif Require Import Sim Ssa SsaCfg SsaMerge SsaFwd SsaFwd2 SsaWf SsaDom SsaProps SsaSub SsaVerify SsaEq SsaPhi SsaCse.
Import ListNotations.

(** ** the passes *)
(** keep the instructions whose results satisfy [u] (IntrusiveList::remove_if on every block) *)
Definition keepBlock (u : nat -> bool) (bk : block) : block :=
  Block (filter (fun ph => u (pdst ph)) (phis bk)) (filter (fun i => u (dst i)) (body bk)) (trm bk).
Definition keepIn (u : nat -> bool) (f : func) : func := map (fun x => (fst x, keepBlock u (snd x))) f.

(** cmmc/Transforms/DCE/NoSideEffectEliminate.cpp:37-54 the sinks: terminators, stores and atomics, calls of functions without
    the attribute NoSideEffect.  (The code dereferences a null pointer for an indirect call; such calls are not modelled.) *)
Definition isSink (knd : nat -> kind) (i : inst) : bool :=
  match knd (opc i) with KStore => true | KCall false _ _ => true | _ => false end.
Inductive item := ITerm (b : nat) | IRes (x : nat).
Definition sinks (knd : nat -> kind) (f : func) : list item :=
  flat_map (fun x => map (fun i => IRes (dst i)) (filter (isSink knd) (body (snd x))) ++ [ITerm (fst x)]) f.
(** the results an instruction reads *)
Definition itemUses (f : func) (it : item) : list nat :=
  match it with
  | ITerm b => match get b f with Some bk => termUses (trm bk) | None => [] end
  | IRes x => flat_map (fun b => phiUses (filter (fun ph => Nat.eqb (pdst ph) x) (phis (snd b))) ++
                                 bodyUses (filter (fun i => Nat.eqb (dst i) x) (body (snd b)))) f
  end.
(** lines 57-67 back-propagation; [uq]: the set used (terminators left out) and the queue *)
Definition mark (uq : list nat * list item) (y : nat) : list nat * list item :=
  if inb y (fst uq) then uq else (y :: fst uq, snd uq ++ [IRes y]).
Fixpoint propagate (f : func) (fuel : nat) (used : list nat) (q : list item) : list nat :=
  match fuel, q with
  | S n, it :: q' => let uq := fold_left mark (itemUses f it) (used, q') in propagate f n (fst uq) (snd uq)
  | _, _ => used
  end.
(** every result enters the queue at most once, so this is enough *)
(** every result a use mentions enters the queue at most once, so this much fuel empties it *)
Definition usedBySinks (knd : nat -> kind) (f : func) : list nat :=
  propagate f (length (sinks knd f) + length (usesIn f))
    (flat_map (fun it => match it with IRes x => [x] | ITerm _ => [] end) (sinks knd f)) (sinks knd f).
(** lines 69-77 *)
Definition noSideEffectEliminate (knd : nat -> kind) (f : func) : func :=
  let used := usedBySinks knd f in keepIn (fun x => inb x used) f.

(** cmmc/Transforms/Util/BlockUtil.cpp:125-149 isNoSideEffectExpr; [hasVal] is canbeOperand: the result is not void *)
Definition isNoSideEffect (knd : nat -> kind) (hasVal : nat -> bool) (o : nat) : bool :=
  hasVal o && match knd o with KStore => false | KCall ns st nr => ns && st && negb nr | _ => true end.
(** cmmc/Transforms/TransformPass.cpp:73-82 cleanupUnusedInsts, one instruction of the block [b].
    Destroying an instruction takes it off the lists of users (cmmc/IR/Instruction.cpp:55-59), so isUsed is asked of what is left. *)
Definition cleanup1 (knd : nat -> kind) (hasVal : nat -> bool) (b : nat) (f : func) (x : nat) : func :=
  let ok := match instIn f b x with
            | Some i => isNoSideEffect knd hasVal (opc i)
            | None => match phiIn f b x with Some _ => true | None => false end
            end in
  if negb (inb x (usesIn f)) && ok then keepIn (fun y => negb (Nat.eqb y x)) f else f.
(** IntrusiveList::remove_if walks from the last instruction to the first (cmmc/Support/IntrusiveList.hpp:215-224) *)
Definition cleanupUnused (knd : nat -> kind) (hasVal : nat -> bool) (f : func) : func :=
  fold_left (fun g b => match get b g with
                        | Some bk => fold_left (cleanup1 knd hasVal b) (rev (resultsOf bk)) g
                        | None => g
                        end) (map fst f) f.

(** ** proofs *)
(** nothing but its result shows that the instruction ran *)
Definition quiet (k : kind) : bool := match k with KStore | KCall false _ _ => false | _ => true end.
Lemma quiet_sem {W} knd (m : sem W) : okSem knd m -> forall o, quiet (knd o) = true -> forall vs w,
  meaning m o vs w = IBad \/ exists v, meaning m o vs w = IOk v w.
Proof.
  intros (P1 & P2 & _ & P4 & P5 & P6 & _) o Ho vs w. destruct (knd o) as [ | | | | |[|] st nr] eqn:K; try discriminate.
  - destruct (P1 o K) as [g H]. rewrite H. eauto.
  - destruct (P2 o K) as [g H]. rewrite H. destruct (g vs); eauto.
  - destruct (P4 o K) as [g H]. rewrite H. destruct (g vs w); eauto.
  - destruct (P5 o K) as [g H]. rewrite H. eauto.
  - destruct (P6 o st nr K) as [g H]. rewrite H. destruct (g vs w); eauto.
Qed.
Lemma quiet_evt {W} knd (m : sem W) : okSem knd m -> forall o, quiet (knd o) = true -> forall vs w, evt m o vs w = [].
Proof.
  intros (_ & _ & _ & _ & _ & _ & _ & _ & P9) o Ho vs w. unfold evt. destruct (visible m o) eqn:E; auto.
  destruct (P9 o E) as (st & nr & K). rewrite K in Ho. discriminate.
Qed.

Lemma get_keepIn u f b : get b (keepIn u f) = option_map (keepBlock u) (get b f).
Proof. apply (get_map (keepBlock u)). Qed.
Lemma entry_keepIn u f : entry (keepIn u f) = entry f.
Proof. destruct f as [|[? ?] ?]; reflexivity. Qed.

(** [u] keeps what the instructions it keeps read, and drops only quiet ones *)
Definition deadOk (knd : nat -> kind) (u : nat -> bool) (bk : block) : Prop :=
  (forall i, In i (body bk) -> u (dst i) = false -> quiet (knd (opc i)) = true) /\
  (forall x, In x (usesOf (keepBlock u bk)) -> u x = true).
Definition agree (u : nat -> bool) (e e' : env) : Prop := forall x, u x = true -> e x = e' x.
Lemma rd_agree args u e e' o : agree u e e' -> (forall x, In x (res_of o) -> u x = true) -> rd args e o = rd args e' o.
Proof. intros H Ho. destruct o as [c|n|x]; cbn in *; auto. Qed.
Lemma rds_agree args u e e' l : agree u e e' -> (forall x, In x (flat_map res_of l) -> u x = true) -> rds args e l = rds args e' l.
Proof.
  intros H. induction l as [|o l IH]; cbn; intros Hu; auto.
  rewrite (rd_agree args u e e' o H), IH; auto; intros x Hx; apply Hu; apply in_or_app; auto.
Qed.
Lemma agree_upd u e e' x v : agree u e e' -> agree u (upd e x v) (upd e' x v).
Proof. intros H y Hy. unfold upd. destruct (Nat.eqb y x); auto. Qed.
Lemma agree_drop u e e' x v : agree u e e' -> u x = false -> agree u (upd e x v) e'.
Proof. intros H Hx y Hy. unfold upd. destruct (Nat.eqb_spec y x) as [->|]; auto. congruence. Qed.
Lemma keep_phis args u p l : forall e e0 e' vs, (forall x, In x (phiUses (filter (fun ph => u (pdst ph)) l)) -> u x = true) ->
  agree u e0 e' -> agree u e e' -> rdPhis args e p l = Some vs ->
  exists vs', rdPhis args e' p (filter (fun ph => u (pdst ph)) l) = Some vs' /\ agree u (updAll e0 vs) (updAll e' vs').
Proof.
  intros e e0 e' vs Hu A0 A H. revert e0 A0.
  assert (K : exists vs', rdPhis args e' p (filter (fun ph => u (pdst ph)) l) = Some vs' /\
     forall e0 e1, agree u e0 e1 -> agree u (updAll e0 vs) (updAll e1 vs')).
  { revert vs H Hu. induction l as [|ph l IH]; intros vs; cbn.
    - intros [= <-] _. exists []. split; auto.
    - destruct (get p (inc ph)) as [o|] eqn:Eo; [|discriminate]. destruct (rd args e o) as [v|] eqn:Ev; [|discriminate].
      destruct (rdPhis args e p l) as [vs0|]; [|discriminate]. intros [= <-] Hu. destruct (u (pdst ph)) eqn:Ep.
      + cbn. cbn in Hu. destruct (IH vs0 eq_refl) as (vs' & R & Q). { intros x Hx. apply Hu. apply in_or_app. auto. }
        rewrite Eo. rewrite <- (rd_agree args u e e' o A), Ev, R.
        * eexists. split; [reflexivity|]. intros e0 e1 H01. cbn. apply Q. now apply agree_upd.
        * intros x Hx. apply Hu. apply in_or_app. left. apply get_In in Eo. apply in_flat_map. exists (p, o). auto.
      + destruct (IH vs0 eq_refl Hu) as (vs' & R & Q). exists vs'. split; auto. intros e0 e1 H01. cbn. apply Q. now apply agree_drop. }
  destruct K as (vs' & R & Q). intros e0 A0. exists vs'. auto.
Qed.
Lemma keep_body {W} knd (m : sem W) args u l : okSem knd m ->
  (forall i, In i l -> u (dst i) = false -> quiet (knd (opc i)) = true) ->
  (forall x, In x (bodyUses (filter (fun i => u (dst i)) l)) -> u x = true) ->
  forall e e' w, agree u e e' ->
  match runBody m args e w l with
  | BGo e1 w1 t1 => exists e2, runBody m args e' w (filter (fun i => u (dst i)) l) = BGo e2 w1 t1 /\ agree u e1 e2
  | BHalt w1 t1 => runBody m args e' w (filter (fun i => u (dst i)) l) = BHalt w1 t1
  | BBad _ => True
  end.
Proof.
  intros Hk. induction l as [|i l IH]; intros Hq Hu e e' w A; cbn; [exists e'; auto|].
  destruct (rds args e (ops i)) as [vs|] eqn:Er; auto.
  destruct (u (dst i)) eqn:Ei.
  - cbn [filter] in Hu. rewrite Ei in Hu. cbn. rewrite <- (rds_agree args u e e' (ops i) A), Er.
    2:{ intros x Hx. apply Hu. cbn. apply in_or_app. auto. }
    destruct (meaning m (opc i) vs w) as [v w1|w1|]; auto.
    specialize (IH (fun j Hj => Hq j (or_intror Hj)) (fun x Hx => Hu x (in_or_app _ _ _ (or_intror Hx))) _ _ w1 (agree_upd u e e' (dst i) v A)).
    destruct (runBody m args (upd e (dst i) v) w1 l) as [e1 w2 t2|w2 t2|t2]; cbn; auto.
    + destruct IH as (e2 & -> & B). exists e2. auto.
    + now rewrite IH.
  - cbn [filter] in Hu. rewrite Ei in Hu. assert (Q := Hq i (or_introl eq_refl) Ei). rewrite (quiet_evt knd m Hk _ Q).
    destruct (quiet_sem knd m Hk _ Q vs w) as [->|[v ->]]; auto.
    specialize (IH (fun j Hj => Hq j (or_intror Hj)) Hu _ _ w (agree_drop u e e' (dst i) v A Ei)).
    destruct (runBody m args (upd e (dst i) v) w l); cbn; auto.
Qed.
Lemma runTerm_agree args u e e' t : agree u e e' -> (forall x, In x (termUses t) -> u x = true) -> runTerm args e t = runTerm args e' t.
Proof.
  intros H Hu. unfold termUses in Hu. destruct t as [b|c a b|c cs d|[v|]|]; cbn in *; auto;
    rewrite (rd_agree args u e e' _ H); auto; intros x Hx; apply Hu; apply in_or_app; auto.
Qed.
Lemma keep_ok knd u f : (forall b bk, get b f = Some bk -> deadOk knd u bk) -> refines knd f (keepIn u f).
Proof.
  intros H W m args w Hk.
  apply (sim_refines (step m args f) (step m args (keepIn u f))
    (fun s s' => cur s' = cur s /\ prev s' = prev s /\ wd s' = wd s /\ agree u (en s) (en s'))).
  2:{ unfold start. rewrite entry_keepIn. repeat split; auto. }
  intros s s' Hs (Hc & Hp & Hw & A). pose proof (fun t => safe_step m args f s t Hs) as Hb. apply meets1.
  unfold step in *. rewrite Hc, get_keepIn. destruct (get (cur s) f) as [bk|] eqn:Eb; [|exact (Hb [] eq_refl)]. cbn [option_map].
  destruct (H (cur s) bk Eb) as [D1 D2]. unfold runBlock in *. rewrite Hp, Hw.
  destruct (enter args (en s) (prev s) (phis bk)) as [e1|] eqn:En; [|exact (Hb [] eq_refl)].
  assert (N : exists e1', enter args (en s') (prev s) (phis (keepBlock u bk)) = Some e1' /\ agree u e1 e1').
  { destruct (prev s) as [p|]; cbn in En |- *.
    - destruct (rdPhis args (en s) p (phis bk)) as [vs|] eqn:Ev; [|discriminate]. cbn in En. injection En as <-.
      destruct (keep_phis args u p (phis bk) (en s) (en s) (en s') vs) as (vs' & R & Q); auto.
      { intros x Hx. apply D2. apply in_or_app. auto. }
      rewrite R. cbn. eauto.
    - destruct (phis bk); [|discriminate]. injection En as <-. cbn. eauto. }
  destruct N as (e1' & -> & A1).
  assert (K := keep_body knd m args u (body bk) Hk D1 (fun x Hx => D2 x (in_or_app _ _ _ (or_intror (in_or_app _ _ _ (or_introl Hx))))) e1 e1' (wd s) A1).
  change (body (keepBlock u bk)) with (filter (fun i => u (dst i)) (body bk)). change (trm (keepBlock u bk)) with (trm bk).
  destruct (runBody m args e1 (wd s) (body bk)) as [e2 w2 t2|w2 t2|t2]; [|rewrite K; auto|exact (Hb t2 eq_refl)].
  destruct K as (e2' & -> & A2). rewrite <- (runTerm_agree args u e2 e2' (trm bk) A2).
  2:{ intros x Hx. apply D2. apply in_or_app. right. apply in_or_app. auto. }
  destruct (runTerm args e2 (trm bk)) as [b'|v|]; auto. exact (Hb t2 eq_refl).
Qed.
(** *** what is left is well-formed *)
Lemma filter_NoDup_map {A} (g : A -> nat) q l : NoDup (map g l) -> NoDup (map g (filter q l)).
Proof.
  induction l as [|a l IH]; cbn; intros N; [constructor|]. inversion N as [|? ? N1 N2]; subst. destruct (q a); cbn; auto. constructor; auto.
  intros K. apply N1. apply in_map_iff in K as (b & Eb & K). apply filter_In in K as [K _]. rewrite <- Eb. now apply in_map.
Qed.
Lemma keep_results u bk x : In x (resultsOf (keepBlock u bk)) <-> In x (resultsOf bk) /\ u x = true.
Proof.
  unfold resultsOf. cbn. rewrite !in_app_iff, !in_map_iff. split.
  - intros [(ph & <- & H)|(i & <- & H)]; apply filter_In in H as [H1 H2]; split; auto; [left|right]; eauto.
  - intros [[(ph & <- & H)|(i & <- & H)] Hu]; [left|right]; [exists ph|exists i]; split; auto; now apply filter_In.
Qed.
Lemma keep_NoDup u bk : NoDup (resultsOf bk) -> NoDup (resultsOf (keepBlock u bk)).
Proof.
  unfold resultsOf. intros N. cbn. apply NoDup_app_i.
  - apply filter_NoDup_map. exact (NoDup_app_l _ _ N).
  - apply filter_NoDup_map. exact (NoDup_app_r _ _ N).
  - intros x H1 H2. apply in_map_iff in H1 as (ph & E1 & H1). apply in_map_iff in H2 as (i & E2 & H2). apply filter_In in H1 as [H1 _], H2 as [H2 _].
    apply (NoDup_app_disj _ _ N x); [rewrite <- E1|rewrite <- E2]; now apply in_map.
Qed.
Lemma keep_wf u f : wf f -> wf (keepIn u f).
Proof.
  intros Hf. pose proof Hf as (W1 & W2 & W4 & W5 & W6). destruct (wf_uniqR f Hf) as [U1 U2].
  apply (wf_same f (keepIn u f) (fun _ => keepBlock u)); auto.
  - unfold keepIn. now rewrite map_map.
  - intros k. apply get_keepIn.
  - intros k bk Hk. split; [|apply keep_NoDup; eauto]. intros x Hx. now apply keep_results in Hx.
  - intros k bk ph p o Hk Hph Hi. cbn in Hph. apply filter_In in Hph as [Hph _]. exact (W5 k bk ph p o Hk Hph Hi).
  - intros k bk ph p pb Hk Hph Hp Hs. cbn in Hph. apply filter_In in Hph as [Hph _]. exact (W6 k bk ph p pb Hk Hph Hp Hs).
Qed.
Lemma keep_path u f b l : path (keepIn u f) b l <-> path f b l.
Proof.
  split; induction 1 as [|b l bk t H IH Hb Ht].
  - rewrite entry_keepIn. apply path_entry.
  - rewrite get_keepIn in Hb. destruct (get b f) as [bk0|] eqn:Eb; [|discriminate]. injection Hb as <-. eapply path_next; eauto.
  - rewrite <- (entry_keepIn u). apply path_entry.
  - eapply path_next; [exact IH|rewrite get_keepIn, Hb; reflexivity|exact Ht].
Qed.
Lemma keep_dom u f a b : dominates (keepIn u f) a b <-> dominates f a b.
Proof. split; intros H l Hl; apply H; now apply (keep_path u f). Qed.
Lemma keep_reach u f b : reach (keepIn u f) b <-> reach f b.
Proof. split; intros [l Hl]; exists l; now apply (keep_path u f). Qed.
Lemma keep_defIn u f x d : u x = true -> defIn f x d -> defIn (keepIn u f) x d.
Proof. intros Hu (bk & H1 & H2). exists (keepBlock u bk). rewrite get_keepIn, H1. split; auto. now apply keep_results. Qed.
Lemma filter_split {A} (q : A -> bool) l : forall pre i post, filter q l = pre ++ i :: post ->
  exists pre0 post0, l = pre0 ++ i :: post0 /\ filter q pre0 = pre /\ q i = true.
Proof.
  induction l as [|a l IH]; intros pre i post; cbn; [destruct pre; discriminate|]. destruct (q a) eqn:Ea.
  - destruct pre as [|p pre]; cbn; intros [= -> H].
    + exists [], l. auto.
    + destruct (IH _ _ _ H) as (p0 & q0 & -> & <- & Hq). exists (p :: p0), q0. cbn. rewrite Ea. auto.
  - intros H. destruct (IH _ _ _ H) as (p0 & q0 & -> & <- & Hq). exists (a :: p0), q0. cbn. rewrite Ea. auto.
Qed.
Lemma keep_ssa knd u f : ssa f -> (forall b bk, get b f = Some bk -> deadOk knd u bk) -> ssa (keepIn u f).
Proof.
  intros S H b bk Hb R. rewrite get_keepIn in Hb. destruct (get b f) as [bk0|] eqn:Eb; [|discriminate]. injection Hb as <-.
  apply (keep_reach u f) in R. destruct (S b bk0 Eb R) as (S1 & S2 & S3). destruct (H b bk0 Eb) as [_ D].
  assert (Av : forall pre o, (forall x, In x (res_of o) -> u x = true) -> opAvail (availAt f b bk0 pre) o ->
    opAvail (availAt (keepIn u f) b (keepBlock u bk0) (filter (fun i => u (dst i)) pre)) o).
  { intros pre [c|n|x] Hu; cbn; auto. assert (Ux : u x = true) by (apply Hu; now left). intros [(d & H1 & H2 & H3)|[Hx|Hx]].
    - left. exists d. split; [now apply keep_defIn|]. split; auto. now apply (keep_dom u f).
    - right. left. cbn. apply in_map_iff in Hx as (ph & <- & Hx). apply in_map. now apply filter_In.
    - right. right. cbn. apply in_map_iff in Hx as (i & <- & Hx). apply in_map. now apply filter_In. }
  split; [|split].
  - intros pre i post E. cbn in E. apply filter_split in E as (p0 & q0 & E & <- & Ei).
    specialize (S1 p0 i q0 E). rewrite Forall_forall in S1 |- *. intros o Ho. apply Av; auto. intros x Hx. apply D.
    apply in_or_app. right. apply in_or_app. left. cbn. apply in_flat_map. exists i. split; [|apply in_flat_map; eauto].
    apply filter_In. split; auto. rewrite E. apply in_or_app. right. now left.
  - rewrite Forall_forall in S2 |- *. intros o Ho. apply Av; auto. intros x Hx. apply D. apply in_or_app. right. apply in_or_app. right.
    apply in_flat_map. eauto.
  - intros ph p o Hph Hi Rp. cbn in Hph. apply filter_In in Hph as [Hph Hu]. apply (keep_reach u f) in Rp. specialize (S3 ph p o Hph Hi Rp).
    destruct o as [c|n|x]; cbn in *; auto. destruct S3 as (d & Hd & Hdom). exists d. split; [|now apply (keep_dom u f)].
    apply keep_defIn; auto. apply D. apply in_or_app. left. apply in_flat_map. exists ph. split; [now apply filter_In|].
    apply in_flat_map. exists (p, ORes x). split; auto. now left.
Qed.
Lemma keep_good knd u f : wfs f -> (forall b bk, get b f = Some bk -> deadOk knd u bk) -> good knd f (keepIn u f).
Proof.
  intros (Hw & Hs & He) H. split; [now apply keep_ok|]. split; [now apply keep_wf|]. split; [now apply (keep_ssa knd)|].
  intros bk. rewrite entry_keepIn, get_keepIn. destruct (get (entry f) f) as [b0|] eqn:Eb; [|discriminate]. intros [= <-]. cbn.
  now rewrite (He b0 Eb).
Qed.

(** *** the marking is closed *)
Definition unmarked (v used : list nat) : list nat := filter (fun x => negb (inb x used)) v.
Lemma unmarked_out v y used : ~ In y v -> unmarked v (y :: used) = unmarked v used.
Proof.
  intros H. unfold unmarked. apply filter_ext_in. intros a Ha. cbn. destruct (Nat.eqb_spec a y) as [->|]; [contradiction|reflexivity].
Qed.
Lemma unmarked_cons v y used : NoDup v -> In y v -> ~ In y used -> S (length (unmarked v (y :: used))) = length (unmarked v used).
Proof.
  intros N Hy Hn. induction v as [|a v IH]; [destruct Hy|]. inversion N as [|? ? N1 N2]; subst.
  assert (E : forall u, unmarked (a :: v) u = if inb a u then unmarked v u else a :: unmarked v u) by (intros u; unfold unmarked; cbn; now destruct (inb a u)).
  rewrite !E. assert (E1 : inb a (y :: used) = Nat.eqb a y || inb a used) by reflexivity. rewrite E1.
  destruct (Nat.eqb_spec a y) as [->|D]; cbn [orb].
  - destruct (inb y used) eqn:K; [exfalso; apply Hn; now apply existsb_In in K|]. rewrite unmarked_out; auto.
  - destruct Hy as [Hy|Hy]; [congruence|]. destruct (inb a used); cbn [length]; rewrite <- IH; auto.
Qed.
Lemma inb_iff x l : inb x l = true <-> In x l.
Proof. apply existsb_In. Qed.
Lemma inb_niff x l : inb x l = false <-> ~ In x l.
Proof. rewrite <- (inb_iff x l). destruct (inb x l); split; congruence. Qed.
Lemma mark_all v l : forall used q, NoDup v -> incl l v ->
  let uq := fold_left mark l (used, q) in
  length (unmarked v (fst uq)) + length (snd uq) = length (unmarked v used) + length q /\
  incl used (fst uq) /\ incl q (snd uq) /\ incl l (fst uq) /\
  (forall x, In x (fst uq) -> In x used \/ In (IRes x) (snd uq)).
Proof.
  induction l as [|y l IH]; intros used q N Hl.
  - cbn. repeat split; auto; try apply incl_refl. intros x [].
  - cbn [fold_left]. assert (M : mark (used, q) y = if inb y used then (used, q) else (y :: used, q ++ [IRes y])) by reflexivity.
    rewrite M. clear M. destruct (inb y used) eqn:Ey.
    + destruct (IH used q N (fun x Hx => Hl x (or_intror Hx))) as (A & B & C & D & E). repeat split; auto.
      apply incl_cons; auto. apply B. now apply inb_iff.
    + apply inb_niff in Ey. destruct (IH (y :: used) (q ++ [IRes y]) N (fun x Hx => Hl x (or_intror Hx))) as (A & B & C & D & E).
      repeat split.
      * rewrite A, app_length. cbn [length]. rewrite <- (unmarked_cons v y used N (Hl y (or_introl eq_refl)) Ey). lia.
      * intros x Hx. apply B. now right.
      * intros x Hx. apply C. apply in_or_app. auto.
      * apply incl_cons; auto. apply B. now left.
      * intros x Hx. destruct (E x Hx) as [[<-|K]|K]; auto. right. apply C. apply in_or_app. right. now left.
Qed.
(** what an item reads is marked, or the item waits *)
Definition closedFor (f : func) (used : list nat) (q : list item) : Prop :=
  (forall x, In x used -> In (IRes x) q \/ incl (itemUses f (IRes x)) used) /\
  (forall b, In b (map fst f) -> In (ITerm b) q \/ incl (itemUses f (ITerm b)) used).
Lemma phiUses_filter q l : incl (phiUses (filter q l)) (phiUses l).
Proof. intros x Hx. apply in_flat_map in Hx as (ph & H & Hx). apply filter_In in H as [H _]. apply in_flat_map. eauto. Qed.
Lemma bodyUses_filter q l : incl (bodyUses (filter q l)) (bodyUses l).
Proof. intros x Hx. apply in_flat_map in Hx as (ph & H & Hx). apply filter_In in H as [H _]. apply in_flat_map. eauto. Qed.
Lemma itemUses_in f it : incl (itemUses f it) (usesIn f).
Proof.
  intros x. destruct it as [b|y]; cbn.
  - destruct (get b f) as [bk|] eqn:Eb; [|intros []]. intros Hx. apply in_flat_map. exists (b, bk). split; [now apply get_In|].
    apply in_or_app. right. apply in_or_app. auto.
  - intros Hx. apply in_flat_map in Hx as ([b bk] & Hb & Hx). apply in_flat_map. exists (b, bk). split; auto. cbn in Hx |- *.
    apply in_app_or in Hx as [Hx|Hx]; apply in_or_app; [left; eapply phiUses_filter; eauto|].
    right. apply in_or_app. left. eapply bodyUses_filter; eauto.
Qed.
Lemma propagate_closed f v fuel : NoDup v -> incl (usesIn f) v -> forall used q, length (unmarked v used) + length q <= fuel ->
  closedFor f used q -> closedFor f (propagate f fuel used q) [] /\ incl used (propagate f fuel used q).
Proof.
  intros N Hv. induction fuel as [|n IH]; intros used q Hm Hc.
  - destruct q as [|it q]; [|cbn in Hm; lia]. split; auto. apply incl_refl.
  - destruct q as [|it q]; [split; auto; apply incl_refl|]. cbn [propagate].
    pose proof (mark_all v (itemUses f it) used q N (fun x Hx => Hv x (itemUses_in f it x Hx))) as (A & B & C & D & E).
    set (uq := fold_left mark (itemUses f it) (used, q)) in *. cbn [length] in Hm.
    destruct (IH (fst uq) (snd uq)) as (I1 & I2); [lia| |split; auto; intros x Hx; apply I2; now apply B].
    destruct Hc as [C1 C2]. split.
    + intros x Hx. destruct (E x Hx) as [K|K]; auto. destruct (C1 x K) as [[->|K1]|K1]; [right; auto|left; now apply C|right].
      intros y Hy. apply B. now apply K1.
    + intros b Hb. destruct (C2 b Hb) as [[->|K1]|K1]; [right; auto|left; now apply C|right]. intros y Hy. apply B. now apply K1.
Qed.
Definition sinkNames (q : list item) : list nat := flat_map (fun it => match it with IRes x => [x] | ITerm _ => [] end) q.
Lemma unmarked_le v used : length (unmarked v used) <= length v.
Proof. unfold unmarked. induction v as [|a v IH]; cbn; [lia|]. destruct (negb _); cbn; lia. Qed.
Lemma nodup_len l : length (nodup Nat.eq_dec l) <= length l.
Proof. induction l as [|a l IH]; cbn; [lia|]. destruct (in_dec _ _ _); cbn; lia. Qed.
Lemma usedBySinks_ok knd f : let used := usedBySinks knd f in
  (forall x, In x used -> incl (itemUses f (IRes x)) used) /\
  (forall b bk, get b f = Some bk -> incl (termUses (trm bk)) used) /\
  (forall b bk i, get b f = Some bk -> In i (body bk) -> isSink knd i = true -> In (dst i) used).
Proof.
  cbn zeta. unfold usedBySinks. set (v := nodup Nat.eq_dec (usesIn f)). fold (sinkNames (sinks knd f)).
  destruct (propagate_closed f v (length (sinks knd f) + length (usesIn f)) (NoDup_nodup _ _)) with
    (used := sinkNames (sinks knd f)) (q := sinks knd f) as [[C1 C2] I].
  - intros x Hx. now apply nodup_In.
  - pose proof (unmarked_le v (sinkNames (sinks knd f))). pose proof (nodup_len (usesIn f)) as L. unfold v in *. lia.
  - split.
    + intros x Hx. left. apply in_flat_map in Hx as ([b|y] & H & Hx); [destruct Hx|]. destruct Hx as [->|[]]. exact H.
    + intros b Hb. left. apply in_map_iff in Hb as ([b' bk] & <- & Hb). apply in_flat_map. exists (b', bk). split; auto. apply in_or_app. right. now left.
  - split; [|split].
    + intros x Hx. destruct (C1 x Hx) as [[]|K]; exact K.
    + intros b bk Hb. destruct (C2 b (get_In_fst _ _ _ Hb)) as [[]|K]. cbn in K. rewrite Hb in K. exact K.
    + intros b bk i Hb Hi Hs. apply I. apply in_flat_map. exists (IRes (dst i)). split; [|now left]. apply in_flat_map. exists (b, bk).
      split; [now apply get_In|]. apply in_or_app. left. apply in_map_iff. exists i. split; auto. now apply filter_In.
Qed.
Theorem noSideEffectEliminate_ok knd f : wfs f -> good knd f (noSideEffectEliminate knd f).
Proof.
  intros Hf. apply keep_good; auto. intros b bk Hb. destruct (usedBySinks_ok knd f) as (U1 & U2 & U3). set (used := usedBySinks knd f) in *.
  split.
  - intros i Hi Hu. apply inb_niff in Hu. unfold quiet. destruct (isSink knd i) eqn:Es; [exfalso; apply Hu; eapply U3; eauto|].
    unfold isSink in Es. destruct (knd (opc i)) as [ | | | | |[|] ? ?]; auto; discriminate.
  - intros x Hx. apply inb_iff. unfold usesOf in Hx. cbn in Hx. apply in_app_or in Hx as [Hx|Hx]; [|apply in_app_or in Hx as [Hx|Hx]].
    + apply in_flat_map in Hx as (ph & Hph & Hx). apply filter_In in Hph as [Hph Hu]. apply inb_iff in Hu. apply (U1 _ Hu). cbn.
      apply in_flat_map. exists (b, bk). split; [now apply get_In|]. apply in_or_app. left. cbn. apply in_flat_map. exists ph. split; auto.
      apply filter_In. split; auto. apply Nat.eqb_refl.
    + apply in_flat_map in Hx as (i & Hi & Hx). apply filter_In in Hi as [Hi Hu]. apply inb_iff in Hu. apply (U1 _ Hu). cbn.
      apply in_flat_map. exists (b, bk). split; [now apply get_In|]. apply in_or_app. right. cbn. apply in_flat_map. exists i. split; auto.
      apply filter_In. split; auto. apply Nat.eqb_refl.
    + exact (U2 b bk Hb x Hx).
Qed.
(** nothing that is kept is useless: every remaining instruction is a sink or is read, directly or not, by a sink or a terminator *)
Inductive needed (knd : nat -> kind) (f : func) : nat -> Prop :=
| need_sink b bk i : get b f = Some bk -> In i (body bk) -> isSink knd i = true -> needed knd f (dst i)
| need_term b bk x : get b f = Some bk -> In x (termUses (trm bk)) -> needed knd f x
| need_use x y : needed knd f y -> In x (itemUses f (IRes y)) -> needed knd f x.
Lemma mark_from (P : nat -> Prop) l : (forall y, In y l -> P y) -> forall used q, (forall x, In x used -> P x) -> (forall x, In (IRes x) q -> P x) ->
  (forall x, In x (fst (fold_left mark l (used, q))) -> P x) /\ (forall x, In (IRes x) (snd (fold_left mark l (used, q))) -> P x) /\
  (forall b, In (ITerm b) (snd (fold_left mark l (used, q))) -> In (ITerm b) q).
Proof.
  induction l as [|y l IH]; intros Hl used q Hu Hq; [cbn; auto|]. cbn [fold_left].
  assert (M : mark (used, q) y = if inb y used then (used, q) else (y :: used, q ++ [IRes y])) by reflexivity. rewrite M. clear M.
  destruct (inb y used); [apply IH; auto; intros; apply Hl; now right|].
  destruct (IH (fun z Hz => Hl z (or_intror Hz)) (y :: used) (q ++ [IRes y])) as (A & B & C).
  - intros x [<-|Hx]; auto. apply Hl. now left.
  - intros x Hx. apply in_app_or in Hx as [Hx|[[= <-]|[]]]; auto. apply Hl. now left.
  - split; auto. split; auto. intros b Hb. apply C in Hb. apply in_app_or in Hb as [Hb|[Hb|[]]]; [auto|discriminate].
Qed.
Lemma propagate_needed knd f fuel : forall used q, (forall x, In x used -> needed knd f x) -> (forall x, In (IRes x) q -> needed knd f x) ->
  forall x, In x (propagate f fuel used q) -> needed knd f x.
Proof.
  induction fuel as [|n IH]; intros used q Hu Hq x Hx; cbn in Hx; auto. destruct q as [|it q]; auto.
  destruct (mark_from (needed knd f) (itemUses f it)) with (used := used) (q := q) as (A & B & C); auto.
  - intros y Hy. destruct it as [b|z].
    + cbn in Hy. destruct (get b f) as [bk|] eqn:Eb; [|destruct Hy]. eapply need_term; eauto.
    + eapply need_use; eauto. apply Hq. now left.
  - intros y Hy. apply Hq. now right.
  - eapply IH; [| |exact Hx]; auto.
Qed.
Lemma usedBySinks_needed knd f x : uniqueDefs f -> In x (usedBySinks knd f) -> needed knd f x.
Proof.
  intros [U _]. assert (K : forall x, In (IRes x) (sinks knd f) -> needed knd f x).
  { intros y Hy. apply in_flat_map in Hy as ([b bk] & Hb & Hy). apply in_app_or in Hy as [Hy|[Hy|[]]]; [|discriminate].
    apply in_map_iff in Hy as (i & [= <-] & Hi). apply filter_In in Hi as [Hi Hs]. eapply (need_sink knd f b bk); eauto. apply In_get; auto. }
  apply propagate_needed; auto. intros y Hy. apply in_flat_map in Hy as ([b|z] & H & Hy); [destruct Hy|]. destruct Hy as [->|[]]. auto.
Qed.

(** *** cleanupUnusedInsts *)
Lemma isNoSideEffect_quiet knd hv o : isNoSideEffect knd hv o = true -> quiet (knd o) = true.
Proof. unfold isNoSideEffect. rewrite andb_true_iff. intros [_ H]. destruct (knd o) as [ | | | | |[|] ? ?]; auto; discriminate. Qed.
Lemma cleanup1_ok knd hv b f x : wfs f -> good knd f (cleanup1 knd hv b f x).
Proof.
  intros Hf. unfold cleanup1. destruct (inb x (usesIn f)) eqn:Eu; cbn [negb andb]; [now apply good_refl|].
  match goal with |- good _ _ (if ?c then _ else _) => destruct c eqn:Eo end; [|now apply good_refl].
  apply inb_niff in Eu. apply keep_good; auto. intros b' bk Hb. assert (U : uniqueDefs f) by apply Hf. split.
  - intros i Hi Hx. destruct (Nat.eqb_spec (dst i) x) as [E|]; [|discriminate]. subst x.
    assert (Rx : In (dst i) (resultsOf bk)) by (apply in_or_app; right; now apply in_map).
    destruct (instIn f b (dst i)) as [j|] eqn:Ej.
    + apply instIn_spec in Ej as (bk' & Hb' & Hj & Ej). assert (b' = b).
      { eapply (results_unique f b' bk b bk' (dst i)); eauto. apply in_or_app. right. rewrite <- Ej. now apply in_map. }
      subst b'. assert (bk' = bk) by congruence. subst bk'. assert (j = i).
      { pose proof (block_NoDup f b bk U Hb) as N. apply NoDup_app_r in N. clear -N Hi Hj Ej. induction (body bk) as [|a l IH]; [destruct Hi|].
        cbn in N. inversion N as [|? ? N1 N2]; subst. destruct Hi as [->|Hi], Hj as [->|Hj]; auto; exfalso; apply N1.
        - rewrite <- Ej. now apply in_map.
        - rewrite Ej. now apply in_map. }
      subst j. eapply isNoSideEffect_quiet; eauto.
    + destruct (phiIn f b (dst i)) as [ph|] eqn:Ep; [|discriminate]. exfalso. apply phiIn_spec in Ep as (bk' & Hb' & Hph & Ep).
      assert (b' = b). { eapply (results_unique f b' bk b bk' (dst i)); eauto. apply in_or_app. left. rewrite <- Ep. now apply in_map. }
      subst b'. assert (bk' = bk) by congruence. subst bk'. apply (phi_body_disj bk (dst i)).
      * eapply block_NoDup; eauto.
      * rewrite <- Ep. now apply in_map.
      * now apply in_map.
  - intros y Hy. destruct (Nat.eqb_spec y x) as [->|]; auto. exfalso. apply Eu. apply in_flat_map. exists (b', bk). split; [now apply get_In|].
    cbn. unfold usesOf in *. cbn in Hy. rewrite !in_app_iff in *. destruct Hy as [Hy|[Hy|Hy]]; auto.
    + left. eapply phiUses_filter; eauto.
    + right. left. eapply bodyUses_filter; eauto.
Qed.
Theorem cleanupUnused_ok knd hv f : wfs f -> good knd f (cleanupUnused knd hv f).
Proof.
  intros Hf. apply good_fold; auto. clear f Hf. intros f b Hf. destruct (get b f) as [bk|]; [|now apply good_refl].
  apply good_fold; auto. intros g x. apply cleanup1_ok.
Qed.
