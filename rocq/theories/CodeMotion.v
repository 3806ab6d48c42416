(** C49: moving instructions between blocks, the passes CodeMove (cmmc/Transforms/Misc/CodeMove.cpp) and CodeSink
    (cmmc/Transforms/Misc/CodeSink.cpp). *)
From Coq Require Import ZArith Lia Bool List Arith.
From Verif Require Import Sim Ssa SsaCfg SsaMerge SsaFwd SsaFwd2 SsaWf SsaDom SsaProps SsaSub SsaVerify SsaEq SsaPhi SsaCse SsaDce SsaIns SsaGvn SsaMove.
Import ListNotations.

(** ** the passes *)
(** cmmc/Transforms/Util/BlockUtil.cpp:157-174 isMovableExpr (and 125-148 isNoSideEffectExpr); isNonZero, lines 150-155 *)
Definition isMovableExpr (knd : nat -> kind) (relaxedCtx : bool) (i : inst) : bool :=
  match knd (opc i) with
  | KPure => true
  | KDiv => negb relaxedCtx || match ops i with [_; OCst (VInt z)] => negb (Z.eqb z 0) | _ => false end
  | KCall ns st nr => ns && st && negb nr
  | KLoad | KAlloc | KStore => false
  end.
(** what the passes ask of the analyses and the target: DominateAnalysis, the estimated trip counts (blockTripCount.query),
    isNativeSupported.  [cmHot b]: line 61 of CodeMove and 52 of CodeSink, the block is not cold; [cmGain t b]: line 129 of CodeMove, [t] is
    run significantly less often than [b]; [cmLess t b]: line 78 of CodeSink *)
Record cmEnv := CmEnv { cmDom : nat -> nat -> bool; cmHot : nat -> bool; cmGain : nat -> nat -> bool; cmLess : nat -> nat -> bool; cmNative : nat -> bool }.
(** Value::getBlock, cmmc/IR/Value.hpp:83 and Instruction.hpp:340 *)
Definition opBlock (f : func) (o : opnd) : option nat := match o with ORes y => blockOf f y | _ => None end.
(** CodeMove.cpp:69-94: moveOut.  Left out: isUniform (lines 40-48), loads in the bodies of parallel loops *)
Definition moveOut (knd : nat -> kind) (E : cmEnv) (f : func) (b : nat) (bk : block) : list nat :=
  fold_left (fun out i =>
    if isMovableExpr knd true i && cmNative E (opc i) &&
       forallb (fun o => negb (optnat_eqb (opBlock f o) (Some b)) || match o with ORes y => inb y out | _ => false end) (ops i)
    then out ++ [dst i] else out) (body bk) [].
(** lines 101-110 updateTargetBlock *)
Definition updateTarget (E : cmEnv) (t d : nat) : nat := if Nat.eqb t d then t else if cmDom E t d then d else t.
Definition targetStep (E : cmEnv) (f : func) (b : nat) (r : option nat) (o : opnd) : option nat :=
  match r, opBlock f o with
  | None, _ => None
  | Some t, None => Some t
  | Some t, Some d => if Nat.eqb d b then None else Some (updateTarget E t d)
  end.
(** lines 100-125; an operand that is still in the block has not been moved (moveTargetSet holds moved instructions only) *)
Definition targetOf (E : cmEnv) (f : func) (b : nat) (i : inst) : option nat :=
  fold_left (targetStep E f b) (ops i) (Some (entry f)).
(** lines 99-135, one instruction *)
Definition moveOne (E : cmEnv) (b : nat) (f : func) (x : nat) : func :=
  match defOf f x with
  | Some i => match targetOf E f b i with Some t => if cmGain E t b then moveInst false x t f else f | None => f end
  | None => f
  end.
(** lines 56-136, one block *)
Definition codeMoveBlock (knd : nat -> kind) (E : cmEnv) (f : func) (b : nat) : func :=
  if Nat.eqb b (entry f) || negb (cmHot E b) then f
  else match get b f with Some bk => fold_left (moveOne E b) (moveOut knd E f b bk) f | None => f end.
(** lines 51-139 *)
Definition codeMove (knd : nat -> kind) (E : cmEnv) (f : func) : func := fold_left (codeMoveBlock knd E) (map fst f) f.

(** CodeSink.cpp:86-107, the test of tryMove *)
Definition isRes (x : nat) (o : opnd) : bool := opnd_eqb o (ORes x).
Definition sinkable (E : cmEnv) (f : func) (x t : nat) : bool :=
  forallb (fun kb =>
    forallb (fun ph => forallb (fun po => negb (isRes x (snd po)) || cmDom E t (fst po)) (inc ph)) (phis (snd kb)) &&
    (cmDom E t (fst kb) || negb (existsb (fun i => existsb (isRes x) (ops i)) (body (snd kb)) || existsb (isRes x) (termOps (trm (snd kb)))))) f.
(** lines 68-79 shouldMoveToTarget; cfg.predecessors: the blocks with an edge to [t] *)
Definition shouldMoveTo (E : cmEnv) (f : func) (b t : nat) : bool :=
  negb (Nat.eqb b t) && forallb (fun kb => negb (inb t (succs (trm (snd kb)))) || Nat.eqb (fst kb) b) f && cmLess E t b.
(** lines 117-134, one instruction *)
Definition sinkOne (knd : nat -> kind) (E : cmEnv) (t : nat) (f : func) (x : nat) : func :=
  match defOf f x with
  | Some i => if isMovableExpr knd false i && sinkable E f x t then moveInst true x t f else f
  | None => f
  end.
(** lines 50-135, one block *)
Definition codeSinkBlock (knd : nat -> kind) (E : cmEnv) (f : func) (b : nat) : func :=
  if negb (cmHot E b) then f
  else match get b f with
  | Some bk =>
    match trm bk with
    | TCond _ t e =>
      if Nat.eqb t e then f
      else if shouldMoveTo E f b t then fold_left (sinkOne knd E t) (map dst (body bk)) f
      else if shouldMoveTo E f b e then fold_left (sinkOne knd E e) (map dst (body bk)) f
      else f
    | _ => f
    end
  | None => f
  end.
(** lines 41-138 *)
Definition codeSink (knd : nat -> kind) (E : cmEnv) (f : func) : func := fold_left (codeSinkBlock knd E) (map fst f) f.

(** ** dominators of a block are in a line *)
Lemma path_glue f k l : path f k l -> forall l1 t l2 q, l = l1 ++ t :: l2 -> path f t q -> path f k (l1 ++ q).
Proof.
  induction 1 as [|b l bk t H IH Hb Ht]; intros l1 t0 l2 q E Hq.
  - destruct l1 as [|a l1]; cbn in E; injection E as E1 E2; [subst; exact Hq|]. destruct l1; discriminate.
  - destruct l1 as [|a l1]; cbn in E; injection E as E1 E2; [subst; exact Hq|]. subst a. cbn. eapply path_next; eauto.
Qed.
Lemma first_of (a b : nat) l : In a l -> exists l1 t l2, l = l1 ++ t :: l2 /\ (t = a \/ t = b) /\ ~ In a l1 /\ ~ In b l1.
Proof.
  induction l as [|y l IH]; intros H; [destruct H|]. destruct (Nat.eq_dec y a) as [->|Na]; [exists [], a, l; cbn; auto|].
  destruct (Nat.eq_dec y b) as [->|Nb]; [exists [], b, l; cbn; auto|]. destruct H as [H|H]; [congruence|].
  destruct (IH H) as (l1 & t & l2 & -> & Ht & A & B). exists (y :: l1), t, l2. cbn. split; auto. split; auto. split; intros [K|K]; auto.
Qed.
Lemma dom_line f a b k : reach f k -> dominates f a k -> dominates f b k -> dominates f a b \/ dominates f b a.
Proof.
  intros [l Hl] Ha Hb. destruct (first_of a b l (Ha l Hl)) as (l1 & t & l2 & E & Ht & Na & Nb).
  assert (G : forall q, path f t q -> path f k (l1 ++ q)) by (intros q Hq; exact (path_glue f k l Hl l1 t l2 q E Hq)).
  destruct Ht as [-> | ->].
  - right. intros q Hq. destruct (in_app_or _ _ _ (Hb _ (G q Hq))); [contradiction|auto].
  - left. intros q Hq. destruct (in_app_or _ _ _ (Ha _ (G q Hq))); [contradiction|auto].
Qed.
Lemma entry_dom f k : dominates f (entry f) k.
Proof. intros l. induction 1; [now left|now right]. Qed.
Lemma reach_get f b : wf f -> reach f b -> exists bk, get b f = Some bk.
Proof.
  intros (Hn & U & C & _) [l H]. destruct H as [|k l bk t H Hk Ht].
  - destruct f as [|[e bk] f]; [congruence|]. exists bk. cbn. now rewrite Nat.eqb_refl.
  - specialize (C k bk t Hk Ht). destruct (get t f) eqn:E; eauto. apply get_None in E. contradiction.
Qed.

(** ** what a move leaves alone *)
Lemma move_other front x d f c db b y : wfs f -> defOf f x = Some c -> defIn f x b -> reach f b -> get d f = Some db ->
  wfs (moveInst front x d f) -> y <> x -> forall i k, defOf f y = Some i -> defIn f y k ->
  defOf (moveInst front x d f) y = Some i /\ defIn (moveInst front x d f) y k.
Proof.
  intros Hf Hc Hx Rb Hd Hg N i k Hi Hk.
  assert (D : defIn (moveInst front x d f) y k) by (apply (mv_defIn f front x d c db Hf Hc Hd); auto).
  split; auto. destruct Hk as (kb & Hk & Hin). pose proof (proj1 (proj2 (proj1 Hf))) as U.
  destruct (defOf_block f y i k kb U Hi Hk Hin) as (Di & p & q & E).
  assert (K : In i (body (mvBlock front x d c k kb))).
  { assert (Hin' : In i (body (cutBlock x kb))).
    { cbn. apply filter_In. split; [rewrite E; apply in_or_app; right; now left|]. rewrite Di. destruct (Nat.eqb_spec y x); [contradiction|reflexivity]. }
    unfold mvBlock. destruct (Nat.eqb k d); auto. unfold putBlock. cbn [body]. destruct front; [now right|apply in_or_app; now left]. }
  apply in_split in K as (p' & q' & E'). refine (defOf_body _ y k _ p' i q' (proj1 (proj2 (proj1 Hg))) _ E' Di).
  rewrite (mv_get f front x d c Hc), Hk. reflexivity.
Qed.

(** ** CodeMove *)
Lemma optnat_eqb_true a b : optnat_eqb a (Some b) = true <-> a = Some b.
Proof. destruct a as [a|]; cbn; [rewrite Nat.eqb_eq|]; split; congruence. Qed.
Definition domSpec (E : cmEnv) (f : func) : Prop := forall a b, reach f a -> reach f b -> (cmDom E a b = true <-> dominates f a b).
Lemma fold_none E g b l : fold_left (targetStep E g b) l None = None.
Proof. induction l as [|o l IH]; cbn; auto. Qed.
Lemma target_fold E g b l : domSpec E g -> reach g b ->
  (forall o d, In o l -> opBlock g o = Some d -> dominates g d b) ->
  forall t0 t, dominates g t0 b -> t0 <> b -> fold_left (targetStep E g b) l (Some t0) = Some t ->
  dominates g t b /\ t <> b /\ dominates g t0 t /\ forall o d, In o l -> opBlock g o = Some d -> d <> b /\ dominates g d t.
Proof.
  intros HD R. induction l as [|o l IH]; intros Hl t0 t D0 N0 H.
  - cbn in H. injection H as <-. split; auto. split; auto. split; [apply dominates_refl|]. intros o d [].
  - cbn in H. change (targetStep E g b (Some t0) o) with (match opBlock g o with None => Some t0 | Some d => if Nat.eqb d b then None else Some (updateTarget E t0 d) end) in H. assert (Hl' : forall o d, In o l -> opBlock g o = Some d -> dominates g d b) by (intros o' d Ho; apply Hl; now right).
    destruct (opBlock g o) as [d|] eqn:Eo.
    + destruct (Nat.eqb_spec d b) as [->|Nd]; [rewrite fold_none in H; discriminate|].
      assert (Dd : dominates g d b) by (apply (Hl o d); [now left|auto]).
      assert (U : dominates g (updateTarget E t0 d) b /\ updateTarget E t0 d <> b /\ dominates g t0 (updateTarget E t0 d) /\ dominates g d (updateTarget E t0 d)).
      { destruct R as [lb Hlb]. assert (R0 : reach g t0) by exact (dom_reach g t0 b lb Hlb D0). assert (Rd : reach g d) by exact (dom_reach g d b lb Hlb Dd).
        unfold updateTarget. destruct (Nat.eqb_spec t0 d) as [->|Nt]; [repeat split; auto using dominates_refl|].
        destruct (cmDom E t0 d) eqn:Ed.
        - apply (HD t0 d R0 Rd) in Ed. repeat split; auto using dominates_refl.
        - repeat split; auto using dominates_refl. destruct (dom_line g t0 d b (ex_intro _ lb Hlb) D0 Dd) as [K|K]; auto.
          apply (HD t0 d R0 Rd) in K. congruence. }
      destruct U as (U1 & U2 & U3 & U4). destruct (IH Hl' _ _ U1 U2 H) as (A & B & C & D). split; auto. split; auto.
      split; [exact (dominates_trans g _ _ _ U3 C)|]. intros o' d' [<-|Ho] Hd'.
      * assert (d' = d) by congruence. subst. split; auto. exact (dominates_trans g _ _ _ U4 C).
      * eapply D; eauto.
    + destruct (IH Hl' _ _ D0 N0 H) as (A & B & C & D). split; auto. split; auto. split; auto. intros o' d' [<-|Ho] Hd'; [congruence|]. eapply D; eauto.
Qed.
Section Hoist.
Variables (knd : nat -> kind) (E : cmEnv) (f : func) (b x t : nat) (i : inst).
Hypothesis Hf : wfs f.
Hypothesis HD : domSpec E f.
Hypothesis Rb : reach f b.
Hypothesis Nb : b <> entry f.
Hypothesis Hi : defOf f x = Some i.
Hypothesis Hx : defIn f x b.
Hypothesis Ht : targetOf E f b i = Some t.
Lemma hoist_target : dominates f t b /\ t <> b /\ forall o, In o (ops i) -> opAvail (availOut f t) o.
Proof using All.
  pose proof Hf as (Hw & Hs & _). pose proof Hw as (_ & U & _). destruct Hx as (bb & Hbb & Hin).
  destruct (defOf_block f x i b bb U Hi Hbb Hin) as (Di & p & q & Eb). destruct (Hs b bb Hbb Rb) as (S1 & _). specialize (S1 p i q Eb).
  rewrite Forall_forall in S1.
  assert (Hl : forall o d, In o (ops i) -> opBlock f o = Some d -> dominates f d b).
  { intros [v|n|y] d Ho Hd; try discriminate. specialize (S1 _ Ho). cbn in S1, Hd. apply (blockOf_def f y d U) in Hd.
    destruct S1 as [(d' & A & _ & B)|K].
    - assert (d = d') by (eapply defIn_unique; eauto). now subst.
    - assert (d = b); [|subst; apply dominates_refl]. eapply (defIn_unique f y); eauto. exists bb. split; auto. apply in_or_app.
      destruct K as [K|K]; auto. right. rewrite Eb, map_app. apply in_or_app. auto. }
  destruct (target_fold E f b (ops i) HD Rb Hl (entry f) t (entry_dom f b)) as (A & B & _ & D); auto.
  split; auto. split; auto. intros [v|n|y] Ho; cbn; auto. specialize (S1 _ Ho). cbn in S1.
  assert (K : exists d, defIn f y d).
  { destruct S1 as [(d' & K & _)|K]; eauto. exists b, bb. split; auto. apply in_or_app. destruct K as [K|K]; auto. right. rewrite Eb, map_app. apply in_or_app. auto. }
  destruct K as [d Kd]. exists d. split; auto. refine (proj2 (D (ORes y) d Ho _)). cbn. now apply blockOf_def.
Qed.
Lemma x_uses : usesOk f x (dominates f b) (dominates f b) (dominates f b).
Proof using Hf Hi Hx.
  pose proof Hf as (Hw & Hs & _). pose proof Hw as (_ & U & _). intros k bk Hk R. destruct (Hs k bk Hk R) as (S1 & S2 & S3).
  assert (At : forall pre post, body bk = pre ++ post -> availAt f k bk pre x -> dominates f b k).
  { intros pre post Eb [(d & A & _ & B)|K].
    - assert (d = b) by (eapply defIn_unique; eauto). now subst.
    - assert (k = b); [|subst; apply dominates_refl]. eapply (defIn_unique f x); eauto. exists bk. split; auto. apply in_or_app.
      destruct K as [K|K]; auto. right. rewrite Eb, map_app. apply in_or_app. auto. }
  split; [|split].
  - intros j Hj Ho. apply in_split in Hj as (p & q & Ej). specialize (S1 p j q Ej). rewrite Forall_forall in S1. specialize (S1 _ Ho). eapply At; eauto.
  - intros Ho. rewrite Forall_forall in S2. specialize (S2 _ Ho). apply (At (body bk) []); [now rewrite app_nil_r|exact S2].
  - intros ph p Hph Hin Rp. destruct (S3 ph p _ Hph Hin Rp) as (d & A & B). assert (d = b) by (eapply defIn_unique; eauto). now subst.
Qed.
Lemma hoist_good : isSpeculatable knd i = true -> good knd f (moveInst false x t f).
Proof using All.
  intros Hsp. destruct hoist_target as (A & B & C). destruct Rb as [lb Hlb]. assert (Rt : reach f t) by exact (dom_reach f t b lb Hlb A).
  destruct (reach_get f t (proj1 Hf) Rt) as [tb Htb].
  refine (move_good knd f false x b t i tb Hf Hi Hx Rb Htb _ _ (spec_movable knd i Hsp) (fun _ => or_introl Hsp)).
  - intros _. rewrite Forall_forall. exact C.
  - intros k bk Hk R. destruct (x_uses k bk Hk R) as (U1 & U2 & U3). split; [|split].
    + intros j Hj Ho. specialize (U1 j Hj Ho). split; [exact (dominates_trans f _ _ _ A U1)|]. left. intros ->.
      destruct Rt as [lt Hlt]. exact (no_mutual f b t (not_eq_sym B) lt Hlt U1 A).
    + intros Ho. exact (dominates_trans f _ _ _ A (U2 Ho)).
    + intros ph p Hph Hin Rp. exact (dominates_trans f _ _ _ A (U3 ph p Hph Hin Rp)).
Qed.
End Hoist.

(** instructions a pass may find movable because they are calls without state; CodeMove must not meet any (see
    C49_hoisting_calls_refuted in CodeMotionProps.v) *)
Definition noStatelessCalls (knd : nat -> kind) (f : func) : Prop :=
  forall b bk i, get b f = Some bk -> In i (body bk) -> knd (opc i) <> KCall true true false.
Lemma relaxed_spec knd i : knd (opc i) <> KCall true true false -> isMovableExpr knd true i = true -> isSpeculatable knd i = true.
Proof. unfold isMovableExpr, isSpeculatable. destruct (knd (opc i)) as [| | | | |[] [] []]; cbn; congruence. Qed.
Definition samePaths (f g : func) : Prop := map fst g = map fst f /\ entry g = entry f /\ forall k l, path g k l <-> path f k l.
Lemma samePaths_refl f : samePaths f f.
Proof. split; auto. split; auto. intros; tauto. Qed.
Lemma samePaths_trans f g h : samePaths f g -> samePaths g h -> samePaths f h.
Proof. intros (A & B & C) (A' & B' & C'). split; [congruence|split; [congruence|]]. intros k l. now rewrite C', C. Qed.
Lemma samePaths_dom f g a b : samePaths f g -> dominates g a b <-> dominates f a b.
Proof. intros (_ & _ & C). unfold dominates. split; intros H l Hl; apply H; now apply C. Qed.
Lemma samePaths_reach f g b : samePaths f g -> reach g b <-> reach f b.
Proof. intros (_ & _ & C). unfold reach. split; intros [l Hl]; exists l; now apply C. Qed.
Lemma samePaths_spec E f g : samePaths f g -> domSpec E f -> domSpec E g.
Proof. intros P H a b Ra Rb. apply (samePaths_reach f g _ P) in Ra, Rb. rewrite (H a b Ra Rb). now rewrite (samePaths_dom f g a b P). Qed.
Lemma move_samePaths front x d c f : defOf f x = Some c -> samePaths f (moveInst front x d f).
Proof.
  intros Hc. split; [|split].
  - unfold moveInst. rewrite Hc. apply (fst_mapk (mvBlock front x d c)).
  - exact (mv_entry f front x d c Hc).
  - exact (mv_path f front x d c Hc).
Qed.
Lemma move_calls front x d c f knd : defOf f x = Some c -> uniqueDefs f -> noStatelessCalls knd f -> noStatelessCalls knd (moveInst front x d f).
Proof.
  intros Hc U H k bk i Hk Hi. rewrite (mv_get f front x d c Hc) in Hk. destruct (get k f) as [bk1|] eqn:Ek; [|discriminate]. injection Hk as <-.
  assert (Cc : knd (opc c) <> KCall true true false).
  { destruct (defOf_In f x c Hc) as (_ & b0 & k0 & I0 & I1). apply (H b0 k0 c); auto. apply In_get; [apply U|auto]. }
  assert (Cut : In i (body (cutBlock x bk1)) -> knd (opc i) <> KCall true true false).
  { cbn. intros K. apply filter_In in K as [K _]. eapply H; eauto. }
  unfold mvBlock in Hi. destruct (Nat.eqb k d); [|auto]. unfold putBlock in Hi. cbn [body] in Hi. destruct front.
  - destruct Hi as [<-|Hi]; auto.
  - apply in_app_or in Hi as [Hi|[<-|[]]]; auto.
Qed.

(** ** the instructions, phis and terminators are those of the given function *)
Lemma insts_single f x c k bk j : uniqueDefs f -> defOf f x = Some c -> get k f = Some bk -> In j (body bk) -> dst j = x -> j = c.
Proof.
  intros U Hc Hk Hj Dj. apply in_split in Hj as (p & q & Ej). pose proof (defOf_body f x k bk p j q U Hk Ej Dj). congruence.
Qed.
Definition hasInst (f : func) (i : inst) : Prop := exists b bk, get b f = Some bk /\ In i (body bk).
Definition sameRest (f g : func) : Prop := forall k, option_map (fun bk => (phis bk, trm bk)) (get k g) = option_map (fun bk => (phis bk, trm bk)) (get k f).
Definition sameCode (f g : func) : Prop := map fst g = map fst f /\ sameRest f g /\ forall i, hasInst g i <-> hasInst f i.
Lemma sameCode_refl f : sameCode f f.
Proof. split; auto. split; [intros k; reflexivity|]. intros i. tauto. Qed.
Lemma sameCode_trans f g h : sameCode f g -> sameCode g h -> sameCode f h.
Proof.
  intros (A & B & C) (A' & B' & C'). split; [congruence|]. split; [intros k; now rewrite B', B|]. intros i. now rewrite C', C.
Qed.
Lemma sameCode_move front x d f tb : uniqueDefs f -> get d f = Some tb -> sameCode f (moveInst front x d f).
Proof.
  intros U Hd. unfold moveInst. destruct (defOf f x) as [c|] eqn:Hc; [|apply sameCode_refl].
  assert (G : forall k, get k (map (fun kb => (fst kb, mvBlock front x d c (fst kb) (snd kb))) f) = option_map (mvBlock front x d c k) (get k f)) by (intros k; apply (get_mapk (mvBlock front x d c))).
  split; [apply (fst_mapk (mvBlock front x d c))|]. split.
  - intros k. rewrite G. destruct (get k f) as [bk|]; auto. cbn. unfold mvBlock. destruct (Nat.eqb k d); reflexivity.
  - intros i. destruct (defOf_In f x c Hc) as (Dc & b0 & k0 & I0 & I1). apply In_get in I0; [|apply U]. unfold hasInst. split.
    + intros (k & bk & Hk & Hi). rewrite G in Hk. destruct (get k f) as [bk1|] eqn:Ek; [|discriminate]. injection Hk as <-.
      assert (Cut : In i (body (cutBlock x bk1)) -> exists b bk, get b f = Some bk /\ In i (body bk)).
      { cbn. intros K. apply filter_In in K as [K _]. eauto. }
      unfold mvBlock in Hi. destruct (Nat.eqb k d); auto. unfold putBlock in Hi. cbn [body] in Hi. destruct front.
      * destruct Hi as [<-|Hi]; eauto.
      * apply in_app_or in Hi as [Hi|[<-|[]]]; eauto.
    + intros (k & bk & Hk & Hi). destruct (Nat.eq_dec (dst i) x) as [Dx|Dx].
      * assert (i = c) by exact (insts_single f x c k bk i U Hc Hk Hi Dx). subst i. exists d. rewrite G, Hd. cbn. eexists. split; [reflexivity|].
        unfold mvBlock. rewrite Nat.eqb_refl. unfold putBlock. cbn [body]. destruct front; [now left|apply in_or_app; right; now left].
      * exists k. rewrite G, Hk. cbn. eexists. split; [reflexivity|].
        assert (K : In i (body (cutBlock x bk))).
        { cbn. apply filter_In. split; auto. destruct (Nat.eqb_spec (dst i) x); [contradiction|reflexivity]. }
        unfold mvBlock. destruct (Nat.eqb k d); auto. unfold putBlock. cbn [body]. destruct front; [now right|apply in_or_app; now left].
Qed.
(** the names found in a block *)
Lemma moveOut_spec knd E f b bk x : In x (moveOut knd E f b bk) -> exists i, In i (body bk) /\ dst i = x /\ isMovableExpr knd true i = true.
Proof.
  unfold moveOut. set (g := fun out i => _). assert (G : forall l out, (forall y, In y (fold_left g l out) -> In y out \/ exists i, In i l /\ dst i = y /\ isMovableExpr knd true i = true)).
  { induction l as [|i l IH]; intros out y Hy; [now left|]. cbn in Hy. apply IH in Hy as [Hy|(j & A & B & C)]; [|right; exists j; auto using in_cons].
    unfold g in Hy. destruct (isMovableExpr knd true i) eqn:M; cbn in Hy; auto. destruct (cmNative E (opc i)); cbn in Hy; auto.
    destruct (forallb _ (ops i)); auto. apply in_app_or in Hy as [Hy|[<-|[]]]; auto. right. exists i. auto using in_eq. }
  intros H. apply G in H as [[]|H]; auto.
Qed.
Lemma moveOut_NoDup knd E f b bk : NoDup (map dst (body bk)) -> NoDup (moveOut knd E f b bk).
Proof.
  unfold moveOut. set (g := fun out i => _). assert (G : forall l out, NoDup (map dst l) -> NoDup out -> (forall y, In y out -> ~ In y (map dst l)) -> NoDup (fold_left g l out)).
  { induction l as [|i l IH]; intros out N1 N2 D; auto. cbn. cbn in N1. inversion N1 as [|? ? A B]; subst.
    assert (K : g out i = out \/ g out i = out ++ [dst i]) by (unfold g; destruct (_ && _); auto).
    apply IH; auto.
    - destruct K as [-> | ->]; auto. apply NoDup_glue; [auto|repeat constructor; auto|]. intros y Hy [<-|[]]. exact (D _ Hy (or_introl eq_refl)).
    - intros y Hy Hl. destruct K as [K|K]; rewrite K in Hy; [exact (D y Hy (or_intror Hl))|].
      apply in_app_or in Hy as [Hy|[<-|[]]]; [exact (D y Hy (or_intror Hl))|contradiction]. }
  intros N. exact (G (body bk) [] N (NoDup_nil _) (fun y (K : In y []) => match K with end)).
Qed.

Definition moved (knd : nat -> kind) (f g : func) : Prop := good knd f g /\ samePaths f g /\ noStatelessCalls knd g /\ sameCode f g.
Lemma moved_refl knd f : wfs f -> noStatelessCalls knd f -> moved knd f f.
Proof. intros Hf N. split; [now apply good_refl|split; [apply samePaths_refl|split; [auto|apply sameCode_refl]]]. Qed.
Lemma moved_trans knd f g h : moved knd f g -> moved knd g h -> moved knd f h.
Proof.
  intros (A & B & C & D) (A' & B' & C' & D'). split; [|split; [eapply samePaths_trans; eauto|split; [auto|eapply sameCode_trans; eauto]]].
  split; [eapply refines_trans; [apply A|apply A']|apply A'].
Qed.
Lemma moveOne_good knd E b f x i : wfs f -> domSpec E f -> noStatelessCalls knd f -> reach f b -> b <> entry f ->
  defOf f x = Some i -> defIn f x b -> isSpeculatable knd i = true ->
  moved knd f (moveOne E b f x) /\ forall y j, y <> x -> defOf f y = Some j -> defIn f y b -> defOf (moveOne E b f x) y = Some j /\ defIn (moveOne E b f x) y b.
Proof.
  intros Hf HD NC R Nb Hi Hx Sp. unfold moveOne. rewrite Hi. assert (Id : moved knd f f) by now apply moved_refl.
  destruct (targetOf E f b i) as [t|] eqn:Et; [|auto]. destruct (cmGain E t b); [|auto].
  pose proof (hoist_good knd E f b x t i Hf HD R Nb Hi Hx Et Sp) as G.
  destruct (hoist_target knd E f b x t i Hf HD R Nb Hi Hx Et) as (A & _).
  destruct R as [lb Hlb]. destruct (reach_get f t (proj1 Hf) (dom_reach f t b lb Hlb A)) as [tb Htb]. pose proof (proj1 (proj2 (proj1 Hf))) as U.
  split; [split; [exact G|split; [exact (move_samePaths false x t i f Hi)|split; [exact (move_calls false x t i f knd Hi U NC)|exact (sameCode_move false x t f tb U Htb)]]]|].
  intros y j Ny Hj Hy.
  exact (move_other false x t f i tb b y Hf Hi Hx (ex_intro _ lb Hlb) Htb (proj2 G) Ny j b Hj Hy).
Qed.
Lemma moveMany_good knd E b l : NoDup l -> forall f, wfs f -> domSpec E f -> noStatelessCalls knd f -> reach f b -> b <> entry f ->
  (forall x, In x l -> exists i, defOf f x = Some i /\ defIn f x b /\ isSpeculatable knd i = true) -> moved knd f (fold_left (moveOne E b) l f).
Proof.
  induction 1 as [|x l Nx Nl IH]; intros f Hf HD NC R Nb Hl.
  - cbn. now apply moved_refl.
  - cbn. destruct (Hl x (or_introl eq_refl)) as (i & Hi & Hx & Sp). destruct (moveOne_good knd E b f x i Hf HD NC R Nb Hi Hx Sp) as [M O].
    eapply moved_trans; [exact M|]. destruct M as (G & P & NC' & _). apply IH; auto.
    + apply G.
    + eapply samePaths_spec; eauto.
    + now apply (samePaths_reach f _ b P).
    + rewrite (proj1 (proj2 P)). auto.
    + intros y Hy. destruct (Hl y (or_intror Hy)) as (j & Hj & Hyb & Spj). assert (Ny : y <> x) by (intros ->; contradiction).
      destruct (O y j Ny Hj Hyb). exists j. auto.
Qed.
Lemma codeMoveBlock_good knd E f b : wfs f -> domSpec E f -> noStatelessCalls knd f -> (cmHot E b = true -> reach f b) -> moved knd f (codeMoveBlock knd E f b).
Proof.
  intros Hf HD NC HR. unfold codeMoveBlock. assert (Id : moved knd f f) by now apply moved_refl.
  destruct (Nat.eqb_spec b (entry f)) as [|Nb]; cbn; auto. destruct (cmHot E b) eqn:Hh; cbn; auto. specialize (HR eq_refl).
  destruct (get b f) as [bk|] eqn:Eb; auto. pose proof (proj1 (proj2 (proj1 Hf))) as U. pose proof (block_NoDup f b bk U Eb) as N.
  apply moveMany_good; auto.
  - apply moveOut_NoDup. exact (NoDup_app_r _ _ N).
  - intros x Hx. apply moveOut_spec in Hx as (i & Hi & Di & M). exists i. split; [|split].
    + apply in_split in Hi as (p & q & Ei). eapply defOf_body; eauto.
    + exists bk. split; auto. apply in_or_app. right. rewrite <- Di. now apply in_map.
    + apply relaxed_spec; auto. eapply NC; eauto.
Qed.
Lemma codeMove_good knd E f : wfs f -> domSpec E f -> noStatelessCalls knd f -> (forall b, In b (map fst f) -> cmHot E b = true -> reach f b) -> moved knd f (codeMove knd E f).
Proof.
  intros Hf HD NC HR. unfold codeMove.
  assert (G : forall l g, wfs g -> samePaths f g -> noStatelessCalls knd g -> (forall b, In b l -> cmHot E b = true -> reach f b) -> moved knd g (fold_left (codeMoveBlock knd E) l g)).
  { induction l as [|b l IH]; intros g Hg P N Hl; [now apply moved_refl|]. cbn.
    assert (M : moved knd g (codeMoveBlock knd E g b)).
    { apply codeMoveBlock_good; auto; [eapply samePaths_spec; eauto|]. intros Hh. apply (samePaths_reach f g b P). apply Hl; auto using in_eq. }
    eapply moved_trans; [exact M|]. destruct M as (G1 & P1 & N1 & _). apply IH; [apply G1|exact (samePaths_trans _ _ _ P P1)|exact N1|]. intros b' Hb'. apply Hl. now right. }
  exact (G (map fst f) f Hf (samePaths_refl f) NC HR).
Qed.

(** ** CodeSink *)
Lemma movable_false knd i : isMovableExpr knd false i = true -> isMovable knd (opc i) = true.
Proof. unfold isMovableExpr, isMovable. destruct (knd (opc i)) as [| | | | |[] [] []]; cbn; congruence. Qed.
(** the first block has no predecessor *)
Definition entryNoPred (f : func) : Prop := forall b bk, get b f = Some bk -> ~ In (entry f) (succs (trm bk)).
Lemma only_pred_dom f b t : t <> entry f -> (forall k bk, get k f = Some bk -> In t (succs (trm bk)) -> k = b) -> dominates f b t.
Proof.
  intros Ne Hp l H. destruct H as [|k l bk t H Hk Ht]; [congruence|]. rewrite (Hp k bk Hk Ht) in H. right. destruct (path_hd _ _ _ H) as [l' ->]. now left.
Qed.
Section Sink.
Variables (knd : nat -> kind) (E : cmEnv) (f : func) (b x t : nat) (i : inst).
Hypothesis Hf : wfs f.
Hypothesis HD : domSpec E f.
Hypothesis Rb : reach f b.
Hypothesis Ne : t <> entry f.
Hypothesis Nbt : b <> t.
Hypothesis Hp : forall k bk, get k f = Some bk -> In t (succs (trm bk)) -> k = b.
Hypothesis Rt : reach f t.
Hypothesis Hi : defOf f x = Some i.
Hypothesis Hx : defIn f x b.
Hypothesis Hm : isMovableExpr knd false i = true.
Hypothesis Hs : sinkable E f x t = true.
Lemma sink_good : good knd f (moveInst true x t f).
Proof using All.
  pose proof (only_pred_dom f b t Ne Hp) as Dbt. destruct (reach_get f t (proj1 Hf) Rt) as [tb Htb].
  assert (Down : forall y, availOut f b y -> availIn f t y).
  { intros y (d & A & B). exists d. split; auto. split; [|exact (dominates_trans f _ _ _ B Dbt)]. intros ->.
    destruct Rt as [lt Hlt]. exact (no_mutual f b t Nbt lt Hlt Dbt B). }
  pose proof Hf as (Hw & Ss & _). pose proof Hw as (_ & U & _). destruct Hx as (bb & Hbb & Hin).
  destruct (defOf_block f x i b bb U Hi Hbb Hin) as (Di & p & q & Eb).
  refine (move_good knd f true x b t i tb Hf Hi Hx Rb Htb _ _ (movable_false knd i Hm) (fun _ => or_intror (Down x _))).
  - intros _. destruct (Ss b bb Hbb Rb) as (S1 & _). specialize (S1 p i q Eb). rewrite Forall_forall in S1 |- *.
    intros [v|n|y] Ho; cbn; auto. specialize (S1 _ Ho). cbn in S1. left. apply Down. apply (availOut_at f b bb y Hbb).
    destruct S1 as [A|[A|A]]; [now left|right; now left|]. right. right. rewrite Eb, map_app. apply in_or_app. auto.
  - intros k bk Hk R. unfold sinkable in Hs. rewrite forallb_forall in Hs. specialize (Hs (k, bk) (get_In _ _ _ Hk)). cbn [fst snd] in Hs.
    apply andb_true_iff in Hs as [H1 H2].
    assert (Dt : cmDom E t k = true -> dominates f t k) by (intros K; now apply (HD t k Rt R)).
    split; [|split].
    + intros j Hj Ho. split; [|auto]. apply orb_true_iff in H2 as [H2|H2]; auto. exfalso. apply negb_true_iff in H2. apply orb_false_iff in H2 as [H2 _].
      assert (K : existsb (fun i0 => existsb (isRes x) (ops i0)) (body bk) = true); [|congruence].
      apply existsb_exists. exists j. split; auto. apply existsb_exists. exists (ORes x). split; auto. unfold isRes. apply opnd_eqb_refl.
    + intros Ho. apply orb_true_iff in H2 as [H2|H2]; auto. exfalso. apply negb_true_iff in H2. apply orb_false_iff in H2 as [_ H2].
      assert (K : existsb (isRes x) (termOps (trm bk)) = true); [|congruence].
      apply existsb_exists. exists (ORes x). split; auto. unfold isRes. apply opnd_eqb_refl.
    + intros ph pr Hph Hin' Rp. rewrite forallb_forall in H1. specialize (H1 ph Hph). rewrite forallb_forall in H1. specialize (H1 _ Hin'). cbn [fst snd] in H1.
      unfold isRes in H1. rewrite opnd_eqb_refl in H1. cbn [negb orb] in H1. now apply (HD t pr Rt Rp).
  - exists b. split; [exists bb; auto|apply dominates_refl].
Qed.
End Sink.
Lemma succ_reach f b bk t : reach f b -> get b f = Some bk -> In t (succs (trm bk)) -> reach f t.
Proof. intros [l H] Hb Ht. exists (t :: l). eapply path_next; eauto. Qed.
Definition sameTerms (f g : func) : Prop := forall k, option_map trm (get k g) = option_map trm (get k f).
Lemma move_sameTerms front x d c f : defOf f x = Some c -> sameTerms f (moveInst front x d f).
Proof. intros Hc k. rewrite (mv_get f front x d c Hc). destruct (get k f) as [bk|]; auto. cbn. now rewrite mv_trm. Qed.
Lemma sameTerms_trans f g h : sameTerms f g -> sameTerms g h -> sameTerms f h.
Proof. intros A B k. now rewrite B, A. Qed.
Definition sunk (knd : nat -> kind) (f g : func) : Prop := good knd f g /\ samePaths f g /\ sameTerms f g /\ sameCode f g.
Lemma sunk_refl knd f : wfs f -> sunk knd f f.
Proof. intros H. split; [now apply good_refl|split; [apply samePaths_refl|split; [|apply sameCode_refl]]]. intros k. reflexivity. Qed.
Lemma sunk_trans knd f g h : sunk knd f g -> sunk knd g h -> sunk knd f h.
Proof.
  intros (A & B & C & D) (A' & B' & C' & D'). split; [|split; [eapply samePaths_trans; eauto|split; [eapply sameTerms_trans; eauto|eapply sameCode_trans; eauto]]].
  split; [eapply refines_trans; [apply A|apply A']|apply A'].
Qed.
(** the facts about the target that sinking uses *)
Definition sinkTarget (f : func) (b t : nat) : Prop :=
  reach f b /\ t <> entry f /\ b <> t /\ (forall k bk, get k f = Some bk -> In t (succs (trm bk)) -> k = b) /\ reach f t.
Lemma sinkTarget_same f g b t : samePaths f g -> sameTerms f g -> sinkTarget f b t -> sinkTarget g b t.
Proof.
  intros P T (A & B & C & D & G). unfold sinkTarget. rewrite (proj1 (proj2 P)). split; [now apply (samePaths_reach f g b P)|]. split; auto. split; auto.
  split; [|now apply (samePaths_reach f g t P)]. intros k bk Hk Ht. specialize (T k). rewrite Hk in T. cbn in T.
  destruct (get k f) as [bk1|] eqn:Ek; [|discriminate]. cbn in T. injection T as T. apply (D k bk1 Ek). now rewrite <- T.
Qed.
Lemma sinkMany_good knd E b t l : NoDup l -> forall f, wfs f -> domSpec E f -> sinkTarget f b t ->
  (forall x, In x l -> exists i, defOf f x = Some i /\ defIn f x b) -> sunk knd f (fold_left (sinkOne knd E t) l f).
Proof.
  induction 1 as [|x l Nx Nl IH]; intros f Hf HD T Hl; [now apply sunk_refl|]. cbn.
  destruct (Hl x (or_introl eq_refl)) as (i & Hi & Hx). destruct T as (Rb & Ne & Nbt & Hp & Rt).
  assert (M : sunk knd f (sinkOne knd E t f x) /\ forall y j, y <> x -> defOf f y = Some j -> defIn f y b -> defOf (sinkOne knd E t f x) y = Some j /\ defIn (sinkOne knd E t f x) y b).
  { unfold sinkOne. rewrite Hi. destruct (isMovableExpr knd false i && sinkable E f x t) eqn:C; [|split; [now apply sunk_refl|auto]].
    apply andb_true_iff in C as [C1 C2]. pose proof (sink_good knd E f b x t i Hf HD Rb Ne Nbt Hp Rt Hi Hx C1 C2) as G.
    destruct (reach_get f t (proj1 Hf) Rt) as [tb Htb].
    split; [split; [exact G|split; [exact (move_samePaths true x t i f Hi)|split; [exact (move_sameTerms true x t i f Hi)|exact (sameCode_move true x t f tb (proj1 (proj2 (proj1 Hf))) Htb)]]]|].
    intros y j Ny Hj Hy.
    exact (move_other true x t f i tb b y Hf Hi Hx Rb Htb (proj2 G) Ny j b Hj Hy). }
  destruct M as [M O]. eapply sunk_trans; [exact M|]. destruct M as (G & P & T & _). apply IH; auto.
  - apply G.
  - eapply samePaths_spec; eauto.
  - apply (sinkTarget_same f _ b t P T). repeat split; auto.
  - intros y Hy. destruct (Hl y (or_intror Hy)) as (j & Hj & Hyb). assert (Ny : y <> x) by (intros ->; contradiction). destruct (O y j Ny Hj Hyb). exists j. auto.
Qed.
Lemma codeSinkBlock_good knd E f b : wfs f -> domSpec E f -> entryNoPred f -> (cmHot E b = true -> reach f b) -> sunk knd f (codeSinkBlock knd E f b).
Proof.
  intros Hf HD EN HR. unfold codeSinkBlock. destruct (cmHot E b) eqn:Hh; cbn; [|now apply sunk_refl]. specialize (HR eq_refl).
  destruct (get b f) as [bk|] eqn:Eb; [|now apply sunk_refl]. destruct (trm bk) as [|c t e| | |] eqn:Et; try now apply sunk_refl.
  destruct (Nat.eqb_spec t e) as [|Nte]; [now apply sunk_refl|].
  assert (ST : forall z, z = t \/ z = e -> shouldMoveTo E f b z = true -> sinkTarget f b z).
  { intros z Hz H. unfold shouldMoveTo in H. apply andb_true_iff in H as [H _]. apply andb_true_iff in H as [H1 H2]. apply negb_true_iff in H1. apply Nat.eqb_neq in H1.
    assert (Hin : In z (succs (trm bk))) by (rewrite Et; cbn; destruct Hz; auto).
    split; auto. split; [intros ->; exact (EN b bk Eb Hin)|]. split; auto. split; [|eapply succ_reach; eauto].
    intros k kb Hk Hs. rewrite forallb_forall in H2. specialize (H2 (k, kb) (get_In _ _ _ Hk)). cbn in H2. apply orb_true_iff in H2 as [H2|H2].
    - apply negb_true_iff in H2. apply inb_In in Hs. congruence.
    - now apply Nat.eqb_eq. }
  pose proof (proj1 (proj2 (proj1 Hf))) as U. pose proof (NoDup_app_r _ _ (block_NoDup f b bk U Eb)) as N.
  assert (Hl : forall x, In x (map dst (body bk)) -> exists i, defOf f x = Some i /\ defIn f x b).
  { intros x Hx. apply in_map_iff in Hx as (i & Di & Hi). exists i. split.
    - apply in_split in Hi as (p & q & Ei). eapply defOf_body; eauto.
    - exists bk. split; auto. apply in_or_app. right. rewrite <- Di. now apply in_map. }
  destruct (shouldMoveTo E f b t) eqn:E1; [apply (sinkMany_good knd E b t); auto|]. destruct (shouldMoveTo E f b e) eqn:E2; [apply (sinkMany_good knd E b e); auto|].
  now apply sunk_refl.
Qed.
Lemma entryNoPred_same f g : samePaths f g -> sameTerms f g -> entryNoPred f -> entryNoPred g.
Proof.
  intros P T H b bk Hb. rewrite (proj1 (proj2 P)). specialize (T b). rewrite Hb in T. cbn in T. destruct (get b f) as [bk1|] eqn:Ek; [|discriminate].
  cbn in T. injection T as ->. eapply H; eauto.
Qed.
Lemma codeSink_good knd E f : wfs f -> domSpec E f -> entryNoPred f -> (forall b, In b (map fst f) -> cmHot E b = true -> reach f b) -> sunk knd f (codeSink knd E f).
Proof.
  intros Hf HD EN HR. unfold codeSink.
  assert (G : forall l g, wfs g -> samePaths f g -> sameTerms f g -> (forall b, In b l -> cmHot E b = true -> reach f b) -> sunk knd g (fold_left (codeSinkBlock knd E) l g)).
  { induction l as [|b l IH]; intros g Hg P T Hl; [now apply sunk_refl|]. cbn.
    assert (M : sunk knd g (codeSinkBlock knd E g b)).
    { apply codeSinkBlock_good; auto; [eapply samePaths_spec; eauto|eapply entryNoPred_same; eauto|]. intros Hh. apply (samePaths_reach f g b P). apply Hl; auto using in_eq. }
    eapply sunk_trans; [exact M|]. destruct M as (G1 & P1 & T1 & _). apply IH; [apply G1|exact (samePaths_trans _ _ _ P P1)|exact (sameTerms_trans _ _ _ T T1)|].
    intros b' Hb'. apply Hl. now right. }
  exact (G (map fst f) f Hf (samePaths_refl f) (fun k => eq_refl) HR).
Qed.
