(** C53: the simulation.  Specification and proofs only; nothing here models code of /repo. *)
From Coq Require Import ZArith Lia Bool List Arith.
From Verif Require Import Sim Ssa SsaCfg SsaMerge SsaFwd SsaFwd2 SsaWf SsaDom SsaProps SsaSub SsaVerify SsaEq SsaPhi SsaCse CodeMotion M2RRun Ifc Rec TailCall.
Import ListNotations.

(** ** an operation that can accumulate: the order and the grouping do not matter, and [id] changes no value of the return
    type *)
Definition accBy {W} (m : sem W) (rty : option value -> bool) (F : value -> value -> value) (o : nat) (id : value) : Prop :=
  (forall x y w, meaning m o [x; y] w = IOk (F x y) w) /\ visible m o = false /\
  (forall x y, F x y = F y x) /\ (forall x y z, F (F x y) z = F x (F y z)) /\
  (forall x, rty (Some x) = true -> F id x = x).
Definition accOk {W} (m : sem W) (rty : option value -> bool) (o : nat) (id : value) : Prop := exists F, accBy m rty F o id.
(** the select at the return type *)
Definition selOk {W} (m : sem W) (osel : nat) : Prop :=
  visible m osel = false /\
  forall c x y w, meaning m osel [VInt c; x; y] w = IOk (if Z.eqb c 0 then y else x) w.

Section Elim.
Context {W : Type} (m : sem W).
Variables (slf nargs osel : nat) (rty : option value -> bool).
Hypothesis Hrty : forall x, rty None = true -> rty (Some x) = true -> False.
Hypothesis Hsel : selOk m osel.
Variable f : func.
Hypothesis Wf : wfs f.
Hypothesis ENP : entryNoPred f.
Variables (k : nat) (bk : block) (pre post : list inst) (c : inst) (md : mode).
Hypothesis Hk : get k f = Some bk.
Hypothesis Hke : k <> entry f.
Hypothesis Hbody : body bk = pre ++ c :: post.
Hypothesis Hc : opc c = slf.
Variable F : value -> value -> value.
Definition modeOk : Prop :=
  match md with
  | MRet => post = [] /\ (trm bk = TRet None \/ trm bk = TRet (Some (ORes (dst c))))
  | MAcc a id => post = [a] /\ opc a <> slf /\ accBy m rty F (opc a) id /\ trm bk = TRet (Some (ORes (dst a))) /\
      exists o, (ops a = [ORes (dst c); o] \/ ops a = [o; ORes (dst c)]) /\ o <> ORes (dst c)
  | MSel o => post = [] /\ trm bk = TRet (Some o) /\ o <> ORes (dst c)
  end.
Hypothesis Hmd : modeOk.
Hypothesis Hvoid : match md with MRet => True | _ => forall b bb, get b f = Some bb -> trm bb <> TRet None end.
Hypothesis Hslo : match md with MSel _ => osel <> slf | _ => True end.

Let base := freshBase f.
Let N := freshBlock f.
Let h := entry f.
Let g := elimTo nargs osel f k pre c md.
Let sg := sig nargs base.
Let aN := accN nargs base.
Let tB := tceBlock nargs osel base N h k c md pre.
Let tl := tailInsts nargs osel base c md.

Lemma fresh_notin b bb : get b f = Some bb -> b <> N.
Proof.
  intros H E. apply get_In in H. apply (in_map fst) in H. cbn in H.
  pose proof (proj1 (list_max_le (map fst f) _) (Nat.le_refl _)) as K. rewrite Forall_forall in K. specialize (K b H).
  subst b. unfold N, freshBlock in K. lia.
Qed.
Lemma get_g b bb : get b f = Some bb -> get b g = Some (tB b bb).
Proof.
  intros H. unfold g, elimTo. fold base N h. cbn [get].
  destruct (Nat.eqb_spec N b) as [E|_]; [destruct (fresh_notin b bb H (eq_sym E))|].
  etransitivity; [exact (get_mapk tB b f)|]. now rewrite H.
Qed.
Lemma get_gN : get N g = Some (Block [] [] (TBr h)).
Proof. unfold g, elimTo. fold base N h. cbn [get]. now rewrite Nat.eqb_refl. Qed.
Lemma entry_g : entry g = N.
Proof. reflexivity. Qed.
Lemma dst_lt b bb i : get b f = Some bb -> In i (body bb) -> dst i < base.
Proof.
  intros H Hi. apply freshBase_res. unfold allResults. apply in_flat_map. exists (b, bb). split; [now apply get_In|].
  unfold resultsOf. apply in_or_app. right. now apply in_map.
Qed.
Lemma pdst_lt b bb x : get b f = Some bb -> In x (map pdst (phis bb)) -> x < base.
Proof.
  intros H Hi. apply freshBase_res. unfold allResults. apply in_flat_map. exists (b, bb). split; [now apply get_In|].
  unfold resultsOf. apply in_or_app. now left.
Qed.
Lemma dc_lt : dst c < base.
Proof. eapply dst_lt; [exact Hk|]. rewrite Hbody. apply in_or_app. right. now left. Qed.

(** *** what a tail iteration keeps *)
(** the other operand *)
Definition other : opnd :=
  match md with
  | MRet => OCst VUndef
  | MAcc a _ => match ops a with [x; y] => if isRes (dst c) x then y else x | _ => OCst VUndef end
  | MSel o => o
  end.

Definition foldA (id : value) (ys : list value) : value := fold_right (fun y A => F A y) id ys.
(** what the phis of the header hold *)
Definition MI (ys : list value) (e : env) : Prop :=
  match md with
  | MRet => True
  | MAcc _ id => e aN = Some (foldA id ys)
  | MSel _ => e aN = Some (last ys VUndef) /\ e (aN + 1) = Some (VInt (match ys with [] => 0 | _ => 1 end))
  end.
(** what is returned when the innermost call returns [v] *)
Definition finR (ys : list value) (v : option value) : option value :=
  match md, v with
  | MAcc _ id, Some x => Some (F (foldA id ys) x)
  | MSel _, Some x => Some (last ys x)
  | _, _ => v
  end.
Definition relE (ys : list value) (e e' : env) (a a' : list value) : Prop :=
  (forall x v, e x = Some v -> x < base /\ e' x = Some v) /\
  (forall i, i < nargs -> e' (base + i) = Some (argsOf a i)) /\ length a = nargs /\ length a' = nargs /\ MI ys e'.
Definition cut (b : nat) : list inst := if Nat.eqb b k then c :: post else [].
Definition tail (b : nat) (bb : block) : list inst := if Nat.eqb b k then tl else leafTail nargs osel base c md b bb.
Definition relF (ys : list value) (A B : frame) : Prop :=
  exists bb p r, get (fb A) f = Some bb /\ fb B = fb A /\ reach f (fb A) /\ body bb = p ++ r ++ cut (fb A) /\
    fr A = r ++ cut (fb A) /\ fr B = map (mapInst sg) r ++ tail (fb A) bb /\ definedAt f (fb A) bb p (fe A) /\
    relE ys (fe A) (fe B) (fa A) (fa B).
(** a call that waits for a tail call *)
Definition pend (y : value) (A : frame) : Prop :=
  fb A = k /\ fr A = post /\ rd (argsOf (fa A)) (fe A) other = Some y.
Definition retF (A : frame) (d : nat) (v : value) : frame := Fr (fb A) (upd (fe A) d v) (fa A) (fr A).
Inductive relK : list value -> list (nat * frame) -> list (nat * frame) -> Prop :=
| K_pend y ys A S S' : pend y A -> relK ys S S' -> relK (y :: ys) ((dst c, A) :: S) S'
| K_nil : relK [] [] []
| K_frame ys d A B S S' : d < base -> (forall v, relF ys (retF A d v) (retF B d v)) -> relK ys S S' ->
    relK [] ((d, A) :: S) ((d, B) :: S').
Inductive relM : rst W -> rst W -> Prop :=
| M_boot vs w : relM (Boot vs w) (Boot vs w)
| M_run ys A B S S' w : relF ys A B -> relK ys S S' -> relM (Running (Cf A S w)) (Running (Cf B S' w)).

Lemma relE_upd ys e e' a a' x v : x < base -> relE ys e e' a a' -> relE ys (upd e x v) (upd e' x v) a a'.
Proof.
  intros L (R1 & R2 & R3 & R4 & R5). split; [|split; [|split; [|split]]]; auto.
  - intros y u H. unfold upd in *. destruct (Nat.eqb_spec y x) as [E|D]; [split; [congruence|exact H]|auto].
  - intros i Hi. unfold upd. destruct (Nat.eqb_spec (base + i) x) as [E|D]; [clear - L E; exfalso; lia|auto].
  - unfold MI in *. assert (A0 : aN <> x) by (unfold aN, accN; clear - L; lia). assert (A1 : aN + 1 <> x) by (unfold aN, accN; clear - L; lia).
    destruct md; auto; unfold upd; destruct (Nat.eqb_spec aN x); try congruence; auto.
    destruct (Nat.eqb_spec (aN + 1) x); try congruence; auto.
Qed.
Lemma rd_rel ys e e' a a' o v : relE ys e e' a a' -> rd (argsOf a) e o = Some v -> rd (argsOf a') e' (sg o) = Some v.
Proof.
  intros (R1 & R2 & R3 & R4 & _) H. destruct o as [u|i|x]; cbn [rd] in *; auto.
  - unfold sg, sig. destruct (Nat.ltb_spec i nargs) as [L|L]; cbn [rd].
    + rewrite R2 by auto. exact H.
    + rewrite <- H. unfold argsOf. rewrite !nth_overflow; auto; [rewrite R3|rewrite R4]; exact L.
  - apply (R1 x v H).
Qed.
Lemma rds_rel ys e e' a a' l vs : relE ys e e' a a' -> rds (argsOf a) e l = Some vs -> rds (argsOf a') e' (map sg l) = Some vs.
Proof.
  intros R. revert vs. induction l as [|o l IH]; cbn; intros vs H; auto.
  destruct (rd (argsOf a) e o) as [v|] eqn:E; try discriminate. destruct (rds (argsOf a) e l) as [us|]; try discriminate.
  rewrite (rd_rel _ _ _ _ _ _ _ R E), (IH us eq_refl). exact H.
Qed.
Lemma rdPhis_rel ys e e' a a' p l vs : relE ys e e' a a' -> rdPhis (argsOf a) e p l = Some vs ->
  rdPhis (argsOf a') e' p (map (mapPhi (fun _ => sg)) l) = Some vs.
Proof.
  intros R. revert vs. induction l as [|ph l IH]; cbn; intros vs H; auto.
  rewrite (get_mapk (fun _ o => sg o)). destruct (get p (inc ph)) as [o|]; try discriminate. cbn.
  destruct (rd (argsOf a) e o) as [v|] eqn:E; try discriminate. destruct (rdPhis (argsOf a) e p l) as [us|]; try discriminate.
  rewrite (rd_rel _ _ _ _ _ _ _ R E), (IH us eq_refl). exact H.
Qed.
Lemma runTerm_rel ys e e' a a' t : relE ys e e' a a' -> runTerm (argsOf a) e t <> TBad ->
  runTerm (argsOf a') e' (mapTerm sg t) = runTerm (argsOf a) e t.
Proof.
  intros R H. destruct t as [b|o x y|o cs d|[o|]|]; cbn in *; auto.
  - destruct (rd (argsOf a) e o) as [v|] eqn:E; [|congruence]. now rewrite (rd_rel _ _ _ _ _ _ _ R E).
  - destruct (rd (argsOf a) e o) as [v|] eqn:E; [|congruence]. now rewrite (rd_rel _ _ _ _ _ _ _ R E).
  - destruct (rd (argsOf a) e o) as [v|] eqn:E; [|congruence]. now rewrite (rd_rel _ _ _ _ _ _ _ R E).
Qed.
Lemma relE_updAll ys vs : forall e e' a a', Forall (fun x => fst x < base) vs -> relE ys e e' a a' ->
  relE ys (updAll e vs) (updAll e' vs) a a'.
Proof.
  induction vs as [|[x v] vs IH]; intros e e' a a' H R; [exact R|]. inversion H; subst. cbn. apply IH; auto. apply relE_upd; auto.
Qed.

(** *** entering the header *)
Lemma rd_argPhis (P : nat -> phi) (V : nat -> value) a e p l :
  (forall i, In i l -> pdst (P i) = base + i /\ exists o, get p (inc (P i)) = Some o /\ rd a e o = Some (V i)) ->
  rdPhis a e p (map P l) = Some (map (fun i => (base + i, V i)) l).
Proof.
  induction l as [|i l IH]; intros H; [reflexivity|]. cbn [map rdPhis].
  destruct (H i (or_introl eq_refl)) as (E & o & -> & ->). rewrite IH by (intros j Hj; apply H; now right). now rewrite E.
Qed.
Lemma updAll_args (V : nat -> value) l : forall e i, In i l -> updAll e (map (fun j => (base + j, V j)) l) (base + i) = Some (V i).
Proof.
  induction l as [|j l IH]; intros e i H; [destruct H|]. cbn.
  destruct (in_dec Nat.eq_dec i l) as [Hi|Hn]; [now apply IH|].
  destruct H as [E|H]; [|tauto]. rewrite E.
  change (updAll (upd e (base + i) (V i)) (map (fun j0 => (base + j0, V j0)) l) (base + i) = Some (V i)). rewrite updAll_ne; [apply upd_eq|].
  rewrite map_map. intros K. apply in_map_iff in K as (j0 & E0 & Hj). cbn in E0. apply Hn. assert (j0 = i) as <- by (clear - E0; lia). exact Hj.
Qed.
Lemma h_block : exists eb, get h f = Some eb /\ phis eb = [] /\ reach f h.
Proof.
  destruct Wf as ((Hne & _) & _ & Hp). destruct (get h f) as [eb|] eqn:E.
  - exists eb. split; auto. split; [now apply Hp|]. exists [h]. apply path_entry.
  - exfalso. apply get_None in E. apply E. unfold h. destruct f as [|[b x] l]; [congruence|now left].
Qed.
Lemma availIn_h x : ~ availIn f h x.
Proof.
  intros (d & _ & Nd & Hd). specialize (Hd [h] (path_entry f)). destruct Hd as [E|[]]. congruence.
Qed.
Lemma enterH p e' a' vs S' (w : W) ys eb xv : get h f = Some eb -> phis eb = [] -> length vs = nargs -> length a' = nargs ->
  rdPhis (argsOf a') e' p (argPhis nargs base N k c) = Some (map (fun i => (base + i, argsOf vs i)) (seq 0 nargs)) ->
  rdPhis (argsOf a') e' p (resPhis nargs base N k md) = Some xv -> (forall x, In x (map fst xv) -> aN <= x) ->
  (forall e0, MI ys (updAll e0 xv)) ->
  exists B, goTo g p e' a' h S' w = Go (Cf B S' w) [] /\ relF ys (Fr h (fun _ => None) vs (body eb)) B.
Proof.
  intros Gh Ph Lv La E1 E2 Hx HM.
  set (e1 := updAll e' (map (fun i => (base + i, argsOf vs i)) (seq 0 nargs) ++ xv)).
  exists (Fr h e1 a' (body (tB h eb))). split.
  - unfold goTo. rewrite (get_g h eb Gh). cbn [enter phis tceBlock tB]. rewrite Ph, Nat.eqb_refl. cbn [map]. rewrite app_nil_r.
    unfold tB, tceBlock. cbn [phis]. rewrite Ph, Nat.eqb_refl. cbn [map]. rewrite app_nil_r, rdPhis_app, E1, E2. reflexivity.
  - destruct h_block as (eb' & Gh' & _ & Rh). assert (eb' = eb) as -> by congruence.
    assert (Hkh : Nat.eqb h k = false) by (apply Nat.eqb_neq; intros E; apply Hke; now rewrite <- E).
    exists eb, [], (body eb). cbn [fb fe fa fr]. unfold cut, tail. rewrite Hkh, app_nil_r. cbn [app].
    split; auto. split; auto. split; auto. split; auto. split; auto. split; [|split; [|split; [|split; [|split; [|split]]]]]; auto.
    + unfold tB, tceBlock. cbn [body]. rewrite Hkh. reflexivity.
    + intros x [H|[H|H]]; [destruct (availIn_h x H)| |destruct H]. rewrite Ph in H. destruct H.
    + intros x v H. discriminate.
    + intros i Hi. unfold e1. rewrite updAll_app, updAll_ne; [|intros K; apply Hx in K; unfold aN, accN in K; clear - K Hi; lia].
      apply updAll_args. apply in_seq. clear - Hi. lia.
    + unfold e1. rewrite updAll_app. apply HM.
Qed.
Lemma callF_f vs S (w : W) eb : get h f = Some eb -> phis eb = [] -> length vs = nargs ->
  callF nargs f vs S w = Go (Cf (Fr h (fun _ => None) vs (body eb)) S w) [].
Proof. intros Gh Ph L. unfold callF. rewrite L, Nat.eqb_refl. fold h. rewrite Gh, Ph. reflexivity. Qed.
(** the new function takes two steps to get to the header *)
Lemma call_g vs S' (w : W) : length vs = nargs -> exists eb B, get h f = Some eb /\ phis eb = [] /\
  callF nargs g vs S' w = Go (Cf (Fr N (fun _ => None) vs []) S' w) [] /\
  rstep m slf nargs rty g (Cf (Fr N (fun _ => None) vs []) S' w) = Go (Cf B S' w) [] /\
  relF [] (Fr h (fun _ => None) vs (body eb)) B.
Proof.
  intros L. destruct h_block as (eb & Gh & Ph & Rh).
  assert (HN : N <> k) by (intros E; exact (fresh_notin k bk Hk (eq_sym E))).
  assert (X : exists xv, rdPhis (argsOf vs) (fun _ => None) N (resPhis nargs base N k md) = Some xv /\
    (forall x, In x (map fst xv) -> aN <= x) /\ (forall e0, MI [] (updAll e0 xv))).
  { unfold resPhis, MI. destruct md as [|a id|o]; cbn [rdPhis get inc pdst rd]; rewrite ?Nat.eqb_refl; eexists; (split; [reflexivity|]); cbn [map fst].
    - split; [intros x []|intros e0; exact I].
    - split; [intros x [E|[]]; unfold aN; rewrite E; auto|]. intros e0. unfold aN. cbn. unfold upd. now rewrite Nat.eqb_refl.
    - split; [intros x [E|[E|[]]]; unfold aN; rewrite <- E; clear; lia|]. intros e0. unfold updAll. cbn [fold_left fst snd].
      split; [rewrite upd_ne by (unfold aN; clear; lia)|]; apply upd_eq. }
  destruct X as (xv & X1 & X2 & X3).
  destruct (enterH N (fun _ => None) vs vs S' w [] eb xv Gh Ph L L) as (B & G1 & G2); auto.
  { unfold argPhis. apply rd_argPhis. intros i _. cbn [pdst inc get]. rewrite Nat.eqb_refl. split; [reflexivity|]. exists (OArg i). split; reflexivity. }
  exists eb, B. split; [auto|]. split; [auto|]. split; [|split; [|exact G2]].
  - unfold callF. rewrite L, Nat.eqb_refl. rewrite entry_g, get_gN. reflexivity.
  - unfold rstep. cbn [top fr fb fe fa stk cw]. rewrite get_gN. cbn [trm runTerm]. exact G1.
Qed.

(** *** a tail call *)
Lemma rds_nth a e l vs : rds a e l = Some vs -> length vs = length l /\
  forall i, i < length l -> rd a e (nth i l (OCst VUndef)) = Some (nth i vs VUndef).
Proof.
  revert vs. induction l as [|o l IH]; cbn; intros vs H; [injection H as <-; split; auto; intros i Hi; exfalso; clear - Hi; lia|].
  destruct (rd a e o) as [v|] eqn:E; try discriminate. destruct (rds a e l) as [us|] eqn:E2; try discriminate. injection H as <-.
  destruct (IH us eq_refl) as [L K]. cbn. split; [now rewrite L|]. intros [|i] Hi; auto. apply K. clear - Hi. lia.
Qed.
Lemma k_ssa : reach f k -> Forall (opAvail (availAt f k bk pre)) (ops c) /\ opAvail (availAt f k bk pre) other.
Proof.
  intros R. destruct Wf as (_ & Hs & _). destruct (Hs k bk Hk R) as (S1 & S2 & _). split; [exact (S1 pre c post Hbody)|].
  assert (X : forall o, o <> ORes (dst c) -> opAvail (availAt f k bk (pre ++ [c])) o -> opAvail (availAt f k bk pre) o).
  { intros o Ho. destruct o as [v|n|x]; cbn; auto. intros [H|[H|H]]; [now left|right; now left|]. rewrite map_app in H. apply in_app_or in H as [H|[H|[]]].
    - right. now right.
    - exfalso. apply Ho. now f_equal. }
  pose proof Hmd as M. unfold modeOk in M. unfold other. destruct md as [|a id|o].
  - exact I.
  - destruct M as (Ep & _ & _ & _ & o & Eo & No). specialize (S1 (pre ++ [c]) a []). rewrite Hbody, Ep, <- app_assoc in S1. specialize (S1 eq_refl).
    rewrite Forall_forall in S1. unfold isRes. destruct Eo as [Eo|Eo]; rewrite Eo in *.
    + destruct (opnd_eqb_spec (ORes (dst c)) (ORes (dst c))) as [_|D]; [|congruence]. apply X; auto. apply S1. right. now left.
    + destruct (opnd_eqb_spec o (ORes (dst c))) as [E|_]; [congruence|]. apply X; auto. apply S1. now left.
  - destruct M as (Ep & Et & No). rewrite Et, Hbody, Ep in S2. cbn in S2. inversion S2; subst. apply X; auto.
Qed.
Lemma avail_ne a x : post = [a] -> availAt f k bk pre x -> x <> dst a.
Proof.
  intros Ep H E. destruct Wf as ((_ & U & _) & _). assert (Da : defIn f (dst a) k).
  { exists bk. split; auto. unfold resultsOf. apply in_or_app. right. rewrite Hbody, Ep, map_app. apply in_or_app. right. cbn. auto. }
  rewrite <- E in Da. destruct H as [(d & Hd & Nd & _)|H].
  - apply Nd. eapply defIn_unique; eauto.
  - pose proof (block_NoDup f k bk U Hk) as ND. unfold resultsOf in ND. rewrite Hbody, Ep, map_app in ND. cbn [map] in ND.
    rewrite app_assoc in ND. apply (NoDup_app_disj _ _ ND x); [apply in_or_app; exact H|]. right. left. now symmetry.
Qed.
Lemma tail_iter ys A B vs S' (w : W) : relF ys A B -> fb A = k -> fr A = c :: post ->
  rds (argsOf (fa A)) (fe A) (ops c) = Some vs -> length vs = nargs ->
  exists n y eb B2, 1 <= n /\ get h f = Some eb /\ phis eb = [] /\
    run (rstep m slf nargs rty g) n (Cf B S' w) = Go (Cf B2 S' w) [] /\
    relF (y :: ys) (Fr h (fun _ => None) vs (body eb)) B2 /\ pend y (Fr (fb A) (fe A) (fa A) post).
Proof.
  intros (bb & p & r & Gb & Fb & R & Bb & FA & FB & D & RE) Ek EA Er L. rewrite Ek in *. assert (bb = bk) as E0 by congruence. rewrite E0 in *. clear E0 bb.
  unfold cut in FA, Bb. rewrite Nat.eqb_refl in FA, Bb. rewrite EA in FA.
  assert (r = []) as E0.
  { destruct r as [|i r]; auto. exfalso. apply (f_equal (@length inst)) in FA. rewrite app_length in FA. cbn in FA. clear - FA. lia. }
  rewrite E0 in *. clear E0 r FA. cbn [app] in Bb. rewrite Hbody in Bb. apply app_inv_tail in Bb. rewrite <- Bb in D.
  unfold tail in FB. rewrite Nat.eqb_refl in FB. cbn [map app] in FB. destruct (k_ssa R) as [Ac Ao].
  destruct h_block as (eb & Gh & Ph & Rh).
  assert (Hy : exists y, rd (argsOf (fa A)) (fe A) other = Some y).
  { destruct other as [v|n|x]; cbn in *; eauto. specialize (D x Ao). destruct (fe A x); eauto. congruence. }
  destruct Hy as [y Hy]. pose proof RE as (R1 & R2 & R3 & R4 & R5).
  pose proof (rds_rel _ _ _ _ _ _ _ RE Er) as Er'. pose proof (rd_rel _ _ _ _ _ _ _ RE Hy) as Hy'.
  destruct (rds_nth _ _ _ _ Er) as [Lv Rv].
  (** the last step *)
  assert (Hlast : forall e2 xv, (forall x, availAt f k bk pre x -> e2 x = fe B x) -> (forall i, i < nargs -> e2 (base + i) = fe B (base + i)) ->
    rdPhis (argsOf (fa B)) e2 k (resPhis nargs base N k md) = Some xv -> (forall x, In x (map fst xv) -> aN <= x) ->
    (forall e0, MI (y :: ys) (updAll e0 xv)) ->
    exists B2, rstep m slf nargs rty g (Cf (Fr k e2 (fa B) []) S' w) = Go (Cf B2 S' w) [] /\ relF (y :: ys) (Fr h (fun _ => None) vs (body eb)) B2).
  { intros e2 xv K1 K2 K3 K4 K5.
    destruct (enterH k e2 (fa B) vs S' w (y :: ys) eb xv Gh Ph L R4) as (B2 & G1 & G2); auto.
    - unfold argPhis. apply rd_argPhis. intros i Hi. apply in_seq in Hi. cbn [pdst inc get]. split; [reflexivity|].
      destruct (Nat.eqb_spec N k) as [E|_]; [destruct (fresh_notin k bk Hk (eq_sym E))|]. rewrite Nat.eqb_refl. eexists. split; [reflexivity|].
      assert (Li : i < length (ops c)) by (rewrite <- Lv, L; clear - Hi; lia). specialize (Rv i Li).
      assert (Oi : opAvail (availAt f k bk pre) (nth i (ops c) (OCst VUndef))) by (rewrite Forall_forall in Ac; apply Ac; now apply nth_In).
      pose proof (rd_rel _ _ _ _ _ _ _ RE Rv) as Q. fold sg. unfold argsOf at 2. rewrite <- Q. clear Q.
      destruct (nth i (ops c) (OCst VUndef)) as [v|n|x]; [reflexivity| |cbn; apply K1; exact Oi].
      unfold sg, sig. destruct (Nat.ltb_spec n nargs) as [Ln|Ln]; cbn [rd]; auto.
    - exists B2. split; auto. unfold rstep. cbn [top fr fb fe fa stk cw]. rewrite (get_g k bk Hk). unfold tB, tceBlock. cbn [trm]. rewrite Nat.eqb_refl. cbn [runTerm]. exact G1. }
  assert (EB : B = Fr k (fe B) (fa B) tl) by (rewrite <- FB, <- Fb; now destruct B).
  assert (HN : Nat.eqb N k = false) by (apply Nat.eqb_neq; intros E; exact (fresh_notin k bk Hk (eq_sym E))).
  assert (HP : pend y (Fr k (fe A) (fa A) post)) by (split; [reflexivity|]; split; [reflexivity|exact Hy]).
  pose proof Hmd as M. pose proof Hslo as Hso. unfold modeOk in M. unfold tl, tailInsts in EB. unfold resPhis, MI in Hlast. unfold MI in R5. unfold other in Hy'.
  destruct md as [|a id|o] eqn:Emd in M, Hso, EB, Hlast, R5, Hy'.
  - destruct (Hlast (fe B) []) as (B2 & G1 & G2); auto; [intros x []|].
    exists 1, y, eb, B2. rewrite EB. cbn [run]. rewrite G1. split; [auto|]. split; [auto|]. split; [auto|]. split; [reflexivity|]. split; [exact G2|exact HP].
  - destruct M as (Ep & Na & (HF & Vis & Cm & As & Hid) & Et & o & Eo & No).
    assert (Ers : rds (argsOf (fa B)) (fe B) (map (fun x => if isRes (dst c) x then ORes (accN nargs base) else sig nargs base x) (ops a)) =
      Some (match ops a with [x; _] => if isRes (dst c) x then [foldA id ys; y] else [y; foldA id ys] | _ => [] end)).
    { unfold isRes in *. destruct Eo as [Eo|Eo]; rewrite Eo in *; cbn [map rds].
      - destruct (opnd_eqb_spec (ORes (dst c)) (ORes (dst c))) as [_|X]; [|congruence].
        destruct (opnd_eqb_spec o (ORes (dst c))) as [E|_]; [congruence|]. cbn [rd]. fold aN sg. rewrite R5, Hy'. reflexivity.
      - destruct (opnd_eqb_spec (ORes (dst c)) (ORes (dst c))) as [_|X]; [|congruence].
        destruct (opnd_eqb_spec o (ORes (dst c))) as [E|_]; [congruence|]. cbn [rd]. fold aN sg. rewrite R5, Hy'. reflexivity. }
    destruct (Hlast (upd (fe B) (dst a) (F (foldA id ys) y)) [(accN nargs base, F (foldA id ys) y)]) as (B2 & G1 & G2).
    + intros x Hx. apply upd_ne. now apply (avail_ne a).
    + intros i Hi. apply upd_ne. assert (Q : dst a < base) by (eapply dst_lt; [exact Hk|]; rewrite Hbody, Ep; apply in_or_app; right; right; now left). clear - Q. lia.
    + cbn [rdPhis inc get pdst rd]. rewrite HN, Nat.eqb_refl. cbn [rd pdst]. rewrite upd_eq. reflexivity.
    + intros x [E|[]]. unfold aN. rewrite <- E. auto.
    + intros e0. unfold updAll. cbn [fold_left fst snd]. unfold aN. rewrite upd_eq. reflexivity.
    + exists 2, y, eb, B2. split; [auto|]. split; [auto|]. split; [auto|]. split; [|split; auto].
      rewrite EB. cbn [run]. unfold rstep at 1. cbn [top fr fb fe fa stk cw opc ops dst]. rewrite Ers.
      destruct (Nat.eqb_spec (opc a) slf) as [E|_]; [congruence|].
      assert (E3 : meaning m (opc a) (match ops a with [x; _] => if isRes (dst c) x then [foldA id ys; y] else [y; foldA id ys] | _ => [] end) w = IOk (F (foldA id ys) y) w).
      { destruct Eo as [Eo|Eo]; rewrite Eo; destruct (isRes (dst c) _); rewrite HF; auto; now rewrite Cm. }
      rewrite E3. unfold evt. rewrite Vis. cbn [Sim.pre]. rewrite G1. reflexivity.
  - destruct M as (Ep & Et & No). destruct Hsel as [Vis HS]. destruct R5 as [R5 R6].
    set (v2 := match ys with [] => y | _ => last ys VUndef end).
    destruct (Hlast (upd (fe B) (accN nargs base + 2) v2) [(accN nargs base, v2); (accN nargs base + 1, VInt 1)]) as (B2 & G1 & G2).
    + intros x Hx. apply upd_ne. specialize (D x Hx). destruct (fe A x) as [v|] eqn:Ex; [|congruence]. destruct (R1 x v Ex) as [Q _].
      unfold accN. clear - Q. lia.
    + intros i Hi. apply upd_ne. unfold accN. clear - Hi. lia.
    + cbn [rdPhis inc get pdst rd]. rewrite HN, Nat.eqb_refl. cbn [rd pdst]. rewrite upd_eq. reflexivity.
    + intros x [E|[E|[]]]; unfold aN; cbn [fst] in E; rewrite <- E; clear; lia.
    + intros e0. unfold updAll. cbn [fold_left fst snd]. unfold aN. split; [|apply upd_eq]. rewrite upd_ne by (clear; lia). rewrite upd_eq. reflexivity.
    + exists 2, y, eb, B2. split; [auto|]. split; [auto|]. split; [auto|]. split; [|split; auto].
      rewrite EB. cbn [run]. unfold rstep at 1. cbn [top fr fb fe fa stk cw opc ops dst]. cbn [rds rd]. fold aN sg. rewrite R5, R6, Hy'.
      destruct (Nat.eqb_spec osel slf) as [E|_]; [congruence|]. rewrite HS. unfold evt. rewrite Vis.
      assert (E3 : (if Z.eqb (match ys with [] => 0 | _ => 1 end) 0 then y else last ys VUndef) = v2) by (unfold v2; destruct ys; reflexivity).
      rewrite E3. cbn [Sim.pre]. fold aN in G1. rewrite G1. reflexivity.
Qed.

(** *** a return *)
Let stf := rstep m slf nargs rty f.
Let stg := rstep m slf nargs rty g.
Definition cont (n : nat) (r : rres (W:=W)) : rres (W:=W) := match r with Go s t => Sim.pre t (run stf n s) | Fin x t => Fin x t | Bad t => Bad t end.
Lemma run_S n s : run stf (S n) s = cont n (stf s).
Proof. cbn. destruct (stf s); reflexivity. Qed.
Lemma last_cons (y x : value) ys : last (y :: ys) x = last ys y.
Proof. revert y x. induction ys as [|z ys IH]; intros y x; [reflexivity|]. change (last (y :: z :: ys) x) with (last (z :: ys) x). now rewrite !IH. Qed.
Lemma unwind ys S S' : relK ys S S' -> forall v (w : W), rty v = true -> match md with MRet => True | _ => v <> None end ->
  (forall n t, cont n (retTo rty S v w) <> Bad t) ->
  exists n S0, relK [] S0 S' /\ rty (finR ys v) = true /\ cont n (retTo rty S v w) = retTo rty S0 (finR ys v) w.
Proof.
  induction 1 as [y ys A S S' HP HK IH| |ys d A B S S' L HF HK IH]; intros v w Hv Hn NB.
  2, 3: assert (E0 : finR [] v = v) by (pose proof Hmd as M; unfold modeOk in M; unfold finR; destruct md as [|a id|o] eqn:Emd in M |- *; auto; destruct v as [x|]; auto;
      destruct M as (_ & _ & (_ & _ & _ & _ & Hid) & _); cbn; now rewrite (Hid x Hv)).
  2: { exists 0, []. split; [constructor|]. rewrite E0. split; auto. unfold retTo. rewrite Hv. reflexivity. }
  2: { exists 0, ((d, A) :: S). split; [econstructor; eauto|]. rewrite E0. split; auto. unfold retTo. rewrite Hv. reflexivity. }
  clear HK. destruct HP as (P1 & P2 & P3).
  set (xv := match v with Some x => x | None => VUndef end).
  assert (E1 : retTo rty ((dst c, A) :: S) v w = Go (Cf (Fr k (upd (fe A) (dst c) xv) (fa A) post) S w) []).
  { unfold retTo. rewrite Hv, P1, P2. reflexivity. }
  rewrite E1 in *.
  (** the rest of the block returns [v2] *)
  assert (X : forall j v2, (forall n, run stf (j + n) (Cf (Fr k (upd (fe A) (dst c) xv) (fa A) post) S w) = cont n (retTo rty S v2 w)) ->
    match md with MRet => True | _ => v2 <> None end -> (rty v2 = true -> finR ys v2 = finR (y :: ys) v) ->
    exists n S0, relK [] S0 S' /\ rty (finR (y :: ys) v) = true /\
      cont n (Go (Cf (Fr k (upd (fe A) (dst c) xv) (fa A) post) S w) []) = retTo rty S0 (finR (y :: ys) v) w).
  { intros j v2 Hj Hn2 Hfin.
    assert (Hv2 : rty v2 = true).
    { destruct (rty v2) eqn:E; auto. exfalso. apply (NB (j + 0) []). cbn [cont]. rewrite Hj. unfold retTo. rewrite E. reflexivity. }
    destruct (IH v2 w Hv2 Hn2) as (n & S0 & K1 & K2 & K3).
    { intros n t K. apply (NB (j + n) t). cbn [cont]. rewrite Hj, K. reflexivity. }
    exists (j + n), S0. rewrite <- (Hfin Hv2). split; auto. split; auto. cbn [cont]. rewrite Hj, pre_nil. exact K3. }
  assert (P4 : other <> ORes (dst c) -> rd (argsOf (fa A)) (upd (fe A) (dst c) xv) other = Some y).
  { intros No. rewrite <- P3. destruct other as [u|i|x]; auto. cbn. apply upd_ne. congruence. }
  pose proof Hmd as M. unfold modeOk in M. unfold other in P4. unfold finR in X |- *.
  destruct md as [|a id|o] eqn:Emd in M, P4, X, Hn |- *.
  - destruct M as [Ep [Et|Et]]; rewrite Ep in *.
    + apply (X 1 None); auto.
      * intros n. rewrite run_S. f_equal. unfold stf, rstep. cbn [top fr fb fe fa stk cw]. rewrite Hk, Et. reflexivity.
      * intros R. destruct v as [x|]; auto. destruct (Hrty x R Hv).
    + apply (X 1 (Some xv)); auto.
      * intros n. rewrite run_S. f_equal. unfold stf, rstep. cbn [top fr fb fe fa stk cw]. rewrite Hk, Et. cbn [runTerm rd]. rewrite upd_eq. reflexivity.
      * intros R. unfold xv in *. destruct v as [x|]; auto. destruct (Hrty VUndef Hv R).
  - destruct M as (Ep & Na & (HF & Vis & Cm & As & Hid) & Et & o & Eo & No). rewrite Ep in *. destruct v as [x|]; [|congruence]. unfold xv in *.
    apply (X 2 (Some (F y x))); auto; [|discriminate|].
    + intros n. change (2 + n) with (Datatypes.S (1 + n)). rewrite run_S. unfold stf at 1. unfold rstep. cbn [top fr fb fe fa stk cw].
      assert (Ers : rds (argsOf (fa A)) (upd (fe A) (dst c) x) (ops a) = Some (match ops a with [z; _] => if isRes (dst c) z then [x; y] else [y; x] | _ => [] end)).
      { unfold isRes in *. destruct Eo as [Eo|Eo]; rewrite Eo in *; cbn [rds].
        - destruct (opnd_eqb_spec (ORes (dst c)) (ORes (dst c))) as [_|Q]; [|congruence]. rewrite (P4 No). cbn [rd]. rewrite upd_eq. reflexivity.
        - destruct (opnd_eqb_spec o (ORes (dst c))) as [E|_]; [congruence|]. rewrite (P4 No). cbn [rd]. rewrite upd_eq. reflexivity. }
      rewrite Ers. destruct (Nat.eqb_spec (opc a) slf) as [E|_]; [congruence|].
      assert (E3 : meaning m (opc a) (match ops a with [z; _] => if isRes (dst c) z then [x; y] else [y; x] | _ => [] end) w = IOk (F y x) w).
      { destruct Eo as [Eo|Eo]; rewrite Eo; destruct (isRes (dst c) _); rewrite HF; auto; now rewrite Cm. }
      rewrite E3. unfold evt. rewrite Vis. cbn [cont]. rewrite pre_nil, run_S. f_equal.
      unfold stf, rstep. cbn [top fr fb fe fa stk cw]. rewrite Hk, Et. cbn [runTerm rd]. rewrite upd_eq. reflexivity.
    + intros _. cbn. now rewrite As.
  - destruct M as (Ep & Et & No). rewrite Ep in *. destruct v as [x|]; [|congruence]. unfold xv in *.
    apply (X 1 (Some y)); auto; [|discriminate|].
    + intros n. rewrite run_S. f_equal. unfold stf, rstep. cbn [top fr fb fe fa stk cw]. rewrite Hk, Et. cbn [runTerm]. rewrite (P4 No). reflexivity.
    + intros _. now rewrite last_cons.
Qed.

(** *** one step *)
Inductive relC : cfg W -> cfg W -> Prop :=
| C_run ys A B S S' w : relF ys A B -> relK ys S S' -> relC (Cf A S w) (Cf B S' w).
Lemma safe_run s n t : safe stf s -> run stf n s <> Bad t.
Proof. intros H. apply H. Qed.
Lemma meetsN s s' n mm : 1 <= n -> 1 <= mm ->
  match run stf n s, run stg mm s' with
  | Go s1 t1, Go s2 t2 => t1 = t2 /\ relC s1 s2
  | Fin r1 t1, Fin r2 t2 => r1 = r2 /\ t1 = t2
  | _, _ => False
  end -> meets stf stg relC s s'.
Proof. intros A B H. exists n, mm. auto. Qed.
(** both return the same to stacks that agree *)
Lemma ret_same S0 S' v w : relK [] S0 S' -> rty v = true ->
  match retTo (W:=W) rty S0 v w, retTo rty S' v w with
  | Go s1 t1, Go s2 t2 => t1 = t2 /\ relC s1 s2
  | Fin r1 t1, Fin r2 t2 => r1 = r2 /\ t1 = t2
  | _, _ => False
  end.
Proof.
  intros HK R. unfold retTo. rewrite R. inversion HK as [| |ys d A B S1 S1' L HF HK1]; subst.
  - auto.
  - split; auto. econstructor; [|exact HK1]. exact (HF (match v with Some x => x | None => VUndef end)).
Qed.
Lemma leaf_ret ys b bb e e' a a' S' (w : W) o v : get b f = Some bb -> b <> k -> trm bb = TRet (Some o) ->
  relE ys e e' a a' -> rd (argsOf a) e o = Some v ->
  exists n, run stg n (Cf (Fr b e' a' (leafTail nargs osel base c md b bb)) S' w) = retTo rty S' (finR ys (Some v)) w /\ 1 <= n.
Proof.
  intros Gb Nb Et RE Hv. pose proof (rd_rel _ _ _ _ _ _ _ RE Hv) as Hv'. pose proof RE as (R1 & R2 & R3 & R4 & R5).
  assert (Hb : Nat.eqb b k = false) by now apply Nat.eqb_neq.
  pose proof Hmd as M. pose proof Hslo as Hso. unfold modeOk in M. unfold MI in R5. unfold finR, leafTail. rewrite Et. unfold leafInsts.
  assert (Htrm : trm (tB b bb) = leafTrm nargs base md b bb) by (unfold tB, tceBlock; cbn [trm]; now rewrite Hb).
  unfold leafTrm in Htrm. rewrite Et in Htrm.
  assert (Hrun : forall e2 o2 v2, trm (tB b bb) = TRet (Some o2) -> rd (argsOf a') e2 o2 = Some v2 ->
    run stg 1 (Cf (Fr b e2 a' []) S' w) = retTo rty S' (Some v2) w).
  { intros e2 o2 v2 T E2. cbn [run]. unfold stg at 1. unfold rstep. cbn [top fr fb fe fa stk cw]. rewrite (get_g b bb Gb), T. cbn [runTerm]. rewrite E2.
    unfold retTo. destruct (rty (Some v2)); auto. destruct S' as [|[d p] S']; reflexivity. }
  destruct md as [|i id|o1] eqn:Emd in M, Hso, R5, Htrm |- *.
  - exists 1. split; auto. apply (Hrun e' (sg o)); auto.
  - destruct M as (Ep & Na & (HF & Vis & Cm & As & Hid) & Eti & o1 & Eo & No). exists 2. split; auto.
    change (run stg 2) with (fun s => match stg s with Go s' t => Sim.pre t (run stg 1 s') | r => r end). cbv beta.
    unfold stg at 1. unfold rstep. cbn [top fr fb fe fa stk cw opc ops dst].
    assert (Ers : rds (argsOf a') e' (map (fun x => if isRes (dst c) x then ORes (accN nargs base) else sig nargs base o) (ops i)) =
      Some (match ops i with [x; _] => if isRes (dst c) x then [foldA id ys; v] else [v; foldA id ys] | _ => [] end)).
    { unfold isRes in *. destruct Eo as [Eo|Eo]; rewrite Eo in *; cbn [map rds].
      - destruct (opnd_eqb_spec (ORes (dst c)) (ORes (dst c))) as [_|X]; [|congruence].
        destruct (opnd_eqb_spec o1 (ORes (dst c))) as [E|_]; [congruence|]. cbn [rd]. fold aN sg. rewrite R5, Hv'. reflexivity.
      - destruct (opnd_eqb_spec (ORes (dst c)) (ORes (dst c))) as [_|X]; [|congruence].
        destruct (opnd_eqb_spec o1 (ORes (dst c))) as [E|_]; [congruence|]. cbn [rd]. fold aN sg. rewrite R5, Hv'. reflexivity. }
    rewrite Ers. destruct (Nat.eqb_spec (opc i) slf) as [E|_]; [congruence|].
    assert (E3 : meaning m (opc i) (match ops i with [x; _] => if isRes (dst c) x then [foldA id ys; v] else [v; foldA id ys] | _ => [] end) w = IOk (F (foldA id ys) v) w).
    { destruct Eo as [Eo|Eo]; rewrite Eo; destruct (isRes (dst c) _); rewrite HF; auto; now rewrite Cm. }
    rewrite E3. unfold evt. rewrite Vis. rewrite pre_nil. apply (Hrun _ _ _ Htrm). cbn [rd]. apply upd_eq.
  - destruct M as (Ep & Eti & No). destruct Hsel as [Vis HS]. destruct R5 as [R5 R6]. exists 2. split; auto.
    change (run stg 2) with (fun s => match stg s with Go s' t => Sim.pre t (run stg 1 s') | r => r end). cbv beta.
    unfold stg at 1. unfold rstep. cbn [top fr fb fe fa stk cw opc ops dst]. cbn [rds rd]. fold aN sg. rewrite R5, R6, Hv'.
    destruct (Nat.eqb_spec osel slf) as [E|_]; [congruence|]. rewrite HS. unfold evt. rewrite Vis, pre_nil. apply (Hrun _ _ _ Htrm). cbn [rd]. rewrite upd_eq.
    f_equal. destruct ys as [|y ys]; [reflexivity|]. cbn [Z.eqb]. now rewrite !last_cons.
Qed.
Lemma relF_k ys A B : relF ys A B -> fb A = k -> exists r, fr A = r ++ c :: post /\ fr B = map (mapInst sg) r ++ tl.
Proof.
  intros (bb & p & r & Gb & Fb & R & Bb & FA & FB & D & RE) E. exists r. unfold cut, tail in *. rewrite E, Nat.eqb_refl in *. auto.
Qed.
Lemma step_ok ys A B S S' (w : W) : relF ys A B -> relK ys S S' -> safe stf (Cf A S w) -> meets stf stg relC (Cf A S w) (Cf B S' w).
Proof.
  intros HF HK Hs. pose proof HF as (bb & p & r & Gb & Fb & R & Bb & FA & FB & D & RE).
  pose proof RE as (R1 & R2 & R3 & R4 & R5).
  assert (NB1 : forall t, stf (Cf A S w) <> Bad t).
  { intros t K. apply (Hs 1 t). cbn. rewrite K. reflexivity. }
  destruct r as [|i r].
  - cbn [app map] in *. destruct (Nat.eq_dec (fb A) k) as [Ek|Nk].
    + (** the tail call *)
      unfold cut in FA, Bb. rewrite Ek, Nat.eqb_refl in FA, Bb.
      unfold stf, rstep in NB1. cbn [top fr fb fe fa stk cw] in NB1. rewrite FA in NB1.
      destruct (rds (argsOf (fa A)) (fe A) (ops c)) as [vs|] eqn:Er; [|exfalso; eapply NB1; reflexivity].
      destruct (Nat.eqb_spec (opc c) slf) as [_|X]; [|congruence].
      assert (L : length vs = nargs).
      { unfold callF in NB1. destruct (Nat.eqb_spec (length vs) nargs) as [E|E]; auto. exfalso. eapply NB1; reflexivity. }
      destruct (tail_iter ys A B vs S' w HF Ek FA Er L) as (n & y & eb & B2 & Ln & Gh & Ph & Hn & HF2 & HP).
      apply (meetsN _ _ 1 n); auto. cbn [run]. unfold stf at 1. unfold rstep. cbn [top fr fb fe fa stk cw]. rewrite FA, Er.
      destruct (Nat.eqb_spec (opc c) slf) as [_|X]; [|congruence].
      rewrite (callF_f vs _ w eb Gh Ph L). unfold stg. rewrite Hn. split; auto. econstructor; [exact HF2|]. constructor; auto.
    + assert (Hb : Nat.eqb (fb A) k = false) by now apply Nat.eqb_neq.
      unfold cut in FA, Bb. unfold tail in FB. rewrite Hb in *. rewrite app_nil_r in Bb. cbn [app] in Bb.
      pose proof Wf as ((_ & U & _) & Hssa & _).
      unfold stf, rstep in NB1. cbn [top fr fb fe fa stk cw] in NB1. rewrite FA, Gb in NB1.
      assert (EA : A = Fr (fb A) (fe A) (fa A) []) by (rewrite <- FA; now destruct A).
      assert (EB : B = Fr (fb A) (fe B) (fa B) (leafTail nargs osel base c md (fb A) bb)) by (rewrite <- FB, <- Fb; now destruct B).
      assert (Ht : runTerm (argsOf (fa A)) (fe A) (trm bb) <> TBad).
      { intros E. rewrite E in NB1. eapply NB1; reflexivity. }
      pose proof (runTerm_rel _ _ _ _ _ _ RE Ht) as Et'.
      destruct (runTerm (argsOf (fa A)) (fe A) (trm bb)) as [b|v|] eqn:Et; [| |congruence].
      * (** a branch *)
        assert (Hin : In b (succs (trm bb))) by (eapply runTerm_succs; eauto).
        assert (Hbh : b <> h) by (intros E; apply (ENP (fb A) bb Gb); rewrite E in Hin; exact Hin).
        unfold goTo in NB1. destruct (get b f) as [b2|] eqn:Gb2; [|exfalso; eapply NB1; reflexivity].
        cbn [enter] in NB1.
        destruct (rdPhis (argsOf (fa A)) (fe A) (fb A) (phis b2)) as [vs|] eqn:Ev; [|exfalso; eapply NB1; reflexivity].
        assert (LT : leafTail nargs osel base c md (fb A) bb = []).
        { unfold leafTail. destruct (trm bb) as [z|o1 z1 z2|o1 cs z|[o1|]|]; auto; destruct Hin. }
        assert (TT : trm (tB (fb A) bb) = mapTerm sg (trm bb)).
        { unfold tB, tceBlock, leafTrm. cbn [trm]. rewrite Hb. destruct md as [|a0 id0|o0] eqn:Emd in |- *; destruct (trm bb) as [z|o1 z1 z2|o1 cs z|[o1|]|]; auto; destruct Hin. }
        assert (Pb : phis (tB b b2) = map (mapPhi (fun _ => sg)) (phis b2)).
        { unfold tB, tceBlock. cbn [phis]. destruct (Nat.eqb_spec b h) as [E|_]; [congruence|]. reflexivity. }
        apply (meetsN _ _ 1 1); auto. cbn [run]. unfold stf at 1, stg at 1. rewrite EA, EB. unfold rstep. cbn [top fr fb fe fa stk cw]. rewrite LT.
        rewrite Gb, Et, (get_g _ _ Gb), TT, Et'. unfold goTo. rewrite Gb2, (get_g _ _ Gb2), Pb. cbn [enter]. rewrite Ev.
        rewrite (rdPhis_rel _ _ _ _ _ _ _ _ RE Ev). cbn [option_map Sim.pre run app]. split; auto.
        apply (C_run ys); [|exact HK].
        assert (Rb : reach f b) by (destruct R as [l Hl]; exists (b :: l); econstructor; eauto).
        assert (Hvs : Forall (fun x => fst x < base) vs).
        { apply Forall_forall. intros x Hx. apply (pdst_lt b b2); auto. rewrite <- (rdPhis_fst _ _ _ _ _ Ev). now apply in_map. }
        set (rr := if Nat.eqb b k then pre else body b2).
        assert (B2 : body b2 = rr ++ cut b).
        { unfold rr, cut. destruct (Nat.eqb_spec b k) as [E|_]; [|now rewrite app_nil_r]. assert (b2 = bk) as -> by congruence. exact Hbody. }
        exists b2, [], rr. cbn [fb fe fa fr app]. split; [auto|]. split; [auto|]. split; [auto|]. split; [auto|]. split; [auto|]. split; [|split].
        { unfold tB, tceBlock, tail, rr, tl. cbn [body]. destruct (Nat.eqb b k); reflexivity. }
        { destruct R as [l Hl]. destruct (path_hd _ _ _ Hl) as [l' El]. rewrite El in Hl.
          apply (defined_enter (argsOf (fa A)) f U (St b (Some (fb A)) (fe A) w) b2).
          - exists (fb A :: l'). cbn. split; [econstructor; eauto|reflexivity].
          - cbn. intros x Hx. apply D. rewrite (availOut_at f (fb A) bb x Gb) in Hx. rewrite Bb in Hx. exact Hx.
          - exact Gb2.
          - cbn. rewrite Ev. reflexivity. }
        { apply relE_updAll; auto. }
      * (** a return *)
        assert (Tr : exists ro, trm bb = TRet ro /\ match ro with None => v = None | Some o => exists x, v = Some x /\ rd (argsOf (fa A)) (fe A) o = Some x end).
        { destruct (trm bb) as [z|o1 z1 z2|o1 cs z|[o1|]|]; cbn in Et.
          - discriminate.
          - destruct (rd (argsOf (fa A)) (fe A) o1) as [u|]; try discriminate. destruct (truth u) as [[]|]; discriminate.
          - destruct (rd (argsOf (fa A)) (fe A) o1) as [[u|u|]|]; discriminate.
          - exists (Some o1). split; auto. destruct (rd (argsOf (fa A)) (fe A) o1) as [u|] eqn:Eu; try discriminate. injection Et as <-. eauto.
          - exists None. split; auto. congruence.
          - discriminate. }
        destruct Tr as (ro & Tr & Hro).
        assert (Hn : match md with MRet => True | _ => v <> None end).
        { pose proof Hvoid as V. destruct md as [|a0 id0|o0] eqn:Emd in V |- *; auto; destruct ro as [o|]; try (destruct Hro as (x & -> & _); discriminate); exfalso; exact (V _ _ Gb Tr). }
        assert (Est : stf (Cf A S w) = retTo rty S v w).
        { unfold stf. rewrite EA. unfold rstep. cbn [top fr fb fe fa stk cw]. rewrite Gb, Et. reflexivity. }
        assert (Rv : rty v = true).
        { destruct (rty v) eqn:E; auto. exfalso. apply (NB1 []). unfold retTo. rewrite E. reflexivity. }
        destruct (unwind ys S S' HK v w Rv Hn) as (n & S0 & K1 & K2 & K3).
        { intros n t K. apply (Hs (Datatypes.S n) t). rewrite run_S, Est. exact K. }
        assert (Hg : exists mm, run stg mm (Cf B S' w) = retTo rty S' (finR ys v) w /\ 1 <= mm).
        { destruct ro as [o|].
          - destruct Hro as (x & -> & Ho). rewrite EB. eapply leaf_ret; eauto.
          - subst v. exists 1. split; auto. rewrite EB. unfold leafTail. rewrite Tr. cbn [run]. unfold stg at 1. unfold rstep. cbn [top fr fb fe fa stk cw].
            rewrite (get_g _ _ Gb). unfold tB, tceBlock, leafTrm. cbn [trm]. rewrite Hb, Tr.
            assert (Q : match md with MAcc _ _ | MSel _ => False | MRet => True end) by (pose proof Hvoid as V; destruct md as [|a0 id0|o0] eqn:Emd in V |- *; auto; exact (V _ _ Gb Tr)).
            unfold finR. destruct md as [|a0 id0|o0] eqn:Emd in Q |- *; try destruct Q. cbn [mapTerm runTerm]. unfold retTo. rewrite Rv. destruct S' as [|[d q] S2]; reflexivity. }
        destruct Hg as (mm & Hg & Lm). apply (meetsN _ _ (Datatypes.S n) mm); auto; [clear; lia|]. rewrite run_S, Est, K3, Hg. apply ret_same; auto.
  - (** an instruction that stays *)
    cbn [app map] in FA, FB, Bb.
    assert (EA : A = Fr (fb A) (fe A) (fa A) (i :: r ++ cut (fb A))) by (rewrite <- FA; now destruct A).
    assert (EB : B = Fr (fb A) (fe B) (fa B) (mapInst sg i :: map (mapInst sg) r ++ tail (fb A) bb)) by (rewrite <- FB, <- Fb; now destruct B).
    unfold stf, rstep in NB1. cbn [top fr fb fe fa stk cw] in NB1. rewrite FA in NB1.
    destruct (rds (argsOf (fa A)) (fe A) (ops i)) as [vs|] eqn:Er; [|exfalso; eapply NB1; reflexivity].
    pose proof (rds_rel _ _ _ _ _ _ _ RE Er) as Er'.
    assert (Li : dst i < base) by (apply (dst_lt (fb A) bb); auto; rewrite Bb; apply in_or_app; right; now left).
    assert (Hnext : forall v, relF ys (Fr (fb A) (upd (fe A) (dst i) v) (fa A) (r ++ cut (fb A)))
                                      (Fr (fb A) (upd (fe B) (dst i) v) (fa B) (map (mapInst sg) r ++ tail (fb A) bb))).
    { intros v. exists bb, (p ++ [i]), r. cbn [fb fe fa fr]. split; [auto|]. split; [auto|]. split; [auto|]. split; [now rewrite <- app_assoc|].
      split; [auto|]. split; [auto|]. split; [|now apply relE_upd].
      intros x Hx. unfold upd. destruct (Nat.eqb_spec x (dst i)) as [E|Nx]; [discriminate|]. apply D. destruct Hx as [Hx|[Hx|Hx]]; [now left|right; now left|].
      right. right. rewrite map_app in Hx. apply in_app_or in Hx as [Hx|[Hx|[]]]; auto. congruence. }
    destruct (Nat.eqb_spec (opc i) slf) as [Es|Ns].
    + assert (L : length vs = nargs).
      { unfold callF in NB1. destruct (Nat.eqb_spec (length vs) nargs) as [E|E]; auto. exfalso. eapply NB1; reflexivity. }
      destruct (call_g vs ((dst i, Fr (fb A) (fe B) (fa B) (map (mapInst sg) r ++ tail (fb A) bb)) :: S') w L) as (eb & B2 & Gh & Ph & G1 & G2 & HF2).
      apply (meetsN _ _ 1 2); auto. rewrite EA, EB. cbn [run]. unfold stf at 1, stg at 1. unfold rstep at 1 2. cbn [top fr fb fe fa stk cw mapInst opc ops dst].
      rewrite Er, Er', Es, Nat.eqb_refl. rewrite (callF_f vs _ w eb Gh Ph L), G1. unfold stg. rewrite G2. split; auto.
      econstructor; [exact HF2|]. apply (K_frame ys); auto.
    + apply (meetsN _ _ 1 1); auto. rewrite EA, EB. cbn [run]. unfold stf, stg, rstep. cbn [top fr fb fe fa stk cw mapInst opc ops dst].
      rewrite Er, Er'. destruct (Nat.eqb_spec (opc i) slf) as [E|_]; [congruence|].
      destruct (meaning m (opc i) vs w) as [v w'|w'|] eqn:Em.
      * cbn [Sim.pre]. split; auto. apply (C_run ys); auto.
      * split; reflexivity.
      * exfalso. eapply NB1; reflexivity.
Qed.
End Elim.

(** ** the whole run *)
Section Whole.
Context {W : Type} (m : sem W).
Variables (slf nargs : nat) (rty : option value -> bool).
Definition liftR (r : rres (W:=W)) : sres (rst W) (event (W:=W)) (fin (W:=W)) :=
  match r with Go c t => Go (Running c) t | Fin x t => Fin x t | Bad t => Bad t end.
Lemma run_lift f n : forall s, run (rstep0 m slf nargs rty f) n (Running s) = liftR (run (rstep m slf nargs rty f) n s).
Proof.
  induction n as [|n IH]; intros s; [reflexivity|]. cbn [run]. unfold rstep0 at 1. destruct (rstep m slf nargs rty f s) as [s1 t1|x t1|t1]; auto.
  rewrite IH. destruct (run (rstep m slf nargs rty f) n s1); reflexivity.
Qed.
Lemma boot_refines (f g : func) (R : cfg W -> cfg W -> Prop) :
  (forall s s', safe (rstep m slf nargs rty f) s -> R s s' -> meets (rstep m slf nargs rty f) (rstep m slf nargs rty g) R s s') ->
  (forall vs w, (forall t, callF (W:=W) nargs f vs [] w <> Bad t) ->
     exists s n s', callF nargs f vs [] w = Go s [] /\ run (rstep0 m slf nargs rty g) (Datatypes.S n) (Boot vs w) = Go (Running s') [] /\ R s s') ->
  forall vs w, refinesAt (rstep0 m slf nargs rty f) (rstep0 m slf nargs rty g) (Boot vs w) (Boot vs w).
Proof.
  intros HR HB vs w.
  set (Q := fun a b : rst W => match a, b with Boot v1 w1, Boot v2 w2 => v1 = v2 /\ w1 = w2 | Running s, Running s' => R s s' | _, _ => False end).
  apply (sim_refines _ _ Q); [|split; reflexivity]. clear vs w. intros [vs w|s] [vs' w'|s'] Hs HQ; try destruct HQ.
  - rename H into E1, H0 into E2. rewrite <- E1, <- E2. clear vs' w' E1 E2.
    destruct (HB vs w) as (s & n & s' & K1 & K2 & K3).
    { intros t E. apply (Hs 1 t). cbn [run]. unfold rstep0. rewrite E. reflexivity. }
    exists 1, (Datatypes.S n). split; [auto|]. split; [clear; lia|]. rewrite K2. cbn [run]. unfold rstep0. rewrite K1. cbn. split; auto.
  - assert (Hs' : safe (rstep m slf nargs rty f) s) by (intros n t E; apply (Hs n t); rewrite run_lift, E; reflexivity).
    destruct (HR s s' Hs' HQ) as (a & b & La & Lb & H). exists a, b. split; auto. split; auto. rewrite !run_lift.
    destruct (run (rstep m slf nargs rty f) a s), (run (rstep m slf nargs rty g) b s'); cbn; auto.
Qed.
End Whole.
