(** C42: selects, constants moved into registers, and the legalization step. *)
From Coq Require Import ZArith List Bool Lia PeanoNat ZifyBool.
From Verif Require Import Word Rv64 CmpModel DivConst Isel IselSem IselStep IselPat.
Import ListNotations.
Local Open Scope Z_scope.
Ltac Zify.zify_post_hook ::= Z.div_mod_to_equations.

Section Leg.
Context {W : Type}.
Variable opq : nat -> list Z -> W -> W * (reg -> Z).
Notation st := (st W).
Notation exec1 := (exec1 opq).
Notation fineP := (@fineP W opq).
Ltac okd P := let O := fresh "O" in destruct P as (?HS & O & ?HB & ?HI & ?Hn); destruct O as (?WT & ?EN & ?ND).
Ltac bools := repeat match goal with H : _ && _ = true |- _ => apply andb_prop in H; destruct H end.
Ltac vs := intros P s v Ws HD E HV; okd P.

Lemma fine_refl n C i : fineP n C i n [i].
Proof. apply fine1; [reflexivity|auto|intros P; apply P|auto]. Qed.
(** two constants into the fresh registers n and n + 1, then one instruction *)
Lemma fineV3 n C i t1 z1 t2 z2 j d : dstOf i = Some d -> dstOf j = Some d ->
  (forall r, In r (uses j) -> r = Rg n t1 \/ r = Rg (S n) t2 \/ rid r = 0%nat \/ In r (uses i) \/ lkUse C r) ->
  (pre n C i -> inR t1 z1 /\ inR t2 z2 /\ ok1 j) ->
  (pre n C i -> forall (s : st) v, wfst s -> ctxD C s -> val s i = Some v -> holds (rty d) v ->
     val (set (set s (Rg n t1) (u64 z1)) (Rg (S n) t2) (u64 z2)) j = Some v) ->
  fineP n C i (S (S n)) [LdI (Rg n t1) z1; LdI (Rg (S n) t2) z2; j].
Proof.
  intros Di Dj Uj Oj Ej P. specialize (Oj P). specialize (Ej P). destruct P as (HS & HO & HB & HI & Hn). destruct Oj as (I1 & I2 & Oj).
  pose proof (defs_dst _ _ Di) as Di'. pose proof (defs_dst _ _ Dj) as Dj'.
  assert (Ul : forall r, rid r = 0%nat \/ In r (uses i) \/ lkUse C r -> (rid r < n)%nat).
  { intros r [Z | [Z | Z]]; [lia|apply HB, in_regs_use, Z|eapply lkUse_below; eauto]. }
  assert (Dl : (rid d < n)%nat) by (apply HB, in_regs_def; rewrite Di'; left; reflexivity).
  assert (Dd : In d (defs i)) by (rewrite Di'; left; reflexivity).
  constructor.
  - lia.
  - constructor; [|constructor; [|auto]]; (split; [assumption|split; [reflexivity|intros r [<- | []]; cbn; lia]]).
  - constructor; [|constructor; [|constructor; [|constructor]]]; intros r Hr.
    + cbn in Hr. destruct Hr as [<- | []]. cbn. lia.
    + cbn in Hr. destruct Hr as [<- | []]. cbn. lia.
    + apply in_app_or in Hr as [Hr | Hr].
      * destruct (Uj r Hr) as [-> | [-> | Z]]; cbn; try lia. specialize (Ul r Z). lia.
      * rewrite Dj' in Hr. destruct Hr as [<- | []]. lia.
  - intros k r [<- | [<- | [<- | []]]] Hr.
    + destruct Hr as [<- | []]. right. cbn. lia.
    + destruct Hr as [<- | []]. right. cbn. lia.
    + rewrite Dj', <- Di' in Hr. auto.
  - intros k r [<- | [<- | [<- | []]]] Hr; unfold useOk; try contradiction Hr.
    destruct (Uj r Hr) as [-> | [-> | [Z | [Z | Z]]]]; cbn [rid]; auto.
  - cbn [ssaB]. split; [intros ? _ []|]. split; [|split; [intros ? _ []|split; [|split; [|split; [intros ? ? ? []|exact I]]]]].
    + intros r Hr k [<- | [<- | []]] Hd; cbn in Hr; destruct Hr as [<- | []].
      * cbn in Hd. destruct Hd as [Hd | []]. injection Hd. lia.
      * rewrite Dj' in Hd. destruct Hd as [Hd | []]. subst d. cbn in Dl. lia.
    + intros r Hr k [<- | []] Hd; cbn in Hr; destruct Hr as [<- | []]. rewrite Dj' in Hd. destruct Hd as [Hd | []]. subst d. cbn in Dl. lia.
    + intros r Hr Hu. rewrite Dj' in Hr. destruct Hr as [<- | []]. destruct (HI d Dd) as (N1 & N2 & _).
      destruct (Uj d Hu) as [Z | [Z | [Z | [Z | Z]]]]; try contradiction; try (rewrite Z in Dl; cbn in Dl; lia).
      destruct HO as (_ & _ & HO). apply (HO d Dd), Z.
  - exists [LdI (Rg n t1) z1; LdI (Rg (S n) t2) z2], j. split; [reflexivity|]. split; [congruence|].
    intros k [<- | [<- | []]]; eexists; (split; [reflexivity|cbn; lia]).
  - intros s s' Ws HD E Ws'. rewrite (exec1_val opq i d) in E by exact Di. destruct (val s i) as [v|] eqn:Ev; [|discriminate]. cbn [option_map] in E. injection E as <-.
    pose proof (wf_get _ _ _ Ws') as Hv.
    set (s1 := set s (Rg n t1) (u64 z1)). set (s2 := set s1 (Rg (S n) t2) (u64 z2)).
    assert (W1 : wfst s1) by (apply wf_set; [exact Ws|exists z1; auto]). assert (W2 : wfst s2) by (apply wf_set; [exact W1|exists z2; auto]).
    exists (set s2 d v). split.
    + cbn [runs]. exists s1. split; [reflexivity|]. split; [exact W1|]. exists s2. split; [reflexivity|]. split; [exact W2|].
      exists (set s2 d v). split; [|split; [apply wf_set; assumption|reflexivity]].
      rewrite (exec1_val opq j d) by exact Dj. unfold s2, s1. rewrite (Ej s v Ws HD Ev Hv). reflexivity.
    + split; [|split; reflexivity]. intros r Hr. unfold s2, s1, set. cbn [R]. destruct (reg_eqb r d); [reflexivity|].
      rewrite !reg_eqb_neq; [reflexivity| |]; intros ->; cbn in Hr; lia.
Qed.

Lemma imm2reg_spec n o n1 l1 o1 : imm2reg n o = (n1, l1, o1) ->
  (n1 = n /\ l1 = [] /\ o1 = o /\ isR o = true) \/
  (n1 = n /\ l1 = [] /\ exists t, o = OI 0 t /\ o1 = OR (X0 t)) \/
  (n1 = S n /\ exists z t, o = OI z t /\ l1 = [LdI (Rg n (constTy t z)) z] /\ o1 = OR (Rg n (constTy t z))).
Proof.
  clear opq. unfold imm2reg. destruct o as [r|z t]; intros H; [injection H as <- <- <-; auto|].
  destruct (z =? 0) eqn:E; injection H as <- <- <-.
  - right. left. assert (z = 0) as -> by lia. eauto.
  - right. right. eauto 10.
Qed.
Lemma asIReg_eq n o : asIReg n o = imm2reg n o.
Proof. clear opq. destruct o; reflexivity. Qed.
(** one operand of a value instruction moved into a register *)
Lemma mat_fine n C (F : opnd -> inst) o n1 l1 o1 d K : imm2reg n o = (n1, l1, o1) ->
  (forall x, dstOf (F x) = Some d) ->
  (forall x r, In r (uses (F x)) <-> In r (oreg x) \/ In r K) ->
  (pre n C (F o) -> immB o /\ ok1 (F o1)) ->
  (pre n C (F o) -> forall s t : st, (forall r, In r K -> R s r = R t r) -> rd s o = rd t o1 -> val s (F o) = val t (F o1)) ->
  fineP n C (F o) n1 (l1 ++ [F o1]).
Proof.
  intros Im DF UF OK V. destruct (imm2reg_spec n o n1 l1 o1 Im) as [(-> & -> & -> & _) | [(-> & -> & t & -> & ->) | (-> & z & t & -> & -> & ->)]]; cbn [app].
  - apply fine_refl.
  - apply fineV1 with (d := d); auto.
    + intros r Hr. apply UF in Hr as [[<- | []] | Hr]; [left; reflexivity|]. right. left. apply UF. auto.
    + intros P. apply (OK P).
    + intros P s v Ws HD E Hv. rewrite <- E. symmetry. apply (V P); [auto|reflexivity].
  - eapply fineV2 with (d := d) (tt := constTy t z); auto.
    + intros r [].
    + intros r Hr. apply UF in Hr as [[<- | []] | Hr]; [left; reflexivity|]. right. right. left. apply UF. auto.
    + intros P. destruct (OK P) as (B & O). split; [|exact O]. split; [apply constTy_in, B|]. split; [reflexivity|]. intros r [<- | []]. cbn. destruct P as (_ & _ & _ & _ & P). lia.
    + intros P s v Ws HD E Hv. exists (u64 z). split; [reflexivity|]. destruct (OK P) as (B & _). split; [exists z; split; [reflexivity|apply constTy_in, B]|].
      intros _. rewrite <- E. symmetry. apply (V P).
      * intros r Hr. symmetry. apply set_other. intros ->. destruct P as (_ & _ & HB & _). specialize (HB (Rg n (constTy t z)) (in_regs_use _ _ (proj2 (UF _ _) (or_intror Hr)))). cbn in HB. lia.
      * cbn [rd]. rewrite (proj2 (Nat.eqb_neq _ _)) by (cbn; destruct P as (_ & _ & _ & _ & P); lia). rewrite set_same. reflexivity.
Qed.
Lemma pSelect_ok : @patOk W opq pSelect.
Proof.
  intros C n i n' l H D. unfold pSelect in H. destruct i as [| | | |d c a b| | | | | | | | |]; try discriminate H.
  assert (Plain : forall n' l, (let '(n1, l1, c1) := asIReg n c in Some (n1, l1 ++ [SelG Ine d a b c1 (OR (X0 (oty c)))])) = Some (n', l) -> fineP n C (Sel d c a b) n' l).
  { clear. intros n' l H. rewrite asIReg_eq in H. destruct (imm2reg n c) as [[n1 l1] c1] eqn:Im. injection H as <- <-.
    eapply fine_trans with (i1 := Sel d c1 a b).
    - apply (mat_fine n C (fun x => Sel d x a b) c n1 l1 c1 d (oreg a ++ oreg b) Im); [reflexivity| | |].
      + intros x r. cbn [uses]. rewrite !in_app_iff. tauto.
      + intros P. okd P. destruct WT as (Ic & Ta & Tb). split; [destruct c; [exact I|eapply inR_64; exact Ic]|].
        split; [|split; [reflexivity|exact ND]]. split; [|auto].
        destruct (imm2reg_spec n c n1 l1 c1 Im) as [(_ & _ & -> & _) | [(_ & _ & t & _ & ->) | (_ & z & t & _ & _ & ->)]]; [exact Ic|exact I|exact I].
      + intros P s t K Er. cbn [val]. rewrite Er.
        assert (Sa : rd s a = rd t a) by (apply rd_same; intros r Hr; apply K, in_or_app; auto).
        assert (Sb : rd s b = rd t b) by (apply rd_same; intros r Hr; apply K, in_or_app; auto). rewrite Sa, Sb. reflexivity.
    - assert (Rc : isR c1 = true). { destruct (imm2reg_spec n c n1 l1 c1 Im) as [(_ & _ & -> & R) | [(_ & _ & t & _ & ->) | (_ & z & t & _ & _ & ->)]]; auto. }
      eapply fineV1; [reflexivity|reflexivity| | |].
      + intros r Hr. cbn [uses] in Hr |- *. rewrite !in_app_iff in Hr. cbn [oreg In] in Hr. rewrite !in_app_iff.
        destruct Hr as [Hr | [Hr | [Hr | [<- | []]]]]; try tauto.
      + intros P. okd P. destruct WT as (Ic & (_ & Ta) & (_ & Tb)). split; [split; assumption|]. split; [|exact ND]. cbn [encodable isR]. rewrite Rc. reflexivity.
      + vs. cbn [val] in E |- *. rewrite rd_X0. destruct (rdB s c1 Ws Rc) as (x & Ex & Hx). rewrite <- E. f_equal. rewrite Ex.
        rewrite (ne_zero x) by (eapply inR_64; eauto). destruct (s64 (u64 x) =? 0); reflexivity. }
  destruct c as [q|zc tc]; [|apply Plain, H].
  destruct (one C q); [|apply Plain, H].
  destruct (lkO C (OR q)) as [[| |p m x y| | | | | | | | | | |]|] eqn:L; try (apply Plain; exact H). clear Plain.
  rewrite !asIReg_eq in H. destruct (imm2reg n x) as [[n1 l1] x1] eqn:Im1. rewrite asIReg_eq in H. destruct (imm2reg n1 y) as [[n2 l2] y1] eqn:Im2. injection H as <- <-.
  assert (Ca : forall s : st, ctxS n C -> wfst s -> ctxD C s -> (if s64 (rd s (OR q)) =? 0 then rd s b else rd s a) = if cmpV p (rd s x) (rd s y) then rd s a else rd s b).
  { intros s HS Ws HD. pose proof (cmp_branch s C n (OR q) p m x y HS Ws HD L) as B. rewrite <- B. destruct (s64 (rd s (OR q)) =? 0); reflexivity. }
  assert (CU : forall r, In r (oreg x) \/ In r (oreg y) -> lkUse C r).
  { intros r Hr. eapply lkO_use; [exact L|]. cbn [uses]. apply in_or_app, Hr. }
  assert (OKj : pre n C (Sel d (OR q) a b) -> isR x1 = true -> isR y1 = true -> ok1 (SelG p d a b x1 y1)).
  { intros P Rx Ry. okd P. destruct WT as (Ic & (_ & Ta) & (_ & Tb)). split; [split; assumption|]. split; [|exact ND]. cbn [encodable]. rewrite Rx, Ry. reflexivity. }
  assert (IB : pre n C (Sel d (OR q) a b) -> immB x /\ immB y /\ below n (Cmp p m x y)).
  { intros P. okd P. destruct (lkO_inv n C _ _ m HS L eq_refl) as (_ & _ & _ & ((IBx & IBy & _) & _) & B). auto. }
  assert (OB : forall n0 t v o (s : st), pre n C (Sel d (OR q) a b) -> (n <= n0)%nat -> (o = x \/ o = y \/ o = a \/ o = b) -> rd (set s (Rg n0 t) v) o = rd s o).
  { intros n0 t v o s P Hle Ho. apply rd_old. intros r Hr. destruct (IB P) as (_ & _ & Bc). okd P. assert ((rid r < n)%nat); [|lia].
    destruct Ho as [-> | [-> | [-> | ->]]]; [apply Bc|apply Bc|apply HB|apply HB]; unfold regsOf; cbn [uses defs]; rewrite !in_app_iff; tauto. }
  destruct (imm2reg_spec n x n1 l1 x1 Im1) as [(-> & -> & -> & Rx) | [(-> & -> & t & -> & ->) | (-> & z & t & -> & -> & ->)]];
  destruct (imm2reg_spec _ y n2 l2 y1 Im2) as [(-> & -> & -> & Ry) | [(-> & -> & t' & -> & ->) | (-> & z' & t' & -> & -> & ->)]]; cbn [app].
  all: try (eapply fineV1; [reflexivity|reflexivity| |intros P; apply OKj; auto|]; [intros r Hr; cbn [uses oreg] in Hr |- *; rewrite !in_app_iff in Hr; cbn [In] in Hr; rewrite !in_app_iff;
       repeat match goal with H : _ \/ _ |- _ => destruct H end; subst; try tauto; try (left; reflexivity); try (right; right; apply CU; tauto)|];
     vs; cbn [val] in E |- *; rewrite <- E, (Ca s HS Ws HD); reflexivity).
  all: try (eapply fineV2; [reflexivity|reflexivity|reflexivity|intros r []| |
       intros P; destruct (IB P) as (Bx & By & _); split; [|apply OKj; auto]; (split; [apply constTy_in; assumption|split; [reflexivity|intros r [<- | []]; cbn; destruct P as (_ & _ & _ & _ & P); lia]])|];
     [intros r Hr; cbn [uses oreg] in Hr |- *; rewrite !in_app_iff in Hr; cbn [In] in Hr; rewrite !in_app_iff;
       repeat match goal with H : _ \/ _ |- _ => destruct H end; subst; try tauto; try (left; reflexivity); try (right; left; reflexivity); try (right; right; right; apply CU; tauto)|];
     intros P s v Ws HD E Hv; destruct (IB P) as (Bx & By & _); eexists; split; [reflexivity|]; split; [eexists; split; [reflexivity|apply constTy_in; assumption]|]; intros _;
     cbn [val] in E |- *; repeat (match goal with |- context[rd (set ?s0 (Rg ?n0 ?t0) ?v0) ?o] => rewrite (OB n0 t0 v0 o s0 P (le_n n0)) by tauto end); rewrite ?rd_tmp by apply P; rewrite <- E, (Ca s (proj1 P) Ws HD); reflexivity).
  eapply fineV3; [reflexivity|reflexivity| | |].
  - intros r Hr; cbn [uses oreg] in Hr |- *; rewrite !in_app_iff in Hr; cbn [In] in Hr; rewrite !in_app_iff.
    repeat match goal with H : _ \/ _ |- _ => destruct H end; subst; tauto.
  - intros P. destruct (IB P) as (Bx & By & _). split; [apply constTy_in, Bx|]. split; [apply constTy_in, By|]. apply OKj; auto.
  - intros P s v Ws HD E Hv. cbn [val] in E |- *. rewrite rd_tmp by lia. rewrite <- E, (Ca s (proj1 P) Ws HD).
    rewrite !(OB (S n) _ _ a _ P) by (try tauto; lia). rewrite !(OB (S n) _ _ b _ P) by (try tauto; lia). rewrite !(OB n _ _ a _ P) by (try tauto; lia). rewrite !(OB n _ _ b _ P) by (try tauto; lia).
    rewrite (rd_old _ (S n)) by (intros r [<- | []]; cbn; lia). rewrite rd_tmp by apply P. reflexivity.
Qed.

(** ** legalization *)
Definition mat n o n1 l1 o1 : Prop := imm2reg n o = (n1, l1, o1) \/ (n1 = n /\ l1 = [] /\ o1 = o).
Lemma large_mat n o n1 l1 o1 : largeImm2reg n o = (n1, l1, o1) -> mat n o n1 l1 o1.
Proof. clear opq. unfold largeImm2reg, mat. destruct (is12 o); intros H; [injection H as <- <- <-|]; auto. Qed.
Lemma mat_ty n o n1 l1 o1 : mat n o n1 l1 o1 -> immOk o -> oty o1 = oty o /\ immOk o1.
Proof.
  clear opq. intros [H | (_ & _ & ->)] I; [|auto]. destruct (imm2reg_spec n o n1 l1 o1 H) as [(_ & _ & -> & _) | [(_ & _ & t & -> & ->) | (_ & z & t & -> & _ & ->)]].
  - auto.
  - split; [reflexivity|exact Logic.I].
  - cbn [oty rty]. rewrite constTy_same by exact I. split; [reflexivity|exact Logic.I].
Qed.
Lemma mat_okOp T n o n1 l1 o1 : mat n o n1 l1 o1 -> okOp T o -> okOp T o1.
Proof. clear opq. intros M [L I]. destruct (mat_ty _ _ _ _ _ M I) as [E I1]. split; [rewrite E; exact L|exact I1]. Qed.
Lemma mat_wideI n o n1 l1 o1 : mat n o n1 l1 o1 -> wideI o -> wideI o1.
Proof.
  clear opq. intros [H | (_ & _ & ->)] I; [|exact I]. destruct (imm2reg_spec n o n1 l1 o1 H) as [(_ & _ & -> & _) | [(_ & _ & t & -> & ->) | (_ & z & t & -> & _ & ->)]]; try exact I; exact Logic.I.
Qed.
Lemma mat_immB n o n1 l1 o1 : mat n o n1 l1 o1 -> immB o -> immB o1.
Proof.
  clear opq. intros [H | (_ & _ & ->)] I; [|exact I]. destruct (imm2reg_spec n o n1 l1 o1 H) as [(_ & _ & -> & _) | [(_ & _ & t & -> & ->) | (_ & z & t & -> & _ & ->)]]; try exact I; exact Logic.I.
Qed.
Lemma imm2reg_R n o n1 l1 o1 : imm2reg n o = (n1, l1, o1) -> isR o1 = true.
Proof.
  clear opq. intros H. destruct (imm2reg_spec n o n1 l1 o1 H) as [(_ & _ & -> & R) | [(_ & _ & t & -> & ->) | (_ & z & t & -> & _ & ->)]]; auto.
Qed.
Lemma mat_R n o n1 l1 o1 : mat n o n1 l1 o1 -> isR o = true -> isR o1 = true.
Proof. clear opq. intros [H | (_ & _ & ->)] R; [eapply imm2reg_R; eauto|exact R]. Qed.
Lemma imm_B o : immOk o -> immB o.
Proof. clear opq. destruct o; cbn; [auto|apply inR_64]. Qed.
Lemma mat_fine' n C (F : opnd -> inst) o n1 l1 o1 d K : mat n o n1 l1 o1 ->
  (forall x, dstOf (F x) = Some d) ->
  (forall x r, In r (uses (F x)) <-> In r (oreg x) \/ In r K) ->
  (pre n C (F o) -> immB o /\ ok1 (F o1)) ->
  (pre n C (F o) -> forall s t : st, (forall r, In r K -> R s r = R t r) -> rd s o = rd t o1 -> val s (F o) = val t (F o1)) ->
  fineP n C (F o) n1 (l1 ++ [F o1]).
Proof. intros [H | (-> & -> & ->)] A B O V; [eapply mat_fine; eauto|apply fine_refl]. Qed.
Lemma swap_fine n C o d a b : commutative o = true -> fineP n C (Bin o d a b) n [Bin o d b a].
Proof.
  intros Cm. eapply fineV1; [reflexivity|reflexivity| | |].
  - intros r Hr. cbn [uses] in *. rewrite in_app_iff in *. tauto.
  - intros P. okd P. destruct WT as (Ta & Tb & Tw). split; [|split; [reflexivity|exact ND]]. split; [exact Tb|]. split; [exact Ta|]. destruct Tw as [Tw | (T1 & T2 & T3)]; auto.
  - vs. rewrite <- E. cbn [val]. f_equal. destruct o; try discriminate Cm; cbn [gbinV]; f_equal; [lia|lia|apply Z.land_comm|apply Z.lor_comm|apply Z.lxor_comm|lia|lia].
Qed.
Lemma binL_fine n C o d a b n1 l1 a1 : mat n a n1 l1 a1 -> fineP n C (Bin o d a b) n1 (l1 ++ [Bin o d a1 b]).
Proof.
  intros M. apply (mat_fine' n C (fun x => Bin o d x b) a n1 l1 a1 d (oreg b) M); [reflexivity| | |].
  - intros x r. cbn [uses]. apply in_app_iff.
  - intros P. okd P. destruct WT as (Ta & Tb & Tw). split; [apply imm_B, Ta|]. split; [|split; [reflexivity|exact ND]].
    split; [eapply mat_okOp; eauto|]. split; [exact Tb|]. destruct Tw as [Tw | (T1 & T2 & T3)]; [auto|]. right. split; [exact T1|]. split; [eapply mat_wideI; eauto|exact T3].
  - intros P s t K Er. cbn [val]. rewrite Er, (rd_same s t b K). reflexivity.
Qed.
Lemma binR_fine n C o d a b n1 l1 b1 : mat n b n1 l1 b1 -> fineP n C (Bin o d a b) n1 (l1 ++ [Bin o d a b1]).
Proof.
  intros M. apply (mat_fine' n C (fun x => Bin o d a x) b n1 l1 b1 d (oreg a) M); [reflexivity| | |].
  - intros x r. cbn [uses]. rewrite in_app_iff. tauto.
  - intros P. okd P. destruct WT as (Ta & Tb & Tw). split; [apply imm_B, Tb|]. split; [|split; [reflexivity|exact ND]].
    split; [exact Ta|]. split; [eapply mat_okOp; eauto|]. destruct Tw as [Tw | (T1 & T2 & T3)]; [auto|]. right. split; [exact T1|]. split; [exact T2|eapply mat_wideI; eauto].
  - intros P s t K Er. cbn [val]. rewrite Er, (rd_same s t a K). reflexivity.
Qed.
Lemma bin2_fine n C o d a b n1 l1 a1 n2 l2 b1 : mat n a n1 l1 a1 -> mat n1 b n2 l2 b1 -> fineP n C (Bin o d a b) n2 ((l1 ++ l2) ++ [Bin o d a1 b1]).
Proof. intros M1 M2. rewrite <- app_assoc. eapply fine_trans; [apply binL_fine; exact M1|apply binR_fine; exact M2]. Qed.
Lemma fine_pre1 n C i i1 n2 l2 : fineP n C i n [i1] -> fineP n C i1 n2 l2 -> fineP n C i n2 l2.
Proof. intros A B. apply (fine_trans opq n C i n [] i1 n2 l2); assumption. Qed.
(** the logical and additive operations after their operands have been put in order *)
Lemma legAlu_fine n C o d a b n1 l1 a2 n' l' i' :
  imm2reg n a = (n1, l1, a2) ->
  match o, b with
    | GAnd, OI z _ =>
      if z =? 65535 then (n1, l1, R1 ZEXT_H d a2)
      else if z =? 4294967295 then (n1, l1, R1 ZEXT_W d a2)
      else let '(n2, l2, b2) := largeImm2reg n1 b in (n2, l1 ++ l2, Bin o d a2 b2)
    | _, _ => let '(n2, l2, b2) := largeImm2reg n1 b in (n2, l1 ++ l2, Bin o d a2 b2)
  end = (n', l', i') -> fineP n C (Bin o d a b) n' (l' ++ [i']).
Proof.
  intros Im H.
  assert (Gen : (let '(n2, l2, b2) := largeImm2reg n1 b in (n2, l1 ++ l2, Bin o d a2 b2)) = (n', l', i') -> fineP n C (Bin o d a b) n' (l' ++ [i'])).
  { clear H. intros H. destruct (largeImm2reg n1 b) as [[n2 l2] b2] eqn:L. injection H as <- <- <-. eapply bin2_fine; [left; exact Im|apply large_mat, L]. }
  destruct o; try (apply Gen; exact H). destruct b as [q|z u]; try (apply Gen; exact H).
  assert (Rz : isR a2 = true) by (eapply imm2reg_R; eauto).
  destruct (z =? 65535) eqn:E1; [|destruct (z =? 4294967295) eqn:E2; [|apply Gen; exact H]]; injection H as <- <- <-; clear Gen.
  - assert (z = 65535) as -> by lia. eapply fine_trans; [apply binL_fine; left; exact Im|].
    eapply fineV1; [reflexivity|reflexivity| | |].
    + intros r Hr. cbn [uses] in *. rewrite in_app_iff. auto.
    + intros P. okd P. split; [exact I|]. split; [exact Rz|exact ND].
    + vs. destruct WT as (Ta & Tb & _). destruct (logic_val s GAnd d a2 (OI 65535 u) Ws Ta Tb eq_refl) as (x & y & r & Ex & Ey & Hx & Hy & Sx & Sy & G & Hr & V).
      rewrite V in E. apply some_inj in E. subst v. apply okOpI in Tb as [Hu _]. rewrite (proj2 (opvI s _ _ Hu)) in Sy. subst y. cbn [gbinV] in G. injection G as <-.
      cbn [val evR1]. f_equal. rewrite Ex. change 65535 with (Z.ones 16). rewrite Z.land_ones by lia. change (2 ^ 16) with 65536. unfold u64. lia.
  - assert (z = 4294967295) as -> by lia. eapply fine_trans; [apply binL_fine; left; exact Im|].
    eapply fineV1; [reflexivity|reflexivity| | |].
    + intros r Hr. cbn [uses] in *. rewrite in_app_iff. auto.
    + intros P. okd P. split; [exact I|]. split; [exact Rz|exact ND].
    + vs. destruct WT as (Ta & Tb & _). destruct (logic_val s GAnd d a2 (OI 4294967295 u) Ws Ta Tb eq_refl) as (x & y & r & Ex & Ey & Hx & Hy & Sx & Sy & G & Hr & V).
      rewrite V in E. apply some_inj in E. subst v. apply okOpI in Tb as [Hu _]. rewrite (proj2 (opvI s _ _ Hu)) in Sy. subst y. cbn [gbinV] in G. injection G as <-.
      cbn [val evR1]. f_equal. rewrite Ex. change 4294967295 with (Z.ones 32). rewrite Z.land_ones by lia. change (2 ^ 32) with 4294967296. unfold Rv.ZEXT_W, u32, u64. lia.
Qed.
Lemma legBin_fine n C o d a0 b0 n' l' i' : legBin C n o d a0 b0 = (n', l', i') -> fineP n C (Bin o d a0 b0) n' (l' ++ [i']) /\ shAmt i' = true.
Proof.
  intros H. unfold legBin in H.
  assert (Sw : exists a b, (if commutative o then swapImm a0 b0 else (a0, b0)) = (a, b) /\ fineP n C (Bin o d a0 b0) n [Bin o d a b] /\ (commutative o = false -> a = a0 /\ b = b0)).
  { destruct (commutative o) eqn:Cm; [|exists a0, b0; split; [reflexivity|]; split; [apply fine_refl|auto]].
    unfold swapImm. destruct (negb (isR a0) && isR b0); eexists _, _; (split; [reflexivity|]); (split; [|discriminate]); [apply swap_fine, Cm|apply fine_refl]. }
  destruct Sw as (a & b & Eab & F0 & _). rewrite Eab in H. clear Eab.
  assert (Alu : forall a1 b1, fineP n C (Bin o d a b) n [Bin o d a1 b1] -> (o = GAdd \/ o = GAnd \/ o = GOr \/ o = GXor) ->
     (let '(n1, l1, a2) := imm2reg n a1 in match o, b1 with
    | GAnd, OI z _ =>
      if z =? 65535 then (n1, l1, R1 ZEXT_H d a2)
      else if z =? 4294967295 then (n1, l1, R1 ZEXT_W d a2)
      else let '(n2, l2, b2) := largeImm2reg n1 b1 in (n2, l1 ++ l2, Bin o d a2 b2)
    | _, _ => let '(n2, l2, b2) := largeImm2reg n1 b1 in (n2, l1 ++ l2, Bin o d a2 b2)
     end) = (n', l', i') -> fineP n C (Bin o d a0 b0) n' (l' ++ [i']) /\ shAmt i' = true).
  { intros a1 b1 F1 Ho Hh. destruct (imm2reg n a1) as [[n1 l1] a2] eqn:Im. split.
    - eapply fine_pre1; [exact F0|]. eapply fine_pre1; [exact F1|]. eapply legAlu_fine; [exact Im|exact Hh].
    - destruct (largeImm2reg n1 b1) as [[n2 l2] b2]. destruct Ho as [-> | [-> | [-> | ->]]]; cbn in Hh; try (injection Hh as <- <- <-; reflexivity).
      destruct b1; [injection Hh as <- <- <-; reflexivity|]. destruct (z =? 65535), (z =? 4294967295); injection Hh as <- <- <-; reflexivity. }
  assert (Two : forall n1 l1 a1 n2 l2 b1, imm2reg n a = (n1, l1, a1) -> mat n1 b n2 l2 b1 -> (n2, l1 ++ l2, Bin o d a1 b1) = (n', l', i') -> fineP n C (Bin o d a0 b0) n' (l' ++ [i'])).
  { intros n1 l1 a1 n2 l2 b1 M1 M2 Hh. injection Hh as <- <- <-. eapply fine_pre1; [exact F0|]. eapply bin2_fine; [left; exact M1|exact M2]. }
  assert (OneM : forall n1 l1 a1, imm2reg n a = (n1, l1, a1) -> (n1, l1, Bin o d a1 b) = (n', l', i') -> fineP n C (Bin o d a0 b0) n' (l' ++ [i'])).
  { intros n1 l1 a1 M1 Hh. injection Hh as <- <- <-. eapply fine_pre1; [exact F0|]. apply binL_fine. left. exact M1. }
  destruct o.
  1,8,9,10: (match type of H with (let '(a1, b1) := (if ?t then _ else _) in _) = _ => destruct t eqn:T end; (eapply Alu; [|tauto|exact H]); [apply swap_fine; reflexivity || (cbn in T; discriminate T)|apply fine_refl]).
  7,8,9: (destruct (imm2reg n a) as [[n1 l1] a1] eqn:Im; destruct b as [q|z t]; [split; [eapply OneM; [reflexivity|exact H]|]; injection H as <- <- <-; reflexivity|];
    destruct ((0 <=? z) && (z <? 32)) eqn:Ez; [split; [eapply OneM; [reflexivity|exact H]|]; injection H as <- <- <-; exact Ez|];
    destruct (imm2reg n1 (OI z t)) as [[n2 l2] b2] eqn:Im2; (split; [eapply Two; [reflexivity|left; exact Im2|exact H]|]);
    injection H as <- <- <-; apply imm2reg_R in Im2; destruct b2; [reflexivity|discriminate]).
  7,8: (destruct (imm2reg n a) as [[n1 l1] a1] eqn:Im; destruct (imm2reg n1 b) as [[n2 l2] b2] eqn:Im2;
    (split; [eapply Two; [reflexivity|left; exact Im2|exact H]|]); injection H as <- <- <-; reflexivity).
  - (* sub *)
    destruct (imm2reg n a) as [[n1 l1] a1] eqn:Im. destruct b as [q|z t].
    + split; [eapply OneM; [reflexivity|exact H]|]. injection H as <- <- <-. reflexivity.
    + destruct (imm12 (- z)) eqn:Iz.
      * injection H as <- <- <-. split; [|reflexivity]. eapply fine_pre1; [exact F0|]. eapply fine_trans; [apply binL_fine; left; exact Im|].
        eapply fineV1; [reflexivity|reflexivity|auto| |].
        -- intros P. okd P. destruct WT as (Ta & Tb & [Tw | (T1 & T2 & T3)]); [discriminate|]. split; [|split; [reflexivity|exact ND]].
           destruct Tb as [Lb Ib]. split; [exact Ta|]. split; [|right; auto]. split; [exact Lb|]. cbn [immOk oty wideI] in *. unfold imm12 in Iz.
           destruct T3 as [-> | ->]; cbn [inR bits] in *; lia.
        -- vs. destruct WT as (Ta & Tb & [Tw | (T1 & T2 & T3)]); [discriminate|]. apply okOpI in Tb as [Hu _]. rewrite <- E. cbn [val gbinV option_map].
           assert (Hn' : inR t (- z)) by (cbn [wideI] in T3; unfold imm12 in Iz; destruct T3 as [-> | ->]; cbn [inR bits] in *; lia).
           rewrite (proj2 (opvI s _ _ Hu)), (proj2 (opvI s _ _ Hn')). do 2 f_equal; try lia.
      * destruct (imm2reg n1 (OI z t)) as [[n2 l2] b2] eqn:Im2. split; [eapply Two; [reflexivity|left; exact Im2|exact H]|]. injection H as <- <- <-. reflexivity.
  - destruct (imm2reg n a) as [[n1 l1] a1] eqn:Im. cbn [andb] in H. destruct (imm2reg n1 b) as [[n2 l2] b2] eqn:Im2.
    split; [eapply Two; [reflexivity|left; exact Im2|exact H]|]. injection H as <- <- <-. reflexivity.
  - destruct (imm2reg n a) as [[n1 l1] a1] eqn:Im. cbn [andb] in H. destruct (constDiv b).
    + split; [eapply OneM; [reflexivity|exact H]|]. injection H as <- <- <-. reflexivity.
    + destruct (imm2reg n1 b) as [[n2 l2] b2] eqn:Im2. split; [eapply Two; [reflexivity|left; exact Im2|exact H]|]. injection H as <- <- <-. reflexivity.
  - destruct (imm2reg n a) as [[n1 l1] a1] eqn:Im. cbn [andb] in H. destruct (constDiv b).
    + split; [eapply OneM; [reflexivity|exact H]|]. injection H as <- <- <-. reflexivity.
    + destruct (imm2reg n1 b) as [[n2 l2] b2] eqn:Im2. split; [eapply Two; [reflexivity|left; exact Im2|exact H]|]. injection H as <- <- <-. reflexivity.
  - destruct (imm2reg n a) as [[n1 l1] a1] eqn:Im. cbn [andb] in H. destruct (imm2reg n1 b) as [[n2 l2] b2] eqn:Im2.
    split; [eapply Two; [reflexivity|left; exact Im2|exact H]|]. injection H as <- <- <-. reflexivity.
  - destruct (imm2reg n a) as [[n1 l1] a1] eqn:Im. cbn [andb] in H. destruct (imm2reg n1 b) as [[n2 l2] b2] eqn:Im2.
    split; [eapply Two; [reflexivity|left; exact Im2|exact H]|]. injection H as <- <- <-. reflexivity.
Qed.

Lemma neg_fine n C d a : fineP n C (Un GNeg d a) n [Bin GSub d (OR (X0 (oty a))) a].
Proof.
  eapply fineV1; [reflexivity|reflexivity| | |].
  - intros r Hr. cbn [uses oreg app] in *. destruct Hr as [<- | Hr]; auto.
  - intros P. okd P. destruct WT as (Ia & L & Wd & Wa). split; [|split; [reflexivity|exact ND]].
    split; [split; [exact L|exact I]|]. split; [split; assumption|]. right. split; [exact Wd|]. split; [exact I|exact Wa].
  - vs. cbn [val] in *. rewrite <- E. rewrite rd_X0. reflexivity.
Qed.
Lemma unM_fine n C o d a n1 l1 a1 : imm2reg n a = (n1, l1, a1) -> fineP n C (Un o d a) n1 (l1 ++ [Un o d a1]).
Proof.
  intros M. assert (M' : mat n a n1 l1 a1) by (left; exact M).
  apply (mat_fine' n C (fun x => Un o d x) a n1 l1 a1 d [] M'); [reflexivity| | |].
  - intros x r. cbn [uses In]. tauto.
  - intros P. okd P. destruct WT as (Ia & Wo). split; [apply imm_B, Ia|]. destruct (mat_ty _ _ _ _ _ M' Ia) as [Ty I1].
    split; [|split; [reflexivity|exact ND]]. split; [exact I1|]. destruct o; rewrite ?Ty; auto.
    + destruct Wo as (A & B & D). repeat split; auto. eapply mat_wideI; eauto.
    + destruct Wo as (A & B & D). repeat split; auto. eapply mat_wideI; eauto.
  - intros P s t K Er. okd P. destruct WT as (Ia & Wo). destruct (mat_ty _ _ _ _ _ M' Ia) as [Ty I1]. cbn [val]. rewrite Ty, Er. reflexivity.
Qed.
Lemma zext1_fine n C d a : oty a = B1 -> fineP n C (Un GZExt d a) n [Un GCopy d a].
Proof.
  intros Ty. eapply fineV1; [reflexivity|reflexivity|auto| |].
  - intros P. okd P. destruct WT as (Ia & L). split; [|split; [reflexivity|exact ND]]. split; [exact Ia|]. cbn [wt]. lia.
  - vs. cbn [val gunV] in *. rewrite <- E. destruct WT as (Ia & L). pose proof (rd_holds s a Ws Ia) as Ha. apply holds_s64 in Ha as [_ Ha]. rewrite Ty in *. cbn [inR bits] in *.
    do 2 f_equal. change (2 ^ 1) with 2. lia.
Qed.
Lemma rev_fine n C c d a b : (isEquality c = true -> isR a = false) -> fineP n C (Cmp c d a b) n [Cmp (revI c) d b a].
Proof.
  intros Ec. eapply fineV1; [reflexivity|reflexivity| | |].
  - intros r Hr. cbn [uses] in *. rewrite in_app_iff in *. tauto.
  - intros P. okd P. destruct WT as (Ia & Ib & Wc). split; [|split; [reflexivity|exact ND]]. split; [exact Ib|]. split; [exact Ia|].
    destruct c; cbn [revI isEquality] in *; auto.
    + rewrite (Ec eq_refl) in Wc. destruct Wc as [[_ Wc] | (T & A & B)]; [discriminate|]. right. auto.
    + rewrite (Ec eq_refl) in Wc. destruct Wc as [[_ Wc] | (T & A & B)]; [discriminate|]. right. auto.
    + destruct Wc as [[A B] | (T & A & B)]; auto.
    + destruct Wc as [[A B] | (T & A & B)]; auto.
  - vs. cbn [val] in *. rewrite <- E. unfold cmpV. rewrite doCompare_rev. reflexivity.
Qed.
Lemma tighten_fine n C c d a b c' b' : tighten c b = Some (c', b') -> fineP n C (Cmp c d a b) n [Cmp c' d a b'].
Proof.
  intros H. destruct b as [r|z t]; [cbn in H; injection H as <- <-; apply fine_refl|].
  assert (Main : pre n C (Cmp c d a (OI z t)) -> (exists z', b' = OI z' t /\ B64 z') /\ forall s : st, wfst s -> cmpV c' (rd s a) (rd s b') = cmpV c (rd s a) (rd s (OI z t))).
  { intros P. okd P. destruct WT as (Ia & Ib & Wc).
    assert (Cs : (c = Iule \/ c = Iuge) \/ (c <> Iule /\ c <> Iuge)) by (destruct c; auto; right; split; discriminate).
    assert (Hz : forall y, inR t y -> inR t z -> exists z', b' = OI z' t /\ B64 z' /\ doCompare c' y z' = doCompare c y z) by (intros; eapply tighten_ok; eauto).
    assert (Hs : c <> Iule /\ c <> Iuge -> forall y, B64 y -> exists z', b' = OI z' t /\ B64 z' /\ doCompare c' y z' = doCompare c y z) by (intros [N1 N2] y By; eapply (tighten_signed c z t c' b' y); auto).
    destruct Cs as [Cs | Cs].
    - assert (T : oty a = t /\ immOk a /\ inR t z). { destruct Cs as [-> | ->]; destruct Wc as [[_ Wc] | Wc]; try discriminate Wc; exact Wc. }
      destruct T as (Ty & Ia' & Iz). split.
      + destruct (Hz 0) as (z' & E & B & _); [destruct t; cbn; lia|exact Iz|eauto].
      + intros s Ws. pose proof (rd_holds s a Ws Ia') as Ha. apply holds_s64 in Ha as [Ea Ha]. rewrite Ty in Ha. destruct (Hz _ Ha Iz) as (z' & -> & B & Dc).
        cbn [rd]. unfold cmpV. rewrite !s64_u64 by (assumption || (eapply inR_64; eauto)). exact Dc.
    - split.
      + destruct (Hs Cs 0) as (z' & E & B & _); [unfold B64; lia|eauto].
      + intros s Ws. destruct (opB s a Ws Ia) as (x & Ex & Bx & Sx). destruct (Hs Cs x Bx) as (z' & -> & B & Dc).
        cbn [rd]. unfold cmpV. rewrite Sx, !s64_u64 by assumption. exact Dc. }
  eapply fineV1; [reflexivity|reflexivity| | |].
  - intros r Hr. right. left. cbn [uses] in *. rewrite in_app_iff in *. destruct Hr as [Hr | Hr]; [auto|].
    destruct b' as [q|z' t']; [|destruct Hr]. exfalso. destruct c; cbn [tighten] in H; try discriminate H;
      destruct t; cbn [maxS minS maxU unsImm] in H; try discriminate; match type of H with context[if ?x then _ else _] => destruct x end; discriminate H.
  - intros P. destruct (Main P) as ((z' & -> & Bz) & _). okd P. destruct WT as (Ia & Ib & Wc). split; [|split; [reflexivity|exact ND]].
    split; [exact Ia|]. split; [exact Bz|].
    assert (Eq : (c' = c /\ OI z' t = OI z t) \/ (c' <> Ieq /\ c' <> Ine /\ c' <> Iule /\ c' <> Iuge)).
    { destruct c; cbn [tighten] in H; try (injection H as <- <-; auto);
      destruct t; cbn [maxS minS maxU unsImm] in H; try discriminate; match type of H with context[if ?x then _ else _] => destruct x end; injection H as <- <-; auto; right; repeat split; discriminate. }
    destruct Eq as [[-> Ez] | (N1 & N2 & N3 & N4)]; [injection Ez as ->; exact Wc|]. destruct c'; congruence || exact I.
  - vs. destruct (Main (conj HS (conj (conj WT (conj EN ND)) (conj HB (conj HI Hn))))) as (_ & M). cbn [val] in *. rewrite (M s Ws). exact E.
Qed.
Lemma mat_zero n o n1 l1 o1 : mat n o n1 l1 o1 -> isZero o = true -> isZero o1 = true.
Proof.
  clear opq. intros [H | (_ & _ & ->)] I; [|auto]. unfold imm2reg in H. destruct o as [r|z t]; [injection H as <- <- <-; exact I|].
  cbn [isZero] in I. rewrite I in H. injection H as <- <- <-. reflexivity.
Qed.
Lemma cmpL_fine n C c d a b n1 l1 a1 : imm2reg n a = (n1, l1, a1) -> fineP n C (Cmp c d a b) n1 (l1 ++ [Cmp c d a1 b]).
Proof.
  intros M. assert (M' : mat n a n1 l1 a1) by (left; exact M). pose proof (imm2reg_R _ _ _ _ _ M) as Ra.
  apply (mat_fine' n C (fun x => Cmp c d x b) a n1 l1 a1 d (oreg b) M'); [reflexivity| | |].
  - intros x r. cbn [uses]. apply in_app_iff.
  - intros P. okd P. destruct WT as (Ia & Ib & Wc). split; [exact Ia|]. split; [|split; [reflexivity|exact ND]].
    split; [eapply mat_immB; eauto|]. split; [exact Ib|].
    assert (Tr : oty a = oty b /\ immOk a /\ immOk b -> oty a1 = oty b /\ immOk a1 /\ immOk b).
    { intros (T & A & B). destruct (mat_ty _ _ _ _ _ M' A) as [E I1]. rewrite E. auto. }
    destruct c; auto; destruct Wc as [[A B] | T]; auto.
  - intros P s t K Er. cbn [val]. rewrite Er, (rd_same s t b K). reflexivity.
Qed.
Lemma cmpR_fine n C c d a b n1 l1 b1 : mat n b n1 l1 b1 -> isR a = true -> fineP n C (Cmp c d a b) n1 (l1 ++ [Cmp c d a b1]).
Proof.
  intros M Ra. apply (mat_fine' n C (fun x => Cmp c d a x) b n1 l1 b1 d (oreg a) M); [reflexivity| | |].
  - intros x r. cbn [uses]. rewrite in_app_iff. tauto.
  - intros P. okd P. destruct WT as (Ia & Ib & Wc). split; [exact Ib|]. split; [|split; [reflexivity|exact ND]].
    split; [exact Ia|]. split; [eapply mat_immB; eauto|].
    assert (Tr : oty a = oty b /\ immOk a /\ immOk b -> oty a = oty b1 /\ immOk a /\ immOk b1).
    { intros (T & A & B). destruct (mat_ty _ _ _ _ _ M B) as [E I1]. rewrite E. auto. }
    destruct c; auto; destruct Wc as [[A B] | T]; auto; left; split; first [assumption | eapply mat_zero; eassumption | eapply mat_R; eassumption].
  - intros P s t K Er. cbn [val]. rewrite Er, (rd_same s t a K). reflexivity.
Qed.
Lemma eq_fine n C c d a b : isEquality c = true -> isZero b = false -> isR a = true ->
  fineP n C (Cmp c d a b) (S n) [Bin GXor (Rg n (oty a)) a b; Cmp c d (OR (Rg n (oty a))) (OR (X0 (oty b)))].
Proof.
  intros Ec Zb Ra. assert (Ty : pre n C (Cmp c d a b) -> okOp (oty a) a /\ okOp (oty a) b).
  { intros P. okd P. destruct WT as (_ & _ & Wc). destruct c; try discriminate Ec; (destruct Wc as [[A _] | (T & A & B)]; [congruence|]);
      (split; (split; [|assumption])); rewrite ?T; lia. }
  eapply fineV2; [reflexivity|reflexivity|reflexivity| | | |].
  - intros r Hr. right. left. exact Hr.
  - intros r Hr. cbn [uses oreg app In] in Hr. destruct Hr as [<- | [<- | []]]; auto.
  - intros P. destruct (Ty P) as [Ta Tb]. okd P. split.
    + split; [|split; [reflexivity|intros r [<- | []]; cbn; lia]]. split; [exact Ta|]. split; [exact Tb|]. left. reflexivity.
    + split; [|split; [reflexivity|exact ND]]. split; [exact I|]. split; [exact I|]. destruct c; try discriminate Ec; left; split; reflexivity.
  - intros P s v Ws HD E Hv. destruct (Ty P) as [Ta Tb]. okd P.
    destruct (opv s _ a Ws Ta) as (x & Ex & Hx & Sx). destruct (opv s _ b Ws Tb) as (y & Ey & Hy & Sy).
    exists (canon (oty a) (Z.lxor x y)). split; [cbn [val gbinV option_map rty]; rewrite Sx, Sy; reflexivity|].
    split; [apply holds_canon|]. intros _. cbn [val] in *. rewrite <- E. rewrite rd_tmp by lia. rewrite rd_X0. do 2 f_equal. unfold cmpV.
    rewrite s64_canon, norm_small by (apply inR_lxor; assumption). change (s64 0) with 0. rewrite Sx, Sy.
    assert (Q : (Z.lxor x y =? 0) = (x =? y)). { destruct (x =? y) eqn:Q. - assert (x = y) as -> by lia. rewrite Z.lxor_nilpotent. reflexivity. - apply Z.eqb_neq. intros Z0. apply Z.lxor_eq in Z0. lia. }
    destruct c; try discriminate Ec; cbn [doCompare]; rewrite Q; reflexivity.
Qed.
Lemma legCmp_fine n C c d a b n' l' i' : legCmp n c d a b = Some (n', l', i') -> fineP n C (Cmp c d a b) n' (l' ++ [i']) /\ shAmt i' = true.
Proof.
  intros H. unfold legCmp in H.
  assert (S1 : exists c1 a1 b1, (if negb (isLess c) && negb (isR a) && isR b then (revI c, b, a) else (c, a, b)) = (c1, a1, b1) /\ fineP n C (Cmp c d a b) n [Cmp c1 d a1 b1]).
  { destruct (negb (isLess c) && negb (isR a) && isR b) eqn:E; eexists _, _, _; (split; [reflexivity|]); [|apply fine_refl].
    apply rev_fine. intros _. bools. destruct (isR a); [discriminate|reflexivity]. }
  destruct S1 as (c1 & a1 & b1 & E1 & F1). rewrite E1 in H. clear E1.
  destruct (tighten c1 b1) as [[c2 b2]|] eqn:Ti; [|discriminate].
  pose proof (tighten_fine n C c1 d a1 b1 c2 b2 Ti) as F2.
  assert (S3 : exists c3 a3 b3, (if isGreater c2 then (revI c2, b2, a1) else (c2, a1, b2)) = (c3, a3, b3) /\ fineP n C (Cmp c2 d a1 b2) n [Cmp c3 d a3 b3]).
  { destruct (isGreater c2) eqn:E; eexists _, _, _; (split; [reflexivity|]); [|apply fine_refl].
    apply rev_fine. intros Q. destruct c2; discriminate. }
  destruct S3 as (c3 & a3 & b3 & E3 & F3). rewrite E3 in H. clear E3.
  destruct (imm2reg n a3) as [[n1 l1] a4] eqn:Im. pose proof (imm2reg_R _ _ _ _ _ Im) as Ra.
  pose proof (cmpL_fine n C c3 d a3 b3 n1 l1 a4 Im) as F4.
  destruct (isEquality c3 && negb (isZero b3)) eqn:Eq.
  - apply andb_prop in Eq as [Eq Zb]. destruct (isZero b3) eqn:Zb'; [discriminate|]. injection H as <- <- <-. split; [|reflexivity].
    eapply fine_pre1; [exact F1|]. eapply fine_pre1; [exact F2|]. eapply fine_pre1; [exact F3|].
    rewrite <- app_assoc. eapply fine_trans; [exact F4|]. cbn [app]. apply eq_fine; assumption.
  - destruct (match c3 with Iule => imm2reg n1 b3 | _ => largeImm2reg n1 b3 end) as [[n2 l2] b4] eqn:M. injection H as <- <- <-. split; [|reflexivity].
    assert (M' : mat n1 b3 n2 l2 b4). { destruct c3; try (apply large_mat; exact M). left. exact M. }
    eapply fine_pre1; [exact F1|]. eapply fine_pre1; [exact F2|]. eapply fine_pre1; [exact F3|].
    rewrite <- app_assoc. eapply fine_trans; [exact F4|]. apply cmpR_fine; assumption.
Qed.
Lemma sel_fine n C d c a b n1 l1 c1 : imm2reg n c = (n1, l1, c1) -> fineP n C (Sel d c a b) n1 (l1 ++ [Sel d c1 a b]).
Proof.
  intros M. assert (M' : mat n c n1 l1 c1) by (left; exact M).
  apply (mat_fine' n C (fun x => Sel d x a b) c n1 l1 c1 d (oreg a ++ oreg b) M'); [reflexivity| | |].
  - intros x r. cbn [uses]. apply in_app_iff.
  - intros P. okd P. destruct WT as (Ic & Ta & Tb). split; [apply imm_B, Ic|]. split; [|split; [reflexivity|exact ND]].
    split; [apply (mat_ty _ _ _ _ _ M' Ic)|]. auto.
  - intros P s t K Er. cbn [val]. rewrite Er.
    assert (Sa : rd s a = rd t a) by (apply rd_same; intros r Hr; apply K, in_or_app; auto).
    assert (Sb : rd s b = rd t b) by (apply rd_same; intros r Hr; apply K, in_or_app; auto). rewrite Sa, Sb. reflexivity.
Qed.
Theorem legalize_fine C n i n1 l1 i1 : legalize C n i = Some (n1, l1, i1) -> fineP n C i n1 (l1 ++ [i1]) /\ shAmt i1 = true.
Proof.
  intros H. destruct i; cbn [legalize] in H.
  1: { injection H as H. apply legBin_fine. exact H. }
  1: { destruct o.
    - injection H as <- <- <-. split; [apply neg_fine|reflexivity].
    - destruct (imm2reg n a) as [[n2 l2] a2] eqn:Im. injection H as <- <- <-. split; [apply unM_fine; exact Im|reflexivity].
    - destruct (imm2reg n a) as [[n2 l2] a2] eqn:Im. injection H as <- <- <-. split; [|reflexivity].
      pose proof (unM_fine n C GZExt d a n2 l2 a2 Im) as F. destruct (oty a2) eqn:T; try exact F.
      eapply fine_trans; [exact F|]. apply zext1_fine, T.
    - destruct (imm2reg n a) as [[n2 l2] a2] eqn:Im. injection H as <- <- <-. split; [apply unM_fine; exact Im|reflexivity].
    - destruct (imm2reg n a) as [[n2 l2] a2] eqn:Im. injection H as <- <- <-. split; [apply unM_fine; exact Im|reflexivity].
    - injection H as <- <- <-. split; [apply fine_refl|reflexivity]. }
  1: { apply (legCmp_fine n C c d a b). exact H. }
  2: { destruct (imm2reg n c) as [[n2 l2] c2] eqn:Im. injection H as <- <- <-. split; [apply sel_fine; exact Im|reflexivity]. }
  all: injection H as <- <- <-; split; [apply fine_refl|reflexivity].
Qed.

(** ** legalization followed by the first pattern that matches *)
Lemma firstMatch_fine C n i n' l : firstMatch patterns C n i = Some (n', l) -> defect C i = false -> shAmt i = true -> fineP n C i n' l.
Proof.
  intros H D A.
  assert (G : forall ps, (forall p, In p ps -> p = pShift \/ patOk opq p) -> firstMatch ps C n i = Some (n', l) -> fineP n C i n' l).
  { induction ps as [|p ps IH]; intros Hp Hm; cbn [firstMatch] in Hm; [discriminate|].
    destruct (p C n i) as [[n2 l2]|] eqn:E; [|apply IH; [intros q Hq; apply Hp; right; exact Hq|exact Hm]].
    injection Hm as -> ->. destruct (Hp p (or_introl eq_refl)) as [-> | Ok]; [apply pShift_ok; assumption|]. apply Ok; assumption. }
  apply (G patterns); [|exact H]. clear H G. intros p Hp. unfold patterns in Hp. cbn [In] in Hp.
  repeat (destruct Hp as [<- | Hp]); try contradiction;
    first [left; reflexivity | right; first [apply pLoadImm_ok | apply pShAddL_ok; lia | apply pShAddR_ok; lia | apply pAdd_ok | apply pAndn_ok | apply pOrn_ok | apply pXnorL_ok | apply pXnorR_ok
     | apply pLogic_ok | apply pNegAbs_ok | apply pSub_ok | apply pMinMax_ok | apply pArith_ok | apply pFuseShift_ok | apply pMask_ok | apply pCmp_ok | apply pExt_ok | apply pBranch_ok | apply pSubSub_ok
     | apply pSfb_ok | apply pSelect_ok | apply pInvSel_ok | apply pConst_ok]].
Qed.
End Leg.
(** the defects seen by matchAndSelect: those of the legalized instruction *)
Definition defectAt (C : ctx) (n : nat) (i : inst) : bool :=
  match legalize C n i with Some (_, _, i1) => defect C i1 | None => false end.
Theorem matchAndSelect_fine {W} (opq : nat -> list Z -> W -> W * (reg -> Z)) C n i n' l :
  matchAndSelect C n i = Some (n', l) -> defectAt C n i = false -> fineP opq n C i n' l.
Proof.
  intros H D. unfold matchAndSelect, defectAt in *. destruct (legalize C n i) as [[[n1 l1] i1]|] eqn:L; [|discriminate].
  destruct (legalize_fine opq C n i n1 l1 i1 L) as [F A]. destruct (firstMatch patterns C n1 i1) as [[n2 l2]|] eqn:M.
  - injection H as <- <-. eapply fine_trans; [exact F|]. apply firstMatch_fine; assumption.
  - injection H as <- <-. exact F.
Qed.
