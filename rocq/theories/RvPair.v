(** C31, continued: proofs for the passes that pair memory accesses (RISCVScheduleModel.cpp:502-701). *)
From Coq Require Import ZArith Lia Bool ZifyBool List Arith.
From Verif Require Import Word Rv64 RvMachine RvPeephole RvFold.
Import ListNotations.
Local Open Scope Z_scope.

(** ** Bytes *)
Lemma stBytes_app n k : forall m a v,
  stBytes (n + k) m a v = stBytes k (stBytes n m a v) (a + Z.of_nat n) (v / 256 ^ Z.of_nat n).
Proof.
  induction n as [|n IH]; intros m a v.
  - cbn [stBytes Nat.add Z.of_nat]. rewrite Z.add_0_r. change (256 ^ 0) with 1. rewrite Z.div_1_r. reflexivity.
  - cbn [stBytes Nat.add]. rewrite IH. rewrite Nat2Z.inj_succ, Z.pow_succ_r by lia.
    rewrite Z.div_div by (try lia; apply Z.pow_pos_nonneg; lia).
    replace (a + 1 + Z.of_nat n) with (a + Z.succ (Z.of_nat n)) by lia. reflexivity.
Qed.
Lemma stBytes_mod n m : forall a v v', v mod 256 ^ Z.of_nat n = v' mod 256 ^ Z.of_nat n ->
  stBytes n m a v = stBytes n m a v'.
Proof.
  revert m. induction n as [|n IH]; intros m a v v' H; [reflexivity|]. cbn [stBytes].
  rewrite Nat2Z.inj_succ, Z.pow_succ_r in H by lia.
  assert (P : 0 < 256 ^ Z.of_nat n) by (apply Z.pow_pos_nonneg; lia).
  rewrite !Z.rem_mul_r in H by lia.
  pose proof (Z.mod_pos_bound v 256 ltac:(lia)). pose proof (Z.mod_pos_bound v' 256 ltac:(lia)).
  set (A := (v / 256) mod 256 ^ Z.of_nat n) in *. set (B := (v' / 256) mod 256 ^ Z.of_nat n) in *.
  set (x := v mod 256) in *. set (y := v' mod 256) in *.
  assert (E : x = y) by (clearbody A B x y; clear - H H0 H1; lia).
  rewrite E. apply IH. fold A B. clearbody A B x y. clear - H E. lia.
Qed.
Lemma stBytes_addr n m : forall a a' v, u64 a = u64 a' -> stBytes n m a v = stBytes n m a' v.
Proof.
  revert m. induction n as [|n IH]; intros m a a' v H; [reflexivity|]. cbn [stBytes]. rewrite H. apply IH.
  unfold u64 in *. rewrite Z.add_mod, H, <- Z.add_mod by lia. reflexivity.
Qed.
Lemma ldBytes_app n k m : forall a, ldBytes (n + k) m a = ldBytes n m a + 256 ^ Z.of_nat n * ldBytes k m (a + Z.of_nat n).
Proof.
  induction n as [|n IH]; intros a.
  - cbn [ldBytes Nat.add Z.of_nat]. rewrite Z.add_0_r. change (256 ^ 0) with 1. lia.
  - cbn [ldBytes Nat.add]. rewrite IH. rewrite Nat2Z.inj_succ, Z.pow_succ_r by lia.
    replace (a + 1 + Z.of_nat n) with (a + Z.succ (Z.of_nat n)) by lia. ring.
Qed.
Lemma two_words m a lo hi : stBytes 8 m a (u64 (u32 lo + u64 (hi * 2 ^ 32))) = stBytes 4 (stBytes 4 m a lo) (a + 4) hi.
Proof.
  rewrite (stBytes_app 4 4). change (Z.of_nat 4) with 4. change (256 ^ 4) with 4294967296. change (2 ^ 32) with 4294967296.
  assert (E : u64 (u32 lo + u64 (hi * 4294967296)) = u32 lo + 4294967296 * u32 hi) by (unfold u64, u32; lia).
  rewrite E. rewrite (stBytes_mod 4 m a _ lo).
  - apply stBytes_mod. change (Z.of_nat 4) with 4. change (256 ^ 4) with 4294967296. unfold u32. lia.
  - change (Z.of_nat 4) with 4. change (256 ^ 4) with 4294967296. unfold u32. lia.
Qed.
Lemma two_zeros m a : stBytes 8 m a 0 = stBytes 4 (stBytes 4 m a 0) (a + 4) 0.
Proof. rewrite (stBytes_app 4 4). reflexivity. Qed.
Lemma two_loads m a : Rv.SEXT_W (ldBytes 8 m a) = Rv.w (ldBytes 4 m a) /\
  Rv.SRAI (ldBytes 8 m a) 32 = Rv.w (ldBytes 4 m (a + 4)).
Proof.
  rewrite (ldBytes_app 4 4). change (Z.of_nat 4) with 4. change (256 ^ 4) with 4294967296.
  pose proof (ldBytes_rng 4 m a) as A. pose proof (ldBytes_rng 4 m (a + 4)) as B.
  change (Z.of_nat 4) with 4 in *. change (256 ^ 4) with 4294967296 in *.
  set (x := ldBytes 4 m a) in *. set (y := ldBytes 4 m (a + 4)) in *. clearbody x y.
  split; [apply w_eq; unfold u32; lia|]. unfold Rv.SRAI, Rv.w. f_equal. change (2 ^ 32) with 4294967296.
  unfold s64, s32. lia.
Qed.

(** ** Runs that agree except on fresh registers *)
Definition below (f : nat) (i : instr) : Prop :=
  (forall d, dst i = Some d -> (d < f)%nat) /\ forall x, In x (uses i) -> (x < f)%nat.
Definition agree (f : nat) (s s' : state) : Prop :=
  Mm s = Mm s' /\ tr s = tr s' /\ forall x, (x < f)%nat -> rd (R s) x = rd (R s') x.

Lemma agree_wr f s s' k k' d v m t : agree f s s' -> agree f (St_ k (wr (R s) d v) m t) (St_ k' (wr (R s') d v) m t).
Proof.
  intros (_ & _ & A). repeat split; cbn [Mm tr R]; try reflexivity. intros x L. rewrite !rd_wr.
  destruct (Nat.eqb x zero); [reflexivity|]. destruct (Nat.eqb x d); [reflexivity|apply A, L].
Qed.
Lemma agree_exec e f i s s' : below f i -> agree f s s' -> agree f (exec1 e i s) (exec1 e i s').
Proof.
  intros [_ U] A. pose proof A as (M & T & X).
  assert (UX : forall x, In x (uses i) -> rd (R s) x = rd (R s') x) by (intros x Hx; apply X, U, Hx).
  destruct i as [o d a b | o d a c | o d a | d v | o d off base | o v off base | o a b t | t | id d us |];
    cbn [exec1 uses] in *; rewrite <- ?M, <- ?T.
  - rewrite <- (UX a), <- (UX b) by (cbn; tauto). apply agree_wr, A.
  - rewrite <- (UX a) by (cbn; tauto). apply agree_wr, A.
  - rewrite <- (UX a) by (cbn; tauto). apply agree_wr, A.
  - apply agree_wr, A.
  - rewrite <- (UX base) by (cbn; tauto). apply agree_wr, A.
  - rewrite <- (UX base), <- (UX v) by (cbn; tauto). repeat split; cbn [Mm tr R]; auto.
  - repeat split; cbn [Mm tr R]; auto.
  - repeat split; cbn [Mm tr R]; auto.
  - assert (E : map (rd (R s)) us = map (rd (R s')) us) by (apply map_ext_in; exact UX). rewrite <- E.
    destruct (ext e id (map (rd (R s)) us) (Mm s)) as [v m].
    destruct d as [d|]; [apply agree_wr, A|]. repeat split; cbn [Mm tr R]; auto.
  - repeat split; cbn [Mm tr R]; auto.
Qed.
Lemma runB_app e l l' s : runB e (l ++ l') s = runB e l' (runB e l s).
Proof. apply fold_left_app. Qed.
Lemma runB_cons e i l s : runB e (i :: l) s = runB e l (exec1 e i s).
Proof. reflexivity. Qed.
Lemma agree_run e f l : forall s s', Forall (below f) l -> agree f s s' -> agree f (runB e l s) (runB e l s').
Proof.
  induction l as [|i l IH]; intros s s' B A; [exact A|]. rewrite !runB_cons. inversion B; subst.
  apply IH; [assumption|]. apply agree_exec; assumption.
Qed.
Lemma agree_refl f s : agree f s s. Proof. repeat split. Qed.
Lemma agree_trans f s t u : agree f s t -> agree f t u -> agree f s u.
Proof. intros (A & B & C) (A' & B' & C'). split; [congruence|]. split; [congruence|]. intros x L. rewrite C, C' by exact L. reflexivity. Qed.

(** pure instructions: neither read nor write memory *)
Definition pure (i : instr) : Prop := sideEffect i = false.
Lemma pure_exec e i s : pure i -> Mm (exec1 e i s) = Mm s /\ tr (exec1 e i s) = tr s.
Proof. intros P. destruct i; try discriminate P; split; reflexivity. Qed.
Lemma pure_run e l : forall s, Forall pure l -> Mm (runB e l s) = Mm s /\ tr (runB e l s) = tr s.
Proof.
  induction l as [|i l IH]; intros s P; [split; reflexivity|]. inversion P; subst. rewrite runB_cons.
  destruct (IH (exec1 e i s) H2) as [A B]. destruct (pure_exec e i s H1) as [C D]. split; congruence.
Qed.
(** registers after a pure run only depend on the registers before *)
Definition sameR (f : nat) (s s' : state) : Prop := forall x, (x < f)%nat -> rd (R s) x = rd (R s') x.
Lemma pure_regs e f l : forall s s', Forall pure l -> Forall (below f) l -> sameR f s s' -> sameR f (runB e l s) (runB e l s').
Proof.
  induction l as [|i l IH]; intros s s' P B S; [exact S|]. inversion P; subst. inversion B; subst. rewrite !runB_cons.
  apply IH; try assumption. clear IH.
  destruct H3 as [_ U].
  assert (UX : forall x, In x (uses i) -> rd (R s) x = rd (R s') x) by (intros x Hx; apply S, U, Hx).
  assert (W : forall d v k k' m m' t t', sameR f (St_ k (wr (R s) d v) m t) (St_ k' (wr (R s') d v) m' t')).
  { intros d v k k' m m' t t' x L. cbn [R]. rewrite !rd_wr. destruct (Nat.eqb x zero); [reflexivity|].
    destruct (Nat.eqb x d); [reflexivity|apply S, L]. }
  destruct i as [o d a b | o d a c | o d a | d v | o d off base | o v off base | o a b t | t | id d us |];
    try discriminate H1; cbn [exec1 uses] in *.
  - rewrite <- (UX a), <- (UX b) by (cbn; tauto). apply W.
  - rewrite <- (UX a) by (cbn; tauto). apply W.
  - rewrite <- (UX a) by (cbn; tauto). apply W.
  - apply W.
  - exact S.
Qed.
Lemma run_other e l x : forall s, Forall (fun i => dst i <> Some x) l -> rd (R (runB e l s)) x = rd (R s) x.
Proof.
  induction l as [|i l IH]; intros s H; [reflexivity|]. inversion H; subst. rewrite runB_cons, IH by assumption.
  apply exec1_other; assumption.
Qed.

(** ** The pairing pass *)
Section PairProof.
Variable isAcc : instr -> option acc.
Variable unAcc : acc -> instr.
Variable fold2 : nat -> acc -> list instr -> acc -> option (list instr * nat).
Variables (e : env) (f : nat).
Variable Inv : regs -> Prop.
Variable pairOk : acc -> list instr -> acc -> Prop.
Hypothesis HAcc : forall i a, isAcc i = Some a -> i = unAcc a.
Hypothesis Hfold : forall c a mid b out c' s, (f <= c)%nat -> fold2 c a mid b = Some (out, c') ->
  pairOk a mid b -> Forall pure mid -> Forall (below f) (unAcc a :: mid ++ [unAcc b]) -> Inv (R s) ->
  (f <= c')%nat /\ agree f (runB e (unAcc a :: mid ++ [unAcc b]) s) (runB e out s).
Variable okI : instr -> Prop.
Hypothesis HInv : forall i s, okI i -> Inv (R s) -> Inv (R (exec1 e i s)).
Hypothesis HInvAgree : forall s s', agree f s s' -> Inv (R s) -> Inv (R s').

Definition pairsOk (l : list instr) : Prop := forall pre a mid b post,
  l = pre ++ unAcc a :: mid ++ unAcc b :: post -> Forall pure mid -> pairOk a mid b.
Lemma pairsOk_suffix l l' : pairsOk (l ++ l') -> pairsOk l'.
Proof. intros H pre a mid b post -> P. apply (H (l ++ pre) a mid b post); [rewrite <- app_assoc; reflexivity|exact P]. Qed.
Lemma Inv_run l : forall s, Forall okI l -> Inv (R s) -> Inv (R (runB e l s)).
Proof. induction l as [|i l IH]; intros s O H; [exact H|]. inversion O; subst. rewrite runB_cons. apply IH; [assumption|]. apply HInv; assumption. Qed.

Definition pendList (p : option (acc * list instr)) : list instr :=
  match p with Some (a, mid) => unAcc a :: mid | None => [] end.
Definition pendPure (p : option (acc * list instr)) : Prop :=
  match p with Some (_, mid) => Forall pure mid | None => True end.

Lemma pair_ok l : forall c p s s', (f <= c)%nat -> pendPure p -> Forall (below f) (pendList p ++ l) ->
  Forall okI (pendList p ++ l) -> pairsOk (pendList p ++ l) -> Inv (R s) -> agree f s s' ->
  agree f (runB e (pendList p ++ l) s) (runB e (pairPass isAcc unAcc fold2 c p l) s').
Proof.
  induction l as [|i l IH]; intros c p s s' Fc PP B O PO IV A.
  - cbn [pairPass]. rewrite app_nil_r in *. destruct p as [[a mid]|]; cbn [pendList] in *; apply agree_run; assumption.
  - cbn [pairPass]. destruct (isAcc i) as [b|] eqn:Ei.
    + apply HAcc in Ei. subst i. destruct p as [[a mid]|].
      * destruct (fold2 c a mid b) as [[out c']|] eqn:E2.
        -- cbn [pendList pendPure] in *.
           assert (SP : (unAcc a :: mid) ++ unAcc b :: l = (unAcc a :: mid ++ [unAcc b]) ++ l).
           { cbn [app]. rewrite <- app_assoc. reflexivity. }
           rewrite SP in *. apply Forall_app in B. destruct B as [B1 B2]. apply Forall_app in O. destruct O as [O1 O2].
           assert (PK : pairOk a mid b).
           { apply (PO [] a mid b l); [|exact PP]. cbn [app]. rewrite <- app_assoc. reflexivity. }
           destruct (Hfold c a mid b out c' s' Fc E2 PK PP B1 (HInvAgree _ _ A IV)) as [Fc' AG].
           rewrite !runB_app. apply (IH c' None).
           ++ exact Fc'.
           ++ exact I.
           ++ exact B2.
           ++ exact O2.
           ++ apply (pairsOk_suffix _ _ PO).
           ++ apply Inv_run; assumption.
           ++ apply (agree_trans f _ (runB e (unAcc a :: mid ++ [unAcc b]) s')); [|exact AG].
              apply agree_run; assumption.
        -- cbn [pendList pendPure] in *.
           change (unAcc a :: mid ++ pairPass isAcc unAcc fold2 c (Some (b, [])) l)
             with ((unAcc a :: mid) ++ pairPass isAcc unAcc fold2 c (Some (b, [])) l).
           apply Forall_app in B. destruct B as [B1 B2]. apply Forall_app in O. destruct O as [O1 O2].
           rewrite !(runB_app e (unAcc a :: mid)). apply (IH c (Some (b, []))).
           ++ exact Fc.
           ++ constructor.
           ++ exact B2.
           ++ exact O2.
           ++ apply (pairsOk_suffix _ _ PO).
           ++ apply Inv_run; assumption.
           ++ apply agree_run; assumption.
      * cbn [pendList app] in *. apply (IH c (Some (b, []))); try assumption. constructor.
    + destruct p as [[a mid]|].
      * cbn [pendList pendPure] in *. destruct (sideEffect i) eqn:Se.
        -- assert (SP : (unAcc a :: mid) ++ i :: l = (unAcc a :: mid ++ [i]) ++ l) by (cbn [app]; rewrite <- app_assoc; reflexivity).
           assert (SQ : unAcc a :: mid ++ i :: pairPass isAcc unAcc fold2 c None l
                        = (unAcc a :: mid ++ [i]) ++ pairPass isAcc unAcc fold2 c None l) by (cbn [app]; rewrite <- app_assoc; reflexivity).
           rewrite SQ. rewrite SP in *. apply Forall_app in B. destruct B as [B1 B2]. apply Forall_app in O. destruct O as [O1 O2].
           rewrite !(runB_app e (unAcc a :: mid ++ [i])). apply (IH c None).
           ++ exact Fc.
           ++ exact I.
           ++ exact B2.
           ++ exact O2.
           ++ apply (pairsOk_suffix _ _ PO).
           ++ apply Inv_run; assumption.
           ++ apply agree_run; assumption.
        -- assert (SP : (unAcc a :: mid) ++ i :: l = (unAcc a :: mid ++ [i]) ++ l) by (cbn [app]; rewrite <- app_assoc; reflexivity).
           rewrite SP in *. apply (IH c (Some (a, mid ++ [i]))); try assumption.
           cbn [pendPure]. apply Forall_app. split; [exact PP|]. constructor; [exact Se|constructor].
      * cbn [pendList app] in *. rewrite !runB_cons. inversion B; subst. inversion O; subst. apply (IH c None); try assumption.
        -- apply (pairsOk_suffix [i] l PO).
        -- apply HInv; assumption.
        -- apply agree_exec; assumption.
Qed.
End PairProof.

(** ** The three instances *)
Lemma isSW_un i a : isSW i = Some a -> i = swOf a.
Proof. destruct i as [| | | | |o v off b| | | |]; try discriminate. destruct o; try discriminate. intros [= <-]. reflexivity. Qed.
Lemma isLW_un i a : isLW i = Some a -> i = lwOf a.
Proof. destruct i as [| | | |o v off b| | | | |]; try discriminate. destruct o; try discriminate. intros [= <-]. reflexivity. Qed.

Definition keeps (x : reg) (mid : list instr) : Prop := Forall (fun i => dst i <> Some x) mid.
Definition storePairOk (a : acc) (mid : list instr) (b : acc) : Prop := keeps (aV a) mid /\ keeps (aBase a) mid.
Definition loadPairOk (a : acc) (mid : list instr) (b : acc) : Prop := aV a <> aBase a /\ keeps (aBase a) mid.

Lemma rd_wr_same r d v : d <> zero -> rd (wr r d v) d = v.
Proof. intros H. rewrite rd_wr. destruct (Nat.eqb d zero) eqn:E; [apply Nat.eqb_eq in E; congruence|]. rewrite Nat.eqb_refl. reflexivity. Qed.
Lemma rd_wr_ne r d v x : x <> d -> rd (wr r d v) x = rd r x.
Proof.
  intros H. rewrite rd_wr. destruct (Nat.eqb x zero) eqn:E; [unfold rd; rewrite E; reflexivity|].
  destruct (Nat.eqb x d) eqn:E2; [apply Nat.eqb_eq in E2; congruence|reflexivity].
Qed.

Section Instances.
Variables (e : env) (f : nat) (align : acc -> Z).

Lemma foldStore2_ok c a mid b out c' s : (f <= c)%nat -> foldStore2 align c a mid b = Some (out, c') ->
  storePairOk a mid b -> Forall pure mid -> Forall (below f) (swOf a :: mid ++ [swOf b]) -> True ->
  (f <= c')%nat /\ agree f (runB e (swOf a :: mid ++ [swOf b]) s) (runB e out s).
Proof.
  intros Fc H [KV KB] P B _. unfold foldStore2 in H.
  match type of H with (if ?g then _ else _) = _ => destruct g eqn:G; [|discriminate] end.
  injection H as <- <-. split; [lia|].
  apply andb_prop in G. destruct G as [G Go]. apply andb_prop in G. destruct G as [_ Gb]. apply Nat.eqb_eq in Gb.
  inversion B as [|? ? Ba B']; subst. apply Forall_app in B'. destruct B' as [Bm Bb]. apply Forall_inv in Bb.
  destruct Ba as [_ Ua]. destruct Bb as [_ Ub]. cbn [swOf uses In] in Ua, Ub.
  assert (La : (aV a < f)%nat /\ (aBase a < f)%nat) by (split; apply Ua; tauto).
  assert (Lb : (aV b < f)%nat) by (apply Ub; tauto).
  rewrite runB_cons. rewrite !runB_app. cbn [runB fold_left].
  set (s1 := exec1 e (swOf a) s). set (u := runB e mid s). set (s2 := runB e mid s1).
  assert (RG : sameR f s2 u) by (apply pure_regs; try assumption; intros x _; reflexivity).
  destruct (pure_run e mid s P) as [Mu Tu]. fold u in Mu, Tu.
  destruct (pure_run e mid s1 P) as [M2 T2]. fold s2 in M2, T2.
  assert (EV : rd (R u) (aV a) = rd (R s) (aV a)) by (apply run_other, KV).
  assert (EB : rd (R u) (aBase a) = rd (R s) (aBase a)) by (apply run_other, KB).
  clearbody s2 u. cbn [exec1 swOf Mm tr R pc]. cbn [stSize evi ev2].
  assert (Cz : c <> zero) by (unfold zero; lia).
  assert (N1 : rd (wr (R u) c (Rv.SLLI (rd (R u) (aV b)) 32)) (aV a) = rd (R u) (aV a)) by (apply rd_wr_ne; lia).
  rewrite N1, rd_wr_same by exact Cz.
  rewrite (rd_wr_same _ (S c)) by (unfold zero; lia).
  rewrite (rd_wr_ne _ (S c)) by lia. rewrite (rd_wr_ne _ c) by lia.
  repeat split; cbn [Mm tr R].
  - rewrite M2, Mu. subst s1. cbn [exec1 swOf Mm stSize]. unfold Rv.SLLI. rewrite two_words, EV, EB.
    rewrite <- Gb. rewrite (RG (aBase a)), (RG (aV b)), EB by lia.
    replace (rd (R s) (aBase a) + aOff b) with (rd (R s) (aBase a) + aOff a + 4) by lia. reflexivity.
  - rewrite T2, Tu. reflexivity.
  - intros x L. rewrite !rd_wr_ne by lia. apply RG, L.
Qed.

Lemma foldLoad2_ok c a mid b out c' s : (f <= c)%nat -> foldLoad2 align c a mid b = Some (out, c') ->
  loadPairOk a mid b -> Forall pure mid -> Forall (below f) (lwOf a :: mid ++ [lwOf b]) -> True ->
  (f <= c')%nat /\ agree f (runB e (lwOf a :: mid ++ [lwOf b]) s) (runB e out s).
Proof.
  intros Fc H [KV KB] P B _. unfold foldLoad2 in H.
  match type of H with (if ?g then _ else _) = _ => destruct g eqn:G; [|discriminate] end.
  injection H as <- <-. split; [lia|].
  apply andb_prop in G. destruct G as [G Go]. apply andb_prop in G. destruct G as [_ Gb]. apply Nat.eqb_eq in Gb.
  inversion B as [|? ? Ba B']; subst. apply Forall_app in B'. destruct B' as [Bm Bb]. apply Forall_inv in Bb.
  destruct Ba as [Da Ua]. destruct Bb as [Db Ub]. cbn [lwOf uses dst In] in Ua, Ub, Da, Db.
  assert (La : (aV a < f)%nat /\ (aBase a < f)%nat) by (split; [apply Da; reflexivity|apply Ua; tauto]).
  assert (Lb : (aV b < f)%nat) by (apply Db; reflexivity).
  rewrite !runB_cons. rewrite !runB_app. cbn [runB fold_left].
  set (s1 := exec1 e (lwOf a) s).
  set (u0 := exec1 e (I1 SEXT_W (aV a) c) (exec1 e (Ld LD c (aOff a) (aBase a)) s)).
  set (u := runB e mid u0). set (s2 := runB e mid s1).
  pose proof (two_loads (Mm s) (rd (R s) (aBase a) + aOff a)) as [TL1 TL2].
  assert (Cz : c <> zero) by (unfold zero; lia).
  assert (R0 : sameR f s1 u0).
  { intros x L. subst s1 u0. cbn [exec1 lwOf R Mm pc tr evLd ev1]. rewrite (rd_wr_same _ c) by exact Cz. rewrite TL1.
    rewrite !rd_wr. destruct (Nat.eqb x zero); [reflexivity|]. destruct (Nat.eqb x (aV a)); [reflexivity|].
    destruct (Nat.eqb x c) eqn:E; [apply Nat.eqb_eq in E; lia|reflexivity]. }
  assert (C0 : rd (R u0) c = ldBytes 8 (Mm s) (rd (R s) (aBase a) + aOff a)).
  { subst u0. cbn [exec1 R Mm pc tr evLd ev1]. rewrite (rd_wr_ne _ (aV a)) by lia. rewrite (rd_wr_same _ c) by exact Cz. reflexivity. }
  assert (RG : sameR f s2 u) by (apply pure_regs; try assumption).
  destruct (pure_run e mid u0 P) as [Mu Tu]. fold u in Mu, Tu.
  destruct (pure_run e mid s1 P) as [M2 T2]. fold s2 in M2, T2.
  assert (EB : rd (R s2) (aBase a) = rd (R s) (aBase a)).
  { unfold s2. rewrite run_other by exact KB. subst s1. cbn [exec1 lwOf R]. apply rd_wr_ne. congruence. }
  assert (EC : rd (R u) c = rd (R u0) c).
  { apply run_other. rewrite Forall_forall in *. intros i Hi E. destruct (Bm i Hi) as [D _]. specialize (D _ E). lia. }
  clearbody s2 u. cbn [exec1 lwOf Mm tr R pc evLd evi]. rewrite EC, C0, TL2, <- Gb, EB, M2.
  repeat split; cbn [Mm tr R].
  - rewrite Mu. reflexivity.
  - rewrite T2, Tu. reflexivity.
  - intros x L. subst s1. cbn [exec1 lwOf Mm].
    replace (rd (R s) (aBase a) + aOff b) with (rd (R s) (aBase a) + aOff a + 4) by lia.
    rewrite !rd_wr. destruct (Nat.eqb x zero); [reflexivity|]. destruct (Nat.eqb x (aV b)); [reflexivity|]. apply RG, L.
Qed.

(** stack objects sit at their offset from an 8-aligned stack pointer *)
Variables (obj : reg -> option Z) (sp : Z).
Definition objInv (r : regs) : Prop := forall x o, obj x = Some o -> rd r x = u64 (sp + o).
Definition zeroPairOk (a : acc) (mid : list instr) (b : acc) : Prop :=
  (obj (aBase a) = None -> keeps (aBase a) mid) /\
  (forall oa ob, obj (aBase a) = Some oa -> obj (aBase b) = Some ob -> oa + aOff a + 4 = ob + aOff b).
Definition notObj (i : instr) : Prop := forall d, dst i = Some d -> obj d = None.

Lemma foldZero2_ok c a mid b out c' s : (f <= c)%nat -> foldZero2 align obj c a mid b = Some (out, c') ->
  (zeroPairOk a mid b /\ Forall notObj mid) -> Forall pure mid -> Forall (below f) (swOf a :: mid ++ [swOf b]) -> objInv (R s) ->
  (f <= c')%nat /\ agree f (runB e (swOf a :: mid ++ [swOf b]) s) (runB e out s).
Proof.
  intros Fc H [[KB ADJ] NO] P B IV. unfold foldZero2 in H.
  match type of H with (if ?g then _ else _) = _ => destruct g eqn:G; [|discriminate] end.
  injection H as <- <-. split; [lia|].
  apply andb_prop in G. destruct G as [G G3]. apply andb_prop in G. destruct G as [G1 G2].
  unfold storeZero in G1, G2. apply andb_prop in G1. destruct G1 as [Va _]. apply andb_prop in G2. destruct G2 as [Vb _].
  apply Nat.eqb_eq in Va, Vb.
  inversion B as [|? ? Ba B']; subst. apply Forall_app in B'. destruct B' as [Bm Bb]. apply Forall_inv in Bb.
  destruct Ba as [_ Ua]. destruct Bb as [_ Ub]. cbn [swOf uses In] in Ua, Ub.
  assert (La : (aBase a < f)%nat) by (apply Ua; tauto).
  assert (Lb : (aBase b < f)%nat) by (apply Ub; tauto).
  rewrite runB_cons. rewrite !runB_app. cbn [runB fold_left].
  set (s1 := exec1 e (swOf a) s). set (u := runB e mid s). set (s2 := runB e mid s1).
  assert (RG : sameR f s2 u) by (apply pure_regs; try assumption; intros x _; reflexivity).
  destruct (pure_run e mid s P) as [Mu Tu]. fold u in Mu, Tu.
  destruct (pure_run e mid s1 P) as [M2 T2]. fold s2 in M2, T2.
  assert (KO : forall x, obj x <> None -> keeps x mid).
  { intros x Hx. unfold keeps. rewrite Forall_forall in *. intros i Hi E. apply Hx, (NO i Hi x E). }
  assert (EA : rd (R u) (aBase a) = rd (R s) (aBase a)).
  { apply run_other. destruct (obj (aBase a)) eqn:OA; [apply KO; congruence|apply KB; reflexivity]. }
  assert (ADR : u64 (rd (R u) (aBase a) + aOff a + 4) = u64 (rd (R u) (aBase b) + aOff b)).
  { destruct (obj (aBase a)) as [oa|] eqn:OA, (obj (aBase b)) as [ob|] eqn:OB; cbn [orb] in G3.
    - assert (EB : rd (R u) (aBase b) = rd (R s) (aBase b)) by (apply run_other, KO; congruence).
      rewrite EA, EB, (IV _ _ OA), (IV _ _ OB). specialize (ADJ _ _ eq_refl eq_refl).
      clear - ADJ. unfold u64. lia.
    - apply andb_prop in G3. destruct G3 as [G3 G4]. apply Nat.eqb_eq in G3. rewrite <- G3. f_equal. lia.
    - apply andb_prop in G3. destruct G3 as [G3 G4]. apply Nat.eqb_eq in G3. rewrite <- G3. f_equal. lia.
    - apply andb_prop in G3. destruct G3 as [G3 G4]. apply Nat.eqb_eq in G3. rewrite <- G3. f_equal. lia. }
  clearbody s2 u. cbn [exec1 swOf Mm tr R pc stSize].
  repeat split; cbn [Mm tr R].
  - rewrite M2, Mu. subst s1. cbn [exec1 swOf Mm stSize]. rewrite Va, Vb, !rd_zero, two_zeros.
    rewrite (RG (aBase b)) by lia. rewrite (stBytes_addr 4 _ _ _ 0 ADR). rewrite EA. reflexivity.
  - rewrite T2, Tu. reflexivity.
  - intros x L. apply RG, L.
Qed.
End Instances.
