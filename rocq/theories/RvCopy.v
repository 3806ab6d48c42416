(** C31, continued: earlyFoldDoubleWordCopy (cmmc/Target/RISCV/RISCVScheduleModel.cpp:703-831), which turns two adjacent
    word copies into one double-word copy.  One block; the generic 32-bit load/store of SSA form is written as an
    LW/SW with offset 0, the widened ones as LD/SD. *)
From Coq Require Import ZArith Lia Bool ZifyBool List Arith.
From Verif Require Import Word Rv64 RvMachine RvPeephole RvFold RvPair.
Import ListNotations.
Local Open Scope Z_scope.

Section Copy.
(** 704-733: number of uses of a register in the function; its defining addition of a constant; alignment operand *)
Variable useCount : reg -> nat.
Variable addressDef : reg -> option (reg * Z).
Variable align : instr -> Z.

(** 744-770 matchAdjAddr *)
Definition adjacent (base next : reg) : bool :=
  match addressDef next with
  | None => false
  | Some (b, k) =>
      (Nat.eqb b base && (k =? 4)) ||
      match addressDef base with
      | None => false
      | Some (b', k') => Nat.eqb b' b && (k' + 4 =? k)
      end
  end.
Definition matchAdj (i j : instr) (base next : reg) : bool :=
  (align i =? 8) && (align j =? 4) && adjacent base next.

(** the window: each access with the instructions following it *)
Definition win := list (instr * list instr).
Definition flat (w : win) : list instr := flat_map (fun x => fst x :: snd x) w.
(** 772-797 tryFold: on success the whole stretch of code after folding *)
Definition tryFold (fresh : reg) (w : win) : option (list instr) :=
  match w with
  | [(Ld LW d1 0 a1 as l1, m1); (St SW v1 0 b1 as s1, m2); (Ld LW d2 0 a2 as l2, m3); (St SW v2 0 b2 as s2, m4)] =>
      if Nat.eqb d1 v1 && Nat.eqb d2 v2 && matchAdj l1 l2 a1 a2 && matchAdj s1 s2 b1 b2 then
        Some (Ld LD fresh 0 a1 :: m1 ++ St SD fresh 0 b1 :: m2 ++ m3 ++ m4)
      else None
  | _ => None
  end.
(** push_back, then pop_front beyond four: the popped access joins the finished prefix *)
Definition push (pre : list instr) (w : win) (i : instr) : list instr * win :=
  let w' := w ++ [(i, [])] in
  if Nat.ltb 4 (length w') then
    match w' with x :: w'' => (pre ++ fst x :: snd x, w'') | [] => (pre, []) end
  else (pre, w').
(** an instruction that is not an access joins the code after the last access *)
Fixpoint follow (w : win) (i : instr) : win :=
  match w with
  | [] => []
  | [(j, m)] => [(j, m ++ [i])]
  | x :: w' => x :: follow w' i
  end.
Definition skip (pre : list instr) (w : win) (i : instr) : list instr * win :=
  match w with [] => (pre ++ [i], []) | _ => (pre, follow w i) end.

(** 799-829 *)
Fixpoint copyPass (fresh : reg) (pre : list instr) (w : win) (l : list instr) : list instr :=
  match l with
  | [] => pre ++ flat w
  | i :: l' =>
      match i with
      | Ext _ _ _ => copyPass fresh (pre ++ flat w ++ [i]) [] l'
      | Ld LW d 0 _ =>
          if Nat.eqb (useCount d) 1 then let '(pre', w') := push pre w i in copyPass fresh pre' w' l'
          else let '(pre', w') := skip pre w i in copyPass fresh pre' w' l'
      | Ld _ _ _ _ => copyPass fresh (pre ++ flat w ++ [i]) [] l'
      | St SW _ 0 _ =>
          let '(pre', w') := push pre w i in
          if Nat.eqb (length w') 4 then
            match tryFold fresh w' with
            | Some out => copyPass (S fresh) (pre' ++ out) [] l'
            | None => copyPass fresh pre' w' l'
            end
          else copyPass fresh pre' w' l'
      | St _ _ _ _ => copyPass fresh (pre ++ flat w ++ [i]) [] l'
      | _ => let '(pre', w') := skip pre w i in copyPass fresh pre' w' l'
      end
  end.
Definition earlyFoldDoubleWordCopy (fresh : reg) (l : list instr) : list instr := copyPass fresh [] [] l.

(* ------------------------------------------------------------------ *)
(** ** Bytes *)
Lemma st_other n : forall m a v x, (forall j, 0 <= j < Z.of_nat n -> x <> u64 (a + j)) -> stBytes n m a v x = m x.
Proof.
  induction n as [|n IH]; intros m a v x H; [reflexivity|]. cbn [stBytes]. rewrite IH.
  - assert (x <> u64 a) by (specialize (H 0); rewrite Z.add_0_r in H; apply H; lia).
    destruct (x =? u64 a) eqn:E; [lia|reflexivity].
  - intros j Hj. replace (a + 1 + j) with (a + (j + 1)) by lia. apply H. lia.
Qed.
Lemma ld_ext n : forall m m' a, (forall j, 0 <= j < Z.of_nat n -> m (u64 (a + j)) = m' (u64 (a + j))) ->
  ldBytes n m a = ldBytes n m' a.
Proof.
  induction n as [|n IH]; intros m m' a H; [reflexivity|]. cbn [ldBytes].
  assert (E : m (u64 a) = m' (u64 a)) by (specialize (H 0); rewrite Z.add_0_r in H; apply H; lia).
  rewrite E, (IH m m'); [reflexivity|]. intros j Hj. replace (a + 1 + j) with (a + (j + 1)) by lia. apply H. lia.
Qed.
Lemma ld_addr n m : forall a a', u64 a = u64 a' -> ldBytes n m a = ldBytes n m a'.
Proof.
  intros a a' H.
  assert (E : forall j, u64 (a + j) = u64 (a' + j)).
  { intros j. unfold u64 in *. rewrite Z.add_mod, H, <- Z.add_mod by lia. reflexivity. }
  revert a a' H E. induction n as [|n IH]; intros a a' H E; [reflexivity|]. cbn [ldBytes]. rewrite H, (IH (a + 1) (a' + 1)).
  - reflexivity.
  - apply E.
  - intros j. replace (a + 1 + j) with (a + (1 + j)) by lia. replace (a' + 1 + j) with (a' + (1 + j)) by lia. apply E.
Qed.
(** copying a double word is copying its two words, one after the other, for 8-aligned addresses *)
Lemma copy_words m A B : u64 A mod 8 = 0 -> u64 B mod 8 = 0 ->
  let m1 := stBytes 4 m B (Rv.w (ldBytes 4 m A)) in
  stBytes 4 m1 (B + 4) (Rv.w (ldBytes 4 m1 (A + 4))) = stBytes 8 m B (ldBytes 8 m A).
Proof.
  intros HA HB m1.
  assert (E : ldBytes 4 m1 (A + 4) = ldBytes 4 m (A + 4)).
  { apply ld_ext. intros j Hj. unfold m1. apply st_other. intros k Hk E.
    change (Z.of_nat 4) with 4 in *. unfold u64 in *. lia. }
  rewrite E. unfold m1. rewrite (stBytes_app 4 4), (ldBytes_app 4 4).
  change (Z.of_nat 4) with 4. change (256 ^ 4) with 4294967296.
  pose proof (ldBytes_rng 4 m A) as RA. pose proof (ldBytes_rng 4 m (A + 4)) as RB.
  change (Z.of_nat 4) with 4 in *. change (256 ^ 4) with 4294967296 in *.
  set (x := ldBytes 4 m A) in *. set (y := ldBytes 4 m (A + 4)) in *. clearbody x y.
  rewrite (stBytes_mod 4 m B (Rv.w x) (x + 4294967296 * y)).
  - apply stBytes_mod. change (Z.of_nat 4) with 4. change (256 ^ 4) with 4294967296.
    pose proof (u32_w y) as U. unfold u32 in U. rewrite U. f_equal. lia.
  - change (Z.of_nat 4) with 4. change (256 ^ 4) with 4294967296.
    pose proof (u32_w x) as U. unfold u32 in U. rewrite U. lia.
Qed.

(** ** Agreement outside a set of registers *)
Definition sameRD (f : nat) (D : list reg) (s s' : state) : Prop :=
  forall x, (x < f)%nat -> ~ In x D -> rd (R s) x = rd (R s') x.
Definition agreeD (f : nat) (D : list reg) (s s' : state) : Prop :=
  Mm s = Mm s' /\ tr s = tr s' /\ sameRD f D s s'.
(** reads nothing in D *)
Definition avoids (D : list reg) (i : instr) : Prop := forall x, In x (uses i) -> ~ In x D.
Lemma sameRD_wr f D s s' k k' d v m m' t t' : sameRD f D s s' -> sameRD f D (St_ k (wr (R s) d v) m t) (St_ k' (wr (R s') d v) m' t').
Proof.
  intros A x L N. cbn [R]. rewrite !rd_wr.
  destruct (Nat.eqb x zero); [reflexivity|]. destruct (Nat.eqb x d); [reflexivity|apply A; assumption].
Qed.
Lemma agreeD_exec e f D i s s' : below f i -> avoids D i -> agreeD f D s s' -> agreeD f D (exec1 e i s) (exec1 e i s').
Proof.
  intros [_ U] AV (M & T & X).
  assert (UX : forall x, In x (uses i) -> rd (R s) x = rd (R s') x) by (intros x Hx; apply X; [apply U, Hx|apply AV, Hx]).
  assert (MK : forall st st', Mm st = Mm st' -> tr st = tr st' -> sameRD f D st st' -> agreeD f D st st') by (intros; repeat split; assumption).
  destruct i as [o d a b | o d a c | o d a | d v | o d off base | o v off base | o a b t | t | id d us |];
    cbn [exec1 uses] in *; rewrite <- ?M, <- ?T.
  - rewrite <- (UX a), <- (UX b) by (cbn; tauto). apply MK; try reflexivity. apply sameRD_wr, X.
  - rewrite <- (UX a) by (cbn; tauto). apply MK; try reflexivity. apply sameRD_wr, X.
  - rewrite <- (UX a) by (cbn; tauto). apply MK; try reflexivity. apply sameRD_wr, X.
  - apply MK; try reflexivity. apply sameRD_wr, X.
  - rewrite <- (UX base) by (cbn; tauto). apply MK; try reflexivity. apply sameRD_wr, X.
  - rewrite <- (UX base), <- (UX v) by (cbn; tauto). apply MK; try reflexivity. exact X.
  - apply MK; try reflexivity. exact X.
  - apply MK; try reflexivity. exact X.
  - assert (E : map (rd (R s)) us = map (rd (R s')) us) by (apply map_ext_in; exact UX). rewrite <- E.
    destruct (ext e id (map (rd (R s)) us) (Mm s)) as [v m].
    destruct d as [d|]; (apply MK; try reflexivity); [apply sameRD_wr, X|exact X].
  - apply MK; try reflexivity. exact X.
Qed.
Lemma agreeD_run e f D l : forall s s', Forall (below f) l -> Forall (avoids D) l -> agreeD f D s s' ->
  agreeD f D (runB e l s) (runB e l s').
Proof.
  induction l as [|i l IH]; intros s s' B V A; [exact A|]. inversion B; subst. inversion V; subst. rewrite !runB_cons.
  apply IH; try assumption. apply agreeD_exec; assumption.
Qed.
(** no memory access, no call *)
Definition quiet (i : instr) : Prop := match i with Ld _ _ _ _ | St _ _ _ _ | Ext _ _ _ => False | _ => True end.
Lemma quiet_run e l : forall s, Forall quiet l -> Mm (runB e l s) = Mm s /\ tr (runB e l s) = tr s.
Proof.
  induction l as [|i l IH]; intros s P; [split; reflexivity|]. inversion P; subst. rewrite runB_cons.
  destruct (IH (exec1 e i s) H2) as [A B]. destruct i; try destruct H1; split; assumption.
Qed.
Lemma quiet_regs e f D l : forall s s', Forall quiet l -> Forall (below f) l -> Forall (avoids D) l -> sameRD f D s s' ->
  sameRD f D (runB e l s) (runB e l s').
Proof.
  induction l as [|i l IH]; intros s s' P B V S; [exact S|]. inversion P; subst. inversion B; subst. inversion V; subst.
  rewrite !runB_cons. apply IH; try assumption. clear IH.
  assert (UX : forall x, In x (uses i) -> rd (R s) x = rd (R s') x).
  { intros x Hx. apply S; [apply H3, Hx|apply H5, Hx]. }
  destruct i as [o d a b | o d a c | o d a | d v | o d off base | o v off base | o a b t | t | id d us |];
    try destruct H1; cbn [exec1 uses] in *.
  - rewrite <- (UX a), <- (UX b) by (cbn; tauto). apply sameRD_wr, S.
  - rewrite <- (UX a) by (cbn; tauto). apply sameRD_wr, S.
  - rewrite <- (UX a) by (cbn; tauto). apply sameRD_wr, S.
  - apply sameRD_wr, S.
  - exact S.
  - exact S.
  - exact S.
Qed.
Lemma sameRD_weaken f D D' s s' : (forall x, In x D -> In x D') -> sameRD f D s s' -> sameRD f D' s s'.
Proof. intros I S x L N. apply S; [exact L|]. intros H. apply N, I, H. Qed.

(** ** One folding *)
Lemma fold_ok e f D c d1 a1 b1 d2 a2 b2 m1 m2 m3 s s' A B :
  (f <= c)%nat -> agreeD f D s s' ->
  Forall quiet (m1 ++ m2 ++ m3) -> Forall (below f) (m1 ++ m2 ++ m3) -> Forall (avoids (d2 :: d1 :: D)) (m1 ++ m2 ++ m3) ->
  (a1 < f /\ b1 < f /\ a2 < f /\ b2 < f /\ d1 < f /\ d2 < f)%nat -> d1 <> zero -> d2 <> zero ->
  (forall x, In x [a1; b1; a2; b2] -> ~ In x (d2 :: d1 :: D)) ->
  keeps d1 m1 -> keeps d2 m3 ->
  A mod 8 = 0 -> B mod 8 = 0 -> 0 <= A < 18446744073709551616 -> 0 <= B < 18446744073709551616 ->
  rd (R s) a1 = A -> rd (R (runB e (Ld LW d1 0 a1 :: m1) s)) b1 = B ->
  rd (R (runB e (Ld LW d1 0 a1 :: m1 ++ St SW d1 0 b1 :: m2) s)) a2 = u64 (A + 4) ->
  rd (R (runB e (Ld LW d1 0 a1 :: m1 ++ St SW d1 0 b1 :: m2 ++ Ld LW d2 0 a2 :: m3) s)) b2 = u64 (B + 4) ->
  agreeD f (d2 :: d1 :: D)
    (runB e (Ld LW d1 0 a1 :: m1 ++ St SW d1 0 b1 :: m2 ++ Ld LW d2 0 a2 :: m3 ++ [St SW d2 0 b2]) s)
    (runB e (Ld LD c 0 a1 :: m1 ++ St SD c 0 b1 :: m2 ++ m3) s').
Proof.
  intros Fc (M0 & T0 & S0) Q BL AV LT Z1 Z2 NA K1 K2 HA HB RA RB E1 E2 E3 E4.
  apply Forall_app in Q. destruct Q as [Q1 Q]. apply Forall_app in Q. destruct Q as [Q2 Q3].
  apply Forall_app in BL. destruct BL as [B1 BL]. apply Forall_app in BL. destruct BL as [B2 B3].
  apply Forall_app in AV. destruct AV as [V1 AV]. apply Forall_app in AV. destruct AV as [V2 V3].
  set (D' := d2 :: d1 :: D) in *.
  assert (Cz : c <> zero) by (unfold zero; lia).
  repeat first [rewrite runB_cons in * | rewrite runB_app in *].
  (* load 1 *)
  set (t1 := exec1 e (Ld LW d1 0 a1) s) in *. set (u1 := exec1 e (Ld LD c 0 a1) s').
  assert (S1 : sameRD f D' t1 u1).
  { intros x L N. subst t1 u1. cbn [exec1 R]. rewrite rd_wr_ne by (intros ->; apply N; right; left; reflexivity).
    rewrite rd_wr_ne by lia. apply S0; [exact L|]. intros I. apply N. right. right. exact I. }
  assert (EA : rd (R s') a1 = A).
  { rewrite <- E1. symmetry. apply S0; [lia|]. intros I. apply (NA a1); [left; reflexivity|]. right. right. exact I. }
  assert (V1' : rd (R t1) d1 = Rv.w (ldBytes 4 (Mm s) A)).
  { subst t1. cbn [exec1 R evLd]. rewrite rd_wr_same by exact Z1. rewrite E1, Z.add_0_r. reflexivity. }
  assert (VC : rd (R u1) c = ldBytes 8 (Mm s) A).
  { subst u1. cbn [exec1 R evLd]. rewrite rd_wr_same by exact Cz. rewrite EA, Z.add_0_r, M0. reflexivity. }
  assert (M1 : Mm t1 = Mm s /\ Mm u1 = Mm s /\ tr t1 = tr s /\ tr u1 = tr s) by (subst t1 u1; cbn [exec1 Mm tr]; repeat split; congruence).
  clearbody t1 u1.
  (* m1 *)
  set (t2 := runB e m1 t1) in *. set (u2 := runB e m1 u1).
  assert (S2 : sameRD f D' t2 u2) by (apply quiet_regs; assumption).
  destruct (quiet_run e m1 t1 Q1) as [Mt2 Tt2]. destruct (quiet_run e m1 u1 Q1) as [Mu2 Tu2]. fold t2 in Mt2, Tt2. fold u2 in Mu2, Tu2.
  assert (V2' : rd (R t2) d1 = Rv.w (ldBytes 4 (Mm s) A)) by (unfold t2; rewrite run_other by exact K1; exact V1').
  assert (KC : forall m, Forall (below f) m -> keeps c m).
  { intros m Hm. unfold keeps. rewrite Forall_forall in *. intros i Hi E. destruct (Hm i Hi) as [Dd _]. specialize (Dd _ E). lia. }
  assert (VC2 : rd (R u2) c = ldBytes 8 (Mm s) A) by (unfold u2; rewrite run_other by (apply KC, B1); exact VC).
  assert (EB : rd (R u2) b1 = B) by (rewrite <- E2; symmetry; apply S2; [lia|apply NA; cbn; tauto]).
  clearbody t2 u2.
  (* store 1 *)
  set (t3 := exec1 e (St SW d1 0 b1) t2) in *. set (u3 := exec1 e (St SD c 0 b1) u2).
  assert (S3 : sameRD f D' t3 u3) by (intros x L N; subst t3 u3; cbn [exec1 R]; apply S2; assumption).
  assert (Mt3 : Mm t3 = stBytes 4 (Mm s) B (Rv.w (ldBytes 4 (Mm s) A))).
  { subst t3. cbn [exec1 Mm stSize]. rewrite V2', E2, Z.add_0_r, Mt2. destruct M1 as [-> _]. reflexivity. }
  assert (Mu3 : Mm u3 = stBytes 8 (Mm s) B (ldBytes 8 (Mm s) A)).
  { subst u3. cbn [exec1 Mm stSize]. rewrite VC2, EB, Z.add_0_r, Mu2. destruct M1 as (_ & -> & _). reflexivity. }
  assert (T3 : tr t3 = tr s /\ tr u3 = tr s) by (subst t3 u3; cbn [exec1 tr]; rewrite Tt2, Tu2; tauto).
  clearbody t3 u3.
  (* m2 *)
  set (t4 := runB e m2 t3) in *. set (u4 := runB e m2 u3).
  assert (S4 : sameRD f D' t4 u4) by (apply quiet_regs; assumption).
  destruct (quiet_run e m2 t3 Q2) as [Mt4 Tt4]. destruct (quiet_run e m2 u3 Q2) as [Mu4 Tu4]. fold t4 in Mt4, Tt4. fold u4 in Mu4, Tu4.
  clearbody t4 u4.
  (* load 2 *)
  set (t5 := exec1 e (Ld LW d2 0 a2) t4) in *.
  assert (S5 : sameRD f D' t5 u4).
  { intros x L N. subst t5. cbn [exec1 R]. rewrite rd_wr_ne by (intros ->; apply N; left; reflexivity). apply S4; assumption. }
  assert (V5 : rd (R t5) d2 = Rv.w (ldBytes 4 (Mm t3) (A + 4))).
  { subst t5. cbn [exec1 R evLd]. rewrite rd_wr_same by exact Z2. rewrite E3, Z.add_0_r, Mt4. f_equal.
    apply ld_addr. apply u64_u64. }
  assert (M5 : Mm t5 = Mm t3 /\ tr t5 = tr s) by (subst t5; cbn [exec1 Mm tr]; split; [exact Mt4|rewrite Tt4; tauto]).
  clearbody t5.
  (* m3 *)
  set (t6 := runB e m3 t5) in *. set (u6 := runB e m3 u4).
  assert (S6 : sameRD f D' t6 u6) by (apply quiet_regs; assumption).
  destruct (quiet_run e m3 t5 Q3) as [Mt6 Tt6]. destruct (quiet_run e m3 u4 Q3) as [Mu6 Tu6]. fold t6 in Mt6, Tt6. fold u6 in Mu6, Tu6.
  assert (V6 : rd (R t6) d2 = Rv.w (ldBytes 4 (Mm t3) (A + 4))) by (unfold t6; rewrite run_other by exact K2; exact V5).
  clearbody t6 u6. cbn [runB fold_left].
  split; [|split].
  - cbn [exec1 Mm stSize]. rewrite V6, E4, Z.add_0_r, Mt6, Mu6, Mu4, Mu3. destruct M5 as [-> _].
    rewrite (stBytes_addr 4 _ (u64 (B + 4)) (B + 4)) by apply u64_u64. rewrite Mt3.
    apply (copy_words (Mm s) A B); rewrite u64_small by assumption; assumption.
  - cbn [exec1 tr]. rewrite Tt6, Tu6, Tu4. destruct M5 as [_ ->]. destruct T3 as [_ ->]. reflexivity.
  - intros x L N. cbn [exec1 R]. apply S6; assumption.
Qed.

(** ** The whole block *)
Lemma tryFold_inv c w out : tryFold c w = Some out -> exists d1 a1 m1 b1 m2 d2 a2 m3 b2 m4,
  w = [(Ld LW d1 0 a1, m1); (St SW d1 0 b1, m2); (Ld LW d2 0 a2, m3); (St SW d2 0 b2, m4)] /\
  out = Ld LD c 0 a1 :: m1 ++ St SD c 0 b1 :: m2 ++ m3 ++ m4 /\
  matchAdj (Ld LW d1 0 a1) (Ld LW d2 0 a2) a1 a2 = true /\ matchAdj (St SW d1 0 b1) (St SW d2 0 b2) b1 b2 = true.
Proof.
  intros H. unfold tryFold in H.
  destruct w as [|[i1 m1] w]; [discriminate|].
  destruct i1 as [| | | |[] d1 [| |] a1| | | | |]; try discriminate.
  destruct w as [|[i2 m2] w]; [discriminate|].
  destruct i2 as [| | | | |[] v1 [| |] b1| | | |]; try discriminate.
  destruct w as [|[i3 m3] w]; [discriminate|].
  destruct i3 as [| | | |[] d2 [| |] a2| | | | |]; try discriminate.
  destruct w as [|[i4 m4] w]; [discriminate|].
  destruct i4 as [| | | | |[] v2 [| |] b2| | | |]; try discriminate.
  destruct w; [|discriminate].
  match type of H with (if ?g then _ else _) = _ => destruct g eqn:G; [|discriminate] end.
  injection H as <-. apply andb_prop in G. destruct G as [G G4]. apply andb_prop in G. destruct G as [G G3].
  apply andb_prop in G. destruct G as [G1 G2]. apply Nat.eqb_eq in G1, G2. subst v1 v2.
  exists d1, a1, m1, b1, m2, d2, a2, m3, b2, m4. repeat split; assumption.
Qed.

Definition winAcc (i : instr) : Prop := (exists d a, i = Ld LW d 0 a) \/ (exists v a, i = St SW v 0 a).
Definition winOk (w : win) : Prop := Forall (fun x => winAcc (fst x) /\ Forall quiet (snd x)) w.
Lemma flat_app w w' : flat (w ++ w') = flat w ++ flat w'.
Proof. apply flat_map_app. Qed.
Lemma push_spec pre w i pre' w' : push pre w i = (pre', w') -> winOk w -> winAcc i ->
  exists k w0, pre' = pre ++ k /\ flat w ++ [i] = k ++ flat w' /\ winOk w' /\ w' = w0 ++ [(i, [])].
Proof.
  intros H W A. unfold push in H.
  assert (W' : winOk (w ++ [(i, [])])) by (apply Forall_app; split; [exact W|constructor; [split; [exact A|constructor]|constructor]]).
  assert (FA : flat (w ++ [(i, [])]) = flat w ++ [i]) by (rewrite flat_app; reflexivity).
  destruct (Nat.ltb 4 (length (w ++ [(i, [])]))) eqn:L.
  - destruct w as [|x w]; [cbn in L; discriminate|]. cbn [app] in H. injection H as <- <-.
    exists (fst x :: snd x), w. split; [reflexivity|]. split; [|split].
    + rewrite <- FA. reflexivity.
    + inversion W'; assumption.
    + reflexivity.
  - injection H as <- <-. exists [], w. rewrite app_nil_r. repeat split; try assumption. rewrite FA. reflexivity.
Qed.
Lemma follow_spec w i : w <> [] -> winOk w -> quiet i -> flat (follow w i) = flat w ++ [i] /\ winOk (follow w i).
Proof.
  induction w as [|[j m] w IH]; intros N W Q; [congruence|]. inversion W; subst. destruct H1 as [A B].
  destruct w as [|y w].
  - cbn [follow flat flat_map fst snd]. rewrite !app_nil_r. cbn [app]. split; [reflexivity|].
    constructor; [split; [exact A|apply Forall_app; split; [exact B|constructor; [exact Q|constructor]]]|constructor].
  - destruct IH as [E1 E2]; [discriminate|assumption|assumption|].
    change (follow ((j, m) :: y :: w) i) with ((j, m) :: follow (y :: w) i).
    change (flat ((j, m) :: follow (y :: w) i)) with ((j :: m) ++ flat (follow (y :: w) i)). rewrite E1.
    change (flat ((j, m) :: y :: w)) with ((j :: m) ++ flat (y :: w)). rewrite <- app_assoc. split; [reflexivity|].
    constructor; [split; assumption|exact E2].
Qed.
Lemma skip_spec pre w i pre' w' : skip pre w i = (pre', w') -> winOk w -> quiet i ->
  exists k, pre' = pre ++ k /\ flat w ++ [i] = k ++ flat w' /\ winOk w'.
Proof.
  intros H W Q. unfold skip in H. destruct w as [|x w].
  - injection H as <- <-. exists [i]. repeat split. constructor.
  - injection H as <- <-. destruct (follow_spec (x :: w) i) as [E1 E2]; [discriminate|assumption|assumption|].
    exists []. rewrite app_nil_r. split; [reflexivity|]. split; [symmetry; exact E1|exact E2].
Qed.

Ltac inl := repeat (progress (rewrite ?in_app_iff; cbn [In])); intuition.
Section Block.
Variables (e : env) (f : nat) (L : list instr) (s0 : state) (val : reg -> Z).
Hypothesis HU : forall d, (count_occ Nat.eq_dec (flat_map uses L) d <= useCount d)%nat.
Hypothesis HD : NoDup (dsts L).
Hypothesis HB : Forall (below f) L.
Hypothesis HZ : forall i, In i L -> dst i <> Some zero.
Hypothesis HS : forall d a, In (Ld LW d 0 a) L -> useCount d = 1%nat.
Hypothesis HW : wfR (R s0).
Hypothesis HI : Forall immOk L.
Hypothesis HV : forall x i y a, L = x ++ i :: y -> (exists d, i = Ld LW d 0 a) \/ (exists v, i = St SW v 0 a) ->
  rd (R (runB e x s0)) a = val a /\ (align i = 8 -> val a mod 8 = 0).
Hypothesis HA : forall x b k, addressDef x = Some (b, k) -> val x = u64 (val b + k).

Lemma adjacent_val b n : adjacent b n = true -> val n = u64 (val b + 4).
Proof.
  unfold adjacent. destruct (addressDef n) as [[x k]|] eqn:E; [|discriminate]. intros H. apply orb_prop in H.
  rewrite (HA _ _ _ E). destruct H as [H | H].
  - apply andb_prop in H. destruct H as [H1 H2]. apply Nat.eqb_eq in H1. subst x. f_equal. lia.
  - destruct (addressDef b) as [[x' k']|] eqn:E'; [|discriminate].
    apply andb_prop in H. destruct H as [H1 H2]. apply Nat.eqb_eq in H1. subst x'. rewrite (HA _ _ _ E').
    unfold u64. lia.
Qed.
Lemma single_use x i y d : L = x ++ i :: y -> useCount d = 1%nat -> In d (uses i) ->
  ~ In d (flat_map uses x) /\ ~ In d (flat_map uses y) /\ count_occ Nat.eq_dec (uses i) d = 1%nat.
Proof.
  intros E U I. pose proof (HU d) as C. rewrite U, E in C. rewrite flat_map_app in C. cbn [flat_map] in C.
  rewrite !count_occ_app in C. pose proof (proj1 (count_occ_In Nat.eq_dec (uses i) d) I).
  unfold reg in *. split; [|split; [|lia]]; intros J; apply (proj1 (count_occ_In Nat.eq_dec _ d)) in J; unfold reg in *; lia.
Qed.
Lemma not_use l d : ~ In d (flat_map uses l) -> Forall (fun i => ~ In d (uses i)) l.
Proof.
  intros H. rewrite Forall_forall. intros i Hi J. apply H. apply in_flat_map. exists i. split; assumption.
Qed.
Lemma NoDup_drop {A} (l l' : list A) : NoDup (l ++ l') -> NoDup l'.
Proof. induction l as [|x l IHl]; intros H; [exact H|]. cbn [app] in H. apply NoDup_cons_iff in H. apply IHl, H. Qed.
Lemma dup_def x i m y d : L = x ++ i :: m ++ y -> dst i = Some d -> keeps d m.
Proof.
  intros E Di. pose proof HD as ND. rewrite E in ND. unfold dsts in ND. rewrite flat_map_app in ND. cbn [flat_map] in ND.
  rewrite Di in ND. apply NoDup_drop in ND. cbn [app] in ND. apply NoDup_cons_iff in ND. destruct ND as [ND _].
  unfold keeps. rewrite Forall_forall. intros j Hj Dj. apply ND. apply in_flat_map. exists j.
  split; [apply in_or_app; left; exact Hj|]. rewrite Dj. left. reflexivity.
Qed.

Lemma copy_ok l : forall fresh pre0 pre w D, L = pre0 ++ flat w ++ l -> (f <= fresh)%nat -> winOk w ->
  agreeD f D (runB e pre0 s0) (runB e pre s0) -> Forall (avoids D) (flat w ++ l) ->
  (forall x, In x D -> useCount x = 1%nat) ->
  exists D', (forall x, In x D' -> useCount x = 1%nat) /\
    agreeD f D' (runB e L s0) (runB e (copyPass fresh pre w l) s0).
Proof.
  induction l as [|i l IH]; intros fresh pre0 pre w D EL Fc WO AG AV DU.
  { cbn [copyPass]. exists D. split; [exact DU|]. rewrite app_nil_r in EL, AV. rewrite EL, !runB_app.
    apply agreeD_run; try assumption. rewrite EL in HB. apply Forall_app in HB. apply HB. }
  (* moving common code into the prefix *)
  assert (ADV : forall k w' l', flat w ++ i :: l = k ++ flat w' ++ l' -> winOk w' -> length l' = length l -> l' = l ->
    exists D', (forall x, In x D' -> useCount x = 1%nat) /\
      agreeD f D' (runB e L s0) (runB e (copyPass fresh (pre ++ k) w' l') s0)).
  { intros k w' l' E W' _ El. subst l'. apply (IH fresh (pre0 ++ k) (pre ++ k) w' D).
    - rewrite EL, E, <- app_assoc. reflexivity.
    - exact Fc.
    - exact W'.
    - rewrite !runB_app. apply agreeD_run; [|rewrite E in AV; apply Forall_app in AV; apply AV|exact AG].
      rewrite EL, E in HB. apply Forall_app in HB. destruct HB as [_ HB']. apply Forall_app in HB'. apply HB'.
    - rewrite E in AV. apply Forall_app in AV. apply AV.
    - exact DU. }
  assert (FLUSH : exists D', (forall x, In x D' -> useCount x = 1%nat) /\
      agreeD f D' (runB e L s0) (runB e (copyPass fresh (pre ++ flat w ++ [i]) [] l) s0)).
  { apply ADV; try reflexivity; [|constructor]. cbn [flat flat_map app]. rewrite <- app_assoc. reflexivity. }
  assert (SKIP : quiet i -> exists D', (forall x, In x D' -> useCount x = 1%nat) /\
      agreeD f D' (runB e L s0) (runB e (let '(pre', w') := skip pre w i in copyPass fresh pre' w' l) s0)).
  { intros Q. destruct (skip pre w i) as [pre' w'] eqn:S. destruct (skip_spec _ _ _ _ _ S WO Q) as (k & -> & E & W').
    apply ADV; try reflexivity; [|exact W']. rewrite (app_assoc k), <- E, <- app_assoc. reflexivity. }
  assert (PUSH : winAcc i -> exists D', (forall x, In x D' -> useCount x = 1%nat) /\
      agreeD f D' (runB e L s0) (runB e (let '(pre', w') := push pre w i in copyPass fresh pre' w' l) s0)).
  { intros A. destruct (push pre w i) as [pre' w'] eqn:S. destruct (push_spec _ _ _ _ _ S WO A) as (k & w0 & -> & E & W' & _).
    apply ADV; try reflexivity; [|exact W']. rewrite (app_assoc k), <- E, <- app_assoc. reflexivity. }
  assert (Hin : In i L) by (rewrite EL; apply in_or_app; right; apply in_or_app; right; left; reflexivity).
  destruct i as [o d a b | o d a c | o d a | d v | o d off a | o v off a | o a b t | t | id d us |];
    cbn [copyPass]; try (apply SKIP; exact I); try exact FLUSH.
  - destruct o; try exact FLUSH. destruct off; try exact FLUSH.
    rewrite (HS d a Hin). cbn [Nat.eqb]. apply PUSH. left. eauto.
  - destruct o; try exact FLUSH. destruct off; try exact FLUSH.
    assert (A : winAcc (St SW v 0 a)) by (right; eauto). specialize (PUSH A).
    destruct (push pre w (St SW v 0 a)) as [pre' w'] eqn:S.
    destruct (push_spec _ _ _ _ _ S WO A) as (k & w0 & Ep & E & W' & Ew).
    destruct (Nat.eqb (length w') 4) eqn:L4; [|exact PUSH].
    destruct (tryFold fresh w') as [out|] eqn:TF; [|exact PUSH]. clear PUSH FLUSH SKIP.
    apply tryFold_inv in TF. destruct TF as (d1 & a1 & m1 & b1 & m2 & d2 & a2 & m3 & b2 & m4 & Ew' & Eo & MA & MB).
    assert (E4 : m4 = [] /\ v = d2 /\ a = b2).
    { rewrite Ew' in Ew. change [(Ld LW d1 0 a1, m1); (St SW d1 0 b1, m2); (Ld LW d2 0 a2, m3); (St SW d2 0 b2, m4)]
        with ([(Ld LW d1 0 a1, m1); (St SW d1 0 b1, m2); (Ld LW d2 0 a2, m3)] ++ [(St SW d2 0 b2, m4)]) in Ew.
      apply app_inj_tail in Ew. destruct Ew as [_ Ew]. injection Ew as A1 A2 A3. subst. repeat split. }
    destruct E4 as (-> & -> & ->). rewrite app_nil_r in Eo.
    assert (FW : flat w' = Ld LW d1 0 a1 :: m1 ++ St SW d1 0 b1 :: m2 ++ Ld LW d2 0 a2 :: m3 ++ [St SW d2 0 b2]).
    { rewrite Ew'. cbn [flat flat_map fst snd app]. rewrite ?app_nil_r. repeat (rewrite <- ?app_assoc; cbn [app]). reflexivity. }
    assert (EL' : L = (pre0 ++ k) ++ flat w' ++ l).
    { rewrite EL. rewrite <- !app_assoc. f_equal. rewrite (app_assoc k), <- E, <- app_assoc. reflexivity. }
    set (P := pre0 ++ k) in *.
    assert (AVk : Forall (avoids D) (k ++ flat w' ++ l)) by (rewrite (app_assoc k), <- E, <- app_assoc; exact AV).
    apply Forall_app in AVk. destruct AVk as [AVk AVw].
    assert (BL : Forall (below f) P /\ Forall (below f) (flat w') /\ Forall (below f) l).
    { rewrite EL' in HB. apply Forall_app in HB. destruct HB as [X Y]. apply Forall_app in Y. tauto. }
    destruct BL as (BP & BW & Bl).
    assert (AGP : agreeD f D (runB e P s0) (runB e (pre ++ k) s0)).
    { unfold P. rewrite !runB_app. apply agreeD_run; [|exact AVk|exact AG]. unfold P in BP. apply Forall_app in BP. apply BP. }
    apply Forall_app in AVw. destruct AVw as [AVw AVl].
    (* splits of the block at the four accesses *)
    assert (L1 : L = P ++ Ld LW d1 0 a1 :: m1 ++ St SW d1 0 b1 :: m2 ++ Ld LW d2 0 a2 :: m3 ++ St SW d2 0 b2 :: l).
    { rewrite EL', FW. cbn [app]. repeat (rewrite <- ?app_assoc; cbn [app]). reflexivity. }
    assert (L2 : L = (P ++ Ld LW d1 0 a1 :: m1) ++ St SW d1 0 b1 :: m2 ++ Ld LW d2 0 a2 :: m3 ++ St SW d2 0 b2 :: l).
    { rewrite L1. repeat (rewrite <- ?app_assoc; cbn [app]). reflexivity. }
    assert (L3 : L = (P ++ Ld LW d1 0 a1 :: m1 ++ St SW d1 0 b1 :: m2) ++ Ld LW d2 0 a2 :: m3 ++ St SW d2 0 b2 :: l).
    { rewrite L1. repeat (rewrite <- ?app_assoc; cbn [app]). reflexivity. }
    assert (L4' : L = (P ++ Ld LW d1 0 a1 :: m1 ++ St SW d1 0 b1 :: m2 ++ Ld LW d2 0 a2 :: m3) ++ St SW d2 0 b2 :: l).
    { rewrite L1. repeat (rewrite <- ?app_assoc; cbn [app]). reflexivity. }
    assert (U1 : useCount d1 = 1%nat) by (apply (HS d1 a1); rewrite L1; apply in_or_app; right; left; reflexivity).
    assert (U2 : useCount d2 = 1%nat) by (apply (HS d2 a2); rewrite L3; apply in_or_app; right; left; reflexivity).
    destruct (single_use _ _ _ d1 L2 U1 (or_introl eq_refl)) as (X1 & Y1 & C1).
    destruct (single_use _ _ _ d2 L4' U2 (or_introl eq_refl)) as (X2 & Y2 & C2).
    assert (NB1 : b1 <> d1).
    { intros ->. cbn [uses count_occ] in C1. destruct (Nat.eq_dec d1 d1); [lia|congruence]. }
    assert (NB2 : b2 <> d2).
    { intros ->. cbn [uses count_occ] in C2. destruct (Nat.eq_dec d2 d2); [lia|congruence]. }
    apply not_use in X1, Y1, X2, Y2. rewrite Forall_forall in X1, Y1, X2, Y2.
    rewrite FW in BW, AVw.
    assert (AW : forall j, In j (flat w') -> avoids D j) by (rewrite FW; rewrite Forall_forall in AVw; exact AVw).
    assert (BW' : forall j, In j (flat w') -> below f j) by (rewrite FW; rewrite Forall_forall in BW; exact BW).
    assert (IN : forall j, j = Ld LW d1 0 a1 \/ j = St SW d1 0 b1 \/ j = Ld LW d2 0 a2 \/ j = St SW d2 0 b2 \/ In j (m1 ++ m2 ++ m3) -> In j (flat w')).
    { intros j. rewrite FW. cbn [In]. rewrite !in_app_iff. cbn [In]. rewrite !in_app_iff. cbn [In]. rewrite ?in_app_iff. cbn [In]. intuition. }
    assert (VA : rd (R (runB e P s0)) a1 = val a1 /\ (align (Ld LW d1 0 a1) = 8 -> val a1 mod 8 = 0)) by (apply (HV _ _ _ a1 L1); left; eauto).
    assert (VB : rd (R (runB e (P ++ Ld LW d1 0 a1 :: m1) s0)) b1 = val b1 /\ (align (St SW d1 0 b1) = 8 -> val b1 mod 8 = 0)) by (apply (HV _ _ _ b1 L2); right; eauto).
    assert (VC : rd (R (runB e (P ++ Ld LW d1 0 a1 :: m1 ++ St SW d1 0 b1 :: m2) s0)) a2 = val a2) by (apply (HV _ _ _ a2 L3); left; eauto).
    assert (VD : rd (R (runB e (P ++ Ld LW d1 0 a1 :: m1 ++ St SW d1 0 b1 :: m2 ++ Ld LW d2 0 a2 :: m3) s0)) b2 = val b2) by (apply (HV _ _ _ b2 L4'); right; eauto).
    unfold matchAdj in MA, MB. apply andb_prop in MA. destruct MA as [MA MA3]. apply andb_prop in MA. destruct MA as [MA1 MA2].
    apply andb_prop in MB. destruct MB as [MB MB3]. apply andb_prop in MB. destruct MB as [MB1 MB2].
    apply adjacent_val in MA3, MB3.
    assert (WF : forall x y, L = x ++ y -> wfR (R (runB e x s0))).
    { intros x y Exy. rewrite Exy in HI. apply Forall_app in HI. destruct HI as [HIx _]. clear - HIx HW.
      revert HW. generalize s0. induction x as [|j x IHx]; intros s W; [exact W|]. inversion HIx; subst. rewrite runB_cons.
      apply IHx; [assumption|]. apply exec1_wf; assumption. }
    assert (FO : agreeD f (d2 :: d1 :: D) (runB e (flat w') (runB e P s0)) (runB e out (runB e (pre ++ k) s0))).
    { rewrite FW, Eo. rewrite ?runB_app in VC, VD, VB.
      apply (fold_ok e f D fresh d1 a1 b1 d2 a2 b2 m1 m2 m3 _ _ (val a1) (val b1)); try assumption.
      - rewrite Ew' in W'. unfold winOk in W'. inversion W' as [|? ? [_ q1] W1]; subst. inversion W1 as [|? ? [_ q2] W2]; subst.
        inversion W2 as [|? ? [_ q3] W3]; subst. apply Forall_app. split; [exact q1|]. apply Forall_app. split; assumption.
      - rewrite Forall_forall. intros j Hj. apply BW', IN. tauto.
      - rewrite Forall_forall. intros j Hj x Ux. assert (AD : ~ In x D) by (apply (AW j); [apply IN; tauto|exact Ux]).
        cbn [In]. intros [<- | [<- | J]]; [| |tauto].
        + apply (X2 j); [|exact Ux]. rewrite !in_app_iff in Hj. inl.
        + rewrite !in_app_iff in Hj. destruct Hj as [Hj | Hj]; [apply (X1 j); [inl|exact Ux]|apply (Y1 j); [inl|exact Ux]].
      - assert (B1 : below f (Ld LW d1 0 a1)) by (apply BW', IN; tauto).
        assert (B2 : below f (St SW d1 0 b1)) by (apply BW', IN; tauto).
        assert (B3 : below f (Ld LW d2 0 a2)) by (apply BW', IN; tauto).
        assert (B4 : below f (St SW d2 0 b2)) by (apply BW', IN; tauto).
        destruct B1 as [b1d b1u], B2 as [_ b2u], B3 as [b3d b3u], B4 as [_ b4u].
        repeat split; [apply b1u|apply b2u|apply b3u|apply b4u|apply b1d|apply b3d]; cbn; tauto.
      - intros ->. apply (HZ (Ld LW zero 0 a1)); [rewrite L1; apply in_or_app; right; left; reflexivity|reflexivity].
      - intros ->. apply (HZ (Ld LW zero 0 a2)); [rewrite L3; apply in_or_app; right; left; reflexivity|reflexivity].
      - intros x Hx.
        assert (AD : ~ In x D).
        { cbn [In] in Hx. destruct Hx as [<- | [<- | [<- | [<- | []]]]];
            [apply (AW (Ld LW d1 0 a1)); [apply IN; tauto|cbn; tauto]
            |apply (AW (St SW d1 0 b1)); [apply IN; tauto|cbn; tauto]
            |apply (AW (Ld LW d2 0 a2)); [apply IN; tauto|cbn; tauto]
            |apply (AW (St SW d2 0 b2)); [apply IN; tauto|cbn; tauto]]. }
        cbn [In]. intros [J | [J | J]]; [| |tauto]; subst x; cbn [In] in Hx.
        + destruct Hx as [J | [J | [J | [J | []]]]].
          * apply (X2 (Ld LW d1 0 a1)); [inl|left; exact J].
          * apply (X2 (St SW d1 0 b1)); [inl|right; left; exact J].
          * apply (X2 (Ld LW d2 0 a2)); [inl|left; exact J].
          * exact (NB2 J).
        + destruct Hx as [J | [J | [J | [J | []]]]].
          * apply (X1 (Ld LW d1 0 a1)); [inl|left; exact J].
          * exact (NB1 J).
          * apply (Y1 (Ld LW d2 0 a2)); [inl|left; exact J].
          * apply (Y1 (St SW d2 0 b2)); [inl|right; left; exact J].
      - apply (dup_def P (Ld LW d1 0 a1) m1 (St SW d1 0 b1 :: m2 ++ Ld LW d2 0 a2 :: m3 ++ St SW d2 0 b2 :: l) d1); [exact L1|reflexivity].
      - apply (dup_def _ (Ld LW d2 0 a2) m3 (St SW d2 0 b2 :: l) d2 L3). reflexivity.
      - apply VA. lia.
      - apply VB. lia.
      - rewrite <- (proj1 VA). apply rd_range. apply (WF P _ L1).
      - rewrite <- (proj1 VB). rewrite <- runB_app. apply rd_range, (WF _ _ L2).
      - apply VA.
      - apply VB.
      - rewrite VC. exact MA3.
      - rewrite VD. exact MB3. }
    rewrite Ep. destruct (IH (Datatypes.S fresh) (P ++ flat w') ((pre ++ k) ++ out) [] (d2 :: d1 :: D)) as [D' HD'].
    + rewrite EL', <- app_assoc. reflexivity.
    + lia.
    + constructor.
    + rewrite !(runB_app e P), !(runB_app e (pre ++ k)). exact FO.
    + cbn [flat flat_map app]. rewrite Forall_forall in *. intros j Hj x Ux.
      cbn [In]. intros [<- | [<- | J]]; [| |exact (AVl j Hj x Ux J)].
      * apply (Y2 j Hj Ux).
      * apply (Y1 j); [inl|exact Ux].
    + intros x [<- | [<- | J]]; [exact U2|exact U1|apply DU, J].
    + exists D'. exact HD'.
Qed.
End Block.
End Copy.
