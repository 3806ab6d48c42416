(** C31: folding of adjacent memory accesses and reuse of materialised constants.
    Models cmmc/Target/RISCV/RISCVScheduleModel.cpp: largeImmMaterialize 417-500, foldStoreZero 502-558,
    earlyFoldStore 560-633, earlyFoldLoad 635-701.  All of them work on one basic block, so a block is a list of
    instructions run from first to last.  Simplifications: only immediate offsets (the relocation cases of
    earlyFoldStore/earlyFoldLoad are not modelled); [Ext] stands for instructions with side effects (calls etc.);
    the alignment operand is given by a function of the instruction. *)
From Coq Require Import ZArith Lia Bool ZifyBool List Arith.
From Verif Require Import Word Rv64 RvMachine RvPeephole.
Import ListNotations.
Local Open Scope Z_scope.

(** Straight-line execution *)
Definition runB (e : env) (l : list instr) (s : state) : state := fold_left (fun s i => exec1 e i s) l s.

(** InstFlagSideEffect (loads, stores, branches, calls) *)
Definition sideEffect (i : instr) : bool :=
  match i with Ld _ _ _ _ | St _ _ _ _ | Br _ _ _ _ | Jmp _ | Ext _ _ _ => true | _ => false end.

(* ------------------------------------------------------------------ *)
(** * The passes *)
(** 417-500: the queue of the last four constants held in virtual registers, newest first *)
Definition queue := list (Z * reg).
Definition addImm (isVReg : reg -> bool) (v : Z) (r : reg) (q : queue) : queue :=
  if isVReg r then firstn 4 ((v, r) :: q) else q.
Fixpoint firstK (f : nat -> bool) (k n : nat) : option nat :=
  match n with O => None | S n' => if f k then Some k else firstK f (S k) n' end.
(** 428-482, one queue entry *)
Definition reuse1 (v : Z) (d : reg) (e : Z * reg) : option instr :=
  let '(c, x) := e in
  if v =? c then Some (I1 MoveGPR d x) else
  match firstK (fun k => s64 (c * 2 ^ Z.of_nat k) =? v) 1 8 with
  | Some k => Some (II SLLI d x (Z.of_nat k))
  | None =>
    match firstK (fun k => c / 2 ^ Z.of_nat k =? v) 1 8 with
    | Some k => Some (II SRLI d x (Z.of_nat k))
    | None =>
      if (-2048 <=? s64 (v - c)) && (s64 (v - c) <? 2048) then Some (II ADDI d x (s64 (v - c)))
      else if s64 (- c) =? v then Some (I2 SUB d zero x)
      else if -1 - c =? v then Some (II XORI d x (-1))
      else if s64 (c * 3) =? v then Some (I2 SH1ADD d x x)
      else if s64 (c * 5) =? v then Some (I2 SH2ADD d x x)
      else if s64 (c * 9) =? v then Some (I2 SH3ADD d x x)
      else None
    end
  end.
Fixpoint reuseImm (v : Z) (d : reg) (q : queue) : option instr :=
  match q with
  | [] => None
  | e :: q' => match reuse1 v d e with Some i => Some i | None => reuseImm v d q' end
  end.
(** 484-499 *)
Definition isImm12 (v : Z) : bool := (-2048 <=? v) && (v <? 2048).
Fixpoint largeImm (isVReg : reg -> bool) (q : queue) (l : list instr) : list instr :=
  match l with
  | [] => []
  | LoadImm d v :: l' =>
      (if isImm12 v then LoadImm d v
       else match reuseImm v d q with Some i => i | None => LoadImm d v end)
      :: largeImm isVReg (addImm isVReg v d q) l'
  | i :: l' => i :: largeImm isVReg q l'
  end.

(** A pass that pairs a word store (load) with the next one of the block; [mid] holds the instructions in between *)
Record acc := Acc { aV : reg; aOff : Z; aBase : reg }.
Definition swOf (a : acc) : instr := St SW (aV a) (aOff a) (aBase a).
Definition lwOf (a : acc) : instr := Ld LW (aV a) (aOff a) (aBase a).

Section Pair.
Context (isAcc : instr -> option acc) (unAcc : acc -> instr).
Variable fold2 : nat -> acc -> list instr -> acc -> option (list instr * nat).
Fixpoint pairPass (c : nat) (pend : option (acc * list instr)) (l : list instr) : list instr :=
  match l with
  | [] => match pend with Some (a, mid) => unAcc a :: mid | None => [] end
  | i :: l' =>
      match isAcc i with
      | None =>
          match pend with
          | None => i :: pairPass c None l'
          | Some (a, mid) => if sideEffect i then unAcc a :: mid ++ i :: pairPass c None l'
                             else pairPass c (Some (a, mid ++ [i])) l'
          end
      | Some b =>
          match pend with
          | None => pairPass c (Some (b, [])) l'
          | Some (a, mid) =>
              match fold2 c a mid b with
              | Some (out, c') => out ++ pairPass c' None l'
              | None => unAcc a :: mid ++ pairPass c (Some (b, [])) l'
              end
          end
      end
  end.
End Pair.
Definition isSW (i : instr) : option acc := match i with St SW v o b => Some (Acc v o b) | _ => None end.
Definition isLW (i : instr) : option acc := match i with Ld LW v o b => Some (Acc v o b) | _ => None end.

(** 560-633 *)
Definition foldStore2 (align : acc -> Z) (fresh : nat) (a : acc) (mid : list instr) (b : acc) : option (list instr * nat) :=
  if (8 <=? align a) && (4 <=? align b) && Nat.eqb (aBase a) (aBase b) && (aOff a + 4 =? aOff b) then
    Some (mid ++ [II SLLI fresh (aV b) 32; I2 ADD_UW (S fresh) (aV a) fresh; St SD (S fresh) (aOff a) (aBase a)],
          S (S fresh))
  else None.
Definition earlyFoldStore (align : acc -> Z) (fresh : nat) (l : list instr) : list instr :=
  pairPass isSW swOf (foldStore2 align) fresh None l.

(** 635-701 *)
Definition foldLoad2 (align : acc -> Z) (fresh : nat) (a : acc) (mid : list instr) (b : acc) : option (list instr * nat) :=
  if (8 <=? align a) && (4 <=? align b) && Nat.eqb (aBase a) (aBase b) && (aOff a + 4 =? aOff b) then
    Some (Ld LD fresh (aOff a) (aBase a) :: I1 SEXT_W (aV a) fresh :: mid ++ [II SRAI (aV b) fresh 32], S fresh)
  else None.
Definition earlyFoldLoad (align : acc -> Z) (fresh : nat) (l : list instr) : list instr :=
  pairPass isLW lwOf (foldLoad2 align) fresh None l.

(** 502-558.  [obj r = Some o]: operand [r] is a stack object at offset [o] from the stack pointer.
    C++ remainder truncates. *)
Definition storeZero (align : acc -> Z) (obj : reg -> option Z) (want : Z) (a : acc) : bool :=
  Nat.eqb (aV a) zero &&
  match obj (aBase a) with
  | Some o => Z.rem (o + aOff a) 8 =? want
  | None => if want =? 0 then 8 <=? align a else align a =? 4
  end.
Definition foldZero2 (align : acc -> Z) (obj : reg -> option Z) (c : nat) (a : acc) (mid : list instr) (b : acc)
  : option (list instr * nat) :=
  let bothObj := match obj (aBase a), obj (aBase b) with Some _, Some _ => true | _, _ => false end in
  if storeZero align obj 0 a && storeZero align obj 4 b
     && (bothObj || (Nat.eqb (aBase a) (aBase b) && (aOff a + 4 =? aOff b)))
  then Some (mid ++ [St SD zero (aOff a) (aBase a)], c)
  else None.
Definition foldStoreZero align obj (l : list instr) : list instr :=
  pairPass isSW swOf (foldZero2 align obj) 0%nat None l.

(* ------------------------------------------------------------------ *)
(** * Constants *)
Lemma s64_eq x v : s64 x = v -> u64 x = u64 v.
Proof. intros <-. unfold s64, u64. lia. Qed.
Lemma firstK_sound f : forall n k r, firstK f k n = Some r -> f r = true /\ (k <= r < k + n)%nat.
Proof.
  induction n as [|n IH]; intros k r H; [discriminate|]. cbn [firstK] in H. destruct (f k) eqn:E.
  - injection H as <-. split; [exact E|lia].
  - apply IH in H. destruct H. split; [assumption|lia].
Qed.
Lemma u64_al x y : u64 (u64 x + y) = u64 (x + y). Proof. unfold u64. lia. Qed.
Lemma u64_sr x y : u64 (x - u64 y) = u64 (x - y). Proof. unfold u64. lia. Qed.
Lemma u64_ml x y : u64 (u64 x * y) = u64 (x * y).
Proof. unfold u64. rewrite Z.mul_mod_idemp_l by lia. reflexivity. Qed.
Lemma xor_ones c : Z.lxor (u64 c) (u64 (-1)) = u64 (-1 - c).
Proof.
  apply Z.bits_inj'. intros i Hi. rewrite Z.lxor_spec. unfold u64. change 18446744073709551616 with (2 ^ 64).
  destruct (Z_lt_le_dec i 64).
  - rewrite !Z.mod_pow2_bits_low by lia. replace (-1 - c) with (Z.lnot c) by (unfold Z.lnot; lia).
    rewrite Z.lnot_spec by lia. rewrite Z.bits_m1 by lia. destruct (Z.testbit c i); reflexivity.
  - rewrite !Z.mod_pow2_bits_high by lia. reflexivity.
Qed.

(** no negative queued constant is shifted right *)
Definition noNegShift (v c : Z) : Prop := c < 0 -> forall k, 1 <= k <= 8 -> c / 2 ^ k <> v.

Lemma reuse1_ok e v d c x i s : reuse1 v d (c, x) = Some i -> noNegShift v c ->
  -9223372036854775808 <= c < 9223372036854775808 -> -9223372036854775808 <= v < 9223372036854775808 ->
  rd (R s) x = u64 c -> exec1 e i s = exec1 e (LoadImm d v) s.
Proof.
  intros H N RC RV E. unfold reuse1 in H.
  destruct (v =? c) eqn:Evc.
  { injection H as <-. cbn [exec1]. apply wr_eq. cbn [ev1]. rewrite E. f_equal. lia. }
  destruct (firstK (fun k => s64 (c * 2 ^ Z.of_nat k) =? v) 1 8) as [k|] eqn:K1.
  { injection H as <-. apply firstK_sound in K1. destruct K1 as [K1 _]. cbn [exec1]. apply wr_eq. cbn [evi].
    unfold Rv.SLLI. rewrite E, u64_ml. apply s64_eq. apply Z.eqb_eq, K1. }
  clear K1. destruct (firstK (fun k => c / 2 ^ Z.of_nat k =? v) 1 8) as [k|] eqn:K2.
  { injection H as <-. apply firstK_sound in K2. destruct K2 as [K2 KR]. apply Z.eqb_eq in K2.
    cbn [exec1]. apply wr_eq. cbn [evi]. unfold Rv.SRLI. rewrite E.
    destruct (Z_lt_le_dec c 0) as [Cn|Cp]; [exfalso; apply (N Cn (Z.of_nat k)); [lia|exact K2]|].
    rewrite (u64_small c) by lia. rewrite K2. symmetry. apply u64_small. split; [|lia].
    rewrite <- K2. apply Z.div_pos; [lia|apply Z.pow_pos_nonneg; lia]. }
  clear K2.
  destruct ((-2048 <=? s64 (v - c)) && (s64 (v - c) <? 2048)).
  { injection H as <-. cbn [exec1]. apply wr_eq. cbn [evi]. unfold Rv.ADDI. rewrite E, u64_al.
    unfold u64, s64. lia. }
  destruct (s64 (- c) =? v) eqn:E4.
  { injection H as <-. cbn [exec1]. apply wr_eq. cbn [ev2]. unfold Rv.SUB. rewrite E, rd_zero, u64_sr.
    apply s64_eq. replace (0 - c) with (- c) by lia. lia. }
  destruct (-1 - c =? v) eqn:E5.
  { injection H as <-. cbn [exec1]. apply wr_eq. cbn [evi]. unfold Rv.XORI. rewrite E, xor_ones. f_equal. lia. }
  assert (SH : forall m, u64 (u64 c * m + u64 c) = u64 (c * (m + 1))).
  { intros m. replace (c * (m + 1)) with (c * m + c) by ring. unfold u64.
    rewrite Z.add_mod_idemp_r by lia. rewrite <- Z.add_mod_idemp_l, Z.mul_mod_idemp_l, Z.add_mod_idemp_l by lia. reflexivity. }
  destruct (s64 (c * 3) =? v) eqn:E6.
  { injection H as <-. cbn [exec1]. apply wr_eq. cbn [ev2]. unfold Rv.SH_ADD. rewrite E, (SH (2 ^ 1)). apply s64_eq. apply Z.eqb_eq, E6. }
  destruct (s64 (c * 5) =? v) eqn:E7.
  { injection H as <-. cbn [exec1]. apply wr_eq. cbn [ev2]. unfold Rv.SH_ADD. rewrite E, (SH (2 ^ 2)). apply s64_eq. apply Z.eqb_eq, E7. }
  destruct (s64 (c * 9) =? v) eqn:E8; [|discriminate].
  injection H as <-. cbn [exec1]. apply wr_eq. cbn [ev2]. unfold Rv.SH_ADD. rewrite E, (SH (2 ^ 3)). apply s64_eq. apply Z.eqb_eq, E8.
Qed.

(** constants of the block are 64-bit and no register is defined twice *)
Definition imms (l : list instr) : list Z := flat_map (fun i => match i with LoadImm _ v => [v] | _ => [] end) l.
Definition dsts (l : list instr) : list reg := flat_map (fun i => match dst i with Some d => [d] | None => [] end) l.
Definition Z64 (v : Z) : Prop := -9223372036854775808 <= v < 9223372036854775808.

Lemma reuseImm_ok e v d q i s : reuseImm v d q = Some i -> Z64 v ->
  (forall c x, In (c, x) q -> Z64 c /\ noNegShift v c /\ rd (R s) x = u64 c) ->
  exec1 e i s = exec1 e (LoadImm d v) s.
Proof.
  induction q as [|[c x] q IH]; intros H RV Hq; [discriminate|]. cbn [reuseImm] in H.
  destruct (reuse1 v d (c, x)) as [i'|] eqn:E1.
  - injection H as <-. destruct (Hq c x (or_introl eq_refl)) as (A & B & C). apply (reuse1_ok e v d c x); assumption.
  - apply IH; [exact H|exact RV|]. intros c' x' I. apply Hq. right. exact I.
Qed.
Lemma firstn_In {A} n (l : list A) x : In x (firstn n l) -> In x l.
Proof. revert l. induction n as [|n IH]; intros [|y l] H; cbn in *; try tauto. destruct H; [left; assumption|right; apply IH; assumption]. Qed.

Lemma largeImm_ok e isVReg : isVReg zero = false -> forall l q s,
  NoDup (dsts l) -> Forall Z64 (imms l) ->
  (forall c x, In (c, x) q -> x <> zero /\ Z64 c /\ rd (R s) x = u64 c /\ ~ In x (dsts l) /\
     forall v, In v (imms l) -> isImm12 v = false -> noNegShift v c) ->
  (forall a c b v, l = a ++ c :: b -> In v (imms b) -> isImm12 v = false -> forall cd cv, c = LoadImm cd cv -> noNegShift v cv) ->
  runB e (largeImm isVReg q l) s = runB e l s.
Proof.
  intros VZ. induction l as [|i l IH]; intros q s ND RI Hq HN; [reflexivity|].
  assert (NDl : NoDup (dsts l)).
  { cbn [dsts flat_map] in ND. fold (dsts l) in ND. destruct (dst i); cbn [app] in ND; [apply NoDup_cons_iff in ND; tauto|exact ND]. }
  assert (HNl : forall a c b v, l = a ++ c :: b -> In v (imms b) -> isImm12 v = false -> forall cd cv, c = LoadImm cd cv -> noNegShift v cv).
  { intros a c b v -> . apply (HN (i :: a) c b v). reflexivity. }
  assert (RIl : Forall Z64 (imms l)).
  { cbn [imms flat_map] in RI. fold (imms l) in RI. apply Forall_app in RI. tauto. }
  (* queue facts survive instruction i *)
  assert (KEEP : forall c x, In (c, x) q -> x <> zero /\ Z64 c /\ rd (R (exec1 e i s)) x = u64 c /\ ~ In x (dsts l) /\
     forall v, In v (imms l) -> isImm12 v = false -> noNegShift v c).
  { intros c x I. destruct (Hq c x I) as (A & B & C & D & F). cbn [dsts flat_map] in D. fold (dsts l) in D.
    repeat split; try assumption.
    - apply B.
    - apply B.
    - rewrite exec1_other; [exact C|]. intros E. rewrite E in D. apply D. left. reflexivity.
    - intros I'. apply D. apply in_or_app. right. exact I'.
    - intros v Iv. apply F. cbn [imms flat_map]. fold (imms l). apply in_or_app. right. exact Iv. }
  destruct i as [| | |d v| | | | | |]; cbn [largeImm runB fold_left]; try (apply IH; assumption).
  assert (X : exec1 e (if isImm12 v then LoadImm d v else match reuseImm v d q with Some i => i | None => LoadImm d v end) s
              = exec1 e (LoadImm d v) s).
  { destruct (isImm12 v) eqn:I12; [reflexivity|]. destruct (reuseImm v d q) as [i|] eqn:Q; [|reflexivity].
    apply (reuseImm_ok e v d q i s Q).
    - cbn [imms flat_map app] in RI. apply Forall_inv in RI. exact RI.
    - intros c x I. destruct (Hq c x I) as (A & B & C & D & F). split; [exact B|]. split; [|exact C].
      apply F; [left; reflexivity|exact I12]. }
  rewrite X. apply IH; try assumption.
  intros c x I. unfold addImm in I. destruct (isVReg d) eqn:V; [|apply KEEP, I].
  apply firstn_In in I. destruct I as [I | I]; [|apply KEEP, I]. injection I as <- <-.
  assert (d <> zero) by congruence. split; [assumption|].
  split. { cbn [imms flat_map app] in RI. apply Forall_inv in RI. exact RI. }
  split. { cbn [exec1 R]. rewrite rd_wr. destruct (Nat.eqb d zero) eqn:Q; [apply Nat.eqb_eq in Q; congruence|]. rewrite Nat.eqb_refl. reflexivity. }
  split. { cbn [dsts flat_map dst app] in ND. apply NoDup_cons_iff in ND. tauto. }
  intros v' Iv' I12. apply (HN [] (LoadImm d v) l v' eq_refl Iv' I12 d v eq_refl).
Qed.
