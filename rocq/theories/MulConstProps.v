(** C10: multiplication by constants.  Model in MulConst.v. *)
From Coq Require Import ZArith List Lia Bool ZifyBool.
From Verif Require Import MulConst.
Import ListNotations.
Open Scope Z_scope.

(** the multiplier a plan stands for *)
Fixpoint pval (p : plan) : Z :=
  match p with
  | [] => 1
  | s :: par =>
      let v := pval par in
      let r := match rhs s with CHAIN => v | ORIGIN => 1 end in
      match arith s with
      | NOP => v * 2 ^ shamt s
      | ADD => v * 2 ^ shamt s + r
      | SUB => v * 2 ^ shamt s - r
      end
  end.

Record good (n u : Z) (p : plan) : Prop := {
  gVal : pval p = n;
  gCost : cost p <= u + 1;
  gSh : forall K, 0 <= K -> n <= 2 ^ K -> Forall (fun s => 0 <= shamt s <= K) p }.

Lemma cost_nonneg p : 0 <= cost p.
Proof.
  induction p as [|s p IH]; cbn [cost]; [lia|].
  assert (0 <= ar_cost (arith s)) by (destruct (arith s); cbn; lia). destruct (0 <? shamt s); lia.
Qed.

Definition optgood (n u : Z) (p : option plan) : Prop := forall q, p = Some q -> good n u q.
Definition minv (M : memo) : Prop := forall u n p, M u n = Some p -> good n u p.
Definition ok (n u : Z) (r : res) : Prop :=
  exists M p, r = Ok M p /\ minv M /\ optgood n u p.

Lemma minv_set M u n p : minv M -> good n u p -> minv (memo_set M u n p).
Proof.
  intros V G u' n' q. unfold memo_set. destruct ((u' =? u) && (n' =? n)) eqn:E; [|apply V].
  intros [= <-]. assert (u' = u /\ n' = n) as [-> ->] by lia. auto.
Qed.

Lemma optgood_min n u a b : optgood n u a -> optgood n u b -> optgood n u (minPlan a b).
Proof.
  intros A B q. unfold minPlan. destruct a as [p|], b as [p'|]; intros E; auto.
  destruct (plan_lt p p'); auto.
Qed.

Lemma good_weaken n u u' p : u <= u' -> good n u p -> good n u' p.
Proof. intros L [A B C]. constructor; auto. lia. Qed.

Lemma strip2_spec p : Zpos p = Zpos (fst (strip2 p)) * 2 ^ snd (strip2 p) /\ 0 <= snd (strip2 p) /\
  (fst (strip2 p) = 1%positive \/ exists q, fst (strip2 p) = xI q).
Proof.
  induction p as [p IH|p IH|]; cbn [strip2].
  - split; [cbn [fst snd]; lia|]. split; [cbn; lia|]. right. exists p. reflexivity.
  - destruct (strip2 p) as [m s]. cbn [fst snd] in *. destruct IH as (E & S & O).
    split; [|split; [lia|auto]]. rewrite Pos2Z.inj_xO, E, Z.pow_add_r by lia. change (2 ^ 1) with 2. lia.
  - split; [cbn [fst snd]; lia|]. split; [cbn; lia|auto].
Qed.

Lemma pow_le_inv a b : 0 <= b -> 2 ^ a <= 2 ^ b -> a <= b.
Proof.
  intros B H. destruct (Z.le_gt_cases a b) as [L|L]; auto.
  assert (2 ^ b < 2 ^ a) by (apply Z.pow_lt_mono_r; lia). lia.
Qed.

Section OddProofs.
Variables (self : Z -> Z -> memo -> res) (u n : Z).
Hypothesis Hself : forall n' u' M, minv M -> 1 <= n' <= 2 ^ 62 -> u' < u -> ok n' u' (self n' u' M).
Hypothesis Hn : 3 <= n < 2 ^ 62.
Hypothesis Hodd : n mod 2 = 1.

Lemma cu_le pl : currentUpper u pl <= u.
Proof. destruct pl; cbn; lia. Qed.

Lemma attempt_ok n' cut sh a r pl M : minv M -> optgood n u pl -> 1 <= n' <= 2 ^ 62 -> 1 <= cut ->
  (forall c q, c <= u -> good n' (c - cut) q -> good n u (mkStep sh a r :: q)) ->
  ok n u (attempt self n' u cut sh a r pl M).
Proof.
  intros V G L C H. unfold attempt. pose proof (cu_le pl) as CL.
  destruct (Hself n' (currentUpper u pl - cut) M V L) as (M' & p & -> & V' & G'); [lia|].
  destruct p as [q|].
  - exists M', (minPlan pl (Some (mkStep sh a r :: q))). split; auto. split; auto. apply optgood_min; auto.
    intros q' [= <-]. apply (H (currentUpper u pl)); auto.
  - exists M', pl. auto.
Qed.

Lemma good_origin n' c a q : (n' = n - 1 /\ a = ADD) \/ (n' = n + 1 /\ a = SUB) ->
  c <= u -> good n' (c - 1) q -> good n u (mkStep 0 a ORIGIN :: q).
Proof.
  intros H L [G1 G2 G3]. constructor.
  - cbn [pval rhs arith shamt]. change (2 ^ 0) with 1. destruct H as [[-> ->]|[-> ->]]; lia.
  - cbn [cost shamt arith]. change (0 <? 0) with false. assert (ar_cost a = 1) as -> by (destruct H as [[_ ->]|[_ ->]]; reflexivity). lia.
  - intros K HK LE. constructor; [cbn; lia|]. apply G3; auto.
    assert (n <> 2 ^ K).
    { intros ->. destruct (Z.eq_dec K 0) as [->|N]; [cbn in Hn; lia|].
      replace K with ((K - 1) + 1) in Hodd by lia. rewrite Z.pow_add_r in Hodd by lia.
      change (2 ^ 1) with 2 in Hodd. rewrite Z.mod_mul in Hodd by lia. lia. }
    lia.
Qed.

Lemma good_chain n' c i a q : 1 <= i -> 2 ^ i <= n ->
  ((n = n' * (2 ^ i + 1) /\ a = ADD) \/ (n = n' * (2 ^ i - 1) /\ a = SUB)) ->
  n' <= n -> c <= u -> good n' (c - 2) q -> good n u (mkStep i a CHAIN :: q).
Proof.
  intros I LE H L C [G1 G2 G3]. constructor.
  - cbn [pval rhs arith shamt]. rewrite G1. destruct H as [[E ->]|[E ->]]; lia.
  - cbn [cost shamt arith]. assert (ar_cost a = 1) as -> by (destruct H as [[_ ->]|[_ ->]]; reflexivity).
    destruct (0 <? i); lia.
  - intros K HK LK. constructor; [cbn; split; [lia|apply pow_le_inv; lia]|]. apply G3; auto. lia.
Qed.

Lemma oddloop_ok : forall k i pl M, minv M -> optgood n u pl -> 1 <= i <= 62 -> i + Z.of_nat k = 64 ->
  ok n u (oddloop self k i n u pl M).
Proof.
  induction k as [|k IH]; intros i pl M V G I E; [lia|].
  cbn [oddloop]. assert (63 <=? i = false) as -> by lia.
  destruct (Z.ltb_spec n (2 ^ i)) as [L|L]; [exists M, pl; auto|].
  assert (I' : i <= 61). { destruct (Z.eq_dec i 62) as [->|]; lia. }
  assert (P : 2 <= 2 ^ i). { change 2 with (2 ^ 1) at 1. apply Z.pow_le_mono_r; lia. }
  set (A1 := if n mod (2 ^ i + 1) =? 0 then _ else Ok M pl).
  assert (H1 : ok n u A1).
  { unfold A1. destruct (Z.eqb_spec (n mod (2 ^ i + 1)) 0) as [Z0|]; [|exists M, pl; auto].
    assert (D : n = (n / (2 ^ i + 1)) * (2 ^ i + 1)) by (pose proof (Z.div_mod n (2 ^ i + 1)); lia).
    assert (1 <= n / (2 ^ i + 1)) by nia.
    assert (n / (2 ^ i + 1) <= n) by nia.
    apply attempt_ok; auto; try lia.
    intros c q C Gq. apply (good_chain (n / (2 ^ i + 1)) c); auto; try lia; nia. }
  destruct H1 as (M1 & pl1 & -> & V1 & G1).
  set (A2 := if n mod (2 ^ i - 1) =? 0 then _ else Ok M1 pl1).
  assert (H2 : ok n u A2).
  { unfold A2. destruct (Z.eqb_spec (n mod (2 ^ i - 1)) 0) as [Z0|]; [|exists M1, pl1; auto].
    assert (D : n = (n / (2 ^ i - 1)) * (2 ^ i - 1)) by (pose proof (Z.div_mod n (2 ^ i - 1)); lia).
    assert (1 <= n / (2 ^ i - 1)) by nia.
    assert (n / (2 ^ i - 1) <= n) by nia.
    apply attempt_ok; auto; try lia.
    intros c q C Gq. apply (good_chain (n / (2 ^ i - 1)) c); auto; try lia; nia. }
  destruct H2 as (M2 & pl2 & -> & V2 & G2).
  apply IH; auto; lia.
Qed.

Lemma findOdd_ok M : minv M -> ok n u (findOdd self n u M).
Proof.
  intros V. unfold findOdd. destruct (Z.ltb_spec u 0); [exists M, None; split; auto; split; auto; intros q [=]|].
  destruct (M u n) as [p|] eqn:E.
  { exists M, (Some p). split; auto. split; auto. intros q [= <-]. now apply V. }
  destruct (attempt_ok (n - 1) 1 0 ADD ORIGIN None M) as (M1 & pl1 & -> & V1 & G1); auto; try lia.
  { intros q [=]. }
  { intros c q C Gq. apply (good_origin (n - 1) c); auto. }
  destruct (attempt_ok (n + 1) 1 0 SUB ORIGIN pl1 M1) as (M2 & pl2 & -> & V2 & G2); auto; try lia.
  { intros c q C Gq. apply (good_origin (n + 1) c); auto. }
  destruct (oddloop_ok 63 1 pl2 M2) as (M3 & pl3 & -> & V3 & G3); auto; try lia.
  destruct pl3 as [p|].
  - exists (memo_set M3 u n p), (Some p). split; auto. split; auto. apply minv_set; auto.
  - exists M3, None. auto.
Qed.
End OddProofs.

Lemma find_ok : forall f n u M, minv M -> 1 <= n <= 2 ^ 62 -> u < 12 -> Z.max u (-1) + 2 <= Z.of_nat f ->
  ok n u (find f n u M).
Proof.
  induction f as [|f IH]; intros n u M V N U F; [lia|].
  cbn [find]. destruct (Z.leb_spec 12 u); [lia|].
  destruct (Z.ltb_spec u 0); [exists M, None; split; auto; split; auto; intros q [=]|].
  destruct (M u n) as [p|] eqn:E.
  { exists M, (Some p). split; auto. split; auto. intros q [= <-]. now apply V. }
  destruct n as [|p|p]; try lia. pose proof (strip2_spec p) as (S1 & S2 & S3).
  destruct (strip2 p) as [m sh]. cbn [fst snd] in *.
  assert (PW : 1 <= 2 ^ sh) by (change 1 with (2 ^ 0); apply Z.pow_le_mono_r; lia).
  destruct (Pos.eqb_spec m 1) as [->|M1].
  - set (q := [mkStep sh NOP ORIGIN]).
    assert (Gq : good (Zpos p) u q).
    { constructor.
      - unfold q. cbn [pval arith shamt rhs]. lia.
      - unfold q. cbn [cost arith shamt ar_cost]. destruct (0 <? sh); lia.
      - intros K HK LK. constructor; [|constructor]. cbn [shamt]. split; auto. apply pow_le_inv; auto. lia. }
    exists (memo_set M u (Zpos p) q), (Some q). split; auto. split; [now apply minv_set|]. intros q' [= <-]. auto.
  - destruct S3 as [->|(r & Er)]; [congruence|].
    assert (ML : Zpos m <= Zpos p) by nia.
    assert (M3 : 3 <= Zpos m) by lia.
    assert (MO : Zpos m mod 2 = 1) by (rewrite Er, Pos2Z.inj_xI; rewrite Z.add_comm, Z.mul_comm, Z.mod_add by lia; reflexivity).
    assert (MN : Zpos m <> 2 ^ 62). { intros X. rewrite X in MO. discriminate MO. }
    set (u' := u - (if 0 <? sh then 1 else 0)).
    destruct (findOdd_ok (find f) u' (Zpos m)) with (M := M) as (M' & pl & -> & V' & G'); auto; try lia.
    { intros n' u2 M2 V2 N2 U2. apply IH; auto; unfold u' in *; destruct (0 <? sh); lia. }
    destruct pl as [q|]; [|exists M', None; split; auto; split; auto; intros q [=]].
    assert (Gq : good (Zpos p) u (if 0 <? sh then mkStep sh NOP ORIGIN :: q else q)).
    { specialize (G' q eq_refl). unfold u' in G'. destruct (Z.ltb_spec 0 sh) as [L|L].
      - destruct G' as [A B C]. constructor.
        + cbn [pval arith shamt rhs]. rewrite A. lia.
        + cbn [cost arith shamt ar_cost]. destruct (0 <? sh); lia.
        + intros K HK LK. constructor; [|apply C; auto; lia]. cbn [shamt]. split; auto. apply pow_le_inv; auto. nia.
      - assert (sh = 0) as -> by lia. change (2 ^ 0) with 1 in S1. rewrite Z.mul_1_r in S1. rewrite S1.
        replace (u - 0) with u in G' by lia. auto. }
    eexists _, _. split; [reflexivity|]. split; [apply minv_set; auto|]. intros q' [= <-]. auto.
Qed.

(** ** The emitted code *)
Section Exec.
Variable w : Z.
Hypothesis Hw : 0 < w.

Notation wrap := (wrapw w).

Lemma exec_app c1 c2 : forall e, exec w (c1 ++ c2) e = match exec w c1 e with Some e' => exec w c2 e' | None => None end.
Proof. induction c1 as [|i c1 IH]; intros e; cbn [app exec]; auto. destruct (exec1 w e i); auto. Qed.

Lemma wrap_small x : 0 <= x < 2 ^ w -> wrap x = x.
Proof. intros. unfold wrapw. now apply Z.mod_small. Qed.
Lemma pw : 0 < 2 ^ w. Proof. apply Z.pow_pos_nonneg; lia. Qed.

Lemma wrap_mul a b : wrap (wrap a * b) = wrap (a * b).
Proof. unfold wrapw. pose proof pw. rewrite Z.mul_mod_idemp_l; lia. Qed.
Lemma wrap_add a b : wrap (wrap a + wrap b) = wrap (a + b).
Proof. unfold wrapw. pose proof pw. rewrite <- Z.add_mod; lia. Qed.
Lemma wrap_sub a b : wrap (wrap a - wrap b) = wrap (a - b).
Proof. unfold wrapw. rewrite <- Zminus_mod. reflexivity. Qed.

Definition below (nx : nat) (o : opnd) : Prop := match o with Reg r => (r < nx)%nat | Imm _ => True end.

Lemma oval_ext e e' nx o : below nx o -> (forall r, (r < nx)%nat -> e' r = e r) -> oval w e' o = oval w e o.
Proof. destruct o; cbn; auto. Qed.

Lemma setr_same e d v : setr e d v d = v.
Proof. unfold setr. now rewrite Nat.eqb_refl. Qed.
Lemma setr_other e d v r : r <> d -> setr e d v r = e r.
Proof. unfold setr. intros H. apply Nat.eqb_neq in H. now rewrite H. Qed.

Lemma expand_ok lhs x : forall p nx c ret nx' e,
  expand lhs p nx = (c, ret, nx') ->
  Forall (fun s => 0 <= shamt s < w) p -> below nx lhs -> oval w e lhs = wrap x ->
  (nx <= nx')%nat /\ below nx' ret /\ Z.of_nat (length c) = cost p /\
  (forall i d a k, In i c -> i = MShl d a k -> 0 < k < w) /\
  exists e', exec w c e = Some e' /\ oval w e' ret = wrap (x * pval p) /\ (forall r, (r < nx)%nat -> e' r = e r).
Proof.
  induction p as [|s p IH]; intros nx c ret nx' e E F B X.
  - cbn in E. injection E as <- <- <-. split; auto. split; auto. split; auto. split; [intros i d a k []|].
    exists e. split; auto. split; auto. cbn [pval]. now rewrite Z.mul_1_r.
  - cbn [expand] in E. inversion F as [|? ? Fs Fp]; subst.
    destruct (expand lhs p nx) as [[c1 v1] nx1] eqn:E1.
    destruct (IH nx c1 v1 nx1 e E1 Fp B X) as (L1 & B1 & C1 & S1 & e1 & R1 & O1 & U1).
    assert (X1 : forall nx0 e0, (nx <= nx0)%nat -> (forall r, (r < nx1)%nat -> e0 r = e1 r) -> oval w e0 lhs = wrap x).
    { intros nx0 e0 _ H. rewrite <- X. apply (oval_ext e e0 nx); auto. intros r Hr. rewrite H by lia. auto. }
    (* the shift *)
    assert (SH : exists c2 r2 nx2 e2,
      (if 0 <? shamt s then (c1 ++ [MShl nx1 v1 (shamt s)], Reg nx1, S nx1) else (c1, v1, nx1)) = (c2, r2, nx2) /\
      (nx1 <= nx2)%nat /\ below nx2 r2 /\ Z.of_nat (length c2) = cost p + (if 0 <? shamt s then 1 else 0) /\
      (forall i d a k, In i c2 -> i = MShl d a k -> 0 < k < w) /\
      exec w c2 e = Some e2 /\ oval w e2 r2 = wrap (x * (pval p * 2 ^ shamt s)) /\ (forall r, (r < nx1)%nat -> e2 r = e1 r)).
    { destruct (Z.ltb_spec 0 (shamt s)) as [SL|SL].
      - exists (c1 ++ [MShl nx1 v1 (shamt s)]), (Reg nx1), (S nx1), (setr e1 nx1 (wrap (oval w e1 v1 * 2 ^ shamt s))).
        split; auto. split; [lia|]. split; [cbn; lia|]. split; [rewrite app_length; cbn; lia|]. split.
        { intros i d a k H Ei. apply in_app_or in H as [H|[H|[]]]; [eauto|]. subst i. injection Ei as <- <- <-. lia. }
        split.
        { rewrite exec_app, R1. cbn [exec exec1]. assert ((0 <=? shamt s) && (shamt s <? w) = true) as -> by lia. reflexivity. }
        split.
        { cbn [oval]. rewrite setr_same, O1, wrap_mul. f_equal. lia. }
        intros r Hr. apply setr_other. lia.
      - exists c1, v1, nx1, e1. assert (shamt s = 0) as Z0 by lia. rewrite Z0. change (2 ^ 0) with 1.
        split; auto. split; [lia|]. split; auto. split; [lia|]. split; auto. split; auto.
        split; auto. rewrite O1. f_equal. lia. }
    destruct SH as (c2 & r2 & nx2 & e2 & E2 & L2 & B2 & C2 & S2 & R2 & O2 & U2).
    rewrite E2 in E.
    set (r := match rhs s with CHAIN => v1 | ORIGIN => lhs end) in *.
    assert (OR : oval w e2 r = wrap (x * match rhs s with CHAIN => pval p | ORIGIN => 1 end)).
    { unfold r. destruct (rhs s).
      - rewrite <- O1. apply (oval_ext e1 e2 nx1); auto.
      - rewrite Z.mul_1_r. apply (X1 nx); auto. }
    destruct (arith s) eqn:EA; injection E as <- <- <-; cbn [cost ar_cost pval]; rewrite ?EA; cbn [ar_cost].
    + split; [lia|]. split; [cbn; lia|]. split; [rewrite app_length; cbn [length]; lia|]. split.
      { intros i d a k H Ei. apply in_app_or in H as [H|[H|[]]]; [eauto|]. subst i. discriminate Ei. }
      exists (setr e2 nx2 (wrap (oval w e2 r2 + oval w e2 r))). split; [rewrite exec_app, R2; reflexivity|].
      split; [cbn [oval]; rewrite setr_same, O2, OR, wrap_add; f_equal; lia|].
      intros q Hq. rewrite setr_other by lia. rewrite U2 by lia. auto.
    + split; [lia|]. split; [cbn; lia|]. split; [rewrite app_length; cbn [length]; lia|]. split.
      { intros i d a k H Ei. apply in_app_or in H as [H|[H|[]]]; [eauto|]. subst i. discriminate Ei. }
      exists (setr e2 nx2 (wrap (oval w e2 r2 - oval w e2 r))). split; [rewrite exec_app, R2; reflexivity|].
      split; [cbn [oval]; rewrite setr_same, O2, OR, wrap_sub; f_equal; lia|].
      intros q Hq. rewrite setr_other by lia. rewrite U2 by lia. auto.
    + split; [lia|]. split; auto. split; [lia|]. split; auto.
      exists e2. split; auto. split; auto. intros q Hq. rewrite U2 by lia. auto.
Qed.
End Exec.

(** ** Histories of queries *)

(** The memo tables reachable by earlier expansions in the same process: the tables start
    empty; each query has a constant of magnitude at most 2^62 and a budget below 12. *)
Inductive reachable_memo : memo -> Prop :=
  | rm_init : reachable_memo (fun _ _ => None)
  | rm_query M n u M' p : reachable_memo M -> 1 <= n <= 2 ^ 62 -> 0 <= u < 12 ->
      findMultiplyPlan n u M = Ok M' p -> reachable_memo M'.

Lemma reachable_minv M : reachable_memo M -> minv M.
Proof.
  induction 1 as [|M n u M' p R IH N U E]; [intros u n p [=]|].
  destruct (find_ok 14 n u M IH N) as (M2 & p2 & E2 & V & _); try lia.
  unfold findMultiplyPlan in E. rewrite E in E2. injection E2 as -> ->. auto.
Qed.

(** For every multiplier in range, whatever queries were made before: the search does not
    run into undefined behaviour and terminates; when an expansion is emitted, executing
    it defines [dst] as the product modulo 2^w, changes no other register that existed
    before, uses only shift amounts strictly between 0 and w, and has at most
    budget+1 instructions besides the final copy or negation. *)
Theorem C10_expansion_correct :
  forall w M dst lhs v2 budget nx e,
  reachable_memo M -> 0 <= budget < 12 -> 1 < w -> Z.abs v2 <= 2 ^ (w - 1) -> Z.abs v2 <= 2 ^ 62 ->
  below nx lhs -> (dst < nx)%nat -> (forall r, 0 <= e r < 2 ^ w) ->
  exists M', reachable_memo M' /\
  (expandMul dst lhs v2 budget nx M = ENo M' \/
   exists code nx', expandMul dst lhs v2 budget nx M = EYes M' code nx' /\
    (forall d a k, In (MShl d a k) code -> 0 < k < w) /\
    Z.of_nat (length code) <= budget + 2 /\
    exists e', exec w code e = Some e' /\
      e' dst = (oval w e lhs * v2) mod 2 ^ w /\
      (forall r, (r < nx)%nat -> r <> dst -> e' r = e r)).
Proof.
  intros w M dst lhs v2 budget nx e R Bu W L1 L2 BL DN EW.
  unfold expandMul. destruct (Z.eqb_spec v2 0) as [->|NZ]; [exists M; auto|].
  destruct (Z.eqb_spec v2 (- 2 ^ 63)) as [->|NM]; [exists M; auto|]. cbn [orb].
  destruct (find_ok 14 (Z.abs v2) budget M (reachable_minv M R)) as (M' & p & E & V & G); try lia.
  change (find 14) with findMultiplyPlan in E.
  exists M'. split; [eapply rm_query; eauto; lia|]. rewrite E. destruct p as [p|]; [|auto]. right.
  destruct (G p eq_refl) as [GV GC GS].
  destruct (expand lhs p nx) as [[c ret] nx'] eqn:EX.
  eexists _, _. split; [reflexivity|].
  assert (FS : Forall (fun s => 0 <= shamt s < w) p).
  { eapply Forall_impl; [|apply (GS (w - 1)); lia]. cbn. intros; lia. }
  assert (OW : 0 <= oval w e lhs < 2 ^ w).
  { destruct lhs; cbn [oval]; auto. unfold wrapw. apply Z.mod_pos_bound. apply pw; lia. }
  destruct (expand_ok w ltac:(lia) lhs (oval w e lhs) p nx c ret nx' e EX FS BL) as (A1 & A2 & A3 & A4 & e1 & A5 & A6 & A7).
  { symmetry. apply wrap_small; auto. }
  split.
  { intros d a k H. apply in_app_or in H as [H|[H|[]]]; [eauto|]. destruct (v2 <? 0); discriminate H. }
  split; [rewrite app_length; cbn [length]; lia|].
  rewrite exec_app, A5. cbn [exec]. destruct (Z.ltb_spec v2 0) as [NG|PS]; cbn [exec1].
  - eexists. split; [reflexivity|]. split.
    + rewrite setr_same, A6, GV. cbn [oval]. rewrite wrap_sub by lia. unfold wrapw. f_equal. lia.
    + intros r Hr Nr. rewrite setr_other; auto.
  - eexists. split; [reflexivity|]. split.
    + rewrite setr_same, A6, GV. unfold wrapw. f_equal. lia.
    + intros r Hr Nr. rewrite setr_other; auto.
Qed.

(** Every multiplier that is a power of two is expanded, whatever the budget and the history. *)
Theorem C10_power_of_two_always_expanded :
  forall M k budget dst lhs nx, reachable_memo M -> 0 <= budget < 12 -> 0 <= k <= 62 ->
  exists M' code nx', expandMul dst lhs (2 ^ k) budget nx M = EYes M' code nx'.
Proof.
  intros M k budget dst lhs nx R Bu K.
  assert (P : 1 <= 2 ^ k) by (change 1 with (2 ^ 0); apply Z.pow_le_mono_r; lia).
  unfold expandMul. destruct (Z.eqb_spec (2 ^ k) 0); [lia|]. destruct (Z.eqb_spec (2 ^ k) (- 2 ^ 63)); [lia|]. cbn [orb].
  rewrite Z.abs_eq by lia. unfold findMultiplyPlan. cbn [find].
  destruct (Z.leb_spec 12 budget); [lia|]. destruct (Z.ltb_spec budget 0); [lia|].
  assert (F : forall p, exists M' code nx', match Ok M (Some p) with UB => EUB | Ok M' None => ENo M' | Ok M' (Some p) =>
     let '(c, ret, nx') := expand lhs p nx in EYes M' (c ++ [if 2 ^ k <? 0 then MSub dst (Imm 0) ret else MCopy dst ret]) nx' end = EYes M' code nx').
  { intros p. destruct (expand lhs p nx) as [[c r] nx']. do 3 eexists. reflexivity. }
  destruct (M budget (2 ^ k)) as [p|]; [apply F|].
  destruct (2 ^ k) as [|p|p] eqn:EP; try lia.
  assert (S : strip2 p = (1%positive, k)).
  { clear - EP K. revert k K EP. induction p as [p IH|p IH|]; intros k K EP.
    - exfalso. destruct (Z.eq_dec k 0) as [->|]; [discriminate|].
      replace k with (1 + (k - 1)) in EP by lia. rewrite Z.pow_add_r in EP by lia. change (2 ^ 1) with 2 in EP. lia.
    - cbn [strip2]. rewrite (IH (k - 1)); [f_equal; lia| |].
      + destruct (Z.eq_dec k 0) as [->|]; [discriminate|lia].
      + destruct (Z.eq_dec k 0) as [->|]; [discriminate|].
        replace k with (1 + (k - 1)) in EP by lia. rewrite Z.pow_add_r in EP by lia. change (2 ^ 1) with 2 in EP. lia.
    - destruct (Z.eq_dec k 0) as [->|]; [reflexivity|].
      replace k with (1 + (k - 1)) in EP by lia. rewrite Z.pow_add_r in EP by lia. change (2 ^ 1) with 2 in EP. lia. }
  rewrite S. change (1 =? 1)%positive with true. cbv iota.
  destruct (expand lhs [mkStep k NOP ORIGIN] nx) as [[c r] nx']. do 3 eexists. reflexivity.
Qed.

(** The budget is not respected: with a budget of 2 (what the RISC-V, ARM and MIPS
    back ends pass) multiplication by 20 is expanded at a cost of 3, because a power
    of two is accepted with cost 1 even when no budget is left. *)
Theorem C10_cost_within_budget_refuted :
  exists M p, findMultiplyPlan 20 2 (fun _ _ => None) = Ok M (Some p) /\ 2 < cost p.
Proof. eexists _, _. split; [reflexivity|]. reflexivity. Qed.

(** Constants above 2^62 (possible for 64-bit multiplications) run into [1 << 63] and a
    signed overflow. *)
Theorem C10_large_constant_refuted :
  findMultiplyPlan (2 ^ 62 + 1) 2 (fun _ _ => None) = UB.
Proof. vm_compute. reflexivity. Qed.

(** A history of two queries and an expansion of x * -100 on 32 bits. *)
Example C10_example :
  (exists M p1 p2 M1, findMultiplyPlan 25 3 (fun _ _ => None) = Ok M1 (Some p1) /\
     findMultiplyPlan 100 4 M1 = Ok M (Some p2) /\ pval p2 = 100) /\
  (match expandMul 0 (Reg 1) (-100) 4 10 (fun _ _ => None) with
   | EYes _ code _ => option_map (fun e => e 0%nat) (exec 32 code (fun r => if Nat.eqb r 1 then 7 else 0))
   | _ => None
   end = Some (2 ^ 32 - 700)).
Proof. split; [do 4 eexists; split; [reflexivity|split; reflexivity]|vm_compute; reflexivity]. Qed.
