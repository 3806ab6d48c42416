(** C42: every selection pattern replaces its instruction by code with the same effect, outside the listed defects. *)
From Coq Require Import ZArith List Bool Lia PeanoNat ZifyBool.
From Verif Require Import Word Rv64 CmpModel DivConst Isel IselSem IselStep.
Import ListNotations.
Local Open Scope Z_scope.
Ltac Zify.zify_post_hook ::= Z.div_mod_to_equations.

(** ** the patterns' defects: situations in which a pattern fires although its result is different *)
(** an immediate whose low 32 bits are all ones but which is not -1 *)
Definition badOnes (o : opnd) : bool := match o with OI z _ => (u32 z =? 4294967295) && negb (z =? -1) | _ => false end.
Definition shlBy (C : ctx) (o : opnd) : bool :=
  match lkO C o with Some (Bin GShl m _ (OI z _)) => ((z =? 1) || (z =? 2) || (z =? 3)) && negb (is64 m) | _ => false end.
Definition shl123 (C : ctx) (o : opnd) : bool :=
  match lkO C o with Some (Bin GShl m _ (OI z _)) => (z =? 1) || (z =? 2) || (z =? 3) | _ => false end.
Definition xorWithBad (C : ctx) (o : opnd) : bool := match lkO C o with Some (Bin GXor _ _ y) => badOnes y | _ => false end.
Definition isXor (C : ctx) (o : opnd) : bool := match lkO C o with Some (Bin GXor _ _ _) => true | _ => false end.
Definition isB1 (t : ty) : bool := match t with B1 => true | _ => false end.
Definition defect (C : ctx) (i : inst) : bool :=
  match i with
  (* SHnADD computes a 64-bit sum: wrong for a 32-bit addition (or a shift done in 32 bits) that overflows *)
  | Bin GAdd d a b => shlBy C a || shlBy C b || (negb (is64 d) && (shl123 C a || shl123 C b))
  (* ANDN, ORN, XNOR when the constant is only "all ones in the low half"; XNOR of Bools also sets bits 1..63 *)
  | Bin GAnd d a b => xorWithBad C b
  | Bin GOr d a b => xorWithBad C b
  | Bin GXor d a b => badOnes b || xorWithBad C b || (isB1 (rty d) && (isXor C a || isXor C b))
  (* a > -1 and a <= -1 with such a constant *)
  | Brn c _ => match lkO C c with Some (Cmp _ _ _ b) => badOnes b | _ => false end
  (* select on (x ^ 1) != 0 is swapped although x may be other than 0 and 1 *)
  | SelG _ _ _ _ l _ => match lkO C l with Some (RI XORI _ x z) => (z =? 1) && negb (isB1 (oty x)) | _ => false end
  (* srliw (x >> 32), 0 sign-extends, x >> 32 does not *)
  | RI SRLIW _ a z => (z =? 0) && match lkO C a with Some (RI SRLI _ _ z1) => z1 =? 32 | _ => false end
  | _ => false
  end.

Section Pat.
Context {W : Type}.
Variable opq : nat -> list Z -> W -> W * (reg -> Z).
Notation st := (st W).
Notation exec1 := (exec1 opq).
Notation fineP := (@fineP W opq).
Definition patOk (p : pat) : Prop := forall C n i n' l, p C n i = Some (n', l) -> defect C i = false -> fineP n C i n' l.

Lemma lkO_inv n C o e d : ctxS n C -> lkO C o = Some e -> dstOf e = Some d ->
  o = OR d /\ lk C d = Some e /\ rid d <> 0%nat /\ ok1 e /\ below n e.
Proof. clear opq.
  intros HS L D. destruct o as [q|z t]; cbn [lkO] in L; [|discriminate]. destruct (HS q e L) as (A & B & E & F).
  rewrite (defs_dst _ _ D) in B. destruct B as [<- | []]. repeat split; auto; apply E.
Qed.
Lemma lkO_use C o e r : lkO C o = Some e -> In r (uses e) -> lkUse C r.
Proof. clear opq. destruct o as [q|z t]; cbn [lkO]; [|discriminate]. intros L U. exists q, e. auto. Qed.
Lemma lkO_val n C (s : st) o e d : ctxS n C -> ctxD C s -> lkO C o = Some e -> dstOf e = Some d -> val s e = Some (rd s o).
Proof. clear opq.
  intros HS HD L D. destruct (lkO_inv n C o e d HS L D) as (-> & L' & N & _). cbn [rd].
  rewrite (proj2 (Nat.eqb_neq _ _) N). eapply HD; eauto.
Qed.

Lemma some_inj {A} (a b : A) : Some a = Some b -> a = b.
Proof. clear opq. congruence. Qed.
(** solve the conditions on mentioned registers *)
Ltac utac := let r := fresh "r" in let Hr := fresh "Hr" in
  intros r Hr; cbn [uses oreg app] in Hr |- *; rewrite ?in_app_iff in Hr; rewrite ?in_app_iff; cbn [In oreg] in Hr |- *;
  repeat match goal with H : _ \/ _ |- _ => destruct H | H : False |- _ => contradiction H end; subst;
  first [ left; reflexivity | left; cbn; reflexivity | right; left; reflexivity | tauto
        | right; right; eapply lkO_use; [eassumption|]; cbn [uses oreg app]; rewrite ?in_app_iff; cbn [In oreg]; tauto
        | right; right; right; eapply lkO_use; [eassumption|]; cbn [uses oreg app]; rewrite ?in_app_iff; cbn [In oreg]; tauto
        | idtac ].
Ltac okd P := let O := fresh "O" in destruct P as (?HS & O & ?HB & ?HI & ?Hn); destruct O as (?WT & ?EN & ?ND).
Ltac pm := match goal with
  | H : (if ?b then _ else _) = Some _ |- _ => destruct b eqn:?; try discriminate H
  | H : match ?x with _ => _ end = Some _ |- _ => destruct x eqn:?; try discriminate H
  | H : Some _ = Some _ |- _ => injection H; clear H; intros; subst
  end.
Ltac bools := repeat match goal with H : _ && _ = true |- _ => apply andb_prop in H; destruct H end.

Ltac benc := cbn [encodable immFor is12 isR] in *; repeat match goal with H : ?x = true |- context[?x] => rewrite H end; reflexivity.

Lemma pLoadImm_ok : patOk pLoadImm.
Proof.
  intros C n i n' l H D. unfold pLoadImm in H. destruct i; try discriminate H.
  assert (G : forall j, dstOf j = Some d -> uses j = [] -> (inR (rty d) z -> wt j /\ encodable j = true) ->
    (inR (rty d) z -> forall s : st, val s j = Some (u64 z)) -> fineP n C (LdI d z) n [j]).
  { intros j Dj Uj Oj V. apply fineV1 with (d := d); auto.
    - rewrite Uj. intros r [].
    - intros P. okd P. cbn [wt] in WT. destruct (Oj WT). split; [assumption|]. split; [assumption|]. rewrite (defs_dst _ _ Dj). exact ND.
    - intros P s v _ _ E _. okd P. cbn [val] in E. rewrite <- E. apply V. exact WT. }
  pm; [|pm; [|pm; [|pm]]]; pm.
  - assert (z = 0) as -> by lia. apply fineV1 with (d := d); [reflexivity|reflexivity|utac| |].
    + intros P. okd P. split; [exact I|]. split; [reflexivity|]. exact ND.
    + intros _ s v _ _ E _. exact E.
  - apply G; [reflexivity|reflexivity| |reflexivity]; cbn [wt encodable]. intros _. split; [exact I|]. rewrite Heqb0. lia.
  - unfold high20 in Heqo. destruct (negb (z =? 0) && (s32 (Z.land (z / 4096) 1048575 * 4096) =? z)) eqn:E; [|discriminate].
    injection Heqo as <-. apply G; [reflexivity|reflexivity| |]; cbn [wt encodable].
    + intros _. split; [exact I|]. change 1048575 with (Z.ones 20). rewrite Z.land_ones by lia. lia.
    + intros _ s. cbn [val evLi]. unfold Rv.LUI. do 2 f_equal. lia.
  - apply G; [reflexivity|reflexivity| |reflexivity]; cbn [wt encodable]. intros _. split; [exact I|]. unfold imm32 in *. lia.
  - apply G; [reflexivity|reflexivity| |reflexivity]; cbn [wt encodable]. intros HR. split; [exact I|]. apply inR_64 in HR. unfold B64 in HR. lia.
Qed.

(** operand values *)
Lemma opv (s : st) t o : wfst s -> okOp t o -> exists x, rd s o = u64 x /\ inR t x /\ s64 (rd s o) = x.
Proof. clear opq.
  intros Ws O. destruct (rd_holdsT s t o Ws O) as (x & E & H). exists x. repeat split; auto. rewrite E. apply s64_u64, (inR_64 t), H.
Qed.
Lemma opvI (s : st) z u : inR u z -> rd s (OI z u) = u64 z /\ s64 (rd s (OI z u)) = z.
Proof. clear opq. intros H. cbn [rd]. split; [reflexivity|]. apply s64_u64, (inR_64 u), H. Qed.
Lemma okOpI t z u : okOp t (OI z u) -> inR u z /\ inR t z.
Proof. clear opq. intros [L H]. cbn [oty immOk] in *. split; [exact H|]. eapply inR_le; eauto. Qed.
Lemma isR_OR o : isR o = true -> exists r, o = OR r.
Proof. clear opq. destruct o; [eauto|discriminate]. Qed.
Ltac getv o t x := let E := fresh "E" x in let Hx := fresh "H" x in let Sx := fresh "S" x in
  destruct (opv _ t o ltac:(eassumption) ltac:(eassumption)) as (x & E & Hx & Sx).

Lemma pAdd_ok : patOk pAdd.
Proof.
  intros C n i n' l H D. unfold pAdd in H. destruct i; try discriminate H. destruct o; try discriminate H.
  pm; [|pm; [|pm; [|pm]]]; bools.
  - destruct b as [|z u]; [discriminate|]. pm. apply fineV1 with (d := d); [reflexivity|reflexivity|utac| |].
    + intros P. okd P. split; [exact I|]. split; [|exact ND]. benc.
    + intros P s v Ws _ E _. okd P. destruct WT as (Ta & Tb & _). getv a (rty d) x. apply okOpI in Tb as [Tb _].
      cbn [val gbinV option_map] in E |- *. rewrite Sx in E. rewrite (proj2 (opvI s _ _ Tb)) in E. apply some_inj in E; subst v. f_equal.
      unfold is64 in *. destruct (rty d); try discriminate. rewrite canon64, Ex. cbn [evRI]. unfold Rv.ADDI. apply u64_add1.
  - pm. apply fineV1 with (d := d); [reflexivity|reflexivity|utac| |].
    + intros P. okd P. split; [exact I|]. split; [|exact ND]. benc.
    + intros P s v Ws _ E _. okd P. destruct WT as (Ta & Tb & _). getv a (rty d) x. getv b (rty d) y.
      cbn [val gbinV option_map] in E |- *. rewrite Sx, Sy in E. apply some_inj in E; subst v. f_equal.
      unfold is64 in *. destruct (rty d); try discriminate. rewrite canon64, Ex, Ey. cbn [evRR]. unfold Rv.ADD. apply u64_add2.
  - destruct b as [|z u]; [discriminate|]. pm. apply fineV1 with (d := d); [reflexivity|reflexivity|utac| |].
    + intros P. okd P. split; [exact I|]. split; [|exact ND]. benc.
    + intros P s v Ws _ E _. okd P. destruct WT as (Ta & Tb & _). getv a (rty d) x. apply okOpI in Tb as [Tb _].
      cbn [val gbinV option_map] in E |- *. rewrite Sx in E. rewrite (proj2 (opvI s _ _ Tb)) in E. apply some_inj in E; subst v. f_equal.
      unfold is32 in *. destruct (rty d); try discriminate. rewrite canon32, Ex. cbn [evRI]. unfold Rv.ADDIW. apply w_u64_addz.
  - pm. apply fineV1 with (d := d); [reflexivity|reflexivity|utac| |].
    + intros P. okd P. split; [exact I|]. split; [|exact ND]. benc.
    + intros P s v Ws _ E _. okd P. destruct WT as (Ta & Tb & _). getv a (rty d) x. getv b (rty d) y.
      cbn [val gbinV option_map] in E |- *. rewrite Sx, Sy in E. apply some_inj in E; subst v. f_equal.
      unfold is32 in *. destruct (rty d); try discriminate. rewrite canon32, Ex, Ey. cbn [evRR]. unfold Rv.ADDW. apply w_u64_add.
Qed.

Ltac v1 := eapply fineV1; [reflexivity|reflexivity|utac| |].
Ltac v2 := eapply fineV2; [reflexivity|reflexivity|reflexivity|utac|utac| |].
Ltac ok0 := let P := fresh "P" in intros P; okd P; split; [exact I|split; [try benc|assumption]].
Ltac vs := intros P s v Ws HD E HV; okd P.
Lemma is64_ty d : is64 d = true -> rty d = I64.
Proof. clear opq. unfold is64. destruct (rty d); congruence. Qed.
Lemma is32_ty d : is32 d = true -> rty d = I32.
Proof. clear opq. unfold is32. destruct (rty d); congruence. Qed.
Lemma u64_s64_add a b : u64 (s64 a + b) = u64 (a + b).
Proof. clear opq. unfold u64, s64. lia. Qed.
Lemma shadd_val k x y : k = 1 \/ k = 2 \/ k = 3 -> evRR (shadd k) (u64 x) (u64 y) = u64 (x * 2 ^ k + y).
Proof. clear opq.
  intros [-> | [-> | ->]]; cbn [shadd evRR Z.eqb Pos.eqb]; unfold Rv.SH_ADD;
    rewrite Z.add_comm, u64_add1, Z.add_comm, <- u64_add1, u64_mul_u64_l, u64_add1; reflexivity.
Qed.
Lemma shl_val (s : st) m x z u t : wfst s -> rty m = I64 -> okOp I64 x -> inR u z -> 0 <= z < 64 ->
  val s (Bin GShl m x (OI z u)) = Some t -> exists xv, rd s x = u64 xv /\ t = u64 (xv * 2 ^ z).
Proof. clear opq.
  intros Ws M Ox Hz Rz E. getv x I64 y. exists y. split; [exact Ey|]. cbn [val gbinV] in E. rewrite M, Sy, (proj2 (opvI s z u Hz)) in E.
  cbn [bits] in E. replace ((0 <=? z) && (z <? 64)) with true in E by lia. cbn [option_map] in E. apply some_inj in E; subst t. apply canon64.
Qed.
Lemma pShAddL_ok k : k = 1 \/ k = 2 \/ k = 3 -> patOk (pShAddL k).
Proof.
  intros Hk C n i n' l H D. unfold pShAddL in H. destruct i; try discriminate H. destruct o; try discriminate H.
  destruct (lkO C a) as [[[] m x [|z u]| | | | | | | | | | | | |]|] eqn:L; try discriminate H. pm. pm. bools.
  assert (z = k) as -> by lia. cbn [defect] in D. unfold shlBy, shl123 in D. rewrite L in D.
  assert (K : (k =? 1) || (k =? 2) || (k =? 3) = true) by lia. rewrite K in D. cbn [andb orb] in D.
  apply orb_false_elim in D as [D1 D2]. apply orb_false_elim in D1 as [D1 _]. rewrite andb_true_r in D2.
  apply negb_false_iff in D1, D2. apply is64_ty in D1, D2.
  v1; [destruct Hk as [-> | [-> | ->]]; ok0|]. vs. destruct (lkO_inv n' C a _ m HS L eq_refl) as (-> & _ & _ & (WT1 & _) & _).
  pose proof (lkO_val n' C s _ _ m HS HD L eq_refl) as V. cbn [wt] in WT, WT1. rewrite D1 in WT1. destruct WT1 as (Tx & Tz & _).
  apply okOpI in Tz as [Tz _]. destruct (shl_val s m x k u _ Ws D1 Tx Tz ltac:(lia) V) as (xv & Ex & Em).
  destruct WT as (_ & Tb & _). rewrite D2 in Tb. getv b I64 y. cbn [val gbinV option_map] in E |- *. rewrite D2, Sy, canon64 in E.
  apply some_inj in E; subst v. f_equal. rewrite Ex, Ey, Em, shadd_val by exact Hk. rewrite u64_s64_add, u64_add1. reflexivity.
Qed.
Lemma pShAddR_ok k : k = 1 \/ k = 2 \/ k = 3 -> patOk (pShAddR k).
Proof.
  intros Hk C n i n' l H D. unfold pShAddR in H. destruct i; try discriminate H. destruct o; try discriminate H.
  destruct (lkO C b) as [[[] m x [|z u]| | | | | | | | | | | | |]|] eqn:L; try discriminate H. pm. pm. bools.
  assert (z = k) as -> by lia. cbn [defect] in D. unfold shlBy, shl123 in D. rewrite L in D.
  assert (K : (k =? 1) || (k =? 2) || (k =? 3) = true) by lia. rewrite K in D. cbn [andb] in D. rewrite !orb_true_r, andb_true_r in D.
  apply orb_false_elim in D as [D1 D2]. apply orb_false_elim in D1 as [_ D1].
  apply negb_false_iff in D1, D2. apply is64_ty in D1, D2.
  v1; [destruct Hk as [-> | [-> | ->]]; ok0|]. vs. destruct (lkO_inv n' C b _ m HS L eq_refl) as (-> & _ & _ & (WT1 & _) & _).
  pose proof (lkO_val n' C s _ _ m HS HD L eq_refl) as V. cbn [wt] in WT, WT1. rewrite D1 in WT1. destruct WT1 as (Tx & Tz & _).
  apply okOpI in Tz as [Tz _]. destruct (shl_val s m x k u _ Ws D1 Tx Tz ltac:(lia) V) as (xv & Ex & Em).
  destruct WT as (Ta & _). rewrite D2 in Ta. getv a I64 y. cbn [val gbinV option_map] in E |- *. rewrite D2, Sy, canon64 in E.
  apply some_inj in E; subst v. f_equal. rewrite Ex, Ey, Em, shadd_val by exact Hk. rewrite (Z.add_comm y), u64_s64_add, u64_add1. reflexivity.
Qed.

(** bitwise operations on sign-extended values *)
Lemma logic_val (s : st) o d a b : wfst s -> okOp (rty d) a -> okOp (rty d) b -> isLogic o = true ->
  exists x y v, rd s a = u64 x /\ rd s b = u64 y /\ inR (rty d) x /\ inR (rty d) y /\ s64 (rd s a) = x /\ s64 (rd s b) = y /\
    gbinV o (rty d) x y = Some v /\ inR (rty d) v /\ val s (Bin o d a b) = Some (u64 v).
Proof. clear opq.
  intros Ws Oa Ob L. getv a (rty d) x. getv b (rty d) y.
  assert (G : exists v, gbinV o (rty d) x y = Some v /\ inR (rty d) v).
  { destruct o; try discriminate L; cbn [gbinV]; eexists; (split; [reflexivity|]); [apply inR_land|apply inR_lor|apply inR_lxor]; assumption. }
  destruct G as (v & G & Hv). exists x, y, v. repeat split; auto. cbn [val]. rewrite Sx, Sy, G. cbn [option_map]. rewrite canon_small by exact Hv. reflexivity.
Qed.
Lemma ones_m1 z t t' : isNotImm t (OI z t') = true -> badOnes (OI z t') = false -> t <> B1 -> z = -1.
Proof. clear opq.
  unfold isNotImm, badOnes. intros H B N. destruct t; try congruence; rewrite H in B; cbn [andb] in B; lia.
Qed.
Lemma not_m1_B1 t u : okOp t (OI (-1) u) -> t <> B1.
Proof. clear opq. intros H E. apply okOpI in H as [_ H]. subst t. cbn in H. lia. Qed.
Lemma andn_val x y : evRR ANDN (u64 x) (u64 y) = u64 (Z.land x (Z.lnot y)).
Proof. clear opq. cbn [evRR]. rewrite !u64_land, u64_u64, u64_lnot_u64. reflexivity. Qed.
Lemma orn_val x y : evRR ORN (u64 x) (u64 y) = u64 (Z.lor x (Z.lnot y)).
Proof. clear opq. cbn [evRR]. rewrite !u64_lor, u64_u64, u64_lnot_u64. reflexivity. Qed.
Lemma xnor_val x y : evRR XNOR (u64 x) (u64 y) = u64 (Z.lnot (Z.lxor x y)).
Proof. clear opq. cbn [evRR]. rewrite <- u64_lxor, u64_lnot_u64. reflexivity. Qed.
(** the value of x ^ -1 *)
Lemma xor_m1 (s : st) m x u : wfst s -> okOp (rty m) x -> okOp (rty m) (OI (-1) u) -> exists xv, rd s x = u64 xv /\ inR (rty m) xv /\
  val s (Bin GXor m x (OI (-1) u)) = Some (u64 (Z.lnot xv)) /\ B64 (Z.lnot xv).
Proof. clear opq.
  intros Ws Ox Oy. destruct (logic_val s GXor m x (OI (-1) u) Ws Ox Oy eq_refl) as (a & b & v & Ea & Eb & Ha & Hb & Sa & Sb & G & Hv & V).
  apply okOpI in Oy as [Hu _]. rewrite (proj2 (opvI s _ _ Hu)) in Sb. subst b. cbn [gbinV] in G. rewrite lxor_m1 in G. injection G as <-.
  exists a. repeat split; auto; apply inR_64 in Hv; apply Hv.
Qed.
Lemma pAndn_ok : patOk pAndn.
Proof.
  intros C n i n' l H D. unfold pAndn in H. destruct i; try discriminate H. destruct o; try discriminate H.
  destruct (lkO C b) as [[[] m x y| | | | | | | | | | | | |]|] eqn:L; try discriminate H. pm. pm. bools.
  cbn [defect] in D. unfold xorWithBad in D. rewrite L in D.
  v1; [ok0|]. vs. destruct (lkO_inv n' C b _ m HS L eq_refl) as (-> & _ & _ & (WT1 & _) & _).
  pose proof (lkO_val n' C s _ _ m HS HD L eq_refl) as V. cbn [wt] in WT, WT1. destruct WT1 as (Tx & Ty & _). destruct WT as (Ta & Tb & _).
  destruct y as [|z u]; [discriminate|].
  destruct (logic_val s GAnd d a (OR m) Ws Ta Tb eq_refl) as (av & bv & r & Ea & Eb & Ha & Hb & Sa & Sb & G & Hr & E').
  rewrite E' in E. apply some_inj in E; subst v. cbn [gbinV] in G. injection G as <-. cbn [val]. f_equal.
  assert (Cb : rty d = B1 \/ rty d <> B1) by (destruct (rty d); [left; reflexivity|right..]; congruence). destruct Cb as [Cb | Cb].
  - assert (M : rty m = B1). { destruct Tb as [Tb _]. cbn [oty] in Tb. rewrite Cb in Tb. destruct (rty m); cbn in Tb; try lia. reflexivity. }
    destruct (logic_val s GXor m x (OI z u) Ws Tx Ty eq_refl) as (xv & zv & r & Ex & Ez & Hx & Hz & Sx & Sz & G & _ & V').
    rewrite V' in V. apply okOpI in Ty as [Hu Hz']. rewrite (proj2 (opvI s _ _ Hu)) in Sz. subst zv. cbn [gbinV] in G. injection G as <-.
    rewrite Cb, M in *. unfold isNotImm in *. cbn [inR] in *. assert (z = 1) as -> by (unfold u32 in *; lia).
    assert (B : bv = Z.lxor xv 1). { apply (f_equal (fun o => match o with Some q => q | None => 0 end)) in V. rewrite Eb in V.
      assert (Ux : 0 <= Z.lxor xv 1 <= 1) by (assert (xv = 0 \/ xv = 1) as [-> | ->] by lia; cbn; lia). unfold u64 in V. lia. }
    rewrite Ea, Ex, andn_val, B. f_equal. assert (xv = 0 \/ xv = 1) as [-> | ->] by lia; assert (av = 0 \/ av = 1) as [-> | ->] by lia; reflexivity.
  - assert (z = -1) as -> by (eapply ones_m1; eauto).
    destruct (xor_m1 s m x u Ws Tx Ty) as (xv & Ex & Hx & V' & Bx). rewrite V' in V. apply some_inj in V. rewrite <- V in Sb.
    rewrite s64_u64 in Sb by exact Bx. subst bv. rewrite Ea, Ex, andn_val. reflexivity.
Qed.
Lemma pOrn_ok : patOk pOrn.
Proof.
  intros C n i n' l H D. unfold pOrn in H. destruct i; try discriminate H. destruct o; try discriminate H.
  destruct (lkO C b) as [[[] m x y| | | | | | | | | | | | |]|] eqn:L; try discriminate H. pm. pm. bools.
  cbn [defect] in D. unfold xorWithBad in D. rewrite L in D.
  v1; [ok0|]. vs. destruct (lkO_inv n' C b _ m HS L eq_refl) as (-> & _ & _ & (WT1 & _) & _).
  pose proof (lkO_val n' C s _ _ m HS HD L eq_refl) as V. cbn [wt] in WT, WT1. destruct WT1 as (Tx & Ty & _). destruct WT as (Ta & Tb & _).
  destruct y as [|z u]; [discriminate|].
  destruct (logic_val s GOr d a (OR m) Ws Ta Tb eq_refl) as (av & bv & r & Ea & Eb & Ha & Hb & Sa & Sb & G & Hr & E').
  rewrite E' in E. apply some_inj in E; subst v. cbn [gbinV] in G. injection G as <-. cbn [val]. f_equal.
  assert (z = -1) as ->. { unfold isNegOne, badOnes in *. lia. }
  destruct (xor_m1 s m x u Ws Tx Ty) as (xv & Ex & Hx & V' & Bx). rewrite V' in V. apply some_inj in V. rewrite <- V in Sb.
  rewrite s64_u64 in Sb by exact Bx. subst bv. rewrite Ea, Ex, orn_val. reflexivity.
Qed.
Lemma pXnorL_ok : patOk pXnorL.
Proof.
  intros C n i n' l H D. unfold pXnorL in H. destruct i; try discriminate H. destruct o; try discriminate H.
  destruct (lkO C a) as [[[] m x y| | | | | | | | | | | | |]|] eqn:L; try discriminate H. pm. pm. bools.
  cbn [defect] in D. unfold isXor in D. rewrite L in D. cbn [orb] in D. rewrite andb_true_r in D.
  apply orb_false_elim in D as [D1 D2]. apply orb_false_elim in D1 as [D1 _].
  assert (Nd : rty d <> B1) by (intros X; rewrite X in D2; discriminate).
  v1; [ok0|]. vs. destruct (lkO_inv n' C a _ m HS L eq_refl) as (-> & _ & _ & (WT1 & _) & _).
  pose proof (lkO_val n' C s _ _ m HS HD L eq_refl) as V. cbn [wt] in WT, WT1. destruct WT1 as (Tx & Ty & _). destruct WT as (Ta & Tb & _).
  destruct b as [|z u]; [discriminate|]. assert (z = -1) as -> by (eapply ones_m1; eauto).
  destruct (logic_val s GXor m x y Ws Tx Ty eq_refl) as (xv & yv & r & Ex & Ey & Hx & Hy & Sx & Sy & G & Hr & V').
  rewrite V' in V. apply some_inj in V. cbn [gbinV] in G. injection G as <-.
  destruct (xor_m1 s d (OR m) u Ws Ta Tb) as (mv & Em & Hm & E' & Bm). rewrite E' in E. apply some_inj in E; subst v.
  cbn [val]. f_equal. rewrite Ex, Ey, xnor_val. rewrite Em in V. f_equal. f_equal.
  apply (f_equal s64) in V. rewrite !s64_u64 in V by (eapply inR_64; eassumption). exact V.
Qed.
Lemma pXnorR_ok : patOk pXnorR.
Proof.
  intros C n i n' l H D. unfold pXnorR in H. destruct i; try discriminate H. destruct o; try discriminate H.
  destruct (lkO C b) as [[[] m x y| | | | | | | | | | | | |]|] eqn:L; try discriminate H. pm. pm. bools.
  cbn [defect] in D. unfold isXor, xorWithBad in D. rewrite L in D. rewrite orb_true_r, andb_true_r in D.
  apply orb_false_elim in D as [D1 D2]. apply orb_false_elim in D1 as [_ D1].
  assert (Nd : rty d <> B1) by (intros X; rewrite X in D2; discriminate).
  v1; [ok0|]. vs. destruct (lkO_inv n' C b _ m HS L eq_refl) as (-> & _ & _ & (WT1 & _) & _).
  pose proof (lkO_val n' C s _ _ m HS HD L eq_refl) as V. cbn [wt] in WT, WT1. destruct WT1 as (Tx & Ty & _). destruct WT as (Ta & Tb & _).
  destruct y as [|z u]; [discriminate|]. assert (z = -1) as -> by (eapply ones_m1; eauto).
  destruct (xor_m1 s m x u Ws Tx Ty) as (xv & Ex & Hx & V' & Bx). rewrite V' in V. apply some_inj in V.
  destruct (logic_val s GXor d a (OR m) Ws Ta Tb eq_refl) as (av & bv & r & Ea & Eb & Ha & Hb & Sa & Sb & G & Hr & E').
  rewrite E' in E. apply some_inj in E; subst v. cbn [gbinV] in G. injection G as <-. cbn [val]. f_equal.
  rewrite <- V, s64_u64 in Sb by exact Bx. subst bv. rewrite Ea, Ex, xnor_val. f_equal.
  rewrite <- !lxor_m1, Z.lxor_assoc. reflexivity.
Qed.
Lemma pLogic_ok : patOk pLogic.
Proof.
  intros C n i n' l H D. unfold pLogic in H. destruct i; try discriminate H.
  destruct (logicI o) as [oi|] eqn:LI; [|discriminate]. destruct (logicR o) as [orr|] eqn:LR; [|discriminate].
  assert (Lg : isLogic o = true) by (destruct o; try discriminate; reflexivity).
  pm; bools.
  - destruct b as [|z u]; [discriminate|]. pm. v1; [destruct o; try discriminate LI; injection LI as <-; ok0|].
    vs. destruct WT as (Ta & Tb & _).
    destruct (logic_val s o d a (OI z u) Ws Ta Tb Lg) as (av & bv & r & Ea & Eb & Ha & Hb & Sa & Sb & G & Hr & E').
    rewrite E' in E. apply some_inj in E; subst v. cbn [val]. f_equal. apply okOpI in Tb as [Hu _]. rewrite (proj2 (opvI s _ _ Hu)) in Sb. subst bv.
    rewrite Ea, (logicI_ok o oi (rty d) av z r LI Ha Hb G), canon_small by exact Hr. reflexivity.
  - pm. pm. bools. v1; [destruct o; try discriminate LR; injection LR as <-; ok0|]. vs. destruct WT as (Ta & Tb & _).
    destruct (logic_val s o d a b Ws Ta Tb Lg) as (av & bv & r & Ea & Eb & Ha & Hb & Sa & Sb & G & Hr & E').
    rewrite E' in E. apply some_inj in E; subst v. cbn [val]. f_equal.
    rewrite Ea, Eb, (logicR_ok o orr (rty d) av bv r LR Ha Hb G), canon_small by exact Hr. reflexivity.
Qed.

(** ** arithmetic *)
Lemma rd_X0 (s : st) t : rd s (OR (X0 t)) = 0.
Proof. clear opq. reflexivity. Qed.
Lemma holds_w t v : wide t -> holds t (Rv.w v).
Proof. clear opq.
  intros H. exists (s32 v). split; [reflexivity|]. pose proof (s32_range v) as B. unfold INT_MIN, INT_MAX in B.
  destruct H as [-> | ->]; cbn [inR bits]; lia.
Qed.
Lemma subw0 x : inR I32 x -> Rv.SUBW 0 (u64 x) = u64 (s32 (- x)).
Proof. clear opq. intros _. unfold Rv.SUBW. change 0 with (u64 0). rewrite w_u64_sub. reflexivity. Qed.
Lemma s64_s32 x : s64 (u64 (s32 x)) = s32 x.
Proof. clear opq. apply s64_u64. pose proof (s32_range x). unfold B64, INT_MIN, INT_MAX in *. lia. Qed.
Lemma negabs_val x : inR I32 x -> evRR MIN (Rv.SUBW 0 (u64 x)) (u64 x) = canon I32 (0 - s64 (canon I32 (Z.abs x))).
Proof. clear opq.
  intros H. rewrite subw0 by exact H. cbn [evRR]. rewrite s64_s32, s64_canon, (s64_u64 x) by (apply (inR_64 I32), H).
  change (canon I32) with Rv.w. unfold Rv.w. change (norm I32) with s32. f_equal. cbn [inR bits] in H. unfold s32. lia.
Qed.
Lemma abs_val x : inR I32 x -> evRR MAX (Rv.SUBW 0 (u64 x)) (u64 x) = canon I32 (Z.abs x).
Proof. clear opq.
  intros H. rewrite subw0 by exact H. cbn [evRR]. rewrite s64_s32, (s64_u64 x) by (apply (inR_64 I32), H).
  change (canon I32) with Rv.w. unfold Rv.w. f_equal. cbn [inR bits] in H. unfold s32. lia.
Qed.
Lemma rd_tmp (s : st) n t v : (0 < n)%nat -> rd (set s (Rg n t) v) (OR (Rg n t)) = v.
Proof. clear opq. intros H. cbn [rd rid]. rewrite (proj2 (Nat.eqb_neq _ _)) by lia. apply set_same. Qed.
Lemma rd_old (s : st) n t v o : (forall r, In r (oreg o) -> (rid r < n)%nat) -> rd (set s (Rg n t) v) o = rd s o.
Proof. clear opq. intros H. apply rd_set_other. intros r Hr ->. specialize (H _ Hr). cbn in H. lia. Qed.
Ltac old HB := apply rd_old; intros ? ?; apply HB; unfold regsOf; cbn [uses defs]; rewrite ?in_app_iff; tauto.

Lemma pNegAbs_ok : patOk pNegAbs.
Proof.
  intros C n i n' l H D. unfold pNegAbs in H. destruct i; try discriminate H. destruct o; try discriminate H.
  destruct (lkO C b) as [[|[] m x| | | | | | | | | | | |]|] eqn:L; try discriminate H. pm. pm. bools. assert (Z0 : isZero a = true) by assumption.
  assert (M : rty d = I32) by (apply is32_ty; assumption).
  v2.
  - intros P. okd P. split; (split; [|split; [benc|]]); try exact I; try exact ND.
    + cbn [wt rty]. rewrite M. left. reflexivity.
    + intros r [<- | []]. cbn. lia.
  - vs. destruct (lkO_inv n C b _ m HS L eq_refl) as (-> & _ & _ & (WT1 & _) & B1).
    pose proof (lkO_val n C s _ _ m HS HD L eq_refl) as V. cbn [wt] in WT, WT1. destruct WT1 as (Ix & Lx & Wm & _). destruct WT as (Ta & Tb & _).
    assert (Mm : rty m = I32). { destruct Tb as [Tb _]. cbn [oty] in Tb. rewrite M in Tb. destruct Wm as [Wm | Wm]; rewrite Wm in Tb |- *; cbn [bits] in Tb; [reflexivity|lia]. }
    assert (Ox : okOp I32 x) by (rewrite Mm in Lx; split; assumption). getv x I32 xv.
    eexists. split; [reflexivity|]. cbn [evRR]. rewrite rd_X0, M. split; [apply holds_w; left; reflexivity|]. intros _.
    cbn [val]. rewrite rd_tmp by exact Hn. rewrite (rd_old s n) by (intros q Hq; apply B1, in_regs_use; cbn [uses]; exact Hq).
    rewrite Exv. change (evRR MIN (Rv.SUBW 0 (u64 xv)) (u64 xv)) with (evRR MIN (Rv.SUBW 0 (u64 xv)) (u64 xv)). rewrite negabs_val by exact Hxv.
    cbn [val gunV] in V. apply some_inj in V. rewrite Mm, Sxv in V. rewrite V.
    cbn [val gbinV option_map] in E. rewrite M in E. apply some_inj in E. rewrite <- E. f_equal. f_equal. f_equal.
    destruct a as [r|z t]; cbn [isZero] in Z0; cbn [rd]; [rewrite Z0; reflexivity|]. assert (z = 0) as -> by lia. reflexivity.
Qed.
Lemma pSub_ok : patOk pSub.
Proof.
  intros C n i n' l H D. unfold pSub in H. destruct i; try discriminate H. destruct o; try discriminate H.
  pm; [pm; bools|pm; pm; bools].
  - assert (M : rty d = I64) by (apply is64_ty; assumption). v1; [ok0|]. vs. destruct WT as (Ta & Tb & _). getv a (rty d) x. getv b (rty d) y.
    cbn [val gbinV option_map] in E |- *. rewrite Sx, Sy, M, canon64 in E. apply some_inj in E. subst v. f_equal. rewrite Ex, Ey. apply u64_sub2.
  - assert (M : rty d = I32) by (apply is32_ty; assumption).
    v1; [intros P; okd P; split; [left; exact M|split; [benc|exact ND]]|]. vs. destruct WT as (Ta & Tb & _). getv a (rty d) x. getv b (rty d) y.
    cbn [val gbinV option_map] in E |- *. rewrite Sx, Sy, M, canon32 in E. apply some_inj in E. subst v. f_equal. rewrite Ex, Ey. apply w_u64_sub.
Qed.
Lemma tw_ty d : negb (is64 d || is32 d) = false -> tw (is32 d) = rty d.
Proof. clear opq. unfold is64, is32, tw. destruct (rty d); cbn; congruence. Qed.
Lemma pMinMax_ok : patOk pMinMax.
Proof.
  intros C n i n' l H D. unfold pMinMax in H. destruct i; try discriminate H. destruct o; try discriminate H; pm; pm; bools;
    (v1; [ok0|]; vs; destruct WT as (Ta & Tb & _); getv a (rty d) x; getv b (rty d) y;
     cbn [val gbinV option_map] in E |- *; rewrite Sx, Sy in E; apply some_inj in E; subst v; f_equal; rewrite Ex, Ey; apply minmax_ok; assumption).
Qed.
Lemma pArith_ok : patOk pArith.
Proof.
  intros C n i n' l H D. unfold pArith in H. destruct i; try discriminate H.
  pm. pm. destruct (arithR o (is32 d)) as [orr|] eqn:L; [|discriminate]. pm. pm. bools.
  pose proof (tw_ty d Heqb0) as T.
  v1; [destruct o, (is32 d); try discriminate L; injection L as <-; ok0|].
  vs. destruct WT as (Ta & Tb & _). getv a (rty d) x. getv b (rty d) y.
  cbn [val] in E |- *. rewrite Sx, Sy in E. destruct (gbinV o (rty d) x y) as [g|] eqn:G; [|discriminate]. cbn [option_map] in E. apply some_inj in E. subst v.
  f_equal. rewrite Ex, Ey. rewrite <- T in *. eapply arithR_ok; eauto.
Qed.
(** the constant amounts left by the legalization *)
Definition shAmt (i : inst) : bool :=
  match i with Bin GShl _ _ (OI z _) | Bin GAShr _ _ (OI z _) | Bin GLShr _ _ (OI z _) => (0 <=? z) && (z <? 32) | _ => true end.
Lemma pShift_ok C n i n' l : pShift C n i = Some (n', l) -> shAmt i = true -> fineP n C i n' l.
Proof.
  intros H A. unfold pShift in H. destruct i; try discriminate H. pm.
  destruct (shiftI o (is32 d)) as [oi|] eqn:LI; [|discriminate]. destruct (shiftR o (is32 d)) as [orr|] eqn:LR; [|discriminate].
  pose proof (tw_ty d Heqb0) as T. pm; bools.
  - destruct b as [|z u]; [discriminate|]. pm. v1.
    + intros P. okd P. split. { destruct WT as ((La & _) & _). destruct o, (is32 d) eqn:E32; try discriminate LI; injection LI as <-; try exact I. cbn [wt]. apply is32_ty in E32. rewrite E32 in La. exact La. }
      split; [|exact ND]. cbn [encodable]. assert (Ra : isR a = true) by assumption. rewrite Ra. cbn [andb]. cbn [is6] in *.
      assert (A' : (0 <=? z) && (z <? 32) = true) by (destruct o; try discriminate LI; exact A).
      destruct o, (is32 d); try discriminate LI; injection LI as <-; cbn [immFor]; lia.
    + vs. destruct WT as (Ta & Tb & _). getv a (rty d) x. apply okOpI in Tb as [Hu _]. cbn [val] in E |- *. rewrite Sx, (proj2 (opvI s _ _ Hu)) in E.
      destruct (gbinV o (rty d) x z) as [g|] eqn:G; [|discriminate]. cbn [option_map] in E. apply some_inj in E. subst v.
      f_equal. rewrite Ex. rewrite <- T in *. eapply shiftI_ok; eauto.
  - pm. pm. bools. v1; [destruct o, (is32 d); try discriminate LR; injection LR as <-; ok0|].
    vs. destruct WT as (Ta & Tb & _). getv a (rty d) x. getv b (rty d) y. cbn [val] in E |- *. rewrite Sx, Sy in E.
    destruct (gbinV o (rty d) x y) as [g|] eqn:G; [|discriminate]. cbn [option_map] in E. apply some_inj in E. subst v.
    f_equal. rewrite Ex, Ey. rewrite <- T in *. eapply shiftR_ok; eauto.
Qed.

(** ** rewrites of target instructions *)
Lemma rdB (s : st) o : wfst s -> isR o = true -> exists x, rd s o = u64 x /\ inR (oty o) x.
Proof. clear opq. intros Ws H. destruct (isR_OR o H) as (r & ->). destruct (rd_holds s (OR r) Ws I) as (x & E & R). exists x. auto. Qed.
Lemma fuse_srl x z : 0 <= z < 32 -> z <> 0 -> Rv.SRLIW (Rv.SRLI (u64 x) 32) z = Rv.SRLI (u64 x) (z + 32).
Proof. clear opq.
  intros Hz N. unfold Rv.SRLIW, Rv.SRLI. pose proof (u64_range x) as B. generalize dependent (u64 x). intros y B.
  rewrite (Z.add_comm z 32), Z.pow_add_r by lia. rewrite <- Z.div_div; [|lia|apply Z.pow_pos_nonneg; lia].
  assert (Y : 0 <= y / 2 ^ 32 < 4294967296) by (change (2 ^ 32) with 4294967296; lia).
  rewrite (u32_small (y / 2 ^ 32)) by (unfold UINT_MAX; lia).
  generalize dependent (y / 2 ^ 32). intros q Y.
  assert (P : 2 <= 2 ^ z). { change 2 with (2 ^ 1) at 1. apply Z.pow_le_mono_r; lia. }
  assert (Q : 0 <= q / 2 ^ z < 2147483648). { split; [apply Z.div_pos; lia|]. apply Z.div_lt_upper_bound; [lia|]. nia. }
  generalize dependent (q / 2 ^ z). intros t Q. unfold Rv.w. rewrite s32_small by (unfold INT_MIN, INT_MAX; lia). unfold u64. lia.
Qed.
Lemma fuse_sra x z : 0 <= z < 32 -> Rv.SRAIW (Rv.SRLI (u64 x) 32) z = Rv.SRAI (u64 x) (z + 32).
Proof. clear opq.
  intros Hz. unfold Rv.SRAIW, Rv.SRLI, Rv.SRAI.
  rewrite (Z.add_comm z 32), Z.pow_add_r by lia. rewrite <- Z.div_div; [|lia|apply Z.pow_pos_nonneg; lia].
  assert (E : s32 (u64 x / 2 ^ 32) = s64 (u64 x) / 2 ^ 32) by (change (2 ^ 32) with 4294967296; unfold s32, s64, u64; lia).
  rewrite E. pose proof (Z.div_mod (s64 (u64 x)) (2 ^ 32)). assert (Y : -2147483648 <= s64 (u64 x) / 2 ^ 32 < 2147483648) by (change (2 ^ 32) with 4294967296; unfold s64, u64; lia).
  generalize dependent (s64 (u64 x) / 2 ^ 32). intros q Eq _ Y.
  assert (P : 1 <= 2 ^ z). { change 1 with (2 ^ 0). apply Z.pow_le_mono_r; lia. }
  assert (Q : -2147483648 <= q / 2 ^ z < 2147483648).
  { split; [apply Z.div_le_lower_bound; nia|]. apply Z.div_lt_upper_bound; nia. }
  unfold Rv.w. rewrite s32_small by (unfold INT_MIN, INT_MAX; lia). reflexivity.
Qed.
Lemma pFuseShift_ok : patOk pFuseShift.
Proof.
  intros C n i n' l H D. unfold pFuseShift in H. destruct i; try discriminate H.
  destruct o; try discriminate H; destruct (lkO C a) as [[| | | | | | |[] m x z1| | | | | |]|] eqn:L; try discriminate H;
    (destruct ((z1 =? 32) && safe C x m) eqn:EZ; [|discriminate H]; injection H as <- <-; bools; assert (z1 = 32) as -> by lia).
  - cbn [defect] in D. rewrite L in D. rewrite andb_true_r in D.
    v1.
    + intros P. okd P. destruct (lkO_inv n C a _ m HS L eq_refl) as (-> & _ & _ & (_ & EN1 & _) & _). split; [exact I|split; [|exact ND]].
      cbn [encodable immFor] in *. bools. assert (X : isR x = true) by assumption. rewrite X. cbn [andb]. lia.
    + vs. destruct (lkO_inv n C a _ m HS L eq_refl) as (-> & _ & _ & (WT1 & EN1 & _) & _).
      pose proof (lkO_val n C s _ _ m HS HD L eq_refl) as V. cbn [encodable immFor] in EN, EN1. bools.
      destruct (rdB s x Ws) as (xv & Ex & _); [assumption|]. cbn [val evRI] in V, E |- *. apply some_inj in V, E. subst v. f_equal.
      rewrite <- V, Ex. symmetry. apply fuse_srl; lia.
  - v1.
    + intros P. okd P. destruct (lkO_inv n C a _ m HS L eq_refl) as (-> & _ & _ & (_ & EN1 & _) & _). split; [exact I|split; [|exact ND]].
      cbn [encodable immFor] in *. bools. assert (X : isR x = true) by assumption. rewrite X. cbn [andb]. lia.
    + vs. destruct (lkO_inv n C a _ m HS L eq_refl) as (-> & _ & _ & (WT1 & EN1 & _) & _).
      pose proof (lkO_val n C s _ _ m HS HD L eq_refl) as V. cbn [encodable immFor] in EN, EN1. bools.
      destruct (rdB s x Ws) as (xv & Ex & _); [assumption|]. cbn [val evRI] in V, E |- *. apply some_inj in V, E. subst v. f_equal.
      rewrite <- V, Ex. symmetry. apply fuse_sra; lia.
Qed.
Lemma land_mask a z : 0 <= z -> Z.land a (- 2 ^ z) = a / 2 ^ z * 2 ^ z.
Proof. clear opq.
  intros Hz. rewrite <- Z.shiftr_div_pow2, <- Z.shiftl_mul_pow2 by lia.
  replace (- 2 ^ z) with (Z.lnot (Z.ones z)) by (rewrite Z.ones_equiv; unfold Z.lnot; lia).
  rewrite <- Z.ldiff_land. apply Z.ldiff_ones_r. lia.
Qed.
Lemma mask_val x z : inR I32 x -> 0 < z < 32 ->
  Rv.SLLI (Rv.SRAIW (u64 x) z) z = Rv.ANDI (u64 x) (- 2 ^ z) /\ Rv.SLLIW (Rv.SRAIW (u64 x) z) z = Rv.ANDI (u64 x) (- 2 ^ z).
Proof. clear opq.
  intros H Hz. unfold Rv.SLLI, Rv.SLLIW, Rv.SRAIW, Rv.ANDI. rewrite s32_u64, s32_of32 by exact H. rewrite <- u64_land, land_mask by lia.
  cbn [inR bits] in H. assert (P : 1 <= 2 ^ z). { change 1 with (2 ^ 0). apply Z.pow_le_mono_r; lia. }
  assert (K : -2147483648 <= x / 2 ^ z < 2147483648).
  { split; [apply Z.div_le_lower_bound; nia|]. apply Z.div_lt_upper_bound; nia. }
  pose proof (Z.div_mod x (2 ^ z) ltac:(lia)) as DM. pose proof (Z.mod_pos_bound x (2 ^ z) ltac:(lia)) as MB.
  assert (K2 : x / 2 ^ z * 2 ^ z <= x) by (rewrite Z.mul_comm; lia).
  assert (K3 : -2147483648 <= x / 2 ^ z * 2 ^ z).
  { assert (Dv : (2 ^ z | 2147483648)) by (change 2147483648 with (2 ^ 31); exists (2 ^ (31 - z)); rewrite <- Z.pow_add_r by lia; f_equal; lia).
    destruct Dv as (c & Ec). replace (-2147483648) with ((- c) * 2 ^ z) by lia. apply Z.mul_le_mono_nonneg_r; [lia|].
    apply Z.div_le_lower_bound; [lia|]. lia. }
  unfold Rv.w at 1 3. rewrite (s32_small (x / 2 ^ z)) by (unfold INT_MIN, INT_MAX; lia). split.
  - apply u64_mul_u64_l.
  - rewrite w_u64_mulz. unfold Rv.w. rewrite s32_small by (unfold INT_MIN, INT_MAX; lia). reflexivity.
Qed.
Lemma pMask_ok : patOk pMask.
Proof.
  intros C n i n' l H D. unfold pMask in H. destruct i; try discriminate H.
  destruct o; try discriminate H; destruct (lkO C a) as [[| | | | | | |[] m x z1| | | | | |]|] eqn:L; try discriminate H;
    (destruct ((z1 =? z) && (0 <? z) && (z <? 32) && imm12 (- 2 ^ z)) eqn:EZ; [|discriminate H]; injection H as <- <-; bools; assert (z1 = z) as -> by lia;
     clear D;
     v1; [intros P; okd P; destruct (lkO_inv n C a _ m HS L eq_refl) as (-> & _ & _ & (_ & EN1 & _) & _); split; [exact I|split; [|exact ND]];
          cbn [encodable immFor] in *; bools; assert (X : isR x = true) by assumption; rewrite X; assumption|];
     vs; destruct (lkO_inv n C a _ m HS L eq_refl) as (-> & _ & _ & (WT1 & EN1 & _) & _);
     pose proof (lkO_val n C s _ _ m HS HD L eq_refl) as V; cbn [encodable immFor] in EN, EN1; bools;
     destruct (rdB s x Ws) as (xv & Ex & Hx); [assumption|]; cbn [val evRI] in V, E |- *; apply some_inj in V, E; subst v; f_equal;
     rewrite <- V, Ex; symmetry;
     assert (Hx' : inR I32 xv) by (cbn [wt] in WT1; (eapply inR_le; [|exact Hx]); exact WT1);
     apply mask_val; [exact Hx'|lia]).
Qed.
Lemma pSubSub_ok : patOk pSubSub.
Proof.
  intros C n i n' l H D. unfold pSubSub in H. destruct i; try discriminate H. destruct o; try discriminate H.
  destruct b as [q|]; [|discriminate]. destruct (lkO C (OR q)) as [[| | | | | |[] m x y| | | | | | |]|] eqn:L; try discriminate H.
  pm; [pm|pm; pm].
  - v2.
    + intros P. okd P. destruct (lkO_inv n C _ _ m HS L eq_refl) as (_ & _ & _ & (_ & EN1 & _) & _). cbn [encodable] in *. bools.
      split; (split; [|split; [benc|]]); try exact I; try exact ND.
      * intros r [<- | []]. cbn. lia.
      * exact WT.
    + vs. destruct (lkO_inv n C _ _ m HS L eq_refl) as (Eq & _ & _ & (WT1 & EN1 & _) & B1). injection Eq as ->.
      pose proof (lkO_val n C s _ _ m HS HD L eq_refl) as V. cbn [encodable] in EN, EN1. bools.
      destruct (rdB s x Ws) as (xv & Ex & Hx); [assumption|]. destruct (rdB s y Ws) as (yv & Ey & Hy); [assumption|]. destruct (rdB s a Ws) as (av & Ea & Ha); [assumption|].
      eexists. split; [reflexivity|]. cbn [evRR]. split; [apply holds_w; exact WT|]. intros _. cbn [val evRR]. rewrite rd_tmp by exact Hn.
      rewrite (rd_old s n) by (intros p Hp; apply B1, in_regs_use; cbn [uses]; apply in_or_app; auto).
      cbn [val evRR] in V, E. apply some_inj in V, E. subst v. f_equal. rewrite <- V, Ex, Ey, Ea. unfold Rv.SUBW, Rv.ADDW.
      rewrite w_u64_add, (w_u64_sub xv yv). unfold Rv.w at 2 4. rewrite !w_u64_sub. apply w_eq.
      unfold u32, s32. lia.
  - v1.
    + intros P. okd P. destruct (lkO_inv n' C _ _ m HS L eq_refl) as (_ & _ & _ & (_ & EN1 & _) & _). cbn [encodable] in *. bools.
      split; [exact WT|]. split; [benc|exact ND].
    + vs. destruct (lkO_inv n' C _ _ m HS L eq_refl) as (Eq & _ & _ & (WT1 & EN1 & _) & B1). injection Eq as ->.
      pose proof (lkO_val n' C s _ _ m HS HD L eq_refl) as V. cbn [encodable] in EN, EN1. bools.
      destruct (rdB s x Ws) as (xv & Ex & Hx); [assumption|]. destruct (rdB s y Ws) as (yv & Ey & Hy); [assumption|].
      assert (A0 : rd s a = u64 0). { destruct a as [r|]; [|discriminate]. cbn [isZero] in *. cbn [rd]. match goal with H : (rid r =? 0)%nat = true |- _ => rewrite H end. reflexivity. }
      cbn [val evRR] in V, E |- *. apply some_inj in V, E. subst v. f_equal. rewrite <- V, Ex, Ey, A0. unfold Rv.SUBW.
      rewrite (w_u64_sub xv yv), (w_u64_sub yv xv). unfold Rv.w at 3. rewrite w_u64_sub. apply w_eq. unfold u32, s32. lia.
Qed.

(** ** comparisons and extensions *)
Lemma opB (s : st) o : wfst s -> immB o -> exists x, rd s o = u64 x /\ B64 x /\ s64 (rd s o) = x.
Proof. clear opq.
  intros Ws O. destruct (rd_B s o Ws O) as (x & E & H). exists x. apply inR_64 in H. repeat split; auto; try apply H. rewrite E. apply s64_u64, H.
Qed.
Ltac getB o x := let E := fresh "E" x in let Hx := fresh "H" x in let Sx := fresh "S" x in
  destruct (opB _ o ltac:(eassumption) ltac:(eassumption)) as (x & E & Hx & Sx).
Lemma holds_b2z t b : holds t (b2z b).
Proof. clear opq. exists (b2z b). split; [destruct b; reflexivity|]. destruct t, b; cbn; lia. Qed.
Lemma rd_zero (s : st) o : isZero o = true -> rd s o = 0.
Proof. clear opq. destruct o as [r|z t]; cbn [isZero rd]; intros H; [rewrite H; reflexivity|]. assert (z = 0) as -> by lia. reflexivity. Qed.
Lemma xori_b2z b : Rv.XORI (b2z b) 1 = b2z (negb b).
Proof. clear opq. destruct b; reflexivity. Qed.
Lemma u64_zero x : B64 x -> (u64 x = 0 <-> x = 0).
Proof. clear opq. unfold B64, u64. lia. Qed.
Lemma pCmp_ok : patOk pCmp.
Proof.
  intros C n i n' l H D. unfold pCmp in H. destruct i; try discriminate H. destruct (isR a) eqn:Ra; [|discriminate]. cbn [negb] in H.
  assert (Ia : immB a) by (destruct a; [exact I|discriminate]).
  destruct b as [q|z u].
  - assert (Ib : immB (OR q)) by exact I.
    assert (CV : forall s : st, wfst s -> exists x y, rd s a = u64 x /\ rd s (OR q) = u64 y /\ B64 x /\ B64 y /\ s64 (rd s a) = x /\ s64 (rd s (OR q)) = y).
    { intros s Ws. getB a x. getB (OR q) y. exists x, y. auto 10. }
    destruct c; try discriminate H; try (destruct (isZero (OR q)) eqn:Z0; [|discriminate H]); injection H as <- <-.
    + v1; [ok0|]. vs. destruct (CV s Ws) as (x & y & Ex & Ey & Bx & By & Sx & Sy). cbn [val evRI] in E |- *. apply some_inj in E. subst v. f_equal.
      unfold cmpV. rewrite Sx, (rd_zero s _ Z0), Ex. cbn [doCompare]. unfold Rv.SLTIU, b2z. change (s64 0) with 0. change (u64 1) with 1. pose proof (u64_range x). pose proof (u64_zero x Bx).
      destruct (x =? 0) eqn:X, (u64 x <? 1) eqn:Y; lia.
    + v1; [ok0|]. vs. destruct (CV s Ws) as (x & y & Ex & Ey & Bx & By & Sx & Sy). cbn [val evRR] in E |- *. apply some_inj in E. subst v. f_equal.
      unfold cmpV. rewrite Sx, (rd_zero s _ Z0), Ex, rd_X0. cbn [doCompare]. unfold Rv.SLTU, b2z. change (s64 0) with 0. pose proof (u64_range x). pose proof (u64_zero x Bx).
      destruct (negb (x =? 0)) eqn:X, (0 <? u64 x) eqn:Y; lia.
    + v1; [ok0|]. vs. destruct (CV s Ws) as (x & y & Ex & Ey & Bx & By & Sx & Sy). cbn [val evRR] in E |- *. apply some_inj in E. subst v. f_equal.
    + v2; [intros P; okd P; split; (split; [exact I|split; [benc|]]); [intros r [<- | []]; cbn; lia|exact ND]|].
      vs. destruct (CV s Ws) as (x & y & Ex & Ey & Bx & By & Sx & Sy). cbn [val evRR] in E |- *. apply some_inj in E. subst v.
      eexists. split; [reflexivity|]. rewrite Ex, Ey, slt_ok by assumption. split; [apply holds_b2z|]. intros _. rewrite rd_tmp by exact Hn. f_equal.
      cbn [evRI]. rewrite xori_b2z. unfold cmpV. rewrite <- Ex, Sx, <- Ey, Sy. cbn [doCompare]. f_equal. lia.
    + v1; [ok0|]. vs. destruct (CV s Ws) as (x & y & Ex & Ey & Bx & By & Sx & Sy). cbn [val evRR] in E |- *. apply some_inj in E. subst v. f_equal.
      unfold cmpV. rewrite Sx, Sy, Ex, Ey, slt_ok by assumption. cbn [doCompare]. f_equal. lia.
    + v1; [ok0|]. vs. destruct (CV s Ws) as (x & y & Ex & Ey & Bx & By & Sx & Sy). cbn [val evRR] in E |- *. apply some_inj in E. subst v. f_equal.
      unfold cmpV. rewrite Sx, Sy, Ex, Ey. apply sltu_ok.
    + v2; [intros P; okd P; split; (split; [exact I|split; [benc|]]); [intros r [<- | []]; cbn; lia|exact ND]|].
      vs. destruct (CV s Ws) as (x & y & Ex & Ey & Bx & By & Sx & Sy). cbn [val evRR] in E |- *. apply some_inj in E. subst v.
      eexists. split; [reflexivity|]. rewrite Ex, Ey, sltu_ok. split; [apply holds_b2z|]. intros _. rewrite rd_tmp by exact Hn. f_equal.
      cbn [evRI]. rewrite xori_b2z. unfold cmpV. rewrite <- Ex, Sx, <- Ey, Sy. cbn [doCompare]. f_equal. lia.
    + v1; [ok0|]. vs. destruct (CV s Ws) as (x & y & Ex & Ey & Bx & By & Sx & Sy). cbn [val evRR] in E |- *. apply some_inj in E. subst v. f_equal.
      unfold cmpV. rewrite Sx, Sy, Ex, Ey, sltu_ok. cbn [doCompare]. f_equal. lia.
  - assert (CV : forall s : st, wfst s -> B64 z -> exists x, rd s a = u64 x /\ B64 x /\ s64 (rd s a) = x /\ s64 (rd s (OI z u)) = z).
    { intros s Ws Bz. getB a x. exists x. repeat split; auto; try apply Hx. cbn [rd]. apply s64_u64, Bz. }
    destruct c; try discriminate H; (match type of H with (if ?b then _ else _) = _ => destruct b eqn:Z0 end; [|discriminate H]); injection H as <- <-.
    + assert (z = 0) as -> by lia. v1; [ok0|]. vs. destruct WT as (_ & Bz & _). destruct (CV s Ws Bz) as (x & Ex & Bx & Sx & Sz). cbn [val evRI] in E |- *. apply some_inj in E. subst v. f_equal.
      unfold cmpV. rewrite Sx, Sz, Ex. cbn [doCompare]. unfold Rv.SLTIU, b2z. change (u64 1) with 1. pose proof (u64_range x). pose proof (u64_zero x Bx).
      destruct (x =? 0) eqn:X, (u64 x <? 1) eqn:Y; lia.
    + assert (z = 0) as -> by lia. v1; [ok0|]. vs. destruct WT as (_ & Bz & _). destruct (CV s Ws Bz) as (x & Ex & Bx & Sx & Sz). cbn [val evRR] in E |- *. apply some_inj in E. subst v. f_equal.
      unfold cmpV. rewrite Sx, Sz, Ex, rd_X0. cbn [doCompare]. unfold Rv.SLTU, b2z. pose proof (u64_range x). pose proof (u64_zero x Bx).
      destruct (negb (x =? 0)) eqn:X, (0 <? u64 x) eqn:Y; lia.
    + v1; [ok0|]. vs. destruct WT as (_ & Bz & _). destruct (CV s Ws Bz) as (x & Ex & Bx & Sx & Sz). cbn [val evRI] in E |- *. apply some_inj in E. subst v. f_equal.
      unfold cmpV. rewrite Sx, Sz. unfold Rv.SLTI. rewrite Sx. reflexivity.
    + v1; [ok0|]. vs. destruct WT as (_ & Bz & _). destruct (CV s Ws Bz) as (x & Ex & Bx & Sx & Sz). cbn [val evRI] in E |- *. apply some_inj in E. subst v. f_equal.
      unfold cmpV. rewrite Sx, Sz, Ex. unfold Rv.SLTIU. reflexivity.
Qed.
Lemma pExt_ok : patOk pExt.
Proof.
  intros C n i n' l H D. unfold pExt in H. destruct i; try discriminate H.
  assert (Cp : forall d' (T : rty d' = rty d), True) by auto. clear Cp.
  destruct o; try discriminate H; destruct (isR a) eqn:Ra; try discriminate H; cbn [andb] in H;
    assert (Ia : immOk a) by (destruct a; [exact I|discriminate]).
  - (* Abs *)
    destruct (is32 d) eqn:T32; [|discriminate]. injection H as <- <-. assert (M : rty d = I32) by (apply is32_ty; assumption).
    v2.
    + intros P. okd P. split; (split; [|split; [benc|]]); try exact I; try exact ND.
      * cbn [wt rty]. left. exact M.
      * intros r [<- | []]. cbn. lia.
    + vs. destruct WT as (_ & Lx & _). assert (Ox : okOp I32 a) by (rewrite M in Lx; split; assumption). getv a I32 x.
      eexists. split; [reflexivity|]. cbn [evRR]. rewrite rd_X0, M. split; [apply holds_w; left; reflexivity|]. intros _.
      cbn [val]. rewrite rd_tmp by exact Hn. rewrite (rd_old s n) by (intros q Hq; apply HB, in_regs_use; exact Hq).
      cbn [val gunV] in E. apply some_inj in E. subst v. f_equal. rewrite M, Sx, Ex. apply abs_val, Hx.
  - (* ZExt *)
    destruct (oty a) eqn:Ta; try discriminate H; injection H as <- <-.
    + v1; [intros P; okd P; split; [split; [exact Ia|]; destruct WT as (_ & WT); lia|split; [benc|exact ND]]|].
      vs. assert (Oa : okOp B1 a) by (split; [rewrite Ta; lia|exact Ia]). getv a B1 x. cbn [val gunV] in E |- *. apply some_inj in E. subst v. do 2 f_equal.
      rewrite Ta, Sx. cbn [bits inR] in *. symmetry. apply Z.mod_small. lia.
    + v1; [ok0|]. vs. destruct WT as (_ & WT). assert (Oa : okOp I8 a) by (split; [rewrite Ta; lia|exact Ia]). getv a I8 x. cbn [val gunV evRI] in E |- *. apply some_inj in E. subst v. f_equal.
      rewrite Ta, Sx, Ex. rewrite Ta in WT. cbn [bits] in *. unfold Rv.ANDI. rewrite <- u64_land. change 255 with (Z.ones 8). rewrite Z.land_ones by lia.
      rewrite canon_small; [reflexivity|]. cbn [inR bits] in Hx. destruct (rty d); cbn [bits inR] in *; lia.
    + v1; [ok0|]. vs. destruct WT as (_ & WT). assert (Oa : okOp I16 a) by (split; [rewrite Ta; lia|exact Ia]). getv a I16 x. cbn [val gunV evR1] in E |- *. apply some_inj in E. subst v. f_equal.
      rewrite Ta, Sx, Ex. rewrite Ta in WT. cbn [bits] in *.
      rewrite canon_small; [|cbn [inR bits] in Hx; destruct (rty d); cbn [bits inR] in *; lia]. cbn [inR bits] in Hx. unfold u64. lia.
    + v1; [ok0|]. vs. destruct WT as (_ & WT). assert (Oa : okOp I32 a) by (split; [rewrite Ta; lia|exact Ia]). getv a I32 x. cbn [val gunV evR1] in E |- *. apply some_inj in E. subst v. f_equal.
      rewrite Ta, Sx, Ex. rewrite Ta in WT. cbn [bits] in *.
      rewrite canon_small; [|cbn [inR bits] in Hx; destruct (rty d); cbn [bits inR] in *; lia]. cbn [inR bits] in Hx. unfold Rv.ZEXT_W, u32, u64. lia.
  - (* SExt *)
    injection H as <- <-. v1; [intros P; okd P; split; [split; [exact Ia|]; destruct WT as (_ & WT & _); exact WT|split; [benc|exact ND]]|].
    vs. destruct WT as (_ & _ & N). cbn [val gunV] in E |- *. rewrite <- E. destruct (oty a); try congruence; reflexivity.
  - (* Trunc *)
    assert (V : forall s : st, wfst s -> exists x, rd s a = u64 x /\ s64 (rd s a) = x /\ B64 x).
    { intros s Ws. assert (Oa : okOp (oty a) a) by (split; [lia|exact Ia]). getv a (oty a) x. exists x. split; [assumption|]. split; [assumption|]. eapply inR_64; eassumption. }
    destruct (is32 d && match oty a with I32 => true | _ => false end) eqn:T.
    + injection H as <- <-. bools. assert (M : rty d = I32) by (apply is32_ty; assumption).
      v1; [intros P; okd P; split; [split; [exact Ia|]; rewrite M; destruct (oty a); try discriminate; lia|split; [benc|exact ND]]|].
      vs. exact E.
    + destruct (rty d) eqn:Td; try discriminate H; injection H as <- <-;
        (v1; [ok0|]; vs; destruct (V s Ws) as (x & Ex & Sx & Bx); cbn [val gunV evR1] in E |- *; apply some_inj in E; subst v; f_equal;
         rewrite Sx, Ex, Td; unfold canon, norm, Rv.SEXT_W, Rv.w, s32, sgn, bits, u64; unfold B64 in Bx).
      * change (2 ^ (8 - 1)) with 128. change (2 ^ 8) with 256. lia.
      * change (2 ^ (16 - 1)) with 32768. change (2 ^ 16) with 65536. lia.
      * change (2 ^ (32 - 1)) with 2147483648. change (2 ^ 32) with 4294967296. lia.
Qed.

(** ** branches *)
Lemma constTy_in t z : B64 z -> inR (constTy t z) z.
Proof. clear opq.
  intros H. unfold constTy. destruct (inRb t z) eqn:E; [|unfold B64 in H; cbn [inR bits]; lia].
  unfold inRb in E. destruct t; cbn [inR bits] in *; lia.
Qed.
Lemma constTy_same t z : inR t z -> constTy t z = t.
Proof. clear opq. intros H. unfold constTy. replace (inRb t z) with true; [reflexivity|]. symmetry. unfold inRb. destruct t; cbn [inR bits] in *; lia. Qed.
Lemma cmp_branch (s : st) C n c p m a b : ctxS n C -> wfst s -> ctxD C s -> lkO C c = Some (Cmp p m a b) ->
  negb (s64 (rd s c) =? 0) = cmpV p (rd s a) (rd s b).
Proof. clear opq.
  intros HS Ws HD L. pose proof (lkO_val n C s _ _ m HS HD L eq_refl) as V. cbn [val] in V. apply some_inj in V. rewrite <- V.
  destruct (cmpV p (rd s a) (rd s b)); reflexivity.
Qed.
Lemma ne_zero x : B64 x -> cmpV Ine (u64 x) 0 = negb (s64 (u64 x) =? 0).
Proof. clear opq. intros B. unfold cmpV. rewrite s64_u64 by exact B. change (s64 0) with 0. reflexivity. Qed.
Lemma pBranch_ok : patOk pBranch.
Proof.
  intros C n i n' l H D. unfold pBranch in H. destruct i; try discriminate H.
  assert (Plain : forall n' l, (if isR c then Some (n, [BrR Ine c (OR (X0 (oty c))) k]) else None) = Some (n', l) -> fineP n C (Brn c k) n' l).
  { clear. intros n' l H. destruct (isR c) eqn:Rc; [|discriminate]. injection H as <- <-. apply fine1; [reflexivity|utac| |].
    - ok0.
    - intros P s s' Ws HD E _. cbn [exec1] in E |- *. rewrite <- E. reflexivity. }
  destruct (lkO C c) as [[| |p m a b| | | | | | | | | | |]|] eqn:L; try (apply Plain; exact H).
  cbn [defect] in D. rewrite L in D.
  assert (One : forall q y, (forall r, In r (oreg y) -> rid r = 0%nat \/ In r (oreg b)) -> isR a = true -> isR y = true ->
     (forall s : st, wfst s -> immB b -> cmpV q (rd s a) (rd s y) = cmpV p (rd s a) (rd s b)) -> fineP n C (Brn c k) n [BrR q a y k]).
  { intros q y Uy Ra Ry V. apply fine1; [reflexivity| |ok0|].
    - intros r Hr. cbn [uses] in Hr. apply in_app_or in Hr as [Hr | Hr].
      + right. right. eapply lkO_use; [exact L|]. cbn [uses]. apply in_or_app. auto.
      + destruct (Uy r Hr) as [Z | Z]; [left; exact Z|]. right. right. eapply lkO_use; [exact L|]. cbn [uses]. apply in_or_app. auto.
    - intros P s s' Ws HD E _. okd P. destruct (lkO_inv n C c _ m HS L eq_refl) as (-> & _ & _ & (WT1 & _) & _). destruct WT1 as (_ & Ib & _).
      cbn [exec1] in E |- *. rewrite <- E. do 2 f_equal. rewrite (cmp_branch s C n _ p m a b HS Ws HD L). apply V; assumption. }
  assert (Z : forall q, isR a = true -> (forall s : st, wfst s -> immB b -> cmpV q (rd s a) 0 = cmpV p (rd s a) (rd s b)) -> fineP n C (Brn c k) n [BrR q a (OR (X0 (oty a))) k]).
  { intros q Ra V. apply One; auto. intros r [<- | []]. left. reflexivity. }
  assert (SC : forall q z0 t, isR a = true -> b = OI z0 t -> (forall x, B64 x -> doCompare q x 0 = doCompare p x z0) ->
     (forall s : st, wfst s -> immB b -> cmpV q (rd s a) 0 = cmpV p (rd s a) (rd s b))).
  { intros q z0 t Ra Eb V s Ws Ib. rewrite Eb in Ib |- *. cbn [rd immB] in *. destruct (rdB s a Ws Ra) as (x & Ex & Hx). rewrite Ex. change 0 with (u64 0) at 1.
    apply inR_64 in Hx. rewrite !cmpV_u64; [apply V; exact Hx|exact Hx|exact Ib|exact Hx|unfold B64; lia]. }
  match type of H with (if ?b then _ else _) = _ => destruct b eqn:K1 end.
  { injection H as <- <-. bools. apply Z; [assumption|]. intros s _ _. rewrite (rd_zero s b) by assumption. reflexivity. }
  match type of H with (if ?b then _ else _) = _ => destruct b eqn:K2 end.
  { injection H as <- <-. bools. destruct p; try discriminate. destruct b as [|z u]; [discriminate|]. cbn [isOne] in *. assert (z = 1) as -> by lia.
    apply Z; [assumption|]. apply (SC _ 1 u); [assumption|reflexivity|]. intros x _. cbn [doCompare]. lia. }
  match type of H with (if ?b then _ else _) = _ => destruct b eqn:K3 end.
  { injection H as <- <-. bools. destruct p; try discriminate. destruct b as [|z u]; [discriminate|]. cbn [isNegOne badOnes] in *. assert (z = -1) as -> by lia.
    apply Z; [assumption|]. apply (SC _ (-1) u); [assumption|reflexivity|]. intros x _. cbn [doCompare]. lia. }
  match type of H with (if ?b then _ else _) = _ => destruct b eqn:K4 end.
  { injection H as <- <-. bools. destruct p; try discriminate. destruct b as [|z u]; [discriminate|]. cbn [isOne] in *. assert (z = 1) as -> by lia.
    apply Z; [assumption|]. apply (SC _ 1 u); [assumption|reflexivity|]. intros x _. cbn [doCompare]. lia. }
  match type of H with (if ?b then _ else _) = _ => destruct b eqn:K5 end.
  { injection H as <- <-. bools. destruct p; try discriminate. destruct b as [|z u]; [discriminate|]. cbn [isNegOne badOnes] in *. assert (z = -1) as -> by lia.
    apply Z; [assumption|]. apply (SC _ (-1) u); [assumption|reflexivity|]. intros x _. cbn [doCompare]. lia. }
  match type of H with (if ?b then _ else _) = _ => destruct b eqn:K6 end.
  { destruct b as [|z u]; [discriminate|]. injection H as <- <-. bools. clear K1 K2 K3 K4 K5. eapply fine2; [reflexivity|reflexivity|intros r []| | |].
    - intros r Hr. cbn [uses oreg] in Hr. apply in_app_or in Hr as [Hr | [<- | []]]; [|left; reflexivity].
      right. right. right. eapply lkO_use; [exact L|]. cbn [uses]. apply in_or_app. auto.
    - intros P. okd P. destruct (lkO_inv n C c _ m HS L eq_refl) as (-> & _ & _ & (WT1 & _) & _). destruct WT1 as (_ & Ib & _).
      split; (split; [|split; [benc|]]); try exact I; try exact ND.
      + apply constTy_in, Ib.
      + intros r [<- | []]. cbn. lia.
    - intros P s s' Ws HD E Ws'. okd P. destruct (lkO_inv n C c _ m HS L eq_refl) as (-> & _ & _ & (WT1 & _) & B1). destruct WT1 as (_ & Ib & _).
      eexists. split; [reflexivity|]. split; [exists z; split; [reflexivity|apply constTy_in, Ib]|]. intros W1.
      cbn [exec1] in E |- *. rewrite (cmp_branch s C n _ p m a (OI z u) HS Ws HD L) in E. apply some_inj in E. subst s'.
      eexists. split; [reflexivity|]. rewrite rd_tmp by exact Hn. rewrite (rd_old s n) by (intros q Hq; apply B1, in_regs_use; cbn [uses]; apply in_or_app; auto).
      cbn [rd]. unfold take. destruct (cmpV p (rd s a) (u64 z)).
      + split; [exact W1|]. split; [|split; reflexivity]. intros r Hr. cbn [R]. symmetry. apply set_other. intros ->. cbn in Hr. lia.
      + split; [exact W1|]. split; [|split; reflexivity]. intros r Hr. symmetry. apply set_other. intros ->. cbn in Hr. lia. }
  match type of H with (if ?b then _ else _) = _ => destruct b eqn:K7 end.
  { injection H as <- <-. bools. apply One; auto. }
  apply Plain, H.
Qed.
(** ** selects *)
Lemma opnd_eqb_reg a b : opnd_eqb a b = true -> isR b = true -> a = b.
Proof. clear opq. destruct a, b; cbn; intros H R; try discriminate. apply reg_eqb_eq in H as ->. reflexivity. Qed.

Lemma sfb_facts e o x y : sfbOk e = Some (o, x, y) -> encodable e = true ->
  isR x = true /\ immOk y /\ (forall s : st, val s e = Some (evAr o (rd s x) (rd s y))) /\ (exists d, dstOf e = Some d) /\
  (forall r, In r (oreg x) \/ In r (oreg y) -> In r (uses e)).
Proof. clear opq.
  intros S EN. destruct e as [| | | | | |q d a b|q d a z| | | | | |]; try discriminate S; cbn [sfbOk] in S.
  - assert (Q : o = ARR q /\ x = a /\ y = b) by (destruct q; try discriminate S; injection S as <- <- <-; auto). destruct Q as (-> & -> & ->).
    cbn [encodable] in EN. bools. split; [assumption|]. split; [destruct b; [exact I|discriminate]|]. split; [reflexivity|].
    split; [eexists; reflexivity|]. intros r Hr. cbn [uses]. apply in_or_app. exact Hr.
  - assert (Q : o = ARI q /\ x = a /\ y = OI z I32) by (destruct q; try discriminate S; injection S as <- <- <-; auto). destruct Q as (-> & -> & ->).
    cbn [encodable] in EN. bools. assert (Iz : inR I32 z) by (destruct q; cbn [immFor] in *; unfold imm12 in *; cbn [inR bits]; lia).
    split; [assumption|]. split; [exact Iz|]. split; [intros s; cbn [val evAr]; rewrite (proj2 (opvI s z I32 Iz)); reflexivity|].
    split; [eexists; reflexivity|]. intros r [Hr | []]. exact Hr.
Qed.
Lemma pSfb_ok : patOk pSfb.
Proof.
  intros C n i n' l H D. unfold pSfb in H. destruct i as [| | | | | | | | | |c d a b cl cr| | |]; try discriminate H.
  pm. bools. destruct a as [q|]; [|discriminate]. pm. destruct (lkO C (OR q)) as [e|] eqn:L; [|discriminate].
  destruct (sfbOk e) as [[[o x] y]|] eqn:S; [|discriminate]. pm. pm.
  assert (x = b) as -> by (apply opnd_eqb_reg; assumption).
  assert (Ue : forall r, In r (oreg b) \/ In r (oreg y) -> In r (uses e)).
  { intros r Hr. destruct e as [| | | | | |p1 d1 a1 b1|p1 d1 a1 z1| | | | | |]; try discriminate S; cbn [sfbOk] in S; destruct p1; try discriminate S; injection S as <- <- <-; cbn [uses oreg] in *; rewrite ?in_app_iff; cbn [In] in *; tauto. }
  eapply fineV1; [reflexivity|reflexivity| | |].
  - intros r Hr. cbn [uses] in Hr |- *. rewrite !in_app_iff in Hr. destruct Hr as [Hr | [Hr | Hr]].
    + right. right. eapply lkO_use; [exact L|]. apply Ue. auto.
    + right. right. eapply lkO_use; [exact L|]. apply Ue. auto.
    + right. left. rewrite !in_app_iff. tauto.
  - intros P. okd P. destruct (HS q e L) as (_ & _ & (_ & EN1 & _) & _).
    assert (F : isR b = true /\ immOk y). { destruct (sfb_facts e o b y S EN1) as (? & ? & _). auto. }
    cbn [encodable] in EN. bools. destruct F as [F1 F2]. split; [|split; [benc|exact ND]]. split; [destruct b; [exact I|discriminate]|exact F2].
  - vs. destruct (HS q e L) as (_ & _ & (_ & EN1 & _) & _). destruct (sfb_facts e o b y S EN1) as (Rb & Iy & V & (d0 & Dd) & _). specialize (V s).
    rewrite (lkO_val n' C s _ _ d0 HS HD L Dd) in V. apply some_inj in V. cbn [val] in E |- *. rewrite <- E, V. reflexivity.
Qed.
Lemma pInvSel_ok : patOk pInvSel.
Proof.
  intros C n i n' l H D. unfold pInvSel in H. destruct i as [| | | | | | | | | |c d a b cl cr| | |]; try discriminate H.
  destruct cl as [q|]; [|discriminate]. destruct (lkO C (OR q)) as [[| | | | | | |[] m x z| | | | | |]|] eqn:L; try discriminate H.
  pm. pm. bools. destruct c; try discriminate. assert (z = 1) as -> by lia. cbn [defect] in D. rewrite L in D. cbn [andb Z.eqb Pos.eqb] in D.
  assert (Tx : oty x = B1) by (destruct (oty x); try discriminate D; reflexivity).
  eapply fineV1; [reflexivity|reflexivity| | |].
  - intros r Hr. cbn [uses] in Hr |- *. rewrite !in_app_iff in Hr. destruct Hr as [Hr | [Hr | [Hr | Hr]]].
    + right. left. rewrite !in_app_iff. tauto.
    + right. left. rewrite !in_app_iff. tauto.
    + right. right. eapply lkO_use; [exact L|]. exact Hr.
    + right. left. rewrite !in_app_iff. tauto.
  - intros P. okd P. cbn [encodable] in EN. bools. destruct WT. split; [split; assumption|]. split; [benc|exact ND].
  - vs. destruct (rdB s x Ws) as (xv & Ex & Hx); [assumption|]. rewrite Tx in Hx. cbn [inR] in Hx.
    pose proof (lkO_val n' C s _ _ m HS HD L eq_refl) as V. cbn [val evRI] in V. apply some_inj in V.
    cbn [val] in E |- *. rewrite <- E, <- V, (rd_zero s cr) by assumption. f_equal. rewrite Ex.
    assert (xv = 0 \/ xv = 1) as [-> | ->] by lia; reflexivity.
Qed.
Lemma imm12_s64 v : imm12 v = true -> B64 v.
Proof. clear opq. unfold imm12, B64. lia. Qed.
Lemma slli_li v z : u64 (s64 (v * 2 ^ z)) = Rv.SLLI (u64 v) z.
Proof. clear opq. unfold Rv.SLLI. rewrite u64_s64, u64_mul_u64_l. reflexivity. Qed.
Lemma s64_B x : B64 (s64 x).
Proof. clear opq. unfold B64, s64. lia. Qed.
Lemma lor_disjoint y v : 0 < v < 2048 -> Rv.ORI (u64 (y * 2 ^ 32)) v = u64 (u32 (u64 v) + u64 (y * 2 ^ 32)).
Proof. clear opq.
  intros H. unfold Rv.ORI. assert (Ev : u64 v = v) by (unfold u64; lia). assert (Eu : u32 v = v) by (unfold u32; lia). rewrite !Ev, Eu.
  assert (M : exists q, 0 <= q < 2 ^ 32 /\ u64 (y * 2 ^ 32) = q * 2 ^ 32).
  { exists (y mod 2 ^ 32). split; [apply Z.mod_pos_bound; lia|]. unfold u64. change 18446744073709551616 with (2 ^ 32 * 2 ^ 32). rewrite Z.mul_mod_distr_r by lia. reflexivity. }
  destruct M as (q & Hq & ->).
  assert (L0 : Z.land (q * 2 ^ 32) v = 0).
  { apply Z.bits_inj'. intros j Hj. rewrite Z.land_spec, Z.bits_0. destruct (Z_lt_ge_dec j 32).
    - rewrite Z.mul_pow2_bits_low by lia. reflexivity.
    - rewrite <- (Z.mod_small v (2 ^ 32)) by lia. rewrite Z.mod_pow2_bits_high by lia. apply andb_false_r. }
  rewrite <- Z.lxor_lor, <- Z.add_nocarry_lxor by exact L0. rewrite (Z.add_comm v). symmetry. apply Z.mod_small. change (2 ^ 32) with 4294967296 in *. lia.
Qed.
Lemma pConst_ok : patOk pConst.
Proof.
  intros C n i n' l H D. unfold pConst in H. destruct i as [| | | | | |o d a b|o d a z| | | | | |]; try discriminate H.
  - destruct o; try discriminate H. destruct (lkO C a) as [[| | | | | | | | |[] m k| | | |]|] eqn:L; try discriminate H.
    destruct (lkO C b) as [[| | | | | | |[] m2 y z2| | | | | |]|] eqn:L2; try discriminate H. pm. pm. bools. assert (z2 = 32) as -> by lia.
    v1.
    + intros P. okd P. destruct (lkO_inv n' C a _ m HS L eq_refl) as (_ & _ & _ & (_ & EN1 & _) & _). cbn [encodable] in EN, EN1. bools.
      split; [exact I|]. split; [benc|exact ND].
    + vs. destruct (lkO_inv n' C a _ m HS L eq_refl) as (_ & _ & _ & (_ & EN1 & _) & _). destruct (lkO_inv n' C b _ m2 HS L2 eq_refl) as (_ & _ & _ & (_ & EN2 & _) & _).
      pose proof (lkO_val n' C s _ _ m HS HD L eq_refl) as V. pose proof (lkO_val n' C s _ _ m2 HS HD L2 eq_refl) as V2.
      cbn [encodable immFor] in EN, EN1, EN2. bools. destruct (rdB s y Ws) as (yv & Ey & _); [assumption|].
      cbn [val evLi evRI evRR] in V, V2, E |- *. apply some_inj in V, V2, E. subst v. f_equal. rewrite <- V, <- V2, Ey.
      unfold Rv.SLLI. rewrite u64_mul_u64_l. apply lor_disjoint. unfold imm12 in *. lia.
  - destruct o; try discriminate H.
    + destruct a as [q|]; [|discriminate H].
      destruct (lkO C (OR q)) as [[| | | | | | | | |[] m k| | | |]|] eqn:L; try discriminate H. pm. pm.
      v1.
      * intros P. okd P. destruct (lkO_inv n' C _ _ m HS L eq_refl) as (_ & _ & _ & (_ & EN1 & _) & _). cbn [encodable immFor] in EN, EN1. bools.
        split; [exact I|]. split; [|exact ND]. cbn [encodable].
        assert (B : B64 (Z.lor k z)). { apply (inR_64 I64), inR_lor; cbn [inR bits]; unfold imm12 in *; lia. } unfold B64 in B. lia.
      * vs. pose proof (lkO_val n' C s _ _ m HS HD L eq_refl) as V. cbn [val evLi evRI] in V, E |- *. apply some_inj in V, E. subst v. f_equal.
        rewrite <- V. unfold Rv.ORI. apply u64_lor.
    + assert (G : forall o m k, lkO C a = Some (Li o m k) -> o <> LUI -> fineP n C (RI SLLI d a z) n [Li LoadImm64 d (s64 (k * 2 ^ z))]).
      { intros o m k L N. v1.
        - intros P. okd P. split; [exact I|]. split; [|exact ND]. cbn [encodable]. pose proof (s64_B (k * 2 ^ z)) as B. unfold B64 in B. lia.
        - vs. pose proof (lkO_val n C s _ _ m HS HD L eq_refl) as V. cbn [val evLi evRI] in V, E |- *. apply some_inj in V, E. subst v. f_equal.
          rewrite <- V. destruct o; try congruence; apply slli_li. }
      destruct a as [q|z1 t1]; [|discriminate H].
      destruct (lkO C (OR q)) as [[| | | | | | | | |[] m k| | | |]|] eqn:L; try discriminate H; [|pm]; pm; (eapply G; [reflexivity|discriminate]).
Qed.
End Pat.
