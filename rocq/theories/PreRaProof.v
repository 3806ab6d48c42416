(** C43: constants and selects expanded before register allocation keep their meaning. *)
From Coq Require Import ZArith List Bool Lia PeanoNat ZifyBool.
From Verif Require Import Word Rv64 CmpModel DivConst Sim Isel IselSem IselStep IselPat PreRa.
Import ListNotations.
Local Open Scope Z_scope.
Ltac Zify.zify_post_hook ::= Z.div_mod_to_equations.

(** ** arithmetic *)
Lemma ctzP_nonneg p : 0 <= ctzP p.
Proof. induction p; cbn [ctzP]; lia. Qed.
Lemma ctzP_div p : Z.pos p / 2 ^ ctzP p * 2 ^ ctzP p = Z.pos p.
Proof.
  assert (H : exists m, Z.pos p = m * 2 ^ ctzP p).
  { induction p as [p IH|p (m & IH)|]; cbn [ctzP]; [exists (Z.pos p~1); cbn; lia| |exists 1; reflexivity].
    exists m. rewrite Z.pow_add_r by (try apply ctzP_nonneg; lia). change (2 ^ 1) with 2. rewrite Pos2Z.inj_xO, IH. lia. }
  destruct H as (m & H). rewrite H at 1. rewrite Z.div_mul; [lia|]. apply Z.pow_nonzero; [lia|apply ctzP_nonneg].
Qed.
Lemma ctz_div z : z <> 0 -> z / 2 ^ ctz z * 2 ^ ctz z = z.
Proof.
  destruct z as [|p|p]; cbn [ctz]; intros H; [contradiction|apply ctzP_div|].
  pose proof (ctzP_div p) as D. assert (P : 2 ^ ctzP p <> 0) by (apply Z.pow_nonzero; [lia|apply ctzP_nonneg]).
  assert (E : Z.neg p = - (Z.pos p / 2 ^ ctzP p) * 2 ^ ctzP p) by (change (Z.neg p) with (- Z.pos p); lia).
  rewrite E at 1. rewrite Z.div_mul by exact P. symmetry. exact E.
Qed.
Lemma ctz_nonneg z : 0 <= ctz z.
Proof. destruct z; cbn [ctz]; try apply ctzP_nonneg; lia. Qed.
Lemma ctz_lt z : B64 z -> z <> 0 -> ctz z < 64.
Proof.
  unfold B64. intros B N. destruct (Z_lt_ge_dec (ctz z) 64) as [L|G]; [exact L|]. exfalso. pose proof (ctz_div z N) as D.
  assert (P : 2 ^ 64 <= 2 ^ ctz z) by (apply Z.pow_le_mono_r; lia). change (2 ^ 64) with 18446744073709551616 in P.
  set (q := z / 2 ^ ctz z) in *. set (m := 2 ^ ctz z) in *. assert (q <> 0) by (intros ->; lia). nia.
Qed.
Lemma lo12_spec v : lo12 v = (v + 2048) mod 4096 - 2048.
Proof.
  unfold lo12. change 4095 with (Z.ones 12). rewrite Z.land_ones by lia. change (2 ^ 12) with 4096. cbv zeta.
  destruct (2047 <? v mod 4096) eqn:E; lia.
Qed.
Lemma hi20_spec v : hi20 v = (s32 (v - lo12 v) / 4096) mod 1048576.
Proof. unfold hi20. change 1048575 with (Z.ones 20). rewrite Z.land_ones by lia. reflexivity. Qed.
Lemma lo12_range v : imm12 (lo12 v) = true.
Proof. rewrite lo12_spec. unfold imm12. lia. Qed.
Lemma hi20_range v : 0 <= hi20 v < 1048576.
Proof. rewrite hi20_spec. apply Z.mod_pos_bound. lia. Qed.
Lemma lui_addiw v : inR I32 v -> Rv.ADDIW (Rv.LUI (hi20 v)) (lo12 v) = u64 v.
Proof.
  intros H. unfold Rv.ADDIW, Rv.LUI. rewrite w_u64_addz. rewrite hi20_spec, lo12_spec. unfold Rv.w. f_equal.
  cbn [inR bits] in H. unfold s32. lia.
Qed.
Lemma lui_only v : inR I32 v -> lo12 v = 0 -> Rv.LUI (hi20 v) = u64 v.
Proof.
  intros H Z0. unfold Rv.LUI. rewrite hi20_spec, Z0. f_equal. rewrite lo12_spec in Z0. cbn [inR bits] in H. unfold s32. lia.
Qed.

(** ** straight-line code *)
Definition straight (i : inst) : bool := match dstOf i with Some _ => true | None => false end.
Section P.
Context {W : Type}.
Variable opq : nat -> list Z -> W -> W * (reg -> Z).
Variable term : nat -> list Z -> W -> option nat.
Notation st := (st W).
Notation exec := (exec opq).
Notation exec1 := (exec1 opq).

Lemma rd_set_same (s : st) d v : rid d <> 0%nat -> rd (set s d v) (OR d) = v.
Proof. intros H. cbn [rd]. rewrite (proj2 (Nat.eqb_neq _ _) H). apply set_same. Qed.
Lemma legLi_ok n d z n' l (s : st) : legLi n d z = (n', l) -> B64 z -> (rid d < n)%nat -> rid d <> 0%nat ->
  (n <= n')%nat /\ forallb straight l = true /\ (z <> 0 -> forallb encodable l = true) /\ exists s', exec l s = Some s' /\ agree n (set s d (u64 z)) s'.
Proof.
  intros H B Ld Nd. unfold legLi in H.
  assert (K1 : forall t v (u : st), agree n u (set u (Rg n t) v)). { intros t v u. split; [|split; reflexivity]. intros r Hr. symmetry. apply set_other. intros ->. cbn in Hr. lia. }
  assert (K2 : forall t v (u : st), agree n u (set u (Rg (S n) t) v)). { intros t v u. split; [|split; reflexivity]. intros r Hr. symmetry. apply set_other. intros ->. cbn in Hr. lia. }
  assert (KS : forall (u v : st) x, agree n u v -> agree n (set u d x) (set v d x)). { intros u v x (A & Bw & T). split; [|split; assumption]. intros r Hr. unfold set. cbn [R]. destruct (reg_eqb r d); [reflexivity|apply A, Hr]. }
  assert (T1 : forall t v (u : st), rd (set u (Rg n t) v) (OR (Rg n t)) = v) by (intros; apply rd_set_same; cbn; lia).
  assert (T2 : forall t v (u : st), rd (set u (Rg (S n) t) v) (OR (Rg (S n) t)) = v) by (intros; apply rd_set_same; cbn; lia).
  destruct (imm12 z) eqn:E12.
  { injection H as <- <-. split; [lia|]. split; [reflexivity|]. split; [intros Nz; cbn; rewrite E12; lia|]. eexists. split; [reflexivity|]. apply agree_refl. }
  assert (Nz : z <> 0) by (intros ->; discriminate E12).
  destruct (imm12 (z / 2 ^ ctz z)) eqn:Es.
  { injection H as <- <-. split; [lia|]. split; [reflexivity|]. pose proof (ctz_div z Nz) as D. split.
    - intros _. cbn [forallb encodable isR immFor]. rewrite Es. pose proof (ctz_nonneg z). pose proof (ctz_lt z B Nz).
      assert (z / 2 ^ ctz z <> 0) by (intros Q; rewrite Q in D; lia). lia.
    - eexists. split; [reflexivity|]. cbn [evLi evRI]. rewrite T1. replace (Rv.SLLI (u64 (z / 2 ^ ctz z)) (ctz z)) with (u64 z); [apply KS, K1|].
      unfold Rv.SLLI. rewrite u64_mul_u64_l, D. reflexivity. }
  destruct ((-2147483648 <=? z) && (z <? 2147483648)) eqn:E32.
  { assert (Hz : inR I32 z) by (cbn [inR bits]; lia). destruct (lo12 z =? 0) eqn:E0; injection H as <- <-.
    - split; [lia|]. split; [reflexivity|]. split; [intros _; cbn; pose proof (hi20_range z); lia|]. eexists. split; [reflexivity|]. cbn [evLi].
      rewrite lui_only by (auto; lia). apply agree_refl.
    - split; [lia|]. split; [reflexivity|]. split; [intros _; cbn [forallb encodable isR immFor]; rewrite lo12_range; pose proof (hi20_range z); lia|].
      eexists. split; [reflexivity|]. cbn [evLi evRI]. rewrite T1, lui_addiw by exact Hz. apply KS, K1. }
  destruct ((0 <=? z) && (z <? 4294967296)) eqn:U32.
  { assert (Hz : inR I32 (s32 z)) by (cbn [inR bits]; unfold s32; lia). assert (Zx : Rv.ZEXT_W (u64 (s32 z)) = u64 z) by (unfold Rv.ZEXT_W, u32, u64, s32; lia).
    destruct (lo12 (s32 z) =? 0) eqn:E0; injection H as <- <-.
    - split; [lia|]. split; [reflexivity|]. split; [intros _; cbn; pose proof (hi20_range (s32 z)); lia|]. eexists. split; [reflexivity|]. cbn [evLi evR1].
      rewrite T1, lui_only, Zx by (auto; lia). apply KS, K1.
    - split; [lia|]. split; [reflexivity|]. split; [intros _; cbn [forallb encodable isR immFor]; rewrite lo12_range; pose proof (hi20_range (s32 z)); lia|].
      eexists. split; [reflexivity|]. cbn [evLi evRI evR1]. rewrite T2, T1, lui_addiw, Zx by exact Hz. apply KS. eapply agree_trans; [apply K2|apply K1]. }
  set (hi := z / 4294967296) in *. set (lo := z - hi * 4294967296) in *. cbv zeta in H.
  destruct (imm12 hi && imm12 lo) eqn:Eh; injection H as <- <-.
  - split; [lia|]. split; [reflexivity|]. apply andb_prop in Eh as [Eh El]. split.
    + intros _. cbn [forallb encodable isR immFor]. rewrite Eh, El. subst hi lo. lia.
    + eexists. split; [reflexivity|]. cbn [evLi evRI]. rewrite T1, T2. unfold Rv.SLLI, Rv.ADDI. replace (u64 (u64 (u64 hi * 2 ^ 32) + lo)) with (u64 z).
      * apply KS. eapply agree_trans; [apply K1|apply K2].
      * change (2 ^ 32) with 4294967296. subst lo. unfold u64. lia.
  - split; [lia|]. split; [reflexivity|]. split; [intros _; cbn; unfold B64 in B; lia|]. eexists. split; [reflexivity|]. apply agree_refl.
Qed.

(** ** the simulation *)
Definition okI (n0 : nat) (i : inst) : Prop :=
  below n0 i /\ (forall r, In r (defs i) -> rid r <> 0%nat) /\
  match i with
  | SelG _ d _ b l r => ~ In d (oreg b ++ oreg l ++ oreg r)
  | SelA _ _ d _ b l r => ~ In d (oreg b ++ oreg l ++ oreg r) /\ immB b
  | Li _ _ z => B64 z
  | _ => True
  end.
Definition okP (n0 : nat) (p : pin) : Prop :=
  match p with PI i => okI n0 i | PJ _ => True | PT _ us _ => forall r, In r (flat_map oreg us) -> (rid r < n0)%nat end.
Definition okB (n0 : nat) (b : blk) : Prop := (fst b < n0)%nat /\ Forall (okP n0) (snd b).

Lemma exec1_agree' n i s t s' : below n i -> agree n s t -> exec1 i s = Some s' -> exists t', exec1 i t = Some t' /\ agree n s' t'.
Proof.
  intros B (A & AW & AT) E. assert (U : sameOn (uses i) s t) by (intros r Hr; apply A, B, in_regs_use, Hr).
  destruct (dstOf i) as [d|] eqn:D.
  - rewrite (exec1_val opq i d) in E by exact D. rewrite (exec1_val opq i d) by exact D. rewrite <- (val_same i s t U).
    destruct (val s i) as [v|]; [|discriminate]. injection E as <-. eexists. split; [reflexivity|]. split; [|split; assumption].
    intros r Hr. unfold set. cbn [R]. destruct (reg_eqb r d); [reflexivity|apply A, Hr].
  - destruct i; try discriminate D; cbn [uses] in U; cbn [Isel.exec1] in E |- *.
    + injection E as <-. eexists. split; [reflexivity|]. rewrite (rd_same _ _ _ U). unfold take. destruct (negb _); (split; [exact A|split; [exact AW|]]); cbn [Tk]; congruence.
    + injection E as <-. eexists. split; [reflexivity|]. apply same_app in U as [U1 U2]. rewrite (rd_same _ _ _ U1), (rd_same _ _ _ U2). unfold take. destruct (cmpV _ _ _); (split; [exact A|split; [exact AW|]]); cbn [Tk]; congruence.
    + rewrite <- (map_rd_same _ _ _ U), <- AW. destruct (opq k (map (rd s) us) (Wd s)) as [w f]. injection E as <-. eexists. split; [reflexivity|].
      split; [|split; cbn [Wd Tk sets]; auto]. intros r Hr. cbn [R sets]. destruct (existsb _ _); [reflexivity|apply A, Hr].
Qed.
Variable g : list blk.
Notation gstep := (pstep opq term g).
Lemma step_straight i q rest s : straight i = true -> gstep (PI i :: q, rest, s) = match exec1 i s with Some s' => Go (q, rest, s') [] | None => Bad [] end.
Proof. unfold straight. destruct i; cbn [dstOf]; intros H; try discriminate H; reflexivity. Qed.
Lemma run1 {S E F} (step : S -> sres S E F) x y : step x = Go y [] -> run step 1 x = Go y [].
Proof. intros H. cbn [run]. rewrite H. reflexivity. Qed.
Lemma run_trans {S E F} (step : S -> sres S E F) n m x y z : run step n x = Go y [] -> run step m y = Go z [] -> run step (n + m) x = Go z [].
Proof. intros A B. rewrite run_add, A, B. reflexivity. Qed.
Lemma line l : forall q rest s s', forallb straight l = true -> exec l s = Some s' -> run gstep (length l) (map PI l ++ q, rest, s) = Go (q, rest, s') [].
Proof.
  induction l as [|i l IH]; intros q rest s s' St E; cbn [map app length forallb Isel.exec] in *; [injection E as <-; reflexivity|].
  apply andb_prop in St as [St1 St2]. destruct (exec1 i s) as [s1|] eqn:E1; [|discriminate].
  apply (run_trans gstep 1 (length l) _ (map PI l ++ q, rest, s1)); [|apply IH; assumption]. apply run1. rewrite step_straight by exact St1. rewrite E1. reflexivity.
Qed.

Lemma agree_set n (s t : st) d v : agree n s t -> agree n (set s d v) (set t d v).
Proof. intros (A & Bw & T). split; [|split; assumption]. intros r Hr. unfold set. cbn [R]. destruct (reg_eqb r d); [reflexivity|apply A, Hr]. Qed.
Lemma agree_down n m (s t : st) : (n <= m)%nat -> agree m s t -> agree n s t.
Proof. intros L (A & Bw & T). split; [|split; assumption]. intros r Hr. apply A. lia. Qed.
(** one legalized instruction that stays in its block *)
Lemma leg1_ok n0 n i n' l s t s' d : leg1 n i = (n', l) -> okI n0 i -> (n0 <= n)%nat -> dstOf i = Some d -> agree n0 s t -> exec1 i s = Some s' ->
  (n <= n')%nat /\ forallb straight l = true /\ exists t', exec l t = Some t' /\ agree n0 s' t'.
Proof.
  intros H (B & ND & K) L D A E.
  assert (Def : (n', l) = (n, [i]) -> (n <= n')%nat /\ forallb straight l = true /\ exists t', exec l t = Some t' /\ agree n0 s' t').
  { intros Q. injection Q as -> ->. split; [lia|]. split; [cbn [forallb]; unfold straight; rewrite D; reflexivity|].
    destruct (exec1_agree' n0 i s t s' B A E) as (t' & Et & At). exists t'. cbn [Isel.exec]. rewrite Et. auto. }
  assert (LI : forall z, i = Li LoadImm32 d z \/ i = Li LoadImm64 d z -> legLi n d z = (n', l) -> B64 z -> (n <= n')%nat /\ forallb straight l = true /\ exists t', exec l t = Some t' /\ agree n0 s' t').
  { intros z Hi Hl Bz. assert (Dd : In d (defs i)) by (rewrite (defs_dst _ _ D); left; reflexivity).
    assert (Ld : (rid d < n0)%nat) by (apply B, in_regs_def, Dd).
    destruct (legLi_ok n d z n' l t Hl Bz) as (A1 & A2 & _ & t' & Et & At); [lia|apply ND, Dd|].
    split; [exact A1|]. split; [exact A2|]. exists t'. split; [exact Et|]. assert (s' = set s d (u64 z)) as -> by (destruct Hi as [-> | ->]; cbn in E; congruence).
    eapply agree_trans; [apply agree_set, A|]. apply (agree_down n0 n); assumption. }
  destruct i; try (apply Def; symmetry; exact H). cbn [leg1] in H. cbn [dstOf] in D. injection D as ->.
  destruct o; try (apply Def; symmetry; exact H); apply (LI z); auto.
Qed.
Lemma high20_val z v : high20 z = Some v -> Rv.LUI v = u64 z /\ 0 <= v < 1048576.
Proof.
  unfold high20. destruct (negb (z =? 0) && (s32 (Z.land (z / 4096) 1048575 * 4096) =? z)) eqn:E; [|discriminate]. intros H. injection H as <-.
  change 1048575 with (Z.ones 20) in *. rewrite Z.land_ones in * by lia. change (2 ^ 20) with 1048576 in *. split; [|lia]. unfold Rv.LUI. f_equal. lia.
Qed.
Lemma moveTo_ok n0 d o m : moveTo d o = Some m -> (rid d < n0)%nat -> rid d <> 0%nat -> (forall r, In r (oreg o) -> (rid r < n0)%nat) ->
  okI n0 m /\ dstOf m = Some d /\ forall s, exec1 m s = Some (set s d (rd s o)).
Proof.
  intros H Ld Nd Lo. unfold moveTo in H.
  assert (Db : forall r, In r [d] -> (rid r < n0)%nat) by (intros r [<- | []]; exact Ld).
  assert (Dn : forall r, In r [d] -> rid r <> 0%nat) by (intros r [<- | []]; exact Nd).
  destruct o as [q|z t].
  - injection H as <-. split; [|split; reflexivity]. split; [|split; [exact Dn|exact I]]. intros r Hr. apply in_app_or in Hr as [Hr | Hr]; auto.
  - destruct (z =? 0) eqn:Z0.
    { injection H as <-. split; [|split; [reflexivity|]].
      - split; [|split; [exact Dn|exact I]]. intros r Hr. apply in_app_or in Hr as [Hr | Hr]; [|auto]. cbn in Hr. destruct Hr as [<- | []]. cbn. lia.
      - intros s. assert (z = 0) as -> by lia. reflexivity. }
    destruct (imm12 z) eqn:Z1.
    { injection H as <-. split; [|split; reflexivity]. split; [|split; [exact Dn|unfold imm12, B64 in *; lia]]. intros r Hr. apply in_app_or in Hr as [[] | Hr]; auto. }
    destruct (high20 z) as [v|] eqn:Hh.
    { injection H as <-. destruct (high20_val z v Hh) as [V Hv]. split; [|split; [reflexivity|]].
      - split; [|split; [exact Dn|unfold B64; lia]]. intros r Hr. apply in_app_or in Hr as [[] | Hr]; auto.
      - intros s. cbn [Isel.exec1 evLi rd]. rewrite V. reflexivity. }
    destruct (imm32 z) eqn:Z3; [|discriminate]. injection H as <-. split; [|split; reflexivity]. split; [|split; [exact Dn|unfold imm32, B64 in *; lia]].
    intros r Hr. apply in_app_or in Hr as [[] | Hr]; auto.
Qed.
End P.

(** ** the shape of the output *)
Lemma leg1_le n i n' l : leg1 n i = (n', l) -> (n <= n')%nat /\ l <> [].
Proof.
  assert (G : forall d z, legLi n d z = (n', l) -> (n <= n')%nat /\ l <> []).
  { intros d z. unfold legLi. repeat match goal with |- context [if ?c then _ else _] => destruct c end; cbv zeta; intros H; injection H as <- <-; (split; [lia|discriminate]). }
  destruct i; cbn [leg1]; try (intros H; injection H as <- <-; (split; [lia|discriminate])).
  destruct o; try (intros H; injection H as <- <-; (split; [lia|discriminate])); apply G.
Qed.
(** the three shapes of a legalized instruction *)
Lemma legC_inv x q n c' bs n3 : legC (x :: q) n = Some (c', bs, n3) ->
  (exists cc d a b l r ma mb n1 la n2 lb cq bq, x = PI (SelG cc d a b l r) /\ moveTo d a = Some ma /\ moveTo d b = Some mb /\
     leg1 (S (S n)) ma = (n1, la) /\ leg1 n1 mb = (n2, lb) /\ legC q n2 = Some (cq, bq, n3) /\
     c' = PI (R1 MoveGPR d (OR d)) :: map PI la ++ [PI (BrR cc l r (S n))] /\ bs = (n, map PI lb ++ [PJ (S n)]) :: (S n, cq) :: bq) \/
  (exists o cc d a b l r i cq bq, x = PI (SelA o cc d a b l r) /\ arInst o d (OR d) b = Some i /\ legC q (S (S n)) = Some (cq, bq, n3) /\
     c' = [PI (R1 MoveGPR d (OR d)); PI (R1 MoveGPR d a); PI (BrR (invI cc) (viaDst d a l) (viaDst d a r) (S n))] /\
     bs = (n, [PI i; PJ (S n)]) :: (S n, cq) :: bq) \/
  (exists i n1 l cq, x = PI i /\ leg1 n i = (n1, l) /\ legC q n1 = Some (cq, bs, n3) /\ c' = map PI l ++ cq /\
     match i with SelG _ _ _ _ _ _ | SelA _ _ _ _ _ _ _ => False | _ => True end) \/
  (exists cq, legC q n = Some (cq, bs, n3) /\ c' = x :: cq /\ match x with PI _ => False | _ => True end).
Proof.
  intros H. destruct x as [i|k|t us ls].
  2,3: right; right; right; cbn [legC] in H; destruct (legC q n) as [[[cq bq] n2]|]; [|discriminate]; injection H as <- <- <-; exists cq; auto.
  assert (G : match i with SelG _ _ _ _ _ _ | SelA _ _ _ _ _ _ _ => False | _ => True end ->
    (let '(n1, l) := leg1 n i in match legC q n1 with Some (c', bs, n2) => Some (map PI l ++ c', bs, n2) | None => None end) = Some (c', bs, n3) ->
    exists i0 n1 l cq, PI i = PI i0 /\ leg1 n i0 = (n1, l) /\ legC q n1 = Some (cq, bs, n3) /\ c' = map PI l ++ cq /\
     match i0 with SelG _ _ _ _ _ _ | SelA _ _ _ _ _ _ _ => False | _ => True end).
  { intros K E. destruct (leg1 n i) as [n1 l] eqn:El. destruct (legC q n1) as [[[cq bq] n2]|] eqn:Eq; [|discriminate]. injection E as <- <- <-.
    exists i, n1, l, cq. auto. }
  destruct i; try (right; right; left; apply G; [exact I|exact H]).
  - left. cbn [legC] in H. destruct (moveTo d a) as [ma|] eqn:Ea; [|discriminate]. destruct (moveTo d b) as [mb|] eqn:Eb; [|discriminate].
    destruct (leg1 (S (S n)) ma) as [n1 la] eqn:Ela. destruct (leg1 n1 mb) as [n2 lb] eqn:Elb. destruct (legC q n2) as [[[cq bq] n4]|] eqn:Eq; [|discriminate].
    injection H as <- <- <-. exists c, d, a, b, l, r, ma, mb, n1, la, n2, lb, cq, bq. repeat (split; [first [reflexivity|assumption]|]). reflexivity.
  - right; left. cbn [legC] in H. destruct (arInst o d (OR d) b) as [i|] eqn:Ei; [|discriminate]. destruct (legC q (S (S n))) as [[[cq bq] n4]|] eqn:Eq; [|discriminate].
    injection H as <- <- <-. exists o, c, d, a, b, l, r, i, cq, bq. repeat (split; [first [reflexivity|assumption]|]). reflexivity.
Qed.
Lemma legC_labels c : forall n c' bs n1, legC c n = Some (c', bs, n1) ->
  (n <= n1)%nat /\ (forall k, In k (map fst bs) -> (n <= k < n1)%nat) /\ NoDup (map fst bs).
Proof.
  induction c as [|x q IH]; intros n c' bs n1 H.
  { injection H as <- <- <-. split; [lia|]. split; [intros k []|constructor]. }
  assert (Two : forall m cq bq x y, legC q m = Some (cq, bq, n1) -> (S (S n) <= m)%nat -> bs = (n, x) :: (S n, y) :: bq ->
    (n <= n1)%nat /\ (forall k, In k (map fst bs) -> (n <= k < n1)%nat) /\ NoDup (map fst bs)).
  { intros m cq bq x0 y0 Hq Lm ->. destruct (IH _ _ _ _ Hq) as (A & B & C). split; [lia|]. split.
    - cbn [map fst In]. intros k [<- | [<- | Hk]]; [lia|lia|]. apply B in Hk. lia.
    - cbn [map fst]. constructor; [intros [Q | Q]; [lia|apply B in Q; lia]|]. constructor; [intros Q; apply B in Q; lia|exact C]. }
  destruct (legC_inv _ _ _ _ _ _ H) as [K | [K | [K | K]]].
  - destruct K as (cc & d & a & b & l & r & ma & mb & m1 & la & m2 & lb & cq & bq & -> & Ea & Eb & Ela & Elb & Eq & -> & Bs).
    apply leg1_le in Ela as [La _]. apply leg1_le in Elb as [Lb _]. apply (Two _ _ _ _ _ Eq ltac:(lia) Bs).
  - destruct K as (o & cc & d & a & b & l & r & i & cq & bq & -> & Ei & Eq & -> & Bs). apply (Two _ _ _ _ _ Eq ltac:(lia) Bs).
  - destruct K as (i & m & l & cq & -> & El & Eq & -> & _). apply leg1_le in El as [L _]. destruct (IH _ _ _ _ Eq) as (A & B & C).
    split; [lia|]. split; [|exact C]. intros k Hk. apply B in Hk. lia.
  - destruct K as (cq & Eq & -> & _). exact (IH _ _ _ _ Eq).
Qed.
Lemma NoDup_app_i {A} (a b : list A) : NoDup a -> NoDup b -> (forall x, In x a -> ~ In x b) -> NoDup (a ++ b).
Proof.
  induction a as [|x a IH]; intros Na Nb D; [exact Nb|]. inversion Na as [|? ? Nx Na']; subst. cbn. constructor.
  - intros H. apply in_app_or in H as [H | H]; [exact (Nx H)|]. exact (D x (or_introl eq_refl) H).
  - apply IH; auto. intros y Hy. apply D. right. exact Hy.
Qed.
Lemma legF_labels n0 f : forall n g n2, legF f n = Some (g, n2) -> (n0 <= n)%nat -> NoDup (map fst f) -> (forall k, In k (map fst f) -> (k < n0)%nat) ->
  (n <= n2)%nat /\ NoDup (map fst g) /\ (forall k, In k (map fst g) -> In k (map fst f) \/ (n <= k < n2)%nat).
Proof.
  induction f as [|[k c] f IH]; intros n g n2 H L ND Lo; cbn [legF] in H.
  { injection H as <- <-. split; [lia|]. split; [constructor|intros k []]. }
  destruct (legC c n) as [[[c' bs] n1]|] eqn:Ec; [|discriminate]. destruct (legF f n1) as [[g' m]|] eqn:Ef; [|discriminate]. injection H as <- <-.
  destruct (legC_labels _ _ _ _ _ Ec) as (A & B & C). cbn [map fst] in ND, Lo. apply NoDup_cons_iff in ND as [Nk ND].
  assert (Lk : (k < n0)%nat) by (apply Lo; left; reflexivity). assert (Lf : forall j, In j (map fst f) -> (j < n0)%nat) by (intros j Hj; apply Lo; right; exact Hj).
  destruct (IH _ _ _ Ef ltac:(lia) ND Lf) as (A' & B' & C').
  split; [lia|]. cbn [map fst]. rewrite map_app. split.
  - constructor.
    + intros Q. apply in_app_or in Q as [Q | Q]; [apply B in Q; lia|]. apply C' in Q as [Q | Q]; [exact (Nk Q)|lia].
    + apply NoDup_app_i; auto. intros x Hx Hy. apply B in Hx. apply C' in Hy as [Hy | Hy]; [apply Lf in Hy; lia|lia].
  - intros j [<- | Hj]; [left; left; reflexivity|]. apply in_app_or in Hj as [Hj | Hj]; [apply B in Hj; lia|]. apply C' in Hj as [Hj | Hj]; [left; right; exact Hj|lia].
Qed.
Lemma goto_skip k a b : ~ In k (map fst a) -> goto k (a ++ b) = goto k b.
Proof.
  induction a as [|[j c] a IH]; intros H; [reflexivity|]. cbn [app goto map fst In] in *. destruct (Nat.eqb_spec j k) as [-> | N]; [exfalso; apply H; left; reflexivity|].
  apply IH. intros Q. apply H. right. exact Q.
Qed.
Lemma goto_in k f c q : goto k f = Some (c, q) -> exists p, f = p ++ (k, c) :: q.
Proof.
  induction f as [|[j x] f IH]; cbn [goto]; intros H; [discriminate|]. destruct (Nat.eqb_spec j k) as [-> | N].
  - injection H as <- <-. exists []. reflexivity.
  - destruct (IH H) as (p & ->). exists ((j, x) :: p). reflexivity.
Qed.
Lemma legF_goto n0 k f : forall n g n2 c q, legF f n = Some (g, n2) -> (n0 <= n)%nat -> (forall j, In j (map fst f) -> (j < n0)%nat) -> goto k f = Some (c, q) ->
  exists m c' bs m1 rs, legC c m = Some (c', bs, m1) /\ legF q m1 = Some (rs, n2) /\ goto k g = Some (c', bs ++ rs) /\ (n <= m)%nat /\ exists pref, g = pref ++ (bs ++ rs).
Proof.
  induction f as [|[j x] f IH]; intros n g n2 c q H L Lo G; [discriminate|]. cbn [legF goto] in *.
  destruct (legC x n) as [[[c' bs] n1]|] eqn:Ec; [|discriminate]. destruct (legF f n1) as [[g' m]|] eqn:Ef; [|discriminate]. injection H as <- <-.
  destruct (legC_labels _ _ _ _ _ Ec) as (A & B & C). cbn [goto]. destruct (Nat.eqb_spec j k) as [-> | N].
  - injection G as <- <-. exists n, c', bs, n1, g'. repeat (split; [first [assumption|reflexivity|lia]|]). exists [(k, c')]. reflexivity.
  - destruct (IH _ _ _ _ _ Ef ltac:(lia) ltac:(intros i Hi; apply Lo; right; exact Hi) G) as (m' & c1 & bs1 & m1 & rs & E1 & E2 & E3 & E4 & pref & E5).
    exists m', c1, bs1, m1, rs. split; [exact E1|]. split; [exact E2|]. split.
    + rewrite goto_skip; [exact E3|]. intros Q. apply B in Q. destruct (goto_in _ _ _ _ G) as (p & ->).
      assert (k < n0)%nat by (apply Lo; right; rewrite map_app; apply in_or_app; right; left; reflexivity). lia.
    + split; [lia|]. exists ((j, c') :: bs ++ pref). cbn [app]. rewrite E5, <- !app_assoc. reflexivity.
Qed.
