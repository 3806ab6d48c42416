(** C43: pre-allocation legalization of RISC-V code — statements.

    A function is a list of labelled blocks in layout order; [pstep opq term f] is one instruction of the machine of
    Isel.v, with jumps and fall-through; [opq] and [term] are arbitrary meanings for everything that is not integer
    arithmetic and for the terminators.  Events: the world after every opaque instruction.  [refinesAt] (Sim.v): same
    result, same events, terminates iff, and never gets stuck. *)
From Coq Require Import ZArith List Bool Lia PeanoNat ZifyBool.
From Verif Require Import Word Rv64 CmpModel DivConst Sim Isel IselSem IselStep IselPat PreRa PreRaProof PreRaSim.
Import ListNotations.
Local Open Scope Z_scope.

(** ** specification *)
(** a function the legalizer is given: labels distinct, labels and registers below the fresh numbers, x0 never written,
    and a select does not overwrite one of its own operands before reading it (the code is in SSA form) *)
Definition wellFormed (n0 : nat) (f : list blk) : Prop := (0 < n0)%nat /\ NoDup (map fst f) /\ Forall (okB n0) f.
(** instructions no encoding exists for *)
Definition pseudo (i : inst) : bool :=
  match i with SelG _ _ _ _ _ _ | SelA _ _ _ _ _ _ _ | Li LoadImm32 _ _ => true | _ => false end.
Definition every (P : inst -> Prop) (f : list blk) : Prop := forall k c i, In (k, c) f -> In (PI i) c -> P i.
(** operands the selector produces for selects: 32-bit constants *)
Definition operandsOk (i : inst) : Prop :=
  match i with
  | SelG _ _ a b _ _ => (forall z t, a = OI z t \/ b = OI z t -> imm32 z = true)
  | SelA (ARI o) _ _ _ b _ _ => exists z t, b = OI z t /\ immFor o z = true
  | SelA (ARR _) _ _ _ b _ _ => isR b = true
  | Li _ _ z => z <> 0 /\ B64 z
  | _ => True
  end.

(** ** theorems *)
(** The legalized function does what the function did. *)
Theorem C43_legalization_preserves : forall W (opq : nat -> list Z -> W -> W * (reg -> Z)) term f n0 g N (s : st W),
  wellFormed n0 f -> legF f n0 = Some (g, N) ->
  refinesAt (pstep opq term f) (pstep opq term g) (start f s) (start g s).
Proof. intros W opq term f n0 g N s (A & B & C) H. exact (refine_ok opq term f g n0 N H B C A s). Qed.

(** Every 64-bit constant is loaded by at most three instructions, and only scratch registers change besides. *)
Theorem C43_constants : forall W (opq : nat -> list Z -> W -> W * (reg -> Z)) n d z n' l (s : st W),
  B64 z -> (0 < rid d < n)%nat -> legLi n d z = (n', l) ->
  (length l <= 3)%nat /\ (z <> 0 -> forallb encodable l = true) /\
  exists s', exec opq l s = Some s' /\ s64 (R s' d) = z /\ (forall r, (rid r < n)%nat -> r <> d -> R s' r = R s r) /\ Wd s' = Wd s /\ Tk s' = Tk s.
Proof.
  intros W opq n d z n' l s B Hd H. split.
  { unfold legLi in H. repeat match type of H with context [if ?c then _ else _] => destruct c end; cbv zeta in H; injection H as <- <-; cbn; lia. }
  destruct (legLi_ok opq (fun _ _ _ => None) n d z n' l s H B) as (_ & _ & En & s' & E & A & Aw & At); [lia|lia|]. split; [exact En|].
  exists s'. split; [exact E|]. split; [|split; [|split]].
  - rewrite <- A by lia. rewrite set_same. apply s64_u64, B.
  - intros r Hr Nr. rewrite <- A by exact Hr. apply set_other, Nr.
  - symmetry. exact Aw.
  - symmetry. exact At.
Qed.

Lemma leg_every (Q P : inst -> Prop) :
  (forall n i n' l, leg1 n i = (n', l) -> Q i -> match i with SelG _ _ _ _ _ _ | SelA _ _ _ _ _ _ _ => False | _ => True end -> Forall P l) ->
  (forall cc d a b l r k, Q (SelG cc d a b l r) -> P (R1 MoveGPR d (OR d)) /\ P (BrR cc l r k) /\
     (forall o m, moveTo d o = Some m -> o = a \/ o = b -> forall n n' l, leg1 n m = (n', l) -> Forall P l)) ->
  (forall o cc d a b l r i k, Q (SelA o cc d a b l r) -> arInst o d (OR d) b = Some i ->
     P (R1 MoveGPR d (OR d)) /\ P (R1 MoveGPR d a) /\ P (BrR (invI cc) (viaDst d a l) (viaDst d a r) k) /\ P i) ->
  forall f n g N, legF f n = Some (g, N) -> every Q f -> every P g.
Proof.
  intros H1 H2 H3.
  assert (Pl : forall l i, In (PI i) (map PI l) -> Forall P l -> P i).
  { intros l i Hi Hl. apply in_map_iff in Hi as (j & E & Hj). injection E as ->. rewrite Forall_forall in Hl. auto. }
  assert (C : forall c n c' bs n1, legC c n = Some (c', bs, n1) -> (forall i, In (PI i) c -> Q i) -> (forall i, In (PI i) c' -> P i) /\ every P bs).
  { induction c as [|x q IH]; intros n c' bs n1 H HQ.
    { injection H as <- <- <-. split; [intros i []|intros k c i []]. }
    assert (HQq : forall i, In (PI i) q -> Q i) by (intros i Hi; apply HQ; right; exact Hi).
    destruct (legC_inv _ _ _ _ _ _ H) as [K | [K | [K | K]]].
    - destruct K as (cc & d & a & b & l & r & ma & mb & m1 & la & m2 & lb & cq & bq & -> & Ea & Eb & Ela & Elb & Eq & -> & ->).
      destruct (H2 cc d a b l r (S n) (HQ _ (or_introl eq_refl))) as (P1 & P2 & P3). destruct (IH _ _ _ _ Eq HQq) as [C1 C2]. split.
      + intros i [E | Hi]; [injection E as <-; exact P1|]. apply in_app_or in Hi as [Hi | [E | []]]; [apply (Pl la i Hi), (P3 a ma Ea (or_introl eq_refl) _ _ _ Ela)|injection E as <-; exact P2].
      + intros k c i [E | [E | Hk]] Hi.
        * injection E as <- <-. apply in_app_or in Hi as [Hi | [E | []]]; [apply (Pl lb i Hi), (P3 b mb Eb (or_intror eq_refl) _ _ _ Elb)|discriminate E].
        * injection E as <- <-. apply C1, Hi.
        * exact (C2 k c i Hk Hi).
    - destruct K as (o & cc & d & a & b & l & r & j & cq & bq & -> & Ei & Eq & -> & ->).
      destruct (H3 o cc d a b l r j (S n) (HQ _ (or_introl eq_refl)) Ei) as (P1 & P2 & P3 & P4). destruct (IH _ _ _ _ Eq HQq) as [C1 C2]. split.
      + intros i [E | [E | [E | []]]]; injection E as <-; assumption.
      + intros k c i [E | [E | Hk]] Hi.
        * injection E as <- <-. destruct Hi as [E | [E | []]]; [injection E as <-; exact P4|discriminate E].
        * injection E as <- <-. apply C1, Hi.
        * exact (C2 k c i Hk Hi).
    - destruct K as (j & m & l & cq & -> & El & Eq & -> & Ns). destruct (IH _ _ _ _ Eq HQq) as [C1 C2]. split; [|exact C2].
      intros i Hi. apply in_app_or in Hi as [Hi | Hi]; [|exact (C1 i Hi)]. apply (Pl l i Hi), (H1 _ _ _ _ El); [apply HQ; left; reflexivity|exact Ns].
    - destruct K as (cq & Eq & -> & Nx). destruct (IH _ _ _ _ Eq HQq) as [C1 C2]. split; [|exact C2].
      intros i [-> | Hi]; [contradiction|exact (C1 i Hi)]. }
  induction f as [|[k c] f IH]; intros n g N H HQ; cbn [legF] in H.
  - injection H as <- <-. intros k c i [].
  - destruct (legC c n) as [[[c' bs] n1]|] eqn:Ec; [|discriminate]. destruct (legF f n1) as [[g' n2]|] eqn:Ef; [|discriminate]. injection H as <- <-.
    destruct (C _ _ _ _ _ Ec) as [C1 C2]. { intros i Hi. apply (HQ k c i); [left; reflexivity|exact Hi]. }
    intros k' x i [E | Hx] Hi; [injection E as <- <-; exact (C1 i Hi)|]. apply in_app_or in Hx as [Hx | Hx]; [exact (C2 k' x i Hx Hi)|].
    apply (IH _ _ _ Ef) with (k := k') (c := x); auto. intros k2 c2 i2 H2' Hi2. apply (HQ k2 c2 i2); [right; exact H2'|exact Hi2].
Qed.
Lemma legLi_real n d z n' l : legLi n d z = (n', l) -> Forall (fun i => pseudo i = false) l.
Proof. unfold legLi. repeat match goal with |- context [if ?c then _ else _] => destruct c end; cbv zeta; intros H; injection H as <- <-; repeat constructor. Qed.
Lemma leg1_real n i n' l : leg1 n i = (n', l) -> match i with SelG _ _ _ _ _ _ | SelA _ _ _ _ _ _ _ => False | _ => True end -> Forall (fun i => pseudo i = false) l.
Proof.
  intros H Ns. destruct i; cbn [leg1] in H; try contradiction; try (injection H as <- <-; repeat constructor).
  destruct o; try (injection H as <- <-; repeat constructor); eapply legLi_real; eassumption.
Qed.
Lemma moveTo_plain d o m : moveTo d o = Some m -> match m with SelG _ _ _ _ _ _ | SelA _ _ _ _ _ _ _ => False | _ => True end.
Proof.
  unfold moveTo. destruct o as [r|z t]; [intros H; injection H as <-; exact I|].
  destruct (z =? 0); [intros H; injection H as <-; exact I|]. destruct (imm12 z); [intros H; injection H as <-; exact I|].
  destruct (high20 z); [intros H; injection H as <-; exact I|]. destruct (imm32 z); [intros H; injection H as <-; exact I|discriminate].
Qed.
Lemma arInst_real o d a b i : arInst o d a b = Some i -> pseudo i = false.
Proof. unfold arInst. destruct o, b; intros H; try discriminate; injection H as <-; reflexivity. Qed.

(** After legalization no select and no 32-bit constant is left, whatever the function was. *)
Theorem C43_no_pseudo_left : forall f n g N, legF f n = Some (g, N) -> every (fun i => pseudo i = false) g.
Proof.
  intros f n g N H. apply (leg_every (fun _ => True) (fun i => pseudo i = false)) with (f := f) (n := n) (N := N); [| | |exact H|].
  - intros m i m' l E _ Ns. exact (leg1_real m i m' l E Ns).
  - intros cc d a b l r k _. split; [reflexivity|]. split; [reflexivity|]. intros o m Em _ p p' q Eq. exact (leg1_real p m p' q Eq (moveTo_plain d o m Em)).
  - intros o cc d a b l r i k _ E. repeat (split; [reflexivity|]). exact (arInst_real _ _ _ _ _ E).
  - intros k c i _ _. exact I.
Qed.

(** The legalizer never gives up on what the selector hands it, and every instruction it leaves can be encoded. *)
Lemma moveTo_total d o : (forall z t, o = OI z t -> imm32 z = true) -> exists m, moveTo d o = Some m.
Proof.
  intros H. unfold moveTo. destruct o as [r|z t]; [eauto|]. specialize (H z t eq_refl). destruct (z =? 0); [eauto|]. destruct (imm12 z); [eauto|].
  destruct (high20 z); [eauto|]. rewrite H. eauto.
Qed.
Theorem C43_legalization_total : forall f n, every operandsOk f -> exists g N, legF f n = Some (g, N).
Proof.
  assert (C : forall c n, (forall i, In (PI i) c -> operandsOk i) -> exists c' bs n1, legC c n = Some (c', bs, n1)).
  { induction c as [|x q IH]; intros n HQ; [cbn; eauto|]. assert (HQq : forall i, In (PI i) q -> operandsOk i) by (intros i Hi; apply HQ; right; exact Hi).
    assert (G : forall i, (exists c' bs n1, (let '(n1, l) := leg1 n i in match legC q n1 with Some (c', bs, n2) => Some (map PI l ++ c', bs, n2) | None => None end) = Some (c', bs, n1))).
    { intros i. destruct (leg1 n i) as [n1 l]. destruct (IH n1 HQq) as (c' & bs & n2 & E). rewrite E. eauto. }
    destruct x as [i|k|t us ls].
    2,3: cbn [legC]; destruct (IH n HQq) as (c' & bs & n2 & E); rewrite E; eauto.
    specialize (HQ i (or_introl eq_refl)). destruct i; try (match goal with |- context [PI ?i0 :: q] => exact (G i0) end).
    - cbn [operandsOk legC] in *. destruct (moveTo_total d a (fun z t E => HQ z t (or_introl E))) as (ma & Ea). destruct (moveTo_total d b (fun z t E => HQ z t (or_intror E))) as (mb & Eb).
      rewrite Ea, Eb. destruct (leg1 (S (S n)) ma) as [n1 la]. destruct (leg1 n1 mb) as [n2 lb]. destruct (IH n2 HQq) as (c' & bs & n3 & E). rewrite E. eauto.
    - cbn [operandsOk legC] in *. destruct o as [o|o]; cbn [arInst].
      + destruct (IH (S (S n)) HQq) as (c' & bs & n3 & E). rewrite E. eauto.
      + destruct HQ as (z & t & -> & _). destruct (IH (S (S n)) HQq) as (c' & bs & n3 & E). rewrite E. eauto. }
  induction f as [|[k c] f IH]; intros n H; [cbn; eauto|]. cbn [legF].
  destruct (C c n) as (c' & bs & n1 & E). { intros i Hi. apply (H k c i); [left; reflexivity|exact Hi]. }
  rewrite E. destruct (IH n1) as (g & N & Eg). { intros k' x i Hx Hi. apply (H k' x i); [right; exact Hx|exact Hi]. }
  rewrite Eg. eauto.
Qed.
Lemma legLi_enc n d z n' l : legLi n d z = (n', l) -> z <> 0 -> B64 z -> Forall (fun i => encodable i = true) l.
Proof.
  unfold legLi. intros H Nz B. destruct (imm12 z) eqn:E12.
  { injection H as <- <-. repeat constructor. cbn [encodable]. rewrite E12. lia. }
  destruct (imm12 (z / 2 ^ ctz z)) eqn:Es.
  { injection H as <- <-. pose proof (ctz_div z Nz) as D. pose proof (ctz_nonneg z). pose proof (ctz_lt z B Nz).
    repeat constructor; cbn [encodable isR immFor]; [rewrite Es|]. assert (z / 2 ^ ctz z <> 0) by (intros Q; rewrite Q in D; lia). lia. lia. }
  destruct ((-2147483648 <=? z) && (z <? 2147483648)) eqn:E32.
  { pose proof (hi20_range z). pose proof (lo12_range z) as Lr. destruct (lo12 z =? 0); injection H as <- <-; repeat constructor; cbn [encodable isR immFor]; rewrite ?Lr; lia. }
  destruct ((0 <=? z) && (z <? 4294967296)) eqn:U32.
  { pose proof (hi20_range (s32 z)). pose proof (lo12_range (s32 z)) as Lr. destruct (lo12 (s32 z) =? 0); injection H as <- <-; repeat constructor; cbn [encodable isR immFor]; rewrite ?Lr; lia. }
  set (hi := z / 4294967296) in *. set (lo := z - hi * 4294967296) in *. cbv zeta in H. destruct (imm12 hi && imm12 lo) eqn:Eh; injection H as <- <-.
  - apply andb_prop in Eh as [Eh El]. assert (hi <> 0). { intros Q. unfold hi in Q. assert (z = z mod 4294967296) by (rewrite (Z.div_mod z 4294967296) at 1; lia). pose proof (Z.mod_pos_bound z 4294967296). lia. }
    repeat constructor; cbn [encodable isR immFor]; rewrite ?Eh, ?El; lia.
  - repeat constructor. cbn [encodable]. unfold B64 in B. lia.
Qed.
Lemma leg1_enc n i n' l : leg1 n i = (n', l) -> encodable i = true -> match i with Li LoadImm32 _ z | Li LoadImm64 _ z => z <> 0 | _ => True end -> Forall (fun i => encodable i = true) l.
Proof.
  intros H E K. assert (D : (n', l) = (n, [i]) -> Forall (fun i => encodable i = true) l) by (intros Q; injection Q as -> ->; repeat constructor; exact E).
  destruct i; try (apply D; symmetry; exact H). cbn [leg1] in H. destruct o; try (apply D; symmetry; exact H); apply (legLi_enc _ _ _ _ _ H K); cbn [encodable] in E; unfold B64; lia.
Qed.
Lemma moveTo_enc d o m : moveTo d o = Some m -> encodable m = true /\ match m with Li LoadImm32 _ z | Li LoadImm64 _ z => z <> 0 | _ => True end.
Proof.
  unfold moveTo. destruct o as [r|z t]; [intros H; injection H as <-; split; [reflexivity|exact I]|].
  destruct (z =? 0) eqn:Z0; [intros H; injection H as <-; split; [reflexivity|exact I]|].
  destruct (imm12 z) eqn:Z1; [intros H; injection H as <-; cbn [encodable]; rewrite Z1, Z0; split; [reflexivity|exact I]|].
  destruct (high20 z) as [v|] eqn:Eh; [intros H; injection H as <-; pose proof (high20_val z v Eh) as [_ V]; cbn [encodable]; split; [lia|exact I]|].
  destruct (imm32 z) eqn:Z3; [|discriminate]. intros H; injection H as <-. cbn [encodable]. unfold imm32 in Z3. split; lia.
Qed.
Lemma viaDst_R d a l : isR l = true -> isR (viaDst d a l) = true.
Proof. unfold viaDst. destruct (opnd_eqb l a && negb (isZero l)); auto. Qed.
Theorem C43_legalized_encodable : forall f n g N, legF f n = Some (g, N) -> every operandsOk f -> every (fun i => encodable i = true) f ->
  every (fun i => encodable i = true) g.
Proof.
  intros f n g N H O E. apply (leg_every (fun i => operandsOk i /\ encodable i = true) (fun i => encodable i = true)) with (f := f) (n := n) (N := N); [| | |exact H|].
  - intros m i m' l El (Oi & Ei) Ns. apply (leg1_enc m i m' l El Ei). destruct i; try exact I. destruct o; try exact I; apply Oi.
  - intros cc d a b l r k (Oi & Ei). split; [reflexivity|]. split; [exact Ei|]. intros o m Em _ p p' q Eq. destruct (moveTo_enc d o m Em) as [M1 M2]. exact (leg1_enc p m p' q Eq M1 M2).
  - intros o cc d a b l r i k (Oi & Ei) Er. cbn [encodable] in *. apply andb_prop in Ei as [Ei Ri]. apply andb_prop in Ei as [Ei Li0].
    split; [reflexivity|]. split; [exact Ei|]. split; [rewrite !viaDst_R; auto|]. unfold arInst in Er. destruct o as [o|o].
    + injection Er as <-. cbn [operandsOk encodable isR] in *. exact Oi.
    + cbn [operandsOk] in Oi. destruct Oi as (z & t & -> & I12). injection Er as <-. cbn [encodable isR]. exact I12.
  - intros k c i Hk Hi. split; [exact (O k c i Hk Hi)|exact (E k c i Hk Hi)].
Qed.

(** ** a concrete function *)
(** loop: x2 := x2 < x3 ? x2 + 1 : x2; x4 := x2 < x3 ? 74565 : -1; repeat while x4 = 74565 *)
Definition v (n : nat) := Rg n I32.
Definition exF : list blk :=
  [(0%nat, [PI (SelA (ARI ADDI) Islt (v 5) (OR (v 2)) (OI 1 I32) (OR (v 2)) (OR (v 3))); PI (R1 MoveGPR (v 2) (OR (v 5)));
            PI (SelG Islt (v 4) (OI 74565 I32) (OI (-1) I32) (OR (v 2)) (OR (v 3))); PI (Li LoadImm32 (v 6) 74565);
            PI (BrR Ieq (OR (v 4)) (OR (v 6)) 0)]);
   (1%nat, [PT 0 [OR (v 2); OR (v 4)] []])].
Lemma exF_wf : wellFormed 10 exF.
Proof.
  split; [lia|]. split; [repeat constructor; cbn; intuition discriminate|].
  assert (D : forall i, (forallb (fun r => Nat.ltb (rid r) 10) (regsOf i) && forallb (fun r => negb (Nat.eqb (rid r) 0)) (defs i) = true) ->
     below 10 i /\ (forall r, In r (defs i) -> rid r <> 0%nat)).
  { intros i H. apply andb_prop in H as [H1 H2]. rewrite forallb_forall in H1, H2. split.
    - intros r Hr. apply H1 in Hr. apply Nat.ltb_lt in Hr. exact Hr.
    - intros r Hr Z. apply H2 in Hr. rewrite Z in Hr. discriminate Hr. }
  assert (M : forall i (K : Prop), (forallb (fun r => Nat.ltb (rid r) 10) (regsOf i) && forallb (fun r => negb (Nat.eqb (rid r) 0)) (defs i) = true) -> K ->
     below 10 i /\ (forall r, In r (defs i) -> rid r <> 0%nat) /\ K) by (intros i K H HK; destruct (D i H); auto).
  constructor; [split; [cbn; lia|]|constructor; [split; [cbn; lia|]|constructor]]; cbn [snd]; repeat (apply Forall_cons || apply Forall_nil); cbn [okP].
  1-5: apply M; [reflexivity|].
  - cbn [oreg app In immB]. split; [intros [Q | [Q | []]]; discriminate Q|unfold B64; lia].
  - exact I.
  - cbn [oreg app In]. intros [Q | [Q | []]]; discriminate Q.
  - unfold B64; lia.
  - exact I.
  - intros r [<- | [<- | []]]; cbn; lia.
Qed.
(** it is legalized, into six blocks, and from x2 = 0, x3 = 3 both return (3, -1) after the same three iterations *)
Definition exS : st unit := St (fun r => if Nat.eqb (rid r) 3 then 3 else 0) tt [].
Definition exRun (f : list blk) (n : nat) : option (list Z) :=
  match run (pstep (fun _ _ w => (w, fun _ => 0)) (fun _ _ _ => None) f) n (start f exS) with Fin (_, vs, _) _ => Some vs | _ => None end.
Example exF_legalized : exists g N, legF exF 10 = Some (g, N) /\ map fst g = [0; 10; 11; 12; 13; 1]%nat /\
  exRun exF 100 = Some [3; u64 (-1)] /\ exRun g 200 = Some [3; u64 (-1)].
Proof. eexists. eexists. split; [vm_compute; reflexivity|]. split; [reflexivity|]. split; vm_compute; reflexivity. Qed.
Example exF_operands : every operandsOk exF.
Proof.
  intros k c i [E | [E | []]] Hi; injection E as <- <-; cbn [In] in Hi;
    repeat match type of Hi with _ \/ _ => destruct Hi as [Hi | Hi] end; try contradiction; try discriminate Hi; injection Hi as <-; cbn [operandsOk]; auto.
  - exists 1, I32. split; reflexivity.
  - intros z t [Q | Q]; injection Q as <- <-; reflexivity.
  - unfold B64. lia.
Qed.
(** the condition on selects is needed: if the destination is also compared, it is overwritten before the comparison *)
Example exOverwrite :
  let f := [(0%nat, [PI (SelG Islt (v 3) (OI 5 I32) (OI 7 I32) (OR (v 2)) (OR (v 3))); PT 0 [OR (v 3)] []])] in
  exists g N, legF f 10 = Some (g, N) /\ exRun f 20 = Some [5] /\ exRun g 20 = Some [5] /\
  let f' := [(0%nat, [PI (SelG Islt (v 3) (OI (-5) I32) (OI 7 I32) (OR (v 2)) (OR (v 3))); PT 0 [OR (v 3)] []])] in
  exists g' N', legF f' 10 = Some (g', N') /\ exRun f' 20 = Some [u64 (-5)] /\ exRun g' 20 = Some [7].
Proof.
  eexists. eexists. split; [vm_compute; reflexivity|]. split; [reflexivity|]. split; [reflexivity|].
  eexists. eexists. split; [vm_compute; reflexivity|]. split; reflexivity.
Qed.
