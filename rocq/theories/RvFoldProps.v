(** C31: folding adjacent memory accesses and reusing materialised constants.  Statements use only the machine of
    RvMachine.v, straight-line execution [runB] and the passes of RvFold.v / RvCopy.v. *)
From Coq Require Import ZArith Lia Bool ZifyBool List Arith.
From Verif Require Import Word Rv64 RvMachine RvPeephole RvFold RvPair RvCopy.
Import ListNotations.
Local Open Scope Z_scope.

Definition env0 : env := Env (fun _ _ m => (0, m)) (fun x => x).
Definition zeroState : state := St_ 0 (fun _ => 0) (fun _ => 0) [].

(** ** Constants *)
(** Loading a constant from one already in a register gives the constant, provided no register of the block is
    written twice and no negative constant of the block is an arithmetic right shift of another. *)
Theorem C31_constant_reuse_partial : forall e isVReg l s,
  isVReg zero = false -> NoDup (dsts l) -> Forall Z64 (imms l) ->
  (forall c v k, In c (imms l) -> In v (imms l) -> c < 0 -> 1 <= k <= 8 -> c / 2 ^ k = v -> -2048 <= v < 2048) ->
  runB e (largeImm isVReg [] l) s = runB e l s.
Proof.
  intros e isVReg l s VZ ND RI HN. apply largeImm_ok; try assumption.
  - intros c x [].
  - intros a c b v E Iv I12 cd cv -> Neg k Hk E2.
    assert (X : -2048 <= v < 2048).
    { apply (HN cv v k); try assumption; rewrite E; unfold imms; rewrite flat_map_app; apply in_or_app; right; cbn; [left; reflexivity|right; exact Iv]. }
    unfold isImm12 in I12. lia.
Qed.
Theorem C31_constant_reuse_witness : exists isVReg l,
  isVReg zero = false /\ NoDup (dsts l) /\ Forall Z64 (imms l) /\
  (forall c v k, In c (imms l) -> In v (imms l) -> c < 0 -> 1 <= k <= 8 -> c / 2 ^ k = v -> -2048 <= v < 2048) /\
  largeImm isVReg [] l = [LoadImm 1%nat 100000; II SLLI 2%nat 1%nat 3; II SRLI 3%nat 2%nat 4; II ADDI 4%nat 3%nat 7;
                          II XORI 5%nat 4%nat (-1); I2 SH1ADD 6%nat 4%nat 4%nat; I2 SUB 7%nat zero 6%nat].
Proof.
  exists (fun x => negb (Nat.eqb x 0)), [LoadImm 1%nat 100000; LoadImm 2%nat 800000; LoadImm 3%nat 50000;
    LoadImm 4%nat 50007; LoadImm 5%nat (-50008); LoadImm 6%nat 150021; LoadImm 7%nat (-150021)].
  split; [reflexivity|]. split; [repeat constructor; cbn; intuition; discriminate|].
  split; [repeat constructor; cbn; lia|]. split; [|reflexivity].
  intros c v k Hc Hv Neg Hk E. cbn in Hc, Hv.
  assert (P : 2 <= 2 ^ k <= 256).
  { split; [change 2 with (2 ^ 1) at 1|change 256 with (2 ^ 8)]; apply Z.pow_le_mono_r; lia. }
  assert (Cs : c = -50008 \/ c = -150021) by lia.
  assert (K : k = 1 \/ k = 2 \/ k = 3 \/ k = 4 \/ k = 5 \/ k = 6 \/ k = 7 \/ k = 8) by lia.
  destruct Cs as [-> | ->]; destruct K as [-> | [-> | [-> | [-> | [-> | [-> | [-> | ->]]]]]]]; vm_compute in E; lia.
Qed.
(** A negative constant is "halved" with a logical shift. *)
Theorem C31_constant_reuse_refuted : exists isVReg l s,
  isVReg zero = false /\ NoDup (dsts l) /\ Forall Z64 (imms l) /\
  rd (R (runB env0 l s)) 2%nat = u64 (-4096) /\ rd (R (runB env0 (largeImm isVReg [] l) s)) 2%nat = 2 ^ 63 - 4096.
Proof.
  exists (fun x => negb (Nat.eqb x 0)), [LoadImm 1%nat (-8192); LoadImm 2%nat (-4096)], zeroState.
  split; [reflexivity|]. split; [repeat constructor; cbn; intuition; discriminate|].
  split; [repeat constructor; cbn; lia|]. split; reflexivity.
Qed.
(** The queue is not told that a register was overwritten (the pass runs when registers may be written twice). *)
Theorem C31_constant_reuse_redefinition_refuted : exists isVReg l s,
  isVReg zero = false /\ Forall Z64 (imms l) /\
  rd (R (runB env0 l s)) 2%nat = 5000 /\ rd (R (runB env0 (largeImm isVReg [] l) s)) 2%nat = 0.
Proof.
  exists (fun x => negb (Nat.eqb x 0)), [LoadImm 1%nat 5000; I1 MoveGPR 1%nat zero; LoadImm 2%nat 5000], zeroState.
  split; [reflexivity|]. split; [repeat constructor; cbn; lia|]. split; reflexivity.
Qed.

(** ** Pairs of accesses *)
(** SSA within the block: nothing is written after it was read or written *)
Definition ssaBlock (l : list instr) : Prop := forall x i y j z d,
  l = x ++ i :: y ++ j :: z -> dst j = Some d -> dst i <> Some d /\ ~ In d (uses i).
(** same memory, same calls, same values in the program's own registers *)
Definition sameResult (fresh : nat) (t t' : state) : Prop :=
  Mm t = Mm t' /\ tr t = tr t' /\ forall x, (x < fresh)%nat -> rd (R t) x = rd (R t') x.
Definition registersBelow (fresh : nat) (l : list instr) : Prop := Forall (fun i =>
  (forall d, dst i = Some d -> (d < fresh)%nat) /\ forall x, In x (uses i) -> (x < fresh)%nat) l.

Theorem C31_store_pair_partial : forall e align fresh l s,
  ssaBlock l -> registersBelow fresh l ->
  sameResult fresh (runB e l s) (runB e (earlyFoldStore align fresh l) s).
Proof.
  intros e align fresh l s SS B. unfold earlyFoldStore.
  apply (pair_ok isSW swOf (foldStore2 align) e fresh (fun _ => True) storePairOk isSW_un
    (foldStore2_ok e fresh align) (fun _ => True) (fun _ _ _ _ => I) (fun _ _ _ _ => I) l fresh None s s); cbn [pendList app].
  - apply le_n.
  - exact I.
  - exact B.
  - apply Forall_forall. intros; exact I.
  - intros pre a mid b post E P. split; apply Forall_forall; intros j Hj D; apply in_split in Hj; destruct Hj as (m1 & m2 & ->);
      apply (SS pre (swOf a) m1 j (m2 ++ swOf b :: post) _) in D; try (rewrite E; rewrite <- app_assoc; reflexivity); cbn in D; tauto.
  - exact I.
  - apply agree_refl.
Qed.
Theorem C31_load_pair_partial : forall e align fresh l s,
  ssaBlock l -> registersBelow fresh l -> Forall (fun i => match i with Ld _ d _ b => d <> b | _ => True end) l ->
  sameResult fresh (runB e l s) (runB e (earlyFoldLoad align fresh l) s).
Proof.
  intros e align fresh l s SS B NB. unfold earlyFoldLoad.
  apply (pair_ok isLW lwOf (foldLoad2 align) e fresh (fun _ => True) loadPairOk isLW_un
    (foldLoad2_ok e fresh align) (fun _ => True) (fun _ _ _ _ => I) (fun _ _ _ _ => I) l fresh None s s); cbn [pendList app].
  - apply le_n.
  - exact I.
  - exact B.
  - apply Forall_forall. intros; exact I.
  - intros pre a mid b post E P. split.
    + rewrite Forall_forall in NB. apply (NB (lwOf a)). rewrite E. apply in_or_app. right. left. reflexivity.
    + apply Forall_forall; intros j Hj D; apply in_split in Hj; destruct Hj as (m1 & m2 & ->).
      apply (SS pre (lwOf a) m1 j (m2 ++ lwOf b :: post) _) in D; [|rewrite E; rewrite <- app_assoc; reflexivity]. cbn in D; tauto.
  - exact I.
  - apply agree_refl.
Qed.
Ltac rb := unfold registersBelow; repeat (apply Forall_cons;
  [split; [cbn; intros d D; first [discriminate D | injection D as <-; lia] | cbn; unfold zero; intros x Hx; lia]|]); apply Forall_nil.
Lemma ssa4 (i1 i2 i3 : instr) :
  (forall d, dst i2 = Some d -> dst i1 <> Some d /\ ~ In d (uses i1)) ->
  (forall d, dst i3 = Some d -> dst i1 <> Some d /\ ~ In d (uses i1)) ->
  (forall d, dst i3 = Some d -> dst i2 <> Some d /\ ~ In d (uses i2)) -> ssaBlock [i1; i2; i3].
Proof.
  intros A B C x i y j z d E D.
  destruct x as [|x1 [|x2 [|x3 x]]]; cbn in E.
  - injection E as <- E. destruct y as [|y1 [|y2 y]]; cbn in E.
    + injection E as <- _. auto.
    + injection E as _ <- _. auto.
    + destruct y; discriminate E.
  - injection E as _ <- E. destruct y as [|y1 y]; cbn in E; [injection E as <- _; auto|destruct y; discriminate E].
  - injection E as _ _ _ E. destruct y; discriminate E.
  - injection E as _ _ _ E. destruct x; discriminate E.
Qed.
Theorem C31_pair_witness :
  let l := [St SW 1%nat 0 3%nat; LoadImm 2%nat 9; St SW 2%nat 4 3%nat] in
  let k := [Ld LW 1%nat 0 3%nat; LoadImm 4%nat 9; Ld LW 2%nat 4 3%nat] in
  ssaBlock l /\ registersBelow 10 l /\
  earlyFoldStore (fun _ => 8) 10 l = [LoadImm 2%nat 9; II SLLI 10%nat 2%nat 32; I2 ADD_UW 11%nat 1%nat 10%nat; St SD 11%nat 0 3%nat] /\
  ssaBlock k /\ registersBelow 10 k /\ Forall (fun i => match i with Ld _ d _ b => d <> b | _ => True end) k /\
  earlyFoldLoad (fun _ => 8) 10 k = [Ld LD 10%nat 0 3%nat; I1 SEXT_W 1%nat 10%nat; LoadImm 4%nat 9; II SRAI 2%nat 10%nat 32].
Proof.
  cbv zeta. split; [apply ssa4; cbn; intros d [= <-]; (split; [discriminate|]); cbn; lia|].
  split. { rb. }
  split; [reflexivity|].
  split; [apply ssa4; cbn; intros d [= <-]; (split; [discriminate|]); cbn; lia|].
  split. { rb. }
  split; [repeat constructor; cbn; try lia; discriminate|reflexivity].
Qed.
(** Outside SSA form (the passes also run there) a register overwritten between the two accesses breaks the folding. *)
Theorem C31_store_pair_refuted : exists align l s,
  registersBelow 10 l /\
  Mm (runB env0 l s) 0 = 7 /\ Mm (runB env0 (earlyFoldStore align 10 l) s) 0 = 0.
Proof.
  exists (fun _ => 8), [LoadImm 1%nat 7; St SW 1%nat 0 3%nat; LoadImm 1%nat 0; St SW 1%nat 4 3%nat], zeroState.
  split; [|split; reflexivity].
  rb.
Qed.
Theorem C31_load_pair_refuted : exists align l s,
  registersBelow 10 l /\
  rd (R (runB env0 l s)) 2%nat = 7 /\ rd (R (runB env0 (earlyFoldLoad align 10 l) s)) 2%nat = 0.
Proof.
  exists (fun _ => 8), [Ld LW 1%nat 0 3%nat; LoadImm 3%nat 100; Ld LW 2%nat 4 3%nat],
    (St_ 0 (fun _ => 0) (fun a => if a =? 104 then 7 else 0) []).
  split; [|split; reflexivity].
  rb.
Qed.

(** Two zero stores: when both bases are stack objects the pair must really be adjacent (the code does not check), and a
    base register must not be overwritten in between. *)
Theorem C31_zero_pair_partial : forall e align obj sp fresh l s,
  registersBelow fresh l ->
  (forall x o, obj x = Some o -> rd (R s) x = u64 (sp + o)) ->
  (forall i d, In i l -> dst i = Some d -> obj d = None) ->
  (forall pre a mid b post, l = pre ++ swOf a :: mid ++ swOf b :: post -> Forall pure mid ->
     (obj (aBase a) = None -> Forall (fun i => dst i <> Some (aBase a)) mid) /\
     forall oa ob, obj (aBase a) = Some oa -> obj (aBase b) = Some ob -> oa + aOff a + 4 = ob + aOff b) ->
  sameResult fresh (runB e l s) (runB e (foldStoreZero align obj l) s).
Proof.
  intros e align obj sp fresh l s B IV NO PO. unfold foldStoreZero.
  (* the counter is unused: run it from [fresh] *)
  assert (CI : forall l p c c', pairPass isSW swOf (foldZero2 align obj) c p l = pairPass isSW swOf (foldZero2 align obj) c' p l).
  { clear. induction l as [|i l IH]; intros p c c'; cbn [pairPass]; [reflexivity|].
    destruct (isSW i) as [b|]; destruct p as [[a mid]|].
    - unfold foldZero2. match goal with |- context[if ?g then _ else _] => destruct g end; rewrite (IH _ c c'); reflexivity.
    - apply IH.
    - destruct (sideEffect i); rewrite (IH _ c c'); reflexivity.
    - rewrite (IH _ c c'). reflexivity. }
  rewrite (CI l None 0%nat fresh). clear CI.
  (* stack objects are not written, and are ordinary registers of the program or never read *)
  pose (Inv := objInv (fun x => if (x <? fresh)%nat then obj x else None) sp).
  assert (FZ : forall c a mid b out c' s1, (fresh <= c)%nat -> foldZero2 align obj c a mid b = Some (out, c') ->
     (zeroPairOk obj a mid b /\ Forall (notObj obj) mid) -> Forall pure mid -> Forall (below fresh) (swOf a :: mid ++ [swOf b]) -> Inv (R s1) ->
     (fresh <= c')%nat /\ agree fresh (runB e (swOf a :: mid ++ [swOf b]) s1) (runB e out s1)).
  { intros c a mid b out c' s1 Fc H [PK NM] P BL Iv.
    assert (La : (aBase a < fresh)%nat /\ (aBase b < fresh)%nat).
    { inversion BL as [|? ? [_ Ua] BL']; subst. apply Forall_app in BL'. destruct BL' as [_ BL']. apply Forall_inv in BL'. destruct BL' as [_ Ub].
      split; [apply Ua|apply Ub]; cbn; tauto. }
    assert (OE : forall x, (x < fresh)%nat -> (if (x <? fresh)%nat then obj x else None) = obj x).
    { intros x L. destruct (Nat.ltb_spec x fresh); [reflexivity|lia]. }
    apply (foldZero2_ok e fresh align (fun x => if (x <? fresh)%nat then obj x else None) sp c a mid b out c' s1); try assumption.
    - rewrite <- H. unfold foldZero2, storeZero. rewrite !OE by tauto. reflexivity.
    - split.
      + unfold zeroPairOk in *. rewrite !OE by tauto. exact PK.
      + rewrite Forall_forall in *. intros i Hi d D. destruct (d <? fresh)%nat; [apply (NM i Hi d D)|reflexivity]. }
  apply (pair_ok isSW swOf (foldZero2 align obj) e fresh Inv (fun a mid b => zeroPairOk obj a mid b /\ Forall (notObj obj) mid) isSW_un
    FZ (notObj obj)) with (p := None); cbn [pendList app].
  - intros i st Ni H x o Ho. rewrite exec1_other; [apply H, Ho|]. intros D. specialize (Ni _ D). cbn beta in Ho.
    rewrite Ni in Ho. destruct (x <? fresh)%nat; discriminate Ho.
  - intros st st' (_ & _ & A) H x o Ho. rewrite <- A; [apply H, Ho|]. destruct (Nat.ltb_spec x fresh); [assumption|discriminate Ho].
  - apply le_n.
  - exact I.
  - exact B.
  - apply Forall_forall. intros i Hi d D. apply (NO i d Hi D).
  - intros pre a mid b post E P. split; [apply (PO pre a mid b post E P)|].
    apply Forall_forall. intros i Hi d D. apply (NO i d); [|exact D]. rewrite E. apply in_or_app. right. right. apply in_or_app. left. exact Hi.
  - intros x o Ho. destruct (x <? fresh)%nat; [apply IV, Ho|discriminate Ho].
  - apply agree_refl.
Qed.
Theorem C31_zero_pair_witness :
  let obj := fun x => if Nat.eqb x 3 then Some 16 else None in
  let l := [St SW zero 8 3%nat; LoadImm 1%nat 5; St SW zero 12 3%nat] in
  registersBelow 10 l /\
  (forall i d, In i l -> dst i = Some d -> obj d = None) /\
  (forall pre a mid b post, l = pre ++ swOf a :: mid ++ swOf b :: post -> Forall pure mid ->
     (obj (aBase a) = None -> Forall (fun i => dst i <> Some (aBase a)) mid) /\
     forall oa ob, obj (aBase a) = Some oa -> obj (aBase b) = Some ob -> oa + aOff a + 4 = ob + aOff b) /\
  foldStoreZero (fun _ => 4) obj l = [LoadImm 1%nat 5; St SD zero 8 3%nat].
Proof.
  cbv zeta. split. { rb. }
  split. { intros i d Hi D. cbn in Hi. destruct Hi as [<- | [<- | [<- | []]]]; try discriminate D. injection D as <-. reflexivity. }
  split; [|reflexivity].
  intros pre [v o b0] mid [v' o' b'] post E P. unfold swOf in E. cbn [aV aOff aBase] in *.
  destruct pre as [|x1 [|x2 [|x3 pre]]]; cbn in E.
  - injection E as <- <- <- E. destruct mid as [|y1 [|y2 mid]]; cbn in E; try discriminate E.
    + injection E as <- <- <- <- E. split; [intros D; discriminate D|]. intros oa ob [= <-] [= <-]. reflexivity.
    + destruct mid; discriminate E.
  - injection E as _ E. discriminate E.
  - injection E as _ _ E1 E2 E3 E. destruct mid; discriminate E.
  - injection E as _ _ _ E. destruct pre; discriminate E.
Qed.
(** a[0] = 0; a[3] = 0 in a stack array at offset 0: a[1] is overwritten and a[3] keeps its old value. *)
Theorem C31_zero_pair_refuted : exists align obj sp l s,
  registersBelow 10 l /\ sp mod 8 = 0 /\ (forall x o, obj x = Some o -> rd (R s) x = u64 (sp + o)) /\
  (forall i d, In i l -> dst i = Some d -> obj d = None) /\
  let t := runB env0 l s in let t' := runB env0 (foldStoreZero align obj l) s in
  Mm t (sp + 4) = 1 /\ Mm t (sp + 12) = 0 /\ Mm t' (sp + 4) = 0 /\ Mm t' (sp + 12) = 1.
Proof.
  exists (fun _ => 4), (fun x => if Nat.eqb x 3 then Some 0 else None), 1024, [St SW zero 0 3%nat; St SW zero 12 3%nat],
    (St_ 0 (fun _ => 1024) (fun _ => 1) []).
  split. { rb. }
  split; [reflexivity|].
  split. { intros x o Ho. destruct (Nat.eqb x 3) eqn:E; [|discriminate Ho]. injection Ho as <-. apply Nat.eqb_eq in E. subst x. reflexivity. }
  split. { intros i d Hi D. cbn in Hi. destruct Hi as [<- | [<- | []]]; discriminate D. }
  cbv zeta. repeat split; reflexivity.
Qed.
(** The base register is overwritten between the two stores (physical registers are reused). *)
Theorem C31_zero_pair_redefinition_refuted : exists align l s,
  registersBelow 10 l /\
  let t := runB env0 l s in let t' := runB env0 (foldStoreZero align (fun _ => None) l) s in
  Mm t 1024 = 0 /\ Mm t' 1024 = 1.
Proof.
  exists (fun a => if aOff a =? 0 then 8 else 4), [St SW zero 0 3%nat; LoadImm 3%nat 64; St SW zero 4 3%nat],
    (St_ 0 (fun _ => 1024) (fun _ => 1) []).
  split. { rb. }
  cbv zeta. split; reflexivity.
Qed.

(** ** Double-word copies *)
(** [val] is the value of each address register during this execution of the block (SSA: there is only one);
    alignment operands are right. *)
Theorem C31_double_word_copy_partial : forall e useCount addressDef align fresh l s val,
  registersBelow fresh l -> NoDup (dsts l) -> (forall i, In i l -> dst i <> Some zero) ->
  (forall d, (count_occ Nat.eq_dec (flat_map uses l) d <= useCount d)%nat) ->
  (forall d a, In (Ld LW d 0 a) l -> useCount d = 1%nat) ->
  wfR (R s) -> Forall immOk l ->
  (forall x i y a, l = x ++ i :: y -> (exists d, i = Ld LW d 0 a) \/ (exists v, i = St SW v 0 a) ->
     rd (R (runB e x s)) a = val a /\ (align i = 8 -> val a mod 8 = 0)) ->
  (forall x b k, addressDef x = Some (b, k) -> val x = u64 (val b + k)) ->
  let t := runB e l s in let t' := runB e (earlyFoldDoubleWordCopy useCount addressDef align fresh l) s in
  Mm t = Mm t' /\ tr t = tr t' /\ forall x, (x < fresh)%nat -> useCount x <> 1%nat -> rd (R t) x = rd (R t') x.
Proof.
  intros e uc ad al fresh l s val B ND NZ HU HS W IO HV HA. cbv zeta.
  destruct (copy_ok uc ad al e fresh l s val HU ND B NZ HS W IO HV HA l fresh [] [] [] []) as (D' & DU & M & T & X); try reflexivity.
  - constructor.
  - repeat split.
  - apply Forall_forall. intros i Hi x Hx [].
  - intros x [].
  - split; [exact M|]. split; [exact T|]. intros x L N. apply X; [exact L|]. intros I. apply N, DU, I.
Qed.
Definition copyBlock : list instr :=
  [Ld LW 1%nat 0 3%nat; St SW 1%nat 0 4%nat; II ADDI 5%nat 3%nat 4; Ld LW 2%nat 0 5%nat; II ADDI 6%nat 4%nat 4; St SW 2%nat 0 6%nat].
Definition copyDef (x : reg) : option (reg * Z) :=
  if Nat.eqb x 5 then Some (3%nat, 4) else if Nat.eqb x 6 then Some (4%nat, 4) else None.
Definition copyAlign (i : instr) : Z := match i with Ld _ _ _ 3%nat | St _ _ _ 4%nat => 8 | _ => 4 end.
Definition copyUses (x : reg) : nat := match x with 3 | 4 => 2 | _ => 1 end%nat.
Definition copyVal (x : reg) : Z := match x with 5%nat | 6%nat => 4 | _ => 0 end.
Ltac acc1 Hi := let d := fresh in let H := fresh in destruct Hi as [[d H] | [d H]];
  first [discriminate H | injection H as _ <-; split; [reflexivity|cbn; first [reflexivity | lia]]].
Theorem C31_double_word_copy_witness :
  registersBelow 10 copyBlock /\ NoDup (dsts copyBlock) /\ (forall i, In i copyBlock -> dst i <> Some zero) /\
  (forall d, (count_occ Nat.eq_dec (flat_map uses copyBlock) d <= copyUses d)%nat) /\
  (forall d a, In (Ld LW d 0 a) copyBlock -> copyUses d = 1%nat) /\
  wfR (R zeroState) /\ Forall immOk copyBlock /\
  (forall x i y a, copyBlock = x ++ i :: y -> (exists d, i = Ld LW d 0 a) \/ (exists v, i = St SW v 0 a) ->
     rd (R (runB env0 x zeroState)) a = copyVal a /\ (copyAlign i = 8 -> copyVal a mod 8 = 0)) /\
  (forall x b k, copyDef x = Some (b, k) -> copyVal x = u64 (copyVal b + k)) /\
  earlyFoldDoubleWordCopy copyUses copyDef copyAlign 10%nat copyBlock =
    [Ld LD 10%nat 0 3%nat; St SD 10%nat 0 4%nat; II ADDI 5%nat 3%nat 4; II ADDI 6%nat 4%nat 4].
Proof.
  split. { rb. }
  split. { repeat constructor; cbn; intuition; discriminate. }
  split. { intros i Hi. cbn in Hi. repeat (destruct Hi as [<- | Hi]; [discriminate|]). destruct Hi. }
  split. { intros d. do 10 (destruct d as [|d]; [cbn; lia|]). cbn. lia. }
  split. { intros d a Hi. cbn in Hi. repeat (destruct Hi as [Hi | Hi]; [try discriminate Hi; injection Hi as <- <-; reflexivity|]). destruct Hi. }
  split; [intros x; cbn; lia|].
  split; [repeat constructor; cbn; lia|].
  split. { intros x i y a E Hi. unfold copyBlock in E.
    do 6 (destruct x as [|? x]; cbn in E;
      [injection E as <- _; acc1 Hi
      |injection E as <- E]). destruct x; discriminate E. }
  split. { intros x b k. unfold copyDef. destruct (Nat.eqb x 5) eqn:E5; [apply Nat.eqb_eq in E5; subst; intros [= <- <-]; reflexivity|].
    destruct (Nat.eqb x 6) eqn:E6; [apply Nat.eqb_eq in E6; subst; intros [= <- <-]; reflexivity|discriminate]. }
  reflexivity.
Qed.
(** A load whose result is used twice neither enters nor resets the window, so the second word is written too early for it. *)
Theorem C31_double_word_copy_refuted : exists useCount addressDef align l s val,
  registersBelow 10 l /\ NoDup (dsts l) /\
  (forall x i y a, l = x ++ i :: y -> (exists d, i = Ld LW d 0 a) \/ (exists v, i = St SW v 0 a) ->
     rd (R (runB env0 x s)) a = val a /\ (align i = 8 -> val a mod 8 = 0)) /\
  (forall x b k, addressDef x = Some (b, k) -> val x = u64 (val b + k)) /\
  (forall d, (count_occ Nat.eq_dec (flat_map uses l) d <= useCount d)%nat) /\ useCount 7%nat = 2%nat /\
  rd (R (runB env0 l s)) 8%nat = 0 /\
  rd (R (runB env0 (earlyFoldDoubleWordCopy useCount addressDef align 10%nat l) s)) 8%nat = 14.
Proof.
  exists (fun x => match x with 3 | 4 | 5 | 6 | 7 => 2 | _ => 1 end)%nat, copyDef, copyAlign,
    [II ADDI 5%nat 3%nat 4; II ADDI 6%nat 4%nat 4; Ld LW 1%nat 0 3%nat; St SW 1%nat 0 4%nat; Ld LW 7%nat 0 6%nat;
     Ld LW 2%nat 0 5%nat; St SW 2%nat 0 6%nat; I2 ADD 8%nat 7%nat 7%nat],
    (St_ 0 (fun x => if Nat.eqb x 4 then 16 else 0) (fun a => if a =? 4 then 7 else 0) []),
    (fun x => match x with 4%nat => 16 | 5%nat => 4 | 6%nat => 20 | _ => 0 end).
  split. { rb. }
  split. { repeat constructor; cbn; intuition; discriminate. }
  split. { intros x i y a E Hi.
    do 8 (destruct x as [|? x]; cbn in E;
      [injection E as <- _; acc1 Hi
      |injection E as <- E]). destruct x; discriminate E. }
  split. { intros x b k. unfold copyDef. destruct (Nat.eqb x 5) eqn:E5; [apply Nat.eqb_eq in E5; subst; intros [= <- <-]; reflexivity|].
    destruct (Nat.eqb x 6) eqn:E6; [apply Nat.eqb_eq in E6; subst; intros [= <- <-]; reflexivity|discriminate]. }
  split. { intros d. do 10 (destruct d as [|d]; [cbn; lia|]). cbn. lia. }
  repeat split; reflexivity.
Qed.
