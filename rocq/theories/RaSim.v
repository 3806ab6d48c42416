(** Renaming by a colouring that respects the recorded interferences preserves behaviour. *)
From Coq Require Import ZArith Lia Bool List Arith.
From Verif Require Import GMir RaMir RaLive RaIv RaColor RaAlloc.
Import ListNotations.

Lemma skipn_cons {A} (l : list A) j a : nth_error l j = Some a -> skipn j l = a :: skipn (S j) l.
Proof.
  revert j; induction l as [|x r IHb]; intros [|j] E; cbn in *; try discriminate.
  - injection E as ->. reflexivity.
  - now apply IHb.
Qed.
Lemma base_step p b blk : nth_error p b = Some blk -> base p (S b) = base p b + length blk.
Proof.
  revert b; induction p as [|x p IH]; intros [|b] E; cbn in E; try discriminate.
  - injection E as ->. rewrite base_cons, !base_0. lia.
  - rewrite !base_cons, (IH b E). lia.
Qed.
Lemma base_le p b b' : b <= b' -> base p b <= base p b'.
Proof.
  intros H. induction H as [|b' H IH]; [lia|].
  destruct (nth_error p b') as [blk|] eqn:E; [rewrite (base_step p b' blk E); lia|].
  apply nth_error_None in E. unfold base in *. rewrite (firstn_all2 (n := S b')) by lia.
  rewrite (firstn_all2 (n := b')) in IH by lia. exact IH.
Qed.
Lemma base_inj p b j blk b' j' blk' : nth_error p b = Some blk -> j < length blk ->
  nth_error p b' = Some blk' -> j' < length blk' -> base p b + j = base p b' + j' -> b = b' /\ j = j'.
Proof.
  intros E L E' L' H. assert (b = b').
  { destruct (Nat.lt_trichotomy b b') as [X|[X|X]]; auto; exfalso.
    - pose proof (base_le p (S b) b' X). rewrite (base_step p b blk E) in *. lia.
    - pose proof (base_le p (S b') b X). rewrite (base_step p b' blk' E') in *. lia. }
  subst b'. split; [reflexivity|lia].
Qed.

Section Sim.
Context {W : Type}.
Variable t : mach W.
Variable I : rinfo.
Hypothesis RT : raTarget t I.
Variable p : mfunc.
Hypothesis IN : raInput t I p.
Variable li : liveInfo.
Hypothesis LS : liveSpec t p li.
Variable m : nat -> option nat.
Variable col : nat -> nat.
Hypothesis Mcol : forall v, mentioned t p v -> m v = Some (col v).
(** the colouring respects what was recorded *)
Hypothesis V1 : forall v, mentioned t p v -> In (col v) (al I (vcls I v)).
Hypothesis V2 : forall c v n, c < ncls I -> In (GE v n) (scAll t I c li 0 0 p) -> col v <> n.
Hypothesis V3 : forall u v, mentioned t p u -> mentioned t p v -> u <> v -> vcls I u = vcls I v ->
  (exists x, covers (liIv li u) x /\ covers (liIv li v) x) -> col u <> col v.

Definition ren (r : reg) : reg := match r with Phys n => Phys n | Virt v => Phys (col v) end.

Lemma live_mentioned b j v : liveAt t p b j v -> mentioned t p v.
Proof.
  intros H. induction H as [b blk j i v E1 E2 H| |]; auto.
  exists blk, i. split; [now apply nth_error_In in E1|]. split; [now apply nth_error_In in E2|auto].
Qed.
Lemma wrAll_ren ds : forall G G' (o : nat -> Z) k r,
  (forall d, In d ds -> ren d = ren r -> d = r) -> (In r ds \/ G r = G' (ren r)) ->
  wrAll G ds o k r = wrAll G' (map ren ds) o k (ren r).
Proof.
  induction ds as [|d ds IH]; intros G G' o k r Hi H; cbn [wrAll map].
  - destruct H as [[]|H]. exact H.
  - apply IH; [intros; apply Hi; [now right|assumption]|].
    destruct (reg_dec d r) as [->|N].
    + right. now rewrite !wr_same.
    + destruct H as [[H|H]|H]; [contradiction|now left|]. right.
      rewrite wr_ne by auto. rewrite wr_ne; [exact H|]. intros E. apply N. apply Hi; [now left|congruence].
Qed.

Section Inst.
Variables (b j : nat) (blk : list inst) (i : inst) (rest : list inst).
Hypothesis Eb : nth_error p b = Some blk.
Hypothesis Ej : nth_error blk j = Some i.

Lemma Hblk : In blk p. Proof using Eb. now apply nth_error_In in Eb. Qed.
Lemma Hi : In i blk. Proof using Ej. now apply nth_error_In in Ej. Qed.
Lemma ment_use v : In v (vuses t i) -> mentioned t p v.
Proof using Eb Ej. intros H. exists blk, i. split; [exact Hblk|]. split; [exact Hi|auto]. Qed.
Lemma ment_def v : In v (vdefs t i) -> mentioned t p v.
Proof using Eb Ej. intros H. exists blk, i. split; [exact Hblk|]. split; [exact Hi|auto]. Qed.

Lemma fops_in f r : In (f, OReg r) (fops t i) ->
  (f = FDef -> In r (rdefs t i)) /\ (f = FUse -> In r (ruses t i)).
Proof.
  intros H. split; intros ->; [unfold rdefs|unfold ruses]; apply in_flat_map; eexists; (split; [exact H|now left]).
Qed.
Lemma rdefs_in r : In r (rdefs t i) -> In (FDef, OReg r) (fops t i).
Proof.
  intros H. unfold rdefs in H. apply in_flat_map in H as ([f o] & H1 & H2).
  destruct f; try (destruct H2; fail). destruct o; try (destruct H2; fail). destruct H2 as [->|[]]. exact H1.
Qed.
Lemma ruses_in r : In r (ruses t i) -> In (FUse, OReg r) (fops t i).
Proof.
  intros H. unfold ruses in H. apply in_flat_map in H as ([f o] & H1 & H2).
  destruct f; try (destruct H2; fail). destruct o; try (destruct H2; fail). destruct H2 as [->|[]]. exact H1.
Qed.
Lemma fops_ren : fops t (renInst m i) = map (fun x => (fst x, renOp m (snd x))) (fops t i).
Proof.
  unfold fops, renInst. cbn [opc ops]. generalize (ofl t (opc i)). induction (ops i) as [|o l IH]; intros [|f fl]; cbn; auto.
  now rewrite IH.
Qed.
Lemma renOp_reg f r : In (f, OReg r) (fops t i) -> renOp m (OReg r) = OReg (ren r).
Proof using IN Mcol Eb Ej.
  intros H. destruct r as [n|v]; [reflexivity|]. cbn. destruct (fops_in f (Virt v) H) as [A B].
  assert (M : mentioned t p v).
  { destruct f.
    - apply ment_def, in_vdefs, A, eq_refl.
    - apply ment_use, in_vuses, B, eq_refl.
    - exfalso. exact (proj2 (ri_flag t I p IN blk i Hblk Hi) v H). }
  now rewrite (Mcol v M).
Qed.
Lemma rdefs_ren : rdefs t (renInst m i) = map ren (rdefs t i).
Proof using IN Mcol Eb Ej.
  unfold rdefs. rewrite fops_ren. pose proof renOp_reg as R.
  induction (fops t i) as [|[f o] l IH]; [reflexivity|].
  cbn [map flat_map]. rewrite map_app, <- IH by (intros; apply (R f0); now right). f_equal.
  destruct f; cbn [fst snd]; try reflexivity. destruct o as [r|z|k|k]; try reflexivity.
  rewrite (R FDef r) by now left. reflexivity.
Qed.
Lemma blank_ren : map blank (ops (renInst m i)) = map blank (ops i).
Proof.
  cbn. rewrite map_map. apply map_ext. intros o. destruct o as [[n|v]|z|k|k]; cbn; try reflexivity.
  destruct (m v); reflexivity.
Qed.
Lemma args_ren g g' : (forall r, In r (ruses t i) -> g r = g' (ren r)) -> rargs t g i = rargs t g' (renInst m i).
Proof using IN Mcol Eb Ej.
  intros H. unfold rargs. rewrite fops_ren, map_map. apply map_ext_in. intros [f o] Ho. cbn [fst snd].
  destruct o as [r|z|k|k]; try (destruct f; reflexivity).
  rewrite (renOp_reg f r Ho). destruct f; cbn [argOf].
  - reflexivity.
  - f_equal. apply H. now apply (fops_in FUse r).
  - destruct r as [n|v]; [reflexivity|]. exfalso. exact (proj2 (ri_flag t I p IN blk i Hblk Hi) v Ho).
Qed.

Record simR (live : nat -> Prop) (U L : list nat) (s s' : rst W) : Prop := SimR {
  sr_live : forall v, live v -> RG s (Virt v) = RG s' (Phys (col v));
  sr_phys : forall n, allocatable I n = false \/ In n U \/ In n L -> RG s (Phys n) = RG s' (Phys n);
  sr_sl : SL s = SL s';
  sr_wd : WD s = WD s' }.

Definition U1 (U : list nat) : list nat := filter (fun n => negb (nmem n (puses t i))) U.
Definition Unext (U : list nat) : list nat := if callF t (opc i) then U1 U ++ incoming t I rest else U1 U.
Definition Lnext (L : list nat) : list nat := if callF t (opc i) then pdefs t i else L ++ pdefs t i.

Lemma alloc_zero n : allocatable I n = true -> zero I n = false.
Proof using RT. intros H. apply nmem_In in H. now apply (rt_al t I RT) in H. Qed.
Lemma col_alloc v : mentioned t p v -> allocatable I (col v) = true /\ pcls I (col v) = vcls I v.
Proof using RT V1.
  intros H. apply V1 in H. destruct (rt_al t I RT _ _ H) as [E _]. split; [|exact E].
  unfold allocatable. rewrite E. now apply nmem_In.
Qed.

Lemma exec_sim U L s s' :
  simR (liveAt t p b j) U L s s' ->
  (forall n, In n (puses t i ++ rd t i) -> allocatable I n = true -> In n U \/ In n L) ->
  (callF t (opc i) = true -> forall n, In n (incoming t I rest) -> allocatable I n = true -> In n (clob t i)) ->
  (forall v n, liveAt t p b (S j) v -> ~ In v (vdefs t i) -> In n (clob t i) -> allocatable I n = true -> col v <> n) ->
  (forall v n, liveAt t p b (S j) v -> In n (pdefs t i) -> allocatable I n = true -> col v <> n) ->
  (forall v n, In v (vdefs t i) -> In n (Unext U) \/ In n (Lnext L) -> allocatable I n = true -> col v <> n) ->
  (forall u v, In u (vdefs t i) -> liveAt t p b (S j) v -> u <> v -> col u <> col v) ->
  simR (liveAt t p b (S j)) (Unext U) (Lnext L) (fst (rexec t i s)) (fst (rexec t (renInst m i) s')) /\
  snd (rexec t i s) = snd (rexec t (renInst m i) s').
Proof using IN Mcol Eb Ej RT V1.
  intros [R1 R2 R3 R4] Hrd Hcall E1 E2 E3 E4.
  assert (Use : forall r, In r (ruses t i) -> RG s r = RG s' (ren r)).
  { intros [n|v] H; cbn.
    - apply R2. destruct (allocatable I n) eqn:A; [right|now left]. apply Hrd; [|exact A].
      apply in_or_app. left. now apply in_puses.
    - apply R1. apply live_use with blk i; auto. now apply in_vuses. }
  assert (Ar : rargs t (RG s) i = rargs t (RG s') (renInst m i)) by now apply args_ren.
  assert (Kr : rd t (renInst m i) = rd t i) by (unfold rd; rewrite blank_ren; reflexivity).
  assert (Cr : clob t (renInst m i) = clob t i) by (unfold clob; rewrite blank_ren; reflexivity).
  assert (Rd : map (fun n => RG s (Phys n)) (rd t i) = map (fun n => RG s' (Phys n)) (rd t (renInst m i))).
  { rewrite Kr. apply map_ext_in. intros n Hn. apply R2. destruct (allocatable I n) eqn:A; [right|now left].
    apply Hrd; [|exact A]. apply in_or_app. now right. }
  (* writing: [G1] and [G1'] are the registers after the clobbering *)
  assert (Wr : forall G1 G1' o,
    (forall v, liveAt t p b (S j) v -> ~ In v (vdefs t i) -> G1 (Virt v) = G1' (Phys (col v))) ->
    (forall n, ~ In n (pdefs t i) -> allocatable I n = false \/ In n (Unext U) \/ In n (Lnext L) -> G1 (Phys n) = G1' (Phys n)) ->
    (forall v, liveAt t p b (S j) v ->
       wrAll G1 (rdefs t i) o 0 (Virt v) = wrAll G1' (map ren (rdefs t i)) o 0 (Phys (col v))) /\
    (forall n, allocatable I n = false \/ In n (Unext U) \/ In n (Lnext L) ->
       wrAll G1 (rdefs t i) o 0 (Phys n) = wrAll G1' (map ren (rdefs t i)) o 0 (Phys n))).
  { intros G1 G1' o A1 A2. split.
    - intros v Hv. change (Phys (col v)) with (ren (Virt v)). apply wrAll_ren.
      + intros [n|u] Hd E; cbn in E; injection E as E.
        * exfalso. assert (M := live_mentioned _ _ _ Hv). destruct (col_alloc v M) as [C1 _].
          apply (E2 v n Hv); [now apply in_pdefs|now rewrite E|auto].
        * destruct (Nat.eq_dec u v) as [->|N]; [reflexivity|]. exfalso. apply (E4 u v); auto. now apply in_vdefs.
      + destruct (in_dec reg_dec (Virt v) (rdefs t i)) as [D|D]; [now left|right]. apply A1; [exact Hv|].
        intros X. apply D. now apply in_vdefs.
    - intros n Hn. change (Phys n) with (ren (Phys n)) at 2. apply wrAll_ren.
      + intros [n'|u] Hd E; cbn in E; injection E as E; [now subst|]. exfalso.
        assert (M : mentioned t p u) by (apply ment_def, in_vdefs, Hd). destruct (col_alloc u M) as [C1 _].
        rewrite E in C1. destruct Hn as [Hn|Hn]; [congruence|].
        apply (E3 u n); auto. now apply in_vdefs.
      + destruct (in_dec reg_dec (Phys n) (rdefs t i)) as [D|D]; [now left|right]. cbn. apply A2; [|exact Hn].
        intros X. apply D. now apply in_pdefs. }
  assert (NoCallU : callF t (opc i) = false -> forall n, In n (Unext U) -> In n U).
  { intros E n Hn. unfold Unext in Hn. rewrite E in Hn. now apply filter_In in Hn. }
  assert (NoCallL : callF t (opc i) = false -> forall n, In n (Lnext L) -> ~ In n (pdefs t i) -> In n L).
  { intros E n Hn N. unfold Lnext in Hn. rewrite E in Hn. apply in_app_or in Hn as [Hn|Hn]; tauto. }
  assert (Pass : forall v, liveAt t p b (S j) v -> ~ In v (vdefs t i) -> liveAt t p b j v).
  { intros v Hv N. apply live_pass with blk i; auto. }
  assert (Slot : forall r k, ops i = [OReg r; OStk k] -> (opc i = opcLdStk \/ opc i = opcStStk) ->
                 ops (renInst m i) = [OReg (ren r); OStk k]).
  { intros r k E O. cbn. rewrite E. cbn [map]. f_equal.
    assert (F : exists f, In (f, OReg r) (fops t i)).
    { unfold fops. rewrite E. destruct O as [O|O]; rewrite O; [rewrite (proj1 (rt_ld t I RT))|rewrite (proj1 (rt_st t I RT))];
        eexists; now left. }
    destruct F as [f F]. exact (renOp_reg f r F). }
  unfold rexec. destruct (stkLoad i) as [[x k]|] eqn:El.
  - unfold stkLoad in El. destruct (Nat.eqb_spec (opc i) opcLdStk) as [Eo|]; [|discriminate].
    assert (Eops : ops i = [OReg x; OStk k]).
    { unfold slotOf in El. destruct (ops i) as [|[r|z|q|q] [|[r2|z2|q2|q2] [|]]]; try discriminate. now injection El as -> ->. }
    assert (El' : stkLoad (renInst m i) = Some (ren x, k)).
    { unfold stkLoad. change (opc (renInst m i)) with (opc i). rewrite Eo, Nat.eqb_refl. unfold slotOf.
      rewrite (Slot x k Eops (or_introl Eo)). reflexivity. }
    rewrite El'. cbn [fst snd]. split; [|reflexivity].
    assert (Ed : rdefs t i = [x]).
    { unfold rdefs, fops. rewrite Eops, Eo, (proj1 (rt_ld t I RT)). reflexivity. }
    destruct (Wr (RG s) (RG s') (fun _ => SL s k)) as [A B].
    { intros v Hv N. apply R1. now apply Pass. }
    { intros n N Hn. apply R2.
      assert (Ec : callF t (opc i) = false) by (rewrite Eo; apply (rt_ld t I RT)).
      destruct Hn as [Hn|[Hn|Hn]]; auto. }
    rewrite Ed in A, B. cbn [wrAll map] in A, B. split; cbn [RG SL WD]; auto; rewrite <- R3; auto.
  - destruct (stkStore i) as [[x k]|] eqn:Es.
    + unfold stkStore in Es. destruct (Nat.eqb_spec (opc i) opcStStk) as [Eo|]; [|discriminate].
      assert (Eops : ops i = [OReg x; OStk k]).
      { unfold slotOf in Es. destruct (ops i) as [|[r|z|q|q] [|[r2|z2|q2|q2] [|]]]; try discriminate. now injection Es as -> ->. }
      assert (El' : stkLoad (renInst m i) = None).
      { unfold stkLoad. change (opc (renInst m i)) with (opc i). rewrite Eo. reflexivity. }
      assert (Es' : stkStore (renInst m i) = Some (ren x, k)).
      { unfold stkStore. change (opc (renInst m i)) with (opc i). rewrite Eo, Nat.eqb_refl. unfold slotOf.
        rewrite (Slot x k Eops (or_intror Eo)). reflexivity. }
      rewrite El', Es'. cbn [fst snd]. split; [|reflexivity].
      assert (Ed : rdefs t i = []). { unfold rdefs, fops. rewrite Eops, Eo, (proj1 (rt_st t I RT)). reflexivity. }
      assert (Eu : In x (ruses t i)). { unfold ruses, fops. rewrite Eops, Eo, (proj1 (rt_st t I RT)). now left. }
      assert (Ec : callF t (opc i) = false) by (rewrite Eo; apply (rt_st t I RT)).
      destruct (Wr (RG s) (RG s') (fun _ => 0%Z)) as [A B].
      { intros v Hv N. apply R1. now apply Pass. }
      { intros n N Hn. apply R2. destruct Hn as [Hn|[Hn|Hn]]; auto. }
      rewrite Ed in A, B. cbn [wrAll map] in A, B. split; cbn [RG SL WD]; auto. rewrite <- R3, <- (Use x Eu). reflexivity.
    + assert (El' : stkLoad (renInst m i) = None).
      { unfold stkLoad in *. change (opc (renInst m i)) with (opc i). destruct (Nat.eqb_spec (opc i) opcLdStk) as [Eo|]; [|reflexivity].
        unfold slotOf in *. cbn. destruct (ops i) as [|[[r|r]|z|q|q] [|[[r2|r2]|z2|q2|q2] [|]]]; cbn in *; try discriminate; try reflexivity;
          try (destruct (m r)); try (destruct (m r2)); try reflexivity; discriminate. }
      assert (Es' : stkStore (renInst m i) = None).
      { unfold stkStore in *. change (opc (renInst m i)) with (opc i). destruct (Nat.eqb_spec (opc i) opcStStk) as [Eo|]; [|reflexivity].
        unfold slotOf in *. cbn. destruct (ops i) as [|[[r|r]|z|q|q] [|[[r2|r2]|z2|q2|q2] [|]]]; cbn in *; try discriminate; try reflexivity;
          try (destruct (m r)); try (destruct (m r2)); try reflexivity; discriminate. }
      rewrite El', Es'. change (opc (renInst m i)) with (opc i). rewrite <- Ar, <- Rd, <- R4, Cr, rdefs_ren.
      cbn [fst snd]. split; [|reflexivity].
      set (a := rargs t (RG s) i). set (rr := map (fun n => RG s (Phys n)) (rd t i)).
      destruct (Wr (clobber (RG s) (clob t i) (outClob t (opc i) a rr (WD s)))
                   (clobber (RG s') (clob t i) (outClob t (opc i) a rr (WD s)))
                   (outDef t (opc i) a rr (WD s))) as [A B].
      { intros v Hv N. unfold clobber. destruct (existsb (Nat.eqb (col v)) (clob t i)) eqn:Ex.
        - exfalso. change (nmem (col v) (clob t i) = true) in Ex. apply nmem_In in Ex.
          assert (M := live_mentioned _ _ _ Hv). destruct (col_alloc v M) as [C1 _].
          exact (E1 v (col v) Hv N Ex C1 eq_refl).
        - apply R1. now apply Pass. }
      { intros n N Hn. unfold clobber. destruct (existsb (Nat.eqb n) (clob t i)) eqn:Ex; [reflexivity|].
        change (nmem n (clob t i) = false) in Ex. apply nmem_nIn in Ex. apply R2.
        destruct (allocatable I n) eqn:An; [|now left]. right.
        destruct Hn as [Hn|Hn]; [discriminate|].
        destruct (callF t (opc i)) eqn:Ec.
        - destruct Hn as [Hn|Hn].
          + unfold Unext in Hn. rewrite Ec in Hn. apply in_app_or in Hn as [Hn|Hn].
            * left. now apply filter_In in Hn.
            * exfalso. apply Ex. now apply Hcall.
          + unfold Lnext in Hn. rewrite Ec in Hn. contradiction.
        - destruct Hn as [Hn|Hn]; auto. }
      split; cbn [RG SL WD]; auto.
Qed.

(** the scan of class [c] at this instruction, and what its records say *)
Definition scanInv (c : nat) (k : nat) (U L : list nat) (st : scst) : Prop :=
  (forall n, pcls I n = c -> allocatable I n = true -> In n U -> In n (und st)) /\
  (forall n, pcls I n = c -> allocatable I n = true -> In n L -> In n (lck st)) /\
  (forall v, vcls I v = c -> liveAt t p b k v -> In v (liv st)).

Lemma scan_step c U L st st' e :
  scanInv c j U L st -> scInst t I c li (base p b + j) i rest st = (st', e) ->
  scanInv c (S j) (Unext U) (Lnext L) st' /\
  (forall v n, vcls I v = c -> liveAt t p b (S j) v -> ~ In v (vdefs t i) -> In n (clob t i) -> pcls I n = c ->
     allocatable I n = true -> In (GE v n) e) /\
  (forall v n, vcls I v = c -> liveAt t p b (S j) v -> In n (pdefs t i) -> pcls I n = c -> allocatable I n = true ->
     In (GE v n) e) /\
  (forall v n, vcls I v = c -> In v (vdefs t i) -> In n (Unext U) \/ In n (Lnext L) -> pcls I n = c ->
     allocatable I n = true -> In (GE v n) e).
Proof using LS Eb Ej RT.
  intros (I1 & I2 & I3) H. unfold scInst in H.
  destruct (useSteps_spec I c li (base p b + j) (fops t i) st) as (S1 & S2 & S3).
  set (st1 := fold_left (useStep I c li (base p b + j)) (fops t i) st) in *.
  assert (L1 : forall v, vcls I v = c -> liveAt t p b (S j) v -> ~ In v (vdefs t i) -> In v (liv st1)).
  { intros v Hc Hv N. apply S3.
    - apply I3; [exact Hc|]. apply live_pass with blk i; auto.
    - intros [_ D]. destruct (ls_dead t p li LS v _ D) as (b' & blk' & j' & i' & B1 & B2 & B3 & B4 & B5).
      assert (Lj : j < length blk) by (apply nth_error_Some; congruence).
      assert (Lj' : j' < length blk') by (apply nth_error_Some; congruence).
      destruct (base_inj p b j blk b' j' blk' Eb Lj B1 Lj' B3) as [<- <-].
      rewrite Eb in B1. injection B1 as <-. rewrite Ej in B2. injection B2 as <-. tauto. }
  assert (Un1 : forall n, pcls I n = c -> allocatable I n = true -> In n (U1 U) -> In n (und st1)).
  { intros n Hc Ha Hn. unfold U1 in Hn. apply filter_In in Hn as [Hn N]. apply negb_true_iff, nmem_nIn in N.
    apply S1. split; [now apply I1|]. intros (X & _). apply N. apply in_puses. now apply (fops_in FUse (Phys n)). }
  set (st2e := if callF t (opc i) then _ else _) in H.
  assert (T2 : (forall n, pcls I n = c -> allocatable I n = true -> In n (Unext U) -> In n (und (fst st2e))) /\
               (forall n, pcls I n = c -> allocatable I n = true -> In n (Lnext L) -> In n (lck (fst st2e)) \/ In n (pdefs t i)) /\
               liv (fst st2e) = liv st1 /\
               (forall v n, In v (liv st1) -> In n (clob t i) -> pcls I n = c -> allocatable I n = true -> In (GE v n) (snd st2e))).
  { subst st2e. unfold Unext, Lnext. destruct (callF t (opc i)) eqn:Ec; cbn [fst snd und lck liv].
    - split; [|split; [|split]].
      + intros n Hc Ha Hn. apply in_or_app. apply in_app_or in Hn as [Hn|Hn]; [left; now apply Un1|right].
        unfold collectUnder. apply filter_In. split; [exact Hn|]. now apply Nat.eqb_eq.
      + auto.
      + reflexivity.
      + intros v n Hv Hn Hc Ha. apply in_flat_map. exists n. split; [|apply in_map_iff; exists v; auto].
        pose proof (rt_clob t I RT i n Hn Ha) as X. unfold callRegs.
        destruct (usage I (opc i) (map blank (ops i))) as [l|].
        * apply filter_In. split; [exact X|]. now apply Nat.eqb_eq.
        * apply filter_In. split; [|exact X]. unfold allocatable in Ha. rewrite Hc in Ha. now apply nmem_In.
    - split; [exact Un1|]. split; [|split; [reflexivity|]].
      + intros n Hc Ha Hn. apply in_app_or in Hn as [Hn|Hn]; [left|now right]. rewrite S2. now apply I2.
      + intros v n _ Hn. exfalso. unfold clob in Hn. rewrite Ec in Hn. destruct Hn. }
  destruct T2 as (T1 & T2 & T3 & T4). destruct st2e as [st2 e2]. cbn [fst snd] in *.
  destruct (defStep I c (fops t i) st2) as [st3 e3] eqn:Ed. injection H as <- <-.
  destruct (defStep_spec I c (fops t i) st2 st3 e3 Ed) as (D1 & D2 & D3 & D4 & D5 & D6).
  assert (DV : forall v, vcls I v = c -> In v (vdefs t i) -> dV I c (fops t i) v).
  { intros v Hc Hv. split; [|exact Hc]. now apply rdefs_in, in_vdefs. }
  assert (DP : forall n, pcls I n = c -> allocatable I n = true -> In n (pdefs t i) -> dP I c (fops t i) n).
  { intros n Hc Ha Hn. split; [now apply rdefs_in, in_pdefs|]. split; [exact Hc|]. now apply alloc_zero. }
  assert (LV : forall v, vcls I v = c -> liveAt t p b (S j) v -> In v (liv st2) \/ dV I c (fops t i) v).
  { intros v Hc Hv. destruct (in_dec Nat.eq_dec v (vdefs t i)) as [X|X]; [right; now apply DV|left].
    rewrite T3. now apply L1. }
  split; [split; [|split]|split; [|split]].
  - intros n Hc Ha Hn. rewrite D1. now apply T1.
  - intros n Hc Ha Hn. apply D2. destruct (T2 n Hc Ha Hn) as [X|X]; [now left|right; now apply DP].
  - intros v Hc Hv. apply D3. now apply LV.
  - intros v n Hc Hv N Hn Hp Ha. apply in_or_app. right. apply in_or_app. left. apply T4; auto.
  - intros v n Hc Hv Hn Hp Ha. apply in_or_app. right. apply in_or_app. right. apply D4; [now apply LV|now apply DP].
  - intros v n Hc Hv Hn Hp Ha. apply in_or_app. right. apply in_or_app. right.
    destruct Hn as [Hn|Hn]; [apply D5; [now apply DV|left; now apply T1]|].
    destruct (T2 n Hp Ha Hn) as [X|X]; [apply D5; [now apply DV|now right]|].
    apply D4; [right; now apply DV|now apply DP].
Qed.
End Inst.

(** one block *)
Lemma blk_sim b blk : nth_error p b = Some blk -> forall suf pfx U L s s' d,
  blk = pfx ++ suf -> disc t I U L suf = true ->
  simR (liveAt t p b (length pfx)) U L s s' ->
  (forall c, c < ncls I -> exists st, scanInv b c (length pfx) U L st /\
     forall v n, In (GE v n) (scBlk t I c li (base p b + length pfx) suf st) -> col v <> n) ->
  exists U' L', simR (liveAt t p b (length blk)) U' L' (fst (rrunB t suf s d)) (fst (rrunB t (map (renInst m) suf) s' d)) /\
  snd (rrunB t suf s d) = snd (rrunB t (map (renInst m) suf) s' d).
Proof using LS RT IN Mcol V1 V3.
  intros Eb. induction suf as [|i rest IH]; intros pfx U L s s' d Ebl Hd R Hs.
  - cbn. exists U, L. rewrite app_nil_r in Ebl. subst blk. auto.
  - cbn [disc] in Hd. apply andb_true_iff in Hd as [Hd1 Hd2].
    assert (Ej : nth_error blk (length pfx) = Some i).
    { rewrite Ebl, nth_error_app2 by lia. now rewrite Nat.sub_diag. }
    assert (Cls : forall v, mentioned t p v -> vcls I v < ncls I) by (apply (ri_cls t I p IN)).
    assert (Get : forall c, c < ncls I -> exists st st' e, scanInv b c (length pfx) U L st /\
       scInst t I c li (base p b + length pfx) i rest st = (st', e) /\
       (forall v n, In (GE v n) e -> col v <> n) /\
       (forall v n, In (GE v n) (scBlk t I c li (S (base p b + length pfx)) rest st') -> col v <> n)).
    { intros c Hc. destruct (Hs c Hc) as (st & H1 & H2). cbn [scBlk] in H2.
      destruct (scInst t I c li (base p b + length pfx) i rest st) as [st' e] eqn:Es.
      exists st, st', e. split; [exact H1|]. split; [exact Es|].
      split; intros v n X; apply H2; apply in_or_app; auto. }
    assert (Edge : forall v n, mentioned t p v -> col v = n -> vcls I v < ncls I /\ pcls I n = vcls I v).
    { intros v n M <-. split; [auto|]. now apply col_alloc. }
    assert (Ex : simR (liveAt t p b (S (length pfx))) (Unext i rest U) (Lnext i L)
                   (fst (rexec t i s)) (fst (rexec t (renInst m i) s')) /\
                 snd (rexec t i s) = snd (rexec t (renInst m i) s')).
    { apply (exec_sim b (length pfx) blk i rest Eb Ej U L s s' R).
      - intros n Hn Ha. rewrite forallb_forall in Hd1. specialize (Hd1 n Hn). rewrite Ha in Hd1. cbn [negb orb] in Hd1.
        apply orb_true_iff in Hd1 as [X|X]; apply nmem_In in X; auto.
      - intros Ec n Hn Ha. rewrite Ec in Hd2. apply andb_true_iff in Hd2 as [X _]. rewrite forallb_forall in X.
        specialize (X n Hn). rewrite Ha in X. cbn [negb orb] in X. now apply nmem_In.
      - intros v n Hv N Hn Ha E. destruct (Edge v n (live_mentioned _ _ _ Hv) E) as [Hc Hp].
        destruct (Get (vcls I v) Hc) as (st & st' & e & G1 & G2 & G3 & _).
        destruct (scan_step b (length pfx) blk i rest Eb Ej (vcls I v) U L st st' e G1 G2) as (_ & X & _).
        apply (G3 v n); auto.
      - intros v n Hv Hn Ha E. destruct (Edge v n (live_mentioned _ _ _ Hv) E) as [Hc Hp].
        destruct (Get (vcls I v) Hc) as (st & st' & e & G1 & G2 & G3 & _).
        destruct (scan_step b (length pfx) blk i rest Eb Ej (vcls I v) U L st st' e G1 G2) as (_ & _ & X & _).
        apply (G3 v n); auto.
      - intros v n Hv Hn Ha E. destruct (Edge v n (ment_def _ _ _ _ Eb Ej v Hv) E) as [Hc Hp].
        destruct (Get (vcls I v) Hc) as (st & st' & e & G1 & G2 & G3 & _).
        destruct (scan_step b (length pfx) blk i rest Eb Ej (vcls I v) U L st st' e G1 G2) as (_ & _ & _ & X).
        apply (G3 v n); auto.
      - intros u v Hu Hv N. assert (Mu := ment_def _ _ _ _ Eb Ej u Hu). assert (Mv := live_mentioned _ _ _ Hv).
        destruct (Nat.eq_dec (vcls I u) (vcls I v)) as [E|E].
        + apply V3; auto. exists (numOf (base p b + length pfx) + 1).
          split; apply (ls_def t p li LS b blk (length pfx) i); auto.
        + intros X. destruct (col_alloc u Mu) as [_ C1]. destruct (col_alloc v Mv) as [_ C2]. congruence. }
    destruct Ex as [Ex1 Ex2]. cbn [rrunB map].
    destruct (rexec t i s) as [s1 d1]. destruct (rexec t (renInst m i) s') as [s1' d1']. cbn [fst snd] in *. subst d1'.
    assert (Len : length (pfx ++ [i]) = S (length pfx)) by (rewrite app_length; cbn; lia).
    apply (IH (pfx ++ [i]) (Unext i rest U) (Lnext i L)).
    + now rewrite <- app_assoc.
    + unfold Unext, Lnext, U1. destruct (callF t (opc i)); [apply andb_true_iff in Hd2; apply Hd2|exact Hd2].
    + rewrite Len. exact Ex1.
    + intros c Hc. destruct (Get c Hc) as (st & st' & e & G1 & G2 & _ & G4). exists st'.
      rewrite Len. split.
      * apply (scan_step b (length pfx) blk i rest Eb Ej c U L st st' e G1 G2).
      * intros v n X. apply (G4 v n). replace (S (base p b + length pfx)) with (base p b + S (length pfx)) by lia. exact X.
Qed.

Lemma scAll_blk c q : forall b k n blk, nth_error q n = Some blk ->
  incl (scBlk t I c li (k + base q n) blk (scStart t I c li (b + n) blk)) (scAll t I c li b k q).
Proof.
  induction q as [|x q IH]; intros b k n blk E; [destruct n; discriminate|]. cbn [scAll].
  destruct n as [|n].
  - cbn in E. injection E as ->. rewrite base_0, !Nat.add_0_r. now apply incl_appl.
  - cbn in E. apply incl_appr. rewrite base_cons. replace (k + (length x + base q n)) with (k + length x + base q n) by lia.
    replace (b + S n) with (S b + n) by lia. now apply IH.
Qed.

Lemma rename_nth b : nth_error (rename m p) b = option_map (map (renInst m)) (nth_error p b).
Proof. unfold rename. apply nth_error_map. Qed.
Lemma lastKind_ren blk : lastKind t (map (renInst m) blk) = lastKind t blk.
Proof.
  unfold lastKind. rewrite <- map_rev. destruct (rev blk) as [|i r]; [reflexivity|]. cbn [map].
  unfold kindOf. rewrite blank_ren. reflexivity.
Qed.

(** the relation at the start of a block *)
Definition startR (b : nat) (s s' : rst W) : Prop :=
  forall blk, nth_error p b = Some blk ->
  simR (liveAt t p b 0) (if Nat.eqb b 0 then incoming t I blk else []) [] s s'.

Lemma run_sim n : forall b s s', startR b s s' -> WD s = WD s' ->
  robs (rrunF t p n b s) = robs (rrunF t (rename m p) n b s').
Proof using LS RT IN Mcol V1 V2 V3.
  induction n as [|n IH]; intros b s s' R Ew; cbn [rrunF].
  - unfold robs. cbn. congruence.
  - rewrite rename_nth. destruct (nth_error p b) as [blk|] eqn:Eb; cbn [option_map]; [|unfold robs; cbn; congruence].
    specialize (R blk Eb).
    assert (Hd := ri_disc t I p IN b blk Eb).
    destruct (blk_sim b blk Eb blk [] (if Nat.eqb b 0 then incoming t I blk else []) [] s s' 0 eq_refl Hd R)
      as (U' & L' & B1 & B2).
    { intros c Hc. exists (scStart t I c li b blk). split; [split; [|split]|].
      - intros x Hp Ha Hx. cbn. unfold collectUnder. apply filter_In.
        destruct (Nat.eqb b 0); [|destruct Hx]. split; [exact Hx|now apply Nat.eqb_eq].
      - intros x _ _ [].
      - intros v Hv Lv. cbn. apply filter_In. split; [|now apply Nat.eqb_eq]. now apply (ls_ins t p li LS).
      - intros v x Hx. apply (V2 c v x Hc). apply (scAll_blk c p 0 0 b blk Eb).
        cbn [length] in Hx. rewrite Nat.add_0_r in Hx. exact Hx. }
    rewrite lastKind_ren.
    destruct (rrunB t blk s 0) as [s1 d1]. destruct (rrunB t (map (renInst m) blk) s' 0) as [s1' d1'].
    cbn [fst snd] in *. subst d1'.
    destruct (rnext b (lastKind t blk) d1) as [x|] eqn:En.
    + apply IH; [|apply (sr_wd _ _ _ _ _ B1)].
      intros xb Ex. assert (Lx : x < length p) by (apply nth_error_Some; congruence).
      pose proof (rnext_succs t p b blk d1 x Eb En Lx) as Hs.
      assert (Nx : x <> 0) by (intros ->; exact (proj2 (ri_entry t I p IN) b Hs)).
      apply Nat.eqb_neq in Nx. rewrite Nx.
      destruct B1 as [P1 P2 P3 P4]. split; auto.
      * intros v Hv. apply P1. eapply live_edge; eauto.
      * intros y [Y|[[]|[]]]. apply P2. now left.
    + unfold robs. cbn. now rewrite (sr_wd _ _ _ _ _ B1).
Qed.

Theorem rename_same : rsame t p (rename m p).
Proof using LS RT IN Mcol V1 V2 V3.
  intros n s. apply run_sim; [|reflexivity]. intros blk Eb. split; auto.
  intros v Hv. exfalso. exact (proj1 (ri_entry t I p IN) v Hv).
Qed.
End Sim.
