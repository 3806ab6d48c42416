(** C43: the simulation between a function and its legalized form. *)
From Coq Require Import ZArith List Bool Lia PeanoNat ZifyBool.
From Verif Require Import Word Rv64 CmpModel DivConst Sim Isel IselSem IselStep IselPat PreRa PreRaProof.
Import ListNotations.
Local Open Scope Z_scope.
Ltac Zify.zify_post_hook ::= idtac.

Section P.
Context {W : Type}.
Variable opq : nat -> list Z -> W -> W * (reg -> Z).
Variable term : nat -> list Z -> W -> option nat.
Notation st := (st W).
Notation exec := (exec opq).
Notation exec1 := (exec1 opq).
Variables (f g : list blk) (n0 N : nat).
Hypothesis HF : legF f n0 = Some (g, N).
Hypothesis ND : NoDup (map fst f).
Hypothesis OK : Forall (okB n0) f.
Hypothesis N0 : (0 < n0)%nat.
Notation fstep := (pstep opq term f).
Notation gstep := (pstep opq term g).
Lemma lowF : forall j, In j (map fst f) -> (j < n0)%nat.
Proof. intros j Hj. apply in_map_iff in Hj as (b & <- & Hb). rewrite Forall_forall in OK. apply (OK b Hb). Qed.
Lemma NDg : NoDup (map fst g).
Proof. destruct (legF_labels n0 f n0 g N HF (le_n _) ND lowF) as (_ & A & _). exact A. Qed.
Definition RR (x y : list pin * list blk * st) : Prop :=
  let '(c, rest, s) := x in let '(c', rest', s') := y in
  exists n n1 bs rs n2 pref, legC c n = Some (c', bs, n1) /\ legF rest n1 = Some (rs, n2) /\ rest' = bs ++ rs /\ g = pref ++ rest' /\
    agree n0 s s' /\ (n0 <= n)%nat /\ Forall (okP n0) c /\ Forall (okB n0) rest.
Lemma rdA (s t : st) o : agree n0 s t -> (forall r, In r (oreg o) -> (rid r < n0)%nat) -> rd s o = rd t o.
Proof. intros (A & _) H. apply rd_same. intros r Hr. apply A, H, Hr. Qed.
Lemma jump_ok k s s' : agree n0 s s' -> Sim.safe fstep ([PJ k], [], s) ->
  match jump f k s, jump g k s' with Go s1 t1, Go s2 t2 => t1 = t2 /\ RR s1 s2 | Fin r1 t1, Fin r2 t2 => r1 = r2 /\ t1 = t2 | _, _ => False end.
Proof.
  intros A Hs. unfold jump. destruct (goto k f) as [[c q]|] eqn:G.
  - destruct (legF_goto n0 k f n0 g N c q HF (le_n _) lowF G) as (m & c' & bs & m1 & rs & E1 & E2 & E3 & E4 & pref & E5). rewrite E3. split; [reflexivity|].
    exists m, m1, bs, rs, N, pref. destruct (goto_in _ _ _ _ G) as (p & Ep). rewrite Ep in OK. apply Forall_app in OK as [_ O]. apply Forall_cons_iff in O as [O1 O2].
    repeat (split; [first [assumption|reflexivity]|]). split; [apply O1|exact O2].
  - apply (Hs 1%nat []). cbn. unfold jump. rewrite G. reflexivity.
Qed.
Lemma safe_jump k x s : Sim.safe fstep x -> fstep x = jump f k s -> Sim.safe fstep ([PJ k], [], s).
Proof.
  intros Hs E n t Q. apply (Hs n t). destruct n as [|n]; [discriminate Q|]. cbn [run] in Q |- *. rewrite E. exact Q.
Qed.
(** a jump to a block created for the rest of the current one *)
Lemma goto_fresh n x k c bs rs pref : g = pref ++ ((n, x) :: (k, c) :: bs) ++ rs -> goto k g = Some (c, bs ++ rs).
Proof.
  intros E. pose proof NDg as D. rewrite E in D |- *. rewrite map_app in D. cbn [app map fst] in D.
  rewrite goto_skip.
  - cbn [app goto]. destruct (Nat.eqb_spec n k) as [-> | Q].
    + exfalso. apply NoDup_remove_2 in D. apply D. apply in_or_app. right. left. reflexivity.
    + rewrite Nat.eqb_refl. reflexivity.
  - intros Q. change (map fst pref ++ n :: k :: map fst (bs ++ rs)) with (map fst pref ++ [n] ++ k :: map fst (bs ++ rs)) in D. rewrite app_assoc in D.
    apply NoDup_remove_2 in D. apply D. apply in_or_app. left. apply in_or_app. left. exact Q.
Qed.
Lemma meets_g (R : _ -> _ -> Prop) x y x' m y' : fstep x = Go x' [] -> run gstep (S m) y = Go y' [] -> R x' y' -> meets fstep gstep R x y.
Proof.
  intros A B C. exists 1%nat, (S m). split; [lia|]. split; [lia|]. rewrite B. cbn [run]. rewrite A. cbn. auto.
Qed.
Lemma run_S m (x y z : list pin * list blk * st) : gstep x = Go y [] -> run gstep m y = Go z [] -> run gstep (S m) x = Go z [].
Proof. intros A B. cbn [run]. rewrite A, B. reflexivity. Qed.
Lemma okI_below i : okI n0 i -> below n0 i. Proof. intros (A & _). exact A. Qed.
Lemma noop (s : st) d : rid d <> 0%nat -> exists s', exec1 (R1 MoveGPR d (OR d)) s = Some s' /\ (forall n, agree n s s').
Proof.
  intros Nd. eexists. split; [reflexivity|]. intros n. split; [|split; reflexivity]. intros r _. cbn [evR1 rd]. rewrite (proj2 (Nat.eqb_neq _ _) Nd).
  unfold set. cbn [R]. destruct (reg_eqb r d) eqn:Q; [apply reg_eqb_eq in Q as ->; reflexivity|reflexivity].
Qed.
Lemma agree_sym n (s t : st) : agree n s t -> agree n t s.
Proof. intros (A & B & C). split; [|split; auto]. intros r Hr. symmetry. apply A, Hr. Qed.
(** setting a register does not change what operands without it read *)
Lemma rd_set_other (s : st) d v o : ~ In d (oreg o) -> rd (set s d v) o = rd s o.
Proof.
  destruct o as [r|z t]; [|reflexivity]. cbn [oreg In rd]. intros H. destruct (Nat.eqb (rid r) 0); [reflexivity|]. apply set_other. intros ->. apply H. left. reflexivity.
Qed.

Definition reach (x y : list pin * list blk * st) : Prop := exists m, run gstep m x = Go y [].
Lemma reach_trans x y z : reach x y -> reach y z -> reach x z.
Proof. intros (a & A) (b & B). exists (a + b)%nat. exact (run_trans gstep a b x y z A B). Qed.
Lemma reach1 x y : gstep x = Go y [] -> reach x y.
Proof. intros H. exists 1%nat. apply run1, H. Qed.
Lemma reach_line l q rest s s' : forallb straight l = true -> exec l s = Some s' -> reach (map PI l ++ q, rest, s) (q, rest, s').
Proof. intros A B. exists (length l). exact (line opq term g l q rest s s' A B). Qed.
Lemma meets_r (R : _ -> _ -> Prop) x y x' y1 y' : fstep x = Go x' [] -> gstep y = Go y1 [] -> reach y1 y' -> R x' y' -> meets fstep gstep R x y.
Proof. intros A B (m & C) D. apply (meets_g R x y x' m y'); [exact A| |exact D]. exact (run_S m y y1 y' B C). Qed.
Lemma agree_set2 (s t : st) d v w : agree n0 (set (set s d v) d w) t -> agree n0 (set s d w) t.
Proof.
  intros (A & B & C). split; [|split; assumption]. intros r Hr. rewrite <- (A r Hr). unfold set. cbn [R]. destruct (reg_eqb r d); reflexivity.
Qed.
Lemma viaDst_rd (s t : st) d a l v : agree n0 (set s d v) t -> (rid d < n0)%nat -> rid d <> 0%nat -> v = rd s a -> ~ In d (oreg l) ->
  (forall r, In r (oreg l) -> (rid r < n0)%nat) -> rd t (viaDst d a l) = rd s l.
Proof.
  intros A Ld Nd -> Nl Ll. unfold viaDst. destruct (opnd_eqb l a && negb (isZero l)) eqn:E.
  - apply andb_prop in E as [E _]. rewrite <- (rdA (set s d (rd s a)) t (OR d)); [|exact A|intros r [<- | []]; exact Ld].
    rewrite rd_set_same by exact Nd. destruct l as [x|x tx], a as [y|y ty]; cbn [opnd_eqb] in E; try discriminate.
    + apply reg_eqb_eq in E as ->. reflexivity.
    + apply Z.eqb_eq in E as ->. reflexivity.
  - rewrite <- (rdA _ _ l A) by exact Ll. apply rd_set_other, Nl.
Qed.
Lemma arInst_ok o d a b i (s : st) : arInst o d a b = Some i -> immB b -> exec1 i s = Some (set s d (evAr o (rd s a) (rd s b))) /\ straight i = true.
Proof.
  unfold arInst. destruct o as [o|o].
  - intros H _. injection H as <-. split; reflexivity.
  - destruct b as [r|z t]; [discriminate|]. intros H B. injection H as <-. split; [|reflexivity]. cbn [Isel.exec1 evAr rd]. cbn [immB] in B. rewrite s64_u64 by exact B. reflexivity.
Qed.
Lemma sim_ok x y : Sim.safe fstep x -> RR x y -> meets fstep gstep RR x y.
Proof using HF ND OK N0.
  destruct x as [[c rest] s], y as [[c' rest'] t]. intros Hs (n & n1 & bs & rs & n2 & pref & Ec & Ef & -> & Eg & A & L & Oc & Or).
  destruct c as [|x q].
  { (* the end of the block *)
    injection Ec as <- <- <-. cbn [app] in *. destruct rest as [|[k c] q].
    - exfalso. apply (Hs 1%nat []). reflexivity.
    - cbn [legF] in Ef. destruct (legC c n) as [[[c1 bs] m1]|] eqn:E1; [|discriminate]. destruct (legF q m1) as [[rs' m2]|] eqn:E2; [|discriminate].
      injection Ef as <- <-. apply meets1. cbn [pstep]. split; [reflexivity|]. apply Forall_cons_iff in Or as [O1 O2].
      exists n, m1, bs, rs', m2, (pref ++ [(k, c1)]). rewrite <- app_assoc. repeat (split; [first [assumption|reflexivity]|]). split; [apply O1|exact O2]. }
  apply Forall_cons_iff in Oc as [Ox Oq]. destruct (legC_inv _ _ _ _ _ _ Ec) as [K | [K | [K | K]]].
  - destruct K as (cc & d & a & b & l & r & ma & mb & m1 & la & m2 & lb & cq & bq & -> & Ea & Eb & Ela & Elb & Eq & -> & ->).
    destruct Ox as (Bl & Nz & Nd0).
    assert (Ld : (rid d < n0)%nat) by (apply Bl, in_regs_def; left; reflexivity). assert (Nd : rid d <> 0%nat) by (apply Nz; left; reflexivity).
    assert (U : forall z, In z (oreg a ++ oreg b ++ oreg l ++ oreg r) -> (rid z < n0)%nat) by (intros z Hz; apply Bl, in_regs_use; exact Hz).
    rewrite !in_app_iff in Nd0.
    assert (Ua : forall z, In z (oreg a) -> (rid z < n0)%nat) by (intros z Hz; apply U; rewrite !in_app_iff; auto).
    assert (Ub : forall z, In z (oreg b) -> (rid z < n0)%nat) by (intros z Hz; apply U; rewrite !in_app_iff; auto).
    assert (Ul : forall z, In z (oreg l) -> (rid z < n0)%nat) by (intros z Hz; apply U; rewrite !in_app_iff; auto).
    assert (Ur : forall z, In z (oreg r) -> (rid z < n0)%nat) by (intros z Hz; apply U; rewrite !in_app_iff; auto).
    destruct (moveTo_ok opq term n0 d a ma Ea Ld Nd Ua) as (Oma & Dma & Xma). destruct (moveTo_ok opq term n0 d b mb Eb Ld Nd Ub) as (Omb & Dmb & Xmb).
    destruct (noop t d Nd) as (t1 & Et1 & At1).
    destruct (leg1_ok opq term n0 (S (S n)) ma m1 la s t1 _ d Ela Oma ltac:(lia) Dma (agree_trans _ _ _ _ A (At1 n0)) (Xma s)) as (La & Sla & t2 & Et2 & At2).
    assert (Rl : cmpV cc (rd t2 l) (rd t2 r) = cmpV cc (rd s l) (rd s r)).
    { rewrite <- (rdA _ _ l At2), <- (rdA _ _ r At2) by assumption. rewrite !rd_set_other by tauto. reflexivity. }
    set (G := g) in *. cbn [app] in Eg.
    assert (Gt : goto (S n) g = Some (cq, bq ++ rs)) by (apply (goto_fresh n (map PI lb ++ [PJ (S n)]) (S n) cq bq rs pref); exact Eg).
    assert (Fin : forall v u, agree n0 (set s d v) u -> RR (q, rest, set s d v) (cq, bq ++ rs, u)).
    { intros v u Au. exists m2, n1, bq, rs, n2, (pref ++ [(n, map PI lb ++ [PJ (S n)]); (S n, cq)]). rewrite <- app_assoc.
      pose proof (leg1_le _ _ _ _ Elb) as [Lb _]. repeat (split; [first [assumption|reflexivity|lia]|]). exact Or. }
    destruct (cmpV cc (rd s l) (rd s r)) eqn:Cd.
    + eapply meets_r with (y1 := (map PI la ++ [PI (BrR cc l r (S n))], (n, map PI lb ++ [PJ (S n)]) :: (S n, cq) :: bq ++ rs, t1)).
      * cbn [pstep Isel.exec1]. rewrite Cd. reflexivity.
      * rewrite step_straight by reflexivity. rewrite Et1. reflexivity.
      * eapply reach_trans; [apply reach_line; eassumption|]. apply reach1. cbn [pstep]. rewrite Rl. unfold jump. rewrite Gt. reflexivity.
      * apply Fin, At2.
    + pose proof (Xmb (set s d (rd s a))) as Xb. rewrite (rd_set_other s d _ b) in Xb by tauto.
      destruct (leg1_ok opq term n0 m1 mb m2 lb _ t2 _ d Elb Omb ltac:(lia) Dmb At2 Xb) as (Lb & Slb & t3 & Et3 & At3).
      eapply meets_r with (y1 := (map PI la ++ [PI (BrR cc l r (S n))], (n, map PI lb ++ [PJ (S n)]) :: (S n, cq) :: bq ++ rs, t1)).
      * cbn [pstep Isel.exec1]. rewrite Cd. reflexivity.
      * rewrite step_straight by reflexivity. rewrite Et1. reflexivity.
      * eapply reach_trans; [apply reach_line; eassumption|]. eapply reach_trans; [apply reach1; cbn [pstep]; rewrite Rl; reflexivity|].
        eapply reach_trans; [apply reach1; cbn [pstep]; reflexivity|]. eapply reach_trans; [apply reach_line; eassumption|].
        apply reach1. cbn [pstep]. unfold jump. rewrite Gt. reflexivity.
      * apply Fin. apply agree_set2 in At3. exact At3.
  - destruct K as (o & cc & d & a & b & l & r & i & cq & bq & -> & Ei & Eq & -> & ->).
    destruct Ox as (Bl & Nz & Nd0 & Ib).
    assert (Ld : (rid d < n0)%nat) by (apply Bl, in_regs_def; left; reflexivity). assert (Nd : rid d <> 0%nat) by (apply Nz; left; reflexivity).
    assert (U : forall z, In z (oreg a ++ oreg b ++ oreg l ++ oreg r) -> (rid z < n0)%nat) by (intros z Hz; apply Bl, in_regs_use; exact Hz).
    rewrite !in_app_iff in Nd0.
    assert (Ua : forall z, In z (oreg a) -> (rid z < n0)%nat) by (intros z Hz; apply U; rewrite !in_app_iff; auto).
    assert (Ub : forall z, In z (oreg b) -> (rid z < n0)%nat) by (intros z Hz; apply U; rewrite !in_app_iff; auto).
    assert (Ul : forall z, In z (oreg l) -> (rid z < n0)%nat) by (intros z Hz; apply U; rewrite !in_app_iff; auto).
    assert (Ur : forall z, In z (oreg r) -> (rid z < n0)%nat) by (intros z Hz; apply U; rewrite !in_app_iff; auto).
    destruct (noop t d Nd) as (t1 & Et1 & At1). pose proof (agree_trans _ _ _ _ A (At1 n0)) as A1.
    set (t2 := set t1 d (rd t1 a)).
    assert (At2 : agree n0 (set s d (rd s a)) t2) by (unfold t2; rewrite <- (rdA s t1 a A1 Ua); apply agree_set, A1).
    assert (Rl : cmpV (invI cc) (rd t2 (viaDst d a l)) (rd t2 (viaDst d a r)) = negb (cmpV cc (rd s l) (rd s r))).
    { rewrite (viaDst_rd s t2 d a l _ At2 Ld Nd eq_refl) by tauto. rewrite (viaDst_rd s t2 d a r _ At2 Ld Nd eq_refl) by tauto.
      unfold cmpV. apply doCompare_inv. }
    cbn [app] in Eg. assert (Gt : goto (S n) g = Some (cq, bq ++ rs)) by (apply (goto_fresh n [PI i; PJ (S n)] (S n) cq bq rs pref); exact Eg).
    assert (Fin : forall v u, agree n0 (set s d v) u -> RR (q, rest, set s d v) (cq, bq ++ rs, u)).
    { intros v u Au. exists (S (S n)), n1, bq, rs, n2, (pref ++ [(n, [PI i; PJ (S n)]); (S n, cq)]). rewrite <- app_assoc.
      repeat (split; [first [assumption|reflexivity|lia]|]). exact Or. }
    destruct (cmpV cc (rd s l) (rd s r)) eqn:Cd; cbn [negb] in Rl.
    + destruct (arInst_ok o d (OR d) b i t2 Ei Ib) as [Xi Si].
      eapply meets_r; [|rewrite step_straight by reflexivity; rewrite Et1; reflexivity| |].
      * cbn [pstep Isel.exec1]. rewrite Cd. reflexivity.
      * eapply reach_trans; [apply reach1; rewrite step_straight by reflexivity; reflexivity|].
        eapply reach_trans; [apply reach1; cbn [pstep evR1]; fold t2; rewrite Rl; reflexivity|].
        eapply reach_trans; [apply reach1; cbn [pstep app]; reflexivity|].
        eapply reach_trans; [apply reach1; rewrite step_straight by exact Si; rewrite Xi; reflexivity|].
        apply reach1. cbn [pstep]. unfold jump. rewrite Gt. reflexivity.
      * apply Fin. apply (agree_set2 _ _ d (rd s a)). rewrite <- (rdA _ _ b At2 Ub), (rd_set_other s d _ b) by tauto.
        rewrite <- (rdA _ _ (OR d) At2) by (intros z [<- | []]; exact Ld). rewrite rd_set_same by exact Nd. apply agree_set, At2.
    + eapply meets_r; [|rewrite step_straight by reflexivity; rewrite Et1; reflexivity| |].
      * cbn [pstep Isel.exec1]. rewrite Cd. reflexivity.
      * eapply reach_trans; [apply reach1; rewrite step_straight by reflexivity; reflexivity|].
        apply reach1. cbn [pstep evR1]. fold t2. rewrite Rl. unfold jump. rewrite Gt. reflexivity.
      * apply Fin, At2.
  - destruct K as (i & m & l & cq & -> & El & Eq & -> & Ns).
    assert (Keep : forall s' t', agree n0 s' t' -> RR (q, rest, s') (cq, bs ++ rs, t')).
    { intros s' t' A'. exists m, n1, bs, rs, n2, pref. pose proof (leg1_le _ _ _ _ El) as [Lm _]. repeat (split; [first [assumption|reflexivity|lia]|]). exact Or. }
    destruct (dstOf i) as [d|] eqn:D.
    + destruct (exec1 i s) as [s'|] eqn:E1.
      * destruct (leg1_ok opq term n0 n i m l s t s' d El Ox L D A E1) as (_ & Sl & t' & Et & At). pose proof (leg1_le _ _ _ _ El) as [_ Nl].
        exists 1%nat, (length l). split; [lia|]. split; [destruct l; [contradiction|cbn; lia]|].
        rewrite (line opq term g l cq (bs ++ rs) t t' Sl Et). cbn [run]. rewrite step_straight by (unfold straight; rewrite D; reflexivity). rewrite E1. cbn. split; [reflexivity|].
        apply Keep, At.
      * exfalso. apply (Hs 1%nat []). cbn [run]. rewrite step_straight by (unfold straight; rewrite D; reflexivity). rewrite E1. reflexivity.
    + assert (l = [i]) as -> by (destruct i; cbn in D; try discriminate D; cbn [leg1] in El; congruence). cbn [map app]. apply meets1.
      destruct i as [| | | | |cb kb| | | | | | |cc la ra ka|ko ds us]; cbn in D; try discriminate D.
      * exfalso. apply (Hs 1%nat []). reflexivity.
      * destruct Ox as (Bl & _). assert (U : forall z, In z (oreg la ++ oreg ra) -> (rid z < n0)%nat) by (intros z Hz; apply Bl, in_regs_use; exact Hz).
        assert (Ql : rd s la = rd t la) by (apply (rdA s t la A); intros z Hz; apply U, in_or_app; left; exact Hz).
        assert (Qr : rd s ra = rd t ra) by (apply (rdA s t ra A); intros z Hz; apply U, in_or_app; right; exact Hz).
        cbn [pstep]. rewrite <- Ql, <- Qr. destruct (cmpV cc (rd s la) (rd s ra)) eqn:Cd.
        -- apply (jump_ok ka s t A). refine (safe_jump ka _ s Hs _). cbn [pstep]. rewrite Cd. reflexivity.
        -- split; [reflexivity|]. apply Keep, A.
      * destruct Ox as (Bl & _). destruct (exec1 (Opq ko ds us) s) as [s'|] eqn:E1.
        -- destruct (exec1_agree' opq n0 (Opq ko ds us) s t s' Bl A E1) as (t' & Et & At). cbn [pstep]. rewrite E1, Et. split; [f_equal; apply At|apply Keep, At].
        -- exfalso. apply (Hs 1%nat []). cbn [run pstep]. rewrite E1. reflexivity.
  - destruct K as (cq & Eq & -> & Nx).
    destruct x as [i|k|tt us ls]; [contradiction| |]; apply meets1; cbn [pstep].
    + apply (jump_ok k s t A). exact (safe_jump k _ s Hs eq_refl).
    + assert (Eu : map (rd s) us = map (rd t) us).
      { apply map_ext_in. intros o Ho. apply (rdA s t o A). intros r Hr. apply Ox. apply in_flat_map. exists o. auto. }
      destruct A as (A1 & A2 & A3). rewrite <- Eu, <- A2. destruct (term tt (map (rd s) us) (Wd s)) as [j|] eqn:Et; [|auto].
      destruct (nth_error ls j) as [k|] eqn:Ek.
      * apply (jump_ok k s t); [split; [|split]; assumption|]. refine (safe_jump k _ s Hs _). cbn [pstep]. rewrite Et, Ek. reflexivity.
      * apply (Hs 1%nat []). cbn [run pstep]. rewrite Et, Ek. reflexivity.
Qed.
Theorem refine_ok (s : st) : refinesAt fstep gstep (start f s) (start g s).
Proof using HF ND OK N0.
  apply (sim_refines fstep gstep RR sim_ok). exists n0, n0, [], g, N, []. repeat (split; [first [assumption|reflexivity|apply agree_refl|constructor]|]). exact OK.
Qed.
End P.
