(** sync only removes impossible values: on a non-empty range it describes exactly the same set. *)
From Coq Require Import ZArith Lia Bool ZifyBool List.
From Verif Require Import Word IntRangeModel IntRangeSpec IntRangeProofs IntRangeOps.
Local Open Scope Z_scope.
Ltac Zify.zify_post_hook ::= idtac.

Definition tighter (r' r : range) : Prop :=
  umin r <= umin r' /\ umax r' <= umax r /\ smin r <= smin r' /\ smax r' <= smax r /\
  (forall i, 0 <= i -> Z.testbit (kz r) i = true -> Z.testbit (kz r') i = true) /\
  (forall i, 0 <= i -> Z.testbit (ko r) i = true -> Z.testbit (ko r') i = true).

Lemma tighter_describes r' r x : tighter r' r -> describes r' x -> describes r x.
Proof.
  intros (T1 & T2 & T3 & T4 & T5 & T6) (Hx & Hu & Hs & Hz & Ho).
  unfold describes. repeat split; try lia; intros i Hi Hb; [apply Hz|apply Ho]; auto; [apply T5|apply T6]; auto; lia.
Qed.
Lemma tighter_trans a b c : tighter a b -> tighter b c -> tighter a c.
Proof.
  intros (T1 & T2 & T3 & T4 & T5 & T6) (U1 & U2 & U3 & U4 & U5 & U6).
  unfold tighter. repeat split; try lia; auto.
Qed.
Lemma tighter_s2u r : tighter (signed2Unsigned r) r.
Proof.
  unfold signed2Unsigned, tighter.
  destruct (0 <=? smin r); cbn [setU smax smin umin umax kz ko];
  destruct (smax r <? 0); cbn [setU smax smin umin umax kz ko]; repeat split; auto; lia.
Qed.
Lemma tighter_u2s r : tighter (unsigned2Signed r) r.
Proof.
  unfold unsigned2Signed, tighter.
  destruct (umax r <=? INT_MAX); cbn [setS smax smin umin umax kz ko];
  destruct (INT_MAX <? umin r); cbn [setS smax smin umin umax kz ko]; repeat split; auto; lia.
Qed.
Lemma tighter_u2b r : tighter (unsigned2Bit r) r.
Proof.
  unfold unsigned2Bit, tighter.
  destruct (u32 (Z.lxor (umin r) (umax r)) =? 0); cbn [setK smax smin umin umax kz ko];
    repeat split; try lia; intros i Hi Hb; rewrite Z.lor_spec, Hb; reflexivity.
Qed.
Lemma tighter_s2b r : tighter (signed2Bit r) r.
Proof.
  unfold signed2Bit, tighter.
  destruct (u32 (Z.lxor (smin r) (smax r)) =? 0); cbn [setK smax smin umin umax kz ko];
    repeat split; try lia; intros i Hi Hb; rewrite Z.lor_spec, Hb; reflexivity.
Qed.
Lemma tighter_b2u ck r x r' : wf r -> describes r x -> bit2Unsigned ck r = Some r' -> tighter r' r.
Proof.
  intros Hw Hd HE. revert HE. unfold bit2Unsigned, check.
  match goal with |- context [setU ?R _ _] =>
    match R with (if _ then _ else _) => set (r1 := R) end end.
  assert (Hr1 : tighter r1 r /\ wf r1 /\ describes r1 x).
  { assert (HT : tighter r1 r).
    { unfold r1, tighter. destruct (Z.lor (ko r) (kz r) =? UINT_MAX); cbn [setU smax smin umin umax kz ko];
        repeat split; auto; lia. }
    split; [assumption|].
    (* soundness of the first half follows as in b2u_sound *)
    pose proof (b2u_first r x Hw Hd) as HH. exact HH. }
  clearbody r1. destruct Hr1 as (HT & Hw1 & Hd1).
  pose proof (inferSuffix_spec r1 x Hw1 Hd1) as Hsuf.
  destruct (inferSuffix r1) as [suf len]. destruct Hsuf as [Hlen Hsuf]. cbn [fst snd].
  assert (Hpow : 0 < 2 ^ len) by (apply Z.pow_pos_nonneg; lia).
  assert (HM : (if len =? 32 then UINT_MAX else shl32 1 len - 1) = 2 ^ len - 1).
  { destruct (len =? 32) eqn:El; [apply Z.eqb_eq in El; subst; reflexivity|]. rewrite shl32_1 by lia. reflexivity. }
  rewrite HM.
  pose proof (Z.mod_pos_bound x (2 ^ len) Hpow) as Hsr. rewrite <- Hsuf in Hsr.
  destruct Hw1 as (V1 & V2 & V3 & V4 & V5 & V6). destruct Hd1 as (Dx & Du & Ds & _).
  rewrite !land_low by lia. rewrite !round_or by lia.
  match goal with |- context [setU r1 ?L ?H] => set (lo := L); set (hi := H) end.
  pose proof (Z.mod_pos_bound (umin r1) (2 ^ len) Hpow) as HB1.
  pose proof (Z.mod_pos_bound (umax r1) (2 ^ len) Hpow) as HB2.
  assert (Hlo : umin r1 <= lo).
  { unfold lo. destruct (umin r1 mod 2 ^ len =? suf) eqn:E; cbn [negb]; [lia|].
    apply Z.eqb_neq in E.
    destruct (umin r1 - umin r1 mod 2 ^ len + suf <? umin r1) eqn:E2; [|lia].
    apply Z.ltb_lt in E2.
    assert (Hne32 : len <> 32).
    { intros ->. change (2 ^ 32) with 4294967296 in *.
      rewrite (Z.mod_small (umin r1)) in E2 by lia. rewrite (Z.mod_small x) in Hsuf by lia. lia. }
    assert (Hu32 : u32 (2 ^ len - 1 + 1) = 2 ^ len).
    { replace (2 ^ len - 1 + 1) with (2 ^ len) by lia. apply u32_small.
      pose proof (pow2_le31 len ltac:(lia)). lia. }
    rewrite Hu32. pose proof (pow2_le31 len ltac:(lia)).
    unfold u64. rewrite Z.mod_small by lia. lia. }
  assert (Hhi : hi <= umax r1).
  { unfold hi. destruct (umax r1 mod 2 ^ len =? suf) eqn:E; cbn [negb]; [lia|].
    apply Z.eqb_neq in E.
    destruct (umax r1 <? umax r1 - umax r1 mod 2 ^ len + suf) eqn:E2; [|lia].
    apply Z.ltb_lt in E2.
    pose proof (mod_le_round2 (2 ^ len) (umax r1) x suf Hpow ltac:(lia) ltac:(lia) E2) as HH.
    assert (Hne32 : len <> 32).
    { intros ->. change (2 ^ 32) with 4294967296 in *. rewrite (Z.mod_small (umax r1)) in * by lia.
      rewrite (Z.mod_small x) in Hsuf by lia. lia. }
    assert (Hu32 : u32 (2 ^ len - 1 + 1) = 2 ^ len).
    { replace (2 ^ len - 1 + 1) with (2 ^ len) by lia. apply u32_small.
      pose proof (pow2_le31 len ltac:(lia)). lia. }
    rewrite Hu32. unfold u64. pose proof (pow2_le31 len ltac:(lia)).
    rewrite Z.mod_small by lia. lia. }
  clearbody lo hi.
  destruct (ck && negb (lo <=? hi)); [discriminate|]. intros [= <-].
  eapply tighter_trans; [|exact HT].
  unfold tighter; cbn [setU smax smin umin umax kz ko]. repeat split; auto; lia.
Qed.

Lemma sync_exact_lemma ck r x : wf r -> describes r x ->
  exists r', sync ck r = Some r' /\ wf r' /\ forall y, describes r' y <-> describes r y.
Proof.
  intros Hw Hd. destruct (sync_sound_lemma ck r x Hw Hd) as (r' & E & Hw' & Hd').
  exists r'. split; [assumption|]. split; [assumption|].
  intros y. split.
  - apply tighter_describes.
    unfold sync in E.
    destruct (s2u_sound r x Hw Hd) as [Hw1 Hd1].
    destruct (u2b_sound _ x Hw1 Hd1) as [Hw2 Hd2].
    destruct (bit2Unsigned ck (unsigned2Bit (signed2Unsigned r))) as [r2|] eqn:E2; [|discriminate].
    cbn [bind] in E. injection E as <-.
    eapply tighter_trans; [apply tighter_s2b|]. eapply tighter_trans; [apply tighter_u2s|].
    eapply tighter_trans; [eapply tighter_b2u; eassumption|].
    eapply tighter_trans; [apply tighter_u2b|]. apply tighter_s2u.
  - intros Hy. destruct (sync_sound_lemma ck r y Hw Hy) as (r'' & E'' & _ & Hd'').
    rewrite E in E''. injection E'' as <-. assumption.
Qed.
