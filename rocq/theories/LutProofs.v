(** Proofs about the lookup-table pass (Lut.v). *)
From Coq Require Import ZArith List Lia Bool Permutation.
From Verif Require Import Word Lut.
Import ListNotations.
Open Scope Z_scope.

(** ** signed w-bit representatives *)
Lemma p2 w : 1 <= w -> 2 ^ w = 2 * 2 ^ (w - 1) /\ 0 < 2 ^ (w - 1).
Proof.
  intros H. split; [|apply Z.pow_pos_nonneg; lia].
  replace w with (1 + (w - 1)) at 1 by lia. rewrite Z.pow_add_r by lia. reflexivity.
Qed.
Lemma sgn_rng w x : 1 <= w -> - 2 ^ (w - 1) <= sgn w x < 2 ^ (w - 1).
Proof.
  intros H. unfold sgn. destruct (p2 w H). pose proof (Z.mod_pos_bound (x + 2 ^ (w - 1)) (2 ^ w)). lia.
Qed.
Lemma sgn_ex w x : 1 <= w -> exists t, sgn w x = x + t * 2 ^ w.
Proof.
  intros H. unfold sgn. destruct (p2 w H). exists (- ((x + 2 ^ (w - 1)) / 2 ^ w)).
  pose proof (Z.div_mod (x + 2 ^ (w - 1)) (2 ^ w)). lia.
Qed.
Lemma sgn_add_mult w x t : 1 <= w -> sgn w (x + t * 2 ^ w) = sgn w x.
Proof.
  intros H. unfold sgn. destruct (p2 w H). replace (x + t * 2 ^ w + 2 ^ (w - 1)) with (x + 2 ^ (w - 1) + t * 2 ^ w) by lia.
  now rewrite Z.mod_add by lia.
Qed.
Lemma sgn_id w x : 1 <= w -> - 2 ^ (w - 1) <= x < 2 ^ (w - 1) -> sgn w x = x.
Proof.
  intros H R. unfold sgn. destruct (p2 w H). rewrite Z.mod_small by lia. lia.
Qed.
Lemma sgn_idem w x : 1 <= w -> sgn w (sgn w x) = sgn w x.
Proof. intros H. apply sgn_id; auto. now apply sgn_rng. Qed.
Lemma sgn_add_l w x y : 1 <= w -> sgn w (sgn w x + y) = sgn w (x + y).
Proof.
  intros H. destruct (sgn_ex w x H) as (t & ->). replace (x + t * 2 ^ w + y) with (x + y + t * 2 ^ w) by lia.
  now apply sgn_add_mult.
Qed.
Lemma sgn_sub_r w x y : 1 <= w -> sgn w (x - sgn w y) = sgn w (x - y).
Proof.
  intros H. destruct (sgn_ex w y H) as (t & ->). replace (x - (y + t * 2 ^ w)) with (x - y + (- t) * 2 ^ w) by lia.
  now apply sgn_add_mult.
Qed.
Lemma sgn_uns w x : 1 <= w -> uns w (sgn w x) = uns w x.
Proof.
  intros H. destruct (sgn_ex w x H) as (t & ->). unfold uns. destruct (p2 w H). now rewrite Z.mod_add by lia.
Qed.

(** ** finite tables *)
Lemma assoc_In {A} k (v : A) l : NoDup (map fst l) -> In (k, v) l -> assoc k l = Some v.
Proof.
  induction l as [|[k' v'] l IH]; cbn [assoc map fst]; intros N I; [contradiction|]. inversion N; subst.
  destruct I as [I|I].
  - injection I as -> ->. now rewrite Z.eqb_refl.
  - destruct (Z.eqb_spec k' k) as [->|]; auto. exfalso. apply H1. apply in_map_iff. exists (k, v). auto.
Qed.
Lemma assoc_In' {A} k (v : A) l : assoc k l = Some v -> In (k, v) l.
Proof.
  induction l as [|[k' v'] l IH]; cbn; [discriminate|]. destruct (Z.eqb_spec k' k) as [->|]; auto. intros [= ->]. auto.
Qed.

Lemma full_keys (l : list Z) n : NoDup l -> (forall k, In k l -> 0 <= k < n) -> Z.of_nat (length l) = n ->
  forall k, 0 <= k < n -> In k l.
Proof.
  intros N R L k K.
  assert (H : incl (map Z.of_nat (seq 0 (Z.to_nat n))) l).
  { apply NoDup_length_incl; auto.
    - rewrite map_length, seq_length. lia.
    - intros x Hx. specialize (R x Hx). apply in_map_iff. exists (Z.to_nat x). split; [lia|]. apply in_seq. lia. }
  apply H. apply in_map_iff. exists (Z.to_nat k). split; [lia|]. apply in_seq. lia.
Qed.

Lemma value_eqb_eq a b : value_eqb a b = true -> a = b.
Proof. destruct a, b; cbn; try discriminate; intros H; apply Nat.eqb_eq in H; congruence. Qed.

Section Pat.
Variables (ty cty : nat -> Z) (cval : nat -> Z).
Variable order : list (Z * value) -> list (Z * value).
Hypothesis Horder : forall l, Permutation (order l) l.
Notation oval := (oval ty cty cval).
Notation vty := (vty ty cty).

Lemma constants_spec l r : constants cty cval l = Some r -> forall e,
  (forall k v, In (k, v) l -> In (k, oval e v) r) /\ map fst r = map fst l.
Proof.
  revert r. induction l as [|[k v] l IH]; cbn [constants]; intros r E e.
  - injection E as <-. split; auto.
  - destruct v as [c|x]; [|discriminate]. destruct (constants cty cval l) as [r'|]; [|discriminate].
    injection E as <-. destruct (IH r' eq_refl e) as [A B]. split.
    + intros k' v' [H|H]; [injection H as <- <-; left; reflexivity|right; auto].
    + cbn [map fst]. now rewrite B.
Qed.

Lemma shlLoop_true b l : shlLoop b l = Done true -> forall k v, In (k, v) l -> k < 64 /\ v = s64 (b * 2 ^ k).
Proof.
  induction l as [|[k' v'] l IH]; cbn [shlLoop]; intros E k v I; [contradiction|].
  destruct (Z.leb_spec 64 k'); [discriminate|]. destruct (Z.eqb_spec v' (s64 (b * 2 ^ k'))) as [->|]; [|discriminate].
  destruct I as [I|I]; [injection I as -> <-; auto|auto].
Qed.

Lemma s64_id x : - 2 ^ 63 <= x < 2 ^ 63 -> s64 x = x.
Proof. intros H. unfold s64. rewrite Z.mod_small by lia. lia. Qed.

(** the recognised pattern gives the table entry *)
Lemma pattern_ok m n w p e k v bv :
  2 <= w <= 32 -> NoDup (map fst m) -> (forall k', In k' (map fst m) -> 0 <= k' < n) -> Z.of_nat (length m) = n ->
  (forall k' v', In (k', v') m -> vty v' = w) ->
  matchExpr cty cval order m = Done p -> p <> PUnknown ->
  In (k, v) m -> In (0, bv) m ->
  buildPattern w p (oval e bv) (sgn w k) = Some (oval e v).
Proof.
  intros W N R L T E NP Ik I0.
  assert (RNG : forall k' v', In (k', v') m -> - 2 ^ (w - 1) <= oval e v' < 2 ^ (w - 1)).
  { intros k' v' I. specialize (T k' v' I). destruct v'; cbn [Lut.oval Lut.vty] in *; [unfold cv|];
    rewrite T; apply sgn_rng; lia. }
  pose proof (Horder m) as P.
  assert (IO : forall x, In x m -> In x (order m)) by (intros x; apply Permutation_in; now symmetry).
  assert (NO : NoDup (map fst (order m))).
  { eapply Permutation_NoDup; [|exact N]. apply Permutation_map. now symmetry. }
  unfold matchExpr in E. destruct m as [|m0 m']; [contradiction|]. set (m := m0 :: m') in *.
  destruct (matchConstant (order m)) eqn:MC.
  { injection E as <-. cbn [buildPattern]. f_equal. f_equal.
    unfold matchConstant in MC. destruct (order m) as [|[k0 c] r] eqn:EO; [specialize (IO _ I0); contradiction|].
    rewrite <- EO in *. rewrite forallb_forall in MC.
    pose proof (value_eqb_eq _ _ (MC _ (IO _ I0))). pose proof (value_eqb_eq _ _ (MC _ (IO _ Ik))). cbn in *. congruence. }
  destruct (constants cty cval (order m)) as [l|] eqn:EC; [|injection E as <-; congruence].
  destruct (constants_spec _ _ EC e) as [CS CF].
  assert (Nl : NoDup (map fst l)) by now rewrite CF.
  pose proof (CS _ _ (IO _ Ik)) as Ikl. pose proof (CS _ _ (IO _ I0)) as I0l.
  pose proof (RNG _ _ Ik) as Rv.
  destruct (matchIdentity l) eqn:MI.
  { injection E as <-. cbn [buildPattern]. f_equal. unfold matchIdentity in MI. rewrite forallb_forall in MI.
    specialize (MI _ Ikl). cbn in MI. apply Z.eqb_eq in MI. rewrite MI. apply sgn_id; lia. }
  unfold matchAdd, matchSub, matchShl in E. rewrite (assoc_In 0 (oval e bv) l Nl I0l) in E. unfold orElse in E.
  destruct (forallb (fun p => snd p =? oval e bv + fst p) l) eqn:MA.
  { injection E as <-. cbn [buildPattern]. f_equal. rewrite forallb_forall in MA. specialize (MA _ Ikl). cbn in MA.
    apply Z.eqb_eq in MA. rewrite sgn_add_l by lia. rewrite MA. rewrite Z.add_comm. apply sgn_id; lia. }
  destruct (forallb (fun p => snd p =? oval e bv - fst p) l) eqn:MS.
  { injection E as <-. cbn [buildPattern]. f_equal. rewrite forallb_forall in MS. specialize (MS _ Ikl). cbn in MS.
    apply Z.eqb_eq in MS. rewrite sgn_sub_r by lia. rewrite MS. apply sgn_id; lia. }
  destruct (shlLoop (oval e bv) l) as [[|]| |] eqn:SL; try discriminate; [|injection E as <-; congruence].
  injection E as <-. pose proof (shlLoop_true _ _ SL) as SH.
  destruct (SH _ _ Ikl) as [K64 Ev]. cbn [buildPattern].
  pose proof (RNG _ _ I0) as Rb.
  assert (Rk : 0 <= k < n) by (apply R, in_map_iff; exists (k, v); auto).
  assert (WP : 2 ^ w <= 2 ^ 32) by (apply Z.pow_le_mono_r; lia).
  destruct (p2 w ltac:(lia)) as [PW PP].
  assert (KW : k < w \/ oval e bv = 0).
  { destruct (Z.lt_ge_cases k w) as [|KW]; auto. right.
    destruct (proj1 (in_map_iff fst m w)) as ([w' vw] & Ew & Iw).
    { apply (full_keys (map fst m) n); auto; [now rewrite map_length|lia]. }
    cbn in Ew. subst w'. destruct (SH _ _ (CS _ _ (IO _ Iw))) as [_ Evw].
    pose proof (RNG _ _ Iw) as Rw. rewrite Evw in Rw. rewrite s64_id in Rw; nia. }
  rewrite sgn_uns by lia. destruct KW as [KW|B0].
  - assert (U : uns w k = k).
    { unfold uns. apply Z.mod_small. split; [lia|]. apply Z.lt_trans with w; auto. apply Z.pow_gt_lin_r; lia. }
    rewrite U. assert (k <? w = true) as -> by (apply Z.ltb_lt; lia). cbn [orb]. f_equal. rewrite Ev.
    assert (PK : 0 < 2 ^ k) by (apply Z.pow_pos_nonneg; lia).
    assert (QK : 2 ^ k <= 2 ^ (w - 1)) by (apply Z.pow_le_mono_r; lia).
    rewrite s64_id in Ev |- *.
    + apply sgn_id; [lia|]. lia.
    + nia.
    + nia.
  - rewrite B0 in *. rewrite Z.mul_0_l in Ev. change (s64 0) with 0 in Ev. rewrite Ev, Z.eqb_refl, orb_true_r, Z.mul_0_l.
    f_equal. apply sgn_id; lia.
Qed.
End Pat.

Lemma sete_other e d z x : x <> d -> sete e d z x = e x.
Proof. unfold sete. intros H. apply Nat.eqb_neq in H. now rewrite H. Qed.
Lemma setm_other m b k z b' k' : b' <> b \/ k' <> k -> setm m b k z b' k' = m b' k'.
Proof.
  unfold setm. intros H. destruct (Nat.eqb_spec b' b), (Z.eqb_spec k' k); cbn; auto. intuition.
Qed.
Lemma setm_same m b k z : setm m b k z b k = z.
Proof. unfold setm. now rewrite Nat.eqb_refl, Z.eqb_refl. Qed.

Lemma mset_In k v l k' v' : In (k', v') (mset k v l) -> (k' = k /\ v' = v) \/ In (k', v') l.
Proof.
  induction l as [|[a b] l IH]; cbn [mset]; intros H.
  - destruct H as [H|[]]. injection H as <- <-. auto.
  - destruct (Z.eqb_spec a k) as [->|]; cbn in H.
    + destruct H as [H|H]; [injection H as <- <-; auto|right; right; auto].
    + destruct H as [H|H]; [right; left; auto|]. destruct (IH H); auto. right. right. auto.
Qed.
Lemma mset_In_other k v l k' v' : NoDup (map fst l) -> In (k', v') (mset k v l) -> k' <> k -> In (k', v') l.
Proof. intros N H D. destruct (mset_In _ _ _ _ _ H) as [[? _]|?]; auto. contradiction. Qed.
Lemma mset_In_same k v l v' : NoDup (map fst l) -> In (k, v') (mset k v l) -> v' = v.
Proof.
  induction l as [|[a b] l IH]; cbn [mset map fst]; intros N H.
  - destruct H as [H|[]]. now injection H as <-.
  - inversion N; subst. destruct (Z.eqb_spec a k) as [->|D]; cbn in H.
    + destruct H as [H|H]; [now injection H as <-|]. exfalso. apply H2. apply in_map_iff. exists (k, v'). auto.
    + destruct H as [H|H]; [injection H as <- <-; contradiction|auto].
Qed.
Lemma mset_keys k v l x : In x (map fst (mset k v l)) -> x = k \/ In x (map fst l).
Proof.
  intros H. apply in_map_iff in H as ([a b] & E & H). cbn in E. subst a.
  destruct (mset_In _ _ _ _ _ H) as [[? _]|H']; auto. right. apply in_map_iff. exists (x, b). auto.
Qed.
Lemma mset_NoDup k v l : NoDup (map fst l) -> NoDup (map fst (mset k v l)).
Proof.
  induction l as [|[a b] l IH]; cbn [mset map fst]; intros N.
  - constructor; [intros []|constructor].
  - inversion N; subst. destruct (Z.eqb_spec a k) as [->|D]; cbn [map fst]; [auto|].
    constructor; auto. intros H. apply mset_keys in H as [H|H]; auto.
Qed.

Section Blk.
Variables (ty cty : nat -> Z) (cval : nat -> Z) (ew sz : nat -> Z) (isLut : nat -> bool).
Variable order : list (Z * value) -> list (Z * value).
Hypothesis Horder : forall l, Permutation (order l) l.
Hypothesis Hew : forall b, isLut b = true -> 2 <= ew b <= 32 /\ 0 <= sz b <= 1024.
Notation oval := (oval ty cty cval).
Notation vty := (vty ty cty).
Notation off := (off ty cty cval).
Notation inb := (inb ty cty cval sz).
Notation exec1 := (exec1 ty cty cval ew sz).
Notation exec := (exec ty cty cval ew sz).
Notation tinst := (tinst ty cty cval sz isLut order).
Notation tblock := (tblock ty cty cval sz isLut order).

(** what the table of a block claims about the machine state *)
Record entry_ok (b : nat) (s : storage) (e : env) (m : mem) : Prop := {
  eL : isLut b = true;
  eN : NoDup (map fst (imap s));
  eC : forall p, ctype s = Some p -> matchExpr cty cval order (imap s) = Done p;
  eV : forall k v, In (k, v) (imap s) -> 0 <= k < sz b /\ m b k = oval e v /\ vty v = ew b }.
Definition sound (L : lut) (e : env) (m : mem) : Prop := forall b s, L b = Some s -> entry_ok b s e m.

(** variables the table refers to *)
Definition vars_in (S : nat -> Prop) (L : lut) : Prop :=
  forall b s k x, L b = Some s -> In (k, VV x) (imap s) -> S x.

Definition idst (i : inst) : option nat :=
  match i with ILoad d _ | ICall _ d _ _ | IAtomic d _ _ | IPure d _ => Some d | _ => None end.
Definition istored (i : inst) (x : nat) : Prop := match i with IStore _ (VV y) => x = y | _ => False end.
Definition defs (c : list inst) (x : nat) : Prop := exists i, In i c /\ idst i = Some x.
Definition stored (c : list inst) (x : nat) : Prop := exists i, In i c /\ istored i x.
(** stores are type correct *)
Definition wtI (i : inst) : Prop := match i with IStore a v => vty v = ew (abase a) | _ => True end.
(** SSA inside a block: what is stored earlier is not redefined later *)
Fixpoint ssa (c : list inst) : Prop :=
  match c with [] => True | i :: c' => (forall x, istored i x -> ~ defs c' x) /\ ssa c' end.

Lemma gci_off e a k : getConstantIndex cty cval a = Some k -> off e a = k.
Proof.
  revert k. induction a as [b [c|x]|a IH [c|x]]; cbn [getConstantIndex Lut.off]; intros k E; try discriminate.
  - injection E as <-. reflexivity.
  - destruct (getConstantIndex cty cval a) as [k'|]; [|discriminate]. injection E as <-. rewrite (IH k' eq_refl). reflexivity.
Qed.
Lemma gdi_off e a o ix o' : getDynamicIndex cty cval a o = Some (ix, o') -> off e a + o = oval e ix + o'.
Proof.
  revert o. induction a as [b [c|x]|a IH [c|x]]; cbn [getDynamicIndex Lut.off]; intros o E; try discriminate.
  - injection E as <- <-. reflexivity.
  - specialize (IH _ E). cbn [Lut.oval]. lia.
  - destruct (getConstantIndex cty cval a) as [k|] eqn:G; [|discriminate].
    destruct (Z.eqb_spec k 0) as [->|]; [|discriminate]. injection E as <- <-. rewrite (gci_off e a 0 G). lia.
Qed.
Lemma gdi_var a o ix o' : getDynamicIndex cty cval a o = Some (ix, o') -> exists x, ix = VV x.
Proof.
  revert o. induction a as [b [c|x]|a IH [c|x]]; cbn [getDynamicIndex]; intros o E; try discriminate; eauto.
  - injection E as <- <-. eauto.
  - destruct (getConstantIndex cty cval a) as [k|] eqn:G; [|discriminate].
    destruct (Z.eqb_spec k 0) as [->|]; [|discriminate]. injection E as <- <-. eauto.
Qed.

Lemma sound_env L S e e' m : vars_in S L -> (forall x, S x -> e' x = e x) -> sound L e m -> sound L e' m.
Proof.
  intros VI EQ SD b s Lb. destruct (SD b s Lb) as [A B C D]. constructor; auto.
  intros k v I. destruct (D k v I) as (X & Y & Z). split; auto. split; auto. rewrite Y.
  destruct v as [c|x]; cbn [Lut.oval]; auto. rewrite (EQ x); auto. eapply VI; eauto.
Qed.

(** one instruction *)
Lemma tinst_ok S i L i' L' e m st' :
  tinst i L = Done (i', L') -> wtI i -> sound L e m -> vars_in S L ->
  (forall x, idst i = Some x -> ~ S x) ->
  exec1 i (e, m) = Some st' ->
  exec1 i' (e, m) = Some st' /\ sound L' (fst st') (snd st') /\ vars_in (fun x => S x \/ istored i x) L' /\ idst i' = idst i.
Proof.
  intros T WT SD VI ND EX.
  assert (VI' : vars_in (fun x => S x \/ istored i x) L) by (intros b s k x A B; left; eapply VI; eauto).
  assert (SE : forall d z, idst i = Some d -> sound L (sete e d z) m).
  { intros d z Hd. apply (sound_env L S e); auto. intros x Hx. apply sete_other. intros ->. exact (ND d Hd Hx). }
  destruct i as [d a|a v|f|nw d f g|d a v|d f]; cbn [Lut.tinst] in T.
  - (* load *)
    destruct (L (abase a)) as [s|] eqn:La; [|injection T as <- <-].
    2:{ split; auto. cbn [Lut.exec1] in EX. destruct (inb e a); [|discriminate]. injection EX as <-. cbn [fst snd]. auto. }
    unfold query in T.
    assert (Q : exists p s', (if negb (Z.of_nat (length (imap s)) =? sz (abase a)) then Done (PUnknown, s)
         else match ctype s with Some p => Done (p, s) | None => match matchExpr cty cval order (imap s) with
            | Done p => Done (p, mkSt (imap s) (Some p)) | Crash => Crash | Undef => Undef end end) = Done (p, s') /\
         imap s' = imap s /\ (forall q, ctype s' = Some q -> matchExpr cty cval order (imap s) = Done q) /\
         (p <> PUnknown -> Z.of_nat (length (imap s)) = sz (abase a) /\ matchExpr cty cval order (imap s) = Done p)).
    { destruct (SD _ _ La) as [_ _ EC _].
      destruct (Z.eqb_spec (Z.of_nat (length (imap s))) (sz (abase a))) as [EL|]; cbn [negb] in *.
      - destruct (ctype s) as [p|] eqn:ET.
        + exists p, s. split; auto. split; auto. rewrite ET. split; auto.
        + destruct (matchExpr cty cval order (imap s)) as [p| |] eqn:ME; try discriminate.
          exists p, (mkSt (imap s) (Some p)). split; auto. split; auto. cbn [ctype]. split; [intros q [= <-]; auto|auto].
      - exists PUnknown, s. split; auto. split; auto. split; auto. congruence. }
    destruct Q as (p & s' & EQ & IM & CC & PK). rewrite EQ in T. clear EQ.
    assert (SL : forall e0, sound L e0 m -> sound (lset L (abase a) s') e0 m).
    { intros e0 H b s0 Hb. unfold lset in Hb. destruct (Nat.eqb_spec b (abase a)) as [->|]; [|auto].
      injection Hb as <-. destruct (H _ _ La) as [A B C D]. constructor; rewrite ?IM; auto. }
    assert (VL : vars_in (fun x => S x \/ istored (ILoad d a) x) (lset L (abase a) s')).
    { intros b s0 k x Hb I. unfold lset in Hb. destruct (Nat.eqb_spec b (abase a)) as [->|]; [|eapply VI'; eauto].
      injection Hb as <-. rewrite IM in I. eapply VI'; eauto. }
    cbn [Lut.exec1] in EX. destruct (inb e a) eqn:IB; [|discriminate]. injection EX as <-. cbn [fst snd].
    assert (KEEP : Done (ILoad d a, lset L (abase a) s') = Done (i', L') ->
      exec1 i' (e, m) = Some (sete e d (m (abase a) (off e a)), m) /\
      sound L' (sete e d (m (abase a) (off e a))) m /\
      vars_in (fun x => S x \/ istored (ILoad d a) x) L' /\ idst i' = Some d).
    { intros [= <- <-]. cbn [Lut.exec1 idst]. rewrite IB. split; auto. }
    assert (P0 : p = PUnknown \/ p <> PUnknown) by (destruct p; auto; right; discriminate).
    destruct P0 as [->|NP]; [now apply KEEP|].
    destruct (getDynamicIndex cty cval a 0) as [[ix o]|] eqn:GD; [|destruct p; now apply KEEP].
    destruct (assoc 0 (imap s)) as [bv|] eqn:A0; [|destruct p; try discriminate; now apply KEEP].
    destruct (Z.eqb_spec (vty bv) (vty ix)) as [TY|]; [|destruct p; now apply KEEP]. cbn [negb] in T.
    destruct (PK NP) as [LEN ME].
    assert (T' : i' = IPure d (fun e _ => buildPattern (vty ix) p (oval e bv) (indexExpr (vty ix) (oval e ix) o)) /\ L' = lset L (abase a) s').
    { destruct p; try congruence; injection T as <- <-; auto. }
    destruct T' as [-> ->]. cbn [Lut.exec1 idst].
    destruct (SD _ _ La) as [EL EN EC EV]. apply assoc_In' in A0.
    destruct (Hew _ EL) as [EW SZ].
    assert (TW : vty ix = ew (abase a)). { rewrite <- TY. now apply (EV 0 bv). }
    unfold Lut.inb in IB. apply andb_true_iff in IB as [IB1 IB2]. apply Z.leb_le in IB1. apply Z.ltb_lt in IB2.
    assert (IK : In (off e a) (map fst (imap s))).
    { apply (full_keys _ (sz (abase a))); auto; [|now rewrite map_length].
      intros k Hk. apply in_map_iff in Hk as ([k' v'] & Ek & Hk). cbn in Ek. subst k'. now apply (EV k v'). }
    apply in_map_iff in IK as ([k v] & Ek & IK). cbn in Ek. subst k.
    assert (IX : indexExpr (vty ix) (oval e ix) o = sgn (ew (abase a)) (off e a)).
    { pose proof (gdi_off e a 0 ix o GD) as OFF. rewrite Z.add_0_r in OFF. rewrite OFF. rewrite TW. unfold indexExpr.
      destruct (gdi_var _ _ _ _ GD) as (x & ->). cbn [Lut.oval Lut.vty] in *. rewrite TW.
      destruct (Z.eqb_spec o 0) as [->|].
      - rewrite Z.add_0_r. now rewrite sgn_idem by lia.
      - rewrite (Z.add_comm _ (sgn (ew (abase a)) o)), sgn_add_l by lia. f_equal. lia. }
    rewrite IX, TW. erewrite (pattern_ok ty cty cval order Horder (imap s) (sz (abase a))) with (v := v); eauto.
    + destruct (EV _ _ IK) as (_ & <- & _). split; auto.
    + intros k' Hk. apply in_map_iff in Hk as ([k2 v'] & Ek & Hk). cbn in Ek. subst k2. now apply (EV k' v').
    + intros k' v' H. now apply (EV k' v').
  - (* store *)
    cbn [Lut.exec1] in EX. destruct (inb e a) eqn:IB; [|discriminate]. injection EX as <-. cbn [fst snd].
    unfold Lut.inb in IB. apply andb_true_iff in IB as [IB1 IB2]. apply Z.leb_le in IB1. apply Z.ltb_lt in IB2.
    assert (EX' : exec1 (IStore a v) (e, m) = Some (e, setm m (abase a) (off e a) (oval e v))).
    { cbn [Lut.exec1]. unfold Lut.inb. apply Z.leb_le in IB1. apply Z.ltb_lt in IB2. now rewrite IB1, IB2. }
    assert (OTH : forall b s, b <> abase a -> L b = Some s -> entry_ok b s e (setm m (abase a) (off e a) (oval e v))).
    { intros b s NB Lb. destruct (SD b s Lb) as [A B C D]. constructor; auto. intros k u I.
      rewrite setm_other by auto. auto. }
    destruct (isLut (abase a)) eqn:IL.
    2:{ injection T as <- <-. split; auto. split; auto. intros b s Lb. apply OTH; auto.
        intros ->. destruct (SD _ _ Lb). congruence. }
    destruct (getConstantIndex cty cval a) as [k|] eqn:GC; injection T as <- <-.
    + split; auto. pose proof (gci_off e a k GC) as OK. destruct (Hew _ IL) as [EW SZ].
      assert (U : u32 k = k) by (apply u32_small; lia). rewrite U.
      set (m0 := match L (abase a) with Some s => imap s | None => [] end).
      assert (N0 : NoDup (map fst m0)).
      { unfold m0. destruct (L (abase a)) as [s|] eqn:La; [now apply (SD _ _ La)|constructor]. }
      split; [|split; [|reflexivity]].
      * intros b s Lb. unfold lset in Lb. destruct (Nat.eqb_spec b (abase a)) as [->|NB]; [|now apply OTH].
        injection Lb as <-. constructor; cbn [imap ctype]; auto; [now apply mset_NoDup|discriminate|].
        intros k' u I. destruct (Z.eq_dec k' k) as [->|NK].
        -- apply mset_In_same in I as ->; auto. split; [lia|]. rewrite OK, setm_same. auto.
        -- apply mset_In_other in I; auto. rewrite setm_other by (right; lia).
           unfold m0 in I. destruct (L (abase a)) as [s|] eqn:La; [|contradiction]. now apply (SD _ _ La).
      * intros b s k' x Lb I. unfold lset in Lb. destruct (Nat.eqb_spec b (abase a)) as [->|NB]; [|left; eapply VI; eauto].
        injection Lb as <-. cbn [imap] in I. destruct (mset_In _ _ _ _ _ I) as [[_ <-]|I']; [right; reflexivity|].
        left. unfold m0 in I'. destruct (L (abase a)) as [s|] eqn:La; [|contradiction]. eapply VI; eauto.
    + split; auto. split; [|split; [|reflexivity]].
      * intros b s Lb. unfold lerase in Lb. destruct (Nat.eqb_spec b (abase a)); [discriminate|now apply OTH].
      * intros b s k' x Lb I. unfold lerase in Lb. destruct (Nat.eqb_spec b (abase a)); [discriminate|left; eapply VI; eauto].
  - injection T as <- <-. split; auto. split; [intros b s [=]|]. split; [intros b s k x [=]|reflexivity].
  - injection T as <- <-. split; auto. cbn [Lut.exec1] in EX. injection EX as <-. cbn [fst snd]. destruct nw.
    + split; [apply SE; reflexivity|auto].
    + split; [intros b s [=]|]. split; [intros b s k x [=]|reflexivity].
  - (* atomic *)
    injection T as <- <-. split; auto. cbn [Lut.exec1] in EX. destruct (inb e a) eqn:IB; [|discriminate].
    injection EX as <-. cbn [fst snd].
    assert (SE' := SE d (m (abase a) (off e a)) eq_refl).
    assert (OTH : forall b s z, b <> abase a -> L b = Some s -> entry_ok b s (sete e d (m (abase a) (off e a))) (setm m (abase a) (off e a) z)).
    { intros b s z NB Lb. destruct (SE' b s Lb) as [A B C D]. constructor; auto. intros k u I. rewrite setm_other by auto. auto. }
    destruct (isLut (abase a)) eqn:IL.
    + split; [|split; [|reflexivity]].
      * intros b s Lb. unfold lerase in Lb. destruct (Nat.eqb_spec b (abase a)); [discriminate|now apply OTH].
      * intros b s k' x Lb I. unfold lerase in Lb. destruct (Nat.eqb_spec b (abase a)); [discriminate|left; eapply VI; eauto].
    + split; auto. intros b s Lb. apply OTH; auto. intros ->. destruct (SD _ _ Lb). congruence.
  - injection T as <- <-. split; auto. cbn [Lut.exec1] in EX. destruct (f e m); [|discriminate]. injection EX as <-. cbn [fst snd].
    split; [apply SE; reflexivity|auto].
Qed.
End Blk.
