(** C56: BlockSort (cmmc/Transforms/Misc/BlockSort.cpp), which the front end and the optimizer run on every function. *)
From Coq Require Import ZArith Lia Bool List Arith Permutation Sorted.
From Verif Require Import Sim Ssa SsaCfg SsaMerge SsaWf SsaDom SsaCse.
Import ListNotations.
Local Open Scope Z_scope.

(** ** the model *)
(** BlockSort.cpp:36, 50: the weights are uint32_t *)
Definition M32 : Z := 2 ^ 32.
(** BlockSort.cpp:45-48 addTarget *)
Definition addT (s : list (nat * Z) * list nat) (x : nat * Z) : list (nat * Z) * list nat :=
  match get (fst x) (fst s) with Some _ => s | None => ((fst x, snd x mod M32) :: fst s, snd s ++ [fst x]) end.
(** BlockSort.cpp:56-76: the targets with their weights, in the order of the calls; [v] is the weight of the block *)
Fixpoint number (c : Z) (l : list nat) : list (nat * Z) := match l with [] => [] | t :: l' => (t, c) :: number (c + 1) l' end.
Definition targets (v : Z) (t : term) : list (nat * Z) :=
  match t with
  | TBr b => [(b, v + 100)]
  | TCond _ a b => [(a, v + 100); (b, v + 101)]
  | TSwitch _ cs d => number 100 (map snd cs ++ [d])
  | TRet _ | TUnreach => []
  end.
(** BlockSort.cpp:37-42, 60, 67, 77, 81, 85: what is added to the weight of the block *)
Definition bump (t : term) : Z := match t with TBr _ => 0 | TCond _ _ _ => 2 | TSwitch _ _ _ => 3 | TRet _ => 10 | TUnreach => 1000000 end.
(** BlockSort.cpp:50-91: the queue; the fuel only makes the recursion structural ([weights_done]) *)
Fixpoint wbfs (f : func) (fuel : nat) (wt : list (nat * Z)) (q : list nat) : list (nat * Z) * list nat :=
  match fuel, q with
  | S n, u :: q' =>
    match get u f with
    | Some bk =>
      let v := match get u wt with Some v => v | None => 0 end in
      let '(wt1, q1) := fold_left addT (targets v (trm bk)) (wt, q') in
      wbfs f n (map (fun x => if Nat.eqb (fst x) u then (fst x, (snd x + bump (trm bk)) mod M32) else x) wt1) q1
    | None => wbfs f n wt q'
    end
  | _, _ => (wt, q)
  end.
Definition weights (f : func) : list (nat * Z) := fst (wbfs f (length f) [(entry f, 0)] [entry f]).
(** BlockSort.cpp:93-97: the blocks that were not reached get the greatest weight *)
Definition weightOf (wt : list (nat * Z)) (b : nat) : Z := match get b wt with Some v => v | None => M32 - 1 end.
(** BlockSort.cpp:98-100: std::list::sort, which is stable; here by insertion (a stable sort has one result) *)
Fixpoint insertW (w : nat -> Z) (x : nat * block) (l : list (nat * block)) : list (nat * block) :=
  match l with
  | [] => [x]
  | y :: l' => if w (fst y) <? w (fst x) then y :: insertW w x l' else x :: l
  end.
Definition sortW (w : nat -> Z) (f : func) : func := fold_right (insertW w) [] f.
(** BlockSort.cpp:32-102; with at most one block there is nothing to sort (line 33) *)
Definition blockSort (f : func) : func := if (length f <=? 1)%nat then f else sortW (weightOf (weights f)) f.

(** ** sorting *)
Lemma insertW_perm w x l : Permutation (x :: l) (insertW w x l).
Proof.
  induction l as [|y l IH]; cbn; [auto|]. destruct (_ <? _); [|auto]. eapply perm_trans; [apply perm_swap|]. now constructor.
Qed.
Lemma sortW_perm w f : Permutation f (sortW w f).
Proof. induction f as [|x f IH]; cbn; [auto|]. eapply perm_trans; [|apply insertW_perm]. now constructor. Qed.
Lemma sortW_head w x l : (forall y, In y l -> w (fst x) <= w (fst y)) -> exists l', sortW w (x :: l) = x :: l'.
Proof.
  intros H. cbn. assert (K : forall y, In y (sortW w l) -> w (fst x) <= w (fst y)).
  { intros y Hy. apply H. eapply Permutation_in; [apply Permutation_sym, sortW_perm|exact Hy]. }
  change (fold_right (insertW w) [] l) with (sortW w l). destruct (sortW w l) as [|y l']; cbn; [eauto|]. specialize (K y (or_introl eq_refl)).
  destruct (Z.ltb_spec (w (fst y)) (w (fst x))); [lia|eauto].
Qed.
Definition le_w (w : nat -> Z) (x y : nat * block) : Prop := w (fst x) <= w (fst y).
Lemma insertW_sorted w x l : StronglySorted (le_w w) l -> StronglySorted (le_w w) (insertW w x l).
Proof.
  induction 1 as [|y l Hs IH Hy]; cbn; [repeat constructor|]. destruct (Z.ltb_spec (w (fst y)) (w (fst x))) as [L|L].
  - constructor; auto. apply Forall_forall. intros z Hz. apply (Permutation_in _ (Permutation_sym (insertW_perm w x l))) in Hz as [<-|Hz].
    + unfold le_w. lia.
    + rewrite Forall_forall in Hy. auto.
  - constructor; [now constructor|]. constructor; [exact L|]. eapply Forall_impl; [|exact Hy]. intros z K. unfold le_w in *. lia.
Qed.
Lemma sortW_sorted w f : StronglySorted (le_w w) (sortW w f).
Proof. induction f as [|x f IH]; cbn; [constructor|]. now apply insertW_sorted. Qed.

(** ** the weights *)
Section Weights.
Variable f : func.
Hypothesis Hc : closed f.
Hypothesis Hn : f <> [].
(** the greatest number of cases of a switch, and room for the sums *)
Variable K : Z.
Hypothesis HK : forall b bk c cs d, get b f = Some bk -> trm bk = TSwitch c cs d -> Z.of_nat (length cs) <= K.
Hypothesis HK0 : 0 <= K.
Hypothesis Hsz : 101 * Z.of_nat (length f) + K + 1000300 < M32.
Definition B (n : nat) : Z := 100 + K + 101 * Z.of_nat n.
Lemma M32_val : M32 = 4294967296. Proof. reflexivity. Qed.
Record winv (wt : list (nat * Z)) (q : list nat) : Prop := WI {
  wi_nd : NoDup (map fst wt);
  wi_sub : forall b, In b (map fst wt) -> In b (map fst f);
  wi_q : NoDup q;
  wi_qw : forall b, In b q -> In b (map fst wt);
  wi_lo : forall b v, In (b, v) wt -> b <> entry f -> 100 <= v <= B (length wt) + 1000000;
  wi_hi : forall b v, In (b, v) wt -> In b q -> v <= B (length wt);
  wi_e : exists v, In (entry f, v) wt /\ 0 <= v < 100 /\ (In (entry f) q -> v = 0) }.
Lemma winv_len wt q : winv wt q -> (length wt <= length f)%nat.
Proof. intros [A S _ _ _ _ _]. rewrite <- (map_length fst wt), <- (map_length fst f). now apply NoDup_incl_length. Qed.
Definition ext (s s' : list (nat * Z) * list nat) : Prop :=
  winv (fst s') (snd s') /\ (forall x, In x (fst s) -> In x (fst s')) /\ (forall b, In b (snd s) -> In b (snd s')) /\
  (length (snd s') + (length f - length (fst s')) <= length (snd s) + (length f - length (fst s)))%nat /\
  (length (fst s) <= length (fst s'))%nat /\ (forall b, In b (snd s') -> In b (snd s) \/ get b (fst s) = None).
Lemma addT_inv wt q t w : winv wt q -> In t (map fst f) -> 100 <= w <= B (S (length wt)) -> ext (wt, q) (addT (wt, q) (t, w)).
Proof.
  intros I Ht Hw. unfold addT, ext. cbn [fst snd]. destruct (get t wt) as [v|] eqn:E; cbn [fst snd].
  - split; [exact I|]. repeat split; auto.
  - pose proof (proj1 (get_None t wt) E) as Nt. pose proof (winv_len _ _ I) as L. destruct I as [A S Q QW Lo Hi He].
    assert (I' : winv ((t, w mod M32) :: wt) (q ++ [t])).
    { assert (Ndt : NoDup (map fst ((t, w mod M32) :: wt))) by (cbn; constructor; auto).
      assert (Sub : forall b, In b (map fst ((t, w mod M32) :: wt)) -> In b (map fst f)) by (intros b [<-|Hb]; auto).
      pose proof (NoDup_incl_length Ndt Sub) as L'. rewrite !map_length in L'. cbn [length] in L'.
      assert (Ew : w mod M32 = w). { apply Z.mod_small. unfold B in Hw. lia. }
      rewrite Ew in *. split; auto.
      - apply (Permutation_NoDup (l := t :: q)); [apply Permutation_cons_append|]. constructor; auto.
      - intros b Hb. apply in_app_or in Hb as [Hb|[<-|[]]]; cbn; auto.
      - cbn [length]. intros b v [[= <- <-]|Hb] Ne; [lia|]. specialize (Lo b v Hb Ne). unfold B in *. lia.
      - cbn [length]. intros b v [[= <- <-]|Hb] Hq; [lia|]. apply in_app_or in Hq as [Hq|[<-|[]]].
        + specialize (Hi b v Hb Hq). unfold B in *. lia.
        + exfalso. apply Nt. change t with (fst (t, v)). now apply in_map.
      - destruct He as (v & He1 & He2 & He3). exists v. split; [now right|]. split; auto. intros Hb. apply in_app_or in Hb as [Hb|[Hb|[]]]; auto.
        exfalso. apply Nt. rewrite Hb. exact (in_map fst _ _ He1). }
    pose proof (winv_len _ _ I') as L'. cbn [length] in L'.
    split; auto. split; [intros x Hx; now right|]. split; [intros b Hb; apply in_or_app; auto|].
    split; [rewrite app_length; cbn [length]; lia|]. split; [cbn [length]; lia|].
    intros b Hb. apply in_app_or in Hb as [Hb|[<-|[]]]; auto.
Qed.
Lemma ext_refl s : winv (fst s) (snd s) -> ext s s.
Proof. intros I. unfold ext. split; [exact I|]. repeat split; auto. Qed.
Lemma ext_trans a b c : ext a b -> ext b c -> ext a c.
Proof.
  intros (A1 & A2 & A3 & A4 & A5 & A6) (B1 & B2 & B3 & B4 & B5 & B6). unfold ext. split; auto. split; auto. split; auto. split; [lia|]. split; [lia|].
  intros x Hx. destruct (B6 x Hx) as [K1|K1]; auto. right. apply get_None. intros K2. apply get_None in K1. apply K1.
  apply in_map_iff in K2 as (y & <- & K2). apply in_map. auto.
Qed.
Lemma addAll_inv l : forall wt q, winv wt q -> (forall t w, In (t, w) l -> In t (map fst f) /\ 100 <= w <= B (S (length wt))) ->
  ext (wt, q) (fold_left addT l (wt, q)).
Proof.
  induction l as [|[t w] l IH]; intros wt q I H; [now apply ext_refl|]. cbn [fold_left].
  destruct (H t w (or_introl eq_refl)) as [H1 H2]. pose proof (addT_inv wt q t w I H1 H2) as E. destruct (addT (wt, q) (t, w)) as [wt1 q1] eqn:Ea.
  eapply ext_trans; [exact E|]. destruct E as (E1 & _ & _ & _ & E5 & _). cbn [fst snd] in *. apply IH; auto. intros t' w' Hin.
  destruct (H t' w' (or_intror Hin)) as [H3 H4]. split; auto. unfold B in *. lia.
Qed.
Lemma number_In l : forall c t w, In (t, w) (number c l) -> In t l /\ c <= w < c + Z.of_nat (length l).
Proof.
  induction l as [|a l IH]; intros c t w; [intros []|]. cbn [number length]. intros [[= <- <-]|H]; [split; [now left|lia]|].
  destruct (IH _ _ _ H) as [A A2]. split; [now right|lia].
Qed.
Lemma targets_ok u bk v n : get u f = Some bk -> 0 <= v <= B n -> forall t w, In (t, w) (targets v (trm bk)) -> In t (map fst f) /\ 100 <= w <= B (S n).
Proof.
  intros G Hv t w H. assert (Ht : In t (succs (trm bk)) /\ 100 <= w <= B (S n)).
  { unfold B in *. destruct (trm bk) as [b|c x y|c cs d|o|] eqn:E; cbn [targets succs In] in H |- *.
    - destruct H as [[= <- <-]|[]]. split; [auto|lia].
    - destruct H as [[= <- <-]|[[= <- <-]|[]]]; split; auto; lia.
    - destruct (number_In _ _ _ _ H) as [A A2]. rewrite app_length, map_length in A2. cbn [length] in A2. specialize (HK u bk c cs d G E). split; [|lia].
      apply in_app_or in A as [A|[<-|[]]]; auto.
    - destruct H.
    - destruct H. }
  split; [|tauto]. apply (Hc u bk t G). tauto.
Qed.
Lemma map_fst_if (P : nat -> bool) (h : Z -> Z) (l : list (nat * Z)) : map fst (map (fun x => if P (fst x) then (fst x, h (snd x)) else x) l) = map fst l.
Proof. rewrite map_map. apply map_ext. intros [a b]. cbn. now destruct (P a). Qed.
Lemma bump_inv u wt q t : winv wt q -> ~ In u q -> In u (map fst wt) -> (forall v, In (u, v) wt -> v <= B (length wt)) ->
  (u = entry f -> t <> TUnreach /\ In (entry f, 0) wt) ->
  winv (map (fun x => if Nat.eqb (fst x) u then (fst x, (snd x + bump t) mod M32) else x) wt) q.
Proof.
  intros I Hu Hin Hv He. pose proof (winv_len _ _ I) as L. destruct I as [A S Q QW Lo Hi Ee].
  assert (Bp : 0 <= bump t <= 1000000) by (destruct t; cbn; lia).
  set (wt2 := map _ wt).
  assert (F : map fst wt2 = map fst wt) by (apply (map_fst_if (fun x => Nat.eqb x u) (fun v => (v + bump t) mod M32))).
  assert (Len : length wt2 = length wt) by (unfold wt2; apply map_length).
  assert (Inv : forall b v, In (b, v) wt2 -> (b <> u /\ In (b, v) wt) \/ (b = u /\ exists v0, In (u, v0) wt /\ v = (v0 + bump t) mod M32)).
  { intros b v H. unfold wt2 in H. apply in_map_iff in H as ([b0 v0] & E & H). cbn in E. destruct (Nat.eqb_spec b0 u) as [->|D]; injection E as <- <-; eauto. }
  assert (Em : forall v0, In (u, v0) wt -> 0 <= v0 -> (v0 + bump t) mod M32 = v0 + bump t).
  { intros v0 H H0. apply Z.mod_small. specialize (Hv v0 H). unfold B in Hv. lia. }
  split; auto; try (rewrite F; auto).
  - rewrite Len. intros b v H Ne. destruct (Inv b v H) as [[D H']|(-> & v0 & H' & ->)]; [exact (Lo b v H' Ne)|]. specialize (Lo u v0 H' Ne). rewrite Em; auto; [|lia]. specialize (Hv v0 H'). lia.
  - rewrite Len. intros b v H Hq. destruct (Inv b v H) as [[D H']|(-> & v0 & H' & ->)]; [eauto|contradiction].
  - destruct (Nat.eq_dec u (entry f)) as [E|E].
    + destruct (He E) as [T H0]. exists (bump t). split; [|split; [|intros K1; congruence]].
      * unfold wt2. apply in_map_iff. exists (entry f, 0). cbn [fst snd]. rewrite E, Nat.eqb_refl. split; auto. rewrite (Em 0); [reflexivity|now rewrite E|lia].
      * destruct t; cbn; try lia. congruence.
    + destruct Ee as (v & E1 & E2 & E3). exists v. split; auto. unfold wt2. apply in_map_iff. exists (entry f, v). cbn.
      destruct (Nat.eqb_spec (entry f) u); [congruence|auto].
Qed.
Lemma wbfs_inv : (forall bk, get (entry f) f = Some bk -> trm bk <> TUnreach) -> forall fuel wt q, (length q + (length f - length wt) <= fuel)%nat -> winv wt q ->
  snd (wbfs f fuel wt q) = [] /\ winv (fst (wbfs f fuel wt q)) [].
Proof.
  intros NU. induction fuel as [|n IH]; intros wt q Hf I.
  - destruct q; cbn in Hf; [cbn; auto|lia].
  - destruct q as [|u q]; [cbn; auto|]. cbn [wbfs]. cbn [length] in Hf. pose proof I as [A S Q QW Lo Hi He].
    assert (Hu : In u (map fst f)) by (apply S, QW; now left). destruct (In_get_ex f u Hu) as [bk G]. rewrite G.
    inversion Q as [|? ? Q1 Q2]; subst.
    pose proof (QW u (or_introl eq_refl)) as Hk. apply in_map_iff in Hk as ([u0 v] & Eu & Hk). cbn in Eu. subst u0.
    rewrite (In_get u wt v A Hk).
    assert (Iq : winv wt q).
    { split; auto. intros b Hb. apply QW. now right. intros b v0 Hb Hq. apply (Hi b v0 Hb). now right.
      destruct He as (v0 & E1 & E2 & E3). exists v0. split; auto. split; auto. intros H. apply E3. now right. }
    assert (Hv : 0 <= v <= B (length wt)).
    { split; [|apply (Hi u v Hk); now left]. destruct (Nat.eq_dec u (entry f)) as [->|D]; [|specialize (Lo u v Hk D); lia].
      destruct He as (v0 & E1 & E2 & _). assert (v0 = v); [|lia]. apply (In_get _ _ _ A) in E1. apply (In_get _ _ _ A) in Hk. congruence. }
    pose proof (addAll_inv (targets v (trm bk)) wt q Iq (targets_ok u bk v (length wt) G Hv)) as E.
    destruct (fold_left addT (targets v (trm bk)) (wt, q)) as [wt1 q1]. destruct E as (E1 & E2 & E3 & E4 & E5 & E6). cbn [fst snd] in *.
    pose proof E1 as [A1 _ _ _ _ _ _].
    assert (Hk1 : In (u, v) wt1) by auto.
    apply IH.
    + rewrite map_length. lia.
    + apply bump_inv; auto.
      * intros K1. destruct (E6 u K1) as [K2|K2]; [contradiction|]. rewrite (In_get u wt v A Hk) in K2. discriminate.
      * change u with (fst (u, v)). now apply in_map.
      * intros v0 H0. apply (In_get _ _ _ A1) in H0. apply (In_get _ _ _ A1) in Hk1. assert (v0 = v) by congruence. subst. unfold B in *. lia.
      * intros ->. split; [now apply NU|]. destruct He as (v0 & H0 & _ & H1). rewrite (H1 (or_introl eq_refl)) in H0. auto.
Qed.
Lemma start_inv : winv [(entry f, 0)] [entry f].
Proof.
  split; cbn; auto.
  - repeat constructor. intros [].
  - intros b [<-|[]]. destruct f as [|[k bk] l]; [congruence|]. now left.
  - repeat constructor. intros [].
  - intros b v [[= <- <-]|[]] Ne; congruence.
  - intros b v [[= <- <-]|[]] _. unfold B. lia.
  - exists 0. split; auto. split; [lia|auto].
Qed.
Lemma wbfs_nil n wt : wbfs f n wt [] = (wt, []).
Proof. destruct n; reflexivity. Qed.
(** the first block has a weight below that of every other block *)
Lemma entry_least : forall b, weightOf (weights f) (entry f) <= weightOf (weights f) b.
Proof.
  intros b. assert (He : exists bk, get (entry f) f = Some bk).
  { destruct f as [|[k bk] l]; [congruence|]. cbn. rewrite Nat.eqb_refl. eauto. }
  destruct He as [bk G]. unfold weights.
  assert (D : trm bk = TUnreach \/ forall bk', get (entry f) f = Some bk' -> trm bk' <> TUnreach).
  { destruct (trm bk) eqn:E; auto; right; intros bk' G'; assert (bk' = bk) by congruence; subst; rewrite E; discriminate. }
  destruct D as [D|D].
  - assert (E : exists n, length f = S n) by (destruct f; [congruence|cbn; eauto]). destruct E as [n ->]. cbn [wbfs]. rewrite G. cbn [get]. rewrite Nat.eqb_refl.
    rewrite D. cbn [targets fold_left]. rewrite wbfs_nil. cbn. rewrite Nat.eqb_refl. unfold weightOf. cbn. rewrite Nat.eqb_refl.
    destruct (Nat.eqb (entry f) b); cbn; discriminate.
  - destruct (wbfs_inv D (length f) [(entry f, 0)] [entry f]) as [_ I]; [cbn [length]; destruct f; [congruence|cbn [length]; lia]|exact start_inv|].
    pose proof (winv_len _ _ I) as L. destruct I as [A S _ _ Lo _ (v & E1 & E2 & _)]. set (wt := fst _) in *. unfold weightOf at 1. rewrite (In_get _ _ _ A E1).
    unfold weightOf. destruct (get b wt) as [x|] eqn:Eb; [|rewrite M32_val; lia]. destruct (Nat.eq_dec b (entry f)) as [->|Ne].
    + rewrite (In_get _ _ _ A E1) in Eb. injection Eb as <-. lia.
    + specialize (Lo b x (get_In _ _ _ Eb) Ne). lia.
Qed.
End Weights.
