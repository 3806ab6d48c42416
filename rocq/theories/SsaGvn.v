(** Global value numbering: cmmc/Transforms/Merge/GVN.cpp. *)
From Coq Require Import ZArith Lia Bool List Arith.
From Verif Require Import Sim Ssa SsaCfg SsaMerge SsaFwd SsaFwd2 SsaWf SsaDom SsaProps SsaSub SsaVerify SsaEq SsaPhi SsaCse SsaIns.
Import ListNotations.

(** ** the pass *)
Definition numTab := list (opnd * nat).
Fixpoint numOf (t : numTab) (o : opnd) : option nat :=
  match t with [] => None | (o', n) :: t' => if opnd_eqb o' o then Some n else numOf t' o end.
Definition movableDef (knd : nat -> kind) (f : func) (o : opnd) : option inst :=
  match o with
  | ORes x => match defOf f x with Some i => if isMovable knd (opc i) then Some i else None | None => None end
  | _ => None
  end.
Definition optnat_eqb (a b : option nat) : bool := match a, b with Some x, Some y => Nat.eqb x y | _, _ => false end.
Fixpoint sameNums (t : numTab) (l l' : list opnd) : bool :=
  match l, l' with
  | [], [] => true
  | o :: l1, o' :: l1' => optnat_eqb (numOf t o) (numOf t o') && sameNums t l1 l1'
  | _, _ => false
  end.
(** lines 54-66 GlobalInstEqual, against an entry of the table *)
Definition sameEntry (knd : nat -> kind) (f : func) (t : numTab) (i : inst) (e : opnd * nat) : bool :=
  match movableDef knd f (fst e) with Some j => Nat.eqb (opc i) (opc j) && sameNums t (ops i) (ops j) | None => false end.
(** lines 76-133 getValueNumber, getInstNumber, getNumber.  [s]: the two tables valueNumber and instNumber, joined, and allocateID.
    The buckets of the hash table are left out: instructions that GlobalInstEqual identifies have the same hash.  The hash of an
    instruction numbers its operands first; [fuel] bounds that recursion (None: not enough, see numberOp_enough). *)
Fixpoint numberOp (knd : nat -> kind) (f : func) (fuel : nat) (s : numTab * nat) (o : opnd) : option (numTab * nat) :=
  match numOf (fst s) o with
  | Some _ => Some s
  | None =>
    match movableDef knd f o with
    | None => Some (fst s ++ [(o, snd s)], S (snd s))
    | Some i =>
      match fuel with
      | O => None
      | S k =>
        match fold_left (fun r a => match r with Some s' => numberOp knd f k s' a | None => None end) (ops i) (Some s) with
        | None => None
        | Some (t, n) =>
          match find (sameEntry knd f t i) t with
          | Some e => match numOf t (fst e) with Some id => Some (t ++ [(o, id)], n) | None => None end
          | None => Some (t ++ [(o, n)], S n)
          end
        end
      end
    end
  end.
(** the movable instructions of the blocks [order] (dom.blocks()), in that order: lines 137-141 *)
Definition visited (knd : nat -> kind) (order : list nat) (f : func) : list nat :=
  flat_map (fun b => match get b f with Some bk => map dst (filter (fun i => isMovable knd (opc i)) (body bk)) | None => [] end) order.
Definition numberAll (knd : nat -> kind) (order : list nat) (f : func) : option (numTab * nat) :=
  fold_left (fun r x => match r with Some s => numberOp knd f (S (length (allResults f))) s (ORes x) | None => None end)
    (visited knd order f) (Some ([], 0)).
(** instructions[id] *)
Definition members (t : numTab) (vis : list nat) (id : nat) : list nat := filter (fun x => optnat_eqb (numOf t (ORes x)) (Some id)) vis.
Definition blockOf (f : func) (x : nat) : option nat := option_map fst (find (fun b => inb x (resultsOf (snd b))) f).

(** the decisions taken elsewhere: DominateAnalysis (lca, dominate), the estimated frequencies (lines 183-190), TargetInfo *)
Record gvnEnv := GvnEnv { lcaOf : nat -> nat -> nat; domOf : nat -> nat -> bool; worth : list nat -> nat -> bool; native : nat -> bool }.
Record gst := Gst { gf : func; gt : numTab; gm : list (nat * opnd) }.
Definition freshName (f : func) (t : numTab) : nat := S (list_max (allResults f ++ usesIn f ++ flat_map (fun e => res_of (fst e)) t)).
(** line 168 [block] *)
Definition lcaBlock (E : gvnEnv) (f : func) (ms : list nat) : option nat :=
  match map (blockOf f) ms with
  | [] => None
  | a :: l => fold_left (fun r b => match r, b with Some x, Some y => Some (lcaOf E x y) | _, _ => None end) l a
  end.
(** lines 221-234 *)
Definition merge (E : gvnEnv) (s : gst) (id : nat) (ms : list nat) (z : nat) : gst :=
  let m := (id, ORes z) :: gm s in
  match defOf (gf s) z with
  | Some i => if native E (opc i) then Gst (fold_left (fun g x => if Nat.eqb x z then g else replaceWith x (ORes z) g) ms (gf s)) (gt s) m
              else Gst (gf s) (gt s) m
  | None => Gst (gf s) (gt s) m
  end.
(** lines 210-217: the operands of the clone *)
Definition cloneOp (s : gst) (o : opnd) : opnd :=
  match o with
  | ORes _ => match numOf (gt s) o with Some k => match get k (gm s) with Some r => r | None => o end | None => o end
  | _ => o
  end.
Definition operandsOk (E : gvnEnv) (f : func) (b : nat) (l : list opnd) : bool :=
  forallb (fun o => match o with ORes x => match blockOf f x with Some d => domOf E d b | None => true end | _ => true end) l.
(** lines 156-235, one number.  The clone has the number of its class: its operands are replaced by values with the same numbers *)
Definition gvnClass (knd : nat -> kind) (E : gvnEnv) (vis : list nat) (s : gst) (id : nat) : gst :=
  let ms := members (gt s) vis id in
  match ms with
  | [] => s
  | [x] => Gst (gf s) (gt s) ((id, ORes x) :: gm s)
  | base :: _ =>
    match lcaBlock E (gf s) ms with
    | None => s
    | Some b =>
      match find (fun x => optnat_eqb (blockOf (gf s) x) (Some b)) ms with
      | Some z => merge E s id ms z
      | None =>
        match defOf (gf s) base, get b (gf s) with
        | Some i, Some bk =>
          if worth E ms b && native E (opc i) && isSpeculatable knd i && operandsOk E (gf s) b (ops i)
          then let c := freshName (gf s) (gt s) in
               merge E (Gst (insertAt b (length (body bk)) (Inst c (opc i) (map (cloneOp s) (ops i))) (gf s)) (gt s ++ [(ORes c, id)]) (gm s)) id ms c
          else s
        | _, _ => s
        end
      end
    end
  end.
Definition initMap (knd : nat -> kind) (f : func) (t : numTab) : list (nat * opnd) :=
  flat_map (fun e => match movableDef knd f (fst e) with None => [(snd e, fst e)] | Some _ => [] end) t.
Definition gvn (knd : nat -> kind) (E : gvnEnv) (order : list nat) (f : func) : func :=
  match numberAll knd order f with
  | Some (t, n) => gf (fold_left (gvnClass knd E (visited knd order f)) (seq 0 n) (Gst f t (initMap knd f t)))
  | None => f
  end.

(** ** proofs: the table *)
Definition sameN (t : numTab) (k : nat) (a b : opnd) : Prop := exists q, numOf t a = Some q /\ numOf t b = Some q /\ q < k.
(** equal numbers: the same operand, or instructions that agree on the opcode and the numbers of their operands *)
Definition congr (knd : nat -> kind) (f : func) (t : numTab) : Prop :=
  (forall o o' k, numOf t o = Some k -> numOf t o' = Some k -> o = o' \/
     exists i j, movableDef knd f o = Some i /\ movableDef knd f o' = Some j /\ opc i = opc j /\ Forall2 (sameN t k) (ops i) (ops j)) /\
  (forall o k i, numOf t o = Some k -> movableDef knd f o = Some i -> Forall (fun a => exists q, numOf t a = Some q /\ q < k) (ops i)).
Lemma numOf_app t o k o' : numOf (t ++ [(o, k)]) o' = match numOf t o' with Some q => Some q | None => if opnd_eqb o o' then Some k else None end.
Proof. induction t as [|[a q] t IH]; cbn; auto. destruct (opnd_eqb a o'); auto. Qed.
Lemma opnd_eqb_refl o : opnd_eqb o o = true.
Proof. destruct (opnd_eqb_spec o o); congruence. Qed.
Lemma movableDef_spec knd f o i : movableDef knd f o = Some i -> exists x, o = ORes x /\ defOf f x = Some i /\ isMovable knd (opc i) = true.
Proof.
  destruct o as [c|n|x]; cbn; try discriminate. destruct (defOf f x) as [j|] eqn:E; [|discriminate]. destruct (isMovable knd (opc j)) eqn:M; [|discriminate].
  intros [= <-]. exists x. auto.
Qed.
Lemma movableDef_res knd f x i : defOf f x = Some i -> isMovable knd (opc i) = true -> movableDef knd f (ORes x) = Some i.
Proof. intros H M. cbn. now rewrite H, M. Qed.
(** equal numbers mean equal expressions *)
Lemma congr_eqv knd f t : congr knd f t -> forall k o o', numOf t o = Some k -> numOf t o' = Some k -> eqv knd f o o'.
Proof.
  intros [B _]. induction k as [k IH] using lt_wf_ind. intros o o' H H'. destruct (B o o' k H H') as [->|(i & j & Hi & Hj & Ho & Hs)]; [constructor|].
  apply movableDef_spec in Hi as (x & -> & Dx & Mx). apply movableDef_spec in Hj as (z & -> & Dz & _). apply (eqv_inst knd f x z i j); auto.
  clear -IH Hs. induction Hs as [|a b l l' (q & A1 & A2 & A3) Hs IHs]; constructor; eauto.
Qed.
(** *** phase 1 *)
Definition tabOk (knd : nat -> kind) (f : func) (s : numTab * nat) : Prop :=
  congr knd f (fst s) /\ (forall o k, numOf (fst s) o = Some k -> k < snd s).
Definition extends (t t' : numTab) : Prop := forall o k, numOf t o = Some k -> numOf t' o = Some k.
Lemma ext_app t o k : extends t (t ++ [(o, k)]).
Proof. intros o' q H. rewrite numOf_app, H. reflexivity. Qed.
Lemma ext_trans t t' t'' : extends t t' -> extends t' t'' -> extends t t''.
Proof. intros H1 H2 o k H. auto. Qed.
Lemma sameN_ext t t' k a b : extends t t' -> sameN t k a b -> sameN t' k a b.
Proof. intros H (q & A & B & C). exists q. auto. Qed.
Lemma Forall2_sym_imp {A} (P : A -> A -> Prop) l l' : (forall a b, P a b -> P b a) -> Forall2 P l l' -> Forall2 P l' l.
Proof. intros H. induction 1; constructor; auto. Qed.
Lemma sameN_sym t k a b : sameN t k a b -> sameN t k b a.
Proof. intros (q & A & B & C). exists q. auto. Qed.
Lemma sameN_trans t k l1 l2 l3 : Forall2 (sameN t k) l1 l2 -> Forall2 (sameN t k) l2 l3 -> Forall2 (sameN t k) l1 l3.
Proof.
  intros H. revert l3. induction H as [|a b l l' (q & A & B & C) H IH]; intros l3 H3; inversion H3 as [|? c ? l'' (q' & A' & B' & C') H3']; subst; constructor; auto.
  exists q. split; auto. split; auto. congruence.
Qed.
Lemma sameN_refl t k l : Forall (fun a => exists q, numOf t a = Some q /\ q < k) l -> Forall2 (sameN t k) l l.
Proof. induction 1 as [|a l (q & A & B) H IH]; constructor; auto. exists q. auto. Qed.
(** adding an entry *)
Lemma congr_add knd f t o k : congr knd f t -> numOf t o = None ->
  (forall i, movableDef knd f o = Some i -> Forall (fun a => exists q, numOf t a = Some q /\ q < k) (ops i)) ->
  (forall o', numOf t o' = Some k -> exists i j, movableDef knd f o = Some i /\ movableDef knd f o' = Some j /\ opc i = opc j /\ Forall2 (sameN t k) (ops i) (ops j)) ->
  congr knd f (t ++ [(o, k)]).
Proof.
  intros [B C] Hn Ho Hk. assert (X := ext_app t o k).
  assert (Cas : forall o' q, numOf (t ++ [(o, k)]) o' = Some q -> numOf t o' = Some q \/ (o' = o /\ q = k)).
  { intros o' q. rewrite numOf_app. destruct (numOf t o'); auto. destruct (opnd_eqb_spec o o') as [->|]; [|discriminate]. intros [= ->]. auto. }
  assert (F2 : forall q l l', Forall2 (sameN t q) l l' -> Forall2 (sameN (t ++ [(o, k)]) q) l l').
  { intros q l l' H. induction H; constructor; auto. eapply sameN_ext; eauto. }
  split.
  - intros a b q Ha Hb. pose proof (Cas a q Ha) as Ka. pose proof (Cas b q Hb) as Kb. destruct Ka as [Ha'|[Ea Eq]], Kb as [Hb'|[Eb' Eq']]; subst; auto.
    + destruct (B a b q Ha' Hb') as [->|(i & j & H1 & H2 & H3 & H4)]; auto. right. exists i, j. auto.
    + right. destruct (Hk a Ha') as (i & j & H1 & H2 & H3 & H4). exists j, i. repeat split; auto. apply F2.
      apply Forall2_sym_imp; auto. apply sameN_sym.
    + right. destruct (Hk b Hb') as (i & j & H1 & H2 & H3 & H4). exists i, j. auto.
  - intros a q i Ha Hi. destruct (Cas a q Ha) as [Ha'|[-> ->]].
    + eapply Forall_impl; [|eapply C; eauto]. intros x (p & P1 & P2). exists p. auto.
    + eapply Forall_impl; [|apply Ho; eauto]. intros x (p & P1 & P2). exists p. auto.
Qed.
Lemma sameNums_ok t k l : forall l', Forall (fun a => exists q, numOf t a = Some q /\ q < k) l' -> sameNums t l l' = true -> Forall2 (sameN t k) l l'.
Proof.
  induction l as [|a l IH]; intros [|b l'] F; cbn; try discriminate; [constructor|]. rewrite andb_true_iff. intros [H1 H2].
  inversion F as [|? ? (q & Q1 & Q2) F']; subst. constructor; auto. exists q. unfold optnat_eqb in H1. rewrite Q1 in *.
  destruct (numOf t a); [|discriminate]. apply Nat.eqb_eq in H1. subst. auto.
Qed.
Lemma numberOp_ok knd f fuel : forall s o s', tabOk knd f s -> numberOp knd f fuel s o = Some s' ->
  tabOk knd f s' /\ extends (fst s) (fst s') /\ snd s <= snd s' /\ numOf (fst s') o <> None.
Proof.
  induction fuel as [|fuel IH]; intros [t n] o s' Hs; cbn [numberOp fst snd].
  - destruct (numOf t o) eqn:En. { intros [= <-]. repeat split; auto; try apply Hs; try (intros ? ? ?; auto). cbn. congruence. }
    destruct (movableDef knd f o) eqn:Ed; [discriminate|]. intros [= <-]. destruct Hs as [Hc Hlt]. cbn in *. split; [split|split; [|split]].
    + apply congr_add; auto; [congruence|]. intros o' H. specialize (Hlt o' n H). lia.
    + cbn. intros o' k. rewrite numOf_app. destruct (numOf t o') eqn:E; [|destruct (opnd_eqb o o'); [intros [= <-]; lia|discriminate]].
      intros [= <-]. specialize (Hlt o' _ E). lia.
    + apply ext_app.
    + lia.
    + rewrite numOf_app, En, opnd_eqb_refl. discriminate.
  - destruct (numOf t o) eqn:En. { intros [= <-]. repeat split; auto; try apply Hs; try (intros ? ? ?; auto). cbn. congruence. }
    destruct (movableDef knd f o) as [i|] eqn:Ed.
    2:{ intros [= <-]. destruct Hs as [Hc Hlt]. cbn in *. split; [split|split; [|split]].
      + apply congr_add; auto; [congruence|]. intros o' H. specialize (Hlt o' n H). lia.
      + cbn. intros o' k. rewrite numOf_app. destruct (numOf t o') eqn:E; [|destruct (opnd_eqb o o'); [intros [= <-]; lia|discriminate]].
        intros [= <-]. specialize (Hlt o' _ E). lia.
      + apply ext_app.
      + lia.
      + rewrite numOf_app, En, opnd_eqb_refl. discriminate. }
    set (F := fun r a => match r with Some s' => numberOp knd f fuel s' a | None => None end).
    assert (FN : forall l, fold_left F l None = None) by (induction l; auto).
    assert (K : forall l s0 s1, tabOk knd f s0 -> fold_left F l (Some s0) = Some s1 ->
       tabOk knd f s1 /\ extends (fst s0) (fst s1) /\ snd s0 <= snd s1 /\ forall a, In a l -> numOf (fst s1) a <> None).
    { induction l as [|a l IHl]; intros s0 s1 H0 H.
      - cbn in H. injection H as <-. split; auto. split; [intros ? ? ?; auto|]. split; [lia|intros ? []].
      - cbn [fold_left] in H. assert (EF : F (Some s0) a = numberOp knd f fuel s0 a) by reflexivity. rewrite EF in H. clear EF.
        destruct (numberOp knd f fuel s0 a) as [s2|] eqn:E2; [|rewrite FN in H; discriminate].
        destruct (IH s0 a s2 H0 E2) as (A1 & A2 & A3 & A4). destruct (IHl s2 s1 A1 H) as (B1 & B2 & B3 & B4). split; auto. split; [eapply ext_trans; eauto|].
        split; [lia|]. intros a' [<-|Ha]; auto. destruct (numOf (fst s2) a) eqn:E; [|congruence]. rewrite (B2 a _ E). discriminate. }
    destruct (fold_left F (ops i) (Some (t, n))) as [[t1 n1]|] eqn:Ef; [|discriminate].
    destruct (K (ops i) (t, n) (t1, n1) Hs Ef) as ((C1 & L1) & X1 & M1 & N1). cbn in L1, X1, M1, N1.
    destruct (numOf t1 o) as [q0|] eqn:En1.
    { (* already there: the new entry is hidden *)
      assert (Hid : forall k, forall o', numOf (t1 ++ [(o, k)]) o' = numOf t1 o').
      { intros k o'. rewrite numOf_app. destruct (numOf t1 o') eqn:E; auto. destruct (opnd_eqb_spec o o') as [->|]; congruence. }
      assert (Cg : forall k, congr knd f (t1 ++ [(o, k)])).
      { intros k. destruct C1 as [B C]. split.
        - intros a b q Ha Hb. rewrite Hid in Ha, Hb. destruct (B a b q Ha Hb) as [->|(i1 & j1 & H1 & H2 & H3 & H4)]; auto. right. exists i1, j1.
          repeat split; auto. clear -H4 Hid. induction H4 as [|x y l l' (p & P1 & P2 & P3) H IH]; constructor; auto. exists p. rewrite !Hid. auto.
        - intros a q i1 Ha Hi. rewrite Hid in Ha. eapply Forall_impl; [|eapply C; eauto]. intros x (p & P1 & P2). exists p. rewrite Hid. auto. }
      destruct (find (sameEntry knd f t1 i) t1) as [e|].
      - destruct (numOf t1 (fst e)) as [id|]; [|discriminate]. intros [= <-]. cbn. split; [split|split; [|split]]; cbn; auto.
        + intros o' k. rewrite Hid. apply L1.
        + eapply ext_trans; [exact X1|apply ext_app].
        + rewrite Hid. congruence.
      - intros [= <-]. cbn. split; [split|split; [|split]]; cbn; auto.
        + intros o' k. rewrite Hid. intros H. specialize (L1 _ _ H). lia.
        + eapply ext_trans; [exact X1|apply ext_app].
        + rewrite Hid. congruence. }
    assert (Fops : Forall (fun a => exists q, numOf t1 a = Some q /\ q < n1) (ops i)).
    { rewrite Forall_forall. intros a Ha. specialize (N1 a Ha). destruct (numOf t1 a) as [q|] eqn:E; [|congruence]. exists q. split; auto. eapply L1; eauto. }
    destruct (find (sameEntry knd f t1 i) t1) as [e|] eqn:Ee.
    + destruct (numOf t1 (fst e)) as [id|] eqn:Eid; [|discriminate]. intros [= <-]. cbn.
      apply find_some in Ee as [_ Ee]. unfold sameEntry in Ee. destruct (movableDef knd f (fst e)) as [j|] eqn:Ej; [|discriminate].
      apply andb_true_iff in Ee as [Ee1 Ee2]. apply Nat.eqb_eq in Ee1. pose proof (sameNums_ok t1 id (ops i) (ops j) (proj2 C1 _ _ _ Eid Ej) Ee2) as S2.
      split; [split|split; [|split]]; cbn; auto.
      * apply congr_add; auto.
        -- intros i' Hi'. assert (i' = i) by congruence. subst i'. clear -S2. induction S2 as [|a b l l' (q & A & B & C) H IH]; constructor; auto. exists q. auto.
        -- intros o' Ho'. exists i. destruct (proj1 C1 (fst e) o' id Eid Ho') as [<-|(i2 & j2 & H1 & H2 & H3 & H4)].
           ++ exists j. auto.
           ++ exists j2. assert (i2 = j) by congruence. subst i2. repeat split; auto; [congruence|]. eapply sameN_trans; eauto.
      * intros o' k. rewrite numOf_app. destruct (numOf t1 o') eqn:E; [intros [= <-]; eauto|]. destruct (opnd_eqb o o'); [intros [= <-]; eauto|discriminate].
      * eapply ext_trans; [exact X1|apply ext_app].
      * rewrite numOf_app, En1, opnd_eqb_refl. discriminate.
    + intros [= <-]. cbn. split; [split|split; [|split]]; cbn; auto.
      * apply congr_add; auto.
        -- intros i' Hi'. assert (i' = i) by congruence. subst i'. exact Fops.
        -- intros o' Ho'. specialize (L1 _ _ Ho'). lia.
      * intros o' k. rewrite numOf_app. destruct (numOf t1 o') eqn:E; [intros [= <-]; specialize (L1 _ _ E); lia|].
        destruct (opnd_eqb o o'); [intros [= <-]; lia|discriminate].
      * eapply ext_trans; [exact X1|apply ext_app].
      * rewrite numOf_app, En1, opnd_eqb_refl. discriminate.
Qed.
Lemma numberAll_ok knd order f s : numberAll knd order f = Some s ->
  tabOk knd f s /\ forall x, In x (visited knd order f) -> numOf (fst s) (ORes x) <> None.
Proof.
  unfold numberAll. set (F := fun r x => match r with Some s => numberOp knd f (S (length (allResults f))) s (ORes x) | None => None end).
  assert (FN : forall l, fold_left F l None = None) by (induction l; auto).
  assert (K : forall l s0, tabOk knd f s0 -> fold_left F l (Some s0) = Some s ->
     tabOk knd f s /\ extends (fst s0) (fst s) /\ forall x, In x l -> numOf (fst s) (ORes x) <> None).
  { induction l as [|x l IH]; intros s0 H0 H.
    - cbn in H. injection H as <-. split; auto. split; [intros ? ? ?; auto|intros ? []].
    - cbn [fold_left] in H. assert (EF : F (Some s0) x = numberOp knd f (S (length (allResults f))) s0 (ORes x)) by reflexivity. rewrite EF in H. clear EF.
      destruct (numberOp knd f _ s0 (ORes x)) as [s2|] eqn:E2; [|rewrite FN in H; discriminate].
      destruct (numberOp_ok knd f _ s0 _ s2 H0 E2) as (A1 & A2 & A3 & A4). destruct (IH s2 A1 H) as (B1 & B2 & B3). split; auto. split; [eapply ext_trans; eauto|].
      intros y [<-|Hy]; auto. destruct (numOf (fst s2) (ORes x)) eqn:E; [|congruence]. rewrite (B2 _ _ E). discriminate. }
  intros H. destruct (K (visited knd order f) ([], 0)) as (A & _ & B); auto. split; [split|]; cbn; [|discriminate|]; intros ? ?; discriminate.
Qed.

(** the entries of the values that are not movable instructions are never hidden *)
Definition nonMovUnique (knd : nat -> kind) (f : func) (t : numTab) : Prop :=
  forall e, In e t -> movableDef knd f (fst e) = None -> numOf t (fst e) = Some (snd e).
Lemma nmu_add knd f t o k : nonMovUnique knd f t -> (movableDef knd f o = None -> numOf t o = None) -> nonMovUnique knd f (t ++ [(o, k)]).
Proof.
  intros H Ho e He Em. apply in_app_or in He as [He|[<-|[]]].
  - rewrite numOf_app, (H e He Em). reflexivity.
  - cbn [fst snd] in *. rewrite numOf_app, (Ho Em), opnd_eqb_refl. reflexivity.
Qed.
Lemma numberOp_first knd f fuel : forall s o s', nonMovUnique knd f (fst s) -> numberOp knd f fuel s o = Some s' -> nonMovUnique knd f (fst s').
Proof.
  induction fuel as [|fuel IH]; intros [t n] o s' Hs; cbn [numberOp fst snd].
  - destruct (numOf t o) eqn:En. { intros [= <-]. auto. }
    destruct (movableDef knd f o) eqn:Ed; [discriminate|]. intros [= <-]. apply nmu_add; auto.
  - destruct (numOf t o) eqn:En. { intros [= <-]. auto. }
    destruct (movableDef knd f o) as [i|] eqn:Ed; [|intros [= <-]; apply nmu_add; auto].
    set (F := fun r a => match r with Some s' => numberOp knd f fuel s' a | None => None end).
    assert (FN : forall l, fold_left F l None = None) by (induction l; auto).
    assert (K : forall l s0 s1, nonMovUnique knd f (fst s0) -> fold_left F l (Some s0) = Some s1 -> nonMovUnique knd f (fst s1)).
    { induction l as [|a l IHl]; intros s0 s1 H0 H; cbn [fold_left] in H; [injection H as <-; auto|].
      assert (EF : F (Some s0) a = numberOp knd f fuel s0 a) by reflexivity. rewrite EF in H. clear EF.
      destruct (numberOp knd f fuel s0 a) as [s2|] eqn:E2; [|rewrite FN in H; discriminate]. eapply IHl; [|exact H]. eapply IH; eauto. }
    destruct (fold_left F (ops i) (Some (t, n))) as [[t1 n1]|] eqn:Ef; [|discriminate].
    pose proof (K (ops i) (t, n) (t1, n1) Hs Ef) as K1. cbn [fst] in K1.
    destruct (find (sameEntry knd f t1 i) t1) as [e|]; [destruct (numOf t1 (fst e)); [|discriminate]|]; intros [= <-]; apply nmu_add; auto; congruence.
Qed.
Lemma numberAll_first knd order f s : numberAll knd order f = Some s -> nonMovUnique knd f (fst s).
Proof.
  unfold numberAll. set (F := fun r x => match r with Some s => numberOp knd f (S (length (allResults f))) s (ORes x) | None => None end).
  assert (FN : forall l, fold_left F l None = None) by (induction l; auto).
  assert (K : forall l s0, nonMovUnique knd f (fst s0) -> fold_left F l (Some s0) = Some s -> nonMovUnique knd f (fst s)).
  { induction l as [|x l IH]; intros s0 H0 H; cbn [fold_left] in H; [injection H as <-; auto|].
    assert (EF : F (Some s0) x = numberOp knd f (S (length (allResults f))) s0 (ORes x)) by reflexivity. rewrite EF in H. clear EF.
    destruct (numberOp knd f _ s0 (ORes x)) as [s2|] eqn:E2; [|rewrite FN in H; discriminate]. eapply IH; [|exact H]. eapply numberOp_first; eauto. }
  intros H. eapply K; [|exact H]. intros e [].
Qed.

(** ** proofs: the replacement *)
Definition mapI (h : opnd -> opnd) (i : inst) : inst := Inst (dst i) (opc i) (map h (ops i)).
Lemma defOf_subst h f x : defOf (subst h f) x = option_map (mapI h) (defOf f x).
Proof.
  unfold defOf. induction f as [|[b bk] f IH]; auto. cbn [subst map flat_map fst snd].
  assert (Fa : forall l l', find (fun i => Nat.eqb (dst i) x) (l ++ l') =
     match find (fun i => Nat.eqb (dst i) x) l with Some i => Some i | None => find (fun i => Nat.eqb (dst i) x) l' end).
  { induction l as [|i l IHl]; intros l'; cbn; auto. destruct (Nat.eqb (dst i) x); auto. }
  rewrite !Fa. cbn [mapOps body]. fold (subst h f). rewrite IH.
  induction (body bk) as [|i l IHl]; cbn; auto. destruct (Nat.eqb (dst i) x); auto.
Qed.
Lemma before_subst h f x z : before (subst h f) x z <-> before f x z.
Proof.
  split; intros H d bk Hd R Hx.
  - assert (Hd' : get d (subst h f) = Some (mapOps h bk)) by (rewrite get_subst, Hd; reflexivity).
    destruct (H d _ Hd') as [K|[K|(pre & i & post & E & Ei & K)]].
    + exact (proj2 (reach_subst h f d) R).
    + now rewrite results_mapOps.
    + left. exact (proj1 (availIn_subst h f d z) K).
    + right. left. cbn in K. rewrite map_map in K. exact K.
    + right. right. cbn in E, K. apply map_eq_app in E as (l1 & l2 & E0 & E1 & E2). destruct l2 as [|i0 l2]; [discriminate|]. cbn in E2. injection E2 as <- <-.
      exists l1, i0, l2. split; auto. split; auto. rewrite map_map in K. cbn in K. destruct K as [K|K]; auto. right. rewrite <- E1, map_map in K. exact K.
  - rewrite get_subst in Hd. destruct (get d f) as [bk0|] eqn:Ed; [|discriminate]. injection Hd as <-. apply (reach_subst h f) in R. rewrite results_mapOps in Hx.
    destruct (H d bk0 Ed R Hx) as [K|[K|(pre & i & post & E & Ei & K)]].
    + left. exact (proj2 (availIn_subst h f d z) K).
    + right. left. cbn. rewrite map_map. exact K.
    + right. right. cbn. rewrite E, map_app, map_map. exists (map (fun i => Inst (dst i) (opc i) (map h (ops i))) pre), (mapI h i), (map (fun i => Inst (dst i) (opc i) (map h (ops i))) post).
      split; auto. split; auto. rewrite map_map. exact K.
Qed.
Lemma same_eqv_ok knd f x z : wfs f -> eqv knd f (ORes x) (ORes z) -> before f x z -> good knd f (replaceWith x (ORes z) f).
Proof.
  intros Hf He Hb. split.
  - unfold replaceWith. rewrite (subst_ext _ (subRes (fun y => if Nat.eqb y x then z else y))).
    + apply eqv_subst_ok; [apply Hf|apply Hf|]. intros y. destruct (Nat.eqb_spec y x) as [->|]; auto.
    + intros [c|n|y]; cbn; auto. unfold oneOp. destruct (Nat.eqb y x); reflexivity.
  - apply wfs_subOp; auto. intros y o u. unfold oneOp. destruct (Nat.eqb_spec y x) as [->|]; [|discriminate]. intros [= <-] [<-|[]]. exact Hb.
Qed.
(** replacing a value by one with the same number keeps the numbers right *)
Lemma congr_subst knd h f t : congr knd f t -> (forall o k, numOf t o = Some k -> numOf t (h o) = Some k) -> congr knd (subst h f) t.
Proof.
  intros [B C] H.
  assert (Md : forall o, movableDef knd (subst h f) o = option_map (mapI h) (movableDef knd f o)).
  { intros [c|n|x]; auto. cbn. rewrite defOf_subst. destruct (defOf f x) as [i|]; auto. cbn. destruct (isMovable knd (opc i)); auto. }
  split.
  - intros o o' k Ho Ho'. destruct (B o o' k Ho Ho') as [->|(i & j & H1 & H2 & H3 & H4)]; auto. right. exists (mapI h i), (mapI h j). rewrite !Md, H1, H2.
    repeat split; auto. cbn. clear -H4 H. induction H4 as [|a b l l' (q & P1 & P2 & P3) K IH]; constructor; auto. exists q. auto.
  - intros o k i Ho Hi. rewrite Md in Hi. destruct (movableDef knd f o) as [i0|] eqn:E; [|discriminate]. injection Hi as <-. cbn.
    specialize (C o k i0 Ho E). clear -C H. induction C as [|a l (q & P1 & P2) K IH]; constructor; auto. exists q. auto.
Qed.
Lemma replace_num t x z k : numOf t (ORes x) = Some k -> numOf t (ORes z) = Some k ->
  forall o q, numOf t o = Some q -> numOf t (subOp (oneOp x (ORes z)) o) = Some q.
Proof.
  intros H1 H2 [c|n|y] q H; cbn; auto. unfold oneOp. destruct (Nat.eqb_spec y x) as [->|]; cbn; congruence.
Qed.
Lemma mapOps_id bk : mapOps (fun o => o) bk = bk.
Proof.
  destruct bk as [ps l tm]. unfold mapOps. cbn. f_equal.
  - rewrite <- (map_id ps) at 2. apply map_ext. intros [d i]. cbn. f_equal. rewrite <- (map_id i) at 2. apply map_ext. intros [? ?]. reflexivity.
  - rewrite <- (map_id l) at 2. apply map_ext. intros [d o i]. cbn. now rewrite map_id.
  - destruct tm as [?|?|?|[?|]|]; reflexivity.
Qed.
Lemma subst_id g : subst (fun o => o) g = g.
Proof. unfold subst. rewrite <- (map_id g) at 2. apply map_ext. intros [b bk]. cbn. now rewrite mapOps_id. Qed.
Lemma subst_subst h h' g : subst h (subst h' g) = subst (fun o => h (h' o)) g.
Proof.
  unfold subst. rewrite map_map. apply map_ext. intros [b [ps l tm]]. cbn. f_equal. unfold mapOps. cbn. f_equal.
  - rewrite map_map. apply map_ext. intros [d i]. cbn. f_equal. rewrite map_map. reflexivity.
  - rewrite map_map. apply map_ext. intros [d o i]. cbn. f_equal. rewrite map_map. reflexivity.
  - destruct tm as [?|?|?|[?|]|]; reflexivity.
Qed.
Lemma mergeLoop_ok knd t z k ms : numOf t (ORes z) = Some k -> forall g, wfs g -> congr knd g t ->
  (forall x, In x ms -> x <> z -> numOf t (ORes x) = Some k /\ before g x z) ->
  let g' := fold_left (fun g x => if Nat.eqb x z then g else replaceWith x (ORes z) g) ms g in
  good knd g g' /\ congr knd g' t /\ exists h, g' = subst h g.
Proof.
  intros Hz. induction ms as [|x ms IH]; intros g Hg Hc Hm; cbn [fold_left].
  - split; [now apply good_refl|]. split; auto. exists (fun o => o). now rewrite subst_id.
  - destruct (Nat.eqb_spec x z) as [->|D].
    + apply IH; auto. intros y Hy. apply Hm. now right.
    + destruct (Hm x (or_introl eq_refl) D) as [Nx Bx].
      assert (G : good knd g (replaceWith x (ORes z) g)) by (apply same_eqv_ok; auto; eapply congr_eqv; eauto).
      assert (Hc' : congr knd (replaceWith x (ORes z) g) t) by (apply congr_subst; auto; eapply replace_num; eauto).
      destruct (IH (replaceWith x (ORes z) g) (proj2 G) Hc') as (A & B & h & Hh).
      { intros y Hy Dy. destruct (Hm y (or_intror Hy) Dy) as [H1 H2]. split; auto. now apply before_subst. }
      split; [eapply good_trans; eauto|]. split; auto. rewrite Hh. unfold replaceWith. rewrite subst_subst. eauto.
Qed.

Section Phase2.
Variables (knd : nat -> kind) (E : gvnEnv) (order : list nat) (f : func).
Hypothesis Hf : wfs f.
Hypothesis Horder : forall b, In b order <-> reach f b.
Hypothesis Hlca : forall a b, reach f a -> reach f b -> dominates f (lcaOf E a b) a /\ dominates f (lcaOf E a b) b.
Hypothesis Hdom : forall a b, domOf E a b = true -> reach f b -> dominates f a b.
Let vis := visited knd order f.

Definition clone (s : gst) (x : nat) : Prop := exists id, numOf (gt s) (ORes x) = Some id /\ get id (gm s) = Some (ORes x).
Record Inv (s : gst) : Prop := {
  i_wfs : wfs (gf s);
  i_congr : congr knd (gf s) (gt s);
  i_path : forall b l, path (gf s) b l <-> path f b l;
  i_blocks : forall b bk0, get b f = Some bk0 -> exists bk extra, get b (gf s) = Some bk /\ map pdst (phis bk) = map pdst (phis bk0) /\
     map dst (body bk) = map dst (body bk0) ++ extra /\ forall x, In x extra -> clone s x;
  i_none : forall b, get b f = None -> get b (gf s) = None;
  i_opc : forall x i0, defOf f x = Some i0 -> exists i, defOf (gf s) x = Some i /\ opc i = opc i0;
  i_map : forall id z, get id (gm s) = Some z -> numOf (gt s) z = Some id /\
     forall x, numOf (gt s) (ORes x) = Some id -> ORes x = z \/ exists y, z = ORes y /\ before (gf s) x y;
  i_vis : forall x, In x vis -> numOf (gt s) (ORes x) <> None
}.
Lemma i_dom s : Inv s -> forall a b, dominates (gf s) a b <-> dominates f a b.
Proof. intros I a b. split; intros H l Hl; apply H; now apply (i_path s I). Qed.
Lemma i_reach s : Inv s -> forall b, reach (gf s) b <-> reach f b.
Proof. intros I b. split; intros [l Hl]; exists l; now apply (i_path s I). Qed.
Lemma vis_spec x : In x vis <-> exists b bk i, reach f b /\ get b f = Some bk /\ In i (body bk) /\ dst i = x /\ isMovable knd (opc i) = true.
Proof.
  unfold vis, visited. rewrite in_flat_map. split.
  - intros (b & Hb & Hx). destruct (get b f) as [bk|] eqn:Eb; [|destruct Hx]. apply in_map_iff in Hx as (i & <- & Hi). apply filter_In in Hi as [Hi Hm].
    exists b, bk, i. repeat split; auto. now apply Horder.
  - intros (b & bk & i & R & Hb & Hi & <- & Hm). exists b. split; [now apply Horder|]. rewrite Hb. apply in_map. now apply filter_In.
Qed.
Lemma vis_def s x : Inv s -> In x vis -> exists b bk i, reach f b /\ get b (gf s) = Some bk /\ In x (map dst (body bk)) /\
  defOf (gf s) x = Some i /\ isMovable knd (opc i) = true /\ defIn (gf s) x b.
Proof.
  intros I Hx. apply vis_spec in Hx as (b & bk0 & i0 & R & Hb & Hi & Ex & Hm). assert (U : uniqueDefs f) by apply Hf.
  destruct (i_blocks s I b bk0 Hb) as (bk & extra & Hg & _ & Hd & _). assert (Hx : In x (map dst (body bk))).
  { rewrite Hd. apply in_or_app. left. rewrite <- Ex. now apply in_map. }
  assert (D0 : defOf f x = Some i0) by (apply in_split in Hi as (p & q & Hi); eapply defOf_body; eauto).
  destruct (i_opc s I x i0 D0) as (i & D1 & E1). exists b, bk, i. repeat split; auto; [congruence|]. exists bk. split; auto. apply in_or_app. auto.
Qed.
Lemma blockOf_def g x d : uniqueDefs g -> defIn g x d <-> blockOf g x = Some d.
Proof.
  intros U. unfold blockOf. split.
  - intros (bk & Hb & Hx). destruct (find (fun b => inb x (resultsOf (snd b))) g) as [[d' bk']|] eqn:Ef.
    + apply find_some in Ef as [H1 H2]. cbn in H2. apply inb_In in H2. cbn. f_equal.
      eapply (results_unique g d' bk' d bk x); eauto. apply In_get; [apply U|auto].
    + exfalso. pose proof (find_none _ _ Ef (d, bk) (get_In _ _ _ Hb)) as K. cbn in K. apply inb_In in Hx. congruence.
  - destruct (find (fun b => inb x (resultsOf (snd b))) g) as [[d' bk']|] eqn:Ef; [|discriminate]. intros [= <-].
    apply find_some in Ef as [H1 H2]. cbn in H2. apply inb_In in H2. exists bk'. split; auto. apply In_get; [apply U|auto].
Qed.
(** the instructions with the number of a class that runs can meet are its members *)
Lemma class_members s id m0 y d : Inv s -> get id (gm s) = None -> In m0 (members (gt s) vis id) ->
  numOf (gt s) (ORes y) = Some id -> defIn (gf s) y d -> reach f d -> In y (members (gt s) vis id).
Proof.
  intros I Hn Hm Hy (bk & Hd & Hx) R. unfold members in *. apply filter_In in Hm as [Hv Hm]. unfold optnat_eqb in Hm.
  destruct (numOf (gt s) (ORes m0)) as [k|] eqn:Ek; [|discriminate]. apply Nat.eqb_eq in Hm. subst k.
  assert (Q : optnat_eqb (numOf (gt s) (ORes y)) (Some id) = true) by (rewrite Hy; apply Nat.eqb_refl).
  apply filter_In. split; auto. assert (Ug : uniqueDefs (gf s)) by apply (i_wfs s I). assert (U : uniqueDefs f) by apply Hf.
  destruct (proj1 (i_congr s I) (ORes y) (ORes m0) id Hy Ek) as [[= ->]|(i & j & H1 & _ & _ & _)]; auto.
  apply movableDef_spec in H1 as (y' & [= <-] & Dy & My).
  destruct (get d f) as [bk0|] eqn:Ed; [|rewrite (i_none s I d Ed) in Hd; discriminate].
  destruct (i_blocks s I d bk0 Ed) as (bk' & extra & Hg & Hp & Hb & He). assert (bk' = bk) by congruence. subst bk'.
  destruct (defOf_block (gf s) y i d bk Ug Dy Hd Hx) as (Ei & pre & post & Eb).
  assert (Hyb : In y (map dst (body bk))) by (rewrite Eb, map_app; apply in_or_app; right; left; auto).
  rewrite Hb in Hyb. apply in_app_or in Hyb as [Hyb|Hyb].
  - apply in_map_iff in Hyb as (i0 & E0 & Hi0). apply vis_spec. exists d, bk0, i0. repeat split; auto.
    assert (D0 : defOf f y = Some i0) by (apply in_split in Hi0 as (p & q & Hi0); eapply defOf_body; eauto).
    destruct (i_opc s I y i0 D0) as (i1 & D1 & E1). assert (i1 = i) by congruence. subst. congruence.
  - exfalso. destruct (He y Hyb) as (id' & N1 & N2). congruence.
Qed.
(** recording a leader *)
Lemma Inv_record s id z : Inv s -> get id (gm s) = None -> numOf (gt s) (ORes z) = Some id ->
  (forall x, numOf (gt s) (ORes x) = Some id -> x <> z -> before (gf s) x z) -> Inv (Gst (gf s) (gt s) ((id, ORes z) :: gm s)).
Proof.
  intros [] Hn Hz Hb. constructor; auto; cbn [gf gt gm].
  - intros b bk0 H0. destruct (i_blocks0 b bk0 H0) as (bk & extra & A & B & C & D). exists bk, extra. repeat split; auto.
    intros x Hx. destruct (D x Hx) as (id' & N1 & N2). exists id'. split; auto. cbn. destruct (Nat.eqb_spec id id') as [->|]; auto. congruence.
  - intros id' z'. cbn. destruct (Nat.eqb_spec id id') as [->|]; auto. intros [= <-]. split; auto. intros x Hx.
    destruct (Nat.eq_dec x z) as [->|D]; auto. right. exists z. auto.
Qed.
Lemma Inv_subst s h : Inv s -> wfs (subst h (gf s)) -> congr knd (subst h (gf s)) (gt s) -> Inv (Gst (subst h (gf s)) (gt s) (gm s)).
Proof.
  intros [] Hw Hc. constructor; auto; cbn [gf gt gm].
  - intros b l. rewrite path_subst. auto.
  - intros b bk0 H0. destruct (i_blocks0 b bk0 H0) as (bk & extra & A & B & C & D). exists (mapOps h bk), extra. rewrite get_subst, A. repeat split; auto.
    + cbn. rewrite map_map. exact B.
    + cbn. rewrite map_map. exact C.
  - intros b Hb. rewrite get_subst, (i_none0 b Hb). reflexivity.
  - intros x i0 H. destruct (i_opc0 x i0 H) as (i & A & B). exists (mapI h i). rewrite defOf_subst, A. auto.
  - intros id z Hid. destruct (i_map0 id z Hid) as [A B]. split; auto. intros x Hx. destruct (B x Hx) as [K|(y & K1 & K2)]; auto. right. exists y. split; auto.
    now apply before_subst.
Qed.
Lemma merge_ok s id ms z : Inv (Gst (gf s) (gt s) ((id, ORes z) :: gm s)) -> (forall x, In x ms -> numOf (gt s) (ORes x) = Some id) ->
  Inv (merge E s id ms z) /\ good knd (gf s) (gf (merge E s id ms z)) /\ gm (merge E s id ms z) = (id, ORes z) :: gm s /\ gt (merge E s id ms z) = gt s.
Proof.
  intros I Hms. assert (G0 : good knd (gf s) (gf s)) by (apply good_refl; apply (i_wfs _ I)).
  unfold merge. destruct (defOf (gf s) z) as [i|]; [|split; [exact I|split; [exact G0|auto]]]. destruct (native E (opc i)); [|split; [exact I|split; [exact G0|auto]]].
  destruct (i_map _ I id (ORes z)) as [Nz Bz]; [cbn; now rewrite Nat.eqb_refl|]. cbn [gf gt gm] in *.
  destruct (mergeLoop_ok knd (gt s) z id ms Nz (gf s) (i_wfs _ I) (i_congr _ I)) as (A & B & h & Eh).
  { intros x Hx D. split; auto. destruct (Bz x (Hms x Hx)) as [[= ->]|(y & [= <-] & K)]; [congruence|auto]. }
  split; [|cbn; auto]. rewrite Eh in *. apply (Inv_subst (Gst (gf s) (gt s) ((id, ORes z) :: gm s)) h I (proj2 A) B).
Qed.
Lemma fold_lca_none l : fold_left (fun r b => match r, b with Some x, Some y => Some (lcaOf E x y) | _, _ => None end) l (None : option nat) = None.
Proof. induction l as [|[y|] l IH]; auto. Qed.
Lemma fold_lca l : forall a b, reach f a -> (forall y, In (Some y) l -> reach f y) ->
  fold_left (fun r b => match r, b with Some x, Some y => Some (lcaOf E x y) | _, _ => None end) l (Some a) = Some b ->
  dominates f b a /\ forall y, In (Some y) l -> dominates f b y.
Proof.
  induction l as [|[y|] l IH]; intros a b Ra Hl H; cbn in H.
  - injection H as <-. split; [apply dominates_refl|intros y []].
  - destruct (Hlca a y Ra (Hl y (or_introl eq_refl))) as [D1 D2]. destruct (IH (lcaOf E a y) b) as [A B]; auto.
    + destruct Ra as [l0 Ra]. eapply dom_reach; eauto.
    + intros y' Hy'. apply Hl. now right.
    + split; [eapply dominates_trans; eauto|]. intros y' [[= <-]|Hy']; auto. eapply dominates_trans; eauto.
  - rewrite fold_lca_none in H. discriminate.
Qed.
Lemma lcaBlock_dom g ms b : (forall x d, In x ms -> blockOf g x = Some d -> reach f d) -> lcaBlock E g ms = Some b ->
  forall x d, In x ms -> blockOf g x = Some d -> dominates f b d.
Proof.
  unfold lcaBlock. intros HR H x d Hx Hd. destruct ms as [|m0 ms]; [destruct Hx|]. cbn in H.
  destruct (blockOf g m0) as [a|] eqn:Ea; [|rewrite fold_lca_none in H; discriminate].
  destruct (fold_lca (map (blockOf g) ms) a b) as [A B]; auto.
  - eapply HR; [now left|exact Ea].
  - intros y Hy. apply in_map_iff in Hy as (m & Em & Hm). eapply HR; [right; exact Hm|exact Em].
  - destruct Hx as [->|Hx]; [assert (a = d) by congruence; subst; exact A|]. apply B. apply in_map_iff. eauto.
Qed.
Lemma find_split {A} (P : A -> bool) l z : find P l = Some z -> exists p r, l = p ++ z :: r /\ forall w, In w p -> P w = false.
Proof.
  induction l as [|a l IH]; cbn; [discriminate|]. destruct (P a) eqn:Ea.
  - intros [= ->]. exists [], l. split; auto. intros w [].
  - intros H. destruct (IH H) as (p & r & -> & K). exists (a :: p), r. split; auto. intros w [<-|Hw]; auto.
Qed.
Lemma find_filter {A} (P q : A -> bool) l : find P (filter q l) = find (fun x => q x && P x) l.
Proof. induction l as [|a l IH]; cbn; auto. destruct (q a); cbn; auto. destruct (P a); auto. Qed.
Lemma find_app {A} (P : A -> bool) l l' : find P (l ++ l') = match find P l with Some x => Some x | None => find P l' end.
Proof. induction l as [|a l IH]; cbn; auto. destruct (P a); auto. Qed.
Lemma find_flat {A} (P : A -> bool) (G : nat -> list A) b l z : (forall c, c <> b -> forall x, In x (G c) -> P x = false) ->
  find P (flat_map G l) = Some z -> find P (G b) = Some z.
Proof.
  intros H. induction l as [|c l IH]; cbn; [discriminate|]. rewrite find_app. destruct (Nat.eq_dec c b) as [->|D].
  - destruct (find P (G b)); auto.
  - destruct (find P (G c)) as [x|] eqn:Ef; auto. apply find_some in Ef as [F1 F2]. rewrite (H c D x F1) in F2. discriminate.
Qed.
Definition visIn (b : nat) : list nat := match get b f with Some bk => map dst (filter (fun i => isMovable knd (opc i)) (body bk)) | None => [] end.
(** the first member in its block precedes the others there *)
Lemma leader_first s id b z y bk : Inv s -> find (fun x => optnat_eqb (blockOf (gf s) x) (Some b)) (members (gt s) vis id) = Some z ->
  In y (members (gt s) vis id) -> y <> z -> blockOf (gf s) y = Some b -> get b (gf s) = Some bk ->
  exists pre i post, body bk = pre ++ i :: post /\ dst i = y /\ In z (map dst pre).
Proof.
  intros I Hz Hy D By Hb. assert (Ug : uniqueDefs (gf s)) by apply (i_wfs s I). assert (U : uniqueDefs f) by apply Hf.
  unfold members in Hz. rewrite find_filter in Hz.
  assert (VB : forall c x, In x (visIn c) -> blockOf (gf s) x = Some c).
  { intros c x Hx. apply (blockOf_def (gf s) x c Ug). unfold visIn in Hx. destruct (get c f) as [bk0|] eqn:Ec; [|destruct Hx].
    destruct (i_blocks s I c bk0 Ec) as (bk1 & extra & A & _ & C & _). exists bk1. split; auto. apply in_or_app. right. rewrite C. apply in_or_app. left.
    apply in_map_iff in Hx as (i & <- & Hi). apply filter_In in Hi as [Hi _]. now apply in_map. }
  apply (find_flat _ visIn b) in Hz.
  2:{ intros c Hc x Hx. rewrite (VB c x Hx). cbn. apply andb_false_iff. right. now apply Nat.eqb_neq. }
  apply find_split in Hz as (p & r & Ez & Hp). unfold members in Hy. apply filter_In in Hy as [Hv Hq].
  assert (Hyb : In y (visIn b)).
  { unfold vis, visited in Hv. apply in_flat_map in Hv as (c & Hc & Hv). change (In y (visIn c)) in Hv. assert (K := VB c y Hv). assert (c = b) by congruence. congruence. }
  rewrite Ez in Hyb. apply in_app_or in Hyb as [Hyb|[Hyb|Hyb]]; [|congruence|].
  { exfalso. specialize (Hp y Hyb). rewrite Hq, By in Hp. cbn in Hp. rewrite Nat.eqb_refl in Hp. discriminate. }
  unfold visIn in Ez. destruct (get b f) as [bk0|] eqn:Eb; [|destruct p; discriminate].
  destruct (i_blocks s I b bk0 Eb) as (bk1 & extra & A & _ & C & _). assert (bk1 = bk) by congruence. subst bk1.
  apply map_eq_app in Ez as (l1 & l2 & E0 & E1 & E2). destruct l2 as [|iz l2]; [discriminate|]. cbn in E2. injection E2 as Eiz E2.
  rewrite <- E2 in Hyb. apply in_map_iff in Hyb as (iy & Ey & Hyb). apply in_split in Hyb as (l3 & l4 & ->).
  assert (E3 : filter (fun i => isMovable knd (opc i)) (body bk0) = (l1 ++ iz :: l3) ++ iy :: l4) by (rewrite E0, <- app_assoc; reflexivity).
  assert (FS : forall (q : inst -> bool) l pre i post, filter q l = pre ++ i :: post -> exists pre0 post0, l = pre0 ++ i :: post0 /\ filter q pre0 = pre).
  { clear. intros q. induction l as [|a l IH]; intros pre i post; cbn; [destruct pre; discriminate|]. destruct (q a) eqn:Ea.
    - destruct pre as [|p pre]; cbn; intros [= -> H].
      + exists [], l. auto.
      + destruct (IH _ _ _ H) as (p0 & q0 & -> & <-). exists (p :: p0), q0. cbn. rewrite Ea. auto.
    - intros H. destruct (IH _ _ _ H) as (p0 & q0 & -> & <-). exists (a :: p0), q0. cbn. rewrite Ea. auto. }
  destruct (FS _ _ _ _ _ E3) as (pre0 & post0 & Ebd & Ef). rewrite Ebd, map_app in C. cbn in C. rewrite <- app_assoc in C.
  apply map_eq_app in C as (m1 & m2 & C0 & C1 & C2). destruct m2 as [|i m2]; [discriminate|]. cbn in C2. injection C2 as C2 C3.
  exists m1, i, m2. split; auto. split; [congruence|]. rewrite C1. assert (Hin : In iz (filter (fun i => isMovable knd (opc i)) pre0)).
  { rewrite Ef. apply in_or_app. right. now left. }
  apply filter_In in Hin as [Hin _]. rewrite <- Eiz. now apply in_map.
Qed.
Lemma leader_ok s id b z : Inv s -> get id (gm s) = None -> lcaBlock E (gf s) (members (gt s) vis id) = Some b ->
  find (fun x => optnat_eqb (blockOf (gf s) x) (Some b)) (members (gt s) vis id) = Some z ->
  numOf (gt s) (ORes z) = Some id /\ forall y, numOf (gt s) (ORes y) = Some id -> y <> z -> before (gf s) y z.
Proof.
  intros I Hn Hl Hz. assert (Ug : uniqueDefs (gf s)) by apply (i_wfs s I). pose proof (find_some _ _ Hz) as [Zm Zb].
  assert (Bz : blockOf (gf s) z = Some b).
  { unfold optnat_eqb in Zb. destruct (blockOf (gf s) z); [|discriminate]. apply Nat.eqb_eq in Zb. congruence. }
  split.
  { unfold members in Zm. apply filter_In in Zm as [_ Zm]. unfold optnat_eqb in Zm. destruct (numOf (gt s) (ORes z)); [|discriminate]. apply Nat.eqb_eq in Zm. congruence. }
  intros y Hy D d bkd Hd R Hyd. apply (i_reach s I) in R. assert (Dy : defIn (gf s) y d) by (exists bkd; auto).
  pose proof (class_members s id z y d I Hn Zm Hy Dy R) as Ym. assert (By : blockOf (gf s) y = Some d) by (now apply blockOf_def).
  assert (Dom : dominates f b d).
  { eapply (lcaBlock_dom (gf s)); eauto. intros x c Hx Hc. unfold members in Hx. apply filter_In in Hx as [Hx _].
    destruct (vis_def s x I Hx) as (c' & bk' & i' & R' & _ & _ & _ & _ & Dx). apply (blockOf_def _ _ _ Ug) in Dx. congruence. }
  destruct (Nat.eq_dec b d) as [->|Nd].
  - right. right. destruct (leader_first s id d z y bkd I Hz Ym D By Hd) as (pre & i & post & E1 & E2 & E3). exists pre, i, post. auto.
  - left. exists b. split; [now apply blockOf_def|]. split; auto. now apply (i_dom s I).
Qed.
Lemma list_max_lt l x : In x l -> x < S (list_max l).
Proof. intros H. pose proof (list_max_le l (list_max l)) as [K _]. specialize (K (le_n _)). rewrite Forall_forall in K. specialize (K x H). lia. Qed.
Lemma numOf_key t o k : numOf t o = Some k -> In o (map fst t).
Proof. induction t as [|[a q] t IH]; cbn; [discriminate|]. destruct (opnd_eqb_spec a o); auto. Qed.
Lemma fresh_spec g t : let c := freshName g t in ~ In c (allResults g) /\ ~ In c (usesIn g) /\ numOf t (ORes c) = None.
Proof.
  cbn. unfold freshName. set (l := allResults g ++ usesIn g ++ flat_map (fun e => res_of (fst e)) t).
  assert (K : ~ In (S (list_max l)) l) by (intros H; apply list_max_lt in H; lia). split; [|split].
  - intros H. apply K. apply in_or_app. auto.
  - intros H. apply K. apply in_or_app. right. apply in_or_app. auto.
  - destruct (numOf t (ORes (S (list_max l)))) eqn:En; auto. exfalso. apply K. apply numOf_key in En. apply in_map_iff in En as (e & Ee & He).
    apply in_or_app. right. apply in_or_app. right. apply in_flat_map. exists e. split; auto. rewrite Ee. now left.
Qed.
Lemma cloneOp_num s o k : Inv s -> numOf (gt s) o = Some k -> numOf (gt s) (cloneOp s o) = Some k.
Proof.
  intros I H. destruct o as [v|n|x]; auto. cbn [cloneOp]. rewrite H. destruct (get k (gm s)) as [r|] eqn:Er; auto.
  now destruct (i_map s I k r Er).
Qed.
(** an operand that passes the check of lines 202-207 can be replaced by its leader at the end of the block *)
Lemma cloneOp_avail s b o k : Inv s -> reach f b -> numOf (gt s) o = Some k -> opAvail (availOut (gf s) b) o -> opAvail (availOut (gf s) b) (cloneOp s o).
Proof.
  intros I R H Ho. destruct o as [v|n|x]; auto. cbn [cloneOp]. rewrite H. destruct (get k (gm s)) as [r|] eqn:Er; auto.
  destruct (i_map s I k r Er) as [_ K]. destruct (K x H) as [<-|(y & -> & Bf)]; auto. cbn in Ho |- *. apply (i_reach s I) in R.
  destruct (get b (gf s)) as [bk|] eqn:Eb.
  - eapply before_out; eauto. apply (i_wfs s I).
  - exfalso. assert (W : closed (gf s) /\ gf s <> []) by (split; apply (i_wfs s I)). destruct W as [Wc Wn]. destruct R as [l R].
    assert (Hin : In b (map fst (gf s))). { destruct R as [|b0 l bk t R Hb0 Ht]; [destruct (gf s) as [|[? ?] ?]; [congruence|now left]|eapply Wc; eauto]. }
    apply (proj1 (get_None b (gf s))) in Eb. contradiction.
Qed.
Lemma hoist_ok s id base ms' b bk i : Inv s -> get id (gm s) = None -> members (gt s) vis id = base :: ms' ->
  lcaBlock E (gf s) (members (gt s) vis id) = Some b ->
  find (fun x => optnat_eqb (blockOf (gf s) x) (Some b)) (members (gt s) vis id) = None ->
  defOf (gf s) base = Some i -> get b (gf s) = Some bk -> isSpeculatable knd i = true -> operandsOk E (gf s) b (ops i) = true ->
  let c := freshName (gf s) (gt s) in
  let g' := insertAt b (length (body bk)) (Inst c (opc i) (map (cloneOp s) (ops i))) (gf s) in
  good knd (gf s) g' /\ Inv (Gst g' (gt s ++ [(ORes c, id)]) ((id, ORes c) :: gm s)) /\
  forall x, x <> c -> numOf (gt s ++ [(ORes c, id)]) (ORes x) = numOf (gt s) (ORes x).
Proof.
  intros I Hn Hms Hl Hnf Di Hb Hsp Hop c g'. pose proof (i_wfs s I) as Wg. assert (Ug : uniqueDefs (gf s)) by apply Wg. assert (Sg : ssa (gf s)) by apply Wg.
  destruct (fresh_spec (gf s) (gt s)) as (F1 & F2 & F3). fold c in F1, F2, F3.
  assert (Hbm : In base (members (gt s) vis id)) by (rewrite Hms; now left).
  assert (Nb : numOf (gt s) (ORes base) = Some id).
  { unfold members in Hbm. apply filter_In in Hbm as [_ K]. unfold optnat_eqb in K. destruct (numOf (gt s) (ORes base)); [|discriminate]. apply Nat.eqb_eq in K. congruence. }
  assert (Vm : forall x, In x (members (gt s) vis id) -> In x vis) by (intros x Hx; unfold members in Hx; now apply filter_In in Hx).
  assert (Mi : isMovable knd (opc i) = true) by (now apply spec_movable).
  assert (Fo : Forall (fun a => exists q, numOf (gt s) a = Some q /\ q < id) (ops i)) by (eapply (proj2 (i_congr s I)); [exact Nb|now apply movableDef_res]).
  rewrite Forall_forall in Fo.
  destruct (vis_def s base I (Vm _ Hbm)) as (db & bkb & ib & Rb & Hdb & Hbb & Dib & _ & Defb).
  assert (Db : blockOf (gf s) base = Some db) by (now apply blockOf_def).
  assert (Hrm : forall x d, In x (members (gt s) vis id) -> blockOf (gf s) x = Some d -> reach f d).
  { intros x d Hx Hd. destruct (vis_def s x I (Vm _ Hx)) as (c' & bk' & i' & R' & _ & _ & _ & _ & Dx). apply (blockOf_def _ _ _ Ug) in Dx. congruence. }
  pose proof (lcaBlock_dom (gf s) _ b Hrm Hl) as Hdm.
  assert (Rb0 : reach f b). { destruct Rb as [l Rb]. eapply dom_reach; [exact Rb|]. eapply Hdm; eauto. }
  assert (Spc : isSpeculatable knd (Inst c (opc i) (map (cloneOp s) (ops i))) = true).
  { unfold isSpeculatable in *. cbn. destruct (knd (opc i)); auto. destruct (ops i) as [|a [|[[z| |]|?|?] [|? ?]]]; try discriminate. exact Hsp. }
  assert (Self : ~ In (ORes c) (map (cloneOp s) (ops i))).
  { intros K. apply in_map_iff in K as (o & Eo & Ho). destruct (Fo o Ho) as (q & Q & _). apply (cloneOp_num s o q I) in Q. congruence. }
  assert (Ops : reach (gf s) b -> Forall (opAvail (availAt (gf s) b bk (firstn (length (body bk)) (body bk)))) (map (cloneOp s) (ops i))).
  { intros _. rewrite firstn_all. rewrite Forall_forall. intros o Ho. apply in_map_iff in Ho as (o0 & <- & Ho). destruct (Fo o0 Ho) as (q & Q & _).
    assert (K : opAvail (availOut (gf s) b) (cloneOp s o0)).
    { eapply cloneOp_avail; eauto. destruct o0 as [v|n|x]; cbn; auto. unfold operandsOk in Hop. rewrite forallb_forall in Hop. specialize (Hop _ Ho). cbn in Hop.
      assert (Dx : exists d, defIn (gf s) x d).
      { destruct (defOf_block (gf s) base i db bkb Ug Di Hdb) as (_ & pre & post & Eb).
        { apply in_or_app. right. exact Hbb. }
        destruct (Sg db bkb Hdb (proj2 (i_reach s I db) Rb)) as (S1 & _ & _). specialize (S1 pre i post Eb). rewrite Forall_forall in S1. specialize (S1 _ Ho). cbn in S1.
        destruct S1 as [(d & Hd & _)|K]; [eauto|]. exists db. exists bkb. split; auto. apply in_or_app. destruct K as [K|K]; auto. right. rewrite Eb, map_app. apply in_or_app. auto. }
      destruct Dx as [d Dx]. exists d. split; auto. apply (blockOf_def _ _ _ Ug) in Dx. rewrite Dx in Hop. apply (i_dom s I). now apply Hdom. }
    destruct (cloneOp s o0) as [v|n|x]; cbn in *; auto. now apply (availOut_at (gf s) b bk x Hb). }
  set (ci := Inst c (opc i) (map (cloneOp s) (ops i))) in *.
  assert (G : good knd (gf s) g') by exact (ins_good knd (gf s) b (length (body bk)) ci bk Wg Hb Spc F1 F2 Self Ops).
  assert (Nx : forall x, x <> c -> numOf (gt s ++ [(ORes c, id)]) (ORes x) = numOf (gt s) (ORes x)).
  { intros x Hx. rewrite numOf_app. destruct (numOf (gt s) (ORes x)); auto. destruct (opnd_eqb_spec (ORes c) (ORes x)); congruence. }
  assert (Nc : numOf (gt s ++ [(ORes c, id)]) (ORes c) = Some id) by (rewrite numOf_app, F3, opnd_eqb_refl; reflexivity).
  assert (Hcas : forall o q, numOf (gt s ++ [(ORes c, id)]) o = Some q -> numOf (gt s) o = Some q \/ (o = ORes c /\ q = id)).
  { intros o q. rewrite numOf_app. destruct (numOf (gt s) o); auto. destruct (opnd_eqb_spec (ORes c) o) as [<-|]; [|discriminate]. intros [= ->]. auto. }
  assert (Dmono : forall x j, defOf (gf s) x = Some j -> defOf g' x = Some j) by exact (ins_defOf (gf s) b (length (body bk)) ci bk Wg Hb F1 F2 Ops).
  assert (Dc : defOf g' c = Some ci) by exact (ins_defOf_c (gf s) b (length (body bk)) ci bk Wg Hb F1 F2 Ops).
  assert (Dinv : forall x j, defOf g' x = Some j -> x <> c -> defOf (gf s) x = Some j).
  { intros x j Hj D. destruct (defOf_In g' x j Hj) as (Ex & k & bk2 & Hin & Hjb). assert (Ug' : uniqueDefs g') by apply G.
    assert (Hk : get k g' = Some bk2) by (apply In_get; [apply Ug'|auto]). unfold g' in Hk. rewrite (ins_get (gf s) b (length (body bk)) ci) in Hk.
    destruct (get k (gf s)) as [bk3|] eqn:Ek; [|discriminate]. injection Hk as <-.
    assert (Hj3 : In j (body bk3)).
    { destruct (Nat.eqb k b); auto. cbn in Hjb. apply in_app_or in Hjb as [H|[H|H]].
      - rewrite <- (firstn_skipn (length (body bk)) (body bk3)). apply in_or_app. auto.
      - subst j. cbn in Ex. congruence.
      - rewrite <- (firstn_skipn (length (body bk)) (body bk3)). apply in_or_app. auto. }
    apply in_split in Hj3 as (p & q & Hj3). eapply defOf_body; eauto. }
  assert (MD : forall o j, o <> ORes c -> movableDef knd g' o = Some j <-> movableDef knd (gf s) o = Some j).
  { intros o j D. split; intros H; apply movableDef_spec in H as (x & -> & H1 & H2); apply movableDef_res; auto; try (apply Dinv; congruence). }
  assert (Hkey : forall o q, numOf (gt s) o = Some q -> o <> ORes c) by (intros o q H ->; congruence).
  assert (Cg : congr knd g' (gt s)).
  { destruct (i_congr s I) as [B C]. split.
    - intros o o' q H1 H2. destruct (B o o' q H1 H2) as [->|(i1 & j1 & A1 & A2 & A3 & A4)]; auto. right. exists i1, j1. repeat split; auto; apply MD; eauto.
    - intros o q i1 H1 H2. eapply C; eauto. apply MD; eauto. }
  assert (Mc : movableDef knd g' (ORes c) = Some ci) by (apply movableDef_res; auto).
  assert (Cg' : congr knd g' (gt s ++ [(ORes c, id)])).
  { assert (S0 : forall l, (forall a, In a l -> exists q, numOf (gt s) a = Some q /\ q < id) -> Forall2 (sameN (gt s) id) (map (cloneOp s) l) l).
    { induction l as [|a l IH]; intros H; constructor; [|apply IH; intros a' Ha'; apply H; now right]. destruct (H a (or_introl eq_refl)) as (q & Q1 & Q2).
      exists q. split; [now apply cloneOp_num|auto]. }
    specialize (S0 (ops i) Fo). apply congr_add; auto.
    - intros j Hj. assert (j = ci) by congruence. subst j. cbn. rewrite Forall_forall. intros o Ho. apply in_map_iff in Ho as (o0 & <- & Ho).
      destruct (Fo o0 Ho) as (q & Q1 & Q2). exists q. split; auto. now apply cloneOp_num.
    - intros o' Ho'. exists ci. destruct (proj1 Cg (ORes base) o' id Nb Ho') as [<-|(i1 & j1 & A1 & A2 & A3 & A4)].
      + exists i. split; auto. split; [apply movableDef_res; auto|]. auto.
      + exists j1. assert (i1 = i). { apply movableDef_spec in A1 as (x & [= <-] & A1 & _). apply Dmono in Di. congruence. }
        subst i1. repeat split; auto. cbn. eapply sameN_trans; eauto. }
  split; [exact G|]. split; [|exact Nx].
  assert (Bc : forall x, numOf (gt s) (ORes x) = Some id -> before g' x c).
  { intros x Hx d bkd Hd R Hxd. assert (Rd : reach (gf s) d) by exact (proj1 (ins_reach (gf s) b (length (body bk)) ci d) R).
    unfold g' in Hd. rewrite (ins_get (gf s) b (length (body bk)) ci) in Hd. destruct (get d (gf s)) as [bkd0|] eqn:Ed; [|discriminate]. injection Hd as <-.
    apply (ins_results b (length (body bk)) ci d bkd0 x) in Hxd. destruct Hxd as [Hxd|[_ Hxd]]; [|exfalso; cbn in Hxd; congruence].
    assert (Dx : defIn (gf s) x d) by (exists bkd0; auto). pose proof Dx as Dx'. apply (i_reach s I) in Rd.
    pose proof (class_members s id base x d I Hn Hbm Hx Dx Rd) as Xm. apply (blockOf_def _ _ _ Ug) in Dx'.
    left. exists b. split; [exact (ins_defC (gf s) b (length (body bk)) ci bk Hb)|]. split.
    - intros ->. pose proof (find_none _ _ Hnf x Xm) as K. cbn in K. rewrite Dx' in K. cbn in K. rewrite Nat.eqb_refl in K. discriminate.
    - apply (ins_dom (gf s) b (length (body bk)) ci). apply (i_dom s I). eapply Hdm; eauto. }
  constructor; cbn [gf gt gm].
  - apply G.
  - exact Cg'.
  - intros k l. unfold g'. rewrite (ins_path (gf s) b (length (body bk)) ci). apply (i_path s I).
  - intros k bk0 Hk. destruct (i_blocks s I k bk0 Hk) as (bk1 & extra & A1 & A2 & A3 & A4).
    assert (Cl : forall x, clone s x -> clone (Gst g' (gt s ++ [(ORes c, id)]) ((id, ORes c) :: gm s)) x).
    { intros x (id' & N1 & N2). exists id'. cbn. rewrite numOf_app, N1. split; auto. destruct (Nat.eqb_spec id id'); [congruence|auto]. }
    assert (Clc : clone (Gst g' (gt s ++ [(ORes c, id)]) ((id, ORes c) :: gm s)) c) by (exists id; cbn; rewrite Nat.eqb_refl; auto).
    unfold g'. rewrite (ins_get (gf s) b (length (body bk)) ci), A1. cbn [option_map]. destruct (Nat.eqb_spec k b) as [->|D].
    + assert (bk1 = bk) by congruence. subst bk1. exists (insBlock (length (body bk)) ci bk), (extra ++ [c]). cbn [phis body insBlock]. repeat split; auto.
      * rewrite firstn_all, skipn_all, map_app, A3, <- app_assoc. reflexivity.
      * intros x Hx. apply in_app_or in Hx as [Hx|[<-|[]]]; auto.
    + exists bk1, extra. repeat split; auto.
  - intros k Hk. unfold g'. rewrite (ins_get (gf s) b (length (body bk)) ci), (i_none s I k Hk). reflexivity.
  - intros x i0 H0. destruct (i_opc s I x i0 H0) as (j & A1 & A2). exists j. auto.
  - assert (Res : forall x q, numOf (gt s) (ORes x) = Some q -> forall y, before (gf s) x y -> before g' x y).
    { intros x q Hx y By. destruct (in_dec Nat.eq_dec x (allResults (gf s))) as [Hi|Hni].
      - exact (ins_before (gf s) b (length (body bk)) ci F1 x y Hi By).
      - intros d bkd Hd R Hxd. exfalso. unfold g' in Hd. rewrite (ins_get (gf s) b (length (body bk)) ci) in Hd.
        destruct (get d (gf s)) as [bkd0|] eqn:Ed; [|discriminate]. injection Hd as <-. apply (ins_results b (length (body bk)) ci d bkd0 x) in Hxd.
        destruct Hxd as [Hxd|[_ Hxd]]; [|cbn in Hxd; congruence]. apply Hni. apply in_flat_map. exists (d, bkd0). split; [now apply get_In|auto]. }
    intros id' z. cbn. destruct (Nat.eqb_spec id id') as [<-|D].
    + intros [= <-]. split; auto. intros x Hx. apply Hcas in Hx as [Hx|[[= ->] _]]; auto. right. exists c. split; auto.
    + intros Hz. destruct (i_map s I id' z Hz) as [A1 A2]. split; [now apply ext_app|]. intros x Hx. apply Hcas in Hx as [Hx|[_ Hx]]; [|congruence].
      destruct (A2 x Hx) as [K|(y & K1 & K2)]; auto. right. exists y. split; auto. eapply Res; eauto.
  - intros x Hx. rewrite numOf_app. pose proof (i_vis s I x Hx) as K. destruct (numOf (gt s) (ORes x)); [discriminate|congruence].
Qed.
Definition pend (s : gst) (id : nat) : Prop := members (gt s) vis id = [] \/ get id (gm s) = None.
Lemma members_eq t t' id : (forall x, In x vis -> numOf t' (ORes x) = numOf t (ORes x)) -> members t' vis id = members t vis id.
Proof. intros H. unfold members. apply filter_ext_in. intros x Hx. now rewrite (H x Hx). Qed.
Lemma member_num t id x : In x (members t vis id) -> numOf t (ORes x) = Some id.
Proof. unfold members. intros H. apply filter_In in H as [_ K]. unfold optnat_eqb in K. destruct (numOf t (ORes x)); [|discriminate]. apply Nat.eqb_eq in K. congruence. Qed.
Lemma class_ok s id : Inv s -> pend s id -> let s' := gvnClass knd E vis s id in
  Inv s' /\ good knd (gf s) (gf s') /\ forall id', id' <> id -> pend s id' -> pend s' id'.
Proof.
  intros I Hp. cbn zeta. assert (G0 : good knd (gf s) (gf s)) by (apply good_refl; apply (i_wfs _ I)).
  assert (Keep : Inv s /\ good knd (gf s) (gf s) /\ forall id', id' <> id -> pend s id' -> pend s id') by auto.
  assert (Pm : forall s' r, gm s' = (id, r) :: gm s -> (forall x, In x vis -> numOf (gt s') (ORes x) = numOf (gt s) (ORes x)) ->
     forall id', id' <> id -> pend s id' -> pend s' id').
  { intros s' r H1 H2 id' D [H|H]; [left|right].
    - now rewrite (members_eq (gt s) (gt s') id' H2).
    - rewrite H1. cbn. destruct (Nat.eqb_spec id id'); congruence. }
  unfold gvnClass. cbn zeta. destruct (members (gt s) vis id) as [|x0 [|x1 l]] eqn:Em; [exact Keep| |].
  - assert (Hn : get id (gm s) = None) by (destruct Hp as [Hp|Hp]; [rewrite Em in Hp; discriminate|auto]).
    assert (Hx : In x0 (members (gt s) vis id)) by (rewrite Em; now left).
    split; [|split; [exact G0|apply (Pm _ (ORes x0)); auto]].
    apply Inv_record; auto; [eapply member_num; eauto|]. intros y Hy D d bk Hd R Hyd. exfalso.
    assert (K : In y (members (gt s) vis id)).
    { eapply (class_members s id x0 y d); eauto; [exists bk; auto|now apply (i_reach s I)]. }
    rewrite Em in K. destruct K as [K|[]]. congruence.
  - assert (Hn : get id (gm s) = None) by (destruct Hp as [Hp|Hp]; [rewrite Em in Hp; discriminate|auto]).
    rewrite <- Em. destruct (lcaBlock E (gf s) (members (gt s) vis id)) as [b|] eqn:El; [|exact Keep].
    destruct (find (fun x => optnat_eqb (blockOf (gf s) x) (Some b)) (members (gt s) vis id)) as [z|] eqn:Ez.
    + destruct (leader_ok s id b z I Hn El Ez) as [Nz Bz].
      destruct (merge_ok s id (members (gt s) vis id) z) as (A1 & A2 & A3 & A4).
      * apply Inv_record; auto.
      * intros x Hx. eapply member_num; eauto.
      * split; [exact A1|]. split; [exact A2|]. apply (Pm _ (ORes z)); auto. intros x Hx. now rewrite A4.
    + destruct (defOf (gf s) x0) as [i|] eqn:Di; [|exact Keep]. destruct (get b (gf s)) as [bk|] eqn:Eb; [|exact Keep].
      destruct (worth E (members (gt s) vis id) b && native E (opc i) && isSpeculatable knd i && operandsOk E (gf s) b (ops i)) eqn:Ec; [|exact Keep].
      apply andb_true_iff in Ec as [Ec E4]. apply andb_true_iff in Ec as [Ec E3].
      destruct (hoist_ok s id x0 (x1 :: l) b bk i I Hn Em El Ez Di Eb E3 E4) as (G & I' & N').
      set (c := freshName (gf s) (gt s)) in *.
      set (g' := insertAt b (length (body bk)) (Inst c (opc i) (map (cloneOp s) (ops i))) (gf s)) in *.
      assert (Nv : forall x, In x vis -> x <> c).
      { intros x Hx ->. pose proof (i_vis s I c Hx). destruct (fresh_spec (gf s) (gt s)) as (_ & _ & F3). fold c in F3. congruence. }
      assert (Nm : forall x, In x vis -> numOf (gt s ++ [(ORes c, id)]) (ORes x) = numOf (gt s) (ORes x)) by (intros x Hx; apply N'; auto).
      set (s1 := Gst g' (gt s ++ [(ORes c, id)]) (gm s)) in *.
      destruct (merge_ok s1 id (members (gt s) vis id) c) as (A1 & A2 & A3 & A4).
      * exact I'.
      * intros x Hx. unfold s1. cbn [gt]. rewrite Nm; [eapply member_num; eauto|]. unfold members in Hx. apply filter_In in Hx. tauto.
      * split; [exact A1|]. split; [eapply good_trans; [exact G|intros _; exact A2]|]. apply (Pm _ (ORes c)); auto. intros x Hx. rewrite A4. apply Nm; auto.
Qed.
Lemma classes_ok l : NoDup l -> forall s, Inv s -> (forall id, In id l -> pend s id) ->
  good knd (gf s) (gf (fold_left (gvnClass knd E vis) l s)).
Proof.
  induction 1 as [|id l Hni Hnd IH]; intros s I Hp; cbn [fold_left]; [apply good_refl; apply (i_wfs _ I)|].
  destruct (class_ok s id I (Hp id (or_introl eq_refl))) as (A1 & A2 & A3). eapply good_trans; [exact A2|]. intros _. apply IH; auto.
  intros id' H'. apply A3; [intros ->; contradiction|]. apply Hp. now right.
Qed.
Lemma initMap_get t id z : get id (initMap knd f t) = Some z -> exists e, In e t /\ fst e = z /\ snd e = id /\ movableDef knd f z = None.
Proof.
  intros H. apply get_In in H. unfold initMap in H. apply in_flat_map in H as (e & He & H).
  destruct (movableDef knd f (fst e)) eqn:Em; [destruct H|]. destruct H as [H|[]]. injection H as <- <-. exists e. auto.
Qed.
Lemma gvn_good : good knd f (gvn knd E order f).
Proof.
  unfold gvn. destruct (numberAll knd order f) as [[t n]|] eqn:En; [|now apply good_refl].
  destruct (numberAll_ok knd order f (t, n) En) as [[Hc Hlt] Hv]. cbn [fst snd] in *.
  assert (Hfst := numberAll_first knd order f (t, n) En). cbn [fst] in Hfst.
  apply (classes_ok (seq 0 n) (seq_NoDup n 0) (Gst f t (initMap knd f t))).
  - constructor; cbn [gf gt gm].
    + exact Hf.
    + exact Hc.
    + intros b l. reflexivity.
    + intros b bk0 H. exists bk0, []. rewrite app_nil_r. repeat split; auto. intros x [].
    + auto.
    + intros x i0 H. exists i0. auto.
    + intros id z Hz. apply initMap_get in Hz as (e & He & <- & <- & Em). split.
      * now apply Hfst.
      * intros x Hx. left. destruct (proj1 Hc (ORes x) (fst e) (snd e) Hx (Hfst e He Em)) as [->|(i & j & _ & K & _)]; auto. congruence.
    + exact Hv.
  - intros id _. destruct (get id (initMap knd f t)) as [z|] eqn:Ez; [left|right; exact Ez].
    apply initMap_get in Ez as (e & He & <- & <- & Em). cbn [gt]. destruct (members t vis (snd e)) as [|x l] eqn:El; auto. exfalso.
    assert (Hx : In x (members t vis (snd e))) by (rewrite El; now left).
    pose proof (member_num t (snd e) x Hx) as Nx. unfold members in Hx. apply filter_In in Hx as [Hx _].
    destruct (proj1 Hc (ORes x) (fst e) (snd e) Nx (Hfst e He Em)) as [K|(i & j & _ & K & _)]; [|congruence].
    apply vis_spec in Hx as (b & bk & i & R & Hb & Hi & Ex & Mi). assert (U : uniqueDefs f) by apply Hf.
    assert (D0 : defOf f x = Some i) by (apply in_split in Hi as (p & q & Hi); eapply defOf_body; eauto).
    rewrite <- K in Em. cbn in Em. rewrite D0, Mi in Em. discriminate.
Qed.
End Phase2.

(** ** the numbering never runs out of fuel *)
Definition prec (f : func) (x y : nat) : Prop := exists d d' bk', reach f d /\ reach f d' /\ defIn f x d /\ get d' f = Some bk' /\ In y (map dst (body bk')) /\
  ((d <> d' /\ dominates f d d') \/ (d = d' /\ exists pre i post, body bk' = pre ++ i :: post /\ dst i = y /\ In x (map dst pre))).
Lemma prec_ne f x y : uniqueDefs f -> prec f x y -> x <> y.
Proof.
  intros U (d & d' & bk' & R & R' & Dx & Hb & Hy & H) ->. assert (Dy : defIn f y d') by (exists bk'; split; auto; apply in_or_app; auto).
  pose proof (defIn_unique f y d d' U Dx Dy) as ->. destruct H as [[H _]|(_ & pre & i & post & E & Ei & H)]; [congruence|].
  pose proof (block_NoDup f d' bk' U Hb) as N. unfold resultsOf in N. apply NoDup_app_r in N. rewrite E, map_app in N. cbn in N. rewrite Ei in N.
  apply NoDup_remove_2 in N. apply N. apply in_or_app. auto.
Qed.
Lemma prec_trans f x y z : uniqueDefs f -> prec f x y -> prec f y z -> prec f x z.
Proof.
  intros U (d & d1 & bk1 & R & R1 & Dx & Hb1 & Hy & H) (d1' & d2 & bk2 & R1' & R2 & Dy & Hb2 & Hz & H').
  assert (Dy1 : defIn f y d1) by (exists bk1; split; auto; apply in_or_app; auto). pose proof (defIn_unique f y d1' d1 U Dy Dy1) as ->.
  exists d, d2, bk2. split; auto. split; auto. split; auto. split; auto. split; auto.
  destruct H as [[N1 D1]|(-> & pre & i & post & E & Ei & Hp)], H' as [[N2 D2]|(-> & pre' & i' & post' & E' & Ei' & Hp')].
  - left. split; [|eapply dominates_trans; eauto]. intros ->. destruct R1 as [l1 R1]. eapply (no_mutual f d2 d1); eauto.
  - left. auto.
  - left. auto.
  - right. split; auto. assert (bk2 = bk1) by congruence. subst bk2. exists pre', i', post'. split; auto. split; auto.
    pose proof (block_NoDup f d2 bk1 U Hb1) as N. unfold resultsOf in N. apply NoDup_app_r in N.
    eapply (split_before pre i post pre' i' post'); [rewrite <- E'; exact N|congruence|rewrite Ei; exact Hp'|exact Hp].
Qed.
Lemma numberOp_enough knd f : wfs f -> forall fuel ch s x d, defIn f x d -> reach f d -> NoDup (x :: ch) -> incl (x :: ch) (allResults f) ->
  (forall y, In y ch -> prec f x y) -> length (allResults f) < length (x :: ch) + fuel -> numberOp knd f fuel s (ORes x) <> None.
Proof.
  intros Hf. assert (U : uniqueDefs f) by apply Hf. induction fuel as [|fuel IH]; intros ch [t n] x d Dx R Nd In0 Hp Hl.
  - exfalso. pose proof (NoDup_incl_length Nd In0). lia.
  - cbn [numberOp fst snd]. destruct (numOf t (ORes x)); [discriminate|]. destruct (movableDef knd f (ORes x)) as [i|] eqn:Ed; [|discriminate].
    apply movableDef_spec in Ed as (x' & [= <-] & Di & Mi). destruct Dx as (bk & Hb & Hx).
    destruct (defOf_block f x i d bk U Di Hb Hx) as (Ei & pre & post & Eb). assert (S : ssa f) by apply Hf. destruct (S d bk Hb R) as (S1 & _ & _). specialize (S1 pre i post Eb).
    assert (Hxb : In x (map dst (body bk))) by (rewrite Eb, map_app; apply in_or_app; right; left; auto).
    assert (St : forall s0 a, In a (ops i) -> numberOp knd f fuel s0 a <> None).
    { intros [t0 n0] a Ha. rewrite Forall_forall in S1. specialize (S1 a Ha).
      assert (Triv : movableDef knd f a = None -> numberOp knd f fuel (t0, n0) a <> None).
      { intros H. destruct fuel; cbn [numberOp fst snd]; destruct (numOf t0 a); try discriminate; rewrite H; discriminate. }
      destruct (movableDef knd f a) as [j|] eqn:Ea; [|auto]. apply movableDef_spec in Ea as (y & -> & Dj & Mj). cbn in S1.
      assert (Pr : prec f y x).
      { destruct S1 as [(d0 & D0 & N0 & Dm)|K].
        - exists d0, d, bk. split; [destruct R as [l R]; eapply dom_reach; eauto|]. auto 10.
        - assert (Dy : defIn f y d). { exists bk. split; auto. apply in_or_app. destruct K as [K|K]; auto. right. rewrite Eb, map_app. apply in_or_app. auto. }
          exists d, d, bk. split; auto. split; auto. split; auto. split; auto. split; auto. right. split; auto. exists pre, i, post. split; auto. split; auto.
          destruct K as [K|K]; auto. exfalso. destruct Dy as (bk2 & Hb2 & Hy2). assert (bk2 = bk) by congruence. subst bk2.
          destruct (defOf_block f y j d bk U Dj Hb Hy2) as (Ej & p1 & q1 & Ebj). eapply (phi_body_disj bk y); [eapply block_NoDup; eauto|auto|].
          rewrite Ebj, map_app. apply in_or_app. right. left. auto. }
      destruct (Pr) as (dy & _ & _ & Ry & _ & Dy & _).
      apply (IH (x :: ch) (t0, n0) y dy); auto.
      - constructor; auto. intros [->|H]; [eapply prec_ne; eauto|]. eapply (prec_ne f y y); eauto. eapply prec_trans; eauto.
      - intros z [<-|Hz]; auto. destruct Dy as (bky & Hby & Hy). apply in_flat_map. exists (dy, bky). split; auto. now apply get_In.
      - intros z [<-|Hz]; auto. eapply prec_trans; eauto.
      - cbn in *. lia. }
    set (F := fun r a => match r with Some s' => numberOp knd f fuel s' a | None => None end).
    assert (K : forall l s0, incl l (ops i) -> fold_left F l (Some s0) <> None).
    { induction l as [|a l IHl]; intros s0 H0; cbn [fold_left]; [discriminate|].
      assert (EF : F (Some s0) a = numberOp knd f fuel s0 a) by reflexivity. rewrite EF.
      pose proof (St s0 a (H0 a (or_introl eq_refl))) as Q. destruct (numberOp knd f fuel s0 a) as [s2|]; [|congruence]. apply IHl. intros b Hb'. apply H0. now right. }
    specialize (K (ops i) (t, n) (fun a h => h)). destruct (fold_left F (ops i) (Some (t, n))) as [[t1 n1]|] eqn:Ef; [|congruence].
    destruct (find (sameEntry knd f t1 i) t1) as [e|] eqn:Ee; [|discriminate]. apply find_some in Ee as [Ee _].
    assert (Q : numOf t1 (fst e) <> None).
    { clear -Ee. induction t1 as [|[o q] t1 IHt]; [destruct Ee|]. cbn. destruct (opnd_eqb_spec o (fst e)); [discriminate|]. destruct Ee as [<-|Ee]; [cbn in *; congruence|auto]. }
    destruct (numOf t1 (fst e)); [discriminate|congruence].
Qed.
Lemma numberAll_enough knd order f : wfs f -> (forall b, In b order -> reach f b) -> numberAll knd order f <> None.
Proof.
  intros Hf Ho. unfold numberAll. set (F := fun r x => match r with Some s => numberOp knd f (S (length (allResults f))) s (ORes x) | None => None end).
  assert (K : forall l s0, incl l (visited knd order f) -> fold_left F l (Some s0) <> None).
  { induction l as [|x l IH]; intros s0 Hl; cbn [fold_left]; [discriminate|].
    assert (EF : F (Some s0) x = numberOp knd f (S (length (allResults f))) s0 (ORes x)) by reflexivity. rewrite EF. clear EF.
    assert (Q : numberOp knd f (S (length (allResults f))) s0 (ORes x) <> None).
    { specialize (Hl x (or_introl eq_refl)). unfold visited in Hl. apply in_flat_map in Hl as (b & Hb & Hx). destruct (get b f) as [bk|] eqn:Eb; [|destruct Hx].
      assert (Hr : In x (resultsOf bk)). { apply in_or_app. right. apply in_map_iff in Hx as (i & <- & Hi). apply filter_In in Hi as [Hi _]. now apply in_map. }
      apply (numberOp_enough knd f Hf _ [] s0 x b).
      - exists bk. auto.
      - auto.
      - constructor; [intros []|constructor].
      - intros y [<-|[]]. apply in_flat_map. exists (b, bk). split; auto. now apply get_In.
      - intros y [].
      - cbn. lia. }
    destruct (numberOp knd f (S (length (allResults f))) s0 (ORes x)) as [s2|]; [|congruence]. apply IH. intros y Hy. apply Hl. now right. }
  apply K. intros x Hx. exact Hx.
Qed.
