(** C23: lookup tables replaced by expressions (model in Lut.v). *)
From Coq Require Import ZArith List Lia Bool Permutation.
From Verif Require Import Word Lut LutProofs.
Import ListNotations.
Open Scope Z_scope.

(** ** The table patterns *)

(** Whatever order the hash map is walked in: if a table with exactly the keys 0..n-1 and
    w-bit entries (2 <= w <= 32) is recognised, the expression built from the entry at 0
    and an index variable equal (modulo 2^w) to any key gives that key's entry, and is
    itself free of undefined behaviour. *)
Theorem C23_recognised_table_is_the_expression :
  forall ty cty cval order (tab : list (Z * value)) n w p e k v b,
  (forall l, Permutation (order l) l) ->
  2 <= w <= 32 ->
  NoDup (map fst tab) -> (forall k', In k' (map fst tab) -> 0 <= k' < n) -> Z.of_nat (length tab) = n ->
  (forall k' v', In (k', v') tab -> vty ty cty v' = w) ->
  matchExpr cty cval order tab = Done p -> p <> PUnknown ->
  In (k, v) tab -> In (0, b) tab ->
  buildPattern w p (oval ty cty cval e b) (sgn w k) = Some (oval ty cty cval e v).
Proof.
  intros ty cty cval order tab n w p e k v b HO W N R L T M NP I0 I1.
  eapply pattern_ok; eauto.
Qed.

Section Fun.
Variables (ty cty : nat -> Z) (cval : nat -> Z) (ew sz : nat -> Z) (isLut : nat -> bool).
Variable order : list (Z * value) -> list (Z * value).
Hypothesis Horder : forall l, Permutation (order l) l.
Hypothesis Hew : forall b, isLut b = true -> 2 <= ew b <= 32 /\ 0 <= sz b <= 1024.
Notation exec1 := (exec1 ty cty cval ew sz).
Notation exec := (exec ty cty cval ew sz).
Notation tinst := (tinst ty cty cval sz isLut order).
Notation tblock := (tblock ty cty cval sz isLut order).
Notation sound := (sound ty cty cval ew sz isLut order).
Notation wtI := (wtI ty cty ew).
Notation oval := (oval ty cty cval).

Lemma tblock_ok : forall c S L c' L' e m st',
  tblock c L = Done (c', L') -> (forall i, In i c -> wtI i) -> ssa c -> sound L e m -> vars_in S L ->
  (forall x, defs c x -> ~ S x) -> exec c (e, m) = Some st' ->
  exec c' (e, m) = Some st' /\ sound L' (fst st') (snd st') /\ vars_in (fun x => S x \/ stored c x) L'.
Proof.
  induction c as [|i c IH]; intros S L c' L' e m st' T WT SS SD VI ND EX; cbn [Lut.tblock Lut.exec] in *.
  - injection T as <- <-. injection EX as <-. split; auto. split; auto.
    intros b s k x A B. left. eapply VI; eauto.
  - destruct (tinst i L) as [[i1 L1]| |] eqn:TI; try discriminate.
    destruct (tblock c L1) as [[c1 L2]| |] eqn:TB; try discriminate. injection T as <- <-.
    destruct (exec1 i (e, m)) as [[e1 m1]|] eqn:E1; [|discriminate].
    destruct SS as [S1 S2].
    destruct (tinst_ok ty cty cval ew sz isLut order Horder Hew S i L i1 L1 e m (e1, m1) TI) as (A & B & C & _); auto.
    { apply WT. left; auto. }
    { intros x Hx. apply ND. exists i. split; [left; auto|auto]. }
    cbn [fst snd] in B.
    destruct (IH (fun x => S x \/ istored i x) L1 c1 L2 e1 m1 st' TB) as (D & E & F); auto.
    { intros j Hj. apply WT. right; auto. }
    { intros x (j & Hj & Dj) [Hx|Hx]; [apply (ND x); auto; exists j; split; [right; auto|auto]|].
      apply (S1 x Hx). exists j. auto. }
    cbn [Lut.exec]. rewrite A. split; auto. split; auto.
    intros b s k x Lb I. destruct (F b s k x Lb I) as [[H|H]|(j & Hj & H)].
    + left; auto.
    + right. exists i. split; [left; auto|auto].
    + right. exists j. split; [right; auto|auto].
Qed.

(** the inherited table survives an execution of the block *)
Lemma inherit_sub c : forall L b s, inherit c L b = Some s -> L b = Some s.
Proof.
  unfold inherit. induction c as [|i c IH]; cbn [fold_left]; intros L b s H; auto.
  apply IH in H. destruct i; cbn [inherit1] in H; auto; try discriminate.
  - unfold lerase in H. destruct (Nat.eqb b (abase a)); [discriminate|auto].
  - destruct nowrite; [auto|discriminate].
  - unfold lerase in H. destruct (Nat.eqb b (abase a)); [discriminate|auto].
Qed.

Lemma inherit_kept c : forall L b s, inherit c L b = Some s -> forall i, In i c ->
  match i with ICall nw _ _ _ => nw = true | IStore a _ | IAtomic _ a _ => abase a <> b | IStoreU _ => False | _ => True end.
Proof.
  unfold inherit. induction c as [|j c IH]; cbn [fold_left]; intros L b s H i I; [contradiction|].
  destruct I as [->|I]; [|eapply IH; eauto].
  apply (inherit_sub c) in H. destruct i; cbn [inherit1] in H; auto; try discriminate.
  - unfold lerase in H. destruct (Nat.eqb_spec b (abase a)); [discriminate|auto].
  - destruct nowrite; [auto|discriminate].
  - unfold lerase in H. destruct (Nat.eqb_spec b (abase a)); [discriminate|auto].
Qed.

Lemma exec_keeps b : forall c e m e' m',
  (forall i, In i c -> match i with ICall nw _ _ _ => nw = true | IStore a _ | IAtomic _ a _ => abase a <> b | IStoreU _ => False | _ => True end) ->
  exec c (e, m) = Some (e', m') -> (forall k, m' b k = m b k) /\ (forall x, ~ defs c x -> e' x = e x).
Proof.
  induction c as [|i c IH]; intros e m e' m' H EX; cbn [Lut.exec] in EX; [injection EX as <- <-; auto|].
  destruct (exec1 i (e, m)) as [[e1 m1]|] eqn:E1; [|discriminate].
  destruct (IH e1 m1 e' m') as [A B]; auto; [intros j Hj; apply H; right; auto|].
  specialize (H i (or_introl eq_refl)).
  assert (P : (forall k, m1 b k = m b k) /\ (forall x, idst i <> Some x -> e1 x = e x)).
  { destruct i; cbn [Lut.exec1 idst] in *.
    - destruct (inb _ _ _ _ e a); [|discriminate]. injection E1 as <- <-. split; auto. intros x Hx. apply sete_other. congruence.
    - destruct (inb _ _ _ _ e a); [|discriminate]. injection E1 as <- <-. split; auto. intros k. apply setm_other. left; congruence.
    - contradiction.
    - subst nowrite. injection E1 as <- <-. split; auto. intros x Hx. apply sete_other. congruence.
    - destruct (inb _ _ _ _ e a); [|discriminate]. injection E1 as <- <-. split; [intros k; apply setm_other; left; congruence|].
      intros x Hx. apply sete_other. congruence.
    - destruct (f e m); [|discriminate]. injection E1 as <- <-. split; auto. intros x Hx. apply sete_other. congruence. }
  destruct P as [P1 P2]. split; [intros k; now rewrite A|].
  intros x Hx. rewrite B; [apply P2; intros E; apply Hx; exists i; split; [left; auto|auto]|].
  intros (j & Hj & Dj). apply Hx. exists j. split; [right; auto|auto].
Qed.

(** ** Whole functions *)

(** A function: code of each block, successor choice at the end of a block ([None]:
    return), phi assignments on an edge, dominator-tree parent. *)
Record func := mkF {
  code : nat -> list inst;
  next : nat -> env -> mem -> option nat;
  phis : nat -> nat -> env -> env;
  phidefs : nat -> nat -> Prop;             (* variables defined by the phis of a block *)
  edge : nat -> nat -> Prop;
  parent : nat -> option nat }.

Fixpoint run (F : func) (fuel : nat) (b : nat) (e : env) (m : mem) : option (option nat * env * mem) :=
  match exec (code F b) (e, m) with
  | None => None
  | Some (e', m') =>
      match next F b e' m' with
      | None => Some (None, e', m')
      | Some b' => match fuel with O => Some (Some b', e', m') | S f => run F f b' (phis F b b' e') m' end
      end
  end.

Inductive ancestor (F : func) : nat -> nat -> Prop :=
  | anc_parent b p : parent F b = Some p -> ancestor F p b
  | anc_trans b p a : parent F b = Some p -> ancestor F a p -> ancestor F a b.

(** The pass (LUT2Expr.cpp:336-379): every block is rewritten with the table inherited
    from its dominator-tree parent when that parent and the block itself are its only
    predecessors, with an empty table otherwise. *)
Definition transformed (F : func) (code' : nat -> list inst) (lin lout : nat -> lut) : Prop :=
  forall b, tblock (code F b) (lin b) = Done (code' b, lout b) /\
    (lin b = empty \/
     exists p, parent F b = Some p /\ (forall q, edge F q b -> q = p \/ q = b) /\ lin b = inherit (code F b) (lout p)).

Record wf (F : func) (entry : nat) : Prop := {
  wT : forall b i, In i (code F b) -> wtI i;
  wS : forall b, ssa (code F b);
  (* SSA and dominance: a variable stored in a block is not defined in a different
     block strictly below it in the dominator tree *)
  wD : forall a b x, ancestor F a b -> stored (code F a) x -> ~ defs (code F b) x /\ ~ phidefs F b x;
  wN : forall b e m b', next F b e m = Some b' -> edge F b b';
  wP : forall q b e x, ~ phidefs F b x -> phis F q b e x = e x;
  wE : parent F entry = None;
  (* the parent relation is a forest *)
  wTree : exists depth : nat -> nat, forall b p, parent F b = Some p -> (depth p < depth b)%nat }.

(** Running the rewritten function from its entry gives the result of running the
    original one, for every number of block executions, provided the original does not
    run into undefined behaviour. *)
Theorem C23_pass_preserves_behaviour :
  forall F entry code' lin lout, wf F entry -> transformed F code' lin lout ->
  forall fuel e m r, run F fuel entry e m = Some r ->
  run (mkF code' (next F) (phis F) (phidefs F) (edge F) (parent F)) fuel entry e m = Some r.
Proof.
  intros F entry code' lin lout W T. destruct (wTree _ _ W) as (depth & TREE).
  (* variables mentioned by the incoming table of a block *)
  assert (VIN : forall n b, (depth b < n)%nat ->
    vars_in (fun x => exists a, ancestor F a b /\ stored (code F a) x) (lin b) /\
    vars_in (fun x => exists a, (ancestor F a b \/ a = b) /\ stored (code F a) x) (lout b)).
  { assert (OUT : forall b, vars_in (fun x => exists a, ancestor F a b /\ stored (code F a) x) (lin b) ->
      vars_in (fun x => exists a, (ancestor F a b \/ a = b) /\ stored (code F a) x) (lout b)).
    { intros b VI. destruct (T b) as [TB _]. clear - TB VI.
      assert (G : forall c L c' L' (S : nat -> Prop), tblock c L = Done (c', L') -> vars_in S L ->
        vars_in (fun x => S x \/ stored c x) L').
      { clear. induction c as [|i c IH]; intros L c' L' S E V; cbn [Lut.tblock] in E.
        - injection E as <- <-. intros b s k x A B. left. eapply V; eauto.
        - destruct (tinst i L) as [[i1 L1]| |] eqn:TI; try discriminate.
          destruct (tblock c L1) as [[c1 L2]| |] eqn:TB; try discriminate. injection E as <- <-.
          assert (V1 : vars_in (fun x => S x \/ istored i x) L1).
          { clear - TI V. destruct i as [d a|a v|f|nw d f g|d a v|d f]; cbn [Lut.tinst] in TI.
            - destruct (L (abase a)) as [s|] eqn:La; [|injection TI as <- <-; intros b s k x A B; left; eapply V; eauto].
              assert (Q : forall p s', query cty cval order s (sz (abase a)) = Done (p, s') -> imap s' = imap s).
              { intros p s'. unfold query. destruct (negb _); [intros [= <- <-]; auto|].
                destruct (ctype s); [intros [= <- <-]; auto|]. destruct (matchExpr _ _ _ _); try discriminate.
                intros [= <- <-]. reflexivity. }
              destruct (query cty cval order s (sz (abase a))) as [[p s']| |] eqn:EQ; try discriminate.
              specialize (Q p s' eq_refl).
              assert (L1 = lset L (abase a) s') as ->.
              { destruct p; try (injection TI as <- <-; reflexivity);
                destruct (getDynamicIndex cty cval a 0) as [[ix o]|]; try (injection TI as <- <-; reflexivity);
                destruct (assoc 0 (imap s)) as [bv|]; try discriminate;
                destruct (negb (vty ty cty bv =? vty ty cty ix)); injection TI as <- <-; reflexivity. }
              intros b s0 k x Hb I. unfold lset in Hb. left. destruct (Nat.eqb_spec b (abase a)) as [->|]; [|eapply V; eauto].
              injection Hb as <-. rewrite Q in I. eapply V; eauto.
            - destruct (isLut (abase a)); [|injection TI as <- <-; intros b s k x A B; left; eapply V; eauto].
              destruct (getConstantIndex cty cval a) as [k0|]; injection TI as <- <-; intros b s k x Hb I.
              + unfold lset in Hb. destruct (Nat.eqb_spec b (abase a)) as [->|]; [|left; eapply V; eauto].
                injection Hb as <-. cbn [imap] in I. destruct (mset_In _ _ _ _ _ I) as [[_ <-]|I']; [right; reflexivity|].
                left. destruct (L (abase a)) as [s|] eqn:La; [|contradiction]. eapply V; eauto.
              + unfold lerase in Hb. destruct (Nat.eqb_spec b (abase a)); [discriminate|left; eapply V; eauto].
            - injection TI as <- <-. intros b s k x [=].
            - injection TI as <- <-. destruct nw; intros b s k x A B; [left; eapply V; eauto|discriminate].
            - injection TI as <- <-. intros b s k x Hb I. destruct (isLut (abase a)); [|left; eapply V; eauto].
              unfold lerase in Hb. destruct (Nat.eqb_spec b (abase a)); [discriminate|left; eapply V; eauto].
            - injection TI as <- <-. intros b s k x A B. left. eapply V; eauto. }
          specialize (IH L1 c1 L2 _ TB V1). intros b s k x Lb I. destruct (IH b s k x Lb I) as [[H|H]|(j & Hj & H)].
          + left; auto.
          + right. exists i. split; [left; auto|auto].
          + right. exists j. split; [right; auto|auto]. }
      specialize (G _ _ _ _ _ TB VI). intros b' s k x Lb I. destruct (G b' s k x Lb I) as [(a & A & B)|H].
      - exists a. auto.
      - exists b. auto. }
    induction n as [|n IH]; intros b Hn; [lia|].
    assert (VI : vars_in (fun x => exists a, ancestor F a b /\ stored (code F a) x) (lin b)).
    { destruct (T b) as [_ [->|(p & Pb & _ & ->)]]; [intros b' s k x [=]|].
      assert (Hp : (depth p < n)%nat) by (specialize (TREE b p Pb); lia).
      destruct (IH p Hp) as [_ VO]. intros b' s k x Lb I. apply inherit_sub in Lb.
      destruct (VO b' s k x Lb I) as (a & [A| ->] & St).
      - exists a. split; auto. eapply anc_trans; eauto.
      - exists p. split; auto. now apply anc_parent. }
    split; auto. }
  assert (VIN' : forall b, vars_in (fun x => exists a, ancestor F a b /\ stored (code F a) x) (lin b)).
  { intros b. apply (VIN (S (depth b))). lia. }
  assert (NDF : forall b x, (exists a, ancestor F a b /\ stored (code F a) x) -> ~ defs (code F b) x /\ ~ phidefs F b x).
  { intros b x (a & A & St). eapply wD; eauto. }
  (* simulation *)
  assert (SIM : forall fuel b e m r, sound (lin b) e m -> run F fuel b e m = Some r ->
    run (mkF code' (next F) (phis F) (phidefs F) (edge F) (parent F)) fuel b e m = Some r).
  { assert (STEP : forall b e m e' m', sound (lin b) e m -> exec (code F b) (e, m) = Some (e', m') ->
      exec (code' b) (e, m) = Some (e', m') /\
      forall b', next F b e' m' = Some b' -> sound (lin b') (phis F b b' e') m').
    { intros b e m e' m' SD EX. destruct (T b) as [TB _].
      destruct (tblock_ok _ _ _ _ _ e m (e', m') TB (wT _ _ W b) (wS _ _ W b) SD (VIN' b)) as (A & B & _); auto.
      { intros x Hx Hs. destruct (NDF b x Hs). contradiction. }
      cbn [fst snd] in B. split; auto. intros b' NX.
      destruct (T b') as [_ [E|(p & Pb & PR & LI)]]; [rewrite E; intros ? ? [=]|].
      (* phis of b' do not touch what the table mentions *)
      apply sound_env with (S := fun x => exists a, ancestor F a b' /\ stored (code F a) x) (e := e'); auto.
      { intros x Hx. apply (wP _ _ W). now apply NDF. }
      destruct (PR b (wN _ _ W _ _ _ _ NX)) as [->| ->].
      - intros bb s Lb. apply B. rewrite LI in Lb. now apply inherit_sub in Lb.
      - intros bb s Lb. pose proof (SD bb s Lb) as [C1 C2 C3 C4]. constructor; auto.
        assert (KP := Lb). rewrite LI in KP. pose proof (inherit_kept _ _ _ _ KP) as K.
        destruct (exec_keeps bb (code F b') e m e' m' K EX) as [K1 K2].
        intros k v I. destruct (C4 k v I) as (D1 & D2 & D3). split; auto. split; auto. rewrite K1, D2.
        destruct v as [c|x]; cbn [Lut.oval]; auto. rewrite K2; auto.
        apply (NDF b' x). eapply VIN'; eauto. }
    induction fuel as [|f IH]; intros b e m r SD R; cbn [run] in *; cbn [code next phis] in *.
    - destruct (exec (code F b) (e, m)) as [[e' m']|] eqn:EX; [|discriminate].
      destruct (STEP b e m e' m' SD EX) as [A _]. rewrite A. auto.
    - destruct (exec (code F b) (e, m)) as [[e' m']|] eqn:EX; [|discriminate].
      destruct (STEP b e m e' m' SD EX) as [A B]. rewrite A.
      destruct (next F b e' m') as [b'|]; auto. }
  intros fuel e m r R. apply SIM; auto.
  destruct (T entry) as [_ [->|(p & Pe & _)]]; [intros b s [=]|]. rewrite (wE _ _ W) in Pe. discriminate.
Qed.
End Fun.

(** ** Violations *)

(** Scanning a table of more than 64 distinct constants may shift a 64-bit number by 64
    places or more, undefined behaviour in the compiler (the squares 0,1,4,.. with the
    entry 64 visited first). *)
Theorem C23_shift_by_64_refuted :
  exists (order : list (Z * value) -> list (Z * value)) (tab : list (Z * value)) (cval : nat -> Z),
    (forall l, Permutation (order l) l) /\ NoDup (map fst tab) /\ length tab = 65%nat /\
    matchExpr (fun _ => 32) cval order tab = Undef.
Proof.
  exists (@rev _), (map (fun k => (Z.of_nat k, VC k)) (seq 0 65)), (fun c => Z.of_nat (c * c)).
  split; [intros l; symmetry; apply Permutation_rev|]. split.
  - rewrite map_map. cbn [fst]. apply FinFun.Injective_map_NoDup; [intros x y H; lia|apply seq_NoDup].
  - split; [reflexivity|vm_compute; reflexivity].
Qed.

(** A store outside the array (which may sit in code that is never executed) makes the
    pass throw: array of one element, store to index 5, load at a variable index. *)
Theorem C23_out_of_bounds_store_crashes_refuted :
  tblock (fun _ => 32) (fun _ => 32) (fun c => Z.of_nat c) (fun _ => 1) (fun _ => true) (fun l => l)
    [IStore (AGepN 0 (VC 5)) (VC 7); ILoad 1 (AGepN 0 (VV 0))] empty = Crash.
Proof. reflexivity. Qed.

(** ** A function the theorems apply to: block 0 fills a[0..3] with 10..13 and falls into
    block 1, a self loop that reads a[x+1] for the loop variable x until x+1 is 3. *)
Definition ex_fun : func :=
  mkF (fun b => match b with
       | O => [IStore (AGepN 0 (VC 0)) (VC 10); IStore (AGepN 0 (VC 1)) (VC 11);
               IStore (AGepN 0 (VC 2)) (VC 12); IStore (AGep2 (AGepN 0 (VC 2)) (VC 1)) (VC 13)]
       | S O => [ILoad 2 (AGep2 (AGepN 0 (VV 1)) (VC 1)); IPure 3 (fun e _ => Some (e 1%nat + 1))]
       | _ => []
       end)
      (fun b e _ => match b with O => Some 1%nat | S O => if e 3%nat <? 3 then Some 1%nat else None | _ => None end)
      (fun p b e => match p, b with
         | O, S O => sete e 1 0 | S O, S O => sete e 1 (e 3%nat) | _, _ => e end)
      (fun b x => b = 1%nat /\ x = 1%nat)
      (fun p b => (p = 0%nat /\ b = 1%nat) \/ (p = 1%nat /\ b = 1%nat))
      (fun b => match b with S O => Some O | _ => None end).

Example C23_example :
  let w32 := fun _ : nat => 32 in
  let tb := tblock w32 w32 (fun c => Z.of_nat c) (fun _ => 4) (fun _ => true) (fun l => l) in
  wf w32 w32 w32 ex_fun 0 /\
  (exists c0 c1 L0 L1, tb (code ex_fun 0) empty = Done (c0, L0) /\
     tb (code ex_fun 1) (inherit (code ex_fun 1) L0) = Done (c1, L1) /\
     match c1 with [IPure 2%nat _; IPure 3%nat _] => True | _ => False end) /\
  option_map (fun r => snd (fst r) 2%nat)
    (run w32 w32 (fun c => Z.of_nat c) w32 (fun _ => 4) ex_fun 10 0 (fun _ => 0) (fun _ _ => 0)) = Some 13.
Proof.
  cbv zeta. split; [|split].
  - constructor.
    + intros b i H. destruct b as [|[|b]]; cbn in H; intuition subst; reflexivity || exact I.
    + intros b. destruct b as [|[|b]]; cbn; intuition.
    + intros a b x A St. assert (a = 0%nat) as ->.
      { induction A as [b p E|b p a E A IH]; destruct b as [|[|b]]; cbn in E; try discriminate; injection E as <-; auto. }
      destruct St as (i & I & H). cbn in I. intuition subst; cbn in H; contradiction.
    + intros b e m b' H. destruct b as [|[|b]]; cbn in *; try discriminate; [injection H as <-; auto|].
      destruct (e 3%nat <? 3); [injection H as <-; auto|discriminate].
    + intros q b e x H. destruct q as [|[|q]], b as [|[|b]]; cbn in *; auto; apply sete_other; intuition.
    + reflexivity.
    + exists (fun b => b). intros b p E. destruct b as [|[|b]]; cbn in E; try discriminate. injection E as <-. lia.
  - do 4 eexists. split; [reflexivity|]. split; [reflexivity|exact I].
  - vm_compute. reflexivity.
Qed.
