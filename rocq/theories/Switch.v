(** Switch statements: formation from compare chains, and lowering to jump tables.

    Models cmmc/Transforms/ControlFlow/Branch2Switch.cpp:33-137, copyTarget in cmmc/Transforms/Util/BlockUtil.cpp:218-226,
    cmmc/CodeGen/Lowering.cpp:1038-1104 (lower(SwitchInst) with lowerIndirectJump, RISCVISelInfo.cpp:1180-1195), and the
    reference meaning of a switch, cmmc/ExecutionEngine/Interpreter.cpp:767-782.

    Simplified: a block is its phi table, a list of body instructions and a terminator; an instruction is represented by
    its observable effect (if any) and by whether it has a user other than the terminator of its block. The switched value
    is a 32-bit integer. Branch probabilities are not modelled. *)
From Coq Require Import ZArith List Lia Bool Arith.
From Verif Require Import Word IntRangeModel IntRangeSpec IntRangeOps Modulo.
Import ListNotations.
Local Open Scope Z_scope.

Record binst := mkI { effect : option Z; usedElsewhere : bool }.
(** a terminator: a conditional branch on base == key / base != key, or anything else *)
Inductive terminator := CondEq (key : Z) (t f : nat) | CondNe (key : Z) (t f : nat) | Other.
(** [phis]: for every phi of the block, its incoming value (a value id) per predecessor *)
Record block := mkB { phis : list (nat -> option Z); body : list binst; term : terminator }.
Definition func := nat -> block.

(** Branch2Switch.cpp:34-54 matchICmpEqual: key, target, fallback *)
Definition matchICmpEqual (b : block) : option (Z * nat * nat) :=
  match term b with
  | CondEq k t f => Some (k, t, f)
  | CondNe k t f => Some (k, f, t)
  | Other => None
  end.
(** :58-75 every user of every instruction is the terminator *)
Definition onlyUsedByTerminator (b : block) : bool := forallb (fun i => negb (usedElsewhere i)) (body b).

(** std::map insertion, keys in increasing order *)
Fixpoint insertKey (m : list (Z * nat)) (k : Z) (t : nat) : list (Z * nat) :=
  match m with
  | [] => [(k, t)]
  | (k', t') :: m' => if k <? k' then (k, t) :: m else (k', t') :: insertKey m' k t
  end.
Fixpoint findKey (m : list (Z * nat)) (k : Z) : option nat :=
  match m with [] => None | (k', t) :: m' => if k =? k' then Some t else findKey m' k end.

(** :55-89 matchCaseChain; result: chain, default block, parent *)
Fixpoint matchCaseChain (fuel : nat) (fn : func) (b : nat) (head : bool) (chain : list (Z * nat)) (parent : option nat)
  : option (list (Z * nat) * nat * option nat) :=
  match fuel with
  | O => None
  | S f =>
      if negb head && negb (onlyUsedByTerminator (fn b)) then Some (chain, b, parent)
      else match matchICmpEqual (fn b) with
           | Some (key, target, fallback) =>
               match findKey chain key with
               | None => matchCaseChain f fn fallback false (insertKey chain key target) (Some b)
               | Some _ => Some (chain, b, parent)
               end
           | None => Some (chain, b, parent)
           end
  end.

(** :108-116: at least four cases, span at most 256, density at least 0.8 *)
Definition firstKey (m : list (Z * nat)) : Z := match m with [] => 0 | (k, _) :: _ => k end.
Fixpoint lastKey (m : list (Z * nat)) : Z := match m with [] => 0 | [(k, _)] => k | _ :: m' => lastKey m' end.
Definition profitable (m : list (Z * nat)) : bool :=
  (4 <=? Z.of_nat (length m)) && (lastKey m - firstKey m <=? 256)
  && (8 * (lastKey m - firstKey m) <=? 10 * Z.of_nat (length m)).
(** :92-131 the replacement of the terminator of [b]: (edges, default block, block whose phi operands are copied) *)
Definition formSwitch (fuel : nat) (fn : func) (b : nat) : option (list (Z * nat) * nat * nat) :=
  match matchCaseChain fuel fn b true [] None with
  | Some (chain, d, Some parent) =>
      if profitable chain && forallb (fun kt => match phis (fn (snd kt)) with [] => true | _ => false end) chain
      then Some (chain, d, parent) else None
  | _ => None
  end.

(** ** Specification: execution of the original and of the transformed function *)
(** one step of the original: from the beginning of [b] to the beginning of the next block, with the effects on the way *)
Definition effects (b : block) : list Z := flat_map (fun i => match effect i with Some e => [e] | None => [] end) (body b).
Definition next (b : block) (x : Z) : option nat :=
  match term b with
  | CondEq k t f => Some (if x =? k then t else f)
  | CondNe k t f => Some (if x =? k then f else t)
  | Other => None
  end.
(** [walk fn x b L c]: starting at the beginning of [b], execution runs the blocks [L] in this order and then enters [c] *)
Inductive walk (fn : func) (x : Z) : nat -> list nat -> nat -> Prop :=
| w_nil b : walk fn x b [] b
| w_cons b c L d : next (fn b) x = Some c -> walk fn x c L d -> walk fn x b (b :: L) d.
Definition trace (fn : func) (L : list nat) : list Z := flat_map (fun c => effects (fn c)) L.
(** Interpreter.cpp:767-782 *)
Definition switchTarget (edges : list (Z * nat)) (dflt : nat) (x : Z) : nat :=
  match findKey edges x with Some t => t | None => dflt end.
(** the "not equal" successors from [b] to [d]; [L]: the blocks strictly in between, which the switch no longer visits *)
Inductive fallbacks (fn : func) : nat -> list nat -> nat -> Prop :=
| f_one b k t d : matchICmpEqual (fn b) = Some (k, t, d) -> fallbacks fn b [] d
| f_more b k t c L d : matchICmpEqual (fn b) = Some (k, t, c) -> fallbacks fn c L d -> fallbacks fn b (c :: L) d.

(** ** Proofs *)
Lemma findKey_insert m k t x : findKey m k = None -> findKey (insertKey m k t) x = if x =? k then Some t else findKey m x.
Proof.
  induction m as [|(k', t') m IH]; cbn [findKey insertKey]; intros H; [reflexivity|].
  destruct (k =? k') eqn:E; [discriminate|]. destruct (k <? k') eqn:E2; cbn [findKey]; [reflexivity|].
  destruct (x =? k') eqn:E3; [|auto]. destruct (x =? k) eqn:E4; [lia|reflexivity].
Qed.
Lemma next_match b x : forall k t f, matchICmpEqual b = Some (k, t, f) -> next b x = Some (if x =? k then t else f).
Proof. unfold matchICmpEqual, next. destruct (term b); intros k0 t0 f0 H; inversion H; subst; reflexivity. Qed.

(** [L]: the blocks matched by the chain, [d]: where it stops *)
Inductive chained (fn : func) : nat -> list nat -> nat -> Prop :=
| ch_nil b : chained fn b [] b
| ch_cons b k t c L d : matchICmpEqual (fn b) = Some (k, t, c) -> chained fn c L d -> chained fn b (b :: L) d.
Lemma matchCaseChain_ok fn : forall fuel b head chain parent chain' d parent',
  matchCaseChain fuel fn b head chain parent = Some (chain', d, parent') ->
  (forall k t, findKey chain k = Some t -> findKey chain' k = Some t) /\
  exists L, chained fn b L d /\ parent' = match rev L with [] => parent | p :: _ => Some p end /\
  (forall c, In c (if head then tl L else L) -> onlyUsedByTerminator (fn c) = true) /\
  forall x, findKey chain x = None ->
    exists L1, walk fn x b L1 (match findKey chain' x with Some t => t | None => d end) /\
      (exists L2, L = L1 ++ L2) /\ (findKey chain' x = None -> L1 = L) /\ (L <> [] -> L1 <> []).
Proof.
  induction fuel as [|f IH]; intros b head chain parent chain' d parent' H; [discriminate|].
  cbn [matchCaseChain] in H.
  assert (STOP : Some (chain, b, parent) = Some (chain', d, parent') ->
    (forall k t, findKey chain k = Some t -> findKey chain' k = Some t) /\
    exists L, chained fn b L d /\ parent' = match rev L with [] => parent | p :: _ => Some p end /\
    (forall c, In c (if head then tl L else L) -> onlyUsedByTerminator (fn c) = true) /\
    forall x, findKey chain x = None ->
      exists L1, walk fn x b L1 (match findKey chain' x with Some t => t | None => d end) /\
      (exists L2, L = L1 ++ L2) /\ (findKey chain' x = None -> L1 = L) /\ (L <> [] -> L1 <> [])).
  { intros E. injection E as <- <- <-. split; auto. exists []. split; [constructor|]. split; auto.
    split; [destruct head; intros c []|]. intros x X. exists []. rewrite X. split; [constructor|]. split; [exists []; reflexivity|auto]. }
  destruct (negb head && negb (onlyUsedByTerminator (fn b))) eqn:Q; [auto|].
  destruct (matchICmpEqual (fn b)) as [[[key target] fb]|] eqn:M; [|auto].
  destruct (findKey chain key) eqn:FK; [auto|]. clear STOP.
  apply IH in H. destruct H as (EXT & L & CH & PA & US & WK). split.
  { intros k t F. apply EXT. rewrite findKey_insert by auto. destruct (k =? key) eqn:E; [|auto].
    apply Z.eqb_eq in E. subst. congruence. }
  exists (b :: L). split; [econstructor; eauto|]. split.
  { subst parent'. cbn [rev]. destruct (rev L); reflexivity. }
  split.
  { intros c C. destruct head; cbn [tl] in C; [auto|]. destruct C as [<-|C]; auto.
    cbn [negb andb] in Q. now apply negb_false_iff in Q. }
  intros x X. pose proof (next_match (fn b) x _ _ _ M) as NX. destruct (x =? key) eqn:E.
  - apply Z.eqb_eq in E. subst key. exists [b].
    assert (F : findKey chain' x = Some target) by (apply EXT; rewrite findKey_insert by auto; now rewrite Z.eqb_refl).
    rewrite F. split; [econstructor; [exact NX|constructor]|]. split; [exists L; reflexivity|split; discriminate].
  - destruct (WK x) as (L1 & W & (L2 & E2) & A & _).
    { rewrite findKey_insert by auto. now rewrite E. }
    exists (b :: L1). split; [econstructor; eauto|]. split; [exists L2; cbn; now rewrite E2|].
    split; [intros N; f_equal; auto|discriminate].
Qed.

Lemma chained_fallbacks fn b L d : chained fn b (b :: L) d -> fallbacks fn b L d.
Proof.
  revert b. induction L as [|c L IH]; intros b H; inversion H as [|? k t c' ? ? M C]; subst.
  - inversion C; subst. eapply f_one; eauto.
  - inversion C; subst. eapply f_more; [exact M|]. apply IH. exact C.
Qed.
(** ** Formation of a switch

    For every function, block and value of the switched expression: the original code, starting at the block whose
    terminator is replaced, reaches the target the switch selects, running only that block and blocks [L1] of the chain; a
    value without a case enters the default block from the block whose phi operands are copied, and case targets have
    no phis. The claim that nothing is lost needs the hypothesis that the skipped blocks have no effects. *)
Theorem C28_switch_formation_partial : forall fuel fn b edges d parent,
  formSwitch fuel fn b = Some (edges, d, parent) ->
  exists L, fallbacks fn b L d /\
  ((forall c, In c L -> effects (fn c) = []) ->
   forall x, exists L1, walk fn x b (b :: L1) (switchTarget edges d x) /\
     trace fn (b :: L1) = effects (fn b) /\
     (findKey edges x = None -> last (b :: L1) b = parent) /\
     (findKey edges x <> None -> phis (fn (switchTarget edges d x)) = [])).
Proof.
  intros fuel fn b edges d parent H. unfold formSwitch in H.
  destruct (matchCaseChain fuel fn b true [] None) as [[[chain d'] [p|]]|] eqn:M; try discriminate.
  destruct (profitable chain && _) eqn:Q; [|discriminate]. injection H as <- <- <-.
  apply andb_true_iff in Q. destruct Q as (_ & NP). rewrite forallb_forall in NP.
  apply matchCaseChain_ok in M. destruct M as (_ & L & CH & PA & _ & WK).
  destruct L as [|b' L]; [discriminate PA|]. assert (b' = b) by (inversion CH; auto). subst b'.
  exists L. split; [now apply chained_fallbacks|]. intros EF x.
  destruct (WK x eq_refl) as (L1 & W & (L2 & E) & A & NE). specialize (NE ltac:(discriminate)).
  destruct L1 as [|c L1]; [congruence|]. injection E as <- E. exists L1.
  split; [exact W|]. split; [|split].
  - unfold trace. cbn [flat_map]. assert (Z : flat_map (fun c => effects (fn c)) L1 = []).
    { assert (EF' : forall c, In c L1 -> effects (fn c) = []) by (intros c C; apply EF; subst L; apply in_or_app; now left).
      clear -EF'. induction L1 as [|c L1 IH]; cbn; auto. rewrite EF' by now left. apply IH. intros; apply EF'; now right. }
    rewrite Z. apply app_nil_r.
  - intros N. specialize (A N). rewrite A.
    destruct (@exists_last _ (b :: L) ltac:(discriminate)) as (L' & z & EL). rewrite EL in PA |- *.
    rewrite rev_app_distr in PA. cbn in PA. injection PA as ->. apply last_last.
  - intros N. unfold switchTarget. destruct (findKey chain x) as [t|] eqn:F; [|congruence].
    assert (I : In (x, t) chain).
    { clear -F. induction chain as [|(k, u) m IH]; cbn in F; [discriminate|].
      destruct (x =? k) eqn:E; [apply Z.eqb_eq in E; injection F as ->; subst; now left|right; auto]. }
    specialize (NP _ I). cbn in NP. destruct (phis (fn t)); [reflexivity|discriminate].
Qed.
(** blocks 0..3 test x against 1, 2, 3, 4; 10.. are the targets, 20 the default *)
Definition chainFn (e : option Z) : func := fun b =>
  match b with
  | 0%nat => mkB [] [mkI (Some 100) false; mkI None false] (CondEq 1 10 1)
  | 1%nat => mkB [] (match e with Some _ => [mkI e false; mkI None false] | None => [mkI None false] end) (CondNe 2 2 11)
  | 2%nat => mkB [] [mkI None false] (CondEq 3 12 3)
  | 3%nat => mkB [] [mkI None false] (CondEq 4 10 20)
  | _ => mkB [] [] Other
  end.
Example C28_switch_formation_witness :
  formSwitch 10 (chainFn None) 0 = Some ([(1, 10%nat); (2, 11%nat); (3, 12%nat); (4, 10%nat)], 20%nat, 3%nat) /\
  (forall c, In c [1; 2; 3]%nat -> effects (chainFn None c) = []) /\ effects (chainFn None 0%nat) = [100] /\
  walk (chainFn None) 2 0%nat [0; 1]%nat 11%nat.
Proof.
  split; [vm_compute; reflexivity|]. split.
  { intros c [<-|[<-|[<-|[]]]]; reflexivity. }
  split; [reflexivity|]. econstructor; [reflexivity|]. econstructor; [reflexivity|]. constructor.
Qed.
(** A store has no users, so the test "every user is the terminator" accepts a block that stores: for x = 3 the original
    performs the store of block 1 on its way, the switch does not. *)
Theorem C28_switch_formation_drops_effects_refuted : exists fuel fn b edges d parent x L,
  formSwitch fuel fn b = Some (edges, d, parent) /\
  walk fn x b L (switchTarget edges d x) /\ trace fn L = [100; 7] /\ effects (fn b) = [100] /\
  (forall L', walk fn x b (b :: L') (switchTarget edges d x) -> trace fn (b :: L') = [100; 7]).
Proof.
  exists 10%nat, (chainFn (Some 7)), 0%nat, [(1, 10%nat); (2, 11%nat); (3, 12%nat); (4, 10%nat)], 20%nat, 3%nat, 3, [0; 1; 2]%nat.
  split; [vm_compute; reflexivity|]. split.
  { do 3 (econstructor; [reflexivity|]). constructor. }
  split; [reflexivity|]. split; [reflexivity|].
  change (switchTarget _ _ _) with 12%nat. intros L' W.
  repeat match goal with
  | H : next _ _ = Some _ |- _ => vm_compute in H; first [discriminate H | injection H as H; subst]
  | H : walk _ _ _ _ _ |- _ => inversion H; clear H; subst
  end; reflexivity.
Qed.

(** ** Jump tables *)
(** Lowering.cpp:1044-1055 fillTable *)
Definition fillTable (edges : list (Z * nat)) (base : Z) (size : nat) (fill : nat) : list nat :=
  map (fun i => match findKey edges (base + Z.of_nat i) with Some t => t | None => fill end) (seq 0 size).
(** :1057-1098; [r]: the range of the switched value. [None]: the jump table is indexed out of bounds. *)
Definition lowerSwitch (edges : list (Z * nat)) (dflt : nat) (r : range) (x : Z) : option nat :=
  if smax r - smin r <? 256 then
    let base := smin r in
    let table := fillTable edges base (Z.to_nat (smax r - smin r + 1)) dflt in
    nth_error table (Z.to_nat (u32 (if base =? 0 then x else x - base)))
  else
    let base := firstKey edges in
    let size := lastKey edges - base + 1 in
    let table := fillTable edges base (Z.to_nat size) dflt in
    let offset := u32 (if base =? 0 then x else x - base) in
    if u32 size <=? offset then Some dflt else nth_error table (Z.to_nat offset).

(** keys of a std::map *)
Fixpoint increasing (m : list (Z * nat)) : Prop :=
  match m with
  | [] => True
  | (k, _) :: m' => (match m' with [] => True | (k', _) :: _ => k < k' end) /\ increasing m'
  end.
Lemma fill_nth edges base size fill i : (i < size)%nat ->
  nth_error (fillTable edges base size fill) i = Some (match findKey edges (base + Z.of_nat i) with Some t => t | None => fill end).
Proof.
  intros L. unfold fillTable. rewrite nth_error_map.
  assert (E : nth_error (seq 0 size) i = Some i).
  { rewrite (nth_error_nth' _ 0%nat) by (rewrite seq_length; lia). now rewrite seq_nth by lia. }
  rewrite E. reflexivity.
Qed.
Lemma increasing_range m x t : increasing m -> findKey m x = Some t -> firstKey m <= x <= lastKey m.
Proof.
  induction m as [|(k, u) m IH]; cbn [increasing findKey firstKey lastKey]; intros I F; [discriminate|].
  destruct I as (A & B). destruct m as [|(k', u') m'].
  - cbn [findKey] in F. destruct (x =? k) eqn:E; [lia|discriminate].
  - assert (L : forall m k u, increasing ((k, u) :: m) -> k <= lastKey ((k, u) :: m)).
    { clear. induction m as [|(k', u') m IH]; intros k u I; [cbn; lia|].
      destruct I as (A & B). specialize (IH k' u' B). change (lastKey ((k, u) :: (k', u') :: m)) with (lastKey ((k', u') :: m)). lia. }
    specialize (L m' k' u' B). destruct (x =? k) eqn:E; [lia|]. specialize (IH B F). cbn [firstKey] in IH. lia.
Qed.
(** For every switch, every value of the switched expression and every range known to hold it, the lowered code jumps to
    the block the switch selects. *)
Theorem C28_jump_table_dispatch : forall edges dflt r x,
  i32 x -> describes r (u32 x) -> edges <> [] -> increasing edges ->
  (forall k t, In (k, t) edges -> i32 k) -> lastKey edges - firstKey edges + 1 < 2 ^ 32 ->
  lowerSwitch edges dflt r x = Some (switchTarget edges dflt x).
Proof.
  intros edges dflt r x X D NE INC KS SZ. unfold lowerSwitch, switchTarget.
  destruct D as (_ & _ & S & _). rewrite s32_u32, (s32_small x X) in S.
  destruct (smax r - smin r <? 256) eqn:Q; cbv zeta.
  - assert (U : u32 (if smin r =? 0 then x else x - smin r) = x - smin r).
    { destruct (smin r =? 0) eqn:E; [replace x with (x - smin r) at 1 by lia|]; apply u32_small; lia. }
    rewrite U, fill_nth by lia. rewrite Z2Nat.id by lia. replace (smin r + (x - smin r)) with x by lia. reflexivity.
  - assert (FL : i32 (firstKey edges) /\ firstKey edges <= lastKey edges).
    { destruct edges as [|(k, t) m]; [congruence|]. split; [apply (KS k t); now left|].
      apply (increasing_range _ k t INC). cbn [findKey]. now rewrite Z.eqb_refl. }
    destruct FL as (FK & FL). change (2 ^ 32) with 4294967296 in SZ.
    rewrite (u32_small (lastKey edges - firstKey edges + 1)) by lia.
    assert (U : u32 (if firstKey edges =? 0 then x else x - firstKey edges) = u32 (x - firstKey edges)).
    { destruct (firstKey edges =? 0) eqn:E; [|reflexivity]. f_equal. lia. }
    rewrite U. destruct (lastKey edges - firstKey edges + 1 <=? u32 (x - firstKey edges)) eqn:C.
    + destruct (findKey edges x) as [t|] eqn:F; [|reflexivity]. exfalso.
      apply increasing_range in F; auto. rewrite u32_small in C by lia. lia.
    + pose proof (u32_range (x - firstKey edges)) as UR.
      rewrite fill_nth by lia. rewrite Z2Nat.id by lia.
      destruct (Z_le_gt_dec (firstKey edges) x) as [G|G].
      * rewrite u32_small by (unfold i32, INT_MIN, INT_MAX in *; lia).
        replace (firstKey edges + (x - firstKey edges)) with x by lia. reflexivity.
      * assert (W : u32 (x - firstKey edges) = x - firstKey edges + 4294967296).
        { rewrite <- (u32_small (x - firstKey edges + 4294967296)) by (unfold i32, INT_MIN, INT_MAX in *; lia).
          unfold u32. change (2 ^ 32) with 4294967296. rewrite <- (Z_mod_plus_full (x - firstKey edges) 1). f_equal; lia. }
        rewrite W. destruct (findKey edges (firstKey edges + _)) as [t|] eqn:F; [|].
        -- exfalso. apply increasing_range in F; auto.
           assert (i32 (lastKey edges)).
           { clear -KS NE. induction edges as [|(k, t) m IH]; [congruence|]. destruct m as [|p m'].
             - apply (KS k t). now left.
             - change (lastKey ((k, t) :: p :: m')) with (lastKey (p :: m')). apply IH; [intros E0; discriminate E0|].
               intros k0 t0 I0. apply (KS k0 t0). now right. }
           unfold i32, INT_MIN, INT_MAX in *. lia.
        -- destruct (findKey edges x) as [t|] eqn:F2; [|reflexivity]. apply increasing_range in F2; auto. lia.
Qed.
Example C28_jump_table_witness :
  let edges := [(-2, 5%nat); (0, 6%nat); (3, 5%nat)] in
  describes full (u32 (-2)) /\ increasing edges /\ lowerSwitch edges 9 full (-2) = Some 5%nat /\
  lowerSwitch edges 9 full 2147483647 = Some 9%nat /\ lowerSwitch edges 9 (setS full (-2) 1) (-1) = Some 9%nat.
Proof.
  cbv zeta. split.
  { unfold describes, full. cbn [kz ko umin umax smin smax]. change (u32 (-2)) with 4294967294. change (s32 4294967294) with (-2).
    unfold UINT_MAX, INT_MIN, INT_MAX. split; [lia|]. split; [lia|]. split; [lia|]. split; intros i Hi; rewrite Z.bits_0; discriminate. }
  split; [cbn [increasing]; lia|]. vm_compute. auto.
Qed.

(** ** Facts the range analysis attaches to the targets of a switch

    IntegerRangeAnalysis.cpp:581-593 with updateContextual (:222-249): every key of an edge into [target] narrows the value
    inside [target]. [entered]: the analysis checks that the switch block is the only predecessor; a block that is the target of
    two keys is still listed once (CFGAnalysis.cpp:33-39). *)
Fixpoint switchFacts (edges : list (Z * nat)) (target : nat) (r : option range) : option range :=
  match edges with
  | [] => r
  | (k, t) :: m => switchFacts m target (if Nat.eqb t target then match r with Some q => intersectSet false q (ofConst k) | None => None end else r)
  end.
(** a target of one key only: the fact is true whenever the switch jumps there *)
Theorem C28_single_key_fact_sound_partial : forall edges target r k x,
  wf r -> describes r (u32 x) -> i32 x -> i32 k ->
  (forall k' t, In (k', t) edges -> t = target -> k' = k) -> findKey edges x = Some target ->
  exists r', switchFacts edges target (Some r) = Some r' /\ describes r' (u32 x).
Proof.
  intros edges target r k x W D X K ONE F.
  assert (XK : x = k).
  { clear -F ONE. induction edges as [|(k', t) m IH]; cbn in F; [discriminate|]. destruct (x =? k') eqn:E.
    - injection F as ->. apply Z.eqb_eq in E. subst. apply (ONE k' target); auto. now left.
    - apply IH; auto. intros k0 t0 I0. apply ONE. now right. }
  subst k. clear F. revert r W D. induction edges as [|(k', t) m IH]; intros r W D; cbn [switchFacts]; [eauto|].
  destruct (Nat.eqb_spec t target) as [->|N].
  - assert (k' = x) by (apply (ONE k' target); auto; now left). subst k'.
    assert (DX : describes (ofConst x) (u32 x)) by (apply ofConst_exact; reflexivity).
    destruct (intersectSet_ok false r (ofConst x) (u32 x)) as (q & E & Wq & Dq); auto; [apply ofConst_wf|].
    rewrite E. apply IH; auto. intros k0 t0 I0. apply ONE. now right.
  - apply IH; auto. intros k0 t0 I0. apply ONE. now right.
Qed.
Example C28_single_key_fact_witness :
  switchFacts [(1, 5%nat); (2, 6%nat)] 5 (Some full) = Some (ofConst 1) /\ findKey [(1, 5%nat); (2, 6%nat)] 1 = Some 5%nat.
Proof. vm_compute. auto. Qed.
(** "case 1: case 2:" sharing one block: inside it the analysis believes a contradiction, here that x is at least 3, while
    x = 1 gets there *)
Theorem C28_shared_target_facts_refuted : exists edges target x r,
  findKey edges x = Some target /\ describes full (u32 x) /\
  switchFacts edges target (Some full) = Some r /\ smin r = 3 /\ x = 1 /\ ~ describes r (u32 x).
Proof.
  exists [(1, 5%nat); (2, 5%nat); (3, 6%nat)], 5%nat, 1, (match switchFacts [(1, 5%nat); (2, 5%nat); (3, 6%nat)] 5 (Some full) with Some r => r | None => full end).
  split; [reflexivity|]. split.
  { unfold describes, full. cbn [kz ko umin umax smin smax]. change (u32 1) with 1. change (s32 1) with 1.
    unfold UINT_MAX, INT_MIN, INT_MAX. split; [lia|]. split; [lia|]. split; [lia|]. split; intros i Hi; rewrite Z.bits_0; discriminate. }
  split; [vm_compute; reflexivity|]. split; [vm_compute; reflexivity|]. split; [reflexivity|].
  intros (_ & _ & S & _). vm_compute in S. destruct S as (A & _). apply A. reflexivity.
Qed.
