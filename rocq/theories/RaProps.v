(** C38 (liveness and live intervals) and C39 (graph colouring register allocation).
    Liveness itself is [RaMir.liveAt]; behaviour is [RaMir.rsame]. *)
From Coq Require Import ZArith Lia Bool List Arith.
From Verif Require Import GMir RaMir RaLive RaIv RaColor RaAlloc RaSim RaMain RaCore.
Import ListNotations.

(* ================================================================== *)
(** * C38 *)
(** what the code given to the analysis must satisfy *)
Definition liveInput {W} (t : mach W) (p : mfunc) : Prop :=
  (forall blk, In blk p -> blk <> [] /\ forall i, In i blk -> NoDup (vdefs t i)) /\
  (forall blk, In blk p -> tieOk t [] blk = true).

(** the iteration ends, for any code *)
Theorem C38_liveness_terminates W (t : mach W) (p : mfunc) : exists li, calcLiveIntervals t p = Some li.
Proof.
  unfold calcLiveIntervals. destruct (solve_ok t p) as (ins & outs & E & _). rewrite E. eexists. reflexivity.
Qed.
(** a register reported live into or out of a block is live there, for any code *)
Theorem C38_liveness_sound W (t : mach W) (p : mfunc) li : calcLiveIntervals t p = Some li ->
  (forall b v, In v (liIns li b) -> liveAt t p b 0 v) /\
  (forall b blk v, nth_error p b = Some blk -> In v (liOuts li b) -> liveAt t p b (length blk) v).
Proof.
  unfold calcLiveIntervals. destruct (solve_ok t p) as (ins & outs & E & S). rewrite E. intros H. injection H as <-.
  cbn. split.
  - intros b v. apply (ins_sound t p ins outs S).
  - intros b blk v Eb. apply (outs_sound t p ins outs S b v blk Eb).
Qed.
(** exactly the registers live into and out of each block are reported *)
Theorem C38_liveness_exact_partial W (t : mach W) (p : mfunc) li : liveInput t p -> calcLiveIntervals t p = Some li ->
  (forall b v, In v (liIns li b) <-> liveAt t p b 0 v) /\
  (forall b blk v, nth_error p b = Some blk -> (In v (liOuts li b) <-> liveAt t p b (length blk) v)).
Proof.
  intros [O T] C. destruct (calc_ok t p O T) as (li' & E & L). rewrite C in E. injection E as <-.
  split; [apply (ls_ins _ _ _ L)|]. intros b blk v. apply (ls_outs _ _ _ L).
Qed.
(** LiveInterval::optimize on any sorted list of segments: the same positions, in segments that do not touch *)
Fixpoint begSorted (l : list seg) : Prop :=
  match l with [] => True | s :: r => fst s < snd s /\ (forall s', In s' r -> fst s <= fst s') /\ begSorted r end.
Theorem C38_optimize_same_positions l : begSorted l ->
  (forall x, (exists s, In s (optimize l) /\ fst s <= x < snd s) <-> exists s, In s l /\ fst s <= x < snd s) /\
  (forall a s r s' c, optimize l = a ++ s :: r ++ s' :: c -> snd s < fst s').
Proof.
  destruct l as [|c0 l]; [intros _; split; [reflexivity|intros [|] ? ? ? ? H; discriminate]|]. cbn [optimize].
  assert (G : forall l acc c, fst c < snd c -> (forall s, In s l -> fst c <= fst s) -> begSorted l ->
    (forall s, In s acc -> snd s < fst c) -> (forall a s r s' d, acc = a ++ s :: r ++ s' :: d -> snd s < fst s') ->
    (forall x, (exists s, In s (optLoop acc c l) /\ fst s <= x < snd s) <-> exists s, In s (acc ++ c :: l) /\ fst s <= x < snd s) /\
    (forall a s r s' d, optLoop acc c l = a ++ s :: r ++ s' :: d -> snd s < fst s')).
  { clear. induction l as [|y l IH]; intros acc c Hc Hl Sl Ha Hs; cbn [optLoop].
    - split; [reflexivity|]. intros a s r s' d E. destruct (exists_last (l := s' :: d) ltac:(discriminate)) as (d' & z & Ed).
      destruct d' as [|w d'].
      + cbn in Ed. injection Ed as -> ->. rewrite app_comm_cons, app_assoc in E. apply app_inj_tail in E as [-> ->].
        apply Ha. rewrite in_app_iff. right. now left.
      + cbn in Ed. injection Ed as <- ->.
        assert (E' : acc ++ [c] = (a ++ s :: r ++ s' :: d') ++ [z]).
        { rewrite E. rewrite <- app_assoc. cbn. rewrite <- app_assoc. reflexivity. }
        apply app_inj_tail in E' as [E' _]. exact (Hs a s r s' d' E').
    - destruct Sl as (Hy & Sy & Sl). destruct (Nat.ltb_spec (snd c) (fst y)) as [L|L].
      + destruct (IH (acc ++ [c]) y Hy Sy Sl) as [A B].
        * intros s Hin. rewrite in_app_iff in Hin. destruct Hin as [Hin|[<-|[]]]; [|exact L].
          specialize (Ha s Hin). specialize (Hl y (or_introl eq_refl)). lia.
        * intros a s r s' d E. destruct (exists_last (l := s' :: d) ltac:(discriminate)) as (d' & z & Ed).
          destruct d' as [|w d'].
          -- cbn in Ed. injection Ed as -> ->. rewrite app_comm_cons, app_assoc in E. apply app_inj_tail in E as [-> ->].
             apply Ha. rewrite in_app_iff. right. now left.
          -- cbn in Ed. injection Ed as <- ->.
             assert (E' : acc ++ [c] = (a ++ s :: r ++ s' :: d') ++ [z]).
             { rewrite E. rewrite <- app_assoc. cbn. rewrite <- app_assoc. reflexivity. }
             apply app_inj_tail in E' as [E' _]. exact (Hs a s r s' d' E').
        * split; [|exact B]. intros x. rewrite A. rewrite <- app_assoc. reflexivity.
      + destruct (IH acc (fst c, Nat.max (snd c) (snd y))) as [A B]; cbn [fst snd]; auto; [lia|intros s Hin; apply Hl; now right|].
        split; [|exact B]. intros x. rewrite A. split; intros (s & Hin & Hx); rewrite in_app_iff in Hin; cbn [In] in Hin.
        * destruct Hin as [Hin|[<-|Hin]]; [exists s; rewrite in_app_iff; auto| |exists s; rewrite in_app_iff; cbn; auto].
          cbn in Hx. destruct (Nat.lt_ge_cases x (snd c)) as [Lx|Lx].
          -- exists c. rewrite in_app_iff. cbn. split; [auto|lia].
          -- exists y. rewrite in_app_iff. cbn. split; [auto|lia].
        * specialize (Hl y (or_introl eq_refl)). destruct Hin as [Hin|[<-|[<-|Hin]]].
          -- exists s. rewrite in_app_iff. auto.
          -- exists (fst c, Nat.max (snd c) (snd y)). rewrite in_app_iff. cbn. split; [auto|lia].
          -- exists (fst c, Nat.max (snd c) (snd y)). rewrite in_app_iff. cbn. split; [auto|lia].
          -- exists s. rewrite in_app_iff. cbn. auto. }
  intros (H1 & H2 & H3). apply (G l [] c0 H1 H2 H3); [intros s []|intros [|] ? ? ? ? H; discriminate].
Qed.
Example C38_optimize_case : begSorted [(0, 4); (4, 9); (5, 7); (12, 13)] /\ optimize [(0, 4); (4, 9); (5, 7); (12, 13)] = [(0, 9); (12, 13)].
Proof. split; [|reflexivity]. cbn. repeat split; try lia; intros s H; repeat (destruct H as [<-|H]; [cbn; lia|]); destruct H. Qed.
(** the interval of [v] holds the number of an instruction exactly if [v] is live before it, and the number after it
    exactly if [v] is live after it or defined by it; numbers are four apart in the order of the code *)
Theorem C38_interval_exact_partial W (t : mach W) (p : mfunc) li : liveInput t p -> calcLiveIntervals t p = Some li ->
  forall b blk j i v, nth_error p b = Some blk -> nth_error blk j = Some i ->
  let num := 4 * (length (concat (firstn b p)) + j) in
  ((exists s, In s (liIv li v) /\ fst s <= num < snd s) <-> liveAt t p b j v) /\
  ((exists s, In s (liIv li v) /\ fst s <= num + 1 < snd s) <-> liveAt t p b (S j) v \/ In v (vdefs t i)).
Proof.
  intros [O T] C b blk j i v Eb Ej. destruct (calc_ok t p O T) as (li' & E & L). rewrite C in E. injection E as <-.
  split; [exact (ls_use _ _ _ L b blk j i v Eb Ej)|exact (ls_def _ _ _ L b blk j i v Eb Ej)].
Qed.
(** segments are nonempty, ascending and apart; the code's own check accepts them *)
Theorem C38_interval_wellformed_partial W (t : mach W) (p : mfunc) li : liveInput t p -> calcLiveIntervals t p = Some li ->
  forall v, verifyIv (liIv li v) = true /\
  (forall s, In s (liIv li v) -> fst s < snd s < 4 * length (concat p)) /\
  (forall a s r s' c, liIv li v = a ++ s :: r ++ s' :: c -> snd s < fst s').
Proof.
  intros [O T] C v. destruct (calc_ok t p O T) as (li' & E & L). rewrite C in E. injection E as <-.
  pose proof (ls_chain _ _ _ L v) as H. split; [now apply verify_chain with (numOf (length (concat p)))|].
  change (4 * length (concat p)) with (numOf (length (concat p))).
  revert H. generalize (numOf (length (concat p))) as hi, (liIv li v) as l. clear. intros hi l. generalize 0 as lo.
  intros lo H. split.
  - revert lo H. induction l as [|[b e] l IH]; intros lo H s Hs; [destruct Hs|]. destruct H as (H1 & H2 & H3).
    destruct Hs as [<-|Hs]; [|eauto]. cbn. apply chain_le in H3. lia.
  - intros a. revert l lo H. induction a as [|[b e] a IH]; intros l lo H s r s' c ->.
    + cbn in H. destruct s as [b e]. destruct H as (_ & _ & H). cbn.
      enough (forall r lo, chain lo (r ++ s' :: c) hi -> lo <= fst s') by (specialize (H0 r (S e) H); lia).
      clear. induction r as [|[b e] r IH]; intros lo H; cbn in H.
      * destruct s' as [b e]. cbn. lia.
      * destruct H as (H1 & H2 & H3). apply IH in H3. lia.
    + cbn in H. destruct H as (_ & _ & H). exact (IH _ _ H s r s' c eq_refl).
Qed.
(** two intervals intersect exactly if both registers hold something at once: before some instruction, or after it *)
Theorem C38_intersect_exact_partial W (t : mach W) (p : mfunc) li : liveInput t p -> calcLiveIntervals t p = Some li ->
  forall u v, intersectWith (liIv li u) (liIv li v) = true <->
  exists b blk j i, nth_error p b = Some blk /\ nth_error blk j = Some i /\
    ((liveAt t p b j u /\ liveAt t p b j v) \/
     ((liveAt t p b (S j) u \/ In u (vdefs t i)) /\ (liveAt t p b (S j) v \/ In v (vdefs t i)))).
Proof.
  intros [O T] C u v. destruct (calc_ok t p O T) as (li' & E & L). pose proof C as C'. rewrite C in E. injection E as <-.
  exact (intersect_meaning t p li C' L u v).
Qed.
(** a use flagged as the last one is one: the register is not live after the instruction, unless it defines it *)
Theorem C38_dead_flags_sound_partial W (t : mach W) (p : mfunc) li : liveInput t p -> calcLiveIntervals t p = Some li ->
  forall v q, In q (liDead li v) -> exists b blk j i, nth_error p b = Some blk /\ nth_error blk j = Some i /\
    q = length (concat (firstn b p)) + j /\ In v (vuses t i) /\ (liveAt t p b (S j) v -> In v (vdefs t i)).
Proof.
  intros [O T] C v q. destruct (calc_ok t p O T) as (li' & E & L). rewrite C in E. injection E as <-.
  exact (ls_dead _ _ _ L v q).
Qed.

(* ================================================================== *)
(** * C39 *)
(** The interference graph of any list of edges and registers. *)
Definition buildGraph (vs : list nat) (es : list (reg * reg)) : graph :=
  fold_left addEdge es (fold_left touch vs graph0).
Lemma build_ok vs es : (forall e, In e es -> fst e <> snd e) -> gok (buildGraph vs es) /\
  (forall a b, In (a, b) es -> In b (gadj (buildGraph vs es) a) /\ In a (gadj (buildGraph vs es) b)) /\
  (forall v, In v vs -> In v (nodes (buildGraph vs es))).
Proof.
  intros N. unfold buildGraph.
  assert (T : gok (fold_left touch vs graph0) /\ forall v, In v vs -> In v (nodes (fold_left touch vs graph0))).
  { assert (X : forall vs g, gok g -> gok (fold_left touch vs g) /\
      (forall v, In v vs \/ In v (nodes g) -> In v (nodes (fold_left touch vs g)))).
    { clear. induction vs as [|x vs IH]; intros g G; cbn [fold_left]; [split; [exact G|intros v [[]|H]; exact H]|].
      destruct (IH (touch g x) (touch_ok g x G)) as [A B]. split; [exact A|]. intros v [[->|H]|H]; apply B; auto;
      right; cbn; apply in_nadd; auto. }
    destruct (X vs graph0 gok0) as [A B]. split; auto. }
  destruct T as [T1 T2]. pose proof (addEdges_ok es _ N T1) as G. split; [exact G|]. split.
  - intros a b H. exact (addEdges_in es _ a b N T1 H).
  - intros v Hv. apply addEdges_nodes. auto.
Qed.

(** Whatever order the queue yields and whatever registers are preferred: the colouring either asks for a spill or
    gives every register a register of the allocation list, with different ones at the two ends of every edge. *)
Theorem C39_coloring_proper alloc vs es hints top best choose :
  NoDup alloc -> (forall e, In e es -> fst e <> snd e) ->
  (forall n q, q <> [] -> In (top n q) q) ->
  (forall u l, l <> [] -> In (best u l) l) -> (forall u l, l <> [] -> In (choose u l) l) ->
  (forall u n, In (Phys n) (hints u) -> In n alloc) ->
  match color (length alloc) top alloc hints best choose (buildGraph vs es) (fun _ => None) with
  | Spill => True
  | Stuck => False
  | Colored m =>
      (forall v, In v vs -> exists n, m v = Some n /\ In n alloc) /\
      (forall u v, In (Virt u, Virt v) es -> m u <> m v /\ m u <> None /\ m v <> None) /\
      (forall u n, In (Virt u, Phys n) es -> m u <> Some n /\ m u <> None)
  end.
Proof.
  intros ND N T B C H. destruct (build_ok vs es N) as (G & A & V).
  pose proof (color_ok (length alloc) alloc hints best choose B C (conj ND eq_refl) (fun _ => None) (buildGraph vs es) G) as X.
  specialize (X ltac:(intros u Hu w Hw; destruct w as [n|v]; [eauto|right; discriminate])).
  specialize (X ltac:(reflexivity) top T).
  destruct (color _ _ _ _ _ _ _ _) as [|m|]; [exact Logic.I| |exact X]. destruct X as [X _].
  split; [|split].
  - intros v Hv. destruct (X v (V v Hv)) as (n & E & Hn & _). eauto.
  - intros u v E. destruct (A _ _ E) as [A1 A2].
    destruct (X u) as (n & E1 & _ & E2); [now apply (g_virt _ G (Virt v))|].
    destruct (X v) as (n' & E3 & _ & _); [now apply (g_virt _ G (Virt u))|].
    specialize (E2 _ A1). cbn in E2. rewrite E1, E3 in *. repeat split; congruence.
  - intros u n E. destruct (A _ _ E) as [A1 A2].
    destruct (X u) as (x & E1 & _ & E2); [now apply (g_virt _ G (Phys n))|]. specialize (E2 _ A1). cbn in E2.
    rewrite E1. split; congruence.
Qed.
(** A spill is asked for exactly if some set of registers is such that each of them has as many neighbours among the
    physical registers and the set as there are registers to give. *)
Theorem C39_spill_exact alloc vs es hints top best choose :
  (forall e, In e es -> fst e <> snd e) -> (forall n q, q <> [] -> In (top n q) q) ->
  let g := buildGraph vs es in
  color (length alloc) top alloc hints best choose g (fun _ => None) = Spill <->
  exists S, S <> [] /\ NoDup S /\ incl S (nodes g) /\
    forall u, In u S -> exists N, NoDup N /\ length alloc <= length N /\
      forall w, In w N -> In w (gadj g (Virt u)) /\ match w with Phys _ => True | Virt v => In v S end.
Proof.
  intros N T g. destruct (build_ok vs es N) as (G & _). subst g. rewrite (spill_core (length alloc) top T alloc hints best choose _ (fun _ => None) G). set (g := buildGraph vs es) in *.
  split; intros (S & S1 & S2 & S3 & S4); exists S; (split; [exact S1|split; [exact S2|split; [exact S3|]]]); intros u Hu.
  - exists (filter (later S) (gadj g (Virt u))). split; [apply NoDup_filter, (g_nd g G)|]. split; [now apply S4|].
    intros w Hw. apply filter_In in Hw as [W1 W2]. split; [exact W1|]. destruct w as [n|v]; [exact Logic.I|].
    now apply nmem_In in W2.
  - destruct (S4 u Hu) as (M & M1 & M2 & M3). etransitivity; [exact M2|]. apply NoDup_incl_length; [exact M1|].
    intros w Hw. destruct (M3 w Hw) as [W1 W2]. apply filter_In. split; [exact W1|]. destruct w as [n|v]; [reflexivity|].
    now apply nmem_In.
Qed.

(** Allocation without spilling: if every class can be coloured, the allocated code does what the given code does,
    and no virtual register is left in it; and the allocator never runs out of registers while it assigns them. *)
Theorem C39_allocation_partial W (t : mach W) (I : rinfo) p top best choose : raTarget t I -> raInput t I p ->
  (forall c n q, q <> [] -> In (top c n q) q) ->
  (forall c u l, l <> [] -> In (best c u l) l) -> (forall c u l, l <> [] -> In (choose c u l) l) ->
  match allocAll t I top best choose p with
  | Spill => True
  | Stuck => False
  | Colored m => rsame t p (rename m p) /\ noVirt (rename m p)
  end.
Proof. intros RT IN A B C. exact (allocAll_ok t I RT top best choose A B C p IN). Qed.

(* ================================================================== *)
(** * Witnesses *)
(** A target: opcodes 5 add, 6 branch if nonzero, 7 jump, 8 call, 9 return, 10 load immediate and 12 output.  Register 10 passes the argument and the result. *)
Definition exT : mach (list Z) := {|
  ofl := fun o => match o with
    | 0 | 1 | 2 => [FDef; FUse] | 3 => [FDef; FMeta] | 4 => [FUse; FMeta] | 5 => [FDef; FUse; FUse]
    | 6 => [FUse; FMeta] | 7 => [FMeta] | 8 => [FMeta] | 10 => [FDef; FMeta] | 12 => [FUse]
    | _ => [] end;
  callF := fun o => Nat.eqb o 8;
  constF := fun o => Nat.eqb o 10;
  tko := fun o l => match o, l with
    | 6, [_; OLbl b] => TBranch b | 7, [OLbl b] => TJump b | 9, _ => TStop | _, _ => TNone end;
  rdo := fun o _ => if Nat.eqb o 8 || Nat.eqb o 9 then [10] else [];
  clo := fun _ _ => [10; 11];
  outDef := fun o a _ _ _ => match o, a with
    | 5, [_; AReg x; AReg y] => (x + y)%Z | 10, [_; ATok (OImm z)] => z | _, [_; AReg x] => x | _, _ => 0%Z end;
  outClob := fun _ _ r _ _ => match r with x :: _ => (x - 2)%Z | [] => 0%Z end;
  outW := fun o a r w => match o, a with 12, [AReg x] => x :: w | 8, _ => r ++ w | _, _ => w end;
  outDec := fun o a _ _ => match o, a with 6, AReg x :: _ => if Z.eqb x 0 then 0 else 1 | _, _ => 0 end |}.
Definition V n := OReg (Virt n).
Definition P n := OReg (Phys n).
Definition mk (o : nat) (l : list operand) : inst := Inst o l 0.
(** a loop with a call in it *)
Definition exP : mfunc :=
  [ [ mk 2 [V 0; P 10]; mk 10 [V 1; OImm 0]; mk 7 [OLbl 1] ];
    [ mk 1 [P 10; V 0]; mk 8 [OLbl 0]; mk 2 [V 2; P 10]; mk 5 [V 3; V 1; V 2]; mk 0 [V 0; V 2]; mk 0 [V 1; V 3]; mk 6 [V 0; OLbl 1] ];
    [ mk 12 [V 1]; mk 1 [P 10; V 1]; mk 9 [] ] ].
Definition exI : rinfo := {|
  ncls := 1; al := fun c => match c with 0 => [10; 8; 9] | _ => [] end; vcls := fun _ => 0;
  pcls := fun n => match n with 10 | 8 | 9 => 0 | _ => 1 end; zero := fun n => Nat.eqb n 0;
  callerSaved := fun n => Nat.eqb n 10; usage := fun _ _ => None |}.
Definition hd1 (_ _ : nat) (l : list nat) : nat := match l with x :: _ => x | [] => 0 end.
Lemma hd1_ok c n q : q <> [] -> In (hd1 c n q) q.
Proof. destruct q; [congruence|now left]. Qed.

Lemma inP (Q : nat -> list inst -> Prop) p : (forall b, b < length p -> Q b (nth b p [])) ->
  forall b blk, nth_error p b = Some blk -> Q b blk.
Proof.
  intros H b blk E. assert (L : b < length p) by (apply nth_error_Some; congruence).
  specialize (H b L). now rewrite (nth_error_nth p b [] E) in H.
Qed.
Ltac each H := repeat (destruct H as [<-|H]); [..|destruct H].

Example C38_witness : liveInput exT exP.
Proof.
  split; intros blk Hb; unfold exP in Hb; each Hb; try reflexivity; (split; [discriminate|]); intros i Hi; each Hi;
    cbn; repeat constructor; intros [].
Qed.
(** the argument and the sum are live into the loop, nothing into the function *)
Example C38_witness_result : exists li, calcLiveIntervals exT exP = Some li /\ liIns li 0 = [] /\ In 0 (liIns li 1) /\ In 1 (liIns li 1) /\ ~ In 2 (liIns li 1) /\ liIv li 2 = [(21, 29)] /\ intersectWith (liIv li 0) (liIv li 1) = true /\ intersectWith (liIv li 0) (liIv li 2) = false.
Proof.
  destruct (calcLiveIntervals exT exP) as [li|] eqn:E; [|vm_compute in E; discriminate]. exists li. split; [reflexivity|].
  assert (X : liIns li 0 = [] /\ nmem 0 (liIns li 1) = true /\ nmem 1 (liIns li 1) = true /\ nmem 2 (liIns li 1) = false /\ liIv li 2 = [(21, 29)] /\ intersectWith (liIv li 0) (liIv li 1) = true /\ intersectWith (liIv li 0) (liIv li 2) = false).
  { assert (Y : match calcLiveIntervals exT exP with Some l => (liIns l 0, nmem 0 (liIns l 1), nmem 1 (liIns l 1),
      nmem 2 (liIns l 1), liIv l 2, intersectWith (liIv l 0) (liIv l 1), intersectWith (liIv l 0) (liIv l 2)) | None =>
      ([], false, false, false, [], false, false) end = ([], true, true, false, [(21, 29)], true, false))
      by (vm_compute; reflexivity).
    rewrite E in Y. injection Y as -> -> -> -> -> -> ->. repeat split; reflexivity. }
  destruct X as (X1 & X2 & X3 & X4 & X5). apply nmem_In in X2, X3. apply nmem_nIn in X4. tauto.
Qed.

Example C39_witness_target : raTarget exT exI.
Proof.
  split.
  - intros [|c] n H; [|destruct H]. cbn in H. each H; split; reflexivity.
  - intros [|c]; cbn; repeat constructor; cbn; intuition discriminate.
  - intros i n H A. unfold clob in H. destruct (callF exT (opc i)); [|destruct H].
    cbn in H. each H; [reflexivity|discriminate].
  - split; reflexivity.
  - split; reflexivity.
  - repeat split.
Qed.
Example C39_witness_input : raInput exT exI exP.
Proof.
  assert (L : exists li, calcLiveIntervals exT exP = Some li /\ liIns li 0 = []).
  { destruct C38_witness_result as (li & E & H & _). eauto. }
  split.
  - intros blk Hb. unfold exP in Hb. each Hb; discriminate.
  - intros blk i Hb Hi. unfold exP in Hb. each Hb; each Hi; cbn; repeat constructor; intros [].
  - apply C38_witness.
  - intros blk i Hb Hi. unfold exP in Hb. each Hb; each Hi; (split; [cbn; lia|]); cbn; intros v X; intuition discriminate.
  - intros v _. cbn. lia.
  - intros blk i a b Hb Hi. unfold exP in Hb. each Hb; each Hi; cbn [opc mk]; intros E Eo N; try discriminate.
    all: injection Eo as <- <-; reflexivity.
  - split.
    + intros v H. destruct L as (li & E & L). destruct (C38_liveness_exact_partial _ _ _ li C38_witness E) as [X _].
      apply X in H. rewrite L in H. destruct H.
    + intros [|[|[|b]]]; cbn; try (intros [H|H]; [discriminate|]; try destruct H as [H|H]; try discriminate; destruct H).
      * intros [].
      * unfold succs. destruct (nth_error exP (S (S (S b)))) eqn:E; [|intros []]. destruct b; discriminate.
  - apply inP. intros b Hb. destruct b as [|[|[|b]]]; [reflexivity|reflexivity|reflexivity|cbn in Hb; lia].
Qed.
(** the sum, which lives across the call, gets a register the call keeps; the argument gets the argument register *)
Example C39_witness_result : exists m, allocAll exT exI hd1 (fun _ => hd1 0) (fun _ => hd1 0) exP = Colored m /\
  m 0 = Some 10 /\ m 1 = Some 8 /\
  robs (rrunF exT exP 5 0 (RSt (fun _ => 4%Z) (fun _ => 0%Z) [])) = ([2; 2; 4]%Z, None).
Proof.
  assert (X : match allocAll exT exI hd1 (fun _ => hd1 0) (fun _ => hd1 0) exP with
    Colored m => (m 0, m 1) | _ => (None, None) end = (Some 10, Some 8)) by (vm_compute; reflexivity).
  destruct (allocAll exT exI hd1 (fun _ => hd1 0) (fun _ => hd1 0) exP) as [|m|] eqn:E; try discriminate X.
  exists m. injection X as -> ->. split; [reflexivity|]. split; [reflexivity|]. split; [reflexivity|].
  vm_compute. reflexivity.
Qed.

(** two arguments arrive at once: the first one must not be moved over the second *)
Definition exQ : mfunc := [ [ mk 2 [V 0; P 10]; mk 2 [V 1; P 8]; mk 5 [V 2; V 0; V 1]; mk 12 [V 2]; mk 12 [V 0]; mk 1 [P 10; V 2]; mk 9 [] ] ].
Example C39_witness_input2 : raInput exT exI exQ.
Proof.
  assert (LI : liveInput exT exQ).
  { split; intros blk Hb; unfold exQ in Hb; each Hb; try reflexivity; (split; [discriminate|]); intros i Hi; each Hi;
      cbn; repeat constructor; intros []. }
  assert (L : exists li, calcLiveIntervals exT exQ = Some li /\ liIns li 0 = []).
  { destruct (calcLiveIntervals exT exQ) as [li|] eqn:E; [|vm_compute in E; discriminate]. exists li. split; [reflexivity|].
    assert (Y : match calcLiveIntervals exT exQ with Some l => liIns l 0 | None => [0] end = []) by (vm_compute; reflexivity).
    now rewrite E in Y. }
  split.
  - intros blk Hb. unfold exQ in Hb. each Hb; discriminate.
  - intros blk i Hb Hi. unfold exQ in Hb. each Hb; each Hi; cbn; repeat constructor; intros [].
  - apply LI.
  - intros blk i Hb Hi. unfold exQ in Hb. each Hb; each Hi; (split; [cbn; lia|]); cbn; intros v X; intuition discriminate.
  - intros v _. cbn. lia.
  - intros blk i a b Hb Hi. unfold exQ in Hb. each Hb; each Hi; cbn [opc mk]; intros E Eo N; discriminate.
  - split.
    + intros v H. destruct L as (li & E & L). destruct (C38_liveness_exact_partial _ _ _ li LI E) as [X _].
      apply X in H. rewrite L in H. destruct H.
    + intros [|b]; cbn; [intros []|]. unfold succs. destruct (nth_error exQ (S b)) eqn:E; [|intros []]. destruct b; discriminate.
  - apply inP. intros b Hb. destruct b as [|b]; [reflexivity|cbn in Hb; lia].
Qed.
Example C39_witness_result2 : exists m, allocAll exT exI hd1 (fun _ => hd1 0) (fun _ => hd1 0) exQ = Colored m /\
  m 0 <> Some 8 /\ m 0 <> m 1 /\ m 0 <> m 2.
Proof.
  assert (X : match allocAll exT exI hd1 (fun _ => hd1 0) (fun _ => hd1 0) exQ with
    Colored m => (m 0, m 1, m 2) | _ => (None, None, None) end = (Some 10, Some 8, Some 8)) by (vm_compute; reflexivity).
  destruct (allocAll exT exI hd1 (fun _ => hd1 0) (fun _ => hd1 0) exQ) as [|m|] eqn:E; try discriminate X.
  exists m. injection X as -> -> ->. split; [reflexivity|]. repeat split; discriminate.
Qed.

(** ** An operand both defined and used *)
(** If the first mention of a register in a block is an instruction that reads and defines it, the register is taken
    for dead on entry to the block: the analysis looks at the operands in order, and the definition comes first. *)
Definition tieP : mfunc :=
  [ [ mk 10 [V 0; OImm 5]; mk 10 [V 1; OImm 7]; mk 12 [V 1]; mk 7 [OLbl 1] ];
    [ mk 5 [V 0; V 0; V 0]; mk 12 [V 0]; mk 9 [] ] ].
Theorem C38_tied_operand_refuted : exists li, calcLiveIntervals exT tieP = Some li /\ liveAt exT tieP 1 0 0 /\ ~ In 0 (liIns li 1) /\ ~ In 0 (liOuts li 0).
Proof.
  destruct (C38_liveness_terminates _ exT tieP) as [li E]. exists li. split; [exact E|]. split.
  - eapply live_use; [reflexivity|reflexivity|]. cbn. auto.
  - assert (Y : match calcLiveIntervals exT tieP with Some l => (nmem 0 (liIns l 1), nmem 0 (liOuts l 0)) | None =>
      (true, true) end = (false, false)) by (vm_compute; reflexivity).
    rewrite E in Y. injection Y as Y1 Y2. split; apply nmem_nIn; assumption.
Qed.
(** the allocator then gives that register to another one, and the program prints something else *)
Definition tieI : rinfo := {|
  ncls := 1; al := fun c => match c with 0 => [8] | _ => [] end; vcls := fun _ => 0;
  pcls := fun n => match n with 8 => 0 | _ => 1 end; zero := fun n => Nat.eqb n 0;
  callerSaved := fun n => false; usage := fun _ _ => None |}.
Theorem C39_tied_operand_refuted : exists m, raTarget exT tieI /\ allocAll exT tieI hd1 (fun _ => hd1 0) (fun _ => hd1 0) tieP = Colored m /\ ~ rsame exT tieP (rename m tieP).
Proof.
  assert (X : match allocAll exT tieI hd1 (fun _ => hd1 0) (fun _ => hd1 0) tieP with
    Colored m => rename m tieP | _ => [] end = [ [ mk 10 [P 8; OImm 5]; mk 10 [P 8; OImm 7]; mk 12 [P 8]; mk 7 [OLbl 1] ];
    [ mk 5 [P 8; P 8; P 8]; mk 12 [P 8]; mk 9 [] ] ]) by (vm_compute; reflexivity).
  destruct (allocAll exT tieI hd1 (fun _ => hd1 0) (fun _ => hd1 0) tieP) as [|m|] eqn:E; try discriminate X.
  exists m. split; [|split; [reflexivity|]].
  - split.
    + intros [|c] n H; [|destruct H]. cbn in H. each H; split; reflexivity.
    + intros [|c]; cbn; repeat constructor; cbn; intuition discriminate.
    + intros i n H A. unfold clob in H. destruct (callF exT (opc i)); [|destruct H]. cbn in H. each H; discriminate A.
    + split; reflexivity.
    + split; reflexivity.
    + repeat split.
  - rewrite X. intros H. specialize (H 2 (RSt (fun _ => 0%Z) (fun _ => 0%Z) [])). vm_compute in H. discriminate.
Qed.
