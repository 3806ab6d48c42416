(** * Stack frame layout (C17) and interval partitioning (C18)

    Model of [cmmc/CodeGen/StackAllocation.cpp]: [allocateStackObjects] 331-431
    (from the point where the set of stack objects is final) and
    [calcIntervalPartition] 57-91.

    Simplifications: offsets are unbounded integers ([C17_base_bounded] bounds
    every intermediate value, so 32-bit arithmetic is exact below that bound);
    the peephole pass, the removal of unused spill slots and the emission of the
    prologue are not modelled; the size of the area pushed by the target's own
    prologue ([preAllocatedBase]) is a parameter; a hash map is the list of its
    entries in its (arbitrary) iteration order. *)

From Coq Require Import ZArith List Lia Bool Permutation Sorted.
Import ListNotations.
Local Open Scope Z_scope.

(** CodeGen/MIR.hpp:371-377 *)
Inductive usage := Argument | CalleeArgument | Local | RegSpill | CalleeSaved.
Record obj := mkObj { ref : Z; size : Z; align : Z; offset : Z; use : usage }.

Definition isCS o := match use o with CalleeSaved => true | _ => false end.
Definition isLocal o := match use o with Local | RegSpill => true | _ => false end.
Definition isCallArg o := match use o with CalleeArgument => true | _ => false end.

(** :353-356 alignTo *)
Definition alignTo (base al : Z) : Z := (base + al - 1) / al * al.

(** :358-363 the outgoing-argument area *)
Fixpoint callArea (l : list obj) (base : Z) : Z :=
  match l with
  | [] => base
  | o :: l => callArea l (if isCallArg o then Z.max base (offset o + size o) else base)
  end.

(** :395-396 sort by register, descending *)
Fixpoint insertDesc (o : obj) (l : list obj) : list obj :=
  match l with
  | [] => [o]
  | x :: l' => if ref x <? ref o then o :: x :: l' else x :: insertDesc o l'
  end.
Fixpoint sortDesc (l : list obj) : list obj :=
  match l with [] => [] | o :: l => insertDesc o (sortDesc l) end.

(** :398-409 allocateFor, over a sequence of objects *)
Fixpoint allocSeq (base : Z) (l : list obj) : list (obj * Z) * Z :=
  match l with
  | [] => ([], base)
  | o :: l => let b := alignTo base (align o) in
              let (r, e) := allocSeq (b + size o) l in ((o, b) :: r, e)
  end.

(** the objects given a slot, in allocation order *)
Definition order (objs : list obj) : list obj :=
  sortDesc (filter isCS objs) ++ filter isLocal objs.

Record frame := mkF { slots : list (obj * Z); argArea : Z; frameEnd : Z; stackSize : Z }.

(** :351-424; [pre] = preAllocatedBase *)
Definition layout (objs : list obj) (spAl pre : Z) : frame :=
  let area := alignTo (callArea objs 0) spAl in
  let (r, e) := allocSeq area (order objs) in
  let e' := alignTo e spAl in
  let gap := alignTo pre spAl - pre in
  mkF r area e' (e' + gap).

(** the final offset of an object: :400 for slots, :420-423 for arguments,
    unchanged for outgoing arguments *)
Definition finalOffset (f : frame) (pre : Z) (o : obj) : option Z :=
  match use o with
  | CalleeArgument => Some (offset o)
  | Argument => Some (offset o + stackSize f + pre)
  | _ => option_map snd (find (fun p => ref (fst p) =? ref o) (slots f))
  end.

(** ** Lemmas *)

Lemma alignTo_spec b al : 0 < al -> b <= alignTo b al < b + al /\ alignTo b al mod al = 0.
Proof.
  intros. unfold alignTo. split; [|apply Z.mod_mul; lia].
  pose proof (Z.div_mod (b + al - 1) al ltac:(lia)). pose proof (Z.mod_pos_bound (b + al - 1) al ltac:(lia)). lia.
Qed.

Lemma insertDesc_perm o l : Permutation (insertDesc o l) (o :: l).
Proof.
  induction l; cbn; auto. destruct (_ <? _); auto. rewrite IHl. apply perm_swap.
Qed.
Lemma sortDesc_perm l : Permutation (sortDesc l) l.
Proof. induction l; cbn; auto. rewrite insertDesc_perm. now constructor. Qed.

Lemma order_in objs o : In o (order objs) <-> In o objs /\ (isCS o = true \/ isLocal o = true).
Proof.
  unfold order. rewrite in_app_iff.
  assert (In o (sortDesc (filter isCS objs)) <-> In o (filter isCS objs)).
  { split; apply Permutation_in; [|symmetry]; apply sortDesc_perm. }
  rewrite H, !filter_In. tauto.
Qed.

Definition wfObj o := 0 <= size o /\ 0 < align o.

Lemma allocSeq_spec : forall l base r e, Forall wfObj l -> allocSeq base l = (r, e) ->
  map fst r = l /\ base <= e /\
  (forall o b, In (o, b) r -> base <= b /\ b + size o <= e /\ b mod align o = 0) /\
  (forall r1 o b r2 o' b' r3, r = r1 ++ (o, b) :: r2 ++ (o', b') :: r3 -> b + size o <= b').
Proof.
  induction l as [|o l IH]; intros base r e W A; cbn in A.
  - injection A as <- <-. repeat split; try lia; try contradiction. intros. destruct r1; discriminate.
  - destruct (allocSeq (alignTo base (align o) + size o) l) as [r' e'] eqn:E. injection A as <- <-.
    inversion W as [|? ? [W1 W2] W']; subst.
    destruct (IH _ _ _ W' E) as (I1 & I2 & I3 & I4). pose proof (alignTo_spec base (align o) W2) as [A1 A2].
    split; [cbn; congruence|]. split; [lia|]. split.
    + intros o' b' [H|H].
      * injection H as <- <-. split; [lia|]. split; [lia|auto].
      * destruct (I3 o' b' H) as (J1 & J2 & J3). repeat split; auto; lia.
    + intros r1 o1 b1 r2 o2 b2 r3 H. destruct r1 as [|x r1]; cbn in H.
      * injection H as <- <- ->. destruct (I3 o2 b2) as (J1 & _); [|lia]. apply in_or_app. cbn. auto.
      * injection H as _ H. eapply I4; eauto.
Qed.

Lemma callArea_spec l : forall base, base <= callArea l base /\
  (forall o, In o l -> isCallArg o = true -> offset o + size o <= callArea l base).
Proof.
  induction l as [|x l IH]; intros base; cbn.
  - split; [lia|contradiction].
  - destruct (IH (if isCallArg x then Z.max base (offset x + size x) else base)) as [I1 I2].
    split; [destruct (isCallArg x); lia|]. intros o [<-|H] C; auto. rewrite C in *. lia.
Qed.

Section Layout.
Variables (objs : list obj) (spAl pre : Z).
Hypothesis sp_pos : 0 < spAl.
Hypothesis pre_nonneg : 0 <= pre.
Hypothesis wf : Forall wfObj objs.
Hypothesis refs : NoDup (map ref objs).
(* incoming and outgoing argument offsets are assigned by lowering and are not negative *)
Hypothesis args : forall o, In o objs -> use o = Argument \/ use o = CalleeArgument -> 0 <= offset o.
Let f := layout objs spAl pre.

Lemma order_wf : Forall wfObj (order objs).
Proof. apply Forall_forall. intros o Ho. apply order_in in Ho. rewrite Forall_forall in wf. now apply wf. Qed.

Lemma order_refs : NoDup (map ref (order objs)).
Proof.
  unfold order. rewrite map_app.
  assert (P : Permutation (map ref (sortDesc (filter isCS objs)) ++ map ref (filter isLocal objs))
                          (map ref (filter isCS objs ++ filter isLocal objs))).
  { rewrite map_app. apply Permutation_app_tail, Permutation_map, sortDesc_perm. }
  apply (Permutation_NoDup (Permutation_sym P)).
  clear - refs. induction objs as [|o l IH]; cbn in *; [constructor|].
  apply NoDup_cons_iff in refs as [N1 N2]. specialize (IH N2).
  assert (S : forall P, In (ref o) (map ref (filter P l)) -> In (ref o) (map ref l)).
  { intros P H. apply in_map_iff in H as (x & E & H). apply filter_In in H. apply in_map_iff. exists x. tauto. }
  unfold isCS at 1, isLocal at 1. destruct (use o); cbn; auto.
  - rewrite map_app in *. cbn. apply NoDup_Add with (a := ref o) (l := map ref (filter isCS l) ++ map ref (filter isLocal l)); [apply Add_app|].
    split; auto. rewrite in_app_iff. intros [H|H]; eauto.
  - rewrite map_app in *. cbn. apply NoDup_Add with (a := ref o) (l := map ref (filter isCS l) ++ map ref (filter isLocal l)); [apply Add_app|].
    split; auto. rewrite in_app_iff. intros [H|H]; eauto.
  - constructor; auto. rewrite map_app, in_app_iff. intros [H|H]; eauto.
Qed.

Lemma layout_unfold : exists e,
  allocSeq (argArea f) (order objs) = (slots f, e) /\ argArea f = alignTo (callArea objs 0) spAl /\
  frameEnd f = alignTo e spAl /\ stackSize f = frameEnd f + (alignTo pre spAl - pre).
Proof.
  unfold f, layout. destruct (allocSeq (alignTo (callArea objs 0) spAl) (order objs)) as [r e] eqn:E.
  exists e. cbn. auto.
Qed.

Lemma slot_of o : In o objs -> isCS o = true \/ isLocal o = true ->
  exists b, In (o, b) (slots f) /\ finalOffset f pre o = Some b.
Proof.
  intros Ho U. destruct layout_unfold as (e & A & _).
  destruct (allocSeq_spec _ _ _ _ order_wf A) as (M & _).
  assert (I : In o (order objs)) by (apply order_in; auto).
  rewrite <- M in I. apply in_map_iff in I as ([o' b] & E & I). cbn in E. subst o'.
  exists b. split; auto. unfold finalOffset.
  assert (F : find (fun p => ref (fst p) =? ref o) (slots f) = Some (o, b)).
  { pose proof order_refs as R. rewrite <- M in R. rewrite map_map in R. clear - R I. induction (slots f) as [|x l IH]; [contradiction|].
    cbn in *. apply NoDup_cons_iff in R as [R1 R2]. destruct (Z.eqb_spec (ref (fst x)) (ref o)) as [E|E].
    - destruct I as [->|I]; auto. exfalso. apply R1. rewrite E. apply in_map_iff. exists (o, b). auto.
    - destruct I as [->|I]; [cbn in E; congruence|]. auto. }
  unfold isCS, isLocal in U. destruct (use o); try (destruct U; discriminate); rewrite F; reflexivity.
Qed.

(** every object that needs a slot has one, aligned, between the outgoing-argument
    area and the end of the frame *)
Lemma slot_bounds o b : In (o, b) (slots f) ->
  argArea f <= b /\ b + size o <= frameEnd f /\ b mod align o = 0 /\ In o objs /\ (isCS o = true \/ isLocal o = true).
Proof.
  intros I. destruct layout_unfold as (e & A & A1 & A2 & _).
  destruct (allocSeq_spec _ _ _ _ order_wf A) as (M & E & B & _). destruct (B o b I) as (B1 & B2 & B3).
  pose proof (alignTo_spec e spAl sp_pos). rewrite A2.
  assert (In o (order objs)) as O by (rewrite <- M; apply in_map_iff; exists (o, b); auto).
  apply order_in in O. repeat split; try tauto; lia.
Qed.

Lemma slots_apart o b o' b' : In (o, b) (slots f) -> In (o', b') (slots f) -> ref o <> ref o' ->
  b + size o <= b' \/ b' + size o' <= b.
Proof.
  intros I1 I2 N. destruct layout_unfold as (e & A & _).
  destruct (allocSeq_spec _ _ _ _ order_wf A) as (M & E & _ & D).
  apply in_split in I1 as (r1 & r2 & S). rewrite S in I2. apply in_app_or in I2. destruct I2 as [I2|[I2|I2]].
  - right. apply in_split in I2 as (r3 & r4 & S'). subst r1. rewrite <- app_assoc in S. cbn in S.
    exact (D _ _ _ _ _ _ _ S).
  - congruence.
  - left. apply in_split in I2 as (r3 & r4 & S'). subst r2. exact (D _ _ _ _ _ _ _ S).
Qed.

(** C17 *)
Theorem C17_slots_disjoint_and_inside_the_frame :
  forall o o' x x', In o objs -> In o' objs -> ref o <> ref o' ->
  finalOffset f pre o = Some x -> finalOffset f pre o' = Some x' ->
  (isCS o = true \/ isLocal o = true) ->
  (* inside the frame, above the outgoing arguments, aligned *)
  argArea f <= x /\ x + size o <= stackSize f /\ x mod align o = 0 /\
  (* and disjoint from every other object of the function *)
  (x + size o <= x' \/ x' + size o' <= x).
Proof.
  intros o o' x x' Ho Ho' N F F' U.
  destruct layout_unfold as (e & A & A1 & A2 & A3).
  pose proof (alignTo_spec pre spAl sp_pos) as [G _].
  destruct (slot_of o Ho U) as (b & I & Fb). assert (b = x) by congruence. subst b.
  destruct (slot_bounds o x I) as (B1 & B2 & B3 & _).
  split; [auto|]. split; [lia|]. split; [auto|].
  pose proof (args o' Ho') as Ar. unfold finalOffset in F'. destruct (use o') eqn:U'.
  - injection F' as <-. left. assert (0 <= offset o') by auto. lia.
  - injection F' as <-. right. destruct (callArea_spec objs 0) as [_ C].
    assert (offset o' + size o' <= callArea objs 0) by (apply C; auto; unfold isCallArg; now rewrite U').
    pose proof (alignTo_spec (callArea objs 0) spAl sp_pos). lia.
  - destruct (slot_of o' Ho') as (b & I' & F2); [unfold isCS, isLocal; rewrite U'; auto|].
    unfold finalOffset in F2. rewrite U' in F2. assert (b = x') by congruence. subst b.
    exact (slots_apart o x o' x' I I' N).
  - destruct (slot_of o' Ho') as (b & I' & F2); [unfold isCS, isLocal; rewrite U'; auto|].
    unfold finalOffset in F2. rewrite U' in F2. assert (b = x') by congruence. subst b.
    exact (slots_apart o x o' x' I I' N).
  - destruct (slot_of o' Ho') as (b & I' & F2); [unfold isCS, isLocal; rewrite U'; auto|].
    unfold finalOffset in F2. rewrite U' in F2. assert (b = x') by congruence. subst b.
    exact (slots_apart o x o' x' I I' N).
Qed.

(** Every object has a final offset. *)
Theorem C17_every_object_placed :
  forall o, In o objs -> exists x, finalOffset f pre o = Some x.
Proof.
  intros o Ho. destruct (use o) eqn:U.
  1,2: unfold finalOffset; rewrite U; eauto.
  all: destruct (slot_of o Ho) as (b & _ & F); [unfold isCS, isLocal; rewrite U; auto|]; eauto.
Qed.

(** The stack pointer stays aligned: frame plus pushed area is a multiple of the
    stack alignment, so after the prologue the stack pointer has the alignment it
    had on entry and each slot whose alignment divides it is aligned in memory. *)
Theorem C17_stack_pointer_stays_aligned :
  (stackSize f + pre) mod spAl = 0 /\ 0 <= stackSize f /\
  forall entrySp o x, entrySp mod spAl = 0 -> In o objs -> (isCS o = true \/ isLocal o = true) ->
    finalOffset f pre o = Some x -> (align o | spAl) ->
    (entrySp - (stackSize f + pre)) mod spAl = 0 /\ (entrySp - (stackSize f + pre) + x) mod align o = 0.
Proof.
  destruct layout_unfold as (e & A & A1 & A2 & A3).
  pose proof (alignTo_spec pre spAl sp_pos) as [G1 G2].
  pose proof (alignTo_spec e spAl sp_pos) as [E1 E2].
  pose proof (alignTo_spec (callArea objs 0) spAl sp_pos) as [C1 C2].
  destruct (callArea_spec objs 0) as [K1 _].
  destruct (allocSeq_spec _ _ _ _ order_wf A) as (_ & M & _).
  assert (S : stackSize f + pre = alignTo e spAl + alignTo pre spAl) by lia.
  assert (D : (stackSize f + pre) mod spAl = 0).
  { rewrite S. rewrite Z.add_mod, E2, G2 by lia. apply Z.mod_0_l. lia. }
  split; auto. split; [lia|]. intros sp o x Hsp Ho U F [q Q].
  assert (Hs : (sp - (stackSize f + pre)) mod spAl = 0).
  { rewrite Zminus_mod, Hsp, D. apply Z.mod_0_l. lia. }
  split; auto. destruct (slot_of o Ho U) as (b & I & Fb). assert (b = x) by congruence. subst b.
  destruct (slot_bounds o x I) as (_ & _ & B3 & _).
  rewrite Forall_forall in wf. destruct (wf o Ho) as [_ W].
  apply Z.mod_divide in Hs as [t T]; [|lia]. rewrite T, Q, Z.mul_assoc, Z.add_comm, Z.mod_add by lia. auto.
Qed.

(** Outgoing arguments stay where the callee looks for them (the bottom of the
    frame) and incoming ones are found above the whole frame, shifted by exactly
    what the prologue subtracted from the stack pointer. *)
Theorem C17_argument_offsets :
  forall o, In o objs ->
  (use o = CalleeArgument -> finalOffset f pre o = Some (offset o) /\ offset o + size o <= argArea f) /\
  (use o = Argument -> finalOffset f pre o = Some (offset o + (stackSize f + pre)) /\
     forall entrySp, entrySp + offset o = (entrySp - (stackSize f + pre)) + (offset o + (stackSize f + pre))).
Proof.
  intros o Ho. split; intros U; unfold finalOffset; rewrite U; (split; [f_equal; lia|]).
  - destruct layout_unfold as (e & A & A1 & _). rewrite A1. destruct (callArea_spec objs 0) as [_ C].
    assert (offset o + size o <= callArea objs 0) by (apply C; auto; unfold isCallArg; now rewrite U).
    pose proof (alignTo_spec (callArea objs 0) spAl sp_pos). lia.
  - intros. lia.
Qed.
End Layout.

(** Bound on every intermediate value (so [int32_t] arithmetic is exact if it is
    below 2^31). *)
Fixpoint total (l : list obj) : Z :=
  match l with [] => 0 | o :: l => size o + align o + total l end.
Theorem C17_base_bounded :
  forall l base r e, Forall wfObj l -> 0 <= base -> allocSeq base l = (r, e) -> base <= e <= base + total l.
Proof.
  induction l as [|o l IH]; intros base r e W B A; cbn in A.
  - injection A as <- <-. cbn. lia.
  - destruct (allocSeq (alignTo base (align o) + size o) l) as [r' e'] eqn:E. injection A as <- <-.
    inversion W as [|? ? [W1 W2] W']; subst. pose proof (alignTo_spec base (align o) W2) as [A1 _].
    assert (B' : 0 <= alignTo base (align o) + size o) by lia. specialize (IH _ _ _ W' B' E). cbn [total]. lia.
Qed.

Definition exObjs := [ mkObj 1 8 4 0 CalleeArgument; mkObj 2 4 4 0 Local; mkObj 3 8 8 0 CalleeSaved;
                       mkObj 4 1 1 0 Local; mkObj 5 8 8 0 RegSpill; mkObj 6 4 4 4 Argument;
                       mkObj 7 8 8 0 CalleeSaved ].
Example C17_example :
  Forall wfObj exObjs /\ NoDup (map ref exObjs) /\
  map (finalOffset (layout exObjs 8 4) 4) exObjs =
    [Some 0; Some 24; Some 16; Some 28; Some 32; Some 52; Some 8] /\
  stackSize (layout exObjs 8 4) = 44.
Proof.
  split; [repeat constructor; cbn; lia|]. split; [|split; reflexivity].
  cbn. repeat constructor; cbn; intuition lia.
Qed.

(** ** C18: interval partitioning *)

(** StackAllocation.cpp:41-44; [iid] stands for the operand *)
Record itv := mkI { iid : Z; ibeg : Z; iend : Z }.

(** state of the loop :67-80: the queue of slots (colour, end), the number of
    colours, the assignment so far *)
Record pst := mkPst { queue : list (nat * Z); count : nat; colors : list (itv * nat) }.

(** One iteration.  [std::priority_queue] with [operator<] comparing [end >]
    puts a slot with the smallest end on top; which one among equals is
    unspecified, so the step is a relation. *)
Inductive pstep : pst -> itv -> pst -> Prop :=
| p_new s i :            (* :68-72: empty queue, or the smallest end is > begin *)
    (forall c e, In (c, e) (queue s) -> e > ibeg i) ->
    pstep s i (mkPst (queue s ++ [(count s, iend i)]) (S (count s)) (colors s ++ [(i, count s)]))
| p_reuse s i q1 c e q2 : (* :73-79 *)
    queue s = q1 ++ (c, e) :: q2 ->
    (forall c' e', In (c', e') (queue s) -> e <= e') -> e <= ibeg i ->
    pstep s i (mkPst (q1 ++ (c, iend i) :: q2) (count s) (colors s ++ [(i, c)])).

Inductive psteps : pst -> list itv -> pst -> Prop :=
| ps_nil s : psteps s [] s
| ps_cons s i s' l s'' : pstep s i s' -> psteps s' l s'' -> psteps s (i :: l) s''.

(** :62-80: sort by begin (any order of equal begins), then the loop *)
Definition partition (ivs : list itv) (s : pst) : Prop :=
  exists l, Permutation ivs l /\ StronglySorted (fun a b => ibeg a <= ibeg b) l /\
            psteps (mkPst [] 0 []) l s.

Definition overlap (a b : itv) : Prop := exists x, ibeg a <= x < iend a /\ ibeg b <= x < iend b.
Definition live (x : Z) (i : itv) : bool := (ibeg i <=? x) && (x <? iend i).

(** Invariant after processing the prefix [l]. *)
Record pinv (l : list itv) (s : pst) : Prop := {
  v_map : map fst (colors s) = l;
  v_ids : map fst (queue s) = seq 0 (count s) \/ Permutation (map fst (queue s)) (seq 0 (count s));
  v_len : length (queue s) = count s;
  v_bound : forall i c, In (i, c) (colors s) -> exists e, In (c, e) (queue s) /\ iend i <= e;
  v_from : forall c e, In (c, e) (queue s) -> exists i, In (i, c) (colors s) /\ e = iend i;
  v_apart : forall l1 i c l2 j l3, colors s = l1 ++ (i, c) :: l2 ++ (j, c) :: l3 -> iend i <= ibeg j;
  v_depth : count s = 0%nat \/ exists x, (count s <= length (filter (live x) l))%nat }.

Lemma queue_nodup s : Permutation (map fst (queue s)) (seq 0 (count s)) -> NoDup (map fst (queue s)).
Proof. intros P. apply (Permutation_NoDup (Permutation_sym P)), seq_NoDup. Qed.

Lemma nodup_fst {A B} (l : list (A * B)) c e e' : NoDup (map fst l) -> In (c, e) l -> In (c, e') l -> e = e'.
Proof.
  induction l as [|[a b] l IH]; cbn; [tauto|]. intros N [H1|H1] [H2|H2]; apply NoDup_cons_iff in N as [N1 N2].
  - congruence.
  - injection H1 as -> ->. exfalso. apply N1. apply in_map_iff. exists (c, e'). auto.
  - injection H2 as -> ->. exfalso. apply N1. apply in_map_iff. exists (c, e). auto.
  - auto.
Qed.

(** pigeonhole: an injection from the slots into the live intervals *)
Lemma depth_new (q : list (nat * Z)) (cs : list (itv * nat)) x :
  NoDup (map fst q) ->
  (forall c e, In (c, e) q -> exists i, In (i, c) cs /\ live x i = true) ->
  (length q <= length (filter (live x) (map fst cs)))%nat.
Proof.
  intros N H.
  assert (G : (length (map fst q) <= length (map snd (filter (fun p => live x (fst p)) cs)))%nat).
  { apply NoDup_incl_length; auto. intros c Hc. apply in_map_iff in Hc as ([c' e] & E & Hc). cbn in E. subst c'.
    destruct (H c e Hc) as (i & I1 & I2). apply in_map_iff. exists (i, c). split; auto.
    apply filter_In. auto. }
  rewrite !map_length in G.
  assert (L : length (filter (fun p => live x (fst p)) cs) = length (filter (live x) (map fst cs))).
  { clear. induction cs as [|[i c] cs IH]; cbn; auto. destruct (live x i); cbn; auto. }
  lia.
Qed.

Lemma app_snoc_inv {A} (l l1 : list A) x a l2 b l3 : l ++ [x] = l1 ++ a :: l2 ++ b :: l3 ->
  (l3 = [] /\ b = x /\ l = l1 ++ a :: l2) \/ (exists l3', l3 = l3' ++ [x] /\ l = l1 ++ a :: l2 ++ b :: l3').
Proof.
  intros H. destruct l3 as [|y l3 _] using rev_ind.
  - left. assert (E : l ++ [x] = (l1 ++ a :: l2) ++ [b]) by (rewrite H, <- app_assoc; reflexivity).
    apply app_inj_tail in E as [E1 E2]. auto.
  - right. exists l3. assert (E : l ++ [x] = (l1 ++ a :: l2 ++ b :: l3) ++ [y]).
    { rewrite H, <- !app_assoc. cbn. rewrite <- app_assoc. reflexivity. }
    apply app_inj_tail in E as [E1 E2]. subst. auto.
Qed.

Lemma pinv_step l s i s' : pinv l s -> pstep s i s' -> ibeg i < iend i ->
  (forall j, In j l -> ibeg j <= ibeg i) -> pinv (l ++ [i]) s'.
Proof.
  intros [V1 V2 V3 V4 V5 V6 V7] P Hi Hs.
  assert (V2' : Permutation (map fst (queue s)) (seq 0 (count s))) by (destruct V2 as [->|V2]; auto). clear V2.
  pose proof (queue_nodup s V2') as ND.
  assert (Lt : forall j c, In (j, c) (colors s) -> (c < count s)%nat).
  { intros j c Hj. destruct (V4 j c Hj) as (e & He & _).
    assert (In c (seq 0 (count s))). { apply (Permutation_in _ V2'). apply in_map_iff. exists (c, e). auto. }
    apply in_seq in H. lia. }
  destruct P as [s i Hn|s i q1 c e q2 Hq Hmin Hle].
  - constructor; cbn [queue count colors].
    + rewrite map_app, V1. reflexivity.
    + right. rewrite map_app, seq_S. cbn. now apply Permutation_app_tail.
    + rewrite app_length, V3. cbn. lia.
    + intros j c Hj. apply in_app_or in Hj. destruct Hj as [Hj|[Hj|[]]].
      * destruct (V4 j c Hj) as (e & He & L). exists e. split; auto. apply in_or_app. auto.
      * injection Hj as <- <-. exists (iend i). split; [|lia]. apply in_or_app. cbn. auto.
    + intros c e Hc. apply in_app_or in Hc. destruct Hc as [Hc|[Hc|[]]].
      * destruct (V5 c e Hc) as (j & Hj & E). exists j. split; auto. apply in_or_app. auto.
      * injection Hc as <- <-. exists i. split; auto. apply in_or_app. cbn. auto.
    + intros l1 a c l2 b l3 E. apply app_snoc_inv in E as [(-> & E2 & E3)|(l3' & -> & E3)].
      * injection E2 as -> ->. exfalso. pose proof (Lt a (count s)). rewrite E3 in H.
        specialize (H ltac:(apply in_or_app; cbn; auto)). lia.
      * eapply V6; eauto.
    + right. exists (ibeg i).
      assert (D : (length (queue s ++ [(count s, iend i)]) <= length (filter (live (ibeg i)) (map fst (colors s ++ [(i, count s)]))))%nat).
      { apply depth_new.
        - rewrite map_app. apply (Permutation_NoDup (l := seq 0 (S (count s)))); [|apply seq_NoDup].
          rewrite seq_S. symmetry. now apply Permutation_app_tail.
        - intros c e Hc. apply in_app_or in Hc. destruct Hc as [Hc|[Hc|[]]].
          + destruct (V5 c e Hc) as (j & Hj & E). exists j. split; [apply in_or_app; auto|].
            specialize (Hn c e Hc). unfold live. apply andb_true_iff. split; [apply Z.leb_le|apply Z.ltb_lt; lia].
            apply Hs. rewrite <- V1. apply in_map_iff. exists (j, c). auto.
          + injection Hc as <- <-. exists i. split; [apply in_or_app; cbn; auto|].
            unfold live. apply andb_true_iff. split; [apply Z.leb_le|apply Z.ltb_lt]; lia. }
      rewrite app_length, V3, map_app, V1 in D. cbn in D. lia.
  - assert (EE : forall e', In (c, e') (queue s) -> e' = e).
    { intros e' H. apply (nodup_fst (queue s) c); auto. rewrite Hq. apply in_or_app. cbn. auto. }
    assert (QM : map fst (q1 ++ (c, iend i) :: q2) = map fst (queue s)) by (rewrite Hq, !map_app; reflexivity).
    constructor; cbn [queue count colors].
    + rewrite map_app, V1. reflexivity.
    + right. now rewrite QM.
    + rewrite <- V3, Hq, !app_length. reflexivity.
    + intros j d Hj. apply in_app_or in Hj. destruct Hj as [Hj|[Hj|[]]].
      * destruct (V4 j d Hj) as (e' & He & L). rewrite Hq in He. apply in_app_or in He. destruct He as [He|[He|He]].
        -- exists e'. split; auto. apply in_or_app. auto.
        -- injection He as <- <-. exists (iend i). split; [apply in_or_app; cbn; auto|lia].
        -- exists e'. split; auto. apply in_or_app. cbn. auto.
      * injection Hj as <- <-. exists (iend i). split; [|lia]. apply in_or_app. cbn. auto.
    + intros d e' Hd. apply in_app_or in Hd. destruct Hd as [Hd|[Hd|Hd]].
      * destruct (V5 d e') as (j & Hj & E); [rewrite Hq; apply in_or_app; auto|]. exists j. split; auto. apply in_or_app. auto.
      * injection Hd as <- <-. exists i. split; auto. apply in_or_app. cbn. auto.
      * destruct (V5 d e') as (j & Hj & E); [rewrite Hq; apply in_or_app; cbn; auto|]. exists j. split; auto. apply in_or_app. auto.
    + intros l1 a d l2 b l3 E. apply app_snoc_inv in E as [(-> & E2 & E3)|(l3' & -> & E3)].
      * injection E2 as -> ->. destruct (V4 a c) as (e' & He & L); [rewrite E3; apply in_or_app; cbn; auto|].
        rewrite (EE e' He) in L. lia.
      * eapply V6; eauto.
    + destruct V7 as [V7|(x & V7)]; auto. right. exists x. rewrite filter_app, app_length. lia.
Qed.

Lemma pinv_steps : forall l s s' l0, psteps s l s' -> pinv l0 s -> Forall (fun i => ibeg i < iend i) l ->
  StronglySorted (fun a b => ibeg a <= ibeg b) (l0 ++ l) -> pinv (l0 ++ l) s'.
Proof.
  induction l as [|i l IH]; intros s s' l0 P V W S; inversion P; subst.
  - now rewrite app_nil_r.
  - inversion W; subst. assert (V' : pinv (l0 ++ [i]) s'0).
    { eapply pinv_step; eauto. intros j Hj. clear - S Hj. induction l0 as [|x l0 IH]; [contradiction|].
      cbn in S. inversion S; subst. destruct Hj as [->|Hj]; auto.
      rewrite Forall_forall in H2. apply H2. apply in_or_app. cbn. auto. }
    specialize (IH s'0 s' (l0 ++ [i])). rewrite <- app_assoc in IH. cbn in IH. apply IH; auto.
Qed.

(** Two different intervals with the same slot do not overlap; every interval
    gets exactly one slot; and the number of slots is the greatest number of
    intervals live at one point. *)
Theorem C18_partition_correct_and_optimal :
  forall ivs s, Forall (fun i => ibeg i < iend i) ivs -> partition ivs s ->
  Permutation (map fst (colors s)) ivs /\
  (forall i c, In (i, c) (colors s) -> (c < count s)%nat) /\
  (forall l1 i c l2 j l3, colors s = l1 ++ (i, c) :: l2 ++ (j, c) :: l3 -> ~ overlap i j) /\
  (forall x, (length (filter (live x) ivs) <= count s)%nat) /\
  (count s = 0%nat \/ exists x, (count s = length (filter (live x) ivs))%nat).
Proof.
  intros ivs s W (l & P & S & R).
  assert (V0 : pinv [] (mkPst [] 0 [])).
  { constructor; cbn; auto; try contradiction. intros. destruct l1; discriminate. }
  assert (Wl : Forall (fun i => ibeg i < iend i) l).
  { rewrite Forall_forall in *. intros i Hi. apply W. eapply Permutation_in; [symmetry|]; eauto. }
  pose proof (pinv_steps l _ s [] R V0 Wl S) as [V1 V2 V3 V4 V5 V6 V7]. cbn in *.
  assert (V2' : Permutation (map fst (queue s)) (seq 0 (count s))) by (destruct V2 as [->|V2]; auto).
  assert (Lt : forall j c, In (j, c) (colors s) -> (c < count s)%nat).
  { intros j c Hj. destruct (V4 j c Hj) as (e & He & _).
    assert (In c (seq 0 (count s))). { apply (Permutation_in _ V2'). apply in_map_iff. exists (c, e). auto. }
    apply in_seq in H. lia. }
  assert (PF : forall x, length (filter (live x) ivs) = length (filter (live x) l)).
  { intros x. clear - P. induction P; cbn; try congruence.
    - destruct (live x x0); cbn; congruence.
    - destruct (live x x0), (live x y); reflexivity. }
  assert (AP : forall l1 i c l2 j l3, colors s = l1 ++ (i, c) :: l2 ++ (j, c) :: l3 -> ~ overlap i j).
  { intros l1 i c l2 j l3 E (x & X1 & X2). specialize (V6 _ _ _ _ _ _ E). lia. }
  assert (UB : forall x, (length (filter (live x) l) <= count s)%nat).
  { intros x. rewrite <- (seq_length (count s) 0).
    assert (L : length (filter (live x) l) = length (map snd (filter (fun p => live x (fst p)) (colors s)))).
    { rewrite map_length, <- V1. clear. induction (colors s) as [|[i c] cs IH]; cbn; auto. destruct (live x i); cbn; auto. }
    rewrite L. apply NoDup_incl_length.
    - assert (G : forall cs : list (itv * nat), (forall l1 i c l2 j l3, cs = l1 ++ (i, c) :: l2 ++ (j, c) :: l3 -> ~ overlap i j) ->
        NoDup (map snd (filter (fun p => live x (fst p)) cs))).
      { induction cs as [|[i c] cs IH]; intros A; cbn; [constructor|].
        assert (IH' : NoDup (map snd (filter (fun p => live x (fst p)) cs))).
        { apply IH. intros l1 a d l2 b l3 E. eapply (A ((i, c) :: l1)). cbn. now rewrite E. }
        destruct (live x i) eqn:Lx; auto. cbn. constructor; auto. intros H.
        apply in_map_iff in H as ([j d] & E & H). cbn in E. subst d. apply filter_In in H as [H1 H2]. cbn in H2.
        apply in_split in H1 as (l2 & l3 & H1). apply (A [] i c l2 j l3); [cbn; now rewrite H1|].
        exists x. unfold live in *. rewrite andb_true_iff, Z.leb_le, Z.ltb_lt in *. lia. }
      apply G, AP.
    - intros c Hc. apply in_map_iff in Hc as ([i d] & E & Hc). cbn in E. subst d. apply filter_In in Hc as [Hc _].
      apply in_seq. specialize (Lt i c Hc). lia. }
  split; [rewrite V1; now symmetry|]. split; auto. split; auto. split.
  - intros x. rewrite PF. auto.
  - destruct V7 as [V7|(x & V7)]; auto. right. exists x. rewrite PF. specialize (UB x). lia.
Qed.

(** The loop always has a next step, so a result exists for every input. *)
Lemma pstep_exists s i : exists s', pstep s i s'.
Proof.
  destruct (queue s) as [|q0 q] eqn:Q.
  { eexists. apply p_new. rewrite Q. intros c e H. destruct H. }
  assert (M : forall l : list (nat * Z), l <> [] -> exists m, In m l /\ forall m', In m' l -> snd m <= snd m').
  { induction l as [|a l IH]; [congruence|]. intros _. destruct l as [|b l].
    - exists a. split; [left; auto|]. intros m' [<-|[]]. lia.
    - destruct (IH ltac:(discriminate)) as (m & I & L). destruct (Z.leb_spec (snd a) (snd m)).
      + exists a. split; [left; auto|]. intros m' [<-|H']; [lia|]. specialize (L m' H'). lia.
      + exists m. split; [right; auto|]. intros m' [<-|H']; [lia|]. auto. }
  destruct (M (queue s)) as ([c e] & I & L); [rewrite Q; discriminate|]. cbn in L.
  destruct (Z.leb_spec e (ibeg i)).
  - apply in_split in I as (q1 & q2 & E). eexists. eapply p_reuse; eauto. intros c' e' H'. apply (L (c', e') H').
  - eexists. apply p_new. intros c' e' H'. specialize (L (c', e') H'). cbn in L. lia.
Qed.

Theorem C18_partition_exists : forall ivs, exists s, partition ivs s.
Proof.
  intros ivs.
  assert (SRT : exists l, Permutation ivs l /\ StronglySorted (fun a b => ibeg a <= ibeg b) l).
  { induction ivs as [|i ivs (l & P & S)]; [exists []; split; constructor|].
    assert (INS : forall l, StronglySorted (fun a b => ibeg a <= ibeg b) l ->
      exists l', Permutation (i :: l) l' /\ StronglySorted (fun a b => ibeg a <= ibeg b) l').
    { clear. induction l as [|x l IH]; intros S; [exists [i]; split; auto; repeat constructor|].
      inversion S; subst. destruct (Z.leb_spec (ibeg i) (ibeg x)).
      - exists (i :: x :: l). split; auto. constructor; auto. constructor; auto.
        rewrite Forall_forall in *. intros y Hy. specialize (H2 y Hy). lia.
      - destruct (IH H1) as (l' & P & S'). exists (x :: l'). split; [rewrite perm_swap; now constructor|].
        constructor; auto. rewrite Forall_forall in *. intros y Hy. apply (Permutation_in _ (Permutation_sym P)) in Hy.
        destruct Hy as [<-|Hy]; [lia|auto]. }
    destruct (INS l S) as (l' & P' & S'). exists l'. split; auto. rewrite P. auto. }
  destruct SRT as (l & P & S).
  assert (R : forall l s, exists s', psteps s l s').
  { clear. induction l as [|i l IH]; intros s; [exists s; constructor|].
    destruct (pstep_exists s i) as (s1 & H). destruct (IH s1) as (s2 & H2). exists s2. econstructor; eauto. }
  destruct (R l (mkPst [] 0 [])) as (s & H). exists s. exists l. auto.
Qed.

Example C18_example :
  partition [mkI 1 5 9; mkI 2 0 5; mkI 3 3 7; mkI 4 8 10]
            (mkPst [(0%nat, 9); (1%nat, 10)] 2
               [(mkI 2 0 5, 0%nat); (mkI 3 3 7, 1%nat); (mkI 1 5 9, 0%nat); (mkI 4 8 10, 1%nat)]).
Proof.
  exists [mkI 2 0 5; mkI 3 3 7; mkI 1 5 9; mkI 4 8 10]. split; [|split].
  - apply Permutation_trans with [mkI 2 0 5; mkI 1 5 9; mkI 3 3 7; mkI 4 8 10]; repeat constructor.
  - repeat constructor; cbn; lia.
  - eapply ps_cons; [apply p_new; cbn; tauto|].
    eapply ps_cons; [apply p_new; cbn; intros c e [H|[]]; injection H; lia|].
    eapply ps_cons; [apply (p_reuse _ _ [] 0%nat 5 [(1%nat, 7)]); cbn; [reflexivity| |lia]|].
    { intros c e [H|[H|[]]]; injection H; lia. }
    eapply ps_cons; [apply (p_reuse _ _ [(0%nat, 9)] 1%nat 7 []); cbn; [reflexivity| |lia]|].
    { intros c e [H|[H|[]]]; injection H; lia. }
    apply ps_nil.
Qed.
