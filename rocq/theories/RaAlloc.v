(** Graph colouring register allocation: cmmc/CodeGen/GraphColoringRegisterAllocator.cpp:165-412 (the interference
    graph of a register class), 465-620 (colouring, in [RaColor]) and 746-766 (all classes, the final renaming).
    Spilling is in [RaSpill]. *)
From Coq Require Import ZArith Lia Bool List Arith.
From Verif Require Import GMir RaMir RaLive RaIv RaColor.
Import ListNotations.

(** what the allocator knows of the target (ctx.registerInfo, ctx.frameInfo) and of the callees (the IPRA cache) *)
Record rinfo := RInfo {
  ncls : nat;                                          (* getAllocationClassCount *)
  al : nat -> list nat;                                (* getAllocationList *)
  vcls : nat -> nat;                                   (* class of a virtual register (of its type) *)
  pcls : nat -> nat;                                   (* class of a physical register *)
  zero : nat -> bool;                                  (* isZeroRegister *)
  callerSaved : nat -> bool;
  usage : nat -> list operand -> option (list nat) }.  (* infoIPRA.query of the callee *)

(** what is told to the graph: a register is touched, or a virtual and a physical register interfere *)
Inductive gop := GT (v : nat) | GE (v n : nat).
Record scst := Sc { und : list nat; lck : list nat; liv : list nat }.

Section Alloc.
Context {W : Type}.
Variable t : mach W.
Variable I : rinfo.

(** registers read by the instructions that start [rest], as long as each of them reads one (239-261) *)
Fixpoint incoming (rest : list inst) : list nat :=
  match rest with
  | [] => []
  | i :: r =>
      match filter (fun n => negb (zero I n)) (puses t i) with
      | [] => []
      | us => us ++ incoming r
      end
  end.

Section Class.
Variable c : nat.
Variable li : liveInfo.
Definition collectUnder (rest : list inst) : list nat := filter (fun n => Nat.eqb (pcls I n) c) (incoming rest).

(** 300-318: the Use operands of the instruction at position [k] *)
Definition useStep (k : nat) (st : scst) (x : opflag * operand) : scst :=
  match x with
  | (FUse, OReg (Phys n)) =>
      if Nat.eqb (pcls I n) c && negb (zero I n) then Sc (ndel n (und st)) (lck st) (liv st) else st
  | (FUse, OReg (Virt v)) =>
      if Nat.eqb (vcls I v) c && nmem k (liDead li v) then Sc (und st) (lck st) (ndel v (liv st)) else st
  | _ => st
  end.
Definition useTouch (x : opflag * operand) : list gop :=
  match x with
  | (FUse, OReg (Virt v)) => if Nat.eqb (vcls I v) c then [GT v] else []
  | _ => []
  end.
(** 324-339: the registers of the class that the call may change *)
Definition callRegs (i : inst) : list nat :=
  match usage I (opc i) (map blank (ops i)) with
  | Some l => filter (fun n => Nat.eqb (pcls I n) c) l
  | None => filter (callerSaved I) (al I c)
  end.
(** 345-365: the Def operands *)
Fixpoint defStep (l : list (opflag * operand)) (st : scst) : scst * list gop :=
  match l with
  | [] => (st, [])
  | x :: r =>
      match x with
      | (FDef, OReg (Phys n)) =>
          if Nat.eqb (pcls I n) c && negb (zero I n) then
            let '(st', e) := defStep r (Sc (und st) (nadd n (lck st)) (liv st)) in
            (st', map (fun v => GE v n) (liv st) ++ e)
          else defStep r st
      | (FDef, OReg (Virt v)) =>
          if Nat.eqb (vcls I v) c then
            let '(st', e) := defStep r (Sc (und st) (lck st) (nadd v (liv st))) in
            (st', GT v :: map (fun n => GE v n) (und st) ++ map (fun n => GE v n) (lck st) ++ e)
          else defStep r st
      | _ => defStep r st
      end
  end.
Definition scInst (k : nat) (i : inst) (rest : list inst) (st : scst) : scst * list gop :=
  let st1 := fold_left (useStep k) (fops t i) st in
  let e1 := flat_map useTouch (fops t i) in
  let '(st2, e2) :=
    if callF t (opc i) then
      (Sc (und st1 ++ collectUnder rest) [] (liv st1),
       flat_map (fun n => map (fun v => GE v n) (liv st1)) (callRegs i))
    else (st1, []) in
  let '(st3, e3) := defStep (fops t i) st2 in
  (st3, e1 ++ e2 ++ e3).
Fixpoint scBlk (k : nat) (blk : list inst) (st : scst) : list gop :=
  match blk with
  | [] => []
  | i :: r => let '(st', e) := scInst k i r st in e ++ scBlk (S k) r st'
  end.
(** 263-269 *)
Definition scStart (b : nat) (blk : list inst) : scst :=
  Sc (collectUnder blk) [] (filter (fun v => Nat.eqb (vcls I v) c) (liIns li b)).
Fixpoint scAll (b k : nat) (p : mfunc) : list gop :=
  match p with
  | [] => []
  | blk :: r => scBlk k blk (scStart b blk) ++ scAll (S b) (k + length blk) r
  end.

Definition gapply (g : graph) (o : gop) : graph :=
  match o with GT v => touch g v | GE v n => addEdge g (Virt v, Phys n) end.
(** 388-416: the edges between virtual registers *)
Fixpoint pairs (l : list nat) : list (nat * nat) :=
  match l with [] => [] | u :: r => map (fun v => (u, v)) r ++ pairs r end.
Definition vedges (l : list nat) : list (reg * reg) :=
  map (fun x => (Virt (fst x), Virt (snd x)))
      (filter (fun x => intersectWith (liIv li (fst x)) (liIv li (snd x))) (pairs l)).
Definition graphOf (p : mfunc) : graph :=
  let g1 := fold_left gapply (scAll 0 0 p) graph0 in
  fold_left addEdge (vedges (nodes g1)) g1.

(** 282-298: copyHint *)
Definition hintsOf (p : mfunc) (u : nat) : list reg :=
  flat_map (fun i =>
    match ops i with
    | [OReg a; OReg b] =>
        if Nat.eqb (opc i) opcCopyFrom && rmem b (map Phys (al I c)) then (if reg_eqb a (Virt u) then [b] else [])
        else if Nat.eqb (opc i) opcCopyTo && rmem a (map Phys (al I c)) then (if reg_eqb b (Virt u) then [a] else [])
        else if Nat.eqb (opc i) opcCopy && negb (reg_eqb a b) then
          (if reg_eqb a (Virt u) then [b] else []) ++ (if reg_eqb b (Virt u) then [a] else [])
        else []
    | _ => []
    end) (concat p).
End Class.

Section Choices.
Variable top : nat -> nat -> list nat -> nat.
Variable best : nat -> nat -> list nat -> nat.
Variable choose : nat -> nat -> list nat -> nat.

(** graphColoringAllocateImpl without the spilling: one class *)
Definition allocClass (p : mfunc) (c : nat) (m : nat -> option nat) : colored :=
  match calcLiveIntervals t p with
  | None => Stuck
  | Some li => color (length (al I c)) (top c) (al I c) (hintsOf c p) (best c) (choose c) (graphOf c li p) m
  end.
Fixpoint allocFrom (p : mfunc) (cs : list nat) (m : nat -> option nat) : colored :=
  match cs with
  | [] => Colored m
  | c :: r => match allocClass p c m with Colored m' => allocFrom p r m' | x => x end
  end.
Definition allocAll (p : mfunc) : colored := allocFrom p (seq 0 (ncls I)) (fun _ => None).
End Choices.

(** 751-765: the renaming; [regMap.at] of a register that has none is left as it is *)
Definition renOp (m : nat -> option nat) (o : operand) : operand :=
  match o with
  | OReg (Virt v) => match m v with Some n => OReg (Phys n) | None => o end
  | _ => o
  end.
Definition renInst (m : nat -> option nat) (i : inst) : inst := Inst (opc i) (map (renOp m) (ops i)) (place i).
Definition rename (m : nat -> option nat) (p : mfunc) : mfunc := map (map (renInst m)) p.

(* ------------------------------------------------------------------ *)
(** * What the code given to the allocator must satisfy *)
Definition allocatable (n : nat) : bool := nmem n (al I (pcls I n)).
(** The use of physical registers within a block.  [U]: registers holding a value that arrived from the caller or a
    callee and has not been read yet; [L]: registers written since the last call.  An allocatable register may be read
    only while it is in one of them, and what is read right after a call must be a result of the call. *)
Fixpoint disc (U L : list nat) (blk : list inst) : bool :=
  match blk with
  | [] => true
  | i :: r =>
      forallb (fun n => negb (allocatable n) || nmem n U || nmem n L) (puses t i ++ rd t i) &&
      let U1 := filter (fun n => negb (nmem n (puses t i))) U in
      if callF t (opc i) then
        forallb (fun n => negb (allocatable n) || nmem n (clob t i)) (incoming r) &&
        disc (U1 ++ incoming r) (pdefs t i) r
      else disc U1 (L ++ pdefs t i) r
  end.

Record raTarget : Prop := RaTarget {
  rt_al : forall c n, In n (al I c) -> pcls I n = c /\ zero I n = false;
  rt_nd : forall c, NoDup (al I c);
  rt_clob : forall i n, In n (clob t i) -> allocatable n = true ->
    match usage I (opc i) (map blank (ops i)) with Some l => In n l | None => callerSaved I n = true end;
  rt_ld : ofl t opcLdStk = [FDef; FMeta] /\ callF t opcLdStk = false;
  rt_st : ofl t opcStStk = [FUse; FMeta] /\ callF t opcStStk = false;
  rt_copy : ofl t opcCopy = [FDef; FUse] /\ ofl t opcCopyTo = [FDef; FUse] /\ ofl t opcCopyFrom = [FDef; FUse] }.

Definition mentioned (p : mfunc) (v : nat) : Prop :=
  exists blk i, In blk p /\ In i blk /\ (In v (vuses t i) \/ In v (vdefs t i)).

Record raInput (p : mfunc) : Prop := RaInput {
  ri_ne : forall blk, In blk p -> blk <> [];
  ri_nd : forall blk i, In blk p -> In i blk -> NoDup (rdefs t i);
  ri_tie : forall blk, In blk p -> tieOk t [] blk = true;
  (* a virtual register stands only where it is used or defined, and every operand has a flag *)
  ri_flag : forall blk i, In blk p -> In i blk -> length (ops i) <= length (ofl t (opc i)) /\
    forall v, ~ In (FMeta, OReg (Virt v)) (fops t i);
  ri_cls : forall v, mentioned p v -> vcls I v < ncls I;
  ri_copy : forall blk i a b, In blk p -> In i blk -> opc i = opcCopy -> ops i = [OReg a; OReg b] -> a <> b ->
    match a, b with
    | Virt x, Virt y => vcls I x = vcls I y
    | Virt x, Phys n | Phys n, Virt x => In n (al I (vcls I x))
    | Phys _, Phys _ => True
    end;
  ri_entry : (forall v, ~ liveAt t p 0 0 v) /\ (forall b, ~ In 0 (succs t p b));
  ri_disc : forall b blk, nth_error p b = Some blk -> disc (if Nat.eqb b 0 then incoming blk else []) [] blk = true }.

(* ------------------------------------------------------------------ *)
(** * Facts about the scan *)
Section ClassFacts.
Variable c : nat.
Variable li : liveInfo.

Lemma useSteps_spec k l : forall st,
  (forall n, In n (und (fold_left (useStep c li k) l st)) <->
     In n (und st) /\ ~ (In (FUse, OReg (Phys n)) l /\ pcls I n = c /\ zero I n = false)) /\
  lck (fold_left (useStep c li k) l st) = lck st /\
  (forall v, In v (liv st) -> ~ (In (FUse, OReg (Virt v)) l /\ In k (liDead li v)) ->
     In v (liv (fold_left (useStep c li k) l st))).
Proof.
  induction l as [|[f o] l IH]; intros st; cbn [fold_left].
  - cbn. tauto.
  - destruct (IH (useStep c li k st (f, o))) as (H1 & H2 & H3).
    destruct f, o as [[n0|n0]|z|q|q]; cbn [useStep In] in *;
      try (split; [intros n; rewrite H1; intuition congruence|split; [exact H2|intros v A B; apply H3; intuition congruence]]).
    + destruct (Nat.eqb_spec (pcls I n0) c) as [E|E]; cbn [andb] in *.
      * destruct (zero I n0) eqn:Ez; cbn [negb] in *; (split; [|split]).
        -- intros n. rewrite H1. intuition congruence.
        -- exact H2.
        -- intros v A B. apply H3; intuition congruence.
        -- intros n. rewrite H1. cbn [und]. rewrite in_ndel. split.
           ++ intros [[A B] C]. split; [exact A|]. intros [[X|X] Y]; [congruence|tauto].
           ++ intros [A B]. split; [split; [exact A|]|tauto]. intros ->. apply B. auto.
        -- exact H2.
        -- intros v A B. apply H3; intuition congruence.
      * split; [|split].
        -- intros n. rewrite H1. intuition congruence.
        -- exact H2.
        -- intros v A B. apply H3; intuition congruence.
    + split; [|split].
      * intros n. rewrite H1. destruct (Nat.eqb (vcls I n0) c && nmem k (liDead li n0)); cbn [und]; intuition congruence.
      * rewrite H2. destruct (Nat.eqb (vcls I n0) c && nmem k (liDead li n0)); reflexivity.
      * intros v A B. apply H3; [|intuition congruence].
        destruct (Nat.eqb (vcls I n0) c && nmem k (liDead li n0)) eqn:E; [|exact A]. cbn [liv].
        apply andb_true_iff in E as [_ E]. apply nmem_In in E. apply in_ndel. split; [exact A|].
        intros ->. apply B. auto.
Qed.

Definition dV (l : list (opflag * operand)) (v : nat) : Prop := In (FDef, OReg (Virt v)) l /\ vcls I v = c.
Definition dP (l : list (opflag * operand)) (n : nat) : Prop :=
  In (FDef, OReg (Phys n)) l /\ pcls I n = c /\ zero I n = false.
Lemma defStep_spec l : forall st st' e, defStep c l st = (st', e) ->
  und st' = und st /\
  (forall n, In n (lck st) \/ dP l n -> In n (lck st')) /\
  (forall v, In v (liv st) \/ dV l v -> In v (liv st')) /\
  (forall v n, (In v (liv st) \/ dV l v) -> dP l n -> In (GE v n) e) /\
  (forall v n, dV l v -> In n (und st) \/ In n (lck st) -> In (GE v n) e) /\
  (forall v, dV l v -> In (GT v) e).
Proof.
  induction l as [|[f o] l IH]; intros st st' e H; cbn [defStep] in H.
  - injection H as <- <-. unfold dV, dP. cbn. repeat split; try tauto.
  - assert (Skip : defStep c l st = (st', e) -> (forall v, dV ((f, o) :: l) v -> dV l v) ->
      (forall n, dP ((f, o) :: l) n -> dP l n) ->
      und st' = und st /\
      (forall n, In n (lck st) \/ dP ((f, o) :: l) n -> In n (lck st')) /\
      (forall v, In v (liv st) \/ dV ((f, o) :: l) v -> In v (liv st')) /\
      (forall v n, (In v (liv st) \/ dV ((f, o) :: l) v) -> dP ((f, o) :: l) n -> In (GE v n) e) /\
      (forall v n, dV ((f, o) :: l) v -> In n (und st) \/ In n (lck st) -> In (GE v n) e) /\
      (forall v, dV ((f, o) :: l) v -> In (GT v) e)).
    { intros X SV SP. destruct (IH _ _ _ X) as (A & B & C & D & E & F).
      split; [exact A|split; [|split; [|split; [|split]]]].
      - intros n [Y|Y]; auto.
      - intros v [Y|Y]; auto.
      - intros v n [Y|Y] Z; auto.
      - intros v n Y Z; auto.
      - intros v Y; auto. }
    destruct f, o as [[n0|n0]|z|q|q];
      try (apply Skip; [exact H| |]; unfold dV, dP; cbn [In]; intuition congruence).
    + destruct (Nat.eqb_spec (pcls I n0) c) as [E1|E1]; cbn [andb] in H;
        [|apply Skip; [exact H| |]; unfold dV, dP; cbn [In]; intuition congruence].
      destruct (zero I n0) eqn:Ez; cbn [negb] in H;
        [apply Skip; [exact H| |]; unfold dV, dP; cbn [In]; intuition congruence|].
      destruct (defStep c l (Sc (und st) (nadd n0 (lck st)) (liv st))) as [st1 e1] eqn:Ed. injection H as <- <-.
      destruct (IH _ _ _ Ed) as (A & B & C & D & E & F). cbn [und lck liv] in *.
      assert (SV : forall v, dV ((FDef, OReg (Phys n0)) :: l) v -> dV l v) by (unfold dV; cbn [In]; intuition congruence).
      assert (SP : forall n, dP ((FDef, OReg (Phys n0)) :: l) n -> n = n0 \/ dP l n) by (unfold dP; cbn [In]; intuition congruence).
      assert (N0 : In n0 (nadd n0 (lck st))) by (apply in_nadd; auto).
      split; [exact A|split; [|split; [|split; [|split]]]].
      * intros n [Y|Y]; [apply B; left; apply in_nadd; auto|]. apply SP in Y as [->|Y]; auto.
      * intros v [Y|Y]; auto.
      * intros v n Y Z. apply in_or_app. apply SP in Z as [->|Z].
        -- destruct Y as [Y|Y]; [left; apply in_map_iff; exists v; auto|]. right. apply E; auto.
        -- right. apply D; [|exact Z]. destruct Y; auto.
      * intros v n Y Z. apply in_or_app. right. apply E; auto. rewrite in_nadd. tauto.
      * intros v Y. apply in_or_app. right. auto.
    + destruct (Nat.eqb_spec (vcls I n0) c) as [E1|E1];
        [|apply Skip; [exact H| |]; unfold dV, dP; cbn [In]; intuition congruence].
      destruct (defStep c l (Sc (und st) (lck st) (nadd n0 (liv st)))) as [st1 e1] eqn:Ed. injection H as <- <-.
      destruct (IH _ _ _ Ed) as (A & B & C & D & E & F). cbn [und lck liv] in *.
      assert (SV : forall v, dV ((FDef, OReg (Virt n0)) :: l) v -> v = n0 \/ dV l v) by (unfold dV; cbn [In]; intuition congruence).
      assert (SP : forall n, dP ((FDef, OReg (Virt n0)) :: l) n -> dP l n) by (unfold dP; cbn [In]; intuition congruence).
      assert (N0 : In n0 (nadd n0 (liv st))) by (apply in_nadd; auto).
      split; [exact A|split; [|split; [|split; [|split]]]].
      * intros n [Y|Y]; auto.
      * intros v [Y|Y]; [apply C; left; apply in_nadd; auto|]. apply SV in Y as [->|Y]; auto.
      * intros v n Y Z. right. apply in_or_app. right. apply in_or_app. right. apply D; [|auto].
        destruct Y as [Y|Y]; [left; apply in_nadd; auto|]. apply SV in Y as [->|Y]; auto.
      * intros v n Y Z. right. apply SV in Y as [->|Y].
        -- apply in_or_app. destruct Z as [Z|Z]; [left; apply in_map_iff; exists n; auto|].
           right. apply in_or_app. left. apply in_map_iff. exists n. auto.
        -- apply in_or_app. right. apply in_or_app. right. auto.
      * intros v Y. apply SV in Y as [->|Y]; [now left|]. right. apply in_or_app. right. apply in_or_app. right. auto.
Qed.
End ClassFacts.
End Alloc.
