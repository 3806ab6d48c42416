(** C40: spill code keeps the behaviour. *)
From Coq Require Import ZArith Lia Bool List Arith.
From Verif Require Import GMir RaMir RaLive RaIv RaColor RaAlloc RaSim RaMain RaCore RaProps RaSpill RaSpillSim.
Import ListNotations.

(** what the target must say of the two stack instructions and of constants *)
Definition stackTarget {W} (t : mach W) : Prop :=
  ofl t opcLdStk = [FDef; FMeta] /\ ofl t opcStStk = [FUse; FMeta].
(** where spill code may be put: see [RaSpill.spillable] *)
Definition roomFor {W} (t : mach W) (zeroR : nat -> bool) (u : nat) (drop : bool) (p : mfunc) : Prop :=
  forall blk, In blk p -> blk <> [] /\ spillable t zeroR u drop blk = true.

(** a register is kept in a stack slot nothing else touches *)
Theorem C40_spill_to_slot_partial W (t : mach W) zeroR u fallback p k : stackTarget t ->
  freshSlot k p -> ~ liveAt t p 0 0 u -> roomFor t zeroR u false p ->
  rsame t p (spillBy t zeroR u fallback (FSlot k) p).
Proof. intros [A B]. apply spill_slot; assumption. Qed.

(** a register whose only definition loads a constant is computed again before its uses *)
Theorem C40_spill_constant W (t : mach W) zeroR u fallback p c z : stackTarget t ->
  (forall o, constF t o = true -> exists fl, ofl t o = FDef :: fl /\ ~ In FDef fl) ->
  constOf t u p = Some c ->
  (forall s : rst W, onlyWrites t u c z s) ->
  (forall f i, hasPhys t zeroR f i c = false) ->
  ~ liveAt t p 0 0 u -> roomFor t zeroR u true p ->
  rsame t p (spillBy t zeroR u fallback (FConst c) p).
Proof.
  intros [A B] F C Z N L R. apply (spill_const t zeroR u fallback A B p c z); auto.
  exact (constOf_only t u F p c C).
Qed.

(** a register that arrived on the stack is read from there again, if it is never given another value *)
Theorem C40_spill_argument_partial W (t : mach W) zeroR u fallback p k : stackTarget t ->
  (forall blk i x, In blk p -> In i blk -> stkStore i <> Some (x, k)) ->
  (forall blk i, In blk p -> In i blk -> In u (vdefs t i) -> opc i = opcLdStk /\ ops i = [OReg (Virt u); OStk k]) ->
  ~ liveAt t p 0 0 u -> roomFor t zeroR u true p ->
  rsame t p (spillBy t zeroR u fallback (FArg k) p).
Proof. intros [A B] S D L R. apply spill_arg; assumption. Qed.

(** ** spilling any number of registers, then colouring *)
Inductive spills {W} (t : mach W) (zeroR : nat -> bool) : mfunc -> mfunc -> Prop :=
| sp_refl p : spills t zeroR p p
| sp_slot p q u k fb : freshSlot k p -> ~ liveAt t p 0 0 u -> roomFor t zeroR u false p ->
    spills t zeroR (spillBy t zeroR u fb (FSlot k) p) q -> spills t zeroR p q
| sp_const p q u c z fb : constOf t u p = Some c ->
    (forall s : rst W, onlyWrites t u c z s) ->
    (forall f i, hasPhys t zeroR f i c = false) -> ~ liveAt t p 0 0 u -> roomFor t zeroR u true p ->
    spills t zeroR (spillBy t zeroR u fb (FConst c) p) q -> spills t zeroR p q
| sp_arg p q u k fb : (forall blk i x, In blk p -> In i blk -> stkStore i <> Some (x, k)) ->
    (forall blk i, In blk p -> In i blk -> In u (vdefs t i) -> opc i = opcLdStk /\ ops i = [OReg (Virt u); OStk k]) ->
    ~ liveAt t p 0 0 u -> roomFor t zeroR u true p ->
    spills t zeroR (spillBy t zeroR u fb (FArg k) p) q -> spills t zeroR p q.

Theorem C40_spills_then_colouring_partial W (t : mach W) (I : rinfo) p q top best choose m :
  raTarget t I -> (forall o, constF t o = true -> exists fl, ofl t o = FDef :: fl /\ ~ In FDef fl) ->
  (forall c n q, q <> [] -> In (top c n q) q) ->
  (forall c u l, l <> [] -> In (best c u l) l) -> (forall c u l, l <> [] -> In (choose c u l) l) ->
  spills t (zero I) p q -> raInput t I q -> allocAll t I top best choose q = Colored m ->
  rsame t p (rename m q) /\ noVirt (rename m q).
Proof.
  intros RT F A B C S IN E.
  assert (T : stackTarget t) by (split; [exact (proj1 (rt_ld t I RT))|exact (proj1 (rt_st t I RT))]).
  pose proof (C39_allocation_partial W t I q top best choose RT IN A B C) as X. rewrite E in X. destruct X as [X1 X2].
  split; [|exact X2]. clear IN E X2. induction S as [p|p q u k fb H1 H2 H3 S IH|p q u c z fb H1 H2 H3 H4 H5 S IH|p q u k fb H1 H2 H3 H4 S IH].
  - exact X1.
  - intros n s. rewrite (C40_spill_to_slot_partial W t (zero I) u fb p k T H1 H2 H3 n s). now apply IH.
  - intros n s. rewrite (C40_spill_constant W t (zero I) u fb p c z T F H1 H2 H3 H4 H5 n s). now apply IH.
  - intros n s. rewrite (C40_spill_argument_partial W t (zero I) u fb p k T H1 H2 H3 H4 n s). now apply IH.
Qed.

(* ================================================================== *)
(** * Witnesses *)
Definition exI2 : rinfo := {|
  ncls := 1; al := fun c => match c with 0 => [10; 8] | _ => [] end; vcls := fun _ => 0;
  pcls := fun n => match n with 10 | 8 => 0 | _ => 1 end; zero := fun n => Nat.eqb n 0;
  callerSaved := fun n => Nat.eqb n 10; usage := fun _ _ => None |}.
Definition spP1 : mfunc := spillBy exT (zero exI2) 1 false (FSlot 0) exP.
Definition spP2 : mfunc := spillBy exT (zero exI2) 0 false (FSlot 1) spP1.
(** the reload is before the use, the stores after the definitions *)
Example C40_witness_code : nth 1 spP1 [] =
  [ mk 1 [P 10; V 0]; mk 8 [OLbl 0]; mk 2 [V 2; P 10]; mk 3 [V 1; OStk 0]; mk 5 [V 3; V 1; V 2]; mk 0 [V 0; V 2];
    mk 0 [V 1; V 3]; mk 4 [V 1; OStk 0]; mk 6 [V 0; OLbl 1] ].
Proof. vm_compute. reflexivity. Qed.

Lemma deadAtEntry p v : liveInput exT p ->
  match calcLiveIntervals exT p with Some li => nmem v (liIns li 0) | None => true end = false -> ~ liveAt exT p 0 0 v.
Proof.
  intros L H X. destruct (C38_liveness_terminates _ exT p) as [li E]. rewrite E in H.
  apply (proj1 (C38_liveness_exact_partial _ exT p li L E)) in X. apply nmem_nIn in H. contradiction.
Qed.
Ltac each H := repeat (destruct H as [<-|H]); [..|destruct H].
Ltac liveIn := split; intros blk Hb; unfold exP in Hb; each Hb; try reflexivity; (split; [discriminate|]);
  intros i Hi; each Hi; cbn; repeat constructor; intros [].
Definition spP1' : mfunc := Eval vm_compute in spP1.
Definition spP2' : mfunc := Eval vm_compute in spP2.
Lemma spP1_eq : spP1 = spP1'. Proof. vm_compute. reflexivity. Qed.
Lemma spP2_eq : spP2 = spP2'. Proof. vm_compute. reflexivity. Qed.
Lemma live1 : liveInput exT spP1'.
Proof.
  split; intros blk Hb; unfold spP1' in Hb; each Hb; try reflexivity; (split; [discriminate|]);
    intros i Hi; each Hi; cbn; repeat constructor; intros [].
Qed.
Lemma live2 : liveInput exT spP2'.
Proof.
  split; intros blk Hb; unfold spP2' in Hb; each Hb; try reflexivity; (split; [discriminate|]);
    intros i Hi; each Hi; cbn; repeat constructor; intros [].
Qed.
Example C40_witness_spills : spills exT (zero exI2) exP spP2.
Proof.
  apply (sp_slot _ _ _ _ 1 0 false).
  - intros blk i x Hb Hi. unfold exP in Hb. each Hb; each Hi; split; discriminate.
  - apply deadAtEntry; [exact C38_witness|vm_compute; reflexivity].
  - intros blk Hb. unfold exP in Hb. each Hb; (split; [discriminate|vm_compute; reflexivity]).
  - apply (sp_slot _ _ _ _ 0 1 false); fold spP1; rewrite ?spP1_eq.
    + intros blk i x Hb Hi. unfold spP1' in Hb. each Hb; each Hi; split; discriminate.
    + apply deadAtEntry; [exact live1|vm_compute; reflexivity].
    + intros blk Hb. unfold spP1' in Hb. each Hb; (split; [discriminate|vm_compute; reflexivity]).
    + unfold spP2. rewrite spP1_eq. apply sp_refl.
Qed.
Example C40_witness_input : raInput exT exI2 spP2.
Proof.
  rewrite spP2_eq. split.
  - intros blk Hb. unfold spP2' in Hb. each Hb; discriminate.
  - intros blk i Hb Hi. unfold spP2' in Hb. each Hb; each Hi; cbn; repeat constructor; intros [].
  - apply live2.
  - intros blk i Hb Hi. unfold spP2' in Hb. each Hb; each Hi; (split; [cbn; lia|]); cbn; intros v X; intuition discriminate.
  - intros v _. cbn. lia.
  - intros blk i a b Hb Hi. unfold spP2' in Hb. each Hb; each Hi; cbn [opc]; intros E Eo N; try discriminate.
    all: injection Eo as <- <-; reflexivity.
  - split.
    + intros v H. destruct (C38_liveness_terminates _ exT spP2') as [li E].
      apply (proj1 (C38_liveness_exact_partial _ exT spP2' li live2 E)) in H.
      assert (Y : match calcLiveIntervals exT spP2' with Some l => liIns l 0 | None => [0] end = []) by (vm_compute; reflexivity).
      rewrite E in Y. rewrite Y in H. destruct H.
    + intros [|[|[|b]]]; cbn; try (intros [H|H]; [discriminate|]; try destruct H as [H|H]; try discriminate; destruct H).
      * intros [].
      * unfold succs. destruct (nth_error spP2' (S (S (S b)))) eqn:E; [|intros []]. destruct b; discriminate.
  - apply inP. intros b Hb. destruct b as [|[|[|b]]]; [reflexivity|reflexivity|reflexivity|cbn in Hb; lia].
Qed.
(** with two registers the loop cannot be coloured at first; it can after two registers were spilled *)
Example C40_witness_result :
  allocAll exT exI2 hd1 (fun _ => hd1 0) (fun _ => hd1 0) exP = Spill /\
  exists m, allocAll exT exI2 hd1 (fun _ => hd1 0) (fun _ => hd1 0) spP2 = Colored m /\
    nth 0 (rename m spP2) [] = [ mk 2 [P 10; P 10]; mk 4 [P 10; OStk 1]; mk 10 [P 8; OImm 0]; mk 4 [P 8; OStk 0]; mk 7 [OLbl 1] ].
Proof.
  split; [vm_compute; reflexivity|].
  assert (X : match allocAll exT exI2 hd1 (fun _ => hd1 0) (fun _ => hd1 0) spP2 with Colored m =>
    nth 0 (rename m spP2) [] | _ => [] end =
    [ mk 2 [P 10; P 10]; mk 4 [P 10; OStk 1]; mk 10 [P 8; OImm 0]; mk 4 [P 8; OStk 0]; mk 7 [OLbl 1] ]) by (vm_compute; reflexivity).
  destruct (allocAll exT exI2 hd1 (fun _ => hd1 0) (fun _ => hd1 0) spP2) as [|m|]; try discriminate X. eauto.
Qed.

(** a constant used in two blocks *)
Definition coP : mfunc :=
  [ [ mk 10 [V 0; OImm 5]; mk 12 [V 0]; mk 7 [OLbl 1] ]; [ mk 5 [V 1; V 0; V 0]; mk 12 [V 1]; mk 9 [] ] ].
Example C40_witness_constant :
  constOf exT 0 coP = Some (mk 10 [V 0; OImm 5]) /\
  spillBy exT (zero exI2) 0 false (FConst (mk 10 [V 0; OImm 5])) coP =
    [ [ mk 10 [V 0; OImm 5]; mk 12 [V 0]; mk 7 [OLbl 1] ];
      [ mk 10 [V 0; OImm 5]; mk 5 [V 1; V 0; V 0]; mk 12 [V 1]; mk 9 [] ] ] /\
  rsame exT coP (spillBy exT (zero exI2) 0 false (FConst (mk 10 [V 0; OImm 5])) coP).
Proof.
  split; [reflexivity|]. split; [vm_compute; reflexivity|].
  apply (C40_spill_constant _ exT (zero exI2) 0 false coP _ 5%Z).
  - split; reflexivity.
  - intros o H. cbn in H. apply Nat.eqb_eq in H. subst o. exists [FMeta]. split; [reflexivity|]. intros [X|[]]; discriminate.
  - reflexivity.
  - intros s. split; [|split; reflexivity]. intros [n|n]; reflexivity.
  - intros f i. unfold hasPhys. generalize (ofl exT (opc i)). intros [|a [|b l]]; cbn; try reflexivity. now destruct l.
  - apply deadAtEntry; [|vm_compute; reflexivity].
    split; intros blk Hb; unfold coP in Hb; each Hb; try reflexivity; (split; [discriminate|]);
      intros i Hi; each Hi; cbn; repeat constructor; intros [].
  - intros blk Hb. unfold coP in Hb. each Hb; (split; [discriminate|vm_compute; reflexivity]).
Qed.

(* ================================================================== *)
(** * What goes wrong *)
(** An argument that arrived on the stack and is given another value: every definition of it is erased. *)
Definition argP : mfunc :=
  [ [ mk 3 [V 0; OStk 7]; mk 12 [V 0]; mk 10 [V 1; OImm 1]; mk 0 [V 0; V 1]; mk 12 [V 0]; mk 9 [] ] ].
Theorem C40_spill_argument_refuted :
  fetchOf exT 0 (Nat.eqb 7) argP 9 = FArg 7 /\ liveInput exT argP /\ ~ liveAt exT argP 0 0 0 /\
  roomFor exT (zero exI2) 0 true argP /\
  ~ rsame exT argP (spillBy exT (zero exI2) 0 false (fetchOf exT 0 (Nat.eqb 7) argP 9) argP).
Proof.
  assert (L : liveInput exT argP).
  { split; intros blk Hb; unfold argP in Hb; each Hb; try reflexivity; (split; [discriminate|]);
      intros i Hi; each Hi; cbn; repeat constructor; intros []. }
  split; [reflexivity|]. split; [exact L|]. split; [apply deadAtEntry; [exact L|vm_compute; reflexivity]|]. split.
  - intros blk Hb. unfold argP in Hb. each Hb. split; [discriminate|vm_compute; reflexivity].
  - intros H. specialize (H 1 (RSt (fun _ => 0%Z) (fun _ => 0%Z) [])). vm_compute in H. discriminate.
Qed.
(** A register defined right before an instruction that uses it together with a physical register: the store is put
    behind that instruction, the reload before it, and the reload reads what the slot held before. *)
Definition behP : mfunc :=
  [ [ mk 2 [V 0; P 10]; mk 1 [P 11; V 0]; mk 5 [V 1; V 0; V 0]; mk 5 [V 2; V 1; P 11]; mk 12 [V 2]; mk 9 [] ] ].
Theorem C40_store_placement_refuted :
  liveInput exT behP /\ ~ liveAt exT behP 0 0 1 /\ freshSlot 0 behP /\
  ~ rsame exT behP (spillBy exT (zero exI2) 1 false (FSlot 0) behP).
Proof.
  assert (L : liveInput exT behP).
  { split; intros blk Hb; unfold behP in Hb; each Hb; try reflexivity; (split; [discriminate|]);
      intros i Hi; each Hi; cbn; repeat constructor; intros []. }
  split; [exact L|]. split; [apply deadAtEntry; [exact L|vm_compute; reflexivity]|]. split.
  - intros blk i x Hb Hi. unfold behP in Hb. each Hb. each Hi; split; discriminate.
  - intros H. specialize (H 1 (RSt (fun _ => 1%Z) (fun _ => 7%Z) [])). vm_compute in H. discriminate.
Qed.
