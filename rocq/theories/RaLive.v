(** Liveness and live intervals of virtual registers: cmmc/CodeGen/LiveInterval.cpp:27-265. *)
From Coq Require Import ZArith Lia Bool List Arith.
From Verif Require Import GMir RaMir.
Import ListNotations.

Definition nmem (v : nat) (l : list nat) : bool := existsb (Nat.eqb v) l.
Lemma nmem_In v l : nmem v l = true <-> In v l.
Proof.
  unfold nmem. rewrite existsb_exists. split.
  - intros (x & H & E). apply Nat.eqb_eq in E. now subst.
  - intros H. exists v. split; [exact H|apply Nat.eqb_refl].
Qed.
Lemma nmem_nIn v l : nmem v l = false <-> ~ In v l.
Proof.
  destruct (nmem v l) eqn:E.
  - apply nmem_In in E. split; [discriminate|tauto].
  - split; [|auto]. intros _ H. apply nmem_In in H. congruence.
Qed.
Definition nadd (v : nat) (l : list nat) : list nat := if nmem v l then l else v :: l.
Lemma in_nadd x v l : In x (nadd v l) <-> x = v \/ In x l.
Proof.
  unfold nadd. destruct (nmem v l) eqn:E; cbn; [|intuition congruence].
  apply nmem_In in E. intuition congruence.
Qed.
Definition seteqb (a b : list nat) : bool := forallb (fun x => nmem x b) a && forallb (fun x => nmem x a) b.
Lemma seteqb_ok a b : seteqb a b = true <-> (forall x, In x a <-> In x b).
Proof.
  unfold seteqb. rewrite andb_true_iff, !forallb_forall. split.
  - intros [H1 H2] x. split; intros H; apply nmem_In; auto.
  - intros H. split; intros x Hx; apply nmem_In, H; exact Hx.
Qed.
Definition fupdN {A} (f : nat -> A) (k : nat) (x : A) : nat -> A := fun j => if Nat.eqb j k then x else f j.
Lemma fupdN_same {A} (f : nat -> A) k x : fupdN f k x k = x.
Proof. unfold fupdN. now rewrite Nat.eqb_refl. Qed.
Lemma fupdN_ne {A} (f : nat -> A) k x j : j <> k -> fupdN f k x j = f j.
Proof. unfold fupdN. destruct (Nat.eqb_spec j k); congruence. Qed.

Notation seg := (nat * nat)%type.

Section Live.
Context {W : Type}.
Variable t : mach W.

(* ------------------------------------------------------------------ *)
(** * Stage 1: uses and definitions of a block (LiveInterval.cpp:41-61) *)
Definition collectOp (a : list nat * list nat) (x : opflag * operand) : list nat * list nat :=
  match x with
  | (FDef, OReg (Virt v)) => (fst a, nadd v (snd a))
  | (FUse, OReg (Virt v)) => if nmem v (snd a) then a else (nadd v (fst a), snd a)
  | _ => a
  end.
Definition collect (blk : list inst) : list nat * list nat :=
  fold_left (fun a i => fold_left collectOp (fops t i) a) blk ([], []).

(* ------------------------------------------------------------------ *)
(** * Stage 2: the data flow equations by iteration (LiveInterval.cpp:62-106) *)
Definition flowMap := nat -> list nat.
Definition blkAt (p : mfunc) (b : nat) : list inst := nth b p [].
Definition outsFrom (p : mfunc) (ins : flowMap) (b : nat) : list nat :=
  nodup Nat.eq_dec (flat_map ins (succs t p b)).
Definition insFrom (p : mfunc) (outs : list nat) (b : nat) : list nat :=
  let '(us, ds) := collect (blkAt p b) in
  nodup Nat.eq_dec (us ++ filter (fun v => negb (nmem v ds)) outs).
Definition sweepB (p : mfunc) (a : flowMap * flowMap * bool) (b : nat) : flowMap * flowMap * bool :=
  let '(ins, outs, m) := a in
  let o := outsFrom p ins b in
  let i := insFrom p o b in
  if seteqb i (ins b) then (ins, fupdN outs b o, m) else (fupdN ins b i, fupdN outs b o, true).
Definition sweep (p : mfunc) (ins outs : flowMap) : flowMap * flowMap * bool :=
  fold_left (sweepB p) (seq 0 (length p)) (ins, outs, false).
Fixpoint flow (p : mfunc) (fuel : nat) (ins outs : flowMap) : option (flowMap * flowMap) :=
  match fuel with
  | O => None
  | S k => let '(ins', outs', m) := sweep p ins outs in if m then flow p k ins' outs' else Some (ins', outs')
  end.
Definition allUses (p : mfunc) : list nat := nodup Nat.eq_dec (flat_map (fun blk => fst (collect blk)) p).
Definition flowFuel (p : mfunc) : nat := S (length p * length (allUses p)).
Definition solve (p : mfunc) : option (flowMap * flowMap) := flow p (flowFuel p) (fun _ => []) (fun _ => []).

(* ------------------------------------------------------------------ *)
(** * Stage 3: segments and dead flags (LiveInterval.cpp:27-36, 108-193) *)
(** what the scan keeps for each virtual register: its current segment, the instruction of its last use, its interval
    so far, and the instructions whose Use operands of it got the dead flag *)
Record sst := SSt { cur : nat -> option seg; lst : nat -> option nat; iv : nat -> list seg; dead : nat -> list nat }.

(** assignInstNum: instruction number 4 per instruction in layout order (LiveInterval.hpp:29, .cpp:27-36);
    [k] is the instruction's position *)
Definition numOf (k : nat) : nat := 4 * k.

(** LiveInterval.cpp:130-145 *)
Definition useOp (first k : nat) (s : sst) (v : nat) : sst :=
  SSt (fupdN (cur s) v (Some (match cur s v with Some (b, _) => (b, numOf k + 1) | None => (first, numOf k + 1) end)))
      (fupdN (lst s) v (Some k)) (iv s) (dead s).
(** LiveInterval.cpp:154-176 *)
Definition defOp (k : nat) (s : sst) (v : nat) : sst :=
  match cur s v with
  | Some (b, e) =>
      if Nat.eqb e (numOf k + 1) then SSt (fupdN (cur s) v (Some (b, numOf k + 2))) (lst s) (iv s) (dead s)
      else SSt (fupdN (cur s) v (Some (numOf k + 1, numOf k + 2))) (fupdN (lst s) v None)
               (fupdN (iv s) v (iv s v ++ [(b, e)]))
               (match lst s v with Some j => fupdN (dead s) v (j :: dead s v) | None => dead s end)
  | None => SSt (fupdN (cur s) v (Some (numOf k + 1, numOf k + 2))) (lst s) (iv s) (dead s)
  end.
Definition scanInst (first k : nat) (s : sst) (i : inst) : sst :=
  fold_left (defOp k) (vdefs t i) (fold_left (useOp first k) (vuses t i) s).
Fixpoint scanBlk (first k : nat) (s : sst) (blk : list inst) : sst :=
  match blk with [] => s | i :: r => scanBlk first (S k) (scanInst first k s i) r end.
(** the end of a block (LiveInterval.cpp:179-193): the loops over the segments, over the last uses and over the
    registers live through, done for each register; [stop] is lastInstNum + 2 *)
Definition finishBlk (first stop : nat) (ins outs : list nat) (s : sst) : sst :=
  SSt (fun _ => None) (fun _ => None)
      (fun v => iv s v ++
         match cur s v with
         | Some (b, e) => [(b, if nmem v outs then stop else e)]
         | None => if nmem v outs && nmem v ins then [(first, stop)] else []
         end)
      (fun v => match lst s v with Some j => if nmem v outs then dead s v else j :: dead s v | None => dead s v end).
(** firstInstNum and lastInstNum stay 0 in an empty block *)
Definition blkFirst (k : nat) (blk : list inst) : nat := match blk with [] => 0 | _ => numOf k end.
Definition blkStop (k : nat) (blk : list inst) : nat := match blk with [] => 2 | _ => numOf (k + length blk - 1) + 2 end.
Definition blkScan (ins outs : flowMap) (b k : nat) (s : sst) (blk : list inst) : sst :=
  finishBlk (blkFirst k blk) (blkStop k blk) (ins b) (outs b) (scanBlk (blkFirst k blk) k s blk).
Fixpoint scanAll (ins outs : flowMap) (b k : nat) (s : sst) (p : mfunc) : sst :=
  match p with
  | [] => s
  | blk :: r => scanAll ins outs (S b) (k + length blk) (blkScan ins outs b k s blk) r
  end.
Definition sst0 : sst := SSt (fun _ => None) (fun _ => None) (fun _ => []) (fun _ => []).

(** LiveInterval::optimize (LiveInterval.cpp:209-223): the kept segments [acc] end with the current one [c] *)
Fixpoint optLoop (acc : list seg) (c : seg) (l : list seg) : list seg :=
  match l with
  | [] => acc ++ [c]
  | x :: r => if Nat.ltb (snd c) (fst x) then optLoop (acc ++ [c]) x r
              else optLoop acc (fst c, Nat.max (snd c) (snd x)) r
  end.
Definition optimize (l : list seg) : list seg := match l with [] => [] | c :: r => optLoop [] c r end.
(** LiveInterval::verify (224-234) *)
Fixpoint verifyLoop (val : nat) (l : list seg) : bool :=
  match l with
  | [] => true
  | (b, e) :: r => if Nat.leb e b then false else if Nat.leb e val then false else verifyLoop e r
  end.
Definition verifyIv (l : list seg) : bool := verifyLoop 0 l.
(** LiveInterval::intersectWith (243-258) *)
Fixpoint skipTo (beg : nat) (l : list seg) : list seg :=
  match l with [] => [] | (b, e) :: r => if Nat.leb e beg then skipTo beg r else l end.
Fixpoint intersectWith (l r : list seg) : bool :=
  match l with
  | [] => false
  | (b, e) :: l' =>
      match skipTo b r with
      | [] => false
      | ((b2, e2) :: _) as r' => if Nat.ltb b2 e then true else intersectWith l' r'
      end
  end.

(** calcLiveIntervals (38-202): the intervals, the registers live into and out of each block, the dead flags *)
Record liveInfo := LI { liIv : nat -> list seg; liIns : flowMap; liOuts : flowMap; liDead : nat -> list nat }.
Definition calcLiveIntervals (p : mfunc) : option liveInfo :=
  match solve p with
  | None => None
  | Some (ins, outs) =>
      let s := scanAll ins outs 0 0 sst0 p in
      Some (LI (fun v => optimize (iv s v)) ins outs (dead s))
  end.

(* ------------------------------------------------------------------ *)
(** * Facts about stage 1 *)
(** live at the start of a list of instructions, given whether it is live after it *)
Fixpoint sufLive (blk : list inst) (out : Prop) (v : nat) : Prop :=
  match blk with
  | [] => out
  | i :: r => In v (vuses t i) \/ (~ In v (vdefs t i) /\ sufLive r out v)
  end.
Lemma sufLive_mono blk (P Q : Prop) v : (P -> Q) -> sufLive blk P v -> sufLive blk Q v.
Proof. induction blk as [|i r IH]; cbn; tauto. Qed.
Lemma sufLive_out blk (P : Prop) v :
  sufLive blk P v <-> sufLive blk False v \/ (P /\ forall i, In i blk -> ~ In v (vdefs t i)).
Proof.
  induction blk as [|i r IH]; cbn.
  - intuition.
  - rewrite IH. split.
    + intros [H|[H1 [H2|[H2 H3]]]]; auto. right. split; auto. intros x [<-|Hx]; auto.
    + intros [[H|[H1 H2]]|[H1 H2]]; auto. right. split; [apply H2; now left|]. right. split; auto.
Qed.
Lemma sufLive_skip p b blk v (E : nth_error p b = Some blk) :
  forall j, j <= length blk ->
  (liveAt t p b j v <-> sufLive (skipn j blk) (exists s, In s (succs t p b) /\ liveAt t p s 0 v) v).
Proof.
  intros j L. remember (length blk - j) as m eqn:Em. revert j L Em.
  induction m as [|m IH]; intros j L Em.
  - assert (j = length blk) as -> by lia. rewrite skipn_all. cbn. split.
    + intros H. inversion H as [? blk1 ? i ? E1 E2 E3|? blk1 ? i ? E1 E2 E3 E4|? blk1 s ? E1 E2 E3]; subst;
        rewrite E1 in E; injection E as ->.
      * assert (X := proj2 (nth_error_None blk (length blk)) ltac:(lia)). congruence.
      * assert (X := proj2 (nth_error_None blk (length blk)) ltac:(lia)). congruence.
      * exists s. auto.
    + intros (s & H1 & H2). eapply live_edge; eauto.
  - destruct (nth_error blk j) as [i|] eqn:Ej; [|apply nth_error_None in Ej; lia].
    assert (Es : skipn j blk = i :: skipn (S j) blk).
    { clear -Ej. revert j Ej. induction blk as [|x r IHb]; intros [|j] Ej; cbn in *; try discriminate.
      - injection Ej as ->. reflexivity.
      - now apply IHb. }
    rewrite Es. cbn [sufLive]. rewrite <- (IH (S j)) by (try lia). split.
    + intros H. inversion H as [? blk1 ? i1 ? E1 E2 E3|? blk1 ? i1 ? E1 E2 E3 E4|? blk1 s ? E1 E2 E3]; subst;
        rewrite E1 in E; injection E as ->.
      * rewrite E2 in Ej. injection Ej as ->. now left.
      * rewrite E2 in Ej. injection Ej as ->. right. auto.
      * lia.
    + intros [H|[H1 H2]]; [eapply live_use|eapply live_pass]; eauto.
Qed.

(** every vreg an instruction both defines and uses has been mentioned earlier in the block; the code's operand loop
    needs it because it visits definitions (first operands) before uses *)
Fixpoint tieOk (seen : list nat) (blk : list inst) : bool :=
  match blk with
  | [] => true
  | i :: r => forallb (fun v => negb (nmem v (vdefs t i)) || nmem v seen) (vuses t i) &&
              tieOk (vuses t i ++ vdefs t i ++ seen) r
  end.

Definition opUses (l : list (opflag * operand)) : list nat :=
  flat_map virtOf (flat_map (fun x => match x with (FUse, OReg r) => [r] | _ => [] end) l).
Definition opDefs (l : list (opflag * operand)) : list nat :=
  flat_map virtOf (flat_map (fun x => match x with (FDef, OReg r) => [r] | _ => [] end) l).
Lemma collectOps_snd l : forall a v, In v (snd (fold_left collectOp l a)) <-> In v (snd a) \/ In v (opDefs l).
Proof.
  induction l as [|[f o] l IH]; intros a v; cbn [fold_left].
  - cbn. tauto.
  - rewrite IH. unfold opDefs. cbn [flat_map].
    destruct f, o as [[n|n]|z|k|k]; cbn [collectOp app flat_map virtOf]; try tauto.
    + cbn [snd]. rewrite in_nadd. cbn [In]. fold (opDefs l). intuition congruence.
    + destruct (nmem n (snd a)); cbn [snd]; tauto.
Qed.
Lemma collectOps_fst l : forall a v,
  (In v (fst (fold_left collectOp l a)) -> In v (fst a) \/ (In v (opUses l) /\ ~ In v (snd a))) /\
  (In v (fst a) -> In v (fst (fold_left collectOp l a))) /\
  (In v (opUses l) -> ~ In v (snd a) -> ~ In v (opDefs l) -> In v (fst (fold_left collectOp l a))).
Proof.
  induction l as [|[f o] l IH]; intros a v; cbn [fold_left].
  - cbn. tauto.
  - destruct (IH (collectOp a (f, o)) v) as (H1 & H2 & H3).
    unfold opUses, opDefs in *. cbn [flat_map].
    destruct f, o as [[n|n]|z|k|k]; cbn [collectOp app flat_map virtOf] in *; try (split; [|split]; tauto).
    + split; [|split].
      * intros H. apply H1 in H. cbn [fst snd] in *. rewrite in_nadd in H. tauto.
      * exact H2.
      * intros A B C. cbn [fst snd] in *. rewrite in_nadd in H3. cbn [In] in C.
        apply H3; [exact A| |tauto]. intros [->|D]; [apply C; now left|tauto].
    + destruct (nmem n (snd a)) eqn:En.
      * apply nmem_In in En. cbn [In]. split; [|split]; try tauto.
        intros [<-|A] B C; [tauto|]. apply H3; tauto.
      * apply nmem_nIn in En. cbn [fst snd In] in *. rewrite in_nadd in *. split; [|split].
        -- intros H. apply H1 in H as [[->|H]|H]; auto. tauto.
        -- tauto.
        -- intros [<-|A] B C; [tauto|]. apply H3; tauto.
Qed.

Definition collectFrom (blk : list inst) (a : list nat * list nat) :=
  fold_left (fun a i => fold_left collectOp (fops t i) a) blk a.
Lemma collectFrom_snd blk : forall a v,
  In v (snd (collectFrom blk a)) <-> In v (snd a) \/ exists i, In i blk /\ In v (vdefs t i).
Proof.
  unfold collectFrom. induction blk as [|i r IH]; intros a v; cbn [fold_left].
  - split; [auto|]. intros [H|(i & [] & _)]. exact H.
  - rewrite IH, collectOps_snd. change (opDefs (fops t i)) with (vdefs t i). split.
    + intros [[H|H]|(x & H1 & H2)]; auto.
      * right. exists i. split; [now left|exact H].
      * right. exists x. split; [now right|exact H2].
    + intros [H|(x & [<-|H1] & H2)]; eauto.
Qed.
Lemma collectFrom_fst blk : forall a v seen,
  (In v (fst (collectFrom blk a)) -> In v (fst a) \/ (~ In v (snd a) /\ sufLive blk False v)) /\
  (In v (fst a) -> In v (fst (collectFrom blk a))) /\
  (tieOk seen blk = true -> (forall x, In x seen -> In x (fst a) \/ In x (snd a)) ->
   ~ In v (snd a) -> sufLive blk False v -> In v (fst (collectFrom blk a))).
Proof.
  unfold collectFrom. induction blk as [|i r IH]; intros a v seen; cbn [fold_left].
  - cbn. tauto.
  - destruct (collectOps_fst (fops t i) a v) as (H1 & H2 & H3).
    change (opUses (fops t i)) with (vuses t i) in *. change (opDefs (fops t i)) with (vdefs t i) in *.
    destruct (IH (fold_left collectOp (fops t i) a) v (vuses t i ++ vdefs t i ++ seen)) as (I1 & I2 & I3).
    rewrite collectOps_snd in I1, I3. change (opDefs (fops t i)) with (vdefs t i) in *. cbn [sufLive tieOk].
    split; [|split].
    + intros H. apply I1 in H as [H|[H H0]].
      * apply H1 in H as [H|[H H0]]; auto.
      * right. tauto.
    + auto.
    + intros T S N L. apply andb_true_iff in T as [T1 T2].
      destruct L as [L|[L1 L2]].
      * apply I2. destruct (in_dec Nat.eq_dec v (vdefs t i)) as [D|D]; [|apply H3; auto].
        rewrite forallb_forall in T1. specialize (T1 v L). apply orb_true_iff in T1 as [T1|T1].
        -- apply negb_true_iff in T1. apply nmem_nIn in T1. tauto.
        -- apply nmem_In, S in T1 as [T1|T1]; [auto|tauto].
      * apply I3; auto.
        -- intros x Hx. apply in_app_or in Hx as [Hx|Hx]; [|apply in_app_or in Hx as [Hx|Hx]].
           ++ rewrite collectOps_snd. destruct (collectOps_fst (fops t i) a x) as (_ & K2 & K3).
              change (opUses (fops t i)) with (vuses t i) in *. change (opDefs (fops t i)) with (vdefs t i) in *.
              destruct (in_dec Nat.eq_dec x (snd a)) as [X|X]; [auto|].
              destruct (in_dec Nat.eq_dec x (vdefs t i)) as [X1|X1]; [auto|]. left. auto.
           ++ rewrite collectOps_snd. change (opDefs (fops t i)) with (vdefs t i). auto.
           ++ rewrite collectOps_snd. destruct (collectOps_fst (fops t i) a x) as (_ & K2 & _).
              destruct (S x Hx); auto.
        -- intros [X|X]; tauto.
Qed.
Lemma collect_defs blk v : In v (snd (collect blk)) <-> exists i, In i blk /\ In v (vdefs t i).
Proof. unfold collect. fold (collectFrom blk ([], [])). rewrite collectFrom_snd. cbn. tauto. Qed.
Lemma collect_uses_sound blk v : In v (fst (collect blk)) -> sufLive blk False v.
Proof.
  intros H. destruct (collectFrom_fst blk ([], []) v []) as (H1 & _). apply H1 in H. cbn in H. tauto.
Qed.
Lemma collect_uses blk v : tieOk [] blk = true -> In v (fst (collect blk)) <-> sufLive blk False v.
Proof.
  intros T. split; [apply collect_uses_sound|]. intros L.
  destruct (collectFrom_fst blk ([], []) v []) as (_ & _ & H). apply H; auto.
Qed.

(* ------------------------------------------------------------------ *)
(** * Facts about stage 2 *)
Lemma insFrom_In p o b v :
  In v (insFrom p o b) <-> In v (fst (collect (blkAt p b))) \/ (In v o /\ ~ In v (snd (collect (blkAt p b)))).
Proof.
  unfold insFrom. destruct (collect (blkAt p b)) as [us ds]. rewrite nodup_In, in_app_iff, filter_In. cbn.
  rewrite negb_true_iff, nmem_nIn. tauto.
Qed.
Lemma outsFrom_In p ins b v : In v (outsFrom p ins b) <-> exists s, In s (succs t p b) /\ In v (ins s).
Proof. unfold outsFrom. rewrite nodup_In, in_flat_map. tauto. Qed.
Lemma insFrom_NoDup p o b : NoDup (insFrom p o b).
Proof. unfold insFrom. destruct (collect (blkAt p b)). apply NoDup_nodup. Qed.

Section Flow.
Variable p : mfunc.
Definition Fv (ins : flowMap) (b v : nat) : Prop := In v (insFrom p (outsFrom p ins b) b).
Lemma Fv_mono ins ins' b v : (forall b v, In v (ins b) -> In v (ins' b)) -> Fv ins b v -> Fv ins' b v.
Proof.
  unfold Fv. rewrite !insFrom_In, !outsFrom_In. intros H [X|[(s & X1 & X2) X3]]; [auto|].
  right. split; [|exact X3]. exists s. auto.
Qed.
Definition flowInv (ins : flowMap) : Prop :=
  (forall b v, In v (ins b) -> Fv ins b v) /\
  (forall b, NoDup (ins b) /\ incl (ins b) (allUses p)) /\
  (forall b v, In v (ins b) -> b < length p /\ liveAt t p b 0 v).
Fixpoint total (ins : flowMap) (n : nat) : nat :=
  match n with O => 0 | S k => total ins k + length (ins k) end.

Lemma Fv_live ins b v : b < length p -> (forall b v, In v (ins b) -> liveAt t p b 0 v) -> Fv ins b v ->
  liveAt t p b 0 v.
Proof.
  intros L H F. unfold Fv in F. rewrite insFrom_In, outsFrom_In in F.
  destruct (nth_error p b) as [blk|] eqn:E; [|apply nth_error_None in E; lia].
  assert (Eb : blkAt p b = blk) by (unfold blkAt; now apply nth_error_nth).
  rewrite Eb in F. apply (sufLive_skip p b blk v E 0 ltac:(lia)). cbn [skipn].
  destruct F as [F|[(s & F1 & F2) F3]].
  - eapply sufLive_mono; [|apply collect_uses_sound, F]. tauto.
  - apply sufLive_out. right. split; [eauto|]. intros i Hi Hd. apply F3, collect_defs. eauto.
Qed.
Lemma Fv_uses ins b v : (forall b, incl (ins b) (allUses p)) -> b < length p -> Fv ins b v -> In v (allUses p).
Proof.
  unfold Fv. rewrite insFrom_In, outsFrom_In. intros H L [F|[(s & F1 & F2) F3]]; [|exact (H s v F2)].
  unfold allUses. apply nodup_In, in_flat_map. exists (blkAt p b). split; [|exact F].
  unfold blkAt. now apply nth_In.
Qed.

Lemma total_ext ins ins' n : (forall b, b < n -> length (ins b) = length (ins' b)) -> total ins n = total ins' n.
Proof. induction n as [|n IH]; cbn; intros H; [reflexivity|]. rewrite IH, H; auto. Qed.
Lemma total_upd ins b x n : b < n -> total (fupdN ins b x) n + length (ins b) = total ins n + length x.
Proof.
  induction n as [|n IH]; intros H; [lia|]. cbn. destruct (Nat.eq_dec b n) as [->|N].
  - rewrite fupdN_same. rewrite (total_ext (fupdN ins n x) ins n); [lia|].
    intros b Hb. rewrite fupdN_ne by lia. reflexivity.
  - rewrite (fupdN_ne ins b x n) by lia. specialize (IH ltac:(lia)). lia.
Qed.
Lemma total_le ins n : (forall b, NoDup (ins b) /\ incl (ins b) (allUses p)) -> total ins n <= n * length (allUses p).
Proof.
  intros H. induction n as [|n IH]; cbn; [lia|]. destruct (H n) as [H1 H2].
  pose proof (NoDup_incl_length H1 H2). lia.
Qed.

Lemma sweepB_ok ins outs m b : b < length p -> flowInv ins ->
  let '(ins', outs', m') := sweepB p (ins, outs, m) b in
  flowInv ins' /\ (forall x v, In v (ins x) -> In v (ins' x)) /\ total ins (length p) <= total ins' (length p) /\
  (m' = m /\ ins' = ins \/ m' = true /\ total ins (length p) < total ins' (length p)) /\
  outs' = fupdN outs b (outsFrom p ins b) /\
  (ins' = ins -> forall v, In v (ins b) <-> Fv ins b v).
Proof.
  intros L (I1 & I2 & I3). unfold sweepB.
  destruct (seteqb (insFrom p (outsFrom p ins b) b) (ins b)) eqn:E.
  - rewrite seteqb_ok in E.
    split; [split; [exact I1|split; [exact I2|exact I3]]|].
    split; [auto|split; [lia|split; [now left|split; [reflexivity|]]]].
    intros _ v. unfold Fv. symmetry. apply E.
  - set (i := insFrom p (outsFrom p ins b) b) in *.
    assert (Sub : forall v, In v (ins b) -> In v i) by (intros v H; exact (I1 b v H)).
    assert (Mono : forall x v, In v (ins x) -> In v (fupdN ins b i x)).
    { intros x v H. destruct (Nat.eq_dec x b) as [->|N]; [rewrite fupdN_same; auto|now rewrite fupdN_ne]. }
    assert (Len : length (ins b) < length i).
    { destruct (I2 b) as [N1 _].
      assert (X : exists v, In v i /\ ~ In v (ins b)).
      { destruct (existsb (fun v => negb (nmem v (ins b))) i) eqn:X.
        - apply existsb_exists in X as (v & X1 & X2). exists v. split; [exact X1|].
          now apply negb_true_iff, nmem_nIn in X2.
        - exfalso. assert (seteqb i (ins b) = true); [|congruence]. apply seteqb_ok. intros v. split; [|auto].
          intros Hv. destruct (nmem v (ins b)) eqn:Y; [now apply nmem_In|].
          assert (existsb (fun v => negb (nmem v (ins b))) i = true); [|congruence].
          apply existsb_exists. exists v. now rewrite Y. }
      destruct X as (v & X1 & X2).
      assert (NoDup (v :: ins b)) by (constructor; auto).
      assert (incl (v :: ins b) i) by (intros y [<-|Hy]; auto).
      pose proof (NoDup_incl_length H H0). cbn in H1. lia. }
    pose proof (total_upd ins b i (length p) L) as T.
    split; [|split; [exact Mono|split; [lia|split; [right; split; [reflexivity|lia]|split; [reflexivity|]]]]].
    + split; [|split].
      * intros x v H. apply (Fv_mono ins _ _ _ Mono).
        destruct (Nat.eq_dec x b) as [->|N]; [rewrite fupdN_same in H; exact H|].
        rewrite fupdN_ne in H by auto. now apply I1.
      * intros x. destruct (Nat.eq_dec x b) as [->|N]; [|rewrite fupdN_ne by auto; apply I2].
        rewrite fupdN_same. split; [apply insFrom_NoDup|].
        intros v H. apply (Fv_uses ins b v); auto. intros y. apply I2.
      * intros x v H. destruct (Nat.eq_dec x b) as [->|N]; [|rewrite fupdN_ne in H by auto; now apply I3].
        rewrite fupdN_same in H. split; [exact L|]. apply (Fv_live ins); auto. intros y w Hw. now apply I3.
    + intros Eq. exfalso. assert (X : fupdN ins b i b = ins b) by now rewrite Eq. rewrite fupdN_same in X.
      rewrite X in Len. lia.
Qed.

Lemma sweepL_ok l : forall ins outs m, (forall b, In b l -> b < length p) -> flowInv ins ->
  let '(ins', outs', m') := fold_left (sweepB p) l (ins, outs, m) in
  flowInv ins' /\ total ins (length p) <= total ins' (length p) /\
  (m' = m /\ ins' = ins \/ m' = true /\ total ins (length p) < total ins' (length p)) /\
  (total ins' (length p) = total ins (length p) ->
   (forall b, In b l -> outs' b = outsFrom p ins b /\ forall v, In v (ins b) <-> Fv ins b v) /\
   (forall b, ~ In b l -> outs' b = outs b)).
Proof.
  induction l as [|b l IH]; intros ins outs m Hl I; cbn [fold_left].
  - split; [exact I|split; [lia|split; [now left|]]]. intros _. split; [intros b []|reflexivity].
  - pose proof (sweepB_ok ins outs m b (Hl b (or_introl eq_refl)) I) as H.
    destruct (sweepB p (ins, outs, m) b) as [[ins1 outs1] m1].
    destruct H as (H1 & H2 & H3 & H4 & H5 & H6).
    specialize (IH ins1 outs1 m1 ltac:(intros; apply Hl; now right) H1).
    destruct (fold_left (sweepB p) l (ins1, outs1, m1)) as [[ins2 outs2] m2].
    destruct IH as (J1 & J2 & J3 & J4).
    split; [exact J1|split; [lia|split]].
    + destruct J3 as [[-> ->]|[-> J3]]; [|right; split; [reflexivity|lia]].
      destruct H4 as [[-> ->]|[-> H4]]; [now left|right; auto].
    + intros T. destruct H4 as [[_ H4]|[_ H4]]; [|lia]. subst ins1.
      specialize (J4 T) as [J4 J5]. split.
      * intros x Hx. destruct (in_dec Nat.eq_dec x l) as [Y|Y]; [now apply J4|].
        destruct Hx as [<-|Hx]; [|contradiction]. split; [|now apply H6].
        rewrite J5, H5 by exact Y. apply fupdN_same.
      * intros x Hx. rewrite J5 by (intro; apply Hx; now right). rewrite H5, fupdN_ne; [reflexivity|].
        intros ->. apply Hx. now left.
Qed.

(** the equations solved *)
Definition solution (ins outs : flowMap) : Prop :=
  flowInv ins /\
  forall b, b < length p -> outs b = outsFrom p ins b /\ forall v, In v (ins b) <-> Fv ins b v.

Lemma flow_ok fuel : forall ins outs, flowInv ins -> length p * length (allUses p) < fuel + total ins (length p) ->
  exists ins' outs', flow p fuel ins outs = Some (ins', outs') /\ solution ins' outs'.
Proof.
  induction fuel as [|fuel IH]; intros ins outs I L.
  - pose proof (total_le ins (length p) (proj1 (proj2 I))). lia.
  - cbn [flow]. unfold sweep.
    pose proof (sweepL_ok (seq 0 (length p)) ins outs false) as H.
    destruct (fold_left (sweepB p) (seq 0 (length p)) (ins, outs, false)) as [[ins1 outs1] m1].
    destruct H as (H1 & H2 & H3 & H4); [intros b Hb; apply in_seq in Hb; lia|exact I|].
    destruct H3 as [[-> ->]|[-> H3]].
    + exists ins, outs1. split; [reflexivity|]. split; [exact H1|].
      intros b Hb. destruct (H4 eq_refl) as [H5 _]. apply H5. apply in_seq. lia.
    + apply IH; [exact H1|lia].
Qed.
Lemma solve_ok : exists ins outs, solve p = Some (ins, outs) /\ solution ins outs.
Proof.
  apply flow_ok; [|unfold flowFuel; lia].
  split; [|split]; [intros b v []|intros b; split; [constructor|intros x []]|intros b v []].
Qed.

(** the solution is liveness *)
Section Sol.
Variables ins outs : flowMap.
Hypothesis S : solution ins outs.
Lemma ins_sound b v : In v (ins b) -> liveAt t p b 0 v.
Proof using S. intros H. now apply S. Qed.
Lemma outs_sound b v blk : nth_error p b = Some blk -> In v (outs b) -> liveAt t p b (length blk) v.
Proof using S.
  intros E H. assert (L : b < length p) by (apply nth_error_Some; congruence).
  rewrite (proj1 (proj2 S b L)) in H. apply outsFrom_In in H as (s & H1 & H2).
  eapply live_edge; eauto. now apply ins_sound.
Qed.
Hypothesis T : forall blk, In blk p -> tieOk [] blk = true.
Lemma live_complete b j v : liveAt t p b j v -> forall blk, nth_error p b = Some blk -> j <= length blk ->
  sufLive (skipn j blk) (In v (outs b)) v.
Proof using S T.
  intros H. induction H as [b blk0 j i v E1 E2 H|b blk0 j i v E1 E2 H H1 IH|b blk0 s v E1 H H1 IH];
    intros blk E L; rewrite E1 in E; injection E as ->.
  - assert (Es : exists r, skipn j blk = i :: r).
    { clear -E2. revert j E2. induction blk as [|x r IHb]; intros [|j] E2; cbn in *; try discriminate.
      - injection E2 as ->. eauto.
      - now apply IHb. }
    destruct Es as [r Es]. rewrite Es. cbn. now left.
  - assert (Es : skipn j blk = i :: skipn (1 + j) blk).
    { clear -E2. revert j E2. induction blk as [|x r IHb]; intros [|j] E2; cbn in *; try discriminate.
      - injection E2 as ->. reflexivity.
      - now apply IHb. }
    rewrite Es. cbn [sufLive]. right. split; [exact H|]. apply IH; [exact E1|].
    cbn. apply nth_error_Some. congruence.
  - rewrite skipn_all. cbn. assert (Lb : b < length p) by (apply nth_error_Some; congruence).
    rewrite (proj1 (proj2 S b Lb)). apply outsFrom_In. exists s. split; [exact H|].
    destruct (nth_error p s) as [sb|] eqn:Es.
    + assert (Ls : s < length p) by (apply nth_error_Some; congruence).
      apply (proj2 (proj2 S s Ls)). specialize (IH sb eq_refl (Nat.le_0_l _)). cbn [skipn] in IH.
      unfold Fv. rewrite insFrom_In, collect_defs.
      assert (Eb : blkAt p s = sb) by (unfold blkAt; now apply nth_error_nth).
      rewrite Eb, collect_uses by (apply T; now apply nth_error_In in Es).
      apply sufLive_out in IH as [IH|[IH1 IH2]]; [now left|right].
      rewrite (proj1 (proj2 S s Ls)) in IH1. split; [exact IH1|]. intros (i & X1 & X2). exact (IH2 i X1 X2).
    + exfalso. inversion H1; congruence.
Qed.
Lemma ins_exact b v : In v (ins b) <-> liveAt t p b 0 v.
Proof using S T.
  split; [apply ins_sound|]. intros H.
  destruct (nth_error p b) as [blk|] eqn:E; [|inversion H; congruence].
  assert (L : b < length p) by (apply nth_error_Some; congruence).
  pose proof (live_complete b 0 v H blk E (Nat.le_0_l _)) as X. cbn [skipn] in X.
  apply (proj2 (proj2 S b L)). unfold Fv. rewrite insFrom_In, collect_defs.
  assert (Eb : blkAt p b = blk) by (unfold blkAt; now apply nth_error_nth).
  rewrite Eb, collect_uses by (apply T; now apply nth_error_In in E).
  apply sufLive_out in X as [X|[X1 X2]]; [now left|right].
  rewrite (proj1 (proj2 S b L)) in X1. split; [exact X1|]. intros (i & Y1 & Y2). exact (X2 i Y1 Y2).
Qed.
Lemma live_iff b j v blk : nth_error p b = Some blk -> j <= length blk ->
  (liveAt t p b j v <-> sufLive (skipn j blk) (In v (outs b)) v).
Proof using S T.
  intros E L. split; [intros H; now apply (live_complete b)|]. intros H.
  apply (sufLive_skip p b blk v E j L). eapply sufLive_mono; [|exact H].
  intros Ho. pose proof (outs_sound b v blk E Ho) as X.
  apply (sufLive_skip p b blk v E (length blk)) in X; [|lia]. rewrite skipn_all in X. exact X.
Qed.
Lemma outs_exact b v blk : nth_error p b = Some blk -> (In v (outs b) <-> liveAt t p b (length blk) v).
Proof using S T. intros E. rewrite (live_iff b (length blk) v blk E) by lia. rewrite skipn_all. cbn. tauto. Qed.
End Sol.
End Flow.
End Live.
