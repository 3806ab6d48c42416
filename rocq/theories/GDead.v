(** C32: removal of unused machine instructions.
    Models cmmc/CodeGen/Peephole.cpp: removeUnusedInsts 38-100, removeInvisibleInsts 699-760. *)
From Coq Require Import ZArith Lia Bool List Arith.
From Verif Require Import GMir GCopy GCse.
Import ListNotations.
Local Open Scope Z_scope.

Definition memb (x : nat) (l : list nat) : bool := existsb (Nat.eqb x) l.
Lemma memb_In x l : memb x l = true <-> In x l.
Proof.
  unfold memb. rewrite existsb_exists. split.
  - intros (y & A & B). apply Nat.eqb_eq in B. now subst.
  - intros H. exists x. split; [exact H|apply Nat.eqb_refl].
Qed.
Definition rmemb (x : reg) (l : list reg) : bool := existsb (reg_eqb x) l.
Lemma rmemb_In x l : rmemb x l = true <-> In x l.
Proof.
  unfold rmemb. rewrite existsb_exists. split.
  - intros (y & A & B). destruct (reg_eqb_spec x y); [now subst|discriminate].
  - intros H. exists x. split; [exact H|apply reg_eqb_refl].
Qed.

(** keep the instructions whose position is not in the set; positions count from [k] *)
Fixpoint dropAt (U : list nat) (k : nat) (b : list inst) : list inst :=
  match b with
  | [] => []
  | i :: b' => if memb k U then dropAt U (S k) b' else i :: dropAt U (S k) b'
  end.
Fixpoint dropAll (U : list nat) (k : nat) (p : func) : func :=
  match p with [] => [] | b :: p' => dropAt U k b :: dropAll U (k + length b) p' end.

(* ------------------------------------------------------------------ *)
(** * The passes *)
Section Passes.
Variable t : target.

(** allocatable physical registers: isISAReg(op.reg()) && isAllocableType(op.type()) *)
Definition pinned (r : reg) : bool := match r with Phys n => memb n (alloc t) | Virt _ => false end.

(** 38-100 removeUnusedInsts; instructions are numbered through the whole function *)
Definition special (i : inst) : bool := sideEffect (flagsOf t i) || existsb pinned (defs t i).
Definition writersOf (l : list inst) (r : reg) : list nat :=
  filter (fun k => match nth_error l k with Some i => rmemb r (defs t i) | None => false end) (seq 0 (length l)).
(** 72-78 popSrc: [popped] are the registers whose writers have been taken out of the map *)
Definition popSrc (l : list inst) (qp : list nat * list reg) (r : reg) : list nat * list reg :=
  let '(q, popped) := qp in
  if rmemb r popped then (q, popped)
  else match writersOf l r with [] => (q, popped) | ws => (q ++ ws, r :: popped) end.
Definition usesAt (l : list inst) (k : nat) : list reg := match nth_error l k with Some i => uses t i | None => [] end.
Fixpoint bfs (l : list inst) (fuel : nat) (q : list nat) (popped : list reg) : option (list reg) :=
  match q with
  | [] => Some popped
  | k :: q' =>
      match fuel with
      | O => None
      | S n => let '(q2, p2) := fold_left (popSrc l) (usesAt l k) (q', popped) in bfs l n q2 p2
      end
  end.
Definition specials (l : list inst) : list nat :=
  filter (fun k => match nth_error l k with Some i => special i | None => false end) (seq 0 (length l)).
Definition fuelOf (l : list inst) : nat := (length l + length (flat_map (defs t) l) * length l + 1)%nat.
(** 89-99 *)
Definition unused (l : list inst) (popped : list reg) : list nat :=
  filter (fun k => match nth_error l k with
                   | Some i => existsb (fun r => negb (rmemb r popped) && negb (pinned r)) (defs t i)
                               && negb (sideEffect (flagsOf t i) || multiDef (flagsOf t i))
                   | None => false
                   end) (seq 0 (length l)).
Definition removeUnusedInsts (p : func) : option func :=
  let l := concat p in
  match bfs l (fuelOf l) (specials l) [] with
  | Some popped => Some (dropAll (unused l popped) 0 p)
  | None => None
  end.

(** 699-760 removeInvisibleInsts, block by block *)
Definition erase (j : nat) (u : list nat) : list nat := filter (fun x => negb (Nat.eqb x j)) u.
Definition useReg (w : list (reg * nat)) (u : list nat) (r : reg) : list nat :=
  if isPhys r then match look w r with Some j => erase j u | None => u end else u.
Definition visitAll (w : list (reg * nat)) (u : list nat) : list nat := fold_left (fun u x => erase (snd x) u) w u.
Definition setWriter (k : nat) (w : list (reg * nat)) (r : reg) : list (reg * nat) :=
  if isPhys r then put (del w r) r k else w.
Definition visit1 (k : nat) (i : inst) (uw : list nat * list (reg * nat)) : list nat * list (reg * nat) :=
  let '(u, w) := uw in
  let u1 := fold_left (useReg w) (uses t i) u in
  let u2 := if branch (flagsOf t i) || call (flagsOf t i) then visitAll w u1 else u1 in
  let w2 := fold_left (setWriter k) (defs t i) w in
  (if sideEffect (flagsOf t i) then u2 else k :: u2, w2).
Fixpoint visit (k : nat) (b : list inst) (uw : list nat * list (reg * nat)) : list nat :=
  match b with
  | [] => visitAll (snd uw) (fst uw)
  | i :: b' => visit (S k) b' (visit1 k i uw)
  end.
Definition removeInvisibleInsts (b : list inst) : list inst := dropAt (visit 0 b ([], [])) 0 b.
End Passes.

(* ------------------------------------------------------------------ *)
(** * removeInvisibleInsts *)
Section Invisible.
Variable t : target.
Hypothesis OK : okTarget t.
(** only instructions flagged as terminators leave the block *)
Hypothesis CTL : forall o a m, term (fl t o) = false -> effCtl t o a m = Next.

(** after register allocation: every definition is a physical register; a block is left only at its end or by
    instructions flagged Branch *)
Definition allocated (b : list inst) : Prop :=
  (forall i r, In i b -> In r (defs t i) -> isPhys r = true) /\
  (forall pre i post, b = pre ++ i :: post -> post <> [] -> term (flagsOf t i) = true -> branch (flagsOf t i) = true).

Lemma erase_In j u x : In x (erase j u) <-> In x u /\ x <> j.
Proof. unfold erase. rewrite filter_In. destruct (Nat.eqb_spec x j); cbn; intuition congruence. Qed.
Lemma useReg_sub w rs : forall u x, In x (fold_left (useReg w) rs u) -> In x u.
Proof.
  induction rs as [|r rs IH]; intros u x H; cbn in H; [exact H|]. apply IH in H. unfold useReg in H.
  destruct (isPhys r); [|exact H]. destruct (look w r); [|exact H]. now apply erase_In in H.
Qed.
Lemma useReg_gone w rs : forall u r j, In r rs -> isPhys r = true -> look w r = Some j ->
  ~ In j (fold_left (useReg w) rs u).
Proof.
  induction rs as [|x rs IH]; intros u r j I P L; [destruct I|]. cbn. destruct I as [->|I]; [|eauto].
  intros H. apply useReg_sub in H. unfold useReg in H. rewrite P, L in H. apply erase_In in H as [_ H]. congruence.
Qed.
Lemma visitAll_sub w : forall u x, In x (visitAll w u) -> In x u.
Proof.
  unfold visitAll. induction w as [|e w IH]; intros u x H; cbn in H; [exact H|]. apply IH in H. now apply erase_In in H.
Qed.
Lemma visitAll_gone w : forall u r j, look w r = Some j -> ~ In j (visitAll w u).
Proof.
  unfold visitAll. induction w as [|[y a] w IH]; intros u r j L H; [discriminate|]. cbn in L, H.
  destruct (reg_eqb_spec y r); [|eapply IH; eauto]. injection L as ->. apply (visitAll_sub w) in H.
  apply erase_In in H as [_ H]. congruence.
Qed.
Lemma visit1_sub k i u w x : In x (fst (visit1 t k i (u, w))) -> x = k \/ In x u.
Proof.
  unfold visit1. cbn [fst]. intros H.
  assert (H' : x = k \/ In x (if branch (flagsOf t i) || call (flagsOf t i)
                              then visitAll w (fold_left (useReg w) (uses t i) u)
                              else fold_left (useReg w) (uses t i) u)).
  { destruct (sideEffect (flagsOf t i)); [auto|]. destruct H as [H|H]; auto. }
  destruct H' as [H'|H']; [auto|]. right. destruct (_ || _); [apply visitAll_sub in H'|]; eapply useReg_sub; eauto.
Qed.
Lemma visit_sub b : forall k u w x, (x < k)%nat -> In x (visit t k b (u, w)) -> In x u.
Proof.
  induction b as [|i b IH]; intros k u w x L H; cbn [visit] in H.
  - now apply visitAll_sub in H.
  - destruct (visit1 t k i (u, w)) as [u' w'] eqn:E. apply IH in H; [|lia].
    pose proof (visit1_sub k i u w x) as S. rewrite E in S. cbn in S. destruct (S H); [lia|assumption].
Qed.
Lemma setWriter_look k ds : forall w r, (forall x, In x ds -> isPhys x = true) ->
  look (fold_left (setWriter k) ds w) r = if rmemb r ds then Some k else look w r.
Proof.
  induction ds as [|d ds IH]; intros w r P; [reflexivity|]. cbn [fold_left rmemb existsb].
  rewrite IH by (intros; apply P; now right). fold (rmemb r ds). destruct (rmemb r ds) eqn:E.
  - now rewrite orb_true_r.
  - rewrite orb_false_r. unfold setWriter. rewrite (P d) by now left. rewrite look_put, look_del.
    destruct (reg_eqb_spec d r), (reg_eqb_spec r d); congruence.
Qed.

(** positions recorded as writers are in the past *)
Definition past (k : nat) (w : list (reg * nat)) : Prop := forall r j, look w r = Some j -> (j < k)%nat /\ isPhys r = true.
(** registers known to be equal: those whose last writer is kept *)
Definition liveAt (U : list nat) (w : list (reg * nat)) (r : reg) : Prop :=
  match look w r with Some j => ~ In j U | None => True end.

Lemma invisible_block b : forall pre k u w s s' U,
  allocated (pre ++ b) -> past k w -> (forall j, In j u -> (j < k)%nat) ->
  U = visit t k b (u, w) -> agree (liveAt U w) s s' ->
  outs_agree (runB t b s) (runB t (dropAt U k b) s').
Proof using OK CTL.
  induction b as [|i b IH]; intros pre k u w s s' U AL PW PU EU A.
  - cbn. split; [|reflexivity]. cbn in *. eapply agree_weaken; [|exact A]. intros r _. unfold liveAt.
    destruct (look w r) as [j|] eqn:L; [|exact I]. subst U. eapply visitAll_gone; eauto.
  - cbn [visit] in EU. destruct (visit1 t k i (u, w)) as [u' w'] eqn:E1.
    assert (DP : forall r, In r (defs t i) -> isPhys r = true).
    { destruct AL as [AL _]. intros r. apply AL. apply in_or_app. right. now left. }
    assert (W' : forall r, look w' r = if rmemb r (defs t i) then Some k else look w r).
    { intros r. unfold visit1 in E1. injection E1 as _ <-. apply setWriter_look. exact DP. }
    assert (PW' : past (S k) w').
    { intros r j L. rewrite W' in L. destruct (rmemb r (defs t i)) eqn:R.
      - injection L as <-. split; [lia|]. apply DP. now apply rmemb_In.
      - destruct (PW _ _ L). split; [lia|assumption]. }
    assert (PU' : forall j, In j u' -> (j < S k)%nat).
    { intros j Hj. pose proof (visit1_sub k i u w j) as S. rewrite E1 in S. destruct (S Hj) as [->|H]; [lia|].
      specialize (PU _ H). lia. }
    assert (AL' : allocated ((pre ++ [i]) ++ b)) by (rewrite <- app_assoc; exact AL).
    (* a past writer that survives is still marked *)
    assert (SU : forall j, (j < k)%nat -> In j U -> In j u').
    { intros j Lj Hj. subst U. eapply visit_sub; [|exact Hj]. lia. }
    assert (UseLive : forall r, In r (uses t i) -> liveAt U w r).
    { intros r Hr. unfold liveAt. destruct (look w r) as [j|] eqn:L; [|exact I]. intros Hj.
      destruct (PW _ _ L) as [Lj Pr]. apply (SU _ Lj) in Hj.
      unfold visit1 in E1. injection E1 as <- _.
      assert (G' : ~ In j (fold_left (useReg w) (uses t i) u)) by (eapply useReg_gone; eauto).
      assert (G2 : ~ In j (if branch (flagsOf t i) || call (flagsOf t i)
                           then visitAll w (fold_left (useReg w) (uses t i) u)
                           else fold_left (useReg w) (uses t i) u)).
      { destruct (_ || _); [|exact G']. intros H. apply visitAll_sub in H. auto. }
      destruct (sideEffect (flagsOf t i)); [auto|]. destruct Hj as [->|Hj]; [lia|auto]. }
    assert (AllLive : branch (flagsOf t i) || call (flagsOf t i) = true -> forall r, liveAt U w r).
    { intros EB r. unfold liveAt. destruct (look w r) as [j|] eqn:L; [|exact I]. intros Hj.
      destruct (PW _ _ L) as [Lj Pr]. apply (SU _ Lj) in Hj. unfold visit1 in E1. rewrite EB in E1. injection E1 as <- _.
      assert (G2 : ~ In j (visitAll w (fold_left (useReg w) (uses t i) u))) by (eapply visitAll_gone; eauto).
      destruct (sideEffect (flagsOf t i)); [auto|]. destruct Hj as [->|Hj]; [lia|auto]. }
    cbn [dropAt]. destruct (memb k U) eqn:MK.
    + (* the instruction is dropped *)
      apply memb_In in MK.
      assert (NSE : sideEffect (flagsOf t i) = false).
      { assert (MK' : In k u') by (rewrite EU in MK; eapply visit_sub; [|exact MK]; lia).
        unfold visit1 in E1. injection E1 as <- _. destruct (sideEffect (flagsOf t i)); [|reflexivity].
        exfalso. assert (In k u); [|specialize (PU _ H); lia].
        destruct (_ || _); [apply visitAll_sub in MK'|]; eapply useReg_sub; eauto. }
      destruct (exec_nonSE t OK i s NSE) as (X1 & X2 & X3 & X4).
      cbn [runB]. destruct (exec t i s) as [s1 c] eqn:EX. cbn [fst snd] in *. subst c.
      apply (IH (pre ++ [i]) (S k) u' w'); auto.
      destruct A as [A1 A2 A3 A4]. constructor; try congruence. intros r Lr.
      replace (G s1 r) with (G s r); [apply A1|].
      * unfold liveAt in *. rewrite W' in Lr. destruct (rmemb r (defs t i)); [now contradict Lr|exact Lr].
      * replace s1 with (fst (exec t i s)) by now rewrite EX. symmetry. apply exec_other; auto.
        -- intros H. unfold liveAt in Lr. rewrite W' in Lr. apply rmemb_In in H. rewrite H in Lr. auto.
        -- left. unfold sideEffect in NSE. repeat (apply orb_false_elim in NSE as [NSE ?]). assumption.
    + (* kept *)
      assert (NK : ~ In k U) by (intros H; apply memb_In in H; congruence).
      destruct (exec_agree t OK (liveAt U w) i s s' A UseLive) as [X Y].
      { intros C n _. apply AllLive. rewrite C. apply orb_true_r. }
      destruct (exec t i s) as [s1 c] eqn:EX, (exec t i s') as [s1' c'] eqn:EX'. cbn [fst snd] in X, Y. subst c'.
      cbn [runB]. rewrite EX, EX'.
      assert (X' : agree (liveAt U w') s1 s1').
      { eapply agree_weaken; [|exact X]. intros r Lr. unfold liveAt in Lr |- *. rewrite W' in Lr.
        destruct (rmemb r (defs t i)) eqn:R; [right; left; now apply rmemb_In|left; exact Lr]. }
      assert (Leave : c <> Next -> b <> [] -> agree All s1 s1').
      { intros NC NB. eapply agree_weaken; [|exact X]. intros r _. left. apply AllLive.
        apply orb_true_iff. left. destruct AL as [_ AL]. apply (AL pre i b eq_refl NB).
        destruct (term (flagsOf t i)) eqn:ET; [reflexivity|]. exfalso. apply NC.
        assert (snd (exec t i s) = Next); [|rewrite EX in H; exact H].
        unfold exec. destruct (copyOf t i) as [[? ?]|]; [reflexivity|]. destruct (call (flagsOf t i)); [reflexivity|].
        destruct (stkLoad i) as [[? ?]|]; [reflexivity|]. destruct (stkStore i) as [[? ?]|]; [reflexivity|].
        destruct (sideEffect (flagsOf t i)); [|reflexivity]. cbn [snd]. apply CTL. exact ET. }
      destruct b as [|i2 b].
      * (* last instruction of the block *)
        cbn [runB dropAt]. assert (Z0 : agree All s1 s1').
        { eapply agree_weaken; [|exact X']. intros r _. unfold liveAt. destruct (look w' r) as [j|] eqn:L; [|exact I].
          rewrite EU. cbn [visit fst snd]. eapply visitAll_gone; eauto. }
        destruct c; split; auto.
      * destruct c; [|split; [apply Leave; discriminate|reflexivity]..].
        apply (IH (pre ++ [i]) (S k) u' w'); auto.
Qed.
End Invisible.

(* ------------------------------------------------------------------ *)
(** * removeUnusedInsts *)
Section Unused.
Variable t : target.
Hypothesis OK : okTarget t.
Hypothesis SD : singleDef t.
Variable l : list inst.

Lemma writersOf_In r k : In k (writersOf t l r) <-> exists i, nth_error l k = Some i /\ In r (defs t i).
Proof.
  unfold writersOf. rewrite filter_In. split.
  - intros [_ H]. destruct (nth_error l k) as [i|]; [|discriminate]. exists i. split; [reflexivity|]. now apply rmemb_In.
  - intros (i & E & H). rewrite E. split; [|now apply rmemb_In]. apply in_seq. split; [lia|].
    cbn. apply nth_error_Some. congruence.
Qed.
Lemma specials_In k : In k (specials t l) <-> exists i, nth_error l k = Some i /\ special t i = true.
Proof.
  unfold specials. rewrite filter_In. split.
  - intros [_ H]. destruct (nth_error l k) as [i|]; [|discriminate]. eauto.
  - intros (i & E & H). rewrite E. split; [|exact H]. apply in_seq. split; [lia|]. cbn. apply nth_error_Some. congruence.
Qed.

(** everything that has been put in the queue so far *)
Definition queued (popped : list reg) (k : nat) : Prop :=
  In k (specials t l) \/ exists r, In r popped /\ In k (writersOf t l r).
(** a queued instruction either waits or has had its operands popped *)
Definition closedUpTo (q : list nat) (popped : list reg) : Prop :=
  forall k, queued popped k -> In k q \/
    forall r, In r (usesAt t l k) -> writersOf t l r <> [] -> In r popped.

Lemma popSrc_grow rs : forall q popped q2 p2, fold_left (popSrc t l) rs (q, popped) = (q2, p2) ->
  (forall r, In r popped -> In r p2) /\ (forall k, In k q -> In k q2) /\
  (forall r, In r rs -> writersOf t l r <> [] -> In r p2) /\
  (forall r k, In r p2 -> In k (writersOf t l r) -> In r popped \/ In k q2).
Proof.
  induction rs as [|x rs IH]; intros q popped q2 p2 E; cbn [fold_left] in E.
  - injection E as <- <-. repeat split; auto. intros r [].
  - unfold popSrc at 2 in E. destruct (rmemb x popped) eqn:M.
    + destruct (IH _ _ _ _ E) as (A & B & C & D). repeat split; auto.
      intros r [<-|Hr] N; auto. apply A. now apply rmemb_In.
    + destruct (writersOf t l x) as [|k0 ws] eqn:W.
      * destruct (IH _ _ _ _ E) as (A & B & C & D). repeat split; auto.
        intros r [<-|Hr] N; auto. congruence.
      * destruct (IH _ _ _ _ E) as (A & B & C & D). split; [intros; apply A; now right|].
        split; [intros; apply B; apply in_or_app; now left|].
        split. { intros r [<-|Hr] N; auto. apply A. now left. }
        intros r k Hr Hk. destruct (D r k Hr Hk) as [[<-|H]|H]; auto.
        right. apply B. apply in_or_app. right. rewrite <- W. exact Hk.
Qed.
Lemma bfs_closed fuel : forall q popped final, closedUpTo q popped -> bfs t l fuel q popped = Some final ->
  closedUpTo [] final.
Proof.
  induction fuel as [|n IH]; intros q popped final C E; destruct q as [|k q]; cbn [bfs] in E; try discriminate.
  - injection E as <-. exact C.
  - injection E as <-. exact C.
  - destruct (fold_left (popSrc t l) (usesAt t l k) (q, popped)) as [q2 p2] eqn:F.
    destruct (popSrc_grow _ _ _ _ _ F) as (A & B & D & H).
    eapply IH; [|exact E]. intros x Qx. destruct (in_dec Nat.eq_dec x q2) as [I2|N2]; [auto|]. right.
    destruct (Nat.eq_dec x k) as [->|Nk]; [intros r Hr Hw; auto|].
    assert (Q' : queued popped x).
    { destruct Qx as [Qx|(r & Hr & Hx)]; [now left|]. destruct (H _ _ Hr Hx); [right; eauto|contradiction]. }
    destruct (C x Q') as [[Hk|Hq]|Hu]; [congruence|apply B in Hq; contradiction|]. intros r Hr Hw. apply A. auto.
Qed.

Variable popped : list reg.
Hypothesis CL : closedUpTo [] popped.
(** registers on which the two runs agree *)
Definition live (r : reg) : Prop := In r popped \/ writersOf t l r = [] \/ pinned t r = true.

Lemma used_live k i : nth_error l k = Some i -> queued popped k -> forall r, In r (uses t i) -> live r.
Proof using CL.
  clear OK SD. intros E Q r Hr. destruct (CL k Q) as [[]|H]. unfold usesAt in H. rewrite E in H.
  destruct (writersOf t l r) eqn:W; [right; now left|]. left. apply H; auto. congruence.
Qed.
Lemma unqueued k i : nth_error l k = Some i -> ~ queued popped k ->
  sideEffect (flagsOf t i) = false /\ forall r, In r (defs t i) -> ~ live r.
Proof.
  clear OK SD CL. intros E N. assert (S : special t i = false).
  { destruct (special t i) eqn:S; [|reflexivity]. exfalso. apply N. left. apply specials_In. eauto. }
  unfold special in S. apply orb_false_elim in S as [S1 S2]. split; [exact S1|]. intros r Hr [H|[H|H]].
  - apply N. right. exists r. split; [exact H|]. apply writersOf_In. eauto.
  - assert (X : In k (writersOf t l r)) by (apply writersOf_In; eauto). rewrite H in X. destruct X.
  - assert (X : existsb (pinned t) (defs t i) = true) by (apply existsb_exists; eauto). congruence.
Qed.
Lemma unused_unqueued k i : nth_error l k = Some i -> In k (unused t l popped) -> ~ queued popped k.
Proof using SD.
  clear OK CL. intros E H. unfold unused in H. apply filter_In in H as [_ H]. rewrite E in H.
  apply andb_prop in H as [H1 H2]. apply negb_true_iff, orb_false_elim in H2 as [H2 H3].
  apply existsb_exists in H1 as (r & Hr & H1). apply andb_prop in H1 as [H1 H4].
  apply negb_true_iff in H1, H4.
  assert (D : defs t i = [r]).
  { pose proof (def_cases t SD i H3) as D. destruct (firstDef (flagged t i)) as [[d| | |]|]; rewrite D in Hr |- *;
      try (destruct Hr; fail). destruct Hr as [->|[]]. reflexivity. }
  intros [Q|(x & Hx & Q)].
  - apply specials_In in Q as (j & Ej & Q). rewrite E in Ej. injection Ej as <-. unfold special in Q.
    rewrite H2, D in Q. cbn in Q. rewrite H4 in Q. discriminate.
  - apply writersOf_In in Q as (j & Ej & Q). rewrite E in Ej. injection Ej as <-. rewrite D in Q.
    destruct Q as [<-|[]]. apply rmemb_In in Hx. congruence.
Qed.
Lemma pinned_live n : In n (alloc t) -> live (Phys n).
Proof. intros H. right. right. cbn. now apply memb_In. Qed.

Lemma queued_dec k : {queued popped k} + {~ queued popped k}.
Proof.
  clear. unfold queued. destruct (in_dec Nat.eq_dec k (specials t l)); [left; now left|].
  destruct (existsb (fun r => memb k (writersOf t l r)) popped) eqn:E.
  - left. right. apply existsb_exists in E as (r & A & B). exists r. split; [exact A|]. now apply memb_In.
  - right. intros [H|(r & A & B)]; [contradiction|].
    assert (existsb (fun r => memb k (writersOf t l r)) popped = true); [|congruence].
    apply existsb_exists. exists r. split; [exact A|]. now apply memb_In.
Qed.

Lemma unused_block b : forall k s s', (forall j i, nth_error b j = Some i -> nth_error l (k + j) = Some i) ->
  agree live s s' ->
  agree live (fst (runB t b s)) (fst (runB t (dropAt (unused t l popped) k b) s')) /\
  snd (runB t b s) = snd (runB t (dropAt (unused t l popped) k b) s').
Proof using OK SD CL.
  induction b as [|i b IH]; intros k s s' At A; [cbn; auto|]. cbn [dropAt runB].
  assert (Ei : nth_error l k = Some i) by (specialize (At O i eq_refl); now rewrite Nat.add_0_r in At).
  assert (At' : forall j i, nth_error b j = Some i -> nth_error l (S k + j) = Some i).
  { intros j x H. specialize (At (S j) x H). now rewrite Nat.add_succ_r in At. }
  assert (Dead : ~ queued popped k -> snd (exec t i s) = Next /\ agree live (fst (exec t i s)) s').
  { intros N. destruct (unqueued k i Ei N) as [SE D]. destruct (exec_nonSE t OK i s SE) as (X1 & X2 & X3 & X4).
    split; [exact X1|]. destruct A as [A1 A2 A3 A4]. constructor; try congruence. intros r Lr.
    rewrite exec_other; auto.
    - intros H. exact (D r H Lr).
    - left. unfold sideEffect in SE. repeat (apply orb_false_elim in SE as [SE ?]). assumption. }
  destruct (memb k (unused t l popped)) eqn:Mk.
  - apply memb_In in Mk. destruct (Dead (unused_unqueued k i Ei Mk)) as [X Y].
    destruct (exec t i s) as [s1 c]. cbn in X, Y. subst c. apply IH; auto.
  - cbn [runB]. destruct (queued_dec k) as [Q|Q].
    + destruct (exec_agree t OK live i s s' A) as [X Y].
      { intros r Hr. eapply used_live; eauto. }
      { intros _ n Hn. now apply pinned_live. }
      assert (X' : agree live (fst (exec t i s)) (fst (exec t i s'))) by (eapply agree_weaken; [|exact X]; intros r H; now left).
      destruct (exec t i s) as [s1 c], (exec t i s') as [s1' c']. cbn in X', Y. subst c'.
      destruct c; [apply IH; auto|cbn; auto|cbn; auto].
    + destruct (Dead Q) as [X Y]. destruct (unqueued k i Ei Q) as [SE D].
      destruct (exec_nonSE t OK i s' SE) as (X1 & X2 & X3 & X4).
      assert (Y' : agree live (fst (exec t i s)) (fst (exec t i s'))).
      { destruct Y as [Y1 Y2 Y3 Y4]. constructor; try congruence. intros r Lr. rewrite (Y1 r Lr).
        symmetry. apply exec_other; auto.
        - intros H. exact (D r H Lr).
        - left. unfold sideEffect in SE. repeat (apply orb_false_elim in SE as [SE ?]). assumption. }
      destruct (exec t i s) as [s1 c], (exec t i s') as [s1' c']. cbn in X, X1, Y'. subst c c'. apply IH; auto.
Qed.
End Unused.

(** the blocks of the result *)
Lemma dropAll_nth U p : forall k n b', nth_error (dropAll U k p) n = Some b' ->
  exists b, nth_error p n = Some b /\ b' = dropAt U (k + length (concat (firstn n p))) b.
Proof.
  induction p as [|b p IH]; intros k n b' H; [destruct n; discriminate|].
  destruct n as [|n]; cbn in H |- *.
  - injection H as <-. exists b. now rewrite Nat.add_0_r.
  - destruct (IH _ _ _ H) as (x & A & B). exists x. split; [exact A|]. rewrite B, app_length. f_equal. lia.
Qed.
Lemma dropAll_length U p : forall k, length (dropAll U k p) = length p.
Proof. induction p as [|b p IH]; intros k; cbn; [reflexivity|]. now rewrite IH. Qed.
Lemma concat_nth {A} (p : list (list A)) : forall n b j i, nth_error p n = Some b -> nth_error b j = Some i ->
  nth_error (concat p) (length (concat (firstn n p)) + j) = Some i.
Proof.
  induction p as [|x p IH]; intros n b j i H1 H2; [destruct n; discriminate|]. destruct n as [|n]; cbn in *.
  - injection H1 as ->. rewrite nth_error_app1; [exact H2|]. apply nth_error_Some. congruence.
  - rewrite app_length, nth_error_app2 by lia. rewrite <- (IH n b j i H1 H2). f_equal. lia.
Qed.

Theorem removeUnused_same t p q : okTarget t -> singleDef t ->
  removeUnusedInsts t p = Some q -> sameBehaviour t p q.
Proof.
  intros OK SD E. unfold removeUnusedInsts in E.
  destruct (bfs t (concat p) (fuelOf t (concat p)) (specials t (concat p)) []) as [popped|] eqn:B; [|discriminate].
  injection E as <-.
  assert (CL : closedUpTo t (concat p) [] popped).
  { eapply bfs_closed; [|exact B]. intros k [H|(r & [] & _)]. auto. }
  intros n b s. pose proof (runF_agree t (live t (concat p) popped) p (dropAll (unused t (concat p) popped) 0 p)) as R.
  destruct R with (n := n) (b := b) (s := s) (s' := s) as [X Y].
  - now rewrite dropAll_length.
  - intros k x y E1 E2 s1 s2 A. apply dropAll_nth in E2 as (x' & E2 & ->). rewrite E1 in E2. injection E2 as <-.
    apply unused_block; auto. intros j i Hj. cbn. eapply concat_nth; eauto.
  - apply agree_refl.
  - apply (agree_observed t (live t (concat p) popped)); auto. intros m Hm. now apply pinned_live.
Qed.

(** the worklist is exhausted within the fuel *)
Section Fuel.
Variable t : target.
Variable l : list inst.
Let regs := flat_map (defs t) l.
Let NR := nodup reg_dec regs.
(** writers that may still be queued *)
Definition pending (popped : list reg) : nat :=
  list_sum (map (fun r => length (writersOf t l r)) (filter (fun r => negb (rmemb r popped)) NR)).
Lemma sum_filter (f : reg -> nat) x popped (L : list reg) : NoDup L -> In x L -> rmemb x popped = false ->
  list_sum (map f (filter (fun r => negb (rmemb r popped)) L)) =
  (f x + list_sum (map f (filter (fun r => negb (rmemb r (x :: popped))) L)))%nat.
Proof.
  induction L as [|y L IH]; intros ND I M; [destruct I|]. inversion ND as [|? ? Ny ND']; subst.
  assert (S : forall y, rmemb y (x :: popped) = reg_eqb y x || rmemb y popped) by reflexivity.
  destruct I as [->|I].
  - cbn [filter]. rewrite M, S, reg_eqb_refl. cbn [orb negb map list_sum fold_right].
    enough (E : filter (fun r => negb (rmemb r popped)) L = filter (fun r => negb (rmemb r (x :: popped))) L) by now rewrite E.
    apply filter_ext_in. intros z Hz. rewrite S. destruct (reg_eqb_spec z x); [congruence|reflexivity].
  - cbn [filter]. rewrite S. destruct (reg_eqb_spec y x) as [->|N]; [contradiction|]. cbn [orb].
    destruct (negb (rmemb y popped)).
    + change (list_sum (map f (y :: ?a))) with (f y + list_sum (map f a))%nat. rewrite IH by assumption. lia.
    + apply IH; assumption.
Qed.
Lemma popSrc_count rs : forall q popped q2 p2, fold_left (popSrc t l) rs (q, popped) = (q2, p2) ->
  (length q2 + pending p2 = length q + pending popped)%nat.
Proof.
  induction rs as [|x rs IH]; intros q popped q2 p2 E; cbn [fold_left] in E; [injection E as <- <-; reflexivity|].
  unfold popSrc at 2 in E. destruct (rmemb x popped) eqn:M; [eauto|].
  destruct (writersOf t l x) as [|k ws] eqn:W; [eauto|].
  rewrite (IH _ _ _ _ E). rewrite app_length. unfold pending.
  rewrite (sum_filter _ x popped NR); [rewrite W; lia|apply NoDup_nodup| |exact M].
  apply nodup_In, in_flat_map. assert (H : In k (writersOf t l x)) by (rewrite W; now left).
  apply writersOf_In in H as (i & E1 & E2). exists i. split; [|exact E2]. eapply nth_error_In; eauto.
Qed.
Lemma bfs_some fuel : forall q popped, (length q + pending popped <= fuel)%nat -> bfs t l fuel q popped <> None.
Proof.
  induction fuel as [|n IH]; intros q popped H; destruct q as [|k q]; cbn [bfs]; try discriminate; [cbn in H; lia|].
  destruct (fold_left (popSrc t l) (usesAt t l k) (q, popped)) as [q2 p2] eqn:F.
  apply IH. rewrite (popSrc_count _ _ _ _ _ F). cbn in H. lia.
Qed.
Lemma filter_len {A} (f : A -> bool) L : (length (filter f L) <= length L)%nat.
Proof. induction L as [|x L IH]; cbn; [lia|]. destruct (f x); cbn; lia. Qed.
Lemma sum_bound (f : reg -> nat) m L : (forall x, f x <= m)%nat -> (list_sum (map f L) <= length L * m)%nat.
Proof. intros H. induction L as [|x L IH]; cbn; [lia|]. specialize (H x). unfold list_sum in *. lia. Qed.
Lemma enough : bfs t l (fuelOf t l) (specials t l) [] <> None.
Proof.
  apply bfs_some. unfold fuelOf.
  assert (A : (length (specials t l) <= length l)%nat).
  { unfold specials. etransitivity; [apply filter_len|]. rewrite seq_length. lia. }
  assert (B : (pending [] <= length NR * length l)%nat).
  { unfold pending. etransitivity; [apply (sum_bound _ (length l))|].
    - intros x. unfold writersOf. etransitivity; [apply filter_len|]. rewrite seq_length. lia.
    - apply Nat.mul_le_mono_r. apply filter_len. }
  assert (C : (length NR <= length regs)%nat).
  { apply NoDup_incl_length; [apply NoDup_nodup|]. intros x. apply nodup_In. }
  fold regs. assert (length NR * length l <= length regs * length l)%nat by (apply Nat.mul_le_mono_r; exact C). lia.
Qed.
End Fuel.
Theorem removeUnused_defined t p : exists q, removeUnusedInsts t p = Some q.
Proof.
  unfold removeUnusedInsts. destruct (bfs t (concat p) _ _ _) as [x|] eqn:E; [eauto|]. exfalso. exact (enough _ _ E).
Qed.
