(** C32: constants of a machine function.
    Models cmmc/CodeGen/Peephole.cpp: collectDefCount 180-199, applySSAPropagation 202-254,
    machineConstantHoist 256-323, machineConstantCSE 325-375.
    These passes look at the whole function and rely on virtual registers being written before they are read;
    [strict] states that for every run from the entry block. *)
From Coq Require Import ZArith Lia Bool List Arith Permutation.
From Verif Require Import GMir GCopy.
Import ListNotations.
Local Open Scope Z_scope.

(* ------------------------------------------------------------------ *)
(** * Specification: runs that write virtual registers before reading them *)
Section Strict.
Variable t : target.

(** [D]: the registers written so far *)
Fixpoint okB (b : list inst) (D : list reg) (s : state) : Prop :=
  match b with
  | [] => True
  | i :: b' => (forall r, In r (uses t i) -> isVirt r = true -> In r D) /\
               (snd (exec t i s) = Next -> okB b' (defs t i ++ D) (fst (exec t i s)))
  end.
Fixpoint defB (b : list inst) (D : list reg) (s : state) : list reg :=
  match b with
  | [] => D
  | i :: b' => match exec t i s with
               | (s', Next) => defB b' (defs t i ++ D) s'
               | _ => defs t i ++ D
               end
  end.
Fixpoint okF (p : func) (n b : nat) (D : list reg) (s : state) : Prop :=
  match n with
  | O => True
  | S n' =>
      match nth_error p b with
      | None => True
      | Some blk =>
          okB blk D s /\
          match after b (snd (runB t blk s)) with
          | Some b' => okF p n' b' (defB blk D s) (fst (runB t blk s))
          | None => True
          end
      end
  end.
(** no run from the entry reads a virtual register that it has not written *)
Definition strict (p : func) : Prop := forall n s, okF p n 0 [] s.
(** the same behaviour for all runs from the entry *)
Definition sameFromEntry (p q : func) : Prop :=
  forall n s, observed t (runF t p n 0 s) = observed t (runF t q n 0 s).
End Strict.

(* ------------------------------------------------------------------ *)
(** * The passes *)
Section Passes.
Variable t : target.
(** register classes in matchCopy, see GCopy *)
Variable copyOk : inst -> bool.

Definition isConst (i : inst) : bool := loadConst (flagsOf t i).
(** operands 0 and 1 of a constant load whose destination is a register *)
Definition constOps (i : inst) : option (reg * operand) :=
  match ops i with OReg d :: o :: _ => Some (d, o) | _ => None end.
(** 180-199; a constant load defines just its operand 0 *)
Definition defCount (p : func) (r : reg) : nat := count_occ reg_dec (flat_map (defs t) (concat p)) r.
Definition single (p : func) (r : reg) : bool := isVirt r && Nat.leb (defCount p r) 1.

(** 202-254 applySSAPropagation *)
Definition constants (p : func) : list reg :=
  flat_map (fun i => if isConst i then match constOps i with
                                       | Some (d, _) => if single p d then [d] else []
                                       | None => []
                                       end else []) (concat p).
Definition copies (p : func) : list (reg * reg) :=
  flat_map (fun i => match matchCopy t copyOk i with
                     | Some (d, x) => if isVirt d && isVirt x && existsb (reg_eqb x) (constants p) &&
                                         Nat.leb (defCount p d) 1 && Nat.leb (defCount p x) 1 then [(d, x)] else []
                     | None => []
                     end) (concat p).
Definition ssaUse (m : list (reg * reg)) (i : inst) (k : nat) : inst :=
  match nth_error (ops i) k with
  | Some (OReg r) => match look m r with Some x => Inst (opc i) (setOp k (OReg x) (ops i)) (place i) | None => i end
  | _ => i
  end.
Fixpoint ssaUses (m : list (reg * reg)) (fs : list opflag) (k : nat) (i : inst) : inst :=
  match fs with
  | [] => i
  | FUse :: fs' => ssaUses m fs' (S k) (ssaUse m i k)
  | _ :: fs' => ssaUses m fs' (S k) i
  end.
Definition ssaInst (m : list (reg * reg)) (i : inst) : inst := ssaUses m (opfl t (opc i)) 0 i.
Definition applySSAPropagation (p : func) : func := map (map (ssaInst (copies p))) p.

(** 325-375 machineConstantCSE *)
Fixpoint lookC (m : list (nat * operand * reg)) (o : nat) (src : operand) : option reg :=
  match m with
  | [] => None
  | (o', src', d) :: m' => if Nat.eqb o' o && operand_eqb src' src then Some d else lookC m' o src
  end.
Definition common (p : func) : list (nat * operand * reg) :=
  flat_map (fun i => if isConst i then match constOps i with
                                       | Some (d, src) => if single p d then [(opc i, src, d)] else []
                                       | None => []
                                       end else [])
           (match p with b :: _ => b | [] => [] end).
Definition asCopy (i : inst) (d x : reg) : inst := copyInst (selectCopyOpcode d x) d x (place i).
Fixpoint constCse (cm lm : list (nat * operand * reg)) (b : list inst) : list inst :=
  match b with
  | [] => []
  | i :: b' =>
      if isConst i then
        match constOps i with
        | Some (d, src) =>
            match lookC cm (opc i) src with
            | Some x => asCopy i d x :: constCse cm lm b'
            | None =>
                match lookC lm (opc i) src with
                | Some x => asCopy i d x :: constCse cm lm b'
                | None => i :: constCse cm (if isPhys d then lm else (opc i, src, d) :: lm) b'
                end
            end
        | None => i :: constCse cm lm b'
        end
      else i :: constCse cm lm b'
  end.
Definition machineConstantCSE (p : func) : func :=
  match p with
  | [] => []
  | b0 :: p' => constCse [] [] b0 :: map (constCse (common p) []) p'
  end.

(** 256-323 machineConstantHoist; [hot]: blocks that are executed often, [order]: the sort by frequency,
    [fresh]: the next unused virtual register, [maxCount]: the target's limit *)
Variable hot : nat -> bool.
Variable order : list inst -> list inst.
Definition hoistable (p : func) (i : inst) : bool :=
  isConst i && match constOps i with Some (d, _) => single p d | None => false end.
Fixpoint candidates (p : func) (k : nat) (bs : func) : list inst :=
  match bs with
  | [] => []
  | b :: bs' => (if hot k then filter (hoistable p) b else []) ++ candidates p (S k) bs'
  end.
Definition entryConsts (b : list inst) : nat :=
  length (filter (fun i => isConst i && match constOps i with Some (d, _) => isVirt d | None => false end) b).
Definition picks (p : func) (maxCount : nat) : list inst :=
  match p with
  | [] => []
  | b0 :: p' => firstn (maxCount - entryConsts b0) (order (candidates p 1 p'))
  end.
Definition dstOf (i : inst) : list reg := match constOps i with Some (d, _) => [d] | None => [] end.
Fixpoint indexOf (l : list reg) (r : reg) (k : nat) : option nat :=
  match l with [] => None | x :: l' => if reg_eqb x r then Some k else indexOf l' r (S k) end.
Definition unhoist (hs : list reg) (fresh : nat) (i : inst) : inst :=
  if isConst i then
    match constOps i with
    | Some (d, _) => match indexOf hs d fresh with
                     | Some v => copyInst opcCopy (Virt v) d (place i)
                     | None => i
                     end
    | None => i
    end
  else i.
Definition insertBeforeLast (l b : list inst) : list inst :=
  match rev b with [] => l | x :: r => rev r ++ l ++ [x] end.
(** [here]: the place of the inserted instructions *)
Definition moved (here : nat) (i : inst) : inst := Inst (opc i) (ops i) here.
Definition machineConstantHoist (fresh maxCount here : nat) (p : func) : func :=
  match p with
  | [] => []
  | b0 :: p' =>
      let l := picks p maxCount in
      insertBeforeLast (map (moved here) l) b0 :: map (map (unhoist (flat_map dstOf l) fresh)) p'
  end.
End Passes.

(* ------------------------------------------------------------------ *)
(** * Proofs *)
(** constant loads have no side effects, define operand 0 and read no register *)
Definition okLoadConst (t : target) : Prop :=
  forall o, loadConst (fl t o) = true ->
    sideEffect (fl t o) = false /\ regCopy (fl t o) = false /\ (opfl t o = [FDef; FMeta] \/ opfl t o = [FDef; FUse]).
Definition constForm (t : target) (p : func) : Prop :=
  forall i, In i (concat p) -> loadConst (flagsOf t i) = true ->
    exists d o, ops i = [OReg d; o] /\ forall r, o <> OReg r.
(** terminators are the only instructions that leave a block, and of the entry block only the last is one *)
Definition okControl (t : target) : Prop := forall o a m, term (fl t o) = false -> effCtl t o a m = Next.
Definition straight (t : target) (b : list inst) : Prop :=
  forall pre i post, b = pre ++ i :: post -> post <> [] -> term (flagsOf t i) = false.

Section Sim.
Variable t : target.

Definition onPhys (r : reg) : Prop := isPhys r = true.
Lemma strict_sim p q (R : nat -> list reg -> state -> state -> Prop) :
  length p = length q ->
  (forall k D s s', R k D s s' -> agree onPhys s s') ->
  (forall k b b' D s s', nth_error p k = Some b -> nth_error q k = Some b' -> R k D s s' -> okB t b D s ->
     snd (runB t b s) = snd (runB t b' s') /\ agree onPhys (fst (runB t b s)) (fst (runB t b' s')) /\
     forall k', after k (snd (runB t b s)) = Some k' -> R k' (defB t b D s) (fst (runB t b s)) (fst (runB t b' s'))) ->
  strict t p -> (forall s, R O [] s s) -> sameFromEntry t p q.
Proof.
  intros EL HA HB ST R0 n s. specialize (ST n s). specialize (R0 s).
  enough (X : forall n k D s s', R k D s s' -> okF t p n k D s ->
            agree onPhys (fst (runF t p n k s)) (fst (runF t q n k s')) /\ snd (runF t p n k s) = snd (runF t q n k s')).
  { destruct (X n O [] s s R0 ST) as [A B]. apply (agree_observed t onPhys); auto. intros m _. reflexivity. }
  clear n s ST R0. intros n. induction n as [|n IH]; intros k D s s' HR HO; cbn [runF]; [eauto|].
  cbn [okF] in HO. destruct (nth_error p k) as [b|] eqn:E1.
  - destruct (nth_error q k) as [b'|] eqn:E2.
    + destruct HO as [HO HN]. destruct (HB _ _ _ _ _ _ E1 E2 HR HO) as (A & B & C).
      destruct (runB t b s) as [s1 c], (runB t b' s') as [s1' c']. cbn [fst snd] in *. subst c'.
      destruct (after k c) as [k'|]; auto. apply (IH _ (defB t b D s)); auto.
    + exfalso. apply nth_error_None in E2. assert (k < length p)%nat by (apply nth_error_Some; congruence). lia.
  - destruct (nth_error q k) as [b'|] eqn:E2; [|cbn; eauto].
    exfalso. apply nth_error_None in E1. assert (k < length q)%nat by (apply nth_error_Some; congruence). lia.
Qed.

(** an invariant kept by every instruction is kept by a block *)
Lemma runB_inv (P : list reg -> state -> Prop) b :
  (forall i D s, In i b -> (forall r, In r (uses t i) -> isVirt r = true -> In r D) -> P D s ->
     P (defs t i ++ D) (fst (exec t i s))) ->
  forall D s, okB t b D s -> P D s -> P (defB t b D s) (fst (runB t b s)).
Proof.
  induction b as [|i b IH]; intros H D s O HP; [exact HP|]. cbn [okB] in O. destruct O as [O1 O2].
  cbn [defB runB]. specialize (H i D s (or_introl eq_refl) O1 HP) as H1.
  destruct (exec t i s) as [s1 c]. cbn [fst snd] in *.
  destruct c; [|exact H1|exact H1]. apply IH; auto. intros j D' s' Hj. apply H. now right.
Qed.
End Sim.

Section Proofs.
Variable t : target.
Hypothesis OK : okTarget t.
Hypothesis LC : okLoadConst t.

Definition constVal (i : inst) : Z := pureVal t (opc i) [] (placeOf t i) [AHole; ATok (nth 1 (ops i) (OImm 0))] 0.

Lemma const_flagged i d o : isConst t i = true -> ops i = [OReg d; o] -> (forall r, o <> OReg r) ->
  defs t i = [d] /\ uses t i = [] /\ (forall g, args t g i = [AHole; ATok o]) /\ copyOf t i = None /\
  sideEffect (flagsOf t i) = false /\ tys t i = [].
Proof using LC.
  intros C E N. destruct (LC _ C) as (A & B & F). unfold defs, uses, args, flagged, tys, copyOf. fold (isConst t i).
  rewrite C, E. fold (flagsOf t i) in A, B. rewrite A, B.
  destruct F as [-> | ->]; cbn; destruct o; try (exfalso; eapply N; reflexivity); repeat split.
Qed.
Lemma const_exec i d o s : isConst t i = true -> ops i = [OReg d; o] -> (forall r, o <> OReg r) ->
  exec t i s = (State (wr (G s) d (constVal i)) (slot s) (M s) (trace s), Next).
Proof using OK LC.
  intros C E N. destruct (const_flagged i d o C E N) as (D & _ & A & Cp & S & T).
  rewrite exec_pure by assumption. rewrite D, A, T. unfold constVal. rewrite E. reflexivity.
Qed.

Lemma single_def (l : list inst) r : (count_occ reg_dec (flat_map (defs t) l) r <= 1)%nat ->
  forall i j, In i l -> In j l -> In r (defs t i) -> In r (defs t j) -> i = j.
Proof.
  clear. induction l as [|a l IH]; intros H i j Hi Hj Di Dj; [destruct Hi|].
  cbn [flat_map] in H. rewrite count_occ_app in H.
  assert (X : forall x, In x l -> In r (defs t x) -> (1 <= count_occ reg_dec (flat_map (defs t) l) r)%nat).
  { intros x Hx Dx. apply (count_occ_In reg_dec). apply in_flat_map. eauto. }
  assert (Y : forall x, In r (defs t x) -> (1 <= count_occ reg_dec (defs t x) r)%nat).
  { intros x Dx. now apply (count_occ_In reg_dec) in Dx. }
  destruct Hi as [->|Hi], Hj as [->|Hj].
  - reflexivity.
  - specialize (X j Hj Dj). specialize (Y i Di). lia.
  - specialize (X i Hi Di). specialize (Y j Dj). lia.
  - apply IH; auto. lia.
Qed.

Section Func.
Variable p : func.
Hypothesis CF : constForm t p.

Lemma single_same i j r : single t p r = true -> In i (concat p) -> In j (concat p) ->
  In r (defs t i) -> In r (defs t j) -> i = j.
Proof.
  clear. intros H. apply andb_prop in H as [_ H]. apply Nat.leb_le in H. eapply single_def; exact H.
Qed.

(** once written, a register with one definition, a constant load, holds that constant *)
Definition Inv (D : list reg) (s : state) : Prop :=
  forall i d o, In i (concat p) -> isConst t i = true -> ops i = [OReg d; o] -> single t p d = true ->
    In d D -> G s d = constVal i.
Lemma Inv_exec i D s : In i (concat p) -> Inv D s -> Inv (defs t i ++ D) (fst (exec t i s)).
Proof using OK LC CF.
  intros Hi V j d o Hj C E S I.
  destruct (CF j Hj C) as (d' & o' & E' & N). rewrite E in E'. injection E' as <- <-.
  destruct (const_flagged j d o C E N) as (Dj & _).
  destruct (in_dec reg_dec d (defs t i)) as [Di|Ni].
  - assert (i = j) as ->. { apply (single_same i j d); auto. rewrite Dj. now left. }
    rewrite (const_exec j d o) by assumption. cbn. apply wr_same.
  - rewrite exec_other; [|exact OK|exact Ni|].
    + apply (V j d o); auto. apply in_app_or in I as [I|I]; [contradiction|exact I].
    + right. left. apply andb_prop in S as [S _]. unfold isVirt in S. now apply negb_true_iff in S.
Qed.

(** ** applySSAPropagation *)
Variable copyOk : inst -> bool.
Lemma copies_In d x : In (d, x) (copies t copyOk p) ->
  exists c j o, In c (concat p) /\ copyOf t c = Some (d, x) /\ In j (concat p) /\ isConst t j = true /\
    ops j = [OReg x; o] /\ single t p d = true /\ single t p x = true.
Proof using CF.
  intros H. apply in_flat_map in H as (c & Hc & H). unfold matchCopy in H.
  destruct (copyOk c); [|destruct H].
  destruct (copyOf t c) as [[d' x']|] eqn:C; [|destruct H].
  destruct (isVirt d' && isVirt x' && existsb (reg_eqb x') (constants t p) && Nat.leb (defCount t p d') 1 &&
            Nat.leb (defCount t p x') 1) eqn:B; [|destruct H].
  destruct H as [H|[]]. injection H as -> ->. do 4 (apply andb_prop in B as [B ?]).
  apply existsb_exists in H1 as (y & Hy & E). destruct (reg_eqb_spec x y); [subst y|discriminate].
  apply in_flat_map in Hy as (j & Hj & Hy). destruct (isConst t j) eqn:Cj; [|destruct Hy].
  destruct (CF j Hj Cj) as (d'' & o & O & N). unfold constOps in Hy. rewrite O in Hy.
  destruct (single t p d'') eqn:S; [|destruct Hy]. destruct Hy as [->|[]].
  exists c, j, o. repeat split; auto. unfold single. rewrite B, H0. reflexivity.
Qed.
Definition CInv (D : list reg) (s : state) : Prop :=
  forall d x, In (d, x) (copies t copyOk p) -> In d D -> In x D /\ G s x = G s d.
Lemma CInv_exec i D s : In i (concat p) -> (forall r, In r (uses t i) -> isVirt r = true -> In r D) ->
  Inv D s /\ CInv D s -> Inv (defs t i ++ D) (fst (exec t i s)) /\ CInv (defs t i ++ D) (fst (exec t i s)).
Proof using OK LC CF.
  intros Hi U [V W]. split; [apply Inv_exec; assumption|].
  intros d x Hc Id. destruct (copies_In d x Hc) as (c & j & o & Hcp & C & Hj & Cj & O & Sd & Sx).
  destruct (CF j Hj Cj) as (x' & o' & O' & N). rewrite O in O'. injection O' as <- <-.
  destruct (const_flagged j x o Cj O N) as (Dj & _ & _ & Cn & _).
  destruct (copyOf_uses _ _ _ _ C) as [Uc Dc].
  assert (Vx : isVirt x = true) by (now apply andb_prop in Sx as [Sx _]).
  assert (Vd : isVirt d = true) by (now apply andb_prop in Sd as [Sd _]).
  assert (P : forall r, isVirt r = true -> isPhys r = false) by (intros r Hr; unfold isVirt in Hr; now apply negb_true_iff in Hr).
  assert (Nxd : x <> d).
  { intros ->. assert (c = j) by (apply (single_same c j d); auto; [rewrite Dc|rewrite Dj]; now left). congruence. }
  destruct (in_dec reg_dec d (defs t i)) as [Di|Ni].
  - assert (i = c) as -> by (apply (single_same i c d); auto; rewrite Dc; now left).
    split; [apply in_or_app; right; apply U; auto; rewrite Uc; now left|].
    rewrite (exec_copy _ _ _ _ _ C). cbn. rewrite wr_same, wr_ne by exact Nxd. reflexivity.
  - apply in_app_or in Id as [Id|Id]; [contradiction|]. destruct (W d x Hc Id) as [Ix Ex].
    split; [apply in_or_app; now right|].
    rewrite (exec_other t OK i s d Ni) by (right; left; auto).
    destruct (in_dec reg_dec x (defs t i)) as [Dx|Nx].
    + assert (i = j) as -> by (apply (single_same i j x); auto; rewrite Dj; now left).
      rewrite (const_exec j x o) by assumption. cbn. rewrite wr_same, <- Ex. symmetry. apply (V j x o); auto.
    + rewrite (exec_other t OK i s x Nx) by (right; left; auto). exact Ex.
Qed.

Lemma ssaUses_ok m s (U : reg -> Prop) :
  (forall r x, U r -> look m r = Some x -> G s x = G s r) ->
  forall fs pre k i, opfl t (opc i) = pre ++ fs -> length pre = k ->
  (forall j r, (k <= j)%nat -> nth_error (opfl t (opc i)) j = Some FUse -> nth_error (ops i) j = Some (OReg r) -> U r) ->
  exec t (ssaUses m fs k i) s = exec t i s.
Proof using OK.
  intros Hm fs. induction fs as [|x fs IH]; intros pre k i E L HU; cbn [ssaUses]; [reflexivity|].
  assert (N : nth_error (opfl t (opc i)) k = Some x).
  { rewrite E, nth_error_app2 by lia. replace (k - length pre)%nat with O by lia. reflexivity. }
  assert (E' : opfl t (opc i) = (pre ++ [x]) ++ fs) by (rewrite <- app_assoc; exact E).
  assert (L' : length (pre ++ [x]) = S k) by (rewrite app_length; cbn; lia).
  assert (HU' : forall j r, (S k <= j)%nat -> nth_error (opfl t (opc i)) j = Some FUse ->
            nth_error (ops i) j = Some (OReg r) -> U r) by (intros j r Hj; apply HU; lia).
  destruct x; [apply (IH _ _ _ E' L' HU')| |apply (IH _ _ _ E' L' HU')].
  unfold ssaUse. destruct (nth_error (ops i) k) as [[r| | |]|] eqn:O; try apply (IH _ _ _ E' L' HU').
  destruct (look m r) as [x|] eqn:Lk; [|apply (IH _ _ _ E' L' HU')].
  destruct (setOp_exec t OK i k r x s N O) as [EX SI].
  { apply Hm; auto. apply (HU k); auto. }
  rewrite (IH (pre ++ [FUse])); auto. cbn [opc ops]. intros j y Hj Hf Ho. apply (HU' j y Hj Hf).
  clear - Hj Ho. revert k j Hj Ho. induction (ops i) as [|a l IHl]; intros k j Hj Ho; [cbn in Ho; destruct k; exact Ho|].
  destruct k as [|k]; cbn in Ho; destruct j as [|j]; try lia; cbn in *; [exact Ho|]. apply (IHl k); auto. lia.
Qed.
Lemma ssaInst_exec m i s :
  (forall r x, In r (uses t i) -> look m r = Some x -> G s x = G s r) -> exec t (ssaInst t m i) s = exec t i s.
Proof using OK.
  intros H. apply (ssaUses_ok m s (fun r => In r (uses t i)) H _ [] O i eq_refl eq_refl).
  intros j r _ Hf Ho. unfold uses, flagged. apply in_flat_map. exists (FUse, OReg r). split; [|now left].
  clear - Hf Ho. revert j Hf Ho. generalize (ops i). induction (opfl t (opc i)) as [|f fs IH]; intros l j Hf Ho;
    [destruct j; discriminate|].
  destruct l as [|o l]; [destruct j; discriminate|]. destruct j as [|j]; cbn in *.
  - left. congruence.
  - right. eapply IH; eauto.
Qed.

Lemma look_In {A} (m : list (reg * A)) r x : look m r = Some x -> In (r, x) m.
Proof.
  clear. induction m as [|[y a] m IH]; cbn; [discriminate|]. destruct (reg_eqb_spec y r) as [->|].
  - intros H. left. congruence.
  - auto.
Qed.
Lemma copies_virt d x : In (d, x) (copies t copyOk p) -> isVirt d = true.
Proof using CF.
  intros H. apply copies_In in H as (? & ? & ? & _ & _ & _ & _ & _ & S & _). now apply andb_prop in S as [S _].
Qed.
Lemma ssa_block b : (forall i, In i b -> In i (concat p)) -> forall D s s',
  Inv D s -> CInv D s -> okB t b D s -> agree All s s' ->
  outs_agree (runB t b s) (runB t (map (ssaInst t (copies t copyOk p)) b) s').
Proof using OK LC CF.
  induction b as [|i b IH]; intros Hb D s s' V W O A; [split; auto|]. cbn [map]. cbn [okB] in O. destruct O as [O1 O2].
  assert (Hi : In i (concat p)) by (apply Hb; now left).
  destruct (CInv_exec i D s Hi O1 (conj V W)) as [V' W'].
  apply cons_agree; auto.
  - apply ssaInst_exec. intros r x Ur L. apply look_In in L. apply W; auto. apply O1; auto. eapply copies_virt; eauto.
  - intros s1' E1 A1. apply (IH (fun j H => Hb j (or_intror H)) (defs t i ++ D)); auto. apply O2. now rewrite E1.
Qed.

Lemma nth_in_concat k b i : nth_error p k = Some b -> In i b -> In i (concat p).
Proof. clear. intros H I. apply in_concat. exists b. split; [eapply nth_error_In; eauto|exact I]. Qed.

Theorem ssa_same : strict t p -> sameFromEntry t p (applySSAPropagation t copyOk p).
Proof using OK LC CF.
  intros ST. apply (strict_sim t p _ (fun _ D s s' => Inv D s /\ CInv D s /\ agree All s s')); auto.
  - unfold applySSAPropagation. now rewrite map_length.
  - intros k D s s' (_ & _ & A). eapply agree_weaken; [|exact A]. unfold All; auto.
  - intros k b b' D s s' E1 E2 (V & W & A) O. unfold applySSAPropagation in E2. rewrite nth_error_map, E1 in E2.
    injection E2 as <-.
    destruct (ssa_block b (fun i => nth_in_concat k b i E1) D s s' V W O A) as [X Y].
    split; [exact Y|]. split; [eapply agree_weaken; [|exact X]; unfold All; auto|]. intros k' _.
    destruct (runB_inv t (fun D s => Inv D s /\ CInv D s) b) with (D := D) (s := s) as [V' W']; auto.
    intros i D1 s1 Hi U VW. apply CInv_exec; auto. eapply nth_in_concat; eauto.
  - intros s. split; [intros i d o _ _ _ _ []|]. split; [intros d x _ []|apply agree_refl].
Qed.

(** ** machineConstantCSE *)
(** constant loads that do not depend on where they stand *)
Hypothesis NP : forall i, In i (concat p) -> isConst t i = true -> pcRel (flagsOf t i) = false.
Hypothesis CT : okControl t.

Definition kval (o : nat) (src : operand) : Z := pureVal t o [] 0 [AHole; ATok src] 0.
Lemma kval_const i d o : In i (concat p) -> isConst t i = true -> ops i = [OReg d; o] -> constVal i = kval (opc i) o.
Proof using NP. clear OK LC CF CT. intros Hi C E. unfold constVal, kval, placeOf. rewrite NP, E by assumption. reflexivity. Qed.

Lemma exec_noterm i s : term (flagsOf t i) = false -> snd (exec t i s) = Next.
Proof using CT.
  clear OK LC CF NP. intros H. unfold exec. destruct (copyOf t i) as [[? ?]|]; [reflexivity|].
  destruct (call (flagsOf t i)); [reflexivity|].
  destruct (stkLoad i) as [[? ?]|]; [reflexivity|]. destruct (stkStore i) as [[? ?]|]; [reflexivity|].
  destruct (sideEffect (flagsOf t i)); [|reflexivity]. cbn. apply CT. exact H.
Qed.
Lemma straight_cons i b : straight t (i :: b) -> straight t b /\ (b <> [] -> term (flagsOf t i) = false).
Proof.
  clear. intros H. split.
  - intros pre j post -> Np. apply (H (i :: pre) j post); auto.
  - intros Nb. apply (H [] i b); auto.
Qed.
Lemma defB_mono b : forall D s r, In r D -> In r (defB t b D s).
Proof.
  clear. induction b as [|i b IH]; intros D s r H; cbn [defB]; [exact H|].
  destruct (exec t i s) as [s1 []]; [apply IH| |]; apply in_or_app; now right.
Qed.
Lemma straight_def b : straight t b -> forall D s r, In r (flat_map (defs t) b) -> In r (defB t b D s).
Proof using CT.
  clear OK LC CF NP. induction b as [|i b IH]; intros St D s r H; [destruct H|].
  apply straight_cons in St as [St Nt]. cbn [defB]. cbn [flat_map] in H. apply in_app_or in H.
  destruct b as [|j b].
  - destruct H as [H|[]]. destruct (exec t i s) as [s1 []]; cbn [defB]; apply in_or_app; now left.
  - assert (X : snd (exec t i s) = Next) by (apply exec_noterm, Nt; discriminate).
    destruct (exec t i s) as [s1 c]. cbn in X. subst c. destruct H as [H|H].
    + apply defB_mono. apply in_or_app. now left.
    + apply IH; auto.
Qed.

(** the same as [strict_sim] for a relation that does not need [strict] *)
Lemma entry_sim q (R : nat -> state -> state -> Prop) :
  length p = length q ->
  (forall k s s', R k s s' -> agree All s s') ->
  (forall k b b' s s', nth_error p k = Some b -> nth_error q k = Some b' -> R k s s' ->
     outs_agree (runB t b s) (runB t b' s') /\
     forall k', after k (snd (runB t b s)) = Some k' -> R k' (fst (runB t b s)) (fst (runB t b' s'))) ->
  (forall s, R O s s) -> sameFromEntry t p q.
Proof.
  clear. intros EL HA HB R0 n s. specialize (R0 s).
  enough (X : forall n k s s', R k s s' ->
            agree All (fst (runF t p n k s)) (fst (runF t q n k s')) /\ snd (runF t p n k s) = snd (runF t q n k s')).
  { destruct (X n O s s R0) as [A B]. apply (agree_observed t All); auto. intros m _. exact I. }
  clear n s R0. intros n. induction n as [|n IH]; intros k s s' HR; cbn [runF]; [eauto|].
  destruct (nth_error p k) as [b|] eqn:E1.
  - destruct (nth_error q k) as [b'|] eqn:E2.
    + destruct (HB _ _ _ _ _ E1 E2 HR) as ([A B] & C).
      destruct (runB t b s) as [s1 c], (runB t b' s') as [s1' c']. cbn [fst snd] in *. subst c'.
      destruct (after k c) as [k'|]; auto.
    + exfalso. apply nth_error_None in E2. assert (k < length p)%nat by (apply nth_error_Some; congruence). lia.
  - destruct (nth_error q k) as [b'|] eqn:E2; [|cbn; eauto].
    exfalso. apply nth_error_None in E1. assert (k < length q)%nat by (apply nth_error_Some; congruence). lia.
Qed.

(** a virtual register loaded with a constant is not written again later in the same block *)
Definition noReload (b : list inst) : Prop :=
  forall pre i post d, b = pre ++ i :: post -> isConst t i = true -> In d (defs t i) -> isVirt d = true ->
    ~ In d (flat_map (defs t) post).
Lemma noReload_cons i b : noReload (i :: b) ->
  noReload b /\ (isConst t i = true -> forall d, In d (defs t i) -> isVirt d = true -> ~ In d (flat_map (defs t) b)).
Proof.
  clear. intros H. split.
  - intros pre j post d ->. apply (H (i :: pre) j post d eq_refl).
  - intros C d. apply (H [] i b d eq_refl C).
Qed.

Lemma lookC_In m o src d : lookC m o src = Some d -> In (o, src, d) m.
Proof.
  clear. induction m as [|[[o' s'] d'] m IH]; cbn; [discriminate|].
  destruct (Nat.eqb_spec o' o) as [->|]; cbn; [|auto].
  destruct (operand_eqb_spec s' src) as [->|]; [|auto]. intros H. left. congruence.
Qed.
Lemma common_In o src d : In (o, src, d) (common t p) ->
  single t p d = true /\ exists b0 p' i, p = b0 :: p' /\ In i b0 /\ isConst t i = true /\ ops i = [OReg d; src] /\ opc i = o.
Proof using CF.
  clear OK LC NP CT. intros H. unfold common in H. destruct p as [|b0 p'] eqn:Ep; [destruct H|].
  apply in_flat_map in H as (i & Hi & H). destruct (isConst t i) eqn:C; [|destruct H].
  assert (I : In i (concat (b0 :: p'))) by (cbn; apply in_or_app; now left).
  destruct (CF i I C) as (d' & o' & O & N). unfold constOps in H. rewrite O in H.
  destruct (single t (b0 :: p') d') eqn:S; [|destruct H]. destruct H as [H|[]]. injection H as <- <- <-.
  split; [exact S|]. exists b0, p', i. auto 6.
Qed.

Lemma cse_const_block b : (forall i, In i b -> In i (concat p)) -> noReload b ->
  forall cm lm D s s',
  (forall o src d, In (o, src, d) cm -> In (o, src, d) (common t p) /\ In d D) ->
  (forall o src d, In (o, src, d) lm -> G s d = kval o src /\ isVirt d = true /\ ~ In d (flat_map (defs t) b)) ->
  Inv D s -> agree All s s' ->
  outs_agree (runB t b s) (runB t (constCse t cm lm b) s').
Proof using OK LC CF NP.
  clear CT. induction b as [|i b IH]; intros Hb NR cm lm D s s' HC HL V A; [split; auto|]. cbn [constCse].
  assert (Hi : In i (concat p)) by (apply Hb; now left). apply noReload_cons in NR as [NR NRi].
  specialize (IH (fun j H => Hb j (or_intror H)) NR). clear NR Hb.
  assert (V' := Inv_exec i D s Hi V).
  assert (Next1 : forall lm', (forall o src d, In (o, src, d) lm' ->
             In (o, src, d) lm \/ G (fst (exec t i s)) d = kval o src /\ isVirt d = true /\ ~ In d (flat_map (defs t) b)) ->
           forall i', exec t i' s = exec t i s ->
           outs_agree (runB t (i :: b) s) (runB t (i' :: constCse t cm lm' b) s')).
  { intros lm' Hlm i' EX. apply cons_agree; auto. intros s1' E1 A1. apply (IH cm lm' (defs t i ++ D)); auto.
    - intros o src d H. destruct (HC o src d H). split; [assumption|]. apply in_or_app. now right.
    - intros o src d H. destruct (Hlm o src d H) as [H'|H']; [|exact H'].
      destruct (HL o src d H') as (X & Y & Z). split; [|split; [exact Y|]].
      + rewrite exec_other; auto.
        * intros I. apply Z. cbn. apply in_or_app. now left.
        * right. left. unfold isVirt in Y. now apply negb_true_iff in Y.
      + intros I. apply Z. cbn. apply in_or_app. now right. }
  destruct (isConst t i) eqn:C; [|apply Next1; auto].
  destruct (CF i Hi C) as (d & src & O & N). unfold constOps. rewrite O.
  assert (EX := const_exec i d src s C O N). assert (KV := kval_const i d src Hi C O).
  destruct (const_flagged i d src C O N) as (Dd & _).
  assert (Copy : forall x, G s x = kval (opc i) src -> exec t (asCopy i d x) s = exec t i s).
  { intros x Gx. rewrite EX. unfold asCopy, copyInst. rewrite (exec_copy _ _ _ _ _ (sel_copy t OK d x _)).
    rewrite Gx, KV. reflexivity. }
  destruct (lookC cm (opc i) src) as [x|] eqn:L1.
  - apply Next1; auto. apply Copy. apply lookC_In in L1. destruct (HC _ _ _ L1) as [Cx Dx].
    apply common_In in Cx as (Sx & b0 & p' & j & Ep & Hj & Cj & Oj & Pj).
    assert (Ij : In j (concat p)) by (rewrite Ep; cbn; apply in_or_app; now left).
    rewrite (V j x src Ij Cj Oj Sx Dx). rewrite (kval_const j x src Ij Cj Oj). now rewrite Pj.
  - destruct (lookC lm (opc i) src) as [x|] eqn:L2.
    + apply Next1; auto. apply Copy. apply lookC_In in L2. now apply HL in L2.
    + apply Next1; auto. intros o src' d'. destruct (isPhys d) eqn:Pd; [auto|].
      intros [H|H]; [|auto]. injection H as <- <- <-. right. rewrite EX. cbn. rewrite wr_same. split; [exact KV|].
      assert (Vd : isVirt d = true) by (unfold isVirt; now rewrite Pd). split; [exact Vd|].
      apply NRi; auto. rewrite Dd. now left.
Qed.

Theorem constCse_same : (forall b, In b p -> noReload b) -> (forall b0 p', p = b0 :: p' -> straight t b0) ->
  sameFromEntry t p (machineConstantCSE t p).
Proof using OK LC CF NP CT.
  intros NR St.
  set (R := fun (k : nat) s s' => exists D, Inv D s /\ agree All s s' /\
              (k <> O -> forall o src d, In (o, src, d) (common t p) -> In d D)).
  apply (entry_sim _ R).
  - unfold machineConstantCSE. destruct p; [reflexivity|]. cbn. now rewrite map_length.
  - intros k s s' (D & _ & A & _). exact A.
  - intros k b b' s s' E1 E2 (D & V & A & HC).
    assert (Hb : forall i, In i b -> In i (concat p)) by (intros i; eapply nth_in_concat; exact E1).
    assert (NRb : noReload b) by (apply NR; eapply nth_error_In; exact E1).
    assert (X : outs_agree (runB t b s) (runB t b' s')).
    { unfold machineConstantCSE in E2. destruct p as [|b0 p'] eqn:Ep; [destruct k; discriminate|]. rewrite <- Ep in *.
      destruct k as [|k]; cbn in E2.
      - rewrite Ep in E1. cbn in E1. injection E1 as <-. injection E2 as <-.
        eapply cse_const_block; eauto; intros ? ? ? [].
      - rewrite nth_error_map in E2. assert (nth_error p' k = Some b) by (rewrite Ep in E1; exact E1).
        rewrite H in E2. injection E2 as <-. apply (cse_const_block b Hb NRb _ [] D s s'); auto; [|intros ? ? ? []].
        intros o src d I. split; [exact I|]. eapply HC; eauto. }
    split; [exact X|]. intros k' _. exists (defB t b D s). split; [|split; [apply X|]].
    + destruct X as [_ X].
      assert (Y : forall b, (forall i, In i b -> In i (concat p)) -> forall D s, Inv D s -> Inv (defB t b D s) (fst (runB t b s))).
      { clear - OK LC CF. intros b. induction b as [|i b IH]; intros Hb D s V; [exact V|]. cbn [defB runB].
        assert (V' := Inv_exec i D s (Hb i (or_introl eq_refl)) V).
        destruct (exec t i s) as [s1 []]; cbn in V'; auto. apply IH; auto. intros j Hj. apply Hb. now right. }
      apply Y; auto.
    + intros _ o src d I. destruct k as [|k].
      * apply common_In in I as (_ & b0 & p' & i & Ep & Hi & Ci & Oi & _).
        assert (b0 = b) by (rewrite Ep in E1; cbn in E1; congruence). subst b0.
        apply straight_def; [eapply St; exact Ep|]. apply in_flat_map. exists i. split; [exact Hi|].
        destruct (CF i (Hb i Hi) Ci) as (d' & o' & O & N). rewrite Oi in O. injection O as <- <-.
        destruct (const_flagged i d src Ci Oi N) as (-> & _). now left.
      * apply defB_mono. eapply HC; eauto.
  - intros s. exists []. split; [intros i d o _ _ _ _ []|]. split; [apply agree_refl|]. intros []; reflexivity.
Qed.

(** ** machineConstantHoist *)
Variable hot : nat -> bool.
Variable order : list inst -> list inst.
Hypothesis ORD : forall l, incl (order l) l.
Variables fresh maxCount here : nat.
(** virtual registers from [fresh] on do not occur *)
Hypothesis FR : forall i r, In i (concat p) -> In r (defs t i) -> forall v, r = Virt v -> (v < fresh)%nat.

Let l := picks t hot order p maxCount.
Let hs := flat_map dstOf l.

Lemma candidates_In q k bs i : In i (candidates t hot q k bs) -> In i (concat bs) /\ hoistable t q i = true.
Proof.
  clear. revert k. induction bs as [|b bs IH]; intros k H; cbn [candidates concat] in *; [destruct H|].
  apply in_app_or in H as [H|H].
  - destruct (hot k); [|destruct H]. apply filter_In in H as [H1 H2]. split; [|exact H2]. apply in_or_app. now left.
  - apply IH in H as [H1 H2]. split; [|exact H2]. apply in_or_app. now right.
Qed.
Lemma firstn_incl {A} n (x : list A) : incl (firstn n x) x.
Proof. clear. revert x. induction n; intros [|a x] y H; cbn in *; [destruct H|destruct H|destruct H|]. destruct H; auto. right. now apply IHn. Qed.

(** the hoisted instructions: constant loads outside the entry block, the only definition of their register *)
Lemma picks_In h : In h l -> exists b0 p' d o, p = b0 :: p' /\ In h (concat p') /\ In h (concat p) /\ isConst t h = true /\
  ops h = [OReg d; o] /\ (forall r, o <> OReg r) /\ single t p d = true /\ dstOf h = [d].
Proof using CF ORD.
  clear OK LC NP CT FR. intros H. unfold l, picks in H. destruct p as [|b0 p'] eqn:Ep; [destruct H|].
  apply firstn_incl in H. apply ORD in H. apply candidates_In in H as [H Hh]. apply andb_prop in Hh as [C S].
  assert (I : In h (concat (b0 :: p'))) by (cbn; apply in_or_app; now right).
  destruct (CF h I C) as (d & o & O & N). exists b0, p', d, o. unfold constOps in S. rewrite O in S.
  unfold dstOf, constOps. rewrite O. auto 9.
Qed.
Lemma entry_noDef b0 p' d h : p = b0 :: p' -> In h (concat p') -> In d (defs t h) -> single t p d = true ->
  ~ In d (flat_map (defs t) b0).
Proof.
  clear. intros -> Hh Dh S. apply andb_prop in S as [_ S]. apply Nat.leb_le in S. unfold defCount in S. cbn [concat] in S.
  rewrite flat_map_app, count_occ_app in S. intros I. apply (count_occ_In reg_dec) in I.
  assert (J : In d (flat_map (defs t) (concat p'))) by (apply in_flat_map; eauto).
  apply (count_occ_In reg_dec) in J. lia.
Qed.

(** the constants are in place *)
Definition held (s' : state) : Prop := forall h d o, In h l -> ops h = [OReg d; o] -> G s' d = constVal h.
Definition LD (D : list reg) (r : reg) : Prop := isPhys r = true \/ In r D.
Definition fromP (D : list reg) : Prop := forall r, In r D -> exists i, In i (concat p) /\ In r (defs t i).

Lemma fromP_app i D : In i (concat p) -> fromP D -> fromP (defs t i ++ D).
Proof. clear. intros Hi H r Hr. apply in_app_or in Hr as [Hr|Hr]; eauto. Qed.
Lemma exec_LD i D s s' : agree (LD D) s s' -> (forall r, In r (uses t i) -> isVirt r = true -> In r D) ->
  agree (LD (defs t i ++ D)) (fst (exec t i s)) (fst (exec t i s')) /\ snd (exec t i s) = snd (exec t i s').
Proof using OK.
  intros A U. destruct (exec_agree t OK (LD D) i s s' A) as [X Y].
  - intros r Hr. destruct (isPhys r) eqn:P; [now left|]. right. apply U; auto. unfold isVirt. now rewrite P.
  - intros _ n _. now left.
  - split; [|exact Y]. eapply agree_weaken; [|exact X]. intros r [H|H]; [left; now left|].
    apply in_app_or in H as [H|H]; [right; now left|left; now right].
Qed.

(** running the hoisted instructions *)
Lemma moved_const h : In h l -> isConst t (moved here h) = true /\ constVal (moved here h) = constVal h.
Proof using CF NP ORD.
  intros H. destruct (picks_In h H) as (b0 & p' & d & o & Ep & _ & Hp & C & O & N & S & _). split; [exact C|].
  unfold constVal, placeOf. change (flagsOf t (moved here h)) with (flagsOf t h). rewrite NP by assumption. reflexivity.
Qed.
Lemma run_hoisted l1 : (forall h, In h l1 -> In h l) -> forall s',
  snd (runB t (map (moved here) l1) s') = Next /\
  slot (fst (runB t (map (moved here) l1) s')) = slot s' /\ M (fst (runB t (map (moved here) l1) s')) = M s' /\
  trace (fst (runB t (map (moved here) l1) s')) = trace s' /\
  (forall r, ~ In r (flat_map dstOf l1) -> G (fst (runB t (map (moved here) l1) s')) r = G s' r) /\
  (forall h d o, In h l1 -> ops h = [OReg d; o] -> G (fst (runB t (map (moved here) l1) s')) d = constVal h).
Proof using OK LC CF NP ORD.
  induction l1 as [|h l1 IH]; intros Hl s'; [cbn; repeat split; intros; contradiction|]. cbn [map runB].
  assert (Hh : In h l) by (apply Hl; now left). destruct (moved_const h Hh) as [C V].
  destruct (picks_In h Hh) as (b0 & p' & d & o & Ep & _ & Hp & Ch & O & N & S & Dst).
  rewrite (const_exec (moved here h) d o s' C O N), V.
  set (s1 := State (wr (G s') d (constVal h)) (slot s') (M s') (trace s')).
  destruct (IH (fun h' H => Hl h' (or_intror H)) s1) as (A1 & A2 & A3 & A4 & A5 & A6).
  split; [exact A1|]. split; [exact A2|]. split; [exact A3|]. split; [exact A4|]. split.
  - intros r Hr. cbn [flat_map] in Hr. rewrite Dst in Hr. rewrite A5 by (intros I; apply Hr; now right).
    cbn. apply wr_ne. intros ->. apply Hr. now left.
  - intros h' d' o' [<-|H'] O'.
    + rewrite O in O'. injection O' as <- <-. destruct (in_dec reg_dec d (flat_map dstOf l1)) as [I|I].
      * apply in_flat_map in I as (h2 & H2 & D2).
        assert (Hl2 : In h2 l) by (apply Hl; now right).
        destruct (picks_In h2 Hl2) as (_ & _ & d2 & o2 & _ & _ & Hp2 & C2 & O2 & N2 & _ & Dst2).
        rewrite Dst2 in D2. destruct D2 as [->|[]]. rewrite (A6 h2 d o2 H2 O2). f_equal.
        apply (single_same h2 h d S Hp2 Hp); [destruct (const_flagged h2 d o2 C2 O2 N2) as (-> & _)|
                                              destruct (const_flagged h d o Ch O N) as (-> & _)]; now left.
      * rewrite A5 by exact I. cbn. apply wr_same.
    + apply (A6 h' d' o' H' O').
Qed.

Lemma runB_app b1 b2 s : runB t (b1 ++ b2) s =
  match snd (runB t b1 s) with Next => runB t b2 (fst (runB t b1 s)) | _ => runB t b1 s end.
Proof.
  clear. revert s. induction b1 as [|i b1 IH]; intros s; [reflexivity|]. cbn [app runB].
  destruct (exec t i s) as [s1 []]; [apply IH|reflexivity|reflexivity].
Qed.

(** a piece of the entry block, in lock step *)
Lemma same_block b : (forall i, In i b -> In i (concat p)) -> forall D s s',
  agree (LD D) s s' -> Inv D s -> fromP D -> okB t b D s ->
  agree (LD (defB t b D s)) (fst (runB t b s)) (fst (runB t b s')) /\ snd (runB t b s) = snd (runB t b s') /\
  Inv (defB t b D s) (fst (runB t b s)) /\ fromP (defB t b D s).
Proof using OK LC CF.
  clear NP CT ORD FR l hs. induction b as [|i b IH]; intros Hb D s s' A V F O; [cbn; auto|]. cbn [okB] in O. destruct O as [O1 O2].
  assert (Hi : In i (concat p)) by (apply Hb; now left).
  destruct (exec_LD i D s s' A O1) as [X Y]. assert (V' := Inv_exec i D s Hi V). assert (F' := fromP_app i D Hi F).
  cbn [runB defB]. destruct (exec t i s) as [s1 c], (exec t i s') as [s1' c']. cbn [fst snd] in *. subst c'.
  destruct c; [|cbn; auto|cbn; auto]. apply IH; auto. intros j Hj. apply Hb. now right.
Qed.
Lemma okB_app b1 b2 : forall D s, okB t (b1 ++ b2) D s ->
  okB t b1 D s /\ (snd (runB t b1 s) = Next -> okB t b2 (defB t b1 D s) (fst (runB t b1 s))).
Proof.
  clear. induction b1 as [|i b1 IH]; intros D s H; cbn [app okB runB defB] in *; [auto|].
  destruct H as [H1 H2]. destruct (exec t i s) as [s1 c]. cbn [fst snd] in *.
  destruct c; [|split; [split; [exact H1|discriminate]|discriminate]|split; [split; [exact H1|discriminate]|discriminate]].
  specialize (H2 eq_refl). apply IH in H2 as [H2 H3]. auto.
Qed.
Lemma defB_app b1 b2 : forall D s, snd (runB t b1 s) = Next ->
  defB t (b1 ++ b2) D s = defB t b2 (defB t b1 D s) (fst (runB t b1 s)).
Proof.
  clear. induction b1 as [|i b1 IH]; intros D s H; cbn [app defB runB] in *; [reflexivity|].
  destruct (exec t i s) as [s1 c]. cbn [fst snd] in *. destruct c; [|discriminate|discriminate]. apply IH. exact H.
Qed.
Lemma run_noterm b : (forall i, In i b -> term (flagsOf t i) = false) -> forall s, snd (runB t b s) = Next.
Proof using CT.
  clear OK LC CF NP ORD FR l hs. induction b as [|i b IH]; intros H s; [reflexivity|]. cbn [runB].
  assert (X := exec_noterm i s (H i (or_introl eq_refl))). destruct (exec t i s) as [s1 c]. cbn in X. subst c.
  apply IH. intros j Hj. apply H. now right.
Qed.

(** the other blocks *)
Lemma indexOf_spec (x : list reg) r k : match indexOf x r k with Some v => In r x /\ (k <= v)%nat | None => ~ In r x end.
Proof.
  clear. revert k. induction x as [|y x IH]; intros k; cbn; [auto|]. destruct (reg_eqb_spec y r) as [->|N].
  - split; [now left|lia].
  - specialize (IH (S k)). destruct (indexOf x r (S k)); [split; [now right|lia]|]. intros [H|H]; auto.
Qed.
Lemma hs_In d : In d hs -> exists h o, In h l /\ ops h = [OReg d; o] /\ In h (concat p) /\ isConst t h = true /\
  (forall r, o <> OReg r) /\ single t p d = true.
Proof using CF ORD.
  intros H. apply in_flat_map in H as (h & Hh & D). destruct (picks_In h Hh) as (_ & _ & d' & o & _ & _ & Hp & C & O & N & S & Dst).
  rewrite Dst in D. destruct D as [->|[]]. exists h, o. auto 7.
Qed.
Lemma other_block b : (forall i, In i b -> In i (concat p)) -> forall D s s',
  agree (LD D) s s' -> Inv D s -> fromP D -> okB t b D s -> held s' ->
  let b' := map (unhoist t hs fresh) b in
  agree (LD (defB t b D s)) (fst (runB t b s)) (fst (runB t b' s')) /\ snd (runB t b s) = snd (runB t b' s') /\
  Inv (defB t b D s) (fst (runB t b s)) /\ fromP (defB t b D s) /\ held (fst (runB t b' s')).
Proof using OK LC CF ORD FR.
  induction b as [|i b IH]; intros Hb D s s' A V F O HH; [cbn; auto|]. cbn [okB] in O. destruct O as [O1 O2].
  assert (Hi : In i (concat p)) by (apply Hb; now left). specialize (IH (fun j H => Hb j (or_intror H))).
  assert (V' := Inv_exec i D s Hi V). assert (F' := fromP_app i D Hi F).
  assert (Keep : ~ (exists d, In d (defs t i) /\ In d hs) ->
    agree (LD (defB t (i :: b) D s)) (fst (runB t (i :: b) s)) (fst (runB t (i :: map (unhoist t hs fresh) b) s')) /\
    snd (runB t (i :: b) s) = snd (runB t (i :: map (unhoist t hs fresh) b) s') /\
    Inv (defB t (i :: b) D s) (fst (runB t (i :: b) s)) /\ fromP (defB t (i :: b) D s) /\
    held (fst (runB t (i :: map (unhoist t hs fresh) b) s'))).
  { intros ND. destruct (exec_LD i D s s' A O1) as [X Y].
    assert (H1 : held (fst (exec t i s'))).
    { intros h d o Hh Oh. rewrite exec_other; [apply (HH h d o Hh Oh)|exact OK| |].
      - intros I. apply ND. exists d. split; [exact I|]. apply in_flat_map. exists h. split; [exact Hh|].
        unfold dstOf, constOps. rewrite Oh. now left.
      - right. left. destruct (picks_In h Hh) as (_ & _ & d' & o' & _ & _ & _ & _ & Oh' & _ & S & _).
        rewrite Oh in Oh'. injection Oh' as <- <-. apply andb_prop in S as [S _]. unfold isVirt in S. now apply negb_true_iff in S. }
    cbn [runB defB]. destruct (exec t i s) as [s1 c], (exec t i s') as [s1' c']. cbn [fst snd] in *. subst c'.
    destruct c; [|cbn; auto|cbn; auto]. apply IH; auto. }
  cbn zeta. cbn [map].
  destruct (isConst t i) eqn:C.
  - destruct (CF i Hi C) as (d & o & Oi & N). destruct (const_flagged i d o C Oi N) as (Di & _).
    unfold unhoist at 1 3 5. rewrite C. unfold constOps. rewrite Oi.
    assert (IX := indexOf_spec hs d fresh). destruct (indexOf hs d fresh) as [v|].
    + destruct IX as [Ih Hv]. destruct (hs_In d Ih) as (h & o' & Hh & Oh & Hhp & Ch & Nh & Sh).
      assert (i = h) as Eih.
      { destruct (const_flagged h d o' Ch Oh Nh) as (Dh & _).
        apply (single_same i h d Sh Hi Hhp); [rewrite Di|rewrite Dh]; now left. }
      assert (EX := const_exec i d o s C Oi N).
      assert (EC : copyOf t (copyInst opcCopy (Virt v) d (place i)) = Some (Virt v, d)).
      { destruct OK as (F1 & F2 & _). unfold copyOf, copyInst, flagsOf. cbn [opc ops]. rewrite F1, F2. reflexivity. }
      cbn [runB defB]. rewrite EX, (exec_copy _ _ _ _ _ EC). rewrite EX in V'. cbn [fst] in V'. rewrite Di in *.
      assert (Fresh : forall r, In r (d :: D) -> r <> Virt v).
      { intros r Hr E. destruct (F' r Hr) as (j & Hj & Dj). specialize (FR j r Hj Dj v E). lia. }
      apply IH; auto.
      * destruct A as [A1 A2 A3 A4]. constructor; cbn; auto. intros r Hr.
        assert (Nr : r <> Virt v).
        { destruct Hr as [Hr|Hr]; [intros ->; discriminate|]. apply Fresh. exact Hr. }
        rewrite (wr_ne _ (Virt v)) by exact Nr. unfold wr. destruct (reg_eqb_spec r d) as [->|Nd].
        -- rewrite (HH h d o' Hh Oh). now rewrite Eih.
        -- apply A1. destruct Hr as [Hr|[Hr|Hr]]; [now left|congruence|now right].
      * cbn [app]. specialize (O2 ltac:(now rewrite EX)). rewrite EX in O2. exact O2.
      * intros h2 d2 o2 H2 Oh2. cbn. rewrite wr_ne; [apply (HH h2 d2 o2 H2 Oh2)|]. intros E.
        destruct (picks_In h2 H2) as (_ & _ & d' & o3 & _ & _ & Hp2 & C2 & Oh3 & N2 & S & _).
        rewrite Oh2 in Oh3. injection Oh3 as <- <-. destruct (const_flagged h2 d2 o2 C2 Oh2 N2) as (D2 & _).
        assert (X : (v < fresh)%nat) by (eapply FR; [exact Hp2|rewrite D2; now left|exact E]). lia.
    + apply Keep. intros (d' & I & J). rewrite Di in I. destruct I as [<-|[]]. contradiction.
  - unfold unhoist at 1 3 5. rewrite C. apply Keep. intros (d & I & J).
    destruct (hs_In d J) as (h & o' & Hh & Oh & Hhp & Ch & Nh & Sh).
    assert (i = h); [|congruence]. destruct (const_flagged h d o' Ch Oh Nh) as (Dh & _).
    apply (single_same i h d Sh Hi Hhp I). rewrite Dh. now left.
Qed.

Lemma hoist_length q : length q = length (machineConstantHoist t hot order fresh maxCount here q).
Proof. clear. unfold machineConstantHoist. destruct q; [reflexivity|]. cbn. now rewrite map_length. Qed.
Lemma nth_cons {A} (x : list A) k a : nth_error x k = Some a -> exists b x', x = b :: x'.
Proof. clear. destruct x; [destruct k; discriminate|eauto]. Qed.
Theorem hoist_same : strict t p -> (forall b0 p', p = b0 :: p' -> b0 <> [] /\ straight t b0) ->
  sameFromEntry t p (machineConstantHoist t hot order fresh maxCount here p).
Proof using OK LC CF NP CT ORD FR.
  intros ST SB.
  set (R := fun (k : nat) D s s' => Inv D s /\ agree (LD D) s s' /\ fromP D /\ (k <> O -> held s')).
  apply (strict_sim t p _ R); auto.
  - apply hoist_length.
  - intros k D s s' (_ & A & _). eapply agree_weaken; [|exact A]. intros r Hr. now left.
  - intros k b b' D s s' E1 E2 (V & A & F & HH) O.
    assert (Hb : forall i, In i b -> In i (concat p)) by (intros i; eapply nth_in_concat; exact E1).
    enough (X : agree (LD (defB t b D s)) (fst (runB t b s)) (fst (runB t b' s')) /\ snd (runB t b s) = snd (runB t b' s') /\
                Inv (defB t b D s) (fst (runB t b s)) /\ fromP (defB t b D s) /\ held (fst (runB t b' s'))).
    { destruct X as (X1 & X2 & X3 & X4 & X5). split; [exact X2|].
      split; [eapply agree_weaken; [|exact X1]; intros r Hr; now left|]. intros k' _. unfold R. auto. }
    destruct (nth_cons _ _ _ E1) as (b0 & p' & Ep).
    assert (E2' : nth_error (insertBeforeLast (map (moved here) l) b0 :: map (map (unhoist t hs fresh)) p') k = Some b').
    { rewrite <- E2. unfold machineConstantHoist. unfold hs, l. rewrite Ep. reflexivity. }
    clear E2. destruct k as [|k]; cbn in E2'.
    + assert (b0 = b) by (rewrite Ep in E1; cbn in E1; congruence). subst b0. injection E2' as <-.
      destruct (SB b p' Ep) as [NE STb]. clear HH.
      unfold insertBeforeLast. destruct (rev b) as [|x r] eqn:Er.
      { exfalso. apply NE. rewrite <- (rev_involutive b), Er. reflexivity. }
      assert (Eb : b = rev r ++ [x]) by (rewrite <- (rev_involutive b), Er; reflexivity).
      set (pre := rev r) in *. clearbody pre. clear Er r.
      assert (NT : forall i, In i pre -> term (flagsOf t i) = false).
      { intros i Hi. apply in_split in Hi as (u & w & ->). apply (STb u i (w ++ [x])).
        - rewrite Eb, <- app_assoc. reflexivity.
        - destruct w; discriminate. }
      assert (Hpre : forall i, In i pre -> In i (concat p)) by (intros i Hi; apply Hb; rewrite Eb; apply in_or_app; now left).
      assert (Hx : forall i, In i [x] -> In i (concat p)) by (intros i Hi; apply Hb; rewrite Eb; apply in_or_app; now right).
      assert (NX1 := run_noterm pre NT s). assert (NX2 := run_noterm pre NT s').
      rewrite Eb in O. apply okB_app in O as [Op Ox]. specialize (Ox NX1).
      destruct (same_block pre Hpre D s s' A V F Op) as (X1 & X2 & X3 & X4).
      rewrite Eb. rewrite !runB_app, NX1, NX2, defB_app by exact NX1.
      set (D1 := defB t pre D s) in *. set (s1 := fst (runB t pre s)) in *. set (s1' := fst (runB t pre s')) in *.
      destruct (run_hoisted l (fun h H => H) s1') as (H1 & H2 & H3 & H4 & H5 & H6).
      rewrite H1. set (s2' := fst (runB t (map (moved here) l) s1')) in *.
      assert (A2 : agree (LD D1) s1 s2').
      { destruct X1 as [Y1 Y2 Y3 Y4]. constructor; try congruence. intros q Hq.
        destruct (in_dec reg_dec q (flat_map dstOf l)) as [I|I]; [|rewrite H5 by exact I; auto].
        destruct (hs_In q I) as (h & o & Hh & Oh & Hhp & Ch & Nh & Sh). rewrite (H6 h q o Hh Oh).
        apply (X3 h q o Hhp Ch Oh Sh). destruct Hq as [Hq|Hq]; [|exact Hq].
        apply andb_prop in Sh as [Sh _]. unfold isVirt in Sh. rewrite Hq in Sh. discriminate. }
      destruct (same_block [x] Hx D1 s1 s2' A2 X3 X4 Ox) as (Z1 & Z2 & Z3 & Z4).
      split; [exact Z1|]. split; [exact Z2|]. split; [exact Z3|]. split; [exact Z4|].
      intros h d o Hh Oh. rewrite <- (H6 h d o Hh Oh).
      destruct (picks_In h Hh) as (b0' & p'' & d' & o' & Ep' & Hr & Hp & Ch & Oh' & Nh & Sh & _).
      rewrite Oh in Oh'. injection Oh' as <- <-. rewrite Ep in Ep'. injection Ep' as <- <-.
      destruct (const_flagged h d o Ch Oh Nh) as (Dh & _).
      assert (Nd : ~ In d (defs t x)).
      { intros I. apply (entry_noDef b p' d h Ep Hr); auto; [rewrite Dh; now left|].
        apply in_flat_map. exists x. split; [rewrite Eb; apply in_or_app; right; now left|exact I]. }
      cbn [runB]. assert (G (fst (exec t x s2')) d = G s2' d) as <-.
      { apply exec_other; auto. right. left. apply andb_prop in Sh as [Sh _]. unfold isVirt in Sh. now apply negb_true_iff in Sh. }
      destruct (exec t x s2') as [s3 []]; reflexivity.
    + rewrite nth_error_map in E2'. assert (E1' : nth_error p' k = Some b) by (rewrite Ep in E1; exact E1).
      rewrite E1' in E2'. injection E2' as <-. apply other_block; auto.
  - intros s. split; [intros i d o _ _ _ _ []|]. split; [apply agree_refl|]. split; [intros r []|congruence].
Qed.
End Func.
End Proofs.
