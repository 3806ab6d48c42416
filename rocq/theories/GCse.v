(** C32: common subexpressions within a block.
    Models cmmc/CodeGen/Peephole.cpp: machineInstCSE 377-471, deadInstElimination 473-523. *)
From Coq Require Import ZArith Lia Bool List Arith.
From Verif Require Import GMir GCopy.
Import ListNotations.
Local Open Scope Z_scope.

(* ------------------------------------------------------------------ *)
(** * The passes *)
Section Passes.
Variable t : target.

(** 384-391 versions; an operand that is no register has version 0 *)
Definition getVer (vc : nat * list (reg * nat)) (o : operand) : nat * (nat * list (reg * nat)) :=
  match o with
  | OReg r => match look (snd vc) r with
              | Some v => (v, vc)
              | None => (S (fst vc), (S (fst vc), put (snd vc) r (S (fst vc))))
              end
  | _ => (0%nat, vc)
  end.
Definition bump (vc : nat * list (reg * nat)) (r : reg) : nat * list (reg * nat) :=
  (S (fst vc), put (snd vc) r (S (fst vc))).
(** 429-431 the versions of all operands *)
Fixpoint getVers (vc : nat * list (reg * nat)) (os : list operand) : list nat * (nat * list (reg * nat)) :=
  match os with
  | [] => ([], vc)
  | o :: os' => let '(v, vc1) := getVer vc o in let '(vs, vc2) := getVers vc1 os' in (v :: vs, vc2)
  end.
(** 396-411 equal; the first Def operand is compared by "the earlier result is still in place" *)
Fixpoint eqOps (cv : list (reg * nat)) (seen : bool) (fs : list opflag) (os : list operand) (vs : list nat)
    (os' : list operand) (vs' : list nat) : bool :=
  match fs with
  | [] => true
  | f :: fs =>
    match os, vs, os', vs' with
    | o :: os, v :: vs, o' :: os', v' :: vs' =>
        match f, seen with
        | FDef, false =>
            match o' with
            | OReg r' => match look cv r' with Some x => Nat.eqb x v' | None => false end
            | _ => true
            end && eqOps cv true fs os vs os' vs'
        | _, _ => operand_eqb o o' && Nat.eqb v v' && eqOps cv seen fs os vs os' vs'
        end
    | _, _, _, _ => false
    end
  end.
Fixpoint setDefVer (fs : list opflag) (vs : list nat) (n : nat) : list nat :=
  match fs, vs with
  | FDef :: _, _ :: vs' => n :: vs'
  | _ :: fs', v :: vs' => v :: setDefVer fs' vs' n
  | _, _ => vs
  end.
(** the first Def operand *)
Fixpoint firstDef (l : list (opflag * operand)) : option operand :=
  match l with [] => None | (FDef, o) :: _ => Some o | _ :: l' => firstDef l' end.
Definition excluded (f : flags) : bool := sideEffect f || pcRel f || multiDef f || regCopy f || loadConst f.

Definition entry := (inst * list nat)%type.
(** 442-453 the cached instruction whose result can be reused *)
Definition reusable (cv : list (reg * nat)) (i : inst) (vs : list nat) (d : reg) (e : entry) : option reg :=
  let '(j, vj) := e in
  if Nat.eqb (opc i) (opc j) && eqOps cv false (opfl t (opc i)) (ops i) vs (ops j) vj then
    match firstDef (flagged t j) with
    | Some (OReg rd) => if isVirt d && isVirt rd && Nat.eqb (ty t d) (ty t rd) then Some rd else None
    | _ => None
    end
  else None.
Fixpoint findReuse (cv : list (reg * nat)) (i : inst) (vs : list nat) (d : reg) (c : list entry) : option reg :=
  match c with
  | [] => None
  | e :: c' => match reusable cv i vs d e with Some r => Some r | None => findReuse cv i vs d c' end
  end.
Record cse := Cse { vc : nat * list (reg * nat); cache : list entry }.
Fixpoint cseB (f : cse) (b : list inst) : list inst :=
  match b with
  | [] => []
  | i :: b' =>
      if call (flagsOf t i) then i :: cseB (Cse (vc f) []) b'
      else if excluded (flagsOf t i) then i :: cseB (Cse (fold_left bump (defs t i) (vc f)) (cache f)) b'
      else
        let '(vs, vc1) := getVers (vc f) (ops i) in
        match firstDef (flagged t i) with
        | Some (OReg d) =>
            let vc2 := bump vc1 d in
            match findReuse (snd vc1) i vs d (cache f) with
            | Some rd => copyInst opcCopy d rd (place i) :: cseB (Cse vc2 (cache f)) b'
            | None => i :: cseB (Cse vc2 (cache f ++ [(i, setDefVer (opfl t (opc i)) vs (fst vc2))])) b'
            end
        | _ => i :: cseB (Cse vc1 (cache f)) b'
        end
  end.
Definition machineInstCSE (b : list inst) : list inst := cseB (Cse (0%nat, []) []) b.

(** 473-523 deadInstElimination *)
Fixpoint useVers (vc : nat * list (reg * nat)) (l : list (opflag * operand)) : list nat * (nat * list (reg * nat)) :=
  match l with
  | [] => ([], vc)
  | (FUse, o) :: l' => let '(v, vc1) := getVer vc o in let '(vs, vc2) := useVers vc1 l' in (v :: vs, vc2)
  | _ :: l' => let '(vs, vc2) := useVers vc l' in (0%nat :: vs, vc2)
  end.
Fixpoint list_eqb {A} (eq : A -> A -> bool) (x y : list A) : bool :=
  match x, y with
  | [], [] => true
  | a :: x', b :: y' => eq a b && list_eqb eq x' y'
  | _, _ => false
  end.
(** MIRInst equality, MIR.hpp:307-309 *)
Definition inst_eqb (i j : inst) : bool := Nat.eqb (opc i) (opc j) && list_eqb operand_eqb (ops i) (ops j).
Definition keepAlways (f : flags) : bool := sideEffect f || pcRel f || multiDef f.
Record dead := Dead { dvc : nat * list (reg * nat); last : list (reg * entry) }.
Fixpoint deadB (f : dead) (b : list inst) : list inst :=
  match b with
  | [] => []
  | i :: b' =>
      let '(vs, vc1) := useVers (dvc f) (flagged t i) in
      if call (flagsOf t i) then i :: deadB (Dead vc1 []) b'
      else
        match firstDef (flagged t i) with
        | Some (OReg d) =>
            let again := match look (last f) d with
                         | Some (j, vj) => negb (keepAlways (flagsOf t i)) && inst_eqb j i && list_eqb Nat.eqb vj vs
                         | None => false
                         end in
            if again then deadB (Dead vc1 (last f)) b'
            else i :: deadB (Dead (bump vc1 d) (put (last f) d (i, vs))) b'
        | _ => i :: deadB (Dead vc1 (last f)) b'
        end
  end.
Definition deadInstElimination (b : list inst) : list inst := deadB (Dead (0%nat, []) []) b.
End Passes.

(** An opcode without the MultiDef flag defines at most one register *)
Definition isDef (f : opflag) : bool := match f with FDef => true | _ => false end.
Definition singleDef (t : target) : Prop :=
  forall o, multiDef (fl t o) = false -> (length (filter isDef (opfl t o)) <= 1)%nat.

(* ------------------------------------------------------------------ *)
(** * Proofs *)
Section Proofs.
Variable t : target.
Hypothesis OK : okTarget t.

(** what a version map says about the registers: distinct registers have distinct versions *)
Definition verOK (vc : nat * list (reg * nat)) (g : reg -> Z) (W : nat -> Z) : Prop :=
  (forall r v, look (snd vc) r = Some v -> (0 < v <= fst vc)%nat /\ W v = g r) /\
  (forall r r' v, look (snd vc) r = Some v -> look (snd vc) r' = Some v -> r = r').
(** [W'] differs from [W] only on versions not handed out yet *)
Definition ext (n : nat) (W W' : nat -> Z) : Prop := forall v, (v <= n)%nat -> W' v = W v.

Lemma ext_refl n W : ext n W W. Proof. unfold ext; auto. Qed.
Lemma ext_trans n n' W W' W'' : ext n W W' -> ext n' W' W'' -> (n <= n')%nat -> ext n W W''.
Proof. unfold ext. intros A B L v H. rewrite B by lia. apply A. exact H. Qed.

Lemma bump_ok vc g g' W r : verOK vc g W -> (forall x, x <> r -> g' x = g x) ->
  exists W', verOK (bump vc r) g' W' /\ ext (fst vc) W W'.
Proof.
  clear OK. intros [A B] H. exists (fun v => if Nat.eqb v (S (fst vc)) then g' r else W v). split; [split|].
  - intros x v L. unfold bump in *; cbn [fst snd] in *. rewrite look_put in L.
    destruct (reg_eqb_spec r x) as [->|N].
    + injection L as <-. split; [lia|]. now rewrite Nat.eqb_refl.
    + destruct (A _ _ L) as [P Q]. split; [lia|]. destruct (Nat.eqb_spec v (S (fst vc))); [lia|].
      rewrite H by congruence. exact Q.
  - intros x y v L1 L2. unfold bump in *; cbn [fst snd] in *. rewrite look_put in L1, L2.
    destruct (reg_eqb_spec r x) as [<-|N1], (reg_eqb_spec r y) as [<-|N2].
    + reflexivity.
    + injection L1 as <-. apply A in L2 as [L2 _]. lia.
    + injection L2 as <-. apply A in L1 as [L1 _]. lia.
    + eauto.
  - intros v Hv. destruct (Nat.eqb_spec v (S (fst vc))); [lia|reflexivity].
Qed.
Lemma bumps_ok ds : forall vc g g' W, verOK vc g W -> (forall x, ~ In x ds -> g' x = g x) ->
  exists W', verOK (fold_left bump ds vc) g' W' /\ ext (fst vc) W W' /\ (fst vc <= fst (fold_left bump ds vc))%nat.
Proof.
  clear OK. induction ds as [|d ds IH]; intros vc g g' W V H; cbn [fold_left].
  - exists W. split; [|split; [apply ext_refl|lia]]. destruct V as [A B]. split; [|exact B].
    intros r v L. rewrite H by auto. apply A. exact L.
  - (* first bump: take [d]'s final value at once *)
    destruct (bump_ok vc g (fun x => if reg_eqb x d then g' d else g x) W d V) as (W1 & V1 & E1).
    { intros x Hx. destruct (reg_eqb_spec x d); congruence. }
    destruct (IH _ _ g' W1 V1) as (W2 & V2 & E2 & L2).
    { intros x Hx. destruct (reg_eqb_spec x d) as [->|]; [reflexivity|]. apply H. intros [?|?]; congruence. }
    exists W2. split; [exact V2|]. cbn [bump fst] in *. split; [|lia].
    eapply ext_trans; [exact E1|exact E2|lia].
Qed.
Lemma getVer_ok vc g W o : verOK vc g W ->
  exists W', verOK (snd (getVer vc o)) g W' /\ ext (fst vc) W W' /\ (fst vc <= fst (snd (getVer vc o)))%nat /\
    (fst (getVer vc o) <= fst (snd (getVer vc o)))%nat /\
    (forall r, o = OReg r -> W' (fst (getVer vc o)) = g r /\ look (snd (snd (getVer vc o))) r = Some (fst (getVer vc o))) /\
    (forall r v, look (snd vc) r = Some v -> look (snd (snd (getVer vc o))) r = Some v).
Proof.
  clear OK. intros V. unfold getVer. destruct o as [r| | |]; cbn [fst snd].
  2-4: exists W; split; [exact V|]; split; [apply ext_refl|]; split; [lia|]; split; [lia|]; split; [discriminate|auto].
  destruct (look (snd vc) r) as [v|] eqn:L; cbn [fst snd].
  - exists W. split; [exact V|]. split; [apply ext_refl|]. split; [lia|]. destruct V as [A B].
    destruct (A _ _ L) as [P Q]. split; [lia|]. split; [|auto]. intros x E. injection E as <-. auto.
  - destruct (bump_ok vc g g W r V) as (W' & V' & E); [auto|]. exists W'. split; [exact V'|]. split; [exact E|].
    split; [lia|]. split; [lia|]. split.
    + intros x Ex. injection Ex as <-. rewrite look_put, reg_eqb_refl. split; [|reflexivity].
      destruct V' as [A' _]. apply (A' r). unfold bump; cbn [snd]. now rewrite look_put, reg_eqb_refl.
    + intros x v Lx. rewrite look_put. destruct (reg_eqb_spec r x); [congruence|exact Lx].
Qed.

(** the arguments of an instruction read through versions *)
Fixpoint argsV (W : nat -> Z) (l : list (opflag * operand)) (vs : list nat) : list arg :=
  match l with
  | [] => []
  | (FUse, OReg r) :: l' => AReg (W (hd 0%nat vs)) :: argsV W l' (tl vs)
  | (FDef, _) :: l' => AHole :: argsV W l' (tl vs)
  | (_, o) :: l' => ATok o :: argsV W l' (tl vs)
  end.
Lemma argsV_ext n W W' l : forall vs, ext n W W' -> (forall v, In v vs -> (v <= n)%nat) -> argsV W' l vs = argsV W l vs.
Proof.
  clear OK. induction l as [|[f o] l IH]; intros vs E H; [reflexivity|]. cbn [argsV].
  assert (T : forall v, In v (tl vs) -> (v <= n)%nat) by (intros v Hv; apply H; destruct vs; [destruct Hv|now right]).
  assert (Hd : W' (hd 0%nat vs) = W (hd 0%nat vs)).
  { apply E. destruct vs; cbn; [lia|]. apply H. now left. }
  destruct f; [|destruct o|]; rewrite ?IH, ?Hd by auto; reflexivity.
Qed.

Lemma getVers_ok g : forall os vc W fs, verOK vc g W ->
  exists W', verOK (snd (getVers vc os)) g W' /\ ext (fst vc) W W' /\ (fst vc <= fst (snd (getVers vc os)))%nat /\
    (forall v, In v (fst (getVers vc os)) -> (v <= fst (snd (getVers vc os)))%nat) /\
    argsV W' (combine fs os) (fst (getVers vc os)) = map (argOf g) (combine fs os) /\
    (forall r v, look (snd vc) r = Some v -> look (snd (snd (getVers vc os))) r = Some v) /\
    length (fst (getVers vc os)) = length os.
Proof.
  clear OK. induction os as [|o os IH]; intros vc W fs V; cbn [getVers].
  - exists W. cbn [fst snd]. split; [exact V|]. split; [apply ext_refl|]. split; [lia|]. split; [intros v []|].
    split; [destruct fs; reflexivity|]. split; auto.
  - destruct (getVer_ok vc g W o V) as (W1 & V1 & E1 & L1 & B1 & R1 & K1).
    destruct (getVer vc o) as [v vc1]. cbn [fst snd] in *.
    destruct (IH vc1 W1 (tl fs) V1) as (W2 & V2 & E2 & L2 & B2 & A2 & K2 & Len).
    destruct (getVers vc1 os) as [vs vc2]. cbn [fst snd] in *.
    exists W2. split; [exact V2|]. split; [eapply ext_trans; eauto|]. split; [lia|]. split.
    { intros x [<-|Hx]; [lia|auto]. }
    split; [|split; [eauto|cbn; congruence]].
    destruct fs as [|f fs]; [reflexivity|]. cbn [combine map tl] in *. rewrite <- A2. cbn [argsV argOf hd tl].
    destruct f; [reflexivity| |destruct o; reflexivity]. destruct o; try reflexivity.
    rewrite (E2 v) by lia. destruct (R1 _ eq_refl) as [-> _]. reflexivity.
Qed.

(** the version recorded for the result *)
Fixpoint defVer (fs : list opflag) (vs : list nat) : nat :=
  match fs, vs with
  | FDef :: _, v :: _ => v
  | _ :: fs', _ :: vs' => defVer fs' vs'
  | _, _ => 0%nat
  end.
Lemma setDefVer_args W fs : forall os vs n, argsV W (combine fs os) (setDefVer fs vs n) = argsV W (combine fs os) vs.
Proof.
  clear OK. induction fs as [|f fs IH]; intros os vs n; [reflexivity|].
  destruct os as [|o os]; [destruct f; reflexivity|]. destruct vs as [|v vs]; [destruct f; reflexivity|].
  destruct f; cbn [combine setDefVer argsV hd tl]; [reflexivity| |]; destruct o; cbn; now rewrite IH.
Qed.
Lemma setDefVer_get fs : forall os vs n o, firstDef (combine fs os) = Some o -> length vs = length os ->
  defVer fs (setDefVer fs vs n) = n.
Proof.
  clear OK. induction fs as [|f fs IH]; intros os vs n o H L; [discriminate|].
  destruct os as [|o1 os]; [discriminate|]. destruct vs as [|v vs]; [discriminate|].
  destruct f; cbn in H |- *; [reflexivity| |]; eapply IH; eauto; cbn in L; lia.
Qed.
Lemma setDefVer_bound fs : forall vs n m v, (forall v, In v vs -> (v <= m)%nat) -> (n <= m)%nat ->
  In v (setDefVer fs vs n) -> (v <= m)%nat.
Proof.
  clear OK. induction fs as [|f fs IH]; intros vs n m v H L I; [auto|].
  destruct vs as [|w vs]; [destruct f; destruct I|].
  destruct f; cbn in I; (destruct I as [<-|I]; [first [exact L|apply H; now left]|]).
  - apply H. now right.
  - apply (IH vs n m v); auto. intros x Hx. apply H. now right.
  - apply (IH vs n m v); auto. intros x Hx. apply H. now right.
Qed.

(** [eqOps]: the two instructions read the same versions, and the earlier result is still in its register *)
Lemma eqOps_args cv W fs : forall seen os vs os' vs',
  eqOps cv seen fs os vs os' vs' = true -> argsV W (combine fs os) vs = argsV W (combine fs os') vs'.
Proof.
  clear OK. induction fs as [|f fs IH]; intros seen os vs os' vs' H; [reflexivity|].
  cbn [eqOps] in H. destruct os as [|o os], vs as [|v vs], os' as [|o' os'], vs' as [|v' vs']; try discriminate.
  destruct f; [destruct seen|..]; apply andb_prop in H as [H1 H2]; cbn [combine argsV hd tl].
  - f_equal. eauto.
  - f_equal. eauto.
  - apply andb_prop in H1 as [H1 H3]. destruct (operand_eqb_spec o o'); [subst o'|discriminate].
    apply Nat.eqb_eq in H3. subst v'. destruct o; f_equal; eauto.
  - apply andb_prop in H1 as [H1 H3]. destruct (operand_eqb_spec o o'); [subst o'|discriminate].
    destruct o; f_equal; eauto.
Qed.
Lemma eqOps_def cv fs : forall os vs os' vs' rd,
  eqOps cv false fs os vs os' vs' = true -> firstDef (combine fs os') = Some (OReg rd) ->
  look cv rd = Some (defVer fs vs').
Proof.
  clear OK. induction fs as [|f fs IH]; intros os vs os' vs' rd H D; [discriminate|].
  cbn [eqOps] in H. destruct os as [|o os], vs as [|v vs], os' as [|o' os'], vs' as [|v' vs']; try discriminate.
  destruct f; apply andb_prop in H as [H1 H2]; cbn in D |- *.
  - injection D as ->. destruct (look cv rd) as [x|]; [|discriminate]. apply Nat.eqb_eq in H1. congruence.
  - eauto.
  - eauto.
Qed.

Definition regDefs (l : list (opflag * operand)) : list reg :=
  flat_map (fun x => match x with (FDef, OReg r) => [r] | _ => [] end) l.
Lemma noDefs fs : forall os, filter isDef fs = [] -> regDefs (combine fs os) = [].
Proof.
  induction fs as [|f fs IH]; intros os H; [reflexivity|]. destruct os as [|o os]; [reflexivity|].
  destruct f; cbn in H |- *; [discriminate|..]; rewrite IH by exact H; reflexivity.
Qed.
Lemma defs_cases fs : forall os, (length (filter isDef fs) <= 1)%nat ->
  regDefs (combine fs os) = match firstDef (combine fs os) with Some (OReg d) => [d] | _ => [] end.
Proof.
  induction fs as [|f fs IH]; intros os H; [reflexivity|]. destruct os as [|o os]; [reflexivity|].
  destruct f; cbn in H |- *; [|apply IH; exact H..].
  assert (N : filter isDef fs = []) by (destruct (filter isDef fs); [reflexivity|cbn in H; lia]).
  pose proof (noDefs _ os N) as E. unfold regDefs in E. rewrite E. destruct o; reflexivity.
Qed.

Hypothesis SD : singleDef t.
Lemma def_cases i : multiDef (flagsOf t i) = false ->
  defs t i = match firstDef (flagged t i) with Some (OReg d) => [d] | _ => [] end.
Proof using SD. clear OK. intros H. apply (defs_cases (opfl t (opc i)) (ops i)), SD. exact H. Qed.
Lemma single_def i d : multiDef (flagsOf t i) = false -> firstDef (flagged t i) = Some (OReg d) -> defs t i = [d].
Proof using SD. clear OK. intros H D. rewrite (def_cases i H), D. reflexivity. Qed.

(** ** machineInstCSE *)
Definition entryOK (n : nat) (W : nat -> Z) (e : entry) : Prop :=
  let '(j, vj) := e in
  excluded (flagsOf t j) = false /\
  (forall v, In v vj -> (v <= n)%nat) /\
  (exists d, firstDef (flagged t j) = Some (OReg d)) /\
  W (defVer (opfl t (opc j)) vj) = pureVal t (opc j) (tys t j) (placeOf t j) (argsV W (flagged t j) vj) 0.
Definition cseOK (f : cse) (s : state) : Prop :=
  exists W, verOK (vc f) (G s) W /\ forall e, In e (cache f) -> entryOK (fst (vc f)) W e.

Lemma entryOK_ext n m W W' e : ext n W W' -> (n <= m)%nat -> entryOK n W e -> entryOK m W' e.
Proof.
  clear OK SD. destruct e as [j vj]. intros E L (A & B & C & D). split; [exact A|]. split; [intros v Hv; specialize (B v Hv); lia|].
  split; [exact C|]. rewrite (argsV_ext n W W') by auto. rewrite <- D. apply E.
  clear -B. revert vj B. induction (opfl t (opc j)) as [|f fs IH]; intros vj B; [cbn; lia|].
  destruct vj as [|v vj]; [destruct f; cbn; lia|]. destruct f; cbn; [apply B; now left|..]; apply IH; intros x Hx; apply B; now right.
Qed.

Lemma excluded_split f : excluded f = false ->
  sideEffect f = false /\ pcRel f = false /\ multiDef f = false /\ regCopy f = false /\ loadConst f = false.
Proof. unfold excluded. intros H. do 4 (apply orb_false_elim in H as [H ?]). auto. Qed.
Lemma exec_expr i d s : excluded (flagsOf t i) = false -> firstDef (flagged t i) = Some (OReg d) ->
  exec t i s = (State (wr (G s) d (pureVal t (opc i) [ty t d] 0 (args t (G s) i) 0)) (slot s) (M s) (trace s), Next).
Proof using OK SD.
  intros E D. apply excluded_split in E as (E1 & E2 & E3 & E4 & E5).
  rewrite exec_pure; auto.
  - rewrite (single_def _ _ E3 D). unfold tys, placeOf. rewrite E2, E5, (single_def _ _ E3 D). reflexivity.
  - unfold copyOf. now rewrite E4.
Qed.
Lemma reusable_ok vc1 W s i vs d e rd :
  verOK vc1 (G s) W -> entryOK (fst vc1) W e -> excluded (flagsOf t i) = false ->
  firstDef (flagged t i) = Some (OReg d) ->
  argsV W (flagged t i) vs = args t (G s) i ->
  reusable t (snd vc1) i vs d e = Some rd ->
  pureVal t (opc i) [ty t d] 0 (args t (G s) i) 0 = G s rd.
Proof using SD.
  clear OK. destruct e as [j vj]. intros [V _] (A & B & C & D) Ei Di Ea H. unfold reusable in H.
  destruct (Nat.eqb (opc i) (opc j) && _) eqn:E; [|discriminate]. apply andb_prop in E as [E1 E2].
  apply Nat.eqb_eq in E1. destruct (firstDef (flagged t j)) as [[r'| | |]|] eqn:Dj; try discriminate.
  destruct (isVirt d && isVirt r' && _) eqn:ET; [|discriminate]. injection H as ->.
  apply andb_prop in ET as [_ ET]. apply Nat.eqb_eq in ET.
  unfold flagged in Dj. rewrite <- E1 in Dj. pose proof (eqOps_def _ _ _ _ _ _ _ E2 Dj) as L.
  apply V in L as [_ L]. rewrite <- L. rewrite E1, D.
  apply excluded_split in A as (A1 & A2 & A3 & A4 & A5).
  assert (Dj' : firstDef (flagged t j) = Some (OReg rd)) by (unfold flagged; rewrite <- E1; exact Dj).
  unfold tys, placeOf. rewrite A2, A5, (single_def _ _ A3 Dj'). cbn [map]. rewrite ET. f_equal.
  rewrite <- Ea. unfold flagged. rewrite <- E1. eapply eqOps_args. exact E2.
Qed.
Lemma findReuse_ok vc1 W s i vs d c rd :
  verOK vc1 (G s) W -> (forall e, In e c -> entryOK (fst vc1) W e) -> excluded (flagsOf t i) = false ->
  firstDef (flagged t i) = Some (OReg d) ->
  argsV W (flagged t i) vs = args t (G s) i ->
  findReuse t (snd vc1) i vs d c = Some rd ->
  pureVal t (opc i) [ty t d] 0 (args t (G s) i) 0 = G s rd.
Proof using SD.
  clear OK. intros V C Ei Di Ea. induction c as [|e c IH]; cbn [findReuse]; [discriminate|].
  destruct (reusable t (snd vc1) i vs d e) as [r|] eqn:R.
  - intros H. injection H as ->. eapply reusable_ok; eauto. apply C. now left.
  - apply IH. intros e' H'. apply C. now right.
Qed.

(** after a call nothing is cached; the versions describe the registers as they are now *)
Lemma rename vc g g' W : verOK vc g W -> exists W', verOK vc g' W'.
Proof.
  clear OK SD. intros [A B].
  exists (fun v => match find (fun r => match look (snd vc) r with Some w => Nat.eqb w v | None => false end) (map fst (snd vc)) with
                   | Some r => g' r | None => 0 end).
  split; [|exact B]. intros r v L. split; [apply (A _ _ L)|].
  destruct (find _ (map fst (snd vc))) as [x|] eqn:F.
  - apply find_some in F as [_ F]. destruct (look (snd vc) x) as [w|] eqn:Lx; [|discriminate].
    apply Nat.eqb_eq in F. subst w. now rewrite (B _ _ _ L Lx).
  - exfalso. pose proof (find_none _ _ F r (look_key _ _ _ L)) as X. cbn in X. rewrite L, Nat.eqb_refl in X. discriminate.
Qed.

Lemma cse_block b : forall f s s', cseOK f s -> agree All s s' ->
  outs_agree (runB t b s) (runB t (cseB t f b) s').
Proof using OK SD.
  induction b as [|i b IH]; intros f s s' V A; [split; auto|]. cbn [cseB].
  assert (Keep : forall i' f', exec t i' s = exec t i s -> cseOK f' (fst (exec t i s)) ->
            outs_agree (runB t (i :: b) s) (runB t (i' :: cseB t f' b) s')).
  { intros i' f' E H. apply cons_agree; auto. }
  destruct V as (W & V & C).
  destruct (call (flagsOf t i)) eqn:Ek.
  { apply Keep; [reflexivity|]. destruct (rename _ _ (G (fst (exec t i s))) _ V) as [W' V'].
    exists W'. split; [exact V'|]. intros e []. }
  destruct (excluded (flagsOf t i)) eqn:Ex.
  { apply Keep; [reflexivity|].
    destruct (bumps_ok (defs t i) (vc f) (G s) (G (fst (exec t i s))) W V) as (W' & V' & E & L).
    { intros x Hx. apply exec_other; auto. }
    exists W'. split; [exact V'|]. intros e He. cbn [vc cache] in *. eapply entryOK_ext; eauto. }
  destruct (getVers_ok (G s) (ops i) (vc f) W (opfl t (opc i)) V) as (W1 & V1 & E1 & L1 & B1 & A1 & K1 & Len).
  destruct (getVers (vc f) (ops i)) as [vs vc1]. cbn [fst snd] in *.
  assert (C1 : forall e, In e (cache f) -> entryOK (fst vc1) W1 e) by (intros e He; eapply entryOK_ext; eauto).
  assert (DC : defs t i = match firstDef (flagged t i) with Some (OReg d) => [d] | _ => [] end).
  { apply def_cases. now apply excluded_split in Ex as (_ & _ & ? & _). }
  assert (NoDef : defs t i = [] -> cseOK (Cse vc1 (cache f)) (fst (exec t i s))).
  { intros D. exists W1. split; [|exact C1]. destruct V1 as [P Q]. split; [|exact Q]. intros r v Lr.
    rewrite exec_other; auto. rewrite D. intros []. }
  destruct (firstDef (flagged t i)) as [[d| | |]|] eqn:Df; try (apply Keep; [reflexivity|]; apply NoDef; exact DC).
  assert (Next' : exists W2, verOK (bump vc1 d) (G (fst (exec t i s))) W2 /\ ext (fst vc1) W1 W2).
  { apply (bump_ok vc1 (G s) _ W1 d V1). intros x Hx. apply exec_other; auto. rewrite DC. intros [?|[]]. congruence. }
  destruct Next' as (W2 & V2 & E2).
  assert (Lb : (fst vc1 <= fst (bump vc1 d))%nat) by (cbn; lia).
  destruct (findReuse t (snd vc1) i vs d (cache f)) as [rd|] eqn:FR.
  - assert (CO : copyOf t (copyInst opcCopy d rd (place i)) = Some (d, rd)).
    { pose proof OK as (F1 & F2 & _). unfold copyOf, flagsOf, copyInst; cbn [opc ops]. rewrite F2, F1. reflexivity. }
    apply Keep.
    + rewrite (exec_copy _ _ _ _ _ CO), (exec_expr i d s Ex Df).
      erewrite findReuse_ok; eauto.
    + exists W2. split; [exact V2|]. intros e He. cbn [vc cache]. eapply entryOK_ext; eauto.
  - apply Keep; [reflexivity|]. exists W2. split; [exact V2|]. intros e He. cbn [vc cache] in *.
    apply in_app_or in He as [He|[<-|[]]]; [eapply entryOK_ext; eauto|].
    split; [exact Ex|]. split.
    { intros v Hv. eapply (setDefVer_bound _ vs _ (fst (bump vc1 d))); [|apply le_n|exact Hv].
      intros w Hw. specialize (B1 w Hw). lia. }
    split; [eauto|]. unfold flagged. rewrite setDefVer_args.
    rewrite (setDefVer_get _ (ops i) vs _ (OReg d)) by assumption.
    rewrite (argsV_ext (fst vc1) W1 W2 _ vs E2 B1). rewrite A1.
    destruct V2 as [P _]. destruct (P d (fst (bump vc1 d))) as [_ ->].
    { unfold bump; cbn [snd]. now rewrite look_put, reg_eqb_refl. }
    rewrite (exec_expr i d s Ex Df). cbn [fst G]. rewrite wr_same.
    apply excluded_split in Ex as (_ & X2 & X3 & _ & X5).
    unfold tys, placeOf. rewrite X2, X5, (single_def _ _ X3 Df). reflexivity.
Qed.

(** ** deadInstElimination *)
Definition valueOf (W : nat -> Z) (j : inst) (vj : list nat) : Z :=
  match copyOf t j with
  | Some _ => W (hd 0%nat (tl vj))
  | None => pureVal t (opc j) (tys t j) (placeOf t j) (argsV W (flagged t j) vj) 0
  end.
Definition lastOK (n : nat) (W : nat -> Z) (s : state) (d : reg) (e : entry) : Prop :=
  let '(j, vj) := e in
  (forall v, In v vj -> (v <= n)%nat) /\
  (keepAlways (flagsOf t j) = false -> G s d = valueOf W j vj).
Definition deadOK (f : dead) (s : state) : Prop :=
  exists W, verOK (dvc f) (G s) W /\ forall d e, look (last f) d = Some e -> lastOK (fst (dvc f)) W s d e.
Lemma useVers_ok g : forall l vc W, verOK vc g W ->
  exists W', verOK (snd (useVers vc l)) g W' /\ ext (fst vc) W W' /\ (fst vc <= fst (snd (useVers vc l)))%nat /\
    (forall v, In v (fst (useVers vc l)) -> (v <= fst (snd (useVers vc l)))%nat) /\
    argsV W' l (fst (useVers vc l)) = map (argOf g) l.
Proof.
  clear OK SD. induction l as [|[f o] l IH]; intros vc W V; cbn [useVers].
  - exists W. cbn [fst snd]. split; [exact V|]. split; [apply ext_refl|]. split; [lia|]. split; [intros v []|reflexivity].
  - assert (Skip : exists W', verOK (snd (useVers vc l)) g W' /\ ext (fst vc) W W' /\
        (fst vc <= fst (snd (useVers vc l)))%nat /\
        (forall v, In v (0%nat :: fst (useVers vc l)) -> (v <= fst (snd (useVers vc l)))%nat) /\
        argsV W' l (fst (useVers vc l)) = map (argOf g) l).
    { destruct (IH vc W V) as (W' & A & B & C & D & E). exists W'. split; [exact A|]. split; [exact B|]. split; [exact C|].
      split; [|exact E]. intros v [<-|Hv]; [lia|auto]. }
    destruct f.
    + destruct Skip as (W' & A & B & C & D & E). destruct (useVers vc l) as [vs vc2]. cbn [fst snd] in *. exists W'.
      repeat (split; [assumption|]). cbn [argsV map argOf hd tl]. now rewrite E.
    + destruct (getVer_ok vc g W o V) as (W1 & V1 & E1 & L1 & B1 & R1 & K1).
      destruct (getVer vc o) as [v vc1]. cbn [fst snd] in *.
      destruct (IH vc1 W1 V1) as (W2 & V2 & E2 & L2 & B2 & A2).
      destruct (useVers vc1 l) as [vs vc2]. cbn [fst snd] in *. exists W2.
      split; [exact V2|]. split; [eapply ext_trans; eauto|]. split; [lia|].
      split. { intros x [<-|Hx]; [lia|auto]. }
      cbn [map argOf argsV hd tl]. destruct o; cbn [argsV hd tl]; rewrite A2; try reflexivity.
      rewrite (E2 v) by lia. destruct (R1 _ eq_refl) as [-> _]. reflexivity.
    + destruct Skip as (W' & A & B & C & D & E). destruct (useVers vc l) as [vs vc2]. cbn [fst snd] in *. exists W'.
      repeat (split; [assumption|]). cbn [argsV map argOf hd tl]. destruct o; now rewrite E.
Qed.
Lemma valueOf_ext n W W' j vj : ext n W W' -> (forall v, In v vj -> (v <= n)%nat) -> valueOf W' j vj = valueOf W j vj.
Proof.
  clear OK SD. intros E H. unfold valueOf. destruct (copyOf t j).
  - apply E. destruct vj as [|a [|b vj]]; cbn; [lia|lia|]. apply H. right. now left.
  - now rewrite (argsV_ext n W W').
Qed.
Lemma list_eqb_eq {A} (eq : A -> A -> bool) : (forall a b, reflect (a = b) (eq a b)) ->
  forall x y, list_eqb eq x y = true -> x = y.
Proof.
  intros R. induction x as [|a x IH]; intros [|b y] H; cbn in H; try discriminate; [reflexivity|].
  apply andb_prop in H as [H1 H2]. destruct (R a b); [|discriminate]. subst. f_equal. auto.
Qed.
(** a recomputation leaves its register as it is *)
Lemma recompute i d s W vs : keepAlways (flagsOf t i) = false -> firstDef (flagged t i) = Some (OReg d) ->
  argsV W (flagged t i) vs = args t (G s) i ->
  exec t i s = (State (wr (G s) d (valueOf W i vs)) (slot s) (M s) (trace s), Next).
Proof using OK SD.
  intros K D E. unfold keepAlways in K. apply orb_false_elim in K as [K K3]. apply orb_false_elim in K as [K1 K2].
  unfold valueOf. destruct (copyOf t i) as [[d' x]|] eqn:C.
  - rewrite (exec_copy _ _ _ _ _ C). destruct (copyOf_ops _ _ _ _ C) as (F & O & _).
    unfold flagged in D, E. unfold args, flagged in E. rewrite F, O in D, E. cbn in D, E. injection D as ->.
    injection E as E. rewrite E. reflexivity.
  - rewrite exec_pure by assumption. rewrite (single_def _ _ K3 D), E. reflexivity.
Qed.

(** every instruction of the block defines at most one register *)
Lemma dead_block b : (forall i, In i b -> multiDef (flagsOf t i) = false) ->
  forall f s s', deadOK f s -> agree All s s' -> outs_agree (runB t b s) (runB t (deadB t f b) s').
Proof using OK SD.
  induction b as [|i b IH]; intros MD f s s' V A; [split; auto|]. cbn [deadB].
  assert (MDi : multiDef (flagsOf t i) = false) by (apply MD; now left).
  assert (MDb : forall j, In j b -> multiDef (flagsOf t j) = false) by (intros; apply MD; now right).
  specialize (IH MDb). clear MDb MD.
  destruct V as (W & V & C).
  destruct (useVers_ok (G s) (flagged t i) (dvc f) W V) as (W1 & V1 & E1 & L1 & B1 & A1).
  fold (args t (G s) i) in A1.
  destruct (useVers (dvc f) (flagged t i)) as [vs vc1]. cbn [fst snd] in *.
  assert (C1 : forall d e, look (last f) d = Some e -> lastOK (fst vc1) W1 s d e).
  { intros d [j vj] L. destruct (C _ _ L) as [P Q]. split; [intros v Hv; specialize (P v Hv); lia|].
    intros K. rewrite (valueOf_ext (fst (dvc f)) W W1) by auto. auto. }
  assert (Keep : forall f', deadOK f' (fst (exec t i s)) ->
            outs_agree (runB t (i :: b) s) (runB t (i :: deadB t f' b) s')).
  { intros f' H. apply cons_agree; auto. }
  destruct (call (flagsOf t i)) eqn:Ek.
  { apply Keep. destruct (rename _ _ (G (fst (exec t i s))) _ V1) as [W' V']. exists W'. split; [exact V'|]. discriminate. }
  assert (DC := def_cases i MDi).
  assert (NoDef : defs t i = [] -> deadOK (Dead vc1 (last f)) (fst (exec t i s))).
  { intros D. assert (S1 : forall r, G (fst (exec t i s)) r = G s r) by (intros; apply exec_other; auto; rewrite D; intros []).
    exists W1. split.
    - destruct V1 as [P Q]. split; [|exact Q]. intros r v Lr. cbn [dvc] in *. rewrite S1. auto.
    - intros d [j vj] L. destruct (C1 _ _ L) as [P Q]. split; [exact P|]. rewrite S1. exact Q. }
  destruct (firstDef (flagged t i)) as [[d| | |]|] eqn:Df; try (apply Keep; apply NoDef; exact DC).
  match goal with |- outs_agree _ (runB t (if ?X then _ else _) _) => destruct X eqn:Ag end.
  - destruct (look (last f) d) as [[j vj]|] eqn:L; [|discriminate].
    apply andb_prop in Ag as [Ag Ev]. apply andb_prop in Ag as [Kk Ei]. apply negb_true_iff in Kk.
    apply (list_eqb_eq Nat.eqb Nat.eqb_spec) in Ev. subst vj. unfold inst_eqb in Ei. apply andb_prop in Ei as [Eo Es].
    apply Nat.eqb_eq in Eo. apply (list_eqb_eq operand_eqb operand_eqb_spec) in Es.
    assert (Same : forall r, wr (G s) d (valueOf W1 i vs) r = G s r).
    { intros r. unfold wr. destruct (reg_eqb_spec r d) as [->|]; [|reflexivity].
      destruct (C1 _ _ L) as [_ Q]. rewrite Q by (unfold flagsOf in *; rewrite Eo; exact Kk).
      unfold valueOf, copyOf, tys, placeOf, defs, flagged, flagsOf. rewrite Eo, Es.
      unfold keepAlways in Kk. apply orb_false_elim in Kk as [Kk K3]. apply orb_false_elim in Kk as [K1 K2].
      unfold flagsOf in K2. rewrite K2. reflexivity. }
    cbn [runB]. rewrite (recompute i d s W1 vs Kk Df A1). apply IH.
    + exists W1. cbn [dvc last]. split.
      * destruct V1 as [P Q]. split; [|exact Q]. intros r v Lr. cbn [G]. rewrite Same. auto.
      * intros d' [j' vj'] L'. destruct (C1 _ _ L') as [P Q]. split; [exact P|]. cbn [G]. rewrite Same. exact Q.
    + destruct A as [P1 P2 P3 P4]. constructor; cbn; auto. intros r Hr. rewrite Same. auto.
  - clear Ag. apply Keep.
    destruct (bump_ok vc1 (G s) (G (fst (exec t i s))) W1 d V1) as (W2 & V2 & E2).
    { intros x Hx. apply exec_other; auto. rewrite DC. intros [?|[]]. congruence. }
    exists W2. split; [exact V2|]. cbn [dvc last]. intros x e L. rewrite look_put in L.
    destruct (reg_eqb_spec d x) as [<-|N].
    + injection L as <-. split; [intros v Hv; specialize (B1 v Hv); cbn; lia|]. intros Kk.
      rewrite (recompute i d s W1 vs Kk Df A1). cbn [fst G]. rewrite wr_same. symmetry. now apply (valueOf_ext (fst vc1)).
    + destruct e as [j vj]. destruct (C1 _ _ L) as [P Q]. split; [intros v Hv; specialize (P v Hv); cbn; lia|].
      intros Kk. rewrite (valueOf_ext (fst vc1) W1 W2) by auto.
      rewrite exec_other; auto. rewrite DC. intros [?|[]]. congruence.
Qed.
End Proofs.
