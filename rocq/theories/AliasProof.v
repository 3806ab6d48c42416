(** The alias analysis is sound (proofs, C47). *)
From Coq Require Import ZArith Lia Bool List Arith.
From Verif Require Import Addr AddrProof Sim Ssa SsaCfg SsaMerge SsaFwd SsaWf SsaDom SsaSub SsaEq SsaPhi SsaCse LdStPts LdStProof LdStLoad Alias AliasPts AliasLayout AliasInv.
Import ListNotations.

(** ** what is asked of the program and its run (specification) *)
Section Spec.
Context {W : Type} (m : sem W) (args : nat -> value) (w0 : W) (f : func).
Variable P : Z.
Variable objs : nat -> option (Z * ty).
Variable ak : nat -> akind.
Variable isGlob : nat -> bool.
Variable pointee : opnd -> option ty.
Variable local : nat -> Prop.                     (* the objects this call allocates *)
Variable gobj : nat -> nat.                       (* the object of a global *)
Notation pt := (atPoint m args w0 f).
Notation refers := (refers P objs).
(** the instruction [i] runs in a state of the run *)
Definition runs (i : inst) (e : env) (vs : list value) (v : value) : Prop :=
  exists b bk pre post w w', pt b bk pre e w /\ body bk = pre ++ i :: post /\ rds args e (ops i) = Some vs /\ meaning m (opc i) vs w = IOk v w'.
(** no pointer to an empty type *)
Definition okSizes : Prop := forall o T, pointee o = Some T -> (0 < size P T)%Z.
(** arguments do not point to what the call allocates; globals are different objects *)
Definition okArgs : Prop := forall n v T o q, args n = VOpq v -> pointee (OArg n) = Some T -> refers T v o q ->
  if isGlob n then o = gobj n else ~ local o.
Definition okGlobs : Prop := (forall n, isGlob n = true -> ~ local (gobj n)) /\
  (forall n k, isGlob n = true -> isGlob k = true -> gobj n = gobj k -> n = k).
(** an integer argument is not the address of something the call allocates *)
Definition okIntToPtr : Prop := forall i e vs v T o q, ak (opc i) = AkIntToPtr -> runs i e vs (VOpq v) ->
  pointee (ORes (dst i)) = Some T -> refers T v o q -> ~ local o.
(** every alloc yields an object of its own *)
Definition okAlloc : Prop :=
  (forall i e vs v T o q, ak (opc i) = AkAlloc -> runs i e vs (VOpq v) -> pointee (ORes (dst i)) = Some T -> refers T v o q -> local o /\ q = []) /\
  (forall b bk pre e w i j v u T V o, pt b bk pre e w -> defOf f (dst i) = Some i -> defOf f (dst j) = Some j -> dst i <> dst j -> ak (opc i) = AkAlloc -> ak (opc j) = AkAlloc ->
     availAt f b bk pre (dst i) -> availAt f b bk pre (dst j) -> e (dst i) = Some (VOpq v) -> e (dst j) = Some (VOpq u) ->
     pointee (ORes (dst i)) = Some T -> pointee (ORes (dst j)) = Some V -> refers T v o [] -> refers V u o [] -> False).
(** getelementptr stays inside the arrays it indexes *)
Definition okGep : Prop := forall i e vs v T o q, ak (opc i) = AkGep -> runs i e vs (VOpq v) -> pointee (ORes (dst i)) = Some T -> refers T v o q ->
  exists zs a V p, vs = map VInt zs ++ [VOpq a] /\ pointee (gepBase i) = Some V /\ refers V a o p /\ moves p zs q.
(** a cast or an added offset leads to a part of what the operand points to *)
Definition okCast : Prop := forall i e vs v T o q, ak (opc i) = AkCast \/ ak (opc i) = AkPtrAdd -> runs i e vs (VOpq v) -> pointee (ORes (dst i)) = Some T -> refers T v o q ->
  exists x l a V p, ops i = x :: l /\ rd args e x = Some (VOpq a) /\ pointee x = Some V /\ refers V a o p /\ prefix p q.
Definition okSelect : Prop := forall i e vs v, ak (opc i) = AkSelect -> runs i e vs v ->
  exists c x y, ops i = [c; x; y] /\ (rd args e x = Some v \/ rd args e y = Some v) /\ pointee x = pointee (ORes (dst i)) /\ pointee y = pointee (ORes (dst i)).
(** phis of pointers have no constant operands, and operands of their type *)
Definition okPhis : Prop := forall b bk ph p o, get b f = Some bk -> In ph (phis bk) -> pointee (ORes (pdst ph)) <> None -> In (p, o) (inc ph) ->
  isCst o = false /\ pointee o = pointee (ORes (pdst ph)).
(** no getelementptr on a getelementptr whose only index is the constant 0 *)
Definition okZero : Prop := forall i j y, defOf f (dst i) = Some i -> defOf f y = Some j -> isGep ak i = true -> isGep ak j = true -> gepBase i = ORes y -> zeroFirst j = true -> 3 <= length (ops j).
Definition program : Prop := okSizes /\ okArgs /\ okGlobs /\ okIntToPtr /\ okAlloc /\ okGep /\ okCast /\ okSelect /\ okPhis /\ okZero.
End Spec.

Lemma hist_eqb_eq a : forall b, hist_eqb a b = true -> a = b.
Proof.
  induction a as [|[x|] a IH]; intros [|[y|] b]; cbn; try discriminate; auto.
  - intros H. apply andb_true_iff in H as [H1 H2]. destruct (value_eqb_spec x y); [|discriminate]. f_equal; [congruence|auto].
  - intros H. f_equal; auto.
Qed.
Lemma attr_eqb_eq a b : attr_eqb a b = true -> a = b.
Proof.
  destruct a, b; cbn [attr_eqb]; try discriminate; auto; rewrite ?andb_true_iff; intros H;
    repeat match goal with
    | H : _ /\ _ |- _ => destruct H
    | H : Nat.eqb _ _ = true |- _ => apply Nat.eqb_eq in H
    | H : opnd_eqb ?a ?b = true |- _ => destruct (opnd_eqb_spec a b); [clear H|discriminate]
    | H : value_eqb ?a ?b = true |- _ => destruct (value_eqb_spec a b); [clear H|discriminate]
    | H : ty_eqb _ _ = true |- _ => apply ty_eqb_eq in H
    | H : hist_eqb _ _ = true |- _ => apply hist_eqb_eq in H
    end; congruence.
Qed.

Section Sound.
Context {W : Type} (m : sem W) (args : nat -> value) (w0 : W) (f : func).
Variable P : Z.
Hypothesis HP : P = 4%Z \/ P = 8%Z.
Variable objs : nat -> option (Z * ty).
Hypothesis OO : objsOk P objs.
Variable ak : nat -> akind.
Variable isGlob : nat -> bool.
Variable pointee : opnd -> option ty.
Variable local : nat -> Prop.
Variable gobj : nat -> nat.
Hypothesis Hw : wfs f.
Hypothesis PR : program m args w0 f P objs ak isGlob pointee local gobj.
Notation pt := (atPoint m args w0 f).
Notation refers := (refers P objs).
Notation inv := (inv m args w0 f P objs pointee).
Notation runs := (runs m args w0 f).

(** ** what an attribute says *)
Definition levelAt (p : list nat) (k : nat) (z : Z) (q : list nat) : Prop :=
  match k with
  | O => (z = 0%Z /\ prefix p q) \/ exists p0 j, p = p0 ++ [j] /\ (0 <= Z.of_nat j + z)%Z /\ nth_error q (length p0) = Some (Z.to_nat (Z.of_nat j + z))
  | S k' => (0 <= z)%Z /\ nth_error q (length p + k') = Some (Z.to_nat z)
  end.
Definition reg (a : attr) : region := fun e o q =>
  match a with
  | AGlobal => exists n, isGlob n = true /\ gobj n = o
  | AStack => local o
  | AGlob n => isGlob n = true /\ gobj n = o
  | AArg => ~ local o
  | AOwn _ => True
  | AAlloc x => local o /\ exists v T, e x = Some (VOpq v) /\ pointee (ORes x) = Some T /\ refers T v o []
  | AOff1 _ b => forall v T p, rd args e b = Some (VOpq v) -> pointee b = Some T -> refers T v o p -> ~ prefix p q /\ ~ prefix q p
  | AOff2 _ b => exists v T p, rd args e b = Some (VOpq v) /\ pointee b = Some T /\ refers T v o p /\ prefix p q
  | AType t => exists v p, refers t v o p /\ prefix p q
  | ACl b _ k c => exists z v T p, c = VInt z /\ rd args e b = Some (VOpq v) /\ pointee b = Some T /\ refers T v o p /\ levelAt p k z q
  end.
Definition deps (a : attr) : list nat := match a with AAlloc x => [x] | AOff1 _ b | AOff2 _ b | ACl b _ _ _ => res_of b | _ => [] end.
Definition attrOk (a : attr) : Prop := match a with AAlloc x => exists i, defOf f x = Some i /\ ak (opc i) = AkAlloc | _ => True end.
Lemma reg_framed a : framed (deps a) (reg a).
Proof.
  intros e e' o q E H. destruct a as [| |n| |n|x|x b|x b|t|b h k c]; cbn [reg deps] in *; auto.
  - destruct H as (A & v & T & B & C). split; auto. exists v, T. rewrite <- (E x (or_introl eq_refl)). auto.
  - intros v T p. rewrite <- (framed_rd args b e e' E). apply H.
  - destruct H as (v & T & p & A). exists v, T, p. rewrite <- (framed_rd args b e e' E). exact A.
  - destruct H as (z & v & T & p & A). exists z, v, T, p. rewrite <- (framed_rd args b e e' E). exact A.
Qed.
Lemma levelAt_up p k z q q' : prefix q q' -> levelAt p k z q -> levelAt p k z q'.
Proof.
  intros L. destruct k as [|k]; cbn.
  - intros [[A B]|(p0 & j & A & B & C)]; [left; split; auto; eapply prefix_trans; eauto|right]. exists p0, j. split; auto. split; auto. eapply prefix_nth; eauto.
  - intros [A B]. split; auto. eapply prefix_nth; eauto.
Qed.
Lemma reg_up a : upward (reg a).
Proof.
  intros e o q q' L H. destruct a as [| |n| |n|x|x b|x b|t|b h k c]; cbn [reg] in *; auto.
  - intros v T p A B C. destruct (H v T p A B C) as [N1 N2]. split.
    + intros K. destruct (prefix_both p q q' K L); auto.
    + intros K. apply N2. eapply prefix_trans; eauto.
  - destruct H as (v & T & p & A & B & C & D). exists v, T, p. repeat (split; auto). eapply prefix_trans; eauto.
  - destruct H as (v & p & A & B). exists v, p. split; auto. eapply prefix_trans; eauto.
  - destruct H as (z & v & T & p & A & B & C & D & E). exists z, v, T, p. repeat (split; auto). eapply levelAt_up; eauto.
Qed.
Lemma levelAt_disj p k z z' q : levelAt p k z q -> levelAt p k z' q -> z = z'.
Proof.
  destruct k as [|k]; cbn.
  - assert (K : forall p0 j z, p = p0 ++ [j] -> prefix p q -> (0 <= Z.of_nat j + z)%Z -> nth_error q (length p0) = Some (Z.to_nat (Z.of_nat j + z)) -> z = 0%Z).
    { intros p0 j y -> L A B. assert (C : nth_error q (length p0) = Some j).
      { eapply prefix_nth; [exact L|]. rewrite nth_error_app2, Nat.sub_diag by lia. reflexivity. }
      rewrite C in B. injection B as B. lia. }
    intros [[A B]|(p0 & j & A & B & C)] [[A' B']|(p0' & j' & A' & B' & C')]; try congruence.
    + symmetry. rewrite A. eapply K; eauto.
    + rewrite A'. eapply K; eauto.
    + assert (p0' = p0 /\ j' = j) as [-> ->] by (rewrite A in A'; apply app_inj_tail in A' as [-> ->]; auto).
      rewrite C in C'. injection C' as C'. lia.
  - intros [A B] [A' B']. rewrite B in B'. injection B' as B'. lia.
Qed.
(** the regions of distinct attributes have nothing in common *)
Lemma regs_disjoint a a' b bk pre e w o q : pairDistinct a a' = true -> pt b bk pre e w -> attrOk a -> attrOk a' ->
  (forall y, In y (deps a) -> availAt f b bk pre y) -> (forall y, In y (deps a') -> availAt f b bk pre y) ->
  reg a e o q -> reg a' e o q -> False.
Proof using HP OO Hw PR.
  intros D Hp O1 O2 V1 V2 R1 R2. destruct PR as (Sz & Ar & [Gl1 Gl2] & Ip & [Al1 Al2] & _).
  assert (Uq : forall b v T p v' T' p', rd args e b = Some (VOpq v) -> pointee b = Some T -> refers T v o p -> rd args e b = Some (VOpq v') -> pointee b = Some T' -> refers T' v' o p' -> p = p').
  { intros b0 v T p v' T' p' A1 A2 A3 B1 B2 B3. assert (v' = v) as -> by congruence. assert (T' = T) as -> by congruence.
    exact (proj2 (refers_unique P HP objs OO T v o p o p' (Sz _ _ A2) A3 B3)). }
  destruct a as [| |n| |n|x|x c|x c|t|c h k z], a' as [| |n'| |n'|x'|x' c'|x' c'|t'|c' h' k' z']; try discriminate; cbn [pairDistinct reg deps attrOk] in *.
  - destruct R1 as (n & A & <-). exact (Gl1 n A R2).
  - destruct R2 as (n & A & <-). exact (Gl1 n A R1).
  - destruct R1 as [A <-], R2 as [A' E]. apply negb_true_iff, Nat.eqb_neq in D. apply D. auto.
  - destruct R2 as [A _]. auto.
  - destruct R1 as [A _]. auto.
  - destruct R1 as (_ & v & T & A1 & A2 & A3), R2 as (_ & v' & T' & B1 & B2 & B3). apply negb_true_iff, Nat.eqb_neq in D.
    destruct O1 as (i & Di & Ki), O2 as (j & Dj & Kj). pose proof (defOf_In f _ _ Di) as [Ei _]. pose proof (defOf_In f _ _ Dj) as [Ej _]. subst x x'.
    eapply (Al2 b bk pre e w i j v v' T T' o); eauto. apply V1; now left. apply V2; now left.
  - apply andb_true_iff in D as [D1 D2]. destruct (opnd_eqb_spec c c') as [<-|]; [|discriminate]. destruct R2 as (v & T & p & A & B & C & L). destruct (R1 v T p A B C); auto.
  - apply andb_true_iff in D as [D1 D2]. destruct (opnd_eqb_spec c c') as [<-|]; [|discriminate]. destruct R1 as (v & T & p & A & B & C & L). destruct (R2 v T p A B C); auto.
  - unfold typesDistinct in D. rewrite !andb_true_iff, !negb_true_iff in D. destruct D as [[_ D1] D2].
    destruct R1 as (v & p & (b1 & T1 & f1 & A1 & A2 & _) & L1), R2 as (v' & p' & (b2 & T2 & f2 & B1 & B2 & _) & L2). rewrite A1 in B1. injection B1 as <- <-.
    destruct (prefix_both p p' q L1 L2) as [[r ->]|[r ->]].
    + rewrite locate_app, A2 in B2. destruct (locate P t r) as [[z s]|] eqn:E; [|discriminate]. injection B2 as _ ->. apply includes_complete in E. congruence.
    + rewrite locate_app, B2 in A2. destruct (locate P t' r) as [[z s]|] eqn:E; [|discriminate]. injection A2 as _ ->. apply includes_complete in E. congruence.
  - rewrite !andb_true_iff in D. destruct D as [[[D1 D2] D3] D4]. destruct (opnd_eqb_spec c c') as [<-|]; [|discriminate]. apply Nat.eqb_eq in D3. subst k'.
    destruct R1 as (y & v & T & p & -> & A & B & C & L), R2 as (y' & v' & T' & p' & -> & A' & B' & C' & L').
    assert (p' = p) as -> by (symmetry; eauto). rewrite (levelAt_disj p k y y' q L L') in D4. cbn in D4. rewrite Z.eqb_refl in D4. discriminate.
Qed.

(** ** where attributes come from *)
Definition Inv (x : opnd * attr) : Prop := inv (fst x) (deps (snd x)) (reg (snd x)) /\ attrOk (snd x).
Notation inF := (inF f).
Notation depOk := (depOk f).
Lemma rds_nth l : forall e vs k o, rds args e l = Some vs -> nth_error l k = Some o -> exists v, nth_error vs k = Some v /\ rd args e o = Some v.
Proof.
  induction l as [|x l IH]; intros e vs k o H N; [destruct k; discriminate|]. cbn in H. destruct (rd args e x) as [v|] eqn:E; [|discriminate].
  destruct (rds args e l) as [vl|] eqn:El; [|discriminate]. injection H as <-. destruct k; cbn in *; [injection N as <-; eauto|eauto].
Qed.
Lemma rds_length l : forall e vs, rds args e l = Some vs -> length vs = length l.
Proof.
  induction l as [|x l IH]; intros e vs H; cbn in H; [injection H as <-; reflexivity|]. destruct (rd args e x); [|discriminate].
  destruct (rds args e l) eqn:El; [|discriminate]. injection H as <-. cbn. f_equal. eauto.
Qed.
Lemma gepBase_nth i : ops i <> [] -> nth_error (ops i) (length (ops i) - 1) = Some (gepBase i).
Proof.
  unfold gepBase. intros N. destruct (exists_last N) as (l & x & ->). rewrite last_last, app_length. cbn.
  rewrite nth_error_app2 by lia. replace (length l + 1 - 1 - length l) with 0 by lia. reflexivity.
Qed.
Lemma gepBase_In i : ops i <> [] -> In (gepBase i) (ops i).
Proof. intros N. eapply nth_error_In, gepBase_nth; auto. Qed.
(** a getelementptr whose result is valid *)
Lemma gep_runs i b bk pre post e w vs v w' T o q : ak (opc i) = AkGep -> pt b bk pre e w -> body bk = pre ++ i :: post -> rds args e (ops i) = Some vs ->
  meaning m (opc i) vs w = IOk (VOpq v) w' -> pointee (ORes (dst i)) = Some T -> refers T v o q ->
  exists zs a V p, length (ops i) = S (length zs) /\ (forall k c, nth_error (ops i) k = Some (OCst c) -> S k < length (ops i) -> exists z, nth_error zs k = Some z /\ c = VInt z) /\
    rd args e (gepBase i) = Some (VOpq a) /\ opAvail (availAt f b bk pre) (gepBase i) /\ pointee (gepBase i) = Some V /\ refers V a o p /\ moves p zs q.
Proof using Hw PR.
  intros K Hp E R M Tp Rf. destruct PR as (_ & _ & _ & _ & _ & Ge & _).
  destruct (Ge i e vs v T o q K) as (zs & a & V & p & Ev & A & B & C); auto. { exists b, bk, pre, post, w, w'. auto. }
  exists zs, a, V, p. pose proof (rds_length _ _ _ R) as L. rewrite Ev, app_length, map_length in L. cbn in L.
  assert (N : ops i <> []) by (intros K'; rewrite K' in L; cbn in L; lia).
  split; [lia|]. split.
  - intros k c Hk Lk. destruct (rds_nth _ _ _ _ _ R Hk) as (u & A1 & A2). cbn in A2. injection A2 as <-. rewrite Ev, nth_error_app1 in A1 by (rewrite map_length; lia).
    rewrite nth_error_map in A1. destruct (nth_error zs k) as [z|]; [|discriminate]. cbn in A1. injection A1 as <-. eauto.
  - split; [|split; [eapply op_avail; eauto using gepBase_In|auto]].
    destruct (rds_nth _ _ _ _ _ R (gepBase_nth i N)) as (u & A1 & A2). rewrite A2. rewrite Ev, nth_error_app2 in A1 by (rewrite map_length; lia).
    rewrite map_length in A1. replace (length (ops i) - 1 - length zs) with 0 in A1 by lia. cbn in A1. congruence.
Qed.
Lemma base_dep i : inF i -> ops i <> [] -> depOk (ORes (dst i)) (res_of (gepBase i)).
Proof using Hw.
  intros I N y Hy. right. exists (dst i). split; auto. apply res_of_eq in Hy. eapply inst_before; eauto. rewrite <- Hy. now apply gepBase_In.
Qed.
Lemma base_upd i b bk pre post e w v : pt b bk pre e w -> body bk = pre ++ i :: post -> opAvail (availAt f b bk pre) (gepBase i) -> rd args (upd e (dst i) v) (gepBase i) = rd args e (gepBase i).
Proof using Hw.
  intros Hp E A. destruct (atPoint_get _ _ _ _ _ _ _ _ _ Hp) as [G _]. eapply rd_avail; eauto. exact (proj1 (proj2 (proj1 Hw))). eapply atPoint_reach; eauto.
Qed.
Lemma off1_ok i : inF i -> ak (opc i) = AkGep -> constFirst i = true -> inv (ORes (dst i)) (res_of (gepBase i)) (reg (AOff1 (dst i) (gepBase i))).
Proof using HP OO Hw PR.
  intros I K C. unfold constFirst in C. destruct (ops i) as [|[[z|z|]|n|x] l] eqn:Eo; try discriminate. apply negb_true_iff, Z.eqb_neq in C.
  apply inst_inv; auto. { apply base_dep; auto. congruence. } { apply (reg_framed (AOff1 (dst i) (gepBase i))). }
  intros b bk pre post e w vs v w' Hp E R M T o q Tp Rf.
  destruct (gep_runs i b bk pre post e w vs v w' T o q K Hp E R M Tp Rf) as (zs & a & V & p & L & Cs & Rb & Av & Tb & Rfb & Mv).
  intros v' T' p' A1 A2 A3. rewrite (base_upd i b bk pre post e w _ Hp E Av) in A1. assert (v' = a) as -> by congruence. assert (T' = V) as -> by congruence.
  assert (p' = p) as ->. { destruct PR as (Sz & _). exact (proj2 (refers_unique P HP objs OO V a o p' o p (Sz _ _ Tb) A3 Rfb)). }
  destruct zs as [|z0 inner]; [destruct Mv|]. destruct Mv as (F & mm & -> & D).
  assert (z0 = z) as ->. { destruct (Cs 0 (VInt z)) as (y & Y1 & Y2); [rewrite Eo; reflexivity|rewrite L; cbn; lia|]. cbn in Y1. congruence. }
  destruct D as [[D _]|(p0 & j & -> & Nn & ->)]; [contradiction|]. split; intros [r E0]; rewrite <- ?app_assoc in E0; apply app_inv_head in E0; cbn in E0; injection E0; intros; lia.
Qed.
Lemma off2_ok x b : inv b (res_of b) (reg (AOff2 x b)).
Proof.
  split. { intros y Hy. left. now apply res_of_eq. }
  intros b0 bk pre e w Hp Av v T o q A B C. exists v, T, q. repeat (split; auto). apply prefix_refl.
Qed.
Lemma type_ok p T : pointee p = Some T -> inv p [] (reg (AType T)).
Proof.
  intros H. split; [intros y []|]. intros b0 bk pre e w Hp Av v T' o q A B C. assert (T' = T) as -> by congruence. exists v, q. split; auto. apply prefix_refl.
Qed.
Lemma cl_ok i h k c : inF i -> ak (opc i) = AkGep -> indexAt k i = Some c -> inv (ORes (dst i)) (res_of (gepBase i)) (reg (ACl (gepBase i) h k c)).
Proof using Hw PR.
  intros I K C. unfold indexAt in C. destruct (Nat.leb_spec (length (ops i)) (S k)) as [|Lk]; [discriminate|]. destruct (nth_error (ops i) k) as [[c'|n|x]|] eqn:Ek; try discriminate. injection C as ->.
  apply inst_inv; auto. { apply base_dep; auto. intros N. rewrite N in Lk. cbn in Lk. lia. } { apply (reg_framed (ACl (gepBase i) h k c)). }
  intros b bk pre post e w vs v w' Hp E R M T o q Tp Rf.
  destruct (gep_runs i b bk pre post e w vs v w' T o q K Hp E R M Tp Rf) as (zs & a & V & p & L & Cs & Rb & Av & Tb & Rfb & Mv).
  destruct (Cs k c Ek Lk) as (z & Z1 & ->). exists z, a, V, p. rewrite (base_upd i b bk pre post e w _ Hp E Av). repeat (split; auto).
  destruct zs as [|z0 inner]; [destruct Mv|]. destruct Mv as (F & mm & -> & D). destruct k as [|k]; cbn in Z1 |- *.
  - injection Z1 as ->. destruct D as [[-> ->]|(p0 & j & -> & Nn & ->)]; [left; split; auto; apply prefix_app|]. right. exists p0, j. split; auto. split; auto.
    rewrite nth_error_app1 by (rewrite app_length; cbn; lia). rewrite nth_error_app2 by lia. now rewrite Nat.sub_diag.
  - assert (Lm : length mm = length p). { destruct D as [[-> ->]|(p0 & j & -> & Nn & ->)]; auto. now rewrite !app_length. }
    split; [rewrite Forall_forall in F; apply F; eapply nth_error_In; eauto|]. rewrite <- Lm, nth_error_app2 by lia. replace (length mm + k - length mm) with k by lia.
    rewrite nth_error_map, Z1. reflexivity.
Qed.
Lemma divide_In n : forall b h k l x, In x (divide n b h k l) -> exists i h' k' c, In i l /\ x = (ORes (dst i), ACl b h' k' c) /\ indexAt k' i = Some c.
Proof.
  induction n as [|n IH]; intros b h k l x H; cbn [divide] in H; [destruct H|]. destruct (Nat.leb (length l) 1); [destruct H|].
  assert (K : forall cs, In x (flat_map (fun c => map (fun i => (ORes (dst i), ACl b h k c)) (filter (hasIndex k c) l) ++ divide n b (h ++ [Some c]) (S k) (filter (hasIndex k c) l)) cs) ->
    exists i h' k' c, In i l /\ x = (ORes (dst i), ACl b h' k' c) /\ indexAt k' i = Some c).
  { intros cs Hc. apply in_flat_map in Hc as (c & _ & Hc). apply in_app_or in Hc as [Hc|Hc].
    - apply in_map_iff in Hc as (i & <- & Hi). apply filter_In in Hi as [Hi Hx]. exists i, h, k, c. split; auto. split; auto. unfold hasIndex in Hx.
      destruct (indexAt k i) as [d|]; [|discriminate]. destruct (value_eqb_spec c d); congruence.
    - apply IH in Hc as (i & h' & k' & c' & A & B). exists i, h', k', c'. split; auto. apply filter_In in A. apply A. }
  destruct (keysAt k l) as [|c [|c' cs]]; [destruct H|eapply IH; eauto|exact (K _ H)].
Qed.

Variable noAlias : bool.
Variable nargs : nat.
Variable live : nat -> bool.
Lemma ptrInsts_inF i : In i (ptrInsts pointee live f) -> inF i.
Proof using Hw.
  unfold ptrInsts, liveBlocks. intros H. apply filter_In in H as [H _]. apply in_flat_map in H as ([b bk] & A & B). apply filter_In in A as [A _].
  exists b, bk. split; auto. apply In_get; auto. apply Hw.
Qed.
Theorem attrs0_ok : Forall Inv (attrs0 ak isGlob pointee noAlias nargs live f).
Proof using HP OO Hw PR.
  apply Forall_forall. intros [p a] H. unfold attrs0 in H. rewrite !in_app_iff in H. destruct PR as (Sz & Ar & _ & Ip & [Al _] & _). destruct H as [H|[H|[H|H]]].
  - apply in_flat_map in H as (n & _ & H). unfold attrsArg in H. destruct (isPtr pointee (OArg n)); [|destruct H].
    assert (K : forall a, deps a = [] -> attrOk a -> (forall v T o q e, args n = VOpq v -> pointee (OArg n) = Some T -> refers T v o q -> reg a e o q) -> Inv (OArg n, a)).
    { intros a0 D O K. split; auto. cbn [fst snd]. rewrite D. split; [intros y []|]. intros b bk pre e w _ _ v T o q A B C. cbn in A. injection A as A. eauto. }
    pose proof (Ar n) as Arn. destruct (isGlob n) eqn:Eg; [|destruct noAlias];
      repeat (destruct H as [H|H]; [injection H as <- <-; apply K; cbn; auto; intros v T o q e A B C; specialize (Arn v T o q A B C); eauto|]); destruct H.
  - apply in_flat_map in H as (i & Hi & H). apply ptrInsts_inF in Hi. unfold attrsI in H. destruct (ak (opc i)) eqn:K; try (destruct H; fail).
    + destruct H as [H|[H|[]]]; injection H as <- <-; split; cbn [fst snd deps attrOk]; auto.
      * apply inst_inv; auto. { intros y []. } { apply (reg_framed AStack). }
        intros b bk pre post e w vs v w' Hp E R M T o q Tp Rf. destruct (Al i e vs v T o q K) as [A _]; auto. exists b, bk, pre, post, w, w'. auto.
      * apply inst_inv; auto. { intros y [<-|[]]. now left. } { apply (reg_framed (AAlloc (dst i))). }
        intros b bk pre post e w vs v w' Hp E R M T o q Tp Rf. destruct (Al i e vs v T o q K) as [A ->]; auto. { exists b, bk, pre, post, w, w'. auto. }
        split; auto. exists v, T. rewrite upd_eq. auto.
      * exists i. split; auto. eapply inF_defOf; eauto.
    + destruct (constFirst i) eqn:C; [|destruct H]. destruct H as [H|[H|[]]]; injection H as <- <-; split; cbn [fst snd deps attrOk]; auto; [now apply off1_ok|apply off2_ok].
    + destruct (ops i) as [|[c|n|x] l]; try (destruct H; fail). destruct (isGlob n); [destruct H|]. destruct H as [H|[]]. injection H as <- <-. split; cbn [fst snd deps attrOk]; auto.
      apply inst_inv; auto. { intros y []. } { apply (reg_framed AArg). }
      intros b bk pre post e w vs v w' Hp E R M T o q Tp Rf. apply (Ip i e vs v T o q K); auto. exists b, bk, pre, post, w, w'. auto.
  - apply in_flat_map in H as (o & _ & H). unfold typed1 in H. destruct (pointee o) as [T|] eqn:E; [|destruct H]. destruct H as [H|[]]. injection H as <- <-. split; [now apply type_ok|exact I].
  - apply in_flat_map in H as (b & _ & H). apply divide_In in H as (i & h & k & c & A & B & C). injection B as -> ->. apply filter_In in A as [A Eb].
    unfold geps in A. apply filter_In in A as [A Eg]. destruct (opnd_eqb_spec (gepBase i) b) as [<-|]; [|discriminate]. unfold isGep in Eg. destruct (ak (opc i)) eqn:K; try discriminate.
    split; [|exact I]. apply cl_ok; auto. now apply ptrInsts_inF.
Qed.

(** ** handing attributes on *)
Lemma zero_root i : inF i -> ak (opc i) = AkGep -> zeroFirst i = true ->
  inv (ORes (dst i)) (res_of (gepBase i)) (inside args P objs pointee (gepBase i)) /\
  (3 <= length (ops i) -> inv (ORes (dst i)) (res_of (gepBase i)) (strict args P objs pointee (gepBase i))).
Proof using Hw PR.
  intros I K C. unfold zeroFirst in C. destruct (ops i) as [|[[z|z|]|n|x] l] eqn:Eo; try discriminate. apply Z.eqb_eq in C. subst z.
  assert (N : ops i <> []) by congruence.
  assert (A : forall b bk pre post e w vs v w', pt b bk pre e w -> body bk = pre ++ i :: post -> rds args e (ops i) = Some vs ->
     meaning m (opc i) vs w = IOk (VOpq v) w' -> forall T o q, pointee (ORes (dst i)) = Some T -> refers T v o q ->
     exists a V p inner, rd args (upd e (dst i) (VOpq v)) (gepBase i) = Some (VOpq a) /\ pointee (gepBase i) = Some V /\ refers V a o p /\ q = p ++ map Z.to_nat inner /\ length (ops i) = 2 + length inner).
  { intros b bk pre post e w vs v w' Hp E R M T o q Tp Rf.
    destruct (gep_runs i b bk pre post e w vs v w' T o q K Hp E R M Tp Rf) as (zs & a & V & p & L & Cs & Rb & Av & Tb & Rfb & Mv).
    destruct zs as [|z0 inner]; [destruct Mv|]. destruct Mv as (F & mm & -> & D).
    assert (z0 = 0%Z) as ->. { destruct (Cs 0 (VInt 0)) as (y & Y1 & Y2); [rewrite Eo; reflexivity|rewrite L; cbn; lia|]. cbn in Y1. congruence. }
    exists a, V, p, inner. rewrite (base_upd i b bk pre post e w _ Hp E Av). repeat (split; auto).
    destruct D as [[_ ->]|(p0 & j & -> & Nn & ->)]; auto. replace (Z.to_nat (Z.of_nat j + 0)) with j by lia. reflexivity. }
  split; [|intros L3]; (apply inst_inv; [auto|auto|apply base_dep; auto|first [apply inside_framed|apply strict_framed]|]);
    intros b bk pre post e w vs v w' Hp E R M T o q Tp Rf; destruct (A b bk pre post e w vs v w' Hp E R M T o q Tp Rf) as (a & V & p & inner & A1 & A2 & A3 & -> & A5).
  - exists a, V, p. repeat (split; auto). apply prefix_app.
  - exists a, V, p. repeat (split; auto); [apply prefix_app|]. intros E0. assert (K0 : p ++ [] = p ++ map Z.to_nat inner) by (rewrite app_nil_r; exact E0).
    apply app_inv_head in K0. destruct inner; [|discriminate]. rewrite Eo in A5. rewrite A5 in L3. cbn in L3. lia.
Qed.
Lemma root_strict n : forall i r, inF i -> ak (opc i) = AkGep -> gepRoot ak n f i = Some r -> (zeroFirst i = true -> 3 <= length (ops i)) ->
  inv (ORes (dst i)) (res_of r) (strict args P objs pointee r).
Proof using Hw PR.
  induction n as [|n IH]; intros i r I K H Z3; [discriminate|]. cbn [gepRoot] in H. destruct (zeroFirst i) eqn:Zf.
  { injection H as <-. apply zero_root; auto. }
  clear Z3. destruct (gepBase i) as [c|k|y] eqn:Eb; try discriminate. destruct (defOf f y) as [j|] eqn:Ej; [|discriminate]. destruct (isGep ak j) eqn:Gj; [|discriminate].
  destruct (inF_def f Hw y j Ej) as [Ij Dj]. assert (Kj : ak (opc j) = AkGep) by (unfold isGep in Gj; destruct (ak (opc j)); congruence).
  assert (Z : zeroFirst j = true -> 3 <= length (ops j)).
  { destruct PR as (_ & _ & _ & _ & _ & _ & _ & _ & _ & Ze). intros Zj. eapply (Ze i j y); eauto. eapply inF_defOf; eauto. unfold isGep. now rewrite K. }
  assert (N : ops i <> []). { intros N. unfold gepBase in Eb. rewrite N in Eb. discriminate. }
  pose proof (IH j r Ij Kj H Z) as [Dp St]. rewrite Dj in *.
  assert (D1 : depOk (ORes (dst i)) (res_of (ORes y))) by (rewrite <- Eb; apply base_dep; auto).
  assert (D2 : depOk (ORes (dst i)) (res_of r)) by (exact (dep_trans f Hw i (ORes y) (res_of r) I D1 Dp)).
  apply inst_inv; auto; [apply strict_framed|].
  intros b bk pre post e w vs v w' Hp E R M T o q Tp Rf.
  destruct (gep_runs i b bk pre post e w vs v w' T o q K Hp E R M Tp Rf) as (zs & a & V & p & L & Cs & Rb & Av & Tb & Rfb & Mv).
  rewrite Eb in *. destruct (St b bk pre e w Hp Av a V o p Rb Tb Rfb) as (vr & Tr & pr & R1 & R2 & R3 & R4 & R5).
  exists vr, Tr, pr. assert (Er : rd args (upd e (dst i) (VOpq v)) r = rd args e r).
  { apply framed_rd. intros z Hz. destruct (D2 z Hz) as [E0|(x & E0 & B)]; [|injection E0 as <-; eapply upd_before; eauto].
    exfalso. injection E0 as E0. destruct (Dp z Hz) as [E1|(x & E1 & B)].
    - injection E1 as <-. destruct (atPoint_get _ _ _ _ _ _ _ _ _ Hp) as [G _]. refine (avail_ne f b bk pre i post y _ _ G E Av (eq_sym E0)); [apply Hw|eapply atPoint_reach; eauto].
    - injection E1 as <-. destruct (atPoint_get _ _ _ _ _ _ _ _ _ Hp) as [G _]. refine (avail_ne f b bk pre i post z _ _ G E _ (eq_sym E0)); [apply Hw|eapply atPoint_reach; eauto|].
      eapply (before_avail f y z b bk pre (i :: post)); eauto; [apply Hw|eapply atPoint_reach; eauto]. }
  rewrite Er. repeat (split; auto).
  - destruct zs as [|z0 inner]; [destruct Mv|]. destruct Mv as (F & mm & -> & D). destruct R4 as [tl ->]. destruct D as [[_ ->]|(p0 & jx & Ep & Nn & ->)].
    + rewrite <- app_assoc. apply prefix_app.
    + destruct (exists_last (l := tl)) as (tl' & last & ->); [intros ->; apply R5; now rewrite app_nil_r|].
      rewrite app_assoc in Ep. apply app_inj_tail in Ep as [<- _]. rewrite <- !app_assoc. apply prefix_app.
  - destruct zs as [|z0 inner]; [destruct Mv|]. destruct Mv as (F & mm & -> & D). intros E0. assert (Lp : length pr < length p).
    { destruct R4 as [tl ->]. rewrite app_length. destruct tl; [exfalso; apply R5; now rewrite app_nil_r|cbn; lia]. }
    assert (length mm = length p). { destruct D as [[_ ->]|(p0 & jx & -> & Nn & ->)]; auto. now rewrite !app_length. }
    apply (f_equal (@length nat)) in E0. rewrite app_length in E0. lia.
Qed.
Lemma gep_edge n i r : inF i -> ak (opc i) = AkGep -> gepRoot ak n f i = Some r -> inv (ORes (dst i)) (res_of r) (inside args P objs pointee r).
Proof using Hw PR.
  intros I K H. destruct (zeroFirst i) eqn:Zf.
  - destruct n; [discriminate|]. cbn [gepRoot] in H. rewrite Zf in H. injection H as <-. apply zero_root; auto.
  - apply strict_inside. eapply root_strict; eauto. congruence.
Qed.
Lemma cast_edge i x l : inF i -> ak (opc i) = AkCast \/ ak (opc i) = AkPtrAdd -> ops i = x :: l -> inv (ORes (dst i)) (res_of x) (inside args P objs pointee x).
Proof using Hw PR.
  intros I K Eo. assert (Dx : depOk (ORes (dst i)) (res_of x)).
  { intros y Hy. right. exists (dst i). split; auto. apply res_of_eq in Hy. eapply inst_before; eauto. rewrite Eo, Hy. now left. }
  apply inst_inv; auto; [apply inside_framed|]. intros b bk pre post e w vs v w' Hp E R M T o q Tp Rf.
  destruct PR as (_ & _ & _ & _ & _ & _ & Ca & _). destruct (Ca i e vs v T o q K) as (x' & l' & a & V & p & A & B & C & D & F); auto. { exists b, bk, pre, post, w, w'. auto. }
  rewrite Eo in A. injection A as <- <-. exists a, V, p. rewrite (framed_rd args x _ e); [auto|]. intros y Hy. destruct (Dx y Hy) as [E0|(z & E0 & Bz)]; [|injection E0 as <-; eapply upd_before; eauto].
  exfalso. injection E0 as E0. apply res_of_eq in Hy. destruct (atPoint_get _ _ _ _ _ _ _ _ _ Hp) as [G _]. refine (avail_ne f b bk pre i post y _ _ G E _ (eq_sym E0)); [apply Hw|eapply atPoint_reach; eauto|].
  apply (op_avail m args w0 f Hw b bk pre i post e w (ORes y) Hp E). rewrite Eo, Hy. now left.
Qed.
Lemma select_edge i D R c x y l : inF i -> ak (opc i) = AkSelect -> ops i = c :: x :: y :: l -> framed D R -> inv x D R -> inv y D R -> inv (ORes (dst i)) D R.
Proof using Hw PR.
  intros I K Eo Fr [Dx Hx] [Dy Hy].
  assert (Bf : forall z, In z D -> before f (dst i) z).
  { intros z Hz. assert (B : forall s, x = ORes s -> before f (dst i) s) by (intros s ->; eapply inst_before; eauto; rewrite Eo; right; now left).
    destruct (Dx z Hz) as [->|(s & -> & Bs)]; auto. eapply (before_trans f); eauto; [apply Hw|]. intros d bk G _ Kp. eapply inF_phi; eauto. }
  assert (Dp : depOk (ORes (dst i)) D) by (intros z Hz; right; exists (dst i); auto).
  apply inst_inv; auto. intros b bk pre post e w vs v w' Hp E Rr M T o q Tp Rf.
  destruct PR as (_ & _ & _ & _ & _ & _ & _ & Se & _). destruct (Se i e vs (VOpq v) K) as (c' & x' & y' & A & B & C1 & C2). { exists b, bk, pre, post, w, w'. auto. }
  rewrite Eo in A. injection A as <- <- <- ->. apply (Fr e). { intros z Hz. symmetry. eapply upd_before; eauto. }
  destruct B as [B|B]; [refine (Hx b bk pre e w Hp _ v T o q B _ Rf)|refine (Hy b bk pre e w Hp _ v T o q B _ Rf)]; try congruence; eapply op_avail; eauto; rewrite Eo; cbn; auto.
Qed.
Lemma dedup_In o l : In o (dedup l) <-> In o l.
Proof using.
  clear.
  induction l as [|x l IH]; [reflexivity|]. cbn. rewrite filter_In, IH. destruct (opnd_eqb_spec o x) as [->|N]; cbn; [tauto|]. split; [tauto|]. intros [->|H]; auto.
Qed.
Lemma phi_edge ph ss D R : In ph (ptrPhis pointee live f) -> In (ORes (pdst ph), ss) (edgesPhi ph) -> framed D R -> (forall s, In s ss -> inv s D R) -> inv (ORes (pdst ph)) D R.
Proof using Hw PR.
  intros Hph He Fr Hs. unfold ptrPhis, liveBlocks in Hph. apply filter_In in Hph as [Hph Tp]. apply in_flat_map in Hph as ([b bk] & A & B). apply filter_In in A as [A _].
  assert (G : get b f = Some bk) by (apply In_get; auto; apply Hw).
  destruct PR as (_ & _ & _ & _ & _ & _ & _ & _ & Ph & _).
  assert (Tn : pointee (ORes (pdst ph)) <> None) by (intros K0; unfold isPtr in Tp; rewrite K0 in Tp; discriminate).
  refine (phi_inv m args w0 f P objs pointee Hw ph b bk D R G B Fr _). intros p o Hin. destruct (Ph b bk ph p o G B Tn Hin) as [C E]. split; auto. apply Hs.
  assert (Hd : In o (dedup (filter (fun o => negb (isCst o)) (map snd (inc ph))))).
  { apply dedup_In, filter_In. split; [|now rewrite C]. change o with (snd (p, o)). now apply in_map. }
  unfold edgesPhi in He. destruct (dedup _) as [|d1 [|d2 [|d3 dr]]]; try (destruct He; fail); destruct He as [He|[]]; injection He as <-; exact Hd.
Qed.
Lemma follow_ok A ed : In ed (edges ak pointee live f) -> Forall Inv A -> Forall Inv (follow A ed).
Proof using Hw PR.
  intros He HA. unfold follow. destruct ed as [d ss]. cbn [snd fst]. destruct ss as [|s r]; auto. apply Forall_app. split; auto.
  apply Forall_forall. intros [p a] Hx. apply in_map_iff in Hx as (a' & E & Hx). injection E as <- ->. apply filter_In in Hx as [Hx Hr].
  assert (Src : forall o, In a (attrsOf A o) -> Inv (o, a)).
  { intros o Ho. unfold attrsOf in Ho. destruct (isCst o); [destruct Ho|]. apply in_map_iff in Ho as ([o' a'] & <- & Ho). apply filter_In in Ho as [Ho Eo].
    cbn in Eo. destruct (opnd_eqb_spec o' o) as [->|]; [|discriminate]. rewrite Forall_forall in HA. exact (HA _ Ho). }
  assert (Hs : Inv (s, a)) by auto. assert (Hr' : forall o, In o r -> Inv (o, a)).
  { intros o Ho. rewrite forallb_forall in Hr. specialize (Hr o Ho). unfold hasAttr in Hr. apply existsb_exists in Hr as (a1 & H1 & H2). apply attr_eqb_eq in H2. subst a1. auto. }
  destruct Hs as [Hs Ok]. cbn [fst snd] in *. split; [|exact Ok]. cbn [fst snd].
  unfold edges in He. apply in_app_or in He as [He|He]; apply in_flat_map in He as (i & Hi & He).
  - apply ptrInsts_inF in Hi. unfold edgesI in He. destruct (ak (opc i)) eqn:K; try (destruct He; fail).
    + destruct (gepRoot ak (depth f) f i) as [b|] eqn:Eg; [|destruct He]. destruct He as [He|[]]. injection He as <- <- <-.
      eapply inv_through; eauto; [|apply reg_up]. eapply gep_edge; eauto.
    + destruct (ops i) as [|x l] eqn:Eo; [destruct He|]. destruct He as [He|[]]. injection He as <- <- <-. eapply inv_through; eauto; [|apply reg_up]. eapply cast_edge; eauto.
    + destruct (ops i) as [|c [|x [|y l]]] eqn:Eo; try (destruct He; fail). destruct He as [He|[]]. injection He as <- <- <-.
      eapply select_edge; eauto; [apply reg_framed|]. apply (Hr' y). now left.
    + destruct (ops i) as [|x l] eqn:Eo; [destruct He|]. destruct He as [He|[]]. injection He as <- <- <-. eapply inv_through; eauto; [|apply reg_up]. eapply cast_edge; eauto.
  - assert (d = ORes (pdst i)) as ->.
    { unfold edgesPhi in He. destruct (dedup _) as [|d1 [|d2 [|d3 dr]]]; try (destruct He; fail); destruct He as [He|[]]; injection He; auto. }
    eapply phi_edge; eauto; [apply reg_framed|]. intros o [<-|Ho]; auto. exact (proj1 (Hr' o Ho)).
Qed.
Theorem analysis_ok es : incl es (edges ak pointee live f) -> Forall Inv (analysis ak isGlob pointee noAlias nargs live f es).
Proof using HP OO Hw PR.
  unfold analysis. intros H. assert (K : forall A, Forall Inv A -> Forall Inv (fold_left follow es A)); [|apply K, attrs0_ok].
  revert H. induction es as [|ed es IH]; intros H A HA; auto. cbn. apply IH; [intros x Hx; apply H; now right|]. apply follow_ok; auto. apply H. now left.
Qed.
Theorem distinct_ok es p q : incl es (edges ak pointee live f) -> isDistinct (analysis ak isGlob pointee noAlias nargs live f es) p q = true ->
  forall b bk pre e w, pt b bk pre e w -> opAvail (availAt f b bk pre) p -> opAvail (availAt f b bk pre) q ->
  forall a a' T V o o' r r', rd args e p = Some (VOpq a) -> rd args e q = Some (VOpq a') -> pointee p = Some T -> pointee q = Some V ->
  refers T a o r -> refers V a' o' r' -> (a + size P T <= a' \/ a' + size P V <= a)%Z.
Proof using HP OO Hw PR.
  intros Hes D b bk pre e w Hp A1 A2 a a' T V o o' r r' R1 R2 T1 T2 F1 F2. pose proof (analysis_ok es Hes) as HA. rewrite Forall_forall in HA.
  unfold isDistinct in D. apply andb_true_iff in D as [D D4]. clear D. apply existsb_exists in D4 as (x & X1 & D4). apply existsb_exists in D4 as (y & Y1 & D4).
  assert (Src : forall o a, In a (attrsOf (analysis ak isGlob pointee noAlias nargs live f es) o) -> Inv (o, a)).
  { clear -HA. intros o a Ho. unfold attrsOf in Ho. destruct (isCst o); [destruct Ho|]. apply in_map_iff in Ho as ([o' a'] & <- & Ho). apply filter_In in Ho as [Ho Eo].
    cbn in Eo. destruct (opnd_eqb_spec o' o) as [->|]; [|discriminate]. exact (HA _ Ho). }
  destruct (Src p x X1) as [[Dx Hx] Ox]. destruct (Src q y Y1) as [[Dy Hy] Oy]. cbn [fst snd] in *.
  assert (Av : forall p D, depOk p D -> opAvail (availAt f b bk pre) p -> forall z, In z D -> availAt f b bk pre z).
  { clear -Hw Hp. intros p D Dp A z Hz. destruct (atPoint_get _ _ _ _ _ _ _ _ _ Hp) as [G [post E]]. destruct (Dp z Hz) as [->|(s & -> & B)]; auto.
    eapply (before_avail f s z b bk pre post); eauto; [apply Hw|eapply atPoint_reach; eauto]. }
  pose proof (Hx b bk pre e w Hp A1 a T o r R1 T1 F1) as G1. pose proof (Hy b bk pre e w Hp A2 a' V o' r' R2 T2 F2) as G2.
  apply (refers_apart P HP objs OO T a o r V a' o' r' F1 F2). destruct (Nat.eq_dec o o') as [<-|N]; auto. right.
  split; intros L.
  - exact (regs_disjoint x y b bk pre e w o r' D4 Hp Ox Oy (Av p _ Dx A1) (Av q _ Dy A2) (reg_up x e o r r' L G1) G2).
  - exact (regs_disjoint x y b bk pre e w o r D4 Hp Ox Oy (Av p _ Dx A1) (Av q _ Dy A2) G1 (reg_up y e o r' r L G2)).
Qed.
End Sound.
