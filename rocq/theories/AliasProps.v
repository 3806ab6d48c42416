(** C47: pointers the alias analysis calls distinct do not overlap.  Statements; see AliasProof.v for the conditions. *)
From Coq Require Import ZArith Lia Bool List Arith.
From Verif Require Import Addr AddrProof Sim Ssa SsaCfg SsaMerge SsaFwd SsaWf SsaDom SsaProps SsaSub SsaVerify SsaEq SsaPhi SsaCse LdSt LdStPts LdStProof LdStLoad Alias AliasPts AliasLayout AliasInv AliasProof.
Import ListNotations.

(** Whatever order the inheritance graph is followed in and however far: if the analysis says that two pointers are distinct,
    then at every point of every run where both are available and point to elements of objects, these elements have no byte in
    common.  Partial: runs where getelementptr leaves the array it indexes or a cast leads out of what its operand points to,
    programs with constants among the operands of a phi of pointers, and getelementptrs on a getelementptr whose only index is
    0 are excluded by [program]; for the last two the claim is false, see below. *)
Theorem C47_distinct_no_overlap_partial : forall W (m : sem W) args w0 f P objs ak isGlob pointee local gobj noAlias nargs live es p q,
  P = 4%Z \/ P = 8%Z -> objsOk P objs -> wfs f -> program m args w0 f P objs ak isGlob pointee local gobj ->
  incl es (edges ak pointee live f) -> isDistinct (analysis ak isGlob pointee noAlias nargs live f es) p q = true ->
  forall b bk pre e w a a' T V o o' r r', atPoint m args w0 f b bk pre e w -> opAvail (availAt f b bk pre) p -> opAvail (availAt f b bk pre) q ->
  rd args e p = Some (VOpq a) -> rd args e q = Some (VOpq a') -> pointee p = Some T -> pointee q = Some V ->
  refers P objs T a o r -> refers P objs V a' o' r' -> apart a (size P T) a' (size P V).
Proof.
  intros W m args w0 f P objs ak isGlob pointee local gobj noAlias nargs live es p q HP OO Hw PR Hes D b bk pre e w a a' T V o o' r r' Hp A1 A2 R1 R2 T1 T2 F1 F2.
  exact (distinct_ok m args w0 f P HP objs OO ak isGlob pointee local gobj Hw PR noAlias nargs live es p q Hes D b bk pre e w Hp A1 A2 a a' T V o o' r r' R1 R2 T1 T2 F1 F2).
Qed.
(** Type-based disambiguation by itself: elements of types neither of which contains the other have no byte in common. *)
Theorem C47_types_no_overlap : forall P objs T V a a' o o' r r', P = 4%Z \/ P = 8%Z -> objsOk P objs ->
  includes T V = false -> includes V T = false -> refers P objs T a o r -> refers P objs V a' o' r' -> apart a (size P T) a' (size P V).
Proof.
  intros P objs T V a a' o o' r r' HP OO N1 N2 F1 F2. apply (refers_apart P HP objs OO T a o r V a' o' r' F1 F2).
  destruct (Nat.eq_dec o o') as [<-|N]; auto. right. destruct F1 as (b1 & T1 & f1 & A1 & A2 & _), F2 as (b2 & T2 & f2 & B1 & B2 & _). rewrite A1 in B1. injection B1 as <- <-.
  split; intros [s ->].
  - rewrite locate_app, A2 in B2. destruct (locate P T s) as [[z u]|] eqn:E; [|discriminate]. injection B2 as _ ->. apply includes_complete in E. congruence.
  - rewrite locate_app, B2 in A2. destruct (locate P V s) as [[z u]|] eqn:E; [|discriminate]. injection A2 as _ ->. apply includes_complete in E. congruence.
Qed.
(** The address a getelementptr computes inside an array is that of the element [moves] names (the condition [okGep]). *)
Theorem C47_gep_moves : forall P objs V a o p z inner off T, refers P objs V a o p -> locate P V (map Z.to_nat inner) = Some (off, T) -> Forall (fun i => (0 <= i)%Z) inner ->
  (z = 0%Z \/ exists p0 j n b A x, p = p0 ++ [j] /\ objs o = Some (b, A) /\ locate P A p0 = Some (x, TArr n V) /\ (0 <= Z.of_nat j + z < Z.of_nat n)%Z) ->
  exists q, refers P objs T (a + z * size P V + off) o q /\ moves p (z :: inner) q.
Proof.
  intros P objs V a o p z inner off T (b & A & x & Ob & L & ->) Li Fi H.
  destruct H as [->|(p0 & j & n & b' & A' & x0 & -> & Ob' & L0 & B)].
  - exists (p ++ map Z.to_nat inner). split.
    + exists b, A, (x + off)%Z. split; auto. rewrite locate_app, L, Li. split; auto. lia.
    + split; auto. exists p. auto.
  - rewrite Ob in Ob'. injection Ob' as <- <-. rewrite locate_app, L0 in L. cbn [AddrProof.locate] in L. destruct (Nat.ltb j n); [|discriminate]. injection L as <-.
    exists ((p0 ++ [Z.to_nat (Z.of_nat j + z)]) ++ map Z.to_nat inner). split.
    + exists b, A, (x0 + Z.of_nat (Z.to_nat (Z.of_nat j + z)) * size P V + off)%Z. split; auto. split; [|rewrite Z2Nat.id by lia; try ring].
      rewrite locate_app, locate_app, L0. cbn [AddrProof.locate]. destruct (Nat.ltb_spec (Z.to_nat (Z.of_nat j + z)) n); [|lia]. rewrite Li. do 2 f_equal. ring.
    + split; auto. exists (p0 ++ [Z.to_nat (Z.of_nat j + z)]). split; auto. right. exists p0, j. split; auto. split; auto. lia.
Qed.
(** The condition C46 puts on the alias analysis: loads and stores of elements of objects through pointers called distinct are
    apart. *)
Theorem C47_serves_loads_and_stores_partial : forall W (m : sem W) args w0 f (M : memory W) P objs ak isGlob pointee local gobj noAlias nargs live es (base : opnd -> option opnd) (tyOf : nat -> ty),
  P = 4%Z \/ P = 8%Z -> objsOk P objs -> wfs f -> program m args w0 f P objs ak isGlob pointee local gobj -> incl es (edges ak pointee live f) ->
  (forall t, siz M t = size P (tyOf t)) ->
  (* accesses are valid at elements of their types only *)
  (forall t a w, ld M t a w <> None -> exists o r, refers P objs (tyOf t) a o r) ->
  (* the other half of the condition: different bases *)
  okSep m args w0 M (fun _ _ => false) base f ->
  okSep m args w0 M (fun x y => match pointee (fst x), pointee (fst y) with Some T, Some V => ty_eqb T (tyOf (snd x)) && ty_eqb V (tyOf (snd y)) | _, _ => false end &&
     isDistinct (analysis ak isGlob pointee noAlias nargs live f es) (fst x) (fst y)) base f.
Proof.
  intros W m args w0 f M P objs ak isGlob pointee local gobj noAlias nargs live es base tyOf HP OO Hw PR Hes Sz Va Ba b bk pre e w p t q u a a' Hp Ap Aq Rp Rq L1 L2 D.
  destruct D as [D|D]; [|exact (Ba b bk pre e w p t q u a a' Hp Ap Aq Rp Rq L1 L2 (or_intror D))].
  cbn [fst snd] in D. destruct (pointee p) as [T|] eqn:Tp; [|discriminate]. destruct (pointee q) as [V|] eqn:Tq; [|discriminate]. rewrite !andb_true_iff in D. destruct D as [[D1 D2] D].
  apply ty_eqb_eq in D1, D2. subst T V. destruct (Va _ _ _ L1) as (o & r & F1). destruct (Va _ _ _ L2) as (o' & r' & F2). rewrite !Sz.
  eapply C47_distinct_no_overlap_partial; eauto.
Qed.

(** ** an example that meets the conditions *)
(** two arrays on the stack; [x2 = &a[1]], [x3 = &a[n]], [x4 = x2 + 1], a phi of [x2] and [x4], [x6 = &b[0]] *)
Definition i32 : ty := TInt 32.
Definition f32 : ty := TFp true.
Definition tA : ty := TArr 4 i32.
Definition tB : ty := TArr 2 f32.
Definition xf : func := [
  (0, Block [] [Inst 0 0 []; Inst 1 1 []; Inst 2 2 [OCst (VInt 0); OCst (VInt 1); ORes 0]; Inst 3 2 [OCst (VInt 0); OArg 0; ORes 0]] (TCond (OArg 1) 1 2));
  (1, Block [] [] (TBr 3));
  (2, Block [] [Inst 4 3 [OCst (VInt 1); ORes 2]] (TBr 3));
  (3, Block [Phi 5 [(1, ORes 2); (2, ORes 4)]] [Inst 6 4 [OCst (VInt 0); OCst (VInt 0); ORes 1]] (TRet None))]%nat.
Definition xk (o : nat) : akind := match o with 0 | 1 => AkAlloc | 2 | 3 | 4 => AkGep | 5 => AkPtrAdd | _ => AkNone end.
Definition xty (o : opnd) : option ty :=
  match o with ORes 0 => Some tA | ORes 1 => Some tB | ORes 2 | ORes 3 | ORes 4 | ORes 5 => Some i32 | ORes 6 => Some f32 | _ => None end.
(** [a] is at 1000, [b] at 2000; a getelementptr out of bounds has no meaning *)
Definition xobjs (o : nat) : option (Z * ty) := match o with 0 => Some (1000%Z, tA) | 1 => Some (2000%Z, tB) | _ => None end.
Definition inb4 (lo hi z : Z) : bool := ((lo <=? z) && (z <? hi))%Z.
Definition xm : sem unit := {| meaning := fun o vs w =>
    match o, vs with
    | 0, _ => IOk (VOpq 1000) w
    | 1, _ => IOk (VOpq 2000) w
    | 2, [VInt 0; VInt j; VOpq a] => if (a =? 1000)%Z && inb4 0 4 j then IOk (VOpq (1000 + 4 * j)) w else IBad
    | 3, [VInt z; VOpq a] => if inb4 0 4 ((a - 1000) / 4) && ((a - 1000) mod 4 =? 0)%Z && inb4 0 4 ((a - 1000) / 4 + z) then IOk (VOpq (a + 4 * z)) w else IBad
    | 4, [VInt 0; VInt j; VOpq a] => if (a =? 2000)%Z && inb4 0 2 j then IOk (VOpq (2000 + 4 * j)) w else IBad
    | 5, [VOpq a; VInt z] => IOk (VOpq (a + z)) w
    | _, _ => IBad
    end; visible := fun _ => false |}.
Definition xargs (n : nat) : value := match n with 0 => VInt 3 | _ => VInt 1 end.
Lemma xobjs_ok : objsOk 8 xobjs.
Proof.
  split.
  - intros [|[|o]] a t [= <- <-]; reflexivity.
  - intros [|[|o]] [|[|o']] a t a' t' [= <- <-] [= <- <-] N; try congruence; vm_compute; [left|right]; discriminate.
Qed.
Lemma xf_wfs : wfs xf.
Proof.
  assert (Hw : wf xf) by (apply wfb_ok; vm_compute; reflexivity). split; [exact Hw|]. destruct Hw as (Hn & U & Hc & R). split.
  - apply (verify_sound (domb xf) (rchb xf)); [now apply domb_ok| |vm_compute; reflexivity].
    apply phiReach_all. apply (allReach_dec xf Hc Hn). vm_compute. reflexivity.
  - intros bk [= <-]. reflexivity.
Qed.
Lemma xin args w0 i e vs v : runs xm args w0 xf i e vs v -> In i (flat_map (fun b => body (snd b)) xf) /\ rds args e (ops i) = Some vs /\ meaning xm (opc i) vs tt = IOk v tt.
Proof.
  intros (b & bk & pre & post & w & w' & Hp & E & R & M). destruct (atPoint_get _ _ _ _ _ _ _ _ _ Hp) as [G _]. apply get_In in G. destruct w, w'. split; auto.
  apply in_flat_map. exists (b, bk). split; auto. cbn. rewrite E. apply in_or_app. right. now left.
Qed.
Lemma xelem a j : (0 <= j < 4)%Z -> a = (1000 + 4 * j)%Z -> refers 8 xobjs i32 a 0 [Z.to_nat j].
Proof.
  intros B ->. exists 1000%Z, tA, (4 * j)%Z. split; auto. split; auto. cbn [AddrProof.locate tA]. destruct (Nat.ltb_spec (Z.to_nat j) 4); [|lia].
  f_equal. f_equal. cbn [size i32]. change (32 / 8 + (if 32 mod 8 =? 0 then 0 else 1))%Z with 4%Z. lia.
Qed.
Lemma xelemB a j : (0 <= j < 2)%Z -> a = (2000 + 4 * j)%Z -> refers 8 xobjs f32 a 1 [Z.to_nat j].
Proof.
  intros B ->. exists 2000%Z, tB, (4 * j)%Z. split; auto. split; auto. cbn [AddrProof.locate tB]. destruct (Nat.ltb_spec (Z.to_nat j) 2); [|lia].
  f_equal. f_equal. cbn [size f32]. lia.
Qed.
Lemma inb4_true lo hi z : inb4 lo hi z = true -> (lo <= z < hi)%Z.
Proof. unfold inb4. intros H. apply andb_true_iff in H as [A B]. apply Z.leb_le in A. apply Z.ltb_lt in B. lia. Qed.
Lemma xunique t a o p o' q : (0 < size 8 t)%Z -> refers 8 xobjs t a o p -> refers 8 xobjs t a o' q -> o = o' /\ p = q.
Proof. apply refers_unique; [now right|exact xobjs_ok]. Qed.
Lemma xfull t v o : refers 8 xobjs t v o [] -> xobjs o = Some (v, t).
Proof. intros (b & T & x & A & B & ->). cbn in B. injection B as <- <-. rewrite A. do 2 f_equal. lia. Qed.
Example xf_meets : wfs xf /\ program xm xargs tt xf 8 xobjs xk (fun _ => false) xty (fun o => o < 2) (fun n => n).
Proof.
  split; [exact xf_wfs|]. repeat split.
  - intros o T H. destruct o as [c|n|[|[|[|[|[|[|[|x]]]]]]]]; cbn in H; try discriminate; injection H as <-; reflexivity.
  - intros n v T o q _ H. discriminate.
  - discriminate.
  - discriminate.
  - intros i e vs v T o q K R _ _. apply xin in R as (I & _ & _). cbn in I. repeat (destruct I as [<-|I]; [discriminate|]). destruct I.
  - match goal with H : Alias.refers _ _ _ _ _ _ |- _ => destruct H as (b & A & x & O & _) end. destruct o as [|[|o]]; [lia|lia|discriminate].
  - match goal with H : runs _ _ _ _ _ _ _ _ |- _ => apply xin in H as (I & R & M) end. cbn in I.
    repeat (destruct I as [<-|I]; [try discriminate|]); try destruct I; cbn in *; injection R as <-; injection M as <-;
      match goal with H : Some _ = Some _ |- _ => injection H as <- end.
    + destruct (xunique tA 1000 o q 0 [] eq_refl H2) as [-> ->]; [exists 1000%Z, tA, 0%Z; split; [reflexivity|split; reflexivity]|]. split; auto; lia.
    + destruct (xunique tB 2000 o q 1 [] eq_refl H2) as [-> ->]; [exists 2000%Z, tB, 0%Z; split; [reflexivity|split; reflexivity]|]. split; auto; lia.
  - intros b bk pre e w i j v u T V o Hp Di Dj N Ki Kj _ _ _ _ Ti Tj F1 F2. apply xfull in F1, F2. rewrite F1 in F2. injection F2 as <- <-.
    destruct (defOf_In _ _ _ Di) as (_ & b1 & k1 & I1 & J1). destruct (defOf_In _ _ _ Dj) as (_ & b2 & k2 & I2 & J2).
    assert (H1 : In i (flat_map (fun b => body (snd b)) xf)) by (apply in_flat_map; eauto). assert (H2 : In j (flat_map (fun b => body (snd b)) xf)) by (apply in_flat_map; eauto).
    cbn in H1, H2. destruct H1 as [<-|[<-|H1]]; [| |repeat (destruct H1 as [<-|H1]; [discriminate|]); destruct H1];
      (destruct H2 as [<-|[<-|H2]]; [| |repeat (destruct H2 as [<-|H2]; [discriminate|]); destruct H2]); cbn in Ti, Tj, N; try (contradiction N; reflexivity); rewrite <- Ti in Tj; discriminate.
  - intros i e vs v T o q K R Tp F. apply xin in R as (I & R & M). cbn in I.
    repeat (destruct I as [<-|I]; [try discriminate|]); try destruct I; cbn in R, Tp; injection Tp as <-.
    + destruct (e 0) as [v0|]; [|discriminate]; injection R as <-; cbn -[Z.eqb] in M. destruct v0 as [z|z|]; try (exfalso; cbn in M; discriminate M). destruct (Z.eqb z 1000) eqn:Ez; [apply Z.eqb_eq in Ez; subst z|discriminate]. cbn in M.
      injection M as <-. destruct (xunique i32 _ _ _ _ _ eq_refl F (xelem 1004 1 ltac:(lia) eq_refl)) as [-> ->].
      exists [0; 1]%Z, 1000%Z, tA, []. split; auto. split; auto. split; [exists 1000%Z, tA, 0%Z; repeat split|]. split; [repeat constructor; lia|]. exists (@nil nat). split; [reflexivity|left; split; reflexivity].
    + destruct (e 0) as [v0|]; [|discriminate]; injection R as <-; cbn -[Z.eqb] in M. destruct v0 as [z|z|]; try (exfalso; cbn in M; discriminate M). destruct (Z.eqb z 1000) eqn:Ez; [apply Z.eqb_eq in Ez; subst z|discriminate]. cbn in M.
      injection M as <-. destruct (xunique i32 _ _ _ _ _ eq_refl F (xelem 1012 3 ltac:(lia) eq_refl)) as [-> ->].
      exists [0; 3]%Z, 1000%Z, tA, []. split; auto. split; auto. split; [exists 1000%Z, tA, 0%Z; repeat split|]. split; [repeat constructor; lia|]. exists (@nil nat). split; [reflexivity|left; split; reflexivity].
    + destruct (e 2) as [[z|z|]|]; try discriminate; injection R as <-; cbn [meaning xm] in M; try discriminate.
      destruct (inb4 0 4 ((z - 1000) / 4)) eqn:B1; [|discriminate]. destruct ((z - 1000) mod 4 =? 0)%Z eqn:B2; [|discriminate]. destruct (inb4 0 4 ((z - 1000) / 4 + 1)) eqn:B3; [|discriminate].
      cbn in M. injection M as <-. apply inb4_true in B1, B3. apply Z.eqb_eq in B2. pose proof (Z.div_mod (z - 1000) 4 ltac:(lia)) as Dm. set (j := ((z - 1000) / 4)%Z) in *.
      destruct (xunique i32 _ _ _ _ _ eq_refl F (xelem (z + 4) (j + 1) ltac:(lia) ltac:(lia))) as [-> ->].
      exists [1]%Z, z, i32, [Z.to_nat j]. split; auto. split; auto. split; [apply xelem; lia|]. split; [constructor|]. exists [Z.to_nat (j + 1)]. split; auto. right. exists [], (Z.to_nat j).
      split; auto. split; [lia|]. cbn. do 2 f_equal. lia.
    + destruct (e 1) as [v0|]; [|discriminate]; injection R as <-; cbn -[Z.eqb] in M. destruct v0 as [z|z|]; try (exfalso; cbn in M; discriminate M). destruct (Z.eqb z 2000) eqn:Ez; [apply Z.eqb_eq in Ez; subst z|discriminate]. cbn in M.
      injection M as <-. destruct (xunique f32 _ _ _ _ _ eq_refl F (xelemB 2000 0 ltac:(lia) eq_refl)) as [-> ->].
      exists [0; 0]%Z, 2000%Z, tB, []. split; auto. split; auto. split; [exists 2000%Z, tB, 0%Z; repeat split|]. split; [repeat constructor; lia|]. exists (@nil nat). split; [reflexivity|left; split; reflexivity].
  - intros i e vs v T o q K R _ _. apply xin in R as (I & _ & _). cbn in I. repeat (destruct I as [<-|I]; [destruct K; discriminate|]). destruct I.
  - intros i e vs v K R. apply xin in R as (I & _ & _). cbn in I. repeat (destruct I as [<-|I]; [discriminate|]). destruct I.
  - match goal with H : get _ _ = Some _ |- _ => apply get_In in H; cbn in H; repeat (destruct H as [H|H]; [injection H as <- <-|]); try destruct H end; cbn in *;
      repeat (match goal with H : _ \/ _ |- _ => destruct H | H : False |- _ => destruct H | H : _ = _ |- _ => progress (try injection H as <- <-; subst) end; cbn in *); reflexivity.
  - match goal with H : get _ _ = Some _ |- _ => apply get_In in H; cbn in H; repeat (destruct H as [H|H]; [injection H as <- <-|]); try destruct H end; cbn in *;
      repeat (match goal with H : _ \/ _ |- _ => destruct H | H : False |- _ => destruct H | H : _ = _ |- _ => progress (try injection H as <- <-; subst) end; cbn in *); reflexivity.
  - intros i j y Di Dj Gi Gj Eb Zj. apply defOf_In in Dj as (<- & b & bk & I & J).
    assert (H1 : In j (flat_map (fun b => body (snd b)) xf)) by (apply in_flat_map; eauto). cbn in H1. repeat (destruct H1 as [<-|H1]; [try discriminate; cbn; lia|]). destruct H1.
Qed.

(** the analysis of the example says something: [&a[1]] and [x2 + 1] by their offset, the phi and [b], [&a[1]] and [&b[0]];
    and it does not separate [&a[1]] from [&a[n]], nor the phi from its operand *)
Definition xan := analysis xk (fun _ => false) xty false 2 (fun _ => true) xf (edges xk xty (fun _ => true) xf).
Example xf_distinct : map (fun x => isDistinct xan (ORes (fst x)) (ORes (snd x))) [(2, 4); (5, 1); (2, 6); (2, 3); (5, 2)]%nat = [true; true; true; false; false].
Proof. vm_compute. reflexivity. Qed.

(** ** where the claim fails *)
(** A phi with an undefined operand takes over what is known of its other operand.  In the loop below [p2] walks an array and [r3] is
    the value [p2] is about to take, except for the first time, when it is undefined: from the second iteration on they are the
    same pointer, but the analysis says that they are distinct. *)
Definition yf : func := [
  (0, Block [] [Inst 0 0 []; Inst 1 2 [OCst (VInt 0); OCst (VInt 0); ORes 0]] (TBr 1));
  (1, Block [Phi 2 [(0, ORes 1); (1, ORes 4)]; Phi 3 [(0, OCst VUndef); (1, ORes 4)]] [Inst 4 3 [OCst (VInt 1); ORes 2]] (TCond (OArg 0) 1 2));
  (2, Block [] [] (TRet None))]%nat.
Definition yty (o : opnd) : option ty := match o with ORes 0 => Some tA | ORes 1 | ORes 2 | ORes 3 | ORes 4 => Some i32 | _ => None end.
Lemma yf_wfs : wfs yf.
Proof.
  assert (Hw : wf yf) by (apply wfb_ok; vm_compute; reflexivity). split; [exact Hw|]. destruct Hw as (Hn & U & Hc & R). split.
  - apply (verify_sound (domb yf) (rchb yf)); [now apply domb_ok| |vm_compute; reflexivity].
    apply phiReach_all. apply (allReach_dec yf Hc Hn). vm_compute. reflexivity.
  - intros bk [= <-]. reflexivity.
Qed.

Definition yan (f : func) := analysis xk (fun _ => false) yty false 1 (fun _ => true) f (edges xk yty (fun _ => true) f).
(** [p] and [q] are called distinct, but at some point of the run both point to the second element of the array *)
Definition wrongly (f : func) (p q : nat) : Prop :=
  wfs f /\ isDistinct (yan f) (ORes p) (ORes q) = true /\
  exists b bk pre e w, atPoint xm (fun _ => VInt 1) tt f b bk pre e w /\ availAt f b bk pre p /\ availAt f b bk pre q /\
    e p = Some (VOpq 1004) /\ e q = Some (VOpq 1004) /\ refers 8 xobjs i32 1004 0 [1%nat].
Theorem C47_phi_with_undef_refuted : wrongly yf 2 3.
Proof.
  split; [exact yf_wfs|]. split; [vm_compute; reflexivity|].
  exists 1, (Block [Phi 2 [(0, ORes 1); (1, ORes 4)]; Phi 3 [(0, OCst VUndef); (1, ORes 4)]] [Inst 4 3 [OCst (VInt 1); ORes 2]] (TCond (OArg 0) 1 2)), []. do 2 eexists. split; [|split; [|split; [|split; [|split]]]].
  - exists 2. do 5 eexists. split; [vm_compute; reflexivity|]. split; [reflexivity|]. split; [reflexivity|]. split; [vm_compute; reflexivity|]. split; reflexivity.
  - right. left. cbn. auto.
  - right. left. cbn. auto.
  - reflexivity.
  - reflexivity.
  - apply (xelem 1004 1); [lia|reflexivity].
Qed.
(** A getelementptr whose first index is not 0, on a getelementptr whose only index is 0, takes over what is known of the
    pointer itself: [gep (gep p, 0), 1] and [gep p, 1] are the same pointer *)
Definition zf : func := [
  (0, Block [] [Inst 0 0 []; Inst 1 2 [OCst (VInt 0); OCst (VInt 0); ORes 0]; Inst 2 3 [OCst (VInt 0); ORes 1]; Inst 3 3 [OCst (VInt 1); ORes 2]; Inst 4 3 [OCst (VInt 1); ORes 1]] (TRet None))]%nat.
Theorem C47_gep_of_trivial_gep_refuted : wrongly zf 3 4.
Proof.
  split; [|split; [vm_compute; reflexivity|]].
  - assert (Hw : wf zf) by (apply wfb_ok; vm_compute; reflexivity). split; [exact Hw|]. destruct Hw as (Hn & U & Hc & R). split.
    + apply (verify_sound (domb zf) (rchb zf)); [now apply domb_ok| |vm_compute; reflexivity].
      apply phiReach_all. apply (allReach_dec zf Hc Hn). vm_compute. reflexivity.
    + intros bk [= <-]. reflexivity.
  - exists 0, (Block [] (body (snd (hd (0, Block [] [] TUnreach) zf))) (TRet None)), (body (snd (hd (0, Block [] [] TUnreach) zf))). do 2 eexists. split; [|split; [|split; [|split; [|split]]]].
    + exists 0. do 5 eexists. split; [reflexivity|]. split; [reflexivity|]. split; [reflexivity|]. split; [reflexivity|]. split; [symmetry; apply app_nil_r|vm_compute; reflexivity].
    + right. right. cbn. auto 7.
    + right. right. cbn. auto 7.
    + reflexivity.
    + reflexivity.
    + apply (xelem 1004 1); [lia|reflexivity].
Qed.
(** A pointer made by adding an offset takes over what is known of the pointer it was made from: [p + 4] and [gep p, 1] *)
Definition pf : func := [
  (0, Block [] [Inst 0 0 []; Inst 1 2 [OCst (VInt 0); OCst (VInt 0); ORes 0]; Inst 2 3 [OCst (VInt 1); ORes 1]; Inst 3 5 [ORes 1; OCst (VInt 4)]] (TRet None))]%nat.
Theorem C47_added_offset_refuted : wrongly pf 2 3.
Proof.
  split; [|split; [vm_compute; reflexivity|]].
  - assert (Hw : wf pf) by (apply wfb_ok; vm_compute; reflexivity). split; [exact Hw|]. destruct Hw as (Hn & U & Hc & R). split.
    + apply (verify_sound (domb pf) (rchb pf)); [now apply domb_ok| |vm_compute; reflexivity].
      apply phiReach_all. apply (allReach_dec pf Hc Hn). vm_compute. reflexivity.
    + intros bk [= <-]. reflexivity.
  - exists 0, (Block [] (body (snd (hd (0, Block [] [] TUnreach) pf))) (TRet None)), (body (snd (hd (0, Block [] [] TUnreach) pf))). do 2 eexists. split; [|split; [|split; [|split; [|split]]]].
    + exists 0. do 5 eexists. split; [reflexivity|]. split; [reflexivity|]. split; [reflexivity|]. split; [reflexivity|]. split; [symmetry; apply app_nil_r|vm_compute; reflexivity].
    + right. right. cbn. auto 7.
    + right. right. cbn. auto 7.
    + reflexivity.
    + reflexivity.
    + apply (xelem 1004 1); [lia|reflexivity].
Qed.
