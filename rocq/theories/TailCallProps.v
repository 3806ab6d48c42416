(** C53: the theorems about TailCallEliminate.  Specification and proofs only; nothing here models code of /repo. *)
From Coq Require Import ZArith Lia Bool List Arith.
From Verif Require Import Sim Ssa SsaCfg SsaMerge SsaFwd SsaFwd2 SsaWf SsaDom SsaProps SsaSub SsaVerify SsaEq SsaPhi SsaCse CodeMotion CodeMotionProps M2RRun Ifc PhiMg TailStoreProps Rec TailCall TailCallProof TailCallPass.
Import ListNotations.

Lemma firstDone_spec slf nargs osel acc f l g : firstDone slf nargs osel acc f l = Done g ->
  exists k bk, In (k, bk) l /\ k <> entry f /\ handle slf nargs osel acc f k bk = Done g.
Proof.
  induction l as [|[k bk] l IH]; cbn; intros H; [discriminate|]. destruct (Nat.eqb_spec k (entry f)) as [E|N].
  - destruct (IH H) as (k1 & b1 & A & B & C). exists k1, b1. auto.
  - destruct (handle slf nargs osel acc f k bk) as [| |g1] eqn:E; try discriminate.
    + destruct (IH H) as (k1 & b1 & A & B & C). exists k1, b1. auto.
    + injection H as <-. exists k, bk. auto.
Qed.
Lemma firstCall_none slf l : (forall i, In i l -> opc i <> slf) -> firstCall slf l = None.
Proof.
  induction l as [|i l IH]; cbn; intros H; auto. destruct (Nat.eqb_spec (opc i) slf) as [E|_]; [destruct (H i (or_introl eq_refl) E)|].
  rewrite IH; auto.
Qed.

(** A function whose entry block does not call the function: whatever the pass does, every run, for every number of
    recursive calls, finite or not, with every argument and every other call, has the same result, output and final world. *)
Theorem C53_tail_calls_preserve_partial : forall W (m : sem W) knd slf nargs osel acc rty f g vs (w : W),
  wfs f -> entryNoPred f -> retTy rty -> tceSem m rty slf osel acc ->
  (forall eb i, get (entry f) f = Some eb -> In i (body eb) -> opc i <> slf) ->
  tailCall slf nargs osel acc knd f = Done g ->
  refinesAt (rstep0 m slf nargs rty f) (rstep0 m slf nargs rty g) (Boot vs w) (Boot vs w).
Proof.
  intros W m knd slf nargs osel acc rty f g vs w Wf EN Hr Hm He H. unfold tailCall in H.
  destruct (get (entry f) f) as [eb|] eqn:E; [|discriminate].
  destruct (match body eb with i :: _ => isAlloc knd i | [] => false end); [discriminate|].
  rewrite (firstCall_none slf (body eb)) in H by (intros i Hi; exact (He eb i eq_refl Hi)).
  destruct (firstDone_spec _ _ _ _ _ _ _ H) as (k & bk & Hin & Nk & Hh).
  pose proof Wf as ((_ & (U & _) & _) & _). pose proof (In_get _ _ _ U Hin) as Hk. unfold handle in Hh.
  destruct (trm bk) as [t|o t1 t2|o cs t|ro|] eqn:Et; try discriminate.
  - destruct (get t f) as [tb|] eqn:Ht; [|discriminate]. destruct (body tb) eqn:Bt; [|discriminate].
    destruct (trm tb) as [|? ? ?|? ? ?|ro|] eqn:Tt; try discriminate.
    destruct (lastCall slf (body bk)) as [[[pre c] post]|] eqn:El; [|discriminate].
    pose proof (retify_refines m slf nargs rty f Wf k t bk tb ro Hk Ht Et Bt Tt vs w) as R1.
    destruct (elim nargs osel acc (retify f k t (phis tb) ro) k pre c post (option_map (retAt k (phis tb)) ro)) as [| |g1] eqn:Ee; try discriminate.
    + injection Hh as <-. exact R1.
    + injection Hh as <-. eapply refinesAt_trans; [exact R1|].
      eapply (elim_ok m slf nargs osel acc rty Hr Hm) with (k := k) (bk := rB k t tb ro k bk).
      * exact (wfs_r f Wf EN k t bk tb ro Hk Ht Et Bt Tt).
      * exact (entryNoPred_r f EN k t tb ro).
      * rewrite get_r, Hk. reflexivity.
      * now rewrite entry_r.
      * rewrite body_r. exact El.
      * unfold rB. now rewrite Nat.eqb_refl.
      * exact Ee.
  - destruct (lastCall slf (body bk)) as [[[pre c] post]|] eqn:El; [|discriminate].
    exact (elim_ok m slf nargs osel acc rty Hr Hm f k bk pre c post ro g Wf EN Hk Nk El Et Hh vs w).
Qed.

(** ** the pass can be repeated only finitely often *)
Definition muB (slf : nat) (bk : block) : nat :=
  3 * length (filter (fun i => Nat.eqb (opc i) slf) (body bk)) + match trm bk with TBr _ => 1 | _ => 0 end.
Definition mu (slf : nat) (f : func) : nat := list_sum (map (fun kb => muB slf (snd kb)) f).
Lemma mu_cons slf b bb (f : func) : mu slf ((b, bb) :: f) = muB slf bb + mu slf f.
Proof. reflexivity. Qed.
Lemma sum_le slf (B : nat -> block -> block) (f : func) : (forall b bb, In (b, bb) f -> muB slf (B b bb) <= muB slf bb) ->
  mu slf (map (fun kb => (fst kb, B (fst kb) (snd kb))) f) <= mu slf f.
Proof.
  induction f as [|[b bb] f IH]; intros H; auto. cbn [map fst snd]. rewrite !mu_cons.
  pose proof (H b bb (or_introl eq_refl)) as H1. assert (H2 := IH (fun b0 bb0 K => H b0 bb0 (or_intror K))). lia.
Qed.
Lemma sum_one slf (B : nat -> block -> block) k bk d (f : func) : NoDup (map fst f) -> In (k, bk) f ->
  (forall b bb, In (b, bb) f -> b <> k -> muB slf (B b bb) <= muB slf bb) -> muB slf (B k bk) + d <= muB slf bk ->
  mu slf (map (fun kb => (fst kb, B (fst kb) (snd kb))) f) + d <= mu slf f.
Proof.
  induction f as [|[b bb] f IH]; intros N Hin Hle Hd; [destruct Hin|]. inversion N as [|? ? N1 N2]; subst. cbn [map fst snd]. rewrite !mu_cons.
  destruct Hin as [E|Hin].
  - injection E as -> ->. assert (K : mu slf (map (fun kb => (fst kb, B (fst kb) (snd kb))) f) <= mu slf f); [|lia].
    apply sum_le. intros b0 bb0 H. apply Hle; [now right|]. intros E. apply N1. rewrite <- E. now apply (in_map fst) in H.
  - assert (K1 : muB slf (B b bb) <= muB slf bb) by (apply Hle; [now left|]; intros E; apply N1; rewrite E; now apply (in_map fst) in Hin).
    specialize (IH N2 Hin (fun b0 bb0 H => Hle b0 bb0 (or_intror H)) Hd). lia.
Qed.
Lemma calls_app slf (l1 l2 : list inst) : length (filter (fun i => Nat.eqb (opc i) slf) (l1 ++ l2)) =
  length (filter (fun i => Nat.eqb (opc i) slf) l1) + length (filter (fun i => Nat.eqb (opc i) slf) l2).
Proof. now rewrite filter_app, app_length. Qed.
Lemma calls_map slf h (l : list inst) : length (filter (fun i => Nat.eqb (opc i) slf) (map (mapInst h) l)) = length (filter (fun i => Nat.eqb (opc i) slf) l).
Proof. induction l as [|i l IH]; cbn; auto. destruct (Nat.eqb (opc i) slf); cbn; auto. Qed.
Lemma elim_mu slf nargs osel acc f k bk pre c post ret g : osel <> slf -> NoDup (map fst f) -> In (k, bk) f ->
  lastCall slf (body bk) = Some (pre, c, post) -> elim nargs osel acc f k pre c post ret = Done g -> mu slf g < mu slf f.
Proof.
  intros Ho N Hin Hl H. destruct (lastCall_spec _ _ _ _ _ Hl) as (Hb & Hc & Hp).
  assert (X : exists md, g = elimTo nargs osel f k pre c md /\ match md with MAcc a _ => opc a <> slf | _ => True end).
  { unfold elim in H. destruct (choose acc c post ret) as [| |md] eqn:Ec; try discriminate.
    exists md. split; [destruct md; [congruence| |]; destruct (existsb _ f); congruence|]. clear H.
    destruct md as [|a id|o]; auto. unfold choose in Ec. destruct post as [|a0 [|a2 post]].
    - destruct ret as [o|]; [destruct (isRes (dst c) o)|]; discriminate.
    - inversion Hp; subst. destruct (acc (opc a0)) as [[v|]|]; destruct (ops a0) as [|x [|y [|z l]]]; try discriminate; destruct (_ && _); try discriminate. congruence.
    - discriminate. }
  destruct X as (md & -> & Ha). unfold elimTo. set (base := freshBase f). set (NN := freshBlock f).
  set (B := tceBlock nargs osel base NN (entry f) k c md pre).
  assert (K : mu slf (map (fun kb => (fst kb, B (fst kb) (snd kb))) f) + 2 <= mu slf f).
  { apply (sum_one slf B k bk 2 f); auto.
    - intros b bb _ Nb. unfold muB, B, tceBlock. cbn [body trm]. destruct (Nat.eqb_spec b k) as [E|_]; [congruence|].
      rewrite calls_app, calls_map.
      assert (L0 : length (filter (fun i => Nat.eqb (opc i) slf) (leafTail nargs osel base c md b bb)) = 0).
      { unfold leafTail, leafInsts. destruct (trm bb) as [|? ? ?|? ? ?|[o|]|]; auto. destruct md as [|a id|o1]; auto; cbn.
        - destruct (Nat.eqb_spec (opc a) slf); [congruence|reflexivity].
        - destruct (Nat.eqb_spec osel slf); [congruence|reflexivity]. }
      rewrite L0. assert (L1 : match leafTrm nargs base md b bb with TBr _ => 1 | _ => 0 end <= match trm bb with TBr _ => 1 | _ => 0 end).
      { unfold leafTrm. destruct md; destruct (trm bb) as [|? ? ?|? ? ?|[?|]|]; cbn; auto. }
      lia.
    - unfold muB, B, tceBlock. cbn [body trm]. rewrite Nat.eqb_refl, calls_app, calls_map.
      assert (L0 : length (filter (fun i => Nat.eqb (opc i) slf) (tailInsts nargs osel base c md)) = 0).
      { unfold tailInsts. destruct md as [|a id|o1]; auto; cbn.
        - destruct (Nat.eqb_spec (opc a) slf); [congruence|reflexivity].
        - destruct (Nat.eqb_spec osel slf); [congruence|reflexivity]. }
      rewrite L0, Hb, calls_app. cbn [filter]. rewrite Hc, Nat.eqb_refl. cbn [length]. lia. }
  change (1 + mu slf (map (fun kb => (fst kb, B (fst kb) (snd kb))) f) < mu slf f). lia.
Qed.
Theorem C53_each_run_makes_progress : forall knd slf nargs osel acc f g, osel <> slf -> NoDup (map fst f) ->
  tailCall slf nargs osel acc knd f = Done g -> mu slf g < mu slf f.
Proof.
  intros knd slf nargs osel acc f g Ho U H. unfold tailCall in H.
  destruct (get (entry f) f) as [eb|] eqn:E; [|discriminate].
  destruct (match body eb with i :: _ => isAlloc knd i | [] => false end); [discriminate|].
  destruct (firstCall slf (body eb)) as [pre|] eqn:Ef.
  - injection H as <-. unfold cutEntry. set (gone := map dst (skipn (length pre) (body eb))).
    assert (K : exists q c, body eb = pre ++ c :: q /\ opc c = slf).
    { revert Ef. generalize (body eb). clear. intros l. revert pre. induction l as [|i l IH]; cbn; intros pre H; [discriminate|].
      destruct (Nat.eqb_spec (opc i) slf) as [E|_]; [injection H as <-; exists l, i; auto|].
      destruct (firstCall slf l) as [p|]; [|discriminate]. injection H as <-. destruct (IH p eq_refl) as (q & c & -> & Hc). exists q, c. auto. }
    destruct K as (q & c & Hb & Hc).
    set (B := fun b bb => if Nat.eqb b (entry f) then Block (phis bb) pre TUnreach else mapOps (cutOps gone) bb).
    assert (K : mu slf (map (fun kb => (fst kb, B (fst kb) (snd kb))) f) + 1 <= mu slf f).
    { apply (sum_one slf B (entry f) eb 1 f); auto; [now apply get_In| |].
      - intros b bb _ Nb. unfold B. destruct (Nat.eqb_spec b (entry f)) as [X|_]; [congruence|]. unfold muB, mapOps. cbn [body trm].
        change (map (fun i => Inst (dst i) (opc i) (map (cutOps gone) (ops i))) (body bb)) with (map (mapInst (cutOps gone)) (body bb)).
        rewrite calls_map. destruct (trm bb) as [|? ? ?|? ? ?|[o|]|]; cbn; lia.
      - unfold B. rewrite Nat.eqb_refl. unfold muB. cbn [body trm]. rewrite Hb, calls_app. cbn [filter]. rewrite Hc, Nat.eqb_refl. cbn [length]. lia. }
    unfold B in K. lia.
  - destruct (firstDone_spec _ _ _ _ _ _ _ H) as (k & bk & Hin & Nk & Hh). unfold handle in Hh.
    destruct (trm bk) as [t|o t1 t2|o cs t|ro|] eqn:Et; try discriminate.
    + destruct (get t f) as [tb|] eqn:Ht; [|discriminate]. destruct (body tb) eqn:Bt; [|discriminate].
      destruct (trm tb) as [|? ? ?|? ? ?|ro|] eqn:Tt; try discriminate.
      destruct (lastCall slf (body bk)) as [[[pre c] post]|] eqn:El; [|discriminate].
      pose (B := fun b bb => if Nat.eqb b k then Block (phis bb) (body bb) (TRet (option_map (retAt k (phis tb)) ro))
                             else if Nat.eqb b t then Block (map (removeSource k) (phis bb)) (body bb) (trm bb) else bb).
      assert (K : mu slf (retify f k t (phis tb) ro) + 1 <= mu slf f).
      { apply (sum_one slf B k bk 1 f); auto.
        - intros b bb _ Nb. unfold B. destruct (Nat.eqb_spec b k) as [X|_]; [congruence|]. destruct (Nat.eqb b t); auto.
        - unfold B. rewrite Nat.eqb_refl. unfold muB. cbn [body trm]. rewrite Et. lia. }
      destruct (elim nargs osel acc (retify f k t (phis tb) ro) k pre c post (option_map (retAt k (phis tb)) ro)) as [| |g1] eqn:Ee; try discriminate.
      * injection Hh as <-. lia.
      * injection Hh as <-. apply elim_mu with (slf := slf) (bk := B k bk) in Ee; auto; [lia| | |].
        -- unfold retify. rewrite map_map. exact U.
        -- unfold retify. apply in_map_iff. exists (k, bk). split; auto.
        -- unfold B. rewrite Nat.eqb_refl. exact El.
    + destruct (lastCall slf (body bk)) as [[[pre c] post]|] eqn:El; [|discriminate]. eapply elim_mu; eauto.
Qed.

(** ** a first block that calls the function *)
(** no run returns, if nothing before the call can end the program *)
Theorem C53_entry_recursion_never_returns : forall W (m : sem W) slf nargs rty f eb pre,
  get (entry f) f = Some eb -> firstCall slf (body eb) = Some pre ->
  (forall i vs w w', In i pre -> meaning m (opc i) vs w <> IHalt w') ->
  forall vs w r t, ~ finishes (rstep0 m slf nargs rty f) (Boot vs w) r t.
Proof.
  intros W m slf nargs rty f eb pre He Hf Hh.
  assert (K : exists q c, body eb = pre ++ c :: q /\ opc c = slf).
  { revert Hf. generalize (body eb). clear. intros l. revert pre. induction l as [|i l IH]; cbn; intros pre H; [discriminate|].
    destruct (Nat.eqb_spec (opc i) slf) as [E|_]; [injection H as <-; exists l, i; auto|].
    destruct (firstCall slf l) as [p|]; [|discriminate]. injection H as <-. destruct (IH p eq_refl) as (q & c & -> & Hc). exists q, c. auto. }
  destruct K as (q & c & Hb & Hc).
  assert (HC : forall vs ss (w : W) r t, callF nargs f vs ss w <> Fin r t).
  { intros vs ss w r t. unfold callF. rewrite He. destruct (Nat.eqb _ _); [|discriminate]. destruct (enter _ _ _ _); discriminate. }
  assert (HG : forall vs ss (w : W) s t, callF nargs f vs ss w = Go s t -> fr (top s) = body eb).
  { intros vs ss w s t. unfold callF. rewrite He. destruct (Nat.eqb _ _); [|discriminate]. destruct (enter _ _ _ _); [|discriminate]. intros [= <- _]. reflexivity. }
  assert (HR : forall n s p, incl p pre -> fr (top s) = p ++ c :: q -> forall r t, run (rstep0 m slf nargs rty f) n (Running s) <> Fin r t).
  { induction n as [|n IH]; intros s p Hp Hs r t; [discriminate|]. cbn [run]. unfold rstep0 at 1. unfold rstep. rewrite Hs.
    assert (HN : forall s1 p1 u, incl p1 pre -> fr (top s1) = p1 ++ c :: q -> Sim.pre u (run (rstep0 m slf nargs rty f) n (Running s1)) <> Fin r t).
    { intros s1 p1 u H1 H2 H3. destruct (run (rstep0 m slf nargs rty f) n (Running s1)) as [s2 t2|r2 t2|t2] eqn:E; try discriminate. exact (IH s1 p1 H1 H2 _ _ E). }
    assert (HS : forall vs ss, match (match callF nargs f vs ss (cw s) with Go c0 t0 => Go (Running c0) t0 | Fin x t0 => Fin x t0 | Bad t0 => Bad t0 end) with
      | Go s' t0 => Sim.pre t0 (run (rstep0 m slf nargs rty f) n s') | Fin x t0 => Fin x t0 | Bad t0 => Bad t0 end <> Fin r t).
    { intros vs ss. destruct (callF nargs f vs ss (cw s)) as [s1 t1|r1 t1|t1] eqn:E; [|destruct (HC _ _ _ _ _ E)|discriminate].
      apply (HN s1 pre t1 (incl_refl _)). rewrite (HG _ _ _ _ _ E). exact Hb. }
    destruct p as [|i p]; cbn [app].
    - destruct (rds _ _ (ops c)) as [us|]; [|discriminate]. rewrite Hc, Nat.eqb_refl. apply HS.
    - destruct (rds _ _ (ops i)) as [us|]; [|discriminate]. destruct (Nat.eqb (opc i) slf); [apply HS|].
      destruct (meaning m (opc i) us (cw s)) as [v w'|w'|] eqn:Em; [|destruct (Hh i us (cw s) w' (Hp i (or_introl eq_refl)) Em)|discriminate].
      apply (HN _ p); [intros x Hx; apply Hp; now right|reflexivity]. }
  intros vs w r t [[|n] Hn]; [discriminate|]. cbn [run] in Hn. unfold rstep0 at 1 in Hn.
  destruct (callF nargs f vs [] w) as [s1 t1|r1 t1|t1] eqn:E; [|destruct (HC _ _ _ _ _ E)|discriminate].
  destruct (run (rstep0 m slf nargs rty f) n (Running s1)) as [s2 t2|r2 t2|t2] eqn:E2; try discriminate.
  apply (HR n s1 pre (incl_refl _)) in E2; auto. rewrite (HG _ _ _ _ _ E). exact Hb.
Qed.

(** ** examples *)
(** 1: mul, 2: sub, 3: is zero, 4: print, 5: select, 6: add, 7: smax, 9: the function *)
Definition w32 (z : Z) : Z := Z.modulo z 4294967296.
Definition ar (F : Z -> Z -> Z) (x y : value) : value := match x, y with VInt a, VInt b => VInt (w32 (F a b)) | _, _ => VUndef end.
Definition rSem : sem Z := Sem
  (fun o a w =>
     match o, a with
     | 1%nat, [x; y] => IOk (ar Z.mul x y) w
     | 2%nat, [x; y] => IOk (ar Z.sub x y) w
     | 3%nat, [VInt x] => IOk (VInt (if Z.eqb x 0 then 1 else 0)) w
     | 4%nat, [x] => IOk VUndef (w + 1)%Z
     | 5%nat, [VInt x; y; z] => IOk (if Z.eqb x 0 then z else y) w
     | 6%nat, [x; y] => IOk (ar Z.add x y) w
     | 7%nat, [x; y] => IOk (ar Z.max x y) w
     | _, _ => IBad
     end)
  (fun o => Nat.eqb o 4).
Definition rAcc (o : nat) : option (option value) :=
  match o with 1%nat => Some (Some (VInt 1)) | 6%nat => Some (Some (VInt 0)) | 7%nat => Some None | _ => None end.
Definition i32 (v : option value) : bool :=
  match v with Some (VInt z) => Z.leb 0 z && Z.ltb z 4294967296 | Some VUndef => true | _ => false end.
Lemma i32_ty : retTy i32.
Proof. intros x H. discriminate. Qed.
Lemma rSem_ok : tceSem rSem i32 9 5 rAcc.
Proof.
  split; [|split; [|discriminate]].
  - intros o id H. unfold rAcc in H. destruct o as [|[|[|[|[|[|[|[|o]]]]]]]]; try discriminate; injection H as <-.
    + exists (ar Z.mul). split; [reflexivity|]. split; [reflexivity|]. split; [|split].
      * intros [a|a|] [b|b|]; cbn; auto. now rewrite Z.mul_comm.
      * intros [a|a|] [b|b|] [d|d|]; cbn; auto. unfold w32. rewrite Z.mul_mod_idemp_l, Z.mul_mod_idemp_r by discriminate. now rewrite Z.mul_assoc.
      * intros [a|a|] K; [|discriminate K|reflexivity]. unfold ar, w32. rewrite Z.mul_1_l, Z.mod_small; [reflexivity|]. cbn in K. apply andb_prop in K as [K1 K2]. lia.
    + exists (ar Z.add). split; [reflexivity|]. split; [reflexivity|]. split; [|split].
      * intros [a|a|] [b|b|]; cbn; auto. now rewrite Z.add_comm.
      * intros [a|a|] [b|b|] [d|d|]; cbn; auto. unfold w32. rewrite Z.add_mod_idemp_l, Z.add_mod_idemp_r by discriminate. now rewrite Z.add_assoc.
      * intros [a|a|] K; cbn in *; try discriminate; auto. unfold w32. rewrite Z.mod_small; [reflexivity|]. apply andb_prop in K as [K1 K2]. lia.
  - split; reflexivity.
Qed.
Definition rKnd (o : nat) : kind := match o with 4%nat | 9%nat => KCall false false false | _ => KPure end.
(** int fact(int n) { int r; if(n == 0) r = 1; else { print(n); r = n * fact(n - 1); } return r; } *)
Definition fact : func :=
  [(0, Block [] [Inst 1 3 [OArg 0]] (TCond (ORes 1) 1 2));
   (1, Block [] [] (TBr 3));
   (2, Block [] [Inst 2 4 [OArg 0]; Inst 3 2 [OArg 0; OCst (VInt 1)]; Inst 4 9 [ORes 3]; Inst 5 1 [OArg 0; ORes 4]] (TBr 3));
   (3, Block [Phi 6 [(1, OCst (VInt 1)); (2, ORes 5)]] [] (TRet (Some (ORes 6))))].
Definition factLoop : func :=
  [(4, Block [] [] (TBr 0));
   (0, Block [Phi 7 [(4, OArg 0); (2, ORes 3)]; Phi 8 [(4, OCst (VInt 1)); (2, ORes 5)]] [Inst 1 3 [ORes 7]] (TCond (ORes 1) 1 2));
   (1, Block [] [] (TBr 3));
   (2, Block [] [Inst 2 4 [ORes 7]; Inst 3 2 [ORes 7; OCst (VInt 1)]; Inst 5 1 [ORes 7; ORes 8]] (TBr 0));
   (3, Block [Phi 6 [(1, OCst (VInt 1))]] [Inst 14 1 [ORes 6; ORes 8]] (TRet (Some (ORes 14))))].
Example fact_loop : tailCall 9 1 5 rAcc rKnd fact = Done factLoop.
Proof. vm_compute. reflexivity. Qed.
Lemma fact_wfs : wfs fact.
Proof. wfs_dec fact. Qed.
Example fact_same vs w : refinesAt (rstep0 rSem 9 1 i32 fact) (rstep0 rSem 9 1 i32 factLoop) (Boot vs w) (Boot vs w).
Proof.
  refine (C53_tail_calls_preserve_partial Z rSem rKnd 9 1 5 rAcc i32 fact factLoop vs w fact_wfs (entryNoPredb_ok fact eq_refl) i32_ty rSem_ok _ fact_loop).
  intros eb i [= <-] [<-|[]]. discriminate.
Qed.
Definition prints (l : list Z) (w : Z) : list (event (W:=Z)) := map (fun k => (4%nat, [VInt k], (w + (hd 0%Z l - k))%Z)) l.
Example fact_runs : finishes (rstep0 rSem 9 1 i32 fact) (Boot [VInt 4] 0%Z) (Ret (Some (VInt 24)) 4%Z) (prints [4; 3; 2; 1]%Z 0).
Proof. exists 50. vm_compute. reflexivity. Qed.
Example factLoop_runs : finishes (rstep0 rSem 9 1 i32 factLoop) (Boot [VInt 4] 0%Z) (Ret (Some (VInt 24)) 4%Z) (prints [4; 3; 2; 1]%Z 0).
Proof. exists 50. vm_compute. reflexivity. Qed.
(** int fib(int n) { if(n == 0) return 1; if(n - 1 == 0) return 1; return fib(n - 1) + fib(n - 2); }: one of the calls stays *)
Definition fibo : func :=
  [(0, Block [] [Inst 1 3 [OArg 0]] (TCond (ORes 1) 1 2));
   (1, Block [] [] (TRet (Some (OCst (VInt 1)))));
   (2, Block [] [Inst 2 2 [OArg 0; OCst (VInt 1)]; Inst 3 3 [ORes 2]] (TCond (ORes 3) 1 3));
   (3, Block [] [Inst 4 9 [ORes 2]; Inst 5 2 [OArg 0; OCst (VInt 2)]; Inst 6 9 [ORes 5]; Inst 7 6 [ORes 4; ORes 6]] (TRet (Some (ORes 7))))].
Definition fiboLoop : func :=
  [(4, Block [] [] (TBr 0));
   (0, Block [Phi 8 [(4, OArg 0); (3, ORes 5)]; Phi 9 [(4, OCst (VInt 0)); (3, ORes 7)]] [Inst 1 3 [ORes 8]] (TCond (ORes 1) 1 2));
   (1, Block [] [Inst 13 6 [OCst (VInt 1); ORes 9]] (TRet (Some (ORes 13))));
   (2, Block [] [Inst 2 2 [ORes 8; OCst (VInt 1)]; Inst 3 3 [ORes 2]] (TCond (ORes 3) 1 3));
   (3, Block [] [Inst 4 9 [ORes 2]; Inst 5 2 [ORes 8; OCst (VInt 2)]; Inst 7 6 [ORes 4; ORes 9]] (TBr 0))].
Example fibo_loop : tailCall 9 1 5 rAcc rKnd fibo = Done fiboLoop.
Proof. vm_compute. reflexivity. Qed.
Lemma fibo_wfs : wfs fibo.
Proof. wfs_dec fibo. Qed.
Example fibo_same vs w : refinesAt (rstep0 rSem 9 1 i32 fibo) (rstep0 rSem 9 1 i32 fiboLoop) (Boot vs w) (Boot vs w).
Proof.
  refine (C53_tail_calls_preserve_partial Z rSem rKnd 9 1 5 rAcc i32 fibo fiboLoop vs w fibo_wfs (entryNoPredb_ok fibo eq_refl) i32_ty rSem_ok _ fibo_loop).
  intros eb i [= <-] [<-|[]]. discriminate.
Qed.
Example fibo_runs : finishes (rstep0 rSem 9 1 i32 fibo) (Boot [VInt 5] 0%Z) (Ret (Some (VInt 8)) 0%Z) [] /\
  finishes (rstep0 rSem 9 1 i32 fiboLoop) (Boot [VInt 5] 0%Z) (Ret (Some (VInt 8)) 0%Z) [].
Proof. split; exists 300; vm_compute; reflexivity. Qed.
(** int last(int n) { if(n == 0) return 10; last(n - 1); return n; }: the result of the call is not used *)
Definition lastv : func :=
  [(0, Block [] [Inst 1 3 [OArg 0]] (TCond (ORes 1) 1 2));
   (1, Block [] [] (TRet (Some (OCst (VInt 10)))));
   (2, Block [] [Inst 2 2 [OArg 0; OCst (VInt 1)]; Inst 3 9 [ORes 2]] (TRet (Some (OArg 0))))].
Definition lastLoop : func :=
  [(3, Block [] [] (TBr 0));
   (0, Block [Phi 4 [(3, OArg 0); (2, ORes 2)]; Phi 5 [(3, OCst VUndef); (2, ORes 7)]; Phi 6 [(3, OCst (VInt 0)); (2, OCst (VInt 1))]]
             [Inst 1 3 [ORes 4]] (TCond (ORes 1) 1 2));
   (1, Block [] [Inst 9 5 [ORes 6; ORes 5; OCst (VInt 10)]] (TRet (Some (ORes 9))));
   (2, Block [] [Inst 2 2 [ORes 4; OCst (VInt 1)]; Inst 7 5 [ORes 6; ORes 5; ORes 4]] (TBr 0))].
Example lastv_loop : tailCall 9 1 5 rAcc rKnd lastv = Done lastLoop.
Proof. vm_compute. reflexivity. Qed.
Lemma lastv_wfs : wfs lastv.
Proof. wfs_dec lastv. Qed.
Example lastv_same vs w : refinesAt (rstep0 rSem 9 1 i32 lastv) (rstep0 rSem 9 1 i32 lastLoop) (Boot vs w) (Boot vs w).
Proof.
  refine (C53_tail_calls_preserve_partial Z rSem rKnd 9 1 5 rAcc i32 lastv lastLoop vs w lastv_wfs (entryNoPredb_ok lastv eq_refl) i32_ty rSem_ok _ lastv_loop).
  intros eb i [= <-] [<-|[]]. discriminate.
Qed.
Example lastv_runs : finishes (rstep0 rSem 9 1 i32 lastv) (Boot [VInt 5] 0%Z) (Ret (Some (VInt 5)) 0%Z) [] /\
  finishes (rstep0 rSem 9 1 i32 lastLoop) (Boot [VInt 5] 0%Z) (Ret (Some (VInt 5)) 0%Z) [] /\
  finishes (rstep0 rSem 9 1 i32 lastLoop) (Boot [VInt 0] 0%Z) (Ret (Some (VInt 10)) 0%Z) [].
Proof. repeat split; exists 300; vm_compute; reflexivity. Qed.

(** ** what goes wrong *)
(** int f(int n) { print(n); return f(n); } prints for ever; what the pass makes of it prints once and runs into nothing *)
Definition forever : func := [(0, Block [] [Inst 1 4 [OArg 0]; Inst 2 9 [OArg 0]] (TRet (Some (ORes 2))))].
Theorem C53_entry_cut_refuted : exists knd f g, wfs f /\ entryNoPred f /\ retTy i32 /\ tceSem rSem i32 9 5 rAcc /\
  tailCall 9 1 5 rAcc knd f = Done g /\
  Sim.safe (rstep0 rSem 9 1 i32 f) (Boot [VInt 3] 0%Z) /\
  emits (rstep0 rSem 9 1 i32 f) (Boot [VInt 3] 0%Z) [(4%nat, [VInt 3], 0%Z); (4%nat, [VInt 3], 1%Z); (4%nat, [VInt 3], 2%Z)] /\
  ~ Sim.safe (rstep0 rSem 9 1 i32 g) (Boot [VInt 3] 0%Z) /\
  ~ emits (rstep0 rSem 9 1 i32 g) (Boot [VInt 3] 0%Z) [(4%nat, [VInt 3], 0%Z); (4%nat, [VInt 3], 1%Z)].
Proof.
  exists rKnd, forever, [(0, Block [] [Inst 1 4 [OArg 0]] TUnreach)].
  split; [wfs_dec forever|]. split; [exact (entryNoPredb_ok forever eq_refl)|]. split; [exact i32_ty|]. split; [exact rSem_ok|].
  split; [vm_compute; reflexivity|]. split; [|split; [|split]].
  - assert (K : forall n e ss w t, run (rstep0 rSem 9 1 i32 forever) n (Running (Cf (Fr 0 e [VInt 3] (body (snd (hd (0, Block [] [] TUnreach) forever)))) ss w)) <> Bad t /\
      run (rstep0 rSem 9 1 i32 forever) n (Running (Cf (Fr 0 e [VInt 3] [Inst 2 9 [OArg 0]]) ss w)) <> Bad t).
    { induction n as [|n IH]; intros e ss w t; [split; discriminate|]. split; cbn [run].
      - change (Sim.pre [(4%nat, [VInt 3], w)] (run (rstep0 rSem 9 1 i32 forever) n (Running (Cf (Fr 0 (upd e 1 VUndef) [VInt 3] [Inst 2 9 [OArg 0]]) ss (w + 1)%Z))) <> Bad t).
        intros E. destruct (run _ n _) as [s1 t1|r1 t1|t1] eqn:E1; try discriminate. exact (proj2 (IH _ _ _ _) E1).
      - change (Sim.pre [] (run (rstep0 rSem 9 1 i32 forever) n (Running (Cf (Fr 0 (fun _ => None) [VInt 3] (body (snd (hd (0, Block [] [] TUnreach) forever)))) ((2, Fr 0 e [VInt 3] []) :: ss) w))) <> Bad t).
        intros E. destruct (run _ n _) as [s1 t1|r1 t1|t1] eqn:E1; try discriminate. exact (proj1 (IH _ _ _ _) E1). }
    intros [|n] t; [discriminate|]. cbn [run].
    change (Sim.pre [] (run (rstep0 rSem 9 1 i32 forever) n (Running (Cf (Fr 0 (fun _ => None) [VInt 3] (body (snd (hd (0, Block [] [] TUnreach) forever)))) [] 0%Z))) <> Bad t).
    intros E. destruct (run _ n _) as [s1 t1|r1 t1|t1] eqn:E1; try discriminate. exact (proj1 (K _ _ _ _ _) E1).
  - exists 7, []. vm_compute. reflexivity.
  - intros H. apply (H 3 [(4%nat, [VInt 3], 0%Z)]). vm_compute. reflexivity.
  - intros (n & u & H). assert (L : (length (traceOf (run (rstep0 rSem 9 1 i32 [(0, Block [] [Inst 1 4 [OArg 0]] TUnreach)]) n (Boot [VInt 3] 0%Z))) <= 1)%nat).
    { destruct n as [|[|[|n]]]; vm_compute; auto. }
    rewrite H in L. cbn in L. lia.
Qed.
(** the compiler stops on int f(int n) { if(n == 0) return 0; return max(n, f(n - 1)); } *)
Definition maxRec : func :=
  [(0, Block [] [Inst 1 3 [OArg 0]] (TCond (ORes 1) 1 2));
   (1, Block [] [] (TRet (Some (OCst (VInt 0)))));
   (2, Block [] [Inst 2 2 [OArg 0; OCst (VInt 1)]; Inst 3 9 [ORes 2]; Inst 4 7 [OArg 0; ORes 3]] (TRet (Some (ORes 4))))].
Theorem C53_smax_crash_refuted : exists knd f, wfs f /\ entryNoPred f /\
  (exists r t, finishes (rstep0 rSem 9 1 i32 f) (Boot [VInt 3] 0%Z) r t) /\ tailCall 9 1 5 rAcc knd f = Crash.
Proof.
  exists rKnd, maxRec. split; [wfs_dec maxRec|]. split; [exact (entryNoPredb_ok maxRec eq_refl)|]. split; [|vm_compute; reflexivity].
  exists (Ret (Some (VInt 3)) 0%Z), []. exists 100. vm_compute. reflexivity.
Qed.
