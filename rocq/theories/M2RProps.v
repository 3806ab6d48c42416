(** C48: ScalarMem2Reg keeps the behaviour of the function.  Specification: M2R.v ([memMeaning], [secret], [plainVars]), M2RPriv.v
    ([freshAllocs]), Sim.v ([refinesAt]). *)
From Coq Require Import ZArith Lia Bool List Arith.
From Verif Require Import Sim Ssa SsaCfg SsaMerge SsaFwd SsaWf SsaDom SsaSub SsaVerify SsaEq SsaPhi SsaCse SsaProps LdSt LdStPts M2R M2RVal M2RRel M2RPriv M2RSound M2RSyn M2RTop M2RTerm.
Import ListNotations.

(** the predecessors of the blocks *)
Definition predsOf (pr : nat -> list nat) (f : func) : Prop := forall b p, In p (pr b) <-> exists pb, get p f = Some pb /\ In b (succs (trm pb)).

(** Whatever the identity of constants, the order of the blocks and the bounds of the recursions: if the pass ends, then every run of
    the function that is not stuck has the same result, the same output and the same final world as one of the new function. *)
Theorem C48_promotion_preserves : forall W (m : sem W) (M : memory W) (K : secrecy) pk scalar same pr deep fuel order args (w0 : W) f g,
  wfs f -> predsOf pr f -> pr (entry f) = [] -> (forall a b, same a b = true -> a = b) ->
  NoDup order -> (forall b, In b order <-> In b (map fst f)) ->
  memMeaning m M pk -> secret m M K -> freshAllocs m K pk args w0 f -> plainVars pk scalar f ->
  mem2reg pk scalar same pr deep fuel order f = Some g ->
  refinesAt (step m args f) (step m args g) (start f w0) (start g w0).
Proof.
  intros W m M K pk scalar same pr deep fuel order args w0 f g Hw Hpr He Hs No Ho Hm Hk Hf Hp E.
  destruct (promotable pk scalar f) as [|v0 l] eqn:Ep.
  { unfold mem2reg in E. rewrite Ep in E. injection E as <-. apply refinesAt_refl. }
  assert (E' : option_map fn (snd (fold_left (visit pk same pr deep fuel (promotable pk scalar f) (entry f)) order ([], Some (Mst f [] [] [] (freshName f))))) = Some g)
    by (unfold mem2reg in E; rewrite Ep in *; exact E). clear E Ep v0 l.
  pose proof (proj1 Hw) as (_ & Hu & _). pose proof (proj1 Hu) as Nf. intros Hsafe.
  destruct (arrives pk pr same Hs deep fuel f (promotable pk scalar f) Nf Hpr) with (order := order) (g := g) as (Gs & Q & Sol & R); auto.
  - intros v V. destruct (var_split pk scalar f Hp v V) as (bk & pre & i & post & t & _ & _ & _ & _ & _ & N & _). exact N.
  - intros v V. destruct (var_split pk scalar f Hp v V) as (bk & pre & i & post & t & G & B & D & _). apply (fresh_ge f). apply (result_in f (entry f) bk); auto.
    apply in_or_app. right. rewrite B, map_app. apply in_or_app. right. now left.
  - intros v b bk i t V G I D Pk. subst v. destruct (var_inst pk scalar f Hu Hp b bk i G I V) as (t' & Pa). congruence.
  - intros v b bk V G I. exact (var_body pk scalar f Hu Hp v b bk V G I).
  - exact (promoted_refines m M K args w0 pk scalar pr f Hw Hpr He Gs Q Sol Hm Hk Hf Hp Hsafe g R Hsafe).
Qed.

(** If every block can be reached, the recursion of useVar is bounded, and what the pass returns does not depend on a bound that is
    large enough *)
Theorem C48_ends : forall pk scalar same pr deep order f, predsOf pr f -> (forall b, In b (map fst f) -> reach f b) -> (forall b, In b order -> In b (map fst f)) ->
  exists bound g, forall fuel, bound <= fuel -> mem2reg pk scalar same pr deep fuel order f = Some g.
Proof.
  intros pk scalar same pr deep order f Hpr R Ho. destruct (chains pr f Hpr R) as [D HD]. exists (S (length f * S D + D)). unfold mem2reg. destruct (promotable pk scalar f) as [|v l]; [exists f; auto|].
  destruct (visits_some pk pr same deep f Hpr D HD (S (length f * S D + D)) (Nat.lt_succ_diag_r _) (v :: l) order Ho [] (Mst f [] [] [] (freshName f))) as [s E]. exists (fn s). intros fuel L.
  now rewrite (visits_mono pk pr same deep (entry f) _ fuel L (v :: l) order [] _ s E).
Qed.

(** * a heap: the hypotheses can be met *)
(** 0 alloc, 1 load, 2 store, 3 add, 4 less than, 5 getelementptr with the index 0 *)
Definition hld (a : Z) (w : list value) : option value := if (0 <=? a)%Z then nth_error w (Z.to_nat a) else None.
Fixpoint put (n : nat) (v : value) (w : list value) : list value := match w, n with x :: r, O => v :: r | x :: r, S n' => x :: put n' v r | [], _ => [] end.
Definition hst (a : Z) (v : value) (w : list value) : option (list value) := match hld a w with Some _ => Some (put (Z.to_nat a) v w) | None => None end.
Definition hm : sem (list value) := Sem (fun o vs w =>
  match o with
  | 0 => IOk (VOpq (Z.of_nat (length w))) (w ++ [VUndef])
  | 1 => match vs with [VOpq a] => match hld a w with Some v => IOk v w | None => IBad end | _ => IBad end
  | 2 => match vs with [VOpq a; v] => match hst a v w with Some w' => IOk VUndef w' | None => IBad end | _ => IBad end
  | 3 => match vs with [VInt a; VInt b] => IOk (VInt (a + b)) w | _ => IBad end
  | 4 => match vs with [VInt a; VInt b] => IOk (VInt (if (a <? b)%Z then 1 else 0)) w | _ => IBad end
  | 5 => match vs with [VOpq a] => IOk (VOpq a) w | _ => IBad end
  | _ => IBad
  end) (fun _ => false).
Definition hM : memory (list value) := Mem _ (fun _ => hld) (fun _ => hst) (fun _ => 1%Z).
Definition hpk (o : nat) : pkind := match o with 0 => PkAlloc 0 | 1 => PkLoad 0 | 2 => PkStore 0 | _ => PkOther end.
Definition hK : secrecy := Sec (W := list value) (fun u a => u = VOpq a) (fun a w => (0 <= a < Z.of_nat (length w))%Z /\ ~ In (VOpq a) w).
Lemma hld_in a w v : hld a w = Some v -> In v w /\ (0 <= a < Z.of_nat (length w))%Z.
Proof.
  unfold hld. destruct (Z.leb_spec 0 a); [|discriminate]. intros E. split; [eapply nth_error_In; eauto|]. assert (N : nth_error w (Z.to_nat a) <> None) by congruence. apply nth_error_Some in N. lia.
Qed.
Lemma put_len n v w : length (put n v w) = length w.
Proof. revert n. induction w as [|x w IH]; intros [|n]; cbn; auto. Qed.
Lemma put_in n v w u : In u (put n v w) -> u = v \/ In u w.
Proof. revert n. induction w as [|x w IH]; intros [|n]; cbn; auto; intros [H|H]; auto. destruct (IH n H); auto. Qed.
Lemma put_nth n v w k : k <> n -> nth_error (put n v w) k = nth_error w k.
Proof. revert n k. induction w as [|x w IH]; intros [|n] [|k] N; cbn; auto; congruence. Qed.
Lemma put_same n v w : n < length w -> nth_error (put n v w) n = Some v.
Proof. revert n. induction w as [|x w IH]; intros [|n] L; cbn in *; auto; try lia. apply IH. lia. Qed.
Lemma hst_ld a v w w' : hst a v w = Some w' -> hld a w' = Some v.
Proof.
  unfold hst. destruct (hld a w) as [u|] eqn:E; [|discriminate]. intros K. injection K as <-. apply hld_in in E as [_ L]. unfold hld. destruct (Z.leb_spec 0 a); [|lia]. apply put_same. lia.
Qed.
Lemma hst_other a b v w w' : a <> b -> hst a v w = Some w' -> hld b w' = hld b w.
Proof.
  intros N. unfold hst. destruct (hld a w) as [u|] eqn:E; [|discriminate]. intros K. injection K as <-. apply hld_in in E as [_ L]. unfold hld. destruct (Z.leb_spec 0 b); auto. apply put_nth. lia.
Qed.
Lemma hst_priv a v w w' b : hst a v w = Some w' -> priv hK b w -> v <> VOpq b -> priv hK b w'.
Proof.
  unfold hst. destruct (hld a w); [|discriminate]. intros K [L N] D. injection K as <-. split; [now rewrite put_len|]. intros I. apply put_in in I as [I|I]; auto.
Qed.
Lemma heap_memMeaning : memMeaning hm hM hpk.
Proof.
  split; [|split; [|split]].
  - intros [|[|[|o]]] t H; try discriminate. reflexivity.
  - intros [|[|[|o]]] t H; try discriminate. reflexivity.
  - intros [|[|[|o]]] t H vs w v w' E; try discriminate. cbn in E. injection E as <- <-. exists (Z.of_nat (length w)). split; auto. cbn. unfold hld.
    destruct (Z.leb_spec 0 (Z.of_nat (length w))); [|lia]. rewrite Nat2Z.id, nth_error_app2, Nat.sub_diag; auto.
  - intros t a v w w'. apply hst_ld.
Qed.
Lemma heap_secret : secret hm hM hK.
Proof.
  split; [discriminate|]. split; [discriminate|]. split; [|split].
  - intros o vs w v w' a E P N. pose proof P as [L Nw]. cbn in N. destruct o as [|[|[|[|[|[|o]]]]]]; cbn in E; try discriminate.
    + injection E as <- <-. split; [cbn; intros K; injection K; lia|]. split.
      * split; [rewrite app_length; cbn; lia|]. intros I. apply in_app_or in I as [I|[I|[]]]; [auto|discriminate].
      * intros t. cbn. unfold hld. destruct (Z.leb_spec 0 a); auto. apply nth_error_app1. lia.
    + destruct vs as [|[z|b|] [|u r]]; try discriminate. destruct (hld b w) as [u|] eqn:Eb; [|discriminate]. injection E as <- <-. split; auto. intros ->. apply hld_in in Eb as [I _]. contradiction.
    + destruct vs as [|[z|b|] [|u [|u' r]]]; try discriminate. destruct (hst b u w) as [w1|] eqn:Eb; [|discriminate]. injection E as <- <-. split; [discriminate|]. split.
      * apply (hst_priv b u w); auto. apply N. right. now left.
      * intros t. apply (hst_other b a u); auto. intros ->. apply (N (VOpq a)); auto. now left.
    + destruct vs as [|[z|b|] [|[z'|b'|] [|u r]]]; try discriminate. injection E as <- <-. split; [discriminate|auto].
    + destruct vs as [|[z|b|] [|[z'|b'|] [|u r]]]; try discriminate. injection E as <- <-. split; [discriminate|auto].
    + destruct vs as [|[z|b|] [|u r]]; try discriminate. injection E as <- <-. split; [|auto]. apply N. now left.
  - intros t a w u E [_ N] ->. apply hld_in in E as [I _]. contradiction.
  - intros t a u w w' E P N. exact (hst_priv a u w w' a E P N).
Qed.
(** every function without addresses among its constants and arguments *)
Lemma heap_fresh args f : (forall n a, args n <> VOpq a) -> (forall a, ~ In (OCst (VOpq a)) (operands f)) -> freshAllocs hm hK hpk args [] f.
Proof.
  intros Ha Hc.
  set (P := fun (b : nat) (bk : block) (pre : list inst) (e : env) (w : list value) =>
    (forall y a, e y = Some (VOpq a) -> (a < Z.of_nat (length w))%Z) /\ (forall a, In (VOpq a) w -> (a < Z.of_nat (length w))%Z)).
  assert (Op : forall b bk o, get b f = Some bk -> In o (flat_map (fun ph => map snd (inc ph)) (phis bk) ++ flat_map ops (body bk) ++ termOps (trm bk)) -> In o (operands f)).
  { intros b bk o G I. apply in_flat_map. exists (b, bk). split; [now apply get_In|exact I]. }
  assert (Rd : forall (e : env) n o a, (forall y a, e y = Some (VOpq a) -> (a < n)%Z) -> In o (operands f) -> rd args e o = Some (VOpq a) -> (a < n)%Z).
  { intros e n [c|k|y] a H I E; cbn in E.
    - injection E as ->. now apply Hc in I.
    - injection E as E. now apply Ha in E.
    - eauto. }
  assert (Inv : forall b bk pre e w, atPoint hm args [] f b bk pre e w -> P b bk pre e w).
  { apply points_ind.
    - intros bk _ _. split; [discriminate|intros a []].
    - intros p pb e w b bk vs _ [A B] _ G _ R. split; auto. intros y a E. destruct (updAll_in vs e y _ E) as [I|I]; [|eauto].
      destruct (rdPhis_in args e p _ _ R y _ I) as (ph & o & I1 & _ & I2 & Eo). apply (Rd e _ o a); auto. apply (Op b bk); auto. apply in_or_app. left. apply in_flat_map. exists ph. split; auto. apply in_map_iff. exists (p, o). auto.
    - intros b bk pre i post e w vs v w' At [A B] E R M. destruct (atPoint_get _ _ _ _ _ _ _ _ _ At) as [G _].
      assert (Vs : forall a, In (VOpq a) vs -> (a < Z.of_nat (length w))%Z).
      { intros a I. destruct (rds_in args e _ _ R _ I) as (o & Io & Eo). apply (Rd e _ o a); auto. apply (Op b bk); auto. apply in_or_app. right. apply in_or_app. left. apply in_flat_map. exists i. split; auto. rewrite E. apply in_or_app. right. now left. }
      assert (Up : forall n, (n >= Z.of_nat (length w))%Z -> (forall a, v = VOpq a -> (a < n)%Z) -> forall y a, upd e (dst i) v y = Some (VOpq a) -> (a < n)%Z).
      { intros n Ln Hv y a. unfold upd. destruct (Nat.eqb y (dst i)); intros K; [injection K; auto|]. apply A in K. lia. }
      destruct (opc i) as [|[|[|[|[|[|o]]]]]]; cbn in M; try discriminate.
      + injection M as <- <-. unfold P. split.
        * rewrite app_length. cbn [length]. apply Up; [lia|]. intros a K. injection K as <-. lia.
        * rewrite app_length. cbn [length]. intros a I. apply in_app_or in I as [I|[I|[]]]; [apply B in I; lia|discriminate].
      + destruct vs as [|[z|b0|] [|u r]]; try discriminate. destruct (hld b0 w) as [u|] eqn:Eb; [|discriminate]. injection M as <- <-. split; auto. apply Up; [lia|]. intros a ->. apply B. apply (hld_in b0 w (VOpq a) Eb).
      + destruct vs as [|[z|b0|] [|u [|u' r]]]; try discriminate. unfold hst in M. destruct (hld b0 w) as [u0|] eqn:Eb; [|discriminate]. injection M as <- <-. split; rewrite put_len.
        * apply Up; [lia|discriminate].
        * intros a I. apply put_in in I as [I|I]; auto. apply Vs. rewrite I. right. now left.
      + destruct vs as [|[z|b0|] [|[z'|b'|] [|u r]]]; try discriminate. injection M as <- <-. split; auto. apply Up; [lia|discriminate].
      + destruct vs as [|[z|b0|] [|[z'|b'|] [|u r]]]; try discriminate. injection M as <- <-. split; auto. apply Up; [lia|discriminate].
      + destruct vs as [|[z|b0|] [|u r]]; try discriminate. injection M as <- <-. split; auto. apply Up; [lia|]. intros a K. injection K as <-. apply Vs. now left. }
  intros b bk pre i e w t a At Pk Ea. destruct (atPoint_snoc _ _ _ _ _ _ _ _ _ _ At) as (e0 & w1 & vs & v & At0 & R & M & Ee). destruct (Inv _ _ _ _ _ At0) as [A B].
  destruct (opc i) as [|[|[|o]]]; cbn in Pk; try discriminate. cbn in M. injection M as <- <-. rewrite Ee in Ea. unfold upd in Ea. rewrite Nat.eqb_refl in Ea. injection Ea as <-. split; [|split; [|split]].
  - split; [rewrite app_length; cbn; lia|]. intros I. apply in_app_or in I as [I|[I|[]]]; [apply B in I; lia|discriminate].
  - intros n. apply Ha.
  - intros c I ->. exact (Hc _ I).
  - intros y u N Eu ->. rewrite Ee in Eu. unfold upd in Eu. destruct (Nat.eqb_spec y (dst i)); [contradiction|]. apply A in Eu. lia.
Qed.

(** ** a loop: [s = 0; while (s < n) s = s + 2; return s] *)
Definition wloop : func :=
  [(0, Block [] [Inst 0 0 []; Inst 1 2 [ORes 0; OCst (VInt 0)]] (TBr 1));
   (1, Block [] [Inst 2 1 [ORes 0]; Inst 3 4 [ORes 2; OArg 0]] (TCond (ORes 3) 2 3));
   (2, Block [] [Inst 4 1 [ORes 0]; Inst 5 3 [ORes 4; OCst (VInt 2)]; Inst 6 2 [ORes 0; ORes 5]] (TBr 1));
   (3, Block [] [Inst 7 1 [ORes 0]] (TRet (Some (ORes 7))))].
Definition wpr (b : nat) : list nat := match b with 1 => [0; 2] | 2 => [1] | 3 => [1] | _ => [] end.
Definition wsame (a b : opnd) : bool := match a, b with ORes x, ORes y => Nat.eqb x y | OArg x, OArg y => Nat.eqb x y | _, _ => false end.
(** the phi of [s] in block 1; the loads and stores are still there, and nothing reads them any more *)
Definition wdone : func :=
  [(0, Block [] [Inst 0 0 []; Inst 1 2 [ORes 0; OCst (VInt 0)]] (TBr 1));
   (1, Block [Phi 8 [(0, OCst (VInt 0)); (2, ORes 5)]] [Inst 2 1 [ORes 0]; Inst 3 4 [ORes 8; OArg 0]] (TCond (ORes 3) 2 3));
   (2, Block [] [Inst 4 1 [ORes 0]; Inst 5 3 [ORes 8; OCst (VInt 2)]; Inst 6 2 [ORes 0; ORes 5]] (TBr 1));
   (3, Block [] [Inst 7 1 [ORes 0]] (TRet (Some (ORes 8))))].
Example wloop_done : mem2reg hpk (fun _ => true) wsame wpr 9 9 [0; 1; 3; 2] wloop = Some wdone.
Proof. vm_compute. reflexivity. Qed.
Lemma wsame_ok a b : wsame a b = true -> a = b.
Proof. destruct a, b; cbn; try discriminate; intros E; apply Nat.eqb_eq in E; now subst. Qed.
Lemma wpr_ok : predsOf wpr wloop.
Proof.
  intros b p. split.
  - intros I. destruct b as [|[|[|[|b]]]]; cbn in I; try contradiction; repeat (destruct I as [<-|I]; [eexists; split; [reflexivity|cbn; auto]|]); destruct I.
  - intros (pb & G & I). apply get_In in G. cbn in G. repeat (destruct G as [G|G]; [injection G as <- <-; cbn in I; repeat (destruct I as [<-|I]; [cbn; auto|]); destruct I|]). destruct G.
Qed.
Lemma wloop_wfs : wfs wloop.
Proof.
  assert (Hw : wf wloop) by (apply wfb_ok; vm_compute; reflexivity). split; [exact Hw|]. destruct Hw as (Hn & U & Hc & R). split.
  - apply (verify_sound (domb wloop) (rchb wloop)); [now apply domb_ok| |vm_compute; reflexivity].
    apply phiReach_all. apply (allReach_dec wloop Hc Hn). vm_compute. reflexivity.
  - intros bk [= <-]. reflexivity.
Qed.
Lemma wloop_plain : plainVars hpk (fun _ => true) wloop.
Proof.
  intros bk i t [= <-] I Pk V. cbn in I. destruct I as [<-|[<-|[]]]; [|discriminate]. cbn in Pk. injection Pk as <-. cbn [dst].
  intros b k j G J O. apply get_In in G. cbn in G. repeat (destruct G as [G|G]; [injection G as <- <-; cbn in J; repeat (destruct J as [<-|J]; [cbn in O; try (intuition discriminate); cbn; eauto|]); destruct J|]). destruct G.
Qed.
Example wloop_same n : refinesAt (step hm (fun _ => VInt n) wloop) (step hm (fun _ => VInt n) wdone) (start wloop []) (start wdone []).
Proof.
  apply (C48_promotion_preserves _ hm hM hK hpk (fun _ => true) wsame wpr 9 9 [0; 1; 3; 2] (fun _ => VInt n) [] wloop wdone).
  - exact wloop_wfs.
  - exact wpr_ok.
  - reflexivity.
  - exact wsame_ok.
  - repeat constructor; cbn; intuition discriminate.
  - intros b. cbn. intuition.
  - exact heap_memMeaning.
  - exact heap_secret.
  - apply heap_fresh; [discriminate|]. intros a I. cbn in I. intuition discriminate.
  - exact wloop_plain.
  - exact wloop_done.
Qed.
(** and that run is not stuck *)
Example wloop_ends : finishes (step hm (fun _ => VInt 3) wloop) (start wloop []) (Ret (Some (VInt 4)) [VInt 4]) [].
Proof. exists 7. vm_compute. reflexivity. Qed.

(** [C48_ends] applies to it *)
Example wloop_bound : exists bound g, forall fuel, bound <= fuel -> mem2reg hpk (fun _ => true) wsame wpr 9 fuel [0; 1; 3; 2] wloop = Some g.
Proof.
  apply C48_ends; [exact wpr_ok| |intros b; cbn; intuition]. destruct wloop_wfs as ((Hn & _ & Hc & _) & _). apply (allReach_dec wloop Hc Hn). vm_compute. reflexivity.
Qed.

(** * what goes wrong *)
(** code that cannot be reached makes useVarRecursive go round for ever: for no bound does the pass end *)
Definition wstuck : func :=
  [(0, Block [] [Inst 0 0 []; Inst 1 2 [ORes 0; OCst (VInt 0)]] (TRet None));
   (1, Block [] [] (TCond (OCst (VInt 0)) 2 3));
   (2, Block [] [] (TBr 1));
   (3, Block [] [Inst 2 1 [ORes 0]] (TRet (Some (ORes 2))))].
Definition wspr (b : nat) : list nat := match b with 1 => [2] | 2 => [1] | 3 => [1] | _ => [] end.
Theorem C48_ends_on_unreachable_cycles_refuted : wf wstuck /\ predsOf wspr wstuck /\ plainVars hpk (fun _ => true) wstuck /\
  forall same deep fuel, mem2reg hpk (fun _ => true) same wspr deep fuel [0; 1; 2; 3] wstuck = None.
Proof.
  split; [apply wfb_ok; vm_compute; reflexivity|]. split; [|split].
  - intros b p. split.
    + intros I. destruct b as [|[|[|[|b]]]]; cbn in I; try contradiction; repeat (destruct I as [<-|I]; [eexists; split; [reflexivity|cbn; auto]|]); destruct I.
    + intros (pb & G & I). apply get_In in G. cbn in G. repeat (destruct G as [G|G]; [injection G as <- <-; cbn in I; repeat (destruct I as [<-|I]; [cbn; auto|]); destruct I|]). destruct G.
  - intros bk i t [= <-] I Pk V. cbn in I. destruct I as [<-|[<-|[]]]; [|discriminate]. cbn in Pk. injection Pk as <-. cbn [dst].
    intros b k j G J O. apply get_In in G. cbn in G. repeat (destruct G as [G|G]; [injection G as <- <-; cbn in J; repeat (destruct J as [<-|J]; [cbn in O; try (intuition discriminate); cbn; eauto|]); destruct J|]). destruct G.
  - intros same deep fuel.
    assert (U : forall g n, useVar same wspr deep n 0 0 1 (Mst g [(0, 0, OCst (VInt 0))] [1; 3; 2; 0] [] 3) = None /\ useVar same wspr deep n 0 0 2 (Mst g [(0, 0, OCst (VInt 0))] [1; 3; 2; 0] [] 3) = None).
    { intros g. induction n as [|n [A B]]; [split; reflexivity|]. split; cbn; [now rewrite B|now rewrite A]. }
    assert (U3 : forall g, useVar same wspr deep fuel 0 0 3 (Mst g [(0, 0, OCst (VInt 0))] [1; 3; 2; 0] [] 3) = None).
    { intros g. destruct fuel as [|n]; [reflexivity|]. cbn. destruct (U g n) as [A _]. now rewrite A. }
    unfold mem2reg. cbn -[useVar]. rewrite U3. reflexivity.
Qed.

(** filterPromotable does not look at getelementptr and pointer addition: a store through a copy of the address is not seen, and the
    function returns 1 instead of 7.  Everything but [plainVars] holds *)
Definition wcopy : func :=
  [(0, Block [] [Inst 0 0 []; Inst 1 2 [ORes 0; OCst (VInt 1)]; Inst 2 5 [ORes 0]; Inst 3 2 [ORes 2; OCst (VInt 7)]; Inst 4 1 [ORes 0]] (TRet (Some (ORes 4))))].
Theorem C48_address_arithmetic_refuted : exists g,
  wfs wcopy /\ predsOf (fun _ => []) wcopy /\ memMeaning hm hM hpk /\ secret hm hM hK /\ freshAllocs hm hK hpk (fun _ => VUndef) [] wcopy /\
  mem2reg hpk (fun _ => true) wsame (fun _ => []) 9 9 [0] wcopy = Some g /\
  finishes (step hm (fun _ => VUndef) wcopy) (start wcopy []) (Ret (Some (VInt 7)) [VInt 7]) [] /\
  finishes (step hm (fun _ => VUndef) g) (start g []) (Ret (Some (VInt 1)) [VInt 7]) [].
Proof.
  eexists. split; [|split; [|split; [exact heap_memMeaning|split; [exact heap_secret|split; [|split; [vm_compute; reflexivity|split; [exists 1; vm_compute; reflexivity|exists 1; vm_compute; reflexivity]]]]]]].
  - assert (Hw : wf wcopy) by (apply wfb_ok; vm_compute; reflexivity). split; [exact Hw|]. destruct Hw as (Hn & U & Hc & R). split.
    + apply (verify_sound (domb wcopy) (rchb wcopy)); [now apply domb_ok| |vm_compute; reflexivity].
      apply phiReach_all. apply (allReach_dec wcopy Hc Hn). vm_compute. reflexivity.
    + intros bk [= <-]. reflexivity.
  - intros b p. split; [intros []|]. intros (pb & G & I). apply get_In in G. cbn in G. destruct G as [G|[]]. injection G as <- <-. destruct I.
  - apply heap_fresh; [discriminate|]. intros a I. cbn in I. intuition discriminate.
Qed.
