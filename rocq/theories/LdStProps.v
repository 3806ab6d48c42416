(** Property C46: loads replaced by known values and stores removed do not change what a program does. *)
From Coq Require Import ZArith Lia Bool List Arith.
From Verif Require Import Sim Ssa SsaCfg SsaMerge SsaFwd SsaWf SsaDom SsaProps SsaSub SsaVerify SsaEq SsaPhi SsaCse SsaDce SsaValProps
  LdSt LdStPts LdStProof LdStLoad LdStDrop LdStElim LdStElimProof.
Import ListNotations.

Section Main.
Context {W : Type} (m : sem W) (args : nat -> value) (w0 : W) (M : memory W).
Variable mk : nat -> mkind.
Variable dist : opnd * nat -> opnd * nat -> bool.
Variable base : opnd -> option opnd.
Variable same : opnd -> opnd -> bool.
Hypothesis MO : memOk M.
Hypothesis MS : memSem mk M m.
Hypothesis SO : okSame same.

(** what SimpleValueAnalysis says a pointer points to is what a load through it would give, at every point of every run (of a program
    without atomics) *)
Theorem C46_known_value_is_in_memory_partial roGlob roGep f b bk pre e w p t v :
  wfs f -> okSep m args w0 M dist base f -> okRo m args w0 M base roGlob roGep f -> noAtomic mk f ->
  atPoint m args w0 f b bk pre e w ->
  getLast base (cacheOf mk dist base same roGlob roGep pre) p t = Some v ->
  exists a y, rd args e p = Some (VOpq a) /\ rd args e v = Some y /\ ld M t a w = Some y.
Proof.
  intros (Wf & Ss & _) SepO RoO NA Hp H.
  apply (getLast_ok m args w0 M mk dist base same roGlob roGep MO MS SO f (proj1 (proj2 Wf)) Ss SepO RoO NA b bk pre e w p t v Hp H).
Qed.
(** LoadReduce *)
Theorem C46_load_reduce_preserves_partial roGlob roGep f :
  wfs f -> okSep m args w0 M dist base f -> okRo m args w0 M base roGlob roGep f -> noAtomic mk f ->
  refinesAt (step m args f) (step m args (loadReduce mk dist base same roGlob roGep f)) (start f w0) (start (loadReduce mk dist base same roGlob roGep f) w0).
Proof.
  intros Wf SepO RoO NA. apply sameRun_refines. intros Hs.
  apply (loadReduce_same mk dist base same roGlob roGep m args w0 M MO MS SO f). repeat (split; [assumption|]). exact Hs.
Qed.
(** StoreEliminate: nobody who does not look at the function's own stack after its return, and at memory in calls that do not read it,
    can tell the difference *)
Theorem C46_store_eliminate_preserves_partial {X Y} (vE : @event W -> X) (vF : @fin W -> Y) escapes isAlloc touches stk dom f :
  memOver M -> okBlind m M vE vF mk -> memQuiet m mk ->
  wfs f -> okSep m args w0 M dist base f -> okTouch m args w0 M vE vF isAlloc touches f -> okStk m args w0 M vF stk f -> okDom dom f ->
  noAtomic mk f -> storesUnused mk f ->
  let g := storeEliminate mk dist base same escapes isAlloc touches stk dom f in
  refinesAt (vstep m args vE vF f) (vstep m args vE vF g) (start f w0) (start g w0).
Proof.
  intros MV BO QO Wf SepO TO SkO DO NA SU g Hs. apply vsafe in Hs. assert (Hs' := Hs). apply <- (vsafe m args vE vF f (start f w0)) in Hs'. revert Hs'.
  apply (storeEliminate_ok m args w0 M vE vF mk dist base same escapes isAlloc touches stk dom MO MV MS BO QO SO f).
  repeat (split; [assumption|]). exact Hs.
Qed.
End Main.

(** * a memory of words: the hypotheses can be met *)
Definition cellOk (a : Z) : bool := Z.leb 0 a && Z.eqb (a mod 4) 0.
Fixpoint setNth (k : nat) (v : value) (l : list value) : option (list value) :=
  match l, k with
  | [], _ => None
  | _ :: r, O => Some (v :: r)
  | x :: r, S k' => option_map (cons x) (setNth k' v r)
  end.
Definition words : memory (list value) := Mem (list value)
  (fun _ a w => if cellOk a then nth_error w (Z.to_nat (a / 4)) else None)
  (fun _ a v w => if cellOk a then setNth (Z.to_nat (a / 4)) v w else None)
  (fun _ => 4%Z).
Lemma setNth_eq k v : forall l l', setNth k v l = Some l' -> nth_error l' k = Some v.
Proof. induction k as [|k IH]; intros [|x l] l' H; try discriminate; cbn in H; [injection H as <-; reflexivity|]. destruct (setNth k v l) eqn:E; [|discriminate]. injection H as <-. cbn. eauto. Qed.
Lemma setNth_ne k j v : forall l l', k <> j -> setNth k v l = Some l' -> nth_error l' j = nth_error l j.
Proof.
  revert j. induction k as [|k IH]; intros [|j] [|x l] l' N H; try discriminate; try congruence; cbn in H.
  - injection H as <-. reflexivity.
  - destruct (setNth k v l) eqn:E; [|discriminate]. injection H as <-. reflexivity.
  - destruct (setNth k v l) eqn:E; [|discriminate]. injection H as <-. cbn. apply IH; auto.
Qed.
Lemma setNth_valid k v : forall l, setNth k v l = None <-> nth_error l k = None.
Proof.
  induction k as [|k IH]; intros [|x l]; cbn; try (split; (congruence || discriminate)). rewrite <- IH. destruct (setNth k v l); cbn; split; congruence.
Qed.
Lemma setNth_same k v : forall l, nth_error l k = Some v -> setNth k v l = Some l.
Proof. induction k as [|k IH]; intros [|x l] H; try discriminate; cbn in *; [congruence|]. now rewrite (IH _ H). Qed.
Lemma setNth_over k v v2 : forall l l', setNth k v l = Some l' -> setNth k v2 l' = setNth k v2 l.
Proof. induction k as [|k IH]; intros [|x l] l' H; try discriminate; cbn in H; [injection H as <-; reflexivity|]. destruct (setNth k v l) eqn:E; [|discriminate]. injection H as <-. cbn. now rewrite (IH _ _ E). Qed.
Lemma setNth_comm k j v v2 : forall l l1 l2, k <> j -> setNth k v l = Some l1 -> setNth j v2 l = Some l2 -> exists l3, setNth k v l2 = Some l3 /\ setNth j v2 l1 = Some l3.
Proof.
  revert j. induction k as [|k IH]; intros [|j] [|x l] l1 l2 N H1 H2; try discriminate; try congruence; cbn in H1, H2.
  - injection H1 as <-. destruct (setNth j v2 l) eqn:E; [|discriminate]. injection H2 as <-. cbn. rewrite E. cbn. eauto.
  - injection H2 as <-. destruct (setNth k v l) eqn:E; [|discriminate]. injection H1 as <-. cbn. rewrite E. cbn. eauto.
  - destruct (setNth k v l) eqn:E1; [|discriminate]. destruct (setNth j v2 l) eqn:E2; [|discriminate]. injection H1 as <-. injection H2 as <-. cbn.
    destruct (IH j l l0 l3) as (l4 & -> & ->); auto. cbn. eauto.
Qed.
Lemma setNth_len k v : forall l l', setNth k v l = Some l' -> length l' = length l.
Proof. induction k as [|k IH]; intros [|x l] l' H; try discriminate; cbn in H; [injection H as <-; reflexivity|]. destruct (setNth k v l) eqn:E; [|discriminate]. injection H as <-. cbn. f_equal. eauto. Qed.
Lemma cell_ne a b : cellOk a = true -> cellOk b = true -> apart a 4 b 4 -> Z.to_nat (a / 4) <> Z.to_nat (b / 4).
Proof.
  unfold cellOk, apart. rewrite !andb_true_iff, !Z.leb_le, !Z.eqb_eq. intros [A1 A2] [B1 B2] H E.
  assert (a / 4 = b / 4)%Z by (apply Z2Nat.inj; auto; apply Z.div_pos; lia). rewrite (Z.div_mod a 4), (Z.div_mod b 4) in H by lia. lia.
Qed.
Lemma cell_eq a b : cellOk a = true -> cellOk b = true -> Z.to_nat (a / 4) = Z.to_nat (b / 4) -> a = b.
Proof.
  unfold cellOk. rewrite !andb_true_iff, !Z.leb_le, !Z.eqb_eq. intros [A1 A2] [B1 B2] E.
  assert (a / 4 = b / 4)%Z by (apply Z2Nat.inj; auto; apply Z.div_pos; lia). rewrite (Z.div_mod a 4), (Z.div_mod b 4) by lia. lia.
Qed.
Lemma words_ok : memOk words.
Proof.
  unfold memOk, words. cbn. repeat split.
  - intros t a v w w'. destruct (cellOk a); [|discriminate]. apply setNth_eq.
  - intros t a v w w'. destruct (cellOk a); [|discriminate]. intros H K. rewrite <- (setNth_valid _ v) in K. congruence.
  - intros t a u b v w w' Ap H. destruct (cellOk a) eqn:Ea; auto. destruct (cellOk b) eqn:Eb; [|discriminate]. eapply setNth_ne; [|exact H].
    intros K. symmetry in K. revert K. now apply cell_ne.
  - intros t a b v w w' H1 H2. destruct (cellOk a) eqn:Ea; [|discriminate]. destruct (cellOk b) eqn:Eb; [|discriminate].
    destruct (Nat.eq_dec (Z.to_nat (b / 4)) (Z.to_nat (a / 4))) as [E|E]; [rewrite <- E; now apply setNth_eq in H2|]. now rewrite (setNth_ne _ _ _ _ _ E H2).
  - intros t a v w H. destruct (cellOk a); [|discriminate]. now apply setNth_same.
Qed.
Lemma words_over : memOver words.
Proof.
  unfold memOver, words. cbn. split; [|split; [|split]].
  - intros t a v w w1 H v2. destruct (cellOk a); [|discriminate]. eapply setNth_over; eauto.
  - intros t a x w w1 u b v w2 Ap H1 H2. destruct (cellOk a) eqn:Ea; [|discriminate]. destruct (cellOk b) eqn:Eb; [|discriminate].
    eapply setNth_comm; eauto. now apply cell_ne.
  - intros t a v w w1 H u b. destruct (cellOk a); [|discriminate]. destruct (cellOk b); [|reflexivity].
    rewrite !nth_error_None. now rewrite (setNth_len _ _ _ _ H).
  - intros t a v w w' H1 H2 K. destruct (cellOk a); [|congruence]. apply setNth_valid in K. congruence.
Qed.

(** opcodes: 0 load, 1 store, 2 atomic add, 3 add, 5 print, 6 alloc (of the third word), 7 a call that changes the first word *)
Definition xk (o : nat) : mkind :=
  match o with 0 => MLoad 0 | 1 => MStore 0 | 2 => MAtomic 0 | 5 => MCall true true | 7 => MCall false false | _ => MOther end%nat.
Definition xMeaning (o : nat) (vs : list value) (w : list value) : @ires (list value) :=
  match o with
  | 0 => match vs with [VOpq a] => match ld words 0 a w with Some v => IOk v w | None => IBad end | _ => IBad end
  | 1 => match vs with [VOpq a; v] => match sto words 0 a v w with Some w' => IOk VUndef w' | None => IBad end | _ => IBad end
  | 2 => match vs with
         | [VOpq a; VInt x] => match ld words 0 a w with
                               | Some (VInt y) => match sto words 0 a (VInt (y + x)) w with Some w' => IOk (VInt y) w' | None => IBad end
                               | _ => IBad end
         | _ => IBad end
  | 3 => match vs with [VInt x; VInt y] => IOk (VInt (x + y)) w | _ => IOk VUndef w end
  | 6 => IOk (VOpq 8) w
  | 7 => match sto words 0 0 (VInt 99) w with Some w' => IOk VUndef w' | None => IBad end
  | _ => IOk VUndef w
  end%nat.
Definition xm : sem (list value) := Sem xMeaning (fun o => Nat.eqb o 5).
Lemma xm_ok : memSem xk words xm.
Proof.
  split; [|split; [|split; [|split]]].
  - intros o t H vs w. destruct o as [|[|[|[|[|[|[|[|o]]]]]]]]; try discriminate. injection H as <-. reflexivity.
  - intros o t H vs w. destruct o as [|[|[|[|[|[|[|[|o]]]]]]]]; try discriminate. injection H as <-. reflexivity.
  - intros o t H vs w v w' E. destruct o as [|[|[|[|[|[|[|[|o]]]]]]]]; try discriminate. cbn -[words] in E.
    destruct vs as [|[?|a|] [|[x| |] [|? ?]]]; try discriminate. injection H as <-. destruct (ld words 0 a w) as [[y| |]|] eqn:El; try discriminate.
    destruct (sto words 0 a (VInt (y + x)) w) as [w1|] eqn:Es; [|discriminate]. injection E as <- <-. exists a, (VInt x), (VInt (y + x)), (VInt y). auto.
  - intros o nr H vs w v w' E t a. destruct o as [|[|[|[|[|[|[|[|o]]]]]]]]; try discriminate. cbn in E. injection E as _ <-. reflexivity.
  - intros o H vs w v w' E t a. destruct o as [|[|[|[|[|[|[|[|o]]]]]]]]; try discriminate; cbn in E.
    1: destruct vs as [|[| |] [|[| |] [|]]]; injection E as _ <-; reflexivity.
    all: injection E as _ <-; reflexivity.
Qed.

(** ** a program both passes change *)
(** the global is argument 0 (address 0), 10 is the alloc (address 8).  Store 11 is overwritten by 20 in the next block, store 15
    stores what is there, load 13 gives the constant 5 *)
Definition xf : func :=
  [(0, Block [] [Inst 10 6 []; Inst 11 1 [ORes 10; OCst (VInt 1)]; Inst 12 1 [OArg 0; OCst (VInt 5)]; Inst 13 0 [OArg 0]; Inst 14 5 [ORes 13];
                 Inst 15 1 [OArg 0; OCst (VInt 5)]; Inst 16 3 [ORes 13; OCst (VInt 2)]] (TBr 1));
   (1, Block [] [Inst 20 1 [ORes 10; ORes 16]; Inst 21 0 [ORes 10]; Inst 22 5 [ORes 21]; Inst 23 1 [ORes 10; OCst (VInt 0)]] (TRet (Some (ORes 21))))]%nat.
Definition xargs (n : nat) : value := VOpq 0.
Definition xw : list value := [VInt 40; VInt 41; VInt 42].
Definition xdist (p q : opnd * nat) : bool := negb (opnd_eqb (fst p) (fst q)) && (opnd_eqb (fst p) (ORes 10) || opnd_eqb (fst q) (ORes 10)) && (opnd_eqb (fst p) (OArg 0) || opnd_eqb (fst q) (OArg 0)).
Definition xbase (p : opnd) : option opnd := if opnd_eqb p (ORes 10) || opnd_eqb p (OArg 0) then Some p else None.
Definition xtouch (i : inst) (p : opnd) : bool := negb (Nat.eqb (opc i) 5).
Definition xvE (e : @event (list value)) : nat * list value := fst e.
Definition xvF (r : @fin (list value)) : option (option value) * list value := match r with Ret v w => (Some v, firstn 2 w) | Exit w => (None, firstn 2 w) end.
Definition xstk (p : opnd) : bool := opnd_eqb p (ORes 10).
Notation xse := (storeEliminate xk xdist xbase opnd_eqb (fun _ _ => false) xstk xtouch xstk (domb xf)).
Notation xlr := (loadReduce xk xdist xbase opnd_eqb (fun _ => None) (fun _ => None)).

Lemma x_same : okSame opnd_eqb.
Proof. intros a b H. destruct (opnd_eqb_spec a b); [auto|discriminate]. Qed.
Lemma xf_wfs : wfs xf.
Proof.
  assert (Hw : wf xf) by (apply wfb_ok; vm_compute; reflexivity). split; [exact Hw|]. destruct Hw as (Hn & U & Hc & R). split.
  - apply (verify_sound (domb xf) (rchb xf)); [now apply domb_ok| |vm_compute; reflexivity].
    apply phiReach_all. apply (allReach_dec xf Hc Hn). vm_compute. reflexivity.
  - intros bk [= <-]. reflexivity.
Qed.
Lemma xf_10 b bk pre e w : atPoint xm xargs xw xf b bk pre e w -> availAt xf b bk pre 10 -> e 10%nat = Some (VOpq 8).
Proof.
  intros Hp Av. refine (facts_points xm xargs xw xf (fun x e => x = 10%nat -> e 10%nat = Some (VOpq 8)) (fun _ => []) (proj1 (proj2 (proj1 xf_wfs))) _ _ _ _ b bk pre e w Hp 10%nat Av eq_refl).
  - intros x e1 e2 H K Ex. rewrite <- (H 10%nat); auto.
  - intros x d bkd y _ _ _ [].
  - intros b1 bk1 p pb e1 vs Gb _ _ _ _ _ x Hx. exfalso. apply get_In in Gb. assert (K : forallb (fun b => Nat.eqb (length (phis (snd b))) 0) xf = true) by reflexivity.
    rewrite forallb_forall in K. specialize (K _ Gb). cbn in K. destruct (phis bk1); [destruct Hx|discriminate].
  - intros b1 bk1 pre1 i post1 e1 w1 vs v w' Hp1 E1 _ Hr Hm Ed. destruct (atPoint_get _ _ _ _ _ _ _ _ _ Hp1) as [Gb1 _]. apply get_In in Gb1.
    assert (K : forallb (fun b => forallb (fun i => implb (Nat.eqb (dst i) 10) (Nat.eqb (opc i) 6)) (body (snd b))) xf = true) by reflexivity.
    rewrite forallb_forall in K. specialize (K _ Gb1). cbn [snd] in K. rewrite forallb_forall in K. specialize (K i). rewrite E1 in K.
    specialize (K ltac:(apply in_or_app; right; now left)). rewrite Ed in K. cbn [Nat.eqb implb] in K. apply Nat.eqb_eq in K. rewrite K in Hm. cbn in Hm. injection Hm as <- _.
    rewrite Ed. reflexivity.
Qed.
Lemma xf_sep : okSep xm xargs xw words xdist xbase xf.
Proof.
  intros b bk pre e w p t q u a a' Hp Ap Aq Rp Rq _ _ D.
  assert (K : p <> q /\ (p = ORes 10 \/ p = OArg 0) /\ (q = ORes 10 \/ q = OArg 0)).
  { destruct D as [D|(x & y & B1 & B2 & N)].
    - unfold xdist in D. cbn [fst] in D. destruct (opnd_eqb_spec p q), (opnd_eqb_spec p (ORes 10)), (opnd_eqb_spec q (ORes 10)), (opnd_eqb_spec p (OArg 0)), (opnd_eqb_spec q (OArg 0)); cbn in D; try discriminate; split; auto; congruence.
    - unfold xbase in *. destruct (opnd_eqb_spec p (ORes 10)), (opnd_eqb_spec p (OArg 0)), (opnd_eqb_spec q (ORes 10)), (opnd_eqb_spec q (OArg 0)); cbn in *; try discriminate; split; auto; congruence. }
  destruct K as (N & [->| ->] & [->| ->]); try congruence; cbn [rd opAvail] in *.
  - rewrite (xf_10 _ _ _ _ _ Hp Ap) in Rp. injection Rp as <-. injection Rq as <-. right. cbn. lia.
  - rewrite (xf_10 _ _ _ _ _ Hp Aq) in Rq. injection Rp as <-. injection Rq as <-. left. cbn. lia.
Qed.
Lemma xf_atomic : noAtomic xk xf.
Proof.
  intros b bk i t Gb Hi. apply get_In in Gb.
  assert (K : forallb (fun b => forallb (fun i => negb (Nat.eqb (opc i) 2)) (body (snd b))) xf = true) by reflexivity.
  rewrite forallb_forall in K. specialize (K _ Gb). cbn [snd] in K. rewrite forallb_forall in K. specialize (K i Hi).
  destruct (opc i) as [|[|[|[|[|[|[|[|o]]]]]]]]; cbn in *; discriminate.
Qed.
Lemma xf_unused : storesUnused xk xf.
Proof.
  intros b bk i t Gb Hi Ek b' bk' Gb' Hu. apply get_In in Gb, Gb'.
  assert (K : forallb (fun b => forallb (fun i => implb (Nat.eqb (opc i) 1) (forallb (fun b' => negb (inb (dst i) (usesOf (snd b')))) xf)) (body (snd b))) xf = true) by reflexivity.
  rewrite forallb_forall in K. specialize (K _ Gb). cbn [snd] in K. rewrite forallb_forall in K. specialize (K i Hi).
  assert (E : opc i = 1%nat) by (destruct (opc i) as [|[|[|[|[|[|[|[|o]]]]]]]]; cbn in *; congruence). rewrite E in K. cbn [Nat.eqb implb] in K.
  rewrite forallb_forall in K. specialize (K _ Gb'). cbn [snd] in K. rewrite negb_true_iff in K. assert (T : inb (dst i) (usesOf bk') = true) by now apply existsb_In. congruence.
Qed.
Lemma x_blind5 o vs t a : (o = 5 \/ xk o = MOther)%nat -> blindTo xm words xvE xvF o vs t a.
Proof.
  intros H w w' D. split; [unfold evt; cbn; destruct (Nat.eqb o 5); reflexivity|].
  assert (K : (exists v, meaning xm o vs w = IOk v w /\ meaning xm o vs w' = IOk v w')).
  { destruct H as [E|H]; [subst o; cbn; eauto|]. cbn [xm meaning]. destruct o as [|[|[|[|[|[|[|[|o]]]]]]]]; try discriminate; cbn; eauto. destruct vs as [|[| |] [|[| |] [|]]]; eauto. }
  destruct K as (v & -> & ->). eauto.
Qed.
Example xf_meets : wfs xf /\ okSep xm xargs xw words xdist xbase xf /\ okRo xm xargs xw words xbase (fun _ => None) (fun _ => None) xf /\ noAtomic xk xf /\
  okTouch xm xargs xw words xvE xvF xstk xtouch xf /\ okStk xm xargs xw words xvF xstk xf /\ okDom (domb xf) xf /\ storesUnused xk xf /\
  okBlind xm words xvE xvF xk /\ memQuiet xm xk.
Proof.
  split; [exact xf_wfs|]. split; [exact xf_sep|]. split; [intros b bk pre e w _; split; discriminate|]. split; [exact xf_atomic|].
  split; [|split; [|split; [|split; [exact xf_unused|split]]]].
  - intros b bk pre i post e w vs p a _ _ _ _ _ _ T t. unfold xtouch in T. rewrite negb_false_iff in T. apply Nat.eqb_eq in T. apply x_blind5. now left.
  - intros b bk e w p a Hp Ap Rp S t v w1 w2 (x & w3 & A & B). unfold xstk in S. destruct (opnd_eqb_spec p (ORes 10)) as [->|]; [|discriminate].
    cbn [rd opAvail] in *. rewrite (xf_10 _ _ _ _ _ Hp Ap) in Rp. injection Rp as <-. cbn. f_equal.
    unfold words in A, B. cbn [sto] in A, B. change (cellOk 8) with true in A, B. cbv iota in A, B. change (Z.to_nat (8 / 4)) with 2%nat in A, B.
    destruct w1 as [|x1 [|x2 [|x3 w1]]], w2 as [|y1 [|y2 [|y3 w2]]]; cbn in A, B; try discriminate.
    injection A as <-. injection B as <- <- _. reflexivity.
  - intros a b H. destruct (domb_ok xf) as [_ K]; [apply xf_wfs|discriminate|]. now apply K.
  - intros o [H|[nw H]] vs t a; apply x_blind5; auto. left. destruct o as [|[|[|[|[|[|[|[|o]]]]]]]]; cbn in H; congruence.
  - intros o t [H|H]; destruct o as [|[|[|[|[|[|[|[|o]]]]]]]]; cbn in H; try discriminate; reflexivity.
Qed.
(** the last store goes too: the stack is not seen after the return *)
Example xf_eliminated : map (fun b => map dst (body (snd b))) (xse xf) = [[10; 12; 13; 14; 16]; [20; 21; 22]]%nat.
Proof. vm_compute. reflexivity. Qed.
Example xf_reduced : option_map ops (instIn (xlr xf) 0 14) = Some [OCst (VInt 5)] /\ option_map ops (instIn (xlr xf) 0 16) = Some [OCst (VInt 5); OCst (VInt 2)] /\
  option_map ops (instIn (xlr xf) 1 22) = Some [ORes 16].
Proof. vm_compute. auto. Qed.
Example xf_safe : Sim.safe (step xm xargs xf) (start xf xw).
Proof. intros [|[|n]] t; vm_compute; discriminate. Qed.

(** * what does not hold: atomics *)
(** AtomicAdd after a store: SimpleValueAnalysis.cpp:143-146 calls update with no new value, and invalidate (82: [if(ptr == pointer) return false])
    keeps what was known of the very address that is changed *)
Definition xa : func := [(0, Block [] [Inst 10 1 [OArg 0; OCst (VInt 5)]; Inst 11 2 [OArg 0; OCst (VInt 1)]; Inst 12 0 [OArg 0]] (TRet (Some (ORes 12))))]%nat.
Notation xd0 := (fun _ _ => false).
Notation xb0 := (fun _ => Some (OArg 0)).
Lemma xa_wfs : wfs xa.
Proof.
  assert (Hw : wf xa) by (apply wfb_ok; vm_compute; reflexivity). split; [exact Hw|]. destruct Hw as (Hn & U & Hc & R). split.
  - apply (verify_sound (domb xa) (rchb xa)); [now apply domb_ok| |vm_compute; reflexivity].
    apply phiReach_all. apply (allReach_dec xa Hc Hn). vm_compute. reflexivity.
  - intros bk [= <-]. reflexivity.
Qed.
Theorem C46_load_after_atomic_refuted :
  memOk words /\ memSem xk words xm /\ okSame opnd_eqb /\ wfs xa /\ okSep xm xargs xw words xd0 xb0 xa /\
  okRo xm xargs xw words xb0 (fun _ => None) (fun _ => None) xa /\
  let g := loadReduce xk xd0 xb0 opnd_eqb (fun _ => None) (fun _ => None) xa in
  finishes (step xm xargs xa) (start xa xw) (Ret (Some (VInt 6)) [VInt 6; VInt 41; VInt 42]) [] /\
  finishes (step xm xargs g) (start g xw) (Ret (Some (VInt 5)) [VInt 6; VInt 41; VInt 42]) [].
Proof.
  split; [exact words_ok|]. split; [exact xm_ok|]. split; [exact x_same|]. split; [exact xa_wfs|]. split; [|split; [intros b bk pre e w _; split; discriminate|]].
  - intros b bk pre e w p t q u a a' _ _ _ _ _ _ _ [D|(x & y & A & B & N)]; [discriminate|congruence].
  - split; exists 1%nat; vm_compute; reflexivity.
Qed.
(** StoreEliminate.cpp:85-95 takes an AtomicAdd to the address for a store that overwrites it *)
Theorem C46_store_before_atomic_refuted :
  memOk words /\ memOver words /\ memSem xk words xm /\ okSame opnd_eqb /\ wfs xa /\ okSep xm xargs xw words xd0 xb0 xa /\ storesUnused xk xa /\
  let g := storeEliminate xk xd0 xb0 opnd_eqb xd0 (fun _ => false) (fun _ _ => true) (fun _ => false) xd0 xa in
  finishes (step xm xargs xa) (start xa xw) (Ret (Some (VInt 6)) [VInt 6; VInt 41; VInt 42]) [] /\
  finishes (step xm xargs g) (start g xw) (Ret (Some (VInt 41)) [VInt 41; VInt 41; VInt 42]) [].
Proof.
  split; [exact words_ok|]. split; [exact words_over|]. split; [exact xm_ok|]. split; [exact x_same|]. split; [exact xa_wfs|]. split; [|split].
  - intros b bk pre e w p t q u a a' _ _ _ _ _ _ _ [D|(x & y & A & B & N)]; [discriminate|congruence].
  - intros b bk i t Gb Hi Ek b' bk' Gb' Hu. destruct b as [|b]; [|discriminate]. destruct b' as [|b']; [|discriminate].
    injection Gb as <-. injection Gb' as <-. cbn in Hu. destruct Hi as [<-|[<-|[<-|[]]]]; cbn in *; intuition discriminate.
  - split; exists 1%nat; vm_compute; reflexivity.
Qed.
