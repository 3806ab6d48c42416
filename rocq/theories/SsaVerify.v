(** C35: a function that the IR verifier accepts never reads a value that has not been computed.
    Model of Function::verify (cmmc/IR/Function.cpp:138-292) and of the order check in Block::verify
    (cmmc/IR/Block.cpp:113-135).  Left out: types and per-instruction checks (Instruction::verify), ownership pointers, the
    position of allocations and the use lists.  [dom], [rch]: DominateAnalysisResult::dominate and reachable. *)
From Coq Require Import ZArith Lia Bool List Arith.
From Verif Require Import Sim Ssa SsaCfg SsaMerge SsaFwd SsaFwd2 SsaWf SsaDom SsaProps SsaSub.
Import ListNotations.

(** ** the verifier *)
(** Value::getBlock *)
Definition blockOf (f : func) (x : nat) : option nat := option_map fst (find (fun y => inb x (resultsOf (snd y))) f).
(** Block.cpp:113-135 *)
Definition orderOp (own seen : list nat) (o : opnd) : bool :=
  match o with ORes y => implb (inb y own) (inb y seen) | _ => true end.
Fixpoint orderOk (own seen : list nat) (l : list inst) : bool :=
  match l with [] => true | i :: l' => forallb (orderOp own seen) (ops i) && orderOk own (seen ++ [dst i]) l' end.
Definition blockOrder (bk : block) : bool :=
  orderOk (resultsOf bk) (map pdst (phis bk)) (body bk) && forallb (orderOp (resultsOf bk) (resultsOf bk)) (termOps (trm bk)).
Section Verify.
Variable dom : nat -> nat -> bool.
Variable rch : nat -> bool.
(** Function.cpp:260-274 *)
Definition checkDom (a b : nat) (strict : bool) : bool :=
  negb (negb (Nat.eqb a b) && (strict || rch a) && rch b && negb (dom a b)).
(** lines 284-289 *)
Definition opDom (f : func) (b : nat) (strict : bool) (o : opnd) : bool :=
  match o with ORes x => match blockOf f x with Some d => checkDom d b strict | None => true end | _ => true end.
(** lines 222-255 for one phi *)
Definition phiEdges (f : func) (b : nat) (ph : phi) : bool :=
  forallb (fun x => edgeb f (fst x) b) (inc ph) &&
  forallb (fun y => implb (inb b (succs (trm (snd y)))) (negb (rch (fst y)) || hasSource (fst y) ph)) f.
Definition verifyFn (f : func) : bool :=
  nodupb (map fst f) && nodupb (allResults f) &&
  forallb (fun x => forallb (fun t => inb t (map fst f)) (succs (trm (snd x)))) f &&
  forallb (fun x => blockOrder (snd x)) f &&
  forallb (fun x => inb x (allResults f)) (usesIn f) &&
  forallb (fun x => implb (rch (fst x)) (forallb (phiEdges f (fst x)) (phis (snd x)))) f &&
  forallb (fun x => implb (rch (fst x))
    (forallb (fun ph => forallb (fun i => opDom f (fst i) false (snd i)) (inc ph)) (phis (snd x)) &&
     forallb (fun i => forallb (opDom f (fst x) true) (ops i)) (body (snd x)) &&
     forallb (opDom f (fst x) true) (termOps (trm (snd x))))) f.
End Verify.

(** ** specification *)
(** the state is reached by the run *)
Definition reaches {W} (m : sem W) (args : nat -> value) (f : func) (w : W) (s : st) : Prop :=
  exists n t, run (step m args f) n (start f w) = Go s t.
(** the next step reads something that has no value: a phi without a value for the edge, or an operand of a phi, an
    instruction or the terminator that has not been computed *)
Definition readsUnset {W} (m : sem W) (args : nat -> value) (f : func) (s : st) : Prop :=
  exists bk, get (cur s) f = Some bk /\
   ((exists p ph, prev s = Some p /\ In ph (phis bk) /\
       (get p (inc ph) = None \/ exists o, get p (inc ph) = Some o /\ rd args (en s) o = None)) \/
    (exists e1 pre i post e w t, enter args (en s) (prev s) (phis bk) = Some e1 /\ body bk = pre ++ i :: post /\
       runBody m args e1 (wd s) pre = BGo e w t /\ exists o, In o (ops i) /\ rd args e o = None) \/
    (exists e1 e w t, enter args (en s) (prev s) (phis bk) = Some e1 /\ runBody m args e1 (wd s) (body bk) = BGo e w t /\
       exists o, In o (termOps (trm bk)) /\ rd args e o = None)).
(** the analysis results describe the control-flow graph *)
Definition domOk (dom : nat -> nat -> bool) (rch : nat -> bool) (f : func) : Prop :=
  (forall b, rch b = true <-> reach f b) /\
  (forall a b, dom a b = true <-> reach f a /\ reach f b /\ dominates f a b).
(** no phi takes a value computed in unreachable code on an edge from reachable code: the verifier does not check it *)
Definition phiReach (f : func) : Prop := forall b bk ph p x d, get b f = Some bk -> In ph (phis bk) ->
  In (p, ORes x) (inc ph) -> reach f p -> defIn f x d -> reach f d.

(** ** proofs *)
Definition phiAllR (f : func) : Prop := forall b bk ph p pb, reach f b -> reach f p -> get b f = Some bk -> In ph (phis bk) ->
  get p f = Some pb -> In b (succs (trm pb)) -> get p (inc ph) <> None.

Lemma run_snoc {S E F} (stp : S -> sres S E F) n s s' t : run stp (Datatypes.S n) s = Go s' t ->
  exists s1 t1 t2, run stp n s = Go s1 t1 /\ stp s1 = Go s' t2.
Proof.
  replace (Datatypes.S n) with (n + 1)%nat by lia. rewrite run_add. destruct (run stp n s) as [s1 t1|r t1|t1]; try discriminate.
  cbn. destruct (stp s1) as [s2 t2|r t2|t2] eqn:E1; cbn; try discriminate. intros [= <- _]. eauto 6.
Qed.
Lemma reaches_inv {W} (m : sem W) args f w s (I : st -> Prop) : I (start f w) ->
  (forall s s' t, I s -> step m args f s = Go s' t -> I s') -> reaches m args f w s -> I s.
Proof.
  intros H0 Hs (n & t & H). revert s t H. induction n as [|n IH]; intros s t H.
  - cbn in H. injection H as <- _. auto.
  - apply run_snoc in H as (s1 & t1 & t2 & H1 & H2). eauto.
Qed.

Lemma ssa_reads {W} (m : sem W) args f w s : uniqueDefs f -> ssa f -> phiAllR f -> reaches m args f w s -> ~ readsUnset m args f s.
Proof.
  intros U S PA Hr. assert (HI : hist f s /\ definedIn f s).
  { refine (reaches_inv m args f w s (fun s => hist f s /\ definedIn f s) _ _ Hr).
    - split; [apply hist_start|exact I].
    - intros s1 s2 t [A B] H. split; [eapply hist_step; eauto|eapply defined_step; eauto]. }
  destruct HI as [Hh Hd]. pose proof (hist_reach _ _ Hh) as R.
  intros (bk & Hb & H). destruct (S (cur s) bk Hb R) as (S1 & S2 & S3). destruct H as [H|[H|H]].
  - destruct H as (p & ph & Ep & Hph & H). destruct (hist_prev f s p Hh Ep) as (Rp & pb & Hpb & Hin).
    destruct H as [H|(o & Ho & Hv)]; [exact (PA (cur s) bk ph p pb R Rp Hb Hph Hpb Hin H)|].
    pose proof (S3 ph p o Hph (get_In _ _ _ Ho) Rp) as A. destruct o as [c|n|x]; cbn in Hv; try discriminate.
    cbn in A. unfold definedIn in Hd. rewrite Ep in Hd. exact (Hd x A Hv).
  - destruct H as (e1 & pre & i & post & e & w1 & t & He & Hbd & Hrun & o & Ho & Hv).
    assert (A : definedAt f (cur s) bk pre e).
    { pose proof (defined_enter args f U s bk e1 Hh Hd Hb He) as F.
      assert (K : forall l0 l1 e2 w2 e3 w3 t3, body bk = l0 ++ l1 ++ i :: post -> definedAt f (cur s) bk l0 e2 ->
                  runBody m args e2 w2 l1 = BGo e3 w3 t3 -> definedAt f (cur s) bk (l0 ++ l1) e3).
      { intros l0 l1. revert l0. induction l1 as [|j l1 IH]; intros l0 e2 w2 e3 w3 t3 Hl F2 H2.
        - cbn in H2. injection H2 as <- _ _. now rewrite app_nil_r.
        - cbn in H2. destruct (rds args e2 (ops j)) as [vs|] eqn:Er; [|discriminate].
          destruct (meaning m (opc j) vs w2) as [v wx|wx|] eqn:Em; try discriminate.
          destruct (runBody m args (upd e2 (dst j) v) wx l1) as [e4 w4 t4|w4 t4|t4] eqn:E4; try discriminate.
          cbn in H2. injection H2 as <- <- _. replace (l0 ++ j :: l1) with ((l0 ++ [j]) ++ l1) by (rewrite <- app_assoc; reflexivity).
          eapply IH; [|eapply defined_inst; eauto|exact E4]. rewrite <- app_assoc. exact Hl. }
      exact (K [] pre e1 _ e _ _ Hbd F Hrun). }
    specialize (S1 pre i post Hbd). rewrite Forall_forall in S1. specialize (S1 o Ho).
    destruct o as [c|n|x]; cbn in Hv; try discriminate. exact (A x S1 Hv).
  - destruct H as (e1 & e & w1 & t & He & Hrun & o & Ho & Hv).
    pose proof (defined_enter args f U s bk e1 Hh Hd Hb He) as F.
    pose proof (defined_body m args f U (cur s) bk R Hb (body bk) [] e1 (wd s) e w1 t eq_refl F Hrun) as A.
    rewrite Forall_forall in S2. specialize (S2 o Ho). destruct o as [c|n|x]; cbn in Hv; try discriminate. exact (A x S2 Hv).
Qed.

Lemma blockOf_In f x : In x (allResults f) -> uniqueDefs f -> exists d, blockOf f x = Some d /\ defIn f x d.
Proof.
  intros H [U _]. unfold blockOf. destruct (find (fun y => inb x (resultsOf (snd y))) f) as [[d bk]|] eqn:E.
  - exists d. split; auto. apply find_some in E as [E1 E2]. exists bk. split; [now apply In_get|]. apply existsb_In. exact E2.
  - exfalso. apply in_flat_map in H as ([d bk] & Hin & Hx). pose proof (find_none _ _ E _ Hin) as K. cbn in K.
    apply existsb_nIn in K. auto.
Qed.
Lemma checkDom_ok dom rch f a b strict : domOk dom rch f -> checkDom dom rch a b strict = true -> reach f b ->
  strict = true \/ reach f a -> dominates f a b.
Proof.
  intros [H1 H2] Hc Rb Ra. unfold checkDom in Hc. destruct (Nat.eqb_spec a b) as [->|N]; [apply dominates_refl|].
  assert (Hs : strict || rch a = true) by (destruct Ra as [->|Ra]; [reflexivity|]; rewrite (proj2 (H1 a) Ra); apply orb_true_r).
  cbn in Hc. rewrite (proj2 (H1 b) Rb), Hs in Hc. cbn in Hc. destruct (dom a b) eqn:Ed; [|discriminate]. apply H2 in Ed. tauto.
Qed.
Lemma opDom_avail dom rch f b bk own seen strict o : domOk dom rch f -> uniqueDefs f -> get b f = Some bk -> reach f b -> own = resultsOf bk ->
  (forall x, In x (res_of o) -> In x (allResults f)) -> opDom dom rch f b strict o = true -> strict = true -> orderOp own seen o = true ->
  opAvail (fun x => availIn f b x \/ In x seen) o.
Proof.
  intros HD U Hb R -> Hu Ho -> Hs. destruct o as [c|n|x]; cbn in *; auto.
  destruct (blockOf_In f x (Hu x (or_introl eq_refl)) U) as (d & Hd & Hdef). rewrite Hd in Ho.
  pose proof (checkDom_ok dom rch f d b true HD Ho R (or_introl eq_refl)) as K.
  destruct (Nat.eq_dec d b) as [->|N].
  - right. destruct Hdef as (bk' & Hb' & Hx). assert (bk' = bk) by congruence. subst.
    apply existsb_In in Hx. unfold inb in Hs. rewrite Hx in Hs. cbn in Hs. now apply existsb_In.
  - left. exists d. auto.
Qed.
Lemma usesIn_block f b bk x : get b f = Some bk -> In x (usesOf bk) -> In x (usesIn f).
Proof. intros H Hx. apply get_In in H. apply in_flat_map. exists (b, bk). auto. Qed.

Lemma verify_sound dom rch f : domOk dom rch f -> phiReach f -> verifyFn dom rch f = true ->
  uniqueDefs f /\ closed f /\ ssa f /\ phiAllR f.
Proof.
  intros HD PR H. unfold verifyFn in H. rewrite !andb_true_iff in H. destruct H as ((((((V1 & V2) & V3) & V4) & V5) & V6) & V7).
  rewrite forallb_forall in V3, V4, V5, V6, V7.
  assert (U : uniqueDefs f) by (split; now apply nodupb_ok).
  assert (Used : forall b bk x, get b f = Some bk -> In x (usesOf bk) -> In x (allResults f)).
  { intros b bk x Hb Hx. apply existsb_In. apply V5. eapply usesIn_block; eauto. }
  split; [exact U|]. split; [|split].
  - intros b bk t Hb Ht. apply get_In in Hb. specialize (V3 _ Hb). cbn in V3. rewrite forallb_forall in V3. apply existsb_In. exact (V3 t Ht).
  - intros b bk Hb R. pose proof (get_In _ _ _ Hb) as Hin. specialize (V4 _ Hin). specialize (V7 _ Hin). cbn in V4, V7.
    rewrite (proj2 (proj1 HD b) R) in V7. cbn in V7. rewrite !andb_true_iff in V7. destruct V7 as ((V7 & V8) & V9).
    unfold blockOrder in V4. apply andb_true_iff in V4 as [V4 V4'].
    rewrite forallb_forall in V7, V8, V9, V4'. split; [|split].
    + intros pre i post E. rewrite Forall_forall. intros o Ho.
      assert (Hi : In i (body bk)) by (rewrite E; apply in_or_app; right; now left).
      assert (Hord : orderOp (resultsOf bk) (map pdst (phis bk) ++ map dst pre) o = true).
      { clear -V4 E Ho. rewrite E in V4. clear E. revert V4. generalize (map pdst (phis bk)) as seen. generalize (resultsOf bk) as own.
        induction pre as [|j pre IH]; intros own seen V; cbn in V; apply andb_true_iff in V as [A B].
        - rewrite forallb_forall in A. cbn. rewrite app_nil_r. auto.
        - cbn. replace (seen ++ dst j :: map dst pre) with ((seen ++ [dst j]) ++ map dst pre) by (rewrite <- app_assoc; reflexivity).
          apply IH. exact B. }
      specialize (V8 i Hi). rewrite forallb_forall in V8.
      pose proof (fun a => opDom_avail dom rch f b bk _ _ true o HD U Hb R eq_refl a (V8 o Ho) eq_refl Hord) as K.
      destruct o as [c|n|x]; cbn; auto. cbn in K. unfold availAt. rewrite in_app_iff in K.
      apply K. intros y [->|[]]. apply (Used b bk y Hb). unfold usesOf. rewrite !in_app_iff. right. left.
      apply in_flat_map. exists i. split; auto. apply in_flat_map. exists (ORes y). cbn. auto.
    + rewrite Forall_forall. intros o Ho.
      pose proof (fun a => opDom_avail dom rch f b bk _ _ true o HD U Hb R eq_refl a (V9 o Ho) eq_refl (V4' o Ho)) as K.
      destruct o as [c|n|x]; cbn; auto. cbn in K. unfold availAt. unfold resultsOf in K at 1. rewrite in_app_iff in K.
      apply K. intros y [->|[]]. apply (Used b bk y Hb). unfold usesOf. rewrite !in_app_iff. right. right.
      apply in_flat_map. exists (ORes y). cbn. auto.
    + intros ph p o Hph Hi Rp. specialize (V7 ph Hph). rewrite forallb_forall in V7. specialize (V7 _ Hi). cbn in V7.
      destruct o as [c|n|x]; cbn; auto. cbn in V7.
      assert (Hx : In x (allResults f)).
      { apply (Used b bk x Hb). unfold usesOf. rewrite in_app_iff. left. apply in_flat_map. exists ph. split; auto.
        apply in_flat_map. exists (p, ORes x). cbn. auto. }
      destruct (blockOf_In f x Hx U) as (d & Hd & Hdef). rewrite Hd in V7. exists d. split; auto.
      eapply checkDom_ok; eauto.
  - intros b bk ph p pb R Rp Hb Hph Hp Hs. pose proof (get_In _ _ _ Hb) as Hin. specialize (V6 _ Hin). cbn in V6.
    rewrite (proj2 (proj1 HD b) R) in V6. cbn in V6. rewrite forallb_forall in V6. specialize (V6 ph Hph). unfold phiEdges in V6.
    apply andb_true_iff in V6 as [_ V6]. rewrite forallb_forall in V6. specialize (V6 _ (get_In _ _ _ Hp)). cbn in V6.
    unfold inb in V6. rewrite (proj2 (existsb_In b _) Hs), (proj2 (proj1 HD p) Rp) in V6. cbn in V6. unfold hasSource in V6.
    destruct (get p (inc ph)); [discriminate|discriminate].
Qed.

(** ** theorems *)
(** the verifier accepts a phi whose value on an edge from reachable code was computed in unreachable code; hence [phiReach] *)
Theorem C35_no_unset_read_partial W (m : sem W) args dom rch f w s :
  domOk dom rch f -> phiReach f -> verifyFn dom rch f = true -> reaches m args f w s -> ~ readsUnset m args f s.
Proof. intros HD PR V. destruct (verify_sound dom rch f HD PR V) as (U & _ & S & PA). now apply ssa_reads. Qed.

(** ** a reference decision procedure for dominance, for examples: [a] dominates [b] if cutting the edges out of [a] makes [b] unreachable *)
Lemma addSuccs_sound l : forall seen q seen' q', addSuccs seen q l = (seen', q') ->
  (forall b, In b seen' -> In b seen \/ In b l) /\ (forall b, In b q' -> In b q \/ In b l).
Proof.
  induction l as [|a l IH]; intros seen q seen' q' H; cbn in H.
  - injection H as <- <-. auto.
  - destruct (existsb (Nat.eqb a) seen).
    + destruct (IH _ _ _ _ H) as [A B]. split; intros b Hb; [destruct (A b Hb)|destruct (B b Hb)]; auto; right; now right.
    + destruct (IH _ _ _ _ H) as [A B]. split; intros b Hb.
      * destruct (A b Hb) as [[<-|K]|K]; auto; right; cbn; auto.
      * destruct (B b Hb) as [K|K]; [|right; cbn; auto]. apply in_app_or in K. destruct K as [K|[<-|[]]]; auto. right. now left.
Qed.
Lemma bfs_sound f fuel : forall seen q, (forall b, In b seen -> reach f b) -> (forall b, In b q -> reach f b) ->
  forall b, In b (bfs f fuel seen q) -> reach f b.
Proof.
  induction fuel as [|n IH]; intros seen q Hs Hq b; cbn; [auto|]. destruct q as [|u q]; [auto|].
  destruct (get u f) as [bk|] eqn:Eu.
  - destruct (addSuccs seen q (succs (trm bk))) as [seen' q'] eqn:Ea. destruct (addSuccs_sound _ _ _ _ _ Ea) as [A B].
    assert (Hsucc : forall t, In t (succs (trm bk)) -> reach f t).
    { intros t Ht. destruct (Hq u (or_introl eq_refl)) as [l Hl]. exists (t :: l). eapply path_next; eauto. }
    apply IH; intros c Hc; [destruct (A c Hc)|destruct (B c Hc)]; auto. apply Hq. now right.
  - apply IH; auto. intros c Hc. apply Hq. now right.
Qed.
Lemma reachable_reach f b : closed f -> f <> [] -> In b (reachable f) <-> reach f b.
Proof.
  intros Hc Hn. split.
  - apply bfs_sound; intros c [<-|[]]; exists [entry f]; apply path_entry.
  - destruct (reachable_closed f Hc Hn) as [A B]. intros [l Hl]. induction Hl as [|b l bk t Hl IH Hb Ht]; eauto.
Qed.
Definition cut (a : nat) (f : func) : func := onBlock a (setTerm TUnreach) f.
Lemma path_cut f a b l : path f b l -> ~ In a (tl l) -> path (cut a f) b l.
Proof.
  unfold cut. induction 1 as [|b l bk t Hl IH Hb Ht]; intros N.
  - rewrite <- (entry_onBlock a (setTerm TUnreach) f). apply path_entry.
  - cbn in N. destruct (path_hd _ _ _ Hl) as [l' ->]. apply path_next with (b := b) (bk := bk); auto.
    + apply IH. cbn. intros K. apply N. now right.
    + rewrite get_onBlock, Hb. cbn. destruct (Nat.eqb_spec b a) as [->|]; auto. exfalso. apply N. now left.
Qed.
Lemma cut_path f a b l : path (cut a f) b l -> path f b l /\ ~ In a (tl l).
Proof.
  unfold cut. induction 1 as [|b l bk t Hl [IH1 IH2] Hb Ht].
  - rewrite entry_onBlock. split; [apply path_entry|]. cbn. tauto.
  - rewrite get_onBlock in Hb. destruct (get b f) as [bk0|] eqn:Eb; [|discriminate]. cbn in Hb.
    destruct (Nat.eqb_spec b a) as [->|N]; injection Hb as <-; [destruct Ht|]. split; [eapply path_next; eauto|]. cbn.
    destruct (path_hd _ _ _ Hl) as [l' ->]. cbn in *. intros [K|K]; auto.
Qed.
Definition rchb (f : func) (b : nat) : bool := inb b (reachable f).
Definition domb (f : func) (a b : nat) : bool := rchb f a && rchb f b && (Nat.eqb a b || negb (rchb (cut a f) b)).
Lemma cut_closed a f : closed f -> closed (cut a f).
Proof.
  intros H b bk t Hb Ht. unfold cut in *. rewrite get_onBlock in Hb. destruct (get b f) as [bk0|] eqn:Eb; [|discriminate]. cbn in Hb.
  unfold onBlock. rewrite (fst_mapk (fun k bk1 => if Nat.eqb k a then setTerm TUnreach bk1 else bk1)).
  destruct (Nat.eqb b a); injection Hb as <-; [destruct Ht|]. eauto.
Qed.
Theorem domb_ok f : closed f -> f <> [] -> domOk (domb f) (rchb f) f.
Proof.
  intros Hc Hn. assert (R : forall b, rchb f b = true <-> reach f b).
  { intros b. unfold rchb, inb. rewrite existsb_In. now apply reachable_reach. }
  assert (Rc : forall a b, rchb (cut a f) b = true <-> reach (cut a f) b).
  { intros a b. unfold rchb, inb. rewrite existsb_In. apply reachable_reach; [now apply cut_closed|]. destruct f; [congruence|discriminate]. }
  split; [exact R|]. intros a b. unfold domb. rewrite !andb_true_iff, orb_true_iff, negb_true_iff, !R, Nat.eqb_eq. split.
  - intros [[H1 H2] H3]. split; [|split]; auto. destruct H3 as [->|H3]; [apply dominates_refl|]. intros l Hl.
    destruct (in_dec Nat.eq_dec a l) as [Hi|Ni]; auto. exfalso.
    assert (K : rchb (cut a f) b = true).
    { apply Rc. exists l. apply path_cut; auto. intros K. apply Ni. destruct l; [destruct K|right; exact K]. }
    congruence.
  - intros (H1 & H2 & H3). repeat split; auto. destruct (Nat.eq_dec a b) as [->|N]; auto. right.
    destruct (rchb (cut a f) b) eqn:E; auto. exfalso. apply Rc in E as [l Hl]. apply cut_path in Hl as [Hl Hni].
    pose proof (H3 l Hl) as K. destruct (path_hd _ _ _ Hl) as [l' ->]. cbn in *. destruct K; congruence.
Qed.

(** ** examples *)
(** [phiReach] holds of functions all of whose blocks are reachable *)
Lemma phiReach_all f : (forall b, In b (map fst f) -> reach f b) -> phiReach f.
Proof. intros H b bk ph p x d _ _ _ _ (bk' & Hd & _). apply H. apply get_In in Hd. apply in_map_iff. exists (d, bk'). auto. Qed.
Lemma allReach_dec f : closed f -> f <> [] -> forallb (rchb f) (map fst f) = true -> forall b, In b (map fst f) -> reach f b.
Proof.
  intros Hc Hn H b Hb. rewrite forallb_forall in H. apply (reachable_reach f b Hc Hn). apply existsb_In. exact (H b Hb).
Qed.
(** the loop of C33 without its unreachable block *)
Definition exV : func := blockEliminate (simplifyBranch exF).
Example exV_wf : wf exV.
Proof. apply wfb_ok. vm_compute. reflexivity. Qed.
Example exV_verify : domOk (domb exV) (rchb exV) exV /\ phiReach exV /\ verifyFn (domb exV) (rchb exV) exV = true.
Proof.
  destruct exV_wf as (Hn & _ & Hc & _).
  split; [now apply domb_ok|]. split; [|vm_compute; reflexivity].
  apply phiReach_all. apply (allReach_dec exV Hc Hn). vm_compute. reflexivity.
Qed.

(** a function the verifier accepts although a reachable phi reads a value of an unreachable block: block 2 is unreachable,
    block 1 is entered from block 0 *)
Definition exU : func :=
  [(0, Block [] [] (TBr 1));
   (2, Block [] [Inst 10 4 [OArg 0; OCst (VInt 1)]] (TBr 1));
   (1, Block [Phi 11 [(0, ORes 10); (2, ORes 10)]] [] (TRet (Some (ORes 11))))]%nat.
Theorem C35_no_unset_read_refuted : exists dom rch, domOk dom rch exU /\ verifyFn dom rch exU = true /\
  exists s, reaches exSem (fun _ => VInt 0) exU 0%nat s /\ readsUnset exSem (fun _ => VInt 0) exU s.
Proof.
  exists (domb exU), (rchb exU). split; [|split].
  - apply domb_ok; [|discriminate]. assert (W : wf exU) by (apply wfb_ok; vm_compute; reflexivity). apply W.
  - vm_compute. reflexivity.
  - exists (St 1%nat (Some 0%nat) (fun _ => None) 0%nat). split.
    + exists 1%nat, []. reflexivity.
    + exists (Block [Phi 11 [(0, ORes 10); (2, ORes 10)]] [] (TRet (Some (ORes 11))))%nat. split; [reflexivity|]. left.
      exists 0%nat, (Phi 11 [(0, ORes 10); (2, ORes 10)])%nat. split; [reflexivity|]. split; [now left|].
      right. exists (ORes 10). split; reflexivity.
Qed.
(** ... and what can go wrong is found: reading a value of the other arm is rejected *)
Definition exBad : func :=
  [(0, Block [] [] (TCond (OArg 0) 1 2));
   (1, Block [] [Inst 10 4 [OArg 0; OCst (VInt 1)]] (TBr 3));
   (2, Block [] [] (TBr 3));
   (3, Block [] [] (TRet (Some (ORes 10))))]%nat.
Example exBad_rejected : verifyFn (domb exBad) (rchb exBad) exBad = false.
Proof. vm_compute. reflexivity. Qed.
