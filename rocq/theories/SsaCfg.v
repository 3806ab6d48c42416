(** Control-flow clean-up passes on the SSA representation. *)
From Coq Require Import ZArith Lia Bool List Arith.
From Verif Require Import Sim Ssa.
Import ListNotations.

(** ** the passes *)

Definition onBlock (b : nat) (h : block -> block) (f : func) : func :=
  map (fun x => (fst x, (fun k bk => if Nat.eqb k b then h bk else bk) (fst x) (snd x))) f.
(** pop_back of the old terminator and insertion of a new one *)
Definition setTerm (t : term) (bk : block) : block := Block (phis bk) (body bk) t.

(** cmmc/IR/Instruction.cpp:917-926 PhiInst::removeSource *)
Definition removeSource (b : nat) (ph : phi) : phi :=
  Phi (pdst ph) (filter (fun x => negb (Nat.eqb (fst x) b)) (inc ph)).
Definition hasSource (b : nat) (ph : phi) : bool := match get b (inc ph) with Some _ => true | None => false end.
(** cmmc/Transforms/Util/BlockUtil.cpp:228-240 removePhi: stops at the first phi without the source *)
Fixpoint removePhis (b : nat) (l : list phi) : list phi :=
  match l with
  | [] => []
  | ph :: l' => if hasSource b ph then removeSource b ph :: removePhis b l' else ph :: l'
  end.
Definition removePhi (b : nat) (bk : block) : block := Block (removePhis b (phis bk)) (body bk) (trm bk).

(** cmmc/Transforms/ControlFlow/SimplifyBranch.cpp:48-66, one block.  uint_ matches integer constants; its value is
    non-zero exactly if the constant is *)
Definition simplifyBranch1 (f : func) (b : nat) : func :=
  match get b f with
  | Some bk =>
    match trm bk with
    | TCond (OCst (VInt z)) t e =>
      let keep := if Z.eqb z 0 then e else t in
      let drop := if Z.eqb z 0 then t else e in
      let f1 := onBlock b (setTerm (TBr keep)) f in
      if Nat.eqb t e then f1 else onBlock drop (removePhi b) f1
    | _ => f
    end
  | None => f
  end.
Definition simplifyBranch (f : func) : func := fold_left simplifyBranch1 (map fst f) f.

(** cmmc/Transforms/ControlFlow/MergeBranch.cpp:43-60, one block (targets with a native select only) *)
Definition mergeBranch1 (f : func) (b : nat) : func :=
  match get b f with
  | Some bk =>
    match trm bk with
    | TCond _ t e => if Nat.eqb t e then onBlock b (setTerm (TBr t)) f else f
    | _ => f
    end
  | None => f
  end.
Definition mergeBranch (f : func) : func := fold_left mergeBranch1 (map fst f) f.

(** cmmc/Transforms/ControlFlow/SimplifyPartialUnreachableBranch.cpp:46-48 isUnreachablePath *)
Definition isUnreachablePath (f : func) (b : nat) : bool :=
  match get b f with Some (Block [] [] TUnreach) => true | _ => false end.
(** lines 53-78, one block *)
Definition simplifyPartial1 (f : func) (b : nat) : func :=
  match get b f with
  | Some bk =>
    match trm bk with
    | TCond _ t e =>
      let tu := isUnreachablePath f t in
      let eu := isUnreachablePath f e in
      if negb tu && negb eu then f
      else if negb (Bool.eqb tu eu) then onBlock b (setTerm (TBr (if eu then t else e))) f
      else onBlock b (setTerm TUnreach) f
    | _ => f
    end
  | None => f
  end.
Definition simplifyPartial (f : func) : func := fold_left simplifyPartial1 (map fst f) f.

(** cmmc/Transforms/DCE/UnreachableEliminate.cpp:33-41: erases everything before the terminator, phis and calls too *)
Definition unreachableEliminate (f : func) : func :=
  map (fun x => (fst x, match trm (snd x) with TUnreach => Block [] [] TUnreach | _ => snd x end)) f.

(** Value::replaceWith(make<UndefinedValue>) for the values in [xs], over the whole function *)
Definition undefO (xs : list nat) (o : opnd) : opnd :=
  match o with ORes x => if existsb (Nat.eqb x) xs then OCst VUndef else o | _ => o end.
(** substitution in operands, used for every replaceWith *)
Definition mapOps (h : opnd -> opnd) (bk : block) : block :=
  Block (map (fun ph => Phi (pdst ph) (map (fun x => (fst x, h (snd x))) (inc ph))) (phis bk))
        (map (fun i => Inst (dst i) (opc i) (map h (ops i))) (body bk))
        (match trm bk with
         | TCond c t e => TCond (h c) t e
         | TSwitch c cs d => TSwitch (h c) cs d
         | TRet (Some v) => TRet (Some (h v))
         | t => t
         end).
Definition subst (h : opnd -> opnd) (f : func) : func := map (fun x => (fst x, mapOps h (snd x))) f.

(** cmmc/Transforms/DCE/BlockEliminate.cpp:35-66: breadth-first search from the entry; [fuel] bounds the number of
    blocks taken from the queue ([reach_closed] shows that it suffices) *)
Fixpoint addSuccs (seen q : list nat) (l : list nat) : list nat * list nat :=
  match l with
  | [] => (seen, q)
  | b :: l' => if existsb (Nat.eqb b) seen then addSuccs seen q l' else addSuccs (b :: seen) (q ++ [b]) l'
  end.
Fixpoint bfs (f : func) (fuel : nat) (seen q : list nat) : list nat :=
  match fuel, q with
  | S n, u :: q' =>
    match get u f with
    | Some bk => let '(seen', q2) := addSuccs seen q' (succs (trm bk)) in bfs f n seen' q2
    | None => bfs f n seen q'
    end
  | _, _ => seen
  end.
Definition reachable (f : func) : list nat := bfs f (S (length f)) [entry f] [entry f].
Definition resultsOf (bk : block) : list nat := map pdst (phis bk) ++ map dst (body bk).
(** lines 68-110: drop the unreachable blocks, replace their results by undef, take them out of the phis *)
Definition blockEliminate (f : func) : func :=
  let r := reachable f in
  let keep b := existsb (Nat.eqb b) r in
  let removed := filter (fun x => negb (keep (fst x))) f in
  let kept := filter (fun x => keep (fst x)) f in
  let kept1 := subst (undefO (flat_map (fun x => resultsOf (snd x)) removed)) kept in
  fold_left (fun g x => fold_left (fun g' t => if keep t then onBlock t (removePhi (fst x)) g' else g') (succs (trm (snd x))) g)
            removed kept1.

(** cmmc/Transforms/DCE/NoReturnCallEliminate.cpp:37-62 *)
Section NoReturn.
Variable knd : nat -> kind.
Definition isNoReturn (o : nat) : bool := match knd o with KCall _ _ true => true | _ => false end.
Fixpoint splitCall (l : list inst) : option (list inst * list inst) :=
  match l with
  | [] => None
  | i :: l' => if isNoReturn (opc i) then Some ([i], l')
               else match splitCall l' with Some (a, c) => Some (i :: a, c) | None => None end
  end.
Definition noReturn1 (f : func) (b : nat) : func :=
  match get b f with
  | Some bk =>
    match splitCall (body bk) with
    | Some (a, c) =>
      let f1 := fold_left (fun g t => onBlock t (removePhi b) g) (nodup Nat.eq_dec (succs (trm bk))) f in
      let f2 := subst (undefO (map dst c)) f1 in
      onBlock b (fun bk' => Block (phis bk') (firstn (length a) (body bk')) TUnreach) f2
    | None => f
    end
  | None => f
  end.
Definition noReturnCallEliminate (f : func) : func := fold_left noReturn1 (map fst f) f.
End NoReturn.

(** ** proofs *)
Lemma get_onBlock b h f k : get k (onBlock b h f) = option_map (fun bk => if Nat.eqb k b then h bk else bk) (get k f).
Proof. unfold onBlock. now rewrite (get_mapk (fun k bk => if Nat.eqb k b then h bk else bk)). Qed.
Lemma entry_onBlock b h f : entry (onBlock b h f) = entry f.
Proof. apply entry_mapk. Qed.
Lemma get_subst h f k : get k (subst h f) = option_map (mapOps h) (get k f).
Proof. unfold subst. apply get_map. Qed.

Section Steps.
Context {W : Type} (m : sem W) (args : nat -> value).
Let step := step m args.

Lemma step_refinesAt f g (I : st -> Prop) w :
  entry f = entry g ->
  (forall s, I s -> safe (step f) s -> step f s = step g s) ->
  (forall s s' t, I s -> step f s = Go s' t -> I s') ->
  I (start f w) -> refinesAt (step f) (step g) (start f w) (start g w).
Proof.
  intros He Hs Hp Hi. unfold start in *. rewrite He in *.
  apply (sim_refines (step f) (step g) (fun a b => a = b /\ I a)); auto.
  intros s s' Hsafe [<- HI]. apply meets1. rewrite <- (Hs s HI Hsafe).
  destruct (step f s) as [s1 t1|r t1|t1] eqn:E1; auto.
  - repeat split; auto. eapply Hp; eauto.
  - apply (Hsafe 1%nat t1). cbn. rewrite E1. reflexivity.
Qed.

Lemma safe_step f s t : safe (step f) s -> step f s <> Bad t.
Proof. intros H E1. apply (H 1%nat t). cbn. now rewrite E1. Qed.
Lemma safe_next f s s' t : safe (step f) s -> step f s = Go s' t -> safe (step f) s'.
Proof. intros H E1. eapply (safe_go (step f) 1 s s' t); eauto. cbn. rewrite E1. cbn. now rewrite app_nil_r. Qed.

Lemma get_removeSource b p ph : p <> b -> get p (inc (removeSource b ph)) = get p (inc ph).
Proof.
  intros D. unfold removeSource. cbn. rewrite (get_filter (fun x => negb (Nat.eqb x b))).
  destruct (Nat.eqb_spec p b); [congruence|]. reflexivity.
Qed.
Lemma rdPhis_remove b p e l : p <> b -> rdPhis args e p (removePhis b l) = rdPhis args e p l.
Proof.
  intros D. induction l as [|ph l IH]; auto. cbn [removePhis].
  destruct (hasSource b ph); auto. cbn [rdPhis]. rewrite (get_removeSource b p ph D), IH. reflexivity.
Qed.
Lemma removePhis_nil b l : removePhis b l = [] <-> l = [].
Proof. destruct l as [|ph l]; cbn; [tauto|]. destruct (hasSource b ph); split; discriminate. Qed.
Lemma enter_remove b p e l : p <> Some b -> enter args e p (removePhis b l) = enter args e p l.
Proof.
  intros D. destruct p as [p|]; cbn.
  - rewrite rdPhis_remove by congruence. reflexivity.
  - destruct l as [|ph l]; auto. cbn. now destruct (hasSource b ph).
Qed.

Lemma step_inv f s s' t : step f s = Go s' t ->
  exists bk e1 e2 w, get (cur s) f = Some bk /\ enter args (en s) (prev s) (phis bk) = Some e1 /\
    runBody m args e1 (wd s) (body bk) = BGo e2 w t /\ runTerm args e2 (trm bk) = TGo (cur s') /\
    s' = St (cur s') (Some (cur s)) e2 w.
Proof.
  unfold step, Ssa.step, runBlock. destruct (get (cur s) f) as [bk|] eqn:E0; try discriminate.
  destruct (enter args (en s) (prev s) (phis bk)) as [e1|] eqn:E1; try discriminate.
  destruct (runBody m args e1 (wd s) (body bk)) as [e2 w t2|w t2|t2] eqn:E2; try discriminate.
  destruct (runTerm args e2 (trm bk)) as [b'|v|] eqn:E3; try discriminate.
  intros H. injection H as <- <-. cbn. exists bk, e1, e2, w. auto 6.
Qed.
Lemma runTerm_succs e t b : runTerm args e t = TGo b -> In b (succs t).
Proof.
  destruct t as [b0|c b0 b1|c cs d|[v|]|]; cbn; try discriminate.
  - intros H; injection H as <-; auto.
  - destruct (rd args e c) as [v|]; try discriminate. destruct (truth v) as [[|]|]; try discriminate;
      intros H; injection H as <-; auto.
  - destruct (rd args e c) as [[z|z|]|]; try discriminate. intros H; injection H as <-. clear.
    induction cs as [|[k b] cs IH]; cbn; auto. destruct (Z.eqb z k); auto. tauto.
  - destruct (rd args e v); discriminate.
Qed.
End Steps.

Lemma fold_refines k {A} (g : func -> A -> func) (l : list A) :
  (forall f a, refines k f (g f a)) -> forall f, refines k f (fold_left g l f).
Proof.
  intros H. induction l as [|a l IH]; intros f; cbn; [apply refines_refl|].
  eapply refines_trans; [apply H|apply IH].
Qed.

(** *** SimplifyBranch *)
Lemma simplifyBranch1_ok k f b : refines k f (simplifyBranch1 f b).
Proof.
  unfold simplifyBranch1. destruct (get b f) as [bk|] eqn:Eb; [|apply refines_refl].
  destruct (trm bk) as [|[[z| |]| |] t e| | |] eqn:Et; try apply refines_refl.
  set (keep := if Z.eqb z 0 then e else t). set (drop := if Z.eqb z 0 then t else e).
  set (f1 := onBlock b (setTerm (TBr keep)) f).
  assert (H1 : refines k f f1).
  { intros W m args w _. unfold f1. apply (step_refinesAt m args f _ (fun _ => True)); auto.
    - symmetry. apply entry_onBlock.
    - intros s _ Hs. pose proof (safe_step m args f s) as Hb. unfold step in *. rewrite get_onBlock.
      destruct (get (cur s) f) as [bk'|] eqn:Ec; [|reflexivity]. cbn.
      destruct (Nat.eqb_spec (cur s) b) as [Eq|]; auto. rewrite Eq in *. rewrite Eb in Ec. injection Ec as <-.
      unfold runBlock, setTerm. cbn [phis body trm]. rewrite Et.
      destruct (enter args (en s) (prev s) (phis bk)); auto.
      destruct (runBody m args e0 (wd s) (body bk)); auto. cbn. unfold keep. destruct (Z.eqb z 0); reflexivity. }
  fold f1. destruct (Nat.eqb_spec t e) as [|Dte]; auto.
  eapply refines_trans; [exact H1|].
  intros W m args w _.
  apply (step_refinesAt m args f1 _ (fun s => prev s = Some b -> cur s = keep)).
  - symmetry. apply entry_onBlock.
  - intros s HI _. unfold step. rewrite get_onBlock.
    destruct (get (cur s) f1) as [bk'|] eqn:Ec; auto. cbn.
    destruct (Nat.eqb_spec (cur s) drop) as [Eq|]; auto.
    unfold runBlock, removePhi. cbn [phis body trm]. rewrite enter_remove; auto.
    intros K. apply HI in K. unfold keep, drop in *. rewrite Eq in K. destruct (Z.eqb z 0); congruence.
  - intros s s' tr _ Hst Hp. destruct (step_inv m args f1 s s' tr Hst) as (bk' & e1 & e2 & w' & Hg & _ & _ & Ht & Hs').
    rewrite Hs' in Hp. cbn in Hp. injection Hp as Hp. rewrite Hp in Hg.
    unfold f1 in Hg. rewrite get_onBlock, Eb in Hg. cbn in Hg. rewrite Nat.eqb_refl in Hg. injection Hg as <-.
    cbn in Ht. congruence.
  - cbn. discriminate.
Qed.
Theorem simplifyBranch_ok k f : refines k f (simplifyBranch f).
Proof. apply fold_refines. apply simplifyBranch1_ok. Qed.

(** *** changing one terminator *)
Lemma setTerm_ok k f b t bk : get b f = Some bk ->
  (forall (W : Type) (m : sem W) args e s w tr, safe (step m args f) s -> cur s = b ->
      step m args f s = match runTerm args e (trm bk) with
                        | TGo b' => Go (St b' (Some b) e w) tr | TFin v => Fin (Ret v w) tr | TBad => Bad tr end ->
      runTerm args e (trm bk) = runTerm args e t) ->
  refines k f (onBlock b (setTerm t) f).
Proof.
  intros Eb H W m args w _. apply (step_refinesAt m args f _ (fun _ => True)); auto.
  - symmetry. apply entry_onBlock.
  - intros s _ Hs. pose proof (H W m args) as Hr. unfold step at 2. rewrite get_onBlock.
    unfold step in *. destruct (get (cur s) f) as [bk'|] eqn:Ec; [|reflexivity]. cbn.
    destruct (Nat.eqb_spec (cur s) b) as [Eq|]; auto. assert (bk' = bk) by congruence. subst bk'.
    unfold runBlock, setTerm in *. cbn [phis body trm].
    destruct (enter args (en s) (prev s) (phis bk)) as [e1|] eqn:E1; auto.
    destruct (runBody m args e1 (wd s) (body bk)) as [e2 w2 t2|w2 t2|t2] eqn:E2; auto.
    rewrite <- (Hr e2 s w2 t2 Hs Eq); auto.
    rewrite Ec, E1, E2, Eq. destruct (runTerm args e2 (trm bk)); reflexivity.
Qed.

Lemma mergeBranch1_ok k f b : refines k f (mergeBranch1 f b).
Proof.
  unfold mergeBranch1. destruct (get b f) as [bk|] eqn:Eb; [|apply refines_refl].
  destruct (trm bk) as [|c t e| | |] eqn:Et; try apply refines_refl.
  destruct (Nat.eqb_spec t e) as [->|]; [|apply refines_refl].
  apply setTerm_ok with (bk := bk); auto. intros W m args e0 s w tr Hs Hc Hst.
  pose proof (safe_step m args f s tr Hs) as Hb. rewrite Et in *. cbn in *.
  destruct (rd args e0 c) as [v|]; [|congruence]. destruct (truth v) as [[|]|]; congruence.
Qed.
Theorem mergeBranch_ok k f : refines k f (mergeBranch f).
Proof. apply fold_refines. apply mergeBranch1_ok. Qed.

Lemma unreachPath_bad {W} (m : sem W) args f s : isUnreachablePath f (cur s) = true -> ~ safe (step m args f) s.
Proof.
  unfold isUnreachablePath. destruct (get (cur s) f) as [[[|] [|] []]|] eqn:E1; try discriminate. intros _ Hs.
  assert (K : exists t, step m args f s = Bad t).
  { unfold step, runBlock. rewrite E1. cbn. destruct (prev s); cbn; eauto. }
  destruct K as [t K]. exact (safe_step m args f s t Hs K).
Qed.
Lemma simplifyPartial1_ok k f b : refines k f (simplifyPartial1 f b).
Proof.
  unfold simplifyPartial1. destruct (get b f) as [bk|] eqn:Eb; [|apply refines_refl].
  destruct (trm bk) as [|c t e| | |] eqn:Et; try apply refines_refl.
  destruct (isUnreachablePath f t) eqn:Ut, (isUnreachablePath f e) eqn:Ue; cbn; try apply refines_refl.
  all: apply setTerm_ok with (bk := bk); auto; intros W m args e0 s w tr Hs Hc Hst.
  all: pose proof (safe_step m args f s tr Hs) as Hb; rewrite Et in *; cbn in *.
  all: destruct (rd args e0 c) as [v|]; [|congruence].
  all: destruct (truth v) as [[|]|]; try congruence; auto.
  all: exfalso; eapply unreachPath_bad; [|eapply safe_next; [exact Hs|exact Hst]]; assumption.
Qed.
Theorem simplifyPartial_ok k f : refines k f (simplifyPartial f).
Proof. apply fold_refines. apply simplifyPartial1_ok. Qed.

(** *** UnreachableEliminate: sound as long as no run ends inside a call *)
Lemma unreachableEliminate_at {W} (m : sem W) args f w :
  (forall o a w1 w2, meaning m o a w1 <> IHalt w2) ->
  refinesAt (step m args f) (step m args (unreachableEliminate f)) (start f w) (start (unreachableEliminate f) w).
Proof.
  intros Hh. apply (step_refinesAt m args f _ (fun _ => True)); auto.
  - destruct f as [|[b k] f]; reflexivity.
  - intros s _ Hs. pose proof (safe_step m args f s) as Hb. unfold step in *. unfold unreachableEliminate.
    rewrite (get_map (fun bk => match trm bk with TUnreach => Block [] [] TUnreach | _ => bk end)).
    destruct (get (cur s) f) as [bk|] eqn:Ec; [|reflexivity]. cbn.
    destruct (trm bk) eqn:Et; auto. exfalso.
    assert (K : exists t, runBlock m args (cur s) bk (prev s) (en s) (wd s) = Bad t).
    { unfold runBlock. destruct (enter args (en s) (prev s) (phis bk)) as [e1|]; eauto. rewrite Et. clear - Hh.
      assert (K : forall l e w, (exists e' w' t', runBody m args e w l = BGo e' w' t') \/ exists t', runBody m args e w l = BBad t').
      { induction l as [|i l IH]; intros e w; cbn; eauto. destruct (rds args e (ops i)) as [vs|]; eauto.
        destruct (meaning m (opc i) vs w) as [v w'|w'|] eqn:E1; eauto.
        - destruct (IH (upd e (dst i) v) w') as [(a & b & t & ->)|(t & ->)]; cbn; eauto.
        - exfalso. exact (Hh _ _ _ _ E1). }
      destruct (K (body bk) e1 (wd s)) as [(a & b & t & ->)|(t & ->)]; cbn; eauto. }
    destruct K as [t K]. apply (Hb t Hs). exact K.
Qed.

(** ** well-formedness used below (cmmc/IR/Function.cpp:138-204 Function::verify): block names and results are unique,
    branch targets exist *)
Definition allResults (f : func) : list nat := flat_map (fun x => resultsOf (snd x)) f.
Definition closed (f : func) : Prop :=
  forall b bk t, get b f = Some bk -> In t (succs (trm bk)) -> In t (map fst f).
Definition uniqueDefs (f : func) : Prop := NoDup (map fst f) /\ NoDup (allResults f).

Lemma NoDup_app_disj {A} (l1 l2 : list A) : NoDup (l1 ++ l2) -> forall x, In x l1 -> In x l2 -> False.
Proof.
  induction l1 as [|a l1 IH]; cbn; intros N x H1 H2; [tauto|]. inversion N as [|? ? N1 N2]; subst.
  destruct H1 as [<-|H1]; [|eauto]. apply N1. apply in_or_app. auto.
Qed.
(** a result belongs to one block *)
Lemma results_unique f b1 k1 b2 k2 x : uniqueDefs f -> get b1 f = Some k1 -> get b2 f = Some k2 ->
  In x (resultsOf k1) -> In x (resultsOf k2) -> b1 = b2.
Proof.
  intros [_ N] H1 H2 X1 X2. apply get_In in H1, H2. unfold allResults in N.
  induction f as [|[b k] f IH]; [contradiction|]. cbn in N.
  destruct H1 as [H1|H1], H2 as [H2|H2].
  - congruence.
  - injection H1 as <- <-. exfalso. apply (NoDup_app_disj _ _ N x X1). apply in_flat_map. exists (b2, k2). auto.
  - injection H2 as <- <-. exfalso. apply (NoDup_app_disj _ _ N x X2). apply in_flat_map. exists (b1, k1). auto.
  - apply IH; auto. clear - N. induction (resultsOf k); cbn in N; auto. inversion N; auto.
Qed.

Section Env.
Context {W : Type} (m : sem W) (args : nat -> value).

Lemma upd_ne e x y v : y <> x -> upd e x v y = e y.
Proof. unfold upd. destruct (Nat.eqb_spec y x); congruence. Qed.
Lemma upd_eq e x v : upd e x v x = Some v.
Proof. unfold upd. now rewrite Nat.eqb_refl. Qed.
Lemma updAll_ne l : forall e y, ~ In y (map fst l) -> updAll e l y = e y.
Proof using.
  clear m args.
  induction l as [|[x v] l IH]; intros e y H; cbn in *; auto. unfold updAll in IH. rewrite IH; [|tauto].
  apply upd_ne. intros ->. tauto.
Qed.
Lemma rdPhis_fst e p l vs : rdPhis args e p l = Some vs -> map fst vs = map pdst l.
Proof.
  revert vs; induction l as [|ph l IH]; cbn; intros vs H.
  - injection H as <-. reflexivity.
  - destruct (get p (inc ph)) as [o|]; try discriminate. destruct (rd args e o) as [v|]; try discriminate.
    destruct (rdPhis args e p l) as [vs'|]; try discriminate. injection H as <-. cbn. f_equal. auto.
Qed.
Lemma enter_ne e p l e1 y : enter args e p l = Some e1 -> ~ In y (map pdst l) -> e1 y = e y.
Proof.
  unfold enter. destruct p as [p|].
  - destruct (rdPhis args e p l) as [vs|] eqn:E1; cbn; try discriminate. intros H Hy. injection H as <-.
    apply updAll_ne. now rewrite (rdPhis_fst _ _ _ _ E1).
  - destruct l; try discriminate. congruence.
Qed.
Lemma runBody_ne l : forall e w e' w' t y, runBody m args e w l = BGo e' w' t -> ~ In y (map dst l) -> e' y = e y.
Proof.
  induction l as [|i l IH]; cbn; intros e w e' w' t y H Hy.
  - congruence.
  - destruct (rds args e (ops i)) as [vs|]; try discriminate.
    destruct (meaning m (opc i) vs w) as [v w1|w1|]; try discriminate.
    destruct (runBody m args (upd e (dst i) v) w1 l) as [e2 w2 t2|w2 t2|t2] eqn:E1; try discriminate.
    cbn in H. injection H as <- <- <-. rewrite (IH _ _ _ _ _ y E1); [|tauto]. apply upd_ne. intros ->. tauto.
Qed.
Lemma step_ne f s s' t bk y : step m args f s = Go s' t -> get (cur s) f = Some bk -> ~ In y (resultsOf bk) -> en s' y = en s y.
Proof.
  intros H Hg Hy. destruct (step_inv m args f s s' t H) as (bk' & e1 & e2 & w & Hg' & He & Hb & _ & ->). cbn.
  rewrite Hg in Hg'. injection Hg' as <-. unfold resultsOf in Hy.
  rewrite (runBody_ne _ _ _ _ _ _ y Hb); [|intros K; apply Hy; apply in_or_app; auto].
  apply (enter_ne _ _ _ _ y He). intros K; apply Hy; apply in_or_app; auto.
Qed.

(** replacing operands: [h] keeps the value of every operand that has one, in the environments [J] *)
Variable h : opnd -> opnd.
Definition keeps (e : env) : Prop := forall o v, rd args e o = Some v -> rd args e (h o) = Some v.
Lemma rds_keeps e l vs : keeps e -> rds args e l = Some vs -> rds args e (map h l) = Some vs.
Proof.
  intros K. revert vs; induction l as [|o l IH]; cbn; intros vs H; auto.
  destruct (rd args e o) as [v|] eqn:E1; try discriminate. destruct (rds args e l) as [vs'|]; try discriminate.
  rewrite (K _ _ E1), (IH vs' eq_refl). exact H.
Qed.
Lemma rdPhis_keeps e p l vs : keeps e -> rdPhis args e p l = Some vs ->
  rdPhis args e p (map (fun ph => Phi (pdst ph) (map (fun x => (fst x, h (snd x))) (inc ph))) l) = Some vs.
Proof.
  intros K. revert vs; induction l as [|ph l IH]; cbn; intros vs H; auto.
  rewrite get_map. destruct (get p (inc ph)) as [o|]; try discriminate. cbn.
  destruct (rd args e o) as [v|] eqn:E1; try discriminate. destruct (rdPhis args e p l) as [vs'|]; try discriminate.
  rewrite (K _ _ E1), (IH vs' eq_refl). exact H.
Qed.
Lemma enter_keeps e p l e1 : keeps e -> enter args e p l = Some e1 ->
  enter args e p (map (fun ph => Phi (pdst ph) (map (fun x => (fst x, h (snd x))) (inc ph))) l) = Some e1.
Proof.
  intros K. unfold enter. destruct p as [p|].
  - destruct (rdPhis args e p l) as [vs|] eqn:E1; cbn; try discriminate. intros H.
    rewrite (rdPhis_keeps _ _ _ _ K E1). exact H.
  - destruct l; auto.
Qed.
Lemma runTerm_keeps e t : keeps e -> runTerm args e t <> TBad -> runTerm args e (trm (mapOps h (Block [] [] t))) = runTerm args e t.
Proof.
  intros K. destruct t as [b|c a b|c cs d|[v|]|]; cbn; auto.
  - destruct (rd args e c) as [v|] eqn:E1; [|congruence]. now rewrite (K _ _ E1).
  - destruct (rd args e c) as [v|] eqn:E1; [|congruence]. now rewrite (K _ _ E1).
  - destruct (rd args e v) as [x|] eqn:E1; [|congruence]. now rewrite (K _ _ E1).
Qed.
End Env.

(** replacing operands in a whole block: [J] holds of the environment at every point of the block *)
Lemma runBody_keeps {W} (m : sem W) args h (J : env -> Prop) l :
  (forall e, J e -> keeps args h e) -> forall e w,
  (forall e i v, J e -> In i l -> J (upd e (dst i) v)) -> J e ->
  (forall t, runBody m args e w l <> BBad t) ->
  runBody m args e w (map (fun i => Inst (dst i) (opc i) (map h (ops i))) l) = runBody m args e w l.
Proof.
  intros HJ. induction l as [|i l IH]; intros e w Hu He Hb; auto. cbn in *.
  destruct (rds args e (ops i)) as [vs|] eqn:E1; [|exfalso; eapply Hb; eauto].
  rewrite (rds_keeps args h e (ops i) vs (HJ e He) E1).
  destruct (meaning m (opc i) vs w) as [v w1|w1|]; auto.
  rewrite (IH (upd e (dst i) v) w1); auto.
  intros t Ht. apply (Hb (evt m (opc i) vs w ++ t)). rewrite Ht. reflexivity.
Qed.
Lemma block_keeps {W} (m : sem W) args h (J : env -> Prop) b bk p e w :
  (forall e, J e -> keeps args h e) ->
  (forall e x v, J e -> In x (resultsOf bk) -> J (upd e x v)) -> J e ->
  (forall t, runBlock m args b bk p e w <> Bad t) ->
  runBlock m args b (mapOps h bk) p e w = runBlock m args b bk p e w.
Proof.
  intros HJ Hu He Hb. unfold runBlock in *. cbn [phis body mapOps].
  destruct (enter args e p (phis bk)) as [e1|] eqn:E1; [|exfalso; eapply Hb; eauto].
  rewrite (enter_keeps args h e p (phis bk) e1 (HJ e He) E1).
  assert (J1 : J e1).
  { unfold enter in E1. destruct p as [p|].
    - destruct (rdPhis args e p (phis bk)) as [vs|] eqn:E2; cbn in E1; try discriminate. injection E1 as <-.
      assert (K : forall x, In x (map fst vs) -> In x (resultsOf bk)).
      { intros x Hx. rewrite (rdPhis_fst _ _ _ _ _ E2) in Hx. apply in_or_app. auto. }
      clear E2 Hb. revert e He K. induction vs as [|[x v] vs IH]; intros e He K; cbn; auto.
      apply IH; [apply Hu; [exact He|apply K; cbn; auto]|]. intros y Hy. apply K. cbn. auto.
    - destruct (phis bk); congruence. }
  rewrite (runBody_keeps m args h J (body bk) HJ e1 w); auto.
  - destruct (runBody m args e1 w (body bk)) as [e2 w2 t2|w2 t2|t2] eqn:E2; auto.
    assert (J2 : J e2).
    { assert (K : forall i, In i (body bk) -> In (dst i) (resultsOf bk)).
      { intros i Hi. apply in_or_app. right. now apply in_map. }
      clear - E2 J1 Hu K. revert e1 w t2 E2 J1. induction (body bk) as [|i l IH]; cbn; intros e1 w t2 E2 J1.
      - congruence.
      - destruct (rds args e1 (ops i)); try discriminate. destruct (meaning m (opc i) l0 w); try discriminate.
        destruct (runBody m args (upd e1 (dst i) v) w0 l) eqn:E3; try discriminate. cbn in E2. injection E2 as <- <- <-.
        eapply IH; [| exact E3 |]; auto. intros j Hj. apply K. cbn; auto. apply Hu; auto. apply K. cbn; auto. }
    replace (trm (mapOps h bk)) with (trm (mapOps h (Block [] [] (trm bk)))) by reflexivity.
    rewrite (runTerm_keeps args h e2 (trm bk) (HJ e2 J2)); auto.
    intros K. rewrite K in Hb. exact (Hb t2 eq_refl).
  - intros e' i v He' Hi. apply Hu; auto. apply in_or_app. right. now apply in_map.
  - intros t Ht. rewrite Ht in Hb. exact (Hb t eq_refl).
Qed.

(** *** values that are never computed may be replaced by undef *)
Lemma undefO_keeps args xs e : (forall x, In x xs -> e x = None) -> keeps args (undefO xs) e.
Proof.
  intros H o v Hv. destruct o as [c|n|x]; cbn in *; auto.
  destruct (existsb (Nat.eqb x) xs) eqn:E1; auto. apply existsb_exists in E1 as (y & Hy & Ey).
  apply Nat.eqb_eq in Ey. subst y. rewrite (H x Hy) in Hv. discriminate.
Qed.

Lemma removePhi_absent k f b t : get b f = None -> refines k f (onBlock t (removePhi b) f).
Proof.
  intros Hb W m args w _. apply (step_refinesAt m args f _ (fun s => prev s <> Some b)).
  - symmetry. apply entry_onBlock.
  - intros s HI _. unfold step. rewrite get_onBlock. destruct (get (cur s) f) as [bk|]; auto. cbn.
    destruct (Nat.eqb (cur s) t); auto. unfold runBlock, removePhi. cbn [phis body trm]. now rewrite enter_remove.
  - intros s s' tr _ Hst Hp. destruct (step_inv m args f s s' tr Hst) as (bk' & e1 & e2 & w' & Hg & _ & _ & Ht & Hs').
    rewrite Hs' in Hp. cbn in Hp. congruence.
  - cbn. discriminate.
Qed.

(** *** the search finds every reachable block *)
Lemma existsb_In b l : existsb (Nat.eqb b) l = true <-> In b l.
Proof.
  rewrite existsb_exists. split.
  - intros (x & Hx & E1). apply Nat.eqb_eq in E1. now subst.
  - intros H. exists b. split; auto. apply Nat.eqb_refl.
Qed.
Lemma existsb_nIn b l : existsb (Nat.eqb b) l = false <-> ~ In b l.
Proof. rewrite <- existsb_In. destruct (existsb (Nat.eqb b) l); split; congruence. Qed.

Definition unseen (f : func) (seen : list nat) : nat :=
  length (filter (fun b => negb (existsb (Nat.eqb b) seen)) (map fst f)).
Lemma unseen_cons f seen b : In b (map fst f) -> ~ In b seen -> (unseen f (b :: seen) < unseen f seen)%nat.
Proof.
  unfold unseen. induction (map fst f) as [|a l IH]; [contradiction|]. intros Hi Hs.
  assert (Hle : forall l', (length (filter (fun c => negb (existsb (Nat.eqb c) (b :: seen))) l') <=
                       length (filter (fun c => negb (existsb (Nat.eqb c) seen)) l'))%nat).
  { induction l' as [|c l' IH']; cbn; auto. cbn in IH'. destruct (Nat.eqb c b); cbn; destruct (existsb (Nat.eqb c) seen); cbn; lia. }
  destruct (Nat.eq_dec a b) as [->|D].
  - cbn. rewrite Nat.eqb_refl. cbn. rewrite (proj2 (existsb_nIn b seen) Hs). cbn. specialize (Hle l). cbn in Hle. lia.
  - destruct Hi as [Hi|Hi]; [congruence|]. specialize (IH Hi Hs). cbn in *.
    rewrite (proj2 (Nat.eqb_neq a b) D). cbn. destruct (existsb (Nat.eqb a) seen); cbn; lia.
Qed.
Lemma addSuccs_spec f l : forall seen q seen' q', (forall b, In b l -> In b (map fst f)) ->
  addSuccs seen q l = (seen', q') ->
  (forall b, In b seen -> In b seen') /\ (forall b, In b l -> In b seen') /\
  (forall b, In b q -> In b q') /\
  (forall b, In b seen' -> In b seen \/ In b q') /\
  (length q' + unseen f seen' <= length q + unseen f seen)%nat.
Proof.
  induction l as [|a l IH]; intros seen q seen' q' Hl H; cbn in H.
  - injection H as <- <-. repeat split; auto. contradiction.
  - destruct (existsb (Nat.eqb a) seen) eqn:E1.
    + destruct (IH seen q seen' q') as (A & B & C & D & E); auto. { intros b Hb; apply Hl; now right. }
      repeat split; auto. intros b [<-|Hb]; auto. apply A. now apply existsb_In.
    + destruct (IH (a :: seen) (q ++ [a]) seen' q') as (A & B & C & D & E); auto. { intros b Hb; apply Hl; now right. }
      repeat split.
      * intros b Hb. apply A. now right.
      * intros b [<-|Hb]; auto. apply A. now left.
      * intros b Hb. apply C. apply in_or_app. auto.
      * intros b Hb. destruct (D b Hb) as [[<-|K]|K]; auto. right. apply C. apply in_or_app. right. now left.
      * rewrite app_length in E. cbn in E. pose proof (unseen_cons f seen a (Hl a (or_introl eq_refl)) (proj1 (existsb_nIn a seen) E1)). lia.
Qed.
Lemma bfs_closed f : closed f -> forall fuel seen q,
  (length q + unseen f seen <= fuel)%nat ->
  (forall u bk t, In u seen -> get u f = Some bk -> In t (succs (trm bk)) -> In u q \/ In t seen) ->
  let r := bfs f fuel seen q in
  (forall b, In b seen -> In b r) /\
  (forall u bk t, In u r -> get u f = Some bk -> In t (succs (trm bk)) -> In t r).
Proof.
  intros Hc. induction fuel as [|n IH]; intros seen q Hf Hi; cbn.
  - destruct q; cbn in Hf; [|lia]. split; auto. intros u bk t Hu Hg Ht. destruct (Hi u bk t Hu Hg Ht) as [[]|]; auto.
  - destruct q as [|u q]; [split; auto; intros u bk t Hu Hg Ht; destruct (Hi u bk t Hu Hg Ht) as [[]|]; auto|].
    cbn in Hf. destruct (get u f) as [bk|] eqn:Eu.
    + destruct (addSuccs seen q (succs (trm bk))) as [seen' q2] eqn:Ea.
      destruct (addSuccs_spec f _ seen q seen' q2 (fun b Hb => Hc u bk b Eu Hb) Ea) as (A & B & C & D & E).
      destruct (IH seen' q2) as [P Q]; [lia| |].
      * intros v bk' t Hv Hg Ht. destruct (D v Hv) as [K|K]; auto.
        destruct (Hi v bk' t K Hg Ht) as [[<-|L]|L]; auto.
        right. apply B. rewrite Eu in Hg. injection Hg as <-. exact Ht.
      * split; auto.
    + apply IH; [lia|]. intros v bk' t Hv Hg Ht. destruct (Hi v bk' t Hv Hg Ht) as [[<-|L]|L]; auto. congruence.
Qed.
Lemma reachable_closed f : closed f -> f <> [] ->
  In (entry f) (reachable f) /\
  forall u bk t, In u (reachable f) -> get u f = Some bk -> In t (succs (trm bk)) -> In t (reachable f).
Proof.
  intros Hc Hn. destruct (bfs_closed f Hc (S (length f)) [entry f] [entry f]) as [A B].
  - destruct f as [|[b k] f]; [congruence|]. pose proof (unseen_cons ((b, k) :: f) [] b) as H. cbn in H.
    assert (unseen ((b, k) :: f) [] = S (length f)).
    { unfold unseen. cbn. f_equal. clear. induction f as [|[c k'] f IH]; cbn; congruence. }
    cbn. specialize (H (or_introl eq_refl) (fun x => x)). cbn in *. lia.
  - intros u bk t [<-|[]] _ _. left. now left.
  - split; auto. apply A. now left.
Qed.

(** *** BlockEliminate *)
Lemma entry_filter (q : nat -> bool) f : f <> [] -> q (entry f) = true -> entry (filter (fun x => q (fst x)) f) = entry f.
Proof. destruct f as [|[b k] f]; [congruence|]. cbn. intros _ ->. reflexivity. Qed.

Lemma dropAll_ok k (keep : nat -> bool) removed : forall g, (forall b bk, In (b, bk) removed -> get b g = None) ->
  refines k g (fold_left (fun g x => fold_left (fun g' t => if keep t then onBlock t (removePhi (fst x)) g' else g')
                                              (succs (trm (snd x))) g) removed g).
Proof.
  induction removed as [|[b bk] l IH]; intros g Hg; [apply refines_refl|].
  cbn [fold_left fst snd].
  set (g1 := fold_left (fun (g' : func) t => if keep t then onBlock t (removePhi b) g' else g') (succs (trm bk)) g).
  assert (H1 : refines k g g1 /\ forall c, get c g = None -> get c g1 = None).
  { unfold g1. specialize (Hg b bk (or_introl eq_refl)). clear - Hg. revert g Hg.
    induction (succs (trm bk)) as [|t l IH]; intros g Hg; cbn; [split; auto; apply refines_refl|].
    destruct (keep t).
    - destruct (IH (onBlock t (removePhi b) g)) as [A B]; [rewrite get_onBlock, Hg; reflexivity|]. split.
      + eapply refines_trans; [apply removePhi_absent; exact Hg|exact A].
      + intros c Hcn. apply B. rewrite get_onBlock, Hcn. reflexivity.
    - apply IH; auto. }
  destruct H1 as [A B]. eapply refines_trans; [exact A|]. apply IH. intros b' bk' H. apply B. eapply Hg. right. exact H.
Qed.

Theorem blockEliminate_ok k f : closed f -> uniqueDefs f -> f <> [] -> refines k f (blockEliminate f).
Proof.
  intros Hc Hu Hn. unfold blockEliminate.
  destruct (reachable_closed f Hc Hn) as [Hr Hr2].
  set (r := reachable f) in *. set (keep := fun b => existsb (Nat.eqb b) r).
  set (removed := filter (fun x => negb (keep (fst x))) f).
  set (xs := flat_map (fun x => resultsOf (snd x)) removed).
  set (kept := filter (fun x => keep (fst x)) f).
  assert (Hgk : forall b, get b kept = if keep b then get b f else None) by (intros; apply get_filter).
  assert (Hent : keep (entry f) = true) by (apply existsb_In; exact Hr).
  eapply refines_trans with (g := subst (undefO xs) kept).
  - intros W m args w _.
    assert (Hxs : forall b bk x, keep b = true -> get b f = Some bk -> In x (resultsOf bk) -> ~ In x xs).
    { intros b bk x Hb Hg Hx Hin. apply in_flat_map in Hin as ([b' bk'] & Hin & Hx'). apply filter_In in Hin as [Hin Hk'].
      cbn in *. assert (b = b').
      { eapply results_unique with (f := f); eauto. apply In_get; auto. apply Hu. }
      subst b'. rewrite Hb in Hk'. discriminate. }
    apply (step_refinesAt m args f _ (fun s => In (cur s) r /\ forall x, In x xs -> en s x = None)).
    + unfold subst. rewrite <- (entry_filter keep f Hn Hent). fold kept. clear. destruct kept as [|[b k] g]; reflexivity.
    + intros s [Hcur Hen] Hs. pose proof (fun t => safe_step m args f s t Hs) as Hb. unfold step in *.
      rewrite get_subst, Hgk. unfold keep. rewrite (proj2 (existsb_In _ _) Hcur).
      destruct (get (cur s) f) as [bk|] eqn:Eg; auto. cbn. symmetry.
      apply block_keeps with (J := fun e => forall x, In x xs -> e x = None); auto.
      * intros e. apply undefO_keeps.
      * intros e x v He Hx y Hy. rewrite upd_ne; auto. intros ->.
        apply (Hxs (cur s) bk x); auto. now apply existsb_In.
    + intros s s' t [Hcur Hen] Hst. split.
      * destruct (step_inv m args f s s' t Hst) as (bk & e1 & e2 & w' & Hg & _ & _ & Ht & _).
        eapply Hr2; eauto. eapply runTerm_succs; eauto.
      * intros x Hx. destruct (step_inv m args f s s' t Hst) as (bk & _ & _ & _ & Hg & _).
        rewrite (step_ne m args f s s' t bk x Hst Hg); auto. intros K. apply (Hxs (cur s) bk x); auto. now apply existsb_In.
    + split; auto.
  - assert (Habs : forall b bk, In (b, bk) removed -> get b (subst (undefO xs) kept) = None).
    { intros b bk H. apply filter_In in H as [_ H]. cbn [fst] in H. apply negb_true_iff in H. rewrite get_subst, Hgk, H. reflexivity. }
    apply (dropAll_ok k keep removed). exact Habs.
Qed.

(** *** NoReturnCallEliminate *)
Lemma splitCall_app knd l a c : splitCall knd l = Some (a, c) -> l = a ++ c.
Proof.
  revert a c; induction l as [|i l IH]; cbn; intros a c H; try discriminate.
  destruct (isNoReturn knd (opc i)).
  - injection H as <- <-. reflexivity.
  - destruct (splitCall knd l) as [[a' c']|]; try discriminate. injection H as <- <-. cbn. f_equal. auto.
Qed.
Lemma splitCall_run {W} (m : sem W) args knd l : okSem knd m -> forall a c, splitCall knd l = Some (a, c) -> forall e w,
  runBody m args e w l = runBody m args e w a /\ (forall e' w' t, runBody m args e w l <> BGo e' w' t).
Proof.
  intros (_ & _ & _ & _ & _ & _ & _ & Hnr & _).
  induction l as [|i l IH]; cbn; intros a c H e w; try discriminate.
  destruct (isNoReturn knd (opc i)) eqn:En.
  - injection H as <- <-. cbn. destruct (rds args e (ops i)) as [vs|]; [|split; congruence].
    unfold isNoReturn in En. destruct (knd (opc i)) as [| | | | |ns st [|]] eqn:Ek; try discriminate.
    specialize (Hnr _ _ _ Ek vs w). destruct (meaning m (opc i) vs w); split; try congruence; exfalso; eapply Hnr; eauto.
  - destruct (splitCall knd l) as [[a' c']|] eqn:Es; try discriminate. injection H as <- <-. cbn.
    destruct (rds args e (ops i)) as [vs|]; [|split; congruence].
    destruct (meaning m (opc i) vs w) as [v w1|w1|]; [|split; congruence|split; congruence].
    destruct (IH a' c' eq_refl (upd e (dst i) v) w1) as [A B]. rewrite A in *. split; auto.
    intros e' w' t H. destruct (runBody m args (upd e (dst i) v) w1 a') eqn:E1; cbn in H; try discriminate.
    eapply B; eauto.
Qed.
Lemma blocked {W} (m : sem W) args knd f b bk : okSem knd m -> get b f = Some bk -> splitCall knd (body bk) <> None ->
  forall s s' t, step m args f s = Go s' t -> cur s <> b.
Proof.
  intros Hk Hg Hs s s' t Hst Hc. destruct (step_inv m args f s s' t Hst) as (bk' & e1 & e2 & w & Hg' & _ & Hb & _).
  rewrite Hc, Hg in Hg'. injection Hg' as <-. destruct (splitCall knd (body bk)) as [[a c]|] eqn:E1; [|congruence].
  exact (proj2 (splitCall_run m args knd _ Hk a c E1 e1 (wd s)) _ _ _ Hb).
Qed.
Lemma removePhi_blocked knd f b t bk : get b f = Some bk -> splitCall knd (body bk) <> None ->
  refines knd f (onBlock t (removePhi b) f).
Proof.
  intros Hb Hsp W m args w Hk. apply (step_refinesAt m args f _ (fun s => prev s <> Some b)).
  - symmetry. apply entry_onBlock.
  - intros s HI _. unfold step. rewrite get_onBlock. destruct (get (cur s) f) as [bk'|]; auto. cbn.
    destruct (Nat.eqb (cur s) t); auto. unfold runBlock, removePhi. cbn [phis body trm]. now rewrite enter_remove.
  - intros s s' tr _ Hst Hp. pose proof (blocked m args knd f b bk Hk Hb Hsp s s' tr Hst) as Hc.
    destruct (step_inv m args f s s' tr Hst) as (bk' & e1 & e2 & w' & Hg & _ & _ & Ht & Hs').
    rewrite Hs' in Hp. cbn in Hp. congruence.
  - cbn. discriminate.
Qed.
Lemma removePhis_pdst b l : map pdst (removePhis b l) = map pdst l.
Proof. induction l as [|ph l IH]; cbn; auto. destruct (hasSource b ph); cbn; congruence. Qed.
Lemma uniqueDefs_same f g : map fst f = map fst g -> allResults f = allResults g -> uniqueDefs f -> uniqueDefs g.
Proof. intros A B [C D]. split; congruence. Qed.
Lemma fst_mapk (h : nat -> block -> block) (f : func) : map fst (map (fun x => (fst x, h (fst x) (snd x))) f) = map fst f.
Proof. rewrite map_map. reflexivity. Qed.
Lemma allResults_mapk (h : nat -> block -> block) f : (forall b bk, resultsOf (h b bk) = resultsOf bk) ->
  allResults (map (fun x => (fst x, h (fst x) (snd x))) f) = allResults f.
Proof. intros H. unfold allResults. induction f as [|[b k] f IH]; cbn; auto. rewrite H. f_equal. exact IH. Qed.
Lemma uniqueDefs_onBlock b h f : (forall bk, resultsOf (h bk) = resultsOf bk) -> uniqueDefs f -> uniqueDefs (onBlock b h f).
Proof.
  intros H. apply uniqueDefs_same.
  - symmetry. apply (fst_mapk (fun k bk => if Nat.eqb k b then h bk else bk)).
  - symmetry. apply (allResults_mapk (fun k bk => if Nat.eqb k b then h bk else bk)).
    intros b' bk. destruct (Nat.eqb b' b); auto.
Qed.
Lemma uniqueDefs_removePhi b t f : uniqueDefs f -> uniqueDefs (onBlock t (removePhi b) f).
Proof. apply uniqueDefs_onBlock. intros bk. unfold resultsOf. cbn. now rewrite removePhis_pdst. Qed.

Lemma firstn_len {A} (a c : list A) : firstn (length a) (a ++ c) = a.
Proof. now rewrite firstn_app, Nat.sub_diag, firstn_all, firstn_O, app_nil_r. Qed.

Lemma truncate_ok knd f b bk a c : uniqueDefs f -> get b f = Some bk -> splitCall knd (body bk) = Some (a, c) ->
  refines knd f (onBlock b (fun bk' => Block (phis bk') (firstn (length a) (body bk')) TUnreach)
                           (subst (undefO (map dst c)) f)).
Proof.
  intros Hu Hg Hsp W m args w Hk. pose proof (splitCall_app _ _ _ _ Hsp) as Hac.
  set (h := undefO (map dst c)). set (J := fun e : env => forall x, In x (map dst c) -> e x = None).
  assert (HJ : forall e, J e -> keeps args h e) by (intros e; apply undefO_keeps).
  assert (Hcb : forall x, In x (map dst c) -> In x (resultsOf bk)).
  { intros x Hx. apply in_or_app. right. rewrite Hac, map_app. apply in_or_app. auto. }
  assert (Hnd : NoDup (resultsOf bk)).
  { destruct Hu as [_ N]. apply get_In in Hg. clear - N Hg. unfold allResults in N.
    induction f as [|[b' k'] f IH]; [contradiction|]. cbn in N. destruct Hg as [Hg|Hg].
    - injection Hg as -> ->. clear - N. induction (resultsOf bk); [constructor|]. cbn in N. inversion N as [|? ? N1 N2]; subst. constructor; auto.
      intros K. apply N1. apply in_or_app. auto.
    - apply IH; auto. clear - N. induction (resultsOf k'); cbn in N; auto. inversion N; auto. }
  assert (Hdis : forall x, In x (map pdst (phis bk)) \/ In x (map dst a) -> In x (map dst c) -> False).
  { unfold resultsOf in Hnd. rewrite Hac, map_app, app_assoc in Hnd. intros x Hx Hxc.
    apply (NoDup_app_disj _ _ Hnd x); auto. apply in_or_app. tauto. }
  apply (step_refinesAt m args f _ (fun s => J (en s))).
  - rewrite entry_onBlock. destruct f as [|[b0 k0] f]; reflexivity.
  - intros s HI Hs. pose proof (fun t => safe_step m args f s t Hs) as Hb. unfold step in *.
    rewrite get_onBlock, get_subst. destruct (get (cur s) f) as [bk'|] eqn:Ec; auto. cbn [option_map].
    destruct (Nat.eqb_spec (cur s) b) as [Eq|D].
    + rewrite Eq in *. rewrite Hg in Ec. injection Ec as <-.
      unfold runBlock in *. cbn [phis body trm mapOps].
      destruct (enter args (en s) (prev s) (phis bk)) as [e1|] eqn:E1; [|exfalso; eapply Hb; eauto].
      rewrite (enter_keeps args h _ _ _ _ (HJ _ HI) E1).
      destruct (splitCall_run m args knd _ Hk a c Hsp e1 (wd s)) as [Ra Rg].
      assert (Hfn : firstn (length a) (map (fun i => Inst (dst i) (opc i) (map h (ops i))) (body bk)) =
                    map (fun i => Inst (dst i) (opc i) (map h (ops i))) a).
      { rewrite Hac, map_app. rewrite <- (map_length (fun i => Inst (dst i) (opc i) (map h (ops i))) a). apply firstn_len. }
      rewrite Hfn.
      rewrite Ra. rewrite (runBody_keeps m args h J a HJ e1 (wd s)).
      * destruct (runBody m args e1 (wd s) a) eqn:E2; auto. exfalso. eapply Rg. exact Ra.
      * intros e i v He Hi x Hx. rewrite upd_ne; auto. intros ->. apply (Hdis (dst i)); auto. right. now apply in_map.
      * intros x Hx. rewrite (enter_ne args _ _ _ _ x E1); auto. intros K. apply (Hdis x); auto.
      * intros t Ht. rewrite Ra, Ht in Hb. exact (Hb t eq_refl).
    + symmetry. apply block_keeps with (J := J); auto.
      intros e x v He Hx y Hy. rewrite upd_ne; auto. intros ->. apply D.
      eapply results_unique with (f := f); eauto.
  - intros s s' t HI Hst x Hx.
    pose proof (blocked m args knd f b bk Hk Hg ltac:(congruence) s s' t Hst) as Hc.
    destruct (step_inv m args f s s' t Hst) as (bk' & _ & _ & _ & Hg' & _).
    rewrite (step_ne m args f s s' t bk' x Hst Hg'); auto. intros K. apply Hc. eapply results_unique with (f := f); eauto.
  - intros x _. reflexivity.
Qed.

Lemma noReturn1_ok knd f b : uniqueDefs f -> refines knd f (noReturn1 knd f b).
Proof.
  intros Hu. unfold noReturn1. destruct (get b f) as [bk|] eqn:Eb; [|apply refines_refl].
  destruct (splitCall knd (body bk)) as [[a c]|] eqn:Es; [|apply refines_refl].
  assert (H : forall l g bk1, uniqueDefs g -> get b g = Some bk1 -> body bk1 = body bk ->
    let g1 := fold_left (fun g t => onBlock t (removePhi b) g) l g in
    refines knd g g1 /\ uniqueDefs g1 /\ exists bk2, get b g1 = Some bk2 /\ body bk2 = body bk).
  { induction l as [|t l IH]; intros g bk1 Hug Hg Hbk; cbn.
    - split; [apply refines_refl|]. split; [exact Hug|]. eauto.
    - destruct (IH (onBlock t (removePhi b) g) (if Nat.eqb b t then removePhi b bk1 else bk1)) as (A & B & C).
      + now apply uniqueDefs_removePhi.
      + rewrite get_onBlock, Hg. reflexivity.
      + destruct (Nat.eqb b t); auto.
      + split; auto. eapply refines_trans; [|exact A]. apply removePhi_blocked with (bk := bk1); auto. rewrite Hbk, Es. discriminate. }
  destruct (H (nodup Nat.eq_dec (succs (trm bk))) f bk Hu Eb eq_refl) as (A & B & bk2 & C & D).
  eapply refines_trans; [exact A|]. apply truncate_ok with (bk := bk2); auto. now rewrite D.
Qed.

(** the passes keep results unique *)
Lemma NoDup_sub {A} (l1 l2 r : list A) : (forall x, In x l1 -> In x l2) -> NoDup l1 -> NoDup (l2 ++ r) -> NoDup (l1 ++ r).
Proof.
  intros Hs N1 N2. induction l1 as [|a l1 IH]; cbn.
  - clear - N2. induction l2; auto. inversion N2; auto.
  - inversion N1 as [|? ? Na Nl]; subst. constructor.
    + intros K. apply in_app_or in K as [K|K]; auto. apply (NoDup_app_disj _ _ N2 a); auto. apply Hs. now left.
    + apply IH; auto. intros x Hx. apply Hs. now right.
Qed.
Lemma results_mapOps h bk : resultsOf (mapOps h bk) = resultsOf bk.
Proof. unfold resultsOf, mapOps. cbn. rewrite !map_map. reflexivity. Qed.
Lemma uniqueDefs_subst h f : uniqueDefs f -> uniqueDefs (subst h f).
Proof.
  apply uniqueDefs_same.
  - unfold subst. rewrite map_map. reflexivity.
  - unfold subst. symmetry. apply (allResults_mapk (fun _ bk => mapOps h bk)). intros _ bk. apply results_mapOps.
Qed.
Definition shrinks (g : block -> block) : Prop :=
  forall bk, (forall x, In x (resultsOf (g bk)) -> In x (resultsOf bk)) /\ (NoDup (resultsOf bk) -> NoDup (resultsOf (g bk))).
Lemma uniqueDefs_shrink b g f : shrinks g -> uniqueDefs f -> uniqueDefs (onBlock b g f).
Proof.
  intros Hg [N1 N2]. split.
  - unfold onBlock. rewrite (fst_mapk (fun k bk => if Nat.eqb k b then g bk else bk)). exact N1.
  - clear N1. unfold allResults in *. induction f as [|[k bk] f IH]; cbn in *; auto.
    assert (Nf : NoDup (flat_map (fun x => resultsOf (snd x)) f)).
    { clear - N2. induction (resultsOf bk); cbn in N2; auto. inversion N2; auto. }
    assert (Nb : NoDup (resultsOf bk)).
    { clear - N2. induction (resultsOf bk); [constructor|]. cbn in N2. inversion N2 as [|? ? A B]; subst. constructor; auto.
      intros K; apply A; apply in_or_app; auto. }
    assert (Sub : forall x, In x (flat_map (fun x => resultsOf (snd x)) (onBlock b g f)) -> In x (flat_map (fun x => resultsOf (snd x)) f)).
    { clear - Hg. intros x Hx. apply in_flat_map in Hx as ([k' bk'] & Hin & Hx). apply in_map_iff in Hin as ([k2 bk2] & E1 & Hin).
      cbn in E1. injection E1 as <- <-. apply in_flat_map. exists (k2, bk2). split; auto. cbn in *.
      destruct (Nat.eqb k2 b); auto. now apply Hg. }
    set (r1 := resultsOf (if Nat.eqb k b then g bk else bk)).
    assert (S1 : forall x, In x r1 -> In x (resultsOf bk)) by (unfold r1; destruct (Nat.eqb k b); auto; apply Hg).
    assert (N1' : NoDup r1) by (unfold r1; destruct (Nat.eqb k b); auto; apply Hg; auto).
    specialize (IH Nf). clear - N2 S1 N1' Sub IH.
    assert (D : forall x, In x r1 -> ~ In x (flat_map (fun x => resultsOf (snd x)) (onBlock b g f))).
    { intros x H1 H2. apply (NoDup_app_disj _ _ N2 x); auto. }
    clear - D N1' IH. induction r1 as [|a l IHl]; cbn; auto. inversion N1'; subst. constructor.
    + intros K. apply in_app_or in K as [K|K]; auto. apply (D a); [now left|exact K].
    + apply IHl; auto. intros x Hx. apply D. now right.
Qed.
Lemma NoDup_map_firstn {A B} (h : A -> B) n (r : list B) l : NoDup (r ++ map h l) -> NoDup (r ++ map h (firstn n l)).
Proof.
  intros N. rewrite <- (firstn_skipn n l), map_app, app_assoc in N. clear - N.
  induction (r ++ map h (firstn n l)) as [|a l' IH]; [constructor|]. cbn in N. inversion N as [|? ? A1 A2]; subst. constructor; auto.
  intros K; apply A1; apply in_or_app; auto.
Qed.
Lemma noReturn1_unique knd f b : uniqueDefs f -> uniqueDefs (noReturn1 knd f b).
Proof.
  intros Hu. unfold noReturn1. destruct (get b f) as [bk|]; auto. destruct (splitCall knd (body bk)) as [[a c]|]; auto.
  apply uniqueDefs_shrink.
  - intros bk'. unfold resultsOf. cbn. split.
    + intros x Hx. apply in_app_or in Hx as [Hx|Hx]; apply in_or_app; auto. right.
      apply in_map_iff in Hx as (i & <- & Hi). apply in_map. rewrite <- (firstn_skipn (length a) (body bk')). apply in_or_app. auto.
    + apply NoDup_map_firstn.
  - apply uniqueDefs_subst. generalize (nodup Nat.eq_dec (succs (trm bk))). intros l. revert f Hu.
    induction l as [|t l IH]; intros f Hu; cbn; auto. apply IH. now apply uniqueDefs_removePhi.
Qed.
Theorem noReturn_ok knd f : uniqueDefs f -> refines knd f (noReturnCallEliminate knd f).
Proof.
  unfold noReturnCallEliminate. generalize (map fst f). intros l. revert f.
  induction l as [|b l IH]; intros f Hu; cbn; [apply refines_refl|].
  eapply refines_trans; [apply noReturn1_ok; auto|]. apply IH. now apply noReturn1_unique.
Qed.
