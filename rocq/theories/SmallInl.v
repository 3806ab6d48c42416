(** C57: SmallBlockInlining (cmmc/Transforms/Misc/SmallBlockInlining.cpp): the instructions of a small block are copied into its predecessors. *)
From Coq Require Import ZArith Lia Bool List Arith.
From Verif Require Import Sim Ssa SsaCfg SsaMerge SsaFwd SsaFwd2 SsaWf SsaDom SsaProps SsaEq SsaPhi SsaCse SsaDce SsaGvn CodeMotion Ifc.
Import ListNotations.

(** ** the model *)
(** cmmc/Transforms/Util/BlockUtil.cpp:175-186 hasCall(block, false) *)
Definition hasCall (knd : nat -> kind) (bk : block) : bool := existsb (fun i => match knd (opc i) with KCall _ _ _ => true | _ => false end) (body bk).
(** SmallBlockInlining.cpp:74-84: every predecessor is another block and goes nowhere else *)
Definition predsValid (f : func) (b : nat) : bool :=
  forallb (fun p => match get p f with Some pb => negb (Nat.eqb p b) && Nat.eqb (length (nodup Nat.eq_dec (succs (trm pb)))) 1 | None => false end) (predsIn f b).
(** lines 101-109: used outside the block, by the terminator or by a phi.  (The copies the loop of line 127 has made read such a result only
    if a phi of the block does, so asking the function as it was is the same) *)
Definition usedOut (f : func) (b x : nat) : bool :=
  existsb (fun kb => inb x (if Nat.eqb (fst kb) b then phiUses (phis (snd kb)) ++ termUses (trm (snd kb)) else usesOf (snd kb))) f.
(** lines 129-131: what an operand becomes; [s] is maps.at(pred) *)
Definition subO (s : list (nat * opnd)) (o : opnd) : opnd := match o with ORes x => match get x s with Some o' => o' | None => o end | _ => o end.
(** lines 131: maps.at(pred).at(value) throws if a result is read before it is made *)
Fixpoint ordered (l : list inst) : bool :=
  match l with [] => true | i :: l' => forallb (fun x => negb (inb x (map dst (i :: l')))) (flat_map res_of (ops i)) && ordered l' end.
(** names for the copies *)
Definition nm (base len p j : nat) : nat := base + (p * len + j).
(** lines 127-136: the copies for one predecessor; instruction [j] of the block and on.  The C++ code makes the copies of one instruction for all
    predecessors before it goes to the next instruction; the copies of one predecessor do not depend on those of another *)
Fixpoint copies (nam : nat -> nat) (s : list (nat * opnd)) (j : nat) (l : list inst) : list inst :=
  match l with
  | [] => []
  | i :: l' => Inst (nam j) (opc i) (map (subO s) (ops i)) :: copies nam ((dst i, ORes (nam j)) :: s) (S j) l'
  end.
(** lines 116-122 *)
Definition startMap (p : nat) (l : list phi) : list (nat * opnd) := map (fun ph => (pdst ph, atInc p ph)) l.
(** lines 123-126, 134, 138-140: the phis.  They take the names of the results they stand for instead of new names (line 145 replaces the uses) *)
Fixpoint outPhis (f : func) (b : nat) (nam : nat -> nat -> nat) (ps : list nat) (j : nat) (l : list inst) : list phi :=
  match l with
  | [] => []
  | i :: l' => (if usedOut f b (dst i) then [Phi (dst i) (map (fun p => (p, ORes (nam p j))) ps)] else []) ++ outPhis f b nam ps (S j) l'
  end.
Definition sbBlk (f : func) (b : nat) (tb : block) (k : nat) (bk : block) : block :=
  let nam := nm (freshBase f) (length (body tb)) in
  if Nat.eqb k b then Block (phis bk ++ outPhis f b nam (predsIn f b) 0 (body bk)) [] (trm bk)
  else if inb b (succs (trm bk)) then Block (phis bk) (body bk ++ copies (nam k) (startMap k (phis tb)) 0 (body tb)) (trm bk)
  else bk.
(** lines 64-151: one block *)
Definition sbOne (knd : nat -> kind) (f : func) (b : nat) : option func :=
  match get b f with
  | Some tb =>
    match trm tb with
    | TBr _ =>
      if hasCall knd tb || Nat.eqb (length (predsIn f b)) 0 || negb (predsValid f b) || (5 <? length (body tb)) || Nat.eqb (length (body tb)) 0 then Some f
      else if ordered (body tb) then Some (map (fun kb => (fst kb, sbBlk f b tb (fst kb) (snd kb))) f)
      else None
    | _ => Some f
    end
  | None => Some f
  end.
(** lines 60-153; the edges stay as they are, so the answers of CFGAnalysis stay right *)
Definition smallInline (knd : nat -> kind) (f : func) : option func :=
  fold_left (fun o b => match o with Some g => sbOne knd g b | None => None end) (map fst f) (Some f).

(** ** runs of blocks that agree *)
Section Agree.
Context {W : Type}.
Variable m : sem W.
Variable args : nat -> value.
Lemma rdPhis_agree u e e' p l : agree u e e' -> (forall x, In x (phiUses l) -> u x = true) -> rdPhis args e p l = rdPhis args e' p l.
Proof.
  intros A. induction l as [|ph l IH]; intros H; cbn; auto. destruct (get p (inc ph)) as [o|] eqn:E; auto.
  rewrite (rd_agree args u e e' o A).
  - rewrite IH; auto. intros x Hx. apply H. cbn. apply in_or_app. auto.
  - intros x Hx. apply H. cbn. apply in_or_app. left. apply in_flat_map. exists (p, o). split; auto. now apply get_In.
Qed.
Lemma updAll_agree u vs : forall e e', agree u e e' -> agree u (updAll e vs) (updAll e' vs).
Proof. induction vs as [|[x v] vs IH]; intros e e' A; cbn; auto. apply IH. now apply agree_upd. Qed.
Lemma body_agree u l : (forall x, In x (bodyUses l) -> u x = true) -> forall e e' w, agree u e e' ->
  match runBody m args e w l with
  | BGo e1 w1 t1 => exists e1', runBody m args e' w l = BGo e1' w1 t1 /\ agree u e1 e1'
  | r => runBody m args e' w l = r
  end.
Proof.
  induction l as [|i l IH]; intros Hu e e' w A; cbn; [eauto|].
  rewrite <- (rds_agree args u e e' (ops i) A) by (intros x Hx; apply Hu; cbn; apply in_or_app; auto).
  destruct (rds args e (ops i)) as [vs|]; auto. destruct (meaning m (opc i) vs w) as [v w1|w1|]; auto.
  specialize (IH (fun x Hx => Hu x (in_or_app _ _ _ (or_intror Hx))) _ _ w1 (agree_upd u e e' (dst i) v A)).
  destruct (runBody m args (upd e (dst i) v) w1 l) as [e1 w2 t2|w2 t2|t2]; cbn; [|now rewrite IH|now rewrite IH].
  destruct IH as (e2 & -> & B). cbn. eauto.
Qed.
Lemma runBody_app l1 : forall l2 e w, runBody m args e w (l1 ++ l2) =
  match runBody m args e w l1 with
  | BGo e1 w1 t1 => match runBody m args e1 w1 l2 with BGo e2 w2 t2 => BGo e2 w2 (t1 ++ t2) | BHalt w2 t2 => BHalt w2 (t1 ++ t2) | BBad t2 => BBad (t1 ++ t2) end
  | r => r
  end.
Proof.
  induction l1 as [|i l1 IH]; intros l2 e w; cbn; [destruct (runBody m args e w l2); reflexivity|].
  destruct (rds args e (ops i)) as [vs|]; auto. destruct (meaning m (opc i) vs w) as [v w1|w1|]; auto. rewrite IH.
  destruct (runBody m args (upd e (dst i) v) w1 l1) as [e1 w2 t2|w2 t2|t2]; cbn; auto. destruct (runBody m args e1 w2 l2); cbn; now rewrite app_assoc.
Qed.

(** *** the copies do what the instructions do *)
(** [ok]: the names of the function; copies have other names *)
Variable ok : nat -> bool.
Variable nam : nat -> nat.
Hypothesis nam_new : forall j, ok (nam j) = false.
Hypothesis nam_inj : forall i j, nam i = nam j -> i = j.
(** what [s] says before instruction [j]: [e] is the state of the run of the block, [e'] that of the run of the copies *)
Definition mapOk (e e' : env) (s : list (nat * opnd)) (j : nat) (l : list inst) : Prop :=
  (forall x, ok x = true -> ~ In x (map dst l) -> rd args e (ORes x) = rd args e' (subO s (ORes x))) /\
  (forall x o, In (x, o) s -> match o with ORes y => ok y = true \/ exists k, k < j /\ y = nam k | _ => True end).
Lemma get_s_ok e e' s j l x : mapOk e e' s j l -> ok x = true -> match subO s (ORes x) with ORes y => y <> nam j | _ => True end.
Proof.
  intros (_ & S) Hx. cbn. destruct (get x s) as [o|] eqn:E.
  - specialize (S x o (get_In _ _ _ E)). destruct o as [c|n|y]; auto. destruct S as [S|(k & L & ->)].
    + intros ->. rewrite nam_new in S. discriminate.
    + intros K. apply nam_inj in K. lia.
  - intros ->. rewrite nam_new in Hx. discriminate.
Qed.
Lemma map_rds e e' s j l os : mapOk e e' s j l -> (forall x, In x (flat_map res_of os) -> ok x = true /\ ~ In x (map dst l)) ->
  rds args e os = rds args e' (map (subO s) os).
Proof.
  intros M. induction os as [|o os IH]; intros H; cbn [rds map]; auto. rewrite <- IH by (intros x Hx; apply H; cbn; apply in_or_app; auto).
  replace (rd args e' (subO s o)) with (rd args e o); auto. destruct o as [c|n|x]; auto. apply M; apply (H x); cbn; auto.
Qed.
Lemma copies_run l : forall e e' w s j, ordered l = true -> NoDup (map dst l) -> (forall x, In x (bodyUses l) -> ok x = true) -> mapOk e e' s j l ->
  match runBody m args e w l with
  | BGo e1 w1 t1 => exists e1' s', runBody m args e' w (copies nam s j l) = BGo e1' w1 t1 /\ mapOk e1 e1' s' (j + length l) [] /\
      (forall x, ok x = true -> e1' x = e' x) /\ (forall k, k < j -> e1' (nam k) = e' (nam k)) /\
      (forall k i, nth_error l k = Some i -> exists v, e1 (dst i) = Some v /\ e1' (nam (j + k)) = Some v) /\ (forall x, ~ In x (map dst l) -> e1 x = e x)
  | r => runBody m args e' w (copies nam s j l) = r
  end.
Proof.
  induction l as [|i l IH]; intros e e' w s j Ho N Hu M.
  - cbn. exists e', s. rewrite Nat.add_0_r. split; auto. split; [exact M|]. split; auto. split; auto. split; auto. intros k i K. destruct k; discriminate.
  - cbn [ordered] in Ho. apply andb_true_iff in Ho as [Ho1 Ho2]. cbn [map] in N. inversion N as [|? ? N1 N2]; subst.
    cbn [runBody copies ops opc dst]. rewrite <- (map_rds e e' s j (i :: l) (ops i) M).
    2:{ intros x Hx. split; [apply Hu; cbn; apply in_or_app; auto|]. rewrite forallb_forall in Ho1. specialize (Ho1 x Hx). apply negb_true_iff in Ho1.
        intros K. apply inb_In in K. congruence. }
    destruct (rds args e (ops i)) as [vs|]; auto. destruct (meaning m (opc i) vs w) as [v w1|w1|]; auto.
    assert (M1 : mapOk (upd e (dst i) v) (upd e' (nam j) v) ((dst i, ORes (nam j)) :: s) (S j) l).
    { split.
      - intros x Hx Nx. cbn [subO get]. destruct (Nat.eqb_spec (dst i) x) as [<-|D]; cbn [rd].
        + unfold upd. now rewrite !Nat.eqb_refl.
        + rewrite upd_ne by congruence. change (rd args e (ORes x) = rd args (upd e' (nam j) v) (subO s (ORes x))).
          rewrite (proj1 M x Hx) by (intros [K|K]; [congruence|contradiction]). pose proof (get_s_ok e e' s j (i :: l) x M Hx) as K.
          destruct (subO s (ORes x)) as [c|n|y]; auto. cbn. now rewrite upd_ne.
      - intros x o [[= <- <-]|H]; [right; exists j; auto|]. destruct M as [_ M]. specialize (M x o H). destruct o as [c|n|y]; auto.
        destruct M as [M|(k & L & ->)]; auto. right. exists k. split; auto. }
    specialize (IH _ _ w1 _ _ Ho2 N2 (fun x Hx => Hu x (in_or_app _ _ _ (or_intror Hx))) M1).
    destruct (runBody m args (upd e (dst i) v) w1 l) as [e1 w2 t2|w2 t2|t2]; [|now rewrite IH|now rewrite IH].
    destruct IH as (e1' & s' & -> & A & B & C & D & E). cbn [bpre]. exists e1', s'. split; auto. replace (j + length (i :: l)) with (S j + length l) by (cbn; lia).
    split; auto. split; [|split; [|split]].
    + intros x Hx. rewrite B; auto. rewrite upd_ne; auto. intros ->. rewrite nam_new in Hx. discriminate.
    + intros k L. rewrite C by lia. rewrite upd_ne; auto. intros K. apply nam_inj in K. lia.
    + intros [|k] i0 K.
      * cbn in K. injection K as <-. rewrite Nat.add_0_r, C, E; auto. unfold upd. rewrite !Nat.eqb_refl. eauto.
      * cbn in K. destruct (D k i0 K) as (v0 & K1 & K2). exists v0. split; auto. replace (j + S k) with (S j + k) by lia. exact K2.
    + intros x Hx. cbn in Hx. rewrite E, upd_ne; auto.
Qed.
End Agree.
