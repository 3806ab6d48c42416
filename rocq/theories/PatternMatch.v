(** Model of cmmc/Transforms/Util/PatternMatch.hpp: the matcher combinators used by the peephole
    rules, as a first-order pattern language with the C++ matching order (operands left to right,
    commutative and compare matchers retry with swapped operands, captured variables are overwritten
    even by attempts that fail). *)
From Coq Require Import ZArith Lia Bool List.
From Verif Require Import Word CmpModel IR.
Import ListNotations.
Local Open Scope Z_scope.

(** What the passes observe besides the shape of the expression. *)
Record oracle := mkO {
  same : expr -> expr -> bool;     (* Value* pointer equality *)
  oneUse : expr -> bool;           (* TrackableValue::hasExactlyOneUse *)
  native : nat -> bool;            (* target.isNativeSupported, see the N* codes in the rules *)
  usersZeroCmp : expr -> bool;     (* every user is icmp eq/ne with 0 *)
  usersHaveCmp : expr -> bool      (* some user is an ICmp *)
}.
(** one value object computes one expression *)
Definition oracle_ok (O : oracle) : Prop := forall a b, same O a b = true -> a = b.

(** captured variables: Value* v1.., intmax_t i1.., CompareOp cmp.. *)
Record bnd := mkB { vb : nat -> expr; ib : nat -> Z; cb : nat -> icmp }.
Definition b0 : bnd := mkB (fun _ => Var I32 0) (fun _ => 0) (fun _ => Ieq).
Definition upd {A} (f : nat -> A) (k : nat) (x : A) : nat -> A := fun n => if Nat.eqb n k then x else f n.
Definition setV (b : bnd) k x := mkB (upd (vb b) k x) (ib b) (cb b).
Definition setI (b : bnd) k x := mkB (vb b) (upd (ib b) k x) (cb b).
Definition setC (b : bnd) k x := mkB (vb b) (ib b) (upd (cb b) k x).

Inductive pat :=
| PAny (k : nat)                (* PatternMatch.hpp:54-67 any *)
| PBool (k : nat)               (* :69-83 boolean *)
| PInt (k : nat)                (* :85-101 int_ *)
| PUInt (k : nat)               (* :85-101 uint_ *)
| PCInt (z : Z)                 (* :103-118 cint_ *)
| PCUInt (z : Z)                (* :103-118 cuint_ *)
| PUn (op : unop) (p : pat)     (* :161-183 neg, abs *)
| PBin (op : binop) (p q : pat) (* :195-300 add, sub, ... *)
| PCmp (k : nat) (p q : pat)    (* :323-359 icmp *)
| PCast (op : castop) (p : pat) (* :361-402 zext, sext, ztrunc, strunc *)
| PSel (p q r : pat)            (* :426-444 select *)
| PCap (p : pat) (k : nat)      (* :446-464 capture *)
| PLog2 (k : nat)               (* :500-521 intLog2 *)
| POne (p : pat)                (* :526-545 oneUse *)
| PExact (k : nat).             (* exactly *)
(** :268-271 not_ *)
Definition PNot (p : pat) : pat := PBin OXor p (PCInt (-1)).

(** PatternMatch.hpp: IsCommutative argument of BinaryOpMatcher *)
Definition comm (op : binop) : bool :=
  match op with OAdd | OMul | OAnd | OOr | OXor | OSMin | OSMax => true | _ => false end.

(** Support/Bits.hpp:21-23 isPowerOf2(size_t): popcountll == 1, on the value cast to uint64 *)
Definition isPow2 (z : Z) : bool := let u := u64 z in (0 <? u) && (2 ^ (Z.log2 u) =? u).
Definition ilog2 (z : Z) : Z := Z.log2 (u64 z).

Fixpoint pmatch (O : oracle) (p : pat) (e : expr) (b : bnd) : bool * bnd :=
  match p with
  | PAny k => (true, setV b k e)
  | PBool k => (is_bool (ty_of e), setV b k e)
  | PInt k => match e with Cst t v => (true, setI b k (sv t (wrap t v))) | _ => (false, b) end
  | PUInt k => match e with Cst t v => (true, setI b k (wrap t v)) | _ => (false, b) end
  | PCInt z => match e with Cst t v => (sv t (wrap t v) =? z, b) | _ => (false, b) end
  | PCUInt z => match e with Cst t v => (wrap t v =? z, b) | _ => (false, b) end
  | PUn op p => match e with
      | Un op' x => match op, op' with
                    | ONeg, ONeg | OAbs, OAbs => pmatch O p x b | _, _ => (false, b) end
      | _ => (false, b) end
  | PBin op p q => match e with
      | Bin op' x y =>
          if match op, op' with
             | OAdd, OAdd | OSub, OSub | OMul, OMul | OSDiv, OSDiv | OUDiv, OUDiv | OSRem, OSRem
             | OURem, OURem | OAnd, OAnd | OOr, OOr | OXor, OXor | OShl, OShl | OLShr, OLShr
             | OAShr, OAShr | OSMin, OSMin | OSMax, OSMax => true | _, _ => false end then
            let '(ok1, b1) := pmatch O p x b in
            let '(ok2, b2) := if ok1 then pmatch O q y b1 else (false, b1) in
            if ok2 then (true, b2)
            else if comm op then
              let '(ok3, b3) := pmatch O p y b2 in
              if ok3 then pmatch O q x b3 else (false, b3)
            else (false, b2)
          else (false, b)
      | _ => (false, b) end
  | PCmp k p q => match e with
      | Cmp c x y =>
          let b := setC b k c in
          let '(ok1, b1) := pmatch O p x b in
          let '(ok2, b2) := if ok1 then pmatch O q y b1 else (false, b1) in
          if ok2 then (true, b2)
          else
            let '(ok3, b3) := pmatch O p y b2 in
            let '(ok4, b4) := if ok3 then pmatch O q x b3 else (false, b3) in
            if ok4 then (true, setC b4 k (revI c)) else (false, b4)
      | _ => (false, b) end
  | PCast op p => match e with
      | Cast op' t x => match op, op' with
          | OZExt, OZExt | OSExt, OSExt | OUTrunc, OUTrunc | OSTrunc, OSTrunc => pmatch O p x b
          | _, _ => (false, b) end
      | _ => (false, b) end
  | PSel p q r => match e with
      | Sel x y z =>
          let '(ok1, b1) := pmatch O p x b in
          let '(ok2, b2) := if ok1 then pmatch O q y b1 else (false, b1) in
          if ok2 then pmatch O r z b2 else (false, b2)
      | _ => (false, b) end
  | PCap p k =>
      let '(ok, b1) := pmatch O p e b in if ok then (true, setV b1 k e) else (false, b1)
  | PLog2 k =>
      match e with
      | Bin OShl (Cst t v) x => if sv t (wrap t v) =? 1 then (true, setV b k x) else (false, b)
      | Cst t v => let s := sv t (wrap t v) in
                   if isPow2 s then (true, setV b k (Cst t (ilog2 s))) else (false, b)
      | _ => (false, b)
      end
  | POne p => match e with
      | Cst _ _ => pmatch O p e b     (* constants are not TrackableValue *)
      | _ => if oneUse O e then pmatch O p e b else (false, b) end
  | PExact k => (same O e (vb b k), b)
  end.

(** * What a successful match says *)
(** [e] and [f] are interchangeable (used for the swapped orientations) *)
Definition sim (e f : expr) : Prop :=
  wt e -> ty_of e = ty_of f /\ wt f /\ forall m env, eval m env e = eval m env f.

Fixpoint inst (b : bnd) (p : pat) (e : expr) : Prop :=
  match p with
  | PAny k => vb b k = e
  | PBool k => vb b k = e /\ ty_of e = I1
  | PInt k => exists t v, e = Cst t v /\ ib b k = sv t (wrap t v)
  | PUInt k => exists t v, e = Cst t v /\ ib b k = wrap t v
  | PCInt z => exists t v, e = Cst t v /\ sv t (wrap t v) = z
  | PCUInt z => exists t v, e = Cst t v /\ wrap t v = z
  | PUn op p => exists x, e = Un op x /\ inst b p x
  | PBin op p q => exists x y, sim e (Bin op x y) /\ inst b p x /\ inst b q y
  | PCmp k p q => exists x y, sim e (Cmp (cb b k) x y) /\ inst b p x /\ inst b q y
  | PCast op p => exists t x, e = Cast op t x /\ inst b p x
  | PSel p q r => exists x y z, e = Sel x y z /\ inst b p x /\ inst b q y /\ inst b r z
  | PCap p k => vb b k = e /\ inst b p e
  | PLog2 k => (exists t v, e = Bin OShl (Cst t v) (vb b k) /\ sv t (wrap t v) = 1)
      \/ (exists t v, e = Cst t v /\ isPow2 (sv t (wrap t v)) = true /\ vb b k = Cst t (ilog2 (sv t (wrap t v))))
  | POne p => inst b p e
  | PExact k => e = vb b k
  end.

Fixpoint bv (p : pat) : list nat := match p with
  | PAny k | PBool k | PLog2 k => [k]
  | PUn _ p | PCast _ p | POne p => bv p
  | PBin _ p q | PCmp _ p q => bv p ++ bv q
  | PSel p q r => bv p ++ bv q ++ bv r
  | PCap p k => k :: bv p
  | _ => [] end.
Fixpoint rv (p : pat) : list nat := match p with
  | PExact k => [k]
  | PUn _ p | PCast _ p | POne p => rv p
  | PBin _ p q | PCmp _ p q => rv p ++ rv q
  | PSel p q r => rv p ++ rv q ++ rv r
  | PCap p k => rv p
  | _ => [] end.
Fixpoint bi (p : pat) : list nat := match p with
  | PInt k | PUInt k => [k]
  | PUn _ p | PCast _ p | POne p => bi p
  | PBin _ p q | PCmp _ p q => bi p ++ bi q
  | PSel p q r => bi p ++ bi q ++ bi r
  | PCap p k => bi p
  | _ => [] end.
Fixpoint bc (p : pat) : list nat := match p with
  | PUn _ p | PCast _ p | POne p => bc p
  | PBin _ p q => bc p ++ bc q
  | PCmp k p q => k :: bc p ++ bc q
  | PSel p q r => bc p ++ bc q ++ bc r
  | PCap p k => bc p
  | _ => [] end.
Definition mem (k : nat) (l : list nat) : bool := existsb (Nat.eqb k) l.
Definition disj (l r : list nat) : bool := forallb (fun k => negb (mem k r)) l.
(** every variable is bound once (and only read after) *)
Fixpoint linear (p : pat) : bool := match p with
  | PUn _ p | PCast _ p | POne p => linear p
  | PBin _ p q => linear p && linear q && disj (bv q) (bv p ++ rv p) && disj (bi q) (bi p) && disj (bc q) (bc p)
  | PCmp k p q => linear p && linear q && disj (bv q) (bv p ++ rv p) && disj (bi q) (bi p) && disj (bc q) (bc p)
                  && negb (mem k (bc p)) && negb (mem k (bc q))
  | PSel p q r => linear p && linear q && linear r
                  && disj (bv q) (bv p ++ rv p) && disj (bi q) (bi p) && disj (bc q) (bc p)
                  && disj (bv r) (bv p ++ rv p) && disj (bi r) (bi p) && disj (bc r) (bc p)
                  && disj (bv r) (bv q ++ rv q) && disj (bi r) (bi q) && disj (bc r) (bc q)
  | PCap p k => linear p && negb (mem k (bv p ++ rv p))
  | _ => true end.

Definition agree (lv li lc : list nat) (b b' : bnd) : Prop :=
  (forall k, mem k lv = false -> vb b k = vb b' k) /\
  (forall k, mem k li = false -> ib b k = ib b' k) /\
  (forall k, mem k lc = false -> cb b k = cb b' k).

Lemma mem_app k l r : mem k (l ++ r) = mem k l || mem k r.
Proof. apply existsb_app. Qed.
Lemma mem_cons k x l : mem k (x :: l) = Nat.eqb k x || mem k l.
Proof. reflexivity. Qed.
Lemma disj_spec l r k : disj l r = true -> mem k r = true -> mem k l = false.
Proof.
  unfold disj, mem. intros H K. destruct (existsb (Nat.eqb k) l) eqn:E; auto.
  apply existsb_exists in E. destruct E as (x & Hx & Ex). apply Nat.eqb_eq in Ex; subst x.
  rewrite forallb_forall in H. specialize (H _ Hx). rewrite K in H. discriminate.
Qed.

Lemma inst_frame p : forall b b' e,
  (forall k, mem k (bv p ++ rv p) = true -> vb b k = vb b' k) ->
  (forall k, mem k (bi p) = true -> ib b k = ib b' k) ->
  (forall k, mem k (bc p) = true -> cb b k = cb b' k) ->
  inst b p e -> inst b' p e.
Proof.
  induction p; cbn [inst bv rv bi bc]; intros b b' e HV HI HC H.
  - rewrite <- HV; auto. cbn. rewrite Nat.eqb_refl; auto.
  - rewrite <- HV; auto. cbn. rewrite Nat.eqb_refl; auto.
  - rewrite <- HI; auto. cbn. rewrite Nat.eqb_refl; auto.
  - rewrite <- HI; auto. cbn. rewrite Nat.eqb_refl; auto.
  - auto.
  - auto.
  - destruct H as (x & E & H). exists x; split; eauto.
  - destruct H as (x & y & E & H1 & H2). exists x, y. split; auto.
    split; [eapply IHp1|eapply IHp2]; try eassumption; intros k Hk; (apply HV || apply HI || apply HC);
      rewrite ?mem_app in *; apply orb_true_iff in Hk || idtac; rewrite ?orb_true_iff; tauto.
  - destruct H as (x & y & E & H1 & H2). exists x, y.
    rewrite <- HC by (cbn; rewrite Nat.eqb_refl; auto). split; auto.
    split; [eapply IHp1|eapply IHp2]; try eassumption; intros j Hk; (apply HV || apply HI || apply HC);
      rewrite ?mem_cons, ?mem_app in *; rewrite ?orb_true_iff in *; tauto.
  - destruct H as (t & x & E & H). exists t, x; split; eauto.
  - destruct H as (x & y & z & E & H1 & H2 & H3). exists x, y, z. split; auto.
    split; [eapply IHp1|split; [eapply IHp2|eapply IHp3]]; try eassumption; intros k Hk; (apply HV || apply HI || apply HC);
      rewrite ?mem_app in *; rewrite ?orb_true_iff in *; tauto.
  - destruct H as (H1 & H2). split. { rewrite <- HV; auto. cbn. rewrite Nat.eqb_refl; auto. }
    eapply IHp; try eassumption; auto. intros j Hj. apply HV. rewrite mem_app in *.
    rewrite mem_cons. rewrite ?orb_true_iff in *. tauto.
  - rewrite <- HV; auto. cbn. rewrite Nat.eqb_refl; auto.
  - eauto.
  - rewrite <- HV; auto. cbn. rewrite Nat.eqb_refl; auto.
Qed.

Lemma agree_refl lv li lc b : agree lv li lc b b.
Proof. repeat split. Qed.
Lemma agree_trans lv li lc b b' b'' : agree lv li lc b b' -> agree lv li lc b' b'' -> agree lv li lc b b''.
Proof. intros (A & B & C) (D & E & F). repeat split; intros; rewrite ?A, ?B, ?C by assumption; auto. Qed.
Lemma agree_weaken lv li lc lv' li' lc' b b' : agree lv li lc b b' ->
  (forall k, mem k lv' = false -> mem k lv = false) ->
  (forall k, mem k li' = false -> mem k li = false) ->
  (forall k, mem k lc' = false -> mem k lc = false) -> agree lv' li' lc' b b'.
Proof. intros (A & B & C) D E F. repeat split; intros; auto. Qed.
Lemma agree_setV b k x : agree [k] [] [] b (setV b k x).
Proof. repeat split. intros j H. cbn in H. cbn. unfold upd. destruct (Nat.eqb j k); [discriminate|auto]. Qed.
Lemma agree_setI b k x : agree [] [k] [] b (setI b k x).
Proof. repeat split. intros j H. cbn in H. cbn. unfold upd. destruct (Nat.eqb j k); [discriminate|auto]. Qed.
Lemma agree_setC b k x : agree [] [] [k] b (setC b k x).
Proof. repeat split. intros j H. cbn in H. cbn. unfold upd. destruct (Nat.eqb j k); [discriminate|auto]. Qed.

Lemma memf_app k l r : mem k (l ++ r) = false <-> mem k l = false /\ mem k r = false.
Proof. rewrite mem_app. apply orb_false_iff. Qed.

Ltac wk := first [eassumption | eapply agree_weaken; [eassumption|..]; intros ?;
  rewrite ?mem_cons, ?orb_false_iff, ?memf_app; cbn [mem existsb]; tauto].
Ltac chain := repeat match goal with
  | |- agree _ _ _ ?b ?b => apply agree_refl
  | H : agree _ _ _ ?b ?c |- agree _ _ _ ?b ?d => first [ solve [wk] | eapply agree_trans; [solve [wk]|] ]
  end.

Lemma pmatch_agree O p : forall e b r b', pmatch O p e b = (r, b') -> agree (bv p) (bi p) (bc p) b b'.
Proof.
  induction p; intros e b r b' H; cbn [pmatch bv bi bc] in *.
  - inversion H. apply agree_setV.
  - inversion H. apply agree_setV.
  - destruct e; inversion H; try apply agree_refl. apply agree_setI.
  - destruct e; inversion H; try apply agree_refl. apply agree_setI.
  - destruct e; inversion H; apply agree_refl.
  - destruct e; inversion H; apply agree_refl.
  - destruct e; try (inversion H; apply agree_refl).
    destruct op, op0; try (inversion H; apply agree_refl); eauto.
  - destruct e; try (inversion H; apply agree_refl).
    destruct (match op with OAdd => _ | _ => _ end); [|inversion H; apply agree_refl].
    destruct (pmatch O p1 e1 b) as [ok1 b1] eqn:E1. apply IHp1 in E1.
    assert (exists ok2 b2, (if ok1 then pmatch O p2 e2 b1 else (false, b1)) = (ok2, b2) /\
              agree (bv p2) (bi p2) (bc p2) b1 b2) as (ok2 & b2 & E2 & A2).
    { destruct ok1. - destruct (pmatch O p2 e2 b1) as [ok2 b2] eqn:E2. eauto. - eexists _, _. split; [reflexivity|apply agree_refl]. }
    rewrite E2 in H. destruct ok2; [inversion H; subst; chain|].
    destruct (comm op); [|inversion H; subst; chain].
    destruct (pmatch O p1 e2 b2) as [ok3 b3] eqn:E3. apply IHp1 in E3.
    destruct ok3; [apply IHp2 in H|inversion H; subst]; chain.
  - destruct e; try (inversion H; apply agree_refl).
    pose proof (agree_setC b k c) as A0. set (bb := setC b k c) in *. clearbody bb.
    destruct (pmatch O p1 e1 bb) as [ok1 b1] eqn:E1. apply IHp1 in E1.
    assert (exists ok2 b2, (if ok1 then pmatch O p2 e2 b1 else (false, b1)) = (ok2, b2) /\
              agree (bv p2) (bi p2) (bc p2) b1 b2) as (ok2 & b2 & E2 & A2).
    { destruct ok1. - destruct (pmatch O p2 e2 b1) as [ok2 b2] eqn:E2. eauto. - eexists _, _. split; [reflexivity|apply agree_refl]. }
    rewrite E2 in H. destruct ok2; [inversion H; subst; chain|].
    destruct (pmatch O p1 e2 b2) as [ok3 b3] eqn:E3. apply IHp1 in E3.
    assert (exists ok4 b4, (if ok3 then pmatch O p2 e1 b3 else (false, b3)) = (ok4, b4) /\
              agree (bv p2) (bi p2) (bc p2) b3 b4) as (ok4 & b4 & E4 & A4).
    { destruct ok3. - destruct (pmatch O p2 e1 b3) as [ok4 b4] eqn:E4. eauto. - eexists _, _. split; [reflexivity|apply agree_refl]. }
    rewrite E4 in H. pose proof (agree_setC b4 k (revI c)) as A5.
    destruct ok4; inversion H; subst; chain.
  - destruct e; try (inversion H; apply agree_refl).
    destruct op, op0; try (inversion H; apply agree_refl); eauto.
  - destruct e; try (inversion H; apply agree_refl).
    destruct (pmatch O p1 e1 b) as [ok1 b1] eqn:E1. apply IHp1 in E1.
    assert (exists ok2 b2, (if ok1 then pmatch O p2 e2 b1 else (false, b1)) = (ok2, b2) /\
              agree (bv p2) (bi p2) (bc p2) b1 b2) as (ok2 & b2 & E2 & A2).
    { destruct ok1. - destruct (pmatch O p2 e2 b1) as [ok2 b2] eqn:E2. eauto. - eexists _, _. split; [reflexivity|apply agree_refl]. }
    rewrite E2 in H. destruct ok2; [apply IHp3 in H; chain|inversion H; subst; chain].
  - destruct (pmatch O p e b) as [ok b1] eqn:E. apply IHp in E.
    pose proof (agree_setV b1 k e). destruct ok; inversion H; subst; chain.
  - destruct e; try (inversion H; apply agree_refl).
    + destruct (isPow2 _); inversion H; try apply agree_refl. apply agree_setV.
    + destruct op; try (inversion H; apply agree_refl).
      destruct e1; try (inversion H; apply agree_refl).
      destruct (_ =? 1); inversion H; try apply agree_refl. apply agree_setV.
  - destruct e; eauto; destruct (oneUse O _); eauto; inversion H; apply agree_refl.
  - inversion H; apply agree_refl.
Qed.

Lemma sim_refl e : sim e e. Proof. intros H; auto. Qed.
Lemma evalBin_comm m op t x y : comm op = true -> evalBin m op t x y = evalBin m op t y x.
Proof. destruct op; cbn; intros; try discriminate; try (do 2 f_equal; lia).
  - f_equal; lia. - f_equal; lia.
  - f_equal; apply Z.land_comm. - f_equal; apply Z.lor_comm. - f_equal; apply Z.lxor_comm. Qed.
Lemma sim_comm op x y : comm op = true -> sim (Bin op x y) (Bin op y x).
Proof.
  intros C (H1 & H2 & H3 & H4). cbn. rewrite H3. repeat split; auto.
  intros m env. destruct (eval m env x), (eval m env y); auto. apply evalBin_comm; auto.
Qed.
Lemma doCompare_rev c l r : doCompare (revI c) r l = doCompare c l r.
Proof. destruct c; cbn; try reflexivity; try lia. Qed.
Lemma sim_rev c x y : sim (Cmp c x y) (Cmp (revI c) y x).
Proof.
  intros (H1 & H2 & H3 & H4). cbn. rewrite H3. repeat split; auto.
  - destruct c; cbn in *; auto.
  - intros m env. destruct (eval m env x), (eval m env y); auto. unfold evalCmp. rewrite doCompare_rev. auto.
Qed.

Lemma inst_agree p q b b' e :
  disj (bv q) (bv p ++ rv p) = true -> disj (bi q) (bi p) = true -> disj (bc q) (bc p) = true ->
  agree (bv q) (bi q) (bc q) b b' -> inst b p e -> inst b' p e.
Proof.
  intros D1 D2 D3 (A & B & C). apply inst_frame.
  - intros k K. apply A. eapply disj_spec; eauto.
  - intros k K. apply B. eapply disj_spec; eauto.
  - intros k K. apply C. eapply disj_spec; eauto.
Qed.
Lemma inst_setC p b k c e : mem k (bc p) = false -> inst b p e -> inst (setC b k c) p e.
Proof.
  intros D. apply inst_frame; auto. intros j J. cbn. unfold upd. destruct (Nat.eqb j k) eqn:E; auto.
  apply Nat.eqb_eq in E. congruence.
Qed.
Lemma inst_setV p b k c e : mem k (bv p ++ rv p) = false -> inst b p e -> inst (setV b k c) p e.
Proof.
  intros D. apply inst_frame; auto. intros j J. cbn. unfold upd. destruct (Nat.eqb j k) eqn:E; auto.
  apply Nat.eqb_eq in E. congruence.
Qed.

Lemma pmatch_sound O : oracle_ok O -> forall p, linear p = true ->
  forall e b b', pmatch O p e b = (true, b') -> inst b' p e.
Proof.
  intros OK. induction p; intros L e b b' H; cbn [pmatch linear inst] in *.
  - inversion H; subst. cbn. unfold upd. rewrite Nat.eqb_refl. reflexivity.
  - inversion H; subst. cbn. unfold upd. rewrite Nat.eqb_refl. split; auto. apply ty_eqb_eq; auto.
  - destruct e; inversion H; subst. eexists _, _; split; eauto. cbn. unfold upd. rewrite Nat.eqb_refl; auto.
  - destruct e; inversion H; subst. eexists _, _; split; eauto. cbn. unfold upd. rewrite Nat.eqb_refl; auto.
  - destruct e; inversion H; subst. eexists _, _; split; eauto. lia.
  - destruct e; inversion H; subst. eexists _, _; split; eauto. lia.
  - destruct e; try discriminate. exists e. destruct op, op0; try discriminate; split; eauto.
  - destruct e; try discriminate.
    rewrite !andb_true_iff in L. destruct L as ((((L1 & L2) & D1) & D2) & D3).
    destruct (match op with OAdd => _ | _ => _ end) eqn:Eop; [|discriminate].
    assert (op0 = op) as -> by (destruct op, op0; try discriminate; reflexivity). clear Eop.
    destruct (pmatch O p1 e1 b) as [ok1 b1] eqn:E1.
    destruct ok1.
    + destruct (pmatch O p2 e2 b1) as [ok2 b2] eqn:E2. destruct ok2.
      * inversion H; subst. exists e1, e2. split; [apply sim_refl|]. split; [|eauto].
        eapply inst_agree; eauto. eapply pmatch_agree; eauto.
      * destruct (comm op) eqn:EC; [|discriminate].
        destruct (pmatch O p1 e2 b2) as [[] b3] eqn:E3; [|discriminate].
        exists e2, e1. split; [apply sim_comm; auto|]. split; [|eauto].
        eapply inst_agree; eauto. eapply pmatch_agree; eauto.
    + destruct (comm op) eqn:EC; [|discriminate].
      destruct (pmatch O p1 e2 b1) as [[] b3] eqn:E3; [|discriminate].
      exists e2, e1. split; [apply sim_comm; auto|]. split; [|eauto].
      eapply inst_agree; eauto. eapply pmatch_agree; eauto.
  - destruct e; try discriminate.
    rewrite !andb_true_iff, !negb_true_iff in L. destruct L as ((((((L1 & L2) & D1) & D2) & D3) & D4) & D5).
    set (bb := setC b k c) in *.
    assert (KC : forall b1 b2 ok3, pmatch O p1 e1 bb = (true, b1) -> pmatch O p2 e2 b1 = (ok3, b2) -> cb b2 k = c).
    { intros. apply pmatch_agree in H0, H1. destruct H0 as (_ & _ & A), H1 as (_ & _ & B).
      rewrite <- B, <- A by assumption. unfold bb; cbn. unfold upd. rewrite Nat.eqb_refl; auto. }
    destruct (pmatch O p1 e1 bb) as [ok1 b1] eqn:E1.
    assert (SW : forall b2 b3 b4, pmatch O p1 e2 b2 = (true, b3) -> pmatch O p2 e1 b3 = (true, b4) ->
      exists x y, sim (Cmp c e1 e2) (Cmp (cb (setC b4 k (revI c)) k) x y)
        /\ inst (setC b4 k (revI c)) p1 x /\ inst (setC b4 k (revI c)) p2 y).
    { intros b2 b3 b4 E3 E4. exists e2, e1. cbn [cb setC]. unfold upd. rewrite Nat.eqb_refl.
      split; [apply sim_rev|]. split; apply inst_setC; auto; [|eauto].
      eapply inst_agree; eauto. eapply pmatch_agree; eauto. }
    destruct ok1.
    + destruct (pmatch O p2 e2 b1) as [ok2 b2] eqn:E2. destruct ok2.
      * inversion H; subst. exists e1, e2. rewrite (KC _ _ _ eq_refl E2). split; [apply sim_refl|]. split; [|eauto].
        eapply inst_agree; eauto. eapply pmatch_agree; eauto.
      * destruct (pmatch O p1 e2 b2) as [[] b3] eqn:E3; [|discriminate].
        destruct (pmatch O p2 e1 b3) as [[] b4] eqn:E4; [|discriminate].
        inversion H; subst. eauto.
    + destruct (pmatch O p1 e2 b1) as [[] b3] eqn:E3; [|discriminate].
      destruct (pmatch O p2 e1 b3) as [[] b4] eqn:E4; [|discriminate].
      inversion H; subst. eauto.
  - destruct e; try discriminate. exists t, e. destruct op, op0; try discriminate; split; eauto.
  - destruct e; try discriminate.
    rewrite !andb_true_iff in L.
    destruct L as (((((((((((L1 & L2) & L3) & D1) & D2) & D3) & D4) & D5) & D6) & D7) & D8) & D9).
    destruct (pmatch O p1 e1 b) as [[] b1] eqn:E1; [|discriminate].
    destruct (pmatch O p2 e2 b1) as [[] b2] eqn:E2; [|discriminate].
    exists e1, e2, e3. split; auto. split; [|split; eauto].
    + apply (inst_agree p1 p3 b2 b'); auto; [eapply pmatch_agree; eauto|].
      apply (inst_agree p1 p2 b1 b2); auto; [eapply pmatch_agree; eauto|]. eauto.
    + apply (inst_agree p2 p3 b2 b'); auto; [eapply pmatch_agree; eauto|]. eauto.
  - rewrite andb_true_iff, negb_true_iff in L. destruct L as [L D].
    destruct (pmatch O p e b) as [[] b1] eqn:E; [|discriminate]. inversion H; subst.
    cbn [vb setV]. unfold upd. rewrite Nat.eqb_refl. split; auto. apply inst_setV; eauto.
  - destruct e; try discriminate.
    + right. destruct (isPow2 _) eqn:E; [|discriminate]. inversion H; subst.
      eexists _, _. cbn. unfold upd. rewrite Nat.eqb_refl. eauto.
    + left. destruct op; try discriminate. destruct e1; try discriminate.
      destruct (_ =? 1) eqn:E; [|discriminate]. inversion H; subst.
      eexists _, _. cbn. unfold upd. rewrite Nat.eqb_refl. split; eauto. lia.
  - destruct e; eauto; destruct (oneUse O _); eauto; discriminate.
  - inversion H; subst. apply OK; auto.
Qed.
