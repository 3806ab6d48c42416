(** Spill code does not change the behaviour. *)
From Coq Require Import ZArith Lia Bool List Arith.
From Verif Require Import GMir RaMir RaLive RaSpill.
Import ListNotations.

Section Off.
Context {W : Type}.
Variable t : mach W.
Variable u : nat.
Hypothesis ldF : ofl t opcLdStk = [FDef; FMeta].
Hypothesis stF : ofl t opcStStk = [FUse; FMeta].

(** the states differ in [u] and in slots only *)
Definition offU (s s' : rst W) : Prop := (forall r, r <> Virt u -> RG s r = RG s' r) /\ WD s = WD s'.

Lemma rargs_off g g' i : (forall r, r <> Virt u -> g r = g' r) -> (In u (vuses t i) -> g (Virt u) = g' (Virt u)) ->
  rargs t g i = rargs t g' i.
Proof.
  intros H U. unfold rargs. apply map_ext_in. intros [f o] Hx. destruct f; cbn; try reflexivity.
  destruct o as [r|z|k|k]; cbn; try reflexivity. f_equal. destruct (reg_dec r (Virt u)) as [->|N]; [|auto].
  apply U, in_vuses. unfold ruses. apply in_flat_map. exists (FUse, OReg (Virt u)). split; [exact Hx|now left].
Qed.
Lemma clobber_off g g' l f r : (forall r, r <> Virt u -> g r = g' r) -> r <> Virt u -> clobber g l f r = clobber g' l f r.
Proof. intros H N. destruct r; cbn; [|auto]. destruct (existsb _ l); auto. Qed.
Lemma stk_ops i x k : slotOf i = Some (x, k) -> ops i = [OReg x; OStk k].
Proof.
  unfold slotOf. destruct (ops i) as [|[r| | |] [|[| |j|] [|]]]; try discriminate. intros H. injection H as -> ->. reflexivity.
Qed.
Lemma load_defs i x k : stkLoad i = Some (x, k) -> rdefs t i = [x] /\ ruses t i = [].
Proof using ldF.
  unfold stkLoad. destruct (Nat.eqb_spec (opc i) opcLdStk) as [E|]; [|discriminate]. intros H. apply stk_ops in H.
  unfold rdefs, ruses, fops. rewrite E, ldF, H. split; reflexivity.
Qed.
Lemma store_uses i x k : stkStore i = Some (x, k) -> ruses t i = [x] /\ rdefs t i = [].
Proof using stF.
  unfold stkStore. destruct (Nat.eqb_spec (opc i) opcStStk) as [E|]; [|discriminate]. intros H. apply stk_ops in H.
  unfold rdefs, ruses, fops. rewrite E, stF, H. split; reflexivity.
Qed.
Lemma store_load i x k : stkStore i = Some (x, k) -> stkLoad i = None.
Proof.
  unfold stkStore, stkLoad. destruct (Nat.eqb_spec (opc i) opcStStk) as [->|]; [|discriminate]. reflexivity.
Qed.

Definition putSl (f : nat -> Z) (k : nat) (z : Z) : nat -> Z := fun j => if Nat.eqb j k then z else f j.
Lemma rexec_off i s s' : offU s s' -> (forall x k, stkLoad i = Some (x, k) -> SL s k = SL s' k) ->
  (In u (vuses t i) -> RG s (Virt u) = RG s' (Virt u)) ->
  offU (fst (rexec t i s)) (fst (rexec t i s')) /\ snd (rexec t i s) = snd (rexec t i s') /\
  (In u (vdefs t i) -> RG (fst (rexec t i s)) (Virt u) = RG (fst (rexec t i s')) (Virt u)) /\
  (~ In u (vdefs t i) -> RG (fst (rexec t i s)) (Virt u) = RG s (Virt u) /\
                         RG (fst (rexec t i s')) (Virt u) = RG s' (Virt u)) /\
  match stkStore i with
  | Some (x, k) => SL (fst (rexec t i s)) = putSl (SL s) k (RG s x) /\ SL (fst (rexec t i s')) = putSl (SL s') k (RG s x)
  | None => SL (fst (rexec t i s)) = SL s /\ SL (fst (rexec t i s')) = SL s'
  end.
Proof using ldF stF.
  intros [R Wd] Ld U. unfold rexec. destruct (stkLoad i) as [[x k]|] eqn:El.
  - destruct (load_defs i x k El) as [D _]. cbn [fst snd RG SL WD]. specialize (Ld x k eq_refl).
    assert (Ns : stkStore i = None).
    { destruct (stkStore i) as [[y j]|] eqn:Es; [|reflexivity]. apply store_load in Es. congruence. }
    rewrite Ns. split; [|split; [reflexivity|split; [|split; [|auto]]]].
    + split; [|exact Wd]. cbn. intros r N. rewrite Ld. destruct (reg_dec r x) as [->|Nx]; [now rewrite !wr_same|].
      rewrite !wr_ne by exact Nx. auto.
    + intros H. apply in_vdefs in H. rewrite D in H. destruct H as [->|[]]. now rewrite !wr_same.
    + intros H. assert (N : Virt u <> x). { intros E. apply H, in_vdefs. rewrite D, E. now left. }
      rewrite !wr_ne by exact N. auto.
  - destruct (stkStore i) as [[x k]|] eqn:Es.
    + destruct (store_uses i x k Es) as [Us D]. cbn [fst snd RG SL WD].
      assert (X : RG s' x = RG s x).
      { destruct (reg_dec x (Virt u)) as [->|N]; [|symmetry; auto]. symmetry. apply U, in_vuses. rewrite Us. now left. }
      split; [split; auto|]. split; [reflexivity|]. split; [|split; [auto|]].
      * intros H. apply in_vdefs in H. rewrite D in H. destruct H.
      * rewrite X. split; reflexivity.
    + assert (A : rargs t (RG s) i = rargs t (RG s') i) by (apply rargs_off; auto).
      assert (B : map (fun n => RG s (Phys n)) (rd t i) = map (fun n => RG s' (Phys n)) (rd t i)).
      { apply map_ext. intros n. apply R. discriminate. }
      rewrite A, B, Wd. cbn [fst snd RG SL WD].
      split; [|split; [reflexivity|split; [|split; [|auto]]]].
      * split; [|reflexivity]. cbn. intros r N.
        apply (wrAll_agree (fun x => x <> Virt u)); [|now left]. intros x Hx. now apply clobber_off.
      * intros H. apply in_vdefs in H. apply (wrAll_agree (fun x => False)); [intros x []|now right].
      * intros H. rewrite in_vdefs in H. rewrite !wrAll_other by exact H. split; reflexivity.
Qed.

(** ** a register that is not live does not matter *)
Variable p : mfunc.
Lemma dead_blk b blk : nth_error p b = Some blk -> forall suf pfx d s s', blk = pfx ++ suf -> offU s s' -> SL s = SL s' ->
  (liveAt t p b (length pfx) u -> RG s (Virt u) = RG s' (Virt u)) ->
  offU (fst (rrunB t suf s d)) (fst (rrunB t suf s' d)) /\ SL (fst (rrunB t suf s d)) = SL (fst (rrunB t suf s' d)) /\
  snd (rrunB t suf s d) = snd (rrunB t suf s' d) /\
  (liveAt t p b (length blk) u -> RG (fst (rrunB t suf s d)) (Virt u) = RG (fst (rrunB t suf s' d)) (Virt u)).
Proof using ldF stF.
  intros Eb. induction suf as [|i suf IH]; intros pfx d s s' E O Sl L; cbn [rrunB].
  - rewrite app_nil_r in E. subst pfx. auto.
  - assert (Ei : nth_error blk (length pfx) = Some i) by (rewrite E, nth_error_app2, Nat.sub_diag; [reflexivity|lia]).
    destruct (rexec_off i s s' O) as (A & B & C & D & F).
    + intros x k _. now rewrite Sl.
    + intros Hu. apply L. eapply live_use; eauto.
    + destruct (rexec t i s) as [s1 d1], (rexec t i s') as [s1' d1']. cbn [fst snd] in *. subst d1'.
      apply (IH (pfx ++ [i])); [now rewrite <- app_assoc|exact A| |].
      * destruct (stkStore i) as [[x k]|]; destruct F as [-> ->]; now rewrite Sl.
      * rewrite app_length, Nat.add_1_r. intros Lv. destruct (in_dec Nat.eq_dec u (vdefs t i)) as [Hd|Hd]; [auto|].
        destruct (D Hd) as [-> ->]. apply L. eapply live_pass; eauto.
Qed.
Lemma dead_irrelevant n : forall b s s', offU s s' -> SL s = SL s' ->
  (liveAt t p b 0 u -> RG s (Virt u) = RG s' (Virt u)) -> robs (rrunF t p n b s) = robs (rrunF t p n b s').
Proof using ldF stF.
  induction n as [|n IH]; intros b s s' O Sl L; cbn [rrunF].
  - unfold robs. cbn. now rewrite (proj2 O).
  - destruct (nth_error p b) as [blk|] eqn:Eb; [|unfold robs; cbn; now rewrite (proj2 O)].
    destruct (dead_blk b blk Eb blk [] 0 s s' eq_refl O Sl L) as (A & B & C & D).
    destruct (rrunB t blk s 0) as [s1 d1], (rrunB t blk s' 0) as [s1' d1']. cbn [fst snd] in *. subst d1'.
    destruct (rnext b (lastKind t blk) d1) as [b'|] eqn:En; [|unfold robs; cbn; now rewrite (proj2 A)].
    apply IH; [exact A|exact B|]. intros Lv. apply D. eapply live_edge; [exact Eb| |exact Lv].
    apply (rnext_succs t p b blk d1 b' Eb En). inversion Lv; subst; apply nth_error_Some; congruence.
Qed.
End Off.

(** the instruction writes [z] to the register and changes nothing else *)
Definition onlyWrites {W} (t : mach W) (u : nat) (i : inst) (z : Z) (s : rst W) : Prop :=
  (forall x, RG (fst (rexec t i s)) x = wr (RG s) (Virt u) z x) /\
  SL (fst (rexec t i s)) = SL s /\ WD (fst (rexec t i s)) = WD s.
(* ------------------------------------------------------------------ *)
Section Sim.
Context {W : Type}.
Variable t : mach W.
Variable zeroR : nat -> bool.
Variable u : nat.
Variables drop fallback : bool.
Variables reload store : inst.
Hypothesis ldF : ofl t opcLdStk = [FDef; FMeta].
Hypothesis stF : ofl t opcStStk = [FUse; FMeta].

(** where the value can be fetched from, as a function of the slots, and the slots that are the same in both programs *)
Variable src : (nat -> Z) -> Z.
Variable same : nat -> Prop.
Hypothesis srcE : forall f g, (drop = true -> forall k, f k = g k) -> drop = true -> src f = src g.
Hypothesis reloadX : forall s : rst W, onlyWrites t u reload (src (SL s)) s.
Hypothesis storeX : drop = false -> exists k, ~ same k /\ (forall f z, src (putSl f k z) = z) /\
  forall s : rst W, rexec t store s = (RSt (RG s) (putSl (SL s) k (RG s (Virt u))) (WD s), 0).
(** the instructions of the given code *)
Variable okI : inst -> Prop.
Hypothesis loadOk : forall i x k, okI i -> stkLoad i = Some (x, k) -> same k.
Hypothesis keepOk : forall i x k f z, okI i -> stkStore i = Some (x, k) -> src (putSl f k z) = src f.
Hypothesis allSame : drop = true -> forall k, same k.
Hypothesis dropX : forall i (s : rst W), okI i -> drop = true -> In u (vdefs t i) ->
  onlyWrites t u i (src (SL s)) s.

Definition R (a b : bool) (s s' : rst W) : Prop :=
  offU u s s' /\ (forall k, same k -> SL s k = SL s' k) /\
  (a = true -> src (SL s') = RG s (Virt u)) /\ (b = true -> RG s' (Virt u) = RG s (Virt u)).

Lemma old_step i a b s s' : okI i -> (drop = true -> a = true) -> R a b s s' -> (usesU t u i && negb b = false) ->
  (defsU t u i = true -> drop = false) ->
  R (if defsU t u i then false else a) (if defsU t u i then true else b) (fst (rexec t i s)) (fst (rexec t i s')) /\
  snd (rexec t i s) = snd (rexec t i s').
Proof using ldF stF loadOk keepOk.
  intros OK DA (O & Sl & A & B) U D. unfold usesU, defsU in *.
  destruct (rexec_off t u ldF stF i s s' O) as (E1 & E2 & E3 & E4 & E5).
  - intros x k E. apply Sl. exact (loadOk i x k OK E).
  - intros H. apply nmem_In in H. rewrite H in U. cbn in U. apply negb_false_iff in U. symmetry. auto.
  - split; [|exact E2]. split; [exact E1|].
    assert (S1 : forall k, same k -> SL (fst (rexec t i s)) k = SL (fst (rexec t i s')) k).
    { intros k Hk. destruct (stkStore i) as [[x j]|]; destruct E5 as [-> ->]; [|auto]. unfold putSl.
      destruct (Nat.eqb k j); auto. }
    split; [exact S1|]. destruct (nmem u (vdefs t i)) eqn:Ed.
    + apply nmem_In in Ed. split; [discriminate|]. intros _. symmetry. auto.
    + apply nmem_nIn in Ed. destruct (E4 Ed) as [-> ->]. split; [|exact B]. intros Ha. rewrite <- (A Ha).
      destruct (stkStore i) as [[x j]|] eqn:Es; destruct E5 as [_ ->]; [|reflexivity]. exact (keepOk i x j _ _ OK Es).
Qed.

Lemma items_sim l : forall a b a' b' s s' d d',
  (forall i, In i (orig l) -> okI i) -> (drop = true -> a = true) -> chk t u drop a b l = Some (a', b') -> R a b s s' ->
  R a' b' (fst (rrunB t (orig l) s d)) (fst (rrunB t (emit reload store l) s' d')) /\
  (forall l' i, l = l' ++ [Old i] ->
     snd (rrunB t (orig l) s d) = snd (rrunB t (emit reload store l) s' d')).
Proof using ldF stF loadOk keepOk reloadX storeX dropX allSame srcE.
  induction l as [|x l IH]; intros a b a' b' s s' d d' OK DA C H; cbn [chk] in C.
  - injection C as <- <-. cbn. split; [exact H|]. intros [|] ? X; discriminate.
  - assert (Cut : forall i l', x :: l = l' ++ [Old i] -> l <> [] -> exists l1, l = l1 ++ [Old i]).
    { intros i [|y l'] X N; cbn in X; [injection X as -> ->; contradiction|]. injection X as -> ->. eauto. }
    destruct x as [i| | |i].
    + change (orig (Old i :: l)) with (i :: orig l) in *.
      change (emit reload store (Old i :: l)) with (i :: emit reload store l). cbn [rrunB].
      destruct (usesU t u i && negb b) eqn:U; [discriminate|].
      assert (D : defsU t u i = true -> drop = false).
      { intros E. rewrite E in C. destruct drop; [discriminate|reflexivity]. }
      destruct (old_step i a b s s' (OK i (or_introl eq_refl)) DA H U D) as [H1 H2].
      destruct (rexec t i s) as [s1 d1], (rexec t i s') as [s1' d1']. cbn [fst snd] in *. subst d1'.
      assert (C' : chk t u drop (if defsU t u i then false else a) (if defsU t u i then true else b) l = Some (a', b')).
      { destruct (defsU t u i); [destruct drop; [discriminate|]|]; exact C. }
      destruct (IH (if defsU t u i then false else a) (if defsU t u i then true else b) a' b' s1 s1' d1 d1) as [I1 I2]; [intros; apply OK; now right| |exact C'|exact H1|].
      { intros Ed. destruct (defsU t u i); [rewrite D in Ed by reflexivity; discriminate|auto]. }
      split; [exact I1|]. intros l' j E. destruct l as [|y l0]; [reflexivity|].
      destruct (Cut j l' E ltac:(discriminate)) as [l1 E1]. exact (I2 l1 j E1).
    + change (orig (Reload :: l)) with (orig l) in *.
      change (emit reload store (Reload :: l)) with (reload :: emit reload store l). cbn [rrunB].
      destruct (reloadX s') as (X1 & X2 & X3). destruct (rexec t reload s') as [s1' d1']. cbn [fst] in X1, X2, X3.
      destruct a; [|discriminate]. destruct H as (O & Sl & A & B).
      destruct (IH true true a' b' s s1' d d1') as [I1 I2]; [auto|auto|exact C| |].
      { split; [|split; [rewrite X2; exact Sl|split; [rewrite X2; exact A|]]].
        - split; [|rewrite X3; exact (proj2 O)]. intros r N. rewrite X1, wr_ne by exact N. now apply O.
        - intros _. rewrite X1, wr_same. now apply A. }
      split; [exact I1|]. intros l' j E. destruct l as [|y l0]; [destruct l' as [|? [|]]; discriminate|].
      destruct (Cut j l' E ltac:(discriminate)) as [l1 E1]. exact (I2 l1 j E1).
    + change (orig (Store :: l)) with (orig l) in *.
      change (emit reload store (Store :: l)) with (store :: emit reload store l). cbn [rrunB].
      destruct (b && negb drop) eqn:Eb; [|discriminate]. apply andb_true_iff in Eb as [-> Eb]. apply negb_true_iff in Eb.
      destruct H as (O & Sl & A & B).
        destruct (storeX Eb) as (k & K1 & K2 & ->).
        destruct (IH true true a' b' s (RSt (RG s') (putSl (SL s') k (RG s' (Virt u))) (WD s')) d 0) as [I1 I2]; [auto|auto|exact C| |].
        { split; [exact O|]. split; [|split; [|exact B]].
          - cbn. intros j Hj. unfold putSl. destruct (Nat.eqb_spec j k) as [->|]; [contradiction|auto].
          - cbn. intros _. rewrite K2. auto. }
        split; [exact I1|]. intros l' j E. destruct l as [|y l0]; [destruct l' as [|? [|]]; discriminate|].
        destruct (Cut j l' E ltac:(discriminate)) as [l1 E1]. exact (I2 l1 j E1).
    + destruct (drop && defsU t u i && negb (usesU t u i)) eqn:X; [|discriminate].
      apply andb_true_iff in X as [X _]. apply andb_true_iff in X as [X1 X2].
      change (orig (Drop i :: l)) with (i :: orig l) in *.
      change (emit reload store (Drop i :: l)) with (emit reload store l). cbn [rrunB].
      pose proof (dropX i s (OK i (or_introl eq_refl)) X1 ltac:(now apply nmem_In)) as Ex.
      destruct Ex as (Y1 & Y2 & Y3). destruct (rexec t i s) as [s1 d1]. cbn [fst] in Y1, Y2, Y3. rewrite (DA X1) in *.
      destruct H as (O & Sl & A & B).
      assert (Sv : src (SL s) = RG s (Virt u)).
      { rewrite <- (A eq_refl). apply srcE; [|exact X1]. intros _ k. apply Sl. now apply allSame. }
      destruct (IH true b a' b' s1 s' d1 d') as [I1 I2];
        [intros; apply OK; now right|auto|exact C| |].
      { split; [|split; [rewrite Y2; exact Sl|split]].
        - split; [|rewrite Y3; exact (proj2 O)]. intros r N. rewrite Y1, wr_ne by exact N. now apply O.
        - intros _. rewrite Y1, wr_same, Sv. auto.
        - rewrite Y1, wr_same, Sv. exact B. }
      split; [exact I1|]. intros l' j E. destruct l as [|y l0]; [destruct l' as [|? [|]]; discriminate|].
      destruct (Cut j l' E ltac:(discriminate)) as [l1 E1]. exact (I2 l1 j E1).
Qed.

Hypothesis reloadPhys : forall i, hasPhys t zeroR FDef i reload = false.
Hypothesis storePhys : forall i, hasPhys t zeroR FUse i store = false /\ hasPhys t zeroR FDef i store = false.
Variable p : mfunc.
Hypothesis pOk : forall blk, In blk p ->
  blk <> [] /\ spillable t zeroR u drop blk = true /\ forall i, In i blk -> okI i.

Let q : mfunc := spillFn t zeroR u drop fallback reload store p.

Lemma run_spill n : forall b s s', R true false s s' -> robs (rrunF t p n b s) = robs (rrunF t q n b s').
Proof using ldF stF loadOk keepOk reloadX storeX dropX allSame srcE reloadPhys storePhys pOk.
  induction n as [|n IH]; intros b s s' H; cbn [rrunF].
  - unfold robs. cbn. destruct H as [[_ Wd] _]. now rewrite Wd.
  - unfold q, spillFn. rewrite nth_error_map. destruct (nth_error p b) as [blk|] eqn:Eb; cbn [option_map].
    2:{ unfold robs. cbn. destruct H as [[_ Wd] _]. now rewrite Wd. }
    destruct (pOk blk (nth_error_In _ _ Eb)) as (N & S & OK).
    destruct (spill_ok t zeroR u drop fallback reload store reloadPhys storePhys blk N S)
      as (E & (b1 & C) & l & i & El). unfold spillBlk.
    set (its := spillItems t zeroR u drop fallback reload store blk) in *.
    destruct (items_sim its true false true b1 s s' 0 0) as [I1 I2]; [now rewrite E|auto|exact C|exact H|].
    rewrite E in I1, I2. specialize (I2 l i El).
    assert (Lk : lastKind t (emit reload store its) = lastKind t blk).
    { rewrite <- E, El. unfold emit, orig. rewrite !flat_map_app. cbn. unfold lastKind. rewrite !rev_app_distr. reflexivity. }
    rewrite Lk. destruct (rrunB t blk s 0) as [s1 d1], (rrunB t (emit reload store its) s' 0) as [s1' d1'].
    cbn [fst snd] in *. subst d1'.
    assert (I0 : R true false s1 s1').
    { destruct I1 as (A & B & D & F). split; [exact A|]. split; [exact B|]. split; [exact D|discriminate]. }
    destruct (rnext b (lastKind t blk) d1) as [b'|]; [now apply IH|].
    unfold robs. cbn. destruct I1 as [[_ Wd] _]. now rewrite Wd.
Qed.

Theorem spill_same : ~ liveAt t p 0 0 u -> rsame t p q.
Proof using ldF stF loadOk keepOk reloadX storeX dropX allSame srcE reloadPhys storePhys pOk.
  intros L n s. set (s0 := RSt (wr (RG s) (Virt u) (src (SL s))) (SL s) (WD s)).
  rewrite (dead_irrelevant t u ldF stF p n 0 s s0).
  - apply run_spill. split; [|split; [reflexivity|split]].
    + split; [|reflexivity]. cbn. intros r N. now apply wr_ne.
    + cbn. intros _. now rewrite wr_same.
    + discriminate.
  - split; [|reflexivity]. cbn. intros r N. symmetry. now apply wr_ne.
  - reflexivity.
  - intros X. contradiction.
Qed.
End Sim.

(* ------------------------------------------------------------------ *)
(** * The three ways to fetch the value *)
Definition ldSlot (u k : nat) : inst := Inst opcLdStk [OReg (Virt u); OStk k] 0.
Definition stSlot (u k : nat) : inst := Inst opcStStk [OReg (Virt u); OStk k] 0.

Section Modes.
Context {W : Type}.
Variable t : mach W.
Variable zeroR : nat -> bool.
Variable u : nat.
Variable fallback : bool.
Hypothesis ldF : ofl t opcLdStk = [FDef; FMeta].
Hypothesis stF : ofl t opcStStk = [FUse; FMeta].

(** InstFlagLoadConstant instructions: the collection of 188-222, for the register [u]; [None]: no entry yet,
    [Some None]: more than one definition or one that is no constant *)
Definition constStep (a : option (option inst)) (i : inst) : option (option inst) :=
  if constF t (opc i) then
    match ops i with
    | OReg (Virt v) :: _ => if Nat.eqb v u then match a with None => Some (Some i) | Some _ => Some None end else a
    | _ => a
    end
  else if nmem u (vdefs t i) then Some None else a.
Definition constOf (p : mfunc) : option inst :=
  match fold_left constStep (concat p) None with Some (Some c) => Some c | _ => None end.
(** 179-187: stack slots of arguments ([isArgument]); the first entry stays *)
Definition argStep (isArgument : nat -> bool) (a : option nat) (i : inst) : option nat :=
  if Nat.eqb (opc i) opcLdStk then
    match ops i with
    | OReg (Virt v) :: OStk k :: _ => if Nat.eqb v u && isArgument k then match a with None => Some k | Some _ => a end else a
    | _ => a
    end
  else a.
Definition argOfU (isArgument : nat -> bool) (p : mfunc) : option nat := match p with [] => None | blk :: _ => fold_left (argStep isArgument) blk None end.

(** 622-638: which way is taken; [k]: the new stack object.  The code collects constants and arguments once, before
    the first register is spilled; copies of the defining instruction are made after it was erased (a read of freed
    memory in the code: here the instruction is still what it was). *)
Inductive fetch := FSlot (k : nat) | FArg (k : nat) | FConst (c : inst).
Definition fetchOf (isArgument : nat -> bool) (p : mfunc) (k : nat) : fetch :=
  match argOfU isArgument p with
  | Some j => FArg j
  | None => match constOf p with Some c => FConst c | None => FSlot k end
  end.
Definition spillBy (f : fetch) (p : mfunc) : mfunc :=
  match f with
  | FSlot k => spillFn t zeroR u false fallback (ldSlot u k) (stSlot u k) p
  | FArg j => spillFn t zeroR u true fallback (ldSlot u j) (stSlot u j) p
  | FConst c => spillFn t zeroR u true fallback c (stSlot u 0) p
  end.

(** the slot is not touched *)
Definition freshSlot (k : nat) (p : mfunc) : Prop :=
  forall blk i x, In blk p -> In i blk -> stkLoad i <> Some (x, k) /\ stkStore i <> Some (x, k).
Definition readOnlySlot (k : nat) (p : mfunc) : Prop :=
  forall blk i x, In blk p -> In i blk -> stkStore i <> Some (x, k).

Lemma noPhys_ld k f i : hasPhys t zeroR f i (ldSlot u k) = false.
Proof. unfold hasPhys. cbn. destruct (ofl t (opc i)) as [|a [|b l]]; cbn; try reflexivity. now destruct l. Qed.
Lemma noPhys_st k f i : hasPhys t zeroR f i (stSlot u k) = false.
Proof. unfold hasPhys. cbn. destruct (ofl t (opc i)) as [|a [|b l]]; cbn; try reflexivity. now destruct l. Qed.

Theorem spill_slot p k : freshSlot k p -> ~ liveAt t p 0 0 u ->
  (forall blk, In blk p -> blk <> [] /\ spillable t zeroR u false blk = true) -> rsame t p (spillBy (FSlot k) p).
Proof using ldF stF.
  intros F L P. cbn [spillBy].
  refine (spill_same t zeroR u false fallback (ldSlot u k) (stSlot u k) ldF stF (fun f => f k) (fun j => j <> k)
    _ _ _ (fun i => forall x, stkLoad i <> Some (x, k) /\ stkStore i <> Some (x, k)) _ _ _ _ _ _ p _ L).
  - discriminate.
  - intros s. repeat split.
  - intros _. exists k. split; [tauto|]. split; [intros f z; unfold putSl; now rewrite Nat.eqb_refl|]. reflexivity.
  - intros i x j H E ->. now apply (proj1 (H x)) in E.
  - intros i x j f z H E. unfold putSl. destruct (Nat.eqb_spec k j) as [<-|]; [|reflexivity]. now apply (proj2 (H x)) in E.
  - discriminate.
  - discriminate.
  - intros i. apply noPhys_ld.
  - intros i. split; apply noPhys_st.
  - intros blk Hb. destruct (P blk Hb) as [P1 P2]. split; [exact P1|]. split; [exact P2|]. intros i Hi x. now apply (F blk).
Qed.

Theorem spill_arg p k : readOnlySlot k p -> ~ liveAt t p 0 0 u ->
  (forall blk i, In blk p -> In i blk -> In u (vdefs t i) -> opc i = opcLdStk /\ ops i = [OReg (Virt u); OStk k]) ->
  (forall blk, In blk p -> blk <> [] /\ spillable t zeroR u true blk = true) -> rsame t p (spillBy (FArg k) p).
Proof using ldF stF.
  intros F L D P. cbn [spillBy].
  refine (spill_same t zeroR u true fallback (ldSlot u k) (stSlot u k) ldF stF (fun f => f k) (fun j => True)
    _ _ _ (fun i => (forall x, stkStore i <> Some (x, k)) /\ (In u (vdefs t i) -> opc i = opcLdStk /\ ops i = [OReg (Virt u); OStk k]))
    _ _ _ _ _ _ p _ L).
  - intros f g H _. now apply H.
  - intros s. repeat split.
  - discriminate.
  - auto.
  - intros i x j f z [H _] E. unfold putSl. destruct (Nat.eqb_spec k j) as [<-|]; [|reflexivity]. now apply H in E.
  - auto.
  - intros i s [_ H] _ Hu. destruct (H Hu) as [E1 E2]. unfold onlyWrites, rexec, stkLoad, slotOf. rewrite E1, E2, Nat.eqb_refl. repeat split.
  - intros i. apply noPhys_ld.
  - intros i. split; apply noPhys_st.
  - intros blk Hb. destruct (P blk Hb) as [P1 P2]. split; [exact P1|]. split; [exact P2|].
    intros i Hi. split; [intros x; now apply (F blk)|now apply (D blk)].
Qed.

(** an instruction that writes [z] to [u] and does nothing else, wherever it stands *)
Definition isConst (c : inst) (z : Z) : Prop := forall s : rst W, onlyWrites t u c z s.
Theorem spill_const p c z : isConst c z -> ~ liveAt t p 0 0 u ->
  (forall f i, hasPhys t zeroR f i c = false) ->
  (forall blk i, In blk p -> In i blk -> In u (vdefs t i) -> i = c) ->
  (forall blk, In blk p -> blk <> [] /\ spillable t zeroR u true blk = true) -> rsame t p (spillBy (FConst c) p).
Proof using ldF stF.
  intros Z L NP D P. cbn [spillBy].
  refine (spill_same t zeroR u true fallback c (stSlot u 0) ldF stF (fun f => z) (fun j => True)
    _ _ _ (fun i => In u (vdefs t i) -> i = c) _ _ _ _ _ _ p _ L).
  - reflexivity.
  - exact Z.
  - discriminate.
  - auto.
  - reflexivity.
  - auto.
  - intros i s H _ Hu. rewrite (H Hu). apply Z.
  - intros i. apply NP.
  - intros i. split; apply noPhys_st.
  - intros blk Hb. destruct (P blk Hb) as [P1 P2]. split; [exact P1|]. split; [exact P2|].
    intros i Hi. now apply (D blk).
Qed.

(** the collected constant is the only definition of the register *)
Hypothesis constFl : forall o, constF t o = true -> exists fl, ofl t o = FDef :: fl /\ ~ In FDef fl.
Lemma const_vdefs i : constF t (opc i) = true -> In u (vdefs t i) ->
  exists r, ops i = OReg (Virt u) :: r.
Proof using constFl.
  intros C H. destruct (constFl _ C) as (fl & E & N). apply in_vdefs in H. unfold rdefs, fops in H. rewrite E in H.
  destruct (ops i) as [|o r]; [destruct H|]. cbn in H.
  assert (X : ~ In (Virt u) (flat_map (fun x => match x with (FDef, OReg r) => [r] | _ => [] end) (combine fl r))).
  { intros X. apply in_flat_map in X as ([f y] & X1 & X2). apply in_combine_l in X1. destruct f; try destruct X2; contradiction. }
  apply in_app_or in H as [H|H]; [|contradiction]. destruct o as [y| | |]; try destruct H. subst y. eauto. destruct H.
Qed.
Lemma const_fold l : forall a c, fold_left constStep l a = Some (Some c) ->
  (forall i, In i l -> In u (vdefs t i) -> i = c) /\ (forall x, a = Some x -> x = Some c /\ forall i, In i l -> ~ In u (vdefs t i)).
Proof using constFl.
  induction l as [|i l IH]; intros a c H; cbn [fold_left] in H.
  - subst a. split; [intros i []|]. intros x E. injection E as <-. split; [reflexivity|intros i []].
  - destruct (IH _ _ H) as [H1 H2]. unfold constStep in H2. destruct (constF t (opc i)) eqn:C.
    + destruct (in_dec Nat.eq_dec u (vdefs t i)) as [Hu|Hu].
      * destruct (const_vdefs i C Hu) as [r E]. rewrite E, Nat.eqb_refl in H2. destruct a as [x|].
        -- destruct (H2 None eq_refl); discriminate.
        -- destruct (H2 (Some i) eq_refl) as [X Y]. injection X as ->. split; [|discriminate].
           intros j [<-|Hj] Hd; [reflexivity|]. destruct (Y j Hj Hd).
      * assert (Sa : constStep a i = a \/ exists v r, ops i = OReg (Virt v) :: r /\ v = u).
        { unfold constStep. rewrite C. destruct (ops i) as [|[[n|v]| | |] r]; auto. destruct (Nat.eqb_spec v u); eauto. }
        destruct Sa as [Sa|(v & r & E & ->)].
        -- unfold constStep in Sa. rewrite C in Sa. rewrite Sa in H2. split.
           ++ intros j [<-|Hj] Hd; [contradiction|auto].
           ++ intros x E. destruct (H2 x E) as [X Y]. split; [exact X|]. intros j [<-|Hj]; auto.
        -- exfalso. apply Hu, in_vdefs. destruct (constFl _ C) as (fl & F & _). unfold rdefs, fops. rewrite F, E. now left.
    + destruct (nmem u (vdefs t i)) eqn:M.
      * destruct (H2 None eq_refl); discriminate.
      * apply nmem_nIn in M. split.
        -- intros j [<-|Hj] Hd; [contradiction|auto].
        -- intros x E. destruct (H2 x E) as [X Y]. split; [exact X|]. intros j [<-|Hj]; auto.
Qed.
Lemma constOf_only p c : constOf p = Some c -> forall blk i, In blk p -> In i blk -> In u (vdefs t i) -> i = c.
Proof using constFl.
  unfold constOf. destruct (fold_left constStep (concat p) None) as [[x|]|] eqn:E; try discriminate.
  intros H. injection H as <-. intros blk i Hb Hi. apply (proj1 (const_fold _ _ _ E)). apply in_concat. eauto.
Qed.
End Modes.
