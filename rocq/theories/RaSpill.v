(** The spill code of the graph colouring allocator: cmmc/CodeGen/GraphColoringRegisterAllocator.cpp:608-738.
    A register [u] is given up: before its uses its value is fetched again (from its slot, from the stack slot an
    argument arrived in, or by computing a constant again), and after its definitions it is stored (or, if it can be
    fetched without that, the definition is erased). *)
From Coq Require Import ZArith Lia Bool List Arith.
From Verif Require Import GMir RaMir RaLive.
Import ListNotations.

(** what stands in a block while it is rewritten: instructions of the given code, inserted ones, erased definitions *)
Inductive item := Old (i : inst) | Reload | Store | Drop (i : inst).

Section Spill.
Context {W : Type}.
Variable t : mach W.
Variable zeroR : nat -> bool.     (* isZeroRegister *)
Variable u : nat.                 (* the register spilled *)
Variable drop : bool.             (* alreadyInStack || rematerializeConstant *)
Variable fallback : bool.         (* blockList.size() >= minimizeIntervalThreshold *)
Variable reload store : inst.

Definition usesU (i : inst) : bool := nmem u (vuses t i).
Definition defsU (i : inst) : bool := nmem u (vdefs t i).

(** 667-683 and 705-721: an operand of [x] is a physical register where the flag of the instruction [i] is [f].  (The
    code takes the flags of [i], not those of [x]; where [i] has fewer operands it stops the compiler, here the operand
    does not count.) *)
Definition hasPhys (f : opflag) (i x : inst) : bool :=
  existsb (fun y => match y with
    | (g, OReg (Phys n)) =>
        negb (zeroR n) && match f, g with FDef, FDef | FUse, FUse | FMeta, FMeta => true | _, _ => false end
    | _ => false end)
    (combine (ofl t (opc i)) (ops x)).

Definition instOf (x : item) : option inst :=
  match x with Old i => Some i | Reload => Some reload | Store => Some store | Drop _ => None end.

(** 664-698: the reload is placed before the instructions that end [done] (last first) and define physical registers *)
Fixpoint insertLoad (i : inst) (done : list item) : list item :=
  match done with
  | [] => [Reload]
  | x :: r =>
      match instOf x with
      | None => x :: insertLoad i r
      | Some y => if hasPhys FDef i y then x :: insertLoad i r else Reload :: done
      end
  end.
(** 704-733: the store is placed after the instructions that follow and use physical registers *)
Fixpoint insertStore (i : inst) (rest : list item) : list item :=
  match rest with
  | [] => [Store]
  | x :: r =>
      match instOf x with
      | None => x :: insertStore i r
      | Some y => if hasPhys FUse i y then x :: insertStore i r else Store :: rest
      end
  end.
(** 639-737: the loop over a block; [done]: what is behind the iterator, last first *)
Fixpoint go (fuel : nat) (done rest : list item) (loaded : bool) : list item :=
  match fuel with
  | O => rev done ++ rest
  | S n =>
      match rest with
      | [] => rev done
      | Old i :: r =>
          let ld := usesU i && negb loaded in
          let done1 := if ld then insertLoad i done else done in
          let loaded1 := if ld then negb fallback else loaded in
          if defsU i then
            if drop then go n (Drop i :: done1) r false
            else go n (Old i :: done1) (insertStore i r) false
          else go n (Old i :: done1) r loaded1
      | x :: r => go n (x :: done) r loaded
      end
  end.
Definition spillItems (blk : list inst) : list item := go (2 * length blk) [] (map Old blk) false.
Definition emit (l : list item) : list inst := flat_map (fun x => match instOf x with Some i => [i] | None => [] end) l.
Definition spillBlk (blk : list inst) : list inst := emit (spillItems blk).
Definition spillFn (p : mfunc) : mfunc := map spillBlk p.

(* ------------------------------------------------------------------ *)
(** * What the block must satisfy *)
(** The store after a definition must come before the end of the block, and nothing that the store is moved behind may
    mention the register; an erased definition must not use the register, and must not end the block. *)
Fixpoint storeOk (i : inst) (r : list inst) : bool :=
  match r with
  | [] => false
  | x :: r' => if hasPhys FUse i x then negb (usesU x) && negb (defsU x) && storeOk i r' else true
  end.
Fixpoint spillable (blk : list inst) : bool :=
  match blk with
  | [] => true
  | i :: r =>
      (negb (defsU i) || (if drop then negb (usesU i) && match r with [] => false | _ => true end else storeOk i r)) && spillable r
  end.

(* ------------------------------------------------------------------ *)
(** * What is known of the value along a block: whether it can be fetched, whether it is in the register *)
Fixpoint chk (a b : bool) (l : list item) : option (bool * bool) :=
  match l with
  | [] => Some (a, b)
  | Reload :: r => if a then chk true true r else None
  | Store :: r => if b && negb drop then chk true true r else None
  | Drop i :: r => if drop && defsU i && negb (usesU i) then chk a b r else None
  | Old i :: r =>
      if usesU i && negb b then None
      else if defsU i then (if drop then None else chk false true r) else chk a b r
  end.
Definition orig (l : list item) : list inst := flat_map (fun x => match x with Old i | Drop i => [i] | _ => [] end) l.

Lemma chk_app l : forall a b r, chk a b (l ++ r) = match chk a b l with Some (a', b') => chk a' b' r | None => None end.
Proof.
  induction l as [|[i| | |i] l IH]; intros a b r; cbn; [reflexivity|..].
  - destruct (usesU i && negb b); [reflexivity|]. destruct (defsU i); [destruct drop; [reflexivity|]|]; apply IH.
  - destruct a; [apply IH|reflexivity].
  - destruct (b && negb drop); [apply IH|reflexivity].
  - destruct (drop && defsU i && negb (usesU i)); [apply IH|reflexivity].
Qed.
Lemma orig_app l r : orig (l ++ r) = orig l ++ orig r.
Proof. apply flat_map_app. Qed.
Lemma orig_Old l : orig (map Old l) = l.
Proof. induction l as [|i l IH]; [reflexivity|]. unfold orig in *. cbn. now rewrite IH. Qed.

Hypothesis reloadPhys : forall i, hasPhys FDef i reload = false.
Hypothesis storePhys : forall i, hasPhys FUse i store = false /\ hasPhys FDef i store = false.

(** items a reload is moved over do not change what is known, and more is known after them if more is before *)
Definition plain (x : item) : Prop := match x with Old _ | Drop _ => True | _ => False end.
Lemma chk_plain m : (forall x, In x m -> plain x) -> forall a b b', chk a b m = Some (true, b') ->
  a = true /\ chk true true m = Some (true, true).
Proof.
  induction m as [|[i| | |i] m IH]; intros P a b b' H; cbn in *.
  - injection H as -> ->. auto.
  - rewrite andb_false_r. destruct (usesU i && negb b); [discriminate|]. destruct (defsU i).
    + destruct drop; [discriminate|]. apply IH in H; [|auto]. destruct H; discriminate.
    + apply IH in H; auto.
  - destruct (P Reload); auto.
  - destruct (P Store); auto.
  - destruct (drop && defsU i && negb (usesU i)); [|discriminate]. apply IH in H; auto.
Qed.
Lemma insertLoad_split i done : exists m d, done = m ++ d /\ insertLoad i done = m ++ Reload :: d /\ forall x, In x m -> plain x.
Proof using reloadPhys storePhys.
  induction done as [|x r (m & d & E1 & E2 & E3)].
  - exists [], []. split; [reflexivity|]. split; [reflexivity|]. intros x [].
  - cbn [insertLoad]. destruct x as [y| | |y]; cbn [instOf].
    + destruct (hasPhys FDef i y).
      * exists (Old y :: m), d. rewrite E1 at 1. rewrite E2. split; [reflexivity|]. split; [reflexivity|].
        intros x [<-|Hx]; [exact Logic.I|auto].
      * exists [], (Old y :: r). split; [reflexivity|]. split; [reflexivity|]. intros x [].
    + rewrite reloadPhys. exists [], (Reload :: r). split; [reflexivity|]. split; [reflexivity|]. intros x [].
    + rewrite (proj2 (storePhys i)). exists [], (Store :: r). split; [reflexivity|]. split; [reflexivity|]. intros x [].
    + exists (Drop y :: m), d. rewrite E1 at 1. rewrite E2. split; [reflexivity|]. split; [reflexivity|].
      intros x [<-|Hx]; [exact Logic.I|auto].
Qed.
Lemma insertLoad_ok i done b : chk true false (rev done) = Some (true, b) ->
  chk true false (rev (insertLoad i done)) = Some (true, true) /\ orig (rev (insertLoad i done)) = orig (rev done).
Proof using reloadPhys storePhys.
  intros H. destruct (insertLoad_split i done) as (m & d & -> & -> & P).
  rewrite !rev_app_distr in *. cbn [rev]. rewrite <- app_assoc. cbn [app]. split.
  - rewrite chk_app in H |- *. destruct (chk true false (rev d)) as [[a1 b1]|]; [|discriminate].
    destruct (chk_plain (rev m) ltac:(intros x Hx; apply P, in_rev, Hx) a1 b1 b H) as [-> X]. cbn. exact X.
  - rewrite !orig_app. reflexivity.
Qed.
Lemma insertStore_split i r : storeOk i r = true ->
  exists pre x post, r = pre ++ x :: post /\ insertStore i (map Old r) = map Old pre ++ Store :: map Old (x :: post) /\
  forall y, In y pre -> usesU y = false /\ defsU y = false.
Proof.
  induction r as [|y r IH]; cbn; [discriminate|]. destruct (hasPhys FUse i y) eqn:E.
  - intros H. apply andb_true_iff in H as [H1 H2]. apply andb_true_iff in H1 as [H0 H1].
    apply negb_true_iff in H0, H1. destruct (IH H2) as (pre & x & post & E1 & E2 & E3).
    exists (y :: pre), x, post. split; [now rewrite E1|]. split; [cbn; now rewrite E2|].
    intros z [<-|Hz]; auto.
  - intros _. exists [], y, r. split; [reflexivity|]. split; [reflexivity|]. intros z [].
Qed.
Lemma spillable_suffix a b : spillable (a ++ b) = true -> spillable b = true.
Proof. induction a; cbn; [auto|]. intros H. apply andb_true_iff in H as [_ H]. auto. Qed.

(** the items end with an instruction that was there, if the block did *)
Definition endsOld (l : list item) (i : inst) : Prop := exists l', l = l' ++ [Old i].
Definition lastI (l : list inst) (i : inst) : Prop := exists l', l = l' ++ [i].

(** What holds at the head of the loop. *)
Record inv (done rest : list item) (loaded : bool) (o : list inst) : Prop := Inv {
  i_orig : orig (rev done) ++ orig rest = o;
  i_chk : exists a b, chk true false (rev done) = Some (a, b) /\ (loaded = true -> b = true) /\
    ((exists r, rest = map Old r /\ a = true /\ spillable r = true /\ (r = [] -> done = [] \/ exists i d, done = Old i :: d)) \/
     (exists pre x post, rest = map Old pre ++ Store :: map Old (x :: post) /\ b = true /\ drop = false /\
       (forall y, In y pre -> usesU y = false /\ defsU y = false) /\ spillable (x :: post) = true)) }.

Lemma go_ok fuel : forall done rest loaded o, inv done rest loaded o ->
  length (orig rest) + length rest <= fuel ->
  orig (go fuel done rest loaded) = o /\ (exists b, chk true false (go fuel done rest loaded) = Some (true, b)) /\
  (o <> [] -> exists l i, go fuel done rest loaded = l ++ [Old i]).
Proof using reloadPhys storePhys.
  assert (End : forall done loaded o, inv done [] loaded o ->
    orig (rev done) = o /\ (exists b, chk true false (rev done) = Some (true, b)) /\
    (o <> [] -> exists l i, rev done = l ++ [Old i])).
  { intros done loaded o [E (a & b & C & L & D)]. cbn in E. rewrite app_nil_r in E. split; [exact E|].
    destruct D as [(r & Er & -> & S & X)|(pre & x & post & Er & _)].
    - destruct r; [|discriminate]. split; [eauto|]. intros N. destruct (X eq_refl) as [->|(i & d & ->)]; [destruct N; symmetry; exact E|].
      cbn. eauto.
    - destruct pre; discriminate. }
  induction fuel as [|fuel IH]; intros done rest loaded o H F.
  - destruct rest; cbn in F; [|lia]. cbn [go]. rewrite app_nil_r. now apply (End done loaded).
  - cbn [go]. destruct rest as [|x r]; [now apply (End done loaded)|].
    destruct H as [E (a & b & C & L & D)].
    destruct D as [(r0 & Er & -> & S & _)|(pre & x0 & post & Er & -> & Dr & Np & S)].
    + destruct r0 as [|i r0]; [discriminate|]. injection Er as -> ->.
      cbn [spillable] in S. apply andb_true_iff in S as [S0 S].
      change (orig (Old i :: map Old r0)) with (i :: orig (map Old r0)) in *. rewrite orig_Old in *. cbn in F.
      set (ld := usesU i && negb loaded). set (done1 := if ld then insertLoad i done else done).
      assert (D1 : orig (rev done1) = orig (rev done) /\ exists b1, chk true false (rev done1) = Some (true, b1) /\
        (ld = true -> b1 = true) /\ (loaded = true -> b1 = true)).
      { subst done1. destruct ld eqn:El.
        - destruct (insertLoad_ok i done b C) as [X Y]. split; [exact Y|]. exists true. auto.
        - split; [reflexivity|]. exists b. split; [exact C|]. split; [discriminate|exact L]. }
      destruct D1 as (O1 & b1 & C1 & L1 & L2). rewrite map_length in F.
      assert (Ub : usesU i && negb b1 = false).
      { destruct (usesU i) eqn:Eu; [|reflexivity]. cbn. assert (X : ld = negb loaded) by (unfold ld; try rewrite Eu; reflexivity).
        destruct loaded; [rewrite L2 by reflexivity|rewrite L1 by exact X]; reflexivity. }
      destruct (defsU i) eqn:Ed.
      * cbn [negb orb] in S0. destruct drop eqn:Edr.
        -- apply IH; [|cbn; rewrite orig_Old, map_length; lia]. split.
           ++ cbn [rev]. rewrite orig_app, O1. cbn. rewrite orig_Old, <- app_assoc. exact E.
           ++ exists true, b1. split; [|split; [discriminate|]].
              ** cbn [rev]. rewrite chk_app, C1. cbn. apply andb_true_iff in S0 as [S0 _].
                 rewrite Edr, Ed, S0. reflexivity.
              ** left. exists r0. split; [reflexivity|]. split; [reflexivity|]. split; [exact S|].
                 intros ->. rewrite andb_false_r in S0. discriminate.
        -- destruct (insertStore_split i r0 S0) as (pre & x & post & E1 & E2 & E3).
           assert (Es : orig (insertStore i (map Old r0)) = r0).
           { rewrite E2, orig_app, orig_Old, E1. f_equal.
             change (orig (Store :: map Old (x :: post))) with (orig (map Old (x :: post))). apply orig_Old. }
           assert (Ls : length (insertStore i (map Old r0)) = 1 + length r0).
           { rewrite E2, E1, !app_length, !map_length. cbn. rewrite map_length. lia. }
           apply IH; [|rewrite Es, Ls; lia]. split.
           ++ cbn [rev]. rewrite orig_app, O1, Es. cbn. rewrite <- app_assoc. exact E.
           ++ exists false, true. split; [|split; [reflexivity|]].
              ** cbn [rev]. rewrite chk_app, C1. cbn [chk]. rewrite Ub, Ed, Edr. reflexivity.
              ** right. exists pre, x, post. split; [exact E2|]. split; [reflexivity|]. split; [exact Edr|]. split; [exact E3|].
                 rewrite E1 in S. now apply spillable_suffix in S.
      * apply IH; [|cbn; rewrite orig_Old, map_length; lia]. split.
        -- cbn [rev]. rewrite orig_app, O1. cbn. rewrite orig_Old, <- app_assoc. exact E.
        -- exists true, b1. split; [|split].
           ++ cbn [rev]. rewrite chk_app, C1. cbn [chk]. rewrite Ub, Ed. reflexivity.
           ++ destruct ld; auto.
           ++ left. exists r0. split; [reflexivity|]. split; [reflexivity|]. split; [exact S|].
              intros _. right. eauto.
    + destruct pre as [|y pre]; cbn [map app] in Er; injection Er as -> ->.
      * cbn in F. change (orig (Store :: map Old (x0 :: post))) with (orig (map Old (x0 :: post))) in *.
        apply IH; [|cbn; lia]. split.
        -- cbn [rev]. rewrite orig_app. cbn [orig flat_map]. rewrite app_nil_r. exact E.
        -- exists true, true. split; [|split; [reflexivity|]].
           ++ cbn [rev]. rewrite chk_app, C. cbn [chk]. rewrite Dr. reflexivity.
           ++ left. exists (x0 :: post). split; [reflexivity|]. split; [reflexivity|]. split; [exact S|]. discriminate.
      * destruct (Np y (or_introl eq_refl)) as [Uy Dy]. rewrite Uy, Dy. cbn [andb].
        match type of F with context [orig (Old y :: ?r)] => change (orig (Old y :: r)) with (y :: orig r) in F end. cbn [length] in F. apply IH; [|lia]. split.
        -- cbn [rev]. rewrite orig_app. cbn [orig flat_map app]. rewrite <- app_assoc. exact E.
        -- exists a, true. split; [|split; [reflexivity|]].
           ++ cbn [rev]. rewrite chk_app, C. cbn [chk]. rewrite Uy, Dy. reflexivity.
           ++ right. exists pre, x0, post. split; [reflexivity|]. split; [reflexivity|]. split; [exact Dr|].
              split; [intros z Hz; apply Np; now right|exact S].
Qed.
Lemma spill_ok blk : blk <> [] -> spillable blk = true ->
  orig (spillItems blk) = blk /\ (exists b, chk true false (spillItems blk) = Some (true, b)) /\
  exists l i, spillItems blk = l ++ [Old i].
Proof using reloadPhys storePhys.
  intros N S. destruct (go_ok (2 * length blk) [] (map Old blk) false blk) as (A & B & C).
  - split; [now rewrite orig_Old|]. exists true, false. split; [reflexivity|]. split; [discriminate|].
    left. exists blk. auto.
  - rewrite orig_Old, map_length. lia.
  - split; [exact A|]. split; [exact B|]. now apply C.
Qed.
End Spill.
