(** C32: the generic machine passes about register copies.
    Models cmmc/CodeGen/Peephole.cpp: removeIdentityCopies 102-113, eliminateStackLoads 115-178,
    removeIndirectCopy 525-628, createIndirectCopy 630-697.
    Hash maps are association lists whose first entry for a key counts. *)
From Coq Require Import ZArith Lia Bool List Arith.
From Verif Require Import GMir.
Import ListNotations.
Local Open Scope Z_scope.

Section Map.
Context {A : Type}.
Fixpoint look (m : list (reg * A)) (r : reg) : option A :=
  match m with [] => None | (x, a) :: m' => if reg_eqb x r then Some a else look m' r end.
Definition put (m : list (reg * A)) (r : reg) (a : A) := (r, a) :: m.
Definition del (m : list (reg * A)) (r : reg) := filter (fun x => negb (reg_eqb (fst x) r)) m.
Lemma look_put m r a x : look (put m r a) x = if reg_eqb r x then Some a else look m x.
Proof. reflexivity. Qed.
Lemma look_del m r x : look (del m r) x = if reg_eqb r x then None else look m x.
Proof.
  induction m as [|[y a] m IH]; cbn.
  - now destruct (reg_eqb r x).
  - destruct (reg_eqb_spec y r) as [->|N]; cbn.
    + fold (del m r). rewrite IH. destruct (reg_eqb_spec r x); reflexivity.
    + fold (del m r). rewrite IH. destruct (reg_eqb_spec y x) as [->|]; [|reflexivity].
      destruct (reg_eqb_spec r x); [congruence|reflexivity].
Qed.
Lemma look_key m r a : look m r = Some a -> In r (map fst m).
Proof.
  induction m as [|[y b] m IH]; cbn; [discriminate|].
  destruct (reg_eqb_spec y r); auto.
Qed.
End Map.

Fixpoint setOp (k : nat) (o : operand) (l : list operand) : list operand :=
  match l, k with
  | [], _ => []
  | _ :: l', O => o :: l'
  | x :: l', S k' => x :: setOp k' o l'
  end.

(** cmmc/CodeGen/ISelInfo.cpp:437-449, register source *)
Definition selectCopyOpcode (d s : reg) : nat :=
  if isPhys d then opcCopyTo else if isPhys s then opcCopyFrom else opcCopy.

(* ------------------------------------------------------------------ *)
(** * The passes *)
Section Passes.
Variable t : target.
(** register classes in matchCopy (InstInfo.cpp:277), operand legality (InstInfo::verify), and which physical
    registers may be forwarded before register allocation (Peephole.cpp:559-562) are left open *)
Variable copyOk : inst -> bool.
Variable legal : inst -> bool.
Variable allow : reg -> bool.

Definition matchCopy (i : inst) : option (reg * reg) := if copyOk i then copyOf t i else None.

(** 102-113 removeIdentityCopies *)
Definition isIdCopy (i : inst) : bool := match matchCopy i with Some (d, x) => reg_eqb d x | None => false end.
Definition removeIdentityCopies (b : list inst) : list inst := filter (fun i => negb (isIdCopy i)) b.

(** 525-628 removeIndirectCopy *)
Record fwd := Fwd { vid : nat; rval : list (reg * (reg * nat)); ver : list (reg * nat) }.
Definition fwd0 := Fwd 0 [] [].
Definition getVersion (f : fwd) (r : reg) : nat * fwd :=
  match look (ver f) r with
  | Some v => (v, f)
  | None => (S (vid f), Fwd (S (vid f)) (rval f) (put (ver f) r (S (vid f))))
  end.
Definition defReg (f : fwd) (r : reg) : fwd :=
  Fwd (S (vid f)) (del (rval f) r) (put (ver f) r (S (vid f))).
(** the register whose value [r] is known to hold.  (The version of a recorded source is always present.) *)
Definition known (f : fwd) (r : reg) : option reg :=
  match look (rval f) r with
  | Some (x, v) => match look (ver f) x with
                   | Some v' => if Nat.eqb v v' then Some x else None
                   | None => None
                   end
  | None => None
  end.
(** 552-581 replaceUse *)
Definition replaced (i : inst) (k : nat) (x : reg) : inst :=
  let ops' := setOp k (OReg x) (ops i) in
  let o := if Nat.eqb (opc i) opcCopy then
             match ops i with [OReg d; OReg _] => selectCopyOpcode d x | _ => opc i end
           else opc i in
  Inst o ops' (place i).
Definition replaceUse (f : fwd) (i : inst) (k : nat) : inst :=
  match nth_error (ops i) k with
  | Some (OReg r) =>
      match known f r with
      | Some x => if negb (allow x) then i else if reg_eqb x r then i
                  else let i' := replaced i k x in if legal i' then i' else i
      | None => i
      end
  | _ => i
  end.
(** 583-590 *)
Fixpoint replaceUses (f : fwd) (fs : list opflag) (k : nat) (i : inst) : inst :=
  match fs with
  | [] => i
  | FUse :: fs' => replaceUses f fs' (S k) (replaceUse f i k)
  | _ :: fs' => replaceUses f fs' (S k) i
  end.
(** 608-619 physical registers after a call *)
Definition clobber (f : fwd) : fwd := fold_left defReg (filter isPhys (map fst (ver f))) f.
Fixpoint indirect (f : fwd) (b : list inst) : list inst :=
  match b with
  | [] => []
  | i0 :: b' =>
      let i := replaceUses f (opfl t (opc i0)) 0 i0 in
      match matchCopy i with
      | Some (d, x) =>
          match known f d with
          | Some y => if reg_eqb y x then indirect f b'
                      else i :: (let f1 := defReg f d in let '(v, f2) := getVersion f1 x in
                                 indirect (Fwd (vid f2) (put (rval f2) d (x, v)) (ver f2)) b')
          | None => i :: (let f1 := defReg f d in let '(v, f2) := getVersion f1 x in
                          indirect (Fwd (vid f2) (put (rval f2) d (x, v)) (ver f2)) b')
          end
      | None =>
          let f1 := fold_left defReg (defs t i) f in
          i :: indirect (if call (flagsOf t i) then clobber f1 else f1) b'
      end
  end.
Definition removeIndirectCopy (b : list inst) : list inst := indirect fwd0 b.

(** 115-178 eliminateStackLoads: spill slot -> (register, version) *)
Fixpoint lookS (m : list (nat * (reg * nat))) (k : nat) : option (reg * nat) :=
  match m with [] => None | (x, a) :: m' => if Nat.eqb x k then Some a else lookS m' k end.
Record stk := Stk { svid : nat; s2r : list (nat * (reg * nat)); sver : list (reg * nat) }.
Definition sDef (f : stk) (r : reg) : stk := Stk (S (svid f)) (s2r f) (put (sver f) r (S (svid f))).
Definition sClobber (f : stk) : stk := fold_left sDef (filter isPhys (map fst (sver f))) f.
Fixpoint stackLoads (f : stk) (b : list inst) : list inst :=
  match b with
  | [] => []
  | i :: b' =>
      (* 131-151 *)
      let '(i', f1) :=
        match stkStore i, stkLoad i with
        | Some (r, k), _ =>
            match look (sver f) r with
            | Some v => (i, Stk (svid f) ((k, (r, v)) :: s2r f) (sver f))
            | None => (i, Stk (S (svid f)) ((k, (r, S (svid f))) :: s2r f) (put (sver f) r (S (svid f))))
            end
        | None, Some (d, k) =>
            match lookS (s2r f) k with
            | Some (r, v) =>
                match look (sver f) r with
                | Some v' => if Nat.eqb v v' then (Inst opcCopy [OReg d; OReg r] (place i), f) else (i, f)
                | None => (i, f)
                end
            | None => (i, f)
            end
        | None, None => (i, f)
        end in
      (* 152-166 *)
      let f2 := fold_left sDef (defs t i') f1 in
      let f3 := if call (flagsOf t i') then sClobber f2 else f2 in
      (* 167-171 *)
      let f4 := match stkLoad i' with
                | Some (d, k) => match look (sver f3) d with
                                 | Some v => Stk (svid f3) ((k, (d, v)) :: s2r f3) (sver f3)
                                 | None => f3
                                 end
                | None => f3
                end in
      i' :: stackLoads f4 b'
  end.
Definition eliminateStackLoads (b : list inst) : list inst := stackLoads (Stk 0 [] []) b.

(** 630-697 createIndirectCopy: value numbers, and for each number the registers that received it, latest first *)
Record vn := Vn { nid : nat; num : list (reg * nat); latest : list (nat * list reg) }.
Fixpoint lookN (m : list (nat * list reg)) (k : nat) : option (list reg) :=
  match m with [] => None | (x, a) :: m' => if Nat.eqb x k then Some a else lookN m' k end.
Definition push (m : list (nat * list reg)) (k : nat) (r : reg) : list (nat * list reg) :=
  (k, r :: match lookN m k with Some l => l | None => [] end) :: m.
Definition vnDef (f : vn) (r : reg) : vn :=
  if isVirt r then Vn (S (nid f)) (put (num f) r (S (nid f))) (push (latest f) (S (nid f)) r) else f.
(** 655-664 drop registers that no longer hold the number *)
Fixpoint popStale (m : list (reg * nat)) (k : nat) (l : list reg) : list reg :=
  match l with
  | [] => []
  | r :: l' => match look m r with
               | Some k' => if Nat.eqb k' k then l else popStale m k l'
               | None => popStale m k l'
               end
  end.
Definition createUse (f : vn) (i : inst) (k : nat) : vn * inst :=
  match nth_error (ops i) k with
  | Some (OReg r) =>
      if isVirt r then
        match look (num f) r with
        | Some n => match lookN (latest f) n with
                    | Some l =>
                        let l' := popStale (num f) n l in
                        (Vn (nid f) (num f) ((n, l') :: latest f),
                         match l' with
                         | x :: _ => if reg_eqb x r then i else Inst (opc i) (setOp k (OReg x) (ops i)) (place i)
                         | [] => i
                         end)
                    | None => (f, i)
                    end
        | None => (f, i)
        end
      else (f, i)
  | _ => (f, i)
  end.
Fixpoint createUses (f : vn) (fs : list opflag) (k : nat) (i : inst) : vn * inst :=
  match fs with
  | [] => (f, i)
  | FUse :: fs' => let '(f', i') := createUse f i k in createUses f' fs' (S k) i'
  | _ :: fs' => createUses f fs' (S k) i
  end.
Fixpoint create (f : vn) (b : list inst) : list inst :=
  match b with
  | [] => []
  | i0 :: b' =>
      let '(f, i) := createUses f (opfl t (opc i0)) 0 i0 in
      i :: create
        (match match matchCopy i with
               | Some (d, x) => if isVirt d && isVirt x then
                                  match look (num f) x with Some n => Some (d, n) | None => None end
                                else None
               | None => None
               end with
         | Some (d, n) => Vn (nid f) (put (num f) d n) (push (latest f) n d)
         | None =>
             let f1 := fold_left vnDef (defs t i) f in
             if call (flagsOf t i) then Vn (nid f1) (num f1) [] else f1
         end) b'
  end.
Definition createIndirectCopy (b : list inst) : list inst := create (Vn 0 [] []) b.
End Passes.

(* ------------------------------------------------------------------ *)
(** * Proofs *)
Section Proofs.
Variable t : target.
Hypothesis OK : okTarget t.
Variable copyOk : inst -> bool.
Variable legal : inst -> bool.
Variable allow : reg -> bool.

(** instruction-by-instruction simulation of one block: [R] relates what the pass knows to the state *)
Definition outs_agree (x y : state * control) : Prop := agree All (fst x) (fst y) /\ snd x = snd y.

Lemma agree_exec i s s' : agree All s s' ->
  agree All (fst (exec t i s)) (fst (exec t i s')) /\ snd (exec t i s) = snd (exec t i s').
Proof using OK.
  intros A. destruct (exec_agree t OK All i s s' A) as [X Y]; [unfold All; auto|unfold All; auto|].
  split; [|exact Y]. eapply agree_weaken; [|exact X]. unfold All. auto.
Qed.
Lemma cons_agree i i' b b' s s' :
  exec t i' s = exec t i s -> agree All s s' ->
  (forall s1', exec t i s = (fst (exec t i s), Next) -> agree All (fst (exec t i s)) s1' ->
     outs_agree (runB t b (fst (exec t i s))) (runB t b' s1')) ->
  outs_agree (runB t (i :: b) s) (runB t (i' :: b') s').
Proof using OK.
  intros E A H. cbn [runB]. destruct (agree_exec i' s s' A) as [X Y]. rewrite E in X, Y.
  destruct (exec t i s) as [s1 c]. destruct (exec t i' s') as [s1' c']. cbn in X, Y, H. subst c'.
  destruct c; [apply H; auto|split; auto|split; auto].
Qed.
Lemma drop_agree i b b' s s' :
  (exists s1, exec t i s = (s1, Next) /\ agree All s1 s') ->
  (forall s1, agree All s1 s' -> exec t i s = (s1, Next) -> outs_agree (runB t b s1) (runB t b' s')) ->
  outs_agree (runB t (i :: b) s) (runB t b' s').
Proof. clear OK. intros (s1 & E & A) H. cbn [runB]. rewrite E. auto. Qed.

(** ** removeIdentityCopies *)
Lemma identity_block b : forall s s', agree All s s' ->
  outs_agree (runB t b s) (runB t (removeIdentityCopies t copyOk b) s').
Proof using OK.
  induction b as [|i b IH]; intros s s' A; [split; auto|].
  unfold removeIdentityCopies; cbn [filter]. fold (removeIdentityCopies t copyOk b).
  destruct (isIdCopy t copyOk i) eqn:E; cbn [negb].
  - unfold isIdCopy, matchCopy in E. destruct (copyOk i); [|discriminate].
    destruct (copyOf t i) as [[d x]|] eqn:C; [|discriminate].
    destruct (reg_eqb_spec d x); [subst x|discriminate]. cbn [runB]. rewrite (exec_copy _ _ _ _ _ C).
    apply IH. destruct A as [A1 A2 A3 A4]. constructor; cbn; auto. intros r Hr. unfold wr.
    destruct (reg_eqb_spec r d); [subst; auto|auto].
  - apply cons_agree; auto.
Qed.

(** ** rewriting the used operands *)
Lemma flagged_setOp i fs k r x :
  nth_error fs k = Some FUse -> nth_error (ops i) k = Some (OReg r) ->
  forall g, g x = g r ->
  map (argOf g) (combine fs (setOp k (OReg x) (ops i))) = map (argOf g) (combine fs (ops i)) /\
  flat_map (fun y => match y with (FDef, OReg r) => [r] | _ => [] end) (combine fs (setOp k (OReg x) (ops i))) =
  flat_map (fun y => match y with (FDef, OReg r) => [r] | _ => [] end) (combine fs (ops i)).
Proof.
  clear OK. intros Hf Ho g Eg. revert fs k Hf Ho. induction (ops i) as [|o l IH]; intros fs k Hf Ho; [destruct k; discriminate|].
  destruct fs as [|f fs]; [destruct k; discriminate|].
  destruct k as [|k]; cbn in Hf, Ho |- *.
  - injection Hf as ->. injection Ho as ->. cbn. rewrite Eg. auto.
  - destruct (IH fs k Hf Ho) as [I1 I2]. split; [now f_equal|now rewrite I2].
Qed.

Definition sameInst (i i' : inst) : Prop :=
  opfl t (opc i') = opfl t (opc i) /\ defs t i' = defs t i /\ call (flagsOf t i') = call (flagsOf t i).

Lemma setOp_exec i k r x s :
  nth_error (opfl t (opc i)) k = Some FUse -> nth_error (ops i) k = Some (OReg r) -> G s x = G s r ->
  exec t (Inst (opc i) (setOp k (OReg x) (ops i)) (place i)) s = exec t i s /\
  sameInst i (Inst (opc i) (setOp k (OReg x) (ops i)) (place i)).
Proof using OK.
  intros Hf Ho Eg. destruct (flagged_setOp i (opfl t (opc i)) k r x Hf Ho (G s) Eg) as [Ea Ed].
  assert (SI : sameInst i (Inst (opc i) (setOp k (OReg x) (ops i)) (place i))) by (split; [|split]; auto).
  split; [|exact SI].
  assert (FO : flagsOf t (Inst (opc i) (setOp k (OReg x) (ops i)) (place i)) = flagsOf t i) by reflexivity.
  destruct (copyOf t i) as [[d y]|] eqn:C.
  - destruct (copyOf_ops _ _ _ _ C) as (F & O & RC). rewrite O in Ho. rewrite F in Hf.
    destruct k as [|[|k]]; cbn in Hf, Ho; [discriminate| |destruct k; discriminate]. injection Ho as ->.
    assert (C' : copyOf t (Inst (opc i) (setOp 1 (OReg x) (ops i)) (place i)) = Some (d, x)).
    { unfold copyOf. rewrite FO, RC. cbn [opc ops]. rewrite F, O. reflexivity. }
    rewrite (exec_copy _ _ _ _ _ C), (exec_copy _ _ _ _ _ C'), Eg. reflexivity.
  - assert (C' : copyOf t (Inst (opc i) (setOp k (OReg x) (ops i)) (place i)) = None).
    { unfold copyOf in *. rewrite FO. destruct (regCopy (flagsOf t i)); [|reflexivity]. cbn [opc ops].
      destruct (opfl t (opc i)) as [|[] [|[] [|]]]; try reflexivity.
      destruct k as [|[|k]]; cbn in Hf; [discriminate| |destruct k; discriminate].
      destruct (ops i) as [|o1 [|o2 [|]]]; cbn in Ho |- *; try discriminate.
      - injection Ho as ->. destruct o1; [discriminate|reflexivity..].
      - destruct o1; reflexivity. }
    assert (L1 : stkLoad (Inst (opc i) (setOp k (OReg x) (ops i)) (place i)) = stkLoad i).
    { unfold stkLoad. cbn [opc]. destruct (Nat.eqb_spec (opc i) opcLdStk) as [E|]; [|reflexivity].
      destruct OK as (_ & _ & _ & _ & _ & _ & F & _). rewrite E, F in Hf.
      destruct k as [|[|k]]; cbn in Hf; [discriminate..|destruct k; discriminate]. }
    assert (S1 : stkStore i = None \/ exists q, stkStore i = Some (r, q) /\
                 stkStore (Inst (opc i) (setOp k (OReg x) (ops i)) (place i)) = Some (x, q)).
    { unfold stkStore. cbn [opc]. destruct (Nat.eqb_spec (opc i) opcStStk) as [E|]; [|auto].
      destruct OK as (_ & _ & _ & _ & _ & _ & _ & _ & F & _). rewrite E, F in Hf.
      destruct k as [|[|k]]; cbn in Hf; [|discriminate|destruct k; discriminate].
      unfold slotOf; cbn [ops]. destruct (ops i) as [|o1 [|o2 [|]]]; try discriminate; cbn in Ho; injection Ho as ->; try (left; reflexivity).
      all: destruct o2; try (left; reflexivity). right. eexists. split; reflexivity. }
    assert (S2 : stkStore i = None -> stkStore (Inst (opc i) (setOp k (OReg x) (ops i)) (place i)) = None).
    { unfold stkStore. cbn [opc]. destruct (Nat.eqb_spec (opc i) opcStStk) as [E|]; [|auto].
      destruct OK as (_ & _ & _ & _ & _ & _ & _ & _ & F & _). rewrite E, F in Hf.
      destruct k as [|[|k]]; cbn in Hf; [|discriminate|destruct k; discriminate].
      unfold slotOf; cbn [ops]. destruct (ops i) as [|o1 [|o2 [|]]]; try discriminate; cbn in Ho; injection Ho as ->; auto.
      all: destruct o2; auto; discriminate. }
    unfold exec. rewrite C, C', FO, L1.
    replace (args t (G s) (Inst (opc i) (setOp k (OReg x) (ops i)) (place i))) with (args t (G s) i) by (symmetry; exact Ea).
    replace (tys t (Inst (opc i) (setOp k (OReg x) (ops i)) (place i))) with (tys t i)
      by (unfold tys; rewrite FO; destruct SI as (_ & -> & _); reflexivity).
    destruct SI as (_ & -> & _).
    destruct S1 as [S1|(q & S1 & S1')].
    + rewrite S1, (S2 S1). reflexivity.
    + rewrite S1, S1'. destruct (call (flagsOf t i)); [reflexivity|]. destruct (stkLoad i) as [[? ?]|]; [reflexivity|].
      rewrite Eg. reflexivity.
Qed.

Lemma sel_copy d x pl : copyOf t (Inst (selectCopyOpcode d x) [OReg d; OReg x] pl) = Some (d, x).
Proof using OK.
  destruct OK as (F1 & F2 & F3 & F4 & F5 & F6 & _). unfold selectCopyOpcode.
  destruct (isPhys d); [|destruct (isPhys x)]; unfold copyOf, flagsOf; cbn [opc ops];
    rewrite ?F1, ?F2, ?F3, ?F4, ?F5, ?F6; reflexivity.
Qed.

Lemma replaced_exec i k r x s :
  nth_error (opfl t (opc i)) k = Some FUse -> nth_error (ops i) k = Some (OReg r) -> G s x = G s r ->
  exec t (replaced i k x) s = exec t i s /\ sameInst i (replaced i k x).
Proof using OK.
  intros Hf Ho Eg. pose proof (setOp_exec i k r x s Hf Ho Eg) as B. unfold replaced.
  destruct (Nat.eqb_spec (opc i) opcCopy) as [E|]; [|exact B].
  destruct (ops i) as [|[d| | |] [|[y| | |] [|]]] eqn:O; try exact B.
  pose proof OK as (F1 & F2 & F3 & F4 & F5 & F6 & _).
  assert (K : k = 1%nat).
  { rewrite E, F1 in Hf. destruct k as [|[|k]]; cbn in Hf; [discriminate|auto|destruct k; discriminate]. }
  subst k. cbn in Ho. injection Ho as ->. cbn [setOp].
  assert (C : copyOf t i = Some (d, r)).
  { unfold copyOf, flagsOf. rewrite E, F2, F1, O. reflexivity. }
  rewrite (exec_copy _ _ _ _ _ C), (exec_copy _ _ _ _ _ (sel_copy d x _)), Eg. split; [reflexivity|].
  destruct (copyOf_uses _ _ _ _ C) as [_ D]. destruct (copyOf_uses _ _ _ _ (sel_copy d x (place i))) as [_ D'].
  destruct (copyOf_ops _ _ _ _ C) as (P & _). destruct (copyOf_ops _ _ _ _ (sel_copy d x (place i))) as (P' & _).
  split; [congruence|]. split; [congruence|]. unfold flagsOf, selectCopyOpcode. cbn [opc]. rewrite E.
  destruct (isPhys d); [|destruct (isPhys x)]; rewrite ?F2, ?F4, ?F6; reflexivity.
Qed.

(** ** removeIndirectCopy *)
Definition validFor (P : reg -> Prop) (f : fwd) (s : state) (W : nat -> Z) : Prop :=
  (forall r v, look (ver f) r = Some v -> (v <= vid f)%nat /\ (P r -> W v = G s r)) /\
  (forall r x v, look (rval f) r = Some (x, v) ->
     (v <= vid f)%nat /\ look (ver f) r <> None /\ (P r -> W v = G s r)).
Definition valid (f : fwd) (s : state) : Prop := exists W, validFor All f s W.

Lemma known_ok f s r x : valid f s -> known f r = Some x -> G s x = G s r.
Proof.
  clear OK. intros (W & V1 & V2) H. unfold known in H. destruct (look (rval f) r) as [[y v]|] eqn:E1; [|discriminate].
  destruct (look (ver f) y) as [v'|] eqn:E2; [|discriminate]. destruct (Nat.eqb_spec v v') as [->|]; [|discriminate].
  injection H as ->. destruct (V2 _ _ _ E1) as (_ & _ & A). destruct (V1 _ _ E2) as (_ & B).
  rewrite <- A, <- B by exact I. reflexivity.
Qed.
Lemma sameInst_refl i : sameInst i i.
Proof. unfold sameInst; auto. Qed.
Lemma sameInst_trans i j k : sameInst i j -> sameInst j k -> sameInst i k.
Proof. intros (A & B & C) (A' & B' & C'). split; [congruence|]. split; congruence. Qed.

Lemma replaceUse_ok f i k s : valid f s -> nth_error (opfl t (opc i)) k = Some FUse ->
  exec t (replaceUse legal allow f i k) s = exec t i s /\ sameInst i (replaceUse legal allow f i k).
Proof using OK.
  intros V Hf. unfold replaceUse. destruct (nth_error (ops i) k) as [[r| | |]|] eqn:Ho; auto using sameInst_refl.
  destruct (known f r) as [x|] eqn:K; auto using sameInst_refl.
  destruct (negb (allow x)); auto using sameInst_refl. destruct (reg_eqb x r); auto using sameInst_refl.
  destruct (legal (replaced i k x)); auto using sameInst_refl.
  eapply replaced_exec; eauto. eapply known_ok; eauto.
Qed.
Lemma replaceUses_ok f s : valid f s -> forall fs pre k i,
  opfl t (opc i) = pre ++ fs -> length pre = k ->
  exec t (replaceUses legal allow f fs k i) s = exec t i s /\ sameInst i (replaceUses legal allow f fs k i).
Proof using OK.
  intros V fs. induction fs as [|x fs IH]; intros pre k i E L; cbn [replaceUses]; [auto using sameInst_refl|].
  assert (N : nth_error (opfl t (opc i)) k = Some x).
  { rewrite E, nth_error_app2 by lia. replace (k - length pre)%nat with O by lia. reflexivity. }
  assert (E' : opfl t (opc i) = (pre ++ [x]) ++ fs) by (rewrite <- app_assoc; exact E).
  assert (L' : length (pre ++ [x]) = S k) by (rewrite app_length; cbn; lia).
  destruct x; [apply (IH _ _ _ E' L')| |apply (IH _ _ _ E' L')].
  destruct (replaceUse_ok f i k s V N) as [A B].
  destruct (IH (pre ++ [FUse]) (S k) (replaceUse legal allow f i k)) as [A' B']; auto.
  { destruct B as (B & _). congruence. }
  split; [congruence|]. eapply sameInst_trans; eauto.
Qed.

Lemma defReg_valid (P : reg -> Prop) f s W r :
  validFor P f s W -> exists W', validFor (fun x => P x \/ x = r) (defReg f r) s W'.
Proof.
  clear OK. intros [V1 V2]. exists (fun v => if Nat.eqb v (S (vid f)) then G s r else W v).
  split; unfold defReg; cbn [ver rval vid].
  - intros x v H. rewrite look_put in H. destruct (reg_eqb_spec r x) as [->|N].
    + injection H as <-. split; [lia|]. intros _. now rewrite Nat.eqb_refl.
    + destruct (V1 _ _ H) as [A B]. split; [lia|]. intros [Hp|Hp]; [|congruence].
      destruct (Nat.eqb_spec v (S (vid f))); [lia|]. auto.
  - intros x y v H. rewrite look_del in H. destruct (reg_eqb_spec r x) as [->|N]; [discriminate|].
    destruct (V2 _ _ _ H) as (A & B & C). split; [lia|]. split.
    + rewrite look_put. destruct (reg_eqb r x); [discriminate|exact B].
    + intros [Hp|Hp]; [|congruence]. destruct (Nat.eqb_spec v (S (vid f))); [lia|]. auto.
Qed.
Lemma defRegs_valid s : forall ds (P : reg -> Prop) f W,
  validFor P f s W -> exists W', validFor (fun x => P x \/ In x ds) (fold_left defReg ds f) s W'.
Proof.
  clear OK. induction ds as [|d ds IH]; intros P f W V; cbn [fold_left].
  - exists W. destruct V as [V1 V2]. split.
    + intros r v H. destruct (V1 _ _ H) as [A B]. split; [exact A|]. intros [X|[]]; auto.
    + intros r x v H. destruct (V2 _ _ _ H) as (A & B & C). split; [exact A|]. split; [exact B|]. intros [X|[]]; auto.
  - destruct (defReg_valid P f s W d V) as [W1 V']. destruct (IH _ _ _ V') as [W2 V2]. exists W2.
    destruct V2 as [A B]. split.
    + intros r v H. destruct (A _ _ H) as [C D]. split; [exact C|]. intros [X|[X|X]]; apply D; auto.
    + intros r x v H. destruct (B _ _ _ H) as (C & D & E). split; [exact C|]. split; [exact D|].
      intros [X|[X|X]]; apply E; auto.
Qed.
Lemma ver_defRegs ds : forall f r, look (ver f) r <> None -> look (ver (fold_left defReg ds f)) r <> None.
Proof.
  clear OK. induction ds as [|d ds IH]; intros f r H; cbn [fold_left]; [exact H|].
  apply IH. unfold defReg; cbn [ver]. rewrite look_put. destruct (reg_eqb d r); [discriminate|exact H].
Qed.
Lemma ver_defRegs_inv ds : forall f r, look (ver (fold_left defReg ds f)) r <> None ->
  In r ds \/ look (ver f) r <> None.
Proof.
  clear OK. induction ds as [|d ds IH]; intros f r H; cbn [fold_left] in H; [auto|].
  apply IH in H as [H|H]; [left; now right|]. unfold defReg in H; cbn [ver] in H. rewrite look_put in H.
  destruct (reg_eqb_spec d r); [left; now left|auto].
Qed.

(** the facts after an instruction that is not recorded as a copy *)
Lemma other_valid f i s s1 : valid f s -> exec t i s = (s1, Next) ->
  valid (let f1 := fold_left defReg (defs t i) f in if call (flagsOf t i) then clobber f1 else f1) s1.
Proof using OK.
  intros (W & V1 & V2) E. cbn zeta.
  set (P := fun r => call (flagsOf t i) = true -> isPhys r = false).
  assert (V : validFor (fun r => ~ In r (defs t i) /\ P r) f s1 W).
  { replace s1 with (fst (exec t i s)) by now rewrite E.
    split.
    - intros r v H. destruct (V1 _ _ H) as [A B]. split; [exact A|]. intros [N X].
      rewrite exec_other; auto. { apply B. exact I. } unfold P in X. destruct (call (flagsOf t i)); auto.
    - intros r x v H. destruct (V2 _ _ _ H) as (A & B & C). split; [exact A|]. split; [exact B|]. intros [N X].
      rewrite exec_other; auto. { apply C. exact I. } unfold P in X. destruct (call (flagsOf t i)); auto. }
  destruct (defRegs_valid s1 (defs t i) _ f W V) as [W1 V'].
  assert (V3 : validFor P (fold_left defReg (defs t i) f) s1 W1).
  { destruct V' as [A B]. split.
    - intros r v H. destruct (A _ _ H) as [C D]. split; [exact C|]. intros X. apply D.
      destruct (in_dec reg_dec r (defs t i)); auto.
    - intros r x v H. destruct (B _ _ _ H) as (C & D & F). split; [exact C|]. split; [exact D|]. intros X. apply F.
      destruct (in_dec reg_dec r (defs t i)); auto. }
  destruct (call (flagsOf t i)) eqn:Ek.
  - unfold clobber. set (f1 := fold_left defReg (defs t i) f) in *.
    destruct (defRegs_valid s1 (filter isPhys (map fst (ver f1))) _ f1 W1 V3) as [W2 [A B]].
    exists W2. assert (K : forall r, look (ver (fold_left defReg (filter isPhys (map fst (ver f1))) f1)) r <> None ->
      P r \/ In r (filter isPhys (map fst (ver f1)))).
    { intros r H. apply ver_defRegs_inv in H as [H|H]; [auto|]. unfold P.
      destruct (isPhys r) eqn:Er; [right|left; auto]. apply filter_In. split; [|exact Er].
      destruct (look (ver f1) r) eqn:L; [|congruence]. eapply look_key; eauto. }
    split.
    + intros r v H. destruct (A _ _ H) as [C D]. split; [exact C|]. intros _. apply D, K. congruence.
    + intros r x v H. destruct (B _ _ _ H) as (C & D & F). split; [exact C|]. split; [exact D|]. intros _. apply F, K, D.
  - exists W1. destruct V3 as [A B]. split.
    + intros r v H. destruct (A _ _ H) as [C D]. split; [exact C|]. intros _. apply D. intro; congruence.
    + intros r x v H. destruct (B _ _ _ H) as (C & D & F). split; [exact C|]. split; [exact D|].
      intros _. apply F. intro; congruence.
Qed.
Lemma copy_valid f i d x s s1 : valid f s -> copyOf t i = Some (d, x) -> exec t i s = (s1, Next) ->
  valid (let f1 := defReg f d in let '(v, f2) := getVersion f1 x in Fwd (vid f2) (put (rval f2) d (x, v)) (ver f2)) s1.
Proof using OK.
  intros (W & V1 & V2) C E. rewrite (exec_copy _ _ _ _ _ C) in E. injection E as <-. cbn zeta.
  set (s1 := State (wr (G s) d (G s x)) (slot s) (M s) (trace s)).
  assert (V : validFor (fun r => r <> d) f s1 W).
  { split.
    - intros r v H. destruct (V1 _ _ H) as [A B]. split; [exact A|]. intros N. cbn. rewrite wr_ne by exact N. apply B. exact I.
    - intros r y v H. destruct (V2 _ _ _ H) as (A & B & D). split; [exact A|]. split; [exact B|].
      intros N. cbn. rewrite wr_ne by exact N. apply D. exact I. }
  destruct (defReg_valid _ f s1 W d V) as [W1 [A B]].
  assert (Sx : G s1 d = G s1 x).
  { cbn. rewrite wr_same. unfold wr. destruct (reg_eqb_spec x d); congruence. }
  assert (Any : forall r : reg, r <> d \/ r = d) by (intros r; destruct (reg_dec r d); auto).
  unfold getVersion. destruct (look (ver (defReg f d)) x) as [v|] eqn:L.
  - exists W1. split; cbn [vid ver rval].
    + intros r w H. destruct (A _ _ H) as [H1 H2]. split; [exact H1|]. auto.
    + intros r y w H. rewrite look_put in H. destruct (reg_eqb_spec d r) as [<-|N].
      * injection H as <- <-. destruct (A _ _ L) as [H1 H2]. split; [exact H1|]. split.
        -- unfold defReg; cbn [ver]. rewrite look_put, reg_eqb_refl. discriminate.
        -- intros _. rewrite Sx. apply H2. auto.
      * destruct (B _ _ _ H) as (H1 & H2 & H3). split; [exact H1|]. split; [exact H2|]. auto.
  - set (n := S (vid (defReg f d))). exists (fun v => if Nat.eqb v n then G s1 x else W1 v). split; cbn [vid ver rval].
    + intros r w H. rewrite look_put in H. destruct (reg_eqb_spec x r) as [<-|N].
      * injection H as <-. split; [unfold n; lia|]. intros _. now rewrite Nat.eqb_refl.
      * destruct (A _ _ H) as [H1 H2]. split; [unfold n; lia|]. intros _.
        destruct (Nat.eqb_spec w n); [unfold n in *; lia|]. apply H2. auto.
    + intros r y w H. rewrite look_put in H. destruct (reg_eqb_spec d r) as [<-|N].
      * injection H as <- <-. split; [unfold n; lia|]. split.
        -- rewrite look_put. destruct (reg_eqb x d); [discriminate|].
           unfold defReg; cbn [ver]. rewrite look_put, reg_eqb_refl. discriminate.
        -- intros _. now rewrite Nat.eqb_refl.
      * destruct (B _ _ _ H) as (H1 & H2 & H3). split; [unfold n; lia|]. split.
        -- rewrite look_put. destruct (reg_eqb x r); [discriminate|exact H2].
        -- intros _. destruct (Nat.eqb_spec w n); [unfold n in *; lia|]. apply H3. auto.
Qed.

Lemma indirect_block b : forall f s s', valid f s -> agree All s s' ->
  outs_agree (runB t b s) (runB t (indirect t copyOk legal allow f b) s').
Proof using OK.
  induction b as [|i0 b IH]; intros f s s' V A; [split; auto|]. cbn [indirect].
  destruct (replaceUses_ok f s V (opfl t (opc i0)) [] O i0 eq_refl eq_refl) as [EX SI].
  set (i := replaceUses legal allow f (opfl t (opc i0)) 0 i0) in *. clearbody i.
  assert (Keep : forall f', (forall s1, exec t i s = (s1, Next) -> valid f' s1) ->
            outs_agree (runB t (i0 :: b) s) (runB t (i :: indirect t copyOk legal allow f' b) s')).
  { intros f' H. apply cons_agree; auto. intros s1' E1 A1. apply IH; auto. apply H. rewrite EX. exact E1. }
  destruct (matchCopy t copyOk i) as [[d x]|] eqn:MC.
  - assert (C : copyOf t i = Some (d, x)) by (unfold matchCopy in MC; destruct (copyOk i); congruence).
    assert (Rec : outs_agree (runB t (i0 :: b) s)
              (runB t (i :: (let f1 := defReg f d in let '(v, f2) := getVersion f1 x in
                             indirect t copyOk legal allow (Fwd (vid f2) (put (rval f2) d (x, v)) (ver f2)) b)) s')).
    { pose proof (fun s1 => copy_valid f i d x s s1 V C) as CV. cbn zeta in CV |- *.
      destruct (getVersion (defReg f d) x) as [v f2]. apply Keep. exact CV. }
    destruct (known f d) as [y|] eqn:K; [|exact Rec].
    destruct (reg_eqb_spec y x) as [->|]; [|exact Rec].
    pose proof (known_ok _ _ _ _ V K) as Eq.
    cbn [runB]. rewrite <- EX, (exec_copy _ _ _ _ _ C).
    assert (Same : forall r, wr (G s) d (G s x) r = G s r).
    { intros r. unfold wr. destruct (reg_eqb_spec r d); congruence. }
    apply IH.
    + destruct V as (W & V1 & V2). exists W. split.
      * intros r v H. destruct (V1 _ _ H) as [P Q]. split; [exact P|]. cbn [G]. rewrite Same. exact Q.
      * intros r z v H. destruct (V2 _ _ _ H) as (P & Q & R). split; [exact P|]. split; [exact Q|].
        cbn [G]. rewrite Same. exact R.
    + destruct A as [A1 A2 A3 A4]. constructor; cbn; auto. intros r Hr. rewrite Same. auto.
  - apply Keep. intros s1 E1. apply (other_valid f i s s1 V E1).
Qed.
Lemma valid0 s : valid fwd0 s.
Proof. exists (fun _ => 0). split; intros; discriminate. Qed.

(** ** eliminateStackLoads *)
Definition sValidFor (P : reg -> Prop) (f : stk) (s : state) (W : nat -> Z) : Prop :=
  (forall r v, look (sver f) r = Some v -> (v <= svid f)%nat /\ (P r -> W v = G s r)) /\
  (forall k r v, lookS (s2r f) k = Some (r, v) -> (v <= svid f)%nat /\ W v = slot s k).
Definition sValid (f : stk) (s : state) : Prop := exists W, sValidFor All f s W.

Lemma sDef_valid (P : reg -> Prop) f s W r :
  sValidFor P f s W -> exists W', sValidFor (fun x => P x \/ x = r) (sDef f r) s W'.
Proof.
  clear OK. intros [V1 V2]. exists (fun v => if Nat.eqb v (S (svid f)) then G s r else W v).
  split; unfold sDef; cbn [sver s2r svid].
  - intros x v H. rewrite look_put in H. destruct (reg_eqb_spec r x) as [->|N].
    + injection H as <-. split; [lia|]. intros _. now rewrite Nat.eqb_refl.
    + destruct (V1 _ _ H) as [A B]. split; [lia|]. intros [Hp|Hp]; [|congruence].
      destruct (Nat.eqb_spec v (S (svid f))); [lia|]. auto.
  - intros k y v H. destruct (V2 _ _ _ H) as (A & B). split; [lia|].
    destruct (Nat.eqb_spec v (S (svid f))); [lia|]. auto.
Qed.
Lemma sDefs_valid s : forall ds (P : reg -> Prop) f W,
  sValidFor P f s W -> exists W', sValidFor (fun x => P x \/ In x ds) (fold_left sDef ds f) s W'.
Proof.
  clear OK. induction ds as [|d ds IH]; intros P f W V; cbn [fold_left].
  - exists W. destruct V as [V1 V2]. split; [|exact V2].
    intros r v H. destruct (V1 _ _ H) as [A B]. split; [exact A|]. intros [X|[]]; auto.
  - destruct (sDef_valid P f s W d V) as [W1 V']. destruct (IH _ _ _ V') as [W2 V2]. exists W2.
    destruct V2 as [A B]. split; [|exact B].
    intros r v H. destruct (A _ _ H) as [C D]. split; [exact C|]. intros [X|[X|X]]; apply D; auto.
Qed.
Lemma sver_defs_inv ds : forall f r, look (sver (fold_left sDef ds f)) r <> None -> In r ds \/ look (sver f) r <> None.
Proof.
  clear OK. induction ds as [|d ds IH]; intros f r H; cbn [fold_left] in H; [auto|].
  apply IH in H as [H|H]; [left; now right|]. unfold sDef in H; cbn [sver] in H. rewrite look_put in H.
  destruct (reg_eqb_spec d r); [left; now left|auto].
Qed.

Lemma exec_slot i s : stkStore i = None -> slot (fst (exec t i s)) = slot s.
Proof.
  clear OK. intros E. unfold exec. destruct (copyOf t i) as [[? ?]|]; [reflexivity|].
  destruct (call (flagsOf t i)); [reflexivity|]. rewrite E.
  destruct (stkLoad i) as [[? ?]|]; [reflexivity|]. destruct (sideEffect (flagsOf t i)); reflexivity.
Qed.
Lemma exec_store i r k s : stkStore i = Some (r, k) ->
  exec t i s = (State (G s) (fun j => if Nat.eqb j k then G s r else slot s j) (M s) (trace s), Next).
Proof using OK.
  intros E. destruct (slot_uses t OK _ _ _ E) as (_ & _ & O & Op).
  destruct OK as (_ & _ & _ & _ & _ & _ & _ & _ & F & G'). unfold exec, copyOf, flagsOf. rewrite Op, G'. cbn.
  rewrite E. unfold stkLoad. rewrite Op. reflexivity.
Qed.
Lemma exec_load i r k s : stkLoad i = Some (r, k) ->
  exec t i s = (State (wr (G s) r (slot s k)) (slot s) (M s) (trace s), Next).
Proof using OK.
  intros E. destruct (slot_defs t OK _ _ _ E) as (_ & _ & O & Op).
  destruct OK as (_ & _ & _ & _ & _ & _ & F & G' & _). unfold exec, copyOf, flagsOf. rewrite Op, G'. cbn.
  rewrite E. reflexivity.
Qed.

(** the facts after the definitions of an instruction that stores to no slot *)
Lemma sOther_valid f i s : sValid f s -> stkStore i = None ->
  sValid (let f2 := fold_left sDef (defs t i) f in if call (flagsOf t i) then sClobber f2 else f2) (fst (exec t i s)).
Proof using OK.
  intros (W & V1 & V2) NS. cbn zeta. set (s1 := fst (exec t i s)).
  assert (ES : slot s1 = slot s) by (apply exec_slot; exact NS).
  set (P := fun r => call (flagsOf t i) = true -> isPhys r = false).
  assert (V : sValidFor (fun r => ~ In r (defs t i) /\ P r) f s1 W).
  { split.
    - intros r v H. destruct (V1 _ _ H) as [A B]. split; [exact A|]. intros [N X].
      unfold s1. rewrite exec_other; auto. { apply B. exact I. } unfold P in X. destruct (call (flagsOf t i)); auto.
    - intros k r v H. rewrite ES. eauto. }
  destruct (sDefs_valid s1 (defs t i) _ f W V) as [W1 [A B]].
  assert (V3 : sValidFor P (fold_left sDef (defs t i) f) s1 W1).
  { split; [|exact B]. intros r v H. destruct (A _ _ H) as [C D]. split; [exact C|]. intros X. apply D.
    destruct (in_dec reg_dec r (defs t i)); auto. }
  destruct (call (flagsOf t i)) eqn:Ek.
  - unfold sClobber. set (f1 := fold_left sDef (defs t i) f) in *.
    destruct (sDefs_valid s1 (filter isPhys (map fst (sver f1))) _ f1 W1 V3) as [W2 [A2 B2]].
    exists W2. split; [|exact B2]. intros r v H. destruct (A2 _ _ H) as [C D]. split; [exact C|]. intros _. apply D.
    assert (H' : look (sver (fold_left sDef (filter isPhys (map fst (sver f1))) f1)) r <> None) by congruence.
    apply sver_defs_inv in H' as [H'|H']; [auto|]. unfold P. destruct (isPhys r) eqn:Er; [right|left; auto].
    apply filter_In. split; [|exact Er]. destruct (look (sver f1) r) eqn:L; [|congruence]. eapply look_key; eauto.
  - exists W1. destruct V3 as [A3 B3]. split; [|exact B3].
    intros r v H. destruct (A3 _ _ H) as [C D]. split; [exact C|]. intros _. apply D. intro; congruence.
Qed.

Lemma stack_block b : forall f s s', sValid f s -> agree All s s' ->
  outs_agree (runB t b s) (runB t (stackLoads t f b) s').
Proof using OK.
  induction b as [|i b IH]; intros f s s' V A; [split; auto|]. cbn [stackLoads].
  assert (Keep : forall i' f', exec t i' s = exec t i s -> sValid f' (fst (exec t i s)) ->
            outs_agree (runB t (i :: b) s) (runB t (i' :: stackLoads t f' b) s')).
  { intros i' f' E H. apply cons_agree; auto. }
  destruct (stkStore i) as [[r k]|] eqn:ES.
  - (* a store *)
    destruct (slot_uses t OK _ _ _ ES) as (U & D & O & Op).
    assert (NL : stkLoad i = None) by (unfold stkLoad; rewrite Op; reflexivity).
    assert (NC : call (flagsOf t i) = false).
    { destruct OK as (_ & _ & _ & _ & _ & _ & _ & _ & _ & F). unfold flagsOf. rewrite Op, F. reflexivity. }
    destruct V as (W & V1 & V2).
    destruct (look (sver f) r) as [v|] eqn:L; rewrite D, NC, NL; cbn [fold_left]; apply Keep; auto;
      rewrite (exec_store _ _ _ _ ES); cbn [fst].
    + exists W. split; cbn [sver s2r svid slot G]; auto.
      intros q y w H. cbn [lookS] in H. destruct (Nat.eqb_spec k q) as [<-|N].
      * injection H as <- <-. rewrite Nat.eqb_refl. destruct (V1 _ _ L) as [X Y]. split; [exact X|]. apply Y. exact I.
      * destruct (Nat.eqb_spec q k); [congruence|]. apply (V2 _ _ _ H).
    + exists (fun v => if Nat.eqb v (S (svid f)) then G s r else W v). split; cbn [sver s2r svid slot G].
      * intros x w H. rewrite look_put in H. destruct (reg_eqb_spec r x) as [<-|N].
        -- injection H as <-. split; [lia|]. intros _. now rewrite Nat.eqb_refl.
        -- destruct (V1 _ _ H) as [X Y]. split; [lia|]. intros Z0. destruct (Nat.eqb_spec w (S (svid f))); [lia|]. auto.
      * intros q y w H. cbn [lookS] in H. destruct (Nat.eqb_spec k q) as [<-|N].
        -- injection H as <- <-. rewrite !Nat.eqb_refl. split; [lia|reflexivity].
        -- destruct (Nat.eqb_spec q k); [congruence|]. destruct (V2 _ _ _ H) as [X Y]. split; [lia|].
           destruct (Nat.eqb_spec w (S (svid f))); [lia|]. exact Y.
  - destruct (stkLoad i) as [[d k]|] eqn:EL.
    + (* a load *)
      destruct (slot_defs t OK _ _ _ EL) as (D & _ & O & Op).
      assert (NC : call (flagsOf t i) = false).
      { destruct OK as (_ & _ & _ & _ & _ & _ & _ & F & _). unfold flagsOf. rewrite Op, F. reflexivity. }
      assert (Kept : outs_agree (runB t (i :: b) s)
        (runB t (i :: stackLoads t
           (match look (sver (fold_left sDef (defs t i) f)) d with
            | Some v => Stk (svid (fold_left sDef (defs t i) f)) ((k, (d, v)) :: s2r (fold_left sDef (defs t i) f))
                            (sver (fold_left sDef (defs t i) f))
            | None => fold_left sDef (defs t i) f
            end) b) s')).
      { apply Keep; auto. pose proof (sOther_valid f i s V ES) as OV. cbn zeta in OV. rewrite NC in OV.
        destruct (look (sver (fold_left sDef (defs t i) f)) d) as [v|] eqn:L; [|exact OV].
        destruct OV as (W & V1 & V2). exists W. split; cbn [sver s2r svid]; [exact V1|].
        intros q y w H. cbn [lookS] in H. destruct (Nat.eqb_spec k q) as [<-|N]; [|eauto].
        injection H as <- <-. destruct (V1 _ _ L) as [X Y]. split; [exact X|]. rewrite Y by exact I.
        rewrite (exec_load _ _ _ _ EL). cbn. apply wr_same. }
      destruct (lookS (s2r f) k) as [[r v]|] eqn:L1; [|rewrite NC, EL; exact Kept].
      destruct (look (sver f) r) as [v'|] eqn:L2; [|rewrite NC, EL; exact Kept].
      destruct (Nat.eqb_spec v v') as [->|]; [|rewrite NC, EL; exact Kept].
      clear Kept. set (c := Inst opcCopy [OReg d; OReg r] (place i)).
      pose proof OK as (F1 & F2 & _).
      assert (C : copyOf t c = Some (d, r)) by (unfold copyOf, flagsOf, c; cbn [opc ops]; rewrite F2, F1; reflexivity).
      assert (EQ : exec t c s = exec t i s).
      { rewrite (exec_copy _ _ _ _ _ C), (exec_load _ _ _ _ EL).
        destruct V as (W & V1 & V2). destruct (V1 _ _ L2) as [_ X]. destruct (V2 _ _ _ L1) as [_ Y].
        rewrite <- X by exact I. rewrite Y. reflexivity. }
      change (stkLoad c) with (@None (reg * nat)).
      apply Keep; [exact EQ|]. rewrite <- EQ. apply (sOther_valid f c s V). reflexivity.
    + (* anything else *)
      rewrite EL. apply Keep; auto. apply (sOther_valid f i s V ES).
Qed.

(** ** createIndirectCopy *)
(** every numbered register holds the value of its number *)
Definition nValidFor (P : reg -> Prop) (f : vn) (s : state) (W : nat -> Z) : Prop :=
  forall r n, look (num f) r = Some n -> (n <= nid f)%nat /\ isVirt r = true /\ (P r -> W n = G s r).
Definition nValid (f : vn) (s : state) : Prop := exists W, nValidFor All f s W.

Lemma popStale_top m k l x l' : popStale m k l = x :: l' -> look m x = Some k.
Proof.
  induction l as [|y l IH]; cbn; [discriminate|].
  destruct (look m y) as [k'|] eqn:E; [|exact IH]. destruct (Nat.eqb_spec k' k) as [->|]; [|exact IH].
  intros H. injection H as <- <-. exact E.
Qed.
Lemma createUse_ok f i k s : nValid f s -> nth_error (opfl t (opc i)) k = Some FUse ->
  exec t (snd (createUse f i k)) s = exec t i s /\ sameInst i (snd (createUse f i k)) /\
  num (fst (createUse f i k)) = num f /\ nid (fst (createUse f i k)) = nid f.
Proof using OK.
  intros (W & V) Hf. unfold createUse.
  destruct (nth_error (ops i) k) as [[r| | |]|] eqn:Ho; auto using sameInst_refl.
  destruct (isVirt r); auto using sameInst_refl.
  destruct (look (num f) r) as [n|] eqn:L; auto using sameInst_refl.
  destruct (lookN (latest f) n) as [l|]; auto using sameInst_refl.
  destruct (popStale (num f) n l) as [|x l'] eqn:P; auto using sameInst_refl.
  cbn [fst snd]. destruct (reg_eqb x r); auto using sameInst_refl.
  apply popStale_top in P. destruct (V _ _ L) as (_ & _ & A). destruct (V _ _ P) as (_ & _ & B).
  destruct (setOp_exec i k r x s Hf Ho) as [E S1]; [|auto].
  rewrite <- A, <- B by exact I. reflexivity.
Qed.
Lemma nValid_ext f f' s : nValid f s -> num f' = num f -> nid f' = nid f -> nValid f' s.
Proof. intros (W & V) E1 E2. exists W. intros r n H. rewrite E1 in H. rewrite E2. exact (V _ _ H). Qed.
Lemma createUses_ok s : forall fs pre k f i, nValid f s ->
  opfl t (opc i) = pre ++ fs -> length pre = k ->
  exec t (snd (createUses f fs k i)) s = exec t i s /\ sameInst i (snd (createUses f fs k i)) /\
  nValid (fst (createUses f fs k i)) s.
Proof using OK.
  intros fs. induction fs as [|x fs IH]; intros pre k f i V E L; cbn [createUses]; [auto using sameInst_refl|].
  assert (N : nth_error (opfl t (opc i)) k = Some x).
  { rewrite E, nth_error_app2 by lia. replace (k - length pre)%nat with O by lia. reflexivity. }
  assert (E' : opfl t (opc i) = (pre ++ [x]) ++ fs) by (rewrite <- app_assoc; exact E).
  assert (L' : length (pre ++ [x]) = S k) by (rewrite app_length; cbn; lia).
  destruct x; [apply (IH _ _ _ _ V E' L')| |apply (IH _ _ _ _ V E' L')].
  destruct (createUse_ok f i k s V N) as (A & B & C & D).
  destruct (createUse f i k) as [f1 i1]. cbn [fst snd] in *.
  destruct (IH (pre ++ [FUse]) (S k) f1 i1) as (A' & B' & C'); auto.
  { eapply nValid_ext; eauto. }
  { destruct B as (B & _). congruence. }
  split; [congruence|]. split; [eapply sameInst_trans; eauto|exact C'].
Qed.
Lemma vnDef_valid (P : reg -> Prop) f s W r :
  nValidFor P f s W -> exists W', nValidFor (fun x => P x \/ x = r) (vnDef f r) s W'.
Proof.
  clear OK. intros V. unfold vnDef. destruct (isVirt r) eqn:Er.
  - exists (fun v => if Nat.eqb v (S (nid f)) then G s r else W v). intros x n H. cbn [num nid] in *.
    rewrite look_put in H. destruct (reg_eqb_spec r x) as [->|N].
    + injection H as <-. split; [lia|]. split; [exact Er|]. intros _. now rewrite Nat.eqb_refl.
    + destruct (V _ _ H) as (A & B & C). split; [lia|]. split; [exact B|]. intros [X|X]; [|congruence].
      destruct (Nat.eqb_spec n (S (nid f))); [lia|auto].
  - exists W. intros x n H. destruct (V _ _ H) as (A & B & C). split; [exact A|]. split; [exact B|].
    intros [X|X]; [auto|]. subst. congruence.
Qed.
Lemma vnDefs_valid s : forall ds (P : reg -> Prop) f W,
  nValidFor P f s W -> exists W', nValidFor (fun x => P x \/ In x ds) (fold_left vnDef ds f) s W'.
Proof.
  clear OK. induction ds as [|d ds IH]; intros P f W V; cbn [fold_left].
  - exists W. intros r n H. destruct (V _ _ H) as (A & B & C). split; [exact A|]. split; [exact B|]. intros [X|[]]; auto.
  - destruct (vnDef_valid P f s W d V) as [W1 V']. destruct (IH _ _ _ V') as [W2 V2]. exists W2.
    intros r n H. destruct (V2 _ _ H) as (A & B & C). split; [exact A|]. split; [exact B|]. intros [X|[X|X]]; apply C; auto.
Qed.
Lemma create_block b : forall f s s', nValid f s -> agree All s s' ->
  outs_agree (runB t b s) (runB t (create t copyOk f b) s').
Proof using OK.
  induction b as [|i0 b IH]; intros f s s' V A; [split; auto|]. cbn [create].
  destruct (createUses_ok s (opfl t (opc i0)) [] O f i0 V eq_refl eq_refl) as (EX & SI & V').
  destruct (createUses f (opfl t (opc i0)) 0 i0) as [f1 i]. cbn [fst snd] in *. clear V f.
  apply cons_agree; auto. intros s1' E1 A1. apply IH; auto. rewrite <- EX in *. clear A1 A EX SI IH.
  set (s1 := fst (exec t i s)) in *.
  match goal with |- nValid (match ?X with _ => _ end) _ => destruct X as [[d n]|] eqn:EC end.
  - destruct (matchCopy t copyOk i) as [[d' x]|] eqn:MC; [|discriminate].
    destruct (isVirt d' && isVirt x) eqn:EV; [|discriminate]. destruct (look (num f1) x) as [n'|] eqn:L; [|discriminate].
    injection EC as -> ->. apply andb_prop in EV as [EV _].
    assert (C : copyOf t i = Some (d, x)) by (unfold matchCopy in MC; destruct (copyOk i); congruence).
    destruct V' as (W & V). exists W. intros r m H. cbn [num nid] in *. rewrite look_put in H.
    unfold s1. rewrite (exec_copy _ _ _ _ _ C). cbn [fst G]. destruct (V _ _ L) as (X & _ & Z0).
    destruct (reg_eqb_spec d r) as [<-|N].
    + injection H as <-. split; [exact X|]. split; [exact EV|]. intros _. rewrite wr_same. apply Z0. exact I.
    + rewrite wr_ne by congruence. exact (V _ _ H).
  - destruct V' as (W & V).
    assert (V1 : nValidFor (fun r => ~ In r (defs t i)) f1 s1 W).
    { intros r n H. destruct (V _ _ H) as (X & Y & Z0). split; [exact X|]. split; [exact Y|]. intros N.
      unfold s1. rewrite exec_other; auto. { apply Z0. exact I. }
      right. left. unfold isVirt in Y. now destruct (isPhys r). }
    destruct (vnDefs_valid s1 (defs t i) _ f1 W V1) as [W1 V2].
    assert (V3 : nValid (fold_left vnDef (defs t i) f1) s1).
    { exists W1. intros r n H. destruct (V2 _ _ H) as (X & Y & Z0). split; [exact X|]. split; [exact Y|]. intros _.
      apply Z0. destruct (in_dec reg_dec r (defs t i)); auto. }
    destruct (call (flagsOf t i)); [|exact V3]. eapply nValid_ext; [exact V3|reflexivity|reflexivity].
Qed.
End Proofs.
