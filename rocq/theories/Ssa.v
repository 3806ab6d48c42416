(** The SSA intermediate representation of functions and its meaning.
    The syntax follows cmmc/IR/Function.hpp, Block.hpp and Instruction.hpp; the meaning follows the interpreter
    (cmmc/ExecutionEngine/Interpreter.cpp:560-1100).  Simplifications: types are left out (an opcode number stands for
    InstructionID together with the type, the comparison of a CompareInst and the callee of a call, i.e. for all that
    Instruction::isEqual, cmmc/IR/Instruction.cpp:778-799, compares besides the operands); what an opcode computes
    is a parameter [sem], constrained only by what its kind promises ([okSem]); memory and everything else a call can
    see or change is the abstract world [W]. *)
From Coq Require Import ZArith Lia Bool List Arith.
From Verif Require Import Sim.
Import ListNotations.

(** runtime values; [VOpq]: floats and pointers *)
Inductive value := VInt (z : Z) | VOpq (z : Z) | VUndef.
Definition value_eqb (a b : value) : bool :=
  match a, b with VInt x, VInt y | VOpq x, VOpq y => Z.eqb x y | VUndef, VUndef => true | _, _ => false end.
Lemma value_eqb_spec a b : reflect (a = b) (value_eqb a b).
Proof. destruct a, b; cbn; try (constructor; congruence); destruct (Z.eqb_spec z z0); constructor; congruence. Qed.

(** an operand (cmmc/IR/Value.hpp): a constant, an argument of the function or the result of an instruction *)
Inductive opnd := OCst (v : value) | OArg (n : nat) | ORes (x : nat).
Definition opnd_eqb (a b : opnd) : bool :=
  match a, b with
  | OCst x, OCst y => value_eqb x y
  | OArg x, OArg y | ORes x, ORes y => Nat.eqb x y
  | _, _ => false
  end.
Lemma opnd_eqb_spec a b : reflect (a = b) (opnd_eqb a b).
Proof.
  destruct a as [v|n|n], b as [v'|n'|n']; cbn; try (constructor; congruence).
  - destruct (value_eqb_spec v v'); constructor; congruence.
  - destruct (Nat.eqb_spec n n'); constructor; congruence.
  - destruct (Nat.eqb_spec n n'); constructor; congruence.
Qed.

(** what the passes know of an opcode (cmmc/IR/Instruction.hpp, FunctionAttribute of the callee) *)
Inductive kind :=
| KPure                 (* arithmetic, comparison, cast, select, address arithmetic *)
| KDiv                  (* sdiv, udiv, srem, urem *)
| KLoad | KAlloc | KStore (* store, atomicadd *)
| KCall (noSideEffect stateless noReturn : bool).

(** an instruction that is neither a phi nor a terminator; [dst] names its result (also if it is void) *)
Record inst := Inst { dst : nat; opc : nat; ops : list opnd }.
Record phi := Phi { pdst : nat; inc : list (nat * opnd) }.
(** cmmc/IR/Instruction.hpp: BranchInst (conditional or not), SwitchInst, ReturnInst, UnreachableInst *)
Inductive term :=
| TBr (t : nat)
| TCond (c : opnd) (t e : nat)
| TSwitch (c : opnd) (cases : list (Z * nat)) (d : nat)
| TRet (v : option opnd)
| TUnreach.
Record block := Block { phis : list phi; body : list inst; trm : term }.
(** the first block is the entry, cmmc/IR/Function.hpp entryBlock *)
Definition func := list (nat * block).

Fixpoint get {A} (k : nat) (l : list (nat * A)) : option A :=
  match l with [] => None | (x, a) :: l' => if Nat.eqb x k then Some a else get k l' end.
Definition entry (f : func) : nat := match f with [] => 0%nat | (b, _) :: _ => b end.

(** successors of a terminator *)
Definition succs (t : term) : list nat :=
  match t with
  | TBr b => [b]
  | TCond _ a b => [a; b]
  | TSwitch _ cs d => d :: map snd cs
  | TRet _ | TUnreach => []
  end.

Section Meaning.
Context {W : Type}.

Inductive ires := IOk (v : value) (w : W) | IHalt (w : W) | IBad.
(** [meaning o args w]: the result of opcode [o], that the run ends inside it (exit), or that it has undefined
    behaviour; [visible]: calls the environment can observe *)
Record sem := Sem { meaning : nat -> list value -> W -> ires; visible : nat -> bool }.

(** what the kinds promise; [knd] is the table the passes consult *)
Definition okSem (knd : nat -> kind) (m : sem) : Prop :=
  (forall o, knd o = KPure -> exists f, forall a w, meaning m o a w = IOk (f a) w) /\
  (forall o, knd o = KDiv -> exists f, forall a w,
      meaning m o a w = match f a with Some v => IOk v w | None => IBad end) /\
  (forall o, knd o = KDiv -> forall a z w, z <> 0%Z -> meaning m o [a; VInt z] w <> IBad) /\
  (forall o, knd o = KLoad -> exists f, forall a w,
      meaning m o a w = match f a w with Some v => IOk v w | None => IBad end) /\
  (forall o, knd o = KAlloc -> exists f, forall a w, meaning m o a w = IOk (f a) w) /\
  (forall o st nr, knd o = KCall true st nr -> exists f, forall a w,
      meaning m o a w = match f a w with Some v => IOk v w | None => IBad end) /\
  (forall o nr, knd o = KCall true true nr -> exists f, forall a w,
      meaning m o a w = match f a with Some v => IOk v w | None => IBad end) /\
  (forall o ns st, knd o = KCall ns st true -> forall a w v w', meaning m o a w <> IOk v w') /\
  (forall o, visible m o = true -> exists st nr, knd o = KCall false st nr).

Definition event := (nat * list value * W)%type.
Definition env := nat -> option value.
Definition upd (e : env) (x : nat) (v : value) : env := fun y => if Nat.eqb y x then Some v else e y.

Variable m : sem.
Variable args : nat -> value.

Definition rd (e : env) (o : opnd) : option value :=
  match o with OCst v => Some v | OArg n => Some (args n) | ORes x => e x end.
Fixpoint rds (e : env) (l : list opnd) : option (list value) :=
  match l with
  | [] => Some []
  | o :: l' => match rd e o, rds e l' with Some v, Some vs => Some (v :: vs) | _, _ => None end
  end.

(** phis read the values of the edge they were entered by, all at once (Interpreter.cpp:609-619) *)
Fixpoint rdPhis (e : env) (p : nat) (l : list phi) : option (list (nat * value)) :=
  match l with
  | [] => Some []
  | ph :: l' =>
    match get p (inc ph) with
    | None => None
    | Some o => match rd e o, rdPhis e p l' with Some v, Some vs => Some ((pdst ph, v) :: vs) | _, _ => None end
    end
  end.
Definition updAll (e : env) (l : list (nat * value)) : env := fold_left (fun e' x => upd e' (fst x) (snd x)) l e.
(** on entry to the function there is no edge; a phi there has undefined behaviour *)
Definition enter (e : env) (p : option nat) (l : list phi) : option env :=
  match p with
  | Some q => option_map (updAll e) (rdPhis e q l)
  | None => match l with [] => Some e | _ => None end
  end.

Record st := St { cur : nat; prev : option nat; en : env; wd : W }.
(** how a run ends: return, or the end of the program inside a call *)
Inductive fin := Ret (v : option value) (w : W) | Exit (w : W).
Definition res := sres st event fin.

Inductive bres := BGo (e : env) (w : W) (t : list event) | BHalt (w : W) (t : list event) | BBad (t : list event).
Definition evt (o : nat) (vs : list value) (w : W) : list event := if visible m o then [(o, vs, w)] else [].
Definition bpre (t : list event) (r : bres) : bres :=
  match r with BGo e w t' => BGo e w (t ++ t') | BHalt w t' => BHalt w (t ++ t') | BBad t' => BBad (t ++ t') end.
(** Interpreter.cpp:640-1100 *)
Fixpoint runBody (e : env) (w : W) (l : list inst) : bres :=
  match l with
  | [] => BGo e w []
  | i :: l' =>
    match rds e (ops i) with
    | None => BBad []
    | Some vs =>
      match meaning m (opc i) vs w with
      | IOk v w' => bpre (evt (opc i) vs w) (runBody (upd e (dst i) v) w' l')
      | IHalt w' => BHalt w' (evt (opc i) vs w)
      | IBad => BBad (evt (opc i) vs w)
      end
    end
  end.

Definition truth (v : value) : option bool := match v with VInt z => Some (negb (Z.eqb z 0)) | _ => None end.
Fixpoint pick (z : Z) (cs : list (Z * nat)) (d : nat) : nat :=
  match cs with [] => d | (k, b) :: cs' => if Z.eqb z k then b else pick z cs' d end.
Inductive tres := TGo (b : nat) | TFin (v : option value) | TBad.
(** Interpreter.cpp:720-782 *)
Definition runTerm (e : env) (t : term) : tres :=
  match t with
  | TBr b => TGo b
  | TCond c a b =>
    match rd e c with
    | Some v => match truth v with Some true => TGo a | Some false => TGo b | None => TBad end
    | None => TBad
    end
  | TSwitch c cs d => match rd e c with Some (VInt z) => TGo (pick z cs d) | _ => TBad end
  | TRet None => TFin None
  | TRet (Some o) => match rd e o with Some v => TFin (Some v) | None => TBad end
  | TUnreach => TBad
  end.

(** run one block *)
Definition runBlock (b : nat) (bk : block) (p : option nat) (e : env) (w : W) : res :=
  match enter e p (phis bk) with
  | None => Bad []
  | Some e1 =>
    match runBody e1 w (body bk) with
    | BBad t => Bad t
    | BHalt w' t => Fin (Exit w') t
    | BGo e2 w' t =>
      match runTerm e2 (trm bk) with
      | TGo b' => Go (St b' (Some b) e2 w') t
      | TFin v => Fin (Ret v w') t
      | TBad => Bad t
      end
    end
  end.
Definition step (f : func) (s : st) : res :=
  match get (cur s) f with
  | None => Bad []
  | Some bk => runBlock (cur s) bk (prev s) (en s) (wd s)
  end.
Definition start (f : func) (w : W) : st := St (entry f) None (fun _ => None) w.
End Meaning.
Arguments sem : clear implicits.

(** [g] may stand for [f]: whatever opcodes mean, the arguments and the world, if the run of [f] has no undefined
    behaviour then [g] returns the same value and world or ends inside the same call, shows the same calls, and runs
    for ever if and only if [f] does *)
Definition refines (knd : nat -> kind) (f g : func) : Prop :=
  forall (W : Type) (m : sem W) (args : nat -> value) (w : W),
    okSem knd m -> refinesAt (step m args f) (step m args g) (start f w) (start g w).

Lemma refines_refl k f : refines k f f.
Proof. intros W m a w _. apply refinesAt_refl. Qed.
Lemma refines_trans k f g h : refines k f g -> refines k g h -> refines k f h.
Proof. intros H1 H2 W m a w Hk. eapply refinesAt_trans; [apply H1|apply H2]; auto. Qed.

(** ** basic facts *)
Lemma get_In {A} k (l : list (nat * A)) a : get k l = Some a -> In (k, a) l.
Proof.
  induction l as [|[x b] l IH]; cbn; try discriminate. destruct (Nat.eqb_spec x k); intros H.
  - left. congruence.
  - right. auto.
Qed.
Lemma get_None {A} k (l : list (nat * A)) : get k l = None <-> ~ In k (map fst l).
Proof.
  induction l as [|[x b] l IH]; cbn.
  - tauto.
  - destruct (Nat.eqb_spec x k); split; intros H.
    + discriminate.
    + exfalso. apply H. now left.
    + intros [K|K]; [congruence|]. now apply IH in K.
    + apply IH. intros K. apply H. now right.
Qed.
Lemma In_get {A} k (l : list (nat * A)) a : NoDup (map fst l) -> In (k, a) l -> get k l = Some a.
Proof.
  induction l as [|[x b] l IH]; cbn; intros N H; [tauto|]. inversion N as [|? ? N1 N2]; subst.
  destruct (Nat.eqb_spec x k) as [->|D].
  - destruct H as [H|H]; [congruence|]. exfalso. apply N1. apply in_map_iff. exists (k, a). auto.
  - destruct H as [H|H]; [congruence|]. auto.
Qed.
Lemma get_map {A B} (h : A -> B) k (l : list (nat * A)) :
  get k (map (fun x => (fst x, h (snd x))) l) = option_map h (get k l).
Proof. induction l as [|[x b] l IH]; cbn; auto. destruct (Nat.eqb x k); auto. Qed.
(** [h] may depend on the key *)
Lemma get_mapk {A B} (h : nat -> A -> B) k (l : list (nat * A)) :
  get k (map (fun x => (fst x, h (fst x) (snd x))) l) = option_map (h k) (get k l).
Proof. induction l as [|[x b] l IH]; cbn; auto. destruct (Nat.eqb_spec x k); subst; auto. Qed.
Lemma get_filter {A} (q : nat -> bool) k (l : list (nat * A)) :
  get k (filter (fun x => q (fst x)) l) = if q k then get k l else None.
Proof.
  induction l as [|[x b] l IH]; cbn; [now destruct (q k)|].
  destruct (q x) eqn:E1; cbn; destruct (Nat.eqb_spec x k) as [->|D]; auto.
  - now rewrite E1.
  - rewrite IH, E1. reflexivity.
Qed.
Lemma entry_mapk (h : nat -> block -> block) (f : func) :
  entry (map (fun x => (fst x, h (fst x) (snd x))) f) = entry f.
Proof. destruct f as [|[b k] f]; reflexivity. Qed.
