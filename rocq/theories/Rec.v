(** A function that calls itself: the semantics of C53.  Specification except where lines are cited.  It is the semantics
    of Ssa.v, one instruction at a time, with a stack of frames: the opcode [slf] calls the function itself
    (cmmc/ExecutionEngine/Interpreter.cpp:1040-1075, FunctionCallInst: a new context with the arguments as its parameters,
    the result stored when the callee returns).  Simplifications: one function calls itself, every other call is one
    instruction of the abstract world, as in Ssa.v; the stack is unbounded. *)
From Coq Require Import ZArith Lia Bool List Arith.
From Verif Require Import Sim Ssa.
Import ListNotations.

Section Rec.
Context {W : Type} (m : sem W).
(** [slf]: the opcode of a call of the function by itself; [nargs]: the number of its parameters; [rty]: does a result
    have the return type of the function ([None]: no value) *)
Variables (slf nargs : nat) (rty : option value -> bool).

Definition argsOf (vs : list value) : nat -> value := fun n => nth n vs VUndef.
(** a call in progress: its block, its registers, its arguments, the instructions of the block that are left *)
Record frame := Fr { fb : nat; fe : env; fa : list value; fr : list inst }.
(** the running call, the waiting ones, each with the name that gets the result *)
Record cfg := Cf { top : frame; stk : list (nat * frame); cw : W }.
Definition rres := sres cfg (event (W:=W)) (fin (W:=W)).

(** a return *)
Definition retTo (stack : list (nat * frame)) (v : option value) (w : W) : rres :=
  if rty v then
    match stack with
    | [] => Fin (Ret v w) []
    | (d, p) :: s' => Go (Cf (Fr (fb p) (upd (fe p) d (match v with Some x => x | None => VUndef end)) (fa p) (fr p)) s' w) []
    end
  else Bad [].
(** a branch from [p] *)
Definition goTo (f : func) (p : nat) (e : env) (a : list value) (b : nat) (stack : list (nat * frame)) (w : W) : rres :=
  match get b f with
  | None => Bad []
  | Some bk => match enter (argsOf a) e (Some p) (phis bk) with
               | Some e1 => Go (Cf (Fr b e1 a (body bk)) stack w) []
               | None => Bad []
               end
  end.
(** the first block of a call *)
Definition callF (f : func) (vs : list value) (stack : list (nat * frame)) (w : W) : rres :=
  if Nat.eqb (length vs) nargs then
    match get (entry f) f with
    | None => Bad []
    | Some bk => match enter (argsOf vs) (fun _ => None) None (phis bk) with
                 | Some e1 => Go (Cf (Fr (entry f) e1 vs (body bk)) stack w) []
                 | None => Bad []
                 end
    end
  else Bad [].
Definition rstep (f : func) (s : cfg) : rres :=
  let t := top s in
  match fr t with
  | i :: r =>
    match rds (argsOf (fa t)) (fe t) (ops i) with
    | None => Bad []
    | Some vs =>
      if Nat.eqb (opc i) slf then callF f vs ((dst i, Fr (fb t) (fe t) (fa t) r) :: stk s) (cw s)
      else match meaning m (opc i) vs (cw s) with
           | IOk v w' => Go (Cf (Fr (fb t) (upd (fe t) (dst i) v) (fa t) r) (stk s) w') (evt m (opc i) vs (cw s))
           | IHalt w' => Fin (Exit w') (evt m (opc i) vs (cw s))
           | IBad => Bad (evt m (opc i) vs (cw s))
           end
    end
  | [] =>
    match get (fb t) f with
    | None => Bad []
    | Some bk =>
      match runTerm (argsOf (fa t)) (fe t) (trm bk) with
      | TGo b => goTo f (fb t) (fe t) (fa t) b (stk s) (cw s)
      | TFin v => retTo (stk s) v (cw s)
      | TBad => Bad []
      end
    end
  end.
(** the machine about to make the first call, from outside *)
Inductive rst := Boot (vs : list value) (w : W) | Running (s : cfg).
Definition rstep0 (f : func) (s : rst) : sres rst (event (W:=W)) (fin (W:=W)) :=
  match (match s with Boot vs w => callF f vs [] w | Running c => rstep f c end) with
  | Go c t => Go (Running c) t
  | Fin x t => Fin x t
  | Bad t => Bad t
  end.
End Rec.
Arguments rst : clear implicits.
Arguments cfg : clear implicits.
