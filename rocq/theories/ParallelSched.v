(** * The worker protocol of the parallel-for runtime

    Model of [cmmc/Runtime/cmmc_sysy_rt.cpp]:
      - lines 38-56   [Futex::wait], [Futex::post]
      - lines 76-98   [cmmcWorker]
      - lines 100-119 [cmmcInitRuntime], [cmmcUninitRuntime]
      - lines 220-252 [spawnAndJoin] inside [cmmcParallelFor]

    Every shared variable is a [std::atomic] accessed with the default
    (sequentially consistent) order, so the model is an interleaving of atomic
    steps.  Each read, write, compare-exchange and system call is one step.

    Kernel futex: [FUTEX_WAIT(addr, 0)] atomically compares the word with 0 and
    either returns at once (EAGAIN) or puts the thread to sleep;
    [FUTEX_WAKE(addr, 1)] wakes a sleeper if there is one; a sleeper may also be
    woken for no reason (signals), which the model allows at any time.

    Simplifications: the body of the loop ([func(beg,end)]) is one "enter" and
    one "leave" step and is assumed to return and not to call
    [cmmcParallelFor] itself; [waitpid] in the destructor is dropped
    (it does not block: the workers are created with CLONE_THREAD and cannot be
    waited for); thread creation is assumed to succeed. *)

From Coq Require Import ZArith List Lia Bool Arith Permutation.
From Verif Require Import Word.
From Verif Require ParallelFor.
Import ListNotations.

(** A job: the function pointer and the two bounds (lines 64-66). *)
Record job := mkJob { jf : Z; jb : Z; je : Z }.

(** Program counter of a worker (lines 84-96). *)
Inductive wpc :=
| WRun                    (* 84: while(worker.run) *)
| WTry                    (* 44: compare_exchange_strong(one, 0) on ready *)
| WFut                    (* 46: about to issue FUTEX_WAIT on ready *)
| WSleep                  (* 46: asleep in FUTEX_WAIT *)
| WRun2                   (* 87: if(!worker.run) *)
| WLdF                    (* 91: func.load() *)
| WLdB (f : Z)            (* 91: beg.load() *)
| WLdE (f b : Z)          (* 91: end.load() *)
| WEnter (f b e : Z)      (* 91: about to call *)
| WIn (f b e : Z)         (* 91: inside the loop body *)
| WPost                   (* 52: compare_exchange_strong(zero, 1) on done *)
| WWake                   (* 53: FUTEX_WAKE on done *)
| WExit.                  (* 97: return 0 *)

(** One worker: lines 59-70. [rdy] and [dne] are the futex words (0/1). *)
Record wst := mkW {
  run : bool; wf : Z; wb : Z; we : Z; rdy : bool; dne : bool; pc : wpc }.

Definition setpc p w := mkW (run w) (wf w) (wb w) (we w) (rdy w) (dne w) p.
Definition setrdy b w := mkW (run w) (wf w) (wb w) (we w) b (dne w) (pc w).
Definition setdne b w := mkW (run w) (wf w) (wb w) (we w) (rdy w) b (pc w).
Definition setrun b w := mkW b (wf w) (wb w) (we w) (rdy w) (dne w) (pc w).
Definition setwf f w := mkW (run w) f (wb w) (we w) (rdy w) (dne w) (pc w).
Definition setwb b w := mkW (run w) (wf w) b (we w) (rdy w) (dne w) (pc w).
Definition setwe e w := mkW (run w) (wf w) (wb w) e (rdy w) (dne w) (pc w).

(** Program counter of the calling thread. *)
Inductive cpc :=
| CIdle                  (* outside the runtime *)
| CAt (i : nat)          (* 228: loop head; 240: store func *)
| CSetB (i : nat)        (* 241: store beg *)
| CSetE (i : nat)        (* 242: store end *)
| CPost (i : nat)        (* 244/52: CAS 0 -> 1 on workers[i].ready *)
| CWake (i : nat)        (* 53: FUTEX_WAKE on workers[i].ready *)
| CJoin (i : nat)        (* 247-249/44: CAS 1 -> 0 on workers[i].done *)
| CFut (i : nat)         (* 46: about to issue FUTEX_WAIT on done *)
| CSleep (i : nat)       (* 46: asleep *)
| CTd (i : nat)          (* 111-112: run = 0 *)
| CTdPost (i : nat)      (* 113: ready.post(), CAS *)
| CTdWake (i : nat)      (* 113: ready.post(), FUTEX_WAKE *)
| CEnd.                  (* destructor finished *)

(** What a call hands to the workers: slot [i] is the chunk given to worker
    [i], or [None] when the chunk is empty and skipped (lines 233-234). *)
Definition slots := list (option job).

Record state := mkS {
  ws : nat -> wst;             (* the workers *)
  cp : cpc;                    (* the caller *)
  cur : slots;                 (* the current call *)
  past : list slots;           (* the calls that have returned *)
  log : list (nat * job) }.    (* bodies that ran to completion, and where *)

Definition upd (f : nat -> wst) i w := fun k => if Nat.eqb k i then w else f k.
Definition slot (c : slots) i : option job := nth i c None.

(** A worker's own step: new worker state, the job it completed if any, and
    whether it issues a FUTEX_WAKE on its [done] word. *)
Inductive wstep : wst -> option job -> bool -> wst -> Prop :=
| ws_run w : pc w = WRun -> run w = true -> wstep w None false (setpc WTry w)
| ws_stop w : pc w = WRun -> run w = false -> wstep w None false (setpc WExit w)
| ws_take w : pc w = WTry -> rdy w = true ->
    wstep w None false (setpc WRun2 (setrdy false w))
| ws_miss w : pc w = WTry -> rdy w = false -> wstep w None false (setpc WFut w)
| ws_again w : pc w = WFut -> rdy w = true -> wstep w None false (setpc WTry w)
| ws_sleep w : pc w = WFut -> rdy w = false -> wstep w None false (setpc WSleep w)
| ws_run2 w : pc w = WRun2 -> run w = true -> wstep w None false (setpc WLdF w)
| ws_stop2 w : pc w = WRun2 -> run w = false -> wstep w None false (setpc WExit w)
| ws_ldf w : pc w = WLdF -> wstep w None false (setpc (WLdB (wf w)) w)
| ws_ldb w f : pc w = WLdB f -> wstep w None false (setpc (WLdE f (wb w)) w)
| ws_lde w f b : pc w = WLdE f b ->
    wstep w None false (setpc (WEnter f b (we w)) w)
| ws_enter w f b e : pc w = WEnter f b e -> wstep w None false (setpc (WIn f b e) w)
| ws_leave w f b e : pc w = WIn f b e ->
    wstep w (Some (mkJob f b e)) false (setpc WPost w)
| ws_post w : pc w = WPost -> dne w = false ->
    wstep w None false (setpc WWake (setdne true w))
| ws_post_skip w : pc w = WPost -> dne w = true -> wstep w None false (setpc WRun w)
| ws_wake w : pc w = WWake -> wstep w None true (setpc WRun w).

(** FUTEX_WAKE on [workers[i].done] reaches the caller only if it sleeps there. *)
Definition wakeCaller (b : bool) i c :=
  match b, c with
  | true, CSleep k => if Nat.eqb k i then CJoin i else c
  | _, _ => c
  end.

(** FUTEX_WAKE on [workers[i].ready] reaches the worker only if it sleeps there. *)
Definition wakeWorker w :=
  match pc w with WSleep => setpc WTry w | _ => w end.

Definition logOf i (o : option job) : list (nat * job) :=
  match o with Some j => [(i, j)] | None => [] end.

(** The caller's own steps, with [N] workers. *)
Inductive cstep (N : nat) : state -> state -> Prop :=
| cs_skip s i : cp s = CAt i -> i < length (cur s) -> slot (cur s) i = None ->
    cstep N s (mkS (ws s) (CAt (S i)) (cur s) (past s) (log s))
| cs_setf s i j : cp s = CAt i -> slot (cur s) i = Some j ->
    cstep N s (mkS (upd (ws s) i (setwf (jf j) (ws s i))) (CSetB i) (cur s) (past s) (log s))
| cs_setb s i j : cp s = CSetB i -> slot (cur s) i = Some j ->
    cstep N s (mkS (upd (ws s) i (setwb (jb j) (ws s i))) (CSetE i) (cur s) (past s) (log s))
| cs_sete s i j : cp s = CSetE i -> slot (cur s) i = Some j ->
    cstep N s (mkS (upd (ws s) i (setwe (je j) (ws s i))) (CPost i) (cur s) (past s) (log s))
| cs_post s i : cp s = CPost i -> rdy (ws s i) = false ->
    cstep N s (mkS (upd (ws s) i (setrdy true (ws s i))) (CWake i) (cur s) (past s) (log s))
| cs_post_skip s i : cp s = CPost i -> rdy (ws s i) = true ->
    cstep N s (mkS (ws s) (CAt (S i)) (cur s) (past s) (log s))
| cs_wake s i : cp s = CWake i ->
    cstep N s (mkS (upd (ws s) i (wakeWorker (ws s i))) (CAt (S i)) (cur s) (past s) (log s))
| cs_all s i : cp s = CAt i -> i = length (cur s) ->
    cstep N s (mkS (ws s) (CJoin 0) (cur s) (past s) (log s))
| cs_join_skip s i : cp s = CJoin i -> i < length (cur s) -> slot (cur s) i = None ->
    cstep N s (mkS (ws s) (CJoin (S i)) (cur s) (past s) (log s))
| cs_join s i j : cp s = CJoin i -> slot (cur s) i = Some j -> dne (ws s i) = true ->
    cstep N s (mkS (upd (ws s) i (setdne false (ws s i))) (CJoin (S i)) (cur s) (past s) (log s))
| cs_join_miss s i j : cp s = CJoin i -> slot (cur s) i = Some j -> dne (ws s i) = false ->
    cstep N s (mkS (ws s) (CFut i) (cur s) (past s) (log s))
| cs_again s i : cp s = CFut i -> dne (ws s i) = true ->
    cstep N s (mkS (ws s) (CJoin i) (cur s) (past s) (log s))
| cs_sleep s i : cp s = CFut i -> dne (ws s i) = false ->
    cstep N s (mkS (ws s) (CSleep i) (cur s) (past s) (log s))
| cs_return s i : cp s = CJoin i -> i = length (cur s) ->
    cstep N s (mkS (ws s) CIdle [] (past s ++ [cur s]) (log s))
| cs_td s i : cp s = CTd i -> i < N ->
    cstep N s (mkS (upd (ws s) i (setrun false (ws s i))) (CTdPost i) (cur s) (past s) (log s))
| cs_tdpost s i : cp s = CTdPost i -> rdy (ws s i) = false ->
    cstep N s (mkS (upd (ws s) i (setrdy true (ws s i))) (CTdWake i) (cur s) (past s) (log s))
| cs_tdpost_skip s i : cp s = CTdPost i -> rdy (ws s i) = true ->
    cstep N s (mkS (ws s) (CTd (S i)) (cur s) (past s) (log s))
| cs_tdwake s i : cp s = CTdWake i ->
    cstep N s (mkS (upd (ws s) i (wakeWorker (ws s i))) (CTd (S i)) (cur s) (past s) (log s))
| cs_tdend s i : cp s = CTd i -> i = N ->
    cstep N s (mkS (ws s) CEnd (cur s) (past s) (log s)).

(** Kinds of transition: an ordinary step of the runtime, a spurious wake-up,
    or an action of the program (starting a call, running the destructor). *)
Inductive kind := Normal | Spurious | Program.

Inductive step (N : nat) : kind -> state -> state -> Prop :=
| st_worker s i o b w' : i < N -> wstep (ws s i) o b w' ->
    step N Normal s (mkS (upd (ws s) i w') (wakeCaller b i (cp s)) (cur s) (past s)
                         (log s ++ logOf i o))
| st_caller s s' : cstep N s s' -> step N Normal s s'
| st_spur_w s i : i < N -> pc (ws s i) = WSleep ->
    step N Spurious s (mkS (upd (ws s) i (setpc WTry (ws s i))) (cp s) (cur s) (past s) (log s))
| st_spur_c s i : cp s = CSleep i ->
    step N Spurious s (mkS (ws s) (CJoin i) (cur s) (past s) (log s))
| st_call s c : cp s = CIdle -> length c <= N ->
    step N Program s (mkS (ws s) (CAt 0) c (past s) (log s))
| st_uninit s : cp s = CIdle ->
    step N Program s (mkS (ws s) (CTd 0) [] (past s) (log s)).

(** After [cmmcInitRuntime] (lines 100-108): static zero-initialised workers,
    [run = 1], every thread at its entry. *)
Definition w0 := mkW true 0 0 0 false false WRun.
Definition init := mkS (fun _ => w0) CIdle [] [] [].

(** Executions, counting the normal and the spurious steps and the program's
    actions. *)
Inductive exec (N : nat) : state -> nat -> nat -> nat -> state -> Prop :=
| ex_refl s : exec N s 0 0 0 s
| ex_normal s s1 s2 n sp p : exec N s n sp p s1 -> step N Normal s1 s2 -> exec N s (S n) sp p s2
| ex_spur s s1 s2 n sp p : exec N s n sp p s1 -> step N Spurious s1 s2 -> exec N s n (S sp) p s2
| ex_prog s s1 s2 n sp p : exec N s n sp p s1 -> step N Program s1 s2 -> exec N s n sp (S p) s2.

Definition reachable N s := exists n sp p, exec N init n sp p s.

(** ** Specification vocabulary *)

(** Bodies completed by worker [i], in order. *)
Definition ranOn i (l : list (nat * job)) : list job :=
  map snd (filter (fun p => Nat.eqb (fst p) i) l).

(** Chunks handed to worker [i] by a list of calls, in order. *)
Definition handedTo i (cs : list slots) : list job :=
  flat_map (fun c => match slot c i with Some j => [j] | None => [] end) cs.

Definition inBody w := match pc w with WIn _ _ _ => true | _ => false end.

(** ** Invariant *)

(** What the caller's position says about worker [i]. *)
Inductive view :=
| VFree                      (* nothing outstanding *)
| VF (f : Z) | VFB (f b : Z) | VFBE (f b e : Z)   (* fields being written *)
| VOut (j : job)             (* posted, not joined *)
| VTd0                       (* run = 0 stored, not posted *)
| VTd1.                      (* destructor has posted *)

Definition outOr (c : slots) i := match slot c i with Some j => VOut j | None => VFree end.

Definition viewOf (c : cpc) (sl : slots) (i : nat) : view :=
  match c with
  | CIdle => VFree
  | CAt k => if i <? k then outOr sl i else VFree
  | CSetB k => if i <? k then outOr sl i else
               if i =? k then match slot sl i with Some j => VF (jf j) | None => VFree end else VFree
  | CSetE k => if i <? k then outOr sl i else
               if i =? k then match slot sl i with Some j => VFB (jf j) (jb j) | None => VFree end else VFree
  | CPost k => if i <? k then outOr sl i else
               if i =? k then match slot sl i with Some j => VFBE (jf j) (jb j) (je j) | None => VFree end else VFree
  | CWake k => if i <=? k then outOr sl i else VFree
  | CJoin k | CFut k | CSleep k => if k <=? i then outOr sl i else VFree
  | CTd k => if i <? k then VTd1 else VFree
  | CTdPost k => if i <? k then VTd1 else if i =? k then VTd0 else VFree
  | CTdWake k => if i <=? k then VTd1 else VFree
  | CEnd => VTd1
  end.

Definition sleepOn c i := match c with CSleep k => k =? i | _ => false end.
Definition wakeDue c i := match c with CWake k | CTdWake k => k =? i | _ => false end.

(** The current call's chunk of worker [i] has already been joined. *)
Definition joined (c : cpc) i :=
  match c with CJoin k | CFut k | CSleep k => i <? k | _ => false end.

Definition due (c : cpc) (sl : slots) i : list job :=
  if joined c i then match slot sl i with Some j => [j] | None => [] end else [].

Definition idlePc p := match p with WRun | WTry | WFut | WSleep | WWake => True | _ => False end.

Definition busyPc (j : job) p :=
  match p with
  | WRun2 | WLdF => True
  | WLdB f => f = jf j
  | WLdE f b => f = jf j /\ b = jb j
  | WEnter f b e | WIn f b e => f = jf j /\ b = jb j /\ e = je j
  | _ => False
  end.

Definition free w := run w = true /\ rdy w = false /\ dne w = false /\ idlePc (pc w).

(** [h]: the jobs worker [i] must have completed before the outstanding one;
    [l]: the jobs it has completed. *)
Definition winv (v : view) (sl wd : bool) (h l : list job) (w : wst) : Prop :=
  match v with
  | VFree => free w /\ l = h
  | VF f => free w /\ l = h /\ wf w = f
  | VFB f b => free w /\ l = h /\ wf w = f /\ wb w = b
  | VFBE f b e => free w /\ l = h /\ wf w = f /\ wb w = b /\ we w = e
  | VOut j => run w = true /\ wf w = jf j /\ wb w = jb j /\ we w = je j /\
      ( (rdy w = true /\ dne w = false /\ idlePc (pc w) /\ (pc w = WSleep -> wd = true) /\ l = h)
      \/ (rdy w = false /\ dne w = false /\ busyPc j (pc w) /\ l = h)
      \/ (rdy w = false /\ dne w = false /\ pc w = WPost /\ l = h ++ [j])
      \/ (rdy w = false /\ dne w = true /\ idlePc (pc w) /\ (sl = true -> pc w = WWake) /\ l = h ++ [j]))
  | VTd0 => run w = false /\ rdy w = false /\ dne w = false /\ l = h /\
            (idlePc (pc w) \/ pc w = WExit)
  | VTd1 => run w = false /\ dne w = false /\ l = h /\
      ( (rdy w = true /\ idlePc (pc w) /\ (pc w = WSleep -> wd = true))
      \/ (rdy w = false /\ pc w = WRun2) \/ pc w = WExit)
  end.

Definition cwf N (c : cpc) (sl : slots) :=
  length sl <= N /\
  match c with
  | CIdle => True
  | CAt k | CJoin k => k <= length sl
  | CSetB k | CSetE k | CPost k | CWake k | CFut k | CSleep k =>
      k < length sl /\ slot sl k <> None
  | CTd k => k <= N
  | CTdPost k | CTdWake k => k < N
  | CEnd => True
  end.

Definition inv N s :=
  cwf N (cp s) (cur s) /\
  forall i, i < N ->
    winv (viewOf (cp s) (cur s) i) (sleepOn (cp s) i) (wakeDue (cp s) i)
         (handedTo i (past s) ++ due (cp s) (cur s) i) (ranOn i (log s)) (ws s i).

Lemma slot_some_lt c i j : slot c i = Some j -> i < length c.
Proof.
  unfold slot. intros H. destruct (Nat.lt_ge_cases i (length c)); auto.
  rewrite nth_overflow in H by lia. discriminate.
Qed.

Lemma slot_none_ge c i : length c <= i -> slot c i = None.
Proof. unfold slot. intros. now apply nth_overflow. Qed.

Lemma ranOn_app i l l' : ranOn i (l ++ l') = ranOn i l ++ ranOn i l'.
Proof. unfold ranOn. now rewrite filter_app, map_app. Qed.

Lemma handedTo_snoc i cs c :
  handedTo i (cs ++ [c]) = handedTo i cs ++ match slot c i with Some j => [j] | None => [] end.
Proof. unfold handedTo. rewrite flat_map_app. cbn. now rewrite app_nil_r. Qed.

Lemma upd_same f i w : upd f i w i = w.
Proof. unfold upd. now rewrite Nat.eqb_refl. Qed.
Lemma upd_other f i w k : k <> i -> upd f i w k = f k.
Proof. unfold upd. intros. apply Nat.eqb_neq in H. now rewrite H. Qed.

(** A worker's own step keeps its invariant; if it issues a wake-up, the caller
    is no longer asleep on it. *)
Lemma winv_wstep v sl wd h l w o bw w' i :
  winv v sl wd h l w -> wstep w o bw w' ->
  winv v (if bw then false else sl) wd h (l ++ ranOn i (logOf i o)) w'.
Proof.
  intros Hi Hs. destruct w as [r f0 b0 e0 rd dn p].
  inversion Hs; subst; clear Hs;
  destruct v; cbn [winv] in *; unfold free in *;
  cbn [run wf wb we rdy dne pc setpc setrdy setdne] in *; subst;
  repeat match goal with
  | H : _ /\ _ |- _ => destruct H
  | H : _ \/ _ |- _ => destruct H
  end; cbn [idlePc busyPc] in *; try contradiction; try discriminate; subst;
  unfold ranOn, logOf; cbn [filter fst map]; rewrite ?Nat.eqb_refl; cbn [map snd];
  rewrite ?app_nil_r; cbn [busyPc] in *;
  repeat match goal with
  | H : _ /\ _ |- _ => destruct H
  | j : job |- _ => destruct j; cbn [jf jb je] in *
  end; subst; intuition (auto; try discriminate; try congruence).
Qed.

Lemma inv_worker N s i o b w' :
  inv N s -> i < N -> wstep (ws s i) o b w' ->
  inv N (mkS (upd (ws s) i w') (wakeCaller b i (cp s)) (cur s) (past s) (log s ++ logOf i o)).
Proof.
  intros [Hc Hw] Hi Hs. split; cbn [cp cur past log ws].
  - destruct (cp s) eqn:E; destruct b; cbn [wakeCaller]; auto.
    destruct (i0 =? i) eqn:Q; [|exact Hc].
    apply Nat.eqb_eq in Q; subst. cbn [cwf] in *. destruct Hc as (H1 & H2 & _).
    split; [exact H1|lia].
  - assert (V : forall k, viewOf (wakeCaller b i (cp s)) (cur s) k = viewOf (cp s) (cur s) k
      /\ due (wakeCaller b i (cp s)) (cur s) k = due (cp s) (cur s) k
      /\ wakeDue (wakeCaller b i (cp s)) k = wakeDue (cp s) k
      /\ (k <> i -> sleepOn (wakeCaller b i (cp s)) k = sleepOn (cp s) k)
      /\ sleepOn (wakeCaller b i (cp s)) i = if b then false else sleepOn (cp s) i).
    { intros k. destruct b, (cp s); cbn [wakeCaller]; try (repeat split; reflexivity).
      destruct (i0 =? i) eqn:Q; [apply Nat.eqb_eq in Q; subst|]; cbn; repeat split; auto.
      intros. symmetry. apply Nat.eqb_neq. auto. }
    intros k Hk. destruct (V k) as (V1 & V2 & V3 & V4 & V5). rewrite V1, V2, V3, ranOn_app.
    destruct (Nat.eq_dec k i) as [->|Hne].
    + rewrite upd_same, V5. now apply winv_wstep with (w := ws s i); auto.
    + rewrite upd_other, (V4 Hne) by auto.
      replace (ranOn k (logOf i o)) with (@nil job).
      * rewrite app_nil_r. auto.
      * unfold ranOn, logOf. destruct o; cbn; auto.
        apply not_eq_sym, Nat.eqb_neq in Hne. now rewrite Hne.
Qed.

Ltac dtests :=
  repeat match goal with
  | |- context [?a <? ?b] => destruct (Nat.ltb_spec a b); try lia
  | |- context [?a <=? ?b] => destruct (Nat.leb_spec a b); try lia
  | |- context [?a =? ?b] => destruct (Nat.eqb_spec a b); try lia
  | H : context [?a <? ?b] |- _ => destruct (Nat.ltb_spec a b); try lia
  | H : context [?a <=? ?b] |- _ => destruct (Nat.leb_spec a b); try lia
  | H : context [?a =? ?b] |- _ => destruct (Nat.eqb_spec a b); try lia
  end.

(** A caller's step changes at most one worker. *)
Lemma inv_caller N s s' : inv N s -> cstep N s s' -> inv N s'.
Proof.
  intros [Hc Hw] Hs. destruct s as [W c sl P L]; cbn [cp cur past log ws] in *.
  inversion Hs; subst; clear Hs; cbn [cp cur past log ws] in *; subst;
  (split; [ unfold cwf in *; cbn [cp cur] in *; clear Hw;
     repeat match goal with
     | H : slot _ _ = Some _ |- _ => pose proof (slot_some_lt _ _ _ H); revert H
     end; intros; intuition (try lia; try congruence)
   | cbn [cp cur past log ws]; intros k Hk; pose proof (Hw k Hk) as H; clear Hw;
     cbn [viewOf sleepOn wakeDue due joined cwf] in *;
     unfold due in *; cbn [joined] in *;
     try match goal with
     | |- context [upd _ ?i _ k] => destruct (Nat.eq_dec k i); [subst k; rewrite ?upd_same|rewrite !upd_other by auto]
     end; dtests ]).
  all: try exact H.
  all: try rewrite handedTo_snoc.
  all: repeat match goal with E : ?a = ?b :> nat |- _ => first [subst a | subst b | clear E] end.
  all: repeat match goal with
    | H1 : ?a <= ?b, H2 : ?b < S ?a |- _ => assert (a = b) by lia; subst; clear H1
    | H1 : ?b < S ?a, H2 : ?a <= ?b |- _ => assert (a = b) by lia; subst; clear H1
    end.
  all: unfold outOr in *;
    repeat match goal with
    | E : slot ?sl ?i = _, H : context [slot ?sl ?i] |- _ => rewrite E in H
    | E : slot ?sl ?i = _ |- context [slot ?sl ?i] => rewrite E
    end.
  all: try exact H.
  all: try (rewrite ?app_nil_r in *; exact H).
  all: try match goal with
    | Hc : cwf _ (CPost ?i) ?sl |- _ => destruct (slot sl i) eqn:?; [|unfold cwf in Hc; intuition congruence]
    | Hc : cwf _ (CWake ?i) ?sl |- _ => destruct (slot sl i) eqn:?; [|unfold cwf in Hc; intuition congruence]
    | |- context [match slot ?sl ?i with _ => _ end] => destruct (slot sl i) eqn:?
    end.
  all: try match goal with E : slot ?sl ?k = Some _ |- _ => pose proof (slot_some_lt _ _ _ E); lia end.
  all: try (rewrite ?app_nil_r in *; exact H).
  all: try (cbn [winv] in *; unfold free, wakeWorker in *;
    match type of H with context [?W ?i] => destruct (W i) as [r f0 b0 e0 rd dn p] end;
    cbn [run wf wb we rdy dne pc setpc setrdy setdne setrun setwf setwb setwe] in *;
    destruct p; cbn [run wf wb we rdy dne pc idlePc busyPc] in *; rewrite ?app_nil_r in *;
    repeat match goal with
    | H : _ /\ _ |- _ => destruct H
    | H : _ \/ _ |- _ => destruct H
    end; subst; try contradiction; try discriminate;
    intuition (auto; try discriminate; try congruence)).
  cbn; lia.
Qed.

Lemma inv_step N k s s' : inv N s -> step N k s s' -> inv N s'.
Proof.
  intros HI Hs. inversion Hs; subst; clear Hs.
  - eapply inv_worker; eauto.
  - eapply inv_caller; eauto.
  - destruct HI as [Hc Hw]. split; cbn [cp cur past log ws]; auto.
    intros k Hk. specialize (Hw k Hk). destruct (Nat.eq_dec k i) as [->|Hne].
    + rewrite upd_same. destruct (ws s i) as [r f0 b0 e0 rd dn p]. cbn in H0. subst p.
      destruct (viewOf (cp s) (cur s) i); cbn [winv] in *; unfold free in *;
      cbn [run wf wb we rdy dne pc setpc idlePc busyPc] in *;
      intuition (auto; try discriminate; try congruence).
    + now rewrite upd_other by auto.
  - destruct HI as [Hc Hw]. split; cbn [cp cur past log ws].
    + rewrite H in Hc. unfold cwf in *. intuition lia.
    + intros k Hk. specialize (Hw k Hk). rewrite H in Hw.
      cbn [viewOf sleepOn wakeDue] in *. unfold due in *; cbn [joined] in *.
      destruct (if i <=? k then outOr (cur s) k else VFree); cbn [winv] in *; auto.
      intuition (auto; try discriminate).
  - destruct HI as [Hc Hw]. split; cbn [cp cur past log ws].
    + unfold cwf. cbn. lia.
    + intros k Hk. specialize (Hw k Hk). rewrite H in Hw.
      cbn [viewOf sleepOn wakeDue] in *. unfold due in *; cbn [joined] in *.
      replace (k <? 0) with false; auto.
  - destruct HI as [Hc Hw]. split; cbn [cp cur past log ws].
    + unfold cwf. cbn. lia.
    + intros k Hk. specialize (Hw k Hk). rewrite H in Hw.
      cbn [viewOf sleepOn wakeDue] in *. unfold due in *; cbn [joined] in *.
      replace (k <? 0) with false; auto.
Qed.

Lemma inv_init N : inv N init.
Proof.
  split; cbn.
  - unfold cwf; cbn; lia.
  - intros i _. unfold free, w0; cbn. auto.
Qed.

Lemma inv_exec N s n sp p s' : inv N s -> exec N s n sp p s' -> inv N s'.
Proof. intros HI He. induction He; auto; (eapply inv_step; [|eassumption]; auto). Qed.

Lemma inv_reachable N s : reachable N s -> inv N s.
Proof. intros (n & sp & p & He). eapply inv_exec; eauto. apply inv_init. Qed.

(** ** Progress *)

(** A worker that is not asleep and has not exited can step. *)
Lemma worker_enabled w : pc w <> WSleep -> pc w <> WExit -> exists o b w', wstep w o b w'.
Proof.
  intros H1 H2. destruct (pc w) eqn:E; try congruence.
  - destruct (run w) eqn:R; do 3 eexists; [apply ws_run|apply ws_stop]; auto.
  - destruct (rdy w) eqn:R; do 3 eexists; [apply ws_take|apply ws_miss]; auto.
  - destruct (rdy w) eqn:R; do 3 eexists; [apply ws_again|apply ws_sleep]; auto.
  - destruct (run w) eqn:R; do 3 eexists; [apply ws_run2|apply ws_stop2]; auto.
  - do 3 eexists; apply ws_ldf; auto.
  - do 3 eexists; eapply ws_ldb; eauto.
  - do 3 eexists; eapply ws_lde; eauto.
  - do 3 eexists; eapply ws_enter; eauto.
  - do 3 eexists; eapply ws_leave; eauto.
  - destruct (dne w) eqn:R; do 3 eexists; [apply ws_post_skip|apply ws_post]; auto.
  - do 3 eexists; apply ws_wake; auto.
Qed.

Lemma worker_can_step N s i :
  i < N -> pc (ws s i) <> WSleep -> pc (ws s i) <> WExit -> exists s', step N Normal s s'.
Proof.
  intros Hi H1 H2. destruct (worker_enabled _ H1 H2) as (o & b & w' & Hs).
  eexists. eapply st_worker; eauto.
Qed.

Lemma progress N s : inv N s -> cp s <> CIdle -> cp s <> CEnd -> exists s', step N Normal s s'.
Proof.
  intros [Hc Hw] H1 H2.
  destruct (cp s) eqn:E; try congruence; unfold cwf in Hc; cbn in Hc.
  - destruct (Nat.eq_dec i (length (cur s))).
    + eexists. apply st_caller. eapply cs_all; eauto.
    + destruct (slot (cur s) i) eqn:Q; eexists; apply st_caller.
      * eapply cs_setf; eauto.
      * eapply cs_skip; eauto. lia.
  - destruct (slot (cur s) i) eqn:Q; [|tauto]. eexists; apply st_caller; eapply cs_setb; eauto.
  - destruct (slot (cur s) i) eqn:Q; [|tauto]. eexists; apply st_caller; eapply cs_sete; eauto.
  - destruct (rdy (ws s i)) eqn:Q; eexists; apply st_caller;
      [eapply cs_post_skip|eapply cs_post]; eauto.
  - eexists; apply st_caller; eapply cs_wake; eauto.
  - destruct (Nat.eq_dec i (length (cur s))).
    + eexists. apply st_caller. eapply cs_return; eauto.
    + destruct (slot (cur s) i) eqn:Q.
      * destruct (dne (ws s i)) eqn:D; eexists; apply st_caller.
        -- eapply cs_join; eauto.
        -- eapply cs_join_miss; eauto.
      * eexists; apply st_caller. eapply cs_join_skip; eauto. lia.
  - destruct (dne (ws s i)) eqn:D; eexists; apply st_caller;
      [eapply cs_again|eapply cs_sleep]; eauto.
  - (* asleep on done: the worker is never asleep or gone *)
    destruct Hc as (Hl & Hi & Hn). assert (Hi' : i < N) by lia.
    apply (worker_can_step N s i Hi'); specialize (Hw i Hi');
      cbn [viewOf sleepOn wakeDue] in Hw; rewrite Nat.leb_refl, Nat.eqb_refl in Hw;
      unfold outOr in Hw; destruct (slot (cur s) i); try tauto; cbn [winv] in Hw;
      intros Hp; rewrite Hp in Hw; cbn [idlePc busyPc] in Hw;
      intuition discriminate.
  - destruct (Nat.eq_dec i N); eexists; apply st_caller; [eapply cs_tdend|eapply cs_td]; eauto; lia.
  - destruct (rdy (ws s i)) eqn:Q; eexists; apply st_caller;
      [eapply cs_tdpost_skip|eapply cs_tdpost]; eauto.
  - eexists; apply st_caller; eapply cs_tdwake; eauto.
Qed.

(** ** Termination: a measure that every normal step decreases *)

Definition wm (w : wst) : nat :=
  match pc w, rdy w with
  | WWake, false => 6 | WRun, false => 3 | WTry, false => 2 | WFut, false => 1
  | WSleep, false => 0
  | WWake, true => 36 | WRun, true => 33 | WTry, true => 31 | WFut, true => 32
  | WSleep, true => 33
  | WExit, _ => 0
  | WRun2, r => (if r then 40 else 0) + 20
  | WLdF, r => (if r then 40 else 0) + 19
  | WLdB _, r => (if r then 40 else 0) + 18
  | WLdE _ _, r => (if r then 40 else 0) + 17
  | WEnter _ _ _, r => (if r then 40 else 0) + 16
  | WIn _ _ _, r => (if r then 40 else 0) + 15
  | WPost, r => (if r then 40 else 0) + 14
  end.

Fixpoint total (N : nat) (f : nat -> wst) : nat :=
  match N with 0 => 0 | S k => wm (f k) + total k f end.

Definition cm N (c : cpc) (n : nat) (f : nat -> wst) : nat :=
  match c with
  | CIdle | CEnd => 0
  | CAt k => 100 * (n - k) + 10 * n + 10
  | CSetB k => 100 * (n - k) + 10 * n + 9
  | CSetE k => 100 * (n - k) + 10 * n + 8
  | CPost k => 100 * (n - k) + 10 * n + 7
  | CWake k => 100 * (n - k) + 10 * n + 7 - 60
  | CJoin k => 10 * (n - k) + if dne (f k) then 1 else 4
  | CFut k => 10 * (n - k) + if dne (f k) then 2 else 3
  | CSleep k => 10 * (n - k) + if dne (f k) then 3 else 2
  | CTd k => 100 * (N - k) + 1
  | CTdPost k => 100 * (N - k)
  | CTdWake k => 100 * (N - k) - 60
  end.

Definition measure N s := cm N (cp s) (length (cur s)) (ws s) + total N (ws s).

Lemma total_ext N f g : (forall k, k < N -> f k = g k) -> total N f = total N g.
Proof.
  induction N; cbn; auto. intros H. rewrite (H N) by lia. rewrite IHN; auto.
Qed.

Lemma total_upd N f i w : i < N -> total N (upd f i w) + wm (f i) = total N f + wm w.
Proof.
  induction N; [lia|]. intros Hi. cbn [total]. destruct (Nat.eq_dec i N) as [->|Hne].
  - rewrite upd_same.
    rewrite (total_ext N (upd f N w) f) by (intros; apply upd_other; lia). lia.
  - rewrite upd_other by auto. specialize (IHN ltac:(lia)). lia.
Qed.

Lemma wm_wstep w o b w' : wstep w o b w' ->
  wm w' + (if b then 3 else if Bool.eqb (dne w) (dne w') then 1 else 8) <= wm w /\ (b = true -> dne w' = dne w).
Proof.
  intros Hs. destruct w as [r f0 b0 e0 rd dn p].
  inversion Hs; subst; clear Hs;
    cbn [run wf wb we rdy dne pc setpc setrdy setdne] in *; subst;
    unfold wm; cbn [run wf wb we rdy dne pc];
    rewrite ?Bool.eqb_reflx; try destruct rd; try destruct dn; cbn; split; try lia; auto.
Qed.

Lemma wm_wake w : wm (wakeWorker w) <= wm w + 2.
Proof.
  destruct w as [r f0 b0 e0 rd dn p]. unfold wakeWorker; cbn. destruct p, rd; cbn; lia.
Qed.

Lemma wm_post w : wm (setrdy true w) <= wm w + 40.
Proof.
  destruct w as [r f0 b0 e0 rd dn p]. unfold setrdy; cbn. destruct p, rd; cbn; lia.
Qed.

Lemma wm_setwf f w : wm (setwf f w) = wm w. Proof. reflexivity. Qed.
Lemma wm_setwb f w : wm (setwb f w) = wm w. Proof. reflexivity. Qed.
Lemma wm_setwe f w : wm (setwe f w) = wm w. Proof. reflexivity. Qed.
Lemma wm_setrun f w : wm (setrun f w) = wm w. Proof. reflexivity. Qed.
Lemma wm_setdne f w : wm (setdne f w) = wm w. Proof. reflexivity. Qed.

Lemma dne_wake w : dne (wakeWorker w) = dne w.
Proof. destruct w as [r f0 b0 e0 rd dn p]; destruct p; reflexivity. Qed.

Lemma normal_decreases N s s' : inv N s -> step N Normal s s' -> measure N s' < measure N s.
Proof.
  intros [Hc _] Hs. inversion Hs; subst; clear Hs.
  - destruct (wm_wstep _ _ _ _ H0) as [Hm Hd]. unfold measure; cbn [cp cur ws].
    pose proof (total_upd N (ws s) i w' H) as T.
    destruct b; cbn [wakeCaller].
    + specialize (Hd eq_refl).
      destruct (cp s); cbn [cm]; try lia;
        try (destruct (Nat.eq_dec i0 i) as [->|Hne];
          [rewrite ?Nat.eqb_refl; cbn [cm]; rewrite ?upd_same, ?Hd; destruct (dne (ws s i)); lia
          |apply Nat.eqb_neq in Hne as Q; rewrite ?Q; cbn [cm]; rewrite ?upd_other by auto; destruct (dne (ws s i0)); lia]).
    + assert (Hm' : wm w' + 1 <= wm (ws s i)) by (destruct (Bool.eqb _ _); lia).
      destruct (cp s); cbn [cm]; try lia;
        try (destruct (Nat.eq_dec i0 i) as [->|Hne];
          [rewrite ?upd_same; destruct (dne (ws s i)), (dne w'); cbn [Bool.eqb] in Hm; lia
          |rewrite ?upd_other by auto; destruct (dne (ws s i0)); lia]).
  - unfold measure. destruct s as [W c sl P L]; cbn [cp cur ws] in *.
    inversion H; subst; clear H; cbn [cp cur past log ws] in *; subst;
      unfold cwf in Hc;
      repeat match goal with
      | E : slot _ _ = Some _ |- _ => apply slot_some_lt in E
      end;
      try match goal with
      | |- context [total N (upd W ?i ?w)] =>
          pose proof (total_upd N W i w ltac:(lia)) as T;
          pose proof (wm_wake (W i)); pose proof (wm_post (W i));
          rewrite ?wm_setwf, ?wm_setwb, ?wm_setwe, ?wm_setrun, ?wm_setdne in T
      end;
      cbn [cm] in *.
    all: repeat match goal with
      | |- context [if dne ?x then _ else _] => destruct (dne x) eqn:?
      | H : context [if dne ?x then _ else _] |- _ => destruct (dne x) eqn:?
      end; try congruence; try lia.
Qed.

Lemma spurious_increase N s s' : step N Spurious s s' -> measure N s' <= measure N s + 2.
Proof.
  intros Hs. inversion Hs; subst; clear Hs; unfold measure; cbn [cp cur ws].
  - pose proof (total_upd N (ws s) i (setpc WTry (ws s i)) H) as T.
    assert (wm (setpc WTry (ws s i)) <= wm (ws s i) + 2).
    { destruct (ws s i) as [r f0 b0 e0 rd dn p]. cbn in H0. subst p. destruct rd; cbn; lia. }
    assert (cm N (cp s) (length (cur s)) (upd (ws s) i (setpc WTry (ws s i)))
            = cm N (cp s) (length (cur s)) (ws s)).
    { assert (D : forall k, dne (upd (ws s) i (setpc WTry (ws s i)) k) = dne (ws s k)).
      { intros k. unfold upd. destruct (Nat.eqb_spec k i); subst; reflexivity. }
      destruct (cp s); cbn [cm]; rewrite ?D; reflexivity. }
    lia.
  - rewrite H. cbn [cm]. destruct (dne (ws s i)); lia.
Qed.

Lemma measure_bound N s : inv N s -> measure N s <= 170 * N + 10.
Proof.
  intros [Hc _]. unfold measure.
  assert (T : total N (ws s) <= 60 * N).
  { clear. induction N; cbn [total]; [lia|].
    assert (wm (ws s N) <= 60) by (unfold wm; destruct (pc (ws s N)), (rdy (ws s N)); lia). lia. }
  unfold cwf in Hc. destruct (cp s); cbn [cm]; try destruct (dne (ws s i)); lia.
Qed.

Lemma exec_measure N s n sp s' : inv N s -> exec N s n sp 0 s' -> n + measure N s' <= measure N s + 2 * sp.
Proof.
  intros HI He. remember 0 as p eqn:Ep. revert Ep. induction He; intros; subst; try lia; try discriminate.
  - assert (inv N s1) by (eapply inv_exec; eauto).
    pose proof (normal_decreases _ _ _ H0 H). specialize (IHHe HI eq_refl). lia.
  - pose proof (spurious_increase _ _ _ H). specialize (IHHe HI eq_refl). lia.
Qed.

(** Inside a call, only the call's own return ends it. *)
Lemma step_keeps_call N s s' : inv N s -> cp s <> CIdle -> step N Normal s s' ->
  (past s' = past s /\ cur s' = cur s /\ cp s' <> CIdle) \/
  (cp s' = CIdle /\ past s' = past s ++ [cur s]).
Proof.
  intros _ H Hs. inversion Hs; subst; clear Hs.
  - left. cbn [past cur cp]. repeat split; auto. destruct b; cbn; auto.
    destruct (cp s); cbn; try discriminate; auto. destruct (_ =? _); discriminate.
  - inversion H0; subst; cbn [past cur cp] in *; auto; left; repeat split; auto; discriminate.
Qed.

(** ** Counting *)

Definition chunks (c : slots) : list job :=
  flat_map (fun o => match o with Some j => [j] | None => [] end) c.

Lemma flat_map_app_perm {A B} (f g : A -> list B) l :
  Permutation (flat_map (fun i => f i ++ g i) l) (flat_map f l ++ flat_map g l).
Proof.
  induction l; cbn; auto. rewrite IHl. rewrite <- !app_assoc. apply Permutation_app_head.
  rewrite !app_assoc. apply Permutation_app_tail. apply Permutation_app_comm.
Qed.

Lemma flat_map_key (k : nat) (j : job) n : forall a,
  flat_map (fun i => if k =? i then [j] else []) (seq a n) =
  if (a <=? k) && (k <? a + n) then [j] else [].
Proof.
  induction n; intros a; cbn [seq flat_map].
  - destruct (Nat.leb_spec a k), (Nat.ltb_spec k (a + 0)); cbn; auto; lia.
  - rewrite IHn. destruct (Nat.eqb_spec k a).
    + subst. rewrite Nat.leb_refl.
      destruct (Nat.leb_spec (S a) a), (Nat.ltb_spec a (a + S n)); cbn; auto; lia.
    + destruct (Nat.leb_spec (S a) k), (Nat.leb_spec a k), (Nat.ltb_spec k (S a + n)), (Nat.ltb_spec k (a + S n));
        cbn; auto; lia.
Qed.

Lemma perm_by_worker N l : Forall (fun p => fst p < N) l ->
  Permutation (map snd l) (flat_map (fun i => ranOn i l) (seq 0 N)).
Proof.
  induction 1 as [|[k j] l Hk Hl IH]; cbn [map snd].
  - replace (flat_map _ _) with (@nil job); auto. unfold ranOn; cbn.
    induction (seq 0 N); cbn; auto.
  - transitivity (flat_map (fun i => (if k =? i then [j] else []) ++ ranOn i l) (seq 0 N)).
    + rewrite flat_map_app_perm, flat_map_key. cbn in Hk.
      destruct (Nat.ltb_spec k (0 + N)); [|lia]. cbn. now constructor.
    + apply Permutation_refl'. apply flat_map_ext. intros i. unfold ranOn. cbn [filter fst].
      destruct (k =? i); reflexivity.
Qed.

Lemma chunks_by_worker : forall (c : slots) N, length c <= N ->
  flat_map (fun i => match slot c i with Some j => [j] | None => [] end) (seq 0 N) = chunks c.
Proof.
  induction c as [|o c IH]; intros N H.
  - cbn. clear. generalize 0. induction N; intros a; cbn; auto. unfold slot. rewrite IHN. destruct a; reflexivity.
  - cbn in H. destruct N; [lia|]. cbn [seq flat_map]. rewrite <- seq_shift, flat_map_concat_map, map_map.
    rewrite <- flat_map_concat_map. unfold slot at 1; cbn [nth]. unfold chunks. cbn [flat_map].
    f_equal. apply (IH N). lia.
Qed.

Lemma handed_by_worker N cs : Forall (fun c : slots => length c <= N) cs ->
  Permutation (flat_map (fun i => handedTo i cs) (seq 0 N)) (flat_map chunks cs).
Proof.
  induction 1 as [|c cs Hc Hcs IH]; cbn [flat_map].
  - replace (flat_map _ _) with (@nil job); auto. unfold handedTo; cbn.
    induction (seq 0 N); cbn; auto.
  - unfold handedTo. cbn [flat_map]. rewrite flat_map_app_perm, chunks_by_worker by auto.
    now apply Permutation_app_head.
Qed.

Lemma reach_wf N s : reachable N s ->
  Forall (fun c : slots => length c <= N) (past s) /\ Forall (fun p => fst p < N) (log s).
Proof.
  intros R. pose proof R as (n & sp & p & He). clear R.
  remember init as s0 eqn:E. revert E. induction He; intros; subst.
  - cbn. auto.
  - specialize (IHHe eq_refl). destruct IHHe as [H1 H2].
    pose proof (inv_exec _ _ _ _ _ _ (inv_init N) He) as HI.
    inversion H; subst; clear H; cbn [past log].
    + split; auto. apply Forall_app. split; auto. unfold logOf. destruct o; auto.
    + destruct HI as [Hc _].
      inversion H0; subst; cbn [past log cur cp] in *; auto.
      split; auto. apply Forall_app. split; auto. constructor; auto. apply Hc.
  - specialize (IHHe eq_refl). inversion H; subst; auto.
  - specialize (IHHe eq_refl). inversion H; subst; auto.
Qed.

(** ** C13: the theorems *)

(** When the caller is outside the runtime, worker [i] has completed exactly the
    chunks handed to it, in order, once each; and no body is running. *)
Theorem C13_each_worker_ran_its_chunks_in_order :
  forall N s i, reachable N s -> cp s = CIdle -> i < N ->
  ranOn i (log s) = handedTo i (past s) /\ inBody (ws s i) = false.
Proof.
  intros N s i R C Hi. destruct (inv_reachable _ _ R) as [_ Hw]. specialize (Hw i Hi).
  rewrite C in Hw. cbn in Hw. unfold due in Hw. cbn in Hw. rewrite app_nil_r in Hw.
  destruct Hw as [(_ & _ & _ & P) E]. split; auto.
  unfold inBody. destruct (pc (ws s i)); cbn in P; auto; contradiction.
Qed.

(** Over the whole history: the bodies that ran are exactly the chunks of the
    calls that have returned, each as often as it was handed out. *)
Theorem C13_return_means_every_chunk_ran_exactly_once :
  forall N s, reachable N s -> cp s = CIdle ->
  Permutation (map snd (log s)) (flat_map chunks (past s)).
Proof.
  intros N s R C. destruct (reach_wf _ _ R) as [H1 H2].
  rewrite (perm_by_worker N _ H2), <- (handed_by_worker N _ H1).
  assert (E : forall l, (forall i, In i l -> i < N) ->
    flat_map (fun i => ranOn i (log s)) l = flat_map (fun i => handedTo i (past s)) l).
  { induction l; cbn; auto. intros H. f_equal; auto.
    apply (C13_each_worker_ran_its_chunks_in_order N); auto. }
  rewrite E; auto. intros i Hi. apply in_seq in Hi. lia.
Qed.

(** A body runs only while its call is in progress, on the worker it was handed
    to, with the function and bounds of that call. *)
Theorem C13_bodies_run_only_inside_their_call :
  forall N s i f b e, reachable N s -> i < N -> pc (ws s i) = WIn f b e ->
  cp s <> CIdle /\ cp s <> CEnd /\ slot (cur s) i = Some (mkJob f b e).
Proof.
  intros N s i f b e R Hi Hp. destruct (inv_reachable _ _ R) as [_ Hw]. specialize (Hw i Hi).
  assert (V : exists j, viewOf (cp s) (cur s) i = VOut j /\ j = mkJob f b e).
  { destruct (viewOf (cp s) (cur s) i); cbn [winv] in Hw; unfold free in Hw; rewrite Hp in Hw;
      cbn [idlePc busyPc] in Hw; try (exfalso; intuition (auto; discriminate)).
    destruct j as [f' b' e']; cbn [jf jb je] in *. eexists; split; eauto. intuition (try discriminate; subst; auto). }
  destruct V as (j & V & ->). assert (S : slot (cur s) i = Some (mkJob f b e)).
  { destruct (cp s); cbn [viewOf] in V; unfold outOr in V;
      repeat match type of V with
      | context [if ?b then _ else _] => destruct b
      | context [match ?b with Some _ => _ | None => _ end] => destruct b eqn:?
      end; congruence. }
  repeat split; auto; intros C; rewrite C in V; cbn in V; discriminate.
Qed.

(** No lost wake-up: while the caller is inside a call or inside the destructor
    some thread can always make a step, without any spurious wake-up. *)
Theorem C13_no_deadlock :
  forall N s, reachable N s -> cp s <> CIdle -> cp s <> CEnd -> exists s', step N Normal s s'.
Proof. intros. apply progress; auto. now apply inv_reachable. Qed.

(** Every schedule terminates: between two actions of the program no schedule
    has more than [170 N + 10] steps plus two per spurious wake-up. *)
Theorem C13_every_schedule_is_finite :
  forall N s n sp s', reachable N s -> exec N s n sp 0 s' -> n <= 170 * N + 10 + 2 * sp.
Proof.
  intros N s n sp s' R He. pose proof (inv_reachable _ _ R) as HI.
  pose proof (exec_measure _ _ _ _ _ HI He). pose proof (measure_bound _ _ HI). lia.
Qed.

(** Hence a call always returns: any schedule that cannot be continued has
    returned to the program (or finished the destructor). *)
Theorem C13_maximal_schedules_return :
  forall N s n sp s', reachable N s -> exec N s n sp 0 s' ->
  (forall s'', ~ step N Normal s' s'') -> cp s' = CIdle \/ cp s' = CEnd.
Proof.
  intros N s n sp s' R He Hm.
  assert (HI : inv N s') by (eapply inv_exec; eauto; now apply inv_reachable).
  destruct (cp s') eqn:E; auto; exfalso; destruct (progress N s' HI) as [s'' H]; try congruence;
    apply (Hm s''); auto.
Qed.

(** After the destructor no body ever runs again, and when nothing can move all
    workers have exited. *)
Theorem C13_teardown_stops_all_workers :
  forall N s, reachable N s -> cp s = CEnd ->
  (forall i, i < N -> ranOn i (log s) = handedTo i (past s) /\ inBody (ws s i) = false) /\
  ((forall s', ~ step N Normal s s') -> forall i, i < N -> pc (ws s i) = WExit).
Proof.
  intros N s R C. destruct (inv_reachable _ _ R) as [_ Hw]. split.
  - intros i Hi. specialize (Hw i Hi). rewrite C in Hw. cbn in Hw. unfold due in Hw. cbn in Hw.
    rewrite app_nil_r in Hw. destruct Hw as (_ & _ & E & P). split; auto.
    unfold inBody. destruct (pc (ws s i)); auto. cbn in P. intuition discriminate.
  - intros Hm i Hi. specialize (Hw i Hi). rewrite C in Hw. cbn in Hw.
    destruct Hw as (_ & _ & _ & P). destruct (pc (ws s i)) eqn:E; auto; exfalso;
    try (destruct (worker_can_step N s i Hi) as [s' Hs]; [congruence|congruence|]; exact (Hm _ Hs)).
    intuition discriminate.
Qed.

Definition inCall c := match c with CIdle | CTd _ | CTdPost _ | CTdWake _ | CEnd => False | _ => True end.

Lemma step_inCall N s s' : inCall (cp s) -> step N Normal s s' ->
  (past s' = past s /\ cur s' = cur s /\ inCall (cp s')) \/
  (cp s' = CIdle /\ past s' = past s ++ [cur s]).
Proof.
  intros H Hs. inversion Hs; subst; clear Hs.
  - left. cbn [past cur cp]. repeat split; auto. destruct b; cbn; auto.
    destruct (cp s); cbn in *; auto. destruct (_ =? _); cbn; auto.
  - inversion H0; subst; cbn [past cur cp] in *; auto; left; repeat split; cbn; auto;
      rewrite ?H1 in *; cbn in *; try contradiction.
Qed.

Lemma exec_trans N s n sp p s1 n' sp' p' s2 :
  exec N s n sp p s1 -> exec N s1 n' sp' p' s2 -> exec N s (n + n') (sp + sp') (p + p') s2.
Proof.
  intros H1 H2. induction H2; rewrite ?Nat.add_0_r, ?Nat.add_succ_r; auto; econstructor; eauto.
Qed.

(** From every reachable state inside a call, the call can be completed, by the
    ordinary steps alone. *)
Theorem C13_call_completes :
  forall N s, reachable N s -> inCall (cp s) ->
  exists n s', exec N s n 0 0 s' /\ cp s' = CIdle /\ past s' = past s ++ [cur s].
Proof.
  intros N s R. pose proof (inv_reachable _ _ R) as HI. clear R.
  remember (measure N s) as m eqn:Em. revert s Em HI.
  induction m as [m IH] using lt_wf_ind. intros s -> HI HC.
  destruct (progress N s HI) as [s1 H1]; [intros C; rewrite C in HC; contradiction..|].
  destruct (step_inCall _ _ _ HC H1) as [(P & Q & HC')|(C & P)].
  - assert (HI1 : inv N s1) by (eapply inv_step; eauto).
    destruct (IH _ (normal_decreases _ _ _ HI H1) s1 eq_refl HI1 HC') as (n & s' & He & C & P').
    exists (1 + n), s'. split; [|rewrite P', P, Q; auto].
    apply (exec_trans N s 1 0 0 s1 n 0 0 s'); auto. econstructor; eauto. constructor.
  - exists 1, s1. split; auto. econstructor; eauto. constructor.
Qed.

(** ** The runtime as a whole: C12's splitting run by this protocol *)

(** One call of [cmmcParallelFor(beg, fin, f)] that uses [n] > 1 threads. *)
Record pcall := mkP { pf : Z; pbeg : Z; pfin : Z; pn : Z }.

(** lines 226-246: slot [i] is the chunk of worker [i], if not empty *)
Definition slotsOf (c : pcall) : slots :=
  map (fun i => match ParallelFor.sub (pbeg c) (pfin c)
                        (ParallelFor.incr (u32 (pfin c - pbeg c)) (pn c)) (pn c) i with
                | Some k => Some (mkJob (pf c) (ParallelFor.lo k) (ParallelFor.hi k))
                | None => None end) (ParallelFor.upto (pn c)).

Definition okCall (c : pcall) : Prop :=
  (INT_MIN <= pbeg c /\ pfin c <= INT_MAX - 4 /\ 16 <= pfin c - pbeg c <= INT_MAX /\
   (pn c = 2 \/ pn c = 4))%Z.

(** how often iteration [k] of function [f] was executed *)
Definition timesIn (f k : Z) (l : list job) : nat :=
  length (filter (fun j => (jf j =? f) && (jb j <=? k) && (k <? je j))%Z l).

Lemma timesIn_perm f k l l' : Permutation l l' -> timesIn f k l = timesIn f k l'.
Proof.
  unfold timesIn. induction 1; cbn; auto; try congruence.
  - destruct (_ && _); cbn; auto.
  - repeat destruct (_ && _); cbn; auto.
Qed.

Lemma timesIn_app f k l l' : timesIn f k (l ++ l') = timesIn f k l + timesIn f k l'.
Proof. unfold timesIn. now rewrite filter_app, app_length. Qed.

Lemma timesIn_slots c f k : okCall c ->
  timesIn f k (chunks (slotsOf c)) =
  if ((pf c =? f) && (pbeg c <=? k) && (k <? pfin c))%Z then 1 else 0.
Proof.
  intros (B & F & S & T).
  assert (E : timesIn f k (chunks (slotsOf c)) =
    if (pf c =? f)%Z then ParallelFor.times_run k (ParallelFor.spawn (pbeg c) (pfin c) (pn c)) else 0).
  { unfold ParallelFor.spawn. replace (pn c =? 1)%Z with false by (symmetry; apply Z.eqb_neq; lia).
    unfold slotsOf. generalize (ParallelFor.upto (pn c)) as l. induction l as [|i l IH].
    - cbn. destruct (_ =? _)%Z; reflexivity.
    - cbn [map]. unfold chunks in *. cbn [flat_map]. rewrite timesIn_app, IH.
      destruct (ParallelFor.sub _ _ _ _ i) as [x|]; cbn [ParallelFor.somes].
      + rewrite ParallelFor.times_cons. unfold timesIn. cbn [filter jf jb je].
        destruct (_ =? _)%Z; cbn [andb]; [|reflexivity]. destruct (_ && _); reflexivity.
      + reflexivity. }
  rewrite E. destruct (pf c =? f)%Z; cbn [andb]; auto.
  pose proof (ParallelFor.C12_every_index_exactly_once (pbeg c) (pfin c) (pn c) k B F ltac:(lia)) as C.
  unfold ParallelFor.parallelFor in C.
  replace (pfin c <=? pbeg c)%Z with false in C by (symmetry; apply Z.leb_gt; lia).
  rewrite u32_small in C by (unfold INT_MAX in *; lia).
  replace (pfin c - pbeg c <? 16)%Z with false in C by (symmetry; apply Z.ltb_ge; lia).
  apply C. cbn. lia.
Qed.

(** Whatever the schedule, after any history of parallel loops every iteration
    of every loop has been executed exactly once per call. *)
Theorem C13_every_iteration_once_under_every_schedule :
  forall s (calls : list pcall) f k,
  reachable 4 s -> cp s = CIdle -> past s = map slotsOf calls -> Forall okCall calls ->
  timesIn f k (map snd (log s)) =
  length (filter (fun c => (pf c =? f) && (pbeg c <=? k) && (k <? pfin c))%Z calls).
Proof.
  intros s calls f k R C P H.
  rewrite (timesIn_perm _ _ _ _ (C13_return_means_every_chunk_ran_exactly_once 4 s R C)), P.
  clear - H. induction H as [|c cs Hc Hcs IH]; cbn [map flat_map filter]; auto.
  rewrite timesIn_app, IH, timesIn_slots by auto. destruct (_ && _); cbn; auto.
Qed.

(** The hypotheses are met: two successive loops, on two and four workers. *)
Lemma run_calls : forall calls s, Forall okCall calls -> reachable 4 s -> cp s = CIdle ->
  exists s', reachable 4 s' /\ cp s' = CIdle /\ past s' = past s ++ map slotsOf calls.
Proof.
  induction calls as [|c cs IH]; intros s H R C.
  - exists s. rewrite app_nil_r. auto.
  - inversion H; subst. pose (s1 := mkS (ws s) (CAt 0) (slotsOf c) (past s) (log s)).
    assert (L : length (slotsOf c) <= 4).
    { unfold slotsOf, ParallelFor.upto. rewrite !map_length, seq_length.
      destruct H2 as (_ & _ & _ & T). lia. }
    assert (R1 : reachable 4 s1).
    { destruct R as (n & sp & p & He). exists n, sp, (S p). econstructor; eauto. now apply st_call. }
    destruct (C13_call_completes 4 s1 R1 I) as (n & s2 & He & C2 & P2).
    assert (R2 : reachable 4 s2).
    { destruct R1 as (n1 & sp1 & p1 & He1). do 3 eexists. eapply exec_trans; eauto. }
    destruct (IH s2 H3 R2 C2) as (s3 & R3 & C3 & P3).
    exists s3. rewrite P3, P2. cbn. rewrite <- app_assoc. auto.
Qed.

Example C13_example :
  let calls := [mkP 100 (-3) 98 4; mkP 200 0 64 2] in
  Forall okCall calls /\
  exists s, reachable 4 s /\ cp s = CIdle /\ past s = map slotsOf calls.
Proof.
  cbv zeta. assert (H : Forall okCall [mkP 100 (-3) 98 4; mkP 200 0 64 2]).
  { constructor; [|constructor; [|constructor]]; unfold okCall, INT_MIN, INT_MAX; cbn; lia. }
  split; auto. apply (run_calls _ init H); auto. exists 0, 0, 0. constructor.
Qed.
