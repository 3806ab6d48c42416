(** C42: RISC-V instruction selection for integers — statements.

    The machine: 64-bit registers; a value of type t sits sign-extended in its register ([wfst]).  A block is a list of
    instructions; [exec opq l s] runs it ([None]: undefined behaviour of the source, e.g. division by zero), where
    [opq] is an arbitrary meaning for everything that is not integer arithmetic.  [agree n s s']: same registers below
    n, same world, same branches taken. *)
From Coq Require Import ZArith List Bool Lia PeanoNat ZifyBool.
From Verif Require Import Word Rv64 CmpModel DivConst Isel IselSem IselStep IselPat IselLeg IselRun.
Import ListNotations.
Local Open Scope Z_scope.

(** a sequence of passes of the selector over one block (CodeGen/ISelInfo.cpp:37-187); every pass may use other
    answers for hasOneUse, isSafeToUse, other constants and another set of instructions to visit.  [clean]: no
    pattern met one of its defects *)
Inductive passes {W} (s0 : st W) : nat -> list inst -> nat -> list inst -> Prop :=
| passes_nil n L : passes s0 n L n L
| passes_cons one safe legal consts n L n1 L1 n2 L2 :
    isel one safe legal consts n L = Some (n1, L1) ->
    cleanRound one safe legal consts (rev L) n = true ->
    constsS n consts L -> constsD consts s0 ->
    passes s0 n1 L1 n2 L2 -> passes s0 n L n2 L2.

Lemma passes_ok {W} (opq : nat -> list Z -> W -> W * (reg -> Z)) s0 n L n' L' : passes s0 n L n' L' -> wfst s0 -> inv n L ->
  (n <= n')%nat /\ inv n' L' /\ forall s', runs opq L s0 s' -> exists s'', runs opq L' s0 s'' /\ agree n s' s''.
Proof.
  induction 1 as [n L|one safe legal consts n L n1 L1 n2 L2 Is Cl CS CD _ IH]; intros Ws I.
  - split; [lia|]. split; [exact I|]. intros s' Hr. exists s'. split; [exact Hr|]. apply agree_refl.
  - unfold isel in Is. assert (E : rev (rev L) ++ [] = L) by (rewrite rev_involutive; apply app_nil_r).
    destruct (round_ok opq one safe legal consts (rev L) n [] n1 L1 Is Cl) as (L1' & I1 & _ & R1); [rewrite E; exact I|rewrite E; exact CS|].
    rewrite E in R1. destruct (IH Ws I1) as (L2' & I2 & R2). split; [lia|]. split; [exact I2|]. intros s' Hr.
    destruct (R1 s0 s' Ws CD Hr) as (s1 & Hr1 & A1). destruct (R2 s1 Hr1) as (s2 & Hr2 & A2). exists s2. split; [exact Hr2|].
    eapply agree_trans; [exact A1|]. eapply (agree_mono opq); [exact L1'|exact A2].
Qed.

(** Whatever passes are made, as long as no pattern meets one of its defects, the selected block does what the generic
    block did: same values in the function's registers, same effects, same branches. *)
Theorem C42_selection_preserves_partial : forall W (opq : nat -> list Z -> W -> W * (reg -> Z)) s0 n L n' L' s',
  inv n L -> forallb generic L = true -> wfst s0 -> passes s0 n L n' L' ->
  exec opq L s0 = Some s' -> exists s'', exec opq L' s0 = Some s'' /\ agree n s' s''.
Proof.
  intros W opq s0 n L n' L' s' I G Ws Ps E. destruct (passes_ok opq s0 n L n' L' Ps Ws I) as (_ & _ & R1).
  destruct (R1 s') as (s'' & Hr & A). { apply generic_runs; auto. apply I. }
  exists s''. split; [apply runs_exec, Hr|exact A].
Qed.
(** ... every register still holds a sign-extended value of its type, and every target instruction can be encoded. *)
Theorem C42_selected_code_valid_partial : forall W (opq : nat -> list Z -> W -> W * (reg -> Z)) (s0 : st W) n L n' L',
  inv n L -> forallb generic L = true -> wfst s0 -> passes s0 n L n' L' ->
  Forall (fun i => encodable i = true) L' /\
  (forall s', exec opq L s0 = Some s' -> exists s'', exec opq L' s0 = Some s'' /\ wfst s'').
Proof.
  intros W opq s0 n L n' L' I G Ws Ps. destruct (passes_ok opq s0 n L n' L' Ps Ws I) as (_ & (_ & O & _) & R1). split.
  - eapply Forall_impl; [|exact O]. intros i (_ & E & _). exact E.
  - intros s' E. destruct (R1 s') as (s'' & Hr & A). { apply generic_runs; auto. apply I. }
    exists s''. split; [apply runs_exec, Hr|eapply runs_wf; eauto].
Qed.
(** The legalization step alone has no defect: replacing any instruction of a block by its legalized form preserves
    the block. *)
Theorem C42_legalize_preserves : forall W (opq : nat -> list Z -> W -> W * (reg -> Z)) one safe consts n pr i post n1 l1 i1 s0 s',
  inv n (pr ++ i :: post) -> forallb generic (pr ++ i :: post) = true -> wfst s0 ->
  constsS n consts (pr ++ i :: post) -> constsD consts s0 ->
  legalize (Ctx (lookup consts pr) one safe) n i = Some (n1, l1, i1) ->
  exec opq (pr ++ i :: post) s0 = Some s' ->
  exists s'', exec opq (pr ++ (l1 ++ [i1]) ++ post) s0 = Some s'' /\ agree n s' s''.
Proof.
  intros W opq one safe consts n pr i post n1 l1 i1 s0 s' I G Ws CS CD L E.
  destruct (legalize_fine opq _ n i n1 l1 i1 L) as [F _].
  destruct (replace_ok opq one safe (fun _ => true) consts n pr i post n1 (l1 ++ [i1]) I CS F) as (_ & _ & _ & R1).
  destruct (R1 s0 s' Ws CD) as (s'' & Hr & A). { apply generic_runs; auto. apply I. }
  exists s''. split; [apply runs_exec, Hr|exact A].
Qed.

(* ------------------------------------------------------------------ *)
(** * Examples *)
Definition r32 k := Rg k I32. Definition r64 k := Rg k I64. Definition rb k := Rg k B1.
Definition o32 k := OR (r32 k). Definition o64 k := OR (r64 k). Definition ob k := OR (rb k).
Definition noW : nat -> list Z -> unit -> unit * (reg -> Z) := fun _ _ w => (w, fun _ => 0).
Definition yes1 : reg -> bool := fun _ => true.
Definition yes2 : opnd -> reg -> bool := fun _ _ => true.
Definition noC : reg -> option inst := fun _ => None.
(** the first phase visits the generic instructions other than copies; the last one visits everything *)
Definition phase1 (i : inst) : bool := match i with Un GCopy _ _ => true | _ => negb (generic i) end.
Definition phase2 (i : inst) : bool := false.
(** registers 1 and 2 hold x and y *)
Definition s12 (x y : Z) : st unit := St (fun r => if Nat.eqb (rid r) 1 then canon (rty r) x else if Nat.eqb (rid r) 2 then canon (rty r) y else 0) tt [].
Lemma s12_wf x y : wfst (s12 x y).
Proof. intros r. cbn [s12 R]. destruct (Nat.eqb (rid r) 1); [apply holds_canon|]. destruct (Nat.eqb (rid r) 2); [apply holds_canon|apply holds_0]. Qed.
(** a decision procedure for [inv], for the examples *)
Definition immOkb (o : opnd) : bool := match o with OI z t => inRb t z | OR _ => true end.
Definition immBb (o : opnd) : bool := match o with OI z _ => (-9223372036854775808 <=? z) && (z <? 9223372036854775808) | OR _ => true end.
Definition okOpb (t : ty) (o : opnd) : bool := (bits (oty o) <=? bits t) && immOkb o.
Definition wideb (t : ty) : bool := match t with I32 | I64 => true | _ => false end.
Definition wideIb (o : opnd) : bool := match o with OI _ t => wideb t | OR _ => true end.
Definition wtb (i : inst) : bool :=
  match i with
  | Bin o d a b => okOpb (rty d) a && okOpb (rty d) b && (isLogic o || (wideb (rty d) && wideIb a && wideIb b))
  | Un o d a =>
    immOkb a && match o with
               | GNeg | GAbs => (bits (oty a) <=? bits (rty d)) && wideb (rty d) && wideIb a
               | GZExt => bits (oty a) <? bits (rty d)
               | GSExt => (bits (oty a) <=? bits (rty d)) && negb (isB1 (oty a))
               | GTrunc => true
               | GCopy => bits (oty a) <=? bits (rty d)
               end
  | Cmp c d a b =>
    immBb a && immBb b &&
    match c with
    | Ieq | Ine => (isZero b && isR a) || ((bits (oty a) =? bits (oty b)) && immOkb a && immOkb b)
    | Iule | Iuge => (isR a && isR b) || ((bits (oty a) =? bits (oty b)) && immOkb a && immOkb b)
    | _ => true
    end
  | LdI d z => inRb (rty d) z
  | Sel d c a b => immOkb c && okOpb (rty d) a && okOpb (rty d) b
  | Brn c _ => immOkb c
  | SelG _ d a b _ _ | SelA _ _ d a b _ _ => immOkb a && immOkb b
  | RR SUBW d _ _ => wideb (rty d)
  | RI SRAIW _ a _ => bits (oty a) <=? 32
  | _ => true
  end.
Definition memb (r : reg) (l : list reg) : bool := existsb (reg_eqb r) l.
Fixpoint ssab (l : list inst) : bool :=
  match l with
  | [] => true
  | i :: q => forallb (fun r => negb (memb r (uses i))) (defs i) &&
              forallb (fun r => forallb (fun j => negb (memb r (defs j))) q) (regsOf i) && ssab q
  end.
Definition invb (n : nat) (L : list inst) : bool :=
  Nat.ltb 0 n && forallb (fun i => wtb i && encodable i && forallb (fun r => negb (Nat.eqb (rid r) 0)) (defs i)) L &&
  forallb (fun i => forallb (fun r => Nat.ltb (rid r) n) (regsOf i)) L && ssab L.
Lemma inRb_ok t z : inRb t z = true -> inR t z.
Proof. destruct t; cbn [inRb inR]; intros H; lia. Qed.
Lemma immOkb_ok o : immOkb o = true -> immOk o.
Proof. destruct o; cbn; [auto|apply inRb_ok]. Qed.
Lemma immBb_ok o : immBb o = true -> immB o.
Proof. destruct o; cbn; [auto|]. unfold B64. lia. Qed.
Lemma okOpb_ok t o : okOpb t o = true -> okOp t o.
Proof. intros H. apply andb_prop in H as [A B]. split; [lia|apply immOkb_ok, B]. Qed.
Lemma wideb_ok t : wideb t = true -> wide t.
Proof. unfold wide. destruct t; try discriminate; auto. Qed.
Lemma wideIb_ok o : wideIb o = true -> wideI o.
Proof. destruct o; cbn; [auto|apply wideb_ok]. Qed.
Lemma bits_inj a b : bits a = bits b -> a = b.
Proof. destruct a, b; cbn; intros H; try reflexivity; discriminate. Qed.
Local Opaque okOpb immBb immOkb wideb wideIb inRb.
Lemma wtb_ok i : wtb i = true -> wt i.
Proof.
  destruct i; cbn [wtb wt]; intros H; auto; repeat (apply andb_prop in H as [H ?]).
  - split; [apply okOpb_ok; assumption|]. split; [apply okOpb_ok; assumption|].
    match goal with H : _ || _ = true |- _ => apply orb_prop in H as [H | H]; [auto|] end. right.
    repeat match goal with H : _ && _ = true |- _ => apply andb_prop in H as [H ?] end.
    split; [apply wideb_ok; assumption|]. split; apply wideIb_ok; assumption.
  - split; [apply immOkb_ok; assumption|]. destruct o; try exact I; try lia.
    + repeat match goal with H : _ && _ = true |- _ => apply andb_prop in H as [H ?] end. split; [lia|]. split; [apply wideb_ok; assumption|apply wideIb_ok; assumption].
    + repeat match goal with H : _ && _ = true |- _ => apply andb_prop in H as [H ?] end. split; [lia|]. split; [apply wideb_ok; assumption|apply wideIb_ok; assumption].
    + apply andb_prop in H0 as [A B]. split; [lia|]. intros Q. rewrite Q in B. discriminate.
  - split; [apply immBb_ok; assumption|]. split; [apply immBb_ok; assumption|].
    destruct c; try exact I; (apply orb_prop in H0 as [H0 | H0];
      [left; apply andb_prop in H0; exact H0|right; apply andb_prop in H0 as [H0 ?]; apply andb_prop in H0 as [H0 ?]; split; [apply bits_inj; lia|split; apply immOkb_ok; assumption]]).
  - apply inRb_ok, H.
  - split; [apply immOkb_ok; assumption|]. split; apply okOpb_ok; assumption.
  - apply immOkb_ok, H.
  - destruct o; auto. apply wideb_ok, H.
  - destruct o; auto. lia.
  - split; apply immOkb_ok; assumption.
  - split; apply immOkb_ok; assumption.
Qed.
Local Transparent okOpb immBb immOkb wideb wideIb inRb.
Lemma memb_ok r l : memb r l = false -> ~ In r l.
Proof. intros H Hr. assert (memb r l = true); [|congruence]. apply existsb_exists. exists r. split; [exact Hr|apply reg_eqb_refl]. Qed.
Lemma ssab_ok l : ssab l = true -> ssaB l.
Proof.
  induction l as [|i l IH]; cbn [ssab ssaB]; [auto|]. intros H. apply andb_prop in H as [H H3]. apply andb_prop in H as [H1 H2].
  rewrite forallb_forall in H1, H2. split; [|split; [|auto]].
  - intros r Hr. apply memb_ok. specialize (H1 r Hr). destruct (memb _ _); [discriminate|reflexivity].
  - intros r Hr j Hj. specialize (H2 r Hr). rewrite forallb_forall in H2. specialize (H2 j Hj). apply memb_ok. destruct (memb _ _); [discriminate|reflexivity].
Qed.
Lemma invb_ok n L : invb n L = true -> inv n L.
Proof.
  unfold invb. intros H. apply andb_prop in H as [H H4]. apply andb_prop in H as [H H3]. apply andb_prop in H as [H1 H2].
  rewrite forallb_forall in H2, H3. apply Nat.ltb_lt in H1. split; [exact H1|]. split; [|split; [|apply ssab_ok, H4]].
  - apply Forall_forall. intros i Hi. specialize (H2 i Hi). apply andb_prop in H2 as [H2 Hd]. apply andb_prop in H2 as [Ht He].
    split; [apply wtb_ok, Ht|]. split; [exact He|]. rewrite forallb_forall in Hd. intros r Hr. specialize (Hd r Hr). destruct (Nat.eqb_spec (rid r) 0); [discriminate|assumption].
  - apply Forall_forall. intros i Hi r Hr. specialize (H3 i Hi). rewrite forallb_forall in H3. apply Nat.ltb_lt, (H3 r Hr).
Qed.
(** r3 := r1 + 5000 ; r4 := (r3 <= 100) ; r5 := r4 ? r1 : r2 ; r6 := !(r1 == r2) ; branch on r6 *)
Definition exBlk : list inst :=
  [Bin GAdd (r32 3) (o32 1) (OI 5000 I32); Cmp Isle (rb 4) (o32 3) (OI 100 I32); Sel (r32 5) (ob 4) (o32 1) (o32 2);
   Cmp Ieq (rb 6) (o32 1) (o32 2); Bin GXor (rb 7) (ob 6) (OI 1 B1); Brn (ob 7) 9%nat].
Example exBlk_inv : inv 20 exBlk.
Proof. apply invb_ok. vm_compute. reflexivity. Qed.
Definition round1 (L : list inst) : option (nat * list inst) := isel yes1 yes2 phase1 noC 20 L.
Definition round2 (L : list inst) : option (nat * list inst) :=
  match round1 L with Some (n, l) => isel yes1 yes2 phase2 noC n l | None => None end.
Definition codeOf (r : option (nat * list inst)) : list inst := match r with Some (_, l) => l | None => [] end.
Lemma noC_ok n L : constsS n noC L /\ forall s : st unit, constsD noC s.
Proof. split; [intros r e H; discriminate|intros s r e H; discriminate]. Qed.
(** the hypotheses of the first two theorems are met: two passes over the example block *)
Example exBlk_passes x y : exists n' L', round2 exBlk = Some (n', L') /\ length L' = 9%nat /\ forallb generic exBlk = true /\ passes (s12 x y) 20 exBlk n' L'.
Proof.
  eexists _, _. split; [vm_compute; reflexivity|]. split; [reflexivity|]. split; [reflexivity|].
  destruct (noC_ok 20 exBlk) as [A B].
  eapply (passes_cons _ yes1 yes2 phase1 noC); [vm_compute; reflexivity|vm_compute; reflexivity|exact A|apply B|].
  eapply (passes_cons _ yes1 yes2 phase2 noC); [vm_compute; reflexivity|vm_compute; reflexivity|apply noC_ok|apply B|]. apply passes_nil.
Qed.

(* ------------------------------------------------------------------ *)
(** * The defects are real: well-formed generic blocks that selection changes *)
Definition miscompiled (L L' : list inst) (s0 : st unit) : Prop :=
  inv 20 L /\ forallb generic L = true /\ wfst s0 /\
  exists s' s'', exec noW L s0 = Some s' /\ exec noW L' s0 = Some s'' /\ ~ agree 20 s' s''.
Definition differs (L L' : list inst) (s0 : st unit) (r : reg) : bool :=
  match exec noW L s0, exec noW L' s0 with
  | Some a, Some b => negb (if list_eq_dec Nat.eq_dec (Tk a) (Tk b) then true else false) || (Nat.ltb (rid r) 20 && negb (R a r =? R b r))
  | _, _ => false
  end.
Lemma differs_ok L L' s0 r : differs L L' s0 r = true -> exists s' s'', exec noW L s0 = Some s' /\ exec noW L' s0 = Some s'' /\ ~ agree 20 s' s''.
Proof.
  unfold differs. destruct (exec noW L s0) as [a|]; [|discriminate]. destruct (exec noW L' s0) as [b|]; [|discriminate]. intros H.
  exists a, b. split; [reflexivity|]. split; [reflexivity|]. intros (A & _ & T). destruct (list_eq_dec Nat.eq_dec (Tk a) (Tk b)); [|contradiction].
  cbn [negb orb] in H. apply andb_prop in H as [H1 H2]. apply Nat.ltb_lt in H1. rewrite (A r H1), Z.eqb_refl in H2. discriminate.
Qed.
Ltac bad := split; [apply invb_ok; vm_compute; reflexivity|split; [reflexivity|split; [apply s12_wf|]]]; apply differs_ok with (r := r32 5); vm_compute; reflexivity.
(** 32-bit [(x << 1) + y] becomes SH1ADD, which does not wrap at 32 bits: r3 := r1 << 1; r4 := r3 + r2; branch if r4 < 0 *)
Definition badShAdd : list inst :=
  [Bin GShl (r32 3) (o32 1) (OI 1 I32); Bin GAdd (r32 4) (o32 3) (o32 2); Cmp Islt (rb 5) (o32 4) (OI 0 I32); Brn (ob 5) 7%nat].
Theorem C42_shadd_refuted : exists x y, miscompiled badShAdd (codeOf (round1 badShAdd)) (s12 x y).
Proof. exists 1073741824, 0. bad. Qed.
(** Bool [!(x ^ y)] becomes XNOR, whose result is not 0 or 1: the branch is taken when it should not be *)
Definition badXnor : list inst := [Bin GXor (rb 3) (ob 1) (ob 2); Bin GXor (rb 4) (ob 3) (OI 1 B1); Brn (ob 4) 7%nat].
Theorem C42_xnor_refuted : exists x y, miscompiled badXnor (codeOf (round1 badXnor)) (s12 x y).
Proof. exists 1, 0. bad. Qed.
(** 64-bit [x & (y ^ 0xffffffff)] becomes ANDN, which complements all 64 bits *)
Definition badAndn : list inst := [Bin GXor (r64 3) (o64 2) (OI 4294967295 I64); Bin GAnd (r64 4) (o64 1) (o64 3); Brn (o64 4) 7%nat].
Theorem C42_andn_refuted : exists x y, miscompiled badAndn (codeOf (round1 badAndn)) (s12 x y).
Proof. exists 1099511627776, 0. bad. Qed.
(** 64-bit [x > 0xffffffff] becomes [x >= 0] *)
Definition badBranch : list inst := [Cmp Isgt (rb 3) (o64 1) (OI 4294967295 I64); Brn (ob 3) 7%nat].
Theorem C42_branch_constant_refuted : exists x y, miscompiled badBranch (codeOf (round1 badBranch)) (s12 x y).
Proof. exists 5, 0. bad. Qed.
(** [(x ^ 1) != 0 ? y : 0] becomes [x != 0 ? 0 : y] although x is an arbitrary integer *)
Definition badInv : list inst := [Bin GXor (r32 3) (o32 1) (OI 1 I32); Cmp Ine (rb 4) (o32 3) (OI 0 I32); Sel (r32 5) (ob 4) (o32 2) (OI 0 I32)].
Theorem C42_inverted_select_refuted : exists x y, miscompiled badInv (codeOf (round2 badInv)) (s12 x y).
Proof. exists 4, 9. bad. Qed.
