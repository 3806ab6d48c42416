(** C42: a whole pass over a block, and repeated passes. *)
From Coq Require Import ZArith List Bool Lia PeanoNat ZifyBool.
From Verif Require Import Word Rv64 CmpModel DivConst Isel IselSem IselStep IselPat IselLeg.
Import ListNotations.
Local Open Scope Z_scope.

(** no defect is met during the pass (same recursion as iselRound) *)
Fixpoint cleanRound (one : reg -> bool) (safe : opnd -> reg -> bool) (legal : inst -> bool) (consts : reg -> option inst)
    (rpre : list inst) (n : nat) : bool :=
  match rpre with
  | [] => true
  | i :: rpre' =>
    if legal i then cleanRound one safe legal consts rpre' n
    else let C := Ctx (lookup consts (rev rpre')) one safe in
         negb (defectAt C n i) &&
         match matchAndSelect C n i with Some (n', _) => cleanRound one safe legal consts rpre' n' | None => true end
  end.
(** the block: instructions well typed and encodable, register numbers below n, one definition per register and none
    before a use *)
Definition inv (n : nat) (L : list inst) : Prop := (0 < n)%nat /\ Forall ok1 L /\ Forall (below n) L /\ ssaB L.
(** the constants the function keeps in registers of other blocks *)
Definition constsS (n : nat) (consts : reg -> option inst) (L : list inst) : Prop :=
  forall r e, consts r = Some e -> dstOf e = Some r /\ uses e = [] /\ ok1 e /\ (rid r < n)%nat /\ forall j, In j L -> ~ In r (defs j).

Section Run.
Context {W : Type}.
Variable opq : nat -> list Z -> W -> W * (reg -> Z).
Notation st := (st W).
Notation exec1 := (exec1 opq).
Notation runs := (runs opq).
Definition constsD (consts : reg -> option inst) (s : st) : Prop := forall r e, consts r = Some e -> val s e = Some (R s r).

Lemma lookup_inv consts pre r e : lookup consts pre r = Some e -> (In e pre /\ In r (defs e)) \/ (consts r = Some e /\ forall j, In j pre -> ~ In r (defs j)).
Proof.
  clear opq. unfold lookup. destruct (find _ pre) as [i|] eqn:F.
  - intros H. injection H as ->. apply find_some in F as [Hi He]. left. split; [exact Hi|].
    apply existsb_exists in He as (q & Hq & E). apply reg_eqb_eq in E as ->. exact Hq.
  - intros H. right. split; [exact H|]. intros j Hj Hr. eapply find_none in F; [|exact Hj]. 
    assert (existsb (reg_eqb r) (defs j) = true); [|congruence]. apply existsb_exists. exists r. split; [exact Hr|apply reg_eqb_refl].
Qed.
Lemma exec1_other i s s' r : exec1 i s = Some s' -> ~ In r (defs i) -> R s' r = R s r.
Proof.
  intros E N. destruct (dstOf i) as [d|] eqn:D.
  - rewrite (exec1_val opq i d) in E by exact D. destruct (val s i); [|discriminate]. injection E as <-. apply set_other. intros ->.
    apply N. rewrite (defs_dst _ _ D). left. reflexivity.
  - destruct i; try discriminate D; cbn [Isel.exec1] in E.
    + injection E as <-. unfold take. destruct (negb _); reflexivity.
    + injection E as <-. unfold take. destruct (cmpV _ _ _); reflexivity.
    + destruct (opq k (map (rd s) us) (Wd s)) as [w f]. injection E as <-. cbn [sets R]. destruct (existsb (reg_eqb r) ds) eqn:X; [|reflexivity].
      apply existsb_exists in X as (q & Hq & Eq). apply reg_eqb_eq in Eq as ->. contradiction.
Qed.
Lemma runs_other l s s' r : runs l s s' -> (forall j, In j l -> ~ In r (defs j)) -> R s' r = R s r.
Proof.
  revert s. induction l as [|i l IH]; cbn [IselStep.runs]; intros s H N; [subst; reflexivity|]. destruct H as (s1 & E & _ & H).
  rewrite (IH s1 H) by (intros j Hj; apply N; right; exact Hj). eapply exec1_other; [exact E|]. apply N. left. reflexivity.
Qed.
(** after running a block, every single-result instruction of it describes its register *)
Lemma runs_val l s s' e d : ssaB l -> runs l s s' -> In e l -> dstOf e = Some d -> val s' e = Some (R s' d).
Proof.
  revert s. induction l as [|i l IH]; cbn [IselStep.runs ssaB]; intros s S H Hi D; [contradiction|]. destruct H as (s1 & E & _ & H). destruct S as (S1 & S2 & S3).
  destruct Hi as [-> | Hi]; [|eauto].
  rewrite (exec1_val opq e d) in E by exact D. destruct (val s e) as [v|] eqn:V; [|discriminate]. injection E as <-.
  assert (Hd : In d (defs e)) by (rewrite (defs_dst _ _ D); left; reflexivity).
  rewrite (runs_other l _ _ d H) by (intros j Hj; apply S2; [apply in_regs_def, Hd|exact Hj]). rewrite set_same, <- V.
  apply val_same. intros r Hr. rewrite (runs_other l _ _ r H) by (intros j Hj; apply S2; [apply in_regs_use, Hr|exact Hj]).
  apply set_other. intros ->. apply (S1 d Hd Hr).
Qed.

Section Round.
Variables (one : reg -> bool) (safe : opnd -> reg -> bool) (legal : inst -> bool) (consts : reg -> option inst).
(** one replacement inside a block *)
Lemma replace_ok n pr i post n' l : inv n (pr ++ i :: post) -> constsS n consts (pr ++ i :: post) ->
  fineP opq n (Ctx (lookup consts pr) one safe) i n' l ->
  (n <= n')%nat /\ inv n' (pr ++ l ++ post) /\ constsS n' consts (pr ++ l ++ post) /\
  forall s0 s', wfst s0 -> constsD consts s0 -> runs (pr ++ i :: post) s0 s' -> exists s'', runs (pr ++ l ++ post) s0 s'' /\ agree n s' s''.
Proof.
  intros (Hn & HO & HB & HS) HC F. set (C := Ctx (lookup consts pr) one safe) in *.
  apply Forall_app in HO as [Op Oi]. inversion Oi as [|? ? Oi' Oq]; subst. apply Forall_app in HB as [Bp Bi]. inversion Bi as [|? ? Bi' Bq]; subst.
  apply ssaB_app in HS as (Sp & (Si1 & Si2 & Sq) & X).
  rewrite Forall_forall in Op, Bp.
  assert (Ii : In i (pr ++ i :: post)) by (apply in_or_app; right; left; reflexivity).
  assert (CS : ctxS n C).
  { intros r e Lr. cbn [lk C] in Lr. destruct (lookup_inv _ _ _ _ Lr) as [[He Hr] | [Cr _]].
    - split; [apply (Op e He), Hr|]. split; [exact Hr|]. split; [apply Op, He|apply Bp, He].
    - destruct (HC r e Cr) as (D & U & O & L & N). pose proof (defs_dst _ _ D) as De. assert (Hr : In r (defs e)) by (rewrite De; left; reflexivity).
      split; [apply O, Hr|]. split; [exact Hr|]. split; [exact O|]. intros q Hq. unfold regsOf in Hq. rewrite U, De in Hq. destruct Hq as [<- | []]. exact L. }
  assert (LU : forall d, In d (defs i) -> ~ lkUse C d).
  { intros d Hd (q & e & Lq & Hu). cbn [lk C] in Lq. destruct (lookup_inv _ _ _ _ Lq) as [[He Hr] | [Cr _]].
    - apply (X e i d He (or_introl eq_refl)); [apply in_regs_use, Hu|exact Hd].
    - destruct (HC q e Cr) as (_ & U & _). rewrite U in Hu. contradiction. }
  assert (P : IselStep.pre n C i).
  { split; [exact CS|]. split; [exact Oi'|]. split; [exact Bi'|]. split; [|exact Hn]. intros d Hd. split; [apply Si1, Hd|]. split; [apply LU, Hd|].
    destruct (lk C d) as [e|] eqn:Ld; [|reflexivity]. exfalso. cbn [lk C] in Ld. destruct (lookup_inv _ _ _ _ Ld) as [[He Hr] | [Cr _]].
    - apply (X e i d He (or_introl eq_refl)); [apply in_regs_def, Hr|exact Hd].
    - destruct (HC d e Cr) as (_ & _ & _ & _ & N). apply (N i Ii), Hd. }
  specialize (F P). destruct F as [Fle Fok Fbl Fdf Fus Fss _ Frun].
  split; [exact Fle|]. split; [|split].
  - split; [lia|]. split; [apply Forall_app; split; [apply Forall_forall, Op|apply Forall_app; auto]|].
    split. { apply Forall_app; split; [apply Forall_forall; intros j Hj; eapply below_mono; [exact Fle|]; apply Bp, Hj|]. apply Forall_app. split; [exact Fbl|]. eapply Forall_impl; [|exact Bq]. intros j. apply below_mono, Fle. }
    rewrite Forall_forall in Bq, Oq.
    apply ssaB_app. split; [exact Sp|]. split.
    + apply ssaB_app. split; [exact Fss|]. split; [exact Sq|]. intros a b r Ha Hb Hr Hd.
      assert (Rb : (rid r < n)%nat) by (apply (Bq b Hb), in_regs_def, Hd).
      apply in_app_or in Hr as [Hr | Hr].
      * destruct (Fus a r Ha Hr) as [Z | [Z | [Z | Z]]].
        -- apply (Oq b Hb) in Z; [exact Z|exact Hd].
        -- lia.
        -- apply (Si2 r (in_regs_use _ _ Z) b Hb Hd).
        -- destruct Z as (q & e & Lq & Hu). cbn [lk C] in Lq. destruct (lookup_inv _ _ _ _ Lq) as [[He Hq] | [Cr _]].
           ++ apply (X e b r He (or_intror Hb)); [apply in_regs_use, Hu|exact Hd].
           ++ destruct (HC q e Cr) as (_ & U & _). rewrite U in Hu. contradiction.
      * destruct (Fdf a r Ha Hr) as [Z | Z]; [|lia]. apply (Si2 r (in_regs_def _ _ Z) b Hb Hd).
    + intros a b r Ha Hb Hr Hd. assert (Rb : (rid r < n)%nat) by (apply (Bp a Ha), Hr). apply in_app_or in Hb as [Hb | Hb].
      * destruct (Fdf b r Hb Hd) as [Z | Z]; [|lia]. apply (X a i r Ha (or_introl eq_refl) Hr Z).
      * apply (X a b r Ha (or_intror Hb) Hr Hd).
  - intros r e Cr. destruct (HC r e Cr) as (D & U & O & L & N). split; [exact D|]. split; [exact U|]. split; [exact O|]. split; [lia|].
    intros j Hj Hd. apply in_app_or in Hj as [Hj | Hj]; [|apply in_app_or in Hj as [Hj | Hj]].
    + apply (N j); [apply in_or_app; auto|exact Hd].
    + destruct (Fdf j r Hj Hd) as [Z | Z]; [apply (N i Ii Z)|lia].
    + apply (N j); [apply in_or_app; right; right; exact Hj|exact Hd].
  - intros s0 s' Ws HD H. apply runs_app in H as (s1 & H1 & H2). cbn [IselStep.runs] in H2. destruct H2 as (s2 & E & W2 & H3).
    pose proof (runs_wf opq _ _ _ Ws H1) as W1.
    assert (CD : ctxD C s1).
    { intros r e d Lr De. cbn [lk C] in Lr. destruct (lookup_inv _ _ _ _ Lr) as [[He Hr] | [Cr N]].
      - rewrite (defs_dst _ _ De) in Hr. destruct Hr as [<- | []]. exact (runs_val pr s0 s1 e d Sp H1 He De).
      - rewrite (runs_other pr s0 s1 r H1 N), <- (HD r e Cr). apply val_same. destruct (HC r e Cr) as (_ & U & _). rewrite U. intros q []. }
    destruct (Frun s1 s2 W1 CD E W2) as (t2 & R2 & A2).
    destruct (runs_agree opq n post s2 t2 s' Bq A2 (runs_wf opq _ _ _ W1 R2) H3) as (t' & R3 & A3).
    exists t'. split; [|exact A3]. apply runs_app. exists s1. split; [exact H1|]. apply runs_app. exists t2. auto.
Qed.
Lemma round_ok rpre : forall n post n' out, iselRound one safe legal consts rpre n post = Some (n', out) ->
  cleanRound one safe legal consts rpre n = true -> inv n (rev rpre ++ post) -> constsS n consts (rev rpre ++ post) ->
  (n <= n')%nat /\ inv n' out /\ constsS n' consts out /\
  forall s0 s', wfst s0 -> constsD consts s0 -> runs (rev rpre ++ post) s0 s' -> exists s'', runs out s0 s'' /\ agree n s' s''.
Proof.
  induction rpre as [|i rpre IH]; intros n post n' out H Cl Hi HC; cbn [iselRound cleanRound] in H, Cl.
  - injection H as <- <-. cbn [rev app] in *. split; [lia|]. split; [exact Hi|]. split; [exact HC|]. intros s0 s' _ _ Hr. exists s'. split; [exact Hr|]. apply agree_refl.
  - cbn [rev] in Hi, HC |- *. rewrite <- app_assoc in Hi, HC. cbn [app] in Hi, HC.
    destruct (legal i).
    + destruct (IH n (i :: post) n' out H Cl Hi HC) as (A & B & D & F). split; [exact A|]. split; [exact B|]. split; [exact D|]. rewrite <- app_assoc. exact F.
    + destruct (matchAndSelect _ n i) as [[n1 l]|] eqn:M; [|discriminate]. apply andb_prop in Cl as [Cd Cl].
      apply negb_true_iff in Cd. pose proof (matchAndSelect_fine opq _ n i n1 l M Cd) as F.
      destruct (replace_ok n (rev rpre) i post n1 l Hi HC F) as (L1 & I1 & C1 & R1).
      destruct (IH n1 (l ++ post) n' out H Cl I1 C1) as (L2 & I2 & C2 & R2).
      split; [lia|]. split; [exact I2|]. split; [exact C2|]. rewrite <- app_assoc. cbn [app]. intros s0 s' Ws HD Hr.
      destruct (R1 s0 s' Ws HD Hr) as (s1 & Hr1 & A1). destruct (R2 s0 s1 Ws HD Hr1) as (s2 & Hr2 & A2).
      exists s2. split; [exact Hr2|]. eapply agree_trans; [exact A1|]. eapply (agree_mono opq); [exact L1|exact A2].
Qed.
End Round.

(** generic code keeps every register in the range of its type *)
Definition generic (i : inst) : bool :=
  match i with Bin _ _ _ _ | Un _ _ _ | Cmp _ _ _ _ | LdI _ _ | Sel _ _ _ _ | Brn _ _ | Opq _ _ _ => true | _ => false end.
Lemma generic_wf i s s' : generic i = true -> wt i -> wfst s -> exec1 i s = Some s' -> wfst s'.
Proof.
  intros G T Ws E. destruct i; try discriminate G; cbn [Isel.exec1] in E.
  - destruct (gbinV _ _ _ _); [|discriminate]. injection E as <-. apply wf_set; [exact Ws|apply holds_canon].
  - injection E as <-. apply wf_set; [exact Ws|apply holds_canon].
  - injection E as <-. apply wf_set; [exact Ws|apply holds_b2z].
  - injection E as <-. apply wf_set; [exact Ws|]. exists z. auto.
  - injection E as <-. destruct T as (_ & Ta & Tb). apply wf_set; [exact Ws|]. destruct (_ =? 0); apply rd_holdsT; assumption.
  - injection E as <-. unfold take. destruct (negb _); exact Ws.
  - destruct (opq k (map (rd s) us) (Wd s)) as [w f]. injection E as <-. intros r. cbn [sets R]. destruct (existsb _ _); [apply holds_canon|apply Ws].
Qed.
Lemma generic_runs l : forall s s', forallb generic l = true -> Forall ok1 l -> wfst s -> exec opq l s = Some s' -> runs l s s'.
Proof.
  induction l as [|i l IH]; intros s s' G O Ws E; cbn [exec IselStep.runs forallb] in *; [congruence|]. apply andb_prop in G as [G1 G2]. inversion O as [|? ? O1 O2]; subst.
  destruct (exec1 i s) as [s1|] eqn:E1; [|discriminate]. assert (W1 : wfst s1) by (eapply generic_wf; eauto; apply O1). exists s1. auto.
Qed.
End Run.
