(** C42: what it means for one instruction to be replaced by a list of instructions, and how replacements compose. *)
From Coq Require Import ZArith List Bool Lia PeanoNat ZifyBool.
From Verif Require Import Word Rv64 CmpModel DivConst Isel IselSem.
Import ListNotations.
Local Open Scope Z_scope.

(** ** static conditions *)
Definition immOk (o : opnd) : Prop := match o with OI z t => inR t z | OR _ => True end.
Definition immB (o : opnd) : Prop := match o with OI z _ => B64 z | OR _ => True end.
Definition okOp (t : ty) (o : opnd) : Prop := bits (oty o) <= bits t /\ immOk o.
Definition wide (t : ty) : Prop := t = I32 \/ t = I64.
(** constants of arithmetic instructions are Int32 or Int64 constants *)
Definition wideI (o : opnd) : Prop := match o with OI _ t => wide t | OR _ => True end.
Definition isLogic (o : gbin) : bool := match o with GAnd | GOr | GXor => true | _ => false end.
Definition wt (i : inst) : Prop :=
  match i with
  | Bin o d a b => okOp (rty d) a /\ okOp (rty d) b /\ (isLogic o = true \/ (wide (rty d) /\ wideI a /\ wideI b))
  | Un o d a =>
    immOk a /\ match o with
               | GNeg | GAbs => bits (oty a) <= bits (rty d) /\ wide (rty d) /\ wideI a
               | GZExt => bits (oty a) < bits (rty d)
               | GSExt => bits (oty a) <= bits (rty d) /\ oty a <> B1
               | GTrunc => True
               | GCopy => bits (oty a) <= bits (rty d)
               end
  | Cmp c d a b =>
    immB a /\ immB b /\
    match c with
    | Ieq | Ine => (isZero b = true /\ isR a = true) \/ (oty a = oty b /\ immOk a /\ immOk b)
    | Iule | Iuge => (isR a = true /\ isR b = true) \/ (oty a = oty b /\ immOk a /\ immOk b)
    | _ => True
    end
  | LdI d z => inR (rty d) z
  | Sel d c a b => immOk c /\ okOp (rty d) a /\ okOp (rty d) b
  | Brn c _ => immOk c
  | SelG _ d a b _ _ | SelA _ _ d a b _ _ => immOk a /\ immOk b
  | RR SUBW d _ _ => wide (rty d)
  | RI SRAIW _ a _ => bits (oty a) <= 32
  | _ => True
  end.
Definition regsOf (i : inst) : list reg := uses i ++ defs i.
Definition below (n : nat) (i : inst) : Prop := forall r, In r (regsOf i) -> (rid r < n)%nat.
Definition ok1 (i : inst) : Prop := wt i /\ encodable i = true /\ (forall r, In r (defs i) -> rid r <> 0%nat).
(** definitions come once, and nothing a previous instruction mentions is written again *)
Fixpoint ssaB (l : list inst) : Prop :=
  match l with
  | [] => True
  | i :: q => (forall r, In r (defs i) -> ~ In r (uses i)) /\
              (forall r, In r (regsOf i) -> forall j, In j q -> ~ In r (defs j)) /\ ssaB q
  end.

Lemma reg_eqb_eq a b : reg_eqb a b = true <-> a = b.
Proof.
  unfold reg_eqb. destruct a as [x t], b as [y u]. cbn. split.
  - intros H. apply andb_prop in H as [H1 H2]. apply Nat.eqb_eq in H1 as ->. destruct t, u; try discriminate; reflexivity.
  - intros H. injection H as -> ->. rewrite Nat.eqb_refl. destruct u; reflexivity.
Qed.
Lemma reg_eqb_refl a : reg_eqb a a = true.
Proof. apply reg_eqb_eq. reflexivity. Qed.
Lemma reg_eqb_neq a b : a <> b -> reg_eqb a b = false.
Proof. intros H. destruct (reg_eqb a b) eqn:E; [|reflexivity]. apply reg_eqb_eq in E. contradiction. Qed.
Lemma ssaB_app a b : ssaB (a ++ b) <-> ssaB a /\ ssaB b /\ (forall i j r, In i a -> In j b -> In r (regsOf i) -> ~ In r (defs j)).
Proof.
  induction a as [|x a IH]; cbn [app ssaB]; [firstorder|]. rewrite IH. split.
  - intros (H1 & H2 & H3 & H4 & H5). repeat split; auto.
    + intros r Hr j Hj. apply H2; [exact Hr|]. apply in_or_app. auto.
    + intros i j r [<- | Hi] Hj Hr; [|eauto]. apply H2; [exact Hr|]. apply in_or_app. auto.
  - intros ((H1 & H2 & H3) & H4 & H5). split; [exact H1|]. split; [|split; [exact H3|split; [exact H4|]]].
    + intros r Hr j Hj. apply in_app_or in Hj as [Hj | Hj]; [eauto|]. apply (H5 x); auto. left. reflexivity.
    + intros i j r Hi. apply H5. right. exact Hi.
Qed.
Lemma below_mono n m i : (n <= m)%nat -> below n i -> below m i.
Proof. intros L H r Hr. specialize (H r Hr). lia. Qed.
Lemma in_regs_use i r : In r (uses i) -> In r (regsOf i).
Proof. intros H. apply in_or_app. auto. Qed.
Lemma in_regs_def i r : In r (defs i) -> In r (regsOf i).
Proof. intros H. apply in_or_app. auto. Qed.

Section Step.
Context {W : Type}.
Variable opq : nat -> list Z -> W -> W * (reg -> Z).
Notation st := (st W).
Notation exec1 := (exec1 opq).
Notation exec := (exec opq).

(** every register holds a sign-extended value of its type *)
Definition holds (t : ty) (v : Z) : Prop := exists x, v = u64 x /\ inR t x.
Definition wfst (s : st) : Prop := forall r, holds (rty r) (R s r).
Fixpoint runs (l : list inst) (s s' : st) : Prop :=
  match l with [] => s' = s | i :: q => exists s1, exec1 i s = Some s1 /\ wfst s1 /\ runs q s1 s' end.
Definition agree (n : nat) (s s' : st) : Prop :=
  (forall r, (rid r < n)%nat -> R s r = R s' r) /\ Wd s = Wd s' /\ Tk s = Tk s'.

Lemma holds_0 t : holds t 0.
Proof. exists 0. split; [reflexivity|]. destruct t; cbn; lia. Qed.
Lemma holds_canon t v : holds t (canon t v).
Proof. exists (norm t v). split; [reflexivity|]. apply norm_range. Qed.
Lemma inR_le t u v : bits t <= bits u -> inR t v -> inR u v.
Proof. destruct t, u; cbn [bits inR]; intros; lia. Qed.
Lemma holds_le t u v : bits t <= bits u -> holds t v -> holds u v.
Proof. intros L (x & E & H). exists x. split; [exact E|]. eapply inR_le; eauto. Qed.
Lemma holds_s64 t v : holds t v -> v = u64 (s64 v) /\ inR t (s64 v).
Proof. intros (x & -> & H). rewrite s64_u64 by (eapply inR_64; eauto). auto. Qed.
Lemma holds_range t v : holds t v -> 0 <= v < 18446744073709551616.
Proof. intros (x & -> & _). apply u64_range. Qed.
Lemma rd_holds s o : wfst s -> immOk o -> holds (oty o) (rd s o).
Proof.
  intros H I. destruct o as [r|z t]; cbn [rd oty].
  - destruct (Nat.eqb (rid r) 0); [apply holds_0|apply H].
  - exists z. auto.
Qed.
Lemma rd_holdsT s t o : wfst s -> okOp t o -> holds t (rd s o).
Proof. intros H [L I]. eapply holds_le; [exact L|]. apply rd_holds; assumption. Qed.
Lemma rd_B s o : wfst s -> immB o -> holds I64 (rd s o).
Proof.
  intros H I. destruct o as [r|z t]; cbn [rd oty].
  - destruct (Nat.eqb (rid r) 0); [apply holds_0|]. eapply holds_le; [|apply H]. destruct (rty r); cbn; lia.
  - exists z. split; [reflexivity|]. unfold immB, B64 in I. cbn [inR bits]. lia.
Qed.
Lemma wf_set (s : st) d v : wfst s -> holds (rty d) v -> wfst (set s d v).
Proof.
  intros H V r. unfold set. cbn [R]. destruct (reg_eqb r d) eqn:E; [|apply H]. apply reg_eqb_eq in E as ->. exact V.
Qed.
Lemma wf_get (s : st) d v : wfst (set s d v) -> holds (rty d) v.
Proof. intros H. specialize (H d). unfold set in H. cbn [R] in H. rewrite reg_eqb_refl in H. exact H. Qed.
Lemma set_same (s : st) d v : R (set s d v) d = v.
Proof. unfold set. cbn [R]. rewrite reg_eqb_refl. reflexivity. Qed.
Lemma set_other (s : st) d v r : r <> d -> R (set s d v) r = R s r.
Proof. intros H. unfold set. cbn [R]. rewrite reg_eqb_neq by exact H. reflexivity. Qed.
Lemma rd_set_other (s : st) d v o : (forall r, In r (oreg o) -> r <> d) -> rd (set s d v) o = rd s o.
Proof.
  intros H. destruct o as [r|z t]; cbn [rd]; [|reflexivity]. destruct (Nat.eqb (rid r) 0); [reflexivity|].
  apply set_other, H. left. reflexivity.
Qed.

(** the value a single-result instruction computes *)
Definition val (s : st) (i : inst) : option Z :=
  match i with
  | Bin o d a b => option_map (canon (rty d)) (gbinV o (rty d) (s64 (rd s a)) (s64 (rd s b)))
  | Un o d a => Some (canon (rty d) (gunV o (oty a) (s64 (rd s a))))
  | Cmp c d a b => Some (b2z (cmpV c (rd s a) (rd s b)))
  | LdI d z => Some (u64 z)
  | Sel d c a b => Some (if s64 (rd s c) =? 0 then rd s b else rd s a)
  | RR o d a b => Some (evRR o (rd s a) (rd s b))
  | RI o d a z => Some (evRI o (rd s a) z)
  | R1 o d a => Some (evR1 o (rd s a))
  | Li o d z => Some (evLi o z)
  | SelG c d a b l r => Some (if cmpV c (rd s l) (rd s r) then rd s a else rd s b)
  | SelA o c d a b l r => Some (if cmpV c (rd s l) (rd s r) then evAr o (rd s a) (rd s b) else rd s a)
  | Brn _ _ | BrR _ _ _ _ | Opq _ _ _ => None
  end.
Definition dstOf (i : inst) : option reg :=
  match i with
  | Bin _ d _ _ | Un _ d _ | Cmp _ d _ _ | LdI d _ | Sel d _ _ _ | RR _ d _ _ | RI _ d _ _ | R1 _ d _ | Li _ d _
  | SelG _ d _ _ _ _ | SelA _ _ d _ _ _ _ => Some d
  | _ => None
  end.
Lemma exec1_val i d s : dstOf i = Some d -> exec1 i s = option_map (set s d) (val s i).
Proof.
  destruct i; cbn [dstOf]; intros H; try discriminate; injection H as ->; cbn [exec1 val option_map]; try reflexivity.
  destruct (gbinV _ _ _ _); reflexivity.
Qed.
Lemma defs_dst i d : dstOf i = Some d -> defs i = [d].
Proof. destruct i; cbn; intros H; try discriminate; injection H as ->; reflexivity. Qed.
(** an instruction sees only the registers it uses *)
Definition sameOn (l : list reg) (s t : st) : Prop := forall r, In r l -> R s r = R t r.
Lemma rd_same s t o : sameOn (oreg o) s t -> rd s o = rd t o.
Proof. intros H. destruct o as [r|z u]; cbn [rd]; [|reflexivity]. rewrite (H r); [reflexivity|left; reflexivity]. Qed.
Lemma same_app a b (s t : st) : sameOn (a ++ b) s t -> sameOn a s t /\ sameOn b s t.
Proof. intros H. split; intros r Hr; apply H, in_or_app; auto. Qed.
Ltac same_all := repeat match goal with H : sameOn (_ ++ _) _ _ |- _ => apply same_app in H; destruct H end;
  repeat match goal with H : sameOn (oreg ?o) ?s ?t |- _ => apply rd_same in H end.
Lemma val_same i s t : sameOn (uses i) s t -> val s i = val t i.
Proof.
  intros H. destruct i; cbn [uses] in H; cbn [val]; same_all;
    repeat match goal with H : rd s _ = rd t _ |- _ => rewrite H; clear H end; reflexivity.
Qed.

(** ** executing the same code from states that agree *)
Lemma agree_refl n s : agree n s s.
Proof. split; [|split]; reflexivity. Qed.
Lemma agree_trans n s t u : agree n s t -> agree n t u -> agree n s u.
Proof. intros (A & B & C) (D & E & F). split; [|split]; try congruence. intros r Hr. rewrite A, D by exact Hr. reflexivity. Qed.
Lemma agree_mono n m s t : (n <= m)%nat -> agree m s t -> agree n s t.
Proof. intros L (A & B & C). split; [|split; assumption]. intros r Hr. apply A. lia. Qed.
Lemma map_rd_same us (s t : st) : sameOn (flat_map oreg us) s t -> map (rd s) us = map (rd t) us.
Proof.
  induction us as [|o us IH]; cbn; intros H; [reflexivity|]. apply same_app in H as [H1 H2]. rewrite (rd_same _ _ _ H1), IH by exact H2. reflexivity.
Qed.
Lemma exec1_agree n i s t s' : below n i -> agree n s t -> wfst t -> exec1 i s = Some s' -> wfst s' ->
  exists t', exec1 i t = Some t' /\ agree n s' t' /\ wfst t'.
Proof.
  intros B (A & AW & AT) Wt E Ws.
  assert (U : sameOn (uses i) s t). { intros r Hr. apply A, B, in_regs_use, Hr. }
  assert (D : forall r, In r (defs i) -> (rid r < n)%nat). { intros r Hr. apply B, in_regs_def, Hr. }
  destruct (dstOf i) as [d|] eqn:Ed.
  - rewrite (exec1_val i d) in E by exact Ed. rewrite (exec1_val i d t Ed), <- (val_same i s t U).
    destruct (val s i) as [v|]; cbn [option_map] in E |- *; [|discriminate]. injection E as <-. exists (set t d v).
    split; [reflexivity|]. split.
    + split; [|split; assumption]. intros r Hr. unfold set. cbn [R]. destruct (reg_eqb r d); [reflexivity|]. apply A, Hr.
    + apply wf_set; [exact Wt|]. apply wf_get in Ws. exact Ws.
  - destruct i; try discriminate Ed; cbn [uses] in U; cbn [exec1] in E |- *.
    + injection E as <-. clear Ws. eexists. split; [reflexivity|]. rewrite (rd_same _ _ _ U). unfold take.
      destruct (negb _); [|split; [split; [exact A|split; [exact AW|exact AT]]|exact Wt]].
      split; [|exact Wt]. split; [exact A|]. split; cbn [Wd Tk]; [exact AW|congruence].
    + injection E as <-. clear Ws. eexists. split; [reflexivity|]. apply same_app in U as [U1 U2]. rewrite (rd_same _ _ _ U1), (rd_same _ _ _ U2). unfold take.
      destruct (cmpV _ _ _); [|split; [split; [|split]; assumption|exact Wt]].
      split; [|exact Wt]. split; [exact A|]. split; cbn [Wd Tk]; [exact AW|congruence].
    + rewrite <- (map_rd_same _ _ _ U), <- AW. destruct (opq k (map (rd s) us) (Wd s)) as [w f]. injection E as <-. eexists. split; [reflexivity|].
      split.
      * split; [|split; cbn [Wd Tk sets]; auto]. intros r Hr. cbn [R sets]. destruct (existsb _ _); [reflexivity|apply A, Hr].
      * intros r. cbn [R sets]. destruct (existsb _ _); [apply holds_canon|apply Wt].
Qed.
Lemma runs_agree n l s t s' : Forall (below n) l -> agree n s t -> wfst t -> runs l s s' ->
  exists t', runs l t t' /\ agree n s' t'.
Proof.
  revert s t. induction l as [|i l IH]; cbn [runs]; intros s t B A Wt H.
  - subst s'. exists t. auto.
  - destruct H as (s1 & E & Ws & H). inversion B as [|? ? B1 B2]; subst.
    destruct (exec1_agree n i s t s1 B1 A Wt E Ws) as (t1 & E1 & A1 & W1).
    destruct (IH s1 t1 B2 A1 W1 H) as (t' & Ht & At). exists t'. split; [|exact At]. exists t1. auto.
Qed.
Lemma runs_app a b s s' : runs (a ++ b) s s' <-> exists s1, runs a s s1 /\ runs b s1 s'.
Proof.
  revert s. induction a as [|i a IH]; cbn [app runs]; intros s.
  - split; [intros H; exists s; auto|intros (s1 & -> & H); exact H].
  - split.
    + intros (s1 & E & Ws & H). apply IH in H as (s2 & H1 & H2). exists s2. split; [|exact H2]. exists s1. auto.
    + intros (s2 & (s1 & E & Ws & H1) & H2). exists s1. split; [exact E|]. split; [exact Ws|]. apply IH. exists s2. auto.
Qed.
Lemma runs_wf l s s' : wfst s -> runs l s s' -> wfst s'.
Proof. revert s. induction l as [|i l IH]; cbn [runs]; intros s Ws H; [subst; exact Ws|]. destruct H as (s1 & _ & W1 & H). eauto. Qed.
Lemma runs_exec l s s' : runs l s s' -> exec l s = Some s'.
Proof. revert s. induction l as [|i l IH]; cbn [runs Isel.exec]; intros s H; [congruence|]. destruct H as (s1 & -> & _ & H). auto. Qed.

(** ** replacing one instruction *)
Definition lkUse (C : ctx) (r : reg) : Prop := exists q e, lk C q = Some e /\ In r (uses e).
(** what is known statically about the definitions the context returns, and about i *)
Definition ctxS (n : nat) (C : ctx) : Prop := forall r e, lk C r = Some e -> rid r <> 0%nat /\ In r (defs e) /\ ok1 e /\ below n e.
(** and what is known about the state: looked-up definitions still describe their registers *)
Definition ctxD (C : ctx) (s : st) : Prop := forall r e d, lk C r = Some e -> dstOf e = Some d -> val s e = Some (R s r).
Definition ssaI (C : ctx) (i : inst) : Prop := forall d, In d (defs i) -> ~ In d (uses i) /\ ~ lkUse C d /\ lk C d = None.
Definition pre (n : nat) (C : ctx) (i : inst) : Prop := ctxS n C /\ ok1 i /\ below n i /\ ssaI C i /\ (0 < n)%nat.
Definition useOk (n : nat) (C : ctx) (i : inst) (r : reg) : Prop := rid r = 0%nat \/ (n <= rid r)%nat \/ In r (uses i) \/ lkUse C r.
Record fine (n : nat) (C : ctx) (i : inst) (n' : nat) (l : list inst) : Prop := {
  f_le : (n <= n')%nat;
  f_ok : Forall ok1 l;
  f_below : Forall (below n') l;
  f_defs : forall j r, In j l -> In r (defs j) -> In r (defs i) \/ (n <= rid r)%nat;
  f_uses : forall j r, In j l -> In r (uses j) -> useOk n C i r;
  f_ssa : ssaB l;
  f_last : exists t j, l = t ++ [j] /\ defs j = defs i /\ forall k, In k t -> exists d, dstOf k = Some d /\ (n <= rid d)%nat;
  f_run : forall s s', wfst s -> ctxD C s -> exec1 i s = Some s' -> wfst s' -> exists s'', runs l s s'' /\ agree n s' s'' }.
Definition fineP n C i n' l : Prop := pre n C i -> fine n C i n' l.

Lemma ctxD_agree n C s t : ctxS n C -> ctxD C s -> agree n s t -> ctxD C t.
Proof.
  intros HS HD (A & _) r e d L Ed. destruct (HS r e L) as (_ & HI & _ & B).
  rewrite <- (val_same e s t). { rewrite (HD r e d L Ed). f_equal. apply A, B, in_regs_def, HI. }
  intros q Hq. apply A, B, in_regs_use, Hq.
Qed.
Lemma ctxS_mono n m C : (n <= m)%nat -> ctxS n C -> ctxS m C.
Proof. intros L H r e E. destruct (H r e E) as (A & B & D & F). repeat split; auto; try apply D. eapply below_mono; eauto. Qed.
Lemma lkUse_below n C r : ctxS n C -> lkUse C r -> (rid r < n)%nat.
Proof. intros H (q & e & L & U). destruct (H q e L) as (_ & _ & _ & B). apply B, in_regs_use, U. Qed.
Lemma runs_fresh n l u v : (forall j, In j l -> exists d, dstOf j = Some d /\ (n <= rid d)%nat) -> runs l u v -> agree n u v.
Proof.
  revert u v. induction l as [|j l IH]; cbn [runs]; intros u v HF Hrun; [subst; apply agree_refl|]. destruct Hrun as (u1 & E1 & _ & Hrun).
  destruct (HF j (or_introl eq_refl)) as (d & Ed & Ld). rewrite (exec1_val j d) in E1 by exact Ed.
  destruct (val u j) as [v0|]; [|discriminate]. injection E1 as <-. eapply agree_trans; [|apply IH; [|exact Hrun]; intros k Hk; apply HF; right; exact Hk].
  split; [|split; reflexivity]. intros r Hr. symmetry. apply set_other. intros ->. lia.
Qed.
Lemma fine_trans n C i n1 l1 i1 n2 l2 : fineP n C i n1 (l1 ++ [i1]) -> fineP n1 C i1 n2 l2 -> fineP n C i n2 (l1 ++ l2).
Proof.
  intros F1 F2 P. specialize (F1 P). destruct P as (HS & HO & HB & HI & Hn). destruct F1 as [L1 O1 B1 D1 U1 S1 La1 R1].
  assert (Di : defs i1 = defs i). { destruct La1 as (t & j & E & Dj & _). apply app_inj_tail in E as [_ <-]. exact Dj. }
  assert (Ft : forall k, In k l1 -> exists d, dstOf k = Some d /\ (n <= rid d)%nat). { destruct La1 as (t & j & E & _ & Dj). apply app_inj_tail in E as [<- _]. exact Dj. }
  assert (I1 : In i1 (l1 ++ [i1])) by (apply in_or_app; right; left; reflexivity).
  assert (Hlk : forall r e, lk C r = Some e -> (rid r < n)%nat). { intros r e Lr. destruct (HS r e Lr) as (_ & Hr & _ & B). apply B, in_regs_def, Hr. }
  assert (P1 : pre n1 C i1).
  { split; [eapply ctxS_mono; eauto|]. rewrite Forall_forall in O1, B1. split; [auto|]. split; [auto|]. split; [|lia].
    intros d Hd. rewrite Di in Hd. destruct (HI d Hd) as (N1 & N2 & N3). split; [|split; assumption].
    intros Hu. destruct (U1 i1 d I1 Hu) as [Z | [Z | [Z | Z]]]; try contradiction.
    - destruct HO as (_ & _ & HO). apply (HO d Hd), Z.
    - specialize (HB d (in_regs_def _ _ Hd)). lia. }
  specialize (F2 P1). destruct F2 as [L2 O2 B2 D2 U2 S2 La2 R2].
  assert (O1' := O1). assert (B1' := B1). apply Forall_app in O1', B1'. destruct O1' as [O1' _], B1' as [B1' B1i]. apply ssaB_app in S1 as (S1 & _ & X1).
  assert (U1' : forall r, useOk n1 C i1 r -> useOk n C i r).
  { intros r [Z | [Z | [Z | Z]]]; [left; exact Z|right; left; lia| |right; right; right; exact Z]. apply (U1 i1 r I1 Z). }
  constructor.
  - lia.
  - apply Forall_app. auto.
  - apply Forall_app. split; [|exact B2]. eapply Forall_impl; [|exact B1']. intros j. apply below_mono, L2.
  - intros j r Hj Hr. apply in_app_or in Hj as [Hj | Hj].
    + apply (D1 j); [apply in_or_app; auto|exact Hr].
    + destruct (D2 j r Hj Hr) as [Z | Z]; [rewrite Di in Z; auto|right; lia].
  - intros j r Hj Hr. apply in_app_or in Hj as [Hj | Hj].
    + apply (U1 j); [apply in_or_app; auto|exact Hr].
    + apply U1', (U2 j); assumption.
  - apply ssaB_app. split; [exact S1|]. split; [exact S2|]. intros a b r Ha Hb Hr Hd.
    destruct (D2 b r Hb Hd) as [Z | Z].
    + apply (X1 a i1 r Ha); [left; reflexivity|exact Hr|exact Z].
    + rewrite Forall_forall in B1'. specialize (B1' a Ha r Hr). lia.
  - destruct La2 as (t & j & -> & Dj & Fj). exists (l1 ++ t), j. split; [apply app_assoc|]. split; [congruence|].
    intros k Hk. apply in_app_or in Hk as [Hk | Hk]; [auto|]. destruct (Fj k Hk) as (d & Ed & Ld). exists d. split; [exact Ed|lia].
  - intros s s' Ws HD E Ws'. destruct (R1 s s' Ws HD E Ws') as (s'' & Hr & A). apply runs_app in Hr as (s1 & Ha & Hb).
    cbn [runs] in Hb. destruct Hb as (s2 & E2 & W2 & ->).
    assert (A0 : agree n s s1) by (apply (runs_fresh n l1); assumption).
    destruct (R2 s1 s2 (runs_wf _ _ _ Ws Ha)) as (s3 & H3 & A3); [eapply ctxD_agree; eauto|exact E2|exact W2|].
    exists s3. split; [apply runs_app; exists s1; auto|]. eapply agree_trans; [exact A|]. eapply agree_mono; [exact L1|exact A3].
Qed.

(** replacement by one instruction that has the same effect *)
Lemma fine1 n C i j : defs j = defs i -> (forall r, In r (uses j) -> rid r = 0%nat \/ In r (uses i) \/ lkUse C r) ->
  (pre n C i -> ok1 j) ->
  (pre n C i -> forall s s', wfst s -> ctxD C s -> exec1 i s = Some s' -> wfst s' -> exec1 j s = Some s') -> fineP n C i n [j].
Proof.
  intros Dj Uj Oj Ej P. specialize (Oj P). specialize (Ej P). destruct P as (HS & HO & HB & HI & Hn).
  constructor; auto.
  - constructor; [|constructor]. intros r Hr. apply in_app_or in Hr as [Hr | Hr].
    + destruct (Uj r Hr) as [Z | [Z | Z]]; [lia|apply HB, in_regs_use, Z|eapply lkUse_below; eauto].
    + rewrite Dj in Hr. apply HB, in_regs_def, Hr.
  - intros k r [<- | []] Hr. rewrite Dj in Hr. auto.
  - intros k r [<- | []] Hr. destruct (Uj r Hr) as [Z | [Z | Z]]; [left|right; right; left|right; right; right]; auto.
  - cbn [ssaB]. split; [|split; [intros ? ? ? []|exact I]]. intros r Hr Hu. rewrite Dj in Hr. destruct (HI r Hr) as (N1 & N2 & _).
    destruct (Uj r Hu) as [Z | [Z | Z]]; try contradiction. destruct HO as (_ & _ & HO). apply (HO r Hr), Z.
  - exists [], j. split; [reflexivity|]. split; [exact Dj|]. intros k [].
  - intros s s' Ws HD E Ws'. exists s'. split; [|apply agree_refl]. cbn [runs]. exists s'. split; [eauto|auto].
Qed.
(** the same with one instruction before it that fills the fresh register n *)
Lemma fine2 n C i t tt j : dstOf t = Some (Rg n tt) -> defs j = defs i ->
  (forall r, In r (uses t) -> rid r = 0%nat \/ In r (uses i) \/ lkUse C r) ->
  (forall r, In r (uses j) -> r = Rg n tt \/ rid r = 0%nat \/ In r (uses i) \/ lkUse C r) ->
  (pre n C i -> ok1 t /\ ok1 j) ->
  (pre n C i -> forall s s', wfst s -> ctxD C s -> exec1 i s = Some s' -> wfst s' ->
    exists v, val s t = Some v /\ holds tt v /\ (wfst (set s (Rg n tt) v) -> exists s'', exec1 j (set s (Rg n tt) v) = Some s'' /\ wfst s'' /\ agree n s' s'')) ->
  fineP n C i (S n) [t; j].
Proof.
  intros Dt Dj Ut Uj Oj Ej P. specialize (Oj P). specialize (Ej P). destruct P as (HS & HO & HB & HI & Hn). destruct Oj as [Ot Oj].
  assert (Ul : forall r, rid r = 0%nat \/ In r (uses i) \/ lkUse C r -> (rid r < n)%nat).
  { intros r [Z | [Z | Z]]; [lia|apply HB, in_regs_use, Z|eapply lkUse_below; eauto]. }
  assert (Dl : forall r, In r (defs i) -> (rid r < n)%nat) by (intros r Hr; apply HB, in_regs_def, Hr).
  pose proof (defs_dst _ _ Dt) as Dt'.
  constructor.
  - lia.
  - auto.
  - constructor; [|constructor; [|constructor]]; intros r Hr; apply in_app_or in Hr as [Hr | Hr].
    + specialize (Ul r (Ut r Hr)). lia.
    + rewrite Dt' in Hr. destruct Hr as [<- | []]. cbn. lia.
    + destruct (Uj r Hr) as [-> | Z]; [cbn; lia|]. specialize (Ul r Z). lia.
    + rewrite Dj in Hr. specialize (Dl r Hr). lia.
  - intros k r [<- | [<- | []]] Hr.
    + rewrite Dt' in Hr. destruct Hr as [<- | []]. right. cbn. lia.
    + rewrite Dj in Hr. auto.
  - intros k r [<- | [<- | []]] Hr; unfold useOk.
    + destruct (Ut r Hr) as [Z | [Z | Z]]; auto.
    + destruct (Uj r Hr) as [-> | [Z | [Z | Z]]]; auto.
  - cbn [ssaB]. split; [|split; [|split; [|split; [intros ? ? ? []|exact I]]]].
    + intros r Hr Hu. rewrite Dt' in Hr. destruct Hr as [<- | []]. specialize (Ul _ (Ut _ Hu)). cbn in Ul. lia.
    + intros r Hr k [<- | []] Hd. rewrite Dj in Hd. apply in_app_or in Hr as [Hr | Hr].
      * destruct (HI r Hd) as (N1 & N2 & _). destruct (Ut r Hr) as [Z | [Z | Z]]; try contradiction. destruct HO as (_ & _ & HO). apply (HO r Hd), Z.
      * rewrite Dt' in Hr. destruct Hr as [<- | []]. specialize (Dl _ Hd). cbn in Dl. lia.
    + intros r Hr Hu. rewrite Dj in Hr. destruct (HI r Hr) as (N1 & N2 & _).
      destruct (Uj r Hu) as [-> | [Z | [Z | Z]]]; try contradiction.
      * specialize (Dl _ Hr). cbn in Dl. lia.
      * destruct HO as (_ & _ & HO). apply (HO r Hr), Z.
  - exists [t], j. split; [reflexivity|]. split; [exact Dj|]. intros k [<- | []]. exists (Rg n tt). split; [exact Dt|]. cbn. lia.
  - intros s s' Ws HD E Ws'. destruct (Ej s s' Ws HD E Ws') as (v & V & Hv & K).
    assert (W1 : wfst (set s (Rg n tt) v)) by (apply wf_set; [exact Ws|exact Hv]).
    destruct (K W1) as (s'' & E2 & W2 & A). exists s''. split; [|exact A]. cbn [runs].
    exists (set s (Rg n tt) v). split; [rewrite (exec1_val t (Rg n tt)) by exact Dt; rewrite V; reflexivity|]. split; [exact W1|].
    exists s''. auto.
Qed.
(** value forms *)
Lemma fineV1 n C i j d : dstOf i = Some d -> dstOf j = Some d -> (forall r, In r (uses j) -> rid r = 0%nat \/ In r (uses i) \/ lkUse C r) ->
  (pre n C i -> ok1 j) ->
  (pre n C i -> forall s v, wfst s -> ctxD C s -> val s i = Some v -> holds (rty d) v -> val s j = Some v) -> fineP n C i n [j].
Proof.
  intros Di Dj U O V. apply fine1; auto; [rewrite (defs_dst _ _ Di), (defs_dst _ _ Dj); reflexivity|].
  intros P s s' Ws HD E Ws'. rewrite (exec1_val i d) in E by exact Di. rewrite (exec1_val j d) by exact Dj.
  destruct (val s i) as [v|] eqn:Ev; [|discriminate]. injection E as <-. rewrite (V P s v Ws HD Ev (wf_get _ _ _ Ws')). reflexivity.
Qed.
Lemma fineV2 n C i t tt j d : dstOf i = Some d -> dstOf t = Some (Rg n tt) -> dstOf j = Some d ->
  (forall r, In r (uses t) -> rid r = 0%nat \/ In r (uses i) \/ lkUse C r) ->
  (forall r, In r (uses j) -> r = Rg n tt \/ rid r = 0%nat \/ In r (uses i) \/ lkUse C r) ->
  (pre n C i -> ok1 t /\ ok1 j) ->
  (pre n C i -> forall s v, wfst s -> ctxD C s -> val s i = Some v -> holds (rty d) v ->
    exists u, val s t = Some u /\ holds tt u /\ (wfst (set s (Rg n tt) u) -> val (set s (Rg n tt) u) j = Some v)) ->
  fineP n C i (S n) [t; j].
Proof.
  intros Di Dt Dj Ut Uj O V. apply fine2 with (tt := tt); auto; [rewrite (defs_dst _ _ Di), (defs_dst _ _ Dj); reflexivity|].
  intros P s s' Ws HD E Ws'. rewrite (exec1_val i d) in E by exact Di.
  destruct (val s i) as [v|] eqn:Ev; [|discriminate]. injection E as <-. pose proof (wf_get _ _ _ Ws') as Hv.
  destruct (V P s v Ws HD Ev Hv) as (u & Eu & Hu & K).
  exists u. split; [exact Eu|]. split; [exact Hu|]. intros W1. exists (set (set s (Rg n tt) u) d v).
  split; [rewrite (exec1_val j d) by exact Dj; rewrite (K W1); reflexivity|]. split; [apply wf_set; assumption|].
  split; [|split; reflexivity]. intros r Hr. unfold set. cbn [R]. destruct (reg_eqb r d); [reflexivity|].
  rewrite reg_eqb_neq; [reflexivity|]. intros ->. cbn in Hr. lia.
Qed.
End Step.
