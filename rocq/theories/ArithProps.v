(** Properties C07 and C08: the arithmetic simplifier (ArithmeticReduce.cpp).
    [reduce O e = Some (n, e')] says that the pass replaces [e] by [e'] using the rule at source line
    [n] (ArithRules.v); [refines] (ArithTac.v) is the specification: same type, still well typed, and
    the same value for every assignment of the operands for which the original has a value. *)
From Coq Require Import ZArith Lia Bool List.
From Verif Require Import Word CmpModel IR PatternMatch ArithRules ArithTac ArithSound1 ArithSound2 ArithSound3 ArithRefuted.
Import ListNotations.
Local Open Scope Z_scope.

Lemma first_in l O e n e' : first l O e = Some (n, e') -> exists r, In (n, r) l /\ r O e = Some e'.
Proof.
  induction l as [|[k r] l IH]; cbn [first]; intros H; [discriminate|]. destruct (r O e) eqn:E.
  - injection H as -> ->. exists r. split; [left; reflexivity|assumption].
  - destruct (IH H) as (r' & I & K). exists r'. split; [right; assumption|assumption].
Qed.
(** rules that need signed overflow to be undefined *)
Definition needsUB : list Z := [159; 164; 922; 928; 937; 942; 1139; 1214].
(** rules that are wrong on some inputs, or right only in a context; each has its own theorem below *)
Definition special : list Z := [181; 443; 460; 509; 646; 736; 749; 1051; 1161; 1167; 1176; 1182; 1194; 1269].
Lemma rules_wr : Forall (fun p => In (fst p) needsUB \/ In (fst p) special \/ rule_ok Wr (snd p)) rules.
Proof.
  unfold rules.
  apply Forall_cons; [right; right; exact ok47|].
  apply Forall_cons; [right; right; exact ok91|].
  apply Forall_cons; [right; right; exact ok96|].
  apply Forall_cons; [right; right; exact ok101|].
  apply Forall_cons; [right; right; exact ok104|].
  apply Forall_cons; [right; right; exact ok107|].
  apply Forall_cons; [right; right; exact ok112|].
  apply Forall_cons; [right; right; exact ok117|].
  apply Forall_cons; [right; right; exact ok122|].
  apply Forall_cons; [right; right; exact ok134|].
  apply Forall_cons; [right; right; exact ok139s|].
  apply Forall_cons; [right; right; exact ok139u|].
  apply Forall_cons; [right; right; exact ok144s|].
  apply Forall_cons; [right; right; exact ok144u|].
  apply Forall_cons; [right; right; exact ok149s|].
  apply Forall_cons; [right; right; exact ok149u|].
  apply Forall_cons; [right; right; exact ok154|].
  apply Forall_cons; [left; cbn; tauto|].
  apply Forall_cons; [left; cbn; tauto|].
  apply Forall_cons; [right; left; cbn; tauto|].
  apply Forall_cons; [right; right; exact ok192s|].
  apply Forall_cons; [right; right; exact ok192u|].
  apply Forall_cons; [right; right; exact ok195s|].
  apply Forall_cons; [right; right; exact ok195u|].
  apply Forall_cons; [right; right; exact ok198s|].
  apply Forall_cons; [right; right; exact ok198u|].
  apply Forall_cons; [right; right; exact ok202|].
  apply Forall_cons; [right; right; exact ok205|].
  apply Forall_cons; [right; right; exact ok208|].
  apply Forall_cons; [right; right; exact ok211|].
  apply Forall_cons; [right; right; exact ok214|].
  apply Forall_cons; [right; right; exact ok217|].
  apply Forall_cons; [right; right; exact ok219|].
  apply Forall_cons; [right; right; exact ok222|].
  apply Forall_cons; [right; right; exact ok225|].
  apply Forall_cons; [right; right; exact ok228|].
  apply Forall_cons; [right; right; exact ok231|].
  apply Forall_cons; [right; right; exact ok233|].
  apply Forall_cons; [right; right; exact ok239|].
  apply Forall_cons; [right; right; exact ok250|].
  apply Forall_cons; [right; right; exact ok253|].
  apply Forall_cons; [right; right; exact ok257|].
  apply Forall_cons; [right; right; exact ok261|].
  apply Forall_cons; [right; right; exact ok265|].
  apply Forall_cons; [right; right; exact ok270|].
  apply Forall_cons; [right; right; exact ok273|].
  apply Forall_cons; [right; right; exact ok278|].
  apply Forall_cons; [right; right; exact ok295|].
  apply Forall_cons; [right; right; exact ok314|].
  apply Forall_cons; [right; right; exact ok321|].
  apply Forall_cons; [right; right; exact ok341|].
  apply Forall_cons; [right; right; exact ok346|].
  apply Forall_cons; [right; right; exact ok351|].
  apply Forall_cons; [right; right; exact ok365|].
  apply Forall_cons; [right; right; exact ok368|].
  apply Forall_cons; [right; right; exact ok371|].
  apply Forall_cons; [right; right; exact ok374|].
  apply Forall_cons; [right; right; exact ok378|].
  apply Forall_cons; [right; right; exact ok384|].
  apply Forall_cons; [right; right; exact ok397|].
  apply Forall_cons; [right; right; exact ok407|].
  apply Forall_cons; [right; right; exact ok414|].
  apply Forall_cons; [right; left; cbn; tauto|].
  apply Forall_cons; [right; left; cbn; tauto|].
  apply Forall_cons; [right; right; exact ok469|].
  apply Forall_cons; [right; right; exact ok479|].
  apply Forall_cons; [right; right; exact ok486|].
  apply Forall_cons; [right; right; exact ok496|].
  apply Forall_cons; [right; right; exact ok503|].
  apply Forall_cons; [right; left; cbn; tauto|].
  apply Forall_cons; [right; right; exact ok518|].
  apply Forall_cons; [right; right; exact ok521|].
  apply Forall_cons; [right; right; exact ok525|].
  apply Forall_cons; [right; right; exact ok529|].
  apply Forall_cons; [right; right; exact ok533|].
  apply Forall_cons; [right; right; exact ok536|].
  apply Forall_cons; [right; right; exact ok539|].
  apply Forall_cons; [right; right; exact ok541|].
  apply Forall_cons; [right; right; exact ok545|].
  apply Forall_cons; [right; right; exact ok547|].
  apply Forall_cons; [right; right; exact ok563|].
  apply Forall_cons; [right; right; exact ok572|].
  apply Forall_cons; [right; right; exact ok577|].
  apply Forall_cons; [right; right; exact ok582|].
  apply Forall_cons; [right; right; exact ok587|].
  apply Forall_cons; [right; right; exact ok593|].
  apply Forall_cons; [right; right; exact ok598|].
  apply Forall_cons; [right; right; exact ok603|].
  apply Forall_cons; [right; right; exact ok608|].
  apply Forall_cons; [right; right; exact ok614|].
  apply Forall_cons; [right; right; exact ok631|].
  apply Forall_cons; [right; right; exact ok638|].
  apply Forall_cons; [right; left; cbn; tauto|].
  apply Forall_cons; [right; right; exact ok666|].
  apply Forall_cons; [right; right; exact ok674|].
  apply Forall_cons; [right; right; exact ok679|].
  apply Forall_cons; [right; right; exact ok685|].
  apply Forall_cons; [right; right; exact ok690|].
  apply Forall_cons; [right; right; exact ok700|].
  apply Forall_cons; [right; right; exact ok705|].
  apply Forall_cons; [right; right; exact ok710|].
  apply Forall_cons; [right; left; cbn; tauto|].
  apply Forall_cons; [right; left; cbn; tauto|].
  apply Forall_cons; [right; right; exact ok794|].
  apply Forall_cons; [right; right; exact ok846|].
  apply Forall_cons; [right; right; exact ok854|].
  apply Forall_cons; [right; right; exact ok862|].
  apply Forall_cons; [right; right; exact ok867|].
  apply Forall_cons; [right; right; exact ok872|].
  apply Forall_cons; [right; right; exact ok877|].
  apply Forall_cons; [right; right; exact ok885|].
  apply Forall_cons; [right; right; exact ok889|].
  apply Forall_cons; [right; right; exact ok894|].
  apply Forall_cons; [right; right; exact ok898|].
  apply Forall_cons; [right; right; exact ok902|].
  apply Forall_cons; [right; right; exact ok910|].
  apply Forall_cons; [right; right; exact ok915|].
  apply Forall_cons; [left; cbn; tauto|].
  apply Forall_cons; [left; cbn; tauto|].
  apply Forall_cons; [left; cbn; tauto|].
  apply Forall_cons; [left; cbn; tauto|].
  apply Forall_cons; [right; right; exact ok947|].
  apply Forall_cons; [right; right; exact ok953|].
  apply Forall_cons; [right; right; exact ok960|].
  apply Forall_cons; [right; right; exact ok964|].
  apply Forall_cons; [right; right; exact ok969|].
  apply Forall_cons; [right; right; exact ok980|].
  apply Forall_cons; [right; right; exact ok984|].
  apply Forall_cons; [right; right; exact ok990|].
  apply Forall_cons; [right; right; exact ok995|].
  apply Forall_cons; [right; right; exact ok998|].
  apply Forall_cons; [right; right; exact ok1001|].
  apply Forall_cons; [right; right; exact ok1004|].
  apply Forall_cons; [right; right; exact ok1008|].
  apply Forall_cons; [right; right; exact ok1015|].
  apply Forall_cons; [right; right; exact ok1021|].
  apply Forall_cons; [right; right; exact ok1031|].
  apply Forall_cons; [right; right; exact ok1037|].
  apply Forall_cons; [right; left; cbn; tauto|].
  apply Forall_cons; [right; right; exact ok1092|].
  apply Forall_cons; [right; right; exact ok1096|].
  apply Forall_cons; [right; right; exact ok1100|].
  apply Forall_cons; [right; right; exact ok1104|].
  apply Forall_cons; [right; right; exact ok1108|].
  apply Forall_cons; [right; right; exact ok1113|].
  apply Forall_cons; [right; right; exact ok1122|].
  apply Forall_cons; [right; right; exact ok1127|].
  apply Forall_cons; [right; right; exact ok1130|].
  apply Forall_cons; [right; right; exact ok1133|].
  apply Forall_cons; [right; right; exact ok1136|].
  apply Forall_cons; [left; cbn; tauto|].
  apply Forall_cons; [right; right; exact ok1157|].
  apply Forall_cons; [right; left; cbn; tauto|].
  apply Forall_cons; [right; left; cbn; tauto|].
  apply Forall_cons; [right; left; cbn; tauto|].
  apply Forall_cons; [right; left; cbn; tauto|].
  apply Forall_cons; [right; left; cbn; tauto|].
  apply Forall_cons; [left; cbn; tauto|].
  apply Forall_cons; [right; right; exact ok1226|].
  apply Forall_cons; [right; right; exact ok1244|].
  apply Forall_cons; [right; right; exact ok1247|].
  apply Forall_cons; [right; left; cbn; tauto|].
  apply Forall_nil.
Qed.
Lemma rules_ub : Forall (fun p => In (fst p) needsUB -> rule_ok Ub (snd p)) rules.
Proof.
  unfold rules.
  apply Forall_cons; [cbn; lia|].
  apply Forall_cons; [cbn; lia|].
  apply Forall_cons; [cbn; lia|].
  apply Forall_cons; [cbn; lia|].
  apply Forall_cons; [cbn; lia|].
  apply Forall_cons; [cbn; lia|].
  apply Forall_cons; [cbn; lia|].
  apply Forall_cons; [cbn; lia|].
  apply Forall_cons; [cbn; lia|].
  apply Forall_cons; [cbn; lia|].
  apply Forall_cons; [cbn; lia|].
  apply Forall_cons; [cbn; lia|].
  apply Forall_cons; [cbn; lia|].
  apply Forall_cons; [cbn; lia|].
  apply Forall_cons; [cbn; lia|].
  apply Forall_cons; [cbn; lia|].
  apply Forall_cons; [cbn; lia|].
  apply Forall_cons; [intros _; exact ok159|].
  apply Forall_cons; [intros _; exact ok164|].
  apply Forall_cons; [cbn; lia|].
  apply Forall_cons; [cbn; lia|].
  apply Forall_cons; [cbn; lia|].
  apply Forall_cons; [cbn; lia|].
  apply Forall_cons; [cbn; lia|].
  apply Forall_cons; [cbn; lia|].
  apply Forall_cons; [cbn; lia|].
  apply Forall_cons; [cbn; lia|].
  apply Forall_cons; [cbn; lia|].
  apply Forall_cons; [cbn; lia|].
  apply Forall_cons; [cbn; lia|].
  apply Forall_cons; [cbn; lia|].
  apply Forall_cons; [cbn; lia|].
  apply Forall_cons; [cbn; lia|].
  apply Forall_cons; [cbn; lia|].
  apply Forall_cons; [cbn; lia|].
  apply Forall_cons; [cbn; lia|].
  apply Forall_cons; [cbn; lia|].
  apply Forall_cons; [cbn; lia|].
  apply Forall_cons; [cbn; lia|].
  apply Forall_cons; [cbn; lia|].
  apply Forall_cons; [cbn; lia|].
  apply Forall_cons; [cbn; lia|].
  apply Forall_cons; [cbn; lia|].
  apply Forall_cons; [cbn; lia|].
  apply Forall_cons; [cbn; lia|].
  apply Forall_cons; [cbn; lia|].
  apply Forall_cons; [cbn; lia|].
  apply Forall_cons; [cbn; lia|].
  apply Forall_cons; [cbn; lia|].
  apply Forall_cons; [cbn; lia|].
  apply Forall_cons; [cbn; lia|].
  apply Forall_cons; [cbn; lia|].
  apply Forall_cons; [cbn; lia|].
  apply Forall_cons; [cbn; lia|].
  apply Forall_cons; [cbn; lia|].
  apply Forall_cons; [cbn; lia|].
  apply Forall_cons; [cbn; lia|].
  apply Forall_cons; [cbn; lia|].
  apply Forall_cons; [cbn; lia|].
  apply Forall_cons; [cbn; lia|].
  apply Forall_cons; [cbn; lia|].
  apply Forall_cons; [cbn; lia|].
  apply Forall_cons; [cbn; lia|].
  apply Forall_cons; [cbn; lia|].
  apply Forall_cons; [cbn; lia|].
  apply Forall_cons; [cbn; lia|].
  apply Forall_cons; [cbn; lia|].
  apply Forall_cons; [cbn; lia|].
  apply Forall_cons; [cbn; lia|].
  apply Forall_cons; [cbn; lia|].
  apply Forall_cons; [cbn; lia|].
  apply Forall_cons; [cbn; lia|].
  apply Forall_cons; [cbn; lia|].
  apply Forall_cons; [cbn; lia|].
  apply Forall_cons; [cbn; lia|].
  apply Forall_cons; [cbn; lia|].
  apply Forall_cons; [cbn; lia|].
  apply Forall_cons; [cbn; lia|].
  apply Forall_cons; [cbn; lia|].
  apply Forall_cons; [cbn; lia|].
  apply Forall_cons; [cbn; lia|].
  apply Forall_cons; [cbn; lia|].
  apply Forall_cons; [cbn; lia|].
  apply Forall_cons; [cbn; lia|].
  apply Forall_cons; [cbn; lia|].
  apply Forall_cons; [cbn; lia|].
  apply Forall_cons; [cbn; lia|].
  apply Forall_cons; [cbn; lia|].
  apply Forall_cons; [cbn; lia|].
  apply Forall_cons; [cbn; lia|].
  apply Forall_cons; [cbn; lia|].
  apply Forall_cons; [cbn; lia|].
  apply Forall_cons; [cbn; lia|].
  apply Forall_cons; [cbn; lia|].
  apply Forall_cons; [cbn; lia|].
  apply Forall_cons; [cbn; lia|].
  apply Forall_cons; [cbn; lia|].
  apply Forall_cons; [cbn; lia|].
  apply Forall_cons; [cbn; lia|].
  apply Forall_cons; [cbn; lia|].
  apply Forall_cons; [cbn; lia|].
  apply Forall_cons; [cbn; lia|].
  apply Forall_cons; [cbn; lia|].
  apply Forall_cons; [cbn; lia|].
  apply Forall_cons; [cbn; lia|].
  apply Forall_cons; [cbn; lia|].
  apply Forall_cons; [cbn; lia|].
  apply Forall_cons; [cbn; lia|].
  apply Forall_cons; [cbn; lia|].
  apply Forall_cons; [cbn; lia|].
  apply Forall_cons; [cbn; lia|].
  apply Forall_cons; [cbn; lia|].
  apply Forall_cons; [cbn; lia|].
  apply Forall_cons; [cbn; lia|].
  apply Forall_cons; [cbn; lia|].
  apply Forall_cons; [cbn; lia|].
  apply Forall_cons; [cbn; lia|].
  apply Forall_cons; [intros _; exact ok922|].
  apply Forall_cons; [intros _; exact ok928|].
  apply Forall_cons; [intros _; exact ok937|].
  apply Forall_cons; [intros _; exact ok942|].
  apply Forall_cons; [cbn; lia|].
  apply Forall_cons; [cbn; lia|].
  apply Forall_cons; [cbn; lia|].
  apply Forall_cons; [cbn; lia|].
  apply Forall_cons; [cbn; lia|].
  apply Forall_cons; [cbn; lia|].
  apply Forall_cons; [cbn; lia|].
  apply Forall_cons; [cbn; lia|].
  apply Forall_cons; [cbn; lia|].
  apply Forall_cons; [cbn; lia|].
  apply Forall_cons; [cbn; lia|].
  apply Forall_cons; [cbn; lia|].
  apply Forall_cons; [cbn; lia|].
  apply Forall_cons; [cbn; lia|].
  apply Forall_cons; [cbn; lia|].
  apply Forall_cons; [cbn; lia|].
  apply Forall_cons; [cbn; lia|].
  apply Forall_cons; [cbn; lia|].
  apply Forall_cons; [cbn; lia|].
  apply Forall_cons; [cbn; lia|].
  apply Forall_cons; [cbn; lia|].
  apply Forall_cons; [cbn; lia|].
  apply Forall_cons; [cbn; lia|].
  apply Forall_cons; [cbn; lia|].
  apply Forall_cons; [cbn; lia|].
  apply Forall_cons; [cbn; lia|].
  apply Forall_cons; [cbn; lia|].
  apply Forall_cons; [cbn; lia|].
  apply Forall_cons; [cbn; lia|].
  apply Forall_cons; [intros _; exact ok1139|].
  apply Forall_cons; [cbn; lia|].
  apply Forall_cons; [cbn; lia|].
  apply Forall_cons; [cbn; lia|].
  apply Forall_cons; [cbn; lia|].
  apply Forall_cons; [cbn; lia|].
  apply Forall_cons; [cbn; lia|].
  apply Forall_cons; [intros _; exact ok1214|].
  apply Forall_cons; [cbn; lia|].
  apply Forall_cons; [cbn; lia|].
  apply Forall_cons; [cbn; lia|].
  apply Forall_cons; [cbn; lia|].
  apply Forall_nil.
Qed.
Lemma rule_at n : forall r, In (n, r) rules -> rule_ok Wr r \/ In n needsUB \/ In n special.
Proof. intros r H. pose proof rules_wr as F. rewrite Forall_forall in F. specialize (F _ H). cbn [fst snd] in F. tauto. Qed.

(** *** C07 *)
Theorem C07_reduce_preserves_value :
  forall O e n e', oracle_ok O -> wt e -> reduce O e = Some (n, e') -> ~ In n needsUB -> ~ In n special ->
  ty_of e' = ty_of e /\ wt e' /\ forall env v, eval Wr env e = Some v -> eval Wr env e' = Some v.
Proof.
  intros O e n e' OK W H N1 N2. destruct (first_in _ _ _ _ _ H) as (r & I & K).
  destruct (rule_at n r I) as [R|[R|R]]; [|contradiction|contradiction]. exact (R O e e' OK W K).
Qed.

(** one rewrite anywhere inside an expression *)
Inductive step (allowed : Z -> Prop) (O : oracle) : expr -> expr -> Prop :=
| step_here e n e' : reduce O e = Some (n, e') -> allowed n -> step allowed O e e'
| step_un o a a' : step allowed O a a' -> step allowed O (Un o a) (Un o a')
| step_bin1 o a a' b : step allowed O a a' -> step allowed O (Bin o a b) (Bin o a' b)
| step_bin2 o a b b' : step allowed O b b' -> step allowed O (Bin o a b) (Bin o a b')
| step_cmp1 o a a' b : step allowed O a a' -> step allowed O (Cmp o a b) (Cmp o a' b)
| step_cmp2 o a b b' : step allowed O b b' -> step allowed O (Cmp o a b) (Cmp o a b')
| step_cast o t a a' : step allowed O a a' -> step allowed O (Cast o t a) (Cast o t a')
| step_sel1 a a' b d : step allowed O a a' -> step allowed O (Sel a b d) (Sel a' b d)
| step_sel2 a b b' d : step allowed O b b' -> step allowed O (Sel a b d) (Sel a b' d)
| step_sel3 a b d d' : step allowed O d d' -> step allowed O (Sel a b d) (Sel a b d').
(** a run of the pass: any number of rewrites, each with its own pointer-equality and use-count facts *)
Inductive run (allowed : Z -> Prop) : expr -> expr -> Prop :=
| run_nil e : run allowed e e
| run_step O e f g : oracle_ok O -> step allowed O e f -> run allowed f g -> run allowed e g.

Lemma step_refines m (allowed : Z -> Prop) O e e' :
  (forall O e n e', oracle_ok O -> wt e -> reduce O e = Some (n, e') -> allowed n -> refines m e e') ->
  oracle_ok O -> wt e -> step allowed O e e' -> refines m e e'.
Proof.
  intros A OK W S. induction S; cbn [wt] in W.
  - eauto.
  - destruct W as [W N]. destruct (IHS W) as (T & W' & E). unfold refines. cbn [wt ty_of]. rewrite T.
    repeat split; auto. intros env v H. cbn [eval] in *. destruct (eval m env a) as [p|] eqn:EA; [|discriminate].
    rewrite (E _ _ EA), T. destruct m; auto. destruct o; apply ar_UW in H; tauto.
  - destruct W as (W1 & W2 & TE & L). destruct (IHS W1) as (T & W' & E). unfold refines. cbn [wt ty_of]. rewrite T.
    repeat split; auto. intros env v H. cbn [eval] in *. destruct (eval m env a) as [p|] eqn:EA; [|discriminate].
    destruct (eval m env b) as [q|] eqn:EB; [|discriminate]. rewrite (E _ _ EA), (ms_dec _ _ _ _ EB), T.
    destruct m; auto. apply evalBin_UW. assumption.
  - destruct W as (W1 & W2 & TE & L). destruct (IHS W2) as (T & W' & E). unfold refines. cbn [wt ty_of].
    repeat split; auto; try congruence. intros env v H. cbn [eval] in *. destruct (eval m env a) as [p|] eqn:EA; [|discriminate].
    destruct (eval m env b) as [q|] eqn:EB; [|discriminate]. rewrite (E _ _ EB), (ms_dec _ _ _ _ EA).
    destruct m; auto. apply evalBin_UW. assumption.
  - destruct W as (W1 & W2 & TE & L). destruct (IHS W1) as (T & W' & E). unfold refines. cbn [wt ty_of]. rewrite T.
    repeat split; auto. intros env v H. cbn [eval] in *. destruct (eval m env a) as [p|] eqn:EA; [|discriminate].
    destruct (eval m env b) as [q|] eqn:EB; [|discriminate]. rewrite (E _ _ EA), (ms_dec _ _ _ _ EB), T. assumption.
  - destruct W as (W1 & W2 & TE & L). destruct (IHS W2) as (T & W' & E). unfold refines. cbn [wt ty_of].
    repeat split; auto; try congruence. intros env v H. cbn [eval] in *. destruct (eval m env a) as [p|] eqn:EA; [|discriminate].
    destruct (eval m env b) as [q|] eqn:EB; [|discriminate]. rewrite (E _ _ EB), (ms_dec _ _ _ _ EA). assumption.
  - destruct W as [W N]. destruct (IHS W) as (T & W' & E). unfold refines. cbn [wt ty_of]. rewrite T.
    repeat split; auto. intros env v H. cbn [eval] in *. destruct (eval m env a) as [p|] eqn:EA; [|discriminate].
    rewrite (E _ _ EA), T. assumption.
  - destruct W as (W1 & W2 & W3 & T1 & T2). destruct (IHS W1) as (T & W' & E). unfold refines. cbn [wt ty_of].
    repeat split; auto; try congruence. intros env v H. cbn [eval] in *. destruct (eval m env a) as [p|] eqn:EA; [|discriminate].
    destruct (eval m env b) as [q|] eqn:EB; [|discriminate]. destruct (eval m env d) as [r|] eqn:ED; [|discriminate].
    rewrite (E _ _ EA), (ms_dec _ _ _ _ EB), (ms_dec _ _ _ _ ED). assumption.
  - destruct W as (W1 & W2 & W3 & T1 & T2). destruct (IHS W2) as (T & W' & E). unfold refines. cbn [wt ty_of].
    repeat split; auto; try congruence. intros env v H. cbn [eval] in *. destruct (eval m env a) as [p|] eqn:EA; [|discriminate].
    destruct (eval m env b) as [q|] eqn:EB; [|discriminate]. destruct (eval m env d) as [r|] eqn:ED; [|discriminate].
    rewrite (E _ _ EB), (ms_dec _ _ _ _ EA), (ms_dec _ _ _ _ ED). assumption.
  - destruct W as (W1 & W2 & W3 & T1 & T2). destruct (IHS W3) as (T & W' & E). unfold refines. cbn [wt ty_of].
    repeat split; auto; try congruence. intros env v H. cbn [eval] in *. destruct (eval m env a) as [p|] eqn:EA; [|discriminate].
    destruct (eval m env b) as [q|] eqn:EB; [|discriminate]. destruct (eval m env d) as [r|] eqn:ED; [|discriminate].
    rewrite (E _ _ ED), (ms_dec _ _ _ _ EA), (ms_dec _ _ _ _ EB). assumption.
Qed.
Lemma run_refines (allowed : Z -> Prop) e e' :
  (forall O e n e', oracle_ok O -> wt e -> reduce O e = Some (n, e') -> allowed n -> refines Wr e e') ->
  wt e -> run allowed e e' -> refines Wr e e'.
Proof.
  intros A W R. induction R as [e|O e f g OK S R IH].
  - split; [reflexivity|split; auto].
  - pose proof (step_refines Wr allowed O e f A OK W S) as (T1 & W1 & E1). destruct (IH W1) as (T2 & W2 & E2).
    split; [congruence|split; auto].
Qed.
(** a whole run of the pass: any number of rewrites at any depth *)
Theorem C07_pass_preserves_value :
  forall e e', wt e -> run (fun n => ~ In n needsUB /\ ~ In n special) e e' ->
  ty_of e' = ty_of e /\ wt e' /\ forall env v, eval Wr env e = Some v -> eval Wr env e' = Some v.
Proof.
  intros e e' W R. apply (run_refines _ e e') in R; auto. intros O a n a' OK W' H [N1 N2].
  exact (C07_reduce_preserves_value O a n a' OK W' H N1 N2).
Qed.
(** the hypotheses are met: (((x + 3) + 4) - (-y)) * 1 is rewritten to (x + 7) + y in three steps *)
Example C07_pass_example :
  exists e', run (fun n => ~ In n needsUB /\ ~ In n special)
    (Bin OMul (Bin OSub (Bin OAdd (Bin OAdd (Var I32 0) (Cst I32 3)) (Cst I32 4)) (Un ONeg (Var I32 1))) (Cst I32 1)) e'
  /\ e' = Bin OAdd (Bin OAdd (Var I32 0) (Cst I32 7)) (Var I32 1).
Proof.
  eexists. split.
  - eapply run_step; [apply stdO_ok|eapply step_here; [reflexivity|cbn; lia]|].
    eapply run_step; [apply stdO_ok|eapply step_here; [reflexivity|cbn; lia]|].
    eapply run_step; [apply stdO_ok|eapply step_bin1, step_here; [reflexivity|cbn; lia]|].
    apply run_nil.
  - reflexivity.
Qed.

Ltac uniq H := let r := fresh "r" in let I := fresh "I" in let K := fresh "K" in
  apply first_in in H; destruct H as (r & I & K); unfold rules in I; cbn [In] in I;
  repeat (destruct I as [I|I]; [injection I as I; first [discriminate I | subst r]|]); [|contradiction].

(** Rules that are right only under a side condition.  The full claim (no side condition) is refuted
    for each of them below. *)
(** :509 (x >>s c1) >>s c2 when c1 + c2 is below the width; the code returns the constant 0 otherwise *)
Theorem C07_rule509_partial : forall O e e', oracle_ok O -> wt e -> reduce O e = Some (509, e') ->
  (forall t k, e' <> Cst t k) -> refines Wr e e'.
Proof. intros O e e' OK W H N. uniq H. eapply ok509_legal; eauto. destruct e'; auto; exfalso; eapply N; eauto. Qed.
(** :646 is only applied to values whose every use is a comparison with 0, and is right there *)
Theorem C07_rule646_zero_tests : forall O e e', oracle_ok O -> wt e -> reduce O e = Some (646, e') ->
  ty_of e' = ty_of e /\ wt e' /\
  forall env v, eval Wr env e = Some v -> exists v', eval Wr env e' = Some v' /\ (v' = 0 <-> v = 0).
Proof. intros O e e' OK W H. uniq H. eapply ok646; eauto. Qed.
(** :736 x == a ? b : a -> a ^ b ^ x on booleans, for operands with a <> b *)
Theorem C07_rule736_partial : forall O e e' a b x, oracle_ok O -> wt e -> reduce O e = Some (736, e') ->
  e' = Bin OXor (Bin OXor a b) x ->
  ty_of e' = ty_of e /\ wt e' /\
  forall env v, eval Wr env a <> eval Wr env b -> eval Wr env e = Some v -> eval Wr env e' = Some v.
Proof. intros O e e' a b x OK W H E. uniq H. eapply ok736; eauto. Qed.
(** :749 range check on operands of at least 32 bits *)
Theorem C07_rule749_partial : forall O e e', oracle_ok O -> wt e -> reduce O e = Some (749, e') ->
  (forall c a b, e' = Cmp c a b -> 32 <= bits (ty_of a)) -> refines Wr e e'.
Proof. intros O e e' OK W H N. uniq H. eapply ok749; eauto. destruct e'; cbn; auto. eapply N; reflexivity. Qed.
(** :1051 (x / c1) == c2 when the dividends with quotient c2 form a range [lo, lo + n) inside the type *)
Theorem C07_rule1051_partial : forall O e e', oracle_ok O -> wt e -> reduce O e = Some (1051, e') ->
  (forall a t nl n, e' = Cmp Iult (Bin OAdd a (Cst t nl)) (Cst t n) -> wrap t n - sv t (wrap t nl) <= hf t) ->
  refines Wr e e'.
Proof. intros O e e' OK W H N. uniq H. eapply ok1051; eauto. Qed.
(** :1161-1182 sign tests of two values of the same type *)
Theorem C07_rule1161_partial : forall O e e', oracle_ok O -> wt e -> reduce O e = Some (1161, e') -> wt e' -> refines Wr e e'.
Proof. intros O e e' OK W H N. uniq H. eapply ok1161; eauto. Qed.
Theorem C07_rule1167_partial : forall O e e', oracle_ok O -> wt e -> reduce O e = Some (1167, e') -> wt e' -> refines Wr e e'.
Proof. intros O e e' OK W H N. uniq H. eapply ok1167; eauto. Qed.
Theorem C07_rule1176_partial : forall O e e', oracle_ok O -> wt e -> reduce O e = Some (1176, e') -> wt e' -> refines Wr e e'.
Proof. intros O e e' OK W H N. uniq H. eapply ok1176; eauto. Qed.
Theorem C07_rule1182_partial : forall O e e', oracle_ok O -> wt e -> reduce O e = Some (1182, e') -> wt e' -> refines Wr e e'.
Proof. intros O e e' OK W H N. uniq H. eapply ok1182; eauto. Qed.
(** :1194 x <= c -> x < c+1 and x >= c -> x > c-1 when the new constant did not wrap *)
Theorem C07_rule1194_partial : forall O e e', oracle_ok O -> wt e -> reduce O e = Some (1194, e') ->
  (forall x t k, e' = Cmp Islt x (Cst t k) -> wrap t k <> hf t) ->
  (forall x t k, e' = Cmp Isgt x (Cst t k) -> wrap t k <> hf t - 1) -> refines Wr e e'.
Proof. intros O e e' OK W H N1 N2. uniq H. eapply ok1194; eauto. Qed.
(** :1269 x < a && x < b -> x < min(a, b) when both comparisons use the same predicate (no operand had
    to be adjusted by one) *)
Theorem C07_rule1269_partial : forall O e e', oracle_ok O -> wt e -> reduce O e = Some (1269, e') ->
  (forall c x m y k z, e' <> Cmp c x (Bin m (Bin OAdd y (Cst (ty_of y) k)) z) /\
                       e' <> Cmp c x (Bin m z (Bin OAdd y (Cst (ty_of y) k)))) -> refines Wr e e'.
Proof. intros O e e' OK W H N. uniq H. eapply ok1269; eauto. Qed.
(** :460, operand whose remainder is non-negative *)
Theorem C07_rule460_partial : forall O e e' a c d, oracle_ok O -> wt e -> reduce O e = Some (460, e') ->
  e' = Bin OSRem (Bin OAdd a c) d -> 32 <= bits (ty_of a) ->
  ty_of e' = ty_of e /\ wt e' /\
  forall env x v, eval Wr env a = Some x -> 0 <= sv (ty_of a) x -> eval Wr env e = Some v -> eval Wr env e' = Some v.
Proof. intros O e e' a c d OK W H E B. uniq H. eapply ok460; eauto. Qed.

(** the side conditions above are met by programs that trigger the rule *)
Example C07_rule509_example : reduce stdO (Bin OAShr (Bin OAShr (Var I32 0) (Cst I32 3)) (Cst I32 4)) =
  Some (509, Bin OAShr (Var I32 0) (Cst I32 7)). Proof. reflexivity. Qed.
Example C07_rule736_example : exists e', reduce stdO (Sel (Cmp Ieq (Var I1 0) (Var I1 1)) (Var I1 2) (Var I1 0)) = Some (736, e')
  /\ e' = Bin OXor (Bin OXor (Var I1 0) (Var I1 2)) (Var I1 1). Proof. eexists; split; reflexivity. Qed.
Example C07_rule1051_example : reduce stdO (Cmp Ieq (Bin OSDiv (Var I32 0) (Cst I32 10)) (Cst I32 7)) =
  Some (1051, Cmp Iult (Bin OAdd (Var I32 0) (Cst I32 (-70))) (Cst I32 10)). Proof. reflexivity. Qed.
Example C07_rule1194_example : reduce stdO (Cmp Isle (Var I32 0) (Cst I32 9)) =
  Some (1194, Cmp Islt (Var I32 0) (Cst I32 10)). Proof. reflexivity. Qed.
Example C07_rule1269_example : reduce stdO (Bin OAnd (Cmp Islt (Var I32 0) (Var I32 1)) (Cmp Islt (Var I32 0) (Var I32 2))) =
  Some (1269, Cmp Islt (Var I32 0) (Bin OSMin (Var I32 1) (Var I32 2))). Proof. reflexivity. Qed.
Example C07_rule749_example : reduce stdO (Bin OAnd (Cmp Isge (Var I32 0) (Cst I32 48)) (Cmp Isle (Var I32 0) (Cst I32 57))) =
  Some (749, Cmp Iult (Bin OSub (Var I32 0) (Cst I32 48)) (Cst I32 10)). Proof. reflexivity. Qed.

(** The unconditional claim fails: programs whose value the pass changes. *)
Theorem C07_value_changed_refuted : forall n, In n needsUB -> breaks Wr n.
Proof.
  cbn. intros n H. repeat (destruct H as [<-|H]; [first [exact bad159|exact bad164|exact bad922|exact bad928|exact bad937|exact bad942|exact bad1139|exact bad1214]|]).
  contradiction.
Qed.
Theorem C07_illtyped_result_refuted : forall n, In n [1161; 1167; 1176; 1182] -> illtyped n.
Proof.
  cbn. intros n H. repeat (destruct H as [<-|H]; [first [exact ill1161|exact ill1167|exact ill1176|exact ill1182]|]). contradiction.
Qed.

(** *** C08: signed overflow undefined in the source *)
Theorem C08_reduce_refines_without_overflow :
  forall O e n e', oracle_ok O -> wt e -> reduce O e = Some (n, e') -> ~ In n special ->
  ty_of e' = ty_of e /\ wt e' /\ forall env v, eval Ub env e = Some v -> eval Wr env e' = Some v.
Proof.
  intros O e n e' OK W H N. destruct (first_in _ _ _ _ _ H) as (r & I & K).
  destruct (in_dec Z.eq_dec n needsUB) as [U|U].
  - pose proof rules_ub as F. rewrite Forall_forall in F. exact (F _ I U O e e' OK W K).
  - destruct (C07_reduce_preserves_value O e n e' OK W H U N) as (T & W' & E). split; [auto|split; [auto|]].
    intros env v HV. apply E. apply eval_UW. assumption.
Qed.
(** one rewrite at any depth *)
Theorem C08_rewrite_anywhere :
  forall O e e', oracle_ok O -> wt e -> step (fun n => ~ In n special) O e e' ->
  ty_of e' = ty_of e /\ wt e' /\ forall env v, eval Ub env e = Some v -> eval Wr env e' = Some v.
Proof.
  intros O e e' OK W S. apply (step_refines Ub (fun n => ~ In n special) O e e'); auto.
  intros O' a n a' OK' W' H N. exact (C08_reduce_refines_without_overflow O' a n a' OK' W' H N).
Qed.
(** :181 a / c1 / c2 -> a / (c1*c2) on at most 32 bits when the product fits (no constant result) *)
Theorem C08_rule181_partial : forall O e e', oracle_ok O -> wt e -> reduce O e = Some (181, e') ->
  (forall t k, e' <> Cst t k) -> bits (ty_of e') <= 32 -> refines Ub e e'.
Proof. intros O e e' OK W H N B. uniq H. eapply ok181; eauto. destruct e'; auto; exfalso; eapply N; eauto. Qed.
(** :443 -x cmp c -> -c cmp x when -c is representable *)
Theorem C08_rule443_partial : forall O e e', oracle_ok O -> wt e -> reduce O e = Some (443, e') ->
  (forall c t k x, e' = Cmp c (Cst t k) x -> wrap t k <> hf t) -> refines Ub e e'.
Proof. intros O e e' OK W H N. uniq H. eapply ok443; eauto. Qed.
Theorem C08_value_changed_refuted : forall n, In n special -> n <> 646 -> ~ In n [1161; 1167; 1176; 1182] -> breaks Ub n.
Proof.
  cbn. intros n H N1 N2.
  repeat (destruct H as [<-|H]; [first [exact bad181|exact bad443|exact bad460|exact bad509|exact bad736|exact bad749
    |exact bad1051|exact bad1194|exact bad1269|exfalso; lia]|]). contradiction.
Qed.
(** Composition: a wrapping rule may introduce an overflow that a second rule then assumes away.  The
    source never overflows for x = -1, and two rewrites, each right on its own, change its value. *)
Definition chain0 : expr := Bin OSDiv (Bin OMul (Un ONeg (Var I32 0)) (Cst I32 INT_MIN)) (Cst I32 INT_MIN).
Theorem C08_composition_refuted :
  exists e1 e2 env v, step (fun n => n = 990) stdO chain0 e1 /\ step (fun n => n = 922) stdO e1 e2 /\
    eval Ub env chain0 = Some v /\ eval Wr env e2 <> Some v.
Proof.
  eexists _, _, (at1 (-1)), _. split; [apply step_bin1; eapply step_here; [reflexivity|reflexivity]|].
  split; [eapply step_here; [reflexivity|reflexivity]|]. split; [reflexivity|discriminate].
Qed.
