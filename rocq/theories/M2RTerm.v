(** ScalarMem2Reg ends where every block can be reached (proofs, C48). *)
From Coq Require Import ZArith Lia Bool List Arith.
From Verif Require Import Sim Ssa SsaCfg SsaMerge SsaFwd SsaWf SsaDom SsaSub SsaEq SsaPhi SsaCse LdSt M2R M2RVal M2RSyn M2RAlg.
Import ListNotations.

Section Term.
Variable pk : nat -> pkind.
Variable pr : nat -> list nat.
Variable same : opnd -> opnd -> bool.
Variable deep : nat.
Variable f : func.
Hypothesis Hpr : forall b p, In p (pr b) <-> exists pb, get p f = Some pb /\ In b (succs (trm pb)).
Notation e := (entry f).
Notation blocks := (map fst f).

(** how far one has to go back over single predecessors *)
Inductive chain : nat -> nat -> Prop :=
| ch_stop b : b = e \/ (forall p, pr b <> [p]) -> chain 0 b
| ch_back k b p : pr b = [p] -> chain k p -> chain (S k) b.
Lemma path_chain b l : path f b l -> exists k, chain k b.
Proof using Hpr.
  intros P. induction P as [|b l bk c P IH G I].
  - exists 0. constructor. now left.
  - destruct IH as [k C]. assert (Ip : In b (pr c)) by (apply Hpr; eauto). destruct (pr c) as [|p [|p' ps]] eqn:E.
    + destruct Ip.
    + destruct Ip as [<-|[]]. exists (S k). econstructor; eauto.
    + exists 0. constructor. right. rewrite E. discriminate.
Qed.
Lemma chains : (forall b, In b blocks -> reach f b) -> exists D, forall b, In b blocks -> exists k, k <= D /\ chain k b.
Proof using Hpr.
  intros R. assert (H : forall b, In b blocks -> exists k, chain k b). { intros b I. destruct (R b I) as [l P]. eapply path_chain; eauto. }
  clear R. induction blocks as [|b l IH]; [exists 0; intros b []|]. destruct IH as [D HD]; [intros c I; apply H; now right|]. destruct (H b (or_introl eq_refl)) as [k C].
  exists (Nat.max D k). intros c [<-|I]; [exists k; split; auto; lia|]. destruct (HD c I) as (k' & L & C'). exists k'. split; auto. lia.
Qed.

(** the blocks in which a variable has no value yet *)
Definition undef (v : nat) (s : mst) : nat := length (filter (fun c => match findDef v c (defs s) with Some _ => false | None => true end) blocks).
Definition grows (s s' : mst) : Prop := forall u c, findDef u c (defs s) <> None -> findDef u c (defs s') <> None.
Lemma undef_grows v s s' : grows s s' -> undef v s' <= undef v s.
Proof using.
  intros G. unfold undef. induction blocks as [|b l IH]; cbn; auto. specialize (G v b). destruct (findDef v b (defs s)), (findDef v b (defs s')); cbn; try lia. exfalso. now apply G.
Qed.
Lemma undef_def v b o s : In b blocks -> findDef v b (defs s) = None -> undef v (defVar v b o s) < undef v s.
Proof using.
  intros I E. unfold undef. revert I. induction blocks as [|c l IH]; [contradiction|]. intros [->|I]; cbn [filter].
  - cbn [defs defVar]. rewrite findDef_cons, !Nat.eqb_refl, E. cbn [andb length]. apply Nat.lt_succ_r. apply (fun H => H). clear IH. induction l as [|c l IH]; cbn [filter length]; auto.
    rewrite findDef_cons. destruct (Nat.eqb v v && Nat.eqb b c); destruct (findDef v c (defs s)); cbn [length]; lia.
  - specialize (IH I). cbn [defs defVar] in *. rewrite (findDef_cons v b o v c). destruct (Nat.eqb v v && Nat.eqb b c); destruct (findDef v c (defs s)); cbn [length]; lia.
Qed.
Lemma undef_le v s : undef v s <= length f.
Proof using. unfold undef. rewrite <- (map_length fst f). induction blocks as [|c l IH]; cbn; auto. destruct (findDef v c (defs s)); cbn; lia. Qed.
Lemma grows_refl s : grows s s. Proof using. intros u c H. exact H. Qed.
Lemma grows_trans a b c : grows a b -> grows b c -> grows a c. Proof using. intros A B u d H. auto. Qed.
Lemma grows_def v b o s : grows s (defVar v b o s).
Proof using. intros u c N. cbn. rewrite findDef_cons. destruct (Nat.eqb v u && Nat.eqb b c); [discriminate|auto]. Qed.
Lemma fill_grows uv x ps : (forall b s s' o, uv b s = Some (s', o) -> grows s s') -> forall s s', fill uv x ps s = Some s' -> grows s s'.
Proof using.
  intros H. induction ps as [|p ps IH]; intros s s' E; cbn in E; [injection E as <-; apply grows_refl|]. destruct (uv p s) as [[s1 o]|] eqn:E1; [|discriminate].
  apply H in E1. apply IH in E. eapply grows_trans; [exact E1|exact E].
Qed.
Lemma useVar_grows n v : forall b s s' o, useVar same pr deep n e v b s = Some (s', o) -> grows s s'.
Proof using.
  induction n as [|n IH]; intros b s s' o E; [discriminate|]. cbn [useVar] in E. destruct (findDef v b (defs s)) as [o0|]; [injection E as <- <-; apply grows_refl|].
  destruct (Nat.eqb b e); [injection E as <- <-; apply grows_refl|]. destruct (negb (existsb (Nat.eqb b) (seal s))); [injection E as <- <-; apply (grows_def v b (ORes (nxt s)) s)|].
  assert (Multi : match fill (useVar same pr deep n e v) (nxt s) (pr b) (defVar v b (ORes (nxt s)) (newPhi b s)) with
        | Some s2 => let r := tryRemove same deep (nxt s) (fn s2) in Some (defVar v b (snd r) (setFn (fst r) s2), snd r)
        | None => None end = Some (s', o) -> grows s s').
  { clear E. intros E. destruct (fill _ _ _ _) as [s2|] eqn:Ef; [|discriminate]. cbn zeta in E. injection E as <- _. apply fill_grows in Ef; [|exact IH].
    eapply grows_trans; [apply (grows_def v b (ORes (nxt s)) s)|]. eapply grows_trans; [exact Ef|]. exact (grows_def v b (snd (tryRemove same deep (nxt s) (fn s2))) s2). }
  destruct (pr b) as [|p [|p' ps]]; auto. destruct (useVar same pr deep n e v p s) as [[s1 o1]|] eqn:Eu; [|discriminate]. injection E as <- <-.
  eapply grows_trans; [eapply IH; eauto|]. apply grows_def.
Qed.
Variable D : nat.
Hypothesis HD : forall b, In b blocks -> exists k, k <= D /\ chain k b.
Lemma pred_block b p : In p (pr b) -> In p blocks.
Proof using Hpr. intros I. apply Hpr in I as (pb & G & _). apply in_map_iff. exists (p, pb). split; auto. now apply get_In. Qed.
Lemma fill_some uv x v N : (forall p s, In p blocks -> undef v s <= N -> exists s' o, uv p s = Some (s', o)) -> (forall b s s' o, uv b s = Some (s', o) -> grows s s') ->
  forall ps s, (forall p, In p ps -> In p blocks) -> undef v s <= N -> exists s', fill uv x ps s = Some s'.
Proof using.
  intros H G. induction ps as [|p ps IH]; intros s I L; [exists s; reflexivity|]. cbn. destruct (H p s (I p (or_introl eq_refl)) L) as (s1 & o & E). rewrite E.
  apply IH; [intros q J; apply I; now right|]. pose proof (undef_grows v s s1 (G p s s1 o E)). cbn. unfold undef in *. cbn. lia.
Qed.
Lemma useVar_some n v : forall b s k, In b blocks -> chain k b -> k <= D -> undef v s * S D + k < n -> exists s' o, useVar same pr deep n e v b s = Some (s', o).
Proof using Hpr HD.
  induction n as [|n IH]; intros b s k Ib C L M; [lia|]. cbn [useVar]. destruct (findDef v b (defs s)) as [o0|] eqn:Ed; [eauto|]. destruct (Nat.eqb_spec b e) as [|Ne]; [eauto|].
  destruct (negb (existsb (Nat.eqb b) (seal s))); [eauto|].
  assert (Multi : exists s' o, match fill (useVar same pr deep n e v) (nxt s) (pr b) (defVar v b (ORes (nxt s)) (newPhi b s)) with
        | Some s2 => let r := tryRemove same deep (nxt s) (fn s2) in Some (defVar v b (snd r) (setFn (fst r) s2), snd r)
        | None => None end = Some (s', o)).
  { pose proof (undef_def v b (ORes (nxt s)) s Ib Ed) as U.
    destruct (fill_some (useVar same pr deep n e v) (nxt s) v (undef v s - 1)) with (ps := pr b) (s := defVar v b (ORes (nxt s)) (newPhi b s)) as [s2 E2].
    - intros p s1 Ip U1. destruct (HD p Ip) as (k' & L' & C'). apply (IH p s1 k'); auto. nia.
    - intros b' s1 s1' o'. apply useVar_grows.
    - apply pred_block.
    - unfold undef in *. cbn in *. lia.
    - rewrite E2. cbn zeta. eauto. }
  destruct (pr b) as [|p [|p' ps]] eqn:Ep; auto. inversion C as [b0 [E0|N0]|k' b0 p0 E0 C']; subst; [contradiction|exfalso; exact (N0 p Ep)|].
  assert (p0 = p) by congruence. subst p0. destruct (IH p s k') as (s1 & o1 & E1); auto; [|lia|lia|rewrite E1; eauto].
  apply (pred_block b). rewrite Ep. now left.
Qed.
Variable fuel : nat.
Hypothesis HF : length f * S D + D < fuel.
Lemma use_some v b s : In b blocks -> exists s' o, useVar same pr deep fuel e v b s = Some (s', o).
Proof using Hpr HD HF. intros I. destruct (HD b I) as (k & L & C). apply (useVar_some fuel v b s k); auto. pose proof (undef_le v s). nia. Qed.
Lemma fillAll_some b l : forall s, exists s', fillAll same pr deep fuel e b l s = Some s'.
Proof using Hpr HD HF.
  induction l as [|[v x] l IH]; intros s; [exists s; reflexivity|]. cbn.
  destruct (fill_some (useVar same pr deep fuel e v) x v (length f)) with (ps := pr b) (s := s) as [s1 E1].
  - intros p s1 Ip _. now apply use_some.
  - intros b' s1 s' o. apply useVar_grows.
  - apply pred_block.
  - apply undef_le.
  - rewrite E1. apply IH.
Qed.
Lemma trySeals_some done l : forall s, exists s', fold_left (trySeal same pr deep fuel e done) l (Some s) = Some s'.
Proof using Hpr HD HF.
  induction l as [|b l IH]; intros s; [exists s; reflexivity|]. cbn [fold_left trySeal]. destruct (forallb _ (pr b) && negb _); [|apply IH]. unfold sealBlock.
  destruct (fillAll_some b (todoOf b s) s) as [s1 E1]. rewrite E1. apply IH.
Qed.
Variable vars : list nat.
Lemma visitInsts_some b l : In b blocks -> forall s, exists s', fold_left (visitInst pk same pr deep fuel vars e b) l (Some s) = Some s'.
Proof using Hpr HD HF.
  intros Ib. induction l as [|k l IH]; intros s; [exists s; reflexivity|]. cbn [fold_left]. assert (E : exists s1, visitInst pk same pr deep fuel vars e b (Some s) k = Some s1).
  { unfold visitInst. destruct (get b (fn s)) as [bk|]; [|eauto]. destruct (nth_error (body bk) k) as [i|]; [|eauto].
    destruct (pk (opc i)); eauto; destruct (ops i) as [|[| |v] r]; eauto.
    - destruct (isVar vars v); [|eauto]. destruct (use_some v b s Ib) as (s1 & o & E1). rewrite E1. eauto.
    - destruct r; [eauto|]. destruct (isVar vars v); eauto. }
  destruct E as [s1 E]. rewrite E. apply IH.
Qed.
Theorem visits_some order : (forall b, In b order -> In b blocks) -> forall done s, exists s', snd (fold_left (visit pk same pr deep fuel vars e) order (done, Some s)) = Some s'.
Proof using Hpr HD HF.
  induction order as [|b l IH]; intros I done s; [exists s; reflexivity|]. cbn [fold_left visit].
  destruct (visitInsts_some b (seq 0 (bodyLen (fn s) b)) (I b (or_introl eq_refl)) s) as [s1 E1]. rewrite E1.
  destruct (trySeals_some done [b] s1) as [s2 E2]. cbn [fold_left] in E2. rewrite E2.
  destruct (trySeals_some (b :: done) (succsOf (fn s) b) s2) as [s3 E3]. rewrite E3. apply IH. intros c J. apply I. now right.
Qed.
End Term.

(** ** a larger bound does not change the result *)
Section Mono.
Variable pk : nat -> pkind.
Variable pr : nat -> list nat.
Variable same : opnd -> opnd -> bool.
Variable deep e : nat.
Lemma fill_mono (uv uv' : nat -> mst -> option (mst * opnd)) x ps : (forall p s r, uv p s = Some r -> uv' p s = Some r) -> forall s s', fill uv x ps s = Some s' -> fill uv' x ps s = Some s'.
Proof using.
  intros H. induction ps as [|p ps IH]; intros s s' E; cbn in *; auto. destruct (uv p s) as [[s1 o]|] eqn:E1; [|discriminate]. rewrite (H p s _ E1). auto.
Qed.
Lemma useVar_mono v n : forall n' b s r, n <= n' -> useVar same pr deep n e v b s = Some r -> useVar same pr deep n' e v b s = Some r.
Proof using.
  induction n as [|n IH]; intros n' b s r L E; [discriminate|]. destruct n' as [|n']; [lia|]. cbn [useVar] in *. destruct (findDef v b (defs s)); auto. destruct (Nat.eqb b e); auto.
  destruct (negb (existsb (Nat.eqb b) (seal s))); auto.
  assert (Multi : forall ps, match fill (useVar same pr deep n e v) (nxt s) ps (defVar v b (ORes (nxt s)) (newPhi b s)) with
        | Some s2 => let r := tryRemove same deep (nxt s) (fn s2) in Some (defVar v b (snd r) (setFn (fst r) s2), snd r)
        | None => None end = Some r -> match fill (useVar same pr deep n' e v) (nxt s) ps (defVar v b (ORes (nxt s)) (newPhi b s)) with
        | Some s2 => let r := tryRemove same deep (nxt s) (fn s2) in Some (defVar v b (snd r) (setFn (fst r) s2), snd r)
        | None => None end = Some r).
  { clear E. intros ps E. destruct (fill (useVar same pr deep n e v) _ _ _) as [s2|] eqn:Ef; [|discriminate].
    apply (fill_mono _ (useVar same pr deep n' e v)) in Ef; [now rewrite Ef|]. intros p s1 r1. apply IH. lia. }
  destruct (pr b) as [|p [|p' ps]]; auto. destruct (useVar same pr deep n e v p s) as [[s1 o1]|] eqn:Eu; [|discriminate]. rewrite (IH n' p s _ ltac:(lia) Eu). exact E.
Qed.
Variable n n' : nat.
Hypothesis L : n <= n'.
Lemma fillAll_mono b l : forall s s', fillAll same pr deep n e b l s = Some s' -> fillAll same pr deep n' e b l s = Some s'.
Proof using L.
  induction l as [|[v x] l IH]; intros s s' E; cbn in *; auto. destruct (fill (useVar same pr deep n e v) x (pr b) s) as [s1|] eqn:Ef; [|discriminate].
  apply (fill_mono _ (useVar same pr deep n' e v)) in Ef; [rewrite Ef; auto|]. intros p s2 r2. now apply useVar_mono.
Qed.
Lemma trySeal_mono done s b s' : trySeal same pr deep n e done (Some s) b = Some s' -> trySeal same pr deep n' e done (Some s) b = Some s'.
Proof using L.
  cbn [trySeal]. destruct (forallb _ (pr b) && negb _); auto. unfold sealBlock. destruct (fillAll same pr deep n e b (todoOf b s) s) as [s1|] eqn:E; [|discriminate]. now rewrite (fillAll_mono b _ _ _ E).
Qed.
Lemma fold_mono {A} (F F' : option mst -> A -> option mst) : (forall a, F None a = None) -> (forall s a s', F (Some s) a = Some s' -> F' (Some s) a = Some s') ->
  forall l s s', fold_left F l (Some s) = Some s' -> fold_left F' l (Some s) = Some s'.
Proof using.
  intros N H. induction l as [|a l IH]; intros s s' E; cbn in *; auto. destruct (F (Some s) a) as [s1|] eqn:E1.
  - rewrite (H s a s1 E1). auto.
  - exfalso. clear -E N. induction l as [|b l IH]; cbn in E; [discriminate|]. rewrite N in E. auto.
Qed.
Variable vars : list nat.
Lemma visitInst_mono b s k s' : visitInst pk same pr deep n vars e b (Some s) k = Some s' -> visitInst pk same pr deep n' vars e b (Some s) k = Some s'.
Proof using L.
  unfold visitInst. destruct (get b (fn s)) as [bk|]; auto. destruct (nth_error (body bk) k) as [i|]; auto. destruct (pk (opc i)); auto. destruct (ops i) as [|[| |v] r]; auto.
  destruct (isVar vars v); auto. destruct (useVar same pr deep n e v b s) as [[s1 o]|] eqn:Eu; [|discriminate]. now rewrite (useVar_mono v n n' b s _ L Eu).
Qed.
Lemma visits_mono l : forall done s s', snd (fold_left (visit pk same pr deep n vars e) l (done, Some s)) = Some s' -> snd (fold_left (visit pk same pr deep n' vars e) l (done, Some s)) = Some s'.
Proof using L.
  induction l as [|b l IH]; intros done s s' E; auto. cbn [fold_left visit] in *.
  assert (None' : forall l d, snd (fold_left (visit pk same pr deep n vars e) l (d, None)) = None) by (clear; induction l; cbn; auto).
  destruct (fold_left (visitInst pk same pr deep n vars e b) (seq 0 (bodyLen (fn s) b)) (Some s)) as [s1|] eqn:E1.
  - apply (fold_mono _ (visitInst pk same pr deep n' vars e b)) in E1; [|reflexivity|intros; now apply visitInst_mono]. rewrite E1.
    destruct (trySeal same pr deep n e done (Some s1) b) as [s2|] eqn:E2.
    + apply trySeal_mono in E2. rewrite E2. destruct (fold_left (trySeal same pr deep n e (b :: done)) (succsOf (fn s) b) (Some s2)) as [s3|] eqn:E3; [|rewrite None' in E; discriminate].
      apply (fold_mono _ (trySeal same pr deep n' e (b :: done))) in E3; [|reflexivity|intros; now apply trySeal_mono]. rewrite E3. auto.
    + exfalso. replace (fold_left (trySeal same pr deep n e (b :: done)) (succsOf (fn s) b) None) with (@None mst) in E by (clear; induction (succsOf (fn s) b); auto). rewrite None' in E. discriminate.
  - exfalso. cbn [trySeal] in E. replace (fold_left (trySeal same pr deep n e (b :: done)) (succsOf (fn s) b) None) with (@None mst) in E by (clear; induction (succsOf (fn s) b); auto). rewrite None' in E. discriminate.
Qed.
End Mono.
