(** The values of promoted variables: what ScalarMem2Reg arrives at, and where these values are available (proofs, C48). *)
From Coq Require Import ZArith Lia Bool List Arith.
From Verif Require Import Sim Ssa SsaCfg SsaMerge SsaFwd SsaWf SsaDom SsaSub SsaEq SsaPhi SsaCse LdSt M2R.
Import ListNotations.

(** ** names that have been replaced *)
Inductive fwd (Q : list (nat * opnd)) : opnd -> opnd -> Prop :=
| fwd_refl o : fwd Q o o
| fwd_step x c o : In (x, c) Q -> fwd Q c o -> fwd Q (ORes x) o.
Lemma fwd_mono Q Q' o o' : incl Q Q' -> fwd Q o o' -> fwd Q' o o'.
Proof. intros H. induction 1; [constructor|]. econstructor; eauto. Qed.
Lemma fwd_trans Q a b c : fwd Q a b -> fwd Q b c -> fwd Q a c.
Proof. induction 1; auto. intros K. econstructor; eauto. Qed.
Lemma fwd_cst Q v o : fwd Q (OCst v) o -> o = OCst v.
Proof. inversion 1; auto. Qed.

(** ** the new phis, with the operands they were given *)
Record gphi := G { gname : nat; gblk : nat; gvar : nat; ginc : list (nat * opnd) }.
Definition gph (g : gphi) : phi := Phi (gname g) (ginc g).
Definition gAt (Gs : list gphi) (b : nat) : list gphi := filter (fun g => Nat.eqb (gblk g) b) Gs.
Definition ghost (Gs : list gphi) (f : func) : func :=
  map (fun y => (fst y, Block (map gph (gAt Gs (fst y)) ++ phis (snd y)) (body (snd y)) (trm (snd y)))) f.
Lemma get_ghost Gs f b : get b (ghost Gs f) = option_map (fun bk => Block (map gph (gAt Gs b) ++ phis bk) (body bk) (trm bk)) (get b f).
Proof. apply (get_mapk (fun k bk => Block (map gph (gAt Gs k) ++ phis bk) (body bk) (trm bk))). Qed.
Lemma entry_ghost Gs f : entry (ghost Gs f) = entry f.
Proof. destruct f as [|[b bk] f]; reflexivity. Qed.
Lemma fst_ghost Gs f : map fst (ghost Gs f) = map fst f.
Proof. unfold ghost. rewrite map_map. reflexivity. Qed.
Lemma path_ghost Gs f b l : path (ghost Gs f) b l <-> path f b l.
Proof.
  split; intros H.
  - remember (ghost Gs f) as h eqn:Eh. induction H as [|b l bk t H IH Hb Ht]; subst.
    + rewrite entry_ghost. constructor.
    + rewrite get_ghost in Hb. destruct (get b f) as [bk0|] eqn:E; [|discriminate]. injection Hb as <-. econstructor; eauto.
  - induction H as [|b l bk t H IH Hb Ht].
    + rewrite <- (entry_ghost Gs f). constructor.
    + refine (path_next _ b l _ t IH _ _); [rewrite get_ghost, Hb; reflexivity|exact Ht].
Qed.
Lemma reach_ghost Gs f b : reach (ghost Gs f) b <-> reach f b.
Proof. split; intros [l H]; exists l; now apply (path_ghost Gs f). Qed.
Lemma dominates_ghost Gs f a b : dominates (ghost Gs f) a b <-> dominates f a b.
Proof. split; intros H l Hl; apply H; now apply (path_ghost Gs f). Qed.
Lemma defIn_ghost Gs f x d : defIn f x d -> defIn (ghost Gs f) x d.
Proof.
  intros (bk & G & I). eexists. rewrite get_ghost, G. split; [reflexivity|]. unfold resultsOf in *. cbn. rewrite map_app, <- app_assoc. apply in_or_app. now right.
Qed.

Section Sol.
Variable pk : nat -> pkind.
Variable pr : nat -> list nat.
Variable vars : list nat.
Variable f : func.
(** the store to the variable [v] *)
Definition storeTo (v : nat) (i : inst) : option opnd :=
  match pk (opc i), ops i with PkStore _, ORes u :: o :: _ => if Nat.eqb u v then Some o else None | _, _ => None end.
Definition lastStore (v : nat) (pre : list inst) : option opnd :=
  fold_left (fun a i => match storeTo v i with Some o => Some o | None => a end) pre None.
Lemma lastStore_snoc v pre i : lastStore v (pre ++ [i]) = match storeTo v i with Some o => Some o | None => lastStore v pre end.
Proof. unfold lastStore. rewrite fold_left_app. reflexivity. Qed.
Lemma lastStore_in v pre s : lastStore v pre = Some s -> exists p0 i q0, pre = p0 ++ i :: q0 /\ storeTo v i = Some s.
Proof.
  induction pre as [|i pre IH] using rev_ind; [discriminate|]. rewrite lastStore_snoc. destruct (storeTo v i) as [o|] eqn:E; intros H.
  - injection H as ->. exists pre, i, []. auto.
  - destruct (IH H) as (p0 & j & q0 & -> & K). exists p0, j, (q0 ++ [i]). now rewrite <- app_assoc.
Qed.
Section Vals.
Variable Gs : list gphi.
Variable Q : list (nat * opnd).
(** the value of [v] at the beginning of a block, and after some instructions *)
Inductive entryVal (v : nat) : nat -> opnd -> Prop :=
| ev_entry : entryVal v (entry f) (OCst VUndef)
| ev_phi g : In g Gs -> gvar g = v -> entryVal v (gblk g) (ORes (gname g))
| ev_single b p bp s o : pr b = [p] -> get p f = Some bp -> lastStore v (body bp) = Some s -> fwd Q s o -> entryVal v b o
| ev_thru b p bp o : pr b = [p] -> get p f = Some bp -> lastStore v (body bp) = None -> entryVal v p o -> entryVal v b o
| ev_fwd b o o' : entryVal v b o -> fwd Q o o' -> entryVal v b o'.
Definition prefVal (v b : nat) (pre : list inst) (o : opnd) : Prop :=
  match lastStore v pre with Some s => fwd Q s o | None => entryVal v b o end.
Lemma prefVal_fwd v b pre o o' : prefVal v b pre o -> fwd Q o o' -> prefVal v b pre o'.
Proof. unfold prefVal. destruct (lastStore v pre); [apply fwd_trans|apply ev_fwd]. Qed.
Definition loadJust (x : nat) (c : opnd) : Prop :=
  exists b bk pre i post v t r, get b f = Some bk /\ body bk = pre ++ i :: post /\ dst i = x /\ pk (opc i) = PkLoad t /\ ops i = ORes v :: r /\ In v vars /\ prefVal v b pre c.
Definition phiJust (x : nat) (c : opnd) : Prop :=
  exists b bk ph, get b (ghost Gs f) = Some bk /\ In ph (phis bk) /\ pdst ph = x /\
    forall p o, In (p, o) (inc ph) -> fwd Q o (ORes x) \/ fwd Q o c.
(** what the pass arrives at *)
Definition solved : Prop :=
  NoDup (map gname Gs) /\
  (forall g, In g Gs -> freshName f <= gname g /\ gblk g <> entry f /\ In (gblk g) (map fst f) /\ In (gvar g) vars /\
     (forall p, In p (pr (gblk g)) -> get p (ginc g) <> None) /\
     (forall p o, In (p, o) (ginc g) -> In p (pr (gblk g)) /\ exists bp, get p f = Some bp /\ prefVal (gvar g) p (body bp) o)) /\
  (forall x c, In (x, c) Q -> loadJust x c \/ phiJust x c).
End Vals.
Lemma entryVal_mono Gs Q Gs' Q' v b o : (forall g, In g Gs -> exists g', In g' Gs' /\ gname g' = gname g /\ gblk g' = gblk g /\ gvar g' = gvar g) -> incl Q Q' ->
  entryVal Gs Q v b o -> entryVal Gs' Q' v b o.
Proof.
  intros HG HQ. induction 1 as [|g Hg Hv|b p bp s o A B C D|b p bp o A B C D IH|b o o' A IH B].
  - constructor.
  - destruct (HG g Hg) as (g' & I & <- & <- & E). constructor; auto. now rewrite E.
  - eapply ev_single; eauto. eapply fwd_mono; eauto.
  - eapply ev_thru; eauto.
  - eapply ev_fwd; eauto. eapply fwd_mono; eauto.
Qed.
Lemma prefVal_mono Gs Q Gs' Q' v b pre o : (forall g, In g Gs -> exists g', In g' Gs' /\ gname g' = gname g /\ gblk g' = gblk g /\ gvar g' = gvar g) -> incl Q Q' ->
  prefVal Gs Q v b pre o -> prefVal Gs' Q' v b pre o.
Proof. intros HG HQ. unfold prefVal. destruct (lastStore v pre); [now apply fwd_mono|now apply entryVal_mono]. Qed.
End Sol.

(** ** the function with the new phis is well-formed, and values are available *)
Section Static.
Variable pk : nat -> pkind.
Variable pr : nat -> list nat.
Variable vars : list nat.
Variable f : func.
Hypothesis Hw : wfs f.
Hypothesis Hpr : forall b p, In p (pr b) <-> exists pb, get p f = Some pb /\ In b (succs (trm pb)).
Hypothesis Hentry : pr (entry f) = [].
Variable Gs : list gphi.
Variable Q : list (nat * opnd).
Hypothesis Sol : solved pk pr vars f Gs Q.
Notation h := (ghost Gs f).
Notation entryVal := (entryVal pk pr f Gs Q).
Notation prefVal := (prefVal pk pr f Gs Q).

Lemma fresh_all x : In x (allResults f ++ flat_map res_of (operands f)) -> x < freshName f.
Proof using.
  unfold freshName. set (L := allResults f ++ flat_map res_of (operands f)). intros H. enough (x <= list_max L) by lia.
  pose proof (proj1 (list_max_le L (list_max L)) ltac:(lia)) as K. rewrite Forall_forall in K. auto.
Qed.
Lemma fresh_ge x : In x (allResults f) -> x < freshName f.
Proof using. intros H. apply fresh_all. apply in_or_app. now left. Qed.
Lemma result_in b bk x : get b f = Some bk -> In x (resultsOf bk) -> In x (allResults f).
Proof using. intros H I. apply in_flat_map. exists (b, bk). split; auto. now apply get_In. Qed.
Lemma gAt_in g b : In g (gAt Gs b) <-> In g Gs /\ gblk g = b.
Proof using. unfold gAt. rewrite filter_In, Nat.eqb_eq. reflexivity. Qed.
Lemma ghost_results b bk : get b f = Some bk -> resultsOf (Block (map gph (gAt Gs b) ++ phis bk) (body bk) (trm bk)) = map gname (gAt Gs b) ++ resultsOf bk.
Proof using. intros _. unfold resultsOf. cbn. rewrite map_app, map_map, <- app_assoc. reflexivity. Qed.
Lemma gnames_NoDup b : NoDup (map gname (gAt Gs b)).
Proof using Sol.
  destruct Sol as (N & _). clear -N. induction Gs as [|g l IH]; [constructor|]. cbn in *. inversion N as [|? ? N1 N2]; subst.
  destruct (Nat.eqb (gblk g) b); auto. cbn. constructor; auto. intros I. apply N1. apply in_map_iff in I as (g' & E & I). apply in_map_iff.
  exists g'. split; auto. unfold gAt in I. now apply filter_In in I.
Qed.
Lemma gname_unique g g' : In g Gs -> In g' Gs -> gname g = gname g' -> g = g'.
Proof using Sol.
  destruct Sol as (N & _). clear -N. induction Gs as [|a l IH]; [contradiction|]. cbn in *. inversion N as [|? ? N1 N2]; subst.
  intros [->|H] [->|H'] E; auto; exfalso; apply N1; [rewrite E|rewrite <- E]; now apply in_map.
Qed.
Lemma ghost_unique : uniqueDefs h.
Proof using Hw Sol.
  assert (Hwf : wf f) by apply Hw. destruct (wf_uniqR f Hwf) as [R1 R2].
  assert (Nf : NoDup (map fst h)) by (rewrite fst_ghost; now apply wf_NoDup). split; auto. apply uniqR_iff; auto. split.
  - intros k bk' Gk. rewrite get_ghost in Gk. destruct (get k f) as [bk|] eqn:E; [|discriminate]. cbn in Gk. injection Gk as <-. rewrite (ghost_results k bk E).
    apply NoDup_app_i; [apply gnames_NoDup|eauto|]. intros x I J. apply in_map_iff in I as (g & <- & I). apply gAt_in in I as [I _].
    destruct Sol as (_ & S & _). destruct (S g I) as [L _]. pose proof (fresh_ge _ (result_in k bk _ E J)). lia.
  - intros k k' bk bk' x Gk Gk' I J. rewrite get_ghost in Gk, Gk'. destruct (get k f) as [b1|] eqn:E; [|discriminate]. destruct (get k' f) as [b2|] eqn:E'; [|discriminate].
    cbn in Gk, Gk'. injection Gk as <-. injection Gk' as <-. rewrite (ghost_results k b1 E) in I. rewrite (ghost_results k' b2 E') in J.
    destruct Sol as (_ & S & _). apply in_app_or in I. apply in_app_or in J.
    destruct I as [I|I], J as [J|J].
    + apply in_map_iff in I as (g & <- & I). apply in_map_iff in J as (g' & Eg & J). apply gAt_in in I as [I <-]. apply gAt_in in J as [J <-].
      now rewrite (gname_unique g g' I J (eq_sym Eg)).
    + exfalso. apply in_map_iff in I as (g & <- & I). apply gAt_in in I as [I _]. destruct (S g I) as [L _]. pose proof (fresh_ge _ (result_in k' b2 _ E' J)). lia.
    + exfalso. apply in_map_iff in J as (g & <- & J). apply gAt_in in J as [J _]. destruct (S g J) as [L _]. pose proof (fresh_ge _ (result_in k b1 _ E I)). lia.
    + eapply R2; eauto.
Qed.

Lemma ghost_entryNoPhi : entryNoPhi h.
Proof using Hw Sol.
  intros bk G. rewrite entry_ghost, get_ghost in G. destruct (get (entry f) f) as [b0|] eqn:E; [|discriminate]. injection G as <-. cbn.
  destruct Hw as (_ & _ & En). rewrite (En b0 E). rewrite app_nil_r. destruct (gAt Gs (entry f)) as [|g l] eqn:Eg; auto. exfalso.
  assert (I : In g (gAt Gs (entry f))) by (rewrite Eg; now left). apply gAt_in in I as [I K]. destruct Sol as (_ & S & _). now destruct (S g I) as (_ & N & _).
Qed.
Lemma ghost_phiAll b bk ph p pb : get b h = Some bk -> In ph (phis bk) -> get p h = Some pb -> In b (succs (trm pb)) -> get p (inc ph) <> None.
Proof using Hw Sol Hpr.
  intros Gb I Gp E. rewrite get_ghost in Gb, Gp. destruct (get b f) as [b0|] eqn:Eb; [|discriminate]. destruct (get p f) as [p0|] eqn:Ep; [|discriminate].
  injection Gb as <-. injection Gp as <-. cbn in *. apply in_app_or in I as [I|I].
  - apply in_map_iff in I as (g & <- & I). apply gAt_in in I as [I <-]. destruct Sol as (_ & S & _). destruct (S g I) as (_ & _ & _ & _ & K & _). cbn. apply K. apply Hpr. eauto.
  - destruct Hw as ((_ & _ & _ & _ & A) & _). eauto.
Qed.
Lemma ghost_phiPreds : phiPreds h.
Proof using Hw Sol Hpr.
  intros k bk ph p o G I J. rewrite get_ghost in G. destruct (get k f) as [b0|] eqn:Eb; [|discriminate]. injection G as <-. cbn in *. apply in_app_or in I as [I|I].
  - apply in_map_iff in I as (g & <- & I). apply gAt_in in I as [I <-]. destruct Sol as (_ & S & _). destruct (S g I) as (_ & _ & _ & _ & _ & K). cbn in J.
    destruct (K p o J) as [K1 _]. apply Hpr in K1 as (pb & Gp & Sp). eexists. rewrite get_ghost, Gp. split; [reflexivity|exact Sp].
  - destruct Hw as ((_ & _ & _ & A & _) & _). destruct (A k b0 ph p o Eb I J) as (pb & Gp & Sp). eexists. rewrite get_ghost, Gp. split; [reflexivity|exact Sp].
Qed.
Lemma ghost_wf : wf h.
Proof using Hw Sol Hpr.
  destruct Hw as ((N & U & C & _) & _). split; [|split; [exact ghost_unique|split; [|split; [exact ghost_phiPreds|exact ghost_phiAll]]]].
  - intros E. apply N. now apply map_eq_nil in E.
  - intros b bk t G I. rewrite fst_ghost. rewrite get_ghost in G. destruct (get b f) as [b0|] eqn:Eb; [|discriminate]. injection G as <-. exact (C b b0 t Eb I).
Qed.

(** [y] is defined on the path [l] before [b], or in [b] by a phi or in [pre] *)
Definition on (l : list nat) (y : nat) : Prop := exists d, In d l /\ defIn h y d.
Definition pa (l : list nat) (bk : block) (pre : list inst) (y : nat) : Prop := on l y \/ In y (map pdst (phis bk)) \/ In y (map dst pre).
Lemma pa_end l p bp y : get p h = Some bp -> pa l bp (body bp) y <-> on (p :: l) y.
Proof using.
  intros G. split.
  - intros [(d & I & D)|H].
    + exists d. split; [now right|auto].
    + exists p. split; [now left|]. exists bp. split; auto. unfold resultsOf. apply in_or_app. destruct H; auto.
  - intros (d & [<-|I] & D); [|left; exists d; auto]. right. destruct D as (bk & Gk & I). rewrite G in Gk. injection Gk as <-. unfold resultsOf in I. now apply in_app_or in I.
Qed.
Lemma pa_mono l bk pre pre' y : incl (map dst pre) (map dst pre') -> pa l bk pre y -> pa l bk pre' y.
Proof using. intros H [A|[A|A]]; [left|right; left|right; right]; auto. Qed.
Lemma opa_mono l bk pre pre' o : incl (map dst pre) (map dst pre') -> opAvail (pa l bk pre) o -> opAvail (pa l bk pre') o.
Proof using. intros H. destruct o; cbn; auto. now apply pa_mono. Qed.
(** where [f] has a value, the path has it *)
Lemma on_avail l b bk pre post y : path f b (b :: l) -> get b f = Some bk -> body bk = pre ++ post -> availAt f b bk pre y ->
  pa l (Block (map gph (gAt Gs b) ++ phis bk) (body bk) (trm bk)) pre y.
Proof using.
  intros Hp G E [(d & D & N & Dm)|[H|H]].
  - left. exists d. destruct (Dm _ Hp) as [K|K]; [congruence|]. split; auto. now apply defIn_ghost.
  - right. left. cbn. rewrite map_app. apply in_or_app. now right.
  - right. now right.
Qed.
Lemma on_out l p y : path f p l -> availOut f p y -> on l y.
Proof using. intros Hp (d & D & Dm). exists d. split; [now apply Dm|now apply defIn_ghost]. Qed.
Definition T3 (l : list nat) (bk : block) (pre : list inst) : Prop := forall x c, In (x, c) Q -> pa l bk pre x -> opAvail (pa l bk pre) c.
Definition T2 (l : list nat) (b : nat) (bk : block) (pre : list inst) : Prop := forall v o, prefVal v b pre o -> opAvail (pa l bk pre) o.
Lemma chain l bk pre o o' : T3 l bk pre -> fwd Q o o' -> opAvail (pa l bk pre) o -> opAvail (pa l bk pre) o'.
Proof using. intros K. induction 1; auto. intros H'. apply IHfwd. eapply K; eauto. Qed.
Lemma opa_end l p bp o : get p h = Some bp -> opAvail (pa l bp (body bp)) o <-> opAvail (on (p :: l)) o.
Proof using. intros G. destruct o; cbn; try tauto. now apply pa_end. Qed.
Lemma phi_unique b bk b' bk' ph x : get b h = Some bk -> In x (map pdst (phis bk)) -> get b' h = Some bk' -> In ph (phis bk') -> pdst ph = x -> b' = b.
Proof using Hw Sol.
  intros G I G' I' E. apply (defIn_unique h x b' b ghost_unique).
  - exists bk'. split; auto. apply in_or_app. left. rewrite <- E. now apply in_map.
  - exists bk. split; auto. apply in_or_app. now left.
Qed.
Lemma load_not_phi b bk x c : get b h = Some bk -> In x (map pdst (phis bk)) -> loadJust pk pr vars f Gs Q x c -> False.
Proof using Hw Sol.
  intros G I (b' & bk' & pre & i & post & v & t & r & G' & E & Ex & _).
  assert (D : defIn h x b'). { apply defIn_ghost. exists bk'. split; auto. apply in_or_app. right. rewrite E, map_app, <- Ex. apply in_or_app. right. now left. }
  assert (b' = b). { apply (defIn_unique h x b' b ghost_unique); auto. exists bk. split; auto. apply in_or_app. now left. }
  subst b'. pose proof G as G0. rewrite get_ghost, G' in G0. cbn in G0. injection G0 as <-. pose proof (block_NoDup h b _ ghost_unique G) as N.
  eapply (phi_body_disj _ x N I). cbn. rewrite E, map_app, <- Ex. apply in_or_app. right. now left.
Qed.
Lemma storeTo_ops v i s : storeTo pk v i = Some s -> In s (ops i).
Proof using. unfold storeTo. destruct (pk (opc i)); try discriminate. destruct (ops i) as [|[| |u] [|o r]]; try discriminate. destruct (Nat.eqb u v); [|discriminate]. intros [= <-]. right. now left. Qed.
Lemma T2_of l b bk b0 pre post : path f b (b :: l) -> get b h = Some bk -> get b f = Some b0 -> Block (map gph (gAt Gs b) ++ phis b0) (body b0) (trm b0) = bk ->
  body b0 = pre ++ post -> T3 l bk pre -> (forall v o, entryVal v b o -> opAvail (pa l bk []) o) -> T2 l b bk pre.
Proof using Hw.
  intros Hp Gb Eb Ebk E K3 B0 v o Pv. unfold M2RVal.prefVal in Pv. destruct (lastStore pk v pre) as [s|] eqn:Ls.
  - apply (chain l bk pre s o K3 Pv). destruct (lastStore_in pk v pre s Ls) as (p0 & i & q0 & Ep & Si). apply storeTo_ops in Si.
    destruct Hw as (_ & Hs & _). destruct (Hs b b0 Eb (ex_intro _ _ Hp)) as (A & _ & _). rewrite Ep, <- app_assoc in E. specialize (A p0 i (q0 ++ post) E).
    rewrite Forall_forall in A. specialize (A s Si). apply (opa_mono l bk p0 pre s).
    + intros y Y. rewrite Ep, map_app. apply in_or_app. now left.
    + destruct s; cbn in *; auto. rewrite <- Ebk. eapply on_avail; eauto.
  - apply (opa_mono l bk [] pre o); [intros y []|]. eauto.
Qed.
Theorem values_available n : forall l b bk, length l <= n -> path f b (b :: l) -> get b h = Some bk -> forall pre post, body bk = pre ++ post -> T3 l bk pre /\ T2 l b bk pre.
Proof using Hw Hpr Hentry Sol.
  induction n as [n IH] using lt_wf_ind. intros l b bk Hn Hp Gb.
  (* the end of the block before *)
  assert (Hl : l = [] /\ b = entry f \/ exists p l' bp, l = p :: l' /\ path f p l /\ get p h = Some bp /\ In b (succs (trm bp)) /\ T3 l' bp (body bp) /\ T2 l' p bp (body bp)).
  { inversion Hp as [E1|p l0 bp0 t0 Hp' Gp' Et]; subst; [left; auto|]. right. destruct (path_hd _ _ _ Hp') as [l' ->].
    assert (Gh : get p h = Some (Block (map gph (gAt Gs p) ++ phis bp0) (body bp0) (trm bp0))) by (rewrite get_ghost, Gp'; reflexivity).
    eexists p, l', _. split; [reflexivity|]. split; auto. split; [exact Gh|]. split; [exact Et|].
    eapply (IH (length l')); [cbn in Hn; lia|reflexivity|exact Hp'|exact Gh|symmetry; apply app_nil_r]. }
  pose proof Gb as Gf. rewrite get_ghost in Gf. destruct (get b f) as [b0|] eqn:Eb; [|discriminate]. cbn in Gf. injection Gf as Ebk.
  (* values from above stay *)
  assert (Ab : forall x c, In (x, c) Q -> on l x -> opAvail (on l) c).
  { intros x c I O. destruct Hl as [[-> _]|(p & l' & bp & -> & _ & Gp & _ & K3 & _)]; [destruct O as (d & [] & _)|].
    apply (opa_end l' p bp c Gp). apply (K3 x c I). now apply (pa_end l' p bp x Gp). }
  assert (Ph : forall x c, In (x, c) Q -> In x (map pdst (phis bk)) -> opAvail (on l) c).
  { intros x c I X. destruct Sol as (_ & S1 & S2). destruct (S2 x c I) as [J|J]; [exfalso; exact (load_not_phi b bk x c Gb X J)|].
    destruct J as (b' & bk' & ph & G' & Iph & Ex & Hin). assert (b' = b) by (eapply phi_unique; eauto). subst b'. rewrite Gb in G'. injection G' as <-.
    destruct Hl as [[-> Ee]|(p & l' & bp & El & Hpp & Gp & Sp & K3 & K2)].
    - exfalso. subst b. rewrite <- (entry_ghost Gs f) in Gb. pose proof (ghost_entryNoPhi bk Gb) as K. rewrite K in Iph. destruct Iph.
    - destruct (get p (inc ph)) as [o|] eqn:Eo; [|exfalso; exact (ghost_phiAll b bk ph p bp Gb Iph Gp Sp Eo)]. apply get_In in Eo.
      assert (Ho : opAvail (on l) o).
      { rewrite <- Ebk in Iph. cbn in Iph. apply in_app_or in Iph as [Iph|Iph].
        - apply in_map_iff in Iph as (g & <- & Ig). apply gAt_in in Ig as [Ig <-]. destruct (S1 g Ig) as (_ & _ & _ & _ & _ & K). destruct (K p o Eo) as (_ & bp1 & Gp1 & Pv).
          rewrite El. apply (opa_end l' p bp o Gp). apply (K2 (gvar g) o). pose proof Gp as Gp2. rewrite get_ghost, Gp1 in Gp2. cbn in Gp2. injection Gp2 as <-. exact Pv.
        - destruct Hw as (_ & Hs & _). destruct (Hs b b0 Eb (ex_intro _ _ Hp)) as (_ & _ & K). pose proof (K ph p o Iph Eo (ex_intro _ _ Hpp)) as A.
          destruct o; cbn in *; auto. eapply on_out; eauto. }
      assert (Ch : forall o', fwd Q o o' -> opAvail (on l) o').
      { intros o' F. rewrite El in Ho |- *. apply (opa_end l' p bp _ Gp). apply (chain l' bp (body bp) o o' K3 F). now apply (opa_end l' p bp o Gp). }
      destruct (Hin p o Eo) as [F|F]; [|auto]. apply (Ab x c I). exact (Ch _ F). }
  assert (B0 : forall v b1 o, entryVal v b1 o -> b1 = b -> opAvail (pa l bk []) o).
  { intros v b1 o H. induction H as [|g Ig Ev|b1 p0 bp0 s o A B C D|b1 p0 bp0 o A B C D _|b1 o o' A IHd F]; intros Eb1; try subst b1.
    - exact I.
    - right. left. rewrite <- Ebk, <- Eb1. cbn. rewrite map_app, map_map. apply in_or_app. left. apply in_map_iff. exists g. split; auto. now apply gAt_in.
    - destruct Hl as [[_ Ee]|(p & l' & bp & -> & Hpp & Gp & Sp & K3 & K2)]; [rewrite Ee, Hentry in A; discriminate|].
      assert (Ip : In p (pr b)). { apply Hpr. rewrite get_ghost in Gp. destruct (get p f) as [q|] eqn:Eq; [|discriminate]. injection Gp as <-. eauto. }
      rewrite A in Ip. destruct Ip as [<-|[]]. pose proof Gp as Gp2. rewrite get_ghost, B in Gp2. cbn in Gp2. injection Gp2 as <-.
      assert (K : opAvail (on (p0 :: l')) o). { apply (opa_end l' p0 _ o Gp). apply (K2 v). unfold M2RVal.prefVal. cbn [body]. now rewrite C. }
      destruct o; cbn in *; auto. now left.
    - destruct Hl as [[_ Ee]|(p & l' & bp & -> & Hpp & Gp & Sp & K3 & K2)]; [rewrite Ee, Hentry in A; discriminate|].
      assert (Ip : In p (pr b)). { apply Hpr. rewrite get_ghost in Gp. destruct (get p f) as [q|] eqn:Eq; [|discriminate]. injection Gp as <-. eauto. }
      rewrite A in Ip. destruct Ip as [<-|[]]. pose proof Gp as Gp2. rewrite get_ghost, B in Gp2. cbn in Gp2. injection Gp2 as <-.
      assert (K : opAvail (on (p0 :: l')) o). { apply (opa_end l' p0 _ o Gp). apply (K2 v). unfold M2RVal.prefVal. cbn [body]. now rewrite C. }
      destruct o; cbn in *; auto. now left.
    - specialize (IHd eq_refl). assert (K : T3 l bk []).
      { intros x c Ix [X|[X|[]]]; [pose proof (Ab x c Ix X) as Z|pose proof (Ph x c Ix X) as Z]; destruct c; cbn in *; auto; now left. }
      apply (chain l bk [] o o' K F). auto. }
  assert (Main : forall k pre, length pre <= k -> forall post, body bk = pre ++ post -> T3 l bk pre).
  { induction k as [|k IHk]; intros pre Hk post E x c Ix X.
    - destruct pre; [|cbn in Hk; lia]. destruct X as [X|[X|[]]]; [pose proof (Ab x c Ix X) as Z|pose proof (Ph x c Ix X) as Z]; destruct c; cbn in *; auto; now left.
    - destruct X as [X|[X|X]]; [pose proof (Ab x c Ix X) as Z; destruct c; cbn in *; auto; now left|pose proof (Ph x c Ix X) as Z; destruct c; cbn in *; auto; now left|].
      apply in_map_iff in X as (j & Ej & X). destruct Sol as (_ & _ & S2). destruct (S2 x c Ix) as [J|J].
      + destruct J as (b' & bk' & pre0 & i & post0 & v & t & r & G' & Ei & Ex & Ki & Oi & Vi & Pv).
        assert (b' = b).
        { apply (defIn_unique h x b' b ghost_unique).
          - apply defIn_ghost. exists bk'. split; auto. apply in_or_app. right. rewrite Ei, map_app, <- Ex. apply in_or_app. right. now left.
          - exists bk. split; auto. apply in_or_app. right. rewrite E, map_app, <- Ej. apply in_or_app. left. now apply in_map. }
        subst b'. rewrite Eb in G'. injection G' as <-. assert (Eb0 : body bk = body b0) by (rewrite <- Ebk; reflexivity).
        assert (Nb : NoDup (map dst (body bk))) by (pose proof (block_NoDup h b bk ghost_unique Gb) as Nb; unfold resultsOf in Nb; now apply NoDup_app_r in Nb).
        rewrite Eb0, Ei in Nb. assert (Inc : incl (map dst pre0) (map dst pre) /\ length pre0 < length pre).
        { rewrite Eb0, Ei in E. clear -E Nb X Ej Ex. revert pre E X Nb. induction pre0 as [|a pre0 IH0]; intros pre E X Nb.
          - destruct pre as [|a pre]; [destruct X|]. split; [intros y []|cbn; lia].
          - destruct pre as [|a' pre]; [destruct X|]. cbn in E. injection E as <- E. cbn in Nb. apply NoDup_cons_iff in Nb as [N1 N2].
            destruct X as [X|X].
            + exfalso. apply N1. subst a. rewrite Ej, <- Ex, map_app. apply in_or_app. right. now left.
            + destruct (IH0 pre E X N2) as [A B]. split; [|cbn; lia]. cbn. intros y [<-|Y]; [now left|right; auto]. }
        destruct Inc as [Inc Lt]. apply (opa_mono l bk pre0 pre c Inc). rewrite Eb0 in E.
        assert (K3 : T3 l bk pre0) by (apply (IHk pre0 ltac:(lia) (i :: post0)); now rewrite Eb0).
        apply (T2_of l b bk b0 pre0 (i :: post0) Hp Gb Eb Ebk Ei K3 (fun v o H => B0 v b o H eq_refl) v). exact Pv.
      + exfalso. destruct J as (b' & bk' & ph & G' & Iph & Ex & _).
        assert (b' = b).
        { apply (defIn_unique h x b' b ghost_unique).
          - exists bk'. split; auto. apply in_or_app. left. rewrite <- Ex. now apply in_map.
          - exists bk. split; auto. apply in_or_app. right. rewrite E, map_app, <- Ej. apply in_or_app. left. now apply in_map. }
        subst b'. rewrite Gb in G'. injection G' as <-. apply (phi_body_disj bk x (block_NoDup h b bk ghost_unique Gb)).
        * rewrite <- Ex. now apply in_map.
        * rewrite E, map_app, <- Ej. apply in_or_app. left. now apply in_map. }
  intros pre post E. assert (K3 : T3 l bk pre) by exact (Main (length pre) pre (Nat.le_refl _) post E). split; auto.
  assert (E' : body b0 = pre ++ post) by (rewrite <- E, <- Ebk; reflexivity).
  exact (T2_of l b bk b0 pre post Hp Gb Eb Ebk E' K3 (fun v o H => B0 v b o H eq_refl)).
Qed.

(** a block is reached for a first time *)
Lemma first_arrival b l : path f b l -> exists l1, path f b (b :: l1) /\ ~ In b l1 /\ incl l1 l.
Proof using.
  intros H. remember (length l) as n eqn:En. revert l En H. induction n as [n IH] using lt_wf_ind. intros l En H. destruct (path_hd _ _ _ H) as [l' ->].
  destruct (in_dec Nat.eq_dec b l') as [I|N]; [|exists l'; split; auto; split; auto; intros y Y; now right].
  inversion H as [E|p l0 bk t Hp G E]; subst; [destruct I|]. destruct (path_split f p l' b Hp I) as (l1 & l2 & -> & Hb & _).
  destruct (IH (length l2)) with (l := l2) as (l3 & A & B & C); auto; [cbn; rewrite app_length; lia|]. exists l3. split; auto. split; auto. intros y Y. right. apply in_or_app. auto.
Qed.
Lemma avail_paths b bk pre post y : reach f b -> get b h = Some bk -> body bk = pre ++ post -> (forall l, path f b (b :: l) -> pa l bk pre y) -> availAt h b bk pre y.
Proof using Hw Sol.
  intros [l R] G E H. destruct (first_arrival b l R) as (l1 & P1 & N1 & _). destruct (H l1 P1) as [(d & I & D)|[K|K]]; [|right; now left|right; now right].
  assert (Nd : d <> b) by (intros ->; auto).
  left. exists d. split; auto. split; auto. intros l2 P2. apply path_ghost in P2. destruct (first_arrival b l2 P2) as (l3 & P3 & N3 & I3). destruct (H l3 P3) as [(d' & I' & D')|K].
  - apply I3. now rewrite (defIn_unique h y d d' ghost_unique D D').
  - exfalso. apply Nd. apply (defIn_unique h y d b ghost_unique D). exists bk. split; auto. apply in_or_app.
    destruct K as [K|K]; auto. right. rewrite E, map_app. apply in_or_app. now left.
Qed.

Lemma oavail_paths b bk pre post o : reach f b -> get b h = Some bk -> body bk = pre ++ post -> (forall l, path f b (b :: l) -> opAvail (pa l bk pre) o) -> opAvail (availAt h b bk pre) o.
Proof using Hw Sol. intros R G E H. destruct o; cbn in *; auto. eapply avail_paths; eauto. Qed.
(** values of variables are available *)
Lemma prefVal_avail b bk pre post v o : reach f b -> get b h = Some bk -> body bk = pre ++ post -> prefVal v b pre o -> opAvail (availAt h b bk pre) o.
Proof using Hw Hpr Hentry Sol.
  intros R G E Pv. apply (oavail_paths b bk pre post o R G E). intros l Hp. destruct (values_available (length l) l b bk (Nat.le_refl _) Hp G pre post E) as [_ K]. eauto.
Qed.
Lemma phi_above x c b bk : In (x, c) Q -> reach f b -> get b h = Some bk -> In x (map pdst (phis bk)) -> opAvail (availIn h b) c.
Proof using Hw Hpr Hentry Sol.
  intros Ix R Gb X.
  assert (On : forall l, path f b (b :: l) -> opAvail (on l) c).
  { intros l Hp. destruct Sol as (_ & S1 & S2). destruct (S2 x c Ix) as [J|J]; [exfalso; exact (load_not_phi b bk x c Gb X J)|].
    destruct J as (b' & bk' & ph & G' & Iph & Ex & Hin). assert (b' = b) by (eapply phi_unique; eauto). subst b'. rewrite Gb in G'. injection G' as <-.
    pose proof Gb as Gf. rewrite get_ghost in Gf. destruct (get b f) as [b0|] eqn:Eb; [|discriminate]. cbn in Gf. injection Gf as Ebk.
    inversion Hp as [E1|p l0 bp0 t0 Hp' Gp' Et]; subst.
    - exfalso. pose proof ghost_entryNoPhi as K. unfold entryNoPhi in K. rewrite entry_ghost in K. rewrite (K _ Gb) in Iph. destruct Iph.
    - destruct (path_hd _ _ _ Hp') as [l' ->].
      assert (Gp : get p h = Some (Block (map gph (gAt Gs p) ++ phis bp0) (body bp0) (trm bp0))) by (rewrite get_ghost, Gp'; reflexivity).
      destruct (values_available (length l') l' p _ (Nat.le_refl _) Hp' Gp (body bp0) [] (eq_sym (app_nil_r _))) as [K3 K2].
      destruct (get p (inc ph)) as [o|] eqn:Eo; [|exfalso; exact (ghost_phiAll b _ ph p _ Gb Iph Gp Et Eo)]. apply get_In in Eo.
      assert (Ho : opAvail (on (p :: l')) o).
      { cbn in Iph. apply in_app_or in Iph as [Iph|Iph].
        - apply in_map_iff in Iph as (g & <- & Ig). apply gAt_in in Ig as [Ig <-]. destruct (S1 g Ig) as (_ & _ & _ & _ & _ & K). destruct (K p o Eo) as (_ & bp1 & Gp1 & Pv).
          apply (opa_end l' p _ o Gp). apply (K2 (gvar g) o). rewrite Gp' in Gp1. injection Gp1 as <-. exact Pv.
        - destruct Hw as (_ & Hs & _). destruct (Hs b b0 Eb (ex_intro _ _ Hp)) as (_ & _ & K). pose proof (K ph p o Iph Eo (ex_intro _ _ Hp')) as A.
          destruct o; cbn in *; auto. eapply on_out; eauto. }
      assert (Ch : forall o', fwd Q o o' -> opAvail (on (p :: l')) o').
      { intros o' F. apply (opa_end l' p _ _ Gp). apply (chain l' _ (body bp0) o o' K3 F). now apply (opa_end l' p _ o Gp). }
      destruct (Hin p o Eo) as [F|F]; [|auto]. apply Ch in F. apply (opa_end l' p _ c Gp). apply (K3 _ c Ix). now apply (pa_end l' p _ _ Gp). }
  destruct c as [| |y]; cbn in *; auto. destruct R as [l R]. destruct (first_arrival b l R) as (l1 & P1 & N1 & _). destruct (On l1 P1) as (d & I & D).
  exists d. split; auto. split; [intros ->; auto|]. intros l2 P2. apply path_ghost in P2. destruct (path_hd _ _ _ P2) as [l3 ->]. destruct (On l3 P2) as (d' & I' & D').
  right. now rewrite (defIn_unique h y d d' ghost_unique D D').
Qed.
Lemma load_before x c b bk pre i post : In (x, c) Q -> reach f b -> get b h = Some bk -> body bk = pre ++ i :: post -> dst i = x ->
  opAvail (availAt h b bk pre) c /\ exists t r v, pk (opc i) = PkLoad t /\ ops i = ORes v :: r /\ In v vars /\ prefVal v b pre c.
Proof using Hw Hpr Hentry Sol.
  intros Ix R Gb E Ex. assert (Db : defIn h x b). { exists bk. split; auto. apply in_or_app. right. rewrite E, map_app, <- Ex. apply in_or_app. right. now left. }
  destruct Sol as (_ & _ & S2). destruct (S2 x c Ix) as [J|J].
  - destruct J as (b' & bk' & pre0 & i' & post0 & v & t & r & G' & Ei & Ex' & Ki & Oi & Vi & Pv).
    assert (b' = b). { apply (defIn_unique h x b' b ghost_unique); auto. apply defIn_ghost. exists bk'. split; auto. apply in_or_app. right. rewrite Ei, map_app, <- Ex'. apply in_or_app. right. now left. }
    subst b'. pose proof Gb as Gf. rewrite get_ghost, G' in Gf. cbn in Gf. injection Gf as Ebk. assert (Eb0 : body bk = body bk') by (rewrite <- Ebk; reflexivity).
    assert (Nb : NoDup (map dst (body bk))) by (pose proof (block_NoDup h b bk ghost_unique Gb) as Nb; unfold resultsOf in Nb; now apply NoDup_app_r in Nb).
    assert (K : pre = pre0 /\ i = i').
    { rewrite Eb0, Ei in E. rewrite Eb0, Ei in Nb. clear -E Nb Ex Ex'. rewrite <- Ex in Ex'. clear Ex. revert pre E. induction pre0 as [|a pre0 IH]; intros [|a' pre] E; cbn in *.
      - now injection E as <- _.
      - injection E as <- E. apply NoDup_cons_iff in Nb as [N1 _]. exfalso. apply N1. rewrite Ex', E, map_app. apply in_or_app. right. now left.
      - injection E as -> E. apply NoDup_cons_iff in Nb as [N1 _]. exfalso. apply N1. rewrite <- Ex', map_app. apply in_or_app. right. now left.
      - injection E as <- E. apply NoDup_cons_iff in Nb as [_ N2]. destruct (IH N2 pre E) as [-> ->]. auto. }
    destruct K as [-> ->]. split; [|eauto 8]. eapply prefVal_avail; eauto.
  - exfalso. destruct J as (b' & bk' & ph & G' & Iph & Ex' & _).
    assert (b' = b). { apply (defIn_unique h x b' b ghost_unique); auto. exists bk'. split; auto. apply in_or_app. left. rewrite <- Ex'. now apply in_map. }
    subst b'. rewrite Gb in G'. injection G' as <-. apply (phi_body_disj bk x (block_NoDup h b bk ghost_unique Gb)).
    + rewrite <- Ex'. now apply in_map.
    + rewrite E, map_app, <- Ex. apply in_or_app. right. now left.
Qed.
Lemma Q_before x y : In (x, ORes y) Q -> before h x y.
Proof using Hw Hpr Hentry Sol.
  intros Ix d bk Gd R I. apply (proj1 (reach_ghost Gs f d)) in R. unfold resultsOf in I. apply in_app_or in I as [I|I].
  - left. exact (phi_above x (ORes y) d bk Ix R Gd I).
  - apply in_map_iff in I as (i & Ei & I). apply in_split in I as (pre & post & E). destruct (load_before x (ORes y) d bk pre i post Ix R Gd E Ei) as [[A|A] _]; [now left|].
    right. right. exists pre, i, post. auto.
Qed.
Lemma ghost_ssa : ssa h.
Proof using Hw Hpr Hentry Sol.
  intros b bk Gb R. pose proof (proj1 (reach_ghost Gs f b) R) as Rf. pose proof Gb as Gf. rewrite get_ghost in Gf. destruct (get b f) as [b0|] eqn:Eb; [|discriminate]. injection Gf as <-.
  destruct Hw as (_ & Hs & _). destruct (Hs b b0 Eb Rf) as (A & B & C).
  assert (Up : forall pre, (exists post, body b0 = pre ++ post) -> forall o, opAvail (availAt f b b0 pre) o -> opAvail (availAt h b (Block (map gph (gAt Gs b) ++ phis b0) (body b0) (trm b0)) pre) o).
  { intros pre [post E] o K. destruct o; cbn in *; auto. eapply avail_paths; eauto. intros l Hp. eapply on_avail; eauto. }
  split; [|split].
  - cbn. intros pre i post E. specialize (A pre i post E). rewrite Forall_forall in A |- *. intros o Io. apply Up; eauto.
  - cbn. rewrite Forall_forall in B |- *. intros o Io. apply Up; auto. exists []. now rewrite app_nil_r.
  - cbn. intros ph p o I J Rp. apply (proj1 (reach_ghost Gs f p)) in Rp. apply in_app_or in I as [I|I].
    + apply in_map_iff in I as (g & <- & I). apply gAt_in in I as [I _]. destruct Sol as (_ & S & _). destruct (S g I) as (_ & _ & _ & _ & _ & K). destruct (K p o J) as (_ & bp & Gp & Pv).
      assert (Gh : get p h = Some (Block (map gph (gAt Gs p) ++ phis bp) (body bp) (trm bp))) by (rewrite get_ghost, Gp; reflexivity).
      pose proof (prefVal_avail p _ (body bp) [] _ o Rp Gh (eq_sym (app_nil_r _)) Pv) as Av. destruct o; cbn in *; auto. now apply (availOut_at h p _ _ Gh).
    + pose proof (C ph p o I J Rp) as K. destruct o; cbn in *; auto. destruct K as (d & D & Dm). exists d. split; [now apply defIn_ghost|now apply dominates_ghost].
Qed.
Lemma ghost_wfs : wfs h.
Proof using Hw Hpr Hentry Sol. split; [exact ghost_wf|]. split; [exact ghost_ssa|exact ghost_entryNoPhi]. Qed.
End Static.
