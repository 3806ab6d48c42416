(** The invariant of ScalarMem2RegContext, and reading a variable (proofs, C48). *)
From Coq Require Import ZArith Lia Bool List Arith.
From Verif Require Import Sim Ssa SsaCfg SsaMerge SsaFwd SsaWf SsaDom SsaSub SsaEq SsaPhi SsaCse LdSt M2R M2RVal M2RRel M2RSyn.
Import ListNotations.

Section Alg.
Variable pk : nat -> pkind.
Variable pr : nat -> list nat.
Variable same : opnd -> opnd -> bool.
Hypothesis Hsame : forall a b, same a b = true -> a = b.
Variable deep : nat.
Variable f : func.
Variable vars : list nat.
Hypothesis Nf : NoDup (map fst f).
Hypothesis Hpr : forall b p, In p (pr b) <-> exists pb, get p f = Some pb /\ In b (succs (trm pb)).
Hypothesis Hesc : forall v, In v vars -> ~ In (ORes v) (escaping pk f).
Hypothesis Hvar : forall v, In v vars -> v < freshName f.
Notation prefVal := (prefVal pk pr f).
Notation entryVal := (entryVal pk pr f).
Notation loadJust := (loadJust pk pr vars f).
Notation phiJust := (phiJust f).
Notation e := (entry f).

Definition okv (n : nat) (o : opnd) : Prop := (forall v, In v vars -> o <> ORes v) /\ (forall y, o = ORes y -> y < n).
Lemma okv_mono n n' o : n <= n' -> okv n o -> okv n' o.
Proof using. intros L [A B]. split; auto. intros y E. specialize (B y E). lia. Qed.
Lemma okv_undef n : okv n (OCst VUndef).
Proof using. split; discriminate. Qed.
Definition prefOk (pref : nat -> list inst) : Prop := forall b, pref b <> [] -> exists bk, get b f = Some bk /\ incl (pref b) (body bk).

Record Inv (open : list nat) (pend : nat -> Prop) (pref : nat -> list inst) (s : mst) (Gs : list gphi) (Q : list (nat * opnd)) : Prop := {
  i_rel : relF (fwd Q) (ghost Gs f) (fn s);
  i_nxt : freshName f <= nxt s;
  i_nd : NoDup (map gname Gs);
  i_g : forall g, In g Gs -> freshName f <= gname g < nxt s /\ gblk g <> e /\ In (gblk g) (map fst f) /\ In (gvar g) vars /\
     forall p o, In (p, o) (ginc g) -> In p (pr (gblk g)) /\ exists bp, get p f = Some bp /\ prefVal Gs Q (gvar g) p (body bp) o;
  i_stat : forall g, In g Gs -> (pend (gname g) -> ginc g = []) /\ (~ pend (gname g) -> ~ In (gname g) open -> forall p, In p (pr (gblk g)) -> get p (ginc g) <> None);
  i_open : forall x, In x open -> x < nxt s;
  i_pend : forall x, pend x -> x < nxt s /\ ~ In x open;
  i_Q : forall x c, In (x, c) Q -> x < nxt s /\ okv (nxt s) c /\ ~ pend x /\ ~ In x open /\ (loadJust Gs Q x c \/ phiJust Gs Q x c);
  i_def : forall v b o, In v vars -> findDef v b (defs s) = Some o -> prefVal Gs Q v b (pref b) o;
  i_sto : forall v b, In v vars -> lastStore pk v (pref b) <> None -> findDef v b (defs s) <> None;
  i_seal : forall b p, In b (seal s) -> In p (pr b) -> exists bp, get p f = Some bp /\ pref p = body bp;
  i_todo : forall b v x, In (b, (v, x)) (todo s) -> In v vars /\ findDef v b (defs s) <> None /\ ~ In b (seal s) /\ exists g, In g Gs /\ gname g = x /\ gblk g = b /\ gvar g = v }.

(** ** monotonicity *)
Definition gsame (Gs Gs' : list gphi) : Prop := forall g, In g Gs -> exists g', In g' Gs' /\ gname g' = gname g /\ gblk g' = gblk g /\ gvar g' = gvar g.
Lemma gsame_refl Gs : gsame Gs Gs. Proof using. intros g I. exists g. auto. Qed.
Lemma gsame_trans A B C : gsame A B -> gsame B C -> gsame A C.
Proof using. intros H K g I. destruct (H g I) as (g' & I' & E1 & E2 & E3). destruct (K g' I') as (g2 & I2 & F1 & F2 & F3). exists g2. repeat split; auto; congruence. Qed.
Lemma gsame_incl Gs Gs' : incl Gs Gs' -> gsame Gs Gs'. Proof using. intros H g I. exists g. auto. Qed.
Lemma pv_mono Gs Q Gs' Q' v b pre o : gsame Gs Gs' -> incl Q Q' -> prefVal Gs Q v b pre o -> prefVal Gs' Q' v b pre o.
Proof using. apply prefVal_mono. Qed.
Lemma loadJust_mono Gs Q Gs' Q' x c : gsame Gs Gs' -> incl Q Q' -> loadJust Gs Q x c -> loadJust Gs' Q' x c.
Proof using. intros A B (b & bk & pre & i & post & v & t & r & H1 & H2 & H3 & H4 & H5 & H6 & H7). exists b, bk, pre, i, post, v, t, r. repeat (split; [solve [auto]|]). eapply pv_mono; eauto. Qed.
Lemma phiJust_ext Gs Q Gs' Q' x c : (forall g, In g Gs -> gname g = x -> In g Gs') -> incl Q Q' -> phiJust Gs Q x c -> phiJust Gs' Q' x c.
Proof using.
  intros A B (b & bk & ph & G & I & E & H). rewrite get_ghost in G. destruct (get b f) as [bk0|] eqn:Eb; [|discriminate]. cbn in G. injection G as <-. cbn in I.
  exists b. eexists. exists ph. rewrite get_ghost, Eb. split; [reflexivity|]. cbn. split; [|split; auto].
  - apply in_app_or in I as [I|I]; apply in_or_app; auto. left. apply in_map_iff in I as (g & <- & I). apply gAt_in in I as [I Eg]. apply in_map. apply gAt_in. auto.
  - intros p o J. destruct (H p o J); [left|right]; eapply fwd_mono; eauto.
Qed.
Lemma phiJust_name Gs Q x c : phiJust Gs Q x c -> (exists g, In g Gs /\ gname g = x) \/ x < freshName f.
Proof using.
  intros (b & bk & ph & G & I & E & _). rewrite get_ghost in G. destruct (get b f) as [bk0|] eqn:Eb; [|discriminate]. cbn in G. injection G as <-. cbn in I.
  apply in_app_or in I as [I|I].
  - left. apply in_map_iff in I as (g & <- & I). apply gAt_in in I as [I _]. exists g. auto.
  - right. apply (fresh_ge f). eapply (result_in f b bk0); eauto. rewrite <- E. apply in_or_app. left. now apply in_map.
Qed.

(** ** operands *)
Lemma stored_okv v i s0 b bk : get b f = Some bk -> In i (body bk) -> storeTo pk v i = Some s0 -> okv (freshName f) s0.
Proof using Hesc.
  intros G I E. unfold storeTo in E. destruct (pk (opc i)) eqn:Ek; try discriminate. destruct (ops i) as [|[| |u] [|o r]] eqn:Eo; try discriminate.
  destruct (Nat.eqb u v); [|discriminate]. injection E as <-. split.
  - intros u' V ->. apply (Hesc u' V). apply in_flat_map. exists (b, bk). split; [now apply get_In|]. cbn. apply in_or_app. right. apply in_flat_map. exists i. split; auto.
    unfold escapes. rewrite Ek, Eo. now left.
  - intros y ->. apply (fresh_all f). apply in_or_app. right. apply in_flat_map. exists (ORes y). split; [|now left]. apply in_flat_map. exists (b, bk). split; [now apply get_In|].
    cbn. apply in_or_app. right. apply in_or_app. left. apply in_flat_map. exists i. split; auto. rewrite Eo. right. now left.
Qed.
Lemma pv_okv Gs Q n v b pre o : freshName f <= n -> (forall g, In g Gs -> freshName f <= gname g < n) -> (forall x c, In (x, c) Q -> okv n c) ->
  (pre <> [] -> exists bk, get b f = Some bk /\ incl pre (body bk)) -> prefVal Gs Q v b pre o -> okv n o.
Proof using Hesc Hvar.
  intros Ln Hg HQ Hpre.
  assert (Fw : forall o o', okv n o -> fwd Q o o' -> okv n o') by (intros a a' A F; induction F; eauto).
  assert (St : forall b bk pre s0, get b f = Some bk -> incl pre (body bk) -> lastStore pk v pre = Some s0 -> okv n s0).
  { intros b0 bk0 pre0 s0 G I E. apply lastStore_in in E as (p0 & i & q0 & -> & E). apply (okv_mono (freshName f)); auto. eapply stored_okv; eauto. apply I. apply in_or_app. right. now left. }
  assert (En : forall b0 o, entryVal Gs Q v b0 o -> okv n o).
  { intros b0 o0 H. induction H as [|g Ig _|b0 p bp s0 o0 A B C F|b0 p bp o0 A B C F IH|b0 o0 o' A IH F].
    - apply okv_undef.
    - split.
      + intros u V E. injection E as <-. pose proof (Hg g Ig). pose proof (Hvar _ V). lia.
      + intros y E. injection E as <-. apply Hg; auto.
    - eapply Fw; [|exact F]. eapply (St p bp (body bp)); eauto. apply incl_refl.
    - exact IH.
    - eauto. }
  unfold M2RVal.prefVal. destruct (lastStore pk v pre) as [s0|] eqn:El; [|apply En]. intros F. destruct pre as [|i pre]; [discriminate|].
  destruct Hpre as (bk & G & I); [discriminate|]. eapply Fw; [|exact F]. eapply St; eauto.
Qed.
Lemma fphi_okv b bk ph o : In (b, bk) f -> In ph (phis bk) -> In o (map snd (inc ph)) -> okv (freshName f) o.
Proof using Hesc.
  intros I J H. split.
  - intros v V ->. apply (Hesc v V). apply in_flat_map. exists (b, bk). split; auto. cbn. apply in_or_app. left. apply in_flat_map. eauto.
  - intros y ->. apply (fresh_all f). apply in_or_app. right. apply in_flat_map. exists (ORes y). split; [|now left]. apply in_flat_map. exists (b, bk). split; auto.
    cbn. apply in_or_app. left. apply in_flat_map. eauto.
Qed.
Section OneInv.
Context {open : list nat} {pend : nat -> Prop} {pref : nat -> list inst} {s : mst} {Gs : list gphi} {Q : list (nat * opnd)}.
Hypothesis Hpref : prefOk pref.
Hypothesis H : Inv open pend pref s Gs Q.
Lemma inv_pv_okv v b o : prefVal Gs Q v b (pref b) o -> okv (nxt s) o.
Proof using Hesc Hvar H Hpref.
  apply pv_okv; [apply (i_nxt _ _ _ _ _ _ H)|intros g I; apply (i_g _ _ _ _ _ _ H g I)|intros x c I; apply (i_Q _ _ _ _ _ _ H x c I)|apply Hpref].
Qed.
Lemma ghost_okv b bk ph o : In (b, bk) (ghost Gs f) -> In ph (phis bk) -> In o (map snd (inc ph)) -> okv (nxt s) o.
Proof using Hesc Hvar H.
  intros I J Io. apply in_map_iff in I as ([b0 bk0] & E & I). cbn in E. injection E as <- <-. cbn in J. apply in_app_or in J as [J|J].
  - apply in_map_iff in J as (g & <- & J). apply gAt_in in J as [J _]. cbn in Io. apply in_map_iff in Io as ([p o1] & <- & Io).
    destruct (i_g _ _ _ _ _ _ H g J) as (_ & _ & _ & _ & K). destruct (K p o1 Io) as (_ & bp & Gp & Pv). cbn. revert Pv.
    apply pv_okv; [apply (i_nxt _ _ _ _ _ _ H)|intros g' I'; apply (i_g _ _ _ _ _ _ H g' I')|intros x c I'; apply (i_Q _ _ _ _ _ _ H x c I')|].
    intros _. exists bp. split; auto. apply incl_refl.
  - apply (okv_mono (freshName f)); [apply (i_nxt _ _ _ _ _ _ H)|]. eapply fphi_okv; eauto.
Qed.
Lemma Q_okv : okQ (okv (nxt s)) Q.
Proof using H. intros x c I. apply (i_Q _ _ _ _ _ _ H x c I). Qed.
Lemma fn_okv ph o : In ph (allPhis (fn s)) -> In o (map snd (inc ph)) -> okv (nxt s) o.
Proof using Hesc Hvar H. intros I J. eapply (phi_okv f Gs (okv (nxt s)) ghost_okv Q (fn s)); eauto; [apply Q_okv|apply (i_rel _ _ _ _ _ _ H)]. Qed.
(** the phis of the function have old names *)
Lemma old_phi b bk ph : In (b, bk) f -> In ph (phis bk) -> pdst ph < freshName f.
Proof using Nf. intros I J. apply (fresh_ge f). eapply (result_in f b bk); [now apply In_get|]. apply in_or_app. left. now apply in_map. Qed.
Lemma gname_eq g g' : In g Gs -> In g' Gs -> gname g = gname g' -> g = g'.
Proof using H.
  pose proof (i_nd _ _ _ _ _ _ H) as N. clear -N. induction Gs as [|a l IH]; [contradiction|]. cbn in *. apply NoDup_cons_iff in N as [N1 N2].
  intros [->|I] [->|I'] E; auto; exfalso; apply N1; [rewrite E|rewrite <- E]; now apply in_map.
Qed.
(** a pending phi has no operands *)
Lemma pend_empty ph : In ph (allPhis (fn s)) -> pend (pdst ph) -> freshName f <= pdst ph -> inc ph = [].
Proof using H Nf.
  intros I P L. destruct (relF_phi _ _ _ _ (i_rel _ _ _ _ _ _ H) I) as (b & bk & ph0 & A & B & C & D). apply in_map_iff in A as ([b0 bk0] & E & A). cbn in E. injection E as <- <-. cbn in B.
  apply in_app_or in B as [B|B].
  - apply in_map_iff in B as (g & <- & B). apply gAt_in in B as [B _]. cbn in *. destruct (i_stat _ _ _ _ _ _ H g B) as [S1 _]. rewrite S1 in D; [|congruence]. inversion D. reflexivity.
  - pose proof (old_phi b0 bk0 ph0 A B). rewrite C in *. lia.
Qed.
Lemma name_in g : In g Gs -> In (gname g) (map pdst (allPhis (fn s))).
Proof using H.
  intros I. rewrite (relF_names _ _ _ (i_rel _ _ _ _ _ _ H)). destruct (i_g _ _ _ _ _ _ H g I) as (_ & _ & Ib & _). apply in_map_iff in Ib as ([b bk] & Eb & Ib). cbn in Eb.
  apply in_map_iff. exists (gph g). split; auto. apply allPhis_in. exists b, (Block (map gph (gAt Gs b) ++ phis bk) (body bk) (trm bk)). split.
  - apply in_map_iff. exists (b, bk). auto.
  - cbn. apply in_or_app. left. apply in_map. apply gAt_in. auto.
Qed.

(** ** the steps *)
Lemma findDef_cons v b o u c l : findDef u c ((v, b, o) :: l) = if Nat.eqb v u && Nat.eqb b c then Some o else findDef u c l.
Proof using. unfold findDef. cbn. destruct (Nat.eqb v u && Nat.eqb b c); reflexivity. Qed.
Lemma inv_def v b o : prefVal Gs Q v b (pref b) o -> Inv open pend pref (defVar v b o s) Gs Q.
Proof using H.
  intros Pv. destruct H. constructor; cbn [fn nxt seal todo defs defVar]; auto.
  - intros u c o' V E. rewrite findDef_cons in E. destruct (Nat.eqb v u && Nat.eqb b c) eqn:Eq; [|now apply i_def0]. apply andb_prop in Eq as [E1 E2]. apply Nat.eqb_eq in E1, E2. subst. injection E as <-. exact Pv.
  - intros u c V L. rewrite findDef_cons. destruct (Nat.eqb v u && Nat.eqb b c); [discriminate|auto].
  - intros b' v' x' I. destruct (i_todo0 b' v' x' I) as (A0 & A & B & C). split; auto. split; auto. rewrite findDef_cons. destruct (Nat.eqb v v' && Nat.eqb b b'); [discriminate|auto].
Qed.
Lemma inv_new v b : In v vars -> In b (map fst f) -> b <> e -> Inv (nxt s :: open) pend pref (newPhi b s) (G (nxt s) b v [] :: Gs) Q.
Proof using H Nf.
  intros V Ib Nb. assert (GS : gsame Gs (G (nxt s) b v [] :: Gs)) by (apply gsame_incl; intros g I; now right). destruct H. constructor; cbn [fn nxt seal todo defs newPhi]; auto.
  - now apply relF_addPhi.
  - cbn. constructor; auto. intros I. apply in_map_iff in I as (g & Eg & I). destruct (i_g0 g I) as ((_ & L) & _). lia.
  - intros g [<-|I]; cbn.
    + split; [lia|]. split; auto. split; auto. split; auto. intros p o [].
    + destruct (i_g0 g I) as (A & B & C & D & E). split; [lia|]. split; auto. split; auto. split; auto. intros p o J. destruct (E p o J) as (E1 & bp & E2 & E3). split; auto. exists bp. split; auto.
      eapply pv_mono; eauto. apply incl_refl.
  - intros g [<-|I]; cbn; [split; [auto|intros _ K; exfalso; apply K; now left]|]. destruct (i_stat0 g I) as [A B]. split; auto.
  - intros x [<-|I]; [lia|]. specialize (i_open0 x I). lia.
  - intros x P. destruct (i_pend0 x P) as [A B]. split; [lia|]. intros [E|I]; [lia|auto].
  - intros x c I. destruct (i_Q0 x c I) as (A & B & C & D & E). split; [lia|]. split; [apply (okv_mono (nxt s)); auto|]. split; auto. split; [intros [K|K]; [lia|auto]|].
    destruct E as [E|E]; [left; exact (loadJust_mono _ _ _ _ _ _ GS (incl_refl Q) E)|right; refine (phiJust_ext _ _ _ _ _ _ _ (incl_refl Q) E); intros g J _; now right].
  - intros u c o V' E. eapply pv_mono; eauto. apply incl_refl.
  - intros b' v' x' I. destruct (i_todo0 b' v' x' I) as (A0 & A & B & g & C & D). split; auto. split; auto. split; auto. exists g. split; [now right|auto].
Qed.
Lemma inv_todo v b x : In v vars -> findDef v b (defs s) <> None -> ~ In b (seal s) -> (exists g, In g Gs /\ gname g = x /\ gblk g = b /\ gvar g = v) ->
  Inv open pend pref (Mst (fn s) (defs s) (seal s) (todo s ++ [(b, (v, x))]) (nxt s)) Gs Q.
Proof using H.
  intros V A B C. destruct H. constructor; auto. cbn. intros b' v' x' I. apply in_app_or in I as [I|[I|[]]]; auto. injection I as <- <- <-. auto.
Qed.
Lemma inv_remove (K : nat -> Prop) x : (forall y, K y -> ~ pend y /\ ~ In y open) -> closed K (fn s) -> K x -> In x (map pdst (allPhis (fn s))) ->
  exists Q', Inv open pend pref (setFn (fst (tryRemove same deep x (fn s))) s) Gs Q' /\ incl Q Q' /\ fwd Q' (ORes x) (snd (tryRemove same deep x (fn s))) /\
    (forall ph, In ph (allPhis (fst (tryRemove same deep x (fn s)))) -> ~ K (pdst ph) -> In ph (allPhis (fn s))).
Proof using H Nf Hsame Hesc Hvar.
  intros HK Cl Kx Ix.
  destruct (remove_ok same Hsame f Nf Gs (okv (nxt s)) (okv_undef _) ghost_okv K deep x (fn s) Q) as (Q' & (A1 & (A2 & _ & A2') & A3 & A4) & A5); auto.
  { split; [apply (i_rel _ _ _ _ _ _ H)|]. split; auto. apply Q_okv. }
  exists Q'. split; [|auto]. destruct H. constructor; cbn [fn nxt seal todo defs setFn]; auto.
  - intros g I. destruct (i_g0 g I) as (B1 & B2 & B3 & B4 & B5). repeat (split; [solve [auto]|]). intros p o J. destruct (B5 p o J) as (C1 & bp & C2 & C3). split; auto. exists bp. split; auto.
    eapply pv_mono; eauto. apply gsame_refl.
  - intros y c I. split; [|split; [eapply A2'; eauto|]].
    + destruct (A3 y c I) as [J|[Ky J]]; [exact (proj1 (i_Q0 y c J))|]. destruct (phiJust_name Gs Q' y c J) as [(g & Ig & <-)|L]; [exact (proj2 (proj1 (i_g0 g Ig)))|lia].
    + destruct (A3 y c I) as [J|[Ky J]].
      * destruct (i_Q0 y c J) as (_ & _ & B1 & B2 & B3). split; auto. split; auto. destruct B3 as [B3|B3]; [left; eapply loadJust_mono; eauto; apply gsame_refl|right; eapply phiJust_ext; eauto].
      * destruct (HK y Ky). auto.
  - intros u c o V' E. eapply pv_mono; eauto. apply gsame_refl.
Qed.
End OneInv.
(** moving a phi *)
Lemma inv_close open pend pref s Gs Q x g : Inv (x :: open) pend pref s Gs Q -> In g Gs -> gname g = x -> (forall p, In p (pr (gblk g)) -> get p (ginc g) <> None) -> Inv open pend pref s Gs Q.
Proof using.
  intros H Ig Eg C. pose proof (@gname_eq _ _ _ _ _ _ H) as GE. destruct H. constructor; auto.
  - intros g' I. destruct (i_stat0 g' I) as [A B]. split; auto. intros P O. destruct (Nat.eq_dec (gname g') x) as [E|N].
    + assert (g' = g) by (apply GE; auto; congruence). now subst g'.
    + apply B; auto. intros [K|K]; auto.
  - intros y I. apply i_open0. now right.
  - intros y P. destruct (i_pend0 y P) as [A B]. split; auto. intros I. apply B. now right.
  - intros y c I. destruct (i_Q0 y c I) as (A & B & D & E & F). repeat (split; [solve [auto]|]). split; auto. intros J. apply E. now right.
Qed.
Lemma inv_toPend open pend pref s Gs Q x g : Inv (x :: open) pend pref s Gs Q -> ~ In x open -> In g Gs -> gname g = x -> ginc g = [] -> Inv open (fun y => pend y \/ y = x) pref s Gs Q.
Proof using.
  intros H Nx Ig Eg C. pose proof (@gname_eq _ _ _ _ _ _ H) as GE. destruct H. constructor; auto.
  - intros g' I. destruct (i_stat0 g' I) as [A B]. split.
    + intros [P|P]; auto. assert (g' = g) by (apply GE; auto; congruence). now subst g'.
    + intros P O. apply B; auto. intros [K|K]; auto.
  - intros y I. apply i_open0. now right.
  - intros y [P| ->].
    + destruct (i_pend0 y P) as [A B]. split; auto. intros I. apply B. now right.
    + split; auto. apply i_open0. now left.
  - intros y c I. destruct (i_Q0 y c I) as (A & B & D & E & F). split; auto. split; auto. split; [intros [P|P]; [auto|apply E; left; auto]|]. split; auto. intros J. apply E. now right.
Qed.
Lemma inv_fromPend open pend pref s Gs Q x : Inv open pend pref s Gs Q -> pend x -> Inv (x :: open) (fun y => pend y /\ y <> x) pref s Gs Q.
Proof using.
  intros H P. destruct H. constructor; auto.
  - intros g' I. destruct (i_stat0 g' I) as [A B]. split; [intros [P1 _]; auto|]. intros N O. apply B; [|intros K; apply O; now right]. intros P1. apply N. split; auto. intros E. apply O. now left.
  - intros y [<-|I]; auto. apply i_pend0; auto.
  - intros y [P1 N]. destruct (i_pend0 y P1) as [A B]. split; auto. intros [E|I]; auto.
  - intros y c I. destruct (i_Q0 y c I) as (A & B & D & E & F). split; auto. split; auto. split; [tauto|]. split; auto. intros [K|K]; auto. subst y. auto.
Qed.
Lemma inv_pend_iff open pend pend' pref s Gs Q : (forall y, pend y <-> pend' y) -> Inv open pend pref s Gs Q -> Inv open pend' pref s Gs Q.
Proof using.
  intros E H. destruct H. constructor; auto.
  - intros g I. destruct (i_stat0 g I) as [A B]. split; [intros P; apply A; now apply E|]. intros P O. apply B; auto. intros P'. apply P. now apply E.
  - intros y P. apply i_pend0. now apply E.
  - intros y c I. destruct (i_Q0 y c I) as (A & B & D & F & K). repeat (split; [solve [auto]|]). split; auto. intros P. apply D. now apply E.
Qed.
Lemma gInc_in x p o Gs g : In g (gInc x p o Gs) <-> (gname g <> x /\ In g Gs) \/ (exists g0, In g0 Gs /\ gname g0 = x /\ g = G (gname g0) (gblk g0) (gvar g0) (ginc g0 ++ [(p, o)])).
Proof using.
  unfold gInc. rewrite in_map_iff. split.
  - intros (g0 & E & I). destruct (Nat.eqb_spec (gname g0) x); [right; eauto|left; subst; auto].
  - intros [[N I]|(g0 & I & E & ->)]; [exists g|exists g0]; (split; [|auto]); [destruct (Nat.eqb_spec (gname g) x); congruence|rewrite E, Nat.eqb_refl; reflexivity].
Qed.
Lemma gInc_same x p o Gs : gsame Gs (gInc x p o Gs).
Proof using.
  intros g I. destruct (Nat.eq_dec (gname g) x) as [E|N].
  - exists (G (gname g) (gblk g) (gvar g) (ginc g ++ [(p, o)])). split; [|cbn; auto]. apply gInc_in. right. exists g. auto.
  - exists g. split; [|auto]. apply gInc_in. auto.
Qed.
Lemma gInc_names x p o Gs : map gname (gInc x p o Gs) = map gname Gs.
Proof using. unfold gInc. rewrite map_map. apply map_ext. intros g. now destruct (Nat.eqb (gname g) x). Qed.
Lemma get_app {A} p l (q : nat) (o : A) : get p l <> None \/ p = q -> get p (l ++ [(q, o)]) <> None.
Proof using.
  induction l as [|[k a] l IH]; cbn; intros [H|E].
  - congruence.
  - subst p. rewrite Nat.eqb_refl. discriminate.
  - destruct (Nat.eqb _ _); [discriminate|]. apply IH. auto.
  - destruct (Nat.eqb _ _); [discriminate|]. apply IH. auto.
Qed.
Lemma inv_inc open pend pref s Gs Q x g p bp o : Inv (x :: open) pend pref s Gs Q -> In g Gs -> gname g = x -> In p (pr (gblk g)) -> get p f = Some bp -> prefVal Gs Q (gvar g) p (body bp) o ->
  Inv (x :: open) pend pref (setFn (addInc x p o (fn s)) s) (gInc x p o Gs) Q.
Proof using Nf.
  intros H Ig Eg Ip Gp Pv. pose proof (@gname_eq _ _ _ _ _ _ H) as GE. pose proof (gInc_same x p o Gs) as GS. destruct H. constructor; cbn [fn nxt seal todo defs setFn]; auto.
  - apply relF_addInc; auto. intros b bk ph I J E. pose proof (old_phi b bk ph I J). destruct (i_g0 g Ig) as ((L & _) & _). lia.
  - now rewrite gInc_names.
  - intros g1 I. apply gInc_in in I as [[N I]|(g0 & I & E & ->)].
    + destruct (i_g0 g1 I) as (A & B & C & D & E). repeat (split; [solve [auto]|]). intros q o' J. destruct (E q o' J) as (E1 & bq & E2 & E3). split; auto. exists bq. split; auto. eapply pv_mono; eauto. apply incl_refl.
    + assert (g0 = g) by (apply GE; auto; congruence). subst g0. destruct (i_g0 g I) as (A & B & C & D & E'). cbn. repeat (split; [solve [auto]|]). intros q o' J. apply in_app_or in J as [J|[J|[]]].
      * destruct (E' q o' J) as (E1 & bq & E2 & E3). split; auto. exists bq. split; auto. eapply pv_mono; eauto. apply incl_refl.
      * injection J as <- <-. split; auto. exists bp. split; auto. eapply pv_mono; eauto. apply incl_refl.
  - intros g1 I. apply gInc_in in I as [[N I]|(g0 & I & E & ->)]; [apply i_stat0; auto|]. cbn. split.
    + intros P. exfalso. rewrite E in P. destruct (i_pend0 _ P) as [_ K]. apply K. now left.
    + intros _ O. exfalso. apply O. left. congruence.
  - intros y c I. destruct (i_Q0 y c I) as (A & B & C & D & E). repeat (split; [solve [auto]|]). destruct E as [E|E]; [left; exact (loadJust_mono _ _ _ _ _ _ GS (incl_refl Q) E)|right].
    refine (phiJust_ext Gs Q _ Q y c _ (incl_refl Q) E). intros g1 I1 E1. apply gInc_in. left. split; auto. intros K. apply D. left. congruence.
  - intros u c o' V' E. eapply pv_mono; eauto. apply incl_refl.
  - intros b' v' x' I. destruct (i_todo0 b' v' x' I) as (A0 & A & B & g1 & C & D1 & D2 & D3). split; auto. split; auto. split; auto. destruct (GS g1 C) as (g2 & I2 & F1 & F2 & F3). exists g2. repeat split; auto; congruence.
Qed.

(** ** what a step leaves alone *)
Lemma NoDup_join {A} (l r : list A) : NoDup l -> NoDup r -> (forall y, In y l -> In y r -> False) -> NoDup (l ++ r).
Proof using.
  induction l as [|a l IH]; cbn; auto. intros N Nr D. apply NoDup_cons_iff in N as [N1 N2]. constructor; [|apply IH; eauto]. intros I. apply in_app_or in I as [I|I]; eauto.
Qed.
Definition ext (P : nat -> Prop) (v : nat) (s : mst) (pend : nat -> Prop) (Gs : list gphi) (Q : list (nat * opnd)) (s' : mst) (pend' : nat -> Prop) (Gs' : list gphi) (Q' : list (nat * opnd)) : Prop :=
  nxt s <= nxt s' /\ seal s' = seal s /\ (forall u c, findDef u c (defs s) <> None -> findDef u c (defs s') <> None) /\
  (forall ph, In ph (allPhis (fn s')) -> P (pdst ph) -> In ph (allPhis (fn s))) /\
  (forall g, In g Gs -> P (gname g) -> In g Gs') /\ gsame Gs Gs' /\ incl Q Q' /\
  exists new, todo s' = todo s ++ new /\ (forall b' v' x', In (b', (v', x')) new -> v' = v /\ findDef v' b' (defs s) = None /\ nxt s <= x' < nxt s') /\ NoDup (map (fun t => snd (snd t)) new) /\
    (forall y, pend' y <-> pend y \/ In y (map (fun t => snd (snd t)) new)).
Lemma ext_refl P v s pend Gs Q : ext P v s pend Gs Q s pend Gs Q.
Proof using.
  split; [auto|]. split; [auto|]. split; [auto|]. split; [auto|]. split; [auto|]. split; [apply gsame_refl|]. split; [apply incl_refl|]. exists []. split; [now rewrite app_nil_r|]. split; [intros b' v' x' []|]. split; [constructor|]. intros y. cbn. split; [auto|intros [K|[]]; exact K].
Qed.
Lemma ext_trans P v s pend Gs Q s1 pend1 Gs1 Q1 s2 pend2 Gs2 Q2 : ext P v s pend Gs Q s1 pend1 Gs1 Q1 -> ext P v s1 pend1 Gs1 Q1 s2 pend2 Gs2 Q2 -> ext P v s pend Gs Q s2 pend2 Gs2 Q2.
Proof using.
  intros (A1 & A2 & A3 & A4 & A5 & A6 & A7 & n1 & A8 & A9 & AN & A10) (B1 & B2 & B3 & B4 & B5 & B6 & B7 & n2 & B8 & B9 & BN & B10).
  split; [lia|]. split; [congruence|]. split; [auto|]. split; [auto|]. split; [auto|]. split; [eapply gsame_trans; eauto|]. split; [eapply incl_tran; eauto|].
  exists (n1 ++ n2). split; [now rewrite B8, A8, app_assoc|]. split.
  - intros b' v' x' I. apply in_app_or in I as [I|I].
    + destruct (A9 _ _ _ I) as (E1 & E2 & E3). split; auto. split; auto. lia.
    + destruct (B9 _ _ _ I) as (E1 & E2 & E3). split; auto. split; [|lia]. destruct (findDef v' b' (defs s)) eqn:E; auto. exfalso. apply (A3 v' b'); congruence.
  - split.
    { rewrite map_app. apply NoDup_join; auto. intros y I J. apply in_map_iff in I as ([b1 [v1 x1]] & E1 & I). apply in_map_iff in J as ([b2 [v2 x2]] & E2 & J). cbn in *.
      destruct (A9 _ _ _ I) as (_ & _ & L1). destruct (B9 _ _ _ J) as (_ & _ & L2). lia. }
    intros y. rewrite B10, A10, map_app, in_app_iff. tauto.
Qed.
Lemma ext_weak (P P' : nat -> Prop) v s pend Gs Q s' pend' Gs' Q' : (forall y, P' y -> P y) -> ext P v s pend Gs Q s' pend' Gs' Q' -> ext P' v s pend Gs Q s' pend' Gs' Q'.
Proof using. intros W (A1 & A2 & A3 & A4 & A5 & A6 & A7 & A8). repeat (split; [solve [auto]|]). auto. Qed.
Lemma ext_def P v u b o s pend Gs Q : ext P v s pend Gs Q (defVar u b o s) pend Gs Q.
Proof using.
  split; [cbn; auto|]. split; [reflexivity|]. split.
  - intros u' c N. cbn. rewrite findDef_cons. destruct (Nat.eqb u u' && Nat.eqb b c); [discriminate|auto].
  - repeat (split; [solve [auto|apply gsame_refl|apply incl_refl]|]). exists []. cbn. split; [now rewrite app_nil_r|]. split; [intros b' v' x' []|]. split; [constructor|]. intros y. cbn. split; [auto|intros [HH|[]]; exact HH].
Qed.
Lemma ext_fn (P : nat -> Prop) v g s pend Gs Gs' Q Q' : (forall ph, In ph (allPhis g) -> P (pdst ph) -> In ph (allPhis (fn s))) -> (forall g, In g Gs -> P (gname g) -> In g Gs') -> gsame Gs Gs' -> incl Q Q' ->
  ext P v s pend Gs Q (setFn g s) pend Gs' Q'.
Proof using.
  intros A B C D. repeat (split; [solve [auto]|]). exists []. cbn. split; [now rewrite app_nil_r|]. split; [intros b' v' x' []|]. split; [constructor|]. intros y. cbn. split; [auto|intros [HH|[]]; exact HH].
Qed.

(** ** reading a variable *)
Variable pref : nat -> list inst.
Hypothesis Hpref : prefOk pref.
Definition usesOk (uv : nat -> nat -> mst -> option (mst * opnd)) : Prop :=
  forall v b s s' o open pend Gs Q, Inv open pend pref s Gs Q -> In v vars -> In b (map fst f) -> uv v b s = Some (s', o) ->
    exists pend' Gs' Q', Inv open pend' pref s' Gs' Q' /\ ext (fun y => y < nxt s) v s pend Gs Q s' pend' Gs' Q' /\ prefVal Gs' Q' v b (pref b) o.
Lemma pred_in b p : In p (pr b) -> In p (map fst f).
Proof using Hpr. intros I. apply Hpr in I as (pb & G & _). apply in_map_iff. exists (p, pb). split; auto. now apply get_In. Qed.
Lemma fill_ok uv x v b open : usesOk uv -> In v vars -> forall ps s pend Gs Q g s', Inv (x :: open) pend pref s Gs Q -> In g Gs -> gname g = x -> gvar g = v -> gblk g = b ->
  (forall p, In p ps -> In p (pr b) /\ exists bp, get p f = Some bp /\ pref p = body bp) -> fill (uv v) x ps s = Some s' ->
  exists pend' Gs' Q' g', Inv (x :: open) pend' pref s' Gs' Q' /\ ext (fun y => y < nxt s /\ y <> x) v s pend Gs Q s' pend' Gs' Q' /\
    In g' Gs' /\ gname g' = x /\ gvar g' = v /\ gblk g' = b /\ (forall p, In p ps \/ get p (ginc g) <> None -> get p (ginc g') <> None).
Proof using Hpr Nf.
  intros UV V. induction ps as [|p ps IH]; intros s pend Gs Q g s' H Ig Eg Ev Eb Hps E; cbn in E.
  - injection E as <-. exists pend, Gs, Q, g. split; auto. split; [apply ext_refl|]. repeat (split; [solve [auto]|]). intros p [[]|K]; auto.
  - destruct (uv v p s) as [[s1 o]|] eqn:Eu; [|discriminate]. destruct (Hps p (or_introl eq_refl)) as (Ip & bp & Gp & Pp).
    destruct (UV v p s s1 o (x :: open) pend Gs Q H V (pred_in b p Ip) Eu) as (pend1 & Gs1 & Q1 & H1 & X1 & Pv). rewrite Pp in Pv.
    assert (Lx : x < nxt s) by (rewrite <- Eg; apply (i_g _ _ _ _ _ _ H g Ig)).
    assert (Ig1 : In g Gs1). { destruct X1 as (_ & _ & _ & _ & X & _). apply X; auto. now rewrite Eg. }
    subst v b. pose proof (inv_inc open pend1 pref s1 Gs1 Q1 x g p bp o H1 Ig1 Eg Ip Gp Pv) as H2.
    set (g2 := G (gname g) (gblk g) (gvar g) (ginc g ++ [(p, o)])).
    assert (Ig2 : In g2 (gInc x p o Gs1)) by (apply gInc_in; right; exists g; auto).
    destruct (IH _ pend1 _ Q1 g2 s' H2 Ig2 Eg eq_refl eq_refl (fun q Iq => Hps q (or_intror Iq)) E) as (pend3 & Gs3 & Q3 & g3 & H3 & X3 & I3 & E1 & E2 & E3 & C3).
    exists pend3, Gs3, Q3, g3. split; auto. split; [|repeat (split; [solve [auto]|])].
    + eapply ext_trans; [eapply ext_weak; [|exact X1]; cbn; intros y [L _]; exact L|].
      assert (L1 : nxt s <= nxt s1) by apply X1.
      eapply ext_trans; [|eapply ext_weak; [|exact X3]; cbn; intros y [L N]; split; [lia|auto]].
      apply ext_fn; [|intros g' I' [_ N]; apply gInc_in; auto|apply gInc_same|apply incl_refl].
      intros ph I [_ N]. apply allPhis_addInc in I as [I|I]; [congruence|auto].
    + intros q [[<-|I]|I]; apply C3; cbn; auto; right; apply get_app; auto.
Qed.
Lemma useVar_ok n : usesOk (useVar same pr deep n e).
Proof using Hpr Nf Hsame Hesc Hvar Hpref.
  induction n as [|n IH]; intros v b s s' o open pend Gs Q H V Ib E; [discriminate|]. cbn [useVar] in E.
  destruct (findDef v b (defs s)) as [o0|] eqn:Ed.
  { injection E as <- <-. exists pend, Gs, Q. split; auto. split; [apply ext_refl|]. now apply (i_def _ _ _ _ _ _ H). }
  assert (Ls : lastStore pk v (pref b) = None). { destruct (lastStore pk v (pref b)) as [s0|] eqn:El; auto. exfalso. apply (i_sto _ _ _ _ _ _ H v b V); auto. congruence. }
  assert (PE : forall Gs Q o, entryVal Gs Q v b o -> prefVal Gs Q v b (pref b) o) by (intros Gs1 Q1 o1 P; unfold M2RVal.prefVal; now rewrite Ls).
  destruct (Nat.eqb_spec b e) as [Ee|Ne].
  { injection E as <- <-. exists pend, Gs, Q. split; auto. split; [apply ext_refl|]. apply PE. rewrite Ee. constructor. }
  destruct (existsb (Nat.eqb b) (seal s)) eqn:Es; cbn [negb] in E.
  2:{ injection E as <- <-. set (x := nxt s).
    assert (Nx : ~ In x open) by (intros I; pose proof (i_open _ _ _ _ _ _ H x I); unfold x in *; lia).
    pose proof (inv_new H v b V Ib Ne) as H1. set (g := G x b v []).
    pose proof (inv_toPend open pend pref _ _ Q x g H1 Nx (or_introl eq_refl) eq_refl eq_refl) as H2.
    assert (Pv : prefVal (g :: Gs) Q v b (pref b) (ORes x)) by (apply PE; exact (ev_phi pk pr f (g :: Gs) Q v g (or_introl eq_refl) eq_refl)).
    pose proof (inv_def H2 v b (ORes x) Pv) as H3.
    assert (H4 := inv_todo H3 v b x V). cbn [fn defs seal todo nxt defVar newPhi] in H4.
    exists (fun y => pend y \/ y = x), (g :: Gs), Q. split; [|split; [|exact Pv]].
    - unfold defVar, newPhi. cbn [fn defs seal todo nxt]. apply H4.
      + rewrite findDef_cons, !Nat.eqb_refl. discriminate.
      + intros I. assert (existsb (Nat.eqb b) (seal s) = true) by (apply existsb_exists; exists b; split; auto; apply Nat.eqb_refl). congruence.
      + exists g. split; [now left|auto].
    - split; [cbn; lia|]. split; [reflexivity|]. split; [|split; [|split; [|split; [|split]]]].
      + intros u c N. cbn. rewrite findDef_cons. destruct (Nat.eqb v u && Nat.eqb b c); [discriminate|auto].
      + intros ph I L. cbn in I. apply allPhis_addPhi in I as [->|I]; auto. cbn in L. unfold x in *; lia.
      + intros g' I _. now right.
      + apply gsame_incl. intros g' I. now right.
      + apply incl_refl.
      + exists [(b, (v, x))]. split; [reflexivity|]. split.
        * intros b' v' x' [I|[]]. injection I as <- <- <-. unfold x. cbn. split; auto.
        * split; [constructor; [intros []|constructor]|].
          intros y. cbn. split; intros [A|A]; auto; [destruct A as [A|[]]; auto]. }
  assert (Is : In b (seal s)) by (apply existsb_exists in Es as (b' & I & E'); apply Nat.eqb_eq in E'; now subst).
  assert (Multi : match fill (useVar same pr deep n e v) (nxt s) (pr b) (defVar v b (ORes (nxt s)) (newPhi b s)) with
        | Some s2 => let r := tryRemove same deep (nxt s) (fn s2) in Some (defVar v b (snd r) (setFn (fst r) s2), snd r)
        | None => None end = Some (s', o) -> exists pend' Gs' Q', Inv open pend' pref s' Gs' Q' /\ ext (fun y => y < nxt s) v s pend Gs Q s' pend' Gs' Q' /\ prefVal Gs' Q' v b (pref b) o).
  { clear E. set (x := nxt s). intros E. assert (Nx : ~ In x open) by (intros I; pose proof (i_open _ _ _ _ _ _ H x I); unfold x in *; lia).
    pose proof (inv_new H v b V Ib Ne) as H1. set (g := G x b v []). fold x in H1. change (G x b v [] :: Gs) with (g :: Gs) in H1.
    assert (Pv : prefVal (g :: Gs) Q v b (pref b) (ORes x)) by (apply PE; exact (ev_phi pk pr f (g :: Gs) Q v g (or_introl eq_refl) eq_refl)).
    pose proof (inv_def H1 v b (ORes x) Pv) as H2. set (s0 := defVar v b (ORes x) (newPhi b s)) in *.
    destruct (fill (useVar same pr deep n e v) x (pr b) s0) as [s2|] eqn:Ef; [|discriminate].
    destruct (fill_ok _ x v b open IH V (pr b) s0 pend (g :: Gs) Q g s2 H2 (or_introl eq_refl) eq_refl eq_refl eq_refl) as (pend2 & Gs2 & Q2 & g2 & H3 & X2 & I2 & E1 & E2 & E3 & C2); auto.
    { intros p Ip. split; auto. apply (i_seal _ _ _ _ _ _ H b p Is Ip). }
    assert (H4 : Inv open pend2 pref s2 Gs2 Q2) by (apply (inv_close open pend2 pref s2 Gs2 Q2 x g2); auto; rewrite E3; auto).
    assert (Np : ~ pend2 x). { intros P. destruct (i_pend _ _ _ _ _ _ H3 x P) as [_ K]. apply K. now left. }
    set (K := fun y => x <= y /\ ~ pend2 y).
    assert (Ko : forall y, K y -> ~ pend2 y /\ ~ In y open). { intros y [L P]. split; auto. intros I. pose proof (i_open _ _ _ _ _ _ H y I). unfold x in *; lia. }
    assert (Cl : closed K (fn s2)).
    { intros ph y I J [Ly Py]. destruct (Nat.lt_ge_cases (pdst ph) x) as [L|L].
      - exfalso. destruct X2 as (_ & _ & _ & X & _). assert (I0 : In ph (allPhis (fn s0))). { apply X; auto. split; [|lia]. cbn. fold x. lia. }
        cbn in I0. fold x in I0. apply allPhis_addPhi in I0 as [->|I0]; [cbn in J; contradiction|]. destruct (fn_okv H ph (ORes y) I0 J) as [_ B]. specialize (B y eq_refl). fold x in B. lia.
      - split; auto. intros P. rewrite (pend_empty H4 ph I P) in J; [destruct J|]. pose proof (i_nxt _ _ _ _ _ _ H). fold x in H0. lia. }
    assert (Kx : K x) by (split; auto).
    assert (Nm : In x (map pdst (allPhis (fn s2)))) by (rewrite <- E1; apply (name_in H4); auto).
    destruct (inv_remove H4 K x Ko Cl Kx Nm) as (Q3 & H5 & I3 & F3 & U3). cbn zeta in E.
    set (r := tryRemove same deep x (fn s2)) in *. injection E as <- <-.
    assert (X0 : ext (fun y => y < x) v s pend Gs Q s0 pend (g :: Gs) Q).
    { split; [cbn; lia|]. split; [reflexivity|]. split; [|split; [|split; [|split; [|split]]]].
      - intros u c N. cbn. rewrite findDef_cons. destruct (Nat.eqb v u && Nat.eqb b c); [discriminate|auto].
      - intros ph I L. cbn in I. apply allPhis_addPhi in I as [->|I]; auto. cbn in L. fold x in L. lia.
      - intros g' I _. now right.
      - apply gsame_incl. intros g' I. now right.
      - apply incl_refl.
      - exists []. cbn. split; [now rewrite app_nil_r|]. split; [intros b' v' x' []|]. split; [constructor|]. intros y. cbn. split; [auto|intros [HH|[]]; exact HH]. }
    assert (X3 : ext (fun y => y < x) v s pend Gs Q s2 pend2 Gs2 Q2).
    { eapply ext_trans; [exact X0|]. eapply ext_weak; [|exact X2]. cbn. intros y L. fold x. lia. }
    assert (X4 : ext (fun y => y < x) v s pend Gs Q (setFn (fst r) s2) pend2 Gs2 Q3).
    { eapply ext_trans; [exact X3|]. apply ext_fn; auto; [|apply gsame_refl]. intros ph I L. apply U3; auto. intros [L' _]. lia. }
    assert (Pr : prefVal Gs2 Q3 v b (pref b) (snd r)).
    { eapply prefVal_fwd; [|exact F3]. apply (pv_mono (g :: Gs) Q); auto; [apply X2|]. eapply incl_tran; [|exact I3]. apply X2. }
    exists pend2, Gs2, Q3. split; [apply (inv_def H5); exact Pr|]. split; [|exact Pr]. eapply ext_trans; [exact X4|]. apply ext_def. }
  destruct (pr b) as [|p [|p' ps]] eqn:Ep; [exact (Multi E)| |exact (Multi E)]. clear Multi.
  destruct (useVar same pr deep n e v p s) as [[s1 o1]|] eqn:Eu; [|discriminate]. injection E as <- <-.
  assert (Ip : In p (pr b)) by (rewrite Ep; now left).
  destruct (IH v p s s1 o1 open pend Gs Q H V (pred_in b p Ip) Eu) as (pend1 & Gs1 & Q1 & H1 & X1 & Pv).
  destruct (i_seal _ _ _ _ _ _ H b p Is Ip) as (bp & Gp & Pp). rewrite Pp in Pv.
  assert (Pb : prefVal Gs1 Q1 v b (pref b) o1).
  { apply PE. unfold M2RVal.prefVal in Pv. destruct (lastStore pk v (body bp)) as [s0|] eqn:El; [eapply ev_single; eauto|eapply ev_thru; eauto]. }
  exists pend1, Gs1, Q1. split; [now apply (inv_def H1)|]. split; [|exact Pb]. eapply ext_trans; [exact X1|]. apply ext_def.
Qed.
End Alg.
