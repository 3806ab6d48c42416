(** ForwardBranch (cmmc/Transforms/ControlFlow/ForwardBranch.cpp) and UnifyReturn (UnifyReturn.cpp). *)
From Coq Require Import ZArith Lia Bool List Arith.
From Verif Require Import Sim Ssa SsaCfg SsaMerge SsaFwd.
Import ListNotations.

(** ** ForwardBranch *)
Definition isCond (t : term) : bool := match t with TCond _ _ _ => true | _ => false end.
(** cmmc/IR/Value.hpp hasExactlyOneUse *)
Definition usesIn (f : func) : list nat := flat_map (fun x => usesOf (snd x)) f.
Definition exactlyOneUse (f : func) (x : nat) : bool := Nat.eqb (count_occ Nat.eq_dec (usesIn f) x) 1.

(** lines 38-70: where the block [t] goes when entered from [b] by the edge on which [cond] is [dir]; the boolean: [t] starts with a phi.
    Simplifications: constants are compared by value (the code compares addresses of operands, so it sees fewer equal ones);
    that the phi has type i1 (line 49) is not represented *)
Definition directTarget (f : func) (b : nat) (cond : opnd) (dir : bool) (tb : block) : option (nat * bool) :=
  match tb with
  | Block [] [] (TCond c x y) => if opnd_eqb c cond then Some (if dir then x else y, false) else None
  | Block [ph] [] (TCond c x y) =>
    if negb (exactlyOneUse f (pdst ph)) then None
    else match get b (inc ph) with
         | Some v =>
           let d := if opnd_eqb v cond then Some dir
                    else match v with OCst (VInt z) => Some (negb (Z.eqb z 0)) | _ => None end in
           match d with
           | Some d0 => if opnd_eqb c (ORes (pdst ph)) then Some (if d0 then x else y, true) else None
           | None => None
           end
         | None => None
         end
  | _ => None
  end.
(** lines 82-83, 94-95: the value of [ph] for the new edge from [b]; a value computed in [t] can only be its phi *)
Definition newVal (b t : nat) (tb : block) (ph : phi) : option opnd :=
  match get t (inc ph) with
  | Some v => match find (fun q => opnd_eqb v (ORes (pdst q))) (phis tb) with Some q => get b (inc q) | None => Some v end
  | None => None
  end.
(** lines 76-89 *)
Definition sameVal (b t : nat) (tb : block) (ph : phi) : bool :=
  match newVal b t tb ph, get b (inc ph) with Some v, Some v' => opnd_eqb v v' | _, _ => false end.
Definition addVal (b t : nat) (tb : block) (ph : phi) : phi :=
  match newVal b t tb ph with Some v => Phi (pdst ph) (inc ph ++ [(b, v)]) | None => ph end.
Definition newPhis (b t : nat) (tb db : block) : option (list phi) :=
  match phis db with
  | ph :: _ => if hasSource b ph then (if forallb (sameVal b t tb) (phis db) then Some (phis db) else None)
               else Some (map (addVal b t tb) (phis db))
  | [] => Some []
  end.
Definition setPhis (l : list phi) (bk : block) : block := Block l (body bk) (trm bk).
(** lines 33-107 tryForward, for the arm [a] of the conditional branch that ends [b] *)
Definition tryForward (b : nat) (a : bool) (f : func) : func :=
  match get b f with
  | Some bk =>
    match trm bk, armOf (trm bk) a with
    | TCond cond _ _, Some t =>
      if Nat.eqb t b then f
      else match get t f with
           | Some tb =>
             match directTarget f b cond a tb with
             | Some (d, hasPhi) =>
               if Nat.eqb t d then f
               else match get d f with
                    | Some db =>
                      match newPhis b t tb db with
                      | Some pd =>
                        let f1 := onBlock d (setPhis pd) f in
                        let f2 := onBlock b (fun k => setTerm (setArm a d (trm k)) k) f1 in
                        if hasPhi then onBlock t (fun k => setPhis (map (removeSource b) (phis k)) k) f2 else f2
                      | None => f
                      end
                    | None => f
                    end
             | None => f
             end
           | None => f
           end
    | _, _ => f
    end
  | None => f
  end.
Definition distinctArms (f : func) (b : nat) : bool :=
  match get b f with Some bk => match trm bk with TCond _ x y => negb (Nat.eqb x y) | _ => false end | None => false end.
(** lines 110-133.  The test that the two targets differ is made once, before the first arm is forwarded *)
Definition forwardBranch1 (f : func) (b : nat) : func :=
  if distinctArms f b then tryForward b false (tryForward b true f) else f.
Definition forwardBranch (f : func) : func := fold_left forwardBranch1 (map fst f) f.
(** the same with the test repeated before the second arm (not what the code does) *)
Definition forwardBranchChecked1 (f : func) (b : nat) : func :=
  if distinctArms f b then let f1 := tryForward b true f in if distinctArms f1 b then tryForward b false f1 else f1 else f.
Definition forwardBranchChecked (f : func) : func := fold_left forwardBranchChecked1 (map fst f) f.

Lemma count_two x (f : func) k1 b1 k2 b2 : In (k1, b1) f -> In (k2, b2) f -> (k1, b1) <> (k2, b2) ->
  In x (usesOf b1) -> In x (usesOf b2) -> (2 <= count_occ Nat.eq_dec (usesIn f) x)%nat.
Proof.
  assert (P : forall l, In x l -> (1 <= count_occ Nat.eq_dec l x)%nat) by (intros l Hl; apply (count_occ_In Nat.eq_dec) in Hl; lia).
  intros H1 H2 D U1 U2. unfold usesIn. induction f as [|[k b] f IH]; [contradiction|]. cbn [flat_map snd]. rewrite count_occ_app.
  destruct H1 as [H1|H1], H2 as [H2|H2].
  - congruence.
  - injection H1 as -> ->. pose proof (P _ U1). assert (In x (flat_map (fun y => usesOf (snd y)) f)) by (apply in_flat_map; exists (k2, b2); auto).
    pose proof (P _ H0). lia.
  - injection H2 as -> ->. pose proof (P _ U2). assert (In x (flat_map (fun y => usesOf (snd y)) f)) by (apply in_flat_map; exists (k1, b1); auto).
    pose proof (P _ H0). lia.
  - specialize (IH H1 H2). lia.
Qed.
Lemma count_in x (f : func) k b : In (k, b) f -> (count_occ Nat.eq_dec (usesOf b) x <= count_occ Nat.eq_dec (usesIn f) x)%nat.
Proof.
  unfold usesIn. induction f as [|[k1 b1] f IH]; [contradiction|]. cbn [flat_map snd]. rewrite count_occ_app. intros [H|H].
  - injection H as -> ->. lia.
  - specialize (IH H). lia.
Qed.

Lemma get_app_ne {A} p k (l : list (nat * A)) o : p <> k -> get p (l ++ [(k, o)]) = get p l.
Proof.
  intros D. induction l as [|[x y] l IH]; cbn; [now rewrite (proj2 (Nat.eqb_neq k p) (not_eq_sym D))|]. destruct (Nat.eqb x p); auto.
Qed.
Lemma rdPhis_add_other args e p l b t tb : p <> b -> rdPhis args e p (map (addVal b t tb) l) = rdPhis args e p l.
Proof.
  intros D. induction l as [|ph l IH]; cbn [map rdPhis]; auto. rewrite IH. unfold addVal.
  destruct (newVal b t tb ph); cbn [inc pdst]; auto. now rewrite get_app_ne.
Qed.
Lemma newVal_plain b t tb ph : (forall x, In x (phiUses [ph]) -> ~ In x (map pdst (phis tb))) -> newVal b t tb ph = get t (inc ph).
Proof.
  intros H. unfold newVal. destruct (get t (inc ph)) as [v|] eqn:Ev; auto.
  destruct (find (fun q => opnd_eqb v (ORes (pdst q))) (phis tb)) as [q|] eqn:Ef; auto. exfalso.
  apply find_some in Ef. destruct Ef as [Hq E]. destruct (opnd_eqb_spec v (ORes (pdst q))) as [->|]; try discriminate.
  apply (H (pdst q)); [|apply in_map; auto]. cbn. rewrite app_nil_r. apply in_flat_map. exists (t, ORes (pdst q)). split; [now apply get_In|]. cbn. auto.
Qed.
Lemma phiUses_in ph l x : In ph l -> In x (phiUses [ph]) -> In x (phiUses l).
Proof. intros H Hx. cbn in Hx. rewrite app_nil_r in Hx. apply in_flat_map. exists ph. auto. Qed.
Lemma rdPhis_add_new args e l b t tb vs : (forall ph, In ph l -> get b (inc ph) = None) ->
  (forall x, In x (phiUses l) -> ~ In x (map pdst (phis tb))) ->
  rdPhis args e t l = Some vs -> rdPhis args e b (map (addVal b t tb) l) = Some vs.
Proof.
  revert vs; induction l as [|ph l IH]; cbn [map rdPhis]; intros vs H Hu Hr; auto.
  destruct (get t (inc ph)) as [o|] eqn:Ea; try discriminate.
  assert (E : addVal b t tb ph = Phi (pdst ph) (inc ph ++ [(b, o)])).
  { unfold addVal. rewrite newVal_plain, Ea; auto. intros x Hx. apply Hu. apply (phiUses_in ph); cbn; auto. }
  rewrite E. cbn [inc pdst]. rewrite get_app_None by (apply H; cbn; auto).
  destruct (rd args e o) as [v|]; try discriminate. destruct (rdPhis args e t l) as [us|] eqn:Eu; try discriminate.
  rewrite (IH us); auto.
  - intros q Hq. apply H. cbn. auto.
  - intros x Hx. apply Hu. cbn. apply in_or_app. auto.
Qed.
Lemma rdPhis_same args e l b t tb : (forall x, In x (phiUses l) -> ~ In x (map pdst (phis tb))) -> forallb (sameVal b t tb) l = true ->
  rdPhis args e b l = rdPhis args e t l.
Proof.
  induction l as [|ph l IH]; cbn [map rdPhis]; intros Hu Hs; auto. cbn in Hs. apply andb_prop in Hs. destruct Hs as [Hs1 Hs2].
  unfold sameVal in Hs1. rewrite newVal_plain in Hs1. 2:{ intros x Hx. apply Hu. apply (phiUses_in ph); cbn; auto. }
  destruct (get t (inc ph)) as [v|], (get b (inc ph)) as [v'|]; try discriminate. destruct (opnd_eqb_spec v v') as [->|]; try discriminate.
  rewrite IH; auto. intros x Hx. apply Hu. cbn. apply in_or_app. auto.
Qed.
Lemma removeSource_In b ph p o : In (p, o) (inc (removeSource b ph)) -> p <> b /\ In (p, o) (inc ph).
Proof. cbn. intros H. apply filter_In in H. destruct H as [H1 H2]. cbn in H2. destruct (Nat.eqb_spec p b); try discriminate. auto. Qed.
Lemma rdPhis_removeSource args e b p l : p <> b -> rdPhis args e p (map (removeSource b) l) = rdPhis args e p l.
Proof.
  intros D. induction l as [|ph l IH]; cbn [map rdPhis]; auto. rewrite get_removeSource, IH by auto. reflexivity.
Qed.

Lemma directTarget_ok f b cond dir tb d hp : directTarget f b cond dir tb = Some (d, hp) ->
  body tb = [] /\ isCond (trm tb) = true /\ In d (succs (trm tb)) /\
  (hp = false -> phis tb = []) /\
  (hp = true -> exists ph, phis tb = [ph] /\ exactlyOneUse f (pdst ph) = true /\ termUses (trm tb) = [pdst ph]) /\
  (forall args e e1 v, rd args e cond = Some v -> truth v = Some dir -> enter args e (Some b) (phis tb) = Some e1 -> runTerm args e1 (trm tb) = TGo d).
Proof.
  unfold directTarget. destruct tb as [[|ph [|]] [|] [t|c x y|c cs y|v|]]; try discriminate; cbn [body trm phis].
  - destruct (opnd_eqb_spec c cond) as [->|]; try discriminate. intros [= <- <-]. split; [auto|]. split; [auto|]. split; [cbn; destruct dir; auto|].
    split; [auto|]. split; [discriminate|]. intros args e e1 v Hv Ht. cbn. intros [= <-]. rewrite Hv, Ht. destruct dir; auto.
  - destruct (exactlyOneUse f (pdst ph)) eqn:E1; try discriminate. cbn [negb].
    destruct (get b (inc ph)) as [v|] eqn:Ev; try discriminate.
    assert (A : forall d0, (if opnd_eqb v cond then Some dir else match v with OCst (VInt z) => Some (negb (Z.eqb z 0)) | _ => None end) = Some d0 ->
       (if opnd_eqb c (ORes (pdst ph)) then Some (if d0 then x else y, true) else None) = Some (d, hp) ->
       [] = @nil inst /\ true = true /\ In d (succs (TCond c x y)) /\ (hp = false -> [ph] = []) /\
       (hp = true -> exists ph0, [ph] = [ph0] /\ exactlyOneUse f (pdst ph0) = true /\ termUses (TCond c x y) = [pdst ph0]) /\
       (forall args e e1 v0, rd args e cond = Some v0 -> truth v0 = Some dir -> enter args e (Some b) [ph] = Some e1 -> runTerm args e1 (TCond c x y) = TGo d)).
    { intros d0 Hd. destruct (opnd_eqb_spec c (ORes (pdst ph))) as [->|]; try discriminate. intros [= <- <-].
      split; [auto|]. split; [auto|]. split; [cbn; destruct d0; auto|]. split; [discriminate|].
      split; [intros _; exists ph; cbn; auto|]. intros args e e1 v0 Hv Ht He. cbn in He. rewrite Ev in He.
      destruct (rd args e v) as [u|] eqn:Eu; try discriminate. cbn in He. injection He as <-. cbn. rewrite upd_eq.
      assert (E : truth u = Some d0).
      { destruct (opnd_eqb_spec v cond) as [->|]; [congruence|]. destruct v as [[z|z|]| |]; try discriminate. cbn in Eu. injection Eu as <-. exact Hd. }
      rewrite E. destruct d0; reflexivity. }
    destruct (if opnd_eqb v cond then Some dir else match v with OCst (VInt z) => Some (negb (Z.eqb z 0)) | _ => None end) as [d0|] eqn:Ed; try discriminate.
    apply (A d0); auto.
Qed.

Lemma newPhis_ok f b t tb db d bk pd : get b f = Some bk -> get t f = Some tb -> get d f = Some db -> In d (succs (trm tb)) ->
  phiPreds f -> phiAll f -> (forall x, In x (phiUses (phis db)) -> ~ In x (map pdst (phis tb))) ->
  newPhis b t tb db = Some pd ->
  (forall args e vs, rdPhis args e t (phis db) = Some vs -> rdPhis args e b pd = Some vs) /\
  (forall args e vs, rdPhis args e b (phis db) = Some vs -> rdPhis args e b pd = Some vs) /\
  (forall args e p, p <> b -> rdPhis args e p pd = rdPhis args e p (phis db)) /\
  (pd = [] <-> phis db = []) /\
  (forall ph p o, In ph pd -> In (p, o) (inc ph) -> p = b \/ exists ph', In ph' (phis db) /\ In (p, o) (inc ph')) /\
  (forall ph, In ph pd -> get b (inc ph) <> None /\ forall p, p <> b -> exists ph', In ph' (phis db) /\ get p (inc ph) = get p (inc ph')).
Proof.
  intros Hb Ht Hd Hin Hpp Hpa Hu. unfold newPhis. destruct (phis db) as [|ph0 l] eqn:El.
  - intros [= <-]. repeat split; auto; try contradiction.
  - rewrite <- El in *. destruct (hasSource b ph0) eqn:Es.
    + destruct (forallb (sameVal b t tb) (phis db)) eqn:Efa; try discriminate. intros [= <-].
      split; [|split; [|split; [|split; [|split]]]]; auto; try tauto.
      * intros args e vs H. rewrite (rdPhis_same args e (phis db) b t tb); auto.
      * eauto.
      * intros ph Hph. split; [|eauto]. rewrite forallb_forall in Efa. specialize (Efa ph Hph). unfold sameVal in Efa.
        destruct (newVal b t tb ph), (get b (inc ph)); congruence.
    + intros [= <-].
      assert (Hn : ~ In d (succs (trm bk))).
      { intros H. apply (Hpa d db ph0 b bk Hd); auto; [rewrite El; cbn; auto|]. unfold hasSource in Es. destruct (get b (inc ph0)); congruence. }
      assert (Hnb : forall ph, In ph (phis db) -> get b (inc ph) = None).
      { intros ph Hph. apply pred_get. intros o Ho. destruct (Hpp d db ph b o Hd Hph Ho) as (pb & Hp & Hs). assert (pb = bk) by congruence. subst pb. tauto. }
      split; [|split; [|split; [|split; [|split]]]].
      * intros args e vs H. apply rdPhis_add_new; auto.
      * intros args e vs H. exfalso. rewrite El in H. cbn in H. rewrite (Hnb ph0) in H by (rewrite El; cbn; auto). discriminate.
      * intros. now apply rdPhis_add_other.
      * destruct (phis db); cbn; split; congruence.
      * intros ph p o Hph Hi. apply in_map_iff in Hph. destruct Hph as (ph' & <- & Hph'). unfold addVal in Hi. destruct (newVal b t tb ph'); [|eauto].
        cbn in Hi. apply in_app_iff in Hi. destruct Hi as [Hi|[Hi|[]]]; [eauto|]. left. congruence.
      * intros ph Hph. apply in_map_iff in Hph. destruct Hph as (ph' & <- & Hph').
        unfold addVal. rewrite newVal_plain. 2:{ intros x Hx. apply Hu. now apply (phiUses_in ph'). }
        pose proof (Hpa d db ph' t tb Hd Hph' Ht Hin) as Hne. destruct (get t (inc ph')) as [v|]; [|congruence]. cbn [inc]. split.
        -- rewrite get_app_None by auto. discriminate.
        -- intros p Hp. exists ph'. split; auto. now apply get_app_ne.
Qed.

Lemma tryForward_ok k f b a : distinctArms f b = true -> phiPreds f -> phiAll f ->
  refines k f (tryForward b a f) /\ phiPreds (tryForward b a f) /\ phiAll (tryForward b a f) /\ map fst (tryForward b a f) = map fst f /\
  sameResults f (tryForward b a f) /\ (closed f -> closed (tryForward b a f)).
Proof.
  intros Hda Hpp Hpa. unfold tryForward.
  destruct (get b f) as [bk|] eqn:Eb; [|auto 10 using refines_refl, sameResults_refl].
  unfold distinctArms in Hda. rewrite Eb in Hda.
  destruct (trm bk) as [x|cond x y|c cs x|v|] eqn:Etm; try discriminate. rewrite <- Etm.
  assert (Hxy : x <> y) by (destruct (Nat.eqb_spec x y); [discriminate|auto]). clear Hda.
  destruct (armOf (trm bk) a) as [T|] eqn:Ea; [|auto 10 using refines_refl, sameResults_refl].
  destruct (Nat.eqb_spec T b) as [->|DTb]; [auto 10 using refines_refl, sameResults_refl|].
  destruct (get T f) as [tb|] eqn:ET; [|auto 10 using refines_refl, sameResults_refl].
  destruct (directTarget f b cond a tb) as [[D hp]|] eqn:Edt; [|auto 10 using refines_refl, sameResults_refl].
  destruct (Nat.eqb_spec T D) as [->|DTD]; [auto 10 using refines_refl, sameResults_refl|].
  destruct (get D f) as [db|] eqn:ED; [|auto 10 using refines_refl, sameResults_refl].
  destruct (newPhis b T tb db) as [pD|] eqn:Epd; [|auto 10 using refines_refl, sameResults_refl].
  destruct (directTarget_ok f b cond a tb D hp Edt) as (Hbody & HcT & HinD & Hp0 & Hp1 & Hrun).
  set (X := map pdst (phis tb)).
  assert (HX : forall k0 bk0 x, get k0 f = Some bk0 -> In x (usesOf bk0) -> In x X -> k0 = T /\ ~ In x (phiUses (phis tb))).
  { intros k0 bk0 z Hk Hz HzX. destruct hp; [|unfold X in HzX; rewrite Hp0 in HzX by auto; contradiction].
    destruct (Hp1 eq_refl) as (ph & Eph & Hone & Htu). unfold X in HzX. rewrite Eph in HzX. destruct HzX as [<-|[]].
    apply Nat.eqb_eq in Hone.
    assert (HTin : In (pdst ph) (usesOf tb)) by (unfold usesOf; rewrite Htu; apply in_or_app; right; apply in_or_app; right; cbn; auto).
    split.
    - destruct (Nat.eq_dec k0 T) as [|Dk]; auto. exfalso.
      assert (D2 : (k0, bk0) <> (T, tb)) by congruence.
      pose proof (count_two (pdst ph) f k0 bk0 T tb (get_In _ _ _ Hk) (get_In _ _ _ ET) D2 Hz HTin). lia.
    - intros Hph. pose proof (count_in (pdst ph) f T tb (get_In _ _ _ ET)) as Hc. unfold usesOf in Hc. rewrite !count_occ_app, Htu in Hc.
      cbn in Hc. destruct (Nat.eq_dec (pdst ph) (pdst ph)); [|congruence].
      apply (count_occ_In Nat.eq_dec) in Hph. lia. }
  assert (HuD : forall z, In z (phiUses (phis db)) -> ~ In z X).
  { intros z Hz HzX. destruct (HX D db z ED) as [E _]; auto. apply in_or_app. auto. }
  destruct (newPhis_ok f b T tb db D bk pD Eb ET ED HinD Hpp Hpa HuD Epd) as (N1 & N2 & N3 & N4 & N5 & N6).
  set (pT := if hp then map (removeSource b) (phis tb) else phis tb).
  set (tm' := setArm a D (trm bk)).
  set (g := if hp then onBlock T (fun k0 => setPhis (map (removeSource b) (phis k0)) k0)
                        (onBlock b (fun k0 => setTerm (setArm a D (trm k0)) k0) (onBlock D (setPhis pD) f))
            else onBlock b (fun k0 => setTerm (setArm a D (trm k0)) k0) (onBlock D (setPhis pD) f)).
  assert (Hg : forall k0, get k0 g = option_map (fun bk0 =>
     Block (if Nat.eqb k0 D then pD else if Nat.eqb k0 T then pT else phis bk0) (body bk0) (if Nat.eqb k0 b then tm' else trm bk0)) (get k0 f)).
  { intros k0.
    assert (E : get k0 (onBlock b (fun k0 => setTerm (setArm a D (trm k0)) k0) (onBlock D (setPhis pD) f)) =
       option_map (fun bk0 => Block (if Nat.eqb k0 D then pD else phis bk0) (body bk0) (if Nat.eqb k0 b then tm' else trm bk0)) (get k0 f)).
    { rewrite !get_onBlock. destruct (get k0 f) as [kb|] eqn:Ek; cbn; auto. unfold tm'. f_equal.
      destruct (Nat.eqb_spec k0 D) as [E1|E1], (Nat.eqb_spec k0 b) as [E2|E2]; cbn;
        try (assert (kb = bk) by congruence; subst kb); try reflexivity. destruct kb; reflexivity. }
    unfold g, pT. destruct hp.
    - rewrite get_onBlock, E. destruct (get k0 f) as [kb|] eqn:Ek; cbn [option_map]; auto. f_equal.
      destruct (Nat.eqb_spec k0 T) as [->|]; auto. destruct (Nat.eqb_spec T D); [contradiction|]. assert (kb = tb) by congruence. subst kb. reflexivity.
    - rewrite E. destruct (get k0 f) as [kb|] eqn:Ek; cbn [option_map]; auto. f_equal. f_equal.
      destruct (Nat.eqb k0 D); auto. destruct (Nat.eqb_spec k0 T) as [->|]; auto. congruence. }
  assert (Hfst : map fst g = map fst f).
  { unfold g, onBlock. destruct hp; rewrite ?map_map; apply map_ext; intros [? ?]; reflexivity. }
  change (refines k f g /\ phiPreds g /\ phiAll g /\ map fst g = map fst f /\ sameResults f g /\ (closed f -> closed g)).
  assert (Hnew : forall z, In z (succs tm') -> z = D \/ (In z (succs (trm bk)) /\ z <> T)).
  { intros z Hz. destruct (setArm_succs _ _ _ _ _ Ea Hz) as [->|H]; auto. right. split; [exact (arm_succs _ _ _ H)|].
    rewrite Etm in Ea, H. destruct a; cbn in Ea, H; congruence. }
  assert (Hold : forall z, In z (succs (trm bk)) -> z = T \/ In z (succs tm')).
  { intros z Hz. unfold tm'. rewrite Etm in Hz, Ea |- *. destruct a; cbn in Hz, Ea |- *; injection Ea as <-; intuition congruence. }
  assert (HnT : ~ In T (succs tm')) by (intros H; destruct (Hnew T H) as [H'|[_ H']]; congruence).
  clearbody g. split; [|split; [|split; [|split; [|split]]]]; auto.
  - apply (skip_ok f g b T D bk tb db tm' pD pT); auto.
    + destruct f as [|[x0 y0] f0], g as [|[x' y'] g0]; cbn in Hfst |- *; congruence.
    + intros z Hz HzX. destruct (HX T tb z ET) as [_ E]; auto. apply in_or_app. auto.
    + intros k0 bk0 Hk Dk z Hz HzX. destruct (HX k0 bk0 z Hk Hz HzX). contradiction.
    + intros args e. destruct (setArm_run args e (trm bk) a D T Ea) as [H|[H|[H H']]]; auto. right. right. split; [auto|]. split; [auto|].
      intros e1 He1. left. rewrite Etm in H, Ea. cbn in H. destruct (rd args e cond) as [v|] eqn:Ev; try discriminate.
      apply (Hrun args e e1 v Ev); auto. destruct (truth v) as [[]|]; destruct a; cbn in Ea; congruence.
    + intros z Hz HzX. unfold tm' in Hz. rewrite setArm_uses in Hz. destruct (HX b bk z Eb) as [E _]; auto. apply in_or_app. right. apply in_or_app. auto.
    + intros args e p Hp. unfold pT. destruct hp; auto. destruct Hp as [Hp|Hp]; [|tauto]. now apply rdPhis_removeSource.
    + unfold pT. destruct hp; [|tauto]. destruct (phis tb); cbn; split; congruence.
  - intros k0 bk0 ph p o Hk Hph Hin. rewrite Hg in Hk. destruct (get k0 f) as [kb|] eqn:Ek; try discriminate. cbn in Hk. injection Hk as <-. cbn in Hph.
    assert (Old : (exists ph', In ph' (phis kb) /\ In (p, o) (inc ph')) -> (k0 <> T \/ p <> b) -> exists pb, get p g = Some pb /\ In k0 (succs (trm pb))).
    { intros (ph' & Hph' & Hin') Dk. destruct (Hpp k0 kb ph' p o Ek Hph' Hin') as (pb & Hp & Hs). rewrite Hg, Hp. cbn. eexists; split; [reflexivity|].
      cbn. destruct (Nat.eqb_spec p b) as [->|]; auto. assert (pb = bk) by congruence. subst pb. destruct (Hold k0 Hs) as [->|]; auto. destruct Dk; congruence. }
    destruct (Nat.eqb_spec k0 D) as [->|].
    + assert (kb = db) by congruence. subst kb. destruct (N5 ph p o Hph Hin) as [->|H]; auto.
      rewrite Hg, Eb. cbn. rewrite Nat.eqb_refl. eexists; split; [reflexivity|]. cbn. exact (setArm_has _ _ _ _ Ea).
    + destruct (Nat.eqb_spec k0 T) as [->|]; [|apply Old; eauto]. assert (kb = tb) by congruence. subst kb. unfold pT in Hph. destruct hp.
      * apply in_map_iff in Hph. destruct Hph as (ph' & <- & Hph'). apply removeSource_In in Hin. destruct Hin as [Dp Hin]. apply Old; eauto.
      * rewrite Hp0 in Hph by auto. contradiction.
  - intros k0 bk0 ph p pb Hk Hph Hp Hs. rewrite Hg in Hk, Hp. destruct (get k0 f) as [kb|] eqn:Ek; try discriminate. cbn in Hk. injection Hk as <-. cbn in Hph.
    destruct (get p f) as [pb0|] eqn:Ep; try discriminate. cbn in Hp. injection Hp as <-. cbn in Hs.
    assert (Old : (p = b -> k0 <> D) -> k0 <> T -> forall ph', In ph' (phis kb) -> get p (inc ph') <> None).
    { intros D1 D2 ph' Hph'. apply (Hpa k0 kb ph' p pb0 Ek Hph' Ep). destruct (Nat.eqb_spec p b) as [->|]; auto.
      assert (pb0 = bk) by congruence. subst pb0. destruct (Hnew k0 Hs) as [H|[H _]]; auto. exfalso. apply D1; auto. }
    destruct (Nat.eqb_spec k0 D) as [->|].
    + assert (kb = db) by congruence. subst kb. destruct (N6 ph Hph) as [H1 H2]. destruct (Nat.eq_dec p b) as [->|Dp]; auto.
      destruct (H2 p Dp) as (ph' & Hph' & ->). apply Old; auto.
    + destruct (Nat.eqb_spec k0 T) as [->|]; [|apply Old; auto]. assert (kb = tb) by congruence. subst kb.
      assert (Dp : p <> b). { intros ->. rewrite Nat.eqb_refl in Hs. tauto. }
      rewrite (proj2 (Nat.eqb_neq _ _) Dp) in Hs. unfold pT in Hph. destruct hp.
      * apply in_map_iff in Hph. destruct Hph as (ph' & <- & Hph'). rewrite get_removeSource by auto. apply (Hpa T tb ph' p pb0 ET); auto.
      * apply (Hpa T tb ph p pb0 ET); auto.
  - intros k0 kb' Hk. rewrite Hg in Hk. destruct (get k0 f) as [kb|] eqn:Ek; try discriminate. cbn in Hk. injection Hk as <-. exists kb. split; auto.
    unfold resultsOf. cbn. f_equal. destruct (Nat.eqb_spec k0 D) as [->|].
    + assert (kb = db) by congruence. subst kb. clear - Epd. unfold newPhis in Epd. destruct (phis db) as [|ph l]; [injection Epd as <-; reflexivity|].
      destruct (hasSource b ph); [destruct (forallb (sameVal b T tb) (ph :: l)); [injection Epd as <-; reflexivity|discriminate]|]. injection Epd as <-.
      assert (A : forall q, pdst (addVal b T tb q) = pdst q) by (intros q; unfold addVal; destruct (newVal b T tb q); reflexivity).
      cbn. rewrite A, map_map. f_equal. apply map_ext. exact A.
    + destruct (Nat.eqb_spec k0 T) as [->|]; auto. assert (kb = tb) by congruence. subst kb. unfold pT. destruct hp; auto. now rewrite map_map.
  - intros Hc k0 kb' x0 Hk Hx. rewrite Hfst. rewrite Hg in Hk. destruct (get k0 f) as [kb|] eqn:Ek; try discriminate. cbn in Hk. injection Hk as <-. cbn in Hx.
    destruct (Nat.eqb_spec k0 b) as [->|]; [|exact (Hc k0 kb x0 Ek Hx)]. destruct (Hnew x0 Hx) as [->|[H _]].
    + exact (Hc T tb D ET HinD).
    + exact (Hc b bk x0 Eb H).
Qed.

Theorem forwardBranchChecked_ok k f : phiPreds f -> phiAll f -> refines k f (forwardBranchChecked f).
Proof.
  unfold forwardBranchChecked. generalize (map fst f). intros l. revert f.
  induction l as [|b l IH]; intros f Hp Ha; cbn [fold_left]; [apply refines_refl|].
  assert (H : refines k f (forwardBranchChecked1 f b) /\ phiPreds (forwardBranchChecked1 f b) /\ phiAll (forwardBranchChecked1 f b)).
  { unfold forwardBranchChecked1. destruct (distinctArms f b) eqn:E1; [|auto 10 using refines_refl, sameResults_refl].
    destruct (tryForward_ok k f b true E1 Hp Ha) as (R1 & A1 & B1 & _).
    destruct (distinctArms (tryForward b true f) b) eqn:E2; [|auto].
    destruct (tryForward_ok k _ b false E2 A1 B1) as (R2 & A2 & B2 & _). split; auto. eapply refines_trans; eauto. }
  destruct H as (R1 & A1 & B1). eapply refines_trans; [exact R1|]. auto.
Qed.

(** ** UnifyReturn *)
(** UnifyReturn.cpp:48-55: the blocks that return, with the value *)
Definition retOf (x : nat * block) : option (nat * option opnd) := match trm (snd x) with TRet v => Some (fst x, v) | _ => None end.
Fixpoint filterMap {A B} (h : A -> option B) (l : list A) : list B :=
  match l with [] => [] | a :: l' => match h a with Some b => b :: filterMap h l' | None => filterMap h l' end end.
Definition retsOf (f : func) : list (nat * option opnd) := filterMap retOf f.
(** lines 70-82: replace the ret by a branch *)
Definition branchTo (ex : nat) (bk : block) : block := match trm bk with TRet _ => setTerm (TBr ex) bk | _ => bk end.
(** lines 58-65, 84-88.  [ex]: the new block, [px]: its phi *)
Definition exitBlock (isVoid : bool) (px : nat) (rets : list (nat * option opnd)) : block :=
  if isVoid then Block [] [] (TRet None)
  else Block [Phi px (filterMap (fun r => match snd r with Some o => Some (fst r, o) | None => None end) rets)] [] (TRet (Some (ORes px))).
Definition unifyReturn (noReturn isVoid : bool) (ex px : nat) (f : func) : func :=
  if noReturn then f else if Nat.eqb (length f) 1 then f else if Nat.leb (length (retsOf f)) 1 then f
  else map (fun x => (fst x, branchTo ex (snd x))) f ++ [(ex, exitBlock isVoid px (retsOf f))].

Lemma get_app {A} k (l1 l2 : list (nat * A)) : get k (l1 ++ l2) = match get k l1 with Some a => Some a | None => get k l2 end.
Proof. induction l1 as [|[x a] l1 IH]; cbn; auto. destruct (Nat.eqb x k); auto. Qed.
Lemma get_incs f b bk o : get b f = Some bk -> trm bk = TRet (Some o) -> 
  (forall b' bk', get b' f = Some bk' -> trm bk' <> TRet None) -> NoDup (map fst f) ->
  get b (filterMap (fun r => match snd r with Some o => Some (fst r, o) | None => None end) (retsOf f)) = Some o.
Proof.
  unfold retsOf. induction f as [|[x xb] f IH]; cbn [get]; [discriminate|]. intros Hb Ht Hn N.
  cbn [map fst] in N. inversion N as [|? ? N1 N2]; subst. destruct (Nat.eqb_spec x b) as [->|D].
  - injection Hb as ->. cbn. unfold retOf at 1. cbn [snd fst]. rewrite Ht. cbn. now rewrite Nat.eqb_refl.
  - cbn. unfold retOf at 1. cbn [snd fst]. assert (IH' : get b (filterMap (fun r => match snd r with Some o => Some (fst r, o) | None => None end) (filterMap retOf f)) = Some o).
    { apply IH; auto. intros b' bk' Hb'. apply (Hn b'). cbn. destruct (Nat.eqb_spec x b') as [->|]; auto.
      exfalso. apply N1. apply get_In in Hb'. apply in_map_iff. exists (b', bk'). auto. }
    destruct (trm xb) as [| | |[v|]|]; cbn; auto. destruct (Nat.eqb_spec x b); [contradiction|]. exact IH'.
Qed.

Theorem unifyReturn_ok k noReturn isVoid ex px f : ~ In ex (map fst f) -> NoDup (map fst f) ->
  (forall b bk v, get b f = Some bk -> trm bk = TRet v -> isVoid = true <-> v = None) ->
  refines k f (unifyReturn noReturn isVoid ex px f).
Proof.
  intros Hex Hnd Hty. unfold unifyReturn. destruct noReturn; [apply refines_refl|]. destruct (Nat.eqb (length f) 1); [apply refines_refl|].
  destruct (Nat.leb (length (retsOf f)) 1) eqn:El; [apply refines_refl|].
  set (g := map (fun x => (fst x, branchTo ex (snd x))) f ++ [(ex, exitBlock isVoid px (retsOf f))]).
  intros W m args w _. apply (sim_refines (step m args f) (step m args g) eq).
  2:{ unfold start, g. f_equal. destruct f as [|[x y] f']; [discriminate El|reflexivity]. }
  intros s s' Hs <-.
  destruct (get (cur s) f) as [bk|] eqn:Eg.
  2:{ exfalso. apply (safe_step m args f s [] Hs). unfold step. now rewrite Eg. }
  assert (Hg : get (cur s) g = Some (branchTo ex bk)).
  { unfold g. rewrite get_app, (get_map (branchTo ex)), Eg. reflexivity. }
  assert (Hge : get ex g = Some (exitBlock isVoid px (retsOf f))).
  { unfold g. rewrite get_app, (get_map (branchTo ex)). rewrite (proj2 (get_None ex f) Hex). cbn. now rewrite Nat.eqb_refl. }
  assert (E1 : step m args f s = runBlock m args (cur s) bk (prev s) (en s) (wd s)) by (unfold step; now rewrite Eg).
  assert (E2 : step m args g s = runBlock m args (cur s) (branchTo ex bk) (prev s) (en s) (wd s)) by (unfold step; now rewrite Hg).
  pose proof (fun u => safe_step m args f s u Hs) as Hsb.
  destruct (trm bk) as [x|c x y|c cs x|v|] eqn:Etm; unfold branchTo in E2; rewrite Etm in E2.
  1-3,5: apply meets1; rewrite E1, E2; rewrite E1 in Hsb; destruct (runBlock m args (cur s) bk (prev s) (en s) (wd s)) eqn:Er; auto; apply (Hsb t); reflexivity.
  unfold runBlock in E1, E2. cbn [phis body trm setTerm] in E2. rewrite Etm in E1.
  destruct (enter args (en s) (prev s) (phis bk)) as [e1|]; [|exfalso; exact (Hsb [] E1)].
  destruct (runBody m args e1 (wd s) (body bk)) as [e2 w2 t2|w2 t2|t2].
  3:{ exfalso. exact (Hsb t2 E1). }
  2:{ apply meets1. rewrite E1, E2. auto. }
  cbn [runTerm] in E2. destruct (Hty (cur s) bk v Eg Etm) as [T1 T2].
  exists 1%nat, 2%nat. split; [lia|]. split; [lia|]. cbn [run]. rewrite E1, E2.
  assert (E3 : step m args g (St ex (Some (cur s)) e2 w2) = runBlock m args ex (exitBlock isVoid px (retsOf f)) (Some (cur s)) e2 w2).
  { unfold step. cbn [cur prev en wd]. now rewrite Hge. }
  rewrite E3. unfold exitBlock, runBlock. destruct v as [o|].
  - destruct isVoid; [specialize (T1 eq_refl); discriminate|]. cbn [phis body trm enter rdPhis inc].
    rewrite (get_incs f (cur s) bk o Eg Etm); auto.
    2:{ intros b' bk' Hb' Ht'. destruct (Hty b' bk' None Hb' Ht') as [_ T3]. specialize (T3 eq_refl). discriminate. }
    cbn in E1 |- *. destruct (rd args e2 o) as [u|]; [|exfalso; exact (Hsb t2 E1)].
    cbn. rewrite upd_eq. cbn. rewrite app_nil_r. auto.
  - rewrite (T2 eq_refl). cbn. rewrite app_nil_r. auto.
Qed.
