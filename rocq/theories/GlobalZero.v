(** C60: GlobalZeroEliminate (cmmc/Transforms/Misc/GlobalZeroEliminate.cpp): the zeros at the end of an initial value are left to the loader.
    The bytes a variable starts with are those of cmmc/CodeGen/Lowering.cpp. *)
From Coq Require Import ZArith Lia Bool List Arith.
Import ListNotations.

(** ** the model *)
(** types of initial values: integers of some bytes, floats, arrays (cmmc/IR/Type.hpp); structs have no initial values in Lowering.cpp:321-359 *)
Inductive ity := TyI (bytes : nat) | TyF | TyA (count : nat) (elem : ity).
(** cmmc/IR/ConstantValue.hpp: ConstantInteger, ConstantFloatingPoint (its 32 bits), ConstantArray *)
Inductive cst := CI (z : Z) | CF (bits : Z) | CA (l : list cst).
Fixpoint tySize (t : ity) : nat := match t with TyI n => n | TyF => 4 | TyA n s => n * tySize s end.
(** ConstantInteger::getZeroExtended *)
Definition zext (n : nat) (z : Z) : Z := (z mod 2 ^ (8 * Z.of_nat n))%Z.
(** while(!sub.empty() && p(sub.back())) sub.pop_back(); *)
Fixpoint trim {A} (p : A -> bool) (l : list A) : list A :=
  match l with [] => [] | x :: l' => match trim p l' with [] => if p x then [] else [x] | l2 => x :: l2 end end.
Definition emptyArr (c : cst) : bool := match c with CA [] => true | _ => false end.
Definition zeroInt (n : nat) (c : cst) : bool := match c with CI z => Z.eqb (zext n z) 0 | _ => false end.
Definition trims {A} (p : A -> bool) (l : list A) : bool := negb (Nat.eqb (length (trim p l)) (length l)).
(** GlobalZeroEliminate.cpp:42-66 clear: the array as it is changed in place, and what the function returns *)
Fixpoint clear (t : ity) (c : cst) : cst * bool :=
  match t, c with
  | TyA _ s, CA l =>
    let '(l2, m) := match s with
      | TyA _ _ => let r := map (clear s) l in (trim emptyArr (map fst r), existsb snd r || trims emptyArr (map fst r))
      | TyI n => (trim (zeroInt n) l, trims (zeroInt n) l)
      | TyF => (l, false)
      end in
    (CA l2, m || match l2 with [] => true | _ => false end)
  | _, _ => (c, false)
  end.
(** lines 69-87: one variable; no initial value is a nullptr *)
Definition clearVar (t : ity) (i : option cst) : option cst * bool :=
  match t, i with
  | TyA _ _, Some c => let '(c', m) := clear t c in if emptyArr c' then (None, true) else (Some c', m)
  | _, _ => (i, false)
  end.
Definition globalZeroEliminate (vars : list (ity * option cst)) : list (ity * option cst) * bool :=
  (map (fun v => (fst v, fst (clearVar (fst v) (snd v)))) vars, existsb (fun v => snd (clearVar (fst v) (snd v))) vars).

(** ** the specification: the bytes a variable starts with *)
Fixpoint le (n : nat) (z : Z) : list Z := match n with 0 => [] | S k => (z mod 256)%Z :: le k (z / 256)%Z end.
(** Lowering.cpp:324-360 expand (the integers of lines 338-352 have 1, 2 or 4 bytes; the little-endian order) *)
Fixpoint image (t : ity) (c : cst) : list Z :=
  match t, c with
  | TyI n, CI z => le n z
  | TyF, CF w => le 4 w
  | TyA n s, CA l => concat (map (image s) l) ++ repeat 0%Z (tySize s * (n - length l))
  | _, _ => []
  end.
(** Lowering.cpp:316-368: with an initial value, and without (bss) *)
Definition varImage (t : ity) (i : option cst) : list Z := match i with Some c => image t c | None => repeat 0%Z (tySize t) end.
(** an initial value has the type of the variable; arrays may be shorter.  Integers have 1, 2 or 4 bytes: Lowering.cpp:338-352 emits nothing for others *)
Inductive hasType : ity -> cst -> Prop :=
| ht_int n z : n = 1 \/ n = 2 \/ n = 4 -> hasType (TyI n) (CI z)
| ht_flt w : hasType TyF (CF w)
| ht_arr n s l : length l <= n -> (forall c, In c l -> hasType s c) -> hasType (TyA n s) (CA l).

(** ** proofs *)
Lemma trim_split {A} (p : A -> bool) l : exists l2, l = trim p l ++ l2 /\ forall x, In x l2 -> p x = true.
Proof.
  induction l as [|x l (l2 & E & H)]; [exists []; split; [reflexivity|intros ? []]|]. cbn [trim]. destruct (trim p l) as [|y l1] eqn:Et.
  - cbn [app] in E. subst l2. destruct (p x) eqn:Ep.
    + exists (x :: l). split; auto. intros y [<-|Hy]; auto.
    + exists l. split; auto.
  - exists l2. split; [cbn; f_equal; exact E|exact H].
Qed.
Lemma trim_last {A} (p : A -> bool) l l1 x : trim p l = l1 ++ [x] -> p x = false.
Proof.
  revert l1. induction l as [|a l IH]; intros l1; cbn [trim]; [destruct l1; discriminate|]. destruct (trim p l) as [|y l2] eqn:Et.
  - destruct (p a) eqn:Ep; intros E; [destruct l1; discriminate|]. destruct l1 as [|b [|c l1]]; cbn in E; try discriminate. now injection E as <-.
  - intros E. destruct l1 as [|b l1]; cbn in E; [discriminate|]. injection E as _ E. exact (IH l1 E).
Qed.
Lemma trims_false {A} (p : A -> bool) l : trims p l = false -> trim p l = l.
Proof.
  unfold trims. intros H. apply negb_false_iff, Nat.eqb_eq in H. destruct (trim_split p l) as (l2 & E & _). rewrite E in H at 2. rewrite app_length in H.
  destruct l2; [|cbn in H; lia]. rewrite app_nil_r in E. now symmetry.
Qed.
Lemma le_zero n : forall z, zext n z = 0%Z -> le n z = repeat 0%Z n.
Proof.
  unfold zext. induction n as [|n IH]; intros z H; [reflexivity|]. cbn [le repeat].
  replace (8 * Z.of_nat (S n))%Z with (8 + 8 * Z.of_nat n)%Z in H by lia. rewrite Z.pow_add_r in H by lia. change (2 ^ 8)%Z with 256%Z in H.
  assert (P : (0 < 2 ^ (8 * Z.of_nat n))%Z) by (apply Z.pow_pos_nonneg; lia). rewrite Z.rem_mul_r in H by lia.
  pose proof (Z.mod_pos_bound z 256 ltac:(lia)). pose proof (Z.mod_pos_bound (z / 256) _ P). rewrite IH by nia. f_equal. nia.
Qed.
Lemma repeat_concat {A} (x : A) k n : concat (repeat (repeat x k) n) = repeat x (k * n).
Proof. induction n as [|n IH]; cbn; [now rewrite Nat.mul_0_r|]. rewrite IH, <- repeat_app. f_equal. lia. Qed.
Lemma image_trim (s : ity) n l l1 l2 : l = l1 ++ l2 -> length l <= n -> (forall c, In c l2 -> image s c = repeat 0%Z (tySize s)) ->
  image (TyA n s) (CA l1) = image (TyA n s) (CA l).
Proof.
  intros -> L H. cbn [image]. rewrite map_app, concat_app, <- app_assoc. f_equal. rewrite app_length in *.
  assert (E : concat (map (image s) l2) = repeat 0%Z (tySize s * length l2)).
  { rewrite <- repeat_concat. f_equal. clear L. induction l2 as [|c l2 IH]; cbn; auto. rewrite H by now left. f_equal. apply IH. intros x Hx. apply H. now right. }
  rewrite E, <- repeat_app. f_equal. nia.
Qed.
Lemma clear_spec t : forall c, hasType t c -> image t (fst (clear t c)) = image t c /\ hasType t (fst (clear t c)) /\ (snd (clear t c) = false -> fst (clear t c) = c).
Proof.
  induction t as [k| |n s IH]; intros c H; inversion H; subst; try (cbn; split; [reflexivity|split; [assumption|auto]]).
  match goal with L : length l <= n, T : forall c, In c l -> _ |- _ => rename L into Hl, T into Ht end.
  assert (Tr : forall p l0, length l0 <= n -> (forall c, In c l0 -> hasType s c) -> (forall c, In c l0 -> p c = true -> image s c = repeat 0%Z (tySize s)) ->
    image (TyA n s) (CA (trim p l0)) = image (TyA n s) (CA l0) /\ hasType (TyA n s) (CA (trim p l0))).
  { intros p l0 L T Z. destruct (trim_split p l0) as (l2 & E & P). split.
    - apply (image_trim s n l0 _ l2 E L). intros c Hc. apply Z; [rewrite E; apply in_or_app; auto|now apply P].
    - constructor; [apply (f_equal (@length _)) in E; rewrite app_length in E; lia|]. intros c Hc. apply T. rewrite E. apply in_or_app. auto. }
  destruct s as [k| |n2 s2].
  - cbn [clear fst snd]. destruct (Tr (zeroInt k) l Hl Ht) as [A B].
    { intros c Hc Z. specialize (Ht c Hc). inversion Ht; subst. cbn in Z |- *. apply Z.eqb_eq in Z. now apply le_zero. }
    split; [exact A|]. split; [exact B|]. intros E. apply orb_false_iff in E as [E _]. now rewrite (trims_false _ _ E).
  - cbn [clear fst snd]. split; [reflexivity|]. split; [exact H|auto].
  - set (s := TyA n2 s2) in *.
    assert (E : clear (TyA n s) (CA l) = (CA (trim emptyArr (map fst (map (clear s) l))),
      (existsb snd (map (clear s) l) || trims emptyArr (map fst (map (clear s) l))) || match trim emptyArr (map fst (map (clear s) l)) with [] => true | _ => false end)) by reflexivity.
    rewrite E. cbn [fst snd]. clear E. rewrite map_map.
    destruct (Tr emptyArr (map (fun x => fst (clear s x)) l)) as [A B].
    + now rewrite map_length.
    + intros c Hc. apply in_map_iff in Hc as (c0 & <- & Hc). now apply IH, Ht.
    + intros c Hc Z. destruct c as [z|w|[|x l0]]; try discriminate. cbn [s image map concat app length tySize]. rewrite Nat.sub_0_r. f_equal. lia.
    + split; [|split; [exact B|]].
      * rewrite A. cbn [image]. rewrite map_map, map_length. f_equal. f_equal. apply map_ext_in. intros c Hc. now apply IH, Ht.
      * intros Z. apply orb_false_iff in Z as [Z _]. apply orb_false_iff in Z as [Z1 Z2]. rewrite (trims_false _ _ Z2). f_equal.
        rewrite <- (map_id l) at 2. apply map_ext_in. intros c Hc. apply IH; [now apply Ht|].
        apply not_true_iff_false. intros K. apply not_true_iff_false in Z1. apply Z1. apply existsb_exists. exists (clear s c). split; auto. now apply in_map.
Qed.

(** ** the properties *)
(** every variable starts with the same bytes, and its initial value still has its type *)
Theorem C60_variable_keeps_its_bytes : forall t i, (forall c, i = Some c -> hasType t c) ->
  varImage t (fst (clearVar t i)) = varImage t i /\ forall c, fst (clearVar t i) = Some c -> hasType t c.
Proof.
  intros t i H. destruct t as [k| |n s]; try (cbn; auto; fail). destruct i as [c|]; [|cbn; auto].
  destruct (clear_spec _ c (H c eq_refl)) as (A & B & _). cbn [clearVar]. destruct (clear (TyA n s) c) as [c' m]. cbn [fst snd] in *.
  destruct c' as [z|w|[|x l]]; cbn [emptyArr fst]; try (split; [exact A|intros ? [= <-]; exact B]).
  split; [|discriminate]. cbn [varImage]. rewrite <- A. cbn [image map concat app length tySize]. rewrite Nat.sub_0_r. f_equal. lia.
Qed.
Theorem C60_module_keeps_its_bytes : forall vars, (forall t c, In (t, Some c) vars -> hasType t c) ->
  map (fun v => varImage (fst v) (snd v)) (fst (globalZeroEliminate vars)) = map (fun v => varImage (fst v) (snd v)) vars /\
  map fst (fst (globalZeroEliminate vars)) = map fst vars /\
  (snd (globalZeroEliminate vars) = false -> fst (globalZeroEliminate vars) = vars).
Proof.
  intros vars H. cbn [globalZeroEliminate fst snd]. rewrite !map_map. cbn [fst snd]. split; [|split; [reflexivity|]].
  - apply map_ext_in. intros [t i] Hv. cbn [fst snd]. apply C60_variable_keeps_its_bytes. intros c ->. exact (H t c Hv).
  - intros E. rewrite <- (map_id vars) at 2. apply map_ext_in. intros [t i] Hv. cbn [fst snd]. f_equal.
    assert (K : snd (clearVar t i) = false).
    { apply not_true_iff_false. intros K. apply not_true_iff_false in E. apply E. apply existsb_exists. exists (t, i). auto. }
    destruct t as [k| |n s]; auto. destruct i as [c|]; auto. cbn [clearVar] in *. destruct (clear_spec _ c (H _ _ Hv)) as (_ & _ & C).
    destruct (clear (TyA n s) c) as [c' m]. cbn [fst snd] in *. destruct (emptyArr c'); [discriminate|]. cbn [fst snd] in *. now rewrite (C K).
Qed.
(** an array of integers that is left ends in something else than zero, and an array of arrays in one that has values *)
Theorem C60_no_zero_at_the_end : forall n s i l x, fst (clearVar (TyA n s) i) = Some (CA (l ++ [x])) ->
  match s with TyI k => forall z, x = CI z -> zext k z <> 0%Z | TyA _ _ => x <> CA [] | TyF => True end.
Proof.
  intros n s [c|] l x H; [|discriminate]. destruct c as [z|w|l0]; try (cbn in H; discriminate). cbn [clearVar] in H. destruct s as [k| |n2 s2]; auto.
  - intros z ->. cbn [clear] in H. destruct (emptyArr (CA (trim (zeroInt k) l0))); [discriminate|]. cbn [fst] in H. injection H as H. apply trim_last in H. cbn in H. now apply Z.eqb_neq.
  - intros ->. change (clear (TyA n (TyA n2 s2)) (CA l0)) with (let '(l2, m) := (trim emptyArr (map fst (map (clear (TyA n2 s2)) l0)),
      existsb snd (map (clear (TyA n2 s2)) l0) || trims emptyArr (map fst (map (clear (TyA n2 s2)) l0))) in (CA l2, m || match l2 with [] => true | _ => false end)) in H.
    cbv beta iota zeta in H. destruct (emptyArr _); [discriminate|]. cbn [fst] in H. injection H as H. apply trim_last in H. discriminate.
Qed.

(** ** examples: int a[3][4] = {{1, 0, 2^32}, {0, 0}, {0}}; char b[2]; short c[2] = {0, 65536}; float d[2] = {1.0, 0.0} *)
Definition zv : list (ity * option cst) :=
  [(TyA 3 (TyA 4 (TyI 4)), Some (CA [CA [CI 1; CI 0; CI 4294967296]; CA [CI 0; CI 0]; CA [CI 0]])); (TyI 1, Some (CI 0)); (TyA 2 (TyI 2), Some (CA [CI 0; CI 65536]));
   (TyA 2 TyF, Some (CA [CF 1065353216; CF 0]))].
Example zv_out : globalZeroEliminate zv =
  ([(TyA 3 (TyA 4 (TyI 4)), Some (CA [CA [CI 1]])); (TyI 1, Some (CI 0)); (TyA 2 (TyI 2), None); (TyA 2 TyF, Some (CA [CF 1065353216; CF 0]))], true).
Proof. vm_compute. reflexivity. Qed.
Lemma zv_typed : forall t c, In (t, Some c) zv -> hasType t c.
Proof.
  intros t c H. cbn in H. repeat (destruct H as [[= <- <-]|H]; [repeat first [apply ht_int; tauto|apply ht_flt|apply ht_arr; [cbn; lia|cbn; intros ? Hx; repeat (destruct Hx as [<-|Hx]; [|]); try destruct Hx]]|]).
  destruct H.
Qed.
Example zv_bytes : map (fun v => varImage (fst v) (snd v)) (fst (globalZeroEliminate zv)) = map (fun v => varImage (fst v) (snd v)) zv.
Proof. exact (proj1 (C60_module_keeps_its_bytes zv zv_typed)). Qed.
