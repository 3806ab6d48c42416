(** * The intrusive instruction list (property C19)

    Model of [cmmc/Support/IntrusiveList.hpp] 124-232: a heap of nodes with
    [prev]/[next] pointers shared by any number of lists (one per basic block),
    each with its own sentinel head and tail and an element count.  Every method
    is the sequence of pointer assignments of the source.  Simplifications: the
    item destructor ([IR/Instruction.hpp] 412-414) does not touch the links and is
    dropped; [mCount] is an unbounded integer; the predicate of [remove_if] is a
    pure function of the node. *)

From Coq Require Import ZArith List Lia Bool Arith.
Import ListNotations.

Inductive addr := Head (k : nat) | Tail (k : nat) | Node (n : nat).
Definition addr_dec (a b : addr) : {a = b} + {a <> b}.
Proof. decide equality; apply Nat.eq_dec. Defined.
Definition addr_eqb a b := if addr_dec a b then true else false.

(** IntrusiveList.hpp 30-37, 126-130 *)
Record heap := mkH { nxt : addr -> addr; prv : addr -> addr; cnt : nat -> Z }.

Definition setA (f : addr -> addr) a v := fun x => if addr_dec x a then v else f x.
Definition setNxt h a v := mkH (setA (nxt h) a v) (prv h) (cnt h).
Definition setPrv h a v := mkH (nxt h) (setA (prv h) a v) (cnt h).
Definition addCnt h k d := mkH (nxt h) (prv h) (fun j => if Nat.eqb j k then (cnt h j + d)%Z else cnt h j).

(** :130 constructors of all (empty) lists; the links of free nodes are arbitrary *)
Definition heap0 (junk : addr -> addr) : heap :=
  mkH (fun a => match a with Head k => Tail k | _ => junk a end)
      (fun a => match a with Tail k => Head k | _ => junk a end) (fun _ => 0%Z).

(** :147-158 erase(node) *)
Definition erase h k n :=
  let h := setNxt h (prv h n) (nxt h n) in
  let h := setPrv h (nxt h n) (prv h n) in
  addCnt h k (-1).
(** :168-177 insert(pos, node) *)
Definition insert h k pos n :=
  let h := setPrv h n (prv h pos) in
  let h := setNxt h n pos in
  let h := setNxt h (prv h pos) n in
  let h := setPrv h pos n in
  addCnt h k 1.
(** :159-167 erase(beg, end); [None] = the loop did not finish within the fuel *)
Fixpoint eraseLoop (fuel : nat) h k prev fin : option heap :=
  match fuel with
  | 0 => None
  | S f => let cur := prv h fin in
           if addr_eqb cur prev then Some h else eraseLoop f (erase h k cur) k prev fin
  end.
Definition eraseRange fuel h k beg fin := eraseLoop fuel h k (prv h beg) fin.
(** :138-140 clear *)
Definition clear fuel h k := eraseRange fuel h k (nxt h (Head k)) (Tail k).
(** :202-209 *)
Definition pop_front h k := erase h k (nxt h (Head k)).
Definition pop_back h k := erase h k (prv h (Tail k)).
(** :193-200 *)
Definition front h k := nxt h (Head k).
Definition back h k := prv h (Tail k).
(** :210-220 remove_if *)
Fixpoint removeLoop (fuel : nat) h k (p : addr -> bool) cur : option heap :=
  if addr_eqb cur (Head k) then Some h else
  match fuel with
  | 0 => None
  | S f => let prev := prv h cur in
           removeLoop f (if p cur then erase h k cur else h) k p prev
  end.
Definition remove_if fuel h k p := removeLoop fuel h k p (prv h (Tail k)).
(** :179-191 forward and backward traversal *)
Fixpoint forward (fuel : nat) h k a : option (list addr) :=
  if addr_eqb a (Tail k) then Some [] else
  match fuel with
  | 0 => None
  | S f => option_map (cons a) (forward f h k (nxt h a))
  end.
Fixpoint backward (fuel : nat) h k a : option (list addr) :=
  if addr_eqb a (Head k) then Some [] else
  match fuel with
  | 0 => None
  | S f => option_map (cons a) (backward f h k (prv h a))
  end.

(** ** Specification: [spec] gives the sequence of every list *)
Definition spec := nat -> list nat.

Fixpoint links h (l : list addr) : Prop :=
  match l with
  | a :: ((b :: _) as l') => nxt h a = b /\ prv h b = a /\ links h l'
  | _ => True
  end.

Definition chain k (l : list nat) := Head k :: map Node l ++ [Tail k].

(** the heap represents the lists *)
Definition represents h (s : spec) : Prop :=
  (forall k, links h (chain k (s k)) /\ cnt h k = Z.of_nat (length (s k)) /\ NoDup (s k)) /\
  (forall k k' n, k <> k' -> In n (s k) -> ~ In n (s k')).

Definition setS (s : spec) k l : spec := fun j => if Nat.eqb j k then l else s j.

Lemma setA_same f a v : setA f a v a = v.
Proof. unfold setA. destruct (addr_dec a a); congruence. Qed.
Lemma setA_other f a v x : x <> a -> setA f a v x = f x.
Proof. unfold setA. destruct (addr_dec x a); congruence. Qed.

Lemma links_app h A a B : links h (A ++ a :: B) <-> links h (A ++ [a]) /\ links h (a :: B).
Proof.
  induction A as [|x A IH]; cbn [app].
  - cbn [links]. tauto.
  - destruct A as [|y A]; cbn [app] in *.
    + cbn [links]. destruct B; cbn [links]; tauto.
    + cbn [links] in *. cbn [links] in IH. destruct (A ++ a :: B) eqn:E1, (A ++ [a]) eqn:E2; tauto.
Qed.

Lemma links_frame h h' l :
  (forall x, In x (removelast l) -> nxt h' x = nxt h x) ->
  (forall x, In x (tl l) -> prv h' x = prv h x) ->
  links h l -> links h' l.
Proof.
  induction l as [|a l IH]; cbn [links]; auto. destruct l as [|b l]; auto.
  intros H1 H2 (L1 & L2 & L3). cbn [removelast tl] in *. split; [|split].
  - rewrite H1; auto. left. reflexivity.
  - rewrite H2; auto. left. reflexivity.
  - apply IH; auto.
    + intros x Hx. apply H1. right. exact Hx.
    + intros x Hx. apply H2. right. cbn in Hx. exact Hx.
Qed.

Lemma in_chain k l a : In a (chain k l) <-> a = Head k \/ a = Tail k \/ exists n, a = Node n /\ In n l.
Proof.
  unfold chain. cbn. rewrite in_app_iff, in_map_iff. cbn. split.
  - intros [H|[(n & H & Hn)|[H|[]]]]; eauto.
  - intros [H|[H|(n & H & Hn)]]; auto. right. left. exists n. auto.
Qed.

Lemma NoDup_chain k l : NoDup l -> NoDup (chain k l).
Proof.
  intros H. unfold chain. constructor.
  - rewrite in_app_iff, in_map_iff. cbn. intros [(n & H1 & _)|[H1|[]]]; discriminate.
  - induction H as [|x l Hx Hl IH]; cbn.
    + repeat constructor; auto.
    + constructor; auto. rewrite in_app_iff, in_map_iff. cbn. intros [(n & H1 & H2)|[H1|[]]]; try discriminate.
      congruence.
Qed.

(** Splitting a chain at an element. *)
Lemma chain_app k l1 l2 : chain k (l1 ++ l2) = (Head k :: map Node l1) ++ (map Node l2 ++ [Tail k]).
Proof. unfold chain. cbn. now rewrite map_app, <- app_assoc. Qed.

Lemma removelast_snoc {A} (l : list A) x : removelast (l ++ [x]) = l.
Proof. rewrite removelast_app by discriminate. cbn. apply app_nil_r. Qed.

(** The last element of [Head :: l] *)
Lemma snoc_cons k (l : list nat) : exists A a, Head k :: map Node l = A ++ [a].
Proof.
  destruct l as [|x l] using rev_ind.
  - exists [], (Head k). reflexivity.
  - rewrite map_app. exists (Head k :: map Node l), (Node x). reflexivity.
Qed.

Lemma NoDup_mid {A} (l1 : list A) x l2 : NoDup (l1 ++ x :: l2) -> ~ In x l1 /\ ~ In x l2 /\ NoDup (l1 ++ l2) /\ (forall y, In y l1 -> ~ In y l2).
Proof.
  intros H. pose proof (NoDup_remove_1 _ _ _ H). pose proof (NoDup_remove_2 _ _ _ H) as H2.
  rewrite in_app_iff in H2. repeat split; auto. intros y Hy Hy'.
  clear - H0 Hy Hy'. induction l1; cbn in *; [contradiction|]. inversion H0; subst. destruct Hy; subst.
  - apply H2. apply in_or_app. auto.
  - auto.
Qed.

Lemma NoDup_four {A} (l : list A) a n b l' : NoDup (l ++ a :: n :: b :: l') ->
  a <> b /\ n <> a /\ n <> b /\ ~ In a l /\ ~ In b l /\ ~ In a l' /\ ~ In b l' /\ ~ In n l /\ ~ In n l'.
Proof.
  induction l as [|x l IH]; cbn; intros H.
  - rewrite !NoDup_cons_iff in H. destruct H as (H1 & H2 & H3 & _). cbn in *.
    repeat split; try tauto; intros E; subst; tauto.
  - rewrite NoDup_cons_iff in H. destruct H as [H1 H2]. specialize (IH H2). rewrite in_app_iff in H1. cbn in H1.
    repeat split; try tauto; intros [E|E]; subst; tauto.
Qed.

(** Effect of [erase] on the chain that contains the node. *)
Lemma erase_links h k A a n b B :
  links h (A ++ a :: n :: b :: B) -> NoDup (A ++ a :: n :: b :: B) ->
  links (erase h k n) (A ++ a :: b :: B).
Proof.
  intros L N. apply links_app in L as [L1 L2]. cbn [links] in L2. destruct L2 as (E1 & E2 & E3 & E4 & L3).
  pose proof (NoDup_four _ _ _ _ _ N) as Q.
  destruct Q as (Q1 & Q2 & Q3 & Q4 & Q5 & Q6 & Q7 & Q8 & Q9).
  unfold erase. set (h1 := setNxt h (prv h n) (nxt h n)).
  assert (X1 : nxt h1 n = b). { unfold h1, setNxt; cbn. rewrite E2, setA_other; auto. }
  assert (X2 : prv h1 n = a) by exact E2.
  rewrite X1, X2. set (h2 := addCnt (setPrv h1 b a) k (-1)).
  assert (Y1 : forall x, nxt h2 x = if addr_dec x a then b else nxt h x).
  { intros x. unfold h2, h1; cbn. rewrite E2, E3. reflexivity. }
  assert (Y2 : forall x, prv h2 x = if addr_dec x b then a else prv h x).
  { intros x. unfold h2, h1; cbn. reflexivity. }
  apply links_app. split.
  - apply (links_frame h); auto.
    + intros x Hx. rewrite removelast_snoc in Hx. rewrite Y1. destruct (addr_dec x a) as [->|]; tauto.
    + intros x Hx. rewrite Y2. destruct (addr_dec x b) as [->|]; auto. exfalso.
      assert (In b (A ++ [a])) by (destruct A; cbn in *; tauto). apply in_app_or in H. cbn in H. destruct H as [|[|[]]]; auto.
  - cbn [links]. rewrite Y1, Y2. destruct (addr_dec a a), (addr_dec b b); try congruence. split; auto. split; auto.
    change (links h2 (b :: B)). apply (links_frame h); auto.
    + intros x Hx. rewrite Y1. destruct (addr_dec x a) as [->|]; auto. exfalso.
      assert (In a (b :: B)). { clear - Hx. revert b Hx. induction B as [|c B IH]; intros b Hx; cbn in *; [tauto|]. destruct Hx; auto. }
      cbn in H. destruct H; auto.
    + cbn [tl]. intros x Hx. rewrite Y2. destruct (addr_dec x b) as [->|]; tauto.
Qed.

(** Effect of [insert] on the chain. *)
Lemma insert_links h k A a n b B :
  links h (A ++ a :: b :: B) -> NoDup (A ++ a :: n :: b :: B) ->
  links (insert h k b n) (A ++ a :: n :: b :: B).
Proof.
  intros L N. apply links_app in L as [L1 L2]. cbn [links] in L2. destruct L2 as (E1 & E2 & L3).
  pose proof (NoDup_four _ _ _ _ _ N) as Q.
  destruct Q as (Q1 & Q2 & Q3 & Q4 & Q5 & Q6 & Q7 & Q8 & Q9).
  set (h' := insert h k b n).
  assert (Y1 : forall x, nxt h' x = if addr_dec x a then n else if addr_dec x n then b else nxt h x).
  { intros x. unfold h', insert; cbn. unfold setA. rewrite E2.
    destruct (addr_dec b n); [congruence|]. rewrite ?E2. reflexivity. }
  assert (Y2 : forall x, prv h' x = if addr_dec x b then n else if addr_dec x n then a else prv h x).
  { intros x. unfold h', insert; cbn. unfold setA. rewrite ?E2. reflexivity. }
  apply links_app. split; [|cbn [links]; repeat split].
  - apply (links_frame h); auto.
    + intros x Hx. rewrite removelast_snoc in Hx. rewrite Y1.
      destruct (addr_dec x a) as [->|]; [tauto|]. destruct (addr_dec x n) as [->|]; [tauto|reflexivity].
    + intros x Hx. assert (HX : In x (A ++ [a])) by (destruct A; cbn in *; tauto).
      apply in_app_or in HX. cbn in HX. rewrite Y2.
      destruct (addr_dec x b) as [->|]; [exfalso; destruct HX as [|[|[]]]; auto|].
      destruct (addr_dec x n) as [->|]; [exfalso; destruct HX as [|[|[]]]; auto|reflexivity].
  - rewrite Y1. destruct (addr_dec a a); congruence.
  - rewrite Y2. destruct (addr_dec n b); [congruence|]. destruct (addr_dec n n); congruence.
  - rewrite Y1. destruct (addr_dec n a); [congruence|]. destruct (addr_dec n n); congruence.
  - rewrite Y2. destruct (addr_dec b b); congruence.
  - change (links h' (b :: B)). apply (links_frame h); auto.
    + intros x Hx. assert (HX : In x (b :: B)). { clear - Hx. revert b Hx. induction B as [|c B IH]; intros b Hx; cbn in *; [tauto|]. destruct Hx; auto. }
      rewrite Y1. destruct (addr_dec x a) as [->|]; [exfalso; destruct HX; auto|].
      destruct (addr_dec x n) as [->|]; [exfalso; destruct HX; auto|reflexivity].
    + cbn [tl]. intros x Hx. rewrite Y2.
      destruct (addr_dec x b) as [->|]; [tauto|]. destruct (addr_dec x n) as [->|]; [tauto|reflexivity].
Qed.

(** address of the first element of a suffix (or the end iterator) *)
Definition posOf k (l : list nat) := match l with [] => Tail k | m :: _ => Node m end.
(** address of the last element of a prefix (or the head sentinel) *)
Definition lastOf k (l : list nat) := last (map Node l) (Head k).

Lemma lastOf_snoc k l n : lastOf k (l ++ [n]) = Node n.
Proof. unfold lastOf. rewrite map_app. apply last_last. Qed.

Lemma chain_split k l1 l2 : exists A B,
  chain k (l1 ++ l2) = A ++ lastOf k l1 :: posOf k l2 :: B /\
  A ++ [lastOf k l1] = Head k :: map Node l1 /\ posOf k l2 :: B = map Node l2 ++ [Tail k].
Proof.
  assert (HA : exists A, A ++ [lastOf k l1] = Head k :: map Node l1).
  { destruct l1 as [|x l1 _] using rev_ind; [exists []; reflexivity|].
    rewrite lastOf_snoc, map_app. exists (Head k :: map Node l1). reflexivity. }
  assert (HB : exists B, posOf k l2 :: B = map Node l2 ++ [Tail k]).
  { destruct l2; cbn; eexists; reflexivity. }
  destruct HA as [A HA], HB as [B HB]. exists A, B. split; [|auto].
  rewrite chain_app, <- HA, <- HB, <- app_assoc. reflexivity.
Qed.

(** neighbours in a represented list *)
Lemma neighbours h s k l1 l2 : represents h s -> s k = l1 ++ l2 ->
  nxt h (lastOf k l1) = posOf k l2 /\ prv h (posOf k l2) = lastOf k l1.
Proof.
  intros [R _] E. destruct (R k) as [L _]. rewrite E in L.
  destruct (chain_split k l1 l2) as (A & B & C & _). rewrite C in L.
  apply links_app in L as [_ L]. cbn [links] in L. tauto.
Qed.

Lemma chains_disjoint s k k' x : (forall k k' n, k <> k' -> In n (s k) -> ~ In n (s k')) ->
  k <> k' -> In x (chain k (s k)) -> ~ In x (chain k' (s k')).
Proof.
  intros D N H1 H2. apply in_chain in H1, H2.
  destruct H1 as [->|[->|(n & -> & H1)]], H2 as [E|[E|(m & E & H2)]]; try congruence.
  injection E as <-. exact (D k k' n N H1 H2).
Qed.

Lemma erase_only h k n x : x <> prv h n -> nxt (erase h k n) x = nxt h x.
Proof. intros. unfold erase; cbn. now rewrite setA_other. Qed.
Lemma erase_only_prv h k n x : prv h n <> n -> x <> nxt h n -> prv (erase h k n) x = prv h x.
Proof. intros H1 H2. unfold erase; cbn. rewrite (setA_other (nxt h)) by auto. now rewrite setA_other. Qed.
Lemma erase_cnt h k n j : cnt (erase h k n) j = (cnt h j + if Nat.eqb j k then -1 else 0)%Z.
Proof. unfold erase; cbn. destruct (Nat.eqb j k); lia. Qed.

Lemma setS_same s k l : setS s k l k = l.
Proof. unfold setS. now rewrite Nat.eqb_refl. Qed.
Lemma setS_other s k l j : j <> k -> setS s k l j = s j.
Proof. unfold setS. intros. apply Nat.eqb_neq in H. now rewrite H. Qed.

Lemma represents_erase h s k l1 n l2 : represents h s -> s k = l1 ++ n :: l2 ->
  represents (erase h k (Node n)) (setS s k (l1 ++ l2)).
Proof.
  intros R E. pose proof R as [R1 R2].
  destruct (neighbours h s k l1 (n :: l2) R E) as [N1 N2].
  destruct (neighbours h s k (l1 ++ [n]) l2 R ltac:(rewrite <- app_assoc; exact E)) as [N3 N4].
  rewrite lastOf_snoc in *. cbn [posOf] in *.
  destruct (R1 k) as (L & C & D). rewrite E in L, C, D.
  assert (DN := NoDup_chain k _ D).
  destruct (chain_split k l1 l2) as (A & B & Ch & HA & HB).
  assert (Ch' : chain k (l1 ++ n :: l2) = A ++ lastOf k l1 :: Node n :: posOf k l2 :: B).
  { rewrite chain_app, <- HA, <- app_assoc. cbn [map app]. rewrite <- HB. reflexivity. }
  rewrite Ch' in L, DN. pose proof (NoDup_four _ _ _ _ _ DN) as Q.
  split.
  - intros j. destruct (Nat.eq_dec j k) as [->|Hj].
    + rewrite setS_same. split; [|split].
      * rewrite Ch. now apply erase_links.
      * rewrite erase_cnt, Nat.eqb_refl, C, !app_length. cbn. lia.
      * eapply NoDup_remove_1; eauto.
    + rewrite setS_other by auto. destruct (R1 j) as (Lj & Cj & Dj). split; [|split; auto].
      * apply (links_frame h); auto.
        -- intros x Hx. apply erase_only. intros ->. rewrite N2 in Hx.
           apply (chains_disjoint s k j (lastOf k l1) R2); auto.
           ++ rewrite E, Ch'. apply in_or_app. right. left. reflexivity.
           ++ unfold chain in *. change (Head j :: map Node (s j) ++ [Tail j]) with ((Head j :: map Node (s j)) ++ [Tail j]) in *.
              rewrite removelast_snoc in Hx. apply in_or_app. auto.
        -- intros x Hx. apply erase_only_prv.
           ++ rewrite N2. intros X. destruct Q as (_ & Q & _). congruence.
           ++ intros ->. rewrite N3 in Hx. apply (chains_disjoint s k j (posOf k l2) R2); auto.
              ** rewrite E, Ch'. apply in_or_app. right. right. right. left. reflexivity.
              ** unfold chain in *. cbn [tl] in Hx. right. exact Hx.
      * rewrite erase_cnt, Cj. apply Nat.eqb_neq in Hj. rewrite Hj. lia.
  - intros j j' m Hne H1 H2.
    assert (S : forall i, In m (setS s k (l1 ++ l2) i) -> In m (s i)).
    { intros i. unfold setS. destruct (Nat.eqb_spec i k); auto. subst. rewrite E, !in_app_iff. cbn. tauto. }
    exact (R2 j j' m Hne (S _ H1) (S _ H2)).
Qed.

Lemma represents_insert h s k l1 l2 n : represents h s -> s k = l1 ++ l2 ->
  (forall j, ~ In n (s j)) ->
  represents (insert h k (posOf k l2) (Node n)) (setS s k (l1 ++ n :: l2)).
Proof.
  intros R E F. pose proof R as [R1 R2].
  destruct (neighbours h s k l1 l2 R E) as [N1 N2].
  destruct (R1 k) as (L & C & D). rewrite E in L, C, D.
  assert (FN : NoDup (l1 ++ n :: l2)).
  { apply NoDup_Add with (a := n) (l := l1 ++ l2); [apply Add_app|]. split; auto. rewrite <- E. auto. }
  assert (DN := NoDup_chain k _ FN).
  destruct (chain_split k l1 l2) as (A & B & Ch & HA & HB).
  assert (Ch' : chain k (l1 ++ n :: l2) = A ++ lastOf k l1 :: Node n :: posOf k l2 :: B).
  { rewrite chain_app, <- HA, <- app_assoc. cbn [map app]. rewrite <- HB. reflexivity. }
  rewrite Ch' in DN. rewrite Ch in L. pose proof (NoDup_four _ _ _ _ _ DN) as (Q1 & Q2 & Q3 & _).
  set (h' := insert h k (posOf k l2) (Node n)).
  assert (Y1 : forall x, x <> lastOf k l1 -> x <> Node n -> nxt h' x = nxt h x).
  { intros x X1 X2. unfold h', insert; cbn. unfold setA.
    destruct (addr_dec (posOf k l2) (Node n)); [congruence|]. rewrite N2.
    destruct (addr_dec x (lastOf k l1)); [congruence|]. destruct (addr_dec x (Node n)); congruence. }
  assert (Y2 : forall x, x <> posOf k l2 -> x <> Node n -> prv h' x = prv h x).
  { intros x X1 X2. unfold h', insert; cbn. rewrite setA_other by auto. now rewrite setA_other. }
  split.
  - intros j. destruct (Nat.eq_dec j k) as [->|Hj].
    + rewrite setS_same. split; [|split; auto].
      * rewrite Ch'. now apply insert_links.
      * unfold h', insert; cbn. rewrite Nat.eqb_refl, C, !app_length. cbn. lia.
    + rewrite setS_other by auto. destruct (R1 j) as (Lj & Cj & Dj). split; [|split; auto].
      * assert (Fj : forall x, In x (chain j (s j)) -> x <> Node n).
        { intros x Hx ->. apply in_chain in Hx. destruct Hx as [|[|(m & X & Hm)]]; try discriminate.
          injection X as <-. exact (F j Hm). }
        apply (links_frame h); auto.
        -- intros x Hx. assert (Hx' : In x (chain j (s j))).
           { unfold chain in *. change (Head j :: map Node (s j) ++ [Tail j]) with ((Head j :: map Node (s j)) ++ [Tail j]) in *.
              rewrite removelast_snoc in Hx. apply in_or_app. auto. }
           apply Y1; auto. intros ->. revert Hx'. apply (chains_disjoint s k j (lastOf k l1) R2); auto.
           rewrite E, Ch. apply in_or_app. right. left. reflexivity.
        -- intros x Hx. assert (Hx' : In x (chain j (s j))) by (right; exact Hx).
           apply Y2; auto. intros ->. revert Hx'. apply (chains_disjoint s k j (posOf k l2) R2); auto.
           rewrite E, Ch. apply in_or_app. right. right. left. reflexivity.
      * unfold h', insert; cbn. apply Nat.eqb_neq in Hj. rewrite Hj. auto.
  - assert (S : forall i m, In m (setS s k (l1 ++ n :: l2) i) -> (i = k /\ m = n) \/ In m (s i)).
    { intros i m. unfold setS. destruct (Nat.eqb_spec i k); auto. subst. rewrite E, !in_app_iff. cbn. intuition. }
    intros j j' m Hne H1 H2. destruct (S _ _ H1) as [[K1 M1]|H1'], (S _ _ H2) as [[K2 M2]|H2']; subst; try congruence.
    + exact (F _ H2').
    + exact (F _ H1').
    + exact (R2 j j' m Hne H1' H2').
Qed.

Lemma represents_ext h s s' : (forall k, s k = s' k) -> represents h s -> represents h s'.
Proof.
  intros E [R1 R2]. split.
  - intros k. rewrite <- E. apply R1.
  - intros k k' n. rewrite <- !E. apply R2.
Qed.

Lemma lastOf_inj h s k l1 l2 l1' l2' : represents h s -> s k = l1 ++ l2 -> s k = l1' ++ l2' ->
  lastOf k l1 = lastOf k l1' -> l1 = l1'.
Proof.
  intros [R _] E E' Q. destruct (R k) as (_ & _ & D). clear R.
  destruct l1 as [|x l1 _] using rev_ind; destruct l1' as [|x' l1' _] using rev_ind; rewrite ?lastOf_snoc in Q; auto; try discriminate.
  injection Q as <-. f_equal.
  rewrite E in D, E'. rewrite <- !app_assoc in *. cbn in *.
  clear E. revert l1' E' D. induction l1 as [|y l1 IH]; intros [|z l1'] E' D; cbn in *; auto.
  - injection E' as <- E2. apply NoDup_cons_iff in D as [D _]. exfalso. apply D. rewrite E2. apply in_or_app. cbn. auto.
  - injection E' as -> E2. apply NoDup_cons_iff in D as [D _]. exfalso. apply D. apply in_or_app. cbn. auto.
  - injection E' as <- E2. apply NoDup_cons_iff in D as [_ D]. f_equal. eapply IH; eauto.
Qed.

Lemma addr_eqb_spec a b : addr_eqb a b = true <-> a = b.
Proof. unfold addr_eqb. destruct (addr_dec a b); split; congruence. Qed.

Lemma eraseLoop_ok k l1 l3 : forall l2 h s fuel, represents h s -> s k = l1 ++ l2 ++ l3 -> length l2 < fuel ->
  exists h', eraseLoop fuel h k (lastOf k l1) (posOf k l3) = Some h' /\ represents h' (setS s k (l1 ++ l3)).
Proof.
  induction l2 as [|n l2 IH] using rev_ind; intros h s fuel R E F; (destruct fuel; [lia|]); cbn [eraseLoop].
  - destruct (neighbours h s k l1 l3 R E) as [_ N]. rewrite N.
    replace (addr_eqb _ _) with true by (symmetry; now apply addr_eqb_spec).
    exists h. split; auto. apply (represents_ext h s); auto. intros j. unfold setS. destruct (Nat.eqb_spec j k); subst; auto.
  - assert (E2 : s k = (l1 ++ l2 ++ [n]) ++ l3) by (rewrite E, <- !app_assoc; reflexivity).
    destruct (neighbours h s k _ l3 R E2) as [_ N]. rewrite app_assoc, lastOf_snoc in N. rewrite N.
    destruct (addr_eqb (Node n) (lastOf k l1)) eqn:Q.
    { exfalso. apply addr_eqb_spec in Q. rewrite <- (lastOf_snoc k (l1 ++ l2) n) in Q.
      apply (lastOf_inj h s k _ l3 l1 ((l2 ++ [n]) ++ l3) R) in Q; auto.
      - apply (f_equal (@length nat)) in Q. rewrite !app_length in Q. cbn in Q. lia.
      - rewrite E, <- !app_assoc. reflexivity. }
    assert (E3 : s k = (l1 ++ l2) ++ n :: l3) by (rewrite E, <- !app_assoc; reflexivity).
    pose proof (represents_erase h s k (l1 ++ l2) n l3 R E3) as R'.
    rewrite app_length in F. cbn in F.
    destruct (IH (erase h k (Node n)) _ fuel R') as (h' & H1 & H2).
    + rewrite setS_same, <- app_assoc. reflexivity.
    + lia.
    + exists h'. split; auto. eapply represents_ext; [|exact H2]. intros j. unfold setS.
      destruct (Nat.eqb j k); auto.
Qed.

Lemma removeLoop_ok k p : forall l1 l2 h s fuel, represents h s -> s k = l1 ++ l2 -> length l1 <= fuel ->
  exists h', removeLoop fuel h k (fun a => match a with Node n => p n | _ => false end) (lastOf k l1) = Some h' /\
    represents h' (setS s k (filter (fun n => negb (p n)) l1 ++ l2)).
Proof.
  induction l1 as [|n l1 IH] using rev_ind; intros l2 h s fuel R E F.
  - exists h. assert (Q : removeLoop fuel h k (fun a => match a with Node n => p n | _ => false end) (lastOf k []) = Some h).
    { destruct fuel; cbn [removeLoop]; replace (addr_eqb (lastOf k []) (Head k)) with true; auto; symmetry; now apply addr_eqb_spec. }
    split; auto. cbn. eapply represents_ext; [|exact R]. intros j. unfold setS. destruct (Nat.eqb_spec j k); subst; auto.
  - rewrite app_length in F. cbn in F. destruct fuel; [lia|]. rewrite lastOf_snoc. cbn [removeLoop].
    destruct (addr_eqb (Node n) (Head k)) eqn:Q; [apply addr_eqb_spec in Q; discriminate|].
    rewrite <- app_assoc in E. cbn in E.
    destruct (neighbours h s k l1 (n :: l2) R E) as [_ N]. cbn [posOf] in N. rewrite N.
    rewrite filter_app. cbn [filter]. destruct (p n) eqn:P; cbn [negb].
    + pose proof (represents_erase h s k l1 n l2 R E) as R'.
      destruct (IH l2 _ _ fuel R' ltac:(now rewrite setS_same) ltac:(lia)) as (h' & H1 & H2).
      exists h'. split; auto. rewrite app_nil_r. eapply represents_ext; [|exact H2]. intros j. unfold setS. destruct (Nat.eqb j k); auto.
    + destruct (IH (n :: l2) h s fuel R E ltac:(lia)) as (h' & H1 & H2).
      exists h'. split; auto. rewrite <- app_assoc. exact H2.
Qed.

Lemma forward_ok h k : forall l2 s l1 fuel, represents h s -> s k = l1 ++ l2 -> length l2 <= fuel ->
  forward fuel h k (posOf k l2) = Some (map Node l2).
Proof.
  induction l2 as [|n l2 IH]; intros s l1 fuel R E F.
  - destruct fuel; cbn; replace (addr_eqb (Tail k) (Tail k)) with true; auto; symmetry; now apply addr_eqb_spec.
  - cbn in F. destruct fuel; [lia|]. cbn [forward posOf].
    destruct (addr_eqb (Node n) (Tail k)) eqn:Q; [apply addr_eqb_spec in Q; discriminate|].
    assert (E2 : s k = (l1 ++ [n]) ++ l2) by (rewrite E, <- app_assoc; reflexivity).
    destruct (neighbours h s k _ _ R E2) as [N _]. rewrite lastOf_snoc in N. rewrite N.
    rewrite (IH s (l1 ++ [n]) fuel R E2) by lia. reflexivity.
Qed.

Lemma backward_ok h k : forall l1 s l2 fuel, represents h s -> s k = l1 ++ l2 -> length l1 <= fuel ->
  backward fuel h k (lastOf k l1) = Some (map Node (rev l1)).
Proof.
  induction l1 as [|n l1 IH] using rev_ind; intros s l2 fuel R E F.
  - destruct fuel; cbn; replace (addr_eqb (Head k) (Head k)) with true; auto; symmetry; now apply addr_eqb_spec.
  - rewrite app_length in F. cbn in F. destruct fuel; [lia|]. rewrite lastOf_snoc. cbn [backward].
    destruct (addr_eqb (Node n) (Head k)) eqn:Q; [apply addr_eqb_spec in Q; discriminate|].
    rewrite <- app_assoc in E. cbn in E.
    destruct (neighbours h s k _ _ R E) as [_ N]. cbn [posOf] in N. rewrite N.
    rewrite (IH s (n :: l2) fuel R E) by lia. rewrite rev_app_distr. reflexivity.
Qed.

(** ** C19 *)

(** Operations, on any of the lists sharing the heap. *)
Inductive op :=
| Insert (k : nat) (pos : addr) (n : nat)
| Erase (k n : nat)
| EraseRange (k : nat) (beg fin : addr)
| Clear (k : nat) | PopFront (k : nat) | PopBack (k : nat)
| RemoveIf (k : nat) (p : nat -> bool).

(** The code's effect, when its loops finish within [fuel] iterations. *)
Definition run (fuel : nat) (h : heap) (o : op) : option heap :=
  match o with
  | Insert k pos n => Some (insert h k pos (Node n))
  | Erase k n => Some (erase h k (Node n))
  | EraseRange k b e => eraseRange fuel h k b e
  | Clear k => clear fuel h k
  | PopFront k => Some (pop_front h k)
  | PopBack k => Some (pop_back h k)
  | RemoveIf k p => remove_if fuel h k (fun a => match a with Node n => p n | _ => false end)
  end.

(** The mathematical effect, with the preconditions (the iterator is in the list,
    an inserted node is in no list, no pop of an empty list). *)
Inductive does : spec -> op -> spec -> Prop :=
| d_insert s k l1 l2 n : s k = l1 ++ l2 -> (forall j, ~ In n (s j)) ->
    does s (Insert k (posOf k l2) n) (setS s k (l1 ++ n :: l2))
| d_erase s k l1 n l2 : s k = l1 ++ n :: l2 -> does s (Erase k n) (setS s k (l1 ++ l2))
| d_range s k l1 l2 l3 : s k = l1 ++ l2 ++ l3 ->
    does s (EraseRange k (posOf k (l2 ++ l3)) (posOf k l3)) (setS s k (l1 ++ l3))
| d_clear s k : does s (Clear k) (setS s k [])
| d_popf s k n l : s k = n :: l -> does s (PopFront k) (setS s k l)
| d_popb s k n l : s k = l ++ [n] -> does s (PopBack k) (setS s k l)
| d_remif s k p : does s (RemoveIf k p) (setS s k (filter (fun n => negb (p n)) (s k))).

(** longest list, as a bound on the iterations of any loop *)
Lemma step_ok h s o s' : represents h s -> does s o s' ->
  exists m, forall fuel, m <= fuel -> exists h', run fuel h o = Some h' /\ represents h' s'.
Proof.
  intros R D. destruct D.
  - exists 0. intros. eexists. split; [reflexivity|]. now apply represents_insert.
  - exists 0. intros. eexists. split; [reflexivity|]. now apply represents_erase.
  - exists (S (length l2)). intros. cbn [run]. unfold eraseRange.
    destruct (neighbours h s k l1 (l2 ++ l3) R H) as [_ N]. rewrite N.
    apply eraseLoop_ok with (l2 := l2); auto.
  - exists (S (length (s k))). intros. cbn [run]. unfold clear, eraseRange.
    destruct (neighbours h s k [] (s k) R eq_refl) as [N1 N2].
    change (nxt h (Head k)) with (nxt h (lastOf k [])). rewrite N1, N2.
    change (Tail k) with (posOf k []). change (@nil nat) with (@nil nat ++ []).
    apply eraseLoop_ok with (l2 := s k); auto. cbn. now rewrite app_nil_r.
  - exists 0. intros. eexists. split; [reflexivity|]. unfold pop_front.
    destruct (neighbours h s k [] (s k) R eq_refl) as [N1 N2]. change (nxt h (Head k)) with (nxt h (lastOf k [])).
    rewrite N1, H. cbn [posOf]. change l with ([] ++ l). now apply represents_erase.
  - exists 0. intros. eexists. split; [reflexivity|]. unfold pop_back.
    destruct (neighbours h s k (s k) [] R ltac:(now rewrite app_nil_r)) as [N1 N2]. change (Tail k) with (posOf k []).
    rewrite N2, H, lastOf_snoc. rewrite <- (app_nil_r l). apply represents_erase; auto.
  - exists (length (s k)). intros. cbn [run]. unfold remove_if.
    destruct (neighbours h s k (s k) [] R ltac:(now rewrite app_nil_r)) as [N1 N2]. change (Tail k) with (posOf k []).
    rewrite N2. rewrite <- (app_nil_r (filter _ _)). apply removeLoop_ok; auto. now rewrite app_nil_r.
Qed.

(** histories *)
Inductive history (junk : addr -> addr) : heap -> spec -> Prop :=
| h_init : history junk (heap0 junk) (fun _ => [])
| h_step h s o s' fuel h' : history junk h s -> does s o s' -> run fuel h o = Some h' -> history junk h' s'.

Lemma eraseLoop_fuel : forall fuel h k a b h' fuel', eraseLoop fuel h k a b = Some h' -> fuel <= fuel' ->
  eraseLoop fuel' h k a b = Some h'.
Proof.
  induction fuel; intros h k a b h' fuel' E L; cbn in E; [discriminate|].
  destruct fuel'; [lia|]. cbn. destruct (addr_eqb _ _); auto. apply IHfuel; auto. lia.
Qed.
Lemma removeLoop_fuel : forall fuel h k p c h' fuel', removeLoop fuel h k p c = Some h' -> fuel <= fuel' ->
  removeLoop fuel' h k p c = Some h'.
Proof.
  induction fuel; intros h k p c h' fuel' E L; cbn in E.
  - destruct (addr_eqb c (Head k)) eqn:Q; [|discriminate]. destruct fuel'; cbn; rewrite Q; auto.
  - destruct fuel'; [lia|]. cbn. destruct (addr_eqb c (Head k)); auto. apply IHfuel; auto. lia.
Qed.
Lemma run_fuel fuel h o h' fuel' : run fuel h o = Some h' -> fuel <= fuel' -> run fuel' h o = Some h'.
Proof.
  destruct o; cbn; auto; intros; eauto using eraseLoop_fuel, removeLoop_fuel.
Qed.

Lemma heap0_ok junk : represents (heap0 junk) (fun _ => []).
Proof. split; [intros k; cbn; repeat split; constructor|intros; contradiction]. Qed.

Lemma history_represents junk h s : history junk h s -> represents h s.
Proof.
  induction 1; [apply heap0_ok|].
  destruct (step_ok _ _ _ _ IHhistory H0) as (m & Hm).
  destruct (Hm (Nat.max m fuel) ltac:(lia)) as (h'' & E & R).
  assert (h' = h''). { apply (run_fuel _ _ _ _ (Nat.max m fuel)) in H1; [congruence|lia]. }
  now subst.
Qed.

(** After any history of operations on any number of lists: walking a list
    forwards visits exactly its mathematical sequence, walking it backwards the
    reverse, and [size()] is its length; the first and last elements are the
    sequence's. *)
Theorem C19_list_is_the_sequence :
  forall junk h s k, history junk h s ->
  (forall fuel, length (s k) <= fuel -> forward fuel h k (nxt h (Head k)) = Some (map Node (s k))) /\
  (forall fuel, length (s k) <= fuel -> backward fuel h k (prv h (Tail k)) = Some (map Node (rev (s k)))) /\
  cnt h k = Z.of_nat (length (s k)) /\
  (forall n l, s k = n :: l -> front h k = Node n) /\
  (forall n l, s k = l ++ [n] -> back h k = Node n).
Proof.
  intros junk h s k H. apply history_represents in H as R.
  destruct (neighbours h s k [] (s k) R eq_refl) as [N1 N2].
  destruct (neighbours h s k (s k) [] R ltac:(now rewrite app_nil_r)) as [N3 N4].
  change (Head k) with (lastOf k []). change (Tail k) with (posOf k []).
  split; [|split; [|split; [|split]]].
  - intros. rewrite N1. apply forward_ok with (s := s) (l1 := []); auto.
  - intros. rewrite N4. apply backward_ok with (s := s) (l2 := []); auto. now rewrite app_nil_r.
  - apply R.
  - intros n l E. unfold front. change (Head k) with (lastOf k []). rewrite N1, E. reflexivity.
  - intros n l E. unfold back. change (Tail k) with (posOf k []). rewrite N4, E. apply lastOf_snoc.
Qed.

(** Every operation that is legal on the sequences finishes. *)
Theorem C19_operations_terminate :
  forall junk h s o s', history junk h s -> does s o s' -> exists fuel h', run fuel h o = Some h'.
Proof.
  intros junk h s o s' H D. apply history_represents in H as R.
  destruct (step_ok _ _ _ _ R D) as (m & Hm). destruct (Hm m ltac:(lia)) as (h' & E & _). eauto.
Qed.

(** An operation on one list leaves the sequences of all the others alone. *)
Theorem C19_other_lists_untouched :
  forall junk h s o s' fuel h' k, history junk h s -> does s o s' -> run fuel h o = Some h' ->
  (match o with Insert j _ _ | Erase j _ | EraseRange j _ _ | Clear j | PopFront j | PopBack j | RemoveIf j _ => j end) <> k ->
  forall f, length (s k) <= f -> forward f h' k (nxt h' (Head k)) = Some (map Node (s k)).
Proof.
  intros junk h s o s' fuel h' k H D E N f F.
  assert (S : s' k = s k) by (destruct D; apply setS_other; auto).
  destruct (C19_list_is_the_sequence junk h' s' k) as [C _]; [eapply h_step; eauto|].
  rewrite S in C. auto.
Qed.

(** A history with two lists: append 5 and 6 to list 0, insert 7 before 6, move 5
    to list 1, drop the even elements of list 0. *)
Example C19_example : exists h s, history (fun a => a) h s /\ s 0 = [7] /\ s 1 = [5].
Proof.
  assert (X : forall h s o s', history (fun a => a) h s -> does s o s' ->
     exists h', history (fun a => a) h' s').
  { intros. destruct (C19_operations_terminate _ _ _ _ _ H H0) as (f & h' & E). exists h'. eapply h_step; eauto. }
  destruct (X _ _ _ _ (h_init _) (d_insert (fun _ => []) 0 [] [] 5 eq_refl (fun _ F => F))) as (h1 & H1).
  eapply (X _ _ (Insert 0 (posOf 0 []) 6)) in H1 as (h2 & H2); [|apply (d_insert _ 0 [5] [] 6); [reflexivity|]].
  2: { intros [|j]; cbn; intuition discriminate. }
  eapply (X _ _ (Insert 0 (posOf 0 [6]) 7)) in H2 as (h3 & H3); [|apply (d_insert _ 0 [5] [6] 7); [reflexivity|]].
  2: { intros [|j]; cbn; intuition discriminate. }
  eapply (X _ _ (Erase 0 5)) in H3 as (h4 & H4); [|apply (d_erase _ 0 [] 5 [7; 6]); reflexivity].
  eapply (X _ _ (Insert 1 (posOf 1 []) 5)) in H4 as (h5 & H5); [|apply (d_insert _ 1 [] [] 5); [reflexivity|]].
  2: { intros [|j]; cbn; intuition discriminate. }
  eapply (X _ _ (RemoveIf 0 Nat.even)) in H5 as (h6 & H6); [|apply d_remif].
  exists h6. eexists. split; [exact H6|]. split; reflexivity.
Qed.
