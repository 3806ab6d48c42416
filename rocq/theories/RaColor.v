(** The interference graph and its colouring: cmmc/CodeGen/GraphColoringRegisterAllocator.cpp:52-165, 465-620.
    The weights and costs (doubles) decide which of several admissible choices is taken; they are modelled by oracles
    [top], [best] and [choose], so the theorems hold for every way of choosing. *)
From Coq Require Import ZArith Lia Bool List Arith Permutation.
From Verif Require Import GMir RaMir RaLive.
Import ListNotations.

Definition rmem (r : reg) (l : list reg) : bool := existsb (reg_eqb r) l.
Lemma rmem_In r l : rmem r l = true <-> In r l.
Proof.
  unfold rmem. rewrite existsb_exists. split.
  - intros (x & H & E). destruct (reg_eqb_spec r x); congruence.
  - intros H. exists r. split; [exact H|apply reg_eqb_refl].
Qed.
Lemma rmem_nIn r l : rmem r l = false <-> ~ In r l.
Proof.
  destruct (rmem r l) eqn:E.
  - apply rmem_In in E. split; [discriminate|tauto].
  - split; [|auto]. intros _ H. apply rmem_In in H. congruence.
Qed.
Definition rupd {A} (f : reg -> A) (r : reg) (x : A) : reg -> A := fun y => if reg_eqb y r then x else f y.
Lemma rupd_same {A} (f : reg -> A) r x : rupd f r x r = x.
Proof. unfold rupd. now rewrite reg_eqb_refl. Qed.
Lemma rupd_ne {A} (f : reg -> A) r x y : y <> r -> rupd f r x y = f y.
Proof. unfold rupd. destruct (reg_eqb_spec y r); congruence. Qed.
Definition rdel (r : reg) (l : list reg) : list reg := filter (fun x => negb (reg_eqb x r)) l.
Lemma in_rdel x r l : In x (rdel r l) <-> In x l /\ x <> r.
Proof.
  unfold rdel. rewrite filter_In. destruct (reg_eqb_spec x r); cbn; intuition congruence.
Qed.
Definition ndel (v : nat) (l : list nat) : list nat := filter (fun x => negb (Nat.eqb x v)) l.
Lemma in_ndel x v l : In x (ndel v l) <-> In x l /\ x <> v.
Proof.
  unfold ndel. rewrite filter_In. destruct (Nat.eqb_spec x v); cbn; intuition congruence.
Qed.

(** InterferenceGraph: mAdj, the keys of mDegree and its values (0 for a register that is no key) *)
Record graph := Gr { gadj : reg -> list reg; nodes : list nat; deg : nat -> nat }.
Definition graph0 : graph := Gr (fun _ => []) [] (fun _ => 0).

(** 65-75; the degree of a virtual register is counted up and it becomes a key *)
Definition countUp (r : reg) (g : graph) : graph :=
  match r with
  | Virt v => Gr (gadj g) (nadd v (nodes g)) (fupdN (deg g) v (S (deg g v)))
  | Phys _ => g
  end.
Definition addEdge (g : graph) (e : reg * reg) : graph :=
  let '(a, b) := e in
  if rmem b (gadj g a) then g
  else
    let adj1 := rupd (gadj g) a (b :: gadj g a) in
    let adj2 := rupd adj1 b (a :: adj1 b) in
    countUp b (countUp a (Gr adj2 (nodes g) (deg g))).
(** 76-79 *)
Definition touch (g : graph) (v : nat) : graph := Gr (gadj g) (nadd v (nodes g)) (deg g).

Section Color.
Variable k : nat.                          (* the number of allocatable registers *)
Variable top : nat -> list nat -> nat.     (* which element the priority queue yields *)

(** 80-88 prepareForAssign *)
Definition prepare (g : graph) : list nat := filter (fun v => Nat.ltb (deg g v) k) (nodes g).
(** one element leaves the queue *)
Fixpoint pop (u : nat) (q : list nat) : list nat :=
  match q with [] => [] | x :: r => if Nat.eqb x u then r else x :: pop u r end.
(** 101-110: the neighbours of the removed register [u] *)
Definition dropNbr (u : nat) (a : graph * list nat) (w : reg) : graph * list nat :=
  let '(g, q) := a in
  let adj' := rupd (gadj g) w (rdel (Virt u) (gadj g w)) in
  match w with
  | Virt v => (Gr adj' (nodes g) (fupdN (deg g) v (deg g v - 1)), if Nat.eqb (deg g v) k then v :: q else q)
  | Phys _ => (Gr adj' (nodes g) (deg g), q)
  end.
(** 93-115 pickToAssign; [None]: the queue is empty *)
Definition pickToAssign (n : nat) (g : graph) (q : list nat) : option (nat * graph * list nat) :=
  match q with
  | [] => None
  | _ =>
      let u := top n q in
      let '(g1, q1) := fold_left (dropNbr u) (gadj g (Virt u)) (g, pop u q) in
      Some (u, Gr (rupd (gadj g1) (Virt u) []) (ndel u (nodes g1)) (fupdN (deg g1) u 0), q1)
  end.
(** 469-480: the registers in the order they are pushed; [None]: a register has to be spilled *)
Fixpoint simplify (n : nat) (g : graph) (q : list nat) : option (list nat) :=
  match nodes g with
  | [] => Some []
  | _ =>
      match n with
      | O => None
      | S n' =>
          match pickToAssign n g q with
          | None => None
          | Some (u, g', q') => match simplify n' g' q' with Some l => Some (u :: l) | None => None end
          end
      end
  end.

Variable alloc : list nat.                  (* the allocation list of the class *)
Variable hints : nat -> list reg.           (* copyHint: the registers copied to or from [u] *)
Variable best : nat -> list nat -> nat.     (* the hint of greatest weight *)
Variable choose : nat -> list nat -> nat.   (* the register of least cost among those not excluded *)

(** 514-524 *)
Definition exclude (g : graph) (m : nat -> option nat) (u : nat) : list nat :=
  flat_map (fun w => match w with
                     | Phys n => [n]
                     | Virt v => match m v with Some c => [c] | None => [] end
                     end) (gadj g (Virt u)).
(** 484-511 calcCopyFreeProposal *)
Definition proposal (m : nat -> option nat) (ex : list nat) (u : nat) : option nat :=
  let c := filter (fun n => negb (nmem n ex))
             (flat_map (fun w => match w with
                                 | Phys n => [n]
                                 | Virt v => match m v with Some c => [c] | None => [] end
                                 end) (hints u)) in
  match c with [] => None | _ => Some (best u c) end.
(** 512-606; [None]: no register is left ("unreachable" in the code) *)
Definition assign (g : graph) (m : nat -> option nat) (u : nat) : option (nat -> option nat) :=
  let ex := exclude g m u in
  match proposal m ex u with
  | Some c => Some (fupdN m u (Some c))
  | None =>
      match filter (fun n => negb (nmem n ex)) alloc with
      | [] => None
      | l => Some (fupdN m u (Some (choose u l)))
      end
  end.
Fixpoint select (g : graph) (st : list nat) (m : nat -> option nat) : option (nat -> option nat) :=
  match st with
  | [] => Some m
  | u :: r => match assign g m u with Some m' => select g r m' | None => None end
  end.
(** the stack is last in, first out *)
Inductive colored := Spill | Colored (m : nat -> option nat) | Stuck.
Definition color (g : graph) (m : nat -> option nat) : colored :=
  match simplify (length (nodes g)) g (prepare g) with
  | None => Spill
  | Some order => match select g (rev order) m with Some m' => Colored m' | None => Stuck end
  end.
End Color.

(* ------------------------------------------------------------------ *)
(** * The graph *)
Record gok (g : graph) : Prop := GOk {
  g_sym : forall a b, In b (gadj g a) -> In a (gadj g b);
  g_irr : forall a, ~ In a (gadj g a);
  g_nd : forall a, NoDup (gadj g a);
  g_nodes : NoDup (nodes g);
  g_virt : forall a v, In (Virt v) (gadj g a) -> In v (nodes g);
  g_deg : forall v, deg g v = length (gadj g (Virt v)) }.

Lemma gok0 : gok graph0.
Proof. split; cbn; intros; try tauto; try constructor. Qed.
Lemma NoDup_nadd v l : NoDup l -> NoDup (nadd v l).
Proof. unfold nadd. destruct (nmem v l) eqn:E; auto. apply nmem_nIn in E. now constructor. Qed.
Lemma touch_ok g v : gok g -> gok (touch g v).
Proof.
  intros [H1 H2 H3 H4 H5 H6]. split; cbn; auto; [now apply NoDup_nadd|].
  intros a w Hw. apply in_nadd. right. eauto.
Qed.
Lemma addEdge_adj g a b x y : a <> b -> gok g ->
  (In y (gadj (addEdge g (a, b)) x) <-> In y (gadj g x) \/ (x = a /\ y = b) \/ (x = b /\ y = a)).
Proof.
  intros N G. unfold addEdge. destruct (rmem b (gadj g a)) eqn:E.
  - apply rmem_In in E. pose proof (g_sym g G a b E). intuition (subst; auto).
  - assert (X : forall r h, gadj (countUp r h) = gadj h) by (intros [] []; reflexivity).
    rewrite !X. cbn [gadj].
    destruct (reg_dec x b) as [->|Nb].
    + rewrite rupd_same. rewrite rupd_ne by congruence. cbn. intuition congruence.
    + rewrite rupd_ne by auto. destruct (reg_dec x a) as [->|Na].
      * rewrite rupd_same. cbn. intuition congruence.
      * rewrite rupd_ne by auto. intuition congruence.
Qed.
Lemma addEdge_nodes g a b v : In v (nodes g) -> In v (nodes (addEdge g (a, b))).
Proof.
  unfold addEdge. destruct (rmem b (gadj g a)); auto.
  intros H. destruct a, b; cbn; rewrite ?in_nadd; auto.
Qed.
Lemma addEdge_ok g a b : a <> b -> gok g -> gok (addEdge g (a, b)).
Proof.
  intros N G. pose proof (fun x y => addEdge_adj g a b x y N G) as A.
  split.
  - intros x y H. apply A in H. apply A. destruct H as [H|[[-> ->]|[-> ->]]]; auto. left. now apply (g_sym g G).
  - intros x H. apply A in H. destruct H as [H|[[-> H]|[-> H]]]; [now apply (g_irr g G x)|congruence|congruence].
  - intros x. unfold addEdge. destruct (rmem b (gadj g a)) eqn:E; [apply (g_nd g G)|].
    assert (X : forall r h, gadj (countUp r h) = gadj h) by (intros [] []; reflexivity).
    rewrite !X. cbn [gadj]. apply rmem_nIn in E.
    destruct (reg_dec x b) as [->|Nb].
    + rewrite rupd_same. rewrite rupd_ne by congruence. constructor; [|apply (g_nd g G)].
      intros H. apply E. now apply (g_sym g G).
    + rewrite rupd_ne by auto. destruct (reg_dec x a) as [->|Na].
      * rewrite rupd_same. constructor; [exact E|apply (g_nd g G)].
      * rewrite rupd_ne by auto. apply (g_nd g G).
  - unfold addEdge. destruct (rmem b (gadj g a)); [apply (g_nodes g G)|].
    destruct a, b; cbn; repeat apply NoDup_nadd; apply (g_nodes g G).
  - intros x v H. apply A in H. destruct H as [H|H].
    + apply addEdge_nodes. now apply (g_virt g G x).
    + unfold addEdge. destruct (rmem b (gadj g a)) eqn:E.
      * apply rmem_In in E. pose proof (g_sym g G a b E).
        destruct H as [[-> <-]|[-> <-]]; eapply (g_virt g G); eauto.
      * destruct H as [[-> <-]|[-> <-]]; [destruct a|destruct b]; cbn; rewrite ?in_nadd; auto.
  - intros v. unfold addEdge. destruct (rmem b (gadj g a)) eqn:E; [apply (g_deg g G)|].
    assert (X : forall r h, gadj (countUp r h) = gadj h) by (intros [] []; reflexivity).
    rewrite !X. cbn [gadj].
    assert (Y : forall r h, deg (countUp r h) v = if reg_eqb (Virt v) r then S (deg h v) else deg h v).
    { intros [n|n] h; cbn; [reflexivity|]. unfold fupdN. destruct (Nat.eqb_spec v n) as [->|]; reflexivity. }
    rewrite !Y. cbn [deg]. rewrite (g_deg g G).
    destruct (reg_eqb_spec (Virt v) b) as [Eb|Nb].
    + rewrite <- Eb in *. destruct (reg_eqb_spec (Virt v) a) as [Ea|Na]; [congruence|].
      rewrite rupd_same, rupd_ne by auto. reflexivity.
    + rewrite (rupd_ne _ b) by auto. destruct (reg_eqb_spec (Virt v) a) as [Ea|Na].
      * rewrite <- Ea, rupd_same. reflexivity.
      * rewrite rupd_ne by auto. reflexivity.
Qed.
Lemma addEdges_ok l : forall g, (forall e, In e l -> fst e <> snd e) -> gok g -> gok (fold_left addEdge l g).
Proof.
  induction l as [|[a b] l IH]; intros g H G; cbn [fold_left]; [exact G|].
  apply IH; [intros; apply H; now right|]. apply addEdge_ok; [apply (H (a, b)); now left|exact G].
Qed.
Lemma addEdges_mono l : forall g x y, (forall e, In e l -> fst e <> snd e) -> gok g ->
  In y (gadj g x) -> In y (gadj (fold_left addEdge l g) x).
Proof.
  induction l as [|[a b] l IH]; intros g x y H G I; cbn [fold_left]; [exact I|].
  assert (N : a <> b) by (apply (H (a, b)); now left).
  apply IH; [intros; apply H; now right|now apply addEdge_ok|]. apply addEdge_adj; auto.
Qed.
Lemma addEdges_in l : forall g a b, (forall e, In e l -> fst e <> snd e) -> gok g ->
  In (a, b) l -> In b (gadj (fold_left addEdge l g) a) /\ In a (gadj (fold_left addEdge l g) b).
Proof.
  induction l as [|[c d] l IH]; intros g a b H G I; [destruct I|]. cbn [fold_left].
  assert (N : c <> d) by (apply (H (c, d)); now left).
  assert (H' : forall e, In e l -> fst e <> snd e) by (intros; apply H; now right).
  assert (G' := addEdge_ok g c d N G).
  destruct I as [I|I]; [|now apply IH].
  injection I as <- <-. split; apply addEdges_mono; auto; apply addEdge_adj; auto.
Qed.
Lemma addEdges_nodes l : forall g v, In v (nodes g) -> In v (nodes (fold_left addEdge l g)).
Proof. induction l as [|[a b] l IH]; intros g v H; cbn [fold_left]; auto. apply IH. now apply addEdge_nodes. Qed.

(* ------------------------------------------------------------------ *)
(** * Simplification *)
Lemma NoDup_filter' {A} (f : A -> bool) l : NoDup l -> NoDup (filter f l).
Proof. apply NoDup_filter. Qed.
Lemma rdel_none r l : ~ In r l -> rdel r l = l.
Proof.
  intros N. unfold rdel. induction l as [|y l IH]; cbn; [reflexivity|].
  destruct (reg_eqb_spec y r) as [->|]; cbn; [exfalso; apply N; now left|]. f_equal. apply IH. intros H. apply N. now right.
Qed.
Lemma rdel_length r l : NoDup l -> In r l -> length (rdel r l) = length l - 1.
Proof.
  induction l as [|x l IH]; intros ND H; [destruct H|]. inversion ND as [|? ? N1 N2]; subst. cbn.
  destruct (reg_eqb_spec x r) as [->|Ne]; cbn.
  - fold (rdel r l). rewrite rdel_none by exact N1. lia.
  - destruct H as [H|H]; [congruence|]. fold (rdel r l). rewrite IH by auto.
    destruct l; [destruct H|]. cbn. lia.
Qed.
Lemma pop_In u q x : In x (pop u q) -> In x q.
Proof. induction q as [|y q IH]; cbn; [tauto|]. destruct (Nat.eqb_spec y u); cbn; intuition. Qed.
Lemma pop_spec u q x : NoDup q -> (In x (pop u q) <-> In x q /\ x <> u).
Proof.
  induction q as [|y q IH]; intros ND; cbn; [tauto|]. inversion ND as [|? ? N1 N2]; subst.
  destruct (Nat.eqb_spec y u) as [->|N].
  - split; [|intuition congruence]. intros H. split; [now right|]. intros ->. contradiction.
  - cbn. rewrite IH by exact N2. intuition congruence.
Qed.
Lemma pop_NoDup u q : NoDup q -> NoDup (pop u q).
Proof.
  induction q as [|y q IH]; intros ND; cbn; [constructor|]. inversion ND as [|? ? N1 N2]; subst.
  destruct (Nat.eqb y u); [exact N2|]. constructor; [|auto]. intros H. apply N1. now apply pop_In in H.
Qed.

Section Simp.
Variable k : nat.
Variable top : nat -> list nat -> nat.
Hypothesis topOk : forall n q, q <> [] -> In (top n q) q.

(** removing [u] from the lists of neighbours [l] *)
Lemma dropNbrs u l : forall g q, NoDup l -> ~ In (Virt u) l ->
  (forall w, In w l -> In (Virt u) (gadj g w)) ->
  (forall w, NoDup (gadj g w)) ->
  let '(g1, q1) := fold_left (dropNbr k u) l (g, q) in
  (forall w, gadj g1 w = if rmem w l then rdel (Virt u) (gadj g w) else gadj g w) /\
  nodes g1 = nodes g /\
  (forall v, deg g1 v = if rmem (Virt v) l then deg g v - 1 else deg g v) /\
  (forall x, In x q1 <-> In x q \/ (In (Virt x) l /\ deg g x = k)) /\
  (NoDup q -> (forall x, In (Virt x) l -> deg g x = k -> ~ In x q) -> NoDup q1).
Proof.
  induction l as [|w l IH]; intros g q ND Nu Hl HN; cbn [fold_left].
  - cbn. repeat split; auto; tauto.
  - inversion ND as [|? ? N1 N2]; subst.
    set (a1 := dropNbr k u (g, q) w).
    assert (A1 : forall x, gadj (fst a1) x = if reg_eqb x w then rdel (Virt u) (gadj g x) else gadj g x).
    { intros x. unfold a1, dropNbr. destruct w; cbn; unfold rupd; destruct (reg_eqb_spec x (Phys n)); subst; auto;
        destruct (reg_eqb_spec x (Virt n)); subst; auto. }
    assert (A2 : nodes (fst a1) = nodes g) by (unfold a1, dropNbr; destruct w; reflexivity).
    assert (A3 : forall v, deg (fst a1) v = if reg_eqb (Virt v) w then deg g v - 1 else deg g v).
    { intros v. unfold a1, dropNbr. destruct w; cbn; [reflexivity|]. unfold fupdN.
      destruct (Nat.eqb_spec v n); subst; reflexivity. }
    assert (A4 : forall x, In x (snd a1) <-> In x q \/ (Virt x = w /\ deg g x = k)).
    { intros x. unfold a1, dropNbr. destruct w as [n|n]; cbn; [intuition congruence|].
      destruct (Nat.eqb_spec (deg g n) k); cbn; intuition (subst; auto; try congruence). }
    assert (A5 : NoDup q -> (forall x, Virt x = w -> deg g x = k -> ~ In x q) -> NoDup (snd a1)).
    { intros Hq Hd. unfold a1, dropNbr. destruct w as [n|n]; cbn; [exact Hq|].
      destruct (Nat.eqb_spec (deg g n) k); [|exact Hq]. constructor; auto. }
    destruct a1 as [g1 q1]. cbn [fst snd] in *.
    specialize (IH g1 q1 N2 ltac:(intro; apply Nu; now right)).
    assert (Hl' : forall x, In x l -> In (Virt u) (gadj g1 x)).
    { intros x Hx. rewrite A1. destruct (reg_eqb_spec x w) as [->|]; [contradiction|]. apply Hl. now right. }
    assert (HN' : forall x, NoDup (gadj g1 x)).
    { intros x. rewrite A1. destruct (reg_eqb x w); [apply NoDup_filter'|]; apply HN. }
    specialize (IH Hl' HN'). destruct (fold_left (dropNbr k u) l (g1, q1)) as [g2 q2].
    destruct IH as (I1 & I2 & I3 & I4 & I5).
    assert (M : forall x, rmem x (w :: l) = reg_eqb x w || rmem x l) by reflexivity.
    split; [|split; [|split; [|split]]].
    + intros x. rewrite I1, M, A1. destruct (reg_eqb_spec x w) as [->|]; cbn [orb]; [|reflexivity].
      apply rmem_nIn in N1. now rewrite N1.
    + congruence.
    + intros v. rewrite I3, M, A3. destruct (reg_eqb_spec (Virt v) w) as [E|]; cbn [orb]; [|reflexivity].
      apply rmem_nIn in N1. rewrite E, N1. reflexivity.
    + intros x. rewrite I4, A4. cbn [In]. rewrite A3.
      destruct (reg_eqb_spec (Virt x) w) as [E|E].
      * subst w. intuition congruence.
      * intuition congruence.
    + intros Hq Hd. apply I5.
      * apply A5; [exact Hq|]. intros x E D. apply Hd; [left; congruence|exact D].
      * intros x Hx D Hc. rewrite A3 in D. destruct (reg_eqb_spec (Virt x) w) as [E|E]; [rewrite E in Hx; contradiction|].
        apply A4 in Hc as [Hc|[Hc _]]; [|congruence]. revert Hc. apply Hd; [now right|exact D].
Qed.

(** the queue holds exactly the nodes of low degree *)
Definition qok (g : graph) (q : list nat) : Prop :=
  NoDup q /\ forall x, In x q <-> In x (nodes g) /\ deg g x < k.

Lemma prepare_ok g : gok g -> qok g (prepare k g).
Proof.
  intros G. split; [apply NoDup_filter, (g_nodes g G)|]. intros x. unfold prepare. rewrite filter_In, Nat.ltb_lt. tauto.
Qed.

Lemma pick_ok n g q : gok g -> qok g q ->
  match pickToAssign k top n g q with
  | None => q = []
  | Some (u, g', q') =>
      In u (nodes g) /\ length (gadj g (Virt u)) < k /\ gok g' /\ qok g' q' /\
      nodes g' = ndel u (nodes g) /\
      (forall v, v <> u -> forall w, In w (gadj g' (Virt v)) <-> In w (gadj g (Virt v)) /\ w <> Virt u)
  end.
Proof.
  intros G [Q1 Q2]. unfold pickToAssign. destruct q as [|x0 q0]; [reflexivity|]. set (q := x0 :: q0) in *.
  assert (Hu : In (top n q) q) by (apply topOk; discriminate). set (u := top n q) in *.
  pose proof (proj1 (Q2 u) Hu) as [Hn Hd].
  pose proof (dropNbrs u (gadj g (Virt u)) g (pop u q) (g_nd g G _) (g_irr g G _)) as D.
  specialize (D ltac:(intros w Hw; now apply (g_sym g G)) (g_nd g G)).
  destruct (fold_left (dropNbr k u) (gadj g (Virt u)) (g, pop u q)) as [g1 q1].
  destruct D as (D1 & D2 & D3 & D4 & D5).
  assert (Adj : forall x w, In w (gadj g1 x) <-> In w (gadj g x) /\ (w <> Virt u)).
  { intros x w. rewrite D1. destruct (rmem x (gadj g (Virt u))) eqn:E.
    - apply in_rdel.
    - apply rmem_nIn in E. split; [|tauto]. intros H. split; [exact H|]. intros ->. apply E. now apply (g_sym g G). }
  split; [exact Hn|]. split; [rewrite <- (g_deg g G); exact Hd|].
  assert (Adj' : forall x w, In w (rupd (gadj g1) (Virt u) [] x) <-> In w (gadj g x) /\ w <> Virt u /\ x <> Virt u).
  { intros x w. destruct (reg_dec x (Virt u)) as [->|N].
    - rewrite rupd_same. cbn. tauto.
    - rewrite rupd_ne by auto. rewrite Adj. tauto. }
  assert (NDx : forall x, NoDup (gadj g1 x)).
  { intros x. rewrite D1. destruct (rmem x (gadj g (Virt u))); [apply NoDup_filter|]; apply (g_nd g G). }
  assert (G' : gok (Gr (rupd (gadj g1) (Virt u) []) (ndel u (nodes g1)) (fupdN (deg g1) u 0))).
  { split; cbn.
    - intros a b H. apply Adj' in H as (H1 & H2 & H3). apply Adj'. split; [now apply (g_sym g G)|auto].
    - intros a H. apply Adj' in H as (H1 & _). now apply (g_irr g G a).
    - intros a. unfold rupd. destruct (reg_eqb a (Virt u)); [constructor|apply NDx].
    - apply NoDup_filter. rewrite D2. apply (g_nodes g G).
    - intros a v H. apply Adj' in H as (H1 & H2 & H3). apply in_ndel. rewrite D2.
      split; [now apply (g_virt g G a)|]. congruence.
    - intros v. unfold fupdN. destruct (Nat.eqb_spec v u) as [->|N]; [now rewrite rupd_same|].
      rewrite rupd_ne by congruence. rewrite D3, D1, (g_deg g G).
      destruct (rmem (Virt v) (gadj g (Virt u))) eqn:E; [|reflexivity].
      apply rmem_In in E. rewrite rdel_length; [reflexivity|apply (g_nd g G)|]. now apply (g_sym g G). }
  split; [exact G'|]. split; [|split].
  - split.
    + apply D5; [now apply pop_NoDup|]. intros x Hx Dx Hq. apply pop_In, Q2 in Hq. lia.
    + cbn. intros x. rewrite D4, pop_spec by exact Q1. rewrite Q2, in_ndel, D2. unfold fupdN.
      destruct (Nat.eqb_spec x u) as [->|N].
      * split; [|tauto]. intros [H|[H _]]; [tauto|]. exfalso. now apply (g_irr g G (Virt u)).
      * rewrite D3. destruct (rmem (Virt x) (gadj g (Virt u))) eqn:E.
        -- apply rmem_In in E. pose proof (g_virt g G _ _ E).
           assert (0 < deg g x).
           { rewrite (g_deg g G). apply (g_sym g G) in E. destruct (gadj g (Virt x)); [destruct E|cbn; lia]. }
           destruct (Nat.eq_dec (deg g x) k); intuition lia.
        -- apply rmem_nIn in E. intuition.
  - cbn. now rewrite D2.
  - cbn. intros v N w. rewrite rupd_ne by congruence. apply Adj.
Qed.

(** the registers that remain when [u] is pushed: the physical ones and those pushed later *)
Definition later (post : list nat) (w : reg) : bool := match w with Phys _ => true | Virt v => nmem v post end.

Lemma simplify_ok n : forall g q order, gok g -> qok g q -> simplify k top n g q = Some order ->
  NoDup order /\ (forall v, In v order <-> In v (nodes g)) /\
  (forall pre u post, order = pre ++ u :: post -> length (filter (later post) (gadj g (Virt u))) < k).
Proof.
  assert (Base : forall g order, gok g -> nodes g = [] -> Some [] = Some order ->
    NoDup order /\ (forall v, In v order <-> In v (nodes g)) /\
    (forall pre u post, order = pre ++ u :: post -> length (filter (later post) (gadj g (Virt u))) < k)).
  { intros g order G E H. injection H as <-. rewrite E. split; [constructor|]. split; [tauto|].
    intros [|] ? ? X; discriminate. }
  induction n as [|n IH]; intros g q order G Q H; cbn [simplify] in H.
  - destruct (nodes g) eqn:E; [|discriminate]. rewrite <- E. now apply Base.
  - destruct (nodes g) as [|n0 r0] eqn:E; [rewrite <- E; now apply Base|].
    pose proof (pick_ok (S n) g q G Q) as P.
    destruct (pickToAssign k top (S n) g q) as [[[u g'] q']|]; [|discriminate].
    destruct P as (P1 & P2 & P3 & P4 & P5 & P6).
    destruct (simplify k top n g' q') as [l|] eqn:Es; [|discriminate]. injection H as <-.
    destruct (IH g' q' l P3 P4 Es) as (I1 & I2 & I3).
    assert (Nu : ~ In u l). { intros X. apply I2 in X. rewrite P5 in X. apply in_ndel in X. tauto. }
    split; [now constructor|]. rewrite <- E. split.
    + intros v. cbn. rewrite I2, P5, in_ndel. destruct (Nat.eq_dec v u) as [->|]; intuition congruence.
    + intros pre x post X. destruct pre as [|y pre]; cbn in X.
      * injection X as <- <-. eapply Nat.le_lt_trans; [|exact P2].
        clear. induction (gadj g (Virt u)) as [|a l0 IHl]; cbn; [lia|]. destruct (later l a); cbn; lia.
      * injection X as <- X. specialize (I3 pre x post X).
        assert (Nx : x <> u). { intros ->. apply Nu. rewrite X. apply in_or_app. right. now left. }
        assert (Np : ~ In u post). { intros Y. apply Nu. rewrite X. apply in_or_app. right. now right. }
        eapply Nat.le_lt_trans; [|exact I3]. apply NoDup_incl_length; [apply NoDup_filter, (g_nd g G)|].
        intros w Hw. apply filter_In in Hw as [W1 W2]. apply filter_In. split; [|exact W2].
        apply P6; [exact Nx|]. split; [exact W1|]. intros ->. cbn in W2. apply nmem_In in W2. contradiction.
Qed.
End Simp.

(* ------------------------------------------------------------------ *)
(** * Selection *)
Section Sel.
Variable k : nat.
Variable alloc : list nat.
Variable hints : nat -> list reg.
Variable best : nat -> list nat -> nat.
Variable choose : nat -> list nat -> nat.
Hypothesis bestOk : forall u l, l <> [] -> In (best u l) l.
Hypothesis chooseOk : forall u l, l <> [] -> In (choose u l) l.
Hypothesis allocOk : NoDup alloc /\ length alloc = k.
Variable m0 : nat -> option nat.
Variable g : graph.
Hypothesis G : gok g.
(** what the code asserts about the hints: physical hints are allocatable, and so is what was assigned to virtual ones *)
Hypothesis hintsOk : forall u, In u (nodes g) -> forall w, In w (hints u) ->
  match w with
  | Phys n => In n alloc
  | Virt v => In v (nodes g) \/ forall c, m0 v = Some c -> In c alloc
  end.
Hypothesis m0Ok : forall v, In v (nodes g) -> m0 v = None.

(** the colouring is proper where it is defined; specification *)
Definition properAt (m : nat -> option nat) (u : nat) : Prop :=
  exists c, m u = Some c /\ In c alloc /\
  forall w, In w (gadj g (Virt u)) -> match w with Phys n => n <> c | Virt v => m v <> Some c end.

Lemma exclude_In m u n : In n (exclude g m u) <->
  exists w, In w (gadj g (Virt u)) /\ match w with Phys x => x = n | Virt v => m v = Some n end.
Proof.
  unfold exclude. rewrite in_flat_map. split; intros (w & H1 & H2); exists w; (split; [exact H1|]).
  - destruct w as [x|v]; cbn in H2; [destruct H2 as [H2|[]]; exact H2|].
    destruct (m v); cbn in H2; [destruct H2 as [->|[]]; reflexivity|destruct H2].
  - destruct w as [x|v]; [subst; now left|]. rewrite H2. now left.
Qed.

Lemma exclude_room m u post : (forall v, In v (nodes g) -> m v <> None -> In v post) ->
  length (filter (later post) (gadj g (Virt u))) < k ->
  filter (fun n => negb (nmem n (exclude g m u))) alloc <> [].
Proof using allocOk G.
  intros Hp L E.
  assert (I : incl alloc (exclude g m u)).
  { intros n Hn. destruct (nmem n (exclude g m u)) eqn:X; [now apply nmem_In|].
    assert (In n (filter (fun n => negb (nmem n (exclude g m u))) alloc)) as Y.
    { apply filter_In. split; [exact Hn|]. now rewrite X. }
    rewrite E in Y. destruct Y. }
  destruct allocOk as [A1 A2]. pose proof (NoDup_incl_length A1 I) as L1.
  assert (L2 : length (exclude g m u) <= length (filter (later post) (gadj g (Virt u)))).
  { unfold exclude. assert (V : forall v, In (Virt v) (gadj g (Virt u)) -> In v (nodes g)) by (apply (g_virt g G)).
    clear -V Hp. induction (gadj g (Virt u)) as [|w l IH]; cbn; [lia|]. rewrite app_length.
    specialize (IH ltac:(intros; apply V; now right)).
    destruct w as [n|v]; cbn; [lia|]. destruct (m v) as [c|] eqn:Em; cbn; [|destruct (nmem v post); cbn; lia].
    assert (X : nmem v post = true) by (apply nmem_In, Hp; [apply V; now left|congruence]). rewrite X. cbn. lia. }
  lia.
Qed.

(** [done]: the registers already popped *)
Lemma select_ok : forall st done m,
  NoDup (st ++ done) -> (forall v, In v (st ++ done) <-> In v (nodes g)) ->
  (forall pre u post, st = pre ++ u :: post -> length (filter (later (rev pre ++ done)) (gadj g (Virt u))) < k) ->
  (forall v, ~ In v done -> m v = m0 v) -> (forall u, In u done -> properAt m u) ->
  exists m', select alloc hints best choose g st m = Some m' /\ (forall u, In u (nodes g) -> properAt m' u) /\
    (forall v, ~ In v (nodes g) -> m' v = m0 v).
Proof using allocOk bestOk chooseOk hintsOk m0Ok G.
  induction st as [|u st IH]; intros done m ND Nn Lt M0 Hd; cbn [select].
  - exists m. split; [reflexivity|]. cbn in Nn. split.
    + intros u Hu. apply Hd, Nn, Hu.
    + intros v Hv. apply M0. intros X. apply Hv, Nn, X.
  - assert (Hun : In u (nodes g)) by (apply Nn; now left).
    assert (Und : ~ In u done). { cbn in ND. inversion ND as [|? ? N1 N2]; subst. intros X. apply N1, in_or_app. now right. }
    assert (A : exists c, assign alloc hints best choose g m u = Some (fupdN m u (Some c)) /\ In c alloc /\
                          ~ In c (exclude g m u)).
    { unfold assign. destruct (proposal hints best m (exclude g m u) u) as [c|] eqn:Ep.
      - exists c. split; [reflexivity|]. unfold proposal in Ep.
        set (cs := filter _ _) in Ep. assert (Hc : In c cs).
        { destruct cs as [|c0 cs0] eqn:Ec; [discriminate|]. injection Ep as <-. apply bestOk. discriminate. }
        subst cs. apply filter_In in Hc as [C1 C2]. apply in_flat_map in C1 as (w & W1 & W2).
        split; [|now apply negb_true_iff, nmem_nIn in C2].
        specialize (hintsOk u Hun w W1). destruct w as [n|v]; [destruct W2 as [<-|[]]; exact hintsOk|].
        destruct (m v) as [x|] eqn:Em; [|destruct W2]. destruct W2 as [<-|[]].
        destruct (in_dec Nat.eq_dec v done) as [D|D].
        + destruct (Hd v D) as (y & Y1 & Y2 & _). congruence.
        + rewrite M0 in Em by exact D. destruct hintsOk as [X|X]; [|now apply X].
          rewrite (m0Ok v X) in Em. discriminate.
      - pose proof (exclude_room m u done) as R.
        destruct (filter (fun n => negb (nmem n (exclude g m u))) alloc) as [|a l] eqn:Ef.
        + exfalso. apply R; [| |reflexivity].
          * intros v Hv Hm. destruct (in_dec Nat.eq_dec v done) as [D|D]; [exact D|].
            exfalso. apply Hm. rewrite M0 by exact D. now apply m0Ok.
          * exact (Lt [] u st eq_refl).
        + exists (choose u (a :: l)). split; [reflexivity|].
          assert (X : In (choose u (a :: l)) (a :: l)) by (apply chooseOk; discriminate).
          rewrite <- Ef in X. apply filter_In in X as [X1 X2]. rewrite Ef in *. split; [exact X1|].
          now apply negb_true_iff, nmem_nIn in X2. }
    destruct A as (c & A1 & A2 & A3). rewrite A1.
    destruct (IH (u :: done) (fupdN m u (Some c))) as (m' & S1 & S2 & S3).
    + apply (Permutation_NoDup (l := (u :: st) ++ done)); [|exact ND]. cbn. apply Permutation_middle.
    + intros v. rewrite <- Nn. rewrite !in_app_iff. cbn. tauto.
    + intros pre x post E. specialize (Lt (u :: pre) x post). cbn in Lt. rewrite E in Lt. specialize (Lt eq_refl).
      rewrite <- app_assoc in Lt. exact Lt.
    + intros v Hv. rewrite fupdN_ne; [apply M0|]; intros X; apply Hv; [now right|left; congruence].
    + intros x [<-|Hx].
      * exists c. rewrite fupdN_same. split; [reflexivity|]. split; [exact A2|]. intros w Hw.
        destruct w as [n|v].
        -- intros ->. apply A3, exclude_In. exists (Phys c). auto.
        -- destruct (Nat.eq_dec v u) as [->|N]; [exfalso; now apply (g_irr g G (Virt u))|].
           rewrite fupdN_ne by exact N. intros X. apply A3, exclude_In. exists (Virt v). auto.
      * destruct (Hd x Hx) as (y & Y1 & Y2 & Y3). assert (Nx : x <> u) by (intros ->; contradiction).
        exists y. rewrite fupdN_ne by exact Nx. split; [exact Y1|]. split; [exact Y2|]. intros w Hw. specialize (Y3 w Hw).
        destruct w as [n|v]; [exact Y3|]. destruct (Nat.eq_dec v u) as [->|N]; [|now rewrite fupdN_ne].
        rewrite fupdN_same. intros X. injection X as ->. apply A3, exclude_In. exists (Virt x).
        split; [now apply (g_sym g G)|exact Y1].
    + exists m'. auto.
Qed.

Variable top : nat -> list nat -> nat.
Hypothesis topOk : forall n q, q <> [] -> In (top n q) q.
Theorem color_ok :
  match color k top alloc hints best choose g m0 with
  | Spill => True
  | Stuck => False
  | Colored m => (forall u, In u (nodes g) -> properAt m u) /\ (forall v, ~ In v (nodes g) -> m v = m0 v)
  end.
Proof using allocOk bestOk chooseOk hintsOk m0Ok G topOk.
  unfold color. destruct (simplify k top (length (nodes g)) g (prepare k g)) as [order|] eqn:E; [|exact I].
  destruct (simplify_ok k top topOk _ _ _ _ G (prepare_ok k g G) E) as (H1 & H2 & H3).
  destruct (select_ok (rev order) [] m0) as (m' & S1 & S2 & S3).
  - rewrite app_nil_r. now apply NoDup_rev.
  - intros v. rewrite app_nil_r, <- in_rev. apply H2.
  - intros pre u post X. rewrite app_nil_r. apply (H3 (rev post)).
    rewrite <- (rev_involutive order), X, rev_app_distr. cbn. now rewrite <- app_assoc.
  - reflexivity.
  - intros u [].
  - rewrite S1. auto.
Qed.
End Sel.
