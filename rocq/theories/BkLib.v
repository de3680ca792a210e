(** Flows and cuts in a network with capacities on arcs and on vertices (a positive vertex capacity is an arc from the source, a
    negative one an arc to the terminal): the specification for C73, and weak duality. *)
From Coq Require Import List Arith ZArith Bool Lia.
Import ListNotations.
Set Implicit Arguments.
Local Open Scope Z_scope.

(** f 0 + ... + f (n - 1) *)
Fixpoint total (n : nat) (f : nat -> Z) : Z := match n with O => 0 | S k => total k f + f k end.

(** A flow: [f p q] is what is carried from p to q (minus what is carried back), [x p] what enters at p (positive: from the source;
    negative: leaves to the terminal), within the capacities [c] of the arcs and [b] of the vertices. *)
Definition is_flow (n : nat) (c : nat -> nat -> Z) (b : nat -> Z) (f : nat -> nat -> Z) (x : nat -> Z) : Prop :=
  (forall p q, f q p = - f p q) /\
  (forall p q, (p < n)%nat -> (q < n)%nat -> f p q <= c p q) /\
  (forall p, (p < n)%nat -> Z.min (b p) 0 <= x p <= Z.max (b p) 0) /\
  (forall p, (p < n)%nat -> total n (f p) = x p).
(** what leaves the source *)
Definition flow_value (n : nat) (x : nat -> Z) : Z := total n (fun p => Z.max (x p) 0).
(** The capacity of a cut: [term p] tells whether p is on the terminal's side. *)
Definition cut_value (n : nat) (c : nat -> nat -> Z) (b : nat -> Z) (term : nat -> bool) : Z :=
  total n (fun p => total n (fun q => if negb (term p) && term q then c p q else 0)) +
  total n (fun p => if term p then Z.max (b p) 0 else Z.max (- b p) 0).

(** the neighbours of p *)
Definition nbr (g : list (list (nat * Z))) (p : nat) : list nat := map fst (nth p g []).
(** the capacity of the arc from p to q: the sum of the entries for q in row p *)
Fixpoint entry (row : list (nat * Z)) (q : nat) : Z :=
  match row with [] => 0%Z | (a, c) :: row' => ((if (a =? q)%nat then c else 0) + entry row' q)%Z end.
Definition arc_cap (g : list (list (nat * Z))) (p q : nat) : Z := entry (nth p g []) q.
(** the graphs: every arc has a reverse arc, no loops, no repeated arcs, no negative capacities *)
Definition bk_graph (g : list (list (nat * Z))) : Prop :=
  (forall p q, In q (nbr g p) -> In p (nbr g q)) /\ (forall p, ~ In p (nbr g p)) /\ (forall p, NoDup (nbr g p)) /\
  (forall p a, In a (nth p g []) -> (0 <= snd a)%Z).
(** the sum of the negative vertex capacities *)
Definition neg (cap : list Z) : Z := total (length cap) (fun i => Z.min (nth i cap 0%Z) 0).

Lemma total_ext n f h : (forall i, (i < n)%nat -> f i = h i) -> total n f = total n h.
Proof. induction n; intros H; cbn [total]; auto. rewrite IHn by (intros; apply H; lia). rewrite H by lia. auto. Qed.
Lemma total_le n f h : (forall i, (i < n)%nat -> f i <= h i) -> total n f <= total n h.
Proof. induction n; intros H; cbn [total]; [lia|]. assert (A := H n ltac:(lia)). assert (total n f <= total n h) by (apply IHn; intros; apply H; lia). lia. Qed.
Lemma total_0 n : total n (fun _ => 0) = 0.
Proof. induction n; cbn [total]; lia. Qed.
Lemma total_add n f h : total n (fun i => f i + h i) = total n f + total n h.
Proof. induction n; cbn [total]; lia. Qed.
Lemma total_sub n f h : total n (fun i => f i - h i) = total n f - total n h.
Proof. induction n; cbn [total]; lia. Qed.
Lemma total_opp n f : total n (fun i => - f i) = - total n f.
Proof. induction n; cbn [total]; lia. Qed.
Lemma total_swap n m f : total n (fun p => total m (fun q => f p q)) = total m (fun q => total n (fun p => f p q)).
Proof.
  induction n; cbn [total]; [now rewrite total_0|]. rewrite IHn, <- total_add. reflexivity.
Qed.
Lemma total_one n j m : (j < n)%nat -> total n (fun i => if Nat.eqb i j then m else 0) = m.
Proof.
  induction n; intros L; [lia|]. cbn [total]. destruct (Nat.eq_dec n j) as [->|N].
  - rewrite Nat.eqb_refl. rewrite (@total_ext j _ (fun _ => 0)), total_0; [lia|]. intros i Hi. destruct (Nat.eqb_spec i j); lia.
  - rewrite IHn by lia. destruct (Nat.eqb_spec n j); lia.
Qed.
(** a sum in which one term changes *)
Lemma total_change n f h j : (j < n)%nat -> (forall i, (i < n)%nat -> i <> j -> f i = h i) -> total n f = total n h + (f j - h j).
Proof.
  intros L H. rewrite <- (@total_one n j (f j - h j) L), <- total_add. apply total_ext. intros i Hi. destruct (Nat.eqb_spec i j); [subst; lia|]. rewrite H by auto. lia.
Qed.
Lemma total_nonneg n f : (forall i, (i < n)%nat -> 0 <= f i) -> 0 <= total n f.
Proof. intros H. rewrite <- (total_0 n). apply total_le; auto. Qed.

(** Across any cut, the value of a flow is what crosses it. *)
Lemma value_across n c b f x term : is_flow n c b f x ->
  flow_value n x = total n (fun p => total n (fun q => if negb (term p) && term q then f p q else 0)) +
                   total n (fun p => if term p then Z.max (x p) 0 else Z.max (- x p) 0).
Proof.
  intros (A & _ & _ & C).
  assert (E : total n (fun p => if term p then 0 else x p) = total n (fun p => total n (fun q => if negb (term p) && term q then f p q else 0))).
  { assert (Z0 : total n (fun p => total n (fun q => if negb (term p) && negb (term q) then f p q else 0)) = 0).
    { set (s := total n _). assert (s = - s); [|lia]. unfold s at 1. rewrite total_swap. unfold s. rewrite <- total_opp. apply total_ext. intros q _. rewrite <- total_opp.
      apply total_ext. intros p _. rewrite (A q p). destruct (term p), (term q); cbn; lia. }
    transitivity (total n (fun p => total n (fun q => if negb (term p) && term q then f p q else 0)) +
                  total n (fun p => total n (fun q => if negb (term p) && negb (term q) then f p q else 0))); [|lia].
    rewrite <- total_add. apply total_ext. intros p Hp. rewrite <- total_add. destruct (term p); cbn [negb andb].
    - symmetry. apply total_0.
    - rewrite <- (C p Hp). apply total_ext. intros q _. destruct (term q); cbn; lia. }
  rewrite <- E, <- total_add. apply total_ext. intros p _. destruct (term p); lia.
Qed.
(** Weak duality. *)
Lemma weak_duality n c b f x term : is_flow n c b f x -> flow_value n x <= cut_value n c b term.
Proof.
  intros F. rewrite (value_across term F). destruct F as (_ & B & C & _). unfold cut_value. apply Z.add_le_mono.
  - apply total_le. intros p Hp. apply total_le. intros q Hq. destruct (_ && _); [auto|lia].
  - apply total_le. intros p Hp. specialize (C p Hp). destruct (term p); lia.
Qed.
(** A flow that fills a cut. *)
Lemma tight_cut n c b f x term : is_flow n c b f x ->
  (forall p q, (p < n)%nat -> (q < n)%nat -> term p = false -> term q = true -> f p q = c p q) ->
  (forall p, (p < n)%nat -> x p = b p \/ if term p then b p <= 0 else 0 <= b p) ->
  flow_value n x = cut_value n c b term.
Proof.
  intros F H1 H2. rewrite (value_across term F). destruct F as (_ & _ & C & _). unfold cut_value. f_equal.
  - apply total_ext. intros p Hp. apply total_ext. intros q Hq. destruct (term p) eqn:P, (term q) eqn:Q; cbn; auto.
  - apply total_ext. intros p Hp. specialize (C p Hp). destruct (H2 p Hp) as [->|E]; destruct (term p); lia.
Qed.
