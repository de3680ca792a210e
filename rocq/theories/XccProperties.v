(** C86: compute_connected_components (experimental/algorithms/connected_components.hpp:70-90), components by a search from every vertex that has
    no label yet: right when run in order on a symmetric graph; in parallel any two vertices can come out wrong. *)
From Coq Require Import List Arith Lia Bool Sorted.
From Verif Require Import Pool ParBfsModel BfsRangeModel XccModel XccProofs Base GraphLib.
Import ListNotations.
Set Implicit Arguments.

(** W is the number of values of the id type; the caller has filled component_ids with its largest value, W - 1. *)
Notation unlabelled W g := (repeat (W - 1) (length g)).
(** No smaller vertex reaches r. *)
Definition first_of_its_kind (g : list (list nat)) (r : nat) : Prop := r < length g /\ forall u, u < r -> ~ reachable g u r.

(** Under every schedule the loop ends, without undefined behaviour, and every vertex has got a label below the number of vertices. *)
Theorem C86_every_schedule W g sched : targets_ok g -> length g < W ->
  exists ids, compute_connected_components W g sched (unlabelled W g) = Ok ids /\ length ids = length g /\ forall x, x < length g -> nth x ids (W - 1) < length g.
Proof.
  intros TO HW. destruct (@inv_total W g TO HW sched) as (r & E & I). exists (fst r). rewrite compute_run by auto. rewrite E. split; auto. now apply (inv_final (W := W)).
Qed.

(** In order, on any graph: the searches start at the vertices that no smaller vertex reaches, in increasing order; the label of x is the number of
    the last of these searches that reaches x. *)
Theorem C86_in_order W g : targets_ok g -> length g < W ->
  exists roots ids, compute_connected_components W g (fun _ => 0) (unlabelled W g) = Ok ids /\ length ids = length g /\
    StronglySorted lt roots /\ (forall r, In r roots <-> first_of_its_kind g r) /\
    forall x, x < length g -> exists i, nth_error ids x = Some i /\ (exists r, nth_error roots i = Some r /\ reachable g r x) /\
      forall j r, i < j -> nth_error roots j = Some r -> ~ reachable g r x.
Proof.
  intros TO HW. destruct (@sequential W g TO HW) as (roots & ids & E & L & [SS IF] & H). exists roots, ids. split; auto. split; auto. split; auto. split; [exact IF|].
  intros x Lx. destruct (H x Lx) as (A & B & C). exists (nth x ids (W - 1)). split; [apply nth_error_nth'; lia|]. split.
  - exists (nth (nth x ids (W - 1)) roots 0). split; auto. now apply nth_error_nth'.
  - intros j r Lj Er. assert (j < length roots) by (apply nth_error_Some; congruence). apply (nth_error_nth _ _ 0) in Er. subst r. now apply C.
Qed.

(** In order, on a symmetric graph: two vertices have the same label exactly if they are connected, and the labels are 0, 1, ... in the order of the
    smallest vertices of the components. *)
Theorem C86_components W g : targets_ok g -> length g < W -> (forall u v, edge g u v -> edge g v u) ->
  exists ids, compute_connected_components W g (fun _ => 0) (unlabelled W g) = Ok ids /\ length ids = length g /\
    (forall u v, u < length g -> v < length g -> (nth_error ids u = nth_error ids v <-> reachable g u v)) /\
    exists roots, StronglySorted lt roots /\ (forall r, In r roots <-> first_of_its_kind g r) /\ forall i r, nth_error roots i = Some r -> nth_error ids r = Some i.
Proof.
  intros TO HW SYM. destruct (C86_in_order TO HW) as (roots & ids & E & L & SS & IF & H). exists ids. split; auto. split; auto.
  assert (RS := reach_sym SYM). assert (RT := @reach_trans g).
  assert (RU : forall i j r r' x, nth_error roots i = Some r -> nth_error roots j = Some r' -> reachable g r x -> reachable g r' x -> i = j).
  { intros i j r r' x Ei Ej A B. assert (R : reachable g r r') by (apply (RT _ x _ A); auto). assert (r = r').
    { destruct (Nat.lt_trichotomy r r') as [L'|[|L']]; auto; exfalso.
      - apply nth_error_In in Ej. apply IF in Ej. now apply (proj2 Ej r).
      - apply nth_error_In in Ei. apply IF in Ei. apply (proj2 Ei r'); auto. }
    subst r'. assert (ND : NoDup roots) by (clear - SS; induction SS as [|a l S IH F]; constructor; auto; intros I; rewrite Forall_forall in F; apply F in I; lia).
    apply (proj1 (NoDup_nth_error roots) ND); [apply nth_error_Some; congruence|congruence]. }
  split.
  - intros u v Lu Lv. destruct (H u Lu) as (i & Ei & (r & Er & A) & _). destruct (H v Lv) as (j & Ej & (r' & Er' & B) & _). rewrite Ei, Ej. split.
    + intros [= <-]. assert (r' = r) by congruence. subst r'. apply (RT _ r); auto.
    + intros R. f_equal. apply (RU i j r r' v); auto. now apply (RT _ u).
  - exists roots. split; auto. split; auto. intros i r Er. assert (I := nth_error_In _ _ Er). apply IF in I. destruct I as [Lr _]. destruct (H r Lr) as (j & Ej & (r' & Er' & B) & _).
    rewrite Ej. f_equal. apply (RU j i r' r r); auto. apply reach_refl.
Qed.

(** In parallel, even with atomic accesses and on a symmetric graph, any two vertices can come out wrong: vertices that are not connected with the same label ... *)
Theorem C86_merged W g u v : targets_ok g -> length g < W -> (forall u v, edge g u v -> edge g v u) -> u < length g -> v < length g -> ~ reachable g u v ->
  exists sched ids, compute_connected_components W g sched (unlabelled W g) = Ok ids /\ nth_error ids u = nth_error ids v.
Proof.
  intros TO HW SYM Lu Lv NR. assert (u <> v) by (intros ->; apply NR; exists 0; constructor).
  assert (G : forall a b, a < b -> b < length g -> ~ reachable g a b -> exists sched ids, compute_connected_components W g sched (unlabelled W g) = Ok ids /\ nth_error ids a = nth_error ids b).
  { intros a b L1 L2 N. destruct (@race W g TO HW SYM a b L1 L2) as [X _]. destruct (X N) as (sched & ids & E & A & B). exists sched, ids. split; auto.
    destruct (C86_every_schedule sched TO HW) as (ids' & E' & L & _). assert (ids' = ids) by congruence. subst ids'. rewrite (nth_error_nth' ids (W - 1)) by lia. rewrite (nth_error_nth' ids (W - 1) (n := b)) by lia. congruence. }
  destruct (Nat.lt_trichotomy u v) as [L|[|L]]; [now apply G|easy|]. destruct (G v u) as (sched & ids & E & Q); auto. { intros R. apply NR. now apply (reach_sym SYM). } exists sched, ids. auto.
Qed.
(** ... and connected ones with different labels. *)
Theorem C86_split W g u v : targets_ok g -> length g < W -> (forall u v, edge g u v -> edge g v u) -> u < length g -> v < length g -> u <> v -> reachable g u v ->
  exists sched ids, compute_connected_components W g sched (unlabelled W g) = Ok ids /\ nth_error ids u <> nth_error ids v.
Proof.
  intros TO HW SYM Lu Lv NE R.
  assert (G : forall a b, a < b -> b < length g -> reachable g a b -> exists sched ids, compute_connected_components W g sched (unlabelled W g) = Ok ids /\ nth_error ids a <> nth_error ids b).
  { intros a b L1 L2 N. destruct (@race W g TO HW SYM a b L1 L2) as [_ X]. destruct (X N) as (sched & ids & E & A & B). exists sched, ids. split; auto.
    destruct (C86_every_schedule sched TO HW) as (ids' & E' & L & _). assert (ids' = ids) by congruence. subst ids'. rewrite (nth_error_nth' ids (W - 1)) by lia. rewrite (nth_error_nth' ids (W - 1) (n := b)) by lia. congruence. }
  destruct (Nat.lt_trichotomy u v) as [L|[|L]]; [now apply G|easy|]. destruct (G v u) as (sched & ids & E & Q); auto. { now apply (reach_sym SYM). } exists sched, ids. auto.
Qed.

(** With a multiple of W vertices the end of the loop wraps to 0: nothing is labelled. *)
Theorem C86_wraps W g sched ids k : 1 <= W -> length g = k * W -> compute_connected_components W g sched ids = Ok ids.
Proof. intros HW E. unfold compute_connected_components. rewrite E, Nat.mod_mul by lia. reflexivity. Qed.

(** ** Examples *)
(** 0 - 2, 1 - 3 - 4; 5 alone. *)
Definition ex_g := [[2]; [3]; [0]; [1;4]; [3]; []].
Example ex_hyp : targets_ok ex_g /\ length ex_g < 256 /\ (forall u v, edge ex_g u v -> edge ex_g v u).
Proof.
  split; [|split; [cbn; lia|]].
  - intros u v E. unfold edge, ex_g in E. do 6 (destruct u as [|u]; [cbn in E; intuition; subst; cbn; lia|]). destruct u; now cbn in E.
  - intros u v E. unfold edge, ex_g in *. do 6 (destruct u as [|u]; [cbn in E; intuition; subst; cbn; auto|]). destruct u; now cbn in E.
Qed.
Example ex_in_order : compute_connected_components 256 ex_g (fun _ => 0) (unlabelled 256 ex_g) = Ok [0;1;0;1;1;2].
Proof. vm_compute. reflexivity. Qed.
(** All test first. *)
Example ex_parallel : compute_connected_components 256 ex_g (fun k => k) (unlabelled 256 ex_g) = Ok [5;5;5;5;5;5].
Proof. vm_compute. reflexivity. Qed.
(** A directed graph: 1 and 2 get one label, 0 another, though 0 -> 2 <- 1. *)
Example ex_directed : compute_connected_components 256 [[2];[2];[]] (fun _ => 0) (unlabelled 256 [[2];[2];[]]) = Ok [0;1;1].
Proof. vm_compute. reflexivity. Qed.
Example ex_merge : exists sched ids, compute_connected_components 256 ex_g sched (unlabelled 256 ex_g) = Ok ids /\ nth_error ids 4 = nth_error ids 5.
Proof.
  destruct ex_hyp as (A & B & C). apply C86_merged; auto; try (cbn; lia). intros R. apply (reach_sym C) in R. destruct R as [k WK].
  assert (G : forall k x, walk ex_g 5 k x -> x = 5) by (clear; intros k x WK; induction WK as [|k x y WK IH E]; auto; subst x; unfold edge in E; now cbn in E).
  apply G in WK. discriminate.
Qed.
Example ex_split : exists sched ids, compute_connected_components 256 ex_g sched (unlabelled 256 ex_g) = Ok ids /\ nth_error ids 4 <> nth_error ids 1.
Proof.
  destruct ex_hyp as (A & B & C). apply C86_split; auto; try (cbn; lia). exists 2. apply walk_S with (u := 3); [apply walk_S with (u := 4); [constructor|]|]; unfold edge; cbn; auto.
Qed.
Example ex_wrap : compute_connected_components 2 [[1];[0]] (fun _ => 0) [1;1] = Ok [1;1].
Proof. vm_compute. reflexivity. Qed.

Print Assumptions C86_every_schedule.
Print Assumptions C86_in_order.
Print Assumptions C86_components.
Print Assumptions C86_merged.
Print Assumptions C86_split.
Print Assumptions C86_wraps.
