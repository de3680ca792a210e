(** C67: parallel_for and parallel_reduce. *)
From Coq Require Import List Arith ZArith NArith Lia Bool Permutation.
From Verif Require Import Base Pool UtilModel RangeModel RangeProofs RangeProperties PforModel PforProofs.
Import ListNotations.
Set Implicit Arguments.

Section Edges.
Variable A : Type.
Variable g : list (list A).
Notation m := (sum (map (@length A) g)).
Definition orw (r : orange) : Prop := or_begin r <= or_end r /\ or_end r <= length g.
Lemma orw_split r : orw r -> orw (fst (or_split r)) /\ orw (snd (or_split r)).
Proof. intros (H & L). destruct (@or_split_ok r H) as (k & M & E & _). rewrite E. unfold orw. cbn. lia. Qed.
Notation els := (fun r => edges_between g (or_begin r) (or_end r)).
Lemma orw_visit r : orw r -> edges_of_range m g r = Ok (els r).
Proof.
  intros (H & L). apply edges_of_range_ok; auto. assert (E : length (edges_between g 0 (length g)) = m).
  { rewrite edges_between_list by lia. cbn [skipn]. apply list_edges_length. }
  rewrite <- E, (@edges_between_app _ g 0 (or_begin r) (length g)), (@edges_between_app _ g (or_begin r) (or_end r) (length g)) by lia. rewrite !app_length. lia.
Qed.
Lemma orw_cat r : orw r -> els r = els (fst (or_split r)) ++ els (snd (or_split r)).
Proof. intros (H & L). destruct (@or_split_ok r H) as (k & M & E & _). rewrite E. cbn [fst snd or_begin or_end]. apply edges_between_app; lia. Qed.
Lemma orw_make offset : offset <= length g -> orw (or_make g offset) /\ els (or_make g offset) = list_edges offset (skipn offset g).
Proof. intros H. split; [split; cbn; lia|]. cbn [or_make or_begin or_end]. now apply edges_between_list. Qed.
End Edges.

(** Over an edge range, with an associative operation whose identity is the initial value: the result is the reduction of
    the operator's values over the edges in order, however the range is split and whichever parts are stolen. *)
Theorem C67_reduce : forall A (g : list (list A)) offset D (op : nat * A -> res D) (F : nat * A -> D) red init t,
  offset <= length g ->
  (forall a b c, red a (red b c) = red (red a b) c) -> (forall a, red init a = a) -> (forall a, red a init = a) ->
  (forall e, op e = Ok (F e)) ->
  parallel_reduce or_split or_divisible (edges_of_range (sum (map (@length A) g)) g) op red red t (or_make g offset) init =
    Ok (fold_right red init (map F (list_edges offset (skipn offset g)))).
Proof.
  intros A g offset D op F red init t H AS IL IR OP. destruct (orw_make g H) as (W & E).
  rewrite (@monoid_ok _ _ or_split or_divisible _ _ _ (orw_split (g := g)) (orw_visit (g := g)) _ op F red init); auto.
  - now rewrite E.
  - apply orw_cat.
Qed.

(** Any other initial value is added once more for every body split off: the same call gives different sums in different
    executions as soon as the graph has more than 16 rows. *)
Theorem C67_init_counted_again : forall A (g : list (list A)) offset (op : nat * A -> res nat) F init t,
  offset <= length g -> (forall e, op e = Ok (F e)) ->
  parallel_reduce or_split or_divisible (edges_of_range (sum (map (@length A) g)) g) op Nat.add Nat.add t (or_make g offset) init =
    Ok (sum (map F (list_edges offset (skipn offset g))) + init * (if 16 <? length g - offset then S (joins t) else 1)).
Proof.
  intros A g offset op F init t H OP. destruct (orw_make g H) as (W & E).
  rewrite (@sum_ok _ _ or_split or_divisible _ _ _ (orw_split (g := g)) (orw_visit (g := g)) op F); auto.
  - unfold total. rewrite E. do 2 f_equal. unfold or_divisible, or_size, or_cutoff. cbn [or_make or_begin or_end]. destruct (16 <? length g - offset); auto.
  - intros r Hr. rewrite (orw_cat Hr). auto.
Qed.

(** Cyclic ranges reorder the elements; a sum does not mind. [cutoff] is at least 1, so the range always divides. *)
Definition cyc_els {A} (l : list A) (r : crange) : list A :=
  flat_map (fun i => match nth_error l i with Some x => [x] | None => [] end) (residues (length l) (cr_stride r) (cr_cycle r)).
Lemma cyc_visit A (l : list A) r : cr_wf (length l) r -> cr_visit (length l) l r = Ok (cyc_els l r).
Proof.
  intros H. destruct (@cr_visit_ok _ l (length l) r (length l) eq_refl H (le_n _)) as (vals & E & _ & M). rewrite E. f_equal. unfold cyc_els. clear E.
  revert M. generalize (residues (length l) (cr_stride r) (cr_cycle r)). intros is. revert vals.
  induction is as [|i is IH]; intros vals M; destruct vals as [|y vals]; try discriminate; auto. cbn [map] in M. injection M as M1 M2.
  symmetry in M1. apply vget_Ok in M1. cbn [flat_map]. rewrite M1. cbn [app]. f_equal. auto.
Qed.
Lemma cyc_split A (l : list A) r : cr_wf (length l) r -> Permutation (cyc_els l r) (cyc_els l (fst (cr_split r)) ++ cyc_els l (snd (cr_split r))).
Proof.
  intros (_ & C). unfold cyc_els, cr_split. cbn [fst snd cr_stride cr_cycle]. rewrite <- flat_map_app. apply Permutation_flat_map, residues_split. auto.
Qed.
Lemma cyc_all A (l : list A) r : cr_stride r = 1%Z -> cr_cycle r = 0%Z -> cyc_els l r = l.
Proof.
  intros S C. unfold cyc_els. rewrite S, C, residues_one. clear.
  enough (G : forall k m, k + length m = length l -> skipn k l = m -> flat_map (fun i => match nth_error l i with Some x => [x] | None => [] end) (seq k (length m)) = m).
  { apply (G 0 l); auto. }
  intros k m. revert k. induction m as [|x m IH]; intros k L E; cbn [length seq flat_map]; auto.
  assert (N : nth_error l k = Some x).
  { rewrite <- (firstn_skipn k l), E. cbn [length] in L. rewrite nth_error_app2; rewrite firstn_length; [|lia]. now replace (k - min k (length l)) with 0 by lia. }
  rewrite N. cbn [app]. f_equal. cbn [length] in L. apply IH; [lia|]. rewrite (@skipn_nth_cons _ l k x) in E by lia. congruence.
Qed.
Theorem C67_reduce_cyclic : forall A (l : list A) cutoff c (op : A -> res nat) F init t,
  cr_make (length l) cutoff = Ok c -> (cutoff < 2 ^ 62)%N -> (forall x, op x = Ok (F x)) ->
  parallel_reduce cr_split cr_divisible (cr_visit (length l) l) op Nat.add Nat.add t c init = Ok (sum (map F l) + init * S (joins t)).
Proof.
  intros A l cutoff c op F init t E H OP. destruct (@cr_make_ok _ _ _ E) as (W & S & C).
  rewrite (@sum_ok _ _ cr_split cr_divisible (cr_visit (length l) l) (cr_wf (length l)) (cyc_els l) (@cr_split_wf _) (@cyc_visit _ l) op F); auto.
  - unfold total. rewrite cyc_all by auto. replace (cr_divisible c) with true; auto. symmetry. unfold cr_divisible. rewrite S. apply Z.leb_le.
    unfold cr_make, ceil_log2 in E. destruct (N.eqb_spec cutoff 0); [discriminate|]. cbn [bind] in E.
    match type of E with (do p <- pow2 64 ?e ; _) = _ => destruct (pow2 64 e) as [p| |] eqn:P; try discriminate; set (ee := e) in * end. cbn [bind] in E. injection E as <-. cbn [cr_cutoff].
    unfold pow2 in P. destruct (N.ltb_spec ee 64); [|discriminate]. apply (f_equal (fun r => match r with Ok x => x | _ => p end)) in P. cbv beta iota in P. rewrite <- P. rewrite N.shiftl_1_l, N.mod_small by (apply N.pow_lt_mono_r; lia).
    assert (Q : (0 < 2 ^ ee)%N) by (apply N.neq_0_lt_0, N.pow_nonzero; lia). clear - Q. lia.
  - apply cyc_split.
Qed.

(** parallel_for hands every element of the range to the operator exactly once, in every interleaving; a range that does
    not divide is processed in order. *)
Theorem C67_for_each_edge_once : forall A (g : list (list A)) offset sched t, offset <= length g ->
  exists tr, parallel_for or_split or_divisible (edges_of_range (sum (map (@length A) g)) g) (@trace_op _) sched t (or_make g offset) [] = Ok tr /\
    Permutation tr (list_edges offset (skipn offset g)) /\
    (length g - offset <= 16 -> tr = list_edges offset (skipn offset g)).
Proof.
  intros A g offset sched t H. destruct (orw_make g H) as (W & E).
  destruct (@trace_ok _ _ or_split or_divisible _ _ _ (orw_split (g := g)) (orw_visit (g := g))) with (sched := sched) (t := t) (r := or_make g offset) as (tr & ET & P & Q); auto.
  - intros r Hr. rewrite (orw_cat Hr). auto.
  - exists tr. rewrite E in *. split; auto. split; auto. intros L. apply Q. unfold or_divisible, or_size, or_cutoff. cbn [or_make or_begin or_end]. apply Nat.ltb_ge. auto.
Qed.
Theorem C67_for_cyclic_once : forall A (l : list A) cutoff c sched t, cr_make (length l) cutoff = Ok c ->
  exists tr, parallel_for cr_split cr_divisible (cr_visit (length l) l) (@trace_op _) sched t c [] = Ok tr /\ Permutation tr l.
Proof.
  intros A l cutoff c sched t E. destruct (@cr_make_ok _ _ _ E) as (W & S & C).
  destruct (@trace_ok _ _ cr_split cr_divisible _ _ _ (@cr_split_wf _) (@cyc_visit _ l)) with (sched := sched) (t := t) (r := c) as (tr & ET & P & Q); auto.
  - apply cyc_split.
  - exists tr. rewrite cyc_all in P by auto. auto.
Qed.

(** ** Non-vacuity *)
Definition ex_rows : list (list nat) := map (fun i => if i =? 3 then [] else [i; 2 * i]) (seq 0 20).
Definition ex_tree : rtree := RSeq (RJoin RLeaf (RSeq RLeaf RLeaf)) (RJoin RLeaf RLeaf).
Definition ex_red init t := parallel_reduce or_split or_divisible (edges_of_range 38 ex_rows) (fun e => Ok (snd e)) Nat.add Nat.add t (or_make ex_rows 0) init.
Example C67_ex_reduce : ex_red 0 ex_tree = Ok 561 /\ ex_red 0 RLeaf = Ok 561 /\ ex_red 5 RLeaf = Ok 566 /\ ex_red 5 ex_tree = Ok 576 /\ joins ex_tree = 2.
Proof. vm_compute. auto. Qed.
(** Concatenation is associative but not commutative. *)
Example C67_ex_order : parallel_reduce or_split or_divisible (edges_of_range 38 ex_rows) (fun e => Ok [e]) (@app _) (@app _) ex_tree (or_make ex_rows 0) [] =
  Ok (list_edges 0 ex_rows).
Proof. vm_compute. reflexivity. Qed.
Example C67_ex_cyclic : exists c, cr_make 7 2 = Ok c /\ cr_divisible c = true /\
  parallel_reduce cr_split cr_divisible (cr_visit 7 [1; 2; 3; 4; 5; 6; 7]) (fun x => Ok x) Nat.add Nat.add ex_tree c 100 = Ok 328 /\
  parallel_for cr_split cr_divisible (cr_visit 7 [1; 2; 3; 4; 5; 6; 7]) (@trace_op _) (fun t => t * 3) (SNode (SNode SLeaf SLeaf) SLeaf) c [] = Ok [1; 5; 2; 3; 4; 7; 6].
Proof. eexists. split; [vm_compute; reflexivity|]. vm_compute. repeat split. Qed.
Print Assumptions C67_reduce.
Print Assumptions C67_init_counted_again.
Print Assumptions C67_reduce_cyclic.
Print Assumptions C67_for_each_edge_once.
Print Assumptions C67_for_cyclic_once.
