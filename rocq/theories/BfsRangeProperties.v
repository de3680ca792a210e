(** C43, C44: what the breadth-first ranges enumerate.  Specifications: [level_order], [tree_order] (FifoLib). *)
From Coq Require Import List Arith Lia Bool Sorted Permutation.
From Verif Require Import Base GraphLib FifoLib BfsRangeModel BfsRangeProofs.
Import ListNotations.
Set Implicit Arguments.

(** topdown_bfs_range yields every vertex reachable from the seed exactly once, seed first, by non-decreasing distance. *)
Theorem C43_topdown g seed : targets_ok g -> seed < length g ->
  exists r, topdown g seed = Ok r /\ hd_error r = Some seed /\ NoDup r /\ (forall x, In x r <-> reachable g seed x) /\
    StronglySorted (fun x y => forall a b, dist g seed x a -> dist g seed y b -> a <= b) r.
Proof. intros T L. destruct (topdown_ok T L) as (r & E & (A & B & C) & H). exists r. auto. Qed.

(** bottomup_bfs_range is no breadth-first search: it yields all vertices, reachable or not, in the cyclic order
    seed, seed+1, ..., and the "parent" it pairs with the first vertex is its first neighbour (itself if there is none). *)
Theorem C43_bottomup_order g seed : targets_ok g -> seed < length g ->
  exists r, bottomup g seed = Ok r /\ map fst r = map (fun k => (seed + k) mod length g) (seq 0 (length g)) /\
    Permutation (map fst r) (seq 0 (length g)) /\ snd (nth 0 r (0, 0)) = hd seed (nth seed g []).
Proof.
  intros T L. destruct (bottomup_ok T L) as (ps & E & Lp & H0 & _). eexists. split; [exact E|].
  assert (F : map fst (combine (bu_order (length g) seed) ps) = bu_order (length g) seed).
  { apply map_fst_combine. now rewrite bu_order_length. }
  rewrite F. split; [reflexivity|]. split.
  - apply NoDup_Permutation_bis; [now apply bu_order_nodup|rewrite bu_order_length, seq_length; auto|].
    intros x X. apply in_map_iff in X. destruct X as (k & <- & _). apply in_seq. split; [lia|]. apply Nat.mod_upper_bound. lia.
  - rewrite combine_nth by (now rewrite bu_order_length). exact H0.
Qed.

(** The parent paired with a later vertex: the first of its neighbours that was yielded before it; the vertex itself if
    it has no neighbour; and, if it has neighbours but none was yielded yet, whatever was paired with the previous vertex. *)
Theorem C43_bottomup_parent g seed r : targets_ok g -> seed < length g -> bottomup g seed = Ok r ->
  forall k, S k < length g ->
    let v := fst (nth (S k) r (0, 0)) in let p := snd (nth (S k) r (0, 0)) in
    (nth v g [] = [] -> p = v) /\
    (forall l1 u l2, nth v g [] = l1 ++ u :: l2 -> In u (map fst (firstn (S k) r)) ->
       (forall x, In x l1 -> ~ In x (map fst (firstn (S k) r))) -> p = u) /\
    (nth v g [] <> [] -> (forall x, In x (nth v g []) -> ~ In x (map fst (firstn (S k) r))) -> p = snd (nth k r (0, 0))).
Proof.
  intros T L E k K. destruct (bottomup_ok T L) as (ps & E' & Lp & H0 & HS). rewrite E' in E. injection E as <-.
  rewrite <- firstn_map, map_fst_combine by (now rewrite bu_order_length).
  rewrite !combine_nth by (now rewrite bu_order_length). cbn [fst snd]. rewrite bu_order_nth, HS by auto.
  unfold bu_parent_of. set (v := (seed + S k) mod length g). set (P := firstn (S k) (bu_order (length g) seed)).
  assert (X : forall u, existsb (Nat.eqb u) P = true <-> In u P).
  { intros u. rewrite existsb_exists. split; [intros (y & I & Q); apply Nat.eqb_eq in Q; now subst|].
    intros I. exists u. split; auto. apply Nat.eqb_refl. }
  split; [intros ->; reflexivity|]. split.
  - intros l1 u l2 Er Iu N. rewrite Er. replace (match l1 ++ u :: l2 with [] => v | _ :: _ => _ end) with
      (match find (fun u => existsb (Nat.eqb u) P) (l1 ++ u :: l2) with Some u => u | None => nth k ps 0 end)
      by (destruct l1; reflexivity).
    clear Er. induction l1 as [|x l1 IH]; cbn [app find].
    + apply X in Iu. now rewrite Iu.
    + destruct (existsb (Nat.eqb x) P) eqn:Q; [apply X in Q; exfalso; apply (N x); auto; now left|].
      apply IH. intros y Y. apply N. now right.
  - intros Nr N. destruct (nth v g []) as [|w row]; [contradiction|].
    destruct (find _ (w :: row)) as [u|] eqn:F; auto. apply find_some in F. destruct F as [I Q]. apply X in Q.
    now apply N in I.
Qed.

(** bfs_edge_range yields the edges of a breadth-first tree in level order, provided the seed has a neighbour; when
    the first neighbour of the seed is the seed itself, that self loop comes first. *)
Theorem C44_bfs_edge_range g seed w row : targets_ok g -> seed < length g -> nth seed g [] = w :: row ->
  exists T, tree_order g seed T /\ bfs_edges g seed = Ok (if w =? seed then (seed, seed) :: T else T).
Proof. intros Tg L E. assert (H := bfs_edges_ok Tg L). rewrite E in H. exact H. Qed.

(** On a seed without neighbours the first element is read past the end of the empty row. *)
Theorem C44_bfs_edge_range_isolated g seed : targets_ok g -> seed < length g -> nth seed g [] = [] ->
  bfs_edges g seed = Ub.
Proof. intros Tg L E. assert (H := bfs_edges_ok Tg L). rewrite E in H. exact H. Qed.

(** bfs_edge_range3 yields the edges of a breadth-first tree in level order; when nothing but the seed is reachable it
    yields the single pair (seed, seed). *)
Theorem C44_bfs_edge_range3 g seed : targets_ok g -> seed < length g ->
  exists T, tree_order g seed T /\ bfs_edges3 g seed = Ok (match T with [] => [(seed, seed)] | _ => T end).
Proof. intros Tg L. exact (bfs_edges3_ok Tg L). Qed.

(** A tree in that sense has one edge for each reachable vertex other than the seed. *)
Theorem C44_tree_edges g seed T : tree_order g seed T ->
  NoDup (map snd T) /\ forall v, In v (map snd T) <-> reachable g seed v /\ v <> seed.
Proof.
  intros [(N & R & _) _]. inversion N; subst. split; auto. intros v. split.
  - intros I. split; [apply R; now right|]. intros ->. contradiction.
  - intros [X Ne]. apply R in X. destruct X; [congruence|auto].
Qed.

Definition ex_b : list (list nat) := [[2; 3]; [0]; [0; 4; 3]; [2; 4]; [4; 2; 5]; []; [0]].
Example ex_b_ok : targets_ok ex_b /\ 0 < length ex_b.
Proof.
  split; [|simpl; lia]. intros u v E. unfold edge in E. simpl length.
  do 7 (destruct u as [|u]; [simpl in E; intuition lia|]). destruct u; destruct E.
Qed.
Example ex_b_run : topdown ex_b 0 = Ok [0; 2; 3; 4; 5] /\ bfs_edges ex_b 0 = Ok [(0, 2); (0, 3); (2, 4); (4, 5)] /\
  bfs_edges3 ex_b 0 = Ok [(0, 2); (0, 3); (2, 4); (4, 5)] /\ bfs_edges3 ex_b 5 = Ok [(5, 5)] /\ bfs_edges ex_b 5 = Ub.
Proof. repeat split. Qed.
Example ex_b_self : bfs_edges ex_b 4 = Ok [(4, 4); (4, 2); (4, 5); (2, 0); (2, 3)].
Proof. reflexivity. Qed.
(** Two disjoint undirected edges: the pairs (2, 0) is not an edge, and 2 and 3 are not reachable from 0. *)
Definition ex_2k2 : list (list nat) := [[1]; [0]; [3]; [2]].
Example ex_bottomup : bottomup ex_2k2 0 = Ok [(0, 1); (1, 0); (2, 0); (3, 2)] /\ ~ edge ex_2k2 2 0 /\ ~ edge ex_2k2 0 2.
Proof. split; [reflexivity|]. unfold edge. simpl. lia. Qed.
Print Assumptions C43_topdown.
Print Assumptions C43_bottomup_order.
Print Assumptions C43_bottomup_parent.
Print Assumptions C44_bfs_edge_range.
Print Assumptions C44_bfs_edge_range_isolated.
Print Assumptions C44_bfs_edge_range3.
Print Assumptions C44_tree_edges.
