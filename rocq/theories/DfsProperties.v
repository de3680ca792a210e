(** C56: what the depth-first ranges of adaptors/dfs_range.hpp enumerate.  Specification: [dfs_from] and [below]
    (DfsProofs), [post] and [forest] (DfsPostProofs), which speak about rows and lists of discovered vertices only. *)
From Coq Require Import List Arith Lia Bool.
From Verif Require Import Base GraphLib DfsModel DfsProofs DfsPostProofs.
Import ListNotations.
Set Implicit Arguments.

(** On a graph without self loops dfs_edge_range yields the tree edges of the depth-first search from the seed, in the
    order of discovery, also with assertions enabled, provided the seed has a neighbour. *)
Theorem C56_dfs_edge_range g seed debug : targets_ok g -> seed < length g -> nth seed g [] <> [] ->
  (forall x, ~ edge g x x) ->
  exists T, dfs_edges debug g seed = Ok T /\ dfs_from g [seed] T.
Proof.
  intros Hok Hs Hn Hl. destruct (nth seed g []) as [|w row] eqn:E; [contradiction|].
  destruct (@dfs_edges_ok g seed debug Hok Hs (fun _ => Hl) w row E) as (r & Er & Dr & _ & Hr). exists r. split; auto.
  rewrite filter_all in Dr; auto. intros [x y] H. apply Hr in H. unfold nonloop. cbn. destruct (Nat.eqb_spec x y); auto.
  subst. exfalso. eapply Hl; eauto.
Qed.

(** With self loops (and assertions disabled): the same, but some self loops of discovered vertices are yielded between
    the tree edges, each at most once. *)
Theorem C56_dfs_edge_range_loops g seed : targets_ok g -> seed < length g -> nth seed g [] <> [] ->
  exists r, dfs_edges false g seed = Ok r /\ dfs_from g [seed] (filter (fun e => negb (fst e =? snd e)) r) /\ NoDup r /\
    forall x y, In (x, y) r -> edge g x y.
Proof.
  intros Hok Hs Hn. destruct (nth seed g []) as [|w row] eqn:E; [contradiction|].
  apply (@dfs_edges_ok g seed false Hok Hs ltac:(discriminate) w row E).
Qed.

(** On a seed without neighbours the first element is read past the end of the empty row. *)
Theorem C56_dfs_edge_range_isolated g seed debug : seed < length g -> nth seed g [] = [] -> dfs_edges debug g seed = Ub.
Proof. apply dfs_edges_isolated. Qed.

(** The specification determines the edges, they span exactly the reachable vertices, every edge starts at a vertex
    discovered before, and every arc of the graph leads to an earlier vertex or to a descendant of its source. *)
Theorem C56_dfs_tree g s T : dfs_from g [s] T ->
  NoDup (s :: map snd T) /\ (forall x, In x (s :: map snd T) <-> reachable g s x) /\
  (forall T1 u v T2, T = T1 ++ (u, v) :: T2 -> edge g u v /\ In u (s :: map snd T1)) /\
  (forall x y E1 E2, s :: map snd T = E1 ++ x :: E2 -> edge g x y -> In y E2 -> below T x y).
Proof.
  intros H. split; [|split; [|split]].
  - apply (dfs_from_nodup H). repeat constructor. easy.
  - intros x. split.
    + apply (dfs_from_reach H). intros y [<-|[]]. exists 0. constructor.
    + intros [k W]. revert x W. induction k; intros x W; inversion W; subst; [now left|].
      eapply (dfs_from_closed H); eauto. 
  - intros T1 u v T2 E. split; [|eapply (dfs_from_src H); eauto]. apply (dfs_from_edges H). rewrite E. apply in_or_app. right. now left.
  - intros x y E1 E2 E. apply (dfs_arc H (T0 := T)) with (E1 := E1); auto.
    + intros a b F1 F2 F _ C. destruct F1 as [|c [|d F1]]; try discriminate. cbn in F. injection F as <- <-. destruct C.
    + intros F1 a F2 F _ z C. destruct F1 as [|c [|d F1]]; try discriminate. cbn in F. injection F as <- <-. destruct C.
Qed.
Theorem C56_dfs_unique g s T T' : dfs_from g [s] T -> dfs_from g [s] T' -> T = T'.
Proof.
  intros H. revert T'. generalize dependent T. assert (N : NoDup [s]) by (repeat constructor; easy). revert N.
  generalize [s]. intros D N T H. induction H; intros T' H'.
  - inversion H'; subst; auto. exfalso. apply H2. eapply H; [|unfold edge; rewrite H0; apply in_or_app; right; now left].
    apply in_or_app. right. now left.
  - inversion H' as [D E ED ET|D1' u' D2' l1' v' l2' T0 Er Hl Nv HD HT ED ET].
    { exfalso. apply H1. subst D. eapply E; [apply in_or_app; right; left; reflexivity|]. unfold edge. rewrite H.
      apply in_or_app. right. now left. }
    subst T'.
    assert (Eu : u' = u).
    { assert (E0 := ED). apply split_two in E0. destruct E0 as [X|[(X & _)|X]]; auto.
      - exfalso. apply H1. rewrite <- ED. eapply HD; [exact X|]. unfold edge. rewrite H. apply in_or_app. right. now left.
      - exfalso. apply Nv. rewrite ED. eapply H2; [exact X|]. unfold edge. rewrite Er. apply in_or_app. right. now left. }
    subst u'. rewrite H in Er. rewrite ED in *.
    assert (Ev : v' = v).
    { apply split_first in Er. destruct Er as [X|[X|X]]; auto; exfalso; auto. }
    subst v'. f_equal. apply IHdfs_from; auto.
    apply NoDup_Add with (a := v) (l := D1 ++ u :: D2); [|split; auto].
    replace (D1 ++ u :: D2) with ((D1 ++ u :: D2) ++ []) at 1 by apply app_nil_r. apply Add_app.
Qed.

(** dfs_range: on a graph of n vertices with n = end() - begin(), no loop over the range ever comes to its end: it runs
    into the out-of-bounds read of line 83 or goes on for ever. *)
Theorem C56_dfs_range_never_ends vf fuel g seed r : dfs_vertices (length g) vf fuel g seed <> Ok r.
Proof. apply dfs_vertices_never. lia. Qed.
(** From a seed without neighbours it yields the seed for ever, whatever end() - begin() is. *)
Theorem C56_dfs_range_isolated m vf fuel g seed : seed < length g -> length g <= m -> nth seed g [] = [] ->
  dfs_vertices m vf fuel g seed = OutOfFuel.
Proof. intros. now apply dfs_vertices_isolated. Qed.

(** What dfs_range yields: the post-order of the recursive search from the seed and then from the vertices 1, 2, ... that
    are not yet discovered (0 is left out), as long as none of these roots has an empty row.  After the last element an
    ordinary graph reads out of bounds; with one position more (C04) the loop ends there. *)
Theorem C56_dfs_range_post vf g seed D P F : targets_ok g -> seed < length g -> sum (map (@length nat) g) <= vf ->
  forest g [] (seed :: seq 1 (length g - 1)) D P ->
  dfs_vertices (S (length g)) vf (length P + F) g seed = Ok P /\ dfs_vertices (length g) vf (length P + F) g seed = Ub.
Proof.
  intros TG HS HV FO. rewrite <- need_sum in HV. split.
  - rewrite (@dfs_vertices_post g vf TG (S (length g)) seed D P F) by auto. rewrite (proj2 (Nat.ltb_lt _ _)) by lia. reflexivity.
  - rewrite (@dfs_vertices_post g vf TG (length g) seed D P F) by auto. now rewrite Nat.ltb_irrefl.
Qed.
(** When no row is empty (the row of 0 may be, unless it is the seed) such a search exists; it is unique, visits each
    vertex at most once, and visits what the seed or a vertex other than 0 reaches. *)
Theorem C56_dfs_range_cover g seed : targets_ok g -> seed < length g -> (forall r, r = seed \/ 1 <= r < length g -> nth r g [] <> []) ->
  exists D P, forest g [] (seed :: seq 1 (length g - 1)) D P /\ NoDup P /\
    (forall x, In x P <-> exists r, (r = seed \/ 1 <= r < length g) /\ reachable g r x) /\
    forall D' P', forest g [] (seed :: seq 1 (length g - 1)) D' P' -> P' = P.
Proof.
  intros TG HS NE. destruct (@post_exists g TG (length (free (length g) [])) [] (le_n _) (seed :: seq 1 (length g - 1))) as (D & P & H).
  { intros x [<-|X]; auto. apply in_seq in X. lia. }
  assert (IL : forall r, In r (seed :: seq 1 (length g - 1)) <-> r = seed \/ 1 <= r < length g) by (intros r; simpl; rewrite in_seq; intuition lia).
  exists D, P. split; [apply forest_of_post; auto; intros x X; apply NE, IL, X|]. split; [apply (post_nodup H)|]. split.
  - intros x. split.
    + intros X. destruct (post_reach H x X) as (r & A & B). exists r. split; auto. now apply IL.
    + intros (r & A & k & W). apply IL in A. destruct (post_closed H) as [C1 C2]. assert (S := post_sets H).
      assert (X : In x D) by (induction W as [|k u v W IH E]; [auto|]; apply (C2 u v); auto; apply S in IH; destruct IH as [[]|]; auto). apply S in X. destruct X as [[]|]; auto.
  - intros D' P' F'. apply forest_post in F'. symmetry. apply (post_unique H F').
Qed.
(** A vertex other than 0 with an empty row that the earlier roots do not reach is yielded for ever. *)
Theorem C56_dfs_range_stuck m vf g seed v : targets_ok g -> seed < length g -> length g <= m -> sum (map (@length nat) g) <= vf ->
  1 <= v < length g -> nth v g [] = [] -> (forall r, r = seed \/ 1 <= r < v -> nth r g [] <> [] /\ ~ reachable g r v) ->
  exists k, forall F, dfs_vertices m vf (k + F) g seed = OutOfFuel.
Proof.
  intros TG HS HM HV LV EV NR. rewrite <- need_sum in HV. destruct v as [|k]; [lia|].
  destruct (@post_exists g TG (length (free (length g) [])) [] (le_n _) (seed :: seq 1 k)) as (D & P & H); [intros x [<-|X]; auto; apply in_seq in X; lia|].
  exists (length P). intros F. apply (@dfs_vertices_stuck g vf TG m seed k D P F); auto; try lia.
  - apply forest_of_post; auto. intros x [<-|X]; [apply NR; auto|]. apply in_seq in X. apply NR. lia.
  - intros X. apply (post_sets H) in X. destruct X as [[]|X]. destruct (post_reach H _ X) as (r & [<-|A] & B); [apply (NR seed); auto|]. apply in_seq in A. apply (NR r); [lia|auto].
Qed.
Definition ex_dfs : list (list nat) := [[1; 2]; [0; 3]; [3; 0; 4]; [1; 4]; [2]; [0]].
Example C56_ex : targets_ok ex_dfs /\ (forall x, ~ edge ex_dfs x x) /\
  dfs_edges true ex_dfs 0 = Ok [(0, 1); (1, 3); (3, 4); (4, 2)].
Proof.
  split; [|split; [|vm_compute; reflexivity]].
  - intros u v. unfold edge. do 6 (destruct u; [cbn; lia|]). destruct u; cbn; tauto.
  - intros u. unfold edge. do 6 (destruct u; [cbn; lia|]). destruct u; cbn; tauto.
Qed.
(** A self loop is yielded, and the assertion of line 169 fails when the search comes back. *)
Example C56_ex_loop : dfs_edges false [[1]; [1; 2]; []] 0 = Ok [(0, 1); (1, 1); (1, 2)] /\
  dfs_edges true [[1]; [1; 2]; []] 0 = Ub.
Proof. split; vm_compute; reflexivity. Qed.
(** The loop over dfs_range runs out of bounds; on a graph with one row too many (C04) it ends and gives a post-order. *)
Example C56_ex_forest : exists D, forest ex_dfs [] [0; 1; 2; 3; 4; 5] D [2; 4; 3; 1; 0; 5].
Proof.
  destruct (@C56_dfs_range_cover ex_dfs 0) as (D & P & FO & _).
  - intros u v E. unfold edge in E. do 7 (destruct u as [|u]; [simpl in E; simpl; lia|]). destruct u; destruct E.
  - simpl; lia.
  - intros r Hr. simpl in Hr. do 6 (destruct r as [|r]; [discriminate|]). lia.
  - assert (TG : targets_ok ex_dfs) by (intros u v E; unfold edge in E; do 7 (destruct u as [|u]; [simpl in E; simpl; lia|]); destruct u; destruct E).
    destruct (@C56_dfs_range_post 50 ex_dfs 0 D P 50 TG ltac:(simpl; lia) ltac:(simpl; lia) FO) as [E _]. exists D.
    assert (L : length P <= 6). { assert (N := post_nodup (forest_post FO)). apply (@NoDup_incl_length _ P (seq 0 6)); [apply N|]. intros x X. apply in_seq. split; [lia|].
      destruct (post_reach (forest_post FO) x X) as (r & A & k & W). apply (@walk_lt ex_dfs r k x TG) in W; auto. simpl in A. simpl. lia. }
    replace [2; 4; 3; 1; 0; 5] with P; auto. clear -E L. do 7 (destruct P as [|? P]; [vm_compute in E; congruence|]). simpl in L. lia.
Qed.
Example C56_ex_range : dfs_vertices 6 50 50 ex_dfs 0 = Ub /\ dfs_vertices 7 50 50 ex_dfs 0 = Ok [2; 4; 3; 1; 0; 5].
Proof. split; vm_compute; reflexivity. Qed.

Print Assumptions C56_dfs_edge_range.
Print Assumptions C56_dfs_edge_range_loops.
Print Assumptions C56_dfs_edge_range_isolated.
Print Assumptions C56_dfs_tree.
Print Assumptions C56_dfs_unique.
Print Assumptions C56_dfs_range_never_ends.
Print Assumptions C56_dfs_range_isolated.
Print Assumptions C56_dfs_range_post.
Print Assumptions C56_dfs_range_cover.
Print Assumptions C56_dfs_range_stuck.
