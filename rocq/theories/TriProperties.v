(** C37 (triangle counting) and C50 (jaccard). *)
From Coq Require Import List Arith Lia Bool Sorting.Sorted.
From Verif Require Import Base GraphLib SumLib UtilModel TriModel TriProofs.
Import ListNotations.
Set Implicit Arguments.

(** ** C37 *)
(** [triangles g] (TriProofs.v) counts the vertex triples a < b < c pairwise joined by an edge stored in either row. *)
Theorem C37_triangle_count g : targets_ok g -> rows_sorted g -> upper g \/ lower g -> triangle_count g = Ok (triangles g).
Proof.
  intros HT HS H. rewrite triangle_count_wedge by auto. f_equal. destruct H; [now apply wedge_upper|now apply wedge_lower].
Qed.
(** On upper triangular graphs the threaded version agrees for every thread count. *)
Theorem C37_threads_upper g threads : targets_ok g -> rows_sorted g -> upper g -> 0 < threads ->
  triangle_count_threads g threads = Ok (triangles g).
Proof.
  intros HT HS U Ht. rewrite (@threads_ok g threads (fun u => sum (map (fun v => common (nth u g []) (nth v g [])) (nth u g []))) Ht).
  - rewrite <- wedge_upper by auto. f_equal. unfold wedge. apply bsum_ext. intros u Hu.
    rewrite (@sum_row (length g)); [|apply sorted_lt_nodup, HS|intros x I; eapply HT; eauto].
    apply bsum_ext. intros v Hv. rewrite common_sum by auto. rewrite <- bsum_mul. reflexivity.
  - intros u t Hu. destruct (@tri_suffix_ok g HS (nth u g []) t (HS u)) as (k & E & K & _); [intros v I; eapply HT; eauto|].
    rewrite E, K; auto.
Qed.
(** On lower triangular graphs it returns 0 whatever the graph (the rest of row u holds nothing below v), although
    the single-threaded version counts the triangles. *)
Theorem C37_threads_lower_always_zero g threads : targets_ok g -> rows_sorted g -> lower g ->
  triangle_count_threads g threads = Ok 0.
Proof.
  intros HT HS L. destruct threads as [|t']; [reflexivity|]. rewrite (@threads_ok g (S t') (fun _ => 0)).
  - f_equal. now apply bsum_0.
  - lia.
  - intros u t Hu. destruct (@tri_suffix_ok g HS (nth u g []) t (HS u)) as (k & E & _ & K); [intros v I; eapply HT; eauto|]. rewrite E, K; auto.
Qed.
Theorem C37_no_threads g : triangle_count_threads g 0 = Ok 0.
Proof. reflexivity. Qed.

(** ** C50 *)
Lemma common_union a b : NoDup a -> NoDup b -> length a + length b - common a b = length (nodup Nat.eq_dec (a ++ b)).
Proof.
  intros NA NB. enough (H : length (nodup Nat.eq_dec (a ++ b)) + common a b = length a + length b) by lia.
  induction a as [|x a IH]; cbn [app].
  - rewrite (nodup_fixed_point Nat.eq_dec NB). unfold common. simpl. lia.
  - inversion NA; subst. specialize (IH H2). cbn [nodup]. unfold common in *. cbn [filter].
    destruct (in_dec Nat.eq_dec x (a ++ b)) as [I|N].
    + apply in_app_or in I. destruct I as [I|I]; [contradiction|]. apply mem_In in I. rewrite I. simpl. lia.
    + replace (mem x b) with false by (symmetry; apply mem_false; intros I; apply N, in_or_app; auto). simpl. lia.
Qed.
(** Every stored arc (u,v) with u < v gets |N(u) /\ N(v)| over |N(u) \/ N(v)| of the stored rows; every other arc keeps
    its weight; the count of assigned arcs is returned. [tgt g] are the rows of targets. *)
Theorem C50_jaccard_arcs g : targets_ok (tgt g) -> rows_sorted (tgt g) ->
  exists g', jaccard g = Ok (sum (map (fun u => length (filter (fun e => u <? fst e) (nth u g []))) (seq 0 (length g))), g') /\
    length g' = length g /\
    (forall u, length (nth u g' []) = length (nth u g [])) /\
    forall u i v w, nth_error (nth u g []) i = Some (v, w) ->
      nth_error (nth u g' []) i = Some (v,
        if u <? v then
          let a := map fst (nth u g []) in let b := map fst (nth v g []) in
          Some (length (filter (fun x => existsb (Nat.eqb x) b) a), length (nodup Nat.eq_dec (a ++ b)))
        else w).
Proof.
  intros HT HS. destruct (@jaccard_ok g HT HS) as (ctr & E & EC). subst ctr. eexists. split; [exact E|]. split; [now rewrite map_length, seq_length|].
  assert (NG : forall u, u < length g -> nth u (map (fun u => map (jval g u) (nth u g [])) (seq 0 (length g))) [] = map (jval g u) (nth u g [])).
  { intros u Hu. rewrite nth_indep with (d' := (fun u => map (jval g u) (nth u g [])) 0) by (now rewrite map_length, seq_length). rewrite (map_nth (fun u => map (jval g u) (nth u g []))), seq_nth; auto. }
  split.
  - intros u. destruct (Nat.lt_ge_cases u (length g)) as [L|L].
    + rewrite NG by auto. now rewrite map_length.
    + rewrite !nth_overflow; auto. now rewrite map_length, seq_length.
  - intros u i v w H. destruct (Nat.lt_ge_cases u (length g)) as [L|L]; [|rewrite nth_overflow in H by auto; destruct i; discriminate].
    rewrite NG by auto. rewrite (map_nth_error (jval g u) _ _ H). f_equal. unfold jval. cbn [fst]. destruct (u <? v); auto. cbn zeta.
    rewrite common_union; auto; rewrite <- tgt_nth; apply sorted_lt_nodup, HS.
Qed.
(** On a lower triangular graph, the case the property is about, nothing is assigned. *)
Theorem C50_lower_triangular_untouched g : targets_ok (tgt g) -> rows_sorted (tgt g) -> lower (tgt g) -> jaccard g = Ok (0, g).
Proof.
  intros HT HS L. destruct (@jaccard_ok g HT HS) as (ctr & E & EC). rewrite E.
  assert (NE : forall u e, In e (nth u g []) -> (u <? fst e) = false).
  { intros u e I. apply Nat.ltb_ge. assert (X : edge (tgt g) u (fst e)) by (unfold edge; rewrite tgt_nth; now apply in_map). specialize (L _ _ X). lia. }
  assert (Z : ctr = 0). { subst ctr. apply sum_map_0. intros u _. rewrite filter_none; auto. }
  rewrite Z. apply f_equal, f_equal. transitivity (map (fun u => nth u g []) (seq 0 (length g))).
  - apply map_ext_in. intros u _. rewrite <- map_id. apply map_ext_in. intros e I. unfold jval. now rewrite (NE u e I).
  - apply nth_ext with (d := []) (d' := []); rewrite map_length, seq_length; auto. intros u Hu.
    now rewrite nth_indep with (d' := (fun u => nth u g []) 0), (map_nth (fun u => nth u g [])), seq_nth by (try (rewrite map_length, seq_length); auto).
Qed.

(** ** Non-vacuity *)
(** K4 on 0..3 plus the edge 3-4: four triangles. *)
Definition ex_up : list (list nat) := [[1; 2; 3]; [2; 3]; [3]; [4]; []].
Definition ex_lo : list (list nat) := [[]; [0]; [0; 1]; [0; 1; 2]; [3]].
Example ex_up_ok : targets_ok ex_up /\ rows_sorted ex_up /\ upper ex_up.
Proof.
  repeat split.
  - intros u v E; unfold edge in *; do 5 (destruct u as [|u]; [simpl in *; lia|]); destruct u; destruct E.
  - intros u. do 5 (destruct u as [|u]; [simpl; repeat constructor|]). destruct u; constructor.
  - intros u v E; unfold edge in *; do 5 (destruct u as [|u]; [simpl in *; lia|]); destruct u; destruct E.
Qed.
Example ex_lo_ok : targets_ok ex_lo /\ rows_sorted ex_lo /\ lower ex_lo.
Proof.
  repeat split.
  - intros u v E; unfold edge in *; do 5 (destruct u as [|u]; [simpl in *; lia|]); destruct u; destruct E.
  - intros u. do 5 (destruct u as [|u]; [simpl; repeat constructor|]). destruct u; constructor.
  - intros u v E; unfold edge in *; do 5 (destruct u as [|u]; [simpl in *; lia|]); destruct u; destruct E.
Qed.
Example ex_tri : triangle_count ex_up = Ok 4 /\ triangle_count ex_lo = Ok 4 /\ triangles ex_up = 4 /\ triangles ex_lo = 4 /\
  triangle_count_threads ex_up 3 = Ok 4 /\ triangle_count_threads ex_up 7 = Ok 4 /\ triangle_count_threads ex_lo 3 = Ok 0.
Proof. repeat split; reflexivity. Qed.
Definition ex_j : list jrow := map (map (fun v => (v, None))) ex_up.
Example ex_jaccard : jaccard ex_j = Ok (7, [[(1, Some (2, 3)); (2, Some (1, 3)); (3, Some (0, 4))]; [(2, Some (1, 2)); (3, Some (0, 3))]; [(3, Some (0, 2))]; [(4, Some (0, 1))]; []]) /\
  jaccard (map (map (fun v => (v, None))) ex_lo) = Ok (0, map (map (fun v => (v, None))) ex_lo).
Proof. split; reflexivity. Qed.
Print Assumptions C37_triangle_count.
Print Assumptions C37_threads_upper.
Print Assumptions C37_threads_lower_always_zero.
Print Assumptions C37_no_threads.
Print Assumptions C50_jaccard_arcs.
Print Assumptions C50_lower_triangular_untouched.
