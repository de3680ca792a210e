(** C87: the search benchmarks apb/dfs.cpp and apb/bfs.cpp. The specification [leads es t v] (ApbProofs.v): v leads to t along arcs of the list es. *)
From Coq Require Import List Arith Lia Bool.
From Verif Require Import EdgeListModel CsrModel CsrProofs2 BfsRangeModel BfsRangeProperties ApbModel ApbProofs Base GraphLib.
Import ListNotations.
Set Implicit Arguments.

(** The graph the benchmarks search, for any result std::sort may give. *)
Notation apb_graph_of W srt srt1 n es g := (adjacency_of W srt srt1 true S1 (el_build W n es) false = Ok g) (only parsing).

(** The stack search, in both ways of reading the neighbours: it ends after at most one step for each arc and one for the start, and has marked exactly
    the vertices that lead to the start vertex (the graph is indexed by the second column). *)
Theorem C87_dfs A W srt srt1 n (es : list (EdgeListModel.edge A)) g nbrs seed fuel :
  is_sort_by fst srt -> n < W -> ids_ok W es -> length es < W -> apb_graph_of W srt srt1 n es g ->
  nbrs = raw_targets g \/ nbrs = row_targets g -> seed < csr_size g -> 1 + length es <= fuel ->
  exists vis, apb_dfs nbrs fuel (csr_size g) seed = Ok vis /\ length vis = csr_size g /\ forall v, nth_error vis v = Some true <-> leads es seed v.
Proof.
  intros Hs Hn He HW Eg Nb Sd Fu. destruct (apb_graph srt1 Hs Hn He HW) as (g' & rows & E & _ & L & _ & R & T & Ed & Su).
  rewrite Eg in E. injection E as <-. rewrite <- L in *.
  destruct (@dfs_ok rows seed nbrs) with (fuel := fuel) as (vis & Ev & Lv & V); auto; try lia.
  - intros v Lt. destruct (R v Lt). destruct Nb; subst nbrs; auto.
  - exists vis. split; auto. split; auto. intros v. rewrite <- (@leads_reach A es rows seed Ed), <- V. apply nth_true.
Qed.

(** The queue search over the graph itself: the same vertices, after at most one step for each vertex. *)
Theorem C87_bfs A W srt srt1 n (es : list (EdgeListModel.edge A)) g nbrs seed fuel :
  is_sort_by fst srt -> n < W -> ids_ok W es -> length es < W -> apb_graph_of W srt srt1 n es g ->
  nbrs = raw_targets g \/ nbrs = row_targets g -> seed < csr_size g -> csr_size g <= fuel ->
  exists vis, apb_bfs nbrs fuel (csr_size g) seed = Ok vis /\ length vis = csr_size g /\ forall v, nth_error vis v = Some true <-> leads es seed v.
Proof.
  intros Hs Hn He HW Eg Nb Sd Fu. destruct (apb_graph srt1 Hs Hn He HW) as (g' & rows & E & _ & L & _ & R & T & Ed & Su).
  rewrite Eg in E. injection E as <-. rewrite <- L in *.
  destruct (@bfs_ok rows seed nbrs) with (fuel := fuel) as (vis & Ev & Lv & V); auto; try lia.
  - intros v Lt. destruct (R v Lt). destruct Nb; subst nbrs; auto.
  - exists vis. split; auto. split; auto. intros v. rewrite <- (@leads_reach A es rows seed Ed), <- V. apply nth_true.
Qed.

(** The queue search over the copy with int ids: the same if no vertex met has an id from 2^31 (half of the ids) on ... *)
Theorem C87_bfs_copy A W srt srt1 n (es : list (EdgeListModel.edge A)) g seed fuel :
  is_sort_by fst srt -> n < W -> ids_ok W es -> length es < W -> apb_graph_of W srt srt1 n es g -> seed < csr_size g -> csr_size g <= fuel ->
  (forall e, In e es -> leads es seed (etgt e) -> 2 * esrc e < W) ->
  exists vg vis, copied W g = Ok vg /\ apb_bfs (vget vg) fuel (csr_size g) seed = Ok vis /\ length vis = csr_size g /\
    forall v, nth_error vis v = Some true <-> leads es seed v.
Proof.
  intros Hs Hn He HW Eg Sd Fu Sm. destruct (apb_graph srt1 Hs Hn He HW) as (g' & rows & E & Sz & L & _ & R & T & Ed & Su).
  rewrite Eg in E. injection E as <-. pose proof (size_le Hn He) as SW. rewrite <- Sz in SW.
  exists (map (map (int_index W)) rows). pose proof (@copied_ok A W g rows L (fun v Lt => proj2 (R v Lt))) as C. rewrite <- L in *.
  destruct (@bfs_int rows W seed (vget (map (map (int_index W)) rows)) fuel) as [H _]; auto; try lia.
  - intros v Lt. apply (vget_map_rows (int_index W) rows Lt).
  - destruct H as (vis & Ev & Lv & V).
    + intros v w Rv Ew. apply (@leads_reach A es rows seed Ed) in Rv. apply Ed in Ew. destruct Ew as (e & I & <- & <-). now apply Sm.
    + exists vis. split; auto. split; auto. split; auto. intros v. rewrite <- (@leads_reach A es rows seed Ed), <- V. apply nth_true.
Qed.
(** ... and otherwise, always, a vector is indexed out of range. *)
Theorem C87_bfs_copy_overflow A W srt srt1 n (es : list (EdgeListModel.edge A)) g seed fuel e :
  is_sort_by fst srt -> n < W -> ids_ok W es -> length es < W -> apb_graph_of W srt srt1 n es g -> seed < csr_size g -> csr_size g <= fuel ->
  In e es -> leads es seed (etgt e) -> W <= 2 * esrc e ->
  exists vg, copied W g = Ok vg /\ apb_bfs (vget vg) fuel (csr_size g) seed = Ub.
Proof.
  intros Hs Hn He HW Eg Sd Fu Ie Le La. destruct (apb_graph srt1 Hs Hn He HW) as (g' & rows & E & Sz & L & _ & R & T & Ed & Su).
  rewrite Eg in E. injection E as <-. pose proof (size_le Hn He) as SW. rewrite <- Sz in SW.
  exists (map (map (int_index W)) rows). pose proof (@copied_ok A W g rows L (fun v Lt => proj2 (R v Lt))) as C. rewrite <- L in *. split; auto.
  destruct (@bfs_int rows W seed (vget (map (map (int_index W)) rows)) fuel) as [_ H]; auto; try lia.
  - intros v Lt. apply (vget_map_rows (int_index W) rows Lt).
  - apply (H (etgt e) (esrc e)); auto; [now apply (@leads_reach A es rows seed Ed)|]. apply Ed. eauto.
Qed.

(** A start vertex (option -s) that is not a vertex: out of range at once, whatever the graph and the fuel. *)
Theorem C87_seed_range nbrs fuel N seed : N <= seed -> apb_dfs nbrs (S fuel) N seed = Ub /\ apb_bfs nbrs fuel N seed = Ub.
Proof.
  intros L. unfold apb_dfs, apb_bfs. cbn [dfs_loop]. rewrite vget_ge, vset_ge by (rewrite repeat_length; auto). auto.
Qed.

(** The two range loops do not start where the others do: topdown_bfs_range yields exactly the vertices that lead to vertex 0, and bfs_edge_range reads
    past the end of an empty row if no arc enters vertex 0. *)
Theorem C87_ranges A W srt srt1 n (es : list (EdgeListModel.edge A)) g :
  is_sort_by fst srt -> n < W -> ids_ok W es -> length es < W -> apb_graph_of W srt srt1 n es g -> 0 < csr_size g ->
  exists rows, apb_rows g = Ok rows /\
    (exists r, topdown rows 0 = Ok r /\ NoDup r /\ forall v, In v r <-> leads es 0 v) /\
    ((forall e, In e es -> etgt e <> 0) -> bfs_edges rows 0 = Ub).
Proof.
  intros Hs Hn He HW Eg Z. destruct (apb_graph srt1 Hs Hn He HW) as (g' & rows & E & Sz & L & Er & R & T & Ed & Su).
  rewrite Eg in E. injection E as <-. rewrite <- L in *. exists rows. split; auto. split.
  - destruct (C43_topdown T Z) as (r & Et & _ & ND & I & _). exists r. split; auto. split; auto. intros v. rewrite I. apply (@leads_reach A es rows 0 Ed).
  - intros No. apply C44_bfs_edge_range_isolated; auto. destruct (nth 0 rows []) as [|w t] eqn:E0; auto. exfalso.
    assert (X : edge rows 0 w) by (unfold edge; rewrite E0; now left). apply Ed in X. destruct X as (e & I & Q & _). now apply (No e I).
Qed.

(** Arcs 1->0, 2->1, 0->3, 4->4, 2->1 again, 3->1: vertices 0, 1, 2 and 3 lead to 0; only 4 leads to 4. *)
Definition ex_es : list (EdgeListModel.edge unit) := [((1,0),tt); ((2,1),tt); ((0,3),tt); ((4,4),tt); ((2,1),tt); ((3,1),tt)].
Definition ex_srt := isort_by (fst (A := nat) (B := nat * unit)).
Definition ex_srt1 := isort_by (fun x : nat => x).
Definition ex_g : csr unit := match adjacency_of 100 ex_srt ex_srt1 true S1 (el_build 100 0 ex_es) false with Ok g => g | _ => csr_new 0 end.
Example ex_g_ok : apb_graph_of 100 ex_srt ex_srt1 0 ex_es ex_g /\ csr_size ex_g = 5 /\ is_sort_by fst ex_srt /\ ids_ok 100 ex_es /\ length ex_es < 100.
Proof.
  split; [reflexivity|]. split; [reflexivity|]. split; [apply isort_by_is_sort|]. split; [|cbn; lia].
  intros e H. repeat (destruct H as [<-|H]; [cbn; lia|]). destruct H.
Qed.
Example ex_searches :
  apb_dfs (raw_targets ex_g) 7 5 0 = Ok [true; true; true; true; false] /\ apb_dfs (row_targets ex_g) 7 5 2 = Ok [false; false; true; false; false] /\
  apb_bfs (raw_targets ex_g) 5 5 0 = Ok [true; true; true; true; false] /\ apb_bfs (row_targets ex_g) 5 5 4 = Ok [false; false; false; false; true] /\
  apb_dfs (row_targets ex_g) 7 5 5 = Ub /\ (do rows <- apb_rows ex_g ; topdown rows 0) = Ok [0; 1; 2; 3].
Proof. vm_compute. auto 10. Qed.
(** With 7 ids, 4 is the first that is negative as an int: it is met from vertex 4 (its loop), not from vertex 0. *)
Definition ex_g7 : csr unit := match adjacency_of 7 ex_srt ex_srt1 true S1 (el_build 7 0 ex_es) false with Ok g => g | _ => csr_new 0 end.
Example ex_copy : apb_graph_of 7 ex_srt ex_srt1 0 ex_es ex_g7 /\ ids_ok 7 ex_es /\ length ex_es < 7 /\ In ((3,1),tt) ex_es /\
  (do vg <- copied 7 ex_g7 ; apb_bfs (vget vg) 5 5 0) = Ok [true; true; true; true; false] /\
  (do vg <- copied 7 ex_g7 ; apb_bfs (vget vg) 5 5 4) = Ub.
Proof.
  split; [reflexivity|]. split; [intros e H; repeat (destruct H as [<-|H]; [cbn; lia|]); destruct H|].
  split; [cbn; lia|]. split; [cbn; auto 10|]. vm_compute. auto.
Qed.

Print Assumptions C87_dfs.
Print Assumptions C87_bfs.
Print Assumptions C87_bfs_copy.
Print Assumptions C87_bfs_copy_overflow.
Print Assumptions C87_seed_range.
Print Assumptions C87_ranges.
