(** Model of the triangle counting benchmark bench/tc.cpp: the preparation of the edge list (degrees, optional relabelling,
    cleaning), the graph built from it, the versions selected by their number, and the verifier.

    The edge list is the undirected one without attributes that load_graph returns (bench/common.hpp:82-103; the readers are
    modelled in MmioModel.v and SerialModel.v). Timing, logging and the printing of results are left out. *)
From Coq Require Import List Arith NArith Bool.
From Verif Require Import Base UtilModel RangeModel PforModel EdgeListModel CsrModel BuildModel TriModel XtriModel.
Import ListNotations.
Set Implicit Arguments.

(** clean<0>(A, succession): tc.cpp:67-74. [lsrt] is the lexicographic std::sort. *)
Definition tc_clean (lsrt : list (edge unit) -> list (edge unit)) (c : succession) (el : edge_list unit) : edge_list unit :=
  remove_self_loops (uniq (el_sort lsrt (swap_to_triangular S0 c el))).

(** tc_relabel: tc.cpp:61-65, which is relabel_by_degree<0>(A, direction, degrees), build.hpp:630-646. An empty degree
    vector makes perm_by_degree compute the degrees itself. *)
Definition tc_relabel (W : nat) (srt : (nat -> nat -> bool) -> list nat -> list nat) (degree : list nat) (dir : direction)
  (el : edge_list unit) : res (edge_list unit) :=
  do d <- (if length degree =? 0 then degrees_undirected W el else Ok degree) ;
  do r <- relabel el (perm_by_degree srt d dir) ;
  Ok (fst r).

(** worth_relabeling: tc.cpp:84-107. [draws] are the values of udist(rng), each below the number of vertices; 89 divides by
    that number. The comparison of 106 is made on exact fractions. *)
Definition worth_relabeling (nsrt : list nat -> list nat) (draws : list nat) (el : edge_list unit) (degree : list nat) : res bool :=
  let n := el_num_vertices el in
  if n =? 0 then Ub
  else if el_num_edges el / n <? 10 then Ok false
  else
    let num_samples := Nat.min 1000 n in
    do samples <- rmap (fun trial => do v <- vget draws trial ; vget degree v) (seq 0 num_samples) ;
    do median <- vget (nsrt samples) (num_samples / 2) ;
    Ok (13 * num_samples * median <? 10 * sum samples).

(** The options of a run: tc.cpp:198-205, 221-228 (--relabel, --heuristic, --lower). *)
Record tc_opts := mkTc { o_relabel : bool; o_heuristic : bool; o_lower : bool }.

(** tc.cpp:217-238. *)
Definition tc_prepare (W : nat) srt nsrt lsrt (draws : list nat) (o : tc_opts) (el : edge_list unit) : res (edge_list unit) :=
  let dir := if o_lower o then descending else ascending in
  let c := if o_lower o then predecessor else successor in
  do degree <- degrees_undirected W el ;
  do relabeled <- (if o_relabel o
                   then (if negb (o_heuristic o) then Ok true else worth_relabeling nsrt draws el degree)
                   else Ok false) ;
  do el1 <- (if relabeled then tc_relabel W srt degree dir el else Ok el) ;
  Ok (tc_clean lsrt c el1).

(** The graph types of main, tc.cpp:358-376: adjacency<0>, vov<0>, adj_list<0>. *)
Inductive tc_format := CSR | VOV | VOL.
(** push_back_fill(A, B): build.hpp:89-96, into vov (vovos.hpp:48-55) or adj_list (volos.hpp:72-79, the same code). *)
Definition vov_push_back_fill {A} (es : list (edge A)) (g : alist A) : res (alist A) :=
  rfold (fun g e => vov_push_back g (esrc e) (etgt e, eatt e)) es g.
(** compress<Graph>: tc.cpp:76-82. The result is given by its rows of targets; those of the CSR are the ones of its
    iteration (compressed.hpp:207-216). *)
Definition tc_compress (W : nat) (f : tc_format) (el : edge_list unit) : res (list (list nat)) :=
  match f with
  | CSR => do g <- csr_push_back_fill W (el_view el) (csr_new (el_num_vertices el)) ;
           do rows <- csr_iterate g ;
           Ok (map (map fst) rows)
  | VOV | VOL => do g <- vov_push_back_fill (el_view el) (repeat [] (el_num_vertices el)) ;
           Ok (map (map fst) g)
  end.

(** What the run time decides in the parallel versions: the schedules of the loops of versions 7 to 11 and the splitting of
    the ranges of versions 12 to 14. *)
Record tc_sched := mkTs { s_rows : nat -> nat; s_inner : nat -> nat -> nat; s_tree : rtree }.
(** The switch of tc.cpp:273-319 for the versions compiled in; [None] is the default branch, which prints and returns 0. *)
Definition tc_version (id : nat) (thread : nat) (s : tc_sched) (g : list (list nat)) : option (res N) :=
  let nat r := Some (do k <- r ; Ok (N.of_nat k)) in
  match id with
  | 0 => nat (triangle_count g)
  | 1 => nat (triangle_count_v1 g)
  | 2 => nat (triangle_count_v2 g)
  | 3 => nat (triangle_count_v3 g)
  | 4 => nat (triangle_count_threads g thread)
  | 5 => nat (triangle_count_v5 g thread)
  | 6 => nat (triangle_count_v6 g thread)
  | 7 | 8 | 9 => nat (triangle_count_v7 g (s_rows s))
  | 10 | 11 => nat (triangle_count_v10 g (s_rows s) (s_inner s))
  | 12 => Some (triangle_count_v12 g (N.of_nat thread) (s_tree s))
  | 13 => Some (triangle_count_v13 g (N.of_nat thread) (s_tree s))
  | 14 => nat (triangle_count_v14 g (s_tree s))
  | _ => None
  end.

(** TCVerifier: tc.cpp:109-127. The vector [intersection] has room reserved for graph.size() elements but starts with none,
    and std::set_intersection writes through its begin(). [strict]: a write past the elements the vector has is undefined;
    otherwise it may use what is reserved. The state is (size of the vector, total); set_intersection of two rows writes as
    many elements as intersection_size counts. The pairs are those of edge_range. *)
Definition tcv_edge (strict : bool) (g : list (list nat)) (st : nat * nat) (e : nat * nat) : res (nat * nat) :=
  do k <- edge_op g e ;
  if k <=? (if strict then fst st else length g) then Ok (k, snd st + k) else Ub.
Definition tc_verifier (strict : bool) (g : list (list nat)) : res nat :=
  do es <- edges_of_range (arcs g) g (or_make g 0) ;
  do st <- rfold (tcv_edge strict g) es (0, 0) ;
  Ok (snd st).
