(** Model of the connected components benchmark bench/cc.cpp: the reader lambda that prepares the edge list and builds the
    graph and its transpose, the versions selected by their number, the verification and print_top_n.

    The edge list is the one without attributes that load_graph returns (bench/common.hpp:82-103; the readers are modelled in
    MmModel.v and SerialModel.v). Timing, logging, stream_stats and stream_indices are left out. *)
From Coq Require Import List Arith Bool.
From Verif Require Import Base RangeModel EdgeListModel CsrModel BuildModel CcModel CcxModel CcvModel LpccModel.
Import ListNotations.
Set Implicit Arguments.

(** The options that the reader looks at (cc.cpp:93-101, 118-128, 140-151): -s instead of -f, --relabel, --clean, --direction,
    --succession; a succession that is neither of the two words is None (build.hpp:397-405 prints and does nothing). *)
Record cb_opts := mkCb { o_symmetric : bool; o_relabel : bool; o_clean : bool; o_direction : direction; o_succession : option succession }.

(** degrees(aos_a): cc.cpp:115, 137, with the default index 0. *)
Definition cb_degrees (W : nat) (symmetric : bool) (el : edge_list unit) : res (list nat) :=
  if symmetric then degrees_undirected W el else degrees_directed W S0 el.
(** relabel_by_degree<0>(aos_a, direction, degree): cc.cpp:119, 141 and build.hpp:630-646. An empty degree vector makes
    perm_by_degree compute the degrees again. *)
Definition cb_relabel (W : nat) (srt : (nat -> nat -> bool) -> list nat -> list nat) (o : cb_opts) (degree : list nat) (el : edge_list unit)
  : res (edge_list unit) :=
  do d <- (if length degree =? 0 then cb_degrees W (o_symmetric o) el else Ok degree) ;
  do r <- relabel el (perm_by_degree srt d (o_direction o)) ;
  Ok (fst r).
(** cc.cpp:123-128, 146-151. *)
Definition cb_clean (lsrt : list (edge unit) -> list (edge unit)) (o : cb_opts) (el : edge_list unit) : edge_list unit :=
  let el1 := match o_succession o with Some c => swap_to_triangular S0 c el | None => el end in
  remove_self_loops (uniq (el_sort lsrt el1)).
(** cc.cpp:114-128, 136-151. *)
Definition cb_prepare (W : nat) srt lsrt (o : cb_opts) (el : edge_list unit) : res (edge_list unit) :=
  do degree <- cb_degrees W (o_symmetric o) el ;
  do el1 <- (if o_relabel o then cb_relabel W srt o degree el else Ok el) ;
  Ok (if o_clean o then cb_clean lsrt o el1 else el1).
(** The reader: cc.cpp:112-161. A symmetric file has the transpose adjacency<1>(0). *)
Definition cb_reader (W : nat) srt lsrt zsrt srt1 (o : cb_opts) (el : edge_list unit) : res (csr unit * csr unit) :=
  do el1 <- cb_prepare W srt lsrt o el ;
  do g <- adjacency_of W zsrt srt1 (negb (o_symmetric o)) S0 el1 false ;
  do t <- (if o_symmetric o then Ok (csr_new 0) else adjacency_of W zsrt srt1 true S1 el1 false) ;
  Ok (g, t).

(** graph[u] for the vertices u below size(): the targets. *)
Definition csr_rows (g : csr unit) : res (list (list nat)) :=
  rmap (fun u => do row <- csr_row g u ; Ok (map fst row)) (seq 0 (csr_size g)).
(** The rows from begin() to end(), which is where edge_range and cyclic_neighbor_range go (edge_range.hpp:47-48,
    cyclic_neighbor_range.hpp:53-54, compressed.hpp:207-212): N_ of them. *)
Definition csr_all_rows (g : csr unit) : res (list (list nat)) :=
  do rows <- csr_iterate g ; Ok (map (map fst) rows).

(** What the run time decides: the schedules, the sampled label, the division of the arcs of version 9 and of the vertices of
    versions 10 and 11. *)
Record cb_sched := mkCs { s_sched : nat -> nat -> nat; s_pick : list nat -> nat;
  s_pieces : list (nat * nat) -> list (list (nat * nat)); s_split : nat -> list nat -> list (nat * list nat) }.
Definition row_arcs (rows : list (list nat)) : list (nat * nat) :=
  concat (map (fun u => map (fun v => (u, v)) (nth u rows [])) (seq 0 (length rows))).
(** sv_v9 (experimental/algorithms/connected_components.hpp:561-599) on the graph object: comp has size() elements, and every
    iteration goes through edge_range(g). *)
Definition cb_sv_v9 (W : nat) (s : cb_sched) (g : csr unit) : res (list nat) :=
  if csr_size g =? 0 then Ok []
  else do rows <- csr_all_rows g ; sv_run W (s_sched s) (csr_size g) (s_pieces s (row_arcs rows)).
(** lpcc_cyclic (369-427), which goes through cyclic_neighbor_range(g, num_bins) unless cur is empty at once. *)
Definition cb_lpcc_cyclic (W nbins : nat) (s : cb_sched) (g : csr unit) : res (list nat) :=
  if csr_size g =? 0 then Ok []
  else do rows <- csr_all_rows g ; lpcc_cyclic W nbins (s_sched s) (s_split s) rows.
(** The switch of cc.cpp:203-236; [None] is the default branch. The two calls of afforest use the default of 2 rounds
    (algorithms/connected_components.hpp:197). *)
Definition cb_version (W id thread : nat) (s : cb_sched) (g t : csr unit) : option (res (list nat)) :=
  match id with
  | 0 | 7 => Some (do rows <- csr_rows g ; do trows <- csr_rows t ; afforest W (s_sched s) (s_pick s) rows trows 2)
  | 1 => Some (do rows <- csr_rows g ; ccv1 W (s_sched s) rows)
  | 2 => Some (do rows <- csr_rows g ; cc_v2 W (s_sched s) rows)
  | 5 => Some (do rows <- csr_rows g ; ccv5 W (s_sched s) (s_pick s) rows)
  | 6 | 8 => Some (do rows <- csr_rows g ; sv_v6 W (s_sched s) rows)
  | 9 => Some (cb_sv_v9 W s g)
  | 10 => Some (do rows <- csr_rows g ; lpcc W thread (s_sched s) (s_split s) rows)
  | 11 => Some (cb_lpcc_cyclic W thread s g)
  | _ => None
  end.

(** CCVerifier (algorithms/connected_components.hpp:54-105) on the graph objects: 57 goes through plain_range(graph), that is the
    numbers 0 ... N_ - 1 (plain_range.hpp:49-51), and reads comp at each of them; the rest is cc_verifier (CcModel.v). *)
Definition cb_verifier (order : list (nat * nat) -> list (nat * nat)) (g t : csr unit) (comp : list nat) : res bool :=
  do l <- lts comp (csr_N g) ;
  do rows <- csr_rows g ;
  do trows <- csr_rows t ;
  do o <- cv_labels (csr_size g + 1) rows trows comp (order l) (repeat false (csr_size g + 1)) ;
  Ok (match o with None => false | Some visited => forallb (fun b => b) visited end).

(** count[i] += 1 (cc.cpp:59-62) on an association list; the counters are vertex ids. *)
Fixpoint count_add (W i : nat) (m : list (nat * nat)) : list (nat * nat) :=
  match m with
  | [] => [(i, 1 mod W)]
  | e :: r => if fst e =? i then (i, (snd e + 1) mod W) :: r else e :: count_add W i r
  end.
Definition count_labels (W : nat) (comp : list nat) : list (nat * nat) := fold_left (fun m i => count_add W i m) comp [].
(** print_top_n: cc.cpp:57-76. [order] is the iteration order of the map, [csrt] the std::sort with "greater count first". The
    result is what is printed: k, the k clusters and the number of components. *)
Definition print_top_n (W : nat) (order csrt : list (nat * nat) -> list (nat * nat)) (n : nat) (comp : list nat)
  : nat * list (nat * nat) * nat :=
  let m := count_labels W comp in
  let k := Nat.min n (length m) in
  (k, firstn k (csrt (order m)), length m).
Definition more (p q : nat * nat) : bool := snd q <? snd p.
