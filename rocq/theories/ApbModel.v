(** Model of the search benchmarks apb/dfs.cpp and apb/bfs.cpp (apb_adj): which vertices end up visited.

    The graph is built as adjacency<1> of a directed edge list (apb/dfs.cpp:260-263, apb/bfs.cpp:402-405). [W] is the number of values of vertex
    ids. The loops over the neighbours of a vertex differ only in how the neighbours are read ([raw_targets], [row_targets], [copied]); the graph
    is not written during a search, so they are read before the loop over them. ntrial repetitions start from the same cleared state; timers and
    output are left out. *)
From Coq Require Import List Arith Bool.
From Verif Require Import Base EdgeListModel CsrModel.
Import ListNotations.
Set Implicit Arguments.

(** for (n = ptr[vtx]; n < ptr[vtx + 1]; ++n) ... idx[n]: apb/dfs.cpp:54-58, apb/bfs.cpp:53-58. *)
Definition raw_targets {A} (g : csr A) (v : nat) : res (list nat) :=
  do lo <- vget (csr_ind g) v ;
  do hi <- vget (csr_ind g) (v + 1) ;
  rmap (vget (csr_tgt g)) (seq lo (hi - lo)).
(** A loop over graph[vtx]: apb/dfs.cpp:80-84, 106-110, 132-136, 158-162; apb/bfs.cpp:77-82, 101-106, 125-130, 149-154, 173-178. *)
Definition row_targets {A} (g : csr A) (v : nat) : res (list nat) := do row <- csr_row g v ; Ok (map fst row).
(** A vertex id stored in an int and used as an index: an id from 2^31 on is negative and becomes id + 2^64 - 2^32, that is id + W * (W - 1). *)
Definition int_index (W x : nat) : nat := if 2 * x <? W then x else x + W * (W - 1).
(** The copies vgraph and tgraph: apb/bfs.cpp:185-193, 219-227. *)
Definition copy_row (W : nat) (row : list nat) : res (list nat) :=
  do r <- rfold (fun (st : list nat * nat) x => do l <- vset (fst st) (snd st) (int_index W x) ; Ok (l, S (snd st))) row (repeat 0 (length row), 0) ;
  Ok (fst r).
Definition copied {A} (W : nat) (g : csr A) : res (list (list nat)) :=
  rfold (fun vg i => do row <- row_targets g i ; do r <- copy_row W row ; vset vg i r) (seq 0 (csr_size g)) (repeat [] (csr_size g)).

(** The stack: apb/dfs.cpp:45-59. [nbrs] gives the neighbours of a vertex. *)
Fixpoint dfs_loop (nbrs : nat -> res (list nat)) (fuel : nat) (S : list nat) (visited : list bool) : res (list bool) :=
  match S with
  | [] => Ok visited
  | vtx :: S' =>
    match fuel with
    | 0 => OutOfFuel
    | Datatypes.S f =>
      do b <- vget visited vtx ;
      do vis <- (if negb b then vset visited vtx true else Ok visited) ;
      do ns <- nbrs vtx ;
      do S'' <- rfold (fun S n => do b <- vget vis n ; Ok (if negb b then n :: S else S)) ns S' ;
      dfs_loop nbrs f S'' vis
    end
  end.
Definition apb_dfs (nbrs : nat -> res (list nat)) (fuel N seed : nat) : res (list bool) := dfs_loop nbrs fuel [seed] (repeat false N).

(** The queue: apb/bfs.cpp:47-59. *)
Fixpoint bfs_loop (nbrs : nat -> res (list nat)) (fuel : nat) (Q : list nat) (visited : list bool) : res (list bool) :=
  match Q with
  | [] => Ok visited
  | vtx :: Q' =>
    match fuel with
    | 0 => OutOfFuel
    | S f =>
      do ns <- nbrs vtx ;
      do r <- rfold (fun (st : list nat * list bool) n =>
        do b <- vget (snd st) n ;
        if negb b then do vis <- vset (snd st) n true ; Ok (fst st ++ [n], vis) else Ok st) ns (Q', visited) ;
      bfs_loop nbrs f (fst r) (snd r)
    end
  end.
Definition apb_bfs (nbrs : nat -> res (list nat)) (fuel N seed : nat) : res (list bool) :=
  do visited <- vset (repeat false N) seed true ;
  bfs_loop nbrs fuel [seed] visited.

(** The graph as the ranges of apb/bfs.cpp:278-303 read it: graph[v] for each vertex. Those ranges are given no start vertex, so they start at 0
    (topdown_bfs_range and bfs_edge_range, BfsRangeModel.v). *)
Definition apb_rows {A} (g : csr A) : res (list (list nat)) := rmap (row_targets g) (seq 0 (csr_size g)).
