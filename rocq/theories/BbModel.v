(** Model of the breadth-first search benchmark bench/bfs.cpp: the two graphs, the versions selected by their number, the sources
    and the verification.

    The edge list is the one that load_graph returns. Option parsing, timing, logging and stream_stats are left out; the lists of
    sources are those of SrcModel.v. *)
From Coq Require Import List Arith Bool.
From Verif Require Import Base GraphLib RangeModel EdgeListModel CsrModel BfsModel ParBfsModel XbfsModel CbModel.
Import ListNotations.
Set Implicit Arguments.

(** bfs.cpp:75-76: graph is build_adjacency<1>, gx build_adjacency<0> (common.hpp:104-108, unsorted). *)
Definition bb_graphs (W : nat) zsrt srt1 (el : edge_list unit) : res (csr unit * csr unit) :=
  do g <- adjacency_of W zsrt srt1 true S1 el false ;
  do gx <- adjacency_of W zsrt srt1 true S0 el false ;
  Ok (g, gx).

(** The numeric options (-a, -b, -B; bfs.cpp:59-61), with num_bins already rounded up to a power of two (XbfsModel.v), and what the
    run time decides: the schedules, the worker of an item and the uninitialised words of a bit vector of n bits. *)
Record bb_par := mkBb { b_alpha : nat; b_beta : nat; b_bins : nat; b_sched : nat -> nat -> nat; b_wk : nat -> nat -> nat; b_garbage : nat -> list bool }.

(** bfs_v2 (experimental/algorithms/bfs.hpp:561-603) on the graph objects: BU_step goes through neighbor_range(in_graph) (378), that
    is from begin() to end(), as soon as the search goes bottom-up; [all] are the rows it sees (here asked
    for before queue_to_bitmap). Otherwise v2_loop of XbfsModel.v. *)
Fixpoint bb_v2_loop (fuel vmax W alpha beta : nat) (g : list (list nat)) (all : res (list (list nat))) (sched wk : nat -> nat -> nat) (ph : nat)
    (frontier : list nat) (lq : list (list nat)) (front cur : list bool) (par : list nat) (edges scout : nat) : res (list nat) :=
  match fuel with
  | 0 => OutOfFuel
  | S f =>
      match frontier with
      | [] => Ok par
      | _ =>
          if alpha =? 0 then Ub
          else if edges / alpha <? scout then
            do g_t <- all ;
            do front1 <- queue_to_bitmap (sched ph) frontier front ;
            do r <- v2_bottom f vmax beta (length g) g_t sched (S ph) front1 cur par (length frontier) ;
            let '(ph', front', cur', par', awake) := r in
            do lq1 <- bitmap_to_queue (sched ph') (wk ph') front' lq ;
            do fl <- flush (sched (S ph')) lq1 frontier ;
            bb_v2_loop f vmax W alpha beta g all sched wk (S (S ph')) (fst fl) (snd fl) front' cur' par' edges 1
          else
            do s <- xphase vmax 0 g (wk ph) body_cas (sched ph) frontier [] [] par lq ;
            do fl <- flush (sched (S ph)) (x_q s) frontier ;
            bb_v2_loop f vmax W alpha beta g all sched wk (S (S ph)) (fst fl) (snd fl) front cur (x_par s)
              ((edges + W - scout mod W) mod W) (x_count s mod W)
      end
  end.
Definition bb_v2 (fuel vmax W : nat) (g : list (list nat)) (all : res (list (list nat))) (s : bb_par) (root : nat) : res (list nat) :=
  let n := length g in
  do row <- vget g root ;
  do par <- vset (repeat vmax n) root root ;
  bb_v2_loop fuel vmax W (b_alpha s) (b_beta s) g all (b_sched s) (b_wk s) 0 [root] (repeat [] (b_bins s)) (b_garbage s n) (repeat false n) par
    (sum (map (@length nat) g)) (length row).

(** The switch of bfs.cpp:112-139; an unknown version returns an empty vector. [W64] is 2^64, [imax] the maximum of int. *)
Definition bb_version (fuel vmax W64 imax id : nat) (s : bb_par) (g gx : csr unit) (source : nat) : res (list nat) :=
  do rows <- csr_rows g ;
  do xrows <- csr_rows gx ;
  match id with
  | 0 => bfs fuel vmax rows source
  | 1 => bfs_v1 fuel vmax W64 rows xrows (b_sched s) (b_wk s) (b_garbage s (length rows)) source (b_bins s) (b_alpha s) (b_beta s)
  | 2 => bb_v2 fuel vmax W64 rows (csr_all_rows gx) s source
  | 6 => bfs_v6 fuel vmax rows source
  | 7 => bfs_v7 fuel vmax rows (b_sched s) source
  | 8 => bfs_v8 fuel vmax rows (b_sched s) source
  | 9 => bfs_v9 fuel vmax rows (b_sched s) source
  | 10 => bfs_top_down fuel vmax rows (b_sched s) source
  | 11 => pbfs fuel vmax W64 rows xrows (b_sched s) source (b_bins s) (b_alpha s) (b_beta s)
  | 12 => bfs_top_down_bitmap fuel vmax rows (b_sched s) source
  | 13 => bfs_bottom_up fuel vmax imax xrows (b_sched s) source
  | _ => Ok []
  end.
(** One source of the loop bfs.cpp:107-148: the parents and, with --verify, what BFSVerifier says. *)
Definition bb_trial (fuel vmax W64 imax id : nat) (s : bb_par) (verify : bool) (g gx : csr unit) (source : nat) : res (list nat * option bool) :=
  do parents <- bb_version fuel vmax W64 imax id s g gx source ;
  if verify then
    do rows <- csr_rows g ;
    do xrows <- csr_rows gx ;
    do b <- BFSVerifier fuel vmax rows xrows source parents ;
    Ok (parents, Some b)
  else Ok (parents, None).
(** All sources, in order (bfs.cpp:107). *)
Definition bb_trials (fuel vmax W64 imax id : nat) (s : nat -> bb_par) (verify : bool) (g gx : csr unit) (sources : list nat)
  : res (list (list nat * option bool)) :=
  rmap (fun it => bb_trial fuel vmax W64 imax id (s (fst it)) verify g gx (snd it)) (combine (seq 0 (length sources)) sources).
