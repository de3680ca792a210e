(** Model of the PageRank benchmark bench/pr.cpp: the graph and the degrees, the versions selected by their number, the trials, and
    print_n_ranks with util/proxysort.hpp.

    The edge list is the one that load_graph returns. Option parsing, timing, logging and the printing of the graph are left out. As in
    PageRankModel.v and XprModel.v numbers are rationals, None standing for one that is not finite. *)
From Coq Require Import List Arith ZArith QArith Bool.
From Verif Require Import Base EdgeListModel CsrModel RangeModel PageRankModel XprModel SrcModel CbModel.
Import ListNotations.
Set Implicit Arguments.
Local Open Scope nat_scope.

(** pr.cpp:78: build_adjacency<1> (common.hpp:104-108, unsorted). *)
Definition prb_graph (W : nat) zsrt srt1 (el : edge_list unit) : res (csr unit) := adjacency_of W zsrt srt1 true S1 el false.
(** pr.cpp:87: build_degrees on that graph; edge_range goes from begin() to end() (edge_range.hpp). *)
Definition prb_degrees (M : nat) (g : csr unit) (t : stree) (sched : nat -> nat) : res (list nat) :=
  do all <- csr_iterate g ; build_degrees M (map (map fst) all) t sched.
(** The literal 0.85f of all calls. *)
Definition prb_damping : Q := (17 # 20)%Q.
(** pr.cpp:63: asLong() ?: 1. *)
Definition prb_max (i : nat) : nat := if i =? 0 then 1 else i.

(** What the run time decides: the interleaving in each iteration, how the vertices are handed out, how the rows are summed, the split of
    the edge range, the order of the sources and of the vertices in version 13. *)
Record prb_run := mkPrr { pr_sched : nat -> nat -> nat; pr_parts : nat -> list (list nat); pr_arr : nat -> nat -> list nat -> list nat * stre;
  pr_trees : nat -> stree; pr_src : nat -> list nat; pr_dst : nat -> list nat }.

Definition ranks_of (r : res prout) : res (list num) := do o <- r ; Ok (o_rank o).
(** Versions 3 and 13 overwrite every element before they read it. *)
Definition residual_ranks (r : res rout) : res (list num) := do o <- r ; Ok (map Some (ro_rank o)).
Definition finite_part (x : num) : Q := match x with Some q => q | None => 0%Q end.

(** The switch of pr.cpp:96-156. [ranks] is the vector rankings, which is shared by all trials and versions. Version 0 and unknown ones
    leave it as it is. *)
Definition prb_version (thr : Q) (max id thread : nat) (s : prb_run) (g : csr unit) (degrees : list nat) (ranks : list num) : res (list num) :=
  do rows <- csr_rows g ;
  match id with
  | 1 => ranks_of (page_rank_v1 rows degrees ranks prb_damping thr max)
  | 2 => ranks_of (page_rank_v2 rows degrees ranks prb_damping thr max)
  | 3 => residual_ranks (page_rank_v3 rows degrees (map finite_part ranks) prb_damping thr max)
  | 4 => ranks_of (page_rank_v4 rows degrees ranks prb_damping thr max thread (pr_sched s))
  | 6 => do all <- csr_iterate g ; ranks_of (page_rank_v6 (map (map fst) all) degrees ranks prb_damping thr max (pr_trees s) (pr_sched s))
  | 7 | 8 | 9 => ranks_of (page_rank_v789 rows degrees ranks prb_damping thr max (pr_parts s) (pr_arr s) (pr_sched s))
  | 10 => ranks_of (page_rank_v10 rows degrees ranks prb_damping thr max (pr_parts s) (pr_sched s))
  | 11 => ranks_of (page_rank rows degrees ranks prb_damping thr max (pr_sched s))
  | 12 => ranks_of (page_rank_v12 rows degrees ranks prb_damping thr max (pr_sched s))
  | 13 => residual_ranks (page_rank_v13 rows degrees (map finite_part ranks) prb_damping thr max (pr_src s) (pr_dst s))
  | 14 => ranks_of (do p <- page_rank_v14 rows degrees ranks prb_damping thr max (pr_sched s) ; Ok (fst p))
  | _ => Ok ranks
  end.

(** proxysort: util/proxysort.hpp:36-66, with the comparison std::greater. [srt] is std::sort. *)
Definition rank_gt (x : list Q) (a b : nat) : bool := negb (Qle_bool (nth a x 0%Q) (nth b x 0%Q)).
Definition proxysort_greater (srt : (nat -> nat -> bool) -> list nat -> list nat) (x : list Q) : list nat := srt (rank_gt x) (seq 0 (length x)).
(** print_n_ranks: pr.cpp:46-52, the lines it prints; n is not used. A score that is not a number is no strict weak order, so std::sort
    is undefined (also said here of infinite ones). *)
Definition print_n_ranks (srt : (nat -> nat -> bool) -> list nat -> list nat) (ranks : list num) : res (list (nat * Q)) :=
  do x <- rmap (fun r => match r with Some q => Ok q | None => Ub end) ranks ;
  let perm := proxysort_greater srt x in
  rmap (fun i => do p <- vget perm i ; do q <- vget x p ; Ok (p, q)) (seq 0 10).

(** The trials of a version and thread count and the verification after them (pr.cpp:92-163). *)
Definition prb_config (thr : Q) (max : nat) srt (verify : bool) (trials : nat) (g : csr unit) (degrees : list nat)
    (c : nat * nat * (nat -> prb_run)) (ranks : list num) : res (list num * list (list (nat * Q))) :=
  let '(thread, id, s) := c in
  do r <- rfold (fun r j => prb_version thr max id thread (s j) g degrees r) (seq 0 trials) ranks ;
  if verify then do p <- print_n_ranks srt r ; Ok (r, [p]) else Ok (r, []).
(** pr.cpp:89-165: the thread counts and within them the versions, in the order of the options; what was printed. *)
Definition prb_configs (thr : Q) (max : nat) srt (verify : bool) (trials : nat) (g : csr unit) (degrees : list nat)
    (threads ids : list nat) (s : nat -> nat -> nat -> prb_run) : res (list num * list (list (nat * Q))) :=
  rfold (fun st c => do r <- prb_config thr max srt verify trials g degrees c (fst st) ; Ok (fst r, snd st ++ snd r))
    (flat_map (fun t => map (fun i => (t, i, s t i)) ids) threads) (repeat (Some 0%Q) (csr_size g), []).
(** [trials] and [iters] as given in the options; trials is asLong() ?: 1 as well (62). *)
Definition prb_rest (thr : Q) (iters : nat) srt (verify : bool) (trials : nat) (g : csr unit) (degrees : list nat)
    (threads ids : list nat) (s : nat -> nat -> nat -> prb_run) : res (list num * list (list (nat * Q))) :=
  prb_configs thr (prb_max iters) srt verify (if trials =? 0 then 1 else trials) g degrees threads ids s.
(** The whole file (pr.cpp:72-166). *)
Definition prb_file (W : nat) zsrt srt1 (el : edge_list unit) (thr : Q) (iters : nat) srt (verify : bool) (trials : nat)
    (threads ids : list nat) (t : stree) (sched : nat -> nat) (s : nat -> nat -> nat -> prb_run) : res (list num * list (list (nat * Q))) :=
  do g <- prb_graph W zsrt srt1 el ;
  do degrees <- prb_degrees W g t sched ;
  prb_rest thr iters srt verify trials g degrees threads ids s.
