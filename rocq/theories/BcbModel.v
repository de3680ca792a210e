(** Model of the betweenness centrality benchmark bench/bc.cpp: the graph, the versions selected by their number, the trials and the
    verification.

    The edge list is the one that load_graph returns; the sources are those of SrcModel.v. Option parsing, timing, logging and
    stream_stats are left out; print_n_ranks (53-59) is not called. As in BcModel.v and XbcModel.v scores are rationals, and a
    normalisation by 0 has no result. *)
From Coq Require Import List Arith ZArith Qcanon Bool.
From Verif Require Import Base EdgeListModel CsrModel BcModel XbcModel SrcModel CbModel.
Import ListNotations.
Set Implicit Arguments.
Local Open Scope nat_scope.

(** bc.cpp:81: build_adjacency<1> (common.hpp:104-108, unsorted). *)
Definition bcb_graph (W : nat) zsrt srt1 (el : edge_list unit) : res (csr unit) := adjacency_of W zsrt srt1 true S1 el false.

(** What the run time decides: the interleaving of the tasks of a source, and that of the final additions of versions 5 and 8. *)
Record bcb_run := mkBcr { br_sched : nat -> nat -> nat -> nat; br_add : nat -> nat }.

(** The switch of bc.cpp:124-147; an unknown version returns an empty vector. Versions 6 and 7 count paths in the default accum_t =
    size_t ([W64] values), the others in double ([D]: the counts it represents exactly); all calls leave normalize at its
    default true. [thread] is also the number of bins of versions 4, 5 and 8. *)
Definition bcb_version (vmax D W64 id thread : nat) (s : bcb_run) (g : csr unit) (sources : list nat) : res (list Qc) :=
  do rows <- csr_rows g ;
  match id with
  | 0 => bc2_v0 rows vmax D sources true
  | 1 => bc2_v1 rows vmax D sources true
  | 2 => bc2_v2 vmax D rows (br_sched s) sources true
  | 3 => bc2_v3 vmax D rows (br_sched s) sources true
  | 4 => bc2_v4 vmax D thread false rows (br_sched s) sources true
  | 5 => par_brandes vmax D thread false rows (br_sched s) (br_add s) sources true
  | 6 => brandes_bc rows W64 true
  | 7 => approx_brandes rows W64 sources
  | 8 => exact_par_brandes vmax D thread false rows (br_sched s) (br_add s) true
  | _ => Ok []
  end.
(** One trial (bc.cpp:122-152): the centrality and, with --verify, what BCVerifier says (normalize at its default true). *)
Definition bcb_trial (vmax D W64 id thread : nat) (s : bcb_run) (verify : bool) (g : csr unit) (sources : list nat) : res (list Qc * option bool) :=
  do centrality <- bcb_version vmax D W64 id thread s g sources ;
  if verify then
    do rows <- csr_rows g ;
    do b <- bc_verifier rows D false sources centrality true ;
    Ok (centrality, Some b)
  else Ok (centrality, None).
(** The trials (bc.cpp:121-152) of a version. [strict]: see SrcModel.v. *)
Definition bcb_trials (strict : bool) (vmax D W64 id thread : nat) (s : nat -> bcb_run) (verify : bool) (g : csr unit) (sources : list nat) (trials iterations : nat)
  : res (list (list Qc * option bool)) :=
  rmap (fun i => do t <- trial_sources strict sources iterations i ; bcb_trial vmax D W64 id thread (s i) verify g t) (seq 0 trials).
