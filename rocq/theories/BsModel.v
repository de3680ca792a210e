(** Model of bench/sssp.cpp: the benchmark's own dijkstra (55-89), SSSPVerifier (91-114), the version switch
    (119-145) and the sources read by main (196-201). Graphs, weights and distances as in SsspModel; [inf] = numeric_limits<distance_t>::max() / 4 (62) is the
    oracle's initial distance, additions are taken modulo [D] = 2^64.

    The work queue is a std::priority_queue of vertices whose comparator reads the distances that the search is
    changing (67-69). It is modelled as the array behind the queue together with two parameters: what push_heap and
    pop_heap make of the array for the current distances. With [strict] the preconditions of these two calls (the array
    is a heap for the comparator) are checked and breaking them is undefined behaviour; without it the array is
    rearranged in whatever way the parameters say. *)
From Coq Require Import List Arith Bool.
From Verif Require Import Base SsspModel.
Import ListNotations.
Set Implicit Arguments.

(** What a heap operation does to the array: dist -> array -> array. *)
Definition hop : Type := list nat -> list nat -> list nat.

(** 67-69: the comparator; out-of-range ids are not distinguished from distance 0 (they cannot be in the queue). *)
Definition bs_comp (dist : list nat) (a b : nat) : bool := nth b dist 0 <? nth a dist 0.
(** The array is a heap: no element compares below its parent ((i-1)/2) in the sense of std::is_heap. *)
Definition bs_is_heap (dist q : list nat) : bool :=
  forallb (fun i => negb (bs_comp dist (nth ((i - 1) / 2) q 0) (nth i q 0))) (seq 1 (length q - 1)).

(** mq.emplace(v) (70, 84): c.emplace_back, then push_heap on c, whose first size-1 elements have to be a heap. *)
Definition bs_emplace (strict : bool) (push : hop) (dist q : list nat) (v : nat) : res (list nat) :=
  if strict && negb (bs_is_heap dist q) then Ub else Ok (push dist (q ++ [v])).
(** mq.top() and mq.pop() (74-75): the first element; pop_heap on c, which has to be a heap, then c.pop_back. *)
Definition bs_pop (strict : bool) (pop : hop) (dist q : list nat) : res (nat * list nat) :=
  match q with
  | [] => Ub
  | u :: r => if strict && negb (bs_is_heap dist q) then Ub else Ok (u, pop dist r)
  end.

(** 76-85: the body for one edge of u. *)
Definition bs_relax (strict : bool) (push : hop) (D u : nat) (st : list nat * list nat) (e : nat * nat) : res (list nat * list nat) :=
  let (dist, q) := st in
  do du <- vget dist u ;
  do dv <- vget dist (fst e) ;
  let tw := (du + snd e) mod D in
  if tw <? dv then
    do dist' <- vset dist (fst e) tw ;
    do q' <- bs_emplace strict push dist' q (fst e) ;
    Ok (dist', q')
  else Ok st.
(** 73-87. *)
Fixpoint bs_loop (strict : bool) (push pop : hop) (fuel D : nat) (g : wgraph) (st : list nat * list nat) : res (list nat) :=
  match snd st with
  | [] => Ok (fst st)
  | _ =>
      match fuel with
      | 0 => OutOfFuel
      | S f =>
          do uq <- bs_pop strict pop (fst st) (snd st) ;
          do row <- vget g (fst uq) ;
          do st' <- rfold (bs_relax strict push D (fst uq)) row (fst st, snd uq) ;
          bs_loop strict push pop f D g st'
      end
  end.
(** 55-89; the source is put into the queue before its distance is set (70-71). *)
Definition bs_dijkstra (strict : bool) (push pop : hop) (fuel D inf : nat) (g : wgraph) (source : nat) : res (list nat) :=
  let dist := repeat inf (length g) in
  do q <- bs_emplace strict push dist [] source ;
  do dist' <- vset dist source 0 ;
  bs_loop strict push pop fuel D g (dist', q).

(** std::equal with three iterators: walks the first range only; reading past the end of the second is undefined. *)
Fixpoint equal3 (a b : list nat) : res bool :=
  match a with
  | [] => Ok true
  | x :: a' => match b with [] => Ub | y :: b' => if x =? y then equal3 a' b' else Ok false end
  end.
(** 91-114 (the messages printed on failure are left out; with [verbose] they read oracle[i] for every i < dist.size(),
    107-108, which is what the second test is about). *)
Definition sssp_verifier (push pop : hop) (fuel D inf : nat) (g : wgraph) (source : nat) (verbose : bool) (dist : list nat) : res bool :=
  do oracle <- bs_dijkstra false push pop fuel D inf g source ;
  do b <- equal3 dist oracle ;
  if b then Ok true
  else if verbose && (length oracle <? length dist) then Ub else Ok false.

(** 119-145: the versions whose sequential algorithms are modelled here or in SsspModel: 0 (delta_stepping with a weight
    function), 1 (m1) and 13 (the oracle itself); [None] is a version with a parallel algorithm (C57, C68). [dmax] =
    numeric_limits<distance_t>::max(), the initial distance in delta_stepping.hpp:58, 113. *)
Definition sssp_bench (push pop : hop) (fuel D inf dmax : nat) (g : wgraph) (source delta : nat) (verbose : bool) (id : nat) : option (res bool) :=
  let verify r := do dist <- r ; sssp_verifier push pop fuel D inf g source verbose dist in
  match id with
  | 0 => Some (verify (delta_stepping fuel D dmax g source delta))
  | 1 => Some (verify (delta_stepping_m1 fuel D dmax g source))
  | 13 => Some (verify (bs_dijkstra false push pop fuel D inf g source))
  | 6 | 8 | 9 | 10 | 11 | 12 => None
  | _ => Some (Ok true)
  end.

(** 196-201: the sources used by the runs: run j of trial i reads sources[i * iterations + j]. *)
Definition sssp_used (sources : list nat) (trials iterations : nat) : res (list nat) :=
  rmap (vget sources) (flat_map (fun i => map (fun j => i * iterations + j) (seq 0 iterations)) (seq 0 trials)).
