(** Model of the s-overlap graph of a hypergraph: examples/imdb/dns.cpp (32-91, s = 2) and examples/imdb/main.cpp (104-153, s = 1).

    The incidences come from read_mm as a directed edge list, given here as its size [n] and its edges.  Timers and the progress
    messages are left out.  K is a std::map, a list sorted by key.  Its values stay below 2^62 for 32-bit ids, so they are plain numbers.
    K belongs to one iteration of the parallel loop, and what an iteration appends to s_overlap is appended in a critical section: a
    run is an order of the iterations, [order] of their number. *)
From Coq Require Import List Arith Bool.
From Verif Require Import Base EdgeListModel CsrModel.
Import ListNotations.
Set Implicit Arguments.
Local Open Scope nat_scope.

(** K[j]++: dns.cpp:67, main.cpp:134; an absent key is inserted with 0 first. *)
Fixpoint kinc (j : nat) (K : list (nat * nat)) : list (nat * nat) :=
  match K with
  | [] => [(j, 1)]
  | (x, c) :: r => if x <? j then (x, c) :: kinc j r else if x =? j then (x, c + 1) :: r else (j, 1) :: (x, c) :: r
  end.
(** dns.cpp:65-69, main.cpp:132-136. *)
Definition k_list (i : nat) (K : list (nat * nat)) (js : list (nat * unit)) : list (nat * nat) :=
  fold_left (fun K j => if i <? fst j then kinc (fst j) K else K) js K.
(** dns.cpp:62-70, main.cpp:129-137. *)
Definition hyp_row (G H : csr unit) (i : nat) : res (list (nat * nat)) :=
  do ks <- csr_row H i ;
  rfold (fun K k => do js <- csr_row G (fst k) ; Ok (k_list i K js)) ks [].
(** dns.cpp:72-77, main.cpp:139-144: the edges appended by iteration [i]. *)
Definition hyp_push (s i : nat) (K : list (nat * nat)) : list (edge unit) :=
  map (fun kv => ((i, fst kv), tt)) (filter (fun kv => s <=? snd kv) K).
(** dns.cpp:48-79, main.cpp:117-146. *)
Definition hyp_overlap (s : nat) (G H : csr unit) (order : nat -> list nat) : res (list (edge unit)) :=
  do l <- rmap (fun i => do K <- hyp_row G H i ; Ok (hyp_push s i K)) (order (csr_size H)) ;
  Ok (concat l).
(** main: the edges of s_overlap and L.  [srt], [srt1] are the sorts inside the constructions. *)
Definition hyp_main (W s : nat) srt srt1 (n : nat) (es : list (edge unit)) (order : nat -> list nat) : res (list (edge unit) * csr unit) :=
  let el := el_build W n es in
  do H <- adjacency_of W srt srt1 true S0 el false ;
  do G <- adjacency_of W srt srt1 true S1 el false ;
  do o <- hyp_overlap s G H order ;
  do L <- adjacency_of W srt srt1 false S0 (el_build W 0 o) false ;
  Ok (o, L).
