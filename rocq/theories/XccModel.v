(** Model of compute_connected_components, the search-based components of experimental/algorithms/connected_components.hpp:70-90.

    The parallel loop is a pool of tasks under an arbitrary schedule (Pool.v), one access of component_ids or of the counter per step; the
    accesses of component_ids through plain references count as atomic (in C++ they are data races). T is an unsigned type of [W] values, so that
    -1 and numeric_limits<T>::max() are W - 1 and the loop runs up to size mod W. A graph is the list of its rows of targets. *)
From Coq Require Import List Arith Bool.
From Verif Require Import Base Pool ParBfsModel BfsRangeModel.
Import ListNotations.
Set Implicit Arguments.

Inductive ct : Type :=
| CTest (v : nat)                              (* 76: about to read component_ids[vtx] *)
| CInc (v : nat)                               (* 77: it was max; about to increment the counter *)
| CLoad (w : nat) (rest : list nat)            (* 78, 86: about to load the counter for component_ids[w], then for those of [rest] *)
| CStore (w c : nat) (rest : list nat).        (* 78, 86: about to store c into component_ids[w] *)
Definition c_step (W : nat) (g : list (list nat)) (t : ct) (s : list nat * nat) : res (option ct * (list nat * nat)) :=
  let '(ids, counter) := s in
  match t with
  | CTest v => do x <- vget ids v ; Ok (if W - 1 =? x then Some (CInc v) else None, s)
  | CInc v =>
      do t <- bfs_edges3 g v ;     (* 81-82: bfs_edge_range3; the graph is not changed, so the search can be taken as done here *)
      Ok (Some (CLoad v (map snd t)), (ids, (counter + 1) mod W))
  | CLoad w rest => Ok (Some (CStore w counter rest), s)
  | CStore w c rest =>
      do ids' <- vset ids w c ;
      Ok (match rest with [] => None | x :: r => Some (CLoad x r) end, (ids', counter))
  end.
(** Bounds the number of steps a task still needs. *)
Definition c_size (n : nat) (t : ct) : nat :=
  match t with
  | CTest _ => 2 * n + 4
  | CInc _ => 2 * n + 3
  | CLoad _ r => 2 * length r + 2
  | CStore _ _ r => 2 * length r + 1
  end.
(** 72-90; the result is component_ids. *)
Definition compute_connected_components (W : nat) (g : list (list nat)) (sched : nat -> nat) (ids : list nat) : res (list nat) :=
  do r <- run_all (c_size (length g)) (c_step W g) sched (map CTest (seq 0 (length g mod W))) (ids, W - 1) ;
  Ok (fst r).
