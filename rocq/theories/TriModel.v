(** Model of algorithms/triangle_count.hpp:45-110 and algorithms/jaccard.hpp:46-63. A graph is the list of its rows;
    counters are unbounded. The strided iterators of 101 are indices (their increments past the end are not tracked). *)
From Coq Require Import List Arith Bool.
From Verif Require Import Base UtilModel.
Import ListNotations.
Set Implicit Arguments.

(** triangle_count.hpp:49-54: the body for row [u_neighbors]. *)
Definition tri_row (g : list (list nat)) (u_neighbors : list nat) (triangles : nat) : res nat :=
  rfold (fun t v => do av <- vget g v ; do k <- intersection_size u_neighbors av ; Ok (t + k)) u_neighbors triangles.
(** 45-56. *)
Definition triangle_count (g : list (list nat)) : res nat :=
  rfold (fun t row => tri_row g row t) g 0.

(** 102-106: row i of the threaded version; each target is intersected with the rest of the row only. *)
Fixpoint tri_suffix (g : list (list nat)) (row : list nat) (triangles : nat) : res nat :=
  match row with
  | [] => Ok triangles
  | v :: rest => do av <- vget g v ; do k <- intersection_size row av ; tri_suffix g rest (triangles + k)
  end.
(** 101: i = first + tid; i < last; i += threads; [fuel] bounds the number of rows. *)
Fixpoint stride (fuel i step n : nat) : list nat :=
  match fuel with
  | 0 => []
  | S f => if i <? n then i :: stride f (i + step) step n else []
  end.
Definition tri_thread (g : list (list nat)) (threads tid : nat) : res nat :=
  rfold (fun t i => do row <- vget g i ; tri_suffix g row t) (stride (length g) tid threads (length g)) 0.
(** 71-85, 97-110: the futures are summed in order of their thread id. *)
Definition triangle_count_threads (g : list (list nat)) (threads : nat) : res nat :=
  rfold (fun t tid => do k <- tri_thread g threads tid ; Ok (t + k)) (seq 0 threads) 0.

(** * jaccard.hpp:46-63. A row element is (target, weight); a weight is the pair numerator/denominator of the double
    quotient, the numerator and denominator being exact. The intersections read targets only, so the weights written
    so far do not matter. [None] is the weight before the call. *)
Definition jrow : Type := list (nat * option (nat * nat)).
Definition jc_edge (g : list jrow) (u : nat) (st : nat * jrow) (e : nat * option (nat * nat)) : res (nat * jrow) :=
  let v := fst e in
  if u <? v then
    do gu <- vget g u ;
    do gv <- vget g v ;
    do numer <- intersection_size (map fst gu) (map fst gv) ;
    let denom := length gu + length gv - numer in
    Ok (fst st + 1, snd st ++ [(v, Some (numer, denom))])
  else Ok (fst st, snd st ++ [e]).
Definition jaccard (g : list jrow) : res (nat * list jrow) :=
  rfold (fun st u =>
    do gu <- vget g u ;
    do r <- rfold (jc_edge g u) gu (fst st, []) ;
    Ok (fst r, snd st ++ [snd r])) (seq 0 (length g)) (0, []).
