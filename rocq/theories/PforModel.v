(** Model of util/parallel_for.hpp:56-134 over the splittable ranges of RangeModel.v. parallel_for_inner (35-47) hands an
    element, or its unpacked tuple, to the operator: an element here is what the operator receives. *)
From Coq Require Import List Arith Bool.
From Verif Require Import Base Pool RangeModel.
Import ListNotations.
Set Implicit Arguments.

(** What tbb::parallel_reduce does with a range: process it, or split it and either let the same body go on with the right
    part ([RSeq]) or give the right part to a body split off, whose value starts again at the identity, and join
    ([RJoin]). Which one depends on stealing. *)
Inductive rtree : Type := RLeaf | RSeq (l r : rtree) | RJoin (l r : rtree).

Section Pfor.
Variables R X : Type.
Variable split : R -> R * R.
Variable divisible : R -> bool.
Variable visit : R -> res (list X).

Section Reduce.
Variables V D : Type.
Variable op : X -> res V.
(** reduce(init, op(i)) (line 80) and reduce(partial, partial) (the join of line 130): one functor, two argument types. *)
Variable radd : D -> V -> D.
Variable rjoin : D -> D -> D.

(** 78-83. *)
Definition reduce_sequential (r : R) (init : D) : res D :=
  do xs <- visit r ; rfold (fun a x => do v <- op x ; Ok (radd a v)) xs init.

(** The body of 128-130 on the splitting [t] of [r]; [acc] is the value of the body so far. *)
Fixpoint reduce_tbb (init : D) (t : rtree) (r : R) (acc : D) : res D :=
  match t with
  | RLeaf => reduce_sequential r acc
  | RSeq t1 t2 =>
      let (a, b) := split r in
      do x <- reduce_tbb init t1 a acc ;
      reduce_tbb init t2 b x
  | RJoin t1 t2 =>
      let (a, b) := split r in
      do x <- reduce_tbb init t1 a acc ;
      do y <- reduce_tbb init t2 b init ;
      Ok (rjoin x y)
  end.

(** 126-134. *)
Definition parallel_reduce (t : rtree) (r : R) (init : D) : res D :=
  if divisible r then reduce_tbb init t r init else reduce_sequential r init.
End Reduce.

Section For.
Variable S : Type.
Variable op : X -> S -> res S.
(** 57-61: the elements of one sub-range left to process; one application of the operator is one action. *)
Definition for_step (xs : list X) (s : S) : res (option (list X) * S) :=
  match xs with
  | [] => Ok (None, s)
  | x :: xs' => do s' <- op x s ; Ok (Some xs', s')
  end.
(** 98-105: the sub-ranges of the splitting [t] run concurrently, interleaved by [sched]. *)
Definition parallel_for (sched : nat -> nat) (t : stree) (r : R) (s : S) : res S :=
  if divisible r then
    do parts <- rmap visit (spieces split t r) ;
    run for_step (sum (map (@length X) parts) + length parts) sched 0 parts s
  else
    do xs <- visit r ; rfold (fun s x => op x s) xs s.
End For.
End Pfor.
