(** Model of adaptors/random_range.hpp and adaptors/reverse.hpp. *)
From Coq Require Import List Arith ZArith QArith Qround.
From Verif Require Import Base.
Import ListNotations.
Set Implicit Arguments.
Local Open Scope nat_scope.

(** ** random_range *)
(** Where row v of the compressed graph starts in the array of targets; a row iterator is a position in that array, so
    reading beyond the row reads the next row, and only reading beyond the array is undefined. *)
Definition row_start (g : list (list nat)) (v : nat) : nat := sum (map (@length nat) (firstn v g)).
(** edge_range_iterator::operator++ (random_range.hpp:46-56): [d] is the value of dice(), drawn from [0, 1); the product is
    taken exactly *)
Definition rr_step (g : list (list nat)) (current : nat) (d : Q) : res nat :=
  do row <- vget g current ;
  let N := length row in
  let pick := Z.to_nat (Qfloor (inject_Z (Z.of_nat N) * d)) in
  vget (concat g) (row_start g current + pick).
(** a loop over the range (lines 43-64): yield the current vertex, move on, until length_ has been counted down; the
    iterator also moves once after the last vertex *)
Fixpoint rr_run (len : nat) (g : list (list nat)) (current : nat) (dice : nat -> Q) (i : nat) : res (list nat) :=
  match len with
  | 0 => Ok []
  | S l =>
    do next <- rr_step g current (dice i) ;
    do r <- rr_run l g next dice (S i) ;
    Ok (current :: r)
  end.
(** random_range(g, length, first) (lines 29-31) *)
Definition random_range (g : list (list nat)) (len first : nat) (dice : nat -> Q) : res (list nat) := rr_run len g first dice 0.

(** ** reverse_path *)
(** a loop over the path (reverse.hpp:37-66): [path] holds the predecessors, [done] is the flag of the reverse_path object,
    set when stop_ is reached and never reset; the result carries its final value *)
Fixpoint rp_run (fuel : nat) (path : list nat) (stop : nat) (curr : nat) (done : bool) : res (list nat * bool) :=
  if done then Ok ([], true)
  else match fuel with
  | 0 => OutOfFuel
  | S f =>
    do p <- vget path curr ;
    do r <- rp_run f path stop p (if p =? stop then true else done) ;
    Ok (curr :: fst r, snd r)
  end.
