(** algorithms/spMatspMat.hpp: sparse matrix products over an arbitrary scalar type. *)
From Coq Require Import List Arith Bool.
From Verif Require Import Base.
Import ListNotations.
Set Implicit Arguments.

(** A row lists (column, value); a matrix is its list of rows. *)
Notation srow X := (list (nat * X)) (only parsing).
Section Sp.
Variable S : Type.
(** (ScalarT)0, MapOpT and ReduceOpT. *)
Variables (zero : S) (mapop redop : S -> S -> S).

(** Ci_tmp, a std::map: ascending keys. Lines 72-76: find(j), then update or insert. *)
Fixpoint map_acc (m : list (nat * S)) (j : nat) (tmp : S) : list (nat * S) :=
  match m with
  | [] => [(j, tmp)]
  | (k, x) :: m' =>
      if j <? k then (j, tmp) :: m
      else if j =? k then (k, redop x tmp) :: m'
      else (k, x) :: map_acc m' j tmp
  end.
(** Lines 64-78: one row; B[k] out of range is undefined. *)
Definition sp_row (B : list (srow S)) (row : srow S) : res (list (nat * S)) :=
  rfold (fun m e => do brow <- vget B (fst e) ;
                    Ok (fold_left (fun m f => map_acc m (fst f) (mapop (snd e) (snd f))) brow m)) row [].
(** Lines 54-87; the edge list is its list of pushed triples (push_back, edge_list.hpp). *)
Definition spMatspMat (A B : list (srow S)) : res (list (nat * nat * S)) :=
  rfold (fun es i => do row <- vget A i ; do ci <- sp_row B row ; Ok (es ++ map (fun e => (i, fst e, snd e)) ci)) (seq 0 (length A)) [].

(** Lines 106-119, instantiated with the comparison of line 155 (first components). *)
Fixpoint ewise (fuel : nat) (l1 l2 : srow S) : res (list S) :=
  match l1, l2 with
  | [], _ => Ok []
  | _, [] => Ok []
  | (a, x) :: r1, (b, y) :: r2 =>
      match fuel with
      | 0 => OutOfFuel
      | Datatypes.S f =>
          if a <? b then ewise f r1 l2
          else if negb (b <? a) then do rest <- ewise f r1 r2 ; Ok (mapop x y :: rest)
          else ewise f l1 r2
      end
  end.
Definition set_ewise_intersection (l1 l2 : srow S) : res (list S) := ewise (length l1 + length l2) l1 l2.
(** Lines 148-165: one (row, column) pair; accumulate starts from (ScalarT)0. *)
Definition spt_cell (i j : nat) (row col : srow S) (es : list (nat * nat * S)) : res (list (nat * nat * S)) :=
  do products <- set_ewise_intersection row col ;
  Ok (match products with [] => es | _ => es ++ [(i, j, fold_left redop products zero)] end).
(** Lines 137-169. *)
Definition spMatspMatT (A BT : list (srow S)) : res (list (nat * nat * S)) :=
  rfold (fun es i => do row <- vget A i ;
     rfold (fun es j => do col <- vget BT j ; spt_cell i j row col es) (seq 0 (length BT)) es) (seq 0 (length A)) [].
End Sp.
