(** Model of experimental/algorithms/jones_plassmann_coloring.hpp (37-144): jones_plassmann_coloring2.  Degrees, orientation and
    dag_range are those of MisModel.v (the lines 52-82 here are lines 52-76 of dag_based_mis.hpp). *)
From Coq Require Import List Arith Bool.
From Verif Require Import Base RangeModel MisModel.
Import ListNotations.
Set Implicit Arguments.

(** v[i][j]++ *)
Definition bump (pc : list (list nat)) (i j : nat) : res (list (list nat)) :=
  do row <- vget pc i ; do x <- vget row j ; do row' <- vset row j (x + 1) ; vset pc i row'.
(** 84-89: pred_colors, one zero for every predecessor *)
Definition jp2_init (pred : list (list nat)) : list (list nat) := map (fun p => repeat 0 (length p)) pred.
(** 91-103, one vertex: roots get colour 0, and their successors count it *)
Definition jp2_root (pred succ : list (list nat)) (st : list nat * list (list nat)) (vtx : nat) : res (list nat * list (list nat)) :=
  do p <- vget pred vtx ;
  if length p =? 0 then
    do c <- vset (fst st) vtx 0 ;
    do row <- vget succ vtx ;
    do pc <- rfold (fun pc u => bump pc u 0) row (snd st) ;
    Ok (c, pc)
  else Ok st.
(** std::sort (110) *)
Fixpoint sort_in (x : nat) (l : list nat) : list nat := match l with [] => [x] | y :: r => if x <=? y then x :: l else y :: sort_in x r end.
Definition sorted_of (l : list nat) : list nat := fold_right sort_in [] l.
(** 114-120 *)
Fixpoint jp2_scan (l : list nat) (d : nat) : nat := match l with [] => d | x :: r => if x =? 0 then x else jp2_scan r d end.
(** 128-138, one successor *)
Definition jp2_tell (pred : list (list nat)) (k : nat) (pc : list (list nat)) (s : nat) : res (list (list nat)) :=
  do p <- vget pred s ;
  if k <? length p then bump pc s k else Ok pc.
(** 105-140, one visited arc *)
Definition jp2_visit (pred succ : list (list nat)) (st : list nat * list (list nat)) (e : nat * nat * bool) : res (list nat * list (list nat)) :=
  let '(v, u, ready) := e in
  if ready then
    do row <- vget (snd st) u ;
    do pc <- vset (snd st) u (sorted_of row) ;
    do p <- vget pred u ;
    let k := jp2_scan (sorted_of row) (length p) in
    do c <- vset (fst st) u k ;
    do srow <- vget succ u ;
    do pc' <- rfold (jp2_tell pred k) srow pc ;
    Ok (c, pc')
  else Ok st.
(** 37-144 *)
Definition jones_plassmann_coloring2 (g : list (list nat)) (colors : list nat) : res (list nat) :=
  let n := length g in
  let m := sum (map (@length nat) g) in
  do ds <- pd_visit n g 0 n ;
  do degrees <- rfold (fun d e => vset d (fst e) (snd e)) ds (repeat 0 n) ;
  do es <- edges_of_range m g (or_make g 0) ;
  do ps <- rfold (orient degrees) es (repeat [] n, repeat [] n) ;
  do st <- rfold (jp2_root (fst ps) (snd ps)) (seq 0 n) (colors, jp2_init (fst ps)) ;
  do visited <- dag_iterate m n (fst ps) (snd ps) ;
  do st' <- rfold (jp2_visit (fst ps) (snd ps)) visited st ;
  Ok (fst st').
