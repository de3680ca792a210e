(** Model of algorithms/kruskal.hpp:38-73. *)
From Coq Require Import List Arith ZArith Bool.
From Verif Require Import Base DsuModel.
Import ListNotations.
Set Implicit Arguments.

(** An edge (source, target, weight). *)
Definition wedge : Type := (nat * nat * Z)%type.
Definition w_src (e : wedge) : nat := fst (fst e).
Definition w_tgt (e : wedge) : nat := snd (fst e).
Definition w_wt (e : wedge) : Z := snd e.

(** The default comparison (kruskal.hpp:40). *)
Definition w_lt (a b : wedge) : bool := (w_wt a <? w_wt b)%Z.

(** The loop body (kruskal.hpp:63-70): state is (subsets, T). *)
Definition kruskal_step (st : dsu * list wedge) (y : wedge) : res (dsu * list wedge) :=
  do x <- disjoint_union_find (fst st) (w_src y) (w_tgt y) ;
  Ok (snd x, if fst x then snd st ++ [y] else snd st).

(** kruskal.hpp:52-73.  [srt] is the outcome of std::sort, which also reorders E in place; note that
    n_vtx is the number of edges.  Returns (E afterwards, T). *)
Definition kruskal (srt : list wedge -> list wedge) (E : list wedge) : res (list wedge * list wedge) :=
  let n_vtx := length E in
  let E' := srt E in
  do st <- rfold kruskal_step E' (dsu_init n_vtx, []) ;
  Ok (E', snd st).
