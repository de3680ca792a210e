(** Model of the splittable ranges in adaptors/: edge_range.hpp, neighbor_range.hpp, plain_range.hpp,
    splittable_range_adaptor.hpp, cyclic_range_adaptor.hpp, cyclic_neighbor_range.hpp, vertex_range.hpp.
    Iterators are positions relative to begin() of the underlying container; forming a position is never an
    error, dereferencing one outside the container is [Ub]. *)
From Coq Require Import List Arith ZArith NArith Bool.
From Verif Require Import Base UtilModel.
Import ListNotations.
Set Implicit Arguments.

(** How a client (tbb) splits a range: any binary tree of splits. *)
Inductive stree : Type := SLeaf | SNode (l r : stree).
Section Split.
Variable R : Type.
Variable split : R -> R * R.
Variable divisible : R -> bool.
Fixpoint spieces (t : stree) (r : R) : list R :=
  match t with
  | SLeaf => [r]
  | SNode t1 t2 => let (a, b) := split r in spieces t1 a ++ spieces t2 b
  end.
(** Splitting while is_divisible() holds. *)
Fixpoint full_split (fuel : nat) (r : R) : res (list R) :=
  if divisible r then
    match fuel with
    | 0 => OutOfFuel
    | S f =>
        let (a, b) := split r in
        do x <- full_split f a ;
        do y <- full_split f b ;
        Ok (x ++ y)
    end
  else Ok [r].
End Split.

(** * edge_range, neighbor_range, plain_range *)
(** outer_begin_, outer_end_ (edge_range.hpp:42-44, neighbor_range.hpp:33-35, plain_range.hpp:44-46). *)
Record orange : Type := { or_begin : nat; or_end : nat }.
(** edge_range.hpp:47-50, neighbor_range.hpp:38-40, plain_range.hpp:49-51. *)
Definition or_make {A} (g : list (list A)) (offset : nat) : orange := {| or_begin := offset; or_end := length g |}.
(** edge_range.hpp:53-57, neighbor_range.hpp:43-47, plain_range.hpp:54-58: (b afterwards, the new range). *)
Definition or_split (b : orange) : orange * orange :=
  let i := (or_end b - or_begin b) / 2 in
  ({| or_begin := or_begin b; or_end := or_begin b + i |}, {| or_begin := or_begin b + i; or_end := or_end b |}).
(** edge_range.hpp:167, 169 and line 35. *)
Definition or_size (r : orange) : nat := or_end r - or_begin r.
Definition or_cutoff : nat := 16.
Definition or_divisible (r : orange) : bool := or_cutoff <? or_size r.

(** The edge iterator (edge_range.hpp:77-81): first_, last_ and the inner positions u_begin_, u_end_. *)
Record eiter : Type := { ei_first : nat; ei_last : nat; ei_ub : nat; ei_ue : nat }.
(** (first_ row).begin(), end() (lines 88-89, 101-102). *)
Definition ei_enter {A} (g : list (list A)) (first last : nat) : res eiter :=
  do row <- vget g first ; Ok {| ei_first := first; ei_last := last; ei_ub := 0; ei_ue := length row |}.
(** check (edge_range.hpp:85-92). *)
Fixpoint ei_check {A} (fuel : nat) (g : list (list A)) (it : eiter) : res eiter :=
  if (ei_ub it =? ei_ue it) && negb (ei_first it =? ei_last it) then
    match fuel with
    | 0 => OutOfFuel
    | S f =>
        let first := S (ei_first it) in
        if negb (first =? ei_last it) then
          do it' <- ei_enter g first (ei_last it) ;
          ei_check f g it'
        else Ok {| ei_first := first; ei_last := ei_last it; ei_ub := ei_ub it; ei_ue := ei_ue it |}
    end
  else Ok it.
(** Constructor (edge_range.hpp:95-105); value-initialised inner iterators are position 0. *)
Definition ei_make {A} (fuel : nat) (g : list (list A)) (first last : nat) : res eiter :=
  if negb (first =? last) then do it <- ei_enter g first last ; ei_check fuel g it
  else Ok {| ei_first := first; ei_last := last; ei_ub := 0; ei_ue := 0 |}.
(** operator++ (136-142). *)
Definition ei_next {A} (fuel : nat) (g : list (list A)) (it : eiter) : res eiter :=
  ei_check fuel g {| ei_first := ei_first it; ei_last := ei_last it; ei_ub := S (ei_ub it); ei_ue := ei_ue it |}.
(** operator* (150): source and the inner element (target and attributes). *)
Definition ei_deref {A} (g : list (list A)) (it : eiter) : res (nat * A) :=
  do row <- vget g (ei_first it) ; do x <- vget row (ei_ub it) ; Ok (ei_first it, x).
(** for (it = begin(); it != end(); ++it) with operator== comparing first_ (128-130). *)
Fixpoint ei_visit {A} (fuel : nat) (g : list (list A)) (last : nat) (it : eiter) : res (list (nat * A)) :=
  if ei_first it =? last then Ok []
  else match fuel with
       | 0 => OutOfFuel
       | S f =>
           do x <- ei_deref g it ;
           do it' <- ei_next (length g) g it ;
           do rest <- ei_visit f g last it' ;
           Ok (x :: rest)
       end.
Definition edges_of_range {A} (fuel : nat) (g : list (list A)) (r : orange) : res (list (nat * A)) :=
  do it <- ei_make (length g) g (or_begin r) (or_end r) ;
  ei_visit fuel g (or_end r) it.

(** plain_range / neighbor_range iteration (plain_range.hpp:96-106, neighbor_range.hpp:85-96). *)
Fixpoint pr_visit (fuel : nat) (first last : nat) : res (list nat) :=
  if first =? last then Ok []
  else match fuel with 0 => OutOfFuel | S f => do rest <- pr_visit f (S first) last ; Ok (first :: rest) end.
Definition plain_of_range (fuel : nat) (r : orange) : res (list nat) := pr_visit fuel (or_begin r) (or_end r).
Fixpoint nr_visit {A} (fuel : nat) (g : list (list A)) (first last : nat) : res (list (nat * list A)) :=
  if first =? last then Ok []
  else match fuel with
       | 0 => OutOfFuel
       | S f => do row <- vget g first ; do rest <- nr_visit f g (S first) last ; Ok ((first, row) :: rest)
       end.
Definition neighbors_of_range {A} (fuel : nat) (g : list (list A)) (r : orange) : res (list (nat * list A)) :=
  nr_visit fuel g (or_begin r) (or_end r).

(** * splittable_range_adaptor *)
Record srange : Type := { sr_begin : nat; sr_end : nat; sr_cutoff : nat }.
(** splittable_range_adaptor.hpp:49-51. *)
Definition sr_make (b e cutoff : nat) : srange :=
  {| sr_begin := if e <? b then e else b; sr_end := e; sr_cutoff := cutoff |}.
Definition sr_size (r : srange) : nat := sr_end r - sr_begin r.
Definition sr_divisible (r : srange) : bool := sr_cutoff r <? sr_size r.
(** 53-54: the new range takes the first half: (new, rhs afterwards). *)
Definition sr_split (r : srange) : srange * srange :=
  let mid := sr_begin r + sr_size r / 2 in
  ({| sr_begin := sr_begin r; sr_end := mid; sr_cutoff := sr_cutoff r |},
   {| sr_begin := mid; sr_end := sr_end r; sr_cutoff := sr_cutoff r |}).
Definition sr_visit {A} (l : list A) (r : srange) : res (list A) := vslice l (sr_begin r) (sr_end r).

(** * cyclic_range_adaptor and cyclic_neighbor_range *)
(** cyclic_range_adaptor.hpp:34-39; difference_type is a signed 64-bit integer, end_ - begin_ is [cr_n]. *)
Record crange : Type := { cr_n : Z; cr_cutoff : Z; cr_cycle : Z; cr_stride : Z }.
(** 42-44. *)
Definition cr_make (n : nat) (cutoff : N) : res crange :=
  do e <- ceil_log2 64 cutoff ;
  do p <- pow2 64 e ;
  Ok {| cr_n := Z.of_nat n; cr_cutoff := Z.of_N p; cr_cycle := 0; cr_stride := 1 |}.
(** 50-51: (rhs afterwards, the new range). *)
Definition cr_split (r : crange) : crange * crange :=
  ({| cr_n := cr_n r; cr_cutoff := cr_cutoff r; cr_cycle := cr_cycle r; cr_stride := cr_stride r * 2 |},
   {| cr_n := cr_n r; cr_cutoff := cr_cutoff r; cr_cycle := cr_cycle r + cr_stride r; cr_stride := cr_stride r * 2 |})%Z.
(** 96. *)
Definition cr_divisible (r : crange) : bool := (cr_stride r <=? cr_cutoff r)%Z.
(** begin and end positions (68, 76-81); % truncates towards zero. *)
Definition cr_first (r : crange) : Z := cr_cycle r.
Definition cr_last (r : crange) : Z :=
  let n := (cr_n r - cr_cycle r)%Z in
  let rm := Z.rem n (cr_stride r) in
  let e := Z.rem (cr_stride r - rm)%Z (cr_stride r) in
  (cr_n r + e)%Z.
(** 83-88. *)
Definition cr_size (r : crange) : Z :=
  let n := cr_n r in
  (Z.quot n (cr_stride r) + (if cr_cycle r <? Z.rem n (cr_stride r) then 1 else 0))%Z.
(** Dereference. *)
Definition zget {A} (l : list A) (i : Z) : res A := if (i <? 0)%Z then Ub else vget l (Z.to_nat i).
(** The loop for (it = begin(); it != end(); ++it). *)
Fixpoint cr_loop {A} (fuel : nat) (l : list A) (stride i last : Z) : res (list A) :=
  if (i =? last)%Z then Ok []
  else match fuel with
       | 0 => OutOfFuel
       | S f => do x <- zget l i ; do rest <- cr_loop f l stride (i + stride)%Z last ; Ok (x :: rest)
       end.
Definition cr_visit {A} (fuel : nat) (l : list A) (r : crange) : res (list A) :=
  cr_loop fuel l (cr_stride r) (cr_first r) (cr_last r).
(** cyclic_neighbor_range.hpp:70: the element is paired with its position. *)
Fixpoint cn_loop {A} (fuel : nat) (l : list A) (stride i last : Z) : res (list (nat * A)) :=
  if (i =? last)%Z then Ok []
  else match fuel with
       | 0 => OutOfFuel
       | S f => do x <- zget l i ; do rest <- cn_loop f l stride (i + stride)%Z last ; Ok ((Z.to_nat i, x) :: rest)
       end.
Definition cn_visit {A} (fuel : nat) (l : list A) (r : crange) : res (list (nat * A)) :=
  cn_loop fuel l (cr_stride r) (cr_first r) (cr_last r).

(** * vertex_range *)
(** counting_iterator difference (vertex_range.hpp:40): the unsigned difference read as signed; W = 2^32. *)
Definition ci_diff (W a b : Z) : Z :=
  let d := ((a - b) mod W)%Z in if (d <? W / 2)%Z then d else (d - W)%Z.
Record vrange : Type := { vr_begin : Z; vr_end : Z }.
(** vertex_range.hpp:84-85. *)
Definition vr_make (W max : Z) : vrange := {| vr_begin := 0; vr_end := (max mod W)%Z |}.
(** 90-91: (rhs afterwards, the new range). *)
Definition vr_split (r : vrange) : vrange * vrange := (r, {| vr_begin := vr_begin r; vr_end := vr_end r |}).
(** 100 with counting_iterator operator<= (67). *)
Definition vr_divisible (W : Z) (r : vrange) : bool := (ci_diff W (vr_begin r) (vr_end r) <=? 0)%Z.
(** Iteration with operator!= (64) and ++ (44) on the unsigned counter. *)
Fixpoint vr_loop (fuel : nat) (W i last : Z) : res (list Z) :=
  if (ci_diff W i last =? 0)%Z then Ok []
  else match fuel with 0 => OutOfFuel | S f => do rest <- vr_loop f W ((i + 1) mod W)%Z last ; Ok (i :: rest) end.
Definition vr_visit (fuel : nat) (W : Z) (r : vrange) : res (list Z) := vr_loop fuel W (vr_begin r) (vr_end r).

(** * plain_degree_range (plain_range.hpp:136-172) *)
Fixpoint pd_visit {A} (fuel : nat) (g : list (list A)) (first last : nat) : res (list (nat * nat)) :=
  if first =? last then Ok []
  else match fuel with
       | 0 => OutOfFuel
       | S f => do row <- vget g first ; do rest <- pd_visit f g (S first) last ; Ok ((first, length row) :: rest)
       end.
