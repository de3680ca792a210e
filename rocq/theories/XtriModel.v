(** Model of experimental/algorithms/triangle_count.hpp:37-467 (the variants; 378-420 is compiled out). A graph is the list
    of its rows, or for the two variants that look into the container the vectors indices_ and column 0 of to_be_indexed_.
    size_t counters are unbounded; the set policy is the default sequenced_policy. *)
From Coq Require Import List Arith NArith Bool.
From Verif Require Import Base Pool UtilModel RangeModel CsrModel PforModel TriModel.
Import ListNotations.
Set Implicit Arguments.

(** * triangle_count_vc *)
(** std::lower_bound on [first, first + len) of [a]: the bisection of libstdc++. *)
Fixpoint lower_bound (fuel : nat) (a : list nat) (first len x : nat) : res nat :=
  if len =? 0 then Ok first
  else match fuel with
       | 0 => OutOfFuel
       | S f =>
           let half := len / 2 in
           do y <- vget a (first + half) ;
           if y <? x then lower_bound f a (first + half + 1) (len - half - 1) x else lower_bound f a first half x
       end.
(** 37-54; the pointers are positions of [a]; the counting output iterator counts the elements written. *)
Fixpoint lb_intersection (fuel : nat) (a : list nat) (f1 l1 f2 l2 n : nat) : res nat :=
  if (f1 =? l1) || (f2 =? l2) then Ok n
  else match fuel with
       | 0 => OutOfFuel
       | S f =>
           do x <- vget a f1 ;
           do y <- vget a f2 ;
           if x <? y then do f1' <- lower_bound (l1 - f1) a (f1 + 1) (l1 - (f1 + 1)) y ; lb_intersection f a f1' l1 f2 l2 n
           else if y <? x then do f2' <- lower_bound (l2 - f2) a (f2 + 1) (l2 - (f2 + 1)) x ; lb_intersection f a f1 l1 f2' l2 n
           else lb_intersection f a (f1 + 1) l1 (f2 + 1) l2 (n + 1)
       end.
(** &idxs[k] (73). The operand of & is vector::operator[], defined for k < size() only; [strict] = false is the usual
    reading of &idxs[size()] as the end of the array. *)
Definition addr (strict : bool) (a : list nat) (k : nat) : res nat :=
  if k <? length a then Ok k else if strict then Ub else if k =? length a then Ok k else Ub.
(** 66-74: one vertex i. *)
Definition vc_row (strict : bool) (ptrs idxs : list nat) (t i : nat) : res nat :=
  do b <- vget ptrs i ;
  do e <- vget ptrs (i + 1) ;
  rfold (fun t j =>
    do k <- vget idxs j ;
    do k2 <- vget ptrs k ;
    do k3 <- vget ptrs (k + 1) ;
    do p2 <- addr strict idxs k2 ;
    do p3 <- addr strict idxs k3 ;
    do p0 <- addr strict idxs b ;
    do p1 <- addr strict idxs e ;
    lb_intersection (length idxs + length idxs) idxs p2 p3 p0 p1 t) (seq b (e - b)) t.
(** 56-78. *)
Definition triangle_count_vc (strict : bool) (ptrs idxs : list nat) : res nat :=
  rfold (vc_row strict ptrs idxs) (seq 0 (length ptrs - 1)) 0.

(** * The serial variants *)
(** 81-94. *)
Definition triangle_count_v1 (g : list (list nat)) : res nat := rfold (fun t row => tri_suffix g row t) g 0.
(** 96-107. *)
Definition triangle_count_v15 (g : list (list nat)) : res nat :=
  do rows <- neighbors_of_range (length g) g (or_make g 0) ;
  rfold (fun t p => tri_row g (snd p) t) rows 0.
(** 111-125: [i] counts the rows. *)
Definition v2_row (g : list (list nat)) (st : nat * nat) (node : list nat) : res (nat * nat) :=
  do t <- rfold (fun t u => do gu <- vget g u ; do gi <- vget g (fst st) ; do k <- intersection_size gu gi ; Ok (t + k)) node (snd st) ;
  Ok (fst st + 1, t).
Definition triangle_count_v2 (g : list (list nat)) : res nat := do r <- rfold (v2_row g) g (0, 0) ; Ok (snd r).
(** The number of arcs bounds the loops over the edge range. *)
Definition arcs (g : list (list nat)) : nat := sum (map (@length nat) g).
(** 131-133 and the operator of 375. *)
Definition edge_op (g : list (list nat)) (e : nat * nat) : res nat :=
  do a <- vget g (fst e) ; do b <- vget g (snd e) ; intersection_size a b.
(** 128-135. *)
Definition triangle_count_v3 (g : list (list nat)) : res nat :=
  do es <- edges_of_range (arcs g) g (or_make g 0) ;
  rfold (fun t e => do k <- edge_op g e ; Ok (t + k)) es 0.

(** * The threaded variants *)
(** algorithms/triangle_count.hpp:71-85. *)
Definition tri_async (threads : nat) (op : nat -> res nat) : res nat :=
  rfold (fun t tid => do k <- op tid ; Ok (t + k)) (seq 0 threads) 0.
(** 150-161. *)
Definition triangle_count_v4 (g : list (list nat)) (threads : nat) : res nat :=
  tri_async threads (fun tid =>
    rfold (fun t i => do row <- vget g i ; tri_suffix g row t) (stride (length g) tid threads (length g)) 0).
(** 178-189. *)
Definition triangle_count_v5 (g : list (list nat)) (threads : nat) : res nat :=
  tri_async threads (fun tid =>
    do b <- block (length g) threads tid ;
    rfold (fun t i => do row <- vget g i ; tri_suffix g row t) (seq (fst b) (snd b - fst b)) 0).
(** 205-215. *)
Definition triangle_count_v6 (g : list (list nat)) (threads : nat) : res nat :=
  tri_async threads (fun tid =>
    rfold (fun t i => do row <- vget g i ; tri_row g row t) (stride (length g) tid threads (length g)) 0).

(** 243-249: one iteration computes its count privately and adds it to the atomic total. *)
Definition v7_step (g : list (list nat)) (row : list nat) (total : nat) : res (option (list nat) * nat) :=
  do k <- tri_suffix g row 0 ; Ok (None, total + k).
Definition triangle_count_v7 (g : list (list nat)) (sched : nat -> nat) : res nat :=
  run (v7_step g) (length g) sched 0 g 0.
(** 281: one inner iteration. *)
Definition v10_inner (g : list (list nat)) (x : list nat) (v : nat) (triangles : nat) : res (option nat * nat) :=
  do av <- vget g v ; do k <- intersection_size x av ; Ok (None, triangles + k).
(** 279-283: the inner loop works on an atomic of its own, so only its own schedule matters; [inner u] is the one used for
    row u. *)
Definition v10_step (g : list (list nat)) (inner : nat -> nat -> nat) (p : nat * list nat) (total : nat) : res (option (nat * list nat) * nat) :=
  do k <- run (v10_inner g (snd p)) (length (snd p)) (inner (fst p)) 0 (snd p) 0 ; Ok (None, total + k).
Definition triangle_count_v10 (g : list (list nat)) (outer : nat -> nat) (inner : nat -> nat -> nat) : res nat :=
  run (v10_step g inner) (length g) outer 0 (combine (seq 0 (length g)) g) 0.

(** * The reductions *)
(** A non-negative integer rounded to a double: 53 significant bits, ties to even. *)
Definition rnd (x : N) : N :=
  if (N.size x <=? 53)%N then x
  else
    let e := (N.size x - 53)%N in
    let q := (x / 2 ^ e)%N in
    let r := (x mod 2 ^ e)%N in
    let h := (2 ^ (e - 1))%N in
    let up := ((h <? r) || ((r =? h) && N.odd q))%N in
    ((q + (if up then 1 else 0)) * 2 ^ e)%N.
(** std::plus{} on a double and a size_t, and on two doubles; doubles hold integers here. *)
Definition dadd (a : N) (k : nat) : N := rnd (a + rnd (N.of_nat k)).
Definition djoin (a b : N) : N := rnd (a + b).
(** The conversion of the double to the std::size_t returned. *)
Definition to_size (d : N) : res N := if (d <? 2 ^ 64)%N then Ok d else Ub.
(** 306-317 and 339-351: the initial value of the reduction is 0.0. *)
Definition reduce_cyclic (op : list nat -> res nat) (g : list (list nat)) (cutoff : N) (t : rtree) : res N :=
  do c <- cr_make (length g) cutoff ;
  do d <- parallel_reduce cr_split cr_divisible (cr_visit (length g) g) op dadd djoin t c 0%N ;
  to_size d.
Definition triangle_count_v12 (g : list (list nat)) (cutoff : N) (t : rtree) : res N :=
  reduce_cyclic (fun row => tri_suffix g row 0) g cutoff t.
Definition triangle_count_v13 (g : list (list nat)) (cutoff : N) (t : rtree) : res N :=
  reduce_cyclic (fun row => tri_row g row 0) g cutoff t.
(** 373-376. *)
Definition triangle_count_v14 (g : list (list nat)) (t : rtree) : res nat :=
  parallel_reduce or_split or_divisible (edges_of_range (arcs g) g) (edge_op g) Nat.add Nat.add t (or_make g 0) 0.

(** * The edge-balanced variants *)
(** graph[u] (compressed.hpp:215-216), the targets. *)
Definition ind_row (ind tgt : list nat) (u : nat) : res (list nat) :=
  do a <- vget ind u ; do b <- vget ind (u + 1) ; vslice tgt a b.
(** source(edge) (compressed.hpp:223-226). *)
Definition ind_source (ind : list nat) (e : nat) : nat := upper_bound ind e - 1.
(** 444-448. *)
Fixpoint es_suffix (ind tgt : list nat) (row : list nat) (t : nat) : res nat :=
  match row with
  | [] => Ok t
  | v :: rest => do av <- ind_row ind tgt v ; do k <- intersection_size row av ; es_suffix ind tgt rest (t + k)
  end.
(** 459-464. *)
Definition es_full (ind tgt : list nat) (row : list nat) (t : nat) : res nat :=
  rfold (fun t v => do av <- ind_row ind tgt v ; do k <- intersection_size row av ; Ok (t + k)) row t.
(** 439-451 and 454-467; the loop is for (u = source(v), e = source(ve); u != e; ++u). *)
Definition edgesplit (body : list nat -> nat -> res nat) (ind tgt : list nat) (threads : nat) : res nat :=
  tri_async threads (fun tid =>
    do b <- block (length tgt) threads tid ;
    let u := ind_source ind (fst b) in
    let e := ind_source ind (snd b) in
    if e <? u then OutOfFuel
    else rfold (fun t i => do row <- ind_row ind tgt i ; body row t) (seq u (e - u)) 0).
Definition triangle_count_edgesplit_upper (ind tgt : list nat) (threads : nat) : res nat :=
  edgesplit (es_suffix ind tgt) ind tgt threads.
Definition triangle_count_edgesplit (ind tgt : list nat) (threads : nat) : res nat :=
  edgesplit (es_full ind tgt) ind tgt threads.
