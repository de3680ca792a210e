(** Model of the sparse matrix-vector and degree benchmarks apb/spmv.cpp, apb/exec.cpp, apb/plain.cpp and apb/tbb.cpp.

    The graph is built as adjacency<1> (attribute double, in plain.cpp none) of a directed edge list (apb/spmv.cpp:427-430, exec.cpp:195-198,
    plain.cpp:579-582, tbb.cpp:342-345). The arithmetic is a parameter: [mac y x v] is y + x * v in whatever precision, [F] the type of y's
    elements, [X] that of x's. The vectors have N = num_vertices(graph) elements; y and degrees are cleared before each loop; timers, output and
    the ntrial repetitions are left out. *)
From Coq Require Import List Arith.
From Verif Require Import Base EdgeListModel CsrModel RangeModel.
Import ListNotations.
Set Implicit Arguments.

Section SpMV.
Variables F X V : Type.
Variable mac : F -> X -> V -> F.

(** y[i] += x[j] * v: everywhere. *)
Definition madd (x : list X) (y : list F) (i j : nat) (v : V) : res (list F) :=
  do yi <- vget y i ; do xj <- vget x j ; vset y i (mac yi xj v).

(** for (j = ptr[i]; j < ptr[i + 1]; ++j) y[i] += x[idx[j]] * dat[j]: spmv.cpp:55-57, exec.cpp:46-48. *)
Definition raw_row (g : csr V) (x : list X) (y : list F) (i : nat) : res (list F) :=
  do lo <- vget (csr_ind g) i ;
  do hi <- vget (csr_ind g) (i + 1) ;
  rfold (fun y j => do c <- vget (csr_tgt g) j ; do d <- vget (csr_att g) j ; madd x y i c d) (seq lo (hi - lo)) y.
(** "raw for loop": spmv.cpp:44-58; with std::for_each over counting iterators: exec.cpp:41-49. [order]: the order in which the rows are done,
    0, 1, ... in spmv.cpp and with the policy seq; each row writes its own element of y only. *)
Definition spmv_raw (g : csr V) (x : list X) (order : list nat) (y : list F) : res (list F) := rfold (raw_row g x) order y.

(** The loops over begin() .. end() of the graph: spmv.cpp:71-77, 89-95, 107-114, with neighbor_range 130-134; exec.cpp:84-90. *)
Definition spmv_rows (g : csr V) (x : list X) (y : list F) : res (list F) :=
  rfold (fun y k => do row <- csr_row g k ; rfold (fun y e => madd x y k (fst e) (snd e)) row y) (seq 0 (csr_N g)) y.

(** The loops over an edge_range, given the tuples it yields: spmv.cpp:150-152, 164-166, 178-180, 192-194, 206, 218. *)
Definition spmv_edges (es : list (nat * (nat * V))) (x : list X) (y : list F) : res (list F) :=
  rfold (fun y e => madd x y (fst e) (fst (snd e)) (snd (snd e))) es y.

(** y[i] += transform_reduce(...): exec.cpp:66-69 (over ptr[i] .. ptr[i + 1]) and 102-105 (over graph[i]). [red]: what std::transform_reduce returns for
    the products of the row, [plus]: the addition to y[i]. *)
Variable prod : X -> V -> F.
Variable plus : F -> F -> F.
Variable red : list F -> F.
Definition red_row_raw (g : csr V) (x : list X) (y : list F) (i : nat) : res (list F) :=
  do lo <- vget (csr_ind g) i ;
  do hi <- vget (csr_ind g) (i + 1) ;
  do ps <- rmap (fun j => do c <- vget (csr_tgt g) j ; do xc <- vget x c ; do d <- vget (csr_att g) j ; Ok (prod xc d)) (seq lo (hi - lo)) ;
  do yi <- vget y i ; vset y i (plus yi (red ps)).
Definition red_row (g : csr V) (x : list X) (y : list F) (i : nat) : res (list F) :=
  do row <- csr_row g i ;
  do ps <- rmap (fun e => do xc <- vget x (fst e) ; Ok (prod xc (snd e))) row ;
  do yi <- vget y i ; vset y i (plus yi (red ps)).
End SpMV.

(** What std::transform_reduce(first, last, init, plus, ...) may return for the values [l] with init in front: any grouping of any order. *)
Inductive gsum {F} (plus : F -> F -> F) : list F -> F -> Prop :=
| gsum_one : forall a, gsum plus [a] a
| gsum_cat : forall l1 l2 a b, gsum plus l1 a -> gsum plus l2 b -> gsum plus (l1 ++ l2) (plus a b)
| gsum_perm : forall l1 l2 a, Permutation.Permutation l1 l2 -> gsum plus l1 a -> gsum plus l2 a.

(** The degree loops. [W]: the number of values of vertex_id_type; ++degrees[v] wraps. *)
Definition bump (W : nat) (deg : list nat) (v : nat) : res (list nat) := do d <- vget deg v ; vset deg v ((d + 1) mod W).
(** ++degrees[i] for every arc of row i: plain.cpp:181-185; over graph[i]: 277-282, 320-325. *)
Definition deg_raw {A} (W : nat) (g : csr A) (N : nat) (deg : list nat) : res (list nat) :=
  rfold (fun deg i => do lo <- vget (csr_ind g) i ; do hi <- vget (csr_ind g) (i + 1) ; rfold (fun deg _ => bump W deg i) (seq lo (hi - lo)) deg)
    (seq 0 N) deg.
Definition deg_rows {A} (W : nat) (g : csr A) (N : nat) (deg : list nat) : res (list nat) :=
  rfold (fun deg i => do row <- csr_row g i ; rfold (fun deg _ => bump W deg i) row deg) (seq 0 N) deg.
(** ++degrees[idx[j]]: plain.cpp:348-352; over graph[i]: 439-444, 482-487. *)
Definition deg_other_raw {A} (W : nat) (g : csr A) (N : nat) (deg : list nat) : res (list nat) :=
  rfold (fun deg i => do lo <- vget (csr_ind g) i ; do hi <- vget (csr_ind g) (i + 1) ;
    rfold (fun deg j => do c <- vget (csr_tgt g) j ; bump W deg c) (seq lo (hi - lo)) deg) (seq 0 N) deg.
Definition deg_other_rows {A} (W : nat) (g : csr A) (N : nat) (deg : list nat) : res (list nat) :=
  rfold (fun deg i => do row <- csr_row g i ; rfold (fun deg e => bump W deg (fst e)) row deg) (seq 0 N) deg.
(** The loops over a plain_range, begin() .. end(): plain.cpp:48-50, 62-64, 76-78, 90-92, 104-106, 132, 144. *)
Definition deg_plain {A} (W : nat) (g : csr A) (deg : list nat) : res (list nat) :=
  do vs <- plain_of_range (csr_N g) {| or_begin := 0; or_end := csr_N g |} ; rfold (bump W) vs deg.
(** "indexed for loop" and "counting iterator": plain.cpp:118-120, 156. *)
Definition deg_count (W N : nat) (deg : list nat) : res (list nat) := rfold (bump W) (seq 0 N) deg.

(** An edge_range over a graph: the rows that can be read and the position of end(), which is N_ (compressed.hpp:210); edge_range.hpp:47-50.
    A row from size() on cannot be read. The degree loops over such a range (plain.cpp:199-201, 211-213, ...; tbb.cpp:47-49, 61, 90, ...) are undefined where the
    range is, whatever they do with the tuples. *)
Definition graph_range {A} (g : csr A) : orange := {| or_begin := 0; or_end := csr_N g |}.
Definition graph_rows {A} (g : csr A) : res (list (list (nat * A))) := rmap (csr_row g) (seq 0 (csr_size g)).
