(** Model of the container benchmark apb/containers.cpp and of include/nwgraph/vofos.hpp.

    The edge list is the undirected one read from a file; compress (70-76) fills the container by push_back, which enters every stored
    edge once, under its first end. The arithmetic is a parameter: [mac y x v] is y + x * v, [ofn k] the float k. Timers and output are left out.
    "VOV" is std::vector<std::vector<tuple>>, which has no open_for_push_back, so that instance does not compile as it stands; the class it
    replaced (vov, commented out, 188) is modelled. Likewise the constructors of index_adj_flist from an edge list (vofos.hpp:58-60) call
    fill_adj_flist, which is declared nowhere, and are not modelled. *)
From Coq Require Import List Arith.
From Verif Require Import Base EdgeListModel CsrModel BuildModel TcModel SpmModel.
Import ListNotations.
Set Implicit Arguments.

(** index_adj_flist::push_back: vofos.hpp:74-81. *)
Definition flist_push_back {A} (g : alist A) (i : nat) (x : nat * A) : res (alist A) :=
  let g' := g ++ repeat [] (i + 1 - length g) in
  do r <- vget g' i ; vset g' i (x :: r).
(** push_back_fill(A, B): build.hpp:89-96. *)
Definition flist_push_back_fill {A} (es : list (edge A)) (g : alist A) : res (alist A) :=
  rfold (fun g e => flist_push_back g (esrc e) (etgt e, eatt e)) es g.

(** --format: 183-198. *)
Inductive ctr_format := FCsr | FVov | FVol | FVof.
(** compress: 70-76, with num_vertices(graph) (adjacency.hpp, vofos.hpp:83) and the rows its iteration gives. *)
Definition ctr_compress {A} (W : nat) (f : ctr_format) (el : edge_list A) : res (nat * list (list (nat * A))) :=
  match f with
  | FCsr => do g <- csr_push_back_fill W (el_view el) (csr_new (el_num_vertices el)) ; do rows <- csr_iterate g ; Ok (csr_size g, rows)
  | FVov | FVol => do g <- vov_push_back_fill (el_view el) (repeat [] (el_num_vertices el)) ; Ok (length g, g)
  | FVof => do g <- flist_push_back_fill (el_view el) (repeat [] (el_num_vertices el)) ; Ok (length g, g)
  end.

Section Loops.
Variables F V : Type.
Variable mac : F -> F -> V -> F.
Variable ofn : nat -> F.

(** The first three loops, 102-108, 120-126, 138-145: a counter k of type vertex_id_type beside the rows. *)
Definition ctr_count (W : nat) (x : list F) (rows : list (list (nat * V))) (y : list F) : res (list F) :=
  do st <- rfold (fun st row => do y' <- rfold (fun y e => madd mac x y (snd st) (fst e) (snd e)) row (fst st) ; Ok (y', (snd st + 1) mod W)) rows (y, 0) ;
  Ok (fst st).
(** The fourth, 159-165: neighbor_range, which yields the number of the row with it (the k declared at 159 is not the one used). *)
Definition ctr_nbrs (x : list F) (rows : list (list (nat * V))) (y : list F) : res (list F) :=
  rfold (fun y kr => rfold (fun y e => madd mac x y (fst kr) (fst e) (snd e)) (snd kr) y) (combine (seq 0 (length rows)) rows) y.
(** for (t = 0; t < ntrial; ++t) { fill(y, 0); ... }. *)
Definition ctr_trials (loop : list F -> res (list F)) (ntrial : nat) (y : list F) : res (list F) :=
  rfold (fun y _ => loop (repeat (ofn 0) (length y))) (seq 0 ntrial) y.
(** run_bench: 78-172. y after each of the four loops; ntrial is what the option says, 0 read as 1 (86). *)
Definition ctr_run (W : nat) (f : ctr_format) (ntrial : nat) (el : edge_list V) : res (list (list F)) :=
  do c <- ctr_compress W f el ;
  let N := fst c mod W in
  let nt := if ntrial =? 0 then 1 else ntrial in
  let x := map ofn (seq 0 N) in
  do y1 <- ctr_trials (ctr_count W x (snd c)) nt (repeat (ofn 0) N) ;
  do y2 <- ctr_trials (ctr_count W x (snd c)) nt y1 ;
  do y3 <- ctr_trials (ctr_count W x (snd c)) nt y2 ;
  do y4 <- ctr_trials (ctr_nbrs x (snd c)) nt y3 ;
  Ok [y1; y2; y3; y4].
End Loops.
