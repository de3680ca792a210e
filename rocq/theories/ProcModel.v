(** Model of bench/ProcessEdgelist.cpp (37-68): a Matrix Market text read with int attributes and written in binary.

    vertex_id_type and int have 4 bytes.  Timing and messages are left out. *)
From Coq Require Import List Arith ZArith Bool Ascii.
From Verif Require Import Base EdgeListModel SerialModel MmModel.
Import ListNotations.
Set Implicit Arguments.
Local Open Scope Z_scope.

(** The bytes of an int, least first, in two's complement. *)
Fixpoint int_bytes (k : nat) (z : Z) : list nat := match k with O => [] | S k' => Z.to_nat (z mod 256) :: int_bytes k' (z / 256) end.
(** The fields of an edge_list<dir, int> as serialize sees them: graph_base.hpp, soa.hpp; directedness is graph_base.hpp:26. *)
Definition stored_of (undirected : bool) (el : edge_list Z) : stored_edge_list :=
  mkSel (if undirected then 0 else 1) [el_card el] (el_open el)
    [mkCol 4 (map (le_bytes 4) (el_c0 el)); mkCol 4 (map (le_bytes 4) (el_c1 el)); mkCol 4 (map (int_bytes 4) (el_ca el))].
(** eval<Directed, int>: ProcessEdgelist.cpp:37-50.  The bytes of the output file. *)
Definition process (W : nat) (undirected : bool) (input : list ascii) : res (list nat) :=
  do aos <- (if undirected then read_und_val W (- 2 ^ 31) (2 ^ 31 - 1) input else read_dir_val W (- 2 ^ 31) (2 ^ 31 - 1) input) ;
  Ok (ser_el (stored_of undirected aos)).
(** main: 52-68: with both options both files are written. *)
Definition process_main (W : nat) (d u : bool) (input : list ascii) : res (option (list nat) * option (list nat)) :=
  do a <- (if d then do b <- process W false input ; Ok (Some b) else Ok None) ;
  do c <- (if u then do b <- process W true input ; Ok (Some b) else Ok None) ;
  Ok (a, c).
