(** Model of binary serialization: edge_list.hpp:190-231, graph_base.hpp:60-131, containers/soa.hpp:271-313,
    containers/aos.hpp:103-131, containers/compressed.hpp:303-338.

    A stream is a list of bytes (nats).  An element of a column is its raw memory image, a list of
    exactly sizeof(T) bytes; reading and writing copies these bytes (that is what write/read on
    reinterpret_cast<char*> does).  Multi-byte integers are little endian.
    Simplifications: the product st_size*el_size of a read header does not wrap; a stream that ends
    early is reported as [RdTruncated] (the code leaves the stream in a failed state). *)
From Coq Require Import List Arith.
From Verif Require Import Base.
Import ListNotations.
Set Implicit Arguments.

(** Little-endian image of an integer on [k] bytes, and its value. *)
Fixpoint le_bytes (k v : nat) : list nat :=
  match k with
  | 0 => []
  | S k' => (v mod 256) :: le_bytes k' (v / 256)
  end.
Fixpoint le_value (bs : list nat) : nat :=
  match bs with
  | [] => 0
  | b :: t => b + 256 * le_value t
  end.
(** sizeof(size_t). *)
Definition size_bytes : nat := 8.
Definition w64 (v : nat) : list nat := le_bytes size_bytes v.

(** Result of reading from a stream. [RdOverflow]: more bytes written than the destination object has. *)
Inductive rd (A : Type) : Type :=
| RdOk : A -> list nat -> rd A
| RdTruncated : rd A
| RdOverflow : rd A.
Arguments RdOk {A}. Arguments RdTruncated {A}. Arguments RdOverflow {A}.

Definition rd_bind {A B} (m : rd A) (f : A -> list nat -> rd B) : rd B :=
  match m with RdOk a s => f a s | RdTruncated => RdTruncated | RdOverflow => RdOverflow end.

(** infile.read(dst, k) where the destination has [cap] bytes. *)
Definition read_into (cap k : nat) (s : list nat) : rd (list nat) :=
  if k <=? cap then
    if k <=? length s then RdOk (firstn k s) (skipn k s) else RdTruncated
  else RdOverflow.
Definition read_size (s : list nat) : rd nat :=
  rd_bind (read_into size_bytes size_bytes s) (fun bs s' => RdOk (le_value bs) s').

(** A column: element size and element images. *)
Record column := mkCol { c_size : nat; c_elems : list (list nat) }.

(** soa.hpp:271-278 (and aos.hpp:107-114). *)
Definition ser_col (c : column) : list nat :=
  w64 (length (c_elems c)) ++ w64 (c_size c) ++ concat (c_elems c).

(** Splitting a buffer of n*c bytes into n elements. *)
Definition chunks (c n : nat) (bs : list nat) : list (list nat) :=
  map (fun i => firstn c (skipn (i * c) bs)) (seq 0 n).

(** soa.hpp:280-287: the vector has already been resized to [n] elements of [c] bytes. *)
Definition deser_col (c n : nat) (s : list nat) : rd column :=
  rd_bind (read_size s) (fun st s1 =>
  rd_bind (read_size s1) (fun el s2 =>
  rd_bind (read_into (n * c) (st * el) s2) (fun bs s3 =>
  RdOk (mkCol c (chunks c n (bs ++ repeat 0 (n * c - st * el)))) s3))).

(** soa.hpp:289-295. *)
Definition ser_soa (cols : list column) : list nat :=
  w64 (match cols with [] => 0 | c :: _ => length (c_elems c) end) ++ w64 (length cols) ++ concat (map ser_col cols).

(** soa.hpp:302-309: [tys] are the element sizes of the receiving columns. *)
Fixpoint deser_cols (tys : list nat) (n : nat) (s : list nat) : rd (list column) :=
  match tys with
  | [] => RdOk [] s
  | c :: t =>
      rd_bind (deser_col c n s) (fun col s1 =>
      rd_bind (deser_cols t n s1) (fun cs s2 => RdOk (col :: cs) s2))
  end.
Definition deser_soa (tys : list nat) (s : list nat) : rd (list column) :=
  rd_bind (read_size s) (fun st s1 =>
  rd_bind (read_size s1) (fun _ s2 => deser_cols tys st s2)).

(** array_of_structs: aos.hpp:107-131. *)
Definition ser_aos (c : column) : list nat := ser_col c.
Definition deser_aos (c : nat) (s : list nat) : rd column :=
  rd_bind (read_size s) (fun st s1 =>
  rd_bind (read_size s1) (fun el s2 =>
  rd_bind (read_into (st * c) (st * el) s2) (fun bs s3 =>
  RdOk (mkCol c (chunks c st (bs ++ repeat 0 (st * c - st * el)))) s3))).

(** index_edge_list: magic (27 bytes, edge_list.hpp:190), directedness (4 bytes), the cardinalities
    (one or two size_t), is_open (1 byte), columns. *)
Record stored_edge_list := mkSel {
  s_dir : nat;
  s_cards : list nat;
  s_open : bool;
  s_cols : list column }.
(** "NW Graph index_edge_list" padded with zeros to 27 characters. *)
Definition magic : list nat :=
  [78;87;32;71;114;97;112;104;32;105;110;100;101;120;95;101;100;103;101;95;108;105;115;116;0;0;0].
Definition ser_el (x : stored_edge_list) : list nat :=
  magic ++ le_bytes 4 (s_dir x) ++ concat (map w64 (s_cards x)) ++ [if s_open x then 1 else 0] ++ ser_soa (s_cols x).

Fixpoint read_sizes (k : nat) (s : list nat) : rd (list nat) :=
  match k with
  | 0 => RdOk [] s
  | S k' => rd_bind (read_size s) (fun v s1 => rd_bind (read_sizes k' s1) (fun vs s2 => RdOk (v :: vs) s2))
  end.

(** edge_list.hpp:215-228: [dir], number of cardinalities and element sizes are those of the receiving
    type.  The magic is read and ignored, a different directedness only prints a warning, and the list
    is closed at the end. *)
Definition deser_el (dir ncards : nat) (tys : list nat) (s : list nat) : rd stored_edge_list :=
  rd_bind (read_into 28 27 s) (fun _ s1 =>
  rd_bind (read_into 4 4 s1) (fun _ s2 =>
  rd_bind (read_sizes ncards s2) (fun cards s3 =>
  rd_bind (read_into 1 1 s3) (fun _ s4 =>
  rd_bind (deser_soa tys s4) (fun cols s5 =>
  RdOk (mkSel dir cards false cols) s5))))).

(** indexed_struct_of_arrays::serialize / deserialize: compressed.hpp:303-333.  The field N_ has
    [isz] = sizeof(index_t) bytes; [sizeof(size_t)] bytes are written from and read into its address.
    [Ub] when that runs past the field. Magic: 34 bytes, compressed.hpp:62. *)
Record stored_csr := mkScsr { sc_N : nat; sc_ind : column; sc_cols : list column }.
Definition csr_magic : list nat := [78; 87; 32; 71; 82; 65; 80; 72; 32; 105; 110; 100; 101; 120; 101; 100; 95; 115; 116; 114; 117; 99; 116; 95; 111; 102; 95; 97; 114; 114; 97; 121; 115; 0].
Definition ser_csr (isz : nat) (x : stored_csr) : res (list nat) :=
  if size_bytes <=? isz then
    Ok (csr_magic ++ le_bytes size_bytes (sc_N x) ++ ser_col (sc_ind x) ++ ser_soa (sc_cols x))
  else Ub.
Definition deser_csr (isz : nat) (tys : list nat) (s : list nat) : rd stored_csr :=
  rd_bind (read_into 35 34 s) (fun _ s1 =>
  rd_bind (read_into isz size_bytes s1) (fun nb s2 =>
  rd_bind (deser_aos isz s2) (fun ind s3 =>
  rd_bind (deser_soa tys s3) (fun cols s4 =>
  RdOk (mkScsr (le_value nb) ind cols) s4)))).
