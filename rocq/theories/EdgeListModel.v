(** Model of include/nwgraph/edge_list.hpp (index_edge_list), containers/soa.hpp (struct_of_arrays)
    and graph_base.hpp.

    The columns of the structure of arrays are kept separate: [el_c0] and [el_c1] hold the two
    endpoints, [el_ca] holds the remaining attribute columns zipped into one column of tuples
    (simplification: the attribute columns always move together in the modelled functions except
    where said otherwise).  [W] is the number of values of the vertex id type (2^32 for the default
    vertex id type, util/defaults.hpp:20-30). *)
From Coq Require Import List Arith.
From Verif Require Import Base.
Import ListNotations.
Set Implicit Arguments.

(** An edge as seen through the iterator: (source, target, attributes). *)
Definition edge (A : Type) : Type := (nat * nat * A)%type.
Definition esrc {A} (e : edge A) : nat := fst (fst e).
Definition etgt {A} (e : edge A) : nat := snd (fst e).
Definition eatt {A} (e : edge A) : A := snd e.

(** index_edge_list<vertex_id, unipartite_graph_base, ...>: edge_list.hpp:69-83,
    vertex_cardinality and is_open: graph_base.hpp:88-90. *)
Record edge_list (A : Type) := mkEl {
  el_card : nat;
  el_open : bool;
  el_c0 : list nat;
  el_c1 : list nat;
  el_ca : list A }.

(** Constructor index_edge_list(size_t N = 0): edge_list.hpp:95 (opens for push_back). *)
Definition el_new {A} (n : nat) : edge_list A := mkEl n true [] [] [].

(** Iteration over the columns, soa.hpp:138-151 and 191-209: element k is the tuple of the k-th
    entries of the columns. *)
Definition el_view {A} (el : edge_list A) : list (edge A) :=
  combine (combine (el_c0 el) (el_c1 el)) (el_ca el).

(** push_back, edge_list.hpp:143-168 (unipartite case) and soa.hpp:243-249.  [max(i,j)+1] is computed in
    the vertex id type (mod W) and std::max<vertex_id_type> converts the size_t cardinality (mod W). *)
Definition el_push_back {A} (W : nat) (el : edge_list A) (i j : nat) (a : A) : edge_list A :=
  mkEl (Nat.max ((Nat.max i j + 1) mod W) (el_card el mod W)) (el_open el)
       (el_c0 el ++ [i]) (el_c1 el ++ [j]) (el_ca el ++ [a]).

(** open_for_push_back / close_for_push_back, edge_list.hpp:124-141. *)
Definition el_open_for_push_back {A} (el : edge_list A) : edge_list A :=
  mkEl (el_card el) true (el_c0 el) (el_c1 el) (el_ca el).
Definition el_close_for_push_back {A} (el : edge_list A) : edge_list A :=
  mkEl (el_card el) false (el_c0 el) (el_c1 el) (el_ca el).

(** num_edges() = base::size() = size of column 0: edge_list.hpp:178-180, soa.hpp:332-334. *)
Definition el_num_edges {A} (el : edge_list A) : nat := length (el_c0 el).

(** num_vertices()[0]: edge_list.hpp:186-188, 283-288. *)
Definition el_num_vertices {A} (el : edge_list A) : nat := el_card el.

(** The usual client loop: construct with size [n], push every edge, close.
    Also the initializer_list constructor, edge_list.hpp:100-122 (with n = 0). *)
Definition el_build {A} (W n : nat) (es : list (edge A)) : edge_list A :=
  el_close_for_push_back
    (fold_left (fun el e => el_push_back W el (esrc e) (etgt e) (eatt e)) es (el_new n)).

(** Bipartite version: two cardinalities, edge_list.hpp:96-98, 143-168 (else branches),
    graph_base.hpp:93-129. *)
Record bi_edge_list (A : Type) := mkBel {
  bel_card0 : nat;
  bel_card1 : nat;
  bel_open : bool;
  bel_c0 : list nat;
  bel_c1 : list nat;
  bel_ca : list A }.

Definition bel_new {A} (m n : nat) : bi_edge_list A := mkBel m n true [] [] [].

Definition bel_view {A} (el : bi_edge_list A) : list (edge A) :=
  combine (combine (bel_c0 el) (bel_c1 el)) (bel_ca el).

Definition bel_push_back {A} (W : nat) (el : bi_edge_list A) (i j : nat) (a : A) : bi_edge_list A :=
  mkBel (Nat.max ((i + 1) mod W) (bel_card0 el mod W))
        (Nat.max ((j + 1) mod W) (bel_card1 el mod W))
        (bel_open el)
        (bel_c0 el ++ [i]) (bel_c1 el ++ [j]) (bel_ca el ++ [a]).

Definition bel_close {A} (el : bi_edge_list A) : bi_edge_list A :=
  mkBel (bel_card0 el) (bel_card1 el) false (bel_c0 el) (bel_c1 el) (bel_ca el).

Definition bel_build {A} (W m n : nat) (es : list (edge A)) : bi_edge_list A :=
  bel_close (fold_left (fun el e => bel_push_back W el (esrc e) (etgt e) (eatt e)) es (bel_new m n)).

Definition bel_num_edges {A} (el : bi_edge_list A) : nat := length (bel_c0 el).

(** soa.hpp operator== (336-338): std::equal with three iterators walks the first container and
    dereferences the second at the same positions; running past the second is undefined.
    Also array_of_structs::operator==, aos.hpp:79-83. *)
Fixpoint std_equal3 {A} (eqb : A -> A -> bool) (a b : list A) : res bool :=
  match a with
  | [] => Ok true
  | x :: a' =>
      match b with
      | [] => Ub
      | y :: b' => if eqb x y then std_equal3 eqb a' b' else Ok false
      end
  end.

(** index_edge_list::operator==, edge_list.hpp:256-258. *)
Definition el_eq {A} (eqb : edge A -> edge A -> bool) (x y : edge_list A) : res bool :=
  if el_card x =? el_card y then std_equal3 eqb (el_view x) (el_view y) else Ok false.
