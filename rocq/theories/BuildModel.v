(** Model of the graph building and edge-list transformation functions of
    include/nwgraph/build.hpp and of include/nwgraph/vovos.hpp.

    Simplifications: the parallel for_each loops touch each edge once and independently, so they are
    maps; std::map is an association list with insertion of 0 for missing keys by operator[];
    the sort functions are parameters. *)
From Coq Require Import List Arith Bool.
From Verif Require Import Base EdgeListModel CsrModel.
Import ListNotations.
Set Implicit Arguments.

(** Writing a list of edges back into the columns (in-place algorithms on the zipped iterators,
    soa.hpp:92-209; std::vector::resize in soa.hpp:252-254). Cardinality is not touched. *)
Definition el_set_view {A} (el : edge_list A) (es : list (edge A)) : edge_list A :=
  mkEl (el_card el) (el_open el) (map esrc es) (map etgt es) (map eatt es).

(** sort_by<idx>, stable_sort_by<idx>: build.hpp:46-55; lexical_sort_by: 58-71; the sort is [srt]. *)
Definition el_sort {A} (srt : list (edge A) -> list (edge A)) (el : edge_list A) : edge_list A :=
  el_set_view el (srt (el_view el)).

(** The two succession values, graph_base.hpp. *)
Inductive succession := predecessor | successor.

(** swap_to_triangular<idx, edge_list, cessor>: build.hpp:407-423. *)
Definition swap_edge {A} (e : edge A) : edge A := ((etgt e, esrc e), eatt e).
Definition swap_to_triangular {A} (s : side) (c : succession) (el : edge_list A) : edge_list A :=
  let down := match s, c with S0, predecessor => true | S1, successor => true | _, _ => false end in
  el_set_view el
    (map (fun f => if down then (if esrc f <? etgt f then swap_edge f else f)
                   else (if etgt f <? esrc f then swap_edge f else f)) (el_view el)).

(** std::unique with a predicate (keeps the first element of each run), then resize: build.hpp:427-435. *)
Fixpoint unique_from {A} (eqv : A -> A -> bool) (x : A) (l : list A) : list A :=
  match l with
  | [] => [x]
  | y :: t => if eqv x y then unique_from eqv x t else x :: unique_from eqv y t
  end.
Definition std_unique {A} (eqv : A -> A -> bool) (l : list A) : list A :=
  match l with [] => [] | x :: t => unique_from eqv x t end.
Definition same_ends {A} (x y : edge A) : bool := (esrc x =? esrc y) && (etgt x =? etgt y).
Definition uniq {A} (el : edge_list A) : edge_list A :=
  el_set_view el (std_unique same_ends (el_view el)).

(** remove_self_loops: build.hpp:437-443. *)
Definition remove_self_loops {A} (el : edge_list A) : edge_list A :=
  el_set_view el (filter (fun x => negb (esrc x =? etgt x)) (el_view el)).

(** perm_by_degree(el, degree, direction): build.hpp:520-542.  The comparator reads [d[a]]. *)
Inductive direction := descending | ascending | unknown_direction.
Definition deg_lt (d : list nat) (a b : nat) : bool := nth a d 0 <? nth b d 0.
Definition deg_gt (d : list nat) (a b : nat) : bool := nth b d 0 <? nth a d 0.
Definition perm_by_degree (srt : (nat -> nat -> bool) -> list nat -> list nat) (d : list nat) (dir : direction)
  : list nat :=
  let perm := seq 0 (length d) in
  match dir with
  | descending => srt (deg_gt d) perm
  | ascending => srt (deg_lt d) perm
  | unknown_direction => perm
  end.

(** relabel (unipartite): build.hpp:555-573. *)
Definition relabel {A} (el : edge_list A) (perm : list nat) : res (edge_list A * list nat) :=
  do iperm <- invert_perm perm;
  do es <- rmap (fun x => do i <- vget iperm (esrc x); do j <- vget iperm (etgt x); Ok ((i, j), eatt x)) (el_view el);
  Ok (el_set_view el es, iperm).

(** relabel<idx> (bipartite): build.hpp:586-598. *)
Definition relabel_side {A} (s : side) (el : bi_edge_list A) (perm : list nat) : res (bi_edge_list A * list nat) :=
  do iperm <- invert_perm perm;
  do es <- rmap (fun x => match s with
                          | S0 => do i <- vget iperm (esrc x); Ok ((i, etgt x), eatt x)
                          | S1 => do j <- vget iperm (etgt x); Ok ((esrc x, j), eatt x)
                          end) (bel_view el);
  Ok (mkBel (bel_card0 el) (bel_card1 el) (bel_open el) (map esrc es) (map etgt es) (map eatt es), iperm).

(** relabel_by_degree<idx>(el, direction) on a unipartite list: build.hpp:609-646 with
    perm_by_degree<idx>(el, direction), 514-518. [directed] is the directedness of the list. *)
Definition relabel_by_degree {A} (W : nat) srt (directed : bool) (s : side) (dir : direction) (el : edge_list A)
  : res (edge_list A * list nat) :=
  do d <- (if directed then degrees_directed W s el else degrees_undirected W el);
  relabel el (perm_by_degree srt d dir).

(** ------------------------------------------------------------------ adjacency lists *)
(** A vector of vectors (or of forward lists/lists) of (target, attributes). *)
Definition alist (A : Type) := list (list (nat * A)).

(** adj[u].emplace_back(x). *)
Definition al_append {A} (g : alist A) (u : nat) (x : nat * A) : res (alist A) :=
  do r <- vget g u; vset g u (r ++ [x]).

(** push_back_fill(edge_list, adj, directed, idx): build.hpp:101-118. *)
Definition al_fill_edge {A} (directed : bool) (s : side) (g : alist A) (e : edge A) : res (alist A) :=
  match s with
  | S0 => do g1 <- al_append g (esrc e) (etgt e, eatt e);
          if directed then Ok g1 else al_append g1 (etgt e) (esrc e, eatt e)
  | S1 => do g1 <- al_append g (etgt e) (esrc e, eatt e);
          if directed then Ok g1 else al_append g1 (esrc e) (etgt e, eatt e)
  end.
Definition al_push_back_fill {A} (directed : bool) (s : side) (es : list (edge A)) (g : alist A) : res (alist A) :=
  rfold (al_fill_edge directed s) es g.

(** vector_of_vector_of_structs::push_back: vovos.hpp:48-55. *)
Definition vov_push_back {A} (g : alist A) (i : nat) (x : nat * A) : res (alist A) :=
  let g' := g ++ repeat [] (i + 1 - length g) in
  al_append g' i x.

(** fill_adj_list(el, al): build.hpp:120-139.  Returns the counted number of edges too. *)
Definition fill_adj_list {A} (directed : bool) (el : edge_list A) (al : alist A) : res (alist A * nat) :=
  rfold (fun st e =>
    do g1 <- vov_push_back (fst st) (esrc e) (etgt e, eatt e);
    if directed then Ok (g1, snd st + 1)
    else do g2 <- vov_push_back g1 (etgt e) (esrc e, eatt e); Ok (g2, snd st + 2))
    (el_view el) (al, 0).

(** index_vov(edge_list&): vovos.hpp:76-78. *)
Definition vov_of {A} (directed : bool) (el : edge_list A) : res (alist A * nat) :=
  fill_adj_list directed el (repeat [] (el_num_vertices el)).

(** ------------------------------------------------------------------ labelled data *)
Section Labels.
Variable L : Type.
Variable leqb : L -> L -> bool.

(** std::map<L, size_t>. *)
Definition lmap := list (L * nat).
Fixpoint lmap_find (m : lmap) (u : L) : option nat :=
  match m with
  | [] => None
  | (k, i) :: t => if leqb k u then Some i else lmap_find t u
  end.
(** Assignment the_map[u] = i. *)
Definition lmap_assign (m : lmap) (u : L) (i : nat) : lmap := (u, i) :: m.
(** Reading map[u] through the non-const operator[]: inserts 0 when absent. *)
Definition lmap_index (m : lmap) (u : L) : nat * lmap :=
  match lmap_find m u with
  | Some i => (i, m)
  | None => (0, lmap_assign m u 0)
  end.

(** make_index_map: build.hpp:651-660. *)
Definition make_index_map (range : list L) : lmap :=
  fold_left (fun m p => lmap_assign m (snd p) (fst p)) (combine (seq 0 (length range)) range) [].

(** make_property_edges: build.hpp:682-691 (and make_plain_edges 665-676 with unit attributes). *)
Fixpoint make_property_edges {A} (m : lmap) (edges : list (L * L * A)) : list (edge A) * lmap :=
  match edges with
  | [] => ([], m)
  | (u, v, a) :: t =>
      let '(i, m1) := lmap_index m u in
      let '(j, m2) := lmap_index m1 v in
      let '(es, m3) := make_property_edges m2 t in
      (((i, j), a) :: es, m3)
  end.
Definition make_plain_edges {A} (m : lmap) (edges : list (L * L * A)) : list (edge unit) * lmap :=
  make_property_edges m (map (fun e => (fst e, tt)) edges).

(** make_index_edges: build.hpp:696-709; the third component is the position of the record. *)
Definition make_index_edges {A} (m : lmap) (edges : list (L * L * A)) : list (edge nat) * lmap :=
  make_property_edges m (map (fun p => (fst (snd p), fst p)) (combine (seq 0 (length edges)) edges)).

(** make_plain_graph: build.hpp:714-722. *)
Definition make_plain_graph {A} (vertices : list L) (edges : list (L * L * A)) (directed : bool) (s : side) : res (alist unit) :=
  let es := fst (make_plain_edges (make_index_map vertices) edges) in
  al_push_back_fill directed s es (repeat [] (length vertices)).
(** make_index_graph: build.hpp:727-739. *)
Definition make_index_graph {A} (vertices : list L) (edges : list (L * L * A)) (directed : bool) (s : side) : res (alist nat) :=
  let es := fst (make_index_edges (make_index_map vertices) edges) in
  al_push_back_fill directed s es (repeat [] (length vertices)).
(** make_property_graph: build.hpp:744-756. *)
Definition make_property_graph {A} (vertices : list L) (edges : list (L * L * A)) (directed : bool) (s : side) : res (alist A) :=
  let es := fst (make_property_edges (make_index_map vertices) edges) in
  al_push_back_fill directed s es (repeat [] (length vertices)).
End Labels.

(** ------------------------------------------------------------------ bipartite builders *)
Section Bipartite.
Variables L R : Type.
Variable leqb : L -> L -> bool.
Variable reqb : R -> R -> bool.

(** data_to_graph_edge_list: build.hpp:761-778 (attributes of the input edges are dropped). *)
Fixpoint data_edges (lm : lmap L) (rm : lmap R) (edges : list (L * R)) : list (edge unit) :=
  match edges with
  | [] => []
  | (u, v) :: t =>
      let '(i, lm1) := lmap_index leqb lm u in
      let '(j, rm1) := lmap_index reqb rm v in
      ((i, j), tt) :: data_edges lm1 rm1 t
  end.
Definition data_to_graph_edge_list (left : list L) (right : list R) (edges : list (L * R)) : list (edge unit) :=
  data_edges (make_index_map left) (make_index_map right) edges.

(** make_plain_bipartite_graph: build.hpp:782-791; make_bipartite_graph: 810-819.  graph_size is
    computed but the graph is sized by the left side. *)
Definition make_bipartite_graph (s : side) (left : list L) (right : list R) (edges : list (L * R)) : res (alist unit) :=
  al_push_back_fill true s (data_to_graph_edge_list left right edges) (repeat [] (length left)).

(** make_plain_bipartite_graphs: build.hpp:795-806; make_bipartite_graphs: 823-834. *)
Definition make_bipartite_graphs (left : list L) (right : list R) (edges : list (L * R)) : res (alist unit * alist unit) :=
  let es := data_to_graph_edge_list left right edges in
  do G <- al_push_back_fill true S0 es (repeat [] (length left));
  do H <- al_push_back_fill true S1 es (repeat [] (length right));
  Ok (G, H).
End Bipartite.

(** join(G, H): build.hpp:837-855. *)
Definition join_row {A B} (G : alist A) (i : nat) (row : list (nat * B)) : res (list (edge nat)) :=
  do parts <- rmap (fun k => do g <- vget G (fst k);
                    Ok (map (fun j => ((i, fst j), fst k)) (filter (fun j => negb (fst j =? i)) g))) row;
  Ok (concat parts).
Definition join_edges {A B} (G : alist A) (H : alist B) : res (list (edge nat)) :=
  do rows <- rmap (fun i => do r <- vget H i; join_row G i r) (seq 0 (length H));
  Ok (concat rows).
Definition join {A B} (G : alist A) (H : alist B) : res (alist nat) :=
  do s_overlap <- join_edges G H;
  al_push_back_fill true S0 s_overlap (repeat [] (length H)).
