(** Model of include/nwgraph/containers/compressed.hpp (indexed_struct_of_arrays), adjacency.hpp and
    the CSR building functions of build.hpp.

    Simplifications: attribute columns other than column 0 are zipped into one column [csr_att];
    [W] is the number of values of index_t = vertex_id_t (both uint32_t by default), arithmetic on
    index_t is modulo [W]; sizes (size_t) do not wrap. *)
From Coq Require Import List Arith Bool.
From Verif Require Import Base EdgeListModel.
Import ListNotations.
Set Implicit Arguments.

(** indexed_struct_of_arrays: N_, indices_, to_be_indexed_ (column 0 and attributes),
    compressed.hpp:64-69. *)
Record csr (A : Type) := mkCsr {
  csr_N : nat;
  csr_ind : list nat;
  csr_tgt : list nat;
  csr_att : list A }.

(** Constructor indexed_struct_of_arrays(N): compressed.hpp:78. *)
Definition csr_new {A} (N : nat) : csr A := mkCsr N (repeat 0 (N + 1)) [] [].

(** Constructors from index and column vectors: compressed.hpp:81-89 (N_ = indices.size() - 1). *)
Definition csr_of_vectors {A} (ind tgt : list nat) (att : list A) : csr A :=
  mkCsr (length ind - 1) ind tgt att.

(** Dereferencing the outer iterator / operator[]: compressed.hpp:179-186, 215-216. *)
Definition csr_row {A} (g : csr A) (i : nat) : res (list (nat * A)) :=
  do a <- vget (csr_ind g) i;
  do b <- vget (csr_ind g) (i + 1);
  do ts <- vslice (csr_tgt g) a b;
  do xs <- vslice (csr_att g) a b;
  Ok (combine ts xs).

(** A range-for over the whole container, begin()..end(): compressed.hpp:207-212. *)
Definition csr_iterate {A} (g : csr A) : res (list (list (nat * A))) :=
  rmap (csr_row g) (seq 0 (csr_N g)).

(** size(): compressed.hpp:218. *)
Definition csr_size {A} (g : csr A) : nat := length (csr_ind g) - 1.

(** num_edges(): adjacency.hpp:152. *)
Definition csr_num_edges {A} (g : csr A) : nat := length (csr_tgt g).

(** std::upper_bound on a vector (linear formulation: first position with a larger element). *)
Fixpoint upper_bound (l : list nat) (x : nat) : nat :=
  match l with
  | [] => 0
  | y :: t => if x <? y then 0 else S (upper_bound t x)
  end.

(** source(edge): compressed.hpp:223-231. *)
Definition csr_source {A} (g : csr A) (e : nat) : nat := upper_bound (csr_ind g) e - 1.

(** push_back: compressed.hpp:275-284.  The loop appends zero counters up to index i. *)
Definition csr_push_back {A} (W : nat) (g : csr A) (i t : nat) (a : A) : res (csr A) :=
  let grow := i + 1 - length (csr_ind g) in
  let ind := csr_ind g ++ repeat 0 grow in
  do c <- vget ind i;
  do ind' <- vset ind i ((c + 1) mod W);
  Ok (mkCsr (csr_N g + grow) ind' (csr_tgt g ++ [t]) (csr_att g ++ [a])).

(** std::exclusive_scan with initial value 0 (int) over index_t values; the running sum is an int in
    the code, here only defined below W. *)
Fixpoint exclusive_scan (W acc : nat) (l : list nat) : list nat :=
  match l with
  | [] => []
  | x :: t => acc :: exclusive_scan W ((acc + x) mod W) t
  end.

(** std::inclusive_scan over index_t values. *)
Fixpoint inclusive_scan (W acc : nat) (l : list nat) : list nat :=
  match l with
  | [] => []
  | x :: t => let s := (acc + x) mod W in s :: inclusive_scan W s t
  end.

(** std::vector::resize(n): truncate or append zeros. *)
Definition vresize (l : list nat) (n : nat) : list nat :=
  firstn n l ++ repeat 0 (n - length l).

(** close_for_push_back: compressed.hpp:243-250. *)
Definition csr_close {A} (W : nat) (g : csr A) : csr A :=
  if length (csr_tgt g) =? 0 then g
  else mkCsr (csr_N g) (exclusive_scan W 0 (vresize (csr_ind g) (csr_N g + 1))) (csr_tgt g) (csr_att g).

(** push_back_fill(el, cs): build.hpp:83-96. *)
Definition csr_push_back_fill {A} (W : nat) (es : list (edge A)) (g : csr A) : res (csr A) :=
  do g' <- rfold (fun g e => csr_push_back W g (esrc e) (etgt e) (eatt e)) es g;
  Ok (csr_close W g').

(** Which endpoint becomes the row: the template parameter idx. *)
Inductive side := S0 | S1.
Definition other_side (s : side) : side := match s with S0 => S1 | S1 => S0 end.
Definition el_col {A} (el : edge_list A) (s : side) : list nat :=
  match s with S0 => el_c0 el | S1 => el_c1 el end.

(** One counter increment [++tmp[v]] on a vector of index_t. *)
Definition incr (W : nat) (d : list nat) (v : nat) : res (list nat) :=
  do c <- vget d v; vset d v ((c + 1) mod W).

(** degrees<d_idx>(el), directed: build.hpp:459-481 (the parallel atomic increments executed in list
    order; other orders are treated in [DegreeProofs]). *)
Definition degrees_directed {A} (W : nat) (s : side) (el : edge_list A) : res (list nat) :=
  rfold (incr W) (el_col el s) (repeat 0 (el_card el)).

(** degrees<d_idx>(el), undirected: build.hpp:482-492. *)
Definition degrees_undirected {A} (W : nat) (el : edge_list A) : res (list nat) :=
  rfold (fun d e => do d' <- incr W d (fst e); incr W d' (snd e))
        (combine (el_c0 el) (el_c1 el)) (repeat 0 (el_card el)).

(** std::copy of [xs] to [l.begin()+pos]. *)
Definition vcopy {A} (xs : list A) (l : list A) (pos : nat) : res (list A) :=
  if pos + length xs <=? length l
  then Ok (firstn pos l ++ xs ++ skipn (pos + length xs) l)
  else Ub.

(** make_zipped + std::sort by the first component: build.hpp:261-262, 303-304.  [srt] is whatever
    the unstable sort does. *)
Definition sort_zipped {A} (srt : list (nat * (nat * A)) -> list (nat * (nat * A)))
  (key tgt : list nat) (att : list A) : list nat * list A :=
  let s := srt (combine key (combine tgt att)) in
  (map (fun x => fst (snd x)) s, map (fun x => snd (snd x)) s).

(** fill_directed<idx>(el, N, cs): build.hpp:209-265. *)
Definition fill_directed {A} (W : nat) (srt : list (nat * (nat * A)) -> list (nat * (nat * A)))
  (s : side) (el : edge_list A) (N : nat) (cs : csr A) : res (csr A) :=
  do degree <- degrees_directed W s el;
  do ind0 <- vset (vresize (csr_ind cs) (N + 1)) 0 0;
  do ind1 <- vcopy (inclusive_scan W 0 degree) ind0 1;
  let '(t, a) := sort_zipped srt (el_col el s) (el_col el (other_side s)) (el_ca el) in
  Ok (mkCsr (csr_N cs) ind1 t a).

(** fill_undirected<idx>(el, N, cs): build.hpp:268-304. *)
Definition fill_undirected {A} (W : nat) (srt : list (nat * (nat * A)) -> list (nat * (nat * A)))
  (s : side) (el : edge_list A) (N : nat) (cs : csr A) : res (csr A) :=
  let Tmp := el_col el s ++ el_col el (other_side s) in
  do degrees <- rfold (incr W) Tmp (repeat 0 N);
  do ind0 <- vset (vresize (csr_ind cs) (N + 1)) 0 0;
  do ind1 <- vcopy (inclusive_scan W 0 degrees) ind0 1;
  let '(t, a) := sort_zipped srt Tmp (el_col el (other_side s) ++ el_col el s) (el_ca el ++ el_ca el) in
  Ok (mkCsr (csr_N cs) ind1 t a).

(** sort_to_be_indexed: compressed.hpp:417-428.  Only column 0 is sorted, row by row, with any
    legal sort [srt] of integers. *)
Definition sort_row (srt : list nat -> list nat) (ind : list nat) (tgt : list nat) (i : nat) : res (list nat) :=
  do a <- vget ind i;
  do b <- vget ind (i + 1);
  do r <- vslice tgt a b;
  vcopy (srt r) tgt a.
Definition sort_to_be_indexed {A} (srt : list nat -> list nat) (g : csr A) : res (csr A) :=
  do t <- rfold (sort_row srt (csr_ind g)) (seq 0 (length (csr_ind g) - 1)) (csr_tgt g);
  Ok (mkCsr (csr_N g) (csr_ind g) t (csr_att g)).

(** fill<idx>(el, cs, sort_adjacency): build.hpp:343-355. *)
Definition fill {A} (W : nat) srt (srt1 : list nat -> list nat) (directed : bool) (s : side)
  (el : edge_list A) (cs : csr A) (sort_adjacency : bool) : res (csr A) :=
  do g <- (if directed then fill_directed W srt s el (el_num_vertices el) cs
           else fill_undirected W srt s el (el_num_vertices el) cs);
  if sort_adjacency then sort_to_be_indexed srt1 g else Ok g.

(** adjacency<idx>(el, sort): adjacency.hpp:90-106; base(num_vertices + 1). *)
Definition adjacency_of {A} (W : nat) srt srt1 (directed : bool) (s : side) (el : edge_list A) (sort : bool) : res (csr A) :=
  fill W srt srt1 directed s el (csr_new (el_num_vertices el + 1)) sort.

(** adjacency<idx>(N, el, sort): adjacency.hpp:108-127; base(N). *)
Definition adjacency_ofN {A} (W : nat) srt srt1 (directed : bool) (s : side) (N : nat) (el : edge_list A) (sort : bool) : res (csr A) :=
  fill W srt srt1 directed s el (csr_new N) sort.

(** triangularize_: compressed.hpp:341-363.  [comp tgt i] is std::less / std::greater. *)
Definition tri_row {A} (comp : nat -> nat -> bool) (g : csr A) (st : list nat * list (nat * A)) (i : nat)
  : res (list nat * list (nat * A)) :=
  let '(nind, ntbi) := st in
  do row <- csr_row g i;
  let kept := filter (fun e => comp (fst e) i) row in
  do p <- vget nind i;
  do nind' <- vset nind (i + 1) (p + length kept);
  Ok (nind', ntbi ++ kept).
Definition triangularize {A} (comp : nat -> nat -> bool) (g : csr A) : res (csr A) :=
  do nind0 <- vset (repeat 0 (length (csr_ind g))) 0 0;
  do st <- rfold (tri_row comp g) (seq 0 (csr_N g)) (nind0, []);
  let '(nind, ntbi) := st in
  Ok (mkCsr (csr_N g) nind (map fst ntbi) (map snd ntbi)).
Definition tri_predecessor := Nat.ltb.                       (* std::less: keep target < row *)
Definition tri_successor (t i : nat) := i <? t.              (* std::greater: keep target > row *)

(** degrees(): compressed.hpp:399-412 (the serial version at 384-394 computes the same differences). *)
Definition csr_degrees {A} (g : csr A) : res (list nat) :=
  rmap (fun i => do a <- vget (csr_ind g) i; do b <- vget (csr_ind g) (i + 1); Ok (b - a))
       (seq 0 (length (csr_ind g) - 1)).

(** soa.hpp permute, 316-330, on one column: row i of the result is the old row perm[i], written at
    new_indices[i]. *)
Definition permute_step {A} (ind nind perm : list nat) (vs : list A) (ws : list A) (i : nat) : res (list A) :=
  do j <- vget perm i;
  do a <- vget ind j;
  do b <- vget ind (j + 1);
  do r <- vslice vs a b;
  do d <- vget nind i;
  vcopy r ws d.
Definition permute_col {A} (ind nind perm : list nat) (vs ws0 : list A) : res (list A) :=
  rfold (permute_step ind nind perm vs) (seq 0 (length ind - 1)) ws0.

(** Scattered write new_id_perm[perm[i]] = i: compressed.hpp:482-488, build.hpp:560-564. *)
Definition invert_perm (perm : list nat) : res (list nat) :=
  rfold (fun ip i => do p <- vget perm i; vset ip p i) (seq 0 (length perm)) (repeat 0 (length perm)).

(** permute_by_degree: compressed.hpp:449-509.  [srt] sorts the ids by the chosen comparison of
    degrees; [d] is the value-initialised attribute tuple filling the work vector. *)
Definition permute_by_degree {A} (d : A) (W : nat) (srt : list nat -> list nat -> list nat) (g : csr A)
  : res (csr A * list nat) :=
  do degs <- csr_degrees g;
  let n := length (csr_ind g) - 1 in
  let perm := srt degs (seq 0 n) in
  do ndegs <- rmap (fun i => do p <- vget perm i; vget degs p) (seq 0 n);
  do nip <- invert_perm perm;
  do first <- vget (csr_ind g) 0;
  let nind := inclusive_scan W 0 (first :: ndegs) in
  do t <- permute_col (csr_ind g) nind nip (csr_tgt g) (repeat 0 (length (csr_tgt g)));
  do a <- permute_col (csr_ind g) nind nip (csr_att g) (repeat d (length (csr_att g)));
  Ok (mkCsr (csr_N g) nind t a, nip).

(** relabel_to_be_indexed: compressed.hpp:434-443 (parallel map over column 0, then sort the rows). *)
Definition relabel_to_be_indexed {A} (srt : list nat -> list nat) (perm : list nat) (g : csr A) : res (csr A) :=
  do t <- rmap (fun v => vget perm v) (csr_tgt g);
  sort_to_be_indexed srt (mkCsr (csr_N g) (csr_ind g) t (csr_att g)).

(** sort_by_degree: compressed.hpp:520-524. *)
Definition sort_by_degree {A} (d : A) (W : nat) srt (srt1 : list nat -> list nat) (g : csr A) : res (csr A) :=
  do r <- permute_by_degree d W srt g;
  relabel_to_be_indexed srt1 (snd r) (fst r).
