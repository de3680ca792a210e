(** Properties C01-C10 and C18: edge lists and the compressed adjacency structure.
    The specifications used here ([edge_count], [spec_row], [spec_row_undirected], [ids_ok]) talk about
    the plain list of pushed edges only. *)
From Coq Require Import List Arith Lia Permutation Sorting.Sorted Bool.
From Verif Require Import Base EdgeListModel CsrModel EdgeListProofs CsrProofs CsrProofs2 CsrProofs3 CsrProofs4.
Import ListNotations.
Set Implicit Arguments.

(** ---------------------------------------------------------------------------------- C01 *)
Theorem C01_edge_list_exact : forall A W n (es : list (edge A)),
  n < W -> (forall e, In e es -> esrc e + 1 < W /\ etgt e + 1 < W) ->
  let el := el_build W n es in
  el_view el = es /\ el_num_edges el = length es /\
  n <= el_num_vertices el /\
  (forall e, In e es -> esrc e < el_num_vertices el /\ etgt e < el_num_vertices el) /\
  (forall b, n <= b -> (forall e, In e es -> esrc e < b /\ etgt e < b) -> el_num_vertices el <= b).
Proof.
  intros A W n es Hn He el. split; [apply build_view|]. split; [apply build_num_edges|].
  exact (build_card es Hn He).
Qed.

Theorem C01_bipartite_edge_list_exact : forall A W m n (es : list (edge A)),
  m < W -> n < W -> (forall e, In e es -> esrc e + 1 < W /\ etgt e + 1 < W) ->
  let el := bel_build W m n es in
  bel_view el = es /\ bel_num_edges el = length es /\
  m <= bel_card0 el /\ n <= bel_card1 el /\
  (forall e, In e es -> esrc e < bel_card0 el /\ etgt e < bel_card1 el) /\
  (forall b, m <= b -> (forall e, In e es -> esrc e < b) -> bel_card0 el <= b) /\
  (forall b, n <= b -> (forall e, In e es -> etgt e < b) -> bel_card1 el <= b).
Proof. intros A W m n es. exact (@bi_build_all A W m n es). Qed.

(** The condition on the ids is needed: for every width, one edge at the largest id leaves a vertex
    count of 0. *)
Theorem C01_largest_id_wraps_refuted : forall A W j (a : A),
  0 < W -> j < W ->
  let el := el_build W 0 [((W - 1, j), a)] in
  el_num_vertices el = 0 /\ el_num_edges el = 1.
Proof. intros A W j a H1 H2. split; [exact (build_wrap [] a H1 H2)|reflexivity]. Qed.

Example C01_ex : let el := el_build 100 2 [((3,1),10); ((0,5),20); ((3,1),30)] in
  el_view el = [((3,1),10); ((0,5),20); ((3,1),30)] /\ el_num_vertices el = 6 /\ el_num_edges el = 3 /\
  bel_card0 (bel_build 100 2 9 [((3,1),10); ((0,5),20)]) = 4 /\
  bel_card1 (bel_build 100 2 9 [((3,1),10); ((0,5),20)]) = 9.
Proof. vm_compute. auto. Qed.
Example C01_ex_wrap : el_num_vertices (el_build 256 0 [((255,3),tt)]) = 0.
Proof. reflexivity. Qed.

(** ---------------------------------------------------------------------------------- C02 *)
(** Both constructors; [N] is arbitrary for the explicit-size one (it only sets begin()..end()). *)
Theorem C02_directed_csr_exact : forall A W srt srt1 s n N (es : list (edge A)),
  is_sort_by fst srt -> n < W -> ids_ok W es -> length es < W ->
  let el := el_build W n es in
  (exists g, adjacency_of W srt srt1 true s el false = Ok g /\
     csr_size g = el_num_vertices el /\ csr_num_edges g = length es /\
     forall u, u < csr_size g -> exists row, csr_row g u = Ok row /\ Permutation row (spec_row s es u)) /\
  (exists g, adjacency_ofN W srt srt1 true s N el false = Ok g /\
     csr_size g = el_num_vertices el /\ csr_num_edges g = length es /\ csr_N g = N /\
     forall u, u < csr_size g -> exists row, csr_row g u = Ok row /\ Permutation row (spec_row s es u)).
Proof.
  intros A W srt srt1 s n N es Hs Hn He HW el. split.
  - destruct (adjacency_directed_rows srt1 s (el_num_vertices el + 1) Hs Hn He HW) as (g & E & S1 & S2 & _ & R).
    exists g. auto.
  - exact (adjacency_directed_rows srt1 s N Hs Hn He HW).
Qed.

Definition ex_sortz := isort_by (fst (A := nat) (B := nat * nat)).
Definition ex_sort1 := isort_by (fun x : nat => x).
Example C02_ex :
  let es := [((2,0),10); ((0,1),20); ((2,1),30); ((0,1),40)] in
  is_sort_by fst ex_sortz /\
  exists g, adjacency_of 1000 ex_sortz ex_sort1 true S0 (el_build 1000 0 es) false = Ok g /\
    csr_row g 0 = Ok [(1,20); (1,40)] /\ csr_row g 1 = Ok [] /\ csr_row g 2 = Ok [(0,10); (1,30)] /\
    exists h, adjacency_of 1000 ex_sortz ex_sort1 true S1 (el_build 1000 0 es) false = Ok h /\
    csr_row h 1 = Ok [(0,20); (2,30); (0,40)].
Proof. split; [apply isort_by_is_sort|]. eexists. split; [vm_compute; reflexivity|].
  repeat (split; [vm_compute; reflexivity|]). eexists. split; vm_compute; reflexivity. Qed.

(** ---------------------------------------------------------------------------------- C03 *)
Theorem C03_undirected_csr_exact : forall A W srt srt1 s n (es : list (edge A)),
  is_sort_by fst srt -> n < W -> ids_ok W es -> 2 * length es < W ->
  let el := el_build W n es in
  exists g, adjacency_of W srt srt1 false s el false = Ok g /\
    csr_size g = el_num_vertices el /\ csr_num_edges g = 2 * length es /\
    forall u, u < csr_size g -> exists row, csr_row g u = Ok row /\ Permutation row (spec_row_undirected es u).
Proof.
  intros A W srt srt1 s n es Hs Hn He HW el.
  destruct (adjacency_undirected_rows srt1 s (el_num_vertices el + 1) Hs Hn He HW) as (g & E & S1 & S2 & _ & R).
  exists g. auto.
Qed.

Theorem C03_undirected_csr_symmetric : forall A (eqb : nat * A -> nat * A -> bool) W srt srt1 s n (es : list (edge A)) g,
  (forall x y, eqb x y = true <-> x = y) ->
  is_sort_by fst srt -> n < W -> ids_ok W es -> 2 * length es < W ->
  adjacency_of W srt srt1 false s (el_build W n es) false = Ok g ->
  forall u v a ru rv, csr_row g u = Ok ru -> csr_row g v = Ok rv ->
    length (filter (eqb (v, a)) ru) = length (filter (eqb (u, a)) rv).
Proof.
  intros A eqb W srt srt1 s n es g Heq Hs Hn He HW E.
  exact (@adjacency_undirected_symmetric A eqb W srt srt1 s n _ es g Heq Hs Hn He HW E).
Qed.

Example C03_ex :
  let es := [((2,0),10); ((0,1),20); ((1,1),30)] in
  exists g, adjacency_of 1000 ex_sortz ex_sort1 false S0 (el_build 1000 0 es) false = Ok g /\
    csr_row g 0 = Ok [(1,20); (2,10)] /\ csr_row g 1 = Ok [(1,30); (0,20); (1,30)] /\ csr_row g 2 = Ok [(0,10)] /\
    csr_num_edges g = 6.
Proof. eexists. split; [vm_compute; reflexivity|]. vm_compute. auto. Qed.

(** ---------------------------------------------------------------------------------- C04 *)
Theorem C04_full_iteration_out_of_bounds : forall A W srt srt1 (directed : bool) s n (es : list (edge A)),
  is_sort_by fst srt -> n < W -> ids_ok W es -> 2 * length es < W ->
  exists g, adjacency_of W srt srt1 directed s (el_build W n es) false = Ok g /\
    csr_size g = el_num_vertices (el_build W n es) /\ csr_N g = csr_size g + 1 /\ csr_iterate g = Ub.
Proof. intros. now apply adjacency_iterate_oob. Qed.

Theorem C04_explicit_size_iteration_ok : forall A W srt srt1 (directed : bool) s n (es : list (edge A)),
  is_sort_by fst srt -> n < W -> ids_ok W es -> 2 * length es < W ->
  exists g rows, adjacency_ofN W srt srt1 directed s (el_num_vertices (el_build W n es)) (el_build W n es) false = Ok g /\
    csr_iterate g = Ok rows /\ length rows = csr_size g /\
    forall u, u < csr_size g -> csr_row g u = Ok (nth u rows []).
Proof. intros. now apply adjacency_iterate_ok. Qed.

(** A consequence inside the library: triangularize on such a graph walks one row too far. *)
Theorem C04_triangularize_out_of_bounds : forall A W srt srt1 (directed : bool) s n (es : list (edge A)) comp,
  is_sort_by fst srt -> n < W -> ids_ok W es -> 2 * length es < W ->
  exists g, adjacency_of W srt srt1 directed s (el_build W n es) false = Ok g /\ triangularize comp g = Ub.
Proof. intros. now apply adjacency_triangularize_oob. Qed.

Example C04_ex :
  let el := el_build 1000 0 [((0,1),5)] in
  (exists g, adjacency_of 1000 ex_sortz ex_sort1 true S0 el false = Ok g /\ csr_size g = 2 /\ csr_iterate g = Ub) /\
  (exists g, adjacency_ofN 1000 ex_sortz ex_sort1 true S0 2 el false = Ok g /\ csr_iterate g = Ok [[(1,5)]; []]).
Proof. split; eexists; (split; [vm_compute; reflexivity|]); vm_compute; auto. Qed.

(** ---------------------------------------------------------------------------------- C05 *)
Theorem C05_push_back_rows : forall A W N (es : list (edge A)),
  length es < W -> sorted_by esrc es -> (forall e, In e es -> esrc e < N) ->
  exists g, csr_push_back_fill W es (csr_new N) = Ok g /\ csr_size g = N /\ csr_N g = N /\
    forall u, u < N -> csr_row g u = Ok (spec_row S0 es u).
Proof.
  intros A W N es HW HS HB. destruct (push_back_fill_ok N HW HS) as (g & E & S & N' & R).
  assert (M : src_max es <= N).
  { unfold src_max. apply list_max_le. apply Forall_forall. intros x Hx.
    apply in_map_iff in Hx as (e & <- & He). specialize (HB e He). lia. }
  exists g. rewrite S in *. replace (Nat.max N (src_max es)) with N in * by lia. auto.
Qed.

(** When the largest source reaches the constructed size, the container grows to exactly that many
    rows, so the edges of that last source belong to no row. *)
Theorem C05_last_source_dropped : forall A W N (es : list (edge A)) e,
  length es < W -> sorted_by esrc es -> In e es -> N <= esrc e -> (forall e', In e' es -> esrc e' <= esrc e) ->
  exists g, csr_push_back_fill W es (csr_new N) = Ok g /\ csr_size g = esrc e /\
    (forall u, u < csr_size g -> csr_row g u = Ok (spec_row S0 es u)) /\ csr_row g (esrc e) = Ub.
Proof.
  intros A W N es e HW HS Hin HN Hmax. destruct (push_back_fill_ok N HW HS) as (g & E & S & N' & R).
  assert (M : src_max es = esrc e).
  { unfold src_max. apply Nat.le_antisymm.
    - apply list_max_le. apply Forall_forall. intros x Hx. apply in_map_iff in Hx as (e' & <- & He). auto.
    - assert (F : Forall (fun k => k <= list_max (map esrc es)) (map esrc es)) by (now apply list_max_le).
      rewrite Forall_forall in F. apply F. now apply in_map. }
  exists g. rewrite M in *. replace (Nat.max N (esrc e)) with (esrc e) in * by lia. repeat split; auto.
  unfold csr_row, vget. unfold csr_size in S. destruct (nth_error (csr_ind g) (esrc e)); cbn [bind]; auto.
  rewrite (proj2 (nth_error_None (csr_ind g) (esrc e + 1))) by lia. reflexivity.
Qed.

Example C05_ex :
  let es := [((0,7),10); ((0,3),20); ((2,2),30)] in
  (exists g, csr_push_back_fill 1000 es (csr_new 4) = Ok g /\ csr_row g 0 = Ok [(7,10); (3,20)] /\
     csr_row g 1 = Ok [] /\ csr_row g 2 = Ok [(2,30)] /\ csr_row g 3 = Ok []) /\
  (exists g, csr_push_back_fill 1000 es (csr_new 1) = Ok g /\ csr_size g = 2 /\ csr_row g 0 = Ok [(7,10); (3,20)] /\
     csr_row g 2 = Ub).
Proof. split; eexists; (split; [vm_compute; reflexivity|]); vm_compute; auto. Qed.

(** ---------------------------------------------------------------------------------- C06 *)
Theorem C06_source_unique_row : forall A (g : csr A) e,
  StronglySorted le (csr_ind g) -> nth_error (csr_ind g) 0 = Some 0 ->
  nth_error (csr_ind g) (csr_size g) = Some (csr_num_edges g) -> e < csr_num_edges g ->
  (exists a b, vget (csr_ind g) (csr_source g e) = Ok a /\ vget (csr_ind g) (csr_source g e + 1) = Ok b /\ a <= e < b) /\
  (forall u a b, vget (csr_ind g) u = Ok a -> vget (csr_ind g) (u + 1) = Ok b -> a <= e < b -> u = csr_source g e).
Proof. intros. now apply source_ok. Qed.

Example C06_ex : let g := csr_of_vectors [0;0;2;2;3] [1;3;0] [tt;tt;tt] in
  map (csr_source g) [0;1;2] = [1;1;3] /\ csr_num_edges g = 3 /\ csr_size g = 4.
Proof. vm_compute. auto. Qed.

(** ---------------------------------------------------------------------------------- C07 *)
(** [sort_adjacency = true] on any edge list, directed or not: every row holds the same targets,
    sorted, while the attribute sequence of the row has not moved. *)
Theorem C07_sorted_rows_attributes_stay : forall A W srt srt1 (directed : bool) s n (es : list (edge A)),
  is_sort_by fst srt -> is_sort_by (fun x => x) srt1 -> n < W -> ids_ok W es -> 2 * length es < W ->
  let el := el_build W n es in
  exists g g', adjacency_of W srt srt1 directed s el false = Ok g /\
    adjacency_of W srt srt1 directed s el true = Ok g' /\
    csr_size g' = csr_size g /\ csr_size g = el_num_vertices el /\
    forall u, u < csr_size g -> exists r r', csr_row g u = Ok r /\ csr_row g' u = Ok r' /\
      Permutation (map fst r) (map fst r') /\ StronglySorted le (map fst r') /\ map snd r' = map snd r.
Proof.
  intros A W srt srt1 directed s n es Hs Hs1 Hn He HW el. unfold adjacency_of.
  destruct (fill_repr srt1 directed s (el_num_vertices el + 1) Hs Hn He HW) as (g & rows & E & R & N & L).
  destruct (sorted_adjacency_rows Hs1 R) as (g' & E' & SZ & P).
  exists g, g'. split; [exact E|]. split.
  - unfold fill in E |- *. apply bind_Ok in E as (g0 & E0 & E1). fold el in E0. rewrite E0. cbn [bind].
    inversion E1; subst. exact E'.
  - split; auto. split; auto. rewrite (repr_size R). exact L.
Qed.

(** Hence attributes get detached from their edges: the edges 0->2 (attribute 7) and 0->1
    (attribute 9) come back as 0->1 with attribute 7 and 0->2 with attribute 9. *)
Theorem C07_attribute_pairing_refuted : exists (es : list (edge nat)) g,
  adjacency_of 1000 ex_sortz ex_sort1 true S0 (el_build 1000 0 es) true = Ok g /\
  es = [((0,2),7); ((0,1),9)] /\ csr_row g 0 = Ok [(1,7); (2,9)].
Proof. eexists. eexists. split; [|split; [reflexivity|]]; vm_compute; reflexivity. Qed.

(** ---------------------------------------------------------------------------------- C08 *)
Theorem C08_triangularize_exact : forall A W srt srt1 (directed : bool) s n (es : list (edge A)),
  is_sort_by fst srt -> n < W -> ids_ok W es -> 2 * length es < W ->
  let el := el_build W n es in
  exists g lo up, adjacency_ofN W srt srt1 directed s (el_num_vertices el) el false = Ok g /\
    triangularize tri_predecessor g = Ok lo /\ triangularize tri_successor g = Ok up /\
    csr_size lo = csr_size g /\ csr_size up = csr_size g /\ csr_size g = el_num_vertices el /\
    forall u, u < csr_size g -> exists r rl ru, csr_row g u = Ok r /\ csr_row lo u = Ok rl /\ csr_row up u = Ok ru /\
      rl = filter (fun e => fst e <? u) r /\ ru = filter (fun e => u <? fst e) r.
Proof.
  intros A W srt srt1 directed s n es Hs Hn He HW el. unfold adjacency_ofN.
  destruct (fill_repr srt1 directed s (el_num_vertices el) Hs Hn He HW) as (g & rows & E & R & N & L).
  assert (NL : csr_N g = length rows) by (unfold el in *; congruence).
  destruct (triangularize_ok tri_predecessor R NL) as (lo & E1 & N1 & R1).
  destruct (triangularize_ok tri_successor R NL) as (up & E2 & N2 & R2).
  exists g, lo, up. rewrite (repr_size R), (repr_size R1), (repr_size R2), !map_length, seq_length.
  repeat (split; [auto; fail|]).
  intros u Hu. exists (nth u rows []). do 2 eexists. split; [now apply repr_row|].
  split. { eapply repr_row; [exact R1|]. now rewrite map_length, seq_length. }
  split. { eapply repr_row; [exact R2|]. now rewrite map_length, seq_length. }
  rewrite !nth_map_seq by auto. split; reflexivity.
Qed.

Example C08_ex :
  let el := el_build 1000 0 [((2,0),10); ((0,1),20); ((1,1),30); ((1,2),40)] in
  exists g lo up, adjacency_ofN 1000 ex_sortz ex_sort1 false S0 3 el false = Ok g /\
    triangularize tri_predecessor g = Ok lo /\ triangularize tri_successor g = Ok up /\
    csr_iterate lo = Ok [[]; [(0,20)]; [(0,10); (1,40)]] /\ csr_iterate up = Ok [[(1,20); (2,10)]; [(2,40)]; []].
Proof. do 3 eexists. split; [vm_compute; reflexivity|]. repeat (split; [vm_compute; reflexivity|]). vm_compute. reflexivity. Qed.

(** ---------------------------------------------------------------------------------- C09 *)
(** Positive part: for a graph built from an edge list and a sort whose result is its own inverse. *)
Theorem C09_permute_by_degree_involution : forall A (d : A) W (srt : list nat -> list nat -> list nat) (g : csr A) rows,
  csr_repr g rows -> length (concat rows) < W ->
  let perm := srt (map (@length _) rows) (seq 0 (length rows)) in
  Permutation perm (seq 0 (length rows)) ->
  (forall i, i < length rows -> nth (nth i perm 0) perm 0 = i) ->
  exists g', permute_by_degree d W srt g = Ok (g', perm) /\ csr_size g' = csr_size g /\
    forall i, i < csr_size g -> csr_row g' i = Ok (nth (nth i perm 0) rows []).
Proof.
  intros A d W srt g rows R HW perm HP HI.
  destruct (permute_by_degree_ok d srt R HW HP HI) as (g' & E & N & R').
  exists g'. rewrite (repr_size R), (repr_size R'), map_length, seq_length. repeat split; auto.
  intros i Hi. erewrite repr_row; [|exact R'|now rewrite map_length, seq_length].
  now rewrite nth_map_seq.
Qed.

(** sort_by_degree on top of it: row i holds, sorted, the renamed targets of the vertex ranked i. *)
Theorem C09_sort_by_degree_involution : forall A (d : A) W srt srt1 (g : csr A) rows,
  is_sort_by (fun x => x) srt1 ->
  csr_repr g rows -> length (concat rows) < W ->
  (forall e, In e (concat rows) -> fst e < length rows) ->
  let perm := srt (map (@length _) rows) (seq 0 (length rows)) in
  Permutation perm (seq 0 (length rows)) ->
  (forall i, i < length rows -> nth (nth i perm 0) perm 0 = i) ->
  exists g', sort_by_degree d W srt srt1 g = Ok g' /\ csr_size g' = csr_size g /\
    forall i, i < csr_size g -> exists r, csr_row g' i = Ok r /\
      StronglySorted le (map fst r) /\
      Permutation (map fst r) (map (fun e => nth (fst e) perm 0) (nth (nth i perm 0) rows [])).
Proof. intros. now apply sort_by_degree_ok. Qed.

(** Legal sorts for the two directions. *)
Definition asc_sort (degs ids : list nat) : list nat := isort_by (fun i => nth i degs 0) ids.
Definition desc_sort (degs ids : list nat) : list nat := isort_by (fun i => 1000 - nth i degs 0) ids.
(** Rows with (target, attribute) where the attribute names the row it was pushed to. *)
Definition ex_rows_g (degs : list nat) : csr nat :=
  let rows := map (fun i => repeat (0, i) (nth i degs 0)) (seq 0 (length degs)) in
  mkCsr (length degs) (map (psum rows) (seq 0 (length degs + 1))) (map fst (concat rows)) (map snd (concat rows)).

Example C09_ex_involution :
  exists g', permute_by_degree 0 1000 asc_sort (ex_rows_g [3;2;1]) = Ok (g', [2;1;0]) /\
    csr_iterate g' = Ok [[(0,2)]; [(0,1);(0,1)]; [(0,0);(0,0);(0,0)]].
Proof. eexists. split; vm_compute; reflexivity. Qed.

(** Without the involution hypothesis: degrees 2,3,1 ascending stay inside the arrays but rows receive
    other vertices' data (row 0 must hold the single edge of vertex 2; it holds an edge of vertex 1),
    and degrees 1,3,2 descending write outside the array. *)
Theorem C09_permute_by_degree_refuted :
  (exists g' perm, permute_by_degree 0 1000 asc_sort (ex_rows_g [2;3;1]) = Ok (g', perm) /\
     csr_iterate (ex_rows_g [2;3;1]) = Ok [[(0,0);(0,0)]; [(0,1);(0,1);(0,1)]; [(0,2)]] /\
     csr_iterate g' = Ok [[(0,1)]; [(0,2);(0,1)]; [(0,0);(0,0);(0,0)]]) /\
  permute_by_degree 0 1000 desc_sort (ex_rows_g [1;3;2]) = Ub.
Proof. split; [do 2 eexists; split; [vm_compute; reflexivity|]; split|]; vm_compute; reflexivity. Qed.

(** ---------------------------------------------------------------------------------- C10 *)
Theorem C10_degrees_directed : forall A W n s (es : list (edge A)),
  n < W -> ids_ok W es -> length es < W ->
  exists d, degrees_directed W s (el_build W n es) = Ok d /\
    length d = el_num_vertices (el_build W n es) /\
    (forall v, v < length d -> nth v d 0 = edge_count s es v) /\ sum d = length es.
Proof. intros. now apply degrees_directed_ok. Qed.

Theorem C10_degrees_undirected : forall A W n (es : list (edge A)),
  n < W -> ids_ok W es -> 2 * length es < W ->
  exists d, degrees_undirected W (el_build W n es) = Ok d /\
    length d = el_num_vertices (el_build W n es) /\
    (forall v, v < length d -> nth v d 0 = edge_count S0 es v + edge_count S1 es v) /\
    sum d = 2 * length es.
Proof. intros. now apply degrees_undirected_ok. Qed.

(** Every order in which the atomic increments take effect gives the same vector. *)
Theorem C10_degrees_every_schedule : forall A W n (es : list (edge A)),
  n < W -> ids_ok W es -> 2 * length es < W ->
  (forall s sched, Permutation (map (ekey s) es) sched ->
    rfold (incr W) sched (repeat 0 (el_num_vertices (el_build W n es))) = degrees_directed W s (el_build W n es)) /\
  (forall sched, Permutation (map (ekey S0) es ++ map (ekey S1) es) sched ->
    rfold (incr W) sched (repeat 0 (el_num_vertices (el_build W n es))) = degrees_undirected W (el_build W n es)).
Proof.
  intros A W n es Hn He HW. split; intros.
  - apply degrees_any_schedule; auto. lia.
  - apply degrees_undirected_any_schedule; auto.
Qed.

(** The degrees read off the CSR agree with those of the edge list. *)
Theorem C10_csr_degrees_agree : forall A W srt srt1 (directed : bool) s n (es : list (edge A)),
  is_sort_by fst srt -> n < W -> ids_ok W es -> 2 * length es < W ->
  exists g d, adjacency_of W srt srt1 directed s (el_build W n es) false = Ok g /\ csr_degrees g = Ok d /\
    (if directed then degrees_directed W s (el_build W n es) else degrees_undirected W (el_build W n es)) = Ok d.
Proof. intros. now apply csr_degrees_agree. Qed.

Example C10_ex :
  let es := [((2,0),10); ((0,1),20); ((2,1),30); ((1,1),40)] in
  degrees_directed 1000 S0 (el_build 1000 5 es) = Ok [1;1;2;0;0] /\
  degrees_directed 1000 S1 (el_build 1000 5 es) = Ok [1;3;0;0;0] /\
  degrees_undirected 1000 (el_build 1000 5 es) = Ok [2;4;2;0;0].
Proof. vm_compute. auto. Qed.

(** ---------------------------------------------------------------------------------- C18 *)
(** Equality of edge lists of equal length is exact. *)
Theorem C18_equal_length_exact : forall A (eqb : edge A -> edge A -> bool) W n n' (es es' : list (edge A)),
  (forall x y, eqb x y = true <-> x = y) -> length es = length es' ->
  exists r, el_eq eqb (el_build W n es) (el_build W n' es') = Ok r /\
    (r = true <-> es = es' /\ el_num_vertices (el_build W n es) = el_num_vertices (el_build W n' es')).
Proof.
  intros A eqb W n n' es es' H L. unfold el_eq. rewrite !build_view. unfold el_num_vertices.
  destruct (Nat.eqb_spec (el_card (el_build W n es)) (el_card (el_build W n' es'))) as [Q|Q].
  - destruct (@std_equal3_same_length _ eqb H es es' L) as (r & E & Hr). exists r. split; auto. tauto.
  - exists false. split; auto. split; [discriminate|tauto].
Qed.

(** Different lengths: a proper prefix compares equal, and the reverse comparison reads past the end. *)
Theorem C18_prefix_compares_equal : forall A (eqb : edge A -> edge A -> bool) W n (es es' : list (edge A)) e,
  (forall x y, eqb x y = true <-> x = y) ->
  el_num_vertices (el_build W n es) = el_num_vertices (el_build W n (es ++ e :: es')) ->
  el_eq eqb (el_build W n es) (el_build W n (es ++ e :: es')) = Ok true /\
  el_eq eqb (el_build W n (es ++ e :: es')) (el_build W n es) = Ub.
Proof.
  intros A eqb W n es es' e H Q. unfold el_eq, el_num_vertices in *. rewrite Q, Nat.eqb_refl, !build_view.
  split; [now apply std_equal3_prefix|now apply std_equal3_proper].
Qed.

(** The same comparison on containers without a cardinality (soa/aos operator==). *)
Theorem C18_container_comparison : forall A (eqb : A -> A -> bool) (a b : list A) x,
  (forall x y, eqb x y = true <-> x = y) ->
  std_equal3 eqb a (a ++ b) = Ok true /\ std_equal3 eqb (a ++ x :: b) a = Ub /\
  (forall c, length a = length c -> exists r, std_equal3 eqb a c = Ok r /\ (r = true <-> a = c)).
Proof.
  intros A eqb a b x H. split; [now apply std_equal3_prefix|]. split; [now apply std_equal3_proper|].
  intros c Hc. now apply std_equal3_same_length.
Qed.

Definition ex_eqb (x y : edge nat) : bool := (esrc x =? esrc y) && (etgt x =? etgt y) && (eatt x =? eatt y).
Example C18_ex :
  el_eq ex_eqb (el_build 100 5 [((0,1),2)]) (el_build 100 5 [((0,1),2); ((3,4),7)]) = Ok true /\
  el_eq ex_eqb (el_build 100 5 [((0,1),2); ((3,4),7)]) (el_build 100 5 [((0,1),2)]) = Ub /\
  el_eq ex_eqb (el_build 100 5 [((0,1),2)]) (el_build 100 5 [((0,1),3)]) = Ok false.
Proof. vm_compute. auto. Qed.

Print Assumptions C01_edge_list_exact.
Print Assumptions C01_bipartite_edge_list_exact.
Print Assumptions C01_largest_id_wraps_refuted.
Print Assumptions C02_directed_csr_exact.
Print Assumptions C03_undirected_csr_exact.
Print Assumptions C03_undirected_csr_symmetric.
Print Assumptions C04_full_iteration_out_of_bounds.
Print Assumptions C04_explicit_size_iteration_ok.
Print Assumptions C04_triangularize_out_of_bounds.
Print Assumptions C05_push_back_rows.
Print Assumptions C05_last_source_dropped.
Print Assumptions C06_source_unique_row.
Print Assumptions C07_sorted_rows_attributes_stay.
Print Assumptions C07_attribute_pairing_refuted.
Print Assumptions C08_triangularize_exact.
Print Assumptions C09_permute_by_degree_involution.
Print Assumptions C09_sort_by_degree_involution.
Print Assumptions C09_permute_by_degree_refuted.
Print Assumptions C10_degrees_directed.
Print Assumptions C10_degrees_undirected.
Print Assumptions C10_degrees_every_schedule.
Print Assumptions C10_csr_degrees_agree.
Print Assumptions C18_equal_length_exact.
Print Assumptions C18_prefix_compares_equal.
Print Assumptions C18_container_comparison.
