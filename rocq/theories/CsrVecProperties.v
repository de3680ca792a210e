(** C04, an adjacency constructed from its index vector and columns (compressed.hpp:81-89). *)
From Coq Require Import List Arith Lia Sorting.Sorted.
From Verif Require Import EdgeListModel EdgeListProofs CsrModel Base.
Import ListNotations.

(** Constructed from its vectors, an adjacency has exactly the rows the index vector describes: iteration covers them all and stays in bounds. *)
Theorem C04_from_vectors : forall A ind tgt (att : list A),
  ind <> [] -> StronglySorted le ind -> (forall k, In k ind -> k <= length tgt) -> length att = length tgt ->
  exists rows, csr_iterate (csr_of_vectors ind tgt att) = Ok rows /\ length rows = length ind - 1 /\ csr_size (csr_of_vectors ind tgt att) = length ind - 1 /\
    forall i a b, nth_error ind i = Some a -> nth_error ind (i + 1) = Some b -> nth_error rows i = Some (firstn (b - a) (skipn a (combine tgt att))).
Proof.
  intros A ind tgt att NE SS B L.
  assert (SO : forall i a b, nth_error ind i = Some a -> nth_error ind (i + 1) = Some b -> a <= b).
  { clear - SS. induction SS as [|x l SS IH F]; intros i a b Ha Hb; [destruct i; discriminate|]. destruct i as [|i].
    - cbn in Ha, Hb. injection Ha as <-. rewrite Forall_forall in F. apply F. apply (nth_error_In l 0). exact Hb.
    - apply (IH i); auto. }
  assert (CF : forall (X Y : Type) k (l : list X) (m : list Y), combine (firstn k l) (firstn k m) = firstn k (combine l m)) by (intros; apply eq_sym, combine_firstn).
  assert (CS : forall (X Y : Type) k (l : list X) (m : list Y), length l = length m -> combine (skipn k l) (skipn k m) = skipn k (combine l m)).
  { clear. induction k; intros l m E; auto. destruct l, m; try discriminate; auto. cbn. apply IHk. now injection E. }
  assert (R : forall i a b, nth_error ind i = Some a -> nth_error ind (i + 1) = Some b ->
    csr_row (csr_of_vectors ind tgt att) i = Ok (firstn (b - a) (skipn a (combine tgt att)))).
  { intros i a b Ha Hb. unfold csr_row. cbn [csr_of_vectors csr_ind csr_tgt csr_att]. unfold vget. rewrite Ha, Hb. cbn [bind].
    assert (Bb : b <= length tgt) by (apply B; eapply nth_error_In; exact Hb). specialize (SO _ _ _ Ha Hb).
    rewrite !vslice_Ok by lia. cbn [bind]. now rewrite CF, CS by lia. }
  exists (map (fun i => firstn (nth (i + 1) ind 0 - nth i ind 0) (skipn (nth i ind 0) (combine tgt att))) (seq 0 (length ind - 1))).
  split; [|split; [now rewrite map_length, seq_length|split; [reflexivity|]]].
  - unfold csr_iterate. cbn [csr_of_vectors csr_N]. apply rmap_ok. intros i I. apply in_seq in I. apply R; apply nth_error_nth'; lia.
  - intros i a b Ha Hb. assert (i + 1 < length ind) by (apply nth_error_Some; congruence).
    rewrite nth_error_map, nth_error_nth' with (d := 0) by (rewrite seq_length; lia). rewrite seq_nth by lia. cbn [option_map Nat.add].
    now rewrite (nth_error_nth _ _ 0 Ha), (nth_error_nth _ _ 0 Hb).
Qed.
Example C04_ex_vectors : StronglySorted le [0;0;2;3] /\ csr_iterate (csr_of_vectors [0;0;2;3] [1;3;0] [5;6;7]) = Ok [[]; [(1,5);(3,6)]; [(0,7)]].
Proof. split; [repeat constructor|reflexivity]. Qed.

Print Assumptions C04_from_vectors.

(** C01, continued: a vertex count given to the constructor that does not fit the id type is kept until the first push_back and then cut
    to the id type, so a list made for n vertices can end with fewer. *)
Theorem C01_count_cut A W n (es : list (edge A)) : 0 < W -> (forall e, In e es -> esrc e + 1 < W /\ etgt e + 1 < W) ->
  let c := el_num_vertices (el_build W n es) in
  (es = [] -> c = n) /\
  (es <> [] -> c < W /\ n mod W <= c /\ (forall e, In e es -> esrc e < c /\ etgt e < c) /\ forall b, n mod W <= b -> (forall e, In e es -> esrc e < b /\ etgt e < b) -> c <= b).
Proof.
  intros HW H. cbv zeta. split; [intros ->; reflexivity|]. intros NE. destruct es as [|e es]; [congruence|].
  assert (L : n mod W < W) by (apply Nat.mod_upper_bound; lia).
  assert (E : el_num_vertices (el_build W n (e :: es)) = el_num_vertices (el_build W (n mod W) (e :: es))).
  { unfold el_build. cbn [fold_left]. unfold el_push_back at 2 4. cbn [el_new el_card el_open el_c0 el_c1 el_ca]. rewrite Nat.mod_mod by lia. reflexivity. }
  rewrite E. assert (P := @push_card A W (e :: es) (el_new (n mod W)) L H). cbv zeta in P. exact P.
Qed.
Theorem C01_bipartite_count_cut A W m n (es : list (edge A)) : 0 < W -> (forall e, In e es -> esrc e + 1 < W /\ etgt e + 1 < W) -> es <> [] ->
  let el := bel_build W m n es in
  m mod W <= bel_card0 el /\ n mod W <= bel_card1 el /\ (forall e, In e es -> esrc e < bel_card0 el /\ etgt e < bel_card1 el) /\
  (forall b, m mod W <= b -> (forall e, In e es -> esrc e < b) -> bel_card0 el <= b) /\ (forall b, n mod W <= b -> (forall e, In e es -> etgt e < b) -> bel_card1 el <= b).
Proof.
  intros HW H NE. cbv zeta. destruct es as [|e es]; [congruence|].
  assert (L : m mod W < W) by (apply Nat.mod_upper_bound; lia). assert (L' : n mod W < W) by (apply Nat.mod_upper_bound; lia).
  assert (E : bel_build W m n (e :: es) = bel_build W (m mod W) (n mod W) (e :: es)).
  { unfold bel_build. cbn [fold_left]. unfold bel_push_back at 2 4. cbn [bel_new bel_card0 bel_card1 bel_open bel_c0 bel_c1 bel_ca]. rewrite !Nat.mod_mod by lia. reflexivity. }
  rewrite E. destruct (@bi_build_all A W (m mod W) (n mod W) (e :: es) L L' H) as (_ & _ & P). exact P.
Qed.
Example C01_count_cut_ex : el_num_vertices (el_build 16 21 [(1, 2, tt)]) = 5 /\ el_num_vertices (el_build 16 21 ([] : list (edge unit))) = 21 /\
  bel_card0 (bel_build 16 35 3 [(1, 7, tt)]) = 3 /\ bel_card1 (bel_build 16 35 3 [(1, 7, tt)]) = 8.
Proof. repeat split. Qed.
Print Assumptions C01_count_cut.
Print Assumptions C01_bipartite_count_cut.

(** A list is open while edges are pushed and closed once it is built; of either kind. *)
Theorem C01_open_then_closed A W m n (es : list (edge A)) :
  (forall k, el_open (fold_left (fun el e => el_push_back W el (esrc e) (etgt e) (eatt e)) (firstn k es) (el_new n)) = true /\
             bel_open (fold_left (fun el e => bel_push_back W el (esrc e) (etgt e) (eatt e)) (firstn k es) (bel_new m n)) = true) /\
  el_open (el_build W n es) = false /\ bel_open (bel_build W m n es) = false.
Proof.
  split; [|split; reflexivity]. intros k. generalize (firstn k es) as l. intros l. split.
  - assert (G : forall l (el : edge_list A), el_open (fold_left (fun el e => el_push_back W el (esrc e) (etgt e) (eatt e)) l el) = el_open el) by (induction l0 as [|e r IH]; intros el; cbn [fold_left]; [reflexivity|now rewrite IH]).
    now rewrite G.
  - assert (G : forall l (el : bi_edge_list A), bel_open (fold_left (fun el e => bel_push_back W el (esrc e) (etgt e) (eatt e)) l el) = bel_open el) by (induction l0 as [|e r IH]; intros el; cbn [fold_left]; [reflexivity|now rewrite IH]).
    now rewrite G.
Qed.
Example C01_open_then_closed_ex : el_open (el_push_back 16 (el_new 3) 1 2 tt) = true /\ bel_open (bel_build 16 2 3 [(1, 2, tt)]) = false.
Proof. split; reflexivity. Qed.
Print Assumptions C01_open_then_closed.

(** A closed list can be opened again; pushing the rest then gives the list built in one go. *)
Theorem C01_reopened A W n (es es' : list (edge A)) :
  el_close_for_push_back (fold_left (fun el e => el_push_back W el (esrc e) (etgt e) (eatt e)) es' (el_open_for_push_back (el_build W n es))) = el_build W n (es ++ es') /\
  el_open (el_open_for_push_back (el_build W n es)) = true.
Proof.
  split; [|reflexivity]. unfold el_build. rewrite fold_left_app. do 2 f_equal.
  assert (G : forall l (el : edge_list A), el_open (fold_left (fun el e => el_push_back W el (esrc e) (etgt e) (eatt e)) l el) = el_open el) by (induction l as [|e r IH]; intros el; cbn [fold_left]; [reflexivity|now rewrite IH]).
  assert (O := G es (el_new n)). destruct (fold_left _ es (el_new n)) as [c o c0 c1 ca]. cbn in O. subst o. reflexivity.
Qed.
Example C01_reopened_ex : el_close_for_push_back (el_push_back 16 (el_open_for_push_back (el_build 16 0 [(1, 2, tt)])) 5 3 tt) = el_build 16 0 [(1, 2, tt); (5, 3, tt)].
Proof. reflexivity. Qed.
Print Assumptions C01_reopened.
