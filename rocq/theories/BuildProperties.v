(** Properties C11-C16: edge-list transformations and graph builders of build.hpp. *)
From Coq Require Import List Arith Lia Permutation Sorting.Sorted Bool.
From Verif Require Import Base EdgeListModel CsrModel BuildModel EdgeListProofs CsrProofs CsrProofs2 CsrProofs3 CsrProofs4
  BuildProofs BuildProofs2.
Import ListNotations.
Set Implicit Arguments.

(** ---------------------------------------------------------------------------------- C11 *)
Theorem C11_perm_by_degree_sorted : forall srt d dir,
  is_sort_lt (deg_lt d) (srt (deg_lt d)) -> is_sort_lt (deg_gt d) (srt (deg_gt d)) ->
  let p := perm_by_degree srt d dir in
  Permutation p (seq 0 (length d)) /\
  (dir = ascending -> forall i j, i < j -> j < length d -> nth (nth i p 0) d 0 <= nth (nth j p 0) d 0) /\
  (dir = descending -> forall i j, i < j -> j < length d -> nth (nth j p 0) d 0 <= nth (nth i p 0) d 0) /\
  (dir = unknown_direction -> p = seq 0 (length d)).
Proof. exact perm_by_degree_sorted. Qed.

(** Executable sort for the examples: insertion by an arbitrary comparison. *)
Fixpoint ins_cmp {A} (cmp : A -> A -> bool) (x : A) (l : list A) : list A :=
  match l with [] => [x] | y :: t => if cmp y x then y :: ins_cmp cmp x t else x :: l end.
Definition sort_cmp {A} (cmp : A -> A -> bool) (l : list A) : list A := fold_right (ins_cmp cmp) [] l.

(** It is a legal sort for every strict weak order. *)
Lemma ins_cmp_perm A (cmp : A -> A -> bool) x l : Permutation (x :: l) (ins_cmp cmp x l).
Proof. induction l as [|y l IH]; simpl; auto. destruct (cmp y x); auto. eapply perm_trans; [apply perm_swap|]. auto. Qed.
Lemma sort_cmp_is_sort A (cmp : A -> A -> bool) :
  (forall x y, cmp x y = true -> cmp y x = false) ->
  (forall x y z, cmp y x = false -> cmp z y = false -> cmp z x = false) ->
  is_sort_lt cmp (sort_cmp cmp).
Proof.
  intros HA HT l. induction l as [|x l [P S]]; simpl.
  - split; constructor.
  - split. { eapply perm_trans; [constructor; exact P|]. apply ins_cmp_perm. }
    fold (sort_cmp cmp l). clear P. induction S as [|y m S IH F]; simpl.
    + repeat constructor.
    + destruct (cmp y x) eqn:E.
      * constructor; auto. rewrite Forall_forall in *. intros z Hz.
        apply (Permutation_in _ (Permutation_sym (ins_cmp_perm cmp x m))) in Hz as [<-|Hz]; auto.
      * constructor; [now constructor|]. constructor; auto. rewrite Forall_forall in *. intros z Hz. eauto.
Qed.
Lemma deg_sorts_legal : (forall d, is_sort_lt (deg_lt d) (sort_cmp (deg_lt d))) /\
                        (forall d, is_sort_lt (deg_gt d) (sort_cmp (deg_gt d))).
Proof.
  split; intros d; apply sort_cmp_is_sort; unfold deg_lt, deg_gt; intros; rewrite ?Nat.ltb_lt, ?Nat.ltb_ge in *; lia.
Qed.

Example C11_ex : perm_by_degree (@sort_cmp nat) [4;1;3;1] ascending = [1;3;2;0] /\
                 perm_by_degree (@sort_cmp nat) [4;1;3;1] descending = [0;2;1;3].
Proof. vm_compute. auto. Qed.

(** ---------------------------------------------------------------------------------- C12 *)
Theorem C12_relabel_isomorphic : forall A W n (es : list (edge A)) perm,
  n < W -> ids_ok W es ->
  let el := el_build W n es in
  Permutation perm (seq 0 (el_num_vertices el)) ->
  exists el' iperm, relabel el perm = Ok (el', iperm) /\
    el_num_vertices el' = el_num_vertices el /\
    Permutation iperm (seq 0 (el_num_vertices el)) /\
    (forall v, v < el_num_vertices el -> nth_error perm (nth v iperm 0) = Some v) /\
    el_view el' = map (fun e => ((nth (esrc e) iperm 0, nth (etgt e) iperm 0), eatt e)) es.
Proof.
  intros A W n es perm Hn He el HP. destruct (build_card es Hn He) as (_ & B & _).
  destruct (@relabel_ok A (el_num_vertices el) el perm HP) as (el' & ip & E & C & P & N & V).
  { unfold el at 1. rewrite build_view. exact B. }
  exists el', ip. unfold el in V at 1. rewrite build_view in V. auto.
Qed.

Theorem C12_relabel_bipartite_one_side : forall A W m n s (es : list (edge A)) perm,
  m < W -> n < W -> ids_ok W es ->
  let el := bel_build W m n es in
  let c := match s with S0 => bel_card0 el | S1 => bel_card1 el end in
  Permutation perm (seq 0 c) ->
  exists el' iperm, relabel_side s el perm = Ok (el', iperm) /\
    bel_card0 el' = bel_card0 el /\ bel_card1 el' = bel_card1 el /\
    Permutation iperm (seq 0 c) /\ (forall v, v < c -> nth_error perm (nth v iperm 0) = Some v) /\
    bel_view el' = map (fun e => (match s with S0 => (nth (esrc e) iperm 0, etgt e)
                                            | S1 => (esrc e, nth (etgt e) iperm 0) end, eatt e)) es.
Proof.
  intros A W m n s es perm Hm Hn He el c HP.
  destruct (bi_build_all es Hm Hn He) as (V & _ & _ & _ & B & _). fold el in V, B.
  destruct (@relabel_side_ok A c s el perm HP) as (el' & ip & E & C0 & C1 & P & N & V').
  { rewrite V. intros e Hin. destruct (B e Hin). unfold c. destruct s; auto. }
  exists el', ip. rewrite V in V'. repeat split; auto.
Qed.

(** After relabel_by_degree the degree of vertex i grows (falls) with i. *)
Theorem C12_relabel_by_degree_sorted : forall A W srt directed s dir n (es : list (edge A)),
  (forall d, is_sort_lt (deg_lt d) (srt (deg_lt d))) -> (forall d, is_sort_lt (deg_gt d) (srt (deg_gt d))) ->
  n < W -> ids_ok W es -> 2 * length es < W ->
  let el := el_build W n es in
  exists el' iperm, relabel_by_degree W srt directed s dir el = Ok (el', iperm) /\
    el_card el' = el_card el /\ Permutation iperm (seq 0 (el_card el)) /\
    el_view el' = map (fun e => ((nth (esrc e) iperm 0, nth (etgt e) iperm 0), eatt e)) es /\
    (dir = ascending -> forall i j, i < j -> j < el_card el ->
        edge_degree directed s (el_view el') i <= edge_degree directed s (el_view el') j) /\
    (dir = descending -> forall i j, i < j -> j < el_card el ->
        edge_degree directed s (el_view el') j <= edge_degree directed s (el_view el') i).
Proof. exact relabel_by_degree_ok. Qed.

Example C12_ex :
  let el := el_build 1000 0 [((0,1),10); ((0,2),20); ((2,0),30); ((0,3),40)] in
  exists el', relabel_by_degree 1000 (@sort_cmp nat) false S0 ascending el = Ok (el', [3;0;2;1]) /\
    el_view el' = [((3,0),10); ((3,2),20); ((2,3),30); ((3,1),40)].
Proof. eexists. split; vm_compute; reflexivity. Qed.
Example C12_ex_bip :
  let el := bel_build 1000 3 0 [((0,7),10); ((2,1),20)] in
  exists el', relabel_side S0 el [1;2;0] = Ok (el', [2;0;1]) /\ bel_view el' = [((2,7),10); ((1,1),20)].
Proof. eexists. split; vm_compute; reflexivity. Qed.

(** ---------------------------------------------------------------------------------- C13 *)
Theorem C13_swap_to_triangular : forall A s c (el : edge_list A),
  let el' := swap_to_triangular s c el in
  el_card el' = el_card el /\
  Forall2 (fun e f => (f = e \/ f = ((etgt e, esrc e), eatt e)) /\
     match s, c with
     | S0, predecessor | S1, successor => etgt f <= esrc f
     | _, _ => esrc f <= etgt f
     end) (el_view el) (el_view el').
Proof.
  intros A s c el el'. destruct (swap_ok s c el) as [H1 H2]. split; auto.
  fold el' in H2. induction H2 as [|e f l l' [O D] H2 IH]; constructor; auto. split; auto. destruct s, c; auto.
Qed.

Theorem C13_uniq_strictly_sorted : forall A srt (el : edge_list A), is_lex_sort srt ->
  let el' := uniq (el_sort srt el) in
  el_card el' = el_card el /\
  StronglySorted lex_lt (el_view el') /\
  (forall e, In e (el_view el') -> In e (el_view el)) /\
  (forall e, In e (el_view el) -> exists f, In f (el_view el') /\ esrc f = esrc e /\ etgt f = etgt e).
Proof. intros A srt el H. exact (uniq_ok el H). Qed.

Theorem C13_remove_self_loops_exact : forall A (el : edge_list A),
  let el' := remove_self_loops el in
  el_card el' = el_card el /\
  (forall e, In e (el_view el') <-> In e (el_view el) /\ esrc e <> etgt e) /\
  (forall R, StronglySorted R (el_view el) -> StronglySorted R (el_view el')) /\
  length (el_view el') + length (filter (fun e => esrc e =? etgt e) (el_view el)) = length (el_view el).
Proof. exact loops_ok. Qed.

(** Which edge of a run of equal neighbours survives: the first one. Of any list, sorted or not, exactly the edges remain
    that do not have the same ends as the edge before them. *)
Definition starts_run {A} (d : edge A) (l : list (edge A)) (i : nat) : bool :=
  match i with
  | 0 => true
  | S j => negb ((esrc (nth j l d) =? esrc (nth i l d)) && (etgt (nth j l d) =? etgt (nth i l d)))
  end.
Fixpoint run_heads {A} (prev : edge A) (l : list (edge A)) : list (edge A) :=
  match l with [] => [] | y :: t => if same_ends prev y then run_heads y t else y :: run_heads y t end.
Lemma same_ends_spec A (x y : edge A) : same_ends x y = true <-> esrc x = esrc y /\ etgt x = etgt y.
Proof. unfold same_ends. now rewrite andb_true_iff, !Nat.eqb_eq. Qed.
Lemma run_heads_same A (x y : edge A) t : same_ends x y = true -> run_heads x t = run_heads y t.
Proof.
  intros E. apply same_ends_spec in E. destruct E as [E1 E2]. destruct t as [|z t]; auto. cbn [run_heads].
  assert (H : same_ends x z = same_ends y z) by (unfold same_ends; now rewrite E1, E2). now rewrite H.
Qed.
Lemma unique_from_heads A t : forall x : edge A, unique_from same_ends x t = x :: run_heads x t.
Proof.
  induction t as [|y t IH]; intros x; [reflexivity|]. cbn [unique_from run_heads]. destruct (same_ends x y) eqn:E; rewrite IH; [|reflexivity].
  now rewrite (run_heads_same _ _ _ E).
Qed.
Lemma run_heads_positions A (d : edge A) t : forall pre prev,
  run_heads prev t = map (fun i => nth i (pre ++ prev :: t) d) (filter (starts_run d (pre ++ prev :: t)) (seq (S (length pre)) (length t))).
Proof.
  induction t as [|y t IH]; intros pre prev; [reflexivity|]. cbn [run_heads length seq filter starts_run].
  assert (N0 : nth (length pre) (pre ++ prev :: y :: t) d = prev) by (rewrite app_nth2, Nat.sub_diag by lia; reflexivity).
  assert (N1 : nth (S (length pre)) (pre ++ prev :: y :: t) d = y) by (rewrite app_nth2 by lia; replace (S (length pre) - length pre) with 1 by lia; reflexivity).
  rewrite N0, N1. assert (IH' := IH (pre ++ [prev]) y). rewrite <- app_assoc, app_length in IH'. cbn [app length] in IH'. rewrite Nat.add_1_r in IH'.
  fold (same_ends prev y). destruct (same_ends prev y); cbn [negb].
  - exact IH'.
  - cbn [map]. now rewrite N1, IH'.
Qed.
Theorem C13_uniq_keeps_first : forall A (el : edge_list A) d,
  el_view (uniq el) = map (fun i => nth i (el_view el) d) (filter (starts_run d (el_view el)) (seq 0 (length (el_view el)))).
Proof.
  intros A el d. unfold uniq. rewrite set_view_view. destruct (el_view el) as [|x t]; [reflexivity|]. cbn [std_unique length seq filter starts_run map nth].
  rewrite unique_from_heads. f_equal. apply (run_heads_positions d t [] x).
Qed.

(** The pipeline: strictly increasing, one orientation, every non-loop pair once, attributes from an
    edge of that pair. *)
Theorem C13_cleaning_pipeline : forall A srt s c (el : edge_list A), is_lex_sort srt ->
  let el' := remove_self_loops (uniq (el_sort srt (swap_to_triangular s c el))) in
  el_card el' = el_card el /\
  StronglySorted lex_lt (el_view el') /\
  (forall f, In f (el_view el') -> (if points_down s c then etgt f < esrc f else esrc f < etgt f) /\
     exists e, In e (el_view el) /\ joins e (esrc f) (etgt f) /\ eatt e = eatt f) /\
  (forall e, In e (el_view el) -> esrc e <> etgt e -> exists f, In f (el_view el') /\ joins f (esrc e) (etgt e)).
Proof. intros A srt s c el H. exact (clean_ok s c el H). Qed.

(** uniq without the sort does not do that: equal edges that are not adjacent survive. *)
Theorem C13_uniq_needs_sort_refuted : exists el : edge_list nat,
  el_view (uniq el) = [((1,0),1); ((2,0),2); ((1,0),3)].
Proof. exists (el_build 100 0 [((1,0),1); ((2,0),2); ((1,0),3)]). vm_compute. reflexivity. Qed.

Definition lexb (x y : edge nat) : bool := (esrc x <? esrc y) || ((esrc x =? esrc y) && (etgt x <? etgt y)).
Lemma lex_sort_legal : is_lex_sort (sort_cmp lexb).
Proof.
  intros l. destruct (@sort_cmp_is_sort (edge nat) lexb) with (l := l) as [P S].
  - unfold lexb. intros x y. rewrite !orb_true_iff, !orb_false_iff, !andb_true_iff, !andb_false_iff, !Nat.ltb_lt, !Nat.ltb_ge, !Nat.eqb_eq, !Nat.eqb_neq. lia.
  - unfold lexb. intros x y z. rewrite !orb_false_iff, !andb_false_iff, !Nat.ltb_ge, !Nat.eqb_neq. lia.
  - split; auto. clear P. induction S; constructor; auto. eapply Forall_impl; [|exact H]. intros b.
    unfold lexb, lex_le. rewrite !orb_false_iff, !andb_false_iff, !Nat.ltb_ge, !Nat.eqb_neq. lia.
Qed.
Example C13_ex :
  let el := el_build 1000 0 [((0,2),1); ((3,1),2); ((2,2),3); ((2,0),4); ((1,3),5); ((0,1),6)] in
  el_view (remove_self_loops (uniq (el_sort (sort_cmp lexb) (swap_to_triangular S0 predecessor el)))) =
    [((1,0),6); ((2,0),1); ((3,1),2)] /\
  el_view (remove_self_loops (uniq (el_sort (sort_cmp lexb) (swap_to_triangular S0 successor el)))) =
    [((0,1),6); ((0,2),1); ((1,3),2)].
Proof. vm_compute. auto. Qed.

(** ---------------------------------------------------------------------------------- C14 *)
(** Fixed-size container: exact rows in edge order when every needed id is in range. *)
Theorem C14_push_back_fill_rows : forall A directed s (es : list (edge A)) n,
  (forall e, In e es -> ekey s e < n /\ (directed = false -> ekey (other_side s) e < n)) ->
  exists g, al_push_back_fill directed s es (repeat [] n) = Ok g /\ length g = n /\
    forall u, u < n -> nth_error g u = Some (if directed then spec_row s es u else spec_row_undirected es u).
Proof. intros A directed s es n H. exact (@al_fill_rows A directed s es n H). Qed.

(** ... and undefined behaviour otherwise. *)
Theorem C14_push_back_fill_out_of_range : forall A directed s (es : list (edge A)) n e,
  In e es -> ~ (ekey s e < n /\ (directed = false -> ekey (other_side s) e < n)) ->
  al_push_back_fill directed s es (repeat [] n) = Ub.
Proof. intros A directed s es n e Hin H. apply al_fill_oob with (e := e); auto. now rewrite repeat_length. Qed.

(** The growing container (vov) built from an edge list. *)
Theorem C14_vov_rows : forall A W directed n (es : list (edge A)),
  n < W -> ids_ok W es ->
  let el := el_build W n es in
  exists g, vov_of directed el = Ok (g, (if directed then 1 else 2) * length es) /\
    length g = el_num_vertices el /\
    forall u, nth u g [] = if directed then spec_row S0 es u else spec_row_undirected es u.
Proof.
  intros A W directed n es Hn He el. unfold vov_of.
  destruct (fill_adj_list_ok directed el (repeat [] (el_num_vertices el))) as (g & E & Len & N).
  assert (V : el_view el = es) by (apply build_view). rewrite V in E, Len, N. exists g. split; auto. split.
  - rewrite Len, repeat_length. apply Nat.max_l. unfold rows_needed. apply list_max_le, Forall_forall.
    intros x Hx. apply in_map_iff in Hx as (e & <- & Hin). destruct (build_card es Hn He) as (_ & B & _).
    destruct (B e Hin). fold el in H, H0. destruct directed; lia.
  - intros u. rewrite N, nth_repeat. reflexivity.
Qed.

(** Growth: whatever the initial container, it ends with room for every id and keeps old rows. *)
Theorem C14_vov_grows : forall A directed (el : edge_list A) (al : alist A),
  exists g, fill_adj_list directed el al = Ok (g, (if directed then 1 else 2) * length (el_view el)) /\
    length al <= length g /\
    (forall e, In e (el_view el) -> esrc e < length g /\ (directed = false -> etgt e < length g)) /\
    forall u, nth u g [] = nth u al [] ++ (if directed then spec_row S0 (el_view el) u else spec_row_undirected (el_view el) u).
Proof.
  intros A directed el al. destruct (fill_adj_list_ok directed el al) as (g & E & Len & N).
  exists g. split; auto. split; [lia|]. split; auto. intros e Hin.
  assert (F : Forall (fun k => k <= rows_needed directed (el_view el))
     (map (fun e => if directed then esrc e + 1 else Nat.max (esrc e + 1) (etgt e + 1)) (el_view el))) by (now apply list_max_le).
  rewrite Forall_forall in F. specialize (F _ (in_map _ _ _ Hin)). simpl in F. destruct directed; split; intros; try lia; discriminate.
Qed.

Theorem C14_undirected_symmetric : forall A (eqb : nat * A -> nat * A -> bool) (es : list (edge A)) s n g,
  (forall x y, eqb x y = true <-> x = y) ->
  (forall e, In e es -> esrc e < n /\ etgt e < n) ->
  al_push_back_fill false s es (repeat [] n) = Ok g ->
  forall u v a, u < n -> v < n ->
    length (filter (eqb (v, a)) (nth u g [])) = length (filter (eqb (u, a)) (nth v g [])).
Proof.
  intros A eqb es s n g Heq HB E u v a Hu Hv.
  destruct (@al_fill_rows A false s es n) as (g' & E' & Len & N).
  { intros e He. destruct (HB e He). split; [|intros _]; destruct s; auto. }
  rewrite E in E'. inversion E'; subst g'.
  rewrite (nth_error_nth g u [] (N u Hu)), (nth_error_nth g v [] (N v Hv)). unfold al_spec.
  now apply spec_row_undirected_count.
Qed.

Example C14_ex :
  al_push_back_fill false S0 [((0,2),7); ((2,0),8); ((1,1),9)] (repeat [] 3)
    = Ok [[(2,7);(2,8)]; [(1,9);(1,9)]; [(0,7);(0,8)]] /\
  al_push_back_fill true S1 [((0,2),7); ((2,0),8)] (repeat [] 3) = Ok [[(2,8)]; []; [(0,7)]] /\
  al_push_back_fill true S0 [((5,2),7)] (repeat [] 3) = Ub /\
  fill_adj_list true (el_build 100 0 [((4,1),7); ((0,9),8)]) [[(6,6)]] = Ok ([[(6,6);(9,8)]; []; []; []; [(1,7)]], 2).
Proof. vm_compute. auto. Qed.

(** ---------------------------------------------------------------------------------- C15 *)
(** [label_index vs u i]: i is the last position of u in vs, or 0 when u does not occur. *)
Theorem C15_property_graph_exact : forall L leqb A (vs : list L) (edges : list (L * L * A)) es directed s,
  (forall x y, leqb x y = true <-> x = y) -> vs <> [] ->
  Forall2 (fun e f => label_index vs (fst (fst e)) (esrc f) /\ label_index vs (snd (fst e)) (etgt f) /\ eatt f = snd e) edges es ->
  exists g, make_property_graph leqb vs edges directed s = Ok g /\ length g = length vs /\
    forall u, u < length vs -> nth_error g u = Some (if directed then spec_row s es u else spec_row_undirected es u).
Proof. intros L leqb A vs edges es directed s H. exact (@property_graph_ok L leqb H A vs edges es directed s). Qed.

Theorem C15_plain_graph_exact : forall L leqb A (vs : list L) (edges : list (L * L * A)) es directed s,
  (forall x y, leqb x y = true <-> x = y) -> vs <> [] ->
  Forall2 (fun e f => label_index vs (fst (fst e)) (esrc f) /\ label_index vs (snd (fst e)) (etgt f)) edges es ->
  exists g, make_plain_graph leqb vs edges directed s = Ok g /\ length g = length vs /\
    forall u, u < length vs -> nth_error g u = Some (if directed then spec_row s es u else spec_row_undirected es u).
Proof.
  intros L leqb A vs edges es directed s H Hv F. apply (@plain_graph_ok L leqb H A vs edges es directed s Hv).
  clear Hv. induction F as [|e f edges es [H1 H2] F IH]; simpl; constructor; auto.
  split; auto. split; auto. simpl. now destruct (eatt f).
Qed.

Theorem C15_index_graph_exact : forall L leqb A (vs : list L) (edges : list (L * L * A)) es directed s,
  (forall x y, leqb x y = true <-> x = y) -> vs <> [] -> length es = length edges ->
  (forall k e f, nth_error edges k = Some e -> nth_error es k = Some f ->
     label_index vs (fst (fst e)) (esrc f) /\ label_index vs (snd (fst e)) (etgt f) /\ eatt f = k) ->
  exists g, make_index_graph leqb vs edges directed s = Ok g /\ length g = length vs /\
    forall u, u < length vs -> nth_error g u = Some (if directed then spec_row s es u else spec_row_undirected es u).
Proof. intros L leqb A vs edges es directed s H. exact (@index_graph_ok L leqb H A vs edges es directed s). Qed.

(** The index edges always exist and are unique, so the three theorems above cover every input; with
    duplicate-free labels that contain the edge's ends they are the positions of the labels. *)
Theorem C15_label_index_total : forall L (leqb : L -> L -> bool) (vs : list L) u,
  (forall x y, leqb x y = true <-> x = y) ->
  (exists i, label_index vs u i) /\ (forall i j, label_index vs u i -> label_index vs u j -> i = j) /\
  (NoDup vs -> forall i, nth_error vs i = Some u -> label_index vs u i) /\
  (~ In u vs -> label_index vs u 0).
Proof.
  intros L leqb vs u H. split; [eexists; apply (make_index_map_spec leqb H)|].
  split; [apply label_index_unique|]. split.
  - intros ND i E. left. split; auto. intros j Hj E'. rewrite NoDup_nth_error in ND.
    assert (i = j) by (apply ND; [apply nth_error_Some; congruence|congruence]). lia.
  - intros N. right. auto.
Qed.

(** An unknown label silently becomes vertex 0. *)
Theorem C15_unknown_label_is_vertex_0 : forall L leqb A (v0 : L) vs u v (a : A),
  (forall x y, leqb x y = true <-> x = y) -> ~ In u (v0 :: vs) -> ~ In v (v0 :: vs) ->
  exists g, make_property_graph leqb (v0 :: vs) [(u, v, a)] true S0 = Ok g /\ nth_error g 0 = Some [(0, a)].
Proof.
  intros L leqb A v0 vs u v a H Hu Hv.
  destruct (@property_graph_ok L leqb H A (v0 :: vs) [(u, v, a)] [((0,0),a)] true S0) as (g & E & Len & N).
  - discriminate.
  - constructor; [|constructor]. repeat split; [right|right]; auto.
  - exists g. split; auto. apply N. simpl. lia.
Qed.

Example C15_ex :
  make_property_graph Nat.eqb [50;70;60] [(70,50,1); (60,70,2); (50,50,3)] true S0 = Ok [[(0,3)]; [(0,1)]; [(1,2)]] /\
  make_index_graph Nat.eqb [50;70;60] [(70,50,tt); (60,70,tt)] false S0 = Ok [[(1,0)]; [(0,0);(2,1)]; [(1,1)]] /\
  make_plain_graph Nat.eqb [50;70;60] [(70,50,tt); (60,99,tt)] true S0 = Ok [[]; [(0,tt)]; [(0,tt)]].
Proof. vm_compute. auto. Qed.

(** ---------------------------------------------------------------------------------- C16 *)
Theorem C16_bipartite_graphs_transposed : forall L R leqb reqb (ls : list L) (rs : list R) edges es,
  (forall x y, leqb x y = true <-> x = y) -> (forall x y, reqb x y = true <-> x = y) ->
  ls <> [] -> rs <> [] ->
  Forall2 (fun e f => label_index ls (fst e) (esrc f) /\ label_index rs (snd e) (etgt f)) edges es ->
  exists G H, make_bipartite_graphs leqb reqb ls rs edges = Ok (G, H) /\
    length G = length ls /\ length H = length rs /\
    (forall i, i < length ls -> nth_error G i = Some (spec_row S0 es i)) /\
    (forall j, j < length rs -> nth_error H j = Some (spec_row S1 es j)) /\
    (forall i j, i < length ls -> j < length rs ->
       length (filter (fun x => fst x =? j) (nth i G [])) = length (filter (fun x => fst x =? i) (nth j H []))).
Proof.
  intros L R leqb reqb ls rs edges es Hl Hr Nl Nr F.
  destruct (@bip_graphs_ok L R leqb reqb Hl Hr ls rs edges es Nl Nr F) as (G & H & E & LG & LH & NG & NH).
  exists G, H. repeat (split; [auto; fail|]). intros i j Hi Hj.
  rewrite (nth_error_nth G i [] (NG i Hi)), (nth_error_nth H j [] (NH j Hj)). apply spec_rows_transposed.
Qed.

(** join: vertex i is linked to j <> i, labelled k, once for every pair of occurrences of k in H[i] and
    of j in G[k]. *)
Theorem C16_join_counts : forall A B (G : alist A) (H : alist B),
  (forall i k, i < length H -> In k (nth i H []) -> fst k < length G) ->
  exists Lg, join G H = Ok Lg /\ length Lg = length H /\
    forall i j k, i < length H ->
      length (filter (fun x => (fst x =? j) && (snd x =? k)) (nth i Lg [])) =
      if j =? i then 0
      else length (filter (fun x => fst x =? k) (nth i H [])) * length (filter (fun x => fst x =? j) (nth k G [])).
Proof.
  intros A B G H HB. destruct (join_ok G H HB) as (Lg & E & Len & N). exists Lg. repeat split; auto.
  intros i j k Hi. rewrite (nth_error_nth Lg i [] (N i Hi)). apply overlap_row_count.
Qed.

Theorem C16_bipartite_graph_left : forall L R leqb reqb (ls : list L) (rs : list R) edges es,
  (forall x y, leqb x y = true <-> x = y) -> (forall x y, reqb x y = true <-> x = y) -> ls <> [] ->
  Forall2 (fun e f => label_index ls (fst e) (esrc f) /\ label_index rs (snd e) (etgt f)) edges es ->
  exists G, make_bipartite_graph leqb reqb S0 ls rs edges = Ok G /\ length G = length ls /\
    (forall i, i < length ls -> nth_error G i = Some (spec_row S0 es i)).
Proof. intros L R leqb reqb ls rs edges es Hl Hr. exact (@bip_graph_left L R leqb reqb Hl Hr ls rs edges es). Qed.

(** idx = 1: writes out of bounds whenever an edge's right index is at least the number of left vertices. *)
Theorem C16_bipartite_graph_right_out_of_bounds : forall L R leqb reqb (ls : list L) (rs : list R) edges (es : list (edge unit)) f,
  (forall x y, leqb x y = true <-> x = y) -> (forall x y, reqb x y = true <-> x = y) ->
  Forall2 (fun e f => label_index ls (fst e) (esrc f) /\ label_index rs (snd e) (etgt f)) edges es ->
  In f es -> length ls <= etgt f ->
  make_bipartite_graph leqb reqb S1 ls rs edges = Ub.
Proof. intros L R leqb reqb ls rs edges es f Hl Hr. exact (@bip_graph_right_oob L R leqb reqb Hl Hr ls rs edges es f). Qed.

Example C16_ex :
  make_bipartite_graphs Nat.eqb Nat.eqb [10;20] [5;6;7] [(10,6);(20,6);(10,7)]
    = Ok ([[(1,tt);(2,tt)]; [(1,tt)]], [[]; [(0,tt);(1,tt)]; [(0,tt)]]) /\
  join [[(1,tt);(2,tt)]; [(1,tt)]] [[]; [(0,tt);(1,tt)]; [(0,tt)]] = Ok [[]; [(2,0)]; [(1,0)]] /\
  make_bipartite_graph Nat.eqb Nat.eqb S1 [10;20] [5;6;7] [(10,7)] = Ub.
Proof. vm_compute. auto. Qed.

Print Assumptions C11_perm_by_degree_sorted.
Print Assumptions C12_relabel_isomorphic.
Print Assumptions C12_relabel_bipartite_one_side.
Print Assumptions C12_relabel_by_degree_sorted.
Print Assumptions C13_swap_to_triangular.
Print Assumptions C13_uniq_strictly_sorted.
Print Assumptions C13_uniq_keeps_first.
Print Assumptions C13_remove_self_loops_exact.
Print Assumptions C13_cleaning_pipeline.
Print Assumptions C13_uniq_needs_sort_refuted.
Print Assumptions C14_push_back_fill_rows.
Print Assumptions C14_push_back_fill_out_of_range.
Print Assumptions C14_vov_rows.
Print Assumptions C14_vov_grows.
Print Assumptions C14_undirected_symmetric.
Print Assumptions C15_property_graph_exact.
Print Assumptions C15_plain_graph_exact.
Print Assumptions C15_index_graph_exact.
Print Assumptions C15_label_index_total.
Print Assumptions C15_unknown_label_is_vertex_0.
Print Assumptions C16_bipartite_graphs_transposed.
Print Assumptions C16_join_counts.
Print Assumptions C16_bipartite_graph_left.
Print Assumptions C16_bipartite_graph_right_out_of_bounds.
