(** Proofs about bench/tc.cpp (TcModel.v). *)
From Coq Require Import List Arith NArith Lia Bool Permutation Sorting.Sorted.
From Verif Require Import Base GraphLib SumLib UtilModel RangeModel RangeProofs RangeProperties PforModel EdgeListModel EdgeListProofs CsrModel
  CsrProofs CsrProofs2 CsrProofs3 CsrProofs4 BuildModel BuildProofs BuildProofs2 BuildProperties TriModel TriProofs XtriModel XtriProofs XtriProperties TcModel.
Import ListNotations.
Set Implicit Arguments.

(** * The specification: triangles of the simple undirected graph that the edges describe *)
(** Some edge has the ends u and v. *)
Definition linked (es : list (EdgeListModel.edge unit)) (u v : nat) : bool :=
  existsb (fun e => ((esrc e =? u) && (etgt e =? v)) || ((esrc e =? v) && (etgt e =? u))) es.
Definition is_triangle (es : list (EdgeListModel.edge unit)) (t : nat * nat * nat) : bool :=
  let '(a, b, c) := t in (a <? b) && (b <? c) && linked es a b && linked es a c && linked es b c.
Definition triangles_of (n : nat) (es : list (EdgeListModel.edge unit)) : nat :=
  length (filter (is_triangle es) (list_prod (list_prod (seq 0 n) (seq 0 n)) (seq 0 n))).

Lemma linked_spec es u v : linked es u v = true <-> exists e, In e es /\ joins e u v.
Proof.
  unfold linked, joins. rewrite existsb_exists. split; intros (e & I & H); exists e; split; auto;
  rewrite orb_true_iff, !andb_true_iff, !Nat.eqb_eq in *; tauto.
Qed.
Lemma linked_sym es u v : linked es u v = linked es v u.
Proof.
  apply Bool.eq_iff_eq_true. rewrite !linked_spec. unfold joins. split; intros (e & I & H); exists e; split; auto; tauto.
Qed.

(** * Triangles do not depend on the names of the vertices *)
(** The symmetric rows of the described graph. *)
Definition srows (n : nat) (es : list (EdgeListModel.edge unit)) : list (list nat) :=
  map (fun u => filter (fun v => linked es u v && negb (u =? v)) (seq 0 n)) (seq 0 n).
Lemma srows_length n es : length (srows n es) = n.
Proof. unfold srows. now rewrite map_length, seq_length. Qed.
Lemma srows_mem n es u v : mem v (nth u (srows n es) []) = (u <? n) && (v <? n) && linked es u v && negb (u =? v).
Proof.
  apply Bool.eq_iff_eq_true. rewrite mem_In, !andb_true_iff, !Nat.ltb_lt.
  destruct (Nat.lt_ge_cases u n) as [L|L].
  - unfold srows. rewrite nth_map_seq by auto. rewrite filter_In, in_seq, andb_true_iff. intuition lia.
  - rewrite nth_overflow by (rewrite srows_length; auto). simpl. intuition lia.
Qed.
Lemma srows_symmetric n es : symmetric (srows n es).
Proof.
  intros u v E. apply mem_edge in E. rewrite srows_mem, !andb_true_iff, negb_true_iff, Nat.eqb_neq in E. destruct E as (((A & B) & L) & N).
  split; auto. apply mem_edge. rewrite srows_mem, !andb_true_iff, negb_true_iff, Nat.eqb_neq, linked_sym. auto.
Qed.
Lemma srows_triangles n es : triangles (srows n es) = triangles_of n es.
Proof.
  unfold triangles, triangles_of. rewrite srows_length. f_equal. apply filter_ext_in. intros ((a, b), c) I.
  apply in_prod_iff in I. destruct I as (I & Ic). apply in_prod_iff in I. destruct I as (Ia & Ib). apply in_seq in Ia, Ib, Ic.
  unfold triple_ok, is_triangle. destruct (Nat.ltb_spec a b) as [L1|L1]; auto. destruct (Nat.ltb_spec b c) as [L2|L2]; auto. cbn [andb].
  assert (AD : forall x y, x < y -> x < n -> y < n -> adj (srows n es) x y = linked es x y).
  { intros x y L X Y. unfold adj. rewrite !srows_mem, (linked_sym es y x). apply Nat.ltb_lt in X, Y. rewrite X, Y.
    replace (x =? y) with false by (symmetry; apply Nat.eqb_neq; lia). replace (y =? x) with false by (symmetry; apply Nat.eqb_neq; lia).
    cbn [andb negb]. rewrite !andb_true_r. apply orb_diag. }
  rewrite !AD by lia. auto.
Qed.

Lemma bsum_perm n p f : Permutation p (seq 0 n) -> bsum n (fun i => f (nth i p 0)) = bsum n f.
Proof.
  intros P. unfold bsum. rewrite <- (sum_perm (Permutation_map f P)). f_equal.
  assert (L : length p = n) by (rewrite (Permutation_length P); apply seq_length).
  apply nth_ext with (d := 0) (d' := 0); [rewrite !map_length, seq_length; auto|]. intros i Hi. rewrite map_length, seq_length in Hi.
  rewrite nth_map_seq by auto. rewrite (@nth_indep _ (map f p) i 0 (f 0)) by (rewrite map_length; lia). now rewrite map_nth.
Qed.
Lemma perm_lt n p i : Permutation p (seq 0 n) -> i < n -> nth i p 0 < n.
Proof.
  intros P H. assert (I : In (nth i p 0) p) by (apply nth_In; rewrite (Permutation_length P), seq_length; auto).
  apply (Permutation_in _ P) in I. apply in_seq in I. lia.
Qed.
Lemma perm_inj n p i j : Permutation p (seq 0 n) -> i < n -> j < n -> nth i p 0 = nth j p 0 -> i = j.
Proof.
  intros P Hi Hj E. assert (ND : NoDup p) by (apply (Permutation_NoDup (Permutation_sym P)), seq_NoDup).
  assert (L : length p = n) by (rewrite (Permutation_length P); apply seq_length). apply (proj1 (NoDup_nth p 0) ND); lia.
Qed.

Definition rename (p : list nat) (es : list (EdgeListModel.edge unit)) : list (EdgeListModel.edge unit) :=
  map (fun e => ((nth (esrc e) p 0, nth (etgt e) p 0), eatt e)) es.
Lemma linked_rename n p es u v : Permutation p (seq 0 n) -> (forall e, In e es -> esrc e < n /\ etgt e < n) -> u < n -> v < n ->
  linked (rename p es) (nth u p 0) (nth v p 0) = linked es u v.
Proof.
  intros P B Hu Hv. apply Bool.eq_iff_eq_true. rewrite !linked_spec. unfold rename. split.
  - intros (f & I & J). apply in_map_iff in I. destruct I as (e & <- & I). exists e. split; auto. destruct (B e I) as [B1 B2].
    unfold joins, esrc, etgt in *. cbn [fst snd] in J. destruct J as [[J1 J2]|[J1 J2]]; [left|right]; split; eapply perm_inj; eauto.
  - intros (e & I & J). exists ((nth (esrc e) p 0, nth (etgt e) p 0), eatt e). split; [apply in_map_iff; eauto|].
    unfold joins in *. destruct J as [[-> ->]|[-> ->]]; [left|right]; split; reflexivity.
Qed.
Lemma triangles_rename n p es : Permutation p (seq 0 n) -> (forall e, In e es -> esrc e < n /\ etgt e < n) ->
  triangles_of n (rename p es) = triangles_of n es.
Proof.
  intros P B. enough (H : 6 * triangles_of n (rename p es) = 6 * triangles_of n es) by lia.
  rewrite <- !srows_triangles, <- !wedge_symmetric by apply srows_symmetric. unfold wedge. rewrite !srows_length.
  set (e := e2n (srows n (rename p es))). set (d := e2n (srows n es)).
  assert (E : forall u v, u < n -> v < n -> e (nth u p 0) (nth v p 0) = d u v).
  { intros u v Hu Hv. unfold e, d, e2n. f_equal. rewrite !srows_mem, (@linked_rename n p es u v P B Hu Hv). assert (X := perm_lt P Hu). assert (Y := perm_lt P Hv).
    apply Nat.ltb_lt in X, Y. rewrite X, Y. apply Nat.ltb_lt in Hu as X', Hv as Y'. rewrite X', Y'. cbn [andb]. do 2 f_equal.
    apply Bool.eq_iff_eq_true. rewrite !Nat.eqb_eq. split; [apply (perm_inj P); auto|congruence]. }
  etransitivity; [symmetry; apply (@bsum_perm n p _ P)|]. apply bsum_ext. intros u Hu. etransitivity; [symmetry; apply (@bsum_perm n p _ P)|]. apply bsum_ext. intros v Hv.
  etransitivity; [symmetry; apply (@bsum_perm n p _ P)|]. apply bsum_ext. intros w Hw. now rewrite !E.
Qed.

(** * The cleaned list *)
Lemma unique_from_length A (eqv : A -> A -> bool) l : forall x, length (unique_from eqv x l) <= S (length l).
Proof. induction l as [|y l IH]; intros x; cbn [unique_from]; [simpl; lia|]. destruct (eqv x y); cbn [length]; specialize (IH x) as H1; specialize (IH y) as H2; lia. Qed.
Lemma filter_length_le A (p : A -> bool) l : length (filter p l) <= length l.
Proof. induction l; simpl; auto. destruct (p a); simpl; lia. Qed.
Lemma clean_length lsrt c el : is_lex_sort lsrt -> length (el_view (tc_clean lsrt c el)) <= length (el_view el).
Proof.
  intros S. unfold tc_clean, remove_self_loops. rewrite set_view_view. etransitivity; [apply filter_length_le|].
  unfold uniq. rewrite set_view_view. transitivity (length (el_view (el_sort lsrt (swap_to_triangular S0 c el)))).
  - destruct (el_view _) as [|x t]; cbn [std_unique]; auto. apply unique_from_length.
  - unfold el_sort. rewrite set_view_view. rewrite <- (Permutation_length (proj1 (S _))). unfold swap_to_triangular. rewrite set_view_view. now rewrite map_length.
Qed.

(** Rows of targets of a strictly increasing list. *)
Definition trow (es : list (EdgeListModel.edge unit)) (u : nat) : list nat := map etgt (filter (fun e => esrc e =? u) es).
Lemma spec_trow es u : map fst (spec_row S0 es u) = trow es u.
Proof. unfold spec_row, trow. now rewrite map_map. Qed.
Lemma trow_in es u v : In v (trow es u) <-> exists e, In e es /\ esrc e = u /\ etgt e = v.
Proof.
  unfold trow. rewrite in_map_iff. split; intros (e & A & B).
  - apply filter_In in B. rewrite Nat.eqb_eq in B. exists e. tauto.
  - exists e. rewrite filter_In, Nat.eqb_eq. tauto.
Qed.
Lemma trow_sorted es u : StronglySorted lex_lt es -> StronglySorted lt (trow es u).
Proof.
  induction 1 as [|e es S IH F]; [constructor|]. unfold trow. cbn [filter]. destruct (Nat.eqb_spec (esrc e) u) as [E|]; auto.
  cbn [map]. constructor; auto. apply Forall_forall. intros x I. fold (trow es u) in I. apply trow_in in I. destruct I as (f & I & E1 & <-).
  rewrite Forall_forall in F. specialize (F f I). unfold lex_lt in F. lia.
Qed.
Lemma lex_sorted_src es : StronglySorted (@lex_lt unit) es -> sorted_by esrc es.
Proof.
  unfold sorted_by. induction 1 as [|e es S IH F]; constructor; auto. eapply Forall_impl; [|exact F]. intros a H. unfold lex_lt in H. lia.
Qed.

Definition trows (n : nat) (es : list (EdgeListModel.edge unit)) : list (list nat) := map (trow es) (seq 0 n).
Lemma trows_nth n es u : (forall e, In e es -> esrc e < n) -> nth u (trows n es) [] = trow es u.
Proof.
  intros B. destruct (Nat.lt_ge_cases u n) as [L|L]; [unfold trows; now rewrite nth_map_seq|].
  rewrite nth_overflow by (unfold trows; rewrite map_length, seq_length; auto).
  destruct (trow es u) as [|v t] eqn:E; auto. assert (I : In v (trow es u)) by (rewrite E; now left).
  apply trow_in in I. destruct I as (e & I & <- & _). specialize (B e I). lia.
Qed.

Lemma vov_fill_ok n (es : list (EdgeListModel.edge unit)) : (forall e, In e es -> esrc e < n) ->
  exists g, vov_push_back_fill es (repeat [] n) = Ok g /\ map (map fst) g = trows n es.
Proof.
  intros B. unfold vov_push_back_fill.
  destruct (@rfold_ind _ _ (fun g e => vov_push_back g (esrc e) (etgt e, eatt e))
    (fun done g => length g = n /\ forall u, nth u g [] = spec_row S0 done u) es (repeat [] n)) as (g & E & L & N).
  - split; [apply repeat_length|]. intros u. now rewrite nth_repeat.
  - intros done e g (L & N) (rest & ER). destruct (vov_push_ok g (esrc e) (etgt e, eatt e)) as (g' & E & L' & N'). exists g'. split; auto.
    assert (H : esrc e < n) by (apply B; rewrite ER; apply in_or_app; right; now left). split; [lia|].
    intros u. rewrite N', N. unfold spec_row. rewrite filter_app, map_app. f_equal. cbn [filter ekey]. destruct (esrc e =? u); auto.
  - exists g. split; auto. apply nth_ext with (d := []) (d' := []).
    + unfold trows. rewrite !map_length, seq_length. auto.
    + intros u Hu. rewrite map_length in Hu. rewrite trows_nth by auto. rewrite <- spec_trow, <- N. change (@nil nat) with (map (@fst nat unit) []). now rewrite map_nth.
Qed.

Lemma csr_fill_ok W n (es : list (EdgeListModel.edge unit)) : length es < W -> sorted_by esrc es -> (forall e, In e es -> esrc e < n) ->
  exists g rows, csr_push_back_fill W es (csr_new n) = Ok g /\ csr_iterate g = Ok rows /\ map (map fst) rows = trows n es.
Proof.
  intros HW S B. destruct (push_back_fill_ok n HW S) as (g & E & Z & N & R).
  assert (M : src_max es <= n).
  { unfold src_max. apply list_max_le. apply Forall_forall. intros x Hx. apply in_map_iff in Hx as (e & <- & He). specialize (B e He). lia. }
  replace (Nat.max n (src_max es)) with n in * by lia.
  exists g, (map (spec_row S0 es) (seq 0 n)). split; auto. split.
  - unfold csr_iterate. rewrite N. apply rmap_ok. intros u I. apply in_seq in I. apply R. lia.
  - unfold trows. rewrite map_map. apply map_ext. intros u. apply spec_trow.
Qed.

Lemma compress_ok W f (el : edge_list unit) : length (el_view el) < W -> StronglySorted lex_lt (el_view el) ->
  (forall e, In e (el_view el) -> esrc e < el_num_vertices el) -> tc_compress W f el = Ok (trows (el_num_vertices el) (el_view el)).
Proof.
  intros HW S B. assert (V : (do g <- vov_push_back_fill (el_view el) (repeat [] (el_num_vertices el)); Ok (map (map fst) g)) = Ok (trows (el_num_vertices el) (el_view el))).
  { destruct (vov_fill_ok _ B) as (g & E & R). rewrite E. cbn [bind]. now rewrite R. }
  destruct f; auto. unfold tc_compress. destruct (csr_fill_ok HW (lex_sorted_src S) B) as (g & rows & E1 & E2 & R). rewrite E1. cbn [bind]. rewrite E2. cbn [bind]. now rewrite R.
Qed.

(** * Rows of the cleaned list *)
Definition half (lo : bool) (g : list (list nat)) : Prop := if lo then lower g else upper g.
Lemma cleaned_rows W lsrt f (lo : bool) (el : edge_list unit) : is_lex_sort lsrt -> length (el_view el) < W ->
  (forall e, In e (el_view el) -> esrc e < el_num_vertices el /\ etgt e < el_num_vertices el) ->
  exists g, tc_compress W f (tc_clean lsrt (if lo then predecessor else successor) el) = Ok g /\ length g = el_num_vertices el /\
    targets_ok g /\ rows_sorted g /\ half lo g /\ triangles g = triangles_of (el_num_vertices el) (el_view el) /\
    (forall u v, adj g u v = linked (el_view el) u v && negb (u =? v)).
Proof.
  intros LS HW B. set (c := if lo then predecessor else successor). set (n := el_num_vertices el).
  destruct (@C13_cleaning_pipeline _ lsrt S0 c el LS) as (C & SS & D & K). fold (tc_clean lsrt c el) in *. set (el' := tc_clean lsrt c el) in *.
  assert (B' : forall e, In e (el_view el') -> esrc e < n /\ etgt e < n).
  { intros e' I. destruct (D e' I) as (_ & e & I' & J & _). destruct (B e I'). fold n in H, H0. unfold joins in J. lia. }
  assert (B1 : forall e, In e (el_view el') -> esrc e < n) by (intros e I; apply B'; auto).
  assert (CN : el_num_vertices el' = n) by exact C.
  assert (HW' : length (el_view el') < W) by (eapply Nat.le_lt_trans; [apply clean_length; auto|exact HW]).
  rewrite compress_ok; [|exact HW'|exact SS|rewrite CN; exact B1]. rewrite CN.
  exists (trows n (el_view el')). split; auto. split; [unfold trows; now rewrite map_length, seq_length|].
  assert (ED : forall u v, GraphLib.edge (trows n (el_view el')) u v <-> exists e, In e (el_view el') /\ esrc e = u /\ etgt e = v).
  { intros u v. unfold GraphLib.edge. rewrite trows_nth by auto. apply trow_in. }
  assert (AD : forall u v, adj (trows n (el_view el')) u v = linked (el_view el) u v && negb (u =? v)).
  { intros u v. apply Bool.eq_iff_eq_true. unfold adj. rewrite orb_true_iff, !mem_edge, !ED, andb_true_iff, linked_spec, negb_true_iff, Nat.eqb_neq. split.
    - intros [(e' & I & <- & <-)|(e' & I & <- & <-)]; destruct (D e' I) as (O & e & I' & J & _); (split; [|destruct (points_down S0 c); lia]); exists e; split; auto.
      unfold joins in *. tauto.
    - intros ((e & I & J) & N). destruct (K e I) as (e' & I' & J'); [unfold joins in J; lia|]. unfold joins in *.
      destruct J as [[<- <-]|[<- <-]]; destruct J' as [[X Y]|[X Y]]; eauto. }
  split; [intros u v E; apply ED in E; destruct E as (e & I & _ & <-); unfold trows; rewrite map_length, seq_length; apply B'; auto|].
  split; [intros u; rewrite trows_nth by auto; apply trow_sorted; auto|].
  split; [|split; auto].
  - unfold half, lower, upper. subst c. destruct lo; intros u v E; apply ED in E; destruct E as (e & I & <- & <-); apply D in I; cbn in I; tauto.
  - unfold triangles, triangles_of. replace (length (trows n (el_view el'))) with n by (unfold trows; now rewrite map_length, seq_length). f_equal.
    apply filter_ext. intros ((a, b), c0). unfold triple_ok, is_triangle. destruct (Nat.ltb_spec a b) as [L1|L1]; auto. destruct (Nat.ltb_spec b c0) as [L2|L2]; auto. cbn [andb].
    rewrite !AD. replace (a =? b) with false by (symmetry; apply Nat.eqb_neq; lia). replace (a =? c0) with false by (symmetry; apply Nat.eqb_neq; lia).
    replace (b =? c0) with false by (symmetry; apply Nat.eqb_neq; lia). cbn [negb]. now rewrite !andb_true_r.
Qed.

(** * Preparation *)
Lemma worth_ok nsrt draws (el : edge_list unit) degree : (forall l, Permutation l (nsrt l)) -> 0 < el_num_vertices el ->
  length degree = el_num_vertices el -> el_num_vertices el <= length draws \/ 1000 <= length draws ->
  (forall v, In v draws -> v < el_num_vertices el) -> exists b, worth_relabeling nsrt draws el degree = Ok b.
Proof.
  intros P N L D B. unfold worth_relabeling. set (n := el_num_vertices el) in *. destruct (Nat.eqb_spec n 0); [lia|].
  destruct (el_num_edges el / n <? 10); [eauto|]. set (k := Nat.min 1000 n).
  assert (K : k <= length draws) by (unfold k; lia). assert (K0 : 0 < k) by (unfold k; lia).
  rewrite rmap_ok with (g := fun t => nth (nth t draws 0) degree 0).
  - cbn [bind]. set (s := map _ _). assert (LS : length (nsrt s) = k) by (rewrite <- (Permutation_length (P s)); unfold s; now rewrite map_length, seq_length).
    rewrite (@vget_nth _ (nsrt s) (k / 2) 0); [cbn [bind]; eauto|]. rewrite LS. apply Nat.div_lt; lia.
  - intros t I. apply in_seq in I. rewrite (@vget_nth _ draws t 0) by lia. cbn [bind]. apply vget_nth. rewrite L. apply B, nth_In. lia.
Qed.

Definition edge_count (es : list (EdgeListModel.edge unit)) (v : nat) : nat :=
  length (filter (fun e => esrc e =? v) es) + length (filter (fun e => etgt e =? v) es).

Lemma relabel_step W srt dir n es d :
  (forall d, is_sort_lt (deg_lt d) (srt (deg_lt d))) -> (forall d, is_sort_lt (deg_gt d) (srt (deg_gt d))) ->
  n < W -> ids_ok W es -> let el := el_build W n es in
  degrees_undirected W el = Ok d -> length d = el_card el -> (forall v, v < length d -> nth v d 0 = edge_count es v) ->
  exists el1 p, tc_relabel W srt d dir el = Ok el1 /\ el_card el1 = el_card el /\ Permutation p (seq 0 (el_card el)) /\ el_view el1 = rename p es /\
    (dir = ascending -> forall u v, u < el_card el -> v < el_card el -> nth u p 0 < nth v p 0 -> edge_count es u <= edge_count es v) /\
    (dir = descending -> forall u v, u < el_card el -> v < el_card el -> nth u p 0 < nth v p 0 -> edge_count es v <= edge_count es u).
Proof.
  intros Ha Hd Hn He el E L N. unfold tc_relabel.
  assert (E' : (if length d =? 0 then degrees_undirected W el else Ok d) = Ok d) by (destruct (length d =? 0); auto). rewrite E'. cbn [bind].
  destruct (@perm_by_degree_sorted srt d dir (Ha d) (Hd d)) as (HP & S1 & S2 & _). set (q := perm_by_degree srt d dir) in *. rewrite L in HP.
  destruct (build_card es Hn He) as (_ & B & _). unfold el_num_vertices in B. fold el in B.
  destruct (@relabel_ok unit (el_card el) el q HP) as (el' & ip & R & C & PI & POS & V).
  { unfold el at 1. rewrite build_view. exact B. }
  rewrite R. cbn [bind fst]. unfold el in V at 1. rewrite build_view in V.
  exists el', ip. split; auto. split; auto. split; auto. split; auto.
  assert (Q : forall v, v < el_card el -> nth (nth v ip 0) q 0 = v).
  { intros v Hv. apply nth_error_nth. apply (POS v Hv). }
  split; intros D u v Hu Hv Lt; rewrite <- !N by lia; rewrite <- (Q u Hu), <- (Q v Hv); [apply S1|apply S2]; auto; rewrite L; eapply perm_lt; eauto.
Qed.

Lemma prepare_ok W srt nsrt lsrt draws o n es :
  (forall d, is_sort_lt (deg_lt d) (srt (deg_lt d))) -> (forall d, is_sort_lt (deg_gt d) (srt (deg_gt d))) -> (forall l, Permutation l (nsrt l)) ->
  n < W -> ids_ok W es -> 2 * length es < W -> let el := el_build W n es in
  el_card el <= length draws \/ 1000 <= length draws -> (forall v, In v draws -> v < el_card el) ->
  (o_relabel o = true -> o_heuristic o = true -> 0 < el_card el) ->
  exists el1 p, tc_prepare W srt nsrt lsrt draws o el = Ok (tc_clean lsrt (if o_lower o then predecessor else successor) el1) /\
    el_card el1 = el_card el /\ Permutation p (seq 0 (el_card el)) /\ el_view el1 = rename p es /\
    (o_relabel o = false -> p = seq 0 (el_card el)) /\
    (o_relabel o = true -> o_heuristic o = false -> forall u v, u < el_card el -> v < el_card el -> nth u p 0 < nth v p 0 ->
       if o_lower o then edge_count es v <= edge_count es u else edge_count es u <= edge_count es v).
Proof.
  intros Ha Hd Hn' Hn He HW el D1 D2 NZ. unfold tc_prepare.
  destruct (degrees_undirected_ok Hn He HW) as (d & E & L & N & _). fold el in E, L. rewrite E. cbn [bind].
  assert (N' : forall v, v < length d -> nth v d 0 = edge_count es v) by (intros v Hv; rewrite N by auto; reflexivity).
  assert (ID : rename (seq 0 (el_card el)) es = es).
  { unfold rename. rewrite <- (map_id es) at 2. apply map_ext_in. intros e I. destruct (build_card es Hn He) as (_ & B & _). destruct (B e I) as [B1 B2].
    unfold el_num_vertices in B1, B2. fold el in B1, B2. rewrite !seq_nth by auto. destruct e as ((a, b), x). reflexivity. }
  assert (NO : exists el1 p, (do el1 <- Ok el; Ok (tc_clean lsrt (if o_lower o then predecessor else successor) el1)) = Ok (tc_clean lsrt (if o_lower o then predecessor else successor) el1) /\
    el_card el1 = el_card el /\ Permutation p (seq 0 (el_card el)) /\ el_view el1 = rename p es /\ p = seq 0 (el_card el)).
  { exists el, (seq 0 (el_card el)). cbn [bind]. split; auto. split; auto. split; auto. split; auto. rewrite ID. apply build_view. }
  assert (YES := @relabel_step W srt (if o_lower o then descending else ascending) n es d Ha Hd Hn He E L N'). fold el in YES.
  destruct YES as (el1 & p & R & C & P & V & A1 & A2).
  destruct (o_relabel o) eqn:OR.
  - destruct (o_heuristic o) eqn:OH; cbn [negb].
    + destruct (@worth_ok nsrt draws el d Hn' (NZ eq_refl eq_refl) L D1 D2) as (b & EB). rewrite EB. cbn [bind]. destruct b.
      * rewrite R. cbn [bind]. exists el1, p. repeat split; auto; discriminate.
      * destruct NO as (el2 & q & R2 & C2 & P2 & V2 & Q2). exists el2, q. repeat split; auto; discriminate.
    + cbn [bind]. rewrite R. cbn [bind]. exists el1, p. split; auto. split; auto. split; auto. split; auto. split; [discriminate|].
      intros _ _ u v Hu Hv Lt. destruct (o_lower o); [apply A2|apply A1]; auto.
  - cbn [bind]. destruct NO as (el2 & q & R2 & C2 & P2 & V2 & Q2). exists el2, q. split; auto. split; auto. split; auto. split; auto. split; auto. discriminate.
Qed.

Lemma rename_bound n p es : Permutation p (seq 0 n) -> (forall e, In e es -> esrc e < n /\ etgt e < n) ->
  forall e, In e (rename p es) -> esrc e < n /\ etgt e < n.
Proof.
  intros P B e I. unfold rename in I. apply in_map_iff in I. destruct I as (e' & <- & I). destruct (B e' I). unfold esrc at 1, etgt at 2. cbn [fst snd].
  split; eapply perm_lt; eauto.
Qed.

(** * The verifier *)
Section Verifier.
Variable g : list (list nat).
Hypothesis HT : targets_ok g.
Hypothesis HS : rows_sorted g.

Lemma common_le a b : length a <= length g -> common a b <= length g.
Proof. intros L. unfold common. etransitivity; [apply filter_length_le|auto]. Qed.
Lemma row_short u : length (nth u g []) <= length g.
Proof.
  replace (length g) with (length (seq 0 (length g))) by apply seq_length. apply NoDup_incl_length; [apply sorted_lt_nodup, HS|]. intros v I. apply in_seq.
  assert (v < length g) by (eapply HT; eauto). lia.
Qed.
Lemma lax_loop : forall es st, (forall e, In e es -> fst e < length g /\ In (snd e) (nth (fst e) g [])) ->
  exists z, rfold (tcv_edge false g) es st = Ok (z, snd st + sum (map (eval g) es)).
Proof.
  induction es as [|(u, v) es IH]; intros (z, t) B; cbn [rfold map sum]; [exists z; cbn; now rewrite Nat.add_0_r|].
  destruct (B (u, v) (or_introl eq_refl)) as [B1 B2]. cbn [fst snd] in B1, B2. unfold tcv_edge at 1. rewrite (edge_op_ok HT HS v B1 B2). cbn [bind].
  destruct (Nat.leb_spec (common (nth u g []) (nth v g [])) (length g)) as [L|L]; [|pose proof (@common_le (nth u g []) (nth v g []) (row_short u)); lia].
  cbn [bind snd fst]. destruct (IH (common (nth u g []) (nth v g []), t + common (nth u g []) (nth v g []))) as (z' & E); [intros; apply B; now right|].
  rewrite E. exists z'. cbn [snd]. replace (eval g (u, v)) with (common (nth u g []) (nth v g [])) by reflexivity. do 2 f_equal. lia.
Qed.
Lemma strict_loop : forall es t, (forall e, In e es -> fst e < length g /\ In (snd e) (nth (fst e) g [])) ->
  rfold (tcv_edge true g) es (0, t) = if sum (map (eval g) es) =? 0 then Ok (0, t) else Ub.
Proof.
  induction es as [|(u, v) es IH]; intros t B; cbn [rfold map sum]; auto.
  destruct (B (u, v) (or_introl eq_refl)) as [B1 B2]. cbn [fst snd] in B1, B2. unfold tcv_edge at 1. rewrite (edge_op_ok HT HS v B1 B2). cbn [bind fst snd]. unfold eval at 1. cbn [fst snd].
  destruct (common (nth u g []) (nth v g [])) as [|k]; cbn [Nat.leb bind]; auto. rewrite Nat.add_0_r. apply IH. intros; apply B; now right.
Qed.
Lemma verifier_sum : exists es, edges_of_range (arcs g) g (or_make g 0) = Ok es /\
  (forall e, In e es -> fst e < length g /\ In (snd e) (nth (fst e) g [])) /\ sum (map (eval g) es) = bsum (length g) (full g).
Proof.
  exists (edges_between g 0 (length g)). split; [|split].
  - apply edges_visit; cbn; lia.
  - intros e I. eapply edges_between_in; eauto.
  - rewrite eval_sum, Nat.sub_0_r. reflexivity.
Qed.
Lemma lax_ok : tc_verifier false g = Ok (bsum (length g) (full g)).
Proof.
  destruct verifier_sum as (es & E & B & Q). unfold tc_verifier. rewrite E. cbn [bind]. destruct (@lax_loop es (0, 0) B) as (z & R). rewrite R. cbn [bind snd]. now rewrite Q.
Qed.
Lemma strict_ok : tc_verifier true g = if bsum (length g) (full g) =? 0 then Ok 0 else Ub.
Proof.
  destruct verifier_sum as (es & E & B & Q). unfold tc_verifier. rewrite E. cbn [bind]. rewrite strict_loop by auto. rewrite Q.
  destruct (bsum (length g) (full g) =? 0); reflexivity.
Qed.
End Verifier.
