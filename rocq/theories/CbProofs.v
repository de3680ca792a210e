(** Proofs about bench/cc.cpp (CbModel.v). *)
From Coq Require Import List Arith Lia Bool Permutation Sorting.Sorted.
From Verif Require Import Base ConnLib GraphLib SumLib RangeModel EdgeListModel EdgeListProofs CsrModel CsrProofs CsrProofs2 CsrProofs3 CsrProofs4 CsrProperties
  BuildModel BuildProofs BuildProofs2 BuildProperties TcModel TcProofs CcModel CcProofs CcProofs2 CcxModel CcvModel LpccModel CbModel.
Import ListNotations.
Set Implicit Arguments.

Notation uedge := (EdgeListModel.edge unit).
(** * The specification *)
(** The pairs of an edge list. *)
Definition pairs (es : list uedge) : list (nat * nat) := map (fun e => (esrc e, etgt e)) es.
Definition either (es : list uedge) (u v : nat) : Prop := In (u, v) (pairs es) \/ In (v, u) (pairs es).
(** The arcs that the graph should have between the new names of u and v, [p] giving the new names. *)
Definition wanted (o : cb_opts) (es : list uedge) (p : list nat) (u v : nat) : Prop :=
  if o_symmetric o then either es u v /\ (o_clean o = true -> u <> v)
  else if o_clean o then
    match o_succession o with
    | Some successor => either es u v /\ nth u p 0 < nth v p 0
    | Some predecessor => either es u v /\ nth v p 0 < nth u p 0
    | None => In (u, v) (pairs es) /\ u <> v
    end
  else In (u, v) (pairs es).

(** * Lists of edges *)
Lemma in_pairs es u v : In (u, v) (pairs es) <-> exists e, In e es /\ esrc e = u /\ etgt e = v.
Proof.
  unfold pairs. rewrite in_map_iff. split; intros (e & A & B); exists e.
  - injection A as <- <-. auto.
  - destruct B as (<- & <-). auto.
Qed.
Lemma pairs_unique_from x l pq : In pq (pairs (unique_from same_ends x l)) <-> In pq (pairs (x :: l)).
Proof.
  revert x. induction l as [|y l IH]; intros x; cbn [unique_from]; [tauto|].
  destruct (same_ends x y) eqn:E.
  - rewrite IH. unfold same_ends in E. apply andb_true_iff in E. rewrite !Nat.eqb_eq in E. destruct E as [E1 E2]. cbn [pairs map In]. rewrite E1, E2. unfold pairs. tauto.
  - cbn [pairs map In]. fold (pairs (unique_from same_ends y l)). rewrite IH. cbn [pairs map In]. unfold pairs. tauto.
Qed.
Lemma pairs_unique l pq : In pq (pairs (std_unique same_ends l)) <-> In pq (pairs l).
Proof. destruct l as [|x l]; cbn [std_unique]; [tauto|]. apply pairs_unique_from. Qed.
Lemma pairs_perm l l' pq : Permutation l l' -> In pq (pairs l) <-> In pq (pairs l').
Proof. intros P. unfold pairs. split; apply Permutation_in; [|apply Permutation_sym]; now apply Permutation_map. Qed.

Lemma clean_view lsrt o (el : edge_list unit) u v : is_lex_sort lsrt ->
  In (u, v) (pairs (el_view (cb_clean lsrt o el))) <->
  match o_succession o with
  | Some successor => either (el_view el) u v /\ u < v
  | Some predecessor => either (el_view el) u v /\ v < u
  | None => In (u, v) (pairs (el_view el)) /\ u <> v
  end.
Proof.
  intros LS. unfold cb_clean. set (el1 := match o_succession o with Some c => swap_to_triangular S0 c el | None => el end).
  transitivity (In (u, v) (pairs (el_view el1)) /\ u <> v).
  - unfold remove_self_loops. rewrite set_view_view. rewrite in_pairs. setoid_rewrite filter_In. setoid_rewrite negb_true_iff. setoid_rewrite Nat.eqb_neq.
    assert (X : In (u, v) (pairs (el_view (uniq (el_sort lsrt el1)))) <-> In (u, v) (pairs (el_view el1))).
    { unfold uniq. rewrite set_view_view, pairs_unique. unfold el_sort. rewrite set_view_view. symmetry. apply pairs_perm, LS. }
    rewrite <- X, in_pairs. split; [intros (e & (A & B) & <- & <-); split; eauto|intros ((e & A & <- & <-) & B); eauto].
  - subst el1. destruct (o_succession o) as [c|]; [|tauto]. unfold swap_to_triangular. rewrite set_view_view. cbv zeta. unfold either.
    destruct c; rewrite !in_pairs; (split; [intros ((e & A & B & C) & D)|intros ([(e & A & B & C)|(e & A & B & C)] & D)]);
      try (apply in_map_iff in A; destruct A as (f & A & F); destruct (Nat.ltb_spec (esrc f) (etgt f)), (Nat.ltb_spec (etgt f) (esrc f)); try lia;
           subst e; unfold swap_edge, esrc, etgt in *; cbn [fst snd] in *; (split; [|lia]); try (left; now eauto); right; now eauto).
    all: (split; [|lia]).
    all: eexists; split; [apply in_map_iff; exists e; split; [reflexivity|exact A]|].
    all: destruct (Nat.ltb_spec (esrc e) (etgt e)), (Nat.ltb_spec (etgt e) (esrc e)); try lia; unfold swap_edge, esrc, etgt in *; cbn [fst snd] in *; split; lia.
Qed.
Lemma clean_short lsrt o (el : edge_list unit) : is_lex_sort lsrt -> length (el_view (cb_clean lsrt o el)) <= length (el_view el).
Proof.
  intros LS. unfold cb_clean, remove_self_loops. rewrite set_view_view. etransitivity; [apply filter_length_le|].
  unfold uniq. rewrite set_view_view. set (el1 := match o_succession o with Some c => swap_to_triangular S0 c el | None => el end).
  transitivity (length (el_view (el_sort lsrt el1))).
  - destruct (el_view _) as [|x t]; cbn [std_unique]; auto. apply unique_from_length.
  - unfold el_sort. rewrite set_view_view. rewrite <- (Permutation_length (proj1 (LS _))). subst el1. destruct (o_succession o); auto. unfold swap_to_triangular. rewrite set_view_view. now rewrite map_length.
Qed.

(** * The columns *)
Definition cols_ok (el : edge_list unit) : Prop :=
  el_c0 el = map esrc (el_view el) /\ el_c1 el = map etgt (el_view el) /\ el_ca el = map eatt (el_view el).
Lemma set_view_cols (el : edge_list unit) es : cols_ok (el_set_view el es).
Proof. unfold cols_ok. rewrite set_view_view. repeat split; reflexivity. Qed.
Lemma build_cols_ok W n es : cols_ok (el_build W n es).
Proof. unfold cols_ok. rewrite build_view. apply build_cols. Qed.
Lemma relabel_cols (el el' : edge_list unit) perm ip : relabel el perm = Ok (el', ip) -> cols_ok el'.
Proof.
  unfold relabel. intros H. apply bind_Ok in H. destruct H as (i & _ & H). apply bind_Ok in H. destruct H as (es & _ & H). injection H as <- <-. apply set_view_cols.
Qed.

(** Building the CSR looks at the columns and the cardinality only. *)
Lemma fill_same W srt srt1 directed s (el el' : edge_list unit) cs b :
  el_c0 el = el_c0 el' -> el_c1 el = el_c1 el' -> el_ca el = el_ca el' -> el_card el = el_card el' ->
  fill W srt srt1 directed s el cs b = fill W srt srt1 directed s el' cs b.
Proof.
  destruct el as [c op a1 a2 a3], el' as [c' op' b1 b2 b3]. cbn. intros -> -> -> ->. unfold fill, fill_directed, fill_undirected, degrees_directed, el_num_vertices, el_col. cbn. reflexivity.
Qed.
Lemma adjacency_same W srt srt1 directed s (el : edge_list unit) b : cols_ok el -> el_card el < W ->
  (forall e, In e (el_view el) -> esrc e < el_card el /\ etgt e < el_card el) ->
  el_num_vertices (el_build W (el_card el) (el_view el)) = el_card el /\ ids_ok W (el_view el) /\
  adjacency_of W srt srt1 directed s el b = adjacency_of W srt srt1 directed s (el_build W (el_card el) (el_view el)) b.
Proof.
  intros (C0 & C1 & CA) HW B. assert (ID : ids_ok W (el_view el)) by (intros e I; destruct (B e I); lia).
  destruct (@build_card unit W (el_card el) (el_view el) HW ID) as (L & _ & M). cbv zeta in L, M.
  assert (N : el_num_vertices (el_build W (el_card el) (el_view el)) = el_card el) by (apply Nat.le_antisymm; auto).
  split; auto. split; auto. destruct (build_cols W (el_card el) (el_view el)) as (D0 & D1 & DA).
  unfold adjacency_of. rewrite N. unfold el_num_vertices at 1. apply fill_same; congruence || (unfold el_num_vertices in N; congruence).
Qed.

Lemma rmap_ex A B (f : A -> res B) (P : A -> B -> Prop) l : (forall x, In x l -> exists y, f x = Ok y /\ P x y) ->
  exists ys, rmap f l = Ok ys /\ Forall2 P l ys.
Proof.
  induction l as [|x l IH]; intros H; [exists []; split; [reflexivity|constructor]|].
  destruct (H x (or_introl eq_refl)) as (y & E & Q). destruct IH as (ys & E' & Q'); [intros; apply H; now right|].
  exists (y :: ys). cbn [rmap]. rewrite E. cbn [bind]. rewrite E'. split; [reflexivity|]. now constructor.
Qed.
Lemma forall2_nth A B (P : A -> B -> Prop) l l' d d' : Forall2 P l l' -> length l = length l' /\ forall i, i < length l -> P (nth i l d) (nth i l' d').
Proof.
  induction 1 as [|x y l l' H _ IH]; [split; auto; simpl; lia|]. destruct IH as [L IH]. split; [simpl; congruence|].
  intros [|i] Hi; simpl in *; auto. apply IH. lia.
Qed.
(** The rows below size() when each is a permutation of a given list. *)
Lemma csr_rows_ok (g : csr unit) n (spec : nat -> list (nat * unit)) : csr_size g = n ->
  (forall u, u < csr_size g -> exists row, csr_row g u = Ok row /\ Permutation row (spec u)) ->
  exists rows, csr_rows g = Ok rows /\ length rows = n /\ forall u v, GraphLib.edge rows u v <-> u < n /\ In v (map fst (spec u)).
Proof.
  intros SZ R. destruct (@rmap_ex _ _ (fun u => do row <- csr_row g u; Ok (map fst row)) (fun u row => Permutation row (map fst (spec u))) (seq 0 (csr_size g))) as (rows & E & F).
  - intros u I. apply in_seq in I. destruct (R u) as (row & E & P); [lia|]. exists (map fst row). rewrite E. split; [reflexivity|]. now apply Permutation_map.
  - exists rows. split; auto. destruct (forall2_nth 0 [] F) as [L N]. rewrite seq_length in L, N. split; [congruence|].
    intros u v. unfold GraphLib.edge. destruct (Nat.lt_ge_cases u n) as [H|H].
    + specialize (N u ltac:(lia)). rewrite seq_nth in N by lia. cbn in N. split; [intros I; split; auto; now apply (Permutation_in _ N)|].
      intros (_ & I). now apply (Permutation_in _ (Permutation_sym N)).
    + rewrite nth_overflow by lia. simpl. split; [tauto|lia].
Qed.
Lemma in_spec_row s es u v : In v (map fst (spec_row s es u)) <-> In (match s with S0 => (u, v) | S1 => (v, u) end) (pairs es).
Proof.
  unfold spec_row. rewrite map_map. cbn [fst]. rewrite in_map_iff. destruct s; rewrite in_pairs; split; intros (e & A & B); exists e.
  all: cbn [other_side ekey] in *. all: try (apply filter_In in B; rewrite Nat.eqb_eq in B; tauto).
  all: rewrite filter_In, Nat.eqb_eq; tauto.
Qed.
Lemma in_spec_row_undirected es u v : In v (map fst (spec_row_undirected es u)) <-> either es u v.
Proof.
  unfold spec_row_undirected, either. rewrite !in_pairs, in_map_iff. split.
  - intros ((x, y) & <- & I). apply in_flat_map in I. destruct I as (e & I & J). cbn [fst]. apply in_app_or in J.
    destruct J as [J|J]; [destruct (Nat.eqb_spec (esrc e) u)|destruct (Nat.eqb_spec (etgt e) u)]; try destruct J as [J|[]]; try contradiction; injection J as <- <-; [left|right]; eauto.
  - intros [(e & I & <- & <-)|(e & I & <- & <-)].
    + exists (etgt e, eatt e). split; auto. apply in_flat_map. exists e. split; auto. rewrite Nat.eqb_refl. now left.
    + exists (esrc e, eatt e). split; auto. apply in_flat_map. exists e. split; auto. rewrite Nat.eqb_refl. apply in_or_app. right. now left.
Qed.
(** The CSR of a list with sound columns. *)
Lemma graph_ok W zsrt srt1 (directed : bool) s (el : edge_list unit) : is_sort_by fst zsrt -> cols_ok el -> el_card el < W -> 2 * length (el_view el) < W ->
  (forall e, In e (el_view el) -> esrc e < el_card el /\ etgt e < el_card el) ->
  exists g rows, adjacency_of W zsrt srt1 directed s el false = Ok g /\ csr_size g = el_card el /\ csr_N g = el_card el + 1 /\ csr_iterate g = Ub /\
    csr_rows g = Ok rows /\ length rows = el_card el /\
    forall u v, GraphLib.edge rows u v <-> if directed then In (match s with S0 => (u, v) | S1 => (v, u) end) (pairs (el_view el)) else either (el_view el) u v.
Proof.
  intros HS HC HW HL B. destruct (@adjacency_same W zsrt srt1 directed s el false HC HW B) as (N & ID & E). rewrite E.
  destruct (@C04_full_iteration_out_of_bounds unit W zsrt srt1 directed s (el_card el) (el_view el) HS HW ID HL) as (g & EG & SZ & CN & IT). rewrite N in SZ.
  assert (P : forall u v, In (u, v) (pairs (el_view el)) -> u < el_card el /\ v < el_card el) by (intros u v I; apply in_pairs in I; destruct I as (e & I & <- & <-); auto).
  destruct directed.
  - destruct (@C02_directed_csr_exact unit W zsrt srt1 s (el_card el) 0 (el_view el) HS HW ID ltac:(lia)) as ((g' & EG' & _ & _ & R) & _).
    rewrite EG in EG'. injection EG' as <-. destruct (@csr_rows_ok g _ _ SZ R) as (rows & ER & LR & ED). exists g, rows. repeat split; auto; try lia.
    + intros I. apply ED in I. now apply in_spec_row.
    + intros I. apply ED. split; [|now apply in_spec_row]. destruct s; apply P in I; tauto.
  - destruct (@C03_undirected_csr_exact unit W zsrt srt1 s (el_card el) (el_view el) HS HW ID HL) as (g' & EG' & _ & _ & R).
    rewrite EG in EG'. injection EG' as <-. destruct (@csr_rows_ok g _ _ SZ R) as (rows & ER & LR & ED). exists g, rows. repeat split; auto; try lia.
    + intros I. apply ED in I. now apply in_spec_row_undirected.
    + intros I. apply ED. split; [|now apply in_spec_row_undirected]. destruct I as [I|I]; apply P in I; tauto.
Qed.

(** * Preparation *)
Definition degree_of (o : cb_opts) (es : list uedge) (v : nat) : nat :=
  if o_symmetric o then length (filter (fun e => esrc e =? v) es) + length (filter (fun e => etgt e =? v) es) else length (filter (fun e => esrc e =? v) es).
Lemma degrees_ok W o n es : n < W -> ids_ok W es -> 2 * length es < W -> let el := el_build W n es in
  exists d, cb_degrees W (o_symmetric o) el = Ok d /\ length d = el_card el /\ forall v, v < length d -> nth v d 0 = degree_of o es v.
Proof.
  intros Hn He HW el. unfold cb_degrees, degree_of. destruct (o_symmetric o).
  - destruct (degrees_undirected_ok Hn He HW) as (d & E & L & N & _). exists d. split; auto.
  - destruct (@degrees_directed_ok unit W n S0 es Hn He ltac:(lia)) as (d & E & L & N & _). exists d. split; auto.
Qed.
Lemma rename_pairs n p es u v : Permutation p (seq 0 n) -> (forall e, In e es -> esrc e < n /\ etgt e < n) -> u < n -> v < n ->
  In (nth u p 0, nth v p 0) (pairs (rename p es)) <-> In (u, v) (pairs es).
Proof.
  intros P B Hu Hv. rewrite !in_pairs. unfold rename. split.
  - intros (f & I & E1 & E2). apply in_map_iff in I. destruct I as (e & <- & I). destruct (B e I) as [B1 B2]. exists e. split; auto.
    unfold esrc at 1 in E1. unfold etgt at 1 in E2. cbn [fst snd] in E1, E2. split; eapply perm_inj; eauto.
  - intros (e & I & <- & <-). eexists. split; [apply in_map_iff; exists e; split; [reflexivity|exact I]|]. split; reflexivity.
Qed.
Lemma rename_id n es : (forall e, In e es -> esrc e < n /\ etgt e < n) -> rename (seq 0 n) es = es.
Proof.
  intros B. unfold rename. rewrite <- (map_id es) at 2. apply map_ext_in. intros e I. destruct (B e I). rewrite !seq_nth by auto. destruct e as ((a, b), x). reflexivity.
Qed.
Lemma prepare_ok W srt lsrt o n es :
  (forall d, is_sort_lt (deg_lt d) (srt (deg_lt d))) -> (forall d, is_sort_lt (deg_gt d) (srt (deg_gt d))) -> is_lex_sort lsrt ->
  n < W -> ids_ok W es -> 2 * length es < W -> let el := el_build W n es in
  exists el1 el2 p, cb_prepare W srt lsrt o el = Ok el2 /\ el2 = (if o_clean o then cb_clean lsrt o el1 else el1) /\ cols_ok el1 /\
    el_card el1 = el_card el /\ Permutation p (seq 0 (el_card el)) /\ el_view el1 = rename p es /\
    (o_relabel o = false \/ o_direction o = unknown_direction -> p = seq 0 (el_card el)) /\
    (o_relabel o = true -> forall u v, u < el_card el -> v < el_card el -> nth u p 0 < nth v p 0 ->
       match o_direction o with ascending => degree_of o es u <= degree_of o es v | descending => degree_of o es v <= degree_of o es u | unknown_direction => True end).
Proof.
  intros Ha Hd Hl Hn He HW el. unfold cb_prepare. destruct (@degrees_ok W o n es Hn He HW) as (d & E & L & N). fold el in E, L. rewrite E. cbn [bind].
  destruct (build_card es Hn He) as (_ & B & _). unfold el_num_vertices in B. fold el in B.
  destruct (o_relabel o) eqn:OR.
  - unfold cb_relabel. assert (E' : (if length d =? 0 then cb_degrees W (o_symmetric o) el else Ok d) = Ok d) by (destruct (length d =? 0); auto). rewrite E'. cbn [bind].
    destruct (@perm_by_degree_sorted srt d (o_direction o) (Ha d) (Hd d)) as (HP & S1 & S2 & S3). set (q := perm_by_degree srt d (o_direction o)) in *. rewrite L in HP.
    destruct (@relabel_ok unit (el_card el) el q HP) as (el' & ip & R & C & PI & POS & V).
    { unfold el at 1. rewrite build_view. exact B. }
    rewrite R. cbn [bind fst]. unfold el in V at 1. rewrite build_view in V. exists el'. eexists. exists ip. split; [reflexivity|]. split; auto. split; [eapply relabel_cols; exact R|].
    split; auto. split; auto. split; auto.
    assert (Q : forall v, v < el_card el -> nth (nth v ip 0) q 0 = v) by (intros v Hv; apply nth_error_nth; apply (POS v Hv)).
    split.
    + intros [X|X]; [discriminate|]. specialize (S3 X). apply nth_ext with 0 0; [rewrite seq_length, (Permutation_length PI), seq_length; auto|]. intros v Hv.
      rewrite (Permutation_length PI), seq_length in Hv. rewrite seq_nth by auto. specialize (Q v Hv). rewrite S3 in Q. rewrite seq_nth in Q; auto. rewrite L. eapply perm_lt; eauto.
    + intros _ u v Hu Hv Lt. destruct (o_direction o) eqn:OD; auto; rewrite <- !N by lia; rewrite <- (Q u Hu), <- (Q v Hv); [apply S2|apply S1]; auto; rewrite L; eapply perm_lt; eauto.
  - cbn [bind]. exists el. eexists. exists (seq 0 (el_card el)). split; [reflexivity|]. split; auto. split; [apply build_cols_ok|]. split; auto. split; auto. split; [|split; auto; discriminate].
    unfold el at 1. rewrite build_view, rename_id; auto.
Qed.

(** The arcs of the prepared list. *)
Definition arcs_of (o : cb_opts) (l : list uedge) (a b : nat) : Prop := if o_symmetric o then either l a b else In (a, b) (pairs l).
Lemma prepared_arcs lsrt o el1 p n es : is_lex_sort lsrt -> Permutation p (seq 0 n) -> (forall e, In e es -> esrc e < n /\ etgt e < n) -> el_view el1 = rename p es ->
  forall u v, u < n -> v < n -> arcs_of o (el_view (if o_clean o then cb_clean lsrt o el1 else el1)) (nth u p 0) (nth v p 0) <-> wanted o es p u v.
Proof.
  intros LS P B V u v Hu Hv. assert (INJ : nth u p 0 = nth v p 0 <-> u = v) by (split; [apply (perm_inj P); auto|congruence]).
  assert (R1 := @rename_pairs n p es u v P B Hu Hv). assert (R2 := @rename_pairs n p es v u P B Hv Hu).
  assert (T : nth u p 0 <> nth v p 0 <-> nth u p 0 < nth v p 0 \/ nth v p 0 < nth u p 0) by lia.
  assert (C1 := @clean_view lsrt o el1 (nth u p 0) (nth v p 0) LS). assert (C2 := @clean_view lsrt o el1 (nth v p 0) (nth u p 0) LS). unfold either in C1, C2. rewrite V in C1, C2.
  unfold arcs_of, wanted, either. destruct (o_clean o).
  - destruct (o_symmetric o), (o_succession o) as [[]|]; tauto || intuition (auto; lia).
  - rewrite V. destruct (o_symmetric o); [|tauto]. intuition discriminate.
Qed.

(** * Connectivity *)
Lemma wanted_conn o es p n rows : Permutation p (seq 0 n) -> (forall e, In e es -> esrc e < n /\ etgt e < n) -> length rows = n -> targets_ok rows ->
  (forall u v, u < n -> v < n -> GraphLib.edge rows (nth u p 0) (nth v p 0) <-> wanted o es p u v) ->
  forall u v, u < n -> v < n -> conn (gedges rows) (nth u p 0) (nth v p 0) <-> conn (pairs es) u v.
Proof.
  intros P B L HT ED u v Hu Hv.
  assert (BP : forall a b, In (a, b) (pairs es) -> a < n /\ b < n) by (intros a b I; apply in_pairs in I; destruct I as (e & I & <- & <-); auto).
  assert (PRE : forall a, a < n -> exists w, w < n /\ nth w p 0 = a).
  { intros a Ha. assert (I : In a p) by (apply (Permutation_in _ (Permutation_sym P)), in_seq; lia). apply In_nth with (d := 0) in I.
    destruct I as (w & Hw & E). rewrite (Permutation_length P), seq_length in Hw. eauto. }
  assert (WC : forall a b, wanted o es p a b -> conn (pairs es) a b).
  { intros a b H. unfold wanted, either in H. assert (C1 := fun I => @conn_edge (pairs es) a b I). assert (C2 := fun I => conn_sym (@conn_edge (pairs es) b a I)).
    destruct (o_symmetric o), (o_clean o), (o_succession o) as [[]|]; tauto. }
  assert (CW : forall a b, In (a, b) (pairs es) -> a = b \/ wanted o es p a b \/ wanted o es p b a).
  { intros a b I. destruct (Nat.eq_dec a b); auto. right. destruct (BP a b I) as [Ha Hb].
    assert (NE : nth a p 0 <> nth b p 0) by (intros X; apply (perm_inj P) in X; auto).
    assert (T : nth a p 0 < nth b p 0 \/ nth b p 0 < nth a p 0) by lia.
    unfold wanted, either. destruct (o_symmetric o), (o_clean o), (o_succession o) as [[]|]; tauto. }
  split; intros C.
  - assert (Y : exists w, w < n /\ nth w p 0 = nth v p 0 /\ conn (pairs es) u w).
    { apply (@conn_closed (gedges rows) (fun a => exists w, w < n /\ nth w p 0 = a /\ conn (pairs es) u w) (nth u p 0) (nth v p 0)); auto.
      - intros a b I. apply in_gedges in I. assert (Hb : b < n) by (rewrite <- L; eapply HT; eauto). assert (Ha : a < n) by (rewrite <- L; apply edge_lt with b; auto).
        destruct (PRE a Ha) as (x & Hx & <-). destruct (PRE b Hb) as (y & Hy & <-). apply ED in I; auto. apply WC in I.
        split; intros (w & Hw & E & K); apply (perm_inj P) in E; auto; subst w; [exists y|exists x]; repeat split; auto; eapply conn_trans; eauto. now apply conn_sym.
      - exists u. repeat split; auto. apply conn_refl. }
    destruct Y as (w & Hw & E & K). apply (perm_inj P) in E; auto. now subst w.
  - apply (@conn_closed (pairs es) (fun w => conn (gedges rows) (nth u p 0) (nth w p 0)) u v); [|exact C|apply conn_refl].
    intros a b I. destruct (BP a b I) as [Ha Hb].
    assert (K : conn (gedges rows) (nth a p 0) (nth b p 0)).
    { destruct (CW a b I) as [->|[H|H]]; [apply conn_refl|apply conn_edge, in_gedges, ED; auto|apply conn_sym, conn_edge, in_gedges, ED; auto]. }
    split; intros Q; eapply conn_trans; eauto. now apply conn_sym.
Qed.

(** * The reader *)
Definition is_env (W n : nat) (es : list uedge) srt (lsrt : list uedge -> list uedge) (zsrt : list (nat * (nat * unit)) -> list (nat * (nat * unit))) : Prop :=
  (forall d, is_sort_lt (deg_lt d) (srt (deg_lt d))) /\ (forall d, is_sort_lt (deg_gt d) (srt (deg_gt d))) /\ is_lex_sort lsrt /\ is_sort_by fst zsrt /\
  n < W /\ ids_ok W es /\ 2 * length es < W.
Lemma card_lt W n (es : list uedge) : n < W -> ids_ok W es -> el_card (el_build W n es) < W.
Proof.
  intros Hn He. destruct (build_card es Hn He) as (_ & _ & M). cbv zeta in M. unfold el_num_vertices in M.
  apply Nat.le_lt_trans with (W - 1); [|lia]. apply M; [lia|]. intros e I. destruct (He e I). lia.
Qed.
Lemma reader_ok W srt lsrt zsrt srt1 o n es : is_env W n es srt lsrt zsrt -> let el := el_build W n es in let N := el_num_vertices el in
  exists g t rows trows p, cb_reader W srt lsrt zsrt srt1 o el = Ok (g, t) /\ csr_size g = N /\ csr_N g = N + 1 /\ csr_iterate g = Ub /\
    csr_rows g = Ok rows /\ csr_rows t = Ok trows /\ length rows = N /\ targets_ok rows /\ Permutation p (seq 0 N) /\
    (forall u v, u < N -> v < N -> GraphLib.edge rows (nth u p 0) (nth v p 0) <-> wanted o es p u v) /\
    (forall u v, u < N -> v < N -> conn (gedges rows) (nth u p 0) (nth v p 0) <-> conn (pairs es) u v) /\
    (if o_symmetric o then trows = [] /\ (forall u v, GraphLib.edge rows u v -> GraphLib.edge rows v u) else transpose_of rows trows) /\
    (o_relabel o = false \/ o_direction o = unknown_direction -> p = seq 0 N) /\
    (o_relabel o = true -> forall u v, u < N -> v < N -> nth u p 0 < nth v p 0 ->
       match o_direction o with ascending => degree_of o es u <= degree_of o es v | descending => degree_of o es v <= degree_of o es u | unknown_direction => True end).
Proof.
  intros (Ha & Hd & Hl & Hz & Hn & He & HW) el N.
  destruct (@prepare_ok W srt lsrt o n es Ha Hd Hl Hn He HW) as (el1 & el2 & p & EP & E2 & C1 & CD & P & V & ID & DG). fold el in EP, CD, P, ID, DG. change (el_card el) with N in *.
  destruct (build_card es Hn He) as (_ & B & _). fold el N in B. cbv zeta in B.
  assert (B1 : forall e, In e (el_view el1) -> esrc e < N /\ etgt e < N) by (rewrite V; now apply rename_bound).
  assert (BP1 : forall a b, In (a, b) (pairs (el_view el1)) -> a < N /\ b < N) by (intros a b I; apply in_pairs in I; destruct I as (e & I & <- & <-); auto).
  assert (K : cols_ok el2 /\ el_card el2 = N /\ length (el_view el2) <= length es /\ forall a b, In (a, b) (pairs (el_view el2)) -> a < N /\ b < N).
  { assert (LV : length (el_view el1) = length es) by (rewrite V; unfold rename; apply map_length). subst el2. destruct (o_clean o).
    - split; [apply set_view_cols|]. split; [unfold cb_clean; destruct (o_succession o); exact CD|]. split; [rewrite <- LV; now apply clean_short|].
      intros a b I. apply clean_view in I; auto. unfold either in I. assert (X1 := BP1 a b). assert (X2 := BP1 b a). destruct (o_succession o) as [[]|]; tauto.
    - split; auto. split; auto. split; auto. lia. }
  destruct K as (C2 & CD2 & L2 & BP2).
  assert (B2 : forall e, In e (el_view el2) -> esrc e < el_card el2 /\ etgt e < el_card el2) by (intros e I; rewrite CD2; apply BP2, in_pairs; eauto).
  assert (HN : N < W) by (apply card_lt; auto).
  destruct (@graph_ok W zsrt srt1 (negb (o_symmetric o)) S0 el2 Hz C2 ltac:(lia) ltac:(lia) B2) as (g & rows & EG & SZ & CN & IT & ER & LR & ED). rewrite CD2 in SZ, CN, LR.
  assert (AR : forall a b, GraphLib.edge rows a b <-> arcs_of o (el_view el2) a b) by (intros a b; rewrite ED; unfold arcs_of; destruct (o_symmetric o); cbn; tauto).
  assert (HT : targets_ok rows).
  { intros a b I. apply AR in I. rewrite LR. unfold arcs_of, either in I. assert (X1 := BP2 a b). assert (X2 := BP2 b a). destruct (o_symmetric o); tauto. }
  assert (WT : forall u v, u < N -> v < N -> GraphLib.edge rows (nth u p 0) (nth v p 0) <-> wanted o es p u v).
  { intros u v Hu Hv. rewrite AR, E2. now apply prepared_arcs with N. }
  unfold cb_reader. rewrite EP. cbn [bind]. rewrite EG. cbn [bind].
  destruct (o_symmetric o) eqn:OS.
  - exists g, (csr_new 0), rows, [], p. cbn [bind]. split; auto. repeat (split; [now auto|]). split; [now apply wanted_conn with (o := o)|].
    split; [|split; auto]. split; auto. intros u v I. apply AR in I. apply AR. unfold arcs_of, either in *. rewrite OS in *. tauto.
  - destruct (@graph_ok W zsrt srt1 true S1 el2 Hz C2 ltac:(lia) ltac:(lia) B2) as (t & trows & ET & _ & _ & _ & ERT & LRT & EDT). rewrite CD2 in LRT. rewrite ET. cbn [bind].
    exists g, t, rows, trows, p. split; auto. repeat (split; [now auto|]). split; [now apply wanted_conn with (o := o)|]. split; [|split; auto].
    split; [congruence|]. intros u v. rewrite EDT, ED. cbn. tauto.
Qed.

(** * Counting labels *)
Lemma count_add_in W i m j c : NoDup (map fst m) -> In (j, c) (count_add W i m) <->
  (j <> i /\ In (j, c) m) \/ (j = i /\ ((exists c0, In (i, c0) m /\ c = (c0 + 1) mod W) \/ (~ In i (map fst m) /\ c = 1 mod W))).
Proof.
  induction m as [|(a, b) m IH]; intros ND; cbn [count_add map fst In].
  - split; [intros [E|[]]; injection E as <- <-; right; split; auto|]. intros [(_ & [])|(-> & [(c0 & [] & _)|(_ & ->)])]. now left.
  - cbn [map fst] in ND. inversion ND as [|? ? NI ND']; subst. specialize (IH ND'). cbn [fst snd].
    assert (X : forall c, In (a, c) m -> False) by (intros c' I; apply NI, in_map_iff; exists (a, c'); auto).
    destruct (Nat.eqb_spec a i) as [->|NE]; cbn [In].
    + split.
      * intros [E|I]; [injection E as <- <-; right; split; auto; left; exists b; auto|]. left. split; auto. intros ->. eapply X; eauto.
      * intros [(N & [E|I])|(-> & [(c0 & [E|I] & ->)|(N & _)])]; auto; [injection E as <- <-; congruence|injection E as <-; auto|destruct (X _ I)|destruct N; auto].
    + rewrite IH. split.
      * intros [E|[(N & I)|(-> & [(c0 & I & ->)|(N & ->)])]]; auto; [injection E as <- <-; left; auto|right; split; auto; left; exists c0; auto|right; split; auto; right; split; auto; intros [Q|Q]; auto].
      * intros [(N & [E|I])|(-> & [(c0 & [E|I] & ->)|(N & ->)])]; auto; try (injection E; congruence); [right; right; split; auto; left; exists c0; auto|right; right; split; auto; right; split; auto].
Qed.
Lemma count_add_keys W i m : map fst (count_add W i m) = if existsb (Nat.eqb i) (map fst m) then map fst m else map fst m ++ [i].
Proof.
  induction m as [|(a, b) m IH]; cbn [count_add map fst existsb app]; auto. cbn [fst]. rewrite (Nat.eqb_sym i a). destruct (Nat.eqb_spec a i) as [->|]; cbn [map fst orb]; auto.
  rewrite IH. destruct (existsb _ _); auto.
Qed.
Lemma count_labels_ok W comp : length comp < W ->
  NoDup (map fst (count_labels W comp)) /\ (forall i c, In (i, c) (count_labels W comp) <-> In i comp /\ c = count_occ Nat.eq_dec comp i).
Proof.
  unfold count_labels. induction comp as [|x comp IH] using rev_ind; intros HW.
  - split; [constructor|]. intros i c. split; [intros []|intros ([] & _)].
  - rewrite app_length in HW. cbn [length] in HW. destruct IH as [ND IN]; [lia|]. rewrite fold_left_app. cbn [fold_left]. set (m := fold_left _ comp []) in *.
    assert (KEY : forall i, In i (map fst m) <-> In i comp).
    { intros i. rewrite in_map_iff. split; [intros ((j, c) & <- & I); apply IN in I; tauto|]. intros I. exists (i, count_occ Nat.eq_dec comp i). split; auto. apply IN. auto. }
    assert (CO : forall i, count_occ Nat.eq_dec (comp ++ [x]) i = count_occ Nat.eq_dec comp i + (if Nat.eq_dec x i then 1 else 0)).
    { intros i. rewrite count_occ_app. cbn [count_occ]. destruct (Nat.eq_dec x i); auto. }
    split.
    + rewrite count_add_keys. destruct (existsb (Nat.eqb x) (map fst m)) eqn:E; auto. apply NoDup_rev in ND. rewrite <- (rev_involutive (map fst m ++ [x])). apply NoDup_rev. rewrite rev_app_distr. cbn [rev app].
      constructor; auto. rewrite <- in_rev. intros I. enough (existsb (Nat.eqb x) (map fst m) = true) by congruence. apply existsb_exists. exists x. split; auto. apply Nat.eqb_refl.
    + intros i c. rewrite count_add_in by auto. rewrite CO, in_app_iff. cbn [In]. rewrite KEY. split.
      * intros [(N & I)|(-> & [(c0 & I & ->)|(N & ->)])].
        -- apply IN in I. destruct I as [I ->]. split; auto. destruct (Nat.eq_dec x i); lia.
        -- apply IN in I. destruct I as [I ->]. split; auto. destruct (Nat.eq_dec x x); [|congruence]. apply Nat.mod_small. pose proof (count_occ_bound Nat.eq_dec x comp). lia.
        -- split; auto. destruct (Nat.eq_dec x x); [|congruence]. rewrite (proj1 (count_occ_not_In Nat.eq_dec comp x) N). apply Nat.mod_small. lia.
      * intros (I & ->). destruct (Nat.eq_dec x i) as [<-|N].
        -- right. split; auto. destruct (in_dec Nat.eq_dec x comp) as [J|J].
           ++ left. exists (count_occ Nat.eq_dec comp x). split; [apply IN; auto|]. symmetry. apply Nat.mod_small. pose proof (count_occ_bound Nat.eq_dec x comp). lia.
           ++ right. split; auto. rewrite (proj1 (count_occ_not_In Nat.eq_dec comp x) J). symmetry. apply Nat.mod_small. lia.
        -- left. split; auto. rewrite Nat.add_0_r. apply IN. split; auto. destruct I as [I|[I|[]]]; congruence || auto.
Qed.
Lemma sorted_split A (R : A -> A -> Prop) l1 l2 : StronglySorted R (l1 ++ l2) -> StronglySorted R l1 /\ forall a b, In a l1 -> In b l2 -> R a b.
Proof.
  induction l1 as [|x l1 IH]; cbn [app]; intros S; [split; [constructor|intros a b []]|]. inversion S as [|? ? S' F]; subst. destruct (IH S') as [S1 H]. rewrite Forall_forall in F. split.
  - constructor; auto. apply Forall_forall. intros y I. apply F. apply in_or_app. auto.
  - intros a b [<-|I] J; auto. apply F. apply in_or_app. auto.
Qed.
