(** Degree vectors, and the combined statements about graphs built from edge lists. *)
From Coq Require Import List Arith Lia Permutation Sorting.Sorted Bool.
From Verif Require Import Base EdgeListModel CsrModel EdgeListProofs CsrProofs CsrProofs2 CsrProofs3.
Import ListNotations.
Set Implicit Arguments.

(** Number of edges of [es] whose endpoint [s] is [v] (specification). *)
Definition edge_count {A} (s : side) (es : list (edge A)) (v : nat) : nat :=
  length (filter (fun e => ekey s e =? v) es).

Lemma cnt_map_key A s (es : list (edge A)) v : cnt (map (ekey s) es) v = edge_count s es v.
Proof. unfold cnt, edge_count. rewrite filter_map, map_length. reflexivity. Qed.

Lemma sum_cnt l n : (forall v, In v l -> v < n) -> sum (map (cnt l) (seq 0 n)) = length l.
Proof.
  induction l as [|x l IH]; intros H.
  - apply sum_map_0. reflexivity.
  - assert (E : sum (map (cnt (x :: l)) (seq 0 n)) = sum (map (fun v => (if x =? v then 1 else 0) + cnt l v) (seq 0 n))).
    { apply sum_map_ext. intros v _. unfold cnt. simpl. destruct (x =? v); reflexivity. }
    rewrite E, sum_map_add, IH by (intros; apply H; now right). simpl. f_equal.
    assert (Hx : x < n) by (apply H; now left).
    assert (G : forall k a, a <= x -> x < a + k -> sum (map (fun v => if x =? v then 1 else 0) (seq a k)) = 1).
    { induction k; intros a Ha Hk; [lia|]. simpl. destruct (Nat.eqb_spec x a).
      - subst. rewrite sum_map_0; [lia|]. intros v Hv. apply in_seq in Hv. destruct (Nat.eqb_spec a v); lia.
      - rewrite IHk; lia. }
    rewrite G; lia.
Qed.

Lemma degrees_directed_ok A W n s (es : list (edge A)) :
  n < W -> ids_ok W es -> length es < W ->
  exists d, degrees_directed W s (el_build W n es) = Ok d /\
    length d = el_num_vertices (el_build W n es) /\
    (forall v, v < length d -> nth v d 0 = edge_count s es v) /\ sum d = length es.
Proof.
  intros Hn He HW. unfold degrees_directed. rewrite build_col.
  assert (K : forall v, In v (map (ekey s) es) -> v < el_num_vertices (el_build W n es)).
  { intros k Hk. apply in_map_iff in Hk as (e & <- & Hin). now apply build_key_lt. }
  unfold el_num_vertices in K |- *. rewrite rfold_incr_zeros; auto.
  2:{ now rewrite map_length. }
  eexists. split; [reflexivity|]. rewrite map_length, seq_length. repeat split.
  - intros v Hv. rewrite nth_map_seq by auto. apply cnt_map_key.
  - rewrite sum_cnt by auto. apply map_length.
Qed.

Lemma degrees_undirected_flat W (prs : list (nat * nat)) d :
  rfold (fun d e => do d' <- incr W d (fst e); incr W d' (snd e)) prs d =
  rfold (incr W) (flat_map (fun e => [fst e; snd e]) prs) d.
Proof.
  revert d. induction prs as [|e prs IH]; intros d; [reflexivity|]. cbn [rfold flat_map app].
  destruct (incr W d (fst e)); cbn [bind]; auto. destruct (incr W a (snd e)); cbn [bind]; auto.
Qed.

Lemma flat_ends_perm (prs : list (nat * nat)) :
  Permutation (flat_map (fun e => [fst e; snd e]) prs) (map fst prs ++ map snd prs).
Proof.
  induction prs as [|e prs IH]; simpl; auto. constructor.
  eapply perm_trans; [|apply Permutation_middle]. now constructor.
Qed.

Lemma degrees_undirected_ok A W n (es : list (edge A)) :
  n < W -> ids_ok W es -> 2 * length es < W ->
  exists d, degrees_undirected W (el_build W n es) = Ok d /\
    length d = el_num_vertices (el_build W n es) /\
    (forall v, v < length d -> nth v d 0 = edge_count S0 es v + edge_count S1 es v) /\
    sum d = 2 * length es.
Proof.
  intros Hn He HW. unfold degrees_undirected.
  destruct (build_cols W n es) as (H0 & H1 & _). rewrite H0, H1, combine_map, degrees_undirected_flat.
  set (prs := map (fun x : edge A => (esrc x, etgt x)) es).
  assert (P : Permutation (map (ekey S0) es ++ map (ekey S1) es) (flat_map (fun e => [fst e; snd e]) prs)).
  { eapply Permutation_trans; [|apply Permutation_sym, flat_ends_perm]. unfold prs. rewrite !map_map. simpl. apply Permutation_refl. }
  assert (K : forall v, In v (map (ekey S0) es ++ map (ekey S1) es) -> v < el_num_vertices (el_build W n es)).
  { intros v Hv. apply in_app_or in Hv as [Hv|Hv]; apply in_map_iff in Hv as (e & <- & Hin); now apply build_key_lt. }
  assert (LL : length (map (ekey S0) es ++ map (ekey S1) es) = 2 * length es) by (rewrite app_length, !map_length; lia).
  unfold el_num_vertices in K |- *.
  rewrite (incr_schedule (W := W) P K) by lia.
  rewrite rfold_incr_zeros by (auto; lia).
  eexists. split; [reflexivity|]. rewrite map_length, seq_length. repeat split.
  - intros v Hv. rewrite nth_map_seq by auto. rewrite cnt_app, !cnt_map_key. reflexivity.
  - rewrite sum_cnt by auto. exact LL.
Qed.

(** Every schedule of the atomic increments of the parallel loop: any reordering of the increments. *)
Lemma degrees_any_schedule A W n s (es : list (edge A)) sched :
  n < W -> ids_ok W es -> length es < W -> Permutation (map (ekey s) es) sched ->
  rfold (incr W) sched (repeat 0 (el_num_vertices (el_build W n es))) = degrees_directed W s (el_build W n es).
Proof.
  intros Hn He HW P. unfold degrees_directed. rewrite build_col.
  apply incr_schedule; auto.
  - intros k Hk. apply in_map_iff in Hk as (e & <- & Hin). now apply build_key_lt.
  - now rewrite map_length.
Qed.

Lemma degrees_undirected_any_schedule A W n (es : list (edge A)) sched :
  n < W -> ids_ok W es -> 2 * length es < W -> Permutation (map (ekey S0) es ++ map (ekey S1) es) sched ->
  rfold (incr W) sched (repeat 0 (el_num_vertices (el_build W n es))) = degrees_undirected W (el_build W n es).
Proof.
  intros Hn He HW P. unfold degrees_undirected.
  destruct (build_cols W n es) as (H0 & H1 & _). rewrite H0, H1, combine_map, degrees_undirected_flat.
  assert (K : forall v, In v (map (ekey S0) es ++ map (ekey S1) es) -> v < el_num_vertices (el_build W n es)).
  { intros v Hv. apply in_app_or in Hv as [Hv|Hv]; apply in_map_iff in Hv as (e & <- & Hin); now apply build_key_lt. }
  rewrite (incr_schedule (W := W) P K) by (rewrite app_length, !map_length; lia). symmetry. apply incr_schedule; auto.
  - eapply Permutation_trans; [|apply Permutation_sym, flat_ends_perm]. rewrite !map_map. simpl. apply Permutation_refl.
  - rewrite app_length, !map_length. lia.
Qed.

(** ------------------------------------------------------------ statements through csr_row *)
Lemma adjacency_directed_rows A W srt srt1 s n N0 (es : list (edge A)) :
  is_sort_by fst srt -> n < W -> ids_ok W es -> length es < W ->
  exists g, fill W srt srt1 true s (el_build W n es) (csr_new N0) false = Ok g /\
    csr_size g = el_num_vertices (el_build W n es) /\ csr_num_edges g = length es /\ csr_N g = N0 /\
    forall u, u < csr_size g -> exists row, csr_row g u = Ok row /\ Permutation row (spec_row s es u).
Proof.
  intros Hs Hn He HW. unfold fill.
  destruct (fill_directed_ok s (csr_new N0) Hs Hn He HW) as (g & rows & E & N & R & L & P & T).
  rewrite E. cbn [bind]. exists g. rewrite (repr_size R). repeat split; auto.
  intros u Hu. exists (nth u rows []). split; auto. now apply repr_row.
Qed.

Lemma adjacency_undirected_rows A W srt srt1 s n N0 (es : list (edge A)) :
  is_sort_by fst srt -> n < W -> ids_ok W es -> 2 * length es < W ->
  exists g, fill W srt srt1 false s (el_build W n es) (csr_new N0) false = Ok g /\
    csr_size g = el_num_vertices (el_build W n es) /\ csr_num_edges g = 2 * length es /\ csr_N g = N0 /\
    forall u, u < csr_size g -> exists row, csr_row g u = Ok row /\ Permutation row (spec_row_undirected es u).
Proof.
  intros Hs Hn He HW. unfold fill.
  destruct (fill_undirected_ok s (csr_new N0) Hs Hn He HW) as (g & rows & E & N & R & L & P & T).
  rewrite E. cbn [bind]. exists g. rewrite (repr_size R). repeat split; auto.
  intros u Hu. exists (nth u rows []). split; auto. now apply repr_row.
Qed.

Lemma spec_row_undirected_count A (eqb : nat * A -> nat * A -> bool) (es : list (edge A)) u v a :
  (forall x y, eqb x y = true <-> x = y) ->
  length (filter (eqb (v, a)) (spec_row_undirected es u)) = length (filter (eqb (u, a)) (spec_row_undirected es v)).
Proof.
  intros Heqb. unfold spec_row_undirected. induction es as [|[[i j] b] es IH]; simpl; auto.
  rewrite !filter_app, !app_length, IH. f_equal.
  unfold esrc, etgt, eatt. simpl.
  assert (R : forall x y, eqb x y = if eqb x y then true else false) by (intros; destruct (eqb x y); auto).
  assert (EQ : forall p q (c d : A), eqb (p, c) (q, d) = true <-> p = q /\ c = d).
  { intros. rewrite Heqb. split; [intros X; inversion X; auto|intros [-> ->]; auto]. }
  destruct (Nat.eqb_spec i u), (Nat.eqb_spec j u), (Nat.eqb_spec i v), (Nat.eqb_spec j v); subst; simpl;
    repeat match goal with |- context [if eqb ?x ?y then _ else _] => destruct (eqb x y) eqn:?; simpl end;
    repeat match goal with H : eqb _ _ = true |- _ => apply EQ in H as [? ?]; subst end;
    repeat match goal with H : eqb (?p, ?c) (?p, ?c) = false |- _ =>
      exfalso; assert (eqb (p, c) (p, c) = true) by (now apply EQ); congruence end;
    try congruence; auto.
Qed.

(** The number of entries equal to (v,a) in the row of u equals the number of entries (u,a) in the row of v. *)
Lemma adjacency_undirected_symmetric A (eqb : nat * A -> nat * A -> bool) W srt srt1 s n N0 (es : list (edge A)) g :
  (forall x y, eqb x y = true <-> x = y) ->
  is_sort_by fst srt -> n < W -> ids_ok W es -> 2 * length es < W ->
  fill W srt srt1 false s (el_build W n es) (csr_new N0) false = Ok g ->
  forall u v a ru rv, csr_row g u = Ok ru -> csr_row g v = Ok rv ->
    length (filter (eqb (v, a)) ru) = length (filter (eqb (u, a)) rv).
Proof.
  intros Heqb Hs Hn He HW E u v a ru rv Hu Hv.
  destruct (adjacency_undirected_rows srt1 s N0 Hs Hn He HW) as (g' & E' & SZ & _ & _ & R).
  rewrite E in E'. inversion E'; subst g'.
  assert (B : forall x r, csr_row g x = Ok r -> x < csr_size g).
  { intros x r Hx. unfold csr_row in Hx. destruct (vget (csr_ind g) x); simpl in Hx; try discriminate.
    destruct (vget (csr_ind g) (x + 1)) eqn:Q; simpl in Hx; try discriminate.
    apply vget_Ok_lt in Q. unfold csr_size. lia. }
  destruct (R u (B _ _ Hu)) as (ru' & E1 & P1). destruct (R v (B _ _ Hv)) as (rv' & E2 & P2).
  rewrite Hu in E1. rewrite Hv in E2. inversion E1; inversion E2; subst.
  rewrite (Permutation_length (Permutation_filter _ P1)), (Permutation_length (Permutation_filter _ P2)).
  now apply spec_row_undirected_count.
Qed.

(** Sorted adjacency without attributes of interest: targets of each row are sorted. *)
Lemma sorted_adjacency_rows A srt (g : csr A) rows :
  is_sort_by (fun x => x) srt -> csr_repr g rows ->
  exists g', sort_to_be_indexed srt g = Ok g' /\ csr_size g' = csr_size g /\
   forall u, u < csr_size g -> exists r r', csr_row g u = Ok r /\ csr_row g' u = Ok r' /\
      Permutation (map fst r) (map fst r') /\ StronglySorted le (map fst r') /\ map snd r' = map snd r.
Proof.
  intros Hs R. destruct (sort_to_be_indexed_ok Hs R) as (g' & E & N & R').
  exists g'. split; auto. rewrite (repr_size R), (repr_size R'), map_length. split; auto.
  intros u Hu. exists (nth u rows []). eexists. split; [now apply repr_row|].
  split. { apply repr_row with (rows := map (fun r => combine (srt (map fst r)) (map snd r)) rows); auto. now rewrite map_length. }
  rewrite nth_map_default with (d := []) by auto.
  set (r := nth u rows []). destruct (Hs (map fst r)) as [P S].
  assert (L : length (srt (map fst r)) = length (map snd r)).
  { rewrite <- (Permutation_length P). now rewrite !map_length. }
  destruct (combine_srt_fst _ _ L) as [F1 F2]. rewrite F1, F2. repeat split; auto.
Qed.

(** Reachable CSRs: the representation is what the constructors produce. *)
Lemma fill_repr A W srt srt1 (directed : bool) s n N0 (es : list (edge A)) :
  is_sort_by fst srt -> n < W -> ids_ok W es -> 2 * length es < W ->
  exists g rows, fill W srt srt1 directed s (el_build W n es) (csr_new N0) false = Ok g /\
    csr_repr g rows /\ csr_N g = N0 /\ length rows = el_num_vertices (el_build W n es).
Proof.
  intros Hs Hn He HW. unfold fill. destruct directed.
  - assert (HW' : length es < W) by lia.
    destruct (fill_directed_ok s (csr_new N0) Hs Hn He HW') as (g & rows & E & N & R & L & P & T).
    rewrite E. cbn [bind]. exists g, rows. auto.
  - destruct (fill_undirected_ok s (csr_new N0) Hs Hn He HW) as (g & rows & E & N & R & L & P & T).
    rewrite E. cbn [bind]. exists g, rows. auto.
Qed.

Lemma adjacency_iterate_oob A W srt srt1 (directed : bool) s n (es : list (edge A)) :
  is_sort_by fst srt -> n < W -> ids_ok W es -> 2 * length es < W ->
  exists g, adjacency_of W srt srt1 directed s (el_build W n es) false = Ok g /\
    csr_size g = el_num_vertices (el_build W n es) /\ csr_N g = csr_size g + 1 /\ csr_iterate g = Ub.
Proof.
  intros Hs Hn He HW. unfold adjacency_of.
  destruct (fill_repr srt1 directed s (el_num_vertices (el_build W n es) + 1) Hs Hn He HW) as (g & rows & E & R & N & L).
  exists g. rewrite E, (repr_size R), N, L. repeat split; auto. apply repr_iterate_oob with (rows := rows); auto. lia.
Qed.

Lemma adjacency_iterate_ok A W srt srt1 (directed : bool) s n (es : list (edge A)) :
  is_sort_by fst srt -> n < W -> ids_ok W es -> 2 * length es < W ->
  exists g rows, adjacency_ofN W srt srt1 directed s (el_num_vertices (el_build W n es)) (el_build W n es) false = Ok g /\
    csr_iterate g = Ok rows /\ length rows = csr_size g /\
    forall u, u < csr_size g -> csr_row g u = Ok (nth u rows []).
Proof.
  intros Hs Hn He HW. unfold adjacency_ofN.
  destruct (fill_repr srt1 directed s (el_num_vertices (el_build W n es)) Hs Hn He HW) as (g & rows & E & R & N & L).
  exists g, rows. rewrite E, (repr_size R). repeat split; auto.
  - apply repr_iterate; auto. congruence.
  - intros u Hu. now apply repr_row.
Qed.

(** ------------------------------------------------------------ triangularize on a too-large N_ *)
Lemma triangularize_oob A comp (g : csr A) rows :
  csr_repr g rows -> csr_N g = length rows + 1 -> triangularize comp g = Ub.
Proof.
  intros R HN. unfold triangularize. pose proof R as (HI & HT & HA).
  assert (LI : length (csr_ind g) = length rows + 1) by (rewrite HI, map_length, seq_length; lia).
  rewrite vset_lt by (rewrite repeat_length; lia). cbn [bind].
  rewrite HN. replace (length rows + 1) with (S (length rows)) by lia.
  rewrite seq_S, rfold_app.
  set (g1 := mkCsr (length rows) (csr_ind g) (csr_tgt g) (csr_att g)).
  assert (R1 : csr_repr g1 rows) by exact R.
  destruct (triangularize_ok comp R1 eq_refl) as (g' & E & _). unfold triangularize in E.
  cbn [csr_ind g1] in E. rewrite vset_lt in E by (rewrite repeat_length; lia). cbn [bind] in E.
  cbn [csr_N g1] in E. apply bind_Ok in E as (st & E & _).
  assert (EX : forall l s0, rfold (tri_row comp g1) l s0 = rfold (tri_row comp g) l s0).
  { reflexivity. }
  rewrite EX in E. rewrite E. cbn [bind rfold Nat.add]. unfold tri_row. destruct st as [ni nt].
  rewrite (repr_row_oob R) by lia. reflexivity.
Qed.

Lemma adjacency_triangularize_oob A W srt srt1 (directed : bool) s n (es : list (edge A)) comp :
  is_sort_by fst srt -> n < W -> ids_ok W es -> 2 * length es < W ->
  exists g, adjacency_of W srt srt1 directed s (el_build W n es) false = Ok g /\ triangularize comp g = Ub.
Proof.
  intros Hs Hn He HW. unfold adjacency_of.
  destruct (fill_repr srt1 directed s (el_num_vertices (el_build W n es) + 1) Hs Hn He HW) as (g & rows & E & R & N & L).
  exists g. split; auto. apply triangularize_oob with (rows := rows); auto. congruence.
Qed.

(** ------------------------------------------------------------ relabelling the targets *)
Lemma psum_map_map A B (f : A -> B) (rows : list (list A)) k : psum (map (map f) rows) k = psum rows k.
Proof.
  unfold psum. rewrite firstn_map, map_map. f_equal. apply map_ext. intros; now rewrite map_length.
Qed.

Lemma relabel_ok A srt perm (g : csr A) rows :
  is_sort_by (fun x => x) srt -> csr_repr g rows ->
  (forall e, In e (concat rows) -> fst e < length perm) ->
  exists g', relabel_to_be_indexed srt perm g = Ok g' /\ csr_N g' = csr_N g /\
    csr_repr g' (map (fun r => combine (srt (map (fun e => nth (fst e) perm 0) r)) (map snd r)) rows).
Proof.
  intros Hs (HI & HT & HA) HB. unfold relabel_to_be_indexed. rewrite HT.
  rewrite rmap_ok with (g := fun v => nth v perm 0).
  2:{ intros v Hv. apply in_map_iff in Hv as (e & <- & He). apply vget_nth. now apply HB. }
  cbn [bind].
  set (rows2 := map (map (fun e => (nth (fst e) perm 0, snd e))) rows).
  set (g2 := mkCsr (csr_N g) (csr_ind g) (map (fun v => nth v perm 0) (map fst (concat rows))) (csr_att g)).
  assert (R2 : csr_repr g2 rows2).
  { unfold csr_repr, g2, rows2; simpl. rewrite map_length, <- concat_map, !map_map. split; [|split].
    - rewrite HI. apply map_ext. intros. symmetry. apply psum_map_map.
    - reflexivity.
    - exact HA. }
  destruct (sort_to_be_indexed_ok Hs R2) as (g' & E & N & R').
  exists g'. rewrite E. repeat split; auto.
  all: unfold rows2 in R'; rewrite map_map in R';
    replace (map (fun x : list (nat * A) => combine (srt (map fst (map (fun e => (nth (fst e) perm 0, snd e)) x)))
      (map snd (map (fun e => (nth (fst e) perm 0, snd e)) x))) rows)
     with (map (fun r : list (nat * A) => combine (srt (map (fun e => nth (fst e) perm 0) r)) (map snd r)) rows) in R'
     by (apply map_ext; intros r; now rewrite !map_map); apply R'.
Qed.

Lemma sort_by_degree_ok A (d : A) W srt srt1 (g : csr A) rows :
  is_sort_by (fun x => x) srt1 ->
  csr_repr g rows -> length (concat rows) < W ->
  (forall e, In e (concat rows) -> fst e < length rows) ->
  let perm := srt (map (@length _) rows) (seq 0 (length rows)) in
  is_perm (length rows) perm ->
  (forall i, i < length rows -> nth (nth i perm 0) perm 0 = i) ->
  exists g', sort_by_degree d W srt srt1 g = Ok g' /\ csr_size g' = csr_size g /\
    forall i, i < csr_size g -> exists r, csr_row g' i = Ok r /\
      StronglySorted le (map fst r) /\
      Permutation (map fst r) (map (fun e => nth (fst e) perm 0) (nth (nth i perm 0) rows [])).
Proof.
  intros Hs R HW HB perm HP HI. unfold sort_by_degree.
  destruct (permute_by_degree_ok d srt R HW HP HI) as (g1 & E & N & R1). fold perm in E, R1.
  rewrite E. cbn [bind fst snd].
  set (rows1 := map (fun i => nth (nth i perm 0) rows []) (seq 0 (length rows))) in *.
  destruct (@relabel_ok A srt1 perm g1 rows1 Hs R1) as (g' & E' & N' & R').
  { intros e He. rewrite (is_perm_length HP). apply HB.
    apply (Permutation_in e (concat_perm (permuted_rows rows [] HP))). exact He. }
  exists g'. split; auto. rewrite (repr_size R), (repr_size R').
  assert (L1 : length rows1 = length rows) by (unfold rows1; now rewrite map_length, seq_length).
  rewrite map_length. split; auto. intros i Hi.
  eexists. split. { eapply repr_row; [exact R'|]. rewrite map_length. lia. }
  rewrite nth_map_default with (d := []) by lia.
  assert (EN : nth i rows1 [] = nth (nth i perm 0) rows []) by (unfold rows1; now rewrite nth_map_seq).
  rewrite EN. set (r := nth (nth i perm 0) rows []).
  destruct (Hs (map (fun e => nth (fst e) perm 0) r)) as [P S].
  assert (L : length (srt1 (map (fun e => nth (fst e) perm 0) r)) = length (map snd r)).
  { rewrite <- (Permutation_length P). now rewrite !map_length. }
  destruct (combine_srt_fst _ _ L) as [F1 F2]. rewrite F1. split; auto. now apply Permutation_sym.
Qed.

(** ------------------------------------------------------------ degrees of the built CSR *)
Lemma csr_degrees_agree A W srt srt1 (directed : bool) s n (es : list (edge A)) :
  is_sort_by fst srt -> n < W -> ids_ok W es -> 2 * length es < W ->
  exists g d, adjacency_of W srt srt1 directed s (el_build W n es) false = Ok g /\ csr_degrees g = Ok d /\
    (if directed then degrees_directed W s (el_build W n es) else degrees_undirected W (el_build W n es)) = Ok d.
Proof.
  intros Hs Hn He HW. unfold adjacency_of, fill. set (el := el_build W n es).
  assert (G : forall (d1 d2 : list nat) k, length d1 = k -> length d2 = k -> (forall v, v < k -> nth v d1 0 = nth v d2 0) -> d1 = d2).
  { intros d1 d2 k L1 L2 H. apply nth_ext with (d := 0) (d' := 0); [congruence|]. intros; apply H; lia. }
  destruct directed.
  - assert (HW' : length es < W) by lia.
    destruct (fill_directed_ok s (csr_new (el_num_vertices el + 1)) Hs Hn He HW') as (g & rows & E & N & R & L & P & T).
    destruct (degrees_directed_ok s Hn He HW') as (d & Ed & Ld & Nd & _).
    fold el in E. rewrite E. cbn [bind]. exists g, d. split; auto. split; [|exact Ed].
    rewrite (csr_degrees_ok R). f_equal. apply G with (k := length rows).
    + apply map_length.
    + congruence.
    + intros v Hv. rewrite nth_map_default with (d := []) by auto. rewrite Nd by congruence.
      rewrite (Permutation_length (P v Hv)). unfold spec_row. rewrite map_length. reflexivity.
  - destruct (fill_undirected_ok s (csr_new (el_num_vertices el + 1)) Hs Hn He HW) as (g & rows & E & N & R & L & P & T).
    destruct (degrees_undirected_ok Hn He HW) as (d & Ed & Ld & Nd & _).
    fold el in E. rewrite E. cbn [bind]. exists g, d. split; auto. split; [|exact Ed].
    rewrite (csr_degrees_ok R). f_equal. apply G with (k := length rows).
    + apply map_length.
    + congruence.
    + intros v Hv. rewrite nth_map_default with (d := []) by auto. rewrite Nd by congruence.
      rewrite (Permutation_length (P v Hv)). unfold spec_row_undirected, edge_count, ekey.
      clear. induction es as [|e es IH]; simpl; auto. rewrite !app_length, IH.
      destruct (esrc e =? v), (etgt e =? v); simpl; lia.
Qed.
