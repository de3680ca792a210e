(** Proofs about the CSR operations: building from edge lists, row sorting, triangularising,
    source lookup, push_back, degree permutation. *)
From Coq Require Import List Arith Lia Permutation Sorting.Sorted Bool.
From Verif Require Import Base EdgeListModel CsrModel EdgeListProofs CsrProofs.
Import ListNotations.
Set Implicit Arguments.

(** ------------------------------------------------------------ fill from an edge list *)
Definition ekey {A} (s : side) (e : edge A) : nat := match s with S0 => esrc e | S1 => etgt e end.

(** Specification: what the row of [u] must contain for a directed edge list. *)
Definition spec_row {A} (s : side) (es : list (edge A)) (u : nat) : list (nat * A) :=
  map (fun e => (ekey (other_side s) e, eatt e)) (filter (fun e => ekey s e =? u) es).

(** Specification for an undirected edge list: an edge appears once at each of its ends. *)
Definition spec_row_undirected {A} (es : list (edge A)) (u : nat) : list (nat * A) :=
  flat_map (fun e => (if esrc e =? u then [(etgt e, eatt e)] else []) ++
                     (if etgt e =? u then [(esrc e, eatt e)] else [])) es.

Lemma filter_map A B (f : A -> B) p l : filter p (map f l) = map f (filter (fun x => p (f x)) l).
Proof. induction l; simpl; auto. destruct (p (f a)); simpl; now rewrite IHl. Qed.

Lemma build_cols A W n (es : list (edge A)) :
  el_c0 (el_build W n es) = map esrc es /\ el_c1 (el_build W n es) = map etgt es /\
  el_ca (el_build W n es) = map eatt es.
Proof. unfold el_build. simpl. destruct (push_cols W es (el_new n)) as (H0 & H1 & H2). now rewrite H0, H1, H2. Qed.

Lemma build_col A W n (es : list (edge A)) s : el_col (el_build W n es) s = map (ekey s) es.
Proof. destruct (build_cols W n es) as (H0 & H1 & H2). destruct s; cbn [el_col ekey]; [rewrite H0|rewrite H1]; reflexivity. Qed.

Definition ids_ok {A} (W : nat) (es : list (edge A)) : Prop :=
  forall e, In e es -> esrc e + 1 < W /\ etgt e + 1 < W.

Lemma build_key_lt A W n (es : list (edge A)) s : n < W -> ids_ok W es ->
  forall e, In e es -> ekey s e < el_num_vertices (el_build W n es).
Proof. intros Hn He e Hin. destruct (build_card es Hn He) as (_ & B & _). destruct s; simpl; now apply B. Qed.

Lemma fill_directed_ok A W srt s n (es : list (edge A)) (cs : csr A) :
  is_sort_by fst srt -> n < W -> ids_ok W es -> length es < W ->
  exists g rows,
    fill_directed W srt s (el_build W n es) (el_num_vertices (el_build W n es)) cs = Ok g /\
    csr_N g = csr_N cs /\ csr_repr g rows /\ length rows = el_num_vertices (el_build W n es) /\
    (forall u, u < length rows -> Permutation (nth u rows []) (spec_row s es u)) /\
    length (csr_tgt g) = length es.
Proof.
  intros Hs Hn He HW. unfold fill_directed, degrees_directed.
  destruct (@fill_general A W srt (map (ekey s) es) (map (ekey (other_side s)) es) (map eatt es)
     (el_num_vertices (el_build W n es)) (csr_N cs) (csr_ind cs) Hs) as (g & rows & E & N & R & L & P & T);
    rewrite ?map_length; auto.
  - intros k Hk. apply in_map_iff in Hk as (e & <- & Hin). now apply build_key_lt.
  - exists g, rows. destruct (build_cols W n es) as (_ & _ & HA).
    rewrite !build_col, HA. unfold el_num_vertices in *. rewrite E. repeat split; auto; try apply R.
    + intros u Hu. rewrite L in Hu. eapply perm_trans. apply P; auto.
      rewrite !combine_map. rewrite filter_map, map_map. simpl. apply Permutation_refl.
    + rewrite T. now rewrite map_length.
Qed.

Lemma fill_undirected_ok A W srt s n (es : list (edge A)) (cs : csr A) :
  is_sort_by fst srt -> n < W -> ids_ok W es -> 2 * length es < W ->
  exists g rows,
    fill_undirected W srt s (el_build W n es) (el_num_vertices (el_build W n es)) cs = Ok g /\
    csr_N g = csr_N cs /\ csr_repr g rows /\ length rows = el_num_vertices (el_build W n es) /\
    (forall u, u < length rows -> Permutation (nth u rows []) (spec_row_undirected es u)) /\
    length (csr_tgt g) = 2 * length es.
Proof.
  intros Hs Hn He HW. unfold fill_undirected.
  destruct (@fill_general A W srt (map (ekey s) es ++ map (ekey (other_side s)) es)
     (map (ekey (other_side s)) es ++ map (ekey s) es) (map eatt es ++ map eatt es)
     (el_num_vertices (el_build W n es)) (csr_N cs) (csr_ind cs) Hs) as (g & rows & E & N & R & L & P & T);
    rewrite ?app_length, ?map_length; try lia; auto.
  - intros k Hk. apply in_app_or in Hk as [Hk|Hk]; apply in_map_iff in Hk as (e & <- & Hin); now apply build_key_lt.
  - exists g, rows. destruct (build_cols W n es) as (_ & _ & HA).
    rewrite !build_col, HA. rewrite E. repeat split; auto; try apply R.
    + intros u Hu. rewrite L in Hu. eapply perm_trans. apply P; auto.
      rewrite (combine_app (map (ekey (other_side s)) es)) by now rewrite !map_length.
      rewrite combine_app by (rewrite combine_length, !map_length; lia).
      rewrite !combine_map, filter_app, !filter_map, map_app, !map_map. simpl.
      unfold spec_row_undirected.
      assert (G : Permutation
        (map (fun e => (etgt e, eatt e)) (filter (fun e => esrc e =? u) es) ++
         map (fun e => (esrc e, eatt e)) (filter (fun e => etgt e =? u) es))
        (flat_map (fun e => (if esrc e =? u then [(etgt e, eatt e)] else []) ++
                     (if etgt e =? u then [(esrc e, eatt e)] else [])) es)).
      { clear. induction es as [|e es IH]; simpl; auto.
        destruct (esrc e =? u), (etgt e =? u); simpl; auto.
        - constructor. eapply perm_trans; [apply Permutation_sym, Permutation_middle|]. now constructor.
        - eapply perm_trans; [apply Permutation_sym, Permutation_middle|]. now constructor. }
      destruct s; simpl; auto. eapply perm_trans; [apply Permutation_app_comm|]. exact G.
    + rewrite T, app_length, !map_length. lia.
Qed.

(** ------------------------------------------------------------ writing a block of a concatenation *)
Lemma firstn_upd A (l : list A) i x : firstn i (upd l i x) = firstn i l.
Proof. revert i. induction l; destruct i; simpl; auto. now rewrite IHl. Qed.

Lemma skipn_upd A (l : list A) i x : skipn (S i) (upd l i x) = skipn (S i) l.
Proof. revert i. induction l; intros i; destruct i; auto. apply (IHl i). Qed.

Lemma concat_split A (rows : list (list A)) i d : i < length rows ->
  concat rows = concat (firstn i rows) ++ nth i rows d ++ concat (skipn (S i) rows).
Proof.
  intros H. rewrite <- (firstn_skipn i rows) at 1. rewrite concat_app.
  rewrite (@skipn_nth_cons _ rows i d H). reflexivity.
Qed.

Lemma vcopy_concat A (rows : list (list A)) i r d : i < length rows -> length r = length (nth i rows d) ->
  vcopy r (concat rows) (psum rows i) = Ok (concat (upd rows i r)).
Proof.
  intros Hi Hl. unfold vcopy.
  assert (E : psum rows i + length r = psum rows (S i)) by (rewrite psum_S with (d := d) by auto; lia).
  rewrite E. rewrite firstn_psum, skipn_psum.
  pose proof (psum_le rows (S i)) as L. apply Nat.leb_le in L. rewrite L. f_equal.
  rewrite (@concat_split _ (upd rows i r) i d) by now rewrite upd_length.
  rewrite firstn_upd, skipn_upd, nth_upd_eq by auto. reflexivity.
Qed.

Lemma psum_upd A (rows : list (list A)) i r d k : i < length rows -> length r = length (nth i rows d) ->
  psum (upd rows i r) k = psum rows k.
Proof.
  intros Hi Hl. unfold psum. rewrite <- !firstn_map. f_equal. f_equal.
  apply nth_ext with (d := 0) (d' := 0).
  - now rewrite !map_length, upd_length.
  - intros j Hj. rewrite map_length, upd_length in Hj.
    rewrite nth_indep with (d' := length d) by now rewrite map_length, upd_length.
    rewrite (nth_indep (map (@length A) rows) 0 (length d)) by now rewrite map_length.
    rewrite !map_nth, nth_upd by auto. destruct (Nat.eqb_spec j i); subst; auto.
Qed.

(** ------------------------------------------------------------ sort_to_be_indexed *)
Lemma sort_rows_loop srt (trows : list (list nat)) ind :
  is_sort_by (fun x => x) srt ->
  ind = map (psum trows) (seq 0 (length trows + 1)) ->
  rfold (sort_row srt ind) (seq 0 (length trows)) (concat trows) = Ok (concat (map srt trows)).
Proof.
  intros Hs HI.
  assert (G : forall m, m <= length trows ->
    exists rows', rfold (sort_row srt ind) (seq 0 m) (concat trows) = Ok (concat rows') /\
      length rows' = length trows /\ (forall k, psum rows' k = psum trows k) /\
      forall i, nth i rows' [] = if i <? m then (if i <? length trows then srt (nth i trows []) else []) else nth i trows []).
  { induction m; intros Hm.
    - exists trows. repeat split; auto.
    - destruct IHm as (rows' & E & L & PS & N); [lia|].
      rewrite seq_S, rfold_app, E. simpl. unfold sort_row.
      assert (E1 : vget ind m = Ok (psum rows' m)).
      { apply vget_Ok. rewrite HI, PS. apply nth_error_psums. lia. }
      assert (E2 : vget ind (m + 1) = Ok (psum rows' (S m))).
      { apply vget_Ok. rewrite HI, PS. replace (m + 1) with (S m) by lia. apply nth_error_psums. lia. }
      rewrite E1, E2. simpl. rewrite slice_concat with (d := []) by lia. simpl.
      assert (LL : length (srt (nth m rows' [])) = length (nth m rows' [])) by now apply is_sort_by_length with (key := fun x => x).
      rewrite vcopy_concat with (d := []) by (auto; lia). simpl.
      exists (upd rows' m (srt (nth m rows' []))). repeat split.
      + now rewrite upd_length.
      + intros k. rewrite psum_upd with (d := []) by (auto; lia). apply PS.
      + intros i. rewrite nth_upd by lia. rewrite !N.
        destruct (Nat.eqb_spec i m).
        * subst. rewrite Nat.ltb_irrefl. assert (m <? S m = true) as -> by (apply Nat.ltb_lt; lia).
          assert (m <? length trows = true) as -> by (apply Nat.ltb_lt; lia). reflexivity.
        * destruct (Nat.ltb_spec i m), (Nat.ltb_spec i (S m)); try lia; auto. }
  destruct (G (length trows) (le_n _)) as (rows' & E & L & _ & N). rewrite E. f_equal. f_equal.
  apply nth_ext with (d := []) (d' := srt []).
  - now rewrite map_length.
  - intros i Hi. rewrite map_nth, N. rewrite L in Hi. apply Nat.ltb_lt in Hi. now rewrite Hi.
Qed.

Lemma combine_srt_fst A B (l : list A) (l2 : list B) : length l = length l2 ->
  map fst (combine l l2) = l /\ map snd (combine l l2) = l2.
Proof. revert l2. induction l; destruct l2; simpl; intros; try lia; auto. destruct (IHl l2); [lia|]. split; congruence. Qed.

Lemma sort_to_be_indexed_ok A srt (g : csr A) rows :
  is_sort_by (fun x => x) srt -> csr_repr g rows ->
  exists g', sort_to_be_indexed srt g = Ok g' /\ csr_N g' = csr_N g /\
    csr_repr g' (map (fun r => combine (srt (map fst r)) (map snd r)) rows).
Proof.
  intros Hs (HI & HT & HA). unfold sort_to_be_indexed.
  assert (LI : length (csr_ind g) - 1 = length rows) by (rewrite HI, map_length, seq_length; lia).
  rewrite LI, HT, <- concat_map_map.
  rewrite <- (map_length (map (@fst nat A)) rows).
  rewrite sort_rows_loop; auto.
  - simpl. eexists. split; [reflexivity|]. split; [reflexivity|].
    assert (Len : forall r : list (nat * A), length (srt (map fst r)) = length (map snd r)).
    { intros r. rewrite is_sort_by_length with (key := fun x => x) by auto. now rewrite !map_length. }
    assert (F : forall r : list (nat * A), map fst (combine (srt (map fst r)) (map snd r)) = srt (map fst r)).
    { intros. now apply combine_srt_fst. }
    assert (S : forall r : list (nat * A), map snd (combine (srt (map fst r)) (map snd r)) = map snd r).
    { intros. now apply combine_srt_fst. }
    repeat split; simpl.
    + rewrite HI, map_length. apply map_ext. intros i. unfold psum. rewrite firstn_map, map_map.
      apply sum_map_ext. intros r _. rewrite combine_length, Len, map_length. lia.
    + rewrite concat_map. rewrite !map_map. f_equal. apply map_ext. intros. now rewrite F.
    + rewrite HA, !concat_map. rewrite !map_map. f_equal. apply map_ext. intros. now rewrite S.
  - rewrite HI, map_length. apply map_ext. intros. now rewrite psum_map.
Qed.

(** ------------------------------------------------------------ triangularize *)
Lemma firstn_S_nth A (l : list A) m d : m < length l -> firstn (S m) l = firstn m l ++ [nth m l d].
Proof.
  revert m. induction l as [|x l IH]; intros m H; [simpl in H; lia|]. destruct m as [|m]; [reflexivity|].
  change (firstn (S (S m)) (x :: l)) with (x :: firstn (S m) l). rewrite IH by (simpl in H; lia). reflexivity.
Qed.

Lemma psum_firstn A (rows : list (list A)) i k : i <= k -> psum (firstn k rows) i = psum rows i.
Proof. intros H. unfold psum. rewrite firstn_firstn. now rewrite Nat.min_l by lia. Qed.

Lemma triangularize_ok A comp (g : csr A) rows :
  csr_repr g rows -> csr_N g = length rows ->
  exists g', triangularize comp g = Ok g' /\ csr_N g' = csr_N g /\
    csr_repr g' (map (fun i => filter (fun e => comp (fst e) i) (nth i rows [])) (seq 0 (length rows))).
Proof.
  intros R HN. set (frows := map (fun i => filter (fun e => comp (fst e) i) (nth i rows [])) (seq 0 (length rows))).
  assert (Lf : length frows = length rows) by (unfold frows; now rewrite map_length, seq_length).
  assert (Nf : forall i, i < length rows -> nth i frows [] = filter (fun e => comp (fst e) i) (nth i rows [])).
  { intros i Hi. unfold frows. now rewrite nth_map_seq. }
  unfold triangularize. destruct R as (HI & HT & HA).
  assert (LI : length (csr_ind g) = length rows + 1) by (rewrite HI, map_length, seq_length; lia).
  rewrite vset_lt by (rewrite repeat_length; lia). simpl.
  assert (G : forall m, m <= length rows ->
    exists nind, rfold (tri_row comp g) (seq 0 m) (upd (repeat 0 (length (csr_ind g))) 0 0, [])
      = Ok (nind, concat (firstn m frows)) /\ length nind = length rows + 1 /\
      forall i, i <= m -> nth i nind 0 = psum frows i).
  { induction m; intros Hm.
    - simpl. eexists. split; [reflexivity|]. rewrite upd_length, repeat_length. split; [lia|].
      intros i Hi. replace i with 0 by lia. rewrite nth_upd_eq by (rewrite repeat_length; lia). reflexivity.
    - destruct IHm as (nind & E & L & N); [lia|].
      rewrite seq_S, rfold_app, E. cbn [bind rfold Nat.add]. unfold tri_row.
      rewrite repr_row with (rows := rows) by (repeat split; auto; lia). cbn [bind].
      rewrite vget_nth with (d := 0) by lia. cbn [bind]. rewrite vset_lt by lia. cbn [bind].
      rewrite <- Nf by lia. eexists. split.
      { f_equal. f_equal. rewrite firstn_S_nth with (d := []) by lia. rewrite concat_app. cbn [concat]. now rewrite app_nil_r. }
      rewrite upd_length. split; auto.
      { intros i Hi. rewrite nth_upd by lia.
          destruct (Nat.eqb_spec i (m + 1)).
          - subst. rewrite N by lia. replace (m + 1) with (S m) by lia. rewrite psum_S with (d := []) by lia.
            reflexivity.
          - apply N. lia. } }
  rewrite HN. destruct (G (length rows) (le_n _)) as (nind & E & L & N). rewrite E. simpl.
  eexists. split; [reflexivity|]. split; auto. rewrite firstn_all2 by lia.
  repeat split; simpl; auto.
  apply nth_ext with (d := 0) (d' := psum frows 0).
  - rewrite map_length, seq_length. lia.
  - intros i Hi. rewrite map_nth, seq_nth by lia. apply N. lia.
Qed.
