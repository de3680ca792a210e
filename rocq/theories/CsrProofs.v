(** Proofs about the CSR container and its construction. *)
From Coq Require Import List Arith Lia Permutation Sorting.Sorted Bool.
From Verif Require Import Base EdgeListModel CsrModel EdgeListProofs.
Import ListNotations.
Set Implicit Arguments.

(** ------------------------------------------------------------ blocks of a concatenation *)
Definition psum {A} (rows : list (list A)) (i : nat) : nat := sum (map (@length A) (firstn i rows)).

Lemma psum_all A (rows : list (list A)) i : length rows <= i -> psum rows i = length (concat rows).
Proof.
  intros H. unfold psum. rewrite firstn_all2 by auto. clear. induction rows; simpl; auto.
  rewrite app_length. lia.
Qed.

Lemma psum_S A (rows : list (list A)) i d : i < length rows -> psum rows (S i) = psum rows i + length (nth i rows d).
Proof.
  intros H. unfold psum. rewrite <- !firstn_map. rewrite sum_firstn_S by now rewrite map_length.
  f_equal. rewrite nth_indep with (d' := length d) by now rewrite map_length.
  now rewrite map_nth.
Qed.

Lemma psum_mono A (rows : list (list A)) i j : i <= j -> psum rows i <= psum rows j.
Proof.
  induction 1; auto. destruct (Nat.lt_ge_cases m (length rows)).
  - rewrite psum_S with (d := []) by auto. lia.
  - rewrite (@psum_all _ rows m) in IHle by lia. rewrite (@psum_all _ rows (S m)) by lia. lia.
Qed.

Lemma psum_le A (rows : list (list A)) i : psum rows i <= length (concat rows).
Proof.
  destruct (Nat.lt_ge_cases i (length rows)).
  - rewrite <- (@psum_all _ rows _ (le_n _)). apply psum_mono. lia.
  - rewrite psum_all; lia.
Qed.

Lemma skipn_psum A (rows : list (list A)) i : skipn (psum rows i) (concat rows) = concat (skipn i rows).
Proof.
  revert i. induction rows; intros i.
  - unfold psum. rewrite firstn_nil, !skipn_nil. reflexivity.
  - destruct i; [reflexivity|].
    unfold psum in *. simpl. rewrite skipn_app.
    rewrite skipn_all2 by lia. simpl.
    replace (length a + _ - length a) with (sum (map (@length A) (firstn i rows))) by lia.
    apply IHrows.
Qed.

Lemma firstn_psum A (rows : list (list A)) i : firstn (psum rows i) (concat rows) = concat (firstn i rows).
Proof.
  revert i. induction rows; intros i.
  - unfold psum. now rewrite !firstn_nil.
  - destruct i; [reflexivity|].
    unfold psum in *. simpl. rewrite firstn_app.
    rewrite firstn_all2 by lia. f_equal.
    replace (length a + _ - length a) with (sum (map (@length A) (firstn i rows))) by lia.
    apply IHrows.
Qed.

Lemma skipn_nth_cons A (l : list A) i d : i < length l -> skipn i l = nth i l d :: skipn (S i) l.
Proof.
  revert i. induction l as [|x l IH]; intros i H; [simpl in H; lia|]. destruct i as [|i]; [reflexivity|].
  change (skipn (S i) (x :: l)) with (skipn i l). rewrite (IH i) by (simpl in H; lia). reflexivity.
Qed.

Lemma slice_concat A (rows : list (list A)) i d : i < length rows ->
  vslice (concat rows) (psum rows i) (psum rows (S i)) = Ok (nth i rows d).
Proof.
  intros H. rewrite vslice_Ok.
  - f_equal. rewrite skipn_psum. rewrite psum_S with (d := d) by auto.
    replace (psum rows i + _ - psum rows i) with (length (nth i rows d)) by lia.
    rewrite skipn_nth_cons with (d := d) by auto. simpl.
    rewrite firstn_app, firstn_all, Nat.sub_diag. simpl. now rewrite app_nil_r.
  - apply psum_mono. lia.
  - apply psum_le.
Qed.

Lemma psum_map A B (f : A -> B) rows i : psum (map (map f) rows) i = psum rows i.
Proof.
  unfold psum. rewrite firstn_map, map_map. apply sum_map_ext. intros. now rewrite map_length.
Qed.

Lemma concat_map_map A B (f : A -> B) rows : concat (map (map f) rows) = map f (concat rows).
Proof. symmetry. apply concat_map. Qed.

(** ------------------------------------------------------------ representation of a CSR by its rows *)
Definition csr_repr {A} (g : csr A) (rows : list (list (nat * A))) : Prop :=
  csr_ind g = map (psum rows) (seq 0 (length rows + 1)) /\
  csr_tgt g = map fst (concat rows) /\ csr_att g = map snd (concat rows).

Lemma combine_fst_snd A B (l : list (A * B)) : combine (map fst l) (map snd l) = l.
Proof. induction l as [|[a b] l IH]; simpl; auto. now rewrite IH. Qed.

Lemma nth_error_psums A (rows : list (list A)) i : i <= length rows ->
  nth_error (map (psum rows) (seq 0 (length rows + 1))) i = Some (psum rows i).
Proof.
  intros H. rewrite nth_error_map, nth_error_nth' with (d := 0) by (rewrite seq_length; lia).
  rewrite seq_nth by lia. reflexivity.
Qed.

Lemma repr_row A (g : csr A) rows i : csr_repr g rows -> i < length rows ->
  csr_row g i = Ok (nth i rows []).
Proof.
  intros (HI & HT & HA) Hi. unfold csr_row.
  assert (E1 : vget (csr_ind g) i = Ok (psum rows i)).
  { apply vget_Ok. rewrite HI. apply nth_error_psums. lia. }
  assert (E2 : vget (csr_ind g) (i + 1) = Ok (psum rows (S i))).
  { apply vget_Ok. rewrite HI. replace (i + 1) with (S i) by lia. apply nth_error_psums. lia. }
  rewrite E1, E2. simpl. rewrite HT, HA, <- !concat_map_map.
  rewrite <- (psum_map fst rows i), <- (psum_map fst rows (S i)).
  rewrite slice_concat with (d := map (@fst nat A) []) by now rewrite map_length. simpl.
  rewrite (psum_map fst rows i), (psum_map fst rows (S i)).
  rewrite <- (psum_map snd rows i), <- (psum_map snd rows (S i)).
  rewrite slice_concat with (d := map (@snd nat A) []) by now rewrite map_length. simpl.
  f_equal. change (@nil nat) with (map (@fst nat A) []). change (@nil A) with (map (@snd nat A) []).
  rewrite !map_nth. apply combine_fst_snd.
Qed.

Lemma repr_size A (g : csr A) rows : csr_repr g rows -> csr_size g = length rows.
Proof. intros (HI & _). unfold csr_size. rewrite HI, map_length, seq_length. lia. Qed.

Lemma repr_row_oob A (g : csr A) rows i : csr_repr g rows -> length rows <= i -> csr_row g i = Ub.
Proof.
  intros (HI & HT & HA) Hi. unfold csr_row.
  assert (L : length (csr_ind g) = length rows + 1) by now rewrite HI, map_length, seq_length.
  destruct (vget (csr_ind g) i) eqn:E; simpl; auto.
  - rewrite vget_ge with (i := i + 1); auto. lia.
  - unfold vget in E. destruct (nth_error (csr_ind g) i); discriminate.
Qed.

Lemma repr_iterate A (g : csr A) rows : csr_repr g rows -> csr_N g = length rows ->
  csr_iterate g = Ok rows.
Proof.
  intros H HN. unfold csr_iterate. rewrite HN.
  rewrite rmap_ok with (g := fun i => nth i rows []).
  - f_equal. apply nth_ext with (d := []) (d' := []).
    + now rewrite map_length, seq_length.
    + intros i Hi. rewrite map_length, seq_length in Hi.
      rewrite nth_indep with (d' := nth 0 rows []) by now rewrite map_length, seq_length.
      rewrite map_nth with (f := fun i => nth i rows []) (d := 0). now rewrite seq_nth.
  - intros i Hi. apply in_seq in Hi. apply repr_row; auto. lia.
Qed.

Lemma rmap_app X Y (f : X -> res Y) l1 l2 :
  rmap f (l1 ++ l2) = do a <- rmap f l1; do b <- rmap f l2; Ok (a ++ b).
Proof.
  induction l1; simpl.
  - destruct (rmap f l2); auto.
  - destruct (f a); simpl; auto. rewrite IHl1. destruct (rmap f l1); simpl; auto.
    destruct (rmap f l2); simpl; auto.
Qed.

Lemma repr_iterate_oob A (g : csr A) rows : csr_repr g rows -> csr_N g = length rows + 1 ->
  csr_iterate g = Ub.
Proof.
  intros H HN. unfold csr_iterate. rewrite HN. replace (length rows + 1) with (S (length rows)) by lia.
  rewrite seq_S, rmap_app. simpl. rewrite rmap_ok with (g := fun i => nth i rows []).
  - simpl. rewrite repr_row_oob with (rows := rows); auto.
  - intros i Hi. apply in_seq in Hi. apply repr_row; auto. lia.
Qed.

(** ------------------------------------------------------------ counting *)
Definition cnt (l : list nat) (v : nat) : nat := length (filter (fun x => x =? v) l).

Lemma incr_rfold W l d :
  (forall v, In v l -> v < length d) -> (forall i, i < length d -> nth i d 0 + length l < W) ->
  exists d', rfold (incr W) l d = Ok d' /\ length d' = length d /\
    forall i, i < length d -> nth i d' 0 = nth i d 0 + cnt l i.
Proof.
  revert d. induction l as [|v l IH]; intros d Hv HW; simpl.
  - exists d. repeat split; auto.
  - assert (Hvd : v < length d) by (apply Hv; now left).
    unfold incr at 1. rewrite vget_nth with (d := 0) by auto. simpl.
    rewrite vset_lt by auto. simpl.
    pose proof (HW v Hvd) as HWv. simpl in HWv.
    rewrite Nat.mod_small by lia.
    destruct (IH (upd d v (nth v d 0 + 1))) as (d' & E & L & N).
    + intros. rewrite upd_length. apply Hv. now right.
    + intros i Hi. rewrite upd_length in Hi. rewrite nth_upd by auto.
      specialize (HW i Hi). simpl in HW. destruct (i =? v) eqn:Q; [apply Nat.eqb_eq in Q; subst|]; lia.
    + rewrite upd_length in *. exists d'. split; auto. split; auto.
      intros i Hi. rewrite N by auto. rewrite nth_upd by auto. unfold cnt. simpl.
      destruct (Nat.eqb_spec i v), (Nat.eqb_spec v i); subst; simpl; try lia.
Qed.

Lemma rfold_incr_zeros W l n : (forall v, In v l -> v < n) -> length l < W ->
  rfold (incr W) l (repeat 0 n) = Ok (map (cnt l) (seq 0 n)).
Proof.
  intros Hv HW. destruct (@incr_rfold W l (repeat 0 n)) as (d' & E & L & N).
  - now rewrite repeat_length.
  - intros. rewrite nth_repeat. lia.
  - rewrite E. f_equal. rewrite repeat_length in *.
    apply nth_ext with (d := 0) (d' := cnt l 0).
    + now rewrite map_length, seq_length.
    + intros i Hi. rewrite map_nth. rewrite N by lia. rewrite nth_repeat, seq_nth by lia. reflexivity.
Qed.

Lemma cnt_app l1 l2 v : cnt (l1 ++ l2) v = cnt l1 v + cnt l2 v.
Proof. unfold cnt. now rewrite filter_app, app_length. Qed.

Lemma cnt_perm l1 l2 v : Permutation l1 l2 -> cnt l1 v = cnt l2 v.
Proof. intros H. unfold cnt. apply Permutation_length. now apply Permutation_filter. Qed.

(** Every increment schedule: the counters do not depend on the order. *)
Lemma incr_schedule W l1 l2 n : Permutation l1 l2 -> (forall v, In v l1 -> v < n) -> length l1 < W ->
  rfold (incr W) l2 (repeat 0 n) = rfold (incr W) l1 (repeat 0 n).
Proof.
  intros HP Hv HW. rewrite !rfold_incr_zeros; auto.
  - f_equal. apply map_ext. intros. now apply cnt_perm, Permutation_sym.
  - intros v H. apply Hv. eapply Permutation_in; [apply Permutation_sym|]; eauto.
  - now rewrite <- (Permutation_length HP).
Qed.

(** ------------------------------------------------------------ scans *)
Lemma inclusive_scan_spec W l acc : acc + sum l < W ->
  inclusive_scan W acc l = map (fun i => acc + sum (firstn (S i) l)) (seq 0 (length l)).
Proof.
  revert acc. induction l as [|x l IH]; intros acc H; [reflexivity|].
  cbn [sum] in H. cbn [inclusive_scan length seq map]. rewrite Nat.mod_small by lia.
  f_equal; [simpl; lia|]. rewrite IH by lia.
  rewrite <- seq_shift, map_map. apply map_ext. intros i.
  change (firstn (S (S i)) (x :: l)) with (x :: firstn (S i) l). cbn [sum]. lia.
Qed.

Lemma exclusive_scan_spec W l acc : acc + sum l < W ->
  exclusive_scan W acc l = map (fun i => acc + sum (firstn i l)) (seq 0 (length l)).
Proof.
  revert acc. induction l as [|x l IH]; intros acc H; [reflexivity|].
  cbn [sum] in H. cbn [exclusive_scan length seq map]. rewrite Nat.mod_small by lia.
  f_equal; [simpl; lia|]. rewrite IH by lia.
  rewrite <- seq_shift, map_map. apply map_ext. intros i.
  change (firstn (S i) (x :: l)) with (x :: firstn i l). cbn [sum]. lia.
Qed.

Lemma scan_rows A W (rows : list (list A)) : length (concat rows) < W ->
  0 :: inclusive_scan W 0 (map (@length A) rows) = map (psum rows) (seq 0 (length rows + 1)).
Proof.
  intros H.
  assert (E : sum (map (@length A) rows) = length (concat rows)).
  { rewrite <- (@psum_all _ rows _ (le_n _)). unfold psum. now rewrite firstn_all. }
  rewrite inclusive_scan_spec by lia. rewrite map_length.
  replace (length rows + 1) with (S (length rows)) by lia. cbn [seq map]. f_equal.
  rewrite <- seq_shift, map_map. apply map_ext. intros i. unfold psum. now rewrite firstn_map.
Qed.

Lemma vresize_length l n : length (vresize l n) = n.
Proof. unfold vresize. rewrite app_length, firstn_length, repeat_length. lia. Qed.

Lemma vcopy_exact A (xs l : list A) pos : pos + length xs = length l ->
  vcopy xs l pos = Ok (firstn pos l ++ xs).
Proof.
  intros H. unfold vcopy. replace (pos + length xs <=? length l) with true.
  - rewrite skipn_all2 by lia. now rewrite app_nil_r.
  - symmetry. apply Nat.leb_le. lia.
Qed.

(** The index array computed by both fill functions. *)
Lemma fill_index W ind0 n (dg : list nat) : length dg = n ->
  (do i0 <- vset (vresize ind0 (n + 1)) 0 0; vcopy (inclusive_scan W 0 dg) i0 1)
  = Ok (0 :: inclusive_scan W 0 dg).
Proof.
  intros H. rewrite vset_lt by (rewrite vresize_length; lia). simpl.
  assert (L : length (inclusive_scan W 0 dg) = n).
  { rewrite <- H. generalize 0. clear. induction dg; simpl; intros; auto. }
  rewrite vcopy_exact by (rewrite upd_length, vresize_length; lia).
  f_equal. destruct (vresize ind0 (n + 1)) eqn:E.
  - pose proof (vresize_length ind0 (n + 1)). rewrite E in H0. simpl in H0. lia.
  - reflexivity.
Qed.

(** ------------------------------------------------------------ counting sort *)
Section SortBlocks.
Context {A : Type} (key : A -> nat).

Lemma sorted_filter_lt s n : sorted_by key s ->
  filter (fun x => key x <? S n) s = filter (fun x => key x <? n) s ++ filter (fun x => key x =? n) s.
Proof.
  unfold sorted_by. induction s as [|x s IH]; intros H; [reflexivity|].
  inversion H; subst. rewrite Forall_forall in H3. cbn [filter].
  destruct (Nat.ltb_spec (key x) (S n)); destruct (Nat.ltb_spec (key x) n);
    destruct (Nat.eqb_spec (key x) n); try lia.
  - rewrite IH by auto. reflexivity.
  - rewrite (@filter_none _ (fun y => key y <? n) s).
    + simpl. rewrite IH by auto.
      rewrite (@filter_none _ (fun y => key y <? n) s); auto.
      intros y Hy. apply H3 in Hy. apply Nat.ltb_ge. lia.
    + intros y Hy. apply H3 in Hy. apply Nat.ltb_ge. lia.
  - auto.
Qed.

Lemma sorted_blocks s n : sorted_by key s -> (forall x, In x s -> key x < n) ->
  s = concat (map (fun k => filter (fun x => key x =? k) s) (seq 0 n)).
Proof.
  intros HS Hn. transitivity (filter (fun x => key x <? n) s).
  - symmetry. apply filter_all. intros x Hx. apply Nat.ltb_lt. auto.
  - clear Hn. induction n.
    + simpl. apply filter_none. intros. apply Nat.ltb_ge. lia.
    + rewrite sorted_filter_lt by auto. rewrite seq_S, map_app, concat_app, <- IHn.
      simpl. now rewrite app_nil_r.
Qed.
End SortBlocks.

(** General statement for both fills: keys [ks], payload [pl], sorted by key. *)
Lemma fill_general A W srt (ks : list nat) (ts : list nat) (xs : list A) n N0 ind0 :
  is_sort_by fst srt ->
  length ts = length ks -> length xs = length ks ->
  (forall k, In k ks -> k < n) -> length ks < W ->
  exists g rows,
  (do degree <- rfold (incr W) ks (repeat 0 n);
   do ind0 <- vset (vresize ind0 (n + 1)) 0 0;
   do ind1 <- vcopy (inclusive_scan W 0 degree) ind0 1;
   let '(t, a) := sort_zipped srt ks ts xs in
   Ok (mkCsr N0 ind1 t a)) = Ok g /\
  csr_N g = N0 /\ csr_repr g rows /\ length rows = n /\
  (forall u, u < n -> Permutation (nth u rows [])
     (map snd (filter (fun x => fst x =? u) (combine ks (combine ts xs))))) /\
  length (csr_tgt g) = length ks.
Proof.
  intros Hs Lt Lx Hk HW.
  set (z := combine ks (combine ts xs)).
  assert (Lz : length z = length ks) by (unfold z; rewrite !combine_length; lia).
  destruct (Hs z) as [HP HS].
  set (s := srt z) in *.
  assert (Fz : map fst z = ks).
  { unfold z. clear - Lt Lx. revert ts xs Lt Lx. induction ks; destruct ts, xs; simpl; intros; auto; try lia.
    f_equal. apply IHks; lia. }
  assert (Hks : forall x, In x s -> fst x < n).
  { intros x Hx. apply Hk. rewrite <- Fz. apply in_map. eapply Permutation_in; [apply Permutation_sym|]; eauto. }
  set (rows := map (fun k => map snd (filter (fun x => fst x =? k) s)) (seq 0 n)).
  exists (mkCsr N0 (map (psum rows) (seq 0 (length rows + 1))) (map (fun x => fst (snd x)) s) (map (fun x => snd (snd x)) s)), rows.
  assert (Lr : length rows = n) by (unfold rows; now rewrite map_length, seq_length).
  assert (Cr : concat rows = map snd s).
  { unfold rows. pose proof (sorted_blocks (key := fst) HS Hks) as B.
    transitivity (map snd (concat (map (fun k => filter (fun x => fst x =? k) s) (seq 0 n)))).
    - rewrite concat_map. f_equal. now rewrite map_map.
    - f_equal. symmetry. exact B. }
  assert (Ln : map (@length _) rows = map (cnt ks) (seq 0 n)).
  { unfold rows. rewrite map_map. apply map_ext. intros k. rewrite map_length.
    unfold cnt. rewrite <- Fz. rewrite (Permutation_length (Permutation_filter (fun x => fst x =? k) (Permutation_sym HP))).
    clear. induction z; simpl; auto. destruct (fst a =? k); simpl; auto. }
  assert (Ls : length (concat rows) = length ks).
  { rewrite Cr, map_length. rewrite <- Lz. symmetry. now apply Permutation_length. }
  split; [|repeat split].
  - rewrite rfold_incr_zeros by auto. cbn [bind].
    pose proof (@fill_index W ind0 n (map (cnt ks) (seq 0 n))) as FI.
    rewrite map_length, seq_length in FI. specialize (FI eq_refl).
    destruct (vset (vresize ind0 (n + 1)) 0 0) as [i0| |]; simpl in FI |- *; try discriminate.
    rewrite FI. simpl. f_equal. fold z. fold s. f_equal.
    rewrite <- Ln. rewrite scan_rows by lia. now rewrite Lr.
  - simpl. rewrite Cr. now rewrite map_map.
  - simpl. rewrite Cr. now rewrite map_map.
  - auto.
  - intros u Hu. unfold rows.
    rewrite nth_indep with (d' := map snd (filter (fun x => fst x =? 0) s)) by now rewrite map_length, seq_length.
    rewrite map_nth with (f := fun k => map snd (filter (fun x => fst x =? k) s)) (d := 0).
    rewrite seq_nth by auto. simpl.
    apply Permutation_map, Permutation_filter, Permutation_sym. exact HP.
  - simpl. rewrite map_length, <- Lz. symmetry. now apply Permutation_length.
Qed.
