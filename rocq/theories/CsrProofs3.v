(** More proofs about the CSR container: source lookup, push_back, degrees, permutation by degree. *)
From Coq Require Import List Arith Lia Permutation Sorting.Sorted Bool.
From Verif Require Import Base EdgeListModel CsrModel EdgeListProofs CsrProofs CsrProofs2.
Import ListNotations.
Set Implicit Arguments.

(** ------------------------------------------------------------ source *)
Lemma upper_bound_spec l e :
  (forall i, i < upper_bound l e -> nth i l 0 <= e) /\
  upper_bound l e <= length l /\
  (upper_bound l e < length l -> e < nth (upper_bound l e) l 0).
Proof.
  induction l as [|y l (IH1 & IH2 & IH3)]; simpl.
  - repeat split; intros; lia.
  - destruct (Nat.ltb_spec e y).
    + repeat split; intros; lia.
    + split; [|split; [lia|]].
      * intros i Hi. destruct i; [lia|]. apply IH1. lia.
      * intros. apply IH3. lia.
Qed.

Lemma source_ok A (g : csr A) e :
  StronglySorted le (csr_ind g) -> nth_error (csr_ind g) 0 = Some 0 ->
  nth_error (csr_ind g) (csr_size g) = Some (csr_num_edges g) -> e < csr_num_edges g ->
  (exists a b, vget (csr_ind g) (csr_source g e) = Ok a /\ vget (csr_ind g) (csr_source g e + 1) = Ok b /\ a <= e < b) /\
  (forall u a b, vget (csr_ind g) u = Ok a -> vget (csr_ind g) (u + 1) = Ok b -> a <= e < b -> u = csr_source g e).
Proof.
  intros HS H0 HL He. unfold csr_source. set (l := csr_ind g) in *.
  destruct (upper_bound_spec l e) as (U1 & U2 & U3).
  assert (Lpos : 0 < length l) by (apply nth_error_Some; congruence).
  assert (N0 : nth 0 l 0 = 0) by (apply nth_error_nth with (d := 0) in H0; auto).
  assert (K1 : 1 <= upper_bound l e).
  { destruct (upper_bound l e) eqn:Q; [|lia]. specialize (U3 Lpos). lia. }
  assert (K2 : upper_bound l e < length l).
  { destruct (Nat.eq_dec (upper_bound l e) (length l)) as [Q|]; [|lia].
    assert (csr_size g < length l) by (unfold csr_size; fold l; lia).
    assert (nth (csr_size g) l 0 <= e) by (apply U1; lia).
    apply nth_error_nth with (d := 0) in HL. fold l in HL. lia. }
  specialize (U3 K2).
  assert (Q : upper_bound l e - 1 + 1 = upper_bound l e) by lia.
  split.
  - exists (nth (upper_bound l e - 1) l 0), (nth (upper_bound l e) l 0). rewrite Q.
    repeat split; try (apply vget_nth; lia); auto. apply U1. lia.
  - intros u a b Ha Hb Hab.
    assert (Hu : u + 1 < length l) by (eapply vget_Ok_lt; eauto).
    rewrite vget_nth with (d := 0) in Ha by lia. rewrite vget_nth with (d := 0) in Hb by lia.
    inversion Ha; inversion Hb; subst.
    assert (Mono : forall i j, i <= j -> j < length l -> nth i l 0 <= nth j l 0).
    { clear - HS. induction HS; intros i j Hij Hj; [simpl in Hj; lia|].
      destruct j; [replace i with 0 by lia; lia|]. destruct i.
      - simpl. rewrite Forall_forall in H. apply H. apply nth_In. simpl in Hj. lia.
      - simpl. apply IHHS; simpl in Hj; lia. }
    destruct (Nat.lt_trichotomy u (upper_bound l e - 1)) as [C|[C|C]]; auto.
    + assert (nth (u + 1) l 0 <= nth (upper_bound l e - 1) l 0) by (apply Mono; lia).
      assert (nth (upper_bound l e - 1) l 0 <= e) by (apply U1; lia). lia.
    + assert (nth (upper_bound l e) l 0 <= nth u l 0) by (apply Mono; lia). lia.
Qed.

(** ------------------------------------------------------------ rows through a partial index array *)
Lemma row_gen A (g : csr A) rows u : u < length rows ->
  nth_error (csr_ind g) u = Some (psum rows u) -> nth_error (csr_ind g) (u + 1) = Some (psum rows (S u)) ->
  csr_tgt g = map fst (concat rows) -> csr_att g = map snd (concat rows) ->
  csr_row g u = Ok (nth u rows []).
Proof.
  intros Hu E1 E2 HT HA.
  pose proof (@repr_row A (mkCsr (csr_N g) (map (psum rows) (seq 0 (length rows + 1))) (csr_tgt g) (csr_att g)) rows u) as R.
  rewrite <- R; auto.
  - unfold csr_row. simpl. apply vget_Ok in E1, E2. rewrite E1, E2. simpl.
    assert (F1 : vget (map (psum rows) (seq 0 (length rows + 1))) u = Ok (psum rows u)).
    { apply vget_Ok. apply nth_error_psums. lia. }
    assert (F2 : vget (map (psum rows) (seq 0 (length rows + 1))) (u + 1) = Ok (psum rows (S u))).
    { apply vget_Ok. replace (u + 1) with (S u) by lia. apply nth_error_psums. lia. }
    rewrite F1, F2. reflexivity.
  - repeat split; auto.
Qed.

(** ------------------------------------------------------------ push_back *)
Definition src_max {A} (es : list (edge A)) : nat := list_max (map esrc es).

Lemma list_max_app l1 l2 : list_max (l1 ++ l2) = Nat.max (list_max l1) (list_max l2).
Proof. unfold list_max. rewrite fold_right_app. induction l1; simpl; auto. fold (list_max l2) in *. rewrite IHl1. lia. Qed.

Lemma push_back_loop A W N (es : list (edge A)) : length es < W ->
  exists g, rfold (fun g e => csr_push_back W g (esrc e) (etgt e) (eatt e)) es (csr_new N) = Ok g /\
    csr_N g = Nat.max N (src_max es) /\
    csr_ind g = map (cnt (map esrc es)) (seq 0 (Nat.max N (src_max es) + 1)) /\
    csr_tgt g = map etgt es /\ csr_att g = map eatt es.
Proof.
  intros HW.
  apply (@rfold_ind _ _ _ (fun es g => csr_N g = Nat.max N (src_max es) /\
    csr_ind g = map (cnt (map esrc es)) (seq 0 (Nat.max N (src_max es) + 1)) /\
    csr_tgt g = map etgt es /\ csr_att g = map eatt es)).
  - unfold csr_new, src_max. simpl. rewrite Nat.max_0_r. repeat split; auto.
    assert (G : forall k a, repeat 0 k = map (cnt []) (seq a k)) by (induction k; simpl; intros; f_equal; auto).
    apply G.
  - intros done e g (HN & HI & HT & HA) (rest & Erest).
    set (M := Nat.max N (src_max done)) in *. set (i := esrc e).
    unfold csr_push_back. rewrite HI. rewrite map_length, seq_length.
    assert (EM : Nat.max N (src_max (done ++ [e])) = Nat.max M i).
    { unfold src_max, M, i. rewrite map_app, list_max_app. unfold src_max. simpl. lia. }
    set (M' := Nat.max M i) in *.
    assert (Z : map (cnt (map esrc done)) (seq 0 (M + 1)) ++ repeat 0 (i + 1 - (M + 1))
              = map (cnt (map esrc done)) (seq 0 (M' + 1))).
    { replace (M' + 1) with (M + 1 + (i + 1 - (M + 1))) by lia. rewrite (seq_app (M + 1)), map_app. f_equal.
      assert (forall v, M < v -> cnt (map esrc done) v = 0).
      { intros v Hv. unfold cnt. rewrite filter_none; auto. intros x Hx. apply Nat.eqb_neq.
        assert (x <= list_max (map esrc done)).
        { clear - Hx. induction (map esrc done); [contradiction|]. simpl. destruct Hx; subst; [lia|]. specialize (IHl H). lia. }
        unfold M, src_max in Hv. lia. }
      assert (G : forall k a, M < a -> repeat 0 k = map (cnt (map esrc done)) (seq a k)).
      { induction k; simpl; intros a Ha; auto. rewrite H by auto. f_equal. apply IHk. lia. }
      apply G. lia. }
    rewrite Z.
    rewrite vget_nth with (d := 0) by (rewrite map_length, seq_length; lia). cbn [bind].
    rewrite vset_lt by (rewrite map_length, seq_length; lia). cbn [bind].
    eexists. split; [reflexivity|]. cbn [csr_N csr_ind csr_tgt csr_att]. rewrite EM, HN, HT, HA, !map_app.
    repeat split; auto; try lia.
    apply nth_ext with (d := 0) (d' := 0).
    + now rewrite upd_length, !map_length, !seq_length.
    + intros k Hk. rewrite upd_length, map_length, seq_length in Hk.
      rewrite nth_upd by (rewrite map_length, seq_length; lia).
      rewrite !nth_map_seq by lia.
      rewrite cnt_app. simpl. unfold cnt at 4. fold i. simpl.
      assert (cnt (map esrc done) i + 1 < W).
      { unfold cnt. pose proof (filter_length_le (fun x => x =? i) (map esrc done)) as Q. rewrite map_length in Q.
        rewrite Erest, app_length in HW. simpl in HW. lia. }
      rewrite Nat.mod_small by auto.
      destruct (Nat.eqb_spec k i), (Nat.eqb_spec i k); subst; simpl; try lia.
Qed.

Lemma push_back_fill_ok A W N (es : list (edge A)) :
  length es < W -> sorted_by esrc es ->
  exists g, csr_push_back_fill W es (csr_new N) = Ok g /\
    csr_size g = Nat.max N (src_max es) /\ csr_N g = Nat.max N (src_max es) /\
    forall u, u < csr_size g -> csr_row g u = Ok (spec_row S0 es u).
Proof.
  intros HW HS. unfold csr_push_back_fill.
  destruct (@push_back_loop A W N es HW) as (g & E & HN & HI & HT & HA). rewrite E. cbn [bind].
  set (M := Nat.max N (src_max es)) in *.
  set (rows := map (spec_row S0 es) (seq 0 (M + 1))).
  assert (Lr : length rows = M + 1) by (unfold rows; now rewrite map_length, seq_length).
  assert (Cr : concat rows = map (fun e => (etgt e, eatt e)) es).
  { unfold rows, spec_row. rewrite (sorted_blocks (n := M + 1) HS) at 1.
    - rewrite concat_map. f_equal. rewrite map_map. reflexivity.
    - intros e He. assert (esrc e <= src_max es); [|unfold M; lia].
      unfold src_max. apply (in_map esrc) in He. revert He. clear. generalize (map esrc es) as l.
      induction l; simpl; intros H; [contradiction|]. destruct H; [subst; lia|]. specialize (IHl H). lia. }
  assert (Ln : map (@length _) rows = map (cnt (map esrc es)) (seq 0 (M + 1))).
  { unfold rows. rewrite map_map. apply map_ext. intros u. unfold spec_row, cnt. rewrite map_length.
    rewrite filter_map, map_length. reflexivity. }
  assert (SumL : sum (map (cnt (map esrc es)) (seq 0 (M + 1))) = length es).
  { rewrite <- Ln. rewrite <- (map_length (fun e : edge A => (etgt e, eatt e)) es), <- Cr. symmetry.
    rewrite <- (@psum_all _ rows _ (le_n _)). unfold psum. now rewrite firstn_all. }
  unfold csr_close. rewrite HT, map_length.
  assert (IND : exists g', (if length es =? 0 then g else mkCsr (csr_N g) (exclusive_scan W 0 (vresize (csr_ind g) (csr_N g + 1))) (map etgt es) (csr_att g)) = g' /\
     csr_N g' = M /\ csr_ind g' = map (psum rows) (seq 0 (M + 1)) /\ csr_tgt g' = map fst (concat rows) /\ csr_att g' = map snd (concat rows)).
  { destruct (Nat.eqb_spec (length es) 0) as [Z|Z].
    - eexists; split; [reflexivity|]. rewrite HN, HI, HT, HA, Cr, !map_map. repeat split.
      apply map_ext_in. intros u Hu. apply in_seq in Hu.
      assert (es = []) by (destruct es; simpl in Z; [auto|discriminate]). subst es.
      unfold cnt. simpl. pose proof (psum_le rows u) as Q. rewrite Cr in Q. simpl in Q. lia.
    - eexists; split; [reflexivity|]. simpl. rewrite Cr, !map_map, HA, HN. repeat split.
      rewrite HI. unfold vresize. rewrite map_length, seq_length, Nat.sub_diag. simpl. rewrite app_nil_r.
      rewrite firstn_all2 by (rewrite map_length, seq_length; lia).
      rewrite exclusive_scan_spec by lia. rewrite map_length, seq_length. apply map_ext. intros u.
      unfold psum. rewrite <- firstn_map, Ln. reflexivity. }
  destruct IND as (g' & E' & HN' & HI' & HT' & HA'). rewrite E'. exists g'. split; auto.
  assert (SZ : csr_size g' = M) by (unfold csr_size; rewrite HI', map_length, seq_length; lia).
  rewrite SZ. repeat split; auto. intros u Hu.
  rewrite (@row_gen A g' rows u); auto; try lia.
  - f_equal. unfold rows. now rewrite nth_map_seq by lia.
  - rewrite HI', <- Lr. replace (length rows) with (length rows - 1 + 1) by lia.
    rewrite nth_error_map, nth_error_nth' with (d := 0) by (rewrite seq_length; lia). now rewrite seq_nth by lia.
  - rewrite HI'. rewrite nth_error_map, nth_error_nth' with (d := 0) by (rewrite seq_length; lia). rewrite seq_nth by lia.
    simpl. do 2 f_equal. lia.
Qed.

(** ------------------------------------------------------------ degrees of a CSR *)
Lemma csr_degrees_ok A (g : csr A) rows : csr_repr g rows -> csr_degrees g = Ok (map (@length _) rows).
Proof.
  intros (HI & HT & HA). unfold csr_degrees.
  assert (LI : length (csr_ind g) = length rows + 1) by (rewrite HI, map_length, seq_length; lia).
  rewrite rmap_ok with (g := fun i => length (nth i rows [])).
  - f_equal. rewrite LI. replace (length rows + 1 - 1) with (length rows) by lia.
    apply nth_ext with (d := 0) (d' := 0).
    + now rewrite !map_length, seq_length.
    + intros i Hi. rewrite map_length, seq_length in Hi. rewrite nth_map_seq by auto.
      now rewrite nth_map_default with (d := []) by auto.
  - intros i Hi. apply in_seq in Hi.
    assert (E1 : vget (csr_ind g) i = Ok (psum rows i)) by (apply vget_Ok; rewrite HI; apply nth_error_psums; lia).
    assert (E2 : vget (csr_ind g) (i + 1) = Ok (psum rows (S i))).
    { apply vget_Ok. rewrite HI. replace (i + 1) with (S i) by lia. apply nth_error_psums. lia. }
    rewrite E1, E2. simpl. f_equal. rewrite psum_S with (d := []) by lia. lia.
Qed.

(** ------------------------------------------------------------ inverting a permutation *)
Definition is_perm (n : nat) (p : list nat) : Prop := Permutation p (seq 0 n).

Lemma is_perm_length n p : is_perm n p -> length p = n.
Proof. intros H. rewrite (Permutation_length H). apply seq_length. Qed.

Lemma is_perm_lt n p i : is_perm n p -> i < n -> nth i p 0 < n.
Proof.
  intros H Hi. assert (In (nth i p 0) (seq 0 n)).
  { eapply Permutation_in; eauto. apply nth_In. now rewrite (is_perm_length H). }
  apply in_seq in H0. lia.
Qed.

Lemma is_perm_inj n p i j : is_perm n p -> i < n -> j < n -> nth i p 0 = nth j p 0 -> i = j.
Proof.
  intros H Hi Hj E. assert (ND : NoDup p).
  { eapply Permutation_NoDup; [apply Permutation_sym; exact H|]. apply seq_NoDup. }
  rewrite (NoDup_nth p 0) in ND. apply ND; auto; now rewrite (is_perm_length H).
Qed.

Lemma is_perm_surj n p v : is_perm n p -> v < n -> exists i, i < n /\ nth i p 0 = v.
Proof.
  intros H Hv. assert (I : In v p).
  { eapply Permutation_in; [apply Permutation_sym; exact H|]. apply in_seq. lia. }
  apply In_nth with (d := 0) in I as (i & Hi & E). rewrite (is_perm_length H) in Hi. eauto.
Qed.

Lemma invert_perm_ok n p : is_perm n p ->
  exists ip, invert_perm p = Ok ip /\ length ip = n /\
    (forall i, i < n -> nth (nth i p 0) ip 0 = i) /\
    (forall v, v < n -> nth v ip 0 < n /\ nth (nth v ip 0) p 0 = v).
Proof.
  intros H. unfold invert_perm. pose proof (is_perm_length H) as L. rewrite L.
  assert (G : forall m, m <= n -> exists ip,
     rfold (fun ip i => do p0 <- vget p i; vset ip p0 i) (seq 0 m) (repeat 0 n) = Ok ip /\
     length ip = n /\ forall i, i < m -> nth (nth i p 0) ip 0 = i).
  { induction m; intros Hm.
    - eexists. split; [reflexivity|]. rewrite repeat_length. split; auto. intros; lia.
    - destruct IHm as (ip & E & Li & N); [lia|]. rewrite seq_S, rfold_app, E. cbn [bind rfold Nat.add].
      rewrite vget_nth with (d := 0) by lia. cbn [bind].
      pose proof (@is_perm_lt n p m H Hm). rewrite vset_lt by lia. cbn [bind].
      eexists. split; [reflexivity|]. rewrite upd_length. split; auto.
      intros i Hi. rewrite nth_upd by lia. destruct (Nat.eqb_spec (nth i p 0) (nth m p 0)) as [Q|Q].
      + symmetry. apply is_perm_inj with (p := p) (n := n); auto; lia.
      + apply N. destruct (Nat.eq_dec i m); [congruence|lia]. }
  destruct (G n (le_n _)) as (ip & E & Li & N). exists ip. repeat split; auto.
  - destruct (is_perm_surj H H0) as (i & Hi & <-). now rewrite N.
  - destruct (is_perm_surj H H0) as (i & Hi & <-). now rewrite N.
Qed.

Lemma invert_is_perm n p ip : is_perm n p -> invert_perm p = Ok ip -> is_perm n ip.
Proof.
  intros H E. destruct (invert_perm_ok H) as (ip' & E' & L & N1 & N2). rewrite E in E'. inversion E'; subst ip'.
  unfold is_perm. apply NoDup_Permutation.
  - apply (NoDup_nth ip 0). intros i j Hi Hj Q. rewrite L in *.
    destruct (N2 i Hi) as [_ <-]. destruct (N2 j Hj) as [_ <-]. now rewrite Q.
  - apply seq_NoDup.
  - intros x. rewrite in_seq. split; intros Hx.
    + apply In_nth with (d := 0) in Hx as (i & Hi & <-). rewrite L in Hi. destruct (N2 i Hi). lia.
    + assert (Hx' : x < n) by lia. rewrite <- (N1 x Hx'). apply nth_In. rewrite L. now apply is_perm_lt.
Qed.

(** ------------------------------------------------------------ permute_by_degree *)
Lemma permuted_rows A (rows : list A) perm d : is_perm (length rows) perm ->
  Permutation (map (fun i => nth (nth i perm 0) rows d) (seq 0 (length rows))) rows.
Proof.
  intros HP. rewrite <- (map_map (fun i => nth i perm 0) (fun j => nth j rows d)).
  assert (E : map (fun i => nth i perm 0) (seq 0 (length rows)) = perm).
  { apply nth_ext with (d := 0) (d' := 0).
    - rewrite map_length, seq_length. symmetry. now apply is_perm_length.
    - intros i Hi. rewrite map_length, seq_length in Hi. now rewrite nth_map_seq. }
  rewrite E. eapply perm_trans. apply Permutation_map. exact HP.
  assert (E2 : map (fun j => nth j rows d) (seq 0 (length rows)) = rows).
  { apply nth_ext with (d := d) (d' := d). - now rewrite map_length, seq_length.
    - intros i Hi. rewrite map_length, seq_length in Hi. now rewrite nth_map_seq. }
  now rewrite E2.
Qed.

Lemma concat_perm A (r1 r2 : list (list A)) : Permutation r1 r2 -> Permutation (concat r1) (concat r2).
Proof.
  induction 1; simpl; auto.
  - now apply Permutation_app_head.
  - rewrite !app_assoc. apply Permutation_app_tail, Permutation_app_comm.
  - eapply perm_trans; eauto.
Qed.
Lemma permute_col_ok A (rows : list (list A)) ind nind perm (z : A) :
  ind = map (psum rows) (seq 0 (length rows + 1)) -> is_perm (length rows) perm ->
  let nrows := map (fun i => nth (nth i perm 0) rows []) (seq 0 (length rows)) in
  nind = map (psum nrows) (seq 0 (length rows + 1)) ->
  permute_col ind nind perm (concat rows) (repeat z (length (concat rows))) = Ok (concat nrows).
Proof.
  intros HI HP nrows HN.
  assert (Ln : length nrows = length rows) by (unfold nrows; now rewrite map_length, seq_length).
  assert (Nn : forall i, i < length rows -> nth i nrows [] = nth (nth i perm 0) rows []).
  { intros. unfold nrows. now rewrite nth_map_seq. }
  assert (LC : length (concat nrows) = length (concat rows)).
  { apply Permutation_length, concat_perm. now apply permuted_rows. }
  set (zrows := map (fun r : list A => repeat z (length r)) nrows).
  assert (Cz : repeat z (length (concat rows)) = concat zrows).
  { rewrite <- LC. unfold zrows. clear. induction nrows; simpl; auto.
    rewrite app_length, repeat_app. now f_equal. }
  rewrite Cz. unfold permute_col.
  assert (LI : length ind - 1 = length rows) by (rewrite HI, map_length, seq_length; lia).
  rewrite LI.
  assert (G : forall m, m <= length rows -> exists ws,
    rfold (permute_step ind nind perm (concat rows)) (seq 0 m) (concat zrows) = Ok (concat ws) /\
    length ws = length rows /\ (forall i, i < length rows -> length (nth i ws []) = length (nth i nrows [])) /\
    (forall k, psum ws k = psum nrows k) /\
    forall i, i < m -> nth i ws [] = nth i nrows []).
  { induction m; intros Hm.
    - exists zrows. split; [reflexivity|]. unfold zrows. repeat split.
      + now rewrite map_length.
      + intros i Hi. rewrite nth_map_default with (d := []) by lia. now rewrite repeat_length.
      + intros k. unfold psum. rewrite firstn_map, map_map. apply sum_map_ext. intros. now rewrite repeat_length.
      + intros; lia.
    - destruct IHm as (ws & E & Lw & LE & PS & N); [lia|]. rewrite seq_S, rfold_app, E. cbn [bind rfold Nat.add].
      unfold permute_step. rewrite vget_nth with (d := 0) by (rewrite (is_perm_length HP); lia). cbn [bind].
      pose proof (@is_perm_lt _ perm m HP Hm) as J. set (j := nth m perm 0) in *.
      assert (E1 : vget ind j = Ok (psum rows j)) by (apply vget_Ok; rewrite HI; apply nth_error_psums; lia).
      assert (E2 : vget ind (j + 1) = Ok (psum rows (S j))).
      { apply vget_Ok. rewrite HI. replace (j + 1) with (S j) by lia. apply nth_error_psums. lia. }
      rewrite E1, E2. cbn [bind]. rewrite slice_concat with (d := []) by auto. cbn [bind].
      assert (E3 : vget nind m = Ok (psum ws m)).
      { apply vget_Ok. rewrite HN, PS. rewrite <- Ln. apply nth_error_psums. lia. }
      rewrite E3. cbn [bind].
      assert (LL : length (nth j rows []) = length (nth m ws [])) by (rewrite LE by lia; now rewrite Nn by lia).
      rewrite vcopy_concat with (d := []) by (auto; lia). cbn [bind].
      eexists. split; [reflexivity|]. rewrite upd_length. repeat split; auto.
      + intros i Hi. rewrite nth_upd by lia. destruct (Nat.eqb_spec i m); subst; auto. now rewrite Nn by lia.
      + intros k. rewrite psum_upd with (d := []) by (auto; lia). apply PS.
      + intros i Hi. rewrite nth_upd by lia. destruct (Nat.eqb_spec i m); subst; auto.
        * now rewrite Nn by lia.
        * apply N. lia. }
  destruct (G _ (le_n _)) as (ws & E & Lw & _ & _ & N). rewrite E. f_equal. f_equal.
  apply nth_ext with (d := []) (d' := []); [lia|]. intros i Hi. apply N. lia.
Qed.

Lemma permute_col_map A B (f : A -> B) (rows : list (list A)) perm (z : B) :
  is_perm (length rows) perm ->
  let nrows := map (fun i => nth (nth i perm 0) rows []) (seq 0 (length rows)) in
  permute_col (map (psum rows) (seq 0 (length rows + 1))) (map (psum nrows) (seq 0 (length rows + 1))) perm
    (map f (concat rows)) (repeat z (length (concat rows))) = Ok (map f (concat nrows)).
Proof.
  intros HP nrows.
  assert (EN : map (fun i => nth (nth i perm 0) (map (map f) rows) []) (seq 0 (length rows)) = map (map f) nrows).
  { unfold nrows. rewrite map_map. apply map_ext. intros. change (@nil B) with (map f []). now rewrite map_nth. }
  pose proof (@permute_col_ok B (map (map f) rows) (map (psum rows) (seq 0 (length rows + 1)))
     (map (psum nrows) (seq 0 (length rows + 1))) perm z) as P.
  cbv zeta in P. rewrite map_length, EN, !concat_map_map, map_length in P.
  apply P; auto; apply map_ext; intros; now rewrite psum_map.
Qed.

Lemma permute_by_degree_ok A (d : A) W srt (g : csr A) rows :
  csr_repr g rows -> length (concat rows) < W ->
  let perm := srt (map (@length _) rows) (seq 0 (length rows)) in
  is_perm (length rows) perm ->
  (forall i, i < length rows -> nth (nth i perm 0) perm 0 = i) ->
  exists g', permute_by_degree d W srt g = Ok (g', perm) /\ csr_N g' = csr_N g /\
    csr_repr g' (map (fun i => nth (nth i perm 0) rows []) (seq 0 (length rows))).
Proof.
  intros R HW perm HP HInv. pose proof R as (HI & HT & HA). unfold permute_by_degree.
  rewrite (csr_degrees_ok R). cbn [bind].
  assert (LI : length (csr_ind g) - 1 = length rows) by (rewrite HI, map_length, seq_length; lia).
  rewrite LI. fold perm.
  set (nrows := map (fun i => nth (nth i perm 0) rows []) (seq 0 (length rows))).
  assert (Ln : length nrows = length rows) by (unfold nrows; now rewrite map_length, seq_length).
  rewrite rmap_ok with (g := fun i => length (nth (nth i perm 0) rows [])).
  2:{ intros i Hi. apply in_seq in Hi. rewrite vget_nth with (d := 0) by (rewrite (is_perm_length HP); lia). cbn [bind].
      rewrite vget_nth with (d := 0) by (rewrite map_length; apply is_perm_lt; auto; lia).
      f_equal. rewrite nth_map_default with (d := []); auto. apply is_perm_lt; auto; lia. }
  cbn [bind].
  destruct (invert_perm_ok HP) as (nip & E & L & N1 & N2). rewrite E. cbn [bind].
  assert (nip = perm).
  { apply nth_ext with (d := 0) (d' := 0). - now rewrite (is_perm_length HP).
    - intros i Hi. rewrite L in Hi. rewrite <- (HInv i Hi) at 1. apply N1. now apply is_perm_lt. }
  subst nip.
  assert (V0 : vget (csr_ind g) 0 = Ok 0).
  { apply vget_Ok. rewrite HI. rewrite nth_error_psums by lia. reflexivity. }
  rewrite V0. cbn [bind].
  assert (LCn : length (concat nrows) = length (concat rows)).
  { apply Permutation_length, concat_perm. now apply permuted_rows. }
  assert (NI : inclusive_scan W 0 (0 :: map (fun i => length (nth (nth i perm 0) rows [])) (seq 0 (length rows)))
     = map (psum nrows) (seq 0 (length rows + 1))).
  { cbn [inclusive_scan]. rewrite Nat.mod_small by lia. cbn [Nat.add].
    rewrite <- Ln at 2. rewrite <- (@scan_rows _ W nrows) by lia.
    f_equal. f_equal. unfold nrows. now rewrite map_map. }
  rewrite NI. rewrite HT, HA, !map_length.
  rewrite HI. pose proof (permute_col_map fst rows 0 HP) as P1. pose proof (permute_col_map snd rows d HP) as P2.
  cbv zeta in P1, P2. fold nrows in P1, P2. rewrite P1. cbn [bind]. rewrite P2. cbn [bind].
  eexists. split; [reflexivity|]. split; [reflexivity|]. repeat split; simpl. now rewrite Ln.
Qed.
