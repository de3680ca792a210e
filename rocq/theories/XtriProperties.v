(** C66: the experimental triangle counting variants. *)
From Coq Require Import List Arith NArith ZArith Lia Bool Permutation Sorting.Sorted.
From Verif Require Import Base Pool GraphLib SumLib UtilModel RangeModel RangeProofs RangeProperties CsrModel CsrProofs PforModel PforProofs TriModel TriProofs XtriModel XtriProofs.
Import ListNotations.
Set Implicit Arguments.

(** [triangles g] (TriProofs.v, used by C37) counts the vertex triples a < b < c pairwise joined by an arc stored in either
    row. The index and target vectors of a graph given by its rows: *)
Definition csr_arrays (g : list (list nat)) (ind tgt : list nat) : Prop :=
  tgt = concat g /\ length ind = S (length g) /\
  forall u, u <= length g -> nth_error ind u = Some (sum (map (@length nat) (firstn u g))).
Lemma csr_arrays_eq g ind tgt : csr_arrays g ind tgt -> ind = map (psum g) (seq 0 (length g + 1)) /\ tgt = concat g.
Proof.
  intros (T & L & H). split; auto. apply nth_ext with (d := 0) (d' := 0); [rewrite map_length, seq_length; lia|]. intros i Hi.
  rewrite nth_map_seq by lia. apply nth_error_nth. apply H. lia.
Qed.
Lemma full_triangles g : targets_ok g -> rows_sorted g -> upper g \/ lower g -> bsum (length g) (full g) = triangles g.
Proof. intros HT HS [U|U]; rewrite full_wedge by auto; [apply wedge_upper|apply wedge_lower]; auto. Qed.
Lemma zero_sum n : bsum n (fun _ => 0) = 0.
Proof. apply bsum_0. auto. Qed.

(** On an upper or a lower triangular graph with sorted rows: every variant that intersects whole rows, whatever the number
    of threads, the schedule of the parallel loops or the splitting of the ranges. *)
Theorem C66_whole_rows : forall g ind tgt, targets_ok g -> rows_sorted g -> upper g \/ lower g -> csr_arrays g ind tgt ->
  triangle_count_v15 g = Ok (triangles g) /\ triangle_count_v2 g = Ok (triangles g) /\ triangle_count_v3 g = Ok (triangles g) /\
  (forall outer inner, triangle_count_v10 g outer inner = Ok (triangles g)) /\
  (forall t, triangle_count_v14 g t = Ok (triangles g)) /\
  (forall threads, 0 < threads -> triangle_count_v6 g threads = Ok (triangles g) /\ triangle_count_edgesplit ind tgt threads = Ok (triangles g)) /\
  triangle_count_vc false ind tgt = Ok (triangles g).
Proof.
  intros g ind tgt HT HS UL CA. destruct (csr_arrays_eq CA) as (-> & ->). rewrite <- (full_triangles HT HS UL).
  split; [apply v15_ok; auto|]. split; [apply v2_ok; auto|]. split; [apply v3_ok; auto|]. split; [intros; apply v10_ok; auto|].
  split; [intros; apply v14_ok; auto|]. split; [|apply vc_ok; auto]. intros threads Ht. split.
  - apply async_stride; auto. apply full_body; auto.
  - apply edgesplit_ok; auto.
    + intros u t Hu. rewrite es_full_ok; [|intros v I; eapply HT; eauto]. apply full_body; auto.
    + intros u Hu E. unfold full. now rewrite E.
Qed.

(** The variants that intersect the rest of the row are right on upper triangular graphs, *)
Theorem C66_row_suffixes : forall g ind tgt, targets_ok g -> rows_sorted g -> upper g -> csr_arrays g ind tgt ->
  triangle_count_v1 g = Ok (triangles g) /\ (forall sched, triangle_count_v7 g sched = Ok (triangles g)) /\
  (forall threads, 0 < threads -> triangle_count_v4 g threads = Ok (triangles g) /\ triangle_count_v5 g threads = Ok (triangles g) /\
     triangle_count_edgesplit_upper ind tgt threads = Ok (triangles g)).
Proof.
  intros g ind tgt HT HS U CA. destruct (csr_arrays_eq CA) as (-> & ->). rewrite <- (full_triangles HT HS (or_introl U)). assert (B := suffix_upper HT HS U).
  split; [apply row_fold; auto|]. split; [intros; apply v7_ok; auto|]. intros threads Ht. split; [apply async_stride; auto|]. split; [apply async_block; auto|].
  apply edgesplit_ok; auto.
  - intros u t Hu. rewrite es_suffix_ok; [|intros v I; eapply HT; eauto]. apply B; auto.
  - intros u Hu E. unfold full. now rewrite E.
Qed.
(** and on lower triangular graphs return 0, whatever the graph. *)
Theorem C66_row_suffixes_lower_zero : forall g ind tgt cutoff t, targets_ok g -> rows_sorted g -> lower g -> csr_arrays g ind tgt -> (0 < cutoff < 2 ^ 31)%N ->
  triangle_count_v1 g = Ok 0 /\ (forall sched, triangle_count_v7 g sched = Ok 0) /\ triangle_count_v12 g cutoff t = Ok 0%N /\
  (forall threads, triangle_count_v4 g threads = Ok 0 /\ triangle_count_v5 g threads = Ok 0 /\ triangle_count_edgesplit_upper ind tgt threads = Ok 0).
Proof.
  intros g ind tgt cutoff t HT HS U CA HC. destruct (csr_arrays_eq CA) as (-> & ->). assert (B := suffix_lower HT HS U).
  replace (@Ok nat 0) with (Ok (bsum (length g) (fun _ => 0))) by (now rewrite zero_sum).
  split; [apply row_fold; auto|]. split; [intros; apply v7_ok; auto|]. split.
  - unfold triangle_count_v12, reduce_cyclic. destruct (@C27_full_split_exceeds_cutoff (length g) cutoff) as (c & _ & _ & EC & _); [lia|]. rewrite EC. cbn [bind].
    destruct (cr_make_ok _ _ EC) as (W & S & C). rewrite (cr_exact B W S C); [|rewrite zero_sum; reflexivity]. cbn [bind]. rewrite zero_sum. reflexivity.
  - intros threads. destruct threads as [|k]; [rewrite zero_sum; auto|]. split; [apply async_stride; auto; lia|]. split; [apply async_block; auto; lia|].
    apply edgesplit_ok; auto; [|lia]. intros u s Hu. rewrite es_suffix_ok; [|intros v I; eapply HT; eauto]. apply B; auto.
Qed.
Theorem C66_no_threads : forall g ind tgt, triangle_count_v4 g 0 = Ok 0 /\ triangle_count_v5 g 0 = Ok 0 /\ triangle_count_v6 g 0 = Ok 0 /\
  triangle_count_edgesplit ind tgt 0 = Ok 0 /\ triangle_count_edgesplit_upper ind tgt 0 = Ok 0.
Proof. intros. repeat split. Qed.

(** v12 and v13 add up in a double: exact as long as the count stays below 2^53, however the cyclic range is split. *)
Theorem C66_double_exact : forall g cutoff t, targets_ok g -> rows_sorted g -> (0 < cutoff < 2 ^ 31)%N -> (N.of_nat (triangles g) < 2 ^ 53)%N ->
  (upper g -> triangle_count_v12 g cutoff t = Ok (N.of_nat (triangles g))) /\
  (upper g \/ lower g -> triangle_count_v13 g cutoff t = Ok (N.of_nat (triangles g))).
Proof.
  intros g cutoff t HT HS HC LT. destruct (@C27_full_split_exceeds_cutoff (length g) cutoff) as (c & _ & _ & EC & _); [lia|].
  assert (TS : to_size (N.of_nat (triangles g)) = Ok (N.of_nat (triangles g))) by (unfold to_size; destruct (N.ltb_spec (N.of_nat (triangles g)) (2 ^ 64)); auto; lia).
  destruct (cr_make_ok _ _ EC) as (W & S & C). split; intros U; unfold triangle_count_v12, triangle_count_v13, reduce_cyclic; rewrite EC; cbn [bind].
  - rewrite (cr_exact (suffix_upper HT HS U) W S C); rewrite (full_triangles HT HS (or_introl U)); auto.
  - rewrite (cr_exact (full_body HT HS) W S C); rewrite (full_triangles HT HS U); auto.
Qed.
(** Above it every addition gives a nearest double, so each loses at most what the format forces it to. *)
Theorem C66_double_nearest : forall a k b,
  (is_double (dadd a k) /\ is_double (djoin a b)) /\
  (forall y, is_double y -> far (a + b)%N (djoin a b) <= far (a + b)%N y)%N /\
  (is_double (N.of_nat k) -> forall y, is_double y -> far (a + N.of_nat k)%N (dadd a k) <= far (a + N.of_nat k)%N y)%N.
Proof.
  intros a k b. split; [split; apply rnd_double|]. split; [intros; now apply rnd_nearest|]. intros K y Y.
  unfold dadd. assert (E : rnd (N.of_nat k) = N.of_nat k) by (assert (X := @rnd_nearest (N.of_nat k) _ K); unfold far in X; lia). rewrite E. now apply rnd_nearest.
Qed.
(** An odd count above that is never returned: a double of that size is an even number. *)
Theorem C66_double_never_odd : forall g cutoff t, targets_ok g -> rows_sorted g -> (0 < cutoff < 2 ^ 31)%N ->
  (2 ^ 53 <= N.of_nat (triangles g))%N -> Nat.Odd (triangles g) ->
  (upper g -> triangle_count_v12 g cutoff t <> Ok (N.of_nat (triangles g))) /\
  (upper g \/ lower g -> triangle_count_v13 g cutoff t <> Ok (N.of_nat (triangles g))).
Proof.
  intros g cutoff t HT HS HC LT OD. destruct (@C27_full_split_exceeds_cutoff (length g) cutoff) as (c & _ & _ & EC & _); [lia|].
  assert (ND : forall d, dbl d -> to_size d <> Ok (N.of_nat (triangles g))).
  { intros d D E. unfold to_size in E. destruct (d <? 2 ^ 64)%N; [|discriminate]. injection E as ->. destruct D as [D|D]; [lia|].
    apply N.even_spec in D. destruct D as (k & D). destruct OD as (j & OD). lia. }
  destruct (cr_make_ok _ _ EC) as (W & S & C). split; intros U; unfold triangle_count_v12, triangle_count_v13, reduce_cyclic; rewrite EC; cbn [bind].
  - destruct (cr_dbl (suffix_upper HT HS U) W t) as (d & -> & D). cbn [bind]. auto.
  - destruct (cr_dbl (full_body HT HS) W t) as (d & -> & D). cbn [bind]. auto.
Qed.

(** triangle_count_vc forms &idxs[idxs.size()] on every graph with at least one arc. *)
Theorem C66_vc_past_the_end : forall g ind tgt, targets_ok g -> rows_sorted g -> csr_arrays g ind tgt -> tgt <> [] -> triangle_count_vc true ind tgt = Ub.
Proof. intros g ind tgt HT HS CA NE. destruct (csr_arrays_eq CA) as (-> & ->). apply vc_strict_ub; auto. Qed.

(** On a graph that stores both arcs of every edge the whole-row variants count every triangle six times. *)
Definition symmetric (g : list (list nat)) : Prop := forall u v, edge g u v -> edge g v u /\ u <> v.
Lemma wedge_symmetric g : symmetric g -> wedge g = 6 * triangles g.
Proof.
  intros SY. rewrite triangles_sum. set (n := length g). set (f := fun a b c => b2n (triple_ok g (a, b, c))).
  assert (P : forall u v w, e2n g u v * (e2n g u w * e2n g v w) = f u v w + f u w v + f v u w + f v w u + f w u v + f w v u).
  { intros u v w. assert (S1 : forall x y, mem y (nth x g []) = mem x (nth y g [])).
    { intros x y. apply Bool.eq_iff_eq_true. split; intros M; apply mem_edge in M; apply mem_edge, SY; auto. }
    assert (AD : forall x y, adj g x y = mem y (nth x g [])) by (intros x y; unfold adj; rewrite <- S1; apply orb_diag).
    assert (IR : forall x, mem x (nth x g []) = false).
    { intros x. destruct (mem x (nth x g [])) eqn:M; auto. apply mem_edge in M. destruct (SY _ _ M). congruence. }
    unfold f, triple_ok, e2n. rewrite !AD. rewrite (S1 v u), (S1 w u), (S1 w v).
    destruct (Nat.lt_trichotomy u v) as [A|[A|A]]; destruct (Nat.lt_trichotomy u w) as [B|[B|B]]; destruct (Nat.lt_trichotomy v w) as [C|[C|C]]; try lia;
    try (subst; rewrite ?IR);
    repeat match goal with |- context [?x <? ?y] => destruct (Nat.ltb_spec x y); try lia end; cbn [andb b2n];
    repeat match goal with |- context [mem ?x ?l] => destruct (mem x l) end; reflexivity. }
  unfold wedge. fold n.
  rewrite (@bsum_ext n _ (fun u => bsum n (fun v => bsum n (fun w => f u v w)) + bsum n (fun v => bsum n (fun w => f u w v)) + bsum n (fun v => bsum n (fun w => f v u w)) +
    bsum n (fun v => bsum n (fun w => f v w u)) + bsum n (fun v => bsum n (fun w => f w u v)) + bsum n (fun v => bsum n (fun w => f w v u)))).
  2:{ intros u _. rewrite <- !bsum_add. apply bsum_ext. intros v _. rewrite <- !bsum_add. apply bsum_ext. intros w _. apply P. }
  rewrite !bsum_add. change (fun a => bsum n (fun b => bsum n (fun c => b2n (triple_ok g (a, b, c))))) with (fun a => bsum n (fun b => bsum n (fun c => f a b c))).
  set (T := bsum n (fun a => bsum n (fun b => bsum n (fun c => f a b c)))).
  assert (T1 : bsum n (fun u => bsum n (fun v => bsum n (fun w => f u w v))) = T).
  { apply bsum_ext. intros u _. apply (bsum_swap n n (fun v w => f u w v)). }
  assert (T2 : bsum n (fun u => bsum n (fun v => bsum n (fun w => f v u w))) = T) by apply (bsum_swap n n (fun u v => bsum n (fun w => f v u w))).
  assert (T3 : bsum n (fun u => bsum n (fun v => bsum n (fun w => f v w u))) = T).
  { rewrite (bsum_swap n n (fun u v => bsum n (fun w => f v w u))). apply bsum_ext. intros v _. apply (bsum_swap n n (fun u w => f v w u)). }
  assert (T4 : bsum n (fun u => bsum n (fun v => bsum n (fun w => f w u v))) = T).
  { rewrite <- T3. rewrite (bsum_swap n n (fun u v => bsum n (fun w => f v w u))).
    erewrite bsum_ext; [|intros u _; apply (bsum_swap n n (fun v w => f w u v))]. rewrite (bsum_swap n n (fun u w => bsum n (fun v => f w u v))).
    apply bsum_ext. intros w _. apply (bsum_swap n n (fun u v => f w u v)). }
  assert (T5 : bsum n (fun u => bsum n (fun v => bsum n (fun w => f w v u))) = T).
  { erewrite bsum_ext; [|intros u _; apply (bsum_swap n n (fun v w => f w v u))]. exact T3. }
  rewrite T1, T2, T3, T4, T5. fold T. lia.
Qed.
Theorem C66_symmetric_six_times : forall g, targets_ok g -> rows_sorted g -> symmetric g ->
  triangle_count g = Ok (6 * triangles g) /\ triangle_count_v15 g = Ok (6 * triangles g) /\ triangle_count_v2 g = Ok (6 * triangles g) /\
  triangle_count_v3 g = Ok (6 * triangles g) /\ (forall t, triangle_count_v14 g t = Ok (6 * triangles g)) /\
  (forall outer inner, triangle_count_v10 g outer inner = Ok (6 * triangles g)) /\
  (forall threads, 0 < threads -> triangle_count_v6 g threads = Ok (6 * triangles g)).
Proof.
  intros g HT HS SY. rewrite <- (wedge_symmetric SY). split; [apply triangle_count_wedge; auto|]. rewrite <- (full_wedge HT HS).
  split; [apply v15_ok; auto|]. split; [apply v2_ok; auto|]. split; [apply v3_ok; auto|]. split; [intros; apply v14_ok; auto|].
  split; [intros; apply v10_ok; auto|]. intros threads Ht. apply async_stride; auto. apply full_body; auto.
Qed.

(** ** Non-vacuity *)
(** K4 on 0..3 plus the edge 3-4: four triangles. *)
Definition ex_up : list (list nat) := [[1; 2; 3]; [2; 3]; [3]; [4]; []].
Definition ex_lo : list (list nat) := [[]; [0]; [0; 1]; [0; 1; 2]; [3]].
Definition ex_sym : list (list nat) := [[1; 2; 3]; [0; 2; 3]; [0; 1; 3]; [0; 1; 2; 4]; [3]].
Lemma rows_check g : forallb (fun r => forallb (fun v => v <? length g) r && (fix s l := match l with x :: (y :: _) as t => (x <? y) && s t | _ => true end) r) g = true ->
  targets_ok g /\ rows_sorted g.
Proof.
  intros H. rewrite forallb_forall in H. split.
  - intros u v E. destruct (Nat.lt_ge_cases u (length g)) as [L|L]; [|unfold edge in E; rewrite nth_overflow in E by auto; destruct E].
    specialize (H (nth u g []) (nth_In _ _ L)). apply andb_prop in H. destruct H as (H & _). rewrite forallb_forall in H. apply Nat.ltb_lt. auto.
  - intros u. destruct (Nat.lt_ge_cases u (length g)) as [L|L]; [|rewrite nth_overflow by auto; constructor].
    specialize (H (nth u g []) (nth_In _ _ L)). apply andb_prop in H. destruct H as (_ & H). induction (nth u g []) as [|x r IH]; [constructor|].
    apply Sorted_StronglySorted; [exact Nat.lt_trans|]. destruct r as [|y r]; [repeat constructor|]. apply andb_prop in H. destruct H as (H1 & H2).
    constructor; [apply StronglySorted_Sorted; auto|]. constructor. now apply Nat.ltb_lt.
Qed.
Example C66_ex_hyps : targets_ok ex_up /\ rows_sorted ex_up /\ targets_ok ex_lo /\ rows_sorted ex_lo /\ targets_ok ex_sym /\ rows_sorted ex_sym.
Proof. repeat match goal with |- _ /\ _ => split end; apply rows_check; reflexivity. Qed.
Example C66_ex_shape : upper ex_up /\ lower ex_lo /\ symmetric ex_sym.
Proof.
  split; [|split]; intros u v H; unfold edge in *; do 5 (destruct u as [|u]; [cbn in H; intuition (subst; cbn; auto 10; lia)|]); destruct u; contradiction.
Qed.
Example C66_ex_arrays : csr_arrays ex_up [0; 3; 5; 6; 7; 7] [1; 2; 3; 2; 3; 3; 4] /\ csr_arrays ex_lo [0; 0; 1; 3; 6; 7] [0; 0; 1; 0; 1; 2; 3].
Proof. split; (split; [reflexivity|split; [reflexivity|intros u Hu; cbn in Hu; do 6 (destruct u; [reflexivity|]); lia]]). Qed.
Definition ex_tree : rtree := RSeq (RJoin RLeaf RLeaf) (RJoin RLeaf RLeaf).
Example C66_ex_up : let ind := [0; 3; 5; 6; 7; 7] in let tgt := [1; 2; 3; 2; 3; 3; 4] in
  triangles ex_up = 4 /\ triangle_count_v1 ex_up = Ok 4 /\ map (triangle_count_v5 ex_up) [1; 3; 7] = [Ok 4; Ok 4; Ok 4] /\
  map (triangle_count_edgesplit_upper ind tgt) [1; 3; 9] = [Ok 4; Ok 4; Ok 4] /\ triangle_count_v12 ex_up 3 ex_tree = Ok 4%N /\
  triangle_count_v7 ex_up (fun t => 3 * t) = Ok 4 /\ triangle_count_vc false ind tgt = Ok 4 /\ triangle_count_vc true ind tgt = Ub.
Proof. vm_compute. repeat split. Qed.
Example C66_ex_lo : let ind := [0; 0; 1; 3; 6; 7] in let tgt := [0; 0; 1; 0; 1; 2; 3] in
  triangles ex_lo = 4 /\ triangle_count_v1 ex_lo = Ok 0 /\ triangle_count_v15 ex_lo = Ok 4 /\ map (triangle_count_v6 ex_lo) [1; 3; 7] = [Ok 4; Ok 4; Ok 4] /\
  map (triangle_count_edgesplit ind tgt) [1; 3; 9] = [Ok 4; Ok 4; Ok 4] /\ map (triangle_count_edgesplit_upper ind tgt) [1; 3; 9] = [Ok 0; Ok 0; Ok 0] /\
  triangle_count_v13 ex_lo 3 ex_tree = Ok 4%N /\ triangle_count_v14 ex_lo ex_tree = Ok 4 /\ triangle_count_v10 ex_lo (fun t => 3 * t) (fun u t => u + t) = Ok 4.
Proof. vm_compute. repeat split. Qed.
Example C66_ex_sym : triangles ex_sym = 4 /\ triangle_count_v2 ex_sym = Ok 24 /\ triangle_count_v3 ex_sym = Ok 24.
Proof. vm_compute. repeat split. Qed.

(** k triangles on a common edge 0-1. *)
Definition book (k : nat) : list (list nat) := seq 1 (S k) :: seq 2 k :: repeat [] k.
Lemma seq_sorted : forall k s, StronglySorted lt (seq s k).
Proof. induction k; intros s; cbn [seq]; constructor; auto. apply Forall_forall. intros x I. apply in_seq in I. lia. Qed.
Lemma book_row k u : 2 <= u -> nth u (book k) [] = [].
Proof. intros H. destruct u as [|[|u]]; try lia. cbn [book nth]. destruct (Nat.lt_ge_cases u k); [apply nth_repeat|apply nth_overflow; rewrite repeat_length; auto]. Qed.
Lemma book_ok k : targets_ok (book k) /\ rows_sorted (book k) /\ upper (book k) /\ triangles (book k) = k.
Proof.
  assert (L : length (book k) = S (S k)) by (cbn [book length]; now rewrite repeat_length).
  assert (HE : forall u v, edge (book k) u v -> u < v < S (S k)).
  { intros u v E. unfold edge in E. destruct (Nat.lt_ge_cases u 2) as [C|C]; [|rewrite book_row in E by auto; destruct E].
    destruct u as [|[|u]]; [| |lia]; cbn [book nth] in E; apply in_seq in E; lia. }
  assert (HT : targets_ok (book k)) by (intros u v E; rewrite L; apply (HE u v E)).
  assert (HS : rows_sorted (book k)).
  { intros u. destruct (Nat.lt_ge_cases u 2) as [C|C]; [|rewrite book_row by auto; constructor]. destruct u as [|[|u]]; [apply seq_sorted|apply seq_sorted|lia]. }
  assert (U : upper (book k)) by (intros u v E; apply (HE u v E)).
  repeat split; auto. rewrite <- (full_triangles HT HS (or_introl U)), L. unfold bsum. cbn [seq map sum].
  assert (Z : forall l, common l [] = 0) by (intros l; apply common_nil_r).
  assert (F0 : full (book k) 0 = k).
  { unfold full. change (nth 0 (book k) []) with (1 :: seq 2 k). cbn [map sum]. change (nth 1 (book k) []) with (seq 2 k).
    rewrite sum_map_0.
    - rewrite Nat.add_0_r. unfold common. cbn [filter]. replace (mem 1 (seq 2 k)) with false by (symmetry; apply mem_false; intros I; apply in_seq in I; lia).
      transitivity (length (seq 2 k)); [|apply seq_length]. f_equal. assert (G : forall l, incl l (seq 2 k) -> filter (fun x => mem x (seq 2 k)) l = l).
      { induction l as [|x l IH]; intros I; cbn [filter]; auto. rewrite (proj2 (mem_In x (seq 2 k))) by (apply I; now left). f_equal. apply IH. intros y J. apply I. now right. }
      apply G, incl_refl.
    - intros v I. apply in_seq in I. rewrite book_row by lia. apply Z. }
  assert (F1 : full (book k) 1 = 0).
  { unfold full. change (nth 1 (book k) []) with (seq 2 k). apply sum_map_0. intros v I. apply in_seq in I. rewrite book_row by lia. apply Z. }
  rewrite F0, F1, sum_map_0; [lia|]. intros u I. apply in_seq in I. unfold full. now rewrite book_row by lia.
Qed.
(** 2^53 + 1 is a tie and goes down, 2^53 + 3 goes up; a sum of a double and a number that is one too. *)
Example C66_ex_nearest : djoin (2 ^ 53) 1 = (2 ^ 53)%N /\ djoin (2 ^ 53) 3 = (2 ^ 53 + 4)%N /\ is_double (N.of_nat 6) /\ dadd (2 ^ 54) 6 = (2 ^ 54 + 8)%N.
Proof. split; [vm_compute; reflexivity|]. split; [vm_compute; reflexivity|]. split; [|vm_compute; reflexivity]. exists 6%N, 0%N. split; [vm_compute; discriminate|reflexivity]. Qed.
(** The hypotheses of C66_double_never_odd are met by a graph. *)
Example C66_ex_large : exists g, targets_ok g /\ rows_sorted g /\ upper g /\ (2 ^ 53 <= N.of_nat (triangles g))%N /\ Nat.Odd (triangles g).
Proof.
  exists (book (N.to_nat (2 ^ 53 + 1))). destruct (book_ok (N.to_nat (2 ^ 53 + 1))) as (HT & HS & U & E). rewrite E, N2Nat.id. repeat split; auto.
  - lia.
  - exists (N.to_nat (2 ^ 52)). change (2 ^ 53 + 1)%N with (2 * 2 ^ 52 + 1)%N. lia.
Qed.

Print Assumptions C66_whole_rows.
Print Assumptions C66_row_suffixes.
Print Assumptions C66_row_suffixes_lower_zero.
Print Assumptions C66_no_threads.
Print Assumptions C66_double_exact.
Print Assumptions C66_double_nearest.
Print Assumptions C66_double_never_odd.
Print Assumptions C66_vc_past_the_end.
Print Assumptions C66_symmetric_six_times.
