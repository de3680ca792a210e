(** C88: the sparse matrix-vector and degree benchmarks (apb/spmv.cpp, exec.cpp, plain.cpp, tbb.cpp): what the loops over positions compute, and that
    the loops over begin() .. end() of a graph made from an edge list all run past its end. *)
From Coq Require Import List Arith ZArith Lia Bool Permutation.
From Verif Require Import EdgeListModel CsrModel CsrProofs2 RangeModel RangeProperties ApbProofs SpmModel SpmProofs Base.
Import ListNotations.
Set Implicit Arguments.

(** The arcs of the list that enter, leave a vertex. *)
Definition entering {A} (es : list (edge A)) (v : nat) : list (edge A) := filter (fun e => etgt e =? v) es.
Definition leaving {A} (es : list (edge A)) (v : nat) : list (edge A) := filter (fun e => esrc e =? v) es.
(** adjacency<1>(el), and adjacency<1>(N, el) with N the number of vertices. *)
Notation graph_of W srt srt1 n es g := (adjacency_of W srt srt1 true S1 (el_build W n es) false = Ok g) (only parsing).
Notation graph_ofN W srt srt1 n es g :=
  (adjacency_ofN W srt srt1 true S1 (el_num_vertices (el_build W n es)) (el_build W n es) false = Ok g) (only parsing).
Notation list_ok W srt n es := (is_sort_by fst srt /\ n < W /\ ids_ok W es /\ length es < W) (only parsing).

Lemma graph_cases A W srt srt1 n (es : list (edge A)) g : list_ok W srt n es -> graph_of W srt srt1 n es g \/ graph_ofN W srt srt1 n es g ->
  exists rows, csr_size g = el_num_vertices (el_build W n es) /\ (csr_N g = csr_size g + 1 \/ csr_N g = csr_size g) /\
    (graph_of W srt srt1 n es g -> csr_N g = csr_size g + 1) /\ (graph_ofN W srt srt1 n es g -> csr_N g = csr_size g) /\ length rows = csr_size g /\ graph_rows g = Ok rows /\
    (forall v, v < csr_size g -> csr_row g v = Ok (nth v rows []) /\ Permutation (nth v rows []) (spec_row S1 es v)) /\
    (forall v e, v < csr_size g -> In e (nth v rows []) -> fst e < csr_size g) /\ sum (map (@length _) rows) = length es.
Proof.
  intros (Hs & Hn & He & HW) G.
  destruct (spm_graph srt1 (el_num_vertices (el_build W n es) + 1) Hs Hn He HW) as (g1 & r1 & E1 & S1' & N1 & L1 & G1 & R1 & T1 & U1).
  destruct (spm_graph srt1 (el_num_vertices (el_build W n es)) Hs Hn He HW) as (g2 & r2 & E2 & S2' & N2 & L2 & G2 & R2 & T2 & U2).
  change (adjacency_of W srt srt1 true S1 (el_build W n es) false = Ok g1) in E1.
  change (adjacency_ofN W srt srt1 true S1 (el_num_vertices (el_build W n es)) (el_build W n es) false = Ok g2) in E2.
  rewrite E1, E2 in *. destruct G as [G|G]; injection G as <-; [exists r1|exists r2]; repeat (split; [auto; try lia; try congruence|]); auto.
Qed.

(** ** y += A x over positions *)
(** The raw loop, in any order of the rows and in whatever arithmetic: element i of y becomes what adding x[source] * weight for the arcs that enter i, one
    after the other in some order, makes of 0. So y is the product of x with the transpose of the file's matrix. *)
Theorem C88_spmv_raw F X A (mac : F -> X -> A -> F) dx zero W srt srt1 n (es : list (edge A)) g x order :
  list_ok W srt n es -> graph_of W srt srt1 n es g \/ graph_ofN W srt srt1 n es g -> length x = csr_size g -> Permutation order (seq 0 (csr_size g)) ->
  exists y, spmv_raw mac g x order (repeat zero (csr_size g)) = Ok y /\ length y = csr_size g /\
    forall i, i < csr_size g -> exists l, Permutation l (entering es i) /\
      nth_error y i = Some (fold_left (fun acc e => mac acc (nth (esrc e) x dx) (eatt e)) l zero).
Proof.
  intros O G Lx P. destruct (graph_cases srt1 O G) as (rows & _ & _ & _ & _ & L & _ & R & T & U).
  destruct (@rows_done_all F zero (raw_row mac g x) (fun i a => rowval mac dx x (nth i rows []) a) (csr_size g) order (repeat zero (csr_size g))) as (y & E & Ly & N).
  - intros y i Li Le. apply raw_row_ok; [now apply R|intros e I; rewrite Lx; now apply (T i)|now rewrite Le].
  - auto.
  - apply repeat_length.
  - exists y. split; auto. split; auto. intros i Li. destruct (R i Li) as [_ Pm]. apply row_arcs in Pm. destruct Pm as (l & Pl & El).
    exists l. split; auto. rewrite N by auto. rewrite nth_repeat. f_equal. unfold rowval. rewrite El.
    now rewrite fold_left_map.
Qed.
(** In exact arithmetic: the sum over the arcs that enter i. *)
Theorem C88_spmv_integers W srt srt1 n (es : list (edge Z)) g x order :
  list_ok W srt n es -> graph_of W srt srt1 n es g \/ graph_ofN W srt srt1 n es g -> length x = csr_size g -> Permutation order (seq 0 (csr_size g)) ->
  exists y, spmv_raw (fun y x v => (y + x * v)%Z) g x order (repeat 0%Z (csr_size g)) = Ok y /\ length y = csr_size g /\
    forall i, i < csr_size g -> nth_error y i = Some (fold_right Z.add 0%Z (map (fun e => (nth (esrc e) x 0 * eatt e)%Z) (entering es i))).
Proof.
  intros O G Lx P. destruct (C88_spmv_raw (fun y x v => (y + x * v)%Z) 0%Z 0%Z srt1 x O G Lx P) as (y & E & L & N). exists y. split; auto. split; auto.
  intros i Li. destruct (N i Li) as (l & Pl & ->). rewrite (fold_left_Z (fun e => (nth (esrc e) x 0 * eatt e)%Z)), Z.add_0_l. f_equal.
  apply fold_right_perm. now apply Permutation_map.
Qed.
(** With std::transform_reduce, over positions or over graph[i]: y[i] becomes 0 + s, where s is some generalised sum (any grouping, any order) of the initial
    value and the products of the arcs that enter i; in exact arithmetic again the sum. *)
Theorem C88_reduce F X A (prod : X -> A -> F) plus red dx zero init W srt srt1 n (es : list (edge A)) g x order step :
  list_ok W srt n es -> graph_of W srt srt1 n es g \/ graph_ofN W srt srt1 n es g -> length x = csr_size g -> Permutation order (seq 0 (csr_size g)) ->
  (forall l, gsum plus (init :: l) (red l)) -> step = red_row_raw prod plus red g x \/ step = red_row prod plus red g x ->
  exists y, rfold step order (repeat zero (csr_size g)) = Ok y /\ length y = csr_size g /\
    forall i, i < csr_size g -> exists s, gsum plus (init :: map (fun e => prod (nth (esrc e) x dx) (eatt e)) (entering es i)) s /\ nth_error y i = Some (plus zero s).
Proof.
  intros O G Lx P Hr St. destruct (graph_cases srt1 O G) as (rows & _ & _ & _ & _ & L & _ & R & T & U).
  destruct (@rows_done_all F zero step (fun i a => plus a (red (map (fun e => prod (nth (fst e) x dx) (snd e)) (nth i rows [])))) (csr_size g) order (repeat zero (csr_size g)))
    as (y & E & Ly & N); auto; [|apply repeat_length|].
  - intros y i Li Le. destruct (R i Li) as [Er _]. assert (B : forall e, In e (nth i rows []) -> fst e < length x) by (intros e I; rewrite Lx; now apply (T i)).
    destruct St; subst step; [rewrite (@red_row_raw_ok F X A prod plus red g x i (nth i rows []) y Er B) by lia|]; apply red_row_ok; auto; lia.
  - exists y. split; auto. split; auto. intros i Li. destruct (R i Li) as [_ Pm]. apply row_arcs in Pm. destruct Pm as (l & Pl & El).
    exists (red (map (fun e => prod (nth (esrc e) x dx) (eatt e)) l)). split.
    + eapply gsum_perm; [|apply Hr]. apply perm_skip. now apply Permutation_map.
    + rewrite N by auto. rewrite nth_repeat, El, map_map. reflexivity.
Qed.
Theorem C88_reduce_integers red W srt srt1 n (es : list (edge Z)) g x order step :
  list_ok W srt n es -> graph_of W srt srt1 n es g \/ graph_ofN W srt srt1 n es g -> length x = csr_size g -> Permutation order (seq 0 (csr_size g)) ->
  (forall l, gsum Z.add (0%Z :: l) (red l)) -> step = red_row_raw Z.mul Z.add red g x \/ step = red_row Z.mul Z.add red g x ->
  exists y, rfold step order (repeat 0%Z (csr_size g)) = Ok y /\ length y = csr_size g /\
    forall i, i < csr_size g -> nth_error y i = Some (fold_right Z.add 0%Z (map (fun e => (nth (esrc e) x 0 * eatt e)%Z) (entering es i))).
Proof.
  intros O G Lx P Hr St. destruct (C88_reduce 0%Z 0%Z srt1 O G Lx P Hr St) as (y & E & L & N). exists y. split; auto. split; auto.
  intros i Li. destruct (N i Li) as (s & Hs & ->). apply gsum_Z in Hs. cbn in Hs. now subst s.
Qed.

(** ** The loops over begin() .. end() *)
(** On a graph made from an edge list alone - as in all these benchmarks - they read a row past the end, always. *)
Theorem C88_rows_past_end F X A (mac : F -> X -> A -> F) W srt srt1 n (es : list (edge A)) g x y :
  list_ok W srt n es -> graph_of W srt srt1 n es g -> length x = csr_size g -> length y = csr_size g -> spmv_rows mac g x y = Ub.
Proof.
  intros O G Lx Ly. destruct (graph_cases srt1 O (or_introl G)) as (rows & _ & _ & HN & _ & L & _ & R & T & U). specialize (HN G).
  destruct y as [|dy y0] eqn:Ey.
  - cbn in Ly. unfold spmv_rows. rewrite HN, <- Ly. cbn [seq rfold]. pose proof (row_past g) as RP. rewrite <- Ly in RP. cbn [Nat.add seq rfold]. rewrite RP. reflexivity.
  - rewrite <- Ey in *. destruct x as [|dx x0] eqn:Ex; [rewrite <- Lx, Ey in Ly; discriminate|]. rewrite <- Ex in *.
    unfold spmv_rows. rewrite HN, seq_app, rfold_app.
    destruct (@rows_done_all F dy (fun y k => do row <- csr_row g k ; rfold (fun y e => madd mac x y k (fst e) (snd e)) row y) (fun i a => rowval mac dx x (nth i rows []) a) (csr_size g) (seq 0 (csr_size g)) y)
      as (y' & E & _); auto.
    + intros y1 i Li Le. destruct (R i Li) as [-> _]. cbn [bind]. apply madd_row; [intros e I; rewrite Lx; now apply (T i)|lia].
    + rewrite E. cbn [bind seq rfold Nat.add]. now rewrite row_past.
Qed.
Theorem C88_edges_past_end A W srt srt1 n (es : list (edge A)) g fuel t : list_ok W srt n es -> graph_of W srt srt1 n es g -> length es <= fuel ->
  exists rows, graph_rows g = Ok rows /\ edges_of_range fuel rows (graph_range g) = Ub /\
    exists p, In p (spieces or_split t (graph_range g)) /\ edges_of_range fuel rows p = Ub.
Proof.
  intros O G Fu. destruct (graph_cases srt1 O (or_introl G)) as (rows & Sz & _ & HN & _ & L & Gr & R & T & U). specialize (HN G).
  exists rows. split; auto. unfold graph_range. rewrite HN, <- L, Nat.add_1_r.
  assert (Su : sum (map (@length _) rows) <= fuel) by (rewrite U; auto).
  split; [apply range_past; auto; lia|]. apply split_past; auto. lia.
Qed.
Theorem C88_plain_past_end A W srt srt1 n (es : list (edge A)) g : list_ok W srt n es -> graph_of W srt srt1 n es g ->
  deg_plain W g (repeat 0 (csr_size g)) = Ub.
Proof.
  intros O G. destruct (graph_cases srt1 O (or_introl G)) as (rows & _ & _ & HN & _). specialize (HN G).
  unfold deg_plain, plain_of_range. cbn [or_begin or_end]. rewrite HN, pr_seq0. cbn [bind]. rewrite seq_app, rfold_app.
  destruct O as (_ & W0 & _). destruct (@bumps W ltac:(lia) (seq 0 (csr_size g)) (repeat 0 (csr_size g))) as (d & E & Ld & _).
  - intros v I. apply in_seq in I. rewrite repeat_length. lia.
  - intros d I. apply repeat_spec in I. lia.
  - rewrite E. cbn [bind seq rfold Nat.add]. unfold bump. rewrite repeat_length in Ld. rewrite vget_ge by lia. reflexivity.
Qed.
(** On a graph made with the number of vertices they all do what the raw loop does. *)
Theorem C88_explicit_size F X A (mac : F -> X -> A -> F) W srt srt1 n (es : list (edge A)) g x y fuel :
  list_ok W srt n es -> graph_ofN W srt srt1 n es g -> length x = csr_size g -> length y = csr_size g -> length es <= fuel ->
  spmv_rows mac g x y = spmv_raw mac g x (seq 0 (csr_size g)) y /\
  exists rows tuples, graph_rows g = Ok rows /\ edges_of_range fuel rows (graph_range g) = Ok tuples /\
    spmv_edges mac tuples x y = spmv_raw mac g x (seq 0 (csr_size g)) y.
Proof.
  intros O G Lx Ly Fu. destruct (graph_cases srt1 O (or_intror G)) as (rows & _ & _ & _ & HN & L & Gr & R & T & U). specialize (HN G).
  assert (E : spmv_rows mac g x y = spmv_raw mac g x (seq 0 (csr_size g)) y).
  { unfold spmv_rows, spmv_raw. rewrite HN. apply rfold_ext_in. intros y1 i I. apply in_seq in I. destruct (R i ltac:(lia)) as [Er _].
    destruct (row_arrays g i Er) as (lo & hi & E1 & E2 & Lh & L1 & L2 & Ec & _). rewrite Er. cbn [bind]. unfold raw_row. rewrite E1. cbn [bind]. rewrite E2. cbn [bind].
    rewrite (rfold_slices (fun y c d => madd mac x y i c d)) by auto. now rewrite <- Ec. }
  split; auto. exists rows, (list_edges 0 rows). split; auto. split.
  - pose proof (@C26_edge_range_enumerates _ rows 0 fuel) as C. unfold or_make in C. cbn [skipn] in C. unfold graph_range. rewrite HN, <- L. apply C; [lia|].
    rewrite U; auto.
  - rewrite <- E. unfold spmv_edges, spmv_rows. rewrite (list_edges_fold (fun y k e => madd mac x y k (fst e) (snd e)) rows), HN, L. apply rfold_ext_in.
    intros y1 i I. apply in_seq in I. rewrite Nat.sub_0_r. destruct (R i ltac:(lia)) as [-> _]. reflexivity.
Qed.

(** ** Degrees *)
(** Counting the arcs of the rows gives the in-degrees, counting the neighbours met the out-degrees, read either way; nothing wraps. *)
Theorem C88_degrees A W srt srt1 n (es : list (edge A)) g :
  list_ok W srt n es -> graph_of W srt srt1 n es g \/ graph_ofN W srt srt1 n es g ->
  (exists d, deg_raw W g (csr_size g) (repeat 0 (csr_size g)) = Ok d /\ deg_rows W g (csr_size g) (repeat 0 (csr_size g)) = Ok d /\ length d = csr_size g /\
     forall v, v < csr_size g -> nth_error d v = Some (length (entering es v))) /\
  (exists d, deg_other_raw W g (csr_size g) (repeat 0 (csr_size g)) = Ok d /\ deg_other_rows W g (csr_size g) (repeat 0 (csr_size g)) = Ok d /\ length d = csr_size g /\
     forall v, v < csr_size g -> nth_error d v = Some (length (leaving es v))).
Proof.
  intros O G. destruct (graph_cases srt1 O G) as (rows & Sz & _ & _ & _ & L & _ & R & T & U). destruct O as (_ & Hn & He & HW).
  assert (Rw : forall v, v < csr_size g -> csr_row g v = Ok (nth v rows [])) by (intros v Lv; now apply R).
  assert (Z0 : forall d, In d (repeat 0 (csr_size g)) -> d < W) by (intros d I; apply repeat_spec in I; lia).
  assert (LF : forall f : edge A -> bool, length (filter f es) < W).
  { intros f. apply Nat.le_lt_trans with (length es); auto. clear. induction es as [|e l IH]; cbn; auto. destruct (f e); cbn; lia. }
  split.
  - destruct (deg_raw_rows W g rows (repeat 0 (csr_size g)) (le_n _) Rw) as [-> ->].
    destruct (@bumps W ltac:(lia) (flat_map (fun i => repeat i (length (nth i rows []))) (seq 0 (csr_size g))) (repeat 0 (csr_size g))) as (d & E & Ld & N); auto.
    + intros v I. apply in_flat_map in I. destruct I as (i & I & I'). apply repeat_spec in I'. subst v. apply in_seq in I. rewrite repeat_length. lia.
    + rewrite repeat_length in Ld, N. exists d. repeat (split; auto). intros v Lv. rewrite (nth_error_nth' d 0) by lia. f_equal. rewrite N by auto.
      rewrite nth_repeat, cnt_flat. rewrite (map_ext _ (fun i => if i =? v then length (nth i rows []) else 0)) by (intros; apply cnt_repeat).
      rewrite sum_single by lia. destruct (R v Lv) as [_ Pm]. apply Permutation_length in Pm. rewrite Pm. unfold spec_row. rewrite map_length.
      apply Nat.mod_small. apply LF.
  - destruct (deg_other_loops W g rows (repeat 0 (csr_size g)) (le_n _) Rw) as [-> ->].
    destruct (@bumps W ltac:(lia) (flat_map (fun i => map fst (nth i rows [])) (seq 0 (csr_size g))) (repeat 0 (csr_size g))) as (d & E & Ld & N); auto.
    + intros v I. apply in_flat_map in I. destruct I as (i & I & I'). apply in_map_iff in I'. destruct I' as (e & <- & I'). apply in_seq in I. rewrite repeat_length.
      apply (T i); auto. lia.
    + rewrite repeat_length in Ld, N. exists d. repeat (split; auto). intros v Lv. rewrite (nth_error_nth' d 0) by lia. f_equal. rewrite N by auto.
      rewrite nth_repeat, cnt_flat. cbn [Nat.add].
      rewrite (map_ext_in _ (fun i => length (filter (fun e => ekey S1 e =? i) (filter (fun e => esrc e =? v) es)))).
      * rewrite count_keys; [apply Nat.mod_small, LF|]. intros e I. apply filter_In in I. rewrite Sz. apply (build_key_lt S1 Hn He e (proj1 I)).
      * intros i I. apply in_seq in I. destruct (R i ltac:(lia)) as [_ Pm]. rewrite (cnt_perm v (Permutation_map fst Pm)). unfold spec_row. rewrite map_map. cbn [fst].
        rewrite cnt_map. f_equal. apply filter_swap.
Qed.
(** The loops that only count vertices: all ones, except plain_range over a graph made from an edge list alone. *)
Theorem C88_ones A W srt srt1 n (es : list (edge A)) g :
  list_ok W srt n es -> graph_of W srt srt1 n es g \/ graph_ofN W srt srt1 n es g ->
  deg_count W (csr_size g) (repeat 0 (csr_size g)) = Ok (repeat 1 (csr_size g)) /\
  (graph_ofN W srt srt1 n es g -> deg_plain W g (repeat 0 (csr_size g)) = Ok (repeat 1 (csr_size g))).
Proof.
  intros O G. destruct (graph_cases srt1 O G) as (rows & Sz & _ & _ & HN & L & _ & R & T & U). destruct O as (_ & Hn & He & HW).
  pose proof (size_le Hn He) as SW. rewrite <- Sz in SW.
  assert (C : deg_count W (csr_size g) (repeat 0 (csr_size g)) = Ok (repeat 1 (csr_size g))).
  { unfold deg_count. destruct (@bumps W ltac:(lia) (seq 0 (csr_size g)) (repeat 0 (csr_size g))) as (d & E & Ld & N).
    - intros v I. apply in_seq in I. rewrite repeat_length. lia.
    - intros d I. apply repeat_spec in I. lia.
    - rewrite E. f_equal. rewrite repeat_length in *. apply nth_ext with (d := 0) (d' := 1); [now rewrite repeat_length|]. intros v Lv. rewrite N by lia.
      rewrite !nth_repeat. unfold cnt. rewrite (proj1 (NoDup_count_occ' Nat.eq_dec (seq 0 (csr_size g))) (seq_NoDup _ _)) by (apply in_seq; lia).
      apply Nat.mod_small. lia. }
  split; auto. intros GN. unfold deg_plain, plain_of_range. cbn [or_begin or_end]. rewrite (HN GN), pr_seq0. exact C.
Qed.

(** Arcs 1->0 (weight 10), 2->1 (20), 0->3 (30), 2->1 (40), 3->1 (50), and a fifth vertex. *)
Definition ex_es : list (edge Z) := [((1,0),10%Z); ((2,1),20%Z); ((0,3),30%Z); ((2,1),40%Z); ((3,1),50%Z)].
Definition ex_srt := isort_by (fst (A := nat) (B := nat * Z)).
Definition ex_srt1 := isort_by (fun x : nat => x).
Definition ex_g : csr Z := match adjacency_of 100 ex_srt ex_srt1 true S1 (el_build 100 5 ex_es) false with Ok g => g | _ => csr_new 0 end.
Definition ex_gN : csr Z := match adjacency_ofN 100 ex_srt ex_srt1 true S1 5 (el_build 100 5 ex_es) false with Ok g => g | _ => csr_new 0 end.
Example ex_ok : list_ok 100 ex_srt 5 ex_es /\ graph_of 100 ex_srt ex_srt1 5 ex_es ex_g /\ graph_ofN 100 ex_srt ex_srt1 5 ex_es ex_gN /\ csr_size ex_g = 5 /\ csr_N ex_g = 6.
Proof.
  split; [|repeat split; reflexivity]. split; [apply isort_by_is_sort|]. split; [lia|]. split; [|cbn; lia].
  intros e H. repeat (destruct H as [<-|H]; [cbn; lia|]). destruct H.
Qed.
Definition zmac (y x v : Z) : Z := (y + x * v)%Z.
Definition ex_x : list Z := [0; 1; 2; 3; 4]%Z.
Example ex_runs :
  spmv_raw zmac ex_g ex_x [3; 0; 4; 1; 2] (repeat 0%Z 5) = Ok [10; 270; 0; 0; 0]%Z /\ spmv_rows zmac ex_g ex_x (repeat 0%Z 5) = Ub /\
  spmv_rows zmac ex_gN ex_x (repeat 0%Z 5) = Ok [10; 270; 0; 0; 0]%Z /\
  rfold (red_row Z.mul Z.add (fold_right Z.add 0%Z) ex_g ex_x) [0; 1; 2; 3; 4] (repeat 0%Z 5) = Ok [10; 270; 0; 0; 0]%Z /\
  (do rows <- graph_rows ex_g ; edges_of_range 5 rows (graph_range ex_g)) = Ub /\
  deg_raw 100 ex_g 5 (repeat 0 5) = Ok [1; 3; 0; 1; 0] /\ deg_other_rows 100 ex_g 5 (repeat 0 5) = Ok [1; 1; 2; 1; 0] /\
  deg_plain 100 ex_g (repeat 0 5) = Ub /\ deg_plain 100 ex_gN (repeat 0 5) = Ok [1; 1; 1; 1; 1].
Proof. vm_compute. auto 12. Qed.
(** A reduction that groups from the right and one that starts in the middle are both allowed. *)
Example ex_red : (forall l, gsum Z.add (0%Z :: l) (fold_right Z.add 0%Z l)) /\ gsum Z.add [0; 1; 2; 3]%Z ((1 + 2) + (0 + 3))%Z.
Proof.
  split.
  - intros l. induction l as [|a l IH]; [constructor|]. apply gsum_perm with (l1 := [a] ++ (0%Z :: l)); [apply perm_swap|]. apply (@gsum_cat Z Z.add [a] (0%Z :: l)); [constructor|auto].
  - apply gsum_perm with (l1 := (([1] ++ [2]) ++ ([0] ++ [3]))%Z).
    + cbn. apply Permutation_trans with [0; 1; 2; 3]%Z; [|auto]. apply Permutation_sym. apply (Permutation_middle [1; 2]%Z [3]%Z 0%Z).
    + apply (@gsum_cat Z Z.add ([1] ++ [2])%Z ([0] ++ [3])%Z); apply (gsum_cat (plus := Z.add)); constructor.
Qed.

Print Assumptions C88_spmv_raw.
Print Assumptions C88_spmv_integers.
Print Assumptions C88_reduce.
Print Assumptions C88_reduce_integers.
Print Assumptions C88_rows_past_end.
Print Assumptions C88_edges_past_end.
Print Assumptions C88_plain_past_end.
Print Assumptions C88_explicit_size.
Print Assumptions C88_degrees.
Print Assumptions C88_ones.
