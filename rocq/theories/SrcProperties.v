(** C79: the source vertices of the benchmarks (bench/common.hpp:111-154, bc.cpp:98-122, bfs.cpp:88-104,
    SourceVerifier.cpp). Specification: the number of arcs into a vertex and the sequence of drawn values. *)
From Coq Require Import List Arith Ascii Bool Lia Permutation.
From Verif Require Import Base EdgeListModel CsrModel CsrProofs CsrProofs2 CsrProperties GraphLib RangeModel MmvModel SrcModel SrcProofs.
Import ListNotations.
Set Implicit Arguments.
Local Open Scope nat_scope.

(** The number of arcs into v. *)
Definition indegree (g : list (list nat)) (v : nat) : nat := count_occ Nat.eq_dec (concat g) v.
(** The drawn values that are acceptable, in order, among the first K. *)
Definition accepted (M : nat) (g : list (list nat)) (draw : nat -> nat) (K : nat) : list nat :=
  filter (fun v => negb (indegree g v mod M =? 0)) (map draw (seq 0 K)).

(** build_degrees counts the arcs into every vertex (modulo the width of the id type), however the edges are split over
    tasks and in whatever order these run. *)
Theorem C79_degrees M g t sched : 0 < M -> targets_ok g ->
  exists d, build_degrees M g t sched = Ok d /\ length d = length g /\ forall v, v < length g -> nth v d 0 = indegree g v mod M.
Proof. exact (@degrees_ok M g t sched). Qed.
(** A target that is not a vertex is undefined behaviour in every execution. *)
Theorem C79_degrees_bad_target M g t sched u v : edge g u v -> length g <= v -> build_degrees M g t sched = Ub.
Proof.
  intros E L. apply degrees_ub with v; auto. apply in_concat. unfold edge in E. exists (nth u g []). split; auto.
  destruct (Nat.lt_ge_cases u (length g)); [now apply nth_In|]. rewrite nth_overflow in E by auto. destruct E.
Qed.

Lemma good_ext M g deg draw K : (forall v, v < length g -> nth v deg 0 = indegree g v mod M) -> (forall i, i < K -> draw i < length g) ->
  filter (fun v => negb (nth v deg 0 =? 0)) (map draw (seq 0 K)) = accepted M g draw K.
Proof.
  intros H HD. unfold accepted. apply filter_ext_in. intros v I. apply in_map_iff in I. destruct I as (i & <- & I). apply in_seq in I. rewrite H; auto. apply HD. lia.
Qed.
(** build_random_sources: the first n acceptable values. *)
Theorem C79_random fuel M g t sched draw n K : 0 < M -> targets_ok g -> (forall i, i < K -> draw i < length g) -> n <= length (accepted M g draw K) -> K <= fuel ->
  build_random_sources fuel M g t sched draw n = Ok (firstn n (accepted M g draw K)).
Proof.
  intros HM T HD HN HF. unfold build_random_sources. destruct (degrees_ok t sched HM T) as (d & -> & L & H). cbn [bind].
  rewrite picks_ok with (K := K); auto.
  - now rewrite (good_ext M g d draw H HD).
  - intros i I. rewrite L. apply HD. lia.
  - now rewrite (good_ext M g d draw H HD).
Qed.
(** The distribution includes the number of vertices itself (131): drawing it before n vertices have been found reads one
    past the end of the degrees. *)
Theorem C79_random_inclusive fuel M g t sched draw n K : 0 < M -> targets_ok g -> (forall i, i < K -> draw i < length g) ->
  length (accepted M g draw K) < n -> draw K = length g -> K < fuel ->
  build_random_sources fuel M g t sched draw n = Ub.
Proof.
  intros HM T HD HN HK HF. unfold build_random_sources. destruct (degrees_ok t sched HM T) as (d & -> & L & H). cbn [bind].
  rewrite picks_ub with (K := K); auto.
  - intros i I. rewrite L. apply HD. lia.
  - now rewrite (good_ext M g d draw H HD).
  - cbn. lia.
Qed.
(** Whatever is returned is the target of an arc, and there are n of them. *)
Theorem C79_random_members fuel M g t sched draw n l : 0 < M -> targets_ok g -> build_random_sources fuel M g t sched draw n = Ok l ->
  length l = n /\ forall v, In v l -> v < length g /\ exists u, edge g u v.
Proof.
  intros HM T E. unfold build_random_sources in E. destruct (degrees_ok t sched HM T) as (d & Ed & L & H). rewrite Ed in E. cbn [bind] in E.
  apply picks_Ok in E. destruct E as [Ln HL]. split; auto. intros v I. destruct (HL v I) as [Lv NZ]. rewrite L in Lv. split; auto. rewrite H in NZ by auto.
  assert (IC : In v (concat g)).
  { apply (count_occ_In Nat.eq_dec). destruct (count_occ Nat.eq_dec (concat g) v); [|lia]. exfalso. apply NZ. apply Nat.mod_0_l. lia. } apply in_concat in IC. destruct IC as (r & R & J).
  apply (In_nth _ _ []) in R. destruct R as (u & Lu & <-). exists u. exact J.
Qed.
(** A graph without arcs: the search for the first source does not end. *)
Theorem C79_random_no_arcs fuel M g t sched draw n : 0 < M -> (forall u v, ~ edge g u v) -> (forall i, draw i < length g) ->
  build_random_sources fuel M g t sched draw (S n) = OutOfFuel.
Proof.
  intros HM NE HD. assert (T : targets_ok g) by (intros u v E; destruct (NE _ _ E)). unfold build_random_sources.
  destruct (degrees_ok t sched HM T) as (d & -> & L & H). cbn [bind picks]. rewrite pick_forever; auto.
  - intros i. now rewrite L.
  - intros v. destruct (Nat.lt_ge_cases v (length g)) as [Lv|Lv]; [|now rewrite nth_overflow by lia]. rewrite H by auto.
    replace (count_occ Nat.eq_dec (concat g) v) with 0; [apply Nat.mod_0_l; lia|]. symmetry. apply count_occ_not_In. intros I.
    apply in_concat in I. destruct I as (r & R & J). apply (In_nth _ _ []) in R. destruct R as (u & Lu & <-). exact (NE _ _ J).
Qed.

(** On the graphs the benchmarks build from an edge list: the constructor they use lays the edge range one row past the
    end (C04), which is undefined; with the explicit-size constructor, the sources are vertices at the other end of an arc
    of the file: with adjacency<1> (bfs, bc) those with an arc out, with adjacency<0> (sssp) those with an arc in. *)
Theorem C79_bench_graph A W srt srt1 s n (es : list (EdgeListModel.edge A)) : is_sort_by fst srt -> n < W -> ids_ok W es -> 2 * length es < W ->
  (exists h, adjacency_of W srt srt1 true s (el_build W n es) false = Ok h /\
     forall fuel M t sched draw k, csr_random_sources fuel M h t sched draw k = Ub) /\
  (exists h, adjacency_ofN W srt srt1 true s (el_num_vertices (el_build W n es)) (el_build W n es) false = Ok h /\
     forall fuel M t sched draw k l, 0 < M -> csr_random_sources fuel M h t sched draw k = Ok l ->
       length l = k /\ forall v, In v l -> exists e, In e es /\ (if s then etgt e else esrc e) = v).
Proof.
  intros Hs Hn He HW. split.
  - destruct (@C04_full_iteration_out_of_bounds A W srt srt1 true s n es Hs Hn He HW) as (h & E & _ & _ & I). exists h. split; auto.
    intros. unfold csr_random_sources. now rewrite I.
  - destruct (@C04_explicit_size_iteration_ok A W srt srt1 true s n es Hs Hn He HW) as (h & rows & E & I & LR & HR). exists h. split; auto.
    intros fuel M t sched draw k l HM. unfold csr_random_sources. rewrite I. cbn [bind]. intros B.
    assert (HWl : length es < W) by lia. destruct (@C02_directed_csr_exact A W srt srt1 s n (el_num_vertices (el_build W n es)) es Hs Hn He HWl) as (_ & h' & E' & SZ & _ & _ & P).
    rewrite E in E'. injection E' as <-.
    set (g := map (map fst) rows) in *.
    assert (GR : forall u v, edge g u v -> exists e, In e es /\ ekey (other_side s) e = v).
    { intros u v X. unfold edge, g in X. rewrite <- (map_nth (map fst) rows [] u) in X || idtac. change (@nil nat) with (map (@fst nat A) []) in X. rewrite map_nth in X.
      destruct (Nat.lt_ge_cases u (csr_size h)) as [Lu|Lu]; [|rewrite nth_overflow in X by lia; destruct X].
      destruct (P u Lu) as (row & R1 & R2). rewrite HR in R1 by auto. injection R1 as R1. rewrite R1 in X. apply in_map_iff in X. destruct X as ([w a] & <- & X).
      apply (Permutation_in _ R2) in X. unfold spec_row in X. apply in_map_iff in X. destruct X as (e & Q & X). injection Q as <- <-. apply filter_In in X. exists e. tauto. }
    assert (T : targets_ok g).
    { intros u v X. destruct (GR u v X) as (e & Ie & <-). unfold g. rewrite map_length, LR, SZ. now apply build_key_lt. }
    destruct (C79_random_members _ _ _ _ _ HM T B) as [L H]. split; auto. intros v Iv. destruct (H v Iv) as (_ & u & X). destruct (GR u v X) as (e & Ie & Q).
    exists e. split; auto. destruct s; exact Q.
Qed.

(** load_sources_from_file: the file as read (C78), or exit when a nonzero number is asked for and the file has another. *)
Theorem C79_file W debug file s n : read_mm_vector W debug file = Some (Ok s) ->
  load_sources W debug file 0 = Some (Ok (Got s)) /\
  (length s = n -> load_sources W debug file n = Some (Ok (Got s))) /\
  (n <> 0 -> length s <> n -> load_sources W debug file n = Some (Ok Exit)).
Proof.
  intros E. unfold load_sources. rewrite E. cbn [bind Nat.eqb negb andb]. split; auto. split.
  - intros ->. now rewrite Nat.eqb_refl, andb_false_r.
  - intros N D. apply Nat.eqb_neq in N, D. now rewrite N, D.
Qed.

(** bc: when the run goes on, it has exactly trials * iterations sources (0 counting as 1): those of the file, the given vertex again
    and again, or drawn ones with an arc into them. *)
Theorem C79_bc_count fuel M debug g c trials iterations s :
  0 < M -> targets_ok g -> bc_sources fuel M debug g c trials iterations = Some (Ok (Got s)) ->
  length s = Nat.max 1 trials * Nat.max 1 iterations /\
  match c with
  | FromFile f => read_mm_vector M debug f = Some (Ok s)
  | FromNode r => forall v, In v s -> v = r mod M
  | Random _ _ _ => forall v, In v s -> exists u, edge g u v
  end.
Proof.
  intros HM T. assert (O : forall k, or_one k = Nat.max 1 k) by (intros [|k]; unfold or_one; cbn; lia). unfold bc_sources. rewrite !O.
  set (n := Nat.max 1 trials * Nat.max 1 iterations). destruct c as [f|r|t sched draw]; intros E.
  - unfold load_sources in E. destruct (read_mm_vector M debug f) as [[x| |]|] eqn:R; cbn [bind] in E; try discriminate. assert (NN : n <> 0) by (unfold n; nia).
    destruct (Nat.eqb_spec n 0); [easy|]. cbn [negb andb] in E. destruct (Nat.eqb_spec (length x) n) as [L|L]; cbn [negb] in E; [|discriminate]. injection E as <-. split; auto.
  - injection E as <-. split; [apply repeat_length|]. intros v I. now apply repeat_spec in I.
  - injection E as E. destruct (build_random_sources fuel M g t sched draw n) as [x| |] eqn:B; cbn [bind] in E; try discriminate. injection E as <-.
    destruct (C79_random_members _ _ _ _ _ HM T B) as [L H]. split; auto. intros v I. apply (H v I).
Qed.
(** bc.cpp:122: if &sources[sources.size()] is allowed, the trials take the sources in order, [iterations] each... *)
Theorem C79_bc_trials sources trials iterations : length sources = trials * iterations ->
  exists ll, bc_trials false sources trials iterations = Ok ll /\ length ll = trials /\ (forall l, In l ll -> length l = iterations) /\ concat ll = sources.
Proof.
  intros L. exists (map (fun i => firstn iterations (skipn (iterations * i) sources)) (seq 0 trials)). split.
  - apply rmap_total. intros i I. apply in_seq in I. unfold trial_sources, address.
    replace (iterations * i <=? length sources) with true by (symmetry; apply Nat.leb_le; nia).
    replace (iterations * (i + 1) <=? length sources) with true by (symmetry; apply Nat.leb_le; nia). cbn [bind].
    rewrite vslice_Ok by nia. do 2 f_equal. nia.
  - split; [now rewrite map_length, seq_length|]. split.
    + intros l I. apply in_map_iff in I. destruct I as (i & <- & I). apply in_seq in I. rewrite firstn_length, skipn_length. nia.
    + rewrite slices_concat. replace (iterations * trials) with (length sources) by nia. apply firstn_all.
Qed.
(** ... but operator[] requires an element: the last trial of every run forms &sources[size()]. *)
Theorem C79_bc_trials_strict sources trials iterations : length sources = trials * iterations -> 0 < trials ->
  bc_trials true sources trials iterations = Ub.
Proof.
  intros L HT. destruct trials as [|k]; [lia|]. unfold bc_trials. rewrite seq_S. destruct iterations as [|it].
  - replace (seq 0 k ++ [0 + k]) with (seq 0 (S k)) by (now rewrite seq_S). cbn [seq rmap]. unfold trial_sources at 1, address. rewrite Nat.mul_0_l.
    destruct sources; [reflexivity|cbn in L; lia].
  - apply rmap_last_ub.
    + intros i I. apply in_seq in I. unfold trial_sources, address.
      replace (S it * i <? length sources) with true by (symmetry; apply Nat.ltb_lt; nia).
      replace (S it * (i + 1) <? length sources) with true by (symmetry; apply Nat.ltb_lt; nia). cbn [bind]. rewrite vslice_Ok by nia. eauto.
    + unfold trial_sources, address. replace (S it * (0 + k) <? length sources) with true by (symmetry; apply Nat.ltb_lt; nia).
      replace (S it * (0 + k + 1) <? length sources) with false by (symmetry; apply Nat.ltb_ge; nia). reflexivity.
Qed.
(** bfs: a file brings its own number of runs; otherwise one source per trial. *)
Theorem C79_bfs_count fuel M debug g c trials s : 0 < M -> targets_ok g -> bfs_sources fuel M debug g c trials = Some (Ok (Got s)) ->
  match c with
  | FromFile f => read_mm_vector M debug f = Some (Ok s)
  | FromNode r => s = repeat (r mod M) (Nat.max 1 trials)
  | Random _ _ _ => length s = Nat.max 1 trials /\ forall v, In v s -> exists u, edge g u v
  end.
Proof.
  intros HM T. assert (O : forall k, or_one k = Nat.max 1 k) by (intros [|k]; unfold or_one; cbn; lia). destruct c as [f|r|t sched draw]; cbn [bfs_sources]; rewrite ?O; intros E.
  - unfold load_sources in E. destruct (read_mm_vector M debug f) as [[x| |]|]; cbn in E; try discriminate. now injection E as <-.
  - now injection E as <-.
  - injection E as E. set (k := match trials with 0 => 1 | S m => S m end) in E. assert (EK : k = Nat.max 1 trials) by (destruct trials; reflexivity).
    destruct (build_random_sources fuel M g t sched draw k) as [x| |] eqn:B; cbn [bind] in E; try discriminate. injection E as <-. rewrite <- EK.
    destruct (C79_random_members _ _ _ _ _ HM T B) as [L H]. split; auto. intros v I. apply (H v I).
Qed.

(** SourceVerifier: the number of positions at which the file and the fresh draw differ; 0 exactly when they agree. *)
Theorem C79_verifier fuel M g t sched draw sources trials iterations random :
  length sources = trials * iterations -> build_random_sources fuel M g t sched draw (length sources) = Ok random -> 0 < M -> targets_ok g ->
  exists f, source_verifier fuel M g t sched draw sources trials iterations = Ok (Some f) /\
    f = length (filter (fun i => negb (nth i sources 0 =? nth i random 0)) (seq 0 (length sources))) /\ (f = 0 <-> sources = random).
Proof.
  intros L B HM T. unfold source_verifier. rewrite L, Nat.eqb_refl. cbn [negb]. rewrite <- L, B. cbn [bind]. eexists. split; [reflexivity|].
  assert (LR : length random = length sources) by (apply (C79_random_members _ _ _ _ _ HM T B)). clear - LR. revert random LR. induction sources as [|a s IH]; intros [|b r] LR; cbn in LR; try lia.
  - cbn. split; auto. tauto.
  - destruct (IH r) as [E Z]; [lia|]. cbn [mismatches length seq filter nth]. rewrite <- seq_shift.
    assert (FM : forall q (p : nat -> bool), length (filter p (map S q)) = length (filter (fun i => p (S i)) q)) by (induction q; intros p; cbn; auto; destruct (p (S a0)); cbn; auto).
    split.
    + destruct (a =? b); cbn [negb length]; rewrite FM, E; reflexivity.
    + destruct (Nat.eqb_spec a b) as [->|N]; cbn.
      * rewrite Z. split; [intros ->; auto|]. intros Q. now injection Q.
      * split; [discriminate|]. intros Q. injection Q. congruence.
Qed.
(** Another number of sources than asked for ends it without a comparison (and with exit status 0). *)
Theorem C79_verifier_count fuel M g t sched draw sources trials iterations : length sources <> trials * iterations ->
  source_verifier fuel M g t sched draw sources trials iterations = Ok None.
Proof. intros N. unfold source_verifier. apply Nat.eqb_neq in N. now rewrite N. Qed.

(** Examples. 0 -> 1, 0 -> 2, 2 -> 1: vertex 0, which has the arcs, is never taken; 1 is although its row is empty. *)
Definition ex_g : list (list nat) := [[1; 2]; []; [1]; []].
Example C79_ex_degrees : build_degrees 256 ex_g (SNode SLeaf (SNode SLeaf SLeaf)) (fun i => i * 7 + 1) = Ok [0; 2; 1; 0] /\ targets_ok ex_g /\
  build_degrees 2 ex_g SLeaf (fun _ => 0) = Ok [0; 0; 1; 0] /\ build_degrees 256 [[1]] (SNode SLeaf SLeaf) (fun i => i) = Ub.
Proof.
  split; [vm_compute; reflexivity|]. split; [|split; vm_compute; reflexivity].
  intros u v. unfold edge. do 4 (destruct u as [|u]; [cbn; intuition subst; lia|]). destruct u; cbn; intros [].
Qed.
Definition ex_draw (l : list nat) (i : nat) : nat := nth i l 3.
Example C79_ex_random :
  build_random_sources 10 256 ex_g SLeaf (fun i => i) (ex_draw [0; 1; 3; 0; 1; 2; 0]) 3 = Ok [1; 1; 2] /\
  accepted 256 ex_g (ex_draw [0; 1; 3; 0; 1; 2; 0]) 6 = [1; 1; 2] /\
  build_random_sources 10 256 ex_g SLeaf (fun i => i) (ex_draw [0; 1; 4; 0; 1; 2; 0]) 3 = Ub /\
  build_random_sources 100 256 [[]; []] SLeaf (fun i => i) (fun i => i mod 2) 1 = OutOfFuel /\
  source_verifier 10 256 ex_g SLeaf (fun i => i) (ex_draw [0; 1; 3; 0; 1; 2; 0]) [1; 2; 2] 3 1 = Ok (Some 1) /\
  source_verifier 10 256 ex_g SLeaf (fun i => i) (ex_draw [0; 1; 3; 0; 1; 2; 0]) [1; 2] 3 1 = Ok None.
Proof. repeat split; vm_compute; reflexivity. Qed.
Example C79_ex_bench :
  let es := [((0, 1), 5); ((0, 2), 6); ((2, 1), 7)] in let el := el_build 1000 0 es in
  exists h, adjacency_ofN 1000 ex_sortz ex_sort1 true S1 3 el false = Ok h /\
    csr_random_sources 10 1000 h SLeaf (fun i => i) (ex_draw [1; 0; 2]) 2 = Ok [0; 2] /\
    exists h', adjacency_of 1000 ex_sortz ex_sort1 true S1 el false = Ok h' /\ csr_random_sources 10 1000 h' SLeaf (fun i => i) (ex_draw [1; 0; 2]) 2 = Ub.
Proof. eexists. split; [vm_compute; reflexivity|]. split; [vm_compute; reflexivity|]. eexists. split; [vm_compute; reflexivity|]. vm_compute. reflexivity. Qed.
Example C79_ex_trials :
  bc_trials false [5; 6; 7; 8] 2 2 = Ok [[5; 6]; [7; 8]] /\ bc_trials true [5; 6; 7; 8] 2 2 = Ub /\ bc_trials true [5; 6; 7; 8; 9] 2 2 = Ok [[5; 6]; [7; 8]] /\
  bc_sources 10 256 false ex_g (FromNode 300) 2 0 = Some (Ok (Got [44; 44])) /\ bfs_sources 10 256 false ex_g (FromNode 3) 0 = Some (Ok (Got [3])).
Proof. repeat split; vm_compute; reflexivity. Qed.
Print Assumptions C79_degrees.
Print Assumptions C79_degrees_bad_target.
Print Assumptions C79_random.
Print Assumptions C79_random_inclusive.
Print Assumptions C79_random_members.
Print Assumptions C79_random_no_arcs.
Print Assumptions C79_bench_graph.
Print Assumptions C79_file.
Print Assumptions C79_bc_count.
Print Assumptions C79_bc_trials.
Print Assumptions C79_bc_trials_strict.
Print Assumptions C79_bfs_count.
Print Assumptions C79_verifier.
Print Assumptions C79_verifier_count.
