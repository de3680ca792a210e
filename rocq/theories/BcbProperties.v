(** C82: the betweenness centrality benchmark on the file that was read. Specification: [file_rows], [toward], [betweenness] (BcbProofs.v)
    and the shortest paths of BcLib.v. *)
From Coq Require Import List Arith ZArith QArith Qcanon Field Lia Bool Permutation.
From Verif Require Import EdgeListModel EdgeListProofs CsrModel CsrProofs CsrProofs2 CsrProofs4 CsrProperties TcProperties CbModel CbProofs BbModel BbProofs BbProperties
  Base GraphLib SumLib QcLib BcLib BcModel BcProofs BcVerProofs BcParProofs BcParProofs2 BcProperties XbcModel XbcProperties SrcModel SrcProperties BcbModel BcbProofs.
Import ListNotations.
Set Implicit Arguments.
Local Open Scope nat_scope.

Lemma outcome_parallel vmax M nbins g sched asched sources : targets_ok g -> counts_below g M -> length g <= vmax -> 0 < nbins -> concat g <> [] ->
  (forall s, In s sources -> s < length g) -> outcome true (with_sources g sources) (par_brandes vmax M nbins false g sched asched sources true).
Proof.
  intros T C HV HB NE HS. assert (X := @C48_parallel_normalized vmax M nbins g sched asched sources T C HV HB NE HS). unfold outcome. destruct (par_brandes _ _ _ _ _ _ _ _ _); auto.
  intros x I. apply in_map_iff in I. destruct I as (v & <- & I). apply in_seq in I. apply X. lia.
Qed.

(** Versions 0, 3, 4 and 5: for every file with vertices 0 .. N-1, every list of sources among them and every interleaving the result is
    the score [toward] the sources divided by the largest one. So the paths of the file that end, not begin, in a source count. The
    source itself is credited with the paths that end in it. Without a result all scores are 0. *)
Theorem C82_sources : forall W zsrt srt1 n es D W64 id thread s sources, bb_env W n es zsrt -> let el := el_build W n es in let N := el_num_vertices el in let file := file_rows N es in
  counts_below file D -> (forall x, In x sources -> x < N) -> In id [0; 3] \/ (In id [4; 5] /\ 0 < thread /\ es <> []) ->
  exists g, bcb_graph W zsrt srt1 el = Ok g /\ outcome true (map (toward file sources) (seq 0 N)) (bcb_version (W - 1) D W64 id thread s g sources).
Proof.
  intros W zsrt srt1 n es D W64 id thread s sources (HZ & Hn & He & HL) el N file C HS ID.
  destruct (@bcb_rows W zsrt srt1 n es HZ Hn He HL) as (g & rows & EG & ER & LR & HW & B & R & NE & _). fold el N in EG, LR, HW, R. fold file in R.
  exists g. split; auto. unfold bcb_version. rewrite ER. cbn [bind]. assert (T := proj1 (proj2 R)). apply (counts_reversed R) in C. rewrite <- LR in HS |- *.
  rewrite <- (@with_toward rows file _ R HS). assert (LV : length rows <= W - 1) by lia.
  destruct ID as [[<-|[<-|[]]]|([<-|[<-|[]]] & TH & E)].
  - now apply C70_v0.
  - now apply C70_v3.
  - exact (@C70_v4 rows (W - 1) D thread false (br_sched s) sources true T C LV TH (NE E) HS).
  - now apply outcome_parallel; auto.
Qed.

(** Versions 1 and 7, and version 2 when no two shortest paths lead to a source or its tasks do not interleave: the same without the
    credit of a source for itself. *)
Theorem C82_others : forall W zsrt srt1 n es D W64 id thread s sources, bb_env W n es zsrt -> let el := el_build W n es in let N := el_num_vertices el in let file := file_rows N es in
  counts_below file (if id =? 7 then W64 else D) -> (forall x, In x sources -> x < N) ->
  In id [1; 7] \/ (id = 2 /\ ((forall x t d, In x sources -> t < N -> dist file t x d -> cnt file d t x <= 1) \/ forall i l j, l <= N -> br_sched s i l j = 0)) ->
  exists g, bcb_graph W zsrt srt1 el = Ok g /\ outcome true (map (fun v => toward file (others v sources) v) (seq 0 N)) (bcb_version (W - 1) D W64 id thread s g sources).
Proof.
  intros W zsrt srt1 n es D W64 id thread s sources (HZ & Hn & He & HL) el N file C HS ID.
  destruct (@bcb_rows W zsrt srt1 n es HZ Hn He HL) as (g & rows & EG & ER & LR & HW & B & R & NE & _). fold el N in EG, LR, HW, R. fold file in R.
  exists g. split; auto. unfold bcb_version. rewrite ER. cbn [bind]. assert (T := proj1 (proj2 R)). apply (counts_reversed R) in C. rewrite <- LR in *.
  rewrite <- (@without_toward rows file _ R HS). assert (LV : length rows <= W - 1) by lia.
  destruct ID as [[<-|[<-|[]]]|(-> & U)]; cbn [Nat.eqb] in C.
  - now apply C70_v1.
  - now apply C70_approx.
  - apply C70_v2; auto. destruct U as [U|U]; [left|now right]. intros x t d I Q. assert (Lx := HS x I).
    assert (Lt : t < length rows) by (eapply walk_lt; [apply T|apply Lx|apply Q]). rewrite (reversed_cnt d R) by auto. apply U; auto. now apply (reversed_dist R).
Qed.

(** Versions 6 and 8 take every vertex as a source. Version 6 gives the betweenness of the graph in the file, for which the direction
    of the arcs does not matter; version 8 adds to it, for each vertex, the number of other vertices that lead to it. *)
Theorem C82_exact : forall W zsrt srt1 n es D W64 thread s sources, bb_env W n es zsrt -> let el := el_build W n es in let N := el_num_vertices el in let file := file_rows N es in
  exists g, bcb_graph W zsrt srt1 el = Ok g /\
    (counts_below file W64 -> outcome true (map (betweenness file) (seq 0 N)) (bcb_version (W - 1) D W64 6 thread s g sources)) /\
    (counts_below file D -> 0 < thread -> es <> [] -> forall into : nat -> list nat, (forall v, NoDup (into v)) ->
      (forall v t, In t (into v) <-> t < N /\ t <> v /\ exists k, leads es k t v) ->
      outcome true (map (fun v => betweenness file v + qn (length (into v)))%Qc (seq 0 N)) (bcb_version (W - 1) D W64 8 thread s g sources)).
Proof.
  intros W zsrt srt1 n es D W64 thread s sources (HZ & Hn & He & HL) el N file.
  destruct (@bcb_rows W zsrt srt1 n es HZ Hn He HL) as (g & rows & EG & ER & LR & HW & B & R & NE & _). fold el N in EG, LR, HW, R, B. fold file in R.
  exists g. split; auto. unfold bcb_version. rewrite ER. cbn [bind]. assert (T := proj1 (proj2 R)). split.
  - intros C. apply (counts_reversed R) in C. assert (X := C48_sequential_normalized T C). cbv zeta in X.
    replace (map (betweenness file) (seq 0 N)) with (map (fun v => score rows (others v (seq 0 (length rows))) v) (seq 0 (length rows))).
    + unfold outcome. destruct (brandes_bc rows W64 true); auto.
    + rewrite <- LR. apply map_ext_in. intros v I. apply in_seq in I. apply score_betweenness; auto. lia.
  - intros C TH E into ND IN. apply (counts_reversed R) in C. unfold exact_par_brandes.
    assert (HS : forall x, In x (seq 0 (length rows)) -> x < length rows) by (intros x I; apply in_seq in I; lia).
    replace (map (fun v => betweenness file v + qn (length (into v)))%Qc (seq 0 N)) with (with_sources rows (seq 0 (length rows))); [apply outcome_parallel; auto; lia|].
    rewrite (@with_toward rows file _ R HS), LR. apply map_ext_in. intros v I. apply in_seq in I. assert (LF : length file = N) by apply file_rows_length. rewrite <- LF.
    assert (U := proj1 (proj2 (proj2 R))). rewrite toward_split by (auto; lia). f_equal. destruct (@toward_own file v U ltac:(lia)) as (l & NDl & IL & ->). f_equal.
    apply Permutation_length. apply NoDup_Permutation; auto. intros t. rewrite IL, IN, LF. split; intros (A1 & A2 & (k & A3)); split; auto; split; auto; exists k.
    + clear - A3 B. revert A3. revert t. induction k as [|k IH]; intros t Q.
      * inversion Q; subst. constructor.
      * apply walk_uncons in Q. destruct Q as (w & Q1 & Q2). apply (@file_edge _ _ B) in Q1. econstructor; eauto.
    + clear - A3 B. induction A3 as [|k t w v Q1 Q2 IH]; [constructor|]. apply walk_cons' with w; auto. now apply (@file_edge _ _ B).
Qed.

(** A file without edges: versions 4, 5 and 8 read the first of no targets. *)
Theorem C82_no_edges : forall W zsrt srt1 n D W64 id thread s sources, bb_env W n [] zsrt -> In id [4; 5; 8] ->
  exists g, bcb_graph W zsrt srt1 (el_build W n []) = Ok g /\ bcb_version (W - 1) D W64 id thread s g sources = Ub.
Proof.
  intros W zsrt srt1 n D W64 id thread s sources (HZ & Hn & He & HL) ID.
  destruct (@bcb_rows W zsrt srt1 n [] HZ Hn He HL) as (g & rows & EG & ER & _ & _ & _ & _ & _ & NE). specialize (NE eq_refl).
  exists g. split; auto. unfold bcb_version. rewrite ER. cbn [bind]. destruct ID as [<-|[<-|[<-|[]]]].
  - now apply C70_v4_no_arcs.
  - now apply C48_parallel_no_arcs.
  - now apply C48_parallel_no_arcs.
Qed.

(** A source that is not a vertex (-r): an access out of bounds in every version that looks at the sources. *)
Theorem C82_node : forall W zsrt srt1 n es D W64 id thread s r more, bb_env W n es zsrt -> let el := el_build W n es in
  el_num_vertices el <= r -> In id [0; 1; 2; 3; 4; 5; 7] ->
  exists g, bcb_graph W zsrt srt1 el = Ok g /\ bcb_version (W - 1) D W64 id thread s g (r :: more) = Ub.
Proof.
  intros W zsrt srt1 n es D W64 id thread s r more (HZ & Hn & He & HL) el HR ID.
  destruct (@bcb_rows W zsrt srt1 n es HZ Hn He HL) as (g & rows & EG & ER & LR & HW & B & R & NE & _). fold el in EG, LR, HW, R.
  exists g. split; auto. unfold bcb_version. rewrite ER. cbn [bind].
  assert (VS : forall A (x : A) y, vset (repeat x (length rows)) r y = Ub).
  { intros A x y. unfold vset. rewrite repeat_length. destruct (Nat.ltb_spec r (length rows)); auto. lia. }
  assert (FW : forall v M b sc, xb_forward v (W - 1) M b rows sc r = Ub) by (intros; unfold xb_forward; cbv zeta; rewrite VS; reflexivity).
  cbn [In] in ID. repeat (destruct ID as [<-|ID]); try contradiction.
  - unfold bc2_v0. cbn [rfold]. unfold sq_root at 1. cbv zeta. rewrite VS. reflexivity.
  - unfold bc2_v1. cbn [rfold]. unfold sq_root at 1. cbv zeta. rewrite VS. reflexivity.
  - unfold bc2_v2. cbn [length seq combine rfold fst snd]. unfold v2_root at 1. cbv zeta. rewrite FW. reflexivity.
  - unfold bc2_v3, xb_roots. cbn [length seq combine rfold fst snd]. unfold xb_source at 1. cbv zeta. rewrite FW. reflexivity.
  - unfold bc2_v4, xb_roots. destruct (concat rows); [reflexivity|]. cbn [length seq combine rfold fst snd]. unfold xb_source at 1. cbv zeta. rewrite FW. reflexivity.
  - unfold par_brandes. destruct (concat rows); [reflexivity|]. cbn [length seq combine rmap fst snd]. unfold pb_source at 1. cbv zeta. rewrite VS. reflexivity.
  - unfold approx_brandes. cbn [rfold]. unfold bc_source at 1. cbv zeta. rewrite VS. reflexivity.
Qed.

(** --verify, for a vector with an entry for each vertex: it is accepted exactly when each entry is within 10^-6 of the score [toward]
    the sources divided by the largest one. *)
Theorem C82_verify : forall W zsrt srt1 n es D W64 id thread s sources c, bb_env W n es zsrt -> let el := el_build W n es in let N := el_num_vertices el in let file := file_rows N es in
  counts_below file D -> (forall x, In x sources -> x < N) -> exists g, bcb_graph W zsrt srt1 el = Ok g /\
    (bcb_version (W - 1) D W64 id thread s g sources = Ok c -> length c = N ->
     match bcb_trial (W - 1) D W64 id thread s true g sources with
     | Ok (c', Some b) => c' = c /\ exists ref, normalized (map (toward file sources) (seq 0 N)) ref /\ (b = true <-> forall v, v < N -> close false (nth v c 0%Qc) (nth v ref 0%Qc))
     | Ub => forall v, v < N -> toward file sources v = 0%Qc
     | _ => False
     end).
Proof.
  intros W zsrt srt1 n es D W64 id thread s sources c (HZ & Hn & He & HL) el N file C HS.
  destruct (@bcb_rows W zsrt srt1 n es HZ Hn He HL) as (g & rows & EG & ER & LR & HW & B & R & NE & _). fold el N in EG, LR, HW, R. fold file in R.
  exists g. split; auto. intros E LC. unfold bcb_trial. rewrite E, ER. cbn [bind]. assert (T := proj1 (proj2 R)). apply (counts_reversed R) in C. rewrite <- LR in *.
  unfold bc_verifier. rewrite ver_scores by auto. cbn [bind]. change (map (score rows sources) (seq 0 (length rows))) with (with_sources rows sources). 
  assert (F := finish_ok true _ (@with_nonneg rows sources)). cbn [finish outcome] in F. rewrite (@with_toward rows file _ R HS) in F |- *. set (e := map (toward file sources) (seq 0 (length rows))) in *.
  destruct (bc_normalize e) as [ref| |] eqn:Q; cbn [bind]; auto.
  - assert (LE : length ref = length rows) by (destruct F as (m & _ & _ & ->); unfold e; now rewrite !map_length, seq_length).
    destruct (compare_ok false ref c) as (b & -> & H); [lia|]. cbn [bind]. split; auto. exists ref. split; auto. now rewrite LE in H.
  - intros v Lv. apply F. unfold e. apply in_map_iff. exists v. split; auto. apply in_seq. lia.
Qed.
(** So the results of versions 0, 3, 4 and 5 pass. *)
Theorem C82_verify_passes : forall W zsrt srt1 n es D W64 id thread s sources c, bb_env W n es zsrt -> let el := el_build W n es in let N := el_num_vertices el in let file := file_rows N es in
  counts_below file D -> (forall x, In x sources -> x < N) -> In id [0; 3] \/ (In id [4; 5] /\ 0 < thread /\ es <> []) -> exists g, bcb_graph W zsrt srt1 el = Ok g /\
    (bcb_version (W - 1) D W64 id thread s g sources = Ok c -> bcb_trial (W - 1) D W64 id thread s true g sources = Ok (c, Some true)).
Proof.
  intros W zsrt srt1 n es D W64 id thread s sources c H el N file C HS ID.
  destruct (@C82_sources W zsrt srt1 n es D W64 id thread s sources H C HS ID) as (g & EG & O). fold el N file in EG, O. exists g. split; auto. intros E. rewrite E in O. cbn [outcome] in O.
  destruct (@C82_verify W zsrt srt1 n es D W64 id thread s sources c H C HS) as (g' & EG' & V). fold el N file in EG', V. rewrite EG in EG'. injection EG' as <-.
  assert (LC : length c = N) by (destruct O as (m & _ & _ & ->); now rewrite !map_length, seq_length). specialize (V E LC).
  destruct (bcb_trial (W - 1) D W64 id thread s true g sources) as [[c' [b|]]| |]; try contradiction.
  - destruct V as (-> & ref & NR & V). rewrite (normalized_fun O NR) in *. do 3 f_equal. apply V. intros; apply close_refl.
  - exfalso. destruct O as (m & [I _] & NZ & _). apply in_map_iff in I. destruct I as (v & <- & I). apply in_seq in I. apply NZ. apply V. lia.
Qed.
(** An unknown version gives an empty vector, which --verify reads out of bounds. *)
Theorem C82_unknown : forall W zsrt srt1 n es D W64 id thread s sources, bb_env W n es zsrt -> let el := el_build W n es in let N := el_num_vertices el in
  ~ In id [0; 1; 2; 3; 4; 5; 6; 7; 8] -> counts_below (file_rows N es) D -> (forall x, In x sources -> x < N) ->
  exists g, bcb_graph W zsrt srt1 el = Ok g /\ bcb_trial (W - 1) D W64 id thread s false g sources = Ok ([], None) /\ bcb_trial (W - 1) D W64 id thread s true g sources = Ub.
Proof.
  intros W zsrt srt1 n es D W64 id thread s sources (HZ & Hn & He & HL) el N ID C HS.
  destruct (@bcb_rows W zsrt srt1 n es HZ Hn He HL) as (g & rows & EG & ER & LR & HW & B & R & NE & _). fold el N in EG, LR, HW, R.
  assert (V : bcb_version (W - 1) D W64 id thread s g sources = Ok []).
  { unfold bcb_version. rewrite ER. cbn [bind]. do 9 (destruct id as [|id]; [exfalso; apply ID; cbn; tauto|]). reflexivity. }
  exists g. split; auto. unfold bcb_trial. rewrite V, ER. cbn [bind]. split; auto. assert (T := proj1 (proj2 R)). apply (counts_reversed R) in C. rewrite <- LR in HS.
  unfold bc_verifier. rewrite ver_scores by auto. cbn [bind]. set (e := map (score rows sources) (seq 0 (length rows))).
  destruct e as [|x l] eqn:Ee; [reflexivity|]. cbn [bc_normalize]. destruct (Qc_eq_dec (qmax x l) 0%Qc); reflexivity.
Qed.
(** The trials take consecutive blocks of the sources, each with the result of its own run. *)
Theorem C82_trials : forall vmax D W64 id thread s verify g sources trials iterations out, length sources = trials * iterations ->
  bcb_trials false vmax D W64 id thread s verify g sources trials iterations = Ok out <->
  length out = trials /\ forall i, i < trials -> bcb_trial vmax D W64 id thread (s i) verify g (firstn iterations (skipn (iterations * i) sources)) = Ok (nth i out ([], None)).
Proof.
  intros vmax D W64 id thread s verify g sources trials iterations out L. unfold bcb_trials. rewrite (rmap_seq_iff _ ([], None)).
  assert (E : forall i, i < trials -> trial_sources false sources iterations i = Ok (firstn iterations (skipn (iterations * i) sources))).
  { intros i Hi. unfold trial_sources, address. replace (iterations * i <=? length sources) with true by (symmetry; apply Nat.leb_le; nia).
    replace (iterations * (i + 1) <=? length sources) with true by (symmetry; apply Nat.leb_le; nia). cbn [bind]. rewrite vslice_Ok by nia. do 2 f_equal. nia. }
  split; intros (H1 & H2); split; auto; intros i Hi; specialize (H2 i Hi); cbn [plus] in *; rewrite E in * by auto; exact H2.
Qed.

(** ** Non-vacuity: 0 -> 1 -> 3, 0 -> 2 -> 3, 3 -> 4. *)
Definition bcb_es : list uedge := [ex_u 0 1; ex_u 1 3; ex_u 0 2; ex_u 2 3; ex_u 3 4].
Definition bcb_s : bcb_run := mkBcr (fun a b c => 7 * a + 3 * b + c) (fun a => a).
Definition bcb_ex id sources : res (list Qc) := do g <- bcb_graph 256 (isort_by fst) (fun l => l) (el_build 256 0 bcb_es) ; bcb_version 255 200 1000 id 4 bcb_s g sources.
Example C82_ex_hyps : bb_env 256 0 bcb_es (isort_by fst) /\ counts_below (file_rows 5 bcb_es) 200 /\ el_num_vertices (el_build 256 0 bcb_es) = 5.
Proof.
  split; [|split].
  - split; [apply isort_by_is_sort|]. split; [lia|]. split; [|cbn; lia]. intros e I. cbn in I. repeat (destruct I as [<-|I]; [cbn; lia|]). destruct I.
  - apply small_counts; [now apply small_targets|reflexivity].
  - reflexivity.
Qed.
(** Source 4: from 0 to 4 two paths, one through 1 and one through 2; all go through 3 and end in 4. *)
Example C82_ex :
  show (bcb_ex 0 [4]) = [0; 1 # 8; 1 # 8; 3 # 4; 1]%Q /\ show (bcb_ex 5 [4]) = [0; 1 # 8; 1 # 8; 3 # 4; 1]%Q /\ show (bcb_ex 1 [4]) = [0; 1 # 6; 1 # 6; 1; 0]%Q /\
  show (bcb_ex 7 [4]) = [0; 1 # 6; 1 # 6; 1; 0]%Q /\ show (bcb_ex 6 [4]) = [0; 1 # 3; 1 # 3; 1; 0]%Q /\ show (bcb_ex 8 [4]) = [0; 1 # 3; 1 # 3; 1; 2 # 3]%Q /\
  bcb_ex 0 [0] = Ub /\ bcb_ex 3 [5] = Ub /\ bcb_ex 9 [4] = Ok [].
Proof. vm_compute. repeat split. Qed.
Example C82_ex_trials :
  (do g <- bcb_graph 256 (isort_by fst) (fun l => l) (el_build 256 0 bcb_es) ; do o <- bcb_trials false 255 200 1000 0 4 (fun _ => bcb_s) true g [4; 4; 3; 3] 2 2 ; Ok (map snd o)) = Ok [Some true; Some true] /\
  (do g <- bcb_graph 256 (isort_by fst) (fun l => l) (el_build 256 0 bcb_es) ; do o <- bcb_trials false 255 200 1000 6 4 (fun _ => bcb_s) true g [4; 3] 2 1 ; Ok (map snd o)) = Ok [Some false; Some false].
Proof. vm_compute. auto. Qed.
Print Assumptions C82_sources.
Print Assumptions C82_others.
Print Assumptions C82_exact.
Print Assumptions C82_no_edges.
Print Assumptions C82_node.
Print Assumptions C82_verify.
Print Assumptions C82_verify_passes.
Print Assumptions C82_unknown.
Print Assumptions C82_trials.
