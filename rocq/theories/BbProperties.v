(** C81: the breadth-first search benchmark on the file that was read. *)
From Coq Require Import List Arith Lia Bool Permutation.
From Verif Require Import Base GraphLib SumLib RangeModel EdgeListModel EdgeListProofs CsrModel CsrProofs CsrProofs2 CsrProofs4 CsrProperties
  TcProofs TcProperties BcLib BfsModel BfsProofs BfsProperties ParBfsModel ParBfsProofs ParBfsProperties XbfsModel XbfsProofs XbfsProperties CbModel CbProofs BbModel BbProofs.
Import ListNotations.
Set Implicit Arguments.

(** The columns can be sorted, and there are fewer vertices and half as many edges as ids. *)
Definition bb_env (W n : nat) (es : list uedge) (zsrt : list (nat * (nat * unit)) -> list (nat * (nat * unit))) : Prop :=
  is_sort_by fst zsrt /\ n < W /\ ids_ok W es /\ 2 * length es < W.
(** -a and -b are not 0 (0 selects the default), there is a bin, each worker has a queue, a bit vector has its length. *)
Definition par_ok (s : bb_par) : Prop :=
  b_alpha s <> 0 /\ b_beta s <> 0 /\ 0 < b_bins s /\ (forall ph u, b_wk s ph u < b_bins s) /\ forall n, length (b_garbage s n) = n.
(** More than c vertices are k pairs away from the source. *)
Definition crowd (es : list uedge) (source k c : nat) : Prop := exists l, NoDup l /\ c < length l /\ forall v, In v l -> leads_least es v source k.

Lemma graphs_ok W zsrt srt1 n es : bb_env W n es zsrt -> let el := el_build W n es in let N := el_num_vertices el in
  exists g gx rows xrows, bb_graphs W zsrt srt1 el = Ok (g, gx) /\ csr_rows g = Ok rows /\ csr_rows gx = Ok xrows /\ length rows = N /\ length xrows = N /\ N < W /\
    csr_all_rows gx = Ub /\ csr_all_rows g = Ub /\
    targets_ok rows /\ transpose_of rows xrows /\ (forall u v, GraphLib.edge rows u v <-> In (v, u) (pairs es)) /\
    sum (map (@length nat) rows) = length es /\ forall u, u < N -> Permutation (nth u rows []) (map (@esrc unit) (filter (fun e => etgt e =? u) es)).
Proof.
  intros (HS & Hn & He & HL) el N.
  destruct (@dir_graph_ok W zsrt srt1 S1 n es HS Hn He HL) as (g & rows & EG & _ & _ & IG & ER & LR & K). fold el N in EG, LR, K.
  destruct (@dir_graph_ok W zsrt srt1 S0 n es HS Hn He HL) as (gx & xrows & EX & _ & _ & IT & EXR & LX & KX). fold el N in EX, LX, KX.
  destruct (build_card es Hn He) as (_ & B & _). cbv zeta in B. change (forall e, In e es -> esrc e < N /\ etgt e < N) in B.
  pose proof (@dir_edges S1 es rows N LR B K) as ED. pose proof (@dir_edges S0 es xrows N LX B KX) as EDX. cbn in ED, EDX.
  assert (HT : targets_ok rows). { intros u v Q. apply ED, in_pairs in Q. destruct Q as (e & I & <- & _). rewrite LR. now apply B. }
  exists g, gx, rows, xrows. unfold bb_graphs. rewrite EG. cbn [bind]. rewrite EX. cbn [bind]. split; [reflexivity|].
  repeat (split; [assumption|]). split; [now apply card_lt|]. unfold csr_all_rows. rewrite IT, IG. split; [reflexivity|]. split; [reflexivity|]. split; [assumption|]. split.
  - split; [congruence|]. intros u v. rewrite ED, EDX. tauto.
  - split; [assumption|]. split; [now apply dir_sum with S1 N|]. exact K.
Qed.

(** The graph that the search runs on has the arcs of the file backwards: from the source it finds the vertices from which the
    source can be reached. The versions compute a tree of shortest ways for every file, every source among the vertices and every
    interleaving (13 as long as no level overflows its int). *)
Theorem C81_parents : forall W zsrt srt1 n es fuel W64 imax id s source, bb_env W n es zsrt -> par_ok s -> let el := el_build W n es in let N := el_num_vertices el in
  source < N -> N < fuel -> In id [0; 1; 6; 7; 8; 9; 10; 11; 12] \/ (id = 13 /\ forall k, ~ crowd es source (S k) imax) ->
  exists g gx p, bb_graphs W zsrt srt1 el = Ok (g, gx) /\ bb_version fuel (W - 1) W64 imax id s g gx source = Ok p /\ back_tree es N source (W - 1) p.
Proof.
  intros W zsrt srt1 n es fuel W64 imax id s source H (A0 & B0 & NB & WK & GA) el N HS HF ID.
  destruct (@graphs_ok W zsrt srt1 n es H) as (g & gx & rows & xrows & E & ER & EX & LR & LX & HW & _ & _ & HT & TR & ED & _). fold el N in E, LR, LX, HW.
  set (vmax := W - 1). assert (LV : length rows <= vmax) by (unfold vmax; lia). rewrite <- LR in HS, HF.
  assert (K : forall r, (exists p, r = Ok p /\ is_bfs_tree rows source vmax p) -> exists p, r = Ok p /\ back_tree es N source vmax p).
  { intros r (p & -> & T). exists p. split; auto. apply (@tree_back es rows source vmax p N); auto; lia. }
  exists g, gx. enough (X : exists p, bb_version fuel vmax W64 imax id s g gx source = Ok p /\ back_tree es N source vmax p) by (destruct X as (p & X1 & X2); eauto).
  unfold bb_version. rewrite ER. cbn [bind]. rewrite EX. cbn [bind].
  destruct (@C65_levels fuel vmax rows (b_sched s) source HT HS LV HF) as (K6 & K7 & K8).
  destruct (@C65_bins fuel vmax rows (b_sched s) source HT HS LV ltac:(lia)) as (K9 & K10 & K12).
  cbn [In] in ID. destruct ID as [ID|(-> & CR)].
  - repeat (destruct ID as [<-|ID]); try contradiction; apply K; auto.
    + apply C29_bfs_tree; auto. lia.
    + apply C65_v1; auto.
    + now apply C31_every_schedule_bfs_tree.
  - apply K. destruct (@C65_bottom_up fuel vmax imax rows xrows (b_sched s) source HT TR HS LV HF) as (KB & _). apply KB.
    intros k (l & ND & LL & Q). apply (CR k). exists l. split; auto. split; auto. intros v I. specialize (Q v I). destruct Q as (Q1 & Q2).
    pose proof (@walk_leads es rows source ED) as WL. split; [now apply WL|]. intros j X. apply Q2. now apply WL.
Qed.

(** Version 2: its bottom-up step walks one row past the graph. So it is undefined as soon as it goes bottom-up - at once if more
    than a fraction 1/alpha of the pairs end in the source - and right if it never does. *)
Theorem C81_v2 : forall W zsrt srt1 n es fuel W64 imax s source, bb_env W n es zsrt -> par_ok s -> let el := el_build W n es in let N := el_num_vertices el in
  source < N -> N < fuel -> exists g gx, bb_graphs W zsrt srt1 el = Ok (g, gx) /\
    (let r := bb_version fuel (W - 1) W64 imax 2 s g gx source in r = Ub \/ exists p, r = Ok p /\ back_tree es N source (W - 1) p) /\
    (length es / b_alpha s < length (filter (fun e => etgt e =? source) es) -> bb_version fuel (W - 1) W64 imax 2 s g gx source = Ub).
Proof.
  intros W zsrt srt1 n es fuel W64 imax s source H (A0 & B0 & NB & WK & GA) el N HS HF.
  destruct (@graphs_ok W zsrt srt1 n es H) as (g & gx & rows & xrows & E & ER & EX & LR & LX & HW & ALL & _ & HT & TR & ED & SM & PM). fold el N in E, LR, LX, HW, PM.
  set (vmax := W - 1). assert (LV : length rows <= vmax) by (unfold vmax; lia). rewrite <- LR in HS, HF.
  exists g, gx. split; auto. unfold bb_version. rewrite ER. cbn [bind]. rewrite EX. cbn [bind]. rewrite ALL. unfold bb_v2.
  rewrite (@vget_nth _ rows source []) by lia. cbn [bind]. unfold vset. rewrite repeat_length. destruct (Nat.ltb_spec source (length rows)); [|lia]. cbn [bind]. split.
  - cbv zeta. destruct (@v2_ub_or_top_down fuel vmax W64 (b_alpha s) (b_beta s) rows xrows (b_sched s) (b_wk s) 0 [source] (repeat [] (b_bins s)) (b_garbage s (length rows)) (repeat false (length rows))
      (upd (repeat vmax (length rows)) source source) (sum (map (@length nat) rows)) (length (nth source rows [])) (repeat false (length rows)) (repeat false (length rows))) as [Q|Q]; [now left|right].
    rewrite Q. destruct (@C65_v2 fuel vmax W64 rows xrows (b_sched s) (b_wk s) (repeat false (length rows)) source (b_bins s) (b_alpha s) (b_beta s)) as (p & EP & T); auto.
    { apply repeat_length. } { intros v Hv X. rewrite nth_repeat in X. discriminate. }
    exists p. split; [|apply (@tree_back es rows source vmax p N); auto; lia]. rewrite <- EP. unfold bfs_v2. rewrite (@vget_nth _ rows source []) by lia. cbn [bind].
    unfold vset. rewrite repeat_length. destruct (Nat.ltb_spec source (length rows)); [|lia]. reflexivity.
  - intros C. destruct fuel as [|f]; [lia|]. cbn [bb_v2_loop]. destruct (Nat.eqb_spec (b_alpha s) 0); [reflexivity|]. rewrite SM, (Permutation_length (PM source ltac:(lia))), map_length.
    apply Nat.ltb_lt in C. rewrite C. reflexivity.
Qed.

(** A source that is not a vertex (-r) is an access out of bounds in every version. *)
Theorem C81_source : forall W zsrt srt1 n es fuel W64 imax id s source, bb_env W n es zsrt -> let el := el_build W n es in
  el_num_vertices el <= source -> In id [0; 1; 2; 6; 7; 8; 9; 10; 11; 12; 13] ->
  exists g gx, bb_graphs W zsrt srt1 el = Ok (g, gx) /\ bb_version fuel (W - 1) W64 imax id s g gx source = Ub.
Proof.
  intros W zsrt srt1 n es fuel W64 imax id s source H el HS ID.
  destruct (@graphs_ok W zsrt srt1 n es H) as (g & gx & rows & xrows & E & ER & EX & LR & LX & _). fold el in E, LR, LX.
  exists g, gx. split; auto. unfold bb_version. rewrite ER. cbn [bind]. rewrite EX. cbn [bind]. set (vmax := W - 1).
  assert (VS : forall A (l : list A) x, length l <= source -> vset l source x = Ub) by (intros A l x L; unfold vset; destruct (Nat.ltb_spec source (length l)); auto; lia).
  assert (VG : vget rows source = Ub) by (apply vget_ge; lia).
  cbn [In] in ID. repeat (destruct ID as [<-|ID]); try contradiction.
  - apply C29_root_out_of_range. lia.
  - unfold bfs_v1. rewrite VG. reflexivity.
  - unfold bb_v2. rewrite VG. reflexivity.
  - unfold bfs_v6, xlevel_bfs. rewrite VS by (rewrite repeat_length; lia). reflexivity.
  - unfold bfs_v7, xlevel_bfs. rewrite VS by (rewrite repeat_length; lia). reflexivity.
  - unfold bfs_v8, xlevel_bfs. rewrite VS by (rewrite repeat_length; lia). reflexivity.
  - unfold bfs_v9. rewrite VS by (rewrite repeat_length; lia). reflexivity.
  - unfold bfs_top_down. rewrite VS by (rewrite repeat_length; lia). reflexivity.
  - unfold pbfs. rewrite VG. reflexivity.
  - unfold bfs_top_down_bitmap. rewrite VS by (rewrite repeat_length; lia). reflexivity.
  - unfold bfs_bottom_up. rewrite VS by (rewrite repeat_length; lia). reflexivity.
Qed.

(** --verify accepts a vector with an entry for each vertex exactly when it is such a tree, so every version above passes. *)
Theorem C81_verify : forall W zsrt srt1 n es fuel W64 imax id s source p, bb_env W n es zsrt -> let el := el_build W n es in let N := el_num_vertices el in
  source < N -> N < fuel -> exists g gx, bb_graphs W zsrt srt1 el = Ok (g, gx) /\
    (bb_version fuel (W - 1) W64 imax id s g gx source = Ok p -> length p = N ->
     exists b, bb_trial fuel (W - 1) W64 imax id s true g gx source = Ok (p, Some b) /\ (b = true <-> back_tree es N source (W - 1) p)).
Proof.
  intros W zsrt srt1 n es fuel W64 imax id s source p H el N HS HF.
  destruct (@graphs_ok W zsrt srt1 n es H) as (g & gx & rows & xrows & E & ER & EX & LR & LX & HW & _ & _ & HT & TR & ED & _). fold el N in E, LR, LX, HW.
  exists g, gx. split; auto. intros Q LP. unfold bb_trial. rewrite Q. cbn [bind]. rewrite ER. cbn [bind]. rewrite EX. cbn [bind].
  destruct (@C30_verifier_exact fuel (W - 1) rows xrows source p HT TR ltac:(lia) ltac:(lia) ltac:(lia) ltac:(lia)) as (b & EB & T). rewrite EB. cbn [bind].
  exists b. split; auto. rewrite T. apply tree_back; auto; lia.
Qed.

(** An unknown version gives an empty vector, which --verify reads out of bounds. *)
Theorem C81_unknown : forall W zsrt srt1 n es fuel W64 imax id s source, bb_env W n es zsrt -> let el := el_build W n es in let N := el_num_vertices el in
  ~ In id [0; 1; 2; 6; 7; 8; 9; 10; 11; 12; 13] -> source < N -> N < fuel ->
  exists g gx, bb_graphs W zsrt srt1 el = Ok (g, gx) /\ bb_trial fuel (W - 1) W64 imax id s false g gx source = Ok ([], None) /\
    bb_trial fuel (W - 1) W64 imax id s true g gx source = Ub.
Proof.
  intros W zsrt srt1 n es fuel W64 imax id s source H el N ID HS HF.
  destruct (@graphs_ok W zsrt srt1 n es H) as (g & gx & rows & xrows & E & ER & EX & LR & LX & HW & _ & _ & HT & TR & _). fold el N in E, LR, LX, HW.
  exists g, gx. split; auto. assert (Q : bb_version fuel (W - 1) W64 imax id s g gx source = Ok []).
  { unfold bb_version. rewrite ER. cbn [bind]. rewrite EX. cbn [bind]. cbn [In] in ID. do 14 (destruct id as [|id]; [try reflexivity; exfalso; tauto|]). reflexivity. }
  unfold bb_trial. rewrite Q. cbn [bind]. split; [reflexivity|]. rewrite ER. cbn [bind]. rewrite EX. cbn [bind].
  (* the search of the verifier itself succeeds: on the serial tree it returns true *)
  destruct (@C29_bfs_tree fuel (W - 1) rows source HT ltac:(lia) ltac:(lia) ltac:(lia)) as (p & EP & _).
  pose proof (@C30_verifier_accepts_bfs fuel (W - 1) rows xrows source p HT TR ltac:(lia) ltac:(lia) ltac:(lia) EP) as V. unfold BFSVerifier in *.
  destruct (vset (repeat (W - 1) (length rows)) source 0) as [d0| |]; cbn [bind] in *; try discriminate.
  destruct (bv_loop fuel (W - 1) rows 0 ([source], d0)) as [depth| |]; cbn [bind] in *; try discriminate.
  destruct (length rows) as [|m] eqn:LM; [lia|]. cbn [seq bv_checks] in *. unfold bv_check in *. destruct (vget depth 0); cbn [bind] in *; try discriminate. reflexivity.
Qed.

(** All sources of the list are taken in order, each with the result of its own run. *)
Theorem C81_trials : forall fuel vmax W64 imax id s verify g gx sources out, bb_trials fuel vmax W64 imax id s verify g gx sources = Ok out <->
  length out = length sources /\ forall i, i < length sources -> bb_trial fuel vmax W64 imax id (s i) verify g gx (nth i sources 0) = Ok (nth i out ([], None)).
Proof.
  intros. unfold bb_trials. set (f := fun i x => bb_trial fuel vmax W64 imax id (s i) verify g gx x).
  assert (G : forall l k out, rmap (fun it => f (fst it) (snd it)) (combine (seq k (length l)) l) = Ok out <->
    length out = length l /\ forall i, i < length l -> f (k + i) (nth i l 0) = Ok (nth i out ([], None))).
  { induction l as [|x l IH]; intros k o; cbn [length seq combine rmap].
    - split; [intros Q; injection Q as <-; split; auto; simpl; lia|]. intros (L & _). destruct o; [reflexivity|discriminate].
    - cbn [fst snd]. destruct (f k x) as [y| |] eqn:E; cbn [bind].
      + destruct (rmap _ (combine (seq (S k) (length l)) l)) as [ys| |] eqn:R; cbn [bind].
        * destruct (proj1 (IH (S k) ys) R) as (L & N). split.
          -- intros Q. injection Q as <-. split; [simpl; congruence|]. intros [|i] Hi; cbn [nth]; [now rewrite Nat.add_0_r|]. rewrite Nat.add_succ_r. apply N. simpl in Hi. lia.
          -- intros (Lo & No). destruct o as [|z o]; [discriminate|]. assert (z = y). { specialize (No 0 ltac:(simpl; lia)). cbn [nth] in No. rewrite Nat.add_0_r, E in No. congruence. }
             subst z. f_equal. f_equal. enough (Ok ys = Ok o) by congruence. rewrite <- R. apply IH. split; [simpl in Lo; lia|]. intros i Hi. specialize (No (S i) ltac:(simpl; lia)). cbn [nth] in No. now rewrite Nat.add_succ_r in No.
        * split; [discriminate|]. intros (Lo & No). destruct o as [|z o]; [discriminate|]. enough (Ub = Ok o) by discriminate. rewrite <- R. apply IH. split; [simpl in Lo; lia|]. intros i Hi. specialize (No (S i) ltac:(simpl; lia)). cbn [nth] in No. now rewrite Nat.add_succ_r in No.
        * split; [discriminate|]. intros (Lo & No). destruct o as [|z o]; [discriminate|]. enough (OutOfFuel = Ok o) by discriminate. rewrite <- R. apply IH. split; [simpl in Lo; lia|]. intros i Hi. specialize (No (S i) ltac:(simpl; lia)). cbn [nth] in No. now rewrite Nat.add_succ_r in No.
      + split; [discriminate|]. intros (_ & No). specialize (No 0 ltac:(simpl; lia)). cbn [nth] in No. rewrite Nat.add_0_r in No. congruence.
      + split; [discriminate|]. intros (_ & No). specialize (No 0 ltac:(simpl; lia)). cbn [nth] in No. rewrite Nat.add_0_r in No. congruence. }
  exact (G sources 0 out).
Qed.

(** ** Non-vacuity: 0 -> 1 -> 3, 0 -> 2 -> 3, 3 -> 4 and the loop at 5. *)
Definition bb_es : list uedge := [ex_u 0 1; ex_u 1 3; ex_u 0 2; ex_u 2 3; ex_u 3 4; ex_u 5 5].
Definition bb_s (alpha : nat) : bb_par := mkBb alpha 18 4 (fun i t => t + i) (fun _ u => u mod 4) (fun n => repeat true n).
Definition bb_ex id alpha source verify : res (list nat * option bool) :=
  do gs <- bb_graphs 256 (isort_by fst) (fun l => l) (el_build 256 0 bb_es) ; bb_trial 8 255 1000 100 id (bb_s alpha) verify (fst gs) (snd gs) source.
Example C81_ex_hyps : bb_env 256 0 bb_es (isort_by fst) /\ par_ok (bb_s 15).
Proof.
  split.
  - split; [intros l; apply isort_by_is_sort|]. split; [lia|]. split; [|cbn; lia]. intros e I. unfold bb_es, ex_u in I. cbn [In] in I. repeat (destruct I as [<-|I]; [cbn; lia|]). destruct I.
  - repeat split; try (cbn; lia). + intros ph u. apply Nat.mod_upper_bound. cbn. lia. + intros n. apply repeat_length.
Qed.
(** From 3 everything that leads to 3 is found; 4, which 3 leads to, is not. *)
Example C81_ex : bb_ex 0 15 3 true = Ok ([1; 3; 3; 3; 255; 255], Some true) /\ bb_ex 11 15 3 true = Ok ([1; 3; 3; 3; 255; 255], Some true) /\
  bb_ex 13 15 3 true = Ok ([1; 3; 3; 3; 255; 255], Some true) /\ bb_ex 7 15 4 true = Ok ([2; 3; 3; 4; 4; 255], Some true).
Proof. repeat split; vm_compute; reflexivity. Qed.
Example C81_ex_v2 : bb_ex 2 15 3 false = Ub /\ bb_ex 2 1 0 true = Ok ([0; 255; 255; 255; 255; 255], Some true) /\ bb_ex 0 15 6 false = Ub /\ bb_ex 3 15 0 false = Ok ([], None) /\ bb_ex 3 15 0 true = Ub.
Proof. repeat split; vm_compute; reflexivity. Qed.
Print Assumptions C81_parents.
Print Assumptions C81_v2.
Print Assumptions C81_source.
Print Assumptions C81_verify.
Print Assumptions C81_unknown.
Print Assumptions C81_trials.
