(** C80: the connected components benchmark from the edge list that was read to the labels and the clusters that are printed. *)
From Coq Require Import List Arith Lia Bool Permutation Sorting.Sorted.
From Verif Require Import Base ConnLib GraphLib SumLib RangeModel EdgeListModel EdgeListProofs CsrModel CsrProofs CsrProofs2 CsrProofs4 CsrProperties
  BuildModel BuildProofs BuildProperties TcModel TcProofs TcProperties CcModel CcProofs CcProofs2 CcProperties CcxModel CcxProperties CcvModel CcvProperties
  LpccModel LpccProperties CbModel CbProofs.
Import ListNotations.
Set Implicit Arguments.

(** [pairs es]: the pairs that were read. [wanted o es p u v]: the arcs that the options ask for, p giving the new name of each
    vertex: for -s both directions, for -f the pairs themselves; --clean drops loops and, for -f, turns every pair so that it
    points up (successor) or down (predecessor). [degree_of o es v]: the ends at v, for -f the pairs that leave v. [is_env]: the
    sorts are any functions that sort, and there are fewer vertices and half as many edges as ids. (CbProofs.v) *)
Theorem C80_graph : forall W srt lsrt zsrt srt1 o n es, is_env W n es srt lsrt zsrt -> let el := el_build W n es in let N := el_num_vertices el in
  exists g t rows trows p, cb_reader W srt lsrt zsrt srt1 o el = Ok (g, t) /\ csr_rows g = Ok rows /\ csr_rows t = Ok trows /\
    length rows = N /\ targets_ok rows /\ Permutation p (seq 0 N) /\
    (forall u v, u < N -> v < N -> GraphLib.edge rows (nth u p 0) (nth v p 0) <-> wanted o es p u v) /\
    (if o_symmetric o then trows = [] /\ (forall u v, GraphLib.edge rows u v -> GraphLib.edge rows v u) else transpose_of rows trows) /\
    (o_relabel o = false \/ o_direction o = unknown_direction -> p = seq 0 N) /\
    (o_relabel o = true -> forall u v, u < N -> v < N -> nth u p 0 < nth v p 0 ->
       match o_direction o with ascending => degree_of o es u <= degree_of o es v | descending => degree_of o es v <= degree_of o es u | unknown_direction => True end).
Proof.
  intros W srt lsrt zsrt srt1 o n es H el N. destruct (@reader_ok W srt lsrt zsrt srt1 o n es H) as (g & t & rows & trows & p & E & _ & _ & _ & ER & ET & LR & HT & P & ED & _ & TR & ID & DG).
  exists g, t, rows, trows, p. repeat (split; [assumption|]). assumption.
Qed.

(** One run of cc.cpp: None if the version is unknown. *)
Definition cb_run (W : nat) srt lsrt zsrt srt1 (o : cb_opts) (id thread : nat) (s : cb_sched) (el : edge_list unit) : res (option (list nat)) :=
  do gt <- cb_reader W srt lsrt zsrt srt1 o el ;
  match cb_version W id thread s (fst gt) (snd gt) with Some r => do comp <- r ; Ok (Some comp) | None => Ok None end.

(** Vertices u and v of the file get the same label exactly when a path of pairs joins them, and a label is the least new name in
    its component. *)
Definition components (n : nat) (es : list (EdgeListModel.edge unit)) (p comp : list nat) : Prop :=
  length comp = n /\ Permutation p (seq 0 n) /\
  (forall u v, u < n -> v < n -> nth (nth u p 0) comp 0 = nth (nth v p 0) comp 0 <-> conn (pairs es) u v) /\
  (forall u, u < n -> exists r, r < n /\ conn (pairs es) u r /\ nth (nth u p 0) comp 0 = nth r p 0 /\ forall v, v < n -> conn (pairs es) u v -> nth r p 0 <= nth v p 0).

Lemma least_components n es p rows comp : Permutation p (seq 0 n) -> length rows = n -> targets_ok rows -> length comp = n ->
  (forall u v, u < n -> v < n -> conn (gedges rows) (nth u p 0) (nth v p 0) <-> conn (pairs es) u v) ->
  (forall v, v < n -> conn (gedges rows) v (nth v comp v) /\ forall w, w < n -> conn (gedges rows) v w -> nth v comp v <= w) -> components n es p comp.
Proof.
  intros P LR HT LC CN H. split; auto. split; auto.
  assert (PRE : forall a, a < n -> exists w, w < n /\ nth w p 0 = a).
  { intros a Ha. assert (I : In a p) by (apply (Permutation_in _ (Permutation_sym P)), in_seq; lia). apply In_nth with (d := 0) in I.
    destruct I as (w & Hw & E). rewrite (Permutation_length P), seq_length in Hw. eauto. }
  assert (D : forall v, v < n -> nth v comp v = nth v comp 0) by (intros v Hv; apply nth_indep; lia).
  assert (B : forall a b, a < n -> conn (gedges rows) a b -> b < n).
  { intros a b Ha C. apply (@conn_closed (gedges rows) (fun x => x < n) a b); auto. intros x y I. apply in_gedges in I. split; intros _; rewrite <- LR; [eapply HT; eauto|eapply edge_lt; eauto]. }
  split.
  - intros u v Hu Hv. set (a := nth u p 0). set (b := nth v p 0). assert (Ha : a < n) by (eapply perm_lt; eauto). assert (Hb : b < n) by (eapply perm_lt; eauto).
    rewrite <- CN by auto. fold a b. destruct (H a Ha) as [A1 A2], (H b Hb) as [B1 B2]. rewrite D in A1, A2, B1, B2 by auto. split; intros Q.
    + eapply conn_trans; [exact A1|]. rewrite Q. now apply conn_sym.
    + apply Nat.le_antisymm; [apply A2|apply B2]; eauto; (eapply conn_trans; [|eassumption]); auto. now apply conn_sym.
  - intros u Hu. set (a := nth u p 0). assert (Ha : a < n) by (eapply perm_lt; eauto). destruct (H a Ha) as [A1 A2]. rewrite D in A1, A2 by auto.
    destruct (PRE (nth a comp 0)) as (r & Hr & E); [eauto|]. exists r. split; auto. split; [apply CN; auto; rewrite E; exact A1|]. split; [auto|].
    intros v Hv C. rewrite E. apply A2; [eapply perm_lt; eauto|]. now apply CN.
Qed.

(** Versions 1, 2, 6 and 8 are right for every file, every option and every interleaving; 5 and 10 for symmetric files. *)
Theorem C80_components : forall W srt lsrt zsrt srt1 o n es id thread s, is_env W n es srt lsrt zsrt -> divides thread (s_split s) ->
  id = 1 \/ id = 2 \/ id = 6 \/ id = 8 \/ (o_symmetric o = true /\ (id = 5 \/ id = 10)) ->
  let el := el_build W n es in let N := el_num_vertices el in
  exists comp p, cb_run W srt lsrt zsrt srt1 o id thread s el = Ok (Some comp) /\ components N es p comp.
Proof.
  intros W srt lsrt zsrt srt1 o n es id thread s H HD ID el N.
  destruct (@reader_ok W srt lsrt zsrt srt1 o n es H) as (g & t & rows & trows & p & E & _ & _ & _ & ER & ET & LR & HT & P & _ & CN & TR & _). fold el N in E, LR, P, CN.
  assert (HW : length rows < W) by (rewrite LR; destruct H as (_ & _ & _ & _ & Hn & He & _); apply card_lt; auto).
  assert (K : forall r, (exists comp, r = Ok comp /\ length comp = length rows /\ forall v, v < length rows -> conn (gedges rows) v (nth v comp v) /\ forall w, w < length rows -> conn (gedges rows) v w -> nth v comp v <= w) ->
    exists comp q, (do c <- r; Ok (Some c)) = Ok (Some comp) /\ components N es q comp).
  { intros r (comp & -> & LC & Q). exists comp, p. split; auto. rewrite LR in LC, Q. now apply least_components with rows. }
  unfold cb_run. rewrite E. cbn [bind fst snd].
  destruct ID as [->|[->|[->|[->|(OS & ID)]]]]; cbn [cb_version]; rewrite ?ER; cbn [bind].
  - apply K. now apply C61_ccv1.
  - apply K. now apply C61_v2.
  - apply K. now apply C62_sv_v6.
  - apply K. now apply C62_sv_v6.
  - rewrite OS in TR. destruct TR as [_ SY]. destruct ID as [->| ->]; cbn [cb_version]; rewrite ER; cbn [bind].
    + apply K. now apply C61_ccv5.
    + destruct (C63_components W thread (s_sched s) (s_split s) rows HW HT HD SY) as (comp & E1 & _ & LC & Q). apply K. exists comp. split; auto. split; auto.
      intros v Hv. destruct (Q v Hv) as [Q1 Q2]. rewrite (@nth_indep _ comp v v 0) by lia. split; auto.
Qed.

(** On a directed file version 10 labels each vertex with the least new name from which it can be reached along the arcs, which
    separates connected vertices; the result of 5 depends on the label that is sampled. *)
Theorem C80_lpcc_directed : forall W srt lsrt zsrt srt1 o n es thread s, is_env W n es srt lsrt zsrt -> divides thread (s_split s) ->
  let el := el_build W n es in exists g t rows comp, cb_reader W srt lsrt zsrt srt1 o el = Ok (g, t) /\ csr_rows g = Ok rows /\
    cb_run W srt lsrt zsrt srt1 o 10 thread s el = Ok (Some comp) /\ length comp = length rows /\
    forall v, v < length rows -> reachable rows (nth v comp 0) v /\ forall u, reachable rows u v -> nth v comp 0 <= u.
Proof.
  intros W srt lsrt zsrt srt1 o n es thread s H HD el.
  destruct (@reader_ok W srt lsrt zsrt srt1 o n es H) as (g & t & rows & trows & p & E & _ & _ & _ & ER & _ & LR & HT & _). fold el in E, LR.
  assert (HW : length rows < W) by (rewrite LR; destruct H as (_ & _ & _ & _ & Hn & He & _); apply card_lt; auto).
  destruct (C63_lpcc W thread (s_sched s) (s_split s) rows HW HT HD) as (comp & E1 & LC & Q).
  exists g, t, rows, comp. split; auto. split; auto. split; auto. unfold cb_run. rewrite E. cbn [bind fst snd cb_version]. rewrite ER. cbn [bind]. now rewrite E1.
Qed.

(** So on a directed file (-f without --relabel and --clean) version 10 joins nothing at all if every pair points down, and
    version 5 nothing if every pair leaves vertex 0 and label 0 is the one sampled. *)
Theorem C80_directed : forall W srt lsrt zsrt srt1 o n es thread s, is_env W n es srt lsrt zsrt -> divides thread (s_split s) ->
  o_symmetric o = false -> o_relabel o = false -> o_clean o = false -> let el := el_build W n es in let N := el_num_vertices el in
  ((forall e, In e es -> etgt e <= esrc e) -> cb_run W srt lsrt zsrt srt1 o 10 thread s el = Ok (Some (seq 0 N))) /\
  ((forall e, In e es -> esrc e = 0) -> (forall l, s_pick s l = 0) -> cb_run W srt lsrt zsrt srt1 o 5 thread s el = Ok (Some (seq 0 N))).
Proof.
  intros W srt lsrt zsrt srt1 o n es thread s H HD OS OR OC el N.
  destruct (@reader_ok W srt lsrt zsrt srt1 o n es H) as (g & t & rows & trows & p & E & _ & _ & _ & ER & ET & LR & HT & P & ED & _ & _ & ID & _). fold el N in E, LR, P, ED, ID.
  assert (HW : length rows < W) by (rewrite LR; destruct H as (_ & _ & _ & _ & Hn & He & _); apply card_lt; auto).
  assert (A : forall u v, GraphLib.edge rows u v -> exists e, In e es /\ esrc e = u /\ etgt e = v).
  { intros u v Q. assert (Lu : u < N) by (rewrite <- LR; eapply edge_lt; eauto). assert (Lv : v < N) by (rewrite <- LR; eapply HT; eauto).
    specialize (ED u v Lu Lv). rewrite ID, !seq_nth in ED by auto. cbn [plus] in ED. apply ED in Q. unfold wanted in Q. rewrite OS, OC in Q.
    unfold pairs in Q. apply in_map_iff in Q. destruct Q as (e & Q & I). injection Q as <- <-. eauto. }
  split.
  - intros DN. destruct (@C80_lpcc_directed W srt lsrt zsrt srt1 o n es thread s H HD) as (g' & t' & rows' & comp & E' & ER' & RUN & LC & Q). fold el in E', RUN.
    rewrite E in E'. injection E' as <- <-. rewrite ER in ER'. injection ER' as <-. rewrite RUN. do 2 f_equal.
    apply nth_ext with 0 0; [rewrite seq_length; lia|]. intros v Hv. rewrite LC in Hv. rewrite seq_nth by lia. cbn [plus]. destruct (Q v Hv) as [Q1 Q2].
    apply Nat.le_antisymm; [apply Q2; exists 0; constructor|]. destruct Q1 as (k & Wk).
    assert (D : forall u v, GraphLib.edge rows u v -> v <= u) by (intros a b X; destruct (A a b X) as (e & I & <- & <-); auto).
    revert Wk. generalize (nth v comp 0). intros a Wk. clear -Wk D. induction Wk as [|k x y Wk IH Q]; auto. specialize (D _ _ Q). lia.
  - intros ZS PK. unfold cb_run. rewrite E. cbn [bind fst snd cb_version]. rewrite ER. cbn [bind].
    assert (X : ccv5 W (s_sched s) (s_pick s) rows = ccv5 W (s_sched s) (fun _ => 0) rows) by (unfold ccv5; destruct (x_pull W (s_sched s 0) rows (x_init W (length rows))); cbn [bind]; rewrite ?PK; reflexivity).
    rewrite X, C61_ccv5_star; auto; [now rewrite LR|]. intros u v Q. destruct (A u v Q) as (e & I & <- & _). auto.
Qed.

(** Versions 0 (the default) and 7 read past the graph on every file. So do 9 and 11 on every file with a vertex: the constructor
    of the graph makes end() one row too far, and the ranges go there. *)
Theorem C80_undefined : forall W srt lsrt zsrt srt1 o n es id thread s, is_env W n es srt lsrt zsrt ->
  let el := el_build W n es in id = 0 \/ id = 7 \/ ((id = 9 \/ id = 11) /\ 0 < el_num_vertices el) ->
  cb_run W srt lsrt zsrt srt1 o id thread s el = Ub.
Proof.
  intros W srt lsrt zsrt srt1 o n es id thread s H el ID.
  destruct (@reader_ok W srt lsrt zsrt srt1 o n es H) as (g & t & rows & trows & p & E & SZ & _ & IT & ER & ET & _). fold el in E, SZ.
  unfold cb_run. rewrite E. cbn [bind fst snd]. destruct ID as [->|[->|([->| ->] & NZ)]]; cbn [cb_version].
  - rewrite ER, ET. cbn [bind]. now rewrite C36_afforest_out_of_bounds.
  - rewrite ER, ET. cbn [bind]. now rewrite C36_afforest_out_of_bounds.
  - unfold cb_sv_v9, csr_all_rows. rewrite SZ, IT. destruct (Nat.eqb_spec (el_num_vertices el) 0); [lia|]. reflexivity.
  - unfold cb_lpcc_cyclic, csr_all_rows. rewrite SZ, IT. destruct (Nat.eqb_spec (el_num_vertices el) 0); [lia|]. reflexivity.
Qed.

(** --verify reads one label past the end of every labelling of the graph, for the same reason. *)
Lemma lts_ub comp n m : length comp < n -> rfold (fun l i => do c <- vget comp i; Ok (lts_set c i l)) (seq 0 n) m = Ub.
Proof.
  intros H. assert (G : forall k i m, i <= length comp -> length comp < i + k -> rfold (fun l j => do c <- vget comp j; Ok (lts_set c j l)) (seq i k) m = Ub).
  { induction k as [|k IH]; intros i m' H1 H2; [lia|]. cbn [seq rfold]. destruct (Nat.eq_dec i (length comp)) as [->|NE].
    - rewrite vget_ge by lia. reflexivity.
    - rewrite (@vget_nth _ comp i 0) by lia. cbn [bind]. apply IH; lia. }
  apply G; lia.
Qed.
Theorem C80_verify : forall W srt lsrt zsrt srt1 o n es order g t comp, is_env W n es srt lsrt zsrt -> let el := el_build W n es in
  cb_reader W srt lsrt zsrt srt1 o el = Ok (g, t) -> length comp = el_num_vertices el -> cb_verifier order g t comp = Ub.
Proof.
  intros W srt lsrt zsrt srt1 o n es order g t comp H el E LC.
  destruct (@reader_ok W srt lsrt zsrt srt1 o n es H) as (g' & t' & rows & trows & p & E' & _ & CN & _). fold el in E', CN. rewrite E in E'. injection E' as <- <-.
  unfold cb_verifier, lts. rewrite CN, lts_ub by lia. reflexivity.
Qed.

Theorem C80_unknown : forall W id thread s g t, cb_version W id thread s g t = None <-> id = 3 \/ id = 4 \/ 11 < id.
Proof.
  intros. split; intros H.
  - do 12 (destruct id as [|id]; [try discriminate; lia|]). lia.
  - do 12 (destruct id as [|id]; [try lia; reflexivity|]). reflexivity.
Qed.

(** print_top_n prints the number of different labels and the min(n, that) labels with the largest counts, each with its count, in
    descending order; whatever the order of the map and of equal counts. *)
Theorem C80_top : forall W order csrt n comp k top c, (forall l, Permutation l (order l)) -> is_sort_lt more csrt -> length comp < W ->
  print_top_n W order csrt n comp = (k, top, c) ->
  (exists labels, NoDup labels /\ length labels = c /\ forall i, In i labels <-> In i comp) /\
  k = Nat.min n c /\ length top = k /\ NoDup (map fst top) /\
  (forall i q, In (i, q) top -> In i comp /\ q = count_occ Nat.eq_dec comp i) /\
  StronglySorted (fun a b => snd b <= snd a) top /\
  (forall i j q, In i comp -> ~ In i (map fst top) -> In (j, q) top -> count_occ Nat.eq_dec comp i <= q).
Proof.
  intros W order csrt n comp k top c PO CS HW E. destruct (count_labels_ok _ HW) as [ND IN]. unfold print_top_n in E. set (m := count_labels W comp) in *.
  destruct (CS (order m)) as [PS SS]. set (l := csrt (order m)) in *. assert (PL : Permutation m l) by (eapply Permutation_trans; eauto).
  assert (LL : length l = length m) by (symmetry; now apply Permutation_length). injection E as <- <- <-. set (k := Nat.min n (length m)).
  assert (NDL : NoDup (map fst l)) by (eapply Permutation_NoDup; [apply Permutation_map; exact PL|exact ND]).
  assert (SP : firstn k l ++ skipn k l = l) by apply firstn_skipn. rewrite <- SP in SS. destruct (sorted_split _ _ SS) as [S1 S2].
  assert (INL : forall e, In e (firstn k l) -> In e m) by (intros e I; apply (Permutation_in _ (Permutation_sym PL)); rewrite <- SP; apply in_or_app; auto).
  split; [|split; [reflexivity|split; [|split; [|split; [|split]]]]].
  - exists (map fst m). split; auto. split; [apply map_length|]. intros i. rewrite in_map_iff. split; [intros ((j, q) & <- & I); apply IN in I; tauto|].
    intros I. exists (i, count_occ Nat.eq_dec comp i). split; auto. apply IN. auto.
  - rewrite firstn_length. unfold k. lia.
  - rewrite <- SP, map_app in NDL. clear -NDL. induction (map fst (firstn k l)) as [|x r IH]; [constructor|]. cbn [app] in NDL. inversion NDL; subst. constructor; auto. intros I. apply H1, in_or_app. auto.
  - intros i q I. apply IN. now apply INL.
  - clear -S1. induction S1; constructor; auto. eapply Forall_impl; [|exact H]. intros b Q. unfold more in Q. now apply Nat.ltb_ge in Q.
  - intros i j q I NI J. assert (X : In (i, count_occ Nat.eq_dec comp i) (skipn k l)).
    { assert (Y : In (i, count_occ Nat.eq_dec comp i) l) by (apply (Permutation_in _ PL), IN; auto). rewrite <- SP in Y. apply in_app_or in Y. destruct Y as [Y|Y]; auto.
      exfalso. apply NI. apply in_map_iff. eexists. split; [|exact Y]. reflexivity. }
    specialize (S2 _ _ J X). unfold more in S2. cbn [snd] in S2. now apply Nat.ltb_ge in S2.
Qed.

(** With the labels of C80_components the number printed is the number of components, and each count the size of one. *)
Theorem C80_top_components : forall W n es p comp order csrt m k top c, components n es p comp -> n < W ->
  (forall l, Permutation l (order l)) -> is_sort_lt more csrt -> print_top_n W order csrt m comp = (k, top, c) ->
  (exists reps, NoDup reps /\ length reps = c /\ forall u, u < n -> exists r, In r reps /\ r < n /\ conn (pairs es) u r /\ forall r', In r' reps -> conn (pairs es) u r' -> r' = r) /\
  (forall l q, In (l, q) top -> exists r members, r < n /\ nth r p 0 = l /\ NoDup members /\ length members = q /\ forall v, In v members <-> v < n /\ conn (pairs es) r v).
Proof.
  intros W n es p comp order csrt m k top c (LC & P & CE & CL) HW PO CS E. destruct (@C80_top W order csrt m comp k top c PO CS ltac:(lia) E) as ((labels & ND & LL & IL) & _ & _ & _ & TOP & _).
  assert (PRE : forall a, a < n -> exists w, w < n /\ nth w p 0 = a).
  { intros a Ha. assert (I : In a p) by (apply (Permutation_in _ (Permutation_sym P)), in_seq; lia). apply In_nth with (d := 0) in I.
    destruct I as (w & Hw & Q). rewrite (Permutation_length P), seq_length in Hw. eauto. }
  (* a label is the new name of a vertex of its component *)
  assert (LAB : forall l, In l comp -> exists r, r < n /\ nth r p 0 = l /\ nth (nth r p 0) comp 0 = l).
  { intros l I. apply In_nth with (d := 0) in I. destruct I as (a & Ha & <-). destruct (PRE a ltac:(lia)) as (u & Hu & <-).
    destruct (CL u Hu) as (r & Hr & C & Q & _). exists r. split; auto. split; auto. apply CE; auto. now apply conn_sym. }
  split.
  - (* the vertices whose new name is a label *)
    set (reps := filter (fun w => existsb (Nat.eqb (nth w p 0)) labels) (seq 0 n)).
    assert (IR : forall w, In w reps <-> w < n /\ In (nth w p 0) comp).
    { intros w. unfold reps. rewrite filter_In, in_seq, existsb_exists. rewrite <- IL. split.
      - intros (A & x & I & Q). apply Nat.eqb_eq in Q. subst x. split; auto. lia.
      - intros (A & I). split; [lia|]. exists (nth w p 0). split; auto. apply Nat.eqb_refl. }
    assert (NR : NoDup reps) by (apply NoDup_filter, seq_NoDup). exists reps. split; auto. split.
    + rewrite <- LL. rewrite <- (map_length (fun w => nth w p 0) reps). apply Permutation_length, NoDup_Permutation; auto.
      * assert (INJ : forall a b, In a reps -> In b reps -> nth a p 0 = nth b p 0 -> a = b) by (intros a b Ia Ib; apply IR in Ia, Ib; apply (perm_inj P); tauto).
        clear -NR INJ. induction NR as [|x l NI NR IH]; cbn [map]; constructor.
        -- intros I. apply in_map_iff in I. destruct I as (y & Q & I). apply INJ in Q; [subst y; auto|now right|now left].
        -- apply IH. intros a b Ia Ib. apply INJ; now right.
      * intros x. rewrite in_map_iff, IL. split; [intros (w & <- & I); apply IR in I; tauto|]. intros I. destruct (LAB x I) as (r & Hr & Q & _). exists r. split; auto. apply IR. split; auto. now rewrite Q.
    + intros u Hu. destruct (CL u Hu) as (r & Hr & C & Q & M). exists r. split; [apply IR; split; auto; rewrite <- Q; apply nth_In; rewrite LC; eapply perm_lt; eauto|]. split; auto. split; auto.
      intros r' I C'. apply IR in I. destruct I as [Hr' I]. destruct (LAB _ I) as (r2 & Hr2 & Q2 & F2). apply (perm_inj P) in Q2; auto. subst r2.
      apply (perm_inj P); auto. rewrite <- Q, <- F2. symmetry. apply CE; auto.
  - intros l q I. apply TOP in I. destruct I as [I ->]. destruct (LAB l I) as (r & Hr & Q & F). exists r, (filter (fun v => nth (nth v p 0) comp 0 =? l) (seq 0 n)).
    split; auto. split; auto. split; [apply NoDup_filter, seq_NoDup|]. split.
    + (* the count over the vertices is the count over the new names *)
      assert (X : Permutation (map (fun v => nth (nth v p 0) comp 0) (seq 0 n)) comp).
      { assert (Y : map (fun a => nth a comp 0) (seq 0 n) = comp).
        { apply nth_ext with 0 0; [rewrite map_length, seq_length; auto|]. intros i Hi. rewrite map_length, seq_length in Hi. now rewrite nth_map_seq. }
        apply Permutation_trans with (map (fun a => nth a comp 0) (seq 0 n)); [|rewrite Y; apply Permutation_refl]. rewrite <- (map_map (fun v => nth v p 0) (fun a => nth a comp 0)). apply Permutation_map. replace (map (fun v => nth v p 0) (seq 0 n)) with p; auto.
        apply nth_ext with 0 0; [rewrite map_length; now apply Permutation_length|]. intros i Hi. rewrite (Permutation_length P), seq_length in Hi. now rewrite nth_map_seq. }
      rewrite <- (proj1 (Permutation_count_occ Nat.eq_dec _ _) X l). clear. induction (seq 0 n) as [|x r IH]; cbn [filter map count_occ]; auto.
      destruct (Nat.eqb_spec (nth (nth x p 0) comp 0) l), (Nat.eq_dec (nth (nth x p 0) comp 0) l); cbn [length]; congruence || auto.
    + intros v. rewrite filter_In, in_seq, Nat.eqb_eq. split.
      * intros (A & B). split; [lia|]. apply CE; auto; [lia|]. congruence.
      * intros (A & C). split; [lia|]. apply CE in C; auto. congruence.
Qed.

(** ** Non-vacuity *)
Definition cb_es : list uedge := [ex_u 4 1; ex_u 1 1; ex_u 0 2; ex_u 5 4; ex_u 1 4; ex_u 5 6].
Definition cb_s : cb_sched := mkCs (fun i t => t + i) (fun _ => 0) (fun l => [l]) (fun i l => [(0, l)]).
Definition cb_o (symmetric relabel clean : bool) : cb_opts := mkCb symmetric relabel clean ascending (Some successor).
Definition ex_srt := @sort_cmp nat.
Definition ex_lsrt := sort_cmp ulexb.
Definition ex_zsrt : list (nat * (nat * unit)) -> list (nat * (nat * unit)) := isort_by fst.
Example C80_ex_env : is_env 256 0 cb_es ex_srt ex_lsrt ex_zsrt /\ divides 4 (s_split cb_s).
Proof.
  split.
  - split; [apply deg_sorts_legal|]. split; [apply deg_sorts_legal|]. split; [apply ulex_legal|]. split; [intros l; apply isort_by_is_sort|].
    split; [lia|]. split; [|cbn; lia]. intros e I. unfold cb_es, ex_u in I. cbn [In] in I. repeat (destruct I as [<-|I]; [cbn; lia|]). destruct I.
  - intros i l. split; [constructor; [cbn; lia|constructor]|]. intros x. cbn. rewrite app_nil_r. tauto.
Qed.
Definition ex_run o id := cb_run 256 ex_srt ex_lsrt ex_zsrt (fun l => l) o id 4 cb_s (el_build 256 0 cb_es).
(** 0 - 2, 1 - 4 - 5 - 6 and 3 alone; with --relabel 3 becomes 0, 6 and so on. *)
Example C80_ex_sym : ex_run (cb_o true false false) 1 = Ok (Some [0; 1; 0; 3; 1; 1; 1]) /\ ex_run (cb_o true false true) 10 = Ok (Some [0; 1; 0; 3; 1; 1; 1]) /\
  ex_run (cb_o true true true) 6 = Ok (Some [0; 1; 1; 3; 3; 3; 3]).
Proof. repeat split; vm_compute; reflexivity. Qed.
(** The same file read with -f: 10 tells 5 from 4 and 6. *)
Example C80_ex_dir : ex_run (cb_o false false false) 2 = Ok (Some [0; 1; 0; 3; 1; 1; 1]) /\ ex_run (cb_o false false false) 10 = Ok (Some [0; 1; 0; 3; 1; 5; 5]) /\
  ex_run (cb_o false false false) 9 = Ub /\ ex_run (cb_o false false false) 3 = Ok None.
Proof. repeat split; vm_compute; reflexivity. Qed.
(** 2 -> 1 -> 0 and 0 -> 1, 0 -> 2: nothing is joined by 10 and 5 although all is connected. *)
Example C80_ex_down : cb_run 256 ex_srt ex_lsrt ex_zsrt (fun l => l) (cb_o false false false) 10 4 cb_s (el_build 256 0 [ex_u 2 1; ex_u 1 0]) = Ok (Some [0; 1; 2]) /\
  cb_run 256 ex_srt ex_lsrt ex_zsrt (fun l => l) (cb_o false false false) 5 4 cb_s (el_build 256 0 [ex_u 0 1; ex_u 0 2]) = Ok (Some [0; 1; 2]).
Proof. split; vm_compute; reflexivity. Qed.
Example C80_ex_top : print_top_n 256 (fun l => l) (sort_cmp more) 2 [0; 1; 0; 3; 1; 1; 1] = (2, [(1, 4); (0, 2)], 3) /\ is_sort_lt more (sort_cmp more).
Proof. split; [reflexivity|]. apply sort_cmp_is_sort; unfold more; intros; rewrite ?Nat.ltb_lt, ?Nat.ltb_ge in *; lia. Qed.

Print Assumptions C80_graph.
Print Assumptions C80_components.
Print Assumptions C80_lpcc_directed.
Print Assumptions C80_directed.
Print Assumptions C80_undefined.
Print Assumptions C80_verify.
Print Assumptions C80_unknown.
Print Assumptions C80_top.
Print Assumptions C80_top_components.
