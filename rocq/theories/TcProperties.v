(** C76: the triangle counting benchmark from the edge list that was read to the number that is reported. *)
From Coq Require Import List Arith NArith Lia Bool Permutation Sorting.Sorted.
From Verif Require Import Base GraphLib SumLib UtilModel RangeModel PforModel EdgeListModel EdgeListProofs CsrModel CsrProofs CsrProofs2
  BuildModel BuildProofs BuildProperties TriModel TriProofs TriProperties XtriModel XtriProofs XtriProperties TcModel TcProofs.
Import ListNotations.
Set Implicit Arguments.

(** [linked es u v]: some edge of the list has the ends u and v. [triangles_of n es]: the vertex triples a < b < c below n that
    are pairwise linked, i.e. the triangles of the simple undirected graph described by the list, whatever loops and repeated
    or reversed edges it holds. [edge_count es v]: the ends of edges at v. (TcProofs.v)
    The sorts are any functions that sort; [draws] are any numbers drawn by the heuristic. *)
Record tc_env (W n : nat) (es : list (EdgeListModel.edge unit)) srt nsrt (lsrt : list (EdgeListModel.edge unit) -> list (EdgeListModel.edge unit)) (draws : list nat) (o : tc_opts) : Prop := {
  env_asc : forall d, is_sort_lt (deg_lt d) (srt (deg_lt d));
  env_desc : forall d, is_sort_lt (deg_gt d) (srt (deg_gt d));
  env_nsrt : forall l : list nat, Permutation l (nsrt l);
  env_lsrt : is_lex_sort lsrt;
  env_n : n < W;
  env_ids : ids_ok W es;
  env_len : 2 * length es < W;
  env_draws : el_card (el_build W n es) <= length draws \/ 1000 <= length draws;
  env_range : forall v, In v draws -> v < el_card (el_build W n es);
  env_some : o_relabel o = true -> o_heuristic o = true -> 0 < el_card (el_build W n es) }.

(** The graph that is built, in each of the three formats, is one half of the described simple graph, with sorted rows, up to a
    renaming p of the vertices. p is the identity without --relabel, and follows the degrees when relabelling is forced. *)
Theorem C76_graph : forall W n es srt nsrt lsrt draws o f, tc_env W n es srt nsrt lsrt draws o ->
  let el := el_build W n es in let N := el_num_vertices el in
  exists el' g p, tc_prepare W srt nsrt lsrt draws o el = Ok el' /\ tc_compress W f el' = Ok g /\
    length g = N /\ targets_ok g /\ rows_sorted g /\ (if o_lower o then lower g else upper g) /\
    Permutation p (seq 0 N) /\
    (forall u v, u < N -> v < N -> adj g (nth u p 0) (nth v p 0) = linked es u v && negb (u =? v)) /\
    (o_relabel o = false -> p = seq 0 N) /\
    (o_relabel o = true -> o_heuristic o = false -> forall u v, u < N -> v < N -> nth u p 0 < nth v p 0 ->
       if o_lower o then edge_count es v <= edge_count es u else edge_count es u <= edge_count es v).
Proof.
  intros W n es srt nsrt lsrt draws o f H el N. destruct H as [Ha Hd Hp Hl Hn Hi Hw Hk Hr Hs].
  destruct (build_card es Hn Hi) as (_ & B & _). fold el N in B.
  destruct (@prepare_ok W srt nsrt lsrt draws o n es Ha Hd Hp Hn Hi Hw Hk Hr Hs) as (el1 & p & E & C & P & V & ID & DG). fold el in E, C, P, ID, DG.
  change (el_card el) with N in *. assert (CN : el_num_vertices el1 = N) by exact C.
  destruct (@cleaned_rows W lsrt f (o_lower o) el1 Hl) as (g & EG & LG & HT & HS & HH & _ & AD).
  - rewrite V. unfold rename. rewrite map_length. lia.
  - rewrite CN, V. now apply rename_bound.
  - eexists _, g, p. split; [exact E|]. split; [exact EG|]. split; [congruence|]. split; auto. split; auto. split; [exact HH|]. split; auto. split; auto.
    intros u v Hu Hv. rewrite AD, V. rewrite (@linked_rename N p es u v P B Hu Hv). do 2 f_equal.
    apply Bool.eq_iff_eq_true. rewrite !Nat.eqb_eq. split; [apply (perm_inj P); auto|congruence].
Qed.

(** The number of triangles of that graph is the number of triangles described by the edge list, so every version that
    tc.cpp offers reports it on the upper triangular graph (the default), for every number of threads and every schedule. The
    versions that add up in a double need fewer than 2^53 triangles, and thread counts below 2^31. *)
Lemma graph_triangles W n es srt nsrt lsrt draws o f el' g : tc_env W n es srt nsrt lsrt draws o ->
  tc_prepare W srt nsrt lsrt draws o (el_build W n es) = Ok el' -> tc_compress W f el' = Ok g ->
  targets_ok g /\ rows_sorted g /\ (if o_lower o then lower g else upper g) /\ triangles g = triangles_of (el_num_vertices (el_build W n es)) es.
Proof.
  intros H E EG. destruct H as [Ha Hd Hp Hl Hn Hi Hw Hk Hr Hs]. destruct (build_card es Hn Hi) as (_ & B & _).
  set (el := el_build W n es) in *. set (N := el_num_vertices el) in *.
  destruct (@prepare_ok W srt nsrt lsrt draws o n es Ha Hd Hp Hn Hi Hw Hk Hr Hs) as (el1 & p & E' & C & P & V & _). fold el in E', C, P.
  rewrite E' in E. injection E as <-. change (el_card el) with N in *. assert (CN : el_num_vertices el1 = N) by exact C.
  destruct (@cleaned_rows W lsrt f (o_lower o) el1 Hl) as (g' & EG' & LG & HT & HS & HH & TR & _).
  - rewrite V. unfold rename. rewrite map_length. lia.
  - rewrite CN, V. now apply rename_bound.
  - rewrite EG' in EG. injection EG as <-. split; auto. split; auto. split; auto. rewrite TR, CN, V. now apply triangles_rename.
Qed.

Definition tc_run (W : nat) srt nsrt lsrt (draws : list nat) (o : tc_opts) (f : tc_format) (id thread : nat) (s : tc_sched) (el : edge_list unit) : res N :=
  do el' <- tc_prepare W srt nsrt lsrt draws o el ;
  do g <- tc_compress W f el' ;
  match tc_version id thread s g with Some r => r | None => Ok 0%N end.

Theorem C76_default_exact : forall W n es srt nsrt lsrt draws o f id thread s, tc_env W n es srt nsrt lsrt draws o -> o_lower o = false ->
  id <= 14 -> 0 < thread -> let el := el_build W n es in let T := N.of_nat (triangles_of (el_num_vertices el) es) in
  (id = 12 \/ id = 13 -> (N.of_nat thread < 2 ^ 31 /\ T < 2 ^ 53)%N) ->
  tc_run W srt nsrt lsrt draws o f id thread s el = Ok T.
Proof.
  intros W n es srt nsrt lsrt draws o f id thread s H LO I TH el T HT'.
  destruct (@C76_graph W n es srt nsrt lsrt draws o f H) as (el' & g & p & E & EG & _). unfold tc_run. fold el in E. rewrite E. cbn [bind]. rewrite EG. cbn [bind].
  destruct (@graph_triangles W n es srt nsrt lsrt draws o f el' g H E EG) as (HT & HS & U & TR). rewrite LO in U. fold el in TR.
  assert (CA : csr_arrays g (map (psum g) (seq 0 (length g + 1))) (concat g)).
  { split; auto. split; [rewrite map_length, seq_length; lia|]. intros u Hu. rewrite nth_error_nth' with (d := 0) by (rewrite map_length, seq_length; lia).
    rewrite nth_map_seq by lia. reflexivity. }
  destruct (C66_whole_rows HT HS (or_introl U) CA) as (_ & V2 & V3 & V10 & V14 & V6 & _).
  destruct (C66_row_suffixes HT HS U CA) as (V1 & V7 & VT). destruct (VT thread TH) as (_ & V5 & _). destruct (V6 thread TH) as (V6' & _).
  assert (V0 := C37_triangle_count HT HS (or_introl U)). assert (V4 := C37_threads_upper HT HS U TH).
  unfold T in *. rewrite <- TR in *.
  assert (V12 : id = 12 -> triangle_count_v12 g (N.of_nat thread) (s_tree s) = Ok (N.of_nat (triangles g))).
  { intros Q. destruct HT' as (A & B); auto. destruct (@C66_double_exact g (N.of_nat thread) (s_tree s) HT HS) as (X & _); auto; lia. }
  assert (V13 : id = 13 -> triangle_count_v13 g (N.of_nat thread) (s_tree s) = Ok (N.of_nat (triangles g))).
  { intros Q. destruct HT' as (A & B); auto. destruct (@C66_double_exact g (N.of_nat thread) (s_tree s) HT HS) as (_ & X); auto; lia. }
  clear HT'. assert (M : In id (seq 0 15)) by (apply in_seq; lia). cbn [seq] in M.
  repeat (destruct M as [<-|M]; [unfold tc_version; first [rewrite V0|rewrite V1|rewrite V2|rewrite V3|rewrite V4|rewrite V5|rewrite V6'|rewrite V7|rewrite V10|rewrite V14|rewrite V12 by auto|rewrite V13 by auto]; reflexivity|]).
  destruct M.
Qed.

(** With --lower: the versions that intersect whole rows are still exact; the ones that intersect the rest of a row report 0,
    whatever the graph. *)
Theorem C76_lower : forall W n es srt nsrt lsrt draws o f id thread s, tc_env W n es srt nsrt lsrt draws o -> o_lower o = true ->
  0 < thread -> let el := el_build W n es in let T := N.of_nat (triangles_of (el_num_vertices el) es) in
  (In id [0; 2; 3; 6; 10; 11; 14] -> tc_run W srt nsrt lsrt draws o f id thread s el = Ok T) /\
  ((N.of_nat thread < 2 ^ 31)%N -> (T < 2 ^ 53)%N -> tc_run W srt nsrt lsrt draws o f 13 thread s el = Ok T) /\
  (In id [1; 4; 5; 7; 8; 9] -> tc_run W srt nsrt lsrt draws o f id thread s el = Ok 0%N) /\
  ((N.of_nat thread < 2 ^ 31)%N -> tc_run W srt nsrt lsrt draws o f 12 thread s el = Ok 0%N).
Proof.
  intros W n es srt nsrt lsrt draws o f id thread s H LO TH el T.
  destruct (@C76_graph W n es srt nsrt lsrt draws o f H) as (el' & g & p & E & EG & _). unfold tc_run. fold el in E. rewrite E. cbn [bind]. rewrite EG. cbn [bind].
  destruct (@graph_triangles W n es srt nsrt lsrt draws o f el' g H E EG) as (HT & HS & U & TR). rewrite LO in U. fold el in TR.
  assert (CA : csr_arrays g (map (psum g) (seq 0 (length g + 1))) (concat g)).
  { split; auto. split; [rewrite map_length, seq_length; lia|]. intros u Hu. rewrite nth_error_nth' with (d := 0) by (rewrite map_length, seq_length; lia).
    rewrite nth_map_seq by lia. reflexivity. }
  destruct (C66_whole_rows HT HS (or_intror U) CA) as (_ & V2 & V3 & V10 & V14 & V6 & _). destruct (V6 thread TH) as (V6' & _).
  assert (V0 := C37_triangle_count HT HS (or_intror U)). assert (V4 := C37_threads_lower_always_zero thread HT HS U).
  unfold T in *. rewrite <- TR in *. split; [|split; [|split]].
  - intros I. repeat (destruct I as [<-|I]; [unfold tc_version; first [rewrite V0|rewrite V2|rewrite V3|rewrite V6'|rewrite V10|rewrite V14]; reflexivity|]). destruct I.
  - intros A Q. assert (C : (0 < N.of_nat thread < 2 ^ 31)%N) by lia. destruct (@C66_double_exact g (N.of_nat thread) (s_tree s) HT HS C Q) as (_ & X). apply X. auto.
  - assert (C : (0 < 1 < 2 ^ 31)%N) by lia. destruct (C66_row_suffixes_lower_zero (s_tree s) HT HS U CA C) as (V1 & V7 & _ & VT). destruct (VT thread) as (_ & V5 & _).
    intros I. repeat (destruct I as [<-|I]; [unfold tc_version; first [rewrite V1|rewrite V4|rewrite V5|rewrite V7]; reflexivity|]). destruct I.
  - intros A. assert (C : (0 < N.of_nat thread < 2 ^ 31)%N) by lia. destruct (C66_row_suffixes_lower_zero (s_tree s) HT HS U CA C) as (_ & _ & V12 & _). exact V12.
Qed.

(** The verifier writes into a vector without elements: read strictly, it is undefined exactly when there is something to
    count; if the reserved memory may be used it never leaves it, and it counts the triangles. *)
Theorem C76_verifier : forall W n es srt nsrt lsrt draws o f el' g, tc_env W n es srt nsrt lsrt draws o ->
  tc_prepare W srt nsrt lsrt draws o (el_build W n es) = Ok el' -> tc_compress W f el' = Ok g ->
  let T := triangles_of (el_num_vertices (el_build W n es)) es in
  tc_verifier false g = Ok T /\ (T = 0 -> tc_verifier true g = Ok 0) /\ (0 < T -> tc_verifier true g = Ub).
Proof.
  intros W n es srt nsrt lsrt draws o f el' g H E EG T. destruct (graph_triangles f H E EG) as (HT & HS & U & TR).
  assert (UL : upper g \/ lower g) by (destruct (o_lower o); auto). assert (F := full_triangles HT HS UL).
  rewrite (lax_ok HT HS), (strict_ok HT HS), F, TR. fold T. split; auto. split.
  - intros ->. reflexivity.
  - intros P. destruct (Nat.eqb_spec T 0); auto; lia.
Qed.

(** The heuristic divides by the number of vertices. *)
Theorem C76_heuristic_empty : forall W srt nsrt lsrt draws lo, 0 < W ->
  tc_prepare W srt nsrt lsrt draws (mkTc true true lo) (el_build W 0 []) = Ub.
Proof. intros. reflexivity. Qed.

(** Not one of the numbers 0 to 14: 0 is reported. *)
Theorem C76_unknown_version : forall id thread s g, 14 < id <-> tc_version id thread s g = None.
Proof.
  intros. split; intros H.
  - do 15 (destruct id as [|id]; [lia|]). reflexivity.
  - do 15 (destruct id as [|id]; [discriminate|]). lia.
Qed.

(** ** A concrete run: loops, a repeated and a reversed edge, two triangles (0,1,2) and (1,2,3). *)
Definition ex_u (u v : nat) : EdgeListModel.edge unit := ((u, v), tt).
Definition ex_es : list (EdgeListModel.edge unit) := [ex_u 2 0; ex_u 0 1; ex_u 1 1; ex_u 2 1; ex_u 0 2; ex_u 3 1; ex_u 2 3; ex_u 4 4; ex_u 0 1].
Definition ulexb (x y : EdgeListModel.edge unit) : bool := (esrc x <? esrc y) || ((esrc x =? esrc y) && (etgt x <? etgt y)).
Lemma ulex_legal : is_lex_sort (sort_cmp ulexb).
Proof.
  intros l. destruct (@sort_cmp_is_sort (EdgeListModel.edge unit) ulexb) with (l := l) as [P S].
  - unfold ulexb. intros x y. rewrite !orb_true_iff, !orb_false_iff, !andb_true_iff, !andb_false_iff, !Nat.ltb_lt, !Nat.ltb_ge, !Nat.eqb_eq, !Nat.eqb_neq. lia.
  - unfold ulexb. intros x y z. rewrite !orb_false_iff, !andb_false_iff, !Nat.ltb_ge, !Nat.eqb_neq. lia.
  - split; auto. clear P. induction S; constructor; auto. eapply Forall_impl; [|exact H]. intros b.
    unfold ulexb, lex_le. rewrite !orb_false_iff, !andb_false_iff, !Nat.ltb_ge, !Nat.eqb_neq. lia.
Qed.
Definition ex_draws : list nat := [3; 1; 4; 1; 0].
Example C76_ex_env : forall o, tc_env 100 0 ex_es (@sort_cmp nat) (sort_cmp Nat.ltb) (sort_cmp ulexb) ex_draws o.
Proof.
  intros o. constructor.
  - apply deg_sorts_legal.
  - apply deg_sorts_legal.
  - intros l. destruct (@sort_cmp_is_sort nat Nat.ltb) with (l := l) as [P _]; auto; intros; rewrite ?Nat.ltb_lt, ?Nat.ltb_ge in *; lia.
  - apply ulex_legal.
  - lia.
  - intros e I. cbn in I. repeat (destruct I as [<-|I]; [cbn; lia|]). destruct I.
  - cbn. lia.
  - left. cbn. lia.
  - intros v I. vm_compute. cbn in I. lia.
  - intros _ _. vm_compute. lia.
Qed.
Definition ex_sched : tc_sched := mkTs (fun k => k) (fun u k => u + k) (RJoin RLeaf (RSeq RLeaf RLeaf)).
Example C76_ex_run :
  triangles_of 5 ex_es = 2 /\
  (forall id, In id (seq 0 15) -> tc_run 100 (@sort_cmp nat) (sort_cmp Nat.ltb) (sort_cmp ulexb) ex_draws (mkTc true false false) CSR id 2 ex_sched (el_build 100 0 ex_es) = Ok 2%N) /\
  tc_run 100 (@sort_cmp nat) (sort_cmp Nat.ltb) (sort_cmp ulexb) ex_draws (mkTc false false true) VOL 3 2 ex_sched (el_build 100 0 ex_es) = Ok 2%N /\
  tc_run 100 (@sort_cmp nat) (sort_cmp Nat.ltb) (sort_cmp ulexb) ex_draws (mkTc true true true) VOV 4 2 ex_sched (el_build 100 0 ex_es) = Ok 0%N.
Proof.
  split; [vm_compute; reflexivity|]. split; [|split; vm_compute; reflexivity].
  intros id I. cbn [seq] in I. repeat (destruct I as [<-|I]; [vm_compute; reflexivity|]). destruct I.
Qed.
Example C76_ex_graph : exists el',
  tc_prepare 100 (@sort_cmp nat) (sort_cmp Nat.ltb) (sort_cmp ulexb) ex_draws (mkTc true false false) (el_build 100 0 ex_es) = Ok el' /\
  tc_compress 100 CSR el' = Ok [[3; 4]; []; [3; 4]; [4]; []] /\ tc_compress 100 VOV el' = Ok [[3; 4]; []; [3; 4]; [4]; []] /\
  tc_verifier true [[3; 4]; []; [3; 4]; [4]; []] = Ub /\ tc_verifier false [[3; 4]; []; [3; 4]; [4]; []] = Ok 2.
Proof. eexists. split; [vm_compute; reflexivity|]. vm_compute. auto. Qed.

Print Assumptions C76_graph.
Print Assumptions C76_default_exact.
Print Assumptions C76_lower.
Print Assumptions C76_verifier.
Print Assumptions C76_heuristic_empty.
Print Assumptions C76_unknown_version.
