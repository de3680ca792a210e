(** C83: the PageRank benchmark on the file that was read. Specification: [file_pagerank] and [ten_best] (PrbProofs.v). *)
From Coq Require Import List Arith ZArith QArith Qabs Lqa Lia Bool Permutation Sorted.
From Verif Require Import Base Pool EdgeListModel EdgeListProofs CsrModel CsrProofs CsrProofs2 CsrProofs4 TcProperties CbModel CbProofs BbModel BbProofs BbProperties RangeModel SrcModel SrcProofs SrcProperties
  GraphLib PageRankModel PageRankLib PageRankProofs PageRankProperties XprModel XprProofs Xpr2Proofs Xpr3Proofs Xpr4Proofs XprProperties PrbModel PrbProofs.
Import ListNotations.
Set Implicit Arguments.
Local Open Scope nat_scope.

(** The program has no defined behaviour, whatever the file and the options are: the edge range of build_degrees goes one row past the
    end of the graph (C04). *)
Theorem C83_undefined : forall W zsrt srt1 n es thr iters srt verify trials threads ids t sched s, bb_env W n es zsrt ->
  prb_file W zsrt srt1 (el_build W n es) thr iters srt verify trials threads ids t sched s = Ub.
Proof.
  intros W zsrt srt1 n es thr iters srt verify trials threads ids t sched s (HZ & Hn & He & HL).
  destruct (@prb_rows W zsrt srt1 n es HZ Hn He HL) as (g & rows & EG & _ & IT & _). unfold prb_file. rewrite EG. cbn [bind]. unfold prb_degrees. rewrite IT. reflexivity.
Qed.

(** The rest is about what it does with a degree table that has an entry for each vertex: the number of arcs of the file that leave it.
    This is what build_degrees makes of the rows below size(), under every split and schedule. *)
Definition out_degrees (es : list uedge) (N : nat) (degrees : list nat) : Prop := length degrees = N /\ forall u, u < N -> nth u degrees 0 = file_outdeg es u.
Theorem C83_degrees : forall W zsrt srt1 n es t sched, bb_env W n es zsrt -> let el := el_build W n es in
  exists g rows degrees, prb_graph W zsrt srt1 el = Ok g /\ csr_rows g = Ok rows /\ build_degrees W rows t sched = Ok degrees /\ out_degrees es (el_num_vertices el) degrees.
Proof.
  intros W zsrt srt1 n es t sched (HZ & Hn & He & HL) el.
  destruct (@prb_rows W zsrt srt1 n es HZ Hn He HL) as (g & rows & EG & _ & _ & ER & LR & B & K). fold el in EG, LR, B, K.
  destruct (@C79_degrees W rows t sched) as (dg & ED & LD & D); [lia| |].
  { intros u v E. rewrite LR. exact (@rows_in es rows _ LR B K u v E). }
  exists g, rows, dg. repeat (split; [assumption|]). split; [lia|]. intros u L. rewrite D by lia. rewrite (@rows_indegree es rows _ LR B K).
  apply Nat.mod_small. unfold file_outdeg. assert (X := filter_length_le (fun e : uedge => esrc e =? u) es). lia.
Qed.

(** The PageRank equations of the file have exactly one solution. *)
Theorem C83_solution : forall W n es zsrt, bb_env W n es zsrt -> let N := el_num_vertices (el_build W n es) in
  exists x, file_pagerank (17 # 20) N es x /\ (forall x', file_pagerank (17 # 20) N es x' -> forall v, v < N -> (x' v == x v)%Q) /\
    forall v, v < N -> ((3 # 20) / qn N <= x v /\ x v <= 1)%Q.
Proof.
  intros W n es zsrt (HZ & Hn & He & HL) N.
  destruct (@prb_rows W zsrt (fun l => l) n es HZ Hn He HL) as (g & rows & _ & _ & _ & _ & LR & B & K). fold N in LR, B, K.
  assert (D : forall u, u < N -> file_outdeg es u = file_outdeg es u) by auto.
  assert (IN := @file_input es rows N LR B K _ (17 # 20)%Q D ltac:(lra) ltac:(lra)).
  destruct (C58_solution IN) as (x & P & U & Bd & _). rewrite LR in U, Bd. exists x. split; [now apply (@file_eq es rows N LR B K (file_outdeg es))|]. split.
  - intros x' P' v L. apply U; auto. now apply (@file_eq es rows N LR B K (file_outdeg es)).
  - intros v L. destruct (Bd v L) as [X Y]. split; [exact X|exact Y].
Qed.

(** What the run time may decide: every vertex is handed out once, the terms of a sum are added in some order. *)
Definition run_ok (N : nat) (s : prb_run) : Prop :=
  (forall k, Permutation (concat (pr_parts s k)) (seq 0 N)) /\ (forall k i l, Permutation (fst (pr_arr s k i l)) l) /\
  (forall k, Permutation (pr_src s k) (seq 0 N)) /\ (forall k, Permutation (pr_dst s k) (seq 0 N)).
Definition computes (id thread : nat) : Prop := In id [1; 2; 3; 7; 8; 9; 10; 11; 12; 13; 14] \/ (id = 4 /\ 0 < thread).
(** How far the scores y may be from the solution x of the equations. *)
Definition total_error (N : nat) (y x : nat -> Q) : Q := qs N (fun i => Qabs (y i - x i)).
Definition quality (N id max : nat) (thr : Q) (x y : nat -> Q) : Prop :=
  match id with
  | 2 => (total_error N y x <= thr \/ 3 * total_error N y x <= 17 * thr \/
          forall i, (i < N)%nat -> x i - y i <= qpow (1 - (3 # 20) / qn N) max * x i)%Q /\ forall i, i < N -> (0 <= y i /\ y i <= x i)%Q
  | 3 | 13 => (3 * total_error N (fun i => y i / qn N) x <= 20 * qn (max + 1) * thr + 3 * qpow (17 # 20) max)%Q /\
              forall i, i < N -> (0 <= y i /\ y i <= qn N * x i /\ (thr < 3 # 20 -> 3 # 20 <= y i))%Q
  | 11 | 14 => (3 * total_error N y x <= 17 * thr \/ forall i, (i < N)%nat -> Qabs (y i - x i) <= (20 # 3) * qpow (1 - (3 # 20) / qn N) max * x i)%Q
  | 12 => forall i, i < N -> ((3 # 20) / qn N <= y i /\ (1 / qn N <= thr -> y i == (3 # 20) / qn N))%Q
  | _ => (3 * total_error N y x <= 17 * thr \/ total_error N y x <= 2 * qpow (17 # 20) max)%Q
  end.
Definition score_list (N : nat) (y : nat -> Q) : list num := map Some (map y (seq 0 N)).

Lemma scores_list N out y : scores N out y -> length (o_rank out) = N -> o_rank out = score_list N y.
Proof.
  intros H L. unfold score_list. rewrite map_map. apply (nth_ext _ _ None None). { now rewrite map_length, seq_length. }
  intros i Hi. rewrite L in Hi. rewrite nth_map_seq by auto. rewrite (nth_error_nth _ _ None (H i Hi)). reflexivity.
Qed.
Lemma residual_list N p (r : list Q) : length r = N -> (forall i, i < N -> nth_error r i = Some (p i)) -> map Some r = score_list N p.
Proof.
  intros L H. unfold score_list. f_equal. apply (nth_ext _ _ 0%Q 0%Q). { now rewrite map_length, seq_length. }
  intros i Hi. rewrite L in Hi. rewrite nth_map_seq by auto. apply nth_error_nth, H, Hi.
Qed.

Lemma xpr_loop_sweeps sweep thr : forall todo k st out, xpr_loop sweep thr todo k st = Ok out -> k + (if todo =? 0 then 0 else 1) <= o_sweeps out.
Proof.
  induction todo as [|m IH]; intros k st out; cbn [xpr_loop Nat.eqb].
  - intros E. injection E as <-. cbn. lia.
  - destruct (sweep k st) as [st'| |]; cbn [bind]; try discriminate. destruct (oltb _ _); intros E; [injection E as <-; cbn; lia|]. apply IH in E. lia.
Qed.
Lemma power_quality g deg thr max out x : pr_input g deg (17 # 20) -> power_result g deg (17 # 20) thr max out -> length (o_rank out) = length g -> pagerank g deg (17 # 20) x ->
  exists y, ranks_of (Ok out) = Ok (score_list (length g) y) /\ (3 * total_error (length g) y x <= 17 * thr \/ total_error (length g) y x <= 2 * qpow (17 # 20) max)%Q.
Proof.
  intros IN PR L P. destruct PR as ((y & SY & EY) & PR'). assert (PR : power_result g deg (17 # 20) thr max out) by (split; [exists y|]; auto). exists y.
  destruct (@C69_power_guarantee g deg _ thr max out y IN PR SY) as (_ & C1 & C2 & C3 & _). split; [cbn [ranks_of bind]; now rewrite (@scores_list (length g) out y)|].
  destruct (o_conv out).
  - left. destruct (C3 eq_refl) as [_ C]. specialize (C x P). unfold total_error. lra.
  - right. rewrite <- (C1 eq_refl). exact (C2 x P).
Qed.
Lemma async_quality g deg ranks thr max sched x : let d := (17 # 20)%Q in pr_input g (fun j => nth j deg 0) d -> length g <= length deg -> length ranks = length g -> pagerank g (fun j => nth j deg 0) d x ->
  exists y, ranks_of (page_rank g deg ranks d thr max sched) = Ok (score_list (length g) y) /\
    (3 * total_error (length g) y x <= 17 * thr \/ forall i, (i < length g)%nat -> Qabs (y i - x i) <= (20 # 3) * qpow (1 - (3 # 20) / qn (length g)) max * x i)%Q.
Proof.
  intros d IN LD LR P. destruct (@C58_total g deg ranks d thr max sched IN LD) as (out & y & E & L & SY & _ & C1); [lia|]. exists y. rewrite E. cbn [ranks_of bind]. split; [rewrite (@scores_list (length g) out y); auto; lia|].
  destruct (o_conv out) eqn:EC.
  - left. destruct (@C58_threshold g deg ranks d thr max sched out y IN LD ltac:(lia) E EC SY) as [_ C]. specialize (C x P). unfold total_error, d in *. lra.
  - right. rewrite <- (C1 eq_refl). intros i Hi. exact (@C58_geometric g deg ranks d thr max sched out y x IN LD ltac:(lia) E SY P i Hi).
Qed.

(** Versions 1-4 and 7-14: for every file, every schedule and whatever rankings held, the call is defined and leaves a finite score for
    each vertex. In total they are as close to the PageRank of the file - with the arcs in the direction in which they are written - as the
    tolerance or the number of iterations says. Versions 3 and 13 miss a division by the number of vertices; version 12 has no bound that
    does not depend on how its run ended. *)
Theorem C83_scores : forall W zsrt srt1 n es id thread s thr max, bb_env W n es zsrt -> let el := el_build W n es in let N := el_num_vertices el in
  0 < N -> 0 < max -> (0 <= thr)%Q -> run_ok N s -> computes id thread ->
  exists g, prb_graph W zsrt srt1 el = Ok g /\ csr_size g = N /\ forall degrees ranks x, out_degrees es N degrees -> length ranks = N -> file_pagerank (17 # 20) N es x ->
    exists y, prb_version thr max id thread s g degrees ranks = Ok (score_list N y) /\ quality N id max thr x y.
Proof.
  intros W zsrt srt1 n es id thread s thr max (HZ & Hn & He & HL) el N HN HM HT (R1 & R2 & R3 & R4) HC.
  destruct (@prb_rows W zsrt srt1 n es HZ Hn He HL) as (g & rows & EG & SZ & _ & ER & LR & B & K). fold el N in EG, SZ, LR, B, K.
  exists g. split; auto. split; auto. intros degrees ranks x (LD & D) LK P.
  apply (@file_eq es rows N LR B K (fun u => nth u degrees 0) (17 # 20)%Q x D) in P.
  assert (IN := @file_input es rows N LR B K (fun u => nth u degrees 0) (17 # 20)%Q D ltac:(lra) ltac:(lra)).
  unfold prb_version. rewrite ER. cbn [bind]. unfold prb_damping. rewrite <- LR in *.
  assert (LD' : length rows <= length degrees) by lia.
  assert (PW : forall r, (exists out, r = Ok out /\ power_result rows (fun j => nth j degrees 0) (17 # 20) thr max out /\ length (o_rank out) = length ranks) ->
    exists y, ranks_of r = Ok (score_list (length rows) y) /\ (3 * total_error (length rows) y x <= 17 * thr \/ total_error (length rows) y x <= 2 * qpow (17 # 20) max)%Q).
  { intros r (out & -> & PR & L). apply (@power_quality rows (fun j => nth j degrees 0) thr max out x); auto. lia. }
  assert (RES : forall r, r = page_rank_v3 rows degrees (map finite_part ranks) (17 # 20) thr max \/ r = page_rank_v13 rows degrees (map finite_part ranks) (17 # 20) thr max (pr_src s) (pr_dst s) ->
    exists y, residual_ranks r = Ok (score_list (length rows) y) /\ quality (length rows) 3 max thr x y).
  { intros r Hr. destruct (@C69_residual rows degrees (map finite_part ranks) (17 # 20)%Q thr max (pr_src s) (pr_dst s) x IN LD' ltac:(rewrite map_length; lia) HN HT R3 R4 P r Hr)
      as (out & p & -> & L & SP & LI & C1 & BD & E1 & E2 & E3 & _). exists p. rewrite map_length in L. cbn [residual_ranks bind]. split; [rewrite (@residual_list (length rows) p); auto; lia|].
    cbn [quality]. split.
    - assert (QM : (0 <= qpow (17 # 20) max)%Q) by (apply qpow_nn; lra).
      assert (QI : (qn (S (ro_iters out)) * thr <= qn (max + 1) * thr)%Q). { apply Qmult_le_compat_r; auto. unfold qn. rewrite <- Zle_Qle. lia. }
      destruct (ro_conv out).
      + specialize (E2 eq_refl). assert (Q2 : (qn (ro_iters out) * thr <= qn (max + 1) * thr)%Q). { apply Qmult_le_compat_r; auto. unfold qn. rewrite <- Zle_Qle. lia. } unfold total_error. lra.
      + rewrite (C1 eq_refl) in E1. replace (S max) with (max + 1) in E1 by lia. unfold total_error. lra.
    - intros i Hi. destruct (BD i Hi) as [B1 B2]. split; [exact B1|]. split; [exact B2|]. intros X. exact (E3 HM X i Hi). }
  destruct HC as [HC|[-> HC]].
  2:{ apply PW. destruct (@C69_v4 rows degrees ranks (17 # 20)%Q thr max thread (pr_sched s) IN LD' LK HC) as (out & X). exists out. exact X. }
  cbn [In] in HC. repeat (destruct HC as [<-|HC]); [| | | | | | | | | | |destruct HC].
  - apply PW, C69_v1; auto.
  - destruct (@C69_v2 rows degrees ranks (17 # 20)%Q thr max x IN LD' LK HN P) as (out & y & E & L & SY & LI & C1 & BD & CV). exists y. rewrite E. cbn [ranks_of bind].
    split; [rewrite (@scores_list (length rows) out y); auto; lia|]. assert (SW : 0 < o_sweeps out).
    { unfold page_rank_v2 in E. apply xpr_loop_sweeps in E. destruct max; [lia|]. cbn [Nat.eqb] in E. lia. }
    destruct (BD SW) as [_ BD']. cbn [quality]. split.
    + destruct (o_conv out) eqn:EC.
      * destruct (CV eq_refl) as [X|X]; [now left|right; left]. unfold total_error. lra.
      * right. right. intros i Hi. destruct (BD' i Hi) as (_ & _ & X). rewrite (C1 eq_refl) in X. exact X.
    + intros i Hi. destruct (BD' i Hi) as (X & Y & _). auto.
  - exact (RES _ (or_introl eq_refl)).
  - apply PW, C69_v789; auto.
  - apply PW, C69_v789; auto.
  - apply PW, C69_v789; auto.
  - apply PW, C69_v10; auto. lia.
  - exact (@async_quality rows degrees ranks thr max (pr_sched s) x IN LD' LK P).
  - destruct (Qlt_le_dec thr (1 / qn (length rows))) as [T|T].
    + destruct (@C69_v12 rows degrees ranks (17 # 20)%Q thr max (pr_sched s) IN LD' ltac:(lia) HT HM) as (out & y & E & L & SY & _ & _ & LB & _).
      exists y. rewrite E. cbn [ranks_of bind]. split; [rewrite (@scores_list (length rows) out y); auto; lia|]. cbn [quality]. intros i Hi. split; [exact (LB i Hi)|]. intros X. exfalso. lra.
    + destruct (@C69_v12_flat rows degrees ranks (17 # 20)%Q thr max (pr_sched s) IN LD' ltac:(lia) HN T HM) as (out & y & E & L & SY & FL & _).
      exists y. rewrite E. cbn [ranks_of bind]. split; [rewrite (@scores_list (length rows) out y); auto; lia|]. cbn [quality]. intros i Hi. assert (X := FL i Hi).
      change (1 - (17 # 20))%Q with (3 # 20)%Q in X. split; [rewrite X; apply Qle_refl|auto].
  - exact (RES _ (or_intror eq_refl)).
  - unfold page_rank_v14. destruct (@async_quality rows degrees ranks thr max (pr_sched s) x IN LD' LK P) as (y & E & Q). exists y. split; [|exact Q].
    destruct (page_rank _ _ _ _ _ _ _); cbn [bind fst ranks_of] in *; auto.
Qed.

(** Version 6 is undefined in any case: it has an edge range of its own. *)
Theorem C83_v6 : forall W zsrt srt1 n es thread s thr max, bb_env W n es zsrt ->
  exists g, prb_graph W zsrt srt1 (el_build W n es) = Ok g /\ forall degrees ranks, prb_version thr max 6 thread s g degrees ranks = Ub.
Proof.
  intros W zsrt srt1 n es thread s thr max (HZ & Hn & He & HL). destruct (@prb_rows W zsrt srt1 n es HZ Hn He HL) as (g & rows & EG & _ & IT & ER & _).
  exists g. split; auto. intros. unfold prb_version. rewrite ER. cbn [bind]. rewrite IT. reflexivity.
Qed.
(** Versions 0, 5 and those above 14 leave rankings as they are; with --verify the scores printed for them are those of the version
    before, or zeros. *)
Definition verified srt (verify : bool) (ranks : list num) : res (list num * list (list (nat * Q))) :=
  if verify then do p <- print_n_ranks srt ranks ; Ok (ranks, [p]) else Ok (ranks, []).
Theorem C83_unknown : forall W zsrt srt1 n es id thread s thr max srt verify trials, bb_env W n es zsrt -> id = 0 \/ id = 5 \/ 14 < id ->
  exists g, prb_graph W zsrt srt1 (el_build W n es) = Ok g /\ forall degrees ranks, prb_config thr max srt verify trials g degrees (thread, id, s) ranks = verified srt verify ranks.
Proof.
  intros W zsrt srt1 n es id thread s thr max srt verify trials (HZ & Hn & He & HL) HI. destruct (@prb_rows W zsrt srt1 n es HZ Hn He HL) as (g & rows & EG & _ & _ & ER & _).
  exists g. split; auto. intros degrees ranks. unfold prb_config.
  assert (V : forall j, prb_version thr max id thread (s j) g degrees ranks = Ok ranks).
  { intros j. unfold prb_version. rewrite ER. cbn [bind]. destruct HI as [->|[->|HI]]; auto. do 15 (destruct id as [|id]; [lia|]). reflexivity. }
  assert (F : rfold (fun r j => prb_version thr max id thread (s j) g degrees r) (seq 0 trials) ranks = Ok ranks).
  { induction (seq 0 trials) as [|j l IH]; [reflexivity|]. cbn [rfold]. rewrite V. exact IH. }
  rewrite F. reflexivity.
Qed.
(** Version 4 without threads: every score is 1 over the number of vertices. *)
Theorem C83_no_threads : forall W zsrt srt1 n es s thr max, bb_env W n es zsrt -> let N := el_num_vertices (el_build W n es) in (0 < thr)%Q -> 0 < max ->
  exists g, prb_graph W zsrt srt1 (el_build W n es) = Ok g /\ forall degrees ranks, length degrees = N -> length ranks = N ->
    prb_version thr max 4 0 s g degrees ranks = Ok (score_list N (fun _ => 1 / qn N)%Q).
Proof.
  intros W zsrt srt1 n es s thr max (HZ & Hn & He & HL) N HT HM. destruct (@prb_rows W zsrt srt1 n es HZ Hn He HL) as (g & rows & EG & _ & _ & ER & LR & _). fold N in LR.
  exists g. split; auto. intros degrees ranks LD LK. unfold prb_version. rewrite ER. cbn [bind].
  destruct (@C69_v4_no_threads rows degrees ranks prb_damping thr max (pr_sched s) ltac:(lia) HT HM) as (out & -> & _ & _ & L & H). rewrite LK in H, L. cbn [ranks_of bind].
  rewrite (@scores_list N out _ H L). reflexivity.
Qed.
(** Version 12: when the run passed its test, the error is bounded by the tolerance times the number of arcs. *)
Theorem C83_v12 : forall W zsrt srt1 n es thread s thr max, bb_env W n es zsrt -> let N := el_num_vertices (el_build W n es) in (0 <= thr)%Q -> 0 < max ->
  exists g rows, prb_graph W zsrt srt1 (el_build W n es) = Ok g /\ csr_rows g = Ok rows /\
  forall degrees ranks x, out_degrees es N degrees -> length ranks = N -> file_pagerank (17 # 20) N es x ->
    exists out y, page_rank_v12 rows degrees ranks (17 # 20) thr max (pr_sched s) = Ok out /\ prb_version thr max 12 thread s g degrees ranks = Ok (score_list N y) /\ scores N out y /\
      (o_conv out = true -> (3 * total_error N y x <= 17 * thr * qn (1 + length es))%Q).
Proof.
  intros W zsrt srt1 n es thread s thr max (HZ & Hn & He & HL) N HT HM. destruct (@prb_rows W zsrt srt1 n es HZ Hn He HL) as (g & rows & EG & _ & _ & ER & LR & B & K). fold N in LR, B, K.
  exists g, rows. split; auto. split; auto. intros degrees ranks x (LD & D) LK P.
  apply (@file_eq es rows N LR B K (fun u => nth u degrees 0) (17 # 20)%Q x D) in P.
  assert (IN := @file_input es rows N LR B K (fun u => nth u degrees 0) (17 # 20)%Q D ltac:(lra) ltac:(lra)).
  destruct (@C69_v12 rows degrees ranks (17 # 20)%Q thr max (pr_sched s) IN ltac:(lia) ltac:(lia) HT HM) as (out & y & E & L & SY & _ & _ & _ & CV).
  exists out, y. split; auto. unfold prb_version. rewrite ER. cbn [bind]. unfold prb_damping. rewrite E. cbn [ranks_of bind]. rewrite LR in SY.
  split; [rewrite (@scores_list N out y SY); auto; lia|]. split; auto. intros C. specialize (CV C x P).
  assert (M : list_sum (map (@length nat) rows) = length es).
  { rewrite (@rows_seq rows N LR), map_map.
    transitivity (list_sum (map (fun u => length (filter (fun e : uedge => etgt e =? u) es)) (seq 0 N))).
    - f_equal. apply map_ext_in. intros u I. apply in_seq in I. rewrite (Permutation_length (K u ltac:(lia))), map_length. reflexivity.
    - clearbody N. clear -B. induction es as [|e l IH].
      + cbn [filter length]. induction (seq 0 N) as [|u m IHm]; [reflexivity|exact IHm].
      + assert (BL : forall e0, In e0 l -> esrc e0 < N /\ etgt e0 < N) by (intros; apply B; now right). specialize (IH BL). cbn [length]. rewrite <- IH. assert (L : etgt e < N) by (apply B; now left). clear -L.
        assert (X : forall m, NoDup m -> list_sum (map (fun u => length (filter (fun e0 : uedge => etgt e0 =? u) (e :: l))) m)
          = (if in_dec Nat.eq_dec (etgt e) m then 1 else 0) + list_sum (map (fun u => length (filter (fun e0 : uedge => etgt e0 =? u) l)) m)).
        { induction m as [|u m IHm]; intros ND; [reflexivity|]. inversion ND as [|? ? NI ND']; subst. specialize (IHm ND'). unfold list_sum in *. cbn [map fold_right]. rewrite IHm. cbn [filter].
          destruct (in_dec Nat.eq_dec (etgt e) (u :: m)) as [J|J], (in_dec Nat.eq_dec (etgt e) m) as [J'|J'].
          - assert (etgt e =? u = false) as -> by (apply Nat.eqb_neq; intros Q; subst u; auto). lia.
          - destruct J as [J|J]; [|easy]. subst u. rewrite Nat.eqb_refl. cbn [length]. lia.
          - destruct J. now right.
          - assert (etgt e =? u = false) as -> by (apply Nat.eqb_neq; intros Q; apply J; now left). lia. }
        rewrite (X _ (seq_NoDup N 0)). destruct (in_dec Nat.eq_dec (etgt e) (seq 0 N)) as [J|J]; [lia|]. destruct J. apply in_seq. lia. }
  rewrite M, LR in CV. unfold total_error. lra.
Qed.

(** print_n_ranks prints the ten best vertices of at least ten, and reads past the end of the permutation when there are fewer. *)
Theorem C83_print : forall x srt, (forall lt, lt = rank_gt x -> is_sort_lt lt (srt lt)) ->
  (10 <= length x -> exists l, print_n_ranks srt (map Some x) = Ok l /\ ten_best x l) /\ (length x < 10 -> print_n_ranks srt (map Some x) = Ub).
Proof. intros x srt H. split; [now apply print_ok|]. intros L. apply print_few; auto. Qed.

(** The loops over the thread counts, the versions and the trials: for a file with at least ten vertices and versions that compute
    scores the whole run after the degrees is defined, and what is printed for each of them are the ten best of scores as in
    [C83_scores] - nothing of the versions before it. With fewer vertices --verify is undefined. *)
Definition runs_of (threads ids : list nat) : list (nat * nat) := flat_map (fun t => map (fun i => (t, i)) ids) threads.
Lemma configs_ok : forall W zsrt srt1 n es thr max srt trials threads ids s, bb_env W n es zsrt -> let N := el_num_vertices (el_build W n es) in
  0 < N -> 0 < max -> 0 < trials -> (0 <= thr)%Q -> (forall t i j, run_ok N (s t i j)) -> (forall t i, In t threads -> In i ids -> computes i t) -> (forall x : list Q, is_sort_lt (rank_gt x) (srt (rank_gt x))) ->
  exists g, prb_graph W zsrt srt1 (el_build W n es) = Ok g /\ forall degrees x, out_degrees es N degrees -> file_pagerank (17 # 20) N es x ->
    (10 <= N -> exists r outs, prb_configs thr max srt true trials g degrees threads ids s = Ok (r, outs) /\
       Forall2 (fun ti out => exists y, quality N (snd ti) max thr x y /\ ten_best (map y (seq 0 N)) out) (runs_of threads ids) outs) /\
    (N < 10 -> runs_of threads ids <> [] -> prb_configs thr max srt true trials g degrees threads ids s = Ub).
Proof.
  intros W zsrt srt1 n es thr max srt trials threads ids s HE N HN HM HTR HT HR HC HS.
  assert (HE' := HE). destruct HE' as (HZ & Hn & He & HL). destruct (@prb_rows W zsrt srt1 n es HZ Hn He HL) as (g & rows & EG & SZ & _). fold N in SZ.
  exists g. split; auto. intros degrees x D P.
  assert (ONE : forall t i ranks, computes i t -> length ranks = N -> exists y, rfold (fun r j => prb_version thr max i t (s t i j) g degrees r) (seq 0 trials) ranks = Ok (score_list N y) /\ quality N i max thr x y).
  { intros t i ranks C LK. assert (V : forall j r, length r = N -> exists y, prb_version thr max i t (s t i j) g degrees r = Ok (score_list N y) /\ quality N i max thr x y).
    { intros j r LR. destruct (@C83_scores W zsrt srt1 n es i t (s t i j) thr max HE HN HM HT (HR t i j) C) as (g' & EG' & _ & X). rewrite EG in EG'. injection EG' as <-. now apply X. }
    destruct trials as [|m]; [lia|]. cbn [seq rfold]. destruct (V 0 ranks LK) as (y & E & Q). rewrite E. cbn [bind]. clear E HTR. revert y Q. induction (seq 1 m) as [|j l IH]; intros y Q.
    - exists y. auto.
    - cbn [rfold]. destruct (V j (score_list N y)) as (y' & E & Q'); [unfold score_list; now rewrite !map_length, seq_length|]. rewrite E. cbn [bind]. now apply IH. }
  assert (LS : forall y, length (score_list N y) = N) by (intros; unfold score_list; now rewrite !map_length, seq_length).
  assert (SRT : forall x lt, lt = rank_gt x -> is_sort_lt lt (srt lt)) by (intros ? ? ->; apply HS).
  assert (FM : flat_map (fun t => map (fun i => (t, i, s t i)) ids) threads = map (fun ti => (fst ti, snd ti, s (fst ti) (snd ti))) (runs_of threads ids)).
  { unfold runs_of. clear. induction threads as [|t l IH]; [reflexivity|]. cbn [flat_map]. rewrite IH, map_app, map_map. reflexivity. }
  assert (CR : forall ti, In ti (runs_of threads ids) -> computes (snd ti) (fst ti)).
  { intros ti I. unfold runs_of in I. apply in_flat_map in I. destruct I as (t & It & I). apply in_map_iff in I. destruct I as (i & <- & Ii). now apply HC. }
  unfold prb_configs. rewrite FM, SZ. clear FM. generalize dependent (runs_of threads ids). intros runs CR.
  assert (LZ : length (repeat (Some 0%Q : num) N) = N) by apply repeat_length. revert LZ. generalize (repeat (Some 0%Q : num) N). intros r0 LZ. split.
  - intros H10.
    assert (X : forall runs r0 outs0, (forall ti, In ti runs -> computes (snd ti) (fst ti)) -> length r0 = N -> exists r outs,
      rfold (fun st c => do r <- prb_config thr max srt true trials g degrees c (fst st) ; Ok (fst r, snd st ++ snd r)) (map (fun ti => (fst ti, snd ti, s (fst ti) (snd ti))) runs) (r0, outs0) = Ok (r, outs0 ++ outs) /\
      Forall2 (fun ti out => exists y, quality N (snd ti) max thr x y /\ ten_best (map y (seq 0 N)) out) runs outs).
    { clear CR r0 LZ runs. induction runs as [|ti runs IH]; intros r0 outs0 C L0.
      - exists r0, []. cbn [map rfold]. rewrite app_nil_r. split; [reflexivity|constructor].
      - cbn [map rfold]. unfold prb_config at 1. cbn [fst snd]. destruct (ONE (fst ti) (snd ti) r0 (C ti (or_introl eq_refl)) L0) as (y & E & Q). rewrite E. cbn [bind].
        destruct (@print_ok (map y (seq 0 N)) srt (SRT _)) as (l & EP & TB); [rewrite map_length, seq_length; exact H10|]. unfold score_list at 1. rewrite EP. cbn [bind fst snd].
        destruct (IH (score_list N y) (outs0 ++ [l]) (fun t I => C t (or_intror I)) (LS y)) as (r & outs & EF & F). exists r, (l :: outs). split; [|constructor; eauto].
        rewrite EF, <- app_assoc. reflexivity. }
    destruct (X runs r0 [] CR LZ) as (r & outs & E & F). exists r, outs. split; auto.
  - intros H10 NE. destruct runs as [|ti runs]; [congruence|]. cbn [map rfold]. unfold prb_config at 1. cbn [fst snd].
    destruct (ONE (fst ti) (snd ti) r0 (CR ti (or_introl eq_refl)) LZ) as (y & E & _). rewrite E. cbn [bind]. unfold score_list. rewrite print_few; [reflexivity|apply HS|rewrite map_length, seq_length; exact H10].
Qed.

Theorem C83_runs : forall W zsrt srt1 n es thr iters srt trials threads ids s, bb_env W n es zsrt -> let N := el_num_vertices (el_build W n es) in let max := if iters =? 0 then 1 else iters in
  0 < N -> (0 <= thr)%Q -> (forall t i j, run_ok N (s t i j)) -> (forall t i, In t threads -> In i ids -> computes i t) -> (forall x : list Q, is_sort_lt (rank_gt x) (srt (rank_gt x))) ->
  exists g, prb_graph W zsrt srt1 (el_build W n es) = Ok g /\ forall degrees x, out_degrees es N degrees -> file_pagerank (17 # 20) N es x ->
    (10 <= N -> exists r outs, prb_rest thr iters srt true trials g degrees threads ids s = Ok (r, outs) /\
       Forall2 (fun ti out => exists y, quality N (snd ti) max thr x y /\ ten_best (map y (seq 0 N)) out) (runs_of threads ids) outs) /\
    (N < 10 -> runs_of threads ids <> [] -> prb_rest thr iters srt true trials g degrees threads ids s = Ub).
Proof.
  intros W zsrt srt1 n es thr iters srt trials threads ids s HE N max HN HT HR HC HS. apply configs_ok; auto; [unfold max; destruct iters; cbn; lia|destruct trials; cbn; lia].
Qed.

(** ** Example: ten vertices, 0 -> 1, 0 -> 2, 1 -> 2, 2 -> 0 and an arc from 2 to each of 3 .. 9 *)
Definition prb_es : list uedge := ex_u 0 1 :: ex_u 0 2 :: ex_u 1 2 :: ex_u 2 0 :: map (ex_u 2) (seq 3 7).
Definition prb_s : prb_run := mkPrr (fun _ i => 3 * i + 1) (fun _ => [[9; 8]; seq 0 8]) (fun _ _ l => (rev l, SN 1 SL SL)) (fun _ => SLeaf) (fun _ => rev (seq 0 10)) (fun _ => seq 0 10).
Definition prb_deg : list nat := [2; 1; 8; 0; 0; 0; 0; 0; 0; 0].
Example C83_ex_hyps : bb_env 256 0 prb_es (isort_by fst) /\ el_num_vertices (el_build 256 0 prb_es) = 10 /\ run_ok 10 prb_s /\ out_degrees prb_es 10 prb_deg /\
  forall x, is_sort_lt (rank_gt x) (BuildProperties.sort_cmp (rank_gt x)).
Proof.
  split; [|split; [|split; [|split]]].
  - split; [apply isort_by_is_sort|]. split; [lia|]. split; [|cbn; lia]. intros e I. cbn in I. repeat (destruct I as [<-|I]; [cbn; lia|]). destruct I.
  - reflexivity.
  - split; [|split; [|split]]; intros; cbn [pr_parts pr_arr pr_src pr_dst prb_s fst].
    + change (Permutation ([9; 8] ++ seq 0 8 ++ []) (seq 0 10)). rewrite app_nil_r. change (seq 0 10) with (seq 0 8 ++ [8; 9]). rewrite Permutation_app_comm. apply Permutation_app_head. constructor.
    + apply Permutation_sym, Permutation_rev.
    + apply Permutation_sym, Permutation_rev.
    + reflexivity.
  - split; [reflexivity|]. intros u L. do 10 (destruct u as [|u]; [reflexivity|]). lia.
  - exact rank_gt_legal.
Qed.
Definition prb_ex (max id : nat) : res (list num) :=
  do g <- prb_graph 256 (isort_by fst) (fun l => l) (el_build 256 0 prb_es) ; prb_version (1 # 10000) max id 2 prb_s g prb_deg (repeat None 10).
Definition firsts (r : res (list num)) : option (list (option Q)) := match r with Ok l => Some (map red (firstn 4 l)) | _ => None end.
Example C83_ex :
  firsts (prb_ex 1 1) = Some [Some (41 # 1600); Some (23 # 400); Some (57 # 400); Some (41 # 1600)]%Q /\
  firsts (prb_ex 1 8) = firsts (prb_ex 1 1) /\ firsts (prb_ex 1 4) = firsts (prb_ex 1 1) /\ firsts (prb_ex 1 10) = firsts (prb_ex 1 1) /\
  prb_ex 1 6 = Ub /\ prb_ex 1 5 = Ok (repeat None 10) /\ prb_ex 1 15 = Ok (repeat None 10).
Proof. vm_compute. repeat split. Qed.
Example C83_ex_runs :
  match (do g <- prb_graph 256 (isort_by fst) (fun l => l) (el_build 256 0 prb_es) ; prb_configs (1 # 10000) 2 (@BuildProperties.sort_cmp nat) true 2 g prb_deg [1; 2] [11; 0] (fun _ _ _ => prb_s)) with
  | Ok (_, outs) => map (map fst) outs = repeat [2; 0; 3; 4; 5; 6; 7; 8; 9; 1] 4
  | _ => False
  end.
Proof. vm_compute. reflexivity. Qed.
Print Assumptions C83_undefined.
Print Assumptions C83_degrees.
Print Assumptions C83_solution.
Print Assumptions C83_scores.
Print Assumptions C83_v6.
Print Assumptions C83_unknown.
Print Assumptions C83_no_threads.
Print Assumptions C83_v12.
Print Assumptions C83_print.
Print Assumptions C83_runs.
