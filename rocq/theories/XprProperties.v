(** C69: the experimental versions of PageRank (experimental/algorithms/page_rank.hpp).  The specification is the power
    iteration at the head of XprProofs.v, and the PageRank equations of PageRankLib.v. *)
From Coq Require Import List Arith ZArith QArith Qabs Lqa Lia Bool Permutation.
From Verif Require Import Base Pool RangeModel PforModel PageRankModel PageRankLib PageRankProofs PageRankProperties XprModel XprProofs Xpr2Proofs Xpr3Proofs Xpr4Proofs.
Import ListNotations.
Set Implicit Arguments.
Local Open Scope nat_scope.

Notation dist g y a := (qs (length g) (fun i => Qabs (y i - a i))%Q).

(** ** The power iteration: v1, vc, v4, v6, v7, v8, v9, v10 *)
(** Its results: after k iterations the total error is at most 2 d^k; a run that passed the test is within d thr / (1-d) of
    the solution; and the test is passed by iteration m+1 when 2 d^(m+1) is below the threshold. *)
Theorem C69_power_guarantee : forall g deg d thr max out y, pr_input g deg d -> power_result g deg d thr max out -> scores (length g) out y ->
  o_sweeps out <= max /\ (o_conv out = false -> o_sweeps out = max) /\
  (forall x, pagerank g deg d x -> (dist g y x <= 2 * qpow d (o_sweeps out))%Q) /\
  (o_conv out = true -> (dist g y (pr_rhs g deg d y) <= d * thr)%Q /\ forall x, pagerank g deg d x -> ((1 - d) * dist g y x <= d * thr)%Q) /\
  (forall m, m < max -> (2 * d * qpow d m < thr)%Q -> o_conv out = true /\ o_sweeps out <= S m).
Proof.
  intros g deg d thr max out y IN ((y' & SC' & EY) & RS) SC.
  assert (Y : forall i, i < length g -> (y i == power g deg d (o_sweeps out) i)%Q).
  { intros i Hi. assert (X := SC' i Hi). rewrite (SC i Hi) in X. assert (y i = y' i) by congruence. rewrite H. auto. }
  assert (D0 := pi_d0 IN). assert (D1 := pi_d1 IN).
  split; [destruct (o_conv out); [destruct RS as (k & -> & H & _); lia|destruct RS as (-> & _); lia]|].
  split; [intros CV; rewrite CV in RS; apply RS|]. split; [|split].
  - intros x P. rewrite (dist_ext g y (power g deg d (o_sweeps out)) x x Y (fun _ _ => Qeq_refl _)).
    eapply Qle_trans; [apply (power_dist IN P)|]. assert (A := start_dist IN P). assert (B := @qpow_nn d (o_sweeps out) D0). cbv beta in A. nra.
  - intros CV. rewrite CV in RS. destruct RS as (k & ES & HK & CH & _).
    assert (RD : (dist g y (pr_rhs g deg d y) <= d * thr)%Q).
    { rewrite (dist_ext g y (power g deg d (S k)) _ (power g deg d (S (S k)))); [|intros i Hi; rewrite <- ES; auto|].
      - cbn [power]. eapply Qle_trans; [apply (rhs_contract IN)|]. apply (dmul IN). fold (power g deg d k) in *. unfold change in CH. rewrite (qs_ext _ (fun i => Qabs (power g deg d (S k) i - power g deg d k i)%Q)); [lra|]. intros i Hi. cbn [power]. rewrite Qabs_Qminus. reflexivity.
      - intros i Hi. cbn [power]. apply rhs_ext; [apply IN|]. intros j Hj. rewrite (Y j Hj), ES. reflexivity. }
    split; auto. intros x P. eapply Qle_trans; [exact (res_dist IN y P)|exact RD].
  - intros m HM TM. assert (CM : (change g deg d m < thr)%Q).
    { eapply Qle_lt_trans; [apply (change_dist IN)|]. assert (A := change_0 IN). assert (B := @qpow_nn d m D0). assert (C : (qpow d m * change g deg d 0 <= qpow d m * (2 * d))%Q) by nra. lra. }
    destruct (o_conv out); [|destruct RS as (_ & H); assert (X := H m HM); lra]. destruct RS as (k & -> & HK & _ & H). split; auto.
    destruct (Nat.le_gt_cases k m) as [|GT]; [lia|]. assert (X := H m GT). lra.
Qed.
(** With a positive threshold there is a number of iterations after which the test has been passed. *)
Theorem C69_power_stops : forall g deg d thr, pr_input g deg d -> (0 < thr)%Q ->
  exists m, forall max out, m < max -> power_result g deg d thr max out -> o_conv out = true /\ o_sweeps out <= S m.
Proof.
  intros g deg d thr IN T. destruct (@qpow_small_d g deg d IN ((1 # 2) * thr)%Q) as (m & H); [lra|]. exists m. intros max out HM R.
  destruct R as ((y & SC & EY) & RS). destruct (@C69_power_guarantee g deg d thr max out y IN (conj (ex_intro _ y (conj SC EY)) RS) SC) as (_ & _ & _ & _ & X). apply X; auto.
  assert (D0 := pi_d0 IN). assert (D1 := pi_d1 IN). assert (B := @qpow_nn d m D0). nra.
Qed.

(** The sequential version. *)
Theorem C69_v1 : forall g deg ranks d thr max, pr_input g (fun j => nth j deg 0) d -> length g <= length deg -> length ranks = length g ->
  exists out, page_rank_v1 g deg ranks d thr max = Ok out /\ power_result g (fun j => nth j deg 0) d thr max out /\ length (o_rank out) = length ranks.
Proof.
  intros g deg ranks d thr max IN LD LR. unfold page_rank_v1. rewrite LR. apply xpr_fill; auto; [apply IN|]. intros k st a H. apply (jac_sweep_ok _ IN LD); auto; try (intros; apply Permutation_refl). cbn [concat]. rewrite app_nil_r. apply Permutation_refl.
Qed.

Lemma power_deg g deg deg' d : (forall i j, In j (nth i g []) -> deg j = deg' j) -> forall k i, power g deg d k i = power g deg' d k i.
Proof.
  intros H. induction k as [|k IH]; intros i; cbn [power]; auto. unfold pr_rhs. do 3 f_equal. apply map_ext_in. intros j I. unfold share. rewrite IH, (H i j I). reflexivity.
Qed.
(** vc counts the degrees itself: the graph must be the transposed one. *)
Theorem C69_vc : forall g ranks d thr max, (forall i j, In j (nth i g []) -> j < length g) -> (0 <= d)%Q -> (d < 1)%Q -> length ranks = length g ->
  exists out, page_rank_vc g ranks d thr max = Ok out /\ power_result g (occ g) d thr max out /\ length (o_rank out) = length ranks.
Proof.
  intros g ranks d thr max TG D0 D1 LR. unfold page_rank_vc. rewrite LR. destruct (@count_deg_ok g (length g)) as (dg & E & LD & HD).
  { intros j I. apply in_concat in I. destruct I as (row & I1 & I2). destruct (In_nth _ _ [] I1) as (i & Hi & <-). exact (TG i j I2). }
  rewrite E. cbn [bind].
  assert (IN : pr_input g (fun j => nth j dg 0) d) by (constructor; auto; intros j Hj; rewrite HD; auto).
  destruct (@xpr_fill g (fun j => nth j dg 0) d thr TG (fun _ => jac_sweep g dg (size_base (length g) d) d (length g) [seq 0 (length g)] in_order (fun _ => 0)) ranks max LR) as (out & E2 & R & LO).
  - intros k st a H. apply (jac_sweep_ok _ IN); auto; try lia; try (intros; apply Permutation_refl). cbn [concat]. rewrite app_nil_r. apply Permutation_refl.
  - exists out. split; auto. split; auto. assert (PE : forall k i, power g (fun j => nth j dg 0) d k i = power g (occ g) d k i) by (apply power_deg; intros i j I; apply HD; eauto).
    assert (CE : forall k, (change g (fun j => nth j dg 0%nat) d k == change g (occ g) d k)%Q) by (intros k; apply qs_ext; intros i Hi; rewrite !PE; reflexivity).
    destruct R as ((y & SC & EY) & RS). split.
    + exists y. split; auto. intros i Hi. rewrite <- PE. auto.
    + destruct (o_conv out).
      * destruct RS as (k & A & B & C & D). exists k. split; auto. split; auto. split; [rewrite <- CE; auto|]. intros m Hm. rewrite <- CE. auto.
      * destruct RS as (A & B). split; auto. intros m Hm. rewrite <- CE. auto.
Qed.

(** The version with its own threads, whatever their order. *)
Theorem C69_v4 : forall g deg ranks d thr max T sched, pr_input g (fun j => nth j deg 0) d -> length g <= length deg -> length ranks = length g -> 0 < T ->
  exists out, page_rank_v4 g deg ranks d thr max T sched = Ok out /\ power_result g (fun j => nth j deg 0) d thr max out /\ length (o_rank out) = length ranks.
Proof.
  intros g deg ranks d thr max T sched IN LD LR T0. unfold page_rank_v4. rewrite LR. apply xpr_fill; auto; [apply IN|]. intros k st a H. apply (jac_sweep_ok _ IN LD); auto; try (intros; apply Permutation_refl). now apply strided_parts.
Qed.
(** Without threads no score is computed: the run passes the test at once, with the initial value everywhere. *)
Theorem C69_v4_no_threads : forall g deg ranks d thr max sched, length ranks <= length deg -> (0 < thr)%Q -> 0 < max ->
  exists out, page_rank_v4 g deg ranks d thr max 0 sched = Ok out /\ o_conv out = true /\ o_sweeps out = 1 /\ length (o_rank out) = length ranks /\
    forall i, i < length ranks -> nth_error (o_rank out) i = Some (Some (1 / qn (length ranks))%Q).
Proof.
  intros g deg ranks d thr max sched LD T MX. unfold page_rank_v4. destruct max as [|max]; [lia|]. cbn [xpr_loop seq map]. unfold jac_sweep.
  assert (E : exists o, contribs deg (length ranks) (fill_init ranks) = Ok o).
  { unfold contribs. assert (X : forall l, (forall i, In i l -> i < length ranks) -> exists o, rmap (fun i => do p <- vget (fill_init ranks) i ; do n <- vget deg i ; Ok (odivn p n)) l = Ok o).
    { induction l as [|i l IH]; intros H; cbn [rmap]; [eauto|]. destruct IH as (o & E); [intros; apply H; now right|]. assert (Hi := H i (or_introl eq_refl)).
      rewrite (@vget_nth _ (fill_init ranks) i None) by (unfold fill_init; now rewrite map_length). cbn [bind]. rewrite (@vget_nth _ deg i 0) by lia. cbn [bind]. rewrite E. cbn [bind]. eauto. }
    apply X. intros i I. apply in_seq in I. lia. }
  destruct E as (o & E). cbn [start pr_rank]. rewrite E. cbn [bind sum map length Nat.add run pr_err]. unfold oltb.
  assert (EB : negb (Qle_bool thr 0) = true). { destruct (Qle_bool thr 0) eqn:B; auto. apply Qle_bool_iff in B. lra. }
  rewrite EB. eexists. split; [reflexivity|]. cbn [o_conv o_sweeps o_rank pr_rank]. unfold fill_init. rewrite map_length. repeat split; auto.
  intros i Hi. destruct (nth_error ranks i) as [a|] eqn:N; [|apply nth_error_None in N; lia]. rewrite (map_nth_error _ _ _ N). destruct (length ranks) as [|n0] eqn:L; [lia|]. reflexivity.
Qed.

(** The version that sums by edges: the range may be split in any way and z[i] += c need not be atomic. *)
Theorem C69_v6 : forall g deg ranks d thr max trees sched, pr_input g (fun j => nth j deg 0) d -> length g <= length deg -> length ranks = length g ->
  exists out, page_rank_v6 g deg ranks d thr max trees sched = Ok out /\ power_result g (fun j => nth j deg 0) d thr max out /\ length (o_rank out) = length ranks.
Proof.
  intros g deg ranks d thr max trees sched IN LD LR. unfold page_rank_v6. rewrite LR. apply xpr_fill; auto; [apply IN|]. intros k. now apply v6_sweep_ok.
Qed.

(** v7, v8, v9: the vertices handed out in any way, the rows summed in any bracketing (and order). *)
Theorem C69_v789 : forall g deg ranks d thr max parts arr sched, pr_input g (fun j => nth j deg 0) d -> length g <= length deg -> length ranks = length g ->
  (forall k, Permutation (concat (parts k)) (seq 0 (length g))) -> (forall k i l, Permutation (fst (arr k i l)) l) ->
  exists out, page_rank_v789 g deg ranks d thr max parts arr sched = Ok out /\ power_result g (fun j => nth j deg 0) d thr max out /\ length (o_rank out) = length ranks.
Proof.
  intros g deg ranks d thr max parts arr sched IN LD LR PP PA. unfold page_rank_v789. rewrite LR. apply xpr_fill; auto; [apply IN|]. intros k st a H. apply (jac_sweep_ok _ IN LD); auto; try (intros; apply Permutation_refl).
Qed.

(** v10 accepts a longer array. *)
Theorem C69_v10 : forall g deg ranks d thr max parts sched, pr_input g (fun j => nth j deg 0) d -> length g <= length deg -> length g <= length ranks ->
  (forall k, Permutation (concat (parts k)) (seq 0 (length g))) ->
  exists out, page_rank_v10 g deg ranks d thr max parts sched = Ok out /\ power_result g (fun j => nth j deg 0) d thr max out /\ length (o_rank out) = length ranks.
Proof.
  intros g deg ranks d thr max parts sched IN LD LR PP. unfold page_rank_v10.
  destruct (@init_ranks (odivn (Some 1%Q) (length g)) (length g) 0 ranks LR) as (r0 & E & L0 & H0). rewrite E. cbn [bind].
  apply (@xpr_loop_ok g (fun j => nth j deg 0) d thr (pi_tgt IN) (length ranks) _) with (a := fun _ => (1 / qn (length g))%Q).
  - intros k st a H. apply (jac_sweep_ok _ IN LD); auto; try (intros; apply Permutation_refl).
  - split; cbn [start pr_rank]; auto. intros i Hi. rewrite H0. cbn [Nat.leb Nat.add andb]. apply Nat.ltb_lt in Hi. rewrite Hi. apply Nat.ltb_lt in Hi. destruct (length g) eqn:LG; [lia|reflexivity].
  - intros i Hi. reflexivity.
  - lia.
Qed.

(** An array longer than the graph: these versions take its length for the number of vertices and read past the graph. *)
Lemma row_sum_cases out t : forall l, row_sum out t l = Ub \/ exists z, row_sum out t l = Ok z.
Proof.
  induction t as [|k a IHa b IHb]; intros l; cbn [row_sum].
  - generalize (Some 0%Q : num). induction l as [|j l IH]; intros z; cbn [rfold]; [eauto|]. unfold vget. destruct (nth_error out j); cbn [bind]; auto.
  - destruct (IHa (firstn k l)) as [->|(x & ->)]; cbn [bind]; auto. destruct (IHb (skipn k l)) as [->|(y & ->)]; cbn [bind]; eauto.
Qed.
Lemma jac_sweep_ub g deg base d N parts arr sched st i : In i (concat parts) -> length g <= i -> jac_sweep g deg base d N parts arr sched st = Ub.
Proof.
  intros I Hi. unfold jac_sweep. assert (C : contribs deg N (pr_rank st) = Ub \/ exists o, contribs deg N (pr_rank st) = Ok o).
  { unfold contribs. induction (seq 0 N) as [|k l IH]; cbn [rmap]; [eauto|]. unfold vget. destruct (nth_error (pr_rank st) k); cbn [bind]; auto. destruct (nth_error deg k); cbn [bind]; auto. unfold vget in IH. destruct IH as [->|(o' & ->)]; cbn [bind]; eauto. }
  destruct C as [->|(o & ->)]; cbn [bind]; auto.
  apply (@run_ub (list nat) prst _ (@length nat) (fun ts _ => In i (concat ts))); auto.
  intros l1 t l2 s H. destruct t as [|x t]; cbn [for_step].
  - right. exists None, s. split; auto. rewrite concat_app in H. cbn [concat app] in H. cbn [opt_list app]. rewrite concat_app. auto.
  - assert (JC : jac_vertex g base d arr x s = Ub \/ exists s', jac_vertex g base d arr x s = Ok s' /\ x < length g).
    { unfold jac_vertex, vget, vset. destruct (nth_error g x) as [row|] eqn:EX; cbn [bind]; auto. destruct (arr x row) as [l tr]. destruct (row_sum_cases (pr_out s) tr l) as [->|(z & ->)]; cbn [bind]; auto.
      destruct (nth_error (pr_rank s) x); cbn [bind]; auto. destruct (x <? length (pr_rank s)); cbn [bind]; auto. right. eexists. split; [reflexivity|]. apply nth_error_Some. congruence. }
    destruct JC as [->|(s' & -> & LX)]; cbn [bind]; auto. right. exists (Some t), s'. split; [reflexivity|]. split; [|cbn [length]; lia].
    rewrite concat_app in H. cbn [concat app] in H. cbn [opt_list app]. rewrite concat_app. cbn [concat]. apply in_app_iff in H. apply in_app_iff. destruct H as [H|[->|H]]; auto. lia.
Qed.
Theorem C69_too_long : forall g deg ranks d thr max, length g < length ranks -> 0 < max ->
  page_rank_v1 g deg ranks d thr max = Ub /\ (forall T sched, 0 < T -> page_rank_v4 g deg ranks d thr max T sched = Ub) /\
  (forall parts arr sched, (forall k, Permutation (concat (parts k)) (seq 0 (length ranks))) -> page_rank_v789 g deg ranks d thr max parts arr sched = Ub).
Proof.
  intros g deg ranks d thr [|max] LR MX; [lia|]. assert (IR : In (length g) (seq 0 (length ranks))) by (apply in_seq; lia). split; [|split].
  - unfold page_rank_v1. cbn [xpr_loop]. rewrite (@jac_sweep_ub g deg _ _ _ _ _ _ _ (length g)); auto. cbn [concat]. now rewrite app_nil_r.
  - intros T sched T0. unfold page_rank_v4. cbn [xpr_loop]. rewrite (@jac_sweep_ub g deg _ _ _ _ _ _ _ (length g)); auto. apply (Permutation_in _ (Permutation_sym (strided_parts (length ranks) T0))). auto.
  - intros parts arr sched P. unfold page_rank_v789. cbn [xpr_loop]. rewrite (@jac_sweep_ub g deg _ _ _ _ _ _ _ (length g)); auto. apply (Permutation_in _ (Permutation_sym (P 0))). auto.
Qed.

(** ** v2: a sweep uses the new scores of earlier vertices *)
(** The scores are those of max_iters or fewer Gauss-Seidel sweeps from zero, never above the solution, with a relative error
    that shrinks by the factor 1 - (1-d)/n each sweep; the test gives a bound on the total error.  (After the first sweep it
    compares with 1/n, though the sweep started from zero: even so.) *)
Theorem C69_v2 : forall g deg ranks d thr max x, pr_input g (fun j => nth j deg 0) d -> length g <= length deg -> length ranks = length g -> 0 < length g -> pagerank g (fun j => nth j deg 0) d x ->
  exists out y, page_rank_v2 g deg ranks d thr max = Ok out /\ length (o_rank out) = length ranks /\ scores (length g) out y /\ o_sweeps out <= max /\ (o_conv out = false -> o_sweeps out = max) /\
    (0 < o_sweeps out -> gsweeps g (fun j => nth j deg 0) d (o_sweeps out) y /\
      forall i, i < length g -> (0 <= y i /\ y i <= x i /\ x i - y i <= qpow (1 - (1 - d) / qn (length g)) (o_sweeps out) * x i)%Q) /\
    (o_conv out = true -> (dist g y x <= thr)%Q \/ ((1 - d) * dist g y x <= d * thr)%Q).
Proof.
  intros g deg ranks d thr max x IN LD LR N0 P. unfold page_rank_v2. rewrite LR.
  destruct (@v2_loop_ok g deg d thr IN LD max 0 (mkPr (fill_init ranks) (repeat (Some 0%Q) (length g)) (Some 0%Q)) (fun _ => 1 / qn (length g))%Q) as (out & y & E & L & SC & A & B & C & D & F & G); [|lia|].
  - split; [cbn [pr_rank]; unfold fill_init; now rewrite map_length|]. split; [cbn [pr_out]; apply repeat_length|]. split; [apply (fill_holds g ranks LR)|]. split; [|cbn; auto].
    intros j Hj Dj. exists 0%Q. split; [cbn [pr_out]; now apply nth_error_repeat|]. cbn [Nat.eqb]. unfold share, Qdiv. ring.
  - exists out, y. split; auto. split; auto. split; auto. split; auto. split; auto. split.
    + intros S0. split; auto. intros i Hi. assert (X := gsweeps_below deg IN P (D S0) Hi). assert (Y := gsweeps_geometric deg IN P (D S0) Hi). apply Qabs_Qle_condition in Y. repeat split; lra.
    + intros CV. destruct (F CV) as (e & LA & ET). unfold v2_last in LA. destruct (o_sweeps out) as [|[|k]] eqn:ES; [contradiction| |].
      * destruct LA as (GS & EE). left. assert (X := gs_first deg IN N0 P GS EE). lra.
      * destruct LA as (b & GS & ST & EE). right. assert (X := async_dist IN (gs_async deg ST) P). eapply Qle_trans; [exact X|]. apply (dmul IN). lra.
Qed.
Lemma xpr_loop_more sweep thr : forall todo k st out, xpr_loop sweep thr todo k st = Ok out -> o_conv out = true -> forall more, xpr_loop sweep thr (todo + more) k st = Ok out.
Proof.
  induction todo as [|todo IH]; intros k st out E CV more; cbn [xpr_loop Nat.add] in *; [injection E as <-; discriminate|].
  apply bind_Ok in E. destruct E as (st' & -> & E). cbn [bind]. destruct (oltb (pr_err st') thr); auto.
Qed.
Theorem C69_v2_stops : forall g deg d thr, pr_input g (fun j => nth j deg 0) d -> length g <= length deg -> 0 < length g -> (0 < thr)%Q ->
  exists m, forall ranks max, length ranks = length g -> m <= max -> exists out, page_rank_v2 g deg ranks d thr max = Ok out /\ o_conv out = true /\ o_sweeps out <= m.
Proof.
  intros g deg d thr IN LD N0 T. destruct (base_1 deg IN) as (B0 & B1). assert (BP : (0 < (1 - d) / qn (length g))%Q).
  { assert (X := qn_pos N0). assert (D1 := pi_d1 IN). apply Qlt_shift_div_l; lra. }
  destruct (@qpow_small d ((1 - d) / qn (length g)) ((1 # 2) * thr)%Q BP B1) as (m & HM); [lra|]. destruct (pagerank_exists IN) as (x & P).
  assert (K : forall ranks, length ranks = length g -> exists out, page_rank_v2 g deg ranks d thr (S (S m)) = Ok out /\ o_conv out = true /\ o_sweeps out <= S (S m)).
  { intros ranks LR. unfold page_rank_v2. rewrite LR.
    destruct (@v2_loop_ok g deg d thr IN LD (S (S m)) 0 (mkPr (fill_init ranks) (repeat (Some 0%Q) (length g)) (Some 0%Q)) (fun _ => 1 / qn (length g))%Q) as (out & y & E & L & SC & A & B & C & D & F & G); [|lia|].
    - split; [cbn [pr_rank]; unfold fill_init; now rewrite map_length|]. split; [cbn [pr_out]; apply repeat_length|]. split; [apply (fill_holds g ranks LR)|]. split; [|cbn; auto].
      intros j Hj Dj. exists 0%Q. split; [cbn [pr_out]; now apply nth_error_repeat|]. cbn [Nat.eqb]. unfold share, Qdiv. ring.
    - exists out. split; [exact E|]. split; [|exact A]. destruct (o_conv out) eqn:CV; auto. exfalso. assert (ES := B eq_refl). destruct (G eq_refl) as (e & LA & TE); [lia|]. rewrite ES in LA. cbn [v2_last Nat.add] in LA.
      destruct LA as (b & GS & ST & EE). assert (GY := gs_S GS ST).
      assert (QS := pagerank_sum IN P N0). assert (EB : (dist g y b <= qs (length g) (fun i => qpow (1 - (1 - d) / qn (length g)) (S m) * x i + qpow (1 - (1 - d) / qn (length g)) (S m) * x i))%Q).
      { apply qs_le. intros i Hi. assert (X := gsweeps_geometric deg IN P GS Hi). assert (Y := gsweeps_geometric deg IN P GY Hi). change (qpow (1 - (1 - d) / qn (length g)) (S (S m))) with ((1 - (1 - d) / qn (length g)) * qpow (1 - (1 - d) / qn (length g)) (S m))%Q in Y. set (c := qpow (1 - (1 - d) / qn (length g)) (S m)) in *.
        assert (XN := pagerank_nn IN P Hi). assert (CN : (0 <= c)%Q) by (apply qpow_nn; lra).
        assert (Z : ((1 - (1 - d) / qn (length g)) * c * x i <= c * x i)%Q) by (set (u := ((1 - d) / qn (length g))%Q) in *; assert (0 <= c * x i)%Q by (apply Qmult_le_0_compat; auto); nra).
        apply Qabs_Qle_condition in X. apply Qabs_Qle_condition in Y. apply Qabs_Qle_condition. split; lra. }
      rewrite qs_add, qs_mul in EB. cbn [qpow] in EB. assert (C0 := @qpow_nn (1 - (1 - d) / qn (length g)) m ltac:(lra)). assert (X0 := @qs_nn (length g) x (fun i Hi => pagerank_nn IN P Hi)).
      set (c := qpow (1 - (1 - d) / qn (length g)) m) in *. set (u := ((1 - d) / qn (length g))%Q) in *. set (s := qs (length g) x) in *. assert (Z : ((1 - u) * c * s <= c)%Q) by (assert (0 <= c * s)%Q by (apply Qmult_le_0_compat; auto); nra). lra. }
  exists (S (S m)). intros ranks max LR HMX. destruct (K ranks LR) as (out & E & CV & SW). exists out. split; auto. unfold page_rank_v2 in *. replace max with (S (S m) + (max - S (S m))) by lia. now apply xpr_loop_more.
Qed.

(** ** v12: contributions not above the threshold are dropped *)
(** With a threshold of at least 1/n everything is dropped and every score is (1-d)/n: when all vertices have outgoing arcs
    the total error is exactly d. *)
Theorem C69_v12_flat : forall g deg ranks d thr max sched, pr_input g (fun j => nth j deg 0) d -> length g <= length deg -> length g <= length ranks -> 0 < length g ->
  (1 / qn (length g) <= thr)%Q -> 0 < max ->
  exists out y, page_rank_v12 g deg ranks d thr max sched = Ok out /\ length (o_rank out) = length ranks /\ scores (length g) out y /\
    (forall i, i < length g -> (y i == (1 - d) / qn (length g))%Q) /\ o_sweeps out <= 2 /\ (1 < max -> o_conv out = true) /\
    forall x, pagerank g (fun j => nth j deg 0) d x -> (forall j, j < length g -> nth j deg 0 = occ g j /\ 0 < occ g j) -> (dist g y x == d)%Q.
Proof.
  intros g deg ranks d thr max sched IN LD LR N0 TH MX. destruct (@v12_flat g deg d thr max sched ranks IN LD LR N0 TH MX) as (out & y & E & L & SC & F & SW & CV). exists out, y. do 6 (split; auto).
  intros x P H. assert (M := proj1 (C58_mass IN N0 P) H). assert (QB := qs_base g d N0).
  assert (X : (dist g y x == qs (length g) (fun i => x i + (- (1)) * ((1 - d) / qn (length g))))%Q).
  { apply qs_ext. intros i Hi. rewrite (F i Hi). assert (B := pagerank_base IN P Hi). cbn beta in B. rewrite Qabs_neg by lra. lra. }
  rewrite X, qs_add, qs_mul, M, QB. lra.
Qed.

(** In general a run that passes the test is within d thr (1 + m) / (1-d) of the solution, m the number of arcs. *)
Theorem C69_v12 : forall g deg ranks d thr max sched, pr_input g (fun j => nth j deg 0) d -> length g <= length deg -> length g <= length ranks -> (0 <= thr)%Q -> 0 < max ->
  exists out y, page_rank_v12 g deg ranks d thr max sched = Ok out /\ length (o_rank out) = length ranks /\ scores (length g) out y /\ o_sweeps out <= max /\ (o_conv out = false -> o_sweeps out = max) /\
    (forall i, i < length g -> ((1 - d) / qn (length g) <= y i)%Q) /\
    (o_conv out = true -> forall x, pagerank g (fun j => nth j deg 0) d x -> ((1 - d) * dist g y x <= d * thr * qn (1 + list_sum (map (@length nat) g)))%Q).
Proof.
  intros g deg ranks d thr max sched IN LD LR T0 MX. destruct (@v12_ok g deg d thr max sched ranks IN LD LR) as (out & y & E & L & SC & Y0 & SW & F & C & G). exists out, y. do 5 (split; auto). split.
  - assert (X : exists a, dropping g (fun j => nth j deg 0) d thr a y) by (destruct (o_conv out); [destruct (C eq_refl) as (a & DR & _); eauto|auto]).
    destruct X as (a & DR). intros i Hi. destruct (DR i Hi) as (bs & _ & HB & ->). assert (D0 := pi_d0 IN).
    assert (K : (0 <= qsum (map (fun p : ent => if snd p then e_val p / qn (nth (e_id p) deg 0%nat) else 0) bs))%Q) by (apply qsum_map_nn; intros p I; destruct (snd p); [apply div_nn; now apply HB|lra]).
    assert (Z := Qmult_le_0_compat _ _ D0 K). lra.
  - intros CV x P. destruct (C CV) as (a & DR & TE). assert (X := drop_dist IN T0 DR P). unfold arcs in X. rewrite qn_add. change (qn 1) with 1%Q. replace (list_sum (map (@length nat) g)) with (sum (map (@length nat) g)) by (clear; induction (map (@length nat) g); simpl; auto).
    assert (Y : (d * dist g y a <= d * thr)%Q) by (apply (dmul IN); apply Qlt_le_weak; exact TE). lra.
Qed.

(** ** v14: page_rank that returns the iteration *)
Theorem C69_v14 : forall g deg ranks d thr max sched, pr_input g (fun j => nth j deg 0) d -> length g <= length deg -> length g <= length ranks ->
  exists out k y, page_rank_v14 g deg ranks d thr max sched = Ok (out, k) /\ scores (length g) out y /\ k <= max /\
    (k < max -> o_sweeps out = S k /\ forall x, pagerank g (fun j => nth j deg 0) d x -> ((1 - d) * dist g y x <= d * thr)%Q) /\
    (k = max -> o_conv out = false /\ o_sweeps out = max).
Proof.
  intros g deg ranks d thr max sched IN LD LR. destruct (@page_rank_ok g deg d thr max sched ranks IN LD LR) as (out & y & E & L & R & RS). unfold page_rank_v14. rewrite E. cbn [bind]. exists out, (if o_conv out then o_sweeps out - 1 else max), y. split; auto. split; auto.
  destruct (o_conv out) eqn:CV; cbn [result] in RS.
  - destruct RS as (k' & b & ES & HK & _). rewrite ES in *. split; [lia|]. split; [|lia]. intros _. split; [lia|]. intros x P. exact (proj2 (@C58_threshold g deg ranks d thr max sched out y IN LD LR E CV R) x P).
  - destruct RS as (ES & _). split; auto. split; [lia|]. auto.
Qed.

(** ** v3, v13: residuals *)
(** The scores are n times too large: p/n, not p, approximates the solution, from below, with the error bounds shown; and
    they are at least 1-d each when the threshold is below 1-d. *)
Theorem C69_residual : forall g deg ranks d thr max src dst x, pr_input g (fun j => nth j deg 0) d -> length g <= length deg -> length g <= length ranks -> 0 < length g -> (0 <= thr)%Q ->
  (forall k, Permutation (src k) (seq 0 (length g))) -> (forall k, Permutation (dst k) (seq 0 (length g))) -> pagerank g (fun j => nth j deg 0) d x ->
  forall r, r = page_rank_v3 g deg ranks d thr max \/ r = page_rank_v13 g deg ranks d thr max src dst ->
  exists out p, r = Ok out /\
    length (ro_rank out) = length ranks /\ (forall i, i < length g -> nth_error (ro_rank out) i = Some (p i)) /\ ro_iters out <= max /\ (ro_conv out = false -> ro_iters out = max) /\
    (forall i, i < length g -> (0 <= p i /\ p i <= qn (length g) * x i)%Q) /\
    ((1 - d) * dist g (fun i => p i / qn (length g))%Q x <= qn (S (ro_iters out)) * thr + qpow d (ro_iters out) * (1 - d))%Q /\
    (ro_conv out = true -> ((1 - d) * dist g (fun i => p i / qn (length g))%Q x <= qn (ro_iters out) * thr)%Q) /\
    (0 < max -> (thr < 1 - d)%Q -> forall i, i < length g -> (1 - d <= p i)%Q) /\
    (forall m, m < max -> (qpow d m * (qn (length g) * (1 - d)) <= thr)%Q -> ro_conv out = true /\ ro_iters out <= S m).
Proof.
  intros g deg ranks d thr max src dst x IN LD LR N0 T0 PS PD P r HR.
  assert (X : exists out p, r = Ok out /\ residual_result g deg d thr (length ranks) 0 max out p).
  { destruct HR as [->| ->]; apply residual_ok; auto; intros; apply Permutation_refl. }
  destruct X as (out & p & E & R). exists out, p. split; auto. destruct (@result_error g deg d thr ranks IN N0 T0 max out p x R P) as (A & B & C). split; [apply R|]. split; [apply R|]. split; [apply (rr_count R)|]. split; [intros CV; apply (rr_open R CV)|]. do 3 (split; auto). split; [apply (rr_low R)|].
  intros m HM TM. apply (rr_soon R TM); lia.
Qed.
(** With a threshold of at least 1-d nothing is ever pushed: all scores are zero. *)
Theorem C69_residual_zero : forall g deg ranks d thr max src dst, pr_input g (fun j => nth j deg 0) d -> length g <= length deg -> length g <= length ranks -> 0 < length g ->
  (forall k, Permutation (src k) (seq 0 (length g))) -> (forall k, Permutation (dst k) (seq 0 (length g))) -> 0 < max -> (1 - d <= thr)%Q ->
  forall r, r = page_rank_v3 g deg ranks d thr max \/ r = page_rank_v13 g deg ranks d thr max src dst ->
  exists out, r = Ok out /\ ro_conv out = true /\ ro_iters out = 1 /\ forall i, i < length g -> exists s, nth_error (ro_rank out) i = Some s /\ (s == 0)%Q.
Proof.
  intros g deg ranks d thr max src dst IN LD LR N0 PS PD MX TB r [->| ->]; apply residual_zero; auto; intros; apply Permutation_refl.
Qed.

(** ** Examples: the graph of C58, damping factor 1/2; its solution is 14/39, 10/39, 15/39 *)
Definition ex_r := [None; Some 7%Q; None].
Definition shownr (r : res rout) : option (list Q * nat * bool) := match r with Ok o => Some (map Qred (ro_rank o), ro_iters o, ro_conv o) | _ => None end.
Example C69_ex_v1 : shown (page_rank_v1 ex_g ex_deg ex_r (1 # 2) (1 # 50) 9) = Some ([Some (23 # 64); Some (49 # 192); Some (37 # 96)]%Q, 4, true). Proof. vm_compute. reflexivity. Qed.
Example C69_ex_vc : shown (page_rank_vc ex_g ex_r (1 # 2) (1 # 50) 9) = Some ([Some (23 # 64); Some (49 # 192); Some (37 # 96)]%Q, 4, true). Proof. vm_compute. reflexivity. Qed.
Example C69_ex_v4 : shown (page_rank_v4 ex_g ex_deg ex_r (1 # 2) (1 # 50) 9 2 (fun _ t => t)) = Some ([Some (23 # 64); Some (49 # 192); Some (37 # 96)]%Q, 4, true). Proof. vm_compute. reflexivity. Qed.
Example C69_ex_v6 : shown (page_rank_v6 ex_g ex_deg ex_r (1 # 2) (1 # 50) 9 (fun _ => SNode SLeaf SLeaf) (fun _ t => t)) = Some ([Some (23 # 64); Some (49 # 192); Some (37 # 96)]%Q, 4, true). Proof. vm_compute. reflexivity. Qed.
Example C69_ex_v789 : shown (page_rank_v789 ex_g ex_deg ex_r (1 # 2) (1 # 50) 9 (fun _ => [[2]; [1; 0]]) (fun _ _ l => (rev l, SN 1 SL SL)) (fun _ t => t)) = Some ([Some (23 # 64); Some (49 # 192); Some (37 # 96)]%Q, 4, true). Proof. vm_compute. reflexivity. Qed.
Example C69_ex_v10 : shown (page_rank_v10 ex_g ex_deg (ex_r ++ [None]) (1 # 2) (1 # 50) 9 (fun _ => [[2]; [1; 0]]) (fun _ t => t)) = Some ([Some (23 # 64); Some (49 # 192); Some (37 # 96); None]%Q, 4, true). Proof. vm_compute. reflexivity. Qed.
Example C69_ex_too_long : page_rank_v1 ex_g [2; 1; 1; 1] (ex_r ++ [None]) (1 # 2) (1 # 50) 9 = Ub. Proof. vm_compute. reflexivity. Qed.
Example C69_ex_v4_no_threads : shown (page_rank_v4 ex_g ex_deg ex_r (1 # 2) (1 # 50) 9 0 (fun _ t => t)) = Some ([Some (1 # 3); Some (1 # 3); Some (1 # 3)]%Q, 1, true). Proof. vm_compute. reflexivity. Qed.
Example C69_ex_v2 : shown (page_rank_v2 ex_g ex_deg ex_r (1 # 2) (1 # 5) 9) = Some ([Some (541 # 1536); Some (1565 # 6144); Some (1565 # 4096)]%Q, 3, true). Proof. vm_compute. reflexivity. Qed.
Example C69_ex_v12 : shown (page_rank_v12 ex_g ex_deg ex_r (1 # 2) (1 # 3) 9 (fun _ t => t)) = Some ([Some (1 # 6); Some (1 # 6); Some (1 # 6)]%Q, 2, true). Proof. vm_compute. reflexivity. Qed.
(** 17/48, 49/192, 49/128: close to the solution *)
Example C69_ex_v12_close : shown (page_rank_v12 ex_g ex_deg ex_r (1 # 2) (1 # 50) 9 (fun _ t => t)) = Some ([Some (17 # 48); Some (49 # 192); Some (49 # 128)]%Q, 3, true). Proof. vm_compute. reflexivity. Qed.
Example C69_ex_v12_occ : forall j, j < 3 -> nth j ex_deg 0 = occ ex_g j /\ 0 < occ ex_g j. Proof. intros [|[|[|j]]] H; try lia; cbv; split; auto. Qed.
Example C69_ex_v14 : match page_rank_v14 ex_g ex_deg ex_r (1 # 2) (1 # 50) 9 (fun _ t => t) with Ok (o, k) => Some (shown (Ok o), k) | _ => None end
  = Some (Some ([Some (23 # 64); Some (49 # 192); Some (37 # 96)]%Q, 4, true), 3). Proof. vm_compute. reflexivity. Qed.
(** 133/384, 94/384, 143/384 after division by 3 *)
Example C69_ex_v3 : shownr (page_rank_v3 ex_g ex_deg [9; 9; 9]%Q (1 # 2) (1 # 50) 9) = Some ([133 # 128; 47 # 64; 143 # 128]%Q, 6, true). Proof. vm_compute. reflexivity. Qed.
Example C69_ex_v13 : shownr (page_rank_v13 ex_g ex_deg [9; 9; 9]%Q (1 # 2) (1 # 50) 9 (fun _ => [2; 0; 1]) (fun _ => [1; 2; 0])) = Some ([133 # 128; 47 # 64; 143 # 128]%Q, 6, true). Proof. vm_compute. reflexivity. Qed.
Example C69_ex_zero : shownr (page_rank_v3 ex_g ex_deg [9; 9; 9]%Q (1 # 2) (1 # 2) 9) = Some ([0; 0; 0]%Q, 1, true). Proof. vm_compute. reflexivity. Qed.

Print Assumptions C69_power_guarantee.
Print Assumptions C69_power_stops.
Print Assumptions C69_v1.
Print Assumptions C69_vc.
Print Assumptions C69_v4.
Print Assumptions C69_v4_no_threads.
Print Assumptions C69_v6.
Print Assumptions C69_v789.
Print Assumptions C69_v10.
Print Assumptions C69_too_long.
Print Assumptions C69_v2.
Print Assumptions C69_v2_stops.
Print Assumptions C69_v12_flat.
Print Assumptions C69_v14.
Print Assumptions C69_residual.
Print Assumptions C69_residual_zero.
Print Assumptions C69_v12.
