(** C48: betweenness centrality. The specification (walks listed one by one, [dependency], [funnels]) is at the head of
    BcLib.v and BcParProofs2.v. *)
From Coq Require Import List Arith ZArith QArith Qround Qcanon Field Lia Bool.
From Verif Require Import Base GraphLib SumLib QcLib BcLib ParBfsModel BcModel BcProofs BcVerProofs BcParProofs BcParProofs2.
Import ListNotations.
Set Implicit Arguments.
Local Open Scope nat_scope.

(** The number of shortest paths between any two vertices fits the type that counts them. *)
Definition counts_below (g : list (list nat)) (M : nat) : Prop :=
  forall s t d, s < length g -> dist g s t d -> cnt g d s t < M.
(** What a vertex gets from a list of sources; [others] drops the vertex itself from the sources. *)
Definition score (g : list (list nat)) (sources : list nat) (v : nat) : Qc := qsum (map (fun s => dependency g s v) sources).
Definition others (v : nat) (l : list nat) : list nat := filter (fun s => negb (s =? v)) l.
Definition is_max (m : Qc) (l : list Qc) : Prop := In m l /\ forall x, In x l -> (x <= m)%Qc.

Lemma below_sg g M : targets_ok g -> counts_below g M -> forall s t, s < length g -> sg g s t < M.
Proof.
  intros T C s t Hs. unfold sg. destruct (distf g s t) as [d|] eqn:E.
  - apply C; auto. now apply distf_Some.
  - assert (X := C s s 0 Hs (proj2 (dist_0 g s s) eq_refl)). lia.
Qed.
Lemma pair_dep_nonneg g s t v : (0 <= pair_dep g s t v)%Qc.
Proof.
  unfold pair_dep. destruct (distf g s t) as [d|]; [|apply Qcle_refl]. destruct (Nat.eq_dec (cnt g d s t) 0) as [->|N].
  - rewrite qn_0. unfold Qcdiv. replace (/ 0)%Qc with 0%Qc by (now apply Qc_is_canon). rewrite Qcmult_0_r. apply Qcle_refl.
  - assert (P : (0 < qn (cnt g d s t))%Qc).
    { destruct (Qcle_lt_or_eq _ _ (qn_nonneg (cnt g d s t))) as [H|H]; auto.
      exfalso. now apply (qn_neq0 N). }
    apply Qcmult_lt_0_le_reg_r with (qn (cnt g d s t)); auto. unfold Qcdiv. rewrite <- Qcmult_assoc, (Qcmult_comm (/ _)), Qcmult_inv_r by (now apply qn_neq0).
    rewrite Qcmult_0_l, Qcmult_1_r. apply qn_nonneg.
Qed.
Lemma dependency_nonneg g s v : (0 <= dependency g s v)%Qc.
Proof. apply qsum_nonneg. intros t _. apply pair_dep_nonneg. Qed.
Lemma score_nonneg g l v : (0 <= score g l v)%Qc.
Proof. apply qsum_nonneg. intros t _. apply dependency_nonneg. Qed.
Lemma nth_eq_map (f : nat -> Qc) n l : length l = n -> (forall v, v < n -> nth v l 0%Qc = f v) -> l = map f (seq 0 n).
Proof.
  intros L H. apply nth_ext_default with (d := 0%Qc); [now rewrite map_length, seq_length|]. intros v Lv. rewrite H by lia. symmetry. apply nth_map_seq. lia.
Qed.

Lemma qmax_max x l : is_max (qmax x l) (x :: l).
Proof. destruct (qmax_ge l x) as [A B]. split; [apply qmax_in|]. intros y [<-|I]; auto. Qed.
Lemma is_max_fun m m' l : is_max m l -> is_max m' l -> m = m'.
Proof. intros [I A] [J B]. apply Qcle_antisym; auto. Qed.
(** dividing by the largest element, when that is possible *)
Definition normalized (l r : list Qc) : Prop := exists m, is_max m l /\ m <> 0%Qc /\ r = map (fun x => x / m)%Qc l.
Lemma bc_normalize_ok l : match bc_normalize l with Ok r => normalized l r | _ => ~ exists r, normalized l r end.
Proof.
  destruct l as [|x l]; cbn [bc_normalize].
  - intros (r & m & [[] _] & _).
  - destruct (Qc_eq_dec (qmax x l) 0%Qc) as [E|E].
    + intros (r & m & H & N & _). apply N. rewrite <- E. eapply is_max_fun; eauto. apply qmax_max.
    + exists (qmax x l). split; [apply qmax_max|]. split; auto.
Qed.
Lemma normalized_fun l r r' : normalized l r -> normalized l r' -> r = r'.
Proof. intros (m & H & _ & ->) (m' & H' & _ & ->). now rewrite (is_max_fun H H'). Qed.

(** ** Sequential *)
Lemma brandes_false g M : targets_ok g -> counts_below g M ->
  brandes_bc g M false = Ok (map (fun v => score g (others v (seq 0 (length g))) v) (seq 0 (length g))).
Proof.
  intros T C. unfold brandes_bc.
  destruct (sources_ok T (below_sg T C) (seq 0 (length g)) (repeat 0%Qc (length g))) as (c & -> & L & H).
  { intros s I. apply in_seq in I. lia. }
  { apply repeat_length. }
  cbn [bind]. f_equal. apply nth_eq_map; auto. intros v Lv. rewrite H, nth_repeat by auto. apply Qcplus_0_l.
Qed.
(** Every vertex gets the sum, over the ordered pairs (s, t) of vertices other than it, of the fraction of the shortest
    paths from s to t that visit it. *)
Theorem C48_sequential g M : targets_ok g -> counts_below g M ->
  brandes_bc g M false = Ok (map (fun v => score g (others v (seq 0 (length g))) v) (seq 0 (length g))).
Proof. apply brandes_false. Qed.
(** Normalised, these are divided by the largest; when the graph is empty or the largest score is 0 there is no result. *)
Theorem C48_sequential_normalized g M : targets_ok g -> counts_below g M ->
  let exact := map (fun v => score g (others v (seq 0 (length g))) v) (seq 0 (length g)) in
  match brandes_bc g M true with
  | Ok r => normalized exact r
  | Ub => forall x, In x exact -> x = 0%Qc
  | OutOfFuel => False
  end.
Proof.
  intros T C exact. assert (E := brandes_false T C). unfold brandes_bc in *.
  destruct (rfold _ _ _) as [c| |]; try discriminate. cbn [bind] in *. injection E as ->. fold exact.
  assert (B := bc_normalize_ok exact). unfold bc_normalize in *. assert (NN : forall x, In x exact -> (0 <= x)%Qc).
  { intros x I. apply in_map_iff in I. destruct I as (v & <- & _). apply score_nonneg. }
  destruct exact as [|x l]; [intros x []|]. destruct (Qc_eq_dec (qmax x l) 0%Qc) as [E|E]; auto.
  intros y I. apply Qcle_antisym; auto. rewrite <- E. now apply qmax_max.
Qed.
Definition diamond : list (list nat) := [[1; 2]; [3]; [3]; []].
Definition show (r : res (list Qc)) : list Q := match r with Ok l => map this l | _ => [] end.
Example C48_sequential_ex : show (brandes_bc diamond 256 false) = [0; 1 # 2; 1 # 2; 0]%Q /\ show (brandes_bc diamond 256 true) = [0; 1; 1; 0]%Q /\
  brandes_bc [[1]; []] 256 true = Ub.
Proof. vm_compute. auto. Qed.
Lemma small_targets g : forallb (forallb (fun v => v <? length g)) g = true -> targets_ok g.
Proof.
  intros H u v Ed. unfold edge in Ed. assert (L : u < length g). { destruct (Nat.lt_ge_cases u (length g)); auto. rewrite nth_overflow in Ed by auto. destruct Ed. }
  rewrite forallb_forall in H. specialize (H _ (nth_In g [] L)). rewrite forallb_forall in H. apply Nat.ltb_lt. auto.
Qed.
Lemma small_counts g M : targets_ok g -> forallb (fun s => forallb (fun t => forallb (fun d => cnt g d s t <? M) (seq 0 (length g))) (seq 0 (length g))) (seq 0 (length g)) = true ->
  counts_below g M.
Proof.
  intros T H s t d Hs D. assert (Lt := walk_lt T Hs (proj1 D)). assert (Ld := dist_lt_n T Hs D). rewrite forallb_forall in H.
  specialize (H s ltac:(apply in_seq; lia)). rewrite forallb_forall in H. specialize (H t ltac:(apply in_seq; lia)). rewrite forallb_forall in H.
  specialize (H d ltac:(apply in_seq; lia)). now apply Nat.ltb_lt.
Qed.
Example C48_hyps : targets_ok diamond /\ counts_below diamond 256.
Proof. assert (T : targets_ok diamond) by (now apply small_targets). split; auto. apply small_counts; auto. Qed.

(** ** Parallel *)
Lemma qmax0 l : (forall x, In x l -> (0 <= x)%Qc) -> (l = [] /\ qmax 0%Qc l = 0%Qc) \/ is_max (qmax 0%Qc l) l.
Proof.
  intros NN. destruct l as [|x l]; [now left|]. right. cbn [qmax]. destruct (Qclt_le_dec 0 x) as [L|L]; [apply qmax_max|].
  assert (x = 0%Qc) by (apply Qcle_antisym; auto; apply NN; now left). subst x. apply qmax_max.
Qed.
Definition exact_or_floored (integral : bool) (g : list (list nat)) (sources : list nat) : list Qc :=
  map (fun v => if integral then qsum (map (fun s => qn (funnels g s v)) sources) else score g sources v) (seq 0 (length g)).
Lemma parallel_both vmax M nbins integral g sched asched sources normalize : targets_ok g -> counts_below g M -> length g <= vmax -> 0 < nbins ->
  concat g <> [] -> (forall s, In s sources -> s < length g) ->
  par_brandes vmax M nbins integral g sched asched sources normalize =
    (let e := exact_or_floored integral g sources in
     if normalize then if Qc_eq_dec (qmax 0%Qc e) 0%Qc then Ub else Ok (map (fun v => v / qmax 0 e)%Qc e) else Ok e).
Proof.
  intros T C HV HB HA HS. unfold par_brandes. destruct (concat g) eqn:Ec; [congruence|].
  destruct (par_sources_ok integral T HV HB (below_sg T C) sched sources 0 HS) as (adds & E1 & H1 & H2). rewrite E1. cbn [bind].
  destruct (@add_ok (length g) asched adds (repeat 0%Qc (length g)) (repeat_length _ _) H1) as (bc & E2 & L2 & H3). rewrite E2. cbn [bind].
  assert (Eb : bc = exact_or_floored integral g sources).
  { apply nth_eq_map; auto. intros v Lv. rewrite H3, nth_repeat, H2, Qcplus_0_l by auto. destruct integral; reflexivity. }
  rewrite Eb. reflexivity.
Qed.
(** Whatever the schedule, with a floating-point accum_t every vertex gets what the sources give it, including what it
    gives itself when it is one of them. *)
Theorem C48_parallel vmax M nbins g sched asched sources : targets_ok g -> counts_below g M -> length g <= vmax -> 0 < nbins ->
  concat g <> [] -> (forall s, In s sources -> s < length g) ->
  par_brandes vmax M nbins false g sched asched sources false = Ok (map (score g sources) (seq 0 (length g))).
Proof. intros. rewrite parallel_both by auto. reflexivity. Qed.
(** With an integral accum_t the quotient of the path counts is truncated: a pair (s, t) then counts for v (and counts 1)
    only if all shortest paths from s to t visit v and there are no more of them than shortest paths from s to v. *)
Theorem C48_parallel_integral vmax M nbins g sched asched sources : targets_ok g -> counts_below g M -> length g <= vmax -> 0 < nbins ->
  concat g <> [] -> (forall s, In s sources -> s < length g) ->
  par_brandes vmax M nbins true g sched asched sources false =
    Ok (map (fun v => qsum (map (fun s => qn (funnels g s v)) sources)) (seq 0 (length g))).
Proof. intros. rewrite parallel_both by auto. reflexivity. Qed.
Theorem C48_parallel_normalized vmax M nbins g sched asched sources : targets_ok g -> counts_below g M -> length g <= vmax -> 0 < nbins ->
  concat g <> [] -> (forall s, In s sources -> s < length g) ->
  match par_brandes vmax M nbins false g sched asched sources true with
  | Ok r => normalized (map (score g sources) (seq 0 (length g))) r
  | Ub => forall v, v < length g -> score g sources v = 0%Qc
  | OutOfFuel => False
  end.
Proof.
  intros. rewrite parallel_both by auto. cbv zeta. change (exact_or_floored false g sources) with (map (score g sources) (seq 0 (length g))).
  set (e := map (score g sources) (seq 0 (length g))). assert (NN : forall x, In x e -> (0 <= x)%Qc).
  { intros x I. apply in_map_iff in I. destruct I as (v & <- & _). apply score_nonneg. }
  destruct (Qc_eq_dec (qmax 0%Qc e) 0%Qc) as [E|E].
  - intros v Lv. apply Qcle_antisym; [|apply score_nonneg]. rewrite <- E. apply qmax_ge. apply in_map_iff. exists v. split; auto. apply in_seq. lia.
  - exists (qmax 0%Qc e). split; auto. destruct (qmax0 _ NN) as [[_ X]|X]; auto. congruence.
Qed.
(** A graph with vertices but no arcs: the first arc is read all the same. *)
Theorem C48_parallel_no_arcs vmax M nbins integral g sched asched sources normalize : (forall u v, ~ edge g u v) ->
  par_brandes vmax M nbins integral g sched asched sources normalize = Ub.
Proof.
  intros N. unfold par_brandes. destruct (concat g) as [|v l] eqn:E; auto. exfalso. assert (I : In v (concat g)) by (rewrite E; now left).
  apply in_concat in I. destruct I as (r & Ir & Iv). apply In_nth with (d := []) in Ir. destruct Ir as (u & _ & <-). now apply (N u v).
Qed.
(** exact_brandes_bc uses every vertex as a source. *)
Theorem C48_exact vmax M nbins g sched asched : targets_ok g -> counts_below g M -> length g <= vmax -> 0 < nbins -> concat g <> [] ->
  exact_par_brandes vmax M nbins false g sched asched false = Ok (map (score g (seq 0 (length g))) (seq 0 (length g))).
Proof. intros. apply C48_parallel; auto. intros s I. apply in_seq in I. lia. Qed.
Example C48_parallel_ex :
  show (par_brandes 100 256 4 false diamond (fun a b c => 7 * a + 3 * b + c) (fun a => a) [0] false) = [3; 1 # 2; 1 # 2; 0]%Q /\
  show (par_brandes 100 256 4 true diamond (fun a b c => 5 * c) (fun a => 2 * a) [0] false) = [2; 0; 0; 0]%Q /\
  show (par_brandes 100 256 4 false diamond (fun a b c => c) (fun a => a) [0; 1] true) = [1; 1 # 2; 1 # 6; 0]%Q.
Proof. vm_compute. auto. Qed.

(** ** BCVerifier *)
Definition eps : Qc := Q2Qc (1 # 1000000).
(** what the verifier accepts as close *)
Definition close (integral : bool) (x y : Qc) : Prop :=
  if integral then (x - y < 1 /\ y - x < 1)%Qc else (x - y <= eps /\ y - x <= eps)%Qc.
Lemma sub_neg x y : ((x - y < 0) -> (0 < y - x))%Qc.
Proof. intros L. apply (Qclt_minus_iff (x - y) 0) in L. now replace (0 + - (x - y))%Qc with (y - x)%Qc in L by ring. Qed.
Lemma sub_pos x y : (0 <= x - y -> y - x <= 0)%Qc.
Proof. intros L. apply Qcopp_le_compat in L. replace (- (x - y))%Qc with (y - x)%Qc in L by ring. now replace (- 0)%Qc with 0%Qc in L by ring. Qed.
Lemma floor_lt z : (0 <= z)%Qc -> ((Q2Qc (inject_Z (Qfloor z)) <= eps) <-> (z < 1))%Qc.
Proof.
  intros P. unfold Qcle, Qclt in *. cbn [this Q2Qc eps]. rewrite !Qred_correct. clear P.
  assert (F1 := Qfloor_le z). assert (F2 := Qlt_floor z). rewrite inject_Z_plus in F2. split.
  - intros H. assert (Z : (Qfloor z <= 0)%Z).
    { destruct (Z_le_gt_dec (Qfloor z) 0); auto. exfalso. assert (X : (1 <= inject_Z (Qfloor z))%Q) by (change 1%Q with (inject_Z 1); rewrite <- Zle_Qle; lia).
      assert (Y := Qle_trans _ _ _ X H). now apply Y. }
    apply Qlt_le_trans with (1 := F2). rewrite Zle_Qle in Z. apply Qle_trans with (inject_Z 0 + inject_Z 1)%Q; [|apply Qle_refl].
    apply Qplus_le_compat; auto. apply Qle_refl.
  - intros H. assert (Z : (Qfloor z <= 0)%Z).
    { assert (X := Qle_lt_trans _ _ _ F1 H). change 1%Q with (inject_Z 1) in X. rewrite <- Zlt_Qlt in X. lia. }
    rewrite Zle_Qle in Z. apply Qle_trans with (inject_Z 0); auto. discriminate.
Qed.
Lemma ver_close_ok integral x y : ver_close integral x y = true <-> close integral x y.
Proof.
  unfold ver_close, close. set (z := if Qclt_le_dec (x - y) 0 then (y - x)%Qc else (x - y)%Qc).
  assert (Hz : ((x - y <= z) /\ (y - x <= z) /\ (0 <= z))%Qc /\ (z = (x - y)%Qc \/ z = (y - x)%Qc)).
  { unfold z. destruct (Qclt_le_dec (x - y) 0) as [L|L].
    - assert (P := sub_neg L). split; auto. split; [|split; [apply Qcle_refl|now apply Qclt_le_weak]].
      apply Qcle_trans with 0%Qc; apply Qclt_le_weak; auto.
    - assert (P := sub_pos L). split; auto. split; [apply Qcle_refl|]. split; auto. eapply Qcle_trans; eauto. }
  destruct Hz as ((Z1 & Z2 & Z3) & Z4).
  assert (G : forall w : Qc, (if Qclt_le_dec w (Q2Qc (1 # 1000000)) then true else if Qc_eq_dec w (Q2Qc (1 # 1000000)) then true else false) = true <-> (w <= eps)%Qc).
  { intros w. fold eps. destruct (Qclt_le_dec w eps) as [L|L]; [split; auto; intros _; now apply Qclt_le_weak|].
    destruct (Qc_eq_dec w eps) as [->|N]; split; auto; try discriminate; try (intros; apply Qcle_refl). intros L'. exfalso. apply N. now apply Qcle_antisym. }
  destruct integral.
  - rewrite G, floor_lt by auto. split.
    + intros L. split; eapply Qcle_lt_trans; eauto.
    + intros [L1 L2]. destruct Z4 as [->| ->]; auto.
  - rewrite G. split.
    + intros L. split; eapply Qcle_trans; eauto.
    + intros [L1 L2]. destruct Z4 as [->| ->]; auto.
Qed.
Lemma compare_ok integral : forall ref test, length ref <= length test ->
  exists b, ver_compare integral test ref = Ok b /\ (b = true <-> forall v, v < length ref -> close integral (nth v test 0%Qc) (nth v ref 0%Qc)).
Proof.
  induction ref as [|y ref IH]; intros [|x test] L; cbn [length] in L; try lia; cbn [ver_compare].
  - exists true. split; auto. split; auto. intros _ v Lv. cbn in Lv. lia.
  - exists true. split; auto. split; auto. intros _ v Lv. cbn in Lv. lia.
  - destruct (IH test) as (b & -> & H); [lia|]. cbn [bind]. exists (ver_close integral x y && b). split; auto. rewrite andb_true_iff, ver_close_ok, H. split.
    + intros [A B] [|v] Lv; auto. cbn [nth length] in *. apply B. lia.
    + intros A. split; [apply (A 0); cbn; lia|]. intros v Lv. apply (A (S v)). cbn. lia.
Qed.
Lemma ver_scores g M sources : targets_ok g -> counts_below g M -> (forall s, In s sources -> s < length g) ->
  rfold (ver_source g M) sources (repeat 0%Qc (length g)) = Ok (map (score g sources) (seq 0 (length g))).
Proof.
  intros T C HS. destruct (ver_sources_ok T (below_sg T C) sources (repeat 0%Qc (length g)) HS) as (c & -> & L & H); [apply repeat_length|].
  f_equal. apply nth_eq_map; auto. intros v Lv. rewrite H, nth_repeat by auto. apply Qcplus_0_l.
Qed.
(** The verifier compares with the scores that count each source too.  With a floating-point accum_t it accepts
    differences up to 1e-6; with an integral one it drops the fraction and accepts everything below 1. *)
Theorem C48_verifier g M integral sources test : targets_ok g -> counts_below g M -> (forall s, In s sources -> s < length g) -> length g <= length test ->
  exists b, bc_verifier g M integral sources test false = Ok b /\
    (b = true <-> forall v, v < length g -> close integral (nth v test 0%Qc) (score g sources v)).
Proof.
  intros T C HS L. unfold bc_verifier. rewrite ver_scores by auto. cbn [bind].
  destruct (compare_ok integral (map (score g sources) (seq 0 (length g))) test) as (b & E & H); [now rewrite map_length, seq_length|].
  exists b. split; auto. rewrite H, map_length, seq_length. split; intros A v Lv; specialize (A v Lv); rewrite nth_map_seq in *; auto.
Qed.
Lemma close_refl integral x : close integral x x.
Proof. unfold close. replace (x - x)%Qc with 0%Qc by ring. destruct integral; split; try reflexivity; discriminate. Qed.
(** It accepts the parallel algorithm's result, normalised or not. *)
Theorem C48_verifier_accepts_parallel vmax M nbins g sched asched sources normalize r : targets_ok g -> counts_below g M -> length g <= vmax -> 0 < nbins ->
  concat g <> [] -> (forall s, In s sources -> s < length g) ->
  par_brandes vmax M nbins false g sched asched sources normalize = Ok r -> bc_verifier g M false sources r normalize = Ok true.
Proof.
  intros T C HV HB HA HS. rewrite parallel_both by auto. cbv zeta. change (exact_or_floored false g sources) with (map (score g sources) (seq 0 (length g))).
  unfold bc_verifier. rewrite ver_scores by auto. cbn [bind]. set (e := map (score g sources) (seq 0 (length g))).
  assert (NN : forall x, In x e -> (0 <= x)%Qc). { intros x I. apply in_map_iff in I. destruct I as (v & <- & _). apply score_nonneg. }
  assert (RF : forall l, ver_compare false l l = Ok true).
  { intros l. destruct (compare_ok false l l) as (b & E & H); [lia|]. rewrite E. f_equal. apply H. intros; apply close_refl. }
  destruct normalize.
  - destruct (Qc_eq_dec (qmax 0%Qc e) 0%Qc) as [E|E]; [discriminate|]. intros X. injection X as <-.
    assert (N : normalized e (map (fun v => v / qmax 0 e)%Qc e)).
    { exists (qmax 0%Qc e). split; auto. destruct (qmax0 _ NN) as [[_ X]|X]; auto. congruence. }
    assert (B := bc_normalize_ok e). destruct (bc_normalize e) as [r| |]; [|exfalso; eauto..]. cbn [bind]. rewrite (normalized_fun B N). apply RF.
  - intros X. injection X as <-. cbn [bind]. apply RF.
Qed.
(** It rejects the sequential algorithm's (exact) result on every graph in which some vertex has another as its neighbour. *)
Lemma self_dep g s : targets_ok g -> s < length g -> (exists v, v <> s /\ edge g s v) -> (1 <= dependency g s s)%Qc.
Proof.
  intros T Hs (v & N & Ed). unfold dependency. assert (Lv := T _ _ Ed).
  assert (P : pair_dep g s v s = 1%Qc).
  { assert (Rs : reachable g s s) by (exists 0; constructor). assert (Rv := reach_edge _ Rs Ed). assert (Ps := sg_pos T Hs Rv).
    rewrite (pair_dep_eq T Hs) by auto. rewrite (sg_s T Hs), qn_1, Qcmult_1_l. unfold rest. apply dist_reach in Rv. destruct Rv as [d D].
    rewrite (proj2 (distf_Some s T Hs) (proj2 (dist_0 g s s) eq_refl)), (proj2 (distf_Some v T Hs) D). cbn [Nat.leb]. rewrite Nat.sub_0_r, <- (sg_dist T Hs D).
    field. apply qn_neq0. lia. }
  assert (I : In v (filter (fun t => negb (t =? s)) (seq 0 (length g)))).
  { apply filter_In. split; [apply in_seq; lia|]. apply negb_true_iff. now apply Nat.eqb_neq. }
  apply in_split in I. destruct I as (l1 & l2 & ->). rewrite map_app, qsum_app. cbn [map qsum]. rewrite P.
  assert (A := @qsum_nonneg _ (fun t => pair_dep g s t s) l1 (fun t _ => pair_dep_nonneg g s t s)).
  assert (B := @qsum_nonneg _ (fun t => pair_dep g s t s) l2 (fun t _ => pair_dep_nonneg g s t s)).
  apply Qcle_minus_iff. match goal with |- (0 <= ?z)%Qc => replace z with (qsum (map (fun t => pair_dep g s t s) l1) + qsum (map (fun t => pair_dep g s t s) l2))%Qc by ring end.
  rewrite <- (Qcplus_0_l 0). now apply Qcplus_le_compat.
Qed.
Theorem C48_verifier_rejects_sequential g M r : targets_ok g -> counts_below g M -> (exists u v, edge g u v /\ u <> v) ->
  brandes_bc g M false = Ok r -> bc_verifier g M false (seq 0 (length g)) r false = Ok false.
Proof.
  intros T C (u & v & Ed & N) E. rewrite C48_sequential in E by auto. injection E as <-.
  assert (Lu : u < length g). { destruct (Nat.lt_ge_cases u (length g)); auto. unfold edge in Ed. rewrite nth_overflow in Ed by auto. destruct Ed. }
  set (r := map (fun v => score g (others v (seq 0 (length g))) v) (seq 0 (length g))).
  destruct (@C48_verifier g M false (seq 0 (length g)) r) as (b & E & H); auto.
  { intros s I. apply in_seq in I. lia. }
  { unfold r. now rewrite map_length, seq_length. }
  rewrite E. f_equal. destruct b; auto. exfalso. destruct (proj1 H eq_refl u Lu) as [_ H2]. unfold r in H2. rewrite nth_map_seq in H2 by auto.
  assert (SC : forall l, NoDup l -> In u l -> score g l u = (score g (others u l) u + dependency g u u)%Qc).
  { clear. induction l as [|x l IH]; intros ND I; [destruct I|]. inversion ND; subst. unfold score, others in *. cbn [map qsum filter]. destruct (Nat.eqb_spec x u) as [->|Nx]; cbn [negb].
    - rewrite (@filter_all _ _ l); [ring|]. intros y Y. apply negb_true_iff. apply Nat.eqb_neq. intros ->. auto.
    - destruct I as [|I]; [congruence|]. cbn [map qsum]. rewrite IH by auto. ring. }
  rewrite (SC (seq 0 (length g))) in H2; [|apply seq_NoDup|apply in_seq; lia].
  match type of H2 with (?z <= _)%Qc => replace z with (dependency g u u) in H2 by ring end.
  assert (D := self_dep T Lu (ex_intro _ v (conj (not_eq_sym N) Ed))). assert (X := Qcle_trans _ _ _ D H2). now apply X.
Qed.
Definition half : Qc := Q2Qc (1 # 2).
Example C48_verifier_ex :
  bc_verifier diamond 256 false [0] [qn 3; half; half; qn 0] false = Ok true /\
  bc_verifier diamond 256 false [0] [qn 3; qn 1; half; qn 0] false = Ok false /\
  bc_verifier diamond 256 true [0] [qn 3; qn 1; qn 0; qn 0] false = Ok true /\
  match brandes_bc diamond 256 false with Ok r => bc_verifier diamond 256 false (seq 0 4) r false | _ => Ub end = Ok false.
Proof. vm_compute. auto. Qed.
Print Assumptions C48_sequential.
Print Assumptions C48_sequential_normalized.
Print Assumptions C48_parallel.
Print Assumptions C48_parallel_integral.
Print Assumptions C48_parallel_normalized.
Print Assumptions C48_parallel_no_arcs.
Print Assumptions C48_exact.
Print Assumptions C48_verifier.
Print Assumptions C48_verifier_accepts_parallel.
Print Assumptions C48_verifier_rejects_sequential.
