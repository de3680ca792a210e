(** Lemmas for XtriModel. *)
From Coq Require Import List Arith NArith ZArith Lia Bool Permutation Sorting.Sorted.
From Verif Require Import Base Pool GraphLib SumLib UtilModel UtilProofs UtilProperties CsrModel CsrProofs CsrProofs3 RangeModel RangeProofs
  PforModel PforProofs TriModel TriProofs XtriModel.
Import ListNotations.
Set Implicit Arguments.

Lemma sum_perm l m : Permutation l m -> sum l = sum m.
Proof. induction 1; cbn [sum]; lia. Qed.

Section Rows.
Variable g : list (list nat).
Hypothesis HT : targets_ok g.
Hypothesis HS : rows_sorted g.
Notation n := (length g).
Notation row u := (nth u g []).
Definition full (u : nat) : nat := sum (map (fun v => common (row u) (row v)) (row u)).

Lemma rows_seq : g = map (fun u => row u) (seq 0 n).
Proof.
  clear HT HS. apply nth_ext with (d := []) (d' := []); [now rewrite map_length, seq_length|]. intros i Hi.
  now rewrite nth_map_seq by auto.
Qed.
(** A row body adding [F u] for row u. *)
Definition body_ok (body : list nat -> nat -> res nat) (F : nat -> nat) : Prop := forall u t, u < n -> body (row u) t = Ok (t + F u).
Lemma full_body : body_ok (tri_row g) full.
Proof. intros u t Hu. apply tri_row_ok; auto. Qed.
Lemma full_wedge : bsum n full = wedge g.
Proof.
  unfold wedge, full. apply bsum_ext. intros u Hu. rewrite (@sum_row n); [|apply sorted_lt_nodup, HS|intros x I; eapply HT; eauto].
  apply bsum_ext. intros v Hv. rewrite (common_sum HT HS), <- bsum_mul. reflexivity.
Qed.
Lemma suffix_upper : upper g -> body_ok (tri_suffix g) full.
Proof.
  intros U u t Hu. destruct (@tri_suffix_ok g HS (row u) t (HS u)) as (k & E & K & _); [intros v I; eapply HT; eauto|].
  rewrite E. rewrite K; [auto|]. intros v w _ J. apply U. exact J.
Qed.
Lemma suffix_lower : lower g -> body_ok (tri_suffix g) (fun _ => 0).
Proof.
  intros U u t Hu. destruct (@tri_suffix_ok g HS (row u) t (HS u)) as (k & E & _ & K); [intros v I; eapply HT; eauto|].
  rewrite E. rewrite K; [auto|]. intros v w _ J. apply U. exact J.
Qed.

Section Body.
Variable body : list nat -> nat -> res nat.
Variable F : nat -> nat.
Hypothesis B : body_ok body F.
Lemma idx_fold l : (forall x, In x l -> x < n) -> forall t, rfold (fun t i => do r <- vget g i; body r t) l t = Ok (t + sum (map F l)).
Proof.
  induction l as [|x l IH]; intros L t; cbn [rfold map sum]; [f_equal; lia|]. rewrite (@vget_nth _ g x []) by (apply L; now left). cbn [bind].
  rewrite B by (apply L; now left). cbn [bind]. rewrite IH by (intros; apply L; now right). f_equal. lia.
Qed.
Lemma row_fold : rfold (fun t r => body r t) g 0 = Ok (bsum n F).
Proof.
  assert (G : forall l, (forall x, In x l -> x < n) -> forall t, rfold (fun t r => body r t) (map (fun u => row u) l) t = Ok (t + sum (map F l))).
  { induction l as [|x l IH]; intros L t; cbn [rfold map sum]; [f_equal; lia|]. rewrite B by (apply L; now left). cbn [bind]. rewrite IH by (intros; apply L; now right). f_equal. lia. }
  specialize (G (seq 0 n) (fun x I => proj2 (proj1 (in_seq _ _ _) I)) 0). rewrite <- rows_seq in G. exact G.
Qed.
Lemma async_stride threads : 0 < threads ->
  tri_async threads (fun tid => rfold (fun t i => do r <- vget g i ; body r t) (stride n tid threads n) 0) = Ok (bsum n F).
Proof.
  intros Ht. unfold tri_async. rewrite (@rfold_add _ _ (fun tid => ssum g F threads tid)).
  - f_equal. cbn [plus]. apply (@ssum_all g F threads Ht n 0). reflexivity.
  - intros tid _. rewrite idx_fold; auto. intros x I. eapply stride_lt; eauto.
Qed.
(** Consecutive intervals. *)
Lemma intervals (f : nat -> nat) (b : nat -> nat) : forall k, (forall i, i < k -> b i <= b (S i)) ->
  sum (map (fun i => sum (map f (seq (b i) (b (S i) - b i)))) (seq 0 k)) = sum (map f (seq (b 0) (b k - b 0))) /\ b 0 <= b k.
Proof.
  induction k; intros M.
  - rewrite Nat.sub_diag. auto.
  - destruct IHk as (E & L); [intros; apply M; lia|]. specialize (M k (le_n _)). split; [|lia].
    rewrite seq_S, map_app, sum_app, E. cbn [map sum plus]. rewrite Nat.add_0_r, <- sum_app, <- map_app.
    replace (seq (b k)) with (seq (b 0 + (b k - b 0))) by (f_equal; lia). rewrite <- seq_app. replace (b k - b 0 + (b (S k) - b k)) with (b (S k) - b 0) by lia. auto.
Qed.
Lemma async_block threads : 0 < threads ->
  tri_async threads (fun tid => do b <- block n threads tid ; rfold (fun t i => do r <- vget g i ; body r t) (seq (fst b) (snd b - fst b)) 0) = Ok (bsum n F).
Proof.
  intros Ht. destruct (C19_blocks_tile n Ht) as (b & B0 & Bn & BS).
  assert (M : forall i, i < threads -> b i <= b (S i)) by (intros i Hi; apply BS; auto).
  assert (L : forall j k, j <= k -> k <= threads -> b j <= b k).
  { intros j k H. induction H; intros; auto. specialize (M m ltac:(lia)). specialize (IHle ltac:(lia)). lia. }
  unfold tri_async. rewrite (@rfold_add _ _ (fun tid => sum (map F (seq (b tid) (b (S tid) - b tid))))).
  - f_equal. cbn [plus]. rewrite (proj1 (intervals F b M)), B0, Bn, Nat.sub_0_r. auto.
  - intros tid I. apply in_seq in I. destruct (BS tid ltac:(lia)) as (E & _ & _). rewrite E. cbn [bind fst snd]. rewrite idx_fold; auto.
    intros x J. apply in_seq in J. specialize (L (S tid) threads ltac:(lia) ltac:(lia)). specialize (M tid ltac:(lia)). lia.
Qed.
End Body.

(** A pool whose tasks each add once. *)
Lemma run_add (T : Type) (step : T -> nat -> res (option T * nat)) (f : T -> nat) sched now ts s :
  (forall t s, In t ts -> step t s = Ok (None, s + f t)) -> run step (length ts) sched now ts s = Ok (s + sum (map f ts)).
Proof.
  intros H. destruct (@run_inv _ _ step (fun _ => 0) (fun l s' => incl l ts /\ s' + sum (map f l) = s + sum (map f ts))) with
    (fuel := length ts) (sched := sched) (now := now) (ts := ts) (s := s) as (s' & E & _ & P).
  - intros l1 t l2 s' (IN & Q). exists None, (s' + f t). split; [apply H, IN, in_or_app; right; now left|]. split; [|auto]. cbn [opt_list app]. split.
    + intros x I. apply IN. apply in_app_or in I. apply in_or_app. destruct I; auto. right. now right.
    + rewrite map_app, sum_app in *. cbn [map sum] in Q. lia.
  - split; [apply incl_refl|auto].
  - replace (sum (map (fun _ => 0) ts)) with 0; auto. clear. induction ts; cbn [map sum]; lia.
  - rewrite E. cbn [map sum] in P. f_equal. lia.
Qed.

(** The value of a row body, by row. *)
Definition rval (body : list nat -> nat -> res nat) (r : list nat) : nat := match body r 0 with Ok k => k | _ => 0 end.
Lemma rval_ok body F u : body_ok body F -> u < n -> rval body (row u) = F u.
Proof. intros B H. unfold rval. now rewrite B. Qed.
Lemma rval_sum body F : body_ok body F -> sum (map (rval body) g) = bsum n F.
Proof.
  intros B. rewrite rows_seq at 1. rewrite map_map. unfold bsum. f_equal. apply map_ext_in. intros u I. apply in_seq in I. apply rval_ok; auto. lia.
Qed.
Lemma in_row r : In r g -> exists u, u < n /\ r = row u.
Proof. intros I. destruct (In_nth g r [] I) as (u & L & E). eauto. Qed.

Lemma common_sym u v : u < n -> v < n -> common (row u) (row v) = common (row v) (row u).
Proof. intros _ _. rewrite !(common_sum HT HS). apply bsum_ext. intros. lia. Qed.

Lemma v2_ok : triangle_count_v2 g = Ok (bsum n full).
Proof.
  unfold triangle_count_v2.
  assert (G : forall m k t, k + m <= n -> rfold (v2_row g) (map (fun u => row u) (seq k m)) (k, t) = Ok (k + m, t + sum (map full (seq k m)))).
  { induction m; intros k t H; cbn [seq map rfold sum]; [do 2 f_equal; lia|]. unfold v2_row at 1. cbn [fst snd].
    rewrite rfold_ext with (f' := fun t v => do x <- Ok (common (row k) (row v)) ; Ok (t + x)).
    - rewrite (@rfold_add _ _ (fun v => common (row k) (row v))) by auto. cbn [bind].
      replace (k + 1) with (S k) by lia. rewrite IHm by lia. fold (full k). do 2 f_equal; lia.
    - intros s v I. assert (v < n) by (eapply HT; eauto). rewrite (@vget_nth _ g v []), (@vget_nth _ g k []) by lia. cbn [bind].
      rewrite inter_common by apply HS. cbn [bind]. rewrite common_sym by lia. auto. }
  specialize (G n 0 0 (le_n _)). rewrite <- rows_seq in G. rewrite G. auto.
Qed.

Lemma edge_op_ok u v : u < n -> In v (row u) -> edge_op g (u, v) = Ok (common (row u) (row v)).
Proof.
  intros H I. assert (v < n) by (eapply HT; eauto). unfold edge_op. cbn [fst snd]. rewrite (@vget_nth _ g u []), (@vget_nth _ g v []) by lia. cbn [bind].
  apply inter_common; apply HS.
Qed.
Definition eval (e : nat * nat) : nat := common (row (fst e)) (row (snd e)).
Lemma eval_sum b e : sum (map eval (edges_between g b e)) = sum (map full (seq b (e - b))).
Proof.
  unfold edges_between. generalize (e - b). intros k. revert b. induction k; intros b; cbn [seq flat_map map sum]; auto.
  rewrite map_app, sum_app, IHk. f_equal. unfold row_edges, full. now rewrite map_map.
Qed.
Lemma edges_between_in b e x : e <= n -> In x (edges_between g b e) -> fst x < n /\ In (snd x) (row (fst x)).
Proof.
  intros L I. unfold edges_between in I. apply in_flat_map in I. destruct I as (u & J & I). apply in_seq in J. unfold row_edges in I.
  apply in_map_iff in I. destruct I as (v & <- & I). cbn [fst snd]. split; auto. lia.
Qed.
Lemma edges_len b e : b <= e -> e <= n -> length (edges_between g b e) <= arcs g.
Proof.
  intros H L. assert (E : length (edges_between g 0 n) = arcs g).
  { unfold edges_between, arcs. rewrite Nat.sub_0_r. rewrite rows_seq at 3. rewrite map_map. generalize (seq 0 n). intros l.
    induction l as [|x l IH]; cbn [flat_map map sum]; auto. rewrite app_length, IH. f_equal. unfold row_edges. now rewrite map_length. }
  rewrite <- E, (@edges_between_app _ g 0 b n), (@edges_between_app _ g b e n) by lia. rewrite !app_length. lia.
Qed.
Lemma edges_visit r : or_begin r <= or_end r -> or_end r <= n -> edges_of_range (arcs g) g r = Ok (edges_between g (or_begin r) (or_end r)).
Proof. intros H L. apply edges_of_range_ok; auto. apply edges_len; auto. Qed.
Lemma v3_ok : triangle_count_v3 g = Ok (bsum n full).
Proof.
  unfold triangle_count_v3. rewrite edges_visit by (cbn; lia). cbn [bind or_make or_begin or_end].
  rewrite (@rfold_add _ _ eval); [|intros (u, v) I; apply edges_between_in in I; auto; apply edge_op_ok; tauto].
  rewrite eval_sum, Nat.sub_0_r. auto.
Qed.
Definition or_wf (r : orange) : Prop := or_begin r <= or_end r /\ or_end r <= n.
Lemma or_wf_split r : or_wf r -> or_wf (fst (or_split r)) /\ or_wf (snd (or_split r)).
Proof. intros (H & L). destruct (@or_split_ok r H) as (m & M & E & _). rewrite E. unfold or_wf. cbn. lia. Qed.
Lemma v14_ok t : triangle_count_v14 g t = Ok (bsum n full).
Proof.
  unfold triangle_count_v14. rewrite (@sum_ok _ _ or_split or_divisible (edges_of_range (arcs g) g) or_wf (fun r => edges_between g (or_begin r) (or_end r)) or_wf_split)
    with (F := eval).
  - unfold total. cbn [or_make or_begin or_end]. rewrite eval_sum, Nat.sub_0_r. f_equal. unfold bsum. lia.
  - intros r (H & L). apply edges_visit; auto.
  - intros r (u, v) (H & L) I. apply edges_between_in in I; auto. apply edge_op_ok; tauto.
  - intros r (H & L). destruct (@or_split_ok r H) as (m & M & E & _). rewrite E. cbn [fst snd or_begin or_end]. rewrite <- edges_between_app by lia. auto.
  - split; cbn; lia.
Qed.
Lemma v15_ok : triangle_count_v15 g = Ok (bsum n full).
Proof.
  unfold triangle_count_v15, neighbors_of_range. cbn [or_make or_begin or_end]. rewrite nr_visit_ok by lia. cbn [bind]. rewrite Nat.sub_0_r.
  assert (G : forall l, (forall x, In x l -> x < n) -> forall t, rfold (fun t p => tri_row g (snd p) t) (map (fun u => (u, row u)) l) t = Ok (t + sum (map full l))).
  { induction l as [|x l IH]; intros L t; cbn [rfold map sum snd]; [f_equal; lia|]. rewrite full_body by (apply L; now left). cbn [bind].
    rewrite IH by (intros; apply L; now right). f_equal. lia. }
  rewrite G; auto. intros x I. apply in_seq in I. lia.
Qed.
Lemma v7_ok F sched : body_ok (tri_suffix g) F -> triangle_count_v7 g sched = Ok (bsum n F).
Proof.
  intros B. unfold triangle_count_v7. rewrite (@run_add _ (v7_step g) (rval (tri_suffix g))).
  - cbn [plus]. now rewrite (rval_sum B).
  - intros r s I. destruct (in_row r I) as (u & Hu & ->). unfold v7_step. rewrite B by auto. cbn [bind plus]. now rewrite (rval_ok B).
Qed.
Lemma v10_ok outer inner : triangle_count_v10 g outer inner = Ok (bsum n full).
Proof.
  unfold triangle_count_v10. replace (length g) with (length (combine (seq 0 n) g)) at 1 by (rewrite combine_length, seq_length; lia).
  assert (C : combine (seq 0 n) g = map (fun u => (u, row u)) (seq 0 n)).
  { rewrite rows_seq at 2. generalize (seq 0 n). intros l. induction l as [|x l IH]; cbn [map combine]; auto. now f_equal. }
  rewrite C. rewrite (@run_add _ (v10_step g inner) (fun p => full (fst p))).
  - cbn [plus]. rewrite map_map. auto.
  - intros p s I. apply in_map_iff in I. destruct I as (u & <- & I). apply in_seq in I. unfold v10_step. cbn [fst snd].
    rewrite (@run_add _ (v10_inner g (row u)) (fun v => common (row u) (row v))).
    + reflexivity.
    + intros v t J. assert (v < n) by (eapply HT; eauto). unfold v10_inner. rewrite (@vget_nth _ g v []) by auto. cbn [bind]. rewrite inter_common by apply HS. auto.
Qed.

(** * Doubles *)
Open Scope N_scope.
Lemma rnd_small x : x < 2 ^ 53 -> rnd x = x.
Proof.
  intros H. unfold rnd. destruct (N.leb_spec (N.size x) 53) as [|L]; auto. exfalso. assert (S := N.size_le x).
  assert (2 ^ 54 <= 2 ^ N.size x) by (apply N.pow_le_mono_r; lia). rewrite N.succ_double_spec in S. change (2 ^ 54) with (2 * 2 ^ 53) in *. lia.
Qed.
(** Representable: below 2^53, or even. *)
Definition dbl (d : N) : Prop := d < 2 ^ 53 \/ N.even d = true.
Lemma rnd_dbl x : dbl (rnd x).
Proof.
  unfold rnd. destruct (N.leb_spec (N.size x) 53) as [L|L].
  - left. eapply N.lt_le_trans; [apply N.size_gt|]. apply N.pow_le_mono_r; lia.
  - right. set (q := if (_ || _)%bool then 1 else 0). rewrite N.even_mul, N.even_pow by lia. now rewrite orb_true_r.
Qed.
(** A double: a mantissa of 53 bits (2^53 itself is 2^52 * 2), and the distance of two numbers. *)
Definition is_double (d : N) : Prop := exists m e, m <= 2 ^ 53 /\ d = m * 2 ^ e.
Definition far (x y : N) : N := (x - y) + (y - x).
Lemma rnd_between x : 53 < N.size x -> let e := N.size x - 53 in let q := x / 2 ^ e in
  2 ^ 52 <= q < 2 ^ 53 /\ forall y, is_double y -> y <= q * 2 ^ e \/ (q + 1) * 2 ^ e <= y.
Proof.
  intros L e q. assert (PE : 2 ^ e <> 0) by (apply N.pow_nonzero; lia). assert (NZ : x <> 0) by (intros ->; simpl in L; lia).
  assert (SL := N.size_le x). rewrite N.succ_double_spec in SL. assert (SG := N.size_gt x).
  assert (E1 : 2 ^ N.size x = 2 ^ 53 * 2 ^ e) by (rewrite <- N.pow_add_r; f_equal; unfold e; lia). rewrite E1 in *.
  assert (DM := N.div_mod x (2 ^ e) PE). assert (ML := N.mod_lt x (2 ^ e) PE). fold q in DM.
  assert (Q2 : q < 2 ^ 53) by (apply N.div_lt_upper_bound; auto; lia).
  assert (E53 : 2 ^ 53 = 2 * 2 ^ 52) by reflexivity.
  assert (Q1 : 2 ^ 52 <= q).
  { apply N.div_le_lower_bound; auto. rewrite E53 in SL. assert (EV : exists h, 2 ^ e = 2 * h) by (exists (2 ^ (e - 1)); rewrite <- N.pow_succ_r by lia; f_equal; unfold e; lia).
    destruct EV as (h & EV). rewrite EV in *. nia. }
  split; auto. intros y (m & k & M & ->). destruct (N.le_gt_cases e k) as [KE|KE].
  - replace k with (k - e + e) by lia. rewrite N.pow_add_r, N.mul_assoc. set (c := m * 2 ^ (k - e)). destruct (N.le_gt_cases c q) as [C|C]; [left|right]; nia.
  - left. assert (E2 : 2 ^ e = 2 ^ k * 2 ^ (e - k)) by (rewrite <- N.pow_add_r; f_equal; lia). assert (P1 : 2 ^ 1 <= 2 ^ (e - k)) by (apply N.pow_le_mono_r; lia). change (2 ^ 1) with 2 in P1.
    rewrite E2. transitivity (2 ^ 52 * (2 ^ k * 2)); [rewrite E53 in M; nia|]. apply N.mul_le_mono; auto. apply N.mul_le_mono_l. auto.
Qed.
Lemma rnd_double x : is_double (rnd x).
Proof.
  unfold rnd. destruct (N.leb_spec (N.size x) 53) as [L|L].
  - exists x, 0. split; [|simpl; lia]. apply N.lt_le_incl. eapply N.lt_le_trans; [apply N.size_gt|]. apply N.pow_le_mono_r; lia.
  - destruct (rnd_between x L) as [[Q1 Q2] _]. eexists _, _. split; [|reflexivity]. destruct (_ || _)%bool; lia.
Qed.
Lemma rnd_nearest x y : is_double y -> far x (rnd x) <= far x y.
Proof.
  intros Y. unfold rnd. destruct (N.leb_spec (N.size x) 53) as [L|L]; [unfold far; lia|].
  destruct (rnd_between x L) as [[Q1 Q2] B]. specialize (B y Y). set (e := N.size x - 53) in *. cbv zeta in *. set (q := x / 2 ^ e) in *.
  assert (PE : 2 ^ e <> 0) by (apply N.pow_nonzero; lia). assert (DM := N.div_mod x (2 ^ e) PE). assert (ML := N.mod_lt x (2 ^ e) PE). fold q in DM. set (r := x mod 2 ^ e) in *.
  assert (H2 : 2 ^ e = 2 * 2 ^ (e - 1)) by (rewrite <- N.pow_succ_r by lia; f_equal; unfold e; lia). set (h := 2 ^ (e - 1)) in *.
  set (lo := q * 2 ^ e) in *. replace (2 ^ e * q) with lo in DM by (unfold lo; lia). replace ((q + 1) * 2 ^ e) with (lo + 2 ^ e) in * by (unfold lo; lia).
  destruct (N.ltb_spec h r) as [U|U]; cbn [orb].
  - replace ((q + 1) * 2 ^ e) with (lo + 2 ^ e) by (unfold lo; lia). unfold far. destruct B; lia.
  - destruct (N.eqb_spec r h) as [E|E]; cbn [andb].
    + destruct (N.odd q); [replace ((q + 1) * 2 ^ e) with (lo + 2 ^ e) by (unfold lo; lia)|replace ((q + 0) * 2 ^ e) with lo by (unfold lo; lia)]; unfold far; destruct B; lia.
    + replace ((q + 0) * 2 ^ e) with lo by (unfold lo; lia). unfold far. destruct B; lia.
Qed.
Lemma dadd_small a k : a + N.of_nat k < 2 ^ 53 -> dadd a k = a + N.of_nat k.
Proof. intros H. unfold dadd. rewrite (@rnd_small (N.of_nat k)) by lia. apply rnd_small; auto. Qed.
Lemma fold_dadd (X : Type) (f : X -> nat) l : forall a, a + N.of_nat (sum (map f l)) < 2 ^ 53 ->
  fold_left (fun a x => dadd a (f x)) l a = a + N.of_nat (sum (map f l)).
Proof.
  induction l as [|x l IH]; intros a H; cbn [fold_left map sum] in *; [lia|]. rewrite Nat2N.inj_add in *. rewrite dadd_small by lia. rewrite IH by lia. lia.
Qed.
Lemma fold_dbl (X : Type) (f : X -> nat) l : forall a, dbl a -> dbl (fold_left (fun a x => dadd a (f x)) l a).
Proof. induction l as [|x l IH]; intros a H; cbn [fold_left]; auto. apply IH. apply rnd_dbl. Qed.
Close Scope N_scope.

Definition cr_els (r : crange) : list (list nat) := map (fun u => row u) (residues n (cr_stride r) (cr_cycle r)).
Lemma cr_els_visit r : cr_wf n r -> cr_visit n g r = Ok (cr_els r).
Proof.
  intros H. destruct (@cr_visit_ok _ g n r n eq_refl H (le_n _)) as (vals & E & _ & M). rewrite E. f_equal. unfold cr_els. clear E.
  assert (L : forall x, In x (residues n (cr_stride r) (cr_cycle r)) -> x < n) by (intros x I; apply filter_In in I; destruct I as (I & _); apply in_seq in I; lia).
  revert M L. generalize (residues n (cr_stride r) (cr_cycle r)). intros l. revert vals.
  induction l as [|x l IH]; intros vals M L; destruct vals as [|y vals]; try discriminate; auto. cbn [map] in M. injection M as M1 M2.
  rewrite (@vget_nth _ g x []) in M1 by (apply L; now left). injection M1 as ->. cbn [map]. f_equal. apply IH; auto. intros; apply L; now right.
Qed.
Lemma cr_els_in r x : In x (cr_els r) -> exists u, u < n /\ x = row u.
Proof. intros I. apply in_map_iff in I. destruct I as (u & <- & I). apply filter_In in I. destruct I as (I & _). apply in_seq in I. exists u. split; auto. lia. Qed.
Lemma cr_els_split r : cr_wf n r -> Permutation (cr_els r) (cr_els (fst (cr_split r)) ++ cr_els (snd (cr_split r))).
Proof. intros (_ & C). unfold cr_els, cr_split. cbn [fst snd cr_stride cr_cycle]. rewrite <- map_app. apply Permutation_map, residues_split. auto. Qed.

Section Cyclic.
Variable body : list nat -> nat -> res nat.
Variable F : nat -> nat.
Hypothesis B : body_ok body F.
Variable c : crange.
Hypothesis WF : cr_wf n c.
Hypothesis C1 : cr_stride c = 1%Z.
Hypothesis C0 : cr_cycle c = 0%Z.
Notation op := (fun r => body r 0).
Lemma cr_op r x : cr_wf n r -> In x (cr_els r) -> op x = Ok (rval body x).
Proof. intros _ I. destruct (cr_els_in _ _ I) as (u & Hu & ->). rewrite B by auto. now rewrite (rval_ok B). Qed.
Lemma cr_total : sum (map (rval body) (cr_els c)) = bsum n F.
Proof. unfold cr_els. rewrite C1, C0, residues_one, <- rows_seq. apply rval_sum; auto. Qed.
Lemma cr_exact t : (N.of_nat (bsum n F) < 2 ^ 53)%N ->
  parallel_reduce cr_split cr_divisible (cr_visit n g) op dadd djoin t c 0%N = Ok (N.of_nat (bsum n F)).
Proof.
  intros H. unfold parallel_reduce. destruct (cr_divisible c).
  - destruct (@tbb_rel _ _ cr_split (cr_visit n g) (cr_wf n) cr_els (@cr_split_wf n) cr_els_visit _ _ op (rval body) dadd djoin cr_op
      (fun r acc _ d => (acc + N.of_nat (sum (map (rval body) (cr_els r))) < 2 ^ 53 -> d = acc + N.of_nat (sum (map (rval body) (cr_els r))))%N) 0%N) with (t := t) (r := c) (acc := 0%N)
      as (d & E & P); auto.
    + intros r acc _ L. apply fold_dadd; auto.
    + intros r acc x y _ _ Hr PX PY L. assert (Q := @total_split _ _ cr_split (cr_wf n) cr_els (rval body) cr_els_split _ Hr). unfold total in Q. rewrite Q, Nat2N.inj_add in *. rewrite PX in PY by lia. rewrite PY by lia. lia.
    + intros r acc x y _ _ Hr PX PY L. assert (Q := @total_split _ _ cr_split (cr_wf n) cr_els (rval body) cr_els_split _ Hr). unfold total in Q. rewrite Q, Nat2N.inj_add in *. rewrite PX, PY by lia.
      unfold djoin. rewrite rnd_small by lia. lia.
    + rewrite E. f_equal. rewrite P; rewrite cr_total; auto.
  - rewrite (@seq_ok _ _ (cr_visit n g) (cr_wf n) cr_els cr_els_visit _ _ op (rval body) dadd cr_op) by auto.
    rewrite fold_dadd; rewrite cr_total; auto.
Qed.
Lemma cr_dbl t : exists d, parallel_reduce cr_split cr_divisible (cr_visit n g) op dadd djoin t c 0%N = Ok d /\ dbl d.
Proof.
  assert (D0 : dbl 0) by (left; reflexivity). unfold parallel_reduce. destruct (cr_divisible c).
  - destruct (@tbb_rel _ _ cr_split (cr_visit n g) (cr_wf n) cr_els (@cr_split_wf n) cr_els_visit _ _ op (rval body) dadd djoin cr_op
      (fun r acc _ d => dbl acc -> dbl d) 0%N) with (t := t) (r := c) (acc := 0%N) as (d & E & P); eauto.
    + intros. apply fold_dbl; auto.
    + intros. apply rnd_dbl.
  - rewrite (@seq_ok _ _ (cr_visit n g) (cr_wf n) cr_els cr_els_visit _ _ op (rval body) dadd cr_op) by auto. eexists. split; eauto. apply fold_dbl; auto.
Qed.
End Cyclic.
End Rows.

(** * The container *)
Section Csr.
Variable g : list (list nat).
Hypothesis HT : targets_ok g.
Hypothesis HS : rows_sorted g.
Notation n := (length g).
Notation row u := (nth u g []).
Notation ind := (map (psum g) (seq 0 (n + 1))).
Notation tgt := (concat g).
Lemma ind_get i : i <= n -> vget ind i = Ok (psum g i).
Proof. intros H. apply vget_Ok. apply nth_error_psums. auto. Qed.
Lemma ind_len : length ind = n + 1.
Proof. now rewrite map_length, seq_length. Qed.
Lemma ind_row_ok u : u < n -> ind_row ind tgt u = Ok (row u).
Proof. intros H. unfold ind_row. rewrite !ind_get by lia. cbn [bind]. replace (u + 1) with (S u) by lia. apply slice_concat. auto. Qed.
Lemma es_suffix_ok r : (forall v, In v r -> v < n) -> forall t, es_suffix ind tgt r t = tri_suffix g r t.
Proof.
  induction r as [|v r IH]; intros L t; cbn [es_suffix tri_suffix]; auto. rewrite ind_row_ok, (@vget_nth _ g v []) by (apply L; now left). cbn [bind].
  destruct (intersection_size (v :: r) (row v)); cbn [bind]; auto. apply IH. intros; apply L; now right.
Qed.
Lemma es_full_ok r t : (forall v, In v r -> v < n) -> es_full ind tgt r t = tri_row g r t.
Proof. intros L. unfold es_full, tri_row. apply rfold_ext. intros s v I. rewrite ind_row_ok, (@vget_nth _ g v []) by auto. auto. Qed.

Lemma upper_bound_mono l x y : x <= y -> upper_bound l x <= upper_bound l y.
Proof. intros H. induction l as [|z l IH]; cbn [upper_bound]; auto. destruct (Nat.ltb_spec x z), (Nat.ltb_spec y z); lia. Qed.
Lemma source_mono x y : x <= y -> ind_source ind x <= ind_source ind y.
Proof. intros H. unfold ind_source. assert (M := @upper_bound_mono ind x y H). lia. Qed.
Lemma source_end : ind_source ind (length tgt) = n.
Proof.
  unfold ind_source. destruct (upper_bound_spec ind (length tgt)) as (_ & U2 & U3). rewrite ind_len in *.
  destruct (Nat.eq_dec (upper_bound ind (length tgt)) (n + 1)) as [->|N]; [lia|]. specialize (U3 ltac:(lia)). exfalso.
  assert (nth (upper_bound ind (length tgt)) ind 0 = psum g (upper_bound ind (length tgt))).
  { rewrite nth_map_seq by lia. auto. }
  assert (P := psum_le g (upper_bound ind (length tgt))). lia.
Qed.
Lemma source_start u : u < ind_source ind 0 -> u < n /\ row u = [].
Proof.
  intros H. unfold ind_source in H. destruct (upper_bound_spec ind 0) as (U1 & U2 & _). rewrite ind_len in U2. split; [lia|].
  specialize (U1 (S u) ltac:(lia)). rewrite nth_map_seq in U1 by lia. rewrite (@psum_S _ g u []) in U1 by lia.
  destruct (row u) as [|x r]; auto. simpl in U1. lia.
Qed.
Lemma source_le x : ind_source ind x <= n.
Proof. unfold ind_source. destruct (upper_bound_spec ind x) as (_ & U2 & _). rewrite ind_len in U2. lia. Qed.

Lemma edgesplit_ok body F threads : (forall u t, u < n -> body (row u) t = Ok (t + F u)) -> (forall u, u < n -> row u = [] -> F u = 0) ->
  0 < threads -> edgesplit body ind tgt threads = Ok (bsum n F).
Proof.
  intros B Z Ht. destruct (C19_blocks_tile (length tgt) Ht) as (b & B0 & Bn & BS).
  set (s := fun i => ind_source ind (b i)).
  assert (M : forall i, i < threads -> s i <= s (S i)) by (intros i Hi; apply source_mono, BS; auto).
  unfold edgesplit, tri_async. rewrite (@rfold_add _ _ (fun tid => sum (map F (seq (s tid) (s (S tid) - s tid))))).
  - f_equal. cbn [plus]. destruct (intervals F s M) as (-> & L). assert (ST : s threads = n) by (unfold s; rewrite Bn; apply source_end). rewrite ST. unfold bsum.
    replace n with (s 0 + (n - s 0)) at 2 by (assert (X := source_le (b 0)); fold (s 0) in X; lia). rewrite seq_app, map_app, sum_app.
    replace (sum (map F (seq 0 (s 0)))) with 0; [auto|]. symmetry. apply sum_map_0. intros u I. apply in_seq in I. unfold s in I. rewrite B0 in I.
    destruct (@source_start u) as (X & Y); [lia|]. auto.
  - intros tid I. apply in_seq in I. destruct (BS tid ltac:(lia)) as (E & _ & _). rewrite E. cbn [bind fst snd]. fold (s tid) (s (S tid)).
    specialize (M tid ltac:(lia)). destruct (Nat.ltb_spec (s (S tid)) (s tid)); [lia|].
    assert (G : forall l, (forall x, In x l -> x < n) -> forall t, rfold (fun t i => do r <- ind_row ind tgt i; body r t) l t = Ok (t + sum (map F l))).
    { induction l as [|x l IH]; intros L t; cbn [rfold map sum]; [f_equal; lia|]. rewrite ind_row_ok by (apply L; now left). cbn [bind].
      rewrite B by (apply L; now left). cbn [bind]. rewrite IH by (intros; apply L; now right). f_equal. lia. }
    rewrite G; auto. intros x J. apply in_seq in J. assert (X := source_le (b (S tid))). fold (s (S tid)) in X. lia.
Qed.

(** * Bisection *)
Section Bisect.
Variable a : list nat.
Notation at_ i := (nth i a 0).
Definition inc (f l : nat) : Prop := forall i j, f <= i -> i < j -> j < l -> at_ i < at_ j.
Lemma lower_bound_ok x : forall fuel f len, f + len <= length a -> inc f (f + len) -> len <= fuel ->
  exists p, lower_bound fuel a f len x = Ok p /\ f <= p <= f + len /\ (forall i, f <= i < p -> at_ i < x) /\ (forall i, p <= i < f + len -> x <= at_ i).
Proof.
  induction fuel; intros f len LA IN LF; cbn [lower_bound].
  - destruct (Nat.eqb_spec len 0); [|lia]. exists f. split; auto. split; [lia|]. split; intros; lia.
  - destruct (Nat.eqb_spec len 0) as [->|NZ]; [exists f; split; auto; split; [lia|]; split; intros; lia|].
    assert (HL : len / 2 < len) by (apply Nat.div_lt; lia). rewrite (@vget_nth _ a (f + len / 2) 0) by lia. cbn [bind].
    destruct (Nat.ltb_spec (at_ (f + len / 2)) x) as [LT|GE].
    + destruct (IHfuel (f + len / 2 + 1) (len - len / 2 - 1)) as (p & E & P1 & P2 & P3); [lia| |lia|].
      { intros i j. intros. apply IN; lia. }
      exists p. split; auto. split; [lia|]. split.
      * intros i Hi. destruct (Nat.lt_trichotomy i (f + len / 2)) as [C|[->|C]]; [|auto|apply P2; lia]. specialize (IN i (f + len / 2)). lia.
      * intros i Hi. apply P3. lia.
    + destruct (IHfuel f (len / 2)) as (p & E & P1 & P2 & P3); [lia| |lia|].
      { intros i j. intros. apply IN; lia. }
      exists p. split; auto. split; [lia|]. split; auto.
      intros i Hi. destruct (Nat.lt_ge_cases i (f + len / 2)) as [C|C]; [apply P3; lia|].
      destruct (Nat.eq_dec i (f + len / 2)) as [->|]; auto. specialize (IN (f + len / 2) i). lia.
Qed.
Definition sl (f l : nat) : list nat := map (fun i => at_ i) (seq f (l - f)).
Lemma sl_nil f l : l <= f -> sl f l = [].
Proof. intros H. unfold sl. replace (l - f) with 0 by lia. auto. Qed.
Lemma sl_cons f l : f < l -> sl f l = at_ f :: sl (S f) l.
Proof. intros H. unfold sl. replace (l - f) with (S (l - S f)) by lia. auto. Qed.
Lemma sl_app f p l : f <= p <= l -> sl f l = sl f p ++ sl p l.
Proof.
  intros H. unfold sl. replace (seq p) with (seq (f + (p - f))) by (f_equal; lia). rewrite <- map_app, <- seq_app. do 2 f_equal. lia.
Qed.
Lemma sl_in f l y : In y (sl f l) <-> exists i, f <= i < l /\ y = at_ i.
Proof.
  unfold sl. rewrite in_map_iff. split.
  - intros (i & E & I). apply in_seq in I. exists i. split; auto. lia.
  - intros (i & I & ->). exists i. split; auto. apply in_seq. lia.
Qed.
Lemma common_skip_l l m b : (forall y, In y l -> ~ In y b) -> common (l ++ m) b = common m b.
Proof.
  intros H. unfold common. rewrite filter_app, app_length. replace (filter (fun x => mem x b) l) with (@nil nat); auto. symmetry.
  induction l as [|y l IH]; cbn [filter]; auto. rewrite (proj2 (mem_false y b)) by (apply H; now left). apply IH. intros; apply H; now right.
Qed.
Lemma common_skip_r b l m : (forall y, In y l -> ~ In y b) -> common b (l ++ m) = common b m.
Proof.
  intros H. unfold common. f_equal. apply filter_ext_in. intros y I. destruct (mem y m) eqn:E.
  - apply mem_In. apply in_or_app. right. now apply mem_In.
  - apply mem_false. intros J. apply in_app_or in J. destruct J as [J|J]; [now apply (H y)|]. apply mem_false in E. auto.
Qed.
Lemma common_nil_r l : common l [] = 0.
Proof. unfold common. induction l; cbn [filter]; auto. Qed.
Lemma common_same x l m : ~ In x l -> common (x :: l) (x :: m) = S (common l m).
Proof.
  intros H. unfold common. cbn [filter]. assert (M : mem x (x :: m) = true) by (apply mem_In; now left). rewrite M. cbn [length]. do 2 f_equal.
  apply filter_ext_in. intros y I. unfold mem. cbn [existsb]. destruct (Nat.eqb_spec y x) as [->|]; [contradiction|]. auto.
Qed.
Lemma lb_ok : forall fuel f1 l1 f2 l2 k, f1 <= l1 -> f2 <= l2 -> l1 <= length a -> l2 <= length a -> inc f1 l1 -> inc f2 l2 -> (l1 - f1) + (l2 - f2) <= fuel ->
  lb_intersection fuel a f1 l1 f2 l2 k = Ok (k + common (sl f1 l1) (sl f2 l2)).
Proof.
  induction fuel; intros f1 l1 f2 l2 k H1 H2 L1 L2 I1 I2 LF; cbn [lb_intersection].
  - destruct (Nat.eqb_spec f1 l1); [|lia]. rewrite sl_nil by lia. cbn. f_equal. lia.
  - destruct (Nat.eqb_spec f1 l1) as [->|N1]; [rewrite (@sl_nil l1 l1) by lia; cbn; f_equal; lia|].
    destruct (Nat.eqb_spec f2 l2) as [->|N2]; [rewrite (@sl_nil l2 l2) by lia; rewrite common_nil_r; cbn; f_equal; lia|]. cbn [orb].
    rewrite (@vget_nth _ a f1 0), (@vget_nth _ a f2 0) by lia. cbn [bind].
    assert (G2 : forall y, In y (sl f2 l2) -> at_ f2 <= y).
    { intros y J. apply sl_in in J. destruct J as (i & Hi & ->). destruct (Nat.eq_dec i f2) as [->|]; auto. specialize (I2 f2 i). lia. }
    assert (G1 : forall y, In y (sl f1 l1) -> at_ f1 <= y).
    { intros y J. apply sl_in in J. destruct J as (i & Hi & ->). destruct (Nat.eq_dec i f1) as [->|]; auto. specialize (I1 f1 i). lia. }
    destruct (Nat.ltb_spec (at_ f1) (at_ f2)) as [LT|GE]; [|destruct (Nat.ltb_spec (at_ f2) (at_ f1)) as [LT|EQ]].
    + destruct (@lower_bound_ok (at_ f2) (l1 - f1) (f1 + 1) (l1 - (f1 + 1))) as (p & E & P1 & P2 & P3); [lia| |lia|].
      { intros i j. intros. apply I1; lia. }
      rewrite E. cbn [bind]. rewrite IHfuel; try lia; auto; [|intros i j; intros; apply I1; lia].
      rewrite (@sl_app f1 p l1) by lia. rewrite common_skip_l; auto. intros y J K. apply G2 in K. apply sl_in in J. destruct J as (i & Hi & ->).
      destruct (Nat.eq_dec i f1) as [->|]; [lia|]. specialize (P2 i). lia.
    + destruct (@lower_bound_ok (at_ f1) (l2 - f2) (f2 + 1) (l2 - (f2 + 1))) as (p & E & P1 & P2 & P3); [lia| |lia|].
      { intros i j. intros. apply I2; lia. }
      rewrite E. cbn [bind]. rewrite IHfuel; try lia; auto; [|intros i j; intros; apply I2; lia].
      rewrite (@sl_app f2 p l2) by lia. rewrite common_skip_r; auto. intros y J K. apply G1 in K. apply sl_in in J. destruct J as (i & Hi & ->).
      destruct (Nat.eq_dec i f2) as [->|]; [lia|]. specialize (P2 i). lia.
    + assert (X : at_ f1 = at_ f2) by lia. rewrite IHfuel; try lia; [|intros i j; intros; apply I1; lia|intros i j; intros; apply I2; lia].
      rewrite (@sl_cons f1 l1), (@sl_cons f2 l2) by lia. rewrite X, common_same; [replace (f1 + 1) with (S f1) by lia; replace (f2 + 1) with (S f2) by lia; f_equal; lia|].
      rewrite <- X. intros J. apply sl_in in J. destruct J as (i & Hi & Q). specialize (I1 f1 i). lia.
Qed.
End Bisect.
Lemma psum_end : psum g n = length tgt.
Proof. apply psum_all. auto. Qed.
Lemma tgt_nth u i : u < n -> i < length (row u) -> nth (psum g u + i) tgt 0 = nth i (row u) 0.
Proof.
  intros Hu Hi. assert (SC := skipn_psum g u). rewrite (@CsrProofs.skipn_nth_cons _ g u []) in SC by auto. cbn [concat] in SC.
  assert (E : nth i (skipn (psum g u) tgt) 0 = nth (psum g u + i) tgt 0).
  { generalize (psum g u). intros k. generalize tgt. induction k; intros l; cbn [skipn plus]; auto. destruct l; [destruct i; auto|]. cbn [nth]. apply IHk. }
  rewrite <- E, SC, app_nth1 by auto. auto.
Qed.
Lemma sl_row u : u < n -> sl tgt (psum g u) (psum g (S u)) = row u.
Proof.
  intros H. unfold sl. rewrite (@psum_S _ g u []) by auto. replace (psum g u + length (row u) - psum g u) with (length (row u)) by lia.
  assert (G : forall r s, (forall i, i < length r -> nth (s + i) tgt 0 = nth i r 0) -> map (fun i => nth i tgt 0) (seq s (length r)) = r).
  { induction r as [|x r IH]; intros s Q; cbn [length seq map]; auto. f_equal; [specialize (Q 0 ltac:(cbn; lia)); rewrite Nat.add_0_r in Q; auto|].
    apply IH. intros i Hi. specialize (Q (S i) ltac:(cbn; lia)). cbn [nth] in Q. rewrite <- Q. f_equal. lia. }
  apply G. intros i Hi. apply tgt_nth; auto.
Qed.
Lemma sorted_nth r : StronglySorted lt r -> forall i j, i < j -> j < length r -> nth i r 0 < nth j r 0.
Proof.
  induction 1 as [|x r S IH FA]; intros i j H L; cbn [length] in L; [lia|]. destruct j; [lia|]. cbn [nth]. destruct i.
  - rewrite Forall_forall in FA. apply FA, nth_In. lia.
  - apply IH; lia.
Qed.
Lemma inc_row u : u < n -> inc tgt (psum g u) (psum g (S u)).
Proof.
  intros H i j Hi Hij Hj. rewrite (@psum_S _ g u []) in Hj by auto. assert (S := sorted_nth (HS u) (i := i - psum g u) (j := j - psum g u) ltac:(lia) ltac:(lia)).
  rewrite <- !tgt_nth in S by lia. replace (psum g u + (i - psum g u)) with i in S by lia. replace (psum g u + (j - psum g u)) with j in S by lia. auto.
Qed.
Lemma psum_lt u : u < n -> psum g u <= psum g (S u) <= length tgt.
Proof. intros H. split; [apply psum_mono; lia|apply psum_le]. Qed.
Lemma addr_relaxed k : k <= length tgt -> addr false tgt k = Ok k.
Proof. intros H. unfold addr. destruct (Nat.ltb_spec k (length tgt)); auto. destruct (Nat.eqb_spec k (length tgt)); auto. lia. Qed.
Lemma vc_row_ok i t : i < n -> vc_row false ind tgt t i = Ok (t + full g i).
Proof.
  intros H. unfold vc_row. rewrite !ind_get by lia. cbn [bind]. replace (i + 1) with (S i) by lia.
  assert (P := psum_lt H). unfold full. replace (map (fun v => common (row i) (row v)) (row i)) with (map (fun v => common (row i) (row v)) (sl tgt (psum g i) (psum g (S i)))) by (now rewrite sl_row). unfold sl. rewrite map_map.
  rewrite <- (@rfold_add _ (fun j => Ok (common (row i) (row (nth j tgt 0))))) by auto.
  apply rfold_ext. intros s j J. apply in_seq in J. rewrite (@vget_nth _ tgt j 0) by lia. cbn [bind].
  assert (IN : In (nth j tgt 0) (row i)) by (rewrite <- (sl_row H); apply sl_in; exists j; split; auto; lia).
  set (v := nth j tgt 0) in *. assert (V : v < n) by (eapply HT; eauto). assert (Q := psum_lt V).
  rewrite !ind_get by lia. cbn [bind]. replace (v + 1) with (S v) by lia. rewrite !addr_relaxed by lia. cbn [bind].
  rewrite lb_ok; try lia; try (apply inc_row; auto). rewrite !sl_row by auto. rewrite (common_sym HT HS) by auto. auto.
Qed.
Lemma vc_ok : triangle_count_vc false ind tgt = Ok (bsum n (full g)).
Proof.
  unfold triangle_count_vc. rewrite ind_len. replace (n + 1 - 1) with n by lia.
  assert (G : forall l, (forall x, In x l -> x < n) -> forall t, rfold (vc_row false ind tgt) l t = Ok (t + sum (map (full g) l))).
  { induction l as [|x l IH]; intros L t; cbn [rfold map sum]; [f_equal; lia|]. rewrite vc_row_ok by (apply L; now left). cbn [bind].
    rewrite IH by (intros; apply L; now right). f_equal. lia. }
  rewrite G; auto. intros x J. apply in_seq in J. lia.
Qed.

(** ** Strictly read *)
Lemma addr_strict k : addr true tgt k = Ub \/ addr true tgt k = addr false tgt k.
Proof. unfold addr. destruct (k <? length tgt); auto. Qed.
Lemma rfold_ub (S X : Type) (f h : S -> X -> res S) l : (forall s x, In x l -> f s x = Ub \/ f s x = h s x) -> forall s, rfold f l s = Ub \/ rfold f l s = rfold h l s.
Proof.
  induction l as [|x l IH]; intros H s; cbn [rfold]; auto. destruct (H s x (or_introl eq_refl)) as [->| ->]; auto. destruct (h s x); cbn [bind]; auto. apply IH.
  intros; apply H; now right.
Qed.
Lemma vc_row_strict i t : vc_row true ind tgt t i = Ub \/ vc_row true ind tgt t i = vc_row false ind tgt t i.
Proof.
  unfold vc_row. destruct (vget ind i) as [b| |]; cbn [bind]; auto. destruct (vget ind (i + 1)) as [e| |]; cbn [bind]; auto.
  apply rfold_ub. intros s j _. destruct (vget tgt j) as [k| |]; cbn [bind]; auto. destruct (vget ind k) as [k2| |]; cbn [bind]; auto.
  destruct (vget ind (k + 1)) as [k3| |]; cbn [bind]; auto.
  destruct (addr_strict k2) as [->| ->]; auto. destruct (addr false tgt k2); cbn [bind]; auto.
  destruct (addr_strict k3) as [->| ->]; auto. destruct (addr false tgt k3); cbn [bind]; auto.
  destruct (addr_strict b) as [->| ->]; auto. destruct (addr false tgt b); cbn [bind]; auto.
  destruct (addr_strict e) as [->| ->]; auto.
Qed.
Lemma last_row : tgt <> [] -> exists i, i < n /\ row i <> [] /\ psum g (S i) = length tgt.
Proof.
  assert (G : forall k, k <= n -> psum g (n - k) = length tgt \/ exists i, i < n /\ row i <> [] /\ psum g (S i) = length tgt).
  { induction k; intros Hk; [left; rewrite Nat.sub_0_r; apply psum_end|]. destruct (IHk ltac:(lia)) as [E|E]; auto.
    destruct (row (n - S k)) as [|x r] eqn:R.
    - left. rewrite <- E. replace (n - k) with (S (n - S k)) by lia. rewrite (@psum_S _ g (n - S k) []) by lia. rewrite R. simpl. lia.
    - right. exists (n - S k). split; [lia|]. rewrite R. split; [discriminate|]. rewrite <- E. f_equal. lia. }
  intros N. destruct (G n (le_n _)) as [E|E]; auto. rewrite Nat.sub_diag in E. cbn in E. destruct (concat g); [contradiction|discriminate].
Qed.
Lemma vc_strict_ub : tgt <> [] -> triangle_count_vc true ind tgt = Ub.
Proof.
  intros N. destruct (last_row N) as (i & Hi & NE & PE).
  assert (U : forall t, vc_row true ind tgt t i = Ub).
  { intros t. unfold vc_row. rewrite !ind_get by lia. cbn [bind]. replace (i + 1) with (S i) by lia. rewrite PE.
    assert (Q := @psum_S _ g i [] Hi). destruct (row i) as [|x r] eqn:R; [contradiction|]. cbn [length] in Q.
    replace (length tgt - psum g i) with (S (length r)) by lia. cbn [seq rfold].
    assert (V : nth (psum g i) tgt 0 = x) by (assert (Y := @tgt_nth i 0 Hi); rewrite R, Nat.add_0_r in Y; apply Y; cbn; lia).
    rewrite (@vget_nth _ tgt (psum g i) 0) by lia. rewrite V. cbn [bind].
    assert (XN : x < n) by (apply (HT i); unfold edge; rewrite R; now left).
    rewrite !ind_get by lia. cbn [bind].
    destruct (addr_strict (psum g x)) as [->| ->]; auto. rewrite addr_relaxed by apply psum_le. cbn [bind].
    destruct (addr_strict (psum g (x + 1))) as [->| ->]; auto. rewrite addr_relaxed by apply psum_le. cbn [bind].
    destruct (addr_strict (psum g i)) as [->| ->]; auto. rewrite addr_relaxed by apply psum_le. cbn [bind].
    unfold addr. destruct (Nat.ltb_spec (length tgt) (length tgt)); [lia|]. reflexivity. }
  unfold triangle_count_vc. rewrite ind_len. replace (n + 1 - 1) with n by lia. replace (seq 0 n) with (seq 0 i ++ i :: seq (S i) (n - S i)) by (change (i :: seq (S i) (n - S i)) with (seq (0 + i) (S (n - S i))); rewrite <- seq_app; f_equal; lia). rewrite rfold_app.
  assert (G : forall l, (forall x, In x l -> x < n) -> forall t, rfold (vc_row true ind tgt) l t = Ub \/ exists t', rfold (vc_row true ind tgt) l t = Ok t').
  { induction l as [|x l IH]; intros L t; cbn [rfold]; eauto. destruct (vc_row_strict x t) as [->| ->]; auto. rewrite vc_row_ok by (apply L; now left).
    cbn [bind]. apply IH. intros; apply L; now right. }
  destruct (G (seq 0 i)) with (t := 0) as [->|(t' & ->)]; auto.
  - intros x J. apply in_seq in J. lia.
  - cbn [bind rfold]. rewrite U. auto.
Qed.
End Csr.
