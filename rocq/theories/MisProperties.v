(** C39 (greedy independent set), C40 (dag_range, dag_based_mis) and C41 (gap finder, colouring). *)
From Coq Require Import List Arith Lia Bool Sorting.Sorted Permutation.
From Verif Require Import Base GraphLib MisModel MisProofs DagProofs DagProofs2.
Import ListNotations.
Set Implicit Arguments.

(** ** Specification vocabulary *)
Definition independent (g : list (list nat)) (M : nat -> Prop) : Prop := forall u v, M u -> M v -> u <> v -> ~ edge g u v.
Definition maximal (g : list (list nat)) (M : nat -> Prop) : Prop :=
  forall v, v < length g -> ~ M v -> exists u, M u /\ u <> v /\ (edge g u v \/ edge g v u).
(** sym g: u -> v stored implies v -> u stored. *)

(** ** C39 *)
(** What the loop computes on any graph: the vertices appended, in increasing order, are those without an earlier selected
    vertex that has an arc to them. *)
Theorem C39_greedy g m0 : targets_ok g ->
  exists M, maximal_independent_set g m0 = Ok (m0 ++ M) /\ StronglySorted lt M /\
    forall v, In v M <-> v < length g /\ ~ exists u, In u M /\ u < v /\ edge g u v.
Proof. intros HT. destruct (mis_ok m0 HT) as (M & E & S & G). exists M. auto. Qed.
Theorem C39_symmetric g m0 : targets_ok g -> sym g ->
  exists M, maximal_independent_set g m0 = Ok (m0 ++ M) /\ NoDup M /\ (forall v, In v M -> v < length g) /\
    independent g (fun v => In v M) /\ maximal g (fun v => In v M).
Proof.
  intros HT S. destruct (mis_ok m0 HT) as (M & E & SS & G). exists M. split; auto.
  split; [clear - SS; induction SS as [|x l S IH F]; constructor; auto; intros I; rewrite Forall_forall in F; specialize (F x I); lia|].
  split; [intros v I; now apply G|]. split.
  - intros u v Iu Iv N Ed. destruct (Nat.lt_ge_cases u v) as [L|L].
    + apply G in Iv. apply (proj2 Iv). eauto.
    + apply G in Iu. apply (proj2 Iu). exists v. repeat split; auto; lia.
  - intros v Hv NI. rewrite G in NI.
    assert (D : (exists u, In u M /\ u < v /\ edge g u v) \/ ~ exists u, In u M /\ u < v /\ edge g u v).
    { clear - M. induction M as [|x M IH]; [right; intros (u & [] & _)|]. destruct IH as [(u & I & X)|N]; [left; exists u; simpl; auto|].
      destruct (lt_dec x v) as [L|L]; [destruct (in_dec Nat.eq_dec v (nth x g [])) as [Ed|Ed]|].
      - left. exists x. simpl. auto.
      - right. intros (u & [<-|I] & Y & Z); [contradiction|eauto].
      - right. intros (u & [<-|I] & Y & Z); [contradiction|eauto]. }
    destruct D as [(u & I & L & Ed)|N]; [exists u; split; auto; split; [lia|auto]|]. exfalso. apply NI. split; auto.
Qed.
(** Without symmetry: the set is maximal for every graph, and an arc inside it can only lead to a smaller id. So the result is right too
    when only arcs to larger ids are stored; it is wrong whenever only arcs to smaller ids are: then every vertex is selected. *)
Theorem C39_any_graph g m0 : targets_ok g ->
  exists M, maximal_independent_set g m0 = Ok (m0 ++ M) /\ NoDup M /\ (forall v, In v M -> v < length g) /\
    maximal g (fun v => In v M) /\ forall u v, In u M -> In v M -> edge g u v -> v <= u.
Proof.
  intros HT. destruct (mis_ok m0 HT) as (M & E & SS & G). exists M. split; auto.
  split; [clear - SS; induction SS as [|x l S IH F]; constructor; auto; intros I; rewrite Forall_forall in F; specialize (F x I); lia|].
  split; [intros v I; now apply G|]. split.
  - intros v Hv NI. rewrite G in NI.
    assert (D : (exists u, In u M /\ u < v /\ edge g u v) \/ ~ exists u, In u M /\ u < v /\ edge g u v).
    { clear - M. induction M as [|x M IH]; [right; intros (u & [] & _)|]. destruct IH as [(u & I & X)|N]; [left; exists u; simpl; auto|].
      destruct (lt_dec x v) as [L|L]; [destruct (in_dec Nat.eq_dec v (nth x g [])) as [Ed|Ed]|].
      - left. exists x. simpl. auto.
      - right. intros (u & [<-|I] & Y & Z); [contradiction|eauto].
      - right. intros (u & [<-|I] & Y & Z); [contradiction|eauto]. }
    destruct D as [(u & I & L & Ed)|N]; [exists u; split; auto; split; [lia|auto]|]. exfalso. apply NI. split; auto.
  - intros u v Iu Iv Ed. apply Nat.nlt_ge. intros L. apply G in Iv. apply (proj2 Iv). exists u. auto.
Qed.
Theorem C39_upward_arcs g m0 : targets_ok g -> (forall u v, edge g u v -> u < v) ->
  exists M, maximal_independent_set g m0 = Ok (m0 ++ M) /\ NoDup M /\ (forall v, In v M -> v < length g) /\ independent g (fun v => In v M) /\ maximal g (fun v => In v M).
Proof.
  intros HT U. destruct (C39_any_graph m0 HT) as (M & E & ND & B & MX & D). exists M. split; auto. split; auto. split; auto. split; auto. intros u v Iu Iv _ Ed. specialize (D u v Iu Iv Ed). apply U in Ed. lia.
Qed.
Theorem C39_downward_arcs_select_everything g m0 : targets_ok g -> (forall u v, edge g u v -> v < u) ->
  maximal_independent_set g m0 = Ok (m0 ++ seq 0 (length g)).
Proof.
  intros HT D. destruct (mis_ok m0 HT) as (M & E & SS & G). rewrite E. do 2 f_equal.
  assert (GG : forall v, In v M <-> v < length g).
  { intros v. rewrite G. split; [tauto|]. intros H. split; auto. intros (u & _ & L & Ed). apply D in Ed. lia. }
  apply (sorted_lt_ext SS); [apply sorted_seq|]. intros v. rewrite GG, in_seq. lia.
Qed.

(** ** C40 *)
(** All arcs of the successor lists, by source. *)
Definition arcs (succ : list (list nat)) : list (nat * nat) := flat_map (fun a => map (pair a) (nth a succ [])) (seq 0 (length succ)).
(** The two lists describe the same multigraph. *)
Definition matching (pred succ : list (list nat)) : Prop :=
  length pred = length succ /\ forall a b, count_occ Nat.eq_dec (nth a succ []) b = count_occ Nat.eq_dec (nth b pred []) a.
Theorem C40_topological pred succ fuel : succ <> [] -> targets_ok succ -> matching pred succ -> acyclic succ -> length (arcs succ) <= fuel ->
  exists l, dag_iterate fuel (length succ) pred succ = Ok l /\
    Permutation (map fst l) (arcs succ) /\
    (* no arc into u is handed out together with or after an arc out of u *)
    (forall l1 u v r l2 w r', l = l1 ++ (u, v, r) :: l2 -> ~ In (w, u, r') ((u, v, r) :: l2)) /\
    (* the flag says whether this was the last arc into v *)
    (forall l1 u v r l2, l = l1 ++ (u, v, r) :: l2 -> (r = true <-> forall w r', ~ In (w, v, r') l2)).
Proof.
  intros NE HT (Lp & MA) AC F. set (n := length succ) in *. assert (Hn : 0 < n) by (unfold n; destruct succ; [congruence|simpl; lia]).
  assert (TOT : total succ n <= fuel).
  { unfold arcs in F. rewrite (eds_len succ) in F. exact F. }
  destruct (@iterate_ok pred succ n Lp eq_refl HT MA (acyclic_wf HT AC) fuel Hn TOT) as (P & l & E & FI & EL & FL).
  assert (PM : Permutation (map fst l) (arcs succ)) by (rewrite EL; unfold arcs; apply Permutation_flat_map; apply (@finished_perm pred succ n Lp eq_refl P FI)).
  exists l. split; auto. split; auto. split.
  - intros l1 u v r l2 w r' EQ I. assert (X : flat_map (eds succ) P = map fst l1 ++ (u, v) :: map fst l2) by (rewrite <- EL, EQ, map_app; reflexivity).
    apply (@finished_order succ n P _ _ _ _ FI X w). apply (in_map fst) in I. exact I.
  - intros l1 u v r l2 EQ. pose proof (FL _ _ _ _ EQ) as X. cbn [app snd] in X.
    assert (T : into (map fst l1 ++ [(u, v)]) v + into (map fst l2) v = length (nth v pred [])).
    { rewrite <- into_app, <- app_assoc. cbn [app]. replace (map fst l1 ++ (u, v) :: map fst l2) with (map fst l) by (rewrite EQ, map_app; reflexivity).
      transitivity (into (arcs succ) v).
      - unfold into. apply Permutation_length. now apply Permutation_filter.
      - unfold arcs. rewrite (@pred_len pred succ n eq_refl MA v). apply (into_eds succ). }
    rewrite X, Nat.eqb_eq. split.
    + intros Y w r' I. assert (Z : into (map fst l2) v = 0) by lia. unfold into in Z. apply length_zero_iff_nil in Z.
      assert (J : In (w, v) (filter (fun e => snd e =? v) (map fst l2))) by (apply filter_In; split; [apply (in_map fst) in I; exact I|apply Nat.eqb_refl]).
      rewrite Z in J. destruct J.
    + intros H. assert (Z : into (map fst l2) v = 0); [|lia]. unfold into. rewrite filter_none; auto. intros (w, v') I. cbn [snd].
      destruct (Nat.eqb_spec v' v) as [->|]; auto. exfalso. apply in_map_iff in I. destruct I as (((a, b), r') & EE & I). cbn [fst] in EE. injection EE as -> ->. eapply H; eauto.
Qed.
(** Without a root there is no front element to start from: no vertices at all, or every vertex has a predecessor. *)
Theorem C40_no_root_undefined pred succ fuel n : n <= length pred -> (forall v, v < n -> nth v pred [] <> []) ->
  dag_iterate fuel n pred succ = Ub.
Proof.
  intros L H. unfold dag_iterate, dag_begin, dag_roots.
  assert (R : forall m q, m <= n -> rfold (fun q i => do p <- vget pred i ; Ok (if length p =? 0 then q ++ [i] else q)) (seq 0 m) q = Ok q).
  { induction m as [|m IH]; intros q Hm; auto. rewrite seq_S, rfold_app, IH by lia. cbn [bind rfold plus]. rewrite (@vget_nth _ pred m []) by lia. cbn [bind].
    destruct (Nat.eqb_spec (length (nth m pred [])) 0) as [Z|Z]; auto. apply length_zero_iff_nil in Z. exfalso. apply (H m); auto; lia. }
  now rewrite R.
Qed.
(** dag_based_mis, any starting contents: independent. *)
Theorem C40_mis_independent g mis0 : g <> [] -> targets_ok g -> loop_free g -> length g <= length mis0 ->
  exists m, dag_based_mis g mis0 = Ok m /\ length m = length mis0 /\
    independent g (fun v => v < length g /\ nth v m false = true).
Proof.
  intros NE HT LF L. destruct (@dag_mis_ok g _ NE HT LF L) as (m & E & Lm & C). exists m. split; auto. split; auto.
  intros u v (Hu & Mu) (Hv & Mv) N Ed. pose proof (proj1 (C u Hu) Mu) as (_ & A). pose proof (proj1 (C v Hv) Mv) as (_ & B).
  assert (T : earlier g u v \/ earlier g v u) by (unfold earlier; lia). destruct T as [T|T].
  - apply B. exists u. unfold adjacent. auto.
  - apply A. exists v. unfold adjacent. auto.
Qed.
(** Started with all true: also maximal. *)
Theorem C40_mis_maximal g k : g <> [] -> targets_ok g -> loop_free g -> length g <= k ->
  exists m, dag_based_mis g (repeat true k) = Ok m /\
    independent g (fun v => v < length g /\ nth v m false = true) /\ maximal g (fun v => v < length g /\ nth v m false = true).
Proof.
  intros NE HT LF L. rewrite <- (repeat_length true k) in L. destruct (@C40_mis_independent g _ NE HT LF L) as (m' & E' & _ & I).
  destruct (@dag_mis_ok g _ NE HT LF L) as (m & E & Lm & C). rewrite E' in E. injection E as ->. exists m. split; auto. split; auto.
  intros v Hv N. rewrite repeat_length in *.
  assert (NM : nth v m false <> true) by tauto. rewrite (C v Hv) in NM.
  assert (TR : nth v (repeat true k) false = true).
  { rewrite (nth_indep _ false true); [apply nth_repeat|rewrite repeat_length; lia]. }
  set (f := fun a => (if in_dec Nat.eq_dec v (nth a g []) then true else if in_dec Nat.eq_dec a (nth v g []) then true else false) &&
              ((deg g v <? deg g a) || ((deg g a =? deg g v) && (a <? v))) && nth a m false).
  assert (SP : forall a, f a = true <-> adjacent g a v /\ earlier g a v /\ nth a m false = true).
  { intros a. unfold f, adjacent, earlier, edge. rewrite !andb_true_iff, orb_true_iff, andb_true_iff, !Nat.ltb_lt, Nat.eqb_eq.
    destruct (in_dec Nat.eq_dec v (nth a g [])); [tauto|]. destruct (in_dec Nat.eq_dec a (nth v g [])); [tauto|]. intuition discriminate. }
  destruct (existsb f (seq 0 (length g))) eqn:Ex.
  - apply existsb_exists in Ex. destruct Ex as (a & Ia & Fa). apply SP in Fa. apply in_seq in Ia. exists a. split; [split; [lia|tauto]|].
    split; [|unfold adjacent in Fa; tauto]. intros ->. destruct Fa as (_ & X & _). unfold earlier in X. lia.
  - exfalso. apply NM. split; auto. intros (a & A1 & A2 & A3). assert (Ha : a < length g).
    { destruct A1 as [X|X]; [eapply edge_src; eauto|eapply HT; eauto]. }
    assert (existsb f (seq 0 (length g)) = true); [|congruence]. apply existsb_exists. exists a. split; [apply in_seq; lia|apply SP; auto].
Qed.
(** Started with all false: only the vertices preceding all their neighbours are marked. *)
Theorem C40_mis_all_false g k : g <> [] -> targets_ok g -> loop_free g -> length g <= k ->
  exists m, dag_based_mis g (repeat false k) = Ok m /\
    forall u, u < length g -> (nth u m false = true <-> forall a, adjacent g a u -> earlier g u a).
Proof.
  intros NE HT LF L. rewrite <- (repeat_length false k) in L. destruct (@dag_mis_ok g _ NE HT LF L) as (m & E & Lm & C). exists m. split; auto.
  intros u Hu. rewrite C by auto. rewrite nth_repeat.
  assert (TOT : forall a, adjacent g a u -> ~ earlier g a u <-> earlier g u a).
  { intros a A. assert (a <> u); [|unfold earlier; lia]. intros ->. destruct A; eapply LF; eauto. }
  split.
  - intros ([|X] & _); [discriminate|]. intros a A. now apply TOT, X.
  - intros X. split; [right; intros a A; now apply TOT, X|]. intros (a & A & Y & _). apply (proj2 (TOT a A) (X a A) Y).
Qed.
Theorem C40_mis_empty_graph_undefined mis : dag_based_mis [] mis = Ub.
Proof. reflexivity. Qed.

(** ** C41 *)
Theorem C41_first_missing arr : exists r, firstMissingPositive arr = Ok r /\ 1 <= r /\ ~ In r arr /\ forall k, 1 <= k < r -> In k arr.
Proof. apply fmp_ok. Qed.
(** On a symmetric graph the colours are 1 on the greedy set and 0 elsewhere. *)
Theorem C41_two_colours g colors : targets_ok g -> sym g -> length g <= length colors ->
  exists M c, maximal_independent_set g [] = Ok M /\ jones_plassmann g colors = Ok c /\ length c = length colors /\
    forall v, nth v c 0 = if existsb (Nat.eqb v) M then 1 else 0.
Proof.
  intros HT S L. destruct (C39_symmetric [] HT S) as (M & E & ND & B & I & _). simpl in E.
  unfold jones_plassmann. rewrite E. cbn [bind].
  destruct (@jp_loop g HT M) with (done := @nil nat) (todo := M) (colors := map (fun _ : nat => 0) colors) as (c & EC & LC & C1 & C0); auto.
  - intros u v Iu Ed. destruct (Nat.eq_dec v u) as [|N]; auto. left. intros Iv. apply (I u v); auto.
  - now rewrite map_length.
  - intros v [].
  - intros v _. destruct (Nat.lt_ge_cases v (length (map (fun _ : nat => 0) colors))) as [X|X]; [|now apply nth_overflow].
    assert (Z : In (nth v (map (fun _ : nat => 0) colors) 0) (map (fun _ : nat => 0) colors)) by (now apply nth_In). apply in_map_iff in Z. destruct Z as (y & <- & _). reflexivity.
  - rewrite map_length in LC. exists M, c. repeat split; auto. intros v. destruct (existsb (Nat.eqb v) M) eqn:X.
    + apply C1. apply existsb_exists in X. destruct X as (y & Iy & Ey). apply Nat.eqb_eq in Ey. now subst.
    + apply C0. intros Iv. assert (existsb (Nat.eqb v) M = true); [|congruence]. apply existsb_exists. exists v. split; auto. apply Nat.eqb_refl.
Qed.
(** So any triangle has an edge with equal colours. *)
Theorem C41_triangle_not_proper g colors a b c : targets_ok g -> sym g -> length g <= length colors ->
  a <> b -> b <> c -> a <> c -> edge g a b -> edge g b c -> edge g a c ->
  exists cs u v, jones_plassmann g colors = Ok cs /\ u <> v /\ edge g u v /\ nth u cs 0 = nth v cs 0.
Proof.
  intros HT S L N1 N2 N3 E1 E2 E3. destruct (@C41_two_colours g _ HT S L) as (M & cs & _ & E & _ & C). exists cs.
  destruct (existsb (Nat.eqb a) M) eqn:A, (existsb (Nat.eqb b) M) eqn:B; try (exists a, b; rewrite !C, A, B; now auto);
  destruct (existsb (Nat.eqb c) M) eqn:D; try (exists a, c; rewrite !C, A, D; now auto); exists b, c; rewrite !C, B, D; auto.
Qed.

(** ** Non-vacuity *)
Definition ex_sym : list (list nat) := [[1; 2]; [0; 2]; [0; 1; 3]; [2; 4]; [3]].
Example ex_sym_ok : targets_ok ex_sym /\ sym ex_sym /\ loop_free ex_sym /\ ex_sym <> [].
Proof.
  split; [|split; [|split; [|discriminate]]].
  - intros u v E; unfold edge in *; do 5 (destruct u as [|u]; [simpl in *; lia|]); destruct u; destruct E.
  - intros u v E; unfold edge in *; do 5 (destruct u as [|u]; [simpl in E; repeat (destruct E as [<-|E]; [simpl; tauto|]); destruct E|]); destruct u; destruct E.
  - intros u E; unfold edge in *; do 5 (destruct u as [|u]; [simpl in *; lia|]); destruct u; destruct E.
Qed.
Example ex_runs : maximal_independent_set ex_sym [] = Ok [0; 3] /\
  dag_based_mis ex_sym (repeat true 5) = Ok [false; false; true; false; true] /\
  dag_based_mis ex_sym (repeat false 5) = Ok [false; false; true; false; false] /\
  jones_plassmann ex_sym (repeat 7 5) = Ok [1; 0; 0; 1; 0] /\
  firstMissingPositive [3; 4; 2; 1; 7; 9; 5] = Ok 6.
Proof. repeat split; reflexivity. Qed.
(** A DAG with a double arc. *)
Definition ex_succ : list (list nat) := [[1; 2; 1]; [2; 4]; [3]; [4]; []; []].
Definition ex_pred : list (list nat) := [[]; [0; 0]; [0; 1]; [2]; [3; 1]; []].
Example ex_dag_ok : targets_ok ex_succ /\ acyclic ex_succ /\ matching ex_pred ex_succ.
Proof.
  split; [|split; [|split; [reflexivity|]]].
  - intros u v E; unfold edge in *; do 6 (destruct u as [|u]; [simpl in *; lia|]); destruct u; destruct E.
  - assert (U : forall u v, edge ex_succ u v -> u < v).
    { intros u v E; unfold edge in *; do 6 (destruct u as [|u]; [simpl in *; lia|]); destruct u; destruct E. }
    assert (W : forall k u v, walk ex_succ u (S k) v -> u < v).
    { induction k; intros u v W; inversion W; subst; [inversion H0; subst; auto|]. apply IHk in H0. apply U in H1. lia. }
    intros v k X. apply W in X. lia.
  - intros a b. do 6 (destruct a as [|a]; [do 6 (destruct b as [|b]; [reflexivity|]); destruct b; reflexivity|]).
    replace (nth (S (S (S (S (S (S a)))))) ex_succ []) with (@nil nat) by (destruct a; reflexivity). simpl count_occ at 1. symmetry. apply count_occ_not_In.
    intros I. do 6 (destruct b as [|b]; [simpl in I; lia|]). destruct b; destruct I.
Qed.
Example ex_dag : dag_iterate 7 6 ex_pred ex_succ =
  Ok [(0, 1, false); (0, 2, false); (0, 1, true); (1, 2, true); (1, 4, false); (2, 3, true); (3, 4, true)].
Proof. reflexivity. Qed.
(** Arcs to smaller ids only: an edge inside the "independent" set. *)
Example ex_down : maximal_independent_set [[]; [0]; [1]] [] = Ok [0; 1; 2].
Proof. reflexivity. Qed.
(** A self loop makes the vertex wait for itself; the traversal then runs past the end of the successor list. *)
Example ex_self_loop : dag_based_mis [[1]; [1]] (repeat true 2) = Ub.
Proof. reflexivity. Qed.
Print Assumptions C39_greedy.
Print Assumptions C39_symmetric.
Print Assumptions C39_any_graph.
Print Assumptions C39_upward_arcs.
Print Assumptions C39_downward_arcs_select_everything.
Print Assumptions C40_topological.
Print Assumptions C40_no_root_undefined.
Print Assumptions C40_mis_independent.
Print Assumptions C40_mis_maximal.
Print Assumptions C40_mis_all_false.
Print Assumptions C40_mis_empty_graph_undefined.
Print Assumptions C41_first_missing.
Print Assumptions C41_two_colours.
Print Assumptions C41_triangle_not_proper.
