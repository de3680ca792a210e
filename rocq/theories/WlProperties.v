(** C71: approx_betweenness_worklist_serial.  The specification ([dependency], [score], [others], [normalized], [without_sources],
    [outcome]) is that of C48 and C70. *)
From Coq Require Import List Arith ZArith QArith Qcanon Field Lia Bool Permutation.
From Verif Require Import Base GraphLib SumLib QcLib BcLib BcModel BcProofs BcProperties XbcModel XbcProperties WlModel WlProofs WlProofs2.
Import ListNotations.
Set Implicit Arguments.
Local Open Scope nat_scope.

(** [h] is [g] without its parallel arcs: the same arcs, each once. *)
Definition without_parallel (g h : list (list nat)) : Prop :=
  length h = length g /\ forall u, NoDup (nth u h []) /\ forall v, In v (nth u h []) <-> In v (nth u g []).
(** The iteration order of a set lists its elements. *)
Definition some_order (ord : nat -> list nat -> list nat) : Prop := forall v l, Permutation (ord v l) l.

Lemma simple_without g : without_parallel g (simple g).
Proof. split; [apply simple_length|]. intros u. split; [rewrite simple_row; apply NoDup_nodup|]. intros v. exact (simple_edge g u v). Qed.

(** Two graphs with the same arcs, each once, have the same scores. *)
Lemma perm_rows g h : without_parallel g h -> forall u, Permutation (nth u h []) (nth u (simple g) []).
Proof.
  intros [L H] u. destruct (simple_without g) as [_ H']. apply NoDup_Permutation; [apply H|apply H'|]. intros v. rewrite (proj2 (H u)), (proj2 (H' u)). reflexivity.
Qed.
Lemma find_ext_cnt (p q : nat -> bool) l : (forall k, p k = q k) -> find p l = find q l.
Proof. intros E. induction l as [|x l IH]; auto. cbn [find]. now rewrite E, IH. Qed.
Section Same.
  Variables (g h : list (list nat)).
  Hypothesis (L : length h = length g) (P : forall u, Permutation (nth u h []) (nth u g [])).
  Lemma paths_perm k : forall u, Permutation (paths h k u) (paths g k u).
  Proof.
    induction k as [|k IH]; intros u; cbn [paths]; auto. apply Permutation_map. rewrite (Permutation_flat_map _ (P u)).
    induction (nth u g []) as [|w r IHr]; cbn [flat_map]; auto. apply Permutation_app; auto.
  Qed.
  Lemma same_filter (p : list nat -> bool) k u : length (filter p (paths h k u)) = length (filter p (paths g k u)).
  Proof. apply Permutation_length. apply Permutation_filter. apply paths_perm. Qed.
  Lemma same_pair_dep s t v : pair_dep h s t v = pair_dep g s t v.
  Proof.
    unfold pair_dep, distf, cnt, through. rewrite L.
    rewrite (@find_ext_cnt (fun k => 0 <? length (filter (ends_at t) (paths h k s))) (fun k => 0 <? length (filter (ends_at t) (paths g k s)))).
    - destruct (find _ _); auto. now rewrite !same_filter.
    - intros k. now rewrite same_filter.
  Qed.
  Lemma same_without sources : without_sources h sources = without_sources g sources.
  Proof.
    unfold without_sources. rewrite L. apply map_ext. intros v. unfold score, dependency. rewrite L. apply qsum_ext. intros s _. apply qsum_ext. intros t _. apply same_pair_dep.
  Qed.
  Lemma same_counts M : counts_below h M -> counts_below g M.
  Proof.
    intros C s t d Ls D. rewrite <- L in Ls. unfold cnt. rewrite <- same_filter. apply C; auto.
    assert (E : forall u v, edge h u v <-> edge g u v). { intros u v. unfold edge. split; apply Permutation_in; [|apply Permutation_sym]; auto. }
    assert (W : forall k x, walk h s k x <-> walk g s k x) by (intros k x; split; intros X; induction X; econstructor; eauto; now apply E).
    destruct D as [D1 D2]. split; [now apply W|]. intros k X. apply D2. now apply W.
  Qed.
End Same.

(** For every iteration order of the hash sets, the result is the scores of the graph without its parallel arcs (so parallel
    arcs count once, unlike in approx_betweenness_brandes), divided by the largest of them; it exists unless all are 0. *)
Theorem C71_worklist_serial g h vmax M sources : targets_ok g -> without_parallel g h -> counts_below h M -> length g <= vmax ->
  (forall s ord, In (s, ord) sources -> s < length g /\ some_order ord) ->
  outcome true (without_sources h (map fst sources)) (approx_worklist_serial g vmax M sources).
Proof.
  intros T WP C HV HS. assert (PR := perm_rows WP). assert (LL : length h = length (simple g)) by (rewrite simple_length; apply WP).
  rewrite (@same_without (simple g) h LL PR). assert (C' := @same_counts (simple g) h LL PR M C). unfold approx_worklist_serial.
  destruct (@wl_sources_ok g vmax M T) with (srcs := sources) (cent := repeat 0%Qc (length g)) as (c & -> & L & H); auto.
  - intros s t Ls. apply below_sg; auto; [now apply simple_targets|now rewrite simple_length].
  - apply repeat_length.
  - cbn [bind]. replace c with (without_sources (simple g) (map fst sources)); [exact (finish_ok true _ (@without_nonneg (simple g) (map fst sources)))|].
    symmetry. unfold without_sources. rewrite simple_length. apply nth_eq_map; auto. intros v Lv. rewrite H, nth_repeat by auto. apply Qcplus_0_l.
Qed.
(** A triangle with a parallel arc, a self-loop at the source, and a tail; two iteration orders. *)
Definition tail : list (list nat) := [[0; 1; 1; 2]; [3]; [3]; [4; 0; 0]; []].
Definition tail1 : list (list nat) := [[0; 1; 2]; [3]; [3]; [4; 0]; []].
Example C71_hyps : targets_ok tail /\ without_parallel tail tail1 /\ counts_below tail1 256 /\ some_order (fun _ l => rev l) /\ some_order (fun _ l => l).
Proof.
  assert (T : targets_ok tail1) by (now apply small_targets). split; [now apply small_targets|]. split; [|split; [now apply small_counts|]].
  - split; auto. intros u. do 5 (destruct u as [|u]; [cbn; split; [repeat constructor; cbn; intuition discriminate|intros v; intuition]|]).
    replace (nth (S (S (S (S (S u))))) tail1 []) with (@nil nat) by (now destruct u). replace (nth (S (S (S (S (S u))))) tail []) with (@nil nat) by (now destruct u).
    split; [constructor|tauto].
  - split; intros v l; [apply Permutation_sym, Permutation_rev|auto].
Qed.
Example C71_ex : show (approx_worklist_serial tail 100 256 [(0, fun _ l => rev l); (1, fun _ l => l)]) = [1 # 4; 1 # 4; 1 # 4; 1; 0]%Q /\
  map this (without_sources tail1 [0; 1]) = [1; 1; 1; 4; 0]%Q /\
  show (approx_brandes tail 256 [0; 1]) = [1 # 4; 1 # 3; 1 # 6; 1; 0]%Q.
Proof. vm_compute. auto. Qed.
Print Assumptions C71_worklist_serial.
