(** C58: page_rank (algorithms/page_rank.hpp:89-148) approaches the PageRank vector, whatever the interleaving of the
    updates within a sweep.  The specification is in PageRankLib.v: [pagerank g deg d x] says that x solves
    x_i = (1-d)/n + d * sum over j in row i of x_j / deg_j, where row i lists the vertices with an arc to i and deg_j
    is at least the number of times j occurs in all rows. *)
From Coq Require Import List Arith ZArith QArith Qabs Lqa Lia Bool.
From Verif Require Import Base Pool PageRankModel PageRankLib PageRankProofs.
Import ListNotations.
Set Implicit Arguments.
Local Open Scope nat_scope.

(** The scores left in the vector of the caller. *)
Definition scores (n : nat) (out : prout) (y : nat -> Q) : Prop := forall i, i < n -> nth_error (o_rank out) i = Some (Some (y i)).

(** The equations have one solution; its values lie between (1-d)/n and 1 and sum to at most 1. *)
Theorem C58_solution : forall g deg d, pr_input g deg d ->
  exists x, pagerank g deg d x /\ (forall x', pagerank g deg d x' -> forall i, i < length g -> (x' i == x i)%Q) /\
    (forall i, i < length g -> ((1 - d) / qn (length g) <= x i /\ x i <= 1)%Q) /\ (qs (length g) x <= 1)%Q.
Proof.
  intros g deg d IN. destruct (pagerank_exists IN) as (x & P). exists x. split; auto. split; [|split].
  - intros x' P' i Hi. exact (pagerank_unique IN P' P Hi).
  - intros i Hi. split; [exact (pagerank_base IN P Hi)|exact (pagerank_le1 IN P Hi)].
  - destruct (Nat.eq_dec (length g) 0) as [E|E]; [rewrite E; unfold qs; simpl; lra|]. apply (pagerank_sum IN P). lia.
Qed.

(** Every run is defined and leaves finite scores, after at most max_iters sweeps. *)
Theorem C58_total : forall g deg ranks d thr max sched, pr_input g (fun j => nth j deg 0) d -> length g <= length deg -> length g <= length ranks ->
  exists out y, page_rank g deg ranks d thr max sched = Ok out /\ length (o_rank out) = length ranks /\ scores (length g) out y /\
    o_sweeps out <= max /\ (o_conv out = false -> o_sweeps out = max).
Proof.
  intros g deg ranks d thr max sched IN LD LR. destruct (@page_rank_ok g deg d thr max sched ranks IN LD LR) as (out & y & E & L & R & RS). exists out, y. split; auto. split; auto. split; auto.
  destruct (o_conv out); cbn [result] in RS; [destruct RS as (k' & b & -> & H & _)|destruct RS as (-> & _)]; split; auto. discriminate.
Qed.

(** When the test of line 144 succeeds, the scores satisfy the equations up to d * threshold in total, and are that
    close to the solution up to the factor 1/(1-d). *)
Theorem C58_threshold : forall g deg ranks d thr max sched out y, pr_input g (fun j => nth j deg 0) d -> length g <= length deg -> length g <= length ranks ->
  page_rank g deg ranks d thr max sched = Ok out -> o_conv out = true -> scores (length g) out y ->
  (qs (length g) (fun i => Qabs (y i - pr_rhs g (fun j => nth j deg 0%nat) d y i)) <= d * thr)%Q /\
  forall x, pagerank g (fun j => nth j deg 0) d x -> ((1 - d) * qs (length g) (fun i => Qabs (y i - x i)) <= d * thr)%Q.
Proof.
  intros g deg ranks d thr max sched out y IN LD LR E CV SC. destruct (@page_rank_ok g deg d thr max sched ranks IN LD LR) as (out' & y' & E' & L & R & RS). assert (out' = out) by congruence. subst out'.
  rewrite CV in RS. destruct RS as (k' & b & _ & _ & _ & AS & T).
  assert (Y : forall i, i < length g -> y' i = y i) by (intros i Hi; assert (X := R i Hi); rewrite (SC i Hi) in X; congruence).
  assert (AS' : async g (fun j => nth j deg 0) d b y).
  { intros i Hi. destruct (AS i Hi) as (bs & B1 & B2 & B3). exists bs. split; auto. split; [|now rewrite <- Y]. intros j c I. rewrite <- Y; auto. apply (pi_tgt IN i). rewrite <- B1. apply in_map_iff. exists (j, c). auto. }
  assert (T' : (qs (length g) (fun i => Qabs (y i - b i)) < thr)%Q) by (rewrite (@qs_ext (length g) _ (fun i => Qabs (y' i - b i))%Q); auto; intros i Hi; now rewrite Y).
  assert (D0 := pi_d0 IN). split.
  - eapply Qle_trans; [apply (async_res_sum IN AS')|]. nra.
  - intros x P. eapply Qle_trans; [apply (async_dist IN AS' P)|]. nra.
Qed.

(** Every sweep shrinks the relative error of every score by the factor 1 - (1-d)/n. *)
Theorem C58_geometric : forall g deg ranks d thr max sched out y x, pr_input g (fun j => nth j deg 0) d -> length g <= length deg -> length g <= length ranks ->
  page_rank g deg ranks d thr max sched = Ok out -> scores (length g) out y -> pagerank g (fun j => nth j deg 0) d x ->
  forall i, i < length g -> (Qabs (y i - x i) <= (1 / (1 - d)) * qpow (1 - (1 - d) / qn (length g)) (o_sweeps out) * x i)%Q.
Proof.
  intros g deg ranks d thr max sched out y x IN LD LR E SC P i Hi. destruct (@page_rank_ok g deg d thr max sched ranks IN LD LR) as (out' & y' & E' & L & R & RS). assert (out' = out) by congruence. subst out'.
  assert (Y : y' i = y i) by (assert (X := R i Hi); rewrite (SC i Hi) in X; congruence). rewrite <- Y. exact (@result_geometric g deg d thr IN (pi_d1 IN) _ _ _ _ _ RS P i Hi).
Qed.

(** With a positive threshold the loop ends by the test, under every schedule, once max_iters is large enough; the
    number of sweeps then does not depend on max_iters, on the schedule or on what the vector held. *)
Theorem C58_stops : forall g deg d thr, pr_input g (fun j => nth j deg 0) d -> (0 < thr)%Q -> length g <= length deg ->
  exists m, forall ranks max sched out, length g <= length ranks -> m <= max -> page_rank g deg ranks d thr max sched = Ok out -> o_conv out = true /\ o_sweeps out <= m.
Proof.
  intros g deg d thr IN T LD. destruct (@result_stops_eventually g deg d thr IN (pi_d1 IN) T) as (m & H). exists m. intros ranks max sched out LR HM E.
  destruct (@page_rank_ok g deg d thr max sched ranks IN LD LR) as (out' & y' & E' & L & R & RS). assert (out' = out) by congruence. subst out'. exact (H _ _ _ _ HM RS).
Qed.

(** The mass of the solution: 1 when every vertex has outgoing arcs and deg counts them; with t vertices that occur in no
    row (no outgoing arc) at least d t / n is lost, because lines 128-135 do not redistribute their scores. *)
Theorem C58_mass : forall g deg d x, pr_input g deg d -> 0 < length g -> pagerank g deg d x ->
  ((forall j, j < length g -> deg j = occ g j /\ 0 < occ g j) -> (qs (length g) x == 1)%Q) /\
  (qs (length g) x <= 1 - d * qn (length (filter (fun j => occ g j =? 0) (seq 0 (length g)))) / qn (length g))%Q.
Proof.
  intros g deg d x IN N P. assert (D1 := pi_d1 IN). assert (M := pagerank_mass IN N P). assert (D0 := pi_d0 IN). set (S0 := qs (length g) x) in *. split.
  - intros H. assert (X : (qs (length g) (fun j => qn (occ g j) * (x j / qn (deg j))) == S0)%Q).
    { apply qs_ext. intros j Hj. destruct (H j Hj) as [-> Z]. assert (NZ := qn_pos Z). field. lra. }
    rewrite X in M. assert ((1 - d) * (S0 - 1) == 0)%Q by lra. apply Qmult_integral in H0. destruct H0; lra.
  - set (base := ((1 - d) / qn (length g))%Q). set (t := length (filter (fun j => occ g j =? 0) (seq 0 (length g)))).
    assert (X : (qs (length g) (fun j => qn (occ g j) * (x j / qn (deg j))) + qs (length g) (fun j => if occ g j =? 0 then base else 0) <= S0)%Q).
    { rewrite <- qs_add. apply qs_le. intros j Hj. assert (NN := pagerank_nn IN P Hj). assert (B := pagerank_base IN P Hj). fold base in B. destruct (Nat.eqb_spec (occ g j) 0) as [->|NZ].
      - change (qn 0) with 0%Q. lra.
      - assert (Y := share_occ IN Hj NN). lra. }
    assert (Y : (qs (length g) (fun j => if occ g j =? 0 then base else 0) == qn t * base)%Q).
    { unfold qs, t. generalize (seq 0 (length g)). induction l as [|j l IH]; [cbn [map qsum filter length]; change (qn 0) with 0%Q; lra|]. cbn [map qsum filter]. rewrite IH. destruct (occ g j =? 0); cbn [length]; [rewrite qn_S|]; lra. }
    rewrite Y in X. assert (Z : ((1 - d) * S0 <= (1 - d) - d * (qn t * base))%Q) by nra.
    assert (NP := qn_pos N). assert (E : (d * (qn t * base) == (1 - d) * (d * qn t / qn (length g)))%Q) by (unfold base; field; lra). rewrite E in Z.
    set (w := (d * qn t / qn (length g))%Q) in *. assert ((1 - d) * (S0 - (1 - w)) <= 0)%Q by lra. apply Qnot_lt_le. intros F. nra.
Qed.

(** A vertex with degree zero in the table that does occur in a row: its share is a division by zero, the scores that use
    it are not finite, and the test of line 144 never succeeds. *)
Theorem C58_zero_degree : forall g deg ranks d thr max sched i j, (forall i j, In j (nth i g []) -> j < length g) -> length g <= length deg -> length g <= length ranks ->
  In j (nth i g []) -> nth j deg 0 = 0 -> 0 < max ->
  exists out, page_rank g deg ranks d thr max sched = Ok out /\ nth_error (o_rank out) i = Some None /\ o_conv out = false /\ o_sweeps out = max.
Proof.
  intros g deg ranks d thr max sched i j TG LD LR IJ DZ HM. destruct (@page_rank_zero g deg d thr max sched ranks i j TG LD LR IJ DZ) as (out & E & S & C & R). exists out. auto.
Qed.

(** A score vector or degree table that is too short, or a target that is not a vertex, is undefined behaviour under every
    schedule: nothing is resized or checked. *)
Theorem C58_undefined : forall g deg ranks d thr max sched,
  length ranks < length g \/ length deg < length g \/ (0 < max /\ exists i j, In j (nth i g []) /\ length g <= j) ->
  page_rank g deg ranks d thr max sched = Ub.
Proof. intros. now apply page_rank_ub. Qed.

(** ** Examples: arcs 0->1, 0->2, 1->2, 2->0, damping factor 1/2 *)
Definition ex_g := [[2]; [0]; [0; 1]].
Definition ex_deg := [2; 1; 1].
Definition ex_x (i : nat) : Q := nth i [14 # 39; 10 # 39; 15 # 39]%Q 0%Q.
Example C58_ex_input : pr_input ex_g (fun j => nth j ex_deg 0) (1 # 2).
Proof.
  constructor; try (simpl; lra).
  - intros [|[|[|[|i]]]] j; simpl; intuition lia.
  - intros [|[|[|j]]]; simpl; intros; try lia; cbv; lia.
Qed.
Example C58_ex_solution : pagerank ex_g (fun j => nth j ex_deg 0) (1 # 2) ex_x.
Proof. intros [|[|[|i]]] H; try reflexivity. simpl in H. lia. Qed.
(** In order (task 0 until it ends, then task 1, ...), and round robin: three and four sweeps, different scores. *)
Definition red (o : option Q) : option Q := option_map Qred o.
Definition shown (r : res prout) : option (list (option Q) * nat * bool) := match r with Ok o => Some (map red (o_rank o), o_sweeps o, o_conv o) | _ => None end.
Example C58_ex_run : shown (page_rank ex_g ex_deg [None; Some 7%Q; None] (1 # 2) (1 # 50) 9 (fun _ _ => 0)) = Some ([Some (275 # 768); Some (787 # 3072); Some (787 # 2048)]%Q, 3, true).
Proof. vm_compute. reflexivity. Qed.
Example C58_ex_run2 : shown (page_rank ex_g ex_deg [None; Some 7%Q; None] (1 # 2) (1 # 50) 9 (fun _ t => t)) = Some ([Some (23 # 64); Some (49 # 192); Some (37 # 96)]%Q, 4, true).
Proof. vm_compute. reflexivity. Qed.
(** Vertex 1 has no outgoing arc: a quarter of the mass is lost. *)
Example C58_ex_dangling : pagerank [[]; [0]] (fun j => nth j [1; 0] 0) (1 # 2) (fun i => nth i [1 # 4; 3 # 8]%Q 0%Q).
Proof. intros [|[|i]] H; try reflexivity. simpl in H. lia. Qed.
Example C58_ex_zero : shown (page_rank [[]; [0]] [0; 0] [None; None] (1 # 2) (1 # 10) 4 (fun _ _ => 0)) = Some ([Some (1 # 4)%Q; None], 4, false).
Proof. vm_compute. reflexivity. Qed.
Print Assumptions C58_solution.
Print Assumptions C58_total.
Print Assumptions C58_threshold.
Print Assumptions C58_geometric.
Print Assumptions C58_stops.
Print Assumptions C58_mass.
Print Assumptions C58_zero_degree.
Print Assumptions C58_undefined.
