(** C65: the bfs variants of experimental/algorithms/bfs.hpp. [sched ph t] names the task moved at step t of the ph-th
    parallel loop, so the quantifier over [sched] ranges over all interleavings of the shared accesses; [is_bfs_tree] is
    the specification of GraphLib.v (root its own parent, parents one level up along an edge, none for the unreachable). *)
From Coq Require Import List Arith Lia Bool.
From Verif Require Import Base GraphLib Pool ParBfsModel BfsProofs ParBfsProofs XbfsModel XbfsProofs.
Import ListNotations.
Set Implicit Arguments.

(** The serial v6, the compare-and-swap v7 and the check-then-act v8, whose tasks may both discover a vertex. *)
Theorem C65_levels fuel vmax g sched root : targets_ok g -> root < length g -> length g <= vmax -> length g < fuel ->
  (exists p, bfs_v6 fuel vmax g root = Ok p /\ is_bfs_tree g root vmax p) /\
  (exists p, bfs_v7 fuel vmax g sched root = Ok p /\ is_bfs_tree g root vmax p) /\
  (exists p, bfs_v8 fuel vmax g sched root = Ok p /\ is_bfs_tree g root vmax p).
Proof.
  intros HT HR HV HF. split; [|split].
  - apply (@xlevel_bfs_ok vmax g root HT HR HV V689); auto.
  - apply (@xlevel_bfs_ok vmax g root HT HR HV V7); auto.
  - apply (@xlevel_bfs_ok vmax g root HT HR HV V689); auto.
Qed.

(** The variants with 32 bins. *)
Theorem C65_bins fuel vmax g sched root : targets_ok g -> root < length g -> length g <= vmax -> length g <= fuel ->
  (exists p, bfs_v9 fuel vmax g sched root = Ok p /\ is_bfs_tree g root vmax p) /\
  (exists p, bfs_top_down fuel vmax g sched root = Ok p /\ is_bfs_tree g root vmax p) /\
  (exists p, bfs_top_down_bitmap fuel vmax g sched root = Ok p /\ is_bfs_tree g root vmax p).
Proof.
  intros HT HR HV HF. split; [|split]; [now apply bfs_v9_ok|now apply bfs_top_down_ok|now apply bfs_top_down_bitmap_ok].
Qed.

(** More than [c] vertices lie at distance k from the root. *)
Definition crowded (g : list (list nat)) (root k c : nat) : Prop :=
  exists l, NoDup l /\ c < length l /\ forall v, In v l -> dist g root v k.

(** bfs_bottom_up counts a level in an int of maximum imax: right unless some level overflows it, undefined then. *)
Theorem C65_bottom_up fuel vmax imax g g_t sched root : targets_ok g -> transpose_of g g_t -> root < length g -> length g <= vmax -> length g < fuel ->
  ((forall k, ~ crowded g root (S k) imax) -> exists p, bfs_bottom_up fuel vmax imax g_t sched root = Ok p /\ is_bfs_tree g root vmax p) /\
  ((exists k, crowded g root (S k) imax) -> bfs_bottom_up fuel vmax imax g_t sched root = Ub).
Proof. intros. now apply bottom_up_ok. Qed.

(** bfs_v1: right whatever the schedule and the uninitialised words of front, if every worker has a queue. *)
Theorem C65_v1 fuel vmax W g g_t sched wk garbage root nb alpha beta :
  targets_ok g -> transpose_of g g_t -> root < length g -> length g <= vmax -> length g < fuel ->
  alpha <> 0 -> beta <> 0 -> (forall ph u, wk ph u < nb) -> length garbage = length g ->
  exists p, bfs_v1 fuel vmax W g g_t sched wk garbage root nb alpha beta = Ok p /\ is_bfs_tree g root vmax p.
Proof. intros. apply bfs_v1_ok; auto. lia. Qed.

(** bfs_v2: the same holds if the uninitialised words happen to hold no bit other than the root's. *)
Theorem C65_v2 fuel vmax W g g_t sched wk garbage root nb alpha beta :
  targets_ok g -> transpose_of g g_t -> root < length g -> length g <= vmax -> length g < fuel ->
  alpha <> 0 -> beta <> 0 -> (forall ph u, wk ph u < nb) -> length garbage = length g ->
  (forall v, v < length g -> nth v garbage false = true -> v = root) ->
  exists p, bfs_v2 fuel vmax W g g_t sched wk garbage root nb alpha beta = Ok p /\ is_bfs_tree g root vmax p.
Proof. intros. apply bfs_v2_ok; auto. lia. Qed.

(** Otherwise every successor of a garbage vertex gets a parent when the search starts bottom-up, so an unreachable one
    is reported as reached. *)
Theorem C65_v2_garbage fuel vmax W g g_t sched wk garbage root nb alpha beta p x u :
  targets_ok g -> transpose_of g g_t -> root < length g -> length g <= vmax -> (forall ph v, wk ph v < nb) -> length garbage = length g ->
  sum (map (@length nat) g) / alpha < length (nth root g []) -> nth x garbage false = true -> edge g x u ->
  bfs_v2 fuel vmax W g g_t sched wk garbage root nb alpha beta = Ok p ->
  nth u p vmax <> vmax /\ (~ reachable g root u -> ~ is_bfs_tree g root vmax p).
Proof.
  intros HT HTR HR HV HW LG HA Hx Ed E. assert (M := @bfs_v2_garbage vmax g g_t root HT HTR HR HV fuel W sched wk garbage nb alpha beta p x u HW LG HA Hx Ed E).
  split; auto. intros NR (_ & _ & T). apply M. apply T; auto. now apply (HT _ _ Ed).
Qed.

(** A worker numbered past the local queues makes the first top-down level of v1 and v2 undefined. *)
Theorem C65_no_queue fuel vmax W g g_t sched wk garbage root nb alpha beta p v : targets_ok g -> length g <= vmax ->
  (forall u, nb <= wk 0 u) -> length (nth root g []) <= sum (map (@length nat) g) / alpha -> edge g root v -> v <> root ->
  bfs_v1 fuel vmax W g g_t sched wk garbage root nb alpha beta <> Ok p /\ bfs_v2 fuel vmax W g g_t sched wk garbage root nb alpha beta <> Ok p.
Proof. intros. now apply v12_no_worker with (v := v). Qed.

(** flush concatenates the local queues in order, whatever the queue held, and empties them. *)
Theorem C65_flush sched lq queue : flush sched lq queue = Ok (concat lq, map (fun _ => []) lq).
Proof. apply flush_ok. Qed.

(** ** Non-vacuity: 0 -> 1, 2 -> 3 -> 4, and 5 -> 5. Vertex 3 has two possible parents; 5 is unreachable. *)
Definition xg : list (list nat) := [[1; 2]; [3]; [3]; [4]; []; [5]].
Definition xg_t : list (list nat) := [[]; [0]; [0]; [1; 2]; [3]; [5]].
Example C65_ex_hyps : targets_ok xg /\ transpose_of xg xg_t /\ ~ reachable xg 0 5.
Proof.
  assert (E : forall u v, edge xg u v <-> (u, v) = (0, 1) \/ (u, v) = (0, 2) \/ (u, v) = (1, 3) \/ (u, v) = (2, 3) \/ (u, v) = (3, 4) \/ (u, v) = (5, 5)).
  { intros u v. unfold edge. do 6 (destruct u as [|u]; [simpl; intuition congruence|]). destruct u; simpl; intuition congruence. }
  assert (ET : forall u v, edge xg_t u v <-> (v, u) = (0, 1) \/ (v, u) = (0, 2) \/ (v, u) = (1, 3) \/ (v, u) = (2, 3) \/ (v, u) = (3, 4) \/ (v, u) = (5, 5)).
  { intros u v. unfold edge. do 6 (destruct u as [|u]; [simpl; intuition congruence|]). destruct u; simpl; intuition congruence. }
  split; [|split].
  - intros u v H. apply E in H. simpl. intuition; match goal with H : (_, _) = _ |- _ => injection H as -> -> end; lia.
  - split; auto. intros u v. rewrite E. apply ET.
  - intros (k & W). assert (X : forall k v, walk xg 0 k v -> v <> 5).
    { intros j v H. induction H as [|j u v H IH Ed]; [lia|]. apply E in Ed. intuition congruence. }
    now apply (X k 5 W).
Qed.
Example C65_ex_v6 : bfs_v6 7 255 xg 0 = Ok [0; 0; 0; 1; 3; 255].
Proof. vm_compute. reflexivity. Qed.
Example C65_ex_v7 : bfs_v7 7 255 xg (fun ph _ => ph) 0 = Ok [0; 0; 0; 2; 3; 255].
Proof. vm_compute. reflexivity. Qed.
(** both tasks for vertex 3 pass the test of v8 before either store: 3 is queued twice and the last writer wins. *)
Example C65_ex_twice : exists st, xphase 255 2 xg (fun _ => 0) body_v689 (fun t => t) [1; 2] [0; 1; 1; 255; 255; 255] [] [0; 0; 0; 255; 255; 255] [[]] = Ok st /\
  x_q st = [[3; 3]].
Proof. eexists. vm_compute. split; reflexivity. Qed.
Example C65_ex_v8 : bfs_v8 7 255 xg (fun _ t => t) 0 = Ok [0; 0; 0; 2; 3; 255].
Proof. vm_compute. reflexivity. Qed.
Example C65_ex_bins : bfs_v9 6 255 xg (fun _ t => t) 0 = Ok [0; 0; 0; 2; 3; 255] /\ bfs_top_down 6 255 xg (fun _ _ => 0) 0 = Ok [0; 0; 0; 1; 3; 255] /\
  bfs_top_down_bitmap 6 255 xg (fun ph _ => ph) 0 = Ok [0; 0; 0; 2; 3; 255].
Proof. vm_compute. auto. Qed.
Example C65_ex_bottom_up : bfs_bottom_up 7 255 6 xg_t (fun _ t => t) 0 = Ok [0; 0; 0; 1; 3; 255] /\
  bfs_bottom_up 7 255 1 xg_t (fun _ t => t) 0 = Ub /\ crowded xg 0 1 1.
Proof.
  split; [vm_compute; reflexivity|]. split; [vm_compute; reflexivity|]. exists [1; 2]. split; [repeat constructor; simpl; lia|]. split; [simpl; lia|].
  assert (D : forall v, v = 1 \/ v = 2 -> dist xg 0 v 1).
  { intros v H. apply dist_S. split; [|exists 0; split; [now apply dist_0|unfold edge; simpl; intuition]].
    intros (d & L & D). assert (d = 0) by lia. subst d. apply dist_0 in D. lia. }
  intros v [<-|[<-|[]]]; apply D; auto.
Qed.
Example C65_ex_v1 : bfs_v1 7 255 256 xg xg_t (fun _ t => t) (fun _ u => u mod 4) (repeat true 6) 0 4 15 18 = Ok [0; 0; 0; 1; 3; 255] /\
  bfs_v1 7 255 256 xg xg_t (fun ph _ => ph / 2) (fun _ u => u mod 4) (repeat true 6) 0 4 1 18 = Ok [0; 0; 0; 2; 3; 255].
Proof. vm_compute. auto. Qed.
Example C65_ex_v2 : bfs_v2 7 255 256 xg xg_t (fun _ t => t) (fun _ u => u mod 4) [true; false; false; false; false; false] 0 4 15 18 = Ok [0; 0; 0; 1; 3; 255].
Proof. vm_compute. reflexivity. Qed.
(** a garbage bit on 5 makes 5 its own parent, one on 3 makes 4 be found before 3. *)
Example C65_ex_garbage : bfs_v2 7 255 256 xg xg_t (fun _ t => t) (fun _ u => u mod 4) [false; false; false; true; false; true] 0 4 15 18 = Ok [0; 0; 0; 1; 3; 5].
Proof. vm_compute. reflexivity. Qed.
(** workers 4 and up with four queues. *)
Example C65_ex_no_queue : bfs_v1 7 255 256 xg xg_t (fun _ t => t) (fun _ u => u + 4) (repeat true 6) 0 4 1 18 = Ub.
Proof. vm_compute. reflexivity. Qed.
Example C65_ex_flush : flush (fun t => t) [[7; 8]; []; [9]] [1] = Ok ([7; 8; 9], [[]; []; []]).
Proof. vm_compute. reflexivity. Qed.
Print Assumptions C65_levels.
Print Assumptions C65_bins.
Print Assumptions C65_bottom_up.
Print Assumptions C65_v1.
Print Assumptions C65_v2.
Print Assumptions C65_v2_garbage.
Print Assumptions C65_no_queue.
Print Assumptions C65_flush.
