(** C31: the parallel direction-optimising bfs under every schedule. [sched ph t] names the task moved at step t of
    the ph-th parallel loop, so the quantifier over [sched] ranges over all interleavings of the atomic accesses. *)
From Coq Require Import List Arith Lia Bool.
From Verif Require Import Base GraphLib Pool ParBfsModel BfsProofs BfsModel BfsProperties ParBfsProofs.
Import ListNotations.
Set Implicit Arguments.

Theorem C31_every_schedule_bfs_tree fuel vmax W g g_t sched root nbins alpha beta :
  targets_ok g -> transpose_of g g_t -> root < length g -> length g <= vmax ->
  alpha <> 0 -> beta <> 0 -> 0 < nbins -> length g < fuel ->
  exists p, pbfs fuel vmax W g g_t sched root nbins alpha beta = Ok p /\ is_bfs_tree g root vmax p.
Proof. intros. now apply pbfs_ok. Qed.

(** Hence, whatever the schedules, two runs (and the serial bfs) agree on which vertices have a parent, and both
    parent vectors pass the library's verifier. *)
Theorem C31_schedules_agree fuel vmax W g g_t sched1 sched2 root nbins1 nbins2 alpha1 beta1 alpha2 beta2 p1 p2 :
  targets_ok g -> transpose_of g g_t -> root < length g -> length g <= vmax ->
  alpha1 <> 0 -> beta1 <> 0 -> alpha2 <> 0 -> beta2 <> 0 -> 0 < nbins1 -> 0 < nbins2 -> length g < fuel ->
  pbfs fuel vmax W g g_t sched1 root nbins1 alpha1 beta1 = Ok p1 ->
  pbfs fuel vmax W g g_t sched2 root nbins2 alpha2 beta2 = Ok p2 ->
  BFSVerifier fuel vmax g g_t root p1 = Ok true /\
  forall v, v < length g -> (nth v p1 vmax = vmax <-> nth v p2 vmax = vmax) /\
    forall d, dist g root v d -> ancestor p1 vmax d v = root /\ ancestor p2 vmax d v = root.
Proof.
  intros HT TR HR HV A1 B1 A2 B2 N1 N2 HF E1 E2.
  destruct (C31_every_schedule_bfs_tree W sched1 HT TR HR HV A1 B1 N1 HF) as (q1 & F1 & T1). rewrite E1 in F1. injection F1 as <-.
  destruct (C31_every_schedule_bfs_tree W sched2 HT TR HR HV A2 B2 N2 HF) as (q2 & F2 & T2). rewrite E2 in F2. injection F2 as <-.
  split.
  { destruct (C30_verifier_exact p1 HT TR HR HV (proj1 T1) (Nat.lt_le_incl _ _ HF)) as (b & EB & B). rewrite EB. f_equal. now apply B. }
  intros v Hv. split.
  - assert (RD : reachable g root v \/ ~ reachable g root v).
    { destruct (within_dec g root (length g) v) as [(d & _ & D)|W']; [left; apply dist_reach; eauto|].
      right. intros RE. apply dist_reach in RE. destruct RE as (d & D). apply W'. exists d. split; auto. assert (X := level_bound HT HR HV D). lia. }
    destruct T1 as (_ & _ & P1), T2 as (_ & _ & P2). destruct (P1 v Hv) as (X1 & Y1 & _), (P2 v Hv) as (X2 & Y2 & _).
    destruct RD as [R|R]; [specialize (Y1 R); specialize (Y2 R); lia|]. rewrite X1, X2 by auto. tauto.
  - intros d D. split; eapply bfs_tree_ancestor; eauto.
Qed.

(** alpha = 0 divides by zero. *)
Theorem C31_alpha_zero fuel vmax W g g_t sched root nbins beta : root < length g -> 0 < nbins ->
  pbfs (S fuel) vmax W g g_t sched root nbins 0 beta = Ub.
Proof.
  intros HR NB. unfold pbfs. rewrite (@vget_nth _ g root []) by auto. cbn [bind]. rewrite vset_lt by (rewrite repeat_length; auto). cbn [bind].
  destruct (@bin_push_ok (repeat [] nbins) root root) as (q1 & E & _); [now rewrite repeat_length|]. rewrite E. reflexivity.
Qed.

(** ** Non-vacuity: the graph of BfsProperties; vertex 3 has two possible parents. Three runs: bottom-up only,
    top-down only with two schedules that let different tasks win the CAS. *)
Example ex_bottom_up : pbfs 7 255 256 ex_g ex_gt (fun _ t => t) 0 4 15 18 = Ok [0; 0; 0; 1; 3; 255].
Proof. reflexivity. Qed.
Example ex_top_down_first : pbfs 7 255 256 ex_g ex_gt (fun _ _ => 0) 0 4 1 18 = Ok [0; 0; 0; 1; 3; 255].
Proof. reflexivity. Qed.
Example ex_top_down_last : pbfs 7 255 256 ex_g ex_gt (fun _ _ => 1) 0 4 1 18 = Ok [0; 0; 0; 2; 3; 255].
Proof. reflexivity. Qed.
(** both tasks read null before either CAS: one CAS fails. *)
Example ex_top_down_race : pbfs 7 255 256 ex_g ex_gt (fun _ t => S t) 0 4 1 18 = Ok [0; 0; 0; 2; 3; 255].
Proof. reflexivity. Qed.
Print Assumptions C31_every_schedule_bfs_tree.
Print Assumptions C31_schedules_agree.
Print Assumptions C31_alpha_zero.
