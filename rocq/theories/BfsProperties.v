(** C29 (serial bfs) and C30 (BFSVerifier). The specification is GraphLib's [walk]/[dist]/[reachable]; the
    sentinel [vmax] is numeric_limits<vertex_id_type>::max(), so a graph has at most [vmax] vertices. *)
From Coq Require Import List Arith Lia Bool.
From Verif Require Import Base GraphLib BfsModel BfsProofs.
Import ListNotations.
Set Implicit Arguments.

(** ** C29 *)
Theorem C29_bfs_tree fuel vmax g root : targets_ok g -> root < length g -> length g <= vmax -> length g <= fuel ->
  exists p, bfs fuel vmax g root = Ok p /\ is_bfs_tree g root vmax p.
Proof. intros. now apply bfs_ok. Qed.

(** The returned vector read directly: a vertex has a parent iff it is reachable; the parent edge is an edge;
    dist(root, v) parent steps from v reach the root and no fewer do. *)
Theorem C29_parents_lead_to_root fuel vmax g root p : targets_ok g -> root < length g -> length g <= vmax -> length g <= fuel ->
  bfs fuel vmax g root = Ok p ->
  length p = length g /\
  forall v, v < length g ->
    (nth v p vmax <> vmax <-> reachable g root v) /\
    (v <> root -> reachable g root v -> edge g (nth v p vmax) v) /\
    forall d, dist g root v d -> ancestor p vmax d v = root /\ forall j, j < d -> ancestor p vmax j v <> root.
Proof.
  intros HT HR HV HF E. destruct (C29_bfs_tree HT HR HV HF) as (p' & E' & T). rewrite E in E'. injection E' as <-.
  assert (T' := T). destruct T as (L & R & P). split; auto. intros v Hv. destruct (P v Hv) as (A & B & C). split; [|split].
  - split.
    + intros N. assert (D : reachable g root v \/ ~ reachable g root v); [|destruct D; auto; exfalso; auto].
      destruct (within_dec g root (length g) v) as [(d & _ & D)|W]; [left; apply dist_reach; eauto|].
      right. intros RE. apply dist_reach in RE. destruct RE as (d & D). apply W. exists d. split; auto.
      assert (X := level_bound HT HR HV D). lia.
    + intros RE. specialize (B RE). lia.
  - intros N RE. apply dist_reach in RE. destruct RE as (d & D). apply (C d N D).
  - intros d D. now apply bfs_tree_ancestor with (g := g).
Qed.

(** A root out of range is an out-of-bounds write. *)
Theorem C29_root_out_of_range fuel vmax g root : length g <= root -> bfs fuel vmax g root = Ub.
Proof. intros H. unfold bfs. rewrite vset_ge by now rewrite repeat_length. reflexivity. Qed.

(** ** C30 *)
Theorem C30_verifier_exact fuel vmax g g_t source parent :
  targets_ok g -> transpose_of g g_t -> source < length g -> length g <= vmax -> length parent = length g -> length g <= fuel ->
  exists b, BFSVerifier fuel vmax g g_t source parent = Ok b /\ (b = true <-> is_bfs_tree g source vmax parent).
Proof. intros. now apply verifier_ok. Qed.

(** The serial bfs passes its verifier. *)
Theorem C30_verifier_accepts_bfs fuel vmax g g_t source parent :
  targets_ok g -> transpose_of g g_t -> source < length g -> length g <= vmax -> length g <= fuel ->
  bfs fuel vmax g source = Ok parent -> BFSVerifier fuel vmax g g_t source parent = Ok true.
Proof.
  intros HT TR HS HV HF E. destruct (C29_bfs_tree HT HS HV HF) as (p & E' & T). rewrite E in E'. injection E' as <-.
  destruct (C30_verifier_exact parent HT TR HS HV (proj1 T) HF) as (b & EB & B). rewrite EB. f_equal. now apply B.
Qed.

(** ** Non-vacuity: two routes to vertex 3, a cycle, a self loop, an unreachable vertex. *)
Definition ex_g : list (list nat) := [[1; 2]; [3]; [3; 0]; [3; 4]; [1]; [0]].
Definition ex_gt : list (list nat) := [[2; 5]; [0; 4]; [0]; [1; 2; 3]; [3]; []].
Example ex_g_ok : targets_ok ex_g.
Proof. intros u v I. unfold edge in I. do 6 (destruct u as [|u]; [simpl in *; lia|]). simpl in I. destruct u; destruct I. Qed.
Example ex_gt_ok : transpose_of ex_g ex_gt.
Proof.
  split; auto. intros u v. unfold edge, ex_g, ex_gt.
  do 6 (destruct v as [|v]; [do 6 (destruct u as [|u]; [simpl; lia|]); destruct u; simpl; lia|]).
  do 6 (destruct u as [|u]; [simpl; destruct v; simpl; lia|]). destruct u, v; simpl; tauto.
Qed.
Example ex_bfs : bfs 6 255 ex_g 0 = Ok [0; 0; 0; 1; 3; 255].
Proof. reflexivity. Qed.
Example ex_ver : BFSVerifier 6 255 ex_g ex_gt 0 [0; 0; 0; 2; 3; 255] = Ok true /\
  BFSVerifier 6 255 ex_g ex_gt 0 [0; 4; 0; 2; 3; 255] = Ok false /\
  BFSVerifier 6 255 ex_g ex_gt 0 [0; 0; 0; 2; 255; 255] = Ok false /\
  BFSVerifier 6 255 ex_g ex_gt 0 [2; 0; 0; 2; 3; 255] = Ok false /\
  BFSVerifier 6 255 ex_g ex_gt 0 [0; 0; 0; 2; 3; 0] = Ok false.
Proof. repeat split; reflexivity. Qed.
Print Assumptions C29_bfs_tree.
Print Assumptions C29_parents_lead_to_root.
Print Assumptions C29_root_out_of_range.
Print Assumptions C30_verifier_exact.
Print Assumptions C30_verifier_accepts_bfs.
