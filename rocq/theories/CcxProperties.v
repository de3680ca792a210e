(** C61: the hooking algorithms of experimental/algorithms/connected_components.hpp. *)
From Coq Require Import List Arith Lia Bool.
From Verif Require Import Base ConnLib GraphLib SsspLib CcModel CcProofs CcProofs2 CcxModel CcxProofs CcvModel CcvProofs.
Import ListNotations.

(** ccv1 labels every vertex with the least vertex of its component, arcs counting in both directions; for every graph
    and every interleaving. *)
Theorem C61_ccv1 W sched g : length g < W -> targets_ok g ->
  exists comp, ccv1 W sched g = Ok comp /\ length comp = length g /\
    forall v, v < length g -> conn (gedges g) v (nth v comp v) /\ forall w, w < length g -> conn (gedges g) v w -> nth v comp v <= w.
Proof. intros HW HT. exact (@ccv1_ok W g HW HT sched). Qed.

(** So does compute_connected_components_v2. *)
Theorem C61_v2 W sched g : length g < W -> targets_ok g ->
  exists comp, cc_v2 W sched g = Ok comp /\ length comp = length g /\
    forall v, v < length g -> conn (gedges g) v (nth v comp v) /\ forall w, w < length g -> conn (gedges g) v w -> nth v comp v <= w.
Proof. intros HW HT. exact (@cc_v2_ok W g HW HT sched). Qed.

(** ccv5 does so for symmetric graphs, whatever label is sampled. *)
Theorem C61_ccv5 W sched pick g : length g < W -> targets_ok g -> (forall u v, edge g u v -> edge g v u) ->
  exists comp, ccv5 W sched pick g = Ok comp /\ length comp = length g /\
    forall v, v < length g -> conn (gedges g) v (nth v comp v) /\ forall w, w < length g -> conn (gedges g) v w -> nth v comp v <= w.
Proof. intros HW HT SY. exact (@ccv5_ok W g HW HT sched pick SY). Qed.

(** Afforest does so when the graph is symmetric or comes with its transpose. *)
Theorem C61_Afforest W sched pick g tg bound : length g < W -> targets_ok g ->
  (tg = [] /\ (forall u v, edge g u v -> edge g v u)) \/ transpose_of g tg ->
  exists comp, afforest_x W sched pick g tg bound = Ok comp /\ length comp = length g /\
    forall v, v < length g -> conn (gedges g) v (nth v comp v) /\ forall w, w < length g -> conn (gedges g) v w -> nth v comp v <= w.
Proof. intros HW HT HC. exact (@afforest_x_ok W g HW HT sched pick tg bound HC). Qed.

(** The symmetry is needed: when only vertex 0 has arcs and its label is the one sampled, ccv5 joins nothing. *)
Theorem C61_ccv5_star W sched g : length g < W -> targets_ok g -> (forall u v, edge g u v -> u = 0) -> ccv5 W sched (fun _ => 0) g = Ok (seq 0 (length g)).
Proof. intros HW HT H0. exact (@ccv5_star W g HT HW H0 sched). Qed.

(** compute_connected_components_v1 gives each vertex a label within its component and not above it ... *)
Theorem C61_v1 W sched g : length g < W -> targets_ok g ->
  exists comp, cc_v1 W sched g = Ok comp /\ length comp = length g /\
    forall v, v < length g -> nth v comp v <= v /\ conn (gedges g) v (nth v comp v).
Proof. exact (@cc_v1_ok W sched g). Qed.

(** ... but stops after two passes: the labels of a component may differ, even sequentially and on a symmetric graph. *)
Definition ex_path : list (list nat) := [[4]; [5]; [3]; [2; 4; 5]; [0; 3]; [1; 3]].
Theorem C61_v1_refuted : exists g, targets_ok g /\ (forall u v, edge g u v -> edge g v u) /\ (forall u v, u < length g -> v < length g -> conn (gedges g) u v) /\
  cc_v1 8 (fun _ _ => 0) g = Ok [0; 1; 1; 1; 0; 1].
Proof.
  exists ex_path.
  assert (A : forall u v, edge ex_path u v -> v < 6 /\ edge ex_path v u).
  { intros u v E. unfold edge in *. do 6 (destruct u as [|u]; [simpl in E; repeat (destruct E as [E|E]; [subst v; simpl; auto; try lia|]); destruct E|]). destruct u; destruct E. }
  split; [intros u v E; exact (proj1 (A u v E))|]. split; [intros u v E; exact (proj2 (A u v E))|]. split; [|vm_compute; reflexivity].
  assert (B : forall u, u < 6 -> conn (gedges ex_path) 3 u).
  { assert (SS : forall u v, edge ex_path u v -> conn (gedges ex_path) u v) by (intros; now apply conn_edge, in_gedges).
    assert (H4 : conn (gedges ex_path) 3 4) by (apply SS; unfold edge; simpl; auto). assert (H5 : conn (gedges ex_path) 3 5) by (apply SS; unfold edge; simpl; auto).
    intros u Hu. destruct u as [|[|[|[|[|[|u]]]]]]; try lia; auto.
    - eapply conn_trans; [exact H4|]. apply SS. unfold edge; simpl; auto.
    - eapply conn_trans; [exact H5|]. apply SS. unfold edge; simpl; auto.
    - apply SS. unfold edge; simpl; auto.
    - apply conn_refl. }
  intros u v Hu Hv. eapply conn_trans; [apply conn_sym, B; exact Hu|apply B; exact Hv].
Qed.

(** With as many vertices as the id type has values the end of every loop wraps to 0: all vertices get the label 0,
    whatever the arcs. *)
Theorem C61_full W sched pick g tg bound : 0 < W -> length g = W ->
  ccv1 W sched g = Ok (repeat 0 W) /\ cc_v1 W sched g = Ok (repeat 0 W) /\ cc_v2 W sched g = Ok (repeat 0 W) /\
  ccv5 W sched pick g = Ok (repeat 0 W) /\ afforest_x W sched pick g tg bound = Ok (repeat 0 W).
Proof. intros HW L. destruct (@full_x W sched pick g tg bound HW L) as (A & B & C & D). repeat split; auto. now apply full_v1. Qed.

(** ** Non-vacuity *)
Definition ex_dir : list (list nat) := [[]; [3]; [0; 4]; [0]; []; [5]].
Example ex_dir_ok : targets_ok ex_dir.
Proof. intros u v E. unfold edge in E. do 6 (destruct u as [|u]; [simpl in E; repeat (destruct E as [E|E]; [subst v; simpl; lia|]); destruct E|]). destruct u; destruct E. Qed.
Example C61_ex_v : ccv1 8 (fun i t => i + t) ex_dir = Ok [0; 0; 0; 0; 0; 5] /\ cc_v2 8 (fun i t => i + t * t) ex_dir = Ok [0; 0; 0; 0; 0; 5].
Proof. split; vm_compute; reflexivity. Qed.
Definition ex_symm : list (list nat) := [[2]; [3; 4]; [0; 5]; [1]; [1]; [2]].
Example ex_symm_ok : targets_ok ex_symm /\ forall u v, edge ex_symm u v -> edge ex_symm v u.
Proof.
  split; intros u v E; unfold edge in *; do 6 (destruct u as [|u]; [simpl in E; repeat (destruct E as [E|E]; [subst v; simpl; auto; try lia|]); destruct E|]); destruct u; destruct E.
Qed.
Example C61_ex_sym : ccv5 8 (fun i t => i + 3 * t) (fun c => nth 5 c 0) ex_symm = Ok [0; 1; 0; 1; 1; 0] /\
  afforest_x 8 (fun i t => t) (fun c => nth 1 c 0) ex_symm [] 1 = Ok [0; 1; 0; 1; 1; 0].
Proof. split; vm_compute; reflexivity. Qed.
(** In a type of 8 values the sum of the labels 6 and 5 wraps around and still gives the smaller. *)
Example C61_ex_wrap : hk_low 8 6 5 = 5 /\ ccv1 8 (fun _ t => t) [[]; []; []; []; []; [6]; [5]] = Ok [0; 1; 2; 3; 4; 5; 5].
Proof. split; vm_compute; reflexivity. Qed.
(** Two hooks race for the root 3: the loser goes on from the new parent. *)
Example C61_ex_race : x_push 8 (fun t => t) None None [[]; []; [1]; [1; 2]] [] (seq 0 4) = Ok [0; 1; 1; 1].
Proof. vm_compute; reflexivity. Qed.
Example C61_ex_full : ccv1 3 (fun _ t => t) [[]; [2]; []] = Ok [0; 0; 0] /\ ccv1 4 (fun _ t => t) [[]; [2]; []] = Ok [0; 1; 1].
Proof. split; vm_compute; reflexivity. Qed.
Example C61_ex_star : ccv5 8 (fun i t => i + t) (fun _ => 0) [[3; 1]; []; []; []] = Ok [0; 1; 2; 3].
Proof. vm_compute; reflexivity. Qed.
(** v1 finds the component of the same path under another schedule. *)
Example C61_ex_v1 : cc_v1 8 (fun i t => t * t + i) ex_path = Ok [0; 0; 0; 0; 0; 0].
Proof. vm_compute; reflexivity. Qed.

Print Assumptions C61_ccv1.
Print Assumptions C61_v2.
Print Assumptions C61_ccv5.
Print Assumptions C61_Afforest.
Print Assumptions C61_ccv5_star.
Print Assumptions C61_v1.
Print Assumptions C61_v1_refuted.
Print Assumptions C61_full.
