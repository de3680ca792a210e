(** C63: the label propagation of experimental/algorithms/connected_components.hpp. *)
From Coq Require Import List Arith Lia Bool.
From Verif Require Import Base ConnLib GraphLib CcProofs2 LpccModel LpccProofs.
Import ListNotations.

(** What tbb may do with a list of vertices: any division into pieces that together hold its elements, run by workers
    that have a frontier. *)
Definition divides (nbins : nat) (split : nat -> list nat -> list (nat * list nat)) : Prop :=
  forall i l, Forall (fun c => fst c < nbins) (split i l) /\ forall x, In x (concat (map snd (split i l))) <-> In x l.

(** lpcc and lpcc_cyclic end with each vertex labelled with the least vertex from which it can be reached, for every
    graph, division and interleaving. *)
Theorem C63_lpcc W nbins sched split g : length g < W -> targets_ok g -> divides nbins split ->
  exists comp, lpcc W nbins sched split g = Ok comp /\ length comp = length g /\
    forall v, v < length g -> reachable g (nth v comp 0) v /\ forall u, reachable g u v -> nth v comp 0 <= u.
Proof. exact (@lpcc_ok false W nbins sched split g). Qed.
Theorem C63_lpcc_cyclic W nbins sched split g : length g < W -> targets_ok g -> divides nbins split ->
  exists comp, lpcc_cyclic W nbins sched split g = Ok comp /\ length comp = length g /\
    forall v, v < length g -> reachable g (nth v comp 0) v /\ forall u, reachable g u v -> nth v comp 0 <= u.
Proof. exact (@lpcc_ok true W nbins sched split g). Qed.

(** For symmetric graphs these are the components. *)
Lemma symm_conn g : (forall u v, edge g u v -> edge g v u) -> forall u v, conn (gedges g) u v <-> reachable g u v.
Proof.
  intros SY. assert (T : forall a b c, reachable g a b -> reachable g b c -> reachable g a c) by (intros a b c (j & A) (k & B); exists (j + k); eapply walk_app; eauto).
  assert (S1 : forall a b, edge g a b -> reachable g a b) by (intros a b E; exists 1; econstructor; [constructor|auto]).
  assert (S2 : forall a b, reachable g a b -> reachable g b a).
  { intros a b (k & R). induction R as [|k u v R IH E]; [exists 0; constructor|]. eapply T; [apply S1, SY, E|auto]. }
  intros u v. split.
  - induction 1; auto; [apply S1; now apply in_gedges|exists 0; constructor|eauto].
  - intros (k & R). induction R as [|k x y R IH E]; [apply conn_refl|]. eapply conn_trans; [exact IH|]. now apply conn_edge, in_gedges.
Qed.
Theorem C63_components W nbins sched split g : length g < W -> targets_ok g -> divides nbins split -> (forall u v, edge g u v -> edge g v u) ->
  exists comp, lpcc W nbins sched split g = Ok comp /\ lpcc_cyclic W nbins sched split g = Ok comp /\ length comp = length g /\
    forall v, v < length g -> conn (gedges g) v (nth v comp 0) /\ forall w, conn (gedges g) v w -> nth v comp 0 <= w.
Proof.
  intros HW HT HS SY. destruct (C63_lpcc W nbins sched split g HW HT HS) as (c1 & E1 & L1 & H1). destruct (C63_lpcc_cyclic W nbins sched split g HW HT HS) as (c2 & E2 & L2 & H2).
  assert (c2 = c1).
  { apply nth_ext with 0 0; [congruence|]. intros v Hv. rewrite L2 in Hv. destruct (H1 v Hv) as [A B], (H2 v Hv) as [A' B']. apply Nat.le_antisymm; auto. }
  subst c2. exists c1. split; auto. split; auto. split; auto. intros v Hv. destruct (H1 v Hv) as [A B]. split; [now apply conn_sym, symm_conn|].
  intros w Q. apply B. apply symm_conn; auto. now apply conn_sym.
Qed.

(** With as many vertices as the id type has values all labels are 0. *)
Theorem C63_full W nbins sched split g : 0 < W -> length g = W -> targets_ok g -> divides nbins split ->
  lpcc W nbins sched split g = Ok (repeat 0 W) /\ lpcc_cyclic W nbins sched split g = Ok (repeat 0 W).
Proof.
  intros HW HL HT HS. split; apply lpcc_full; auto; intros i l; apply HS.
Qed.

(** ** Non-vacuity *)
Definition ex_split (i : nat) (l : list nat) : list (nat * list nat) := [(i mod 4, firstn 2 l); (3, skipn 2 l)].
Example ex_split_ok : divides 4 ex_split.
Proof.
  intros i l. split; [constructor; [apply Nat.mod_upper_bound; lia|constructor; [cbn [fst]; lia|constructor]]|].
  intros x. unfold ex_split. cbn [map snd concat]. now rewrite app_nil_r, firstn_skipn.
Qed.
Definition ex_dir : list (list nat) := [[]; [3]; [0; 4]; [0; 4]; [1]; [2]].
Example ex_dir_ok : targets_ok ex_dir.
Proof. intros u v E. unfold edge in E. do 6 (destruct u as [|u]; [simpl in E; repeat (destruct E as [E|E]; [subst v; simpl; lia|]); destruct E|]). destruct u; destruct E. Qed.
(** A cycle 1 -> 3 -> 4 -> 1 with an arc from 2: the label of 4 is 1, that of 2 stays. *)
Example C63_ex_dir : lpcc 8 4 (fun i t => t * t + i) ex_split ex_dir = Ok [0; 1; 2; 1; 1; 5] /\
  lpcc_cyclic 8 4 (fun i t => i + t) ex_split ex_dir = Ok [0; 1; 2; 1; 1; 5].
Proof. split; vm_compute; reflexivity. Qed.
Example C63_ex_sym : lpcc 8 4 (fun i t => t) ex_split [[4]; [5]; [3]; [2; 4; 5]; [0; 3]; [1; 3]] = Ok [0; 0; 0; 0; 0; 0].
Proof. vm_compute; reflexivity. Qed.
(** A worker without a frontier: the write is out of bounds. *)
Example C63_ex_workers : lpcc 8 3 (fun i t => t) ex_split [[4]; [5]; [3]; [2; 4; 5]; [0; 3]; [1; 3]] = Ub.
Proof. vm_compute; reflexivity. Qed.
Example C63_ex_full : lpcc 2 4 (fun i t => t) ex_split [[]; []] = Ok [0; 0].
Proof. vm_compute; reflexivity. Qed.

Print Assumptions C63_lpcc.
Print Assumptions C63_lpcc_cyclic.
Print Assumptions C63_components.
Print Assumptions C63_full.
