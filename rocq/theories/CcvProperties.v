(** C62: the Shiloach-Vishkin versions of experimental/algorithms/connected_components.hpp. *)
From Coq Require Import List Arith Lia Bool Permutation.
From Verif Require Import Base ConnLib GraphLib SsspLib ParBfsModel CcModel CcProofs CcProofs2 CcvModel CcvProofs.
Import ListNotations.

(** sv_v6 and sv_v8: although a label is tested and stored in separate steps, every interleaving of every iteration
    ends with each vertex labelled with the least vertex of its component. *)
Theorem C62_sv_v6 W sched g : length g < W -> targets_ok g ->
  exists comp, sv_v6 W sched g = Ok comp /\ length comp = length g /\
    forall v, v < length g -> conn (gedges g) v (nth v comp v) /\ forall w, w < length g -> conn (gedges g) v w -> nth v comp v <= w.
Proof.
  intros HW HT. unfold sv_v6. apply sv_run_ok; auto.
  - intros a b I. apply in_gedges in I. split; [eapply edge_lt; exact I|eapply HT; exact I].
  - intros e. rewrite Nat.mod_small by auto. unfold gedges. tauto.
Qed.

(** sv_v9: the same however the arcs are divided among the tasks. *)
Theorem C62_sv_v9 W sched g pieces : length g < W -> targets_ok g -> (forall u v, In (u, v) (concat pieces) <-> edge g u v) ->
  exists comp, sv_v9 W sched g pieces = Ok comp /\ length comp = length g /\
    forall v, v < length g -> conn (gedges g) v (nth v comp v) /\ forall w, w < length g -> conn (gedges g) v w -> nth v comp v <= w.
Proof.
  intros HW HT HP. unfold sv_v9. apply sv_run_ok; auto.
  - intros a b I. apply in_gedges in I. split; [eapply edge_lt; exact I|eapply HT; exact I].
  - intros [a b]. rewrite in_gedges. symmetry. apply HP.
Qed.

(** With as many vertices as the id type has values the loop over them never ends. *)
Theorem C62_endless fuel W comp : length comp = W -> 0 < W -> forall c, sv_sweep fuel W comp 0 <> Ok c.
Proof. intros. now apply sv_sweep_endless. Qed.

(** ** Non-vacuity *)
Definition ex_path : list (list nat) := [[4]; [5]; [3]; [2; 4; 5]; [0; 3]; [1; 3]; []].
Example ex_path_ok : targets_ok ex_path.
Proof. intros u v E. unfold edge in E. do 7 (destruct u as [|u]; [simpl in E; repeat (destruct E as [E|E]; [subst v; simpl; lia|]); destruct E|]). destruct u; destruct E. Qed.
Example C62_ex_v6 : sv_v6 8 (fun _ _ => 0) ex_path = Ok [0; 0; 0; 0; 0; 0; 6] /\ sv_v6 8 (fun i t => t * t + i) ex_path = Ok [0; 0; 0; 0; 0; 0; 6].
Proof. split; vm_compute; reflexivity. Qed.
Example C62_ex_v9 : sv_v9 8 (fun i t => t + i) [[2]; [2]; [0; 1]] [[(2, 1); (0, 2)]; []; [(1, 2); (2, 0)]] = Ok [0; 0; 0].
Proof. vm_compute; reflexivity. Qed.
(** Two tasks see that 5 is a root and both store: the second store overwrites the first, so that the arc (5, 3) is lost and
    found again by the next iteration. *)
Example C62_ex_race :
  run_all sv_size (sv_step 8) (fun t => t) [SvU 5 3 []; SvU 5 1 []] ([0; 1; 2; 3; 4; 5], false) = Ok ([0; 1; 2; 3; 4; 1], true) /\
  sv_v6 8 (fun _ t => t) [[]; [5]; []; [5]; []; []] = Ok [0; 1; 2; 1; 4; 1].
Proof. split; vm_compute; reflexivity. Qed.
Example C62_ex_endless : sv_v6 3 (fun _ _ => 0) [[1]; [0]; []] = OutOfFuel.
Proof. vm_compute; reflexivity. Qed.

Print Assumptions C62_sv_v6.
Print Assumptions C62_sv_v9.
Print Assumptions C62_endless.
