(** C72: approx_betweenness_worklist and approx_betweenness_worklist_noabstraction.  The scores that ought to come out are
    [without_sources] of C70. *)
From Coq Require Import List Arith ZArith QArith Qcanon Lia Bool Permutation.
From Verif Require Import Base GraphLib SumLib QcLib Pool BcLib BcModel BcProperties XbcProperties WlModel WlParModel WlParProofs WlProperties.
Import ListNotations.
Set Implicit Arguments.
Local Open Scope nat_scope.

(** With no thread nothing is accumulated: whenever the function ends, every score is 0. *)
Theorem C72_no_threads g vmax M nb DELTA fuel rounds c :
  approx_worklist g vmax M nb DELTA 0 fuel rounds = Ok c -> forall v, nth v c 0%Qc = 0%Qc.
Proof.
  intros E v. replace c with (repeat 0%Qc (length g)); [apply nth_repeat|]. symmetry. eapply wlp_rounds; [| |exact E]; auto.
  intros r cent c1 _ _ R. eapply wlp_source_no_threads; eauto.
Qed.
Definition steady (s : nat) : round := {| r_s := s; r_ord := fun _ l => l; r_sched := fun t => t; r_bsched := fun t => t |}.
Definition path3 : list (list nat) := [[1]; [2]; []].
Example C72_no_threads_ex : show (approx_worklist path3 100 256 2 1 0 50 [steady 0]) = [0; 0; 0]%Q /\ map this (without_sources path3 [0]) = [0; 1; 0]%Q.
Proof. vm_compute. auto. Qed.

(** The last item taken from a worklist is dropped.  So when every source has at most one out-arc nothing is ever explored: for any
    number of threads and under every schedule, whenever the function ends every score is 0, whatever the graph. *)
Theorem C72_one_arc g vmax M nb DELTA threads fuel rounds c :
  (forall r, In r rounds -> some_order (r_ord r) /\ length (nth (r_s r) g []) <= 1) ->
  approx_worklist g vmax M nb DELTA threads fuel rounds = Ok c -> forall v, nth v c 0%Qc = 0%Qc.
Proof.
  intros H E v. replace c with (repeat 0%Qc (length g)); [apply nth_repeat|]. symmetry. eapply wlp_rounds; [| |exact E]; auto.
  intros r cent c1 I -> R. destruct (H r I) as [HO HR]. eapply wlp_source_zero; [| |exact R].
  - intros x. apply Permutation_nil. apply Permutation_sym, HO.
  - intros row G. apply (nth_error_nth _ _ []) in G. now rewrite <- G.
Qed.
Example C72_one_arc_ex : (forall r, In r [steady 0; steady 1] -> some_order (r_ord r) /\ length (nth (r_s r) path3 []) <= 1) /\
  show (approx_worklist path3 100 256 2 1 1 50 [steady 0; steady 1]) = [0; 0; 0]%Q /\
  show (approx_worklist path3 100 256 2 1 3 50 [steady 0; steady 1]) = [0; 0; 0]%Q /\
  map this (without_sources path3 [0; 1]) = [0; 1; 0]%Q.
Proof.
  split; [|vm_compute; auto]. intros r [<-|[<-|[]]]; (split; [intros v l; auto|simpl; auto]).
Qed.

(** A source, not vertex 0, whose row starts with a self-loop and is longer: with one thread the function never ends. *)
Theorem C72_self_loop g vmax M nb DELTA fuel before r after v row :
  r_s r <> 0 -> nth_error g (r_s r) = Some (r_s r :: v :: row) ->
  forall c, approx_worklist g vmax M nb DELTA 1 fuel (before ++ r :: after) <> Ok c.
Proof.
  intros N G c E. unfold approx_worklist in E. rewrite rfold_app in E.
  match type of E with bind ?x _ = _ => destruct x as [c1| |]; try discriminate end. cbn [bind rfold] in E.
  rewrite (self_loop_stuck g vmax M nb DELTA fuel c1 r v row N G) in E. discriminate.
Qed.
Example C72_self_loop_ex : nth_error [[]; [1; 2]; []] 1 = Some (1 :: 2 :: []) /\
  approx_worklist [[]; [1; 2]; []] 100 256 2 1 1 200 [steady 1] = OutOfFuel /\
  show (approx_worklist [[]; [2; 1]; []] 100 256 2 1 1 200 [steady 1]) = [0; 0; 0]%Q.
Proof. vm_compute. auto. Qed.

(** The scores are not always 0: a tree, with one thread; the last arc is dropped on the way out, and the last vertex taken (2) on the way back. *)
Definition bush : list (list nat) := [[1; 2]; [3; 4; 5]; [6; 7; 8]; []; []; []; []; []; []].
Example C72_bush_ex : show (approx_worklist bush 100 256 2 1 1 300 [steady 0]) = [0; 3; 0; 0; 0; 0; 0; 0; 0]%Q /\
  map this (without_sources bush [0]) = [0; 3; 3; 0; 0; 0; 0; 0; 0]%Q.
Proof. vm_compute. auto. Qed.

(** The loop over the buckets in noabstraction reads one bucket past the end before it leaves: with at least one bucket (there are
    10), for every source and whatever the body does, the forward phase has no defined result. *)
Theorem C72_noabstraction g vmax M nb DELTA fuel perm s : 0 < nb ->
  forall r, na_forward g vmax M nb DELTA fuel perm s <> Ok r.
Proof.
  intros P r. unfold na_forward.
  match goal with |- bind ?x _ <> _ => destruct x as [vs0| |]; try discriminate end. cbn [bind].
  destruct (vget g s) as [row| |]; try discriminate. cbn [bind]. apply na_loop_never. cbn [snd]. now rewrite upd_length, repeat_length.
Qed.
Theorem C72_noabstraction_body level fuel st r : 0 < length (snd st) -> na_loop level fuel st 0 <> Ok r.
Proof. intros P. now apply na_loop_never. Qed.
(** It is not the fuel: the read past the end does happen. *)
Example C72_noabstraction_ex : na_forward path3 100 256 10 1 20 (fun l => l) 0 = Ub.
Proof. vm_compute. auto. Qed.
Print Assumptions C72_no_threads.
Print Assumptions C72_one_arc.
Print Assumptions C72_self_loop.
Print Assumptions C72_noabstraction.
Print Assumptions C72_noabstraction_body.
