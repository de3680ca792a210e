(** C54: how tall the trees of the free-function union-find grow. *)
From Coq Require Import List Arith ZArith Lia Bool.
From Verif Require Import Base ConnLib DsuModel DsuProofs DsuProperties DsuHeightProofs.
Import ListNotations.
Set Implicit Arguments.

(** [steps s k u r]: following the parent entries of the vector from u takes k steps to a root r. *)
Inductive steps (s : dsu) : nat -> nat -> nat -> Prop :=
| steps_root : forall u w, nth_error s u = Some (u, w) -> steps s 0 u u
| steps_next : forall k u p w r, nth_error s u = Some (p, w) -> p <> u -> steps s k p r -> steps s (S k) u r.
(** The calls that join only what is not joined yet (what kruskal makes). *)
Definition no_plain_union (ops : list dsu_op) : Prop := forall u v, ~ In (OpUnion u v) ops.

Lemma steps_up s k u r : steps s k u r -> u < length s /\ up (dp s) k u r.
Proof.
  induction 1 as [u w E|k u p w r E N S [L IH]].
  - assert (L : u < length s) by (apply nth_error_Some; congruence). split; auto.
    constructor. rewrite (entry_eq s L) in E. congruence.
  - assert (Lu : u < length s) by (apply nth_error_Some; congruence). split; auto.
    rewrite (entry_eq s Lu) in E. injection E as E _. constructor; rewrite E; auto.
Qed.

Lemma run_facts n ops outs s : ids_below n ops -> dsu_run (dsu_init n) ops = Ok (outs, s) ->
  length s = n /\ represents n (dp s) (joined ops).
Proof.
  intros V H. destruct (dsu_init_represents n) as [L R].
  destruct (@dsu_run_ok n ops (dsu_init n) [] L R) as (o & s' & E & L' & R' & _).
  - apply Forall_forall. intros x Hx. specialize (V x Hx). destruct x; auto.
  - rewrite H in E. injection E as <- <-. split; auto. now rewrite joined_edges.
Qed.

(** Union by rank: with disjoint_find and disjoint_union_find only, k steps to the root need a class of at least
    2^k elements; so no find takes more than log2 n steps. *)
Theorem C54_log_height : forall n ops outs s u k r, ids_below n ops -> no_plain_union ops ->
  dsu_run (dsu_init n) ops = Ok (outs, s) -> u < n -> steps s k u r ->
  exists members, NoDup members /\ (forall x, In x members <-> x < n /\ conn (joined ops) u x) /\ 2 ^ k <= length members.
Proof.
  intros n ops outs s u k r V NP H Hu S. destruct (run_facts V H) as [L RP].
  assert (RK : ranked n s).
  { destruct (dsu_init_represents n) as [L0 R0]. eapply (@ranked_run n ops (dsu_init n) []); eauto.
    - apply ranked_init.
    - apply Forall_forall. intros x Hx. specialize (V x Hx). destruct x; auto.
    - apply forallb_forall. intros x Hx. destruct x; auto. exfalso. eapply NP; eauto. }
  destruct (steps_up S) as [_ U]. assert (F := proj1 RP). assert (C := proj1 F).
  destruct (root_fun_exists F) as [rt RT]. assert (Hr : r < n) by (eapply up_end_lt; eauto).
  assert (A := proj2 RK rt RT r Hr (up_end U)). assert (B := ranked_up RK C U Hu).
  exists (filter (fun x => rt x =? r) (seq 0 n)). split; [apply NoDup_filter, seq_NoDup|]. split.
  - intros x. rewrite filter_In, in_seq, Nat.eqb_eq. split.
    + intros [Hx E]. assert (Hx' : x < n) by lia. split; auto. destruct (RT x Hx') as [kx Ux]. rewrite E in Ux.
      now apply (proj2 RP u x _ _ _ _ Hu Hx' U Ux).
    + intros [Hx E]. split; [lia|]. destruct (RT x Hx) as [kx Ux]. symmetry. now apply (proj2 RP u x _ _ _ _ Hu Hx U Ux).
  - transitivity (2 ^ rk s r); [apply Nat.pow_le_mono_r; lia|exact A].
Qed.
Theorem C54_log_height_n : forall n ops outs s u k r, ids_below n ops -> no_plain_union ops ->
  dsu_run (dsu_init n) ops = Ok (outs, s) -> u < n -> steps s k u r -> k <= Nat.log2 n.
Proof.
  intros n ops outs s u k r V NP H Hu S. destruct (C54_log_height V NP H Hu S) as (ms & ND & I & Le).
  apply Nat.log2_le_pow2; [lia|]. transitivity (length ms); auto.
  rewrite <- (seq_length n 0). apply NoDup_incl_length; auto. intros x Hx. apply in_seq. apply I in Hx. lia.
Qed.
(** Every element does reach a root, so the bound above is never vacuous. *)
Theorem C54_steps_exist : forall n ops outs s u, ids_below n ops -> dsu_run (dsu_init n) ops = Ok (outs, s) -> u < n ->
  exists k r, steps s k u r.
Proof.
  intros n ops outs s u V H Hu. destruct (run_facts V H) as [L RP]. destruct (proj2 (proj1 RP) u Hu) as (k & r & U).
  assert (C := proj1 (proj1 RP)). exists k, r. clear H. induction U.
  - econstructor. rewrite entry_eq by lia. now rewrite H.
  - econstructor; [rewrite entry_eq by lia; reflexivity|auto|]. apply IHU. now apply C.
Qed.
(** What the "path compression" of disjoint_find does: it redirects the entry of the argument's parent to the
    root and changes nothing else. *)
Theorem C54_find_effect : forall n ops outs s u, ids_below n ops -> dsu_run (dsu_init n) ops = Ok (outs, s) -> u < n ->
  exists k r p w w' s', steps s k u r /\ nth_error s u = Some (p, w) /\ disjoint_find s u = Ok (r, s') /\
    (exists q, nth_error s p = Some (q, w')) /\ nth_error s' p = Some (r, w') /\
    forall x, x <> p -> nth_error s' x = nth_error s x.
Proof.
  intros n ops outs s u V H Hu. destruct (run_facts V H) as [L RP].
  destruct (C54_steps_exist V H Hu) as (k & r & S). destruct (steps_up S) as [_ U].
  assert (C := proj1 (proj1 RP)). assert (Hp : dp s u < length s) by (rewrite L; now apply C).
  exists k, r, (dp s u), (rk s u), (rk s (dp s u)), (upd s (dp s u) (r, rk s (dp s u))).
  split; auto. split; [apply entry_eq; lia|]. split; [apply (@find_effect n s u k r); auto; apply RP|].
  split; [eexists; apply entry_eq; auto|]. split.
  - apply vget_Ok. now apply vget_upd_eq.
  - generalize (r, rk s (dp s u)). intros e. generalize (dp s u). clear.
    intros p x. revert x p.
    induction s as [|a s IH]; intros x p N; destruct p, x; cbn; auto; try congruence.
Qed.
(** disjoint_union raises the rank of a root also when both arguments are in its class; so, for every n, there are
    calls of it that leave one path through all the n elements. *)
Definition stacking (n : nat) : list dsu_op :=
  flat_map (fun i => repeat (OpUnion i i) i ++ [OpUnion i (i - 1)]) (seq 1 (n - 1)).
Theorem C54_union_linear_height : forall n, 0 < n ->
  ids_below n (stacking n) /\ exists outs s, dsu_run (dsu_init n) (stacking n) = Ok (outs, s) /\ steps s (n - 1) 0 (n - 1).
Proof.
  intros n Hn. split.
  - intros o Ho. unfold stacking in Ho. apply in_flat_map in Ho as (i & Hi & Ho). apply in_seq in Hi.
    apply in_app_or in Ho as [Ho|[<-|[]]].
    + apply repeat_spec in Ho. subst. lia.
    + lia.
  - destruct (@stack_run n (n - 1)) as (outs & s & E & L & D1 & D2 & _); [lia|]. exists outs, s. split; auto.
    assert (G : forall j i, i + j = n - 1 -> steps s j i (n - 1)).
    { induction j; intros i Hi.
      - replace i with (n - 1) by lia. econstructor. rewrite entry_eq by lia. now rewrite D2 by lia.
      - econstructor; [rewrite entry_eq by lia; reflexivity|rewrite D1; lia|]. rewrite D1 by lia. apply IHj. lia. }
    apply G. lia.
Qed.
(** Without those calls the same four elements give two steps at most. *)
Definition ex_pairs := [OpUnionFind 0 1; OpUnionFind 2 3; OpUnionFind 3 1].
Example C54_ex : ids_below 4 ex_pairs /\ no_plain_union ex_pairs /\
  exists outs s, dsu_run (dsu_init 4) ex_pairs = Ok (outs, s) /\ steps s 2 1 2 /\
    disjoint_find s 1 = Ok (2, [(2, 1); (0, 0); (2, 2); (2, 0)]).
Proof.
  split; [|split].
  - intros o H. cbn in H. intuition; subst; lia.
  - intros u v H. cbn in H. intuition; discriminate.
  - eexists _, _. split; [vm_compute; reflexivity|]. split; [|vm_compute; reflexivity].
    econstructor; [reflexivity|discriminate|]. econstructor; [reflexivity|discriminate|]. econstructor. reflexivity.
Qed.
Example C54_ex_stack : exists outs s, dsu_run (dsu_init 4) (stacking 4) = Ok (outs, s) /\ map fst s = [1; 2; 3; 3].
Proof. eexists _, _. split; vm_compute; reflexivity. Qed.
Print Assumptions C54_log_height.
Print Assumptions C54_log_height_n.
Print Assumptions C54_steps_exist.
Print Assumptions C54_find_effect.
Print Assumptions C54_union_linear_height.
