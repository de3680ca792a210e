(** C96: the counting output iterators count every assignment under every interleaving; permutation_iterator visits what the permutation says. *)
From Coq Require Import List Arith Lia Bool Permutation.
From Verif Require Import ItModel ItProofs Base.
Import ListNotations.
Set Implicit Arguments.

(** par_counting_output_iterator: in every interleaving of any number of threads nothing goes wrong, a counter is right once all are
    done, whatever the other counters guarded by the same mutex do, and from every state they can be done: no deadlock. *)
Theorem C96_locked W cs work sched : 0 < W -> (forall c, c < length cs -> nth c cs 0 < W) -> in_range (length cs) work ->
  exists s, par_run W sched (par_start cs work) = Ok s /\
    (finished s -> length (counts s) = length cs /\ forall c, c < length cs -> nth c (counts s) 0 = (nth c cs 0 + writes c work) mod W) /\
    exists sched' s', par_run W sched' s = Ok s' /\ finished s'.
Proof.
  intros HW HS HR. destruct (@inv_run W cs work HW sched _ (@inv_start W cs work HS HR)) as (s & E & V). exists s. split; [exact E|]. split; [|exact (@can_finish W cs work HW (left s) s (le_n _) V)].
  intros F. split; [apply (v_len V)|]. intros c L. assert (M := v_sum V L). rewrite finished_pends, Nat.add_0_r, Nat.mod_small in M by (auto; apply (v_small V L)). exact M.
Qed.
(** Every schedule of at least four rounds per assignment, a round giving each thread a turn, is enough. *)
Theorem C96_rounds W cs work rounds : 0 < W -> (forall c, c < length cs -> nth c cs 0 < W) -> in_range (length cs) work ->
  (forall r t, In r rounds -> t < length work -> In t r) -> 4 * length (concat work) <= length rounds ->
  exists s, par_run W (concat rounds) (par_start cs work) = Ok s /\ finished s.
Proof. intros HW HS HR H L. apply (@rounds_finish W cs work HW rounds); auto; [now apply inv_start|]. now rewrite left_start. Qed.
(** atomic_counting_output_iterator. *)
Theorem C96_atomic W cs work sched : 0 < W -> (forall c, c < length cs -> nth c cs 0 < W) -> in_range (length cs) work ->
  exists s, atomic_run W sched (mkAs cs work) = Ok s /\
    ((forall w, In w (a_todo s) -> w = []) -> length (a_counts s) = length cs /\ forall c, c < length cs -> nth c (a_counts s) 0 = (nth c cs 0 + writes c work) mod W).
Proof.
  intros HW HS HR. destruct (@ainv_run W cs work HW sched _ (@ainv_start W cs work HS HR)) as (s & E & V). exists s. split; [exact E|].
  intros F. split; [apply (a_len V)|]. intros c L. assert (M := a_sum V L). assert (Z : apend c s = 0).
  { unfold apend. clear - F. induction (a_todo s) as [|w l IH]; [reflexivity|]. rewrite (F w) by now left. cbn [map]. change (list_sum (map (fun w => count_occ Nat.eq_dec w c) l) = 0). apply IH. intros; apply F; now right. }
  rewrite Z, Nat.add_0_r, Nat.mod_small in M by (apply (a_small V L)). exact M.
Qed.

(** permutation_iterator from i to last over a part of an array: one element for each index in between, in order, and no more. *)
Theorem C96_permuted A (array : list A) perm base i last fuel : i <= last -> (forall k, i <= k < last -> base + perm k < length array) -> last - i <= fuel ->
  exists out, p_loop fuel array perm (base, i) (base, last) = Ok out /\ length out = last - i /\ forall k, k < last - i -> nth_error out k = nth_error array (base + perm (i + k)).
Proof. intros L B F. apply p_loop_ok; auto. lia. Qed.
(** With a permutation of the positions the loop over the whole array is a rearrangement of it. *)
Theorem C96_rearranged A (array : list A) perm fuel : (forall k, k < length array -> perm k < length array) ->
  (forall j k, j < length array -> k < length array -> perm j = perm k -> j = k) -> length array <= fuel ->
  exists out, p_loop fuel array perm (0, 0) (0, length array) = Ok out /\ Permutation out array.
Proof.
  intros B I F. destruct (@p_loop_ok A array perm 0 (length array) (length array) 0 eq_refl ltac:(intros; cbn; apply B; lia) fuel F) as (out & E & L & N). exists out. split; [exact E|].
  symmetry. apply (proj2 (Permutation_nth_error array out)). split; [now rewrite L|]. exists (fun k => if k <? length array then perm k else k). split.
  - intros j k. destruct (Nat.ltb_spec j (length array)) as [J|J], (Nat.ltb_spec k (length array)) as [K|K]; intros H; auto; [specialize (B j J)|specialize (B k K)]; lia.
  - intros k. destruct (Nat.ltb_spec k (length array)) as [K|K]; [apply N; exact K|]. rewrite (proj2 (nth_error_None out k)) by lia. symmetry. now apply nth_error_None.
Qed.
(** A loop to a smaller index, or to an end made from another base, does not end. *)
Theorem C96_never_ends A (array : list A) perm base i base' last fuel : base <> base' \/ last < i -> (forall k, i <= k -> base + perm k < length array) ->
  p_loop fuel array perm (base, i) (base', last) = OutOfFuel.
Proof. intros H B. now apply p_loop_on. Qed.

(** ** Examples *)
(** Two threads, two counters, the second wrapping round; the first waits while the second holds the mutex. *)
Example C96_run : exists s, par_run 8 [1; 1; 0; 0; 1; 0; 1; 0; 0; 0; 0; 0; 0; 0; 0; 1; 1; 1; 1] (par_start [0; 7] [[0; 1]; [0; 0]]) = Ok s /\ counts s = [3; 0] /\ locked s = None /\ map todo (threads s) = [[]; []].
Proof. eexists. split; [vm_compute; reflexivity|]. repeat split. Qed.
Example C96_work : in_range 2 [[0; 1]; [0; 0]] /\ writes 0 [[0; 1]; [0; 0]] = 3 /\ forall r t, In r (repeat [1; 0] 16) -> t < 2 -> In t r.
Proof.
  split; [intros w c [<-|[<-|[]]]; cbn; intuition lia|]. split; [reflexivity|]. intros r t I L. apply repeat_spec in I. subst r. cbn. lia.
Qed.
Example C96_backwards : p_loop 4 [10; 20; 30; 40] (fun i => 3 - i) (0, 0) (0, 4) = Ok [40; 30; 20; 10] /\ p_loop 2 [10; 20; 30; 40] (fun i => 2 * i) (1, 0) (1, 2) = Ok [20; 40].
Proof. split; reflexivity. Qed.
Print Assumptions C96_locked.
Print Assumptions C96_rounds.
Print Assumptions C96_atomic.
Print Assumptions C96_permuted.
Print Assumptions C96_rearranged.
Print Assumptions C96_never_ends.
