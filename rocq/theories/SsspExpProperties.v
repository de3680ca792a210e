(** C55: the order of dijkstra's queue (vertex before distance) makes it exponential. *)
From Coq Require Import List Arith Lia Bool.
From Verif Require Import Base SsspModel SsspLib SsspExpProofs.
Import ListNotations.
Set Implicit Arguments.

(** The fuel of [dijkstra] is the number of iterations of `while (!Q.empty())`, one vertex taken from the queue in each.
    For every k there is a graph with 2k+1 vertices, 3k arcs and weights of at most 2^k on which the loop makes
    exactly 3 * 2^k - 2 iterations (a queue ordered by distance would make at most one per arc, and one). *)
Theorem C55_dijkstra_exponential : forall k D vmax, 2 ^ k <= vmax -> 2 ^ k <= D ->
  exists g source, wtargets_ok g /\ source < length g /\ length g = 2 * k + 1 /\ length (concat g) = 3 * k /\
    (forall u v w, warc g u v w -> w <= 2 ^ k) /\
    (forall fuel, fuel < 3 * 2 ^ k - 2 -> dijkstra fuel D vmax g source = OutOfFuel) /\
    forall fuel, 3 * 2 ^ k - 2 <= fuel -> dijkstra fuel D vmax g source = Ok (repeat 0 (2 * k + 1)).
Proof.
  intros k D vmax HV HD. exists (ladder k), (2 * k).
  assert (LL : length (ladder k) = 2 * k + 1) by (unfold ladder; now rewrite map_length, seq_length).
  assert (A : forall u v w, warc (ladder k) u v w -> v < 2 * k + 1 /\ w <= 2 ^ k).
  { intros u v w H. unfold warc in H. destruct (Nat.lt_ge_cases u (2 * k + 1)) as [Hu|Hu].
    - unfold ladder in H. rewrite nth_map_seq in H by auto. unfold ladder_row in H.
      assert (1 <= 2 ^ k) by (apply Nat.neq_0_lt_0, Nat.pow_nonzero; lia).
      destruct (u =? 0); [destruct H|]. destruct (Nat.odd u).
      + destruct H as [[= <- <-]|[]]. lia.
      + destruct H as [[= <- <-]|[[= <- <-]|[]]]; [|lia]. split; [lia|].
        apply Nat.pow_le_mono_r; [lia|]. transitivity (u / 2); [apply Nat.le_sub_l | apply Nat.div_le_upper_bound; lia].
    - rewrite nth_overflow in H by lia. destruct H. }
  split; [intros u v w H; rewrite LL; eapply A; eauto|]. split; [lia|]. split; auto. split.
  { clear. induction k; auto. unfold ladder in *. replace (2 * S k + 1) with (S (S (2 * k + 1))) by lia.
    rewrite 2 seq_S, 2 map_app, 2 concat_app, 2 app_length, IHk. cbn [map concat]. rewrite !app_nil_r.
    replace (0 + (2 * k + 1)) with (2 * k + 1) by lia. rewrite ladder_row_odd.
    replace (0 + S (2 * k + 1)) with (2 * S k) by lia. rewrite ladder_row_even. cbn [length]. lia. }
  split; [intros u v w H; eapply A; eauto|].
  split; intros fuel HF; rewrite ladder_run by auto; destruct (Nat.ltb_spec fuel (3 * 2 ^ k - 2)); auto; lia.
Qed.
(** k = 3: seven vertices, 22 iterations. *)
Example C55_ex : dijkstra 21 100 100 (ladder 3) 6 = OutOfFuel /\ dijkstra 22 100 100 (ladder 3) 6 = Ok [0; 0; 0; 0; 0; 0; 0].
Proof. vm_compute. auto. Qed.
Print Assumptions C55_dijkstra_exponential.
