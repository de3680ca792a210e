(** C59: the filtered breadth-first range (adaptors/filtered_bfs_range.hpp).  [unfiltered flt g] is the graph of the arcs
    that the filter lets pass; [tree_order] is FifoLib.v's specification of a breadth-first tree. *)
From Coq Require Import List Arith Lia Bool.
From Verif Require Import Base GraphLib FifoLib FbfsModel FbfsProofs.
Import ListNotations.

(** The arcs of [unfiltered flt g] are those at the positions where the filter answers false. *)
Theorem C59_unfiltered flt g v w : edge (unfiltered flt g) v w <-> exists i, nth_error (nth v g []) i = Some w /\ flt v i = false.
Proof. apply unf_edge. Qed.

(** From a source with at least one arc the loop ends; found() says whether the target can be reached by arcs that pass;
    what is yielded is a beginning of a breadth-first tree of those arcs, up to the arc that discovers the target, or the
    whole tree when the target is not reachable.  A self loop that heads the source's row is yielded, too. *)
Theorem C59_search debug g flt s t : targets_ok g -> s < length g -> t < length g -> nth s g [] <> [] ->
  (debug = true -> s <> t -> hd_error (nth s (unfiltered flt g) []) <> Some s) ->
  exists r b, filtered_bfs debug g flt t s = Ok (r, b) /\ (b = true <-> reachable (unfiltered flt g) s t) /\
    (s = t -> r = []) /\
    (s <> t -> exists L T, r = L ++ T /\
       (hd_error (nth s (unfiltered flt g) []) = Some s -> L = [(s, s)]) /\ (hd_error (nth s (unfiltered flt g) []) <> Some s -> L = []) /\
       (b = true -> exists T0 p T', T = T0 ++ [(p, t)] /\ tree_order (unfiltered flt g) s (T ++ T')) /\
       (b = false -> tree_order (unfiltered flt g) s T)).
Proof.
  intros Tg Hs Ht Hr Hd. destruct (Nat.eq_dec s t) as [E|Ne].
  - subst t. exists [], true. split; [apply filtered_same; auto|]. split; [split; auto; intros _; exists 0; constructor|]. split; auto. congruence.
  - destruct (@filtered_ok debug g flt s t Tg Hs Ht Ne Hr (fun D => Hd D Ne)) as (b & T & E & C).
    set (L := if match hd_error (nth s (unfiltered flt g) []) with Some w => w =? s | None => false end then [(s, s)] else []) in E.
    exists (L ++ T), b. split; auto. split.
    { destruct C as [(-> & T0 & p & T' & -> & TO)|(-> & TO & NT)].
      - split; auto. intros _. destruct TO as [(_ & R & _) _]. apply R. right. rewrite !map_app. apply in_or_app. left. apply in_or_app. right. now left.
      - split; [discriminate|]. intros R. exfalso. apply NT. destruct TO as [(_ & R' & _) _]. now apply R'. }
    split; [congruence|]. intros _. exists L, T. split; auto. split; [intros X; unfold L; rewrite X, Nat.eqb_refl; auto|]. split.
    { intros X. unfold L. destruct (hd_error _) as [w|]; auto. destruct (Nat.eqb_spec w s); auto. congruence. }
    destruct C as [(-> & C)|(-> & C & _)]; split; auto; discriminate.
Qed.

(** So the yielded arcs hold a shortest path of arcs that pass from the source to the target, if there is one. *)
Theorem C59_path debug g flt s t r : targets_ok g -> s < length g -> t < length g ->
  (debug = true -> s <> t -> hd_error (nth s (unfiltered flt g) []) <> Some s) ->
  filtered_bfs debug g flt t s = Ok (r, true) -> exists d, dist (unfiltered flt g) s t d /\ via r s d t.
Proof.
  intros Tg Hs Ht Hd E. destruct (Nat.eq_dec s t) as [<-|Ne]; [exists 0; split; [now apply dist_0|constructor]|].
  assert (Hr : nth s g [] <> []). { intros Z. rewrite filtered_isolated in E by auto. discriminate. }
  destruct (C59_search debug g flt s t Tg Hs Ht Hr Hd) as (r' & b & E' & _ & _ & C). rewrite E in E'. injection E' as <- <-. destruct (C Ne) as (L & T & -> & _ & _ & C' & _).
  destruct (C' eq_refl) as (T0 & p & T' & -> & TO). destruct (@tree_via _ _ _ _ TO t) as (d & A & B); [right; rewrite map_app; apply in_or_app; right; now left|].
  exists d. split; auto. eapply via_incl; [|exact B]. intros y Y. apply in_or_app. auto.
Qed.

(** A source without arcs is undefined behaviour, whatever the target: begin() calls the filter on the end of the row. *)
Theorem C59_isolated debug g flt s t : s < length g -> nth s g [] = [] -> filtered_bfs debug g flt t s = Ub.
Proof. intros. now apply filtered_isolated. Qed.

(** With assertions enabled a self loop as the source's first arc that passes breaks the search, unless the target is a
    neighbour of the source: the source is queued twice, and black when it comes up again. *)
Theorem C59_self_loop g flt s t : targets_ok g -> s < length g -> t < length g -> s <> t ->
  hd_error (nth s (unfiltered flt g) []) = Some s -> ~ edge (unfiltered flt g) s t -> filtered_bfs true g flt t s = Ub.
Proof. intros. now apply filtered_dbg. Qed.

(** 0 -> {0, 1, 2}, 1 -> {3}, 2 -> {3, 4}, 3 -> {}, 4 -> {0, 3} *)
Definition fg : list (list nat) := [[0; 1; 2]; [3]; [3; 4]; []; [0; 3]].
(** rejects 0 -> 0, 1 -> 3 and 2 -> 3 *)
Definition ff (v i : nat) : bool := match v, i with 0, 0 => true | 1, 0 => true | 2, 0 => true | _, _ => false end.
Example C59_ex_ok : targets_ok fg /\ nth 0 fg [] <> [] /\ hd_error (nth 0 (unfiltered ff fg) []) <> Some 0.
Proof.
  split; [|split; discriminate]. intros u v E. unfold edge in E. simpl length.
  do 5 (destruct u as [|u]; [simpl in E; intuition lia|]). destruct u; destruct E.
Qed.
Example C59_ex_found : unfiltered ff fg = [[1; 2]; []; [4]; []; [0; 3]] /\ filtered_bfs true fg ff 3 0 = Ok ([(0, 1); (0, 2); (2, 4); (4, 3)], true).
Proof. split; reflexivity. Qed.
Example C59_ex_cut : filtered_bfs true fg (fun v i => ff v i || (v =? 4)) 3 0 = Ok ([(0, 1); (0, 2); (2, 4)], false) /\
  filtered_bfs true fg (fun v _ => v =? 0) 3 0 = Ok ([], false).
Proof. split; reflexivity. Qed.
Example C59_ex_loop : filtered_bfs false fg (fun _ _ => false) 4 0 = Ok ([(0, 0); (0, 1); (0, 2); (1, 3); (2, 4)], true) /\
  filtered_bfs true fg (fun _ _ => false) 4 0 = Ub /\ filtered_bfs true fg (fun _ _ => false) 2 0 = Ok ([(0, 0); (0, 1); (0, 2)], true).
Proof. repeat split. Qed.
Example C59_ex_isolated : filtered_bfs false fg ff 0 3 = Ub /\ filtered_bfs false fg ff 3 3 = Ub.
Proof. split; reflexivity. Qed.
Print Assumptions C59_unfiltered.
Print Assumptions C59_search.
Print Assumptions C59_path.
Print Assumptions C59_isolated.
Print Assumptions C59_self_loop.
