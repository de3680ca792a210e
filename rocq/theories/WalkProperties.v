(** C47: the random walk range and the reversed path range. *)
From Coq Require Import List Arith ZArith QArith Qround Lia.
From Verif Require Import Base GraphLib WalkModel WalkProofs.
Import ListNotations.
Set Implicit Arguments.
Local Open Scope nat_scope.

(** [dice] gives the successive values of the generator; they lie in [0, 1) *)
Definition fair (dice : nat -> Q) : Prop := forall i, (0 <= dice i)%Q /\ (dice i < 1)%Q.
Definition bip : list (list nat) := [[1; 2]; [0]; [3; 0]; [1]].
Lemma bip_ok : targets_ok bip.
Proof. intros u v E. unfold edge in E. do 5 (destruct u as [|u]; cbn in E; [repeat (destruct E as [<-|E]; [cbn; lia|]); try contradiction|]). destruct u; contradiction. Qed.
Definition dice0 (i : nat) : Q := match i with 0 => 3 # 4 | 1 => 1 # 4 | _ => 0 end.

(** ** random_range *)
(** Whatever the dice show, a walk that never meets a vertex without neighbours has exactly the requested number of
    vertices, begins with [first], and every next vertex is a neighbour of the one before it. *)
Theorem C47_random_walk : forall g dice len first, targets_ok g -> fair dice -> first < length g ->
  (forall v, reachable g first v -> nth v g [] <> []) ->
  exists l, random_range g len first dice = Ok l /\ length l = len /\ (0 < len -> nth 0 l 0 = first) /\
    forall i, S i < len -> edge g (nth i l 0) (nth (S i) l 0).
Proof.
  intros g dice len first T D L R. destruct (@run_path g dice T D len first 0 L R) as (l & E & Ll & P & H).
  exists l. split; [exact E|]. split; [exact Ll|]. split.
  - intros P0. destruct l as [|u t]; cbn in *; [lia|]. now rewrite (H _ _ eq_refl).
  - intros i I. rewrite <- Ll in I. clear - P I. revert i I. induction l as [|u t IH]; intros i I; cbn in I; [lia|].
    destruct t as [|v t]; cbn in I; [lia|]. destruct P as [W P]. destruct i as [|i]; [exact W|]. apply (IH P i). cbn. lia.
Qed.
(** Every walk can come out (its last vertex needs a neighbour, see below): the dice decide, and all neighbours, also
    parallel arcs and the last neighbour of a row, can be chosen. *)
Theorem C47_random_complete : forall g l, l <> [] -> (forall i, S i < length l -> edge g (nth i l 0) (nth (S i) l 0)) ->
  nth (last l 0) g [] <> [] -> exists dice, fair dice /\ random_range g (length l) (nth 0 l 0) dice = Ok l.
Proof.
  intros g [|s l] N W Z; [congruence|]. clear N. assert (P : is_path g (s :: l)).
  { clear Z. revert s W. induction l as [|v l IH]; intros s W; cbn; auto. split; [apply (W 0); cbn; lia|]. apply IH. intros i I. apply (W (S i)). cbn in *. lia. }
  assert (Q : last (s :: l) 0 = last l s) by (clear; generalize 0 as d; revert s; induction l as [|x l IH]; intros s d; [reflexivity|]; change (last (x :: l) d = last (x :: l) s); rewrite (IH x d), (IH x s); reflexivity).
  rewrite Q in Z. destruct (@run_complete g l s P Z) as (dice & D & R). exists dice. split; auto.
Qed.
(** At a vertex without neighbours the walk goes on to the first neighbour of the next vertex that has one, though that is
    no neighbour of the vertex, and beyond the last arc of the graph the read is undefined. The step is made also after
    the last vertex of the walk. *)
Theorem C47_random_sink : forall g v d, v < length g -> nth v g [] = [] ->
  (forall w, v < w -> nth w g [] <> [] -> (forall u, v <= u < w -> nth u g [] = []) -> forall t, rr_step g v d = Ok (nth 0 (nth w g []) t)) /\
  ((forall w, v <= w -> nth w g [] = []) -> rr_step g v d = Ub).
Proof.
  intros g v d L E. rewrite sink_step by auto. split.
  - intros w W N H t. rewrite <- (@row_start_skip g v w) by (auto; lia). apply vget_Ok. rewrite <- (Nat.add_0_r (row_start g w)).
    assert (P : 0 < length (nth w g [])) by (destruct (nth w g []); [congruence|cbn; lia]). rewrite concat_nth by auto. now apply nth_error_nth'.
  - intros H. apply vget_ge. rewrite <- row_start_length. rewrite <- (firstn_skipn v g) at 1. rewrite concat_app, (@concat_all_nil (skipn v g)).
    + rewrite app_nil_r. lia.
    + intros r I. destruct (In_nth _ _ [] I) as (i & I1 & I2). rewrite <- I2. rewrite <- (firstn_skipn v g) in H. specialize (H (v + i)).
      rewrite app_nth2, firstn_length_le in H by (rewrite ?firstn_length_le; lia). replace (v + i - v) with i in H by lia. apply H. lia.
Qed.
(** So a walk of one vertex, which needs no step at all, is undefined when no vertex from that one on has a neighbour. *)
Theorem C47_random_last_step : forall g v dice, v < length g -> (forall w, v <= w -> nth w g [] = []) -> random_range g 1 v dice = Ub.
Proof. intros g v dice L H. unfold random_range. cbn [rr_run]. destruct (C47_random_sink g (dice 0) L (H v (le_n v))) as [_ U]. now rewrite (U H). Qed.

Example C47_random_run : random_range bip 4 0 dice0 = Ok [0; 2; 3; 1].
Proof. reflexivity. Qed.
Example C47_random_meets : targets_ok bip /\ fair dice0 /\ forall v, v < 4 -> nth v bip [] <> [].
Proof.
  split; [exact bip_ok|]. split; [intros [|[|i]]; split; unfold Qle, Qlt; cbn; lia|].
  intros v V. do 4 (destruct v as [|v]; [cbn; discriminate|]). lia.
Qed.
Example C47_random_sink_run : random_range [[1]; []; []; [2; 0]] 3 0 (fun _ => 0%Q) = Ok [0; 1; 2] /\ random_range [[1]; []] 1 1 (fun _ => 0%Q) = Ub.
Proof. split; reflexivity. Qed.

(** ** reverse_path *)
(** When following predecessors from [start] meets [stop] first after [k] steps, the range is the first [k] vertices of
    that chain ([stop] itself is not among them); the flag left behind makes every further loop over the object empty. *)
Theorem C47_reverse_path : forall path none start stop k fuel, 0 < k -> k <= fuel -> ancestor path none k start = stop ->
  (forall j, 0 < j < k -> ancestor path none j start <> stop) -> (forall j, j < k -> ancestor path none j start < length path) ->
  rp_run fuel path stop start false = Ok (map (fun j => ancestor path none j start) (seq 0 k), true) /\
  forall fuel', rp_run fuel' path stop start true = Ok ([], true).
Proof. intros. split; [now apply rp_chain|]. intros [|f]; reflexivity. Qed.
(** On a breadth-first tree: from a vertex at distance d of the source the range yields d vertices, at distances d, ..., 1,
    each the end of an arc from the next one, and the last the end of an arc from the source. *)
Theorem C47_reverse_tree : forall g s none par v d fuel, targets_ok g -> s < length g -> is_bfs_tree g s none par ->
  dist g s v d -> 0 < d -> d <= fuel ->
  exists l, rp_run fuel par s v false = Ok (l, true) /\ length l = d /\ nth 0 l none = v /\
    (forall i, i < d -> dist g s (nth i l none) (d - i)) /\
    (forall i, S i < d -> edge g (nth (S i) l none) (nth i l none)) /\ edge g s (nth (d - 1) l none).
Proof.
  intros g s none par v d fuel T L B D P F. exists (map (fun j => ancestor par none j v) (seq 0 d)).
  destruct (@bfs_tree_ancestor g s none par B T L d v D) as [A1 A2]. assert (TD := @tree_dist g s none par B T L d v).
  assert (AE : forall j, j < d -> edge g (ancestor par none (S j) v) (ancestor par none j v)).
  { intros j J. rewrite ancestor_S. destruct B as (B1 & B2 & B3). assert (DJ := TD j D (Nat.lt_le_incl _ _ J)).
    assert (LJ : ancestor par none j v < length g) by (destruct DJ as [W _]; eapply walk_lt; eauto).
    destruct (B3 _ LJ) as (_ & _ & Q). apply (Q (d - j)); auto. }
  assert (RJ : forall j, j < d -> ancestor par none j v < length par).
  { intros j J. destruct B as (B1 & _). rewrite B1. destruct (TD j D (Nat.lt_le_incl _ _ J)) as [W _]. eapply walk_lt; eauto. }
  split; [apply rp_chain; auto; intros j J; apply A2; lia|]. split; [now rewrite map_length, seq_length|].
  assert (NT : forall i, i < d -> nth i (map (fun j => ancestor par none j v) (seq 0 d)) none = ancestor par none i v).
  { intros i I. now rewrite nth_map_seq. }
  split; [now rewrite NT by auto|]. split; [intros i I; rewrite NT by auto; apply TD; auto; lia|]. split.
  - intros i I. rewrite !NT by lia. apply AE. lia.
  - rewrite NT by lia. rewrite <- A1 at 1. replace d with (S (d - 1)) at 1 by lia. apply AE. lia.
Qed.
(** Started at the source itself the range is not empty: it yields the source once. *)
Theorem C47_reverse_root : forall g s none par fuel, s < length g -> is_bfs_tree g s none par -> 0 < fuel ->
  rp_run fuel par s s false = Ok ([s], true).
Proof.
  intros g s none par fuel L (B1 & B2 & _) F. rewrite (@rp_chain par none s 1 s fuel); auto.
  - intros j J. lia.
  - intros j J. replace j with 0 by lia. cbn. lia.
Qed.
(** A chain of predecessors that never meets [stop] is followed for ever. *)
Theorem C47_reverse_endless : forall path none start stop, (forall j, 0 < j -> ancestor path none j start <> stop) ->
  (forall j, ancestor path none j start < length path) -> forall fuel, rp_run fuel path stop start false = OutOfFuel.
Proof. intros path none start stop N R fuel. now apply rp_endless with none. Qed.

Example C47_reverse_run : rp_run 9 [0; 0; 1; 2; 9] 0 3 false = Ok ([3; 2; 1], true) /\ rp_run 9 [0; 0; 1; 2; 9] 0 3 true = Ok ([], true) /\
  rp_run 9 [0; 0; 1; 2; 9] 0 0 false = Ok ([0], true) /\ rp_run 9 [0; 0; 1; 2; 9] 0 4 false = Ub.
Proof. repeat split. Qed.
Example C47_reverse_meets : ancestor [0; 0; 1; 2; 9] 9 3 3 = 0 /\ (forall j, 0 < j < 3 -> ancestor [0; 0; 1; 2; 9] 9 j 3 <> 0).
Proof. split; [reflexivity|]. intros [|[|[|j]]] J; cbn; lia. Qed.
Example C47_endless_meets : forall j, ancestor [0; 1] 9 j 0 < 2 /\ ancestor [0; 1] 9 j 0 <> 1.
Proof. induction j as [|j IH]; cbn [ancestor nth] in *; auto. Qed.
Print Assumptions C47_random_walk.
Print Assumptions C47_random_complete.
Print Assumptions C47_random_sink.
Print Assumptions C47_random_last_step.
Print Assumptions C47_reverse_path.
Print Assumptions C47_reverse_tree.
Print Assumptions C47_reverse_root.
Print Assumptions C47_reverse_endless.
