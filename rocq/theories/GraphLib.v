(** Specification vocabulary for graph algorithms: edges, walks, distances, breadth-first trees; and the
    level-expansion lemma shared by all breadth-first searches. *)
From Coq Require Import List Arith Lia Bool.
From Verif Require Import Base.
Import ListNotations.
Set Implicit Arguments.

(** A graph is the list of its rows; an element of a row is a target vertex. *)
Definition edge (g : list (list nat)) (u v : nat) : Prop := In v (nth u g []).
Definition targets_ok (g : list (list nat)) : Prop := forall u v, edge g u v -> v < length g.
(** [g_t] is the transpose of [g] (multiplicities do not matter here). *)
Definition transpose_of (g g_t : list (list nat)) : Prop :=
  length g_t = length g /\ forall u v, edge g_t v u <-> edge g u v.

Inductive walk (g : list (list nat)) (s : nat) : nat -> nat -> Prop :=
| walk_0 : walk g s 0 s
| walk_S : forall k u v, walk g s k u -> edge g u v -> walk g s (S k) v.
Definition reachable (g : list (list nat)) (s v : nat) : Prop := exists k, walk g s k v.
Definition dist (g : list (list nat)) (s v d : nat) : Prop := walk g s d v /\ forall k, walk g s k v -> d <= k.

(** The breadth-first trees of [g] from [s]: [none] marks the vertices without parent. *)
Definition is_bfs_tree (g : list (list nat)) (s none : nat) (par : list nat) : Prop :=
  length par = length g /\
  nth s par none = s /\
  forall v, v < length g ->
    (~ reachable g s v -> nth v par none = none) /\
    (reachable g s v -> nth v par none < length g) /\
    forall d, v <> s -> dist g s v d -> edge g (nth v par none) v /\ dist g s (nth v par none) (d - 1).

(** Following parents [k] times. *)
Fixpoint ancestor (par : list nat) (none : nat) (k : nat) (v : nat) : nat :=
  match k with 0 => v | S k' => ancestor par none k' (nth v par none) end.

Lemma edge_lt g u v : edge g u v -> u < length g.
Proof.
  unfold edge. intros H. destruct (Nat.lt_ge_cases u (length g)) as [L|L]; auto.
  rewrite nth_overflow in H by auto. destruct H.
Qed.
Lemma walk_lt g s k v : targets_ok g -> s < length g -> walk g s k v -> v < length g.
Proof. intros T S W. inversion W; subst; auto. eapply T; eauto. Qed.

Lemma walk_app g s k u : walk g s k u -> forall j v, walk g u j v -> walk g s (k + j) v.
Proof.
  intros W j v W2. induction W2.
  - now rewrite Nat.add_0_r.
  - rewrite Nat.add_succ_r. econstructor; eauto.
Qed.

Lemma walk_dec g s : forall k v, walk g s k v \/ ~ walk g s k v.
Proof.
  induction k; intros v.
  - destruct (Nat.eq_dec v s) as [->|N]; [left; constructor|right; intros W; inversion W; congruence].
  - assert (D : forall n, (exists u, u < n /\ walk g s k u /\ edge g u v) \/ ~ (exists u, u < n /\ walk g s k u /\ edge g u v)).
    { induction n as [|n IH]; [right; intros (u & H & _); lia|]. destruct IH as [(u & L & H)|N]; [left; exists u; split; auto; lia|].
      destruct (IHk n) as [W|W]; [|right; intros (u & L & W' & E); destruct (Nat.eq_dec u n) as [->|]; [auto|apply N; exists u; split; auto; lia]].
      destruct (in_dec Nat.eq_dec v (nth n g [])) as [E|E]; [left; exists n; split; auto|].
      right. intros (u & L & W' & E'). destruct (Nat.eq_dec u n) as [->|]; [auto|apply N; exists u; split; auto; lia]. }
    destruct (D (length g)) as [(u & L & W & E)|N]; [left; econstructor; eauto|].
    right. intros W. inversion W; subst. apply N. exists u. split; [eapply edge_lt; eauto|auto].
Qed.

Lemma walk_dist g s v k : walk g s k v -> exists d, d <= k /\ dist g s v d.
Proof.
  induction k as [k IH] using (well_founded_induction lt_wf). intros W.
  assert (D : (exists j, j < k /\ walk g s j v) \/ forall j, j < k -> ~ walk g s j v).
  { clear IH W. induction k; [right; intros; lia|]. destruct IHk as [(j & L & W)|N]; [left; exists j; split; auto|].
    destruct (walk_dec g s k v) as [W|W]; [left; exists k; split; auto|]. right. intros j L. destruct (Nat.eq_dec j k) as [->|]; auto. apply N. lia. }
  destruct D as [(j & L & W')|N].
  - destruct (IH j L W') as (d & Ld & Dd). exists d. split; auto. lia.
  - exists k. split; auto. split; auto. intros j W'. destruct (Nat.le_gt_cases k j); auto. now apply N in W'.
Qed.
Lemma dist_fun g s v d d' : dist g s v d -> dist g s v d' -> d = d'.
Proof. intros [W M] [W' M']. apply Nat.le_antisymm; auto. Qed.
Lemma dist_0 g s v : dist g s v 0 <-> v = s.
Proof.
  split; [intros [W _]; now inversion W|]. intros ->. split; [constructor|lia].
Qed.
Lemma dist_reach g s v : reachable g s v <-> exists d, dist g s v d.
Proof. split; [intros [k W]; destruct (walk_dist W) as (d & _ & D); eauto|intros (d & W & _); exists d; auto]. Qed.

(** Vertices at distance at most k. *)
Definition within (g : list (list nat)) (s k v : nat) : Prop := exists d, d <= k /\ dist g s v d.
Lemma within_dec g s k v : within g s k v \/ ~ within g s k v.
Proof.
  induction k.
  - destruct (Nat.eq_dec v s) as [->|N]; [left; exists 0; split; auto; now apply dist_0|].
    right. intros (d & L & D). assert (d = 0) by lia. subst. apply dist_0 in D. auto.
  - destruct IHk as [(d & L & D)|N]; [left; exists d; split; auto|].
    destruct (walk_dec g s (S k) v) as [W|W].
    + left. destruct (walk_dist W) as (d & L & D). exists d. split; auto.
    + right. intros (d & L & D). destruct (Nat.eq_dec d (S k)) as [->|]; [apply W, D|apply N; exists d; split; auto; lia].
Qed.
Lemma within_S g s k v : within g s (S k) v <-> within g s k v \/ dist g s v (S k).
Proof.
  split.
  - intros (d & L & D). destruct (Nat.eq_dec d (S k)) as [->|]; auto. left. exists d. split; auto. lia.
  - intros [(d & L & D)|D]; [exists d; split; auto|exists (S k); auto].
Qed.
Lemma within_0 g s v : within g s 0 v <-> v = s.
Proof. split; [intros (d & L & D); assert (d = 0) by lia; subst; now apply dist_0 in D|intros ->; exists 0; split; auto; now apply dist_0]. Qed.
Lemma dist_not_within g s k v : dist g s v (S k) -> ~ within g s k v.
Proof. intros D (d & L & D'). assert (E := dist_fun D D'). lia. Qed.

Lemma dist_S g s k v : dist g s v (S k) <-> ~ within g s k v /\ exists u, dist g s u k /\ edge g u v.
Proof.
  split.
  - intros D. split; [now apply dist_not_within|]. destruct D as [W M]. inversion W; subst. exists u. split; auto. split; auto.
    intros j Wj. assert (S k <= S j) by (apply M; econstructor; eauto). lia.
  - intros [N (u & [W M] & E)]. assert (W' : walk g s (S k) v) by (econstructor; eauto).
    destruct (walk_dist W') as (d & L & D). destruct (Nat.eq_dec d (S k)) as [->|]; auto.
    exfalso. apply N. exists d. split; auto. lia.
Qed.
Lemma dist_pred g s v d j : dist g s v d -> j <= d -> exists u, dist g s u j.
Proof.
  revert v. induction d; intros v D L.
  - exists v. now replace j with 0 by lia.
  - destruct (Nat.eq_dec j (S d)) as [->|]; [eauto|]. apply dist_S in D. destruct D as (_ & u & D & _). apply (IHd u D). lia.
Qed.
Lemma no_level_no_more g s k : (forall v, ~ dist g s v k) -> forall v d, dist g s v d -> d < k.
Proof.
  intros H v d D. destruct (Nat.lt_ge_cases d k); auto. destruct (dist_pred D H0) as (u & Du). now apply H in Du.
Qed.
(** Neighbours of a vertex at distance d are within d+1. *)
Lemma edge_within g s u v d : dist g s u d -> edge g u v -> within g s (S d) v.
Proof. intros [W _] E. assert (W' : walk g s (S d) v) by (econstructor; eauto). destruct (walk_dist W') as (j & L & D). exists j. auto. Qed.

(** One level of expansion: [new] holds the tree edges (u, v) discovered from the vertices satisfying [F]
    when those satisfying [vis] are visited already. *)
Record expanded (g : list (list nat)) (F vis : nat -> Prop) (new : list (nat * nat)) : Prop := {
  exp_nodup : NoDup (map snd new);
  exp_new : forall u v, In (u, v) new -> F u /\ edge g u v /\ ~ vis v;
  exp_all : forall u v, F u -> edge g u v -> vis v \/ In v (map snd new)
}.

Lemma expanded_level g s k F vis new :
  (forall v, vis v <-> within g s k v) -> (forall u, F u <-> dist g s u k) -> expanded g F vis new ->
  forall v, In v (map snd new) <-> dist g s v (S k).
Proof.
  intros HV HF [ND HN HA] v. split.
  - intros I. apply in_map_iff in I. destruct I as ([u v'] & E & I). simpl in E. subst v'. destruct (HN u v I) as (Fu & E & N).
    apply dist_S. split; [rewrite <- HV; auto|]. exists u. split; auto. now apply HF.
  - intros D. apply dist_S in D. destruct D as (N & u & Du & E). destruct (HA u v) as [V|I]; auto; [now apply HF|].
    exfalso. apply N. now apply HV.
Qed.

(** Parents chosen so far, up to level k. *)
Definition tree_upto (g : list (list nat)) (s none k : nat) (par : list nat) : Prop :=
  length par = length g /\
  nth s par none = s /\
  (forall v, v < length g -> ~ within g s k v -> nth v par none = none) /\
  (forall v d, v <> s -> d <= k -> dist g s v d -> edge g (nth v par none) v /\ dist g s (nth v par none) (d - 1)).

Lemma tree_upto_final g s none k par : targets_ok g -> s < length g ->
  tree_upto g s none k par -> (forall v, ~ dist g s v (S k)) -> is_bfs_tree g s none par.
Proof.
  intros HT HS (L & R & U & P) H. split; auto. split; auto. intros v Hv.
  assert (B : forall d, dist g s v d -> d <= k) by (intros d D; apply (no_level_no_more H) in D; lia).
  split; [|split].
  - intros N. apply U; auto. intros (d & _ & D). apply N. apply dist_reach. eauto.
  - intros RE. apply dist_reach in RE. destruct RE as (d & D). destruct (Nat.eq_dec v s) as [->|NE]; [now rewrite R|].
    destruct (P v d NE (B d D) D) as [E _]. eapply edge_lt; eauto.
  - intros d NE D. apply (P v d NE (B d D) D).
Qed.

(** In a breadth-first tree the d-th ancestor of a vertex at distance d is the source, and no earlier one is. *)
Lemma bfs_tree_ancestor g s none par : is_bfs_tree g s none par -> targets_ok g -> s < length g ->
  forall d v, dist g s v d -> ancestor par none d v = s /\ forall j, j < d -> ancestor par none j v <> s.
Proof.
  intros (L & R & P) HT HS. induction d; intros v D.
  - apply dist_0 in D. split; auto. lia.
  - assert (Hv : v < length g) by (destruct D as [W _]; eapply walk_lt; eauto).
    assert (NE : v <> s) by (intros ->; assert (X := dist_fun D (proj2 (dist_0 g s s) eq_refl)); discriminate).
    destruct (P v Hv) as (_ & _ & Q). destruct (Q (S d) NE D) as [E D']. simpl in D'. rewrite Nat.sub_0_r in D'.
    destruct (IHd _ D') as [A1 A2]. split; [exact A1|]. intros [|j] Hj; simpl; auto. apply A2. lia.
Qed.

(** Recording the tree edges of one level in the parent array. *)
Definition record (par : list nat) (new : list (nat * nat)) : list nat := fold_left (fun p e => upd p (snd e) (fst e)) new par.
Lemma record_length new : forall par, length (record par new) = length par.
Proof. induction new; intros par; simpl; auto. unfold record in *. simpl. rewrite IHnew. apply upd_length. Qed.
Lemma record_other new none : forall par v, ~ In v (map snd new) -> nth v (record par new) none = nth v par none.
Proof.
  induction new as [|[u w] new IH]; intros par v N; simpl in *; auto. unfold record in *. simpl. rewrite IH by tauto.
  apply nth_upd_neq. tauto.
Qed.
Lemma record_new new none : forall par u v, NoDup (map snd new) -> In (u, v) new -> v < length par -> nth v (record par new) none = u.
Proof.
  induction new as [|[a w] new IH]; intros par u v ND I L; simpl in *; [destruct I|]. inversion ND as [|x l NI ND' EQ]. subst x l. destruct I as [E|I].
  - injection E as -> ->. unfold record. simpl. fold (record (upd par v u) new). rewrite record_other by auto. now apply nth_upd_eq.
  - unfold record. simpl. fold (record (upd par w a) new). apply IH; auto. now rewrite upd_length.
Qed.
Lemma record_snoc par new u v : record par (new ++ [(u, v)]) = upd (record par new) v u.
Proof. unfold record. now rewrite fold_left_app. Qed.

Lemma tree_upto_step g s none k par par' F vis new : targets_ok g -> s < length g ->
  (forall v, vis v <-> within g s k v) -> (forall u, F u <-> dist g s u k) -> expanded g F vis new ->
  (length par' = length par /\ (forall v, ~ In v (map snd new) -> nth v par' none = nth v par none) /\
   forall u v, In (u, v) new -> nth v par' none = u) ->
  tree_upto g s none k par -> tree_upto g s none (S k) par'.
Proof.
  intros HT HS HV HF HE (L' & R1 & R2) (L & R & U & P).
  assert (LV := expanded_level HV HF HE). destruct HE as [ND HN HA].
  split; [lia|]. split; [|split].
  - rewrite R1; auto. intros I. apply LV in I. apply dist_not_within in I. apply I. exists 0. split; [lia|]. now apply dist_0.
  - intros v Hv N. rewrite R1, U; auto.
    + intros W. apply N. apply within_S. auto.
    + intros I. apply N. apply within_S. right. now apply LV.
  - intros v d NE Ld D. destruct (Nat.eq_dec d (S k)) as [->|NK].
    + assert (I := proj2 (LV v) D). apply in_map_iff in I. destruct I as ([u v'] & E & I). simpl in E. subst v'.
      rewrite (R2 u v I). destruct (HN u v I) as (Fu & E & _). split; auto. simpl. rewrite Nat.sub_0_r. now apply HF.
    + assert (Ni : ~ In v (map snd new)). { intros I. apply LV in I. assert (X := dist_fun I D). lia. }
      rewrite R1 by auto. apply P; auto. lia.
Qed.

Lemma tree_upto_0 g s none : s < length g -> tree_upto g s none 0 (upd (repeat none (length g)) s s).
Proof.
  intros HS. split; [rewrite upd_length, repeat_length; auto|]. split; [|split].
  - apply nth_upd_eq. now rewrite repeat_length.
  - intros v Hv N. rewrite nth_upd_neq; [apply nth_repeat|]. intros ->. apply N. now apply within_0.
  - intros v d NE L D. assert (d = 0) by lia. subst. apply dist_0 in D. contradiction.
Qed.

(** * Discovery along a list of edges *)
Record disc (vis : nat -> Prop) (es new : list (nat * nat)) : Prop := {
  disc_nodup : NoDup (map snd new);
  disc_incl : incl new es;
  disc_fresh : forall u v, In (u, v) new -> ~ vis v;
  disc_all : forall u v, In (u, v) es -> vis v \/ In v (map snd new)
}.
Lemma disc_nil vis : disc vis [] [].
Proof. constructor; simpl; try tauto. - constructor. - intros x []. Qed.
Lemma NoDup_snoc (A : Type) (l : list A) x : NoDup l -> ~ In x l -> NoDup (l ++ [x]).
Proof.
  induction l; intros ND N; simpl; [repeat constructor; auto|]. inversion ND as [|y l' N' ND']. subst. constructor.
  - intros I. apply in_app_or in I. destruct I as [I|[->|[]]]; auto. apply N. now left.
  - apply IHl; auto. intros I. apply N. now right.
Qed.
Lemma disc_skip vis es new u v : disc vis es new -> vis v \/ In v (map snd new) -> disc vis (es ++ [(u, v)]) new.
Proof.
  intros [A B C D] H. constructor; auto.
  - intros x I. apply in_or_app. left. auto.
  - intros a b I. apply in_app_or in I. destruct I as [I|[E|[]]]; [eauto|]. injection E as <- <-. auto.
Qed.
Lemma disc_add vis es new u v : disc vis es new -> ~ vis v -> ~ In v (map snd new) -> disc vis (es ++ [(u, v)]) (new ++ [(u, v)]).
Proof.
  intros [A B C D] H1 H2. constructor.
  - rewrite map_app. simpl. apply NoDup_snoc; auto.
  - intros x I. apply in_or_app. apply in_app_or in I. destruct I as [I|I]; [left; auto|right; auto].
  - intros a b I. apply in_app_or in I. destruct I as [I|[E|[]]]; [eauto|]. injection E as <- <-. auto.
  - intros a b I. rewrite map_app. apply in_app_or in I. destruct I as [I|[E|[]]].
    + destruct (D a b I); [now left|right; apply in_or_app; now left].
    + injection E as <- <-. right. apply in_or_app. right. now left.
Qed.
Lemma disc_expanded g F vis es new : (forall u v, In (u, v) es <-> F u /\ edge g u v) -> disc vis es new -> expanded g F vis new.
Proof.
  intros H [A B C D]. constructor; auto.
  - intros u v I. destruct (proj1 (H u v) (B _ I)) as [Fu E]. repeat split; eauto.
  - intros u v Fu E. apply (D u). apply H. auto.
Qed.

(** All edges leaving the vertices of a list. *)
Definition out_edges (g : list (list nat)) (us : list nat) : list (nat * nat) :=
  flat_map (fun u => map (fun v => (u, v)) (nth u g [])) us.
Lemma in_out_edges g us u v : In (u, v) (out_edges g us) <-> In u us /\ edge g u v.
Proof.
  unfold out_edges. rewrite in_flat_map. split.
  - intros (x & I & J). apply in_map_iff in J. destruct J as (y & E & J). injection E as -> ->. auto.
  - intros [I J]. exists u. split; auto. apply in_map_iff. exists v. auto.
Qed.
