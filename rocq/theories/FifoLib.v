(** The invariant of first-in-first-out breadth-first traversals: the vertices discovered so far are
    [D ++ u :: Q]; those of [D] are expanded, [u] is being expanded (its first [i] neighbours are done), those of
    [Q] wait in the queue; [T] lists the discovery edges in order. *)
From Coq Require Import List Arith Lia Bool Sorted.
From Verif Require Import Base GraphLib.
Import ListNotations.
Set Implicit Arguments.

Record finv (g : list (list nat)) (s : nat) (D : list nat) (u i : nat) (Q : list nat) (T : list (nat * nat)) : Prop := {
  fi_nodup : NoDup (D ++ u :: Q);
  fi_head : exists r, D ++ u :: Q = s :: r /\ map snd T = r;
  fi_dist : forall x, In x (D ++ u :: Q) -> exists d, dist g s x d;
  fi_sort : StronglySorted (fun x y => forall a b, dist g s x a -> dist g s y b -> a <= b) (D ++ u :: Q);
  fi_span : forall x a b, In x Q -> dist g s x a -> dist g s u b -> a <= S b;
  fi_closed : forall x w, In x D -> edge g x w -> In w (D ++ u :: Q);
  fi_part : forall w, In w (firstn i (nth u g [])) -> In w (D ++ u :: Q);
  fi_tree : forall p c, In (p, c) T -> edge g p c /\ In p (D ++ [u]) /\ forall d, dist g s p d -> dist g s c (S d) }.

Lemma finv_init g s : finv g s [] s 0 [] [].
Proof.
  constructor; simpl; intros.
  - repeat constructor. auto.
  - exists []. auto.
  - destruct H as [<-|[]]. exists 0. now apply dist_0.
  - repeat constructor.
  - destruct H.
  - destruct H.
  - destruct H.
  - destruct H.
Qed.

Lemma finv_weaken g s D u i j Q T : j <= i -> finv g s D u i Q T -> finv g s D u j Q T.
Proof.
  intros L [A B C E F G H I]. constructor; auto. intros w W. apply H.
  rewrite <- (firstn_skipn j (firstn i _)), firstn_firstn, Nat.min_l by auto. apply in_or_app. auto.
Qed.

Lemma firstn_S_nth (A : Type) (l : list A) : forall i w, nth_error l i = Some w -> firstn (S i) l = firstn i l ++ [w].
Proof. induction l; destruct i; simpl; intros; try discriminate; [congruence|]. f_equal. now apply IHl. Qed.

Lemma finv_skip g s D u i Q T w : finv g s D u i Q T -> nth_error (nth u g []) i = Some w -> In w (D ++ u :: Q) ->
  finv g s D u (S i) Q T.
Proof.
  intros [A B C E F G H I] W M. constructor; auto. intros x X. rewrite (firstn_S_nth _ _ W) in X.
  apply in_app_or in X. destruct X as [X|[<-|[]]]; auto.
Qed.

(** Every vertex nearer than [u] has been expanded, every vertex at most as far as [u] has been discovered. *)
Lemma finv_below g s D u i Q T : finv g s D u i Q T -> forall du, dist g s u du ->
  forall k x, k <= du -> dist g s x k -> In x (D ++ u :: Q) /\ (k < du -> In x D).
Proof.
  intros I du Du. destruct I as [ND [r [Hd Ht]] Di So Sp Cl Pa Tr].
  induction k as [|k IH]; intros x L Dx.
  - apply dist_0 in Dx. subst x. assert (M : In s (D ++ u :: Q)) by (rewrite Hd; now left). split; auto. intros L'.
    destruct D as [|y D]; [|simpl in Hd; injection Hd as -> _; now left].
    simpl in Hd. injection Hd as -> _. assert (E := dist_fun Du (proj2 (dist_0 g s s) eq_refl)). lia.
  - apply dist_S in Dx as Dx'. destruct Dx' as (_ & y & Dy & E).
    destruct (IH y) as [_ ID]; [lia|auto|]. specialize (ID ltac:(lia)). assert (M := Cl _ _ ID E). split; auto.
    intros L'. apply in_app_or in M. destruct M as [M|[<-|M]]; auto.
    + assert (E' := dist_fun Du Dx). lia.
    + apply StronglySorted_app_inv in So. destruct So as (_ & So & _). inversion So; subst.
      rewrite Forall_forall in H2. specialize (H2 _ M _ _ Du Dx). lia.
Qed.

Lemma finv_add g s D u i Q T w : finv g s D u i Q T -> nth_error (nth u g []) i = Some w -> ~ In w (D ++ u :: Q) ->
  finv g s D u (S i) (Q ++ [w]) (T ++ [(u, w)]).
Proof.
  intros I W N. destruct I as [ND [r [Hd Ht]] Di So Sp Cl Pa Tr] eqn:EI. clear EI.
  assert (Ew : edge g u w) by (eapply nth_error_In; eauto).
  destruct (Di u) as [du Du]; [apply in_or_app; right; now left|].
  assert (Dw : dist g s w (S du)).
  { apply dist_S. split; [|exists u; auto]. intros (d & L & X). apply N. exact (proj1 (@finv_below _ _ _ _ _ _ _ I _ Du d w L X)). }
  assert (EQ : D ++ u :: Q ++ [w] = (D ++ u :: Q) ++ [w]) by now rewrite <- app_assoc.
  constructor; try rewrite EQ.
  - apply NoDup_snoc; auto.
  - exists (r ++ [w]). rewrite Hd, map_app, Ht. auto.
  - intros x X. apply in_app_or in X. destruct X as [X|[<-|[]]]; eauto.
  - apply StronglySorted_app; [auto|repeat constructor|]. intros x y X [<-|[]] a b Da Db.
    assert (b = S du) by (eapply dist_fun; eauto). subst b.
    apply in_app_or in X. destruct X as [X|[<-|X]].
    + apply StronglySorted_app_inv in So. destruct So as (_ & _ & So). specialize (So x u X (or_introl eq_refl) _ _ Da Du). lia.
    + assert (E := dist_fun Da Du). lia.
    + specialize (Sp _ _ _ X Da Du). lia.
  - intros x a b X Da Db. apply in_app_or in X. destruct X as [X|[<-|[]]]; [eauto|].
    assert (b = du) by (eapply dist_fun; eauto). assert (a = S du) by (eapply dist_fun; eauto). lia.
  - intros x y X E. apply in_or_app. left. eauto.
  - intros x X. rewrite (firstn_S_nth _ _ W) in X. apply in_or_app. apply in_app_or in X. destruct X as [X|X]; auto.
  - intros p c X. apply in_app_or in X. destruct X as [X|[X|[]]]; [auto|]. injection X as <- <-.
    split; [auto|]. split; [apply in_or_app; right; now left|]. intros d Dd. now rewrite (dist_fun Dd Du).
Qed.

Lemma finv_next g s D u i v Q T : finv g s D u i (v :: Q) T -> i = length (nth u g []) -> finv g s (D ++ [u]) v 0 Q T.
Proof.
  intros I E. destruct I as [ND [r [Hd Ht]] Di So Sp Cl Pa Tr].
  assert (EQ : (D ++ [u]) ++ v :: Q = D ++ u :: v :: Q) by now rewrite <- app_assoc.
  constructor; try rewrite EQ; eauto.
  - intros x a b X Da Db.
    assert (Lvx : forall d, dist g s u d -> a <= S d) by (intros d Dd; eapply Sp; eauto; now right).
    destruct (Di u) as [du Du]; [apply in_or_app; right; now left|]. specialize (Lvx _ Du).
    apply StronglySorted_app_inv in So. destruct So as (_ & So & _). inversion So; subst.
    rewrite Forall_forall in H2. specialize (H2 v (or_introl eq_refl) _ _ Du Db). lia.
  - intros x w X Ew. apply in_app_or in X. destruct X as [X|[<-|[]]]; [eauto|]. apply Pa. subst i. now rewrite firstn_all.
  - intros w [].
  - intros p c X. destruct (Tr _ _ X) as (A & B & C). split; [auto|split; auto]. apply in_or_app. auto.
Qed.

(** When the queue is empty and the last vertex is expanded, exactly the reachable vertices were discovered. *)
Lemma finv_done g s D u i T : finv g s D u i [] T -> i = length (nth u g []) ->
  forall x, In x (D ++ [u]) <-> reachable g s x.
Proof.
  intros I E x. destruct I as [ND [r [Hd Ht]] Di So Sp Cl Pa Tr]. split.
  - intros X. apply dist_reach. auto.
  - intros [k W]. revert x W. induction k; intros x W; inversion W; subst.
    + rewrite Hd. now left.
    + specialize (IHk _ H0). apply in_app_or in IHk. destruct IHk as [X|[<-|[]]]; [eauto|]. apply Pa. now rewrite firstn_all.
Qed.

(** What a finished traversal means, without reference to its state: [P] lists the reachable vertices once each,
    by non-decreasing distance from [s]. *)
Definition level_order (g : list (list nat)) (s : nat) (P : list nat) : Prop :=
  NoDup P /\ (forall x, In x P <-> reachable g s x) /\
  StronglySorted (fun x y => forall a b, dist g s x a -> dist g s y b -> a <= b) P.
(** [T] lists tree edges (parent, child): the children, after [s], are the reachable vertices in level order; every
    pair is an edge leading from a vertex to one that is one further away, and a parent is [s] or an earlier child. *)
Definition tree_order (g : list (list nat)) (s : nat) (T : list (nat * nat)) : Prop :=
  level_order g s (s :: map snd T) /\
  forall T1 p c T2, T = T1 ++ (p, c) :: T2 ->
    edge g p c /\ (forall d, dist g s p d -> dist g s c (S d)) /\ In p (s :: map snd T1).

Lemma finv_level g s D u i T : finv g s D u i [] T -> i = length (nth u g []) -> level_order g s (D ++ [u]).
Proof. intros I E. split; [apply (fi_nodup I)|]. split; [eapply finv_done; eauto|apply (fi_sort I)]. Qed.

Lemma finv_tree g s D u i T : finv g s D u i [] T -> i = length (nth u g []) -> tree_order g s T.
Proof.
  intros I E. assert (L := finv_level I E). destruct (fi_head I) as (r & Hd & Ht). rewrite Hd in L. subst r.
  split; auto. intros T1 p c T2 ET.
  assert (M : In (p, c) T) by (rewrite ET; apply in_or_app; right; now left).
  destruct (fi_tree I _ _ M) as (A & B & C). split; [auto|split; auto].
  assert (R := proj1 (finv_done I E p) B). rewrite Hd in B.
  destruct B as [<-|B]; [now left|]. right.
  apply dist_reach in R. destruct R as [d Dp]. assert (Dc := C _ Dp).
  rewrite ET, map_app in B. cbn [map snd] in B. apply in_app_or in B. destruct B as [B|[<-|B]]; [auto| |].
  - assert (X := dist_fun Dp Dc). lia.
  - destruct L as (_ & _ & So). rewrite ET, map_app in So. cbn [map snd] in So. inversion So; subst.
    apply StronglySorted_app_inv in H1. destruct H1 as (_ & So2 & _). inversion So2; subst.
    match goal with H : Forall _ (map snd T2) |- _ => rewrite Forall_forall in H; specialize (H _ B _ _ Dc Dp); lia end.
Qed.
