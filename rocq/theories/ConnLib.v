(** Connectivity of an undirected edge list, and parent-pointer forests. *)
From Coq Require Import List Arith Lia Relations Bool.
From Verif Require Import Base.
Import ListNotations.
Set Implicit Arguments.

(** [conn es u v]: u and v are joined by a path of edges of [es], in either direction. *)
Definition conn (es : list (nat * nat)) : nat -> nat -> Prop :=
  clos_refl_sym_trans nat (fun a b => In (a, b) es).

Lemma conn_refl es u : conn es u u.
Proof. apply rst_refl. Qed.
Lemma conn_sym es u v : conn es u v -> conn es v u.
Proof. apply rst_sym. Qed.
Lemma conn_trans es u v w : conn es u v -> conn es v w -> conn es u w.
Proof. apply rst_trans. Qed.
Lemma conn_edge es u v : In (u, v) es -> conn es u v.
Proof. intros H. apply rst_step. exact H. Qed.
Lemma conn_mono es es' u v : (forall a b, In (a, b) es -> conn es' a b) -> conn es u v -> conn es' u v.
Proof.
  intros H. induction 1; auto using conn_refl, conn_sym. eapply conn_trans; eauto.
Qed.
Lemma conn_incl es es' u v : incl es es' -> conn es u v -> conn es' u v.
Proof. intros H. apply conn_mono. intros a b I. apply conn_edge. auto. Qed.
Lemma conn_nil u v : conn [] u v -> u = v.
Proof. induction 1; auto; congruence || contradiction. Qed.

Lemma conn_snoc es a b u v : conn (es ++ [(a, b)]) u v <->
  conn es u v \/ (conn es u a /\ conn es b v) \/ (conn es u b /\ conn es a v).
Proof.
  split.
  - induction 1 as [x y I|x|x y _ IH|x y z _ IH1 _ IH2].
    + apply in_app_or in I. destruct I as [I|[I|[]]].
      * left. now apply conn_edge.
      * injection I as <- <-. right. left. split; apply conn_refl.
    + left. apply conn_refl.
    + destruct IH as [H|[[H1 H2]|[H1 H2]]].
      * left. now apply conn_sym.
      * right. right. split; now apply conn_sym.
      * right. left. split; now apply conn_sym.
    + destruct IH1 as [H|[[H1 H2]|[H1 H2]]], IH2 as [K|[[K1 K2]|[K1 K2]]].
      * left. eapply conn_trans; eauto.
      * right. left. split; auto. eapply conn_trans; eauto.
      * right. right. split; auto. eapply conn_trans; eauto.
      * right. left. split; auto. eapply conn_trans; eauto.
      * right. left. split; auto.
      * left. eapply conn_trans; eauto.
      * right. right. split; auto. eapply conn_trans; eauto.
      * left. eapply conn_trans; eauto.
      * right. right. split; auto.
  - assert (M : forall x y, conn es x y -> conn (es ++ [(a, b)]) x y).
    { intros x y. apply conn_incl. intros e I. apply in_or_app. now left. }
    assert (E : conn (es ++ [(a, b)]) a b) by (apply conn_edge, in_or_app; right; now left).
    intros [H|[[H1 H2]|[H1 H2]]]; auto.
    + eapply conn_trans; [apply M; eauto|]. eapply conn_trans; [apply E|]. auto.
    + eapply conn_trans; [apply M; eauto|]. eapply conn_trans; [apply conn_sym, E|]. auto.
Qed.

(** A set of vertices closed under the edges contains everything connected to its members. *)
Lemma conn_closed es (P : nat -> Prop) u v :
  (forall a b, In (a, b) es -> (P a <-> P b)) -> conn es u v -> (P u <-> P v).
Proof. intros H. induction 1; try tauto. now apply H. Qed.

(** * Parent-pointer forests *)
Section Forest.
Variable n : nat.

Inductive up (p : nat -> nat) : nat -> nat -> nat -> Prop :=
| up_root : forall v, p v = v -> up p 0 v v
| up_step : forall k v r, p v <> v -> up p k (p v) r -> up p (S k) v r.

Lemma up_fun p k v r : up p k v r -> forall k' r', up p k' v r' -> k = k' /\ r = r'.
Proof.
  induction 1; intros k' r' H'; inversion H'; subst; auto; try congruence.
  destruct (IHup _ _ H2); auto.
Qed.
Lemma up_end p k v r : up p k v r -> p r = r.
Proof. induction 1; auto. Qed.

Definition closed (p : nat -> nat) : Prop := forall v, v < n -> p v < n.
Definition forest (p : nat -> nat) : Prop := closed p /\ forall v, v < n -> exists k r, up p k v r.

Lemma up_end_lt p k v r : closed p -> up p k v r -> v < n -> r < n.
Proof. intros C. induction 1; auto. Qed.

Fixpoint path (p : nat -> nat) (k v : nat) : list nat :=
  match k with 0 => [v] | S k' => v :: path p k' (p v) end.
Lemma path_length p k v : length (path p k v) = S k.
Proof. revert v. induction k; simpl; auto. Qed.
Lemma path_lt p k v x : closed p -> v < n -> In x (path p k v) -> x < n.
Proof.
  intros C. revert v. induction k; simpl; intros v H [->|I]; auto; try contradiction.
  eapply IHk; [|exact I]. auto.
Qed.
Lemma path_depth p k v r x : up p k v r -> In x (path p k v) -> exists j, j <= k /\ up p j x r.
Proof.
  induction 1; simpl; intros I.
  - destruct I as [->|[]]. exists 0. split; auto. now constructor.
  - destruct I as [->|I].
    + exists (S k). split; auto. now constructor.
    + destruct (IHup I) as (j & Hj & U). exists j. split; auto; lia.
Qed.
Lemma path_nodup p k v r : up p k v r -> NoDup (path p k v).
Proof.
  induction 1; simpl.
  - repeat constructor. auto.
  - constructor; auto. intros I. destruct (@path_depth p k (p v) r v H0 I) as (j & Hj & U).
    assert (U' : up p (S k) v r) by now constructor.
    destruct (up_fun U U'). lia.
Qed.
Lemma up_bound p k v r : closed p -> v < n -> up p k v r -> k < n.
Proof.
  intros C Hv U. assert (L : length (path p k v) <= length (seq 0 n)).
  { apply NoDup_incl_length; [eapply path_nodup; eauto|]. intros x I. apply in_seq. simpl. split; [lia|]. eapply path_lt; eauto. }
  rewrite path_length, seq_length in L. lia.
Qed.

(** Redirecting [a] to a root [b]. *)
Lemma redirect p p' a b k x r : up p k x r -> p b = b -> b <> a -> p' a = b -> (forall y, y <> a -> p' y = p y) ->
  exists k', up p' k' x r \/ (up p' k' x b /\ exists ka, up p ka a r).
Proof.
  intros U Hb NE Ha Hp. assert (B : p' b = b) by (rewrite Hp; auto).
  assert (A : up p' 1 a b). { constructor; rewrite Ha; auto. now constructor. }
  induction U.
  - destruct (Nat.eq_dec v a) as [->|Nv].
    + exists 1. right. split; auto. exists 0. now constructor.
    + exists 0. left. constructor. now rewrite Hp.
  - destruct (Nat.eq_dec v a) as [->|Nv].
    + exists 1. right. split; auto. exists (S k). now constructor.
    + destruct IHU as [k' [I|[I J]]].
      * exists (S k'). left. constructor; rewrite Hp; auto.
      * exists (S k'). right. split; auto. constructor; rewrite Hp; auto.
Qed.

(** Path compression of [a] to its root keeps every root. *)
Lemma compress_roots p p' a b ka : up p ka a b -> p' a = b -> (forall y, y <> a -> p' y = p y) ->
  forall k x r, up p k x r -> exists k', up p' k' x r.
Proof.
  intros Ua Ha Hp k x r U. destruct (Nat.eq_dec b a) as [->|NE].
  - exists k. assert (E : forall y, p' y = p y).
    { intros y. destruct (Nat.eq_dec y a) as [->|]; auto. rewrite Ha. symmetry. eapply up_end; eauto. }
    clear Ua. induction U; constructor; rewrite E; auto.
  - destruct (@redirect p p' a b k x r U (up_end Ua) NE Ha Hp) as [k' [I|[I [ka' J]]]].
    + eauto.
    + destruct (up_fun J Ua). subst. eauto.
Qed.
(** Linking root [a] under root [b]. *)
Lemma link_roots p p' a b : p a = a -> p b = b -> b <> a -> p' a = b -> (forall y, y <> a -> p' y = p y) ->
  forall k x r, up p k x r -> exists k', up p' k' x (if r =? a then b else r).
Proof.
  intros Pa Pb NE Ha Hp k x r U. destruct (@redirect p p' a b k x r U Pb NE Ha Hp) as [k' [I|[I [ka' J]]]].
  - exists k'. destruct (Nat.eqb_spec r a) as [->|]; auto. apply up_end in I. congruence.
  - assert (Ua : up p 0 a a) by now constructor. destruct (up_fun J Ua) as [_ ->]. rewrite Nat.eqb_refl. eauto.
Qed.

Lemma closed_redirect p p' a b : closed p -> b < n -> p' a = b -> (forall y, y <> a -> p' y = p y) -> closed p'.
Proof. intros C Hb Ha Hp v Hv. destruct (Nat.eq_dec v a) as [->|]; [now rewrite Ha|]. rewrite Hp; auto. Qed.

(** The forest represents the partition of the edges: same root iff connected. *)
Definition represents (p : nat -> nat) (es : list (nat * nat)) : Prop :=
  forest p /\ forall u v ku kv ru rv, u < n -> v < n -> up p ku u ru -> up p kv v rv -> (ru = rv <-> conn es u v).

Lemma represents_singletons p : (forall v, v < n -> p v = v) -> represents p [].
Proof.
  intros H. split; [split|].
  - intros v Hv. now rewrite H.
  - intros v Hv. exists 0, v. constructor. auto.
  - intros u v ku kv ru rv Hu Hv U V.
    assert (up p 0 u u) by (constructor; auto). assert (up p 0 v v) by (constructor; auto).
    destruct (up_fun U H0), (up_fun V H1). subst. split; [intros ->; apply conn_refl|apply conn_nil].
Qed.

Lemma forest_compress p p' a b ka : forest p -> a < n -> up p ka a b -> p' a = b -> (forall y, y <> a -> p' y = p y) -> forest p'.
Proof.
  intros [C F] Hn Ua Ha Hp. split.
  - apply (@closed_redirect p p' a b); auto. eapply up_end_lt; eauto.
  - intros v Hv. destruct (F v Hv) as (k & r & U). destruct (@compress_roots p p' a b ka Ua Ha Hp _ _ _ U) as [k' U']. eauto.
Qed.
Lemma represents_same_roots p p' es : represents p es -> forest p' ->
  (forall k x r, x < n -> up p k x r -> exists k', up p' k' x r) -> represents p' es.
Proof.
  intros [[C F] R] F' H. split; auto. intros u v ku kv ru rv Hu Hv U V.
  destruct (F u Hu) as (k1 & r1 & U1). destruct (F v Hv) as (k2 & r2 & V1).
  destruct (H _ _ _ Hu U1) as [k1' U2]. destruct (H _ _ _ Hv V1) as [k2' V2].
  destruct (up_fun U U2) as [_ ->], (up_fun V V2) as [_ ->]. eapply R; eauto.
Qed.
Lemma represents_ext p es es' : represents p es -> (forall u v, u < n -> v < n -> (conn es u v <-> conn es' u v)) -> represents p es'.
Proof.
  intros [F R] H. split; auto. intros u v ku kv ru rv Hu Hv U V. rewrite <- H by auto. eapply R; eauto.
Qed.

Lemma root_conn p es v k r : represents p es -> v < n -> up p k v r -> conn es v r.
Proof.
  intros [[C F] R] Hv U. assert (Hr : r < n) by (eapply up_end_lt; eauto).
  assert (U' : up p 0 r r) by (constructor; eapply up_end; eauto).
  apply (R v r _ _ _ _ Hv Hr U U'). reflexivity.
Qed.

Lemma represents_link p p' es u v a b : represents p es -> u < n -> v < n ->
  ((exists k, up p k u a) /\ (exists k, up p k v b) \/ (exists k, up p k u b) /\ (exists k, up p k v a)) ->
  a <> b -> p' a = b -> (forall y, y <> a -> p' y = p y) -> represents p' (es ++ [(u, v)]).
Proof.
  intros RP Hu Hv UV NE Ha Hp. assert (RP' := RP). destruct RP as [[C F] R].
  assert (Q : exists k1 k2, exists ra rb, up p k1 u ra /\ up p k2 v rb /\ (ra = a /\ rb = b \/ ra = b /\ rb = a)).
  { destruct UV as [[[k1 U] [k2 V]]|[[k1 U] [k2 V]]]; exists k1, k2; eexists _, _; split; eauto. }
  destruct Q as (k1 & k2 & ra & rb & U & V & Q).
  assert (Pa : p a = a) by (destruct Q as [[<- <-]|[<- <-]]; eapply up_end; eauto).
  assert (Pb : p b = b) by (destruct Q as [[<- <-]|[<- <-]]; eapply up_end; eauto).
  assert (Hb : b < n) by (destruct Q as [[<- <-]|[<- <-]]; eapply up_end_lt; eauto).
  assert (LK := @link_roots p p' a b Pa Pb (not_eq_sym NE) Ha Hp).
  assert (F' : forest p').
  { split; [eapply closed_redirect; eauto|]. intros x Hx. destruct (F x Hx) as (k & r & X). destruct (LK _ _ _ X) as [k' X']. eauto. }
  split; auto. intros x y kx ky rx ry Hx Hy X Y.
  destruct (F x Hx) as (jx & sx & X1). destruct (F y Hy) as (jy & sy & Y1).
  destruct (LK _ _ _ X1) as [jx' X2]. destruct (LK _ _ _ Y1) as [jy' Y2].
  destruct (up_fun X X2) as [_ ->], (up_fun Y Y2) as [_ ->].
  rewrite conn_snoc.
  rewrite <- (R x y _ _ _ _ Hx Hy X1 Y1).
  rewrite <- (R x u _ _ _ _ Hx Hu X1 U), <- (R v y _ _ _ _ Hv Hy V Y1).
  rewrite <- (R x v _ _ _ _ Hx Hv X1 V), <- (R u y _ _ _ _ Hu Hy U Y1).
  clear - Q NE. destruct (Nat.eqb_spec sx a), (Nat.eqb_spec sy a); destruct Q as [[-> ->]|[-> ->]]; split; intros; subst; try tauto; intuition congruence.
Qed.

Lemma represents_noop p es u v k r k' : represents p es -> u < n -> v < n -> up p k u r -> up p k' v r -> represents p (es ++ [(u, v)]).
Proof.
  intros RP Hu Hv U V. eapply represents_ext; [exact RP|]. intros x y Hx Hy. split.
  - apply conn_incl. intros e I. apply in_or_app. now left.
  - rewrite conn_snoc. assert (conn es u v) by (apply (proj2 RP u v _ _ _ _ Hu Hv U V); auto).
    intros [H1|[[H1 H2]|[H1 H2]]]; auto.
    + apply conn_trans with u; auto. now apply conn_trans with v.
    + apply conn_trans with v; auto. apply conn_trans with u; auto. now apply conn_sym.
Qed.
End Forest.
