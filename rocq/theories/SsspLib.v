(** Specification vocabulary for weighted graphs, and the invariant of label-correcting searches. *)
From Coq Require Import List Arith Lia Bool.
From Verif Require Import Base SsspModel.
Import ListNotations.
Set Implicit Arguments.

Definition warc (g : wgraph) (u v w : nat) : Prop := In (v, w) (nth u g []).
Definition wtargets_ok (g : wgraph) : Prop := forall u v w, warc g u v w -> v < length g.
(** [wwalk g s v d]: a walk from s to v of length d. *)
Inductive wwalk (g : wgraph) (s : nat) : nat -> nat -> Prop :=
| ww_0 : wwalk g s s 0
| ww_S : forall u v d w, wwalk g s u d -> warc g u v w -> wwalk g s v (d + w).
Definition wreach (g : wgraph) (s v : nat) : Prop := exists d, wwalk g s v d.
Definition shortest (g : wgraph) (s v d : nat) : Prop := wwalk g s v d /\ forall d', wwalk g s v d' -> d <= d'.

(** Simple paths from s, as the reversed list of (vertex, length of the prefix ending there). *)
Inductive spath (g : wgraph) (s : nat) : list (nat * nat) -> Prop :=
| sp_0 : spath g s [(s, 0)]
| sp_S : forall u l p v w, spath g s ((u, l) :: p) -> warc g u v w -> ~ In v (map fst ((u, l) :: p)) -> spath g s ((v, l + w) :: (u, l) :: p).
(** No simple path, prolonged by any arc, reaches [inf]. *)
Definition no_overflow (g : wgraph) (s inf : nat) : Prop := forall u l p v w, spath g s ((u, l) :: p) -> warc g u v w -> l + w < inf.

Lemma warc_lt g u v w : warc g u v w -> u < length g.
Proof. unfold warc. intros H. destruct (Nat.lt_ge_cases u (length g)) as [L|L]; auto. rewrite nth_overflow in H by auto. destruct H. Qed.
Lemma spath_wwalk g s p : spath g s p -> forall v l, In (v, l) p -> wwalk g s v l.
Proof.
  induction 1; intros x m I.
  - destruct I as [I|[]]. injection I as <- <-. constructor.
  - destruct I as [I|I]; auto. injection I as <- <-. econstructor; [|eauto]. apply IHspath. now left.
Qed.
Lemma spath_le g s p : spath g s p -> forall v l q, p = (v, l) :: q -> forall x m, In (x, m) p -> m <= l.
Proof.
  induction 1; intros y k q E x m I.
  - destruct I as [I|[]]. injection I as <- <-. lia.
  - injection E as <- <- <-. destruct I as [I|I]; [injection I as <- <-; lia|]. assert (X := IHspath u l p eq_refl x m I). lia.
Qed.
Lemma shortest_fun g s v d d' : shortest g s v d -> shortest g s v d' -> d = d'.
Proof. intros [A B] [A' B']. apply Nat.le_antisymm; auto. Qed.
Lemma sum_upd l : forall i x, i < length l -> sum (upd l i x) + nth i l 0 = sum l + x.
Proof. induction l; intros [|i] x H; simpl in *; try lia. specialize (IHl i x ltac:(lia)). lia. Qed.

(** The shortest distances, cut at [inf]. *)
Definition cut_dist (g : wgraph) (s inf : nat) (dist : list nat) : Prop := length dist = length g /\
  forall v, v < length g ->
    nth v dist inf <= inf /\
    (nth v dist inf < inf -> shortest g s v (nth v dist inf)) /\
    (nth v dist inf = inf -> forall d, wwalk g s v d -> inf <= d).

Section Label.
Variables (g : wgraph) (s inf D : nat).
Hypothesis HT : wtargets_ok g.
Hypothesis HS : s < length g.
Hypothesis HI : 0 < inf.
(** Every sum formed from a label below [inf] fits in the distance type. *)
Hypothesis SAFE : forall u l p v w, spath g s ((u, l) :: p) -> l < inf -> warc g u v w -> l + w < D.

Definition dst (dist : list nat) (v : nat) : nat := nth v dist inf.

(** Labels are lengths of simple paths whose prefixes bound the labels of their vertices; a labelled vertex is
    pending or, up to the arcs in [cur], relaxed. *)
Record lab (dist : list nat) (pend : nat -> Prop) (cur : nat -> nat -> nat -> Prop) : Prop := {
  lb_len : length dist = length g;
  lb_le : forall v, dst dist v <= inf;
  lb_src : dst dist s = 0;
  lb_path : forall v, v < length g -> dst dist v < inf -> exists p, spath g s ((v, dst dist v) :: p) /\ forall x l, In (x, l) p -> dst dist x <= l;
  lb_rel : forall x, dst dist x < inf -> pend x \/ forall y w, warc g x y w -> dst dist y <= dst dist x + w \/ cur x y w
}.

Lemma lab_weaken dist (pend pend' : nat -> Prop) (cur cur' : nat -> nat -> nat -> Prop) : lab dist pend cur -> (forall x, dst dist x < inf -> pend x -> pend' x) ->
  (forall x y w, warc g x y w -> cur x y w -> cur' x y w) -> lab dist pend' cur'.
Proof.
  intros [A B C E F] H1 H2. constructor; auto. intros x Hx. destruct (F x Hx) as [P|P]; auto. right. intros y w Ar. destruct (P y w Ar); auto.
Qed.

Lemma lab_lt dist pend cur v : lab dist pend cur -> dst dist v < inf -> v < length g.
Proof. intros L H. destruct (Nat.lt_ge_cases v (length g)); auto. unfold dst in H. rewrite nth_overflow in H; [lia|]. rewrite (lb_len L); auto. Qed.

Lemma lab_sum dist pend cur u v w : lab dist pend cur -> dst dist u < inf -> warc g u v w -> (dst dist u + w) mod D = dst dist u + w.
Proof.
  intros L Hu A. destruct (lb_path L (lab_lt _ L Hu) Hu) as (p & P & _). apply Nat.mod_small. eapply SAFE; eauto.
Qed.

(** An improving relaxation. *)
Lemma lab_improve dist pend cur u v w (pend' : nat -> Prop) (cur' : nat -> nat -> nat -> Prop) :
  lab dist pend cur -> dst dist u < inf -> warc g u v w -> dst dist u + w < dst dist v ->
  (forall x, x <> v -> pend x -> pend' x) -> pend' v ->
  (forall x y z, cur x y z -> cur' x y z \/ (x = u /\ y = v /\ z = w)) ->
  lab (upd dist v (dst dist u + w)) pend' cur'.
Proof.
  intros L Hu A LT P1 P2 CU. assert (Lu := lab_lt _ L Hu). assert (Lv := HT _ _ _ A).
  assert (NE : v <> u) by (intros ->; lia).
  assert (UP : forall x, dst (upd dist v (dst dist u + w)) x = if x =? v then dst dist u + w else dst dist x).
  { intros x. unfold dst. destruct (Nat.eqb_spec x v) as [->|N]; [apply nth_upd_eq; rewrite (lb_len L); auto|apply nth_upd_neq; auto]. }
  assert (LE : forall x, dst (upd dist v (dst dist u + w)) x <= dst dist x).
  { intros x. rewrite UP. destruct (Nat.eqb_spec x v) as [->|N]; lia. }
  assert (NVS : v <> s) by (intros ->; rewrite (lb_src L) in LT; lia).
  destruct L as [A1 A2 A3 A4 A5]. constructor.
  - now rewrite upd_length.
  - intros x. etransitivity; [apply LE|apply A2].
  - rewrite UP. destruct (Nat.eqb_spec s v); [congruence|auto].
  - intros x Hx. rewrite UP. destruct (Nat.eqb_spec x v) as [->|N].
    + intros _. destruct (A4 u Lu Hu) as (p & SP & PB). exists ((u, dst dist u) :: p). split.
      * econstructor; eauto. intros I. apply in_map_iff in I. destruct I as ([y l] & E & I). simpl in E. subst y.
        assert (X := spath_le SP eq_refl _ _ I). destruct I as [I|I]; [exfalso; congruence|]. specialize (PB v l I). lia.
      * intros y l [I|I]; [injection I as <- <-; apply LE|]. etransitivity; [apply LE|]. now apply PB.
    + intros H. destruct (A4 x Hx H) as (p & SP & PB). exists p. split; auto. intros y l I. etransitivity; [apply LE|]. now apply PB.
  - intros x. rewrite UP. destruct (Nat.eqb_spec x v) as [->|N]; [auto|]. intros H. destruct (A5 x H) as [P|P]; [left; auto|].
    right. intros y z Ar. destruct (P y z Ar) as [Q|Q].
    + left. etransitivity; [apply LE|auto].
    + destruct (CU x y z Q) as [Q'|(-> & -> & ->)]; auto. left. rewrite UP, Nat.eqb_refl. lia.
Qed.
(** A relaxation that does not improve. *)
Lemma lab_keep dist pend cur u v w (cur' : nat -> nat -> nat -> Prop) :
  lab dist pend cur -> dst dist v <= dst dist u + w -> (forall x y z, cur x y z -> cur' x y z \/ (x = u /\ y = v /\ z = w)) -> lab dist pend cur'.
Proof.
  intros [A1 A2 A3 A4 A5] LE CU. constructor; auto. intros x H. destruct (A5 x H) as [P|P]; auto. right. intros y z Ar.
  destruct (P y z Ar) as [Q|Q]; auto. destruct (CU x y z Q) as [Q'|(-> & -> & ->)]; auto.
Qed.

Lemma lab_final dist : lab dist (fun _ => False) (fun _ _ _ => False) -> cut_dist g s inf dist.
Proof.
  intros [A1 A2 A3 A4 A5].
  assert (B : forall v d, wwalk g s v d -> dst dist v <= Nat.min d inf).
  { induction 1.
    - rewrite A3. lia.
    - assert (X := A2 v). destruct (Nat.lt_ge_cases (dst dist u) inf) as [L|L]; [|lia]. destruct (A5 u L) as [[]|P]. destruct (P v w H0) as [Q|[]]. lia. }
  split; auto. intros v Hv. fold (dst dist v). split; [apply A2|]. split.
  - intros L. destruct (A4 v Hv L) as (p & SP & _). split; [eapply spath_wwalk; [exact SP|now left]|]. intros d W. specialize (B v d W). lia.
  - intros E d W. specialize (B v d W). lia.
Qed.

(** Taking a vertex out of the pending set: its arcs become current. *)
Lemma lab_pop dist (pend pend' : nat -> Prop) u : lab dist pend (fun _ _ _ => False) -> (forall x, dst dist x < inf -> pend x -> pend' x \/ x = u) ->
  lab dist pend' (fun x y z => x = u /\ In (y, z) (nth u g [])).
Proof.
  intros [A1 A2 A3 A4 A5] H. constructor; auto. intros x Hx. destruct (A5 x Hx) as [P|P].
  - destruct (H x Hx P) as [Q| ->]; auto.
  - right. intros y w A. destruct (P y w A) as [Q|[]]; auto.
Qed.

Lemma lab_init : lab (upd (repeat inf (length g)) s 0) (fun x => x = s) (fun _ _ _ => False).
Proof.
  assert (UP : forall x, dst (upd (repeat inf (length g)) s 0) x = if x =? s then 0 else inf).
  { intros x. unfold dst. destruct (Nat.eqb_spec x s) as [->|N]; [apply nth_upd_eq; now rewrite repeat_length|rewrite nth_upd_neq by auto; apply nth_repeat]. }
  constructor.
  - now rewrite upd_length, repeat_length.
  - intros v. rewrite UP. destruct (v =? s); lia.
  - now rewrite UP, Nat.eqb_refl.
  - intros v Hv. rewrite UP. destruct (Nat.eqb_spec v s) as [->|N]; [|lia]. intros _. exists []. split; [constructor|intros x l []].
  - intros x. rewrite UP. destruct (Nat.eqb_spec x s); auto. lia.
Qed.
End Label.
