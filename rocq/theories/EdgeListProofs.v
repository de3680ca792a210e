(** Proofs about the edge list model. *)
From Coq Require Import List Arith Lia Permutation.
From Verif Require Import Base EdgeListModel.
Import ListNotations.
Set Implicit Arguments.

Lemma combine_app A B (a1 a2 : list A) (b1 b2 : list B) :
  length a1 = length b1 -> combine (a1 ++ a2) (b1 ++ b2) = combine a1 b1 ++ combine a2 b2.
Proof.
  revert b1. induction a1; destruct b1; simpl; intros; try lia; auto. f_equal. apply IHa1. lia.
Qed.

Section Uni.
Context {A : Type} (W : nat).

Let step := fun (el : edge_list A) e => el_push_back W el (esrc e) (etgt e) (eatt e).

Lemma push_cols es (el : edge_list A) :
  el_c0 (fold_left step es el) = el_c0 el ++ map esrc es /\
  el_c1 (fold_left step es el) = el_c1 el ++ map etgt es /\
  el_ca (fold_left step es el) = el_ca el ++ map eatt es.
Proof.
  revert el. induction es as [|e es IH]; intros el; simpl.
  - now rewrite !app_nil_r.
  - destruct (IH (step el e)) as (H0 & H1 & H2). rewrite H0, H1, H2. simpl.
    now rewrite <- !app_assoc.
Qed.

Lemma view_cols (es : list (edge A)) :
  combine (combine (map esrc es) (map etgt es)) (map eatt es) = es.
Proof.
  induction es as [|[[i j] a] es IH]; simpl; auto. unfold esrc, etgt, eatt in *. simpl. now rewrite IH.
Qed.

Lemma build_view n es : el_view (el_build W n es : edge_list A) = es.
Proof.
  unfold el_view, el_build. simpl.
  destruct (push_cols es (el_new n)) as (H0 & H1 & H2). fold step.
  rewrite H0, H1, H2. simpl. apply view_cols.
Qed.

Lemma build_num_edges n es : el_num_edges (el_build W n es : edge_list A) = length es.
Proof.
  unfold el_num_edges, el_build. simpl.
  destruct (push_cols es (el_new n)) as (H0 & H1 & H2). fold step.
  rewrite H0. simpl. now rewrite map_length.
Qed.

Lemma push_card es (el : edge_list A) :
  el_card el < W -> (forall e, In e es -> esrc e + 1 < W /\ etgt e + 1 < W) ->
  let c := el_card (fold_left step es el) in
  c < W /\ el_card el <= c /\ (forall e, In e es -> esrc e < c /\ etgt e < c) /\
  (forall b, el_card el <= b -> (forall e, In e es -> esrc e < b /\ etgt e < b) -> c <= b).
Proof.
  revert el. induction es as [|e es IH]; intros el Hc Hes; simpl.
  - repeat split; auto; try contradiction.
  - assert (E : el_card (step el e) = Nat.max (Nat.max (esrc e) (etgt e) + 1) (el_card el)).
    { unfold step, el_push_back. simpl. destruct (Hes e (or_introl eq_refl)).
      rewrite !Nat.mod_small; lia. }
    destruct (Hes e (or_introl eq_refl)) as [B0 B1].
    destruct (IH (step el e)) as (C1 & C2 & C3 & C4).
    + rewrite E. lia.
    + intros. apply Hes. now right.
    + rewrite E in *. split; [exact C1|]. split; [lia|]. split.
      * intros e' [<-|Hin]; auto. lia.
      * intros b Hb Hes'. apply C4.
        -- destruct (Hes' e (or_introl eq_refl)). lia.
        -- intros. apply Hes'. now right.
Qed.

Lemma build_card n es :
  n < W -> (forall e, In e es -> esrc e + 1 < W /\ etgt e + 1 < W) ->
  let c := el_num_vertices (el_build W n es : edge_list A) in
  n <= c /\ (forall e, In e es -> esrc e < c /\ etgt e < c) /\
  (forall b, n <= b -> (forall e, In e es -> esrc e < b /\ etgt e < b) -> c <= b).
Proof.
  intros Hn Hes. pose proof (push_card es (el_new n) Hn Hes) as H. simpl in H.
  unfold el_num_vertices, el_build. simpl. fold step. tauto.
Qed.

Lemma build_wrap (es : list (edge A)) (a : A) j : 0 < W -> j < W ->
  el_num_vertices (el_build W 0 [((W - 1, j), a)]) = 0.
Proof.
  intros. unfold el_num_vertices, el_build, el_push_back. simpl. unfold esrc, etgt. simpl.
  replace (Nat.max (W - 1) j + 1) with W by lia. rewrite Nat.mod_same by lia.
  rewrite Nat.mod_0_l by lia. reflexivity.
Qed.

(** Well-formed edge lists: columns of the same length, ids below the cardinality. *)
Definition el_wf (el : edge_list A) : Prop :=
  length (el_c1 el) = length (el_c0 el) /\ length (el_ca el) = length (el_c0 el) /\
  (forall v, In v (el_c0 el) -> v < el_card el) /\ (forall v, In v (el_c1 el) -> v < el_card el).

Lemma build_wf n es :
  n < W -> (forall e, In e es -> esrc e + 1 < W /\ etgt e + 1 < W) ->
  el_wf (el_build W n es : edge_list A).
Proof.
  intros Hn Hes. destruct (build_card es Hn Hes) as (_ & B & _).
  unfold el_wf, el_build in *. simpl in *.
  destruct (push_cols es (el_new n)) as (H0 & H1 & H2). fold step in B; fold step.
  rewrite H0, H1, H2. simpl. rewrite !map_length. repeat split; auto.
  - intros v Hv. apply in_map_iff in Hv as (e & <- & He). apply (B e He).
  - intros v Hv. apply in_map_iff in Hv as (e & <- & He). apply (B e He).
Qed.
End Uni.

Section Bi.
Context {A : Type} (W : nat).
Let step := fun (el : bi_edge_list A) e => bel_push_back W el (esrc e) (etgt e) (eatt e).

Lemma bi_push_cols es (el : bi_edge_list A) :
  bel_c0 (fold_left step es el) = bel_c0 el ++ map esrc es /\
  bel_c1 (fold_left step es el) = bel_c1 el ++ map etgt es /\
  bel_ca (fold_left step es el) = bel_ca el ++ map eatt es.
Proof.
  revert el. induction es as [|e es IH]; intros el; simpl.
  - now rewrite !app_nil_r.
  - destruct (IH (step el e)) as (H0 & H1 & H2). rewrite H0, H1, H2. simpl.
    now rewrite <- !app_assoc.
Qed.

Lemma bi_push_card es (el : bi_edge_list A) :
  bel_card0 el < W -> bel_card1 el < W -> (forall e, In e es -> esrc e + 1 < W /\ etgt e + 1 < W) ->
  let c := fold_left step es el in
  bel_card0 el <= bel_card0 c /\ bel_card1 el <= bel_card1 c /\
  (forall e, In e es -> esrc e < bel_card0 c /\ etgt e < bel_card1 c) /\
  (forall b, bel_card0 el <= b -> (forall e, In e es -> esrc e < b) -> bel_card0 c <= b) /\
  (forall b, bel_card1 el <= b -> (forall e, In e es -> etgt e < b) -> bel_card1 c <= b).
Proof.
  revert el. induction es as [|e es IH]; intros el Hc0 Hc1 Hes; simpl.
  - repeat split; auto; try contradiction.
  - assert (E0 : bel_card0 (step el e) = Nat.max (esrc e + 1) (bel_card0 el)).
    { unfold step, bel_push_back. simpl. destruct (Hes e (or_introl eq_refl)).
      rewrite !Nat.mod_small; lia. }
    assert (E1 : bel_card1 (step el e) = Nat.max (etgt e + 1) (bel_card1 el)).
    { unfold step, bel_push_back. simpl. destruct (Hes e (or_introl eq_refl)).
      rewrite !Nat.mod_small; lia. }
    destruct (Hes e (or_introl eq_refl)) as [B0 B1].
    destruct (IH (step el e)) as (C1 & C2 & C3 & C4 & C5).
    + rewrite E0. lia.
    + rewrite E1. lia.
    + intros. apply Hes. now right.
    + rewrite E0, E1 in *. split; [lia|]. split; [lia|]. split; [|split].
      * intros e' [<-|Hin]; auto. lia.
      * intros b Hb Hes'. apply C4.
        -- pose proof (Hes' e (or_introl eq_refl)). lia.
        -- intros. apply Hes'. now right.
      * intros b Hb Hes'. apply C5.
        -- pose proof (Hes' e (or_introl eq_refl)). lia.
        -- intros. apply Hes'. now right.
Qed.

Lemma bi_build_all m n es :
  m < W -> n < W -> (forall e, In e es -> esrc e + 1 < W /\ etgt e + 1 < W) ->
  let el := bel_build W m n es : bi_edge_list A in
  bel_view el = es /\ bel_num_edges el = length es /\
  m <= bel_card0 el /\ n <= bel_card1 el /\
  (forall e, In e es -> esrc e < bel_card0 el /\ etgt e < bel_card1 el) /\
  (forall b, m <= b -> (forall e, In e es -> esrc e < b) -> bel_card0 el <= b) /\
  (forall b, n <= b -> (forall e, In e es -> etgt e < b) -> bel_card1 el <= b).
Proof.
  intros Hm Hn Hes.
  pose proof (bi_push_card es (bel_new m n) Hm Hn Hes) as H.
  destruct (bi_push_cols es (bel_new m n)) as (H0 & H1 & H2). simpl in H.
  unfold bel_view, bel_num_edges, bel_build. simpl. fold step. rewrite H0, H1, H2. simpl.
  rewrite view_cols, map_length. tauto.
Qed.
End Bi.

(** std::equal with three iterators. *)
Lemma std_equal3_same_length A (eqb : A -> A -> bool) (Heqb : forall x y, eqb x y = true <-> x = y) a b :
  length a = length b -> exists r, std_equal3 eqb a b = Ok r /\ (r = true <-> a = b).
Proof.
  revert b. induction a as [|x a IH]; destruct b as [|y b]; simpl; intros H; try lia.
  - exists true. tauto.
  - destruct (eqb x y) eqn:E.
    + apply Heqb in E. subst. destruct (IH b) as (r & -> & Hr); [lia|].
      exists r. split; auto. rewrite Hr. split; congruence.
    + exists false. split; auto. split; [discriminate|]. intros X. inversion X; subst.
      assert (eqb y y = true) by now apply Heqb. congruence.
Qed.

Lemma std_equal3_prefix A (eqb : A -> A -> bool) (Heqb : forall x y, eqb x y = true <-> x = y) a b :
  std_equal3 eqb a (a ++ b) = Ok true.
Proof. induction a; simpl; auto. assert (eqb a a = true) as -> by now apply Heqb. auto. Qed.

Lemma std_equal3_proper A (eqb : A -> A -> bool) (Heqb : forall x y, eqb x y = true <-> x = y) a x b :
  std_equal3 eqb (a ++ x :: b) a = Ub.
Proof. induction a; simpl; auto. assert (eqb a a = true) as -> by now apply Heqb. auto. Qed.
