From Coq Require Import List Arith Lia Permutation Sorting.Sorted Bool.
From Verif Require Import Base EdgeListModel CsrModel BuildModel EdgeListProofs CsrProofs CsrProofs2 CsrProofs3 CsrProofs4.
Import ListNotations.
Set Implicit Arguments.

Lemma set_view_view A (el : edge_list A) es : el_view (el_set_view el es) = es.
Proof. unfold el_view, el_set_view. simpl. apply view_cols. Qed.

(** ------------------------------------------------------------------ perm_by_degree *)
Lemma StronglySorted_nth A (R : A -> A -> Prop) l d i j :
  StronglySorted R l -> i < j -> j < length l -> R (nth i l d) (nth j l d).
Proof.
  intros S. revert i j. induction S as [|x l S IH F]; intros i j Hij Hj; [simpl in Hj; lia|].
  destruct j; [lia|]. simpl in Hj. destruct i; simpl.
  - rewrite Forall_forall in F. apply F. apply nth_In. lia.
  - apply IH; lia.
Qed.

Lemma perm_by_degree_perm srt d dir :
  (forall cmp l, Permutation l (srt cmp l)) -> Permutation (perm_by_degree srt d dir) (seq 0 (length d)).
Proof. intros H. unfold perm_by_degree. destruct dir; auto; apply Permutation_sym, H. Qed.

Lemma perm_by_degree_sorted srt d dir :
  is_sort_lt (deg_lt d) (srt (deg_lt d)) -> is_sort_lt (deg_gt d) (srt (deg_gt d)) ->
  let p := perm_by_degree srt d dir in
  Permutation p (seq 0 (length d)) /\
  (dir = ascending -> forall i j, i < j -> j < length d -> nth (nth i p 0) d 0 <= nth (nth j p 0) d 0) /\
  (dir = descending -> forall i j, i < j -> j < length d -> nth (nth j p 0) d 0 <= nth (nth i p 0) d 0) /\
  (dir = unknown_direction -> p = seq 0 (length d)).
Proof.
  intros Ha Hd p. destruct (Ha (seq 0 (length d))) as [Pa Sa]. destruct (Hd (seq 0 (length d))) as [Pd Sd].
  split. { unfold p, perm_by_degree. destruct dir; auto using Permutation_sym. }
  repeat split; intros E; subst dir; unfold p, perm_by_degree; auto; intros i j Hij Hj.
  - assert (L : j < length (srt (deg_lt d) (seq 0 (length d)))) by (rewrite <- (Permutation_length Pa), seq_length; lia).
    pose proof (StronglySorted_nth 0 Sa Hij L) as Q. simpl in Q. unfold deg_lt at 1 in Q. apply Nat.ltb_ge in Q. exact Q.
  - assert (L : j < length (srt (deg_gt d) (seq 0 (length d)))) by (rewrite <- (Permutation_length Pd), seq_length; lia).
    pose proof (StronglySorted_nth 0 Sd Hij L) as Q. simpl in Q. unfold deg_gt at 1 in Q. apply Nat.ltb_ge in Q. exact Q.
Qed.

(** ------------------------------------------------------------------ relabel *)
(** Position of a value in a list (specification of the new id). *)
Definition position_of (p : list nat) (v i : nat) : Prop := nth_error p i = Some v.

Lemma relabel_ok A n (el : edge_list A) perm :
  Permutation perm (seq 0 n) -> (forall e, In e (el_view el) -> esrc e < n /\ etgt e < n) ->
  exists el' iperm, relabel el perm = Ok (el', iperm) /\ el_card el' = el_card el /\
    Permutation iperm (seq 0 n) /\ (forall v, v < n -> position_of perm v (nth v iperm 0)) /\
    el_view el' = map (fun e => ((nth (esrc e) iperm 0, nth (etgt e) iperm 0), eatt e)) (el_view el).
Proof.
  intros HP HB. destruct (invert_perm_ok HP) as (ip & E & L & N1 & N2).
  unfold relabel. rewrite E. cbn [bind].
  rewrite rmap_ok with (g := fun e => ((nth (esrc e) ip 0, nth (etgt e) ip 0), eatt e)).
  2:{ intros e He. destruct (HB e He). rewrite !vget_nth with (d := 0) by lia. reflexivity. }
  cbn [bind]. do 2 eexists. split; [reflexivity|]. split; [reflexivity|].
  split; [exact (invert_is_perm HP E)|]. split.
  - intros v Hv. destruct (N2 v Hv) as [B <-]. unfold position_of. rewrite (proj2 (N2 v Hv)).
    rewrite nth_error_nth' with (d := 0) by (rewrite (is_perm_length HP); auto). f_equal. now apply N2.
  - apply set_view_view.
Qed.

Lemma relabel_side_ok A n s (el : bi_edge_list A) perm :
  Permutation perm (seq 0 n) -> (forall e, In e (bel_view el) -> ekey s e < n) ->
  exists el' iperm, relabel_side s el perm = Ok (el', iperm) /\
    bel_card0 el' = bel_card0 el /\ bel_card1 el' = bel_card1 el /\
    Permutation iperm (seq 0 n) /\ (forall v, v < n -> position_of perm v (nth v iperm 0)) /\
    bel_view el' = map (fun e => (match s with S0 => (nth (esrc e) iperm 0, etgt e)
                                            | S1 => (esrc e, nth (etgt e) iperm 0) end, eatt e)) (bel_view el).
Proof.
  intros HP HB. destruct (invert_perm_ok HP) as (ip & E & L & N1 & N2).
  unfold relabel_side. rewrite E. cbn [bind].
  rewrite rmap_ok with (g := fun e => (match s with S0 => (nth (esrc e) ip 0, etgt e)
                                            | S1 => (esrc e, nth (etgt e) ip 0) end, eatt e)).
  2:{ intros e He. specialize (HB e He). unfold ekey in HB. destruct s; rewrite !vget_nth with (d := 0) by lia; reflexivity. }
  cbn [bind]. do 2 eexists. split; [reflexivity|]. split; [reflexivity|]. split; [reflexivity|].
  split; [exact (invert_is_perm HP E)|]. split.
  - intros v Hv. destruct (N2 v Hv) as [B <-]. unfold position_of. rewrite (proj2 (N2 v Hv)).
    rewrite nth_error_nth' with (d := 0) by (rewrite (is_perm_length HP); auto). f_equal. now apply N2.
  - unfold bel_view. simpl. apply view_cols.
Qed.

Lemma relabel_count A s n perm iperm (es : list (edge A)) :
  Permutation perm (seq 0 n) -> Permutation iperm (seq 0 n) -> (forall v, v < n -> position_of perm v (nth v iperm 0)) ->
  (forall e, In e es -> esrc e < n /\ etgt e < n) ->
  forall k, k < n ->
    edge_count s (map (fun e => ((nth (esrc e) iperm 0, nth (etgt e) iperm 0), eatt e)) es) k =
    edge_count s es (nth k perm 0).
Proof.
  intros HP HI HPos HB k Hk. unfold edge_count. rewrite filter_map, map_length. f_equal.
  apply filter_ext_in. intros e He. destruct (HB e He) as [B1 B2].
  assert (G : forall x, x < n -> (nth x iperm 0 =? k) = (x =? nth k perm 0)).
  { intros x Hx. specialize (HPos x Hx). unfold position_of in HPos.
    assert (Q : nth (nth x iperm 0) perm 0 = x) by (apply nth_error_nth with (d := 0) in HPos; auto).
    destruct (Nat.eqb_spec (nth x iperm 0) k), (Nat.eqb_spec x (nth k perm 0)); auto; exfalso.
    - subst k. congruence.
    - apply n0. apply (@is_perm_inj n perm); auto.
      + apply is_perm_lt; auto.
      + congruence. }
  destruct s; simpl; apply G; auto.
Qed.

(** ids sorted by degree after relabel_by_degree *)
Definition edge_degree {A} (directed : bool) (s : side) (es : list (edge A)) (v : nat) : nat :=
  if directed then edge_count s es v else edge_count S0 es v + edge_count S1 es v.

Lemma relabel_by_degree_ok A W srt directed s dir n (es : list (edge A)) :
  (forall d, is_sort_lt (deg_lt d) (srt (deg_lt d))) -> (forall d, is_sort_lt (deg_gt d) (srt (deg_gt d))) ->
  n < W -> ids_ok W es -> 2 * length es < W ->
  let el := el_build W n es in
  exists el' iperm, relabel_by_degree W srt directed s dir el = Ok (el', iperm) /\
    el_card el' = el_card el /\ Permutation iperm (seq 0 (el_card el)) /\
    el_view el' = map (fun e => ((nth (esrc e) iperm 0, nth (etgt e) iperm 0), eatt e)) es /\
    (dir = ascending -> forall i j, i < j -> j < el_card el ->
        edge_degree directed s (el_view el') i <= edge_degree directed s (el_view el') j) /\
    (dir = descending -> forall i j, i < j -> j < el_card el ->
        edge_degree directed s (el_view el') j <= edge_degree directed s (el_view el') i).
Proof.
  intros Ha Hd Hn He HW el. unfold relabel_by_degree.
  assert (D : exists d, (if directed then degrees_directed W s el else degrees_undirected W el) = Ok d /\
    length d = el_card el /\ forall v, v < length d -> nth v d 0 = edge_degree directed s es v).
  { destruct directed.
    - assert (HW' : length es < W) by lia. destruct (degrees_directed_ok s Hn He HW') as (d & E & L & N & _).
      exists d. auto.
    - destruct (degrees_undirected_ok Hn He HW) as (d & E & L & N & _). exists d. auto. }
  destruct D as (d & E & L & N). rewrite E. cbn [bind].
  destruct (@perm_by_degree_sorted srt d dir (Ha d) (Hd d)) as (HP & S1 & S2 & _).
  set (p := perm_by_degree srt d dir) in *.
  destruct (build_card es Hn He) as (_ & B & _). unfold el_num_vertices in B. fold el in B.
  rewrite L in HP.
  destruct (@relabel_ok A (el_card el) el p HP) as (el' & ip & E' & C & PI & POS & V).
  { unfold el at 1. rewrite build_view. exact B. }
  exists el', ip. split; auto. split; auto. split; auto.
  unfold el in V at 1. rewrite build_view in V. split; auto.
  assert (K : forall k, k < el_card el -> edge_degree directed s (el_view el') k = nth (nth k p 0) d 0).
  { intros k Hk. rewrite V. assert (HK : nth k p 0 < el_card el) by (now apply is_perm_lt).
    rewrite N by lia. unfold edge_degree.
    destruct directed; now rewrite !relabel_count with (n := el_card el) (perm := p). }
  split; intros Q i j Hij Hj; rewrite !K by lia; [apply S1|apply S2]; auto; lia.
Qed.

(** ------------------------------------------------------------------ cleaning *)
(** Two edges join the same unordered pair of vertices with the same attributes. *)
Definition same_up_to_orientation {A} (e f : edge A) : Prop := f = e \/ f = ((etgt e, esrc e), eatt e).

Definition points_down (s : side) (c : succession) : bool :=
  match s, c with S0, predecessor => true | S1, successor => true | _, _ => false end.

Lemma swap_ok A s c (el : edge_list A) :
  let el' := swap_to_triangular s c el in
  el_card el' = el_card el /\
  Forall2 (fun e f => same_up_to_orientation e f /\
     if points_down s c then etgt f <= esrc f else esrc f <= etgt f) (el_view el) (el_view el').
Proof.
  intros el'. split; auto. unfold el', swap_to_triangular. rewrite set_view_view. fold (points_down s c).
  induction (el_view el) as [|e l IH]; simpl; constructor; auto.
  unfold same_up_to_orientation. destruct (points_down s c).
  - destruct (Nat.ltb_spec (esrc e) (etgt e)); auto. split; [now right|]. unfold swap_edge, esrc, etgt in *. simpl. lia.
  - destruct (Nat.ltb_spec (etgt e) (esrc e)); auto. split; [now right|]. unfold swap_edge, esrc, etgt in *. simpl. lia.
Qed.

(** Lexicographic orders on the endpoints. *)
Definition lex_le {A} (x y : edge A) : Prop := esrc x < esrc y \/ (esrc x = esrc y /\ etgt x <= etgt y).
Definition lex_lt {A} (x y : edge A) : Prop := esrc x < esrc y \/ (esrc x = esrc y /\ etgt x < etgt y).
Definition is_lex_sort {A} (srt : list (edge A) -> list (edge A)) : Prop :=
  forall l, Permutation l (srt l) /\ StronglySorted lex_le (srt l).

Lemma unique_from_in A (eqv : A -> A -> bool) x l y : In y (unique_from eqv x l) -> y = x \/ In y l.
Proof.
  revert x. induction l as [|z l IH]; intros x; simpl.
  - intros [->|[]]; auto.
  - destruct (eqv x z).
    + intros H. apply IH in H as [->|]; auto.
    + simpl. intros [->|H]; auto. apply IH in H as [->|]; auto.
Qed.

Lemma same_ends_spec A (x y : edge A) : same_ends x y = true <-> esrc x = esrc y /\ etgt x = etgt y.
Proof. unfold same_ends. rewrite andb_true_iff, !Nat.eqb_eq. tauto. Qed.

Lemma unique_from_sorted A (x : edge A) l : StronglySorted lex_le (x :: l) ->
  StronglySorted lex_lt (unique_from same_ends x l) /\
  (forall y, In y (x :: l) -> exists z, In z (unique_from same_ends x l) /\ same_ends z y = true) /\
  Forall (fun y => lex_le x y) (unique_from same_ends x l).
Proof.
  revert x. induction l as [|z l IH]; intros x S; simpl.
  - split; [repeat constructor|]. split.
    + intros y [<-|[]]. exists x. split; auto. now apply same_ends_spec.
    + constructor; auto. right; lia.
  - inversion S as [|? ? S' F]; subst. inversion F as [|? ? Fz Fl]; subst.
    destruct (same_ends x z) eqn:E.
    + apply same_ends_spec in E as [E1 E2].
      assert (SX : StronglySorted lex_le (x :: l)) by (constructor; [now inversion S'|auto]).
      destruct (IH x SX) as (I1 & I2 & I3). split; auto. split; auto.
      intros y [<-|[<-|Hy]].
      * apply I2. now left.
      * destruct (I2 x (or_introl eq_refl)) as (w & Hw & Ew). exists w. split; auto.
        apply same_ends_spec in Ew as [? ?]. apply same_ends_spec. lia.
      * apply I2. now right.
    + destruct (IH z S') as (I1 & I2 & I3).
      assert (LT : lex_lt x z).
      { destruct Fz as [|[Q1 Q2]]; [now left|]. right. split; auto.
        destruct (Nat.eq_dec (etgt x) (etgt z)); [|lia]. exfalso.
        assert (same_ends x z = true) by (now apply same_ends_spec). congruence. }
      split; [|split].
      * constructor; auto. eapply Forall_impl; [|exact I3]. intros w Hw. unfold lex_lt, lex_le in *. lia.
      * intros y [<-|Hy].
        -- exists x. split; [now left|]. now apply same_ends_spec.
        -- destruct (I2 y Hy) as (w & Hw & Ew). exists w. split; auto. now right.
      * constructor; [right; lia|]. eapply Forall_impl; [|exact I3]. intros w Hw. unfold lex_lt, lex_le in *. lia.
Qed.

(** uniq after a lexical sort *)
Lemma uniq_ok A srt (el : edge_list A) : is_lex_sort srt ->
  let el' := uniq (el_sort srt el) in
  el_card el' = el_card el /\
  StronglySorted lex_lt (el_view el') /\
  (forall e, In e (el_view el') -> In e (el_view el)) /\
  (forall e, In e (el_view el) -> exists f, In f (el_view el') /\ esrc f = esrc e /\ etgt f = etgt e).
Proof.
  intros Hs el'. split; auto. unfold el', uniq, el_sort. rewrite !set_view_view.
  destruct (Hs (el_view el)) as [P S]. remember (srt (el_view el)) as l eqn:El. clear El.
  destruct l as [|x l]; simpl.
  - apply Permutation_sym, Permutation_nil in P. rewrite P. repeat split; auto. constructor. intros e [].
  - destruct (unique_from_sorted S) as (I1 & I2 & I3). split; auto. split.
    + intros e He. apply Permutation_in with (l := x :: l); [now apply Permutation_sym|].
      apply unique_from_in in He as [->|]; [now left|now right].
    + intros e He. apply (Permutation_in _ P) in He. destruct (I2 e He) as (f & Hf & Ef).
      exists f. apply same_ends_spec in Ef. tauto.
Qed.

Lemma loops_ok A (el : edge_list A) :
  let el' := remove_self_loops el in
  el_card el' = el_card el /\
  (forall e, In e (el_view el') <-> In e (el_view el) /\ esrc e <> etgt e) /\
  (forall R, StronglySorted R (el_view el) -> StronglySorted R (el_view el')) /\
  length (el_view el') + length (filter (fun e => esrc e =? etgt e) (el_view el)) = length (el_view el).
Proof.
  intros el'. split; auto. unfold el', remove_self_loops. rewrite set_view_view. split; [|split].
  - intros e. rewrite filter_In, negb_true_iff, Nat.eqb_neq. tauto.
  - intros R S. induction S as [|x l S IH F]; simpl; [constructor|].
    destruct (negb _); auto. constructor; auto.
    rewrite Forall_forall in *. intros y Hy. apply filter_In in Hy as [Hy _]. auto.
  - induction (el_view el) as [|e l IH]; simpl; auto. destruct (esrc e =? etgt e); simpl; lia.
Qed.

(** The whole pipeline. *)
Definition joins {A} (e : edge A) (u v : nat) : Prop :=
  (esrc e = u /\ etgt e = v) \/ (esrc e = v /\ etgt e = u).

Lemma Forall2_in_r A B (P : A -> B -> Prop) l l' y : Forall2 P l l' -> In y l' -> exists x, In x l /\ P x y.
Proof. intros F. induction F; simpl; [tauto|]. intros [<-|HI]; [eauto|]. destruct (IHF HI) as (x' & ? & ?). eauto. Qed.
Lemma Forall2_in_l A B (P : A -> B -> Prop) l l' x : Forall2 P l l' -> In x l -> exists y, In y l' /\ P x y.
Proof. intros F. induction F; simpl; [tauto|]. intros [<-|HI]; [eauto|]. destruct (IHF HI) as (x' & ? & ?). eauto. Qed.

Lemma clean_ok A srt s c (el : edge_list A) : is_lex_sort srt ->
  let el' := remove_self_loops (uniq (el_sort srt (swap_to_triangular s c el))) in
  el_card el' = el_card el /\
  StronglySorted lex_lt (el_view el') /\
  (forall f, In f (el_view el') -> (if points_down s c then etgt f < esrc f else esrc f < etgt f) /\
     exists e, In e (el_view el) /\ joins e (esrc f) (etgt f) /\ eatt e = eatt f) /\
  (forall e, In e (el_view el) -> esrc e <> etgt e -> exists f, In f (el_view el') /\ joins f (esrc e) (etgt e)).
Proof.
  intros Hs el'. split; auto. unfold el'.
  destruct (swap_ok s c el) as (_ & F). set (el1 := swap_to_triangular s c el) in *.
  destruct (uniq_ok el1 Hs) as (_ & U1 & U2 & U3). set (el2 := uniq (el_sort srt el1)) in *.
  destruct (loops_ok el2) as (_ & R1 & R2 & _).
  split; [now apply R2|]. split.
  - intros f Hf. apply R1 in Hf as [Hf Hne]. apply U2 in Hf.
    destruct (Forall2_in_r _ F Hf) as (e & He & (O & D)). split.
    + destruct (points_down s c); lia.
    + exists e. split; auto. unfold joins. destruct O as [->| ->]; [auto|]. unfold esrc, etgt, eatt. simpl. auto.
  - intros e He Hne. destruct (Forall2_in_l _ F He) as (f & Hf & (O & D)).
    destruct (U3 f Hf) as (h & Hh & Eh1 & Eh2). exists h.
    assert (J : joins f (esrc e) (etgt e)) by (unfold joins; destruct O as [->| ->]; [auto|unfold esrc, etgt; simpl; auto]).
    split.
    + apply R1. split; auto. unfold joins in J. lia.
    + unfold joins in *. lia.
Qed.
