(** C42: sparse matrix products. *)
From Coq Require Import List Arith Lia Bool Sorting.Sorted ZArith.
From Verif Require Import Base SpModel SpProofs.
Import ListNotations.
Set Implicit Arguments.

(** ** Specification *)
(** The partial products of cell (i,j), by position in A's row and then in B's row. *)
Definition cell_products (S : Type) (mapop : S -> S -> S) (A B : list (srow S)) (i j : nat) : list S :=
  flat_map (fun e => map (fun f => mapop (snd e) (snd f)) (filter (fun f => fst f =? j) (nth (fst e) B []))) (nth i A []).
(** Row-major order of coordinates; strict, so a list sorted by it has no coordinate twice. *)
Definition row_major (S : Type) (e f : nat * nat * S) : Prop :=
  fst (fst e) < fst (fst f) \/ (fst (fst e) = fst (fst f) /\ snd (fst e) < snd (fst f)).
Definition columns_in_range (S : Type) (A B : list (srow S)) : Prop := forall i k x, In (k, x) (nth i A []) -> k < length B.

(** For any element type and operations: one entry per structurally non-zero cell, the products reduced left to right. *)
Theorem C42_product S (mapop redop : S -> S -> S) A B : columns_in_range A B ->
  exists es, spMatspMat mapop redop A B = Ok es /\ StronglySorted (@row_major S) es /\
    forall i j x, In (i, j, x) es <->
      i < length A /\ exists p ps, cell_products mapop A B i j = p :: ps /\ x = fold_left redop ps p.
Proof.
  intros H. destruct (@sp_ok S mapop redop A B) as (es & E & SS & C); [intros i (k, x) I; eapply H; eauto|].
  exists es. split; auto. split; [exact SS|]. intros i j x. rewrite C. unfold cell_products. fold (@row_prods S mapop B (nth i A []) j).
  now rewrite reduce1_iff.
Qed.
Lemma nonempty_in X (l : list X) : l <> [] -> exists p, In p l.
Proof. destruct l as [|p l]; [congruence|]. intros _. exists p. simpl; auto. Qed.
(** Over the integers the values are the entries of the matrix product ([entry]: sum of the stored values of a cell). *)
Theorem C42_product_integers A B : columns_in_range A B ->
  exists es, spMatspMat Z.mul Z.add A B = Ok es /\ StronglySorted (@row_major Z) es /\
    (forall i j, (exists x, In (i, j, x) es) <-> i < length A /\ exists k a b, In (k, a) (nth i A []) /\ In (j, b) (nth k B [])) /\
    forall i j x, In (i, j, x) es -> x = zsum (map (fun k => entry A i k * entry B k j)%Z (seq 0 (length B))).
Proof.
  intros H. destruct (@sp_ok Z Z.mul Z.add A B) as (es & E & SS & C); [intros i (k, x) I; eapply H; eauto|].
  exists es. split; auto. split; [exact SS|]. split.
  - intros i j. split.
    + intros (x & I). apply C in I. destruct I as (Hi & X). split; auto. apply reduce1_zsum in X. destruct X as (X & _).
      destruct (nonempty_in X) as (p & I). apply in_flat_map in I. destruct I as ((k, a) & I1 & I2).
      apply in_map_iff in I2. destruct I2 as ((j', b) & _ & I2). apply filter_In in I2. destruct I2 as (I2 & Ej). apply Nat.eqb_eq in Ej. simpl in Ej. subst j'. eauto.
    + intros (Hi & k & a & b & I1 & I2). exists (zsum (row_prods Z.mul B (nth i A []) j)). apply C. split; auto. apply reduce1_zsum. split; auto.
      intros Z. assert (I : In (a * b)%Z (row_prods Z.mul B (nth i A []) j)); [|rewrite Z in I; destruct I].
      apply in_flat_map. exists (k, a). split; auto. apply in_map_iff. exists (j, b). split; auto. apply filter_In. split; auto. apply Nat.eqb_refl.
  - intros i j x I. apply C in I. destruct I as (Hi & X). apply reduce1_zsum in X. destruct X as (_ & ->). apply prods_dense. intros (k, a) I. eapply H; eauto.
Qed.
(** A column of A outside B's rows is read out of bounds. *)
Theorem C42_product_out_of_range S (mapop redop : S -> S -> S) A B i k x : In (k, x) (nth i A []) -> length B <= k ->
  spMatspMat mapop redop A B = Ub.
Proof.
  intros I Hk. unfold spMatspMat.
  assert (NF : forall (X Y : Type) (f : X -> Y -> res X) l a, (forall a y, f a y <> OutOfFuel) -> rfold f l a <> OutOfFuel).
  { intros X Y f l. induction l as [|y l IH]; intros a H; cbn [rfold]; [discriminate|]. destruct (f a y) eqn:E; cbn [bind]; [now apply IH|discriminate|]. now apply H in E. }
  assert (UB : forall (X Y : Type) (f : X -> Y -> res X) l a y, (forall a y, f a y <> OutOfFuel) -> In y l -> (forall a, f a y = Ub) -> rfold f l a = Ub).
  { intros X Y f l. induction l as [|z l IH]; intros a y H J U; [destruct J|]. cbn [rfold]. destruct (f a z) eqn:E; cbn [bind]; [|auto|now apply H in E].
    destruct J as [->|J]; [rewrite U in E; discriminate|eapply IH; eauto]. }
  assert (VF : forall (X : Type) (l : list X) n, vget l n <> OutOfFuel).
  { intros X l n. destruct (Nat.lt_ge_cases n (length l)) as [L|L]; [destruct (vget_lt l L) as (y & ->)|rewrite vget_ge by auto]; discriminate. }
  assert (RF : forall row, sp_row mapop redop B row <> OutOfFuel).
  { intros row. apply NF. intros m e. destruct (vget B (fst e)) eqn:E; cbn [bind]; try discriminate. now apply VF in E. }
  assert (Hi : i < length A) by (destruct (Nat.lt_ge_cases i (length A)); auto; rewrite nth_overflow in I by auto; destruct I).
  apply (UB _ _ _ _ _ i).
  - intros es z. destruct (vget A z) as [r| |] eqn:E; cbn [bind]; try discriminate; [|now apply VF in E]. destruct (sp_row mapop redop B r) eqn:E2; cbn [bind]; try discriminate. now apply RF in E2.
  - apply in_seq. lia.
  - intros es. rewrite (@vget_nth _ A i []) by auto. cbn [bind]. assert (X : sp_row mapop redop B (nth i A []) = Ub); [|now rewrite X].
    apply (UB _ _ _ _ _ (k, x)); auto.
    + intros m e. destruct (vget B (fst e)) eqn:E; cbn [bind]; try discriminate. now apply VF in E.
    + intros m. cbn [fst]. rewrite vget_ge by auto. reflexivity.
Qed.

(** A * B^T from dot products of sorted duplicate-free rows; the reduction starts from [zero]. *)
Definition rows_strictly_sorted (S : Type) (A : list (srow S)) : Prop := forall i, StronglySorted lt (map fst (nth i A [])).
Definition dot_products (S : Type) (mapop : S -> S -> S) (A BT : list (srow S)) (i j : nat) : list S :=
  flat_map (fun e => map (fun f => mapop (snd e) (snd f)) (filter (fun f => fst f =? fst e) (nth j BT []))) (nth i A []).
Theorem C42_transposed S (zero : S) (mapop redop : S -> S -> S) A BT : rows_strictly_sorted A -> rows_strictly_sorted BT ->
  exists es, spMatspMatT zero mapop redop A BT = Ok es /\ StronglySorted (@row_major S) es /\
    forall i j x, In (i, j, x) es <->
      i < length A /\ j < length BT /\ dot_products mapop A BT i j <> [] /\ x = fold_left redop (dot_products mapop A BT i j) zero.
Proof. intros HA HB. exact (@spt_ok S mapop redop zero A BT HA HB). Qed.
Theorem C42_transposed_integers A BT K : rows_strictly_sorted A -> rows_strictly_sorted BT -> (forall i k x, In (k, x) (nth i A []) -> k < K) ->
  exists es, spMatspMatT 0%Z Z.mul Z.add A BT = Ok es /\ StronglySorted (@row_major Z) es /\
    (forall i j, (exists x, In (i, j, x) es) <-> exists k a b, In (k, a) (nth i A []) /\ In (k, b) (nth j BT [])) /\
    forall i j x, In (i, j, x) es -> x = zsum (map (fun k => entry A i k * entry BT j k)%Z (seq 0 K)).
Proof.
  intros HA HB HK. destruct (@spt_ok Z Z.mul Z.add 0%Z A BT HA HB) as (es & E & SS & C). exists es. split; auto. split; [exact SS|]. split.
  - intros i j. split.
    + intros (x & I). apply C in I. destruct I as (_ & _ & X & _).
      destruct (nonempty_in X) as (p & I). apply in_flat_map in I. destruct I as ((k, a) & I1 & I2).
      apply in_map_iff in I2. destruct I2 as ((k', b) & _ & I2). apply filter_In in I2. destruct I2 as (I2 & Ej). apply Nat.eqb_eq in Ej. simpl in Ej. subst k'. eauto.
    + intros (k & a & b & I1 & I2). eexists. apply C.
      split; [destruct (Nat.lt_ge_cases i (length A)); auto; rewrite nth_overflow in I1 by auto; destruct I1|].
      split; [destruct (Nat.lt_ge_cases j (length BT)); auto; rewrite nth_overflow in I2 by auto; destruct I2|]. split; [|reflexivity].
      intros Z. assert (I : In (a * b)%Z (dot_prods Z.mul (nth i A []) (nth j BT []))); [|rewrite Z in I; destruct I].
      apply in_flat_map. exists (k, a). split; auto. apply in_map_iff. exists (k, b). split; auto. apply filter_In. split; auto. apply Nat.eqb_refl.
  - intros i j x I. apply C in I. destruct I as (_ & _ & _ & ->). rewrite fold_left_zsum. rewrite Z.add_0_l. apply dot_dense. intros (k, a) I. eapply HK; eauto.
Qed.

(** The two products agree when [zero] is a left unit of the reduction. *)
Lemma filter_look S (m : list (nat * S)) j : StronglySorted lt (map fst m) ->
  filter (fun f => fst f =? j) m = match look m j with Some b => [(j, b)] | None => [] end.
Proof.
  induction m as [|(k, y) m IH]; intros SS; auto. inversion SS; subst. cbn [filter look fst]. rewrite IH by auto. rewrite Nat.eqb_sym.
  destruct (Nat.eqb_spec j k) as [->|N]; auto. rewrite look_none; auto. intros x I. rewrite Forall_forall in H2. specialize (H2 _ I). lia.
Qed.
Theorem C42_products_agree S (zero : S) (mapop redop : S -> S -> S) A B BT : (forall x, redop zero x = x) ->
  rows_strictly_sorted A -> rows_strictly_sorted B -> rows_strictly_sorted BT -> columns_in_range A B ->
  (forall j k b, In (k, b) (nth j BT []) <-> In (j, b) (nth k B [])) ->
  spMatspMatT zero mapop redop A BT = spMatspMat mapop redop A B.
Proof.
  intros U HA HB HBT HC T. destruct (C42_product mapop redop HC) as (es & E & SS & C).
  destruct (C42_transposed zero mapop redop HA HBT) as (es' & E' & SS' & C'). rewrite E, E'. f_equal. apply (@lex_ext S); auto.
  assert (EQ : forall i j, dot_products mapop A BT i j = cell_products mapop A B i j).
  { intros i j. unfold dot_products, cell_products. induction (nth i A []) as [|(k, a) r IH]; auto. cbn [flat_map fst snd]. f_equal; auto.
    rewrite !filter_look by auto. assert (L : look (nth j BT []) k = look (nth k B []) j); [|rewrite L; destruct (look (nth k B []) j); reflexivity].
    destruct (look (nth k B []) j) as [b|] eqn:Eb.
    - apply look_in; auto. apply T. apply look_in; auto.
    - destruct (look (nth j BT []) k) as [b|] eqn:Eb'; auto. apply look_in in Eb'; auto. apply T in Eb'. apply look_in in Eb'; auto. congruence. }
  intros ((i, j), x). rewrite C, C', EQ. split.
  - intros (Hi & Hj & X & ->). split; auto. destruct (cell_products mapop A B i j) as [|p ps]; [congruence|]. exists p, ps. split; auto. simpl. now rewrite U.
  - intros (Hi & p & ps & Ep & ->). rewrite Ep. split; auto. split; [|split; [discriminate|simpl; now rewrite U]].
    destruct (Nat.lt_ge_cases j (length BT)) as [|L]; auto. exfalso. rewrite <- EQ in Ep. unfold dot_products in Ep.
    rewrite nth_overflow with (l := BT) in Ep by auto. clear - Ep. revert Ep. induction (nth i A []) as [|e r IH]; [discriminate|exact IH].
Qed.
(** Otherwise they need not: with (min, +) over the non-negative integers every entry of the transposed product is 0. *)
Theorem C42_transposed_min_plus_zero A BT : rows_strictly_sorted A -> rows_strictly_sorted BT ->
  (forall i k x, In (k, x) (nth i A []) -> (0 <= x)%Z) -> (forall i k x, In (k, x) (nth i BT []) -> (0 <= x)%Z) ->
  exists es, spMatspMatT 0%Z Z.add Z.min A BT = Ok es /\ forall i j x, In (i, j, x) es -> x = 0%Z.
Proof.
  intros HA HB PA PB. destruct (C42_transposed 0%Z Z.add Z.min HA HB) as (es & E & _ & C). exists es. split; auto.
  intros i j x I. apply C in I. destruct I as (_ & _ & _ & ->).
  assert (P : forall p, In p (dot_products Z.add A BT i j) -> (0 <= p)%Z).
  { intros p I. apply in_flat_map in I. destruct I as ((k, a) & I1 & I2). apply in_map_iff in I2. destruct I2 as ((k', b) & <- & I2). apply filter_In in I2. destruct I2 as (I2 & _).
    apply PA in I1. apply PB in I2. simpl. lia. }
  revert P. induction (dot_products Z.add A BT i j) as [|p l IH]; intros P; auto. cbn [fold_left]. rewrite Z.min_l by (apply P; simpl; auto). apply IH. intros; apply P; simpl; auto.
Qed.

(** ** Non-vacuity *)
(** A = [[1 0 2]; [0 0 0]; [0 3 0]], B = [[0 5]; [7 0]; [1 -5]] with explicit cancellation stored. *)
Definition exA : list (srow Z) := [[(0, 1%Z); (2, 2%Z)]; []; [(1, 3%Z)]].
Definition exB : list (srow Z) := [[(1, 10%Z)]; [(0, 7%Z)]; [(0, 1%Z); (1, (-5)%Z)]].
Definition exBT : list (srow Z) := [[(1, 7%Z); (2, 1%Z)]; [(0, 10%Z); (2, (-5)%Z)]].
Example ex_hyps : columns_in_range exA exB /\ rows_strictly_sorted exA /\ rows_strictly_sorted exB /\ rows_strictly_sorted exBT.
Proof.
  assert (R : forall M : list (srow Z), Forall (fun r => StronglySorted lt (map fst r)) M -> rows_strictly_sorted M).
  { intros M F i. destruct (Nat.lt_ge_cases i (length M)) as [L|L]; [rewrite Forall_forall in F; apply F; now apply nth_In|]. rewrite nth_overflow by auto. constructor. }
  split; [|split; [|split]]; [|apply R; repeat constructor..].
  intros i k x I. do 3 (destruct i as [|i]; [simpl in I; repeat (destruct I as [I|I]; [injection I as <- <-; simpl; lia|]); destruct I|]). destruct i; destruct I.
Qed.
Example ex_transpose : forall j k b, In (k, b) (nth j exBT []) <-> In (j, b) (nth k exB []).
Proof.
  intros j k b. destruct j as [|[|j]], k as [|[|[|k]]]; simpl; try (destruct k); try (destruct j); simpl; intuition congruence.
Qed.
Example ex_prod : spMatspMat Z.mul Z.add exA exB = Ok [(0, 0, 2%Z); (0, 1, 0%Z); (2, 0, 21%Z)] /\
  spMatspMatT 0%Z Z.mul Z.add exA exBT = Ok [(0, 0, 2%Z); (0, 1, 0%Z); (2, 0, 21%Z)] /\
  spMatspMat Z.add Z.min exA exB = Ok [(0, 0, 3%Z); (0, 1, (-3)%Z); (2, 0, 10%Z)].
Proof. repeat split; reflexivity. Qed.
Print Assumptions C42_product.
Print Assumptions C42_product_integers.
Print Assumptions C42_product_out_of_range.
Print Assumptions C42_transposed.
Print Assumptions C42_transposed_integers.
Print Assumptions C42_products_agree.
Print Assumptions C42_transposed_min_plus_zero.
