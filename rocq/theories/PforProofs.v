(** Lemmas for PforModel. *)
From Coq Require Import List Arith Lia Bool Permutation.
From Verif Require Import Base Pool RangeModel RangeProofs PforModel.
Import ListNotations.
Set Implicit Arguments.

(** The number of bodies split off. *)
Fixpoint joins (t : rtree) : nat :=
  match t with RLeaf => 0 | RSeq a b => joins a + joins b | RJoin a b => S (joins a + joins b) end.

Section Pfor.
Variables R X : Type.
Variable split : R -> R * R.
Variable divisible : R -> bool.
Variable visit : R -> res (list X).
(** The elements of a range, and the ranges met by splitting. *)
Variable wf : R -> Prop.
Variable els : R -> list X.
Hypothesis W2 : forall r, wf r -> wf (fst (split r)) /\ wf (snd (split r)).
Hypothesis WV : forall r, wf r -> visit r = Ok (els r).

Section Reduce.
Variables V D : Type.
Variable op : X -> res V.
Variable F : X -> V.
Variable radd : D -> V -> D.
Variable rjoin : D -> D -> D.
Hypothesis OP : forall r x, wf r -> In x (els r) -> op x = Ok (F x).

Lemma rfold_pure (l : list X) : (forall x, In x l -> op x = Ok (F x)) -> forall acc,
  rfold (fun a x => do v <- op x ; Ok (radd a v)) l acc = Ok (fold_left (fun a x => radd a (F x)) l acc).
Proof.
  induction l as [|x l IH]; intros H acc; cbn [rfold fold_left]; auto. rewrite (H x) by now left. cbn [bind]. apply IH. intros; apply H; now right.
Qed.
Lemma seq_ok r acc : wf r -> reduce_sequential visit op radd r acc = Ok (fold_left (fun a x => radd a (F x)) (els r) acc).
Proof. intros H. unfold reduce_sequential. rewrite WV by auto. cbn [bind]. apply rfold_pure. intros; eapply OP; eauto. Qed.

(** A relation between a range, an accumulator and a result that follows the tree holds of the reduction. *)
Lemma tbb_rel (P : R -> D -> nat -> D -> Prop) init :
  (forall r acc, wf r -> P r acc 0 (fold_left (fun a x => radd a (F x)) (els r) acc)) ->
  (forall r acc x y j k, wf r -> P (fst (split r)) acc j x -> P (snd (split r)) x k y -> P r acc (j + k) y) ->
  (forall r acc x y j k, wf r -> P (fst (split r)) acc j x -> P (snd (split r)) init k y -> P r acc (S (j + k)) (rjoin x y)) ->
  forall t r acc, wf r -> exists d, reduce_tbb split visit op radd rjoin init t r acc = Ok d /\ P r acc (joins t) d.
Proof.
  intros P0 P1 P2. induction t as [|a IHa b IHb|a IHa b IHb]; intros r acc H; cbn [reduce_tbb joins].
  - rewrite seq_ok by auto. eauto.
  - destruct (W2 H) as (Wa & Wb). destruct (split r) as (ra, rb) eqn:E. cbn [fst snd] in *.
    destruct (IHa ra acc Wa) as (x & Ex & Px). rewrite Ex. cbn [bind]. destruct (IHb rb x Wb) as (y & Ey & Py). rewrite Ey. exists y. split; auto.
    eapply P1; rewrite ?E; eauto.
  - destruct (W2 H) as (Wa & Wb). destruct (split r) as (ra, rb) eqn:E. cbn [fst snd] in *.
    destruct (IHa ra acc Wa) as (x & Ex & Px). rewrite Ex. cbn [bind]. destruct (IHb rb init Wb) as (y & Ey & Py). rewrite Ey. cbn [bind]. exists (rjoin x y). split; auto.
    eapply P2; rewrite ?E; eauto.
Qed.
End Reduce.

(** A monoid and a range whose halves concatenate. *)
Section Monoid.
Variable D : Type.
Variable op : X -> res D.
Variable F : X -> D.
Variable red : D -> D -> D.
Variable init : D.
Hypothesis OP : forall r x, wf r -> In x (els r) -> op x = Ok (F x).
Hypothesis ASSOC : forall a b c, red a (red b c) = red (red a b) c.
Hypothesis IDL : forall a, red init a = a.
Hypothesis IDR : forall a, red a init = a.
Hypothesis CAT : forall r, wf r -> els r = els (fst (split r)) ++ els (snd (split r)).

Lemma fold_acc l : forall a b, fold_left (fun a x => red a (F x)) l (red a b) = red a (fold_left (fun a x => red a (F x)) l b).
Proof. induction l as [|x l IH]; intros a b; cbn [fold_left]; auto. now rewrite <- ASSOC, IH. Qed.
Lemma monoid_ok t r : wf r -> parallel_reduce split divisible visit op red red t r init = Ok (fold_right red init (map F (els r))).
Proof.
  intros H. unfold parallel_reduce.
  assert (FR : forall l a, fold_left (fun a x => red a (F x)) l a = red a (fold_right red init (map F l))).
  { induction l as [|x l IH]; intros a; cbn [fold_left map fold_right]; auto. now rewrite IH, ASSOC. }
  assert (FA : forall l m, fold_right red init (l ++ m) = red (fold_right red init l) (fold_right red init m)).
  { induction l as [|x l IH]; intros m; cbn [app fold_right]; auto. now rewrite IH, ASSOC. }
  destruct (divisible r).
  - destruct (@tbb_rel _ _ op F red red OP (fun r acc _ d => d = red acc (fold_right red init (map F (els r)))) init) with (t := t) (r := r) (acc := init) as (d & E & Pd); auto.
    + intros r0 acc x y _ _ Hr -> ->. rewrite (CAT Hr), map_app, FA, ASSOC. auto.
    + intros r0 acc x y _ _ Hr -> ->. rewrite (CAT Hr), map_app, FA, IDL, ASSOC. auto.
    + rewrite E, Pd, IDL. auto.
  - rewrite (@seq_ok _ _ op F red OP) by auto. now rewrite FR, IDL.
Qed.
End Monoid.

(** Sums: every body split off adds [init] again. *)
Section Sum.
Variable op : X -> res nat.
Variable F : X -> nat.
Hypothesis OP : forall r x, wf r -> In x (els r) -> op x = Ok (F x).
Hypothesis PERM : forall r, wf r -> Permutation (els r) (els (fst (split r)) ++ els (snd (split r))).
Definition total (r : R) : nat := sum (map F (els r)).
Lemma total_split r : wf r -> total r = total (fst (split r)) + total (snd (split r)).
Proof.
  intros H. unfold total. rewrite <- sum_app, <- map_app. apply PERM in H. revert H. generalize (els (fst (split r)) ++ els (snd (split r))). intros l P.
  induction P; cbn [map sum]; lia.
Qed.
Lemma fold_sum l : forall a, fold_left (fun a x => a + F x) l a = a + sum (map F l).
Proof. induction l as [|x l IH]; intros a; cbn [fold_left map sum]; [lia|]. rewrite IH. lia. Qed.
Lemma sum_ok t r init : wf r -> parallel_reduce split divisible visit op Nat.add Nat.add t r init =
  Ok (total r + init * S (if divisible r then joins t else 0)).
Proof.
  intros H. unfold parallel_reduce. destruct (divisible r).
  - destruct (@tbb_rel _ _ op F Nat.add Nat.add OP (fun r acc j d => d = acc + total r + init * j) init) with (t := t) (r := r) (acc := init) as (d & E & Pd); auto.
    + intros r0 acc Hr. rewrite fold_sum. unfold total. lia.
    + intros r0 acc x y j k Hr -> ->. rewrite (total_split Hr). lia.
    + intros r0 acc x y j k Hr -> ->. rewrite (total_split Hr). lia.
    + rewrite E, Pd. f_equal. lia.
  - rewrite (@seq_ok _ _ op F Nat.add OP) by auto. rewrite fold_sum. unfold total. f_equal. lia.
Qed.
End Sum.

(** parallel_for: the trace of the elements handed to the operator. *)
Section For.
Hypothesis PERM : forall r, wf r -> Permutation (els r) (els (fst (split r)) ++ els (snd (split r))).
Lemma pieces_ok t : forall r, wf r -> exists parts, rmap visit (spieces split t r) = Ok parts /\ Permutation (concat parts) (els r).
Proof.
  induction t as [|a IHa b IHb]; intros r H; cbn [spieces].
  - exists [els r]. cbn [rmap concat]. rewrite WV by auto. cbn [bind]. rewrite app_nil_r. auto.
  - destruct (W2 H) as (Wa & Wb). assert (P := PERM H). destruct (split r) as (ra, rb). cbn [fst snd] in *.
    destruct (IHa ra Wa) as (pa & Ea & Pa). destruct (IHb rb Wb) as (pb & Eb & Pb). exists (pa ++ pb). split.
    + assert (AP : forall l1 l2, rmap visit (l1 ++ l2) = do a <- rmap visit l1; do b <- rmap visit l2; Ok (a ++ b)).
      { induction l1 as [|x l1 IH]; intros l2; cbn [app rmap]; [cbn [bind]; destruct (rmap visit l2); auto|]. destruct (visit x); cbn [bind]; auto.
        rewrite IH. destruct (rmap visit l1); cbn [bind]; auto. destruct (rmap visit l2); cbn [bind]; auto. }
      rewrite AP, Ea. cbn [bind]. rewrite Eb. reflexivity.
    + rewrite concat_app, Pa, Pb. now symmetry.
Qed.
Definition trace_op (x : X) (s : list X) : res (list X) := Ok (s ++ [x]).
Lemma trace_ok sched t r : wf r -> exists tr, parallel_for split divisible visit trace_op sched t r [] = Ok tr /\
  Permutation tr (els r) /\ (divisible r = false -> tr = els r).
Proof.
  intros H. unfold parallel_for. destruct (divisible r).
  - destruct (pieces_ok t H) as (parts & E & P). rewrite E. cbn [bind].
    destruct (@run_inv _ _ (for_step trace_op) (@length X) (fun ts s => Permutation (s ++ concat ts) (els r))) with
      (fuel := sum (map (@length X) parts) + length parts) (sched := sched) (now := 0) (ts := parts) (s := @nil X) as (s' & E' & P'); auto.
    + intros l1 xs l2 s I. destruct xs as [|x xs]; cbn [for_step].
      * exists None, s. split; auto. split; [|exact Logic.I]. cbn [opt_list app]. rewrite concat_app in *. cbn [concat app] in I. auto.
      * unfold trace_op. cbn [bind]. exists (Some xs), (s ++ [x]). split; auto. split; [|cbn [length]; lia].
        cbn [opt_list app]. rewrite concat_app in *. cbn [concat app] in *. rewrite <- I. rewrite <- app_assoc. apply Permutation_app_head. cbn [app].
        rewrite <- !Permutation_middle. auto.
    + exists s'. split; auto. rewrite app_nil_r in P'. split; auto. discriminate.
  - rewrite WV by auto. cbn [bind]. exists (els r). split; [|split; auto].
    assert (G : forall l s, rfold (fun s x => trace_op x s) l s = Ok (s ++ l)).
    { induction l as [|x l IH]; intros s; cbn [rfold]; [now rewrite app_nil_r|]. unfold trace_op at 1. cbn [bind]. rewrite IH, <- app_assoc. auto. }
    apply G.
Qed.
End For.
End Pfor.
