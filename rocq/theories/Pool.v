(** Interleaving semantics for the parallel loops: a pool of tasks over a shared state, one atomic action per step,
    the task that moves chosen by an arbitrary schedule. Any real execution of a TBB/std::execution loop, whatever
    the number of worker threads and whichever iterations share a worker, is one of these interleavings at the
    granularity of single atomic accesses (sequential consistency is assumed). *)
From Coq Require Import List Arith Lia.
From Verif Require Import Base.
Import ListNotations.
Set Implicit Arguments.

Section Pool.
Variables (T S : Type).
(** One action of a task: what is left of the task (None when it has ended) and the new shared state. *)
Variable step : T -> S -> res (option T * S).

Definition opt_list (o : option T) : list T := match o with Some t => [t] | None => [] end.

(** [sched t] names the task moved at time t (modulo the number of live tasks). The loop ends when no task is left;
    [fuel] bounds the number of steps. *)
Fixpoint run (fuel : nat) (sched : nat -> nat) (now : nat) (ts : list T) (s : S) : res S :=
  match ts with
  | [] => Ok s
  | _ =>
      match fuel with
      | 0 => OutOfFuel
      | Datatypes.S f =>
          let i := sched now mod length ts in
          do t <- vget ts i ;
          do r <- step t s ;
          run f sched (Datatypes.S now) (firstn i ts ++ opt_list (fst r) ++ skipn (Datatypes.S i) ts) (snd r)
      end
  end.

(** Rule: an invariant preserved by the action of any task, with a decreasing task measure. *)
Lemma run_inv (size : T -> nat) (I : list T -> S -> Prop) :
  (forall l1 t l2 s, I (l1 ++ t :: l2) s ->
     exists o s', step t s = Ok (o, s') /\ I (l1 ++ opt_list o ++ l2) s' /\ match o with Some t' => size t' < size t | None => True end) ->
  forall fuel sched now ts s, I ts s -> sum (map size ts) + length ts <= fuel ->
  exists s', run fuel sched now ts s = Ok s' /\ I [] s'.
Proof.
  intros ST. induction fuel; intros sched now ts s H HF.
  - destruct ts; simpl in HF; [|lia]. exists s. auto.
  - destruct ts as [|t0 ts0]; [exists s; auto|]. remember (t0 :: ts0) as ts. cbn [run].
    assert (NE : length ts <> 0) by (subst; discriminate). destruct ts as [|t1 ts1]; [discriminate|]. rewrite Heqts in *. clear Heqts t1 ts1.
    remember (t0 :: ts0) as ts. set (i := sched now mod length ts). assert (Hi : i < length ts) by (apply Nat.mod_upper_bound; auto).
    destruct (nth_error ts i) as [t|] eqn:E; [|apply nth_error_None in E; lia]. rewrite (proj2 (vget_Ok ts i t) E). cbn [bind].
    destruct (nth_error_split _ _ E) as (l1 & l2 & SP & LL).
    replace (firstn i ts) with l1 by (rewrite SP, <- LL, firstn_app, firstn_all, Nat.sub_diag; simpl; now rewrite app_nil_r).
    replace (skipn (Datatypes.S i) ts) with l2 by (rewrite SP, <- LL, skipn_app, skipn_all2 by lia; now replace (Datatypes.S (length l1) - length l1) with 1 by lia).
    rewrite SP in H. destruct (ST _ _ _ _ H) as (o & s' & E' & H' & M). rewrite E'. cbn [bind fst snd].
    apply IHfuel; auto. rewrite SP in HF. rewrite !map_app, !sum_app, !app_length in *. cbn [map length sum] in HF.
    destruct o as [t'|]; cbn [opt_list map length sum app]; lia.
Qed.
End Pool.
