(** Model of algorithms/delta_stepping.hpp:172-224, the parallel delta_stepping.  Graphs, weights, distances and the
    width [D] are as in SsspModel.v.  The two nested parallel loops (213-217) form one pool of tasks: a task per frontier
    vertex, which turns into a task per arc; every atomic access is one step and an arbitrary schedule chooses the task
    that moves (sequential consistency is assumed, as in Pool.v). *)
From Coq Require Import List Arith Bool.
From Verif Require Import Base SsspModel.
Import ListNotations.
Set Implicit Arguments.

(** * Pools whose tasks may fork (tbb::parallel_for_each with an inner parallel_for, 213-217) *)
Section Fork.
Variables (T S : Type).
(** One action of a task: the tasks it leaves and the new shared state. *)
Variable step : T -> S -> res (list T * S).
Fixpoint frun (fuel : nat) (sched : nat -> nat) (now : nat) (ts : list T) (s : S) : res S :=
  match ts with
  | [] => Ok s
  | _ =>
      match fuel with
      | 0 => OutOfFuel
      | Datatypes.S f =>
          let i := sched now mod length ts in
          do t <- vget ts i ;
          do r <- step t s ;
          frun f sched (Datatypes.S now) (firstn i ts ++ fst r ++ skipn (Datatypes.S i) ts) (snd r)
      end
  end.
End Fork.

(** * The shared state: tdist (180), bins (177), and the number of reads so far of an unset `success` (189) *)
Record pstate := mkP { pd : list nat; pb : list (list nat); pr : nat }.

(** * Tasks, by what they do next.  relax(u, v, w) is 186-206. *)
Inductive ptask :=
| PV (u : nat)                          (* 214: test tdist[u] *)
| PS (u v w : nat)                      (* 187: load tdist[u] *)
| PT (u v w next : nat)                 (* 188: load tdist[v]; first test of 190 *)
| PC (u v w next prev : nat)            (* 190: the compare-and-swap *)
| PG (v next : nat)                     (* 197-204: grow the bins *)
| PP (v bin : nat).                     (* 205: push *)

(** What line 192 sees when the loop condition failed at once and `success` was never assigned: at its k-th such read
    [ind k] is None for undefined behaviour (what the standard says), Some b for the value b. *)
Section Pds.
Variables (D delta : nat) (g : wgraph) (ind : nat -> option bool) (top : nat).

(** Lines 198-204; `size` always equals bins.size() outside the lock, so the double-checked growth is one step. *)
Definition grow (bins : list (list nat)) (bin : nat) : list (list nat) :=
  if length bins <? bin + 1 then bins ++ repeat [] (bin + 1 - length bins) else bins.

Definition pstep (t : ptask) (st : pstate) : res (list ptask * pstate) :=
  match t with
  | PV u =>
      do d <- vget (pd st) u ;
      if delta * top <=? d then
        do row <- vget g u ;
        Ok (map (fun e => PS u (fst e) (snd e)) row, st)
      else Ok ([], st)
  | PS u v w =>
      do d <- vget (pd st) u ;
      Ok ([PT u v w ((d + w) mod D)], st)
  | PT u v w next =>
      do prev <- vget (pd st) v ;
      if next <? prev then Ok ([PC u v w next prev], st)
      else
        match ind (pr st) with
        | None => Ub
        | Some b => Ok (if b then [PG v next] else [], mkP (pd st) (pb st) (S (pr st)))
        end
  | PC u v w next prev =>
      do cur <- vget (pd st) v ;
      if cur =? prev then
        do d' <- vset (pd st) v next ;
        Ok ([PG v next], mkP d' (pb st) (pr st))
      else if next <? cur then Ok ([PC u v w next cur], st)
      else Ok ([], st)
  | PG v next =>
      if delta =? 0 then Ub
      else Ok ([PP v (next / delta)], mkP (pd st) (grow (pb st) (next / delta)) (pr st))
  | PP v bin =>
      do b <- vget (pb st) bin ;
      do bins' <- vset (pb st) bin (b ++ [v]) ;
      Ok ([], mkP (pd st) bins' (pr st))
  end.

(** An upper bound on the steps left to a task, when no label exceeds [inf]. *)
Definition psize (inf : nat) (t : ptask) : nat :=
  match t with
  | PV u => 1 + length (nth u g []) * (inf + 8)
  | PS _ _ _ => inf + 7
  | PT _ _ _ _ => inf + 6
  | PC _ _ _ _ prev => prev + 5
  | PG _ _ => 4
  | PP _ _ => 3
  end.
End Pds.

(** * Lines 208-222.  [sched k] schedules the k-th round; the search for the next non-empty bin is that of the
    sequential version (SsspModel.ds_next: 219-221 are 149-151 with a shrink_to_fit, which changes no element). *)
Fixpoint pds_loop (fuel D inf delta : nat) (g : wgraph) (ind : nat -> option bool) (sched : nat -> nat -> nat) (k top : nat) (st : pstate) : res (list nat) :=
  if top <? length (pb st) then
    match fuel with
    | 0 => OutOfFuel
    | S f =>
        do frontier <- vget (pb st) top ;
        do bins <- vset (pb st) top [] ;
        let ts := map PV frontier in
        do st' <- frun (pstep D delta g ind top) (sum (map (psize g inf) ts)) (sched k) 0 ts (mkP (pd st) bins (pr st)) ;
        pds_loop f D inf delta g ind sched (S k) (ds_next (length (pb st')) top (pb st')) st'
    end
  else Ok (pd st).
(** Lines 173-223; [inf] = numeric_limits<distance_t>::max(). *)
Definition pdelta_stepping (fuel D inf : nat) (g : wgraph) (source delta : nat) (ind : nat -> option bool) (sched : nat -> nat -> nat) : res (list nat) :=
  do tdist <- vset (repeat inf (length g)) source 0 ;
  pds_loop fuel D inf delta g ind sched 0 0 (mkP tdist [[source]] 0).
