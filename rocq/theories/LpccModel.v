(** Model of the label propagation of experimental/algorithms/connected_components.hpp: writeMin (40-48), lpcc (306-367)
    and lpcc_cyclic (369-427). The tasks of tbb::parallel_for run interleaved under an arbitrary schedule, one access of
    the shared variables (labels, bitmap, one worker's frontier) per step. How the range is divided, and which worker
    runs a piece, is a parameter. Simplified: a graph is the list of its rows of targets; the bitmap is a list of bits
    (BitModel has its words); the plain accesses of the labels count as atomic (in C++ they are data races); curtonext
    (346-360), which copies the frontiers one after the other into next, is concat. *)
From Coq Require Import List Arith Bool.
From Verif Require Import Base Pool CcxModel.
Import ListNotations.
Set Implicit Arguments.

(** Shared: labels, bitmap, frontiers. *)
Definition lst : Type := (list nat * list bool * list (list nat))%type.
(** A task of worker w with the vertices [xs] still to come; within the loop over the neighbours of a vertex, [lx] is
    labelx and [ys] the neighbours after y. *)
Inductive lp : Type :=
| LpX (w x : nat) (xs : list nat)                      (* 325: about to load labels[x] *)
| LpT (w lx y : nat) (ys xs : list nat)                (* 329: about to load labels[y] *)
| LpRead (w lx y : nat) (ys xs : list nat)             (* 45-46: about to load prev; success is false *)
| LpCas (w lx y prev : nat) (ys xs : list nat)         (* 46: prev > next; about to exchange *)
| LpGet (w lx y : nat) (ys xs : list nat)              (* 331: about to read the bit *)
| LpSet (w lx y : nat) (ys xs : list nat)              (* 331: about to set the bit *)
| LpPush (w lx y : nat) (ys xs : list nat).            (* 332 *)
Definition lp_start (w : nat) (xs : list nat) : option lp := match xs with [] => None | x :: xs' => Some (LpX w x xs') end.
Definition lp_next (w lx : nat) (ys xs : list nat) : option lp :=
  match ys with [] => lp_start w xs | y :: ys' => Some (LpT w lx y ys' xs) end.
Definition lp_step (g : list (list nat)) (t : lp) (s : lst) : res (option lp * lst) :=
  let '(labels, bits, bins) := s in
  match t with
  | LpX w x xs => do lx <- vget labels x ; do row <- vget g x ; Ok (lp_next w lx row xs, s)
  | LpT w lx y ys xs => do ly <- vget labels y ; Ok (if lx <? ly then Some (LpRead w lx y ys xs) else lp_next w lx ys xs, s)
  | LpRead w lx y ys xs =>
      do prev <- vget labels y ;
      Ok (if lx <? prev then Some (LpCas w lx y prev ys xs) else lp_next w lx ys xs, s)
  | LpCas w lx y prev ys xs =>
      do ly <- vget labels y ;
      if ly =? prev then
        do labels' <- vset labels y lx ;
        Ok (Some (LpGet w lx y ys xs), (labels', bits, bins))
      else Ok (Some (LpRead w lx y ys xs), s)
  | LpGet w lx y ys xs => do b <- vget bits y ; Ok (if b : bool then lp_next w lx ys xs else Some (LpSet w lx y ys xs), s)
  | LpSet w lx y ys xs =>
      do b <- vget bits y ;
      do bits' <- vset bits y true ;
      Ok (if b : bool then lp_next w lx ys xs else Some (LpPush w lx y ys xs), (labels, bits', bins))
  | LpPush w lx y ys xs =>
      do b <- vget bins w ;
      do bins' <- vset bins w (b ++ [y]) ;
      Ok (lp_next w lx ys xs, (labels, bits, bins'))
  end.
(** Bounds the steps of a task that has the vertices [xs] to go through. *)
Definition lp_cost (g : list (list nat)) (xs : list nat) : nat :=
  sum (map (fun x => 1 + sum (map (fun y => 2 * y + 10) (nth x g []))) xs).
(** propagate (318-338, 381-400) on the pieces [chunks] (worker, vertices), and curtonext: the new labels and next. *)
Definition lp_round (nbins : nat) (sched : nat -> nat) (g : list (list nat)) (chunks : list (nat * list nat)) (labels : list nat)
  : res (list nat * list nat) :=
  do s <- run (lp_step g) (sum (map (fun c => lp_cost g (snd c)) chunks)) sched 0
            (concat (map (fun c => opt_list (lp_start (fst c) (snd c))) chunks)) (labels, repeat false (length labels), repeat [] nbins) ;
  Ok (fst (fst s), concat (snd s)).
(** 358-364, 420-426. [split i l] divides l in the i-th iteration. lpcc goes through cur, whose size is converted to the
    id type; lpcc_cyclic through all vertices. *)
Fixpoint lp_loop (fuel : nat) (cyclic : bool) (W nbins : nat) (sched : nat -> nat -> nat) (split : nat -> list nat -> list (nat * list nat))
    (i : nat) (g : list (list nat)) (cur labels : list nat) : res (list nat) :=
  match cur with
  | [] => Ok labels
  | _ =>
      match fuel with
      | 0 => OutOfFuel
      | S f =>
          let l := if cyclic then seq 0 (length g) else firstn (length cur mod W) cur in
          do r <- lp_round nbins (sched i) g (split i l) labels ;
          lp_loop f cyclic W nbins sched split (S i) g (snd r) (fst r)
      end
  end.
(** 306-367; 312-316: comp and cur hold the same values. *)
Definition lpcc (W nbins : nat) (sched : nat -> nat -> nat) (split : nat -> list nat -> list (nat * list nat)) (g : list (list nat)) : res (list nat) :=
  let init := x_init W (length g) in
  lp_loop (sum init + 2) false W nbins sched split 0 g init init.
(** 369-427. *)
Definition lpcc_cyclic (W nbins : nat) (sched : nat -> nat -> nat) (split : nat -> list nat -> list (nat * list nat)) (g : list (list nat)) : res (list nat) :=
  let init := x_init W (length g) in
  lp_loop (sum init + 2) true W nbins sched split 0 g init init.
