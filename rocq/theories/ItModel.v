(** Model of util/util_par.hpp (27-64), the output iterators that only count, used by several threads, and of
    util/permutation_iterator.hpp (23-51).

    A run of several threads is a list of thread numbers, each taking one step.  The counter is a size_t, [W] its number of values.
    What is assigned does not matter and is left out; a thread is given by the counters its iterators assign to. *)
From Coq Require Import List Arith Bool.
From Verif Require Import Base.
Import ListNotations.
Set Implicit Arguments.

(** * par_counting_output_iterator *)
(** Where a thread is in operator= (37-41): outside, behind the lock, after reading count, after writing it. *)
Inductive where_ : Type := Outside | Inside | Loaded (v : nat) | Stored.
Record thread : Type := mkTh { todo : list nat; at_ : where_ }.
(** The mutex mtx of util_par.hpp:26, one for all counters; [None] if free. *)
Record pstate : Type := mkPs { locked : option nat; counts : list nat; threads : list thread }.
(** One step of thread [t]: lock_guard (39), count++ (40) as a load and a store, and the end of lock_guard (41). *)
Definition par_step (W : nat) (s : pstate) (t : nat) : res pstate :=
  match nth_error (threads s) t with
  | None => Ok s
  | Some th =>
    match todo th with
    | [] => Ok s
    | c :: rest =>
      match at_ th with
      | Outside =>
          match locked s with
          | Some _ => Ok s
          | None => Ok (mkPs (Some t) (counts s) (upd (threads s) t (mkTh (todo th) Inside)))
          end
      | Inside => do v <- vget (counts s) c ; Ok (mkPs (locked s) (counts s) (upd (threads s) t (mkTh (todo th) (Loaded v))))
      | Loaded v => do cs <- vset (counts s) c ((v + 1) mod W) ; Ok (mkPs (locked s) cs (upd (threads s) t (mkTh (todo th) Stored)))
      | Stored => Ok (mkPs None (counts s) (upd (threads s) t (mkTh rest Outside)))
      end
    end
  end.
Definition par_start (cs : list nat) (work : list (list nat)) : pstate := mkPs None cs (map (fun w => mkTh w Outside) work).
Definition par_run (W : nat) (sched : list nat) (s : pstate) : res pstate := rfold (par_step W) sched s.

(** * atomic_counting_output_iterator: operator= (56-59) is one atomic addition. *)
Record astate : Type := mkAs { a_counts : list nat; a_todo : list (list nat) }.
Definition atomic_step (W : nat) (s : astate) (t : nat) : res astate :=
  match nth_error (a_todo s) t with
  | Some (c :: rest) => do v <- vget (a_counts s) c ; do cs <- vset (a_counts s) c ((v + 1) mod W) ; Ok (mkAs cs (upd (a_todo s) t rest))
  | _ => Ok s
  end.
Definition atomic_run (W : nat) (sched : list nat) (s : astate) : res astate := rfold (atomic_step W) sched s.

(** * permutation_iterator *)
(** base_ as a position in the array, i_; perm_ is the same for all iterators of a loop. *)
Definition p_it : Type := nat * nat.
(** operator* (43). *)
Definition p_deref (A : Type) (array : list A) (perm : nat -> nat) (it : p_it) : res A := vget array (fst it + perm (snd it)).
(** operator++ (45-48). *)
Definition p_next (it : p_it) : p_it := (fst it, snd it + 1).
(** operator!= (50). *)
Definition p_neq (x y : p_it) : bool := negb (snd x =? snd y) || negb (fst x =? fst y).
(** for (it = first; it != last; ++it) yield *it. *)
Fixpoint p_loop (fuel : nat) (A : Type) (array : list A) (perm : nat -> nat) (it last : p_it) : res (list A) :=
  if p_neq it last then
    match fuel with
    | 0 => OutOfFuel
    | S f => do x <- p_deref array perm it ; do l <- p_loop f array perm (p_next it) last ; Ok (x :: l)
    end
  else Ok [].
