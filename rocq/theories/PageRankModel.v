(** Model of algorithms/page_rank.hpp:89-148.  Scores are exact rationals instead of floating-point numbers, with one
    more value [None] for everything that is not finite (a division by zero, and what is computed from it).  The graph is
    the list of its rows of targets; row i holds the vertices whose contributions i collects (line 129).  The updates of
    one sweep run in parallel on the shared array outgoing_contrib, without synchronisation: each access is one step and
    an arbitrary schedule interleaves them (Pool.v). *)
From Coq Require Import List Arith ZArith QArith Qabs Bool.
From Verif Require Import Base Pool.
Import ListNotations.
Set Implicit Arguments.
Local Open Scope nat_scope.

Notation num := (option Q) (only parsing).
Definition olift2 (f : Q -> Q -> Q) (a b : num) : num := match a, b with Some x, Some y => Some (f x y) | _, _ => None end.
Definition qnat (n : nat) : Q := inject_Z (Z.of_nat n).
(** x / n; not finite when n = 0 *)
Definition odivn (a : num) (n : nat) : num := match a with Some x => if n =? 0 then None else Some (x / qnat n)%Q | None => None end.
(** error < threshold (144): false when the error is not finite *)
Definition oltb (a : num) (t : Q) : bool := match a with Some x => negb (Qle_bool t x) | None => false end.

(** page_rank, outgoing_contrib (107) and the sum of the partial sums of parallel_reduce (124-139) so far *)
Record prst := mkPr { pr_rank : list num; pr_out : list num; pr_err : num }.
(** Tasks: the vertices still to read and z so far (128-131), or the last write (135). *)
Inductive prtask := RD (i : nat) (l : list nat) (z : num) | WC (i : nat).

Section Sweep.
Variables (deg : list nat) (base damp : Q).
Definition pr_step (t : prtask) (st : prst) : res (option prtask * prst) :=
  match t with
  | RD i (j :: l) z =>
      do c <- vget (pr_out st) j ;
      Ok (Some (RD i l (olift2 Qplus z c)), st)
  | RD i [] z =>
      (* 132-134: page_rank[i] belongs to this task alone *)
      do old <- vget (pr_rank st) i ;
      let new := olift2 Qplus (Some base) (olift2 Qmult (Some damp) z) in
      do r <- vset (pr_rank st) i new ;
      Ok (Some (WC i), mkPr r (pr_out st) (olift2 Qplus (pr_err st) (olift2 (fun x y => Qabs (x - y)) new old)))
  | WC i =>
      do p <- vget (pr_rank st) i ;
      do n <- vget deg i ;
      do o <- vset (pr_out st) i (odivn p n) ;
      Ok (None, mkPr (pr_rank st) o (pr_err st))
  end.
Definition pr_size (t : prtask) : nat := match t with RD _ l _ => 2 + length l | WC _ => 1 end.
End Sweep.

(** One sweep over all vertices (123-140). *)
Definition pr_sweep (g : list (list nat)) (deg : list nat) (base damp : Q) (sched : nat -> nat) (st : prst) : res prst :=
  do ts <- rmap (fun i => do row <- vget g i ; Ok (RD i row (Some 0%Q))) (seq 0 (length g)) ;
  run (pr_step deg base damp) (sum (map pr_size ts) + length ts) sched 0 ts (mkPr (pr_rank st) (pr_out st) (Some 0%Q)).
(** What the function leaves behind: the caller's vector; how many sweeps were made and whether line 145 was reached
    are recorded for the statements only. *)
Record prout := mkOut { o_rank : list num; o_sweeps : nat; o_conv : bool }.
(** Lines 121-147: the last of the remaining [todo] sweeps, [k] having been made. *)
Fixpoint pr_loop (todo : nat) (g : list (list nat)) (deg : list nat) (base damp thr : Q) (sched : nat -> nat -> nat) (k : nat) (st : prst) : res prout :=
  match todo with
  | 0 => Ok (mkOut (pr_rank st) k false)
  | S m =>
      do st' <- pr_sweep g deg base damp (sched k) st ;
      if oltb (pr_err st') thr then Ok (mkOut (pr_rank st') (S k) true)
      else pr_loop m g deg base damp thr sched (S k) st'
  end.
(** Lines 92-148.  [ranks] is the vector passed in; the two initialisation loops write each element once and are run in
    order. *)
Definition page_rank (g : list (list nat)) (deg : list nat) (ranks : list num) (damp thr : Q) (max_iters : nat) (sched : nat -> nat -> nat) : res prout :=
  let N := length g in
  let init := odivn (Some 1%Q) N in
  let base := ((1 - damp) / qnat N)%Q in
  do r0 <- rfold (fun r i => vset r i init) (seq 0 N) ranks ;
  do o0 <- rmap (fun i => do p <- vget r0 i ; do n <- vget deg i ; Ok (odivn p n)) (seq 0 N) ;
  pr_loop max_iters g deg base damp thr sched 0 (mkPr r0 o0 (Some 0%Q)).
