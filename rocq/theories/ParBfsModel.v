(** Model of algorithms/bfs.hpp:161-311: the parallel direction-optimising bfs(out_graph, in_graph, root, num_bins,
    alpha, beta), every parallel loop being a pool of tasks run under an arbitrary schedule (Pool.v).
    Simplified: an AtomicBitVector is a list of bits (its own model is BitModel.v), the plain load of parents[v]
    that races with the CAS is an atomic load, per-task counts of a reduction are added to one shared counter
    (addition commutes), [W] is 2^64 and num_bins enters as [nbins] = pow2(ceil_log2(num_bins)) bins. *)
From Coq Require Import List Arith Bool.
From Verif Require Import Base Pool.
Import ListNotations.
Set Implicit Arguments.

(** q[i % n].push_back(v) (253, 292). *)
Definition bin_push (q : list (list nat)) (i v : nat) : res (list (list nat)) :=
  let b := i mod length q in
  do l <- vget q b ;
  vset q b (l ++ [v]).

Definition run_all (T S : Type) (size : T -> nat) (step : T -> S -> res (option T * S)) (sched : nat -> nat) (ts : list T) (s : S) : res S :=
  run step (sum (map size ts) + length ts) sched 0 ts s.

(** * Top-down step (280-303): one task per frontier vertex *)
Inductive td_task : Type :=
| TLoad (u : nat) (rest : list nat)          (* 286-288: about to read parents[target of the next edge] *)
| TCas (u v : nat) (rest : list nat)         (* 291: null was read; about to compare-and-swap *)
| TPush (u v : nat) (rest : list nat).       (* 292-293: the CAS succeeded *)
Definition td_shared : Type := (list nat * list (list nat) * nat)%type.     (* parents, q2, count *)
Definition td_size (t : td_task) : nat :=
  match t with TLoad _ r => 3 * length r | TCas _ _ r => 3 * length r + 2 | TPush _ _ r => 3 * length r + 1 end.
Definition td_step (vmax : nat) (g : list (list nat)) (t : td_task) (s : td_shared) : res (option td_task * td_shared) :=
  let '(parents, q2, count) := s in
  match t with
  | TLoad _ [] => Ok (None, s)
  | TLoad u (v :: r) =>
      do p <- vget parents v ;
      if p =? vmax then Ok (Some (TCas u v r), s) else Ok (Some (TLoad u r), s)
  | TCas u v r =>
      do p <- vget parents v ;
      if p =? vmax then
        do parents' <- vset parents v u ;
        Ok (Some (TPush u v r), (parents', q2, count))
      else Ok (Some (TLoad u r), s)
  | TPush u v r =>
      do q2' <- bin_push q2 u v ;
      do row <- vget g v ;
      Ok (Some (TLoad u r), (parents, q2', count + length row))
  end.
Definition td_phase (vmax : nat) (g : list (list nat)) (sched : nat -> nat) (q1 : list (list nat)) (parents : list nat) : res td_shared :=
  do ts <- rmap (fun u => do row <- vget g u ; Ok (TLoad u row)) (concat q1) ;
  run_all td_size (td_step vmax g) sched ts (parents, repeat [] (length q1), 0).

(** * Bottom-up sweep (218-237): one task per vertex *)
Inductive bu_task : Type :=
| BTest (u : nat)                            (* 223 *)
| BScan (u : nat) (rest : list nat)          (* 224-226 *)
| BSet (u v : nat)                           (* 227 *)
| BStore (u v : nat).                        (* 228-230 *)
Definition bu_shared : Type := (list bool * list nat * nat)%type.           (* curr, parents, count *)
Definition bu_size (g_t : list (list nat)) (t : bu_task) : nat :=
  match t with BTest u => length (nth u g_t []) + 3 | BScan _ r => length r + 2 | BSet _ _ => 1 | BStore _ _ => 0 end.
Definition bu_step (vmax : nat) (g_t : list (list nat)) (front : list bool) (t : bu_task) (s : bu_shared) : res (option bu_task * bu_shared) :=
  let '(curr, parents, count) := s in
  match t with
  | BTest u =>
      do p <- vget parents u ;
      if p =? vmax then
        do row <- vget g_t u ;
        Ok (Some (BScan u row), s)
      else Ok (None, s)
  | BScan _ [] => Ok (None, s)
  | BScan u (v :: r) =>
      do b <- vget front v ;
      if b then Ok (Some (BSet u v), s) else Ok (Some (BScan u r), s)
  | BSet u v =>
      do curr' <- vset curr u true ;
      Ok (Some (BStore u v), (curr', parents, count))
  | BStore u v =>
      do parents' <- vset parents u v ;
      Ok (None, (curr, parents', S count))
  end.

(** 205-208: one task per queued vertex sets its bit. *)
Definition seed_step (u : nat) (curr : list bool) : res (option nat * list bool) :=
  do curr' <- vset curr u true ; Ok (None, curr').
(** 250-255: one task per set bit. *)
Definition drain_step (i : nat) (q2 : list (list nat)) : res (option nat * list (list nat)) :=
  do q2' <- bin_push q2 i i ; Ok (None, q2').
Definition set_bits (b : list bool) : list nat := filter (fun i => nth i b false) (seq 0 (length b)).

(** 211-239: the do-while loop; each iteration takes one phase of the schedule. *)
Fixpoint bu_loop (fuel vmax beta : nat) (n : nat) (g_t : list (list nat)) (sched : nat -> nat -> nat) (ph : nat)
    (curr : list bool) (parents : list nat) (awake : nat) : res (nat * list bool * list nat * nat) :=
  match fuel with
  | 0 => OutOfFuel
  | S f =>
      do r <- run_all (bu_size g_t) (bu_step vmax g_t curr) (sched ph) (map BTest (seq 0 n)) (repeat false n, parents, 0) ;
      let '(curr', parents', awake') := r in
      if awake <=? awake' then bu_loop f vmax beta n g_t sched (S ph) curr' parents' awake'
      else if beta =? 0 then Ub
      else if n / beta <? awake' then bu_loop f vmax beta n g_t sched (S ph) curr' parents' awake'
      else Ok (S ph, curr', parents', awake')
  end.

(** 187-308. *)
Fixpoint pbfs_loop (fuel vmax W alpha beta : nat) (g g_t : list (list nat)) (sched : nat -> nat -> nat) (ph : nat)
    (q1 : list (list nat)) (curr : list bool) (parents : list nat) (edges_to_check scout_count : nat) : res (list nat) :=
  match fuel with
  | 0 => OutOfFuel
  | S f =>
      let n := length g in
      let finish ph q2 curr parents edges scout :=
        match concat q2 with
        | [] => Ok parents
        | _ => pbfs_loop f vmax W alpha beta g g_t sched ph q2 curr parents edges scout
        end in
      if alpha =? 0 then Ub
      else if edges_to_check / alpha <? scout_count then
        do curr1 <- run_all (fun _ => 0) seed_step (sched ph) (concat q1) curr ;
        do r <- bu_loop f vmax beta n g_t sched (S ph) curr1 parents (length (concat q1)) ;
        let '(ph', curr2, parents2, awake) := r in
        if awake =? 0 then Ok parents2
        else
          do q2 <- run_all (fun _ => 0) drain_step (sched ph') (set_bits curr2) (repeat [] (length q1)) ;
          finish (S ph') q2 curr2 parents2 edges_to_check 1
      else
        do r <- td_phase vmax g (sched ph) q1 parents ;
        let '(parents', q2, count) := r in
        finish (S ph) q2 curr parents' ((edges_to_check + W - scout_count mod W) mod W) (count mod W)
  end.

Definition pbfs (fuel vmax W : nat) (g g_t : list (list nat)) (sched : nat -> nat -> nat) (root nbins alpha beta : nat) : res (list nat) :=
  let n := length g in
  do row <- vget g root ;
  do parents <- vset (repeat vmax n) root root ;
  do q1 <- bin_push (repeat [] nbins) root root ;
  pbfs_loop fuel vmax W alpha beta g g_t sched 0 q1 (repeat false n) parents (sum (map (@length nat) g)) (length row).
