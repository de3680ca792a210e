(** Model of experimental/algorithms/bfs.hpp: bfs_v6 (70-99), bfs_v7 (101-144), bfs_v8 (146-181), bfs_v9 (183-233),
    bfs_top_down (235-280), bfs_top_down_bitmap (282-329), bfs_bottom_up (331-369), BU_step, TD_step, queue_to_bitmap,
    bitmap_to_queue, flush (372-464), bfs_v1 (466-559) and bfs_v2 (561-603). bfs_v4 (37-68) calls a queue as a function
    (61) and cannot be instantiated.
    Every parallel loop is a pool of tasks under an arbitrary schedule (Pool.v), one task per edge out of the frontier
    (the order in which one worker takes the edges of a piece is one of the schedules). bfs_v6 has no parallel loop:
    its run is the schedule that always moves the first task.
    Simplified: an AtomicBitVector is a list of bits (BitModel.v); each access to a shared variable is atomic and
    sequentially consistent, although v8, v9, TD_step and v1 race on plain variables and bfs_top_down uses relaxed
    accesses; counts of a reduction go to one shared counter; [vmax] is the maximum of vertex_id_type. *)
From Coq Require Import List Arith Bool.
From Verif Require Import Base Pool ParBfsModel.
Import ListNotations.
Set Implicit Arguments.

(** * The loop bodies of the top-down variants, as sequences of atomic accesses *)
Inductive act : Type :=
| TestLevel      (* if (level[v] == max): 87, 167, 206 *)
| TestLess       (* old_lvl = level[v]; if (new_lvl < old_lvl): 121-123 *)
| CasLevel       (* while (!level[v].compare_exchange_strong(old_lvl, new_lvl)) ...: 125-130 *)
| TestBit        (* visited.atomic_get(v) == 0: 306 *)
| SetBit         (* visited.atomic_set(v) == 0: 306 *)
| TestPar        (* parents[v] == null_vertex: 257, 412-413, 543-544 *)
| CasPar         (* cas(parents[v], curr_val, u): 415, 545 *)
| Push           (* push_back(v) *)
| SetLevel       (* level[v] = lvl: 89, 169, 208 *)
| SetPar         (* parents[v] = u *)
| Count.         (* n += g[v].size(): 417, 547 *)

(** 86-91, 166-171, 205-210. *)
Definition body_v689 : list act := [TestLevel; Push; SetLevel; SetPar].
(** 120-135. *)
Definition body_v7 : list act := [TestLess; CasLevel; Push; SetPar].
(** 257-260. *)
Definition body_top_down : list act := [TestPar; SetPar; Push].
(** 306-309. *)
Definition body_bitmap : list act := [TestBit; SetBit; SetPar; Push].
(** 411-419, 542-549. *)
Definition body_cas : list act := [TestPar; CasPar; Push; Count].

Record xst : Type := Xst {
  x_level : list nat;
  x_bits : list bool;
  x_par : list nat;
  x_q : list (list nat);
  x_count : nat }.
(** The edge u -> v, the local old_lvl and what is left of the body. *)
Record xtask : Type := Xt { t_u : nat; t_v : nat; t_old : nat; t_prog : list act }.

(** q[b].push_back(v). *)
Definition push_at (q : list (list nat)) (b v : nat) : res (list (list nat)) :=
  do l <- vget q b ;
  vset q b (l ++ [v]).

(** One access of the task. [bin u] is the queue the task for u pushes to, [nl] the value of lvl as a vertex_id_type. *)
Definition xstep (vmax nl : nat) (g : list (list nat)) (bin : nat -> nat) (t : xtask) (s : xst) : res (option xtask * xst) :=
  let '(Xst level bits par q count) := s in
  let '(Xt u v old prog) := t in
  match prog with
  | [] => Ok (None, s)
  | a :: p =>
      let go (cont : bool) s' := if cont then Ok (Some (Xt u v old p), s') else Ok (None, s') in
      match a with
      | TestLevel => do l <- vget level v ; go (l =? vmax) s
      | TestLess => do l <- vget level v ; if nl <? l then Ok (Some (Xt u v l p), s) else Ok (None, s)
      | CasLevel =>
          do l <- vget level v ;
          if l =? old then do level' <- vset level v nl ; go true (Xst level' bits par q count)
          else if l <=? nl then Ok (None, s)
          else Ok (Some (Xt u v l (a :: p)), s)
      | TestBit => do b <- vget bits v ; go (negb b) s
      | SetBit => do b <- vget bits v ; do bits' <- vset bits v true ; go (negb b) (Xst level bits' par q count)
      | TestPar => do x <- vget par v ; go (x =? vmax) s
      | CasPar =>
          do x <- vget par v ;
          if x =? vmax then do par' <- vset par v u ; go true (Xst level bits par' q count) else go false s
      | Push => do q' <- push_at q (bin u) v ; go true (Xst level bits par q' count)
      | SetLevel => do level' <- vset level v nl ; go true (Xst level' bits par q count)
      | SetPar => do par' <- vset par v u ; go true (Xst level bits par' q count)
      | Count => do row <- vget g v ; go true (Xst level bits par q (count + length row))
      end
  end.
Definition xsize (t : xtask) : nat := length (t_prog t).

(** One level: the frontier [us] is expanded into the queues [q2]. *)
Definition xphase (vmax nl : nat) (g : list (list nat)) (bin : nat -> nat) (body : list act) (sched : nat -> nat) (us : list nat)
    (level : list nat) (bits : list bool) (par : list nat) (q2 : list (list nat)) : res xst :=
  do rows <- rmap (fun u => do row <- vget g u ; Ok (map (fun v => Xt u v 0 body) row)) us ;
  run_all xsize (xstep vmax nl g bin) sched (concat rows) (Xst level bits par q2 0).

(** 83-97, 117-142, 162-179: while (!q1.empty()) with one queue; lvl is a size_t, stored as a vertex_id_type. *)
Fixpoint xwhile (fuel vmax lvl : nat) (g : list (list nat)) (body : list act) (sched : nat -> nat -> nat) (ph : nat)
    (q1 : list nat) (level par : list nat) : res (list nat) :=
  match fuel with
  | 0 => OutOfFuel
  | S f =>
      match q1 with
      | [] => Ok par
      | _ =>
          do s <- xphase vmax (lvl mod S vmax) g (fun _ => 0) body (sched ph) q1 level [] par [[]] ;
          xwhile f vmax (S lvl) g body sched (S ph) (concat (x_q s)) (x_level s) (x_par s)
      end
  end.
(** 72-81, 103-115, 149-160. *)
Definition xlevel_bfs (fuel vmax : nat) (g : list (list nat)) (body : list act) (sched : nat -> nat -> nat) (root : nat) : res (list nat) :=
  let n := length g in
  do level <- vset (repeat vmax n) root 0 ;
  do par <- vset (repeat vmax n) root root ;
  xwhile fuel vmax 1 g body sched 0 [root] level par.
Definition bfs_v6 (fuel vmax : nat) g root : res (list nat) := xlevel_bfs fuel vmax g body_v689 (fun _ _ => 0) root.
Definition bfs_v7 (fuel vmax : nat) g sched root : res (list nat) := xlevel_bfs fuel vmax g body_v7 sched root.
Definition bfs_v8 (fuel vmax : nat) g sched root : res (list nat) := xlevel_bfs fuel vmax g body_v689 sched root.

(** 200-231, 253-278, 302-327: while (!done) with num_bins queues, queue u % num_bins for the edges of u. *)
Fixpoint xdone (fuel vmax lvl nb : nat) (g : list (list nat)) (body : list act) (sched : nat -> nat -> nat) (ph : nat)
    (q1 : list (list nat)) (level : list nat) (bits : list bool) (par : list nat) : res (list nat) :=
  match fuel with
  | 0 => OutOfFuel
  | S f =>
      do s <- xphase vmax (lvl mod S vmax) g (fun u => u mod nb) body (sched ph) (concat q1) level bits par (repeat [] nb) ;
      if forallb (fun l => length l =? 0) (x_q s) then Ok (x_par s)
      else xdone f vmax (S lvl) nb g body sched (S ph) (x_q s) (x_level s) (x_bits s) (x_par s)
  end.
(** 183-197; u & 0x1F is u mod 32. *)
Definition bfs_v9 (fuel vmax : nat) (g : list (list nat)) (sched : nat -> nat -> nat) (root : nat) : res (list nat) :=
  let n := length g in
  do par <- vset (repeat vmax n) root root ;
  do level <- vset (repeat vmax n) root 0 ;
  xdone fuel vmax 1 32 g body_v689 sched 0 ([root] :: repeat [] 31) level [] par.
(** 235-250. *)
Definition bfs_top_down (fuel vmax : nat) (g : list (list nat)) (sched : nat -> nat -> nat) (root : nat) : res (list nat) :=
  do par <- vset (repeat vmax (length g)) root root ;
  xdone fuel vmax 0 32 g body_top_down sched 0 ([root] :: repeat [] 31) [] [] par.
(** 282-299. *)
Definition bfs_top_down_bitmap (fuel vmax : nat) (g : list (list nat)) (sched : nat -> nat -> nat) (root : nat) : res (list nat) :=
  let n := length g in
  do par <- vset (repeat vmax n) root root ;
  do bits <- vset (repeat false n) root true ;
  xdone fuel vmax 0 32 g body_bitmap sched 0 ([root] :: repeat [] 31) [] bits par.

(** * Bottom-up *)
(** AtomicBitVector::clear. *)
Definition bclear (b : list bool) : list bool := map (fun _ => false) b.
(** 349-361, 379-394, 508-521: a sweep reads [front], writes [next] and parents (bu_step of ParBfsModel.v). *)
Definition sweep (vmax : nat) (g_t : list (list nat)) (sched : nat -> nat) (front next : list bool) (par : list nat) : res bu_shared :=
  run_all (bu_size g_t) (bu_step vmax g_t front) sched (map BTest (seq 0 (length g_t))) (next, par, 0).

(** 346-367. The reduction starts from the int 0, so its count is an int of maximum [imax] (overflow is undefined);
    the loop variable n is a vertex_id_type. *)
Fixpoint xbottom (fuel vmax imax : nat) (g_t : list (list nat)) (sched : nat -> nat -> nat) (ph n : nat)
    (frontier next : list bool) (par : list nat) : res (list nat) :=
  match fuel with
  | 0 => OutOfFuel
  | S f =>
      if n =? 0 then Ok par
      else
        do r <- sweep vmax g_t (sched ph) next (bclear frontier) par ;      (* 365-366, then the increment *)
        let '(next', par', count) := r in
        if imax <? count then Ub
        else xbottom f vmax imax g_t sched (S ph) (count mod S vmax) next next' par'
  end.
(** 331-345. *)
Definition bfs_bottom_up (fuel vmax imax : nat) (g_t : list (list nat)) (sched : nat -> nat -> nat) (root : nat) : res (list nat) :=
  let N := length g_t in
  do par <- vset (repeat vmax N) root root ;
  do next <- vset (repeat false N) root true ;
  xbottom fuel vmax imax g_t sched 0 1 (repeat false N) next par.

(** * bfs_v1 and bfs_v2 *)
(** queue_to_bitmap (426-431): ors the bits into [bitmap]. *)
Definition queue_to_bitmap (sched : nat -> nat) (queue : list nat) (bitmap : list bool) : res (list bool) :=
  run_all (fun _ => 0) seed_step sched queue bitmap.
(** bitmap_to_queue (432-440): [wk i] is the worker that takes bit i. *)
Definition btq_step (wk : nat -> nat) (i : nat) (lq : list (list nat)) : res (option nat * list (list nat)) :=
  do lq' <- push_at lq (wk i) i ; Ok (None, lq').
Definition bitmap_to_queue (sched wk : nat -> nat) (bitmap : list bool) (lq : list (list nat)) : res (list (list nat)) :=
  run_all (fun _ => 0) (btq_step wk) sched (set_bits bitmap) lq.

(** flush (445-464): the exclusive prefix sums of the sizes (448-455), queue.resize (457) and one task per element
    copied (458-461). The local queues end empty (462). *)
Fixpoint offsets (size : nat) (lq : list (list nat)) : list nat :=
  match lq with [] => [] | l :: r => size :: offsets (size + length l) r end.
Definition resize (q : list nat) (n : nat) : list nat := firstn n q ++ repeat 0 (n - length q).
Definition copy_step (t : nat * nat) (q : list nat) : res (option (nat * nat) * list nat) :=
  do q' <- vset q (fst t) (snd t) ; Ok (None, q').
Definition flush (sched : nat -> nat) (lq : list (list nat)) (queue : list nat) : res (list nat * list (list nat)) :=
  let size := sum (map (@length nat) lq) in
  let tasks := concat (map (fun p => combine (seq (fst p) (length (snd p))) (snd p)) (combine (offsets 0 lq) lq)) in
  do queue' <- run_all (fun _ => 0) copy_step sched tasks (resize queue size) ;
  Ok (queue', map (fun _ => []) lq).

(** 500-524: front and curr are swapped and curr is cleared before each sweep. *)
Fixpoint v1_bottom (fuel vmax beta N : nat) (g_t : list (list nat)) (sched : nat -> nat -> nat) (ph : nat)
    (front curr : list bool) (par : list nat) (awake : nat) : res (nat * list bool * list bool * list nat * nat) :=
  match fuel with
  | 0 => OutOfFuel
  | S f =>
      do r <- sweep vmax g_t (sched ph) curr (bclear front) par ;
      let '(curr', par', awake') := r in
      if awake <=? awake' then v1_bottom f vmax beta N g_t sched (S ph) curr curr' par' awake'
      else if beta =? 0 then Ub
      else if N / beta <? awake' then v1_bottom f vmax beta N g_t sched (S ph) curr curr' par' awake'
      else Ok (S ph, curr, curr', par', awake')
  end.
(** 493-556; [W] is 2^64, [wk ph u] the worker that handles u in the ph-th loop. *)
Fixpoint v1_loop (fuel vmax W alpha beta : nat) (g g_t : list (list nat)) (sched wk : nat -> nat -> nat) (ph : nat)
    (queue : list nat) (lq : list (list nat)) (front curr : list bool) (par : list nat) (edges scout : nat) : res (list nat) :=
  match fuel with
  | 0 => OutOfFuel
  | S f =>
      match queue with
      | [] => Ok par
      | _ =>
          if alpha =? 0 then Ub
          else if edges / alpha <? scout then
            do curr1 <- queue_to_bitmap (sched ph) queue curr ;
            do r <- v1_bottom f vmax beta (length g) g_t sched (S ph) front curr1 par (length queue) ;
            let '(ph', front', curr', par', awake) := r in
            if awake =? 0 then Ok par'
            else
              do lq1 <- bitmap_to_queue (sched ph') (wk ph') curr' lq ;
              do fl <- flush (sched (S ph')) lq1 queue ;
              v1_loop f vmax W alpha beta g g_t sched wk (S (S ph')) (fst fl) (snd fl) front' curr' par' edges 1
          else
            do s <- xphase vmax 0 g (wk ph) body_cas (sched ph) queue [] [] par lq ;
            do fl <- flush (sched (S ph)) (x_q s) queue ;
            v1_loop f vmax W alpha beta g g_t sched wk (S (S ph)) (fst fl) (snd fl) front curr (x_par s)
              ((edges + W - scout mod W) mod W) (x_count s mod W)
      end
  end.
(** 466-491; [nb] = pow2(ceil_log2(num_bins)) local queues; front(N, false) is not initialised: [garbage]. *)
Definition bfs_v1 (fuel vmax W : nat) (g g_t : list (list nat)) (sched wk : nat -> nat -> nat) (garbage : list bool)
    (root nb alpha beta : nat) : res (list nat) :=
  let n := length g in
  do row <- vget g root ;
  do par <- vset (repeat vmax n) root root ;
  v1_loop fuel vmax W alpha beta g g_t sched wk 0 [root] (repeat [] nb) garbage (repeat false n) par
    (sum (map (@length nat) g)) (length row).

(** 586-590: BU_step clears its last argument (376), then front and cur are swapped. *)
Fixpoint v2_bottom (fuel vmax beta N : nat) (g_t : list (list nat)) (sched : nat -> nat -> nat) (ph : nat)
    (front cur : list bool) (par : list nat) (awake : nat) : res (nat * list bool * list bool * list nat * nat) :=
  match fuel with
  | 0 => OutOfFuel
  | S f =>
      do r <- sweep vmax g_t (sched ph) front (bclear cur) par ;
      let '(cur', par', awake') := r in
      if awake <=? awake' then v2_bottom f vmax beta N g_t sched (S ph) cur' front par' awake'
      else if beta =? 0 then Ub
      else if N / beta <? awake' then v2_bottom f vmax beta N g_t sched (S ph) cur' front par' awake'
      else Ok (S ph, cur', front, par', awake')
  end.
(** 581-600. *)
Fixpoint v2_loop (fuel vmax W alpha beta : nat) (g g_t : list (list nat)) (sched wk : nat -> nat -> nat) (ph : nat)
    (frontier : list nat) (lq : list (list nat)) (front cur : list bool) (par : list nat) (edges scout : nat) : res (list nat) :=
  match fuel with
  | 0 => OutOfFuel
  | S f =>
      match frontier with
      | [] => Ok par
      | _ =>
          if alpha =? 0 then Ub
          else if edges / alpha <? scout then
            do front1 <- queue_to_bitmap (sched ph) frontier front ;
            do r <- v2_bottom f vmax beta (length g) g_t sched (S ph) front1 cur par (length frontier) ;
            let '(ph', front', cur', par', awake) := r in
            do lq1 <- bitmap_to_queue (sched ph') (wk ph') front' lq ;
            do fl <- flush (sched (S ph')) lq1 frontier ;
            v2_loop f vmax W alpha beta g g_t sched wk (S (S ph')) (fst fl) (snd fl) front' cur' par' edges 1
          else
            do s <- xphase vmax 0 g (wk ph) body_cas (sched ph) frontier [] [] par lq ;
            do fl <- flush (sched (S ph)) (x_q s) frontier ;
            v2_loop f vmax W alpha beta g g_t sched wk (S (S ph)) (fst fl) (snd fl) front cur (x_par s)
              ((edges + W - scout mod W) mod W) (x_count s mod W)
      end
  end.
(** 561-579; front(N, false) is not initialised: [garbage]. *)
Definition bfs_v2 (fuel vmax W : nat) (g g_t : list (list nat)) (sched wk : nat -> nat -> nat) (garbage : list bool)
    (root nb alpha beta : nat) : res (list nat) :=
  let n := length g in
  do row <- vget g root ;
  do par <- vset (repeat vmax n) root root ;
  v2_loop fuel vmax W alpha beta g g_t sched wk 0 [root] (repeat [] nb) garbage (repeat false n) par
    (sum (map (@length nat) g)) (length row).
