(** Model of algorithms/bfs.hpp:45-140: BFSVerifier and the serial bfs.
    [vmax] is std::numeric_limits<vertex_id_type>::max(); a graph is the list of its rows of targets. *)
From Coq Require Import List Arith Bool.
From Verif Require Import Base.
Import ListNotations.
Set Implicit Arguments.

(** * Serial bfs *)
Definition bfs_state : Type := (list nat * list nat * list nat)%type.   (* q2, level, parents *)
(** bfs.hpp:127-131: the body for one edge (u, v). *)
Definition bfs_visit (vmax lvl u : nat) (st : bfs_state) (v : nat) : res bfs_state :=
  let '(q2, level, parents) := st in
  do lv <- vget level v ;
  if lv =? vmax then
    do level' <- vset level v lvl ;
    do parents' <- vset parents v u ;
    Ok (q2 ++ [v], level', parents')
  else Ok st.
(** 125-134: one vertex of the frontier. *)
Definition bfs_vertex (vmax : nat) (g : list (list nat)) (lvl : nat) (st : bfs_state) (u : nat) : res bfs_state :=
  do row <- vget g u ;
  rfold (bfs_visit vmax lvl u) row st.
(** 123-138: one iteration of the while loop per unit of fuel. *)
Fixpoint bfs_loop (fuel vmax : nat) (g : list (list nat)) (lvl : nat) (q1 level parents : list nat) : res (list nat) :=
  match q1 with
  | [] => Ok parents
  | _ =>
      match fuel with
      | 0 => OutOfFuel
      | S f =>
          do st <- rfold (bfs_vertex vmax g lvl) q1 ([], level, parents) ;
          let '(q2, level', parents') := st in
          bfs_loop f vmax g (S lvl) q2 level' parents'
      end
  end.
(** 111-140. *)
Definition bfs (fuel vmax : nat) (g : list (list nat)) (root : nat) : res (list nat) :=
  let n := length g in
  do level <- vset (repeat vmax n) root 0 ;
  do parents <- vset (repeat vmax n) root root ;
  bfs_loop fuel vmax g 1 [root] level parents.

(** * BFSVerifier *)
(** 57-64: one edge; unsigned depth, and to_visit may not grow past its reserved capacity (51) while iterators
    into it are live. *)
Definition bv_visit (vmax n u : nat) (st : list nat * list nat) (v : nat) : res (list nat * list nat) :=
  let (to_visit, depth) := st in
  do dv <- vget depth v ;
  if dv =? vmax then
    do du <- vget depth u ;
    do depth' <- vset depth v ((du + 1) mod (vmax + 1)) ;
    if length to_visit <? n then Ok (to_visit ++ [v], depth') else Ub
  else Ok st.
(** 55-65: [i] is the position of the iterator. *)
Fixpoint bv_loop (fuel vmax : nat) (g : list (list nat)) (i : nat) (st : list nat * list nat) : res (list nat) :=
  if i <? length (fst st) then
    match fuel with
    | 0 => OutOfFuel
    | S f =>
        do u <- vget (fst st) i ;
        do row <- vget g u ;
        do st' <- rfold (bv_visit vmax (length g) u) row st ;
        bv_loop f vmax g (S i) st'
    end
  else Ok (snd st).
(** 75-91: the search for the parent among the in-neighbours; None = "wrong depths", Some b = parent_found. *)
Fixpoint bv_find (vmax : nat) (depth : list nat) (pu du : nat) (row : list nat) : res (option bool) :=
  match row with
  | [] => Ok (Some false)
  | v :: rest =>
      if v =? pu then
        do dv <- vget depth v ;
        if negb (dv =? (du + vmax) mod (vmax + 1)) then Ok None else Ok (Some true)
      else bv_find vmax depth pu du rest
  end.
(** 66-96: the check of one vertex; true = accepted. *)
Definition bv_check (vmax : nat) (g_t : list (list nat)) (source : nat) (depth parent : list nat) (u : nat) : res bool :=
  do du <- vget depth u ;
  do pu <- vget parent u ;
  if negb (du =? vmax) && negb (pu =? vmax) then
    if u =? source then Ok ((pu =? u) && (du =? 0))
    else
      do row <- vget g_t u ;
      do r <- bv_find vmax depth pu du row ;
      match r with Some b => Ok b | None => Ok false end
  else Ok (du =? pu).
Fixpoint bv_checks (vmax : nat) (g_t : list (list nat)) (source : nat) (depth parent : list nat) (us : list nat) : res bool :=
  match us with
  | [] => Ok true
  | u :: rest =>
      do b <- bv_check vmax g_t source depth parent u ;
      if b then bv_checks vmax g_t source depth parent rest else Ok false
  end.
(** 45-98. *)
Definition BFSVerifier (fuel vmax : nat) (g g_t : list (list nat)) (source : nat) (parent : list nat) : res bool :=
  let n := length g in
  do depth0 <- vset (repeat vmax n) source 0 ;
  do depth <- bv_loop fuel vmax g 0 ([source], depth0) ;
  bv_checks vmax g_t source depth parent (seq 0 n).
