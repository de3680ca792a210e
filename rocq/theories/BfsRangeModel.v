(** Model of the breadth-first range adaptors of adaptors/bfs_range.hpp and adaptors/bfs_edge_range.hpp.  A range is single pass; what is modelled is the list of elements a range-for
    loop over it sees (`for (it = r.begin(); it != r.end(); ++it) *it`).  A graph is the list of its rows, an inner
    iterator is a position in the row it belongs to; dereferencing it at the end of its row is undefined ([Ub]). *)
From Coq Require Import List Arith Lia Bool.
From Verif Require Import Base.
Import ListNotations.
Set Implicit Arguments.

Notation rows := (list (list nat)) (only parsing).

(** topdown_bfs_range (bfs_range.hpp 110-181, the branch in use).
    visit(v), lines 125-135: push and mark the unvisited neighbours. *)
Definition td_visit_one (st : list bool * list nat) (u : nat) : res (list bool * list nat) :=
  do b <- vget (fst st) u ;
  if b then Ok st
  else do vis <- vset (fst st) u true ; Ok (vis, snd st ++ [u]).
Definition td_visit (g : rows) (v : nat) (st : list bool * list nat) : res (list bool * list nat) :=
  do row <- vget g v ; rfold td_visit_one row st.
(** constructor, lines 151-154 with init, 119-122: mark and push the seed, then visit it. *)
Definition td_ctor (g : rows) (seed : nat) : res (list bool * list nat) :=
  do vis <- vset (repeat false (length g)) seed true ;
  td_visit g seed (vis, [seed]).
(** the loop: operator* is the head of the queue (line 169), operator++ is process (139-145), the end is the empty
    queue (171-172). *)
Fixpoint td_loop (fuel : nat) (g : rows) (st : list bool * list nat) : res (list nat) :=
  match snd st with
  | [] => Ok []
  | v :: q =>
    match fuel with
    | 0 => OutOfFuel
    | S f => do st' <- td_visit g v (fst st, q) ; do r <- td_loop f g st' ; Ok (v :: r)
    end
  end.
Definition topdown (g : rows) (seed : nat) : res (list nat) :=
  do st <- td_ctor g seed ; td_loop (length g) g st.

(** bottomup_bfs_range (bfs_range.hpp 187-268); status (line 27): 0 = ready, 1 = waiting, 2 = processed. *)
Record bu_state := { bu_colors : list nat; bu_v : nat; bu_parent : nat }.
(** the first processed neighbour, if any (lines 211-216) *)
Fixpoint bu_first (colors : list nat) (row : list nat) (parent : nat) : res nat :=
  match row with
  | [] => Ok parent
  | u :: row' => do c <- vget colors u ; if c =? 2 then Ok u else bu_first colors row' parent
  end.
(** advance, lines 198-218 *)
Definition bu_advance (g : rows) (st : bu_state) : res bu_state :=
  do c1 <- vset (bu_colors st) (bu_v st) 2 ;
  if length g =? 0 then Ub
  else
    let v := S (bu_v st) mod length g in
    do c2 <- vset c1 v 1 ;
    do row <- vget g v ;
    if length row =? 0 then Ok {| bu_colors := c2; bu_v := v; bu_parent := v |}
    else do p <- bu_first c2 row (bu_parent st) ; Ok {| bu_colors := c2; bu_v := v; bu_parent := p |}.
(** constructor, lines 232-240 *)
Definition bu_ctor (g : rows) (seed : nat) : res bu_state :=
  do c <- vset (repeat 0 (length g)) seed 1 ;
  do row <- vget g seed ;
  match row with
  | [] => Ok {| bu_colors := c; bu_v := seed; bu_parent := seed |}
  | u :: _ => Ok {| bu_colors := c; bu_v := seed; bu_parent := u |}
  end.
(** the loop: n_ counts the advances, the end is n_ == size (line 267); an element is (v_, parent_v_) (line 228).
    The recursion argument is size - n_. *)
Fixpoint bu_loop (k : nat) (g : rows) (st : bu_state) : res (list (nat * nat)) :=
  match k with
  | 0 => Ok []
  | S k' => do st' <- bu_advance g st ; do r <- bu_loop k' g st' ; Ok ((bu_v st, bu_parent st) :: r)
  end.
Definition bottomup (g : rows) (seed : nat) : res (list (nat * nat)) :=
  do st <- bu_ctor g seed ; bu_loop (length g) g st.

(** bfs_edge_range (bfs_edge_range.hpp 121-205, the branch in use).  The state of the loop: visited_, Q_, v_ and the
    position of u_begin in the row of v_. *)
Record er_state := { er_vis : list bool; er_q : list nat; er_v : nat; er_i : nat }.
(** skip the visited neighbours (lines 163-165 and 176-178); [l] is the row from position [i] on *)
Fixpoint er_skip (vis : list bool) (l : list nat) (i : nat) : res nat :=
  match l with
  | [] => Ok i
  | u :: l' => do b <- vget vis u ; if b then er_skip vis l' (S i) else Ok i
  end.
(** the loop that looks for the next queued vertex with an unvisited neighbour (lines 167-179), entered after Q.pop() *)
Fixpoint er_pop (g : rows) (vis : list bool) (q : list nat) (v i : nat) : res er_state :=
  match q with
  | [] => Ok {| er_vis := vis; er_q := []; er_v := v; er_i := i |}
  | v' :: q' =>
    do b <- vget vis v' ;
    if negb b then Ub (* assert(visited[v_] == true), line 172 *)
    else
      do row <- vget g v' ;
      do i' <- er_skip vis row 0 ;
      if i' =? length row then er_pop g vis q' v' i'
      else Ok {| er_vis := vis; er_q := q; er_v := v'; er_i := i' |}
  end.
(** operator++, lines 154-182 *)
Definition er_next (g : rows) (st : er_state) : res er_state :=
  do row <- vget g (er_v st) ;
  do u <- vget row (er_i st) ;
  do vis <- vset (er_vis st) u true ;
  let q := er_q st ++ [u] in
  do i <- er_skip vis (skipn (S (er_i st)) row) (S (er_i st)) ;
  if i =? length row then er_pop g vis (tl q) (er_v st) i
  else Ok {| er_vis := vis; er_q := q; er_v := er_v st; er_i := i |}.
(** operator*, line 185 *)
Definition er_deref (g : rows) (st : er_state) : res (nat * nat) :=
  do row <- vget g (er_v st) ; do u <- vget row (er_i st) ; Ok (er_v st, u).
Fixpoint er_loop (fuel : nat) (g : rows) (st : er_state) : res (list (nat * nat)) :=
  match er_q st with
  | [] => Ok []
  | _ =>
    match fuel with
    | 0 => OutOfFuel
    | S f => do e <- er_deref g st ; do st' <- er_next g st ; do r <- er_loop f g st' ; Ok (e :: r)
    end
  end.
(** constructor (lines 127-130) and begin() (lines 147-149, 198) *)
Definition bfs_edges (g : rows) (seed : nat) : res (list (nat * nat)) :=
  do vis <- vset (repeat false (length g)) seed true ;
  do _ <- vget g seed ;
  er_loop (S (length g)) g {| er_vis := vis; er_q := [seed]; er_v := seed; er_i := 0 |}.

(** bfs_edge_range3 (bfs_edge_range.hpp 296-396).  three_colors (line 31): 0 = black, 1 = white, 2 = grey. *)
Record e3_state := { e3_c : list nat; e3_q0 : list nat; e3_q1 : list nat }.
(** mark the white neighbours grey and append them to Q_[1] (lines 306-312 and 341-347) *)
Definition e3_explore_one (st : list nat * list nat) (u : nat) : res (list nat * list nat) :=
  do c <- vget (fst st) u ;
  if c =? 1 then do c' <- vset (fst st) u 2 ; Ok (c', snd st ++ [u]) else Ok st.
Definition e3_explore (g : rows) (v : nat) (st : list nat * list nat) : res (list nat * list nat) :=
  do row <- vget g v ; rfold e3_explore_one row st.
(** the loop of lines 335-354, entered with Q_[1] empty: it only pops Q_[0] and fills Q_[1] *)
Fixpoint e3_fill (g : rows) (c : list nat) (q0 : list nat) : res e3_state :=
  match q0 with
  | [] => Ok {| e3_c := c; e3_q0 := []; e3_q1 := [] |}
  | v :: q0' =>
    do st <- e3_explore g v (c, []) ;
    match snd st with
    | [] => do c' <- vset (fst st) v 0 ; e3_fill g c' q0'
    | _ => Ok {| e3_c := fst st; e3_q0 := q0; e3_q1 := snd st |}
    end
  end.
(** operator++, lines 324-361 *)
Definition e3_next (g : rows) (st : e3_state) : res e3_state :=
  match e3_q1 st with
  | u :: q1 =>
    do c <- vset (e3_c st) u 0 ;
    let q0 := e3_q0 st ++ [u] in
    match q1 with
    | [] => e3_fill g c q0
    | _ => Ok {| e3_c := c; e3_q0 := q0; e3_q1 := q1 |}
    end
  | [] =>
    match e3_q0 st with
    | [] => Ub
    | v :: q0 => do c <- vset (e3_c st) v 0 ; Ok {| e3_c := c; e3_q0 := q0; e3_q1 := [] |}
    end
  end.
(** operator*, lines 363-370 *)
Definition e3_deref (st : e3_state) : res (nat * nat) :=
  match e3_q0 st, e3_q1 st with
  | v :: _, u :: _ => Ok (v, u)
  | v :: _, [] => Ok (v, v)
  | [], _ => Ub
  end.
Fixpoint e3_loop (fuel : nat) (g : rows) (st : e3_state) : res (list (nat * nat)) :=
  match e3_q0 st with
  | [] => Ok []
  | _ =>
    match fuel with
    | 0 => OutOfFuel
    | S f => do e <- e3_deref st ; do st' <- e3_next g st ; do r <- e3_loop f g st' ; Ok (e :: r)
    end
  end.
(** constructor, lines 302-313 *)
Definition bfs_edges3 (g : rows) (seed : nat) : res (list (nat * nat)) :=
  do c <- vset (repeat 1 (length g)) seed 2 ;
  do st <- e3_explore g seed (c, []) ;
  e3_loop (S (length g)) g {| e3_c := fst st; e3_q0 := [seed]; e3_q1 := snd st |}.
