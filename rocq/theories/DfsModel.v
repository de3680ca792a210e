(** Model of adaptors/dfs_range.hpp: dfs_range (29-120) and dfs_edge_range (122-201).  As for the breadth-first ranges,
    what is modelled is what a range-for loop sees; an inner iterator is a position in the row it belongs to.
    three_colors (line 27): 0 = black, 1 = white, 2 = grey.  A std::stack is a list, its top first. *)
From Coq Require Import List Arith Lia Bool.
From Verif Require Import Base.
Import ListNotations.
Set Implicit Arguments.

Notation rows := (list (list nat)) (only parsing).

(** ** dfs_edge_range.  Q_, colors_ (198-200) and the iterator's v_ and u_begin (138-141) *)
Record de_state := { de_q : list nat; de_c : list nat; de_v : nat; de_i : nat }.
(** skip the targets that are not white (159-161 and 173-175); [l] is the row from position [i] on *)
Fixpoint de_skip (c : list nat) (l : list nat) (i : nat) : res nat :=
  match l with
  | [] => Ok i
  | u :: l' => do x <- vget c u ; if x =? 1 then Ok i else de_skip c l' (S i)
  end.
(** the loop `while (u_begin == u_end)` (163-176), entered at the end of the row of [v]; top() of an empty stack is
    undefined; with [debug] the assertion of line 169 is checked *)
Fixpoint de_up (debug : bool) (g : rows) (c q : list nat) (v i : nat) : res de_state :=
  do c' <- vset c v 0 ;
  match q with
  | [] => Ub
  | v' :: q' =>
    match q' with
    | [] => Ok {| de_q := []; de_c := c'; de_v := v'; de_i := i |}
    | _ =>
      do x <- vget c' v' ;
      if debug && negb (x =? 2) then Ub
      else
        do row <- vget g v' ;
        do i' <- de_skip c' row 0 ;
        if i' =? length row then de_up debug g c' q' v' i'
        else Ok {| de_q := q'; de_c := c'; de_v := v'; de_i := i' |}
    end
  end.
(** operator++ (147-179) *)
Definition de_next (debug : bool) (g : rows) (st : de_state) : res de_state :=
  do c <- vset (de_c st) (de_v st) 2 ;
  do row <- vget g (de_v st) ;
  do v <- vget row (de_i st) ;
  do row' <- vget g v ;
  do i <- de_skip c row' 0 ;
  if i =? length row' then de_up debug g c (de_v st :: de_q st) v i
  else Ok {| de_q := de_v st :: de_q st; de_c := c; de_v := v; de_i := i |}.
(** operator* (181) *)
Definition de_deref (g : rows) (st : de_state) : res (nat * nat) :=
  do row <- vget g (de_v st) ; do u <- vget row (de_i st) ; Ok (de_v st, u).
(** the loop; the end is the empty stack (134, 188-189) *)
Fixpoint de_loop (debug : bool) (fuel : nat) (g : rows) (st : de_state) : res (list (nat * nat)) :=
  match de_q st with
  | [] => Ok []
  | _ =>
    match fuel with
    | 0 => OutOfFuel
    | S f => do e <- de_deref g st ; do st' <- de_next debug g st ; do r <- de_loop debug f g st' ; Ok (e :: r)
    end
  end.
(** constructor (126-129) and begin() (144-145, 194) *)
Definition dfs_edges (debug : bool) (g : rows) (seed : nat) : res (list (nat * nat)) :=
  do c <- vset (repeat 1 (length g)) seed 2 ;
  do _ <- vget g seed ;
  de_loop debug (2 * length g + 1) g {| de_q := [seed]; de_c := c; de_v := seed; de_i := 0 |}.

(** ** dfs_range.  [m] = graph.end() - graph.begin() is the number of colours (33); it is graph.size() = length g for
    ordinary graphs and one more for the compressed graphs of C04. *)
(** dfs_visit (46-65) from position [i] of row [v] *)
Fixpoint dr_visit (fuel : nat) (g : rows) (q c : list nat) (v i : nat) : res (list nat * list nat) :=
  do row <- vget g v ;
  if i =? length row then Ok (q, c)
  else
    match fuel with
    | 0 => OutOfFuel
    | S f =>
      do u <- vget row i ;
      do x <- vget c u ;
      if x =? 1 then
        do c1 <- vset c v 2 ;
        do c2 <- vset c1 u 0 ;
        dr_visit f g (u :: v :: q) c2 u 0
      else
        do c2 <- vset c v 0 ;
        dr_visit f g (v :: q) c2 v (S i)
    end.
(** lines 77-78 *)
Fixpoint dr_pop (c q : list nat) : res (list nat) :=
  match q with
  | [] => Ok []
  | v :: q' => do x <- vget c v ; if x =? 0 then dr_pop c q' else Ok q
  end.
(** lines 83-84: ++cursor_ comes before the test against size(); [k] bounds the number of rounds *)
Fixpoint dr_scan (k : nat) (g : rows) (c : list nat) (cursor : nat) : res nat :=
  match k with
  | 0 => OutOfFuel
  | S k' =>
    do x <- vget c (S cursor) ;
    if negb (x =? 1) && negb (S cursor =? length g) then dr_scan k' g c (S cursor) else Ok (S cursor)
  end.
(** Q_, colors_, cursor_ *)
Record dr_state := { dr_q : list nat; dr_c : list nat; dr_cursor : nat }.
(** operator++ (72-93); [fuel] bounds each dfs_visit *)
Definition dr_next (fuel : nat) (g : rows) (st : dr_state) : res dr_state :=
  do q <- dr_pop (dr_c st) (dr_q st) ;
  match q with
  | v :: _ => do r <- dr_visit fuel g q (dr_c st) v 0 ; Ok {| dr_q := fst r; dr_c := snd r; dr_cursor := dr_cursor st |}
  | [] =>
    do k <- dr_scan (S (length g)) g (dr_c st) (dr_cursor st) ;
    if k =? length g then Ok {| dr_q := []; dr_c := dr_c st; dr_cursor := k |}
    else
      do c <- vset (dr_c st) k 2 ;
      do r <- dr_visit fuel g [k] c k 0 ; Ok {| dr_q := fst r; dr_c := snd r; dr_cursor := k |}
  end.
(** the loop: operator* is the top (95), the end is the empty stack (103-104); [fuel] bounds the number of elements *)
Fixpoint dr_loop (vf fuel : nat) (g : rows) (st : dr_state) : res (list nat) :=
  match dr_q st with
  | [] => Ok []
  | v :: _ =>
    match fuel with
    | 0 => OutOfFuel
    | S f => do st' <- dr_next vf g st ; do r <- dr_loop vf f g st' ; Ok (v :: r)
    end
  end.
(** constructor (33-38) *)
Definition dfs_vertices (m vf fuel : nat) (g : rows) (seed : nat) : res (list nat) :=
  do c <- vset (repeat 1 m) seed 2 ;
  do r <- dr_visit vf g [seed] c seed 0 ;
  dr_loop vf fuel g {| dr_q := fst r; dr_c := snd r; dr_cursor := 0 |}.
