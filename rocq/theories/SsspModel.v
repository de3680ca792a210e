(** Model of algorithms/dijkstra.hpp:43-115 and algorithms/delta_stepping.hpp:43-156 (single-source shortest paths).
    A graph is the list of its rows of (target, weight); weights and distances are unsigned, additions are taken
    modulo [D] (2^width of the distance type). Vertices are list positions. *)
From Coq Require Import List Arith Bool.
From Verif Require Import Base.
Import ListNotations.
Set Implicit Arguments.

Definition wgraph : Type := list (list (nat * nat)).

(** * std::priority_queue<tuple<vertex, distance>, ..., greater>: kept as a sorted list; top is the least tuple in
    lexicographic order (vertex first). *)
Definition lex_lt (a b : nat * nat) : bool := (fst a <? fst b) || ((fst a =? fst b) && (snd a <? snd b)).
Fixpoint pq_push (x : nat * nat) (q : list (nat * nat)) : list (nat * nat) :=
  match q with
  | [] => [x]
  | y :: r => if lex_lt y x then y :: pq_push x r else x :: q
  end.

(** * dijkstra *)
Definition dj_state : Type := (list nat * list (nat * nat))%type.    (* distance, Q *)
(** dijkstra.hpp:104-111: the body for one edge e = (v, w) of u. *)
Definition dj_relax (D u : nat) (st : dj_state) (e : nat * nat) : res dj_state :=
  let (distance, Q) := st in
  do du <- vget distance u ;
  do dv <- vget distance (fst e) ;
  let nd := (du + snd e) mod D in
  if nd <? dv then
    do distance' <- vset distance (fst e) nd ;
    Ok (distance', pq_push (fst e, nd) Q)
  else Ok st.
(** 99-112. *)
Fixpoint dj_loop (fuel D : nat) (g : wgraph) (st : dj_state) : res (list nat) :=
  match snd st with
  | [] => Ok (fst st)
  | (u, _) :: Q =>
      match fuel with
      | 0 => OutOfFuel
      | S f =>
          do row <- vget g u ;
          do st' <- rfold (dj_relax D u) row (fst st, Q) ;
          dj_loop f D g st'
      end
  end.
(** 79-114; [vmax] = numeric_limits<vertex_id_type>::max() is the initial distance (88). *)
Definition dijkstra (fuel D vmax : nat) (g : wgraph) (source : nat) : res (list nat) :=
  do distance <- vset (repeat vmax (length g)) source 0 ;
  dj_loop fuel D g (distance, [(source, 0)]).

(** * Sequential delta_stepping *)
Definition ds_state : Type := (list nat * list (list nat))%type.      (* tdist, bins *)
(** delta_stepping.hpp:119-129: relax(i, j, wt) with e = (j, wt). *)
Definition ds_relax (D delta i : nat) (st : ds_state) (e : nat * nat) : res ds_state :=
  let (tdist, bins) := st in
  do di <- vget tdist i ;
  do dj <- vget tdist (fst e) ;
  let nd := (di + snd e) mod D in
  if nd <? dj then
    do tdist' <- vset tdist (fst e) nd ;
    if delta =? 0 then Ub else
    let dest := nd / delta in
    let bins1 := if length bins <=? dest then bins ++ repeat [] (dest + 1 - length bins) else bins in
    do b <- vget bins1 dest ;
    do bins' <- vset bins1 dest (b ++ [fst e]) ;
    Ok (tdist', bins')
  else Ok st.
(** 138-146: one vertex of the frontier. *)
Definition ds_vertex (D delta : nat) (g : wgraph) (top : nat) (st : ds_state) (i : nat) : res ds_state :=
  do di <- vget (fst st) i ;
  if delta * top <=? di then
    do row <- vget g i ;
    rfold (ds_relax D delta i) row st
  else Ok st.
(** 149-151: skip empty bins; [k] bounds the search. *)
Fixpoint ds_next (k top : nat) (bins : list (list nat)) : nat :=
  match k with
  | 0 => top
  | S k' => if top <? length bins then match nth top bins [] with [] => ds_next k' (S top) bins | _ => top end else top
  end.
(** 133-152. *)
Fixpoint ds_loop (fuel D delta : nat) (g : wgraph) (top : nat) (st : ds_state) : res (list nat) :=
  if top <? length (snd st) then
    match fuel with
    | 0 => OutOfFuel
    | S f =>
        do frontier <- vget (snd st) top ;
        do bins <- vset (snd st) top [] ;
        do st' <- rfold (ds_vertex D delta g top) frontier (fst st, bins) ;
        ds_loop f D delta g (ds_next (length (snd st')) top (snd st')) st'
    end
  else Ok (fst st).
(** 109-155; [inf] = numeric_limits<distance_t>::max(). *)
Definition delta_stepping (fuel D inf : nat) (g : wgraph) (source delta : nat) : res (list nat) :=
  do tdist <- vset (repeat inf (length g)) source 0 ;
  ds_loop fuel D delta g 0 (tdist, [[source]]).

(** * delta_stepping_m1 (55-92) *)
(** 49-52: begin() and end() of _priority_queue, as positions in the underlying container: both are c.begin(). *)
Definition m1_begin (q : list nat) : nat := 0.
Definition m1_end (q : list nat) : nat := 0.
(** 69-75. *)
Definition m1_relax (D i : nat) (st : list nat * list nat) (e : nat * nat) : res (list nat * list nat) :=
  let (tdist, Q) := st in
  do di <- vget tdist i ;
  do dj <- vget tdist (fst e) ;
  let nd := (di + snd e) mod D in
  if nd <? dj then
    do tdist' <- vset tdist (fst e) nd ;
    Ok (tdist', Q ++ [fst e])
  else Ok st.
(** 77-89. The heap order does not matter to the claim: Q is the underlying container in some order. *)
Fixpoint m1_loop (fuel D : nat) (g : wgraph) (st : list nat * list nat) : res (list nat) :=
  match snd st with
  | [] => Ok (fst st)
  | frontier =>
      match fuel with
      | 0 => OutOfFuel
      | S f =>
          do vs <- vslice frontier (m1_begin frontier) (m1_end frontier) ;
          do st' <- rfold (fun st i => do row <- vget g i ; rfold (m1_relax D i) row st) vs (fst st, []) ;
          m1_loop f D g st'
      end
  end.
Definition delta_stepping_m1 (fuel D inf : nat) (g : wgraph) (source : nat) : res (list nat) :=
  do tdist <- vset (repeat inf (length g)) source 0 ;
  m1_loop fuel D g (tdist, [source]).

(** * dijkstra_er (43-65) over adaptors/bfs_edge_range.hpp:210-291 *)
(** Colours: 0 white, 1 grey, 2 black. The iterator is (v_, position in the row of v_). [strict] decides what
    Q.top() on an empty queue does (line 258 evaluates it before testing empty()): undefined behaviour when true,
    the stale storage of the last popped (black) element when false. *)
Record er_state : Type := mkEr { er_Q : list (nat * nat); er_col : list nat; er_v : nat; er_pos : nat; er_dist : list nat }.
(** 251-253, 266-268: skip the non-white neighbours. *)
Fixpoint er_skip (col : list nat) (row : list (nat * nat)) (pos : nat) : res nat :=
  match row with
  | [] => Ok pos
  | e :: r =>
      do c <- vget col (fst e) ;
      if c =? 0 then Ok pos else er_skip col r (S pos)
  end.
(** 258-259. *)
Fixpoint er_drop (strict : bool) (col : list nat) (Q : list (nat * nat)) : res (list (nat * nat)) :=
  match Q with
  | [] => if strict then Ub else Ok []
  | (v, _) :: r =>
      do c <- vget col v ;
      if c =? 2 then er_drop strict col r else Ok Q
  end.
(** 255-269: find the next vertex with a white neighbour. *)
Fixpoint er_refill (fuel : nat) (strict : bool) (g : wgraph) (Q : list (nat * nat)) (col : list nat) (v : nat) : res (list (nat * nat) * list nat * nat * nat) :=
  match fuel with
  | 0 => OutOfFuel
  | S f =>
      do col' <- vset col v 2 ;
      do Q' <- er_drop strict col' Q ;
      match Q' with
      | [] => do row <- vget g v ; Ok (Q', col', v, length row)
      | (v', _) :: _ =>
          do row <- vget g v' ;
          do pos <- er_skip col' row 0 ;
          if pos =? length row then er_refill f strict g Q' col' v' else Ok (Q', col', v', pos)
      end
  end.
(** 244-272: operator++; [big] is the truncation of 0xffffffffffffffff to the distance type. *)
Definition er_next (fuel : nat) (strict : bool) (big : nat) (g : wgraph) (st : er_state) : res er_state :=
  do row <- vget g (er_v st) ;
  do e <- vget row (er_pos st) ;
  let Q1 := pq_push (fst e, big) (er_Q st) in
  do col1 <- vset (er_col st) (fst e) 1 ;
  do pos <- er_skip col1 (skipn (S (er_pos st)) row) (S (er_pos st)) ;
  if pos =? length row then
    do r <- er_refill fuel strict g Q1 col1 (er_v st) ;
    let '(Q2, col2, v2, pos2) := r in
    Ok (mkEr Q2 col2 v2 pos2 (er_dist st))
  else Ok (mkEr Q1 col1 (er_v st) pos (er_dist st)).
(** dijkstra.hpp:57-62: one iteration of the range-for body. *)
Definition er_body (D : nat) (g : wgraph) (st : er_state) : res er_state :=
  do row <- vget g (er_v st) ;
  do e <- vget row (er_pos st) ;
  do du <- vget (er_dist st) (er_v st) ;
  do dv <- vget (er_dist st) (fst e) ;
  let nd := (du + snd e) mod D in
  if nd <? dv then
    do dist' <- vset (er_dist st) (fst e) nd ;
    Ok (mkEr (pq_push (fst e, nd) (er_Q st)) (er_col st) (er_v st) (er_pos st) dist')
  else Ok st.
Fixpoint er_loop (fuel : nat) (strict : bool) (D big : nat) (g : wgraph) (st : er_state) : res (list nat) :=
  match er_Q st with
  | [] => Ok (er_dist st)
  | _ =>
      match fuel with
      | 0 => OutOfFuel
      | S f =>
          do st1 <- er_body D g st ;
          do st2 <- er_next fuel strict big g st1 ;
          er_loop f strict D big g st2
      end
  end.
(** [inf] = 0xDEADBEEF; the range is seeded with its default (0, 0) (bfs_edge_range.hpp:216), not with [source]. *)
Definition dijkstra_er (fuel : nat) (strict : bool) (D big inf : nat) (g : wgraph) (source : nat) : res (list nat) :=
  do distance <- vset (repeat inf (length g)) source 0 ;
  do col <- vset (repeat 0 (length g)) 0 1 ;
  do row <- vget g 0 ;
  er_loop fuel strict D big g (mkEr [(0, 0)] col 0 0 distance).
