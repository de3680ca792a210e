(** Model of algorithms/k_core.hpp and of the depth-first edge range it walks, dfs_edge_range of adaptors/new_dfs_range.hpp.
    A graph is the list of its rows; a row iterator is a position in the array of all targets, [concat g], so that moving
    beyond a row reads the next rows, and only a read beyond the array is undefined. *)
From Coq Require Import List Arith Bool ZArith.
From Verif Require Import Base WalkModel.
Import ListNotations.
Set Implicit Arguments.
Local Open Scope nat_scope.

(** ** dfs_edge_range *)
(** new_dfs_range.hpp:26 *)
Inductive color := black | white | grey.
Definition is_white (c : color) : bool := match c with white => true | _ => false end.
Definition is_grey (c : color) : bool := match c with grey => true | _ => false end.
(** the range's Q_ (top first) and colors_ (246-248) and the iterator's members (137-141). has_parent_ and u_parent are not
    initialised by the constructor: None until they are assigned *)
Record dfs := mk_dfs {
  Q : list nat; colors : list color; cur : nat; ub : nat; ue : nat; up : option nat; hp : option bool; be : bool }.
Definition top (q : list nat) : res nat := match q with [] => Ub | x :: _ => Ok x end.
Definition read {A} (o : option A) : res A := match o with Some x => Ok x | None => Ub end.
(** G[v].begin(), G[v].end() *)
Definition row_of (g : list (list nat)) (v : nat) : res (nat * nat) :=
  do r <- vget g v ; Ok (row_start g v, row_start g v + length r).
(** the constructors (125-128, 144-146) *)
Definition dfs_begin (g : list (list nat)) (seed : nat) : res dfs :=
  do c <- vset (repeat white (length g)) seed grey ;
  do r <- row_of g seed ;
  Ok (mk_dfs [seed] c seed (fst r) (snd r) None None false).
(** the loops of 162-166 and 203-207: skip the arcs to the parent, without looking for the end of the row. One unit of
    fuel per arc; the array ends after [length arr] of them *)
Fixpoint skip_parent (fuel : nat) (arr : list nat) (t : nat) (u : nat) (p : option nat) (h : option bool) : res (nat * option nat * option bool) :=
  do x <- vget arr u ;
  if x =? t then match fuel with 0 => OutOfFuel | S f => skip_parent f arr t (S u) (Some u) (Some true) end
  else Ok (u, p, h).
(** lines 175-179 = 193-197 = 212-216: leave the vertex; the flag says whether the stack is empty now *)
Definition leave (s : dfs) : res (dfs * bool) :=
  do c <- vset (colors s) (cur s) black ;
  do t <- top (Q s) ;
  let q := tl (Q s) in
  Ok (mk_dfs q c t (ub s) (ue s) (up s) (Some false) (be s), match q with [] => true | _ => false end).
(** lines 211-217: the end of operator++ *)
Definition dfs_finish (s : dfs) : res dfs :=
  if ub s =? ue s then
    do h <- read (hp s) ;
    if h then Ok s else do r <- leave s ; Ok (fst r)
  else Ok s.
(** lines 153-166: the target is white, go down *)
Definition dfs_down (g : list (list nat)) (s : dfs) (w : nat) : res dfs :=
  do c <- vset (colors s) (cur s) grey ;
  do r <- row_of g w ;
  do k <- skip_parent (length (concat g)) (concat g) (cur s) (fst r) (up s) (hp s) ;
  let '(u, p, h) := k in
  Ok (mk_dfs (cur s :: Q s) c w u (snd r) p h (be s)).
(** lines 167-187: the target is not white; the flag says that operator++ returns at once *)
Definition dfs_next (g : list (list nat)) (s : dfs) (w : nat) : res (dfs * bool) :=
  do t <- top (Q s) ;
  let s1 := if w =? t then mk_dfs (Q s) (colors s) (cur s) (S (ub s)) (ue s) (Some (ub s)) (Some true) (be s)
            else mk_dfs (Q s) (colors s) (cur s) (S (ub s)) (ue s) (up s) (hp s) (be s) in
  do r <- (if ub s1 =? ue s1 then (do h <- read (hp s1) ; if h then Ok (s1, false) else leave s1) else Ok (s1, false)) ;
  let (s2, stop) := (r : dfs * bool) in
  if stop then Ok (s2, true)
  else if ub s2 =? ue s2 then Ok (s2, false)
  else
    do x <- vget (concat g) (ub s2) ;
    do t2 <- top (Q s2) ;
    Ok (if x =? t2 then mk_dfs (Q s2) (colors s2) (cur s2) (S (ub s2)) (ue s2) (Some (ub s2)) (Some true) (be s2) else s2, false).
(** lines 192-208: the end of the row, go up. With [debug] the assertion of line 199 is checked *)
Definition dfs_up (debug : bool) (g : list (list nat)) (s : dfs) : res (dfs * bool) :=
  do r <- leave s ;
  let (s1, stop) := (r : dfs * bool) in
  if stop then Ok (s1, true)
  else
    do c <- vget (colors s1) (cur s1) ;
    if debug && negb (is_grey c) then Ub
    else
      do rw <- row_of g (cur s1) ;
      do t <- top (Q s1) ;
      do k <- skip_parent (length (concat g)) (concat g) t (fst rw) (up s1) (hp s1) ;
      let '(u, p, h) := k in
      Ok (mk_dfs (Q s1) (colors s1) (cur s1) u (snd rw) p h (be s1), false).
Definition set_back (s : dfs) : dfs := mk_dfs (Q s) (colors s) (cur s) (ub s) (ue s) (up s) (hp s) (ub s =? ue s).
(** operator++ (148-220) *)
Definition dfs_incr (debug : bool) (g : list (list nat)) (s0 : dfs) : res dfs :=
  let s := mk_dfs (Q s0) (colors s0) (cur s0) (ub s0) (ue s0) (up s0) (hp s0) false in
  if ub s =? ue s then
    do r <- dfs_up debug g s ;
    if snd r then Ok (fst r) else dfs_finish (fst r)
  else
    do w <- vget (concat g) (ub s) ;
    do c <- vget (colors s) w ;
    if is_white c then
      do s1 <- dfs_down g s w ;
      dfs_finish (set_back s1)
    else
      do r <- dfs_next g s w ;
      if snd r then Ok (fst r) else dfs_finish (set_back (fst r)).
(** operator* (222-227): the two vertices; the first component is not used by k_core, but its evaluation reads the colour *)
Definition dfs_deref (g : list (list nat)) (s : dfs) : res (nat * nat) :=
  if be s then
    do p <- read (up s) ;
    do w <- vget (concat g) p ;
    Ok (cur s, w)
  else
    do w <- vget (concat g) (ub s) ;
    do _ <- vget (colors s) w ;
    Ok (cur s, w).

(** ** k_core *)
(** make_my_pair (k_core.hpp:53-56) *)
Definition my_pair (x y : nat) : nat * nat := if x <? y then (x, y) else (y, x).
Definition has_pair (f : list (nat * nat)) (e : nat * nat) : bool :=
  existsb (fun x => (fst x =? fst e) && (snd x =? snd e)) f.
(** the degrees are ints and the number of vertices a size_t, here integers without bounds *)
Definition kstate : Type := (list (nat * nat) * list Z * Z)%type.
(** if (--degree[x] == 0) n_vtx-- *)
Definition lose (x : nat) (st : list Z * Z) : res (list Z * Z) :=
  let (deg, n) := st in
  do d <- vget deg x ;
  do deg' <- vset deg x (d - 1)%Z ;
  Ok (deg', if (d - 1 =? 0)%Z then (n - 1)%Z else n).
(** the loop body (82-92) *)
Definition kc_edge (k : Z) (st : kstate) (vw : nat * nat) : res kstate :=
  let '(filter, deg, n) := st in
  let (v, w) := (vw : nat * nat) in
  let e := my_pair v w in
  if has_pair filter e then Ok st
  else
    do d <- vget deg v ;
    if (d <? k)%Z then
      do s1 <- lose w (deg, n) ;
      do s2 <- lose v s1 ;
      Ok (filter ++ [e], fst s2, snd s2)
    else Ok st.
(** the loop (81-93), one iteration per unit of fuel *)
Fixpoint kc_loop (fuel : nat) (debug : bool) (k : Z) (g : list (list nat)) (s : dfs) (st : kstate) : res kstate :=
  match Q s with
  | [] => Ok st
  | _ =>
    match fuel with
    | 0 => OutOfFuel
    | S f =>
      do vw <- dfs_deref g s ;
      do st' <- kc_edge k st vw ;
      do s' <- dfs_incr debug g s ;
      kc_loop f debug k g s' st'
    end
  end.
(** lines 72-77: counting the arcs into each vertex *)
Definition in_degrees (g : list (list nat)) : res (list Z) :=
  rfold (fun deg v => do d <- vget deg v ; vset deg v (d + 1)%Z) (concat g) (repeat 0%Z (length g)).
Definition kc_fuel (g : list (list nat)) : nat := (4 * length g + 6) * (length (concat g) + 2).
(** k_core (67-120) *)
Definition k_core (debug : bool) (g : list (list nat)) (k : Z) : res (list (nat * nat) * Z) :=
  do deg <- in_degrees g ;
  do s <- dfs_begin g 0 ;
  do st <- kc_loop (kc_fuel g) debug k g s ([], deg, Z.of_nat (length g)) ;
  Ok (fst (fst st), snd st).
