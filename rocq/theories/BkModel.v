(** Model of bk_maxflow (algorithms/boykov_kolmogorov.hpp, lines 43-342).
    The header does not compile as it stands ([null_vertex_v] is a function template, used there as a value); the model reads
    [null_vertex_v] as the null vertex.  The graph is one in which every arc has a reverse arc, given by its rows of (neighbour,
    capacity) without repetition, so that the reference returned by get_back_edge(p, q) (adaptors/back_edge_range.hpp) is that of
    the arc from q to p and the residual capacities can be kept in a map from arcs.  Capacities are integers (doubles that hold
    integers), for which [x <= tol] (tol = 1e-12) is [x <= 0].  The vectors tree_id, trees, preds, timestamp, dist and cap, all of
    length n_vtx, are one vector of records. *)
From Coq Require Import List Arith ZArith Bool.
From Verif Require Import Base.
Import ListNotations.
Set Implicit Arguments.
Local Open Scope nat_scope.

(** preds: null, the source (n_vtx), the terminal (n_vtx + 1), a vertex (lines 48-49, 60) *)
Inductive pred : Type := PNone | PSource | PTerm | PVtx (v : nat).
(** tree_id ([true] is tree_mem::term), trees (the arc pointed to; the second pointer is its reverse), preds, timestamp, dist, cap
    (lines 58-62) *)
Record bnode := { x_tree : bool; x_e : option (nat * nat); x_pr : pred; x_ts : nat; x_dist : nat; x_cap : Z }.
Record bk := { k_vs : list bnode; k_r : nat -> nat -> Z; k_act : list nat; k_orp : list nat; k_mf : Z; k_gt : nat }.

Definition with_vs (st : bk) (vs : list bnode) : bk :=
  {| k_vs := vs; k_r := k_r st; k_act := k_act st; k_orp := k_orp st; k_mf := k_mf st; k_gt := k_gt st |}.
Definition with_act (st : bk) (act : list nat) : bk :=
  {| k_vs := k_vs st; k_r := k_r st; k_act := act; k_orp := k_orp st; k_mf := k_mf st; k_gt := k_gt st |}.
Definition with_orp (st : bk) (orp : list nat) : bk :=
  {| k_vs := k_vs st; k_r := k_r st; k_act := k_act st; k_orp := orp; k_mf := k_mf st; k_gt := k_gt st |}.
(** the residual capacity of an arc; moving m units along an arc: residual -= m, reverse residual += m *)
Definition rcap (st : bk) (e : nat * nat) : Z := k_r st (fst e) (snd e).
Definition same_arc (a b : nat) (e : nat * nat) : bool := (a =? fst e) && (b =? snd e).
Definition rpush (r : nat -> nat -> Z) (e : nat * nat) (m : Z) : nat -> nat -> Z :=
  fun a b => if same_arc a b e then (r a b - m)%Z else if same_arc b a e then (r a b + m)%Z else r a b.
Definition push (st : bk) (e : nat * nat) (m : Z) : bk :=
  {| k_vs := k_vs st; k_r := rpush (k_r st) e m; k_act := k_act st; k_orp := k_orp st; k_mf := k_mf st; k_gt := k_gt st |}.

(** lines 70-85 *)
Definition bk_init_node (c : Z) : bnode :=
  if (0 <? c)%Z then {| x_tree := false; x_e := None; x_pr := PSource; x_ts := 0; x_dist := 1; x_cap := c |}
  else if (c <? 0)%Z then {| x_tree := true; x_e := None; x_pr := PTerm; x_ts := 0; x_dist := 1; x_cap := c |}
  else {| x_tree := false; x_e := None; x_pr := PNone; x_ts := 0; x_dist := 0; x_cap := c |}.
Definition bk_init (g : list (list (nat * Z))) (cap : list Z) : res bk :=
  do cs <- rmap (fun i => vget cap i) (seq 0 (length g)) ;
  Ok {| k_vs := map bk_init_node cs;
        k_r := fun p q => match find (fun a => fst a =? q) (nth p g []) with Some a => snd a | None => 0%Z end;
        k_act := filter (fun i => negb (nth i cs 0 =? 0)%Z) (seq 0 (length g));
        k_orp := [];
        k_mf := fold_left (fun m c => if (c <? 0)%Z then (m + c)%Z else m) cs 0%Z;
        k_gt := 0 |}.

(** ** Grow (lines 91-161) *)
(** the arc that carries flow between p and its neighbour q when p is in tree t (lines 105-127); when q is in the other tree this
    is also (connect_s, connect_t) *)
Definition arc (t : bool) (p q : nat) : nat * nat := if t then (q, p) else (p, q).
(** the loop over the neighbours of p (lines 102-154): [Some q] if a connection was found *)
Fixpoint bk_scan (p : nat) (t : bool) (row : list nat) (st : bk) : res (option nat * bk) :=
  match row with
  | [] => Ok (None, st)
  | q :: row' =>
    if (rcap st (arc t p q) <=? 0)%Z then bk_scan p t row' st else
    do nq <- vget (k_vs st) q ;
    match x_pr nq with
    | PNone =>
      do np <- vget (k_vs st) p ;
      do vs <- vset (k_vs st) q {| x_tree := t; x_e := Some (arc t p q); x_pr := PVtx p; x_ts := x_ts np; x_dist := x_dist np + 1; x_cap := x_cap nq |} ;
      bk_scan p t row' (with_act (with_vs st vs) (k_act st ++ [q]))
    | _ =>
      if negb (eqb (x_tree nq) t) then Ok (Some q, st)
      else do np <- vget (k_vs st) p ;
           if (x_ts nq <=? x_ts np) && (x_dist np <? x_dist nq) then
             do vs <- vset (k_vs st) q {| x_tree := x_tree nq; x_e := Some (arc t p q); x_pr := PVtx p; x_ts := x_ts np; x_dist := x_dist np + 1; x_cap := x_cap nq |} ;
             bk_scan p t row' (with_vs st vs)
           else bk_scan p t row' st
    end
  end.
Definition tick (st : bk) : bk :=
  {| k_vs := k_vs st; k_r := k_r st; k_act := k_act st; k_orp := k_orp st; k_mf := k_mf st; k_gt := k_gt st + 1 |}.
Fixpoint bk_grow (fuel : nat) (g : list (list (nat * Z))) (st : bk) : res (option (nat * nat) * bk) :=
  match k_act st with
  | [] => Ok (None, st)
  | p :: rest =>
    match fuel with
    | 0 => OutOfFuel
    | S f =>
      do np <- vget (k_vs st) p ;
      match x_pr np with
      | PNone => bk_grow f g (with_act st rest)
      | _ =>
        do row <- vget g p ;
        do r <- bk_scan p (x_tree np) (map fst row) st ;
        let st' := tick (snd r) in
        match fst r with
        | Some q => Ok (Some (arc (x_tree np) p q), st')
        | None => bk_grow f g (with_act st' (tl (k_act st')))
        end
      end
    end
  end.

(** ** Augment (lines 165-231) *)
Definition is_root (t : bool) (pr : pred) : bool := match pr with PSource => negb t | PTerm => t | _ => false end.
(** the search for the smallest capacity towards the root of tree t (lines 170-187) *)
Fixpoint bk_min (fuel : nat) (t : bool) (st : bk) (v : nat) (m : Z) : res Z :=
  match fuel with
  | 0 => OutOfFuel
  | S f =>
    do nv <- vget (k_vs st) v ;
    if is_root t (x_pr nv) then Ok (Z.min m (if t then - x_cap nv else x_cap nv)%Z)
    else match x_e nv with
         | None => Ub
         | Some e => match x_pr nv with PVtx w => bk_min f t st w (Z.min m (rcap st e)) | _ => Ub end
         end
  end.
(** the update of tree t (lines 194-211, 213-231) *)
Definition cut_off (nv : bnode) (cap : Z) : bnode :=
  {| x_tree := x_tree nv; x_e := x_e nv; x_pr := PNone; x_ts := x_ts nv; x_dist := x_dist nv; x_cap := cap |}.
Definition set_cap (nv : bnode) (cap : Z) : bnode :=
  {| x_tree := x_tree nv; x_e := x_e nv; x_pr := x_pr nv; x_ts := x_ts nv; x_dist := x_dist nv; x_cap := cap |}.
Fixpoint bk_upd (fuel : nat) (t : bool) (m : Z) (v : nat) (st : bk) : res bk :=
  match fuel with
  | 0 => OutOfFuel
  | S f =>
    do nv <- vget (k_vs st) v ;
    if is_root t (x_pr nv) then
      let c := (if t then x_cap nv + m else x_cap nv - m)%Z in
      if (if t then 0 <=? c else c <=? 0)%Z then
        do vs <- vset (k_vs st) v (cut_off nv c) ;
        Ok (with_orp (with_vs st vs) (k_orp st ++ [v]))
      else do vs <- vset (k_vs st) v (set_cap nv c) ; Ok (with_vs st vs)
    else
      match x_e nv with
      | None => Ub
      | Some e =>
        let st1 := push st e m in
        do st2 <- (if (rcap st1 e <=? 0)%Z then
                     do vs <- vset (k_vs st1) v (cut_off nv (x_cap nv)) ;
                     Ok (with_orp (with_vs st1 vs) (k_orp st1 ++ [v]))
                   else Ok st1) ;
        match x_pr nv with PVtx w => bk_upd f t m w st2 | _ => Ub end
      end
  end.
(** [e] = (connect_s, connect_t), the arc of residual_cap *)
Definition bk_augment (n : nat) (st : bk) (e : nat * nat) : res bk :=
  do m1 <- bk_min (S n) true st (snd e) (rcap st e) ;
  do m <- bk_min (S n) false st (fst e) m1 ;
  let st1 := push {| k_vs := k_vs st; k_r := k_r st; k_act := k_act st; k_orp := k_orp st; k_mf := (k_mf st + m)%Z; k_gt := k_gt st |} e m in
  do st2 <- bk_upd (S n) true m (snd e) st1 ;
  bk_upd (S n) false m (fst e) st2.

(** ** Adopt (lines 235-328) *)
Definition set_label (nv : bnode) (ts dist : nat) : bnode :=
  {| x_tree := x_tree nv; x_e := x_e nv; x_pr := x_pr nv; x_ts := ts; x_dist := dist; x_cap := x_cap nv |}.
(** the walk to the root (lines 265-281); [infd] is INFINITE_D *)
Fixpoint bk_depth (fuel infd gt : nat) (t : bool) (v d : nat) (vs : list bnode) : res (nat * list bnode) :=
  match fuel with
  | 0 => OutOfFuel
  | S f =>
    do nv <- vget vs v ;
    if x_ts nv =? gt then Ok (d + x_dist nv, vs)
    else if is_root t (x_pr nv) then do vs' <- vset vs v (set_label nv gt 1) ; Ok (d + 1, vs')
    else match x_pr nv with
         | PNone => Ok (infd, vs)
         | PVtx w => bk_depth f infd gt t w (d + 1) vs
         | _ => Ub
         end
  end.
(** the labels along the walk (lines 290-295); [d--] at 0 is written as [Ub] *)
Fixpoint bk_mark (fuel gt : nat) (t : bool) (v d : nat) (vs : list bnode) : res (list bnode) :=
  match fuel with
  | 0 => OutOfFuel
  | S f =>
    do nv <- vget vs v ;
    if x_ts nv =? gt then Ok vs
    else match d with
         | 0 => Ub
         | S d' =>
           do vs' <- vset vs v (set_label nv gt d) ;
           if is_root t (x_pr nv) then Ok vs'
           else match x_pr nv with PVtx w => bk_mark f gt t w d' vs' | _ => Ub end
         end
  end.
Definition is_child (p : nat) (pr : pred) : bool := match pr with PVtx w => w =? p | _ => false end.
(** one neighbour of the orphan p (lines 244-297): the best parent so far (vertex, arc), d_min, and the vertices *)
Definition bk_try (infd gt : nat) (r : nat -> nat -> Z) (p : nat) (t : bool) (acc : option (nat * (nat * nat)) * nat * list bnode) (q : nat) : res (option (nat * (nat * nat)) * nat * list bnode) :=
  let '(best, dmin, vs) := acc in
  do nq <- vget vs q ;
  if negb (eqb (x_tree nq) t) || is_child p (x_pr nq) then Ok acc
  else
    let e := arc (negb t) p q in
    if (r (fst e) (snd e) <=? 0)%Z then Ok acc
    else
      do dv <- bk_depth (S (length vs)) infd gt t q 0 vs ;
      let (d, vs1) := (dv : nat * list bnode) in
      if d <? infd then
        do vs2 <- bk_mark (S (length vs)) gt t q d vs1 ;
        Ok (if d <? dmin then (Some (q, e), d, vs2) else (best, dmin, vs2))
      else Ok (best, dmin, vs1).
(** one neighbour of an orphan that found no parent (lines 303-318).  [exch] = false is the code: the arc tested is the one from p to q
    in the source tree and the one from q to p in the terminal tree; with [exch] = true the two arcs are exchanged *)
Definition bk_release (exch : bool) (p : nat) (t : bool) (st : bk) (q : nat) : res bk :=
  do nq <- vget (k_vs st) q ;
  if negb (eqb (x_tree nq) t) then Ok st
  else
    let st1 := if (0 <? rcap st (arc (if exch then negb t else t) p q))%Z then with_act st (k_act st ++ [q]) else st in
    if is_child p (x_pr nq) then
      do vs <- vset (k_vs st1) q (cut_off nq (x_cap nq)) ;
      Ok (with_orp (with_vs st1 vs) (k_orp st1 ++ [q]))
    else Ok st1.
Definition bk_orphan (exch : bool) (infd : nat) (g : list (list (nat * Z))) (p : nat) (st : bk) : res bk :=
  do np <- vget (k_vs st) p ;
  do row <- vget g p ;
  do r <- rfold (bk_try infd (k_gt st) (k_r st) p (x_tree np)) (map fst row) (None, infd, k_vs st) ;
  let '(best, dmin, vs) := (r : option (nat * (nat * nat)) * nat * list bnode) in
  do np1 <- vget vs p ;
  match best with
  | None =>
    do vs1 <- vset vs p (set_label np1 0 (x_dist np1)) ;
    rfold (bk_release exch p (x_tree np)) (map fst row) (with_vs st vs1)
  | Some (q, e) =>
    do vs1 <- vset vs p {| x_tree := x_tree np1; x_e := Some e; x_pr := PVtx q; x_ts := k_gt st; x_dist := dmin + 1; x_cap := x_cap np1 |} ;
    Ok (with_vs st vs1)
  end.
Fixpoint bk_adopt (fuel : nat) (exch : bool) (infd : nat) (g : list (list (nat * Z))) (st : bk) : res bk :=
  match k_orp st with
  | [] => Ok st
  | p :: rest =>
    match fuel with
    | 0 => OutOfFuel
    | S f => do st' <- bk_orphan exch infd g p (with_orp st rest) ; bk_adopt f exch infd g st'
    end
  end.

(** ** The main loop (lines 87-330) and the result (lines 336-341) *)
Fixpoint bk_rounds (fuel : nat) (exch : bool) (infd : nat) (g : list (list (nat * Z))) (st : bk) : res bk :=
  match fuel with
  | 0 => OutOfFuel
  | S f =>
    do r <- bk_grow (S (length (k_act st) + length g)) g st ;
    match fst r with
    | None => Ok (snd r)
    | Some e =>
      do st1 <- bk_augment (length g) (snd r) e ;
      do st2 <- bk_adopt (S (length (k_orp st1) + length g)) exch infd g st1 ;
      bk_rounds f exch infd g st2
    end
  end.
Definition bk_label (nv : bnode) : bool := match x_pr nv with PNone => true | _ => x_tree nv end.
Definition bk_gen (exch : bool) (infd : nat) (g : list (list (nat * Z))) (cap : list Z) : res (Z * list bool) :=
  do st <- bk_init g cap ;
  do st' <- bk_rounds (S (Z.to_nat (fold_left (fun m c => m + Z.max c 0) cap 0)%Z)) exch infd g st ;
  Ok (k_mf st', map bk_label (k_vs st')).
(** the function as it is *)
Definition bk_maxflow (infd : nat) (g : list (list (nat * Z))) (cap : list Z) : res (Z * list bool) := bk_gen false infd g cap.
