(** maximal_independent_set.hpp, jones_plassmann_coloring.hpp, adaptors/dag_range.hpp and dag_based_mis.hpp. *)
From Coq Require Import List Arith Bool.
From Verif Require Import Base RangeModel.
Import ListNotations.
Set Implicit Arguments.

(** * maximal_independent_set (maximal_independent_set.hpp:33-47) *)
(** Lines 40-44: the neighbour loop marking removedVertices[u] = true. *)
Definition mis_mark (row : list nat) (removed : list bool) : res (list bool) :=
  rfold (fun removed u => vset removed u true) row removed.
(** Lines 37-46: the body of the vertex loop; [mis] is the caller's vector, push_back appends. *)
Definition mis_body (g : list (list nat)) (st : list bool * list nat) (vtx : nat) : res (list bool * list nat) :=
  let '(removed, mis) := st in
  do r <- vget removed vtx ;
  if negb r then
    do row <- vget g vtx ;
    do removed' <- mis_mark row removed ;
    Ok (removed', mis ++ [vtx])
  else Ok (removed, mis).
(** Lines 33-47; the loop variable has type vertex_id_type, assumed wide enough to hold N. *)
Definition maximal_independent_set (g : list (list nat)) (mis : list nat) : res (list nat) :=
  do st <- rfold (mis_body g) (seq 0 (length g)) (repeat false (length g), mis) ;
  Ok (snd st).

(** * jones_plassmann_coloring (jones_plassmann_coloring.hpp:37-82) *)
(** std::swap(arr[i], arr[j]). *)
Definition swap (arr : list nat) (i j : nat) : res (list nat) :=
  do a <- vget arr i ; do b <- vget arr j ;
  do arr1 <- vset arr i b ; vset arr1 j a.
(** Lines 54-56: while (1 <= arr[i] && arr[i] <= n && arr[i] != arr[arr[i] - 1]) swap. *)
Fixpoint fmp_while (fuel : nat) (n i : nat) (arr : list nat) : res (list nat) :=
  match fuel with
  | 0 => OutOfFuel
  | S f =>
      do x <- vget arr i ;
      if (1 <=? x) && (x <=? n) then
        do y <- vget arr (x - 1) ;
        if negb (x =? y) then do arr' <- swap arr i (x - 1) ; fmp_while f n i arr' else Ok arr
      else Ok arr
  end.
(** Lines 61-65. *)
Fixpoint fmp_scan (arr : list nat) (idx : list nat) (dflt : nat) : res nat :=
  match idx with
  | [] => Ok dflt
  | i :: rest => do x <- vget arr i ; if negb (x =? i + 1) then Ok (i + 1) else fmp_scan arr rest dflt
  end.
(** Lines 48-69; the argument is taken by value. A swap puts one more value in its place, so n + 1 rounds are enough. *)
Definition firstMissingPositive (arr : list nat) : res nat :=
  let n := length arr in
  do arr' <- rfold (fun a i => fmp_while (n + 1) n i a) (seq 0 n) arr ;
  fmp_scan arr' (seq 0 n) (n + 1).
(** Lines 73-81, one independent vertex. neighbor_colors[u] starts empty and u occurs once in the set, so it is just the
    row's colours here; when u is repeated the model would differ, but the set never repeats a vertex. *)
Definition jp_vertex (g : list (list nat)) (colors : list nat) (u : nat) : res (list nat) :=
  do row <- vget g u ;
  do nc <- rmap (vget colors) row ;
  do c <- firstMissingPositive nc ;
  vset colors u c.
Definition jones_plassmann (g : list (list nat)) (colors : list nat) : res (list nat) :=
  let colors0 := map (fun _ => 0) colors in
  do set <- maximal_independent_set g [] ;
  rfold (jp_vertex g) set colors0.

(** * dag_range (adaptors/dag_range.hpp:28-119) *)
(** Q_ (front first), the iterator's v_ and successor_iterator (an index), _pred_done_counter, _ready_to_process. *)
Record dag := mkDag { dq : list nat; dv : nat; di : nat; dcnt : list nat; dready : bool }.
Definition dag_set_q (s : dag) (q : list nat) : dag := mkDag q (dv s) (di s) (dcnt s) (dready s).
(** Lines 36-45: the roots, in increasing order. *)
Definition dag_roots (n : nat) (pred : list (list nat)) : res (list nat) :=
  rfold (fun q i => do p <- vget pred i ; Ok (if length p =? 0 then q ++ [i] else q)) (seq 0 n) [].
(** Lines 71-84: the loop popping vertices without successors. *)
Fixpoint dag_skip (succ : list (list nat)) (q : list nat) (s : dag) : res dag :=
  match q with
  | [] => Ok (dag_set_q s [])
  | v :: q' =>
      do row <- vget succ v ;
      if length row =? 0 then dag_skip succ q' (mkDag q' v (di s) (dcnt s) (dready s))
      else Ok (mkDag q v 0 (dcnt s) (dready s))
  end.
(** Lines 66-95. Q.pop() on an empty queue cannot be reached: the iterator only exists while Q_ is not empty. *)
Definition dag_advance (pred succ : list (list nat)) (s : dag) : res dag :=
  do row <- vget succ (dv s) ;
  do s1 <- (if di s =? length row then
              match dq s with [] => Ub | _ :: q => dag_skip succ q (dag_set_q s q) end
            else Ok s) ;
  do row1 <- vget succ (dv s1) ;
  if 0 <? length row1 then
    do u <- vget row1 (di s1) ;
    do c <- vget (dcnt s1) u ;
    do cnt <- vset (dcnt s1) u (c + 1) ;
    do p <- vget pred u ;
    if c + 1 =? length p then Ok (mkDag (dq s1 ++ [u]) (dv s1) (di s1) cnt true)
    else Ok (mkDag (dq s1) (dv s1) (di s1) cnt false)
  else Ok s1.
(** Lines 58-62, 109: begin(); Q_.front() of an empty queue is undefined. *)
Definition dag_begin (n : nat) (pred succ : list (list nat)) : res dag :=
  do q <- dag_roots n pred ;
  match q with
  | [] => Ub
  | v :: _ => do _ <- vget succ v ; dag_advance pred succ (mkDag q v 0 (repeat 0 n) false)
  end.
(** for (it = begin(); it != end(); ++it): operator* (103-105), operator++ (97-101), end test !Q_.empty() (107). *)
Fixpoint dag_visit (fuel : nat) (pred succ : list (list nat)) (s : dag) : res (list (nat * nat * bool)) :=
  match dq s with
  | [] => Ok []
  | _ =>
      match fuel with
      | 0 => OutOfFuel
      | S f =>
          do row <- vget succ (dv s) ;
          do u <- vget row (di s) ;
          do s' <- dag_advance pred succ (mkDag (dq s) (dv s) (S (di s)) (dcnt s) (dready s)) ;
          do rest <- dag_visit f pred succ s' ;
          Ok ((dv s, u, dready s) :: rest)
      end
  end.
Definition dag_iterate (fuel n : nat) (pred succ : list (list nat)) : res (list (nat * nat * bool)) :=
  do s <- dag_begin n pred succ ; dag_visit fuel pred succ s.

(** * dag_based_mis (dag_based_mis.hpp:37-96) *)
(** v.push_back on element i of a vector of vectors. *)
Definition push_at (l : list (list nat)) (i x : nat) : res (list (list nat)) :=
  do row <- vget l i ; vset l i (row ++ [x]).
(** Lines 60-76, one arc. State: (predecessor_list, successor_list). *)
Definition orient (degrees : list nat) (st : list (list nat) * list (list nat)) (e : nat * nat) :
  res (list (list nat) * list (list nat)) :=
  let '(pred, succ) := st in let '(v, u) := e in
  do dv <- vget degrees v ; do du <- vget degrees u ;
  let v_first := do s <- push_at succ v u ; do p <- push_at pred u v ; Ok (p, s) in
  let u_first := do p <- push_at pred v u ; do s <- push_at succ u v ; Ok (p, s) in
  if du <? dv then v_first else if dv <? du then u_first else if u <? v then u_first else v_first.
(** Lines 78-86. *)
Definition mis_roots (n : nat) (pred : list (list nat)) (mis : list bool) : res (list bool) :=
  rfold (fun m vtx => do p <- vget pred vtx ; if length p =? 0 then vset m vtx true else Ok m) (seq 0 n) mis.
(** Lines 88-93, one visited triple. *)
Definition mis_visit (mis : list bool) (e : nat * nat * bool) : res (list bool) :=
  let '(v, u, _) := e in do mv <- vget mis v ; if mv then vset mis u false else Ok mis.
(** Lines 37-96. [fuel] bounds the number of visited arcs. *)
Definition dag_based_mis (g : list (list nat)) (mis : list bool) : res (list bool) :=
  let n := length g in
  let m := sum (map (@length nat) g) in
  do ds <- pd_visit n g 0 n ;
  do degrees <- rfold (fun d e => vset d (fst e) (snd e)) ds (repeat 0 n) ;
  do es <- edges_of_range m g (or_make g 0) ;
  do ps <- rfold (orient degrees) es (repeat [] n, repeat [] n) ;
  do mis1 <- mis_roots n (fst ps) mis ;
  do visited <- dag_iterate m n (fst ps) (snd ps) ;
  rfold mis_visit visited mis1.
