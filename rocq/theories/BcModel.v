(** Model of algorithms/betweenness_centrality.hpp.  Scores are exact rationals instead of floating-point numbers; path
    counts are numbers modulo [M] (the range of accum_t; 2^64 for size_t).  Division by zero and reading outside a vector
    are [Ub]; so is the normalisation by a largest score of 0, whose result is not a number. *)
From Coq Require Import List Arith ZArith QArith Qround Qcanon Bool.
From Verif Require Import Base QcLib Pool ParBfsModel.
Import ListNotations.
Set Implicit Arguments.
Local Open Scope nat_scope.

(** ** brandes_bc, sequential (lines 142-197) *)
(** path_counts, d, P and the queue Q (lines 148-156) *)
Record bst := { b_pc : list nat; b_d : list Z; b_P : list (list nat); b_Q : list nat }.
(** the body of the loop over the neighbours of v (lines 166-177) *)
Definition bc_relax (M v : nat) (st : bst) (w : nat) : res bst :=
  do dw <- vget (b_d st) w ;
  do dv <- vget (b_d st) v ;
  do st1 <- (if (dw <? 0)%Z
             then do d' <- vset (b_d st) w (dv + 1)%Z ;
                  Ok {| b_pc := b_pc st; b_d := d'; b_P := b_P st; b_Q := b_Q st ++ [w] |}
             else Ok st) ;
  do dw' <- vget (b_d st1) w ;
  do dv' <- vget (b_d st1) v ;
  if (dw' =? dv' + 1)%Z then
    do pw <- vget (b_pc st1) w ;
    do pv <- vget (b_pc st1) v ;
    do pc' <- vset (b_pc st1) w ((pw + pv) mod M) ;
    do Pw <- vget (b_P st1) w ;
    do P' <- vset (b_P st1) w (Pw ++ [v]) ;
    Ok {| b_pc := pc'; b_d := b_d st1; b_P := P'; b_Q := b_Q st1 |}
  else Ok st1.
(** the loop `while (!Q.empty())` (lines 162-178); [stack] is S, its top first *)
Fixpoint bc_bfs (fuel : nat) (g : list (list nat)) (M : nat) (st : bst) (stack : list nat) : res (bst * list nat) :=
  match b_Q st with
  | [] => Ok (st, stack)
  | v :: Q' =>
    match fuel with
    | 0 => OutOfFuel
    | S f =>
      do row <- vget g v ;
      do st' <- rfold (bc_relax M v) row {| b_pc := b_pc st; b_d := b_d st; b_P := b_P st; b_Q := Q' |} ;
      bc_bfs f g M st' (v :: stack)
    end
  end.
(** static_cast<score_t>(a) / static_cast<score_t>(b) *)
Definition qdiv (a b : nat) : res Qc := if b =? 0 then Ub else Ok (qn a / qn b)%Qc.
(** delta[v] += path_counts[v] / path_counts[w] * (1 + delta[w]) (line 185) *)
Definition bc_pull (pc : list nat) (w : nat) (delta : list Qc) (v : nat) : res (list Qc) :=
  do x <- vget delta v ;
  do a <- vget pc v ;
  do b <- vget pc w ;
  do y <- vget delta w ;
  do q <- qdiv a b ;
  vset delta v (x + q * (1 + y))%Qc.
(** the loop `while (!S.empty())` (lines 181-190), one round *)
Definition bc_unwind (s : nat) (pc : list nat) (P : list (list nat)) (st : list Qc * list Qc) (w : nat) : res (list Qc * list Qc) :=
  let (delta, cent) := st in
  do Pw <- vget P w ;
  do delta' <- rfold (bc_pull pc w) Pw delta ;
  if w =? s then Ok (delta', cent)
  else do c <- vget cent w ; do x <- vget delta' w ; do cent' <- vset cent w (c + x)%Qc ; Ok (delta', cent').
(** one source (lines 154-190) *)
Definition bc_source (g : list (list nat)) (M : nat) (cent : list Qc) (s : nat) : res (list Qc) :=
  let n := length g in
  do pc <- vset (repeat 0 n) s (1 mod M) ;
  do d <- vset (repeat (-1)%Z n) s 0%Z ;
  do r <- bc_bfs (S n) g M {| b_pc := pc; b_d := d; b_P := repeat [] n; b_Q := [s] |} [] ;
  let (st, stack) := r in
  do r2 <- rfold (bc_unwind s (b_pc st) (b_P st)) stack (repeat 0%Qc n, cent) ;
  Ok (snd r2).
(** std::max_element on the scores *)
Fixpoint qmax (x : Qc) (l : list Qc) : Qc :=
  match l with [] => x | y :: l' => qmax (if Qclt_le_dec x y then y else x) l' end.
(** divide by the largest score (lines 192-195); on an empty vector the end iterator is dereferenced *)
Definition bc_normalize (l : list Qc) : res (list Qc) :=
  match l with
  | [] => Ub
  | x :: l' => let m := qmax x l' in if Qc_eq_dec m 0%Qc then Ub else Ok (map (fun v => v / m)%Qc l)
  end.
Definition brandes_bc (g : list (list nat)) (M : nat) (normalize : bool) : res (list Qc) :=
  do c <- rfold (bc_source g M) (seq 0 (length g)) (repeat 0%Qc (length g)) ;
  if normalize then bc_normalize c else Ok c.

(** ** BCVerifier (lines 59-128) *)
(** path_counts, depths and to_visit *)
Record vst := { v_pc : list nat; v_d : list Z; v_tv : list nat }.
(** the body of the loop over the neighbours of u (lines 75-84) *)
Definition ver_relax (M u : nat) (st : vst) (v : nat) : res vst :=
  do dv <- vget (v_d st) v ;
  do st1 <- (if (dv =? -1)%Z
             then do du <- vget (v_d st) u ;
                  do d' <- vset (v_d st) v (du + 1)%Z ;
                  Ok {| v_pc := v_pc st; v_d := d'; v_tv := v_tv st ++ [v] |}
             else Ok st) ;
  do dv' <- vget (v_d st1) v ;
  do du' <- vget (v_d st1) u ;
  if (dv' =? du' + 1)%Z then
    do pv <- vget (v_pc st1) v ;
    do pu <- vget (v_pc st1) u ;
    do pc' <- vset (v_pc st1) v ((pv + pu) mod M) ;
    Ok {| v_pc := pc'; v_d := v_d st1; v_tv := v_tv st1 |}
  else Ok st1.
(** the loop over to_visit (lines 73-85); to_visit was reserved, so [it] stays valid while it grows; [i] = it - begin *)
Fixpoint ver_bfs (fuel : nat) (g : list (list nat)) (M : nat) (i : nat) (st : vst) : res vst :=
  match nth_error (v_tv st) i with
  | None => Ok st
  | Some u =>
    match fuel with
    | 0 => OutOfFuel
    | S f =>
      do row <- vget g u ;
      do st' <- rfold (ver_relax M u) row st ;
      ver_bfs f g M (S i) st'
    end
  end.
(** verts_at_depth (lines 87-95) *)
Definition vad_add (d : list Z) (l : list (list nat)) (i : nat) : res (list (list nat)) :=
  do k <- vget d i ;
  if (k =? -1)%Z then Ok l
  else
    let k := Z.to_nat k in
    let l' := if length l <=? k then l ++ repeat [] (S k - length l) else l in
    do x <- vget l' k ; vset l' k (x ++ [i]).
(** one vertex of the backward sweep (lines 99-107) *)
Definition ver_arc (pc : list nat) (d : list Z) (u : nat) (delta : list Qc) (v : nat) : res (list Qc) :=
  do dv <- vget d v ;
  do du <- vget d u ;
  if (dv =? du + 1)%Z then
    do x <- vget delta u ;
    do a <- vget pc u ;
    do b <- vget pc v ;
    do y <- vget delta v ;
    do q <- qdiv a b ;
    vset delta u (x + q * (1 + y))%Qc
  else Ok delta.
Definition ver_unwind (g : list (list nat)) (pc : list nat) (d : list Z) (st : list Qc * list Qc) (u : nat) : res (list Qc * list Qc) :=
  let (delta, scores) := st in
  do row <- vget g u ;
  do delta' <- rfold (ver_arc pc d u) row delta ;
  do c <- vget scores u ; do x <- vget delta' u ; do scores' <- vset scores u (c + x)%Qc ; Ok (delta', scores').
(** one source (lines 65-109) *)
Definition ver_source (g : list (list nat)) (M : nat) (scores : list Qc) (s : nat) : res (list Qc) :=
  let n := length g in
  do d <- vset (repeat (-1)%Z n) s 0%Z ;
  do pc <- vset (repeat 0 (n + 1)) s (1 mod M) ;
  do st <- ver_bfs (S n) g M 0 {| v_pc := pc; v_d := d; v_tv := [s] |} ;
  do vad <- rfold (vad_add (v_d st)) (seq 0 n) [] ;
  do r <- rfold (ver_unwind g (v_pc st) (v_d st)) (concat (rev vad)) (repeat 0%Qc n, scores) ;
  Ok (snd r).
(** a difference passes when its absolute value, converted to accum_t, is not above 1e-6 (lines 120-121): an integral
    accum_t drops the fraction first *)
Definition ver_close (integral : bool) (x y : Qc) : bool :=
  let z := (if Qclt_le_dec (x - y) 0 then y - x else x - y)%Qc in
  if Qclt_le_dec (if integral then Q2Qc (inject_Z (Qfloor z)) else z) (Q2Qc (1 # 1000000)) then true
  else if Qc_eq_dec (if integral then Q2Qc (inject_Z (Qfloor z)) else z) (Q2Qc (1 # 1000000)) then true else false.
(** scores_to_test shorter than scores is read past its end *)
Fixpoint ver_compare (integral : bool) (test scores : list Qc) : res bool :=
  match scores, test with
  | [], _ => Ok true
  | _ :: _, [] => Ub
  | y :: scores', x :: test' => do b <- ver_compare integral test' scores' ; Ok (ver_close integral x y && b)
  end.
Definition bc_verifier (g : list (list nat)) (M : nat) (integral : bool) (sources : list nat) (test : list Qc) (normalize : bool) : res bool :=
  do c <- rfold (ver_source g M) sources (repeat 0%Qc (length g)) ;
  do c' <- (if normalize then bc_normalize c else Ok c) ;
  ver_compare integral test c'.

(** ** brandes_bc, parallel (lines 217-326) *)
(** the arcs of row u with their positions in the array of targets, &v - &edges (line 268) *)
Definition arcs_of (g : list (list nat)) (u : nat) : list (nat * nat) :=
  combine (seq (sum (map (@length nat) (firstn u g))) (length (nth u g []))) (nth u g []).
(** a task expands one vertex u of the current level (lines 257-279) *)
Inductive pb_task : Type :=
| PLoad (u : nat) (rest : list (nat * nat))                          (* 261: about to read levels[v] of the next arc *)
| PGet (u e v : nat) (first : bool) (rest : list (nat * nat))        (* 267: about to read path_counts[u] *)
| PAdd (u e v : nat) (first : bool) (x : nat) (rest : list (nat * nat)) (* 267: fetch_add to path_counts[v] *)
| PSet (u e v : nat) (first : bool) (rest : list (nat * nat))        (* 268: succ.atomic_set *)
| PCas (u v : nat) (rest : list (nat * nat))                         (* 275: levels[v] was infinity *)
| PPush (u v : nat) (rest : list (nat * nat)).                       (* 276 *)
(** levels, path_counts, succ, q2 *)
Record pbs := { p_lv : list nat; p_pc : list nat; p_succ : list bool; p_q2 : list (list nat) }.
Definition pb_size (t : pb_task) : nat :=
  match t with
  | PLoad _ r => 6 * length r | PGet _ _ _ _ r => 6 * length r + 5 | PAdd _ _ _ _ _ r => 6 * length r + 4
  | PSet _ _ _ _ r => 6 * length r + 3 | PCas _ _ r => 6 * length r + 2 | PPush _ _ r => 6 * length r + 1
  end.
Definition pb_step (vmax M lvl : nat) (t : pb_task) (s : pbs) : res (option pb_task * pbs) :=
  match t with
  | PLoad _ [] => Ok (None, s)
  | PLoad u ((e, v) :: r) =>
      do l <- vget (p_lv s) v ;
      if (l =? vmax) || (l =? lvl) then Ok (Some (PGet u e v (l =? vmax) r), s) else Ok (Some (PLoad u r), s)
  | PGet u e v first r => do x <- vget (p_pc s) u ; Ok (Some (PAdd u e v first x r), s)
  | PAdd u e v first x r =>
      do y <- vget (p_pc s) v ;
      do pc' <- vset (p_pc s) v ((y + x) mod M) ;
      Ok (Some (PSet u e v first r), {| p_lv := p_lv s; p_pc := pc'; p_succ := p_succ s; p_q2 := p_q2 s |})
  | PSet u e v first r =>
      do sc <- vset (p_succ s) e true ;
      Ok (Some (if first then PCas u v r else PLoad u r), {| p_lv := p_lv s; p_pc := p_pc s; p_succ := sc; p_q2 := p_q2 s |})
  | PCas u v r =>
      do l <- vget (p_lv s) v ;
      if l =? vmax then
        do lv' <- vset (p_lv s) v lvl ;
        Ok (Some (PPush u v r), {| p_lv := lv'; p_pc := p_pc s; p_succ := p_succ s; p_q2 := p_q2 s |})
      else Ok (Some (PLoad u r), s)
  | PPush u v r =>
      do q <- bin_push (p_q2 s) u v ;
      Ok (Some (PLoad u r), {| p_lv := p_lv s; p_pc := p_pc s; p_succ := p_succ s; p_q2 := q |})
  end.
(** the loop `while (!done)` (lines 254-295): [ret] lists the retired levels, the latest first *)
Fixpoint pb_loop (fuel vmax M : nat) (g : list (list nat)) (sched : nat -> nat -> nat) (lvl : nat) (q1 : list (list nat)) (s : pbs) (ret : list (list (list nat)))
    : res (pbs * list (list (list nat))) :=
  match fuel with
  | 0 => OutOfFuel
  | S f =>
    do s' <- run_all pb_size (pb_step vmax M lvl) (sched lvl) (map (fun u => PLoad u (arcs_of g u)) (concat q1)) s ;
    let q2 := p_q2 s' in
    match concat q2 with
    | [] => Ok (s', q1 :: ret)
    | _ => pb_loop f vmax M g sched (S lvl) q2
             {| p_lv := p_lv s'; p_pc := p_pc s'; p_succ := p_succ s'; p_q2 := repeat [] (length q1) |} (q1 :: ret)
    end
  end.
(** path_counts[u] / path_counts[v] in accum_t (line 306) *)
Definition adiv (integral : bool) (a b : nat) : res Qc :=
  if b =? 0 then Ub else Ok (if integral then qn (a / b) else qn a / qn b)%Qc.
(** the backward tasks (lines 299-312): sum over the arcs of u, then deltas[u] = delta and the addition to bc[u] *)
Inductive pk_task : Type :=
| KScan (u : nat) (delta : Qc) (rest : list (nat * nat))
| KStore (u : nat) (delta : Qc).
Definition pk_size (t : pk_task) : nat := match t with KScan _ _ r => S (length r) | KStore _ _ => 0 end.
(** shared: deltas and the additions to bc so far *)
Definition pk_step (integral : bool) (pc : list nat) (succ : list bool) (t : pk_task) (s : list Qc * list (nat * Qc)) : res (option pk_task * (list Qc * list (nat * Qc))) :=
  match t with
  | KScan u delta [] => Ok (Some (KStore u delta), s)
  | KScan u delta ((e, v) :: r) =>
      do b <- vget succ e ;
      if b then
        do x <- vget pc u ;
        do y <- vget pc v ;
        do dv <- vget (fst s) v ;
        do q <- adiv integral x y ;
        Ok (Some (KScan u (delta + q * (1 + dv))%Qc r), s)
      else Ok (Some (KScan u delta r), s)
  | KStore u delta => do ds <- vset (fst s) u delta ; Ok (None, (ds, snd s ++ [(u, delta)]))
  end.
(** one root (lines 236-313): the additions to bc it makes, in order; nothing else of bc is used *)
Definition pb_source (vmax M nbins : nat) (integral : bool) (g : list (list nat)) (sched : nat -> nat -> nat) (root : nat) : res (list (nat * Qc)) :=
  let n := length g in
  do pc <- vset (repeat 0 n) root (1 mod M) ;
  do q1 <- bin_push (repeat [] nbins) 0 root ;
  do lv <- vset (repeat vmax n) root 0 ;
  do r <- pb_loop (S n) vmax M g sched 1 q1 {| p_lv := lv; p_pc := pc; p_succ := repeat false (sum (map (@length nat) g)); p_q2 := repeat [] nbins |} [] ;
  let (s, ret) := r in
  do k <- rfold (fun st lev => run_all pk_size (pk_step integral (p_pc s) (p_succ s)) (sched (n + 1 + length (snd st)))
                                 (map (fun u => KScan u 0%Qc (arcs_of g u)) (concat lev)) st) ret (repeat 0%Qc n, []) ;
  Ok (snd k).
(** the roots run concurrently (std::async, line 234); they share only bc, to which they make atomic additions *)
Definition add_step (t : list (nat * Qc)) (bc : list Qc) : res (option (list (nat * Qc)) * list Qc) :=
  match t with
  | [] => Ok (None, bc)
  | (u, x) :: r => do y <- vget bc u ; do bc' <- vset bc u (y + x)%Qc ; Ok (Some r, bc')
  end.
Definition par_brandes (vmax M nbins : nat) (integral : bool) (g : list (list nat)) (sched : nat -> nat -> nat -> nat) (asched : nat -> nat)
    (sources : list nat) (normalize : bool) : res (list Qc) :=
  match concat g with
  | [] => Ub (* line 226 dereferences the first element of the array of targets *)
  | _ =>
    do adds <- rmap (fun ks => pb_source vmax M nbins integral g (sched (fst ks)) (snd ks)) (combine (seq 0 (length sources)) sources) ;
    do bc <- run_all (@length _) add_step asched adds (repeat 0%Qc (length g)) ;
    if normalize then
      let m := qmax 0%Qc bc in if Qc_eq_dec m 0%Qc then Ub else Ok (map (fun v => v / m)%Qc bc)
    else Ok bc
  end.
(** exact_brandes_bc (lines 346-362) *)
Definition exact_par_brandes (vmax M nbins : nat) (integral : bool) (g : list (list nat)) (sched : nat -> nat -> nat -> nat) (asched : nat -> nat) (normalize : bool) : res (list Qc) :=
  par_brandes vmax M nbins integral g sched asched (seq 0 (length g)) normalize.
