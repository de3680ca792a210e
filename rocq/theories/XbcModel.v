(** Model of experimental/algorithms/betweenness_centrality.hpp: approx_betweenness_brandes and bc2_v0 ... bc2_v4.
    Scores are exact rationals; path counts are numbers modulo [M] (the range of accum_t), levels are below [vmax]
    (std::numeric_limits<vertex_id_type>::max()), which stands for "not reached". *)
From Coq Require Import List Arith Qcanon Bool.
From Verif Require Import Base QcLib Pool ParBfsModel BcModel.
Import ListNotations.
Set Implicit Arguments.
Local Open Scope nat_scope.

(** ** approx_betweenness_brandes (lines 69-124): the loop over the sources is that of brandes_bc (BcModel.v) for the given
    sources; the scores are always normalised (lines 121-123) *)
Definition approx_brandes (g : list (list nat)) (M : nat) (sources : list nat) : res (list Qc) :=
  do c <- rfold (bc_source g M) sources (repeat 0%Qc (length g)) ;
  bc_normalize c.

(** ** bc2_v0 and bc2_v1 (lines 1231-1363), sequential *)
(** depths, path_counts, P and S[phase + 1] *)
Record xst := { s_lv : list nat; s_pc : list nat; s_P : list (list nat); s_nx : list nat }.
(** the body of the loop over the neighbours w of v (lines 1258-1269, 1326-1336); [front]: v0 pushes to the front of S[phase+1] *)
Definition sq_arc (vmax M : nat) (front : bool) (v : nat) (st : xst) (w : nat) : res xst :=
  do dw <- vget (s_lv st) w ;
  do dv <- vget (s_lv st) v ;
  do st1 <- (if dw =? vmax
             then do l <- vset (s_lv st) w (dv + 1) ;
                  Ok {| s_lv := l; s_pc := s_pc st; s_P := s_P st; s_nx := if front then w :: s_nx st else s_nx st ++ [w] |}
             else Ok st) ;
  do dw' <- vget (s_lv st1) w ;
  do dv' <- vget (s_lv st1) v ;
  if dw' =? dv' + 1 then
    do pw <- vget (s_pc st1) w ;
    do pv <- vget (s_pc st1) v ;
    do pc <- vset (s_pc st1) w ((pw + pv) mod M) ;
    do Pw <- vget (s_P st1) w ;
    do P <- vset (s_P st1) w (Pw ++ [v]) ;
    Ok {| s_lv := s_lv st1; s_pc := pc; s_P := P; s_nx := s_nx st1 |}
  else Ok st1.
Definition sq_vertex (g : list (list nat)) (vmax M : nat) (front : bool) (st : xst) (v : nat) : res xst :=
  do row <- vget g v ; rfold (sq_arc vmax M front v) row st.
(** the loop `while (count > 0)` (lines 1253-1275, 1321-1342): count is the number of vertices pushed; [ret] lists the
    levels done, the latest first *)
Fixpoint sq_loop (fuel : nat) (g : list (list nat)) (vmax M : nat) (front : bool) (cur : list nat) (st : xst) (ret : list (list nat)) : res (xst * list (list nat)) :=
  match fuel with
  | 0 => OutOfFuel
  | S f =>
    do st' <- rfold (sq_vertex g vmax M front) cur {| s_lv := s_lv st; s_pc := s_pc st; s_P := s_P st; s_nx := [] |} ;
    match s_nx st' with
    | [] => Ok (st', cur :: ret)
    | nx => sq_loop f g vmax M front nx st' (cur :: ret)
    end
  end.
(** one vertex w of the backward loop (lines 1281-1284, 1348-1351) *)
Definition sq_back (pc : list nat) (P : list (list nat)) (st : list Qc * list Qc) (w : nat) : res (list Qc * list Qc) :=
  let (delta, bc) := st in
  do Pw <- vget P w ;
  do delta' <- rfold (bc_pull pc w) Pw delta ;
  do c <- vget bc w ; do x <- vget delta' w ; do bc' <- vset bc w (c + x)%Qc ; Ok (delta', bc').
(** [with_root]: v0 counts down with `phase-- > 0` (line 1279) and reaches level 0; v1 with `--phase > 0` (line 1346) does not *)
Definition sq_root (g : list (list nat)) (vmax M : nat) (front with_root : bool) (bc : list Qc) (root : nat) : res (list Qc) :=
  let n := length g in
  do pc <- vset (repeat 0 n) root (1 mod M) ;
  do lv <- vset (repeat vmax n) root 0 ;
  do r <- sq_loop (S n) g vmax M front [root] {| s_lv := lv; s_pc := pc; s_P := repeat [] n; s_nx := [] |} [] ;
  let (st, ret) := r in
  do b <- rfold (sq_back (s_pc st) (s_P st)) (concat (if with_root then ret else removelast ret)) (repeat 0%Qc n, bc) ;
  Ok (snd b).
(** lines 1288-1292, 1356-1360, 1433-1436, 1535-1538, 1628-1631 *)
Definition finish (normalize : bool) (bc : list Qc) : res (list Qc) := if normalize then bc_normalize bc else Ok bc.
Definition bc2_v0 (g : list (list nat)) (vmax M : nat) (sources : list nat) (normalize : bool) : res (list Qc) :=
  do bc <- rfold (sq_root g vmax M true true) sources (repeat 0%Qc (length g)) ; finish normalize bc.
Definition bc2_v1 (g : list (list nat)) (vmax M : nat) (sources : list nat) (normalize : bool) : res (list Qc) :=
  do bc <- rfold (sq_root g vmax M false false) sources (repeat 0%Qc (length g)) ; finish normalize bc.

(** ** bc2_v2, bc2_v3 and bc2_v4 (lines 1365-1633), parallel *)
Inductive ver := V2 | V3 | V4.
(** one arc u -> v of a level; [e] is its position in the array of targets *)
Inductive xtask : Type :=
| XLoad (u : nat) (rest : list (nat * nat))                 (* about to read levels[v] of the next arc (1402, 1484, 1580) *)
| XCas (u e v : nat) (rest : list (nat * nat))              (* it was "not reached": the compare-and-swap *)
| XPush (u e v : nat) (rest : list (nat * nat))             (* the compare-and-swap succeeded (1403, 1485, 1581) *)
| XChk (u e v : nat) (rest : list (nat * nat))              (* the second read of levels[v] (1406, 1487, 1583) *)
| XGet (u e v x : nat) (rest : list (nat * nat))            (* v2: the read of path_counts[w] (1407); v3: temp = path_counts[v] (1489) *)
| XArg (u e v y : nat) (rest : list (nat * nat))            (* the read of path_counts[u] (1407, 1490, 1584) *)
| XAdd (u e v y x : nat) (rest : list (nat * nat))          (* v2: store; v3: compare-and-swap; v4: fetch_add *)
| XRec (u e v : nat) (rest : list (nat * nat)).             (* v2: P[w].push_back (1408); v3, v4: succ (1492, 1585) *)
(** levels, path_counts, succ (v3, v4), P (v2), and the next level in bins *)
Record xs := { x_lv : list nat; x_pc : list nat; x_sc : list bool; x_P : list (list nat); x_q2 : list (list nat) }.
Definition xb_step (vr : ver) (vmax M lvl : nat) (t : xtask) (s : xs) : res (option xtask * xs) :=
  match t with
  | XLoad _ [] => Ok (None, s)
  | XLoad u ((e, v) :: r) =>
      do l <- vget (x_lv s) v ;
      Ok (Some (if l =? vmax then XCas u e v r else XChk u e v r), s)
  | XCas u e v r =>
      do l <- vget (x_lv s) v ;
      if l =? vmax then
        do lv <- vset (x_lv s) v lvl ;
        Ok (Some (XPush u e v r), {| x_lv := lv; x_pc := x_pc s; x_sc := x_sc s; x_P := x_P s; x_q2 := x_q2 s |})
      else Ok (Some (XChk u e v r), s)
  | XPush u e v r =>
      do q <- bin_push (x_q2 s) u v ;
      Ok (Some (XChk u e v r), {| x_lv := x_lv s; x_pc := x_pc s; x_sc := x_sc s; x_P := x_P s; x_q2 := q |})
  | XChk u e v r =>
      do l <- vget (x_lv s) v ;
      Ok (Some (if l =? lvl then match vr with V3 => XGet u e v 0 r | _ => XArg u e v 0 r end else XLoad u r), s)
  | XGet u e v x r =>
      do y <- vget (x_pc s) v ;
      Ok (Some (match vr with V3 => XArg u e v y r | _ => XAdd u e v y x r end), s)
  | XArg u e v y r =>
      do x <- vget (x_pc s) u ;
      Ok (Some (match vr with V2 => XGet u e v x r | _ => XAdd u e v y x r end), s)
  | XAdd u e v y x r =>
      do c <- vget (x_pc s) v ;
      match vr with
      | V3 =>
          if c =? y then
            do pc <- vset (x_pc s) v ((y + x) mod M) ;
            Ok (Some (XRec u e v r), {| x_lv := x_lv s; x_pc := pc; x_sc := x_sc s; x_P := x_P s; x_q2 := x_q2 s |})
          else Ok (Some (XArg u e v c r), s)                (* a failed compare-and-swap loads temp *)
      | V2 =>
          do pc <- vset (x_pc s) v ((y + x) mod M) ;
          Ok (Some (XRec u e v r), {| x_lv := x_lv s; x_pc := pc; x_sc := x_sc s; x_P := x_P s; x_q2 := x_q2 s |})
      | V4 =>
          do pc <- vset (x_pc s) v ((c + x) mod M) ;
          Ok (Some (XRec u e v r), {| x_lv := x_lv s; x_pc := pc; x_sc := x_sc s; x_P := x_P s; x_q2 := x_q2 s |})
      end
  | XRec u e v r =>
      match vr with
      | V2 =>
          do Pv <- vget (x_P s) v ;
          do P <- vset (x_P s) v (Pv ++ [u]) ;
          Ok (Some (XLoad u r), {| x_lv := x_lv s; x_pc := x_pc s; x_sc := x_sc s; x_P := P; x_q2 := x_q2 s |})
      | _ =>
          do sc <- vset (x_sc s) e true ;
          Ok (Some (XLoad u r), {| x_lv := x_lv s; x_pc := x_pc s; x_sc := sc; x_P := x_P s; x_q2 := x_q2 s |})
      end
  end.
(** the tasks of a level: v2 handles even the arcs of one vertex in parallel (tbb::parallel_for over g[v], line 1397);
    v3 and v4 handle them in order *)
Definition xb_tasks (vr : ver) (g : list (list nat)) (lev : list nat) : list xtask :=
  match vr with
  | V2 => flat_map (fun u => map (fun a => XLoad u [a]) (arcs_of g u)) lev
  | _ => map (fun u => XLoad u (arcs_of g u)) lev
  end.
(** enough steps for a level with [a] arcs and [t] tasks, counting every retry of the compare-and-swap of v3 *)
Definition xb_fuel (a t : nat) : nat := 8 * a + t + (2 * t + 2) * a.
Definition task_arcs (t : xtask) : nat :=
  match t with
  | XLoad _ r => length r
  | XCas _ _ _ r | XPush _ _ _ r | XChk _ _ _ r | XGet _ _ _ _ r | XArg _ _ _ _ r | XAdd _ _ _ _ _ r | XRec _ _ _ r => S (length r)
  end.
(** the loop over the levels (lines 1393-1417, 1476-1512, 1574-1604) *)
Fixpoint xb_loop (fuel : nat) (vr : ver) (vmax M : nat) (g : list (list nat)) (sched : nat -> nat -> nat) (lvl : nat) (q1 : list (list nat)) (s : xs)
    (ret : list (list (list nat))) : res (xs * list (list (list nat))) :=
  match fuel with
  | 0 => OutOfFuel
  | S f =>
    let ts := xb_tasks vr g (concat q1) in
    do s' <- run (xb_step vr vmax M lvl) (xb_fuel (sum (map task_arcs ts)) (length ts)) (sched lvl) 0 ts s ;
    match concat (x_q2 s') with
    | [] => Ok (s', q1 :: ret)
    | _ => xb_loop f vr vmax M g sched (S lvl) (x_q2 s')
             {| x_lv := x_lv s'; x_pc := x_pc s'; x_sc := x_sc s'; x_P := x_P s'; x_q2 := repeat [] (length q1) |} (q1 :: ret)
    end
  end.
(** levels and path counts of one root; v2 keeps a level in one concurrent vector, v3 in 32 bins (1453), v4 in as many bins
    as there are threads, rounded up to a power of two (1553) *)
Definition xb_forward (vr : ver) (vmax M nbins : nat) (g : list (list nat)) (sched : nat -> nat -> nat) (root : nat) : res (xs * list (list (list nat))) :=
  let n := length g in
  do pc <- vset (repeat 0 n) root (1 mod M) ;
  do q1 <- bin_push (repeat [] nbins) 0 root ;
  do lv <- vset (repeat vmax n) root 0 ;
  xb_loop (S n) vr vmax M g sched 1 q1
    {| x_lv := lv; x_pc := pc; x_sc := repeat false (sum (map (@length nat) g)); x_P := repeat [] n; x_q2 := repeat [] nbins |} [].
(** v3 and v4, one root: the backward loop (1518-1533, 1610-1625) is that of brandes_bc (BcModel.v); v3 divides as double *)
Definition xb_source (vr : ver) (vmax M nbins : nat) (integral : bool) (g : list (list nat)) (sched : nat -> nat -> nat) (root : nat) : res (list (nat * Qc)) :=
  let n := length g in
  do r <- xb_forward vr vmax M nbins g sched root ;
  let (s, ret) := r in
  do k <- rfold (fun st lev => run_all pk_size (pk_step integral (x_pc s) (x_sc s)) (sched (n + 1 + length (snd st)))
                                 (map (fun u => KScan u 0%Qc (arcs_of g u)) (concat lev)) st) ret (repeat 0%Qc n, []) ;
  Ok (snd k).
(** bc[u] += delta *)
Definition add_one (bc : list Qc) (a : nat * Qc) : res (list Qc) := do y <- vget bc (fst a) ; vset bc (fst a) (y + snd a)%Qc.
(** [sched k] schedules the k-th root *)
Definition xb_roots (vr : ver) (vmax M nbins : nat) (integral : bool) (g : list (list nat)) (sched : nat -> nat -> nat -> nat) (sources : list nat) : res (list Qc) :=
  rfold (fun bc ks => do adds <- xb_source vr vmax M nbins integral g (sched (fst ks)) (snd ks) ; rfold add_one adds bc)
        (combine (seq 0 (length sources)) sources) (repeat 0%Qc (length g)).
Definition bc2_v3 (vmax M : nat) (g : list (list nat)) (sched : nat -> nat -> nat -> nat) (sources : list nat) (normalize : bool) : res (list Qc) :=
  do bc <- xb_roots V3 vmax M 32 false g sched sources ; finish normalize bc.
(** line 1550 dereferences the first element of the array of targets *)
Definition bc2_v4 (vmax M nbins : nat) (integral : bool) (g : list (list nat)) (sched : nat -> nat -> nat -> nat) (sources : list nat) (normalize : bool) : res (list Qc) :=
  match concat g with
  | [] => Ub
  | _ => do bc <- xb_roots V4 vmax M nbins integral g sched sources ; finish normalize bc
  end.

(** *** bc2_v2, backward (lines 1423-1431): one task per vertex w of the level; delta[v] is an atomic to which the product
    is added in one step *)
Inductive wtask : Type :=
| WScan (w : nat) (rest : list nat)                (* about to read delta[w] for the next predecessor (1426) *)
| WAdd (w v : nat) (x : Qc) (rest : list nat)      (* delta[v] += ... *)
| WEnd (w : nat).                                  (* bc[w] += delta[w] (1429) *)
Definition w_size (t : wtask) : nat := match t with WScan _ r => 2 * length r + 1 | WAdd _ _ _ r => 2 * length r + 2 | WEnd _ => 0 end.
Definition w_step (pc : list nat) (t : wtask) (s : list Qc * list Qc) : res (option wtask * (list Qc * list Qc)) :=
  match t with
  | WScan w [] => Ok (Some (WEnd w), s)
  | WScan w (v :: r) =>
      do a <- vget pc v ;
      do b <- vget pc w ;
      do y <- vget (fst s) w ;
      do q <- qdiv a b ;
      Ok (Some (WAdd w v (q * (1 + y))%Qc r), s)
  | WAdd w v x r => do y <- vget (fst s) v ; do d <- vset (fst s) v (y + x)%Qc ; Ok (Some (WScan w r), (d, snd s))
  | WEnd w => do x <- vget (fst s) w ; do c <- vget (snd s) w ; do bc <- vset (snd s) w (c + x)%Qc ; Ok (None, (fst s, bc))
  end.
(** `while (--phase > 0)`: the level of the root is left out *)
Definition v2_root (vmax M : nat) (g : list (list nat)) (sched : nat -> nat -> nat) (bc : list Qc) (root : nat) : res (list Qc) :=
  let n := length g in
  do r <- xb_forward V2 vmax M 1 g sched root ;
  let (s, ret) := r in
  do b <- rfold (fun st kl => do ts <- rmap (fun w => do Pw <- vget (x_P s) w ; Ok (WScan w Pw)) (concat (snd kl)) ;
                              run_all w_size (w_step (x_pc s)) (sched (n + 1 + fst kl)) ts st)
                (combine (seq 0 (length ret)) (removelast ret)) (repeat 0%Qc n, bc) ;
  Ok (snd b).
Definition bc2_v2 (vmax M : nat) (g : list (list nat)) (sched : nat -> nat -> nat -> nat) (sources : list nat) (normalize : bool) : res (list Qc) :=
  do bc <- rfold (fun bc ks => v2_root vmax M g (sched (fst ks)) bc (snd ks)) (combine (seq 0 (length sources)) sources) (repeat 0%Qc (length g)) ;
  finish normalize bc.
