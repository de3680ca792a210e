(** Model of experimental/algorithms/page_rank.hpp:93-735 (38-91 and 285-298 are switched off by #if 0).
    Scores are those of PageRankModel.v: exact rationals, or [None] when not finite.  The graph is the list of its rows of
    targets; [graph[i]] beyond it is undefined.  Printing and timers are left out. *)
From Coq Require Import List Arith ZArith QArith Qabs Bool.
From Verif Require Import Base Pool RangeModel PforModel PageRankModel.
Import ListNotations.
Set Implicit Arguments.
Local Open Scope nat_scope.

(** ** The loop over iter, common to all versions but v3 and v13: [sweep k] is the body of iteration k up to the test. *)
Fixpoint xpr_loop (sweep : nat -> prst -> res prst) (thr : Q) (todo k : nat) (st : prst) : res prout :=
  match todo with
  | 0 => Ok (mkOut (pr_rank st) k false)
  | S m =>
      do st' <- sweep k st ;
      if oltb (pr_err st') thr then Ok (mkOut (pr_rank st') (S k) true)
      else xpr_loop sweep thr m (S k) st'
  end.

Definition oplus := olift2 Qplus.
(** base_score + damping_factor * z *)
Definition new_rank (base damp : Q) (z : num) : num := oplus (Some base) (olift2 Qmult (Some damp) z).
(** fabs(page_rank[i] - old_rank) *)
Definition gap (new old : num) : num := olift2 (fun x y => Qabs (x - y)) new old.

(** How a reduction over a row brackets the sum: in order, or the first k elements and the rest apart. *)
Inductive stre := SL | SN (k : nat) (a b : stre).

Section Jacobi.
Variables (g : list (list nat)) (deg : list nat) (base damp : Q).

(** outgoing_contrib[i] = page_rank[i] / degrees[i] for the first N vertices: lines 113-116, 154-157, 225-229, 281-282,
    341-345, 385-389, 424-425, 474-478.  Every element is written once, from elements that nothing writes. *)
Definition contribs (N : nat) (rank : list num) : res (list num) :=
  rmap (fun i => do p <- vget rank i ; do n <- vget deg i ; Ok (odivn p n)) (seq 0 N).

(** z: 123-126, 161-164, 239-244, 432-435, 486-489 in order; the tbb::parallel_reduce of 352-359 brackets; the
    std::transform_reduce of 397-398 may permute as well. *)
Fixpoint row_sum (out : list num) (t : stre) (l : list nat) : res num :=
  match t with
  | SL => rfold (fun z j => do c <- vget out j ; Ok (oplus z c)) l (Some 0%Q)
  | SN k a b =>
      do x <- row_sum out a (firstn k l) ;
      do y <- row_sum out b (skipn k l) ;
      Ok (oplus x y)
  end.
(** The update of vertex i (122-130, 160-168, 238-248, 351-363, 396-402, 431-439, 485-493).  outgoing_contrib is not written
    during the sweep and page_rank[i] is used by this update alone, so an update is one action.  The partial sums of the
    error are kept as one number. *)
Definition jac_vertex (arr : nat -> list nat -> list nat * stre) (i : nat) (st : prst) : res prst :=
  do row <- vget g i ;
  let (l, t) := arr i row in
  do z <- row_sum (pr_out st) t l ;
  do old <- vget (pr_rank st) i ;
  let new := new_rank base damp z in
  do r <- vset (pr_rank st) i new ;
  Ok (mkPr r (pr_out st) (oplus (pr_err st) (gap new old))).
(** One iteration: the vertices are handed out as [parts], each processed in order, interleaved by [sched]. *)
Definition jac_sweep (N : nat) (parts : list (list nat)) (arr : nat -> list nat -> list nat * stre) (sched : nat -> nat) (st : prst) : res prst :=
  do out <- contribs N (pr_rank st) ;
  run (for_step (jac_vertex arr)) (sum (map (@length nat) parts) + length parts) sched 0 parts (mkPr (pr_rank st) out (Some 0%Q)).
End Jacobi.
Definition in_order (i : nat) (l : list nat) : list nat * stre := (l, SL).

(** std::fill(page_rank.begin(), page_rank.end(), 1.0 / page_rank.size()) *)
Definition fill_init (ranks : list num) : list num := map (fun _ => odivn (Some 1%Q) (length ranks)) ranks.
Definition start (rank : list num) : prst := mkPr rank [] (Some 0%Q).
Definition size_base (N : nat) (damp : Q) : Q := ((1 - damp) / qnat N)%Q.

(** page_rank_v1, 137-174. *)
Definition page_rank_v1 (g : list (list nat)) (deg : list nat) (ranks : list num) (damp thr : Q) (max_iters : nat) : res prout :=
  let N := length ranks in
  xpr_loop (fun _ => jac_sweep g deg (size_base N damp) damp N [seq 0 N] in_order (fun _ => 0)) thr max_iters 0 (start (fill_init ranks)).

(** page_rank_vc, 93-135.  Lines 102-106: degrees of page_rank.size() zeros, each edge (i,j) adds one at j (vertex_id_type
    does not wrap: there are fewer edges).  118-120: indices_ and the targets are the rows. *)
Definition count_deg (g : list (list nat)) (N : nat) : res (list nat) :=
  rfold (fun dg j => do x <- vget dg j ; vset dg j (S x)) (concat g) (repeat 0 N).
Definition page_rank_vc (g : list (list nat)) (ranks : list num) (damp thr : Q) (max_iters : nat) : res prout :=
  let N := length ranks in
  do deg <- count_deg g N ;
  xpr_loop (fun _ => jac_sweep g deg (size_base N damp) damp N [seq 0 (length g)] in_order (fun _ => 0)) thr max_iters 0 (start (fill_init ranks)).

(** page_rank_v4, 209-261: thread t processes t, t + num_threads, ... *)
Fixpoint strided (fuel i T N : nat) : list nat :=
  match fuel with
  | 0 => []
  | S f => if i <? N then i :: strided f (i + T) T N else []
  end.
Definition page_rank_v4 (g : list (list nat)) (deg : list nat) (ranks : list num) (damp thr : Q) (max_iters num_threads : nat) (sched : nat -> nat -> nat) : res prout :=
  let N := length ranks in
  let parts := map (fun t => strided N t num_threads N) (seq 0 num_threads) in
  xpr_loop (fun k => jac_sweep g deg (size_base N damp) damp N parts in_order (sched k)) thr max_iters 0 (start (fill_init ranks)).

(** page_rank_v7 (321-368), page_rank_v8 (370-406), page_rank_v9 (408-448): iteration k hands out the vertices as [parts k]
    and brackets the rows by [arr k]. *)
Definition page_rank_v789 (g : list (list nat)) (deg : list nat) (ranks : list num) (damp thr : Q) (max_iters : nat)
    (parts : nat -> list (list nat)) (arr : nat -> nat -> list nat -> list nat * stre) (sched : nat -> nat -> nat) : res prout :=
  let N := length ranks in
  xpr_loop (fun k => jac_sweep g deg (size_base N damp) damp N (parts k) (arr k) (sched k)) thr max_iters 0 (start (fill_init ranks)).

(** page_rank_v10, 450-505: N is graph.size(); elements of page_rank beyond it are not touched. *)
Definition page_rank_v10 (g : list (list nat)) (deg : list nat) (ranks : list num) (damp thr : Q) (max_iters : nat)
    (parts : nat -> list (list nat)) (sched : nat -> nat -> nat) : res prout :=
  let N := length g in
  do r0 <- rfold (fun r i => vset r i (odivn (Some 1%Q) N)) (seq 0 N) ranks ;
  xpr_loop (fun k => jac_sweep g deg (size_base N damp) damp N (parts k) in_order (sched k)) thr max_iters 0 (start r0).

(** ** page_rank_v6, 263-319: the rows are summed by a parallel loop over the edges. *)
(** A task: the sub-range it was given, the value loaded from z[i] for its next edge, the edges left. *)
Record etask := mkE { e_rng : orange; e_load : option num; e_left : list (nat * nat) }.
(** 305-306: z[i] += outgoing_contrib[j] is a load, and a store of the sum. *)
Definition scatter_step (out : list num) (t : etask) (z : list num) : res (option etask * list num) :=
  match e_left t with
  | [] => Ok (None, z)
  | (i, j) :: l =>
      match e_load t with
      | None =>
          do p <- vget z i ;
          do c <- vget out j ;
          Ok (Some (mkE (e_rng t) (Some (oplus p c)) (e_left t)), z)
      | Some v =>
          do z' <- vset z i v ;
          Ok (Some (mkE (e_rng t) None l), z')
      end
  end.
Definition scatter_size (t : etask) : nat := 2 * length (e_left t) + (match e_load t with None => 1 | Some _ => 0 end).
Definition scatter (g : list (list nat)) (out : list num) (t : stree) (sched : nat -> nat) (z : list num) : res (list num) :=
  do ts <- rmap (fun r => do l <- edges_of_range (sum (map (@length nat) g)) g r ; Ok (mkE r None l)) (spieces or_split t (or_make g 0)) ;
  run (scatter_step out) (sum (map scatter_size ts) + length ts) sched 0 ts z.
(** 281-314: page_rank and old_rank change places, then page_rank is written whole. *)
Definition v6_sweep (g : list (list nat)) (deg : list nat) (base damp : Q) (t : stree) (sched : nat -> nat) (st : prst) : res prst :=
  let N := length (pr_rank st) in
  do out <- contribs deg N (pr_rank st) ;
  do z <- scatter g out t sched (repeat (Some 0%Q) N) ;
  let new := map (new_rank base damp) z in
  do err <- rfold (fun e i => do a <- vget new i ; do b <- vget (pr_rank st) i ; Ok (oplus e (gap a b))) (seq 0 N) (Some 0%Q) ;
  Ok (mkPr new out err).
Definition page_rank_v6 (g : list (list nat)) (deg : list nat) (ranks : list num) (damp thr : Q) (max_iters : nat)
    (trees : nat -> stree) (sched : nat -> nat -> nat) : res prout :=
  xpr_loop (fun k => v6_sweep g deg (size_base (length ranks) damp) damp (trees k) (sched k)) thr max_iters 0 (start (fill_init ranks)).

(** ** page_rank_v2, 176-207: outgoing_contrib starts as zeros (187) and is written behind each update (202). *)
Definition gs_vertex (g : list (list nat)) (deg : list nat) (base damp : Q) (st : prst) (i : nat) : res prst :=
  do row <- vget g i ;
  do z <- row_sum (pr_out st) SL row ;
  do old <- vget (pr_rank st) i ;
  let new := new_rank base damp z in
  do r <- vset (pr_rank st) i new ;
  do n <- vget deg i ;
  do o <- vset (pr_out st) i (odivn new n) ;
  Ok (mkPr r o (oplus (pr_err st) (gap new old))).
Definition page_rank_v2 (g : list (list nat)) (deg : list nat) (ranks : list num) (damp thr : Q) (max_iters : nat) : res prout :=
  let N := length ranks in
  xpr_loop (fun _ st => rfold (gs_vertex g deg (size_base N damp) damp) (seq 0 N) (mkPr (pr_rank st) (pr_out st) (Some 0%Q)))
    thr max_iters 0 (mkPr (fill_init ranks) (repeat (Some 0%Q) N) (Some 0%Q)).

(** ** page_rank_v12, 507-564: algorithms/page_rank.hpp with a test in front of each contribution. *)
(** Tasks: about to test the next contribution, about to add it, the last write. *)
Inductive ftask := FT (i : nat) (l : list nat) (z : num) | FA (i j : nat) (l : list nat) (z : num) | FW (i : nat).
(** outgoing_contrib[j] > threshold: 1.0 / 0 is greater than every threshold *)
Definition ogtb (a : num) (t : Q) : bool := match a with Some x => negb (Qle_bool x t) | None => true end.
Definition v12_step (deg : list nat) (base damp thr : Q) (t : ftask) (st : prst) : res (option ftask * prst) :=
  match t with
  | FT i (j :: l) z =>
      do c <- vget (pr_out st) j ;
      Ok (Some (if ogtb c thr then FA i j l z else FT i l z), st)
  | FA i j l z =>
      do c <- vget (pr_out st) j ;
      Ok (Some (FT i l (oplus z c)), st)
  | FT i [] z =>
      do old <- vget (pr_rank st) i ;
      let new := new_rank base damp z in
      do r <- vset (pr_rank st) i new ;
      Ok (Some (FW i), mkPr r (pr_out st) (oplus (pr_err st) (gap new old)))
  | FW i =>
      do p <- vget (pr_rank st) i ;
      do n <- vget deg i ;
      do o <- vset (pr_out st) i (odivn p n) ;
      Ok (None, mkPr (pr_rank st) o (pr_err st))
  end.
Definition v12_size (t : ftask) : nat := match t with FT _ l _ => 2 * length l + 2 | FA _ _ l _ => 2 * length l + 3 | FW _ => 1 end.
Definition v12_sweep (g : list (list nat)) (deg : list nat) (base damp thr : Q) (sched : nat -> nat) (st : prst) : res prst :=
  do ts <- rmap (fun i => do row <- vget g i ; Ok (FT i row (Some 0%Q))) (seq 0 (length g)) ;
  run (v12_step deg base damp thr) (sum (map v12_size ts) + length ts) sched 0 ts (mkPr (pr_rank st) (pr_out st) (Some 0%Q)).
Definition page_rank_v12 (g : list (list nat)) (deg : list nat) (ranks : list num) (damp thr : Q) (max_iters : nat) (sched : nat -> nat -> nat) : res prout :=
  let N := length g in
  do r0 <- rfold (fun r i => vset r i (odivn (Some 1%Q) N)) (seq 0 N) ranks ;
  do o0 <- contribs deg N r0 ;
  xpr_loop (fun k => v12_sweep g deg (size_base N damp) damp thr (sched k)) thr max_iters 0 (mkPr r0 o0 (Some 0%Q)).

(** ** page_rank_v14, 700-735: the code of algorithms/page_rank.hpp, through nw::graph::parallel_reduce; it also returns the
    iteration that passed the test, or max_iters. *)
Definition page_rank_v14 (g : list (list nat)) (deg : list nat) (ranks : list num) (damp thr : Q) (max_iters : nat) (sched : nat -> nat -> nat) : res (prout * nat) :=
  do out <- page_rank g deg ranks damp thr max_iters sched ;
  Ok (out, if o_conv out then o_sweeps out - 1 else max_iters).

(** ** page_rank_v3 (566-628) and page_rank_v13 (630-698): residuals.  base_score is not used and the only division is
    behind a test, so every number is finite.  max_residual, max_value, max_degree and next_max are only printed. *)
Record rst := mkR { r_rank : list Q; r_res : list Q; r_delta : list Q; r_changed : bool }.
Definition qgtb (x y : Q) : bool := negb (Qle_bool x y).
(** 591-605, 659-670: the arrays are used at [src] alone; [changed] is only ever set.  v3 reads degrees[src] in any case
    (593). *)
Definition push_src (deg : list nat) (keep : bool) (damp thr : Q) (st : rst) (src : nat) : res rst :=
  do dl <- vset (r_delta st) src 0%Q ;
  do d0 <- (if keep then vget deg src else Ok 0) ;
  do old <- vget (r_res st) src ;
  if qgtb old thr then
    do p <- vget (r_rank st) src ;
    do rs <- vset (r_res st) src 0%Q ;
    do rk <- vset (r_rank st) src (p + old)%Q ;
    do n <- vget deg src ;
    if 0 <? n then
      do dl' <- vset dl src (old * damp / qnat n)%Q ;
      Ok (mkR rk rs dl' true)
    else Ok (mkR rk rs dl (r_changed st))
  else Ok (mkR (r_rank st) (r_res st) dl (r_changed st)).
(** 609-620, 676-688; [keep]: v3 leaves the residual when the sum is not positive, v13 clears it. *)
Definition pull_dst (g : list (list nat)) (keep : bool) (st : rst) (i : nat) : res rst :=
  do row <- vget g i ;
  do s <- rfold (fun s j => do c <- vget (r_delta st) j ; Ok (if qgtb c 0 then s + c else s)%Q) row 0%Q ;
  if qgtb s 0 then do rs <- vset (r_res st) i s ; Ok (mkR (r_rank st) rs (r_delta st) (r_changed st))
  else if keep then Ok st
  else do rs <- vset (r_res st) i 0%Q ; Ok (mkR (r_rank st) rs (r_delta st) (r_changed st)).
Record rout := mkRo { ro_rank : list Q; ro_iters : nat; ro_conv : bool }.
(** Iteration k processes the sources in the order [src k] and then the vertices in the order [dst k]. *)
Fixpoint res_loop (g : list (list nat)) (deg : list nat) (keep : bool) (damp thr : Q) (src dst : nat -> list nat) (todo k : nat) (st : rst) : res rout :=
  match todo with
  | 0 => Ok (mkRo (r_rank st) k false)
  | S m =>
      do st1 <- rfold (push_src deg keep damp thr) (src k) (mkR (r_rank st) (r_res st) (r_delta st) false) ;
      do st2 <- rfold (pull_dst g keep) (dst k) st1 ;
      if r_changed st2 then res_loop g deg keep damp thr src dst m (S k) st2
      else Ok (mkRo (r_rank st2) (S k) true)
  end.
(** 578-582, 644-650 and the loop. *)
Definition residual_rank (g : list (list nat)) (deg : list nat) (keep : bool) (ranks : list Q) (damp thr : Q) (max_iters : nat) (src dst : nat -> list nat) : res rout :=
  let N := length g in
  do r0 <- rfold (fun r i => vset r i 0%Q) (seq 0 N) ranks ;
  res_loop g deg keep damp thr src dst max_iters 0 (mkR r0 (repeat (1 - damp)%Q N) (repeat 0%Q N) false).
Definition page_rank_v3 (g : list (list nat)) (deg : list nat) (ranks : list Q) (damp thr : Q) (max_iters : nat) : res rout :=
  residual_rank g deg true ranks damp thr max_iters (fun _ => seq 0 (length g)) (fun _ => seq 0 (length g)).
Definition page_rank_v13 (g : list (list nat)) (deg : list nat) (ranks : list Q) (damp thr : Q) (max_iters : nat) (src dst : nat -> list nat) : res rout :=
  residual_rank g deg false ranks damp thr max_iters src dst.
