(** Model of experimental/algorithms/delta_stepping.hpp: delta_stepping_v6, v8, v9, v10 and v11.  Graphs, weights, distances and
    the width [D] are as in SsspModel.v; memory is sequentially consistent and every access of shared memory is one step. *)
From Coq Require Import List Arith Bool.
From Verif Require Import Base SsspModel ParDsModel.
Import ListNotations.
Set Implicit Arguments.

(** * Parallel and sequential loops inside each other: a tree of tasks *)
Inductive sp (T : Type) : Type :=
| SDone
| SLeaf (t : T)
| SSeq (a b : sp T)      (* b starts when a has ended *)
| SPar (a b : sp T).     (* in any interleaving *)
Arguments SDone {T}.

Section Tree.
Variable T : Type.
(** The tasks that have not ended, from left to right. *)
Fixpoint leaves (t : sp T) : list T :=
  match t with
  | SDone => []
  | SLeaf x => [x]
  | SSeq a b => leaves a ++ leaves b
  | SPar a b => leaves a ++ leaves b
  end.
(** How many of them may move. *)
Fixpoint nready (t : sp T) : nat :=
  match t with
  | SDone => 0
  | SLeaf _ => 1
  | SSeq a b => if nready a =? 0 then nready b else nready a
  | SPar a b => nready a + nready b
  end.
(** for (x : l) *)
Definition seq_of (l : list T) : sp T := fold_right (fun x a => SSeq (SLeaf x) a) SDone l.
(** tbb::parallel_for_each(l) *)
Definition par_of (l : list T) : sp T := fold_right (fun x a => SPar (SLeaf x) a) SDone l.
(** tbb::parallel_for over a blocked range or a row: halved along some tree, each part in order. *)
Inductive btree := BLeaf | BNode (a b : btree).
Fixpoint blocks_of (t : btree) (l : list T) : sp T :=
  match t with
  | BLeaf => seq_of l
  | BNode a b => SPar (blocks_of a (firstn (length l / 2) l)) (blocks_of b (skipn (length l / 2) l))
  end.

Variable S : Type.
Variable step : T -> S -> res (list T * S).
(** How the tasks that a task leaves are arranged, at time [now]. *)
Variable shape : nat -> list T -> sp T.
(** The i-th task that may move moves. *)
Fixpoint fire (now i : nat) (t : sp T) (s : S) : res (sp T * S) :=
  match t with
  | SDone => Ub
  | SLeaf x => do r <- step x s ; Ok (shape now (fst r), snd r)
  | SSeq a b =>
      if nready a =? 0 then do r <- fire now i b s ; Ok (SSeq a (fst r), snd r)
      else do r <- fire now i a s ; Ok (SSeq (fst r) b, snd r)
  | SPar a b =>
      if i <? nready a then do r <- fire now i a s ; Ok (SPar (fst r) b, snd r)
      else do r <- fire now (i - nready a) b s ; Ok (SPar a (fst r), snd r)
  end.
Fixpoint sprun (fuel : nat) (sched : nat -> nat) (now : nat) (t : sp T) (s : S) : res S :=
  if nready t =? 0 then Ok s
  else
    match fuel with
    | 0 => OutOfFuel
    | Datatypes.S f =>
        do r <- fire now (sched now mod nready t) t s ;
        sprun f sched (Datatypes.S now) (fst r) (snd r)
    end.
End Tree.

(** * v9 (149-206), v10 (208-268), v11 (270-332): relax is 163-183 = 222-242 = 284-304, the same text as
    algorithms/delta_stepping.hpp:186-206, hence the tasks of ParDsModel.v. The loops 187-204, 246-266, 308-330 are
    those of pds_loop with another arrangement of the tasks: [split] arranges the frontier of a round, [shape] the arcs
    of a vertex. *)
Fixpoint xds_loop (fuel D inf delta : nat) (g : wgraph) (ind : nat -> option bool) (split : nat -> list ptask -> sp ptask)
    (shape : nat -> nat -> list ptask -> sp ptask) (sched : nat -> nat -> nat) (k top : nat) (st : pstate) : res (list nat) :=
  if top <? length (pb st) then
    match fuel with
    | 0 => OutOfFuel
    | S f =>
        do frontier <- vget (pb st) top ;
        do bins <- vset (pb st) top [] ;
        let ts := map PV frontier in
        do st' <- sprun (pstep D delta g ind top) (shape k) (sum (map (psize g inf) ts)) (sched k) 0 (split k ts) (mkP (pd st) bins (pr st)) ;
        xds_loop f D inf delta g ind split shape sched (S k) (ds_next (length (pb st')) top (pb st')) st'
    end
  else Ok (pd st).
Definition xds (fuel D inf : nat) (g : wgraph) (source delta : nat) (ind : nat -> option bool) (split : nat -> list ptask -> sp ptask)
    (shape : nat -> nat -> list ptask -> sp ptask) (sched : nat -> nat -> nat) : res (list nat) :=
  do tdist <- vset (repeat inf (length g)) source 0 ;
  xds_loop fuel D inf delta g ind split shape sched 0 0 (mkP tdist [[source]] 0).

(** 190: parallel_for_each over the frontier; 192: a loop over the arcs. *)
Definition delta_stepping_v9 fuel D inf g source delta ind sched : res (list nat) :=
  xds fuel D inf g source delta ind (fun _ => @par_of _) (fun _ _ => @seq_of _) sched.
(** 249-250: parallel_for over the positions of the frontier, [bt k] is how TBB splits them in round k; 253: a loop. *)
Definition delta_stepping_v10 fuel D inf g source delta ind (bt : nat -> btree) sched : res (list nat) :=
  xds fuel D inf g source delta ind (fun k => blocks_of (bt k)) (fun _ _ => @seq_of _) sched.
(** 311, 315: both parallel; [bu k now] splits the row expanded at time now of round k. *)
Definition delta_stepping_v11 fuel D inf g source delta ind (bt : nat -> btree) (bu : nat -> nat -> btree) sched : res (list nat) :=
  xds fuel D inf g source delta ind (fun k => blocks_of (bt k)) (fun k now => blocks_of (bu k now)) sched.

(** * v8 (88-147) *)
Inductive etask :=
| EV (u : nat)                          (* 131 *)
| ES (u v w : nat)                      (* 103: load tdist[i] *)
| ET (v next : nat)                     (* 104-105: load tdist[j], compare *)
| EC (v next old : nat)                 (* 107-112: compare_exchange_strong; old is overwritten when it fails *)
| EG (v next : nat)                     (* 114-116: grow_to_at_least *)
| EP (v bin : nat).                     (* 118 *)
Section V8.
Variables (D delta : nat) (g : wgraph) (top : nat).
Definition estep (t : etask) (st : ds_state) : res (list etask * ds_state) :=
  match t with
  | EV u =>
      do d <- vget (fst st) u ;
      if delta * top <=? d then
        do row <- vget g u ;
        Ok (map (fun e => ES u (fst e) (snd e)) row, st)
      else Ok ([], st)
  | ES u v w =>
      do d <- vget (fst st) u ;
      Ok ([ET v ((d + w) mod D)], st)
  | ET v next =>
      do old <- vget (fst st) v ;
      if next <? old then Ok ([EC v next old], st) else Ok ([], st)
  | EC v next old =>
      do cur <- vget (fst st) v ;
      if cur =? old then
        do d' <- vset (fst st) v next ;
        Ok ([EG v next], (d', snd st))
      else if cur <=? next then Ok ([], st)
      else Ok ([EC v next cur], st)
  | EG v next =>
      if delta =? 0 then Ub
      else
        let bin := next / delta in
        Ok ([EP v bin], (fst st, snd st ++ repeat [] (bin + 1 - length (snd st))))
  | EP v bin =>
      do b <- vget (snd st) bin ;
      do bins' <- vset (snd st) bin (b ++ [v]) ;
      Ok ([], (fst st, bins'))
  end.
(** A bound on the steps left to a task. *)
Definition esize (inf : nat) (t : etask) : nat :=
  match t with
  | EV u => 1 + length (nth u g []) * (inf + 8)
  | ES _ _ _ => inf + 7
  | ET _ _ => inf + 6
  | EC _ _ old => old + 5
  | EG _ _ => 4
  | EP _ _ => 3
  end.
End V8.
(** 89-146; both loops are std::for_each(par_unseq), so every arrangement is possible. *)
Fixpoint v8_loop (fuel D inf delta : nat) (g : wgraph) (split : nat -> list etask -> sp etask) (shape : nat -> nat -> list etask -> sp etask)
    (sched : nat -> nat -> nat) (k top : nat) (st : ds_state) : res (list nat) :=
  if top <? length (snd st) then
    match fuel with
    | 0 => OutOfFuel
    | S f =>
        do frontier <- vget (snd st) top ;
        do bins <- vset (snd st) top [] ;
        let ts := map EV frontier in
        do st' <- sprun (estep D delta g top) (shape k) (sum (map (esize g inf) ts)) (sched k) 0 (split k ts) (fst st, bins) ;
        v8_loop f D inf delta g split shape sched (S k) (ds_next (length (snd st')) top (snd st')) st'
    end
  else Ok (fst st).
Definition delta_stepping_v8 (fuel D inf : nat) (g : wgraph) (source delta : nat) (split : nat -> list etask -> sp etask)
    (shape : nat -> nat -> list etask -> sp etask) (sched : nat -> nat -> nat) : res (list nat) :=
  do tdist <- vset (repeat inf (length g)) source 0 ;
  v8_loop fuel D inf delta g split shape sched 0 0 (tdist, [[source]]).

(** * v6 (45-85): plain (not atomic) distances, and a resize that is not thread safe.  Each access is one step. *)
Inductive rtask :=
| RV (u : nat)                          (* 74 *)
| RS (u v w : nat)                      (* 57: load tdist[i] *)
| RT (v next : nat)                     (* 58: load tdist[j], compare *)
| RW (v next : nat)                     (* 59: store tdist[j] *)
| RB (v next : nat)                     (* 60-61: dest_bin, compare with bins.size() *)
| RR (v bin : nat)                      (* 62: bins.resize(dest_bin + 1) *)
| RP (v bin : nat).                     (* 64 *)
(** concurrent_vector::resize: grows or shrinks. *)
Definition resize (bins : list (list nat)) (n : nat) : list (list nat) :=
  if length bins <=? n then bins ++ repeat [] (n - length bins) else firstn n bins.
Section V6.
Variables (D delta : nat) (g : wgraph) (top : nat).
Definition rstep (t : rtask) (st : ds_state) : res (list rtask * ds_state) :=
  match t with
  | RV u =>
      do d <- vget (fst st) u ;
      if delta * top <=? d then
        do row <- vget g u ;
        Ok (map (fun e => RS u (fst e) (snd e)) row, st)
      else Ok ([], st)
  | RS u v w =>
      do d <- vget (fst st) u ;
      Ok ([RT v ((d + w) mod D)], st)
  | RT v next =>
      do dj <- vget (fst st) v ;
      if next <? dj then Ok ([RW v next], st) else Ok ([], st)
  | RW v next =>
      do d' <- vset (fst st) v next ;
      Ok ([RB v next], (d', snd st))
  | RB v next =>
      if delta =? 0 then Ub
      else
        let bin := next / delta in
        Ok ([if length (snd st) <=? bin then RR v bin else RP v bin], st)
  | RR v bin => Ok ([RP v bin], (fst st, resize (snd st) (bin + 1)))
  | RP v bin =>
      do b <- vget (snd st) bin ;
      do bins' <- vset (snd st) bin (b ++ [v]) ;
      Ok ([], (fst st, bins'))
  end.
(** The steps left to a task, at most. *)
Definition rsize (t : rtask) : nat :=
  match t with
  | RV u => 1 + length (nth u g []) * 6
  | RS _ _ _ => 6
  | RT _ _ => 5
  | RW _ _ => 4
  | RB _ _ => 3
  | RR _ _ => 2
  | RP _ _ => 1
  end.
End V6.
(** 70-82; 73 is a parallel_for_each, 75 a loop. *)
Fixpoint v6_loop (fuel D delta : nat) (g : wgraph) (sched : nat -> nat -> nat) (k top : nat) (st : ds_state) : res (list nat) :=
  if top <? length (snd st) then
    match fuel with
    | 0 => OutOfFuel
    | S f =>
        do frontier <- vget (snd st) top ;
        do bins <- vset (snd st) top [] ;
        let ts := map RV frontier in
        do st' <- sprun (rstep D delta g top) (fun _ => @seq_of _) (sum (map (rsize g) ts)) (sched k) 0 (par_of ts) (fst st, bins) ;
        v6_loop f D delta g sched (S k) (ds_next (length (snd st')) top (snd st')) st'
    end
  else Ok (fst st).
Definition delta_stepping_v6 (fuel D inf : nat) (g : wgraph) (source delta : nat) (sched : nat -> nat -> nat) : res (list nat) :=
  do tdist <- vset (repeat inf (length g)) source 0 ;
  v6_loop fuel D delta g sched 0 0 (tdist, [[source]]).
