(** Model of approx_betweenness_worklist and of the forward loop of approx_betweenness_worklist_noabstraction
    (experimental/algorithms/betweenness_centrality.hpp, lines 293-617 and 619-829), with the tbbworklist_range2 and tbbworklist_range they
    use (adaptors/worklist.hpp).  The work on one item, done under the locks of its two vertices, is one action ([wl_item] of
    WlModel.v: the guards and actions of lines 315-347 are those of lines 145-177); the threads interleave between actions under
    an arbitrary schedule. *)
From Coq Require Import List Arith Qcanon Bool.
From Verif Require Import Base GraphLib SumLib QcLib Pool BcModel WlModel.
Import ListNotations.
Set Implicit Arguments.
Local Open Scope nat_scope.

(** ** tbbworklist_range2 (worklist.hpp, lines 155-250) *)
(** push_back(work, level): the buckets grow to level + 1 if needed *)
Definition bk_push (bk : list (list (nat * nat))) (level : nat) (it : nat * nat) : list (list (nat * nat)) :=
  let bk' := bk ++ repeat [] (level + 1 - length bk) in
  upd bk' level (nth level bk' [] ++ [it]).
(** the pushes after an item: the priority is (level of the item's first vertex + 1) / DELTA (lines 426-428, 437-439, 453-455, 477-478) *)
Definition bk_push_item (DELTA : nat) (vs : list node) (bk : list (list (nat * nat))) (it : nat * nat) : res (list (list (nat * nat))) :=
  do nd <- vget vs (fst it) ;
  if DELTA =? 0 then Ub else Ok (bk_push bk ((n_l nd + 1) / DELTA) it).
Definition dummy : nat * nat := (0, 0).
(** what a thread is about to do: try to pop from bucket k (the iterator's constructor and operator++); test whether bucket k is
    empty (operator!= against the sentinel), holding an item; run the loop body on the item *)
Inductive wtask : Type := WTake (k : nat) | WTest (it : nat * nat) (k : nat) | WRun (it : nat * nat).
Definition wshared : Type := (list node * list (list (nat * nat)))%type.
(** [locked]: the threads of lines 376-491 lock both vertices first, so that an item (u, u) waits for itself for ever; the loop of the
    main thread (lines 496-547) does not lock *)
Definition w_step (g : list (list nat)) (vmax M DELTA : nat) (ord : nat -> list nat -> list nat) (locked : bool) (t : wtask) (st : wshared) : res (option wtask * wshared) :=
  let (vs, bk) := st in
  match t with
  | WTake k =>
    match nth_error bk k with
    | None => Ok (Some (WTest dummy 0), st)
    | Some [] => Ok (Some (WTake (S k)), st)
    | Some (it :: b) => Ok (Some (WTest it 0), (vs, upd bk k b))
    end
  | WTest it k =>
    match nth_error bk k with
    | None => Ok (None, st)
    | Some [] => Ok (Some (WTest it (S k)), st)
    | Some _ => Ok (Some (WRun it), st)
    end
  | WRun it =>
    let (u, v) := it in
    if (u =? 0) && (v =? 0) then Ok (Some (WTake 0), st)
    else if locked && (u =? v) then Ok (Some (WRun it), st)
    else do r <- wl_item g vmax M ord vs it ;
         do bk' <- rfold (bk_push_item DELTA (fst r)) (snd r) bk ;
         Ok (Some (WTake 0), (fst r, bk'))
  end.

(** ** The way back (lines 549-612), with a tbbworklist_range (worklist.hpp, lines 83-149); its dummy is [None] *)
Inductive btask : Type := BTake | BTest (o : option nat) | BPull (v : nat) (todo : list nat).
Definition bshared : Type := (wbst * list Qc)%type.
Definition b_step (s : nat) (ord : nat -> list nat -> list nat) (vs : list node) (t : btask) (st : bshared) : res (option btask * bshared) :=
  let (b, cent) := st in
  match t with
  | BTake =>
    match w_W b with
    | [] => Ok (Some (BTest None), st)
    | v :: W' => Ok (Some (BTest (Some v)), ({| w_delta := w_delta b; w_ct := w_ct b; w_W := W' |}, cent))
    end
  | BTest o =>
    match w_W b with
    | [] => Ok (None, st)
    | _ => match o with
           | None => Ok (Some BTake, st)
           | Some v => do vd <- vget vs v ; Ok (Some (BPull v (ord v (n_preds vd))), st)
           end
    end
  | BPull v (u :: todo) =>
    do vd <- vget vs v ;
    do b' <- wl_pull s v vs vd b u ;
    Ok (Some (BPull v todo), (b', cent))
  | BPull v [] =>
    do c <- vget cent v ;
    do x <- vget (w_delta b) v ;
    do cent' <- vset cent v (c + x)%Qc ;
    Ok (Some BTake, (b, cent'))
  end.

(** one source (lines 350-614): the iteration order of the sets, and the schedules of the two phases, belong to the round;
    [nb] is the initial number of buckets (10000), [fuel] bounds the number of actions of each phase *)
Record round := { r_s : nat; r_ord : nat -> list nat -> list nat; r_sched : nat -> nat; r_bsched : nat -> nat }.
Definition wlp_source (g : list (list nat)) (vmax M nb DELTA threads fuel : nat) (cent : list Qc) (r : round) : res (list Qc) :=
  let s := r_s r in
  let ord := r_ord r in
  let n := length g in
  do vs0 <- vset (repeat (node0 vmax) n) s {| n_l := 0; n_pc := 1 mod M; n_preds := []; n_succs := []; n_els := fun _ => (0, 0) |} ;
  do row <- vget g s ;
  do st1 <- run (w_step g vmax M DELTA ord true) fuel (r_sched r) 0 (repeat (WTake 0) threads)
              (vs0, fold_left (fun bk v => bk_push bk 0 (s, v)) row (repeat [] nb)) ;
  do st2 <- run (w_step g vmax M DELTA ord false) fuel (fun _ => 0) 0 [WTake 0] st1 ;
  let vs := fst st2 in
  do r2 <- run (b_step s ord vs) fuel (r_bsched r) 0 (repeat BTake threads)
             ({| w_delta := repeat 0%Qc n; w_ct := map (fun nd => length (n_succs nd)) vs;
                 w_W := filter (fun id => match nth_error vs id with Some nd => match n_succs nd with [] => true | _ => false end | None => false end) (seq 0 n) |}, cent) ;
  Ok (snd r2).
(** the whole function; the scores are not normalised *)
Definition approx_worklist (g : list (list nat)) (vmax M nb DELTA threads fuel : nat) (rounds : list round) : res (list Qc) :=
  rfold (wlp_source g vmax M nb DELTA threads fuel) rounds (repeat 0%Qc (length g)).

(** ** approx_betweenness_worklist_noabstraction: the forward loop (lines 833-847).  [level] is what is done with the items taken from
    the bucket: the vertices and the buckets afterwards (lines 837-843). *)
(** the loop of lines 844-846: the bucket is read before the index is compared with the number of buckets *)
Fixpoint na_skip (fuel : nat) (bk : list (list (nat * nat))) (top : nat) : res nat :=
  match fuel with
  | 0 => OutOfFuel
  | S f =>
    do b <- vget bk top ;
    match b with
    | [] => if top <? length bk then na_skip f bk (S top) else Ok top
    | _ => Ok top
    end
  end.
Fixpoint na_loop (level : list (nat * nat) -> wshared -> res wshared) (fuel : nat) (st : wshared) (top : nat) : res (list node) :=
  match fuel with
  | 0 => OutOfFuel
  | S f =>
    if top <? length (snd st) then
      do cur <- vget (snd st) top ;
      do r <- level cur (fst st, upd (snd st) top []) ;
      do top' <- na_skip (S (length (snd r))) (snd r) top ;
      na_loop level f r top'
    else Ok (fst st)
  end.
(** one item (lines 720-831, guards and actions lines 638-674); preds and succs are forward_lists *)
Definition na_item (g : list (list nat)) (vmax M DELTA : nat) (st : wshared) (it : nat * nat) : res wshared :=
  let (u, v) := it in
  let (vs, bk) := st in
  do vd <- vget vs v ;
  do ud <- vget vs u ;
  let out vs' (l : list (nat * nat)) :=
    do vd' <- vget vs' v ;
    match l with
    | [] => Ok (vs', bk)
    | _ => if DELTA =? 0 then Ub else Ok (vs', fold_left (fun b x => bk_push b ((n_l vd' + 1) / DELTA) x) l bk)
    end in
  if g_cn vmax v ud vd then do vs' <- apply_cn vmax u v vs ud ; Ok (vs', bk)
  else if g_sp ud vd then
    do vs1 <- vset vs v {| n_l := n_l ud + 1; n_pc := n_pc ud; n_preds := [u]; n_succs := []; n_els := n_els vd |} ;
    do vs' <- vset vs1 u {| n_l := n_l ud; n_pc := n_pc ud; n_preds := n_preds ud; n_succs := v :: n_succs ud; n_els := mput (n_els ud) v (n_l ud, n_pc ud) |} ;
    do row <- vget g v ;
    out vs' (map (pair v) row ++ map (fun p => (p, v)) (n_preds vd))
  else if g_fu v ud vd then
    do vs1 <- vset vs v {| n_l := n_l vd; n_pc := (n_pc vd + n_pc ud) mod M; n_preds := u :: n_preds vd; n_succs := n_succs vd; n_els := n_els vd |} ;
    do vs' <- vset vs1 u {| n_l := n_l ud; n_pc := n_pc ud; n_preds := n_preds ud; n_succs := v :: n_succs ud; n_els := mput (n_els ud) v (n_l ud, n_pc ud) |} ;
    do row <- vget g v ;
    out vs' (match n_succs vd with [] => [] | _ => map (pair v) row end)
  else if g_us v ud vd then
    do vs' <- apply_us M u v vs ud vd ;
    out vs' (map (pair v) (n_succs vd))
  else Ok (vs, bk).
(** the items of one bucket are taken in an order [perm] (the order of std::for_each; with execution::par, any order) *)
Definition na_level (g : list (list nat)) (vmax M DELTA : nat) (perm : list (nat * nat) -> list (nat * nat)) (cur : list (nat * nat)) (st : wshared) : res wshared :=
  rfold (na_item g vmax M DELTA) (perm cur) st.
(** the forward phase for one source (lines 684-718, 833-847), with [nb] buckets (10) *)
Definition na_forward (g : list (list nat)) (vmax M nb DELTA fuel : nat) (perm : list (nat * nat) -> list (nat * nat)) (s : nat) : res (list node) :=
  do vs0 <- vset (repeat (node0 vmax) (length g)) s {| n_l := 0; n_pc := 1 mod M; n_preds := []; n_succs := []; n_els := fun _ => (0, 0) |} ;
  do row <- vget g s ;
  na_loop (na_level g vmax M DELTA perm) fuel (vs0, upd (repeat [] nb) 0 (map (pair s) row)) 0.
