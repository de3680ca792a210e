(** Model of approx_betweenness_worklist_serial (experimental/algorithms/betweenness_centrality.hpp, lines 126-291) and of the
    worklist_range it uses (adaptors/worklist.hpp, lines 33-80).  Scores are exact rationals; path counts are numbers modulo [M] (the
    range of accum_t); [vmax] is std::numeric_limits<std::uint32_t>::max(), the level of a vertex that is not reached.  The
    std::unordered_sets preds and succs are lists without duplicates; [ord] gives the order in which the set of a vertex is
    iterated over, which the standard leaves open.  The std::unordered_map edge_l_s is a function from keys to values, (0, 0)
    for the keys that operator[] would insert. *)
From Coq Require Import List Arith Qcanon Bool.
From Verif Require Import Base GraphLib SumLib QcLib BcModel.
Import ListNotations.
Set Implicit Arguments.
Local Open Scope nat_scope.

(** struct nodeinfo (lines 133-139) *)
Record node := { n_l : nat; n_pc : nat; n_preds : list nat; n_succs : list nat; n_els : nat -> nat * nat }.
(** the values set by lines 183-189 *)
Definition node0 (vmax : nat) : node := {| n_l := vmax; n_pc := 0; n_preds := []; n_succs := []; n_els := fun _ => (0, 0) |}.
(** unordered_set::emplace, erase *)
Definition sadd (l : list nat) (x : nat) : list nat := if mem x l then l else l ++ [x].
Definition srem (l : list nat) (x : nat) : list nat := filter (fun y => negb (y =? x)) l.
(** edge_l_s[v] = p *)
Definition mput (m : nat -> nat * nat) (v : nat) (p : nat * nat) : nat -> nat * nat := fun x => if x =? v then p else m x.

(** the guards (lines 145-147, 152, 163, 171-173) *)
Definition g_cn (vmax : nat) (v : nat) (ud vd : node) : bool :=
  (n_l vd <=? n_l ud) && (fst (n_els ud v) =? n_l ud) && negb (n_l ud =? vmax).
Definition g_sp (ud vd : node) : bool := n_l ud + 1 <? n_l vd.
Definition g_fu (v : nat) (ud vd : node) : bool := (n_l vd =? n_l ud + 1) && negb (fst (n_els ud v) =? n_l ud).
Definition g_us (v : nat) (ud vd : node) : bool :=
  (n_l ud =? fst (n_els ud v)) && (n_l vd =? n_l ud + 1) && negb (snd (n_els ud v) =? n_pc ud).
(** the actions (lines 148-151, 153-162, 164-170, 174-177).  udata and vdata point to different nodes when one of the last three
    guards holds, so reading both nodes before writing makes no difference. *)
Definition apply_cn (vmax u v : nat) (vs : list node) (ud : node) : res (list node) :=
  vset vs u {| n_l := n_l ud; n_pc := n_pc ud; n_preds := n_preds ud; n_succs := srem (n_succs ud) v;
               n_els := mput (n_els ud) v (vmax, snd (n_els ud v)) |}.
Definition apply_spfu (u v : nat) (vs : list node) (ud vd : node) : res (list node) :=
  do vs1 <- vset vs v {| n_l := n_l ud + 1; n_pc := n_pc ud; n_preds := [u]; n_succs := []; n_els := n_els vd |} ;
  vset vs1 u {| n_l := n_l ud; n_pc := n_pc ud; n_preds := n_preds ud; n_succs := sadd (n_succs ud) v;
                n_els := mput (n_els ud) v (n_l ud, n_pc ud) |}.
Definition apply_fu (M u v : nat) (vs : list node) (ud vd : node) : res (list node) :=
  do vs1 <- vset vs v {| n_l := n_l vd; n_pc := (n_pc vd + n_pc ud) mod M; n_preds := sadd (n_preds vd) u; n_succs := n_succs vd; n_els := n_els vd |} ;
  vset vs1 u {| n_l := n_l ud; n_pc := n_pc ud; n_preds := n_preds ud; n_succs := sadd (n_succs ud) v;
                n_els := mput (n_els ud) v (n_l ud, n_pc ud) |}.
Definition apply_us (M u v : nat) (vs : list node) (ud vd : node) : res (list node) :=
  do vs1 <- vset vs v {| n_l := n_l vd; n_pc := (n_pc vd + n_pc ud + (M - snd (n_els ud v) mod M)) mod M; n_preds := n_preds vd; n_succs := n_succs vd; n_els := n_els vd |} ;
  vset vs1 u {| n_l := n_l ud; n_pc := n_pc ud; n_preds := n_preds ud; n_succs := n_succs ud;
                n_els := mput (n_els ud) v (fst (n_els ud v), n_pc ud) |}.
(** one work item (lines 202-258): the new nodes and the items pushed *)
Definition wl_item (g : list (list nat)) (vmax M : nat) (ord : nat -> list nat -> list nat) (vs : list node) (it : nat * nat) : res (list node * list (nat * nat)) :=
  let (u, v) := it in
  do vd <- vget vs v ;
  do ud <- vget vs u ;
  if g_cn vmax v ud vd then do vs' <- apply_cn vmax u v vs ud ; Ok (vs', [])
  else if g_sp ud vd then
    let temp_preds := ord v (n_preds vd) in
    do vs' <- apply_spfu u v vs ud vd ;
    do row <- vget g v ;
    Ok (vs', map (pair v) row ++ map (fun p => (p, v)) temp_preds)
  else if g_fu v ud vd then
    do vs' <- apply_fu M u v vs ud vd ;
    do row <- vget g v ;
    do vd' <- vget vs' v ;
    Ok (vs', match n_succs vd' with [] => [] | _ => map (pair v) row end)
  else if g_us v ud vd then
    do vs' <- apply_us M u v vs ud vd ;
    do vd' <- vget vs' v ;
    Ok (vs', map (pair v) (ord v (n_succs vd')))
  else Ok (vs, []).
(** the loop over the worklist (lines 199-259): the front item is used, then popped; what it pushes goes to the back *)
Fixpoint wl_fwd (fuel : nat) (g : list (list nat)) (vmax M : nat) (ord : nat -> list nat -> list nat) (vs : list node) (W : list (nat * nat)) : res (list node) :=
  match W with
  | [] => Ok vs
  | it :: W' =>
    match fuel with
    | 0 => OutOfFuel
    | S f => do r <- wl_item g vmax M ord vs it ; wl_fwd f g vmax M ord (fst r) (W' ++ snd r)
    end
  end.

(** ** The way back (lines 261-285) *)
(** delta, succs_ct and the worklist *)
Record wbst := { w_delta : list Qc; w_ct : list nat; w_W : list nat }.
(** the body of the loop over preds (lines 277-283); succs_ct is unsigned: decrementing 0 is written as [Ub] *)
Definition wl_pull (s v : nat) (vs : list node) (vd : node) (st : wbst) (u : nat) : res wbst :=
  do x <- vget (w_delta st) u ;
  do ud <- vget vs u ;
  do y <- vget (w_delta st) v ;
  do q <- qdiv (n_pc ud) (n_pc vd) ;
  do delta <- vset (w_delta st) u (x + q * (1 + y))%Qc ;
  do c <- vget (w_ct st) u ;
  match c with
  | 0 => Ub
  | S c' =>
    do ct <- vset (w_ct st) u c' ;
    Ok {| w_delta := delta; w_ct := ct; w_W := if (c' =? 0) && negb (u =? s) then w_W st ++ [u] else w_W st |}
  end.
Fixpoint wl_back (fuel : nat) (s : nat) (ord : nat -> list nat -> list nat) (vs : list node) (st : wbst) (cent : list Qc) : res (list Qc) :=
  match w_W st with
  | [] => Ok cent
  | v :: W' =>
    match fuel with
    | 0 => OutOfFuel
    | S f =>
      do vd <- vget vs v ;
      do st' <- rfold (wl_pull s v vs vd) (ord v (n_preds vd)) {| w_delta := w_delta st; w_ct := w_ct st; w_W := W' |} ;
      do c <- vget cent v ;
      do x <- vget (w_delta st') v ;
      do cent' <- vset cent v (c + x)%Qc ;
      wl_back f s ord vs st' cent'
    end
  end.
(** one source (lines 181-286); [ord] is the iteration order during this round *)
Definition wl_source (g : list (list nat)) (vmax M : nat) (cent : list Qc) (so : nat * (nat -> list nat -> list nat)) : res (list Qc) :=
  let (s, ord) := so in
  let n := length g in
  do vs0 <- vset (repeat (node0 vmax) n) s {| n_l := 0; n_pc := 1 mod M; n_preds := []; n_succs := []; n_els := fun _ => (0, 0) |} ;
  do row <- vget g s ;
  do vs <- wl_fwd (S (sum (map (@length nat) g))) g vmax M ord vs0 (map (pair s) row) ;
  wl_back (S n) s ord vs {| w_delta := repeat 0%Qc n; w_ct := map (fun nd => length (n_succs nd)) vs;
                            w_W := filter (fun id => match nth_error vs id with Some nd => match n_succs nd with [] => true | _ => false end | None => false end) (seq 0 n) |} cent.
(** the whole function: the sources with the iteration orders of their rounds; the scores are always normalised (lines 288-290) *)
Definition approx_worklist_serial (g : list (list nat)) (vmax M : nat) (sources : list (nat * (nat -> list nat -> list nat))) : res (list Qc) :=
  do c <- rfold (wl_source g vmax M) sources (repeat 0%Qc (length g)) ;
  bc_normalize c.
