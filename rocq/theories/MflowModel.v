(** Model of algorithms/max_flow.hpp (56-111): max_flow on a back_edge_range of a graph whose arcs have a capacity and a flow.
    Built on the models of adaptors/back_edge_range.hpp (BackModel), adaptors/filtered_bfs_range.hpp (FbfsModel) and
    adaptors/reverse.hpp (WalkModel).
    Simplified: flowtype is Z.  The capacities, which nothing writes, are kept apart from the flows, which are the attributes
    of BackModel's arcs.  get_back_edge is called for its result only: it changes nothing that was not there (C60), and for an
    arc that is no loop nothing at all.  The filter is evaluated for all arcs at the start of a search instead of arc by arc
    while it runs; the search changes no flow. *)
From Coq Require Import List Arith ZArith Lia Bool.
From Verif Require Import Base BackModel FbfsModel WalkModel.
Import ListNotations.
Set Implicit Arguments.

(** arcs (target, (capacity, flow)); default_dict (30) *)
Notation net := (list (list (nat * (Z * Z)))) (only parsing).
Definition capacities (G : net) : list (list Z) := map (map (fun a => fst (snd a))) G.
Definition flows (G : net) : list (list (nat * Z)) := map (map (fun a => (fst a, snd (snd a)))) G.
(** the graph [G] with the flows of [g] *)
Definition with_flows (G : net) (g : list (list (nat * Z))) : net :=
  map (fun rs => map (fun ab => (fst (fst ab), (fst (snd (fst ab)), snd (snd ab)))) (combine (fst rs) (snd rs))) (combine G g).

(** struct tree_edge (58-63): the place of the arc (its capacity and flow), that of the back arc, the predecessor.  The
    entries of search_tree (66) are value-initialised: null pointers and 0. *)
Record tree_edge := mkTe { te_arc : option loc; te_back : option loc; te_pred : nat }.
Definition te_init : tree_edge := mkTe None None 0.

Section M.
Variables (debug : bool) (caps : list (list Z)).
(** reading through the references: an extra arc is value-initialised (back_edge_range.hpp:58, 195), its capacity is 0 *)
Definition cap_at (l : loc) : res Z := match l with LReal v i => vget2 caps v i | _ => Ok 0%Z end.
Definition flow_at (st : bst) (l : loc) : res Z := do a <- rd st l ; Ok (snd a).
Definition back_at (st : bst) (v u : nat) : res loc := do r <- get_back st v u ; Ok (snd r).
(** mf_filter (70-73) for the arc at [l], seen from [v] *)
Definition mf_filter (st : bst) (v : nat) (l : loc) : res bool :=
  do a <- rd st l ;
  do c <- cap_at l ;
  do b <- back_at st v (fst a) ;
  do f <- flow_at st b ;
  Ok (c + f <=? snd a)%Z.
(** what the search sees of row [v]: the place, the target and the filter's answer for each arc *)
Definition mf_view (st : bst) (v : nat) : res (list (loc * nat * bool)) :=
  do ls <- b_view st v ;
  rmap (fun l => do a <- rd st l ; do b <- mf_filter st v l ; Ok (l, fst a, b)) ls.
Definition mf_views (st : bst) : res (list (list (loc * nat * bool))) := rmap (mf_view st) (seq 0 (length (b_g st))).
Definition mf_graph (V : list (list (loc * nat * bool))) : list (list nat) := map (map (fun x => snd (fst x))) V.
Definition mf_answer (V : list (list (loc * nat * bool))) (v i : nat) : bool := nth i (map snd (nth v V [])) true.

(** the loop over the search (77-86) *)
Fixpoint mf_search (st : bst) (V : list (list (loc * nat * bool))) (sink : nat) (fuel : nat) (fs : fb_state) (tree : list tree_edge) : res (list tree_edge * bool) :=
  do x <- vget (fb_c fs) sink ;
  if (x =? 2) || fb_unr fs then Ok (tree, x =? 2)
  else
    match fuel with
    | 0 => OutOfFuel
    | S f =>
      do e <- fb_deref (mf_graph V) fs ;
      do a <- vget2 V (fb_v fs) (fb_i fs) ;
      do b <- back_at st (fst e) (snd e) ;
      do tree' <- vset tree (snd e) (mkTe (Some (fst (fst a))) (Some b) (fst e)) ;
      do fs' <- fb_next debug (mf_graph V) (mf_answer V) sink fs ;
      mf_search st V sink f fs' tree'
    end.
(** the range and its begin() (75-76; filtered_bfs_range.hpp:37-43, 59-70), then the loop *)
Definition mf_bfs (st : bst) (source sink : nat) (tree : list tree_edge) : res (list tree_edge * bool) :=
  do V <- mf_views st ;
  do c <- vset (repeat 1 (length V)) source 2 ;
  do row <- vget (mf_graph V) source ;
  do r <- fb_first (mf_answer V) source row 0 ;
  mf_search st V sink (S (length V)) (mkFb c [source] source (fst r) (snd r)) tree.

(** search_tree[u], whose pointers are followed *)
Definition mf_arc (tree : list tree_edge) (u : nat) : res (loc * loc) :=
  do e <- vget tree u ;
  match te_arc e, te_back e with Some l, Some b => Ok (l, b) | _, _ => Ub end.
(** 93-94 *)
Definition mf_min (tree : list tree_edge) (st : bst) (m : Z) (u : nat) : res Z :=
  do p <- mf_arc tree u ;
  do c <- cap_at (fst p) ; do f <- flow_at st (fst p) ; do b <- flow_at st (snd p) ;
  Ok (Z.min m (c - f + b)).
(** 100-105 *)
Definition mf_push (tree : list tree_edge) (m : Z) (st : bst) (u : nat) : res bst :=
  do p <- mf_arc tree u ;
  do f <- flow_at st (fst p) ;
  do st1 <- put st (fst p) (f + m) ;
  do f1 <- flow_at st1 (fst p) ;
  do c <- cap_at (fst p) ;
  let excess := (f1 - c)%Z in
  if (0 <? excess)%Z then
    do st2 <- put st1 (fst p) c ;
    do b <- flow_at st2 (snd p) ;
    put st2 (snd p) (b - excess)
  else Ok st1.
(** 69-107; [k] rounds are left *)
Fixpoint mf_rounds (source sink : nat) (k : nat) (st : bst) (tree : list tree_edge) (maxflow : Z) : res (Z * bst) :=
  match k with
  | 0 => Ok (maxflow, st)
  | S k' =>
    do r <- mf_bfs st source sink tree ;
    let tree' := fst r in
    if snd r then
      do p <- rp_run (S (length tree')) (map te_pred tree') source sink false ;
      do m <- rfold (mf_min tree' st) (fst p) 100000%Z ;
      do st' <- rfold (mf_push tree' m) (fst p) st ;
      mf_rounds source sink k' st' tree' (maxflow + m)
    else Ok (maxflow, st)
  end.
End M.

(** max_flow (56-111), with the flows that it leaves in the graph *)
Definition max_flow (debug : bool) (G : net) (source sink max_iters : nat) : res (Z * net) :=
  do st <- b_make (flows G) false ;
  do r <- mf_rounds debug (capacities G) source sink (S max_iters) st (repeat te_init (length G)) 0 ;
  Ok (fst r, with_flows G (b_g (snd r))).
