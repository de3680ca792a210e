(** Model of algorithms/connected_components.hpp: CCVerifier (54-105), link (119-131), compress (145-153),
    afforest (197-232). The parallel loops are pools of tasks under an arbitrary schedule (Pool.v), one atomic access
    of comp per step. Simplified: a graph is the list of its rows of targets; the random sampling of 166-180 is an
    arbitrary function [pick] of the labels; reads of the (constant) graphs are not separate steps. *)
From Coq Require Import List Arith Bool.
From Verif Require Import Base Pool ParBfsModel.
Import ListNotations.
Set Implicit Arguments.

(** * link *)
Inductive lk : Type :=
| LkP1 (u v : nat)                     (* 120: about to load comp[u] *)
| LkP2 (p1 x : nat)                    (* 121, 129: about to load p2 = comp[x] and test 122 *)
| LkHigh (p1 p2 : nat)                 (* 123-125: p1 != p2; about to load comp[high] *)
| LkCas (high low : nat)               (* 127: p_high == high; about to compare-and-swap *)
| LkNext (high p_high low : nat).      (* 128: about to load comp[p_high] *)
(** 124: low = p1 + (p2 - high) in a type of [W] values. *)
Definition lk_low (W p1 p2 : nat) : nat := (p1 + (p2 + W - Nat.max p1 p2) mod W) mod W.
Definition lk_step (W : nat) (t : lk) (comp : list nat) : res (option lk * list nat) :=
  match t with
  | LkP1 u v => do p1 <- vget comp u ; Ok (Some (LkP2 p1 v), comp)
  | LkP2 p1 x => do p2 <- vget comp x ; Ok (if p1 =? p2 then None else Some (LkHigh p1 p2), comp)
  | LkHigh p1 p2 =>
      let high := Nat.max p1 p2 in
      let low := lk_low W p1 p2 in
      do p_high <- vget comp high ;
      Ok (if p_high =? low then None else if p_high =? high then Some (LkCas high low) else Some (LkNext high p_high low), comp)
  | LkCas high low =>
      do x <- vget comp high ;
      if x =? high then
        do comp' <- vset comp high low ;
        Ok (None, comp')
      else Ok (Some (LkNext x high low), comp)      (* a failed exchange stores the value found into high *)
  | LkNext _ p_high low => do p1 <- vget comp p_high ; Ok (Some (LkP2 p1 low), comp)
  end.
(** Bounds the number of steps a link still needs. *)
Definition lk_size (t : lk) : nat :=
  match t with
  | LkP1 u v => 6 * (u + v) + 5
  | LkP2 p1 x => 6 * (p1 + x) + 4
  | LkHigh p1 p2 => 6 * (p1 + p2) + 3
  | LkCas high low => 6 * (high + low) + 2
  | LkNext high p_high low => 6 * (Nat.min high p_high + low) + 5
  end.
(** link(u, v, comp) for all of [es] at once. *)
Definition link_all (W : nat) (sched : nat -> nat) (es : list (nat * nat)) (comp : list nat) : res (list nat) :=
  run_all lk_size (lk_step W) sched (map (fun e => LkP1 (fst e) (snd e)) es) comp.

(** * compress (145-153) *)
Inductive ck : Type :=
| CkA (n : nat)                        (* 147: about to load the left comp[n] *)
| CkB (n a : nat)                      (* 147: about to load the right comp[n] *)
| CkC (n a b : nat)                    (* 147: about to load comp[comp[n]] and compare *)
| CkFoo (n : nat)                      (* 148 *)
| CkBar (n foo : nat)                  (* 149 *)
| CkSet (n bar : nat).                 (* 150 *)
Definition ck_step (t : ck) (comp : list nat) : res (option ck * list nat) :=
  match t with
  | CkA n => do a <- vget comp n ; Ok (Some (CkB n a), comp)
  | CkB n a => do b <- vget comp n ; Ok (Some (CkC n a b), comp)
  | CkC n a b => do c <- vget comp b ; Ok (if a =? c then None else Some (CkFoo n), comp)
  | CkFoo n => do foo <- vget comp n ; Ok (Some (CkBar n foo), comp)
  | CkBar n foo => do bar <- vget comp foo ; Ok (Some (CkSet n bar), comp)
  | CkSet n bar => do comp' <- vset comp n bar ; Ok (Some (CkA n), comp')
  end.
Definition compress (sched : nat -> nat) (comp : list nat) : res (list nat) :=
  run ck_step (6 * sum comp + 7 * length comp) sched 0 (map CkA (seq 0 (length comp))) comp.

(** * afforest *)
Inductive af : Type :=
| AfChk (u : nat)                                  (* 215: about to load comp[u] *)
| AfLnk (t : lk) (rest : list (nat * nat)).        (* inside a call of link, then the calls of [rest] *)
(** The links of iteration u: 217-221 and 223-228. *)
Definition af_links (rounds : nat) (g tg : list (list nat)) (u : nat) : res (list (nat * nat)) :=
  do row <- vget g u ;
  do trow <- (if length tg =? 0 then Ok [] else vget tg u) ;
  Ok (map (fun v => (u, v)) (skipn rounds row ++ trow)).
Definition af_start (es : list (nat * nat)) : option af :=
  match es with [] => None | (u, v) :: r => Some (AfLnk (LkP1 u v) r) end.
Definition af_step (W c rounds : nat) (g tg : list (list nat)) (t : af) (comp : list nat) : res (option af * list nat) :=
  match t with
  | AfChk u =>
      do x <- vget comp u ;
      if x =? c then Ok (None, comp) else
      do es <- af_links rounds g tg u ;
      Ok (af_start es, comp)
  | AfLnk t rest =>
      do r <- lk_step W t comp ;
      Ok (match fst r with Some t' => Some (AfLnk t' rest) | None => af_start rest end, snd r)
  end.
Definition af_rest_size (rest : list (nat * nat)) : nat := sum (map (fun e => 6 * (fst e + snd e) + 6) rest).
Definition af_size (rounds : nat) (g tg : list (list nat)) (t : af) : nat :=
  match t with
  | AfChk u => 1 + af_rest_size (map (fun v => (u, v)) (skipn rounds (nth u g []) ++ nth u tg []))
  | AfLnk t rest => lk_size t + af_rest_size rest
  end.
(** 202-206: round r. *)
Definition af_round (W m : nat) (sched : nat -> nat) (g : list (list nat)) (r : nat) (comp : list nat) : res (list nat) :=
  do es <- rmap (fun u => do row <- vget g u ; Ok (map (fun v => (u, v)) (firstn 1 (skipn r row)))) (seq 0 m) ;
  link_all W sched (concat es) comp.
(** 197-232, [m] being the length given to comp; [sched i] schedules the i-th parallel loop. *)
Definition afforest_m (W m : nat) (sched : nat -> nat -> nat) (pick : list nat -> nat) (g tg : list (list nat)) (rounds : nat) : res (list nat) :=
  do comp <- rfold (fun comp r =>
                do comp1 <- af_round W m (sched (2 * r)) g r comp ;
                compress (sched (2 * r + 1)) comp1)
              (seq 0 rounds) (seq 0 m) ;
  let c := pick comp in
  do comp' <- run_all (af_size rounds g tg) (af_step W c rounds g tg) (sched (2 * rounds)) (map AfChk (seq 0 m)) comp ;
  compress (sched (2 * rounds + 1)) comp'.
(** 199: comp(graph.size() + 1). *)
Definition afforest (W : nat) (sched : nat -> nat -> nat) (pick : list nat -> nat) (g tg : list (list nat)) (rounds : nat) : res (list nat) :=
  afforest_m W (length g + 1) sched pick g tg rounds.

(** * CCVerifier *)
(** 57-59: label_to_source[comp[n]] = n, as an association list (no two entries with the same label). *)
Fixpoint lts_set (k v : nat) (l : list (nat * nat)) : list (nat * nat) :=
  match l with [] => [(k, v)] | e :: r => if fst e =? k then (k, v) :: r else e :: lts_set k v r end.
Definition lts (comp : list nat) (n : nat) : res (list (nat * nat)) :=
  rfold (fun l i => do c <- vget comp i ; Ok (lts_set c i l)) (seq 0 n) [].
(** 69-78, 81-90: one neighbour; None stands for `return false`. *)
Definition cv_state : Type := (list bool * list nat)%type.          (* visited, part of frontier not yet scanned *)
Definition cv_edge (comp : list nat) (label : nat) (st : option cv_state) (v : nat) : res (option cv_state) :=
  match st with
  | None => Ok None
  | Some (visited, q) =>
      do c <- vget comp v ;
      if c =? label then
        do b <- vget visited v ;
        if b then Ok (Some (visited, q)) else
        do visited' <- vset visited v true ;
        Ok (Some (visited', q ++ [v]))
      else Ok None
  end.
(** 67-92; [fuel] bounds the length of the frontier (its capacity, 62: beyond it the iterator is invalidated). *)
Fixpoint cv_bfs (fuel : nat) (g xg : list (list nat)) (comp : list nat) (label : nat) (st : cv_state) : res (option (list bool)) :=
  let (visited, q) := st in
  match q with
  | [] => Ok (Some visited)
  | u :: q' =>
      match fuel with
      | 0 => Ub
      | S f =>
          do row <- vget g u ;
          do st1 <- rfold (cv_edge comp label) row (Some (visited, q')) ;
          do xrow <- (if u <? length xg then vget xg u else Ok []) ;
          do st2 <- rfold (cv_edge comp label) xrow st1 ;
          match st2 with None => Ok None | Some st' => cv_bfs f g xg comp label st' end
      end
  end.
(** 63-93: over the entries of the map in whatever order it gives them. *)
Fixpoint cv_labels (cap : nat) (g xg : list (list nat)) (comp : list nat) (entries : list (nat * nat)) (visited : list bool) : res (option (list bool)) :=
  match entries with
  | [] => Ok (Some visited)
  | (label, source) :: r =>
      do visited1 <- vset visited source true ;
      do o <- cv_bfs cap g xg comp label (visited1, [source]) ;
      match o with None => Ok None | Some v => cv_labels cap g xg comp r v end
  end.
(** 54-105, [m] being the length given to visited and [order] the iteration order of the map. *)
Definition cc_verifier_m (m : nat) (order : list (nat * nat) -> list (nat * nat)) (g xg : list (list nat)) (comp : list nat) : res bool :=
  do l <- lts comp (length g) ;
  do o <- cv_labels (length g + 1) g xg comp (order l) (repeat false m) ;
  Ok (match o with None => false | Some visited => forallb (fun b => b) visited end).
(** 60: visited(graph.size() + 1). *)
Definition cc_verifier (order : list (nat * nat) -> list (nat * nat)) (g xg : list (list nat)) (comp : list nat) : res bool :=
  cc_verifier_m (length g + 1) order g xg comp.
