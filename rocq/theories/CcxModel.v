(** Model of the hooking algorithms of experimental/algorithms/connected_components.hpp: hook (92-105), compress
    (107-113, the loop of CcModel.compress), push (138-145), link (147-154), pull (156-183),
    compute_connected_components_v2 (273-294), ccv1 (296-304), Afforest (430-454), ccv5 (456-470). As in CcModel the
    parallel loops are pools of tasks under an arbitrary schedule, one access of comp per step. All loops run up
    to counting_iterator<T>(size), that is size mod W for an id type T of [W] values. Simplified: a graph is
    the list of its rows of targets; the sampling of 115-136 is an arbitrary function [pick] of the labels; the
    accesses of comp through plain references count as atomic (in C++ they are data races); the values stored by 169,
    170 and the flag returned by pull are never used and left out. *)
From Coq Require Import List Arith Bool.
From Verif Require Import Base Pool ParBfsModel CcModel.
Import ListNotations.
Set Implicit Arguments.

(** * hook *)
Inductive hk : Type :=
| HkP1 (u v : nat)                     (* 94: about to load comp[u] *)
| HkP2 (p1 x : nat)                    (* 95, 103: about to load p2 = comp[x] and test 97 *)
| HkHigh (p1 p2 : nat)                 (* 98-100: p1 != p2; about to load comp[high] *)
| HkCas (high low : nat)               (* 101: p_high != low; about to compare-and-swap *)
| HkA (high low : nat)                 (* 102: about to load the inner comp[high] *)
| HkB (a low : nat).                   (* 102: about to load p1 = comp[comp[high]] *)
(** 99: low = p1 + p2 - high in a type of [W] values. *)
Definition hk_low (W p1 p2 : nat) : nat := ((p1 + p2) mod W + W - Nat.max p1 p2) mod W.
Definition hk_step (W : nat) (t : hk) (comp : list nat) : res (option hk * list nat) :=
  match t with
  | HkP1 u v => do p1 <- vget comp u ; Ok (Some (HkP2 p1 v), comp)
  | HkP2 p1 x => do p2 <- vget comp x ; Ok (if p1 =? p2 then None else Some (HkHigh p1 p2), comp)
  | HkHigh p1 p2 =>
      let high := Nat.max p1 p2 in
      let low := hk_low W p1 p2 in
      do p_high <- vget comp high ;
      Ok (if p_high =? low then None else Some (HkCas high low), comp)
  | HkCas high low =>
      do x <- vget comp high ;
      if x =? high then
        do comp' <- vset comp high low ;
        Ok (None, comp')
      else Ok (Some (HkA high low), comp)
  | HkA high low => do a <- vget comp high ; Ok (Some (HkB a low), comp)
  | HkB a low => do p1 <- vget comp a ; Ok (Some (HkP2 p1 low), comp)
  end.
(** Bounds the number of steps a hook still needs. *)
Definition hk_size (t : hk) : nat :=
  match t with
  | HkP1 u v => 7 * (u + v) + 5
  | HkP2 p1 x => 7 * (p1 + x) + 4
  | HkHigh p1 p2 => 7 * (p1 + p2) + 3
  | HkCas high low => 7 * (high + low) + 2
  | HkA high low => 7 * (high + low) + 1
  | HkB a low => 7 * (a + low) + 5
  end.

(** * The bodies of the parallel loops *)
Inductive xt : Type :=
| XPush (u : nat)                                  (* the body of a pushing loop for u, not yet begun *)
| XHook (t : hk) (rest : list (nat * nat))         (* inside a call of hook, then the calls of [rest] *)
| XPull (u : nat)                                  (* 159: about to load comp[u] *)
| XMin (u m : nat) (rest : list nat)               (* 161-164: min_compid = m so far *)
| XP1 (u m : nat).                                 (* 167-168: about to load p1 = comp[u] *)
(** The pairs hooked by iteration u: at most [bound] neighbours in g (139-144, 149-153; None: no bound) and all in the
    transpose unless it has size 0 (446-448). *)
Definition x_arcs (bound : option nat) (g tg : list (list nat)) (u : nat) : res (list (nat * nat)) :=
  do row <- vget g u ;
  do trow <- (if length tg =? 0 then Ok [] else vget tg u) ;
  Ok (map (fun v => (u, v)) (match bound with Some b => firstn b row | None => row end ++ trow)).
Definition x_start (es : list (nat * nat)) : option xt :=
  match es with [] => None | (u, v) :: r => Some (XHook (HkP1 u v) r) end.
Definition x_min (u m : nat) (rest : list nat) : option xt :=
  match rest with [] => Some (XP1 u m) | _ => Some (XMin u m rest) end.
(** [dom] is the label whose vertices are skipped (444, 465), None when the loop skips nothing. *)
Definition x_step (W : nat) (dom bound : option nat) (g tg : list (list nat)) (t : xt) (comp : list nat) : res (option xt * list nat) :=
  match t with
  | XPush u =>
      do x <- vget comp u ;
      if (match dom with Some c => c =? x | None => false end) then Ok (None, comp) else
      do es <- x_arcs bound g tg u ;
      Ok (x_start es, comp)
  | XHook t rest =>
      do r <- hk_step W t comp ;
      Ok (match fst r with Some t' => Some (XHook t' rest) | None => x_start rest end, snd r)
  | XPull u =>
      do m <- vget comp u ;
      do row <- vget g u ;
      Ok (x_min u m row, comp)
  | XMin u m rest =>
      match rest with
      | [] => Ok (Some (XP1 u m), comp)
      | v :: r => do c <- vget comp v ; Ok (x_min u (Nat.min m c) r, comp)
      end
  | XP1 u m =>
      do p1 <- vget comp u ;
      Ok (if p1 =? m then None else Some (XHook (HkHigh p1 m) []), comp)
  end.
Definition x_rest_size (rest : list (nat * nat)) : nat := sum (map (fun e => 7 * (fst e + snd e) + 6) rest).
Definition x_size (bound : option nat) (g tg : list (list nat)) (t : xt) : nat :=
  match t with
  | XPush u => 1 + x_rest_size (map (fun v => (u, v)) (match bound with Some b => firstn b (nth u g []) | None => nth u g [] end ++ nth u tg []))
  | XHook t rest => hk_size t + x_rest_size rest
  | XPull u => 14 * u + length (nth u g []) + 7
  | XMin u _ rest => 14 * u + length rest + 6
  | XP1 u _ => 14 * u + 5
  end.
Definition x_push (W : nat) (sched : nat -> nat) (dom bound : option nat) (g tg : list (list nat)) (comp : list nat) : res (list nat) :=
  run_all (x_size bound g tg) (x_step W dom bound g tg) sched (map XPush (seq 0 (length g mod W))) comp.
Definition x_pull (W : nat) (sched : nat -> nat) (g : list (list nat)) (comp : list nat) : res (list nat) :=
  run_all (x_size None g []) (x_step W None None g []) sched (map XPull (seq 0 (length g mod W))) comp.

(** The labels after the first loop (277, 299, 434, 460) over a vector of n zeros. *)
Definition x_init (W n : nat) : list nat := seq 0 (n mod W) ++ repeat 0 (n - n mod W).
(** 107-113. *)
Definition x_compress (W : nat) (sched : nat -> nat) (comp : list nat) : res (list nat) :=
  run ck_step (6 * sum comp + 7 * length comp) sched 0 (map CkA (seq 0 (length comp mod W))) comp.

(** * The algorithms; [sched i] schedules the i-th parallel loop *)
(** 296-304. *)
Definition ccv1 (W : nat) (sched : nat -> nat -> nat) (g : list (list nat)) : res (list nat) :=
  do comp <- x_push W (sched 0) None None g [] (x_init W (length g)) ;
  x_compress W (sched 1) comp.
(** 273-294: the loop of 281 is gone through once. *)
Definition cc_v2 (W : nat) (sched : nat -> nat -> nat) (g : list (list nat)) : res (list nat) :=
  do comp <- x_pull W (sched 0) g (x_init W (length g)) ;
  do comp1 <- x_push W (sched 1) None None g [] comp ;
  x_compress W (sched 2) comp1.
(** 456-470. *)
Definition ccv5 (W : nat) (sched : nat -> nat -> nat) (pick : list nat -> nat) (g : list (list nat)) : res (list nat) :=
  do comp <- x_pull W (sched 0) g (x_init W (length g)) ;
  do comp1 <- x_push W (sched 1) (Some (pick comp)) None g [] comp ;
  x_compress W (sched 2) comp1.
(** 430-454. *)
Definition afforest_x (W : nat) (sched : nat -> nat -> nat) (pick : list nat -> nat) (g tg : list (list nat)) (bound : nat) : res (list nat) :=
  do comp <- x_push W (sched 0) None (Some bound) g [] (x_init W (length g)) ;
  do comp1 <- x_compress W (sched 1) comp ;
  do comp2 <- x_push W (sched 2) (Some (pick comp1)) None g tg comp1 ;
  x_compress W (sched 3) comp2.
