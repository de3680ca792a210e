(** Model of the Shiloach-Vishkin variants of experimental/algorithms/connected_components.hpp:
    compute_connected_components_v1 (185-271), sv_v6 (472-513), sv_v8 (515-559) and sv_v9 (561-599). The parallel loops
    are pools of tasks under an arbitrary schedule, one access of the shared variables per step. Simplified: a graph is
    the list of its rows of targets; compare_exchange_weak fails only when the value differs; the plain accesses of
    comp and change in the sv versions count as atomic (in C++ they are data races); output (197, 527, 571) is left
    out. *)
From Coq Require Import List Arith Bool.
From Verif Require Import Base Pool ParBfsModel CcModel CcxModel.
Import ListNotations.
Set Implicit Arguments.

(** * compute_connected_components_v1 *)
(** One iteration u of the loop of 228-249; [rest] are the targets after the current one. Shared: comp and change. *)
Inductive v1 : Type :=
| V1U (u v : nat) (rest : list nat)                       (* 234: about to load comp[u] *)
| V1P2 (u p1 x : nat) (rest : list nat)                   (* 235, 246: about to load p2 = comp[x] and test 236 *)
| V1High (u p1 p2 : nat) (rest : list nat)                (* 237-239: about to load comp[high] *)
| V1Low (u high ph low : nat) (rest : list nat)           (* 240: p_high != low; about to load comp[low] *)
| V1Cas (u high ph low c : nat) (rest : list nat)         (* 240: about to exchange p_high for c *)
| V1Flag (u : nat) (rest : list nat)                      (* 241 *)
| V1H (u high low : nat) (rest : list nat)                (* 244 *)
| V1P1 (u high low : nat) (rest : list nat).              (* 245 *)
Definition v1_next (u : nat) (rest : list nat) : option v1 := match rest with [] => None | v :: r => Some (V1U u v r) end.
Definition v1_step (W : nat) (t : v1) (s : list nat * bool) : res (option v1 * (list nat * bool)) :=
  let '(comp, change) := s in
  match t with
  | V1U u v rest => do p1 <- vget comp u ; Ok (Some (V1P2 u p1 v rest), s)
  | V1P2 u p1 x rest => do p2 <- vget comp x ; Ok (if p1 =? p2 then v1_next u rest else Some (V1High u p1 p2 rest), s)
  | V1High u p1 p2 rest =>
      let high := Nat.max p1 p2 in
      let low := hk_low W p1 p2 in
      do ph <- vget comp high ;
      Ok (Some (if ph =? low then V1Flag u rest else V1Low u high ph low rest), s)
  | V1Low u high ph low rest => do c <- vget comp low ; Ok (Some (V1Cas u high ph low c rest), s)
  | V1Cas u high ph low c rest =>
      do x <- vget comp high ;
      if x =? ph then
        do comp' <- vset comp high c ;
        Ok (Some (V1Flag u rest), (comp', change))
      else Ok (Some (V1H u high low rest), s)
  | V1Flag u rest => Ok (v1_next u rest, (comp, true))
  | V1H u high low rest => do h <- vget comp high ; Ok (Some (V1P1 u h low rest), s)
  | V1P1 u h low rest => do p1 <- vget comp h ; Ok (Some (V1P2 u p1 low rest), s)
  end.
Definition v1_rest_size (u : nat) (rest : list nat) : nat := sum (map (fun v => 8 * (u + v) + 8) rest).
Definition v1_size (t : v1) : nat :=
  match t with
  | V1U u v rest => 8 * (u + v) + 7 + v1_rest_size u rest
  | V1P2 u p1 x rest => 8 * (p1 + x) + 6 + v1_rest_size u rest
  | V1High u p1 p2 rest => 8 * (p1 + p2) + 5 + v1_rest_size u rest
  | V1Low u high _ low rest => 8 * (high + low) + 4 + v1_rest_size u rest
  | V1Cas u high _ low _ rest => 8 * (high + low) + 3 + v1_rest_size u rest
  | V1Flag u rest => 1 + v1_rest_size u rest
  | V1H u high low rest => 8 * (high + low) + 2 + v1_rest_size u rest
  | V1P1 u h low rest => 8 * (h + low) + 7 + v1_rest_size u rest
  end.
Definition v1_tasks (W : nat) (g : list (list nat)) : list v1 :=
  concat (map (fun u => opt_list (v1_next u (nth u g []))) (seq 0 (length g mod W))).
Definition v1_pass (W : nat) (sched : nat -> nat) (g : list (list nat)) (comp : list nat) : res (list nat * bool) :=
  run_all v1_size (v1_step W) sched (v1_tasks W g) (comp, false).
(** 195-250: at most [iters] passes. *)
Fixpoint v1_passes (iters W : nat) (sched : nat -> nat -> nat) (i : nat) (g : list (list nat)) (change : bool) (comp : list nat) : res (list nat) :=
  match iters with
  | 0 => Ok comp
  | S k => if change then do r <- v1_pass W (sched i) g comp ; v1_passes k W sched (S i) g (snd r) (fst r) else Ok comp
  end.
(** 252-268: shared are comp and res. *)
Inductive vr : Type :=
| RA (n m : nat)                       (* 255: about to load the left comp[m] *)
| RB (n m a : nat)                     (* 255: about to load the right comp[m] *)
| RC (n m a b : nat)                   (* 255: about to load comp[comp[m]] and compare *)
| RD (n m : nat)                       (* 256: about to load comp[m] *)
| RE (n m x : nat)                     (* 256: about to load comp[comp[m]] *)
| RF (n m y : nat)                     (* 256: about to store comp[m] *)
| RG (n m : nat)                       (* 257 *)
| RR (n : nat)                         (* 259: about to load comp[n] *)
| RW (n x : nat).                      (* 259: about to store res[n] *)
Definition vr_step (t : vr) (s : list nat * list nat) : res (option vr * (list nat * list nat)) :=
  let '(comp, out) := s in
  match t with
  | RA n m => do a <- vget comp m ; Ok (Some (RB n m a), s)
  | RB n m a => do b <- vget comp m ; Ok (Some (RC n m a b), s)
  | RC n m a b => do c <- vget comp b ; Ok (Some (if a =? c then RR n else RD n m), s)
  | RD n m => do x <- vget comp m ; Ok (Some (RE n m x), s)
  | RE n m x => do y <- vget comp x ; Ok (Some (RF n m y), s)
  | RF n m y => do comp' <- vset comp m y ; Ok (Some (RG n m), (comp', out))
  | RG n m => do m' <- vget comp m ; Ok (Some (RA n m'), s)
  | RR n => do x <- vget comp n ; Ok (Some (RW n x), s)
  | RW n x => do out' <- vset out n x ; Ok (None, (comp, out'))
  end.
Definition vr_size (t : vr) : nat :=
  match t with
  | RA _ m => 10 * m + 9 | RB _ m _ => 10 * m + 8 | RC _ m _ _ => 10 * m + 7 | RD _ m => 10 * m + 6
  | RE _ m _ => 10 * m + 5 | RF _ m _ => 10 * m + 4 | RG _ m => 10 * m + 3 | RR _ => 2 | RW _ _ => 1
  end.
(** 185-271. *)
Definition cc_v1 (W : nat) (sched : nat -> nat -> nat) (g : list (list nat)) : res (list nat) :=
  let N := length g in
  do comp <- v1_passes 2 W sched 0 g true (x_init W N) ;
  do r <- run_all vr_size vr_step (sched 2) (map (fun n => RA n n) (seq 0 (N mod W))) (comp, repeat 0 N) ;
  Ok (snd r).

(** * sv_v6, sv_v8, sv_v9 *)
(** A task is a list of arcs gone through in order. Shared: comp and change. *)
Inductive sv : Type :=
| SvU (u v : nat) (rest : list (nat * nat))                        (* 493: about to load comp[u] *)
| SvV (u v cu : nat) (rest : list (nat * nat))                     (* 494: about to load comp[v] and test 495 *)
| SvTest (u v cu cv : nat) (rest : list (nat * nat))               (* 496-498: about to load comp[high] *)
| SvFlag (high low : nat) (rest : list (nat * nat))                (* 499 *)
| SvStore (high low : nat) (rest : list (nat * nat)).              (* 500 *)
Definition sv_next (rest : list (nat * nat)) : option sv := match rest with [] => None | (u, v) :: r => Some (SvU u v r) end.
(** 497: comp_u + (comp_v - high) is lk_low. *)
Definition sv_step (W : nat) (t : sv) (s : list nat * bool) : res (option sv * (list nat * bool)) :=
  let '(comp, change) := s in
  match t with
  | SvU u v rest => do cu <- vget comp u ; Ok (Some (SvV u v cu rest), s)
  | SvV u v cu rest => do cv <- vget comp v ; Ok (if cu =? cv then sv_next rest else Some (SvTest u v cu cv rest), s)
  | SvTest _ _ cu cv rest =>
      let high := Nat.max cu cv in
      do c <- vget comp high ;
      Ok (if high =? c then Some (SvFlag high (lk_low W cu cv) rest) else sv_next rest, s)
  | SvFlag high low rest => Ok (Some (SvStore high low rest), (comp, true))
  | SvStore high low rest => do comp' <- vset comp high low ; Ok (sv_next rest, (comp', change))
  end.
Definition sv_size (t : sv) : nat :=
  match t with
  | SvU _ _ r => 5 * length r + 4 | SvV _ _ _ r => 5 * length r + 3 | SvTest _ _ _ _ r => 5 * length r + 2
  | SvFlag _ _ r => 5 * length r + 1 | SvStore _ _ r => 5 * length r
  end.
(** 505-509: the inner loop at n ... *)
Fixpoint sv_down (fuel : nat) (comp : list nat) (n : nat) : res (list nat) :=
  match fuel with
  | 0 => OutOfFuel
  | S f =>
      do a <- vget comp n ;
      do b <- vget comp a ;
      if a =? b then Ok comp else do comp' <- vset comp n b ; sv_down f comp' n
  end.
(** ... and the outer loop, whose counter is of a type of [W] values. *)
Fixpoint sv_sweep (fuel W : nat) (comp : list nat) (n : nat) : res (list nat) :=
  if n <? length comp then
    match fuel with
    | 0 => OutOfFuel
    | S f => do comp' <- sv_down (length comp) comp n ; sv_sweep f W comp' ((n + 1) mod W)
    end
  else Ok comp.
(** 482-510: [chunks] are the lists of arcs the tasks go through, [iters] the iterations left. *)
Fixpoint sv_loop (iters W : nat) (sched : nat -> nat -> nat) (i : nat) (chunks : list (list (nat * nat))) (change : bool) (comp : list nat) : res (list nat) :=
  match iters with
  | 0 => Ok comp
  | S k =>
      if change then
        do r <- run_all sv_size (sv_step W) (sched i) (concat (map (fun c => opt_list (sv_next c)) chunks)) (comp, false) ;
        do comp' <- sv_sweep (length comp) W (fst r) 0 ;
        sv_loop k W sched (S i) chunks (snd r) comp'
      else Ok comp
  end.
Definition sv_run (W : nat) (sched : nat -> nat -> nat) (n : nat) (chunks : list (list (nat * nat))) : res (list nat) :=
  sv_loop n W sched 0 chunks true (x_init W n).
(** sv_v6 and sv_v8: one task for every vertex. *)
Definition sv_v6 (W : nat) (sched : nat -> nat -> nat) (g : list (list nat)) : res (list nat) :=
  sv_run W sched (length g) (map (fun u => map (fun v => (u, v)) (nth u g [])) (seq 0 (length g mod W))).
(** sv_v9: one task for every piece of the (split) edge_range. *)
Definition sv_v9 (W : nat) (sched : nat -> nat -> nat) (g : list (list nat)) (pieces : list (list (nat * nat))) : res (list nat) :=
  sv_run W sched (length g) pieces.
