(** Model of the Dijkstra benchmark apb/dijkstra.cpp (apb_adj, 50-275).

    The numbers are a parameter: [ltb] is operator<, [add d w] is d + w (double addition, rounded), [zero] is 0 and [top] is
    numeric_limits<weight_type>::max(). [best Q] is the position of the element Q.top() refers to. Timers and output are left out. *)
From Coq Require Import List Arith.
From Verif Require Import Base CsrModel.
Import ListNotations.
Set Implicit Arguments.

Section Dijkstra.
Variables D V : Type.
Variable ltb : D -> D -> bool.
Variable add : D -> V -> D.
Variables zero top : D.
Variable best : list (nat * D) -> nat.

Definition apd_state : Type := (list D * list (nat * D))%type.    (* distance, Q *)
(** The relaxation, 84-93 (and likewise in the other five loops), of the edge e with weight [wt e]; distance[u] is read again for each edge. *)
Definition apd_relax (wt : nat * V -> V) (u : nat) (st : apd_state) (e : nat * V) : res apd_state :=
  do du <- vget (fst st) u ;
  do dv <- vget (fst st) (fst e) ;
  let nd := add du (wt e) in
  if ltb nd dv then do dist <- vset (fst st) (fst e) nd ; Ok (dist, (fst e, nd) :: snd st) else Ok st.
(** Q.top(); Q.pop(): 79-80. *)
Definition apd_pop (Q : list (nat * D)) : res (nat * D * list (nat * D)) :=
  do x <- vget Q (best Q) ; Ok (x, firstn (best Q) Q ++ skipn (S (best Q)) Q).
(** while (!Q.empty()): 77-94. *)
Fixpoint apd_loop (wt : nat * V -> V) (g : csr V) (fuel : nat) (st : apd_state) : res (list D) :=
  match snd st, fuel with
  | [], _ => Ok (fst st)
  | _, 0 => OutOfFuel
  | Q, S f =>
    do p <- apd_pop Q ;
    do row <- csr_row g (fst (fst p)) ;
    do st' <- rfold (apd_relax wt (fst (fst p))) row (fst st, snd p) ;
    apd_loop wt g f st'
  end.
(** One trial: 70-94. Q is empty when it starts. *)
Definition apd_trial (wt : nat * V -> V) (g : csr V) (fuel source : nat) (dist : list D) : res (list D) :=
  do dist' <- vset (repeat top (length dist)) source zero ;
  apd_loop wt g fuel (dist', [(source, zero)]).
Definition apd_trials (wt : nat * V -> V) (g : csr V) (fuel source ntrial : nat) (dist : list D) : res (list D) :=
  rfold (fun dist _ => apd_trial wt g fuel source dist) (seq 0 ntrial) dist.
(** The six loops: the second and the fifth take the weight through the function given, the others read it; distance after each. *)
Definition apd_run (fn : nat * V -> V) (W : nat) (g : csr V) (fuel source ntrial : nat) : res (list (list D)) :=
  do r <- rfold (fun (st : list D * list (list D)) wt => do d <- apd_trials wt g fuel source ntrial (fst st) ; Ok (d, snd st ++ [d]))
            [snd; fn; snd; snd; fn; snd] (repeat top (csr_size g mod W), []) ;
  Ok (snd r).
End Dijkstra.
