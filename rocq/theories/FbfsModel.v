(** Model of adaptors/filtered_bfs_range.hpp: filtered_bfs_edge_range (31-146), as it is seen by the loop
    `for (it = r.begin(); it != r.end(); ++it) *it` followed by found().  A graph is the list of its rows, an inner iterator
    a position in the row it belongs to; [flt v i] is the answer of the filter for the arc at position [i] of row [v]
    (the filter reads the arc, so it must not be called at the end of the row).
    three_colors (29): 0 = black, 1 = white, 2 = grey. *)
From Coq Require Import List Arith Lia Bool.
From Verif Require Import Base.
Import ListNotations.
Set Implicit Arguments.

(** Q_, colors_, unreachable (142-143, 51) and the iterator's v_ and u_begin (129-130) *)
Record fb_state := mkFb { fb_c : list nat; fb_q : list nat; fb_v : nat; fb_i : nat; fb_unr : bool }.
Section F.
Variables (debug : bool) (g : list (list nat)) (flt : nat -> nat -> bool) (target : nat).
(** 60-66: the arcs of the source up to the first one that passes; [l] is the row from position [i] on *)
Fixpoint fb_first (v : nat) (l : list nat) (i : nat) : res (nat * bool) :=
  match l with
  | [] => Ub
  | _ :: l' => if flt v i then match l' with [] => Ok (S i, true) | _ => fb_first v l' (S i) end else Ok (i, false)
  end.
(** 85-89 and 104-108: on to the first arc to a white vertex that passes *)
Fixpoint fb_skip (c : list nat) (v : nat) (l : list nat) (i : nat) : res nat :=
  match l with
  | [] => Ok i
  | u :: l' => do x <- vget c u ; if (x =? 1) && negb (flt v i) then Ok i else fb_skip c v l' (S i)
  end.
(** 91-109, entered at the end of the row of [v], the front of the queue; with [debug] the assertion of line 100 *)
Fixpoint fb_up (c q : list nat) (v i : nat) : res fb_state :=
  do c' <- vset c v 0 ;
  match q with
  | [] => Ub
  | _ :: q' =>
    match q' with
    | [] => Ok (mkFb c' [] v i true)
    | v' :: _ =>
      do x <- vget c' v' ;
      if debug && negb (x =? 2) then Ub
      else
        do row <- vget g v' ;
        do i' <- fb_skip c' v' row 0 ;
        if i' =? length row then fb_up c' q' v' i' else Ok (mkFb c' q' v' i' false)
    end
  end.
(** operator++ (72-111) *)
Definition fb_next (st : fb_state) : res fb_state :=
  do row <- vget g (fb_v st) ;
  do u <- vget row (fb_i st) ;
  let q := fb_q st ++ [u] in
  do c <- vset (fb_c st) u 2 ;
  if target =? u then Ok (mkFb c q (fb_v st) (fb_i st) (fb_unr st))
  else
    do i <- fb_skip c (fb_v st) (skipn (S (fb_i st)) row) (S (fb_i st)) ;
    if i =? length row then fb_up c q (fb_v st) i else Ok (mkFb c q (fb_v st) i (fb_unr st)).
(** get_index() and operator* (116, 122) *)
Definition fb_deref (st : fb_state) : res (nat * nat) :=
  do row <- vget g (fb_v st) ; do u <- vget row (fb_i st) ; Ok (fb_v st, u).
(** the loop: done() (50) is found() (49) or unreachable; the result is what was yielded and found() at the end *)
Fixpoint fb_loop (fuel : nat) (st : fb_state) : res (list (nat * nat) * bool) :=
  do x <- vget (fb_c st) target ;
  if (x =? 2) || fb_unr st then Ok ([], x =? 2)
  else
    match fuel with
    | 0 => OutOfFuel
    | S f => do e <- fb_deref st ; do st' <- fb_next st ; do r <- fb_loop f st' ; Ok (e :: fst r, snd r)
    end.
(** constructor (37-43) and begin() (56-67, 137) *)
Definition filtered_bfs (source : nat) : res (list (nat * nat) * bool) :=
  do c <- vset (repeat 1 (length g)) source 2 ;
  do row <- vget g source ;
  do r <- fb_first source row 0 ;
  fb_loop (S (length g)) (mkFb c [source] source (fst r) (snd r)).
End F.
