(** Model of util/AtomicBitVector.hpp (whole class except move operations).  [B] is BITS, the number of bits of a Word. *)
From Coq Require Import List Arith NArith Bool.
From Verif Require Import Base.
Import ListNotations.
Set Implicit Arguments.

(** AtomicBitVector.hpp:251. *)
Definition words (B n : nat) : nat := n / B + (if n mod B =? 0 then 0 else 1).

(** AtomicBitVector.hpp:56-58, 75 (init = true): all words zero. *)
Definition bv_new (B bits : nat) : list N := repeat 0%N (words B bits).

(** AtomicBitVector.hpp:244-249. *)
Definition bv_split (B i : nat) : nat * N := (i / B, N.shiftl 1 (N.of_nat (i mod B))).

(** AtomicBitVector.hpp:94-98. *)
Definition bv_get (B : nat) (data : list N) (i : nat) : res N :=
  let (word, mask) := bv_split B i in
  do w <- vget data word ;
  Ok (N.land w mask).

(** AtomicBitVector.hpp:119-123: fetch_or is one atomic step.  Returns the masked old value and the new data. *)
Definition bv_set (B : nat) (data : list N) (i : nat) : res (N * list N) :=
  let (word, mask) := bv_split B i in
  do w <- vget data word ;
  do data' <- vset data word (N.lor w mask) ;
  Ok (N.land w mask, data').

(** Threads calling set: the calls still to be made and the results (index, returned word) so far. *)
Definition bv_thread : Type := list nat * list (nat * N).
Inductive bv_step (B : nat) : list N * list bv_thread -> list N * list bv_thread -> Prop :=
| bv_call : forall data data' pre i calls results r post,
    bv_set B data i = Ok (r, data') ->
    bv_step B (data, pre ++ (i :: calls, results) :: post) (data', pre ++ (calls, results ++ [(i, r)]) :: post).
Inductive bv_run (B : nat) : list N * list bv_thread -> list N * list bv_thread -> Prop :=
| bv_refl : forall s, bv_run B s s
| bv_more : forall s1 s2 s3, bv_run B s1 s2 -> bv_step B s2 s3 -> bv_run B s1 s3.

(** __builtin_ctzl of a non-zero value. *)
Fixpoint pos_ctz (p : positive) : nat :=
  match p with xO q => S (pos_ctz q) | _ => 0 end.
Definition ctz (w : N) : nat := match w with N0 => 0 | Npos p => pos_ctz p end.

(** non_zero_iterator::search_next, AtomicBitVector.hpp:195-208; an iterator is (word_, bit_). *)
Fixpoint search_next (fuel : nat) (data : list N) (n word : nat) : res (nat * nat) :=
  if word <? n then
    match fuel with
    | 0 => OutOfFuel
    | S f =>
        do w <- vget data word ;
        if N.eqb w 0 then search_next f data n (word + 1) else Ok (word, ctz w)
    end
  else Ok (n, 0).
(** Constructor, AtomicBitVector.hpp:161. *)
Definition nz_iter (data : list N) (n word : nat) : res (nat * nat) := search_next n data n word.

(** operator++, AtomicBitVector.hpp:169-182. *)
Definition nz_next (B : nat) (data : list N) (n : nat) (it : nat * nat) : res (nat * nat) :=
  let (word, bit) := it in
  if (word <? n) && (bit + 1 <? B) then
    do w0 <- vget data word ;
    let w := N.shiftr w0 (N.of_nat (bit + 1)) in
    if N.eqb w 0 then search_next n data n (word + 1) else Ok (word, bit + 1 + ctz w)
  else search_next n data n (word + 1).

(** A loop [for (it = begin; it != end; ++it)] collecting *it = word_ * BITS + bit_ (lines 163, 190). *)
Fixpoint nz_collect (fuel B : nat) (data : list N) (n : nat) (it last : nat * nat) : res (list nat) :=
  if (fst it =? fst last) && (snd it =? snd last) then Ok []
  else match fuel with
       | 0 => OutOfFuel
       | S f =>
           do it' <- nz_next B data n it ;
           do rest <- nz_collect f B data n it' last ;
           Ok (fst it * B + snd it :: rest)
       end.

(** non_zero_range, AtomicBitVector.hpp:217-239: word range [first, last). *)
Record nz_range := mkNz { nz_first : nat; nz_last : nat; nz_cutoff : nat }.
Definition nz_size (r : nz_range) : nat := nz_last r - nz_first r.
Definition nz_divisible (r : nz_range) : bool := nz_cutoff r <? nz_size r.
(** Splitting constructor (227-228): the new piece and the remaining range. *)
Definition nz_split (r : nz_range) : nz_range * nz_range :=
  let mid := nz_first r + nz_size r / 2 in
  (mkNz (nz_first r) mid (nz_cutoff r), mkNz mid (nz_last r) (nz_cutoff r)).
Definition nz_visit (fuel B : nat) (data : list N) (n : nat) (r : nz_range) : res (list nat) :=
  do b <- nz_iter data n (nz_first r) ;
  do e <- nz_iter data n (nz_last r) ;
  nz_collect fuel B data n b e.
(** non_zeros(cutoff), line 241. *)
Definition non_zeros (B bits cutoff : nat) : nz_range := mkNz 0 (words B bits) cutoff.
