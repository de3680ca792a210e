(** Model of small utilities: util/util.hpp:172-217 (log2, ceil_log2, pow2, block),
    util/intersection_size.hpp:50-81, util/atomic.hpp:117-153 (fetch_add). *)
From Coq Require Import List Arith NArith.
From Verif Require Import Base.
Import ListNotations.
Set Implicit Arguments.

(** __builtin_clz / __builtin_clzl on a [w]-bit non-zero value: number of leading zero bits. *)
Definition clz (w v : N) : N := (w - N.size v)%N.

(** util.hpp:174-177 ([w] = 64).  assert(val) is the [Ub] case (builtin undefined on 0). *)
Definition log2_ (w v : N) : res N :=
  if N.eqb v 0 then Ub else Ok (w - 1 - clz w v)%N.

(** util.hpp:180-194 ([w] = 32 or 64). *)
Definition ceil_log2 (w v : N) : res N :=
  if N.eqb v 0 then Ub
  else Ok (w - 1 - clz w v + (if N.eqb (N.land v (v - 1)) 0 then 0 else 1))%N.

(** util.hpp:197-202 with NDEBUG: T(1) << exp on [w] bits; a shift by [w] or more is undefined. *)
Definition pow2 (w e : N) : res N :=
  if (e <? w)%N then Ok (N.shiftl 1 e mod 2 ^ w)%N else Ub.
(** The assertion in pow2 (line 200). *)
Definition pow2_assertion (w e : N) : bool := (e <? w - 1)%N.

(** util.hpp:209-217.  N % n and N / n are undefined for n = 0. *)
Definition block (N n id : nat) : res (nat * nat) :=
  if n =? 0 then Ub
  else
    let r := N mod n in
    let b := N / n in
    Ok (id * b + Nat.min id r, (id + 1) * b + Nat.min (id + 1) r).
(** The two assertions of lines 214-215. *)
Definition block_assertions (N n id : nat) : bool :=
  match block N n id with
  | Ok (b, e) => (negb (id =? 0) || (b =? 0)) && (negb (id =? N - 1) || (e =? N))
  | _ => false
  end.

(** intersection_size.hpp:61-76: the sequential loop; elements are represented by std::get<0>.
    Fuel counts loop iterations. *)
Fixpoint intersection_loop (fuel : nat) (a b : list nat) (n : nat) : res nat :=
  match a, b with
  | [], _ => Ok n
  | _, [] => Ok n
  | x :: a', y :: b' =>
      match fuel with
      | 0 => OutOfFuel
      | S f =>
          if x <? y then intersection_loop f a' b n
          else if y <? x then intersection_loop f a b' n
          else intersection_loop f a' b' (n + 1)
      end
  end.
Definition intersection_size (a b : list nat) : res nat :=
  intersection_loop (length a + length b) a b 0.

(** fetch_add by a CAS loop: atomic.hpp:134-137 and 143-146.  Several threads call
    fetch_add(t, u) on the same variable.  [add] is the (floating point) addition on the value type [V].
    - FaStart u: about to load the expected value;
    - FaLoop e u: expected value is e, about to execute the CAS;
    - FaDone r: returned r. *)
Inductive fa_thread (V : Type) : Type :=
| FaStart : V -> fa_thread V
| FaLoop : V -> V -> fa_thread V
| FaDone : V -> fa_thread V.
Arguments FaStart {V}. Arguments FaLoop {V}. Arguments FaDone {V}.

(** One atomic step of one thread in memory value [m].  The CAS may fail spuriously; a failing CAS
    stores the current value of the variable in the expected value (std::atomic compare_exchange). *)
Inductive fa_step {V : Type} (add : V -> V -> V) : V -> fa_thread V -> V -> fa_thread V -> Prop :=
| fa_load : forall m u, fa_step add m (FaStart u) m (FaLoop m u)
| fa_cas_ok : forall m u, fa_step add m (FaLoop m u) (add m u) (FaDone m)
| fa_cas_fail : forall m e u, fa_step add m (FaLoop e u) m (FaLoop m u).

(** The whole system: a step of any one thread. *)
Inductive fa_sys_step {V : Type} (add : V -> V -> V) : V * list (fa_thread V) -> V * list (fa_thread V) -> Prop :=
| fa_sys : forall m m' pre t t' post,
    fa_step add m t m' t' -> fa_sys_step add (m, pre ++ t :: post) (m', pre ++ t' :: post).
Inductive fa_run {V : Type} (add : V -> V -> V) : V * list (fa_thread V) -> V * list (fa_thread V) -> Prop :=
| fa_refl : forall s, fa_run add s s
| fa_more : forall s1 s2 s3, fa_run add s1 s2 -> fa_sys_step add s2 s3 -> fa_run add s1 s3.
