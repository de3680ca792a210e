(** Model of the class Times of bench/common.hpp (175-250) and of parse_n_threads and parse_ids (58-80).

    A time is an integer number of clock ticks and the average is a total and a count: rounding is left out, and so are the digits
    printed.  The map is a list in the order of its keys. *)
From Coq Require Import String Ascii List ZArith Bool.
From Verif Require Import Base MmModel.
Import ListNotations.
Set Implicit Arguments.
Local Open Scope Z_scope.
Local Open Scope list_scope.

(** std::tuple<std::string, long, long>, compared by std::less. *)
Definition key : Type := string * Z * Z.
Definition k_compare (a b : key) : comparison :=
  let '(((f, i), t), ((f', i'), t')) := (a, b) in
  match String.compare f f' with
  | Eq => match Z.compare i i' with Eq => Z.compare t t' | c => c end
  | c => c
  end.
Definition times : Type := list (key * list Z).
(** append (201-203): times_[key].emplace_back(trial). *)
Fixpoint t_append (m : times) (k : key) (trial : Z) : times :=
  match m with
  | [] => [(k, [trial])]
  | (k', l) :: r =>
    match k_compare k k' with
    | Lt => (k, [trial]) :: m
    | Eq => (k', l ++ [trial]) :: r
    | Gt => (k', l) :: t_append r k trial
    end
  end.
(** minmax (242-245): std::minmax_element, whose results are dereferenced. *)
Fixpoint least (x : Z) (l : list Z) : Z := match l with [] => x | y :: r => least (if y <? x then y else x) r end.
Fixpoint most (x : Z) (l : list Z) : Z := match l with [] => x | y :: r => most (if y <? x then x else y) r end.
Definition minmax (l : list Z) : res (Z * Z) := match l with [] => Ub | x :: r => Ok (least x r, most x r) end.
(** average (234-240). *)
Definition average (l : list Z) : Z * nat := (fold_left Z.add l 0, length l).
(** print (205-231): the width of the first column and a row for each configuration. *)
Record row : Type := mkRow { r_key : key; r_min : Z; r_avg : Z * nat; r_max : Z }.
Definition file_width (m : times) : nat := (fold_left (fun n kv => Nat.max n (String.length (fst (fst (fst kv))))) m 4 + 2)%nat.
Definition t_print (m : times) : res (nat * list row) :=
  do rows <- rmap (fun kv => do mm <- minmax (snd kv) ; Ok (mkRow (fst kv) (fst mm) (average (snd kv)) (snd mm))) m ;
  Ok (file_width m, rows).

(** std::stol, as strtol in base 10: [None] if it throws, for no number or one out of range.  What follows the number is ignored. *)
Definition stol (s : list ascii) : option Z :=
  let (neg, t1) := read_sign (skip_ws s) in
  if starts_digit t1 then
    let v := fst (read_digits 0 t1) in
    let z := if neg then - v else v in
    if (z <? - 2 ^ 63) || (2 ^ 63 - 1 <? z) then None else Some z
  else None.
(** parse_ids (74-80). *)
Fixpoint parse_ids (args : list (list ascii)) : option (list Z) :=
  match args with
  | [] => Some []
  | a :: r => match stol a with None => None | Some z => match parse_ids r with None => None | Some l => Some (z :: l) end end
  end.
(** parse_n_threads (58-72), with what TBB allows if there are no arguments. *)
Definition parse_n_threads (allowed : Z) (args : list (list ascii)) : option (list Z) := match args with [] => Some [allowed] | _ => parse_ids args end.
