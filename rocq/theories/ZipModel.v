(** Model of containers/zip.hpp: zipped holds references to its columns, so the columns live in a heap of containers and a zipped is the
    list of their addresses, in the order of the template arguments.

    Every column has elements of type Z here; in the code each has its own type. reference is a tuple of references (zip.hpp:59-62, 77), value_type
    a tuple of values; permute, serialize, deserialize and the comparisons are those of struct_of_arrays (CsrModel.v, SerialModel.v).
    Post-increment and operator!= cannot be instantiated (their arguments do not fit). *)
From Coq Require Import List Arith ZArith Bool.
From Verif Require Import Base.
Import ListNotations.
Set Implicit Arguments.
Local Open Scope nat_scope.

Definition heap := list (list Z).
Definition zip := list nat.

(** size(): zip.hpp:295-297, that of the first column. *)
Definition zip_size (h : heap) (z : zip) : res nat := do a <- vget z 0 ; do v <- vget h a ; Ok (length v).
(** Reading a row: *it (146-149), it[n] (151-154), operator[] (205-211), converted to a tuple of values. *)
Definition zip_get (h : heap) (z : zip) (i : nat) : res (list Z) := rmap (fun a => do v <- vget h a ; vget v i) z.
(** Assignments of tuples of references: element by element, in the order of the columns. One column: *)
Definition cell_put (h : heap) (a i : nat) (x : Z) : res heap := do v <- vget h a ; do v' <- vset v i x ; vset h a v'.
Definition cell_move (h : heap) (a i j : nat) : res heap := do v <- vget h a ; do x <- vget v i ; cell_put h a j x.
Definition cell_swap (h : heap) (a i j : nat) : res heap :=
  do v <- vget h a ; do x <- vget v i ; do y <- vget v j ; do h1 <- cell_put h a i y ; cell_put h1 a j x.
(** *it = row, for a tuple of values (a row of another width does not compile). *)
Fixpoint zip_put (h : heap) (z : zip) (i : nat) (row : list Z) : res heap :=
  match z, row with
  | [], [] => Ok h
  | a :: z', x :: row' => do h' <- cell_put h a i x ; zip_put h' z' i row'
  | _, _ => Ub
  end.
(** *jt = *it. *)
Definition zip_move (h : heap) (z : zip) (i j : nat) : res heap := rfold (fun h a => cell_move h a i j) z h.
(** swap of two references: tuple_hack.hpp:38-46. *)
Definition zip_swap (h : heap) (z : zip) (i j : nat) : res heap := rfold (fun h a => cell_swap h a i j) z h.

(** Any algorithm that works through the iterators, such as std::sort: it may look at the values it reads. *)
Inductive prog :=
| Done
| Get (i : nat) (k : list Z -> prog)
| Put (i : nat) (row : list Z) (k : prog)
| Move (i j : nat) (k : prog)
| Swap (i j : nat) (k : prog).
Fixpoint run_zip (z : zip) (p : prog) (h : heap) : res heap :=
  match p with
  | Done => Ok h
  | Get i k => do row <- zip_get h z i ; run_zip z (k row) h
  | Put i row k => do h' <- zip_put h z i row ; run_zip z k h'
  | Move i j k => do h' <- zip_move h z i j ; run_zip z k h'
  | Swap i j k => do h' <- zip_swap h z i j ; run_zip z k h'
  end.

(** The rows from begin() to end() (zip.hpp:190-203). *)
Definition zip_rows (h : heap) (z : zip) : res (list (list Z)) := do n <- zip_size h z ; rmap (zip_get h z) (seq 0 n).
(** clear, resize: zip.hpp:232-238; new elements are value-initialised. *)
Definition resized (N : nat) (v : list Z) : list Z := firstn N v ++ repeat 0%Z (N - length v).
Definition zip_resize (h : heap) (z : zip) (N : nat) : res heap := rfold (fun h a => do v <- vget h a ; vset h a (resized N v)) z h.
Definition zip_clear (h : heap) (z : zip) : res heap := rfold (fun h a => do v <- vget h a ; vset h a []) z h.

(** Iterators (zip.hpp:119-144): an index of [M] = 2^64 values; differences are read as signed numbers. [it_rsub n i] is the friend
    operator-(n, i) (138-140). *)
Local Open Scope Z_scope.
Definition it_add (M i n : Z) : Z := (i + n) mod M.
Definition it_sub (M i n : Z) : Z := (i - n) mod M.
Definition it_rsub (M n i : Z) : Z := it_sub M i n.
Definition it_diff (M i j : Z) : Z := let d := (i - j) mod M in if d <? M / 2 then d else d - M.
