(** Model of bench/Log.hpp (39-185): the table of results.

    Texts are character lists.  What comes from outside is given: the random letters, the host's name, the date, what git printed, the
    compiler's macros and the texts of the numbers.  Creating the directory and opening the file are left out. *)
From Coq Require Import String List Arith Bool Ascii.
From Verif Require Import Base.
Import ListNotations.
Set Implicit Arguments.
Local Open Scope nat_scope.
Local Open Scope list_scope.

Definition text : Type := list ascii.
Definition txt (s : string) : text := list_ascii_of_string s.
Definition BLANK : ascii := " "%char.
(** std::setw(w) << std::left << s. *)
Definition column (w : nat) (s : text) : text := s ++ repeat BLANK (w - length s).
(** What the constructor finds out (54-100).  gethostname (61): the name with the ending zero if it fits in host_[20] (41), without it
    otherwise. *)
Record found : Type := mkFound { uuid : text; branch : text; revision : option text; changed : bool; host_name : text; date : text;
  cxx : text; cxx_id : text; cxx_ver : text; build : text; tbb : text }.
(** 86-92: git_version_; both stay empty if git fails. *)
Definition version_of (c : found) : text := match revision c with Some r => r ++ (if changed c then txt "+" else []) | None => [] end.
(** os << host_: the characters up to a zero; without one the array is read past its end. *)
Definition host_of (c : found) : res text := if length (host_name c) <? 20 then Ok (host_name c) else Ub.
(** 94-99: sizeof of a literal is one more than its length. *)
Definition size_of (a b : text) : nat := Nat.max (length a + 1) (length b + 1) + 1.
Definition widths (c : found) (times : nat) : list nat :=
  [24 + 2; 10; 10; 10; size_of (cxx c) (txt "CXX"); size_of (cxx_id c) (txt "CXX_ID"); size_of (cxx_ver c) (txt "CXX_VER");
   size_of (build c) (txt "Build"); size_of (tbb c) (txt "TBBMALLOC"); 15; 20; 10; 10; 10; 32] ++ repeat 20 times.
Fixpoint columns (ws : list nat) (fields : list text) : text :=
  match ws, fields with
  | w :: ws', f :: fs => column w f ++ columns ws' fs
  | _, _ => []
  end.
Definition EOL : ascii := ascii_of_nat 10.
(** log_result_header (102-127). *)
Definition header_fields (times : list text) : list text :=
  map txt ["UUID"; "Library"; "Branch"; "Revision"; "CXX"; "CXX_ID"; "CXX_VER"; "Build"; "TBBMALLOC"; "Date"; "Host"; "Benchmark"; "Version"; "Threads"; "Graph"]%string ++ times.
Definition log_header (c : found) (times : list text) : text := columns (widths c (length times)) (header_fields times) ++ [EOL].

(** ** The name of the graph: 140-144 *)
(** The last component of a path. *)
Fixpoint file_name (acc p : text) : text :=
  match p with
  | [] => acc
  | x :: r => if Ascii.eqb x "/" then file_name [] r else file_name (acc ++ [x]) r
  end.
(** What comes before the last full stop; [None] if there is none. *)
Fixpoint before_dot (s : text) : option text :=
  match s with
  | [] => None
  | x :: r => match before_dot r with
              | Some a => Some (x :: a)
              | None => if Ascii.eqb x "." then Some [] else None
              end
  end.
(** std::filesystem::path::stem. *)
Definition stem (p : text) : text :=
  let f := file_name [] p in
  if if list_eq_dec ascii_dec f (txt "..") then true else false then f
  else match before_dot f with
       | None | Some [] => f
       | Some a => a
       end.
(** 134-138: up to the first underscore. *)
Fixpoint up_to_underscore (s : text) : text := match s with [] => [] | x :: r => if Ascii.eqb x "_" then [] else x :: up_to_underscore r end.
Definition graph_name (p : text) : text := up_to_underscore (stem p).

(** operator() (129-160). *)
Definition row_fields (c : found) (host benchmark version threads graph : text) (times : list text) : list text :=
  [uuid c; txt "NWGRAPH"; branch c; version_of c; cxx c; cxx_id c; cxx_ver c; build c; tbb c; date c; host; benchmark; version; threads; graph_name graph] ++ times.
Definition log_row (c : found) (benchmark version threads graph : text) (times : list text) : res text :=
  do host <- host_of c ;
  Ok (columns (widths c (length times)) (row_fields c host benchmark version threads graph times) ++ [EOL]).
(** print (162-178): file, id and threads of a configuration with its samples. *)
Definition config : Type := text * text * text.
Definition log_print (c : found) (algorithm : text) (samples : list (config * list (list text))) (header : bool) (headers : list text) : res text :=
  do l <- rmap (fun cs => let '((file, id), threads) := fst cs in
            do rows <- rmap (fun sample => log_row c algorithm (txt "v" ++ id) threads file sample) (snd cs) ; Ok (concat rows)) samples ;
  Ok ((if header then log_header c headers else []) ++ concat l).
