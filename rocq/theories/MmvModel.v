(** Model of read_mm_vector (io/mmio.hpp:277-338), is_mm (340-352), get_mm_symmetry (354-374) and of load_graph
    (bench/common.hpp:82-102). Streams, numbers and words as in MmModel; files are character lists, for load_graph byte
    lists. *)
From Coq Require Import List Arith ZArith Ascii String Bool.
From Verif Require Import Base EdgeListModel MmModel SerialModel.
Import ListNotations.
Set Implicit Arguments.
Local Open Scope char_scope.
Local Open Scope Z_scope.

(** ** Lines. A file stream: has the end been hit (eofbit), and the characters left. *)
Record fstream := { f_eof : bool; f_left : list ascii }.
Fixpoint has_nl (t : list ascii) : bool := match t with [] => false | c :: t' => Ascii.eqb c NL || has_nl t' end.
(** std::getline into a string holding [old]: success, the string, the stream. On a stream that has hit its end nothing
    happens; otherwise the string is cleared first, and a line that is not ended by a newline sets eofbit. *)
Definition getl (old : list ascii) (s : fstream) : bool * list ascii * fstream :=
  if f_eof s then (false, old, s)
  else match f_left s with
       | [] => (false, [], {| f_eof := true; f_left := [] |})
       | t => let (l, r) := split_line t in (true, l, {| f_eof := negb (has_nl t); f_left := r |})
       end.
(** mmio.hpp:304-306: read lines until one does not begin with %; the string keeps its content when there are no more. *)
Fixpoint skip_percent (fuel : nat) (old : list ascii) (s : fstream) : res (list ascii * fstream) :=
  match fuel with
  | O => OutOfFuel
  | S f =>
    let '(ok, l, s') := getl old s in
    if ok then match l with
               | c :: _ => if Ascii.eqb c "%" then skip_percent f l s' else Ok (l, s')
               | [] => Ok (l, s')
               end
    else Ok (l, s')
  end.

(** ** Entries *)
(** Reading a number as a double (314-319) is modelled where it agrees with reading an integer: nothing left, or digits
    followed by a blank or the end, of value at most 2^53. *)
Definition int_token (t : list ascii) : bool :=
  match skip_ws t with
  | [] => true
  | u => let (v, r) := read_digits 0 u in
      starts_digit u && (v <=? 2 ^ 53) && match r with [] => true | c :: _ => is_space c end
  end.
(** vec[i] = d - 1 (318, 324): a size_t wraps and is cut to the id type; a double outside the range of the id type is
    undefined. *)
Definition vec_store (W : nat) (real : bool) (d : Z) : res nat :=
  if real then if (1 <=? d) && (d <=? Z.of_nat W) then Ok (Z.to_nat (d - 1)) else Ub
  else Ok (to_id W d).
(** 314-326: d is declared before the loop and keeps its value when nothing can be read; [None] (outer): a token that is
    not modelled. *)
Fixpoint vec_fill (W : nat) (real : bool) (k : nat) (old : option Z) (st : stream) : option (res (list nat)) :=
  match k with
  | O => Some (Ok [])
  | S k' =>
    if real && s_good st && negb (int_token (s_left st)) then None
    else
      let (o, st') := extract_size old st in
      match (do d <- use o ; vec_store W real d) with
      | Ok x => match vec_fill W real k' o st' with
                | Some (Ok l) => Some (Ok (x :: l))
                | r => r
                end
      | Ub => Some Ub
      | OutOfFuel => Some OutOfFuel
      end
  end.

(** 277-329; `throw;` without an exception ends the program, shown as [Ub]. [debug]: assert(1 == n1) (310) is compiled
    in; otherwise n1 is not used. *)
Definition read_mm_vector (W : nat) (debug : bool) (file : list ascii) : option (res (list nat)) :=
  let '(_, l, s) := getl [] {| f_eof := false; f_left := file |} in
  let ws := words 5 l in
  if negb (text_eqb (nth 0 ws []) (txt "%%MatrixMarket")) then Some Ub
  else if negb (text_eqb (nth 4 ws []) (txt "symmetric") || text_eqb (nth 4 ws []) (txt "general")) then Some Ub
  else
    match skip_percent (S (List.length file)) l s with
    | Ok (l2, s2) =>
      let (o0, t0) := extract_size None (stream_of l2) in
      let (o1, _) := extract_size None t0 in
      match (do n0 <- use o0 ; do _ <- (if debug then do n1 <- use o1 ; if n1 =? 1 then Ok tt else Ub else Ok tt) ; Ok n0) with
      | Ok n0 => vec_fill W (text_eqb (nth 3 ws []) (txt "real")) (Z.to_nat n0) None {| s_good := negb (f_eof s2); s_left := f_left s2 |}
      | Ub => Some Ub
      | OutOfFuel => Some OutOfFuel
      end
    | Ub => Some Ub
    | OutOfFuel => Some OutOfFuel
    end.

(** 340-352. *)
Definition is_mm (file : list ascii) : bool :=
  let '(_, l, _) := getl [] {| f_eof := false; f_left := file |} in
  text_eqb (nth 0 (words 5 l) []) (txt "%%MatrixMarket").
(** 354-374: true for undirected. *)
Definition get_mm_symmetry (file : list ascii) : res bool :=
  let '(_, l, _) := getl [] {| f_eof := false; f_left := file |} in
  if negb (text_eqb (nth 0 (words 5 l) []) (txt "%%MatrixMarket")) then Ub
  else Ok (text_eqb (nth 4 (words 5 l) []) (txt "symmetric")).

(** ** load_graph (bench/common.hpp:82-102) for a list without attributes: the first word of the file decides. [dir],
    [ncards], [tys] describe the receiving type as in SerialModel; exit(1) is [LExit]. *)
Inductive loaded : Type := LBin (r : rd stored_edge_list) | LMm (r : res (edge_list unit)) | LExit.
Definition load_graph (W : nat) (undirected : bool) (dir ncards : nat) (tys : list nat) (file : list nat) : loaded :=
  let t := map ascii_of_nat file in
  let type := fst (take_word (skip_ws t)) in
  if text_eqb type (txt "NW") then LBin (deser_el dir ncards tys file)
  else if text_eqb type (txt "%%MatrixMarket") then LMm (if undirected then read_und W t else read_dir W t)
  else LExit.
