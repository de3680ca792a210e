(** Model of the Matrix Market reader and writer of io/mmio.hpp.  Files are lists of characters; the formatted output
    and input of the C++ streams is modelled for integers (decimal base, the default).  Floating point attributes are not
    modelled.  [W] is the number of values of the vertex id type; size_t has [SZ] = 2^64 values. *)
From Coq Require Import List Arith ZArith Ascii String Bool.
From Verif Require Import Base EdgeListModel.
Import ListNotations.
Set Implicit Arguments.
Local Open Scope char_scope.
Local Open Scope Z_scope.

Notation text := (list ascii) (only parsing).
Definition txt (s : string) : text := list_ascii_of_string s.
Definition NL : ascii := "010".
Definition SP : ascii := " ".
Definition SZ : Z := 2 ^ 64.

(** ** Output: operator<< of an integer, most significant digit first. *)
Definition digit (d : Z) : ascii := ascii_of_nat (48 + Z.to_nat d).
Fixpoint dec (fuel : nat) (n : Z) : text :=
  match fuel with
  | O => []
  | S f => if n <? 10 then [digit n] else dec f (n / 10) ++ [digit (n mod 10)]
  end.
Definition print_nat (n : Z) : text := dec (S (Z.to_nat (Z.log2 n))) n.
Definition print_int (n : Z) : text := if n <? 0 then "-" :: print_nat (- n) else print_nat n.

(** ** Input.  A stream is its fail state and the characters left; an extraction from a failed stream or at the end of
    the input leaves the variable untouched, a malformed number stores 0, one out of range stores the nearest
    representable value; the last three set the fail state.  [None] is an uninitialised variable. *)
Record stream := { s_good : bool; s_left : text }.
Definition is_space (c : ascii) : bool :=
  let n := nat_of_ascii c in (n =? 32)%nat || ((9 <=? n)%nat && (n <=? 13)%nat).
Fixpoint skip_ws (t : text) : text :=
  match t with c :: t' => if is_space c then skip_ws t' else t | [] => [] end.
Definition is_digit (c : ascii) : bool := let n := nat_of_ascii c in (48 <=? n)%nat && (n <=? 57)%nat.
Definition digit_val (c : ascii) : Z := Z.of_nat (nat_of_ascii c) - 48.
(** the digits: value and the rest; [acc] is what was read before *)
Fixpoint read_digits (acc : Z) (t : text) : Z * text :=
  match t with
  | c :: t' => if is_digit c then read_digits (acc * 10 + digit_val c) t' else (acc, t)
  | [] => (acc, [])
  end.
Definition read_sign (t : text) : bool * text :=
  match t with
  | c :: t' => if Ascii.eqb c "-" then (true, t') else if Ascii.eqb c "+" then (false, t') else (false, t)
  | [] => (false, [])
  end.
Definition starts_digit (t : text) : bool := match t with c :: _ => is_digit c | [] => false end.
(** operator>> into an integer variable holding [old]: [lo, hi] is the range of the type; for an unsigned type ([lo] = 0)
    a minus sign negates modulo hi + 1. *)
Definition extract (lo hi : Z) (old : option Z) (st : stream) : option Z * stream :=
  if negb (s_good st) then (old, st)
  else
    match skip_ws (s_left st) with
    | [] => (old, {| s_good := false; s_left := [] |})
    | t =>
      let (neg, t1) := read_sign t in
      if negb (starts_digit t1) then (Some 0, {| s_good := false; s_left := t1 |})
      else
        let (v, t2) := read_digits 0 t1 in
        if lo =? 0 then
          if hi <? v then (Some hi, {| s_good := false; s_left := t2 |})
          else (Some (if neg then (- v) mod (hi + 1) else v), {| s_good := true; s_left := t2 |})
        else
          let v := if neg then - v else v in
          if hi <? v then (Some hi, {| s_good := false; s_left := t2 |})
          else if v <? lo then (Some lo, {| s_good := false; s_left := t2 |})
          else (Some v, {| s_good := true; s_left := t2 |})
    end.
Definition extract_size (old : option Z) (st : stream) := extract 0 (SZ - 1) old st.
(** operator>> into a double whose value is not used (mmio.hpp 138-144): only the characters consumed matter. *)
Definition skip_digits (t : text) : bool * text := (starts_digit t, snd (read_digits 0 t)).
Definition skip_double (st : stream) : stream :=
  if negb (s_good st) then st
  else
    match skip_ws (s_left st) with
    | [] => {| s_good := false; s_left := [] |}
    | t =>
      let t1 := snd (read_sign t) in
      let (d1, t2) := skip_digits t1 in
      let (d2, t3) := match t2 with c :: t' => if Ascii.eqb c "." then skip_digits t' else (false, t2) | [] => (false, t2) end in
      if negb (d1 || d2) then {| s_good := false; s_left := t3 |}
      else
        match t3 with
        | c :: t' =>
          if Ascii.eqb c "e" || Ascii.eqb c "E" then
            let (d, t4) := skip_digits (snd (read_sign t')) in {| s_good := d; s_left := t4 |}
          else {| s_good := true; s_left := t3 |}
        | [] => {| s_good := true; s_left := t3 |}
        end
    end.
(** std::getline: the characters up to the next newline, which is dropped; [None] when nothing is left *)
Fixpoint split_line (t : text) : text * text :=
  match t with
  | [] => ([], [])
  | c :: t' => if Ascii.eqb c NL then ([], t') else let (l, r) := split_line t' in (c :: l, r)
  end.
Definition getline (t : text) : option (text * text) := match t with [] => None | _ => Some (split_line t) end.
(** operator>> into a std::string: the next run of non-blank characters; the string is left alone (empty here) when there
    is none *)
Fixpoint take_word (t : text) : text * text :=
  match t with
  | c :: t' => if is_space c then ([], t) else let (w, r) := take_word t' in (c :: w, r)
  | [] => ([], [])
  end.
Fixpoint words (k : nat) (t : text) : list text :=
  match k with O => [] | S k' => let (w, r) := take_word (skip_ws t) in w :: words k' r end.
(** comparison with a string literal *)
Fixpoint text_eqb (a b : text) : bool :=
  match a, b with
  | [], [] => true
  | x :: a', y :: b' => Ascii.eqb x y && text_eqb a' b'
  | _, _ => false
  end.

(** ** The reader *)
Definition stream_of (t : text) : stream := {| s_good := true; s_left := t |}.
(** use of a possibly uninitialised variable *)
Definition use (o : option Z) : res Z := match o with Some z => Ok z | None => Ub end.
(** size_t d - 1, converted to the vertex id type by push_back *)
Definition to_id (W : nat) (d : Z) : nat := Z.to_nat (((d - 1) mod SZ) mod Z.of_nat W).

(** one line of an edge section: `stringstream(buffer) >> d0 >> d1` (mmio.hpp lines 48-49, 93-94) *)
Definition line_ids (t : text) : res (Z * Z * stream * text) :=
  let (buf, rest) := match getline t with Some p => p | None => ([], []) end in
  let (o0, s0) := extract_size None (stream_of buf) in
  let (o1, s1) := extract_size None s0 in
  do d0 <- use o0 ; do d1 <- use o1 ; Ok (d0, d1, s1, rest).
(** and with `>> v` behind, v initialised to 1 (lines 68-75, 113-120, 159-164); [lo, hi] is the range of the attribute type *)
Definition line_ids_val (lo hi : Z) (pattern : bool) (t : text) : res (Z * Z * Z * text) :=
  do r <- line_ids t ;
  let '(d0, d1, s1, rest) := r in
  if pattern then Ok (d0, d1, 1, rest)
  else let (o, _) := extract lo hi (Some 1) s1 in do v <- use o ; Ok (d0, d1, v, rest).

(** push_back of a line and, for a symmetric file read into a directed list, of its reverse unless d0 == d1
    (lines 51-55, 77-81, 96-100, 122-126) *)
Definition entry {A : Type} (W : nat) (mirror : bool) (d0 d1 : Z) (a : A) : list (edge A) :=
  (to_id W d0, to_id W d1, a) :: (if mirror && negb (d0 =? d1) then [(to_id W d1, to_id W d0, a)] else []).

(** mm_fill for edge_list<directed> (lines 86-103) and bi_edge_list<directed> (41-58): the edges pushed, in order *)
Fixpoint fill_dir (W : nat) (mirror : bool) (k : nat) (t : text) : res (list (edge unit)) :=
  match k with
  | O => Ok []
  | S k' =>
    do r <- line_ids t ;
    let '(d0, d1, _, rest) := r in
    do es <- fill_dir W mirror k' rest ; Ok (entry W mirror d0 d1 tt ++ es)
  end.
(** mm_fill for edge_list<directed, T> (105-129), bi_edge_list<directed, T> (60-84), and with [mirror] = false for
    edge_list<undirected, T> (151-169) *)
Fixpoint fill_val (W : nat) (lo hi : Z) (pattern mirror : bool) (k : nat) (t : text) : res (list (edge Z)) :=
  match k with
  | O => Ok []
  | S k' =>
    do r <- line_ids_val lo hi pattern t ;
    let '(d0, d1, v, rest) := r in
    do es <- fill_val W lo hi pattern mirror k' rest ; Ok (entry W mirror d0 d1 v ++ es)
  end.
(** mm_fill for edge_list<undirected> (lines 131-149): extraction from the file itself, line ends being blanks *)
Fixpoint fill_und (W : nat) (pattern : bool) (k : nat) (st : stream) : res (list (edge unit)) :=
  match k with
  | O => Ok []
  | S k' =>
    let (o0, s0) := extract_size None st in
    let (o1, s1) := extract_size None s0 in
    let s2 := if pattern then s1 else skip_double s1 in
    do d0 <- use o0 ; do d1 <- use o1 ;
    do es <- fill_und W pattern k' s2 ; Ok (entry W false d0 d1 tt ++ es)
  end.

(** the header (lines 178-195): the five words of the first line; `throw;` without an exception ends the program, shown
    as [Ub].  Result: (symmetric, pattern) and what follows. *)
Definition header (t : text) : res (bool * bool * text) :=
  match getline t with
  | None => Ub
  | Some (l, rest) =>
    let ws := words 5 l in
    if negb (text_eqb (nth 0 ws []) (txt "%%MatrixMarket")) then Ub
    else
      let pattern := text_eqb (nth 3 ws []) (txt "pattern") in
      if text_eqb (nth 4 ws []) (txt "symmetric") then Ok (true, pattern, rest)
      else if text_eqb (nth 4 ws []) (txt "general") then Ok (false, pattern, rest)
      else Ub
  end.
(** skip the comment lines (197-199); the recursion is on the characters left *)
Fixpoint skip_comments (fuel : nat) (t : text) : res (text * text) :=
  match fuel with
  | O => OutOfFuel
  | S f =>
    match getline t with
    | None => Ub (* the size line is missing: n0, n1, nNonzeros stay uninitialised *)
    | Some (l, rest) =>
      match l with
      | c :: _ => if Ascii.eqb c "%" then skip_comments f rest else Ok (l, rest)
      | [] => Ok (l, rest)
      end
    end
  end.
(** the size line (200-201) *)
Definition sizes (t : text) : res (Z * Z * Z * text) :=
  do r <- skip_comments (S (List.length t)) t ;
  let (l, rest) := r in
  let (o0, s0) := extract_size None (stream_of l) in
  let (o1, s1) := extract_size None s0 in
  let (o2, s2) := extract_size None s1 in
  do n0 <- use o0 ; do n1 <- use o1 ; do nnz <- use o2 ; Ok (n0, n1, nnz, rest).

(** read_mm<directed>(stream), read_mm<directed, T>, read_mm<undirected>, read_mm<undirected, T> (lines 171-208): construct
    A(n0), push the edges, close. *)
Definition read_dir (W : nat) (t : text) : res (edge_list unit) :=
  do h <- header t ; let '(sym, pattern, t1) := h in
  do z <- sizes t1 ; let '(n0, n1, nnz, t2) := z in
  do es <- fill_dir W sym (Z.to_nat nnz) t2 ; Ok (el_build W (Z.to_nat n0) es).
Definition read_dir_val (W : nat) (lo hi : Z) (t : text) : res (edge_list Z) :=
  do h <- header t ; let '(sym, pattern, t1) := h in
  do z <- sizes t1 ; let '(n0, n1, nnz, t2) := z in
  do es <- fill_val W lo hi pattern sym (Z.to_nat nnz) t2 ; Ok (el_build W (Z.to_nat n0) es).
Definition read_und (W : nat) (t : text) : res (edge_list unit) :=
  do h <- header t ; let '(sym, pattern, t1) := h in
  do z <- sizes t1 ; let '(n0, n1, nnz, t2) := z in
  do es <- fill_und W pattern (Z.to_nat nnz) (stream_of t2) ; Ok (el_build W (Z.to_nat n0) es).
Definition read_und_val (W : nat) (lo hi : Z) (t : text) : res (edge_list Z) :=
  do h <- header t ; let '(sym, pattern, t1) := h in
  do z <- sizes t1 ; let '(n0, n1, nnz, t2) := z in
  do es <- fill_val W lo hi pattern false (Z.to_nat nnz) t2 ; Ok (el_build W (Z.to_nat n0) es).
(** read_mm<directed, T, bi_edge_list<...>>(filename) (lines 219-275): a square or symmetric matrix ends the program *)
Definition read_bi_val (W : nat) (lo hi : Z) (t : text) : res (bi_edge_list Z) :=
  do h <- header t ; let '(sym, pattern, t1) := h in
  do z <- sizes t1 ; let '(n0, n1, nnz, t2) := z in
  if (n0 =? n1) || sym then Ub
  else do es <- fill_val W lo hi pattern sym (Z.to_nat nnz) t2 ; Ok (bel_build W (Z.to_nat n0) (Z.to_nat n1) es).

(** ** The writer *)
(** the first two lines (mmio.hpp 379, 422, 454) *)
Definition head_line (wtype symm : text) : text :=
  txt "%%MatrixMarket matrix coordinate " ++ wtype ++ SP :: symm ++ NL :: txt "%%" ++ [NL].
(** the size line (381-390, 424-425, 456-457) *)
Definition size_line (n0 n1 m : Z) : text := print_nat n0 ++ SP :: print_nat n1 ++ SP :: print_nat m ++ [NL].
(** one entry; [value] is the printed attribute, if w_idx != 0 *)
Definition entry_line (d0 d1 : Z) (value : option text) : text :=
  print_int d0 ++ SP :: print_int d1 ++ match value with Some v => SP :: v | None => [] end ++ [NL].
(** std::get<i>(element) + 1 in the vertex id type *)
Definition one_based (W : nat) (i : nat) : Z := Z.of_nat (S i mod W).
(** aos_stream (lines 377-402) for edge_list<sym, Attributes...>, with write_mm (404-418), which only warns when a directed
    list is written as symmetric.  [both] = the file is "general" and the list undirected; [pr] prints the attribute. *)
Definition write_list (A : Type) (W : nat) (undirected : bool) (pr : A -> option text) (wtype symm : text) (el : edge_list A) : text :=
  let both := text_eqb symm (txt "general") && undirected in
  let m := Z.of_nat (List.length (el_view el)) in
  let n := Z.of_nat (el_num_vertices el) in
  head_line wtype symm ++ size_line n n (if both then 2 * m else m) ++
  flat_map (fun e => entry_line (one_based W (esrc e)) (one_based W (etgt e)) (pr (eatt e)) ++
                     (if both then entry_line (one_based W (etgt e)) (one_based W (esrc e)) (pr (eatt e)) else [])) (el_view el).
(** adjacency_stream (lines 420-434 and, for biadjacency with its two cardinalities, 452-466).  The number of entries is
    summed in an int; overflow is undefined.  The row number is a signed difference plus (1 - idx), the target is computed in
    the vertex id type. *)
Definition write_adj (A : Type) (W : nat) (idx : Z) (pr : A -> option text) (wtype symm : text) (n0 n1 : Z) (g : list (list (nat * A))) : res text :=
  let m := Z.of_nat (List.length (List.concat g)) in
  if 2 ^ 31 <=? m then Ub
  else
    Ok (head_line wtype symm ++ size_line n0 n1 m ++
        flat_map (fun iu =>
          flat_map (fun v => entry_line (Z.of_nat (fst iu) + (1 - idx)) ((Z.of_nat (fst v) + (1 - idx)) mod Z.of_nat W) (pr (snd v))) (snd iu))
          (combine (seq 0 (List.length g)) g)).
