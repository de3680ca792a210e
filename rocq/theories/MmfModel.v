(** Model of io/MatrixMarketFile.hpp and of the parts of io/mmio_nist.h it uses (mm_read_banner 184-267,
    mm_read_mtx_crd_size 269-297). The file is a list of characters without NUL; the place of a FILE* is what is left
    to read. Simplified: opening and mapping the file succeed; a real attribute (strtod) is not modelled, only the tuples
    (int, int) and (int, int, int); the character after the end of the file reads as NUL (true unless its size is a
    multiple of the page size). [apx edge nnz i e] is the truncated double of line 187. *)
From Coq Require Import List Arith ZArith Ascii String Bool.
From Verif Require Import Base MmModel.
Import ListNotations.
Set Implicit Arguments.
Local Open Scope char_scope.
Local Open Scope Z_scope.

Definition INT_MIN : Z := - 2 ^ 31.
Definition INT_MAX : Z := 2 ^ 31 - 1.
Definition LONG_MIN : Z := - 2 ^ 63.
Definition LONG_MAX : Z := 2 ^ 63 - 1.
(** conversion of a long to int *)
Definition to_int (z : Z) : Z := (z + 2 ^ 31) mod 2 ^ 32 - 2 ^ 31.

(** ** C library *)
(** fgets with room for n characters: the line with its newline *)
Fixpoint fgets (n : nat) (t : text) : text * text :=
  match n, t with
  | S n', c :: t' => if Ascii.eqb c NL then ([c], t') else let (l, r) := fgets n' t' in (c :: l, r)
  | _, _ => ([], t)
  end.
(** the buffers: MM_MAX_LINE_LENGTH - 1 and MM_MAX_TOKEN_LENGTH (mmio_nist.h 18-20) *)
Definition LINE : nat := 1024.
Definition TOKEN : nat := 64.
(** one conversion %d of scanf; a value that does not fit is undefined behaviour *)
Inductive scan : Type := ScanEof | ScanFail (rest : text) | ScanInt (z : Z) (rest : text).
Definition scan_d (t : text) : res scan :=
  match skip_ws t with
  | [] => Ok ScanEof
  | t0 =>
      let (neg, t1) := read_sign t0 in
      if starts_digit t1 then
        let (v, t2) := read_digits 0 t1 in
        let z := if neg : bool then - v else v in
        if (INT_MIN <=? z) && (z <=? INT_MAX) then Ok (ScanInt z t2) else Ub
      else Ok (ScanFail t1)
  end.
(** "%d %d ...", k times: the values stored, whether the end of the input stopped it, and what is left *)
Fixpoint scan_ds (k : nat) (t : text) : res (list Z * bool * text) :=
  match k with
  | O => Ok ([], false, t)
  | S k' =>
      do r <- scan_d t ;
      match r with
      | ScanEof => Ok ([], true, [])
      | ScanFail t' => Ok ([], false, t')
      | ScanInt z t' => do q <- scan_ds k' t' ; let '(zs, e, t2) := q in Ok (z :: zs, e, t2)
      end
  end.
(** strtol in base 10 *)
Definition strtol (t : text) : Z * text :=
  let (neg, t1) := read_sign (skip_ws t) in
  if starts_digit t1 then
    let (v, t2) := read_digits 0 t1 in
    (Z.max LONG_MIN (Z.min LONG_MAX (if neg : bool then - v else v)), t2)
  else (0, t).
Definition tolower (c : ascii) : ascii :=
  let n := nat_of_ascii c in if (65 <=? n)%nat && (n <=? 90)%nat then ascii_of_nat (n + 32) else c.

(** ** mmio_nist.h *)
(** 184-267; [None]: one of the error codes. The type code without its first character, which is 'M'. *)
Definition code3 (w : text) : option ascii :=
  if text_eqb w (txt "real") then Some "R" else if text_eqb w (txt "complex") then Some "C"
  else if text_eqb w (txt "pattern") then Some "P" else if text_eqb w (txt "integer") then Some "I" else None.
Definition code4 (w : text) : option ascii :=
  if text_eqb w (txt "general") then Some "G" else if text_eqb w (txt "symmetric") then Some "S"
  else if text_eqb w (txt "hermitian") then Some "H" else if text_eqb w (txt "skew-symmetric") then Some "K" else None.
Definition code2 (w : text) : option ascii :=
  if text_eqb w (txt "coordinate") then Some "C" else if text_eqb w (txt "array") then Some "A" else None.
Record typecode := { tc_crd : ascii; tc_data : ascii; tc_sym : ascii }.
Definition mm_read_banner (t : text) : res (option (typecode * text)) :=
  match t with
  | [] => Ok None
  | _ =>
      let (line, rest) := fgets LINE t in
      let ws := words 5 line in
      if existsb (fun w => (TOKEN <=? List.length w)%nat) ws then Ub
      else if existsb (fun w => (List.length w =? 0)%nat) ws then Ok None
      else
        match ws with
        | [banner; mtx; crd; dt; ss] =>
            if negb (text_eqb (firstn 14 banner) (txt "%%MatrixMarket")) then Ok None
            else if negb (text_eqb (map tolower mtx) (txt "matrix")) then Ok None
            else
              match code2 (map tolower crd), code3 (map tolower dt), code4 (map tolower ss) with
              | Some a, Some b, Some c => Ok (Some ({| tc_crd := a; tc_data := b; tc_sym := c |}, rest))
              | _, _, _ => Ok None
              end
        | _ => Ok None
        end
  end.
(** 277-282: the first line that is not a comment *)
Fixpoint mm_comments (fuel : nat) (t : text) : res (option (text * text)) :=
  match fuel, t with
  | _, [] => Ok None
  | O, _ => OutOfFuel
  | S f, _ =>
      let (line, rest) := fgets LINE t in
      match line with
      | c :: _ => if Ascii.eqb c "%" then mm_comments f rest else Ok (Some (line, rest))
      | [] => Ok (Some (line, rest))
      end
  end.
(** 288-294: [fuel] bounds the rounds *)
Fixpoint mm_scan_sizes (fuel : nat) (t : text) : res (option (Z * Z * Z * text)) :=
  match fuel with
  | O => OutOfFuel
  | S f =>
      do r <- scan_ds 3 t ;
      match r with
      | ([a; b; c], _, rest) => Ok (Some (a, b, c, rest))
      | ([], true, _) => Ok None
      | (_, _, rest) => mm_scan_sizes f rest
      end
  end.
(** 269-297 *)
Definition mm_read_mtx_crd_size (fuel : nat) (t : text) : res (option (Z * Z * Z * text)) :=
  do o <- mm_comments (S (List.length t)) t ;
  match o with
  | None => Ok None
  | Some (line, rest) =>
      do r <- scan_ds 3 line ;
      match r with
      | ([a; b; c], _, _) => Ok (Some (a, b, c, rest))
      | _ => mm_scan_sizes fuel rest
      end
  end.

(** ** MatrixMarketFile *)
Record mmfile := { mf_type : typecode; mf_n : Z; mf_m : Z; mf_nnz : Z; mf_base : text; mf_i : nat }.
Definition mf_e (f : mmfile) : nat := List.length (mf_base f).
(** 56-99; [None]: std::terminate() *)
Definition mm_open (fuel : nat) (t : text) : res (option mmfile) :=
  do o <- mm_read_banner t ;
  match o with
  | None => Ok None
  | Some (tc, r1) =>
      if negb (Ascii.eqb (tc_crd tc) "C") then Ok None
      else
        do q <- mm_read_mtx_crd_size fuel r1 ;
        match q with
        | None => Ok None
        | Some (n, m, nnz, r2) =>
            Ok (Some {| mf_type := tc; mf_n := n; mf_m := m; mf_nnz := nnz; mf_base := t; mf_i := List.length t - List.length r2 |})
        end
  end.
(** isPattern, isSymmetric (125-127) *)
Definition mm_is_pattern (f : mmfile) : bool := Ascii.eqb (tc_data (mf_type f)) "P".
Definition mm_is_symmetric (f : mmfile) : bool := Ascii.eqb (tc_sym (mf_type f)) "S".

(** get<int> (138-149) *)
Definition get_int (t : text) : Z * text := let (v, t') := strtol t in (to_int v, t').
(** int - 1 *)
Definition dec_int (z : Z) : res Z := if z =? INT_MIN then Ub else Ok (z - 1).
(** operator* (154-159), the tuple with ([attr]) or without an int attribute; an iterator is its offset *)
Definition mm_deref (attr : bool) (base : text) (o : nat) : res (Z * Z * list Z) :=
  if (List.length base <? o)%nat then Ub
  else
    let (a, t1) := get_int (skipn o base) in
    do u <- dec_int a ;
    let (b, t2) := get_int t1 in
    do v <- dec_int b ;
    Ok (u, v, if attr then [fst (get_int t2)] else []).
(** strchr(i, '\n') *)
Fixpoint find_nl (t : text) : option nat :=
  match t with
  | [] => None
  | c :: t' => if Ascii.eqb c NL then Some O else option_map S (find_nl t')
  end.
(** operator++ (161-164); without a newline it increments a null pointer *)
Definition mm_next (base : text) (o : nat) : res nat :=
  if (List.length base <? o)%nat then Ub
  else match find_nl (skipn o base) with Some k => Ok (o + k + 1)%nat | None => Ub end.
(** 188-191 *)
Fixpoint at_back (base : text) (i a : nat) : res nat :=
  if (i <=? a)%nat then
    do c <- vget base a ;
    if Ascii.eqb c NL then Ok (S a) else match a with O => Ok O | S a' => at_back base i a' end
  else Ok (S a).
(** at (179-193) *)
Definition mm_at (apx : nat -> nat -> nat -> nat -> nat) (f : mmfile) (edge : nat) : res nat :=
  if (edge =? 0)%nat then Ok (mf_i f)
  else if Z.of_nat edge =? mf_nnz f then Ok (mf_e f)
  else at_back (mf_base f) (mf_i f) (apx edge (Z.to_nat (mf_nnz f)) (mf_i f) (mf_e f)).
(** the loop over a range *)
Fixpoint mm_run (fuel : nat) (attr : bool) (base : text) (a b : nat) : res (list (Z * Z * list Z)) :=
  if (a =? b)%nat then Ok []
  else
    match fuel with
    | O => OutOfFuel
    | S f =>
        do x <- mm_deref attr base a ;
        do a' <- mm_next base a ;
        do r <- mm_run f attr base a' b ;
        Ok (x :: r)
    end.
(** edges(mm, j, k) (196-199) *)
Definition mm_edges (apx : nat -> nat -> nat -> nat -> nat) (attr : bool) (f : mmfile) (j k : nat) : res (list (Z * Z * list Z)) :=
  do a <- mm_at apx f j ;
  do b <- mm_at apx f k ;
  mm_run (S (mf_e f)) attr (mf_base f) a b.
