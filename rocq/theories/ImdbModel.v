(** Model of examples/imdb/imdb.cpp (34-191): the Bacon numbers of two actors from the tables of the Internet Movie Database.

    A table read by xt::load_csv is the list of its rows, each the list of its cells; titles(i, j) is a cell.  Timers and the code under
    #if 0 are left out; the constant s is not used.  A std::map is an association list with the last assignment in front (OrcModel).
    G, H, s_overlap, L and the search are those of oracle.cpp, [orc_search]. *)
From Coq Require Import String List Arith Bool.
From Verif Require Import Base EdgeListModel CsrModel BfsRangeModel OrcModel.
Import ListNotations.
Set Implicit Arguments.
Local Open Scope nat_scope.
Local Open Scope string_scope.
Local Open Scope list_scope.

Definition table := list (list string).
Definition cell (t : table) (i j : nat) : res string := do r <- vget t i ; vget r j.

(** titles_map: imdb.cpp:42-47. *)
Definition film_map (titles : table) : res dict :=
  rfold (fun m i => do ty <- cell titles i 1 ; if String.eqb ty "movie" then do id <- cell titles i 0 ; Ok ((id, i) :: m) else Ok m)
    (seq 0 (List.length titles)) [].
(** names_map: imdb.cpp:56-59. *)
Definition name_map (names : table) : res dict :=
  rfold (fun m i => do id <- cell names i 0 ; Ok ((id, i) :: m)) (seq 0 (List.length names)) [].
(** imdb.cpp:80-101: what is printed about nm0837064, and the edges.  [dat] is operator[], which gives 0 for an absent key. *)
Definition imdb_record (W : nat) (titles : table) (tm nm : dict) (principals : table) (st : list (string * string) * list (edge unit)) (i : nat)
  : res (list (string * string) * list (edge unit)) :=
  do role <- cell principals i 3 ;
  if String.eqb role "actor" || String.eqb role "actress" then
    do title <- cell principals i 0 ;
    do name <- cell principals i 2 ;
    do shown <- (if String.eqb name "nm0837064" then do aa <- cell titles (dat tm title) 2 ; Ok (fst st ++ [(title, aa)]) else Ok (fst st)) ;
    Ok (shown, snd st ++ [((dat tm title mod W, dat nm name mod W), tt)])
  else Ok st.
(** imdb.cpp:75-102. *)
Definition imdb_edges (W : nat) (titles : table) (tm nm : dict) (principals : table) : res (list (string * string) * list (edge unit)) :=
  rfold (imdb_record W titles tm nm principals) (seq 1 (List.length principals - 1)) ([], []).

(** The loop that prints the path, imdb.cpp:170-177 and 181-188; [who] and [what] give the words printed. *)
Fixpoint tab_path (who what : nat -> res string) (t : tables) (kevin_bacon d a : nat) : res (list (string * string * string)) :=
  if (a =? kevin_bacon)%nat then Ok []
  else
    do actor <- who a ;
    do p <- vget (t_parents t) a ;
    do other <- who p ;
    do k <- vget (t_together t) a ;
    do title <- what k ;
    match d with
    | 0 => Ok [((actor, other), title)]
    | S d' => do r <- tab_path who what t kevin_bacon d' p ; Ok (((actor, other), title) :: r)
    end.
(** imdb.cpp:168-177 and 179-188: the Bacon number printed and the lines. *)
Definition tab_report (who what : nat -> res string) (t : tables) (kevin_bacon a : nat) : res (nat * list (string * string * string)) :=
  do d <- vget (t_distance t) a ;
  do l <- tab_path who what t kevin_bacon d a ;
  Ok (d, l).
(** main: what is printed about nm0837064, the number of Kevin Bacon (166), and the reports about nm0001718 and nm0837064. *)
Definition imdb (W : nat) srt srt2 srt1 (titles names principals : table)
  : res (list (string * string) * nat * (nat * list (string * string * string)) * (nat * list (string * string * string))) :=
  do tm <- film_map titles ;
  do nm <- name_map names ;
  do st <- imdb_edges W titles tm nm principals ;
  let kevin_bacon := dat nm "nm0000102" in
  do t <- orc_search W srt srt2 srt1 (snd st) kevin_bacon ;
  let who := fun i => cell names i 1 in
  let what := fun i => cell titles i 2 in
  do d <- vget (t_distance t) kevin_bacon ;
  do r1 <- tab_report who what t kevin_bacon (dat nm "nm0001718") ;
  do r2 <- tab_report who what t kevin_bacon (dat nm "nm0837064") ;
  Ok (fst st, d, r1, r2).
