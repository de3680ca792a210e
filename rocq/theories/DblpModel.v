(** Model of examples/imdb/dblp.cpp (52-180) and oracle+dblp.cpp (52-209): how far authors are from one of them.

    The files are given parsed: a list of entries, each a title and its names.  json, timers, stream_stats and the progress output are left out.
    A std::map is an association list (OrcModel). *)
From Coq Require Import String List Arith Bool.
From Verif Require Import Base EdgeListModel CsrModel BfsRangeModel OrcModel ImdbModel.
Import ListNotations.
Set Implicit Arguments.
Local Open Scope nat_scope.

(** titles_map, names_map, titles, names, edges and the complaints printed. *)
Record dbl := mkDbl { d_tmap : dict; d_nmap : dict; d_titles : list string; d_names : list string; d_edges : list (edge unit); d_said : list (string * string * nat) }.
(** dblp.cpp:81-84 and 88-91: a new key goes to the end of the vector and is mapped to size() - 1. *)
Definition intern (m : dict) (v : list string) (x : string) : dict * list string :=
  match dfind m x with
  | Some _ => (m, v)
  | None => let v' := v ++ [x] in ((x, List.length v' - 1) :: m, v')
  end.
(** dblp.cpp:86-98. *)
Definition dbl_name (W : nat) (title : string) (s : dbl) (name : string) : res dbl :=
  let (nm, names) := intern (d_nmap s) (d_names s) name in
  do n <- vget names (dat nm name) ;
  let said := if String.eqb n name then [] else [((n, name), dat nm name)] in
  Ok (mkDbl (d_tmap s) nm (d_titles s) names (d_edges s ++ [((dat (d_tmap s) title mod W, dat nm name mod W), tt)]) (d_said s ++ said)).
(** dblp.cpp:72-99. *)
Definition dbl_entry (W : nat) (s : dbl) (e : string * list string) : res dbl :=
  let (tm, titles) := intern (d_tmap s) (d_titles s) (fst e) in
  rfold (dbl_name W (fst e)) (snd e) (mkDbl tm (d_nmap s) titles (d_names s) (d_edges s) (d_said s)).
Definition dbl_build (W : nat) (data : list (string * list string)) : res dbl := rfold (dbl_entry W) data (mkDbl [] [] [] [] [] []).

(** s_overlap: dblp.cpp:119-125; unlike in oracle.cpp every j is pushed, also i itself. *)
Definition dbl_overlap (G H : csr unit) : res (list (edge nat)) :=
  do l <- rmap (fun i =>
    do titles <- csr_row H i ;
    do l2 <- rmap (fun k => do cast <- csr_row G (fst k) ; Ok (map (fun j => ((i, fst j), fst k)) cast)) titles ;
    Ok (concat l2)) (seq 0 (csr_size H)) ;
  Ok (concat l).
(** dblp.cpp:105-151. *)
Definition dbl_search (W : nat) srt srt2 srt1 (es : list (edge unit)) (seed : nat) : res tables :=
  let el := el_build W 0 es in
  do G <- adjacency_of W srt srt1 true S0 el false ;
  do H <- adjacency_of W srt srt1 true S1 el false ;
  do o <- dbl_overlap G H ;
  do L <- adjacency_of W srt2 srt1 false S0 (el_build W 0 o) false ;
  do rows <- att_rows L ;
  do T <- bfs_att_edges rows seed ;
  rfold orc_visit T (mkTab (repeat 0 (csr_size L)) (repeat 0 (csr_size L)) (repeat 0 (csr_size L))).
(** path_to_bacon (153-165): number and lines; a line is (names[a], names[parents[a]], titles[together_in[a]]) in some order of words. *)
Definition dbl_ask (s : dbl) (t : tables) (seed : nat) (name : string) : res (string * nat * list (string * string * string)) :=
  do r <- tab_report (vget (d_names s)) (vget (d_titles s)) t seed (dat (d_nmap s) name) ;
  Ok (name, fst r, snd r).
(** main of dblp.cpp with "Paul Erdoes" for [hero]: the complaints, the name printed in every report (155), and the reports, the first of
    which is about that name (167). *)
Definition dblp (W : nat) srt srt2 srt1 (hero : string) (data : list (string * list string)) (asked : list string)
  : res (list (string * string * nat) * string * list (string * nat * list (string * string * string))) :=
  do s <- dbl_build W data ;
  let seed := dat (d_nmap s) hero in
  do t <- dbl_search W srt srt2 srt1 (d_edges s) seed ;
  do n <- vget (d_names s) seed ;
  do l <- rmap (dbl_ask s t seed) (n :: asked) ;
  Ok (d_said s, n, l).
(** oracle+dblp.cpp: the movies with their delinked casts, then the articles; edges is closed in between, which only clears its flag. It
    prints no complaints (their test is not there). *)
Definition oracle_dblp (W M : nat) srt srt2 srt1 (movies articles : list (string * list string)) (asked : list string)
  : res (list (string * nat * list (string * string * string))) :=
  do s <- dbl_build W (map (fun m => (fst m, map (delink M) (snd m))) movies ++ articles) ;
  let seed := dat (d_nmap s) "Kevin Bacon"%string in
  do t <- dbl_search W srt srt2 srt1 (d_edges s) seed ;
  rmap (dbl_ask s t seed) ("Kevin Bacon"%string :: asked).
