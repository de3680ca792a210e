(** Model of the Oracle of Bacon, examples/imdb/oracle.cpp: who acted with whom, and how far everybody is from Kevin Bacon.

    The file is the list of its lines, parsed: a title and a cast (j["title"], j["cast"]); json, timers and the code under #if 0 are left
    out. A std::map is an association list. [W] is the number of values of vertex ids, [M] that of size_t (only delink depends on it:
    counters and distances stay below the number of names). *)
From Coq Require Import String List Arith Bool.
From Verif Require Import Base EdgeListModel CsrModel BfsRangeModel.
Import ListNotations.
Set Implicit Arguments.
Local Open Scope nat_scope.

(** delink: oracle.cpp:39-54. find is String.index, substr is substring. Line 45 tests [opening] again, so [closing] may be npos = M - 1. *)
Definition delink (M : nat) (link : string) : string :=
  match index 0 "[[" link with
  | None => link
  | Some opening =>
    let closing := match index 0 "]]" link with Some c => c | None => M - 1 end in
    let delinked := substring (opening + 2) ((M + closing - opening - 2) mod M) link in
    match index 0 "|" delinked with
    | None => delinked
    | Some bar => substring (bar + 1) (String.length delinked) delinked
    end
  end.

Definition dict := list (string * nat).
Fixpoint dfind (m : dict) (k : string) : option nat :=
  match m with [] => None | (k', v) :: r => if String.eqb k k' then Some v else dfind r k end.
(** operator[]: an absent key is inserted with 0. (It stays, with 0, so later lookups give the same.) *)
Definition dat (m : dict) (k : string) : nat := match dfind m k with Some v => v | None => 0 end.

(** titles_map, names_map, titles, names, the counters and edges: oracle.cpp:89-98. *)
Record orc := mkOrc { o_tmap : dict; o_nmap : dict; o_titles : list string; o_names : list string; o_tc : nat; o_nc : nat; o_edges : list (edge unit) }.
Definition orc_init : orc := mkOrc [] [] [] [] 0 0 [].
(** oracle.cpp:103-107. *)
Definition orc_title (s : orc) (title : string) : orc :=
  match dfind (o_tmap s) title with
  | Some _ => s
  | None => mkOrc ((title, o_tc s) :: o_tmap s) (o_nmap s) (o_titles s ++ [title]) (o_names s) (S (o_tc s)) (o_nc s) (o_edges s)
  end.
(** oracle.cpp:109-122. *)
Definition orc_cast (W M : nat) (title : string) (s : orc) (link : string) : orc :=
  let name := delink M link in
  let s1 := match dfind (o_nmap s) name with
    | Some _ => s
    | None => mkOrc (o_tmap s) ((name, o_nc s) :: o_nmap s) (o_titles s) (o_names s ++ [name]) (o_tc s) (S (o_nc s)) (o_edges s)
    end in
  mkOrc (o_tmap s1) (o_nmap s1) (o_titles s1) (o_names s1) (o_tc s1) (o_nc s1)
    (o_edges s1 ++ [((dat (o_tmap s1) title mod W, dat (o_nmap s1) name mod W), tt)]).
(** oracle.cpp:100-123. *)
Definition orc_movie (W M : nat) (s : orc) (movie : string * list string) : orc :=
  fold_left (orc_cast W M (fst movie)) (snd movie) (orc_title s (fst movie)).
Definition orc_build (W M : nat) (data : list (string * list string)) : orc := fold_left (orc_movie W M) data orc_init.

(** "verify names and titles": oracle.cpp:131-140, the lines printed. *)
Definition orc_mismatches (m : dict) (v : list string) : res (list (string * string * nat)) :=
  do l <- rmap (fun kv => do n <- vget v (snd kv) ; Ok (if String.eqb n (fst kv) then [] else [((n, fst kv), snd kv)])) m ;
  Ok (concat l).

(** s_overlap: oracle.cpp:161-169. G[k] is a list of names, H[i] one of titles. *)
Definition orc_overlap (G H : csr unit) : res (list (edge nat)) :=
  do l <- rmap (fun i =>
    do titles <- csr_row H i ;
    do l2 <- rmap (fun k => do cast <- csr_row G (fst k) ; Ok (map (fun j => ((i, fst j), fst k)) (filter (fun j => i <? fst j) cast))) titles ;
    Ok (concat l2)) (seq 0 (csr_size H)) ;
  Ok (concat l).

(** graph[u] for the vertices u below size(): targets and attributes. *)
Definition att_rows {A} (g : csr A) : res (list (list (nat * A))) := rmap (csr_row g) (seq 0 (csr_size g)).
(** bfs_edge_range with an attribute: operator* (bfs_edge_range.hpp:185) also gives the attribute; otherwise as BfsRangeModel.er_loop. *)
Fixpoint er_att_loop {A} (fuel : nat) (g : list (list (nat * A))) (st : er_state) : res (list (nat * nat * A)) :=
  match er_q st with
  | [] => Ok []
  | _ =>
    match fuel with
    | 0 => OutOfFuel
    | S f => do row <- vget g (er_v st) ; do u <- vget row (er_i st) ; do st' <- er_next (map (map fst) g) st ; do r <- er_att_loop f g st' ;
      Ok (((er_v st, fst u), snd u) :: r)
    end
  end.
Definition bfs_att_edges {A} (g : list (list (nat * A))) (seed : nat) : res (list (nat * nat * A)) :=
  do vis <- vset (repeat false (length g)) seed true ;
  do _ <- vget g seed ;
  er_att_loop (S (length g)) g {| er_vis := vis; er_q := [seed]; er_v := seed; er_i := 0 |}.

(** distance, parents, together_in: oracle.cpp:185-193. *)
Record tables := mkTab { t_distance : list nat; t_parents : list nat; t_together : list nat }.
Definition orc_visit (t : tables) (e : nat * nat * nat) : res tables :=
  let '((u, v), k) := e in
  do d <- vget (t_distance t) u ;
  do distance <- vset (t_distance t) v (d + 1) ;
  do parents <- vset (t_parents t) v u ;
  do together <- vset (t_together t) v k ;
  Ok (mkTab distance parents together).

(** What path_to_bacon prints: the complaint about another name than the one asked for, the Bacon number, and lines "a starred with b in t". *)
Record report := mkReport { r_complaint : option (string * string * nat); r_actor : string; r_number : nat; r_lines : list (string * string * string) }.
(** The loop of oracle.cpp:198-206. *)
Fixpoint orc_path (s : orc) (t : tables) (kevin_bacon d a : nat) : res (list (string * string * string)) :=
  if a =? kevin_bacon then Ok []
  else
    do p <- vget (t_parents t) a ;
    do k <- vget (t_together t) a ;
    do actor <- vget (o_names s) a ;
    do other <- vget (o_names s) p ;
    do title <- vget (o_titles s) k ;
    let line := ((actor, other), title) in
    match d with
    | 0 => Ok [line]
    | S d' => do r <- orc_path s t kevin_bacon d' p ; Ok (line :: r)
    end.
(** path_to_bacon_idx: oracle.cpp:195-207. *)
Definition orc_report (s : orc) (t : tables) (kevin_bacon : nat) (c : option (string * string * nat)) (a : nat) : res report :=
  do actor <- vget (o_names s) a ;
  do d <- vget (t_distance t) a ;
  do l <- orc_path s t kevin_bacon d a ;
  Ok (mkReport c actor d l).
(** path_to_bacon: oracle.cpp:209-215. *)
Definition orc_ask (s : orc) (t : tables) (kevin_bacon : nat) (name : string) : res report :=
  let a := dat (o_nmap s) name in
  do n <- vget (o_names s) a ;
  orc_report s t kevin_bacon (if String.eqb n name then None else Some ((n, name), a)) a.
(** *max_element: oracle.cpp:219 (undefined on an empty vector). *)
Definition max_of (l : list nat) : res nat := match l with [] => Ub | x :: r => Ok (fold_left Nat.max r x) end.

(** The graphs and the search: oracle.cpp:150-193, from the edges and the id of Kevin Bacon. [srt], [srt2] are the sorts of the two fills. *)
Definition orc_search (W : nat) srt srt2 srt1 (es : list (edge unit)) (kevin_bacon : nat) : res tables :=
  let el := el_build W 0 es in
  do G <- adjacency_of W srt srt1 true S0 el false ;
  do H <- adjacency_of W srt srt1 true S1 el false ;
  do o <- orc_overlap G H ;
  do L <- adjacency_of W srt2 srt1 false S0 (el_build W 0 o) false ;
  do rows <- att_rows L ;
  do T <- bfs_att_edges rows kevin_bacon ;
  rfold orc_visit T (mkTab (repeat 0 (csr_size L)) (repeat 0 (csr_size L)) (repeat 0 (csr_size L))).
(** main: the mismatches printed, the furthest distance with the reports of those at it, and the answers to [asked] (oracle.cpp:219-235). *)
Definition oracle (W M : nat) srt srt2 srt1 (data : list (string * list string)) (asked : list string)
  : res (list (string * string * nat) * nat * list report * list report) :=
  let s := orc_build W M data in
  do m1 <- orc_mismatches (o_nmap s) (o_names s) ;
  do m2 <- orc_mismatches (o_tmap s) (o_titles s) ;
  let kevin_bacon := dat (o_nmap s) "Kevin Bacon"%string in
  do t <- orc_search W srt srt2 srt1 (o_edges s) kevin_bacon ;
  do max_distance <- max_of (t_distance t) ;
  do far <- rmap (orc_report s t kevin_bacon None) (filter (fun i => nth i (t_distance t) 0 =? max_distance) (seq 0 (List.length (t_distance t)))) ;
  do answers <- rmap (orc_ask s t kevin_bacon) asked ;
  Ok (m1 ++ m2, max_distance, far, answers).
