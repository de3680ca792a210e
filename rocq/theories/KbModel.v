(** Model of examples/bgl-book/ch4_kevin_bacon.cpp (23-81): Bacon numbers from lines "actor;movie;actor".

    The file is a string.  A std::map is a list sorted by key.  bfs_edge_range is that of the library, whose third component, the movie,
    the example does not name.  [W] is the size of vertex_index_t. *)
From Coq Require Import String Ascii List Arith Bool.
From Verif Require Import Base EdgeListModel CsrModel BfsRangeModel OrcModel.
Import ListNotations.
Set Implicit Arguments.
Local Open Scope nat_scope.
Local Open Scope string_scope.
Local Open Scope list_scope.

(** std::getline with a delimiter: what comes before it, and what is left, [None] if the end of the stream was reached. *)
Fixpoint cut_at (c : ascii) (s : string) : string * option string :=
  match s with
  | EmptyString => (EmptyString, None)
  | String x r => if Ascii.eqb x c then (EmptyString, Some r) else let (a, b) := cut_at c r in (String x a, b)
  end.
Definition LF : ascii := ascii_of_nat 10.
Definition semi : ascii := ";"%char.
(** parse_buffer: ch4_kevin_bacon.cpp:23-30.  A getline on a stream that has ended leaves its string, here empty. *)
Definition parse_buffer (buffer : string) : string * string * string :=
  let (actor_one, r1) := cut_at semi buffer in
  match r1 with
  | None => ((actor_one, EmptyString), EmptyString)
  | Some s1 =>
    let (movie_name, r2) := cut_at semi s1 in
    match r2 with
    | None => ((actor_one, movie_name), EmptyString)
    | Some s2 => ((actor_one, movie_name), fst (cut_at LF s2))
    end
  end.
(** std::map::insert: the pair goes to its place unless the key is there. *)
Fixpoint m_place (k : string) (v : nat) (m : dict) : dict :=
  match m with
  | [] => [(k, v)]
  | (x, w) :: r => match String.compare k x with Gt => (x, w) :: m_place k v r | _ => (k, v) :: m end
  end.
(** 42-44 and 46-48: insert with the counter, which goes up if the key was new. *)
Definition m_number (W : nat) (m : dict) (counter : nat) (k : string) : dict * nat :=
  match dfind m k with
  | Some _ => (m, counter)
  | None => (m_place k counter m, (counter + 1) mod W)
  end.
(** 40-51: one line. *)
Definition kb_line (W : nat) (st : dict * nat * list (edge string)) (buffer : string) : dict * nat * list (edge string) :=
  let '((m, counter), es) := st in
  let '((actor_one, movie_name), actor_two) := parse_buffer buffer in
  let (m1, c1) := m_number W m counter actor_one in
  let (m2, c2) := m_number W m1 c1 actor_two in
  ((m2, c2), es ++ [((dat m2 actor_one, dat m2 actor_two), movie_name)]).
(** 39-51: while there is a line. *)
Fixpoint kb_read (fuel W : nat) (st : dict * nat * list (edge string)) (file : string) : res (dict * nat * list (edge string)) :=
  match file with
  | EmptyString => Ok st
  | _ =>
    match fuel with
    | 0 => OutOfFuel
    | S f =>
      let (buffer, r) := cut_at LF file in
      match r with
      | None => Ok (kb_line W st buffer)
      | Some rest => kb_read f W (kb_line W st buffer) rest
      end
    end
  end.
(** 72-74: the loop over the edges of the search. *)
Definition kb_visit (bacon_number : list nat) (e : nat * nat * string) : res (list nat) :=
  let '((v, u), _) := e in
  do d <- vget bacon_number v ;
  vset bacon_number u (d + 1).
(** read_imdb (32-56) and main (58-81): the lines printed.  find gives the end of the map, which may not be used, if the name is absent. *)
Definition kb_main (W : nat) srt srt1 (file : string) : res (list (string * nat)) :=
  do st <- kb_read (String.length file) W (([], 0), []) file ;
  let '((m, _), es) := st in
  do A <- adjacency_of W srt srt1 false S0 (el_build W 0 es) false ;
  match dfind m "Kevin Bacon" with
  | None => Ub
  | Some kb_id =>
    do rows <- att_rows A ;
    do T <- bfs_att_edges rows kb_id ;
    do bacon_number <- rfold kb_visit T (repeat 0 (csr_size A)) ;
    rmap (fun kv => do d <- vget bacon_number (snd kv) ; Ok (fst kv, d)) m
  end.
