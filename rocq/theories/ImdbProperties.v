(** C92: examples/imdb/imdb.cpp prints Bacon numbers and paths that are right for the rows it files the credits under. *)
From Coq Require Import String List Arith Lia Bool.
From Verif Require Import EdgeListModel CsrModel OrcModel ImdbModel ImdbProofs Base.
Import ListNotations.
Set Implicit Arguments.
Local Open Scope string_scope.
Local Open Scope list_scope.
Local Open Scope nat_scope.

(** The tables have the columns read, at least a row, and sizes that fit in W. *)
Record loads (W : nat) (titles names principals : table) : Prop := {
  l_titles : wide 3 titles; l_names : wide 2 names; l_principals : wide 4 principals;
  l_some_title : titles <> []; l_some_name : names <> [];
  l_few_titles : length titles < W; l_few_names : length names < W; l_few_pairs : 2 * length (same_film titles principals) < W }.
(** The words of a line (x, y, k): the second cells of rows x and y of names, the third one of row k of titles. *)
Definition line_of (titles names : table) (l : nat * nat * nat) : string * string * string :=
  let '((x, y), k) := l in ((nth 1 (nth x names []) "", nth 1 (nth y names []) ""), nth 2 (nth k titles []) "").
Definition bacon (names : table) : nat := person_no names "nm0000102".
Definition kyra (names : table) : nat := person_no names "nm0001718".
Definition suchet (names : table) : nat := person_no names "nm0837064".
(** The row does not exceed those of the people who act with another. *)
Definition covered (acts : nat -> nat -> Prop) (a : nat) : Prop := exists u v, a <= u /\ co acts u v.

(** What is printed: the credits of nm0837064 in order, 0 for Kevin Bacon, and for each of the two the least number of steps with a trail of
    that many lines; for one with no trail, the number 0 and one line that names the people and the title of row 0 and is not true. *)
Theorem C92_numbers W srt srt2 srt1 titles names principals : is_sort_by fst srt -> is_sort_by fst srt2 -> loads W titles names principals ->
  let acts := plays titles names principals in
  (exists v, co acts (bacon names) v) -> covered acts (kyra names) -> covered acts (suchet names) ->
  exists d1 rows1 d2 rows2, imdb W srt srt2 srt1 titles names principals =
    Ok (map (shown_line titles) (filter (fun c => String.eqb (snd c) "nm0837064") (credits principals)), 0,
      (d1, map (line_of titles names) rows1), (d2, map (line_of titles names) rows2)) /\
    told acts (bacon names) (kyra names) d1 rows1 /\ told acts (bacon names) (suchet names) d2 rows2.
Proof. intros HS HS2 [A B C D E F G H] acts I J K. exact (imdb_ok A B C D E F G H srt1 HS HS2 I J K). Qed.

(** Kevin Bacon in no film row with another: undefined behaviour. *)
Theorem C92_alone W srt srt2 srt1 titles names principals : is_sort_by fst srt -> is_sort_by fst srt2 -> loads W titles names principals ->
  (forall v, ~ co (plays titles names principals) (bacon names) v) -> imdb W srt srt2 srt1 titles names principals = Ub.
Proof. intros HS HS2 [A B C D E F G H] N. exact (imdb_alone A B C D E F G H srt1 HS HS2 N). Qed.

(** One of the two in a row after all those who act with another: the read of distance is out of range. *)
Theorem C92_out_of_range W srt srt2 srt1 titles names principals a : is_sort_by fst srt -> is_sort_by fst srt2 -> loads W titles names principals ->
  a = kyra names \/ a = suchet names -> (exists v, co (plays titles names principals) (bacon names) v) -> ~ covered (plays titles names principals) a ->
  imdb W srt srt2 srt1 titles names principals = Ub.
Proof. intros HS HS2 [A B C D E F G H] X I N. exact (imdb_out A B C D E F G H srt1 HS HS2 X I N). Qed.

(** A title not listed as a movie. *)
Definition unlisted (titles : table) (t : string) : Prop := forall r, In r titles -> nth 0 r "" = t -> nth 1 r "" <> "movie".
Lemma unlisted_0 titles t : unlisted titles t -> film_no titles t = 0.
Proof.
  intros U. unfold film_no. replace (filter _ _) with (@nil nat); auto. symmetry. apply filter_none. intros k I. apply in_seq in I. unfold is_film.
  destruct (nth k titles []) as [|id [|ty r]] eqn:E; auto. destruct (String.eqb_spec id t) as [->|]; auto. cbn [andb]. destruct (String.eqb_spec ty "movie") as [->|]; auto.
  exfalso. apply (U (t :: "movie" :: r)); auto. rewrite <- E. apply nth_In. lia.
Qed.
(** Credits for two titles not listed as movies, of whatever kind and however unrelated, count as the same film, that of row 0:
    if nm0000102 has one and nm0001718 another, the latter gets the number 1, and, if they share no film row but 0, the title printed is the one in row 0. *)
Theorem C92_unlisted W srt srt2 srt1 titles names principals t1 t2 : is_sort_by fst srt -> is_sort_by fst srt2 -> loads W titles names principals ->
  unlisted titles t1 -> unlisted titles t2 -> In (t1, "nm0000102") (credits principals) -> In (t2, "nm0001718") (credits principals) -> bacon names <> kyra names ->
  covered (plays titles names principals) (suchet names) ->
  exists shown line r2, imdb W srt srt2 srt1 titles names principals = Ok (shown, 0, (1, [line]), r2) /\ fst line = (nth 1 (nth (kyra names) names []) "", nth 1 (nth (bacon names) names []) "") /\
    ((forall k, plays titles names principals k (bacon names) -> plays titles names principals k (kyra names) -> k = 0) -> snd line = nth 2 (nth 0 titles []) "").
Proof.
  intros HS HS2 L U1 U2 I1 I2 N C. set (acts := plays titles names principals) in *.
  assert (P1 : acts 0 (bacon names)) by (exists t1, "nm0000102"; rewrite (unlisted_0 U1); auto). assert (P2 : acts 0 (kyra names)) by (exists t2, "nm0001718"; rewrite (unlisted_0 U2); auto).
  assert (CO : co acts (bacon names) (kyra names)) by (exists 0; auto).
  destruct (@C92_numbers W srt srt2 srt1 titles names principals HS HS2 L) as (d1 & rows1 & d2 & rows2 & E & T1 & T2); eauto.
  { exists (kyra names), (bacon names). split; auto. exists 0. auto. }
  fold acts in T1. assert (A1 : apart acts (bacon names) 1 (kyra names)) by (econstructor; [constructor|auto]).
  destruct T1 as [(NB & LR & TR)|(X & _)]; [|destruct (X _ A1)]. assert (d1 = 1).
  { assert (X := proj2 NB _ A1). destruct d1 as [|[|d1]]; auto; [|lia]. destruct NB as [Y _]. inversion Y. congruence. }
  subst d1. destruct rows1 as [|[[x y] k] [|]]; cbn in H; try discriminate. destruct TR as (-> & Kx & Ky & _ & ->).
  eexists _, _, _. split; [exact E|]. cbn [line_of fst snd]. split; auto. intros Z. now rewrite (Z k Ky Kx).
Qed.

Definition ex_titles : table := [["tconst"; "titleType"; "primaryTitle"]; ["tt1"; "movie"; "Footloose"]; ["tt2"; "tvSeries"; "Poirot"]; ["tt3"; "movie"; "Sleuth"]].
Definition ex_names : table := [["nconst"; "primaryName"]; ["nm0000102"; "Kevin Bacon"]; ["nm0001718"; "Kyra Sedgwick"]; ["nm0837064"; "David Suchet"]; ["nm9"; "Another"]].
Definition ex_head := ["tconst"; "ordering"; "nconst"; "category"].
Definition ex_credits : table := [["tt1"; "1"; "nm0000102"; "actor"]; ["tt1"; "2"; "nm9"; "actress"]; ["tt3"; "1"; "nm9"; "actress"]; ["tt3"; "2"; "nm0837064"; "actor"]; ["tt3"; "3"; "nm0001718"; "director"]].
(** Kyra Sedgwick, a director only, has no trail; David Suchet is two steps away. *)
Example ex_two : imdb 100 (isort_by fst) (isort_by fst) (fun l => l) ex_titles ex_names (ex_head :: ex_credits) =
  Ok ([("tt3", "Sleuth")], 0, (0, [(("Kyra Sedgwick", "primaryName"), "primaryTitle")]),
    (2, [(("David Suchet", "Another"), "Sleuth"); (("Another", "Kevin Bacon"), "Footloose")])).
Proof. vm_compute. reflexivity. Qed.
(** A series and a title that is not listed: both in row 0. *)
Definition ex_credits' := ex_credits ++ [["tt2"; "1"; "nm0001718"; "actress"]; ["tt7"; "1"; "nm0000102"; "actor"]].
Example ex_unlisted : imdb 100 (isort_by fst) (isort_by fst) (fun l => l) ex_titles ex_names (ex_head :: ex_credits') =
  Ok ([("tt3", "Sleuth")], 0, (1, [(("Kyra Sedgwick", "Kevin Bacon"), "primaryTitle")]),
    (2, [(("David Suchet", "Another"), "Sleuth"); (("Another", "Kevin Bacon"), "Footloose")])).
Proof. vm_compute. reflexivity. Qed.
Lemma ex_loads c : c = ex_credits \/ c = ex_credits' \/ c = tl ex_credits \/ c = firstn 2 ex_credits -> loads 100 ex_titles ex_names (ex_head :: c).
Proof. intros [->|[->|[->| ->]]]; constructor; try (unfold wide; repeat constructor); try discriminate; vm_compute; repeat constructor. Qed.
Example ex_unlisted_by_theorem : exists shown line r2, imdb 100 (isort_by fst) (isort_by fst) (fun l => l) ex_titles ex_names (ex_head :: ex_credits') = Ok (shown, 0, (1, [line]), r2).
Proof.
  destruct (@C92_unlisted 100 (isort_by fst) (isort_by fst) (fun l => l) ex_titles ex_names (ex_head :: ex_credits') "tt7" "tt2") as (a & b & c & E & _); eauto using isort_by_is_sort.
  - apply ex_loads. auto.
  - intros r [<-|[<-|[<-|[<-|[]]]]]; discriminate.
  - intros r [<-|[<-|[<-|[<-|[]]]]]; discriminate.
  - vm_compute. auto 20.
  - vm_compute. auto 20.
  - discriminate.
  - exists 4, 3. split; [vm_compute; auto|]. exists 3. split; [exists "tt3", "nm9"; vm_compute; auto 20|]. split; [exists "tt3", "nm0837064"; vm_compute; auto 20|discriminate].
Qed.
(** The credits but the one of Kevin Bacon: alone. *)
Example ex_alone : imdb 100 (isort_by fst) (isort_by fst) (fun l => l) ex_titles ex_names (ex_head :: tl ex_credits) = Ub.
Proof. vm_compute. reflexivity. Qed.
(** With David Suchet in the row after the last one who acts. *)
Definition ex_names' : table := firstn 3 ex_names ++ [["nm9"; "Another"]; ["nm0837064"; "David Suchet"]].
Example ex_out : imdb 100 (isort_by fst) (isort_by fst) (fun l => l) ex_titles ex_names' (ex_head :: firstn 2 ex_credits) = Ub.
Proof. vm_compute. reflexivity. Qed.
Print Assumptions C92_numbers.
Print Assumptions C92_alone.
Print Assumptions C92_out_of_range.
Print Assumptions C92_unlisted.
