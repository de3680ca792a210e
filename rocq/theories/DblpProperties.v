(** C93: examples/imdb/dblp.cpp and oracle+dblp.cpp print numbers that are right, or all one too large, and shortest trails. *)
From Coq Require Import String List Arith Lia Bool.
From Verif Require Import EdgeListModel CsrModel OrcModel OrcProofs ImdbModel ImdbProofs DblpModel DblpProofs Base.
Import ListNotations.
Set Implicit Arguments.
Local Open Scope string_scope.
Local Open Scope list_scope.
Local Open Scope nat_scope.

(** Some name is given, and the numbers of titles, names and pairs of names of a title fit in W. *)
Record fits (W : nat) (data : list (string * list string)) : Prop := {
  f_some : exists e, In e data /\ snd e <> []; f_titles : length (titles_of data) < W; f_names : length (names_of data) < W; f_pairs : 2 * length (same_title data) < W }.
Lemma some_pair data : (exists e, In e data /\ snd e <> []) -> pairs_of data <> [].
Proof. intros ([t [|a l]] & I & N); [now destruct N|]. intros Q. assert (X : In (t, a) (pairs_of data)) by (unfold pairs_of; apply in_flat_map; exists (t, a :: l); split; auto; now left). now rewrite Q in X. Qed.
(** The words of a line. *)
Definition said_line (data : list (string * list string)) (l : nat * nat * nat) : string * string * string :=
  let '((x, y), k) := l in ((nth x (names_of data) "", nth y (names_of data) ""), nth k (titles_of data) "").
(** The report about q, measured from b, numbers c too large: a shortest trail; or, if there is none, 0 and a line that names the first name and
    the first title and is not true. *)
Definition report_about (data : list (string * list string)) (c b : nat) (q : string) (r : string * nat * list (string * string * string)) : Prop :=
  exists d rows, r = ((q, d), map (said_line data) rows) /\ let a := no_of (names_of data) q in
    ((number (wrote data) b a (d - c) /\ c <= d /\ length rows = d - c /\ trail (wrote data) rows a b) \/ ((forall n, ~ apart (wrote data) b n a) /\ d = 0 /\ rows = [((a, 0), 0)])).

(** dblp.cpp never complains and, for any names at all, reports on the hero and on everyone asked, with the same excess of 0 or 1 for all. *)
Theorem C93_dblp W srt srt2 srt1 hero data asked : is_sort_by fst srt -> is_sort_by fst srt2 -> fits W data ->
  exists n out c, dblp W srt srt2 srt1 hero data asked = Ok ([], n, out) /\ c <= 1 /\ nth_error (names_of data) (no_of (names_of data) hero) = Some n /\
    Forall2 (report_about data c (no_of (names_of data) hero)) (n :: asked) out.
Proof.
  intros HS HS2 [A B C D]. destruct (@dblp_ok W data B C D srt srt2 srt1 HS HS2 hero asked (some_pair _ A)) as (n & out & c & E & N & C1 & _ & F). exists n, out, c. auto.
Qed.
(** oracle+dblp.cpp: the same for movies, whose names lose the link brackets and what stands before a bar in them, and articles together, measured from Kevin Bacon. *)
Theorem C93_oracle_dblp W M srt srt2 srt1 movies articles asked : is_sort_by fst srt -> is_sort_by fst srt2 ->
  let data := map (fun m => (fst m, map (delink M) (snd m))) movies ++ articles in fits W data ->
  exists out c, oracle_dblp W M srt srt2 srt1 movies articles asked = Ok out /\ c <= 1 /\
    Forall2 (report_about data c (no_of (names_of data) "Kevin Bacon")) ("Kevin Bacon" :: asked) out.
Proof.
  intros HS HS2 data [A B C D]. destruct (@oracle_dblp_ok W M srt srt2 srt1 movies articles asked HS HS2 B C D (some_pair _ A)) as (out & c & E & C1 & _ & F). exists out, c. auto.
Qed.
(** A hero with no co-author gets the number 1, with no lines. *)
Theorem C93_alone W srt srt2 srt1 hero data asked : is_sort_by fst srt -> is_sort_by fst srt2 -> fits W data ->
  (forall v, ~ co (wrote data) (no_of (names_of data) hero) v) ->
  exists n out, dblp W srt srt2 srt1 hero data asked = Ok ([], n, ((n, 1), []) :: out).
Proof.
  intros HS HS2 [A B C D] AL. destruct (@dblp_ok W data B C D srt srt2 srt1 HS HS2 hero asked (some_pair _ A)) as (n & out & c & E & N & C1 & CA & F). specialize (CA AL). subst c.
  inversion F as [|q r qs rs (d & rows & -> & T) F' Q1 Q2]. subst. exists n, rs. rewrite E. repeat f_equal.
  - rewrite (@no_of_nth _ _ _ (names_nodup data) N) in T. destruct T as [(NB & L & _)|(X & _)]; [|destruct (X 0); constructor]. destruct NB as [_ NB]. specialize (NB 0 (apart_0 _ _)). lia.
  - rewrite (@no_of_nth _ _ _ (names_nodup data) N) in T. destruct T as [(NB & L & LR & _)|(X & _)]; [|destruct (X 0); constructor]. destruct NB as [_ NB]. specialize (NB 0 (apart_0 _ _)).
    destruct rows; auto. cbn in LR. lia.
Qed.
(** A name that does not occur is answered with the first name's report. *)
Theorem C93_unknown W srt srt2 srt1 hero data q n0 : is_sort_by fst srt -> is_sort_by fst srt2 -> fits W data ->
  ~ In q (map snd (pairs_of data)) -> nth_error (names_of data) 0 = Some n0 ->
  exists n r d lines, dblp W srt srt2 srt1 hero data [q] = Ok ([], n, [r; ((q, d), lines)]) /\ dblp W srt srt2 srt1 hero data [n0] = Ok ([], n, [r; ((n0, d), lines)]).
Proof.
  intros HS HS2 [A B C D] NI N0. destruct (names_some data (some_pair _ A)) as [NN NT]. unfold dblp. destruct (build_ok W data) as (s & E & Bu). rewrite E. cbn [bind]. destruct (@built_eq W data B C s Bu) as (B1 & B2 & B3 & B4 & B5).
  destruct (@asked_ok W data B C D srt srt2 srt1 HS HS2 s hero (some_pair _ A) Bu) as (t & c & ES & _ & _ & EA). rewrite ES. cbn [bind]. rewrite B2, B5.
  rewrite (@vget_nth _ _ _ "") by (apply no_of_lt; auto using names_nodup). cbn [bind]. set (n := nth _ (names_of data) "").
  assert (Q0 : no_of (names_of data) q = 0).
  { unfold no_of. destruct (place (names_of data) q) as [i|] eqn:P; auto. apply (place_nth (names_nodup data)) in P. apply nth_error_In in P. destruct NI. now apply (proj1 (first_seen_in _ _)) in P. }
  assert (Q1 := @no_of_nth _ _ _ (names_nodup data) N0).
  destruct (EA [n; q]) as (o1 & E1 & F1). rewrite B5 in E1. assert (E2 := E1). cbn [rmap] in E2. unfold dbl_ask at 2 in E2. rewrite B5, Q0 in E2. cbn [rmap]. unfold dbl_ask at 2 4. rewrite !B5, Q0, Q1.
  destruct (dbl_ask s t (no_of (names_of data) hero) n) as [r| |]; cbn [bind] in *; try discriminate.
  destruct (tab_report (vget (d_names s)) (vget (d_titles s)) t (no_of (names_of data) hero) 0) as [[d lines]| |]; cbn [bind fst snd] in *; try discriminate.
  rewrite B4. exists n, r, d, lines. auto.
Qed.
(** No names at all: undefined behaviour. *)
Theorem C93_nobody W srt srt2 srt1 hero data asked : is_sort_by fst srt -> is_sort_by fst srt2 -> length (titles_of data) < W ->
  (forall e, In e data -> snd e = []) -> dblp W srt srt2 srt1 hero data asked = Ub.
Proof.
  intros HS HS2 LT N. assert (Q : pairs_of data = []).
  { unfold pairs_of. clear LT. induction data as [|[t l] data IH]; auto. cbn [flat_map fst snd]. assert (X := N (t, l) (or_introl eq_refl)). cbn in X. subst l. cbn. apply IH. intros e I. apply N. now right. }
  apply dblp_none; auto; unfold names_of, same_title; rewrite Q; cbn; lia.
Qed.

(** ** Examples *)
Definition dblp_x := dblp 100 (isort_by fst) (isort_by fst) (isort_by (fun n => n)).
Definition papers : list (string * list string) := [("P1", ["Paul"; "Ann"]); ("P2", ["Ann"; "Bob"]); ("P3", ["Cid"; "Dee"]); ("P1", ["Eve"])].
Example C93_papers_fit : fits 100 papers.
Proof. constructor; [exists ("P1", ["Eve"]); split; [vm_compute; tauto|discriminate]|..]; apply Nat.ltb_lt; vm_compute; reflexivity. Qed.
(** Measured from the first author of their first paper, everyone's number is one too large. *)
Example C93_one_too_many : dblp_x "Paul" papers ["Ann"; "Bob"; "Dee"; "Nobody"; "Eve"] =
  Ok ([], "Paul", [("Paul", 1, []); ("Ann", 2, [(("Ann", "Paul"), "P1")]); ("Bob", 3, [(("Bob", "Ann"), "P2"); (("Ann", "Paul"), "P1")]);
    ("Dee", 0, [(("Dee", "Paul"), "P1")]); ("Nobody", 1, []); ("Eve", 2, [(("Eve", "Paul"), "P1")])]).
Proof. vm_compute. reflexivity. Qed.
(** Measured from Bob the numbers are right. *)
Example C93_right : dblp_x "Bob" papers ["Paul"; "Ann"] =
  Ok ([], "Bob", [("Bob", 0, []); ("Paul", 2, [(("Paul", "Ann"), "P1"); (("Ann", "Bob"), "P2")]); ("Ann", 1, [(("Ann", "Bob"), "P2")])]).
Proof. vm_compute. reflexivity. Qed.
Definition lonely : list (string * list string) := [("P1", ["Paul"]); ("P2", ["Ann"; "Bob"])].
Example C93_lonely_fits : fits 100 lonely.
Proof. constructor; [exists ("P1", ["Paul"]); split; [vm_compute; tauto|discriminate]|..]; apply Nat.ltb_lt; vm_compute; reflexivity. Qed.
Example C93_lonely_alone : forall v, ~ co (wrote lonely) (no_of (names_of lonely) "Paul") v.
Proof.
  intros v (k & (t & a & I & X & Y) & (t' & a' & I' & X' & Y') & N). vm_compute in Y. injection Y as <-. assert (t = t') by congruence. subst t'. vm_compute in I, I'.
  destruct I as [[= <-]|[I|[I|[]]]]; try discriminate. destruct I' as [[= <-]|[I'|[I'|[]]]]; try discriminate. destruct v as [|[|[|v]]]; try discriminate Y'; [now apply N|]. destruct v; discriminate Y'.
Qed.
Example C93_lonely_run : dblp_x "Paul" lonely ["Ann"] = Ok ([], "Paul", [("Paul", 1, []); ("Ann", 0, [(("Ann", "Paul"), "P1")])]).
Proof. vm_compute. reflexivity. Qed.
Example C93_nobody_run : dblp_x "Paul" [("P1", [])] [] = Ub.
Proof. vm_compute. reflexivity. Qed.
Example C93_both_files : oracle_dblp 100 50 (isort_by fst) (isort_by fst) (isort_by (fun n => n)) [("Footloose", ["[[Kevin Bacon]]"; "[[Ann (actor)|Ann]]"])] [("P2", ["Ann"; "Bob"])] ["Bob"] =
  Ok [("Kevin Bacon", 1, []); ("Bob", 3, [(("Bob", "Ann"), "P2"); (("Ann", "Kevin Bacon"), "Footloose")])].
Proof. vm_compute. reflexivity. Qed.
Example C93_both_fit : fits 100 (map (fun m => (fst m, map (delink 50) (snd m))) [("Footloose", ["[[Kevin Bacon]]"; "[[Ann (actor)|Ann]]"])] ++ [("P2", ["Ann"; "Bob"])]).
Proof. constructor; [exists ("P2", ["Ann"; "Bob"]); split; [vm_compute; tauto|discriminate]|..]; apply Nat.ltb_lt; vm_compute; reflexivity. Qed.
Example C93_unknown_meets : ~ In "Nobody" (map snd (pairs_of papers)) /\ nth_error (names_of papers) 0 = Some "Paul".
Proof. split; [|reflexivity]. vm_compute. intuition discriminate. Qed.

Print Assumptions C93_dblp.
Print Assumptions C93_oracle_dblp.
Print Assumptions C93_alone.
Print Assumptions C93_unknown.
Print Assumptions C93_nobody.
