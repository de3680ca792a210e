(** C85: the Oracle of Bacon (examples/imdb/oracle.cpp) finds everybody's Bacon number and names a shortest trail. *)
From Coq Require Import String List Arith Lia Bool Permutation Sorted.
From Verif Require Import EdgeListModel CsrModel CbProofs OrcModel OrcProofs OrcProofs2 OrcProofs3 OrcProofs4 Base GraphLib.
Import ListNotations.
Set Implicit Arguments.
Local Open Scope nat_scope.

(** ** The name in a link *)
(** Without "[[" the text is the name. With "[[" and a later "]]" that is the first one of the text, the name is what is between the two, after
    the first bar if there is one. If there is no "]]", or one before the "[[", the name is everything after the "[[" (after its first bar). *)
Theorem C85_delink M l : String.length l < M ->
  (absent "[[" l -> delink M l = l) /\
  (forall p m q, first_occ "[[" l p (m ++ "]]" ++ q)%string -> first_occ "]]" l (p ++ "[[" ++ m)%string q -> after_bar m (delink M l)) /\
  (forall p q, first_occ "[[" l p q -> absent "]]" l \/ (exists p' q', l = (p' ++ "]]" ++ q')%string /\ String.length p' < String.length p) -> after_bar q (delink M l)).
Proof. intros LM. split; [apply delink_absent|]. split; [intros p m q; now apply delink_closed|]. intros p q. now apply delink_open. Qed.

(** ** The answers *)
(** [b] is Kevin Bacon, or the first name of the file if there is no Kevin Bacon in it; it has acted together with somebody. No complaint about
    names or titles is printed. The furthest distance is the largest Bacon number there is, and those at it are listed in the order in which the file
    first names them. Everybody asked about gets the report that [tells]: the Bacon number with a shortest trail of true lines; for somebody not
    linked to [b] a number 0 and one line of no meaning. A name that is not in the file gets a complaint and the report of the first name. *)
Theorem C85_oracle W M srt srt2 srt1 data asked b : is_sort_by fst srt -> is_sort_by fst srt2 -> fits_ids W M data ->
  b = subject M data "Kevin Bacon" -> (exists t x, together M data t b x) -> (forall q, In q asked -> in_range M data (subject M data q)) ->
  exists d far answers (at_d : string -> bool), oracle W M srt srt2 srt1 data asked = Ok ([], d, far, answers) /\
    1 <= d /\ (forall x n, bacon_number M data b x n -> n <= d) /\ (exists x, bacon_number M data b x d) /\
    (forall x, at_d x = true <-> bacon_number M data b x d) /\
    Forall2 (fun x r => r_complaint r = None /\ tells M data b x r) (filter at_d (all_names M data)) far /\
    Forall2 (fun q r => (In q (all_names M data) -> r_complaint r = None) /\ (~ In q (all_names M data) -> r_complaint r = Some ((hd ""%string (all_names M data), q), 0)) /\
      tells M data b (subject M data q) r) asked answers.
Proof.
  intros HS HS2 F -> C R. destruct (program F HS HS2 srt1 asked C) as (d & far & p & D1 & DM & DX & P & FF & _ & FA & _). destruct (FA R) as (answers & E & A).
  exists d, far, answers, p. do 6 (split; auto). eapply f2_impl; [|exact A]. cbn beta. intros q r [X Y]. unfold known, subject in X. destruct (existsb (String.eqb q) (all_names M data)) eqn:K.
  - apply existsb_string in K. split; auto. split; auto. intros []. exact K.
  - split; auto. intros I. apply existsb_string in I. congruence.
Qed.

(** The report on somebody with a Bacon number, and on somebody without one. *)
Theorem C85_linked M data b a d r : tells M data b a r -> bacon_number M data b a d -> r_number r = d /\ List.length (r_lines r) = d /\ trail M data (r_lines r) a b.
Proof.
  intros (_ & [(d' & [L1 L2] & E1 & E2 & E3)|(N & _)]) [D1 D2].
  - assert (Q : d' = d) by (apply Nat.le_antisymm; auto). rewrite <- Q. auto.
  - now apply N in D1.
Qed.
(** The trail is also a proof of the distance: no trail of true lines is shorter. *)
Theorem C85_shortest M data b a d r lines : tells M data b a r -> bacon_number M data b a d -> trail M data lines a b -> List.length (r_lines r) <= List.length lines.
Proof.
  intros T D TL. destruct (C85_linked T D) as (_ & -> & _). apply (proj2 D). clear T D r.
  assert (G : forall lines a n x, linked M data b n x -> trail M data lines a x -> linked M data b (n + List.length lines) a).
  { clear. induction lines as [|[[x y] t] l IH]; intros a n z L TL; cbn [trail List.length] in *.
    - subst a. now rewrite Nat.add_0_r.
    - destruct TL as (-> & TG & TL). rewrite Nat.add_succ_r. econstructor; [eapply IH; eauto|]. destruct TG as (N & I & J). split; eauto. }
  apply (G lines a 0 b); auto. constructor.
Qed.
(** Somebody not linked to [b] is reported to have the number 0, which is that of [b] alone. *)
Theorem C85_unlinked M data b a r : tells M data b a r -> (forall n, ~ linked M data b n a) -> a <> b /\ r_number r = 0 /\ List.length (r_lines r) = 1.
Proof.
  intros (_ & [(d & [L _] & _)|(N & E & F)]) H; [now apply H in L|]. split; [intros ->; apply (H 0); constructor|]. rewrite F. auto.
Qed.

(** ** Undefined behaviour *)
(** If [b] never acted with anybody the search starts at a vertex without an edge, or outside the graph. *)
Theorem C85_alone W M srt srt2 srt1 data asked : is_sort_by fst srt -> is_sort_by fst srt2 -> fits_ids W M data ->
  (forall t x, ~ together M data t (subject M data "Kevin Bacon") x) -> oracle W M srt srt2 srt1 data asked = Ub.
Proof. intros HS HS2 F. now apply program_ub. Qed.
(** If neither the one asked about nor anybody listed after them acted with anybody, distance[] is read past its end. *)
Theorem C85_out_of_range W M srt srt2 srt1 data asked q : is_sort_by fst srt -> is_sort_by fst srt2 -> fits_ids W M data ->
  (exists t x, together M data t (subject M data "Kevin Bacon") x) -> In q asked -> out_of_range M data (subject M data q) -> oracle W M srt srt2 srt1 data asked = Ub.
Proof. intros HS HS2 F C I O. destruct (program F HS HS2 srt1 asked C) as (d & far & p & _ & _ & _ & _ & _ & _ & _ & U). apply U. eauto. Qed.

(** ** Examples *)
Local Open Scope string_scope.
Definition ex_data := [("A", ["Kevin Bacon"; "x"; "[[y (actor)|y]]"]); ("B", ["y"; "z"]); ("C", ["q"]); ("C", ["[[w]]"]); ("D", ["lone"])].
Definition ex_srt := isort_by (fst (A := nat) (B := nat * unit)).
Definition ex_srt2 := isort_by (fst (A := nat) (B := nat * nat)).
Example ex_fits : fits_ids 100 100 ex_data.
Proof. split; [vm_compute; lia|]. split; vm_compute; lia. Qed.
Example ex_b : subject 100 ex_data "Kevin Bacon" = "Kevin Bacon" /\ exists t x, together 100 ex_data t "Kevin Bacon" x.
Proof. split; [reflexivity|]. exists "A", "x". split; [discriminate|]. split; vm_compute; tauto. Qed.
Example ex_ranges : in_range 100 ex_data "z" /\ in_range 100 ex_data "w" /\ in_range 100 ex_data (subject 100 ex_data "nobody") /\ out_of_range 100 ex_data "lone".
Proof.
  split; [|split; [|split]].
  - exists ["Kevin Bacon"; "x"; "y"], ["q"; "w"; "lone"]. split; [reflexivity|]. exists "z", "B", "y". split; [now left|]. split; [discriminate|]. split; vm_compute; tauto.
  - exists ["Kevin Bacon"; "x"; "y"; "z"; "q"], ["lone"]. split; [reflexivity|]. exists "w", "C", "q". split; [now left|]. split; [discriminate|]. split; vm_compute; tauto.
  - exists [], ["x"; "y"; "z"; "q"; "w"; "lone"]. split; [reflexivity|]. exists "w", "C", "q". split; [vm_compute; tauto|]. split; [discriminate|]. split; vm_compute; tauto.
  - exists ["Kevin Bacon"; "x"; "y"; "z"; "q"; "w"], []. split; [reflexivity|]. intros c t x [<-|[]] (N & I & J). vm_compute in I, J. repeat (destruct I as [I|I]; [try discriminate|]); try easy. injection I as <-. repeat (destruct J as [J|J]; [try discriminate|]); try easy. injection J as <-. now apply N.
Qed.
Example ex_run : oracle 100 100 ex_srt ex_srt2 (isort_by (fun x => x)) ex_data ["Kevin Bacon"; "z"; "w"; "nobody"] =
  Ok ([], 2, [mkReport None "z" 2 [(("z", "y"), "B"); (("y", "Kevin Bacon"), "A")]],
    [mkReport None "Kevin Bacon" 0 []; mkReport None "z" 2 [(("z", "y"), "B"); (("y", "Kevin Bacon"), "A")]; mkReport None "w" 0 [(("w", "Kevin Bacon"), "A")];
     mkReport (Some (("Kevin Bacon", "nobody"), 0)) "Kevin Bacon" 0 []]).
Proof. vm_compute. reflexivity. Qed.
Example ex_run_lone : oracle 100 100 ex_srt ex_srt2 (isort_by (fun x => x)) ex_data ["z"; "lone"] = Ub.
Proof. vm_compute. reflexivity. Qed.
(** Bacon alone in one film. *)
Definition ex_alone := [("A", ["Kevin Bacon"]); ("B", ["y"; "z"])].
Example ex_alone_hyp : fits_ids 100 100 ex_alone /\ forall t x, ~ together 100 ex_alone t (subject 100 ex_alone "Kevin Bacon") x.
Proof.
  split; [split; [vm_compute; lia|split; vm_compute; lia]|]. intros t x (N & I & J). vm_compute in I, J. repeat (destruct I as [I|I]; [try discriminate|]); try easy. injection I as <-. repeat (destruct J as [J|J]; [try discriminate|]); try easy. injection J as <-. now apply N.
Qed.
(** z has the number 2, and w none. *)
Example ex_numbers : bacon_number 100 ex_data "Kevin Bacon" "z" 2 /\ forall n, ~ linked 100 ex_data "Kevin Bacon" n "w".
Proof.
  split.
  - split.
    + apply linked_S with (y := "y") (t := "B"). 2:{ split; [discriminate|]. split; vm_compute; tauto. } apply linked_S with (y := "Kevin Bacon") (t := "A"); [constructor|]. split; [discriminate|]. split; vm_compute; tauto.
    + intros [|[|k]] L; [inversion L| |lia]. exfalso. inversion L as [|n y x t L' TG]; subst. inversion L'; subst. destruct TG as (_ & I & J). vm_compute in I, J. repeat (destruct I as [I|I]; [try discriminate|]); try easy. injection I as <-. repeat (destruct J as [J|J]; [try discriminate|]); easy.
  - assert (G : forall n x, linked 100 ex_data "Kevin Bacon" n x -> In x ["Kevin Bacon"; "x"; "y"; "z"]).
    { induction 1 as [|n y x t L IH TG]; [now left|]. destruct TG as (_ & I & J). vm_compute in I, J, IH |- *.
      repeat (destruct J as [J|J]; [injection J as <- <-; try tauto|]); try easy.
      - repeat (destruct I as [I|I]; [try discriminate; injection I as <-|]); try easy; repeat (destruct IH as [IH|IH]; [discriminate|]); easy.
      - repeat (destruct I as [I|I]; [try discriminate; injection I as <-|]); try easy; repeat (destruct IH as [IH|IH]; [discriminate|]); easy.
      - repeat (destruct I as [I|I]; [try discriminate; injection I as <-|]); try easy; repeat (destruct IH as [IH|IH]; [discriminate|]); easy. }
    intros n L. apply G in L. vm_compute in L. repeat (destruct L as [L|L]; [discriminate|]). easy.
Qed.
Example ex_delink : delink 1000 "plain" = "plain" /\ delink 1000 "a [[b|c|d]] e" = "c|d" /\ delink 1000 "[[open" = "open" /\ delink 1000 "x]] [[y|z]] w" = "z]] w".
Proof. repeat split. Qed.
Example ex_first_occ : first_occ "[[" "a[[b]]" "a" ("b" ++ "]]" ++ "") /\ first_occ "]]" "a[[b]]" ("a" ++ "[[" ++ "b") "".
Proof.
  split; (split; [reflexivity|]).
  - intros [|c p'] q' E; cbn; [discriminate|lia].
  - intros p' q' E. do 4 (destruct p' as [|? p']; [discriminate|cbn in E; injection E as _ E]). cbn. lia.
Qed.

Print Assumptions C85_delink.
Print Assumptions C85_oracle.
Print Assumptions C85_linked.
Print Assumptions C85_shortest.
Print Assumptions C85_unlinked.
Print Assumptions C85_alone.
Print Assumptions C85_out_of_range.
