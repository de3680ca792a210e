(** C94: examples/bgl-book/ch4_kevin_bacon.cpp prints the Bacon number of every actor in the file. *)
From Coq Require Import String Ascii List Arith Lia Bool Sorted.
From Verif Require Import EdgeListModel CsrModel OrcModel OrcProofs KbModel KbProofs Base.
Import ListNotations.
Set Implicit Arguments.
Local Open Scope string_scope.
Local Open Scope list_scope.
Local Open Scope nat_scope.

(** Every file is a list of lines and every line says a credit, so the theorems below are about all files. *)
Theorem C94_every_file file : exists ls cs, file_of file ls /\ Forall2 says ls cs.
Proof.
  destruct (file_some file) as [ls F]. exists ls. assert (exists cs, Forall2 says ls cs) as [cs H]; [|eauto]. clear F.
  induction ls as [|l ls [cs IH]]; [exists []; constructor|]. destruct (says_some l) as [c H]. exists (c :: cs). now constructor.
Qed.

(** Every actor of the file once, in the order of the names, with the least number of steps to Kevin Bacon, or 0 if there is no chain.
    Only if a line names Kevin Bacon twice can the numbers be too large, then by one for all that have a chain. *)
Theorem C94_numbers W srt srt1 file ls cs : is_sort_by fst srt -> file_of file ls -> Forall2 says ls cs ->
  length (people cs) < W -> 2 * length cs < W -> appears cs "Kevin Bacon" ->
  exists out c, kb_main W srt srt1 file = Ok out /\ c <= 1 /\ (c = 1 -> exists m, In (("Kevin Bacon", m), "Kevin Bacon") cs) /\
    Sorted slt (map fst out) /\ (forall a, In a (map fst out) <-> appears cs a) /\
    forall a d, In (a, d) out -> (bacon cs "Kevin Bacon" a (d - c) /\ c <= d) \/ ((forall n, ~ steps cs "Kevin Bacon" n a) /\ d = 0).
Proof. intros HS FO FS LP LC AP. exact (kb_main_ok srt1 HS FO FS LP LC AP). Qed.

(** Without Kevin Bacon the end of the map is dereferenced. *)
Theorem C94_absent W srt srt1 file ls cs : is_sort_by fst srt -> file_of file ls -> Forall2 says ls cs ->
  length (people cs) < W -> 2 * length cs < W -> ~ appears cs "Kevin Bacon" -> kb_main W srt srt1 file = Ub.
Proof. intros HS FO FS LP LC AP. exact (kb_main_absent srt1 HS FO FS LP LC AP). Qed.

(** ** Examples *)
Definition kb_x := kb_main 100 (isort_by fst) (isort_by (fun n => n)).
Definition nl := String LF EmptyString.
Definition ex_file : string := ("Kevin Bacon;Footloose;Lori Singer" ++ nl ++ "Lori Singer;Short Cuts;Tim Robbins" ++ nl ++ "Ann;Other;Bob;Cid" ++ nl ++ "Tim Robbins;Top Gun")%string.
Definition ex_credits : list credit := [(("Kevin Bacon", "Footloose"), "Lori Singer"); (("Lori Singer", "Short Cuts"), "Tim Robbins"); (("Ann", "Other"), "Bob;Cid"); (("Tim Robbins", "Top Gun"), "")].
Definition ex_lines : list string := ["Kevin Bacon;Footloose;Lori Singer"; "Lori Singer;Short Cuts;Tim Robbins"; "Ann;Other;Bob;Cid"; "Tim Robbins;Top Gun"].
(** A line with no second actor makes the empty name an actor. *)
Example C94_run : kb_x ex_file = Ok [("", 3); ("Ann", 0); ("Bob;Cid", 0); ("Kevin Bacon", 0); ("Lori Singer", 1); ("Tim Robbins", 2)].
Proof. vm_compute. reflexivity. Qed.
Ltac no_char := intros I; vm_compute in I; repeat (destruct I as [I|I]; [discriminate|]); destruct I.
Example C94_meets : file_of ex_file ex_lines /\ Forall2 says ex_lines ex_credits /\ length (people ex_credits) < 100 /\ appears ex_credits "Kevin Bacon".
Proof.
  split; [|split; [|split]].
  - split; [repeat constructor; no_char|]. right. exists ["Kevin Bacon;Footloose;Lori Singer"; "Lori Singer;Short Cuts;Tim Robbins"; "Ann;Other;Bob;Cid"], "Tim Robbins;Top Gun". split; [reflexivity|]. split; [discriminate|reflexivity].
  - repeat apply Forall2_cons; [..|apply Forall2_nil].
    + apply (@says_3 "Kevin Bacon" "Footloose" "Lori Singer"); no_char.
    + apply (@says_3 "Lori Singer" "Short Cuts" "Tim Robbins"); no_char.
    + apply (@says_3 "Ann" "Other" "Bob;Cid"); no_char.
    + apply (@says_2 "Tim Robbins" "Top Gun"); no_char.
  - apply Nat.ltb_lt. vm_compute. reflexivity.
  - exists (("Kevin Bacon", "Footloose"), "Lori Singer"). split; [now left|now left].
Qed.
Example C94_twice : kb_x ("Kevin Bacon;Solo;Kevin Bacon" ++ nl ++ "Kevin Bacon;Footloose;Lori Singer" ++ nl)%string = Ok [("Kevin Bacon", 1); ("Lori Singer", 2)].
Proof. vm_compute. reflexivity. Qed.
Example C94_nobody : kb_x ("A;M;B" ++ nl)%string = Ub.
Proof. vm_compute. reflexivity. Qed.

Print Assumptions C94_every_file.
Print Assumptions C94_numbers.
Print Assumptions C94_absent.
