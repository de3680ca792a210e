(** C97: the table written by bench/Log.hpp: which columns line up, when fields run together, which name a graph gets. *)
From Coq Require Import String List Arith Lia Bool Ascii.
From Verif Require Import LogModel Base.
Import ListNotations.
Set Implicit Arguments.
Local Open Scope nat_scope.
Local Open Scope list_scope.

(** Where column [k] begins. *)
Definition start_of (ws : list nat) (k : nat) : nat := list_sum (firstn k ws).
(** Field [k] stands in its column: at its place, with only blanks up to the next column. *)
Definition stands (line : text) (ws : list nat) (k : nat) (f : text) : Prop :=
  exists w, nth_error ws k = Some w /\ firstn w (skipn (start_of ws k) line) = f ++ repeat " "%char (w - length f).
(** The fields up to [k] are not wider than their columns. *)
Definition fit (ws : list nat) (fields : list text) (k : nat) : Prop :=
  forall j w f, j <= k -> nth_error ws j = Some w -> nth_error fields j = Some f -> length f <= w.

Lemma column_length w f : length f <= w -> length (column w f) = w.
Proof. intros H. unfold column. rewrite app_length, repeat_length. lia. Qed.
Lemma columns_at : forall ws fields k f, nth_error fields k = Some f -> k < length ws -> fit ws fields k -> forall rest, stands (columns ws fields ++ rest) ws k f.
Proof.
  induction ws as [|w ws IH]; intros [|g fields] k f E L F rest; cbn [length] in L; try lia; [destruct k; discriminate|].
  assert (G : length g <= w) by (apply (F 0 w g); [lia|reflexivity|reflexivity]). cbn [columns]. rewrite <- app_assoc. destruct k as [|k]; cbn [nth_error] in *.
  - injection E as ->. exists w. split; [reflexivity|]. cbn [start_of firstn skipn list_sum fold_right]. unfold start_of. cbn [firstn list_sum fold_right skipn]. assert (C := @column_length w f G). rewrite firstn_app, C, Nat.sub_diag. cbn [firstn]. rewrite app_nil_r, firstn_all2 by lia. reflexivity.
  - destruct (IH fields k f E ltac:(lia)) with (rest := rest) as (w' & N & X); [intros j w' h J; apply (F (S j)); lia|]. exists w'. split; [exact N|].
    change (start_of (w :: ws) (S k)) with (w + start_of ws k). replace (skipn (w + start_of ws k) (column w g ++ columns ws fields ++ rest)) with (skipn (start_of ws k) (columns ws fields ++ rest)); [exact X|].
    rewrite (skipn_app _ (column w g)), (skipn_all2 (column w g)) by (rewrite column_length by exact G; lia). rewrite column_length by exact G. cbn [app]. f_equal. lia.
Qed.
Lemma run_on : forall ws fields k f g w, nth_error fields k = Some f -> nth_error fields (S k) = Some g -> nth_error ws k = Some w -> S k < length ws -> w <= length f ->
  exists a b, columns ws fields = a ++ f ++ g ++ b.
Proof.
  induction ws as [|w0 ws IH]; intros [|h fields] k f g w E E' N L H; try (destruct k; discriminate). cbn [columns]. destruct k as [|k]; cbn [nth_error] in *.
  - injection E as ->. injection N as ->. destruct ws as [|w1 ws]; [cbn in L; lia|]. destruct fields as [|g' fields]; [discriminate|]. injection E' as ->. exists [], (repeat BLANK (w1 - length g) ++ columns ws fields). cbn [columns app]. unfold column.
    replace (w - length f) with 0 by lia. cbn [repeat]. rewrite app_nil_r, <- !app_assoc. reflexivity.
  - destruct (IH fields k f g w E E' N ltac:(cbn in L; lia) H) as (a & b & ->). exists (column w0 h ++ a), b. now rewrite <- app_assoc.
Qed.

(** The widths: the compiler's columns are two wider than what they hold and than their heading. *)
Definition layout (c : found) (times : nat) : list nat :=
  [26; 10; 10; 10; 2 + Nat.max 3 (length (cxx c)); 2 + Nat.max 6 (length (cxx_id c)); 2 + Nat.max 7 (length (cxx_ver c)); 2 + Nat.max 5 (length (build c)); 2 + Nat.max 9 (length (tbb c)); 15; 20; 10; 10; 10; 32] ++ repeat 20 times.
Lemma widths_are c times : widths c times = layout c times.
Proof.
  assert (Z : forall a b, size_of a b = 2 + Nat.max (length b) (length a)) by (intros; unfold size_of; lia). unfold widths. now rewrite !Z.
Qed.

Lemma some_same X (a b : X) : Some a = Some b -> a = b.
Proof. congruence. Qed.
Section C97.
Variables (c : found) (benchmark version threads graph : text) (times : list text).
Let ws := layout c (length times).
(** What a row is to show. *)
Definition shown : list text :=
  [uuid c; txt "NWGRAPH"; branch c; match revision c with Some r => if changed c then r ++ txt "+" else r | None => [] end; cxx c; cxx_id c; cxx_ver c; build c; tbb c; date c; host_name c; benchmark; version; threads; graph_name graph] ++ times.
Lemma row_is : length (host_name c) < 20 -> log_row c benchmark version threads graph times = Ok (columns ws shown ++ [EOL]).
Proof.
  intros H. unfold log_row, host_of. replace (length (host_name c) <? 20) with true by (symmetry; now apply Nat.ltb_lt). cbn [bind]. unfold row_fields, shown, version_of, ws. rewrite widths_are.
  destruct (revision c) as [r|]; [destruct (changed c); [reflexivity|]|reflexivity]. now rewrite app_nil_r.
Qed.

(** With a host name that fits, a row is one line in which every field stands in its column as long as it and those before it fit, and
    the heading stands at the same place.  The compiler's columns always fit, with a blank behind. *)
Theorem C97_columns : length (host_name c) < 20 ->
  exists line, log_row c benchmark version threads graph times = Ok line /\
    forall k f, nth_error shown k = Some f -> fit ws shown k -> stands line ws k f.
Proof.
  intros H. eexists. split; [exact (row_is H)|]. intros k f E F. apply columns_at; auto. unfold ws, layout. rewrite app_length, repeat_length. assert (L : k < length shown) by (apply nth_error_Some; congruence).
  unfold shown in L. rewrite app_length in L. exact L.
Qed.
Theorem C97_header (headers : list text) : length headers = length times -> Forall (fun h => length h <= 20) headers ->
  forall k h, nth_error (map txt ["UUID"; "Library"; "Branch"; "Revision"; "CXX"; "CXX_ID"; "CXX_VER"; "Build"; "TBBMALLOC"; "Date"; "Host"; "Benchmark"; "Version"; "Threads"; "Graph"]%string ++ headers) k = Some h ->
    stands (log_header c headers) ws k h.
Proof.
  intros HL HF k h E. unfold log_header. rewrite HL, widths_are. fold ws. apply columns_at; auto.
  - unfold ws, layout. rewrite app_length, repeat_length, <- HL. assert (L : k < length (header_fields headers)) by (apply nth_error_Some; unfold header_fields; congruence). unfold header_fields in L. rewrite app_length in L. exact L.
  - intros j w f _ J K. unfold ws, layout, header_fields in *.
    do 15 (destruct j as [|j]; [cbn [nth_error app map] in J, K; apply some_same in J; apply some_same in K; subst w f; unfold txt; cbn [list_ascii_of_string length]; lia|]). cbn [map app nth_error] in J, K.
    rewrite Forall_forall in HF. apply nth_error_In in K. apply HF in K. apply nth_error_In, repeat_spec in J. now subst w.
Qed.
Theorem C97_compiler k : 4 <= k <= 8 -> exists w f, nth_error ws k = Some w /\ nth_error shown k = Some f /\ length f < w.
Proof. intros K. assert (X : k = 4 \/ k = 5 \/ k = 6 \/ k = 7 \/ k = 8) by lia. unfold ws, layout, shown. destruct X as [->|[->|[->|[->| ->]]]]; do 2 eexists; (split; [reflexivity|split; [reflexivity|lia]]). Qed.
(** A field as wide as its column or wider, such as a branch of ten letters, runs into the next: nothing separates them. *)
Theorem C97_run_on k f g w : length (host_name c) < 20 -> nth_error shown k = Some f -> nth_error shown (S k) = Some g -> nth_error ws k = Some w -> w <= length f ->
  exists a b, log_row c benchmark version threads graph times = Ok (a ++ f ++ g ++ b).
Proof.
  intros H E E' N L. rewrite (row_is H). destruct (@run_on ws shown k f g w E E' N) as (a & b & X); auto.
  - unfold ws, layout. rewrite app_length, repeat_length. assert (K : S k < length shown) by (apply nth_error_Some; congruence). unfold shown in K. rewrite app_length in K. exact K.
  - exists a, (b ++ [EOL]). rewrite X, <- !app_assoc. reflexivity.
Qed.
(** A host name of 20 characters or more: the array has no ending zero and is read past its end. *)
Theorem C97_long_host : 20 <= length (host_name c) -> log_row c benchmark version threads graph times = Ub.
Proof. intros H. unfold log_row, host_of. replace (length (host_name c) <? 20) with false by (symmetry; now apply Nat.ltb_ge). reflexivity. Qed.
End C97.

(** ** Names of graphs *)
Definition without (x : ascii) (s : text) : Prop := ~ In x s.
Lemma file_name_end a : forall acc, without "/" a -> file_name acc a = acc ++ a.
Proof.
  induction a as [|x a IH]; intros acc W; cbn [file_name]; [now rewrite app_nil_r|]. destruct (Ascii.eqb_spec x "/") as [->|N]; [destruct W; now left|].
  rewrite IH, <- app_assoc; [reflexivity|]. intros J. apply W. now right.
Qed.
Lemma file_name_path d a : without "/" a -> forall acc, file_name acc (d ++ "/"%char :: a) = a.
Proof.
  intros W. induction d as [|x d IH]; intros acc; cbn [app file_name].
  - change (Ascii.eqb "/" "/") with true. cbn iota. now rewrite file_name_end.
  - destruct (Ascii.eqb x "/"); apply IH.
Qed.
Lemma before_none s : without "." s -> before_dot s = None.
Proof. induction s as [|x s IH]; intros W; [reflexivity|]. cbn [before_dot]. rewrite IH by (intros J; apply W; now right). destruct (Ascii.eqb_spec x "."); [destruct W; now left|reflexivity]. Qed.
Lemma before_app a s : before_dot (a ++ s) = match before_dot s with Some b => Some (a ++ b) | None => before_dot a end.
Proof. induction a as [|x a IH]; cbn [app before_dot]; [now destruct (before_dot s)|]. rewrite IH. destruct (before_dot s); reflexivity. Qed.
Lemma up_to_all a : without "_" a -> up_to_underscore a = a.
Proof. induction a as [|x a IH]; intros W; [reflexivity|]. cbn [up_to_underscore]. destruct (Ascii.eqb_spec x "_") as [->|N]; [destruct W; now left|]. rewrite IH; [reflexivity|]. intros J. apply W. now right. Qed.
Lemma up_to_app a s : without "_" a -> up_to_underscore (a ++ "_"%char :: s) = a.
Proof. induction a as [|x a IH]; intros W; [reflexivity|]. cbn [app up_to_underscore]. destruct (Ascii.eqb_spec x "_") as [->|N]; [destruct W; now left|]. rewrite IH; [reflexivity|]. intros J. apply W. now right. Qed.
Lemma stem_file p f a b : file_name [] p = f -> f = a ++ b -> a <> [] -> without "." a -> stem p = match before_dot b with Some r => a ++ r | None => f end.
Proof.
  intros E -> N W. unfold stem. rewrite E. destruct (list_eq_dec ascii_dec (a ++ b) (txt "..")) as [X|X].
  - destruct a as [|x a]; [congruence|]. cbn in X. injection X as -> _. destruct W. now left.
  - rewrite before_app. destruct (before_dot b) as [r|]; [destruct a; [congruence|reflexivity]|]. rewrite before_none by exact W. reflexivity.
Qed.
(** A file a_anything or a.ending, in whatever directory, is called a: all files of one directory or several that begin alike up to the
    underscore get one name. *)
Theorem C97_graph_name a b p : a <> [] -> without "/" (a ++ b) -> without "_" a -> without "." a -> (p = a ++ b \/ exists d, p = d ++ "/"%char :: a ++ b) ->
  b = [] \/ (exists r, b = "_"%char :: r) \/ (exists r, b = "."%char :: r /\ without "." r) -> graph_name p = a.
Proof.
  intros N W U D P B. assert (F : file_name [] p = a ++ b) by (destruct P as [->|[d ->]]; [now rewrite file_name_end|now rewrite file_name_path]).
  unfold graph_name. rewrite (@stem_file p (a ++ b) a b F eq_refl N D). destruct B as [->|[[r ->]|(r & -> & R)]].
  - cbn [before_dot]. rewrite app_nil_r. now apply up_to_all.
  - cbn [before_dot]. destruct (before_dot r) as [q|]; [now apply up_to_app|]. change (Ascii.eqb "_" ".") with false. cbn iota. now apply up_to_app.
  - cbn [before_dot]. rewrite before_none by exact R. change (Ascii.eqb "." ".") with true. cbn iota. rewrite app_nil_r. now apply up_to_all.
Qed.

(** Of several endings only the last goes, and a name that starts with its only dot is kept whole. *)
Theorem C97_dots a r p d : without "/" (a ++ "."%char :: r) -> without "_" a -> without "." r -> p = a ++ "."%char :: r \/ p = d ++ "/"%char :: a ++ "."%char :: r ->
  (a <> [] -> a <> ["."%char] -> graph_name p = a) /\ (a = [] -> without "_" r -> graph_name p = "."%char :: r).
Proof.
  intros W U R P. assert (F : file_name [] p = a ++ "."%char :: r) by (destruct P as [->| ->]; [now rewrite file_name_end|now rewrite file_name_path]).
  assert (B : before_dot (a ++ "."%char :: r) = Some a).
  { clear - R. induction a as [|x a IH]; cbn [app before_dot]; [rewrite before_none by exact R; change (Ascii.eqb "." ".") with true; reflexivity|]. now rewrite IH. }
  unfold graph_name, stem. rewrite F, B. split.
  - intros N N'. destruct (list_eq_dec ascii_dec (a ++ "."%char :: r) (txt "..")) as [X|X].
    + exfalso. destruct a as [|x [|y a]]; [congruence| |].
      * cbn in X. injection X as -> _. congruence.
      * apply (f_equal (@length _)) in X. cbn in X. rewrite app_length in X. cbn in X. lia.
    + destruct a as [|x a]; [congruence|]. now apply up_to_all.
  - intros -> U'. cbn [app]. assert (K : without "_" ("."%char :: r)) by (intros [X|X]; [discriminate|now apply U']).
    destruct (list_eq_dec ascii_dec _ (txt "..")); now apply up_to_all.
Qed.

(** ** The whole table: the header if asked for, then a row for every sample, in order. *)
Definition per_sample (samples : list (config * list (list text))) : list (config * list text) := flat_map (fun cs => map (fun s => (fst cs, s)) (snd cs)) samples.
Theorem C97_table c algorithm samples header headers : length (host_name c) < 20 ->
  exists rows, log_print c algorithm samples header headers = Ok ((if header then log_header c headers else []) ++ concat rows) /\
    Forall2 (fun x row => let '((file, id), threads) := fst x in log_row c algorithm ("v"%char :: id) threads file (snd x) = Ok row) (per_sample samples) rows.
Proof.
  intros H. assert (R : forall b v t g ts, exists row, log_row c b v t g ts = Ok row) by (intros; eexists; now apply row_is). unfold log_print.
  assert (G : exists l rows, rmap (fun cs : config * list (list text) => let '((file, id), threads) := fst cs in
            do rows <- rmap (fun sample => log_row c algorithm (txt "v" ++ id) threads file sample) (snd cs) ; Ok (concat rows)) samples = Ok l /\ concat l = concat rows /\
     Forall2 (fun x row => let '((file, id), threads) := fst x in log_row c algorithm ("v"%char :: id) threads file (snd x) = Ok row) (per_sample samples) rows).
  { induction samples as [|[[[file id] threads] ss] samples IH]; [exists [], []; repeat split; constructor|]. destruct IH as (l & rows & E & C & F). cbn [rmap fst snd].
    assert (X : exists rs, rmap (fun sample => log_row c algorithm (txt "v" ++ id) threads file sample) ss = Ok rs /\ Forall2 (fun x row => let '((file, id), threads) := fst x in log_row c algorithm ("v"%char :: id) threads file (snd x) = Ok row) (map (fun s => ((file, id, threads), s)) ss) rs).
    { clear - R. induction ss as [|s ss (rs & E & F)]; [exists []; split; constructor|]. destruct (R algorithm (txt "v" ++ id) threads file s) as [row Er]. exists (row :: rs). cbn [rmap]. rewrite Er. cbn [bind]. rewrite E. split; [reflexivity|]. cbn [map]. constructor; auto. }
    destruct X as (rs & Ers & Frs). rewrite Ers. cbn [bind]. rewrite E. cbn [bind]. exists (concat rs :: l), (rs ++ rows). split; [reflexivity|]. split; [cbn [concat]; now rewrite concat_app, C|].
    unfold per_sample in *. cbn [flat_map fst snd]. apply Forall2_app; auto. }
  destruct G as (l & rows & E & C & F). exists rows. split; [|exact F]. rewrite <- C. exact (f_equal (fun r => do l <- r ; Ok ((if header then log_header c headers else []) ++ concat l)) E).
Qed.

(** ** Examples *)
Definition ex_c : found := mkFound (repeat "q"%char 24) (txt "master") (Some (txt "1234567")) true (txt "node-17") (txt "2022-05-01") (txt "/usr/bin/c++") (txt "GNU") (txt "11.2.0") (txt "Release") (txt "ON").
Definition ex_times : list text := [txt "1.25000000e-02"].
Example C97_fits : forall k, fit (layout ex_c 1) (shown ex_c (txt "BFS") (txt "v11") (txt "8") (txt "/data/kron_27.mtx") ex_times) k.
Proof. intros k j w f _ J K. do 16 (destruct j as [|j]; [cbn in J, K; injection J as <-; injection K as <-; cbn; lia|]). cbn in J. destruct j; discriminate. Qed.
Example C97_named : graph_name (txt "/data/kron_27.mtx") = txt "kron" /\ graph_name (txt "road.v2.mtx") = txt "road.v2" /\ graph_name (txt "..") = txt ".." /\ graph_name (txt "x/.hidden") = txt ".hidden" /\ graph_name (txt "_a.mtx") = [].
Proof. repeat split. Qed.
(** A branch of eleven letters. *)
Example C97_branch : exists line, log_row (mkFound (uuid ex_c) (txt "feature/csr") None false (txt "h") (txt "d") [] [] [] [] []) (txt "BFS") (txt "v0") (txt "1") (txt "g") [] = Ok line /\ firstn 62 (skipn 26 line) = txt "NWGRAPH   feature/csr                                         ".
Proof. eexists. split; vm_compute; reflexivity. Qed.
Example C97_host_ex : log_row (mkFound (uuid ex_c) [] None false (txt "node-0017.cluster.org") [] [] [] [] [] []) [] [] [] [] [] = Ub.
Proof. reflexivity. Qed.
Print Assumptions C97_columns.
Print Assumptions C97_header.
Print Assumptions C97_compiler.
Print Assumptions C97_run_on.
Print Assumptions C97_long_host.
Print Assumptions C97_graph_name.
Print Assumptions C97_dots.
Print Assumptions C97_table.
