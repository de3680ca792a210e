(** C45, continued: ids that do not fit in a size_t. *)
From Coq Require Import String List Arith Lia Bool ZArith Ascii.
From Verif Require Import EdgeListModel MmModel MmProofs Base.
Import ListNotations.
Set Implicit Arguments.
Local Open Scope Z_scope.
Local Open Scope list_scope.

Lemma extract_large old w z t : blanks w -> SZ <= z -> ends t ->
  extract_size old (stream_of (w ++ print_nat z ++ t)) = (Some (SZ - 1), {| s_good := false; s_left := t |}).
Proof.
  intros Bw Hz Ht. assert (0 < SZ) by reflexivity. assert (Pos : 0 <= z) by lia. unfold extract_size, extract. cbn [s_good negb stream_of s_left].
  destruct (print_nat_head Pos) as (c & r & E & D).
  assert (X : skip_ws (w ++ print_nat z ++ t) = print_nat z ++ t).
  { rewrite E. cbn [app]. apply skip_blanks; auto. now apply digit_plain in D. }
  rewrite X. assert (G : read_sign (print_nat z ++ t) = (false, print_nat z ++ t)).
  { rewrite E. cbn [app read_sign]. apply digit_plain in D. destruct D as (_ & _ & -> & -> & _). reflexivity. }
  assert (R := read_print Pos Ht). rewrite E in *. cbn [app] in *. rewrite G. cbn [starts_digit]. rewrite D. cbn [negb]. rewrite R.
  change (0 =? 0) with true. cbn iota. replace (SZ - 1 <? z) with true by (symmetry; apply Z.ltb_lt; lia). reflexivity.
Qed.
Lemma line_no_nl d0 d1 v : Forall (fun c => Ascii.eqb c NL = false) (print_int d0 ++ SP :: print_int d1 ++ tail_of v).
Proof.
  apply Forall_app. split; [apply print_no_nl|]. constructor; [reflexivity|]. apply Forall_app. split; [apply print_no_nl|].
  destruct v; cbn; [constructor; [reflexivity|apply print_no_nl]|constructor].
Qed.
Lemma line_ids_large0 d0 d1 v r : SZ <= d0 -> line_ids (entry_line d0 d1 (value_text v) ++ r) = Ub.
Proof.
  intros H0. assert (0 < SZ) by reflexivity. unfold line_ids. rewrite entry_line_app, getline_app by apply line_no_nl. rewrite (print_int_nonneg (z := d0)) by lia.
  change (print_nat d0 ++ SP :: print_int d1 ++ tail_of v) with ([] ++ print_nat d0 ++ SP :: print_int d1 ++ tail_of v).
  rewrite extract_large by (auto; try reflexivity; now left). reflexivity.
Qed.
Lemma line_ids_large1 d0 d1 v r : 0 <= d0 < SZ -> SZ <= d1 -> exists s, line_ids (entry_line d0 d1 (value_text v) ++ r) = Ok (d0, SZ - 1, s, r).
Proof.
  intros H0 H1. unfold line_ids. rewrite entry_line_app, getline_app by apply line_no_nl. rewrite (print_int_nonneg (z := d0)), (print_int_nonneg (z := d1)) by lia.
  rewrite extract_size_print0 by (auto; reflexivity). change (SP :: print_nat d1 ++ tail_of v) with ([SP] ++ print_nat d1 ++ tail_of v).
  rewrite extract_large by (auto using tail_ends; right; now left). cbn [use bind]. eauto.
Qed.

(** A file of lines whose ids fit, then one with a first id of 2^64 or more, then anything: the second id of that line is used without
    having been set.  If it is the second id that is too large, nothing is noticed and the edge is to 2^64 - 1. *)
Theorem C45_id_too_large W wt sy n m nnz L d0 d1 v rest : In wt [txt "pattern"; txt "integer"] -> In sy [txt "general"; txt "symmetric"] ->
  0 <= n < SZ -> 0 <= m < SZ -> 0 <= nnz < SZ -> Forall in_sz L -> Z.of_nat (List.length L) < nnz ->
  let file := head_line wt sy ++ size_line n m nnz ++ lines L ++ entry_line d0 d1 (value_text v) ++ rest in
  (SZ <= d0 -> read_dir W file = Ub) /\
  (0 <= d0 < SZ -> SZ <= d1 -> nnz = Z.of_nat (List.length L) + 1 ->
     exists es, read_dir W file = Ok (el_build W (Z.to_nat n) es) /\ In (to_id W d0, to_id W (2 ^ 64 - 1), tt) es).
Proof.
  intros Hw Hs Hn Hm Hz FL LL. cbv zeta. unfold read_dir. rewrite header_ok by auto. cbn [bind]. rewrite sizes_ok by auto. cbn [bind].
  assert (G : forall mirror k t, fill_dir W mirror (List.length L + k) (lines L ++ t) =
    do es <- fill_dir W mirror k t ; Ok (flat_map (fun x => entry W mirror (fst (fst x)) (snd (fst x)) tt) L ++ es)).
  { intros mirror k t. clear - FL. induction FL as [|[[e0 e1] u] L [H0 H1] FL IH]; cbn [List.length plus lines flat_map app].
    - destruct (fill_dir W mirror k t); reflexivity.
    - cbn [fill_dir fst snd] in *. fold (lines L). rewrite <- app_assoc, line_ids_entry by auto. cbn [bind]. rewrite IH. destruct (fill_dir W mirror k t); cbn [bind]; auto. now rewrite app_assoc. }
  split.
  - intros H0. replace (Z.to_nat nnz) with (List.length L + S (Z.to_nat nnz - List.length L - 1))%nat by lia. rewrite G. cbn [fill_dir]. rewrite line_ids_large0 by auto. reflexivity.
  - intros H0 H1 E. replace (Z.to_nat nnz) with (List.length L + 1)%nat by lia. rewrite G. cbn [fill_dir]. destruct (@line_ids_large1 d0 d1 v rest H0 H1) as [s ->]. cbn [bind].
    eexists. split; [reflexivity|]. apply in_or_app. right. apply in_or_app. left. now left.
Qed.
Example C45_id_too_large_ex :
  read_dir 16 (txt "%%MatrixMarket matrix coordinate pattern general" ++ NL :: txt "3 3 2" ++ NL :: txt "1 2" ++ NL :: txt "18446744073709551616 1" ++ [NL]) = Ub /\
  (exists el, read_dir 16 (txt "%%MatrixMarket matrix coordinate pattern general" ++ NL :: txt "3 3 2" ++ NL :: txt "1 2" ++ NL :: txt "18446744073709551615 1" ++ [NL]) = Ok el) /\
  read_dir 16 (txt "%%MatrixMarket matrix coordinate pattern general" ++ NL :: txt "3 3 1" ++ NL :: txt "1 18446744073709551616" ++ [NL]) =
  read_dir 16 (txt "%%MatrixMarket matrix coordinate pattern general" ++ NL :: txt "3 3 1" ++ NL :: txt "1 18446744073709551615" ++ [NL]).
Proof. split; [vm_compute; reflexivity|]. split; [eexists; vm_compute; reflexivity|vm_compute; reflexivity]. Qed.
Print Assumptions C45_id_too_large.

(** * Negative ids *)
Lemma extract_signed old w z t : blanks w -> - SZ < z < SZ -> ends t -> extract_size old (stream_of (w ++ print_int z ++ t)) = (Some (z mod 2 ^ 64), stream_of t).
Proof.
  intros Bw Hz Ht. destruct (Z.lt_ge_cases z 0) as [N|N].
  2:{ rewrite print_int_nonneg, extract_size_print by (auto; lia). change SZ with (2 ^ 64) in Hz. now rewrite Z.mod_small by lia. }
  assert (Pos : 0 <= - z) by lia. unfold print_int. replace (z <? 0) with true by (symmetry; apply Z.ltb_lt; lia). unfold extract_size, extract. cbn [s_good negb stream_of s_left].
  cbn [app]. rewrite skip_blanks by (auto; reflexivity). change (read_sign ("-"%char :: print_nat (- z) ++ t)) with (true, print_nat (- z) ++ t).
  destruct (print_nat_head Pos) as (c & r & E & D). assert (R := read_print Pos Ht). rewrite E in *. cbn [app] in *. cbn [starts_digit]. rewrite D. cbn [negb]. rewrite R.
  change (0 =? 0) with true. cbn iota. replace (SZ - 1 <? - z) with false by (symmetry; apply Z.ltb_ge; lia). rewrite Z.opp_involutive. reflexivity.
Qed.
Lemma line_ids_signed d0 d1 v r : - SZ < d0 < SZ -> - SZ < d1 < SZ ->
  line_ids (entry_line d0 d1 (value_text v) ++ r) = Ok (d0 mod 2 ^ 64, d1 mod 2 ^ 64, stream_of (tail_of v), r).
Proof.
  intros H0 H1. unfold line_ids. rewrite entry_line_app, getline_app by apply line_no_nl.
  change (print_int d0 ++ SP :: print_int d1 ++ tail_of v) with ([] ++ print_int d0 ++ SP :: print_int d1 ++ tail_of v).
  rewrite extract_signed by (auto; try reflexivity; now left). change (SP :: print_int d1 ++ tail_of v) with ([SP] ++ print_int d1 ++ tail_of v).
  rewrite extract_signed by (auto using tail_ends; right; now left). reflexivity.
Qed.
(** A negative id is taken modulo 2^64 without notice: -k is vertex 2^64 - k - 1, cut to the id type, for every k below 2^64.
    So 0 and -k are the numbers of vertices that a correct file never names. *)
Theorem C45_negative_id W wt n m L rest : In wt [txt "pattern"; txt "integer"] -> 0 <= n < SZ -> 0 <= m < SZ -> Z.of_nat (List.length L) < SZ ->
  Forall (fun x : raw => - SZ < fst (fst x) < SZ /\ - SZ < snd (fst x) < SZ) L ->
  let vertex d := Z.to_nat (((if d <=? 0 then 2 ^ 64 + d - 1 else d - 1)) mod Z.of_nat W) in
  read_dir W (head_line wt (txt "general") ++ size_line n m (Z.of_nat (List.length L)) ++ lines L ++ rest) =
    Ok (el_build W (Z.to_nat n) (map (fun x : raw => (vertex (fst (fst x)), vertex (snd (fst x)), tt)) L)).
Proof.
  intros Hw Hn Hm Hl F. cbv zeta. unfold read_dir. rewrite header_ok by (auto; now left). cbn [bind]. rewrite sizes_ok by (auto; lia). cbn [bind]. rewrite Nat2Z.id.
  assert (V : forall d, - SZ < d < SZ -> to_id W (d mod 2 ^ 64) = Z.to_nat ((if d <=? 0 then 2 ^ 64 + d - 1 else d - 1) mod Z.of_nat W)).
  { intros d Hd. unfold to_id. f_equal. f_equal. change SZ with (2 ^ 64) in *. rewrite Zminus_mod_idemp_l. destruct (Z.leb_spec d 0); [|apply Z.mod_small; lia].
    symmetry. apply (Z.mod_unique _ _ (-1)); lia. }
  assert (G : fill_dir W false (List.length L) (lines L ++ rest) = Ok (map (fun x : raw => (to_id W (fst (fst x) mod 2 ^ 64), to_id W (snd (fst x) mod 2 ^ 64), tt)) L)).
  { clear - F. induction F as [|[[e0 e1] u] L [H0 H1] FL IH]; cbn [List.length fill_dir lines flat_map map]; auto. cbn [fst snd] in *. fold (lines L). rewrite <- app_assoc, line_ids_signed by auto. cbn [bind]. rewrite IH. reflexivity. }
  change (text_eqb (txt "general") (txt "symmetric")) with false. rewrite G. cbn [bind]. do 2 f_equal. apply map_ext_in. intros x J. rewrite Forall_forall in F. destruct (F x J). now rewrite !V.
Qed.
Example C45_negative_id_ex : read_dir 16 (txt "%%MatrixMarket matrix coordinate pattern general" ++ NL :: txt "3 3 2" ++ NL :: txt "-2 1" ++ NL :: txt "0 3" ++ [NL]) = Ok (el_build 16 3 [(13, 0, tt); (15, 2, tt)]%nat).
Proof. vm_compute. reflexivity. Qed.
Print Assumptions C45_negative_id.
