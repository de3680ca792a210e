(** C64, continued: isPattern and isSymmetric, and the values read from a file that has none. *)
From Coq Require Import Ascii String.
From Coq Require Import List Arith ZArith Bool Lia.
From Verif Require Import Base MmModel MmProofs MmfModel MmfProofs MmfProperties MmfTextProperties.
Import ListNotations.
Local Open Scope char_scope.
Local Open Scope Z_scope.
Local Open Scope list_scope.

(** Whatever follows the banner, if the file is opened then isPattern() says that the fourth word is "pattern" and isSymmetric() that the
    fifth is "symmetric" (in any case): "hermitian" and "skew-symmetric" do not count. *)
Theorem C64_flags fuel w0 g1 w1 g2 w2 g3 w3 g4 w4 tail rest tc f :
  Forall word [w0; w1; w2; w3; w4] -> Forall (fun w => (List.length w < TOKEN)%nat) [w0; w1; w2; w3; w4] ->
  Forall (fun g => gap g /\ g <> []) [g1; g2; g3; g4] -> firstn 14 w0 = txt "%%MatrixMarket" ->
  no_nl tail -> (tail = [] \/ exists x r, tail = x :: r /\ is_space x = true) ->
  let line := w0 ++ g1 ++ w1 ++ g2 ++ w2 ++ g3 ++ w3 ++ g4 ++ w4 ++ tail in
  (List.length line < LINE)%nat -> spelled w1 "matrix" -> one_of w2 (tc_crd tc) crds -> one_of w3 (tc_data tc) datas -> one_of w4 (tc_sym tc) syms ->
  mm_open fuel (line ++ NL :: rest) = Ok (Some f) ->
  (mm_is_pattern f = true <-> spelled w3 "pattern") /\ (mm_is_symmetric f = true <-> spelled w4 "symmetric").
Proof.
  intros W LW G M T TS line LL S1 S2 S3 S4 O.
  assert (B : mm_read_banner (line ++ NL :: rest) = Ok (Some (tc, rest))) by (apply C64_any_case; auto).
  assert (ET : mf_type f = tc).
  { unfold mm_open in O. rewrite B in O. cbn [bind] in O. destruct (negb (Ascii.eqb (tc_crd tc) "C")); [discriminate|].
    destruct (mm_read_mtx_crd_size fuel rest) as [[[[[n m] nnz] r2]|]| |]; cbn [bind] in O; try discriminate. injection O as <-. reflexivity. }
  unfold mm_is_pattern, mm_is_symmetric. rewrite ET, !Ascii.eqb_eq, !spelled_lower by reflexivity.
  apply one_of_codes in S3; [|reflexivity]. apply one_of_codes in S4; [|reflexivity].
  cbn [map fst snd datas syms] in S3, S4. split; split; intros E.
  - rewrite E in S3. repeat (destruct S3 as [S3|S3]; [injection S3; intros; try discriminate; congruence|]). destruct S3.
  - rewrite E in S3. repeat (destruct S3 as [S3|S3]; [injection S3; intros; try discriminate; congruence|]). destruct S3.
  - rewrite E in S4. repeat (destruct S4 as [S4|S4]; [injection S4; intros; try discriminate; congruence|]). destruct S4.
  - rewrite E in S4. repeat (destruct S4 as [S4|S4]; [injection S4; intros; try discriminate; congruence|]). destruct S4.
Qed.

(** A line of two numbers with nothing but blanks behind them. *)
Definition pair_line (l : text) (p : Z * Z) : Prop :=
  exists g0 g1 g2, l = g0 ++ print_int (fst p) ++ g1 ++ print_int (snd p) ++ g2 /\ gap g0 /\ gap g1 /\ g1 <> [] /\ gap g2 /\ int_ok (fst p) /\ int_ok (snd p).
(** The value found for a pair is the first number of the next line. *)
Fixpoint shifted (xs : list (Z * Z)) : list (Z * Z * list Z) :=
  match xs with
  | [] => []
  | (u, v) :: r => (u - 1, v - 1, [match r with [] => 0 | (u', _) :: _ => u' end]) :: shifted r
  end.
Lemma get_ws t t' : skip_ws t = skip_ws t' -> fst (get_int t) = fst (get_int t').
Proof. intros E. unfold get_int, strtol. rewrite E. destruct (read_sign (skip_ws t')) as [neg t1]. destruct (starts_digit t1); [destruct (read_digits 0 t1)|]; reflexivity. Qed.
Lemma gap_starts g t : gap g -> ends (g ++ NL :: t).
Proof. intros H. destruct g as [|c g]; [reflexivity|]. apply gap_ends; auto. discriminate. Qed.
Lemma pair_no_nl l p : pair_line l p -> no_nl l.
Proof.
  assert (P : forall z, no_nl (print_int z)) by (intros z; eapply Forall_impl; [|apply print_no_nl]; intros c; apply eqb_nl).
  intros (g0 & g1 & g2 & -> & G0 & G1 & _ & G2 & _). repeat (apply Forall_app; split); auto; try apply P; now apply gap_no_nl.
Qed.
Lemma deref_pair l p ls xs : pair_line l p -> Forall2 pair_line ls xs ->
  deref_text true (unlines (l :: ls)) = Ok (fst p - 1, snd p - 1, [match xs with [] => 0 | (u', _) :: _ => u' end]).
Proof.
  intros (g0 & g1 & g2 & -> & G0 & G1 & N1 & G2 & I0 & I1) F. unfold unlines. cbn [map concat]. fold (unlines ls). unfold deref_text. repeat rewrite <- app_assoc.
  rewrite get_int_print; auto; [|now apply gap_ends]. rewrite dec_int_ok by auto. cbn [bind app].
  rewrite get_int_print; auto; [|now apply gap_starts]. rewrite dec_int_ok by auto. cbn [bind]. do 3 f_equal.
  assert (E : skip_ws (g2 ++ NL :: unlines ls) = skip_ws (unlines ls)) by (rewrite skip_gap by auto; reflexivity).
  rewrite (get_ws _ _ E). destruct F as [|l' [u' v'] ls xs (h0 & h1 & h2 & -> & H0 & H1 & M1 & H2 & J0 & J1) F]; [reflexivity|].
  unfold unlines. cbn [map concat]. repeat rewrite <- app_assoc. cbn [fst snd] in *. rewrite get_int_print; auto. now apply gap_ends.
Qed.
Lemma run_pairs hdr ls : Forall no_nl ls -> forall xs k fuel, Forall2 pair_line (skipn k ls) xs -> (List.length xs <= fuel)%nat -> (k <= List.length ls)%nat ->
  mm_run fuel true (hdr ++ unlines ls) (off hdr ls k) (List.length (hdr ++ unlines ls)) = Ok (shifted xs).
Proof.
  intros NN. induction xs as [|p xs IH]; intros k fuel F LF LK.
  - assert (E : skipn k ls = []) by (inversion F; auto). assert (K : (List.length ls <= k)%nat).
    { assert (Q := skipn_length k ls). rewrite E in Q. cbn in Q. lia. }
    rewrite off_end by auto. destruct fuel; cbn [mm_run]; now rewrite Nat.eqb_refl.
  - inversion F as [|l ? ls' ? Hl F' E1 E2]; subst. assert (K : nth_error ls k = Some l).
    { rewrite <- (firstn_skipn k ls), <- E1. rewrite nth_error_app2; rewrite firstn_length_le by lia; [|lia]. now rewrite Nat.sub_diag. }
    assert (KL : (k < List.length ls)%nat) by (apply nth_error_Some; congruence).
    assert (SK := skipn_cons ls k K). rewrite <- E1 in SK. assert (SK2 : skipn (S k) ls = ls') by congruence.
    destruct fuel as [|fuel]; [cbn in LF; lia|]. cbn [mm_run].
    assert (OL : (off hdr ls k < List.length (hdr ++ unlines ls))%nat) by (rewrite <- (off_end hdr ls (k := List.length ls)) by lia; apply off_lt; lia).
    destruct (Nat.eqb_spec (off hdr ls k) (List.length (hdr ++ unlines ls))); [lia|].
    rewrite deref_text_eq by lia. rewrite skipn_off. rewrite <- E1, (@deref_pair l p ls' xs Hl F'). cbn [bind].
    rewrite next_off by auto. cbn [bind]. rewrite (IH (S k) fuel); [destruct p; reflexivity| |cbn in LF; lia|lia]. now rewrite SK2.
Qed.
(** A file of pairs read with an integer attribute: get<int> runs on to the next line, so the value of every edge is the number of the
    vertex the next line starts with, and that of the last is 0. *)
Theorem C64_values_of_a_pattern fuel ban tc cs sl n m nnz rest ls xs apx :
  banner_of ban tc -> (List.length ban < LINE)%nat -> tc_crd tc = "C" -> Forall comment_ok cs ->
  sizes_of sl n m (Z.of_nat nnz) rest -> (List.length sl < LINE)%nat -> Forall2 pair_line ls xs -> (0 < nnz)%nat ->
  exists f, mm_open fuel (head_text ban cs ++ sl ++ NL :: unlines ls) = Ok (Some f) /\ mm_edges apx true f 0 nnz = Ok (shifted xs).
Proof.
  intros B LB C F SZ LS L P. eexists. split; [apply (@open_ok fuel ban tc cs sl n m (Z.of_nat nnz) rest (unlines ls)); auto|].
  unfold mm_edges, mm_at. cbn [Nat.eqb mf_nnz mf_i mf_base bind]. destruct (Nat.eqb_spec nnz 0); [lia|]. rewrite Z.eqb_refl. cbn [bind]. unfold mf_e. cbn [mf_base].
  assert (NN : Forall no_nl ls) by (clear - L; induction L; constructor; auto; eapply pair_no_nl; eauto).
  assert (R := @run_pairs (head_text ban cs ++ sl ++ [NL]) ls NN xs 0 (S (List.length (head_text ban cs ++ sl ++ NL :: unlines ls))) L).
  rewrite off_0 in R. rewrite <- !app_assoc in R. cbn [app] in R.
  match goal with |- mm_run _ _ _ ?i _ = _ => replace i with (List.length (head_text ban cs ++ sl ++ [NL])) by (rewrite !app_length; cbn; lia) end.
  apply R; [|lia]. rewrite <- (F2_len L). assert (Q := unlines_len ls). rewrite !app_length. cbn [List.length]. lia.
Qed.

(** ** Non-vacuity *)
Local Open Scope string_scope.
Definition p_head : text := txt "%%MatrixMarket matrix coordinate Pattern SYMMETRIC".
Definition p_file : text := p_head ++ NL :: txt "4 4 3" ++ NL :: txt "2 1" ++ NL :: txt "3 1" ++ NL :: txt "4 3" ++ [NL].
Example C64_flags_ex : exists f, mm_open 9 p_file = Ok (Some f) /\ mm_is_pattern f = true /\ mm_is_symmetric f = true /\
  mm_edges apx_exact true f 0 3 = Ok [(1, 0, [3]); (2, 0, [4]); (3, 2, [0])] /\ mm_edges apx_exact false f 0 3 = Ok [(1, 0, []); (2, 0, []); (3, 2, [])].
Proof. eexists. repeat split; vm_compute; reflexivity. Qed.
Example C64_flags_ex_skew : exists f, mm_open 9 (txt "%%MatrixMarket matrix coordinate integer skew-symmetric" ++ NL :: txt "1 1 0" ++ [NL]) = Ok (Some f) /\
  mm_is_pattern f = false /\ mm_is_symmetric f = false.
Proof. eexists. repeat split; vm_compute; reflexivity. Qed.
Example C64_pair_ex : Forall2 pair_line [txt "2 1"; txt "3 1 "] [(2, 1); (3, 1)] /\ shifted [(2, 1); (3, 1)] = [(1, 0, [3]); (2, 0, [0])].
Proof.
  assert (B : gap (txt " ")) by (repeat constructor; discriminate).
  split; [|reflexivity]. constructor; [exists [], (txt " "), []|constructor; [exists [], (txt " "), (txt " ")|constructor]];
    (split; [reflexivity|]); repeat split; auto; try discriminate; try constructor; unfold int_ok, INT_MIN, INT_MAX; cbn [fst snd]; lia.
Qed.
Print Assumptions C64_flags.
Print Assumptions C64_values_of_a_pattern.
