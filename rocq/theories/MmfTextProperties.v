(** C64 and C17, the texts themselves: the words of a banner in any mix of capital and small letters, the range of the sizes in
    figures, and the text at the head of a serialized edge list. *)
From Coq Require Import Ascii String.
From Coq Require Import List Arith ZArith Bool Lia.
From Verif Require Import Base MmModel MmProofs MmfModel MmfProofs MmfProperties SerialModel.
Import ListNotations.
Local Open Scope char_scope.
Local Open Scope Z_scope.
Local Open Scope list_scope.

(** Two words are the same up to case. *)
Definition capitals : text := txt "ABCDEFGHIJKLMNOPQRSTUVWXYZ".
Definition smalls : text := txt "abcdefghijklmnopqrstuvwxyz".
Definition same_letter (c d : ascii) : Prop := c = d \/ exists i, nth_error capitals i = Some c /\ nth_error smalls i = Some d.
Definition spelled (w : text) (s : string) : Prop := Forall2 same_letter w (txt s).
Definition one_of (w : text) (a : ascii) (l : list (string * ascii)) : Prop := exists s, In (s, a) l /\ spelled w s.

Definition plain (d : ascii) : bool := existsb (Ascii.eqb d) (smalls ++ ["-"]).
Lemma lower_letter c : same_letter c (tolower c).
Proof.
  assert (H : forall n, (n < 256)%nat -> (fun c => existsb (fun i => match nth_error capitals i, nth_error smalls i with Some x, Some y => Ascii.eqb c x && Ascii.eqb (tolower c) y | _, _ => false end) (seq 0 26) || Ascii.eqb c (tolower c)) (ascii_of_nat n) = true).
  { assert (B : forallb (fun n => (fun c => existsb (fun i => match nth_error capitals i, nth_error smalls i with Some x, Some y => Ascii.eqb c x && Ascii.eqb (tolower c) y | _, _ => false end) (seq 0 26) || Ascii.eqb c (tolower c)) (ascii_of_nat n)) (seq 0 256) = true) by (vm_compute; reflexivity).
    intros n L. rewrite forallb_forall in B. apply B. apply in_seq. lia. }
  specialize (H (nat_of_ascii c) (nat_ascii_bounded c)). rewrite ascii_nat_embedding in H. cbn beta in H. apply orb_true_iff in H as [H|H].
  - apply existsb_exists in H as (i & _ & H). destruct (nth_error capitals i) eqn:E1; [|discriminate]. destruct (nth_error smalls i) eqn:E2; [|discriminate].
    apply andb_true_iff in H as [H1 H2]. apply Ascii.eqb_eq in H1, H2. right. exists i. now rewrite E1, E2, <- H1, <- H2.
  - apply Ascii.eqb_eq in H. now left.
Qed.
Lemma letter_lower c d : plain d = true -> same_letter c d -> tolower c = d.
Proof.
  intros P [->|(i & H1 & H2)].
  - apply existsb_exists in P as (x & I & E). apply Ascii.eqb_eq in E. subst x. cbn in I.
    repeat (destruct I as [<-|I]; [reflexivity|]). contradiction.
  - do 26 (destruct i as [|i]; [cbn in H1, H2; injection H1 as <-; injection H2 as <-; reflexivity|]). destruct i; discriminate.
Qed.
Lemma spelled_lower w s : forallb plain (txt s) = true -> (spelled w s <-> map tolower w = txt s).
Proof.
  intros P. unfold spelled. split.
  - intros H. revert P. induction H as [|c d w t H _ IH]; intros P; cbn in *; auto. apply andb_true_iff in P as [P1 P2]. rewrite IH, (@letter_lower c d) by auto. reflexivity.
  - intros <-. clear P. induction w as [|c w IH]; cbn; constructor; auto. apply lower_letter.
Qed.
Definition crds : list (string * ascii) := [("coordinate"%string, "C"); ("array"%string, "A")].
Definition datas : list (string * ascii) := [("real"%string, "R"); ("complex"%string, "C"); ("pattern"%string, "P"); ("integer"%string, "I")].
Definition syms : list (string * ascii) := [("general"%string, "G"); ("symmetric"%string, "S"); ("hermitian"%string, "H"); ("skew-symmetric"%string, "K")].
Lemma one_of_codes w a (l : list (string * ascii)) : forallb (fun p => forallb plain (txt (fst p))) l = true ->
  (one_of w a l <-> In (map tolower w, a) (map (fun p => (txt (fst p), snd p)) l)).
Proof.
  intros P. rewrite forallb_forall in P. unfold one_of. split.
  - intros (s & I & H). apply (spelled_lower w s) in H; [|now apply (P (s, a))]. rewrite H. apply in_map_iff. exists (s, a). auto.
  - intros I. apply in_map_iff in I as ([s b] & E & I). cbn [fst snd] in E. injection E as E ->. exists s. split; auto. apply spelled_lower; [now apply (P (s, a))|auto].
Qed.

(** A banner of five words that fit the buffers is accepted exactly when its second word is "matrix" and the other three are
    among the words listed, each in any mix of capital and small letters; the type code says which. *)
Theorem C64_any_case w0 g1 w1 g2 w2 g3 w3 g4 w4 tail rest tc :
  Forall word [w0; w1; w2; w3; w4] -> Forall (fun w => (List.length w < TOKEN)%nat) [w0; w1; w2; w3; w4] ->
  Forall (fun g => gap g /\ g <> []) [g1; g2; g3; g4] -> firstn 14 w0 = txt "%%MatrixMarket" ->
  no_nl tail -> (tail = [] \/ exists x r, tail = x :: r /\ is_space x = true) ->
  let line := w0 ++ g1 ++ w1 ++ g2 ++ w2 ++ g3 ++ w3 ++ g4 ++ w4 ++ tail in
  (List.length line < LINE)%nat ->
  (mm_read_banner (line ++ NL :: rest) = Ok (Some (tc, rest)) <->
   spelled w1 "matrix" /\ one_of w2 (tc_crd tc) crds /\ one_of w3 (tc_data tc) datas /\ one_of w4 (tc_sym tc) syms).
Proof.
  intros W LW G M T TS line LL. rewrite spelled_lower, !one_of_codes by reflexivity. split.
  - intros E.
    assert (NL1 : no_nl line).
    { unfold line. assert (WN : forall w, word w -> no_nl w). { intros w [_ F]. eapply Forall_impl; [|exact F]. intros c Hc ->. discriminate. }
      inversion W as [|? ? A0 W']; subst. inversion W' as [|? ? A1 W2]; subst. inversion W2 as [|? ? A2 W3]; subst. inversion W3 as [|? ? A3 W4]; subst. inversion W4 as [|? ? A4 _]; subst.
      inversion G as [|? ? [B1 _] G']; subst. inversion G' as [|? ? [B2 _] G2']; subst. inversion G2' as [|? ? [B3 _] G3']; subst. inversion G3' as [|? ? [B4 _] _]; subst.
      repeat (apply Forall_app; split); auto using gap_no_nl; try (now apply WN); try (now apply gap_no_nl). }
    unfold mm_read_banner in E. destruct (line ++ NL :: rest) as [|c0 t0] eqn:EL; [destruct line; discriminate|]. rewrite <- EL in E. clear c0 t0 EL.
    rewrite fgets_app in E by auto.
    assert (WD : words 5 (line ++ [NL]) = [w0; w1; w2; w3; w4]).
    { inversion W as [|? ? A0 W']; subst. inversion W' as [|? ? A1 W2]; subst. inversion W2 as [|? ? A2 W3]; subst. inversion W3 as [|? ? A3 W4]; subst. inversion W4 as [|? ? A4 _]; subst.
      inversion G as [|? ? [B1 C1] G']; subst. inversion G' as [|? ? [B2 C2] G2']; subst. inversion G2' as [|? ? [B3 C3] G3']; subst. inversion G3' as [|? ? [B4 C4] _]; subst.
      unfold line. rewrite <- !app_assoc. change (w0 ++ ?x) with ([] ++ w0 ++ x).
      rewrite words_step; [|constructor|auto|now apply gap_space]. rewrite words_step; [|auto|auto|now apply gap_space].
      rewrite words_step; [|auto|auto|now apply gap_space]. rewrite words_step; [|auto|auto|now apply gap_space].
      rewrite words_step; auto. right. destruct TS as [->|(x & r & -> & Hx)]; cbn [app]; eauto. }
    rewrite WD in E. replace (existsb (fun w => (TOKEN <=? List.length w)%nat) [w0; w1; w2; w3; w4]) with false in E.
    2:{ symmetry. rewrite <- not_true_iff_false. intros X. apply existsb_exists in X as (w & I & X). rewrite Forall_forall in LW. specialize (LW w I). apply Nat.leb_le in X. lia. }
    replace (existsb (fun w => (List.length w =? 0)%nat) [w0; w1; w2; w3; w4]) with false in E.
    2:{ symmetry. rewrite <- not_true_iff_false. intros X. apply existsb_exists in X as (w & I & X). rewrite Forall_forall in W. destruct (W w I) as [N _]. apply Nat.eqb_eq in X. destruct w; [auto|discriminate]. }
    rewrite M in E. change (negb (text_eqb (txt "%%MatrixMarket") (txt "%%MatrixMarket"))) with false in E. cbn iota in E.
    destruct (text_eqb (map tolower w1) (txt "matrix")) eqn:E1; cbn [negb] in E; [|discriminate]. apply text_eqb_eq in E1.
    destruct (code2 (map tolower w2)) as [a|] eqn:E2; [|discriminate]. destruct (code3 (map tolower w3)) as [b|] eqn:E3; [|discriminate].
    destruct (code4 (map tolower w4)) as [c|] eqn:E4; [|discriminate]. injection E as <-. cbn [tc_crd tc_data tc_sym].
    split; auto. unfold code2, code3, code4 in *.
    repeat match goal with
    | H : (if text_eqb ?x ?y then _ else _) = Some _ |- _ => let K := fresh in destruct (text_eqb x y) eqn:K; [apply text_eqb_eq in K; injection H as <-|]
    | H : None = Some _ |- _ => discriminate
    end; repeat match goal with K : map tolower _ = _ |- _ => rewrite K; clear K end; cbn; auto 12.
  - intros (E1 & E2 & E3 & E4). destruct tc as [a b c]. cbn [tc_crd tc_data tc_sym] in *. eapply banner_ok; [|exact LL].
    inversion LW; subst. econstructor; eauto.
Qed.
Example C64_any_case_ex :
  let line := txt "%%MatrixMarket MATRIX Coordinate pAtTeRn Skew-SYMMETRIC" in
  mm_read_banner (line ++ NL :: txt "1 1 0") = Ok (Some ({| tc_crd := "C"; tc_data := "P"; tc_sym := "K" |}, txt "1 1 0")) /\
  spelled (txt "pAtTeRn") "pattern" /\ ~ spelled (txt "p@ttern") "pattern" /\ mm_read_banner (txt "%%MatrixMarket matrix coordinate p@ttern general" ++ [NL]) = Ok None.
Proof.
  cbv zeta. repeat split; try (vm_compute; reflexivity).
  - apply spelled_lower; reflexivity.
  - intros H. apply spelled_lower in H; [discriminate H|reflexivity].
Qed.

(** The sizes: any of them outside the range of a 32-bit int is undefined behaviour; otherwise, but for the least int, they are
    read as they are written. *)
Theorem C64_int_range fuel ban tc cs g0 n g1 m g2 nnz rest body :
  banner_of ban tc -> (List.length ban < LINE)%nat -> tc_crd tc = "C" -> Forall comment_ok cs ->
  gap g0 -> gap g1 -> g1 <> [] -> gap g2 -> g2 <> [] -> starts_digit rest = false -> no_nl rest ->
  let sl := g0 ++ print_int n ++ g1 ++ print_int m ++ g2 ++ print_int nnz ++ rest in
  (List.length sl < LINE)%nat ->
  ((exists z, In z [n; m; nnz] /\ (z < -2147483648 \/ 2147483647 < z)) -> mm_open fuel (head_text ban cs ++ sl ++ NL :: body) = Ub) /\
  ((forall z, In z [n; m; nnz] -> -2147483647 <= z <= 2147483647) ->
   exists f, mm_open fuel (head_text ban cs ++ sl ++ NL :: body) = Ok (Some f) /\ mf_n f = n /\ mf_m f = m /\ mf_nnz f = nnz).
Proof.
  intros B LB C F G0 G1 N1 G2 N2 R Rn sl LS. split.
  - intros (z & I & Hz). apply (@C64_sizes_overflow fuel ban tc); auto. unfold INT_MIN, INT_MAX. intros (X & Y & Z).
    cbn in I. destruct I as [<-|[<-|[<-|[]]]]; lia.
  - intros H. eexists. split; [apply (@open_ok fuel ban tc cs sl n m nnz rest body); auto|cbn; auto].
    unfold sl. constructor; auto; (split; [unfold INT_MIN|unfold INT_MAX]); match goal with |- context [?z] => idtac end;
      [specialize (H n)|specialize (H n)|specialize (H m)|specialize (H m)|specialize (H nnz)|specialize (H nnz)]; cbn in H; lia.
Qed.
Example C64_int_range_ex :
  let file n := txt "%%MatrixMarket matrix coordinate pattern general" ++ NL :: txt n ++ NL :: txt "1 1" ++ [NL] in
  mm_open 5 (file "-5 2147483647 1"%string) <> Ub /\ mm_open 5 (file "5 2147483648 1"%string) = Ub.
Proof. split; [vm_compute; discriminate|vm_compute; reflexivity]. Qed.

(** A serialized edge list starts with the 24 characters of its name and three zero bytes; the directedness is at offset 27. *)
Theorem C17_magic x : firstn 24 (ser_el x) = map nat_of_ascii (txt "NW Graph index_edge_list") /\
  firstn 3 (skipn 24 (ser_el x)) = [0; 0; 0]%nat /\ firstn 4 (skipn 27 (ser_el x)) = le_bytes 4 (s_dir x).
Proof.
  split; [reflexivity|]. split; [reflexivity|]. unfold ser_el. change (skipn 27 (magic ++ ?y)) with y. 
  cbn [le_bytes app firstn]. reflexivity.
Qed.
Example C17_magic_ex : firstn 31 (ser_el {| s_dir := 1; s_cards := [5]%nat; s_open := false; s_cols := [] |}) =
  map nat_of_ascii (txt "NW Graph index_edge_list") ++ [0; 0; 0; 1; 0; 0; 0]%nat.
Proof. reflexivity. Qed.
(** The cardinalities follow as 8 bytes each, then a byte that is 1 if the list is open and 0 if not. *)
Theorem C17_open_flag x : skipn 31 (ser_el x) = concat (map (le_bytes 8) (s_cards x)) ++ (if s_open x then 1 else 0)%nat :: ser_soa (s_cols x).
Proof. unfold ser_el. change (skipn 31 (magic ++ le_bytes 4 (s_dir x) ++ ?y)) with y. reflexivity. Qed.
Example C17_open_flag_ex : (nth 39 (ser_el {| s_dir := 1; s_cards := [5]%nat; s_open := true; s_cols := [] |}) 7%nat = 1%nat) /\
  (nth 39 (ser_el {| s_dir := 1; s_cards := [5]%nat; s_open := false; s_cols := [] |}) 7%nat = 0%nat).
Proof. split; reflexivity. Qed.
Print Assumptions C17_open_flag.
(** A serialized CSR starts with the 33 characters of its name and a zero byte; the number of rows is at offset 34. *)
Theorem C17_csr_magic isz x bytes : ser_csr isz x = Ok bytes ->
  firstn 33 bytes = map nat_of_ascii (txt "NW GRAPH indexed_struct_of_arrays") /\ nth 33 bytes 1%nat = 0%nat /\ firstn 8 (skipn 34 bytes) = le_bytes 8 (sc_N x).
Proof.
  unfold ser_csr. destruct (size_bytes <=? isz)%nat; [|discriminate]. intros [= <-]. split; [reflexivity|]. split; [reflexivity|].
  change (skipn 34 (csr_magic ++ ?y)) with y. unfold size_bytes. cbn [le_bytes app firstn]. reflexivity.
Qed.
Example C17_csr_magic_ex : exists bytes, ser_csr 8 {| sc_N := 2%nat; sc_ind := mkCol 8 [[1; 0; 0; 0; 0; 0; 0; 0]%nat]; sc_cols := [] |} = Ok bytes /\ length bytes = 82%nat.
Proof. eexists. split; [vm_compute; reflexivity|reflexivity]. Qed.
Print Assumptions C17_csr_magic.
Print Assumptions C64_any_case.
Print Assumptions C64_int_range.
Print Assumptions C17_magic.
