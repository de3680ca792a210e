(** C64: a Matrix Market file read in pieces through MatrixMarketFile. *)
From Coq Require Import Ascii String.
From Coq Require Import List Arith ZArith Bool Lia.
From Verif Require Import Base MmModel MmProofs MmfModel MmfProofs.
Import ListNotations.
Local Open Scope char_scope.
Local Open Scope Z_scope.
Local Open Scope list_scope.

(** The pieces [0, j1), [j1, j2), ..., [jk, nnz) give the lines of the file, each once and in order, however the double
    arithmetic rounds as long as it is monotone and stays in the body. *)
Theorem C64_pieces fuel ban tc cs sl n m nnz rest ls attr xs apx js :
  banner_of ban tc -> (List.length ban < LINE)%nat -> tc_crd tc = "C" -> Forall comment_ok cs ->
  sizes_of sl n m (Z.of_nat nnz) rest -> (List.length sl < LINE)%nat -> Forall2 (line_of attr) ls xs ->
  let t := head_text ban cs ++ sl ++ NL :: unlines ls in
  exists f, mm_open fuel t = Ok (Some f) /\ mf_type f = tc /\ mf_n f = n /\ mf_m f = m /\ mf_nnz f = Z.of_nat nnz /\
    (good_apx apx nnz (mf_i f) (mf_e f) -> (0 < nnz)%nat -> bounds nnz 0 js ->
     exists parts, rmap (fun p => mm_edges apx attr f (fst p) (snd p)) (combine (0%nat :: js) js) = Ok parts /\ concat parts = xs).
Proof.
  intros B LB C F S LS L t. eexists. split; [apply (@open_ok fuel ban tc cs sl n m (Z.of_nat nnz) rest (unlines ls)); auto|].
  cbn [mf_type mf_n mf_m mf_nnz]. do 4 (split; [reflexivity|]). intros G P Bd.
  assert (L' : Forall2 (body_line attr) ls (map Some xs)) by (clear -L; induction L; constructor; auto).
  match type of G with good_apx _ _ (mf_i ?f) _ => set (f0 := f) in * end.
  assert (FI : file_is f0 (head_text ban cs ++ sl ++ [NL]) ls nnz).
  { split; cbn; auto; [now rewrite <- !app_assoc|]. rewrite !app_length. cbn. lia. }
  destruct (@pieces_ok apx f0 _ ls nnz FI (body_no_nl L') G attr _ L' P 0 js Bd 0%nat ltac:(lia) ltac:(eapply at_0; exact FI)) as (parts & E & Q).
  exists parts. split; auto. rewrite Q. cbn [skipn]. apply reading_some.
Qed.

(** Blank lines of the body are read as the next line that is not blank, which is read again afterwards. *)
Theorem C64_blank fuel ban tc cs sl n m nnz rest ls attr os apx js :
  banner_of ban tc -> (List.length ban < LINE)%nat -> tc_crd tc = "C" -> Forall comment_ok cs ->
  sizes_of sl n m (Z.of_nat nnz) rest -> (List.length sl < LINE)%nat -> Forall2 (body_line attr) ls os ->
  exists f, mm_open fuel (head_text ban cs ++ sl ++ NL :: unlines ls) = Ok (Some f) /\
    (good_apx apx nnz (mf_i f) (mf_e f) -> (0 < nnz)%nat -> bounds nnz 0 js ->
     exists parts, rmap (fun p => mm_edges apx attr f (fst p) (snd p)) (combine (0%nat :: js) js) = Ok parts /\ concat parts = reading attr os).
Proof.
  intros B LB C F S LS L. eexists. split; [apply (@open_ok fuel ban tc cs sl n m (Z.of_nat nnz) rest (unlines ls)); auto|].
  intros G P Bd. match type of G with good_apx _ _ (mf_i ?f) _ => set (f0 := f) in * end.
  assert (FI : file_is f0 (head_text ban cs ++ sl ++ [NL]) ls nnz).
  { split; cbn; auto; [now rewrite <- !app_assoc|]. rewrite !app_length. cbn. lia. }
  destruct (@pieces_ok apx f0 _ ls nnz FI (body_no_nl L) G attr _ L P 0 js Bd 0%nat ltac:(lia) ltac:(eapply at_0; exact FI)) as (parts & E & Q).
  exists parts. auto.
Qed.

(** After a blank or unreadable line, or the rest of a comment that did not fit into the buffer, the sizes are still
    found, but the first line of the body is read twice. *)
Theorem C64_first_twice fuel ban tc cs s sl n m nnz rest l ls attr x xs apx js :
  (0 < fuel)%nat -> banner_of ban tc -> (List.length ban < LINE)%nat -> tc_crd tc = "C" -> Forall comment_ok cs -> spoil s ->
  sizes_of sl n m (Z.of_nat nnz) rest -> gap rest -> line_of attr l x -> Forall2 (line_of attr) ls xs ->
  exists f, mm_open fuel (head_text ban cs ++ s ++ NL :: sl ++ NL :: unlines (l :: ls)) = Ok (Some f) /\
    mf_n f = n /\ mf_m f = m /\ mf_nnz f = Z.of_nat nnz /\
    (good_apx apx nnz (mf_i f) (mf_e f) -> (0 < nnz)%nat -> bounds nnz 0 js ->
     exists parts, rmap (fun p => mm_edges apx attr f (fst p) (snd p)) (combine (0%nat :: js) js) = Ok parts /\ concat parts = x :: x :: xs).
Proof.
  intros HF B LB C F S Z G Hl L. destruct fuel as [|fuel]; [lia|].
  eexists. split. { rewrite (@spoil_open (Datatypes.S fuel) ban tc cs s) by auto. cbn [mm_scan_sizes]. rewrite (sizes_scan _ Z). reflexivity. }
  cbn [mf_n mf_m mf_nnz]. do 3 (split; [reflexivity|]). intros GA P Bd.
  match type of GA with good_apx _ _ (mf_i ?f) _ => set (f0 := f) in * end.
  assert (E0 : exists pre, sl = pre ++ rest) by (destruct Z; eexists; now rewrite !app_assoc). destruct E0 as (pre & Esl).
  assert (FI : file_is f0 (head_text ban cs ++ s ++ NL :: pre) (rest :: l :: ls) nnz).
  { split; cbn [mf_base mf_i mf_nnz f0]; auto.
    - rewrite Esl. unfold unlines. cbn [map concat]. repeat (rewrite <- app_assoc || cbn [app]). reflexivity.
    - rewrite Esl. repeat (rewrite app_length || cbn [List.length]). lia.
    - rewrite !app_length. cbn. lia. }
  assert (L' : Forall2 (body_line attr) (rest :: l :: ls) (None :: map Some (x :: xs))).
  { constructor; [exact G|]. constructor; [exact Hl|]. clear -L. induction L; constructor; auto. }
  destruct (@pieces_ok apx f0 _ _ nnz FI (body_no_nl L') GA attr _ L' P 0 js Bd 0%nat ltac:(lia) ltac:(eapply at_0; exact FI)) as (parts & E & Q).
  exists parts. split; auto. rewrite Q. cbn [skipn map reading next_entry]. f_equal. f_equal. apply reading_some.
Qed.

(** If no number comes next either, e.g. after a second comment, opening the file does not end. *)
Theorem C64_endless fuel ban tc cs s ws c r :
  banner_of ban tc -> (List.length ban < LINE)%nat -> tc_crd tc = "C" -> Forall comment_ok cs -> spoil s ->
  Forall (fun c => is_space c = true) ws -> is_space c = false -> is_digit c = false -> c <> "-" -> c <> "+" ->
  mm_open fuel (head_text ban cs ++ s ++ NL :: ws ++ c :: r) = OutOfFuel.
Proof. intros. rewrite (@spoil_open fuel ban tc cs s) by auto. now rewrite scan_stuck. Qed.

(** Sizes that do not fit in an int: undefined behaviour of sscanf. *)
Lemma scan_big g z t : gap g -> ~ INT_MIN <= z <= INT_MAX -> ends t -> scan_d (g ++ print_int z ++ t) = Ub.
Proof.
  intros G O E. unfold scan_d. rewrite skip_gap by auto. rewrite print_int_head.
  destruct (print_int z ++ t) eqn:Q.
  { destruct (print_int z) eqn:P; [now apply print_int_nonempty in P|discriminate]. }
  rewrite <- Q. destruct (read_print_int z E) as (neg & t1 & v & R & Sd & D & V). rewrite R, Sd, D, <- V.
  destruct (Z.leb_spec INT_MIN z); destruct (Z.leb_spec z INT_MAX); cbn [andb]; auto. lia.
Qed.
Theorem C64_sizes_overflow fuel ban tc cs g0 n g1 m g2 nnz rest body :
  banner_of ban tc -> (List.length ban < LINE)%nat -> tc_crd tc = "C" -> Forall comment_ok cs ->
  gap g0 -> gap g1 -> g1 <> [] -> gap g2 -> g2 <> [] -> starts_digit rest = false -> no_nl rest ->
  let sl := g0 ++ print_int n ++ g1 ++ print_int m ++ g2 ++ print_int nnz ++ rest in
  (List.length sl < LINE)%nat -> ~ (INT_MIN <= n <= INT_MAX /\ INT_MIN <= m <= INT_MAX /\ INT_MIN <= nnz <= INT_MAX) ->
  mm_open fuel (head_text ban cs ++ sl ++ NL :: body) = Ub.
Proof.
  intros B LB C F G0 G1 N1 G2 N2 R Rn sl LS O.
  assert (P : forall z, no_nl (print_int z)) by (intros z; eapply Forall_impl; [|apply print_no_nl]; intros c; apply eqb_nl).
  assert (NN : no_nl sl) by (unfold sl; repeat (apply Forall_app; split); auto; try apply P; now apply gap_no_nl).
  assert (NP : not_pct sl).
  { unfold sl. destruct g0 as [|c g]; cbn [app].
    - unfold print_int. destruct (n <? 0) eqn:E; [cbn; discriminate|]. apply Z.ltb_ge in E. destruct (print_nat_head E) as (c & r & -> & D). cbn.
      intros ->. discriminate.
    - cbn. inversion G0 as [|? ? [Q _] _]; subst. intros ->. discriminate. }
  unfold mm_open, head_text. rewrite <- !app_assoc. cbn [app]. rewrite (banner_ok _ B LB). cbn [bind].
  rewrite C. change (negb (Ascii.eqb "C" "C")) with false. cbn iota. unfold mm_read_mtx_crd_size.
  rewrite comments_ok; auto.
  2: { rewrite app_length. assert (U := unlines_len (map (cons "%") cs)). rewrite map_length in U. lia. }
  cbn [bind]. assert (SI : forall g z t, gap g -> INT_MIN <= z <= INT_MAX -> ends t -> scan_d (g ++ print_int z ++ t) = Ok (ScanInt z t)).
  { intros g z t G Hz E. unfold scan_d. rewrite skip_gap by auto. rewrite print_int_head.
    destruct (print_int z ++ t) eqn:Q.
    { destruct (print_int z) eqn:P'; [now apply print_int_nonempty in P'|discriminate]. }
    rewrite <- Q. destruct (read_print_int z E) as (neg & t1 & v & R' & Sd & D & V). rewrite R', Sd, D, <- V.
    destruct (Z.leb_spec INT_MIN z); destruct (Z.leb_spec z INT_MAX); cbn [andb]; auto; lia. }
  unfold sl. repeat rewrite <- app_assoc. cbn [scan_ds].
  destruct (Z_le_dec INT_MIN n), (Z_le_dec n INT_MAX); try (rewrite scan_big by (auto using gap_ends; lia); reflexivity).
  rewrite SI by (auto using gap_ends; lia). cbn [bind].
  destruct (Z_le_dec INT_MIN m), (Z_le_dec m INT_MAX); try (rewrite scan_big by (auto using gap_ends; lia); reflexivity).
  rewrite SI by (auto using gap_ends; lia). cbn [bind].
  destruct (Z_le_dec INT_MIN nnz), (Z_le_dec nnz INT_MAX); try (rewrite scan_big by (auto using starts_app_nl; lia); reflexivity).
Qed.

(** A file whose last line lacks its newline cannot be read to the end. *)
Theorem C64_no_newline apx attr f t c r :
  mf_base f = t ++ [c] -> c <> NL -> (mf_i f < mf_e f)%nat -> (0 < mf_nnz f) -> mm_edges apx attr f 0 (Z.to_nat (mf_nnz f)) <> Ok r.
Proof.
  intros E Hc Hi Hn Q. unfold mm_edges in Q. unfold mm_at in Q. cbn [Nat.eqb] in Q. cbn [bind] in Q.
  destruct (Z.to_nat (mf_nnz f) =? 0)%nat eqn:Z; [apply Nat.eqb_eq in Z; lia|]. rewrite Z2Nat.id, Z.eqb_refl in Q by lia. cbn [bind] in Q.
  unfold mf_e in *. rewrite E in *. eapply run_no_newline; [exact Hc|exact Hi|exact Q].
Qed.

(** Without rounding the approximation is as C64_pieces wants it. *)
Definition apx_exact (j nnz i e : nat) : nat := (j * (e - i) / nnz + i)%nat.
Theorem C64_exact nnz i e : (i < e)%nat -> good_apx apx_exact nnz i e.
Proof.
  intros H. unfold apx_exact. split.
  - intros j Hj. split; [lia|]. assert (j * (e - i) / nnz < e - i)%nat by (apply Nat.div_lt_upper_bound; nia). lia.
  - intros j k Hj Hk. apply Nat.add_le_mono_r. apply Nat.div_le_mono; [lia|]. apply Nat.mul_le_mono_r. lia.
Qed.

(** ** Non-vacuity *)
Definition ex_ban := txt "%%MatrixMarket matrix coordinate Integer symmetric".
Definition ex_tc := {| tc_crd := "C"; tc_data := "I"; tc_sym := "S" |}.
Transparent LINE.
Ltac chars := repeat (constructor; [first [discriminate | split; [reflexivity|discriminate] | reflexivity] | ]); try constructor.
Example ex_banner : banner_of ex_ban ex_tc /\ (List.length ex_ban < LINE)%nat.
Proof.
  split; [|apply Nat.ltb_lt; reflexivity].
  apply (@banner_intro (txt "%%MatrixMarket") [SP] (txt "matrix") [SP] (txt "coordinate") [SP] (txt "Integer") [SP] (txt "symmetric") [] "C" "I" "S");
    try reflexivity; try (now left).
  - repeat (constructor; [split; [discriminate|chars]|]). constructor.
  - repeat (constructor; [split; [chars|discriminate]|]). constructor.
  - apply Nat.ltb_lt. reflexivity.
  - right; right; right; now left.
  - right; now left.
Qed.
Example ex_sizes : sizes_of (txt "5 5 3") 5 5 (Z.of_nat 3) [] /\ (List.length (txt "5 5 3") < LINE)%nat /\ gap [].
Proof.
  split; [|split; [apply Nat.ltb_lt; reflexivity|constructor]].
  apply (@sizes_intro [] 5 [SP] 5 [SP] 3 []); try discriminate; try reflexivity; try (unfold int_ok, INT_MIN, INT_MAX; lia); chars.
Qed.
Definition ex_lines := [txt "1 2 10"; txt " 5 3  -7"; txt "4 4 0 x"].
Example ex_lines_of : Forall2 (line_of true) ex_lines [(0, 1, [10]); (4, 2, [-7]); (3, 3, [0])].
Proof.
  repeat constructor.
  - apply (@line_val [] [SP] [SP] 1 2 10 []); try discriminate; try reflexivity; try (unfold int_ok, INT_MIN, INT_MAX; lia); chars.
  - apply (@line_val [SP] [SP] [SP; SP] 5 3 (-7) []); try discriminate; try reflexivity; try (unfold int_ok, INT_MIN, INT_MAX; lia); chars.
  - apply (@line_val [] [SP] [SP] 4 4 0 (txt " x")); try discriminate; try reflexivity; try (unfold int_ok, INT_MIN, INT_MAX; lia); chars.
Qed.
Example ex_comment : Forall comment_ok [txt " made up"; []].
Proof. repeat (constructor; [split; [chars|apply Nat.ltb_lt; reflexivity]|]). constructor. Qed.
Example ex_bounds : bounds 3 0 [1%nat; 2%nat; 2%nat; 3%nat].
Proof. repeat (constructor; [lia|]). constructor. reflexivity. Qed.
Definition ex_text := head_text ex_ban [txt " made up"; []] ++ txt "5 5 3" ++ NL :: unlines ex_lines.
Example C64_ex_pieces :
  (do o <- mm_open 9 ex_text ; match o with Some f => rmap (fun p => mm_edges apx_exact true f (fst p) (snd p)) [(0, 1); (1, 2); (2, 3)]%nat | None => Ub end)
  = Ok [[(0, 1, [10])]; [(4, 2, [-7])]; [(3, 3, [0])]].
Proof. vm_compute. reflexivity. Qed.
(** a blank line before the sizes; a long comment *)
Example ex_spoil : spoil [] /\ spoil ("%" :: repeat "x" 1030).
Proof.
  split.
  - exists [], []. split; [reflexivity|]. split; [left; constructor|]. split; [exact I|]. split; [constructor|]. split; [apply Nat.ltb_lt; reflexivity|now left].
  - exists ("%" :: repeat "x" 1023), (repeat "x" 7).
    split; [change (repeat "x" 1030) with (repeat "x" (1023 + 7)); now rewrite repeat_app|]. split.
    { right. exists [], "x", (repeat "x" 6). repeat split; try discriminate. constructor. }
    split; [discriminate|]. split; [cbn; chars|]. split; [apply Nat.ltb_lt; reflexivity|]. right. exists (repeat "x" 1023). split; auto.
    split; [|apply Nat.eqb_eq; reflexivity]. apply Forall_forall. intros y Hy. apply repeat_spec in Hy. subst. discriminate.
Qed.
Example C64_ex_twice :
  (do o <- mm_open 9 (head_text ex_ban [] ++ [] ++ NL :: txt "5 5 3" ++ NL :: unlines ex_lines) ;
   match o with Some f => mm_edges apx_exact true f 0 3 | None => Ub end)
  = Ok [(0, 1, [10]); (0, 1, [10]); (4, 2, [-7]); (3, 3, [0])].
Proof. vm_compute. reflexivity. Qed.
Example C64_ex_overflow : mm_open 99 (head_text ex_ban [] ++ txt "2147483648 3 3" ++ NL :: unlines ex_lines) = Ub /\
  mm_open 99 (head_text ex_ban [] ++ txt "3 3 2147483648" ++ NL :: unlines ex_lines) = Ub /\
  mm_open 99 (head_text ex_ban [] ++ txt "3 3 2147483647" ++ NL :: unlines ex_lines) <> Ub.
Proof. vm_compute. repeat split; auto; discriminate. Qed.
Example C64_ex_endless : mm_open 99 (head_text ex_ban [] ++ [] ++ NL :: [] ++ "%" :: txt "x" ++ NL :: txt "5 5 3") = OutOfFuel.
Proof. vm_compute. reflexivity. Qed.
Print Assumptions C64_pieces.
Print Assumptions C64_blank.
Print Assumptions C64_first_twice.
Print Assumptions C64_endless.
Print Assumptions C64_sizes_overflow.
Print Assumptions C64_no_newline.
Print Assumptions C64_exact.
