(** C78: reading a list of vertices from a Matrix Market array file, the queries on the header, and load_graph. A file is
    described by its words, comment lines, sizes and entries ([line5], [comments], [entries] of MmvProofs put texts
    together). *)
From Coq Require Import List Arith ZArith Ascii String Bool Lia Znumtheory.
From Verif Require Import Base EdgeListModel MmModel MmProofs SerialModel SerialProofs SerialProperties MmvModel MmvProofs.
Import ListNotations.
Set Implicit Arguments.
Local Open Scope char_scope.
Local Open Scope Z_scope.

(** The fourth word is not "real": numbers are read as size_t. Any comments, any second size (without assertions), any
    blanks between the numbers and any text after them. *)
Theorem C78_integer W w1 w2 w3 w4 cs n1 lead es extra :
  (0 < W)%nat -> (Z.of_nat W | SZ) -> word w1 -> word w2 -> word w3 -> w3 <> txt "real" -> w4 = txt "symmetric" \/ w4 = txt "general" ->
  Forall no_nl cs -> 0 <= n1 < SZ -> blank lead -> Forall entry_ok es -> Z.of_nat (List.length es) < SZ ->
  read_mm_vector W false (vfile w1 w2 w3 w4 cs (Z.of_nat (List.length es)) n1 (lead ++ entries es ++ extra)) =
    Some (Ok (map (fun e => Z.to_nat ((fst e - 1) mod Z.of_nat W)) es)).
Proof.
  intros HW HD W1 W2 W3 NR SY FC H1 B FE HL. rewrite read_vfile; auto; [|destruct SY as [->| ->]; (split; [discriminate|repeat constructor])|lia]. cbn [andb].
  replace (text_eqb w3 (txt "real")) with false by (symmetry; apply not_true_is_false; rewrite text_eqb_eq; auto).
  rewrite Nat2Z.id. replace (List.length es) with (List.length es + 0)%nat by lia. rewrite vec_fill_app; auto; [|discriminate|].
  - assert (M : map (stored W false) es = map (fun e => Z.to_nat ((fst e - 1) mod Z.of_nat W)) es).
    { apply map_ext. intros e. unfold stored. apply to_id_mod; auto. }
    destruct es as [|e es]; auto. cbn [vec_fill]. rewrite app_nil_r, M. reflexivity.
  - eapply Forall_impl; [|exact FE]. intros e H. split; auto. discriminate.
Qed.

(** A vertex v is stored as v + 1, in files of any field type ("real" too, as long as the ids are exact doubles). *)
Theorem C78_vertices W debug w1 w2 w3 w4 cs n1 lead (vs : list (nat * list ascii)) extra :
  (0 < W)%nat -> (Z.of_nat W | SZ) -> Z.of_nat W <= 2 ^ 53 -> word w1 -> word w2 -> word w3 -> w4 = txt "symmetric" \/ w4 = txt "general" ->
  Forall no_nl cs -> 0 <= n1 < SZ -> (debug = true -> n1 = 1) -> blank lead ->
  Forall (fun v => (fst v < W)%nat /\ snd v <> [] /\ blank (snd v)) vs -> Z.of_nat (List.length vs) < SZ ->
  read_mm_vector W debug (vfile w1 w2 w3 w4 cs (Z.of_nat (List.length vs)) n1 (lead ++ entries (map (fun v => (Z.of_nat (fst v) + 1, snd v)) vs) ++ extra)) =
    Some (Ok (map fst vs)).
Proof.
  intros HW HD HP W1 W2 W3 SY FC H1 DB B FV HL. rewrite read_vfile; auto; [|destruct SY as [->| ->]; (split; [discriminate|repeat constructor])|lia].
  replace (debug && negb (n1 =? 1)) with false by (destruct debug; auto; rewrite DB; auto).
  set (es := map (fun v => (Z.of_nat (fst v) + 1, snd v)) vs). set (real := text_eqb w3 (txt "real")).
  assert (LE : List.length es = List.length vs) by (unfold es; apply map_length).
  rewrite Nat2Z.id. replace (List.length vs) with (List.length es + 0)%nat by lia. rewrite vec_fill_app; auto.
  - assert (M : map (stored W real) es = map fst vs).
    { unfold es. rewrite map_map. apply map_ext_in. intros v I. rewrite Forall_forall in FV. destruct (FV v I) as (L & _). unfold stored. cbn [fst].
      replace (Z.of_nat (fst v) + 1 - 1) with (Z.of_nat (fst v)) by lia. destruct real; [apply Nat2Z.id|].
      rewrite to_id_mod by auto. replace (Z.of_nat (fst v) + 1 - 1) with (Z.of_nat (fst v)) by lia. rewrite Z.mod_small by lia. apply Nat2Z.id. }
    destruct es as [|e es'] eqn:EE; [destruct vs; [auto|discriminate]|]. cbn [vec_fill]. rewrite app_nil_r, M. reflexivity.
  - unfold es. apply Forall_forall. intros e I. apply in_map_iff in I. destruct I as (v & <- & I). rewrite Forall_forall in FV. destruct (FV v I) as (L & N & Bv).
    assert (X : 2 ^ 53 < SZ) by reflexivity. split; [split; [cbn [fst]; lia|auto]|]. intros _. cbn [fst]. lia.
Qed.

(** The same when the last number ends the file. *)
Theorem C78_vertices_no_newline W debug w1 w2 w3 w4 cs n1 lead (vs : list (nat * list ascii)) v :
  (0 < W)%nat -> (Z.of_nat W | SZ) -> Z.of_nat W <= 2 ^ 53 -> word w1 -> word w2 -> word w3 -> w4 = txt "symmetric" \/ w4 = txt "general" ->
  Forall no_nl cs -> 0 <= n1 < SZ -> (debug = true -> n1 = 1) -> blank lead ->
  Forall (fun v => (fst v < W)%nat /\ snd v <> [] /\ blank (snd v)) vs -> (v < W)%nat -> Z.of_nat (List.length vs + 1) < SZ ->
  read_mm_vector W debug (vfile w1 w2 w3 w4 cs (Z.of_nat (List.length vs + 1)) n1
      (lead ++ entries (map (fun v => (Z.of_nat (fst v) + 1, snd v)) vs) ++ print_nat (Z.of_nat v + 1))) =
    Some (Ok (map fst vs ++ [v])).
Proof.
  intros HW HD HP W1 W2 W3 SY FC H1 DB B FV Lv HL. rewrite read_vfile; auto; [|destruct SY as [->| ->]; (split; [discriminate|repeat constructor])|lia].
  replace (debug && negb (n1 =? 1)) with false by (destruct debug; auto; rewrite DB; auto).
  set (es := map (fun v => (Z.of_nat (fst v) + 1, snd v)) vs). set (real := text_eqb w3 (txt "real")).
  assert (LE : List.length es = List.length vs) by (unfold es; apply map_length). assert (X : 2 ^ 53 < SZ) by reflexivity.
  assert (ST : forall (a : nat) sp, (a < W)%nat -> stored W real (Z.of_nat a + 1, sp) = a).
  { intros a sp L. unfold stored. cbn [fst]. replace (Z.of_nat a + 1 - 1) with (Z.of_nat a) by lia. destruct real; [apply Nat2Z.id|].
    rewrite to_id_mod by auto. replace (Z.of_nat a + 1 - 1) with (Z.of_nat a) by lia. rewrite Z.mod_small by lia. apply Nat2Z.id. }
  assert (FS : Forall (storable W real) es).
  { unfold es. apply Forall_forall. intros e I. apply in_map_iff in I. destruct I as (a & <- & I). rewrite Forall_forall in FV. destruct (FV a I) as (L & N & Bv).
    split; [split; [cbn [fst]; lia|auto]|]. intros _. cbn [fst]. lia. }
  rewrite Nat2Z.id, <- LE. rewrite vec_fill_app; auto. destruct es as [|e es'] eqn:EE.
  - rewrite vec_fill_one by (auto; lia). rewrite ST by auto. destruct vs; [reflexivity|discriminate].
  - assert (BL : blank (snd (last (e :: es') (0, [])))).
    { assert (I : In (last (e :: es') (0, [])) (e :: es')) by (clear; revert e; induction es' as [|x l IH]; intros e; [now left|right; apply IH]). rewrite Forall_forall in FS. apply FS in I. apply I. }
    rewrite vec_fill_one by (auto; lia). rewrite ST by auto. do 3 f_equal. rewrite <- EE. unfold es. rewrite map_map. rewrite <- (map_id (map fst vs)), map_map. apply map_ext_in. intros a I. rewrite Forall_forall in FV. apply ST. now apply FV.
Qed.

(** With assertions compiled in, a second size other than 1 stops the program. *)
Theorem C78_assert W w1 w2 w3 w4 cs n0 n1 body :
  word w1 -> word w2 -> word w3 -> w4 = txt "symmetric" \/ w4 = txt "general" -> Forall no_nl cs -> 0 <= n0 < SZ -> 0 <= n1 < SZ -> n1 <> 1 ->
  read_mm_vector W true (vfile w1 w2 w3 w4 cs n0 n1 body) = Some Ub.
Proof.
  intros W1 W2 W3 SY FC H0 H1 N. rewrite read_vfile; auto; [|destruct SY as [->| ->]; (split; [discriminate|repeat constructor])].
  replace (n1 =? 1) with false by (symmetry; apply Z.eqb_neq; auto). reflexivity.
Qed.

(** Fewer entries than announced: the last number is repeated for the rest; without any entry an uninitialised variable
    is used. *)
Theorem C78_truncated W w1 w2 w3 w4 cs n1 lead (vs : list (nat * list ascii)) k :
  (0 < W)%nat -> (Z.of_nat W | SZ) -> Z.of_nat W <= 2 ^ 53 -> word w1 -> word w2 -> word w3 -> w4 = txt "symmetric" \/ w4 = txt "general" ->
  Forall no_nl cs -> 0 <= n1 < SZ -> blank lead -> Forall (fun v => (fst v < W)%nat /\ snd v <> [] /\ blank (snd v)) vs ->
  Z.of_nat (List.length vs + S k) < SZ ->
  read_mm_vector W false (vfile w1 w2 w3 w4 cs (Z.of_nat (List.length vs + S k)) n1 (lead ++ entries (map (fun v => (Z.of_nat (fst v) + 1, snd v)) vs))) =
    match vs with
    | [] => Some Ub
    | v0 :: _ => Some (Ok (map fst vs ++ repeat (last (map fst vs) 0%nat) (S k)))
    end.
Proof.
  intros HW HD HP W1 W2 W3 SY FC H1 B FV HL. rewrite read_vfile; auto; [|destruct SY as [->| ->]; (split; [discriminate|repeat constructor])|lia]. cbn [andb].
  set (es := map (fun v => (Z.of_nat (fst v) + 1, snd v)) vs). set (real := text_eqb w3 (txt "real")).
  assert (LE : List.length es = List.length vs) by (unfold es; apply map_length).
  rewrite Nat2Z.id. rewrite <- LE. rewrite <- (app_nil_r (entries es)).
  assert (ST : forall v, (fst v < W)%nat -> stored W real (Z.of_nat (fst v) + 1, snd v) = fst v).
  { intros v L. unfold stored. cbn [fst]. replace (Z.of_nat (fst v) + 1 - 1) with (Z.of_nat (fst v)) by lia. destruct real; [apply Nat2Z.id|].
    rewrite to_id_mod by auto. replace (Z.of_nat (fst v) + 1 - 1) with (Z.of_nat (fst v)) by lia. rewrite Z.mod_small by lia. apply Nat2Z.id. }
  assert (FS : Forall (storable W real) es).
  { unfold es. apply Forall_forall. intros e I. apply in_map_iff in I. destruct I as (v & <- & I). rewrite Forall_forall in FV. destruct (FV v I) as (L & N & Bv).
    assert (X : 2 ^ 53 < SZ) by reflexivity. split; [split; [cbn [fst]; lia|auto]|]. intros _. cbn [fst]. lia. }
  rewrite vec_fill_app; auto.
  destruct vs as [|v0 vs]; [unfold es; cbn [map]; apply vec_fill_none; now rewrite app_nil_r|].
  assert (LA : last es (0, []) = (Z.of_nat (fst (last (v0 :: vs) (0%nat, []))) + 1, snd (last (v0 :: vs) (0%nat, []))) /\ In (last (v0 :: vs) (0%nat, [])) (v0 :: vs)).
  { split.
    - unfold es. clear. revert v0. induction vs as [|v vs IH]; intros v0; auto. change (last (map (fun v1 => (Z.of_nat (fst v1) + 1, snd v1)) (v0 :: v :: vs)) (0, [])) with (last (map (fun v1 => (Z.of_nat (fst v1) + 1, snd v1)) (v :: vs)) (0, [])).
      rewrite IH. reflexivity.
    - clear. revert v0. induction vs as [|v vs IH]; intros v0; [now left|]. right. apply IH. }
  destruct LA as (LA & LI). set (z := last (v0 :: vs) (0%nat, [])) in *. rewrite Forall_forall in FV. destruct (FV z LI) as (Lz & Nz & Bz).
  destruct es as [|e es'] eqn:EE; [discriminate|]. rewrite LA. cbn [fst snd]. rewrite app_nil_r.
  assert (LZ : last (map fst (v0 :: vs)) 0%nat = fst z).
  { unfold z. clear. revert v0. induction vs as [|v vs IH]; intros v0; auto. change (last (map fst (v0 :: v :: vs)) 0%nat) with (last (map (@fst nat (list ascii)) (v :: vs)) 0%nat). now rewrite IH. }
  rewrite LZ. assert (S1 := ST z Lz). assert (S2 : stored W real (Z.of_nat (fst z) + 1, []) = fst z) by (exact (ST (fst z, []) Lz)).
  unfold stream_of. rewrite vec_fill_rest; auto.
  - rewrite S2. do 3 f_equal. rewrite <- EE. unfold es. rewrite map_map. apply map_ext_in. intros v I. apply ST. now apply FV.
  - rewrite S2. unfold vec_store. unfold stored in S2. cbn [fst] in S2. destruct real.
    + replace (1 <=? Z.of_nat (fst z) + 1) with true by (symmetry; apply Z.leb_le; lia). replace (Z.of_nat (fst z) + 1 <=? Z.of_nat W) with true by (symmetry; apply Z.leb_le; lia). cbn [andb]. now rewrite S2.
    + now rewrite S2.
Qed.

(** A zero as first entry: in an integer file it becomes the largest id, in a real file its conversion is undefined. *)
Theorem C78_zero W w1 w2 w3 w4 cs n1 lead sep extra :
  (0 < W)%nat -> (Z.of_nat W | SZ) -> word w1 -> word w2 -> word w3 -> w4 = txt "symmetric" \/ w4 = txt "general" ->
  Forall no_nl cs -> 0 <= n1 < SZ -> blank lead -> blank sep -> sep <> [] ->
  (w3 <> txt "real" -> read_mm_vector W false (vfile w1 w2 w3 w4 cs 1 n1 (lead ++ entries [(0, sep)] ++ extra)) = Some (Ok [W - 1]%nat)) /\
  (w3 = txt "real" -> forall k, 1 <= k < SZ -> read_mm_vector W false (vfile w1 w2 w3 w4 cs k n1 (lead ++ entries [(0, sep)] ++ extra)) = Some Ub).
Proof.
  intros HW HD W1 W2 W3 SY FC H1 B Bs Ns. split.
  - intros NR. change 1 with (Z.of_nat (List.length [(0, sep)])) at 1. rewrite (@C78_integer W w1 w2 w3 w4 cs n1 lead [(0, sep)] extra); auto; [|constructor; [split; [split; reflexivity || lia|auto]|constructor]|reflexivity].
    cbn [map fst]. do 3 f_equal. replace (0 - 1) with (-1) by lia. replace (-1) with (Z.of_nat (W - 1) + (-1) * Z.of_nat W) by lia.
    rewrite Z_mod_plus_full, Z.mod_small by lia. apply Nat2Z.id.
  - intros -> k Hk. rewrite read_vfile; auto; [|destruct SY as [->| ->]; (split; [discriminate|repeat constructor])|lia]. cbn [andb].
    rewrite text_eqb_refl. destruct (Z.to_nat k) as [|m] eqn:EK; [lia|]. cbn [vec_fill entries flat_map fst snd andb stream_of s_good s_left].
    rewrite app_nil_r, <- app_assoc. assert (IT : int_token (lead ++ print_nat 0 ++ sep ++ extra) = true) by (apply int_token_print; auto; split; [lia|apply Z.pow_nonneg; lia]). rewrite IT. cbn [negb].
    assert (EN : ends (sep ++ extra)) by (now apply blank_ends). assert (Z0 : 0 <= 0 < SZ) by (split; [lia|reflexivity]). rewrite extract_blank by auto. reflexivity.
Qed.

(** No line with the sizes: undefined if the file ends in a newline, an empty list if it does not. *)
Theorem C78_no_sizes W w1 w2 w3 w4 cs :
  word w1 -> word w2 -> word w3 -> w4 = txt "symmetric" \/ w4 = txt "general" -> Forall no_nl cs ->
  read_mm_vector W false (line5 (txt "%%MatrixMarket") w1 w2 w3 w4 ++ NL :: comments cs) = Some Ub /\
  (forall c, no_nl c -> read_mm_vector W false (line5 (txt "%%MatrixMarket") w1 w2 w3 w4 ++ NL :: comments cs ++ "%" :: c) = Some (Ok [])) /\
  read_mm_vector W false (line5 (txt "%%MatrixMarket") w1 w2 w3 w4) = Some (Ok []).
Proof.
  intros W1 W2 W3 SY FC. assert (W4 : word w4) by (destruct SY as [->| ->]; (split; [discriminate|repeat constructor])).
  assert (NL5 := @line5_no_nl _ _ _ _ _ mm_word W1 W2 W3 W4). assert (WD := words_line5 mm_word W1 W2 W3 W4).
  assert (S5 : text_eqb w4 (txt "symmetric") || text_eqb w4 (txt "general") = true) by (destruct SY as [->| ->]; reflexivity).
  assert (CL := comments_len cs). unfold read_mm_vector. split; [|split].
  - rewrite getl_app, WD by auto. cbn [nth]. rewrite text_eqb_refl, S5. cbn [negb]. rewrite skip_comments_end; auto. rewrite app_length. cbn [List.length]. lia.
  - intros c NC. rewrite getl_app, WD by auto. cbn [nth]. rewrite text_eqb_refl, S5. cbn [negb]. rewrite skip_comments_cut; [reflexivity|auto|auto|]. rewrite app_length. cbn [List.length]. rewrite app_length. cbn [List.length]. lia.
  - rewrite getl_last by (auto; destruct W1; discriminate). rewrite WD. cbn [nth]. rewrite text_eqb_refl, S5. cbn [negb skip_percent getl f_eof]. reflexivity.
Qed.

(** The queries only look at the first line. *)
Theorem C78_header w0 w1 w2 w3 w4 rest : word w0 -> word w1 -> word w2 -> word w3 -> word w4 ->
  let file := line5 w0 w1 w2 w3 w4 ++ NL :: rest in
  (is_mm file = true <-> w0 = txt "%%MatrixMarket") /\
  (w0 = txt "%%MatrixMarket" -> get_mm_symmetry file = Ok (text_eqb w4 (txt "symmetric"))) /\
  (w0 <> txt "%%MatrixMarket" -> get_mm_symmetry file = Ub) /\
  (w0 <> txt "%%MatrixMarket" \/ (w4 <> txt "symmetric" /\ w4 <> txt "general") -> forall W debug, read_mm_vector W debug file = Some Ub).
Proof.
  intros W0 W1 W2 W3 W4 file. assert (NL5 := @line5_no_nl _ _ _ _ _ W0 W1 W2 W3 W4). assert (WD := words_line5 W0 W1 W2 W3 W4).
  unfold is_mm, get_mm_symmetry, read_mm_vector, file. rewrite getl_app by auto. rewrite WD. cbn [nth]. split; [apply text_eqb_eq|]. split; [|split].
  - intros ->. rewrite text_eqb_refl. reflexivity.
  - intros N. replace (text_eqb w0 (txt "%%MatrixMarket")) with false; auto. symmetry. apply not_true_is_false. now rewrite text_eqb_eq.
  - intros H W debug. destruct (text_eqb w0 (txt "%%MatrixMarket")) eqn:E; cbn [negb]; auto. destruct H as [H|[HA HB]]; [apply text_eqb_eq in E; contradiction|].
    replace (text_eqb w4 (txt "symmetric") || text_eqb w4 (txt "general")) with false; auto. symmetry. apply orb_false_iff. split; apply not_true_is_false; now rewrite text_eqb_eq.
Qed.

(** ** load_graph *)
(** A serialized edge list comes back closed; a Matrix Market text goes to read_mm; anything else ends the program. *)
Theorem C78_load_binary W und x rest : Forall (fun v => (v < 256 ^ 8)%nat) (s_cards x) -> columns_wf (s_cols x) ->
  load_graph W und (s_dir x) (List.length (s_cards x)) (map c_size (s_cols x)) (ser_el x ++ rest) =
    LBin (RdOk (mkSel (s_dir x) (s_cards x) false (s_cols x)) rest).
Proof.
  intros H1 H2. unfold load_graph. rewrite C17_edge_list_roundtrip by auto.
  assert (E : exists t, map ascii_of_nat (ser_el x ++ rest) = txt "NW" ++ SP :: t) by (unfold ser_el, magic; cbn [app map]; eexists; reflexivity).
  destruct E as (t & ->). reflexivity.
Qed.
Theorem C78_load_text W und dir ncards tys file blanks0 w0 rest : blank blanks0 -> word w0 -> (rest = [] \/ exists c r, rest = c :: r /\ is_space c = true) ->
  map ascii_of_nat file = blanks0 ++ w0 ++ rest ->
  (w0 = txt "%%MatrixMarket" -> load_graph W und dir ncards tys file = LMm (if und then read_und W (blanks0 ++ w0 ++ rest) else read_dir W (blanks0 ++ w0 ++ rest))) /\
  (w0 <> txt "%%MatrixMarket" -> w0 <> txt "NW" -> load_graph W und dir ncards tys file = LExit).
Proof.
  intros B W0 HR E. unfold load_graph. rewrite E.
  assert (SK : skip_ws (blanks0 ++ w0 ++ rest) = w0 ++ rest).
  { destruct W0 as [N F]. destruct w0 as [|c w]; [congruence|]. inversion F; subst. cbn [app]. now apply skip_blank. }
  rewrite SK, word_take by (auto; apply W0). cbn [fst]. split.
  - intros ->. reflexivity.
  - intros N1 N2. replace (text_eqb w0 (txt "NW")) with false by (symmetry; apply not_true_is_false; now rewrite text_eqb_eq).
    replace (text_eqb w0 (txt "%%MatrixMarket")) with false by (symmetry; apply not_true_is_false; now rewrite text_eqb_eq). reflexivity.
Qed.
(** A blank line before the header passes the test of load_graph but not that of the reader, which ends the program. *)
Theorem C78_load_blank_line W und dir ncards tys file rest : map ascii_of_nat file = NL :: txt "%%MatrixMarket" ++ SP :: rest ->
  load_graph W und dir ncards tys file = LMm Ub.
Proof.
  intros E. destruct (@C78_load_text W und dir ncards tys file [NL] (txt "%%MatrixMarket") (SP :: rest)) as (A & _); auto.
  - repeat constructor.
  - apply mm_word.
  - right. eexists _, _. split; reflexivity.
  - rewrite A by auto. destruct und; reflexivity.
Qed.

(** ** Examples *)
Definition nl : string := String NL EmptyString.
Definition ex_file (s : string) : list ascii := txt ("%%MatrixMarket matrix array integer general" ++ nl ++ "%a comment" ++ nl ++ "3 1" ++ nl ++ s)%string.
Example ex_read : read_mm_vector 256 false (ex_file ("5" ++ nl ++ "256" ++ nl ++ " 1" ++ nl)) = Some (Ok [4; 255; 0]%nat). Proof. reflexivity. Qed.
Example ex_read_is_vfile : ex_file ("5" ++ nl ++ "256" ++ nl ++ " 1" ++ nl) =
  vfile (txt "matrix") (txt "array") (txt "integer") (txt "general") [txt "a comment"] 3 1
    ([] ++ entries (map (fun v => (Z.of_nat (fst v) + 1, snd v)) [(4%nat, [NL]); (255%nat, [NL; SP]); (0%nat, [NL])]) ++ []).
Proof. reflexivity. Qed.
Example ex_truncated : read_mm_vector 256 false (ex_file ("5" ++ nl)) = Some (Ok [4; 4; 4]%nat) /\ read_mm_vector 256 false (ex_file "") = Some Ub.
Proof. split; reflexivity. Qed.
Example ex_zero : read_mm_vector 256 false (ex_file "0 1 2") = Some (Ok [255; 0; 1]%nat). Proof. reflexivity. Qed.
Example ex_real : read_mm_vector 256 false (txt ("%%MatrixMarket matrix array real general" ++ nl ++ "2 1" ++ nl ++ "7 12" ++ nl)) = Some (Ok [6; 11]%nat) /\
  read_mm_vector 256 false (txt ("%%MatrixMarket matrix array real general" ++ nl ++ "2 1" ++ nl ++ "7 0" ++ nl)) = Some Ub /\
  read_mm_vector 256 false (txt ("%%MatrixMarket matrix array real general" ++ nl ++ "2 1" ++ nl ++ "7 1.5" ++ nl)) = None.
Proof. repeat split; reflexivity. Qed.
Example ex_no_newline : read_mm_vector 256 true (txt ("%%MatrixMarket matrix array real general" ++ nl ++ "2 1" ++ nl ++ "7 12")) = Some (Ok [6; 11]%nat). Proof. reflexivity. Qed.
Example ex_queries : is_mm (ex_file "") = true /\ get_mm_symmetry (ex_file "") = Ok false /\ is_mm (txt "graph") = false. Proof. repeat split; reflexivity. Qed.
Example ex_load : load_graph 256 false 0 1 [4%nat; 4%nat] (map nat_of_ascii (txt ("hello world"))) = LExit. Proof. reflexivity. Qed.
Example ex_load_bin : load_graph 256 false 0 1 [4%nat; 4%nat] (ser_el (mkSel 0 [3%nat] true [mkCol 4 [[1;0;0;0]%nat]; mkCol 4 [[2;0;0;0]%nat]])) =
  LBin (RdOk (mkSel 0 [3%nat] false [mkCol 4 [[1;0;0;0]%nat]; mkCol 4 [[2;0;0;0]%nat]]) []). Proof. vm_compute. reflexivity. Qed.
Print Assumptions C78_integer.
Print Assumptions C78_vertices.
Print Assumptions C78_vertices_no_newline.
Print Assumptions C78_assert.
Print Assumptions C78_truncated.
Print Assumptions C78_zero.
Print Assumptions C78_no_sizes.
Print Assumptions C78_header.
Print Assumptions C78_load_binary.
Print Assumptions C78_load_text.
Print Assumptions C78_load_blank_line.
