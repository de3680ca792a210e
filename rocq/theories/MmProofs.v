(** Proofs about the Matrix Market reader and writer. *)
From Coq Require Import List Arith ZArith Ascii String Bool Lia Znumtheory.
From Verif Require Import Base EdgeListModel EdgeListProofs MmModel.
Import ListNotations.
Set Implicit Arguments.
Local Open Scope char_scope.
Local Open Scope Z_scope.

(** ** Numbers *)
Definition plain (c : ascii) : Prop := is_digit c = true \/ c = "-".
Lemma digit_cases d : 0 <= d < 10 -> is_digit (digit d) = true /\ digit_val (digit d) = d.
Proof.
  intros H. assert (E : exists k, (k < 10)%nat /\ d = Z.of_nat k) by (exists (Z.to_nat d); lia).
  destruct E as (k & L & ->). do 10 (destruct k as [|k]; [split; reflexivity|]). lia.
Qed.
Lemma digit_plain c : is_digit c = true -> is_space c = false /\ Ascii.eqb c NL = false /\ Ascii.eqb c "-" = false /\ Ascii.eqb c "+" = false /\ Ascii.eqb c "%" = false.
Proof. destruct c as [[] [] [] [] [] [] [] []]; intros H; try discriminate; repeat split; reflexivity. Qed.

Definition ends (t : list ascii) : Prop := starts_digit t = false.

Lemma dec_digits : forall f n, 0 <= n -> Forall (fun c => is_digit c = true) (dec f n).
Proof.
  induction f; intros n Hn; cbn [dec]; [constructor|]. destruct (Z.ltb_spec n 10).
  - constructor; [apply digit_cases; lia|constructor].
  - apply Forall_app. split; [apply IHf; apply Z.div_pos; lia|]. constructor; [|constructor]. apply digit_cases.
    apply Z.mod_pos_bound. lia.
Qed.
Lemma dec_nonempty f n : dec (S f) n <> [].
Proof. cbn [dec]. destruct (n <? 10); [discriminate|]. intros E. destruct (dec f (n / 10)); discriminate. Qed.

Lemma read_dec : forall f n t, 0 <= n -> n < 10 ^ Z.of_nat (S f) ->
  exists k, 0 < k /\ forall acc, read_digits acc (dec (S f) n ++ t) = read_digits (acc * k + n) t.
Proof.
  induction f; intros n t Hn Hb.
  - change (10 ^ Z.of_nat 1) with 10 in Hb. cbn [dec]. replace (n <? 10) with true by (symmetry; apply Z.ltb_lt; lia).
    exists 10. split; [lia|]. intros acc. cbn [app read_digits]. destruct (@digit_cases n) as [-> ->]; [lia|]. reflexivity.
  - remember (S f) as f1. cbn [dec]. destruct (Z.ltb_spec n 10).
    + exists 10. split; [lia|]. intros acc. cbn [app read_digits]. destruct (@digit_cases n) as [-> ->]; [lia|]. reflexivity.
    + assert (Q : n / 10 < 10 ^ Z.of_nat f1).
      { apply Z.div_lt_upper_bound; [lia|]. rewrite Nat2Z.inj_succ, Z.pow_succ_r in Hb by lia. lia. }
      destruct (IHf (n / 10) ([digit (n mod 10)] ++ t)) as (k & Hk & R); [apply Z.div_pos; lia|auto|].
      exists (k * 10). split; [lia|]. intros acc. rewrite <- app_assoc, R. cbn [app read_digits].
      destruct (@digit_cases (n mod 10)) as [-> ->]; [apply Z.mod_pos_bound; lia|]. f_equal.
      assert (X := Z.div_mod n 10). lia.
Qed.

Lemma print_nat_bound n : 0 <= n -> n < 10 ^ Z.of_nat (S (Z.to_nat (Z.log2 n))).
Proof.
  intros Hn. destruct (Z.eq_dec n 0) as [->|N]; [reflexivity|]. assert (L := Z.log2_spec n ltac:(lia)).
  assert (L0 := Z.log2_nonneg n). replace (Z.of_nat (S (Z.to_nat (Z.log2 n)))) with (Z.succ (Z.log2 n)) by lia.
  assert (2 ^ Z.succ (Z.log2 n) <= 10 ^ Z.succ (Z.log2 n)) by (apply Z.pow_le_mono_l; lia). lia.
Qed.
Lemma read_print n t : 0 <= n -> ends t -> read_digits 0 (print_nat n ++ t) = (n, t).
Proof.
  intros Hn Ht. unfold print_nat. destruct (@read_dec _ n t Hn (print_nat_bound Hn)) as (k & _ & ->). cbn [Z.mul Z.add].
  destruct t as [|c t]; cbn [read_digits]; auto. unfold ends in Ht. cbn in Ht. now rewrite Ht.
Qed.
Lemma print_nat_head n : 0 <= n -> exists c r, print_nat n = c :: r /\ is_digit c = true.
Proof.
  intros Hn. assert (N := @dec_nonempty (Z.to_nat (Z.log2 n)) n). assert (D := dec_digits (S (Z.to_nat (Z.log2 n))) Hn).
  unfold print_nat. destruct (dec _ n) as [|c r]; [contradiction|]. inversion D; subst. eauto.
Qed.
Lemma print_int_plain z : Forall plain (print_int z).
Proof.
  unfold print_int. destruct (Z.ltb_spec z 0).
  - constructor; [now right|]. eapply Forall_impl; [|apply dec_digits; lia]. intros; now left.
  - eapply Forall_impl; [|apply dec_digits; lia]. intros; now left.
Qed.
Lemma print_int_nonneg z : 0 <= z -> print_int z = print_nat z.
Proof. intros H. unfold print_int. destruct (Z.ltb_spec z 0); [lia|auto]. Qed.
Lemma plain_not_nl c : plain c -> Ascii.eqb c NL = false.
Proof. intros [H| ->]; [now apply digit_plain in H|reflexivity]. Qed.

(** ** Extraction *)
Definition blanks (w : list ascii) : Prop := w = [] \/ w = [SP] \/ w = [NL].
Lemma skip_blanks w c t : blanks w -> is_space c = false -> skip_ws (w ++ c :: t) = c :: t.
Proof. intros [-> | [-> | ->]] H; cbn [app skip_ws]; change (is_space SP) with true; change (is_space NL) with true; cbn iota; now rewrite H. Qed.

Lemma extract_print lo hi old w z t : blanks w -> lo <= z <= hi -> lo <= 0 -> ends t ->
  extract lo hi old (stream_of (w ++ print_int z ++ t)) = (Some z, stream_of t).
Proof.
  intros Bw Hz Hlo Ht. unfold extract. cbn [s_good negb stream_of s_left].
  unfold print_int. destruct (Z.ltb_spec z 0) as [Neg|Pos].
  - cbn [app]. rewrite skip_blanks by auto. cbn [read_sign]. change (Ascii.eqb "-" "-") with true. cbn iota.
    destruct (print_nat_head (n := - z)) as (c & r & E & D); [lia|].
    replace (starts_digit (print_nat (- z) ++ t)) with true by (rewrite E; cbn; auto).
    cbn [negb]. rewrite read_print by (auto; lia). replace (lo =? 0) with false by (symmetry; apply Z.eqb_neq; lia).
    rewrite Z.opp_involutive. replace (hi <? z) with false by (symmetry; apply Z.ltb_ge; lia).
    replace (z <? lo) with false by (symmetry; apply Z.ltb_ge; lia). reflexivity.
  - destruct (print_nat_head Pos) as (c & r & E & D).
    assert (X : skip_ws (w ++ print_nat z ++ t) = print_nat z ++ t).
    { rewrite E. cbn [app]. apply skip_blanks; auto. now apply digit_plain in D. }
    rewrite X. assert (S : read_sign (print_nat z ++ t) = (false, print_nat z ++ t)).
    { rewrite E. cbn [app read_sign]. apply digit_plain in D. destruct D as (_ & _ & -> & -> & _). reflexivity. }
    assert (R := read_print Pos Ht). rewrite E in *. cbn [app] in *. rewrite S. cbn [starts_digit]. rewrite D. cbn [negb].
    rewrite R.
    replace (hi <? z) with false by (symmetry; apply Z.ltb_ge; lia).
    replace (z <? lo) with false by (symmetry; apply Z.ltb_ge; lia).
    destruct (lo =? 0); reflexivity.
Qed.
Lemma extract_size_print old w z t : blanks w -> 0 <= z < SZ -> ends t ->
  extract_size old (stream_of (w ++ print_nat z ++ t)) = (Some z, stream_of t).
Proof. intros. unfold extract_size. rewrite <- print_int_nonneg by lia. apply extract_print; auto; lia. Qed.

Lemma extract_size_print0 old z t : 0 <= z < SZ -> ends t -> extract_size old (stream_of (print_nat z ++ t)) = (Some z, stream_of t).
Proof. intros. change (print_nat z ++ t) with ([] ++ print_nat z ++ t). apply extract_size_print; auto. now left. Qed.

Lemma skip_double_print w z t : blanks w -> (t = [] \/ exists r, t = NL :: r) ->
  skip_double (stream_of (w ++ print_int z ++ t)) = stream_of t.
Proof.
  intros Bw Ht. assert (En : ends t) by (destruct Ht as [->|[r ->]]; reflexivity).
  unfold skip_double. cbn [s_good negb stream_of s_left].
  assert (K : forall n, 0 <= n -> snd (read_sign (print_nat n ++ t)) = print_nat n ++ t /\ skip_digits (print_nat n ++ t) = (true, t)).
  { intros n Hn. destruct (print_nat_head Hn) as (c & r & E & D). split.
    - rewrite E. cbn [app read_sign]. apply digit_plain in D. destruct D as (_ & _ & -> & -> & _). reflexivity.
    - unfold skip_digits. rewrite read_print by auto. cbn [snd]. rewrite E. cbn. now rewrite D. }
  assert (R : match t with | [] => (false, t) | c :: t' => if Ascii.eqb c "." then skip_digits t' else (false, t) end = (false, t)).
  { destruct Ht as [->|[r ->]]; reflexivity. }
  assert (R2 : match t with | [] => {| s_good := true; s_left := t |}
      | c :: t' => if Ascii.eqb c "e" || Ascii.eqb c "E" then let (d, t4) := skip_digits (snd (read_sign t')) in {| s_good := d; s_left := t4 |}
                   else {| s_good := true; s_left := t |} end = stream_of t).
  { destruct Ht as [->|[r ->]]; reflexivity. }
  unfold print_int. destruct (Z.ltb_spec z 0) as [Neg|Pos].
  - cbn [app]. rewrite skip_blanks by auto. cbn [read_sign]. change (Ascii.eqb "-" "-") with true. cbn iota. cbn [snd].
    destruct (K (- z)) as [_ ->]; [lia|]. rewrite R. cbn [orb negb]. exact R2.
  - destruct (print_nat_head Pos) as (c & r & E & D).
    assert (X : skip_ws (w ++ print_nat z ++ t) = print_nat z ++ t).
    { rewrite E. cbn [app]. apply skip_blanks; auto. now apply digit_plain in D. }
    rewrite X. destruct (K z Pos) as [K1 K2]. rewrite E in *. cbn [app] in *. rewrite K1, K2, R. cbn [orb negb]. exact R2.
Qed.

(** ** Lines *)
Lemma split_line_app : forall l r, Forall (fun c => Ascii.eqb c NL = false) l -> split_line (l ++ NL :: r) = (l, r).
Proof.
  induction l as [|c l IH]; intros r F; cbn [app split_line]; [reflexivity|]. inversion F; subst. rewrite H1, IH by auto. reflexivity.
Qed.
Lemma getline_app l r : Forall (fun c => Ascii.eqb c NL = false) l -> getline (l ++ NL :: r) = Some (l, r).
Proof.
  intros F. unfold getline. assert (E : l ++ NL :: r <> []) by (destruct l; discriminate).
  destruct (l ++ NL :: r) eqn:Q; [contradiction|]. rewrite <- Q. f_equal. now apply split_line_app.
Qed.
Lemma print_no_nl z : Forall (fun c => Ascii.eqb c NL = false) (print_int z).
Proof. eapply Forall_impl; [|apply print_int_plain]. exact plain_not_nl. Qed.
Lemma printn_no_nl z : 0 <= z -> Forall (fun c => Ascii.eqb c NL = false) (print_nat z).
Proof. intros H. rewrite <- print_int_nonneg by auto. apply print_no_nl. Qed.

Definition value_text (v : option Z) : option (list ascii) := match v with Some z => Some (print_int z) | None => None end.
Definition tail_of (v : option Z) : list ascii := match v with Some z => SP :: print_int z | None => [] end.
Lemma entry_line_app d0 d1 v r : entry_line d0 d1 (value_text v) ++ r = (print_int d0 ++ SP :: print_int d1 ++ tail_of v) ++ NL :: r.
Proof. unfold entry_line. destruct v; cbn [value_text tail_of]; repeat (rewrite <- app_assoc || cbn [app]); reflexivity. Qed.
Lemma tail_ends v : ends (tail_of v).
Proof. destruct v; reflexivity. Qed.

Lemma line_ids_entry d0 d1 v r : 0 <= d0 < SZ -> 0 <= d1 < SZ ->
  line_ids (entry_line d0 d1 (value_text v) ++ r) = Ok (d0, d1, stream_of (tail_of v), r).
Proof.
  intros H0 H1. unfold line_ids. rewrite entry_line_app.
  rewrite getline_app.
  2:{ apply Forall_app. split; [apply print_no_nl|]. constructor; [reflexivity|]. apply Forall_app. split; [apply print_no_nl|].
      destruct v; cbn; [constructor; [reflexivity|apply print_no_nl]|constructor]. }
  rewrite (print_int_nonneg (z := d0)), (print_int_nonneg (z := d1)) by lia.
  rewrite extract_size_print0 by (auto; reflexivity).
  change (SP :: print_nat d1 ++ tail_of v) with ([SP] ++ print_nat d1 ++ tail_of v).
  rewrite (@extract_size_print None [SP] d1) by (auto using tail_ends; right; now left). reflexivity.
Qed.
Lemma line_val_entry lo hi d0 d1 z r : 0 <= d0 < SZ -> 0 <= d1 < SZ -> lo <= z <= hi -> lo <= 0 ->
  line_ids_val lo hi false (entry_line d0 d1 (Some (print_int z)) ++ r) = Ok (d0, d1, z, r).
Proof.
  intros H0 H1 Hz Hl. unfold line_ids_val. rewrite (@line_ids_entry d0 d1 (Some z)) by auto. cbn [bind tail_of].
  replace (SP :: print_int z) with ([SP] ++ print_int z ++ []) by (now rewrite app_nil_r).
  rewrite extract_print; [reflexivity|right; now left|auto|auto|reflexivity].
Qed.
Lemma line_pat_entry lo hi d0 d1 v r : 0 <= d0 < SZ -> 0 <= d1 < SZ ->
  line_ids_val lo hi true (entry_line d0 d1 (value_text v) ++ r) = Ok (d0, d1, 1, r).
Proof. intros H0 H1. unfold line_ids_val. rewrite line_ids_entry by auto. reflexivity. Qed.

(** ** Filling *)
Notation raw := (Z * Z * option Z)%type (only parsing).
Definition in_sz (x : raw) : Prop := 0 <= fst (fst x) < SZ /\ 0 <= snd (fst x) < SZ.
Definition lines (L : list raw) : list ascii := flat_map (fun x => entry_line (fst (fst x)) (snd (fst x)) (value_text (snd x))) L.

Lemma fill_dir_lines W mirror : forall L r, Forall in_sz L ->
  fill_dir W mirror (List.length L) (lines L ++ r) = Ok (flat_map (fun x => entry W mirror (fst (fst x)) (snd (fst x)) tt) L).
Proof.
  induction L as [|[[d0 d1] v] L IH]; intros r F; cbn [List.length fill_dir lines flat_map]; auto. inversion F as [|? ? [H0 H1] F']; subst.
  cbn [fst snd] in *. fold (lines L). rewrite <- app_assoc, line_ids_entry by auto. cbn [bind]. rewrite IH by auto. reflexivity.
Qed.
Definition val_of (x : raw) : Z := match snd x with Some z => z | None => 1 end.
Lemma fill_val_lines W lo hi mirror : lo <= 0 -> forall L r, Forall in_sz L -> Forall (fun x : raw => exists z, snd x = Some z /\ lo <= z <= hi) L ->
  fill_val W lo hi false mirror (List.length L) (lines L ++ r) = Ok (flat_map (fun x => entry W mirror (fst (fst x)) (snd (fst x)) (val_of x)) L).
Proof.
  intros Hl. induction L as [|[[d0 d1] v] L IH]; intros r F G; cbn [List.length fill_val lines flat_map]; auto. inversion F as [|? ? [H0 H1] F']; subst.
  inversion G as [|? ? (z & E & Hz) G']; subst. cbn [fst snd] in *. subst v. cbn [value_text].
  fold (lines L). rewrite <- app_assoc, line_val_entry by auto. cbn [bind]. rewrite IH by auto. reflexivity.
Qed.
Lemma fill_pat_lines W lo hi mirror : forall L r, Forall in_sz L ->
  fill_val W lo hi true mirror (List.length L) (lines L ++ r) = Ok (flat_map (fun x => entry W mirror (fst (fst x)) (snd (fst x)) 1) L).
Proof.
  induction L as [|[[d0 d1] v] L IH]; intros r F; cbn [List.length fill_val lines flat_map]; auto. inversion F as [|? ? [H0 H1] F']; subst.
  cbn [fst snd] in *. fold (lines L). rewrite <- app_assoc, line_pat_entry by auto. cbn [bind]. rewrite IH by auto. reflexivity.
Qed.
Lemma fill_und_lines W pattern : forall L w, blanks w -> Forall in_sz L -> Forall (fun x : raw => snd x = None <-> pattern = true) L ->
  fill_und W pattern (List.length L) (stream_of (w ++ lines L)) = Ok (flat_map (fun x => entry W false (fst (fst x)) (snd (fst x)) tt) L).
Proof.
  induction L as [|[[d0 d1] v] L IH]; intros w Bw F G; cbn [List.length fill_und lines flat_map]; auto. inversion F as [|? ? [H0 H1] F']; subst.
  inversion G as [|? ? P G']; subst. cbn [fst snd] in *. fold (lines L). rewrite entry_line_app. rewrite <- app_assoc.
  rewrite (print_int_nonneg (z := d0)), (print_int_nonneg (z := d1)) by lia.
  rewrite extract_size_print by (auto; reflexivity).
  cbn [app]. rewrite <- app_assoc. change (SP :: print_nat d1 ++ tail_of v ++ NL :: lines L) with ([SP] ++ print_nat d1 ++ (tail_of v ++ NL :: lines L)).
  rewrite extract_size_print; [|right; now left|auto|destruct v; reflexivity].
  assert (X : (if pattern then stream_of (tail_of v ++ NL :: lines L) else skip_double (stream_of (tail_of v ++ NL :: lines L))) = stream_of ([NL] ++ lines L)).
  { destruct v as [z|]; cbn [tail_of].
    - replace pattern with false by (symmetry; apply not_true_is_false; intros C; apply P in C; discriminate).
      change ((SP :: print_int z) ++ NL :: lines L) with ([SP] ++ print_int z ++ (NL :: lines L)).
      apply skip_double_print; [right; now left|right; eexists; reflexivity].
    - replace pattern with true by (symmetry; now apply P). reflexivity. }
  rewrite X. cbn [use bind]. rewrite IH; auto. right. now right.
Qed.

(** ** Header and sizes *)
Lemma size_line_app n0 n1 m r : size_line n0 n1 m ++ r = (print_nat n0 ++ SP :: print_nat n1 ++ SP :: print_nat m) ++ NL :: r.
Proof. unfold size_line. repeat (rewrite <- app_assoc || cbn [app]); reflexivity. Qed.

Lemma sizes_ok n0 n1 m r : 0 <= n0 < SZ -> 0 <= n1 < SZ -> 0 <= m < SZ ->
  sizes (txt "%%" ++ NL :: size_line n0 n1 m ++ r) = Ok (n0, n1, m, r).
Proof.
  intros H0 H1 H2. unfold sizes.
  assert (E : exists f, S (List.length (txt "%%" ++ NL :: size_line n0 n1 m ++ r)) = S (S f)) by (cbn; eauto).
  destruct E as [f ->]. cbn [skip_comments]. rewrite getline_app by (repeat constructor).
  cbn [txt list_ascii_of_string]. change (Ascii.eqb "%" "%") with true. cbn iota.
  rewrite size_line_app, getline_app.
  2:{ apply Forall_app. split; [apply printn_no_nl; lia|]. constructor; [reflexivity|]. apply Forall_app. split; [apply printn_no_nl; lia|].
      constructor; [reflexivity|]. apply printn_no_nl. lia. }
  destruct (print_nat_head (n := n0)) as (c & q & E & D); [lia|].
  assert (P : Ascii.eqb c "%" = false) by (now apply digit_plain in D).
  rewrite E. cbn [app]. rewrite P. cbn [bind].
  change (c :: q ++ SP :: print_nat n1 ++ SP :: print_nat m) with ((c :: q) ++ SP :: print_nat n1 ++ SP :: print_nat m).
  rewrite <- E. rewrite extract_size_print0 by (auto; reflexivity).
  change (SP :: print_nat n1 ++ SP :: print_nat m) with ([SP] ++ print_nat n1 ++ (SP :: print_nat m)).
  rewrite extract_size_print; [|right; now left|auto|reflexivity].
  replace (SP :: print_nat m) with ([SP] ++ print_nat m ++ []) by (now rewrite app_nil_r).
  rewrite extract_size_print; [reflexivity|right; now left|auto|reflexivity].
Qed.

Lemma header_ok wt sy t : In wt [txt "pattern"; txt "integer"] -> In sy [txt "general"; txt "symmetric"] ->
  header (head_line wt sy ++ t) = Ok (text_eqb sy (txt "symmetric"), text_eqb wt (txt "pattern"), txt "%%" ++ NL :: t).
Proof.
  intros [<-|[<-|[]]] [<-|[<-|[]]]; reflexivity.
Qed.

(** ** Vertex ids *)
Section Ids.
Variable W : nat.
Hypothesis HW : (0 < W)%nat.
Hypothesis HD : (Z.of_nat W | SZ).
Lemma W_le : Z.of_nat W <= SZ.
Proof. apply Z.divide_pos_le; [reflexivity|auto]. Qed.
Lemma one_based_sz i : 0 <= one_based W i < SZ.
Proof. unfold one_based. assert (X := Nat.mod_upper_bound (S i) W). assert (Y := W_le). lia. Qed.
Lemma to_id_mod d : to_id W d = Z.to_nat ((d - 1) mod Z.of_nat W).
Proof. unfold to_id. rewrite <- Zmod_div_mod; auto; [lia|reflexivity]. Qed.
Lemma to_id_one_based i : (i < W)%nat -> to_id W (one_based W i) = i.
Proof.
  intros L. rewrite to_id_mod. unfold one_based. rewrite Nat2Z.inj_mod. rewrite Zminus_mod_idemp_l.
  replace (Z.of_nat (S i) - 1) with (Z.of_nat i) by lia. rewrite Z.mod_small by lia. apply Nat2Z.id.
Qed.
Lemma one_based_inj i j : (i < W)%nat -> (j < W)%nat -> (one_based W i =? one_based W j) = (i =? j)%nat.
Proof.
  intros Li Lj. destruct (Nat.eqb_spec i j) as [->|N]; [apply Z.eqb_refl|]. apply Z.eqb_neq. intros E. apply N.
  rewrite <- (to_id_one_based Li), <- (to_id_one_based Lj). now rewrite E.
Qed.

Lemma rebuild (A : Type) n (es : list (edge A)) : el_build W (el_num_vertices (el_build W n es)) es = el_build W n es.
Proof.
  unfold el_build, el_num_vertices, el_close_for_push_back.
  assert (G : forall es (a b : edge_list A), el_c0 a = el_c0 b -> el_c1 a = el_c1 b -> el_ca a = el_ca b -> el_open a = el_open b ->
     let f := fold_left (fun el e => el_push_back W el (esrc e) (etgt e) (eatt e)) es in
     el_c0 (f a) = el_c0 (f b) /\ el_c1 (f a) = el_c1 (f b) /\ el_ca (f a) = el_ca (f b)).
  { induction es0 as [|e l IH]; intros a b E0 E1 E2 E3; cbn [fold_left]; auto. apply IH; cbn; congruence. }
  cbn [el_card]. set (F := fold_left _ es). set (c := el_card (F (el_new n))).
  destruct (G es (el_new c) (el_new n)) as (E0 & E1 & E2); auto. fold F in E0, E1, E2. f_equal; auto.
  assert (C : forall (es : list (edge A)) (a : edge_list A), es <> [] -> el_card (fold_left (fun el e => el_push_back W el (esrc e) (etgt e) (eatt e)) es a) =
     fold_left Nat.max (map (fun e => ((Nat.max (esrc e) (etgt e) + 1) mod W)%nat) es) (el_card a mod W)%nat).
  { induction es0 as [|e l IH]; intros a N; [contradiction|]. cbn [fold_left map]. destruct l as [|e' l].
    - cbn [fold_left map el_push_back el_card]. lia.
    - rewrite IH by discriminate. cbn [el_push_back el_card]. f_equal.
      assert (X := Nat.mod_upper_bound (Nat.max (esrc e) (etgt e) + 1) W). assert (Y := Nat.mod_upper_bound (el_card a) W).
      rewrite Nat.mod_small by lia. lia. }
  assert (M : forall l x, (fold_left Nat.max l x = Nat.max x (fold_left Nat.max l 0))%nat).
  { induction l as [|y l IH]; intros x; cbn [fold_left]; [lia|]. rewrite IH, (IH (Nat.max 0 y)). lia. }
  destruct es as [|e l]; [reflexivity|].
  assert (Ec : c = (fold_left Nat.max (map (fun e => (Nat.max (esrc e) (etgt e) + 1) mod W) (e :: l)) (n mod W))%nat) by (apply C; discriminate).
  unfold F. rewrite C by discriminate. cbn [el_new el_card]. rewrite M. rewrite M in Ec.
  assert (B : (c < W)%nat).
  { rewrite Ec. apply Nat.max_lub_lt; [apply Nat.mod_upper_bound; lia|].
    assert (Z : forall l x, (x < W)%nat -> (forall y, In y l -> (y < W)%nat) -> (fold_left Nat.max l x < W)%nat).
    { induction l0 as [|y l0 IH]; intros x X Y; cbn [fold_left]; auto. apply IH; [|intros; apply Y; now right].
      apply Nat.max_lub_lt; auto. apply Y. now left. }
    apply Z; auto. intros y Y. apply in_map_iff in Y. destruct Y as (z & <- & _). apply Nat.mod_upper_bound. lia. }
  rewrite (Nat.mod_small c) by auto. lia.
Qed.
End Ids.

(** ** Whole files *)
Definition swap {A : Type} (e : edge A) : edge A := (etgt e, esrc e, eatt e).
Section Files.
Variable W : nat.
Hypothesis HW : (0 < W)%nat.
Hypothesis HD : (Z.of_nat W | SZ).

Definition raws (A : Type) (both : bool) (pz : A -> option Z) (es : list (edge A)) : list (Z * Z * option Z) :=
  flat_map (fun e => (one_based W (esrc e), one_based W (etgt e), pz (eatt e)) ::
    (if both then [(one_based W (etgt e), one_based W (esrc e), pz (eatt e))] else [])) es.
Lemma raws_length (A : Type) (both : bool) (pz : A -> option Z) (es : list (edge A)) : Z.of_nat (List.length (raws both pz es)) = (if both then 2 * Z.of_nat (List.length es) else Z.of_nat (List.length es)).
Proof. unfold raws. induction es as [|e es IH]; [destruct both; reflexivity|]. cbn [flat_map]. rewrite app_length. destruct both; cbn [List.length] in *; lia. Qed.
Lemma raws_sz (A : Type) (both : bool) (pz : A -> option Z) (es : list (edge A)) : Forall in_sz (raws both pz es).
Proof.
  apply Forall_forall. intros x X. apply in_flat_map in X. destruct X as (e & _ & X). assert (O := one_based_sz HW HD).
  destruct X as [<-|X]; [split; apply O|]. destruct both; [|destruct X]. destruct X as [<-|[]]. split; apply O.
Qed.
Lemma raws_snd (A : Type) (both : bool) (pz : A -> option Z) (es : list (edge A)) x : In x (raws both pz es) -> exists e, In e es /\ snd x = pz (eatt e).
Proof.
  intros X. apply in_flat_map in X. destruct X as (e & I & X). exists e. split; auto.
  destruct X as [<-|X]; [reflexivity|]. destruct both; [|destruct X]. destruct X as [<-|[]]. reflexivity.
Qed.
Lemma raws_lines (A : Type) (both : bool) (pz : A -> option Z) (es : list (edge A)) :
  flat_map (fun e => entry_line (one_based W (esrc e)) (one_based W (etgt e)) (value_text (pz (eatt e))) ++
       (if both then entry_line (one_based W (etgt e)) (one_based W (esrc e)) (value_text (pz (eatt e))) else [])) es = lines (raws both pz es).
Proof.
  unfold raws, lines. induction es as [|e es IH]; cbn [flat_map]; auto. rewrite flat_map_app, IH. f_equal.
  destruct both; cbn [flat_map fst snd app]; now rewrite app_nil_r.
Qed.
(** the edges pushed by the reader *)
Lemma raws_entries (A B : Type) (both mirror : bool) (pz : A -> option Z) (es : list (edge A)) (bz : edge A -> B) (g : Z * Z * option Z -> B) :
  (forall (e : edge A) a b, g (a, b, pz (eatt e)) = bz e) ->
  Forall (fun e => (esrc e < W)%nat /\ (etgt e < W)%nat) es ->
  flat_map (fun x => entry W mirror (fst (fst x)) (snd (fst x)) (g x)) (raws both pz es) =
  flat_map (fun e => (if mirror && negb (esrc e =? etgt e)%nat then [(esrc e, etgt e, bz e); (etgt e, esrc e, bz e)] else [(esrc e, etgt e, bz e)]) ++
                     (if both then (if mirror && negb (esrc e =? etgt e)%nat then [(etgt e, esrc e, bz e); (esrc e, etgt e, bz e)] else [(etgt e, esrc e, bz e)]) else [])) es.
Proof.
  intros G F. unfold raws. induction es as [|e es IH]; cbn [flat_map]; auto. inversion F as [|? ? [L1 L2] F']; subst.
  rewrite flat_map_app, IH by auto. f_equal. clear IH F F'.
  unfold entry. destruct both; cbn [flat_map fst snd app]; rewrite !G, ?(one_based_inj HW HD), !(to_id_one_based HW HD), ?app_nil_r by auto;
    rewrite ?(Nat.eqb_sym (etgt e) (esrc e)); destruct (mirror && negb (esrc e =? etgt e)%nat); reflexivity.
Qed.
Lemma write_lines (A : Type) (und : bool) (pz : A -> option Z) wt sy (el : edge_list A) (both := text_eqb sy (txt "general") && und) :
  write_list W und (fun a => value_text (pz a)) wt sy el =
  head_line wt sy ++ size_line (Z.of_nat (el_num_vertices el)) (Z.of_nat (el_num_vertices el)) (Z.of_nat (List.length (raws both pz (el_view el)))) ++
    lines (raws both pz (el_view el)).
Proof. unfold write_list. fold both. rewrite raws_length, raws_lines. reflexivity. Qed.

(** adjacencies *)
Definition adj_edges (A : Type) (g : list (list (nat * A))) : list (edge A) :=
  flat_map (fun iu => map (fun v => (fst iu, fst v, snd v)) (snd iu)) (combine (seq 0 (List.length g)) g).
Definition adj_raws (A : Type) (idx : Z) (pz : A -> option Z) (g : list (list (nat * A))) : list (Z * Z * option Z) :=
  map (fun e => (Z.of_nat (esrc e) + (1 - idx), (Z.of_nat (etgt e) + (1 - idx)) mod Z.of_nat W, pz (eatt e))) (adj_edges g).
Lemma adj_edges_length (A : Type) (g : list (list (nat * A))) : List.length (adj_edges g) = List.length (List.concat g).
Proof.
  unfold adj_edges. generalize 0%nat. induction g as [|r g IH]; intros k; cbn [List.length seq combine flat_map List.concat]; auto.
  rewrite !app_length, map_length. cbn [snd]. f_equal. apply IH.
Qed.
Lemma adj_edges_src (A : Type) (g : list (list (nat * A))) e : In e (adj_edges g) -> (esrc e < List.length g)%nat /\ exists r, In r g /\ In (etgt e, eatt e) r.
Proof.
  unfold adj_edges. intros X. apply in_flat_map in X. destruct X as ([u r] & I & X). apply in_map_iff in X. destruct X as ([v a] & <- & V).
  cbn. assert (X := in_combine_l _ _ _ _ I). assert (Y := in_combine_r _ _ _ _ I). apply in_seq in X. split; [lia|eauto].
Qed.
Lemma write_adj_lines (A : Type) idx (pz : A -> option Z) wt sy n0 n1 (g : list (list (nat * A))) :
  Z.of_nat (List.length (List.concat g)) < 2 ^ 31 ->
  write_adj W idx (fun a => value_text (pz a)) wt sy n0 n1 g =
  Ok (head_line wt sy ++ size_line n0 n1 (Z.of_nat (List.length (adj_raws idx pz g))) ++ lines (adj_raws idx pz g)).
Proof.
  intros L. unfold write_adj. replace (2 ^ 31 <=? _) with false by (symmetry; apply Z.leb_gt; auto).
  unfold adj_raws at 1. rewrite map_length, adj_edges_length. do 4 f_equal.
  unfold lines, adj_raws, adj_edges. induction (combine (seq 0 (List.length g)) g) as [|[u r] l IH]; auto.
  cbn [flat_map]. rewrite map_app, flat_map_app, IH. f_equal. cbn [fst snd]. rewrite map_map.
  clear. induction r as [|v r IH]; auto. cbn [flat_map map]. rewrite IH. reflexivity.
Qed.
Lemma adj_raws_sz (A : Type) idx (pz : A -> option Z) (g : list (list (nat * A))) : 0 <= idx <= 1 -> Z.of_nat (List.length g) < SZ ->
  Forall in_sz (adj_raws idx pz g).
Proof.
  intros Hi Hg. apply Forall_forall. intros x X. apply in_map_iff in X. destruct X as (e & <- & I). apply adj_edges_src in I.
  assert (Y := @W_le W HD). destruct I as [I _]. unfold in_sz. cbn [fst snd]. split; [lia|].
  assert (Q := Z.mod_pos_bound (Z.of_nat (etgt e) + (1 - idx)) (Z.of_nat W)). lia.
Qed.
(** the id read back: one less per unit of [idx], around the corner *)
Definition shift (idx : Z) (u : nat) : nat := Z.to_nat ((Z.of_nat u - idx) mod Z.of_nat W).
Lemma adj_raws_entries (A B : Type) idx (pz : A -> option Z) (g : list (list (nat * A))) (bz : edge A -> B) (h : Z * Z * option Z -> B) :
  (forall (e : edge A) a b, In e (adj_edges g) -> h (a, b, pz (eatt e)) = bz e) ->
  flat_map (fun x => entry W false (fst (fst x)) (snd (fst x)) (h x)) (adj_raws idx pz g) =
  map (fun e => (shift idx (esrc e), shift idx (etgt e), bz e)) (adj_edges g).
Proof.
  unfold adj_raws. intros G. induction (adj_edges g) as [|e l IH]; auto. cbn [map flat_map].
  rewrite IH by (intros; apply G; now right). unfold entry at 1. cbn [andb app fst snd]. rewrite G by (now left).
  rewrite !(to_id_mod HW HD). unfold shift. rewrite Zminus_mod_idemp_l.
  replace (Z.of_nat (esrc e) + (1 - idx) - 1) with (Z.of_nat (esrc e) - idx) by lia.
  replace (Z.of_nat (etgt e) + (1 - idx) - 1) with (Z.of_nat (etgt e) - idx) by lia. reflexivity.
Qed.
Lemma shift_0 u : (u < W)%nat -> shift 0 u = u.
Proof. intros L. unfold shift. rewrite Z.sub_0_r, Z.mod_small by lia. apply Nat2Z.id. Qed.
Lemma shift_1 u : (u < W)%nat -> shift 1 u = match u with O => W - 1 | S u' => u' end%nat.
Proof.
  intros L. unfold shift. destruct u as [|u].
  - replace (Z.of_nat 0 - 1) with (-1) by lia. rewrite <- (Z.mod_unique (-1) (Z.of_nat W) (-1) (Z.of_nat W - 1)); lia.
  - rewrite Z.mod_small by lia. lia.
Qed.
End Files.
