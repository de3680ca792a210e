(** Proofs for C78. *)
From Coq Require Import List Arith ZArith Ascii String Bool Lia Znumtheory.
From Verif Require Import Base EdgeListModel MmModel MmProofs SerialModel MmvModel.
Import ListNotations.
Set Implicit Arguments.
Local Open Scope char_scope.
Local Open Scope Z_scope.

Definition blank (s : list ascii) : Prop := Forall (fun c => is_space c = true) s.
Definition no_nl (s : list ascii) : Prop := Forall (fun c => Ascii.eqb c NL = false) s.
(** A word: not empty and without blanks. *)
Definition word (s : list ascii) : Prop := s <> [] /\ Forall (fun c => is_space c = false) s.

Lemma text_eqb_refl t : text_eqb t t = true.
Proof. induction t; simpl; auto. now rewrite Ascii.eqb_refl. Qed.
Lemma text_eqb_eq a : forall b, text_eqb a b = true <-> a = b.
Proof.
  induction a as [|x a IH]; intros [|y b]; simpl; split; try discriminate; auto.
  - intros H. apply andb_true_iff in H. destruct H as (E & H). apply Ascii.eqb_eq in E. apply IH in H. congruence.
  - injection 1 as -> ->. rewrite Ascii.eqb_refl. now apply IH.
Qed.

Lemma word_take w r : Forall (fun c => is_space c = false) w -> (r = [] \/ exists c r', r = c :: r' /\ is_space c = true) -> take_word (w ++ r) = (w, r).
Proof.
  induction w as [|c w IH]; intros F H.
  - destruct H as [->|(c & r' & -> & E)]; simpl; auto. now rewrite E.
  - inversion F; subst. simpl. rewrite H2, IH; auto.
Qed.
Lemma word_skip w r : word w -> skip_ws (w ++ r) = w ++ r.
Proof. intros [N F]. destruct w as [|c w]; [congruence|]. inversion F; subst. simpl. now rewrite H1. Qed.
Lemma space_nl : is_space NL = true. Proof. reflexivity. Qed.
Lemma word_no_nl w : Forall (fun c => is_space c = false) w -> no_nl w.
Proof. intros F. eapply Forall_impl; [|exact F]. intros c H. cbn beta in *. destruct (Ascii.eqb_spec c NL) as [->|]; auto. Qed.

Definition line5 (w0 w1 w2 w3 w4 : list ascii) : list ascii := w0 ++ SP :: w1 ++ SP :: w2 ++ SP :: w3 ++ SP :: w4.
Lemma words_line5 w0 w1 w2 w3 w4 : word w0 -> word w1 -> word w2 -> word w3 -> word w4 -> words 5 (line5 w0 w1 w2 w3 w4) = [w0; w1; w2; w3; w4].
Proof.
  intros W0 W1 W2 W3 W4. unfold line5.
  assert (ST : forall k w r, word w -> words (S k) (w ++ SP :: r) = w :: words k (SP :: r)).
  { intros k w r H. cbn [words]. rewrite word_skip by auto. rewrite word_take; [auto|apply H|right; eexists _, _; split; reflexivity]. }
  assert (SK : forall k w r, word w -> words (S k) (SP :: w ++ SP :: r) = w :: words k (SP :: r)) by (intros k w r H; rewrite <- (ST k w r H); reflexivity).
  rewrite ST, !SK by auto. cbn [words skip_ws]. change (is_space SP) with true. cbn iota.
  replace w4 with (w4 ++ []) at 1 by apply app_nil_r. rewrite word_skip by auto. rewrite word_take; [auto|apply W4|auto].
Qed.
Lemma line5_no_nl w0 w1 w2 w3 w4 : word w0 -> word w1 -> word w2 -> word w3 -> word w4 -> no_nl (line5 w0 w1 w2 w3 w4).
Proof.
  intros [_ A] [_ B] [_ C] [_ D] [_ E]. unfold line5, no_nl.
  repeat (apply Forall_app; split; [apply word_no_nl; auto|]; constructor; [reflexivity|]). now apply word_no_nl.
Qed.

(** ** Lines *)
Lemma has_nl_app l r : has_nl (l ++ NL :: r) = true.
Proof. induction l; simpl; auto. rewrite IHl. apply orb_true_r. Qed.
Lemma no_nl_has l : no_nl l -> has_nl l = false.
Proof. induction 1; simpl; auto. now rewrite H, IHForall. Qed.
Lemma no_nl_split l : no_nl l -> split_line l = (l, []).
Proof. induction 1; simpl; auto. now rewrite H, IHForall. Qed.
Lemma getl_app old l r : no_nl l -> getl old {| f_eof := false; f_left := l ++ NL :: r |} = (true, l, {| f_eof := false; f_left := r |}).
Proof.
  intros F. unfold getl. cbn [f_eof f_left]. destruct (l ++ NL :: r) eqn:E; [destruct l; discriminate|]. rewrite <- E, split_line_app, has_nl_app by auto. reflexivity.
Qed.
Lemma getl_last old l : no_nl l -> l <> [] -> getl old {| f_eof := false; f_left := l |} = (true, l, {| f_eof := true; f_left := [] |}).
Proof.
  intros F N. unfold getl. cbn [f_eof f_left]. destruct l as [|c l]; [congruence|]. rewrite no_nl_split, no_nl_has by auto. reflexivity.
Qed.

(** Comment lines: the text after the % of each. *)
Definition comments (cs : list (list ascii)) : list ascii := flat_map (fun c => "%" :: c ++ [NL]) cs.
Lemma comments_cons c cs t : comments (c :: cs) ++ t = ("%" :: c) ++ NL :: comments cs ++ t.
Proof. unfold comments. cbn [flat_map app]. rewrite <- !app_assoc. reflexivity. Qed.
Lemma percent_no_nl c : no_nl c -> no_nl ("%" :: c).
Proof. intros H. constructor; auto. Qed.

Lemma skip_comments_ok cs : forall fuel old l r, Forall no_nl cs -> no_nl l -> (forall c l', l = c :: l' -> Ascii.eqb c "%" = false) ->
  (List.length cs < fuel)%nat -> skip_percent fuel old {| f_eof := false; f_left := comments cs ++ l ++ NL :: r |} = Ok (l, {| f_eof := false; f_left := r |}).
Proof.
  induction cs as [|c cs IH]; intros fuel old l r F NL1 ND HF; (destruct fuel as [|fuel]; [simpl in HF; lia|]); cbn [skip_percent].
  - cbn [comments flat_map app]. rewrite getl_app by auto. destruct l as [|x l]; auto. now rewrite (ND x l eq_refl).
  - inversion F; subst. rewrite comments_cons. rewrite getl_app by (apply percent_no_nl; auto). change (Ascii.eqb "%" "%") with true. cbn iota. apply IH; auto. simpl in HF. lia.
Qed.
(** Nothing after the comments. *)
Lemma skip_comments_end cs : forall fuel old, Forall no_nl cs -> (List.length cs < fuel)%nat ->
  skip_percent fuel old {| f_eof := false; f_left := comments cs |} = Ok ([], {| f_eof := true; f_left := [] |}).
Proof.
  induction cs as [|c cs IH]; intros fuel old F HF; (destruct fuel as [|fuel]; [simpl in HF; lia|]); cbn [skip_percent].
  - reflexivity.
  - inversion F; subst. rewrite <- (app_nil_r (comments (c :: cs))), comments_cons, app_nil_r. rewrite getl_app by (apply percent_no_nl; auto).
    change (Ascii.eqb "%" "%") with true. cbn iota. apply IH; auto. simpl in HF. lia.
Qed.
(** The last comment is not ended by a newline. *)
Lemma skip_comments_cut cs c : forall fuel old, Forall no_nl cs -> no_nl c -> (S (List.length cs) < fuel)%nat ->
  skip_percent fuel old {| f_eof := false; f_left := comments cs ++ "%" :: c |} = Ok ("%" :: c, {| f_eof := true; f_left := [] |}).
Proof.
  induction cs as [|x cs IH]; intros fuel old F NC HF; (destruct fuel as [|fuel]; [simpl in HF; lia|]); cbn [skip_percent].
  - cbn [comments flat_map app]. rewrite getl_last by (try discriminate; apply percent_no_nl; auto). change (Ascii.eqb "%" "%") with true. cbn iota.
    destruct fuel as [|fuel]; [simpl in HF; lia|]. reflexivity.
  - inversion F; subst. rewrite comments_cons. rewrite getl_app by (apply percent_no_nl; auto).
    change (Ascii.eqb "%" "%") with true. cbn iota. apply IH; auto. simpl in HF. lia.
Qed.
Lemma comments_len cs : (List.length cs <= List.length (comments cs))%nat.
Proof. induction cs as [|c cs IH]; [auto|]. rewrite <- (app_nil_r (comments (c :: cs))), comments_cons, app_nil_r, app_length. cbn [List.length]. lia. Qed.

(** ** Entries *)
Lemma skip_blank s c t : blank s -> is_space c = false -> skip_ws (s ++ c :: t) = c :: t.
Proof. induction 1; intros H1; cbn [app skip_ws]; [now rewrite H1|]. rewrite H. auto. Qed.
Lemma skip_all s : blank s -> skip_ws s = [].
Proof. induction 1; simpl; auto. now rewrite H. Qed.
Lemma extract_blank old s z t : blank s -> 0 <= z < SZ -> ends t -> extract_size old (stream_of (s ++ print_nat z ++ t)) = (Some z, stream_of t).
Proof.
  intros B Hz E. rewrite <- (@extract_size_print0 old z t Hz E). destruct (print_nat_head (n := z)) as (c & r & EQ & D); [lia|].
  unfold extract_size, extract. cbn [s_good negb stream_of s_left]. rewrite EQ. cbn [app]. rewrite skip_blank by (auto; apply digit_plain in D; tauto).
  replace (skip_ws (c :: r ++ t)) with (c :: r ++ t); auto. cbn [skip_ws]. apply digit_plain in D. destruct D as (-> & _). reflexivity.
Qed.
Lemma extract_end old s good : blank s -> exists t, extract_size old {| s_good := good; s_left := s |} = (old, {| s_good := false; s_left := t |}).
Proof. intros B. unfold extract_size, extract. destruct good; cbn [s_good negb s_left]; [rewrite skip_all by auto|]; eauto. Qed.

(** Numbers, each followed by at least one blank. *)
Definition entries (es : list (Z * list ascii)) : list ascii := flat_map (fun e => print_nat (fst e) ++ snd e) es.
Definition entry_ok (e : Z * list ascii) : Prop := 0 <= fst e < SZ /\ snd e <> [] /\ blank (snd e).
Lemma blank_ends s t : blank s -> s <> [] -> ends (s ++ t).
Proof.
  intros B N. destruct s as [|c s]; [congruence|]. inversion B; subst. unfold ends. cbn. destruct (is_digit c) eqn:E; auto. apply digit_plain in E. destruct E as (E & _). congruence.
Qed.
Lemma int_token_print lead z s t : blank lead -> 0 <= z <= 2 ^ 53 -> blank s -> s <> [] -> int_token (lead ++ print_nat z ++ s ++ t) = true.
Proof.
  intros B Hz Bs N. unfold int_token. destruct (print_nat_head (n := z)) as (c & r & EQ & D); [lia|].
  assert (SK : skip_ws (lead ++ print_nat z ++ s ++ t) = print_nat z ++ s ++ t) by (rewrite EQ; cbn [app]; apply skip_blank; auto; apply digit_plain in D; tauto).
  assert (R := @read_print z (s ++ t) ltac:(lia) (@blank_ends s t Bs N)). rewrite SK. rewrite EQ in *. cbn [app] in *. rewrite R. cbn [starts_digit]. rewrite D.
  replace (z <=? 2 ^ 53) with true by (symmetry; apply Z.leb_le; lia). destruct s as [|x s]; [congruence|]. inversion Bs; subst. now cbn [andb app].
Qed.

Section Fill.
Variables (W : nat) (real : bool).
Hypothesis HR : real = true -> (Z.of_nat W <= 2 ^ 53).
(** What an entry becomes. *)
Definition stored (e : Z * list ascii) : nat := if real then Z.to_nat (fst e - 1) else to_id W (fst e).
Definition storable (e : Z * list ascii) : Prop := entry_ok e /\ (real = true -> 1 <= fst e <= Z.of_nat W).

Lemma store_ok e : storable e -> vec_store W real (fst e) = Ok (stored e).
Proof.
  intros [_ H]. unfold vec_store, stored. destruct real; auto. specialize (H eq_refl).
  replace (1 <=? fst e) with true by (symmetry; apply Z.leb_le; lia). replace (fst e <=? Z.of_nat W) with true by (symmetry; apply Z.leb_le; lia). reflexivity.
Qed.
Lemma vec_fill_app es : forall k lead old t, Forall storable es -> blank lead ->
  vec_fill W real (List.length es + k) old (stream_of (lead ++ entries es ++ t)) =
    match es with
    | [] => vec_fill W real k old (stream_of (lead ++ t))
    | _ => match vec_fill W real k (Some (fst (last es (0, [])))) (stream_of (snd (last es (0, [])) ++ t)) with
           | Some (Ok l) => Some (Ok (map stored es ++ l))
           | r => r
           end
    end.
Proof.
  induction es as [|e es IH]; intros k lead old t F B; [reflexivity|]. inversion F as [|? ? HE F']; subst. assert (HS := store_ok HE). destruct HE as [(Hz & N & Bs) HV].
  cbn [List.length Nat.add vec_fill entries flat_map]. fold (entries es). rewrite <- !app_assoc.
  replace (real && s_good (stream_of (lead ++ print_nat (fst e) ++ snd e ++ entries es ++ t)) && negb (int_token (s_left (stream_of (lead ++ print_nat (fst e) ++ snd e ++ entries es ++ t))))) with false.
  2:{ destruct real; auto. cbn [stream_of s_left s_good andb]. rewrite int_token_print; auto. specialize (HV eq_refl). specialize (HR eq_refl). lia. }
  rewrite extract_blank by (auto; apply blank_ends; auto). cbn [use bind]. rewrite HS.
  rewrite IH by auto. destruct es as [|e' es].
  - cbn [last map app entries flat_map]. reflexivity.
  - change (last (e :: e' :: es) (0, [])) with (last (e' :: es) (0, [])). destruct (vec_fill W real k _ _) as [[l| |]|]; auto.
Qed.

(** A number that ends the file. *)
Lemma vec_fill_one lead z old : blank lead -> 0 <= z < SZ -> (real = true -> 1 <= z <= Z.of_nat W) ->
  vec_fill W real 1 old (stream_of (lead ++ print_nat z)) = Some (Ok [stored (z, [])]).
Proof.
  intros B Hz HV. cbn [vec_fill]. assert (EN : ends []) by reflexivity. rewrite <- (app_nil_r (print_nat z)).
  replace (real && _ && _) with false.
  2:{ destruct real; auto. cbn [stream_of s_left s_good andb]. specialize (HV eq_refl). specialize (HR eq_refl). unfold int_token. destruct (print_nat_head (n := z)) as (c & r & EQ & D); [lia|].
    assert (SK : skip_ws (lead ++ print_nat z ++ []) = print_nat z ++ []) by (rewrite EQ; cbn [app]; apply skip_blank; auto; apply digit_plain in D; tauto).
    assert (R := @read_print z [] ltac:(lia) EN). rewrite SK. rewrite EQ in *. cbn [app] in *. rewrite R. cbn [starts_digit]. rewrite D. replace (z <=? 2 ^ 53) with true by (symmetry; apply Z.leb_le; lia). reflexivity. }
  rewrite extract_blank by auto. cbn [use bind]. assert (E : vec_store W real z = Ok (stored (z, []))).
  { unfold vec_store, stored. cbn [fst]. destruct real; auto. specialize (HV eq_refl). replace (1 <=? z) with true by (symmetry; apply Z.leb_le; lia). replace (z <=? Z.of_nat W) with true by (symmetry; apply Z.leb_le; lia). reflexivity. }
  now rewrite E.
Qed.

(** With nothing but blanks left, the variable keeps its value. *)
Lemma vec_fill_rest k : forall old s good, blank s -> vec_store W real old = Ok (stored (old, [])) ->
  vec_fill W real k (Some old) {| s_good := good; s_left := s |} = Some (Ok (repeat (stored (old, [])) k)).
Proof.
  induction k as [|k IH]; intros old s good B E; auto. cbn [vec_fill repeat s_good s_left].
  assert (IT : int_token s = true) by (unfold int_token; now rewrite skip_all). rewrite IT, andb_false_r.
  destruct (extract_end (Some old) good B) as (t & EX). rewrite EX. cbn [use bind]. rewrite E.
  assert (G : forall t', vec_fill W real k (Some old) {| s_good := false; s_left := t' |} = Some (Ok (repeat (stored (old, [])) k))).
  { clear - E. induction k as [|k IH]; intros t'; auto. cbn [vec_fill s_good s_left]. rewrite andb_false_r. cbn [andb].
    unfold extract_size, extract. cbn [s_good negb use bind]. rewrite E, IH. reflexivity. }
  now rewrite G.
Qed.
Lemma vec_fill_none k s good : blank s -> vec_fill W real (S k) None {| s_good := good; s_left := s |} = Some Ub.
Proof.
  intros B. cbn [vec_fill s_good s_left]. assert (IT : int_token s = true) by (unfold int_token; now rewrite skip_all). rewrite IT, andb_false_r.
  destruct (extract_end None good B) as (t & EX). rewrite EX. reflexivity.
Qed.
End Fill.

(** ** The file up to the entries *)
Definition vfile (w1 w2 w3 w4 : list ascii) (cs : list (list ascii)) (n0 n1 : Z) (body : list ascii) : list ascii :=
  line5 (txt "%%MatrixMarket") w1 w2 w3 w4 ++ NL :: comments cs ++ (print_nat n0 ++ SP :: print_nat n1) ++ NL :: body.
Lemma mm_word : word (txt "%%MatrixMarket").
Proof. split; [discriminate|repeat constructor]. Qed.

Lemma read_vfile W debug w1 w2 w3 w4 cs n0 n1 body :
  word w1 -> word w2 -> word w3 -> word w4 -> w4 = txt "symmetric" \/ w4 = txt "general" -> Forall no_nl cs -> 0 <= n0 < SZ -> 0 <= n1 < SZ ->
  read_mm_vector W debug (vfile w1 w2 w3 w4 cs n0 n1 body) =
    if debug && negb (n1 =? 1) then Some Ub else vec_fill W (text_eqb w3 (txt "real")) (Z.to_nat n0) None (stream_of body).
Proof.
  intros W1 W2 W3 W4 SY FC H0 H1. unfold read_mm_vector, vfile. rewrite getl_app by (apply line5_no_nl; auto using mm_word).
  rewrite words_line5 by (auto using mm_word). cbn [nth]. rewrite text_eqb_refl. cbn [negb].
  replace (text_eqb w4 (txt "symmetric") || text_eqb w4 (txt "general")) with true by (destruct SY as [->| ->]; reflexivity). cbn [negb].
  destruct (print_nat_head (n := n0)) as (c & q & E & D); [lia|].
  rewrite skip_comments_ok; auto.
  - rewrite extract_size_print0 by (auto; reflexivity).
    replace (SP :: print_nat n1) with ([SP] ++ print_nat n1 ++ []) by (now rewrite app_nil_r).
    rewrite extract_size_print; [|right; now left|auto|reflexivity]. cbn [use bind]. destruct debug; cbn [andb bind negb].
    + destruct (n1 =? 1); reflexivity.
    + reflexivity.
  - apply Forall_app. split; [apply printn_no_nl; lia|]. constructor; [reflexivity|apply printn_no_nl; lia].
  - intros x l' E'. rewrite E in E'. injection E' as <- _. now apply digit_plain in D.
  - rewrite app_length. cbn [List.length]. rewrite app_length. assert (X := comments_len cs). lia.
Qed.
