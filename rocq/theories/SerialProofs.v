From Coq Require Import List Arith Lia.
From Verif Require Import Base SerialModel.
Import ListNotations.
Set Implicit Arguments.
Local Opaque size_bytes.

Definition fits (v : nat) : Prop := v < 256 ^ size_bytes.

Lemma le_bytes_length k : forall v, length (le_bytes k v) = k.
Proof. induction k; intros; simpl; auto. Qed.
Lemma le_roundtrip k : forall v, v < 256 ^ k -> le_value (le_bytes k v) = v.
Proof.
  induction k; intros v H; cbn [le_bytes le_value].
  - rewrite Nat.pow_0_r in H. lia.
  - rewrite IHk.
    + pose proof (Nat.div_mod v 256). lia.
    + rewrite Nat.pow_succ_r' in H. apply Nat.div_lt_upper_bound; lia.
Qed.
Lemma le_value_lt bs : Forall (fun b => b < 256) bs -> le_value bs < 256 ^ length bs.
Proof.
  induction 1; cbn [length le_value].
  - rewrite Nat.pow_0_r. lia.
  - rewrite Nat.pow_succ_r'. lia.
Qed.
Lemma w64_length v : length (w64 v) = size_bytes.
Proof. apply le_bytes_length. Qed.

Lemma read_into_app cap k bs s : length bs = k -> k <= cap -> read_into cap k (bs ++ s) = RdOk bs s.
Proof.
  intros L H. unfold read_into. rewrite (proj2 (Nat.leb_le k cap)) by auto.
  rewrite app_length. rewrite (proj2 (Nat.leb_le k (length bs + length s))) by lia.
  subst k. rewrite firstn_app, Nat.sub_diag, firstn_all, skipn_app, skipn_all, Nat.sub_diag. simpl.
  now rewrite app_nil_r.
Qed.
Lemma read_into_over cap k s : cap < k -> read_into cap k s = RdOverflow.
Proof. intros H. unfold read_into. rewrite (proj2 (Nat.leb_gt k cap)); auto. Qed.
Lemma read_size_w64 v s : fits v -> read_size (w64 v ++ s) = RdOk v s.
Proof.
  intros H. unfold read_size. rewrite read_into_app by (auto using w64_length). cbn [rd_bind].
  unfold w64. now rewrite le_roundtrip.
Qed.

Definition col_ok (c : column) : Prop :=
  fits (length (c_elems c)) /\ fits (c_size c) /\ forall e, In e (c_elems c) -> length e = c_size c.

Lemma concat_const_length (l : list (list nat)) c : (forall e, In e l -> length e = c) -> length (concat l) = length l * c.
Proof. induction l; intros H; simpl; auto. rewrite app_length, IHl; [rewrite H; [lia|now left]|]. intros; apply H; now right. Qed.

Lemma chunks_concat (l : list (list nat)) c : (forall e, In e l -> length e = c) -> chunks c (length l) (concat l) = l.
Proof.
  unfold chunks. intros H. apply nth_ext with (d := []) (d' := []).
  - now rewrite map_length, seq_length.
  - intros i Hi. rewrite map_length, seq_length in Hi. rewrite nth_map_seq by auto.
    revert i Hi. induction l as [|e l IH]; intros i Hi; [simpl in Hi; lia|].
    assert (He : length e = c) by (apply H; now left). destruct i; simpl.
    + rewrite firstn_app, He, Nat.sub_diag, firstn_O, app_nil_r. rewrite <- He. apply firstn_all.
    + rewrite skipn_app. rewrite skipn_all2 by lia. simpl. replace (c + i * c - length e) with (i * c) by lia.
      apply IH; [|simpl in Hi; lia]. intros; apply H; now right.
Qed.

Lemma deser_col_ok c s : col_ok c -> deser_col (c_size c) (length (c_elems c)) (ser_col c ++ s) = RdOk c s.
Proof.
  intros (F1 & F2 & F3). unfold deser_col, ser_col. rewrite <- !app_assoc.
  rewrite read_size_w64 by auto. cbn [rd_bind]. rewrite read_size_w64 by auto. cbn [rd_bind].
  rewrite read_into_app by (auto; now apply concat_const_length). cbn [rd_bind].
  rewrite Nat.sub_diag. simpl. rewrite app_nil_r. rewrite chunks_concat by auto. now destruct c.
Qed.

Lemma deser_cols_ok cols n s : (forall c, In c cols -> col_ok c /\ length (c_elems c) = n) ->
  deser_cols (map c_size cols) n (concat (map ser_col cols) ++ s) = RdOk cols s.
Proof.
  revert s. induction cols as [|c cols IH]; intros s H; simpl; auto.
  destruct (H c (or_introl eq_refl)) as [C N]. rewrite <- app_assoc. rewrite <- N at 1. rewrite deser_col_ok by auto. cbn [rd_bind].
  rewrite IH by (intros; apply H; now right). reflexivity.
Qed.

Definition soa_ok (cols : list column) : Prop :=
  cols <> [] /\ fits (length cols) /\ exists n, forall c, In c cols -> col_ok c /\ length (c_elems c) = n.

Lemma deser_soa_ok cols s : soa_ok cols -> deser_soa (map c_size cols) (ser_soa cols ++ s) = RdOk cols s.
Proof.
  intros (NE & F & n & H). unfold deser_soa, ser_soa. rewrite <- !app_assoc.
  destruct cols as [|c cols]; [congruence|]. destruct (H c (or_introl eq_refl)) as [C N].
  rewrite read_size_w64 by apply C. cbn [rd_bind]. rewrite read_size_w64 by auto. cbn [rd_bind].
  rewrite N. now apply deser_cols_ok.
Qed.

Lemma deser_aos_ok c s : col_ok c -> deser_aos (c_size c) (ser_aos c ++ s) = RdOk c s.
Proof.
  intros (F1 & F2 & F3). unfold deser_aos, ser_aos, ser_col. rewrite <- !app_assoc.
  rewrite read_size_w64 by auto. cbn [rd_bind]. rewrite read_size_w64 by auto. cbn [rd_bind].
  rewrite read_into_app by (auto; now apply concat_const_length). cbn [rd_bind].
  rewrite Nat.sub_diag. simpl. rewrite app_nil_r. rewrite chunks_concat by auto. now destruct c.
Qed.

Lemma read_sizes_ok l s : (forall v, In v l -> fits v) -> read_sizes (length l) (concat (map w64 l) ++ s) = RdOk l s.
Proof.
  revert s. induction l as [|v l IH]; intros s H; simpl; auto.
  rewrite <- app_assoc, read_size_w64 by (apply H; now left). cbn [rd_bind].
  rewrite IH by (intros; apply H; now right). reflexivity.
Qed.

Lemma deser_el_ok x dir s : (forall v, In v (s_cards x) -> fits v) -> soa_ok (s_cols x) ->
  deser_el dir (length (s_cards x)) (map c_size (s_cols x)) (ser_el x ++ s) = RdOk (mkSel dir (s_cards x) false (s_cols x)) s.
Proof.
  intros HC HS. unfold deser_el, ser_el. rewrite <- !app_assoc.
  rewrite read_into_app by (simpl; lia). cbn [rd_bind].
  rewrite read_into_app by (auto using le_bytes_length). cbn [rd_bind].
  rewrite read_sizes_ok by auto. cbn [rd_bind].
  rewrite read_into_app by (simpl; lia). cbn [rd_bind].
  rewrite deser_soa_ok by auto. reflexivity.
Qed.

(** Reading a column into a vector of smaller elements. *)
Lemma deser_col_overflow c c' s : col_ok c -> c_elems c <> [] -> c' < c_size c ->
  deser_col c' (length (c_elems c)) (ser_col c ++ s) = RdOverflow.
Proof.
  intros (F1 & F2 & F3) NE H. unfold deser_col, ser_col. rewrite <- !app_assoc.
  rewrite read_size_w64 by auto. cbn [rd_bind]. rewrite read_size_w64 by auto. cbn [rd_bind].
  rewrite read_into_over; auto. apply Nat.mul_lt_mono_pos_l; auto. destruct (c_elems c); [congruence|simpl; lia].
Qed.

Lemma deser_el_overflow x dir pre c post pre' c' post' s :
  (forall v, In v (s_cards x) -> fits v) -> soa_ok (s_cols x) ->
  s_cols x = pre ++ c :: post -> pre' = map c_size pre -> c' < c_size c -> c_elems c <> [] ->
  deser_el dir (length (s_cards x)) (pre' ++ c' :: post') (ser_el x ++ s) = RdOverflow.
Proof.
  intros HC (NE & F & n & H) E -> HL HN. unfold deser_el, ser_el. rewrite <- !app_assoc.
  rewrite read_into_app by (simpl; lia). cbn [rd_bind].
  rewrite read_into_app by (auto using le_bytes_length). cbn [rd_bind].
  rewrite read_sizes_ok by auto. cbn [rd_bind].
  rewrite read_into_app by (simpl; lia). cbn [rd_bind].
  unfold deser_soa, ser_soa. rewrite <- !app_assoc.
  assert (Q : (match s_cols x with [] => 0 | c0 :: _ => length (c_elems c0) end) = n).
  { destruct (s_cols x) as [|c0 l]; [congruence|]. apply H. now left. }
  rewrite Q. assert (Fn : fits n). { rewrite <- Q. destruct (s_cols x) as [|c0 l]; [congruence|]. apply (H c0). now left. }
  rewrite read_size_w64 by auto. cbn [rd_bind]. rewrite read_size_w64 by auto. cbn [rd_bind].
  rewrite E, map_app, concat_app. simpl. rewrite <- !app_assoc.
  assert (G : forall l s', (forall c, In c l -> col_ok c /\ length (c_elems c) = n) ->
     deser_cols (map c_size l ++ c' :: post') n (concat (map ser_col l) ++ ser_col c ++ s') = RdOverflow).
  { clear - H E HL HN. assert (HC : col_ok c /\ length (c_elems c) = n) by (apply H; rewrite E; apply in_or_app; right; now left).
    induction l as [|d l IH]; intros s' HL'; simpl.
    - destruct HC as [C N]. rewrite <- N. rewrite deser_col_overflow by auto. reflexivity.
    - destruct (HL' d (or_introl eq_refl)) as [C N]. rewrite <- app_assoc. rewrite <- N at 1.
      rewrite deser_col_ok by auto. cbn [rd_bind]. rewrite IH by (intros; apply HL'; now right). reflexivity. }
  rewrite G; auto. intros d Hd. apply H. rewrite E. apply in_or_app. now left.
Qed.

(** CSR *)
Lemma csr_roundtrip isz x s : size_bytes <= isz -> fits (sc_N x) -> col_ok (sc_ind x) -> c_size (sc_ind x) = isz -> soa_ok (sc_cols x) ->
  exists bytes, ser_csr isz x = Ok bytes /\ deser_csr isz (map c_size (sc_cols x)) (bytes ++ s) = RdOk x s.
Proof.
  intros H FN C EI S. unfold ser_csr. rewrite (proj2 (Nat.leb_le _ _) H). eexists. split; [reflexivity|].
  unfold deser_csr. rewrite <- !app_assoc.
  rewrite read_into_app by (simpl; lia). cbn [rd_bind].
  rewrite read_into_app by (auto using le_bytes_length). cbn [rd_bind].
  rewrite <- EI. rewrite (deser_aos_ok _ C). cbn [rd_bind]. rewrite deser_soa_ok by auto. cbn [rd_bind].
  rewrite le_roundtrip by auto. now destruct x.
Qed.
Lemma csr_overrun isz x tys bytes : isz < size_bytes -> 34 <= length bytes ->
  ser_csr isz x = Ub /\ deser_csr isz tys bytes = RdOverflow.
Proof.
  intros H L. unfold ser_csr. rewrite (proj2 (Nat.leb_gt _ _) H). split; auto.
  unfold deser_csr. rewrite <- (firstn_skipn 34 bytes).
  rewrite read_into_app; [|rewrite firstn_length; lia|lia]. cbn [rd_bind]. rewrite read_into_over by auto. reflexivity.
Qed.
