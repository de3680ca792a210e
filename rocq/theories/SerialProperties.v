(** C17, C51: binary serialization. *)
From Coq Require Import List Arith Lia.
From Verif Require Import Base SerialModel SerialProofs.
Import ListNotations.
Set Implicit Arguments.

(** What every C++ edge list satisfies: sizes are size_t values, every element image has the size of its
    type, all columns of the struct_of_arrays are equally long, and there is at least one column. *)
Definition column_wf (n : nat) (c : column) : Prop :=
  length (c_elems c) = n /\ n < 256 ^ 8 /\ c_size c < 256 ^ 8 /\ Forall (fun e => length e = c_size c) (c_elems c).
Definition columns_wf (cols : list column) : Prop :=
  cols <> [] /\ length cols < 256 ^ 8 /\ exists n, Forall (column_wf n) cols.

Lemma column_wf_ok n c : column_wf n c -> col_ok c /\ length (c_elems c) = n.
Proof.
  intros (L & F & S & A). unfold col_ok, fits. rewrite L. change size_bytes with 8.
  rewrite Forall_forall in A. auto.
Qed.
Lemma columns_wf_ok cols : columns_wf cols -> soa_ok cols.
Proof.
  intros (NE & F & n & A). split; [|split]; auto. exists n. intros c Hc. apply column_wf_ok.
  rewrite Forall_forall in A. auto.
Qed.

(** C17: for any number of cardinalities and columns, any receiver of the same types, any state of the
    open flag, and anything following in the stream. *)
Theorem C17_edge_list_roundtrip : forall (x : stored_edge_list) (rest : list nat),
  Forall (fun v => v < 256 ^ 8) (s_cards x) -> columns_wf (s_cols x) ->
  deser_el (s_dir x) (length (s_cards x)) (map c_size (s_cols x)) (ser_el x ++ rest)
  = RdOk (mkSel (s_dir x) (s_cards x) false (s_cols x)) rest.
Proof.
  intros x rest HC HW. apply deser_el_ok.
  - rewrite Forall_forall in HC. exact HC.
  - now apply columns_wf_ok.
Qed.

(** Another directedness in the receiving type changes nothing but the directedness (only a warning). *)
Theorem C17_directedness_is_not_checked : forall (x : stored_edge_list) (d : nat) (rest : list nat),
  Forall (fun v => v < 256 ^ 8) (s_cards x) -> columns_wf (s_cols x) ->
  deser_el d (length (s_cards x)) (map c_size (s_cols x)) (ser_el x ++ rest)
  = RdOk (mkSel d (s_cards x) false (s_cols x)) rest.
Proof.
  intros x d rest HC HW. apply deser_el_ok.
  - rewrite Forall_forall in HC. exact HC.
  - now apply columns_wf_ok.
Qed.

Theorem C17_array_of_structs_roundtrip : forall (c : column) (n : nat) (rest : list nat),
  column_wf n c -> deser_aos (c_size c) (ser_aos c ++ rest) = RdOk c rest.
Proof. intros c n rest H. apply deser_aos_ok. exact (proj1 (column_wf_ok H)). Qed.

(** Number of bytes written: 27 + 4 + 8 per cardinality + 1 + 16 + per column 16 + size * count. *)
Theorem C17_size_on_disk : forall (x : stored_edge_list),
  columns_wf (s_cols x) ->
  length (ser_el x) = 48 + 8 * length (s_cards x) + sum (map (fun c => 16 + length (c_elems c) * c_size c) (s_cols x)).
Proof.
  intros x (_ & _ & n & A). unfold ser_el, ser_soa. rewrite !app_length, le_bytes_length.
  assert (W : forall v, length (w64 v) = 8) by (intros; apply w64_length).
  rewrite !W. assert (C : length (concat (map w64 (s_cards x))) = 8 * length (s_cards x)).
  { induction (s_cards x); cbn [map concat length]; auto. rewrite app_length, W. lia. }
  rewrite C. assert (D : length (concat (map ser_col (s_cols x))) = sum (map (fun c => 16 + length (c_elems c) * c_size c) (s_cols x))).
  { induction A as [|c l H A IH]; auto. cbn [map concat]. rewrite app_length, IH. unfold ser_col at 1.
    rewrite !app_length, !W. destruct H as (_ & _ & _ & E). rewrite Forall_forall in E.
    rewrite (concat_const_length _ E). cbn [sum]. lia. }
  rewrite D. change (length magic) with 27. cbn [length]. lia.
Qed.

(** The element size stored in the file is used for the read although the vector holds elements of the
    receiver's type: a stored column of larger elements always overruns the buffer. *)
Theorem C17_larger_stored_elements_overflow : forall (x : stored_edge_list) d before c after small rest_tys rest,
  Forall (fun v => v < 256 ^ 8) (s_cards x) -> columns_wf (s_cols x) ->
  s_cols x = before ++ c :: after -> c_elems c <> [] -> small < c_size c ->
  deser_el d (length (s_cards x)) (map c_size before ++ small :: rest_tys) (ser_el x ++ rest) = RdOverflow.
Proof.
  intros x d before c after small rest_tys rest HC HW E NE HS.
  eapply deser_el_overflow; eauto.
  - rewrite Forall_forall in HC. exact HC.
  - now apply columns_wf_ok.
Qed.

(** C51: the compressed structure transfers sizeof(size_t) bytes at the address of its index_t field. With
    an 8-byte index_t it round-trips; with a smaller one (uint32_t is the default) both directions leave the field. *)
Theorem C51_csr_roundtrip_wide_index : forall (x : stored_csr) n rest,
  sc_N x < 256 ^ 8 -> column_wf n (sc_ind x) -> c_size (sc_ind x) = 8 -> columns_wf (sc_cols x) ->
  exists bytes, ser_csr 8 x = Ok bytes /\ deser_csr 8 (map c_size (sc_cols x)) (bytes ++ rest) = RdOk x rest.
Proof.
  intros x n rest HN HI H8 HC. apply csr_roundtrip; auto.
  - exact (proj1 (column_wf_ok HI)).
  - now apply columns_wf_ok.
Qed.

Theorem C51_csr_narrow_index_overruns : forall (isz : nat) (x : stored_csr) tys bytes,
  isz < 8 -> 34 <= length bytes -> ser_csr isz x = Ub /\ deser_csr isz tys bytes = RdOverflow.
Proof. intros isz x tys bytes H L. now apply csr_overrun. Qed.

(** Examples *)
Lemma below_pow v : v < 256 -> v < 256 ^ 8.
Proof.
  intros H. apply Nat.lt_le_trans with (256 ^ 1); [now rewrite Nat.pow_1_r|]. apply Nat.pow_le_mono_r; lia.
Qed.

(** Three edges 0->1, 1->2, 0->2 with 4-byte ids and a 2-byte attribute, in an open list. *)
Definition ex_cols : list column :=
  [mkCol 4 [[0;0;0;0];[1;0;0;0];[0;0;0;0]]; mkCol 4 [[1;0;0;0];[2;0;0;0];[2;0;0;0]]; mkCol 2 [[7;0];[255;255];[9;1]]].
Definition ex_sel : stored_edge_list := mkSel 1 [3] true ex_cols.
Example ex_cols_wf : columns_wf ex_cols.
Proof.
  split; [discriminate|split; [apply below_pow; simpl; lia|]]. exists 3.
  repeat (apply Forall_cons || apply Forall_nil); (split; [reflexivity|]);
    (split; [apply below_pow; lia|]); (split; [apply below_pow; cbn; lia|]);
    repeat (apply Forall_cons || apply Forall_nil); reflexivity.
Qed.
Example ex_sel_bytes : length (ser_el ex_sel) = 134 /\
  skipn 27 (firstn 40 (ser_el ex_sel)) = [1;0;0;0; 3;0;0;0;0;0;0;0; 1].
Proof. now vm_compute. Qed.
Example ex_sel_roundtrip : deser_el 1 1 [4;4;2] (ser_el ex_sel ++ [42]) = RdOk (mkSel 1 [3] false ex_cols) [42].
Proof. apply (C17_edge_list_roundtrip ex_sel [42]); [apply Forall_cons; [apply below_pow; lia|apply Forall_nil] | apply ex_cols_wf]. Qed.
Example ex_sel_roundtrip_computed : deser_el 1 1 [4;4;2] (ser_el ex_sel ++ [42]) = RdOk (mkSel 1 [3] false ex_cols) [42].
Proof. now vm_compute. Qed.
(** Read back as a list whose ids have 2 bytes. *)
Example ex_sel_overflow : deser_el 1 1 [4;2;2] (ser_el ex_sel) = RdOverflow.
Proof. now vm_compute. Qed.
Example ex_sel_truncated : deser_el 1 1 [4;4;2] (firstn 100 (ser_el ex_sel)) = RdTruncated.
Proof. now vm_compute. Qed.
Example ex_csr : exists bytes, ser_csr 8 (mkScsr 1 (mkCol 8 [[0;0;0;0;0;0;0;0];[2;0;0;0;0;0;0;0]]) [mkCol 1 [[5];[6]]]) = Ok bytes
  /\ length bytes = 108.
Proof. eexists. split; [reflexivity|now vm_compute]. Qed.

Print Assumptions C17_edge_list_roundtrip.
Print Assumptions C17_directedness_is_not_checked.
Print Assumptions C17_array_of_structs_roundtrip.
Print Assumptions C17_size_on_disk.
Print Assumptions C17_larger_stored_elements_overflow.
Print Assumptions C51_csr_roundtrip_wide_index.
Print Assumptions C51_csr_narrow_index_overruns.
