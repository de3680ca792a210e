(** Proofs about bench/ProcessEdgelist.cpp. *)
From Coq Require Import List Arith ZArith Lia Bool Ascii.
From Verif Require Import EdgeListModel EdgeListProofs CsrProofs2 SerialModel SerialProofs MmModel MmvModel ProcModel Base.
Import ListNotations.
Set Implicit Arguments.
Local Open Scope nat_scope.

(** What the bytes of an int mean. *)
Definition int_value (bs : list nat) : Z := let v := Z.of_nat (le_value bs) in if (v <? 2 ^ 31)%Z then v else (v - 2 ^ 32)%Z.
(** The list held by a stored one: with and without a third column. *)
Definition held (x : stored_edge_list) : option (nat * list (nat * nat * Z)) :=
  match s_cards x, s_cols x with
  | [n], [c0; c1; ca] => Some (n, combine (combine (map le_value (c_elems c0)) (map le_value (c_elems c1))) (map int_value (c_elems ca)))
  | _, _ => None
  end.
Definition held_ids (x : stored_edge_list) : option (nat * list (nat * nat)) :=
  match s_cards x, s_cols x with
  | [n], [c0; c1] => Some (n, combine (map le_value (c_elems c0)) (map le_value (c_elems c1)))
  | _, _ => None
  end.
(** A list whose numbers fit their types: 4 bytes for an id, int for the attribute, size_t for the counts. *)
Record typed (el : edge_list Z) : Prop := {
  t_card : el_card el < 256 ^ 8; t_len : length (el_ca el) < 256 ^ 8; t_c0 : length (el_c0 el) = length (el_ca el); t_c1 : length (el_c1 el) = length (el_ca el);
  t_ids : Forall (fun v => v < 256 ^ 4) (el_c0 el ++ el_c1 el); t_vals : Forall (fun z => (- 2 ^ 31 <= z <= 2 ^ 31 - 1)%Z) (el_ca el) }.
Lemma int_bytes_length k : forall z, length (int_bytes k z) = k.
Proof. induction k; intros z; cbn; auto. Qed.
Lemma int_bytes_value k : forall z, Z.of_nat (le_value (int_bytes k z)) = (z mod 256 ^ Z.of_nat k)%Z.
Proof.
  induction k as [|k IH]; intros z; cbn [int_bytes le_value]; [now rewrite Z.mod_1_r|].
  rewrite Nat2Z.inj_add, Nat2Z.inj_mul, IH. assert (P : (0 <= z mod 256 < 256)%Z) by (apply Z.mod_pos_bound; lia). rewrite Z2Nat.id by lia.
  replace (256 ^ Z.of_nat (S k))%Z with (256 * 256 ^ Z.of_nat k)%Z by (rewrite Nat2Z.inj_succ, Z.pow_succ_r; lia). change (Z.of_nat 256) with 256%Z.
  rewrite Z.rem_mul_r; [reflexivity|lia|]. apply Z.pow_pos_nonneg; lia.
Qed.
Lemma int_roundtrip z : (- 2 ^ 31 <= z <= 2 ^ 31 - 1)%Z -> int_value (int_bytes 4 z) = z.
Proof.
  intros H. unfold int_value. rewrite int_bytes_value. change (256 ^ Z.of_nat 4)%Z with 4294967296%Z. change (2 ^ 31)%Z with 2147483648%Z in *. change (2 ^ 32)%Z with 4294967296%Z.
  destruct (Z.ltb_spec (z mod 4294967296) 2147483648) as [L|L]; destruct (Z.lt_ge_cases z 0) as [N|N].
  - rewrite <- (Z.mod_unique z 4294967296 (-1) (z + 4294967296)) in L; lia.
  - now rewrite Z.mod_small by lia.
  - rewrite <- (Z.mod_unique z 4294967296 (-1) (z + 4294967296)); lia.
  - rewrite Z.mod_small in L by lia. lia.
Qed.
Lemma ids_back l : Forall (fun v => v < 256 ^ 4) l -> map le_value (map (le_bytes 4) l) = l.
Proof. induction 1 as [|v l L _ IH]; [reflexivity|]. cbn [map]. rewrite IH, le_roundtrip by exact L. reflexivity. Qed.
Lemma vals_back l : Forall (fun z => (- 2 ^ 31 <= z <= 2 ^ 31 - 1)%Z) l -> map int_value (map (int_bytes 4) l) = l.
Proof. induction 1 as [|v l L _ IH]; [reflexivity|]. cbn [map]. now rewrite IH, int_roundtrip by exact L. Qed.
Lemma small_fits k : k < 256 -> fits k.
Proof. intros H. unfold fits. apply Nat.lt_le_trans with (256 ^ 1); [rewrite Nat.pow_1_r; exact H|]. apply Nat.pow_le_mono_r; [discriminate|]. unfold size_bytes. repeat constructor. Qed.
Lemma stored_cols u el : typed el -> forall c, In c (s_cols (stored_of u el)) -> col_ok c /\ length (c_elems c) = length (el_ca el).
Proof.
  intros [A B C D E F] c I. cbn [stored_of s_cols In] in I. assert (G : forall (T : Type) (f : T -> list nat) l, (forall x, length (f x) = 4) -> length l = length (el_ca el) -> col_ok (mkCol 4 (map f l)) /\ length (c_elems (mkCol 4 (map f l))) = length (el_ca el)).
  { intros T f l Hf L. unfold col_ok. cbn [c_elems c_size]. rewrite map_length, L. split; [|reflexivity]. split; [exact B|]. split; [apply small_fits; lia|]. intros x J. apply in_map_iff in J. destruct J as (y & <- & _). apply Hf. }
  destruct I as [<-|[<-|[<-|[]]]]; apply G; auto using le_bytes_length, int_bytes_length.
Qed.
Lemma stored_back u u' el rest : typed el ->
  deser_el u' 1 [4; 4; 4] (ser_el (stored_of u el) ++ rest) = RdOk (mkSel u' [el_card el] false (s_cols (stored_of u el))) rest.
Proof.
  intros T. assert (X := @deser_el_ok (stored_of u el) u' rest). cbn [stored_of s_cards length] in X. apply X.
  - intros v [<-|[]]. apply (t_card T).
  - split; [discriminate|]. split; [apply small_fits; cbn; lia|]. exists (length (el_ca el)). apply (@stored_cols u el T).
Qed.
Lemma stored_short u u' el rest : typed el ->
  deser_el u' 1 [4; 4] (ser_el (stored_of u el) ++ rest) = RdOk (mkSel u' [el_card el] false (firstn 2 (s_cols (stored_of u el)))) (ser_col (mkCol 4 (map (int_bytes 4) (el_ca el))) ++ rest).
Proof.
  intros T. assert (SC := @stored_cols u el T). unfold deser_el, ser_el. rewrite <- !app_assoc.
  rewrite read_into_app by (simpl; lia). cbn [rd_bind]. rewrite read_into_app by (auto using le_bytes_length). cbn [rd_bind].
  cbn [stored_of s_cards s_cols s_open s_dir] in *. assert (RS := @read_sizes_ok [el_card el]). cbn [length] in RS. rewrite RS by (intros v [<-|[]]; apply (t_card T)). cbn [rd_bind].
  rewrite read_into_app by (simpl; lia). cbn [rd_bind]. unfold deser_soa, ser_soa. rewrite <- !app_assoc.
  set (c0 := mkCol 4 (map (le_bytes 4) (el_c0 el))) in *. set (c1 := mkCol 4 (map (le_bytes 4) (el_c1 el))) in *. set (c2 := mkCol 4 (map (int_bytes 4) (el_ca el))) in *.
  destruct (SC c0 ltac:(now left)) as [K0 L0]. rewrite read_size_w64 by apply K0. cbn [rd_bind]. rewrite read_size_w64 by (apply small_fits; cbn; lia). cbn [rd_bind]. rewrite L0.
  assert (DC := @deser_cols_ok [c0; c1] (length (el_ca el))). cbn [map concat app firstn] in *. rewrite app_nil_r in *. rewrite <- !app_assoc in *. setoid_rewrite <- app_assoc in DC.
  change 4 with (c_size c0) at 1. change 4 with (c_size c1) at 1. rewrite DC; [reflexivity|]. intros c [<-|[<-|[]]]; apply SC; [now left|right; now left].
Qed.
