(** C17, C51: a file cut short anywhere is found to be cut short. *)
From Coq Require Import List Arith Lia.
From Verif Require Import Base SerialModel SerialProofs SerialProperties.
Import ListNotations.
Set Implicit Arguments.

(** A reader that takes some first bytes: it needs all of them and looks at no others. *)
Definition takes {A} (f : list nat -> rd A) (s : list nat) (a : A) (r : list nat) : Prop :=
  exists p, s = p ++ r /\ (forall r', f (p ++ r') = RdOk a r') /\ forall p' q, p = p' ++ q -> q <> [] -> f p' = RdTruncated.
Definition steady {A} (f : list nat -> rd A) : Prop := forall s a r, f s = RdOk a r -> takes f s a r.
Lemma steady_ret A (a : A) : steady (fun s => RdOk a s).
Proof. intros s a' r [= <- <-]. exists []. split; [reflexivity|]. split; [reflexivity|]. intros p' q E N. symmetry in E. apply app_eq_nil in E. now destruct E. Qed.
Lemma steady_read cap k : steady (read_into cap k).
Proof.
  intros s a r H. unfold read_into in H. destruct (k <=? cap) eqn:C; [|discriminate]. destruct (Nat.leb_spec k (length s)) as [L|]; [|discriminate]. injection H as <- <-.
  exists (firstn k s). assert (E := firstn_length_le s L). split; [now rewrite firstn_skipn|]. split.
  - intros r'. unfold read_into. rewrite C, app_length, E. destruct (Nat.leb_spec k (k + length r')); [|lia]. rewrite firstn_app, skipn_app, E, Nat.sub_diag, firstn_O, app_nil_r. rewrite (firstn_all2 (firstn k s)) by lia. rewrite skipn_all2 by lia. reflexivity.
  - intros p' q P N. unfold read_into. rewrite C. apply (f_equal (@length _)) in P. rewrite E, app_length in P. destruct q; [congruence|]. cbn [length] in P. destruct (Nat.leb_spec k (length p')); [lia|reflexivity].
Qed.
Lemma steady_bind A B (f : list nat -> rd A) (g : A -> list nat -> rd B) : steady f -> (forall a, steady (g a)) -> steady (fun s => rd_bind (f s) g).
Proof.
  intros F G s b r H. destruct (f s) as [a s1| |] eqn:E; try discriminate. cbn [rd_bind] in H.
  destruct (F _ _ _ E) as (p & -> & P1 & P2). destruct (G _ _ _ _ H) as (q & -> & Q1 & Q2). exists (p ++ q). split; [apply app_assoc|]. split.
  - intros r'. rewrite <- app_assoc, P1. exact (Q1 r').
  - intros p' t X N. apply app_eq_app in X. destruct X as (l & [[X1 X2]|[X1 X2]]).
    + destruct l as [|x l].
      * rewrite app_nil_r in X1. subst p'. cbn [app] in X2. subst t. rewrite <- (app_nil_r p), P1. cbn [rd_bind]. apply (Q2 [] q); auto.
      * rewrite (P2 p' (x :: l) X1) by discriminate. reflexivity.
    + subst p'. rewrite P1. cbn [rd_bind]. exact (Q2 l t X2 N).
Qed.
Lemma steady_size : steady read_size.
Proof. apply steady_bind; [apply steady_read|intros; apply steady_ret]. Qed.
Lemma steady_col c n : steady (deser_col c n).
Proof. apply steady_bind; [apply steady_size|]. intros st. apply steady_bind; [apply steady_size|]. intros el. apply steady_bind; [apply steady_read|]. intros; apply steady_ret. Qed.
Lemma steady_cols tys : forall n, steady (deser_cols tys n).
Proof. induction tys as [|c t IH]; intros n; [apply steady_ret|]. cbn [deser_cols]. apply steady_bind; [apply steady_col|]. intros col. apply steady_bind; [apply IH|]. intros; apply steady_ret. Qed.
Lemma steady_soa tys : steady (deser_soa tys).
Proof. apply steady_bind; [apply steady_size|]. intros st. apply steady_bind; [apply steady_size|]. intros _. apply steady_cols. Qed.
Lemma steady_aos c : steady (deser_aos c).
Proof. apply steady_bind; [apply steady_size|]. intros st. apply steady_bind; [apply steady_size|]. intros el. apply steady_bind; [apply steady_read|]. intros; apply steady_ret. Qed.
Lemma steady_sizes k : steady (read_sizes k).
Proof. induction k as [|k IH]; [apply steady_ret|]. cbn [read_sizes]. apply steady_bind; [apply steady_size|]. intros v. apply steady_bind; [apply IH|]. intros; apply steady_ret. Qed.
Lemma steady_el d k tys : steady (deser_el d k tys).
Proof.
  apply steady_bind; [apply steady_read|]. intros _. apply steady_bind; [apply steady_read|]. intros _. apply steady_bind; [apply steady_sizes|]. intros cards.
  apply steady_bind; [apply steady_read|]. intros _. apply steady_bind; [apply steady_soa|]. intros; apply steady_ret.
Qed.
Lemma steady_csr isz tys : steady (deser_csr isz tys).
Proof.
  apply steady_bind; [apply steady_read|]. intros _. apply steady_bind; [apply steady_read|]. intros nb. apply steady_bind; [apply steady_aos|]. intros ind.
  apply steady_bind; [apply steady_soa|]. intros; apply steady_ret.
Qed.
Lemma steady_cut A (f : list nat -> rd A) s a : steady f -> f s = RdOk a [] -> forall cut lost, s = cut ++ lost -> lost <> [] -> f cut = RdTruncated.
Proof. intros F H cut lost E N. destruct (F _ _ _ H) as (p & P & _ & Q). rewrite app_nil_r in P. subst s. exact (Q cut lost (eq_sym P) N). Qed.

(** An edge list's file that lost any number of bytes at its end: reading it hits the end of the file, whatever the receiver's
    directedness; it neither succeeds nor writes past a buffer. *)
Theorem C17_truncated (x : stored_edge_list) d cut lost : Forall (fun v => v < 256 ^ 8) (s_cards x) -> columns_wf (s_cols x) ->
  ser_el x = cut ++ lost -> lost <> [] -> deser_el d (length (s_cards x)) (map c_size (s_cols x)) cut = RdTruncated.
Proof.
  intros HC HW. apply (@steady_cut _ (deser_el d (length (s_cards x)) (map c_size (s_cols x))) (ser_el x) (mkSel d (s_cards x) false (s_cols x))); [apply steady_el|].
  rewrite <- (app_nil_r (ser_el x)). exact (@C17_directedness_is_not_checked x d [] HC HW).
Qed.
(** The same for a stored index with eight bytes per index. *)
Theorem C51_truncated (x : stored_csr) n bytes cut lost : sc_N x < 256 ^ 8 -> column_wf n (sc_ind x) -> c_size (sc_ind x) = 8 -> columns_wf (sc_cols x) ->
  ser_csr 8 x = Ok bytes -> bytes = cut ++ lost -> lost <> [] -> deser_csr 8 (map c_size (sc_cols x)) cut = RdTruncated.
Proof.
  intros HN HI H8 HC E. destruct (@C51_csr_roundtrip_wide_index x n [] HN HI H8 HC) as (bytes' & E' & R). rewrite E in E'. injection E' as <-. rewrite app_nil_r in R.
  apply (@steady_cut _ (deser_csr 8 (map c_size (sc_cols x))) bytes x); [apply steady_csr|exact R].
Qed.

(** ** Examples: a list of one edge without its last byte, and without everything after the cardinality. *)
Definition ex_sel : stored_edge_list := mkSel 1 [3] true [mkCol 2 [[1; 0]]; mkCol 2 [[2; 0]]].
Example C17_truncated_ex : deser_el 1 1 [2; 2] (firstn (length (ser_el ex_sel) - 1) (ser_el ex_sel)) = RdTruncated /\ deser_el 1 1 [2; 2] (firstn 39 (ser_el ex_sel)) = RdTruncated.
Proof.
  assert (B : forall v, v < 256 -> v < 256 ^ 8) by apply below_pow.
  assert (W : columns_wf (s_cols ex_sel)).
  { split; [discriminate|]. split; [apply B; cbn; lia|]. exists 1. apply Forall_forall. intros c [<-|[<-|[]]]; (split; [reflexivity|]; split; [apply B; lia|]; split; [apply B; cbn; lia|]; repeat constructor). }
  assert (C : Forall (fun v => v < 256 ^ 8) (s_cards ex_sel)) by (apply Forall_forall; intros v [<-|[]]; apply B; lia).
  split; (eapply (@C17_truncated ex_sel 1); [exact C|exact W|symmetry; apply firstn_skipn|]); intros E; apply (f_equal (@length nat)) in E; vm_compute in E; discriminate.
Qed.
Example C51_truncated_ex : match ser_csr 8 (mkScsr 1 (mkCol 8 [le_bytes 8 0; le_bytes 8 1]) [mkCol 2 [[5; 0]]]) with Ok b => deser_csr 8 [2] (firstn (length b - 1) b) | _ => RdOverflow end = RdTruncated.
Proof. vm_compute. reflexivity. Qed.
Print Assumptions C17_truncated.
Print Assumptions C51_truncated.
