(** C95: bench/ProcessEdgelist.cpp: a list written as text, processed, and read back in binary is the same list. *)
From Coq Require Import String List Arith ZArith Lia Bool Ascii.
From Verif Require Import EdgeListModel EdgeListProofs CsrProofs2 SerialModel SerialProofs MmModel MmProperties MmvModel ProcModel ProcProofs Base.
Import ListNotations.
Set Implicit Arguments.
Local Open Scope nat_scope.

(** Edges that fit an id type of W values, at most four bytes, and int. *)
Definition edges_ok (W n : nat) (es : list (edge Z)) : Prop :=
  W <= 256 ^ 4 /\ (Z.of_nat W | 2 ^ 64)%Z /\ n < W /\ (2 * Z.of_nat (length es) < 2 ^ 64)%Z /\
  Forall (fun e => esrc e + 1 < W /\ etgt e + 1 < W /\ (- 2 ^ 31 <= eatt e <= 2 ^ 31 - 1)%Z) es.
(** n is the least count that is at least [least] and covers the ids. *)
Definition count_of (least : nat) (es : list (edge Z)) (n : nat) : Prop :=
  least <= n /\ (forall e, In e es -> esrc e < n /\ etgt e < n) /\ forall b, least <= b -> (forall e, In e es -> esrc e < b /\ etgt e < b) -> n <= b.

Lemma pow_le a b : a <= b -> 256 ^ a <= 256 ^ b.
Proof. intros. apply Nat.pow_le_mono_r; [discriminate|assumption]. Qed.
Lemma build_typed W n es : edges_ok W n es -> typed (el_build W n es).
Proof.
  intros (HW & _ & Hn & HL & HF). rewrite Forall_forall in HF.
  assert (I : forall e, In e es -> esrc e + 1 < W /\ etgt e + 1 < W) by (intros e J; destruct (HF e J) as (A & B & _); auto).
  destruct (@build_card _ W n es Hn I) as (_ & _ & C). destruct (push_cols W es (el_new n)) as (E0 & E1 & E2). cbn [el_new el_c0 el_c1 el_ca app] in *.
  assert (P := pow_le (a := 4) (b := 8) ltac:(repeat constructor)).
  assert (E8 : forall k, (Z.of_nat k < 2 ^ 64)%Z -> k < 256 ^ 8).
  { intros k L. apply Nat2Z.inj_lt. rewrite Nat2Z.inj_pow. exact L. }
  assert (LE : el_num_vertices (el_build W n es) <= W - 1) by (clear - C I Hn; apply C; [lia|intros e J; destruct (I e J); lia]).
  unfold el_num_vertices, el_build, el_close_for_push_back in *. cbn [el_card el_c0 el_c1 el_ca] in *. constructor; cbn [el_card el_c0 el_c1 el_ca].
  - apply Nat.lt_le_trans with (256 ^ 4); [|exact P]. apply Nat.le_lt_trans with (W - 1); [exact LE|]. clear - HW Hn. lia.
  - rewrite E2, map_length. apply E8. lia.
  - now rewrite E0, E2, !map_length.
  - now rewrite E1, E2, !map_length.
  - rewrite E0, E1. apply Forall_forall. intros v J. apply in_app_or in J. destruct J as [J|J]; apply in_map_iff in J; destruct J as (e & <- & J); destruct (I e J); cbn beta in *; clear - HW H H0; lia.
  - rewrite E2. apply Forall_forall. intros z J. apply in_map_iff in J. destruct J as (e & <- & J). apply (HF e J).
Qed.

Lemma held_build u v W n es : edges_ok W n es -> held (mkSel u [el_card (el_build W n es)] false (s_cols (stored_of v (el_build W n es)))) = Some (el_num_vertices (el_build W n es), es).
Proof.
  intros H. assert (T := build_typed H). unfold held. cbn [s_cards s_cols stored_of c_elems]. assert (I := t_ids T). apply Forall_app in I. destruct I as [I0 I1].
  rewrite !ids_back, vals_back by (auto; apply (t_vals T)). change (Some (el_num_vertices (el_build W n es), el_view (el_build W n es)) = Some (el_num_vertices (el_build W n es), es)). now rewrite build_view.
Qed.
Lemma view_ids (es : list (edge Z)) : combine (map esrc es) (map etgt es) = map fst es.
Proof. induction es as [|[[i j] a] es IH]; cbn; [reflexivity|]. now rewrite IH. Qed.
Lemma held_ids_build u v W n es : edges_ok W n es -> held_ids (mkSel u [el_card (el_build W n es)] false (firstn 2 (s_cols (stored_of v (el_build W n es))))) = Some (el_num_vertices (el_build W n es), map fst es).
Proof.
  intros H. assert (T := build_typed H). unfold held_ids. cbn [s_cards s_cols stored_of c_elems firstn]. assert (I := t_ids T). apply Forall_app in I. destruct I as [I0 I1].
  rewrite !ids_back by auto. assert (E : combine (el_c0 (el_build W n es)) (el_c1 (el_build W n es)) = map fst es); [|now rewrite E]. destruct (push_cols W es (el_new n)) as (E0 & E1 & _). unfold el_build, el_close_for_push_back. cbn [el_c0 el_c1]. rewrite E0, E1. apply view_ids.
Qed.
Lemma ser_is_nw x rest W und dir k tys : load_graph W und dir k tys (ser_el x ++ rest) = LBin (deser_el dir k tys (ser_el x ++ rest)).
Proof.
  unfold load_graph. assert (E : exists t, map ascii_of_nat (ser_el x ++ rest) = txt "NW" ++ SP :: t) by (unfold ser_el, magic; cbn [app map]; eexists; reflexivity).
  destruct E as (t & ->). reflexivity.
Qed.
Lemma build_count W n es : edges_ok W n es -> count_of n es (el_num_vertices (el_build W n es)).
Proof. intros (_ & _ & Hn & _ & F). rewrite Forall_forall in F. apply build_card; [exact Hn|]. intros e J. destruct (F e J) as (A & B & _). auto. Qed.

(** A text written by write_mm with int attributes, "general" for a directed list and "symmetric" for an undirected one, is processed.
    Reading the file into a list with int attributes gives the same edges in the same order with the same values, closed, and the least
    vertex count covering [n] and the ids; load_graph into a list without attributes gives the same pairs and leaves the values unread. *)
Theorem C95_processed W n es (und und' : bool) dir rest : edges_ok W n es ->
  exists file m, process W und (write_int W und (if und then "symmetric" else "general")%string (el_build W n es)) = Ok file /\ count_of n es m /\
    (exists x, deser_el dir 1 [4; 4; 4] (file ++ rest) = RdOk x rest /\ held x = Some (m, es) /\ s_open x = false /\ s_dir x = dir) /\
    (exists y left, load_graph W und' dir 1 [4; 4] (file ++ rest) = LBin (RdOk y (left ++ rest)) /\ held_ids y = Some (m, map fst es) /\ s_open y = false /\ s_dir y = dir /\ length left = 16 + 4 * length es).
Proof.
  intros H. exists (ser_el (stored_of und (el_build W n es))), (el_num_vertices (el_build W n es)). assert (T := build_typed H). assert (H' := H). destruct H' as (HW & HD & Hn & HL & HF). split; [|split; [now apply build_count|split]].
  - assert (F : fits W n es). { split; [|split; [|split]]; auto. clear - Hn; lia. apply Z.le_lt_trans with (Z.of_nat (256 ^ 4)); [clear - HW Hn; apply Nat2Z.inj_le; lia|]. rewrite Nat2Z.inj_pow. reflexivity. }
    assert (I : ids_ok W es) by (eapply Forall_impl; [|exact HF]; cbn beta; intros e (A & B & _); clear - A B; lia).
    assert (V : vals_ok (- 2 ^ 31) (2 ^ 31 - 1) es) by (eapply Forall_impl; [|exact HF]; cbn beta; intros e (_ & _ & C); exact C).
    unfold process. destruct und; [rewrite C45_undirected_integer by (auto; discriminate)|rewrite C45_directed_integer by (auto; discriminate)]; reflexivity.
  - eexists. split; [apply (@stored_back und dir (el_build W n es) rest T)|]. split; [|split; reflexivity]. exact (@held_build dir und W n es H).
  - do 2 eexists. split; [rewrite ser_is_nw; f_equal; apply (@stored_short und dir (el_build W n es) rest T)|]. split; [exact (@held_ids_build dir und W n es H)|]. split; [reflexivity|]. split; [reflexivity|].
    unfold ser_col, w64. rewrite !app_length, !le_bytes_length. cbn [c_elems c_size]. assert (L : length (el_ca (el_build W n es)) = length es). { destruct (push_cols W es (el_new n)) as (_ & _ & E2). unfold el_build, el_close_for_push_back. cbn [el_ca]. rewrite E2. apply map_length. }
    rewrite <- L. clear. assert (G : forall l, length (concat (map (int_bytes 4) l)) = 4 * length l) by (induction l as [|z l IH]; [reflexivity|]; cbn [map concat]; rewrite app_length, int_bytes_length, IH; cbn [length]; lia). rewrite G. unfold size_bytes. lia.
Qed.

(** For every text, whatever wrote it: a file is written exactly when the text is read, and a list of numbers that fit comes back from it. *)
Theorem C95_any_text W (und : bool) text el rest dir :
  (if und then read_und_val W (- 2 ^ 31) (2 ^ 31 - 1) text else read_dir_val W (- 2 ^ 31) (2 ^ 31 - 1) text) = Ok el -> typed el ->
  exists file x, process W und text = Ok file /\ deser_el dir 1 [4; 4; 4] (file ++ rest) = RdOk x rest /\
    held x = Some (el_card el, combine (combine (el_c0 el) (el_c1 el)) (el_ca el)).
Proof.
  intros R T. exists (ser_el (stored_of und el)). eexists. split; [unfold process; now rewrite R|]. split; [apply (@stored_back und dir el rest T)|].
  unfold held. cbn [s_cards s_cols stored_of c_elems]. assert (I := t_ids T). apply Forall_app in I. destruct I as [I0 I1]. rewrite !ids_back, vals_back by (auto; apply (t_vals T)). reflexivity.
Qed.
Theorem C95_unread W (und : bool) text : (forall el, (if und then read_und_val W (- 2 ^ 31) (2 ^ 31 - 1) text else read_dir_val W (- 2 ^ 31) (2 ^ 31 - 1) text) <> Ok el) -> forall file, process W und text <> Ok file.
Proof. intros R file. unfold process. destruct und; [destruct (read_und_val _ _ _ _) as [el| |] eqn:E|destruct (read_dir_val _ _ _ _) as [el| |] eqn:E]; cbn [bind]; try discriminate; intros _; exact (R el eq_refl). Qed.

(** With both options both files are written, from the same text. *)
Theorem C95_both W d u text a c : process_main W d u text = Ok (a, c) ->
  (if d then exists b, a = Some b /\ process W false text = Ok b else a = None) /\ (if u then exists b, c = Some b /\ process W true text = Ok b else c = None).
Proof.
  unfold process_main. intros E. assert (forall (o : bool) w, (if o then do b <- process W w text ; Ok (Some b) else Ok None) = Ub \/ (if o then do b <- process W w text ; Ok (Some b) else Ok None) = OutOfFuel \/
    exists r, (if o then do b <- process W w text ; Ok (Some b) else Ok None) = Ok r /\ if o then exists b, r = Some b /\ process W w text = Ok b else r = None) as G.
  { intros [|] w; [destruct (process W w text) as [b| |]; cbn [bind]; [right; right; exists (Some b); split; [reflexivity|now exists b]|now left|right; now left]|right; right; now exists None]. }
  destruct (G d false) as [G1|[G1|(r & G1 & R1)]]; rewrite G1 in E; try discriminate. cbn [bind] in E.
  destruct (G u true) as [G2|[G2|(r' & G2 & R2)]]; rewrite G2 in E; try discriminate. cbn [bind] in E. injection E as -> ->. now split.
Qed.

(** ** Examples *)
Definition ex_es : list (edge Z) := [(0, 3, (-7)%Z); (3, 3, 120%Z); (2, 1, (- 2 ^ 31)%Z)].
Example ex_ok : edges_ok 16 4 ex_es.
Proof. split; [apply Nat.le_trans with (256 ^ 1); [cbn; lia|apply pow_le; repeat constructor]|]. split; [exists (2 ^ 60)%Z; reflexivity|]. split; [lia|]. split; [reflexivity|]. repeat constructor; cbn; try lia; discriminate. Qed.
(** The values cover both signs; the bytes of -7 are 249 255 255 255. *)
Example ex_bytes : exists file, process 16 false (write_int 16 false "general"%string (el_build 16 4 ex_es)) = Ok file /\
  skipn (length file - 12) file = [249; 255; 255; 255; 120; 0; 0; 0; 0; 0; 0; 128].
Proof. eexists. split; [vm_compute; reflexivity|]. vm_compute. reflexivity. Qed.
(** Not Matrix Market. *)
Example ex_unread : process 16 false (txt "1 2 3") = Ub.
Proof. reflexivity. Qed.
Print Assumptions C95_processed.
Print Assumptions C95_any_text.
Print Assumptions C95_unread.
Print Assumptions C95_both.
