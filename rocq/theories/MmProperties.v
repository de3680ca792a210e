(** C45: Matrix Market files written by write_mm and read back by read_mm.  Vertex ids range over [0, W) where W divides
    2^64 (2^32 for the default id type); attributes are integers in the range [lo, hi] of their type. *)
From Coq Require Import List Arith ZArith Ascii String Bool Lia.
From Verif Require Import Base EdgeListModel EdgeListProofs MmModel MmProofs.
Import ListNotations.
Set Implicit Arguments.
Local Open Scope char_scope.
Local Open Scope Z_scope.

Definition ids_ok {A : Type} (W : nat) (es : list (edge A)) : Prop := Forall (fun e => (esrc e < W)%nat /\ (etgt e < W)%nat) es.
Definition vals_ok (lo hi : Z) (es : list (edge Z)) : Prop := Forall (fun e => lo <= eatt e <= hi) es.
(** sizes representable in size_t *)
Definition fits (A : Type) (W n : nat) (es : list (edge A)) : Prop :=
  (0 < W)%nat /\ (Z.of_nat W | 2 ^ 64) /\ Z.of_nat n < 2 ^ 64 /\ 2 * Z.of_nat (List.length es) < 2 ^ 64.
Definition write_int (W : nat) (und : bool) (symm : string) (el : edge_list Z) : list ascii :=
  write_list W und (fun a => Some (print_int a)) (txt "integer") (txt symm) el.
Definition write_pattern {A : Type} (W : nat) (und : bool) (symm : string) (el : edge_list A) : list ascii :=
  write_list W und (fun _ => None) (txt "pattern") (txt symm) el.
(** an edge and its reverse *)
Definition doubled {A : Type} (es : list (edge A)) : list (edge A) := flat_map (fun e => [e; (etgt e, esrc e, eatt e)]) es.
(** an edge and, unless it is a self loop, its reverse *)
Definition mirrored {A : Type} (es : list (edge A)) : list (edge A) :=
  flat_map (fun e => if (esrc e =? etgt e)%nat then [e] else [e; (etgt e, esrc e, eatt e)]) es.

Lemma card_sz (A : Type) W n (es : list (edge A)) : fits W n es -> 0 <= Z.of_nat (el_num_vertices (el_build W n es)) < SZ.
Proof.
  intros (HW & HD & Hn & _). split; [lia|]. unfold el_num_vertices. change SZ with (2 ^ 64).
  assert (L := @W_le W HD). change SZ with (2 ^ 64) in L.
  destruct es as [|e es]; [exact Hn|].
  assert (B : forall (es : list (edge A)) a, es <> [] -> (el_card (fold_left (fun el e => el_push_back W el (esrc e) (etgt e) (eatt e)) es a) < W)%nat).
  { intros es0 a N. destruct (exists_last N) as (l & x & ->). rewrite fold_left_app. cbn [fold_left el_push_back el_card].
    apply Nat.max_lub_lt; apply Nat.mod_upper_bound; lia. }
  specialize (B (e :: es) (el_new n) ltac:(discriminate)). unfold el_build, el_close_for_push_back. cbn [el_card]. lia.
Qed.
Lemma edge_eta (A : Type) (e : edge A) : (esrc e, etgt e, eatt e) = e.
Proof. destruct e as [[u v] a]. reflexivity. Qed.

(** What both writers and readers have in common. *)
Lemma front (A : Type) W n (es : list (edge A)) und (pz : A -> option Z) wt sy (both := text_eqb sy (txt "general") && und) :
  fits W n es -> In wt [txt "pattern"; txt "integer"] -> In sy [txt "general"; txt "symmetric"] ->
  let t := write_list W und (fun a => value_text (pz a)) wt sy (el_build W n es) in
  exists t1, header t = Ok (text_eqb sy (txt "symmetric"), text_eqb wt (txt "pattern"), t1) /\
    sizes t1 = Ok (Z.of_nat (el_num_vertices (el_build W n es)), Z.of_nat (el_num_vertices (el_build W n es)),
                   Z.of_nat (List.length (raws W both pz es)), lines (raws W both pz es)).
Proof.
  intros F Hw Hs t. unfold t. rewrite write_lines by apply F. fold both. rewrite build_view. eexists. split; [apply header_ok; auto|].
  assert (C := card_sz F). destruct F as (HW & HD & Hn & Hm). apply sizes_ok; auto. rewrite raws_length by auto. change SZ with (2 ^ 64). destruct both; lia.
Qed.

(** the edges pushed: [mirror] for a symmetric file read into a directed list, [both] for an undirected list written as general *)
Definition expand {A B : Type} (mirror both : bool) (bz : edge A -> B) (es : list (edge A)) : list (edge B) :=
  flat_map (fun e => (if mirror && negb (esrc e =? etgt e)%nat then [(esrc e, etgt e, bz e); (etgt e, esrc e, bz e)] else [(esrc e, etgt e, bz e)]) ++
                     (if both then (if mirror && negb (esrc e =? etgt e)%nat then [(etgt e, esrc e, bz e); (esrc e, etgt e, bz e)] else [(etgt e, esrc e, bz e)]) else [])) es.

Ltac begin F E1 E2 HW HD :=
  match type of F with fits ?W ?n ?es => assert (HW := proj1 F); assert (HD := proj1 (proj2 F)); change (2 ^ 64) with SZ in HD end.

Lemma dir_val_int W lo hi n es und sy : fits W n es -> ids_ok W es -> vals_ok lo hi es -> lo <= 0 -> In (txt sy) [txt "general"; txt "symmetric"] ->
  read_dir_val W lo hi (write_int W und sy (el_build W n es)) =
  Ok (el_build W (el_num_vertices (el_build W n es)) (expand (text_eqb (txt sy) (txt "symmetric")) (text_eqb (txt sy) (txt "general") && und) (fun e => eatt e) es)).
Proof.
  intros F I V Hl Hs. destruct (@front Z W n es und (fun a => Some a) (txt "integer") (txt sy) F) as (t1 & E1 & E2); [cbn; auto|auto|].
  begin F E1 E2 HW HD. unfold read_dir_val, write_int.
  change (fun a : Z => Some (print_int a)) with (fun a : Z => value_text (Some a)). rewrite E1. cbn [bind]. rewrite E2. cbn [bind].
  rewrite !Nat2Z.id. change (text_eqb (txt "integer") (txt "pattern")) with false.
  rewrite <- (app_nil_r (lines _)), (@fill_val_lines W lo hi _ Hl).
  - cbn [bind]. rewrite (@raws_entries W HW HD Z Z _ _ _ es (fun e => eatt e)) by (auto; reflexivity). reflexivity.
  - apply raws_sz; auto.
  - apply Forall_forall. intros x X. apply raws_snd in X. destruct X as (e & Ie & ->). exists (eatt e). split; auto.
    unfold vals_ok in V. rewrite Forall_forall in V. auto.
Qed.
Lemma und_val_int W lo hi n es und sy : fits W n es -> ids_ok W es -> vals_ok lo hi es -> lo <= 0 -> In (txt sy) [txt "general"; txt "symmetric"] ->
  read_und_val W lo hi (write_int W und sy (el_build W n es)) =
  Ok (el_build W (el_num_vertices (el_build W n es)) (expand false (text_eqb (txt sy) (txt "general") && und) (fun e => eatt e) es)).
Proof.
  intros F I V Hl Hs. destruct (@front Z W n es und (fun a => Some a) (txt "integer") (txt sy) F) as (t1 & E1 & E2); [cbn; auto|auto|].
  begin F E1 E2 HW HD. unfold read_und_val, write_int.
  change (fun a : Z => Some (print_int a)) with (fun a : Z => value_text (Some a)). rewrite E1. cbn [bind]. rewrite E2. cbn [bind].
  rewrite !Nat2Z.id. change (text_eqb (txt "integer") (txt "pattern")) with false.
  rewrite <- (app_nil_r (lines _)), (@fill_val_lines W lo hi _ Hl).
  - cbn [bind]. rewrite (@raws_entries W HW HD Z Z _ _ _ es (fun e => eatt e)) by (auto; reflexivity). reflexivity.
  - apply raws_sz; auto.
  - apply Forall_forall. intros x X. apply raws_snd in X. destruct X as (e & Ie & ->). exists (eatt e). split; auto.
    unfold vals_ok in V. rewrite Forall_forall in V. auto.
Qed.
Lemma dir_val_pat (A : Type) W lo hi n (es : list (edge A)) und sy : fits W n es -> ids_ok W es -> In (txt sy) [txt "general"; txt "symmetric"] ->
  read_dir_val W lo hi (write_pattern W und sy (el_build W n es)) =
  Ok (el_build W (el_num_vertices (el_build W n es)) (expand (text_eqb (txt sy) (txt "symmetric")) (text_eqb (txt sy) (txt "general") && und) (fun _ => 1) es)).
Proof.
  intros F I Hs. destruct (@front A W n es und (fun a => None) (txt "pattern") (txt sy) F) as (t1 & E1 & E2); [cbn; auto|auto|].
  begin F E1 E2 HW HD. unfold read_dir_val, write_pattern.
  change (fun _ : A => @None (list ascii)) with (fun _ : A => value_text None). rewrite E1. cbn [bind]. rewrite E2. cbn [bind].
  rewrite !Nat2Z.id. change (text_eqb (txt "pattern") (txt "pattern")) with true.
  rewrite <- (app_nil_r (lines _)), (@fill_pat_lines W lo hi _).
  - cbn [bind]. rewrite (@raws_entries W HW HD A Z _ _ _ es (fun e => 1) (fun _ => 1)) by (auto; reflexivity). reflexivity.
  - apply raws_sz; auto.
Qed.
Lemma dir_unit_pat (A : Type) W n (es : list (edge A)) und sy : fits W n es -> ids_ok W es -> In (txt sy) [txt "general"; txt "symmetric"] ->
  read_dir W (write_pattern W und sy (el_build W n es)) =
  Ok (el_build W (el_num_vertices (el_build W n es)) (expand (text_eqb (txt sy) (txt "symmetric")) (text_eqb (txt sy) (txt "general") && und) (fun _ => tt) es)).
Proof.
  intros F I Hs. destruct (@front A W n es und (fun a => None) (txt "pattern") (txt sy) F) as (t1 & E1 & E2); [cbn; auto|auto|].
  begin F E1 E2 HW HD. unfold read_dir, write_pattern.
  change (fun _ : A => @None (list ascii)) with (fun _ : A => value_text None). rewrite E1. cbn [bind]. rewrite E2. cbn [bind].
  rewrite !Nat2Z.id. rewrite <- (app_nil_r (lines _)), (@fill_dir_lines W).
  - cbn [bind]. rewrite (@raws_entries W HW HD A unit _ _ _ es (fun e => tt) (fun _ => tt)) by (auto; reflexivity). reflexivity.
  - apply raws_sz; auto.
Qed.
Lemma und_unit_pat (A : Type) W n (es : list (edge A)) und sy : fits W n es -> ids_ok W es -> In (txt sy) [txt "general"; txt "symmetric"] ->
  read_und W (write_pattern W und sy (el_build W n es)) =
  Ok (el_build W (el_num_vertices (el_build W n es)) (expand false (text_eqb (txt sy) (txt "general") && und) (fun _ => tt) es)).
Proof.
  intros F I Hs. destruct (@front A W n es und (fun a => None) (txt "pattern") (txt sy) F) as (t1 & E1 & E2); [cbn; auto|auto|].
  begin F E1 E2 HW HD. unfold read_und, write_pattern.
  change (fun _ : A => @None (list ascii)) with (fun _ : A => value_text None). rewrite E1. cbn [bind]. rewrite E2. cbn [bind].
  rewrite !Nat2Z.id. change (text_eqb (txt "pattern") (txt "pattern")) with true. change (lines ?l) with ([] ++ lines l).
  rewrite (@fill_und_lines W true).
  - cbn [bind]. rewrite (@raws_entries W HW HD A unit _ _ _ es (fun e => tt) (fun _ => tt)) by (auto; reflexivity). reflexivity.
  - now left.
  - apply raws_sz; auto.
  - apply Forall_forall. intros x X. apply raws_snd in X. destruct X as (e & _ & ->). split; auto.
Qed.
Lemma und_unit_int W n es und sy : fits W n es -> ids_ok W es -> In (txt sy) [txt "general"; txt "symmetric"] ->
  read_und W (write_int W und sy (el_build W n es)) =
  Ok (el_build W (el_num_vertices (el_build W n es)) (expand false (text_eqb (txt sy) (txt "general") && und) (fun _ => tt) es)).
Proof.
  intros F I Hs. destruct (@front Z W n es und (fun a => Some a) (txt "integer") (txt sy) F) as (t1 & E1 & E2); [cbn; auto|auto|].
  begin F E1 E2 HW HD. unfold read_und, write_int.
  change (fun a : Z => Some (print_int a)) with (fun a : Z => value_text (Some a)). rewrite E1. cbn [bind]. rewrite E2. cbn [bind].
  rewrite !Nat2Z.id. change (text_eqb (txt "integer") (txt "pattern")) with false. change (lines ?l) with ([] ++ lines l).
  rewrite (@fill_und_lines W false).
  - cbn [bind]. rewrite (@raws_entries W HW HD Z unit _ _ _ es (fun e => tt) (fun _ => tt)) by (auto; reflexivity). reflexivity.
  - now left.
  - apply raws_sz; auto.
  - apply Forall_forall. intros x X. apply raws_snd in X. destruct X as (e & _ & ->). split; discriminate.
Qed.
Lemma expand_same (A : Type) (es : list (edge A)) : expand false false (fun e => eatt e) es = es.
Proof. unfold expand. induction es as [|e es IH]; auto. cbn [flat_map app andb] in *. rewrite IH, edge_eta. reflexivity. Qed.
Lemma expand_unit (es : list (edge unit)) mirror both : expand mirror both (fun _ => tt) es = expand mirror both (fun e => eatt e) es.
Proof. unfold expand. apply flat_map_ext. intros [[u v] []]. reflexivity. Qed.
Lemma expand_doubled (A : Type) (es : list (edge A)) : expand false true (fun e => eatt e) es = doubled es.
Proof. unfold expand, doubled. apply flat_map_ext. intros [[u v] a]. reflexivity. Qed.
Lemma expand_mirrored (A : Type) (es : list (edge A)) : expand true false (fun e => eatt e) es = mirrored es.
Proof. unfold expand, mirrored. apply flat_map_ext. intros [[u v] a]. cbn. destruct (u =? v)%nat; reflexivity. Qed.

(** A directed list with an integer attribute, written "general", comes back as it was: same edges in the same order with
    the same attributes, same number of vertices. *)
Theorem C45_directed_integer W lo hi n es : fits W n es -> ids_ok W es -> vals_ok lo hi es -> lo <= 0 ->
  read_dir_val W lo hi (write_int W false "general" (el_build W n es)) = Ok (el_build W n es).
Proof. intros F I V L. rewrite dir_val_int by (auto; now left). cbn [andb txt]. rewrite andb_false_r. rewrite expand_same, rebuild; auto. apply F. Qed.

(** The same without attributes. *)
Theorem C45_directed_pattern W n es : fits W n es -> ids_ok W es ->
  read_dir W (write_pattern W false "general" (el_build W n es)) = Ok (el_build W n es).
Proof. intros F I. rewrite dir_unit_pat by (auto; now left). rewrite andb_false_r, expand_unit. rewrite expand_same, rebuild; auto. apply F. Qed.

(** An undirected list written as "symmetric" comes back as it was. *)
Theorem C45_undirected_integer W lo hi n es : fits W n es -> ids_ok W es -> vals_ok lo hi es -> lo <= 0 ->
  read_und_val W lo hi (write_int W true "symmetric" (el_build W n es)) = Ok (el_build W n es).
Proof. intros F I V L. rewrite und_val_int by (auto; right; now left). cbn [text_eqb txt andb]. rewrite expand_same, rebuild; auto. apply F. Qed.
Theorem C45_undirected_pattern W n es : fits W n es -> ids_ok W es ->
  read_und W (write_pattern W true "symmetric" (el_build W n es)) = Ok (el_build W n es).
Proof. intros F I. rewrite und_unit_pat by (auto; right; now left). rewrite expand_unit. change (text_eqb (txt "symmetric") (txt "general") && true) with false. rewrite expand_same, rebuild; auto. apply F. Qed.

(** Written with the default symmetry ("general"), an undirected list comes back with every edge, self loops included,
    followed by its reverse. *)
Theorem C45_undirected_general_doubled W lo hi n es : fits W n es -> ids_ok W es -> vals_ok lo hi es -> lo <= 0 ->
  read_und_val W lo hi (write_int W true "general" (el_build W n es)) = Ok (el_build W (el_num_vertices (el_build W n es)) (doubled es)).
Proof. intros F I V L. rewrite und_val_int by (auto; now left). change (text_eqb (txt "general") (txt "general") && true) with true. now rewrite expand_doubled. Qed.
Theorem C45_undirected_general_doubled_pattern W n es : fits W n es -> ids_ok W es ->
  read_und W (write_pattern W true "general" (el_build W n es)) = Ok (el_build W (el_num_vertices (el_build W n es)) (doubled es)).
Proof. intros F I. rewrite und_unit_pat by (auto; now left). change (text_eqb (txt "general") (txt "general") && true) with true. now rewrite expand_unit, expand_doubled. Qed.

(** A symmetric file read into a directed list gives every edge and, unless it is a self loop, its reverse.  In particular
    a directed list written as "symmetric" (write_mm only prints a warning) does not come back. *)
Theorem C45_symmetric_read_directed W lo hi n es und : fits W n es -> ids_ok W es -> vals_ok lo hi es -> lo <= 0 ->
  read_dir_val W lo hi (write_int W und "symmetric" (el_build W n es)) = Ok (el_build W (el_num_vertices (el_build W n es)) (mirrored es)).
Proof.
  intros F I V L. rewrite dir_val_int by (auto; right; now left). change (text_eqb (txt "symmetric") (txt "general") && und) with false.
  change (text_eqb (txt "symmetric") (txt "symmetric")) with true. now rewrite expand_mirrored.
Qed.

(** Written without a value column (w_idx = 0), the attributes come back as 1. *)
Theorem C45_attributes_dropped (A : Type) W lo hi n (es : list (edge A)) : fits W n es -> ids_ok W es ->
  read_dir_val W lo hi (write_pattern W false "general" (el_build W n es)) =
  Ok (el_build W (el_num_vertices (el_build W n es)) (map (fun e => (esrc e, etgt e, 1)) es)).
Proof.
  intros F I. rewrite dir_val_pat by (auto; now left). rewrite andb_false_r. reflexivity.
Qed.
(** The same for a file that announces integers and has no value column: the value is set to 1 before the extraction, which
    finds nothing. *)
Lemma fill_missing W lo hi mirror : forall L r, Forall in_sz L -> Forall (fun x => snd x = None) L ->
  fill_val W lo hi false mirror (List.length L) (lines L ++ r) = Ok (flat_map (fun x => entry W mirror (fst (fst x)) (snd (fst x)) 1) L).
Proof.
  induction L as [|[[d0 d1] v] L IH]; intros r F G; cbn [List.length fill_val lines flat_map]; auto. inversion F as [|? ? [H0 H1] F']; subst.
  inversion G as [|? ? E G']; subst. cbn [fst snd] in *. subst v. unfold line_ids_val. fold (lines L). rewrite <- app_assoc, line_ids_entry by auto.
  cbn [bind tail_of extract stream_of negb s_good s_left skip_ws use]. rewrite IH by auto. reflexivity.
Qed.
Theorem C45_values_missing (A : Type) W lo hi n (es : list (edge A)) : fits W n es -> ids_ok W es ->
  read_dir_val W lo hi (write_list W false (fun _ => None) (txt "integer") (txt "general") (el_build W n es)) =
  Ok (el_build W (el_num_vertices (el_build W n es)) (map (fun e => (esrc e, etgt e, 1)) es)).
Proof.
  intros F I. destruct (@front A W n es false (fun a => None) (txt "integer") (txt "general") F) as (t1 & E1 & E2); [cbn; auto|cbn; auto|].
  begin F E1 E2 HW HD. unfold read_dir_val.
  change (fun _ : A => @None (list ascii)) with (fun _ : A => value_text None). rewrite E1. cbn [bind]. rewrite E2. cbn [bind].
  rewrite !Nat2Z.id. change (text_eqb (txt "integer") (txt "pattern")) with false.
  rewrite <- (app_nil_r (lines _)), (@fill_missing W lo hi _).
  - cbn [bind]. rewrite (@raws_entries W HW HD A Z _ _ _ es (fun e => 1) (fun _ => 1)) by (auto; reflexivity). reflexivity.
  - apply raws_sz; auto.
  - apply Forall_forall. intros x X. apply raws_snd in X. now destruct X as (e & _ & ->).
Qed.
(** An attribute column is skipped when reading into an undirected list without attributes. *)
Theorem C45_attributes_skipped W n es : fits W n es -> ids_ok W es ->
  read_und W (write_int W true "symmetric" (el_build W n es)) =
  Ok (el_build W (el_num_vertices (el_build W n es)) (map (fun e => (esrc e, etgt e, tt)) es)).
Proof.
  intros F I. rewrite und_unit_int by (auto; right; now left). reflexivity.
Qed.

(** ** Adjacencies *)
Definition adj_fits (W : nat) (lo hi : Z) (g : list (list (nat * Z))) : Prop :=
  (0 < W)%nat /\ (Z.of_nat W | 2 ^ 64) /\ (List.length g <= W)%nat /\ Z.of_nat (List.length g) < 2 ^ 64 /\
  Z.of_nat (List.length (List.concat g)) < 2 ^ 31 /\ lo <= 0 /\
  forall r v a, In r g -> In (v, a) r -> (v < W)%nat /\ lo <= a <= hi.
Lemma adj_front W lo hi idx n0 n1 g : adj_fits W lo hi g -> 0 <= idx <= 1 -> 0 <= n0 < 2 ^ 64 -> 0 <= n1 < 2 ^ 64 ->
  exists t t1 t2, write_adj W idx (fun a => Some (print_int a)) (txt "integer") (txt "general") n0 n1 g = Ok t /\
    header t = Ok (false, false, t1) /\ (exists m, sizes t1 = Ok (n0, n1, Z.of_nat m, t2) /\
    fill_val W lo hi false false m t2 = Ok (map (fun e => (shift W idx (esrc e), shift W idx (etgt e), eatt e)) (adj_edges g))).
Proof.
  intros (HW & HD & Hg & Hz & Hm & Hl & Hv) Hi H0 H1. change (fun a : Z => Some (print_int a)) with (fun a : Z => value_text (Some a)).
  change (2 ^ 64) with SZ in *.
  rewrite (@write_adj_lines W) by auto. eexists. eexists. eexists. split; [reflexivity|].
  split; [apply header_ok; cbn; auto|]. eexists. split; [apply sizes_ok; auto|].
  - unfold adj_raws. rewrite map_length, adj_edges_length. assert (2 ^ 31 < SZ) by reflexivity. lia.
  - rewrite <- (app_nil_r (lines _)), fill_val_lines; auto.
    + f_equal. apply (@adj_raws_entries W HW HD Z Z idx (fun a => Some a) g (fun e => eatt e)). reflexivity.
    + apply adj_raws_sz; auto.
    + apply Forall_forall. intros x X. apply in_map_iff in X. destruct X as (e & <- & I). cbn [snd]. exists (eatt e). split; auto.
      apply (adj_edges_src HW) in I. destruct I as (_ & r & Ir & Ie). now apply (Hv r (etgt e)).
Qed.

(** adjacency<0> (out-edges) with an integer attribute: the file holds the arcs row by row. *)
Theorem C45_adjacency W lo hi g : adj_fits W lo hi g ->
  exists t, write_adj W 0 (fun a => Some (print_int a)) (txt "integer") (txt "general") (Z.of_nat (List.length g)) (Z.of_nat (List.length g)) g = Ok t /\
    read_dir_val W lo hi t = Ok (el_build W (List.length g) (adj_edges g)).
Proof.
  intros F. destruct (@adj_front W lo hi 0 (Z.of_nat (List.length g)) (Z.of_nat (List.length g)) g F) as (t & t1 & t2 & E & E1 & m & E2 & E3);
    [lia|destruct F as (_ & _ & _ & L & _); lia|destruct F as (_ & _ & _ & L & _); lia|].
  exists t. split; auto. unfold read_dir_val. rewrite E1. cbn [bind]. rewrite E2. cbn [bind]. rewrite Nat2Z.id, E3. cbn [bind]. rewrite Nat2Z.id.
  do 2 f_equal. rewrite <- (map_id (adj_edges g)) at 2. apply map_ext_in. intros e I.
  destruct F as (HW & HD & Hg & Hz & Hm & Hl & Hv). apply (adj_edges_src HW) in I. destruct I as (Ls & r & Ir & Ie). destruct (Hv r _ _ Ir Ie) as [Lt _].
  rewrite !shift_0 by (auto; lia). apply edge_eta.
Qed.
(** adjacency<1> (in-edges): the ids are written without the one-based offset, so every id comes back one too small and
    vertex 0 becomes the largest id. *)
Theorem C45_adjacency1_wrong W lo hi g : adj_fits W lo hi g ->
  let down u := match u with O => W - 1 | S u' => u' end%nat in
  exists t, write_adj W 1 (fun a => Some (print_int a)) (txt "integer") (txt "general") (Z.of_nat (List.length g)) (Z.of_nat (List.length g)) g = Ok t /\
    read_dir_val W lo hi t = Ok (el_build W (List.length g) (map (fun e => (down (esrc e), down (etgt e), eatt e)) (adj_edges g))).
Proof.
  intros F down. destruct (@adj_front W lo hi 1 (Z.of_nat (List.length g)) (Z.of_nat (List.length g)) g F) as (t & t1 & t2 & E & E1 & m & E2 & E3);
    [lia|destruct F as (_ & _ & _ & L & _); lia|destruct F as (_ & _ & _ & L & _); lia|].
  exists t. split; auto. unfold read_dir_val. rewrite E1. cbn [bind]. rewrite E2. cbn [bind]. rewrite Nat2Z.id, E3. cbn [bind]. rewrite Nat2Z.id.
  do 2 f_equal. apply map_ext_in. intros e I.
  destruct F as (HW & HD & Hg & Hz & Hm & Hl & Hv). apply (adj_edges_src HW) in I. destruct I as (Ls & r & Ir & Ie). destruct (Hv r _ _ Ir Ie) as [Lt _].
  rewrite !shift_1 by (auto; lia). reflexivity.
Qed.
(** biadjacency<0>: read back into a bipartite list when the two sides differ in size, rejected when they do not. *)
Theorem C45_biadjacency W lo hi n0 n1 g : adj_fits W lo hi g -> 0 <= n0 < 2 ^ 64 -> 0 <= n1 < 2 ^ 64 ->
  exists t, write_adj W 0 (fun a => Some (print_int a)) (txt "integer") (txt "general") n0 n1 g = Ok t /\
    (n0 <> n1 -> read_bi_val W lo hi t = Ok (bel_build W (Z.to_nat n0) (Z.to_nat n1) (adj_edges g))) /\
    (n0 = n1 -> read_bi_val W lo hi t = Ub).
Proof.
  intros F H0 H1. destruct (@adj_front W lo hi 0 n0 n1 g F) as (t & t1 & t2 & E & E1 & m & E2 & E3); [lia|auto|auto|].
  exists t. split; auto. unfold read_bi_val. rewrite E1. cbn [bind]. rewrite E2. cbn [bind]. rewrite Nat2Z.id, E3. cbn [bind]. rewrite orb_false_r. split.
  - intros N. apply Z.eqb_neq in N. rewrite N. do 2 f_equal. rewrite <- (map_id (adj_edges g)) at 2. apply map_ext_in. intros e I.
    destruct F as (HW & HD & Hg & Hz & Hm & Hl & Hv). apply (adj_edges_src HW) in I. destruct I as (Ls & r & Ir & Ie). destruct (Hv r _ _ Ir Ie) as [Lt _].
    rewrite !shift_0 by (auto; lia). apply edge_eta.
  - intros ->. now rewrite Z.eqb_refl.
Qed.

Definition ex_es : list (edge Z) := [(0, 3, (-7)%Z); (3, 3, 120%Z); (15, 0, 0%Z); (2, 1, 5%Z)]%nat.
Example ex_fits : fits 16 4 ex_es /\ ids_ok 16 ex_es /\ vals_ok (-128) 127 ex_es.
Proof.
  repeat split; try (cbn; lia); try (repeat constructor; cbn; lia).
  exists (2 ^ 60). reflexivity.
Qed.
Example ex_file : write_int 16 false "general" (el_build 16 4 ex_es) =
  txt "%%MatrixMarket matrix coordinate integer general" ++ NL :: txt "%%" ++ NL :: txt "4 4 4" ++ NL :: txt "1 4 -7" ++ NL ::
  txt "4 4 120" ++ NL :: txt "0 1 0" ++ NL :: txt "3 2 5" ++ [NL].
Proof. reflexivity. Qed.
Example ex_read : read_dir_val 16 (-128) 127 (txt "%%MatrixMarket matrix coordinate integer symmetric" ++ NL :: txt "% remark" ++ NL ::
   txt "3 3  2" ++ NL :: txt " 1 2 5" ++ NL :: txt "3 3 +200" ++ [NL]) = Ok (el_build 16 3 [(0, 1, 5%Z); (1, 0, 5%Z); (2, 2, 127%Z)]%nat).
Proof. reflexivity. Qed.
Example ex_missing : read_dir_val 16 (-128) 127 (txt "%%MatrixMarket matrix coordinate integer general" ++ NL :: txt "3 3 2" ++ NL :: txt "1 2" ++ NL :: txt "3 3 7" ++ [NL])
  = Ok (el_build 16 3 [(0, 1, 1%Z); (2, 2, 7%Z)]%nat).
Proof. reflexivity. Qed.
(** A short file: the ids of the missing line are never set. *)
Example ex_short : read_dir_val 16 (-128) 127 (txt "%%MatrixMarket matrix coordinate integer general" ++ NL :: txt "3 3 2" ++ NL :: txt "1 2 5" ++ [NL]) = Ub.
Proof. reflexivity. Qed.
Definition ex_adj : list (list (nat * Z)) := [[(2, 4%Z); (0, (-1)%Z)]; []; [(1, 9%Z)]]%nat.
Example ex_adj_fits : adj_fits 16 (-128) 127 ex_adj.
Proof.
  split; [lia|]. split; [exists (2 ^ 60); reflexivity|]. split; [cbn; lia|]. split; [reflexivity|]. split; [reflexivity|]. split; [lia|].
  intros r v a Hr Hv. cbn in Hr. destruct Hr as [<-|[<-|[<-|[]]]]; cbn in Hv; intuition; match goal with H : (_, _) = (_, _) |- _ => injection H as <- <-; lia end.
Qed.
Example ex_adj_wrong : adj_edges ex_adj = [(0, 2, 4%Z); (0, 0, (-1)%Z); (2, 1, 9%Z)]%nat.
Proof. reflexivity. Qed.
Print Assumptions C45_directed_integer.
Print Assumptions C45_directed_pattern.
Print Assumptions C45_undirected_integer.
Print Assumptions C45_undirected_pattern.
Print Assumptions C45_undirected_general_doubled.
Print Assumptions C45_undirected_general_doubled_pattern.
Print Assumptions C45_symmetric_read_directed.
Print Assumptions C45_attributes_dropped.
Print Assumptions C45_values_missing.
Print Assumptions C45_attributes_skipped.
Print Assumptions C45_adjacency.
Print Assumptions C45_adjacency1_wrong.
Print Assumptions C45_biadjacency.
