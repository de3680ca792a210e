From Coq Require Import List Arith Lia Permutation Sorting.Sorted Bool.
From Verif Require Import Base EdgeListModel CsrModel BuildModel EdgeListProofs CsrProofs CsrProofs2 CsrProofs3 CsrProofs4 BuildProofs.
Import ListNotations.
Set Implicit Arguments.

(** ------------------------------------------------------------------ adjacency lists *)
(** Specification of a row: directed by side [s], or undirected. *)
Definition al_spec {A} (directed : bool) (s : side) (es : list (edge A)) (u : nat) : list (nat * A) :=
  if directed then spec_row s es u else spec_row_undirected es u.

Lemma al_append_ok A (g : alist A) u x : u < length g -> al_append g u x = Ok (upd g u (nth u g [] ++ [x])).
Proof. intros H. unfold al_append. rewrite vget_nth with (d := []) by auto. cbn [bind]. now apply vset_lt. Qed.
Lemma al_append_oob A (g : alist A) u x : length g <= u -> al_append g u x = Ub.
Proof. intros H. unfold al_append. rewrite vget_ge by auto. reflexivity. Qed.

Definition al_single {A} (directed : bool) (s : side) (e : edge A) (u : nat) : list (nat * A) :=
  if directed then (if ekey s e =? u then [(ekey (other_side s) e, eatt e)] else [])
  else (if esrc e =? u then [(etgt e, eatt e)] else []) ++ (if etgt e =? u then [(esrc e, eatt e)] else []).

Lemma al_spec_cons A directed s (e : edge A) es u :
  al_spec directed s (e :: es) u = al_single directed s e u ++ al_spec directed s es u.
Proof.
  unfold al_spec, al_single. destruct directed.
  - unfold spec_row. simpl. destruct (ekey s e =? u); reflexivity.
  - reflexivity.
Qed.

Definition al_need {A} (directed : bool) (s : side) (e : edge A) (n : nat) : Prop :=
  ekey s e < n /\ (directed = false -> ekey (other_side s) e < n).

Lemma al_fill_edge_ok A directed s (g : alist A) e : al_need directed s e (length g) ->
  exists g', al_fill_edge directed s g e = Ok g' /\ length g' = length g /\
    forall u, u < length g -> nth u g' [] = nth u g [] ++ al_single directed s e u.
Proof.
  intros [H1 H2]. unfold al_fill_edge, al_single.
  assert (K : al_fill_edge directed s g e =
     do g1 <- al_append g (ekey s e) (ekey (other_side s) e, eatt e);
     if directed then Ok g1 else al_append g1 (ekey (other_side s) e) (ekey s e, eatt e)) by (destruct s; reflexivity).
  unfold al_fill_edge in K. rewrite K. rewrite al_append_ok by auto. cbn [bind]. destruct directed.
  - eexists. split; [reflexivity|]. split; [apply upd_length|]. intros u Hu.
    destruct (Nat.eqb_spec (ekey s e) u) as [<-|N].
    + now rewrite nth_upd_eq.
    + rewrite nth_upd_neq by auto. now rewrite app_nil_r.
  - rewrite al_append_ok by (rewrite upd_length; auto). eexists. split; [reflexivity|].
    rewrite !upd_length. split; auto. intros u Hu. set (k := ekey s e) in *. set (k' := ekey (other_side s) e) in *.
    assert (E : (if esrc e =? u then [(etgt e, eatt e)] else []) ++ (if etgt e =? u then [(esrc e, eatt e)] else []) =
                (if k =? u then [(k', eatt e)] else []) ++ (if k' =? u then [(k, eatt e)] else [])).
    { unfold k, k'. destruct s; simpl; auto.
      destruct (Nat.eqb_spec (esrc e) u), (Nat.eqb_spec (etgt e) u); subst; simpl; auto. congruence. }
    rewrite E. destruct (Nat.eqb_spec k u) as [Q|Q], (Nat.eqb_spec k' u) as [Q'|Q']; subst; simpl.
    + rewrite Q'. rewrite nth_upd_eq by (rewrite upd_length; auto). rewrite nth_upd_eq by auto.
      now rewrite <- app_assoc.
    + rewrite nth_upd_neq by auto. now rewrite nth_upd_eq.
    + rewrite nth_upd_eq by (rewrite upd_length; auto). now rewrite nth_upd_neq.
    + rewrite !nth_upd_neq by auto. now rewrite app_nil_r.
Qed.

Lemma al_fill_ok A directed s (es : list (edge A)) : forall (g : alist A),
  (forall e, In e es -> al_need directed s e (length g)) ->
  exists g', al_push_back_fill directed s es g = Ok g' /\ length g' = length g /\
    forall u, u < length g -> nth u g' [] = nth u g [] ++ al_spec directed s es u.
Proof.
  unfold al_push_back_fill. induction es as [|e es IH]; intros g H.
  - exists g. repeat split; auto. intros u Hu. unfold al_spec. destruct directed; simpl; now rewrite app_nil_r.
  - destruct (al_fill_edge_ok g (H e (or_introl eq_refl))) as (g1 & E1 & L1 & N1).
    destruct (IH g1) as (g' & E' & L' & N'). { intros; rewrite L1; apply H; now right. }
    exists g'. cbn [rfold]. rewrite E1. cbn [bind]. split; auto. split; [congruence|].
    intros u Hu. rewrite N', N1 by lia. rewrite al_spec_cons. now rewrite app_assoc.
Qed.

Lemma al_fill_edge_oob A directed s (g : alist A) e : ~ al_need directed s e (length g) ->
  al_fill_edge directed s g e = Ub.
Proof.
  intros H.
  assert (K : al_fill_edge directed s g e =
     do g1 <- al_append g (ekey s e) (ekey (other_side s) e, eatt e);
     if directed then Ok g1 else al_append g1 (ekey (other_side s) e) (ekey s e, eatt e)) by (destruct s; reflexivity).
  rewrite K. destruct (Nat.lt_ge_cases (ekey s e) (length g)) as [Q|Q].
  - rewrite al_append_ok by auto. cbn [bind]. unfold al_need in H. destruct directed.
    + exfalso. apply H. split; auto. discriminate.
    + apply al_append_oob. rewrite upd_length. destruct (Nat.lt_ge_cases (ekey (other_side s) e) (length g)); [|lia].
      exfalso. apply H. auto.
  - rewrite al_append_oob by auto. reflexivity.
Qed.

Lemma al_fill_oob A directed s (es : list (edge A)) e (g : alist A) :
  In e es -> ~ al_need directed s e (length g) -> al_push_back_fill directed s es g = Ub.
Proof.
  unfold al_push_back_fill. revert g. induction es as [|f es IH]; intros g Hin Hn; [destruct Hin|].
  cbn [rfold].
  assert (D : al_need directed s f (length g) \/ ~ al_need directed s f (length g)).
  { unfold al_need. destruct (Nat.lt_ge_cases (ekey s f) (length g)); [|right; lia].
    destruct directed; [left; split; auto; discriminate|].
    destruct (Nat.lt_ge_cases (ekey (other_side s) f) (length g)); [left; auto|right].
    intros [_ Q]. specialize (Q eq_refl). lia. }
  destruct D as [D|D].
  - destruct (al_fill_edge_ok g D) as (g1 & E1 & L1 & _). rewrite E1. cbn [bind].
    destruct Hin as [->|Hin]; [contradiction|]. apply IH; auto. now rewrite L1.
  - rewrite al_fill_edge_oob by auto. reflexivity.
Qed.

Lemma al_fill_rows A directed s (es : list (edge A)) n :
  (forall e, In e es -> al_need directed s e n) ->
  exists g', al_push_back_fill directed s es (repeat [] n) = Ok g' /\ length g' = n /\
    forall u, u < n -> nth_error g' u = Some (al_spec directed s es u).
Proof.
  intros H. destruct (@al_fill_ok A directed s es (repeat [] n)) as (g' & E & L & N).
  { now rewrite repeat_length. }
  rewrite repeat_length in *. exists g'. repeat split; auto. intros u Hu.
  rewrite nth_error_nth' with (d := []) by lia. rewrite N by auto. now rewrite nth_repeat.
Qed.

(** vov: growing push_back *)
Lemma vov_push_ok A (g : alist A) i x :
  exists g', vov_push_back g i x = Ok g' /\ length g' = Nat.max (length g) (i + 1) /\
    forall u, nth u g' [] = nth u g [] ++ (if i =? u then [x] else []).
Proof.
  unfold vov_push_back. set (g1 := g ++ repeat [] (i + 1 - length g)).
  assert (L1 : length g1 = Nat.max (length g) (i + 1)) by (unfold g1; rewrite app_length, repeat_length; lia).
  assert (N1 : forall u, nth u g1 [] = nth u g []).
  { intros u. unfold g1. destruct (Nat.lt_ge_cases u (length g)).
    - now rewrite app_nth1.
    - rewrite app_nth2 by auto. rewrite nth_repeat. now rewrite nth_overflow. }
  rewrite al_append_ok by lia. eexists. split; [reflexivity|]. rewrite upd_length. split; auto.
  intros u. destruct (Nat.eqb_spec i u) as [<-|Q].
  - rewrite nth_upd_eq by lia. now rewrite N1.
  - rewrite nth_upd_neq by auto. now rewrite N1, app_nil_r.
Qed.

(** Number of rows the growing container needs. *)
Definition rows_needed {A} (directed : bool) (es : list (edge A)) : nat :=
  list_max (map (fun e => if directed then esrc e + 1 else Nat.max (esrc e + 1) (etgt e + 1)) es).

Lemma fill_adj_list_ok A directed (el : edge_list A) (al : alist A) :
  exists g', fill_adj_list directed el al = Ok (g', (if directed then 1 else 2) * length (el_view el)) /\
    length g' = Nat.max (length al) (rows_needed directed (el_view el)) /\
    forall u, nth u g' [] = nth u al [] ++ al_spec directed S0 (el_view el) u.
Proof.
  unfold fill_adj_list. generalize (el_view el). intros es.
  assert (G : forall (es : list (edge A)) (al : alist A) m, exists g',
   rfold (fun st e =>
     do g1 <- vov_push_back (fst st) (esrc e) (etgt e, eatt e);
     if directed then Ok (g1, snd st + 1)
     else do g2 <- vov_push_back g1 (etgt e) (esrc e, eatt e); Ok (g2, snd st + 2)) es (al, m) =
     Ok (g', m + (if directed then 1 else 2) * length es) /\
     length g' = Nat.max (length al) (rows_needed directed es) /\
     forall u, nth u g' [] = nth u al [] ++ al_spec directed S0 es u).
  { clear. induction es as [|e es IH]; intros al m.
    - exists al. cbn [rfold length]. rewrite Nat.mul_0_r, Nat.add_0_r. repeat split; auto.
      + unfold rows_needed. simpl. lia.
      + intros u. unfold al_spec. destruct directed; simpl; now rewrite app_nil_r.
    - cbn [rfold fst snd]. destruct (vov_push_ok al (esrc e) (etgt e, eatt e)) as (g1 & E1 & L1 & N1).
      rewrite E1. cbn [bind]. destruct directed.
      + destruct (IH g1 (m + 1)) as (g' & E' & L' & N'). cbn [bind]. exists g'. rewrite E'. split; [f_equal; f_equal; simpl; lia|].
        split. { rewrite L', L1. unfold rows_needed. simpl. lia. }
        intros u. rewrite N', N1, al_spec_cons. unfold al_single. simpl. now rewrite app_assoc.
      + destruct (vov_push_ok g1 (etgt e) (esrc e, eatt e)) as (g2 & E2 & L2 & N2). rewrite E2. cbn [bind].
        destruct (IH g2 (m + 2)) as (g' & E' & L' & N'). exists g'. rewrite E'. split; [f_equal; f_equal; simpl; lia|].
        split. { rewrite L', L2, L1. unfold rows_needed. simpl. lia. }
        intros u. rewrite N', N2, N1, al_spec_cons. unfold al_single. now rewrite !app_assoc. }
  destruct (G es al 0) as (g' & E & L & N). exists g'. auto.
Qed.

(** ------------------------------------------------------------------ labels *)
Section Lab.
Variable L : Type.
Variable leqb : L -> L -> bool.
Hypothesis leqb_ok : forall x y, leqb x y = true <-> x = y.

(** Specification: the index a label stands for. *)
Definition label_index (vs : list L) (u : L) (i : nat) : Prop :=
  (nth_error vs i = Some u /\ forall j, i < j -> nth_error vs j <> Some u) \/ (~ In u vs /\ i = 0).

Definition find0 (m : lmap L) (u : L) : nat := match lmap_find leqb m u with Some i => i | None => 0 end.

Lemma lmap_index_find (m : lmap L) u : fst (lmap_index leqb m u) = find0 m u /\
  forall v, find0 (snd (lmap_index leqb m u)) v = find0 m v.
Proof.
  unfold lmap_index, find0. destruct (lmap_find leqb m u) eqn:E; simpl; auto. split; auto.
  intros v. unfold lmap_assign. simpl. destruct (leqb u v) eqn:Q; auto. apply leqb_ok in Q. subst. now rewrite E.
Qed.

Lemma make_property_edges_spec A : forall (edges : list (L * L * A)) m,
  fst (make_property_edges leqb m edges) = map (fun e => ((find0 m (fst (fst e)), find0 m (snd (fst e))), snd e)) edges.
Proof.
  induction edges as [|[[u v] a] edges IH]; intros m; simpl; auto.
  destruct (lmap_index_find m u) as [A1 B1]. destruct (lmap_index leqb m u) as [i m1]. simpl in *.
  destruct (lmap_index_find m1 v) as [A2 B2]. destruct (lmap_index leqb m1 v) as [j m2]. simpl in *.
  specialize (IH m2). destruct (make_property_edges leqb m2 edges) as [es m3]. simpl in *. subst.
  f_equal.
  - now rewrite B1.
  - apply map_ext. intros e. now rewrite !B2, !B1.
Qed.

Lemma make_index_map_app (vs : list L) x : make_index_map (vs ++ [x]) = lmap_assign (make_index_map vs) x (length vs).
Proof.
  unfold make_index_map. rewrite app_length. simpl.
  rewrite seq_app. simpl. rewrite combine_app by now rewrite seq_length. rewrite fold_left_app. reflexivity.
Qed.

Lemma make_index_map_spec (vs : list L) u : label_index vs u (find0 (make_index_map vs) u).
Proof.
  assert (G : match lmap_find leqb (make_index_map vs) u with
              | Some i => nth_error vs i = Some u /\ forall j, i < j -> nth_error vs j <> Some u
              | None => ~ In u vs end).
  { induction vs as [|x vs IH] using rev_ind; simpl; auto.
    rewrite make_index_map_app. unfold lmap_assign. simpl. destruct (leqb x u) eqn:E.
    - apply leqb_ok in E. subst. split.
      + rewrite nth_error_app2 by lia. now rewrite Nat.sub_diag.
      + intros j Hj. rewrite nth_error_app2 by lia. destruct (j - length vs) eqn:Q; [lia|]. simpl. destruct n; discriminate.
    - assert (N : x <> u) by (intros ->; assert (leqb u u = true) by (now apply leqb_ok); congruence).
      destruct (lmap_find leqb (make_index_map vs) u) as [i|].
      + destruct IH as [I1 I2]. split.
        * rewrite nth_error_app1; auto. apply nth_error_Some. congruence.
        * intros j Hj. destruct (Nat.lt_ge_cases j (length vs)).
          -- rewrite nth_error_app1 by auto. auto.
          -- rewrite nth_error_app2 by auto. destruct (j - length vs) as [|[|]]; simpl; congruence.
      + intros H. apply in_app_or in H as [H|[H|[]]]; auto. }
  unfold find0, label_index. destruct (lmap_find leqb (make_index_map vs) u); auto.
Qed.

Lemma label_index_unique vs u i j : label_index vs u i -> label_index vs u j -> i = j.
Proof.
  intros [[A1 A2]|[A1 A2]] [[B1 B2]|[B1 B2]]; try lia.
  - destruct (Nat.lt_trichotomy i j) as [Q|[Q|Q]]; auto; exfalso; [eapply A2|eapply B2]; eauto.
  - exfalso. apply B1. eapply nth_error_In; eauto.
  - exfalso. apply A1. eapply nth_error_In; eauto.
Qed.

Lemma label_index_lt vs u i : label_index vs u i -> vs <> [] -> i < length vs.
Proof.
  intros [[A1 A2]|[A1 A2]] H.
  - apply nth_error_Some. congruence.
  - destruct vs; [congruence|]. simpl. lia.
Qed.

(** The index edges that correspond to the labelled edges. *)
Definition edge_of_labels {A} (vs : list L) (e : L * L * A) (f : edge A) : Prop :=
  label_index vs (fst (fst e)) (esrc f) /\ label_index vs (snd (fst e)) (etgt f) /\ eatt f = snd e.

Lemma labels_unique A vs (edges : list (L * L * A)) es :
  Forall2 (edge_of_labels vs) edges es -> es = fst (make_property_edges leqb (make_index_map vs) edges).
Proof.
  intros F. rewrite make_property_edges_spec. induction F as [|e f edges es (H1 & H2 & H3) F IH]; simpl; auto.
  rewrite IH. f_equal. destruct f as [[i j] a]. unfold esrc, etgt, eatt in *. simpl in *.
  rewrite (label_index_unique H1 (make_index_map_spec vs _)), (label_index_unique H2 (make_index_map_spec vs _)). congruence.
Qed.

Lemma labels_exist A vs (edges : list (L * L * A)) :
  Forall2 (edge_of_labels vs) edges (fst (make_property_edges leqb (make_index_map vs) edges)).
Proof.
  rewrite make_property_edges_spec. induction edges as [|e edges IH]; simpl; constructor; auto.
  unfold edge_of_labels, esrc, etgt, eatt. simpl. auto using make_index_map_spec.
Qed.

Lemma labels_lt A vs (edges : list (L * L * A)) es : Forall2 (edge_of_labels vs) edges es -> vs <> [] ->
  forall e, In e es -> esrc e < length vs /\ etgt e < length vs.
Proof.
  intros F H e He. destruct (Forall2_in_r _ F He) as (x & Hx & (H1 & H2 & _)). split; eapply label_index_lt; eauto.
Qed.

Lemma property_graph_ok A vs (edges : list (L * L * A)) es directed s :
  vs <> [] -> Forall2 (edge_of_labels vs) edges es ->
  exists g, make_property_graph leqb vs edges directed s = Ok g /\ length g = length vs /\
    forall u, u < length vs -> nth_error g u = Some (al_spec directed s es u).
Proof.
  intros H F. unfold make_property_graph. rewrite <- (labels_unique F). apply al_fill_rows.
  intros e He. destruct (labels_lt F H e He). unfold al_need. destruct s; simpl; auto.
Qed.

Lemma plain_graph_ok A vs (edges : list (L * L * A)) es directed s :
  vs <> [] -> Forall2 (edge_of_labels vs) (map (fun e => (fst e, tt)) edges) es ->
  exists g, make_plain_graph leqb vs edges directed s = Ok g /\ length g = length vs /\
    forall u, u < length vs -> nth_error g u = Some (al_spec directed s es u).
Proof.
  intros H F. unfold make_plain_graph, make_plain_edges. rewrite <- (labels_unique F). apply al_fill_rows.
  intros e He. destruct (labels_lt F H e He). unfold al_need. destruct s; simpl; auto.
Qed.

(** Index graphs: attribute k of an entry is the position of the record. *)
Definition numbered {A} (edges : list (L * L * A)) : list (L * L * nat) :=
  map (fun p => (fst (snd p), fst p)) (combine (seq 0 (length edges)) edges).
Lemma index_graph_ok A vs (edges : list (L * L * A)) es directed s :
  vs <> [] -> length es = length edges ->
  (forall k e f, nth_error edges k = Some e -> nth_error es k = Some f ->
     label_index vs (fst (fst e)) (esrc f) /\ label_index vs (snd (fst e)) (etgt f) /\ eatt f = k) ->
  exists g, make_index_graph leqb vs edges directed s = Ok g /\ length g = length vs /\
    forall u, u < length vs -> nth_error g u = Some (al_spec directed s es u).
Proof.
  intros H Len HK.
  assert (F : Forall2 (edge_of_labels vs) (numbered edges) es).
  { unfold numbered. assert (G : forall o edges es, length es = length edges ->
      (forall k (e : L * L * A) f, nth_error edges k = Some e -> nth_error es k = Some f ->
       label_index vs (fst (fst e)) (esrc f) /\ label_index vs (snd (fst e)) (etgt f) /\ eatt f = o + k) ->
      Forall2 (edge_of_labels vs) (map (fun p => (fst (snd p), fst p)) (combine (seq o (length edges)) edges)) es).
    { clear. intros o edges. revert o. induction edges as [|e edges IH]; intros o [|f es] Len H; simpl in *; try lia; constructor.
      - destruct (H 0 e f eq_refl eq_refl) as (A1 & A2 & A3). split; auto. split; auto. simpl. lia.
      - apply IH; [lia|]. intros k e' f' E1 E2. destruct (H (S k) e' f' E1 E2) as (A1 & A2 & A3). repeat split; auto. lia. }
    apply G; auto. }
  unfold make_index_graph, make_index_edges. fold (numbered edges). rewrite <- (labels_unique F). apply al_fill_rows.
  intros e He. destruct (labels_lt F H e He). unfold al_need. destruct s; simpl; auto.
Qed.
End Lab.

(** ------------------------------------------------------------------ bipartite *)
Section Bip.
Variables L R : Type.
Variable leqb : L -> L -> bool.
Variable reqb : R -> R -> bool.
Hypothesis leqb_ok : forall x y, leqb x y = true <-> x = y.
Hypothesis reqb_ok : forall x y, reqb x y = true <-> x = y.

Definition edge_of_labels2 (ls : list L) (rs : list R) (e : L * R) (f : edge unit) : Prop :=
  label_index ls (fst e) (esrc f) /\ label_index rs (snd e) (etgt f).

Lemma data_edges_spec : forall edges lm rm,
  data_edges leqb reqb lm rm edges = map (fun e => ((find0 leqb lm (fst e), find0 reqb rm (snd e)), tt)) edges.
Proof.
  induction edges as [|[u v] edges IH]; intros lm rm; simpl; auto.
  destruct (lmap_index_find leqb leqb_ok lm u) as [A1 B1]. destruct (lmap_index leqb lm u) as [i m1]. simpl in *.
  destruct (lmap_index_find reqb reqb_ok rm v) as [A2 B2]. destruct (lmap_index reqb rm v) as [j m2]. simpl in *.
  rewrite IH. subst. f_equal. apply map_ext. intros e. now rewrite B1, B2.
Qed.

Lemma data_unique ls rs edges es : Forall2 (edge_of_labels2 ls rs) edges es ->
  es = data_to_graph_edge_list leqb reqb ls rs edges.
Proof.
  intros F. unfold data_to_graph_edge_list. rewrite data_edges_spec.
  induction F as [|e f edges es (H1 & H2) F IH]; simpl; auto.
  rewrite IH. f_equal. destruct f as [[i j] []]. unfold esrc, etgt in *. simpl in *.
  rewrite (label_index_unique H1 (make_index_map_spec leqb leqb_ok ls _)), (label_index_unique H2 (make_index_map_spec reqb reqb_ok rs _)). reflexivity.
Qed.

Lemma data_exist ls rs edges : Forall2 (edge_of_labels2 ls rs) edges (data_to_graph_edge_list leqb reqb ls rs edges).
Proof.
  unfold data_to_graph_edge_list. rewrite data_edges_spec.
  induction edges as [|e edges IH]; simpl; constructor; auto. unfold edge_of_labels2, esrc, etgt. simpl.
  auto using make_index_map_spec.
Qed.

Lemma bip_graphs_ok ls rs edges es : ls <> [] -> rs <> [] -> Forall2 (edge_of_labels2 ls rs) edges es ->
  exists G H, make_bipartite_graphs leqb reqb ls rs edges = Ok (G, H) /\
    length G = length ls /\ length H = length rs /\
    (forall i, i < length ls -> nth_error G i = Some (spec_row S0 es i)) /\
    (forall j, j < length rs -> nth_error H j = Some (spec_row S1 es j)).
Proof.
  intros Hl Hr F. unfold make_bipartite_graphs. rewrite <- (data_unique F).
  assert (B : forall e, In e es -> esrc e < length ls /\ etgt e < length rs).
  { intros e He. destruct (Forall2_in_r _ F He) as (x & Hx & (H1 & H2)). split; eapply label_index_lt; eauto. }
  destruct (@al_fill_rows unit true S0 es (length ls)) as (G & EG & LG & NG).
  { intros e He. destruct (B e He). split; auto. discriminate. }
  destruct (@al_fill_rows unit true S1 es (length rs)) as (H & EH & LH & NH).
  { intros e He. destruct (B e He). split; auto. discriminate. }
  rewrite EG. cbn [bind]. rewrite EH. cbn [bind]. exists G, H. repeat split; auto.
Qed.

Lemma bip_graph_left ls rs edges es : ls <> [] -> Forall2 (edge_of_labels2 ls rs) edges es ->
  exists G, make_bipartite_graph leqb reqb S0 ls rs edges = Ok G /\ length G = length ls /\
    (forall i, i < length ls -> nth_error G i = Some (spec_row S0 es i)).
Proof.
  intros Hl F. unfold make_bipartite_graph. rewrite <- (data_unique F). apply (@al_fill_rows unit true S0).
  intros e He. destruct (Forall2_in_r _ F He) as (x & Hx & (H1 & H2)). split; [eapply label_index_lt; eauto|discriminate].
Qed.

(** idx = 1: out of bounds as soon as one right index reaches the number of left vertices. *)
Lemma bip_graph_right_oob ls rs edges es f : Forall2 (edge_of_labels2 ls rs) edges es -> In f es -> length ls <= etgt f ->
  make_bipartite_graph leqb reqb S1 ls rs edges = Ub.
Proof.
  intros F Hf Hl. unfold make_bipartite_graph. rewrite <- (data_unique F). apply al_fill_oob with (e := f); auto.
  rewrite repeat_length. unfold al_need. simpl. lia.
Qed.
End Bip.

(** Multiplicities. *)
Definition mult {A} (row : list (nat * A)) (j : nat) : nat := length (filter (fun x => fst x =? j) row).

Lemma spec_rows_transposed A (es : list (edge A)) i j : mult (spec_row S0 es i) j = mult (spec_row S1 es j) i.
Proof.
  unfold mult, spec_row. rewrite !filter_map, !map_length. simpl. f_equal.
  induction es as [|e es IH]; simpl; auto.
  destruct (Nat.eqb_spec (esrc e) i), (Nat.eqb_spec (etgt e) j); subst; simpl; rewrite ?Nat.eqb_refl; simpl; auto.
  - f_equal. exact IH.
  - destruct (Nat.eqb_spec (etgt e) j); [congruence|]. exact IH.
  - destruct (Nat.eqb_spec (esrc e) i); [congruence|]. exact IH.
Qed.

(** ------------------------------------------------------------------ join *)
Lemma join_row_ok A B (G : alist A) i (row : list (nat * B)) : (forall k, In k row -> fst k < length G) ->
  join_row G i row = Ok (flat_map (fun k => map (fun j => ((i, fst j), fst k)) (filter (fun j => negb (fst j =? i)) (nth (fst k) G []))) row).
Proof.
  intros H. unfold join_row.
  rewrite rmap_ok with (g := fun k => map (fun j => ((i, fst j), fst k)) (filter (fun j => negb (fst j =? i)) (nth (fst k) G []))).
  - cbn [bind]. now rewrite <- flat_map_concat_map.
  - intros k Hk. rewrite vget_nth with (d := []) by auto. reflexivity.
Qed.

Definition overlap_row {A B} (G : alist A) (i : nat) (row : list (nat * B)) : list (nat * nat) :=
  flat_map (fun k => map (fun j => (fst j, fst k)) (filter (fun j => negb (fst j =? i)) (nth (fst k) G []))) row.

Lemma spec_row_app A s (l1 l2 : list (edge A)) u : spec_row s (l1 ++ l2) u = spec_row s l1 u ++ spec_row s l2 u.
Proof. unfold spec_row. now rewrite filter_app, map_app. Qed.

Lemma overlap_spec_row A B (G : alist A) i (row : list (nat * B)) u :
  spec_row S0 (flat_map (fun k => map (fun j => ((i, fst j), fst k)) (filter (fun j => negb (fst j =? i)) (nth (fst k) G []))) row) u =
  if i =? u then overlap_row G i row else [].
Proof.
  induction row as [|k row IH]; simpl. { now destruct (i =? u). }
  rewrite spec_row_app, IH. unfold spec_row. rewrite filter_map, map_map. simpl. unfold esrc. simpl.
  destruct (i =? u).
  - rewrite filter_all by auto. reflexivity.
  - rewrite filter_none by auto. reflexivity.
Qed.

Lemma join_ok A B (G : alist A) (H : alist B) :
  (forall i k, i < length H -> In k (nth i H []) -> fst k < length G) ->
  exists Lg, join G H = Ok Lg /\ length Lg = length H /\
    forall i, i < length H -> nth_error Lg i = Some (overlap_row G i (nth i H [])).
Proof.
  intros HB. unfold join, join_edges.
  set (f := fun i => flat_map (fun k => map (fun j => ((i, fst j), fst k)) (filter (fun j => negb (fst j =? i)) (nth (fst k) G []))) (nth i H [])).
  rewrite rmap_ok with (g := f).
  2:{ intros i Hi. apply in_seq in Hi. rewrite vget_nth with (d := []) by lia. cbn [bind].
      apply join_row_ok. intros k Hk. apply (HB i); auto. lia. }
  cbn [bind]. rewrite <- flat_map_concat_map.
  destruct (@al_fill_rows nat true S0 (flat_map f (seq 0 (length H))) (length H)) as (Lg & E & Len & N).
  { intros e He. split; [|discriminate]. simpl. apply in_flat_map in He as (i & Hi & He). apply in_seq in Hi.
    unfold f in He. apply in_flat_map in He as (k & Hk & He). apply in_map_iff in He as (j & <- & _). unfold esrc. simpl. lia. }
  exists Lg. split; auto. split; auto. intros i Hi. rewrite N by auto. f_equal. unfold al_spec.
  assert (Q : forall n o, o <= i -> i < o + n -> spec_row S0 (flat_map f (seq o n)) i = overlap_row G i (nth i H [])).
  { assert (Z : forall n o, i < o -> spec_row S0 (flat_map f (seq o n)) i = []).
    { induction n; intros o Ho; simpl; auto. rewrite spec_row_app. unfold f at 1. rewrite overlap_spec_row.
      destruct (Nat.eqb_spec o i); [lia|]. simpl. apply IHn. lia. }
    induction n; intros o Ho Hn; [lia|]. simpl. rewrite spec_row_app. unfold f at 1. rewrite overlap_spec_row.
    destruct (Nat.eqb_spec o i).
    - subst. rewrite Z by lia. apply app_nil_r.
    - simpl. apply IHn; lia. }
  apply Q; lia.
Qed.

Lemma filter_length_flat_map X Y (p : Y -> bool) (f : X -> list Y) l :
  length (filter p (flat_map f l)) = sum (map (fun x => length (filter p (f x))) l).
Proof. induction l; simpl; auto. now rewrite filter_app, app_length, IHl. Qed.

(** Multiplicity of (j,k) in the joined row. *)
Lemma overlap_row_count A B (G : alist A) i (row : list (nat * B)) j k :
  length (filter (fun x => (fst x =? j) && (snd x =? k)) (overlap_row G i row)) =
  if j =? i then 0 else mult row k * mult (nth k G []) j.
Proof.
  unfold overlap_row. rewrite filter_length_flat_map.
  assert (E : forall x : nat * B, length (filter (fun y => (fst y =? j) && (snd y =? k))
      (map (fun j0 => (fst j0, fst x)) (filter (fun j0 => negb (fst j0 =? i)) (nth (fst x) G [])))) =
      if (fst x =? k) then (if j =? i then 0 else mult (nth k G []) j) else 0).
  { intros x. rewrite filter_map, map_length. simpl. destruct (Nat.eqb_spec (fst x) k) as [Q|Q].
    - rewrite Q. unfold mult. induction (nth k G []) as [|y l IH]; simpl.
      + now destruct (j =? i).
      + destruct (Nat.eqb_spec (fst y) i), (Nat.eqb_spec j i), (Nat.eqb_spec (fst y) j); subst; simpl;
          try congruence; rewrite ?Nat.eqb_refl; simpl; try congruence; auto.
        * destruct (Nat.eqb_spec (fst y) i); [congruence|]. exact IH.
        * destruct (Nat.eqb_spec (fst y) j); [congruence|]. exact IH.
    - rewrite filter_none; auto. intros y _. now rewrite andb_false_r. }
  rewrite (map_ext _ _ E). unfold mult. clear. induction row as [|x row IH]; simpl.
  - now destruct (j =? i).
  - rewrite IH. destruct (fst x =? k), (j =? i); simpl; lia.
Qed.
