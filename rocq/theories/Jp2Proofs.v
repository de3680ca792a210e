(** Proofs about jones_plassmann_coloring2. *)
From Coq Require Import List Arith Lia Bool Permutation.
From Verif Require Import Base GraphLib RangeModel RangeProperties MisModel DagProofs DagProofs2 Jp2Model.
Import ListNotations.
Set Implicit Arguments.

(** ** Spec *)
Definition earlierb (g : list (list nat)) (a b : nat) : bool := (deg g b <? deg g a) || ((deg g a =? deg g b) && (a <? b)).
Lemma earlierb_spec g a b : earlierb g a b = true <-> earlier g a b.
Proof. unfold earlierb, earlier. rewrite orb_true_iff, andb_true_iff, !Nat.ltb_lt, Nat.eqb_eq. tauto. Qed.
(** the number of arcs that join [a] and [u], in either direction *)
Definition joins (g : list (list nat)) (a u : nat) : nat := cocc (nth a g []) u + cocc (nth u g []) a.
(** the number of arcs that join [u] and an earlier vertex *)
Definition prior (g : list (list nat)) (u : nat) : nat := sum (map (fun a => if earlierb g a u then joins g a u else 0) (seq 0 (length g))).

(** ** The orientation *)
Definition num (es : list (nat * nat)) (a b : nat) : nat := length (filter (fun e => (fst e =? a) && (snd e =? b)) es).
Lemma num_app es es' a b : num (es ++ es') a b = num es a b + num es' a b.
Proof. unfold num. now rewrite filter_app, app_length. Qed.
Lemma num_one v u a b : num [(v, u)] a b = if (v =? a) && (u =? b) then 1 else 0.
Proof. unfold num. cbn [filter fst snd]. destruct (_ && _); reflexivity. Qed.
Lemma num_row v r a b : num (map (pair v) r) a b = if v =? a then cocc r b else 0.
Proof.
  unfold num. induction r as [|x r IH]; cbn [map filter fst snd count_occ]; [destruct (v =? a); reflexivity|].
  destruct (Nat.eqb_spec v a) as [->|N]; cbn [andb].
  - destruct (Nat.eqb_spec x b) as [->|N2]; cbn [length].
    + destruct (Nat.eq_dec b b); [now rewrite IH|congruence].
    + destruct (Nat.eq_dec x b); [congruence|auto].
  - exact IH.
Qed.
Lemma num_edges g : forall k a b, num (list_edges k g) a b = if k <=? a then cocc (nth (a - k) g []) b else 0.
Proof.
  induction g as [|r g IH]; intros k a b; cbn [list_edges].
  - destruct (a - k); cbn; destruct (k <=? a); reflexivity.
  - rewrite num_app, num_row, IH. destruct (Nat.eqb_spec k a) as [->|N].
    + rewrite Nat.leb_refl, Nat.sub_diag. replace (S a <=? a) with false by (symmetry; apply Nat.leb_gt; lia). cbn [nth]. lia.
    + destruct (Nat.leb_spec k a).
      * replace (S k <=? a) with true by (symmetry; apply Nat.leb_le; lia). replace (a - k) with (S (a - S k)) by lia. reflexivity.
      * replace (S k <=? a) with false by (symmetry; apply Nat.leb_gt; lia). reflexivity.
Qed.
Definition beforeb (d : list nat) (a b : nat) : bool := (nth b d 0 <? nth a d 0) || ((nth a d 0 =? nth b d 0) && (a <? b)).
Lemma orient_num d n : length d = n -> forall es, (forall v u, In (v, u) es -> v < n /\ u < n /\ v <> u) ->
  forall p s, rfold (orient d) es (repeat [] n, repeat [] n) = Ok (p, s) -> length p = n /\ length s = n /\
  forall a b, cocc (nth a s []) b = if beforeb d a b then num es a b + num es b a else 0.
Proof.
  intros Ld es. induction es as [|(v, u) es IH] using rev_ind; intros H p s E.
  - injection E as <- <-. rewrite repeat_length. split; auto. split; auto. intros a b. rewrite nth_repeat. destruct (beforeb d a b); reflexivity.
  - rewrite rfold_app in E. destruct (rfold (orient d) es _) as [(p1, s1)| |] eqn:E1; try discriminate. cbn [bind rfold orient] in E.
    destruct (IH (fun a b I => H a b (in_or_app _ _ _ (or_introl I))) p1 s1 eq_refl) as (X & Y & C). destruct (H v u) as (Hv & Hu & N); [apply in_or_app; simpl; auto|].
    rewrite (@vget_nth _ d v 0), (@vget_nth _ d u 0) in E by lia. cbn [bind] in E.
    assert (K : forall i x, i < n -> x < n -> i <> x -> beforeb d i x = true -> beforeb d x i = false -> (forall a b, num [(v, u)] a b + num [(v, u)] b a = (if (a =? i) && (b =? x) then 1 else 0) + (if (b =? i) && (a =? x) then 1 else 0)) ->
      forall a b, cocc (nth a (upd s1 i (nth i s1 [] ++ [x])) []) b = if beforeb d a b then num (es ++ [(v, u)]) a b + num (es ++ [(v, u)]) b a else 0).
    { intros i x Hi Hx Nx B1 B2 Q a b. rewrite cocc_push by lia. rewrite C, !num_app. specialize (Q a b).
      destruct (Nat.eqb_spec a i) as [A1|A1], (Nat.eqb_spec b x) as [A2|A2], (Nat.eqb_spec b i) as [A3|A3], (Nat.eqb_spec a x) as [A4|A4]; cbn [andb] in *; try lia;
        try (rewrite A1, A2, B1 in *; lia); try (rewrite A3, A4, B2 in *; lia); destruct (beforeb d a b); lia. }
    assert (N1 : forall a b, num [(v, u)] a b + num [(v, u)] b a = (if (a =? v) && (b =? u) then 1 else 0) + (if (b =? v) && (a =? u) then 1 else 0)).
    { intros a b. rewrite !num_one, !(Nat.eqb_sym v), !(Nat.eqb_sym u). reflexivity. }
    assert (N2 : forall a b, num [(v, u)] a b + num [(v, u)] b a = (if (a =? u) && (b =? v) then 1 else 0) + (if (b =? u) && (a =? v) then 1 else 0)).
    { intros a b. rewrite N1, (andb_comm (b =? u)), (andb_comm (a =? u)). lia. }
    assert (BB : forall a b, before d a b -> beforeb d a b = true /\ beforeb d b a = false).
    { intros a b Q. unfold beforeb, before in *. rewrite orb_true_iff, orb_false_iff, andb_true_iff, andb_false_iff, !Nat.ltb_lt, !Nat.ltb_ge, Nat.eqb_eq, Nat.eqb_neq. lia. }
    unfold before in BB.
    destruct (Nat.ltb_spec (nth u d 0) (nth v d 0)); [|destruct (Nat.ltb_spec (nth v d 0) (nth u d 0)); [|destruct (Nat.ltb_spec u v)]]; rewrite push_at_ok in E by lia; cbn [bind] in E; rewrite push_at_ok in E by lia; cbn [bind] in E;
      injection E as <- <-; rewrite !upd_length; (split; [auto|split; [auto|]]).
    + destruct (BB v u ltac:(lia)). apply K; auto.
    + destruct (BB u v ltac:(lia)). apply K; auto.
    + destruct (BB u v ltac:(lia)). apply K; auto.
    + destruct (BB v u ltac:(lia)). apply K; auto.
Qed.

Record setup (g : list (list nat)) (p s : list (list nat)) : Prop := {
  u_p : length p = length g; u_s : length s = length g; u_ok : targets_ok s;
  u_match : forall a b, cocc (nth a s []) b = cocc (nth b p []) a;
  u_wf : well_founded (fun a b => edge s a b);
  u_edge : forall a b, edge s a b <-> adjacent g a b /\ earlier g a b;
  u_total : total s (length g) <= sum (map (@length nat) g);
  u_prior : forall u, u < length g -> length (nth u p []) = prior g u }.
Lemma setup_ok g : targets_ok g -> loop_free g ->
  exists ds d p s, pd_visit (length g) g 0 (length g) = Ok ds /\ rfold (fun d e => vset d (fst e) (snd e)) ds (repeat 0 (length g)) = Ok d /\
    edges_of_range (sum (map (@length nat) g)) g (or_make g 0) = Ok (list_edges 0 g) /\
    rfold (orient d) (list_edges 0 g) (repeat [] (length g), repeat [] (length g)) = Ok (p, s) /\ setup g p s.
Proof.
  intros HT LF. set (n := length g).
  destruct (@C26_plain_and_neighbor_ranges nat g 0 SLeaf (Nat.le_0_l _)) as (_ & _ & PD). fold n in PD. eexists. 
  pose proof (map_length (@length nat) g) as ML.
  destruct (@degrees_ok (map (@length nat) g) 0 (repeat 0 n)) as (d & ED & LD & _ & DD); [rewrite map_length, repeat_length; auto|].
  rewrite ML in ED. fold n in ED. rewrite repeat_length in LD. exists d.
  assert (DG : forall a, a < n -> nth a d 0 = deg g a).
  { intros a Ha. specialize (DD a). cbn [plus] in DD. rewrite DD by (rewrite ML; auto). unfold deg. apply (map_nth (@length nat) g []). }
  assert (ES : forall v u, In (v, u) (list_edges 0 g) <-> edge g v u) by (intros v u; rewrite in_list_edges, Nat.sub_0_r; unfold edge; split; [tauto|split; auto; lia]).
  assert (EB : forall v u, In (v, u) (list_edges 0 g) -> v < n /\ u < n /\ v <> u).
  { intros v u I. apply ES in I. split; [eapply edge_src; eauto|]. split; [eapply HT; eauto|]. intros ->. eapply LF; eauto. }
  destruct (@orient_ok d n LD (list_edges 0 g) EB) as (p & s & EO & [A B C D]). destruct (@orient_num d n LD _ EB p s EO) as (_ & _ & NM). exists p, s.
  split; [exact PD|]. split; [exact ED|]. split; [rewrite (@C26_edge_range_enumerates nat g 0) by lia; reflexivity|]. split; [exact EO|].
  assert (ADJ : forall a b, adjacent g a b -> a < n /\ b < n).
  { assert (X : forall a b, edge g a b -> a < n /\ b < n) by (intros a b Y; split; [eapply edge_src; eauto|exact (HT _ _ Y)]). intros a b [Y|Y]; apply X in Y; tauto. }
  assert (SU : forall a b, edge s a b <-> adjacent g a b /\ earlier g a b).
  { intros a b. unfold edge at 1. rewrite D, !ES. unfold adjacent, before, earlier. split.
    - intros (X & Y). pose proof (ADJ a b Y). rewrite <- !DG by tauto. tauto.
    - intros (Y & X). pose proof (ADJ a b Y). rewrite !DG by tauto. tauto. }
  assert (TS : targets_ok s) by (intros a b E; rewrite B; apply SU in E; apply ADJ with (a := a); tauto).
  assert (AC : acyclic s).
  { intros v k W. assert (X : before d v v) by (apply (@before_walk d s) with (k := k); auto; intros a b E; apply D in E; tauto). unfold before in X. lia. }
  assert (JN : forall a b, a < n -> b < n -> cocc (nth a s []) b = if earlierb g a b then joins g a b else 0).
  { intros a b Ha Hb. rewrite NM, !num_edges, !Nat.sub_0_r. cbn [Nat.leb]. unfold beforeb, earlierb, joins. now rewrite !DG by auto. }
  constructor; auto.
  - apply acyclic_wf; auto.
  - assert (X : forall l p s, (forall v u, In (v, u) l -> v < n /\ u < n) -> rfold (orient d) l (repeat [] n, repeat [] n) = Ok (p, s) -> length p = n /\ length s = n /\ total s n = length l).
    { clear - LD. induction l as [|(v, u) l IH] using rev_ind; intros p s H E.
      - injection E as <- <-. rewrite repeat_length. split; auto. split; auto. apply sum_map_0. intros a _. unfold row. now rewrite nth_repeat.
      - rewrite rfold_app in E. destruct (rfold (orient d) l _) as [(p1, s1)| |] eqn:E1; try discriminate. cbn [bind rfold orient] in E.
        destruct (IH p1 s1) as (X & Y & Z); [intros; apply H, in_or_app; auto|auto|]. destruct (H v u) as (Hv & Hu); [apply in_or_app; simpl; auto|].
        rewrite (@vget_nth _ d v 0), (@vget_nth _ d u 0) in E by lia. cbn [bind] in E. rewrite app_length. cbn [length].
        assert (G : forall i x, i < n -> total (upd s1 i (nth i s1 [] ++ [x])) n = length l + 1).
        { intros i x Hi. rewrite <- Z. unfold total. assert (Hs : In i (seq 0 n)) by (apply in_seq; lia). pose proof (seq_NoDup n 0) as ND. apply in_split in Hs. destruct Hs as (l1 & l2 & EQ). rewrite EQ in *. clear EQ.
          rewrite !map_app, !sum_app. cbn [map sum]. unfold row at 2. rewrite nth_upd_eq by lia. rewrite app_length. cbn [length].
          rewrite (@sum_map_ext _ (fun a => length (row (upd s1 i (nth i s1 [] ++ [x])) a)) (fun a => length (row s1 a)) l1), (@sum_map_ext _ (fun a => length (row (upd s1 i (nth i s1 [] ++ [x])) a)) (fun a => length (row s1 a)) l2).
          - unfold row. lia.
          - intros y I. unfold row. rewrite nth_upd_neq; auto. intros ->. apply NoDup_remove_2 in ND. apply ND, in_or_app; auto.
          - intros y I. unfold row. rewrite nth_upd_neq; auto. intros ->. apply NoDup_remove_2 in ND. apply ND, in_or_app; auto. }
        destruct (_ <? _); [|destruct (_ <? _); [|destruct (_ <? _)]]; rewrite ?push_at_ok in E by lia; cbn [bind] in E; rewrite ?push_at_ok in E by lia; cbn [bind] in E;
        injection E as <- <-; rewrite !upd_length; auto. }
    destruct (X (list_edges 0 g) p s) as (_ & _ & Y); auto.
    + intros v u I. apply EB in I. tauto.
    + fold n. rewrite Y, list_edges_length. lia.
  - intros u Hu. fold n in Hu. rewrite (@pred_len p s n B C u). unfold prior. fold n. apply sum_map_ext. intros a Ia. apply in_seq in Ia. unfold row. apply JN; lia.
Qed.

(** ** The colours *)
Lemma sort_in_perm x l : Permutation (sort_in x l) (x :: l).
Proof. induction l as [|y r IH]; cbn [sort_in]; auto. destruct (x <=? y); auto. rewrite IH. constructor. Qed.
Lemma sorted_perm l : Permutation (sorted_of l) l.
Proof. induction l as [|x l IH]; cbn; auto. rewrite sort_in_perm. now constructor. Qed.
Lemma scan_ok l d : jp2_scan l d = if existsb (fun x => x =? 0) l then 0 else d.
Proof. induction l as [|x r IH]; cbn [jp2_scan existsb]; auto. destruct (Nat.eqb_spec x 0) as [->|N]; cbn [orb]; auto. Qed.

Section C.
Variables (pred succ : list (list nat)) (n : nat).
Hypothesis Lp : length pred = n.
Hypothesis Ls : length succ = n.
Hypothesis HT : targets_ok succ.
Hypothesis MATCH : forall a b, cocc (nth a succ []) b = cocc (nth b pred []) a.
Hypothesis WF : well_founded (fun a b => edge succ a b).
Let pl u := length (nth u pred []).

Lemma bump_ok pc i j : i < length pc -> j < length (nth i pc []) ->
  bump pc i j = Ok (upd pc i (upd (nth i pc []) j (nth j (nth i pc []) 0 + 1))).
Proof. intros H1 H2. unfold bump. rewrite (@vget_nth _ pc i []) by auto. cbn [bind]. rewrite (@vget_nth _ _ j 0) by auto. cbn [bind]. rewrite vset_lt by auto. cbn [bind]. now rewrite vset_lt. Qed.
Definition shaped (pc : list (list nat)) : Prop := length pc = n /\ forall u, u < n -> length (nth u pc []) = pl u.
Lemma tell_ok k : forall l pc, shaped pc -> (forall x, In x l -> x < n) ->
  exists pc', rfold (jp2_tell pred k) l pc = Ok pc' /\ shaped pc' /\
    forall u i, u < n -> i < pl u -> nth i (nth u pc' []) 0 = nth i (nth u pc []) 0 + (if i =? k then cocc l u else 0).
Proof.
  induction l as [|x l IH]; intros pc SH B; cbn [rfold].
  - exists pc. split; auto. split; auto. intros u i Hu Hi. cbn. destruct (i =? k); lia.
  - assert (Hx : x < n) by (apply B; now left). unfold jp2_tell at 1. rewrite (@vget_nth _ pred x []) by lia. cbn [bind]. fold (pl x). destruct SH as (S1 & S2).
    assert (X : exists pc1, (if k <? pl x then bump pc x k else Ok pc) = Ok pc1 /\ shaped pc1 /\ forall u i, u < n -> i < pl u -> nth i (nth u pc1 []) 0 = nth i (nth u pc []) 0 + (if (i =? k) && (x =? u) then 1 else 0)).
    { destruct (Nat.ltb_spec k (pl x)) as [L|L].
      - rewrite bump_ok by (rewrite ?S2; lia). eexists. split; [reflexivity|]. split; [split|].
        + now rewrite upd_length.
        + intros u Hu. destruct (Nat.eq_dec u x) as [->|N]; [rewrite nth_upd_eq by lia; now rewrite upd_length, S2|rewrite nth_upd_neq; auto].
        + intros u i Hu Hi. destruct (Nat.eqb_spec x u) as [<-|N]; [rewrite andb_true_r; rewrite nth_upd_eq by lia|rewrite andb_false_r; rewrite nth_upd_neq by auto; lia].
          destruct (Nat.eqb_spec i k) as [->|N]; [rewrite nth_upd_eq by (rewrite S2; lia); lia|rewrite nth_upd_neq by auto; lia].
      - exists pc. split; auto. split; [split; auto|]. intros u i Hu Hi. destruct (Nat.eqb_spec i k) as [->|N]; destruct (Nat.eqb_spec x u) as [<-|N2]; cbn [andb]; lia. }
    destruct X as (pc1 & -> & SH1 & C1). cbn [bind]. destruct (IH pc1 SH1) as (pc' & E & SH' & C'); [intros; apply B; now right|]. exists pc'. split; auto. split; auto.
    intros u i Hu Hi. rewrite C', C1 by auto. cbn [count_occ]. destruct (i =? k); cbn [andb]; [|lia]. destruct (Nat.eq_dec x u) as [->|N]; [rewrite Nat.eqb_refl; lia|]. replace (x =? u) with false by (symmetry; now apply Nat.eqb_neq). lia.
Qed.
(** what the algorithm does at [u]: the number of its predecessors if they have all smaller colours, else 0 *)
Definition choose (c : list nat) (u : nat) : nat :=
  if forallb (fun i => existsb (fun a => nth a c 0 =? i) (nth u pred [])) (seq 0 (pl u)) then pl u else 0.
Record cinv (D : nat -> bool) (c0 c : list nat) (pc : list (list nat)) : Prop := {
  v_len : length c = length c0; v_shape : shaped pc;
  v_count : forall u, u < n -> D u = false -> forall i, i < pl u -> nth i (nth u pc []) 0 = length (filter (fun a => D a && (nth a c 0 =? i)) (nth u pred []));
  v_done : forall u, u < n -> D u = true -> (forall a, In a (nth u pred []) -> D a = true) /\ nth u c 0 = choose c u;
  v_rest : forall v, n <= v -> nth v c 0 = nth v c0 0 }.
Lemma no_self u : ~ In u (nth u pred []).
Proof.
  intros I. apply (count_occ_In Nat.eq_dec) in I. rewrite <- MATCH in I. apply (count_occ_In Nat.eq_dec) in I.
  assert (K : forall x, Acc (fun a b => edge succ a b) x -> ~ edge succ x x) by (induction 1; intros E; apply (H0 x); auto). apply (K u (WF u)). exact I.
Qed.
Lemma count_more D c l u k : D u = false -> ~ In u l \/ u < length c -> forall i,
  length (filter (fun a => (D a || (a =? u)) && (nth a (upd c u k) 0 =? i)) l) =
  length (filter (fun a => D a && (nth a c 0 =? i)) l) + (if i =? k then cocc l u else 0).
Proof.
  intros Du H i. assert (Hl : In u l -> u < length c) by tauto. clear H. induction l as [|a l IH]; cbn [filter count_occ]; [destruct (i =? k); reflexivity|].
  assert (Hl' : In u l -> u < length c) by (intros; apply Hl; now right). specialize (IH Hl').
  destruct (Nat.eq_dec a u) as [->|N].
  - rewrite Du, Nat.eqb_refl, nth_upd_eq by (apply Hl; now left). cbn [orb andb]. rewrite (Nat.eqb_sym k i). destruct (i =? k); cbn [length]; lia.
  - replace (a =? u) with false by (symmetry; now apply Nat.eqb_neq). rewrite orb_false_r, nth_upd_neq by auto. destruct (_ && _); cbn [length]; destruct (i =? k); lia.
Qed.
Lemma choose_ext c c' u : (forall a, In a (nth u pred []) -> nth a c 0 = nth a c' 0) -> choose c u = choose c' u.
Proof.
  intros H. unfold choose. f_equal. assert (K : forall l, forallb (fun i => existsb (fun a => nth a c 0 =? i) (nth u pred [])) l = forallb (fun i => existsb (fun a => nth a c' 0 =? i) (nth u pred [])) l).
  { intros l. induction l as [|i l IH]; cbn [forallb]; auto. f_equal; auto. clear IH. induction (nth u pred []) as [|a r IH]; cbn [existsb]; auto. rewrite H by now left. f_equal. apply IH. intros; apply H; now right. }
  now rewrite K.
Qed.
Lemma settle D c0 c pc u k pc1 : cinv D c0 c pc -> u < n -> n <= length c0 -> D u = false -> (forall a, In a (nth u pred []) -> D a = true) -> k = choose c u ->
  shaped pc1 -> (forall x, x < n -> x <> u -> nth x pc1 [] = nth x pc []) ->
  exists pc', rfold (jp2_tell pred k) (nth u succ []) pc1 = Ok pc' /\ cinv (fun a => D a || (a =? u)) c0 (upd c u k) pc'.
Proof.
  intros I Hu Hn Du PD K SH1 P1. destruct (@tell_ok k (nth u succ []) pc1 SH1) as (pc' & E & SH' & C'). { intros x Hx. rewrite <- Ls. exact (HT _ _ Hx). }
  exists pc'. split; auto. assert (Lc := v_len I). constructor; auto.
  - now rewrite upd_length.
  - intros x Hx Dx i Hi. apply orb_false_iff in Dx. destruct Dx as (Dx & N). apply Nat.eqb_neq in N. rewrite C', P1 by auto. rewrite (v_count I Hx Dx Hi). rewrite count_more by (auto; right; lia). now rewrite MATCH.
  - intros x Hx Dx. apply orb_true_iff in Dx. destruct (Nat.eqb_spec x u) as [->|N].
    + split; [intros a Ia; now rewrite PD|]. rewrite nth_upd_eq by lia. rewrite K. apply choose_ext. intros a Ia. rewrite nth_upd_neq; auto. intros ->. exact (@no_self _ Ia).
    + destruct Dx as [Dx|Dx]; [|congruence]. destruct (v_done I Hx Dx) as (Q1 & Q2). split; [intros a Ia; now rewrite Q1|]. rewrite nth_upd_neq by auto. rewrite Q2. apply choose_ext. intros a Ia. rewrite nth_upd_neq; auto. intros ->. apply Q1 in Ia. congruence.
  - intros v Hv. rewrite nth_upd_neq by lia. now apply (v_rest I).
Qed.
Lemma cinv_ext D D' c0 c pc : (forall u, u < n -> D u = D' u) -> cinv D c0 c pc -> cinv D' c0 c pc.
Proof.
  intros H [A B C E F]. constructor; auto.
  - intros u Hu Du i Hi. rewrite C by (auto; rewrite H; auto). f_equal. apply filter_ext_in. intros a Ia. rewrite H; auto. apply (@pred_lt pred succ n Ls MATCH u a Ia).
  - intros u Hu Du. destruct (E u Hu) as (Q1 & Q2); [rewrite H; auto|]. split; auto. intros a Ia. rewrite <- H; auto. apply (@pred_lt pred succ n Ls MATCH u a Ia).
Qed.
Lemma bump_tell k l pc : (forall x, In x l -> x < n /\ k < pl x) -> rfold (fun pc u => bump pc u k) l pc = rfold (jp2_tell pred k) l pc.
Proof.
  revert pc. induction l as [|x l IH]; intros pc H; cbn [rfold]; auto. destruct (H x) as (Hx & Hk); [now left|]. unfold jp2_tell at 1. rewrite (@vget_nth _ pred x []) by lia. cbn [bind]. fold (pl x).
  replace (k <? pl x) with true by (symmetry; now apply Nat.ltb_lt). destruct (bump pc x k); cbn [bind]; auto. apply IH. intros; apply H; now right.
Qed.
Lemma start_ok c0 : n <= length c0 -> forall m, m <= n ->
  exists c pc, rfold (jp2_root pred succ) (seq 0 m) (c0, jp2_init pred) = Ok (c, pc) /\ cinv (fun u => (u <? m) && (pl u =? 0)) c0 c pc.
Proof.
  intros Hn. induction m as [|m IH]; intros Hm.
  - exists c0, (jp2_init pred). split; auto. unfold jp2_init. assert (NT : forall u, nth u (map (fun p => repeat 0 (length p)) pred) [] = repeat 0 (pl u)).
    { intros u. destruct (Nat.lt_ge_cases u n); [rewrite (nth_indep _ [] ((fun p : list nat => repeat 0 (length p)) [])) by (rewrite map_length; lia); now rewrite (map_nth (fun p : list nat => repeat 0 (length p)))|].
      unfold pl. rewrite !nth_overflow by (rewrite ?map_length; lia). reflexivity. }
    constructor; auto.
    + split; [now rewrite map_length|]. intros u Hu. rewrite NT. apply repeat_length.
    + intros u Hu _ i Hi. rewrite NT, nth_repeat. rewrite filter_none; auto.
    + intros u Hu D. discriminate.
  - destruct (IH ltac:(lia)) as (c & pc & E & I). rewrite seq_S, rfold_app, E. cbn [bind rfold plus]. unfold jp2_root at 1. cbn [fst snd]. rewrite (@vget_nth _ pred m []) by lia. cbn [bind]. fold (pl m).
    destruct (Nat.eqb_spec (pl m) 0) as [Z|Z].
    + assert (Lc := v_len I). rewrite vset_lt by lia. cbn [bind]. rewrite (@vget_nth _ succ m []) by lia. cbn [bind]. assert (PE : nth m pred [] = []) by (now apply length_zero_iff_nil).
      rewrite bump_tell.
      2:{ intros x Hx. split; [rewrite <- Ls; exact (HT _ _ Hx)|]. apply (count_occ_In Nat.eq_dec) in Hx. rewrite MATCH in Hx. unfold pl. destruct (nth x pred []); cbn in *; lia. }
      destruct (@settle _ c0 c pc m 0 pc I) as (pc' & -> & I'); auto.
      * now rewrite Nat.ltb_irrefl.
      * intros a Ia. rewrite PE in Ia. destruct Ia.
      * unfold choose. rewrite Z. reflexivity.
      * apply (v_shape I).
      * cbn [bind]. exists (upd c m 0), pc'. split; auto. apply (@cinv_ext _ _ c0 _ _) with (2 := I'). intros u Hu.
        destruct (Nat.ltb_spec u m), (Nat.ltb_spec u (S m)), (Nat.eqb_spec u m); subst; cbn [andb orb]; try lia; rewrite ?orb_false_r, ?Z; auto.
    + exists c, pc. split; auto. apply (@cinv_ext _ _ c0 _ _) with (2 := I). intros u Hu.
      destruct (Nat.ltb_spec u m), (Nat.ltb_spec u (S m)); cbn [andb]; auto; try lia. assert (u = m) by lia. subst. symmetry. now apply Nat.eqb_neq.
Qed.
Lemma scan_choose D c0 c pc u : cinv D c0 c pc -> u < n -> D u = false -> (forall a, In a (nth u pred []) -> D a = true) ->
  jp2_scan (sorted_of (nth u pc [])) (pl u) = choose c u.
Proof.
  intros I Hu Du PD. rewrite scan_ok. unfold choose.
  assert (SU : length (nth u pc []) = pl u) by (apply (v_shape I); auto).
  assert (X : existsb (fun x => x =? 0) (sorted_of (nth u pc [])) = negb (forallb (fun i => existsb (fun a => nth a c 0 =? i) (nth u pred [])) (seq 0 (pl u)))).
  { apply eq_true_iff_eq. rewrite existsb_exists, negb_true_iff, <- not_true_iff_false, forallb_forall. split.
    - intros (x & Ix & Zx) Q. apply Nat.eqb_eq in Zx. subst x. apply (Permutation_in _ (sorted_perm _)) in Ix. apply (In_nth _ _ 0) in Ix. destruct Ix as (i & Hi & Ei). rewrite SU in Hi.
      specialize (Q i ltac:(apply in_seq; lia)). apply existsb_exists in Q. destruct Q as (a & Ia & Ea). rewrite (v_count I Hu Du Hi) in Ei. apply length_zero_iff_nil in Ei.
      assert (J : In a (filter (fun a => D a && (nth a c 0 =? i)) (nth u pred []))) by (apply filter_In; split; auto; now rewrite (PD a Ia), Ea). rewrite Ei in J. destruct J.
    - intros Q. destruct (existsb (fun x => x =? 0) (nth u pc [])) eqn:Z.
      + apply existsb_exists in Z. destruct Z as (x & Ix & Zx). exists x. split; auto. apply (Permutation_in _ (Permutation_sym (sorted_perm _))); auto.
      + exfalso. apply Q. intros i Ii. apply in_seq in Ii. destruct (existsb (fun a => nth a c 0 =? i) (nth u pred [])) eqn:W; auto. exfalso.
        assert (NZ : nth i (nth u pc []) 0 = 0).
        { rewrite (v_count I Hu Du) by lia. rewrite filter_none; auto. intros a Ia. destruct (nth a c 0 =? i) eqn:Y; [|apply andb_false_r]. assert (existsb (fun a => nth a c 0 =? i) (nth u pred []) = true) by (apply existsb_exists; eauto). congruence. }
        assert (existsb (fun x => x =? 0) (nth u pc []) = true); [|congruence]. apply existsb_exists. exists 0. split; auto. rewrite <- NZ. apply nth_In. lia. }
  rewrite X. destruct (forallb _ _); reflexivity.
Qed.

(** [l]: all visited arcs *)
Lemma visits_ok P l c0 c1 pc1 : n <= length c0 -> finished succ n P -> map fst l = flat_map (eds succ) P -> flags pred [] l ->
  cinv (fun u => pl u =? 0) c0 c1 pc1 ->
  exists c pc, rfold (jp2_visit pred succ) l (c1, pc1) = Ok (c, pc) /\ cinv (fun _ => true) c0 c pc.
Proof.
  intros Hn FI EL FL I1.
  assert (ALL : forall u, u < n -> into (map fst l) u = pl u).
  { intros u Hu. rewrite EL, into_eds. unfold pl. rewrite (@pred_len pred succ n Ls MATCH u). apply sum_perm. now apply Permutation_map, (@finished_perm pred succ n Lp Ls). }
  assert (K : forall l2 l1, l = l1 ++ l2 -> forall c pc, cinv (fun u => into (map fst l1) u =? pl u) c0 c pc -> exists c' pc', rfold (jp2_visit pred succ) l2 (c, pc) = Ok (c', pc') /\ cinv (fun _ => true) c0 c' pc').
  { induction l2 as [|((v, u), r) l2 IH]; intros l1 E c pc I.
    - rewrite app_nil_r in E. subst l1. exists c, pc. split; auto. apply (@cinv_ext (fun u => into (map fst l) u =? pl u)); auto. intros u Hu. apply Nat.eqb_eq. auto.
    - assert (E2 : l = (l1 ++ [(v, u, r)]) ++ l2) by (now rewrite <- app_assoc).
      assert (R := FL _ _ _ _ E). cbn [app snd] in R. fold (pl u) in R.
      assert (O : forall z, into (map fst (l1 ++ [(v, u, r)])) z = into (map fst l1) z + (if u =? z then 1 else 0)).
      { intros z. rewrite map_app, into_app. f_equal. unfold into. cbn [map fst filter snd]. destruct (u =? z); reflexivity. }
      assert (Iu : In (v, u) (map fst l)) by (rewrite E, map_app; apply in_or_app; right; now left).
      assert (Eu : edge succ v u) by (rewrite EL in Iu; apply in_flat_map in Iu; destruct Iu as (x & _ & Ix); apply in_map_iff in Ix; destruct Ix as (y & Ey & Iy); injection Ey as -> ->; exact Iy).
      assert (Hu : u < n) by (rewrite <- Ls; exact (HT _ _ Eu)).
      cbn [rfold]. unfold jp2_visit at 1. cbn [fst snd]. rewrite map_app in O. rewrite <- map_app in O.
      assert (MX : into (map fst l1) u + 1 <= pl u). { rewrite <- (ALL u Hu), E2, map_app, into_app, O, Nat.eqb_refl. lia. }
      destruct r.
      + symmetry in R. apply Nat.eqb_eq in R. change [(v, u)] with (map fst [(v, u, true)]) in R. rewrite <- map_app, O, Nat.eqb_refl in R.
        destruct (v_shape I) as (S1 & S2). rewrite (@vget_nth _ pc u []) by lia. cbn [bind]. rewrite vset_lt by lia. cbn [bind]. rewrite (@vget_nth _ pred u []) by lia. cbn [bind]. fold (pl u).
        assert (Du : (into (map fst l1) u =? pl u) = false) by (apply Nat.eqb_neq; lia).
        assert (PD : forall a, In a (nth u pred []) -> (into (map fst l1) a =? pl a) = true).
        { intros a Ia. assert (Ea : edge succ a u) by (apply (count_occ_In Nat.eq_dec); rewrite MATCH; now apply (count_occ_In Nat.eq_dec)).
          assert (Ha : a < n) by (rewrite <- Ls; eapply edge_src; eauto).
          assert (J : In (a, u) (map fst l)) by (rewrite EL; apply in_flat_map; exists a; split; [apply FI; auto|apply in_map; exact Ea]).
          assert (J1 : In (a, u) (map fst (l1 ++ [(v, u, true)]))).
          { rewrite E2, map_app in J. apply in_app_or in J. destruct J as [J|J]; auto. exfalso. assert (into (map fst l2) u = 0). { specialize (ALL u Hu). rewrite E2, map_app, into_app, O, Nat.eqb_refl in ALL. lia. }
            unfold into in H. apply length_zero_iff_nil in H. assert (W : In (a, u) (filter (fun e => snd e =? u) (map fst l2))) by (apply filter_In; split; auto; apply Nat.eqb_refl). rewrite H in W. destruct W. }
          apply in_split in J1. destruct J1 as (o1 & o2 & Eo). assert (F2 : flat_map (eds succ) P = o1 ++ (a, u) :: (o2 ++ map fst l2)) by (rewrite <- EL, E2, map_app, Eo, <- app_assoc; reflexivity).
          assert (NO := @finished_order succ n P _ _ _ _ FI F2). apply Nat.eqb_eq. rewrite <- (ALL a Ha), E2, map_app, into_app, O.
          assert (Nau : u <> a). { intros <-. apply (@no_self u). exact Ia. }
          replace (u =? a) with false by (symmetry; now apply Nat.eqb_neq). assert (Z : into (map fst l2) a = 0); [|lia]. unfold into. rewrite filter_none; auto. intros (x, y) Ix. cbn [snd]. destruct (Nat.eqb_spec y a) as [->|]; auto. exfalso. apply (NO x). right. apply in_or_app. now right. }
        rewrite (scan_choose I Hu Du PD). assert (Lc := v_len I). rewrite vset_lt by lia. cbn [bind]. rewrite (@vget_nth _ succ u []) by lia. cbn [bind].
        destruct (@settle _ c0 c pc u (choose c u) (upd pc u (sorted_of (nth u pc []))) I Hu Hn Du PD eq_refl) as (pc' & -> & I').
        * split; [now rewrite upd_length|]. intros x Hx. destruct (Nat.eq_dec x u) as [->|N]; [rewrite nth_upd_eq by lia; rewrite (Permutation_length (sorted_perm _)); auto|rewrite nth_upd_neq; auto].
        * intros x Hx N. rewrite nth_upd_neq; auto.
        * cbn [bind]. apply (IH _ E2). apply (@cinv_ext _ _ c0 _ _) with (2 := I'). intros x Hx. rewrite O. destruct (Nat.eqb_spec u x) as [->|N].
          -- rewrite Nat.eqb_refl, orb_true_r. symmetry. apply Nat.eqb_eq. lia.
          -- destruct (Nat.eqb_spec x u); [congruence|]. now rewrite orb_false_r, Nat.add_0_r.
      + symmetry in R. apply Nat.eqb_neq in R. change [(v, u)] with (map fst [(v, u, false)]) in R. rewrite <- map_app, O, Nat.eqb_refl in R. apply (IH _ E2). apply (@cinv_ext _ _ c0 _ _) with (2 := I).
        intros x Hx. rewrite O. destruct (Nat.eqb_spec u x) as [<-|N]; [|now rewrite Nat.add_0_r]. transitivity false; [|symmetry]; apply Nat.eqb_neq; lia. }
  apply (K l [] eq_refl). apply (@cinv_ext _ _ c0 _ _) with (2 := I1). intros u Hu. unfold into. cbn. apply Nat.eqb_sym.
Qed.
End C.

Lemma jp2_ok g c0 : g <> [] -> targets_ok g -> loop_free g -> length g <= length c0 ->
  exists c p s, jones_plassmann_coloring2 g c0 = Ok c /\ length c = length c0 /\ setup g p s /\ (forall v, length g <= v -> nth v c 0 = nth v c0 0) /\
    forall u, u < length g -> nth u c 0 = choose p c u.
Proof.
  intros NE HT LF L. destruct (setup_ok HT LF) as (ds & d & p & s & E1 & E2 & E3 & E4 & U). unfold jones_plassmann_coloring2. rewrite E1. cbn [bind]. rewrite E2. cbn [bind]. rewrite E3. cbn [bind]. rewrite E4. cbn [bind fst snd].
  assert (Hn : 0 < length g) by (destruct g; [congruence|cbn; lia]).
  destruct (@start_ok p s (length g) (u_p U) (u_s U) (u_ok U) (u_match U) (u_wf U) c0 L (length g) (le_n _)) as (c1 & pc1 & -> & I1). cbn [bind].
  destruct (@iterate_ok p s (length g) (u_p U) (u_s U) (u_ok U) (u_match U) (u_wf U) _ Hn (u_total U)) as (P & l & -> & FI & EL & FL). cbn [bind].
  destruct (@visits_ok p s (length g) (u_p U) (u_s U) (u_ok U) (u_match U) (u_wf U) P l c0 c1 pc1 L FI EL FL) as (c & pc & -> & I).
  { apply (@cinv_ext p s (length g) (u_s U) (u_match U) _ _ c0 _ _) with (2 := I1). intros u Hu. cbv beta. replace (u <? length g) with true by (symmetry; now apply Nat.ltb_lt). reflexivity. }
  cbn [bind fst]. exists c, p, s. split; auto. split; [apply (v_len I)|]. split; auto. split; [apply (v_rest I)|]. intros u Hu. apply (v_done I Hu eq_refl).
Qed.
Lemma in_pred g p s : setup g p s -> forall u a, In a (nth u p []) <-> adjacent g a u /\ earlier g a u.
Proof. intros U u a. rewrite <- (u_edge U). unfold edge. rewrite (count_occ_In Nat.eq_dec (nth u p [])), (count_occ_In Nat.eq_dec (nth a s [])), (u_match U). tauto. Qed.
