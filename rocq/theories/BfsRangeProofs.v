(** Proofs about the breadth-first ranges. *)
From Coq Require Import List Arith Lia Bool Sorted.
From Verif Require Import Base GraphLib FifoLib BfsRangeModel.
Import ListNotations.
Set Implicit Arguments.

Definition vmatch (n : nat) (vis : list bool) (P : list nat) : Prop :=
  length vis = n /\ forall x, x < n -> (nth x vis false = true <-> In x P).

Lemma vmatch_ext n vis P P' : (forall x, In x P <-> In x P') -> vmatch n vis P -> vmatch n vis P'.
Proof. intros E [L M]. split; auto. intros x X. rewrite <- E. auto. Qed.
Lemma vmatch_get n vis P x : vmatch n vis P -> x < n -> (In x P /\ vget vis x = Ok true) \/ (~ In x P /\ vget vis x = Ok false).
Proof.
  intros [L M] X. rewrite (@vget_nth _ vis x false) by lia. destruct (nth x vis false) eqn:E.
  - left. split; auto. now apply M.
  - right. split; auto. intros C. apply M in C; congruence.
Qed.
Lemma vmatch_set n vis P x : vmatch n vis P -> x < n -> exists vis', vset vis x true = Ok vis' /\ vmatch n vis' (P ++ [x]).
Proof.
  intros [L M] X. exists (upd vis x true). split; [apply vset_lt; lia|]. split; [now rewrite upd_length|].
  intros y Y. rewrite nth_upd by lia. rewrite in_app_iff. simpl. destruct (Nat.eq_dec x y) as [->|N].
  - rewrite Nat.eqb_refl. split; auto.
  - replace (y =? x) with false by (symmetry; apply Nat.eqb_neq; auto). rewrite M by auto. intuition.
Qed.
Lemma vmatch_init n s : s < n -> exists vis, vset (repeat false n) s true = Ok vis /\ vmatch n vis [s].
Proof.
  intros L. apply (@vmatch_set n (repeat false n) [] s); auto. split; [apply repeat_length|].
  intros x X. split; [|intros []]. intros E. assert (In true (repeat false n)) by (rewrite <- E; apply nth_In; now rewrite repeat_length).
  apply repeat_spec in H. discriminate.
Qed.

(* colours: white = 1 *)
Definition wmatch (n : nat) (c : list nat) (P : list nat) : Prop :=
  length c = n /\ forall x, x < n -> (nth x c 0 = 1 <-> ~ In x P).
Lemma wmatch_get n c P x : wmatch n c P -> x < n -> exists k, vget c x = Ok k /\ ((In x P /\ k <> 1) \/ (~ In x P /\ k = 1)).
Proof.
  intros [L M] X. exists (nth x c 0). split; [apply vget_nth; lia|]. destruct (in_dec Nat.eq_dec x P) as [I|I].
  - left. split; auto. intros E. apply M in E; auto.
  - right. split; auto. now apply M.
Qed.
Lemma wmatch_set n c P x k : wmatch n c P -> x < n -> k <> 1 -> exists c', vset c x k = Ok c' /\ wmatch n c' (P ++ [x]).
Proof.
  intros [L M] X K. exists (upd c x k). split; [apply vset_lt; lia|]. split; [now rewrite upd_length|].
  intros y Y. rewrite nth_upd by lia. rewrite in_app_iff. simpl. destruct (Nat.eq_dec x y) as [->|N].
  - rewrite Nat.eqb_refl. intuition.
  - replace (y =? x) with false by (symmetry; apply Nat.eqb_neq; auto). rewrite M by auto. intuition.
Qed.
Lemma wmatch_ext n c P P' : (forall x, In x P <-> In x P') -> wmatch n c P -> wmatch n c P'.
Proof. intros E [L M]. split; auto. intros x X. rewrite <- E. auto. Qed.
Lemma wmatch_reset n c P x k : wmatch n c P -> x < n -> k <> 1 -> In x P -> exists c', vset c x k = Ok c' /\ wmatch n c' P.
Proof.
  intros M X K I. destruct (wmatch_set M X K) as (c' & E & M'). exists c'. split; auto. eapply wmatch_ext; [|exact M'].
  intros y. rewrite in_app_iff. simpl. intuition. now subst.
Qed.

Section G.
Variable g : list (list nat).
Variable s : nat.
Hypothesis Hg : targets_ok g.
Hypothesis Hs : s < length g.

Lemma row_lt u i w : nth_error (nth u g []) i = Some w -> w < length g.
Proof. intros E. apply (Hg u). eapply nth_error_In; eauto. Qed.

Lemma finv_lt D u i Q T x : finv g s D u i Q T -> In x (D ++ u :: Q) -> x < length g.
Proof. intros I X. destruct (fi_dist I _ X) as [d [W _]]. eapply walk_lt; eauto. Qed.
Lemma finv_u D u i Q T : finv g s D u i Q T -> u < length g.
Proof. intros I. eapply finv_lt; eauto. apply in_or_app. right. now left. Qed.
Lemma finv_len D u i Q T : finv g s D u i Q T -> length (D ++ u :: Q) <= length g.
Proof.
  intros I. rewrite <- (seq_length (length g) 0). apply NoDup_incl_length; [apply (fi_nodup I)|].
  intros x X. apply in_seq. assert (L := finv_lt x I X). lia.
Qed.

Lemma skipn_cons_nth (l : list nat) : forall i w l', skipn i l = w :: l' -> nth_error l i = Some w /\ skipn (S i) l = l'.
Proof. induction l; destruct i; simpl; intros; try discriminate. - injection H as -> ->. auto. - now apply IHl. Qed.
Lemma skipn_nil_len (l : list nat) i : skipn i l = [] -> length l <= i.
Proof. intros E. assert (L := skipn_length i l). rewrite E in L. simpl in L. lia. Qed.

Lemma td_row D u T0 : forall l i Q T vis q0, skipn i (nth u g []) = l -> i <= length (nth u g []) ->
  finv g s D u i Q (T0 ++ T) -> vmatch (length g) vis (D ++ u :: Q) ->
  exists vis' new, rfold td_visit_one l (vis, q0 ++ Q) = Ok (vis', q0 ++ Q ++ new) /\
    finv g s D u (length (nth u g [])) (Q ++ new) (T0 ++ T ++ map (pair u) new) /\
    vmatch (length g) vis' (D ++ u :: Q ++ new).
Proof.
  induction l as [|w l IH]; intros i Q T vis q0 E Li I V.
  - apply skipn_nil_len in E. exists vis, []. rewrite !app_nil_r. split; auto. split; auto.
    now replace (length (nth u g [])) with i by lia.
  - apply skipn_cons_nth in E. destruct E as [En El]. assert (Lw := row_lt _ _ En).
    assert (Li' : S i <= length (nth u g [])) by (apply nth_error_Some; congruence).
    cbn [rfold]. unfold td_visit_one at 1. cbn [fst snd]. destruct (vmatch_get V Lw) as [[M G]|[M G]]; rewrite G; cbn [bind].
    + apply (IH (S i)); auto. eapply finv_skip; eauto.
    + destruct (vmatch_set V Lw) as (vis' & -> & V'). cbn [bind].
      assert (I' := finv_add I En M). rewrite <- app_assoc in I'.
      destruct (IH (S i) (Q ++ [w]) (T ++ [(u, w)]) vis' q0 El Li' I') as (vis2 & new & E2 & I2 & V2).
      { now rewrite <- app_assoc in V'. }
      exists vis2, (w :: new). rewrite <- app_assoc, E2. repeat rewrite <- app_assoc in *. cbn [app map] in *. auto.
Qed.

Lemma td_visit_ok D u i Q T vis q0 : finv g s D u i Q T -> vmatch (length g) vis (D ++ u :: Q) ->
  exists vis' new, td_visit g u (vis, q0 ++ Q) = Ok (vis', q0 ++ Q ++ new) /\
    finv g s D u (length (nth u g [])) (Q ++ new) (T ++ map (pair u) new) /\
    vmatch (length g) vis' (D ++ u :: Q ++ new).
Proof.
  intros I V. unfold td_visit. rewrite (@vget_nth _ g u []) by (eapply finv_u; eauto). cbn [bind].
  assert (I0 : finv g s D u 0 Q (T ++ [])) by (rewrite app_nil_r; eapply finv_weaken; [|exact I]; lia).
  destruct (@td_row D u T (nth u g []) 0 Q [] vis q0 eq_refl (Nat.le_0_l _) I0 V) as (vis' & new & A & B & C).
  exists vis', new. auto.
Qed.

Lemma td_loop_ok : forall fuel D u i Q T vis, finv g s D u i Q T -> vmatch (length g) vis (D ++ u :: Q) ->
  length g < fuel + length D + 1 ->
  exists r, td_loop fuel g (vis, u :: Q) = Ok r /\ level_order g s (D ++ r).
Proof.
  induction fuel; intros D u i Q T vis I V L.
  - assert (X := finv_len I). rewrite app_length in X. simpl in X. lia.
  - cbn [td_loop fst snd]. destruct (td_visit_ok [] I V) as (vis' & new & E & I' & V'). cbn [app] in E.
    rewrite E. cbn [bind]. destruct (Q ++ new) as [|v Q2] eqn:EQ.
    + replace (td_loop fuel g (vis', [])) with (Ok (@nil nat)) by (destruct fuel; reflexivity).
      cbn [bind]. eexists. split; [reflexivity|]. eapply finv_level; eauto.
    + apply finv_next in I'; auto.
      assert (V2 : vmatch (length g) vis' ((D ++ [u]) ++ v :: Q2)) by now rewrite <- app_assoc.
      destruct (IHfuel _ _ _ _ _ vis' I' V2) as (r & Er & Lr); [rewrite app_length; simpl; lia|].
      rewrite Er. cbn [bind]. eexists. split; [reflexivity|]. now rewrite <- app_assoc in Lr.
Qed.

Lemma topdown_ok : exists r, topdown g s = Ok r /\ level_order g s r /\ hd_error r = Some s.
Proof.
  unfold topdown, td_ctor. destruct (vmatch_init Hs) as (vis & -> & V). cbn [bind].
  destruct (@td_visit_ok [] s 0 [] [] vis [s] (finv_init g s) V) as (vis' & new & E & I & V'). cbn [app] in *.
  rewrite E. cbn [bind]. destruct (@td_loop_ok (length g) _ _ _ _ _ vis' I V') as (r & Er & Lr); [simpl; lia|].
  exists r. split; auto. split; auto. cbn [td_loop snd] in Er. destruct (length g); [lia|]. cbn [td_loop snd fst] in Er.
  destruct (td_visit g s (vis', new)); try discriminate. cbn [bind] in Er. destruct (td_loop n g a); try discriminate.
  cbn [bind] in Er. injection Er as <-. reflexivity.
Qed.

(** ** bfs_edge_range *)
Lemma er_skip_ok D u Q T vis : vmatch (length g) vis (D ++ u :: Q) -> forall l i, skipn i (nth u g []) = l -> i <= length (nth u g []) ->
  finv g s D u i Q T ->
  exists i', er_skip vis l i = Ok i' /\ finv g s D u i' Q T /\
    ((i' = length (nth u g [])) \/ exists w, i' < length (nth u g []) /\ nth_error (nth u g []) i' = Some w /\ ~ In w (D ++ u :: Q)).
Proof.
  intros V. induction l as [|w l IH]; intros i E Li I.
  - apply skipn_nil_len in E. exists i. cbn. split; auto. split; auto. left. lia.
  - apply skipn_cons_nth in E. destruct E as [En El]. assert (Lw := row_lt _ _ En).
    assert (Li' : S i <= length (nth u g [])) by (apply nth_error_Some; congruence).
    cbn [er_skip]. destruct (vmatch_get V Lw) as [[M G]|[M G]]; rewrite G; cbn [bind].
    + apply IH; auto. eapply finv_skip; eauto.
    + exists i. split; auto. split; auto. right. exists w. auto.
Qed.

(** The state of the edge range between two elements: [T] has been yielded. *)
Definition er_inv (T : list (nat * nat)) (st : er_state) : Prop :=
  (er_q st = [] /\ tree_order g s T) \/
  exists D Q ex w, finv g s D (er_v st) (er_i st) Q T /\ vmatch (length g) (er_vis st) (D ++ er_v st :: Q) /\
    er_q st = er_v st :: ex ++ Q /\ (ex = [] \/ (ex = [s] /\ D = [] /\ er_v st = s)) /\
    nth_error (nth (er_v st) g []) (er_i st) = Some w /\ ~ In w (D ++ er_v st :: Q).

Lemma er_pop_ok T vis : forall Q D u i, i = length (nth u g []) -> finv g s D u i Q T -> vmatch (length g) vis (D ++ u :: Q) ->
  exists st, er_pop g vis Q u i = Ok st /\ er_inv T st.
Proof.
  induction Q as [|v Q IH]; intros D u i E I V.
  - cbn. eexists. split; [reflexivity|]. left. split; auto. eapply finv_tree; eauto.
  - cbn [er_pop]. assert (Lv : v < length g) by (eapply finv_lt; eauto; apply in_or_app; right; right; now left).
    destruct (vmatch_get V Lv) as [[M G]|[M G]]; [|exfalso; apply M; apply in_or_app; right; right; now left].
    rewrite G. cbn [bind negb]. rewrite (@vget_nth _ g v []) by auto. cbn [bind].
    assert (I' := finv_next I E). assert (V' : vmatch (length g) vis ((D ++ [u]) ++ v :: Q)) by now rewrite <- app_assoc.
    destruct (@er_skip_ok _ _ _ _ _ V' (nth v g []) 0 eq_refl (Nat.le_0_l _) I') as (i' & -> & I2 & C). cbn [bind].
    destruct (Nat.eqb_spec i' (length (nth v g []))) as [E'|N].
    + apply (IH (D ++ [u]) v i'); auto.
    + destruct C as [C|(w & Lw & Ew & Nw)]; [congruence|]. eexists. split; [reflexivity|]. right.
      exists (D ++ [u]), Q, [], w. cbn. auto 10.
Qed.

(** An extra copy of an expanded vertex at the head of the queue is skipped. *)
Lemma er_pop_extra T vis Q u i : i = length (nth s g []) -> finv g s [] s i Q T -> vmatch (length g) vis (s :: Q) ->
  er_pop g vis (s :: Q) u i = er_pop g vis Q s i.
Proof.
  intros E I V. cbn [er_pop]. destruct (vmatch_get V Hs) as [[M G]|[M G]]; [|exfalso; apply M; now left].
  rewrite G. cbn [bind negb]. rewrite (@vget_nth _ g s []) by auto. cbn [bind].
  assert (I0 : finv g s [] s 0 Q T) by (eapply finv_weaken; [|exact I]; lia).
  destruct (@er_skip_ok [] s Q T vis V (nth s g []) 0 eq_refl (Nat.le_0_l _) I0) as (i' & -> & I2 & C). cbn [bind].
  destruct C as [C|(w & Lw & Ew & Nw)].
  - subst i'. rewrite Nat.eqb_refl. now subst i.
  - exfalso. apply Nw. apply (fi_part I). subst i. rewrite firstn_all. eapply nth_error_In; eauto.
Qed.

Lemma er_step T st (V := er_v st) : er_q st <> [] -> er_inv T st ->
  exists w st', er_deref g st = Ok (V, w) /\ er_next g st = Ok st' /\ er_inv (T ++ [(V, w)]) st'.
Proof.
  intros Nq [[C _]|(D & Q & ex & w & I & Vm & Eq & Hex & Ew & Nw)]; [contradiction|]. subst V.
  assert (Lu := finv_u I). assert (Lw := row_lt _ _ Ew).
  exists w. unfold er_deref, er_next. rewrite (@vget_nth _ g (er_v st) []) by auto. cbn [bind].
  assert (Li : er_i st < length (nth (er_v st) g [])) by (apply nth_error_Some; congruence).
  replace (vget (nth (er_v st) g []) (er_i st)) with (Ok w) by (symmetry; apply vget_Ok; auto). cbn [bind].
  destruct (vmatch_set Vm Lw) as (vis' & -> & V'). cbn [bind].
  assert (I' := finv_add I Ew Nw). rewrite <- app_assoc in V'. cbn [app] in V'.
  destruct (@er_skip_ok _ _ _ _ _ V' _ (S (er_i st)) eq_refl Li I') as (i' & -> & I2 & C). cbn [bind].
  rewrite Eq. cbn [app tl].
  destruct (Nat.eqb_spec i' (length (nth (er_v st) g []))) as [E'|N].
  - destruct Hex as [->|(-> & -> & Es)].
    + cbn [app]. destruct (er_pop_ok E' I2 V') as (st' & -> & Inv). eauto.
    + rewrite Es in *. cbn [app] in *. rewrite (er_pop_extra s E' I2 V').
      destruct (er_pop_ok E' I2 V') as (st' & -> & Inv). eauto.
  - destruct C as [C|(w' & Lw' & Ew' & Nw')]; [congruence|]. eexists. split; [reflexivity|]. split; [reflexivity|].
    right. exists D, (Q ++ [w]), ex, w'. cbn. rewrite <- app_assoc. auto 10.
Qed.

Lemma er_inv_len T st : er_inv T st -> er_q st <> [] -> S (length T) < length g.
Proof.
  intros [[C _]|(D & Q & ex & w & I & Vm & Eq & Hex & Ew & Nw)] N; [contradiction|].
  assert (I' := finv_add I Ew Nw). assert (L := finv_len I'). destruct (fi_head I) as (r & A & B).
  assert (X : length (D ++ er_v st :: Q) = S (length T)) by (rewrite A; simpl; now rewrite <- B, map_length).
  rewrite app_length in *. simpl in *. rewrite app_length in *. simpl in *. lia.
Qed.

Lemma er_loop_ok : forall fuel T st, er_inv T st -> length g <= fuel + length T ->
  exists r, er_loop fuel g st = Ok r /\ tree_order g s (T ++ r).
Proof.
  induction fuel; intros T st I L; cbn [er_loop]; destruct (er_q st) as [|x q] eqn:Eq.
  - exists []. rewrite app_nil_r. split; auto. destruct I as [[_ X]|(D & Q & ex & w & _ & _ & C & _)]; auto. congruence.
  - assert (X := er_inv_len I). rewrite Eq in X. specialize (X ltac:(discriminate)). lia.
  - exists []. rewrite app_nil_r. split; auto. destruct I as [[_ X]|(D & Q & ex & w & _ & _ & C & _)]; auto. congruence.
  - destruct (er_step (T := T) (st := st)) as (w & st' & -> & -> & I'); auto; [congruence|]. cbn [bind].
    destruct (IHfuel _ _ I') as (r & -> & Tr); [rewrite app_length; simpl; lia|]. cbn [bind].
    eexists. split; [reflexivity|]. now rewrite <- app_assoc in Tr.
Qed.

Lemma bfs_edges_ok : 
  match nth s g [] with
  | [] => bfs_edges g s = Ub
  | w :: _ => exists T, tree_order g s T /\ bfs_edges g s = Ok (if w =? s then (s, s) :: T else T)
  end.
Proof.
  unfold bfs_edges. destruct (vmatch_init Hs) as (vis & -> & V). cbn [bind].
  rewrite (@vget_nth _ g s []) by auto. cbn [bind]. destruct (nth s g []) as [|w row] eqn:Er.
  - cbn [er_loop er_q]. unfold er_deref. cbn [er_v er_i]. rewrite (@vget_nth _ g s []) by auto. cbn [bind]. rewrite Er. reflexivity.
  - assert (Ew : nth_error (nth s g []) 0 = Some w) by now rewrite Er.
    destruct (Nat.eqb_spec w s) as [->|N].
    + cbn [er_loop er_q]. unfold er_deref, er_next. cbn [er_v er_i er_vis er_q].
      rewrite (@vget_nth _ g s []) by auto. cbn [bind].
      replace (vget (nth s g []) 0) with (Ok s) by (now rewrite Er). cbn [bind].
      destruct (vmatch_set V Hs) as (vis' & -> & V'). cbn [bind app].
      assert (V2 : vmatch (length g) vis' ([] ++ s :: [])) by (eapply vmatch_ext; [|exact V']; simpl; intuition).
      assert (I' : finv g s [] s 1 [] []) by (eapply finv_skip; [apply finv_init|eauto|now left]).
      destruct (@er_skip_ok _ _ _ _ _ V2 _ 1 eq_refl ltac:(rewrite Er; simpl; lia) I') as (i' & -> & I2 & C). cbn [bind app tl].
      assert (G : exists st', (if i' =? length (nth s g []) then er_pop g vis' [s] s i'
          else Ok {| er_vis := vis'; er_q := [s; s]; er_v := s; er_i := i' |}) = Ok st' /\ er_inv [] st').
      { destruct (Nat.eqb_spec i' (length (nth s g []))) as [E'|N'].
        - rewrite (er_pop_extra s E' I2 V2). apply (er_pop_ok E' I2 V2).
        - destruct C as [C|(w' & Lw' & Ew' & Nw')]; [congruence|]. eexists. split; [reflexivity|].
          right. exists [], [], [s], w'. cbn. auto 10. }
      destruct G as (st' & -> & I3). cbn [bind].
      destruct (@er_loop_ok (length g) _ _ I3) as (r & -> & Tr); [lia|]. cbn [bind]. eauto.
    + assert (I3 : er_inv [] {| er_vis := vis; er_q := [s]; er_v := s; er_i := 0 |}).
      { right. exists [], [], [], w. cbn. split; [apply finv_init|]. split; auto. split; auto. split; auto. split; auto.
        intros [X|[]]. congruence. }
      destruct (@er_loop_ok (S (length g)) _ _ I3) as (r & -> & Tr); [lia|]. eauto.
Qed.

(** ** bfs_edge_range3 *)
Lemma e3_row D u T0 : forall l i Q T c q1, skipn i (nth u g []) = l -> i <= length (nth u g []) ->
  finv g s D u i Q (T0 ++ T) -> wmatch (length g) c (D ++ u :: Q) ->
  exists c' new, rfold e3_explore_one l (c, q1) = Ok (c', q1 ++ new) /\
    finv g s D u (length (nth u g [])) (Q ++ new) (T0 ++ T ++ map (pair u) new) /\
    wmatch (length g) c' (D ++ u :: Q ++ new).
Proof.
  induction l as [|w l IH]; intros i Q T c q1 E Li I V.
  - apply skipn_nil_len in E. exists c, []. rewrite !app_nil_r. split; auto. split; auto.
    now replace (length (nth u g [])) with i by lia.
  - apply skipn_cons_nth in E. destruct E as [En El]. assert (Lw := row_lt _ _ En).
    assert (Li' : S i <= length (nth u g [])) by (apply nth_error_Some; congruence).
    cbn [rfold]. unfold e3_explore_one at 1. cbn [fst snd].
    destruct (wmatch_get V Lw) as (k & -> & [[M G]|[M ->]]); cbn [bind].
    + replace (k =? 1) with false by (symmetry; now apply Nat.eqb_neq). cbn [bind].
      apply (IH (S i)); auto. eapply finv_skip; eauto.
    + destruct (@wmatch_set _ _ _ _ 2 V Lw) as (vis' & -> & V'); [lia|]. cbn [bind Nat.eqb].
      assert (I' := finv_add I En M). rewrite <- app_assoc in I'.
      destruct (IH (S i) (Q ++ [w]) (T ++ [(u, w)]) vis' (q1 ++ [w]) El Li' I') as (vis2 & new & E2 & I2 & V2).
      { now rewrite <- app_assoc in V'. }
      exists vis2, (w :: new). rewrite E2. repeat rewrite <- app_assoc in *. cbn [app map] in *. auto.
Qed.

Lemma e3_explore_ok D u i Q T c : finv g s D u i Q T -> wmatch (length g) c (D ++ u :: Q) ->
  exists c' new, e3_explore g u (c, []) = Ok (c', new) /\
    finv g s D u (length (nth u g [])) (Q ++ new) (T ++ map (pair u) new) /\
    wmatch (length g) c' (D ++ u :: Q ++ new).
Proof.
  intros I V. unfold e3_explore. rewrite (@vget_nth _ g u []) by (eapply finv_u; eauto). cbn [bind].
  assert (I0 : finv g s D u 0 Q (T ++ [])) by (rewrite app_nil_r; eapply finv_weaken; [|exact I]; lia).
  destruct (@e3_row D u T (nth u g []) 0 Q [] c [] eq_refl (Nat.le_0_l _) I0 V) as (vis' & new & A & B & C).
  exists vis', new. auto.
Qed.

Definition e3_inv (T : list (nat * nat)) (st : e3_state) : Prop :=
  (e3_q0 st = [] /\ e3_q1 st = [] /\ tree_order g s T) \/
  exists D v Q, e3_q0 st = v :: Q /\ e3_q1 st <> [] /\
    finv g s D v (length (nth v g [])) (Q ++ e3_q1 st) (T ++ map (pair v) (e3_q1 st)) /\
    wmatch (length g) (e3_c st) (D ++ v :: Q ++ e3_q1 st).

Lemma e3_fill_ok T : forall Q D v i c, finv g s D v i Q T -> wmatch (length g) c (D ++ v :: Q) ->
  exists st, e3_fill g c (v :: Q) = Ok st /\ e3_inv T st.
Proof.
  induction Q as [|v' Q IH]; intros D v i c I V; cbn [e3_fill];
    destruct (e3_explore_ok I V) as (c' & new & -> & I' & V'); cbn [bind fst snd];
    assert (Lv := finv_u I); destruct new as [|w new].
  - cbn [app map] in *. rewrite app_nil_r in I'.
    destruct (wmatch_reset V' Lv (k := 0)) as (c2 & -> & V2); [lia|apply in_or_app; right; now left|]. cbn [bind].
    eexists. split; [reflexivity|]. left. cbn. split; auto. split; auto. eapply finv_tree; eauto.
  - eexists. split; [reflexivity|]. right. exists D, v, []. cbn [e3_q0 e3_q1 e3_c]. split; auto. split; [discriminate|]. auto.
  - rewrite app_nil_r in V'. cbn [map] in I'. rewrite !app_nil_r in I'.
    destruct (wmatch_reset V' Lv (k := 0)) as (c2 & -> & V2); [lia|apply in_or_app; right; now left|]. cbn [bind].
    apply finv_next in I'; auto. apply (IH (D ++ [v]) v' 0 c2); auto. now rewrite <- app_assoc.
  - eexists. split; [reflexivity|]. right. exists D, v, (v' :: Q). cbn [e3_q0 e3_q1 e3_c]. split; auto. split; [discriminate|]. auto.
Qed.

Lemma e3_step T st : e3_q0 st <> [] -> e3_inv T st ->
  exists e st', e3_deref st = Ok e /\ e3_next g st = Ok st' /\ e3_inv (T ++ [e]) st'.
Proof.
  intros Nq [[C _]|(D & v & Q & E0 & N1 & I & W)]; [contradiction|]. unfold e3_deref, e3_next. rewrite E0.
  destruct (e3_q1 st) as [|u q1] eqn:E1; [contradiction|]. exists (v, u).
  assert (Lu : u < length g) by (eapply finv_lt; eauto; apply in_or_app; right; right; apply in_or_app; right; now left).
  destruct (wmatch_reset W Lu (k := 0)) as (c & -> & W'); [lia| |].
  { apply in_or_app; right; right; apply in_or_app; right; now left. }
  cbn [bind]. destruct q1 as [|u' q1].
  - destruct (@e3_fill_ok (T ++ [(v, u)]) (Q ++ [u]) D v _ c I W') as (st' & E & Inv). cbn [app]. rewrite E. eauto.
  - eexists. split; [reflexivity|]. split; [reflexivity|]. right. exists D, v, (Q ++ [u]). cbn [e3_q0 e3_q1 e3_c].
    rewrite <- !app_assoc. cbn [app map] in *. split; auto. split; [discriminate|]. auto.
Qed.

Lemma e3_inv_len T st : e3_inv T st -> e3_q0 st <> [] -> S (length T) < length g.
Proof.
  intros [[C _]|(D & v & Q & E0 & N1 & I & W)] N; [contradiction|].
  assert (L := finv_len I). destruct (fi_head I) as (r & A & B). rewrite A in L. simpl in L. rewrite <- B, map_length, app_length, map_length in L.
  destruct (e3_q1 st); [contradiction|]. simpl in L. lia.
Qed.

Lemma e3_loop_ok : forall fuel T st, e3_inv T st -> length g <= fuel + length T ->
  exists r, e3_loop fuel g st = Ok r /\ tree_order g s (T ++ r).
Proof.
  induction fuel; intros T st I L; cbn [e3_loop]; destruct (e3_q0 st) as [|x q] eqn:Eq.
  - exists []. rewrite app_nil_r. split; auto. destruct I as [(_ & _ & X)|(D & v & Q & C & _)]; auto. congruence.
  - assert (X := e3_inv_len I). rewrite Eq in X. specialize (X ltac:(discriminate)). lia.
  - exists []. rewrite app_nil_r. split; auto. destruct I as [(_ & _ & X)|(D & v & Q & C & _)]; auto. congruence.
  - destruct (e3_step (T := T) (st := st)) as (w & st' & -> & -> & I'); auto; [congruence|]. cbn [bind].
    destruct (IHfuel _ _ I') as (r & -> & Tr); [rewrite app_length; simpl; lia|]. cbn [bind].
    eexists. split; [reflexivity|]. now rewrite <- app_assoc in Tr.
Qed.

Lemma bfs_edges3_ok : exists T, tree_order g s T /\ bfs_edges3 g s = Ok (match T with [] => [(s, s)] | _ => T end).
Proof.
  unfold bfs_edges3.
  assert (W0 : wmatch (length g) (repeat 1 (length g)) []).
  { split; [apply repeat_length|]. intros x X. split; [intros _ []|]. intros _. rewrite nth_indep with (d' := 1) by (now rewrite repeat_length).
    apply nth_repeat. }
  destruct (@wmatch_set _ _ _ _ 2 W0 Hs) as (c & -> & W); [lia|]. cbn [bind app] in *.
  destruct (@e3_explore_ok [] s 0 [] [] c (finv_init g s) W) as (c' & new & -> & I & W'). cbn [bind fst snd app] in *.
  destruct new as [|w new].
  - cbn [map] in I. exists []. split; [eapply finv_tree; eauto|].
    cbn [e3_loop e3_q0 e3_deref e3_q1 e3_next e3_c bind].
    destruct (wmatch_reset W' Hs (k := 0)) as (c2 & -> & _); [lia|now left|]. cbn [bind].
    destruct (length g); reflexivity.
  - assert (Inv : e3_inv [] {| e3_c := c'; e3_q0 := [s]; e3_q1 := w :: new |}).
    { right. exists [], s, []. cbn [e3_q0 e3_q1 e3_c]. split; auto. split; [discriminate|]. auto. }
    destruct (@e3_loop_ok (S (length g)) _ _ Inv) as (r & E & Tr); [lia|]. exists r. split; auto. rewrite E. f_equal.
    cbn [e3_loop e3_q0 e3_deref e3_q1 bind] in E. destruct (e3_next g _); try discriminate. cbn [bind] in E.
    destruct (e3_loop (length g) g a); try discriminate. cbn [bind] in E. injection E as <-. reflexivity.
Qed.
End G.

(** ** bottomup_bfs_range *)
Definition bu_order (n seed : nat) : list nat := map (fun k => (seed + k) mod n) (seq 0 n).
(** What parent the code pairs with the [k]-th vertex. *)
Definition bu_parent_of (g : list (list nat)) (seed k prev : nat) : nat :=
  let v := (seed + k) mod length g in
  match nth v g [] with
  | [] => v
  | row => match find (fun u => existsb (Nat.eqb u) (firstn k (bu_order (length g) seed))) row with
           | Some u => u
           | None => prev
           end
  end.

Lemma bu_order_nth n seed k : k < n -> nth k (bu_order n seed) 0 = (seed + k) mod n.
Proof. intros L. unfold bu_order. now rewrite nth_map_seq. Qed.
Lemma bu_order_length n seed : length (bu_order n seed) = n.
Proof. unfold bu_order. now rewrite map_length, seq_length. Qed.
Lemma add_mod_inj n seed j k : seed < n -> j < n -> k < n -> (seed + j) mod n = (seed + k) mod n -> j = k.
Proof.
  intros S J K E.
  assert (X : forall i, i < n -> (seed + i) mod n = if seed + i <? n then seed + i else seed + i - n).
  { intros i I. destruct (Nat.ltb_spec (seed + i) n); [now apply Nat.mod_small|].
    replace (seed + i) with ((seed + i - n) + 1 * n) at 1 by lia. rewrite Nat.mod_add by lia. apply Nat.mod_small. lia. }
  rewrite !X in E by auto. destruct (Nat.ltb_spec (seed + j) n), (Nat.ltb_spec (seed + k) n); lia.
Qed.
Lemma bu_order_nodup n seed : seed < n -> NoDup (bu_order n seed).
Proof.
  intros L. apply NoDup_nth with (d := 0). rewrite bu_order_length. intros i j I J E.
  rewrite !bu_order_nth in E by auto. now apply add_mod_inj in E.
Qed.
Lemma firstn_seq' k n : k <= n -> firstn k (seq 0 n) = seq 0 k.
Proof. intros L. replace n with (k + (n - k)) by lia. rewrite seq_app, firstn_app, seq_length, Nat.sub_diag, firstn_all2 by (now rewrite seq_length). simpl. now rewrite app_nil_r. Qed.
Lemma in_firstn_order n seed k x : k <= n -> In x (firstn k (bu_order n seed)) <-> exists j, j < k /\ x = (seed + j) mod n.
Proof.
  intros L. unfold bu_order. rewrite firstn_map, firstn_seq' by auto. rewrite in_map_iff.
  split.
  - intros (j & <- & J). apply in_seq in J. exists j. split; auto. lia.
  - intros (j & J & ->). exists j. split; auto. apply in_seq. lia.
Qed.

Lemma map_fst_combine (A B : Type) : forall (l : list A) (l' : list B), length l = length l' -> map fst (combine l l') = l.
Proof. induction l; destruct l'; simpl; intros; try discriminate; auto. f_equal. auto. Qed.

Record bu_inv (g : list (list nat)) (seed k : nat) (st : bu_state) : Prop := {
  bi_len : length (bu_colors st) = length g;
  bi_v : bu_v st = (seed + k) mod length g;
  bi_col : k < length g -> forall x, x < length g -> (nth x (bu_colors st) 0 = 2 <-> In x (firstn k (bu_order (length g) seed))) }.

Lemma bu_first_ok colors (f : nat -> bool) : forall row parent,
  (forall u, In u row -> u < length colors) -> (forall u, In u row -> (nth u colors 0 = 2 <-> f u = true)) ->
  bu_first colors row parent = Ok (match find f row with Some u => u | None => parent end).
Proof.
  induction row as [|u row IH]; intros parent L M; cbn [bu_first find]; auto.
  rewrite (@vget_nth _ colors u 0) by (apply L; now left). cbn [bind].
  assert (X := M u (or_introl eq_refl)). destruct (Nat.eqb_spec (nth u colors 0) 2) as [E|N].
  - apply X in E. now rewrite E.
  - destruct (f u); [exfalso; apply N; now apply X|]. apply IH; intros; [apply L|apply M]; now right.
Qed.

Lemma bu_advance_ok g seed k st : targets_ok g -> seed < length g -> k < length g -> bu_inv g seed k st ->
  exists st', bu_advance g st = Ok st' /\ bu_inv g seed (S k) st' /\
    (S k < length g -> bu_parent st' = bu_parent_of g seed (S k) (bu_parent st)).
Proof.
  intros T Ls Lk [Len Ev Col]. specialize (Col Lk). unfold bu_advance.
  assert (Lv : bu_v st < length g) by (rewrite Ev; apply Nat.mod_upper_bound; lia).
  rewrite vset_lt by lia. cbn [bind]. destruct (Nat.eqb_spec (length g) 0) as [|_]; [lia|].
  set (n := length g) in *.
  assert (Ev' : S (bu_v st) mod n = (seed + S k) mod n).
  { rewrite Ev. rewrite <- Nat.add_1_r, Nat.add_mod_idemp_l by lia. f_equal. lia. }
  rewrite Ev'. set (v := (seed + S k) mod n).
  assert (Lv' : v < n) by (apply Nat.mod_upper_bound; lia).
  rewrite vset_lt by (rewrite upd_length; lia). cbn [bind].
  rewrite (@vget_nth _ g v []) by auto. cbn [bind].
  set (c2 := upd (upd (bu_colors st) (bu_v st) 2) v 1).
  assert (L2 : length c2 = n) by (unfold c2; rewrite !upd_length; auto).
  assert (C2 : S k < n -> forall x, x < n -> (nth x c2 0 = 2 <-> In x (firstn (S k) (bu_order n seed)))).
  { intros Sk x X. unfold c2. rewrite in_firstn_order by lia. rewrite !nth_upd by (rewrite ?upd_length; lia).
    destruct (Nat.eqb_spec x v) as [->|N].
    - split; [discriminate|]. intros (j & J & E). unfold v in E. apply add_mod_inj in E; lia.
    - destruct (Nat.eqb_spec x (bu_v st)) as [->|N'].
      + split; auto. intros _. exists k. split; [lia|auto].
      + rewrite Col by auto. rewrite in_firstn_order by lia. split; intros (j & J & E).
        * exists j. split; [lia|auto].
        * exists j. split; [|auto]. assert (j <> k) by (intros ->; congruence). lia. }
  destruct (nth v g []) as [|w row] eqn:Er.
  - cbn [length Nat.eqb]. eexists. split; [reflexivity|]. split; [constructor; cbn; auto|].
    intros _. cbn [bu_parent]. unfold bu_parent_of. fold n v. now rewrite Er.
  - cbn [length Nat.eqb]. destruct (Nat.lt_ge_cases (S k) n) as [Sk|Sk].
    + rewrite (@bu_first_ok c2 (fun u => existsb (Nat.eqb u) (firstn (S k) (bu_order n seed)))).
      * cbn [bind]. eexists. split; [reflexivity|]. split; [constructor; cbn; auto|].
        intros _. cbn [bu_parent]. unfold bu_parent_of. fold n v. now rewrite Er.
      * intros u U. rewrite L2. apply (T v). unfold edge. now rewrite Er.
      * intros u U. rewrite C2; [|auto|apply (T v); unfold edge; now rewrite Er]. rewrite existsb_exists. split.
        -- intros I. exists u. split; auto. apply Nat.eqb_refl.
        -- intros (y & I & E). apply Nat.eqb_eq in E. now subst.
    + assert (X : exists p, bu_first c2 (w :: row) (bu_parent st) = Ok p).
      { rewrite (@bu_first_ok c2 (fun u => nth u c2 0 =? 2)); eauto.
        - intros u U. rewrite L2. apply (T v). unfold edge. now rewrite Er.
        - intros u U. now rewrite Nat.eqb_eq. }
      destruct X as [p ->]. cbn [bind]. eexists. split; [reflexivity|]. split; [constructor; cbn; auto; fold n; lia|lia].
Qed.

Lemma bu_loop_ok g seed : targets_ok g -> seed < length g -> forall m k st, bu_inv g seed k st -> k + m = length g ->
  exists ps, bu_loop m g st = Ok (combine (map (fun j => (seed + j) mod length g) (seq k m)) ps) /\ length ps = m /\
    (0 < m -> nth 0 ps 0 = bu_parent st) /\
    forall j, S j < m -> nth (S j) ps 0 = bu_parent_of g seed (S (k + j)) (nth j ps 0).
Proof.
  intros T Ls. induction m; intros k st I E.
  - exists []. cbn. repeat split; auto; lia.
  - cbn [bu_loop]. destruct (bu_advance_ok T Ls (k := k) (st := st)) as (st' & -> & I' & P); [lia|auto|]. cbn [bind].
    destruct (IHm (S k) st' I') as (ps & -> & Lp & H0 & HS); [lia|]. cbn [bind].
    exists (bu_parent st :: ps). cbn [seq map combine]. rewrite (bi_v I). split; auto. split; [simpl; lia|]. split; auto.
    intros j J. destruct j as [|j]; cbn [nth].
    + rewrite Nat.add_0_r. rewrite H0 by lia. apply P. lia.
    + rewrite HS by lia. now rewrite Nat.add_succ_r.
Qed.

Lemma bottomup_ok g seed : targets_ok g -> seed < length g ->
  exists ps, bottomup g seed = Ok (combine (bu_order (length g) seed) ps) /\ length ps = length g /\
    nth 0 ps 0 = hd seed (nth seed g []) /\
    forall k, S k < length g -> nth (S k) ps 0 = bu_parent_of g seed (S k) (nth k ps 0).
Proof.
  intros T Ls. unfold bottomup, bu_ctor. rewrite vset_lt by (now rewrite repeat_length). cbn [bind].
  rewrite (@vget_nth _ g seed []) by auto. cbn [bind].
  set (c := upd (repeat 0 (length g)) seed 1).
  assert (I : forall p, bu_inv g seed 0 {| bu_colors := c; bu_v := seed; bu_parent := p |}).
  { intros p. constructor; cbn [bu_colors bu_v].
    - unfold c. now rewrite upd_length, repeat_length.
    - rewrite Nat.add_0_r. symmetry. now apply Nat.mod_small.
    - intros _ x X. cbn [firstn]. split; [|intros []]. unfold c. rewrite nth_upd by (now rewrite repeat_length).
      destruct (x =? seed); [discriminate|]. rewrite nth_repeat. discriminate. }
  destruct (nth seed g []) as [|u row]; cbn [bind hd].
  - destruct (@bu_loop_ok g seed T Ls (length g) 0 _ (I seed)) as (ps & E & L & H0 & HS); [auto|].
    exists ps. split; auto. split; auto. split; auto. apply H0. lia.
  - destruct (@bu_loop_ok g seed T Ls (length g) 0 _ (I u)) as (ps & E & L & H0 & HS); [auto|].
    exists ps. split; auto. split; auto. split; auto. apply H0. lia.
Qed.
