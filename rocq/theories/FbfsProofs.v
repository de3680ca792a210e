(** Proofs for C59: the filtered breadth-first range. *)
From Coq Require Import List Arith Lia Bool Sorted.
From Verif Require Import Base GraphLib FifoLib BfsRangeModel BfsRangeProofs FbfsModel.
Import ListNotations.
Set Implicit Arguments.

(** The graph without the arcs that the filter rejects. *)
Fixpoint keep (flt : nat -> nat -> bool) (v i : nat) (l : list nat) : list nat :=
  match l with [] => [] | u :: l' => if flt v i then keep flt v (S i) l' else u :: keep flt v (S i) l' end.
Definition unfiltered (flt : nat -> nat -> bool) (g : list (list nat)) : list (list nat) :=
  map (fun v => keep flt v 0 (nth v g [])) (seq 0 (length g)).

Lemma keep_app flt v l1 l2 : forall i, keep flt v i (l1 ++ l2) = keep flt v i l1 ++ keep flt v (i + length l1) l2.
Proof. induction l1 as [|u l1 IH]; intros i; cbn [keep app length]; [now rewrite Nat.add_0_r|]. rewrite IH. replace (i + S (length l1)) with (S i + length l1) by lia. now destruct (flt v i). Qed.
Lemma keep_in flt v w : forall l i, In w (keep flt v i l) <-> exists k, nth_error l k = Some w /\ flt v (i + k) = false.
Proof.
  induction l as [|u l IH]; intros i; cbn [keep].
  - split; [intros []|]. intros ([|k] & E & _); discriminate.
  - assert (X : In w (keep flt v (S i) l) <-> exists k, nth_error (u :: l) (S k) = Some w /\ flt v (i + S k) = false).
    { rewrite IH. split; intros (k & A & B); exists k; (split; [exact A|]); [replace (i + S k) with (S i + k) by lia|replace (S i + k) with (i + S k) by lia]; auto. }
    destruct (flt v i) eqn:F.
    + rewrite X. split; [intros (k & A & B); eauto|]. intros ([|k] & A & B); [rewrite Nat.add_0_r in B; congruence|eauto].
    + simpl. rewrite X. split.
      * intros [->|(k & A & B)]; [exists 0; rewrite Nat.add_0_r; auto|eauto].
      * intros ([|k] & A & B); [left; simpl in A; congruence|right; eauto].
Qed.
Lemma unf_length flt g : length (unfiltered flt g) = length g.
Proof. unfold unfiltered. now rewrite map_length, seq_length. Qed.
Lemma unf_row flt g v : nth v (unfiltered flt g) [] = keep flt v 0 (nth v g []).
Proof.
  destruct (Nat.lt_ge_cases v (length g)) as [H|H].
  - unfold unfiltered. now rewrite (@nth_map_seq _ (fun v => keep flt v 0 (nth v g [])) (length g) v []).
  - rewrite !nth_overflow; auto. rewrite unf_length. auto.
Qed.
(** Its arcs are those that pass. *)
Lemma unf_edge flt g v w : edge (unfiltered flt g) v w <-> exists i, nth_error (nth v g []) i = Some w /\ flt v i = false.
Proof. unfold edge. rewrite unf_row, keep_in. reflexivity. Qed.

(** Any state of a breadth-first traversal can be completed. *)
Lemma finv_complete g s : targets_ok g -> s < length g -> forall a b D u i Q T, length g - length D <= a -> length (nth u g []) - i <= b -> finv g s D u i Q T -> i <= length (nth u g []) ->
  exists T', tree_order g s (T ++ T').
Proof.
  intros TG Hs. induction a as [a IHa] using (well_founded_induction lt_wf). induction b as [|b IHb]; intros D u i Q T HA HB I HI.
  - assert (Ei : i = length (nth u g [])) by lia. destruct Q as [|v Q]; [exists []; rewrite app_nil_r; eapply finv_tree; eauto|].
    assert (I' := finv_next I Ei). assert (LD : S (length D) <= length g).
    { assert (N := fi_nodup I'). assert (X : length ((D ++ [u]) ++ v :: Q) <= length (seq 0 (length g))).
      { apply NoDup_incl_length; auto. intros x X. apply in_seq. destruct (fi_dist I' x X) as (d & W & _). apply (walk_lt TG Hs) in W. lia. }
      rewrite seq_length, !app_length in X. simpl in X. lia. }
    eapply (IHa (length g - length (D ++ [u]))); [|reflexivity|reflexivity|exact I'|lia]. rewrite app_length. simpl. lia.
  - destruct (Nat.eq_dec i (length (nth u g []))) as [Ei|Ni].
    + apply (IHb D u i Q T); auto. lia.
    + assert (Hi : i < length (nth u g [])) by lia. destruct (nth_error (nth u g []) i) as [w|] eqn:Ew; [|apply nth_error_None in Ew; lia].
      destruct (in_dec Nat.eq_dec w (D ++ u :: Q)) as [M|M].
      * apply (IHb D u (S i) Q T); auto; [lia|]. eapply finv_skip; eauto.
      * destruct (IHb D u (S i) (Q ++ [w]) (T ++ [(u, w)])) as (T' & H); auto; [lia|eapply finv_add; eauto|]. exists ((u, w) :: T'). now rewrite <- app_assoc in H.
Qed.

Section R.
Variables (debug : bool) (g : list (list nat)) (flt : nat -> nat -> bool) (s t : nat).
Hypothesis Hg : targets_ok g.
Hypothesis Hs : s < length g.
Hypothesis Ht : t < length g.
Hypothesis Hst : s <> t.
Notation n := (length g).
Notation h := (unfiltered flt g).
Notation row v := (nth v g []).
Definition pos (v i : nat) : nat := length (keep flt v 0 (firstn i (row v))).

Lemma h_ok : targets_ok h.
Proof. intros u v E. rewrite unf_length. apply unf_edge in E. destruct E as (i & E & _). apply (Hg u). eapply nth_error_In; eauto. Qed.
Lemma h_s : s < length h.
Proof. now rewrite unf_length. Qed.
Lemma row_in v i w : nth_error (row v) i = Some w -> w < n.
Proof. intros E. apply (Hg v). eapply nth_error_In; eauto. Qed.
Lemma pos_S_out v i w : nth_error (row v) i = Some w -> flt v i = true -> pos v (S i) = pos v i.
Proof. clear Hg Hs Ht Hst s t. intros E F. unfold pos. rewrite (firstn_S_nth _ _ E), keep_app. assert (L : i < length (row v)) by (apply nth_error_Some; congruence). rewrite firstn_length_le by lia. cbn [keep Nat.add]. rewrite F. now rewrite app_nil_r. Qed.
Lemma pos_S_in v i w : nth_error (row v) i = Some w -> flt v i = false -> pos v (S i) = S (pos v i) /\ nth_error (nth v h []) (pos v i) = Some w.
Proof.
  clear Hg Hs Ht Hst s t. intros E F. assert (L : i < length (row v)) by (apply nth_error_Some; congruence). unfold pos. rewrite (firstn_S_nth _ _ E), keep_app. rewrite firstn_length_le by lia. cbn [keep Nat.add]. rewrite F. split; [rewrite app_length; simpl; lia|].
  rewrite unf_row. assert (X : row v = firstn i (row v) ++ w :: skipn (S i) (row v)).
  { rewrite <- (firstn_skipn (S i) (row v)) at 1. rewrite (firstn_S_nth _ _ E), <- app_assoc. reflexivity. }
  rewrite X at 1. rewrite keep_app. rewrite nth_error_app2 by lia. rewrite firstn_length_le by lia. cbn [keep Nat.add]. rewrite F, Nat.sub_diag. reflexivity.
Qed.
Lemma pos_end v : pos v (length (row v)) = length (nth v h []).
Proof. unfold pos. rewrite firstn_all, unf_row. reflexivity. Qed.
Lemma pos_0 v : pos v 0 = 0. Proof. reflexivity. Qed.

Lemma fb_skip_ok D u Q T c : wmatch n c (D ++ u :: Q) -> forall l i, skipn i (row u) = l -> i <= length (row u) -> finv h s D u (pos u i) Q T ->
  exists i', fb_skip flt c u l i = Ok i' /\ i <= i' <= length (row u) /\ finv h s D u (pos u i') Q T /\
    ((i' = length (row u)) \/ exists w, i' < length (row u) /\ nth_error (row u) i' = Some w /\ flt u i' = false /\ ~ In w (D ++ u :: Q)).
Proof.
  intros V. induction l as [|w l IH]; intros i E Li I.
  - assert (L0 : length (row u) <= i) by (assert (X := f_equal (@length nat) E); rewrite skipn_length in X; simpl in X; lia). exists i. cbn. split; auto. split; auto. split; auto. left. lia.
  - apply skipn_cons_nth in E. destruct E as [En El]. assert (Lw := row_in _ _ En).
    assert (Li' : S i <= length (row u)) by (apply nth_error_Some; congruence).
    cbn [fb_skip]. destruct (wmatch_get V Lw) as (k & G & C). rewrite G. cbn [bind]. destruct (flt u i) eqn:F.
    + rewrite andb_false_r. destruct (IH (S i) El Li') as (i' & A & B & C' & D'); [now rewrite (@pos_S_out _ _ _ En F)|]. exists i'. split; auto. split; [lia|auto].
    + rewrite andb_true_r. destruct (@pos_S_in _ _ _ En F) as [P1 P2]. destruct C as [[M K]|[M ->]].
      * destruct (Nat.eqb_spec k 1); [contradiction|]. destruct (IH (S i) El Li') as (i' & A & B & C' & D'); [rewrite P1; eapply finv_skip; eauto|]. exists i'. split; auto. split; [lia|auto].
      * exists i. split; auto. split; [lia|]. split; auto. right. exists w. auto.
Qed.

Definition greys (c : list nat) (P : list nat) : Prop := forall x, In x P -> nth x c 0 = 2.
Definition fb_inv (T : list (nat * nat)) (st : fb_state) : Prop :=
  (fb_unr st = true /\ tree_order h s T /\ ~ In t (s :: map snd T) /\ nth t (fb_c st) 0 = 1 /\ length (fb_c st) = n) \/
  (fb_unr st = false /\ exists D Q ex w, finv h s D (fb_v st) (pos (fb_v st) (fb_i st)) Q T /\ wmatch n (fb_c st) (D ++ fb_v st :: Q) /\ greys (fb_c st) (fb_v st :: Q) /\
    fb_q st = fb_v st :: ex ++ Q /\ (ex = [] \/ (debug = false /\ ex = [s] /\ D = [] /\ fb_v st = s)) /\
    nth_error (row (fb_v st)) (fb_i st) = Some w /\ flt (fb_v st) (fb_i st) = false /\ ~ In w (D ++ fb_v st :: Q) /\ ~ In t (D ++ fb_v st :: Q)).

Lemma finv_lt' D u i Q T x : finv h s D u i Q T -> In x (D ++ u :: Q) -> x < n.
Proof. intros I X. destruct (fi_dist I x X) as (d & W & _). apply (walk_lt h_ok h_s) in W. now rewrite unf_length in W. Qed.

Lemma fb_up_ok T : forall Q D u i c x, i = length (row u) -> finv h s D u (pos u i) Q T -> wmatch n c (D ++ u :: Q) -> greys c Q -> ~ In t (D ++ u :: Q) ->
  exists st, fb_up debug g flt c (x :: Q) u i = Ok st /\ fb_inv T st.
Proof.
  induction Q as [|v Q IH]; intros D u i c x E I V G NT.
  - assert (Lu : u < n) by (eapply finv_lt'; eauto; apply in_or_app; right; now left).
    destruct (wmatch_reset (k := 0) V Lu ltac:(lia)) as (c' & Ec & V'); [apply in_or_app; right; now left|]. cbn [fb_up]. rewrite Ec. cbn [bind]. eexists. split; [reflexivity|].
    left. cbn [fb_unr fb_c]. split; auto. assert (TO : tree_order h s T) by (subst i; rewrite pos_end in I; eapply finv_tree; eauto). split; auto.
    assert (NT' : ~ In t (s :: map snd T)). { destruct (fi_head I) as (r & A & B). rewrite B. rewrite <- A. exact NT. }
    split; auto. destruct V' as [L W]. split; auto. now apply W.
  - assert (Lu : u < n) by (eapply finv_lt'; eauto; apply in_or_app; right; now left).
    assert (Lv : v < n) by (eapply finv_lt'; eauto; apply in_or_app; right; right; now left).
    assert (NUV : v <> u). { intros ->. assert (N := fi_nodup I). apply NoDup_remove_2 in N. apply N. apply in_or_app. right. now left. }
    destruct (wmatch_reset (k := 0) V Lu ltac:(lia)) as (c' & Ec & V'); [apply in_or_app; right; now left|]. cbn [fb_up]. rewrite Ec. cbn [bind].
    assert (Lc : length c = n) by apply V. rewrite vset_lt in Ec by lia. injection Ec as <-.
    assert (G' : greys (upd c u 0) (v :: Q)).
    { intros y Y. rewrite nth_upd_neq; [apply G; exact Y|]. intros <-. assert (N := fi_nodup I). apply NoDup_remove_2 in N. apply N. apply in_or_app. right. exact Y. }
    rewrite (@vget_nth _ (upd c u 0) v 0) by (rewrite upd_length; lia). cbn [bind]. rewrite (G' v) by now left. cbn [Nat.eqb negb]. rewrite andb_false_r.
    rewrite (@vget_nth _ g v []) by auto. cbn [bind]. assert (Ei : pos u i = length (nth u h [])) by (subst i; apply pos_end).
    assert (I' := finv_next I Ei). assert (V2 : wmatch n (upd c u 0) ((D ++ [u]) ++ v :: Q)) by now rewrite <- app_assoc.
    destruct (@fb_skip_ok _ _ _ _ _ V2 (row v) 0 eq_refl (Nat.le_0_l _) I') as (i' & Es & B & I2 & C). rewrite Es. cbn [bind].
    assert (NT2 : ~ In t ((D ++ [u]) ++ v :: Q)) by now rewrite <- app_assoc.
    destruct (Nat.eqb_spec i' (length (row v))) as [E'|N].
    + apply (IH (D ++ [u]) v i' (upd c u 0) v); auto. intros y Y. apply G'. now right.
    + destruct C as [C|(w & Lw & Ew & Fw & Nw)]; [congruence|]. eexists. split; [reflexivity|]. right. cbn [fb_unr fb_v fb_i fb_c fb_q]. split; auto.
      exists (D ++ [u]), Q, [], w. cbn [app]. auto 12.
Qed.

(** An extra copy of the source at the head of the queue is skipped (without assertions). *)
Lemma fb_up_extra T c Q i x : debug = false -> i = length (row s) -> finv h s [] s (pos s i) Q T -> wmatch n c (s :: Q) ->
  fb_up debug g flt c (x :: s :: Q) s i = fb_up debug g flt (upd c s 0) (s :: Q) s i.
Proof.
  intros ED E I V. assert (Lc : length c = n) by apply V. cbn [fb_up]. rewrite vset_lt by lia. cbn [bind]. rewrite (@vget_nth _ (upd c s 0) s 0) by (rewrite upd_length; lia). cbn [bind]. rewrite ED. cbn [andb].
  rewrite (@vget_nth _ g s []) by auto. cbn [bind].
  assert (V' : wmatch n (upd c s 0) ([] ++ s :: Q)) by (destruct (wmatch_reset (k := 0) V Hs ltac:(lia) ltac:(now left)) as (c' & Ec & V'); rewrite vset_lt in Ec by lia; now injection Ec as <-).
  assert (I0 : finv h s [] s (pos s 0) Q T) by (eapply finv_weaken; [|exact I]; rewrite pos_0; lia).
  destruct (@fb_skip_ok [] s Q T (upd c s 0) V' (row s) 0 eq_refl (Nat.le_0_l _) I0) as (i' & -> & _ & I2 & C). cbn [bind].
  destruct C as [C|(w & Lw & Ew & Fw & Nw)].
  - subst i'. rewrite Nat.eqb_refl. subst i. cbn [fb_up]. reflexivity.
  - exfalso. apply Nw. apply (fi_part I). subst i. rewrite pos_end, firstn_all. rewrite unf_row. apply keep_in. exists i'. auto.
Qed.

Lemma fb_step T st (V := fb_v st) : fb_unr st = false -> fb_inv T st ->
  exists w st', fb_deref g st = Ok (V, w) /\ fb_next debug g flt t st = Ok st' /\
    ((w = t /\ nth t (fb_c st') 0 = 2 /\ length (fb_c st') = n /\ exists T', tree_order h s (T ++ (V, t) :: T')) \/ (w <> t /\ fb_inv (T ++ [(V, w)]) st')).
Proof.
  intros Nq [[C _]|(_ & D & Q & ex & w & I & Vm & Gr & Eq & Hex & Ew & Fw & Nw & NT)]; [congruence|]. subst V.
  assert (Lu : fb_v st < n) by (eapply finv_lt'; eauto; apply in_or_app; right; now left). assert (Lw := row_in _ _ Ew).
  exists w. unfold fb_deref, fb_next. rewrite (@vget_nth _ g (fb_v st) []) by auto. cbn [bind].
  assert (Li : fb_i st < length (row (fb_v st))) by (apply nth_error_Some; congruence).
  rewrite (proj2 (vget_Ok _ _ _) Ew). cbn [bind]. destruct (wmatch_set (k := 2) Vm Lw ltac:(lia)) as (c' & Ec & V'). rewrite Ec. cbn [bind].
  assert (Lc : length (fb_c st) = n) by apply Vm. rewrite vset_lt in Ec by lia. injection Ec as <-.
  destruct (@pos_S_in _ _ _ Ew Fw) as [P1 P2]. assert (I' := finv_add I P2 Nw). rewrite <- P1 in I'. rewrite <- app_assoc in V'. cbn [app] in V'.
  destruct (Nat.eqb_spec t w) as [->|NTW].
  - eexists. split; [reflexivity|]. split; [reflexivity|]. left. split; auto. cbn [fb_c]. rewrite nth_upd_eq by lia. split; auto. split; [now rewrite upd_length|].
    destruct (@finv_complete h s h_ok h_s _ _ _ _ _ _ _ (le_n _) (le_n _) I') as (T' & H).
    { rewrite P1. apply nth_error_Some. congruence. }
    exists T'. now rewrite <- app_assoc in H.
  - assert (G' : greys (upd (fb_c st) w 2) (fb_v st :: Q ++ [w])).
    { intros y Y. destruct (Nat.eq_dec w y) as [<-|N]; [apply nth_upd_eq; lia|]. rewrite nth_upd_neq by auto. apply Gr. destruct Y as [Y|Y]; [now left|]. apply in_app_or in Y. destruct Y as [Y|[Y|[]]]; [now right|contradiction]. }
    assert (NT' : ~ In t (D ++ fb_v st :: Q ++ [w])).
    { intros X. apply in_app_or in X. destruct X as [X|[X|X]]; [apply NT; apply in_or_app; auto|apply NT; apply in_or_app; right; now left|]. apply in_app_or in X. destruct X as [X|[X|[]]]; [apply NT; apply in_or_app; right; now right|congruence]. }
    destruct (@fb_skip_ok _ _ _ _ _ V' _ (S (fb_i st)) eq_refl Li I') as (i' & -> & Bi & I2 & C). cbn [bind]. rewrite Eq. cbn [app].
    destruct (Nat.eqb_spec i' (length (row (fb_v st)))) as [E'|N].
    + destruct Hex as [->|(DB & -> & -> & Es)].
      * cbn [app]. destruct (fb_up_ok (fb_v st) E' I2 V' (fun y Y => G' y (or_intror Y)) NT') as (st' & -> & Inv). eexists. split; [reflexivity|]. split; [reflexivity|]. auto.
      * cbn [app] in *. rewrite Es in *. rewrite (fb_up_extra s DB E' I2 V').
        assert (V2 : wmatch n (upd (upd (fb_c st) w 2) s 0) ([] ++ s :: Q ++ [w])) by (destruct (wmatch_reset (k := 0) V' Hs ltac:(lia) ltac:(now left)) as (c2 & Ec2 & V2); rewrite vset_lt in Ec2 by (rewrite upd_length; lia); now injection Ec2 as <-).
        assert (G2 : greys (upd (upd (fb_c st) w 2) s 0) (Q ++ [w])).
        { intros y Y. rewrite nth_upd_neq; [apply G'; now right|]. intros <-. assert (N := fi_nodup I2). cbn [app] in N. apply NoDup_cons_iff in N. now apply N. }
        destruct (fb_up_ok s E' I2 V2 G2 NT') as (st' & -> & Inv). eexists. split; [reflexivity|]. split; [reflexivity|]. auto.
    + destruct C as [C|(w' & Lw' & Ew' & Fw' & Nw')]; [congruence|]. eexists. split; [reflexivity|]. split; [reflexivity|]. right. split; auto. right. cbn [fb_unr fb_v fb_i fb_c fb_q]. split; auto.
      exists D, (Q ++ [w]), ex, w'. rewrite <- app_assoc. auto 12.
Qed.

Lemma t_white c P : wmatch n c P -> ~ In t P -> vget c t = Ok 1.
Proof. intros [L W] N. rewrite (@vget_nth _ c t 0) by lia. f_equal. now apply W. Qed.
Lemma T_short D u i Q T : finv h s D u i Q T -> S (length T) <= n.
Proof.
  intros I. destruct (fi_head I) as (r & A & B). replace (S (length T)) with (length (D ++ u :: Q)) by (rewrite A, <- B; simpl; now rewrite map_length).
  rewrite <- (seq_length n 0). apply NoDup_incl_length; [apply (fi_nodup I)|]. intros x X. apply in_seq. assert (L := finv_lt' x I X). lia.
Qed.
Lemma fb_loop_ok : forall fuel T st, fb_inv T st -> n <= length T + fuel ->
  exists r b, fb_loop debug g flt t fuel st = Ok (r, b) /\
    ((b = true /\ exists r0 p T', r = r0 ++ [(p, t)] /\ tree_order h s (T ++ r ++ T')) \/
     (b = false /\ tree_order h s (T ++ r) /\ ~ In t (s :: map snd (T ++ r)))).
Proof.
  induction fuel as [|f IH]; intros T st I L.
  - destruct I as [(U & TO & NT & Ct & Lc)|(U & D & Q & ex & w & I & _)].
    + exists [], false. cbn [fb_loop]. rewrite (@vget_nth _ (fb_c st) t 0), Ct, U by lia. cbn [bind Nat.eqb orb]. split; auto. right. rewrite app_nil_r. auto.
    + apply T_short in I. lia.
  - assert (I0 := I). destruct I0 as [(U & TO & NT & Ct & Lc)|(U & J)].
    + exists [], false. cbn [fb_loop]. rewrite (@vget_nth _ (fb_c st) t 0), Ct, U by lia. cbn [bind Nat.eqb orb]. split; auto. right. rewrite app_nil_r. auto.
    + cbn [fb_loop]. assert (Wt : vget (fb_c st) t = Ok 1) by (destruct J as (D & Q & ex & w & _ & V & _ & _ & _ & _ & _ & _ & NT); eapply t_white; eauto).
      rewrite Wt. cbn [bind]. rewrite U. cbn [Nat.eqb orb]. destruct (fb_step U I) as (w & st' & -> & -> & C). cbn [bind].
      destruct C as [(-> & Ct & Lc & T' & TO)|(NW & I')].
      * exists [(fb_v st, t)], true. split.
        -- destruct f; cbn [fb_loop]; rewrite (@vget_nth _ (fb_c st') t 0), Ct by lia; reflexivity.
        -- left. split; auto. exists [], (fb_v st), T'. auto.
      * destruct (IH _ _ I') as (r & b & Er & C); [rewrite app_length; simpl; lia|]. rewrite Er. cbn [bind fst snd]. exists ((fb_v st, w) :: r), b. split; auto.
        destruct C as [(-> & r0 & p & T' & -> & TO)|(-> & TO & NT)].
        -- left. split; auto. exists ((fb_v st, w) :: r0), p, T'. split; auto. now rewrite <- app_assoc in TO.
        -- right. rewrite <- app_assoc in TO, NT. auto.
Qed.

Lemma fb_first_ok v : forall l i, skipn i (row v) = l -> l <> [] -> pos v i = 0 ->
  (fb_first flt v l i = Ok (length (row v), true) /\ nth v h [] = []) \/
  exists k w, fb_first flt v l i = Ok (k, false) /\ nth_error (row v) k = Some w /\ flt v k = false /\ pos v k = 0 /\ hd_error (nth v h []) = Some w.
Proof.
  clear Hg Hs Ht Hst s t. induction l as [|w l IH]; intros i E N P; [congruence|]. assert (X := E). apply skipn_cons_nth in X. destruct X as [En El]. cbn [fb_first]. destruct (flt v i) eqn:F.
  - assert (P1 := @pos_S_out _ _ _ En F). destruct l as [|w' l].
    + left. assert (L0 := f_equal (@length nat) El). rewrite skipn_length in L0. cbn [length] in L0. assert (L : i < length (row v)) by (apply nth_error_Some; congruence). replace (S i) with (length (row v)) by lia. split; auto.
      apply length_zero_iff_nil. rewrite <- pos_end. replace (length (row v)) with (S i) by lia. congruence.
    + apply IH; auto; [discriminate|congruence].
  - right. exists i, w. split; auto. split; auto. split; auto. split; auto. destruct (@pos_S_in _ _ _ En F) as [_ H]. rewrite P in H. destruct (nth v h []); [discriminate|exact H].
Qed.

Lemma filtered_ok : row s <> [] -> (debug = true -> hd_error (nth s h []) <> Some s) ->
  exists b T, filtered_bfs debug g flt t s = Ok ((if match hd_error (nth s h []) with Some w => w =? s | None => false end then [(s, s)] else []) ++ T, b) /\
    ((b = true /\ exists T0 p T', T = T0 ++ [(p, t)] /\ tree_order h s (T ++ T')) \/
     (b = false /\ tree_order h s T /\ ~ In t (s :: map snd T))).
Proof.
  intros Hr Hd. unfold filtered_bfs. rewrite vset_lt by (rewrite repeat_length; auto). cbn [bind]. rewrite (@vget_nth _ g s []) by auto. cbn [bind].
  set (c := upd (repeat 1 n) s 2). assert (Lc : length c = n) by (unfold c; now rewrite upd_length, repeat_length).
  assert (V : wmatch n c [s]).
  { assert (X : wmatch n (repeat 1 n) []) by (split; [apply repeat_length|]; intros x X; split; [auto|]; intros _; rewrite (@nth_indep _ _ x 0 1) by (now rewrite repeat_length); apply nth_repeat).
    destruct (wmatch_set (k := 2) X Hs ltac:(lia)) as (c' & E & V). rewrite vset_lt in E by (rewrite repeat_length; auto). now injection E as <-. }
  assert (Gr : greys c [s]) by (intros x [<-|[]]; apply nth_upd_eq; rewrite repeat_length; auto).
  assert (NT : ~ In t [s]) by (intros [X|[]]; congruence).
  destruct (@fb_first_ok s (row s) 0 eq_refl Hr (pos_0 s)) as [[E Z]|(k & w & E & Ew & Fw & Pk & Hw)]; rewrite E; cbn [bind fst snd].
  - rewrite Z. cbn [hd_error]. assert (I : fb_inv [] (mkFb c [s] s (length (row s)) true)).
    { left. cbn [fb_unr fb_c]. split; auto. split; [eapply finv_tree; [apply finv_init|now rewrite Z]|]. split; auto. split; auto. now apply V. }
    destruct (fb_loop_ok (S n) I) as (r & b & Er & C); [simpl; lia|]. exists b, r. split; [first [exact Er|reflexivity]|]. destruct C as [(-> & r0 & p & T' & -> & TO)|C]; [left; split; auto; exists r0, p, T'; auto|right; auto].
  - rewrite Hw in *. assert (Lw := row_in _ _ Ew). destruct (Nat.eqb_spec w s) as [->|NW].
    + assert (DB : debug = false) by (destruct debug; auto; exfalso; now apply Hd).
      cbn [fb_loop fb_c]. rewrite (t_white V NT). cbn [bind Nat.eqb orb fb_unr]. unfold fb_deref. cbn [fb_v fb_i]. rewrite (@vget_nth _ g s []) by auto. cbn [bind]. rewrite (proj2 (vget_Ok _ _ _) Ew). cbn [bind].
      unfold fb_next. cbn [fb_v fb_i fb_q fb_c fb_unr]. rewrite (@vget_nth _ g s []) by auto. cbn [bind]. rewrite (proj2 (vget_Ok _ _ _) Ew). cbn [bind]. rewrite vset_lt by lia. cbn [bind app].
      destruct (Nat.eqb_spec t s) as [?|_]; [congruence|].
      assert (V' : wmatch n (upd c s 2) ([] ++ s :: [])) by (destruct (wmatch_reset (k := 2) V Hs ltac:(lia) ltac:(now left)) as (c' & Ec & V'); rewrite vset_lt in Ec by lia; now injection Ec as <-).
      destruct (@pos_S_in _ _ _ Ew Fw) as [P1 P2].
      assert (I1 : finv h s [] s (pos s (S k)) [] []). { rewrite P1, Pk. eapply finv_skip; [apply finv_init|rewrite <- Pk; eauto|now left]. }
      assert (Lk : S k <= length (row s)) by (apply nth_error_Some; congruence).
      assert (G' : greys (upd c s 2) [s]) by (intros x [<-|[]]; apply nth_upd_eq; lia).
      assert (ST : exists st', (do i <- fb_skip flt (upd c s 2) s (skipn (S k) (row s)) (S k); (if i =? length (row s) then fb_up debug g flt (upd c s 2) [s; s] s i else Ok (mkFb (upd c s 2) [s; s] s i false))) = Ok st' /\ fb_inv [] st').
      { destruct (@fb_skip_ok _ _ _ _ _ V' _ (S k) eq_refl Lk I1) as (i' & -> & Bi & I2 & C). cbn [bind]. destruct (Nat.eqb_spec i' (length (row s))) as [E'|N].
        - rewrite (fb_up_extra s DB E' I2 V'). destruct (@fb_up_ok [] [] [] s i' (upd (upd c s 2) s 0) s E' I2) as (st' & -> & I'); [|intros y []|auto|eauto].
          destruct (wmatch_reset (k := 0) V' Hs ltac:(lia) ltac:(now left)) as (c' & Ec & V2); rewrite vset_lt in Ec by (rewrite upd_length; lia); now injection Ec as <-.
        - destruct C as [C|(w' & Lw' & Ew' & Fw' & Nw')]; [congruence|]. eexists. split; [reflexivity|]. right. cbn [fb_unr fb_v fb_i fb_c fb_q]. split; auto. exists [], [], [s], w'. cbn [app]. auto 12. }
      destruct ST as (st' & -> & I'). cbn [bind]. destruct (fb_loop_ok n I') as (r & b & Er & C); [simpl; lia|]. rewrite Er. cbn [bind fst snd]. exists b, r. split; [first [exact Er|reflexivity]|]. destruct C as [(-> & r0 & p & T' & -> & TO)|C]; [left; split; auto; exists r0, p, T'; auto|right; auto].
    + assert (I : fb_inv [] (mkFb c [s] s k false)).
      { right. cbn [fb_unr fb_v fb_i fb_c fb_q]. split; auto. exists [], [], [], w. cbn [app]. split; [rewrite Pk; apply finv_init|]. split; auto. split; auto. split; auto. split; auto. split; auto. split; auto. split; auto. intros [X|[]]; congruence. }
      destruct (fb_loop_ok (S n) I) as (r & b & Er & C); [simpl; lia|]. exists b, r. split; [first [exact Er|reflexivity]|]. destruct C as [(-> & r0 & p & T' & -> & TO)|C]; [left; split; auto; exists r0, p, T'; auto|right; auto].
Qed.
End R.

(** [via r s k v]: a path of [k] of the yielded arcs leads from [s] to [v]. *)
Inductive via (r : list (nat * nat)) (s : nat) : nat -> nat -> Prop :=
| via_0 : via r s 0 s
| via_S k u v : via r s k u -> In (u, v) r -> via r s (S k) v.
Lemma via_incl r r' s k v : incl r r' -> via r s k v -> via r' s k v.
Proof. intros I W. induction W; [constructor|econstructor; eauto]. Qed.
Lemma tree_via g s : forall T T', tree_order g s (T ++ T') -> forall c, In c (s :: map snd T) -> exists d, dist g s c d /\ via T s d c.
Proof.
  induction T as [|[p x] T IH] using rev_ind; intros T' TO c C.
  - destruct C as [<-|[]]. exists 0. split; [now apply dist_0|constructor].
  - rewrite <- app_assoc in TO. cbn [app] in TO. rewrite map_app in C. cbn [map snd] in C. change (In c ((s :: map snd T) ++ [x])) in C. apply in_app_or in C. destruct C as [C|[<-|[]]].
    + destruct (IH _ TO c C) as (d & A & B). exists d. split; auto. eapply via_incl; [|exact B]. intros y Y. apply in_or_app. auto.
    + destruct (proj2 TO T p x T' eq_refl) as (_ & D & P). destruct (IH _ TO p P) as (d & A & B). exists (S d). split; auto. econstructor; [|apply in_or_app; right; now left]. eapply via_incl; [|exact B]. intros y Y. apply in_or_app. auto.
Qed.

(** With assertions: a self loop at the head of the source's row makes the assertion fail as soon as that row is left. *)
Fixpoint whites (c : list nat) : nat := match c with [] => 0 | x :: c' => (if x =? 1 then 1 else 0) + whites c' end.
Lemma whites_upd c : forall w k, w < length c -> nth w c 0 = 1 -> k <> 1 -> S (whites (upd c w k)) = whites c.
Proof.
  induction c as [|x c IH]; intros [|w] k L E K; simpl in *; try lia.
  - subst x. cbn. destruct (Nat.eqb_spec k 1); [congruence|]. reflexivity.
  - rewrite <- (IH w k) by (auto; lia). destruct (x =? 1); lia.
Qed.
Lemma whites_repeat n : whites (repeat 1 n) = n.
Proof. induction n; simpl; congruence. Qed.
Section S.
Variables (g : list (list nat)) (flt : nat -> nat -> bool) (s t : nat).
Hypothesis Hg : targets_ok g.
Hypothesis Hs : s < length g.
Hypothesis Ht : t < length g.
Hypothesis Hst : s <> t.
Hypothesis Hnt : ~ edge (unfiltered flt g) s t.
Notation n := (length g).
Notation row := (nth s g []).
Lemma fb_skip_any c : length c = n -> forall l i, skipn i row = l -> i <= length row ->
  exists i', fb_skip flt c s l i = Ok i' /\ (i' = length row \/ exists w, nth_error row i' = Some w /\ flt s i' = false /\ nth w c 0 = 1).
Proof.
  intros Lc. induction l as [|w l IH]; intros i E Li; cbn [fb_skip].
  - exists i. split; auto. left. assert (X := f_equal (@length nat) E). rewrite skipn_length in X. simpl in X. lia.
  - apply skipn_cons_nth in E. destruct E as [En El]. assert (Li' : S i <= length row) by (apply nth_error_Some; congruence).
    assert (Lw : w < n) by (apply (Hg s); eapply nth_error_In; eauto). rewrite (@vget_nth _ c w 0) by lia. cbn [bind].
    destruct (Nat.eqb_spec (nth w c 0) 1) as [W|W], (flt s i) eqn:F; cbn [andb negb]; try (apply IH; auto). exists i. split; auto. right. eauto.
Qed.
Lemma fb_loop_dbg : forall f c Q i w, length c = n -> nth t c 0 <> 2 -> whites c <= f -> nth_error row i = Some w -> flt s i = false -> nth w c 0 = 1 ->
  fb_loop true g flt t f (mkFb c (s :: s :: Q) s i false) = Ub.
Proof.
  induction f as [|f IH]; intros c Q i w Lc Ct Wc Ew Fw Ww; assert (Lw : w < n) by (apply (Hg s); eapply nth_error_In; eauto).
  - assert (X := @whites_upd c w 0 ltac:(lia) Ww ltac:(lia)). lia.
  - cbn [fb_loop fb_c fb_unr]. rewrite (@vget_nth _ c t 0) by lia. cbn [bind]. destruct (Nat.eqb_spec (nth t c 0) 2) as [?|_]; [congruence|]. cbn [orb].
    unfold fb_deref, fb_next. cbn [fb_v fb_i fb_q fb_c fb_unr]. rewrite (@vget_nth _ g s []) by auto. cbn [bind]. rewrite (proj2 (vget_Ok _ _ _) Ew). cbn [bind]. rewrite vset_lt by lia. cbn [bind app].
    assert (NW : t <> w). { intros ->. apply Hnt. apply unf_edge. eauto. } destruct (Nat.eqb_spec t w) as [?|_]; [congruence|].
    assert (Li : S i <= length row) by (apply nth_error_Some; congruence).
    destruct (@fb_skip_any (upd c w 2) ltac:(now rewrite upd_length) _ (S i) eq_refl Li) as (i' & -> & C). cbn [bind].
    destruct (Nat.eqb_spec i' (length row)) as [->|N].
    + cbn [fb_up]. rewrite vset_lt by (rewrite upd_length; lia). cbn [bind]. rewrite (@vget_nth _ _ s 0) by (rewrite !upd_length; lia). cbn [bind]. rewrite nth_upd_eq by (rewrite upd_length; lia). reflexivity.
    + destruct C as [C|(w' & Ew' & Fw' & Ww')]; [congruence|]. cbn [bind]. rewrite (IH (upd c w 2) (Q ++ [w]) i' w'); auto; [now rewrite upd_length|rewrite nth_upd_neq by auto; auto|].
      assert (X := @whites_upd c w 2 ltac:(lia) Ww ltac:(lia)). lia.
Qed.
Lemma filtered_dbg : hd_error (nth s (unfiltered flt g) []) = Some s -> filtered_bfs true g flt t s = Ub.
Proof.
  intros H. unfold filtered_bfs. rewrite vset_lt by (rewrite repeat_length; auto). cbn [bind]. rewrite (@vget_nth _ g s []) by auto. cbn [bind].
  assert (Hr : row <> []) by (intros E; rewrite unf_row, E in H; discriminate).
  destruct (@fb_first_ok g flt s row 0 eq_refl Hr eq_refl) as [[_ Z]|(k & w & E & Ew & Fw & _ & Hw)]; [rewrite Z in H; discriminate|]. rewrite E. cbn [bind fst snd]. assert (w = s) by congruence. subst w.
  set (c := upd (repeat 1 n) s 2). assert (Lc : length c = n) by (unfold c; now rewrite upd_length, repeat_length).
  assert (Nt : nth t c 0 = 1). { unfold c. rewrite nth_upd_neq by auto. rewrite (@nth_indep _ _ t 0 1) by (now rewrite repeat_length). apply nth_repeat. }
  assert (Wc : whites (upd c s 2) <= n).
  { replace (upd c s 2) with c; [|unfold c; apply nth_ext with 0 0; [now rewrite !upd_length|]; intros j _; destruct (Nat.eq_dec s j) as [<-|N]; [now rewrite !nth_upd_eq by (rewrite ?upd_length, repeat_length; auto)|now rewrite !nth_upd_neq by auto]].
    assert (X := @whites_upd (repeat 1 n) s 2 ltac:(rewrite repeat_length; auto) ltac:(rewrite (@nth_indep _ _ s 0 1) by (now rewrite repeat_length); apply nth_repeat) ltac:(lia)). rewrite whites_repeat in X. fold c in X. lia. }
  cbn [fb_loop fb_c fb_unr]. rewrite (@vget_nth _ c t 0), Nt by lia. cbn [bind Nat.eqb orb].
  unfold fb_deref, fb_next. cbn [fb_v fb_i fb_q fb_c fb_unr]. rewrite (@vget_nth _ g s []) by auto. cbn [bind]. rewrite (proj2 (vget_Ok _ _ _) Ew). cbn [bind]. rewrite vset_lt by lia. cbn [bind app].
  destruct (Nat.eqb_spec t s) as [?|_]; [congruence|]. assert (Li : S k <= length row) by (apply nth_error_Some; congruence).
  destruct (@fb_skip_any (upd c s 2) ltac:(now rewrite upd_length) _ (S k) eq_refl Li) as (i' & -> & C). cbn [bind].
  destruct (Nat.eqb_spec i' (length row)) as [->|N].
  + cbn [fb_up]. rewrite vset_lt by (rewrite upd_length; lia). cbn [bind]. rewrite (@vget_nth _ _ s 0) by (rewrite !upd_length; lia). cbn [bind]. rewrite nth_upd_eq by (rewrite upd_length; lia). reflexivity.
  + destruct C as [C|(w' & Ew' & Fw' & Ww')]; [congruence|]. cbn [bind]. rewrite (@fb_loop_dbg n (upd c s 2) [] i' w'); auto; [now rewrite upd_length|]. rewrite nth_upd_neq by auto. lia.
Qed.
End S.

Lemma filtered_isolated debug g flt s t : s < length g -> nth s g [] = [] -> filtered_bfs debug g flt t s = Ub.
Proof. intros L E. unfold filtered_bfs. rewrite vset_lt by (rewrite repeat_length; auto). cbn [bind]. rewrite (@vget_nth _ g s []) by auto. rewrite E. reflexivity. Qed.
Lemma filtered_same debug g flt s : s < length g -> nth s g [] <> [] -> filtered_bfs debug g flt s s = Ok ([], true).
Proof.
  intros L N. unfold filtered_bfs. rewrite vset_lt by (rewrite repeat_length; auto). cbn [bind]. rewrite (@vget_nth _ g s []) by auto. cbn [bind].
  assert (X : exists r, fb_first flt s (nth s g []) 0 = Ok r).
  { destruct (@fb_first_ok g flt s (nth s g []) 0 eq_refl N eq_refl) as [[-> _]|(k & w & -> & _)]; eauto. }
  destruct X as (r & ->). cbn [bind fb_loop fb_c]. rewrite (@vget_nth _ _ s 0) by (rewrite upd_length, repeat_length; auto). rewrite nth_upd_eq by (rewrite repeat_length; auto). reflexivity.
Qed.
