(** The forward phase of bc2_v2, bc2_v3 and bc2_v4, every interleaving. *)
From Coq Require Import List Arith ZArith Qcanon Field Lia Bool Permutation.
From Verif Require Import Base GraphLib FifoLib SumLib QcLib BcLib Pool ParBfsModel ParBfsProofs BcModel BcProofs BcParProofs BcParProofs2 CcProofs XbcModel XbcProofs.
Import ListNotations.
Set Implicit Arguments.
Local Open Scope nat_scope.

(** the first task moves *)
Lemma run_head_m (A B : Type) (step : A -> B -> res (option A * B)) (ms : list A -> B -> nat) (I : list A -> B -> Prop) :
  (forall t l2 s, I (t :: l2) s ->
     exists o s', step t s = Ok (o, s') /\ I (opt_list o ++ l2) s' /\ ms (opt_list o ++ l2) s' < ms (t :: l2) s) ->
  forall sched, (forall i, sched i = 0) ->
  forall fuel now ts s, I ts s -> ms ts s <= fuel -> exists s', run step fuel sched now ts s = Ok s' /\ I [] s'.
Proof.
  intros ST sched H0. induction fuel as [|fuel IH]; intros now ts s H HF.
  - destruct ts as [|t ts]; [exists s; auto|]. destruct (ST _ _ _ H) as (o & s' & _ & _ & L). lia.
  - destruct ts as [|t ts]; [exists s; auto|]. cbn [run]. rewrite H0. rewrite Nat.mod_0_l by discriminate. cbn [vget nth_error].
    destruct (ST _ _ _ H) as (o & s' & E & H' & L). change (vget (t :: ts) 0) with (Ok t). cbn [bind]. rewrite E. cbn [bind fst snd firstn skipn app]. apply IH; auto. lia.
Qed.

Section P.
  Variables (g : list (list nat)) (s M vmax nb : nat) (vr : ver).
  Hypothesis (T : targets_ok g) (Hs : s < length g) (HM : forall t, sg g s t < M) (HV : length g <= vmax) (HB : 0 < nb).
  Notation n := (length g).
  Notation row v := (nth v g []).
  Notation sg := (sg g s).
  Notation nxt := (nxt g s).
  Notation dist := (dist g s).
  Notation E := (sum (map (@length nat) g)).

  (** *** Successor bits *)
  Record SC (k : nat) (pd : list (nat * nat)) (sc : list bool) : Prop := {
    sc_len : length sc = E;
    sc_1 : forall e u v, arc g e u v -> nth e sc false = true -> exists a, a <= k /\ dist u a /\ dist v (S a);
    sc_2 : forall e u v a, arc g e u v -> a <= k -> dist u a -> dist v (S a) -> nth e sc false = true \/ In (e, v) pd }.
  Record SCb (k : nat) (sc : list bool) : Prop := {
    scb_len : length sc = E;
    scb_1 : forall e u v, arc g e u v -> nth e sc false = true -> exists a, a < k /\ dist u a /\ dist v (S a);
    scb_2 : forall e u v a, arc g e u v -> a < k -> dist u a -> dist v (S a) -> nth e sc false = true }.

  (** *** Tasks *)
  Definition xu (t : xtask) : nat :=
    match t with XLoad u _ | XCas u _ _ _ | XPush u _ _ _ | XChk u _ _ _ | XGet u _ _ _ _ | XArg u _ _ _ _ | XAdd u _ _ _ _ _ | XRec u _ _ _ => u end.
  (** arcs whose count is pending, and arcs whose record is pending *)
  Definition xcp (t : xtask) : list (nat * nat) :=
    match t with
    | XLoad _ r | XRec _ _ _ r => r
    | XCas _ e v r | XPush _ e v r | XChk _ e v r | XGet _ e v _ r | XArg _ e v _ r | XAdd _ e v _ _ r => (e, v) :: r
    end.
  Definition xrp (t : xtask) : list (nat * nat) :=
    match t with
    | XLoad _ r => r
    | XCas _ e v r | XPush _ e v r | XChk _ e v r | XGet _ e v _ r | XArg _ e v _ r | XAdd _ e v _ _ r | XRec _ e v r => (e, v) :: r
    end.
  Definition xcov (t : xtask) : list nat :=
    match t with
    | XCas _ _ v r => v :: map snd r
    | XLoad _ r | XPush _ _ _ r | XChk _ _ _ r | XGet _ _ _ _ r | XArg _ _ _ _ r | XAdd _ _ _ _ _ r | XRec _ _ _ r => map snd r
    end.
  Definition xpush (t : xtask) : list nat := match t with XPush _ _ v _ => [v] | _ => [] end.
  Definition ends (u : nat) (l : list (nat * nat)) : list (nat * nat) := map (fun p => (u, snd p)) l.
  Definition cq (t : xtask) := ends (xu t) (xcp t).
  Definition rq (t : xtask) := ends (xu t) (xrp t).
  Definition clash (t t' : xtask) : Prop := match t, t' with XAdd _ _ v _ _ _, XAdd _ _ v' _ _ _ => v' = v | _, _ => False end.

  Section L.
    Variables (k T0 : nat).
    Notation D1 v := (dist v (S k)).
    Definition tk_ok (st : xs) (t : xtask) : Prop :=
      dist (xu t) k /\ incl (xrp t) (arcs_of g (xu t)) /\
      match t with
      | XLoad _ _ => True
      | XCas _ _ v _ => D1 v
      | XPush _ _ v _ => D1 v /\ nth v (x_lv st) 0 <> vmax
      | XChk _ _ v _ => nth v (x_lv st) 0 <> vmax
      | XGet u _ v x _ => D1 v /\ (vr <> V3 -> x = sg u)
      | XArg _ _ v _ _ | XRec _ _ v _ => D1 v
      | XAdd u _ v y x _ => D1 v /\ x = sg u /\ (vr = V2 -> y = nth v (x_pc st) 0)
      end.
    Definition rec_ok (ts : list xtask) (st : xs) : Prop :=
      match vr with
      | V2 => PR g s k (fun v x => pab v x (flat_map rq ts)) (x_P st)
      | _ => SC k (flat_map xrp ts) (x_sc st)
      end.
    Record xinv (ts : list xtask) (st : xs) : Prop := {
      xi_nb : length (x_q2 st) = nb;
      xi_T : length ts <= T0;
      xi_tk : forall t, In t ts -> tk_ok st t;
      xi_v : LV g s vmax k (fun x => In x (flat_map xcov ts)) (concat (x_q2 st) ++ flat_map xpush ts) (x_lv st);
      xi_c : PC g s k (fun x => wgt sg x (flat_map cq ts)) (x_pc st);
      xi_r : rec_ok ts st }.
    (** a failed compare-and-swap is paid for by the one that succeeded *)
    Definition stale (pc : list nat) (v y : nat) : nat := match vr with V3 => if nth v pc 0 =? y then 0 else 2 | _ => 0 end.
    Definition loc (pc : list nat) (t : xtask) : nat :=
      match t with
      | XLoad _ r => 8 * length r + 1
      | XCas _ _ _ r => 8 * length r + 8
      | XPush _ _ _ r => 8 * length r + 7
      | XChk _ _ _ r => 8 * length r + 6
      | XGet _ _ _ _ r => 8 * length r + match vr with V3 => 5 | _ => 4 end
      | XArg _ _ v y r => 8 * length r + match vr with V3 => 4 | _ => 5 end + stale pc v y
      | XAdd _ _ v y _ r => 8 * length r + 3 + stale pc v y
      | XRec _ _ _ r => 8 * length r + 2
      end.
    Definition mes (ts : list xtask) (st : xs) : nat := sum (map (loc (x_pc st)) ts) + (2 * T0 + 2) * sum (map (fun t => length (xcp t)) ts).
    Lemma loc_any pc pc' t : loc pc' t <= loc pc t + 2.
    Proof. destruct t; cbn [loc]; unfold stale; destruct vr; repeat match goal with |- context [if ?b then _ else _] => destruct b end; lia. Qed.
    Lemma loc_sum pc pc' l : sum (map (loc pc') l) <= sum (map (loc pc) l) + 2 * length l.
    Proof. induction l as [|t l IH]; auto. cbn [map sum length]. assert (X := loc_any pc pc' t). lia. Qed.

    Section STEP.
      Variables (l1 l2 : list xtask) (t : xtask) (st : xs).
      Hypothesis (I : xinv (l1 ++ t :: l2) st).
      Lemma It : In t (l1 ++ t :: l2). Proof. apply in_or_app. right. now left. Qed.
      (** same levels and queue *)
      Lemma keep_v os : flat_map xpush os = xpush t -> (forall x, In x (xcov t) -> D1 x -> nth x (x_lv st) 0 <> S k -> In x (flat_map xcov os)) ->
        LV g s vmax k (fun x => In x (flat_map xcov (l1 ++ os ++ l2))) (concat (x_q2 st) ++ flat_map xpush (l1 ++ os ++ l2)) (x_lv st).
      Proof.
        intros Ep H. eapply LV_weak; [exact (xi_v I)| |].
        - rewrite !flat_map_app. cbn [flat_map]. now rewrite Ep.
        - intros x J Dx N. rewrite !flat_map_app, !in_app_iff in *. cbn [flat_map] in J. rewrite in_app_iff in J. destruct J as [|[|]]; auto.
      Qed.
      Lemma keep_c os : (forall x, D1 x -> wgt sg x (flat_map cq os) = wgt sg x (cq t)) -> PC g s k (fun x => wgt sg x (flat_map cq (l1 ++ os ++ l2))) (x_pc st).
      Proof.
        intros H. eapply PC_ext; [exact (xi_c I)|]. intros x Dx. rewrite !flat_map_app, !wgt_app. cbn [flat_map]. rewrite wgt_app, H by auto. reflexivity.
      Qed.
      Lemma keep_r os st' : x_P st' = x_P st -> x_sc st' = x_sc st -> (forall v x, D1 x -> pab v x (flat_map rq os) = pab v x (rq t)) ->
        (forall e v u a, In (e, v) (xrp t) -> arc g e u v -> a <= k -> dist u a -> dist v (S a) -> In (e, v) (flat_map xrp os)) ->
        rec_ok (l1 ++ os ++ l2) st'.
      Proof.
        intros E1 E2 H1 H2. assert (X := xi_r I). unfold rec_ok in *. rewrite E1, E2.
        assert (Z : forall sc, SC k (flat_map xrp (l1 ++ t :: l2)) sc -> SC k (flat_map xrp (l1 ++ os ++ l2)) sc).
        { intros sc [A B C]. constructor; auto. intros e u v a Ar La Du Dv. destruct (C e u v a Ar La Du Dv) as [|J]; auto. right.
          rewrite !flat_map_app, !in_app_iff in *. cbn [flat_map] in J. rewrite in_app_iff in J. destruct J as [|[|]]; eauto. }
        destruct vr; auto. eapply PR_ext; [exact X|]. intros v x Dx. rewrite !flat_map_app, !pab_app. cbn [flat_map]. rewrite pab_app, H1 by auto. reflexivity.
      Qed.
      Lemma rep os st' : length (x_q2 st') = nb -> length os <= 1 ->
        (forall t', In t' os -> tk_ok st' t') -> (forall t', In t' (l1 ++ l2) -> tk_ok st t' -> tk_ok st' t') ->
        LV g s vmax k (fun x => In x (flat_map xcov (l1 ++ os ++ l2))) (concat (x_q2 st') ++ flat_map xpush (l1 ++ os ++ l2)) (x_lv st') ->
        PC g s k (fun x => wgt sg x (flat_map cq (l1 ++ os ++ l2))) (x_pc st') ->
        rec_ok (l1 ++ os ++ l2) st' -> xinv (l1 ++ os ++ l2) st'.
      Proof.
        intros L1 L2 H1 H2 H3 H4 H5. constructor; auto.
        - assert (X := xi_T I). rewrite !app_length in *. cbn [length] in X. lia.
        - intros t' J. rewrite !in_app_iff in J. assert (Q : forall x, In x (l1 ++ l2) -> In x (l1 ++ t :: l2)).
          { intros x. rewrite !in_app_iff. cbn [In]. tauto. }
          destruct J as [J|[J|J]]; auto; apply H2; try (apply (xi_tk I); apply Q); apply in_or_app; auto.
      Qed.
      Lemma mes_same os : sum (map (loc (x_pc st)) os) < loc (x_pc st) t -> sum (map (fun t => length (xcp t)) os) <= length (xcp t) ->
        forall st', x_pc st' = x_pc st -> mes (l1 ++ os ++ l2) st' < mes (l1 ++ t :: l2) st.
      Proof.
        intros H1 H2 st' Ep. unfold mes. rewrite Ep, !map_app, !sum_app. cbn [map sum].
        assert (Z : (2 * T0 + 2) * sum (map (fun t => length (xcp t)) os) <= (2 * T0 + 2) * length (xcp t)) by (apply Nat.mul_le_mono_l; auto). lia.
      Qed.
      Lemma mes_add t' st' : loc (x_pc st') t' < loc (x_pc st) t -> S (length (xcp t')) <= length (xcp t) -> mes (l1 ++ [t'] ++ l2) st' < mes (l1 ++ t :: l2) st.
      Proof.
        intros H1 H2. unfold mes. rewrite !map_app, !sum_app. cbn [map sum]. assert (X := loc_sum (x_pc st) (x_pc st') l1). assert (Y := loc_sum (x_pc st) (x_pc st') l2).
        assert (Q := xi_T I). rewrite app_length in Q. cbn [length] in Q.
        assert (Z : (2 * T0 + 2) * S (length (xcp t')) <= (2 * T0 + 2) * length (xcp t)) by (apply Nat.mul_le_mono_l; auto). lia.
      Qed.
    End STEP.
    Lemma ends_cons u e v r : ends u ((e, v) :: r) = (u, v) :: ends u r. Proof. reflexivity. Qed.
    Lemma wgt_cons f x u v l : wgt f x ((u, v) :: l) = (if v =? x then f u else 0) + wgt f x l. Proof. reflexivity. Qed.
    Lemma pab_cons y x u v l : pab y x ((u, v) :: l) = b2n ((u =? y) && (v =? x)) + pab y x l. Proof. reflexivity. Qed.
    Lemma same_tk st st' : x_lv st' = x_lv st -> x_pc st' = x_pc st -> forall t, tk_ok st t -> tk_ok st' t.
    Proof. intros E1 E2 t. unfold tk_ok. rewrite E1, E2. auto. Qed.

    Lemma xstep_ok l1 t l2 st : xinv (l1 ++ t :: l2) st -> (vr = V2 -> forall t', In t' (l1 ++ l2) -> ~ clash t t') ->
      exists o st', xb_step vr vmax M (S k) t st = Ok (o, st') /\ xinv (l1 ++ opt_list o ++ l2) st' /\ mes (l1 ++ opt_list o ++ l2) st' < mes (l1 ++ t :: l2) st.
    Proof.
      intros I NC. assert (TK := xi_tk I _ (It l1 l2 t)). destruct TK as (Du & Ar & TK). destruct (dlt T Hs HV Du) as [Lu _].
      assert (LV1 := v_len (xi_v I)). assert (LC := c_len (xi_c I)). assert (LQ := xi_nb I).
      destruct t as [u [|[e v] r]|u e v r|u e v r|u e v r|u e v x r|u e v y r|u e v y x r|u e v r]; cbn [xb_step xu xrp] in *.
      - exists None, st. split; auto. cbn [opt_list]. split; [apply (@rep l1 l2 _ st I []); auto|apply (@mes_same l1 l2 _ st []); auto].
        + intros t' [].
        + now apply (@keep_v l1 l2 _ st I []).
        + now apply (@keep_c l1 l2 _ st I []).
        + now apply (@keep_r l1 l2 _ st I []).
      - assert (Av : arc g e u v) by (apply Ar; now left). assert (Ed := arc_edge Av). assert (Lv := T _ _ Ed).
        rewrite (@vget_nth _ (x_lv st) v 0) by lia. cbn [bind]. destruct (Nat.eqb_spec (nth v (x_lv st) 0) vmax) as [Ev|Nv]; eexists; exists st; (split; [reflexivity|]); cbn [opt_list].
        + assert (Dv := @LV_max g s vmax T Hs HV _ _ _ _ _ _ (xi_v I) Du Ed Ev).
          split; [apply (@rep l1 l2 _ st I [XCas u e v r]); auto|apply (@mes_same l1 l2 _ st [XCas u e v r]); auto; cbn; lia].
          * intros t' [<-|[]]. split; auto.
          * apply (@keep_v l1 l2 _ st I [XCas u e v r]); auto. cbn. rewrite app_nil_r. auto.
          * apply (@keep_c l1 l2 _ st I [XCas u e v r]); auto. intros x _. cbn [flat_map]. rewrite app_nil_r. reflexivity.
          * apply (@keep_r l1 l2 _ st I [XCas u e v r]); auto. { intros y x _. cbn [flat_map]. rewrite app_nil_r. reflexivity. } { cbn. intros. rewrite app_nil_r. auto. }
        + assert (Q := @LV_at g s vmax Hs HV _ _ _ _ _ _ (xi_v I) Du Ed Nv).
          split; [apply (@rep l1 l2 _ st I [XChk u e v r]); auto|apply (@mes_same l1 l2 _ st [XChk u e v r]); auto; cbn; lia].
          * intros t' [<-|[]]. split; auto.
          * apply (@keep_v l1 l2 _ st I [XChk u e v r]); auto. cbn. rewrite app_nil_r. intros x [<-|J] Dx Nx; auto. tauto.
          * apply (@keep_c l1 l2 _ st I [XChk u e v r]); auto. intros x _. cbn [flat_map]. rewrite app_nil_r. reflexivity.
          * apply (@keep_r l1 l2 _ st I [XChk u e v r]); auto. { intros y x _. cbn [flat_map]. rewrite app_nil_r. reflexivity. } { cbn. intros. rewrite app_nil_r. auto. }
      - destruct (dlt T Hs HV TK) as [Lv Lm]. rewrite (@vget_nth _ (x_lv st) v 0) by lia. cbn [bind].
        destruct (Nat.eqb_spec (nth v (x_lv st) 0) vmax) as [Ev|Nv].
        + rewrite vset_lt by lia. cbn [bind]. eexists. eexists. split; [reflexivity|]. cbn [opt_list].
          split; [apply (@rep l1 l2 _ st I [XPush u e v r]); cbn [x_q2 x_lv x_pc]; auto|apply (@mes_same l1 l2 _ st [XPush u e v r]); auto; cbn; lia].
          * intros t' [<-|[]]. split; auto. split; auto. cbn [x_lv]. rewrite nth_upd_eq by lia. split; auto. lia.
          * intros t' _ (B1 & B2 & B3). split; auto. split; auto. assert (S1 : forall w, nth w (x_lv st) 0 <> vmax -> nth w (upd (x_lv st) v (S k)) 0 <> vmax).
            { intros w Nw. destruct (Nat.eq_dec w v) as [->|]; [rewrite nth_upd_eq by lia; lia|rewrite nth_upd_neq by auto; auto]. }
            destruct t'; cbn [x_lv x_pc]; auto; destruct B3; split; auto.
          * eapply LV_weak; [exact (@LV_set g s vmax T Hs HV _ _ _ _ _ (xi_v I) TK Ev)| |].
            -- rewrite !flat_map_app. cbn [flat_map xpush app]. rewrite (app_assoc (concat _) (flat_map xpush l1) (v :: _)), <- Permutation_middle, <- app_assoc. reflexivity.
            -- intros x J Dx Nx. rewrite !flat_map_app, !in_app_iff in *. cbn [flat_map xcov] in *. rewrite in_app_iff in J. rewrite app_nil_r.
               destruct J as [|[[<-|]|]]; auto. rewrite nth_upd_eq in Nx by lia. tauto.
          * apply (@keep_c l1 l2 _ st I [XPush u e v r]); auto. intros x _. cbn [flat_map]. rewrite app_nil_r. reflexivity.
          * apply (@keep_r l1 l2 _ st I [XPush u e v r]); auto. { intros y x _. cbn [flat_map]. rewrite app_nil_r. reflexivity. } { cbn. intros. rewrite app_nil_r. auto. }
        + eexists. exists st. split; [reflexivity|]. cbn [opt_list].
          split; [apply (@rep l1 l2 _ st I [XChk u e v r]); auto|apply (@mes_same l1 l2 _ st [XChk u e v r]); auto; cbn; lia].
          * intros t' [<-|[]]. split; auto.
          * apply (@keep_v l1 l2 _ st I [XChk u e v r]); auto. cbn. rewrite app_nil_r. intros x [<-|J] Dx Nx; auto. destruct (v_2 (xi_v I) Dx); tauto.
          * apply (@keep_c l1 l2 _ st I [XChk u e v r]); auto. intros x _. cbn [flat_map]. rewrite app_nil_r. reflexivity.
          * apply (@keep_r l1 l2 _ st I [XChk u e v r]); auto. { intros y x _. cbn [flat_map]. rewrite app_nil_r. reflexivity. } { cbn. intros. rewrite app_nil_r. auto. }
      - destruct (@bin_push_perm (x_q2 st) u v) as (q & Eq & Lq & Pq); [lia|]. rewrite Eq. cbn [bind]. eexists. eexists. split; [reflexivity|]. cbn [opt_list].
        split; [apply (@rep l1 l2 _ st I [XChk u e v r]); cbn [x_q2 x_lv x_pc]; auto; try lia|apply (@mes_same l1 l2 _ st [XChk u e v r]); auto; cbn; lia].
        + intros t' [<-|[]]. split; auto; split; auto; cbn; tauto.
        + eapply LV_weak; [exact (xi_v I)| |].
          * rewrite !flat_map_app. cbn [flat_map xpush app]. rewrite Pq. cbn [app]. rewrite (app_assoc (concat _) (flat_map xpush l1) (v :: _)), <- Permutation_middle, <- app_assoc. reflexivity.
          * intros x J _ _. rewrite !flat_map_app in *. cbn [flat_map xcov] in *. now rewrite app_nil_r.
        + apply (@keep_c l1 l2 _ st I [XChk u e v r]); auto. intros x _. cbn [flat_map]. rewrite app_nil_r. reflexivity.
        + apply (@keep_r l1 l2 _ st I [XChk u e v r]); auto. { intros y x _. cbn [flat_map]. rewrite app_nil_r. reflexivity. } { cbn. intros. rewrite app_nil_r. auto. }
      - assert (Av : arc g e u v) by (apply Ar; now left). assert (Ed := arc_edge Av). assert (Lv := T _ _ Ed).
        rewrite (@vget_nth _ (x_lv st) v 0) by lia. cbn [bind]. assert (Q := @LV_at g s vmax Hs HV _ _ _ _ _ _ (xi_v I) Du Ed TK).
        eexists. exists st. split; [reflexivity|]. cbn [opt_list]. destruct (Nat.eqb_spec (nth v (x_lv st) 0) (S k)) as [Ev|Nv].
        + apply Q in Ev. assert (Z : forall t', (t' = XGet u e v 0 r /\ vr = V3) \/ (t' = XArg u e v 0 r /\ vr <> V3) ->
            xinv (l1 ++ [t'] ++ l2) st /\ mes (l1 ++ [t'] ++ l2) st < mes (l1 ++ XChk u e v r :: l2) st).
          { intros t' [[-> Ev3]|[-> Ev3]].
            - split; [apply (@rep l1 l2 _ st I [XGet u e v 0 r]); auto|apply (@mes_same l1 l2 _ st [XGet u e v 0 r]); auto; cbn; rewrite ?Ev3; lia].
              + intros t' [<-|[]]. split; auto; split; auto; cbn; tauto.
              + apply (@keep_v l1 l2 _ st I [XGet u e v 0 r]); auto. cbn. rewrite app_nil_r. auto.
              + apply (@keep_c l1 l2 _ st I [XGet u e v 0 r]); auto. intros x _. cbn [flat_map]. rewrite app_nil_r. reflexivity.
              + apply (@keep_r l1 l2 _ st I [XGet u e v 0 r]); auto. { intros y x _. cbn [flat_map]. rewrite app_nil_r. reflexivity. } { cbn. intros. rewrite app_nil_r. auto. }
            - split; [apply (@rep l1 l2 _ st I [XArg u e v 0 r]); auto|apply (@mes_same l1 l2 _ st [XArg u e v 0 r]); auto; cbn; unfold stale; destruct vr; try congruence; lia].
              + intros t' [<-|[]]. split; auto.
              + apply (@keep_v l1 l2 _ st I [XArg u e v 0 r]); auto. cbn. rewrite app_nil_r. auto.
              + apply (@keep_c l1 l2 _ st I [XArg u e v 0 r]); auto. intros x _. cbn [flat_map]. rewrite app_nil_r. reflexivity.
              + apply (@keep_r l1 l2 _ st I [XArg u e v 0 r]); auto. { intros y x _. cbn [flat_map]. rewrite app_nil_r. reflexivity. } { cbn. intros. rewrite app_nil_r. auto. } }
          apply Z. destruct vr; [right|left|right]; (split; [reflexivity|congruence]).
        + assert (Nd : ~ D1 v) by tauto. split; [apply (@rep l1 l2 _ st I [XLoad u r]); auto|apply (@mes_same l1 l2 _ st [XLoad u r]); auto; cbn; lia].
          * intros t' [<-|[]]. split; auto. split; [|exact Logic.I]. cbn [xrp]. intros z Z. apply Ar. now right.
          * apply (@keep_v l1 l2 _ st I [XLoad u r]); auto. cbn. rewrite app_nil_r. auto.
          * apply (@keep_c l1 l2 _ st I [XLoad u r]); auto. intros x Dx. cbn [flat_map]. rewrite app_nil_r. unfold cq. cbn [xcp xu]. rewrite ends_cons, wgt_cons.
            rewrite (proj2 (Nat.eqb_neq v x)) by congruence. reflexivity.
          * apply (@keep_r l1 l2 _ st I [XLoad u r]); auto.
            { intros y x Dx. cbn [flat_map]. rewrite app_nil_r. unfold rq. cbn [xrp xu]. rewrite ends_cons, pab_cons.
              rewrite (proj2 (Nat.eqb_neq v x)), andb_false_r by congruence. reflexivity. }
            { cbn [flat_map xrp]. intros e' v' u' a J A La Du' Dv'. rewrite app_nil_r. destruct J as [J|J]; auto. injection J as <- <-. exfalso.
              destruct (arc_fun A Av) as [-> _]. rewrite (dist_fun Du' Du) in Dv'. tauto. }
      - destruct TK as [Dv Ex]. destruct (dlt T Hs HV Dv) as [Lv _]. rewrite (@vget_nth _ (x_pc st) v 0) by lia. cbn [bind].
        set (y := nth v (x_pc st) 0).
        eexists. exists st. split; [reflexivity|]. cbn [opt_list].
        assert (Z : forall t', (t' = XArg u e v y r /\ vr = V3) \/ (t' = XAdd u e v y x r /\ vr <> V3) ->
            xinv (l1 ++ [t'] ++ l2) st /\ mes (l1 ++ [t'] ++ l2) st < mes (l1 ++ XGet u e v x r :: l2) st).
        { intros t' [[-> Ev3]|[-> Ev3]].
          - split; [apply (@rep l1 l2 _ st I [XArg u e v y r]); auto|apply (@mes_same l1 l2 _ st [XArg u e v y r]); auto; cbn; unfold stale; rewrite ?Ev3; fold y; rewrite ?Nat.eqb_refl; lia].
            + intros t' [<-|[]]. split; auto.
            + apply (@keep_v l1 l2 _ st I [XArg u e v y r]); auto. cbn. rewrite app_nil_r. auto.
            + apply (@keep_c l1 l2 _ st I [XArg u e v y r]); auto. intros z _. cbn [flat_map]. rewrite app_nil_r. reflexivity.
            + apply (@keep_r l1 l2 _ st I [XArg u e v y r]); auto. { intros z w _. cbn [flat_map]. rewrite app_nil_r. reflexivity. } { cbn. intros. rewrite app_nil_r. auto. }
          - split; [apply (@rep l1 l2 _ st I [XAdd u e v y x r]); auto|apply (@mes_same l1 l2 _ st [XAdd u e v y x r]); auto; cbn; unfold stale; destruct vr; try congruence; lia].
            + intros t' [<-|[]]. split; auto; split; auto; cbn; auto.
            + apply (@keep_v l1 l2 _ st I [XAdd u e v y x r]); auto. cbn. rewrite app_nil_r. auto.
            + apply (@keep_c l1 l2 _ st I [XAdd u e v y x r]); auto. intros z _. cbn [flat_map]. rewrite app_nil_r. reflexivity.
            + apply (@keep_r l1 l2 _ st I [XAdd u e v y x r]); auto. { intros z w _. cbn [flat_map]. rewrite app_nil_r. reflexivity. } { cbn. intros. rewrite app_nil_r. auto. } }
        apply Z. destruct vr; [right|left|right]; (split; [reflexivity|congruence]).
      - destruct (dlt T Hs HV TK) as [Lv _]. rewrite (@vget_nth _ (x_pc st) u 0) by lia. cbn [bind]. rewrite (c_1 (xi_c I) Du) by lia.
        eexists. exists st. split; [reflexivity|]. cbn [opt_list].
        assert (Z : forall t', (t' = XGet u e v (sg u) r /\ vr = V2) \/ (t' = XAdd u e v y (sg u) r /\ vr <> V2) ->
            xinv (l1 ++ [t'] ++ l2) st /\ mes (l1 ++ [t'] ++ l2) st < mes (l1 ++ XArg u e v y r :: l2) st).
        { intros t' [[-> Ev3]|[-> Ev3]].
          - split; [apply (@rep l1 l2 _ st I [XGet u e v (sg u) r]); auto|apply (@mes_same l1 l2 _ st [XGet u e v (sg u) r]); auto; cbn; rewrite ?Ev3; lia].
            + intros t' [<-|[]]. split; auto; split; auto; cbn; auto.
            + apply (@keep_v l1 l2 _ st I [XGet u e v (sg u) r]); auto. cbn. rewrite app_nil_r. auto.
            + apply (@keep_c l1 l2 _ st I [XGet u e v (sg u) r]); auto. intros z _. cbn [flat_map]. rewrite app_nil_r. reflexivity.
            + apply (@keep_r l1 l2 _ st I [XGet u e v (sg u) r]); auto. { intros z w _. cbn [flat_map]. rewrite app_nil_r. reflexivity. } { cbn. intros. rewrite app_nil_r. auto. }
          - split; [apply (@rep l1 l2 _ st I [XAdd u e v y (sg u) r]); auto|apply (@mes_same l1 l2 _ st [XAdd u e v y (sg u) r]); auto; cbn; unfold stale; destruct vr; try congruence; lia].
            + intros t' [<-|[]]. split; auto; split; auto; cbn; split; auto; split; auto; congruence.
            + apply (@keep_v l1 l2 _ st I [XAdd u e v y (sg u) r]); auto. cbn. rewrite app_nil_r. auto.
            + apply (@keep_c l1 l2 _ st I [XAdd u e v y (sg u) r]); auto. intros z _. cbn [flat_map]. rewrite app_nil_r. reflexivity.
            + apply (@keep_r l1 l2 _ st I [XAdd u e v y (sg u) r]); auto. { intros z w _. cbn [flat_map]. rewrite app_nil_r. reflexivity. } { cbn. intros. rewrite app_nil_r. auto. } }
        apply Z. destruct vr; [left|right|right]; (split; [reflexivity|congruence]).
      - destruct TK as (Dv & -> & Ey). destruct (dlt T Hs HV Dv) as [Lv _]. rewrite (@vget_nth _ (x_pc st) v 0) by lia. cbn [bind].
        set (st' := {| x_lv := x_lv st; x_pc := upd (x_pc st) v ((nth v (x_pc st) 0 + sg u) mod M); x_sc := x_sc st; x_P := x_P st; x_q2 := x_q2 st |}).
        assert (Z : xinv (l1 ++ [XRec u e v r] ++ l2) st' /\ mes (l1 ++ [XRec u e v r] ++ l2) st' < mes (l1 ++ XAdd u e v y (sg u) r :: l2) st).
        { split; [apply (@rep l1 l2 _ st I [XRec u e v r]); auto|apply (@mes_add l1 l2 _ st I); cbn; unfold stale; destruct vr; lia].
          - intros t' [<-|[]]. split; auto.
          - intros t' J (B1 & B2 & B3). split; auto. split; auto. destruct t'; auto. destruct B3 as (B3 & B4 & B5). split; auto. split; auto. intros E2. rewrite (B5 E2).
            subst st'. cbn [x_pc]. rewrite nth_upd_neq; auto. intros ->. exact (NC E2 _ J eq_refl).
          - apply (@keep_v l1 l2 _ st I [XRec u e v r]); auto. cbn. rewrite app_nil_r. auto.
          - subst st'. cbn [x_pc]. eapply PC_add; try eassumption; [exact (xi_c I)|]. intros x Dx. rewrite !flat_map_app. cbn [flat_map]. rewrite app_nil_r, !wgt_app. change (cq (XAdd u e v y (sg u) r)) with (ends u ((e, v) :: r)). change (cq (XRec u e v r)) with (ends u r).
            rewrite ends_cons, wgt_cons, (Nat.eqb_sym v x). lia.
          - apply (@keep_r l1 l2 _ st I [XRec u e v r]); auto. { intros z w _. cbn [flat_map]. rewrite app_nil_r. reflexivity. } { cbn. intros. rewrite app_nil_r. auto. } }
        remember vr as vr' eqn:Evr. destruct vr'.
        + rewrite vset_lt by lia. cbn [bind]. exists (Some (XRec u e v r)), st'. split; [|exact Z]. rewrite (Ey eq_refl). reflexivity.
        + destruct (Nat.eqb_spec (nth v (x_pc st) 0) y) as [<-|Ny].
          * rewrite vset_lt by lia. cbn [bind]. eexists. exists st'. split; [reflexivity|]. exact Z.
          * set (c := nth v (x_pc st) 0) in *. eexists. exists st. split; [reflexivity|]. cbn [opt_list].
            split; [apply (@rep l1 l2 _ st I [XArg u e v c r]); auto|apply (@mes_same l1 l2 _ st [XArg u e v c r]); auto; cbn; unfold stale; rewrite <- ?Evr; fold c; rewrite ?Nat.eqb_refl; try lia].
            -- intros t' [<-|[]]. split; auto.
            -- apply (@keep_v l1 l2 _ st I [XArg u e v c r]); auto. cbn. rewrite app_nil_r. auto.
            -- apply (@keep_c l1 l2 _ st I [XArg u e v c r]); auto. intros z _. cbn [flat_map]. rewrite app_nil_r. reflexivity.
            -- apply (@keep_r l1 l2 _ st I [XArg u e v c r]); auto. { intros z w _. cbn [flat_map]. rewrite app_nil_r. reflexivity. } { cbn. intros. rewrite app_nil_r. auto. }
            -- rewrite (proj2 (Nat.eqb_neq c y)) by auto. lia.
        + rewrite vset_lt by lia. cbn [bind]. eexists. exists st'. split; [reflexivity|]. exact Z.
      - destruct (dlt T Hs HV TK) as [Lv _]. assert (Av : arc g e u v) by (apply Ar; now left).
        assert (Z : forall st', x_lv st' = x_lv st -> x_pc st' = x_pc st -> x_q2 st' = x_q2 st -> rec_ok (l1 ++ [XLoad u r] ++ l2) st' ->
            xinv (l1 ++ [XLoad u r] ++ l2) st' /\ mes (l1 ++ [XLoad u r] ++ l2) st' < mes (l1 ++ XRec u e v r :: l2) st).
        { intros st' E1 E2 E3 R. split; [apply (@rep l1 l2 _ st I [XLoad u r]); rewrite ?E1, ?E2, ?E3; auto|apply (@mes_same l1 l2 _ st [XLoad u r]); auto; cbn; lia].
          - intros t' [<-|[]]. split; auto. split; [|exact Logic.I]. cbn [xrp]. intros z Z. apply Ar. now right.
          - intros t' _. now apply same_tk.
          - apply (@keep_v l1 l2 _ st I [XLoad u r]); auto. cbn. rewrite app_nil_r. auto.
          - apply (@keep_c l1 l2 _ st I [XLoad u r]); auto. intros z _. cbn [flat_map]. rewrite app_nil_r. reflexivity. }
        assert (RR := xi_r I). unfold rec_ok in RR, Z.
        assert (ZS : forall sc, SC k (flat_map xrp (l1 ++ XRec u e v r :: l2)) sc -> SC k (flat_map xrp (l1 ++ [XLoad u r] ++ l2)) (upd sc e true)).
        { intros sc [S1 S2 S3]. assert (Le := arc_lt Av). constructor.
          - now rewrite upd_length.
          - intros e' u' v' A. rewrite nth_upd by lia. destruct (Nat.eqb_spec e' e) as [->|]; eauto. intros _. destruct (arc_fun A Av) as [-> ->]. exists k. auto.
          - intros e' u' v' a A La Du' Dv'. rewrite nth_upd by lia. destruct (Nat.eqb_spec e' e) as [->|Ne]; auto.
            destruct (S3 e' u' v' a A La Du' Dv') as [|J]; auto. right. rewrite !flat_map_app, !in_app_iff in *. cbn [flat_map xrp] in *. rewrite app_nil_r.
            cbn [app In] in J. rewrite in_app_iff in J. destruct J as [|[J|[|]]]; auto. congruence. }
        destruct vr.
        + rewrite (@vget_nth _ (x_P st) v []) by (rewrite (r_len RR); auto). cbn [bind]. rewrite vset_lt by (rewrite (r_len RR); auto). cbn [bind].
          eexists. eexists. split; [reflexivity|]. apply Z; auto. cbn [x_P]. eapply PR_add; try eassumption. intros y x Dx.
          rewrite !flat_map_app. cbn [flat_map]. rewrite app_nil_r, !pab_app. change (rq (XRec u e v r)) with (ends u ((e, v) :: r)). change (rq (XLoad u r)) with (ends u r). rewrite ends_cons, pab_cons. lia.
        + rewrite vset_lt by (rewrite (sc_len RR); now apply arc_lt in Av). cbn [bind]. eexists. eexists. split; [reflexivity|]. apply Z; auto. cbn [x_sc]. auto.
        + rewrite vset_lt by (rewrite (sc_len RR); now apply arc_lt in Av). cbn [bind]. eexists. eexists. split; [reflexivity|]. apply Z; auto. cbn [x_sc]. auto.
    Qed.
  End L.

  (** ** A level *)
  Lemma tasks_flat (B : Type) (f : xtask -> list B) (h : nat -> nat * nat -> B) cur : (forall u r, f (XLoad u r) = map (h u) r) ->
    flat_map f (xb_tasks vr g cur) = flat_map (fun u => map (h u) (arcs_of g u)) cur.
  Proof.
    intros H. assert (Z : forall u l, flat_map f (map (fun a => XLoad u [a]) l) = map (h u) l).
    { intros u l. induction l as [|a l IH]; auto. cbn [map flat_map]. now rewrite IH, H. }
    unfold xb_tasks. destruct vr; induction cur as [|u cur IH]; auto; cbn [flat_map map]; rewrite ?flat_map_app, ?Z, ?H, IH; reflexivity.
  Qed.
  Lemma tasks_in cur t : In t (xb_tasks vr g cur) -> exists u r, t = XLoad u r /\ In u cur /\ incl r (arcs_of g u).
  Proof.
    unfold xb_tasks. destruct vr; intros I; [apply in_flat_map in I; destruct I as (u & U & I)| |];
      apply in_map_iff in I; destruct I as (a & <- & I).
    - exists u, [a]. split; auto. split; auto. intros z [<-|[]]. auto.
    - exists a, (arcs_of g a). split; auto. split; auto. apply incl_refl.
    - exists a, (arcs_of g a). split; auto. split; auto. apply incl_refl.
  Qed.
  Lemma arcs_out cur : flat_map (fun u => map (fun p => (u, snd p)) (arcs_of g u)) cur = out_edges g cur.
  Proof.
    unfold out_edges. induction cur as [|u l IH]; auto. cbn [flat_map]. rewrite IH. f_equal. rewrite <- (map_map snd (fun v => (u, v))). now rewrite arcs_snd.
  Qed.
  Definition recb (k : nat) (st : xs) : Prop := match vr with V2 => PRb g s k (x_P st) | _ => SCb k (x_sc st) end.
  Definition good (sched : nat -> nat) : Prop := vr = V2 -> (forall t, sg t <= 1) \/ (forall i, sched i = 0).
  Lemma no_clash k T0 l1 t l2 st : (forall t, sg t <= 1) -> xinv k T0 (l1 ++ t :: l2) st -> forall t', In t' (l1 ++ l2) -> ~ clash t t'.
  Proof.
    intros U I t' J C. destruct t as [| | | | | |u e v y x r|]; try (exact C). destruct t' as [| | | | | |u' e' v' y' x' r'|]; try (exact C). cbn in C. subst v'.
    destruct (xi_tk I _ (It l1 l2 _)) as (Du & _ & Dv & _). cbn [xu] in Du.
    assert (J' : In (XAdd u' e' v y' x' r') (l1 ++ XAdd u e v y x r :: l2)) by (rewrite in_app_iff in *; cbn [In]; tauto).
    destruct (xi_tk I _ J') as (Du' & _). cbn [xu] in Du'. assert (X := c_2 (xi_c I) Dv).
    assert (P1 : 0 < sg u) by (apply (sg_pos T Hs); exists k; apply Du). assert (P2 : 0 < sg u') by (apply (sg_pos T Hs); exists k; apply Du').
    assert (Q : forall l, In (XAdd u' e' v y' x' r') l -> sg u' <= wgt sg v (flat_map cq l)).
    { clear. induction l as [|t l IH]; [intros []|]. intros [->|I]; cbn [flat_map]; rewrite wgt_app.
      - change (cq (XAdd u' e' v y' x' r')) with (ends u' ((e', v) :: r')). rewrite ends_cons, wgt_cons, Nat.eqb_refl. lia.
      - apply IH in I. lia. }
    rewrite flat_map_app, wgt_app in X. cbn [flat_map] in X. rewrite wgt_app in X. change (cq (XAdd u e v y x r)) with (ends u ((e, v) :: r)) in X.
    rewrite ends_cons, wgt_cons, Nat.eqb_refl in X. assert (Uv := U v). apply in_app_or in J. destruct J as [J|J]; apply Q in J; lia.
  Qed.
  Lemma xlevel sched k q1 st : good sched -> lev g s k (concat q1) -> LVb g s vmax k (x_lv st) -> PCb g s k (x_pc st) -> recb k st ->
    length (x_q2 st) = nb -> concat (x_q2 st) = [] ->
    exists st', run (xb_step vr vmax M (S k)) (xb_fuel (sum (map task_arcs (xb_tasks vr g (concat q1)))) (length (xb_tasks vr g (concat q1)))) sched 0 (xb_tasks vr g (concat q1)) st = Ok st' /\
      LVb g s vmax (S k) (x_lv st') /\ PCb g s (S k) (x_pc st') /\ recb (S k) st' /\ length (x_q2 st') = nb /\ lev g s (S k) (concat (x_q2 st')).
  Proof.
    intros G HL B1 B2 B3 Lq Eq. set (cur := concat q1) in *. set (ts := xb_tasks vr g cur).
    assert (I : xinv k (length ts) ts st).
    { assert (C1 : flat_map cq ts = out_edges g cur) by (rewrite <- arcs_out; apply tasks_flat; reflexivity).
      assert (C2 : flat_map rq ts = out_edges g cur) by (rewrite <- arcs_out; apply tasks_flat; reflexivity).
      assert (C3 : flat_map xcov ts = map snd (out_edges g cur)).
      { rewrite <- arcs_out. unfold ts. rewrite (@tasks_flat _ xcov (fun _ p => snd p)) by reflexivity. clear. induction cur as [|u l IH]; auto. cbn [flat_map]. rewrite map_app, IH. f_equal.
        rewrite map_map. reflexivity. }
      assert (C4 : flat_map xpush ts = []).
      { assert (Z : forall l, (forall t, In t l -> exists u r, t = XLoad u r) -> flat_map xpush l = []).
        { induction l as [|t l IH]; intros H; auto. cbn [flat_map]. destruct (H t (or_introl eq_refl)) as (u & r & ->). apply IH. intros t' X. apply H. now right. }
        apply Z. intros t J. destruct (tasks_in _ _ J) as (u & r & -> & _). eauto. }
      constructor; auto.
      - intros t J. destruct (tasks_in _ _ J) as (u & r & -> & Iu & Ir). split; [now apply HL|]. split; auto.
      - rewrite Eq, C4, C3. apply LV_start; auto. intros x Dx. exact (@in_out_snd g s cur k x HL Dx).
      - rewrite C1. now apply (PC_start (vmax := vmax)).
      - unfold rec_ok, recb in *. assert (ZS : SCb k (x_sc st) -> SC k (flat_map xrp ts) (x_sc st)).
        { intros [S1 S2 S3]. constructor; auto.
          - intros e u v A X. destruct (S2 e u v A X) as (a & La & Q). exists a. split; auto. lia.
          - intros e u v a A La Du Dv. destruct (Nat.eq_dec a k) as [->|]; [|left; apply (S3 e u v a); auto; lia]. right.
            unfold ts. rewrite (@tasks_flat _ xrp (fun _ p => p)) by (intros; now rewrite map_id). apply in_flat_map. exists u. split; [now apply HL|]. rewrite map_id. exact A. }
        destruct vr; auto. rewrite C2. now apply (PR_start (vmax := vmax)). }
    assert (MS : mes (length ts) ts st <= xb_fuel (sum (map task_arcs ts)) (length ts)).
    { unfold mes, xb_fuel. assert (Z : forall l, (forall t, In t l -> exists u r, t = XLoad u r) ->
        sum (map (loc (x_pc st)) l) = 8 * sum (map task_arcs l) + length l /\ sum (map (fun t => length (xcp t)) l) = sum (map task_arcs l)).
      { induction l as [|t l IH]; intros H; auto. destruct IH as [A B]; [intros t' X; apply H; now right|]. destruct (H t (or_introl eq_refl)) as (u & r & ->).
        cbn [map sum length loc xcp task_arcs]. lia. }
      destruct (Z ts) as [A B]; [|lia]. intros t J. destruct (tasks_in _ _ J) as (u & r & -> & _). eauto. }
    assert (R : exists st', run (xb_step vr vmax M (S k)) (xb_fuel (sum (map task_arcs ts)) (length ts)) sched 0 ts st = Ok st' /\ xinv k (length ts) [] st').
    { assert (AG : (vr = V2 -> forall t, sg t <= 1) \/ (forall i, sched i = 0)).
      { assert (DV : vr = V2 \/ vr <> V2) by (destruct vr; [left; auto|right; discriminate|right; discriminate]). destruct DV as [Ev|Ev]; [|left; congruence]. destruct (G Ev); auto. }
      destruct AG as [U|Z].
      - apply (@run_inv_m _ _ (xb_step vr vmax M (S k)) (mes (length ts)) (xinv k (length ts))); auto. intros l1 t l2 s0 J. apply xstep_ok; auto.
        intros E2. exact (@no_clash k (length ts) l1 t l2 s0 (U E2) J).
      - destruct (@run_head_m _ _ (xb_step vr vmax M (S k)) (mes (length ts)) (fun l s0 => xinv k (length ts) l s0 /\ forall t, In t (tl l) -> exists u r, t = XLoad u r)) with (sched := sched) (fuel := xb_fuel (sum (map task_arcs ts)) (length ts)) (now := 0) (ts := ts) (s := st)
          as (st' & E' & X & _); eauto.
        + intros t l2 s0 [J K]. cbn [tl] in K. destruct (@xstep_ok k (length ts) [] t l2 s0 J) as (o & s' & E' & J' & L').
          { intros _ t' I' C. destruct (K t' I') as (u & r & ->). destruct t; exact C. }
          exists o, s'. split; auto. split; [split|]; auto. intros t' I'. apply K. destruct o as [t0|]; cbn [opt_list app tl] in I'; auto. destruct l2; [destruct I'|now right].
        + split; auto. intros t J. assert (J' : In t ts) by (destruct ts; [destruct J|now right]). destruct (tasks_in _ _ J') as (u & r & -> & _). eauto. }
    destruct R as (st' & E' & X). exists st'. split; [exact E'|]. destruct X as [X1 X2 X3 X4 X5 X6]. cbn [flat_map] in *. rewrite app_nil_r in X4.
    destruct (@LV_end g s vmax Hs HV k _ _ X4) as [Y1 Y2]. split; auto. split; [exact (@PC_end g s vmax Hs HV k _ _ X5 (fun _ => eq_refl))|]. split; auto. unfold recb, rec_ok in *.
    assert (ZS : SC k [] (x_sc st') -> SCb (S k) (x_sc st')).
    { intros [S1 S2 S3]. constructor; auto.
      - intros e u v A W. destruct (S2 e u v A W) as (a & La & Q). exists a. split; auto. lia.
      - intros e u v a A La Du Dv. destruct (S3 e u v a A) as [|[]]; auto. lia. }
    destruct vr; auto. exact (@PR_end g s vmax Hs HV k _ _ X6 (fun _ _ => eq_refl)).
  Qed.
  (** ** The loop over the levels *)
  Lemma xloop sched : (forall l, l <= n -> good (sched l)) -> forall fuel k q1 st ret, n < fuel + k -> lev g s k (concat q1) -> length q1 = nb -> concat q1 <> [] ->
    LVb g s vmax k (x_lv st) -> PCb g s k (x_pc st) -> recb k st -> length (x_q2 st) = nb -> concat (x_q2 st) = [] -> levels_ok g s k ret ->
    exists st' ret' k', xb_loop fuel vr vmax M g sched (S k) q1 st ret = Ok (st', ret') /\ PCb g s (S k') (x_pc st') /\ recb (S k') st' /\ levels_ok g s (S k') ret' /\ all_below g s (S k').
  Proof.
    intros G. induction fuel as [|fuel IH]; intros k q1 st ret Lf HL Lq NE B1 B2 B3 L2 E2 HR.
    - exfalso. destruct (concat q1) as [|x c] eqn:Ec; [congruence|]. assert (D : dist x k) by (apply HL; now left). assert (X := dist_lt_n T Hs D). lia.
    - assert (Lk : S k <= n) by (destruct (concat q1) as [|x c] eqn:Ec; [congruence|]; assert (D : dist x k) by (apply HL; now left); exact (dist_lt_n T Hs D)).
      cbn [xb_loop]. destruct (@xlevel (sched (S k)) k q1 st (G _ Lk) HL B1 B2 B3 L2 E2) as (st' & -> & C1 & C2 & C3 & L2' & HL'). cbn [bind].
      assert (HR' : levels_ok g s (S k) (q1 :: ret)) by (exists k; auto).
      destruct (concat (x_q2 st')) as [|x c] eqn:Ec.
      + exists st', (q1 :: ret), k. split; auto. split; auto. split; auto. split; auto. exact (last_level HL').
      + apply IH with (k := S k); cbn [x_lv x_pc x_q2]; auto.
        * lia.
        * now rewrite Ec.
        * rewrite Ec. discriminate.
        * rewrite repeat_length. auto.
        * apply concat_repeat_nil.
  Qed.
  Lemma xforward sched : (forall l, l <= n -> good (sched l)) ->
    exists st ret k, xb_forward vr vmax M nb g sched s = Ok (st, ret) /\ PCb g s (S k) (x_pc st) /\ recb (S k) st /\ levels_ok g s (S k) ret /\ all_below g s (S k).
  Proof.
    intros G. unfold xb_forward. rewrite vset_lt by (rewrite repeat_length; auto). cbn [bind].
    destruct (@bin_push_perm (repeat [] nb) 0 s) as (q & Eq & Lq & Pq); [now rewrite repeat_length|]. rewrite Eq. cbn [bind].
    rewrite vset_lt by (rewrite repeat_length; auto). cbn [bind]. rewrite repeat_length in Lq. rewrite concat_repeat_nil in Pq.
    apply xloop; cbn [x_lv x_pc x_q2]; auto.
    - lia.
    - split.
      + apply (Permutation_NoDup (Permutation_sym Pq)). repeat constructor; auto.
      + intros x. rewrite (d0 g). split.
        * intros I. apply (Permutation_in _ Pq) in I. destruct I as [|[]]; auto.
        * intros ->. apply (Permutation_in _ (Permutation_sym Pq)). now left.
    - intros X. rewrite X in Pq. now apply Permutation_nil_cons in Pq.
    - now apply LVb_init.
    - now apply (PCb_init (vmax := vmax)).
    - unfold recb. assert (ZS : SCb 0 (repeat false E)).
      { constructor; [apply repeat_length| |intros; lia]. intros e u v _. rewrite nth_repeat. discriminate. }
      destruct vr; cbn [x_P x_sc]; auto. now apply (PRb_init (vmax := vmax)).
    - apply repeat_length.
    - apply concat_repeat_nil.
    - reflexivity.
  Qed.
End P.
