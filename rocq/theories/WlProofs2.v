(** Proofs about approx_betweenness_worklist_serial: the way back. *)
From Coq Require Import List Arith ZArith Qcanon Field Lia Bool Sorted Permutation.
From Verif Require Import Base GraphLib FifoLib SumLib QcLib BcLib BcModel WlModel WlProofs.
Import ListNotations.
Set Implicit Arguments.
Local Open Scope nat_scope.

Lemma filter_drop (p : nat -> bool) l v : NoDup l -> In v l -> p v = true ->
  length (filter p l) = S (length (filter (fun w => p w && negb (w =? v)) l)).
Proof.
  intros ND I P. induction ND as [|x l N ND IH]; [destruct I|]. cbn [filter]. destruct (Nat.eqb_spec x v) as [->|Ne].
  - rewrite P. cbn [andb negb length]. do 2 f_equal. apply filter_ext_in. intros w W. replace (w =? v) with false; [now rewrite andb_true_r|].
    symmetry. apply Nat.eqb_neq. congruence.
  - destruct I as [->|I]; [congruence|]. cbn [negb]. rewrite andb_true_r. destruct (p x); cbn [length]; now rewrite IH.
Qed.
Lemma qsum_grow (p : nat -> bool) (f : nat -> Qc) l v : NoDup l -> In v l -> p v = false ->
  qsum (map (fun w => if p w || (w =? v) then f w else 0%Qc) l) = (qsum (map (fun w => if p w then f w else 0%Qc) l) + f v)%Qc.
Proof.
  intros ND I P. rewrite <- (@qsum_one f l v ND I), <- qsum_add. apply qsum_ext. intros w W. destruct (Nat.eqb_spec w v) as [->|Ne].
  - rewrite P. cbn [orb]. ring.
  - rewrite orb_false_r. ring.
Qed.

Section B.
  Variables (g : list (list nat)) (s vmax M : nat) (ord : nat -> list nat -> list nat).
  Hypothesis (T : targets_ok g) (Hs : s < length g) (HM : forall t, sg (simple g) s t < M) (HV : length g <= vmax)
    (HO : forall v l, Permutation (ord v l) l).
  Notation n := (length g).
  Notation row v := (nth v g []).
  Notation sg := (sg (simple g) s).
  Notation nxt := (nxt (simple g) s).
  Notation dep := (dep (simple g) s).
  Notation nd0 := (node0 vmax).
  Variable vs : list node.
  Hypothesis W : wfwd g s vmax vs.
  Notation nd x := (nth x vs (node0 vmax)).
  Notation succs x := (n_succs (nd x)).
  Notation preds x := (n_preds (nd x)).
  Definition share (u w : nat) : Qc := (qn (sg u) / qn (sg w) * (1 + dep w))%Qc.

  Lemma succs_lt u w : u < n -> In w (succs u) -> w < n.
  Proof. intros L I. apply (wf_s W) in I; auto. eapply T. apply I. Qed.
  Lemma succs_preds u w : u < n -> w < n -> In w (succs u) <-> In u (preds w).
  Proof. intros L L'. rewrite (wf_s W), (wf_p W) by auto. reflexivity. Qed.
  Lemma preds_lt u w : w < n -> In u (preds w) -> u < n.
  Proof. intros L I. apply (wf_p W) in I; auto. destruct I as [_ I]. now apply edge_lt in I. Qed.
  Lemma dep_succs x : x < n -> dep x = qsum (map (share x) (succs x)).
  Proof.
    intros Lx. assert (T' := simple_targets T). assert (S' := @Hs' g s Hs). destruct (distf (simple g) s x) as [d|] eqn:E.
    - apply (distf_Some _ T' S') in E. assert (R : reachable (simple g) s x) by (exists d; apply E). rewrite (dep_rec T' S' R).
      transitivity (qsum (map (share x) (filter (nxt x) (nth x (simple g) [])))).
      + rewrite qsum_filter. reflexivity.
      + apply qsum_perm. apply Permutation_map. apply NoDup_Permutation.
        * apply NoDup_filter. rewrite simple_row. apply NoDup_nodup.
        * apply (wf_sd W).
        * intros w. rewrite filter_In, (wf_s W) by auto. change (In w (nth x (simple g) [])) with (edge (simple g) x w). rewrite simple_edge. tauto.
    - apply (distf_None _ T' S') in E. rewrite dep_unreach by auto. destruct (succs x) as [|w l] eqn:Es; auto. exfalso.
      assert (I : In w (succs x)) by (rewrite Es; now left). apply (wf_s W) in I; auto. destruct I as [I _]. apply nxt_reach in I; auto. now destruct I.
  Qed.

  Record binv (done : nat -> nat -> bool) (L : list nat) (delta : list Qc) (ct : list nat) : Prop := {
    b_ld : length delta = n;
    b_lc : length ct = n;
    b_ct : forall u, u < n -> nth u ct 0 = length (filter (fun w => negb (done u w)) (succs u));
    b_de : forall u, u < n -> nth u delta 0%Qc = qsum (map (fun w => if done u w then share u w else 0%Qc) (succs u));
    b_nd : NoDup L;
    b_L : forall x, In x L <-> x < n /\ (x <> s \/ succs s = []) /\ forall w, In w (succs x) -> done x w = true }.
  Lemma binv_ext d1 d2 L delta ct : (forall u w, u < n -> In w (succs u) -> d1 u w = d2 u w) -> binv d1 L delta ct -> binv d2 L delta ct.
  Proof.
    intros E [A1 A2 A3 A4 A5 A6]. constructor; auto.
    - intros u Lu. rewrite A3 by auto. f_equal. apply filter_ext_in. intros w I. now rewrite E.
    - intros u Lu. rewrite A4 by auto. apply qsum_ext. intros w I. now rewrite E.
    - intros x. rewrite A6. split; intros (B1 & B2 & B3); split; auto; split; auto; intros w I; specialize (B3 w I); [rewrite <- E|rewrite E]; auto.
  Qed.
  Lemma done_dep d L delta ct x : binv d L delta ct -> In x L -> nth x delta 0%Qc = dep x.
  Proof.
    intros B I. apply (b_L B) in I. destruct I as (Lx & _ & D). rewrite (b_de B) by auto. rewrite dep_succs by auto. apply qsum_ext.
    intros w Iw. now rewrite D.
  Qed.
  Lemma pull_ok d X v Wl delta ct u : binv d (X ++ v :: Wl) delta ct -> v < n -> In u (preds v) -> d u v = false ->
    exists delta' ct' Wl', wl_pull s v vs (nd v) {| w_delta := delta; w_ct := ct; w_W := Wl |} u = Ok {| w_delta := delta'; w_ct := ct'; w_W := Wl' |} /\
      binv (fun x w => d x w || ((x =? u) && (w =? v))) (X ++ v :: Wl') delta' ct'.
  Proof.
    intros B Lv Iu Df. assert (Lu := @preds_lt u v Lv Iu). assert (Iv : In v (succs u)) by (apply succs_preds; auto).
    assert (Nx : nxt u v = true /\ edge g u v) by (apply (wf_s W); auto). destruct Nx as [Nx Ed].
    assert (T' := simple_targets T). assert (S' := @Hs' g s Hs). assert (NR := nxt_reach T' S' _ _ Nx). destruct NR as [Ru Rv].
    assert (Dv : nth v delta 0%Qc = dep v) by (eapply done_dep; eauto; apply in_or_app; right; now left).
    unfold wl_pull. cbn [w_delta w_ct w_W]. assert (Ll := b_ld B). assert (Lc := b_lc B). assert (Lvs := wf_len W).
    rewrite (@vget_nth _ delta u 0%Qc), (@vget_nth _ delta v 0%Qc), (@vget_nth _ vs u nd0) by lia. cbn [bind].
    unfold qdiv. rewrite !(wf_pc W) by (now apply simple_reach). assert (SP := sg_pos T' S' Rv).
    replace (sg v =? 0) with false by (symmetry; apply Nat.eqb_neq; lia). cbn [bind]. rewrite vset_lt by lia. cbn [bind].
    rewrite (@vget_nth _ ct u 0) by lia. cbn [bind].
    assert (Ec := b_ct B Lu). rewrite (@filter_drop _ _ v (wf_sd W u) Iv) in Ec by (now rewrite Df). rewrite Ec. rewrite vset_lt by lia. cbn [bind].
    set (c := length (filter _ _)) in *. eexists. eexists. eexists. split; [reflexivity|].
    set (d' := fun x w => d x w || ((x =? u) && (w =? v))).
    assert (Ecd : length (filter (fun w => negb (d' u w)) (succs u)) = c).
    { unfold c, d'. f_equal. apply filter_ext. intros w. rewrite Nat.eqb_refl. cbn [andb]. now rewrite negb_orb. }
    assert (Eo : forall x w, x <> u -> d' x w = d x w).
    { intros x w N. unfold d'. replace (x =? u) with false by (symmetry; now apply Nat.eqb_neq). cbn [andb]. apply orb_false_r. }
    assert (Nu : ~ In u (X ++ v :: Wl)).
    { intros I. apply (b_L B) in I. destruct I as (_ & _ & I). rewrite I in Df by auto. discriminate. }
    assert (Full : c = 0 <-> forall w, In w (succs u) -> d' u w = true).
    { rewrite <- Ecd. split.
      - intros E w I. destruct (d' u w) eqn:Ed'; auto. exfalso. apply length_zero_iff_nil in E.
        assert (Y : In w (filter (fun w => negb (d' u w)) (succs u))) by (apply filter_In; split; auto; now rewrite Ed'). now rewrite E in Y.
      - intros H. rewrite filter_none; auto. intros w I. now rewrite H. }
    assert (Inc : In u (X ++ v :: (if (c =? 0) && negb (u =? s) then Wl ++ [u] else Wl)) <-> u < n /\ (u <> s \/ succs s = []) /\ forall w, In w (succs u) -> d' u w = true).
    { rewrite <- Full. destruct (Nat.eqb_spec c 0) as [E|E]; cbn [andb].
      - destruct (Nat.eqb_spec u s) as [Eus|Nus]; cbn [negb].
        + split; [intros I; now destruct Nu|]. intros (_ & [Y|Y] & _); [congruence|]. subst u. rewrite Y in Iv. destruct Iv.
        + split; [auto|]. intros _. apply in_or_app. right. right. apply in_or_app. right. now left.
      - split; [intros I; now destruct Nu|]. intros (_ & _ & Y). congruence. }
    constructor.
    - now rewrite upd_length.
    - now rewrite upd_length.
    - intros x Lx. destruct (Nat.eq_dec x u) as [->|N].
      + rewrite nth_upd_eq by lia. auto.
      + rewrite nth_upd_neq by auto. rewrite (b_ct B Lx). f_equal. apply filter_ext. intros w. now rewrite Eo.
    - intros x Lx. destruct (Nat.eq_dec x u) as [->|N].
      + rewrite nth_upd_eq by lia. rewrite (b_de B Lu), Dv. unfold d'. rewrite Nat.eqb_refl. cbn [andb].
        rewrite (@qsum_grow (d u) (share u) _ v (wf_sd W u) Iv Df). reflexivity.
      + rewrite nth_upd_neq by auto. rewrite (b_de B Lx). apply qsum_ext. intros w _. now rewrite Eo.
    - destruct ((c =? 0) && negb (u =? s)); [|apply (b_nd B)]. replace (X ++ v :: Wl ++ [u]) with ((X ++ v :: Wl) ++ [u]) by (now rewrite <- app_assoc).
      apply NoDup_snoc; auto. apply (b_nd B).
    - intros x. destruct (Nat.eq_dec x u) as [->|N]; [exact Inc|].
      transitivity (In x (X ++ v :: Wl)).
      + destruct ((c =? 0) && negb (u =? s)); [|reflexivity]. rewrite !in_app_iff. cbn [In]. rewrite in_app_iff. cbn [In]. intuition congruence.
      + rewrite (b_L B). split; intros (A1 & A2 & A3); split; auto; split; auto; intros w I; specialize (A3 w I); [now rewrite Eo|now rewrite <- Eo].
  Qed.
  Lemma pulls_ok X v : v < n -> ~ In v X -> forall P Pd Wl delta ct, NoDup (Pd ++ P) -> (forall u, In u P -> In u (preds v)) ->
    binv (fun x w => mem w X || ((w =? v) && mem x Pd)) (X ++ v :: Wl) delta ct ->
    exists delta' ct' Wl', rfold (wl_pull s v vs (nd v)) P {| w_delta := delta; w_ct := ct; w_W := Wl |} = Ok {| w_delta := delta'; w_ct := ct'; w_W := Wl' |} /\
      binv (fun x w => mem w X || ((w =? v) && mem x (Pd ++ P))) (X ++ v :: Wl') delta' ct'.
  Proof.
    intros Lv NX. induction P as [|u P IH]; intros Pd Wl delta ct ND HP B.
    - exists delta, ct, Wl. rewrite app_nil_r. auto.
    - destruct (@pull_ok _ X v Wl delta ct u B Lv) as (d1 & c1 & W1 & E1 & B1).
      + apply HP. now left.
      + apply mem_false in NX. rewrite NX, Nat.eqb_refl. cbn [orb andb]. apply mem_false. apply NoDup_remove_2 in ND. intros I. apply ND. apply in_or_app. auto.
      + cbn [rfold]. rewrite E1. cbn [bind]. destruct (IH (Pd ++ [u]) W1 d1 c1) as (d2 & c2 & W2 & E2 & B2).
        * now rewrite <- app_assoc.
        * intros x I. apply HP. now right.
        * eapply binv_ext; [|exact B1]. intros x w _ _. cbn beta. unfold mem at 4. rewrite existsb_app. cbn [existsb]. fold (mem x Pd). rewrite orb_false_r.
          destruct (mem w X), (w =? v), (mem x Pd), (x =? u); reflexivity.
        * exists d2, c2, W2. split; auto. now rewrite <- app_assoc in B2.
  Qed.
  Lemma back_all X delta ct : binv (fun _ w => mem w X) X delta ct -> forall x, In x X <-> x < n /\ (x <> s \/ succs s = []).
  Proof.
    intros B. assert (G : forall k x, x < n -> (x <> s \/ succs s = []) -> (forall a, dist g s x a -> n - a <= k) -> In x X).
    { induction k as [|k IH]; intros x Lx Hx Ha; apply (b_L B); split; auto; split; auto; intros w I; assert (Lw := @succs_lt x w Lx I);
        apply (wf_s W) in I; auto; destruct I as [Nx _]; apply nxt_g in Nx; auto; destruct Nx as (a & D1 & D2);
        assert (La := dist_lt_n T Hs D2); specialize (Ha _ D1); [lia|].
      apply mem_In. apply IH; auto.
      - left. intros ->. assert (Y := dist_fun D2 (proj2 (dist_0 g s s) eq_refl)). lia.
      - intros b Db. rewrite (dist_fun Db D2). lia. }
    intros x. split.
    - intros I. apply (b_L B) in I. tauto.
    - intros [L H]. apply (G n); auto. intros a _. lia.
  Qed.
  Lemma back_ok : forall fuel X Wl delta ct cent, binv (fun _ w => mem w X) (X ++ Wl) delta ct -> n < fuel + length X -> length cent = n ->
    exists cent', wl_back fuel s ord vs {| w_delta := delta; w_ct := ct; w_W := Wl |} cent = Ok cent' /\ length cent' = n /\
      forall x, x < n -> (nth x cent' 0 + (if mem x X then dep x else 0) = nth x cent 0 + (if negb (x =? s) then dep x else 0))%Qc.
  Proof.
    induction fuel as [|fuel IH]; intros X Wl delta ct cent B Lf Lc; destruct Wl as [|v Wl].
    1,3: exists cent; split; [reflexivity|]; split; auto; intros x Lx; rewrite app_nil_r in B; f_equal; assert (BA := back_all B x);
      destruct (mem x X) eqn:Mx; [apply mem_In in Mx; apply BA in Mx|apply mem_false in Mx]; (destruct (Nat.eqb_spec x s) as [->|N]; cbn [negb]; auto);
      [destruct Mx as [_ [Y|Y]]; [congruence|]; rewrite dep_succs, Y by auto; reflexivity|exfalso; apply Mx; apply BA; auto].
    - exfalso. assert (Y : length X <= length (seq 0 n)).
      { apply NoDup_incl_length; [eapply NoDup_app_l; apply (b_nd B)|]. intros x I. apply in_seq.
        assert (Z : In x (X ++ v :: Wl)) by (apply in_or_app; auto). apply (b_L B) in Z. lia. }
      rewrite seq_length in Y. lia.
    - assert (Iv : In v (X ++ v :: Wl)) by (apply in_or_app; right; now left). assert (Lv : v < n) by (apply (b_L B) in Iv; tauto).
      assert (NX : ~ In v X) by (assert (Y := b_nd B); apply NoDup_remove_2 in Y; intros I; apply Y; apply in_or_app; auto).
      cbn [wl_back w_W w_delta w_ct]. rewrite (@vget_nth _ vs v nd0) by (rewrite (wf_len W); lia). cbn [bind].
      assert (PP := HO v (preds v)).
      destruct (@pulls_ok X v Lv NX (ord v (preds v)) [] Wl delta ct) as (d1 & c1 & W1 & E1 & B1).
      { cbn [app]. eapply Permutation_NoDup; [apply Permutation_sym; eauto|]. apply (wf_pd W). }
      { intros u I. eapply Permutation_in; eauto. }
      { eapply binv_ext; [|exact B]. intros x w _ _. cbn [mem existsb]. rewrite andb_false_r. now rewrite orb_false_r. }
      rewrite E1. cbn [bind w_delta]. cbn [app] in B1. rewrite (@vget_nth _ cent v 0%Qc) by lia. cbn [bind]. assert (Ld := b_ld B1).
      rewrite (@vget_nth _ d1 v 0%Qc) by lia. cbn [bind]. rewrite vset_lt by lia. cbn [bind].
      rewrite (@done_dep _ _ _ _ v B1) by (apply in_or_app; right; now left).
      destruct (IH (X ++ [v]) W1 d1 c1 (upd cent v (nth v cent 0 + dep v)%Qc)) as (cent' & E2 & L2 & H2).
      + rewrite <- app_assoc. cbn [app]. eapply binv_ext; [|exact B1]. intros x w Lx I. cbn beta. unfold mem at 3. rewrite existsb_app. cbn [existsb]. fold (mem w X).
        rewrite orb_false_r. f_equal. destruct (Nat.eqb_spec w v) as [->|N]; auto. cbn [andb]. apply mem_In. eapply Permutation_in; [apply Permutation_sym; eauto|].
        now apply succs_preds.
      + rewrite app_length. cbn. lia.
      + now rewrite upd_length.
      + exists cent'. split; auto. split; auto. intros x Lx. specialize (H2 x Lx). unfold mem in H2. rewrite existsb_app in H2. cbn [existsb] in H2. fold (mem x X) in H2.
        rewrite orb_false_r in H2. rewrite nth_upd in H2 by lia. destruct (Nat.eq_dec x v) as [Exv|N].
        * subst x. rewrite Nat.eqb_refl in H2. apply mem_false in NX. rewrite NX. rewrite orb_true_r in H2. transitivity (nth v cent' 0 + dep v - dep v)%Qc; [ring|]. rewrite H2. ring.
        * replace (x =? v) with false in H2 by (symmetry; now apply Nat.eqb_neq). rewrite orb_false_r in H2. exact H2.
  Qed.
End B.

Lemma wl_source_ok g s vmax M ord cent : targets_ok g -> s < length g -> (forall t, sg (simple g) s t < M) -> length g <= vmax -> (forall v l, Permutation (ord v l) l) ->
  length cent = length g ->
  exists cent', wl_source g vmax M cent (s, ord) = Ok cent' /\ length cent' = length g /\
    forall x, x < length g -> nth x cent' 0%Qc = (nth x cent 0 + (if negb (x =? s)%nat then dep (simple g) s x else 0))%Qc.
Proof.
  intros T Hs HM HV HO Lc. unfold wl_source. destruct (@forward_ok g s vmax M ord T Hs HM HV HO) as (vs0 & vs & E0 & E1 & W). rewrite E0. cbn [bind].
  rewrite (@vget_nth _ g s []) by auto. cbn [bind]. rewrite E1. cbn [bind]. assert (Lv := wf_len W).
  match goal with |- exists c, wl_back _ _ _ _ {| w_delta := _; w_ct := _; w_W := ?l |} _ = _ /\ _ => set (W0 := l) end.
  destruct (@back_ok g s vmax ord T Hs HV HO vs W (S (length g)) [] W0 (repeat 0%Qc (length g)) (map (fun nd => length (n_succs nd)) vs) cent) as (c & E & L & H).
  - assert (NE : forall x, x < length g -> nth_error vs x = Some (nth x vs (node0 vmax))) by (intros x Lx; apply nth_error_nth'; lia).
    constructor; cbn [app].
    + apply repeat_length.
    + now rewrite map_length.
    + intros u Lu. rewrite (@nth_map_default _ _ (fun nd => length (n_succs nd)) vs u (node0 vmax)) by lia. rewrite filter_all; auto.
    + intros u Lu. rewrite nth_repeat. symmetry. apply qsum_0. auto.
    + apply NoDup_filter. apply seq_NoDup.
    + intros x. unfold W0. rewrite filter_In, in_seq. cbn [mem existsb]. split.
      * intros [Lx Y]. assert (Lx' : x < length g) by lia. rewrite NE in Y by auto. destruct (n_succs (nth x vs (node0 vmax))) as [|w l] eqn:Es; [|discriminate]. split; auto. split.
        -- destruct (Nat.eq_dec x s) as [->|]; auto.
        -- intros w [].
      * intros (Lx & _ & Y). split; [lia|]. rewrite NE by auto. destruct (n_succs (nth x vs (node0 vmax))) as [|w l] eqn:Es; auto. specialize (Y w (or_introl eq_refl)). discriminate.
  - cbn. lia.
  - auto.
  - exists c. split; auto. split; auto. intros x Lx. rewrite <- H by auto. cbn [mem existsb]. ring.
Qed.
Lemma wl_sources_ok g vmax M : targets_ok g -> (forall s t, s < length g -> sg (simple g) s t < M) -> length g <= vmax -> forall srcs cent,
  (forall s ord, In (s, ord) srcs -> s < length g /\ forall v l, Permutation (ord v l) l) -> length cent = length g ->
  exists cent', rfold (wl_source g vmax M) srcs cent = Ok cent' /\ length cent' = length g /\
    forall v, v < length g -> nth v cent' 0%Qc = (nth v cent 0 + qsum (map (fun s => dependency (simple g) s v) (filter (fun s => negb (s =? v)%nat) (map fst srcs))))%Qc.
Proof.
  intros T HM HV. induction srcs as [|[s ord] srcs IH]; intros cent HS L.
  - exists cent. split; auto. split; auto. intros v _. cbn. ring.
  - cbn [rfold]. destruct (HS s ord (or_introl eq_refl)) as [Ls HO]. destruct (@wl_source_ok g s vmax M ord cent T Ls (fun t => HM s t Ls) HV HO L) as (c1 & E1 & L1 & H1).
    rewrite E1. cbn [bind]. destruct (IH c1) as (c2 & E2 & L2 & H2); auto; [intros x o I; apply (HS x o); now right|].
    exists c2. split; auto. split; auto. intros v Lv. rewrite H2, H1 by auto. cbn [map fst filter]. rewrite (Nat.eqb_sym s v).
    destruct (negb (v =? s)); cbn [map qsum]; unfold dep; ring.
Qed.
