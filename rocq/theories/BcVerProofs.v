(** Proofs about BCVerifier. *)
From Coq Require Import List Arith ZArith QArith Qround Qcanon Field Lia Bool Sorted.
From Verif Require Import Base GraphLib FifoLib SumLib QcLib BcLib BcModel BcProofs.
Import ListNotations.
Set Implicit Arguments.
Local Open Scope nat_scope.

Section V.
  Variables (g : list (list nat)) (s M : nat).
  Hypothesis (T : targets_ok g) (Hs : s < length g) (HM : forall t, sg g s t < M).
  Notation n := (length g).

  (** The forward phase does what brandes_bc's does. *)
  Record sim (pre : list nat) (st : vst) (b : bst) : Prop := {
    si_d : v_d st = b_d b;
    si_tv : v_tv st = pre ++ b_Q b;
    si_lv : length (v_pc st) = n + 1;
    si_lp : length (b_pc b) = n;
    si_ld : length (b_d b) = n;
    si_lP : length (b_P b) = n;
    si_pc : forall x, x < n -> nth x (v_pc st) 0 = nth x (b_pc b) 0;
    si_min : forall x, x < n -> (-1 <= nth x (b_d b) 0)%Z }.
  Lemma sim_relax pre u w st b b' : u < n -> w < n -> sim pre st b -> bc_relax M u b w = Ok b' -> exists st', ver_relax M u st w = Ok st' /\ sim pre st' b'.
  Proof.
    intros Lu Lw [Ed Et Lv Lp Ld LP Hp Hm]. unfold bc_relax, ver_relax. rewrite Ed.
    rewrite (@vget_nth _ (b_d b) w 0%Z), (@vget_nth _ (b_d b) u 0%Z) by lia. cbn [bind].
    assert (Mw := Hm w Lw). assert (Mu := Hm u Lu).
    assert (G : exists b1 st1, (if (nth w (b_d b) 0 <? 0)%Z
        then do d' <- vset (b_d b) w (nth u (b_d b) 0 + 1)%Z ; Ok {| b_pc := b_pc b; b_d := d'; b_P := b_P b; b_Q := b_Q b ++ [w] |} else Ok b) = Ok b1 /\
      (if (nth w (b_d b) 0 =? -1)%Z
        then do d' <- vset (b_d b) w (nth u (b_d b) 0 + 1)%Z ; Ok {| v_pc := v_pc st; v_d := d'; v_tv := v_tv st ++ [w] |} else Ok st) = Ok st1 /\ sim pre st1 b1).
    { destruct (Z.ltb_spec (nth w (b_d b) 0%Z) 0) as [L|L], (Z.eqb_spec (nth w (b_d b) 0%Z) (-1)) as [E|E]; try lia.
      - rewrite vset_lt by lia. cbn [bind]. eexists. eexists. split; [reflexivity|]. split; [reflexivity|]. constructor; cbn; rewrite ?upd_length; auto.
        + now rewrite Et, app_assoc.
        + intros x Lx. rewrite nth_upd by lia. destruct (x =? w); [lia|auto].
      - exists b, st. split; auto. split; auto. now constructor. }
    destruct G as (b1 & st1 & -> & -> & S1). cbn [bind]. clear st b Ed Et Lv Lp Ld LP Hp Hm Mw Mu. destruct S1 as [Ed Et Lv Lp Ld LP Hp Hm].
    rewrite Ed. rewrite (@vget_nth _ (b_d b1) w 0%Z), (@vget_nth _ (b_d b1) u 0%Z) by lia. cbn [bind].
    destruct (nth w (b_d b1) 0 =? nth u (b_d b1) 0 + 1)%Z.
    - rewrite (@vget_nth _ (b_pc b1) w 0), (@vget_nth _ (b_pc b1) u 0), (@vget_nth _ (v_pc st1) w 0), (@vget_nth _ (v_pc st1) u 0) by lia. cbn [bind].
      rewrite !vset_lt by lia. cbn [bind]. rewrite (@vget_nth _ (b_P b1) w []) by lia. cbn [bind]. rewrite !vset_lt by lia. cbn [bind].
      intros E. injection E as <-. eexists. split; [reflexivity|]. constructor; cbn; rewrite ?upd_length; auto.
      intros x Lx. rewrite !nth_upd by lia. rewrite !Hp by auto. destruct (x =? w); auto.
    - intros E. injection E as <-. exists st1. split; auto. now constructor.
  Qed.
  Lemma sim_row pre u : u < n -> forall row st b b', (forall w, In w row -> w < n) -> sim pre st b -> rfold (bc_relax M u) row b = Ok b' ->
    exists st', rfold (ver_relax M u) row st = Ok st' /\ sim pre st' b'.
  Proof.
    intros Lu. induction row as [|w row IH]; intros st b b' HR S0 E; cbn [rfold] in *.
    - injection E as <-. eauto.
    - destruct (bc_relax M u b w) as [b1| |] eqn:E1; try discriminate. cbn [bind] in E.
      destruct (sim_relax Lu (HR w (or_introl eq_refl)) S0 E1) as (st1 & -> & S1). cbn [bind]. eapply IH; eauto. intros; apply HR; now right.
  Qed.
  Lemma sim_bfs : forall fuel pre st b stack b' stack', sim pre st b -> bc_bfs fuel g M b stack = Ok (b', stack') ->
    exists st' pre', ver_bfs fuel g M (length pre) st = Ok st' /\ sim pre' st' b'.
  Proof.
    induction fuel as [|fuel IH]; intros pre st b stack b' stack' S0 E; cbn [bc_bfs ver_bfs] in *.
    - assert (Et := si_tv S0). destruct (b_Q b) as [|v Q]; try discriminate. injection E as <- <-. exists st, pre.
      rewrite Et, app_nil_r. rewrite (proj2 (nth_error_None pre (length pre))) by lia. auto.
    - assert (Et := si_tv S0). destruct (b_Q b) as [|v Q] eqn:EQ.
      + injection E as <- <-. exists st, pre. rewrite Et, app_nil_r. rewrite (proj2 (nth_error_None pre (length pre))) by lia. auto.
      + rewrite Et, nth_error_app2, Nat.sub_diag by lia. cbn [nth_error].
        destruct (vget g v) as [row| |] eqn:Ev; try discriminate. cbn [bind] in *.
        assert (Lv : v < n). { apply vget_Ok in Ev. apply nth_error_Some. congruence. }
        destruct (rfold (bc_relax M v) row _) as [b1| |] eqn:Er; try discriminate. cbn [bind] in E.
        assert (S1 : sim (pre ++ [v]) st {| b_pc := b_pc b; b_d := b_d b; b_P := b_P b; b_Q := Q |}).
        { destruct S0. constructor; cbn; auto. rewrite Et, <- app_assoc. reflexivity. }
        assert (HR : forall w, In w row -> w < n).
        { intros w W. apply T with v. unfold edge. rewrite (@vget_nth _ g v [] Lv) in Ev. injection Ev as ->. auto. }
        destruct (sim_row Lv row HR S1 Er) as (st1 & E1 & S2).
        rewrite E1. cbn [bind]. replace (S (length pre)) with (length (pre ++ [v])) by (rewrite app_length; cbn; lia). eapply IH; eauto.
  Qed.
  (** what is left behind *)
  Record vfwd (pc : list nat) (d : list Z) : Prop := {
    vf_lp : length pc = n + 1;
    vf_ld : length d = n;
    vf_d : forall x k, dist g s x k -> nth x d 0%Z = Z.of_nat k;
    vf_d0 : forall x, x < n -> ~ reachable g s x -> nth x d 0%Z = (-1)%Z;
    vf_pc : forall w, reachable g s w -> nth w pc 0 = sg g s w }.
  Lemma reach_lt w : reachable g s w -> w < n.
  Proof. intros [k W]. exact (walk_lt T Hs W). Qed.
  Lemma vfwd_ok : exists pc d st, vset (repeat (-1)%Z n) s 0%Z = Ok d /\ vset (repeat 0 (n + 1)) s (1 mod M) = Ok pc /\
    ver_bfs (S n) g M 0 {| v_pc := pc; v_d := d; v_tv := [s] |} = Ok st /\ vfwd (v_pc st) (v_d st).
  Proof.
    destruct (fwd_ok T Hs HM) as (pc & d & b & O & E1 & E2 & E3 & F).
    rewrite E2. rewrite vset_lt in * by (rewrite repeat_length; lia). injection E1 as <-. injection E2 as <-. eexists. eexists.
    assert (S0 : sim [] {| v_pc := upd (repeat 0 (n + 1)) s (1 mod M); v_d := upd (repeat (-1)%Z n) s 0%Z; v_tv := [s] |}
      {| b_pc := upd (repeat 0 n) s (1 mod M); b_d := upd (repeat (-1)%Z n) s 0%Z; b_P := repeat [] n; b_Q := [s] |}).
    { constructor; cbn [v_pc v_d v_tv b_pc b_d b_P b_Q]; rewrite ?upd_length, ?repeat_length; auto.
      - intros x Lx. rewrite !nth_upd by (rewrite repeat_length; lia). destruct (x =? s); auto. rewrite !nth_repeat. auto.
      - intros x Lx. rewrite !nth_upd by (rewrite repeat_length; lia). destruct (x =? s); [lia|].
        rewrite (@nth_indep _ _ x 0%Z (-1)%Z) by (now rewrite repeat_length). rewrite nth_repeat. lia. }
    edestruct sim_bfs as (st' & pre' & E4 & S4); [exact S0|exact E3|]. exists st'. split; [reflexivity|]. split; [reflexivity|]. split; [exact E4|].
    destruct S4 as [Ed Et Lv Lp Ld LP Hp Hm]. constructor; rewrite ?Ed; auto.
    - apply (fw_d F).
    - apply (fw_d0 F).
    - intros w R. rewrite Hp by (now apply reach_lt). now apply (fw_pc F).
  Qed.

  (** ** The levels *)
  Variables (pc : list nat) (d : list Z).
  Hypothesis F : vfwd pc d.
  Definition level (m k : nat) : list nat := filter (fun i => (nth i d 0 =? Z.of_nat k)%Z) (seq 0 m).
  Lemma d_min x : x < n -> (-1 <= nth x d 0)%Z.
  Proof.
    intros L. destruct (distf g s x) as [k|] eqn:E.
    - apply (distf_Some _ T Hs) in E. rewrite (vf_d F E). lia.
    - apply (distf_None _ T Hs) in E. rewrite (vf_d0 F L E). lia.
  Qed.
  Lemma vad_ok m : m <= n -> exists l, rfold (vad_add d) (seq 0 m) [] = Ok l /\ forall k, nth k l [] = level m k.
  Proof.
    induction m as [|m IH]; intros L.
    - exists []. split; auto. intros k. now destruct k.
    - destruct IH as (l & E & H); [lia|]. rewrite seq_S_app, rfold_app, E. cbn [bind rfold Nat.add]. unfold vad_add.
      rewrite (@vget_nth _ d m 0%Z) by (rewrite (vf_ld F); lia). cbn [bind]. assert (Mm := d_min (x := m) L).
      assert (LS : forall k, level (S m) k = level m k ++ (if (nth m d 0 =? Z.of_nat k)%Z then [m] else [])).
      { intros k. unfold level. rewrite seq_S_app, filter_app. reflexivity. }
      destruct (Z.eqb_spec (nth m d 0%Z) (-1)) as [E1|E1].
      + cbn [bind]. exists l. split; auto. intros k. rewrite H, LS, E1. replace (-1 =? Z.of_nat k)%Z with false by (symmetry; apply Z.eqb_neq; lia).
        now rewrite app_nil_r.
      + set (k := Z.to_nat (nth m d 0%Z)). set (l' := if length l <=? k then l ++ repeat [] (S k - length l) else l).
        assert (Ll : k < length l').
        { unfold l'. destruct (Nat.leb_spec (length l) k); [rewrite app_length, repeat_length; lia|lia]. }
        assert (Hl : forall j, nth j l' [] = nth j l []).
        { intros j. unfold l'. destruct (Nat.leb_spec (length l) k); auto. destruct (Nat.lt_ge_cases j (length l)); [now rewrite app_nth1|].
          rewrite app_nth2, nth_repeat, nth_overflow by lia. reflexivity. }
        rewrite (@vget_nth _ l' k []) by auto. cbn [bind]. rewrite vset_lt by auto. cbn [bind]. eexists. split; [reflexivity|].
        intros j. rewrite nth_upd, LS, !Hl, !H by auto. destruct (Nat.eqb_spec j k) as [->|N].
        * replace (nth m d 0 =? Z.of_nat k)%Z with true; auto. symmetry. apply Z.eqb_eq. unfold k. lia.
        * replace (nth m d 0 =? Z.of_nat j)%Z with false; [now rewrite app_nil_r|]. symmetry. apply Z.eqb_neq. unfold k in N. lia.
  Qed.
  (** the sweep visits the reachable vertices once each, the farthest first *)
  Lemma in_level k x : In x (level n k) <-> dist g s x k.
  Proof.
    unfold level. rewrite filter_In, in_seq. split.
    - intros [L E]. apply Z.eqb_eq in E. destruct (distf g s x) as [j|] eqn:Ej.
      + apply (distf_Some _ T Hs) in Ej. rewrite (vf_d F Ej) in E. now replace k with j by lia.
      + apply (distf_None _ T Hs) in Ej. rewrite (vf_d0 F) in E by (auto; lia). lia.
    - intros D. split; [assert (X := walk_lt T Hs (proj1 D)); lia|]. rewrite (vf_d F D). apply Z.eqb_refl.
  Qed.
  Lemma sweep_ok l : (forall k, nth k l [] = level n k) ->
    NoDup (concat (rev l)) /\ (forall x, In x (concat (rev l)) <-> reachable g s x) /\
    StronglySorted (fun x y => forall a b, dist g s x a -> dist g s y b -> b <= a) (concat (rev l)).
  Proof.
    intros H. assert (E : l = map (level n) (seq 0 (length l))).
    { apply nth_ext_default with (d := []); [now rewrite map_length, seq_length|]. intros k Lk. rewrite H. symmetry. rewrite (@nth_indep _ _ k [] (level n 0)) by (rewrite map_length, seq_length; lia).
      rewrite map_nth, seq_nth by lia. reflexivity. }
    assert (Q : forall x, In x (concat (rev l)) <-> exists k, k < length l /\ dist g s x k).
    { intros x. rewrite in_concat. split.
      - intros (y & I & Ix). apply in_rev in I. apply In_nth with (d := []) in I. destruct I as (k & Lk & <-). exists k. split; auto. rewrite H in Ix. now apply in_level.
      - intros (k & Lk & D). exists (nth k l []). split; [apply in_rev; rewrite rev_involutive; now apply nth_In|]. rewrite H. now apply in_level. }
    assert (P : forall m, NoDup (concat (rev (map (level n) (seq 0 m)))) /\
      StronglySorted (fun x y => forall a b, dist g s x a -> dist g s y b -> b <= a) (concat (rev (map (level n) (seq 0 m)))) /\
      forall x, In x (concat (rev (map (level n) (seq 0 m)))) -> exists k, k < m /\ dist g s x k).
    { induction m as [|m (ND & SS & HI)]; [cbn; split; [constructor|split; [constructor|intros x []]]|].
      rewrite seq_S_app, map_app, rev_app_distr. cbn [map rev app concat Nat.add]. split; [|split].
      - assert (N1 : NoDup (level n m)) by (apply NoDup_filter, seq_NoDup).
        assert (Dj : forall x, In x (level n m) -> ~ In x (concat (rev (map (level n) (seq 0 m))))).
        { intros x I1 I2. apply in_level in I1. destruct (HI _ I2) as (k & Lk & Dk). assert (X := dist_fun I1 Dk). lia. }
        clear - N1 Dj ND. induction (level n m) as [|x l IH]; auto. inversion N1; subst. cbn [app]. constructor.
        + intros I. apply in_app_or in I. destruct I; [auto|]. apply (Dj x); auto. now left.
        + apply IH; auto. intros y Y. apply Dj. now right.
      - apply StronglySorted_app; auto.
        + assert (A : forall x, In x (level n m) -> dist g s x m) by (intros; now apply in_level). clear - A. induction (level n m) as [|x l IH]; constructor.
          * apply IH. intros; apply A; now right.
          * apply Forall_forall. intros y Y a b Da Db. assert (X := dist_fun Da (A x (or_introl eq_refl))). assert (Z := dist_fun Db (A y (or_intror Y))). lia.
        + intros x y X Y a b Da Db. apply in_level in X. destruct (HI _ Y) as (k & Lk & Dk). assert (Z := dist_fun Da X). assert (Z' := dist_fun Db Dk). lia.
      - intros x I. apply in_app_or in I. destruct I as [I|I]; [exists m; split; auto; now apply in_level|]. destruct (HI _ I) as (k & Lk & Dk). exists k. split; auto. }
    destruct (P (length l)) as (ND & SS & _). rewrite <- E in ND, SS. split; auto. split; auto.
    intros x. rewrite Q. split.
    - intros (k & _ & D). exists k. apply D.
    - intros R. apply dist_reach in R. destruct R as [k D]. exists k. split; auto. destruct (Nat.lt_ge_cases k (length l)); auto. exfalso.
      assert (I : In x (nth k l [])) by (rewrite H; now apply in_level). rewrite nth_overflow in I by auto. destruct I.
  Qed.

  (** ** The backward sweep *)
  Local Open Scope Qc_scope.
  Notation sg := (sg g s).
  Notation dep := (dep g s).
  Notation nxt := (nxt g s).
  Lemma d_nxt u v : (u < n)%nat -> reachable g s u -> edge g u v -> (nth v d 0 =? nth u d 0 + 1)%Z = nxt u v.
  Proof.
    intros Lu R E. assert (Rv := reach_edge _ R E). apply dist_reach in R. destruct R as [a Da]. apply dist_reach in Rv. destruct Rv as [b Db].
    rewrite (vf_d F Da), (vf_d F Db). unfold BcLib.nxt. rewrite (proj2 (distf_Some _ T Hs) Da), (proj2 (distf_Some _ T Hs) Db).
    destruct (Z.eqb_spec (Z.of_nat b) (Z.of_nat a + 1)), (Nat.eqb_spec b (S a)); auto; lia.
  Qed.
  Lemma arc_ok u : (u < n)%nat -> reachable g s u -> forall row delta, (forall v, In v row -> edge g u v) -> length delta = n ->
    (forall v, In v row -> nxt u v = true -> nth v delta 0 = dep v) ->
    exists delta', rfold (ver_arc pc d u) row delta = Ok delta' /\ length delta' = n /\
      nth u delta' 0 = nth u delta 0 + qsum (map (fun v => if nxt u v then qn (sg u) / qn (sg v) * (1 + dep v) else 0) row) /\
      forall x, x <> u -> nth x delta' 0 = nth x delta 0.
  Proof.
    intros Lu R. induction row as [|v row IH]; intros delta HE Ld HD.
    - exists delta. split; auto. split; auto. split; auto. cbn. ring.
    - assert (Ev := HE v (or_introl eq_refl)). assert (Lv := T u v Ev). cbn [rfold]. unfold ver_arc at 1. assert (X1 := vf_ld F). assert (X2 := vf_lp F).
      rewrite (@vget_nth _ d v 0%Z), (@vget_nth _ d u 0%Z) by lia. cbn [bind]. rewrite d_nxt by auto. destruct (nxt u v) eqn:Nx.
      + rewrite (@vget_nth _ delta u 0), (@vget_nth _ delta v 0), (@vget_nth _ pc u 0%nat), (@vget_nth _ pc v 0%nat) by lia. cbn [bind].
        assert (Rv := reach_edge _ R Ev). rewrite (vf_pc F R), (vf_pc F Rv). unfold qdiv. assert (Ps := sg_pos T Hs Rv).
        replace (sg v =? 0)%nat with false by (symmetry; apply Nat.eqb_neq; lia). cbn [bind]. rewrite vset_lt by lia. cbn [bind].
        assert (Nu : v <> u) by (intros ->; rewrite nxt_irrefl in Nx by auto; discriminate).
        match goal with |- context [rfold _ row ?z] => destruct (IH z) as (d' & E' & L' & H1 & H2) end.
        * intros; apply HE; now right.
        * now rewrite upd_length.
        * intros w W Nw. rewrite nth_upd_neq; [apply HD; auto; now right|]. intros ->. rewrite nxt_irrefl in Nw by auto. discriminate.
        * exists d'. split; auto. split; auto. split.
          -- rewrite H1, nth_upd_eq by lia. cbn [map qsum]. rewrite Nx. rewrite (HD v) by (auto; now left). ring.
          -- intros x Nxu. rewrite H2, nth_upd_neq by auto. reflexivity.
      + cbn [bind]. destruct (IH delta) as (d' & E' & L' & H1 & H2); auto.
        * intros; apply HE; now right.
        * intros; apply HD; auto; now right.
        * exists d'. split; auto. split; auto. split; auto. rewrite H1. cbn [map qsum]. rewrite Nx. ring.
  Qed.
  Lemma ver_sweep L : NoDup L -> (forall x, In x L <-> reachable g s x) ->
    StronglySorted (fun x y => forall a b, dist g s x a -> dist g s y b -> (b <= a)%nat) L ->
    forall L2 L1 delta sc, L = L1 ++ L2 -> length delta = n -> length sc = n ->
      (forall v, (v < n)%nat -> nth v delta 0 = if mem v L1 then dep v else 0) ->
      exists r, rfold (ver_unwind g pc d) L2 (delta, sc) = Ok r /\ length (snd r) = n /\
        forall v, (v < n)%nat -> nth v (snd r) 0 = nth v sc 0 + (if mem v L2 then dep v else 0).
  Proof.
    intros ND Re So. induction L2 as [|u L2 IH]; intros L1 delta sc E Ld Ls Hd.
    - exists (delta, sc). split; auto. split; auto. intros v _. cbn. ring.
    - assert (Iu : In u L) by (rewrite E; apply in_or_app; right; now left). assert (Ru := proj1 (Re u) Iu). assert (Lu := reach_lt Ru).
      cbn [rfold]. unfold ver_unwind at 1. rewrite (@vget_nth _ g u []) by auto. cbn [bind].
      assert (N1 : mem u L1 = false /\ mem u L2 = false).
      { rewrite E in ND. apply NoDup_remove_2 in ND. rewrite in_app_iff in ND. split; apply mem_false; tauto. }
      destruct (@arc_ok u Lu Ru (nth u g []) delta) as (delta' & E' & L' & H1 & H2); auto.
      { intros v I Nv. rewrite Hd by (now apply T with u). assert (Iv : In v L) by (apply Re; eapply reach_edge; eauto).
        replace (mem v L1) with true; auto. symmetry. apply mem_In. rewrite E in Iv. apply in_app_or in Iv.
        apply nxt_dist in Nv; auto. destruct Nv as (a & D1 & D2). destruct Iv as [|[<-|Iv]]; auto; exfalso.
        - assert (X := dist_fun D1 D2). lia.
        - rewrite E in So. apply StronglySorted_app_inv in So. destruct So as (_ & So & _). inversion So; subst.
          match goal with H : Forall _ L2 |- _ => rewrite Forall_forall in H; specialize (H _ Iv _ _ D1 D2); lia end. }
      rewrite E'. cbn [bind]. rewrite (@vget_nth _ sc u 0), (@vget_nth _ delta' u 0) by lia. cbn [bind]. rewrite vset_lt by lia. cbn [bind].
      assert (Du : nth u delta' 0 = dep u). { rewrite H1, <- (dep_rec T Hs Ru), Hd by auto. rewrite (proj1 N1). ring. }
      destruct (IH (L1 ++ [u]) delta' (upd sc u (nth u sc 0 + nth u delta' 0))) as (r & Er & Lr & Hr).
      + now rewrite <- app_assoc.
      + auto.
      + now rewrite upd_length.
      + intros v Lv. destruct (Nat.eq_dec v u) as [->|N].
        * rewrite Du. replace (mem u (L1 ++ [u])) with true; auto. symmetry. apply mem_In. apply in_or_app. right. now left.
        * rewrite H2, Hd by auto. replace (mem v (L1 ++ [u])) with (mem v L1); auto. apply eq_true_iff_eq. rewrite !mem_In, in_app_iff. cbn. intuition congruence.
      + exists r. split; auto. split; auto. intros v Lv. rewrite Hr, nth_upd by (auto; lia). cbn [mem existsb]. fold (mem v L2).
        destruct (Nat.eqb_spec v u) as [->|N]; cbn [orb]; [|reflexivity]. rewrite (proj2 N1), Du. ring.
  Qed.
End V.

Lemma ver_source_ok g s M : targets_ok g -> s < length g -> (forall t, sg g s t < M) -> forall sc, length sc = length g ->
  exists sc', ver_source g M sc s = Ok sc' /\ length sc' = length g /\ forall v, v < length g -> nth v sc' 0%Qc = (nth v sc 0 + dependency g s v)%Qc.
Proof.
  intros T Hs HM sc L. destruct (vfwd_ok T Hs HM) as (pc & d & st & E1 & E2 & E3 & F). unfold ver_source. rewrite E1, E2. cbn [bind]. rewrite E3. cbn [bind].
  destruct (vad_ok T Hs F (le_n _)) as (l & El & Hl). rewrite El. cbn [bind]. destruct (sweep_ok T Hs F l Hl) as (ND & Re & So).
  destruct (@ver_sweep g s T Hs (v_pc st) (v_d st) F (concat (rev l)) ND Re So (concat (rev l)) [] (repeat 0%Qc (length g)) sc) as (r & E & Lr & Hr); auto.
  - apply repeat_length.
  - intros v _. apply nth_repeat.
  - rewrite E. cbn [bind]. exists (snd r). split; auto. split; auto. intros v Lv. rewrite Hr by auto. f_equal. destruct (mem v (concat (rev l))) eqn:Mv; auto.
    symmetry. apply dep_unreach. intros R. apply mem_false in Mv. apply Mv. now apply Re.
Qed.
Lemma ver_sources_ok g M : targets_ok g -> (forall s t, s < length g -> sg g s t < M) -> forall srcs sc, (forall s, In s srcs -> s < length g) -> length sc = length g ->
  exists sc', rfold (ver_source g M) srcs sc = Ok sc' /\ length sc' = length g /\
    forall v, v < length g -> nth v sc' 0%Qc = (nth v sc 0 + qsum (map (fun s => dependency g s v) srcs))%Qc.
Proof.
  intros T HM. induction srcs as [|s srcs IH]; intros sc HS L.
  - exists sc. split; auto. split; auto. intros v _. cbn. ring.
  - cbn [rfold]. assert (Ls : s < length g) by (apply HS; now left). destruct (ver_source_ok T Ls (fun t => HM s t Ls) sc L) as (c1 & E1 & L1 & H1).
    rewrite E1. cbn [bind]. destruct (IH c1) as (c2 & E2 & L2 & H2); auto; [intros x I; apply HS; now right|].
    exists c2. split; auto. split; auto. intros v Lv. rewrite H2, H1 by auto. cbn [map qsum]. ring.
Qed.
