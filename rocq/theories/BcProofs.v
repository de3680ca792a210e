(** Proofs about the sequential Brandes algorithm. *)
From Coq Require Import List Arith ZArith Qcanon Field Lia Bool Sorted.
From Verif Require Import Base GraphLib FifoLib SumLib QcLib BcLib BcModel.
Import ListNotations.
Set Implicit Arguments.
Local Open Scope nat_scope.

Lemma count_repeat (v x c : nat) : count_occ Nat.eq_dec (repeat v c) x = if x =? v then c else 0.
Proof.
  induction c as [|c IH]; cbn [repeat count_occ]; [now destruct (x =? v)|]. rewrite IH. destruct (Nat.eq_dec v x) as [->|N].
  - now rewrite Nat.eqb_refl.
  - replace (x =? v) with false; auto. symmetry. apply Nat.eqb_neq. auto.
Qed.
Lemma count_firstn_S (l : list nat) i w x : nth_error l i = Some w ->
  count_occ Nat.eq_dec (firstn (S i) l) x = count_occ Nat.eq_dec (firstn i l) x + (if x =? w then 1 else 0).
Proof.
  intros E. rewrite (firstn_S_nth _ _ E), count_occ_app. f_equal. cbn [count_occ]. destruct (Nat.eq_dec w x) as [->|N].
  - now rewrite Nat.eqb_refl.
  - replace (x =? w) with false; auto. symmetry. apply Nat.eqb_neq. auto.
Qed.
Lemma repeat_snoc (A : Type) (x : A) c : repeat x (c + 1) = repeat x c ++ [x].
Proof. rewrite repeat_app. reflexivity. Qed.

Section P.
  Variables (g : list (list nat)) (s M : nat).
  Hypothesis (T : targets_ok g) (Hs : s < length g) (HM : forall t, sg g s t < M).
  Notation n := (length g).
  Notation row v := (nth v g []).
  Notation sg := (sg g s).
  Notation nxt := (nxt g s).
  Notation cocc := (count_occ Nat.eq_dec).
  Definition par (w v : nat) : list nat := if nxt v w then repeat v (cocc (row v) w) else [].

  Record binv (D : list nat) (u i : nat) (st : bst) : Prop := {
    bi_f : exists Tr, finv g s D u i (b_Q st) Tr;
    bi_ld : length (b_d st) = n;
    bi_lp : length (b_pc st) = n;
    bi_lP : length (b_P st) = n;
    bi_in : forall x k, In x (D ++ u :: b_Q st) -> dist g s x k -> nth x (b_d st) 0%Z = Z.of_nat k;
    bi_out : forall x, x < n -> ~ In x (D ++ u :: b_Q st) -> nth x (b_d st) 0%Z = (-1)%Z;
    bi_P : forall w, w < n -> nth w (b_P st) [] = flat_map (par w) D ++ (if nxt u w then repeat u (cocc (firstn i (row u)) w) else []);
    bi_pc : forall w, w < n -> nth w (b_pc st) 0 = (b2n (w =? s) + sum (map sg (nth w (b_P st) []))) mod M }.

  Lemma M_pos : 1 < M.
  Proof. assert (X := HM s). rewrite sg_s in X; auto. Qed.
  Lemma sum_par w l : sum (map sg (flat_map (par w) l)) = sum (map (fun v => if nxt v w then cocc (row v) w * sg v else 0) l).
  Proof.
    induction l as [|v l IH]; auto. cbn [flat_map map sum]. rewrite map_app, sum_app, IH. f_equal. unfold par. destruct (nxt v w); auto.
    induction (cocc (row v) w) as [|c IHc]; auto. cbn [repeat map sum]. rewrite IHc. lia.
  Qed.
  (** a covering list of predecessors gives the path count *)
  Lemma sg_cover w X : w < n -> reachable g s w -> NoDup X -> (forall v, nxt v w = true -> edge g v w -> In v X) ->
    b2n (w =? s) + sum (map sg (flat_map (par w) X)) = sg w.
  Proof.
    intros L R ND C. rewrite sum_par. destruct (Nat.eqb_spec w s) as [->|N].
    - rewrite sum_map_0; [rewrite sg_s; auto|]. intros v _. now rewrite nxt_s.
    - cbn [b2n Nat.add]. symmetry. apply sg_rec; auto.
  Qed.
  Lemma binv_u D u i st : binv D u i st -> u < n /\ exists a, dist g s u a /\ nth u (b_d st) 0%Z = Z.of_nat a /\ nth u (b_pc st) 0 = sg u.
  Proof.
    intros [[Tr F] Ld Lp LP Hi Ho HP Hc]. assert (I : In u (D ++ u :: b_Q st)) by (apply in_or_app; right; now left).
    destruct (fi_dist F _ I) as [a Da]. assert (Lu : u < n) by (eapply walk_lt; eauto; apply Da). split; auto. exists a. split; auto. split; [auto|].
    rewrite Hc, HP by auto. rewrite nxt_irrefl, app_nil_r by auto. rewrite sg_cover; auto.
    - apply Nat.mod_small. auto.
    - exists a. apply Da.
    - assert (X := fi_nodup F). apply NoDup_remove_1 in X. clear - X. induction D; constructor; inversion X; subst; auto. intros I. match goal with H : ~ _ |- _ => apply H end. apply in_or_app. auto.
    - intros v E _. apply nxt_dist in E; auto. destruct E as (b & Dv & Du). assert (X := dist_fun Da Du). subst a.
      exact (proj2 (@finv_below _ _ _ _ _ _ _ F _ Da b v (Nat.le_succ_diag_r _) Dv) (Nat.lt_succ_diag_r _)).
  Qed.

  Lemma relax_ok D u i st w : binv D u i st -> nth_error (row u) i = Some w ->
    exists st', bc_relax M u st w = Ok st' /\ binv D u (S i) st'.
  Proof.
    intros B E. destruct (binv_u B) as (Lu & a & Da & Eu & Ep). destruct B as [[Tr F] Ld Lp LP Hi Ho HP Hc].
    assert (Ed : edge g u w) by (eapply nth_error_In; eauto). assert (Lw : w < n) by (eapply T; eauto).
    assert (Iu : In u (D ++ u :: b_Q st)) by (apply in_or_app; right; now left).
    unfold bc_relax. rewrite (@vget_nth _ (b_d st) w 0%Z), (@vget_nth _ (b_d st) u 0%Z) by lia. cbn [bind].
    (* the state once w is discovered *)
    assert (G : exists st1, (if (nth w (b_d st) 0 <? 0)%Z
        then do d' <- vset (b_d st) w (nth u (b_d st) 0 + 1)%Z ; Ok {| b_pc := b_pc st; b_d := d'; b_P := b_P st; b_Q := b_Q st ++ [w] |}
        else Ok st) = Ok st1 /\ (exists Tr', finv g s D u (S i) (b_Q st1) Tr') /\ length (b_d st1) = n /\ b_pc st1 = b_pc st /\ b_P st1 = b_P st /\
        In w (D ++ u :: b_Q st1) /\
        (forall x k, In x (D ++ u :: b_Q st1) -> dist g s x k -> nth x (b_d st1) 0%Z = Z.of_nat k) /\
        (forall x, x < n -> ~ In x (D ++ u :: b_Q st1) -> nth x (b_d st1) 0%Z = (-1)%Z)).
    { destruct (in_dec Nat.eq_dec w (D ++ u :: b_Q st)) as [I|N].
      - destruct (fi_dist F _ I) as [b Db]. rewrite (Hi _ _ I Db). replace (Z.of_nat b <? 0)%Z with false by (symmetry; apply Z.ltb_ge; lia).
        exists st. split; auto. split; [exists Tr; eapply finv_skip; eauto|]. auto 10.
      - rewrite (Ho _ Lw N). change (-1 <? 0)%Z with true. cbn iota. rewrite vset_lt by lia. cbn [bind]. eexists. split; [reflexivity|]. cbn [b_Q b_d b_pc b_P].
        assert (F' := finv_add F E N). split; [eauto|]. split; [now rewrite upd_length|]. split; auto. split; auto.
        assert (I' : In w (D ++ u :: b_Q st ++ [w])) by (apply in_or_app; right; right; apply in_or_app; right; now left). split; auto.
        assert (Q : forall x, In x (D ++ u :: b_Q st ++ [w]) <-> In x (D ++ u :: b_Q st) \/ x = w).
        { intros x. rewrite !in_app_iff. cbn [In]. rewrite in_app_iff. cbn [In]. intuition. }
        split.
        + intros x k X Dx. rewrite nth_upd by (rewrite ?repeat_length; lia). destruct (Nat.eqb_spec x w) as [->|Nx]; cbn [andb].
          *
            assert (Dw : dist g s w (S a)) by (apply (fi_tree F' u w); auto; apply in_or_app; right; now left).
            rewrite (dist_fun Dx Dw), Eu. lia.
          * apply Q in X. destruct X as [X|X]; [auto|congruence].
        + intros x Lx X. rewrite nth_upd by (rewrite ?repeat_length; lia). destruct (Nat.eqb_spec x w) as [->|Nx]; cbn [andb]; [tauto|]. apply Ho; auto. intros Y. apply X. apply Q. auto. }
    destruct G as (st1 & -> & [Tr' F'] & Ld1 & Epc & EP & Iw & Hi1 & Ho1). cbn [bind].
    rewrite (@vget_nth _ (b_d st1) w 0%Z), (@vget_nth _ (b_d st1) u 0%Z) by lia. cbn [bind].
    destruct (fi_dist F' _ Iw) as [b Db]. rewrite (Hi1 _ _ Iw Db). rewrite (@Hi1 u a) by (auto; apply in_or_app; right; now left).
    assert (Nx : nxt u w = (Z.of_nat b =? Z.of_nat a + 1)%Z).
    { destruct (Z.eqb_spec (Z.of_nat b) (Z.of_nat a + 1)) as [Eb|Nb].
      - apply nxt_dist; auto. exists a. split; auto. now replace (S a) with b by lia.
      - destruct (nxt u w) eqn:X; auto. apply nxt_dist in X; auto. destruct X as (a' & D1 & D2).
        assert (a' = a) by (eapply dist_fun; eauto). assert (b = S a') by (eapply dist_fun; eauto). lia. }
    assert (HP' : forall x, x < n -> flat_map (par x) D ++ (if nxt u x then repeat u (cocc (firstn (S i) (row u)) x) else []) =
      nth x (b_P st) [] ++ (if (x =? w) && nxt u w then [u] else [])).
    { intros x Lx. rewrite HP, <- app_assoc by auto. f_equal. rewrite (count_firstn_S _ _ _ E). destruct (Nat.eqb_spec x w) as [->|N]; cbn [andb].
      - destruct (nxt u w); auto. apply repeat_snoc.
      - rewrite Nat.add_0_r, app_nil_r. reflexivity. }
    rewrite <- Nx. destruct (nxt u w) eqn:Ex.
    - rewrite Epc, EP. rewrite (@vget_nth _ (b_pc st) w 0), (@vget_nth _ (b_pc st) u 0) by lia. cbn [bind]. rewrite vset_lt by lia. cbn [bind].
      rewrite (@vget_nth _ (b_P st) w []) by lia. cbn [bind]. rewrite vset_lt by lia. cbn [bind]. eexists. split; [reflexivity|].
      assert (EP' : forall x, x < n -> nth x (upd (b_P st) w (nth w (b_P st) [] ++ [u])) [] = nth x (b_P st) [] ++ (if (x =? w) && true then [u] else [])).
      { intros x Lx. rewrite nth_upd by (rewrite ?repeat_length; lia). destruct (Nat.eqb_spec x w) as [->|N]; cbn [andb]; [reflexivity|now rewrite app_nil_r]. }
      constructor; cbn [b_Q b_d b_pc b_P]; eauto; try (rewrite upd_length; lia).
      + intros x Lx. rewrite HP', EP' by auto. reflexivity.
      + intros x Lx. rewrite EP' by auto. rewrite nth_upd by (rewrite ?repeat_length; lia). destruct (Nat.eqb_spec x w) as [->|N]; cbn [andb].
        * rewrite Hc, Ep by auto.
          assert (X := M_pos). rewrite Nat.add_mod_idemp_l by lia. f_equal. rewrite map_app, sum_app. cbn [map sum]. lia.
        * rewrite app_nil_r. auto.
    - exists st1. split; auto. constructor; rewrite ?Epc, ?EP; eauto.
      intros x Lx. rewrite HP', andb_false_r, app_nil_r by auto. reflexivity.
  Qed.
  Lemma row_ok D u : forall rest i st, binv D u i st -> skipn i (row u) = rest ->
    exists st', rfold (bc_relax M u) rest st = Ok st' /\ binv D u (length (row u)) st'.
  Proof.
    induction rest as [|w rest IH]; intros i st B E.
    - exists st. split; auto. assert (L : length (row u) <= i) by (destruct (Nat.le_gt_cases (length (row u)) i); auto;
        assert (X := skipn_length i (row u)); rewrite E in X; cbn in X; lia).
      destruct B as [[Tr F] Ld Lp LP Hi Ho HP Hc]. constructor; auto.
      + exists Tr. eapply finv_weaken; eauto.
      + intros w Lw. rewrite HP by auto. rewrite !firstn_all2 by lia. reflexivity.
    - assert (N : nth_error (row u) i = Some w).
      { rewrite <- (firstn_skipn i (row u)), E. assert (L : i < length (row u)).
        { destruct (Nat.lt_ge_cases i (length (row u))); auto. rewrite skipn_all2 in E by auto. discriminate. }
        rewrite nth_error_app2; rewrite firstn_length, Nat.min_l by lia; [|lia]. now rewrite Nat.sub_diag. }
      destruct (relax_ok B N) as (st1 & E1 & B1). cbn [rfold]. rewrite E1. cbn [bind]. apply IH with (i := S i); auto.
      rewrite <- (firstn_skipn i (row u)) in E at 1. clear - E. replace (S i) with (1 + i) by lia.
      revert E. rewrite firstn_skipn. revert i. generalize (row u) as l. induction l as [|y l IHl]; intros [|i] E; cbn in *; try discriminate; [congruence|]. now apply IHl.
  Qed.

  (** what the forward phase leaves behind *)
  Record fwd (O : list nat) (st : bst) : Prop := {
    fw_ord : level_order g s O;
    fw_lp : length (b_pc st) = n;
    fw_lP : length (b_P st) = n;
    fw_ld : length (b_d st) = n;
    fw_d : forall x k, dist g s x k -> nth x (b_d st) 0%Z = Z.of_nat k;
    fw_d0 : forall x, x < n -> ~ reachable g s x -> nth x (b_d st) 0%Z = (-1)%Z;
    fw_P : forall w, w < n -> nth w (b_P st) [] = flat_map (par w) O;
    fw_pc : forall w, reachable g s w -> nth w (b_pc st) 0 = sg w }.
  Lemma bfs_ok : forall fuel D u Q st, n <= fuel + length D -> b_Q st = u :: Q ->
    binv D u 0 {| b_pc := b_pc st; b_d := b_d st; b_P := b_P st; b_Q := Q |} ->
    exists st' O, bc_bfs fuel g M st (rev D) = Ok (st', rev O) /\ fwd O st'.
  Proof.
    induction fuel as [|fuel IH]; intros D u Q st L E B.
    - exfalso. destruct B as [[Tr F] _ _ _ _ _ _ _]. cbn [b_Q] in F.
      assert (X : length (D ++ u :: Q) <= length (seq 0 n)).
      { apply NoDup_incl_length; [apply (fi_nodup F)|]. intros x I. apply in_seq. destruct (fi_dist F _ I) as [d Dx].
        assert (Y := walk_lt T Hs (proj1 Dx)). lia. }
      rewrite app_length, seq_length in X. cbn in X. lia.
    - cbn [bc_bfs]. rewrite E. destruct (binv_u B) as (Lu & a & Da & _). rewrite (@vget_nth _ g u []) by auto. cbn [bind].
      destruct (row_ok (rest := row u) B eq_refl) as (st1 & -> & B1). cbn [bind]. destruct B1 as [[Tr F] Ld Lp LP Hi Ho HP Hc].
      replace (u :: rev D) with (rev (D ++ [u])) by (now rewrite rev_app_distr).
      destruct (b_Q st1) as [|v Q1] eqn:EQ.
      + assert (O := finv_level F eq_refl).
        assert (PF : forall w, w < n -> nth w (b_P st1) [] = flat_map (par w) (D ++ [u])).
        { intros w Lw. rewrite HP, flat_map_app by auto. f_equal. cbn [flat_map]. rewrite app_nil_r, firstn_all. reflexivity. }
        exists st1, (D ++ [u]). split.
        * destruct fuel; cbn [bc_bfs]; rewrite EQ; reflexivity.
        * constructor; auto.
          { intros x k Dx. apply Hi; auto. apply O. exists k. apply Dx. }
          { intros x Lx R. apply Ho; auto. intros I. apply R. now apply O. }
          intros w R. assert (Lw : w < n) by (destruct R as [k W]; exact (walk_lt T Hs W)).
          rewrite Hc, PF, sg_cover; auto; [now apply Nat.mod_small|apply O|].
          intros v Nv _. apply O. now apply nxt_reach in Nv.
      + apply IH with (u := v) (Q := Q1); auto; [rewrite app_length; cbn; lia|]. constructor; cbn [b_Q b_d b_pc b_P]; auto.
        * exists Tr. eapply finv_next; eauto.
        * intros x k I. rewrite <- app_assoc in I. apply Hi. exact I.
        * intros x Lx I. rewrite <- app_assoc in I. apply Ho; auto.
        * intros w Lw. rewrite HP, flat_map_app by auto. cbn [flat_map firstn]. rewrite app_nil_r, firstn_all. cbn [count_occ repeat].
          destruct (nxt v w); rewrite app_nil_r; reflexivity.
  Qed.
  Lemma fwd_ok : exists pc d st O, vset (repeat 0 n) s (1 mod M) = Ok pc /\ vset (repeat (-1)%Z n) s 0%Z = Ok d /\
    bc_bfs (S n) g M {| b_pc := pc; b_d := d; b_P := repeat [] n; b_Q := [s] |} [] = Ok (st, rev O) /\ fwd O st.
  Proof.
    rewrite !vset_lt by (now rewrite repeat_length). eexists. eexists.
    destruct (@bfs_ok (S n) [] s [] {| b_pc := upd (repeat 0 n) s (1 mod M); b_d := upd (repeat (-1)%Z n) s 0%Z; b_P := repeat [] n; b_Q := [s] |}) as (st & O & E & F).
    - lia.
    - reflexivity.
    - constructor; cbn [b_Q b_d b_pc b_P]; try (now rewrite ?upd_length, ?repeat_length).
      + exists []. apply finv_init.
      + intros x k [<-|[]] Dx. rewrite nth_upd_eq by (now rewrite repeat_length). apply (dist_fun (proj2 (dist_0 g s s) eq_refl)) in Dx. now subst k.
      + intros x L N. rewrite nth_upd_neq by (intros ->; apply N; now left). rewrite (@nth_indep _ _ x 0%Z (-1)%Z) by (now rewrite repeat_length). apply nth_repeat.
      + intros w Lw. rewrite nth_repeat. cbn [flat_map firstn count_occ repeat app]. now destruct (nxt s w).
      + intros w Lw. rewrite nth_repeat. cbn [map sum]. rewrite nth_upd by (rewrite ?repeat_length; lia). destruct (Nat.eqb_spec w s) as [->|N]; cbn [andb b2n Nat.add].
        * reflexivity.
        * rewrite nth_repeat. symmetry. apply Nat.mod_0_l. assert (X := M_pos). lia.
    - exists st, O. auto.
  Qed.

  (** ** The backward phase *)
  Local Open Scope Qc_scope.
  Notation dep := (dep g s).
  Lemma pull_ok pc w : length pc = n -> (w < n)%nat -> nth w pc 0%nat <> 0%nat -> forall P delta, ~ In w P -> (forall v, In v P -> (v < n)%nat) -> length delta = n ->
    exists delta', rfold (bc_pull pc w) P delta = Ok delta' /\ length delta' = n /\
      forall v, (v < n)%nat -> nth v delta' 0 = nth v delta 0 + qn (cocc P v) * (qn (nth v pc 0%nat) / qn (nth w pc 0%nat) * (1 + nth w delta 0)).
  Proof.
    intros Lp Lw Nz. induction P as [|v P IH]; intros delta NI LP Ld.
    - exists delta. split; auto. split; auto. intros v _. cbn [count_occ]. rewrite qn_0. ring.
    - assert (Lv : (v < n)%nat) by (apply LP; now left). cbn [rfold]. unfold bc_pull at 1.
      rewrite (@vget_nth _ delta v 0), (@vget_nth _ pc v 0%nat), (@vget_nth _ pc w 0%nat), (@vget_nth _ delta w 0) by lia. cbn [bind].
      unfold qdiv. replace (nth w pc 0 =? 0)%nat with false by (symmetry; now apply Nat.eqb_neq). cbn [bind]. rewrite vset_lt by lia. cbn [bind].
      match goal with |- context [rfold _ P ?d] => destruct (IH d) as (d' & E & L & H) end.
      + intros I. apply NI. now right.
      + intros x I. apply LP. now right.
      + now rewrite upd_length.
      + exists d'. split; auto. split; auto. intros x Lx. rewrite H by auto.
        assert (Ew : v <> w) by (intros ->; apply NI; now left).
        rewrite (@nth_upd_neq _ delta v w) by auto. cbn [count_occ]. destruct (Nat.eq_dec v x) as [->|N].
        * rewrite nth_upd_eq, qn_S by lia. ring.
        * rewrite nth_upd_neq by auto. reflexivity.
  Qed.
  Lemma cocc_par_out x : forall O v, ~ In v O -> cocc (flat_map (par x) O) v = 0%nat.
  Proof.
    intros O v N. apply count_occ_not_In. intros I. apply in_flat_map in I. destruct I as (y & Y & I). unfold par in I.
    destruct (nxt y x); [|destruct I]. apply repeat_spec in I. congruence.
  Qed.
  Lemma cocc_par x : forall O v, NoDup O -> In v O -> cocc (flat_map (par x) O) v = if nxt v x then cocc (row v) x else 0%nat.
  Proof.
    intros O v ND. induction ND as [|y O N ND IH]; intros I; [destruct I|]. cbn [flat_map]. rewrite count_occ_app.
    destruct (Nat.eq_dec y v) as [->|Ne].
    - rewrite cocc_par_out by auto. unfold par. destruct (nxt v x); [rewrite count_repeat, Nat.eqb_refl; lia|reflexivity].
    - destruct I as [->|I]; [congruence|]. rewrite IH by auto. unfold par at 1. destruct (nxt y x); auto. rewrite count_repeat.
      replace (v =? y)%nat with false; auto. symmetry. apply Nat.eqb_neq. auto.
  Qed.
  Lemma unwind_ok O st : fwd O st -> forall O2 O1 cent, O = O1 ++ O2 -> length cent = n ->
    exists delta cent', rfold (bc_unwind s (b_pc st) (b_P st)) (rev O2) (repeat 0 n, cent) = Ok (delta, cent') /\ length delta = n /\ length cent' = n /\
      (forall v, (v < n)%nat -> nth v delta 0 = qsum (map (fun x => qn (cocc (nth x (b_P st) []) v) * (qn (sg v) / qn (sg x) * (1 + dep x))) O2)) /\
      (forall v, (v < n)%nat -> nth v cent' 0 = nth v cent 0 + (if mem v O2 && negb (v =? s)%nat then dep v else 0)).
  Proof.
    intros [(ND & Re & So) Lp LP _ _ _ HP Hc]. assert (LO : forall x, In x O -> (x < n)%nat) by (intros x I; apply Re in I; destruct I as [k W]; eapply walk_lt; eauto).
    induction O2 as [|w O2 IH]; intros O1 cent E Lc.
    - exists (repeat 0 n), cent. cbn [rev rfold]. split; auto. split; [apply repeat_length|]. split; auto. split.
      + intros v _. apply nth_repeat.
      + intros v _. cbn [mem existsb andb]. ring.
    - destruct (IH (O1 ++ [w]) cent) as (delta & cent1 & Er & Ldl & Lc1 & Hd & Hce); [now rewrite <- app_assoc|auto|].
      assert (Iw : In w O) by (rewrite E; apply in_or_app; right; now left). assert (Lw := LO _ Iw). assert (Rw := proj1 (Re w) Iw).
      assert (Nz : nth w (b_pc st) 0%nat <> 0%nat) by (rewrite Hc by auto; assert (X := sg_pos T Hs Rw); lia).
      assert (SS : StronglySorted (fun x y => forall a b, dist g s x a -> dist g s y b -> (a <= b)%nat) (O1 ++ w :: O2)) by (now rewrite <- E).
      assert (Dw : nth w delta 0 = dep w).
      { rewrite Hd, (dep_rec T Hs Rw) by auto. rewrite (@qsum_count (fun x => qn (sg w) / qn (sg x) * (1 + dep x)) (nxt w) (row w) O2).
        - apply qsum_ext. intros x Ix. assert (IxO : In x O) by (rewrite E; apply in_or_app; right; now right).
          rewrite HP, cocc_par by auto. destruct (nxt w x); auto. rewrite qn_0. ring.
        - rewrite E in ND. apply NoDup_remove_1 in ND. clear - ND. induction O1; auto. inversion ND; auto.
        - intros x Ix Nx. assert (IxO : In x O) by (apply Re; eapply reach_edge; eauto; exact Ix).
          rewrite E in IxO. apply in_app_or in IxO. apply nxt_dist in Nx; auto. destruct Nx as (a & D1 & D2). destruct IxO as [I|[<-|I]]; auto; exfalso.
          + apply StronglySorted_app_inv in SS. destruct SS as (_ & _ & SS). specialize (SS x w I (or_introl eq_refl) _ _ D2 D1). lia.
          + assert (X := dist_fun D1 D2). lia. }
      cbn [rev]. rewrite rfold_app, Er. cbn [bind rfold bc_unwind]. rewrite (@vget_nth _ (b_P st) w []) by lia. cbn [bind].
      destruct (@pull_ok (b_pc st) w Lp Lw Nz (nth w (b_P st) []) delta) as (delta' & E' & Ld' & H'); auto.
      { rewrite HP by auto. intros I. apply in_flat_map in I. destruct I as (y & Y & I). unfold par in I. destruct (nxt y w) eqn:Nx; [|destruct I].
        apply repeat_spec in I. subst y. rewrite nxt_irrefl in Nx by auto. discriminate. }
      { intros v I. rewrite HP in I by auto. apply in_flat_map in I. destruct I as (y & Y & I). unfold par in I. destruct (nxt y w); [|destruct I].
        apply repeat_spec in I. subst y. auto. }
      rewrite E'. cbn [bind].
      assert (HD : forall v, (v < n)%nat -> nth v delta' 0 = qsum (map (fun x => qn (cocc (nth x (b_P st) []) v) * (qn (sg v) / qn (sg x) * (1 + dep x))) (w :: O2))).
      { intros v Lv. rewrite H', Hd, Dw by auto. cbn [map qsum]. rewrite (Hc w Rw).
        destruct (in_dec Nat.eq_dec v O) as [Iv|Nv].
        - rewrite (Hc v) by (now apply Re). ring.
        - rewrite (HP w) by auto. rewrite cocc_par_out by auto. rewrite qn_0. ring. }
      assert (Dw' : nth w delta' 0 = dep w).
      { rewrite H', Dw by auto. rewrite HP, cocc_par, nxt_irrefl, qn_0 by auto. ring. }
      assert (Nw : mem w O2 = false) by (apply mem_false; rewrite E in ND; apply NoDup_remove_2 in ND; intros X; apply ND; apply in_or_app; now right).
      destruct (Nat.eqb_spec w s) as [->|Ns].
      + exists delta', cent1. split; auto. split; auto. split; auto. split; auto. intros v Lv. rewrite Hce by auto. cbn [mem existsb].
        fold (mem v O2). destruct (Nat.eqb_spec v s) as [->|N]; cbn [negb orb]; [rewrite !andb_false_r; ring|reflexivity].
      + rewrite (@vget_nth _ cent1 w 0), (@vget_nth _ delta' w 0) by lia. cbn [bind]. rewrite vset_lt by lia. cbn [bind]. eexists. eexists.
        split; [reflexivity|]. split; auto. split; [now rewrite upd_length|]. split; auto. intros v Lv. rewrite nth_upd by (rewrite ?repeat_length; lia). cbn [mem existsb]. fold (mem v O2).
        destruct (Nat.eqb_spec v w) as [->|N]; cbn [andb orb].
        * rewrite Hce, Nw, Dw' by auto. cbn [andb].
          replace (w =? s)%nat with false by (symmetry; now apply Nat.eqb_neq). cbn [negb]. ring.
        * apply Hce. auto.
  Qed.
  Lemma source_ok cent : length cent = n -> exists cent', bc_source g M cent s = Ok cent' /\ length cent' = n /\
    forall v, (v < n)%nat -> nth v cent' 0 = nth v cent 0 + (if negb (v =? s)%nat then dep v else 0).
  Proof.
    intros Lc. destruct fwd_ok as (pc & d & st & O & E1 & E2 & E3 & F). unfold bc_source. rewrite E1, E2. cbn [bind]. rewrite E3. cbn [bind].
    destruct (@unwind_ok O st F O [] cent eq_refl Lc) as (delta & cent' & E & _ & L & _ & H). rewrite E. cbn [bind snd]. exists cent'. split; auto. split; auto.
    intros v Lv. rewrite H by auto. f_equal. destruct (mem v O) eqn:Mv; auto. cbn [andb]. destruct (negb (v =? s)%nat); auto.
    symmetry. apply dep_unreach. intros R. apply mem_false in Mv. apply Mv. now apply (proj1 (proj2 (fw_ord F))).
  Qed.
End P.

Lemma sources_ok g M : targets_ok g -> (forall s t, s < length g -> sg g s t < M) -> forall srcs cent, (forall s, In s srcs -> s < length g) -> length cent = length g ->
  exists cent', rfold (bc_source g M) srcs cent = Ok cent' /\ length cent' = length g /\
    forall v, v < length g -> nth v cent' 0%Qc = (nth v cent 0 + qsum (map (fun s => dependency g s v) (filter (fun s => negb (s =? v)%nat) srcs)))%Qc.
Proof.
  intros T HM. induction srcs as [|s srcs IH]; intros cent HS L.
  - exists cent. split; auto. split; auto. intros v _. cbn. ring.
  - cbn [rfold]. assert (Ls : s < length g) by (apply HS; now left). destruct (@source_ok g s M T Ls (fun t => HM s t Ls) cent L) as (c1 & E1 & L1 & H1).
    rewrite E1. cbn [bind]. destruct (IH c1) as (c2 & E2 & L2 & H2); auto; [intros x I; apply HS; now right|].
    exists c2. split; auto. split; auto. intros v Lv. rewrite H2, H1 by auto. cbn [filter]. rewrite (Nat.eqb_sym s v).
    destruct (negb (v =? s)); cbn [map qsum]; unfold dep; ring.
Qed.

(** ** The largest score *)
Lemma qmax_ge l : forall x, (x <= qmax x l)%Qc /\ forall y, In y l -> (y <= qmax x l)%Qc.
Proof.
  induction l as [|z l IH]; intros x; cbn [qmax].
  - split; [apply Qcle_refl|]. intros y [].
  - destruct (Qclt_le_dec x z) as [L|L].
    + destruct (IH z) as [A B]. split; [eapply Qcle_trans; [apply Qclt_le_weak; eauto|auto]|]. intros y [<-|I]; auto.
    + destruct (IH x) as [A B]. split; auto. intros y [<-|I]; auto. eapply Qcle_trans; eauto.
Qed.
Lemma qmax_in l : forall x, In (qmax x l) (x :: l).
Proof.
  induction l as [|z l IH]; intros x; cbn [qmax]; [now left|]. destruct (Qclt_le_dec x z).
  - right. apply IH.
  - destruct (IH x) as [<-|I]; [now left|right; now right].
Qed.
