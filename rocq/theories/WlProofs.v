(** Proofs about approx_betweenness_worklist_serial: the forward loop. *)
From Coq Require Import List Arith ZArith Qcanon Field Lia Bool Sorted Permutation.
From Verif Require Import Base GraphLib FifoLib SumLib QcLib BcLib BcModel WlModel.
Import ListNotations.
Set Implicit Arguments.
Local Open Scope nat_scope.

(** the graph without its parallel arcs *)
Definition simple (g : list (list nat)) : list (list nat) := map (nodup Nat.eq_dec) g.

Lemma simple_row g v : nth v (simple g) [] = nodup Nat.eq_dec (nth v g []).
Proof. unfold simple. change (@nil nat) with (nodup Nat.eq_dec []) at 1. apply map_nth. Qed.
Lemma simple_edge g u v : edge (simple g) u v <-> edge g u v.
Proof. unfold edge. rewrite simple_row. apply nodup_In. Qed.
Lemma simple_length g : length (simple g) = length g.
Proof. apply map_length. Qed.
Lemma simple_walk g s k v : walk (simple g) s k v <-> walk g s k v.
Proof. split; intros W; induction W; econstructor; eauto; now apply simple_edge. Qed.
Lemma simple_dist g s v d : dist (simple g) s v d <-> dist g s v d.
Proof. unfold dist. rewrite simple_walk. split; intros [A B]; split; auto; intros k W; apply B; now apply simple_walk. Qed.
Lemma simple_targets g : targets_ok g -> targets_ok (simple g).
Proof. intros T u v E. rewrite simple_length. eapply T. apply simple_edge. exact E. Qed.
Lemma simple_reach g s v : reachable (simple g) s v <-> reachable g s v.
Proof. unfold reachable. split; intros [k W]; exists k; now apply simple_walk. Qed.

Lemma sadd_In l x y : In y (sadd l x) <-> In y l \/ y = x.
Proof.
  unfold sadd. destruct (mem x l) eqn:E.
  - apply mem_In in E. intuition. now subst.
  - rewrite in_app_iff. cbn [In]. intuition.
Qed.
Lemma sadd_NoDup l x : NoDup l -> NoDup (sadd l x).
Proof. intros N. unfold sadd. destruct (mem x l) eqn:E; auto. apply NoDup_snoc; auto. now apply mem_false. Qed.
Lemma sadd_new l x : ~ In x l -> sadd l x = l ++ [x].
Proof. intros N. unfold sadd. apply mem_false in N. now rewrite N. Qed.

Section F.
  Variables (g : list (list nat)) (s vmax M : nat) (ord : nat -> list nat -> list nat).
  Hypothesis (T : targets_ok g) (Hs : s < length g) (HM : forall t, sg (simple g) s t < M) (HV : length g <= vmax)
    (HO : forall v l, Permutation (ord v l) l).
  Notation n := (length g).
  Notation row v := (nth v g []).
  Notation sg := (sg (simple g) s).
  Notation nxt := (nxt (simple g) s).
  Notation nd0 := (node0 vmax).
  Notation nd x vs := (nth x vs (node0 vmax)).

  Lemma Hs' : s < length (simple g).
  Proof. now rewrite simple_length. Qed.
  Lemma nxt_g v w : nxt v w = true <-> exists a, dist g s v a /\ dist g s w (S a).
  Proof. rewrite nxt_dist by (auto using simple_targets, Hs'). split; intros (a & A & B); exists a; split; now apply simple_dist. Qed.
  (** the arcs of the shortest-path graph seen so far: those out of [D], and those out of the first [i] places of [u] *)
  Definition seen_arc (D : list nat) (u i x w : nat) : Prop :=
    nxt x w = true /\ ((In x D /\ edge g x w) \/ (x = u /\ In w (firstn i (row u)))).

  Record winv (D : list nat) (u i : nat) (Q : list nat) (vs : list node) : Prop := {
    wi_f : exists Tr, finv g s D u i Q Tr;
    wi_len : length vs = n;
    wi_in : forall x k, In x (D ++ u :: Q) -> dist g s x k -> n_l (nd x vs) = k;
    wi_out : forall x, x < n -> ~ In x (D ++ u :: Q) -> n_l (nd x vs) = vmax /\ n_preds (nd x vs) = [];
    wi_pd : forall w, NoDup (n_preds (nd w vs));
    wi_p : forall w x, w < n -> In x (n_preds (nd w vs)) <-> seen_arc D u i x w;
    wi_sd : forall x, NoDup (n_succs (nd x vs));
    wi_s : forall x w, x < n -> In w (n_succs (nd x vs)) <-> seen_arc D u i x w;
    wi_e1 : forall x w k, In w (n_succs (nd x vs)) -> dist g s x k -> n_els (nd x vs) w = (k, sg x);
    wi_e0 : forall x w, x < n -> (x <> s \/ w <> s) -> ~ In w (n_succs (nd x vs)) -> n_els (nd x vs) w = (0, 0);
    wi_ne : forall x, In x (D ++ u :: Q) -> x <> s -> n_preds (nd x vs) <> [];
    wi_pc : forall w, w < n -> n_pc (nd w vs) = (b2n (w =? s) + sum (map sg (n_preds (nd w vs)))) mod M }.

  Lemma M_pos : 1 < M.
  Proof. assert (X := HM s). rewrite sg_s in X; auto using simple_targets, Hs'. Qed.
  Lemma sum_sg w X : reachable g s w -> NoDup X -> (forall v, In v X <-> nxt v w = true /\ edge g v w) ->
    b2n (w =? s) + sum (map sg X) = sg w.
  Proof.
    intros R ND C. assert (T' := simple_targets T). assert (S' := Hs'). destruct (Nat.eqb_spec w s) as [->|N].
    - rewrite sum_map_0; [rewrite sg_s; auto|]. intros v I. apply C in I. rewrite nxt_s in I by auto. destruct I; discriminate.
    - cbn [b2n Nat.add]. symmetry. rewrite (@sg_rec (simple g) s T' S' w X); auto.
      + apply sum_map_ext. intros v I. apply C in I. destruct I as [-> E].
        assert (count_occ Nat.eq_dec (nth v (simple g) []) w = 1); [|lia]. rewrite simple_row. apply NoDup_count_occ'; [apply NoDup_nodup|]. now apply nodup_In.
      + now apply simple_reach.
      + intros v E1 E2. apply C. split; auto. now apply simple_edge.
  Qed.
  Lemma winv_u D u i Q vs : winv D u i Q vs -> u < n /\ exists a, dist g s u a /\ n_l (nd u vs) = a /\ n_pc (nd u vs) = sg u.
  Proof.
    intros [[Tr F] Ln Hi Ho Pd Hp Sd Hsu E1 E0 Ne Hc]. assert (I : In u (D ++ u :: Q)) by (apply in_or_app; right; now left).
    destruct (fi_dist F _ I) as [a Da]. assert (Lu : u < n) by (eapply walk_lt; eauto; apply Da). split; auto. exists a. split; auto. split; [auto|].
    rewrite Hc by auto. rewrite sum_sg; auto.
    - apply Nat.mod_small. auto.
    - exists a. apply Da.
    - intros v. rewrite Hp by auto. unfold seen_arc. split.
      + intros [N [[A B]|[-> B]]]; [auto|]. exfalso. apply nxt_g in N. destruct N as (k & D1 & D2). assert (X := dist_fun D1 D2). lia.
      + intros [N Ed]. split; auto. left. split; auto. apply nxt_g in N. destruct N as (b & Dv & Du). assert (X := dist_fun Da Du). subst a.
        exact (proj2 (@finv_below _ _ _ _ _ _ _ F _ Da b v (Nat.le_succ_diag_r _) Dv) (Nat.lt_succ_diag_r _)).
  Qed.
  Lemma seen_S D u i w x y : nth_error (row u) i = Some w ->
    seen_arc D u (S i) x y <-> seen_arc D u i x y \/ (x = u /\ y = w /\ nxt u w = true).
  Proof.
    intros E. unfold seen_arc. rewrite (firstn_S_nth _ _ E), in_app_iff. cbn [In]. split.
    - intros (N & [A|(-> & [A|[<-|[]]])]); auto.
    - intros [(N & [A|[-> A]])|(-> & -> & N)]; auto 6.
  Qed.
  Arguments seen_S [D u i w] x y _.
  Lemma seen_skip D u i w : nth_error (row u) i = Some w -> (nxt u w = true -> seen_arc D u i u w) ->
    forall x y, seen_arc D u (S i) x y <-> seen_arc D u i x y.
  Proof. intros E H x y. rewrite (seen_S x y E). split; auto. intros [A|(-> & -> & N)]; auto. Qed.

  Lemma add_ok D u i Q Q' vs vs' w a : winv D u i Q vs -> nth_error (row u) i = Some w -> dist g s u a -> nxt u w = true -> ~ In w (n_succs (nd u vs)) ->
    (exists Tr, finv g s D u (S i) Q' Tr) -> (forall x, In x (D ++ u :: Q') <-> In x (D ++ u :: Q) \/ x = w) ->
    vs' = upd (upd vs w {| n_l := a + 1; n_pc := (n_pc (nd w vs) + sg u) mod M; n_preds := sadd (n_preds (nd w vs)) u; n_succs := n_succs (nd w vs); n_els := n_els (nd w vs) |})
      u {| n_l := n_l (nd u vs); n_pc := n_pc (nd u vs); n_preds := n_preds (nd u vs); n_succs := sadd (n_succs (nd u vs)) w;
                n_els := mput (n_els (nd u vs)) w (a, sg u) |} ->
    winv D u (S i) Q' vs'.
  Proof.
    intros B E Da Nx Ns F' QQ Ev. destruct (winv_u B) as (Lu & a' & Da' & Eu & Ep). rewrite (dist_fun Da' Da) in Eu. clear a' Da'.
    destruct B as [[Tr F] Ln Hi Ho Pd Hp Sd Hsu E1 E0 Ne Hc].
    assert (Ed : edge g u w) by (eapply nth_error_In; eauto). assert (Lw : w < n) by (eapply T; eauto).
    assert (Dw : dist g s w (S a)). { apply nxt_g in Nx. destruct Nx as (k & D1 & D2). now rewrite <- (dist_fun D1 Da). }
    assert (Nuw : u <> w). { intros ->. assert (X := dist_fun Da Dw). lia. }
    assert (Npw : ~ In u (n_preds (nd w vs))) by (intros X; apply Ns; apply Hsu; auto; now apply Hp).
    assert (Nu : nd u vs' = {| n_l := n_l (nd u vs); n_pc := n_pc (nd u vs); n_preds := n_preds (nd u vs); n_succs := sadd (n_succs (nd u vs)) w;
          n_els := mput (n_els (nd u vs)) w (a, sg u) |}).
    { rewrite Ev. now rewrite nth_upd_eq by (rewrite upd_length; lia). }
    assert (Nw : nd w vs' = {| n_l := a + 1; n_pc := (n_pc (nd w vs) + sg u) mod M; n_preds := sadd (n_preds (nd w vs)) u; n_succs := n_succs (nd w vs); n_els := n_els (nd w vs) |}).
    { rewrite Ev. rewrite nth_upd_neq by auto. now rewrite nth_upd_eq by lia. }
    assert (No : forall x, x <> u -> x <> w -> nd x vs' = nd x vs).
    { intros x X1 X2. rewrite Ev. rewrite !nth_upd_neq by auto. auto. }
    assert (Ln' : length vs' = n) by (rewrite Ev, !upd_length; auto). clear Ev.
    assert (NL : forall x, x <> w -> n_l (nd x vs') = n_l (nd x vs)).
    { intros x X2. destruct (Nat.eq_dec x u) as [->|X1]; [now rewrite Nu|]. now rewrite No. }
    assert (NP : forall x, n_preds (nd x vs') = if x =? w then sadd (n_preds (nd w vs)) u else n_preds (nd x vs)).
    { intros x. destruct (Nat.eqb_spec x w) as [->|X2]; [now rewrite Nw|]. destruct (Nat.eq_dec x u) as [->|X1]; [now rewrite Nu|]. now rewrite No. }
    assert (NS : forall x, n_succs (nd x vs') = if x =? u then sadd (n_succs (nd u vs)) w else n_succs (nd x vs)).
    { intros x. destruct (Nat.eqb_spec x u) as [->|X2]; [now rewrite Nu|]. destruct (Nat.eq_dec x w) as [->|X1]; [now rewrite Nw|]. now rewrite No. }
    assert (NE : forall x, n_els (nd x vs') = if x =? u then mput (n_els (nd u vs)) w (a, sg u) else n_els (nd x vs)).
    { intros x. destruct (Nat.eqb_spec x u) as [->|X2]; [now rewrite Nu|]. destruct (Nat.eq_dec x w) as [->|X1]; [now rewrite Nw|]. now rewrite No. }
    constructor; auto.
    - intros x k X1 X2. destruct (Nat.eq_dec x w) as [->|X3]; [rewrite Nw; cbn [n_l]; rewrite (dist_fun X2 Dw); lia|]. rewrite NL by auto. apply Hi; auto. apply QQ in X1. tauto.
    - intros x X1 X2. rewrite QQ in X2. rewrite NP. destruct (Nat.eqb_spec x w) as [->|X3]; [tauto|]. rewrite NL by auto. apply Ho; auto.
    - intros x. rewrite NP. destruct (x =? w); auto. now apply sadd_NoDup.
    - intros x y Lx. rewrite NP, (seen_S _ _ E). destruct (Nat.eqb_spec x w) as [->|X3].
      + rewrite sadd_In, Hp by auto. intuition.
      + rewrite Hp by auto. intuition.
    - intros x. rewrite NS. destruct (x =? u); auto. now apply sadd_NoDup.
    - intros x y Lx. rewrite NS, (seen_S _ _ E). destruct (Nat.eqb_spec x u) as [->|X3].
      + rewrite sadd_In, Hsu by auto. intuition.
      + rewrite Hsu by auto. intuition.
    - intros x y k X1 X2. rewrite NE. rewrite NS in X1. destruct (Nat.eqb_spec x u) as [->|X3]; auto. unfold mput.
      rewrite (dist_fun X2 Da). destruct (Nat.eqb_spec y w) as [->|X4]; auto. apply sadd_In in X1. destruct X1 as [X1|X1]; [|congruence]. auto.
    - intros x y Lx X1 X2. rewrite NE. rewrite NS in X2. destruct (Nat.eqb_spec x u) as [->|X3]; auto. unfold mput.
      rewrite sadd_In in X2. destruct (Nat.eqb_spec y w) as [->|X4]; [tauto|]. apply E0; auto.
    - intros x X1 X2. rewrite NP. destruct (Nat.eqb_spec x w) as [->|X3]; [rewrite sadd_new by auto; now destruct (n_preds (nd w vs))|]. apply Ne; auto. apply QQ in X1. tauto.
    - intros x Lx. destruct (Nat.eq_dec x w) as [->|X3].
      + rewrite Nw. cbn [n_pc n_preds]. rewrite sadd_new, map_app, sum_app by auto. rewrite Hc by auto. assert (X := M_pos).
        rewrite Nat.add_mod_idemp_l by lia. f_equal. cbn [map sum]. lia.
      + rewrite NP. replace (x =? w) with false by (symmetry; apply Nat.eqb_neq; auto). rewrite <- Hc by auto.
        destruct (Nat.eq_dec x u) as [->|X1]; [now rewrite Nu|]. now rewrite No.
  Qed.
  Lemma skip_ok D u i Q vs w : winv D u i Q vs -> nth_error (row u) i = Some w -> In w (D ++ u :: Q) -> (nxt u w = true -> seen_arc D u i u w) -> winv D u (S i) Q vs.
  Proof.
    intros [[Tr F] Ln Hi Ho Pd Hp Sd Hsu E1 E0 Ne Hc] E I H. assert (SS : forall x y, seen_arc D u (S i) x y <-> seen_arc D u i x y) by (now apply seen_skip with w).
    constructor; auto.
    - exists Tr. eapply finv_skip; eauto.
    - intros x y Lx. rewrite SS. auto.
    - intros x y Lx. rewrite SS. auto.
  Qed.
  Lemma item_ok D u i Q vs w : winv D u i Q vs -> nth_error (row u) i = Some w ->
    exists vs' new, wl_item g vmax M ord vs (u, w) = Ok (vs', flat_map (fun x => map (pair x) (row x)) new) /\ winv D u (S i) (Q ++ new) vs'.
  Proof.
    intros B E. destruct (winv_u B) as (Lu & a & Da & Eu & Ep). assert (B0 := B). destruct B as [[Tr F] Ln Hi Ho Pd Hp Sd Hsu E1 E0 Ne Hc].
    assert (Ed : edge g u w) by (eapply nth_error_In; eauto). assert (Lw : w < n) by (eapply T; eauto).
    assert (Iu : In u (D ++ u :: Q)) by (apply in_or_app; right; now left).
    assert (La : a < n) by (exact (dist_lt_n T Hs Da)).
    unfold wl_item. rewrite (@vget_nth _ vs w nd0), (@vget_nth _ vs u nd0) by lia. cbn [bind].
    assert (UW : nxt u w = true -> u <> w).
    { intros N ->. apply nxt_g in N. destruct N as (k & D1 & D2). assert (X := dist_fun D1 D2). lia. }
    destruct (@walk_dist g s w (S a)) as (b & Lb2 & Db); [econstructor; [apply Da|exact Ed]|].
    destruct (in_dec Nat.eq_dec w (D ++ u :: Q)) as [I|N].
    - (* seen before *)
      assert (Ew := Hi _ _ I Db).
      destruct (Nat.eq_dec b (S a)) as [->|Nb].
      + (* one further *)
        assert (Nx : nxt u w = true) by (apply nxt_g; eauto). assert (Nuw := UW Nx).
        unfold g_cn. rewrite Ew, Eu. replace (S a <=? a) with false by (symmetry; apply Nat.leb_gt; lia). cbn [andb].
        unfold g_sp. rewrite Ew, Eu. replace (a + 1 <? S a) with false by (symmetry; apply Nat.ltb_ge; lia).
        unfold g_fu. rewrite Ew, Eu. replace (S a =? a + 1) with true by (symmetry; apply Nat.eqb_eq; lia). cbn [andb].
        destruct (in_dec Nat.eq_dec w (n_succs (nd u vs))) as [Is|Ns].
        * rewrite (E1 _ _ _ Is Da). cbn [fst]. rewrite Nat.eqb_refl. cbn [negb].
          unfold g_us. rewrite (E1 _ _ _ Is Da). cbn [fst snd]. rewrite Ep, Nat.eqb_refl. cbn [negb]. rewrite andb_false_r.
          exists vs, []. cbn [flat_map]. split; auto. rewrite app_nil_r. apply Hsu in Is; auto. eapply skip_ok; eauto.
        * assert (Na : a <> 0).
          { intros ->. apply dist_0 in Da. subst u. assert (Nw : w <> s) by auto.
            destruct (n_preds (nd w vs)) as [|p l] eqn:EP; [now apply (Ne w)|].
            assert (Ip : In p (n_preds (nd w vs))) by (rewrite EP; now left). apply Hp in Ip; auto.
            assert (p = s). { destruct Ip as [Np _]. apply nxt_g in Np. destruct Np as (k & D1 & D2). assert (X := dist_fun Db D2). injection X as <-. now apply dist_0 in D1. }
            subst p. apply Hsu in Ip; auto. }
          rewrite E0; auto. 2:{ left. intros ->. apply Na. eapply dist_fun; eauto. now apply dist_0. }
          cbn [fst]. replace (0 =? a) with false by (symmetry; apply Nat.eqb_neq; auto). cbn [negb].
          unfold apply_fu. rewrite vset_lt by lia. cbn [bind]. rewrite vset_lt by (rewrite upd_length; lia). cbn [bind].
          rewrite (@vget_nth _ g w []) by auto. cbn [bind]. rewrite (@vget_nth _ _ w nd0) by (rewrite !upd_length; lia). cbn [bind].
          assert (Sw : n_succs (nd w vs) = []).
          { destruct (n_succs (nd w vs)) as [|y l] eqn:Y; auto. exfalso. assert (Iy : In y (n_succs (nd w vs))) by (rewrite Y; now left).
            apply Hsu in Iy; auto. destruct Iy as [Ny [[ID _]|[-> _]]]; [|congruence].
            assert (SS := fi_sort F). apply StronglySorted_app_inv in SS. destruct SS as (_ & _ & SS). specialize (SS w u ID (or_introl eq_refl) _ _ Db Da). lia. }
          rewrite nth_upd_neq by auto. rewrite nth_upd_eq by lia. cbn [n_succs]. rewrite Sw.
          eexists. exists []. cbn [flat_map]. split; [reflexivity|]. rewrite app_nil_r.
          eapply add_ok; eauto.
          { exists Tr. eapply finv_skip; eauto. }
          { intros x. split; auto. intros [X| ->]; auto. }
          { rewrite Ew, Eu, Ep, ?Sw. replace (a + 1) with (S a) by lia. reflexivity. }
      + (* not further *)
        assert (Lba : b <= a) by lia.
        assert (Nx : nxt u w = true -> seen_arc D u i u w).
        { intros X. exfalso. apply nxt_g in X. destruct X as (k & D1 & D2). assert (X1 := dist_fun D1 Da). assert (X2 := dist_fun D2 Db). lia. }
        assert (K := skip_ok B0 E I Nx).
        destruct (g_cn vmax w (nd u vs) (nd w vs)) eqn:Ecn.
        * unfold g_cn in Ecn. apply andb_prop in Ecn. destruct Ecn as [Ecn _]. apply andb_prop in Ecn. destruct Ecn as [_ Ecn]. apply Nat.eqb_eq in Ecn. rewrite Eu in Ecn.
          assert (Ns : ~ In w (n_succs (nd u vs))).
          { intros X. apply Hsu in X; auto. destruct X as [X _]. apply nxt_g in X. destruct X as (k & D1 & D2). assert (X1 := dist_fun D1 Da). assert (X2 := dist_fun D2 Db). lia. }
          assert (SS : u = s /\ w = s).
          { destruct (Nat.eq_dec u s) as [->|Xu].
            - split; auto. assert (a = 0) by (eapply dist_fun; eauto; now apply dist_0). subst a. replace b with 0 in Db by lia. now apply dist_0 in Db.
            - exfalso. rewrite E0 in Ecn by auto. cbn [fst] in Ecn. apply Xu. rewrite <- Ecn in Da. now apply dist_0 in Da. }
          destruct SS as [-> ->]. unfold apply_cn. rewrite vset_lt by lia. cbn [bind]. eexists. exists []. cbn [flat_map]. split; [reflexivity|]. rewrite app_nil_r.
          assert (SR : srem (n_succs (nd s vs)) s = n_succs (nd s vs)).
          { apply filter_all. intros y Y. apply negb_true_iff. apply Nat.eqb_neq. congruence. }
          rewrite SR. set (nn := {| n_l := _ |}).
          assert (NX : forall (A : Type) (f : node -> A), f nn = f (nd s vs) -> forall x, f (nd x (upd vs s nn)) = f (nd x vs)).
          { intros A f X x. rewrite nth_upd by lia. destruct (Nat.eqb_spec x s) as [->|]; auto. }
          destruct K as [KF Kn Ki Ko Kpd Kp Ksd Ks K1 K0 Kne Kc]. constructor; auto.
          { now rewrite upd_length. }
          { intros x k. rewrite (NX _ n_l eq_refl). auto. }
          { intros x. rewrite (NX _ n_l eq_refl), (NX _ n_preds eq_refl). auto. }
          { intros x. rewrite (NX _ n_preds eq_refl). auto. }
          { intros x y. rewrite (NX _ n_preds eq_refl). auto. }
          { intros x. rewrite (NX _ n_succs eq_refl). auto. }
          { intros x y. rewrite (NX _ n_succs eq_refl). auto. }
          { intros x y k. rewrite (NX _ n_succs eq_refl). intros X1 X2. rewrite nth_upd by lia. destruct (Nat.eqb_spec x s) as [->|X3]; auto.
            cbn [n_els nn]. unfold mput. destruct (Nat.eqb_spec y s) as [->|X4]; [now destruct Ns|auto]. }
          { intros x y Lx X1. rewrite (NX _ n_succs eq_refl). intros X2. rewrite nth_upd by lia. destruct (Nat.eqb_spec x s) as [->|X3]; auto.
            cbn [n_els nn]. unfold mput. destruct (Nat.eqb_spec y s) as [->|X4]; [now destruct X1|auto]. }
          { intros x. rewrite (NX _ n_preds eq_refl). auto. }
          { intros x. rewrite (NX _ n_preds eq_refl), (NX _ n_pc eq_refl). auto. }
        * unfold g_sp, g_fu, g_us. rewrite Ew, Eu. replace (a + 1 <? b) with false by (symmetry; apply Nat.ltb_ge; lia).
          replace (b =? a + 1) with false by (symmetry; apply Nat.eqb_neq; lia). rewrite andb_false_r. cbn [andb].
          exists vs, []. cbn [flat_map]. split; auto. now rewrite app_nil_r.
    - (* new *)
      destruct (Ho _ Lw N) as [Ew Pw].
      assert (F' := finv_add F E N). assert (I' : In w (D ++ u :: Q ++ [w])) by (apply in_or_app; right; right; apply in_or_app; right; now left).
      assert (Dw : dist g s w (S a)) by (apply (fi_tree F' u w); auto; apply in_or_app; right; now left).
      assert (Nx : nxt u w = true) by (apply nxt_g; eauto). assert (Nuw := UW Nx).
      assert (Lsa : S a < n) by (exact (dist_lt_n T Hs Dw)).
      unfold g_cn. rewrite Ew, Eu. replace (vmax <=? a) with false by (symmetry; apply Nat.leb_gt; lia). cbn [andb].
      unfold g_sp. rewrite Ew, Eu. replace (a + 1 <? vmax) with true by (symmetry; apply Nat.ltb_lt; lia).
      unfold apply_spfu. rewrite vset_lt by lia. cbn [bind]. rewrite vset_lt by (rewrite upd_length; lia). cbn [bind].
      rewrite (@vget_nth _ g w []) by auto. cbn [bind]. rewrite Pw.
      replace (ord w []) with (@nil nat) by (symmetry; apply Permutation_nil; apply Permutation_sym; auto).
      cbn [map]. rewrite app_nil_r. eexists. exists [w]. cbn [flat_map]. rewrite app_nil_r. split; [reflexivity|].
      eapply add_ok; eauto.
      + intros X. apply Hsu in X; auto. destruct X as [_ [[X1 X2]|[_ X]]]; apply N; [eapply (fi_closed F); eauto|now apply (fi_part F)].
      + intros x. rewrite !in_app_iff. cbn [In]. rewrite in_app_iff. cbn [In]. intuition.
      + assert (Sw : n_succs (nd w vs) = []).
        { destruct (n_succs (nd w vs)) as [|y l] eqn:Y; auto. exfalso. assert (Iy : In y (n_succs (nd w vs))) by (rewrite Y; now left).
          apply Hsu in Iy; auto. destruct Iy as [Ny [[ID _]|[-> _]]]; [|congruence]. apply N. apply in_or_app. auto. }
        rewrite (Hc w Lw), Pw, Sw, Eu, Ep by auto. replace (w =? s) with false.
        * cbn [b2n map sum Nat.add]. rewrite Nat.mod_0_l by (assert (X := M_pos); lia). cbn [Nat.add]. rewrite Nat.mod_small by auto. reflexivity.
        * symmetry. apply Nat.eqb_neq. intros ->. assert (X := dist_fun Dw (proj2 (dist_0 g s s) eq_refl)). lia.
  Qed.

  (** what the forward loop leaves behind *)
  Record wfwd (vs : list node) : Prop := {
    wf_len : length vs = n;
    wf_pd : forall w, NoDup (n_preds (nd w vs));
    wf_p : forall w x, w < n -> In x (n_preds (nd w vs)) <-> nxt x w = true /\ edge g x w;
    wf_sd : forall x, NoDup (n_succs (nd x vs));
    wf_s : forall x w, x < n -> In w (n_succs (nd x vs)) <-> nxt x w = true /\ edge g x w;
    wf_pc : forall w, reachable g s w -> n_pc (nd w vs) = sg w }.
  Definition arcs (l : list nat) : list (nat * nat) := flat_map (fun x => map (pair x) (row x)) l.
  Definition load (l : list nat) : nat := sum (map (fun x => length (row x)) l).
  Lemma load_le l : NoDup l -> (forall x, In x l -> x < n) -> load l <= sum (map (@length nat) g).
  Proof.
    intros ND L. assert (E : sum (map (@length nat) g) = load (seq 0 n)).
    { unfold load. f_equal. clear. induction g as [|r l IH]; auto. cbn [length map seq]. f_equal. rewrite <- seq_shift, map_map. exact IH. }
    rewrite E. unfold load. clear E. assert (I : incl l (seq 0 n)) by (intros x X; apply in_seq; specialize (L _ X); lia).
    clear L. revert I. generalize (seq 0 n). induction ND as [|x l N ND IH]; intros m I; [cbn; lia|]. assert (Ix : In x m) by (apply I; now left).
    apply in_split in Ix. destruct Ix as (m1 & m2 & ->). rewrite map_app, sum_app. cbn [map sum].
    enough (sum (map (fun x => length (row x)) l) <= sum (map (fun x => length (row x)) (m1 ++ m2))) by (rewrite map_app, sum_app in H; lia).
    apply IH. intros y Y. assert (X : In y (m1 ++ x :: m2)) by (apply I; now right). apply in_app_or in X. apply in_or_app. destruct X as [X|[->|X]]; auto. now destruct N.
  Qed.
  Lemma fwd_end D u vs : winv D u (length (row u)) [] vs -> wfwd vs.
  Proof.
    intros [[Tr F] Ln Hi Ho Pd Hp Sd Hsu E1 E0 Ne Hc]. assert (FD := finv_done F eq_refl).
    assert (SA : forall x w, seen_arc D u (length (row u)) x w <-> nxt x w = true /\ edge g x w).
    { intros x w. unfold seen_arc. rewrite firstn_all. split.
      - intros (A & [[_ B]|[-> B]]); auto.
      - intros (A & B). split; auto. assert (R : reachable g s x) by (apply nxt_g in A; destruct A as (k & D1 & _); exists k; apply D1).
        apply FD in R. apply in_app_or in R. destruct R as [R|[<-|[]]]; auto. }
    constructor; auto.
    - intros w x Lw. rewrite Hp, SA by auto. reflexivity.
    - intros w x Lw. rewrite Hsu, SA by auto. reflexivity.
    - intros w R. assert (Lw : w < n) by (destruct R as [k W]; exact (walk_lt T Hs W)). rewrite Hc, sum_sg; auto; [now apply Nat.mod_small|].
      intros v. rewrite Hp, SA by auto. reflexivity.
  Qed.
  Lemma skipn_nth (A : Type) (l : list A) : forall i, match nth_error l i with Some x => skipn i l = x :: skipn (S i) l | None => skipn i l = [] end.
  Proof. induction l as [|x l IH]; intros [|i]; cbn; auto. apply IH. Qed.
  Lemma next_vertex D u v Q vs : winv D u (length (row u)) (v :: Q) vs -> winv (D ++ [u]) v 0 Q vs.
  Proof.
    intros [[Tr F] Ln Hi Ho Pd Hp Sd Hsu E1 E0 Ne Hc].
    assert (AA : (D ++ [u]) ++ v :: Q = D ++ u :: v :: Q) by (now rewrite <- app_assoc).
    assert (SA : forall x w, seen_arc (D ++ [u]) v 0 x w <-> seen_arc D u (length (row u)) x w).
    { intros x w. unfold seen_arc. rewrite firstn_all. cbn [firstn In]. rewrite in_app_iff. cbn [In]. unfold edge. intuition; subst; auto. }
    constructor; rewrite ?AA; auto.
    - exists Tr. eapply finv_next; eauto.
    - intros w x Lw. rewrite Hp, SA by auto. reflexivity.
    - intros w x Lw. rewrite Hsu, SA by auto. reflexivity.
  Qed.
  Lemma load_app l1 l2 : load (l1 ++ l2) = load l1 + load l2.
  Proof. unfold load. now rewrite map_app, sum_app. Qed.
  Lemma NoDup_app_l (A : Type) (l m : list A) : NoDup (l ++ m) -> NoDup l.
  Proof. induction l as [|y l IHl]; intros X; constructor; inversion X; subst; auto. intros Y. match goal with H : ~ _ |- _ => apply H end. apply in_or_app. auto. Qed.
  Lemma winv_load D u i Q vs : winv D u i Q vs -> load (D ++ [u]) <= sum (map (@length nat) g).
  Proof.
    intros [[Tr F] _ _ _ _ _ _ _ _ _ _ _]. apply load_le.
    - apply NoDup_app_l with Q. rewrite <- app_assoc. apply (fi_nodup F).
    - intros x X. destruct (fi_dist F x) as [d Y]; [apply in_app_or in X; apply in_or_app; destruct X as [X|[<-|[]]]; cbn; auto|]. eapply walk_lt; eauto. apply Y.
  Qed.
  Lemma fwd_loop : forall fuel Q D u i vs, winv D u i Q vs -> i <= length (row u) -> sum (map (@length nat) g) < fuel + load D + i ->
    exists vs', wl_fwd fuel g vmax M ord vs (map (pair u) (skipn i (row u)) ++ arcs Q) = Ok vs' /\ wfwd vs'.
  Proof.
    induction fuel as [|fuel IHf]; induction Q as [|v Q IHQ]; intros D u i vs B Li Lf;
      (destruct (Nat.eq_dec i (length (row u))) as [Ei|Ni]; [subst i; rewrite skipn_all; cbn [map app]|]).
    1,5: exists vs; split; [reflexivity|eapply fwd_end; eauto].
    2,5: assert (N := next_vertex B); destruct (IHQ (D ++ [u]) v 0 vs N) as (vs' & E & W); [lia|rewrite load_app; cbn; lia|]; exists vs'; split; auto.
    1,2: exfalso; assert (X := winv_load B); rewrite load_app in X; cbn in X; lia.
    1,2: assert (NE := skipn_nth (row u) i); destruct (nth_error (row u) i) as [w|] eqn:E; [|apply nth_error_None in E; lia];
      rewrite NE; cbn [map app wl_fwd]; destruct (item_ok B E) as (vs1 & new & -> & B1); cbn [bind fst snd];
      destruct (IHf _ D u (S i) vs1 B1) as (vs' & E' & W'); [lia|lia|]; exists vs'; split; auto; rewrite <- E'; f_equal; rewrite <- app_assoc; f_equal;
      unfold arcs; now rewrite flat_map_app.
  Qed.
  Lemma forward_ok : exists vs0 vs, vset (repeat nd0 n) s {| n_l := 0; n_pc := 1 mod M; n_preds := []; n_succs := []; n_els := fun _ => (0, 0) |} = Ok vs0 /\
    wl_fwd (S (sum (map (@length nat) g))) g vmax M ord vs0 (map (pair s) (row s)) = Ok vs /\ wfwd vs.
  Proof.
    rewrite vset_lt by (now rewrite repeat_length). eexists.
    match goal with |- exists vs, Ok ?v = _ /\ _ => set (vs0 := v) end.
    assert (N0 : forall x, x <> s -> nd x vs0 = nd0).
    { intros x X. unfold vs0. rewrite nth_upd_neq by auto. apply nth_repeat. }
    assert (N1 : nd s vs0 = {| n_l := 0; n_pc := 1 mod M; n_preds := []; n_succs := []; n_els := fun _ => (0, 0) |}).
    { unfold vs0. rewrite nth_upd_eq; auto. now rewrite repeat_length. }
    assert (NP : forall x, n_preds (nd x vs0) = []).
    { intros x. destruct (Nat.eq_dec x s) as [->|X]; [now rewrite N1|now rewrite N0]. }
    assert (NS : forall x, n_succs (nd x vs0) = []).
    { intros x. destruct (Nat.eq_dec x s) as [->|X]; [now rewrite N1|now rewrite N0]. }
    assert (SA : forall x w, ~ seen_arc [] s 0 x w) by (intros x w (_ & [[[] _]|[_ []]])).
    destruct (@fwd_loop (S (sum (map (@length nat) g))) [] [] s 0 vs0) as (vs & E & W); [|lia|cbn; lia|].
    - constructor; rewrite ?NP, ?NS.
      + exists []. apply finv_init.
      + unfold vs0. now rewrite upd_length, repeat_length.
      + intros x k [<-|[]] Dx. rewrite N1. symmetry. eapply dist_fun; eauto. now apply dist_0.
      + intros x Lx X. rewrite N0, ?NP; auto. intros ->. apply X. now left.
      + intros w. rewrite NP. constructor.
      + intros w x Lw. rewrite NP. split; [intros []|]. intros X. now apply SA in X.
      + intros w. rewrite NS. constructor.
      + intros w x Lw. rewrite NS. split; [intros []|]. intros X. now apply SA in X.
      + intros x w k. rewrite NS. intros [].
      + intros x w Lx _ _. destruct (Nat.eq_dec x s) as [->|X]; [now rewrite N1|now rewrite N0].
      + intros x [<-|[]] X. congruence.
      + intros w Lw. rewrite NP. destruct (Nat.eqb_spec w s) as [->|X]; [now rewrite N1|rewrite N0 by auto]. cbn [b2n map sum Nat.add n_pc node0].
        rewrite Nat.mod_0_l; auto. assert (X1 := M_pos). lia.
    - exists vs. split; auto. split; auto. rewrite <- E. cbn [skipn arcs flat_map]. now rewrite app_nil_r.
  Qed.
End F.
