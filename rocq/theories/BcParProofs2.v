(** The parallel brandes_bc, continued: integral counts, and the roots together. *)
From Coq Require Import List Arith ZArith Qcanon Field Lia Bool Permutation.
From Verif Require Import Base GraphLib SumLib QcLib BcLib Pool ParBfsModel ParBfsProofs BcModel BcProofs BcParProofs.
Import ListNotations.
Set Implicit Arguments.
Local Open Scope nat_scope.

(** ** Specification of what is left when the quotients are truncated *)
(** Every shortest path from [s] to [t] visits [v], and there are no more of them than shortest paths to [v]. *)
Definition funnel (g : list (list nat)) (s t v : nat) : bool :=
  match distf g s t, distf g s v with
  | Some b, Some a => (through g b s t v =? cnt g b s t) && (cnt g b s t =? cnt g a s v)
  | _, _ => false
  end.
Definition funnels (g : list (list nat)) (s v : nat) : nat :=
  length (filter (fun t => negb (t =? v) && funnel g s t v) (seq 0 (length g))).

Section I.
  Variables (g : list (list nat)) (s : nat).
  Hypothesis (T : targets_ok g) (Hs : s < length g).
  Notation sg := (sg g s).
  Notation rest := (rest g s).
  Notation nxt := (nxt g s).
  Lemma through_le k u t v : through g k u t v <= cnt g k u t.
  Proof.
    unfold through, cnt. induction (paths g k u) as [|p l IH]; auto. cbn [filter]. destruct (ends_at t p); cbn [andb]; auto.
    destruct (mem v p); cbn [length]; lia.
  Qed.
  Lemma sg_rest v t : reachable g s v -> reachable g s t -> sg v * rest v t <= sg t.
  Proof.
    intros Rv Rt. apply dist_reach in Rv. destruct Rv as [a Da]. apply dist_reach in Rt. destruct Rt as [b Db].
    rewrite (sg_dist T Hs Da), (sg_dist T Hs Db). unfold BcLib.rest. rewrite (proj2 (distf_Some v T Hs) Da), (proj2 (distf_Some t T Hs) Db).
    destruct (Nat.leb_spec a b) as [L|L]; [|lia]. rewrite <- (through_eq Db Da L). apply through_le.
  Qed.
  Lemma rest_reach v t : 0 < rest v t -> reachable g s t.
  Proof.
    unfold BcLib.rest. destruct (distf g s v) as [a|]; [|lia]. destruct (distf g s t) as [b|] eqn:E; [|lia]. intros _. apply (distf_Some _ T Hs) in E.
    exists b. apply E.
  Qed.
  Definition F (v t : nat) : bool := (sg t =? sg v) && (0 <? rest v t).
  Lemma funnel_F v t : reachable g s v -> t < length g -> funnel g s t v = F v t.
  Proof.
    intros Rv Lt. assert (Pv := sg_pos T Hs Rv). unfold funnel, F. apply dist_reach in Rv. destruct Rv as [a Da].
    destruct (distf g s t) as [b|] eqn:Eb.
    - apply (distf_Some _ T Hs) in Eb. rewrite (proj2 (distf_Some v T Hs) Da). rewrite <- (sg_dist T Hs Da), <- (sg_dist T Hs Eb).
      unfold BcLib.rest. rewrite (proj2 (distf_Some v T Hs) Da), (proj2 (distf_Some t T Hs) Eb).
      destruct (Nat.eqb_spec (sg t) (sg v)) as [E1|E1]; [|now rewrite andb_false_r]. rewrite andb_true_r. cbn [andb].
      destruct (Nat.leb_spec a b) as [L|L].
      + rewrite (through_eq Eb Da L), <- (sg_dist T Hs Da). assert (X := @sg_rest v t (ex_intro _ a (proj1 Da)) (ex_intro _ b (proj1 Eb))).
        unfold BcLib.rest in X. rewrite (proj2 (distf_Some v T Hs) Da), (proj2 (distf_Some t T Hs) Eb) in X. rewrite (proj2 (Nat.leb_le a b) L) in X.
        destruct (Nat.ltb_spec 0 (cnt g (b - a) v t)), (Nat.eqb_spec (sg v * cnt g (b - a) v t) (sg t)); auto; nia.
      + rewrite (through_far Eb Da L). apply Nat.eqb_neq. lia.
    - unfold BcLib.rest. rewrite Eb. destruct (distf g s v); cbn; now rewrite andb_false_r.
  Qed.
  Lemma sg_nxt u v : edge g u v -> nxt u v = true -> sg u <= sg v.
  Proof.
    intros Ed Nx. destruct (nxt_reach T Hs _ _ Nx) as [Ru Rv]. assert (X := sg_rest Ru Rv). enough (0 < rest u v) by nia.
    rewrite (rest_rec T Hs Ru) by (intros ->; rewrite (nxt_irrefl T Hs) in Nx; discriminate).
    apply sum_pos. exists v. split; [exact Ed|]. rewrite Nx, (rest_self T Hs Rv). lia.
  Qed.
  Lemma F_rec u t : reachable g s u -> t <> u ->
    b2n (F u t) = sum (map (fun w => if nxt u w && (sg w =? sg u) then b2n (F w t) else 0) (nth u g [])).
  Proof.
    intros Ru N. assert (Pu := sg_pos T Hs Ru). assert (RR := rest_rec T Hs Ru N). unfold F at 1.
    destruct (Nat.eqb_spec (sg t) (sg u)) as [E|E]; cbn [andb].
    - destruct (Nat.ltb_spec 0 (rest u t)) as [L|L]; cbn [b2n].
      + assert (Rt := rest_reach _ _ L). assert (X := sg_rest Ru Rt). assert (E1 : rest u t = 1) by nia.
        rewrite <- E1, RR. apply sum_map_ext. intros w W. destruct (nxt u w) eqn:Nx; auto. cbn [andb].
        destruct (nxt_reach T Hs _ _ Nx) as [_ Rw]. assert (Y := sg_rest Rw Rt). assert (Z := sg_nxt _ _ W Nx).
        unfold F. destruct (Nat.ltb_spec 0 (rest w t)) as [L'|L'].
        * replace (sg w) with (sg u) by nia. rewrite Nat.eqb_refl, E, Nat.eqb_refl. cbn. nia.
        * rewrite andb_false_r. cbn [b2n]. destruct (sg w =? sg u); lia.
      + symmetry. apply sum_map_0. intros w W. destruct (nxt u w) eqn:Nx; auto. cbn [andb]. destruct (sg w =? sg u); auto. unfold F.
        replace (0 <? rest w t) with false; [now rewrite andb_false_r|]. symmetry. apply Nat.ltb_ge.
        destruct (Nat.le_gt_cases (rest w t) 0) as [|G]; auto. exfalso. assert (P : 0 < sum (map (fun w => if nxt u w then rest w t else 0) (nth u g []))).
        { apply sum_pos. exists w. rewrite Nx. auto. }
        lia.
    - symmetry. apply sum_map_0. intros w W. destruct (nxt u w) eqn:Nx; auto. cbn [andb]. destruct (Nat.eqb_spec (sg w) (sg u)) as [Ew|]; auto.
      unfold F. rewrite Ew. replace (sg t =? sg u) with false; auto. symmetry. now apply Nat.eqb_neq.
  Qed.
  Local Open Scope Qc_scope.
  Lemma funnels_rec u : reachable g s u ->
    qn (funnels g s u) = qsum (map (fun v => if nxt u v then qn (sg u / sg v) * (1 + qn (funnels g s v)) else 0) (nth u g [])).
  Proof.
    intros Ru. set (n := length g). assert (Pu := sg_pos T Hs Ru).
    assert (FU : forall v, reachable g s v -> (S (funnels g s v) = sum (map (fun t => b2n (F v t)) (seq 0 n)))%nat).
    { intros v Rv. unfold funnels. fold n.
      assert (LV : In v (seq 0 n)). { apply in_seq. destruct Rv as [k W]. assert (X := walk_lt T Hs W). unfold n. lia. }
      assert (FV : F v v = true). { unfold F. rewrite Nat.eqb_refl, (rest_self T Hs Rv). reflexivity. }
      assert (Q : forall l, NoDup l -> (forall t, In t l -> (t < n)%nat) ->
        (sum (map (fun t => b2n (F v t)) l) = b2n (mem v l) + length (filter (fun t => negb (t =? v)%nat && funnel g s t v) l))%nat).
      { induction l as [|t l IH]; intros NDl Ll; auto. inversion NDl; subst. cbn [map sum mem existsb filter]. fold (mem v l).
        rewrite IH by (auto; intros; apply Ll; now right). destruct (Nat.eqb_spec t v) as [->|Nt].
        - rewrite FV, Nat.eqb_refl. cbn [negb andb orb b2n]. rewrite (proj2 (mem_false _ _)) by auto. cbn [b2n]. lia.
        - replace (v =? t)%nat with false by (symmetry; apply Nat.eqb_neq; auto). cbn [negb andb orb]. rewrite funnel_F by (auto; apply Ll; now left).
          destruct (F v t); cbn [b2n length]; lia. }
      rewrite Q; [|apply seq_NoDup|intros t I; apply in_seq in I; lia]. rewrite (proj2 (mem_In _ _)) by auto. reflexivity. }
    transitivity (qn (sum (map (fun w => if nxt u w && (sg w =? sg u)%nat then S (funnels g s w) else 0%nat) (nth u g [])))).
    - f_equal. transitivity (sum (map (fun w => sum (map (fun t => if nxt u w && (sg w =? sg u)%nat then b2n (F w t) else 0%nat) (seq 0 n))) (nth u g []))).
      2:{ apply sum_map_ext. intros w W. destruct (nxt u w) eqn:Nx; cbn [andb]; [|now apply sum_map_0]. destruct (sg w =? sg u)%nat; [|now apply sum_map_0].
          symmetry. apply FU. apply (nxt_reach T Hs _ _ Nx). }
      transitivity (sum (map (fun t => sum (map (fun w => if nxt u w && (sg w =? sg u)%nat then b2n (F w t) else 0%nat) (nth u g []))) (seq 0 n))).
      2:{ clear FU. generalize (nth u g []). intros l. induction (seq 0 n) as [|t q IH]; cbn [map sum].
          - symmetry. now apply sum_map_0.
          - rewrite IH, <- sum_map_add. reflexivity. }
      assert (X := FU u Ru). assert (LU : In u (seq 0 n)). { apply in_seq. destruct Ru as [k W]. assert (Y := walk_lt T Hs W). unfold n. lia. }
      assert (S1 : forall t, t = u -> sum (map (fun w => if nxt u w && (sg w =? sg u)%nat then b2n (F w t) else 0%nat) (nth u g [])) = 0%nat).
      { intros t ->. apply sum_map_0. intros w W. destruct (nxt u w) eqn:Nx; auto. cbn [andb]. destruct (sg w =? sg u)%nat; auto. unfold F.
        replace (rest w u) with 0%nat; [now rewrite andb_false_r|]. apply (nxt_dist T Hs) in Nx. destruct Nx as (a & D1 & D2).
        unfold BcLib.rest. rewrite (proj2 (distf_Some w T Hs) D2), (proj2 (distf_Some u T Hs) D1). replace (S a <=? a)%nat with false; auto. symmetry. apply Nat.leb_gt. lia. }
      assert (FV : F u u = true). { unfold F. rewrite Nat.eqb_refl, (rest_self T Hs Ru). reflexivity. }
      apply Nat.succ_inj. rewrite X. assert (NDs := seq_NoDup n 0). revert LU NDs. generalize (seq 0 n). clear - S1 FV Ru T Hs.
      induction l as [|t l IH]; intros LU NDs; [destruct LU|]. inversion NDs; subst. cbn [map sum]. destruct (Nat.eq_dec t u) as [->|Nt].
      + rewrite FV, (S1 u eq_refl). cbn [b2n Nat.add]. f_equal. apply sum_map_ext. intros t I. apply F_rec; auto. intros ->. auto.
      + destruct LU as [|LU]; [congruence|]. rewrite IH by auto. rewrite F_rec by auto. lia.
    - rewrite qn_sum. apply qsum_ext. intros w W. destruct (nxt u w) eqn:Nx; cbn [andb]; [|reflexivity]. assert (Z := sg_nxt _ _ W Nx).
      destruct (nxt_reach T Hs _ _ Nx) as [_ Rw]. assert (Pw := sg_pos T Hs Rw).
      destruct (Nat.eqb_spec (sg w) (sg u)) as [->|Ne].
      + rewrite Nat.div_same by lia. rewrite qn_S, qn_1. ring.
      + rewrite Nat.div_small by lia. rewrite qn_0. ring.
  Qed.
  Lemma funnels_unreach v : ~ reachable g s v -> funnels g s v = 0%nat.
  Proof.
    intros N. unfold funnels. rewrite (@filter_none _ _ (seq 0 (length g))); auto. intros t _. unfold funnel. apply (distf_None _ T Hs) in N. rewrite N.
    destruct (distf g s t); now rewrite andb_false_r.
  Qed.
End I.

(** ** All roots *)
Section A.
  Local Open Scope Qc_scope.
  Notation total x ts := (qsum (map (addsum x) ts)).
  Lemma add_ok n sched ts bc : length bc = n -> (forall t p, In t ts -> In p t -> (fst p < n)%nat) ->
    exists bc', run_all (@length _) add_step sched ts bc = Ok bc' /\ length bc' = n /\ forall x, (x < n)%nat -> nth x bc' 0 = nth x bc 0 + total x ts.
  Proof.
    intros L HP.
    destruct (@run_all_inv _ _ (@length (nat * Qc)) add_step (fun ts' b => length b = n /\ (forall t p, In t ts' -> In p t -> (fst p < n)%nat) /\
       forall x, (x < n)%nat -> nth x b 0 + total x ts' = nth x bc 0 + total x ts)) with (sched := sched) (ts := ts) (s := bc) as (bc' & E & Lb & _ & H).
    - intros l1 t l2 b (Lb & HB & H). destruct t as [|[u x] r]; cbn [add_step].
      + exists None, b. split; auto. split; auto. split; auto. split.
        * intros t p I. apply HB. apply in_app_or in I. apply in_or_app. destruct I; auto. right. now right.
        * intros y Ly. rewrite <- H by auto. cbn [opt_list app]. rewrite !map_app, !qsum_app. cbn [map qsum]. unfold addsum at 4. cbn. ring.
      + assert (Lu : (u < n)%nat) by (apply (HB ((u, x) :: r) (u, x)); [apply in_or_app; right; now left|now left]).
        rewrite (@vget_nth _ b u 0) by lia. cbn [bind]. rewrite vset_lt by lia. cbn [bind]. eexists. eexists. split; [reflexivity|]. split; [|cbn; lia].
        split; [now rewrite upd_length|]. split.
        * intros t p I J. apply (in_mid _ ((u, x) :: r)) in I. destruct I as [[<-|[]]|I]; eauto. apply (HB ((u, x) :: r) p); [apply in_or_app; right; now left|now right].
        * intros y Ly. rewrite <- H by auto. rewrite nth_upd by lia. cbn [opt_list]. rewrite !map_app, !qsum_app. cbn [map qsum].
          unfold addsum at 5. cbn [filter fst]. rewrite (Nat.eqb_sym u y). destruct (Nat.eqb_spec y u) as [->|]; cbn [map snd qsum]; unfold addsum; ring.
    - auto.
    - exists bc'. split; auto. split; auto. intros x Lx. rewrite <- (H x Lx). cbn. ring.
  Qed.
End A.
Lemma par_sources_ok (vmax M nb : nat) (integral : bool) g : targets_ok g -> length g <= vmax -> 0 < nb -> (forall s t, s < length g -> sg g s t < M) ->
  forall (sched : nat -> nat -> nat -> nat) srcs k, (forall s, In s srcs -> s < length g) ->
  exists adds, rmap (fun ks => pb_source vmax M nb integral g (sched (fst ks)) (snd ks)) (combine (seq k (length srcs)) srcs) = Ok adds /\
    (forall t p, In t adds -> In p t -> fst p < length g) /\
    forall x, qsum (map (addsum x) adds) = qsum (map (fun s => if integral then qn (funnels g s x) else dependency g s x) srcs).
Proof.
  intros T HV HB HM sched. induction srcs as [|s srcs IH]; intros k HS.
  - exists []. split; [reflexivity|]. split; [intros t p J; destruct J|]. intros x. reflexivity.
  - assert (Ls : s < length g) by (apply HS; now left). destruct (IH (S k)) as (adds & E & H1 & H2); [intros x X; apply HS; now right|].
    destruct (@psource_ok g s M vmax nb T Ls (fun t => HM s t Ls) HV HB integral (fun x => if integral then qn (funnels g s x) else dependency g s x) (sched k)) as (a & Ea & A1 & A2 & A3).
    { intros u R. destruct integral; [now apply funnels_rec|]. now apply (dep_rec T Ls). }
    exists (a :: adds). cbn [length seq combine rmap fst snd]. rewrite Ea. cbn [bind]. rewrite E. cbn [bind]. split; auto. split.
    + intros t p [<-|I] J; [auto|eauto].
    + intros x. cbn [map qsum]. rewrite H2. f_equal. destruct (distf g s x) as [d|] eqn:Ed.
      * apply (distf_Some _ T Ls) in Ed. apply A2. exists d. apply Ed.
      * apply (distf_None _ T Ls) in Ed. rewrite A3 by auto. destruct integral.
        -- rewrite funnels_unreach, qn_0 by auto. reflexivity.
        -- symmetry. now apply dep_unreach.
Qed.
