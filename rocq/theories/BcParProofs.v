(** Proofs about the parallel brandes_bc. *)
From Coq Require Import List Arith ZArith Qcanon Field Lia Bool Permutation.
From Verif Require Import Base GraphLib SumLib QcLib BcLib Pool ParBfsModel ParBfsProofs BcModel BcProofs.
Import ListNotations.
Set Implicit Arguments.
Local Open Scope nat_scope.

(** ** Arc positions *)
Definition off (g : list (list nat)) (u : nat) : nat := sum (map (@length nat) (firstn u g)).
Lemma off_S g : forall u, u < length g -> off g (S u) = off g u + length (nth u g []).
Proof.
  unfold off. induction g as [|r g IH]; intros u L; cbn [length] in L; [lia|]. destruct u as [|u].
  - cbn. lia.
  - cbn [firstn map sum nth]. rewrite <- Nat.add_assoc, <- IH by lia. reflexivity.
Qed.
Lemma off_mono g : forall u v, u <= v -> off g u <= off g v.
Proof.
  unfold off. induction g as [|r g IH]; intros u v L; [now rewrite !firstn_nil|]. destruct u as [|u]; [cbn; lia|]. destruct v as [|v]; [lia|].
  cbn [firstn map sum]. assert (X := IH u v ltac:(lia)). lia.
Qed.
Lemma off_all g u : off g u <= sum (map (@length nat) g).
Proof.
  unfold off. revert u. induction g as [|r g IH]; intros u; [now rewrite firstn_nil|]. destruct u; cbn [firstn map sum]; [lia|]. assert (X := IH u). lia.
Qed.
Definition arc (g : list (list nat)) (e u v : nat) : Prop := In (e, v) (arcs_of g u).
Lemma arcs_snd g u : map snd (arcs_of g u) = nth u g [].
Proof.
  unfold arcs_of. generalize (sum (map (@length nat) (firstn u g))). induction (nth u g []) as [|x r IH]; intros k; auto. cbn. now rewrite IH.
Qed.
Lemma arc_edge g e u v : arc g e u v -> edge g u v.
Proof. intros A. unfold edge. rewrite <- arcs_snd. change v with (snd (e, v)). now apply in_map. Qed.
Arguments arc_edge {g e u v} _.
Lemma arc_pos g e u v : arc g e u v -> u < length g /\ off g u <= e < off g u + length (nth u g []) /\ nth (e - off g u) (nth u g []) 0 = v.
Proof.
  intros A. assert (E := arc_edge A). split.
  { destruct (Nat.lt_ge_cases u (length g)); auto. unfold edge in E. rewrite nth_overflow in E by auto. destruct E. }
  unfold arc, arcs_of in A. fold (off g u) in A. clear E. revert A. generalize (off g u). generalize (nth u g []). clear.
  induction l as [|x l IH]; intros k A; [destruct A|]. cbn [length seq combine] in A. destruct A as [A|A].
  - injection A as <- <-. cbn [length]. split; [lia|]. now rewrite Nat.sub_diag.
  - apply IH in A. destruct A as [A B]. cbn [length]. split; [lia|]. replace (e - k) with (S (e - S k)) by lia. exact B.
Qed.
Lemma arc_fun g e u v u' v' : arc g e u v -> arc g e u' v' -> u = u' /\ v = v'.
Proof.
  intros A B. apply arc_pos in A. apply arc_pos in B. destruct A as (L1 & P1 & <-), B as (L2 & P2 & <-).
  assert (u = u').
  { destruct (Nat.lt_trichotomy u u') as [L|[L|L]]; auto; exfalso.
    - assert (X := off_mono g L). rewrite off_S in X by auto. lia.
    - assert (X := off_mono g L). rewrite off_S in X by auto. lia. }
  subst u'. auto.
Qed.
Arguments arc_fun {g e u v u' v'} _ _.
Lemma arc_lt g e u v : arc g e u v -> e < sum (map (@length nat) g).
Proof. intros A. apply arc_pos in A. destruct A as (L & P & _). assert (X := off_all g (S u)). rewrite off_S in X by auto. lia. Qed.

Arguments arc_lt {g e u v} _.

(** ** Queues *)
Lemma concat_upd_perm (A : Type) (q : list (list A)) : forall b l v, nth_error q b = Some l -> Permutation (concat (upd q b (l ++ [v]))) (v :: concat q).
Proof.
  induction q as [|a q IH]; intros [|b] l v E; cbn in *; try discriminate.
  - injection E as ->. rewrite <- app_assoc. cbn. symmetry. apply Permutation_middle.
  - rewrite (IH b l v E). symmetry. apply Permutation_middle.
Qed.
Lemma bin_push_perm q i v : 0 < length q ->
  exists q', bin_push q i v = Ok q' /\ length q' = length q /\ Permutation (concat q') (v :: concat q).
Proof.
  intros L. unfold bin_push. assert (H : i mod length q < length q) by (apply Nat.mod_upper_bound; lia).
  destruct (nth_error q (i mod length q)) as [l|] eqn:E; [|apply nth_error_None in E; lia].
  rewrite (proj2 (vget_Ok q _ l) E). cbn [bind]. rewrite vset_lt by auto. eexists. split; [reflexivity|]. split; [apply upd_length|].
  now apply concat_upd_perm.
Qed.

Section P.
  Variables (g : list (list nat)) (s M vmax nb : nat).
  Hypothesis (T : targets_ok g) (Hs : s < length g) (HM : forall t, sg g s t < M) (HV : length g <= vmax) (HB : 0 < nb).
  Notation n := (length g).
  Notation sg := (sg g s).
  Notation E := (sum (map (@length nat) g)).
  Notation dist := (dist g s).

  (** ** One level of the forward phase *)
  Section L.
    Variables (lvl : nat) (fr : list nat).
    Hypothesis (HF : forall u, In u fr <-> exists k, lvl = S k /\ dist u k).
    Hypothesis (ND : NoDup fr).
    Definition pu (t : pb_task) : nat := match t with PLoad u _ | PGet u _ _ _ _ | PAdd u _ _ _ _ _ | PSet u _ _ _ _ | PCas u _ _ | PPush u _ _ => u end.
    Definition pcp (t : pb_task) : list (nat * nat) :=
      match t with PLoad _ r | PSet _ _ _ _ r | PCas _ _ r | PPush _ _ r => r | PGet _ e v _ r | PAdd _ e v _ _ r => (e, v) :: r end.
    Definition scp (t : pb_task) : list (nat * nat) :=
      match t with PLoad _ r | PCas _ _ r | PPush _ _ r => r | PGet _ e v _ r | PAdd _ e v _ _ r | PSet _ e v _ r => (e, v) :: r end.
    Definition cov (t : pb_task) : list nat :=
      match t with
      | PLoad _ r | PPush _ _ r => map snd r
      | PGet _ _ v f r | PAdd _ _ v f _ r | PSet _ _ v f r => if f then v :: map snd r else map snd r
      | PCas _ v r => v :: map snd r
      end.
    Definition ppush (t : pb_task) : list nat := match t with PPush _ v _ => [v] | _ => [] end.
    Definition contrib (x : nat) (t : pb_task) : nat := sg (pu t) * count_occ Nat.eq_dec (map snd (pcp t)) x.
    Definition tk_ok (st : pbs) (t : pb_task) : Prop :=
      In (pu t) fr /\ incl (scp t) (arcs_of g (pu t)) /\
      match t with
      | PLoad _ _ => True
      | PGet u _ v f _ | PSet u _ v f _ => dist v lvl /\ (f = false -> nth v (p_lv st) 0 = lvl)
      | PAdd u _ v f x _ => dist v lvl /\ (f = false -> nth v (p_lv st) 0 = lvl) /\ x = sg u
      | PCas _ v _ | PPush _ v _ => dist v lvl
      end.
    Record inv (ts : list pb_task) (st : pbs) : Prop := {
      i_lv : length (p_lv st) = n;
      i_pc : length (p_pc st) = n;
      i_sc : length (p_succ st) = E;
      i_nb : length (p_q2 st) = nb;
      i_tk : forall t, In t ts -> tk_ok st t;
      i_l1 : forall x a, dist x a -> a < lvl -> nth x (p_lv st) 0 = a;
      i_l2 : forall x, dist x lvl -> nth x (p_lv st) 0 = vmax \/ nth x (p_lv st) 0 = lvl;
      i_l3 : forall x, x < n -> (forall a, a <= lvl -> ~ dist x a) -> nth x (p_lv st) 0 = vmax;
      i_p1 : forall x a, dist x a -> a < lvl -> nth x (p_pc st) 0 = sg x;
      i_p2 : forall x, dist x lvl -> nth x (p_pc st) 0 + sum (map (contrib x) ts) = sg x;
      i_p3 : forall x, x < n -> (forall a, a <= lvl -> ~ dist x a) -> nth x (p_pc st) 0 = 0;
      i_qn : NoDup (concat (p_q2 st) ++ flat_map ppush ts);
      i_q : forall x, In x (concat (p_q2 st) ++ flat_map ppush ts) <-> dist x lvl /\ nth x (p_lv st) 0 = lvl;
      i_cov : forall x, dist x lvl -> nth x (p_lv st) 0 = lvl \/ exists t, In t ts /\ In x (cov t);
      i_s1 : forall e u v, arc g e u v -> nth e (p_succ st) false = true -> exists a, a < lvl /\ dist u a /\ dist v (S a);
      i_s2 : forall e u v a, arc g e u v -> a < lvl -> dist u a -> dist v (S a) -> nth e (p_succ st) false = true \/ exists t, In t ts /\ In (e, v) (scp t) }.
    Lemma rep l1 t l2 st os st' new : inv (l1 ++ t :: l2) st ->
      length (p_lv st') = n -> length (p_pc st') = n -> length (p_succ st') = E -> length (p_q2 st') = nb ->
      (forall t', In t' os -> tk_ok st' t') ->
      (forall x, ~ dist x lvl -> nth x (p_lv st') 0 = nth x (p_lv st) 0) ->
      (forall x, dist x lvl -> (nth x (p_lv st) 0 = lvl -> nth x (p_lv st') 0 = lvl)) ->
      (forall x, dist x lvl -> nth x (p_lv st') 0 = lvl <-> nth x (p_lv st) 0 = lvl \/ In x new) ->
      (forall x, dist x lvl -> nth x (p_lv st') 0 = vmax \/ nth x (p_lv st') 0 = lvl) ->
      (forall x, ~ dist x lvl -> nth x (p_pc st') 0 = nth x (p_pc st) 0) ->
      (forall x, dist x lvl -> nth x (p_pc st') 0 + sum (map (contrib x) os) = nth x (p_pc st) 0 + contrib x t) ->
      NoDup new -> (forall x, In x new -> dist x lvl /\ nth x (p_lv st) 0 <> lvl) ->
      Permutation (concat (p_q2 st') ++ flat_map ppush os) (new ++ concat (p_q2 st) ++ ppush t) ->
      (forall x, In x (cov t) -> dist x lvl -> nth x (p_lv st') 0 = lvl \/ exists t', In t' os /\ In x (cov t')) ->
      (forall e, nth e (p_succ st) false = true -> nth e (p_succ st') false = true) ->
      (forall e u v, arc g e u v -> nth e (p_succ st') false = true -> nth e (p_succ st) false = true \/ exists a, a < lvl /\ dist u a /\ dist v (S a)) ->
      (forall e u v a, arc g e u v -> a < lvl -> dist u a -> dist v (S a) -> In (e, v) (scp t) ->
         nth e (p_succ st') false = true \/ exists t', In t' os /\ In (e, v) (scp t')) ->
      inv (l1 ++ os ++ l2) st'.
    Proof.
      intros [A1 A2 A3 A4 A5 A6 A7 A8 A9 A10 A11 A12 A13 A14 A15 A16] L1 L2 L3 L4 TK V1 Vm V2 V3 P1 P2 Nn Hn PQ CV S1 S2 S3.
      assert (FQ : Permutation (concat (p_q2 st') ++ flat_map ppush (l1 ++ os ++ l2)) (new ++ concat (p_q2 st) ++ flat_map ppush (l1 ++ t :: l2))).
      { rewrite !flat_map_app. cbn [flat_map]. transitivity ((concat (p_q2 st') ++ flat_map ppush os) ++ flat_map ppush l1 ++ flat_map ppush l2).
        - rewrite <- !app_assoc. apply Permutation_app_head. rewrite !app_assoc. apply Permutation_app_tail. apply Permutation_app_comm.
        - rewrite PQ, <- !app_assoc. do 2 apply Permutation_app_head. rewrite !app_assoc. apply Permutation_app_tail. apply Permutation_app_comm. }
      assert (IN : forall x, In x (concat (p_q2 st') ++ flat_map ppush (l1 ++ os ++ l2)) <-> In x new \/ In x (concat (p_q2 st) ++ flat_map ppush (l1 ++ t :: l2))).
      { intros x. rewrite <- in_app_iff. split; apply Permutation_in; [exact FQ|now symmetry]. }
      constructor; auto.
      - intros t' I. apply (in_mid _ t) in I. destruct I as [I|I]; auto. destruct (A5 t' I) as (B1 & B2 & B3). split; auto. split; auto.
        destruct t'; intuition auto.
      - intros x a D La. rewrite V1; [eauto|]. intros D'. assert (X := dist_fun D D'). lia.
      - intros x Lx N. rewrite V1; auto.
      - intros x a D La. rewrite P1; [eauto|]. intros D'. assert (X := dist_fun D D'). lia.
      - intros x D. assert (X := A10 x D). assert (Y := P2 x D). rewrite !map_app, !sum_app in *. cbn [map sum] in *. lia.
      - intros x Lx N. rewrite P1; auto.
      - apply (Permutation_NoDup (Permutation_sym FQ)).
        assert (Dj : forall x, In x new -> ~ In x (concat (p_q2 st) ++ flat_map ppush (l1 ++ t :: l2))).
        { intros x I J. apply A13 in J. destruct (Hn x I). tauto. }
        clear - Nn Dj A12. revert Dj A12. generalize (concat (p_q2 st) ++ flat_map ppush (l1 ++ t :: l2)). intros q Dj ND.
        induction new as [|x l IH]; auto. inversion Nn; subst. cbn [app]. constructor.
        + intros I. apply in_app_or in I. destruct I; [auto|]. apply (Dj x); auto. now left.
        + apply IH; auto. intros y Y. apply Dj. now right.
      - intros x. rewrite IN, A13. split.
        + intros [I|[D I]]; [destruct (Hn x I) as [D _]|]; split; auto; apply V2; auto.
        + intros [D I]. apply V2 in I; auto. tauto.
      - intros x D. destruct (A14 x D) as [X|(t' & I & J)]; auto. apply (in_mid_inv _ _ os) in I. destruct I as [->|I].
        + destruct (CV x J D) as [|(t' & I' & J')]; auto. right. exists t'. split; auto. now apply in_mid_new.
        + right. exists t'. auto.
      - intros e u v A X. destruct (S2 e u v A X) as [Y|Y]; eauto.
      - intros e u v a A La Du Dv. destruct (A16 e u v a A La Du Dv) as [X|(t' & I & J)]; auto. apply (in_mid_inv _ _ os) in I. destruct I as [->|I].
        + destruct (S3 e u v a A La Du Dv J) as [|(t' & I' & J')]; auto. right. exists t'. split; auto. now apply in_mid_new.
        + right. exists t'. auto.
    Qed.
    Lemma fr_dist u : In u fr -> exists k, lvl = S k /\ dist u k.
    Proof. apply HF. Qed.
    Lemma dl_lt x k : dist x k -> x < n /\ k < vmax.
    Proof. intros D. split; [exact (walk_lt T Hs (proj1 D))|]. assert (X := dist_lt_n T Hs D). lia. Qed.
    Lemma sg_le x u r l1 l2 t st : dist x lvl -> inv (l1 ++ t :: l2) st -> pu t = u -> pcp t = r -> nth x (p_pc st) 0 + sg u * count_occ Nat.eq_dec (map snd r) x <= sg x.
    Proof. intros D I Eu Er. assert (X := i_p2 I D). rewrite map_app, sum_app in X. cbn [map sum] in X. unfold contrib in X at 2. rewrite Eu, Er in X. lia. Qed.
    Lemma step_ok l1 t l2 st : inv (l1 ++ t :: l2) st ->
      exists o st', pb_step vmax M lvl t st = Ok (o, st') /\ inv (l1 ++ opt_list o ++ l2) st' /\ match o with Some t' => pb_size t' < pb_size t | None => True end.
    Proof.
      intros I. assert (It : In t (l1 ++ t :: l2)) by (apply in_or_app; right; now left). assert (TK := i_tk I _ It). destruct TK as (Fu & Ar & TK).
      destruct (fr_dist _ Fu) as (k & Ek & Dk).
      assert (Q0 : forall q, Permutation (concat (p_q2 st) ++ q) ([] ++ concat (p_q2 st) ++ q)) by (intros; reflexivity).
      assert (L1 := i_lv I). assert (L2 := i_pc I). assert (L3 := i_sc I). assert (L4 := i_nb I).
      destruct t as [u [|[e v] r]|u e v f r|u e v f x r|u e v f r|u v r|u v r]; cbn [pb_step pu scp] in *.
      - exists None, st. split; auto. split; auto. apply (@rep l1 (PLoad u []) l2 st [] st []); auto; try (intros; cbn in *; tauto).
        + intros x D. apply (i_l2 I D).
        + intros x D. cbn. unfold contrib. cbn. lia.
        + constructor.
      - assert (Av : arc g e u v) by (apply Ar; now left). assert (Ev := arc_edge Av). assert (Lv := T _ _ Ev).
        rewrite (@vget_nth _ (p_lv st) v 0) by lia. cbn [bind].
        assert (Dv : (exists a, a < lvl /\ dist v a) \/ dist v lvl).
        { destruct (dist_reach g s v) as [_ R]. destruct (proj1 (dist_reach g s v)) as [a Da]; [exists (S k); econstructor; [apply Dk|exact Ev]|].
          assert (a <= S k) by (apply Da; econstructor; [apply Dk|exact Ev]). destruct (Nat.eq_dec a lvl) as [->|]; auto. left. exists a. split; auto. lia. }
        assert (Ar' : incl r (arcs_of g u)) by (intros z Z; apply Ar; now right).
        destruct ((nth v (p_lv st) 0 =? vmax) || (nth v (p_lv st) 0 =? lvl)) eqn:Bq.
        + assert (D : dist v lvl).
          { destruct Dv as [(a & La & Da)|]; auto. exfalso. rewrite (i_l1 I Da La) in Bq. destruct (dl_lt Da).
            apply orb_prop in Bq. destruct Bq as [B|B]; apply Nat.eqb_eq in B; lia. }
          eexists. eexists. split; [reflexivity|]. split; [|cbn; lia].
          apply (@rep l1 (PLoad u ((e, v) :: r)) l2 st [PGet u e v (nth v (p_lv st) 0 =? vmax) r] st []); auto; try (intros; cbn in *; tauto).
          * intros t' [<-|[]]. split; [exact Fu|]. split; [exact Ar|]. split; auto. intros B. destruct (i_l2 I D) as [X|X]; auto. apply Nat.eqb_neq in B. congruence.
          * intros x Dx. apply (i_l2 I Dx).
          * intros x Dx. cbn [map sum]. unfold contrib. cbn [pu pcp]. lia.
          * constructor.
          * intros x C Dx. destruct (i_l2 I Dx) as [X|X]; auto. right. eexists. split; [now left|]. cbn [cov map snd] in *. destruct C as [<-|C].
            -- rewrite X, Nat.eqb_refl. now left.
            -- destruct (nth v (p_lv st) 0 =? vmax); [now right|auto].
          * intros e' u' v' a A La Du Dv' J. right. eexists. split; [now left|]. exact J.
        + assert (D : ~ dist v lvl).
          { intros D. destruct (i_l2 I D) as [X|X]; rewrite X, Nat.eqb_refl in Bq; [discriminate|]. rewrite orb_true_r in Bq. discriminate. }
          eexists. eexists. split; [reflexivity|]. split; [|cbn; lia].
          apply (@rep l1 (PLoad u ((e, v) :: r)) l2 st [PLoad u r] st []); auto; try (intros; cbn in *; tauto).
          * intros t' [<-|[]]. split; [exact Fu|]. split; [exact Ar'|]. exact Logic.I.
          * intros x Dx. apply (i_l2 I Dx).
          * intros x Dx. cbn [map sum]. unfold contrib. cbn [pu pcp map snd]. rewrite count_occ_cons_neq by congruence. lia.
          * constructor.
          * intros x C Dx. right. eexists. split; [now left|]. cbn [cov map snd] in *. destruct C as [<-|C]; [tauto|auto].
          * intros e' u' v' a A La Du Dv' J. right. eexists. split; [now left|]. destruct J as [J|J]; auto. injection J as -> ->.
            destruct (arc_fun A Av) as [-> _]. assert (X := dist_fun Du Dk). subst a. rewrite Ek in D. tauto.
      - assert (Av : arc g e u v) by (apply Ar; now left). destruct TK as [Dv Fl]. destruct (dl_lt Dk) as [Lu _].
        rewrite (@vget_nth _ (p_pc st) u 0) by lia. cbn [bind]. eexists. eexists. split; [reflexivity|]. split; [|cbn; lia].
        apply (@rep l1 (PGet u e v f r) l2 st [PAdd u e v f (nth u (p_pc st) 0) r] st []); auto; try (intros; cbn in *; tauto).
        + intros t' [<-|[]]. split; [exact Fu|]. split; [exact Ar|]. split; auto. split; auto. apply (i_p1 I Dk). lia.
        + intros x Dx. apply (i_l2 I Dx).
        + intros x Dx. cbn [map sum]. unfold contrib. cbn [pu pcp]. lia.
        + constructor.
        + intros x C Dx. right. eexists. split; [now left|]. exact C.
        + intros e' u' v' a A La Du Dv' J. right. eexists. split; [now left|]. exact J.
      - assert (Av : arc g e u v) by (apply Ar; now left). destruct TK as (Dv & Fl & ->). destruct (dl_lt Dv) as [Lv _].
        rewrite (@vget_nth _ (p_pc st) v 0) by lia. cbn [bind]. rewrite vset_lt by lia. cbn [bind]. eexists. eexists. split; [reflexivity|]. split; [|cbn; lia].
        assert (B := @sg_le v u ((e, v) :: r) l1 l2 _ st Dv I eq_refl eq_refl). cbn [map snd] in B. rewrite count_occ_cons_eq in B by auto.
        assert (HM' := HM v). rewrite (Nat.mod_small (nth v (p_pc st) 0 + sg u) M) by lia.
        apply (@rep l1 (PAdd u e v f (sg u) r) l2 st [PSet u e v f r] _ []); cbn [p_lv p_pc p_succ p_q2]; rewrite ?upd_length; auto; try (intros; cbn in *; tauto).
        + intros t' [<-|[]]. split; [exact Fu|]. split; [exact Ar|]. split; auto.
        + intros x Dx. apply (i_l2 I Dx).
        + intros x Dx. apply nth_upd_neq. intros ->. tauto.
        + intros x Dx. cbn [map sum]. unfold contrib. cbn [pu pcp map snd]. destruct (Nat.eq_dec x v) as [->|Nx].
          * rewrite nth_upd_eq, count_occ_cons_eq by (auto; lia). lia.
          * rewrite nth_upd_neq, count_occ_cons_neq by auto. lia.
        + constructor.
        + intros x C Dx. right. eexists. split; [now left|]. exact C.
        + intros e' u' v' a A La Du Dv' J. right. eexists. split; [now left|]. exact J.
      - assert (Av : arc g e u v) by (apply Ar; now left). destruct TK as [Dv Fl]. assert (Le := arc_lt Av).
        rewrite vset_lt by lia. cbn [bind]. eexists. eexists. split; [reflexivity|]. split; [|destruct f; cbn; lia].
        assert (Ar' : incl r (arcs_of g u)) by (intros z Z; apply Ar; now right).
        apply (@rep l1 (PSet u e v f r) l2 st [if f then PCas u v r else PLoad u r] _ []); cbn [p_lv p_pc p_succ p_q2]; rewrite ?upd_length; auto; try (intros; cbn in *; tauto).
        + intros t' [<-|[]]. destruct f; (split; [exact Fu|]); (split; [exact Ar'|]); [exact Dv|exact Logic.I].
        + intros x Dx. apply (i_l2 I Dx).
        + intros x Dx. cbn [map sum]. unfold contrib. destruct f; cbn [pu pcp]; lia.
        + constructor.
        + destruct f; cbn; rewrite app_nil_r; reflexivity.
        + intros x C Dx. right. eexists. split; [now left|]. destruct f; exact C.
        + intros e' Ee. rewrite nth_upd by lia. destruct (e' =? e); auto.
        + intros e' u' v' A. rewrite nth_upd by lia. destruct (Nat.eqb_spec e' e) as [->|]; auto. intros _. right. destruct (arc_fun A Av) as [-> ->].
          exists k. split; [lia|]. split; auto. now rewrite <- Ek.
        + intros e' u' v' a A La Du Dv' [J|J].
          * injection J as <- <-. left. apply nth_upd_eq. lia.
          * right. eexists. split; [now left|]. destruct f; exact J.
      - destruct (dl_lt TK) as [Lv Lm]. rewrite (@vget_nth _ (p_lv st) v 0) by lia. cbn [bind]. destruct (Nat.eqb_spec (nth v (p_lv st) 0) vmax) as [B|B].
        + rewrite vset_lt by lia. cbn [bind]. eexists. eexists. split; [reflexivity|]. split; [|cbn; lia].
          apply (@rep l1 (PCas u v r) l2 st [PPush u v r] _ [v]); cbn [p_lv p_pc p_succ p_q2]; rewrite ?upd_length; auto; try (intros; cbn in *; tauto).
          * intros t' [<-|[]]. split; [exact Fu|]. split; [exact Ar|]. exact TK.
          * intros x Dx. apply nth_upd_neq. intros ->. tauto.
          * intros x Dx. rewrite nth_upd by lia. destruct (x =? v); auto.
          * intros x Dx. rewrite nth_upd by lia. destruct (Nat.eqb_spec x v) as [->|Nx]; cbn; [tauto|]. intuition congruence.
          * intros x Dx. rewrite nth_upd by lia. destruct (x =? v); auto. apply (i_l2 I Dx).
          * intros x Dx. cbn [map sum]. unfold contrib. cbn [pu pcp]. lia.
          * repeat constructor; auto.
          * intros x [<-|[]]. split; auto. lia.
          * cbn. rewrite !app_nil_r. symmetry. apply Permutation_cons_append.
          * intros x C Dx. cbn [cov] in C. destruct C as [<-|C]; [left; apply nth_upd_eq; lia|]. right. eexists. split; [now left|]. exact C.
          * intros e' u' v' a A La Du Dv' J. right. eexists. split; [now left|]. exact J.
        + eexists. eexists. split; [reflexivity|]. split; [|cbn; lia].
          apply (@rep l1 (PCas u v r) l2 st [PLoad u r] st []); auto; try (intros; cbn in *; tauto).
          * intros t' [<-|[]]. split; [exact Fu|]. split; [exact Ar|]. exact Logic.I.
          * intros x Dx. apply (i_l2 I Dx).
          * intros x Dx. cbn [map sum]. unfold contrib. cbn [pu pcp]. lia.
          * constructor.
          * intros x C Dx. cbn [cov] in C. destruct C as [<-|C]; [left; destruct (i_l2 I TK); tauto|]. right. eexists. split; [now left|]. exact C.
          * intros e' u' v' a A La Du Dv' J. right. eexists. split; [now left|]. exact J.
      - destruct (@bin_push_perm (p_q2 st) u v) as (q & Eq & Lq & Pq); [lia|]. rewrite Eq. cbn [bind]. eexists. eexists. split; [reflexivity|]. split; [|cbn; lia].
        apply (@rep l1 (PPush u v r) l2 st [PLoad u r] _ []); cbn [p_lv p_pc p_succ p_q2]; auto; try lia; try (intros; cbn in *; tauto).
        + intros t' [<-|[]]. split; [exact Fu|]. split; [exact Ar|]. exact Logic.I.
        + intros x Dx. apply (i_l2 I Dx).
        + intros x Dx. cbn [map sum]. unfold contrib. cbn [pu pcp]. lia.
        + constructor.
        + cbn. rewrite app_nil_r, Pq. apply Permutation_cons_append.
        + intros x C Dx. right. eexists. split; [now left|]. exact C.
        + intros e' u' v' a A La Du Dv' J. right. eexists. split; [now left|]. exact J.
    Qed.
  End L.

  (** ** The forward loop *)
  Record bnd (lvl : nat) (st : pbs) : Prop := {
    b_1 : length (p_lv st) = n;
    b_2 : length (p_pc st) = n;
    b_3 : length (p_succ st) = E;
    b_l1 : forall x a, dist x a -> a < lvl -> nth x (p_lv st) 0 = a;
    b_l3 : forall x, x < n -> (forall a, a < lvl -> ~ dist x a) -> nth x (p_lv st) 0 = vmax;
    b_p1 : forall x a, dist x a -> a < lvl -> nth x (p_pc st) 0 = sg x;
    b_p3 : forall x, x < n -> (forall a, a < lvl -> ~ dist x a) -> nth x (p_pc st) 0 = 0;
    b_s1 : forall e u v, arc g e u v -> nth e (p_succ st) false = true -> nxt g s u v = true;
    b_s1' : forall e u v, arc g e u v -> nth e (p_succ st) false = true -> exists a, S a < lvl /\ dist u a /\ dist v (S a);
    b_s2 : forall e u v a, arc g e u v -> S a < lvl -> dist u a -> dist v (S a) -> nth e (p_succ st) false = true }.
  Definition is_level (k : nat) (q : list (list nat)) : Prop := NoDup (concat q) /\ forall x, In x (concat q) <-> dist x k.
  Lemma level_phase sched k q1 st : is_level k q1 -> bnd (S k) st -> length (p_q2 st) = nb -> concat (p_q2 st) = [] ->
    exists st', run_all pb_size (pb_step vmax M (S k)) sched (map (fun u => PLoad u (arcs_of g u)) (concat q1)) st = Ok st' /\
      bnd (S (S k)) st' /\ length (p_q2 st') = nb /\ is_level (S k) (p_q2 st').
  Proof.
    intros [ND HQ] [B1 B2 B3 Bl1 Bl3 Bp1 Bp3 Bs1 Bs1' Bs2] Lq Eq.
    assert (HF : forall u, In u (concat q1) <-> exists j, S k = S j /\ dist u j).
    { intros u. rewrite HQ. split; [intros D; exists k; auto|]. intros (j & Ej & D). injection Ej as ->. auto. }
    assert (NO : forall x, dist x (S k) -> forall a, a < S k -> ~ dist x a). { intros x D a La Da. assert (X := dist_fun D Da). lia. }
    assert (LT : forall x j, dist x j -> x < n) by (intros x j D; exact (walk_lt T Hs (proj1 D))).
    assert (MV : forall x, dist x (S k) -> S k <> vmax) by (intros x D; assert (X := dist_lt_n T Hs D); lia).
    assert (FP : forall ts, flat_map ppush (map (fun u => PLoad u (arcs_of g u)) ts) = []) by (induction ts; auto).
    destruct (@run_all_inv _ _ pb_size (pb_step vmax M (S k)) (inv (S k) (concat q1)) (step_ok HF) sched
                (map (fun u => PLoad u (arcs_of g u)) (concat q1)) st) as (st' & Er & I).
    { constructor; auto.
      - intros t It. apply in_map_iff in It. destruct It as (u & <- & Iu). split; [exact Iu|]. split; [apply incl_refl|exact Logic.I].
      - intros x D. left. apply Bl3; eauto.
      - intros x Lx H. apply Bl3; auto. intros a La. apply H. lia.
      - intros x D. rewrite Bp3 by eauto. cbn [Nat.add]. assert (Rx : reachable g s x) by (exists (S k); apply D).
        rewrite map_map. rewrite (@sg_rec g s T Hs x (concat q1) Rx); auto.
        + apply sum_map_ext. intros u Iu. unfold contrib. cbn [pu pcp]. rewrite arcs_snd. replace (nxt g s u x) with true; [apply Nat.mul_comm|].
          symmetry. apply (nxt_dist T Hs). exists k. split; auto. now apply HQ.
        + intros ->. assert (X := dist_fun D (proj2 (dist_0 g s s) eq_refl)). discriminate.
        + intros v Nv _. apply (nxt_dist T Hs) in Nv. destruct Nv as (a & D1 & D2). assert (X := dist_fun D D2). injection X as <-. now apply HQ.
      - intros x Lx H. apply Bp3; auto. intros a La. apply H. lia.
      - rewrite Eq, FP. constructor.
      - intros x. rewrite Eq, FP. cbn. split; [tauto|]. intros [D X]. apply (MV x D). rewrite <- X. apply Bl3; eauto.
      - intros x D. right. destruct (@dist_pred g s x (S k) k D) as [y Dy]; [lia|].
        assert (Q : exists u, dist u k /\ edge g u x).
        { exact (proj2 (proj1 (dist_S g s k x) D)). }
        destruct Q as (u & Du & Eu). exists (PLoad u (arcs_of g u)). split; [apply in_map_iff; exists u; split; auto; now apply HQ|]. cbn [cov]. now rewrite arcs_snd.
      - intros e u v A X. destruct (Bs1' e u v A X) as (a & La & Du & Dv). exists a. split; auto. lia.
      - intros e u v a A La Du Dv. destruct (Nat.eq_dec a k) as [->|].
        + right. exists (PLoad u (arcs_of g u)). split; [apply in_map_iff; exists u; split; auto; now apply HQ|]. exact A.
        + left. apply (Bs2 e u v a); auto. lia. }
    exists st'. split; auto. destruct I as [A1 A2 A3 A4 A5 A6 A7 A8 A9 A10 A11 A12 A13 A14 A15 A16]. cbn [flat_map map sum] in *. rewrite app_nil_r in *.
    assert (AL : forall x, dist x (S k) -> nth x (p_lv st') 0 = S k). { intros x D. destruct (A14 x D) as [|(t & [] & _)]. auto. }
    split; [|split; [auto|split; auto]].
    - constructor; auto.
      + intros x a D La. destruct (Nat.eq_dec a (S k)) as [->|]; [auto|]. apply A6; auto. lia.
      + intros x Lx H. apply A8; auto. intros a La. apply H. lia.
      + intros x a D La. destruct (Nat.eq_dec a (S k)) as [->|]; [rewrite <- (A10 x D); lia|]. apply A9 with a; auto. lia.
      + intros x Lx H. apply A11; auto. intros a La. apply H. lia.
      + intros e u v A X. apply (nxt_dist T Hs). destruct (A15 e u v A X) as (a & _ & Y). eauto.
      + intros e u v A X. destruct (A15 e u v A X) as (a & La & Y). exists a. split; auto. lia.
      + intros e u v a A La Du Dv. destruct (A16 e u v a A) as [|(t & [] & _)]; auto. lia.
    - intros x. rewrite A13. split; [tauto|]. intros D. split; auto.
  Qed.
  (** when the loop ends *)
  Record fwd_end (st : pbs) : Prop := {
    e_pc : length (p_pc st) = n;
    e_sc : length (p_succ st) = E;
    e_cnt : forall x, reachable g s x -> nth x (p_pc st) 0 = sg x;
    e_succ : forall e u v, arc g e u v -> reachable g s u -> nth e (p_succ st) false = nxt g s u v }.
  Fixpoint levels_ok (k : nat) (ret : list (list (list nat))) : Prop :=
    match ret with
    | [] => k = 0
    | q :: r => exists j, k = S j /\ is_level j q /\ levels_ok j r
    end.
  Lemma loop_ok sched : forall fuel k q1 st ret, length g < fuel + k -> is_level k q1 -> length q1 = nb -> concat q1 <> [] ->
    bnd (S k) st -> length (p_q2 st) = nb -> concat (p_q2 st) = [] -> levels_ok k ret ->
    exists st' ret' k', pb_loop fuel vmax M g sched (S k) q1 st ret = Ok (st', ret') /\ fwd_end st' /\ levels_ok k' ret' /\
      forall x, reachable g s x <-> exists a, a < k' /\ dist x a.
  Proof.
    induction fuel as [|fuel IH]; intros k q1 st ret Lf HL Lq NE HB' L2 E2 HR.
    - exfalso. destruct (concat q1) as [|x c] eqn:Ec; [congruence|]. assert (D : dist x k) by (apply HL; rewrite Ec; now left).
      assert (X := dist_lt_n T Hs D). lia.
    - cbn [pb_loop]. destruct (level_phase (sched (S k)) HL HB' L2 E2) as (st' & -> & HB2 & L2' & HL'). cbn [bind].
      assert (HR' : levels_ok (S k) (q1 :: ret)) by (exists k; auto).
      destruct (concat (p_q2 st')) as [|x c] eqn:Ec.
      + exists st', (q1 :: ret), (S k). split; auto.
        assert (NO : forall x, ~ dist x (S k)). { intros x D. destruct HL' as [_ HL']. apply HL' in D. rewrite Ec in D. destruct D. }
        assert (ALL : forall x, reachable g s x -> exists a, a < S k /\ dist x a).
        { intros x R. apply dist_reach in R. destruct R as [a D]. exists a. split; auto. destruct (Nat.lt_ge_cases a (S k)); auto. exfalso.
          destruct (@dist_pred g s x a (S k) D) as [y Dy]; auto. exact (NO y Dy). }
        split; [|split; [auto|]].
        * destruct HB2 as [C1 C2 C3 Cl1 Cl3 Cp1 Cp3 Cs1 Cs1' Cs2]. constructor; auto.
          -- intros x R. destruct (ALL x R) as (a & La & D). apply Cp1 with a; auto.
          -- intros e u v A R. destruct (nth e (p_succ st') false) eqn:Es; [symmetry; eauto|]. destruct (nxt g s u v) eqn:Nx; auto.
             apply (nxt_dist T Hs) in Nx. destruct Nx as (a & D1 & D2). destruct (ALL v) as (b & Lb & Db); [exists (S a); apply D2|].
             assert (X := dist_fun D2 Db). subst b. rewrite (Cs2 e u v a) in Es; auto.
        * intros x. split; [apply ALL|]. intros (a & _ & D). exists a. apply D.
      + apply IH; auto; cbn [p_q2].
        * lia.
        * rewrite Ec. discriminate.
        * destruct HB2. now constructor.
        * rewrite repeat_length. auto.
        * apply concat_repeat_nil.
  Qed.

  (** ** The backward phase *)
  Section K.
    Local Open Scope Qc_scope.
    Variables (integral : bool) (D : nat -> Qc).
    Notation quo a b := (if integral then qn (a / b) else qn a / qn b).
    Hypothesis (HD : forall u, reachable g s u -> D u = qsum (map (fun v => if nxt g s u v then quo (sg u) (sg v) * (1 + D v) else 0) (nth u g []))).
    Variable st : pbs.
    Hypothesis (FE : fwd_end st).
    Definition addsum (x : nat) (l : list (nat * Qc)) : Qc := qsum (map snd (filter (fun p => (fst p =? x)%nat) l)).
    Lemma addsum_app x l l' : addsum x (l ++ l') = addsum x l + addsum x l'.
    Proof. unfold addsum. now rewrite filter_app, map_app, qsum_app. Qed.
    Definition ku (t : pk_task) : nat := match t with KScan u _ _ | KStore u _ => u end.
    Definition term (u : nat) (p : nat * nat) : Qc := if nxt g s u (snd p) then quo (sg u) (sg (snd p)) * (1 + D (snd p)) else 0.
    Record kinv (lev : list nat) (k : nat) (tot : nat -> Qc) (ts : list pk_task) (sh : list Qc * list (nat * Qc)) : Prop := {
      k_len : length (fst sh) = n;
      k_tk : forall t, In t ts -> In (ku t) lev /\
         match t with KScan u d r => incl r (arcs_of g u) /\ d + qsum (map (term u) r) = D u | KStore u d => d = D u end;
      k_far : forall x a, dist x a -> (k < a)%nat -> nth x (fst sh) 0 = D x;
      k_lev : forall x, In x lev -> nth x (fst sh) 0 = D x \/ exists t, In t ts /\ ku t = x;
      k_lt : forall p, In p (snd sh) -> (fst p < n)%nat;
      k_sum : forall x, addsum x (snd sh) + qsum (map (fun t => if (ku t =? x)%nat then D x else 0) ts) = tot x }.
    Lemma kstep_ok lev k tot : (forall u, In u lev <-> dist u k) -> forall l1 t l2 sh, kinv lev k tot (l1 ++ t :: l2) sh ->
      exists o sh', pk_step integral (p_pc st) (p_succ st) t sh = Ok (o, sh') /\ kinv lev k tot (l1 ++ opt_list o ++ l2) sh' /\
        match o with Some t' => (pk_size t' < pk_size t)%nat | None => True end.
    Proof.
      intros HL l1 t l2 sh I. assert (It : In t (l1 ++ t :: l2)) by (apply in_or_app; right; now left). destruct (k_tk I _ It) as [Iu TK].
      assert (Du := proj1 (HL _) Iu). assert (Lu := walk_lt T Hs (proj1 Du)). assert (Ru : reachable g s (ku t)) by (exists k; apply Du).
      assert (REP : forall t', ku t' = ku t -> match t' with KScan u d r => incl r (arcs_of g u) /\ d + qsum (map (term u) r) = D u | KStore u d => d = D u end ->
        kinv lev k tot (l1 ++ [t'] ++ l2) sh).
      { intros t' Eu TK'. destruct I as [A B C F G H]. constructor; auto.
        - intros t'' J. apply (in_mid _ t) in J. destruct J as [[<-|[]]|J]; auto. rewrite Eu. auto.
        - intros x J. destruct (F x J) as [|(t'' & K & Ex)]; auto. apply (in_mid_inv _ _ [t']) in K. destruct K as [->|K].
          + right. exists t'. split; [apply in_mid_new; now left|]. congruence.
          + right. eauto.
        - intros x. rewrite <- H, !map_app, !qsum_app. cbn [map qsum]. rewrite Eu. ring. }
      destruct t as [u d [|[e v] r]|u d]; cbn [pk_step ku] in *.
      - exists (Some (KStore u d)), sh. split; auto. split; [|cbn; lia]. apply REP; auto. destruct TK as [_ <-]. cbn. ring.
      - destruct TK as [Ar Ed]. assert (Av : arc g e u v) by (apply Ar; now left). assert (Ev := arc_edge Av). assert (Lv := T _ _ Ev).
        assert (Rv := reach_edge _ Ru Ev). assert (Ar' : incl r (arcs_of g u)) by (intros z Z; apply Ar; now right).
        rewrite (@vget_nth _ (p_succ st) e false) by (rewrite (e_sc FE); now apply arc_lt in Av). cbn [bind]. rewrite (@e_succ st FE e u v Av Ru).
        cbn [map qsum] in Ed. unfold term in Ed at 1. cbn [snd] in Ed. destruct (nxt g s u v) eqn:Nx.
        + rewrite (@vget_nth _ (p_pc st) u 0%nat), (@vget_nth _ (p_pc st) v 0%nat) by (rewrite (e_pc FE); auto). cbn [bind].
          rewrite (@vget_nth _ (fst sh) v 0) by (rewrite (k_len I); auto). cbn [bind]. rewrite (e_cnt FE Ru), (e_cnt FE Rv).
          unfold adiv. assert (Ps := sg_pos T Hs Rv). replace (sg v =? 0)%nat with false by (symmetry; apply Nat.eqb_neq; lia). cbn [bind].
          eexists. eexists. split; [reflexivity|]. split; [|cbn; lia]. apply REP; auto. split; auto.
          apply (nxt_dist T Hs) in Nx. destruct Nx as (a & D1 & D2). assert (X := dist_fun Du D1). subst a.
          rewrite (k_far I D2) by lia. rewrite <- Ed. ring.
        + eexists. eexists. split; [reflexivity|]. split; [|cbn; lia]. apply REP; auto. split; auto. rewrite <- Ed. ring.
      - subst d. rewrite vset_lt by (rewrite (k_len I); auto). cbn [bind]. eexists. eexists. split; [reflexivity|]. split; [|exact Logic.I].
        destruct I as [A B C F G H]. constructor; cbn [fst snd opt_list app]; rewrite ?upd_length; auto.
        + intros t' J. apply B. apply in_app_or in J. apply in_or_app. destruct J; auto. right. now right.
        + intros x a Dx La. rewrite nth_upd_neq; [eauto|]. intros ->. assert (X := dist_fun Du Dx). lia.
        + intros x J. rewrite nth_upd by (rewrite A; auto). destruct (Nat.eqb_spec x u) as [->|N]; auto. destruct (F x J) as [|(t' & K & Ex)]; auto.
          right. exists t'. split; auto. apply in_app_or in K. apply in_or_app. destruct K as [|[<-|]]; auto. cbn in Ex. congruence.
        + intros p J. apply in_app_or in J. destruct J as [|[<-|[]]]; auto.
        + intros x. rewrite <- H, addsum_app, !map_app, !qsum_app. cbn [map qsum]. unfold addsum at 2. cbn [filter fst ku].
          destruct (Nat.eqb_spec u x) as [->|]; cbn [map qsum snd]; ring.
    Qed.
    Lemma back_ok sched : forall ret k sh, levels_ok k ret -> length (fst sh) = n -> (forall x a, dist x a -> (k <= a)%nat -> nth x (fst sh) 0 = D x) ->
      (forall p, In p (snd sh) -> (fst p < n)%nat) ->
      exists sh', rfold (fun st1 lev => run_all pk_size (pk_step integral (p_pc st) (p_succ st)) (sched (snd st1))
                           (map (fun u => KScan u 0 (arcs_of g u)) (concat lev)) st1) ret sh = Ok sh' /\
        (forall p, In p (snd sh') -> (fst p < n)%nat) /\
        (forall x, (forall a, dist x a -> (k <= a)%nat) -> addsum x (snd sh') = addsum x (snd sh)) /\
        (forall x a, dist x a -> (a < k)%nat -> addsum x (snd sh') = addsum x (snd sh) + D x).
    Proof.
      induction ret as [|q ret IH]; intros k sh HR Ls HX Hl.
      - cbn in HR. subst k. exists sh. split; auto. split; auto. split; auto. intros; lia.
      - destruct HR as (j & -> & [ND HQ] & HR). cbn [rfold].
        set (tot := fun x => addsum x (snd sh) + qsum (map (fun u => if (u =? x)%nat then D x else 0) (concat q))).
        destruct (@run_all_inv _ _ pk_size (pk_step integral (p_pc st) (p_succ st)) (kinv (concat q) j tot) (@kstep_ok (concat q) j tot HQ) (sched (snd sh))
                    (map (fun u => KScan u 0 (arcs_of g u)) (concat q)) sh) as (sh1 & E1 & I).
        { constructor; auto.
          - intros t J. apply in_map_iff in J. destruct J as (u & <- & J). split; auto. split; [apply incl_refl|].
            assert (Ru : reachable g s u) by (exists j; now apply HQ). rewrite (HD Ru), <- arcs_snd, map_map. unfold term. ring.
          - intros x J. right. exists (KScan x 0 (arcs_of g x)). split; auto. apply in_map_iff. eauto.
          - intros x. unfold tot. now rewrite map_map. }
        rewrite E1. cbn [bind]. destruct I as [A B C F G H].
        assert (T1 : forall x, addsum x (snd sh1) = addsum x (snd sh) + if mem x (concat q) then D x else 0).
        { intros x. rewrite <- (Qcplus_0_r (addsum x (snd sh1))). change 0 with (qsum (map (fun t => if (ku t =? x)%nat then D x else 0) [])) at 1. rewrite H. unfold tot. f_equal.
          clear - ND. induction (concat q) as [|u l IHl]; auto. inversion ND; subst. cbn [map qsum mem existsb]. fold (mem x l). rewrite IHl by auto.
          rewrite (Nat.eqb_sym x u). destruct (Nat.eqb_spec u x) as [->|]; cbn [orb]; [|ring]. rewrite (proj2 (mem_false _ _)) by auto. ring. }
        destruct (IH j sh1) as (sh2 & E2 & G2 & U2 & V2); auto.
        { intros x a Dx La. destruct (Nat.eq_dec a j) as [->|]; [|apply C with a; auto; lia]. destruct (F x) as [|(t & [] & _)]; auto. now apply HQ. }
        rewrite E2. exists sh2. split; auto. split; auto. split.
        + intros x Hx. rewrite U2.
          * rewrite T1. replace (mem x (concat q)) with false; [ring|]. symmetry. apply mem_false. intros J. apply HQ in J. apply Hx in J. lia.
          * intros a Da. apply Hx in Da. lia.
        + intros x a Dx La. destruct (Nat.eq_dec a j) as [->|].
          * rewrite U2; [|intros b Db; rewrite (dist_fun Dx Db); lia]. rewrite T1. replace (mem x (concat q)) with true; auto. symmetry. apply mem_In. now apply HQ.
          * rewrite (V2 x a) by (auto; lia). rewrite T1. replace (mem x (concat q)) with false; [ring|]. symmetry. apply mem_false. intros J. apply HQ in J.
            assert (X := dist_fun Dx J). lia.
    Qed.
  End K.
  Lemma psource_ok (integral : bool) (D : nat -> Qc) (sched : nat -> nat -> nat) : (forall u, reachable g s u -> D u = qsum (map (fun v =>
        if nxt g s u v then (if integral then qn (sg u / sg v) else qn (sg u) / qn (sg v)) * (1 + D v) else 0) (nth u g [])))%Qc ->
    exists adds, pb_source vmax M nb integral g sched s = Ok adds /\ (forall p, In p adds -> fst p < n) /\
      (forall x, reachable g s x -> addsum x adds = D x) /\ (forall x, ~ reachable g s x -> addsum x adds = 0%Qc).
  Proof.
    intros HD. unfold pb_source. rewrite vset_lt by (rewrite repeat_length; auto). cbn [bind].
    destruct (@bin_push_perm (repeat [] nb) 0 s) as (q & Eq & Lq & Pq); [now rewrite repeat_length|]. rewrite Eq. cbn [bind].
    rewrite vset_lt by (rewrite repeat_length; auto). cbn [bind]. rewrite repeat_length in Lq. rewrite concat_repeat_nil in Pq.
    assert (M1 : 1 mod M = 1). { apply Nat.mod_small. rewrite <- (sg_s T Hs). apply HM. }
    assert (D0 : forall x, dist x 0 <-> x = s) by (intros x; rewrite dist_0; intuition auto).
    destruct (@loop_ok sched (S n) 0 q {| p_lv := upd (repeat vmax n) s 0; p_pc := upd (repeat 0 n) s (1 mod M); p_succ := repeat false E; p_q2 := repeat [] nb |} [])
      as (st & ret & k & -> & FE & LO & HA); auto; cbn [p_lv p_pc p_succ p_q2].
    - lia.
    - split.
      + apply (Permutation_NoDup (Permutation_sym Pq)). repeat constructor; auto.
      + intros x. rewrite D0. split.
        * intros I. apply (Permutation_in _ Pq) in I. destruct I as [|[]]; auto.
        * intros ->. apply (Permutation_in _ (Permutation_sym Pq)). now left.
    - intros X. rewrite X in Pq. now apply Permutation_nil_cons in Pq.
    - constructor; cbn [p_lv p_pc p_succ p_q2]; rewrite ?upd_length, ?repeat_length; auto.
      + intros x a D' La. replace a with 0 in * by lia. apply D0 in D'. subst x. apply nth_upd_eq. rewrite repeat_length. auto.
      + intros x Lx H. rewrite nth_upd_neq; [|intros ->; apply (H 0); [lia|now apply D0]]. rewrite (@nth_indep _ _ x 0 vmax) by (now rewrite repeat_length). apply nth_repeat.
      + intros x a D' La. replace a with 0 in * by lia. apply D0 in D'. subst x. rewrite nth_upd_eq by (rewrite repeat_length; auto). rewrite M1. symmetry. apply (sg_s T Hs).
      + intros x Lx H. rewrite nth_upd_neq; [|intros ->; apply (H 0); [lia|now apply D0]]. apply nth_repeat.
      + intros e u v _. rewrite nth_repeat. discriminate.
      + intros e u v _. rewrite nth_repeat. discriminate.
      + intros; lia.
    - apply repeat_length.
    - apply concat_repeat_nil.
    - reflexivity.
    - cbn [bind]. destruct (@back_ok integral D HD st FE (fun l => sched (n + 1 + length l)) ret k (repeat 0%Qc n, [])) as (sh & E1 & G1 & U1 & V1); auto.
      + apply repeat_length.
      + cbn [fst]. intros x a D' La. exfalso. destruct (proj1 (HA x)) as (b & Lb & Db); [exists a; apply D'|]. assert (X := dist_fun D' Db). lia.
      + intros p [].
      + cbn beta in E1. rewrite E1. cbn [bind]. exists (snd sh). split; auto. split; auto. split.
        * intros x R. destruct (proj1 (HA x) R) as (a & La & D'). rewrite (V1 x a) by auto. unfold addsum. cbn. ring.
        * intros x R. rewrite U1; [reflexivity|]. intros a D'. exfalso. apply R. exists a. apply D'.
  Qed.
End P.
