(** Proofs about the serial bfs and BFSVerifier. *)
From Coq Require Import List Arith Lia Bool.
From Verif Require Import Base GraphLib BfsModel.
Import ListNotations.
Set Implicit Arguments.

(** * Serial bfs *)
Section Serial.
Variables (vmax : nat) (g : list (list nat)) (s : nat).
Hypothesis HT : targets_ok g.
Hypothesis HS : s < length g.
Hypothesis HV : length g <= vmax.

Definition marked (a : list nat) (v : nat) : Prop := nth v a vmax <> vmax.

(** State after the edges [es] of a level, discovered tree edges [new]. *)
Record lvl_inv (lvl : nat) (level0 par0 : list nat) (es new : list (nat * nat)) (st : bfs_state) : Prop := {
  li_disc : disc (marked level0) es new;
  li_q2 : fst (fst st) = map snd new;
  li_len : length (snd (fst st)) = length g;
  li_level : forall v, v < length g -> nth v (snd (fst st)) vmax = if in_dec Nat.eq_dec v (map snd new) then lvl else nth v level0 vmax;
  li_par : snd st = record par0 new
}.

Lemma bfs_visit_ok lvl level0 par0 es new st u v : lvl < vmax -> length par0 = length g -> edge g u v ->
  lvl_inv lvl level0 par0 es new st ->
  exists st' new', bfs_visit vmax lvl u st v = Ok st' /\ lvl_inv lvl level0 par0 (es ++ [(u, v)]) new' st'.
Proof.
  intros HL LP E [D Q L LV P]. destruct st as [[q2 level] parents]. simpl in *. subst q2 parents.
  assert (Hv := HT _ _ E). unfold bfs_visit. rewrite (@vget_nth _ level v vmax) by lia. cbn [bind]. rewrite LV by auto.
  destruct (in_dec Nat.eq_dec v (map snd new)) as [I|I].
  - destruct (Nat.eqb_spec lvl vmax); [lia|]. exists (map snd new, level, record par0 new), new. split; auto.
    constructor; simpl; auto. apply disc_skip; auto.
  - destruct (Nat.eqb_spec (nth v level0 vmax) vmax) as [EQ|NE].
    + rewrite vset_lt by lia. cbn [bind]. rewrite vset_lt by (rewrite record_length; lia). cbn [bind].
      eexists. exists (new ++ [(u, v)]). split; [reflexivity|]. constructor; simpl.
      * apply disc_add; auto.
      * now rewrite map_app.
      * now rewrite upd_length.
      * intros w Hw. rewrite map_app. simpl. destruct (Nat.eq_dec w v) as [->|N].
        -- rewrite nth_upd_eq by lia. destruct (in_dec Nat.eq_dec v (map snd new ++ [v])) as [_|N]; auto. exfalso. apply N. apply in_or_app. right. now left.
        -- rewrite nth_upd_neq by auto. rewrite LV by auto.
           destruct (in_dec Nat.eq_dec w (map snd new)) as [J|J], (in_dec Nat.eq_dec w (map snd new ++ [v])) as [K|K]; auto.
           ++ exfalso. apply K. apply in_or_app. now left.
           ++ exfalso. apply in_app_or in K. destruct K as [K|[K|[]]]; auto.
      * now rewrite record_snoc.
    + exists (map snd new, level, record par0 new), new. split; auto. constructor; simpl; auto. apply disc_skip; auto.
Qed.

Lemma bfs_row_ok lvl level0 par0 u row : lvl < vmax -> length par0 = length g -> (forall v, In v row -> edge g u v) ->
  forall es new st, lvl_inv lvl level0 par0 es new st ->
  exists st' new', rfold (bfs_visit vmax lvl u) row st = Ok st' /\ lvl_inv lvl level0 par0 (es ++ map (fun v => (u, v)) row) new' st'.
Proof.
  intros HL LP. induction row as [|v row IH]; intros HE es new st I.
  - exists st, new. rewrite app_nil_r. auto.
  - destruct (@bfs_visit_ok lvl level0 par0 es new st u v HL LP (HE v (or_introl eq_refl)) I) as (st1 & new1 & E1 & I1).
    cbn [rfold]. rewrite E1. cbn [bind]. destruct (IH (fun w J => HE w (or_intror J)) _ _ _ I1) as (st2 & new2 & E2 & I2).
    exists st2, new2. split; auto. simpl. now rewrite <- app_assoc in I2.
Qed.

Lemma bfs_front_ok lvl level0 par0 q1 : lvl < vmax -> length par0 = length g -> (forall u, In u q1 -> u < length g) ->
  forall es new st, lvl_inv lvl level0 par0 es new st ->
  exists st' new', rfold (bfs_vertex vmax g lvl) q1 st = Ok st' /\ lvl_inv lvl level0 par0 (es ++ out_edges g q1) new' st'.
Proof.
  intros HL LP. induction q1 as [|u q1 IH]; intros HE es new st I.
  - exists st, new. rewrite app_nil_r. auto.
  - assert (Hu := HE u (or_introl eq_refl)). cbn [rfold]. unfold bfs_vertex at 1. rewrite (@vget_nth _ _ _ []) by auto. cbn [bind].
    destruct (@bfs_row_ok lvl level0 par0 u (nth u g []) HL LP (fun v J => J) es new st I) as (st1 & new1 & E1 & I1).
    rewrite E1. cbn [bind]. destruct (IH (fun w J => HE w (or_intror J)) _ _ _ I1) as (st2 & new2 & E2 & I2).
    exists st2, new2. split; auto. simpl. now rewrite <- app_assoc in I2.
Qed.

(** State at the head of the while loop, with frontier at distance k. *)
Record bfs_inv (k : nat) (q1 level parents : list nat) : Prop := {
  bi_front : forall u, In u q1 <-> dist g s u k;
  bi_len : length level = length g;
  bi_level : forall v, v < length g -> marked level v <-> within g s k v;
  bi_tree : tree_upto g s vmax k parents
}.

Lemma dist_lt v d : dist g s v d -> v < length g.
Proof. intros [W _]. eapply walk_lt; eauto. Qed.

(** Number of unvisited vertices. *)
Definition unmarked (a : list nat) : nat := length (filter (fun x => x =? vmax) a).

Lemma filter_count_lt (A : Type) (f1 f2 : A -> bool) l : (forall x, In x l -> f2 x = true -> f1 x = true) ->
  (exists x, In x l /\ f1 x = true /\ f2 x = false) -> length (filter f2 l) < length (filter f1 l).
Proof.
  assert (LE : forall l, (forall x, In x l -> f2 x = true -> f1 x = true) -> length (filter f2 l) <= length (filter f1 l)).
  { clear l. induction l as [|a l IH]; intros H; simpl; auto. assert (Q := IH (fun x I => H x (or_intror I))).
    assert (Qa := H a (or_introl eq_refl)). destruct (f2 a); [rewrite Qa by auto; simpl; lia|destruct (f1 a); simpl; lia]. }
  induction l as [|a l IH]; intros H (x & I & F1 & F2); [destruct I|]. destruct I as [->|I].
  - simpl. rewrite F1, F2. simpl. assert (Q := LE l (fun x I => H x (or_intror I))). lia.
  - simpl. assert (Q : length (filter f2 l) < length (filter f1 l)) by (apply IH; [intros; apply H; simpl; auto|eauto]).
    assert (Qa := H a (or_introl eq_refl)). destruct (f2 a); [rewrite Qa by auto; simpl; lia|destruct (f1 a); simpl; lia].
Qed.
Lemma unmarked_seq a : length a = length g -> unmarked a = length (filter (fun v => nth v a vmax =? vmax) (seq 0 (length g))).
Proof.
  intros L. unfold unmarked. rewrite <- L. clear L. induction a as [|x a IH]; auto. cbn [length seq].
  rewrite <- seq_shift. simpl filter. destruct (x =? vmax); simpl; rewrite IH.
  - f_equal. clear. induction (seq 0 (length a)); simpl; auto. destruct (nth a0 a vmax =? vmax); simpl; auto.
  - clear. induction (seq 0 (length a)); simpl; auto. destruct (nth a0 a vmax =? vmax); simpl; auto.
Qed.

Lemma level_bound k u : dist g s u k -> k < length g.
Proof.
  intros D. 
  assert (H : forall j, j <= S k -> exists l, NoDup l /\ length l = j /\ forall x, In x l -> exists d, d < j /\ dist g s x d).
  { induction j; intros L; [exists []; repeat split; auto; [constructor|intros x []]|].
    destruct (IHj ltac:(lia)) as (l & ND & LL & P). destruct (dist_pred D (j := j) ltac:(lia)) as (x & Dx).
    exists (x :: l). split; [|split].
    - constructor; auto. intros I. destruct (P x I) as (d & Ld & D'). assert (X := dist_fun Dx D'). lia.
    - simpl. lia.
    - intros y [<-|I]; [eauto|]. destruct (P y I) as (d & Ld & D'). exists d. split; auto. }
  destruct (H (S k) (le_n _)) as (l & ND & LL & P).
  assert (length l <= length (seq 0 (length g))).
  { apply NoDup_incl_length; auto. intros x I. destruct (P x I) as (d & _ & D'). apply in_seq. assert (Q := dist_lt D'). lia. }
  rewrite seq_length in *. lia.
Qed.

Lemma bfs_loop_ok fuel : forall k q1 level parents, bfs_inv k q1 level parents -> length g <= fuel + k ->
  exists p, bfs_loop fuel vmax g (S k) q1 level parents = Ok p /\ is_bfs_tree g s vmax p.
Proof.
  induction fuel; intros k q1 level parents [F L LV T] HF.
  - destruct q1 as [|u q1].
    + exists parents. split; auto. apply tree_upto_final with k; auto. intros v D. apply dist_S in D.
      destruct D as (_ & u & D & _). apply F in D. destruct D.
    + exfalso. assert (D := proj1 (F u) (or_introl eq_refl)). apply level_bound in D. lia.
  - destruct q1 as [|u q1].
    + exists parents. split; auto. apply tree_upto_final with k; auto. intros v D. apply dist_S in D.
      destruct D as (_ & u & D & _). apply F in D. destruct D.
    + assert (KB : k < length g) by (apply level_bound with u; apply F; now left).
      cbn [bfs_loop]. assert (TL := proj1 T).
      destruct (Nat.eq_dec (S k) vmax) as [EQ|NEQ].
      { (* the level number would be the sentinel: only when the graph has no further vertex *)
        assert (ALL : forall v d, dist g s v d -> d <= k) by (intros v d D; apply level_bound in D; lia).
        assert (ALLM : forall v, In v (map snd (out_edges g (u :: q1))) -> marked level v).
        { intros v I. apply in_map_iff in I. destruct I as ([a b] & E & I). simpl in E. subst b. apply in_out_edges in I. destruct I as [I E].
          apply LV; [now apply (HT _ _ E)|]. apply F in I. destruct (@edge_within g s a v k I E) as (d & _ & D). exists d. split; eauto. }
        assert (SKIP : forall us st, snd (fst st) = level -> (forall x, In x us -> In x (u :: q1)) -> rfold (bfs_vertex vmax g (S k)) us st = Ok st).
        { induction us as [|x us IHu]; intros st LS HU; auto. cbn [rfold]. unfold bfs_vertex at 1.
          assert (Ix := HU x (or_introl eq_refl)). rewrite (@vget_nth _ _ _ []) by (apply F in Ix; now apply dist_lt in Ix). cbn [bind].
          assert (R : forall row, (forall v, In v row -> marked level v /\ v < length g) -> rfold (bfs_visit vmax (S k) x) row st = Ok st).
          { induction row as [|v row IHr]; intros HR; auto. cbn [rfold]. destruct st as [[q2 l2] p2]. simpl in LS. subst l2. unfold bfs_visit at 1.
            destruct (HR v (or_introl eq_refl)) as [M Lv]. rewrite (@vget_nth _ level v vmax) by lia. cbn [bind].
            destruct (Nat.eqb_spec (nth v level vmax) vmax); [contradiction|]. cbn [bind]. apply IHr. intros; apply HR; now right. }
          rewrite R. { cbn [bind]. apply IHu; auto. intros y I; apply HU; now right. }
          intros v I. split; [|now apply (HT x)]. apply ALLM. apply in_map_iff. exists (x, v). split; auto. apply in_out_edges. auto. }
        rewrite SKIP by auto. cbn [bind]. exists parents. split; [destruct fuel; reflexivity|].
        apply tree_upto_final with k; auto. intros v D. apply ALL in D. lia. }
      destruct (@bfs_front_ok (S k) level parents (u :: q1)) with (es := @nil (nat * nat)) (new := @nil (nat * nat)) (st := (@nil nat, level, parents))
        as (st & new & E & I); auto; try lia.
      { intros x I. apply F in I. now apply dist_lt in I. }
      { constructor; auto. apply disc_nil. }
      rewrite E. cbn [bind]. destruct st as [[q2 level'] parents']. destruct I as [D Q L' LV' P]. cbn [fst snd app] in D, Q, L', LV', P. subst q2 parents'.
      set (vis := within g s k).
      assert (D' : disc vis (out_edges g (u :: q1)) new).
      { destruct D as [A B C DD]. constructor; auto.
        - intros a b I V. apply (C a b I). assert (Hb : b < length g). { apply B in I. apply in_out_edges in I. destruct I as [_ I]. now apply (HT _ _ I). }
          now apply LV.
        - intros a b I. destruct (DD a b I) as [M|M]; auto. left. apply LV; auto. apply in_out_edges in I. destruct I as [_ I]. now apply (HT _ _ I). }
      assert (EX : expanded g (fun x => In x (u :: q1)) vis new) by (apply disc_expanded with (out_edges g (u :: q1)); auto; intros; apply in_out_edges).
      assert (NL := expanded_level (s := s) (k := k) (fun v => iff_refl _) F EX).
      apply IHfuel; [|lia]. constructor; auto.
      * intros v Hv. unfold marked. rewrite LV' by auto. rewrite within_S, <- NL. destruct (in_dec Nat.eq_dec v (map snd new)) as [I|I].
        -- split; auto.
        -- fold (marked level v). rewrite LV by auto. tauto.
      * apply tree_upto_step with (par := parents) (F := fun x => In x (u :: q1)) (vis := vis) (new := new); auto; try (intros; apply iff_refl).
        split; [apply record_length|]. split; [intros v N; now apply record_other|]. intros a b I. apply record_new; auto; [apply EX|].
        rewrite TL. destruct (exp_new EX a b I) as (_ & Eab & _). now apply (HT _ _ Eab).
Qed.

Lemma bfs_ok fuel : length g <= fuel -> exists p, bfs fuel vmax g s = Ok p /\ is_bfs_tree g s vmax p.
Proof.
  intros HF. unfold bfs. rewrite !vset_lt by (rewrite repeat_length; auto). cbn [bind]. apply bfs_loop_ok; [|lia].
  constructor.
  - intros u. rewrite dist_0. simpl. split; [intros [->|[]]; auto|auto].
  - now rewrite upd_length, repeat_length.
  - intros v Hv. unfold marked. rewrite within_0. destruct (Nat.eq_dec v s) as [->|N].
    + rewrite nth_upd_eq by now rewrite repeat_length. split; auto. lia.
    + rewrite nth_upd_neq, nth_repeat by auto. tauto.
  - now apply tree_upto_0.
Qed.
End Serial.

(** * BFSVerifier *)
Section Verifier.
Variables (vmax : nat) (g : list (list nat)) (s : nat).
Hypothesis HT : targets_ok g.
Hypothesis HS : s < length g.
Hypothesis HV : length g <= vmax.

(** Queue invariant: P processed, A the rest of level k, B the part of level k+1 found so far; the neighbours of
    level-k vertices satisfying [Done] are marked. *)
Record bq (k : nat) (P A B : list nat) (to_visit depth : list nat) (Done : nat -> nat -> Prop) : Prop := {
  bq_list : to_visit = P ++ A ++ B;
  bq_nodup : NoDup to_visit;
  bq_len : length depth = length g;
  bq_depth : forall v, v < length g -> nth v depth vmax = vmax \/ dist g s v (nth v depth vmax);
  bq_within : forall v, within g s k v -> marked vmax depth v;
  bq_mark : forall v, v < length g -> marked vmax depth v <-> In v to_visit;
  bq_A : forall x, In x A -> dist g s x k;
  bq_B : forall x, In x B -> dist g s x (S k);
  bq_P : forall x, In x P -> within g s k x;
  bq_done : forall u v, dist g s u k -> edge g u v -> Done u v -> marked vmax depth v
}.

Lemma bq_lt k P A B t d D x : bq k P A B t d D -> In x t -> x < length g.
Proof.
  intros [E ND L DP W M HA HB HP HD] I. rewrite E in I. apply in_app_or in I. destruct I as [I|I].
  - destruct (HP x I) as (j & _ & J). now apply (dist_lt HT HS J).
  - apply in_app_or in I. destruct I as [I|I]; [apply HA in I|apply HB in I]; eapply dist_lt; eauto.
Qed.

Lemma bv_visit_ok k P A B t d D u v : dist g s u k -> edge g u v -> bq k P A B t d D ->
  exists B' t' d', bv_visit vmax (length g) u (t, d) v = Ok (t', d') /\ bq k P A B' t' d' (fun x y => D x y \/ (x = u /\ y = v)).
Proof.
  intros Du E Q. assert (LT := fun x => @bq_lt _ _ _ _ _ _ _ x Q). destruct Q as [EQ ND L DP W M HA HB HP HD].
  assert (Hv := HT _ _ E). assert (Hu := dist_lt HT HS Du).
  unfold bv_visit. rewrite (@vget_nth _ d v vmax) by lia. cbn [bind]. destruct (Nat.eqb_spec (nth v d vmax) vmax) as [UM|MK].
  - assert (Dv : dist g s v (S k)). { apply dist_S. split; [intros WI; apply W in WI; contradiction|eauto]. }
    assert (KB := level_bound HT HS HV Dv). rewrite (@vget_nth _ d u vmax) by lia. cbn [bind].
    assert (EU : nth u d vmax = k).
    { destruct (DP u Hu) as [X|X]; [|apply (dist_fun X Du)]. exfalso. assert (MU : marked vmax d u) by (apply W; exists k; split; auto). contradiction. }
    rewrite EU, vset_lt by lia. cbn [bind]. rewrite Nat.mod_small by lia.
    assert (NI : ~ In v t) by (intros I; apply M in I; auto).
    assert (LEN : length t < length g).
    { assert (LL : length (v :: t) <= length (seq 0 (length g))).
      { apply NoDup_incl_length; [constructor; auto|]. intros x [<-|I]; apply in_seq; [lia|]. specialize (LT x I). lia. }
      simpl in LL. rewrite seq_length in LL. lia. }
    destruct (Nat.ltb_spec (length t) (length g)); [|lia].
    exists (B ++ [v]), (t ++ [v]), (upd d v (k + 1)). split; auto.
    assert (MM : forall x, x < length g -> marked vmax (upd d v (k + 1)) x <-> marked vmax d x \/ x = v).
    { intros x Hx. unfold marked. destruct (Nat.eq_dec x v) as [->|N].
      - rewrite nth_upd_eq by lia. split; auto. lia.
      - rewrite nth_upd_neq by auto. tauto. }
    constructor.
    + now rewrite EQ, <- !app_assoc.
    + apply NoDup_snoc; auto.
    + now rewrite upd_length.
    + intros x Hx. destruct (Nat.eq_dec x v) as [->|N]; [rewrite nth_upd_eq by lia; right; now rewrite Nat.add_1_r|rewrite nth_upd_neq by auto; auto].
    + intros x WI. apply MM; [destruct WI as (j & _ & J); apply (dist_lt HT HS J)|]. left. auto.
    + intros x Hx. rewrite MM by auto. rewrite M by auto. rewrite in_app_iff. simpl. split; [intros [I| ->]; auto|intros [I|[->|[]]]; auto].
    + auto.
    + intros x I. apply in_app_or in I. destruct I as [I|[<-|[]]]; auto.
    + auto.
    + intros a b Da Eab [Dd|[-> ->]]; apply MM; auto; [now apply (HT _ _ Eab)|left; eauto].
  - exists B, t, d. split; auto. constructor; auto. intros a b Da Eab [Dd|[-> ->]]; eauto.
Qed.

Lemma bv_row_ok k P A u : dist g s u k -> forall row B t d D, (forall v, In v row -> edge g u v) -> bq k P A B t d D ->
  exists B' t' d', rfold (bv_visit vmax (length g) u) row (t, d) = Ok (t', d') /\ bq k P A B' t' d' (fun x y => D x y \/ (x = u /\ In y row)).
Proof.
  intros Du. induction row as [|v row IH]; intros B t d D HE Q.
  - exists B, t, d. split; auto. destruct Q as [EQ ND L DP W M HA HB HP HD]. constructor; auto. intros a b Da Eab [Dd|[_ []]]; eauto.
  - destruct (@bv_visit_ok _ _ _ _ _ _ _ _ _ Du (HE v (or_introl eq_refl)) Q) as (B1 & t1 & d1 & E1 & Q1). cbn [rfold]. rewrite E1. cbn [bind].
    destruct (IH _ _ _ _ (fun w I => HE w (or_intror I)) Q1) as (B2 & t2 & d2 & E2 & Q2). exists B2, t2, d2. split; auto.
    destruct Q2 as [EQ ND L DP W M HA HB HP HD]. constructor; auto. intros a b Da Eab [Dd|[-> [<-|I]]]; eapply HD; eauto.
Qed.

Definition depth_ok (d : list nat) : Prop := length d = length g /\
  forall v, v < length g -> (nth v d vmax = vmax /\ ~ reachable g s v) \/ (nth v d vmax <> vmax /\ dist g s v (nth v d vmax)).

Lemma bq_next k P B t d D : bq k P [] B t d D -> (forall u v, dist g s u k -> D u v) -> bq (S k) P B [] t d (fun _ _ => False).
Proof.
  intros [EQ ND L DP W M HA HB HP HD] AL.
  assert (W' : forall v, within g s (S k) v -> marked vmax d v).
  { intros v WI. apply within_S in WI. destruct WI as [WI|Dv]; auto. apply dist_S in Dv. destruct Dv as (_ & u & Du & E). eapply HD; eauto. }
  constructor; auto.
  - simpl in EQ. now rewrite app_nil_r.
  - intros x [].
  - intros x I. destruct (HP x I) as (j & Lj & J). exists j. split; auto.
  - intros u v _ _ [].
Qed.

Lemma bv_loop_ok fuel : forall k P A B t d (D : nat -> nat -> Prop), bq k P A B t d D ->
  (forall u v, dist g s u k -> ~ In u A -> D u v) -> length g <= fuel + length P ->
  exists d', bv_loop fuel vmax g (length P) (t, d) = Ok d' /\ depth_ok d'.
Proof.
  assert (STEP : forall f k P A B t d (D : nat -> nat -> Prop) u, bq k P (u :: A) B t d D -> (forall a v, dist g s a k -> ~ In a (u :: A) -> D a v) ->
     (forall k P A B t d (D : nat -> nat -> Prop), bq k P A B t d D -> (forall u v, dist g s u k -> ~ In u A -> D u v) -> length g <= f + length P ->
        exists d', bv_loop f vmax g (length P) (t, d) = Ok d' /\ depth_ok d') -> length g <= S f + length P ->
     exists d', bv_loop (S f) vmax g (length P) (t, d) = Ok d' /\ depth_ok d').
  { intros f k P A B t d D u Q AL IH HF. cbn [bv_loop fst snd].
    assert (LT : length P < length t) by (rewrite (bq_list Q), app_length; simpl; lia).
    destruct (Nat.ltb_spec (length P) (length t)); [|lia].
    assert (GU : vget t (length P) = Ok u). { apply vget_Ok. rewrite (bq_list Q), nth_error_app2, Nat.sub_diag by lia. reflexivity. }
    rewrite GU. cbn [bind]. assert (Du := bq_A Q u (or_introl eq_refl)). rewrite (@vget_nth _ g u []) by (eapply dist_lt; eauto). cbn [bind].
    destruct (@bv_row_ok k P (u :: A) u Du (nth u g []) B t d D (fun v I => I) Q) as (B1 & t1 & d1 & E1 & Q1). rewrite E1. cbn [bind].
    assert (Q2 : bq k (P ++ [u]) A B1 t1 d1 (fun x y => D x y \/ (x = u /\ In y (nth u g [])))).
    { destruct Q1 as [EQ ND L DP W M HA HB HP HD]. constructor; auto.
      - rewrite EQ. rewrite <- app_assoc. reflexivity.
      - intros x I. apply HA. now right.
      - intros x I. apply in_app_or in I. destruct I as [I|[<-|[]]]; auto. exists k. split; auto. }
    replace (S (length P)) with (length (P ++ [u])) by (rewrite app_length; simpl; lia).
    apply IH with (k := k) (A := A) (B := B1) (D := fun x y => edge g x y -> (D x y \/ (x = u /\ In y (nth u g [])))).
    - destruct Q2 as [EQ ND L DP W M HA HB HP HD]. constructor; auto. intros a b Da Eab X. eapply HD; eauto.
    - intros a v Da NI Eav. destruct (Nat.eq_dec a u) as [->|NE]; [right; auto|]. left. apply AL; auto. intros [->|I]; auto.
    - rewrite app_length. simpl. lia. }
  induction fuel; intros k P A B t d D Q AL HF.
  - assert (LB : length t <= length g).
    { rewrite <- (seq_length (length g) 0). apply NoDup_incl_length; [apply Q|]. intros x I. apply in_seq. assert (X := bq_lt x Q I). lia. }
    assert (LT := bq_list Q). assert (A = [] /\ B = []) as [-> ->].
    { rewrite LT, !app_length in LB. simpl in HF. destruct A; simpl in LB; [|lia]. destruct B; simpl in LB; [auto|lia]. }
    simpl in LT. rewrite app_nil_r in LT. subst t. cbn [bv_loop fst snd]. rewrite Nat.ltb_irrefl. exists d. split; auto.
    split; [apply Q|]. intros v Hv. assert (AL' : forall u v, dist g s u k -> D u v) by (intros; apply AL; auto).
    assert (NO : forall x, ~ dist g s x (S k)).
    { intros x Dx. assert (Q' := bq_next Q AL'). assert (MX : marked vmax d x) by (apply (bq_within Q'); exists (S k); split; auto).
      apply (proj1 (bq_mark Q (dist_lt HT HS Dx))) in MX. apply (bq_P Q) in MX. exact (dist_not_within Dx MX). }
    destruct (Nat.eq_dec (nth v d vmax) vmax) as [E|E].
    + left. split; auto. intros R. apply dist_reach in R. destruct R as (j & J). assert (LJ := no_level_no_more NO J).
      assert (MV : marked vmax d v) by (apply (bq_within Q); exists j; split; [lia|auto]); contradiction.
    + right. split; auto. destruct (bq_depth Q Hv); [contradiction|auto].
  - destruct A as [|u A].
    + assert (AL' : forall u v, dist g s u k -> D u v) by (intros; apply AL; auto). assert (Q' := bq_next Q AL').
      destruct B as [|u B].
      * assert (LT := bq_list Q). simpl in LT. rewrite app_nil_r in LT. subst t. cbn [bv_loop fst snd]. rewrite Nat.ltb_irrefl. exists d. split; auto.
        split; [apply Q|]. intros v Hv.
        assert (NO : forall x, ~ dist g s x (S k)).
        { intros x Dx. assert (MX : marked vmax d x) by (apply (bq_within Q'); exists (S k); split; auto).
          apply (proj1 (bq_mark Q (dist_lt HT HS Dx))) in MX. apply (bq_P Q) in MX. exact (dist_not_within Dx MX). }
        destruct (Nat.eq_dec (nth v d vmax) vmax) as [E|E].
        -- left. split; auto. intros R. apply dist_reach in R. destruct R as (j & J). assert (LJ := no_level_no_more NO J).
           assert (MV : marked vmax d v) by (apply (bq_within Q); exists j; split; [lia|auto]); contradiction.
        -- right. split; auto. destruct (bq_depth Q Hv); [contradiction|auto].
      * assert (COMP : forall a, dist g s a (S k) -> In a (u :: B)).
        { intros a Da. assert (Ha := dist_lt HT HS Da). assert (MA : marked vmax d a) by (apply (bq_within Q'); exists (S k); split; auto).
          apply (proj1 (bq_mark Q Ha)) in MA. rewrite (bq_list Q) in MA. apply in_app_or in MA. destruct MA as [I|I]; [|exact I].
          exfalso. apply (bq_P Q) in I. exact (dist_not_within Da I). }
        apply STEP with (k := S k) (A := B) (B := []) (D := fun _ _ => False) (u := u); auto.
    + eapply STEP; eauto.
Qed.

Lemma bv_depth_ok fuel : length g <= fuel ->
  exists d, (do depth0 <- vset (repeat vmax (length g)) s 0 ; bv_loop fuel vmax g 0 ([s], depth0)) = Ok d /\ depth_ok d.
Proof.
  intros HF. rewrite vset_lt by now rewrite repeat_length. cbn [bind].
  apply (@bv_loop_ok fuel 0 [] [s] [] [s] (upd (repeat vmax (length g)) s 0) (fun _ _ => False)); [| |simpl; lia].
  - assert (MM : forall v, marked vmax (upd (repeat vmax (length g)) s 0) v <-> v = s).
    { intros v. unfold marked. destruct (Nat.eq_dec v s) as [->|N].
      - rewrite nth_upd_eq by now rewrite repeat_length. split; auto. lia.
      - rewrite nth_upd_neq, nth_repeat by auto. tauto. }
    constructor; auto.
    + repeat constructor; auto.
    + now rewrite upd_length, repeat_length.
    + intros v Hv. destruct (Nat.eq_dec v s) as [->|N].
      * right. rewrite nth_upd_eq by now rewrite repeat_length. now apply dist_0.
      * left. rewrite nth_upd_neq by auto. apply nth_repeat.
    + intros v W. apply within_0 in W. now apply MM.
    + intros v Hv. rewrite MM. simpl. split; [auto|intros [->|[]]; auto].
    + intros x [<-|[]]. now apply dist_0.
    + intros x [].
    + intros x [].
    + intros u v _ _ [].
  - intros u v D N. apply dist_0 in D. subst. exfalso. apply N. now left.
Qed.

(** The verdict on one vertex. *)
Definition vertex_ok (p : list nat) (v : nat) : Prop :=
  (~ reachable g s v -> nth v p vmax = vmax) /\ (v = s -> nth v p vmax = s) /\
  (reachable g s v -> nth v p vmax < length g) /\
  forall d, v <> s -> dist g s v d -> edge g (nth v p vmax) v /\ dist g s (nth v p vmax) (d - 1).

Lemma bv_find_ok d pu du row : length d = length g -> (forall v, In v row -> v < length g) ->
  bv_find vmax d pu du row = Ok (if in_dec Nat.eq_dec pu row then (if nth pu d vmax =? (du + vmax) mod (vmax + 1) then Some true else None) else Some false).
Proof.
  intros L. induction row as [|v row IH]; intros H; auto. cbn [bv_find]. destruct (Nat.eqb_spec v pu) as [->|N].
  - rewrite (@vget_nth _ d pu vmax) by (rewrite L; apply H; now left). cbn [bind]. destruct (in_dec Nat.eq_dec pu (pu :: row)) as [_|X]; [|exfalso; apply X; now left].
    destruct (_ =? _); reflexivity.
  - rewrite IH by (intros; apply H; now right). destruct (in_dec Nat.eq_dec pu row) as [I|I], (in_dec Nat.eq_dec pu (v :: row)) as [J|J]; auto.
    + exfalso. apply J. now right.
    + exfalso. destruct J; auto.
Qed.

Lemma bv_check_ok g_t p d v : transpose_of g g_t -> length p = length g -> depth_ok d -> v < length g ->
  exists b, bv_check vmax g_t s d p v = Ok b /\ (b = true <-> vertex_ok p v).
Proof.
  intros [LG TR] LP [LD DO] Hv. unfold bv_check. rewrite (@vget_nth _ d v vmax), (@vget_nth _ p v vmax) by lia. cbn [bind].
  set (du := nth v d vmax). set (pu := nth v p vmax).
  destruct (DO v Hv) as [[E NR]|[NE Dv]]; fold du in E || fold du in NE, Dv.
  - rewrite E, Nat.eqb_refl. cbn [negb andb]. eexists. split; [reflexivity|]. rewrite Nat.eqb_eq. unfold vertex_ok. fold pu. split.
    + intros <-. split; auto. split; [intros ->; exfalso; apply NR; exists 0; constructor|]. split; [intros R; contradiction|].
      intros j _ J. exfalso. apply NR. apply dist_reach. eauto.
    + intros (A & _). symmetry. auto.
  - destruct (Nat.eqb_spec du vmax) as [X|_]; [contradiction|]. cbn [negb andb].
    assert (RE : reachable g s v) by (apply dist_reach; eauto).
    destruct (Nat.eqb_spec pu vmax) as [X|NP]; cbn [negb].
    + exists false. destruct (Nat.eqb_spec du pu); [congruence|]. split; auto. split; [discriminate|]. intros (_ & _ & A & _).
      specialize (A RE). fold pu in A. lia.
    + destruct (Nat.eqb_spec v s) as [->|NS].
      * assert (D0 : du = 0) by (apply (dist_fun Dv); now apply dist_0). rewrite D0. rewrite Nat.eqb_refl, andb_true_r. eexists. split; [reflexivity|].
        rewrite Nat.eqb_eq. unfold vertex_ok. fold pu. split.
        -- intros EP. rewrite EP. split; [intros; contradiction|]. split; auto. split; auto. intros j X; congruence.
        -- intros (_ & B & _). auto.
      * rewrite (@vget_nth _ g_t v []) by lia. cbn [bind]. rewrite bv_find_ok; auto.
        2:{ intros w I. apply TR in I. apply edge_lt in I. exact I. }
        cbn [bind].
        assert (PD : 0 < du). { destruct (Nat.eq_dec du 0) as [Z|]; [|lia]. rewrite Z in Dv. apply dist_0 in Dv. contradiction. }
        assert (KB := level_bound HT HS HV Dv).
        assert (WR : (du + vmax) mod (vmax + 1) = du - 1).
        { replace (du + vmax) with (du - 1 + 1 * (vmax + 1)) by lia. rewrite Nat.mod_add, Nat.mod_small by lia. reflexivity. }
        rewrite WR. destruct (in_dec Nat.eq_dec pu (nth v g_t [])) as [I|NI].
        -- apply TR in I. assert (Hp := edge_lt _ _ _ I).
           exists (nth pu d vmax =? du - 1). split; [destruct (_ =? _); reflexivity|]. rewrite Nat.eqb_eq. unfold vertex_ok. fold pu. split.
           ++ intros EQ. split; [intros; contradiction|]. split; [intros; contradiction|]. split; [intros; lia|]. intros j _ J.
              assert (j = du) by (apply (dist_fun J Dv)). subst j. split; auto. destruct (DO pu Hp) as [[X _]|[_ X]]; [lia|]. now rewrite EQ in X.
           ++ intros (_ & _ & _ & Q). destruct (Q du NS Dv) as [_ Dp]. destruct (DO pu Hp) as [[_ X]|[_ X]]; [|apply (dist_fun X Dp)].
              exfalso. apply X. apply dist_reach. eauto.
        -- exists false. split; auto. split; [discriminate|]. intros (_ & _ & _ & Q). destruct (Q du NS Dv) as [E _]. fold pu in E. apply TR in E. contradiction.
Qed.

Lemma bv_checks_ok g_t p d us : transpose_of g g_t -> length p = length g -> depth_ok d -> (forall v, In v us -> v < length g) ->
  exists b, bv_checks vmax g_t s d p us = Ok b /\ (b = true <-> forall v, In v us -> vertex_ok p v).
Proof.
  intros TR LP DO. induction us as [|u us IH]; intros H.
  - exists true. split; auto. split; auto. intros _ v [].
  - destruct (@bv_check_ok g_t p d u TR LP DO (H u (or_introl eq_refl))) as (b & E & B). cbn [bv_checks]. rewrite E. cbn [bind]. destruct b.
    + destruct (IH (fun v I => H v (or_intror I))) as (b2 & E2 & B2). exists b2. split; auto. rewrite B2. split.
      * intros X v [<-|I]; auto. now apply B.
      * intros X v I. apply X. now right.
    + exists false. split; auto. split; [discriminate|]. intros X. exfalso. assert (Y : false = true) by (apply B; apply X; now left). discriminate.
Qed.

Lemma verifier_ok fuel g_t p : length g <= fuel -> transpose_of g g_t -> length p = length g ->
  exists b, BFSVerifier fuel vmax g g_t s p = Ok b /\ (b = true <-> is_bfs_tree g s vmax p).
Proof.
  intros HF TR LP. unfold BFSVerifier. destruct (bv_depth_ok HF) as (d & E & DO).
  destruct (vset (repeat vmax (length g)) s 0) as [d0| |]; try discriminate. cbn [bind] in *. rewrite E. cbn [bind].
  destruct (@bv_checks_ok g_t p d (seq 0 (length g)) TR LP DO) as (b & E2 & B); [intros v I; apply in_seq in I; lia|].
  exists b. split; auto. rewrite B. unfold is_bfs_tree, vertex_ok. split.
  - intros H. split; auto. assert (IS : forall v, v < length g -> In v (seq 0 (length g))) by (intros; apply in_seq; lia). split.
    + apply (H s (IS s HS)). reflexivity.
    + intros v Hv. destruct (H v (IS v Hv)) as (A1 & A2 & A3 & A4). auto.
  - intros (_ & R & H) v I. apply in_seq in I. destruct (H v ltac:(lia)) as (A1 & A3 & A4). split; auto. split; auto. intros ->. exact R.
Qed.
End Verifier.
