(** Proofs about the parallel bfs (C31). *)
From Coq Require Import List Arith Lia Bool.
From Verif Require Import Base GraphLib Pool ParBfsModel BfsProofs.
Import ListNotations.
Set Implicit Arguments.

Lemma concat_upd (A : Type) (q : list (list A)) : forall b l v x, nth_error q b = Some l -> (In x (concat (upd q b (l ++ [v]))) <-> In x (concat q) \/ x = v).
Proof.
  induction q as [|a q IH]; intros [|b] l v x E; simpl in *; try discriminate.
  - injection E as ->. rewrite !in_app_iff. simpl. intuition auto.
  - rewrite !in_app_iff, (IH b l v x E). tauto.
Qed.
Lemma bin_push_ok q i v : 0 < length q ->
  exists q', bin_push q i v = Ok q' /\ length q' = length q /\ forall x, In x (concat q') <-> In x (concat q) \/ x = v.
Proof.
  intros L. unfold bin_push. assert (H : i mod length q < length q) by (apply Nat.mod_upper_bound; lia).
  destruct (nth_error q (i mod length q)) as [l|] eqn:E; [|apply nth_error_None in E; lia].
  rewrite (proj2 (vget_Ok q _ l) E). cbn [bind]. rewrite vset_lt by auto. eexists. split; [reflexivity|]. split; [apply upd_length|].
  intros x. now apply concat_upd.
Qed.
Lemma concat_repeat_nil (A : Type) n : concat (repeat (@nil A) n) = [].
Proof. induction n; simpl; auto. Qed.

Lemma run_all_inv (T S : Type) (size : T -> nat) (step : T -> S -> res (option T * S)) (I : list T -> S -> Prop) :
  (forall l1 t l2 s, I (l1 ++ t :: l2) s ->
     exists o s', step t s = Ok (o, s') /\ I (l1 ++ opt_list o ++ l2) s' /\ match o with Some t' => size t' < size t | None => True end) ->
  forall sched ts s, I ts s -> exists s', run_all size step sched ts s = Ok s' /\ I [] s'.
Proof. intros H sched ts s HI. unfold run_all. apply (@run_inv T S step size I H); auto. Qed.

Section Par.
Variables (vmax : nat) (g g_t : list (list nat)) (s : nat).
Hypothesis HT : targets_ok g.
Hypothesis HTR : transpose_of g g_t.
Hypothesis HS : s < length g.
Hypothesis HV : length g <= vmax.

Lemma marked_record par new v : length par = length g -> NoDup (map snd new) -> (forall u w, In (u, w) new -> u < length g /\ w < length g) ->
  nth v (record par new) vmax <> vmax <-> nth v par vmax <> vmax \/ In v (map snd new).
Proof.
  intros L ND H. destruct (in_dec Nat.eq_dec v (map snd new)) as [I|N].
  - split; auto. intros _. apply in_map_iff in I. destruct I as ([u w] & E & I). simpl in E. subst w. destruct (H u v I).
    rewrite (@record_new new vmax par u v ND I) by lia. lia.
  - rewrite record_other by auto. tauto.
Qed.

(** ** Top-down *)
Definition td_u (t : td_task) : nat := match t with TLoad u _ => u | TCas u _ _ => u | TPush u _ _ => u end.
Definition td_todo (t : td_task) : list nat := match t with TLoad _ r => r | TCas _ v r => v :: r | TPush _ _ r => r end.
Definition td_pend (t : td_task) : list nat := match t with TPush _ v _ => [v] | _ => [] end.

Record td_inv (fr par0 : list nat) (nb : nat) (new : list (nat * nat)) (ts : list td_task) (par : list nat) (q2 : list (list nat)) : Prop := {
  ti_par : par = record par0 new;
  ti_nodup : NoDup (map snd new);
  ti_new : forall u v, In (u, v) new -> In u fr /\ edge g u v /\ nth v par0 vmax = vmax;
  ti_bins : length q2 = nb;
  ti_queue : forall v, In v (map snd new) <-> In v (concat q2) \/ In v (flat_map td_pend ts);
  ti_task : forall t, In t ts -> In (td_u t) fr /\ forall v, In v (td_todo t) -> edge g (td_u t) v;
  ti_all : forall u v, In u fr -> edge g u v -> nth v par vmax <> vmax \/ exists t, In t ts /\ td_u t = u /\ In v (td_todo t)
}.

Definition tds_inv fr par0 nb ts (st : td_shared) : Prop :=
  exists new, td_inv fr par0 nb new ts (fst (fst st)) (snd (fst st)).

(** Replacing a task by its continuation. *)
Lemma td_replace fr par0 nb new l1 t l2 par q2 t' : td_inv fr par0 nb new (l1 ++ t :: l2) par q2 ->
  td_u t' = td_u t -> td_pend t' = td_pend t -> (forall v, In v (td_todo t') -> In v (td_todo t)) ->
  (forall v, In v (td_todo t) -> In v (td_todo t') \/ nth v par vmax <> vmax) -> td_inv fr par0 nb new (l1 ++ [t'] ++ l2) par q2.
Proof.
  intros [A B C D E F G] U P T1 T2. constructor; auto.
  - intros v. rewrite E, !flat_map_app. simpl. rewrite P. now rewrite app_nil_r.
  - intros x I. apply in_app_or in I. destruct I as [I|[<-|I]]; [apply F; apply in_or_app; auto| |apply F; apply in_or_app; right; now right].
    destruct (F t ltac:(apply in_or_app; right; now left)) as [F1 F2]. rewrite U. split; auto.
  - intros u v I Ed. destruct (G u v I Ed) as [M|(x & Ix & Ux & Tx)]; auto. apply in_app_or in Ix. destruct Ix as [Ix|[<-|Ix]].
    + right. exists x. split; [apply in_or_app; auto|auto].
    + destruct (T2 v Tx) as [Q|Q]; auto. right. exists t'. split; [apply in_or_app; right; now left|]. split; auto. congruence.
    + right. exists x. split; [apply in_or_app; right; now right|auto].
Qed.

Lemma td_step_ok fr par0 nb : length par0 = length g -> 0 < nb -> (forall u, In u fr -> u < length g) ->
  forall l1 t l2 st, tds_inv fr par0 nb (l1 ++ t :: l2) st ->
  exists o st', td_step vmax g t st = Ok (o, st') /\ tds_inv fr par0 nb (l1 ++ opt_list o ++ l2) st' /\
    match o with Some t' => td_size t' < td_size t | None => True end.
Proof.
  intros LP NB HF l1 t l2 [[par q2] count] (new & I). cbn [fst snd] in I.
  assert (It : In t (l1 ++ t :: l2)) by (apply in_or_app; right; now left).
  assert (LPAR : length par = length g) by (rewrite (ti_par I), record_length; auto).
  destruct (ti_task I t It) as [Fu Ft]. unfold tds_inv. destruct t as [u [|v r]|u v r|u v r]; cbn [td_step td_u td_todo] in *.
  - exists None, (par, q2, count). split; auto. split; auto. exists new. cbn [fst snd opt_list app]. destruct I as [A B C D E F G]. constructor; auto.
    + intros v. rewrite E, !flat_map_app. simpl. tauto.
    + intros x J. apply F. apply in_app_or in J. apply in_or_app. destruct J; auto. right. now right.
    + intros a b Ia Ed. destruct (G a b Ia Ed) as [M|(x & Ix & Ux & Tx)]; auto. right. exists x. split; auto. apply in_app_or in Ix. apply in_or_app.
      destruct Ix as [|[<-|]]; auto. destruct Tx.
  - assert (Hv := HT _ _ (Ft v (or_introl eq_refl))). rewrite (@vget_nth _ par v vmax) by lia. cbn [bind].
    destruct (Nat.eqb_spec (nth v par vmax) vmax) as [NUL|MK].
    + eexists; eexists; split; [reflexivity|]. split; [|simpl; lia]. exists new. cbn [fst snd]. eapply td_replace; eauto.
    + eexists; eexists; split; [reflexivity|]. split; [|simpl; lia]. exists new. cbn [fst snd]. eapply td_replace; eauto; simpl; auto.
      intros w [<-|W]; auto.
  - assert (Ed := Ft v (or_introl eq_refl)). assert (Hv := HT _ _ Ed). rewrite (@vget_nth _ par v vmax) by lia. cbn [bind].
    destruct (Nat.eqb_spec (nth v par vmax) vmax) as [NUL|MK].
    + rewrite vset_lt by lia. cbn [bind]. eexists; eexists; split; [reflexivity|]. split; [|simpl; lia]. exists (new ++ [(u, v)]). cbn [fst snd opt_list].
      assert (INB : forall a b, In (a, b) new -> a < length g /\ b < length g).
      { intros a b J. destruct (ti_new I a b J) as (J1 & J2 & _). split; auto. now apply (HT _ _ J2). }
      assert (NP : nth v par0 vmax = vmax /\ ~ In v (map snd new)).
      { rewrite (ti_par I) in NUL. split.
        - destruct (Nat.eq_dec (nth v par0 vmax) vmax); auto. exfalso. apply (proj2 (@marked_record par0 new v LP (ti_nodup I) INB)); auto.
        - intros J. apply (proj2 (@marked_record par0 new v LP (ti_nodup I) INB)); auto. }
      assert (Hu := HF u Fu). destruct I as [A B C D E F G]. constructor; auto.
      * rewrite record_snoc, <- A. reflexivity.
      * rewrite map_app. simpl. apply NoDup_snoc; [auto|apply NP].
      * intros a b J. apply in_app_or in J. destruct J as [J|[J|[]]]; auto. injection J as <- <-. split; auto. split; auto. apply NP.
      * intros w. rewrite map_app, in_app_iff, E, !flat_map_app, !in_app_iff. simpl. tauto.
      * intros x J. apply in_app_or in J. destruct J as [J|[<-|J]]; [apply F; apply in_or_app; auto| |apply F; apply in_or_app; right; now right].
        split; auto. intros w W. apply Ft. now right.
      * intros a b Ia Eab. destruct (Nat.eq_dec b v) as [->|NE]; [left; rewrite nth_upd_eq by lia; lia|]. rewrite nth_upd_neq by auto.
        destruct (G a b Ia Eab) as [M|(x & Ix & Ux & Tx)]; auto. right. apply in_app_or in Ix. destruct Ix as [Ix|[<-|Ix]].
        -- exists x. split; auto. apply in_or_app; auto.
        -- exists (TPush u v r). split; [apply in_or_app; right; now left|]. split; auto. simpl in *. destruct Tx; congruence.
        -- exists x. split; auto. apply in_or_app; right; now right.
    + eexists; eexists; split; [reflexivity|]. split; [|simpl; lia]. exists new. cbn [fst snd]. eapply td_replace; eauto; simpl; auto.
      intros w [<-|W]; auto.
  - assert (VN : In v (map snd new)). { apply (ti_queue I). right. rewrite flat_map_app. apply in_or_app. right. now left. }
    assert (Hv : v < length g). { apply in_map_iff in VN. destruct VN as ([a b] & E & J). simpl in E. subst b. destruct (ti_new I a v J) as (_ & E & _). now apply (HT _ _ E). }
    destruct (@bin_push_ok q2 u v) as (q2' & E' & LQ & Q); [rewrite (ti_bins I); auto|]. rewrite E'. cbn [bind]. rewrite (@vget_nth _ g v []) by auto. cbn [bind].
    eexists; eexists; split; [reflexivity|]. split; [|simpl; lia]. exists new. cbn [fst snd opt_list]. destruct I as [A B C D E F G]. constructor; auto.
    + lia.
    + intros w. rewrite E, Q, !flat_map_app, !in_app_iff. simpl. intuition auto.
    + intros x J. apply in_app_or in J. destruct J as [J|[<-|J]]; [apply F; apply in_or_app; auto| |apply F; apply in_or_app; right; now right].
      split; auto.
    + intros a b Ia Eab. destruct (G a b Ia Eab) as [M|(x & Ix & Ux & Tx)]; auto. right. apply in_app_or in Ix. destruct Ix as [Ix|[<-|Ix]].
      * exists x. split; auto. apply in_or_app; auto.
      * exists (TLoad u r). split; [apply in_or_app; right; now left|]. split; auto.
      * exists x. split; auto. apply in_or_app; right; now right.
Qed.

Lemma td_phase_ok sched q1 par0 : length par0 = length g -> 0 < length q1 -> (forall u, In u (concat q1) -> u < length g) ->
  exists par q2 count new, td_phase vmax g sched q1 par0 = Ok (par, q2, count) /\ par = record par0 new /\ length q2 = length q1 /\
    (forall v, In v (concat q2) <-> In v (map snd new)) /\ expanded g (fun u => In u (concat q1)) (fun v => nth v par0 vmax <> vmax) new.
Proof.
  intros LP NB HF. unfold td_phase.
  assert (TS : rmap (fun u => do row <- vget g u ; Ok (TLoad u row)) (concat q1) = Ok (map (fun u => TLoad u (nth u g [])) (concat q1))).
  { clear NB. induction (concat q1) as [|u fr IH]; auto. cbn [rmap]. rewrite (@vget_nth _ g u []) by (apply HF; now left). cbn [bind].
    rewrite IH by (intros; apply HF; now right). reflexivity. }
  rewrite TS. cbn [bind].
  destruct (@run_all_inv _ _ td_size (td_step vmax g) (tds_inv (concat q1) par0 (length q1)) (td_step_ok LP NB HF) sched
              (map (fun u => TLoad u (nth u g [])) (concat q1)) (par0, repeat [] (length q1), 0)) as ([[par q2] count] & E & (new & I)).
  { exists []. constructor; auto.
    - constructor.
    - intros u v [].
    - apply repeat_length.
    - intros v. simpl. rewrite concat_repeat_nil. split; [intros []|intros [[]|J]]. apply in_flat_map in J. destruct J as (x & Ix & J).
      apply in_map_iff in Ix. destruct Ix as (u & <- & _). destruct J.
    - intros t J. apply in_map_iff in J. destruct J as (u & <- & J). simpl. split; auto.
    - intros u v Iu Ed. right. exists (TLoad u (nth u g [])). split; [apply in_map_iff; eauto|]. split; auto. }
  exists par, q2, count, new. split; auto. cbn [fst snd] in I. destruct I as [A B C D E' F G]. split; auto. split; auto.
  split; [intros v; rewrite E'; simpl; tauto|]. constructor; auto.
  - intros u v J. destruct (C u v J) as (J1 & J2 & J3). auto.
  - intros u v Iu Ed. destruct (G u v Iu Ed) as [M|(x & [] & _)]. rewrite A in M. apply marked_record in M; auto.
    intros a b J. destruct (C a b J) as (J1 & J2 & _). split; auto. now apply (HT _ _ J2).
Qed.

(** ** Bottom-up *)
Definition bu_u (t : bu_task) : nat := match t with BTest u => u | BScan u _ => u | BSet u _ => u | BStore u _ => u end.

Record bu_inv (front : list bool) (par0 : list nat) (new : list (nat * nat)) (ts : list bu_task) (st : bu_shared) : Prop := {
  bi_par : snd (fst st) = record par0 new;
  bi_nodup : NoDup (map snd new);
  bi_new : forall v u, In (v, u) new -> nth v front false = true /\ edge g v u /\ nth u par0 vmax = vmax;
  bi_clen : length (fst (fst st)) = length g;
  bi_curr : forall u, u < length g -> nth u (fst (fst st)) false = true <-> In u (map snd new) \/ exists v, In (BStore u v) ts;
  bi_count : snd st = length new;
  bi_ts : NoDup (map bu_u ts);
  bi_task : forall t, In t ts -> bu_u t < length g /\ ~ In (bu_u t) (map snd new) /\
     match t with
     | BTest _ => True
     | BScan u r => nth u par0 vmax = vmax /\ forall v, In v r -> edge g v u
     | BSet u v | BStore u v => nth u par0 vmax = vmax /\ nth v front false = true /\ edge g v u
     end;
  bi_all : forall v u, nth v front false = true -> edge g v u -> nth u par0 vmax = vmax ->
     In u (map snd new) \/ exists t, In t ts /\ bu_u t = u /\ match t with BScan _ r => In v r | _ => True end
}.

Lemma in_mid (A : Type) (l1 : list A) x o l2 y : In y (l1 ++ o ++ l2) -> In y o \/ In y (l1 ++ x :: l2).
Proof. intros I. apply in_app_or in I. destruct I as [I|I]; [right; apply in_or_app; auto|]. apply in_app_or in I. destruct I; auto. right. apply in_or_app; right; now right. Qed.
Lemma in_mid_inv (A : Type) (l1 : list A) x o l2 y : In y (l1 ++ x :: l2) -> y = x \/ In y (l1 ++ o ++ l2).
Proof. intros I. apply in_app_or in I. destruct I as [I|[<-|I]]; auto; right; apply in_or_app; auto. right. apply in_or_app. auto. Qed.
Lemma in_mid_new (A : Type) (l1 : list A) o l2 y : In y o -> In y (l1 ++ o ++ l2).
Proof. intros I. apply in_or_app; right; apply in_or_app; auto. Qed.

Lemma bu_step_ok front par0 : length par0 = length g -> length front = length g ->
  forall l1 t l2 st, (exists new, bu_inv front par0 new (l1 ++ t :: l2) st) ->
  exists o st', bu_step vmax g_t front t st = Ok (o, st') /\ (exists new, bu_inv front par0 new (l1 ++ opt_list o ++ l2) st') /\
    match o with Some t' => bu_size g_t t' < bu_size g_t t | None => True end.
Proof.
  intros LP LF l1 t l2 st (new & I).
  assert (It : In t (l1 ++ t :: l2)) by (apply in_or_app; right; now left).
  destruct (bi_task I t It) as (Hu & NN & TK).
  assert (NT : forall t', In t' (l1 ++ l2) -> bu_u t' <> bu_u t).
  { intros t' J E. assert (X := bi_ts I). rewrite map_app in X. simpl in X. apply NoDup_remove_2 in X. apply X. rewrite <- E, <- map_app. now apply in_map. }
  assert (LPAR : length (snd (fst st)) = length g) by (rewrite (bi_par I), record_length; auto).
  assert (NP : nth (bu_u t) (snd (fst st)) vmax = nth (bu_u t) par0 vmax) by (rewrite (bi_par I); now apply record_other).
  (* a task replaced by a continuation of the same vertex, with no effect on the shared state *)
  assert (REP : forall o, (forall t', In t' (opt_list o) -> bu_u t' = bu_u t /\ match t' with
        | BTest _ => True | BScan u r => nth u par0 vmax = vmax /\ forall v, In v r -> edge g v u
        | BSet u v => nth u par0 vmax = vmax /\ nth v front false = true /\ edge g v u | BStore _ _ => False end) ->
      (match t with BStore _ _ => False | _ => True end) ->
      (forall v, nth v front false = true -> edge g v (bu_u t) -> nth (bu_u t) par0 vmax = vmax ->
          match t with BScan _ r => In v r | _ => True end ->
          exists t', In t' (opt_list o) /\ bu_u t' = bu_u t /\ match t' with BScan _ r => In v r | _ => True end) ->
      bu_inv front par0 new (l1 ++ opt_list o ++ l2) st).
  { intros o HO NS HA. destruct I as [A B C D E F G H K]. constructor; auto.
    - intros u Lu. rewrite E by auto. split; (intros [J|(v & J)]; [auto|right; exists v]).
      + apply (in_mid_inv _ _ (opt_list o)) in J. destruct J as [J|J]; auto. subst t. destruct NS.
      + apply (in_mid _ t) in J. destruct J as [J|J]; auto. destruct (HO _ J) as [_ []].
    - rewrite !map_app. rewrite map_app in G. simpl in G. destruct o as [t'|]; simpl; [|now apply NoDup_remove_1 in G].
      destruct (HO t' (or_introl eq_refl)) as [-> _]. exact G.
    - intros t' J. apply (in_mid _ t) in J. destruct J as [J|J]; auto. destruct (HO _ J) as [-> Q]. split; auto. split; auto. destruct t'; auto. destruct Q.
    - intros v u Fv Ed Nu. destruct (K v u Fv Ed Nu) as [J|(t' & J & U & Q)]; auto. right. apply (in_mid_inv _ _ (opt_list o)) in J. destruct J as [->|J].
      + rewrite <- U in Ed, Nu. destruct (HA v Fv Ed Nu Q) as (t2 & J2 & U2 & Q2). exists t2. split; [now apply in_mid_new|]. split; auto. congruence.
      + exists t'. auto. }
  destruct st as [[curr par] count]. cbn [fst snd] in *.
  destruct t as [u|u [|v r]|u v|u v]; cbn [bu_step bu_u] in *.
  - rewrite (@vget_nth _ par u vmax) by lia. cbn [bind]. destruct (Nat.eqb_spec (nth u par vmax) vmax) as [NUL|MK].
    + rewrite (@vget_nth _ g_t u []) by (destruct HTR; lia). cbn [bind]. eexists; eexists; split; [reflexivity|]. split; [|simpl; lia].
      exists new. apply REP; auto.
      * intros t' [<-|[]]. split; auto. split; [congruence|]. intros v J. now apply HTR.
      * intros v _ Ed _ _. eexists. split; [now left|]. split; auto. now apply HTR in Ed.
    + eexists; eexists; split; [reflexivity|]. split; auto. exists new. apply REP; auto.
      * intros t' [].
      * intros v _ _ NU. congruence.
  - eexists; eexists; split; [reflexivity|]. split; auto. exists new. apply REP; auto.
    + intros t' [].
    + intros v _ _ _ [].
  - destruct TK as [NU TE]. assert (Hv := edge_lt _ _ _ (TE v (or_introl eq_refl))). rewrite (@vget_nth _ front v false) by lia. cbn [bind].
    destruct (nth v front false) eqn:Fv.
    + eexists; eexists; split; [reflexivity|]. split; [|simpl; lia]. exists new. apply REP; auto.
      * intros t' [<-|[]]. split; auto. split; auto. split; auto. apply TE; now left.
      * intros w _ _ _ _. eexists. split; [now left|]. split; auto.
    + eexists; eexists; split; [reflexivity|]. split; [|simpl; lia]. exists new. apply REP; auto.
      * intros t' [<-|[]]. split; auto. split; auto. intros; apply TE; now right.
      * intros w Fw _ _ [<-|W]; [congruence|]. eexists. split; [now left|]. split; auto.
  - assert (LCU := bi_clen I). cbn [fst snd] in LCU. rewrite vset_lt by lia. cbn [bind]. eexists; eexists; split; [reflexivity|]. split; [|simpl; lia]. exists new.
    destruct I as [A B C D E F G H K]. cbn [fst snd opt_list] in *. constructor; cbn [fst snd]; auto.
    + now rewrite upd_length.
    + intros w Lw. destruct (Nat.eq_dec w u) as [->|NE].
      * rewrite nth_upd_eq by lia. split; auto. intros _. right. exists v. apply in_mid_new. now left.
      * rewrite nth_upd_neq by auto. rewrite E by auto. split; (intros [J|(x & J)]; [auto|right; exists x]).
        -- apply (in_mid_inv _ _ [BStore u v]) in J. destruct J as [J|J]; auto. discriminate.
        -- apply (in_mid _ (BSet u v)) in J. destruct J as [[J|[]]|J]; auto. congruence.
    + rewrite !map_app. rewrite map_app in G. exact G.
    + intros t' J. apply (in_mid _ (BSet u v)) in J. destruct J as [[<-|[]]|J]; auto.
    + intros w x Fw Ed Nx. destruct (K w x Fw Ed Nx) as [J|(t' & J & U & Q)]; auto. right. apply (in_mid_inv _ _ [BStore u v]) in J. destruct J as [->|J].
      * exists (BStore u v). split; [apply in_mid_new; now left|]. split; auto.
      * exists t'. auto.
  - rewrite vset_lt by lia. cbn [bind]. eexists; eexists; split; [reflexivity|]. split; auto. exists (new ++ [(v, u)]).
    destruct I as [A B C D E F G H K]. cbn [fst snd opt_list app] in *. destruct TK as (NU & Fv & Ed). constructor; cbn [fst snd]; auto.
    + rewrite record_snoc, <- A. reflexivity.
    + rewrite map_app. simpl. now apply NoDup_snoc.
    + intros a b J. apply in_app_or in J. destruct J as [J|[J|[]]]; auto. injection J as <- <-. auto.
    + intros w Lw. rewrite E by auto. rewrite map_app, in_app_iff. simpl. split.
      * intros [J|(x & J)]; auto. apply (in_mid_inv _ _ []) in J. destruct J as [J|J]; [injection J as -> ->; auto|eauto].
      * intros [[J|[->|[]]]|(x & J)]; auto; right; [exists v; auto|]. exists x. apply (in_mid _ (BStore u v) []) in J. destruct J as [[]|J]; auto.
    + rewrite app_length. simpl. lia.
    + rewrite map_app in G. simpl in G. apply NoDup_remove_1 in G. now rewrite map_app.
    + intros t' J. assert (J' := J). apply (in_mid _ (BStore u v) []) in J. destruct J as [[]|J]. destruct (H t' J) as (H1 & H2 & H3). split; auto. split; auto.
      rewrite map_app, in_app_iff. simpl. intros [X|[X|[]]]; auto. apply (NT t' J'). auto.
    + intros w x Fw Ex Nx. rewrite map_app, in_app_iff. simpl. destruct (K w x Fw Ex Nx) as [J|(t' & J & U & Q)]; auto.
      apply (in_mid_inv _ _ []) in J. destruct J as [->|J]; [simpl in U; auto|]. right. exists t'. auto.
Qed.

Lemma bu_sweep_ok sched front par0 : length par0 = length g -> length front = length g ->
  exists curr par count new,
    run_all (bu_size g_t) (bu_step vmax g_t front) sched (map BTest (seq 0 (length g))) (repeat false (length g), par0, 0) = Ok (curr, par, count) /\
    par = record par0 new /\ length curr = length g /\ (forall u, u < length g -> nth u curr false = true <-> In u (map snd new)) /\
    count = length new /\ expanded g (fun v => nth v front false = true) (fun u => nth u par0 vmax <> vmax) new.
Proof.
  intros LP LF.
  destruct (@run_all_inv _ _ (bu_size g_t) (bu_step vmax g_t front) (fun ts st => exists new, bu_inv front par0 new ts st) (bu_step_ok LP LF) sched
              (map BTest (seq 0 (length g))) (repeat false (length g), par0, 0)) as ([[curr par] count] & E & (new & I)).
  { exists []. constructor; auto; cbn [fst snd].
    - constructor.
    - intros v u [].
    - apply repeat_length.
    - intros u Lu. rewrite nth_repeat. split; [discriminate|]. intros [[]|(v & J)]. apply in_map_iff in J. destruct J as (x & J & _). discriminate.
    - rewrite map_map. simpl. rewrite map_id. apply seq_NoDup.
    - intros t J. apply in_map_iff in J. destruct J as (u & <- & J). apply in_seq in J. simpl. split; [lia|]. auto.
    - intros v u _ Ed _. right. exists (BTest u). split; auto. apply in_map. apply in_seq. assert (X := HT _ _ Ed). lia. }
  exists curr, par, count, new. split; auto. destruct I as [A B C D E' F G H K]. cbn [fst snd] in *. split; auto. split; auto. split.
  { intros u Lu. rewrite E' by auto. split; [intros [J|(v & [])]; auto|auto]. }
  split; auto. constructor; auto.
  - intros v u J. destruct (C v u J) as (J1 & J2 & J3). auto.
  - intros v u Fv Ed. destruct (Nat.eq_dec (nth u par0 vmax) vmax) as [NU|]; auto. right. destruct (K v u Fv Ed NU) as [J|(t & [] & _)]; auto.
Qed.

(** Seeding the bitmap and draining it. *)
Lemma seed_ok sched us curr0 : length curr0 = length g -> (forall u, In u us -> u < length g) ->
  exists curr, run_all (fun _ => 0) seed_step sched us curr0 = Ok curr /\ length curr = length g /\
    forall v, v < length g -> nth v curr false = true <-> nth v curr0 false = true \/ In v us.
Proof.
  intros L HU.
  destruct (@run_all_inv _ _ (fun _ : nat => 0) seed_step (fun ts c => (forall u, In u ts -> In u us) /\ length c = length g /\
     forall v, v < length g -> (nth v c false = true -> nth v curr0 false = true \/ In v us) /\ (nth v curr0 false = true \/ In v us -> nth v c false = true \/ In v ts))) with (sched := sched) (ts := us) (s := curr0) as (c & E & _ & LC & H).
  - intros l1 t l2 c (SUB & LC & H). assert (It : In t us) by (apply SUB, in_or_app; right; now left). unfold seed_step.
    rewrite vset_lt by (rewrite LC; auto). cbn [bind]. exists None, (upd c t true). split; auto. split; auto. cbn [opt_list app]. split; [|split].
    + intros u J. apply SUB. apply in_app_or in J. apply in_or_app. simpl. tauto.
    + now rewrite upd_length.
    + intros v Hv. destruct (Nat.eq_dec v t) as [->|NE].
      * rewrite nth_upd_eq by lia. auto.
      * rewrite nth_upd_neq by auto. destruct (H v Hv) as [H1 H2]. split; auto. intros X. destruct (H2 X) as [|J]; auto. right.
        apply in_app_or in J. apply in_or_app. destruct J as [|[|]]; auto. congruence.
  - split; auto.
  - exists c. split; auto. split; auto. intros v Hv. destruct (H v Hv) as [H1 H2]. split; auto. intros X. destruct (H2 X) as [|[]]; auto.
Qed.

Lemma drain_ok sched us nb : 0 < nb ->
  exists q2, run_all (fun _ => 0) drain_step sched us (repeat [] nb) = Ok q2 /\ length q2 = nb /\ forall v, In v (concat q2) <-> In v us.
Proof.
  intros NB.
  destruct (@run_all_inv _ _ (fun _ : nat => 0) drain_step (fun ts q => length q = nb /\ (forall u, In u ts -> In u us) /\
     forall v, (In v (concat q) -> In v us) /\ (In v us -> In v (concat q) \/ In v ts))) with (sched := sched) (ts := us) (s := repeat (@nil nat) nb) as (q & E & LQ & _ & H).
  - intros l1 t l2 q (LQ & SUB & H). unfold drain_step. destruct (@bin_push_ok q t t) as (q' & E' & LQ' & Q); [lia|]. rewrite E'. cbn [bind].
    exists None, q'. split; auto. split; auto. cbn [opt_list app]. split; [lia|]. split.
    + intros u J. apply SUB. apply in_app_or in J. apply in_or_app. simpl. tauto.
    + intros v. rewrite Q. destruct (H v) as [H1 H2]. split.
      * intros [J| ->]; auto. apply SUB, in_or_app; right; now left.
      * intros J. destruct (H2 J) as [|K]; auto. apply in_app_or in K. destruct K as [|[|]]; auto; right; apply in_or_app; auto.
  - split; [apply repeat_length|]. split; auto. intros v. rewrite concat_repeat_nil. split; [intros []|auto].
  - exists q. split; auto. split; auto. intros v. destruct (H v) as [H1 H2]. split; auto. intros J. destruct (H2 J) as [|[]]; auto.
Qed.

(** ** Levels *)
Lemma tree_marked k par v : tree_upto g s vmax k par -> v < length g -> nth v par vmax <> vmax <-> within g s k v.
Proof.
  intros (L & R & U & P) Hv. split.
  - intros N. destruct (within_dec g s k v) as [|W]; auto. exfalso. auto.
  - intros (d & Ld & D). destruct (Nat.eq_dec v s) as [->|NE]; [rewrite R; lia|]. destruct (P v d NE Ld D) as [E _]. apply edge_lt in E. lia.
Qed.

Lemma record_tree k par new F : tree_upto g s vmax k par -> (forall u, F u <-> dist g s u k) -> expanded g F (within g s k) new ->
  tree_upto g s vmax (S k) (record par new).
Proof.
  intros T HF EX. assert (TL := proj1 T). apply tree_upto_step with (par := par) (F := F) (vis := within g s k) (new := new); auto; try (intros; apply iff_refl).
  split; [apply record_length|]. split; [intros v N; now apply record_other|]. intros a b I. apply record_new; auto; [apply EX|].
  rewrite TL. destruct (exp_new EX a b I) as (_ & Eab & _). now apply (HT _ _ Eab).
Qed.

Lemma expanded_marked k par F new : tree_upto g s vmax k par -> expanded g F (fun v => nth v par vmax <> vmax) new -> expanded g F (within g s k) new.
Proof.
  intros T [A B C]. constructor; auto.
  - intros u v I. destruct (B u v I) as (B1 & B2 & B3). split; auto. split; auto. intros W. apply B3. apply (tree_marked T); auto. now apply (HT _ _ B2).
  - intros u v Fu Ed. destruct (C u v Fu Ed) as [M|M]; auto. left. apply (tree_marked T); auto. now apply (HT _ _ Ed).
Qed.

(** A bitmap holding level k and possibly vertices of earlier levels expands exactly level k. *)
Lemma expanded_stale k (F : nat -> Prop) new : (forall v, dist g s v k -> F v) -> (forall v, F v -> v < length g -> within g s k v) ->
  expanded g F (within g s k) new -> expanded g (fun v => dist g s v k) (within g s k) new.
Proof.
  intros F1 F2 [A B C]. constructor; auto; [|intros; eapply C; eauto].
  intros u v I. destruct (B u v I) as (B1 & B2 & B3). split; auto. destruct (F2 u B1 (edge_lt _ _ _ B2)) as (d & Ld & D).
  destruct (Nat.eq_dec d k) as [->|]; auto. exfalso. apply B3. destruct (@edge_within g s u v d D B2) as (j & Lj & Dj). exists j. split; auto. lia.
Qed.

Record front_ok (k : nat) (curr : list bool) : Prop := {
  fo_len : length curr = length g;
  fo_all : forall v, dist g s v k -> nth v curr false = true;
  fo_sub : forall v, v < length g -> nth v curr false = true -> within g s k v
}.

Lemma bu_loop_ok sched beta fuel : beta <> 0 -> forall k ph curr par awake, front_ok k curr -> tree_upto g s vmax k par -> 0 < awake -> length g <= fuel + k -> (exists u, dist g s u k) ->
  exists ph' curr' par' awake' k', bu_loop fuel vmax beta (length g) g_t sched ph curr par awake = Ok (ph', curr', par', awake') /\
    k < k' /\ tree_upto g s vmax k' par' /\ length curr' = length g /\ (forall v, v < length g -> nth v curr' false = true <-> dist g s v k') /\
    (awake' = 0 -> forall v, ~ dist g s v k').
Proof.
  intros HB. induction fuel; intros k ph curr par awake FO T AW HF (u0 & D0).
  - exfalso. assert (X := level_bound HT HS HV D0). lia.
  - cbn [bu_loop]. destruct (@bu_sweep_ok (sched ph) curr par (proj1 T) (fo_len FO)) as (curr' & par' & cnt & new & E & EP & LC & HC & CN & EX).
    rewrite E. cbn [bind]. apply (expanded_marked T) in EX. apply expanded_stale in EX; [|apply FO|intros v Fv Hv; now apply (fo_sub FO)].
    assert (T' := record_tree T (fun u => iff_refl _) EX). rewrite <- EP in T'.
    assert (NL := expanded_level (fun v => iff_refl _) (fun u => iff_refl _) EX).
    assert (HC' : forall v, v < length g -> nth v curr' false = true <-> dist g s v (S k)) by (intros v Hv; rewrite HC by auto; apply NL).
    assert (FO' : front_ok (S k) curr').
    { constructor; auto.
      - intros v D. apply HC'; auto. now apply (dist_lt HT HS D).
      - intros v Hv M. exists (S k). split; auto. now apply HC'. }
    assert (GO : 0 < cnt -> exists ph' curr'0 par'0 awake' k', bu_loop fuel vmax beta (length g) g_t sched (S ph) curr' par' cnt = Ok (ph', curr'0, par'0, awake') /\
      k < k' /\ tree_upto g s vmax k' par'0 /\ length curr'0 = length g /\ (forall v, v < length g -> nth v curr'0 false = true <-> dist g s v k') /\
      (awake' = 0 -> forall v, ~ dist g s v k')).
    { intros PC. destruct (IHfuel (S k) (S ph) curr' par' cnt) as (ph' & c2 & p2 & a2 & k2 & E2 & L2 & R2); auto; try lia.
      - destruct new as [|[a b] new]; [simpl in CN; lia|]. exists b. apply NL. now left.
      - exists ph', c2, p2, a2, k2. split; auto. split; [lia|auto]. }
    destruct (Nat.leb_spec awake cnt); [apply GO; lia|]. destruct (Nat.eqb_spec beta 0); [contradiction|].
    destruct (Nat.ltb_spec (length g / beta) cnt); [apply GO; lia|].
    exists (S ph), curr', par', cnt, (S k). split; auto. split; [lia|]. split; auto. split; auto. split; auto.
    intros Z v D. apply NL in D. destruct new; [destruct D|simpl in CN; lia].
Qed.

Lemma in_set_bits b v : In v (set_bits b) <-> v < length b /\ nth v b false = true.
Proof. unfold set_bits. rewrite filter_In, in_seq. intuition lia. Qed.

Record head_inv (k nb : nat) (q1 : list (list nat)) (curr : list bool) (par : list nat) : Prop := {
  hi_bins : length q1 = nb;
  hi_front : forall u, In u (concat q1) <-> dist g s u k;
  hi_clen : length curr = length g;
  hi_curr : forall v, v < length g -> nth v curr false = true -> within g s k v;
  hi_tree : tree_upto g s vmax k par;
  hi_some : exists u, dist g s u k
}.

Lemma pbfs_loop_ok sched W alpha beta nb fuel : alpha <> 0 -> beta <> 0 -> 0 < nb ->
  forall k ph q1 curr par edges scout, head_inv k nb q1 curr par -> length g < fuel + k ->
  exists p, pbfs_loop fuel vmax W alpha beta g g_t sched ph q1 curr par edges scout = Ok p /\ is_bfs_tree g s vmax p.
Proof.
  intros HA HB NB. induction fuel; intros k ph q1 curr par edges scout I HF; destruct (hi_some I) as (u0 & D0); assert (KB := level_bound HT HS HV D0); [lia|].
  cbn [pbfs_loop]. destruct (Nat.eqb_spec alpha 0); [contradiction|].
  (* what remains to do once the next level is queued *)
  assert (FIN : forall k' ph q2 curr par edges scout, k < k' -> length q2 = nb -> (forall u, In u (concat q2) <-> dist g s u k') -> length curr = length g ->
     (forall v, v < length g -> nth v curr false = true -> within g s k' v) -> tree_upto g s vmax k' par ->
     exists p, match concat q2 with [] => Ok par | _ => pbfs_loop fuel vmax W alpha beta g g_t sched ph q2 curr par edges scout end = Ok p /\ is_bfs_tree g s vmax p).
  { intros k' ph' q2 curr' par' edges' scout' LK LQ FQ LC HC T'. destruct (concat q2) as [|u us] eqn:EQ.
    - exists par'. split; auto. apply tree_upto_final with k'; auto. intros v D. apply dist_S in D. destruct D as (_ & u & D & _). now apply FQ in D.
    - apply IHfuel with (k := k'); [|lia]. constructor; auto.
      + rewrite EQ. exact FQ.
      + exists u. apply FQ. now left. }
  assert (FR : forall u, In u (concat q1) -> u < length g) by (intros u J; apply (hi_front I) in J; exact (dist_lt HT HS J)).
  destruct (edges / alpha <? scout).
  - destruct (@seed_ok (sched ph) (concat q1) curr (hi_clen I) FR) as (c1 & E1 & L1 & H1). rewrite E1. cbn [bind].
    assert (F1 : front_ok k c1).
    { constructor; auto.
      - intros v D. apply H1; [now apply (dist_lt HT HS D)|]. right. now apply (hi_front I).
      - intros v Hv M. apply H1 in M; auto. destruct M as [M|M]; [now apply (hi_curr I)|]. exists k. split; auto. now apply (hi_front I). }
    destruct (@bu_loop_ok sched beta fuel HB k (S ph) c1 par (length (concat q1)) F1 (hi_tree I)) as (ph' & c2 & p2 & aw & k' & E2 & LK & T2 & L2 & H2 & Z2); [|lia|eauto|].
    { assert (J := proj2 (hi_front I u0) D0). destruct (concat q1); [destruct J|simpl; lia]. }
    rewrite E2. cbn [bind]. destruct (Nat.eqb_spec aw 0) as [Z|_].
    + exists p2. split; auto. apply tree_upto_final with k'; auto. intros v D. apply dist_S in D. destruct D as (_ & u & D & _). now apply (Z2 Z) in D.
    + destruct (@drain_ok (sched ph') (set_bits c2) (length q1)) as (q2 & E3 & L3 & H3); [rewrite (hi_bins I); auto|]. rewrite E3. cbn [bind].
      apply FIN with (k' := k'); auto.
      * rewrite L3. apply I.
      * intros u. rewrite H3, in_set_bits, L2. split; [intros [J1 J2]; now apply H2|]. intros D. assert (Hu := dist_lt HT HS D). split; auto. now apply H2.
      * intros v Hv M. exists k'. split; auto. now apply H2.
  - destruct (@td_phase_ok (sched ph) q1 par (proj1 (hi_tree I))) as (p2 & q2 & cnt & new & E & EP & LQ & HQ & EX); auto; [rewrite (hi_bins I); auto|].
    rewrite E. cbn [bind]. apply (expanded_marked (hi_tree I)) in EX.
    assert (T' := record_tree (hi_tree I) (hi_front I) EX). rewrite <- EP in T'.
    assert (NL := expanded_level (fun v => iff_refl _) (hi_front I) EX).
    apply FIN with (k' := S k); auto.
    + rewrite LQ. apply I.
    + intros u. rewrite HQ. apply NL.
    + apply I.
    + intros v Hv M. destruct (hi_curr I Hv M) as (d & Ld & D). exists d. split; auto.
Qed.

Lemma pbfs_ok fuel W sched nbins alpha beta : length g < fuel -> alpha <> 0 -> beta <> 0 -> 0 < nbins ->
  exists p, pbfs fuel vmax W g g_t sched s nbins alpha beta = Ok p /\ is_bfs_tree g s vmax p.
Proof.
  intros HF HA HB NB. unfold pbfs. rewrite (@vget_nth _ g s []) by auto. cbn [bind]. rewrite vset_lt by (rewrite repeat_length; auto). cbn [bind].
  destruct (@bin_push_ok (repeat [] nbins) s s) as (q1 & E & L & Q); [now rewrite repeat_length|]. rewrite E. cbn [bind].
  rewrite repeat_length in L. apply pbfs_loop_ok with (k := 0) (nb := nbins); auto; [|lia]. constructor; auto.
  - intros u. rewrite Q, concat_repeat_nil, dist_0. simpl. tauto.
  - apply repeat_length.
  - intros v Hv M. rewrite nth_repeat in M. discriminate.
  - now apply tree_upto_0.
  - exists s. now apply dist_0.
Qed.
End Par.
