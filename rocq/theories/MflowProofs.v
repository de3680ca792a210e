(** Proofs for C74: max_flow. *)
From Coq Require Import List Arith ZArith Lia Bool Sorted.
From Verif Require Import Base GraphLib FifoLib BkLib BackModel BackProofs FbfsModel FbfsProofs WalkModel WalkProofs BcLib MflowLib MflowModel.
Import ListNotations.
Set Implicit Arguments.
Local Open Scope nat_scope.

Lemma rmap_rel X Y (f : X -> res Y) (P : X -> Y -> Prop) l : (forall x, In x l -> exists y, f x = Ok y /\ P x y) -> exists ys, rmap f l = Ok ys /\ Forall2 P l ys.
Proof.
  induction l as [|x l IH]; intros H; cbn [rmap]; [eexists; split; auto|]. destruct (H x (or_introl eq_refl)) as (y & -> & Py). cbn [bind]. destruct IH as (ys & -> & F); [intros; apply H; now right|]. cbn [bind]. eexists. split; [reflexivity|auto].
Qed.
Lemma Forall2_nth_l X Y (P : X -> Y -> Prop) l l' i x : Forall2 P l l' -> nth_error l i = Some x -> exists y, nth_error l' i = Some y /\ P x y.
Proof. intros F. revert i. induction F; intros [|i] E; try discriminate; cbn in *; [injection E as <-; eauto|eauto]. Qed.
Lemma Forall2_nth_r X Y (P : X -> Y -> Prop) l l' i y : Forall2 P l l' -> nth_error l' i = Some y -> exists x, nth_error l i = Some x /\ P x y.
Proof. intros F. revert i. induction F; intros [|i] E; try discriminate; cbn in *; [injection E as <-; eauto|eauto]. Qed.
Lemma Forall2_len X Y (P : X -> Y -> Prop) l l' : Forall2 P l l' -> length l = length l'.
Proof. induction 1; simpl; auto. Qed.

Lemma NoDup_front X (l l' : list X) : NoDup (l ++ l') -> NoDup l.
Proof. induction l as [|x l IH]; intros H; [constructor|]. cbn in H. apply NoDup_cons_iff in H. destruct H as [H1 H2]. constructor; auto. intros I. apply H1. apply in_or_app. auto. Qed.

Section R.
Variables (G : list (list nat)) (caps : list (list Z)) (c : nat -> nat -> Z).
Notation n := (length G).
Hypothesis HG : targets_ok G.
Hypothesis HN : forall v, NoDup (nth v G []).
Hypothesis HL : forall v, ~ edge G v v.
Hypothesis Hc1 : forall v u i, first_arc G v u i -> vget2 caps v i = Ok (c v u).
Hypothesis Hc0 : forall v u, ~ edge G v u -> c v u = 0%Z.
Local Notation ne := (fun a b => edge G a b /\ a <> b).

(** The state holds the flow [f]; the extra arcs hold nothing. *)
Record rep (f : nat -> nat -> Z) (st : bst) : Prop := {
  r_inv : binv G ne st;
  r_real : forall v u i, first_arc G v u i -> rd st (LReal v i) = Ok (u, f v u);
  r_ax : forall v u, edge G u v -> ~ edge G v u -> rd st (LAx v u) = Ok (u, 0%Z);
  r_bx : forall v u, edge G u v -> ~ edge G v u -> rd st (LBx u v) = Ok (u, 0%Z);
  r_0 : forall v u, ~ edge G v u -> f v u = 0%Z }.
Definition linked (v u : nat) : Prop := edge G v u \/ edge G u v.
Definition arc_place (v u : nat) (l : loc) : Prop := (exists i, first_arc G v u i /\ l = LReal v i) \/ (~ edge G v u /\ edge G u v /\ l = LAx v u).
Definition bk_place (v u : nat) (l : loc) : Prop := (exists j, first_arc G u v j /\ l = LReal u j) \/ (~ edge G u v /\ edge G v u /\ l = LBx v u).

Lemma linked_lt v u : linked v u -> v < n /\ u < n /\ v <> u.
Proof.
  intros [E|E]; (split; [|split]); try (eapply HG; eauto; fail); try (eapply edge_l; eauto; fail); intros ->; eapply HL; eauto.
Qed.
Lemma edge_ne v u : edge G v u -> v <> u.
Proof. intros E ->. eapply HL; eauto. Qed.
Lemma arc_linked v u l : arc_place v u l -> linked v u.
Proof. intros [(i & F & _)|(_ & E & _)]; [left; eapply first_edge; eauto|now right]. Qed.
Lemma arc_rd f st v u l : rep f st -> arc_place v u l -> rd st l = Ok (u, f v u) /\ cap_at caps l = Ok (c v u).
Proof.
  intros R [(i & F & ->)|(N & E & ->)].
  - split; [now apply (r_real R)|]. cbn [cap_at]. now apply Hc1.
  - split; [rewrite (r_0 R _ _ N); now apply (r_ax R)|]. cbn [cap_at]. now rewrite Hc0.
Qed.
Lemma bk_rd f st v u l : rep f st -> bk_place v u l -> rd st l = Ok (v, f u v).
Proof. intros R [(j & F & ->)|(N & E & ->)]; [now apply (r_real R)|]. rewrite (r_0 R _ _ N). now apply (r_bx R). Qed.
Lemma back_ok f st v u : rep f st -> linked v u -> exists b, get_back st v u = Ok (st, b) /\ back_at st v u = Ok b /\ bk_place v u b.
Proof.
  intros R K. assert (I := r_inv R). destruct (linked_lt K) as (Lv & Lu & N).
  assert (X : exists b, get_back st v u = Ok (st, b) /\ bk_place v u b); [|destruct X as (b & X & Y); exists b; split; auto; split; auto; unfold back_at; rewrite X; reflexivity].
  unfold get_back. destruct (b_find_ok u I Lv) as [(j & _ & F & ->)|[(KA & NE & -> & _)|[(A & B & _)|(A & B & _)]]]; cbn [bind].
  - exists (LReal u j). split; auto. left. eauto.
  - exists (LBx v u). split; auto. right. intuition.
  - destruct K as [K|K]; exfalso; [apply A|apply B]; split; auto.
  - destruct K as [K|K]; [exfalso; apply B; auto|contradiction].
Qed.
Lemma view_rep f st v : rep f st -> v < n ->
  exists W, mf_view caps st v = Ok W /\
    (forall i x, nth_error W i = Some x -> arc_place v (snd (fst x)) (fst (fst x)) /\ snd x = (rc c f v (snd (fst x)) <=? 0)%Z) /\
    (forall u, linked v u -> exists i x, nth_error W i = Some x /\ snd (fst x) = u).
Proof.
  intros R Lv. assert (I := r_inv R). unfold mf_view. destruct (view_ok I Lv) as (K & -> & _ & HK). cbn [bind].
  set (ls := map (LReal v) (seq 0 (length (nth v G []))) ++ map (LAx v) K).
  assert (P1 : forall l, In l ls -> exists u, arc_place v u l).
  { intros l Il. apply in_app_or in Il. destruct Il as [Il|Il]; apply in_map_iff in Il; destruct Il as (i & <- & Il).
    - apply in_seq in Il. destruct (nth_error (nth v G []) i) as [u|] eqn:E; [|apply nth_error_None in E; lia]. exists u. left. exists i. split; auto. split; auto.
      intros j Lj E2. assert (i = j); [|lia]. apply (proj1 (NoDup_nth_error _) (HN v)); [lia|congruence].
    - apply HK in Il. exists i. right. intuition. }
  destruct (@rmap_rel _ _ (fun l => do a <- rd st l ; do b <- mf_filter caps st v l ; Ok (l, fst a, b))
     (fun l x => exists u, x = (l, u, (rc c f v u <=? 0)%Z) /\ arc_place v u l) ls) as (W & -> & F).
  { intros l Il. destruct (P1 l Il) as (u & A). destruct (arc_rd R A) as [Rl Cl]. destruct (back_ok R (arc_linked A)) as (b & _ & Bb & Pb). assert (Rb := bk_rd R Pb).
    rewrite Rl. cbn [bind]. unfold mf_filter. rewrite Rl. cbn [bind fst snd]. rewrite Cl. cbn [bind]. rewrite Bb. cbn [bind]. unfold flow_at. rewrite Rb. cbn [bind snd].
    eexists. split; [reflexivity|]. exists u. split; auto. f_equal. unfold rc. destruct (Z.leb_spec (c v u + f u v) (f v u)), (Z.leb_spec (c v u - f v u + f u v) 0); auto; lia. }
  exists W. split; auto. split.
  - intros i x E. destruct (Forall2_nth_r _ F E) as (l & _ & u & -> & A). auto.
  - intros u K'. assert (X : exists l, In l ls /\ arc_place v u l).
    { destruct (edge_dec G v u) as [E|E].
      - destruct (@first_ex G v u E) as (i & Fi). exists (LReal v i). split; [|left; eauto]. apply in_or_app. left. apply in_map, in_seq. destruct Fi as [Fi _]. assert (i < length (nth v G [])) by (apply nth_error_Some; congruence). lia.
      - destruct K' as [K'|K']; [contradiction|]. exists (LAx v u). split; [|right; auto]. apply in_or_app. right. apply in_map, HK. split; auto. split; auto. now apply edge_ne. }
    destruct X as (l & Il & A). apply In_nth_error in Il. destruct Il as (i & El). destruct (Forall2_nth_l _ F El) as (x & Ex & u' & -> & A'). exists i, (l, u', (rc c f v u' <=? 0)%Z). split; auto. cbn [fst snd].
    destruct (arc_rd R A) as [Q1 _], (arc_rd R A') as [Q2 _]. congruence.
Qed.
(** What the search sees. *)
Record views_ok (f : nat -> nat -> Z) (V : list (list (loc * nat * bool))) : Prop := {
  w_len : length V = n;
  w_arc : forall v i x, nth_error (nth v V []) i = Some x -> arc_place v (snd (fst x)) (fst (fst x)) /\ snd x = (rc c f v (snd (fst x)) <=? 0)%Z;
  w_all : forall v u, linked v u -> exists i x, nth_error (nth v V []) i = Some x /\ snd (fst x) = u }.
Lemma views_rep f st : rep f st -> exists V, mf_views caps st = Ok V /\ views_ok f V.
Proof.
  intros R. unfold mf_views. assert (Lg : length (b_g st) = n) by (rewrite <- (bi_g (r_inv R)); now rewrite map_length). rewrite Lg.
  destruct (@rmap_rel _ _ (mf_view caps st) (fun v W => (forall i x, nth_error W i = Some x -> arc_place v (snd (fst x)) (fst (fst x)) /\ snd x = (rc c f v (snd (fst x)) <=? 0)%Z) /\
    (forall u, linked v u -> exists i x, nth_error W i = Some x /\ snd (fst x) = u)) (seq 0 n)) as (V & -> & F).
  { intros v Iv. apply in_seq in Iv. apply (view_rep R). lia. }
  exists V. split; auto. assert (LV := Forall2_len F). rewrite seq_length in LV.
  assert (X : forall v, v < n -> (forall i x, nth_error (nth v V []) i = Some x -> arc_place v (snd (fst x)) (fst (fst x)) /\ snd x = (rc c f v (snd (fst x)) <=? 0)%Z) /\
    (forall u, linked v u -> exists i x, nth_error (nth v V []) i = Some x /\ snd (fst x) = u)).
  { intros v Lv. assert (E : nth_error (seq 0 n) v = Some v) by (rewrite (nth_error_nth' _ 0) by (rewrite seq_length; auto); now rewrite seq_nth). destruct (Forall2_nth_l _ F E) as (W & EW & PW). now rewrite (nth_error_nth _ _ [] EW). }
  constructor; auto.
  - intros v i x E. destruct (Nat.lt_ge_cases v n) as [L|L]; [now apply X in E|]. rewrite nth_overflow in E by lia. destruct i; discriminate.
  - intros v u K. apply X; auto. apply (linked_lt K).
Qed.
Lemma graph_row V v : nth v (mf_graph V) [] = map (fun x => snd (fst x)) (nth v V []).
Proof. unfold mf_graph. change (@nil nat) with (map (fun x : loc * nat * bool => snd (fst x)) []). now rewrite map_nth. Qed.
Lemma graph_edge f V v u : views_ok f V -> edge (mf_graph V) v u <-> linked v u.
Proof.
  intros W. unfold edge. rewrite graph_row. split.
  - intros E. apply in_map_iff in E. destruct E as (x & <- & Ix). apply In_nth_error in Ix. destruct Ix as (i & E). apply (w_arc W) in E. destruct E as [E _]. eapply arc_linked; eauto.
  - intros K. destruct (w_all W K) as (i & x & E & <-). apply (in_map (fun x => snd (fst x))). eapply nth_error_In; eauto.
Qed.
Lemma graph_len f V : views_ok f V -> length (mf_graph V) = n.
Proof. intros W. unfold mf_graph. rewrite map_length. apply (w_len W). Qed.
Lemma graph_ok f V : views_ok f V -> targets_ok (mf_graph V).
Proof. intros W v u E. rewrite (graph_len W). apply (graph_edge _ _ W) in E. apply (linked_lt E). Qed.
Lemma res_edge f V v u : views_ok f V -> edge (unfiltered (mf_answer V) (mf_graph V)) v u <-> linked v u /\ (0 < rc c f v u)%Z.
Proof.
  intros W. rewrite unf_edge, graph_row. unfold mf_answer. split.
  - intros (i & E & A). rewrite nth_error_map in E. destruct (nth_error (nth v V []) i) as [x|] eqn:Ex; [|discriminate]. cbn in E. injection E as <-. destruct (w_arc W _ _ Ex) as [P Q]. split; [eapply arc_linked; eauto|].
    rewrite (nth_indep _ true (snd x)) in A by (rewrite map_length; apply nth_error_Some; congruence). rewrite map_nth, (nth_error_nth _ _ _ Ex), Q in A. apply Z.leb_gt in A. exact A.
  - intros [K P]. destruct (w_all W K) as (i & x & E & <-). exists i. rewrite nth_error_map, E. split; auto. destruct (w_arc W _ _ E) as [_ Q].
    rewrite (nth_indep _ true (snd x)) by (rewrite map_length; apply nth_error_Some; congruence). rewrite map_nth, (nth_error_nth _ _ _ E), Q. now apply Z.leb_gt.
Qed.

(** ** The search *)
(** The tree's entry for [u] describes the arc from [v]. *)
Definition good (tree : list tree_edge) (v u : nat) : Prop := exists l b, nth_error tree u = Some (mkTe (Some l) (Some b) v) /\ arc_place v u l /\ bk_place v u b.
Lemma search_ok debug f st V t : rep f st -> views_ok f V -> forall fuel fs tree r b, length tree = n ->
  fb_loop debug (mf_graph V) (mf_answer V) t fuel fs = Ok (r, b) -> NoDup (map snd r) ->
  exists tree', mf_search debug st V t fuel fs tree = Ok (tree', b) /\ length tree' = n /\ (forall v u, In (v, u) r -> good tree' v u) /\
    (forall u, ~ In u (map snd r) -> nth_error tree' u = nth_error tree u).
Proof.
  intros R W. induction fuel as [|fuel IH]; intros fs tree r b L E ND; cbn [fb_loop mf_search] in *; destruct (vget (fb_c fs) t) as [x| |]; try discriminate; cbn [bind] in *; destruct ((x =? 2) || fb_unr fs); try discriminate.
  - injection E as <- <-. exists tree. split; auto. split; auto. split; auto. intros v u [].
  - injection E as <- <-. exists tree. split; auto. split; auto. split; auto. intros v u [].
  - destruct (fb_deref (mf_graph V) fs) as [[v u]| |] eqn:D; try discriminate. cbn [bind fst snd] in *. destruct (fb_next debug (mf_graph V) (mf_answer V) t fs) as [fs'| |]; try discriminate. cbn [bind] in *.
    destruct (fb_loop debug (mf_graph V) (mf_answer V) t fuel fs') as [[r' b']| |] eqn:E'; try discriminate. cbn [bind fst snd] in E. injection E as <- <-. cbn [map snd] in ND. apply NoDup_cons_iff in ND. destruct ND as [NU ND].
    unfold fb_deref in D. destruct (vget (mf_graph V) (fb_v fs)) as [row| |] eqn:Er; try discriminate. cbn [bind] in D. destruct (vget row (fb_i fs)) as [u'| |] eqn:Eu; try discriminate. cbn [bind] in D. injection D as <- ->.
    apply vget_Ok in Er, Eu. assert (Er' := nth_error_nth _ _ [] Er). rewrite graph_row in Er'. subst row. rewrite nth_error_map in Eu. destruct (nth_error (nth (fb_v fs) V []) (fb_i fs)) as [a|] eqn:Ea; [|discriminate]. cbn in Eu. injection Eu as Eu.
    assert (X : vget2 V (fb_v fs) (fb_i fs) = Ok a).
    { unfold vget2. rewrite (@vget_nth _ V (fb_v fs) []); [cbn [bind]; now apply vget_Ok|]. assert (Q : fb_v fs < length (mf_graph V)) by (apply nth_error_Some; congruence). unfold mf_graph in Q. now rewrite map_length in Q. }
    rewrite X. cbn [bind]. destruct (w_arc W _ _ Ea) as [A _]. rewrite Eu in A. destruct (back_ok R (arc_linked A)) as (bl & _ & -> & Bp). cbn [bind]. destruct (linked_lt (arc_linked A)) as (_ & Lu & _).
    rewrite vset_lt by lia. cbn [bind]. set (te := mkTe _ _ _).
    destruct (IH fs' (upd tree u te) r' b') as (tree' & Es & Lt & Gd & Ot); [now rewrite upd_length|auto|auto|]. exists tree'. split; auto. split; auto. split.
    + intros v0 u0 [Q|Q]; [|auto]. injection Q as <- <-. exists (fst (fst a)), bl. split; auto. rewrite Ot by auto. rewrite (nth_error_nth' _ te_init) by (rewrite upd_length; lia). rewrite nth_upd_eq by lia. reflexivity.
    + intros u0 N0. cbn [map snd] in N0. rewrite Ot by (intros Q; apply N0; now right). assert (u0 <> u) by (intros ->; apply N0; now left). destruct (Nat.lt_ge_cases u0 n) as [L0|L0].
      * rewrite !(nth_error_nth' _ te_init) by (rewrite ?upd_length; lia). now rewrite nth_upd_neq by auto.
      * rewrite !(proj2 (nth_error_None _ _)) by (rewrite ?upd_length; lia). reflexivity.
Qed.
Lemma bfs_ok debug f st V s t tree r b : rep f st -> mf_views caps st = Ok V -> views_ok f V -> length tree = n ->
  filtered_bfs debug (mf_graph V) (mf_answer V) t s = Ok (r, b) -> NoDup (map snd r) ->
  exists tree', mf_bfs debug caps st s t tree = Ok (tree', b) /\ length tree' = n /\ (forall v u, In (v, u) r -> good tree' v u).
Proof.
  intros R EV W L E ND. unfold mf_bfs. rewrite EV. cbn [bind]. unfold filtered_bfs in E. rewrite (graph_len W) in E. rewrite (w_len W).
  destruct (vset (repeat 1 n) s 2) as [cs| |]; try discriminate. cbn [bind] in *. destruct (vget (mf_graph V) s) as [row| |]; try discriminate. cbn [bind] in *. destruct (fb_first (mf_answer V) s row 0) as [q| |]; try discriminate. cbn [bind] in *.
  destruct (@search_ok debug f st V t R W _ _ tree r b L E ND) as (tree' & E' & L' & Gd & _). eauto.
Qed.
(** The path backwards from a vertex of the tree. *)
Lemma path_ok h s T T' tree : tree_order h s (T ++ T') -> (forall v u, In (v, u) T -> good tree v u) -> forall d x, In x (s :: map snd T) -> dist h s x d ->
  exists l, chain s x l /\ incl l T /\ (forall y, In y (map fst l) -> exists d', d' < d /\ dist h s y d') /\ NoDup (x :: map fst l) /\
    (0 < d -> forall fuel, d <= fuel -> rp_run fuel (map te_pred tree) s x false = Ok (map snd l, true)) /\ length l = d.
Proof.
  intros TO GD. induction d as [|d IH]; intros x X D.
  - apply dist_0 in D. subst x. exists []. split; [reflexivity|]. split; [intros y []|]. split; [intros y []|]. split; [constructor; [intros []|constructor]|]. split; [lia|reflexivity].
  - destruct X as [<-|X]; [exfalso; assert (Q := dist_fun D (proj2 (dist_0 h s s) eq_refl)); lia|]. apply in_map_iff in X. destruct X as ([p x'] & Q & X). cbn in Q. subst x'.
    destruct (in_split _ _ X) as (T1 & T2 & ET). destruct TO as [LO TR]. destruct (TR T1 p x (T2 ++ T')) as (Ep & Dp & Ip); [rewrite ET, <- app_assoc; reflexivity|].
    assert (Rp : reachable h s p). { apply (proj1 (proj2 LO)). destruct Ip as [<-|Ip]; [now left|]. right. rewrite ET, !map_app. apply in_or_app. left. apply in_or_app. now left. }
    apply dist_reach in Rp. destruct Rp as (dp & Rp). assert (Q := dist_fun D (Dp _ Rp)). injection Q as <-.
    destruct (IH p) as (l & C & I & B & ND & Run & Len); auto.
    { destruct Ip as [<-|Ip]; [now left|]. right. rewrite ET, map_app. apply in_or_app. now left. }
    assert (NX : forall y dy, dist h s y dy -> dy < S d -> y <> x) by (intros y dy Dy Ly ->; assert (Q := dist_fun D Dy); lia).
    exists ((p, x) :: l). split; [split; auto|]. split; [intros e [<-|E]; auto|]. split.
    { cbn [map fst]. intros y [<-|Y]; [exists d; auto|]. destruct (B y Y) as (d' & L' & D'). exists d'. split; auto. }
    split.
    { cbn [map fst]. constructor; auto. intros [Y|Y]; [apply (NX p d Rp); auto|]. destruct (B x Y) as (d' & L' & D'). apply (NX x d' D'); auto. }
    split; [|cbn; congruence]. intros _ [|fuel] Fu; [lia|]. cbn [rp_run]. destruct (GD p x X) as (a & b & Et & _).
    assert (Ev : vget (map te_pred tree) x = Ok p) by (apply vget_Ok; rewrite nth_error_map, Et; reflexivity). rewrite Ev. cbn [bind].
    destruct (Nat.eqb_spec p s) as [->|NP].
    + assert (d = 0) by (apply (dist_fun Rp), dist_0; auto). subst d. destruct l as [|e l]; [|discriminate]. destruct fuel; reflexivity.
    + assert (0 < d) by (destruct d; [exfalso; apply NP; now apply dist_0 in Rp|lia]). rewrite Run by lia. reflexivity.
Qed.

(** ** Sending flow along the path *)
Lemma put_ex st l x z : rd st l = Ok x -> exists st', put st l z = Ok st'.
Proof.
  intros E. unfold put. rewrite E. cbn [bind]. destruct l as [v i|u v|v u]; cbn [rd wr] in *.
  - unfold vget2, vset2 in *. destruct (vget (b_g st) v) as [row| |] eqn:Er; try discriminate. cbn [bind] in *. apply vget_Ok in E, Er. rewrite vset_lt by (apply nth_error_Some; congruence). cbn [bind]. rewrite vset_lt by (apply nth_error_Some; congruence). cbn [bind]. eauto.
  - unfold mget, mset in *. destruct (vget (b_bx st) u) as [m| |] eqn:Er; try discriminate. cbn [bind] in *. destruct (afind v m); [|discriminate]. apply vget_Ok in Er. rewrite vset_lt by (apply nth_error_Some; congruence). cbn [bind]. eauto.
  - unfold mget, mset in *. destruct (vget (b_ax st) v) as [m| |] eqn:Er; try discriminate. cbn [bind] in *. destruct (afind u m); [|discriminate]. apply vget_Ok in Er. rewrite vset_lt by (apply nth_error_Some; congruence). cbn [bind]. eauto.
Qed.
Lemma rep_update f st st' m v u l b : rep f st -> arc_place v u l -> bk_place v u b -> binv G ne st' -> bounded c (push c m v u f) ->
  rd st' l = Ok (u, push c m v u f v u) -> rd st' b = Ok (v, push c m v u f u v) -> (forall l', l' <> l -> l' <> b -> rd st' l' = rd st l') ->
  rep (push c m v u f) st'.
Proof.
  intros R A B I BD Rl Rb Ro. set (f' := push c m v u f) in *. destruct (linked_lt (arc_linked A)) as (Lv & Lu & N).
  assert (Z0 : forall a d, ~ edge G a d -> f' a d = 0%Z) by (intros a d E; specialize (BD a d); rewrite (Hc0 _ _ E) in BD; lia).
  assert (KL : forall a d l', l' = LReal a d -> (l' = l -> a = v) /\ (l' = b -> a = u)).
  { intros a d l' ->. split; intros Q; [destruct A as [(i & _ & A)|(_ & _ & A)]|destruct B as [(i & _ & B)|(_ & _ & B)]]; congruence. }
  constructor; auto.
  - intros a d i F. destruct (loc_dec (LReal a i) l) as [Q|Q1]; [|destruct (loc_dec (LReal a i) b) as [Q|Q2]].
    + assert (a = v) by (apply (KL a i _ eq_refl); auto). subst a. rewrite Q, Rl. destruct A as [(j & Fj & A)|(_ & _ & A)]; [|congruence]. assert (i = j) by congruence. subst j. destruct F as [F _], Fj as [Fj _]. assert (d = u) by congruence. now subst d.
    + assert (a = u) by (apply (KL a i _ eq_refl); auto). subst a. rewrite Q, Rb. destruct B as [(j & Fj & B)|(_ & _ & B)]; [|congruence]. assert (i = j) by congruence. subst j. destruct F as [F _], Fj as [Fj _]. assert (d = v) by congruence. now subst d.
    + rewrite Ro by auto. rewrite (r_real R F). f_equal. f_equal. unfold f', push. destruct (Nat.eqb_spec a v) as [->|], (Nat.eqb_spec d u) as [->|]; cbn [andb].
      * exfalso. apply Q1. destruct A as [(j & Fj & ->)|(NE & _)]; [f_equal; eapply first_fun; eauto|exfalso; apply NE; eapply first_edge; eauto].
      * destruct (Nat.eqb_spec v u); [congruence|]. reflexivity.
      * destruct (Nat.eqb_spec u v); [congruence|]. now rewrite andb_false_r.
      * destruct (Nat.eqb_spec a u) as [->|], (Nat.eqb_spec d v) as [->|]; cbn [andb]; auto. exfalso. apply Q2. destruct B as [(j & Fj & ->)|(NE & _)]; [f_equal; eapply first_fun; eauto|exfalso; apply NE; eapply first_edge; eauto].
  - intros a d E1 E2. destruct (loc_dec (LAx a d) l) as [Q|Q1].
    + destruct A as [(j & _ & A)|(_ & _ & A)]; [congruence|]. rewrite <- Q in A. injection A as -> ->. rewrite Q, Rl, Z0; auto.
    + rewrite Ro; [now apply (r_ax R)|auto|]. destruct B as [(j & _ & B)|(_ & _ & B)]; congruence.
  - intros a d E1 E2. destruct (loc_dec (LBx d a) b) as [Q|Q1].
    + destruct B as [(j & _ & B)|(_ & _ & B)]; [congruence|]. rewrite <- Q in B. injection B as -> ->. rewrite Q, Rb, Z0; auto.
    + rewrite Ro; [now apply (r_bx R)| |auto]. destruct A as [(j & _ & A)|(_ & _ & A)]; congruence.
Qed.
Lemma push_ok f st tree m v u : rep f st -> bounded c f -> good tree v u -> (0 <= m <= rc c f v u)%Z ->
  exists st', mf_push caps tree m st u = Ok st' /\ rep (push c m v u f) st'.
Proof.
  intros R B (l & b & Et & A & Pb) M. destruct (linked_lt (arc_linked A)) as (Lv & Lu & N). destruct (arc_rd R A) as [Rl Cl]. assert (Rb := bk_rd R Pb).
  assert (BD := push_bounded B N M). assert (Nlb : b <> l). { destruct A as [(i & _ & ->)|(_ & _ & ->)], Pb as [(j & _ & ->)|(_ & _ & ->)]; congruence. }
  assert (P1 : push c m v u f v u = Z.min (f v u + m) (c v u)) by (unfold push; now rewrite !Nat.eqb_refl).
  assert (P2 : push c m v u f u v = (f u v - Z.max 0 (f v u + m - c v u))%Z) by (unfold push; destruct (Nat.eqb_spec u v); [congruence|]; now rewrite !Nat.eqb_refl).
  unfold mf_push, mf_arc. rewrite (proj2 (vget_Ok _ _ _) Et). cbn [bind te_arc te_back fst snd]. unfold flow_at at 1. rewrite Rl. cbn [bind snd].
  destruct (@put_ex st l _ (f v u + m)%Z Rl) as (st1 & E1). rewrite E1. cbn [bind]. destruct (@put_ok G ne _ _ _ _ (r_inv R) E1) as (I1 & O1 & x & X1 & X2). rewrite Rl in X1. injection X1 as <-. cbn [fst] in X2.
  unfold flow_at at 1. rewrite X2. cbn [bind snd]. rewrite Cl. cbn [bind]. destruct (Z.ltb_spec 0 (f v u + m - c v u)) as [Ex|Ex].
  - destruct (@put_ex st1 l _ (c v u) X2) as (st2 & E2). rewrite E2. cbn [bind]. destruct (@put_ok G ne _ _ _ _ I1 E2) as (I2 & O2 & x & X3 & X4). rewrite X2 in X3. injection X3 as <-. cbn [fst] in X4.
    assert (Rb2 : rd st2 b = Ok (v, f u v)) by (rewrite O2, O1; auto). unfold flow_at. rewrite Rb2. cbn [bind snd].
    destruct (@put_ex st2 b _ (f u v - (f v u + m - c v u))%Z Rb2) as (st3 & E3). rewrite E3. exists st3. split; auto. destruct (@put_ok G ne _ _ _ _ I2 E3) as (I3 & O3 & x & X5 & X6). rewrite Rb2 in X5. injection X5 as <-. cbn [fst] in X6.
    apply rep_update with (st := st) (l := l) (b := b); auto.
    + rewrite O3, X4, P1 by auto. do 2 f_equal. lia.
    + rewrite X6, P2. do 2 f_equal. lia.
    + intros l' Q1 Q2. rewrite O3, O2, O1; auto.
  - exists st1. split; auto. apply rep_update with (st := st) (l := l) (b := b); auto.
    + rewrite X2, P1. do 2 f_equal. lia.
    + rewrite O1, Rb, P2 by auto. do 2 f_equal. lia.
Qed.
Lemma pushes_state tree m s : (0 <= m)%Z -> forall l x f st, chain s x l -> NoDup (x :: map fst l) -> rep f st -> bounded c f -> (forall v u, In (v, u) l -> good tree v u) ->
  (forall e, In e l -> m <= rc c f (fst e) (snd e))%Z -> exists st', rfold (mf_push caps tree m) (map snd l) st = Ok st' /\ rep (pushes c m l f) st'.
Proof.
  intros M. induction l as [|[v u] l IH]; intros x f st C ND R B GD RC; [exists st; split; auto|].
  cbn [chain fst snd] in C. destruct C as [-> C]. cbn [map fst snd rfold] in *. apply NoDup_cons_iff in ND. destruct ND as [NX ND].
  assert (R0 : (m <= rc c f v x)%Z) by (apply (RC (v, x)); now left). assert (NV : v <> x) by (intros ->; apply NX; now left).
  destruct (@push_ok f st tree m v x R B (GD _ _ (or_introl eq_refl)) (conj M R0)) as (st1 & -> & R1). cbn [bind].
  destruct (IH v (push c m v x f) st1 C ND R1) as (st' & E' & R').
  - apply push_bounded; auto.
  - intros v' u' I. apply GD. now right.
  - intros e E. rewrite push_rc; [apply RC; now right| |].
    + intros Q. apply NX. right. rewrite <- Q. now apply in_map.
    + intros Q. apply NX. rewrite <- Q. eapply chain_in; eauto.
  - exists st'. split; auto.
Qed.
Lemma min_ok tree f st : rep f st -> forall l m0, (forall v u, In (v, u) l -> good tree v u) ->
  exists m, rfold (mf_min caps tree st) (map snd l) m0 = Ok m /\ (m <= m0)%Z /\ (forall e, In e l -> m <= rc c f (fst e) (snd e))%Z /\
    (forall k, k <= m0 -> (forall e, In e l -> k <= rc c f (fst e) (snd e)) -> k <= m)%Z /\ (m = m0 \/ exists e, In e l /\ m = rc c f (fst e) (snd e)).
Proof.
  intros R. induction l as [|[v u] l IH]; intros m0 GD.
  - exists m0. cbn. split; auto. split; [lia|]. split; [intros e []|]. auto.
  - cbn [map snd rfold]. destruct (GD v u (or_introl eq_refl)) as (a & b & Et & A & Pb). unfold mf_min at 1, mf_arc. rewrite (proj2 (vget_Ok _ _ _) Et). cbn [bind te_arc te_back fst snd].
    destruct (arc_rd R A) as [Rl Cl]. rewrite Cl. cbn [bind]. unfold flow_at. rewrite Rl. cbn [bind snd]. rewrite (bk_rd R Pb). cbn [bind snd].
    destruct (IH (Z.min m0 (c v u - f v u + f u v))) as (m & E & M1 & M2 & M3 & M4); [intros; apply GD; now right|]. exists m. split; auto. split; [lia|]. split; [|split].
    + intros e [<-|H]; auto. cbn [fst snd]. unfold rc. lia.
    + intros k K1 K2. apply M3; [|intros e H; apply K2; now right]. assert (Q := K2 (v, u) (or_introl eq_refl)). cbn [fst snd] in Q. unfold rc in Q. lia.
    + destruct M4 as [->|(e & I & ->)]; [|right; exists e; split; auto; now right]. destruct (Z.min_spec m0 (c v u - f v u + f u v)) as [[_ ->]|[_ ->]]; auto. right. exists (v, u). split; [now left|reflexivity].
Qed.

(** ** The rounds *)
Variables (debug : bool) (s t : nat).
Hypothesis Hs : s < n.
Hypothesis Ht : t < n.
Hypothesis Hst : s <> t.
Hypothesis Hrow : exists u, linked s u.
Definition blocked (f : nat -> nat -> Z) (side : nat -> bool) : Prop :=
  side s = true /\ side t = false /\ forall p q, p < n -> q < n -> side p = true -> side q = false -> (rc c f p q <= 0)%Z.
(** ** Distances in the residual graph (for the number of rounds) *)
Definition rgraph (f : nat -> nat -> Z) : list (list nat) :=
  map (fun v => filter (fun u => (existsb (Nat.eqb u) (nth v G []) || existsb (Nat.eqb v) (nth u G [])) && (0 <? rc c f v u)%Z) (seq 0 n)) (seq 0 n).
Lemma eqb_in x l : existsb (Nat.eqb x) l = true <-> In x l.
Proof. rewrite existsb_exists. split; [intros (y & Y & Q); apply Nat.eqb_eq in Q; now subst|]. intros Y. exists x. split; auto. apply Nat.eqb_refl. Qed.
Lemma rgraph_len f : length (rgraph f) = n.
Proof. unfold rgraph. now rewrite map_length, seq_length. Qed.
Lemma rgraph_edge f v u : edge (rgraph f) v u <-> linked v u /\ (0 < rc c f v u)%Z.
Proof.
  unfold edge, rgraph. destruct (Nat.lt_ge_cases v n) as [L|L].
  - rewrite (nth_indep _ [] (filter (fun u => (existsb (Nat.eqb u) (nth 0 G []) || existsb (Nat.eqb 0) (nth u G [])) && (0 <? rc c f 0 u)%Z) (seq 0 n))) by (now rewrite map_length, seq_length).
    rewrite (map_nth (fun v => filter (fun u => (existsb (Nat.eqb u) (nth v G []) || existsb (Nat.eqb v) (nth u G [])) && (0 <? rc c f v u)%Z) (seq 0 n))), seq_nth by auto. cbn [plus].
    rewrite filter_In, in_seq, andb_true_iff, orb_true_iff, !eqb_in, Z.ltb_lt. fold (edge G v u). fold (edge G u v). fold (linked v u). split; [tauto|]. intros [K P]. destruct (linked_lt K) as (_ & Lu & _). split; [lia|]. split; auto.
  - rewrite nth_overflow by (rewrite map_length, seq_length; auto). split; [intros []|]. intros [K _]. apply linked_lt in K. lia.
Qed.
Lemma rgraph_ok f : targets_ok (rgraph f).
Proof. intros v u E. rewrite rgraph_len. apply rgraph_edge in E. destruct E as [E _]. apply (linked_lt E). Qed.
Definition delta (f : nat -> nat -> Z) (v : nat) : nat := match distf (rgraph f) s v with Some d => d | None => n end.
Lemma walk_ext g g' x k : (forall a b, edge g a b <-> edge g' a b) -> walk g s k x -> walk g' s k x.
Proof. intros E W. induction W; [constructor|]. econstructor; eauto. now apply E. Qed.
Lemma rg_s f : s < length (rgraph f).
Proof. rewrite rgraph_len. exact Hs. Qed.
Lemma delta_dist f h v d : (forall a b, edge h a b <-> linked a b /\ (0 < rc c f a b)%Z) -> dist h s v d -> delta f v = d.
Proof.
  intros X [W M]. assert (Y : forall a b, edge h a b <-> edge (rgraph f) a b) by (intros; rewrite X, rgraph_edge; reflexivity).
  assert (D : dist (rgraph f) s v d). { split; [eapply walk_ext; eauto|]. intros k Wk. apply M. eapply walk_ext; [|exact Wk]. intros; now rewrite Y. }
  unfold delta. now rewrite (proj2 (@distf_Some _ _ _ _ (@rgraph_ok f) (rg_s f)) D).
Qed.
Lemma delta_le f v : delta f v <= n.
Proof.
  unfold delta. destruct (distf (rgraph f) s v) as [d|] eqn:E; auto. apply (@distf_Some _ _ _ _ (@rgraph_ok f) (rg_s f)) in E. apply dist_lt_n in E; [|apply rgraph_ok|apply rg_s]. rewrite rgraph_len in E. lia.
Qed.
Lemma delta_walk f v k : walk (rgraph f) s k v -> delta f v <= k.
Proof.
  intros W. unfold delta. destruct (distf (rgraph f) s v) as [d|] eqn:E.
  - apply (@distf_Some _ _ _ _ (@rgraph_ok f) (rg_s f)) in E. apply E, W.
  - apply (@distf_None _ _ _ (@rgraph_ok f) (rg_s f)) in E. exfalso. apply E. exists k. auto.
Qed.
Lemma delta_ex f v : delta f v < n -> walk (rgraph f) s (delta f v) v.
Proof.
  unfold delta. destruct (distf (rgraph f) s v) as [d|] eqn:E; [|lia]. intros _. apply (@distf_Some _ _ _ _ (@rgraph_ok f) (rg_s f)) in E. apply E.
Qed.
Lemma delta_step f v u : linked v u -> (0 < rc c f v u)%Z -> delta f u <= S (delta f v).
Proof.
  intros K P. destruct (Nat.lt_ge_cases (delta f v) n) as [L|L]; [|assert (Q := delta_le f u); lia]. apply delta_walk. econstructor; [now apply delta_ex|]. apply rgraph_edge. auto.
Qed.
(** Distances do not shrink when the only new residual arcs lead one step back. *)
Lemma delta_mono f f' v : (forall a b, linked a b -> (0 < rc c f' a b)%Z -> (0 < rc c f a b)%Z \/ delta f b <= delta f a) -> delta f v <= delta f' v.
Proof.
  intros H. destruct (Nat.lt_ge_cases (delta f' v) n) as [L|L]; [|assert (Q := delta_le f v); lia].
  assert (X : forall k x, walk (rgraph f') s k x -> delta f x <= k).
  { induction k as [|k IH]; intros x W; inversion W; subst.
    - apply delta_walk. constructor.
    - assert (Q := IH _ H1). apply rgraph_edge in H2. destruct H2 as [K P]. destruct (H _ _ K P) as [P'|P']; [assert (Q' := @delta_step f _ _ K P'); lia|lia]. }
  apply X. now apply delta_ex.
Qed.
Definition arcs2 : list (nat * nat) := flat_map (fun v => flat_map (fun u => [(v, u); (u, v)]) (nth v G [])) (seq 0 n).
Lemma arcs2_in v u : linked v u -> In (v, u) arcs2.
Proof.
  intros K. destruct (linked_lt K) as (Lv & Lu & _). unfold arcs2. apply in_flat_map. destruct K as [K|K].
  - exists v. split; [apply in_seq; lia|]. apply in_flat_map. exists u. split; auto. now left.
  - exists u. split; [apply in_seq; lia|]. apply in_flat_map. exists v. split; auto. right. now left.
Qed.
Lemma arcs2_linked e : In e arcs2 -> linked (fst e) (snd e).
Proof.
  unfold arcs2. intros H. apply in_flat_map in H. destruct H as (v & _ & H). apply in_flat_map in H. destruct H as (u & H & [<-|[<-|[]]]); [now left|now right].
Qed.
Lemma flat2_len (l : list nat) (h : nat -> list (nat * nat)) : (forall x, length (h x) = 2) -> length (flat_map h l) = 2 * length l.
Proof. intros E. induction l as [|x l IH]; auto. cbn [flat_map length]. rewrite app_length, E, IH. lia. Qed.
Lemma arcs2_len : length arcs2 = 2 * length (concat G).
Proof.
  unfold arcs2. assert (X : forall l k, (forall i, nth i l [] = nth (k + i) G []) -> length (flat_map (fun v => flat_map (fun u => [(v, u); (u, v)]) (nth v G [])) (seq k (length l))) = 2 * length (concat l)).
  { induction l as [|r l IH]; intros k E; auto. cbn [length seq flat_map concat]. rewrite !app_length, flat2_len by auto. rewrite IH; [|intros i; specialize (E (S i)); cbn in E; rewrite E; f_equal; lia].
    specialize (E 0). cbn in E. rewrite Nat.add_0_r in E. rewrite <- E. lia. }
  apply X. reflexivity.
Qed.
(** The potential of the arc between [a] and [b]: it grows by two when the arc is filled. *)
Definition phi (f : nat -> nat -> Z) (e : nat * nat) : nat := if (0 <? rc c f (fst e) (snd e))%Z then delta f (fst e) else S (delta f (snd e)).
Definition psi (f : nat -> nat -> Z) : nat := sum (map (phi f) arcs2).
Lemma psi_bound f : psi f <= 2 * length (concat G) * S n.
Proof.
  unfold psi. rewrite <- arcs2_len. induction arcs2 as [|e l IH]; cbn [map sum length]; [lia|].
  assert (phi f e <= S n). { unfold phi. assert (Q := delta_le f (fst e)). assert (Q' := delta_le f (snd e)). destruct (0 <? _)%Z; lia. } lia.
Qed.
Lemma sum_grow (X : Type) (l : list X) g g' : (forall x, In x l -> g x <= g' x) -> sum (map g l) <= sum (map g' l) /\ forall x, In x l -> sum (map g l) + (g' x - g x) <= sum (map g' l).
Proof.
  induction l as [|y l IH]; intros H; cbn [map sum]; [split; [lia|intros x []]|]. destruct IH as [I1 I2]; [intros; apply H; now right|]. assert (Hy := H y (or_introl eq_refl)).
  split; [lia|]. intros x [->|I]; [lia|]. specialize (I2 x I). lia.
Qed.
Lemma pair_dec (a b : nat * nat) : {a = b} + {a <> b}.
Proof. decide equality; apply Nat.eq_dec. Qed.
Lemma push_rc_eq m v u f a b : v <> u -> rc c (push c m v u f) a b = (rc c f a b - (if pair_dec (v, u) (a, b) then m else 0) + (if pair_dec (v, u) (b, a) then m else 0))%Z.
Proof.
  intros N. assert (Q := push_nt c m f a b N). unfold nt in Q. unfold rc.
  destruct (pair_dec (v, u) (a, b)) as [E|E], (pair_dec (v, u) (b, a)) as [E'|E']; destruct (Nat.eqb_spec a v), (Nat.eqb_spec b u), (Nat.eqb_spec a u), (Nat.eqb_spec b v); cbn [andb] in Q; subst; try (injection E as ? ?); try (injection E' as ? ?); subst; try congruence; lia.
Qed.
Lemma pushes_rc m : forall l f a b, (forall e, In e l -> fst e <> snd e) ->
  rc c (pushes c m l f) a b = (rc c f a b - Z.of_nat (count_occ pair_dec l (a, b)) * m + Z.of_nat (count_occ pair_dec l (b, a)) * m)%Z.
Proof.
  induction l as [|[v u] l IH]; intros f a b N; cbn [count_occ]; [cbn; lia|]. unfold pushes. cbn [fold_left fst snd]. fold (pushes c m l (push c m v u f)). rewrite IH by (intros; apply N; now right).
  rewrite push_rc_eq by (apply (N (v, u)); now left). destruct (pair_dec (v, u) (a, b)), (pair_dec (v, u) (b, a)); lia.
Qed.
(** One round: the potential does not shrink; it grows by two if the round fills an arc. *)
Lemma psi_round f l m x : (forall e, In e l -> linked (fst e) (snd e) /\ (0 < rc c f (fst e) (snd e))%Z /\ delta f (snd e) = S (delta f (fst e))) -> chain s x l -> NoDup (x :: map fst l) -> (0 < m)%Z ->
  psi f <= psi (pushes c m l f) /\ ((exists e, In e l /\ m = rc c f (fst e) (snd e)) -> psi f + 2 <= psi (pushes c m l f)).
Proof.
  intros H C ND M. set (f' := pushes c m l f).
  assert (NDl : NoDup l). { apply NoDup_cons_iff in ND. destruct ND as [_ ND]. now apply NoDup_map_inv in ND. }
  assert (Nee : forall e, In e l -> fst e <> snd e) by (intros e I; destruct (H e I) as (K & _); apply (linked_lt K)).
  assert (Opp : forall a b, In (a, b) l -> ~ In (b, a) l). { intros a b I1 I2. destruct (H _ I1) as (_ & _ & D1), (H _ I2) as (_ & _ & D2). cbn [fst snd] in *. lia. }
  assert (RC : forall a b, (In (a, b) l /\ rc c f' a b = (rc c f a b - m)%Z) \/ (In (b, a) l /\ ~ In (a, b) l) \/ (~ In (a, b) l /\ ~ In (b, a) l /\ rc c f' a b = rc c f a b)).
  { intros a b. unfold f'. rewrite pushes_rc by auto. assert (Q1 := proj1 (NoDup_count_occ pair_dec l) NDl (a, b)). assert (Q2 := proj1 (NoDup_count_occ pair_dec l) NDl (b, a)).
    destruct (in_dec pair_dec (a, b) l) as [I1|I1].
    - left. split; auto. rewrite (proj1 (count_occ_not_In pair_dec l (b, a)) (Opp _ _ I1)). apply (count_occ_In pair_dec) in I1. replace (count_occ pair_dec l (a, b)) with 1 by lia. lia.
    - destruct (in_dec pair_dec (b, a) l) as [I2|I2]; auto. right. right. split; auto. split; auto. rewrite (proj1 (count_occ_not_In pair_dec l (b, a)) I2), (proj1 (count_occ_not_In pair_dec l (a, b)) I1). lia. }
  assert (MO : forall v, delta f v <= delta f' v).
  { intros v. apply delta_mono. intros a b K P. destruct (RC a b) as [[I _]|[[I _]|(_ & _ & E)]].
    - left. apply (H _ I).
    - right. destruct (H _ I) as (_ & _ & D). cbn [fst snd] in D. lia.
    - left. rewrite <- E. exact P. }
  assert (PH : forall e, In e arcs2 -> phi f e <= phi f' e).
  { intros [a b] Ie. unfold phi. cbn [fst snd]. assert (Q1 := MO a). assert (Q2 := MO b). destruct (Z.ltb_spec 0 (rc c f a b)) as [P|P], (Z.ltb_spec 0 (rc c f' a b)) as [P'|P']; try lia.
    - destruct (RC a b) as [[I E]|[[I I']|(_ & _ & E)]]; [destruct (H _ I) as (_ & _ & D); cbn [fst snd] in D; lia| |lia]. exfalso. unfold f' in P'. rewrite pushes_rc in P' by auto. rewrite (proj1 (count_occ_not_In pair_dec l (a, b)) I') in P'. nia.
    - destruct (RC a b) as [[I E]|[[I I']|(_ & _ & E)]]; [exfalso; destruct (H _ I) as (_ & P0 & _); cbn [fst snd] in P0; lia| |lia]. destruct (H _ I) as (_ & _ & D). cbn [fst snd] in D. lia. }
  destruct (@sum_grow _ arcs2 (phi f) (phi f') PH) as [S1 S2]. split; [exact S1|]. intros ([a b] & I & E). cbn [fst snd] in E. destruct (H _ I) as (K & P & D). cbn [fst snd] in *.
  assert (Q := S2 (a, b) (arcs2_in K)). unfold phi in Q at 2 3. cbn [fst snd] in Q. fold f' in Q. destruct (RC a b) as [[_ E']|[[I' NI]|(NI & _)]]; try contradiction.
  destruct (Z.ltb_spec 0 (rc c f' a b)); [lia|]. destruct (Z.ltb_spec 0 (rc c f a b)); [|lia]. assert (Q2 := MO b). unfold psi. lia.
Qed.
Lemma search_rep f st tree : rep f st -> bounded c f -> length tree = n ->
  exists tree' b, mf_bfs debug caps st s t tree = Ok (tree', b) /\ length tree' = n /\
    (b = false -> exists side, blocked f side) /\
    (b = true -> exists l, chain s t l /\ NoDup (t :: map fst l) /\ (forall v u, In (v, u) l -> good tree' v u) /\ (forall e, In e l -> fst e < n /\ linked (fst e) (snd e) /\ (0 < rc c f (fst e) (snd e))%Z /\ delta f (snd e) = S (delta f (fst e))) /\
       exists z, rp_run (S (length tree')) (map te_pred tree') s t false = Ok (map snd l, z)).
Proof.
  intros R B L. destruct (views_rep R) as (V & EV & W). set (h := unfiltered (mf_answer V) (mf_graph V)).
  assert (Lh : length h = n) by (unfold h; rewrite unf_length; eapply graph_len; eauto). assert (LG := graph_len W).
  assert (NL : hd_error (nth s h []) <> Some s). { intros Q. assert (E : edge h s s) by (unfold edge; destruct (nth s h []); [discriminate|injection Q as ->; now left]). apply (res_edge _ _ W) in E. destruct E as [E _]. now destruct (linked_lt E). }
  destruct (@filtered_ok debug (mf_graph V) (mf_answer V) s t) as (b & T & E & C); auto; try (rewrite LG; auto; fail).
  { eapply graph_ok; eauto. }
  { destruct Hrow as (u & K). apply (graph_edge _ _ W) in K. unfold edge in K. intros Q. rewrite Q in K. destruct K. }
  assert (E' : filtered_bfs debug (mf_graph V) (mf_answer V) t s = Ok (T, b)).
  { rewrite E. fold h. destruct (hd_error (nth s h [])) as [w|]; [|reflexivity]. destruct (Nat.eqb_spec w s) as [->|]; [congruence|reflexivity]. }
  assert (ND : exists T', tree_order h s (T ++ T')). { destruct C as [(_ & T0 & p & T' & _ & TO)|(_ & TO & _)]; [exists T'; exact TO|exists []; rewrite app_nil_r; exact TO]. }
  assert (NDT : NoDup (map snd T)). { destruct ND as (T' & ((ND & _) & _)). rewrite map_app in ND. apply NoDup_cons_iff in ND. destruct ND as [_ ND]. now apply NoDup_front in ND. }
  destruct (@bfs_ok debug f st V s t tree T b R EV W L E' NDT) as (tree' & Eb & Lt & GD). exists tree', b. split; auto. split; auto. split.
  - intros ->. destruct C as [(Q & _)|(_ & TO & NT)]; [discriminate|]. exists (fun p => existsb (Nat.eqb p) (s :: map snd T)).
    assert (MM : forall p, existsb (Nat.eqb p) (s :: map snd T) = true <-> In p (s :: map snd T)).
    { intros p. rewrite existsb_exists. split; [intros (y & Y & Q); apply Nat.eqb_eq in Q; now subst|]. intros Y. exists p. split; auto. apply Nat.eqb_refl. }
    split; [|split].
    + apply MM. now left.
    + destruct (existsb _ _) eqn:Q; auto. apply MM in Q. contradiction.
    + intros p q Lp Lq Sp Sq. apply MM in Sp. apply (proj1 (proj2 (proj1 TO))) in Sp.
      assert (NE : ~ edge h p q). { intros Ed. assert (Q : In q (s :: map snd T)). { apply (proj1 (proj2 (proj1 TO))). destruct Sp as (k & Wk). exists (S k). econstructor; eauto. } apply MM in Q. congruence. }
      destruct (edge_dec G p q) as [E1|E1]; [|destruct (edge_dec G q p) as [E2|E2]].
      * destruct (Z.le_gt_cases (rc c f p q) 0) as [|Gt]; auto. exfalso. apply NE. apply (res_edge _ _ W). split; [now left|lia].
      * destruct (Z.le_gt_cases (rc c f p q) 0) as [|Gt]; auto. exfalso. apply NE. apply (res_edge _ _ W). split; [now right|lia].
      * unfold rc. rewrite (Hc0 _ _ E1), (r_0 R _ _ E1), (r_0 R _ _ E2). lia.
  - intros ->. destruct C as [(_ & T0 & p & T' & -> & TO)|(Q & _)]; [|discriminate].
    assert (It : In t (s :: map snd (T0 ++ [(p, t)]))) by (right; rewrite map_app; apply in_or_app; right; now left).
    assert (Dt : exists d, dist h s t d). { apply dist_reach. apply (proj1 (proj2 (proj1 TO))). destruct It as [->|It]; [now left|]. right. rewrite map_app. apply in_or_app. now left. }
    destruct Dt as (d & Dt). destruct (@path_ok h s (T0 ++ [(p, t)]) T' tree' TO GD d t It Dt) as (l & Ch & Inc & Bd & NDl & Run & Ll). exists l. split; auto. split; auto. split; [intros v u I; auto|].
    assert (Eg : forall e, In e l -> edge h (fst e) (snd e)). { intros [v u] I. apply Inc in I. destruct (in_split _ _ I) as (T1 & T2 & Q). apply (proj2 TO T1 v u (T2 ++ T')). rewrite Q, <- app_assoc. reflexivity. }
    split.
    { intros e I. assert (Ee := Eg e I). apply (res_edge _ _ W) in Ee. destruct Ee as [K P]. split; [apply (linked_lt K)|]. split; auto. split; auto.
      destruct e as [v u]. cbn [fst snd] in *. assert (I' := Inc _ I). destruct (in_split _ _ I') as (T1 & T2 & Q). destruct (proj2 TO T1 v u (T2 ++ T')) as (_ & Du & Iv); [rewrite Q, <- app_assoc; reflexivity|].
      assert (Rv : reachable h s v). { apply (proj1 (proj2 (proj1 TO))). destruct Iv as [<-|Iv]; [now left|]. right. rewrite Q, !map_app. apply in_or_app. left. apply in_or_app. now left. }
      apply dist_reach in Rv. destruct Rv as (dv & Rv). assert (X : forall a b, edge h a b <-> linked a b /\ (0 < rc c f a b)%Z) by (intros; apply (res_edge _ _ W)).
      rewrite (@delta_dist f h _ _ X (Du _ Rv)), (@delta_dist f h _ _ X Rv). reflexivity. }
    exists true. apply Run.
    + destruct d; [|lia]. apply dist_0 in Dt. congruence.
    + rewrite Lt. assert (Q : length (map fst l) <= length (seq 0 n)).
      { apply NoDup_incl_length; [now inversion NDl|]. intros y Y. apply in_seq. apply in_map_iff in Y. destruct Y as (e & <- & I). assert (Ee := Eg e I). apply (res_edge _ _ W) in Ee. destruct Ee as [K P]. apply linked_lt in K. lia. }
      rewrite map_length, seq_length in Q. lia.
Qed.
(** [j] of the rounds were limited by the constant 100000. *)
Lemma rounds_ok : forall k f st tree acc, rep f st -> bounded c f -> length tree = n ->
  exists val f' st' j, mf_rounds debug caps s t k st tree acc = Ok ((acc + val)%Z, st') /\ rep f' st' /\ bounded c f' /\
    (forall a, exc n f' a = exc n f a + (if Nat.eqb a s then val else 0) - (if Nat.eqb a t then val else 0))%Z /\
    (0 <= val <= 100000 * Z.of_nat k)%Z /\ (100000 * Z.of_nat j <= val)%Z /\
    ((Z.of_nat k <= val)%Z /\ psi f + 2 * k <= psi f' + 2 * j \/ exists side, blocked f' side).
Proof.
  induction k as [|k IH]; intros f st tree acc R B L; cbn [mf_rounds].
  - exists 0%Z, f, st, 0. rewrite Z.add_0_r. split; auto. split; auto. split; auto. split; [intros a; destruct (Nat.eqb a s), (Nat.eqb a t); lia|]. split; [lia|]. split; [lia|]. left. lia.
  - destruct (@search_rep f st tree R B L) as (tree' & b & -> & L' & C1 & C2). cbn [bind fst snd]. destruct b.
    + destruct (C2 eq_refl) as (l & Ch & ND & GD & LE & z & ->). cbn [bind fst]. destruct (@min_ok tree' f st R l 100000%Z GD) as (m & -> & M1 & M2 & M3 & M4). cbn [bind].
      assert (M : (1 <= m)%Z) by (apply M3; [lia|]; intros e E; specialize (LE e E); lia).
      assert (M0 : (0 <= m)%Z) by lia.
      destruct (@pushes_state tree' m s M0 l t f st Ch ND R B GD M2) as (st1 & -> & R1). cbn [bind].
      destruct (@pushes_ok n c m s M0 l t f Ch ND Ht (fun e E => proj1 (LE e E)) B M2) as [B1 X1].
      destruct (@psi_round f l m t (fun e E => proj2 (LE e E)) Ch ND ltac:(lia)) as [P1 P2].
      destruct (IH _ st1 tree' (acc + m)%Z R1 B1 L') as (val & f' & st' & j & E & R' & B' & X' & V' & J' & D').
      exists (m + val)%Z, f', st', (if Z.eq_dec m 100000 then S j else j). rewrite Z.add_assoc. split; auto. split; auto. split; auto. split.
      { intros a. rewrite X', X1. destruct (Nat.eqb a s), (Nat.eqb a t); lia. }
      split; [lia|]. split; [destruct (Z.eq_dec m 100000); lia|]. destruct D' as [[D1 D2]|D']; [left; split; [lia|]|right; auto].
      destruct (Z.eq_dec m 100000) as [->|NM]; [lia|]. destruct M4 as [M4|M4]; [contradiction|]. specialize (P2 M4). lia.
    + exists 0%Z, f, st, 0. rewrite Z.add_0_r. split; auto. split; auto. split; auto. split; [intros a; destruct (Nat.eqb a s), (Nat.eqb a t); lia|]. split; [lia|]. split; [lia|]. right. auto.
Qed.
End R.
