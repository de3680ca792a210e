(** C32 (dijkstra), C33 (sequential delta_stepping), C34 (delta_stepping_m1 and dijkstra_er). The specification is
    SsspLib's [wwalk] (walks with their length), [shortest] and [cut_dist]. *)
From Coq Require Import List Arith Lia Bool.
From Verif Require Import Base SsspModel SsspLib SsspProofs.
Import ListNotations.
Set Implicit Arguments.

(** ** C32 *)
(** The hypothesis on [D] says that no label plus weight wraps (labels are below the sentinel). *)
Theorem C32_dijkstra_shortest_up_to_sentinel fuel D vmax g source :
  wtargets_ok g -> source < length g -> 0 < vmax -> (forall u v w, warc g u v w -> vmax + w <= D) ->
  2 * (length g * vmax) + 1 <= fuel ->
  exists dist, dijkstra fuel D vmax g source = Ok dist /\ length dist = length g /\
    forall v, v < length g ->
      nth v dist vmax <= vmax /\
      (nth v dist vmax < vmax -> shortest g source v (nth v dist vmax)) /\
      (nth v dist vmax = vmax -> forall d, wwalk g source v d -> vmax <= d).
Proof.
  intros HT HS HV HD HF. destruct (@dijkstra_ok g source vmax D HT HS HV) with (fuel := fuel) as (d & E & L & C); auto.
  - intros u l p v w _ Hl A. specialize (HD u v w A). lia.
  - exists d. auto.
Qed.

(** When the sentinel is also the maximum of the distance type, sums wrap and the result is wrong: on the path
    0 -(D-2)-> 1 -3-> 2 the distance D+1 is reported as 1. *)
Theorem C32_wraparound_refuted fuel D : 4 <= D -> let g := [[(1, D - 2)]; [(2, 3)]; []] in
  dijkstra (S (S (S fuel))) D (D - 1) g 0 = Ok [0; D - 2; 1] /\ shortest g 0 2 (D + 1).
Proof.
  intros HD g. split.
  - unfold dijkstra, g. simpl length. simpl repeat. rewrite vset_lt by (simpl; lia). cbn [upd bind].
    cbn [dj_loop snd fst vget nth_error bind rfold]. unfold dj_relax at 1. cbn [fst snd vget nth_error bind].
    rewrite Nat.add_0_l, Nat.mod_small by lia. destruct (Nat.ltb_spec (D - 2) (D - 1)); [|lia]. rewrite vset_lt by (simpl; lia). cbn [upd bind pq_push].
    cbn [dj_loop snd fst vget nth_error bind rfold]. unfold dj_relax at 1. cbn [fst snd vget nth_error bind].
    replace ((D - 2 + 3) mod D) with 1 by (replace (D - 2 + 3) with (1 + 1 * D) by lia; rewrite Nat.mod_add, Nat.mod_small by lia; reflexivity).
    destruct (Nat.ltb_spec 1 (D - 1)); [|lia]. rewrite vset_lt by (simpl; lia). cbn [upd bind pq_push]. destruct fuel; reflexivity.
  - assert (W : forall v d, wwalk g 0 v d -> (v = 0 /\ d = 0) \/ (v = 1 /\ d = D - 2) \/ (v = 2 /\ d = D + 1)).
    { induction 1 as [|u v d w W IH A]; auto. unfold warc, g in A. destruct IH as [[-> ->]|[[-> ->]|[-> ->]]]; simpl in A; [destruct A as [A|[]]; injection A as <- <-; right; left; split; auto; lia|destruct A as [A|[]]; injection A as <- <-; right; right; split; auto; lia|destruct A]. }
    split.
    + replace (D + 1) with (0 + (D - 2) + 3) by lia. apply ww_S with (u := 1); [apply ww_S with (u := 0); [constructor|]|]; left; reflexivity.
    + intros d Wd. destruct (W 2 d Wd) as [[X _]|[[X _]|[_ ->]]]; try discriminate. lia.
Qed.

(** ** C33 *)
Lemma spath_suffix g s p : spath g s p -> forall v l, In (v, l) p -> exists q, spath g s ((v, l) :: q).
Proof.
  induction 1; intros x m I.
  - destruct I as [I|[]]. injection I as <- <-. exists []. constructor.
  - destruct I as [I|I]; auto. injection I as <- <-. eexists. econstructor; eauto.
Qed.
Lemma wreach_spath g s v d : wwalk g s v d -> exists l p, spath g s ((v, l) :: p).
Proof.
  induction 1 as [|u v d w W (l & p & IH) A].
  - exists 0, []. constructor.
  - destruct (in_dec Nat.eq_dec v (map fst ((u, l) :: p))) as [I|N].
    + apply in_map_iff in I. destruct I as ([x m] & E & I). simpl in E. subst x. destruct (spath_suffix IH v m I) as (q & Q). eauto.
    + exists (l + w), ((u, l) :: p). now constructor.
Qed.
Lemma spath_below g s inf v l p : 0 < inf -> no_overflow g s inf -> spath g s ((v, l) :: p) -> l < inf.
Proof. intros HI NO SP. inversion SP; subst; auto. eapply NO; eauto. Qed.

Theorem C33_delta_stepping_shortest fuel D inf g source delta :
  wtargets_ok g -> source < length g -> 0 < inf -> inf <= D -> no_overflow g source inf -> 0 < delta ->
  2 * (length g * inf) + 1 <= fuel ->
  exists dist, delta_stepping fuel D inf g source delta = Ok dist /\ length dist = length g /\
    forall v, v < length g ->
      (wreach g source v -> shortest g source v (nth v dist inf) /\ nth v dist inf < inf) /\
      (~ wreach g source v -> nth v dist inf = inf).
Proof.
  intros HT HS HI HD NO Hd HF. destruct (@delta_stepping_ok g source inf D HT HS HI) with (delta := delta) (fuel := fuel) as (dist & E & L & C); auto.
  - intros u l p v w SP Hl A. specialize (NO u l p v w SP A). lia.
  - exists dist. split; auto. split; auto. intros v Hv. destruct (C v Hv) as (C1 & C2 & C3). split.
    + intros (d & W). assert (LT : nth v dist inf < inf).
      { destruct (wreach_spath W) as (l & p & SP). assert (X := spath_below HI NO SP). destruct (Nat.eq_dec (nth v dist inf) inf) as [EQ|]; [|lia].
        specialize (C3 EQ l (spath_wwalk SP _ _ (or_introl eq_refl))). lia. }
      split; auto.
    + intros N. destruct (Nat.eq_dec (nth v dist inf) inf); auto. exfalso. apply N. exists (nth v dist inf). apply C2. lia.
Qed.

(** A bound on the weights that implies the no-overflow hypothesis. *)
Theorem C33_no_overflow_from_weights g source inf wmax : wtargets_ok g -> source < length g -> (forall u v w, warc g u v w -> w <= wmax) ->
  length g * wmax < inf -> no_overflow g source inf.
Proof.
  intros HT HS HW HB u l p v w SP A.
  assert (P : forall q, spath g source q -> NoDup (map fst q) /\ (forall x, In x (map fst q) -> x < length g) /\ forall y m r, q = (y, m) :: r -> m <= length r * wmax).
  { induction 1 as [|a k q b z SP' (ND & LT & IH) Ab NI].
    - split; [repeat constructor; intros []|]. split; [intros x [<-|[]]; auto|]. intros y m r E. injection E as <- <- <-. lia.
    - split; [now constructor|]. split; [intros x [<-|I]; [now apply (HT _ _ _ Ab)|auto]|]. intros y m r E. injection E as <- <- <-.
      specialize (IH _ _ _ eq_refl). specialize (HW _ _ _ Ab). simpl. lia. }
  destruct (P _ SP) as (ND & LT & B). specialize (B _ _ _ eq_refl). specialize (HW _ _ _ A).
  assert (X : length (map fst ((u, l) :: p)) <= length (seq 0 (length g))).
  { apply NoDup_incl_length; auto. intros x I. apply in_seq. specialize (LT x I). lia. }
  rewrite map_length, seq_length in X. simpl in X.
  assert (Y : S (length p) * wmax <= length g * wmax) by (apply Nat.mul_le_mono_r; auto). simpl in Y. lia.
Qed.

(** The result does not depend on delta. *)
Theorem C33_delta_irrelevant fuel D inf g source delta1 delta2 :
  wtargets_ok g -> source < length g -> 0 < inf -> inf <= D -> no_overflow g source inf -> 0 < delta1 -> 0 < delta2 ->
  2 * (length g * inf) + 1 <= fuel ->
  delta_stepping fuel D inf g source delta1 = delta_stepping fuel D inf g source delta2.
Proof.
  intros HT HS HI HD NO H1 H2 HF.
  assert (SAFE : forall u l p v w, spath g source ((u, l) :: p) -> l < inf -> warc g u v w -> l + w < D).
  { intros u l p v w SP Hl A. specialize (NO u l p v w SP A). lia. }
  destruct (@delta_stepping_ok g source inf D HT HS HI SAFE delta1 H1 fuel HF) as (d1 & -> & L1 & C1).
  destruct (@delta_stepping_ok g source inf D HT HS HI SAFE delta2 H2 fuel HF) as (d2 & -> & L2 & C2).
  f_equal. apply nth_ext with (d := inf) (d' := inf); [lia|]. intros v Hv. rewrite L1 in Hv.
  destruct (C1 v Hv) as (A1 & A2 & A3), (C2 v Hv) as (B1 & B2 & B3).
  destruct (Nat.eq_dec (nth v d1 inf) inf) as [E1|N1], (Nat.eq_dec (nth v d2 inf) inf) as [E2|N2].
  - lia.
  - assert (X := A3 E1 _ (proj1 (B2 ltac:(lia)))). lia.
  - assert (X := B3 E2 _ (proj1 (A2 ltac:(lia)))). lia.
  - eapply shortest_fun; [apply A2|apply B2]; lia.
Qed.

(** delta = 0 divides by zero as soon as an arc leaves the source towards another vertex. *)
Theorem C33_delta_zero fuel D inf g source v w row : 0 < length g -> source < length g -> v < length g -> v <> source -> w < inf -> inf <= D ->
  nth source g [] = (v, w) :: row -> delta_stepping (S fuel) D inf g source 0 = Ub.
Proof.
  intros _ HS Hv NE Hw HD ER. unfold delta_stepping. rewrite vset_lt by (rewrite repeat_length; auto). cbn [bind].
  set (t := upd (repeat inf (length g)) source 0). assert (LT : length t = length g) by (unfold t; rewrite upd_length; apply repeat_length).
  assert (T0 : nth source t inf = 0) by (unfold t; apply nth_upd_eq; now rewrite repeat_length).
  assert (TV : nth v t inf = inf) by (unfold t; rewrite nth_upd_neq by auto; apply nth_repeat).
  cbn [ds_loop fst snd vget nth_error bind]. rewrite vset_lt by (simpl; lia). cbn [bind upd rfold]. unfold ds_vertex at 1. cbn [fst].
  rewrite (@vget_nth _ t source inf) by lia. cbn [bind]. rewrite T0. cbn [Nat.mul Nat.leb]. rewrite (@vget_nth _ g source []) by auto. cbn [bind].
  rewrite ER. cbn [rfold]. unfold ds_relax at 1. cbn [fst snd]. rewrite (@vget_nth _ t source inf), (@vget_nth _ t v inf) by lia. cbn [bind].
  rewrite T0, TV, Nat.add_0_l, Nat.mod_small by lia. destruct (Nat.ltb_spec w inf); [|lia]. rewrite vset_lt by lia. reflexivity.
Qed.

(** ** C34 *)
Theorem C34_m1_never_relaxes fuel D inf g source : source < length g ->
  exists dist, delta_stepping_m1 (S fuel) D inf g source = Ok dist /\ length dist = length g /\
    forall v, v < length g -> nth v dist inf = if v =? source then 0 else inf.
Proof.
  intros HS. unfold delta_stepping_m1. rewrite vset_lt by (rewrite repeat_length; auto). cbn [bind m1_loop snd fst].
  rewrite vslice_Ok by (unfold m1_begin, m1_end; simpl; lia). cbn. eexists. split; [destruct fuel; reflexivity|]. cbn [fst]. split; [now rewrite upd_length, repeat_length|].
  intros v Hv. destruct (Nat.eqb_spec v source) as [->|N]; [apply nth_upd_eq; now rewrite repeat_length|rewrite nth_upd_neq by auto; apply nth_repeat].
Qed.

Lemma er_drop_strict col Q Q' : er_drop true col Q = Ok Q' -> Q' <> [].
Proof.
  induction Q as [|[v d] Q IH]; simpl; [discriminate|]. destruct (vget col v) as [c| |]; simpl; try discriminate.
  destruct (c =? 2); auto. injection 1 as <-. discriminate.
Qed.
Lemma er_refill_strict fuel g : forall Q col v Q2 col2 v2 p2, er_refill fuel true g Q col v = Ok (Q2, col2, v2, p2) -> Q2 <> [].
Proof.
  induction fuel; intros Q col v Q2 col2 v2 p2; cbn [er_refill]; [discriminate|].
  destruct (vset col v 2) as [col'| |]; cbn [bind]; try discriminate. destruct (er_drop true col' Q) as [Q'| |] eqn:E; cbn [bind]; try discriminate.
  apply er_drop_strict in E. destruct Q' as [|[x d] Q']; [congruence|]. destruct (vget g x); cbn [bind]; try discriminate.
  destruct (er_skip col' _ 0) as [pos| |]; cbn [bind]; try discriminate. destruct (pos =? _); [apply IHfuel|]. injection 1 as <- _ _ _. discriminate.
Qed.
(** With Q.top() on an empty queue undefined, no run of dijkstra_er is defined: the range evaluates it on its way to
    the end. *)
Theorem C34_er_always_undefined fuel D big inf g source dist : dijkstra_er fuel true D big inf g source <> Ok dist.
Proof.
  unfold dijkstra_er. destruct (vset _ source 0) as [d0| |]; cbn [bind]; try discriminate. destruct (vset _ 0 1) as [c0| |]; cbn [bind]; try discriminate.
  destruct (vget g 0); cbn [bind]; try discriminate.
  assert (H : forall st, er_Q st <> [] -> er_loop fuel true D big g st <> Ok dist); [|apply H; discriminate].
  induction fuel; intros st NE; cbn [er_loop].
  - destruct (er_Q st); [congruence|discriminate].
  - destruct (er_Q st) eqn:EQ; [congruence|]. destruct (er_body D g st) as [st1| |] eqn:E1; cbn [bind]; try discriminate.
    destruct (er_next (S fuel) true big g st1) as [st2| |] eqn:E2; cbn [bind]; try discriminate. apply IHfuel.
    unfold er_next in E2. destruct (vget g (er_v st1)) as [row| |]; cbn [bind] in E2; try discriminate.
    destruct (vget row (er_pos st1)) as [e| |]; cbn [bind] in E2; try discriminate. destruct (vset _ (fst e) 1) as [c1| |]; cbn [bind] in E2; try discriminate.
    destruct (er_skip _ _ _) as [pos| |]; cbn [bind] in E2; try discriminate. destruct (pos =? length row).
    + destruct (er_refill _ _ _ _ _ _) as [[[[Q2 c2] v2] p2]| |] eqn:E3; cbn [bind] in E2; try discriminate. injection E2 as <-. cbn [er_Q]. eapply er_refill_strict; eauto.
    + injection E2 as <-. cbn [er_Q]. intros E. assert (X := f_equal (@length (nat * nat)) E). rewrite pq_push_length in X. discriminate.
Qed.

(** Reading that value as the stale last element (what an implementation without checks does), the search starts at
    vertex 0 whatever the source: a source not reachable from 0 gets distance 0 and every other vertex, its own
    neighbours included, keeps the initial value. *)
Lemma er_skip_ge col row : forall pos p, er_skip col row pos = Ok p -> pos <= p.
Proof.
  induction row as [|e row IH]; intros pos p; simpl; [injection 1 as <-; auto|]. destruct (vget col (fst e)) as [c| |]; simpl; try discriminate.
  destruct (c =? 0); [injection 1 as <-; auto|]. intros H. apply IH in H. lia.
Qed.
Lemma er_drop_incl strict col : forall Q Q', er_drop strict col Q = Ok Q' -> incl Q' Q.
Proof.
  induction Q as [|[v d] Q IH]; intros Q'; cbn [er_drop].
  - destruct strict; [discriminate|]. injection 1 as <-. intros x I; exact I.
  - destruct (vget col v) as [c| |]; cbn [bind]; try discriminate. destruct (c =? 2).
    + intros H x I. right. now apply (IH _ H).
    + injection 1 as <-. intros x I; exact I.
Qed.
Definition reach0 (g : wgraph) (x : nat) : Prop := wreach g 0 x.
Lemma er_refill_reach fuel strict g : forall Q col v Q2 col2 v2 p2, (forall x d, In (x, d) Q -> reach0 g x) -> reach0 g v ->
  er_refill fuel strict g Q col v = Ok (Q2, col2, v2, p2) -> (forall x d, In (x, d) Q2 -> reach0 g x) /\ reach0 g v2.
Proof.
  induction fuel; intros Q col v Q2 col2 v2 p2 HQ Hv; cbn [er_refill]; [discriminate|].
  destruct (vset col v 2) as [col'| |]; cbn [bind]; try discriminate. destruct (er_drop strict col' Q) as [Q'| |] eqn:E; cbn [bind]; try discriminate.
  apply er_drop_incl in E. assert (HQ' : forall x d, In (x, d) Q' -> reach0 g x) by (intros x d I; eapply HQ; apply E; eauto).
  destruct Q' as [|[x d] Q'].
  - destruct (vget g v) as [row| |]; cbn [bind]; try discriminate. injection 1 as <- _ <- _. split; auto.
  - assert (Hx := HQ' x d (or_introl eq_refl)). destruct (vget g x) as [row| |]; cbn [bind]; try discriminate.
    destruct (er_skip col' row 0) as [pos| |]; cbn [bind]; try discriminate. destruct (pos =? length row); [intros H; eapply IHfuel; eauto|].
    injection 1 as <- _ <- _. split; auto.
Qed.
Theorem C34_er_ignores_source fuel strict D big inf g source dist : source < length g -> ~ wreach g 0 source ->
  (forall u v w, warc g u v w -> inf + w < D) ->
  dijkstra_er fuel strict D big inf g source = Ok dist ->
  length dist = length g /\ forall v, v < length g -> nth v dist inf = if v =? source then 0 else inf.
Proof.
  intros HS NR HD. unfold dijkstra_er. rewrite vset_lt by (rewrite repeat_length; auto). cbn [bind].
  destruct (vset _ 0 1) as [c0| |]; cbn [bind]; try discriminate. destruct (vget g 0) as [r0| |] eqn:E0; cbn [bind]; try discriminate.
  set (d0 := upd (repeat inf (length g)) source 0).
  assert (D0 : forall v, nth v d0 inf = if v =? source then 0 else inf).
  { intros v. unfold d0. destruct (Nat.eqb_spec v source) as [->|N]; [apply nth_upd_eq; now rewrite repeat_length|rewrite nth_upd_neq by auto; apply nth_repeat]. }
  assert (L0 : length d0 = length g) by (unfold d0; rewrite upd_length; apply repeat_length).
  assert (H : forall fuel st, (forall x d, In (x, d) (er_Q st) -> reach0 g x) -> reach0 g (er_v st) -> er_dist st = d0 ->
     er_loop fuel strict D big g st = Ok dist -> dist = d0).
  { clear fuel. induction fuel; intros st HQ Hv Hd; cbn [er_loop].
    - destruct (er_Q st); [|discriminate]. injection 1 as <-. auto.
    - destruct (er_Q st) as [|q0 qs] eqn:EQ; [injection 1 as <-; auto|].
      destruct (er_body D g st) as [st1| |] eqn:E1; cbn [bind]; try discriminate.
      destruct (er_next (S fuel) strict big g st1) as [st2| |] eqn:E2; cbn [bind]; try discriminate.
      (* the body changes nothing *)
      assert (ARC : forall row e, vget g (er_v st) = Ok row -> vget row (er_pos st) = Ok e -> warc g (er_v st) (fst e) (snd e)).
      { intros row e X Y. apply vget_Ok in X. apply vget_Ok in Y. unfold warc. rewrite (nth_error_nth _ _ _ X). destruct e. eapply nth_error_In; eauto. }
      assert (S1 : st1 = st).
      { unfold er_body in E1. destruct (vget g (er_v st)) as [row| |] eqn:ER; cbn [bind] in E1; try discriminate.
        destruct (vget row (er_pos st)) as [e| |] eqn:EE; cbn [bind] in E1; try discriminate. assert (A := ARC row e eq_refl EE).
        rewrite Hd in E1. assert (Hu : er_v st < length g) by (eapply warc_lt; eauto). rewrite (@vget_nth _ d0 (er_v st) inf) in E1 by lia. cbn [bind] in E1.
        destruct (vget d0 (fst e)) as [dv| |] eqn:EV; cbn [bind] in E1; try discriminate.
        assert (Q : dv <= inf). { apply vget_Ok in EV. apply nth_error_nth with (d := inf) in EV. rewrite D0 in EV. destruct (fst e =? source); lia. }
        rewrite D0 in E1. destruct (Nat.eqb_spec (er_v st) source) as [X|_]; [exfalso; apply NR; rewrite <- X; exact Hv|].
        rewrite Nat.mod_small in E1 by eauto. destruct (Nat.ltb_spec (inf + snd e) dv); [lia|]. injection E1 as <-. reflexivity. }
      subst st1. assert (N2 : (forall x d, In (x, d) (er_Q st2) -> reach0 g x) /\ reach0 g (er_v st2) /\ er_dist st2 = d0).
      { unfold er_next in E2. destruct (vget g (er_v st)) as [row| |] eqn:ER; cbn [bind] in E2; try discriminate.
        destruct (vget row (er_pos st)) as [e| |] eqn:EE; cbn [bind] in E2; try discriminate. assert (A := ARC row e eq_refl EE).
        destruct (vset (er_col st) (fst e) 1) as [c1| |]; cbn [bind] in E2; try discriminate.
        assert (Re : reach0 g (fst e)) by (destruct Hv as (d & W); eexists; econstructor; eauto).
        assert (HQ1 : forall x d, In (x, d) (pq_push (fst e, big) (er_Q st)) -> reach0 g x).
        { intros x d I. apply in_pq_push in I. destruct I as [I|I]; [injection I as -> ->; auto|]. rewrite EQ in I. eauto. }
        destruct (er_skip _ _ _) as [pos| |]; cbn [bind] in E2; try discriminate. destruct (pos =? length row).
        - destruct (er_refill _ _ _ _ _ _) as [[[[Q2 c2] v2] p2]| |] eqn:E3; cbn [bind] in E2; try discriminate. injection E2 as <-. cbn [er_Q er_v er_dist].
          destruct (@er_refill_reach _ _ _ _ _ _ _ _ _ _ HQ1 Hv E3) as [X Y]. auto.
        - injection E2 as <-. cbn [er_Q er_v er_dist]. auto. }
      destruct N2 as (N2a & N2b & N2c). apply IHfuel; auto. }
  intros E. apply H in E; auto.
  - subst dist. split; auto.
  - intros x d [I|[]]. injection I as <- <-. exists 0. constructor.
  - exists 0. constructor.
Qed.

(** ** Non-vacuity *)
(** Two routes to 2 (lengths 6 and 5), a cycle, an unreachable vertex 4; 3 is at distance 7. *)
Definition ex_w : wgraph := [[(2, 6); (1, 4)]; [(2, 1); (0, 0)]; [(3, 2)]; [(0, 1)]; [(0, 3)]].
Example ex_w_ok : wtargets_ok ex_w.
Proof. intros u v w A. unfold warc in A. do 5 (destruct u as [|u]; [simpl in A; repeat (destruct A as [A|A]; [injection A as <- <-; simpl; lia|]); destruct A|]). destruct u; destruct A. Qed.
Example ex_dijkstra : dijkstra 200 300 12 ex_w 0 = Ok [0; 4; 5; 7; 12].
Proof. reflexivity. Qed.
(** a sentinel below the distance of vertex 3 *)
Example ex_dijkstra_cut : dijkstra 200 300 7 ex_w 0 = Ok [0; 4; 5; 7; 7].
Proof. reflexivity. Qed.
Example ex_weights : forall u v w, warc ex_w u v w -> w <= 6.
Proof. intros u v w A. unfold warc in A. do 5 (destruct u as [|u]; [simpl in A; repeat (destruct A as [A|A]; [injection A as <- <-; lia|]); destruct A|]). destruct u; destruct A. Qed.
Example ex_ds : delta_stepping 500 41 40 ex_w 0 3 = Ok [0; 4; 5; 7; 40] /\ delta_stepping 500 41 40 ex_w 0 1 = Ok [0; 4; 5; 7; 40] /\ no_overflow ex_w 0 40.
Proof.
  split; [reflexivity|]. split; [reflexivity|].
  apply C33_no_overflow_from_weights with (wmax := 6); [apply ex_w_ok|simpl; lia|apply ex_weights|simpl; lia].
Qed.
Example ex_m1 : delta_stepping_m1 5 41 40 ex_w 0 = Ok [0; 40; 40; 40; 40].
Proof. reflexivity. Qed.
(** source 4 is not reachable from 0; its neighbour 0 is at distance 3 but keeps the initial value *)
Example ex_er : dijkstra_er 50 false 200 63 50 ex_w 4 = Ok [50; 50; 50; 50; 0] /\ dijkstra 500 200 50 ex_w 4 = Ok [3; 7; 8; 10; 0].
Proof. split; reflexivity. Qed.
Example ex_er_strict : dijkstra_er 50 true 200 63 50 ex_w 4 = Ub.
Proof. reflexivity. Qed.
Print Assumptions C32_dijkstra_shortest_up_to_sentinel.
Print Assumptions C32_wraparound_refuted.
Print Assumptions C33_delta_stepping_shortest.
Print Assumptions C33_no_overflow_from_weights.
Print Assumptions C33_delta_irrelevant.
Print Assumptions C33_delta_zero.
Print Assumptions C34_m1_never_relaxes.
Print Assumptions C34_er_always_undefined.
Print Assumptions C34_er_ignores_source.
