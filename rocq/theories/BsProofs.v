(** Proofs for C77. *)
From Coq Require Import List Arith Lia Bool Permutation.
From Verif Require Import Base SsspModel SsspLib SsspProofs SsspProperties BsModel.
Import ListNotations.
Set Implicit Arguments.

(** A heap operation that only rearranges. *)
Definition hperm (h : hop) : Prop := forall dist q, Permutation q (h dist q).
(** What the standard promises of push_heap and pop_heap: given a heap, they rearrange it into a heap. *)
Definition push_heap_ok (h : hop) : Prop := forall dist q v, bs_is_heap dist q = true -> Permutation (q ++ [v]) (h dist (q ++ [v])) /\ bs_is_heap dist (h dist (q ++ [v])) = true.
Definition pop_heap_ok (h : hop) : Prop := forall dist u q, bs_is_heap dist (u :: q) = true -> Permutation q (h dist q) /\ bs_is_heap dist (h dist q) = true.

Section Bs.
Variables (g : wgraph) (s inf D : nat) (push pop : hop).
Hypothesis HT : wtargets_ok g.
Hypothesis HS : s < length g.
Hypothesis HI : 0 < inf.
Hypothesis SAFE : forall u l p v w, spath g s ((u, l) :: p) -> l < inf -> warc g u v w -> l + w < D.
Hypothesis HPU : hperm push.
Hypothesis HPO : hperm pop.

Lemma in_push dist q v x : In x (push dist (q ++ [v])) <-> x = v \/ In x q.
Proof.
  assert (P := HPU dist (q ++ [v])). split; intros H.
  - apply Permutation_sym in P. apply (Permutation_in _ P) in H. apply in_app_or in H. destruct H as [H|[H|[]]]; auto.
  - apply (Permutation_in _ P). apply in_or_app. destruct H as [->|H]; [right; now left|auto].
Qed.
Lemma push_len dist q v : length (push dist (q ++ [v])) = S (length q).
Proof. rewrite <- (Permutation_length (HPU dist (q ++ [v]))), app_length. simpl. lia. Qed.

Lemma bs_row_ok u : forall rest dist Q, lab g s inf dist (fun x => In x Q) (fun x y z => x = u /\ In (y, z) rest) -> dst inf dist u < inf ->
  (forall y z, In (y, z) rest -> warc g u y z) -> (forall x, In x Q -> dst inf dist x < inf) ->
  exists dist' Q', rfold (bs_relax false push D u) rest (dist, Q) = Ok (dist', Q') /\ lab g s inf dist' (fun x => In x Q') (fun _ _ _ => False) /\
    (forall x, In x Q' -> dst inf dist' x < inf) /\ 2 * sum dist' + length Q' <= 2 * sum dist + length Q.
Proof.
  induction rest as [|[v w] rest IH]; intros dist Q L Hu HA HQ.
  - exists dist, Q. split; auto. split; [|auto]. eapply lab_weaken; eauto. intros x y z _ [_ []].
  - assert (A := HA v w (or_introl eq_refl)). assert (Lu := @lab_lt g s inf HS HI _ _ _ _ L Hu). assert (Lv := HT _ _ _ A). assert (LL := lb_len L).
    cbn [rfold]. unfold bs_relax at 1. cbn [fst snd]. rewrite (@vget_nth _ dist u inf), (@vget_nth _ dist v inf) by lia. cbn [bind].
    fold (dst inf dist u). fold (dst inf dist v). rewrite (@lab_sum g s inf D HS HI SAFE _ _ _ _ _ _ L Hu A).
    destruct (Nat.ltb_spec (dst inf dist u + w) (dst inf dist v)) as [LT|GE].
    + rewrite vset_lt by lia. cbn [bind bs_emplace andb]. set (d1 := upd dist v (dst inf dist u + w)) in *. set (Q1 := push d1 (Q ++ [v])).
      assert (L' : lab g s inf d1 (fun x => In x Q1) (fun x y z => x = u /\ In (y, z) rest)).
      { unfold d1. eapply lab_improve; eauto.
        - intros x _ I. apply in_push. auto.
        - apply in_push. auto.
        - intros x y z [-> [E|I]]; [injection E as <- <-; auto|auto]. }
      assert (UP : forall x, dst inf d1 x = if x =? v then dst inf dist u + w else dst inf dist x).
      { intros x. unfold dst, d1. destruct (Nat.eqb_spec x v) as [->|N]; [apply nth_upd_eq; lia|apply nth_upd_neq; auto]. }
      assert (DV := lb_le L v). destruct (IH d1 Q1 L') as (dist' & Q' & E & R & RQ & M); auto.
      { rewrite UP. destruct (u =? v); lia. }
      { intros y z I. apply HA. now right. }
      { intros x I. apply in_push in I. rewrite UP. destruct (Nat.eqb_spec x v); [lia|]. destruct I as [I|I]; [congruence|]. auto. }
      exists dist', Q'. split; auto. split; auto. split; auto. unfold Q1 in M. rewrite push_len in M.
      assert (SU := @sum_upd dist v (dst inf dist u + w) ltac:(lia)). fold d1 in SU.
      replace (nth v dist 0) with (dst inf dist v) in SU by (apply nth_indep; lia). lia.
    + cbn [bind]. destruct (IH dist Q) as (dist' & Q' & E & R & M); auto.
      * eapply lab_keep; eauto. intros x y z [-> [E|I]]; [injection E as <- <-; auto|auto].
      * intros y z I. apply HA. now right.
      * exists dist', Q'. auto.
Qed.

Lemma bs_loop_ok fuel : forall dist Q, lab g s inf dist (fun x => In x Q) (fun _ _ _ => False) -> (forall x, In x Q -> dst inf dist x < inf) ->
  2 * sum dist + length Q <= fuel -> exists d, bs_loop false push pop fuel D g (dist, Q) = Ok d /\ cut_dist g s inf d.
Proof.
  assert (FIN : forall dist, lab g s inf dist (fun x => In x []) (fun _ _ _ => False) -> cut_dist g s inf dist).
  { intros dist L. apply (@lab_final g s inf HS HI). eapply lab_weaken; eauto. }
  induction fuel; intros dist Q L HQ M.
  - destruct Q; simpl in M; [|lia]. exists dist. split; auto.
  - destruct Q as [|u Q]; cbn [bs_loop fst snd]; [exists dist; split; auto|].
    assert (Hu : dst inf dist u < inf) by (apply HQ; now left). assert (Lu := @lab_lt g s inf HS HI _ _ _ _ L Hu).
    cbn [bs_pop andb bind fst snd]. rewrite (@vget_nth _ g u []) by auto. cbn [bind].
    assert (PO := HPO dist Q).
    destruct (@bs_row_ok u (nth u g []) dist (pop dist Q)) as (d' & Q' & E & L' & HQ' & M'); auto.
    { eapply lab_pop; eauto. intros x _ [I|I]; [auto|left]. now apply (Permutation_in _ PO). }
    { intros x I. apply HQ. right. apply (Permutation_in _ (Permutation_sym PO)). auto. }
    rewrite E. cbn [bind]. apply IHfuel; auto. simpl in M. rewrite <- (Permutation_length PO) in M'. lia.
Qed.

Lemma bs_dijkstra_ok fuel : 2 * (length g * inf) + 1 <= fuel -> exists d, bs_dijkstra false push pop fuel D inf g s = Ok d /\ cut_dist g s inf d.
Proof.
  intros HF. unfold bs_dijkstra. cbn [bs_emplace andb bind]. rewrite vset_lt by (rewrite repeat_length; auto). cbn [bind].
  set (q := push _ _). assert (IQ : forall x, In x q <-> x = s) by (intros x; unfold q; rewrite in_push; simpl; tauto).
  apply bs_loop_ok.
  - eapply lab_weaken; [now apply lab_init| |auto]. intros x _ ->. now apply IQ.
  - intros x I. apply IQ in I. subst x. rewrite (lb_src (@lab_init g s inf HS HI)). auto.
  - assert (SU := @sum_upd (repeat inf (length g)) s 0 ltac:(now rewrite repeat_length)). rewrite sum_repeat in SU. unfold q. rewrite push_len. simpl length. lia.
Qed.
End Bs.

(** ** Checking the heap preconditions does not change a result *)
Lemma emplace_strict push dist q v q' : bs_emplace true push dist q v = Ok q' -> bs_emplace false push dist q v = Ok q'.
Proof. unfold bs_emplace. destruct (true && _); [discriminate|auto]. Qed.
Lemma row_strict push D u row : forall st st', rfold (bs_relax true push D u) row st = Ok st' -> rfold (bs_relax false push D u) row st = Ok st'.
Proof.
  induction row as [|e row IH]; intros st st'; [auto|]. cbn [rfold]. intros H. apply bind_Ok in H. destruct H as (st1 & E & H).
  replace (bs_relax false push D u st e) with (Ok (A:=list nat * list nat) st1); [cbn [bind]; auto|]. symmetry. revert E. unfold bs_relax. destruct st as [dist q].
  destruct (vget dist u); cbn [bind]; [|discriminate|discriminate]. destruct (vget dist (fst e)); cbn [bind]; [|discriminate|discriminate].
  destruct (_ <? _); [|auto]. destruct (vset _ _ _); cbn [bind]; [|discriminate|discriminate]. intros E. apply bind_Ok in E. destruct E as (q' & E & E').
  rewrite (emplace_strict _ _ _ _ E). exact E'.
Qed.
Lemma loop_strict push pop D g fuel : forall st d, bs_loop true push pop fuel D g st = Ok d -> bs_loop false push pop fuel D g st = Ok d.
Proof.
  induction fuel; intros [dist q] d; destruct q as [|u q]; cbn [bs_loop fst snd]; auto. intros H. cbn [bs_pop] in *. destruct (true && _); [discriminate|]. cbn [andb bind fst snd] in *.
  apply bind_Ok in H. destruct H as (row & E & H). rewrite E. cbn [bind]. apply bind_Ok in H. destruct H as (st' & E' & H). rewrite (row_strict _ _ _ _ _ E'). cbn [bind]. auto.
Qed.
Lemma dijkstra_strict push pop fuel D inf g s d : bs_dijkstra true push pop fuel D inf g s = Ok d -> bs_dijkstra false push pop fuel D inf g s = Ok d.
Proof.
  unfold bs_dijkstra. intros H. apply bind_Ok in H. destruct H as (q & E & H). rewrite (emplace_strict _ _ _ _ E). cbn [bind]. apply bind_Ok in H.
  destruct H as (dist & E' & H). rewrite E'. cbn [bind]. now apply loop_strict.
Qed.

(** ** The comparison of the verifier *)
Lemma equal3_spec a : forall b, length a <= length b -> exists r, equal3 a b = Ok r /\ (r = true <-> forall d v, v < length a -> nth v a d = nth v b d).
Proof.
  induction a as [|x a IH]; intros b L.
  - exists true. split; auto. split; auto. intros _ d v H. simpl in H. lia.
  - destruct b as [|y b]; simpl in L; [lia|]. cbn [equal3]. destruct (Nat.eqb_spec x y) as [->|N].
    + destruct (IH b ltac:(lia)) as (r & E & Q). exists r. split; auto. rewrite Q. split.
      * intros H d [|v] Hv; simpl in *; auto. apply H. lia.
      * intros H d v Hv. apply (H d (S v)). simpl. lia.
    + exists false. split; auto. split; [discriminate|]. intros H. exfalso. apply N. apply (H 0 0). simpl. lia.
Qed.
Lemma equal3_long a : forall b, length b < length a -> (forall d v, v < length b -> nth v a d = nth v b d) -> equal3 a b = Ub.
Proof.
  induction a as [|x a IH]; intros b L H; [simpl in L; lia|]. destruct b as [|y b]; auto. cbn [equal3].
  assert (X := H 0 0 ltac:(simpl; lia)). simpl in X. subst y. rewrite Nat.eqb_refl. apply IH; [simpl in L; lia|]. intros d v Hv. apply (H d (S v)). simpl. lia.
Qed.
Lemma equal3_diff a : forall b v, v < length a -> v < length b -> (forall u, u < v -> nth u a 0 = nth u b 0) -> nth v a 0 <> nth v b 0 -> equal3 a b = Ok false.
Proof.
  induction a as [|x a IH]; intros b v La Lb EQ NE; [simpl in La; lia|]. destruct b as [|y b]; [simpl in Lb; lia|]. cbn [equal3].
  destruct (Nat.eqb_spec x y) as [->|N]; auto. destruct v as [|v]; [simpl in NE; congruence|]. apply IH with (v := v); simpl in *; try lia.
  intros u Hu. apply (EQ (S u)). lia.
Qed.

Lemma cut_fun g s inf d1 d2 : cut_dist g s inf d1 -> cut_dist g s inf d2 -> d1 = d2.
Proof.
  intros (L1 & C1) (L2 & C2). apply nth_ext with (d := inf) (d' := inf); [lia|]. intros v Hv. rewrite L1 in Hv.
  destruct (C1 v Hv) as (A1 & A2 & A3), (C2 v Hv) as (B1 & B2 & B3).
  destruct (Nat.eq_dec (nth v d1 inf) inf) as [E1|N1], (Nat.eq_dec (nth v d2 inf) inf) as [E2|N2].
  - lia.
  - assert (X := A3 E1 _ (proj1 (B2 ltac:(lia)))). lia.
  - assert (X := B3 E2 _ (proj1 (A2 ltac:(lia)))). lia.
  - eapply shortest_fun; [apply A2|apply B2]; lia.
Qed.
