(** Proofs for C32-C34. *)
From Coq Require Import List Arith Lia Bool.
From Verif Require Import Base SsspModel SsspLib.
Import ListNotations.
Set Implicit Arguments.

Lemma in_pq_push x q y : In y (pq_push x q) <-> y = x \/ In y q.
Proof. induction q as [|z q IH]; simpl; [intuition auto|]. destruct (lex_lt z x); simpl; [rewrite IH|]; intuition auto. Qed.
Lemma pq_push_length x q : length (pq_push x q) = S (length q).
Proof. induction q as [|z q IH]; simpl; auto. destruct (lex_lt z x); simpl; auto. Qed.

Section Dj.
Variables (g : wgraph) (s inf D : nat).
Hypothesis HT : wtargets_ok g.
Hypothesis HS : s < length g.
Hypothesis HI : 0 < inf.
Hypothesis SAFE : forall u l p v w, spath g s ((u, l) :: p) -> l < inf -> warc g u v w -> l + w < D.

Definition inq (Q : list (nat * nat)) (x : nat) : Prop := exists d, In (x, d) Q.

Lemma dj_row_ok u : forall rest dist Q, lab g s inf dist (inq Q) (fun x y z => x = u /\ In (y, z) rest) -> dst inf dist u < inf ->
  (forall y z, In (y, z) rest -> warc g u y z) -> (forall x, inq Q x -> dst inf dist x < inf) ->
  exists dist' Q', rfold (dj_relax D u) rest (dist, Q) = Ok (dist', Q') /\ lab g s inf dist' (inq Q') (fun _ _ _ => False) /\
    (forall x, inq Q' x -> dst inf dist' x < inf) /\ 2 * sum dist' + length Q' <= 2 * sum dist + length Q.
Proof.
  induction rest as [|[v w] rest IH]; intros dist Q L Hu HA HQ.
  - exists dist, Q. split; auto. split; [|auto]. eapply lab_weaken; eauto. intros x y z _ [_ []].
  - assert (A := HA v w (or_introl eq_refl)). assert (Lu := @lab_lt g s inf HS HI _ _ _ _ L Hu). assert (Lv := HT _ _ _ A). assert (LL := lb_len L).
    cbn [rfold]. unfold dj_relax at 1. cbn [fst snd]. rewrite (@vget_nth _ dist u inf), (@vget_nth _ dist v inf) by lia. cbn [bind].
    fold (dst inf dist u). fold (dst inf dist v). rewrite (@lab_sum g s inf D HS HI SAFE _ _ _ _ _ _ L Hu A).
    destruct (Nat.ltb_spec (dst inf dist u + w) (dst inf dist v)) as [LT|GE].
    + rewrite vset_lt by lia. cbn [bind].
      assert (L' : lab g s inf (upd dist v (dst inf dist u + w)) (inq (pq_push (v, dst inf dist u + w) Q)) (fun x y z => x = u /\ In (y, z) rest)).
      { eapply lab_improve; eauto.
        - intros x _ (d & I). exists d. apply in_pq_push. auto.
        - eexists. apply in_pq_push. left. reflexivity.
        - intros x y z [-> [E|I]]; [injection E as <- <-; auto|auto]. }
      assert (UP : forall x, dst inf (upd dist v (dst inf dist u + w)) x = if x =? v then dst inf dist u + w else dst inf dist x).
      { intros x. unfold dst. destruct (Nat.eqb_spec x v) as [->|N]; [apply nth_upd_eq; lia|apply nth_upd_neq; auto]. }
      assert (DV := lb_le L v). destruct (IH _ _ L') as (dist' & Q' & E & R & RQ & M); auto.
      { rewrite UP. destruct (u =? v); lia. }
      { intros y z I. apply HA. now right. }
      { intros x (d & I). apply in_pq_push in I. rewrite UP. destruct (Nat.eqb_spec x v); [lia|]. destruct I as [I|I]; [congruence|]. apply HQ. exists d. auto. }
      exists dist', Q'. split; auto. split; auto. split; auto. rewrite pq_push_length in M.
      assert (SU := @sum_upd dist v (dst inf dist u + w) ltac:(lia)).
      replace (nth v dist 0) with (dst inf dist v) in SU by (apply nth_indep; lia). lia.
    + cbn [bind]. destruct (IH dist Q) as (dist' & Q' & E & R & M); auto.
      * eapply lab_keep; eauto. intros x y z [-> [E|I]]; [injection E as <- <-; auto|auto].
      * intros y z I. apply HA. now right.
      * exists dist', Q'. auto.
Qed.

Lemma dj_loop_ok fuel : forall dist Q, lab g s inf dist (inq Q) (fun _ _ _ => False) -> (forall x, inq Q x -> dst inf dist x < inf) ->
  2 * sum dist + length Q <= fuel -> exists d, dj_loop fuel D g (dist, Q) = Ok d /\ cut_dist g s inf d.
Proof.
  assert (FIN : forall dist, lab g s inf dist (inq []) (fun _ _ _ => False) -> cut_dist g s inf dist).
  { intros dist L. apply (@lab_final g s inf HS HI). eapply lab_weaken; eauto. intros x _ (d & []). }
  induction fuel; intros dist Q L HQ M.
  - destruct Q; simpl in M; [|lia]. exists dist. split; auto.
  - destruct Q as [|[u du] Q]; cbn [dj_loop fst snd]; [exists dist; split; auto|].
    assert (Hu : dst inf dist u < inf) by (apply HQ; exists du; now left). assert (Lu := @lab_lt g s inf HS HI _ _ _ _ L Hu).
    rewrite (@vget_nth _ g u []) by auto. cbn [bind].
    destruct (@dj_row_ok u (nth u g []) dist Q) as (d' & Q' & E & L' & HQ' & M'); auto.
    { eapply lab_pop; eauto. intros x _ (d & [I|I]); [right; congruence|left; exists d; auto]. }
    { intros x (d & I). apply HQ. exists d. now right. }
    rewrite E. cbn [bind]. apply IHfuel; auto. simpl in M. lia.
Qed.

Lemma sum_repeat x n : sum (repeat x n) = n * x.
Proof. induction n; simpl; auto. Qed.

Lemma dijkstra_ok fuel : 2 * (length g * inf) + 1 <= fuel -> exists d, dijkstra fuel D inf g s = Ok d /\ cut_dist g s inf d.
Proof.
  intros HF. unfold dijkstra. rewrite vset_lt by (rewrite repeat_length; auto). cbn [bind]. apply dj_loop_ok.
  - eapply lab_weaken; [now apply lab_init| |auto]. intros x _ ->. exists 0. now left.
  - intros x (d & [I|[]]). injection I as <- <-. rewrite (lb_src (@lab_init g s inf HS HI)). auto.
  - assert (SU := @sum_upd (repeat inf (length g)) s 0 ltac:(now rewrite repeat_length)). rewrite sum_repeat in SU. simpl length. lia.
Qed.

(** ** Delta-stepping *)
Variable delta : nat.
Hypothesis HD : 0 < delta.

Definition inbin (bins : list (list nat)) (dist : list nat) (x : nat) : Prop := In x (nth (dst inf dist x / delta) bins []).

Definition binpush (bins : list (list nat)) (dest v : nat) : list (list nat) :=
  let bins1 := if length bins <=? dest then bins ++ repeat [] (dest + 1 - length bins) else bins in
  upd bins1 dest (nth dest bins1 [] ++ [v]).

Lemma nth_app_nils (bins : list (list nat)) k b : nth b (bins ++ repeat [] k) [] = nth b bins [].
Proof.
  destruct (Nat.lt_ge_cases b (length bins)); [now apply app_nth1|]. rewrite app_nth2, nth_repeat by auto. now rewrite nth_overflow.
Qed.
Lemma binpush_nth bins dest v b : nth b (binpush bins dest v) [] = if b =? dest then nth dest bins [] ++ [v] else nth b bins [].
Proof.
  unfold binpush. set (bins1 := if length bins <=? dest then bins ++ repeat [] (dest + 1 - length bins) else bins).
  assert (L : dest < length bins1) by (unfold bins1; destruct (Nat.leb_spec (length bins) dest); [rewrite app_length, repeat_length; lia|lia]).
  assert (N : forall c, nth c bins1 [] = nth c bins []) by (intros c; unfold bins1; destruct (_ <=? _); [apply nth_app_nils|auto]).
  destruct (Nat.eqb_spec b dest) as [->|NE].
  - rewrite nth_upd_eq by auto. now rewrite N.
  - rewrite nth_upd_neq by auto. apply N.
Qed.
Lemma concat_nils k : concat (repeat (@nil nat) k) = [].
Proof. induction k; simpl; auto. Qed.
Lemma concat_upd_len (q : list (list nat)) : forall b l, b < length q -> length (concat (upd q b l)) + length (nth b q []) = length (concat q) + length l.
Proof.
  induction q as [|a q IH]; intros [|b] l H; simpl in *; try lia; rewrite !app_length; [lia|]. specialize (IH b l ltac:(lia)). lia.
Qed.
Lemma binpush_len bins dest v : length (concat (binpush bins dest v)) = S (length (concat bins)).
Proof.
  unfold binpush. set (bins1 := if length bins <=? dest then bins ++ repeat [] (dest + 1 - length bins) else bins).
  assert (L : dest < length bins1) by (unfold bins1; destruct (Nat.leb_spec (length bins) dest); [rewrite app_length, repeat_length; lia|lia]).
  assert (C : concat bins1 = concat bins) by (unfold bins1; destruct (_ <=? _); [rewrite concat_app, concat_nils; apply app_nil_r|auto]).
  assert (X := concat_upd_len bins1 (nth dest bins1 [] ++ [v]) L). rewrite app_length in X. simpl in X. rewrite C in X. lia.
Qed.

(** Bins below [top] are empty; everything queued is labelled. *)
Record bins_ok (top : nat) (dist : list nat) (bins : list (list nat)) : Prop := {
  bo_low : forall b, b < top -> nth b bins [] = [];
  bo_lab : forall b x, In x (nth b bins []) -> dst inf dist x < inf
}.

Lemma ds_row_ok top u (fr : nat -> Prop) : forall rest dist bins,
  lab g s inf dist (fun x => inbin bins dist x \/ (dst inf dist x / delta = top /\ fr x)) (fun x y z => x = u /\ In (y, z) rest) ->
  dst inf dist u < inf -> delta * top <= dst inf dist u -> (forall x, fr x -> dst inf dist x < inf) ->
  (forall y z, In (y, z) rest -> warc g u y z) -> bins_ok top dist bins ->
  exists dist' bins', rfold (ds_relax D delta u) rest (dist, bins) = Ok (dist', bins') /\
    lab g s inf dist' (fun x => inbin bins' dist' x \/ (dst inf dist' x / delta = top /\ fr x)) (fun _ _ _ => False) /\
    (forall x, fr x -> dst inf dist' x < inf) /\
    bins_ok top dist' bins' /\ 2 * sum dist' + length (concat bins') <= 2 * sum dist + length (concat bins).
Proof.
  induction rest as [|[v w] rest IH]; intros dist bins L Hu TOP HF HA BO.
  - exists dist, bins. split; auto. split; [|auto]. eapply lab_weaken; eauto. intros x y z _ [_ []].
  - assert (A := HA v w (or_introl eq_refl)). assert (Lu := @lab_lt g s inf HS HI _ _ _ _ L Hu). assert (Lv := HT _ _ _ A). assert (LL := lb_len L).
    cbn [rfold]. unfold ds_relax at 1. cbn [fst snd]. rewrite (@vget_nth _ dist u inf), (@vget_nth _ dist v inf) by lia. cbn [bind].
    fold (dst inf dist u). fold (dst inf dist v). rewrite (@lab_sum g s inf D HS HI SAFE _ _ _ _ _ _ L Hu A).
    destruct (Nat.ltb_spec (dst inf dist u + w) (dst inf dist v)) as [LT|GE].
    + rewrite vset_lt by lia. cbn [bind]. destruct (Nat.eqb_spec delta 0); [lia|].
      set (nd := dst inf dist u + w) in *. set (bins1 := if length bins <=? nd / delta then bins ++ repeat [] (nd / delta + 1 - length bins) else bins).
      assert (LB : nd / delta < length bins1) by (unfold bins1; destruct (Nat.leb_spec (length bins) (nd / delta)); [rewrite app_length, repeat_length; lia|lia]).
      rewrite (@vget_nth _ bins1 (nd / delta) []) by auto. cbn [bind]. rewrite vset_lt by auto. cbn [bind].
      change (upd bins1 (nd / delta) (nth (nd / delta) bins1 [] ++ [v])) with (binpush bins (nd / delta) v).
      assert (UP : forall x, dst inf (upd dist v nd) x = if x =? v then nd else dst inf dist x).
      { intros x. unfold dst. destruct (Nat.eqb_spec x v) as [->|N]; [apply nth_upd_eq; lia|apply nth_upd_neq; auto]. }
      assert (IB : inbin (binpush bins (nd / delta) v) (upd dist v nd) v).
      { unfold inbin. rewrite UP, Nat.eqb_refl, binpush_nth, Nat.eqb_refl. apply in_or_app. right. now left. }
      assert (L' : lab g s inf (upd dist v nd) (fun x => inbin (binpush bins (nd / delta) v) (upd dist v nd) x \/ (dst inf (upd dist v nd) x / delta = top /\ fr x))
                     (fun x y z => x = u /\ In (y, z) rest)).
      { eapply lab_improve; eauto.
        - intros x NX. unfold inbin. rewrite UP. destruct (Nat.eqb_spec x v); [contradiction|]. intros [I|I]; auto. left. rewrite binpush_nth.
          destruct (Nat.eqb_spec (dst inf dist x / delta) (nd / delta)) as [E|]; auto. rewrite <- E. apply in_or_app. auto.
        - intros x y z [-> [E|I]]; [injection E as <- <-; auto|auto]. }
      assert (DV := lb_le L v).
      assert (TN : top <= nd / delta) by (apply Nat.div_le_lower_bound; lia).
      destruct (IH _ _ L') as (dist' & bins' & E & R & RF & RB & M); auto.
      { rewrite UP. destruct (u =? v); lia. }
      { rewrite UP. destruct (Nat.eqb_spec u v); lia. }
      { intros x FX. rewrite UP. destruct (x =? v); [lia|auto]. }
      { intros y z I. apply HA. now right. }
      { constructor.
        - intros b Hb. rewrite binpush_nth. destruct (Nat.eqb_spec b (nd / delta)); [lia|]. now apply BO.
        - intros b x I. rewrite binpush_nth in I. rewrite UP. destruct (Nat.eqb_spec x v); [lia|].
          destruct (Nat.eqb_spec b (nd / delta)) as [->|]; [|now apply (bo_lab BO b)]. apply in_app_or in I. destruct I as [I|[I|[]]]; [now apply (bo_lab BO (nd / delta))|congruence]. }
      exists dist', bins'. split; auto. split; auto. split; auto. split; auto. rewrite binpush_len in M.
      assert (SU := @sum_upd dist v nd ltac:(lia)). replace (nth v dist 0) with (dst inf dist v) in SU by (apply nth_indep; lia). lia.
    + cbn [bind]. destruct (IH dist bins) as (dist' & bins' & E & R & M); auto.
      * eapply lab_keep; eauto. intros x y z [-> [E|I]]; [injection E as <- <-; auto|auto].
      * intros y z I. apply HA. now right.
      * exists dist', bins'. auto.
Qed.

Lemma ds_front_ok top : forall fr dist bins,
  lab g s inf dist (fun x => inbin bins dist x \/ (dst inf dist x / delta = top /\ In x fr)) (fun _ _ _ => False) ->
  (forall x, In x fr -> dst inf dist x < inf) -> bins_ok top dist bins ->
  exists dist' bins', rfold (ds_vertex D delta g top) fr (dist, bins) = Ok (dist', bins') /\
    lab g s inf dist' (inbin bins' dist') (fun _ _ _ => False) /\ bins_ok top dist' bins' /\
    2 * sum dist' + length (concat bins') <= 2 * sum dist + length (concat bins).
Proof.
  induction fr as [|i fr IH]; intros dist bins L HF BO.
  - exists dist, bins. split; auto. split; [|auto]. eapply lab_weaken; eauto. intros x _ [I|[_ []]]; auto.
  - assert (Hi := HF i (or_introl eq_refl)). assert (Li := @lab_lt g s inf HS HI _ _ _ _ L Hi). assert (LL := lb_len L).
    cbn [rfold]. unfold ds_vertex at 1. cbn [fst]. rewrite (@vget_nth _ dist i inf) by lia. cbn [bind]. fold (dst inf dist i).
    destruct (Nat.leb_spec (delta * top) (dst inf dist i)) as [TOP|LOW].
    + rewrite (@vget_nth _ g i []) by auto. cbn [bind].
      destruct (@ds_row_ok top i (fun x => In x fr) (nth i g []) dist bins) as (d1 & b1 & E1 & L1 & F1 & B1 & M1); auto.
      { eapply lab_pop; eauto. intros x _ [I|[E [<-|I]]]; auto. }
      { intros x I. apply HF. now right. }
      rewrite E1. cbn [bind]. destruct (IH d1 b1 L1 F1 B1) as (d2 & b2 & E2 & L2 & B2 & M2). exists d2, b2. split; auto. split; auto. split; auto. lia.
    + cbn [bind]. destruct (IH dist bins) as (d2 & b2 & E2 & L2 & B2 & M2); auto.
      * eapply lab_weaken; eauto. intros x _ [I|[E [<-|I]]]; auto. exfalso.
        assert (X := Nat.mul_div_le (dst inf dist i) delta ltac:(lia)). rewrite E in X.
        assert (Y := Nat.mul_succ_div_gt (dst inf dist i) delta ltac:(lia)). rewrite E in Y. lia.
      * intros x I. apply HF. now right.
      * exists d2, b2. auto.
Qed.

Lemma ds_next_ok bins : forall k top, length bins <= k + top -> (forall b, b < top -> nth b bins [] = []) ->
  (forall b, b < ds_next k top bins -> nth b bins [] = []) /\ (ds_next k top bins < length bins -> nth (ds_next k top bins) bins [] <> []).
Proof.
  induction k; intros top HK H; cbn [ds_next].
  - split; auto. lia.
  - destruct (Nat.ltb_spec top (length bins)).
    + destruct (nth top bins []) eqn:E.
      * apply IHk; [lia|]. intros b Hb. destruct (Nat.eq_dec b top) as [->|]; auto. apply H. lia.
      * split; auto. rewrite E. discriminate.
    + split; auto. lia.
Qed.

Lemma ds_loop_ok fuel : forall top dist bins, lab g s inf dist (inbin bins dist) (fun _ _ _ => False) -> bins_ok top dist bins ->
  (top < length bins -> nth top bins [] <> []) -> 2 * sum dist + length (concat bins) <= fuel ->
  exists d, ds_loop fuel D delta g top (dist, bins) = Ok d /\ cut_dist g s inf d.
Proof.
  assert (FIN : forall top dist bins, lab g s inf dist (inbin bins dist) (fun _ _ _ => False) -> bins_ok top dist bins -> length bins <= top -> cut_dist g s inf dist).
  { intros top dist bins L BO LE. apply (@lab_final g s inf HS HI). eapply lab_weaken; eauto. intros x _ I. unfold inbin in I.
    destruct (Nat.lt_ge_cases (dst inf dist x / delta) top) as [LT|GE]; [rewrite (bo_low BO LT) in I|rewrite nth_overflow in I by lia]; destruct I. }
  induction fuel; intros top dist bins L BO NE M; cbn [ds_loop fst snd]; destruct (Nat.ltb_spec top (length bins)) as [LT|GE].
  - exfalso. specialize (NE LT). assert (X := concat_upd_len bins [] LT). simpl length in X. destruct (nth top bins []); [congruence|simpl length in X; lia].
  - exists dist. split; auto. eapply FIN; eauto.
  - rewrite (@vget_nth _ bins top []) by auto. cbn [bind]. rewrite vset_lt by auto. cbn [bind].
    destruct (@ds_front_ok top (nth top bins []) dist (upd bins top [])) as (d1 & b1 & E1 & L1 & B1 & M1).
    { eapply lab_weaken; eauto. intros x Hx I. unfold inbin in *. destruct (Nat.eq_dec (dst inf dist x / delta) top) as [E|NT].
      - right. rewrite E in I. auto.
      - left. rewrite nth_upd_neq; auto. }
    { intros x I. eapply BO; eauto. }
    { constructor.
      - intros b Hb. rewrite nth_upd_neq by lia. now apply BO.
      - intros b x I. destruct (Nat.eq_dec b top) as [->|NB]; [rewrite nth_upd_eq in I by auto; destruct I|]. rewrite nth_upd_neq in I by auto. eapply BO; eauto. }
    rewrite E1. cbn [bind fst snd]. destruct (@ds_next_ok b1 (length b1) top ltac:(lia) (bo_low B1)) as [N1 N2].
    apply IHfuel; auto.
    + constructor; auto. apply B1.
    + assert (X := concat_upd_len bins [] LT). simpl length in X. specialize (NE LT). destruct (nth top bins []); [congruence|simpl length in X; lia].
  - exists dist. split; auto. eapply FIN; eauto.
Qed.

Lemma delta_stepping_ok fuel : 2 * (length g * inf) + 1 <= fuel -> exists d, delta_stepping fuel D inf g s delta = Ok d /\ cut_dist g s inf d.
Proof.
  intros HF. unfold delta_stepping. rewrite vset_lt by (rewrite repeat_length; auto). cbn [bind].
  assert (L := @lab_init g s inf HS HI). apply ds_loop_ok.
  - eapply lab_weaken; [exact L| |auto]. intros x _ ->. unfold inbin. rewrite (lb_src L), Nat.div_0_l by lia. now left.
  - constructor; [intros b Hb; lia|]. intros [|b] x I; [destruct I as [<-|[]]; rewrite (lb_src L); auto|destruct b; destruct I].
  - discriminate.
  - assert (SU := @sum_upd (repeat inf (length g)) s 0 ltac:(now rewrite repeat_length)). rewrite sum_repeat in SU. simpl length. lia.
Qed.
End Dj.
