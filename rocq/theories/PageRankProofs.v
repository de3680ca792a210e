(** Proofs for C58: the sweeps of page_rank are asynchronous sweeps in the sense of PageRankLib. *)
From Coq Require Import List Arith ZArith QArith Qabs Lqa Lia Bool.
From Verif Require Import Base Pool PageRankModel PageRankLib.
Import ListNotations.
Set Implicit Arguments.
Local Open Scope nat_scope.

Section Sweep.
Variables (g : list (list nat)) (deg : list nat) (d : Q).
Notation n := (length g).
Notation degf := (fun j => nth j deg 0).
Notation base := ((1 - d) / qn n)%Q.
Hypothesis IN : pr_input g degf d.
Hypothesis LD : n <= length deg.
Variables (a : nat -> Q) (L : nat).
Hypothesis HL : n <= L.

Definition tid (t : prtask) : nat := match t with RD i _ _ => i | WC i => i end.
Definition fin (ts : list prtask) (j : nat) : Prop := forall l z, ~ In (RD j l z) ts.
Definition seen (y : nat -> Q) (ts : list prtask) (bs : list (nat * Q)) : Prop :=
  forall j b, In (j, b) bs -> (b == a j)%Q \/ ((b == y j)%Q /\ fin ts j).
Definition bsum (bs : list (nat * Q)) : Q := qsum (map (fun p => (snd p / qn (degf (fst p)))%Q) bs).
Definition task_ok (y : nat -> Q) (ts : list prtask) (t : prtask) : Prop := tid t < n /\
  match t with
  | RD i l z => y i = a i /\ exists bs z', nth i g [] = map fst bs ++ l /\ z = Some z' /\ (z' == bsum bs)%Q /\ seen y ts bs
  | WC i => True
  end.
Record sw (ts : list prtask) (st : prst) (y : nat -> Q) : Prop := {
  w_len : length (pr_rank st) = L;
  w_olen : length (pr_out st) = n;
  w_rank : forall i, i < n -> nth_error (pr_rank st) i = Some (Some (y i));
  w_nd : NoDup (map tid ts);
  w_task : forall t, In t ts -> task_ok y ts t;
  w_out : forall j, j < n -> exists v, nth_error (pr_out st) j = Some (odivn (Some v) (degf j)) /\ (v = a j \/ (v = y j /\ fin ts j)) /\ (~ In j (map tid ts) -> v = y j);
  w_done : forall i, i < n -> fin ts i -> exists bs, nth i g [] = map fst bs /\ seen y ts bs /\ (y i == base + d * bsum bs)%Q;
  w_err : exists e, pr_err st = Some e /\ (e == qs n (fun i => Qabs (y i - a i)))%Q
}.

Lemma in_mid (A : Type) (l1 o l2 : list A) t x : In x (l1 ++ t :: l2) -> x = t \/ In x (l1 ++ o ++ l2).
Proof. rewrite !in_app_iff. simpl. intuition auto. Qed.
Lemma in_new (A : Type) (l1 o l2 : list A) t x : In x (l1 ++ o ++ l2) -> In x o \/ In x (l1 ++ t :: l2).
Proof. rewrite !in_app_iff. simpl. intuition auto. Qed.

Lemma occ_in i j : In j (nth i g []) -> 0 < degf j.
Proof.
  intros I. assert (Lj := pi_tgt IN i j I). assert (D := pi_deg IN Lj). cbn beta in D.
  assert (Li : i < n) by (destruct (Nat.lt_ge_cases i n); auto; rewrite nth_overflow in I by auto; destruct I).
  enough (0 < occ g j) by lia. unfold occ. clear D Lj. revert i I Li. generalize g as h. induction h as [|row h IH]; intros i I Li; [simpl in Li; lia|].
  cbn [map list_sum fold_right]. destruct i as [|i]; simpl in I.
  - apply (count_occ_In Nat.eq_dec) in I. lia.
  - assert (X := IH i I ltac:(simpl in Li; lia)). unfold list_sum in X. lia.
Qed.

Lemma pr_step_ok l1 t l2 st : (exists y, sw (l1 ++ t :: l2) st y) ->
  exists o st', pr_step deg base d t st = Ok (o, st') /\ (exists y, sw (l1 ++ opt_list o ++ l2) st' y) /\ match o with Some t' => pr_size t' < pr_size t | None => True end.
Proof.
  intros (y & W). assert (IT : In t (l1 ++ t :: l2)) by (apply in_or_app; right; now left). assert (TK := w_task W t IT). destruct TK as [Lt TK].
  destruct t as [i [|j l] z|i]; cbn [tid] in Lt; cbn [pr_step].
  - (* write the rank *)
    destruct TK as (YA & bs & z' & ER & -> & EZ & SE). rewrite app_nil_r in ER.
    rewrite (proj2 (vget_Ok _ _ _) (w_rank W Lt)). cbn [bind]. assert (LR := w_len W). rewrite vset_lt by lia. cbn [bind olift2].
    eexists _, _. split; [reflexivity|]. split; [|cbn [pr_size length]; lia]. cbn [opt_list].
    set (new := (base + d * z')%Q). exists (fun k => if k =? i then new else y k).
    assert (FIN : forall k, fin (l1 ++ RD i [] (Some z') :: l2) k -> fin (l1 ++ [WC i] ++ l2) k).
    { intros k F l z I. destruct (@in_new _ l1 [WC i] l2 (RD i [] (Some z')) _ I) as [[X|[]]|X]; [discriminate X|]. eapply F; eauto. }
    assert (FI : fin (l1 ++ [WC i] ++ l2) i).
    { intros l z I. assert (ND := w_nd W). rewrite map_app in ND. cbn [map] in ND. apply NoDup_remove_2 in ND. apply ND. cbn [tid]. rewrite <- map_app.
      rewrite !in_app_iff in I. destruct I as [I|[[X|[]]|I]]; [| discriminate X |]; apply in_map_iff; exists (RD i l z); (split; [reflexivity|]); apply in_or_app; auto. }
    assert (FI2 : forall k, k <> i -> fin (l1 ++ [WC i] ++ l2) k -> fin (l1 ++ RD i [] (Some z') :: l2) k).
    { intros k NK F l z I. destruct (in_mid l1 [WC i] l2 _ _ I) as [X|X]; [congruence|]. eapply F; eauto. }
    assert (SEEN : forall bs0, seen y (l1 ++ RD i [] (Some z') :: l2) bs0 -> seen (fun k => if k =? i then new else y k) (l1 ++ [WC i] ++ l2) bs0).
    { intros bs0 S j b I. destruct (S j b I) as [X|[X F]]; auto. right. destruct (Nat.eqb_spec j i) as [->|N]; [exfalso; eapply F; eauto|auto]. }
    constructor; cbn [pr_rank pr_out pr_err].
    + now rewrite upd_length.
    + apply W.
    + intros k Hk. destruct (Nat.eqb_spec k i) as [->|N].
      * apply vget_Ok. apply vget_upd_eq. lia.
      * assert (X := w_rank W Hk). apply vget_Ok. rewrite vget_upd_neq by auto. now apply vget_Ok.
    + assert (ND := w_nd W). rewrite !map_app in *. cbn [map tid app] in *. exact ND.
    + intros t' I. destruct (@in_new _ l1 [WC i] l2 (RD i [] (Some z')) _ I) as [[<-|[]]|X]; [split; auto|].
      destruct (w_task W _ X) as [LT' TK']. split; auto. destruct t' as [k l z|k]; auto. cbn [tid] in LT'.
      assert (NK : k <> i).
      { intros ->. eapply FI. exact I. }
      destruct TK' as (Y1 & bs1 & z1 & R1 & -> & E1 & S1). destruct (Nat.eqb_spec k i); [contradiction|]. split; auto. exists bs1, z1. auto.
    + intros k Hk. destruct (w_out W Hk) as (v & E & V & T). exists v. split; auto. split.
      * destruct V as [V|[V F]]; auto. destruct (Nat.eqb_spec k i) as [->|N]; [exfalso; eapply F; eauto|auto].
      * intros NI. assert (NK : k <> i) by (intros ->; apply NI; rewrite !map_app; apply in_or_app; right; now left).
        destruct (Nat.eqb_spec k i); [contradiction|]. apply T. intros I. apply NI. rewrite !map_app in *. exact I.
    + intros k Hk F. destruct (Nat.eqb_spec k i) as [->|N].
      * exists bs. split; auto. split; auto. unfold new. rewrite EZ. reflexivity.
      * destruct (w_done W Hk (FI2 k N F)) as (bs1 & R1 & S1 & E1). exists bs1. auto.
    + destruct (w_err W) as (e & EE & EQ). rewrite EE. cbn [olift2]. eexists. split; [reflexivity|]. rewrite EQ.
      assert (DL := @qs_delta n i (Qabs (new - y i)) Lt). rewrite <- DL. rewrite <- qs_add. apply qs_ext. intros k Hk.
      destruct (Nat.eq_dec i k) as [<-|N].
      * rewrite Nat.eqb_refl, YA. setoid_replace (a i - a i)%Q with 0%Q by lra. change (Qabs 0) with 0%Q. lra.
      * destruct (Nat.eqb_spec k i); [congruence|]. lra.
  - (* read a contribution *)
    destruct TK as (YA & bs & z' & ER & -> & EZ & SE).
    assert (IJ : In j (nth i g [])) by (rewrite ER; apply in_or_app; right; now left). assert (Lj := pi_tgt IN i j IJ). assert (DJ := occ_in i j IJ). cbn beta in DJ.
    destruct (w_out W Lj) as (v & EV & V & _). rewrite (proj2 (vget_Ok _ _ _) EV). cbn [bind]. unfold odivn. destruct (Nat.eqb_spec (nth j deg 0) 0); [lia|]. cbn [olift2].
    eexists _, st. split; [reflexivity|]. split; [|cbn [pr_size length]; lia]. cbn [opt_list]. exists y.
    set (t' := RD i l (Some (z' + v / qnat (nth j deg 0%nat))%Q)).
    assert (FIN : forall k, fin (l1 ++ RD i (j :: l) (Some z') :: l2) k <-> fin (l1 ++ [t'] ++ l2) k).
    { intros k. split; intros F l0 z I.
      - destruct (@in_new _ l1 [t'] l2 (RD i (j :: l) (Some z')) _ I) as [[X|[]]|X]; [|eapply F; eauto]. unfold t' in X. injection X as <- _ _. eapply F; eauto.
      - destruct (in_mid l1 [t'] l2 _ _ I) as [X|X]; [|eapply F; eauto]. injection X as -> _ _. eapply F. apply in_or_app. right. left. reflexivity. }
    assert (SEEN : forall bs0, seen y (l1 ++ RD i (j :: l) (Some z') :: l2) bs0 -> seen y (l1 ++ [t'] ++ l2) bs0).
    { intros bs0 S k b I. destruct (S k b I) as [X|[X F]]; auto. right. split; auto. now apply FIN. }
    assert (IDS : map tid (l1 ++ [t'] ++ l2) = map tid (l1 ++ RD i (j :: l) (Some z') :: l2)) by (rewrite !map_app; reflexivity).
    constructor; try apply W.
    + rewrite IDS. apply W.
    + intros t0 I. destruct (@in_new _ l1 [t'] l2 (RD i (j :: l) (Some z')) _ I) as [[<-|[]]|X].
      * split; auto. unfold t'. split; auto. exists (bs ++ [(j, v)]), (z' + v / qnat (nth j deg 0%nat))%Q. split; [rewrite map_app, <- app_assoc; exact ER|]. split; auto. split.
        -- unfold bsum in *. rewrite map_app, qsum_app, EZ. cbn [map qsum fst snd]. change (qnat (nth j deg 0)) with (qn (nth j deg 0)). lra.
        -- intros k b I'. apply in_app_or in I'. destruct I' as [I'|[I'|[]]]; [now apply (SEEN bs)|]. injection I' as <- <-.
           destruct V as [->|[-> F]]; [left; reflexivity|right; split; [reflexivity|now apply FIN]].
      * destruct (w_task W _ X) as [LT' TK']. split; auto. destruct t0 as [k l0 z0|k]; auto.
        destruct TK' as (Y1 & bs1 & z1 & R1 & -> & E1 & S1). split; auto. exists bs1, z1. auto.
    + intros k Hk. destruct (w_out W Hk) as (u & E & U & T). exists u. split; auto. split; [|now rewrite IDS]. destruct U as [U|[U F]]; auto. right. split; auto. now apply FIN.
    + intros k Hk F. apply FIN in F. destruct (w_done W Hk F) as (bs1 & R1 & S1 & E1). exists bs1. auto.
  - (* write the contribution *)
    rewrite (proj2 (vget_Ok _ _ _) (w_rank W Lt)). cbn [bind]. rewrite (@vget_nth _ deg i 0) by lia. cbn [bind]. assert (LO := w_olen W). rewrite vset_lt by lia. cbn [bind].
    eexists _, _. split; [reflexivity|]. split; auto. cbn [opt_list app]. exists y.
    assert (FIN : forall k, fin (l1 ++ WC i :: l2) k <-> fin (l1 ++ l2) k).
    { intros k. split; intros F l0 z I; [eapply F; apply in_app_or in I; apply in_or_app; destruct I; [left|right; right]; eauto|].
      apply in_app_or in I. destruct I as [I|[I|I]]; [|discriminate I|]; eapply F; apply in_or_app; eauto. }
    assert (ND := w_nd W). rewrite map_app in ND. cbn [map tid] in ND.
    assert (FI : fin (l1 ++ l2) i).
    { intros l z I. apply NoDup_remove_2 in ND. apply ND. rewrite <- map_app. apply in_map_iff. exists (RD i l z). auto. }
    assert (SEEN : forall bs0, seen y (l1 ++ WC i :: l2) bs0 -> seen y (l1 ++ l2) bs0).
    { intros bs0 S k b I. destruct (S k b I) as [X|[X F]]; auto. right. split; auto. now apply FIN. }
    constructor; cbn [pr_rank pr_out pr_err]; try apply W.
    + rewrite upd_length. apply W.
    + rewrite map_app. now apply NoDup_remove_1 in ND.
    + intros t' I. assert (X : In t' (l1 ++ WC i :: l2)) by (apply in_app_or in I; apply in_or_app; destruct I; [left|right; right]; auto).
      destruct (w_task W _ X) as [LT' TK']. split; auto. destruct t' as [k l z|k]; auto. destruct TK' as (Y1 & bs1 & z1 & R1 & -> & E1 & S1). split; auto. exists bs1, z1. auto.
    + intros k Hk. destruct (Nat.eq_dec k i) as [->|N].
      * exists (y i). split; [apply vget_Ok, vget_upd_eq; lia|]. split; auto.
      * destruct (w_out W Hk) as (v & E & V & T). exists v. split; [apply vget_Ok; rewrite vget_upd_neq by auto; now apply vget_Ok|]. split.
        -- destruct V as [V|[V F]]; auto. right. split; auto. now apply FIN.
        -- intros NI. apply T. intros I. apply NI. rewrite map_app in *. cbn [map tid] in I. apply in_app_or in I. apply in_or_app. destruct I as [I|[I|I]]; auto. congruence.
    + intros k Hk F. apply FIN in F. destruct (w_done W Hk F) as (bs1 & R1 & S1 & E1). exists bs1. auto.
Qed.

(** The state between sweeps. *)
Record between (st : prst) (y : nat -> Q) : Prop := {
  b_len : length (pr_rank st) = L;
  b_olen : length (pr_out st) = n;
  b_rank : forall i, i < n -> nth_error (pr_rank st) i = Some (Some (y i));
  b_out : forall j, j < n -> nth_error (pr_out st) j = Some (odivn (Some (y j)) (degf j))
}.

Lemma pr_sweep_ok sched st : between st a -> exists st' y e, pr_sweep g deg base d sched st = Ok st' /\ between st' y /\ async g degf d a y /\
  pr_err st' = Some e /\ (e == qs n (fun i => Qabs (y i - a i)))%Q.
Proof.
  intros B. unfold pr_sweep. rewrite (@rmap_ok _ _ _ (fun i => RD i (nth i g []) (Some 0%Q))).
  2:{ intros i I. apply in_seq in I. now rewrite (@vget_nth _ g i []) by lia. }
  cbn [bind]. set (ts := map (fun i => RD i (nth i g []) (Some 0%Q)) (seq 0 n)).
  destruct (@run_inv _ _ (pr_step deg base d) pr_size (fun ts st => exists y, sw ts st y) pr_step_ok) with
    (fuel := sum (map pr_size ts) + length ts) (sched := sched) (now := 0) (ts := ts) (s := mkPr (pr_rank st) (pr_out st) (Some 0%Q)) as (st' & E & y & W); auto.
  - exists a. constructor; cbn [pr_rank pr_out pr_err]; try apply B.
    + unfold ts. rewrite map_map. cbn [tid]. rewrite map_id. apply seq_NoDup.
    + intros t I. apply in_map_iff in I. destruct I as (i & <- & I). apply in_seq in I. split; [cbn [tid]; lia|]. split; auto. exists [], 0%Q. split; auto. split; auto.
      split; [reflexivity|]. intros j b [].
    + intros j Hj. exists (a j). split; [now apply B|auto].
    + intros i Hi F. exfalso. eapply F. apply in_map_iff. exists i. split; [reflexivity|]. apply in_seq. lia.
    + exists 0%Q. split; auto. rewrite (@qs_ext n _ (fun _ => 0%Q)); [rewrite qs_const; lra|]. intros i _. setoid_replace (a i - a i)%Q with 0%Q by lra. reflexivity.
  - destruct (w_err W) as (e & EE & EQ). exists st', y, e. split; auto. split; [|split; [|split; auto]].
    + constructor; try apply W. intros j Hj. destruct (w_out W Hj) as (v & EV & _ & T). rewrite T in EV by (intros []). auto.
    + intros i Hi. destruct (w_done W Hi) as (bs & R & S & EB); [intros l z []|]. exists bs. split; auto. split.
      * intros j b I. destruct (S j b I) as [X|[X _]]; auto.
      * exact EB.
Qed.
End Sweep.

(** ** The loop *)
Fixpoint qpow (c : Q) (k : nat) : Q := match k with 0 => 1%Q | S k => (c * qpow c k)%Q end.

Section Loop.
Variables (g : list (list nat)) (deg : list nat) (d thr : Q).
Notation n := (length g).
Notation degf := (fun j => nth j deg 0).
Notation base := ((1 - d) / qn n)%Q.
Notation dist y a := (qs n (fun i => Qabs (y i - a i))%Q).

(** k sweeps from a to y, none of which passes the test of line 144 *)
Inductive sweeps : nat -> (nat -> Q) -> (nat -> Q) -> Prop :=
  | sw_0 a : sweeps 0 a a
  | sw_S k a b y : sweeps k a b -> async g degf d b y -> (thr <= dist y b)%Q -> sweeps (S k) a y.
Definition result (max : nat) (a : nat -> Q) (k : nat) (conv : bool) (y : nat -> Q) : Prop :=
  if conv then exists k' b, k = S k' /\ k <= max /\ sweeps k' a b /\ async g degf d b y /\ (dist y b < thr)%Q
  else k = max /\ sweeps k a y.

Hypothesis IN : pr_input g degf d.
Hypothesis LD : n <= length deg.

Lemma pr_loop_ok sched L : n <= L -> forall todo k st a0 b, between g deg L st b -> sweeps k a0 b ->
  exists out y, pr_loop todo g deg base d thr sched k st = Ok out /\ length (o_rank out) = L /\
    (forall i, i < n -> nth_error (o_rank out) i = Some (Some (y i))) /\ result (k + todo) a0 (o_sweeps out) (o_conv out) y.
Proof.
  intros HL. induction todo as [|m IH]; intros k st a0 b B SW; cbn [pr_loop].
  - exists (mkOut (pr_rank st) k false), b. cbn [o_rank o_sweeps o_conv]. split; auto. split; [apply B|]. split; [apply B|]. cbn [result]. split; auto; lia.
  - destruct (@pr_sweep_ok g deg d IN LD b L HL (sched k) st B) as (st' & y & e & E & B' & AS & EE & EQ). change (qnat n) with (qn n) in *. rewrite E. cbn [bind]. rewrite EE. cbn [oltb].
    destruct (Qle_bool thr e) eqn:T; cbn [negb].
    + apply Qle_bool_iff in T. destruct (IH (S k) st' a0 y B') as (out & y' & E' & LR & RR & RS); [econstructor; eauto; now rewrite <- EQ|].
      exists out, y'. split; auto. split; auto. split; auto. now replace (k + S m) with (S k + m) by lia.
    + exists (mkOut (pr_rank st') (S k) true), y. cbn [o_rank o_sweeps o_conv]. split; auto. split; [apply B'|]. split; [apply B'|]. cbn [result]. exists k, b. repeat split; auto; [lia|].
      rewrite <- EQ. apply Qnot_le_lt. intros X. apply Qle_bool_iff in X. congruence.
Qed.
End Loop.

Lemma init_ranks (v : num) m : forall s (l : list num), s + m <= length l -> exists r, rfold (fun r i => vset r i v) (seq s m) l = Ok r /\ length r = length l /\
  forall i, nth_error r i = if (s <=? i) && (i <? s + m) then Some v else nth_error l i.
Proof.
  induction m as [|m IH]; intros s l H.
  - exists l. split; auto. split; auto. intros i. destruct (Nat.leb_spec s i), (Nat.ltb_spec i (s + 0)); simpl; auto; lia.
  - cbn [seq rfold]. rewrite vset_lt by lia. cbn [bind]. destruct (IH (S s) (upd l s v)) as (r & E & LR & R); [rewrite upd_length; lia|]. exists r. split; auto. rewrite upd_length in LR. split; auto.
    intros i. rewrite R. destruct (Nat.eq_dec i s) as [->|N].
    + replace (S s <=? s) with false by (symmetry; apply Nat.leb_gt; lia). cbn [andb]. replace (s <=? s) with true by (symmetry; apply Nat.leb_le; lia). replace (s <? s + S m) with true by (symmetry; apply Nat.ltb_lt; lia).
      cbn [andb]. apply vget_Ok. apply vget_upd_eq. lia.
    + assert (NE : nth_error (upd l s v) i = nth_error l i).
      { assert (X := @vget_upd_neq _ l s i v ltac:(auto)). unfold vget in X. destruct (nth_error (upd l s v) i), (nth_error l i); congruence. }
      rewrite NE. destruct (Nat.leb_spec (S s) i), (Nat.ltb_spec i (S s + m)), (Nat.leb_spec s i), (Nat.ltb_spec i (s + S m)); simpl; auto; lia.
Qed.

Lemma page_rank_ok g deg d thr max sched ranks : pr_input g (fun j => nth j deg 0) d -> length g <= length deg -> length g <= length ranks ->
  exists out y, page_rank g deg ranks d thr max sched = Ok out /\ length (o_rank out) = length ranks /\
    (forall i, i < length g -> nth_error (o_rank out) i = Some (Some (y i))) /\
    result g deg d thr max (fun _ => (1 / qn (length g))%Q) (o_sweeps out) (o_conv out) y.
Proof.
  intros IN LD LR. unfold page_rank. destruct (@init_ranks (odivn (Some 1%Q) (length g)) (length g) 0 ranks) as (r0 & E0 & L0 & R0); [lia|]. rewrite E0. cbn [bind].
  assert (RV : forall i, i < length g -> nth_error r0 i = Some (Some (1 / qn (length g))%Q)).
  { intros i Hi. rewrite R0. replace (i <? 0 + length g) with true by (symmetry; apply Nat.ltb_lt; lia). cbn [Nat.leb andb]. unfold odivn. destruct (Nat.eqb_spec (length g) 0); [lia|]. reflexivity. }
  rewrite (@rmap_ok _ _ _ (fun i => odivn (Some (1 / qn (length g))%Q) (nth i deg 0))).
  2:{ intros i I. apply in_seq in I. rewrite (proj2 (vget_Ok _ _ _) (RV i ltac:(lia))). cbn [bind]. rewrite (@vget_nth _ deg i 0) by lia. reflexivity. }
  cbn [bind]. apply (@pr_loop_ok g deg d thr IN LD sched (length ranks) LR max 0 _ (fun _ => 1 / qn (length g))%Q (fun _ => 1 / qn (length g))%Q).
  - constructor; cbn [pr_rank pr_out]; auto.
    + now rewrite map_length, seq_length.
    + intros j Hj. rewrite nth_error_map. rewrite (nth_error_nth' _ 0) by (rewrite seq_length; auto). rewrite seq_nth by auto. reflexivity.
  - constructor.
Qed.

(** ** What the loop computes *)
Section Result.
Variables (g : list (list nat)) (deg : list nat) (d thr : Q).
Notation n := (length g).
Notation degf := (fun j => nth j deg 0).
Notation base := ((1 - d) / qn n)%Q.
Notation dist y a := (qs n (fun i => Qabs (y i - a i))%Q).
Notation start := (fun _ : nat => (1 / qn n)%Q).
Hypothesis IN : pr_input g degf d.
Hypothesis D1 : (d < 1)%Q.

Lemma base_1 : (0 <= base)%Q /\ (base <= 1)%Q.
Proof.
  split; [apply (base_nn IN)|]. destruct (Nat.eq_dec n 0) as [E|E].
  - rewrite E. change (qn 0) with 0%Q. unfold Qdiv. change (/ 0)%Q with 0%Q. lra.
  - assert (P := @qn_pos n ltac:(lia)). apply Qle_shift_div_r; auto. assert (X := @qn_le 1 n ltac:(lia)). change (qn 1) with 1%Q in X. assert (Y := pi_d0 IN). lra.
Qed.

Lemma qpow_nn c k : (0 <= c)%Q -> (0 <= qpow c k)%Q.
Proof. intros H. induction k as [|k IH]; cbn [qpow]; [lra|]. apply Qmult_le_0_compat; auto. Qed.
Lemma inv_nn : (0 <= 1 / (1 - d))%Q.
Proof. apply Qle_shift_div_l; lra. Qed.

Lemma sweeps_geometric k y x : sweeps g deg d thr k start y -> pagerank g degf d x ->
  forall i, i < n -> (Qabs (y i - x i) <= (1 / (1 - d)) * qpow (1 - base) k * x i)%Q.
Proof.
  intros SW. remember start as a eqn:EA. induction SW as [a|k a b y SW IH AS T]; intros P i Hi; cbn [qpow].
  - subst a. eapply Qle_trans; [apply (init_error IN D1 P Hi)|]. apply Qle_lteq. right. ring.
  - destruct base_1 as [B0 B1]. assert (X := async_contract IN D1 P AS (c := (1 / (1 - d)) * qpow (1 - base) k)%Q). cbv beta in X.
    eapply Qle_trans; [apply X; auto|].
    + apply Qmult_le_0_compat; [apply inv_nn|]. apply qpow_nn. lra.
    + apply Qle_lteq. right. ring.
Qed.

Lemma result_geometric max k conv y x : result g deg d thr max start k conv y -> pagerank g degf d x ->
  forall i, i < n -> (Qabs (y i - x i) <= (1 / (1 - d)) * qpow (1 - base) k * x i)%Q.
Proof.
  intros R P i Hi. destruct conv.
  - destruct R as (k' & b & -> & _ & SW & AS & _). destruct base_1 as [B0 B1]. cbn [qpow].
    assert (X := async_contract IN D1 P AS (c := (1 / (1 - d)) * qpow (1 - base) k')%Q). cbv beta in X. eapply Qle_trans; [apply X; auto|].
    + apply Qmult_le_0_compat; [apply inv_nn|]. apply qpow_nn. lra.
    + intros j Hj. now apply sweeps_geometric.
    + apply Qle_lteq. right. ring.
  - destruct R as [-> SW]. now apply sweeps_geometric.
Qed.

Lemma geom_sum k y x : (0 < n)%nat -> pagerank g degf d x -> (forall i, i < n -> (Qabs (y i - x i) <= (1 / (1 - d)) * qpow (1 - base) k * x i)%Q) ->
  (dist y x <= (1 / (1 - d)) * qpow (1 - base) k)%Q.
Proof.
  intros N P H. destruct base_1 as [B0 B1]. eapply Qle_trans; [apply qs_le; exact H|]. rewrite qs_mul. assert (S1 := pagerank_sum IN P N).
  assert (C : (0 <= (1 / (1 - d)) * qpow (1 - base) k)%Q) by (apply Qmult_le_0_compat; [apply inv_nn|apply qpow_nn; lra]).
  set (c := ((1 / (1 - d)) * qpow (1 - base) k)%Q) in *. nra.
Qed.

(** A sweep that does not pass the test bounds the threshold. *)
Lemma sweeps_last k y : (0 < n)%nat -> sweeps g deg d thr (S k) start y -> (thr <= (2 / (1 - d)) * qpow (1 - base) k)%Q.
Proof.
  intros N SW. destruct (pagerank_exists IN) as (x & P). inversion SW as [|k' a b y' SW' AS T]; subst.
  assert (G1 := geom_sum k b N P (sweeps_geometric SW' P)). assert (G2 := geom_sum (S k) y N P (sweeps_geometric SW P)). destruct base_1 as [B0 B1].
  assert (TR : (dist y b <= dist y x + dist b x)%Q).
  { rewrite <- qs_add. apply qs_le. intros i Hi. setoid_replace (y i - b i)%Q with ((y i - x i) + (x i - b i))%Q by ring.
    eapply Qle_trans; [apply Qabs_triangle|]. rewrite (Qabs_Qminus (x i) (b i)). apply Qle_refl. }
  cbn [qpow] in G2. assert (Q0 := @qpow_nn (1 - base) k ltac:(lra)). assert (I0 := inv_nn).
  assert (M : ((1 / (1 - d)) * ((1 - base) * qpow (1 - base) k) <= (1 / (1 - d)) * qpow (1 - base) k)%Q).
  { set (i := (1 / (1 - d))%Q) in *. set (q := qpow (1 - base) k) in *. assert (0 <= i * q)%Q by (apply Qmult_le_0_compat; auto). nra. }
  setoid_replace (2 / (1 - d) * qpow (1 - base) k)%Q with (1 / (1 - d) * qpow (1 - base) k + 1 / (1 - d) * qpow (1 - base) k)%Q by (field; lra). lra.
Qed.

Lemma result_stops max m k conv y : (0 < n)%nat -> result g deg d thr max start k conv y -> ((2 / (1 - d)) * qpow (1 - base) m < thr)%Q -> m < max -> conv = true.
Proof.
  intros N R H HM. destruct conv; auto. destruct R as [-> SW]. destruct max as [|k]; [lia|]. assert (X := sweeps_last N SW).
  assert (MON : (qpow (1 - base) k <= qpow (1 - base) m)%Q).
  { clear -HM IN D1. assert (E : exists j, k = m + j) by (exists (k - m); lia). destruct E as (j & ->). destruct base_1 as [B0 B1]. induction j as [|j IH].
    - rewrite Nat.add_0_r. apply Qle_refl.
    - rewrite Nat.add_succ_r. cbn [qpow]. assert (Q0 := @qpow_nn (1 - base) (m + j) ltac:(lra)). specialize (IH ltac:(lia)). nra. }
  exfalso. assert (I0 : (0 <= 2 / (1 - d))%Q) by (apply Qle_shift_div_l; lra). nra.
Qed.

(** Bernoulli: the powers become small. *)
Lemma qpow_bernoulli b k : (0 <= b)%Q -> (b <= 1)%Q -> (qpow (1 - b) k * (1 + qn k * b) <= 1)%Q.
Proof.
  intros B0 B1. induction k as [|k IH].
  - cbn [qpow]. change (qn 0) with 0%Q. lra.
  - cbn [qpow]. rewrite qn_S. assert (Q0 := @qpow_nn (1 - b) k ltac:(lra)). assert (N0 := qn_nn k). set (q := qpow (1 - b) k) in *. set (w := qn k) in *.
    assert (X : ((1 - b) * (1 + (1 + w) * b) <= 1 + w * b)%Q). { assert (0 <= b * b)%Q by nra. assert (0 <= w * (b * b))%Q by nra. lra. }
    assert (Y : (q * ((1 - b) * (1 + (1 + w) * b)) <= q * (1 + w * b))%Q) by nra. lra.
Qed.

Lemma qpow_small b c : (0 < b)%Q -> (b <= 1)%Q -> (0 < c)%Q -> exists m, (qpow (1 - b) m < c)%Q.
Proof.
  intros B0 B1 C. assert (EX : exists m, (1 < qn m * (b * c))%Q).
  { assert (P : (0 < b * c)%Q) by nra. destruct (b * c)%Q as [p q] eqn:E. exists (S (Pos.to_nat q)). unfold qn, Qlt, Qmult, inject_Z in *. cbn [Qnum Qden] in *. nia. }
  destruct EX as (m & H). exists m. assert (X := @qpow_bernoulli b m ltac:(lra) B1). assert (Q0 := @qpow_nn (1 - b) m ltac:(lra)). assert (N0 := qn_nn m).
  apply Qnot_le_lt. intros Y. set (q := qpow (1 - b) m) in *. set (w := qn m) in *. assert (0 <= w * b)%Q by nra. nra.
Qed.

Lemma result_stops_eventually : (0 < thr)%Q -> exists m, forall max k conv y, m <= max -> result g deg d thr max start k conv y -> conv = true /\ k <= m.
Proof.
  intros T. destruct (Nat.eq_dec n 0) as [E|E].
  - exists 1. intros max k conv y HM R. destruct conv.
    + destruct R as (k' & b & -> & _ & SW & AS & _). split; auto. inversion SW; subst; [lia|]. exfalso. rewrite E in *. change (qs 0 (fun i => Qabs (b i - b0 i)))%Q with 0%Q in *. lra.
    + destruct R as [-> SW]. inversion SW; subst; [lia|]. exfalso. rewrite E in *. change (qs 0 (fun i => Qabs (y i - b i)))%Q with 0%Q in *. lra.
  - destruct base_1 as [B0 B1]. assert (BP : (0 < base)%Q) by (apply Qlt_shift_div_l; [apply qn_pos; lia|lra]).
    assert (CP : (0 < thr * (1 - d) / 2)%Q) by (apply Qlt_shift_div_l; [lra|]; nra).
    destruct (@qpow_small base (thr * (1 - d) / 2)%Q BP B1 CP) as (m & H). exists (S m).
    assert (H2 : ((2 / (1 - d)) * qpow (1 - base) m < thr)%Q).
    { setoid_replace thr with ((2 / (1 - d)) * (thr * (1 - d) / 2))%Q at 1 by (field; lra). assert (I0 : (0 < 2 / (1 - d))%Q) by (apply Qlt_shift_div_l; lra). apply Qmult_lt_l; auto. }
    intros max k conv y HM R. assert (N : 0 < n) by lia. assert (CV := @result_stops max m k conv y N R H2 HM). split; auto. subst conv. destruct R as (k' & b & -> & _ & SW & _).
    destruct (Nat.lt_ge_cases k' (S m)) as [|G]; [lia|]. exfalso.
    assert (R' : result g deg d thr k' start k' false b) by (split; auto). assert (X := @result_stops k' m k' false b N R' H2 G). discriminate X.
Qed.
End Result.

(** ** The mass of the solution *)
Lemma pagerank_mass g deg d x : pr_input g deg d -> (0 < length g)%nat -> pagerank g deg d x ->
  (qs (length g) x == (1 - d) + d * qs (length g) (fun j => qn (occ g j) * (x j / qn (deg j))))%Q.
Proof.
  intros IN N P. rewrite (@qs_ext (length g) x (fun i => (1 - d) / qn (length g) + d * qsum (map (share x deg) (nth i g [])))%Q) by (intros i Hi; apply P; auto).
  rewrite qs_add, qs_mul, (@qs_base g d N). rewrite (@qs_rows g (share x deg) (pi_tgt IN)). reflexivity.
Qed.

(** ** A vertex of degree zero that occurs in a row *)
Section Zero.
Variables (g : list (list nat)) (deg : list nat) (base d : Q).
Notation n := (length g).
Hypothesis TG : forall i j, In j (nth i g []) -> j < n.
Hypothesis LD : n <= length deg.
Variables (i0 j0 L : nat).
Hypothesis HL : n <= L.
Hypothesis HI : i0 < n.
Hypothesis HJ : In j0 (nth i0 g []).
Hypothesis DZ : nth j0 deg 0 = 0.

Record zw (ts : list prtask) (st : prst) : Prop := {
  z_len : length (pr_rank st) = L;
  z_olen : length (pr_out st) = n;
  z_task : forall t, In t ts -> match t with RD i l z => i < n /\ (forall j, In j l -> j < n) | WC i => i < n end;
  z_out : nth_error (pr_out st) j0 = Some None;
  z_bad : (exists l z, In (RD i0 l z) ts /\ (In j0 l \/ z = None)) \/ (nth_error (pr_rank st) i0 = Some None /\ pr_err st = None /\ forall l z, ~ In (RD i0 l z) ts);
  z_uniq : forall l z, In (RD i0 l z) ts -> In j0 l \/ z = None
}.
Lemma olift2_None f x : olift2 f x None = None. Proof. now destruct x. Qed.
Lemma odivn_0 p : odivn p 0 = None. Proof. now destruct p. Qed.

Lemma zstep_ok l1 t l2 st : zw (l1 ++ t :: l2) st -> NoDup (map tid (l1 ++ t :: l2)) ->
  exists o st', pr_step deg base d t st = Ok (o, st') /\ (zw (l1 ++ opt_list o ++ l2) st' /\ NoDup (map tid (l1 ++ opt_list o ++ l2))) /\ match o with Some t' => pr_size t' < pr_size t | None => True end.
Proof.
  intros W ND. assert (IT : In t (l1 ++ t :: l2)) by (apply in_or_app; right; now left). assert (TK := z_task W t IT).
  assert (OTHER : forall t' o, In t' (l1 ++ o ++ l2) -> ~ In t' o -> In t' (l1 ++ t :: l2)).
  { intros t' o I NI. rewrite !in_app_iff in *. simpl. tauto. }
  assert (UNQ : forall l z, tid t = i0 -> In (RD i0 l z) (l1 ++ l2) -> False).
  { intros l z E I. rewrite map_app in ND. cbn [map] in ND. apply NoDup_remove_2 in ND. apply ND. rewrite E, <- map_app. apply in_map_iff. exists (RD i0 l z). auto. }
  destruct t as [i [|j l] z|i]; cbn [pr_step].
  - destruct TK as [Li _]. assert (LR := z_len W). rewrite (@vget_nth _ _ i None) by lia. cbn [bind]. rewrite vset_lt by lia. cbn [bind].
    eexists _, _. split; [reflexivity|]. split; [|cbn [pr_size length]; lia]. cbn [opt_list]. split; [|rewrite map_app in *; cbn [map tid app] in *; exact ND].
    constructor; cbn [pr_rank pr_out pr_err]; [now rewrite upd_length|apply W| |apply W| |].
    + intros t' I. rewrite !in_app_iff in I. simpl in I. assert (Z := z_task W). destruct I as [I|[[<-|[]]|I]]; auto; [apply (Z t')|apply (Z t')]; apply in_or_app; simpl; auto.
    + destruct (Nat.eq_dec i i0) as [->|NE].
      * right. assert (ZN : z = None) by (destruct (z_uniq W _ _ IT) as [[]|]; auto). subst z. rewrite olift2_None. cbn [olift2]. split; [apply vget_Ok, vget_upd_eq; lia|]. split; [apply olift2_None|].
        intros l z I. rewrite !in_app_iff in I. simpl in I. apply (UNQ l z eq_refl). apply in_or_app. destruct I as [I|[[I|[]]|I]]; auto. discriminate I.
      * destruct (z_bad W) as [(l & z1 & I & X)|(X & Y & Z)].
        -- left. exists l, z1. split; auto. rewrite in_app_iff in *. simpl in *. destruct I as [I|[I|I]]; auto. congruence.
        -- right. split; [apply vget_Ok; rewrite vget_upd_neq by auto; now apply vget_Ok|]. split; [now rewrite Y|]. intros l z1 I. apply (Z l z1). apply (OTHER _ [WC i]); auto. intros [E|[]]. discriminate E.
    + intros l z1 I. apply (z_uniq W). apply (OTHER _ [WC i]); auto. intros [E|[]]. discriminate E.
  - destruct TK as [Li TL]. assert (LO := z_olen W). assert (Lj := TL j (or_introl eq_refl)). rewrite (@vget_nth _ _ j None) by lia. cbn [bind]. set (c := nth j (pr_out st) None).
    eexists _, st. split; [reflexivity|]. split; [|cbn [pr_size length]; lia]. cbn [opt_list]. split; [|rewrite map_app in *; cbn [map tid app] in *; exact ND].
    assert (BAD : i = i0 -> In j0 l \/ olift2 Qplus z c = None).
    { intros ->. destruct (z_uniq W _ _ IT) as [[->|I]| ->]; auto. right. assert (c = None) as ->; [|apply olift2_None]. unfold c. assert (X := z_out W). now apply nth_error_nth. }
    constructor; try apply W.
    + intros t' I. rewrite !in_app_iff in I. simpl in I. assert (Z := z_task W). destruct I as [I|[[<-|[]]|I]]; [apply (Z t')|split; auto; intros k K; apply TL; now right|apply (Z t')]; apply in_or_app; simpl; auto.
    + destruct (Nat.eq_dec i i0) as [->|NE].
      * left. exists l, (olift2 Qplus z c). split; auto. rewrite !in_app_iff. simpl. auto.
      * destruct (z_bad W) as [(l' & z1 & I & X)|(X & Y & Z)].
        -- left. exists l', z1. split; auto. rewrite in_app_iff in *. simpl in *. destruct I as [I|[I|I]]; auto. congruence.
        -- right. split; auto. split; auto. intros l' z1 I. apply (Z l' z1). apply (OTHER _ [RD i l (olift2 Qplus z c)]); auto. intros [E|[]]. congruence.
    + intros l' z1 I. rewrite !in_app_iff in I. simpl in I. destruct I as [I|[[I|[]]|I]]; [apply (z_uniq W); apply in_or_app; auto| |apply (z_uniq W); apply in_or_app; simpl; auto]. injection I as -> <- <-. auto.
  - assert (LR := z_len W). assert (LO := z_olen W). rewrite (@vget_nth _ _ i None) by lia. cbn [bind]. rewrite (@vget_nth _ deg i 0) by lia. cbn [bind]. rewrite vset_lt by lia. cbn [bind].
    eexists _, _. split; [reflexivity|]. split; auto. cbn [opt_list app]. split; [|rewrite map_app in *; cbn [map tid] in ND; now apply NoDup_remove_1 in ND].
    assert (OT : forall t', In t' (l1 ++ l2) -> In t' (l1 ++ WC i :: l2)) by (intros t'; rewrite !in_app_iff; simpl; tauto).
    constructor; cbn [pr_rank pr_out pr_err]; try apply W.
    + now rewrite upd_length.
    + intros t' I. apply (z_task W t'). auto.
    + destruct (Nat.eq_dec i j0) as [->|NE].
      * rewrite DZ, odivn_0. apply vget_Ok, vget_upd_eq. lia.
      * apply vget_Ok. rewrite vget_upd_neq by auto. apply vget_Ok. apply W.
    + destruct (z_bad W) as [(l' & z1 & I & X)|(X & Y & Z)].
      * left. exists l', z1. split; auto. rewrite in_app_iff in *. simpl in *. destruct I as [I|[I|I]]; auto. discriminate I.
      * right. split; auto. split; auto. intros l' z1 I. apply (Z l' z1). auto.
    + intros l' z1 I. apply (z_uniq W). auto.
Qed.

Lemma zsweep_ok sched st : length (pr_rank st) = L -> length (pr_out st) = n -> nth_error (pr_out st) j0 = Some None ->
  exists st', pr_sweep g deg base d sched st = Ok st' /\ length (pr_rank st') = L /\ length (pr_out st') = n /\ nth_error (pr_out st') j0 = Some None /\
    nth_error (pr_rank st') i0 = Some None /\ pr_err st' = None.
Proof.
  intros LR LO ZO. unfold pr_sweep. rewrite (@rmap_ok _ _ _ (fun i => RD i (nth i g []) (Some 0%Q))).
  2:{ intros i I. apply in_seq in I. now rewrite (@vget_nth _ g i []) by lia. }
  cbn [bind]. set (ts := map (fun i => RD i (nth i g []) (Some 0%Q)) (seq 0 n)).
  destruct (@run_inv _ _ (pr_step deg base d) pr_size (fun ts st => zw ts st /\ NoDup (map tid ts))) with
    (fuel := sum (map pr_size ts) + length ts) (sched := sched) (now := 0) (ts := ts) (s := mkPr (pr_rank st) (pr_out st) (Some 0%Q)) as (st' & E & W & _); auto.
  - intros l1 t l2 s [W ND]. now apply zstep_ok.
  - split; [|unfold ts; rewrite map_map; cbn [tid]; rewrite map_id; apply seq_NoDup]. constructor; cbn [pr_rank pr_out pr_err]; auto.
    + intros t I. apply in_map_iff in I. destruct I as (i & <- & I). apply in_seq in I. split; [lia|]. intros j Ij. eapply TG; eauto.
    + left. exists (nth i0 g []), (Some 0%Q). split; auto. apply in_map_iff. exists i0. split; auto. apply in_seq. lia.
    + intros l z I. apply in_map_iff in I. destruct I as (i & X & I). injection X as -> <- <-. auto.
  - exists st'. split; auto. split; [apply W|]. split; [apply W|]. split; [apply W|]. destruct (z_bad W) as [(l & z & [] & _)|(X & Y & _)]. auto.
Qed.

Lemma zloop_ok thr sched : forall todo k st, length (pr_rank st) = L -> length (pr_out st) = n -> nth_error (pr_out st) j0 = Some None -> (k = 0 \/ nth_error (pr_rank st) i0 = Some None) ->
  exists out, pr_loop todo g deg base d thr sched k st = Ok out /\ o_sweeps out = k + todo /\ o_conv out = false /\ (0 < k + todo -> nth_error (o_rank out) i0 = Some None).
Proof.
  induction todo as [|m IH]; intros k st LR LO ZO ZR; cbn [pr_loop].
  - eexists. split; [reflexivity|]. cbn [o_sweeps o_conv o_rank]. split; [lia|]. split; auto. intros. destruct ZR; auto; lia.
  - destruct (@zsweep_ok (sched k) st LR LO ZO) as (st' & E & A & B & C & D & F). rewrite E. cbn [bind]. rewrite F. cbn [oltb]. destruct (IH (S k) st' A B C (or_intror D)) as (out & EO & SW & CV & RK).
    exists out. split; auto. split; [lia|]. split; auto. intros _. apply RK. lia.
Qed.
End Zero.

Lemma page_rank_zero g deg d thr max sched ranks i j : (forall i j, In j (nth i g []) -> j < length g) -> length g <= length deg -> length g <= length ranks ->
  In j (nth i g []) -> nth j deg 0 = 0 ->
  exists out, page_rank g deg ranks d thr max sched = Ok out /\ o_sweeps out = max /\ o_conv out = false /\ (0 < max -> nth_error (o_rank out) i = Some None).
Proof.
  intros TG LD LR IJ DZ. unfold page_rank. destruct (@init_ranks (odivn (Some 1%Q) (length g)) (length g) 0 ranks) as (r0 & E0 & L0 & R0); [lia|]. rewrite E0. cbn [bind].
  rewrite (@rmap_ok _ _ _ (fun i => odivn (nth i r0 None) (nth i deg 0))).
  2:{ intros k I. apply in_seq in I. rewrite (@vget_nth _ r0 k None) by lia. cbn [bind]. rewrite (@vget_nth _ deg k 0) by lia. reflexivity. }
  cbn [bind]. assert (Li : i < length g) by (destruct (Nat.lt_ge_cases i (length g)); auto; rewrite nth_overflow in IJ by auto; destruct IJ).
  apply (@zloop_ok g deg _ d TG LD i j (length ranks) LR Li IJ DZ thr sched max 0); cbn [pr_rank pr_out]; auto.
  - now rewrite map_length, seq_length.
  - assert (Lj := TG _ _ IJ). rewrite nth_error_map. rewrite (nth_error_nth' _ 0) by (rewrite seq_length; auto). rewrite seq_nth by auto. cbn [option_map Nat.add]. now rewrite DZ, odivn_0.
Qed.

(** ** Undefined behaviour *)
(** An invariant that no empty pool satisfies, when each step keeps it or is undefined. *)
Lemma run_ub (T St : Type) (step : T -> St -> res (option T * St)) (size : T -> nat) (I : list T -> St -> Prop) :
  (forall s, ~ I [] s) ->
  (forall l1 t l2 s, I (l1 ++ t :: l2) s -> step t s = Ub \/ exists o s', step t s = Ok (o, s') /\ I (l1 ++ opt_list o ++ l2) s' /\ match o with Some t' => size t' < size t | None => True end) ->
  forall fuel sched now ts s, I ts s -> sum (map size ts) + length ts <= fuel -> run step fuel sched now ts s = Ub.
Proof.
  intros NE ST. induction fuel as [|f IH]; intros sched now ts s H HF; (destruct ts as [|t0 ts0]; [exfalso; eapply NE; eauto|]).
  - simpl in HF. lia.
  - cbn [run]. set (ts := t0 :: ts0) in *. set (i := sched now mod length ts). assert (Hi : i < length ts) by (apply Nat.mod_upper_bound; discriminate).
    destruct (nth_error ts i) as [t|] eqn:Et; [|apply nth_error_None in Et; lia].
    assert (SP : ts = firstn i ts ++ t :: skipn (S i) ts).
    { rewrite <- (firstn_skipn i ts) at 1. f_equal. clear -Et. clearbody i ts. revert i Et. induction ts as [|u ts IH]; intros [|i] Et; simpl in *; try discriminate; [congruence|auto]. }
    rewrite (proj2 (vget_Ok _ _ _) Et). cbn [bind]. rewrite SP in H. destruct (ST _ _ _ _ H) as [E|(o & s' & E & H' & SZ)]; rewrite E; cbn [bind]; auto.
    apply IH; auto. cbn [fst]. rewrite SP in HF. rewrite !map_app, !sum_app, !app_length in *. cbn [map length] in *. destruct o as [t'|]; cbn [opt_list map length] in *; simpl in *; lia.
Qed.

Lemma pr_step_cases deg base d t st : pr_step deg base d t st = Ub \/ exists o st', pr_step deg base d t st = Ok (o, st') /\ length (pr_out st') = length (pr_out st) /\
  match o with Some t' => pr_size t' < pr_size t | None => True end.
Proof.
  destruct t as [i [|j l] z|i]; cbn [pr_step].
  - destruct (vget (pr_rank st) i) eqn:E1; cbn [bind]; auto; [|unfold vget in E1; destruct (nth_error (pr_rank st) i); discriminate].
    unfold vset. destruct (i <? length (pr_rank st)); cbn [bind]; auto. right. eexists _, _. split; [reflexivity|]. split; [reflexivity|]. cbn [pr_size length]. lia.
  - destruct (vget (pr_out st) j) eqn:E1; cbn [bind]; auto; [|unfold vget in E1; destruct (nth_error (pr_out st) j); discriminate].
    right. eexists _, _. split; [reflexivity|]. split; [reflexivity|]. cbn [pr_size length]. lia.
  - destruct (vget (pr_rank st) i) eqn:E1; cbn [bind]; auto; [|unfold vget in E1; destruct (nth_error (pr_rank st) i); discriminate].
    destruct (vget deg i) eqn:E2; cbn [bind]; auto; [|unfold vget in E2; destruct (nth_error deg i); discriminate].
    unfold vset. destruct (i <? length (pr_out st)); cbn [bind]; auto. right. eexists _, _. split; [reflexivity|]. split; [|exact I]. cbn [pr_out]. now rewrite upd_length.
Qed.

Lemma pr_sweep_ub g deg base d sched st i j : length (pr_out st) = length g -> In j (nth i g []) -> length g <= j -> pr_sweep g deg base d sched st = Ub.
Proof.
  intros LO IJ GJ. unfold pr_sweep. rewrite (@rmap_ok _ _ _ (fun i => RD i (nth i g []) (Some 0%Q))).
  2:{ intros k I. apply in_seq in I. now rewrite (@vget_nth _ g k []) by lia. }
  cbn [bind]. assert (Li : i < length g) by (destruct (Nat.lt_ge_cases i (length g)); auto; rewrite nth_overflow in IJ by auto; destruct IJ).
  apply (@run_ub _ _ (pr_step deg base d) pr_size (fun ts st => length (pr_out st) = length g /\ exists l z, In (RD i l z) ts /\ In j l)); auto.
  - intros s (_ & l & z & [] & _).
  - intros l1 t l2 s (LS & l & z & I & IL). destruct (pr_step_cases deg base d t s) as [E|(o & s' & E & LS' & SZ)]; auto.
    apply in_app_or in I. destruct I as [I|[I|I]].
    2:{ subst t. destruct l as [|j' l]; [destruct IL|]. cbn [pr_step] in *. destruct IL as [->|IL].
        - left. unfold vget. destruct (nth_error (pr_out s) j) eqn:X; auto. assert (Y : j < length (pr_out s)) by (apply nth_error_Some; congruence). lia.
        - right. exists o, s'. split; auto. split; auto. split; [congruence|]. destruct (vget (pr_out s) j') eqn:EV; cbn [bind] in E; try discriminate E. injection E as <- <-. cbn [opt_list].
          eexists l, _. split; [apply in_or_app; right; left; reflexivity|auto]. }
    all: right; exists o, s'; split; auto; split; auto; split; [congruence|]; exists l, z; split; auto; rewrite !in_app_iff; auto.
  - cbn [pr_out]. split; auto. exists (nth i g []), (Some 0%Q). split; auto. apply in_map_iff. exists i. split; auto. apply in_seq. lia.
Qed.

Lemma rfold_vset_ub (v : num) : forall m s (l : list num), s <= length l -> length l < s + m -> rfold (fun r i => vset r i v) (seq s m) l = Ub.
Proof.
  induction m as [|m IH]; intros s l H H'; [lia|]. cbn [seq rfold]. unfold vset at 1. destruct (Nat.ltb_spec s (length l)); cbn [bind]; auto. apply IH; rewrite upd_length; lia.
Qed.

Lemma page_rank_ub g deg d thr max sched ranks :
  length ranks < length g \/ length deg < length g \/ (0 < max /\ exists i j, In j (nth i g []) /\ length g <= j) -> page_rank g deg ranks d thr max sched = Ub.
Proof.
  intros H. unfold page_rank. destruct (Nat.lt_ge_cases (length ranks) (length g)) as [HR|HR]; [rewrite rfold_vset_ub by lia; reflexivity|].
  destruct (@init_ranks (odivn (Some 1%Q) (length g)) (length g) 0 ranks) as (r0 & E0 & L0 & R0); [lia|]. rewrite E0. cbn [bind].
  destruct (Nat.lt_ge_cases (length deg) (length g)) as [HD|HD].
  - assert (X : forall m s, s <= length deg -> length deg < s + m -> s + m <= length r0 -> rmap (fun i => do p <- vget r0 i ; do k <- vget deg i ; Ok (odivn p k)) (seq s m) = Ub).
    { induction m as [|m IH]; intros s A B C; [lia|]. cbn [seq rmap]. rewrite (@vget_nth _ r0 s None) by lia. cbn [bind]. destruct (Nat.eq_dec s (length deg)) as [->|N].
      - unfold vget at 1. rewrite (proj2 (nth_error_None deg (length deg))) by lia. reflexivity.
      - rewrite (@vget_nth _ deg s 0) by lia. cbn [bind]. rewrite IH by lia. reflexivity. }
    rewrite X by lia. reflexivity.
  - destruct H as [H|[H|(HM & i & j & IJ & GJ)]]; try lia. rewrite (@rmap_ok _ _ _ (fun i => odivn (nth i r0 None) (nth i deg 0))).
    2:{ intros k I. apply in_seq in I. rewrite (@vget_nth _ r0 k None) by lia. cbn [bind]. rewrite (@vget_nth _ deg k 0) by lia. reflexivity. }
    cbn [bind]. destruct max as [|m]; [lia|]. cbn [pr_loop]. erewrite pr_sweep_ub; eauto. cbn [pr_out]. now rewrite map_length, seq_length.
Qed.
