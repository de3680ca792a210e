(** Ranks and heights of the free-function union-find. *)
From Coq Require Import List Arith ZArith Lia Bool.
From Verif Require Import Base ConnLib DsuModel DsuProofs.
Import ListNotations.
Set Implicit Arguments.

Definition rk (s : dsu) (v : nat) : nat := snd (nth v s (v, 0)).

Lemma entry_eq s v : v < length s -> nth_error s v = Some (dp s v, rk s v).
Proof. intros H. rewrite (nth_error_nth' s (v, 0) H). unfold dp, rk. now destruct (nth v s (v, 0)). Qed.
Lemma vget_entry s v : v < length s -> vget s v = Ok (dp s v, rk s v).
Proof. intros H. apply vget_Ok. now apply entry_eq. Qed.

Lemma set_first_eq s v p : v < length s -> dsu_set_first s v p = Ok (upd s v (p, rk s v)).
Proof. intros H. unfold dsu_set_first. rewrite vget_entry by auto. cbn [bind snd]. apply vset_lt. auto. Qed.
Lemma second_eq s v : v < length s -> dsu_second s v = Ok (rk s v).
Proof. intros H. unfold dsu_second. now rewrite vget_entry. Qed.
Lemma inc_second_eq s v : v < length s -> dsu_inc_second s v = Ok (upd s v (dp s v, rk s v + 1)).
Proof. intros H. unfold dsu_inc_second. rewrite vget_entry by auto. cbn [bind fst snd]. apply vset_lt. auto. Qed.

Lemma dp_upd s v p k y : v < length s -> dp (upd s v (p, k)) y = if y =? v then p else dp s y.
Proof. intros H. unfold dp. rewrite nth_upd by auto. now destruct (y =? v). Qed.
Lemma rk_upd s v p k y : v < length s -> rk (upd s v (p, k)) y = if y =? v then k else rk s y.
Proof. intros H. unfold rk. rewrite nth_upd by auto. now destruct (y =? v). Qed.

Lemma upd_same s v : v < length s -> upd s v (dp s v, rk s v) = s.
Proof.
  intros H. apply nth_ext_default with (d := (0, 0)); [apply upd_length|].
  intros i Hi. rewrite upd_length in Hi. rewrite nth_upd by auto. destruct (Nat.eqb_spec i v); [|auto]. subst.
  generalize (entry_eq s H). intros E. apply nth_error_nth with (d := (0, 0)) in E. now rewrite E.
Qed.

(** The whole effect of disjoint_find: the entry of the parent of the argument is redirected to the root. *)
Lemma find_effect n s v k r : length s = n -> forest n (dp s) -> v < n -> up (dp s) k v r ->
  disjoint_find s v = Ok (r, upd s (dp s v) (r, rk s (dp s v))).
Proof.
  intros L F Hv U. assert (C := proj1 F). assert (B := up_bound C Hv U).
  unfold disjoint_find. rewrite dsu_first_ok by lia. cbn [bind].
  assert (Q : exists k', up (dp s) k' (dp s v) r /\ k' <= k).
  { inversion U; subst; [exists 0; rewrite H; split; auto|]. exists k0. split; auto. }
  destruct Q as (k' & U' & Hk). rewrite (@dfind_loop_ok n s L C k' (dp s v) r) by (auto; lia). cbn [bind].
  assert (Hp : dp s v < length s) by (rewrite L; apply C; auto).
  assert (Hr : r < length s) by (rewrite L; eapply up_end_lt; eauto).
  assert (Er := up_end U).
  replace (dcompress (length s) s v r) with (Ok (upd s (dp s v) (r, rk s (dp s v)))); [reflexivity|]. symmetry.
  destruct (length s) as [|m] eqn:Lm; [lia|]. cbn [dcompress].
  destruct (Nat.eqb_spec v r) as [->|NE].
  - rewrite Er. rewrite <- Er at 2. rewrite upd_same by lia. reflexivity.
  - rewrite dsu_first_ok by lia. cbn [bind]. rewrite set_first_eq by lia. cbn [bind].
    set (s1 := upd s (dp s v) (r, rk s (dp s v))).
    assert (L1 : length s1 = n) by (unfold s1; rewrite upd_length; lia).
    destruct m as [|m].
    + cbn [dcompress]. destruct (Nat.eqb_spec (dp s v) r); auto. lia.
    + cbn [dcompress]. destruct (Nat.eqb_spec (dp s v) r) as [|N2]; auto.
      rewrite dsu_first_ok by lia. cbn [bind]. 
      assert (D1 : dp s1 (dp s v) = r) by (unfold s1; rewrite dp_upd by lia; now rewrite Nat.eqb_refl).
      assert (D2 : dp s1 r = r).
      { unfold s1. rewrite dp_upd by lia. destruct (Nat.eqb_spec r (dp s v)); auto. }
      rewrite D1. rewrite set_first_eq by lia. cbn [bind]. rewrite <- D2 at 2. rewrite upd_same by lia.
      destruct m; cbn [dcompress]; rewrite Nat.eqb_refl; reflexivity.
Qed.

(** * The rank invariant *)
Definition ranked (n : nat) (s : dsu) : Prop :=
  (forall v, v < n -> dp s v <> v -> rk s v < rk s (dp s v)) /\
  (forall rt, root_fun n (dp s) rt -> forall r, r < n -> dp s r = r -> 2 ^ rk s r <= count_root n rt r).

Lemma ranked_up n s : ranked n s -> closed n (dp s) -> forall k v r, up (dp s) k v r -> v < n -> rk s v + k <= rk s r.
Proof.
  intros [R _] C. induction 1; intros Hv; [lia|]. 
  assert (X := R v Hv H). specialize (IHup (C v Hv)). lia.
Qed.

Lemma ranked_find n s es v r s' : length s = n -> represents n (dp s) es -> ranked n s -> v < n ->
  disjoint_find s v = Ok (r, s') -> ranked n s'.
Proof.
  intros L RP RK Hv E. destruct (disjoint_find_ok L RP Hv) as (r0 & s0 & E0 & L0 & [k U] & K & R0).
  rewrite E in E0. injection E0 as <- <-.
  assert (F := proj1 RP). assert (C := proj1 F). rewrite (@find_effect n s v k r) in E by auto. injection E as E.
  assert (Hp : dp s v < length s) by (rewrite L; apply C; auto).
  assert (DD : forall y, dp s' y = if y =? dp s v then r else dp s y) by (intros; rewrite <- E; now apply dp_upd).
  assert (RR : forall y, rk s' y = rk s y).
  { intros. rewrite <- E. rewrite rk_upd by auto. destruct (Nat.eqb_spec y (dp s v)); subst; auto. }
  assert (Ur : exists k', up (dp s) k' (dp s v) r).
  { inversion U; subst; [rewrite H; eauto|eauto]. }
  destruct Ur as [k' Ur].
  split.
  - intros x Hx. rewrite DD, !RR. destruct (Nat.eqb_spec x (dp s v)) as [->|N].
    + intros N. assert (X := ranked_up RK C Ur Hx). inversion Ur; subst; [congruence|]. lia.
    + intros N2. now apply RK.
  - intros rt RT q Hq. rewrite RR. intros Dq.
    assert (Hs : dp s q = q).
    { rewrite DD in Dq. destruct (Nat.eqb_spec q (dp s v)); auto. subst. apply (up_end U). }
    apply RK; auto. intros x Hx. destruct (proj2 F x Hx) as (kx & qx & Ux). exists kx.
    destruct (K _ _ _ Hx Ux) as [k2 U2]. destruct (RT x Hx) as [k3 U3].
    destruct (up_fun U2 U3) as [_ <-]. auto.
Qed.

Lemma count_root_rt n p rt rt' r : root_fun n p rt -> root_fun n p rt' -> count_root n rt r = count_root n rt' r.
Proof. intros A B. apply count_root_ext. apply (root_fun_eq A B). Qed.

(** Root [a] under root [b], with the rank of [b] not lowered and raised by at most what the size pays for. *)
Lemma ranked_link n s s' a b : length s = n -> forest n (dp s) -> ranked n s -> a < n -> b < n -> a <> b ->
  dp s a = a -> dp s b = b -> (forall y, dp s' y = if y =? a then b else dp s y) ->
  (forall y, y <> b -> rk s' y = rk s y) -> rk s a < rk s' b -> rk s b <= rk s' b ->
  (rk s' b = rk s b \/ rk s' b = rk s b + 1 /\ rk s a = rk s b) -> ranked n s'.
Proof.
  intros L F [R1 R2] Ha Hb N Da Db DD RR Lt Le Cs. split.
  - intros x Hx. rewrite DD. destruct (Nat.eqb_spec x a) as [->|Nx].
    + intros _. rewrite (RR a) by auto. auto.
    + intros Nd. assert (X := R1 x Hx Nd). destruct (Nat.eq_dec x b) as [->|Nb]; [congruence|].
      rewrite (RR x) by auto. destruct (Nat.eq_dec (dp s x) b) as [Eb|Nb']; [rewrite Eb in *; lia|].
      rewrite (RR (dp s x)); auto.
  - intros rt RT q Hq Dq. destruct (root_fun_exists F) as [rt0 RT0].
    assert (Hd : dp s' a = b) by (rewrite DD, Nat.eqb_refl; auto).
    assert (Ho : forall y, y <> a -> dp s' y = dp s y).
    { intros y Ny. rewrite DD. destruct (Nat.eqb_spec y a); congruence. }
    assert (RT1 : root_fun n (dp s') (fun x => if rt0 x =? a then b else rt0 x)).
    { intros x Hx. destruct (RT0 x Hx) as [k U]. apply (@link_roots (dp s) (dp s') a b Da Db (not_eq_sym N) Hd Ho _ _ _ U). }
    rewrite (count_root_rt q RT RT1).
    assert (Nq : q <> a) by (intros ->; congruence).
    assert (Dsq : dp s q = q) by (rewrite <- (Ho q Nq); auto).
    destruct (Nat.eq_dec q b) as [->|Nb].
    + rewrite count_root_link by auto. assert (A1 := R2 rt0 RT0 a Ha Da). assert (B1 := R2 rt0 RT0 b Hb Db).
      destruct Cs as [-> | [-> Eab]]; [lia|]. rewrite Nat.add_1_r, Nat.pow_succ_r'. rewrite Eab in A1. lia.
    + rewrite count_root_other by auto. rewrite RR by auto. apply R2; auto.
Qed.

Lemma ranked_dsu_link n s s' es a b : length s = n -> represents n (dp s) es -> ranked n s -> a < n -> b < n -> a <> b ->
  dp s a = a -> dp s b = b -> dsu_link s a b = Ok s' -> ranked n s'.
Proof.
  intros L RP RK Ha Hb N Da Db. assert (F := proj1 RP). unfold dsu_link. rewrite !second_eq by lia. cbn [bind].
  destruct (Nat.ltb_spec (rk s a) (rk s b)) as [H1|H1]; [|destruct (Nat.ltb_spec (rk s b) (rk s a)) as [H2|H2]].
  - rewrite set_first_eq by lia. intros [= <-].
    apply (@ranked_link n s _ a b); auto; try (intros; apply dp_upd; lia); rewrite ?rk_upd by lia.
    + intros y _. rewrite rk_upd by lia. destruct (Nat.eqb_spec y a); subst; auto.
    + destruct (Nat.eqb_spec b a); lia.
    + destruct (Nat.eqb_spec b a); lia.
    + destruct (Nat.eqb_spec b a); lia.
  - rewrite set_first_eq by lia. intros [= <-].
    apply (@ranked_link n s _ b a); auto; try (intros; apply dp_upd; lia); rewrite ?rk_upd by lia.
    + intros y _. rewrite rk_upd by lia. destruct (Nat.eqb_spec y b); subst; auto.
    + destruct (Nat.eqb_spec a b); lia.
    + destruct (Nat.eqb_spec a b); lia.
    + destruct (Nat.eqb_spec a b); lia.
  - rewrite set_first_eq by lia. cbn [bind]. rewrite inc_second_eq by (rewrite upd_length; lia). intros [= <-].
    assert (EQ : rk s a = rk s b) by lia.
    assert (L1 : length (upd s b (a, rk s b)) = n) by (rewrite upd_length; auto).
    assert (K1 : forall y, rk (upd s b (a, rk s b)) y = rk s y).
    { intros y. rewrite rk_upd by lia. destruct (Nat.eqb_spec y b); subst; auto. }
    assert (D1 : forall y, dp (upd s b (a, rk s b)) y = if y =? b then a else dp s y) by (intros; apply dp_upd; lia).
    apply (@ranked_link n s _ b a); auto.
    + intros y. rewrite dp_upd by lia. rewrite !D1. destruct (Nat.eqb_spec y a); auto. subst.
      destruct (Nat.eqb_spec a b); congruence.
    + intros y Ny. rewrite rk_upd by lia. destruct (Nat.eqb_spec y a); [congruence|]. auto.
    + rewrite rk_upd by lia. rewrite Nat.eqb_refl, K1. lia.
    + rewrite rk_upd by lia. rewrite Nat.eqb_refl, K1. lia.
    + rewrite rk_upd by lia. rewrite Nat.eqb_refl, K1. lia.
Qed.

Lemma ranked_init n : ranked n (dsu_init n).
Proof.
  assert (D : forall v, dp (dsu_init n) v = v).
  { intros v. unfold dp, dsu_init. destruct (Nat.lt_ge_cases v n).
    - now rewrite nth_map_seq.
    - rewrite nth_overflow by (rewrite map_length, seq_length; lia). auto. }
  assert (R : forall v, rk (dsu_init n) v = 0).
  { intros v. unfold rk, dsu_init. destruct (Nat.lt_ge_cases v n).
    - now rewrite nth_map_seq.
    - rewrite nth_overflow by (rewrite map_length, seq_length; lia). auto. }
  split.
  - intros v _ H. rewrite D in H. congruence.
  - intros rt RT r Hr _. rewrite R. simpl. unfold count_root.
    destruct (filter (fun x => rt x =? r) (seq 0 n)) eqn:E; simpl; [|lia]. exfalso.
    assert (I : In r (filter (fun x => rt x =? r) (seq 0 n))).
    { apply filter_In. split; [apply in_seq; lia|]. apply Nat.eqb_eq. destruct (RT r Hr) as [k U].
      inversion U; subst; auto. rewrite D in H. congruence. }
    rewrite E in I. destruct I.
Qed.

(** * Runs without disjoint_union *)
Definition no_union (o : dsu_op) : bool := match o with OpUnion _ _ => false | _ => true end.
Lemma ranked_exec n s es o x s' : length s = n -> represents n (dp s) es -> ranked n s -> op_lt n o -> no_union o = true ->
  dsu_exec s o = Ok (x, s') -> ranked n s'.
Proof.
  intros L RP RK Ho NU. destruct o as [u|u v|u v]; cbn [dsu_exec op_lt no_union] in *; try discriminate.
  - intros H. apply bind_Ok in H as ([r s1] & E & H). injection H as <- <-. eapply ranked_find; eauto.
  - destruct Ho as [Hu Hv]. intros H. apply bind_Ok in H as ([b s3] & E & H). injection H as <- <-. cbn [snd].
    unfold disjoint_union_find in E.
    destruct (disjoint_find_ok L RP Hu) as (a & s1 & E1 & L1 & [k1 U1] & K1 & R1). rewrite E1 in E. cbn [bind] in E.
    destruct (disjoint_find_ok L1 R1 Hv) as (c & s2 & E2 & L2 & [k2 V1] & K2 & R2). rewrite E2 in E. cbn [bind] in E.
    assert (RK1 := ranked_find L RP RK Hu E1). assert (RK2 := ranked_find L1 R1 RK1 Hv E2).
    destruct (K1 _ _ _ Hu U1) as [k3 U2]. destruct (K2 _ _ _ Hu U2) as [k4 U3]. destruct (K2 _ _ _ Hv V1) as [k5 V2].
    destruct (Nat.eqb_spec a c) as [->|NE]; cbn [negb] in E.
    + injection E as _ <-. auto.
    + apply bind_Ok in E as (s4 & E4 & H). injection H as _ <-.
      assert (C2 := proj1 (proj1 R2)).
      apply (@ranked_dsu_link n s2 s4 es a c); auto.
      * apply (up_end_lt C2 U3 Hu).
      * apply (up_end_lt C2 V2 Hv).
      * apply (up_end U3).
      * apply (up_end V2).
Qed.
Lemma ranked_run n ops : forall s es outs s', length s = n -> represents n (dp s) es -> ranked n s ->
  Forall (op_lt n) ops -> forallb no_union ops = true -> dsu_run s ops = Ok (outs, s') -> ranked n s'.
Proof.
  induction ops as [|o ops IH]; intros s es outs s' L RP RK Hl NU H; cbn [dsu_run] in H.
  - now injection H as <- <-.
  - inversion Hl; subst. cbn [forallb] in NU. apply andb_true_iff in NU as [N1 N2].
    destruct (@dsu_exec_ok _ s es o eq_refl RP H2) as (r & s1 & E & L1 & R1 & _).
    rewrite E in H. cbn [bind fst snd] in H. apply bind_Ok in H as ([os s2] & E2 & H). injection H as <- <-.
    eapply IH; [exact L1| exact R1| |auto|auto|exact E2]. apply (@ranked_exec _ s es o r s1); auto.
Qed.

(** * disjoint_union on one element raises its rank: a tree of height n - 1 *)
Definition stack_ops (n : nat) : list dsu_op :=
  flat_map (fun i => repeat (OpUnion i i) i ++ [OpUnion i (i - 1)]) (seq 1 (n - 1)).

Lemma find_root_noop s v : v < length s -> dp s v = v -> disjoint_find s v = Ok (v, s).
Proof.
  intros H D. unfold disjoint_find. rewrite dsu_first_ok by auto. cbn [bind]. rewrite D.
  destruct (length s) eqn:L; [lia|]. cbn [dfind_loop dcompress]. rewrite dsu_first_ok by lia. cbn [bind].
  rewrite D, Nat.eqb_refl. cbn [bind]. rewrite ?Nat.eqb_refl; reflexivity.
Qed.
Lemma dsu_run_app s a b : dsu_run s (a ++ b) =
  (do x <- dsu_run s a ; do y <- dsu_run (snd x) b ; Ok (fst x ++ fst y, snd y)).
Proof.
  revert s. induction a as [|o a IH]; intros s; cbn [dsu_run app].
  - cbn [bind fst snd app]. destruct (dsu_run s b) as [[o' s']| |]; reflexivity.
  - destruct (dsu_exec s o) as [[x s1]| |]; cbn [bind]; auto. cbn [fst snd]. rewrite IH.
    destruct (dsu_run s1 a) as [[y s2]| |]; cbn [bind]; auto. cbn [fst snd].
    destruct (dsu_run s2 b) as [[z s3]| |]; cbn [bind]; auto.
Qed.

(** Joining a root with itself [k] times. *)
Lemma bump_run i : forall k s, i < length s -> dp s i = i ->
  exists outs s', dsu_run s (repeat (OpUnion i i) k) = Ok (outs, s') /\ length s' = length s /\ (forall y, dp s' y = dp s y) /\ rk s' i = rk s i + k /\ (forall y, y <> i -> rk s' y = rk s y).
Proof.
  induction k; intros s Hi D.
  - exists [], s. cbn. repeat split; auto.
  - cbn [repeat dsu_run dsu_exec]. unfold disjoint_union. rewrite find_root_noop by auto. cbn [bind].
    rewrite find_root_noop by auto. cbn [bind]. unfold dsu_link. rewrite second_eq by auto. cbn [bind].
    rewrite Nat.ltb_irrefl. rewrite set_first_eq by auto. cbn [bind].
    replace (upd s i (i, rk s i)) with s by (rewrite <- (upd_same s Hi) at 1; now rewrite D). rewrite inc_second_eq by auto. cbn [bind fst snd]. rewrite D.
    set (s1 := upd s i (i, rk s i + 1)).
    assert (D1 : forall y, dp s1 y = dp s y).
    { intros y. unfold s1. rewrite dp_upd by auto. destruct (Nat.eqb_spec y i); subst; auto. }
    destruct (IHk s1) as (outs & s' & E & L & D' & K1 & K2).
    { unfold s1. now rewrite upd_length. } { now rewrite D1. }
    rewrite E. cbn [bind fst snd]. eexists _, s'. split; [reflexivity|]. split; [unfold s1 in L; now rewrite upd_length in L|].
    split; [intros; now rewrite D'|]. unfold s1 in *. split.
    + rewrite K1, rk_upd by auto. rewrite Nat.eqb_refl. lia.
    + intros y Ny. rewrite K2 by auto. rewrite rk_upd by auto. destruct (Nat.eqb_spec y i); congruence.
Qed.

Lemma stack_run n m : m < n -> exists outs s, dsu_run (dsu_init n) (flat_map (fun i => repeat (OpUnion i i) i ++ [OpUnion i (i - 1)]) (seq 1 m)) = Ok (outs, s) /\ length s = n /\ (forall y, y < m -> dp s y = S y) /\ (forall y, m <= y -> dp s y = y) /\ rk s m = m /\ (forall y, m < y -> rk s y = 0).
Proof.
  induction m; intros Hm.
  - exists [], (dsu_init n). cbn [seq flat_map dsu_run]. split; auto. split; [unfold dsu_init; now rewrite map_length, seq_length|].
    assert (D : forall y, nth y (dsu_init n) (y, 0) = (y, 0)).
    { intros y. unfold dsu_init. destruct (Nat.lt_ge_cases y n).
      - now rewrite nth_map_seq.
      - rewrite nth_overflow by (rewrite map_length, seq_length; lia). auto. }
    unfold dp, rk. repeat split; intros; try lia; rewrite D; auto.
  - destruct IHm as (outs & s & E & L & D1 & D2 & K1 & K2); [lia|].
    rewrite seq_S, flat_map_app, dsu_run_app, E. cbn [bind fst snd]. cbn [flat_map]. rewrite app_nil_r.
    change (1 + m) with (S m). rewrite dsu_run_app.
    destruct (@bump_run (S m) (S m) s) as (o1 & s1 & E1 & L1 & DD & R1 & R2); [lia|apply D2; lia|].
    rewrite E1. cbn [bind fst snd]. cbn [dsu_run dsu_exec]. unfold disjoint_union.
    rewrite find_root_noop by (rewrite ?DD, ?D2; lia). cbn [bind].
    replace (S m - 1) with m by lia.
    rewrite find_root_noop by (rewrite ?DD, ?D2; lia). cbn [bind].
    unfold dsu_link. rewrite !second_eq by lia. cbn [bind].
    rewrite R1, (R2 m), K1, (K2 (S m)) by lia.
    destruct (Nat.ltb_spec (0 + S m) m); [lia|]. destruct (Nat.ltb_spec m (0 + S m)); [|lia].
    rewrite set_first_eq by lia. cbn [bind fst snd]. eexists _, _. split; [reflexivity|].
    split; [rewrite upd_length; lia|].
    assert (DP : forall y, dp (upd s1 m (S m, rk s1 m)) y = if y =? m then S m else dp s y).
    { intros. rewrite dp_upd by lia. now rewrite DD. }
    assert (RP : forall y, rk (upd s1 m (S m, rk s1 m)) y = rk s1 y).
    { intros. rewrite rk_upd by lia. destruct (Nat.eqb_spec y m); subst; auto. }
    split; [|split; [|split]].
    + intros y Hy. rewrite DP. destruct (Nat.eqb_spec y m); [lia|]. apply D1. lia.
    + intros y Hy. rewrite DP. destruct (Nat.eqb_spec y m); [lia|]. apply D2. lia.
    + rewrite RP, R1, K2 by lia. lia.
    + intros y Hy. rewrite RP, R2, K2 by lia. lia.
Qed.
