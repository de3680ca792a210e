(** C19, C20, C23, C46. *)
From Coq Require Import List Arith NArith Lia Permutation Sorted.
From Verif Require Import Base UtilModel UtilProofs.
Import ListNotations.
Set Implicit Arguments.

(** * C19 *)
Theorem C19_blocks_tile : forall N n, 0 < n ->
  exists b : nat -> nat, b 0 = 0 /\ b n = N /\
    forall id, id < n -> block N n id = Ok (b id, b (S id)) /\
      b id <= b (S id) /\ (b (S id) - b id = N / n \/ b (S id) - b id = S (N / n)).
Proof.
  intros N n H. exists (fun id => id * (N / n) + Nat.min id (N mod n)).
  pose proof (Nat.div_mod N n) as DM. pose proof (Nat.mod_upper_bound N n) as MB.
  split; [simpl; lia|]. split; [rewrite Nat.min_r by lia; lia|].
  intros id Hid. split; [now apply block_ok|].
  destruct (Nat.le_gt_cases (N mod n) id).
  - rewrite !Nat.min_r by lia. simpl. lia.
  - rewrite !Nat.min_l by lia. simpl. lia.
Qed.
(** Every position lies in exactly one block. *)
Theorem C19_blocks_partition : forall N n x, 0 < n -> x < N ->
  exists id, id < n /\
    (exists lo hi, block N n id = Ok (lo, hi) /\ lo <= x < hi) /\
    forall id' lo hi, id' < n -> block N n id' = Ok (lo, hi) -> lo <= x < hi -> id' = id.
Proof.
  intros N n x Hn Hx. destruct (@C19_blocks_tile N n Hn) as (b & B0 & Bn & B).
  assert (M : forall j, j <= n -> forall i, i <= j -> b i <= b j).
  { induction j; intros Hj i Hi; [assert (i = 0) by lia; subst; lia|].
    destruct (Nat.eq_dec i (S j)); [subst; lia|]. transitivity (b j); [apply IHj; lia|apply B; lia]. }
  assert (E : forall k, k <= n -> x < b k -> exists id, id < k /\ b id <= x < b (S id)).
  { induction k; intros Hk Hxk; [lia|]. destruct (Nat.lt_ge_cases x (b k)).
    - destruct IHk as (id & H1 & H2); auto; [lia|]. exists id. split; [lia|auto].
    - exists k. split; lia. }
  destruct (E n) as (id & Hid & Hb); [lia|lia|]. exists id. split; [auto|]. split.
  - exists (b id), (b (S id)). split; [apply B; auto|auto].
  - intros id' lo hi Hid' E' Hx'. destruct (B id' Hid') as (E2 & _). rewrite E2 in E'. injection E' as <- <-.
    destruct (Nat.lt_trichotomy id' id) as [L|[L|L]]; auto; exfalso.
    + assert (b (S id') <= b id) by (apply M; lia). lia.
    + assert (b (S id) <= b id') by (apply M; lia). lia.
Qed.
(** The assertions in the code never fire for a valid id although the second one tests N-1 instead of n-1. *)
Theorem C19_assertions_hold : forall N n id, id < n -> block_assertions N n id = true.
Proof.
  intros N n id H. unfold block_assertions. rewrite block_ok by lia.
  pose proof (Nat.div_mod N n) as DM. pose proof (Nat.mod_upper_bound N n) as MB.
  apply andb_true_intro. split; apply Bool.orb_true_iff.
  - destruct (Nat.eqb_spec id 0); [right|now left]. subst. apply Nat.eqb_eq. simpl. lia.
  - destruct (Nat.eqb_spec id (N - 1)) as [E|]; [right|now left]. apply Nat.eqb_eq.
    destruct (Nat.lt_ge_cases N n).
    + rewrite Nat.div_small, Nat.mod_small by auto. destruct N; simpl; [lia|lia].
    + destruct N as [|N']; [lia|]. assert (id = N') by lia. assert (n = S N') by lia. subst.
      rewrite Nat.div_same, Nat.mod_same by lia. rewrite Nat.min_r by lia. lia.
Qed.

Example C19_ex : map (block 11 4) [0;1;2;3] = [Ok (0,3); Ok (3,6); Ok (6,9); Ok (9,11)].
Proof. reflexivity. Qed.
Example C19_ex_more_blocks : map (block 2 4) [0;1;2;3] = [Ok (0,1); Ok (1,2); Ok (2,2); Ok (2,2)].
Proof. reflexivity. Qed.

(** * C20 *)
Open Scope N_scope.
Theorem C20_log2_pow2 : forall v, 0 < v < 2 ^ 64 ->
  exists e p, log2_ 64 v = Ok e /\ pow2 64 e = Ok p /\ p <= v < 2 * p.
Proof.
  intros v [P L]. exists (N.log2 v), (2 ^ N.log2 v).
  split; [apply log2_ok; [intros ->; discriminate|auto]|]. split.
  - apply pow2_ok. apply N.log2_lt_pow2; auto.
  - rewrite <- N.pow_succ_r'. now apply N.log2_spec.
Qed.
Theorem C20_log2_of_pow2 : forall e, e < 64 -> exists p, pow2 64 e = Ok p /\ log2_ 64 p = Ok e.
Proof.
  intros e H. exists (2 ^ e). split; [now apply pow2_ok|].
  rewrite log2_ok; [now rewrite N.log2_pow2 by apply N.le_0_l| |].
  - apply N.pow_nonzero. discriminate.
  - apply N.pow_lt_mono_r; [reflexivity|auto].
Qed.
Theorem C20_ceil_log2_least : forall w v, (w = 32 \/ w = 64) -> 0 < v < 2 ^ w ->
  exists e, ceil_log2 w v = Ok e /\ v <= 2 ^ e /\ forall e', v <= 2 ^ e' -> e <= e'.
Proof. intros w v _ [P L]. apply ceil_log2_ok; auto. intros ->. discriminate. Qed.
(** The debug assertion of pow2 rejects exactly the values with the top bit set. *)
Theorem C20_pow2_assertion_rejects_top_bit : forall v e, 0 < v < 2 ^ 64 -> log2_ 64 v = Ok e ->
  (pow2_assertion 64 e = false <-> 2 ^ 63 <= v).
Proof.
  intros v e [P L] E. rewrite log2_ok in E; auto; [|intros ->; discriminate]. injection E as <-.
  unfold pow2_assertion. change (64 - 1) with 63. rewrite N.ltb_ge. symmetry. now apply N.log2_le_pow2.
Qed.
Example C20_ex : log2_ 64 1000 = Ok 9 /\ ceil_log2 32 1000 = Ok 10 /\ ceil_log2 32 1024 = Ok 10 /\ ceil_log2 64 1 = Ok 0
  /\ pow2 64 63 = Ok 9223372036854775808 /\ pow2_assertion 64 63 = false.
Proof. now vm_compute. Qed.
Close Scope N_scope.

(** * C23 *)
(** Number of occurrences, and the specification: the sum of the smaller multiplicities over the distinct values. *)
Definition occurrences (x : nat) (l : list nat) : nat := length (filter (Nat.eqb x) l).
Lemma occurrences_cnt x l : occurrences x l = cnt x l.
Proof.
  unfold occurrences, cnt. induction l as [|y l IH]; simpl; auto.
  destruct (Nat.eqb_spec x y), (Nat.eq_dec y x); simpl; try congruence; auto. 
Qed.
Definition multiset_intersection_size (a b : list nat) : nat :=
  sum (map (fun x => Nat.min (occurrences x a) (occurrences x b)) (nodup Nat.eq_dec a)).

Theorem C23_intersection_size : forall a b, StronglySorted le a -> StronglySorted le b ->
  intersection_size a b = Ok (multiset_intersection_size a b).
Proof.
  intros a b SA SB. unfold intersection_size. rewrite intersection_loop_merge by lia. f_equal. simpl.
  rewrite (@merge_size_spec _ a b (nodup Nat.eq_dec a)); auto using NoDup_nodup.
  - apply sum_map_ext. intros x _. now rewrite !occurrences_cnt.
  - intros x I _. now apply nodup_In.
Qed.
Theorem C23_symmetric : forall a b, StronglySorted le a -> StronglySorted le b -> intersection_size a b = intersection_size b a.
Proof.
  intros a b SA SB. unfold intersection_size. rewrite !intersection_loop_merge by lia. f_equal. simpl.
  rewrite (@merge_size_spec _ a b (nodup Nat.eq_dec (a ++ b))); auto using NoDup_nodup.
  - rewrite (@merge_size_spec _ b a (nodup Nat.eq_dec (a ++ b))); auto using NoDup_nodup.
    + apply sum_map_ext. intros x _. lia.
    + intros x I _. apply nodup_In, in_or_app. now right.
  - intros x I _. apply nodup_In, in_or_app. now left.
Qed.
Theorem C23_set_intersection : forall a b, StronglySorted lt a -> StronglySorted lt b ->
  intersection_size a b = Ok (length (filter (fun x => existsb (Nat.eqb x) b) a)).
Proof.
  intros a b SA SB.
  assert (W : forall l, StronglySorted lt l -> StronglySorted le l /\ NoDup l).
  { clear. induction 1 as [|x l S [IH1 IH2] F]; split; constructor; auto.
    - eapply Forall_impl; [|exact F]. intros; lia.
    - rewrite Forall_forall in F. intros I. apply F in I. lia. }
  destruct (W _ SA) as [LA NA], (W _ SB) as [LB NB]. rewrite C23_intersection_size by auto. f_equal.
  unfold multiset_intersection_size. rewrite nodup_fixed_point by auto. rewrite <- sum_filter_bool.
  apply sum_map_ext. intros x I. rewrite !occurrences_cnt. unfold cnt.
  rewrite (NoDup_count_occ' Nat.eq_dec a) in NA. rewrite NA by auto.
  destruct (existsb (Nat.eqb x) b) eqn:E.
  - apply existsb_exists in E. destruct E as (y & Hy & E). apply Nat.eqb_eq in E. subst y.
    rewrite (NoDup_count_occ' Nat.eq_dec b) in NB. rewrite NB by auto. reflexivity.
  - rewrite (proj1 (count_occ_not_In Nat.eq_dec b x)); auto. intros I2.
    assert (existsb (Nat.eqb x) b = true); [|congruence]. apply existsb_exists. exists x. split; auto. apply Nat.eqb_refl.
Qed.
(** Without sortedness the count can be too small: the hypothesis is needed. *)
Theorem C23_unsorted_refuted : exists a b, intersection_size a b <> Ok (multiset_intersection_size a b).
Proof. exists [2;1], [1;2]. vm_compute. discriminate. Qed.
Example C23_ex : intersection_size [1;3;3;5;9] [3;3;3;4;9;10] = Ok 3 /\ multiset_intersection_size [1;3;3;5;9] [3;3;3;4;9;10] = 3.
Proof. now vm_compute. Qed.

(** * C46 *)
(** Values taken by the variable when the addends are applied in the given order. *)
Definition apply_all {V} (add : V -> V -> V) (m0 : V) (us : list V) : V := fold_left add us m0.

(** Linearization: the calls take effect in some total order containing every call exactly once; the final
    value is the initial value with the addends applied in that order, and each call returns the value
    produced by the calls before it.  No algebraic law of [add] is assumed (floating point). *)
Theorem C46_fetch_add_linearizes : forall V (add : V -> V -> V) m0 us m rs,
  fa_run add (m0, map FaStart us) (m, map FaDone rs) ->
  exists order, Permutation order (seq 0 (length us)) /\
    (exists vs, Forall2 (fun i u => nth_error us i = Some u) order vs /\ m = apply_all add m0 vs) /\
    forall before i after, order = before ++ i :: after ->
      exists vs, Forall2 (fun j u => nth_error us j = Some u) before vs /\ nth_error rs i = Some (apply_all add m0 vs).
Proof.
  intros V add m0 us m rs R. destruct (@fa_final V add m0 us m rs R) as (order & P & L & log & E & C & LI).
  exists order. split; auto. clear P L R. subst order. revert m0 C LI. unfold apply_all.
  induction log as [|[[j v] r] log IH]; intros m0 C LI; simpl in *.
  - split; [exists []; split; [constructor|auto]|]. intros before i after Q. destruct before; discriminate.
  - destruct C as [-> C]. destruct (IH _ C) as [[vs [F M]] Q]; [intros; apply LI; auto|].
    destruct (LI j v m0 (or_introl eq_refl)) as [N1 N2]. split.
    + exists (v :: vs). split; [constructor; auto|auto].
    + intros before i after EQ. destruct before as [|k before]; simpl in EQ; injection EQ as -> EQ.
      * exists []. split; [constructor|auto].
      * destruct (Q _ _ _ EQ) as [ws [F2 N]]. exists (v :: ws). split; [constructor; auto|auto].
Qed.

(** For an associative and commutative addition nothing is lost whatever the order. *)
Theorem C46_nothing_lost : forall V (add : V -> V -> V) m0 us m rs,
  (forall x y z, add (add x y) z = add (add x z) y) ->
  fa_run add (m0, map FaStart us) (m, map FaDone rs) ->
  m = apply_all add m0 us.
Proof.
  intros V add m0 us m rs AC R. destruct (@C46_fetch_add_linearizes V add m0 us m rs R) as (order & P & [vs [F M]] & _).
  assert (PV : Permutation vs us).
  { assert (G : forall o1 o2, Permutation o1 o2 -> forall v1, Forall2 (fun i u => nth_error us i = Some u) o1 v1 ->
        exists v2, Forall2 (fun i u => nth_error us i = Some u) o2 v2 /\ Permutation v1 v2).
    { clear. induction 1; intros v1 F1.
      - inversion F1; subst. exists []. auto.
      - inversion F1; subst. destruct (IHPermutation _ H4) as (v2 & F2 & P2). exists (y :: v2). split; [constructor; auto|auto].
      - inversion F1 as [|? ? ? ? A1 F1']; subst. inversion F1' as [|? ? ? ? A2 F2']; subst.
        eexists (_ :: _ :: _). split; [constructor; [eassumption|constructor; eassumption]|apply perm_swap].
      - destruct (IHPermutation1 _ F1) as (v2 & F2 & P2). destruct (IHPermutation2 _ F2) as (v3 & F3 & P3).
        exists v3. split; auto. now transitivity v2. }
    destruct (G _ _ P _ F) as (v2 & F2 & P2). replace us with v2; auto.
    clear - F2. assert (K : forall k v, Forall2 (fun i u => nth_error us i = Some u) (seq k (length us - k)) v -> v = skipn k us).
    { intros k. remember (length us - k) as d. revert k Heqd. induction d; intros k Hd v Fv; simpl in Fv.
      - inversion Fv; subst. symmetry. apply skipn_all2. lia.
      - inversion Fv as [|? x ? v' A B]; subst. rewrite (IHd (S k)) with (v := v'); auto; [|lia].
        clear - A. revert k A. induction us as [|y us IH]; intros k A; destruct k; simpl in *; try discriminate.
        + now injection A as ->.
        + now apply IH. }
    apply (K 0). now rewrite Nat.sub_0_r. }
  rewrite M. unfold apply_all. clear - PV AC. revert m0. induction PV; intros m0; simpl; auto.
  - now rewrite AC.
  - now rewrite IHPV1.
Qed.

(** The loop can always complete: from every reachable state the remaining calls can all finish. *)
Theorem C46_can_always_finish : forall V (add : V -> V -> V) (s : V * list (fa_thread V)),
  exists m rs, fa_run add s (m, map FaDone rs).
Proof.
  intros V add [m ts].
  assert (T : forall s1 s2 s3, fa_run add s1 s2 -> fa_run add s2 s3 -> fa_run add s1 s3).
  { intros s1 s2 s3 A B. revert s1 A. induction B; intros; auto. eapply fa_more; [now apply IHB|]. eassumption. }
  assert (G : forall ts m pre, exists m' rs, fa_run add (m, map FaDone pre ++ ts) (m', map FaDone rs)).
  { clear m ts. induction ts as [|t ts IH]; intros m pre.
    - exists m, pre. rewrite app_nil_r. constructor.
    - assert (F : exists m1 r, fa_run add (m, map FaDone pre ++ t :: ts) (m1, map FaDone (pre ++ [r]) ++ ts)).
      { destruct t as [u|e u|r].
        - exists (add m u), m. rewrite map_app, <- app_assoc. simpl.
          eapply fa_more; [eapply fa_more; [constructor|]|]; constructor; constructor.
        - exists (add m u), m. rewrite map_app, <- app_assoc. simpl.
          eapply fa_more; [eapply fa_more; [constructor|]|]; constructor; constructor.
        - exists m, r. rewrite map_app, <- app_assoc. constructor. }
      destruct F as (m1 & r & F). destruct (IH m1 (pre ++ [r])) as (m2 & rs & F2). exists m2, rs. eapply T; eauto. }
  apply (G ts m []).
Qed.

(** Two threads adding 5 and 7 to 100, the second finishing first after a failed CAS of the first. *)
Example C46_ex : fa_run Nat.add (100, map FaStart [5; 7]) (112, map FaDone [107; 100]).
Proof.
  simpl. eapply fa_more with (s2 := (107, [FaLoop 107 5; FaDone 100])).
  eapply fa_more with (s2 := (107, [FaLoop 100 5; FaDone 100])).
  eapply fa_more with (s2 := (100, [FaLoop 100 5; FaLoop 100 7])).
  eapply fa_more with (s2 := (100, [FaLoop 100 5; FaStart 7])).
  eapply fa_more with (s2 := (100, [FaStart 5; FaStart 7])); [constructor|].
  - refine (fa_sys [] [FaStart 7] _). apply fa_load.
  - refine (fa_sys [FaLoop 100 5] [] _). apply fa_load.
  - refine (fa_sys [FaLoop 100 5] [] _). apply (fa_cas_ok Nat.add 100 7).
  - refine (fa_sys [] [FaDone 100] _). apply fa_cas_fail.
  - refine (fa_sys [] [FaDone 100] _). apply (fa_cas_ok Nat.add 107 5).
Qed.

Print Assumptions C19_blocks_tile.
Print Assumptions C19_blocks_partition.
Print Assumptions C19_assertions_hold.
Print Assumptions C20_log2_pow2.
Print Assumptions C20_log2_of_pow2.
Print Assumptions C20_ceil_log2_least.
Print Assumptions C20_pow2_assertion_rejects_top_bit.
Print Assumptions C23_intersection_size.
Print Assumptions C23_symmetric.
Print Assumptions C23_set_intersection.
Print Assumptions C23_unsorted_refuted.
Print Assumptions C46_fetch_add_linearizes.
Print Assumptions C46_nothing_lost.
Print Assumptions C46_can_always_finish.
