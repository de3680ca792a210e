(** Proofs about the ranges of RangeModel.v. *)
From Coq Require Import List Arith ZArith NArith Lia Bool Permutation.
From Verif Require Import Base UtilModel UtilProofs RangeModel.
Import ListNotations.
Set Implicit Arguments.

(** * Edge ranges *)
Section Edge.
Variable A : Type.
Variable g : list (list A).
Definition row_edges (u : nat) : list (nat * A) := map (pair u) (nth u g []).
Definition edges_between (b e : nat) : list (nat * A) := flat_map row_edges (seq b (e - b)).

Lemma edges_between_nil b e : e <= b -> edges_between b e = [].
Proof. intros. unfold edges_between. now replace (e - b) with 0 by lia. Qed.
Lemma edges_between_cons b e : b < e -> edges_between b e = row_edges b ++ edges_between (S b) e.
Proof. intros. unfold edges_between. replace (e - b) with (S (e - S b)) by lia. reflexivity. Qed.
Lemma edges_between_app b m e : b <= m -> m <= e -> edges_between b e = edges_between b m ++ edges_between m e.
Proof.
  intros. unfold edges_between. replace (e - b) with ((m - b) + (e - m)) by lia.
  rewrite seq_app, flat_map_app. now replace (b + (m - b)) with m by lia.
Qed.

Definition ei_rem (it : eiter) : list (nat * A) :=
  if ei_first it =? ei_last it then []
  else map (pair (ei_first it)) (skipn (ei_ub it) (nth (ei_first it) g [])) ++ edges_between (S (ei_first it)) (ei_last it).
Definition ei_valid (it : eiter) : Prop :=
  ei_first it <= ei_last it <= length g /\
  (ei_first it < ei_last it -> ei_ue it = length (nth (ei_first it) g []) /\ ei_ub it <= ei_ue it).
Definition ei_ready (it : eiter) : Prop := ei_valid it /\ (ei_first it < ei_last it -> ei_ub it < ei_ue it).

Lemma ei_enter_ok u e : u < e -> e <= length g ->
  exists it, ei_enter g u e = Ok it /\ ei_first it = u /\ ei_last it = e /\ ei_valid it /\ ei_rem it = edges_between u e.
Proof.
  intros H1 H2. unfold ei_enter. rewrite (@vget_nth _ _ _ []) by lia. cbn [bind]. eexists. split; [reflexivity|].
  split; [reflexivity|]. split; [reflexivity|]. split.
  - split; simpl; [lia|]. intros _. split; [reflexivity|lia].
  - unfold ei_rem. cbn [ei_first ei_last ei_ub]. destruct (Nat.eqb_spec u e); [lia|]. rewrite (edges_between_cons H1). reflexivity.
Qed.

Lemma ei_check_ok fuel : forall it, ei_valid it -> ei_last it - ei_first it <= fuel ->
  exists it', ei_check fuel g it = Ok it' /\ ei_ready it' /\ ei_last it' = ei_last it /\ ei_rem it' = ei_rem it.
Proof.
  induction fuel; intros it V H; destruct V as [B V].
  - cbn [ei_check]. assert (E : ei_first it = ei_last it) by lia. rewrite E, Nat.eqb_refl, andb_false_r.
    exists it. split; auto. split; auto. split; [split; auto|lia].
  - cbn [ei_check]. destruct (Nat.eqb_spec (ei_ub it) (ei_ue it)) as [E|E]; cbn [andb].
    + destruct (Nat.eqb_spec (ei_first it) (ei_last it)) as [F|F]; cbn [negb].
      * exists it. split; auto. split; auto. split; [split; auto|lia].
      * destruct V as [V1 V2]; [lia|]. destruct (Nat.eqb_spec (S (ei_first it)) (ei_last it)) as [G|G]; cbn [negb].
        -- eexists. split; [reflexivity|]. split; [|split; [reflexivity|]].
           ++ split; [split|]; cbn; lia.
           ++ unfold ei_rem. cbn [ei_first ei_last ei_ub]. rewrite G, Nat.eqb_refl. destruct (Nat.eqb_spec (ei_first it) (ei_last it)); [lia|].
              rewrite E, V1, skipn_all, edges_between_nil by lia. reflexivity.
        -- destruct (@ei_enter_ok (S (ei_first it)) (ei_last it)) as (it1 & E1 & F1 & L1 & V' & R1); [lia|lia|].
           rewrite E1. cbn [bind]. destruct (IHfuel it1 V') as (it2 & E2 & R2 & L2 & Q2); [lia|].
           exists it2. split; auto. split; auto. split; [lia|]. rewrite Q2, R1. unfold ei_rem.
           destruct (Nat.eqb_spec (ei_first it) (ei_last it)); [lia|]. now rewrite E, V1, skipn_all.
    + exists it. split; auto. split; auto. split; [split; auto|]. intros L. destruct (V L). lia.
Qed.

Lemma skipn_nth_cons (X : Type) (l : list X) i d : i < length l -> skipn i l = nth i l d :: skipn (S i) l.
Proof. revert i; induction l; intros [|i] H; simpl in *; try lia; auto. now rewrite (IHl i) by lia. Qed.

Lemma ei_visit_ok fuel : forall it, ei_ready it -> length (ei_rem it) <= fuel ->
  ei_visit fuel g (ei_last it) it = Ok (ei_rem it).
Proof.
  induction fuel; intros it [[B V] R] L.
  - cbn [ei_visit]. destruct (Nat.eqb_spec (ei_first it) (ei_last it)) as [E|E].
    + unfold ei_rem. now rewrite E, Nat.eqb_refl.
    + exfalso. destruct V as [V1 V2]; [lia|]. specialize (R ltac:(lia)). unfold ei_rem in L.
      destruct (Nat.eqb_spec (ei_first it) (ei_last it)); [lia|]. rewrite app_length, map_length, skipn_length in L. lia.
  - cbn [ei_visit]. destruct (Nat.eqb_spec (ei_first it) (ei_last it)) as [E|E].
    + unfold ei_rem. now rewrite E, Nat.eqb_refl.
    + destruct V as [V1 V2]; [lia|]. specialize (R ltac:(lia)). unfold ei_deref. rewrite (@vget_nth _ _ _ []) by lia. cbn [bind].
      destruct (vget_lt (nth (ei_first it) g []) (i := ei_ub it)) as [x X]; [lia|]. rewrite X. cbn [bind].
      unfold ei_next. set (it1 := {| ei_first := ei_first it; ei_last := ei_last it; ei_ub := S (ei_ub it); ei_ue := ei_ue it |}).
      destruct (@ei_check_ok (length g) it1) as (it2 & E2 & R2 & L2 & Q2).
      { split; cbn; [lia|]. intros _. split; auto. }
      { cbn. lia. }
      assert (Q : ei_rem it = (ei_first it, x) :: ei_rem it1).
      { unfold ei_rem, it1. cbn [ei_first ei_last ei_ub]. destruct (Nat.eqb_spec (ei_first it) (ei_last it)); [lia|].
        rewrite (@skipn_nth_cons _ (nth (ei_first it) g []) (ei_ub it) x) by lia. simpl.
        rewrite (@vget_nth _ _ _ x) in X by lia. injection X as X. now rewrite X. }
      rewrite E2. cbn [bind]. cbn in L2. rewrite <- L2. rewrite IHfuel; auto.
      * cbn [bind]. now rewrite Q2, Q.
      * rewrite Q2. rewrite Q in L. simpl in L. lia.
Qed.

Lemma edges_of_range_ok fuel r : or_begin r <= or_end r -> or_end r <= length g ->
  length (edges_between (or_begin r) (or_end r)) <= fuel ->
  edges_of_range fuel g r = Ok (edges_between (or_begin r) (or_end r)).
Proof.
  intros H1 H2 H3. unfold edges_of_range, ei_make. destruct (Nat.eqb_spec (or_begin r) (or_end r)) as [E|E]; cbn [negb].
  - cbn [bind]. rewrite edges_between_nil by lia. destruct fuel; cbn [ei_visit ei_first]; rewrite E, Nat.eqb_refl; reflexivity.
  - destruct (@ei_enter_ok (or_begin r) (or_end r)) as (it & E1 & F1 & L1 & V1 & R1); [lia|lia|].
    rewrite E1. cbn [bind]. destruct (@ei_check_ok (length g) it V1) as (it2 & E2 & R2 & L2 & Q2); [lia|].
    rewrite E2. cbn [bind]. replace (or_end r) with (ei_last it2) at 1 by lia. rewrite ei_visit_ok; auto; rewrite Q2, R1; auto.
Qed.
End Edge.

Lemma pr_visit_ok fuel : forall b e, b <= e -> e - b <= fuel -> pr_visit fuel b e = Ok (seq b (e - b)).
Proof.
  induction fuel; intros b e H L; cbn [pr_visit]; destruct (Nat.eqb_spec b e) as [->|N]; try (now rewrite Nat.sub_diag); try lia.
  rewrite IHfuel by lia. cbn [bind]. now replace (e - b) with (S (e - S b)) by lia.
Qed.
Lemma nr_visit_ok A (g : list (list A)) fuel : forall b e, b <= e -> e <= length g -> e - b <= fuel ->
  nr_visit fuel g b e = Ok (map (fun u => (u, nth u g [])) (seq b (e - b))).
Proof.
  induction fuel; intros b e H1 H2 L; cbn [nr_visit]; destruct (Nat.eqb_spec b e) as [->|N]; try (now rewrite Nat.sub_diag); try lia.
  rewrite (@vget_nth _ _ _ []) by lia. cbn [bind]. rewrite IHfuel by lia. cbn [bind]. now replace (e - b) with (S (e - S b)) by lia.
Qed.
Lemma pd_visit_ok A (g : list (list A)) fuel : forall b e, b <= e -> e <= length g -> e - b <= fuel ->
  pd_visit fuel g b e = Ok (map (fun u => (u, length (nth u g []))) (seq b (e - b))).
Proof.
  induction fuel; intros b e H1 H2 L; cbn [pd_visit]; destruct (Nat.eqb_spec b e) as [->|N]; try (now rewrite Nat.sub_diag); try lia.
  rewrite (@vget_nth _ _ _ []) by lia. cbn [bind]. rewrite IHfuel by lia. cbn [bind]. now replace (e - b) with (S (e - S b)) by lia.
Qed.

(** * Splitting *)
Lemma or_split_ok r : or_begin r <= or_end r ->
  exists m, or_begin r <= m <= or_end r /\ or_split r = ({| or_begin := or_begin r; or_end := m |}, {| or_begin := m; or_end := or_end r |}) /\
    (or_divisible r = true -> or_begin r < m < or_end r).
Proof.
  intros H. exists (or_begin r + (or_end r - or_begin r) / 2).
  assert (D := Nat.div_lt_upper_bound (or_end r - or_begin r) 2 (S (or_end r - or_begin r)) ltac:(lia) ltac:(lia)).
  split; [lia|]. split; [reflexivity|]. unfold or_divisible, or_size, or_cutoff. intros Q. apply Nat.ltb_lt in Q.
  assert (1 <= (or_end r - or_begin r) / 2) by (apply Nat.div_le_lower_bound; lia).
  assert ((or_end r - or_begin r) / 2 < or_end r - or_begin r) by (apply Nat.div_lt; lia). lia.
Qed.

(** A family of values cut at split points concatenates. *)
Lemma or_pieces_concat (X : Type) (val : nat -> nat -> list X) :
  (forall b m e, b <= m -> m <= e -> val b e = val b m ++ val m e) ->
  forall t r, or_begin r <= or_end r ->
   (forall p, In p (spieces or_split t r) -> or_begin r <= or_begin p /\ or_begin p <= or_end p /\ or_end p <= or_end r) /\
   concat (map (fun p => val (or_begin p) (or_end p)) (spieces or_split t r)) = val (or_begin r) (or_end r).
Proof.
  intros HV. induction t as [|t1 IH1 t2 IH2]; intros r H; cbn [spieces].
  - split; [intros p [<-|[]]; lia|]. simpl. apply app_nil_r.
  - destruct (@or_split_ok r H) as (m & M & E & _). rewrite E.
    destruct (IH1 {| or_begin := or_begin r; or_end := m |}) as [B1 C1]; [cbn; lia|].
    destruct (IH2 {| or_begin := m; or_end := or_end r |}) as [B2 C2]; [cbn; lia|]. cbn in *. split.
    + intros p I. apply in_app_or in I. destruct I as [I|I]; [specialize (B1 p I)|specialize (B2 p I)]; lia.
    + rewrite map_app, concat_app, C1, C2. symmetry. apply HV; lia.
Qed.

Lemma or_full_split_ok fuel : forall r, or_begin r <= or_end r -> or_end r - or_begin r <= fuel ->
  exists t, full_split or_split or_divisible fuel r = Ok (spieces or_split t r) /\
    forall p, In p (spieces or_split t r) -> or_size p <= 16.
Proof.
  induction fuel; intros r H L; cbn [full_split]; destruct (or_divisible r) eqn:D.
  - apply Nat.ltb_lt in D. unfold or_size, or_cutoff in D. lia.
  - exists SLeaf. split; auto. intros p [<-|[]]. apply Nat.ltb_ge in D. exact D.
  - destruct (@or_split_ok r H) as (m & M & E & S). specialize (S D). rewrite E.
    destruct (IHfuel {| or_begin := or_begin r; or_end := m |}) as (t1 & E1 & P1); [cbn; lia|cbn; lia|].
    destruct (IHfuel {| or_begin := m; or_end := or_end r |}) as (t2 & E2 & P2); [cbn; lia|cbn; lia|].
    rewrite E1, E2. cbn [bind]. exists (SNode t1 t2). cbn [spieces]. rewrite E. split; auto.
    intros p I. apply in_app_or in I. destruct I; auto.
  - exists SLeaf. split; auto. intros p [<-|[]]. apply Nat.ltb_ge in D. exact D.
Qed.

Lemma skipn_skipn (A : Type) a b : forall l : list A, skipn a (skipn b l) = skipn (a + b) l.
Proof. induction b; intros l; [now rewrite Nat.add_0_r|]. rewrite Nat.add_succ_r. destruct l; simpl; [now rewrite !skipn_nil|apply IHb]. Qed.
Lemma vslice_app A (l : list A) b m e : b <= m -> m <= e -> e <= length l ->
  firstn (e - b) (skipn b l) = firstn (m - b) (skipn b l) ++ firstn (e - m) (skipn m l).
Proof.
  intros. replace m with ((m - b) + b) at 3 by lia. rewrite <- skipn_skipn.
  replace (e - b) with ((m - b) + (e - m)) by lia. rewrite <- (firstn_skipn (m - b) (skipn b l)) at 1.
  rewrite firstn_app, firstn_firstn. rewrite firstn_length, skipn_length.
  replace (Nat.min _ (m - b)) with (m - b) by lia. f_equal. f_equal. lia.
Qed.

Lemma sr_split_ok r : sr_begin r <= sr_end r ->
  exists m, sr_begin r <= m <= sr_end r /\
    sr_split r = ({| sr_begin := sr_begin r; sr_end := m; sr_cutoff := sr_cutoff r |}, {| sr_begin := m; sr_end := sr_end r; sr_cutoff := sr_cutoff r |}) /\
    (2 <= sr_end r - sr_begin r -> sr_begin r < m < sr_end r) /\ (sr_end r - sr_begin r <= 1 -> m = sr_begin r).
Proof.
  intros H. exists (sr_begin r + sr_size r / 2). unfold sr_size.
  assert (D := Nat.div_lt_upper_bound (sr_end r - sr_begin r) 2 (S (sr_end r - sr_begin r)) ltac:(lia) ltac:(lia)).
  split; [lia|]. split; [reflexivity|]. split.
  - intros Q. assert (1 <= (sr_end r - sr_begin r) / 2) by (apply Nat.div_le_lower_bound; lia).
    assert ((sr_end r - sr_begin r) / 2 < sr_end r - sr_begin r) by (apply Nat.div_lt; lia). lia.
  - intros Q. rewrite Nat.div_small; lia.
Qed.

Lemma sr_pieces_ok (X : Type) (l : list X) : forall t r, sr_begin r <= sr_end r -> sr_end r <= length l ->
  exists parts, map (sr_visit l) (spieces sr_split t r) = map Ok parts /\
    concat parts = firstn (sr_end r - sr_begin r) (skipn (sr_begin r) l).
Proof.
  induction t as [|t1 IH1 t2 IH2]; intros r H1 H2; cbn [spieces].
  - exists [firstn (sr_end r - sr_begin r) (skipn (sr_begin r) l)]. simpl. unfold sr_visit. rewrite vslice_Ok by auto.
    split; auto. apply app_nil_r.
  - destruct (@sr_split_ok r H1) as (m & M & E & _). rewrite E.
    destruct (IH1 {| sr_begin := sr_begin r; sr_end := m; sr_cutoff := sr_cutoff r |}) as (p1 & E1 & C1); [cbn; lia|cbn; lia|].
    destruct (IH2 {| sr_begin := m; sr_end := sr_end r; sr_cutoff := sr_cutoff r |}) as (p2 & E2 & C2); [cbn; lia|cbn; lia|].
    exists (p1 ++ p2). rewrite map_app, E1, E2, map_app. split; auto. rewrite concat_app, C1, C2. cbn. symmetry. apply vslice_app; lia.
Qed.

Lemma sr_full_split_ok fuel : forall r, sr_begin r <= sr_end r -> 0 < sr_cutoff r -> sr_end r - sr_begin r <= fuel ->
  exists t, full_split sr_split sr_divisible fuel r = Ok (spieces sr_split t r) /\
    forall p, In p (spieces sr_split t r) -> sr_size p <= sr_cutoff r.
Proof.
  induction fuel; intros r H C L; cbn [full_split]; destruct (sr_divisible r) eqn:D.
  - apply Nat.ltb_lt in D. unfold sr_size in D. lia.
  - exists SLeaf. split; auto. intros p [<-|[]]. apply Nat.ltb_ge in D. exact D.
  - destruct (@sr_split_ok r H) as (m & M & E & S & _). apply Nat.ltb_lt in D. unfold sr_size in D. specialize (S ltac:(lia)). rewrite E.
    destruct (IHfuel {| sr_begin := sr_begin r; sr_end := m; sr_cutoff := sr_cutoff r |}) as (t1 & E1 & P1); [cbn; lia|cbn; lia|cbn; lia|].
    destruct (IHfuel {| sr_begin := m; sr_end := sr_end r; sr_cutoff := sr_cutoff r |}) as (t2 & E2 & P2); [cbn; lia|cbn; lia|cbn; lia|].
    rewrite E1, E2. cbn [bind]. exists (SNode t1 t2). cbn [spieces]. rewrite E. split; auto.
    intros p I. apply in_app_or in I. destruct I as [I|I]; [apply (P1 p I)|apply (P2 p I)].
  - exists SLeaf. split; auto. intros p [<-|[]]. apply Nat.ltb_ge in D. exact D.
Qed.
Lemma sr_full_split_cutoff0 fuel : forall r, sr_begin r < sr_end r -> sr_cutoff r = 0 ->
  full_split sr_split sr_divisible fuel r = OutOfFuel.
Proof.
  induction fuel; intros r H C; cbn [full_split]; assert (D : sr_divisible r = true) by (apply Nat.ltb_lt; unfold sr_size; lia); rewrite D; auto.
  destruct (@sr_split_ok r (Nat.lt_le_incl _ _ H)) as (m & M & E & S1 & S2). rewrite E.
  destruct (Nat.le_gt_cases (sr_end r - sr_begin r) 1) as [L|L].
  - rewrite (S2 L). assert (Z : full_split sr_split sr_divisible fuel {| sr_begin := sr_begin r; sr_end := sr_begin r; sr_cutoff := sr_cutoff r |} = Ok [{| sr_begin := sr_begin r; sr_end := sr_begin r; sr_cutoff := sr_cutoff r |}]).
    { destruct fuel; cbn [full_split]; unfold sr_divisible at 1, sr_size; cbn [sr_begin sr_end sr_cutoff]; rewrite Nat.sub_diag, C; reflexivity. }
    rewrite Z. cbn [bind]. rewrite IHfuel; auto.
  - specialize (S1 ltac:(lia)). rewrite IHfuel; auto. cbn. lia.
Qed.

(** * Cyclic ranges *)
Open Scope Z_scope.
(** Positions of a residue class. *)
Definition residues (n : nat) (stride cycle : Z) : list nat :=
  filter (fun i => Z.of_nat i mod stride =? cycle) (seq 0 n).

Definition cr_wf (n : nat) (r : crange) : Prop := cr_n r = Z.of_nat n /\ 0 <= cr_cycle r < cr_stride r.

Lemma residues_split n s c : 0 <= c < s ->
  Permutation (residues n s c) (residues n (s * 2) c ++ residues n (s * 2) (c + s)).
Proof.
  intros H. unfold residues. induction (seq 0 n) as [|x l IH]; simpl; auto.
  assert (E : Z.of_nat x mod (s * 2) = Z.of_nat x mod s + s * ((Z.of_nat x / s) mod 2)) by (apply Z.rem_mul_r; lia).
  assert (M := Z.mod_pos_bound (Z.of_nat x) s ltac:(lia)). assert (M2 := Z.mod_pos_bound (Z.of_nat x / s) 2 ltac:(lia)).
  set (q := (Z.of_nat x / s) mod 2) in *. assert (q = 0 \/ q = 1) as [Q|Q] by lia; rewrite E, Q.
  - rewrite Z.mul_0_r, Z.add_0_r. destruct (Z.eqb_spec (Z.of_nat x mod s) c) as [C|C].
    + destruct (Z.eqb_spec (Z.of_nat x mod s) (c + s)); [lia|]. simpl. now constructor.
    + destruct (Z.eqb_spec (Z.of_nat x mod s) (c + s)); [lia|]. auto.
  - rewrite Z.mul_1_r. destruct (Z.eqb_spec (Z.of_nat x mod s) c) as [C|C].
    + destruct (Z.eqb_spec (Z.of_nat x mod s + s) c); [lia|]. destruct (Z.eqb_spec (Z.of_nat x mod s + s) (c + s)); [|lia].
      apply Permutation_cons_app. auto.
    + destruct (Z.eqb_spec (Z.of_nat x mod s + s) c); [lia|]. destruct (Z.eqb_spec (Z.of_nat x mod s + s) (c + s)); [lia|]. auto.
Qed.

Lemma residues_one n : residues n 1 0 = seq 0 n.
Proof. apply filter_all. intros x _. now rewrite Z.mod_1_r. Qed.

(** The end position: the first one of the class not below n. *)
Lemma cr_last_ok n r : cr_wf n r -> exists k, 0 <= k /\ cr_last r = cr_cycle r + k * cr_stride r /\
  (Z.of_nat n <= cr_last r) /\ (0 < k -> cr_last r - cr_stride r < Z.of_nat n).
Proof.
  intros [E H]. unfold cr_last. rewrite E. set (s := cr_stride r) in *. set (c := cr_cycle r) in *. set (N := Z.of_nat n).
  destruct (Z.le_gt_cases c N) as [L|L].
  - rewrite (Z.rem_mod_nonneg (N - c)) by lia. assert (B := Z.mod_pos_bound (N - c) s ltac:(lia)).
    assert (D := Z.div_mod (N - c) s ltac:(lia)). rewrite Z.rem_mod_nonneg by lia.
    destruct (Z.eq_dec ((N - c) mod s) 0) as [Q|Q].
    + rewrite Q, Z.sub_0_r, Z.mod_same by lia. exists ((N - c) / s). assert (0 <= (N - c) / s) by (apply Z.div_pos; lia). nia.
    + rewrite Z.mod_small by lia. exists ((N - c) / s + 1). assert (0 <= (N - c) / s) by (apply Z.div_pos; lia). nia.
  - assert (R : Z.rem (N - c) s = N - c).
    { replace (N - c) with (- (c - N)) by lia. rewrite Z.rem_opp_l by lia. rewrite Z.rem_small by lia. reflexivity. }
    rewrite R. assert (B : Z.rem (s - (N - c)) s = c - N).
    { rewrite Z.rem_mod_nonneg by lia. replace (s - (N - c)) with ((c - N) + 1 * s) by lia. rewrite Z.mod_add by lia. apply Z.mod_small. lia. }
    rewrite B. exists 0. lia.
Qed.

Lemma filter_seq_step (f : nat -> bool) a n : (forall i, (a <= i < n)%nat -> f i = false) ->
  forall m, (a <= n)%nat -> (n <= m)%nat -> filter f (seq a (m - a)) = filter f (seq n (m - n)).
Proof.
  intros H m L1 L2. replace (m - a)%nat with ((n - a) + (m - n))%nat by lia. rewrite seq_app, filter_app, filter_none.
  - simpl. now replace (a + (n - a))%nat with n by lia.
  - intros x I. apply in_seq in I. apply H. lia.
Qed.

Lemma cr_loop_ok A (l : list A) n s c : length l = n -> 0 <= c < s ->
  forall k fuel i, 0 <= i -> i mod s = c -> Z.of_nat n <= i + Z.of_nat k * s -> (0 < Z.of_nat k -> i + Z.of_nat k * s - s < Z.of_nat n) -> (k <= fuel)%nat ->
  exists vals, cr_loop fuel l s i (i + Z.of_nat k * s) = Ok vals /\
    cn_loop fuel l s i (i + Z.of_nat k * s) = Ok (combine (filter (fun j => Z.of_nat j mod s =? c) (seq (Z.to_nat i) (n - Z.to_nat i))) vals) /\
    length vals = k /\
    map Ok vals = map (vget l) (filter (fun j => Z.of_nat j mod s =? c) (seq (Z.to_nat i) (n - Z.to_nat i))).
Proof.
  intros HL Hc. induction k as [|k IH]; intros fuel i I0 IM IL IU KF.
  - exists []. assert (E : (i =? i + Z.of_nat 0 * s) = true) by (apply Z.eqb_eq; lia).
    replace (n - Z.to_nat i)%nat with 0%nat by lia. destruct fuel; cbn [cr_loop cn_loop]; rewrite E; auto.
  - destruct fuel as [|f]; [lia|]. cbn [cr_loop cn_loop].
    destruct (Z.eqb_spec i (i + Z.of_nat (S k) * s)); [nia|].
    assert (IN : i < Z.of_nat n) by nia.
    unfold zget. destruct (Z.ltb_spec i 0); [lia|].
    destruct (vget_lt l (i := Z.to_nat i)) as [x X]; [lia|]. rewrite X. cbn [bind].
    replace (i + Z.of_nat (S k) * s) with (i + s + Z.of_nat k * s) by lia.
    destruct (IH f (i + s)) as (vals & V1 & V2 & V3 & V4); try lia.
    { rewrite <- IM. replace (i + s) with (i + 1 * s) by lia. apply Z.mod_add. lia. }
    rewrite V1, V2. cbn [bind]. exists (x :: vals).
    assert (FS : filter (fun j => Z.of_nat j mod s =? c) (seq (Z.to_nat i) (n - Z.to_nat i)) =
      Z.to_nat i :: filter (fun j => Z.of_nat j mod s =? c) (seq (Z.to_nat (i + s)) (n - Z.to_nat (i + s)))).
    { replace (n - Z.to_nat i)%nat with (S (n - S (Z.to_nat i))) by lia. cbn [seq filter]. rewrite Z2Nat.id, IM, Z.eqb_refl by lia. f_equal.
      assert (NO : forall j, (S (Z.to_nat i) <= j < Z.to_nat (i + s))%nat -> (Z.of_nat j mod s =? c) = false).
      { intros j J. apply Z.eqb_neq. intros Q. assert (D1 := Z.div_mod i s ltac:(lia)). assert (D2 := Z.div_mod (Z.of_nat j) s ltac:(lia)).
        rewrite IM in D1. rewrite Q in D2. assert (i < Z.of_nat j < i + s) by lia.
        assert (i / s < Z.of_nat j / s) by (apply Z.mul_lt_mono_pos_l with s; lia).
        assert (Z.of_nat j / s < i / s + 1) by (apply Z.mul_lt_mono_pos_l with s; lia). lia. }
      destruct (Nat.le_gt_cases (Z.to_nat (i + s)) n).
      - apply filter_seq_step; auto; lia.
      - replace (n - Z.to_nat (i + s))%nat with 0%nat by lia. simpl. apply filter_none. intros j J. apply in_seq in J. apply NO. lia. }
    rewrite FS. split; auto. split; auto. split; [simpl; lia|]. simpl. rewrite V4, X. reflexivity.
Qed.

Lemma cr_visit_ok A (l : list A) n r fuel : length l = n -> cr_wf n r -> (n <= fuel)%nat ->
  exists vals, cr_visit fuel l r = Ok vals /\ cn_visit fuel l r = Ok (combine (residues n (cr_stride r) (cr_cycle r)) vals) /\
    map Ok vals = map (vget l) (residues n (cr_stride r) (cr_cycle r)).
Proof.
  intros HL W HF. destruct (cr_last_ok W) as (k & K0 & KE & KL & KU). destruct W as [EN W].
  assert (KN : (Z.to_nat k <= n)%nat).
  { destruct (Z.eq_dec k 0); [lia|]. specialize (KU ltac:(lia)). rewrite KE in KU. nia. }
  destruct (@cr_loop_ok A l n (cr_stride r) (cr_cycle r) HL W (Z.to_nat k) fuel (cr_cycle r)) as (vals & V1 & V2 & V3 & V4); rewrite ?Z2Nat.id by lia; try lia.
  - apply Z.mod_small. lia.
  - rewrite Z2Nat.id in V1, V2 by lia. unfold cr_visit, cn_visit, cr_first. rewrite <- KE in *.
    assert (Q : filter (fun j => Z.of_nat j mod cr_stride r =? cr_cycle r) (seq (Z.to_nat (cr_cycle r)) (n - Z.to_nat (cr_cycle r))) = residues n (cr_stride r) (cr_cycle r)).
    { unfold residues. set (c := Z.to_nat (cr_cycle r)).
      assert (NO : forall j, (0 <= j < c)%nat -> (Z.of_nat j mod cr_stride r =? cr_cycle r) = false).
      { intros j J. apply Z.eqb_neq. rewrite Z.mod_small; lia. }
      destruct (Nat.le_gt_cases c n).
      - symmetry. rewrite <- (Nat.sub_0_r n) at 1. apply filter_seq_step; auto; lia.
      - replace (n - c)%nat with 0%nat by lia. simpl. symmetry. apply filter_none. intros j J. apply in_seq in J. apply NO. lia. }
    rewrite Q in *. exists vals. auto.
Qed.

Lemma residues_count n s c : 0 <= c < s ->
  Z.of_nat (length (residues n s c)) = Z.of_nat n / s + (if c <? Z.of_nat n mod s then 1 else 0).
Proof.
  intros H. induction n.
  - unfold residues. simpl. rewrite ?Z.div_0_l, Z.mod_0_l by lia. destruct (Z.ltb_spec c 0); lia.
  - unfold residues in *. rewrite seq_S_app, filter_app, app_length, Nat2Z.inj_add, IHn. simpl filter.
    replace (Z.of_nat (S n)) with (Z.of_nat n + 1) by lia. set (N := Z.of_nat n) in *.
    assert (B := Z.mod_pos_bound N s ltac:(lia)). assert (D := Z.div_mod N s ltac:(lia)).
    destruct (Z.eq_dec (N mod s + 1) s) as [E|E].
    + assert (D' : (N + 1) / s = N / s + 1) by (symmetry; apply Z.div_unique with 0; lia).
      assert (M' : (N + 1) mod s = 0) by (symmetry; apply Z.mod_unique with (N / s + 1); lia).
      rewrite D', M'. destruct (Z.eqb_spec (N mod s) c), (Z.ltb_spec c (N mod s)), (Z.ltb_spec c 0); simpl length; lia.
    + assert (D' : (N + 1) / s = N / s) by (symmetry; apply Z.div_unique with (N mod s + 1); lia).
      assert (M' : (N + 1) mod s = N mod s + 1) by (symmetry; apply Z.mod_unique with (N / s); lia).
      rewrite D', M'. destruct (Z.eqb_spec (N mod s) c), (Z.ltb_spec c (N mod s)), (Z.ltb_spec c (N mod s + 1)); simpl length; lia.
Qed.

Lemma cr_size_ok n r : cr_wf n r -> cr_size r = Z.of_nat (length (residues n (cr_stride r) (cr_cycle r))).
Proof.
  intros [E H]. unfold cr_size. rewrite residues_count, E by auto. rewrite Z.quot_div_nonneg, Z.rem_mod_nonneg by lia. reflexivity.
Qed.

Lemma cr_split_wf n r : cr_wf n r -> cr_wf n (fst (cr_split r)) /\ cr_wf n (snd (cr_split r)).
Proof. intros [E H]. unfold cr_wf, cr_split. simpl. lia. Qed.

Lemma cr_pieces_ok n : forall t r, cr_wf n r ->
  (forall p, In p (spieces cr_split t r) -> cr_wf n p) /\
  Permutation (concat (map (fun p => residues n (cr_stride p) (cr_cycle p)) (spieces cr_split t r))) (residues n (cr_stride r) (cr_cycle r)).
Proof.
  induction t as [|t1 IH1 t2 IH2]; intros r W; cbn [spieces].
  - split; [intros p [<-|[]]; auto|]. simpl. now rewrite app_nil_r.
  - destruct (cr_split_wf W) as [W1 W2]. destruct (cr_split r) as [a b] eqn:E. simpl in W1, W2.
    destruct (IH1 a W1) as [B1 P1], (IH2 b W2) as [B2 P2]. split.
    + intros p I. apply in_app_or in I. destruct I; auto.
    + rewrite map_app, concat_app, P1, P2. injection E as <- <-. simpl. symmetry. apply residues_split. apply W.
Qed.

(** Full splitting: 2^d pieces. *)
Lemma cr_full_split_ok d : forall r, 0 < cr_stride r -> cr_cutoff r = cr_stride r * 2 ^ (Z.of_nat d - 1) -> (0 < d)%nat \/ cr_cutoff r < cr_stride r ->
  exists t, full_split cr_split cr_divisible d r = Ok (spieces cr_split t r) /\
    length (spieces cr_split t r) = (2 ^ d)%nat /\
    forall p, In p (spieces cr_split t r) -> cr_stride p = cr_stride r * 2 ^ Z.of_nat d.
Proof.
  induction d; intros r P C HD.
  - cbn [full_split]. unfold cr_divisible. destruct (Z.leb_spec (cr_stride r) (cr_cutoff r)); [lia|].
    exists SLeaf. split; auto. split; auto. intros p [<-|[]]. simpl. lia.
  - cbn [full_split]. assert (D : cr_divisible r = true).
    { apply Z.leb_le. rewrite C. replace (Z.of_nat (S d) - 1) with (Z.of_nat d) by lia. assert (0 < 2 ^ Z.of_nat d) by (apply Z.pow_pos_nonneg; lia). nia. }
    rewrite D. destruct (cr_split r) as [a b] eqn:E.
    assert (SA : cr_stride a = cr_stride r * 2) by (injection E as <- <-; reflexivity).
    assert (SB : cr_stride b = cr_stride r * 2) by (injection E as <- <-; reflexivity).
    assert (CA : cr_cutoff a = cr_cutoff r) by (injection E as <- <-; reflexivity).
    assert (CB : cr_cutoff b = cr_cutoff r) by (injection E as <- <-; reflexivity).
    assert (Q : cr_cutoff r = cr_stride r * 2 * 2 ^ (Z.of_nat d - 1) /\ ((0 < d)%nat \/ cr_cutoff r < cr_stride r * 2) \/ d = 0%nat /\ cr_cutoff r = cr_stride r).
    { rewrite C. replace (Z.of_nat (S d) - 1) with (Z.of_nat d) by lia. destruct d; [right; simpl; lia|].
      left. split; [|lia]. replace (Z.of_nat (S d)) with (1 + (Z.of_nat (S d) - 1)) at 1 by lia. rewrite Z.pow_add_r by lia. lia. }
    assert (IH : forall x, cr_stride x = cr_stride r * 2 -> cr_cutoff x = cr_cutoff r ->
      exists t, full_split cr_split cr_divisible d x = Ok (spieces cr_split t x) /\ length (spieces cr_split t x) = (2 ^ d)%nat /\
        forall p, In p (spieces cr_split t x) -> cr_stride p = cr_stride r * 2 * 2 ^ Z.of_nat d).
    { intros x SX CX. destruct Q as [[Q1 Q2]|[Q1 Q2]].
      - destruct (IHd x) as (t & E1 & L1 & S1); try (rewrite ?SX, ?CX; auto; lia). exists t. rewrite <- SX. auto.
      - subst d. exists SLeaf. cbn [full_split spieces]. unfold cr_divisible. rewrite SX, CX. destruct (Z.leb_spec (cr_stride r * 2) (cr_cutoff r)); [lia|].
        split; auto. split; auto. intros p [<-|[]]. simpl. lia. }
    destruct (IH a SA CA) as (t1 & E1 & L1 & S1), (IH b SB CB) as (t2 & E2 & L2 & S2).
    rewrite E1, E2. cbn [bind]. exists (SNode t1 t2). cbn [spieces]. rewrite E. split; auto. split.
    + rewrite app_length, L1, L2. simpl. lia.
    + intros p I. replace (Z.of_nat (S d)) with (1 + Z.of_nat d) by lia. rewrite Z.pow_add_r by lia.
      apply in_app_or in I. destruct I as [I|I]; [rewrite (S1 p I)|rewrite (S2 p I)]; lia.
Qed.

Close Scope Z_scope.
