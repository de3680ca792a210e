(** More lemmas for C69: convergence of the power iteration, the parts of v4, the degrees of vc, Gauss-Seidel (v2). *)
From Coq Require Import List Arith ZArith QArith Qabs Lqa Lia Bool Permutation.
From Verif Require Import Base Pool RangeModel PforModel PageRankModel PageRankLib PageRankProofs PageRankProperties XprModel XprProofs.
Import ListNotations.
Set Implicit Arguments.
Local Open Scope nat_scope.

(** ** Convergence *)
Section Conv.
Variables (g : list (list nat)) (deg : nat -> nat) (d : Q).
Notation n := (length g).
Notation dist y a := (qs n (fun i => Qabs (y i - a i))%Q).
Hypothesis IN : pr_input g deg d.

Lemma rhs_contract x y : (dist (pr_rhs g deg d x) (pr_rhs g deg d y) <= d * dist x y)%Q.
Proof.
  eapply Qle_trans; [|apply (dmul IN); apply (qs_share IN); intros; apply Qabs_nonneg]. rewrite <- qs_mul. apply qs_le. intros i Hi. unfold pr_rhs.
  setoid_replace ((1 - d) / qn n + d * qsum (map (share x deg) (nth i g [])) - ((1 - d) / qn n + d * qsum (map (share y deg) (nth i g []))))%Q
    with (d * (qsum (map (share x deg) (nth i g [])) - qsum (map (share y deg) (nth i g []))))%Q by ring.
  rewrite share_sub, Qabs_Qmult, (Qabs_pos d) by apply IN. apply (dmul IN). apply share_abs.
Qed.
Lemma power_dist x : pagerank g deg d x -> forall k, (dist (power g deg d k) x <= qpow d k * dist (fun _ => 1 / qn n)%Q x)%Q.
Proof.
  intros P. induction k as [|k IH]; [cbn [power qpow]; rewrite Qmult_1_l; apply Qle_refl|]. cbn [power qpow].
  rewrite (@qs_ext n _ (fun i => Qabs (pr_rhs g deg d (power g deg d k) i - pr_rhs g deg d x i))%Q) by (intros i Hi; rewrite (P i Hi) at 1; reflexivity).
  eapply Qle_trans; [apply rhs_contract|]. rewrite <- Qmult_assoc. now apply (dmul IN).
Qed.
Lemma change_dist k : (change g deg d k <= qpow d k * change g deg d 0)%Q.
Proof.
  induction k as [|k IH]; cbn [qpow]; [rewrite Qmult_1_l; apply Qle_refl|]. eapply Qle_trans; [apply rhs_contract|]. rewrite <- Qmult_assoc. now apply (dmul IN).
Qed.
Lemma qs_one : (0 < n) -> (qs n (fun _ => 1 / qn n) == 1)%Q.
Proof. intros N. rewrite qs_const. assert (P := qn_pos N). field. lra. Qed.
Lemma change_0 : (change g deg d 0 <= 2 * d)%Q.
Proof.
  destruct (Nat.eq_dec n 0) as [E|E]; [unfold change; rewrite E; unfold qs; cbn [seq map qsum]; assert (X := pi_d0 IN); lra|].
  assert (N : 0 < n) by lia. assert (NP := qn_pos N). assert (D0 := pi_d0 IN). assert (U : (0 <= 1 / qn n)%Q) by (apply Qle_shift_div_l; lra).
  set (S0 := fun i => qsum (map (share (fun _ => 1 / qn n) deg) (nth i g []))%Q).
  assert (NN : forall i, (0 <= S0 i)%Q). { intros i. apply qsum_map_nn. intros j _. now apply div_nn. }
  assert (B : (change g deg d 0 <= qs n (fun i => d * S0 i + d * (1 / qn n)))%Q).
  { apply qs_le. intros i Hi. cbn [power]. unfold pr_rhs. fold (S0 i). setoid_replace ((1 - d) / qn n + d * S0 i - 1 / qn n)%Q with (d * S0 i - d * (1 / qn n))%Q by (field; lra).
    assert (X := NN i). apply Qabs_case; intros _; nra. }
  rewrite qs_add, !qs_mul, qs_one in B by auto. assert (X : (qs n S0 <= 1)%Q) by (rewrite <- (qs_one N); apply (qs_share IN); auto). nra.
Qed.
Lemma start_dist x : pagerank g deg d x -> (dist (fun _ => 1 / qn n)%Q x <= 2)%Q.
Proof.
  intros P. destruct (Nat.eq_dec n 0) as [E|E]; [rewrite E; unfold qs; cbn [seq map qsum]; lra|]. assert (N : 0 < n) by lia. assert (NP := qn_pos N).
  assert (U : (0 <= 1 / qn n)%Q) by (apply Qle_shift_div_l; lra). assert (S1 := pagerank_sum IN P N).
  eapply Qle_trans; [apply (@qs_le n _ (fun i => 1 / qn n + x i)%Q)|rewrite qs_add, qs_one by auto; lra].
  intros i Hi. assert (X := pagerank_nn IN P Hi). apply Qabs_case; intros _; lra.
Qed.
Lemma qpow_le k m : k <= m -> (qpow d m <= qpow d k)%Q.
Proof.
  intros H. induction H as [|m H IH]; [apply Qle_refl|]. cbn [qpow]. assert (D0 := pi_d0 IN). assert (D1 := pi_d1 IN). assert (Q0 := @qpow_nn d m D0). nra.
Qed.
Lemma qpow_small_d c : (0 < c)%Q -> exists m, (qpow d m < c)%Q.
Proof.
  intros C. assert (D0 := pi_d0 IN). assert (D1 := pi_d1 IN). destruct (@qpow_small d (1 - d) c) as (m & H); try lra. exists m.
  assert (E : forall k, (qpow (1 - (1 - d)) k == qpow d k)%Q) by (induction k as [|k IH]; cbn [qpow]; [reflexivity|rewrite IH; ring]). now rewrite <- E.
Qed.
End Conv.

(** ** The threads of v4 *)
Lemma strided_in T N : 0 < T -> forall fuel i j, N - i <= fuel -> (In j (strided fuel i T N) <-> i <= j < N /\ exists q, j = i + q * T).
Proof.
  intros HT. induction fuel as [|f IH]; intros i j F; cbn [strided].
  - split; [intros []|intros (H & _)]. lia.
  - destruct (Nat.ltb_spec i N) as [L|G]; [|split; [intros []|intros (H & _); lia]]. cbn [In]. rewrite IH by lia. split.
    + intros [<-|((A & B) & q & ->)]; [split; [lia|exists 0; lia]|]. split; [lia|]. exists (S q). lia.
    + intros ((A & B) & q & ->). destruct q as [|q]; [left; lia|right]. split; [nia|]. exists q. lia.
Qed.
Lemma strided_nodup T N : 0 < T -> forall fuel i, N - i <= fuel -> NoDup (strided fuel i T N).
Proof.
  intros HT. induction fuel as [|f IH]; intros i F; cbn [strided]; [constructor|]. destruct (Nat.ltb_spec i N) as [L|G]; constructor; [|apply IH; lia].
  rewrite strided_in by lia. intros ((A & _) & _). lia.
Qed.
Lemma strided_parts T N : 0 < T -> Permutation (concat (map (fun t => strided N t T N) (seq 0 T))) (seq 0 N).
Proof.
  intros HT. apply NoDup_Permutation; [|apply seq_NoDup|].
  - rewrite <- flat_map_concat_map. assert (X : forall m s, s + m <= T -> NoDup (flat_map (fun t => strided N t T N) (seq s m))).
    { induction m as [|m IH]; intros s H; cbn [seq flat_map]; [constructor|].
      assert (ND := @strided_nodup T N HT N s ltac:(lia)). assert (IH' := IH (S s) ltac:(lia)).
      assert (DJ : forall x, In x (strided N s T N) -> ~ In x (flat_map (fun t => strided N t T N) (seq (S s) m))).
      { intros x I J. apply in_flat_map in J. destruct J as (t & J & K). apply in_seq in J. rewrite strided_in in I, K by lia. destruct I as (_ & q & E). destruct K as (_ & q' & E').
        assert (x mod T = s) by (rewrite E, Nat.mod_add by lia; apply Nat.mod_small; lia). assert (x mod T = t) by (rewrite E', Nat.mod_add by lia; apply Nat.mod_small; lia). lia. }
      revert ND DJ. generalize (strided N s T N). induction l as [|x l IHl]; intros ND DJ; auto. cbn [app]. inversion ND; subst. constructor.
      - rewrite in_app_iff. intros [I|I]; auto. exact (DJ x (or_introl eq_refl) I).
      - apply IHl; auto. intros y I. apply DJ. now right. }
    apply X. lia.
  - intros j. rewrite <- flat_map_concat_map, in_flat_map, in_seq. split.
    + intros (t & I & J). apply in_seq in I. rewrite strided_in in J by lia. lia.
    + intros (_ & H). exists (j mod T). assert (M := Nat.mod_upper_bound j T ltac:(lia)). split; [apply in_seq; lia|]. rewrite strided_in by lia.
      assert (E := Nat.div_mod j T ltac:(lia)). split; [lia|]. exists (j / T). lia.
Qed.

(** ** The degrees of vc *)
Lemma count_deg_ok g N : (forall j, In j (concat g) -> j < N) -> exists dg, count_deg g N = Ok dg /\ length dg = N /\ forall j, j < N -> nth j dg 0 = occ g j.
Proof.
  intros H. unfold count_deg. assert (X : forall l dg0, (forall j, In j l -> j < length dg0) -> exists dg, rfold (fun dg j => do x <- vget dg j ; vset dg j (S x)) l dg0 = Ok dg /\ length dg = length dg0 /\
    forall j, nth j dg 0 = nth j dg0 0 + (if j <? length dg0 then count_occ Nat.eq_dec l j else 0)).
  { induction l as [|k l IH]; intros dg0 HB; cbn [rfold].
    - exists dg0. split; auto. split; auto. intros j. cbn [count_occ]. destruct (j <? length dg0); lia.
    - assert (Lk := HB k (or_introl eq_refl)). rewrite (@vget_nth _ dg0 k 0) by auto. cbn [bind]. rewrite vset_lt by auto. cbn [bind].
      destruct (IH (upd dg0 k (S (nth k dg0 0)))) as (dg & E & L & V); [intros j I; rewrite upd_length; apply HB; now right|]. rewrite upd_length in *. exists dg. split; auto. split; auto.
      intros j. rewrite V. cbn [count_occ]. destruct (Nat.eq_dec k j) as [->|NE].
      + rewrite nth_upd_eq by auto. replace (j <? length dg0) with true by (symmetry; apply Nat.ltb_lt; auto). lia.
      + rewrite nth_upd_neq by auto. reflexivity. }
  destruct (X (concat g) (repeat 0 N)) as (dg & E & L & V); [intros j I; rewrite repeat_length; auto|]. rewrite repeat_length in *. exists dg. split; auto. split; auto.
  intros j Hj. rewrite V, nth_repeat. replace (j <? N) with true by (symmetry; apply Nat.ltb_lt; auto). cbn [Nat.add]. unfold occ. clear. induction g as [|row g IH]; auto. cbn [concat map list_sum fold_right].
  rewrite count_occ_app, IH. reflexivity.
Qed.

(** ** Gauss-Seidel (v2) *)
(** One sweep over the vertices in order, from the values o to y: earlier vertices count with their new value. *)
Definition gs_step (g : list (list nat)) (deg : nat -> nat) (d : Q) (o y : nat -> Q) : Prop := forall i, i < length g ->
  (y i == (1 - d) / qn (length g) + d * qsum (map (share (fun j => if j <? i then y j else o j) deg) (nth i g [])))%Q.
(** k > 0 sweeps, the first from zero *)
Inductive gsweeps (g : list (list nat)) (deg : nat -> nat) (d : Q) : nat -> (nat -> Q) -> Prop :=
  | gs_1 y : gs_step g deg d (fun _ => 0%Q) y -> gsweeps g deg d 1 y
  | gs_S k b y : gsweeps g deg d k b -> gs_step g deg d b y -> gsweeps g deg d (S k) y.

Section GS.
Variables (g : list (list nat)) (deg : list nat) (d : Q).
Notation n := (length g).
Notation degf := (fun j => nth j deg 0).
Notation base := ((1 - d) / qn n)%Q.
Notation dist y a := (qs n (fun i => Qabs (y i - a i))%Q).
Hypothesis IN : pr_input g degf d.
Hypothesis LD : n <= length deg.
Variables (r o : nat -> Q).

Record gst (m : nat) (st : prst) (y : nat -> Q) : Prop := {
  g_len : length (pr_rank st) = n;
  g_olen : length (pr_out st) = n;
  g_rank : forall i, i < n -> nth_error (pr_rank st) i = Some (Some (y i));
  g_old : forall i, m <= i -> i < n -> y i = r i;
  g_out : forall j, j < n -> 0 < degf j -> exists w, nth_error (pr_out st) j = Some (Some w) /\ (w == share (fun j => if j <? m then y j else o j) degf j)%Q;
  g_new : forall i, i < m -> (y i == base + d * qsum (map (share (fun j => if j <? i then y j else o j) degf) (nth i g [])))%Q;
  g_err : exists e, pr_err st = Some e /\ (e == dist y r)%Q
}.
Lemma gs_sum m st y i : gst m st y -> exists z, row_sum (pr_out st) SL (nth i g []) = Ok (Some z) /\ (z == qsum (map (share (fun j => if j <? m then y j else o j) degf) (nth i g [])))%Q.
Proof.
  intros W. cbn [row_sum]. assert (HI : forall j, In j (nth i g []) -> In j (nth i g [])) by auto. revert HI. generalize (nth i g []) at 1 3 4 as l.
  assert (X : forall l z0, (forall j, In j l -> In j (nth i g [])) -> exists z, rfold (fun z j => do c <- vget (pr_out st) j ; Ok (oplus z c)) l (Some z0) = Ok (Some z) /\ (z == z0 + qsum (map (share (fun j => if j <? m then y j else o j) degf) l))%Q).
  { induction l as [|j l IH]; intros z0 HI; cbn [rfold map qsum]; [exists z0; split; auto; lra|].
    assert (I := HI j (or_introl eq_refl)). assert (Lj := pi_tgt IN i j I). assert (DJ := @occ_in g deg d IN LD n (le_n _) i j I). cbn beta in DJ.
    destruct (g_out W Lj DJ) as (w & EW & QW). rewrite (proj2 (vget_Ok _ _ _) EW). cbn [bind]. unfold oplus at 2. cbn [olift2].
    destruct (IH (z0 + w)%Q) as (z & E & Z); [intros; apply HI; now right|]. exists z. split; auto. rewrite Z, QW. lra. }
  intros l HI. destruct (X l 0%Q HI) as (z & E & Z). exists z. split; auto. lra.
Qed.
Lemma gs_vertex_ok m st y : m < n -> gst m st y -> exists st' y', gs_vertex g deg base d st m = Ok st' /\ gst (S m) st' y'.
Proof.
  intros Hm W. unfold gs_vertex. rewrite (@vget_nth _ g m []) by auto. cbn [bind]. destruct (gs_sum m W) as (z & E & Z). rewrite E. cbn [bind].
  rewrite (proj2 (vget_Ok _ _ _) (g_rank W Hm)). cbn [bind]. rewrite vset_lt by (rewrite (g_len W); auto). cbn [bind]. rewrite (@vget_nth _ deg m 0) by lia. cbn [bind].
  rewrite vset_lt by (rewrite (g_olen W); auto). cbn [bind]. unfold new_rank, oplus, gap. cbn [olift2]. set (new := (base + d * z)%Q).
  eexists _, (fun k => if k =? m then new else y k). split; [reflexivity|].
  assert (SH : forall i, i <= m -> (qsum (map (share (fun j => if j <? i then (if j =? m then new else y j) else o j) degf) (nth i g [])) == qsum (map (share (fun j => if j <? i then y j else o j) degf) (nth i g [])))%Q).
  { intros i Hi. apply qsum_map_ext. intros j _. unfold share. destruct (Nat.ltb_spec j i); [|reflexivity]. destruct (Nat.eqb_spec j m); [lia|reflexivity]. }
  constructor; cbn [pr_rank pr_out pr_err].
  - rewrite upd_length. apply W.
  - rewrite upd_length. apply W.
  - intros k Hk. destruct (Nat.eqb_spec k m) as [->|N]; [apply vget_Ok, vget_upd_eq; rewrite (g_len W); auto|]. apply vget_Ok. rewrite vget_upd_neq by auto. apply vget_Ok. now apply W.
  - intros k H1 H2. destruct (Nat.eqb_spec k m); [lia|]. apply W; lia.
  - intros j Hj DJ. destruct (Nat.eq_dec j m) as [->|N].
    + exists (new / qnat (nth m deg 0%nat))%Q. split.
      * apply vget_Ok. rewrite vget_upd_eq by (rewrite (g_olen W); auto). unfold odivn. destruct (Nat.eqb_spec (nth m deg 0) 0); [lia|reflexivity].
      * unfold share. rewrite Nat.eqb_refl. replace (m <? S m) with true by (symmetry; apply Nat.ltb_lt; lia). reflexivity.
    + destruct (g_out W Hj DJ) as (w & EW & QW). exists w. split; [apply vget_Ok; rewrite vget_upd_neq by auto; now apply vget_Ok|]. rewrite QW. unfold share.
      destruct (Nat.eqb_spec j m); [contradiction|]. destruct (Nat.ltb_spec j m), (Nat.ltb_spec j (S m)); try lia; reflexivity.
  - intros i Hi. rewrite SH by lia. destruct (Nat.eqb_spec i m) as [->|N]; [unfold new; rewrite Z; reflexivity|]. apply (g_new W). lia.
  - destruct (g_err W) as (e & EE & EQ). rewrite EE. cbn [olift2]. eexists. split; [reflexivity|]. rewrite EQ.
    assert (YM : y m = r m) by (apply (g_old W); lia). rewrite YM.
    assert (DL := @qs_delta n m (Qabs (new - r m)) Hm). rewrite <- DL. rewrite <- qs_add. apply qs_ext. intros k Hk.
    destruct (Nat.eq_dec m k) as [<-|N].
    + rewrite Nat.eqb_refl, YM. setoid_replace (r m - r m)%Q with 0%Q by lra. change (Qabs 0) with 0%Q. lra.
    + destruct (Nat.eqb_spec k m); [congruence|]. lra.
Qed.
Lemma gs_sweep_ok st : gst 0 (mkPr (pr_rank st) (pr_out st) (Some 0%Q)) r -> exists st' y, rfold (gs_vertex g deg base d) (seq 0 n) (mkPr (pr_rank st) (pr_out st) (Some 0%Q)) = Ok st' /\ gst n st' y.
Proof.
  intros W. assert (X : forall m, m <= n -> exists st' y, rfold (gs_vertex g deg base d) (seq 0 m) (mkPr (pr_rank st) (pr_out st) (Some 0%Q)) = Ok st' /\ gst m st' y).
  { induction m as [|m IH]; intros H; [eexists _, r; split; [reflexivity|auto]|]. rewrite seq_S, rfold_app. destruct (IH ltac:(lia)) as (st' & y & E & W'). rewrite E. cbn [bind rfold Nat.add].
    destruct (@gs_vertex_ok m st' y ltac:(lia) W') as (st2 & y2 & E2 & W2). rewrite E2. cbn [bind]. eauto. }
  apply X. auto.
Qed.
End GS.

Section V2.
Variables (g : list (list nat)) (deg : list nat) (d thr : Q).
Notation n := (length g).
Notation degf := (fun j => nth j deg 0).
Notation base := ((1 - d) / qn n)%Q.
Notation dist y a := (qs n (fun i => Qabs (y i - a i))%Q).
Hypothesis IN : pr_input g degf d.
Hypothesis LD : n <= length deg.

Definition v2_state (k : nat) (st : prst) (y : nat -> Q) : Prop :=
  length (pr_rank st) = n /\ length (pr_out st) = n /\ (forall i, i < n -> nth_error (pr_rank st) i = Some (Some (y i))) /\
  (forall j, j < n -> 0 < degf j -> exists w, nth_error (pr_out st) j = Some (Some w) /\ (w == share (if k =? 0 then fun _ => 0%Q else y) degf j)%Q) /\
  (if k =? 0 then forall i, y i = (1 / qn n)%Q else gsweeps g degf d k y).
(** One sweep of v2: where it starts, and how far it moves the scores. *)
Definition v2_last (k : nat) (y : nat -> Q) (e : Q) : Prop :=
  match k with
  | 0 => False
  | 1 => gsweeps g degf d 1 y /\ (e == dist y (fun _ => 1 / qn n)%Q)%Q
  | S k => exists b, gsweeps g degf d k b /\ gs_step g degf d b y /\ (e == dist y b)%Q
  end.

Lemma v2_sweep_ok k st b : v2_state k st b ->
  exists st' y e, rfold (gs_vertex g deg base d) (seq 0 n) (mkPr (pr_rank st) (pr_out st) (Some 0%Q)) = Ok st' /\ v2_state (S k) st' y /\ pr_err st' = Some e /\ v2_last (S k) y e.
Proof.
  intros (H1 & H2 & H3 & H4 & H5). destruct (@gs_sweep_ok g deg d IN LD b (if k =? 0 then fun _ => 0%Q else b) st) as (st' & y & E & W).
  - constructor; cbn [pr_rank pr_out pr_err]; auto.
    + intros i Hi. lia.
    + exists 0%Q. split; auto. rewrite (@qs_ext n _ (fun _ => 0%Q)); [rewrite qs_const; lra|]. intros i _. setoid_replace (b i - b i)%Q with 0%Q by lra. reflexivity.
  - destruct (g_err W) as (e & EE & EQ). exists st', y, e. split; auto. assert (ST : gs_step g degf d (if k =? 0 then fun _ => 0%Q else b) y) by (intros i Hi; apply (g_new W Hi)).
    split; [|split; auto].
    + split; [apply W|]. split; [apply W|]. split; [apply W|]. split.
      * intros j Hj DJ. destruct (g_out W Hj DJ) as (w & EW & QW). exists w. split; auto. rewrite QW. cbn [Nat.eqb]. unfold share. replace (j <? n) with true by (symmetry; now apply Nat.ltb_lt). reflexivity.
      * cbn [Nat.eqb]. destruct k as [|k]; cbn [Nat.eqb] in *; [now constructor|econstructor; eauto].
    + destruct k as [|k]; cbn [Nat.eqb v2_last] in *.
      * split; [now constructor|]. rewrite EQ. apply qs_ext. intros i _. now rewrite H5.
      * exists b. auto.
Qed.

Lemma v2_loop_ok : forall todo k st b, v2_state k st b -> (0 < k -> exists e, v2_last k b e /\ (thr <= e)%Q) ->
  exists out y, xpr_loop (fun _ st => rfold (gs_vertex g deg base d) (seq 0 n) (mkPr (pr_rank st) (pr_out st) (Some 0%Q))) thr todo k st = Ok out /\
    length (o_rank out) = n /\ (forall i, i < n -> nth_error (o_rank out) i = Some (Some (y i))) /\ o_sweeps out <= k + todo /\ (o_conv out = false -> o_sweeps out = k + todo) /\
    (o_sweeps out = 0 -> forall i, y i = (1 / qn n)%Q) /\ (0 < o_sweeps out -> gsweeps g degf d (o_sweeps out) y) /\
    (o_conv out = true -> exists e, v2_last (o_sweeps out) y e /\ (e < thr)%Q) /\ (o_conv out = false -> 0 < o_sweeps out -> exists e, v2_last (o_sweeps out) y e /\ (thr <= e)%Q).
Proof.
  induction todo as [|m IH]; intros k st b W HT; cbn [xpr_loop].
  - exists (mkOut (pr_rank st) k false), b. cbn [o_rank o_sweeps o_conv]. destruct W as (H1 & H2 & H3 & H4 & H5). split; auto. split; auto. split; auto. split; [lia|]. split; [intros; lia|]. split; [intros ->; exact H5|].
    split; [|split; auto; discriminate]. intros HK. destruct (Nat.eqb_spec k 0); [lia|auto].
  - destruct (v2_sweep_ok W) as (st' & y & e & E & W' & EE & LA). rewrite E. cbn [bind]. rewrite EE. cbn [oltb]. destruct (Qle_bool thr e) eqn:T; cbn [negb].
    + apply Qle_bool_iff in T. destruct (IH (S k) st' y W') as (out & y' & R & X); [intros _; exists e; auto|]. exists out, y'. split; auto. replace (k + S m) with (S k + m) by lia. exact X.
    + assert (T' : (e < thr)%Q) by (apply Qnot_le_lt; intros X; apply Qle_bool_iff in X; congruence).
      exists (mkOut (pr_rank st') (S k) true), y. cbn [o_rank o_sweeps o_conv]. destruct W' as (H1 & H2 & H3 & H4 & H5). cbn [Nat.eqb] in H5.
      split; auto. split; auto. split; auto. split; [lia|]. split; [discriminate|]. split; [discriminate|]. split; auto. split; [exists e; auto|discriminate].
Qed.

Lemma gs_async o y : gs_step g degf d o y -> async g degf d o y.
Proof.
  intros H i Hi. exists (map (fun j => (j, if j <? i then y j else o j)) (nth i g [])). split; [rewrite map_map; apply map_id|]. split.
  - intros j b I. apply in_map_iff in I. destruct I as (k & E & _). injection E as <- <-. destruct (k <? i); [right|left]; reflexivity.
  - rewrite (H i Hi), map_map. reflexivity.
Qed.
Lemma gs_below x o y : pagerank g degf d x -> (forall i, i < n -> (0 <= o i <= x i)%Q) -> gs_step g degf d o y -> forall i, i < n -> (0 <= y i <= x i)%Q.
Proof.
  intros P HO ST. induction i as [i IH] using lt_wf_ind. intros Hi. rewrite (ST i Hi), (P i Hi). assert (B := base_nn IN). unfold pr_rhs.
  assert (V : forall j, In j (nth i g []) -> (0 <= (if j <? i then y j else o j) <= x j)%Q).
  { intros j I. assert (Lj := pi_tgt IN i j I). destruct (Nat.ltb_spec j i); [apply IH|apply HO]; auto. }
  assert (Z : (0 <= qsum (map (share (fun j => if j <? i then y j else o j) degf) (nth i g [])))%Q) by (apply qsum_map_nn; intros j I; apply div_nn, V; auto).
  assert (U := @share_le degf (fun j => if j <? i then y j else o j) x (nth i g []) (fun j I => proj2 (V j I))).
  assert (D0 := pi_d0 IN). split; nra.
Qed.
Lemma gsweeps_below x k y : pagerank g degf d x -> gsweeps g degf d k y -> forall i, i < n -> (0 <= y i <= x i)%Q.
Proof.
  intros P. induction 1 as [y ST|k b y GS IH ST]; eapply gs_below; eauto. intros i Hi. split; [apply Qle_refl|apply (pagerank_nn IN P Hi)].
Qed.
Lemma gsweeps_geometric x k y : pagerank g degf d x -> gsweeps g degf d k y -> forall i, i < n -> (Qabs (y i - x i) <= qpow (1 - base) k * x i)%Q.
Proof.
  intros P. destruct (base_1 _ IN) as [B0 B1]. induction 1 as [y ST|k b y GS IH ST]; intros i Hi.
  - cbn [qpow]. assert (X := async_contract IN (pi_d1 IN) P (gs_async ST) (c := 1%Q)). eapply Qle_trans; [apply X; auto; try lra|].
    + intros j Hj. setoid_replace (0 - x j)%Q with (- x j)%Q by ring. rewrite Qabs_opp, Qabs_pos by apply (pagerank_nn IN P Hj). lra.
    + apply Qle_lteq. right. ring.
  - cbn [qpow]. assert (X := async_contract IN (pi_d1 IN) P (gs_async ST) (c := qpow (1 - base) k)). eapply Qle_trans; [apply X; auto|].
    + apply qpow_nn. lra.
    + apply Qle_lteq. right. ring.
Qed.
(** The test after the first sweep compares with 1/n, not with where the sweep started; it bounds the distance all the same. *)
Lemma gs_first x y e : (0 < n)%nat -> pagerank g degf d x -> gsweeps g degf d 1 y -> (e == dist y (fun _ => 1 / qn n)%Q)%Q -> (dist y x <= e)%Q.
Proof.
  intros N P GS EQ. assert (ST : gs_step g degf d (fun _ => 0%Q) y). { inversion GS as [y' ST|k b y' GS' ST]; subst; auto. exfalso. inversion GS'. }
  assert (BL := gsweeps_below P GS). assert (D0 := pi_d0 IN). assert (D1 := pi_d1 IN).
  assert (R := res_dist IN y P). set (S0 := fun i => qsum (map (share y degf) (nth i g []))).
  assert (UP : forall i, i < n -> (y i <= base + d * S0 i)%Q).
  { intros i Hi. rewrite (ST i Hi). unfold S0. assert (U := @share_le degf (fun j => if j <? i then y j else 0%Q) y (nth i g [])). assert ((qsum (map (share (fun j => if j <? i then y j else 0%Q) degf) (nth i g [])) <= qsum (map (share y degf) (nth i g [])))%Q); [|nra].
    apply U. intros j I. assert (Lj := pi_tgt IN i j I). destruct (j <? i); [lra|]. apply BL. auto. }
  assert (RS : (qs n (fun i => Qabs (y i - pr_rhs g degf d y i)) <= (1 - d) - (1 - d) * qs n y)%Q).
  { rewrite (@qs_ext n _ (fun i => (base + d * S0 i) + (- (1)) * y i)%Q).
    - rewrite !qs_add, !qs_mul, (@qs_base g d N). assert (X : (qs n S0 <= qs n y)%Q) by (apply (qs_share IN); intros; apply BL; auto). nra.
    - intros i Hi. assert (X := UP i Hi). unfold pr_rhs. fold (S0 i). rewrite Qabs_neg by lra. ring. }
  assert (NE : (1 - qs n y <= e)%Q).
  { rewrite EQ, <- (@qs_one g N). setoid_replace (qs n (fun _ => 1 / qn n) - qs n y)%Q with (qs n (fun i => 1 / qn n + (- (1)) * y i))%Q by (rewrite qs_add, qs_mul; ring).
    apply qs_le. intros i Hi. apply Qabs_case; intros H; lra. }
  nra.
Qed.
End V2.
