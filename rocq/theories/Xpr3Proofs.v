(** More lemmas for C69: contributions below the threshold (v12), residuals (v3, v13). *)
From Coq Require Import List Arith ZArith QArith Qabs Lqa Lia Bool Permutation.
From Verif Require Import Base Pool RangeModel PforModel PageRankModel PageRankLib PageRankProofs PageRankProperties XprModel XprProofs Xpr2Proofs.
Import ListNotations.
Set Implicit Arguments.
Local Open Scope nat_scope.

(** ** v12 when no contribution exceeds the threshold *)
Section Flat.
Variables (g : list (list nat)) (deg : list nat) (d thr : Q).
Notation n := (length g).
Notation degf := (fun j => nth j deg 0).
Notation base := ((1 - d) / qn n)%Q.
Notation flat := (base + d * 0)%Q.
Notation dist y a := (qs n (fun i => Qabs (y i - a i))%Q).
Hypothesis IN : pr_input g degf d.
Hypothesis LD : n <= length deg.
Hypothesis BIG : (1 / qn n <= thr)%Q.
Variables (r : nat -> Q) (L : nat).
Hypothesis HL : n <= L.

Definition fid (t : ftask) : nat := match t with FT i _ _ => i | FA i _ _ _ => i | FW i => i end.
Definition small_out (out : list num) : Prop := length out = n /\ forall j, j < n -> 0 < degf j -> exists v, nth_error out j = Some (Some v) /\ (v <= thr)%Q.
Record fl (ts : list ftask) (st : prst) (y : nat -> Q) : Prop := {
  f_len : length (pr_rank st) = L;
  f_out : small_out (pr_out st);
  f_rank : forall i, i < n -> nth_error (pr_rank st) i = Some (Some (y i));
  f_nd : NoDup (map fid ts);
  f_task : forall t, In t ts -> fid t < n /\ match t with FT i l z => z = Some 0%Q /\ y i = r i /\ (forall j, In j l -> In j (nth i g [])) | FA _ _ _ _ => False | FW i => y i = flat end;
  f_done : forall i, i < n -> ~ In i (map fid ts) -> y i = flat;
  f_err : exists e, pr_err st = Some e /\ (e == dist y r)%Q
}.

Lemma flat_small m : 0 < m -> 0 < n -> (flat / qnat m <= thr)%Q.
Proof.
  intros Hm Hn. assert (MP := qn_pos Hm). assert (NP := qn_pos Hn). assert (M1 := @qn_le 1 m Hm). change (qn 1) with 1%Q in M1. assert (D0 := pi_d0 IN). assert (D1 := pi_d1 IN).
  change (qnat m) with (qn m). apply Qle_shift_div_r; auto. assert (U : (0 <= 1 / qn n)%Q) by (apply Qle_shift_div_l; lra).
  setoid_replace flat with ((1 - d) * (1 / qn n))%Q by (field; lra). set (u := (1 / qn n)%Q) in *. set (w := qn m) in *. nra.
Qed.
Lemma v12_step_ok l1 t l2 st : (exists y, fl (l1 ++ t :: l2) st y) ->
  exists o st', v12_step deg base d thr t st = Ok (o, st') /\ (exists y, fl (l1 ++ opt_list o ++ l2) st' y) /\ match o with Some t' => v12_size t' < v12_size t | None => True end.
Proof.
  intros (y & W). assert (IT : In t (l1 ++ t :: l2)) by (apply in_or_app; right; now left). destruct (f_task W t IT) as [Lt TK].
  assert (ND := f_nd W). rewrite map_app in ND. cbn [map] in ND.
  assert (NI : forall t', In t' (l1 ++ l2) -> fid t' <> fid t).
  { intros t' I E. apply NoDup_remove_2 in ND. apply ND. rewrite <- E, <- map_app. now apply in_map. }
  assert (SUB : forall x, In x (l1 ++ l2) -> In x (l1 ++ t :: l2)) by (intros x X; apply in_app_or in X; apply in_or_app; destruct X; [left|right; right]; auto).
  assert (IDS : forall t', fid t' = fid t -> map fid (l1 ++ [t'] ++ l2) = map fid (l1 ++ t :: l2)) by (intros t' E; rewrite !map_app; cbn [map app]; now rewrite E).
  assert (CAS : forall t' x, In x (l1 ++ [t'] ++ l2) -> x = t' \/ In x (l1 ++ l2)) by (intros t' x; rewrite !in_app_iff; cbn [In]; intuition auto).
  destruct t as [i [|j l] z|i j l z|i]; cbn [fid] in *; cbn [v12_step].
  - destruct TK as (-> & YR & _). rewrite (proj2 (vget_Ok _ _ _) (f_rank W Lt)). cbn [bind]. assert (LR := f_len W). rewrite vset_lt by lia. cbn [bind].
    eexists _, _. split; [reflexivity|]. split; [|cbn [v12_size length]; lia]. cbn [opt_list]. unfold new_rank, oplus, gap. cbn [olift2].
    exists (fun k => if k =? i then flat else y k). constructor; cbn [pr_rank pr_out pr_err].
    + now rewrite upd_length.
    + apply W.
    + intros k Hk. destruct (Nat.eqb_spec k i) as [->|N]; [apply vget_Ok, vget_upd_eq; lia|]. apply vget_Ok. rewrite vget_upd_neq by auto. apply vget_Ok. now apply W.
    + rewrite (IDS (FW i) eq_refl). apply W.
    + intros t' I. destruct (CAS _ _ I) as [->|I']; [cbn [fid]; split; auto; now rewrite Nat.eqb_refl|]. assert (NE := NI _ I'). destruct (f_task W t' (SUB _ I')) as [A B]. split; auto.
      destruct t' as [k l' z'|k ? ? ?|k]; cbn [fid] in NE; auto; destruct (Nat.eqb_spec k i); try contradiction; auto.
    + intros k Hk NK. rewrite (IDS (FW i) eq_refl) in NK. destruct (Nat.eqb_spec k i); auto. now apply (f_done W).
    + destruct (f_err W) as (e & EE & EQ). rewrite EE. cbn [olift2]. eexists. split; [reflexivity|]. rewrite EQ, YR.
      assert (DL := @qs_delta n i (Qabs (flat - r i)) Lt). rewrite <- DL. rewrite <- qs_add. apply qs_ext. intros k Hk.
      destruct (Nat.eq_dec i k) as [<-|N].
      * rewrite Nat.eqb_refl, YR. setoid_replace (r i - r i)%Q with 0%Q by lra. change (Qabs 0) with 0%Q. lra.
      * destruct (Nat.eqb_spec k i); [congruence|]. lra.
  - destruct TK as (-> & YR & HIN). assert (IJ := HIN j (or_introl eq_refl)). assert (Lj := pi_tgt IN i j IJ). assert (DJ := @occ_in g deg d IN LD n (le_n _) i j IJ). cbn beta in DJ.
    destruct (proj2 (f_out W) j Lj DJ) as (v & EV & LV). rewrite (proj2 (vget_Ok _ _ _) EV). cbn [bind ogtb]. replace (Qle_bool v thr) with true by (symmetry; now apply Qle_bool_iff). cbn [negb].
    eexists _, st. split; [reflexivity|]. split; [|cbn [v12_size length]; lia]. cbn [opt_list]. exists y. constructor; try apply W.
    + rewrite (IDS (FT i l (Some 0%Q)) eq_refl). apply W.
    + intros t' I. destruct (CAS _ _ I) as [->|I']; [cbn [fid]; split; auto; split; auto; split; auto; intros; apply HIN; now right|]. apply (f_task W); auto.
    + intros k Hk NK. rewrite (IDS (FT i l (Some 0%Q)) eq_refl) in NK. now apply (f_done W).
  - destruct TK.
  - rewrite (proj2 (vget_Ok _ _ _) (f_rank W Lt)). cbn [bind]. rewrite (@vget_nth _ deg i 0) by lia. cbn [bind]. destruct (f_out W) as (LO & HO). rewrite vset_lt by lia. cbn [bind].
    eexists _, _. split; [reflexivity|]. split; auto. cbn [opt_list app]. exists y. constructor; cbn [pr_rank pr_out pr_err]; try apply W.
    + split; [now rewrite upd_length|]. intros j Hj DJ. destruct (Nat.eq_dec j i) as [->|N].
      * rewrite TK. unfold odivn. destruct (Nat.eqb_spec (nth i deg 0) 0); [lia|]. eexists. split; [apply vget_Ok, vget_upd_eq; lia|]. apply flat_small; auto; lia.
      * destruct (HO j Hj DJ) as (v & EV & LV). exists v. split; auto. apply vget_Ok. rewrite vget_upd_neq by auto. now apply vget_Ok.
    + rewrite map_app. now apply NoDup_remove_1 in ND.
    + intros t' I. apply (f_task W); auto.
    + intros k Hk NK. destruct (Nat.eq_dec k i) as [->|N]; auto. apply (f_done W); auto. rewrite map_app in *. cbn [map fid]. rewrite in_app_iff in *. cbn [In]. intuition auto.
Qed.

Lemma v12_sweep_ok sched st : length (pr_rank st) = L -> small_out (pr_out st) -> (forall i, i < n -> nth_error (pr_rank st) i = Some (Some (r i))) ->
  exists st' e, v12_sweep g deg base d thr sched st = Ok st' /\ length (pr_rank st') = L /\ small_out (pr_out st') /\ (forall i, i < n -> nth_error (pr_rank st') i = Some (Some flat)) /\
    pr_err st' = Some e /\ (e == dist (fun _ => flat) r)%Q.
Proof.
  intros H1 H2 H3. unfold v12_sweep. rewrite (@rmap_ok _ _ _ (fun i => FT i (nth i g []) (Some 0%Q))).
  2:{ intros i I. apply in_seq in I. now rewrite (@vget_nth _ g i []) by lia. }
  cbn [bind]. set (ts := map (fun i => FT i (nth i g []) (Some 0%Q)) (seq 0 n)).
  assert (ID : map fid ts = seq 0 n) by (unfold ts; rewrite map_map; cbn [fid]; apply map_id).
  destruct (@run_inv _ _ (v12_step deg base d thr) v12_size (fun ts st => exists y, fl ts st y) v12_step_ok) with
    (fuel := sum (map v12_size ts) + length ts) (sched := sched) (now := 0) (ts := ts) (s := mkPr (pr_rank st) (pr_out st) (Some 0%Q)) as (st' & E & y & W); auto.
  - exists r. constructor; cbn [pr_rank pr_out pr_err]; auto.
    + rewrite ID. apply seq_NoDup.
    + intros t I. apply in_map_iff in I. destruct I as (i & <- & I). apply in_seq in I. cbn [fid]. split; [lia|auto].
    + intros i Hi NK. exfalso. apply NK. rewrite ID. apply in_seq. lia.
    + exists 0%Q. split; auto. rewrite (@qs_ext n _ (fun _ => 0%Q)); [rewrite qs_const; lra|]. intros i _. setoid_replace (r i - r i)%Q with 0%Q by lra. reflexivity.
  - destruct (f_err W) as (e & EE & EQ). assert (Y : forall i, i < n -> y i = flat) by (intros i Hi; apply (f_done W); auto; intros []). exists st', e. split; auto. split; [apply W|]. split; [apply W|].
    split; [intros i Hi; rewrite <- (Y i Hi); now apply W|]. split; auto. rewrite EQ. apply qs_ext. intros i Hi. rewrite (Y i Hi). reflexivity.
Qed.
End Flat.

Lemma v12_flat g deg d thr max sched ranks : pr_input g (fun j => nth j deg 0) d -> length g <= length deg -> length g <= length ranks -> 0 < length g -> (1 / qn (length g) <= thr)%Q -> 0 < max ->
  exists out y, page_rank_v12 g deg ranks d thr max sched = Ok out /\ length (o_rank out) = length ranks /\ scores (length g) out y /\
    (forall i, i < length g -> (y i == (1 - d) / qn (length g))%Q) /\ o_sweeps out <= 2 /\ (1 < max -> o_conv out = true).
Proof.
  intros IN LD LR N BIG HM. unfold page_rank_v12. destruct (@init_ranks (odivn (Some 1%Q) (length g)) (length g) 0 ranks) as (r0 & E0 & L0 & R0); [lia|]. rewrite E0. cbn [bind].
  assert (NP := qn_pos N). assert (D0 := pi_d0 IN). assert (U : (0 <= 1 / qn (length g))%Q) by (apply Qle_shift_div_l; lra).
  assert (RV : forall i, i < length g -> nth_error r0 i = Some (Some (1 / qn (length g))%Q)).
  { intros i Hi. rewrite R0. replace (i <? 0 + length g) with true by (symmetry; apply Nat.ltb_lt; lia). cbn [Nat.leb andb]. unfold odivn. destruct (Nat.eqb_spec (length g) 0); [lia|]. reflexivity. }
  destruct (@contribs_ok g deg LD (length ranks) (start r0) (fun _ => 1 / qn (length g))%Q LR) as (o0 & EO & CO); [split; auto|]. cbn [start pr_rank] in EO. rewrite EO. cbn [bind].
  assert (SM : small_out g deg thr o0).
  { destruct CO as (LO & HO). split; auto. intros j Hj DJ. rewrite HO by auto. unfold odivn. destruct (Nat.eqb_spec (nth j deg 0) 0); [lia|]. eexists. split; [reflexivity|].
    assert (MP := qn_pos DJ). assert (M1 := @qn_le 1 _ DJ). change (qn 1) with 1%Q in M1. change (qnat (nth j deg 0)) with (qn (nth j deg 0)). apply Qle_shift_div_r; auto.
    set (u := (1 / qn (length g))%Q) in *. set (w := qn (nth j deg 0%nat)) in *. nra. }
  destruct max as [|m]; [lia|]. cbn [xpr_loop]. unfold size_base. change (qnat (length g)) with (qn (length g)).
  destruct (@v12_sweep_ok g deg d thr IN LD BIG (fun _ => 1 / qn (length g))%Q (length ranks) LR (sched 0) (mkPr r0 o0 (Some 0%Q)) L0 SM RV) as (st1 & e1 & E1 & L1 & S1 & R1 & EE1 & _).
  rewrite E1. cbn [bind]. rewrite EE1. set (flat := ((1 - d) / qn (length g) + d * 0)%Q) in *.
  destruct (oltb (Some e1) thr).
  - eexists _, (fun _ => flat). split; [reflexivity|]. split; auto. split; auto. cbn [o_sweeps o_conv]. split; [intros; unfold flat; lra|]. split; auto.
  - destruct m as [|m]; cbn [xpr_loop].
    + eexists _, (fun _ => flat). split; [reflexivity|]. split; auto. split; auto. cbn [o_sweeps o_conv]. split; [intros; unfold flat; lra|]. split; auto. lia.
    + destruct (@v12_sweep_ok g deg d thr IN LD BIG (fun _ => flat) (length ranks) LR (sched 1) st1 L1 S1 R1) as (st2 & e2 & E2 & L2 & S2 & R2 & EE2 & Q2). fold flat in E2, Q2, R2.
      rewrite E2. cbn [bind]. rewrite EE2. assert (Z : (e2 == 0)%Q).
      { rewrite Q2. rewrite (@qs_ext _ _ (fun _ => 0%Q)); [rewrite qs_const; lra|]. intros i _. setoid_replace (flat - flat)%Q with 0%Q by lra. reflexivity. }
      assert (UP : (0 < 1 / qn (length g))%Q) by (apply Qlt_shift_div_l; lra).
      assert (T : oltb (Some e2) thr = true). { cbn [oltb]. destruct (Qle_bool thr e2) eqn:X; auto. apply Qle_bool_iff in X. exfalso. lra. }
      rewrite T. eexists _, (fun _ => flat). split; [reflexivity|]. split; auto. split; auto. cbn [o_sweeps o_conv]. split; [intros; unfold flat; lra|]. split; auto.
Qed.

(** ** Residuals (v3, v13) *)
Lemma qgtb_lt x y : qgtb x y = true <-> (y < x)%Q.
Proof.
  unfold qgtb. destruct (Qle_bool x y) eqn:E; cbn [negb].
  - apply Qle_bool_iff in E. split; [discriminate|]. intros H. lra.
  - split; auto. intros _. apply Qnot_le_lt. intros X. apply Qle_bool_iff in X. congruence.
Qed.
Lemma qgtb_le x y : qgtb x y = false <-> (x <= y)%Q.
Proof. unfold qgtb. destruct (Qle_bool x y) eqn:E; cbn [negb]; split; intros H; try discriminate; auto; [now apply Qle_bool_iff|]. apply Qle_bool_iff in H. congruence. Qed.
Definition inb (i : nat) (l : list nat) : bool := if in_dec Nat.eq_dec i l then true else false.
Lemma inb_true i l : In i l -> inb i l = true. Proof. unfold inb. now destruct (in_dec Nat.eq_dec i l). Qed.
Lemma inb_cons i k l : inb i (k :: l) = (i =? k) || inb i l.
Proof.
  unfold inb. destruct (in_dec Nat.eq_dec i (k :: l)) as [I|NI], (Nat.eqb_spec i k) as [EK|NE], (in_dec Nat.eq_dec i l) as [J|NJ]; auto; exfalso; cbn [In] in *; intuition auto.
Qed.

Section Residual.
Variables (g : list (list nat)) (deg : list nat) (keep : bool) (d thr : Q).
Notation n := (length g).
Notation degf := (fun j => nth j deg 0).
Hypothesis IN : pr_input g degf d.
Hypothesis LD : n <= length deg.
Variable L : nat.
Hypothesis HL : n <= L.

Definition isf (l : list Q) (f : nat -> Q) : Prop := forall i, i < n -> nth_error l i = Some (f i).
Record rs (st : rst) (p r q : nat -> Q) : Prop := {
  rs_len : length (r_rank st) = L /\ length (r_res st) = n /\ length (r_delta st) = n;
  rs_p : isf (r_rank st) p; rs_r : isf (r_res st) r; rs_q : isf (r_delta st) q
}.
Lemma isf_upd l f i v : length l >= n -> isf l f -> i < n -> isf (upd l i v) (fun k => if k =? i then v else f k).
Proof.
  intros LL H Hi k Hk. destruct (Nat.eqb_spec k i) as [->|N]; [apply vget_Ok, vget_upd_eq; lia|]. apply vget_Ok. rewrite vget_upd_neq by auto. apply vget_Ok. auto.
Qed.
Lemma isf_ext l f h : isf l f -> (forall i, i < n -> f i = h i) -> isf l h.
Proof. intros H E i Hi. rewrite <- E by auto. auto. Qed.

Definition pushed (r : nat -> Q) (i : nat) : bool := qgtb (r i) thr.
Definition new_delta (r : nat -> Q) (i : nat) : Q := if pushed r i && (0 <? degf i) then (r i * d / qnat (degf i))%Q else 0%Q.

Lemma push_one st p r q i : i < n -> rs st p r q -> exists st', push_src deg keep d thr st i = Ok st' /\
  rs st' (fun k => if (k =? i) && pushed r k then p k + r k else p k)%Q (fun k => if (k =? i) && pushed r k then 0 else r k)%Q (fun k => if k =? i then new_delta r k else q k) /\
  r_changed st' = r_changed st || (pushed r i && (0 <? degf i)).
Proof.
  intros Hi [(L1 & L2 & L3) P R D]. unfold push_src. rewrite vset_lt by lia. cbn [bind]. replace (if keep then vget deg i else Ok 0) with (Ok (if keep then nth i deg 0 else 0)) by (destruct keep; auto; now rewrite (@vget_nth _ deg i 0) by lia).
  cbn [bind]. rewrite (proj2 (vget_Ok _ _ _) (R i Hi)). cbn [bind]. unfold new_delta. fold (pushed r i). destruct (pushed r i) eqn:PU; cbn [andb].
  - rewrite (proj2 (vget_Ok _ _ _) (P i Hi)). cbn [bind]. rewrite vset_lt by lia. cbn [bind]. rewrite vset_lt by lia. cbn [bind]. rewrite (@vget_nth _ deg i 0) by lia. cbn [bind].
    destruct (Nat.ltb_spec 0 (nth i deg 0)) as [DP|DZ].
    + rewrite vset_lt by (rewrite upd_length; lia). cbn [bind]. eexists. split; [reflexivity|]. split; [|cbn [r_changed]; now rewrite orb_true_r]. constructor; cbn [r_rank r_res r_delta].
      * rewrite !upd_length. auto.
      * eapply isf_ext; [apply isf_upd; [lia|exact P|exact Hi]|]. intros k Hk. cbn beta. destruct (Nat.eqb_spec k i) as [->|]; auto. now rewrite PU.
      * eapply isf_ext; [apply isf_upd; [lia|exact R|exact Hi]|]. intros k Hk. cbn beta. destruct (Nat.eqb_spec k i) as [->|]; auto. now rewrite PU.
      * eapply isf_ext; [apply isf_upd; [rewrite upd_length; lia|apply isf_upd; [lia|exact D|exact Hi]|exact Hi]|]. intros k Hk. cbn beta. destruct (Nat.eqb_spec k i) as [->|]; auto.
        rewrite PU. destruct (Nat.ltb_spec 0 (nth i deg 0)); [reflexivity|lia].
    + eexists. split; [reflexivity|]. split; [|cbn [r_changed]; now rewrite orb_false_r]. constructor; cbn [r_rank r_res r_delta].
      * rewrite !upd_length. auto.
      * eapply isf_ext; [apply isf_upd; [lia|exact P|exact Hi]|]. intros k Hk. cbn beta. destruct (Nat.eqb_spec k i) as [->|]; auto. now rewrite PU.
      * eapply isf_ext; [apply isf_upd; [lia|exact R|exact Hi]|]. intros k Hk. cbn beta. destruct (Nat.eqb_spec k i) as [->|]; auto. now rewrite PU.
      * eapply isf_ext; [apply isf_upd; [lia|exact D|exact Hi]|]. intros k Hk. cbn beta. destruct (Nat.eqb_spec k i) as [->|]; auto.
        rewrite PU. destruct (Nat.ltb_spec 0 (nth i deg 0)); [lia|reflexivity].
  - eexists. split; [reflexivity|]. split; [|cbn [r_changed]; now rewrite orb_false_r]. constructor; cbn [r_rank r_res r_delta].
    + rewrite !upd_length. auto.
    + eapply isf_ext; [exact P|]. intros k Hk. cbn beta. destruct (Nat.eqb_spec k i) as [->|]; auto. now rewrite PU.
    + eapply isf_ext; [exact R|]. intros k Hk. cbn beta. destruct (Nat.eqb_spec k i) as [->|]; auto. now rewrite PU.
    + eapply isf_ext; [apply isf_upd; [lia|exact D|exact Hi]|]. intros k Hk. cbn beta. destruct (Nat.eqb_spec k i) as [->|]; auto. now rewrite PU.
Qed.
Lemma push_all l : forall st p r q, NoDup l -> (forall i, In i l -> i < n) -> rs st p r q -> exists st', rfold (push_src deg keep d thr) l st = Ok st' /\
  rs st' (fun k => if inb k l && pushed r k then p k + r k else p k)%Q (fun k => if inb k l && pushed r k then 0 else r k)%Q (fun k => if inb k l then new_delta r k else q k) /\
  r_changed st' = r_changed st || existsb (fun i => pushed r i && (0 <? degf i)) l.
Proof.
  induction l as [|i l IH]; intros st p r q ND LT W; cbn [rfold].
  - exists st. split; auto. split; [|cbn [existsb]; now rewrite orb_false_r]. exact W.
  - destruct (@push_one st p r q i (LT i (or_introl eq_refl)) W) as (st1 & E1 & W1 & C1). rewrite E1. cbn [bind]. inversion ND as [|? ? NI ND']; subst.
    destruct (IH st1 _ _ _ ND' (fun k I => LT k (or_intror I)) W1) as (st2 & E2 & W2 & C2). exists st2. split; auto.
    assert (NE : forall k, inb k l = true -> (k =? i) = false).
    { intros k I. unfold inb in I. destruct (in_dec Nat.eq_dec k l) as [J|]; [|discriminate]. apply Nat.eqb_neq. intros ->. contradiction. }
    assert (PU : forall k, inb k l = true -> pushed (fun k => if (k =? i) && pushed r k then 0 else r k)%Q k = pushed r k) by (intros k I; unfold pushed at 1; now rewrite (NE k I)).
    split.
    + destruct W2 as [LL P R D]. constructor; auto; (eapply isf_ext; [eassumption|]); intros k Hk; cbn beta; rewrite inb_cons.
      * destruct (inb k l) eqn:I; [rewrite PU, (NE k I) by auto; reflexivity|]. cbn [andb]. rewrite orb_false_r. reflexivity.
      * destruct (inb k l) eqn:I; [rewrite PU, (NE k I) by auto; reflexivity|]. cbn [andb]. rewrite orb_false_r. reflexivity.
      * destruct (inb k l) eqn:I; [|rewrite orb_false_r; reflexivity]. rewrite orb_true_r. unfold new_delta. rewrite PU, (NE k I) by auto. reflexivity.
    + rewrite C2, C1. cbn [existsb]. rewrite <- orb_assoc. f_equal. f_equal. clear -NE PU ND NI.
      assert (X : forall l', (forall k, In k l' -> inb k l = true) -> existsb (fun k => pushed (fun k => if (k =? i) && pushed r k then 0%Q else r k) k && (0 <? nth k deg 0)) l' = existsb (fun k => pushed r k && (0 <? nth k deg 0)) l').
      { induction l' as [|k l' IH]; intros H; auto. cbn [existsb]. rewrite PU, IH by (intros; apply H; cbn [In]; auto). reflexivity. }
      apply X. intros k I. now apply inb_true.
Qed.

Definition pulled (q : nat -> Q) (row : list nat) : Q := fold_left (fun s j => if qgtb (q j) 0 then s + q j else s)%Q row 0%Q.
Lemma pulled_ok q row : (forall j, In j row -> (0 <= q j)%Q) -> (pulled q row == qsum (map q row))%Q.
Proof.
  intros H. unfold pulled. assert (X : forall l s, (forall j, In j l -> (0 <= q j)%Q) -> (fold_left (fun s j => if qgtb (q j) 0 then s + q j else s) l s == s + qsum (map q l))%Q).
  { induction l as [|j l IH]; intros s HI; cbn [fold_left map qsum]; [lra|]. rewrite IH by (intros; apply HI; now right). destruct (qgtb (q j) 0) eqn:E; [lra|]. apply qgtb_le in E. assert (Y := HI j (or_introl eq_refl)). lra. }
  rewrite X by auto. lra.
Qed.
Definition new_res (r q : nat -> Q) (i : nat) : Q := if qgtb (pulled q (nth i g [])) 0 then pulled q (nth i g []) else if keep then r i else 0%Q.
Lemma pull_one st p r q i : i < n -> rs st p r q -> exists st', pull_dst g keep st i = Ok st' /\ rs st' p (fun k => if k =? i then new_res r q k else r k) q /\ r_changed st' = r_changed st.
Proof.
  intros Hi [(L1 & L2 & L3) P R D]. unfold pull_dst. rewrite (@vget_nth _ g i []) by auto. cbn [bind].
  assert (X : forall l s, (forall j, In j l -> In j (nth i g [])) -> rfold (fun s j => do c <- vget (r_delta st) j ; Ok (if qgtb c 0 then s + c else s)%Q) l s = Ok (fold_left (fun s j => if qgtb (q j) 0 then s + q j else s)%Q l s)).
  { induction l as [|j l IH]; intros s HI; cbn [rfold fold_left]; auto. assert (Lj := pi_tgt IN i j (HI j (or_introl eq_refl))). rewrite (proj2 (vget_Ok _ _ _) (D j Lj)). cbn [bind]. apply IH. intros; apply HI; now right. }
  rewrite X by auto. cbn [bind]. fold (pulled q (nth i g [])). unfold new_res. destruct (qgtb (pulled q (nth i g [])) 0) eqn:E; [|destruct keep eqn:EK].
  - rewrite vset_lt by lia. cbn [bind]. eexists. split; [reflexivity|]. split; auto. constructor; cbn [r_rank r_res r_delta]; auto; [now rewrite upd_length|].
    eapply isf_ext; [apply isf_upd; [lia|exact R|exact Hi]|]. intros k Hk. cbn beta. destruct (Nat.eqb_spec k i) as [->|]; auto. now rewrite E.
  - exists st. split; auto. split; auto. constructor; auto. eapply isf_ext; [exact R|]. intros k Hk. cbn beta. destruct (Nat.eqb_spec k i) as [->|]; auto. now rewrite E.
  - rewrite vset_lt by lia. cbn [bind]. eexists. split; [reflexivity|]. split; auto. constructor; cbn [r_rank r_res r_delta]; auto; [now rewrite upd_length|].
    eapply isf_ext; [apply isf_upd; [lia|exact R|exact Hi]|]. intros k Hk. cbn beta. destruct (Nat.eqb_spec k i) as [->|]; auto. now rewrite E.
Qed.
Lemma pull_all l : forall st p r q, NoDup l -> (forall i, In i l -> i < n) -> rs st p r q -> exists st', rfold (pull_dst g keep) l st = Ok st' /\
  rs st' p (fun k => if inb k l then new_res r q k else r k) q /\ r_changed st' = r_changed st.
Proof.
  induction l as [|i l IH]; intros st p r q ND LT W; cbn [rfold].
  - exists st. split; [auto|]. split; [exact W|auto].
  - destruct (@pull_one st p r q i (LT i (or_introl eq_refl)) W) as (st1 & E1 & W1 & C1). rewrite E1. cbn [bind]. inversion ND as [|? ? NI ND']; subst.
    destruct (IH st1 _ _ _ ND' (fun k I => LT k (or_intror I)) W1) as (st2 & E2 & W2 & C2). exists st2. split; auto. split; [|congruence].
    destruct W2 as [LL P R D]. constructor; auto. eapply isf_ext; [eassumption|]. intros k Hk. cbn beta. rewrite inb_cons. unfold inb at 1 2.
    destruct (in_dec Nat.eq_dec k l) as [J|NJ]; [|rewrite orb_false_r; reflexivity]. destruct (Nat.eqb_spec k i) as [->|NE]; [contradiction|]. cbn [orb]. unfold new_res. destruct (Nat.eqb_spec k i); [contradiction|reflexivity].
Qed.

(** One iteration, as a step on functions. *)
Definition push (r : nat -> Q) (i : nat) : Q := if pushed r i then r i else 0%Q.
Definition coming (r : nat -> Q) (i : nat) : Q := (d * qsum (map (share (push r) degf) (nth i g [])))%Q.
Record rstep (p r p' r' : nat -> Q) (changed : bool) : Prop := {
  t_p : forall i, i < n -> (p' i == p i + push r i)%Q;
  t_r : forall i, i < n -> ((0 < coming r i)%Q /\ (r' i == coming r i)%Q) \/ ((coming r i == 0)%Q /\ (r' i == if keep then r i - push r i else 0)%Q);
  t_c : changed = true <-> exists i, i < n /\ pushed r i = true /\ 0 < degf i
}.
Lemma iter_ok st p r q src dst : rs st p r q -> (forall i, i < n -> (0 <= r i)%Q) -> Permutation src (seq 0 n) -> Permutation dst (seq 0 n) ->
  exists st1 st2 p' r' q', rfold (push_src deg keep d thr) src (mkR (r_rank st) (r_res st) (r_delta st) false) = Ok st1 /\ rfold (pull_dst g keep) dst st1 = Ok st2 /\
    rs st2 p' r' q' /\ rstep p r p' r' (r_changed st2).
Proof.
  intros W R0 PS PD. assert (IS : forall l i, Permutation l (seq 0 n) -> (In i l <-> i < n)).
  { intros l i P. split; intros H; [apply (Permutation_in _ P), in_seq in H; lia|apply (Permutation_in _ (Permutation_sym P)), in_seq; lia]. }
  assert (NS : forall l, Permutation l (seq 0 n) -> NoDup l) by (intros l P; apply (Permutation_NoDup (Permutation_sym P)), seq_NoDup).
  destruct (@push_all src (mkR (r_rank st) (r_res st) (r_delta st) false) p r q (NS _ PS) (fun i => proj1 (IS _ i PS))) as (st1 & E1 & W1 & C1); [destruct W; constructor; auto|].
  destruct (@pull_all dst st1 _ _ _ (NS _ PD) (fun i => proj1 (IS _ i PD)) W1) as (st2 & E2 & W2 & C2). do 5 eexists. split; [exact E1|]. split; [exact E2|]. split; [exact W2|].
  assert (Q0 : forall j, (0 <= new_delta r j)%Q \/ n <= j).
  { intros j. destruct (Nat.lt_ge_cases j n) as [Lj|]; auto. left. unfold new_delta. destruct (pushed r j && (0 <? nth j deg 0)); [|lra]. apply div_nn. assert (X := R0 j Lj). assert (D0 := pi_d0 IN). nra. }
  assert (CM : forall i, (pulled (fun k => if inb k src then new_delta r k else q k) (nth i g []) == coming r i)%Q).
  { intros i. assert (EQ : forall j, In j (nth i g []) -> inb j src = true) by (intros j I; apply inb_true, (IS _ j PS), (pi_tgt IN i); auto).
    rewrite pulled_ok by (intros j I; rewrite EQ by auto; destruct (Q0 j); auto; assert (X := pi_tgt IN i j I); lia).
    unfold coming. rewrite <- qsum_map_mul. apply qsum_map_ext. intros j I. rewrite EQ by auto. unfold new_delta, share, push.
    assert (DJ := @occ_in g deg d IN LD n (le_n _) i j I). cbn beta in DJ. replace (0 <? nth j deg 0) with true by (symmetry; now apply Nat.ltb_lt). rewrite andb_true_r.
    assert (DP := qn_pos DJ). destruct (pushed r j); unfold qnat; fold (qn (nth j deg 0)); field; lra. }
  assert (PN : forall i, (0 <= coming r i)%Q).
  { intros i. unfold coming. apply Qmult_le_0_compat; [apply IN|]. apply qsum_map_nn. intros j I. apply div_nn. unfold push. destruct (pushed r j); [|lra]. apply R0. apply (pi_tgt IN i). auto. }
  constructor.
  - intros i Hi. cbn beta. rewrite inb_true by now apply (IS _ i PS). cbn [andb]. unfold push. destruct (pushed r i); lra.
  - intros i Hi. cbn beta. rewrite inb_true by now apply (IS _ i PD). unfold new_res. destruct (qgtb (pulled (fun k => if inb k src then new_delta r k else q k) (nth i g [])) 0) eqn:G.
    + apply qgtb_lt in G. rewrite CM in G. left. split; [auto|apply CM].
    + apply qgtb_le in G. rewrite CM in G. right. assert (X := PN i). split; [lra|]. destruct keep; [|reflexivity]. rewrite inb_true by now apply (IS _ i PS). cbn [andb]. unfold push. destruct (pushed r i); lra.
  - rewrite C2, C1. cbn [r_changed orb]. rewrite existsb_exists. split.
    + intros (i & I & B). apply andb_true_iff in B. destruct B as (B & D). apply Nat.ltb_lt in D. exists i. split; auto. now apply (IS _ i PS).
    + intros (i & Hi & B & D). exists i. split; [now apply (IS _ i PS)|]. rewrite B. apply Nat.ltb_lt in D. now rewrite D.
Qed.
(** The invariant: [spread p] is one step of n times the PageRank equation. *)
Hypothesis T0 : (0 <= thr)%Q.
Definition spread (p : nat -> Q) (i : nat) : Q := ((1 - d) + d * qsum (map (share p degf) (nth i g [])))%Q.
Record rinv (k : nat) (p r : nat -> Q) : Prop := {
  v_r : forall i, i < n -> (0 <= r i)%Q; v_p : forall i, i < n -> (0 <= p i)%Q;
  v_lo : forall i, i < n -> (0 <= spread p i - p i - r i)%Q; v_hi : forall i, i < n -> (spread p i - p i - r i <= qn k * thr)%Q;
  v_push : (qs n (push r) <= qpow d k * (qn n * (1 - d)))%Q;
  v_low : 0 < k -> (thr < 1 - d)%Q -> forall i, i < n -> (1 - d <= p i)%Q
}.
Lemma push_cases (r : nat -> Q) i : (thr < r i /\ push r i == r i)%Q \/ (r i <= thr /\ push r i == 0)%Q.
Proof. unfold push, pushed. destruct (qgtb (r i) thr) eqn:E; [left; apply qgtb_lt in E|right; apply qgtb_le in E]; split; auto; reflexivity. Qed.
Lemma coming_nn (r : nat -> Q) i : (forall i, i < n -> (0 <= r i)%Q) -> (0 <= coming r i)%Q.
Proof.
  intros R0. unfold coming. apply Qmult_le_0_compat; [apply IN|]. apply qsum_map_nn. intros j I. apply div_nn. unfold push. destruct (pushed r j); [|lra]. apply R0. apply (pi_tgt IN i). auto.
Qed.
Lemma coming_sum (r : nat -> Q) : (forall i, i < n -> (0 <= r i)%Q) -> (qs n (coming r) <= d * qs n (push r))%Q.
Proof.
  intros R0. unfold coming. rewrite qs_mul. apply (dmul IN). apply (qs_share IN). intros j Hj. unfold push. destruct (pushed r j); [auto|lra].
Qed.
Lemma spread_step p r p' r' c i : rstep p r p' r' c -> i < n -> (spread p' i == spread p i + coming r i)%Q.
Proof.
  intros T Hi. unfold spread, coming. rewrite <- Qplus_assoc, <- Qmult_plus_distr_r. rewrite <- qsum_map_add. apply Qplus_comp; [reflexivity|]. apply Qmult_comp; [reflexivity|]. apply qsum_map_ext. intros j I. unfold share. rewrite (t_p T) by (apply (pi_tgt IN i); auto).
  unfold Qdiv. ring.
Qed.
Lemma rinv_step k p r p' r' c : rinv k p r -> rstep p r p' r' c -> (k = 0 -> forall i, i < n -> (r i == 1 - d)%Q) -> rinv (S k) p' r'.
Proof.
  intros [R0 P0 LO HI PU LW] T FI. assert (D0 := pi_d0 IN). assert (D1 := pi_d1 IN). assert (CN := fun i => @coming_nn r i R0).
  assert (PN : forall i, i < n -> (0 <= push r i)%Q) by (intros i Hi; unfold push; destruct (pushed r i); [auto|lra]).
  assert (RS : forall i, i < n -> (0 <= r' i)%Q /\ (0 <= r i - push r i + coming r i - r' i)%Q /\ (r i - push r i + coming r i - r' i <= thr)%Q).
  { intros i Hi. assert (X := R0 i Hi). assert (Y := @push_cases r i). assert (Z := CN i). destruct (t_r T Hi) as [(A & B)|(A & B)]; [|destruct keep]; destruct Y as [(Y1 & Y2)|(Y1 & Y2)]; repeat split; lra. }
  constructor.
  - intros i Hi. apply RS. auto.
  - intros i Hi. rewrite (t_p T) by auto. assert (X := P0 i Hi). assert (Y := PN i Hi). lra.
  - intros i Hi. rewrite (spread_step T Hi), (t_p T) by auto. assert (X := LO i Hi). destruct (RS i Hi) as (_ & A & B). lra.
  - intros i Hi. rewrite (spread_step T Hi), (t_p T) by auto. assert (X := HI i Hi). destruct (RS i Hi) as (_ & A & B). rewrite qn_S. lra.
  - cbn [qpow]. eapply Qle_trans; [|rewrite <- Qmult_assoc; apply (dmul IN), PU]. eapply Qle_trans; [|apply coming_sum; auto]. apply qs_le. intros i Hi. assert (Z := CN i).
    assert (Y := @push_cases r i). assert (Y' := @push_cases r' i). assert (X := R0 i Hi). destruct (t_r T Hi) as [(A & B)|(A & B)]; [|destruct keep]; destruct Y as [(Y1 & Y2)|(Y1 & Y2)]; destruct Y' as [(Y3 & Y4)|(Y3 & Y4)]; lra.
  - intros _ TL i Hi. rewrite (t_p T) by auto. assert (X := PN i Hi). destruct k as [|k].
    + assert (Y := FI eq_refl i Hi). assert (Z := P0 i Hi). destruct (@push_cases r i) as [(A & B)|(A & B)]; lra.
    + assert (Y := LW (Nat.lt_0_succ _) TL i Hi). lra.
Qed.
(** The iteration that changes nothing. *)
Lemma rinv_last k p r p' r' c : rinv k p r -> rstep p r p' r' c -> c = false -> forall i, i < n -> (0 <= spread p' i - p' i)%Q /\ (spread p' i - p' i <= qn (S k) * thr)%Q.
Proof.
  intros [R0 P0 LO HI PU LW] T CF i Hi. assert (CZ : (coming r i == 0)%Q).
  { unfold coming. assert (X : (qsum (map (share (push r) degf) (nth i g [])) == qsum (map (fun _ => 0) (nth i g [])))%Q).
    { apply qsum_map_ext. intros j I. unfold share, push. destruct (pushed r j) eqn:B; [|unfold Qdiv; ring]. exfalso. assert (c = true) by (apply (t_c T); exists j; repeat split; auto; [apply (pi_tgt IN i); auto|apply (@occ_in g deg d IN LD n (le_n _) i j I)]). congruence. }
    rewrite X, qsum_const. ring. }
  rewrite (spread_step T Hi), (t_p T) by auto. assert (X := R0 i Hi). assert (Y := LO i Hi). assert (Z := HI i Hi). rewrite qn_S. destruct (@push_cases r i) as [(A & B)|(A & B)]; split; lra.
Qed.
Lemma changed_big k p r p' r' : rinv k p r -> rstep p r p' r' true -> (thr < qpow d k * (qn n * (1 - d)))%Q.
Proof.
  intros [R0 P0 LO HI PU LW] T. destruct (proj1 (t_c T) eq_refl) as (i & Hi & B & _). eapply Qlt_le_trans; [|exact PU].
  assert (X := @qs_in_le n (push r) i). assert (Y : (push r i <= qs n (push r))%Q) by (apply X; auto; intros j Hj; unfold push; destruct (pushed r j); [auto|lra]).
  unfold pushed in B. destruct (@push_cases r i) as [(A & C)|(A & C)]; [lra|]. apply qgtb_lt in B. lra.
Qed.

Record residual_result (k0 todo : nat) (out : rout) (p : nat -> Q) : Prop := {
  rr_len : length (ro_rank out) = L; rr_is : isf (ro_rank out) p;
  rr_count : k0 <= ro_iters out <= k0 + todo;
  rr_open : ro_conv out = false -> ro_iters out = k0 + todo /\ exists r, rinv (ro_iters out) p r;
  rr_stop : ro_conv out = true -> k0 < ro_iters out /\ forall i, i < n -> (0 <= p i)%Q /\ (0 <= spread p i - p i)%Q /\ (spread p i - p i <= qn (ro_iters out) * thr)%Q;
  rr_low : 0 < k0 + todo -> (thr < 1 - d)%Q -> forall i, i < n -> (1 - d <= p i)%Q;
  rr_soon : forall m, (qpow d m * (qn n * (1 - d)) <= thr)%Q -> k0 <= m -> m < k0 + todo -> ro_conv out = true /\ ro_iters out <= S m
}.
Lemma res_loop_ok src dst : (forall k, Permutation (src k) (seq 0 n)) -> (forall k, Permutation (dst k) (seq 0 n)) ->
  forall todo k st p r q, rs st p r q -> rinv k p r -> (k = 0 -> forall i, i < n -> (r i == 1 - d)%Q) ->
  exists out p', res_loop g deg keep d thr src dst todo k st = Ok out /\ residual_result k todo out p'.
Proof.
  intros PS PD. induction todo as [|todo IH]; intros k st p r q W V FI; cbn [res_loop].
  - eexists _, p. split; [reflexivity|]. constructor; cbn [ro_rank ro_iters ro_conv]; try apply W; try lia.
    + intros _. split; [lia|]. exists r. exact V.
    + rewrite Nat.add_0_r. apply V.
  - destruct (@iter_ok st p r q (src k) (dst k) W (v_r V) (PS k) (PD k)) as (st1 & st2 & p' & r' & q' & E1 & E2 & W2 & T). rewrite E1. cbn [bind]. rewrite E2. cbn [bind].
    assert (V2 := rinv_step V T FI). destruct (r_changed st2) eqn:EC.
    + destruct (IH (S k) st2 p' r' q' W2 V2 ltac:(discriminate)) as (out & p2 & E & R). exists out, p2. split; auto. destruct R as [A B C O F G H]. constructor; auto; try lia.
      * intros X. destruct (O X) as (Y & Z). split; [lia|auto].
      * intros X. destruct (F X) as (Y & Z). split; [lia|auto].
      * intros _. apply G. lia.
      * intros m TM K1 K2. apply H; auto; [|lia]. destruct (Nat.eq_dec k m) as [->|]; [|lia]. exfalso. assert (X := changed_big V T). lra.
    + eexists _, p'. split; [reflexivity|]. constructor; cbn [ro_rank ro_iters ro_conv]; try apply W2; try lia; try discriminate.
      * intros _. split; [lia|]. intros i Hi. split; [apply (v_p V2); auto|]. exact (rinv_last V T eq_refl Hi).
      * intros _. apply V2. lia.
Qed.
Lemma rinv_0 : 0 < n -> rinv 0 (fun _ => 0%Q) (fun _ => (1 - d)%Q).
Proof.
  intros N0. assert (D0 := pi_d0 IN). assert (D1 := pi_d1 IN). assert (S0 : forall i, (spread (fun _ => 0%Q) i == 1 - d)%Q).
  { intros i. unfold spread. rewrite (@qsum_map_ext _ _ (fun _ => 0%Q)); [rewrite qsum_const; ring|]. intros j _. unfold share, Qdiv. ring. }
  constructor; try (intros; rewrite ?S0; lra); try lia.
  - intros i _. rewrite S0. setoid_replace (qn 0) with 0%Q by reflexivity. lra.
  - cbn [qpow]. rewrite Qmult_1_l, <- qs_const. apply qs_le. intros i _. unfold push. destruct (pushed _ i); lra.
Qed.

(** From scores to PageRank. *)
Lemma spread_rhs p i : 0 < n -> (pr_rhs g degf d (fun j => p j / qn n) i == spread p i / qn n)%Q.
Proof.
  intros N0. unfold pr_rhs, spread. assert (X := qn_pos N0). assert (Y : (qsum (map (share (fun j => p j / qn n) degf) (nth i g [])) == / qn n * qsum (map (share p degf) (nth i g [])))%Q).
  { rewrite <- qsum_map_mul. apply qsum_map_ext. intros j I. unfold share, Qdiv. ring. }
  rewrite Y. field. lra.
Qed.
Lemma below_error p x b : 0 < n -> pagerank g degf d x -> (forall i, i < n -> (0 <= spread p i - p i)%Q) -> (qs n (fun i => spread p i - p i) <= qn n * b)%Q ->
  ((1 - d) * qs n (fun i => Qabs (p i / qn n - x i)) <= b)%Q.
Proof.
  intros N0 P LO HI. assert (X := qn_pos N0). eapply Qle_trans; [exact (res_dist IN (fun j => p j / qn n)%Q P)|].
  rewrite (@qs_ext n _ (fun i => / qn n * (spread p i - p i))%Q).
  - rewrite qs_mul. apply Qle_trans with (/ qn n * (qn n * b))%Q; [|setoid_replace (/ qn n * (qn n * b))%Q with b by (field; lra); apply Qle_refl].
    assert (Y : (0 <= / qn n)%Q) by (apply Qinv_le_0_compat; lra). set (u := (/ qn n)%Q) in *. set (v := qs n _) in *. set (w := (qn n * b)%Q) in *. clearbody u v w. nra.
  - intros i Hi. rewrite (@spread_rhs p i N0). setoid_replace (p i / qn n - spread p i / qn n)%Q with (- (/ qn n * (spread p i - p i)))%Q by (field; lra). rewrite Qabs_opp. apply Qabs_pos.
    apply Qmult_le_0_compat; [apply Qinv_le_0_compat; lra|auto].
Qed.
Lemma below_solution p x : 0 < n -> pagerank g degf d x -> (forall i, i < n -> (0 <= spread p i - p i)%Q) -> forall i, i < n -> (p i <= qn n * x i)%Q.
Proof.
  intros N0 P LO. assert (X := qn_pos N0). assert (D0 := pi_d0 IN). assert (D1 := pi_d1 IN).
  set (e := fun i => (p i / qn n - x i)%Q). set (pos := fun i => if Qle_bool 0 (e i) then e i else 0%Q).
  assert (EP : forall i, (0 <= pos i)%Q /\ (e i <= pos i)%Q).
  { intros i. unfold pos. destruct (Qle_bool 0 (e i)) eqn:B; [apply Qle_bool_iff in B; lra|]. assert (~ (0 <= e i)%Q) by (intros Y; apply Qle_bool_iff in Y; congruence). lra. }
  assert (IQ : (qs n pos <= d * qs n pos)%Q).
  { eapply Qle_trans; [|apply (dmul IN), (qs_share IN); intros; apply EP]. rewrite <- qs_mul. apply qs_le. intros i Hi.
    assert (A : (e i <= d * qsum (map (share e degf) (nth i g [])))%Q).
    { assert (B := P i Hi). assert (C := @spread_rhs p i N0). assert (D := LO i Hi). unfold e at 1. rewrite B. assert (E : (p i / qn n <= spread p i / qn n)%Q) by (unfold Qdiv; apply Qmult_le_compat_r; [lra|apply Qinv_le_0_compat; lra]).
      rewrite <- C in E. unfold pr_rhs in *. assert (F := @share_sub degf (fun j => p j / qn n)%Q x (nth i g [])). assert (F' : (qsum (map (share e degf) (nth i g [])) == qsum (map (share (fun j => p j / qn n)%Q degf) (nth i g [])) - qsum (map (share x degf) (nth i g [])))%Q) by (rewrite F; reflexivity). rewrite F'. lra. }
    assert (B : (qsum (map (share e degf) (nth i g [])) <= qsum (map (share pos degf) (nth i g [])))%Q) by (apply share_le; intros; apply EP).
    assert (C : (0 <= qsum (map (share pos degf) (nth i g [])))%Q) by (apply qsum_map_nn; intros j I; apply div_nn, EP).
    apply (dmul IN) in B. assert (C' : (0 <= d * qsum (map (share pos degf) (nth i g [])))%Q) by (apply Qmult_le_0_compat; auto). unfold pos at 1. destruct (Qle_bool 0 (e i)); lra. }
  intros i Hi. assert (Y := @qs_in_le n pos i (fun j _ => proj1 (EP j)) Hi). assert (Z : (0 <= qs n pos)%Q) by (apply qs_nn; intros; apply EP). assert (W : (qs n pos <= 0)%Q) by nra.
  assert (V : (e i <= 0)%Q) by (destruct (EP i); lra). unfold e in V. assert (U : (p i == qn n * (p i / qn n))%Q) by (field; lra). rewrite U. assert (V' : (p i / qn n <= x i)%Q) by lra. clear -V' X. set (a := (p i / qn n)%Q) in *. clearbody a. nra.
Qed.
End Residual.

Lemma zero_ranks (v : Q) m : forall s (l : list Q), s + m <= length l -> exists r, rfold (fun r i => vset r i v) (seq s m) l = Ok r /\ length r = length l /\
  forall i, s <= i < s + m -> nth_error r i = Some v.
Proof.
  induction m as [|m IH]; intros s l Hl; cbn [seq rfold].
  - exists l. repeat split; auto. lia.
  - rewrite vset_lt by lia. cbn [bind]. destruct (IH (S s) (upd l s v)) as (r & E & LR & H); [rewrite upd_length; lia|]. exists r. split; auto. split; [rewrite LR; apply upd_length|].
    intros i Hi. destruct (Nat.eq_dec i s) as [->|]; [|apply H; lia]. clear H LR.
    assert (K : forall m s' (l r : list Q) i, i < s' -> rfold (fun r i => vset r i v) (seq s' m) l = Ok r -> nth_error r i = nth_error l i).
    { clear. induction m as [|m IH]; intros s' l r i Hi; cbn [seq rfold]; [intros H; inversion H; auto|]. intros H. apply bind_Ok in H. destruct H as (l1 & H1 & H2).
      rewrite (IH (S s') l1 r i ltac:(lia) H2). apply vset_Ok in H1. destruct H1 as (H1 & ->). destruct (nth_error l i) as [a|] eqn:E.
      - apply vget_Ok. rewrite vget_upd_neq by lia. now apply vget_Ok.
      - apply nth_error_None. rewrite upd_length. now apply nth_error_None. }
    rewrite (K m (S s) (upd l s v) r s ltac:(lia) E). apply vget_Ok, vget_upd_eq. lia.
Qed.

Section ResidualRank.
Variables (g : list (list nat)) (deg : list nat) (keep : bool) (d thr : Q) (ranks : list Q) (src dst : nat -> list nat).
Notation n := (length g).
Notation degf := (fun j => nth j deg 0).
Hypothesis IN : pr_input g degf d.
Hypothesis LD : n <= length deg.
Hypothesis LR : n <= length ranks.
Hypothesis N0 : 0 < n.
Hypothesis T0 : (0 <= thr)%Q.
Hypothesis PS : forall k, Permutation (src k) (seq 0 n).
Hypothesis PD : forall k, Permutation (dst k) (seq 0 n).

Lemma start_rs : exists r0, rfold (fun r i => vset r i 0%Q) (seq 0 n) ranks = Ok r0 /\
  rs g (length ranks) (mkR r0 (repeat (1 - d)%Q n) (repeat 0%Q n) false) (fun _ => 0%Q) (fun _ => (1 - d)%Q) (fun _ => 0%Q).
Proof.
  destruct (@zero_ranks 0%Q n 0 ranks LR) as (r0 & E & LE & H). exists r0. split; auto. constructor; cbn [r_rank r_res r_delta].
  - now rewrite !repeat_length.
  - intros i Hi. apply H. lia.
  - intros i Hi. now apply nth_error_repeat.
  - intros i Hi. now apply nth_error_repeat.
Qed.
Lemma residual_ok max : exists out p, residual_rank g deg keep ranks d thr max src dst = Ok out /\ residual_result g deg d thr (length ranks) 0 max out p.
Proof.
  destruct start_rs as (r0 & E & W). unfold residual_rank. rewrite E. cbn [bind]. eapply res_loop_ok; eauto using rinv_0. intros _ i _. reflexivity.
Qed.
Lemma residual_zero max : 0 < max -> (1 - d <= thr)%Q -> exists out, residual_rank g deg keep ranks d thr max src dst = Ok out /\ ro_conv out = true /\ ro_iters out = 1 /\
  forall i, i < n -> exists s, nth_error (ro_rank out) i = Some s /\ (s == 0)%Q.
Proof.
  intros MX TB. destruct start_rs as (r0 & E & W). unfold residual_rank. rewrite E. cbn [bind]. destruct max as [|max]; [lia|]. cbn [res_loop].
  assert (D1 := pi_d1 IN). assert (RN : forall i, i < n -> (0 <= (fun _ : nat => 1 - d) i)%Q) by (intros; lra).
  destruct (@iter_ok g deg keep d thr IN LD (length ranks) LR _ _ _ _ (src 0) (dst 0) W RN (PS 0) (PD 0)) as (st1 & st2 & p' & r' & q' & E1 & E2 & W2 & T). cbn [r_rank r_res r_delta] in *. rewrite E1. cbn [bind]. rewrite E2. cbn [bind].
  destruct (r_changed st2) eqn:EC.
  - exfalso. destruct (proj1 (t_c T) eq_refl) as (i & Hi & B & _). unfold pushed in B. apply qgtb_lt in B. lra.
  - eexists. split; [reflexivity|]. repeat split; auto. intros i Hi. exists (p' i). split; [apply (rs_p W2); auto|]. rewrite (t_p T) by auto. unfold push, pushed. destruct (qgtb (1 - d) thr) eqn:B; [apply qgtb_lt in B; lra|lra].
Qed.
Lemma result_error max out p x : residual_result g deg d thr (length ranks) 0 max out p -> pagerank g degf d x ->
  (forall i, i < n -> (0 <= p i)%Q /\ (p i <= qn n * x i)%Q) /\
  ((1 - d) * qs n (fun i => Qabs (p i / qn n - x i)) <= qn (S (ro_iters out)) * thr + qpow d (ro_iters out) * (1 - d))%Q /\
  (ro_conv out = true -> ((1 - d) * qs n (fun i => Qabs (p i / qn n - x i)) <= qn (ro_iters out) * thr)%Q).
Proof.
  intros R P. assert (NP := qn_pos N0). assert (D0 := pi_d0 IN). assert (D1 := pi_d1 IN). assert (QP := @qpow_nn d (ro_iters out) D0).
  destruct (ro_conv out) eqn:CV.
  - destruct (rr_stop R CV) as (_ & H).
    assert (A : ((1 - d) * qs n (fun i => Qabs (p i / qn n - x i)) <= qn (ro_iters out) * thr)%Q).
    { apply (@below_error g deg d IN); auto; [intros i Hi; apply H; auto|]. rewrite <- qs_const. apply qs_le. intros i Hi. apply H. auto. }
    split; [|split; auto].
    + intros i Hi. split; [apply H; auto|]. apply (@below_solution g deg d IN); auto. intros j Hj. apply H. auto.
    + rewrite qn_S. nra.
  - destruct (rr_open R CV) as (_ & r & V).
    assert (LO : forall i, i < n -> (0 <= spread g deg d p i - p i)%Q) by (intros i Hi; assert (X := v_lo V Hi); assert (Y := v_r V Hi); lra).
    split; [|split; [|discriminate]].
    + intros i Hi. split; [apply (v_p V); auto|]. now apply (@below_solution g deg d IN).
    + apply (@below_error g deg d IN); auto. apply Qle_trans with (qs n (fun i => (qn (ro_iters out) * thr + thr) + push thr r i))%Q.
      * apply qs_le. intros i Hi. assert (X := v_hi V Hi). destruct (@push_cases thr r i) as [(A & B)|(A & B)]; lra.
      * rewrite qs_add, qs_const. assert (X := v_push V). rewrite qn_S. lra.
Qed.
End ResidualRank.
