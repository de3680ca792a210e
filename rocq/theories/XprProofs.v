(** Specification and lemmas for XprModel (C69). *)
From Coq Require Import List Arith ZArith QArith Qabs Lqa Lia Bool Permutation.
From Verif Require Import Base Pool RangeModel RangeProofs PforModel PageRankModel PageRankLib PageRankProofs PageRankProperties PforProperties XprModel.
Import ListNotations.
Set Implicit Arguments.
Local Open Scope nat_scope.

(** ** Specification: the power iteration *)
(** k applications of the right-hand side of the PageRank equations to the vector 1/n *)
Fixpoint power (g : list (list nat)) (deg : nat -> nat) (d : Q) (k : nat) : nat -> Q :=
  match k with 0 => fun _ => (1 / qn (length g))%Q | S k => pr_rhs g deg d (power g deg d k) end.
(** the distance between two successive vectors *)
Definition change (g : list (list nat)) (deg : nat -> nat) (d : Q) (k : nat) : Q :=
  qs (length g) (fun i => Qabs (power g deg d (S k) i - power g deg d k i))%Q.
(** The vector after the first iteration that changes less than the threshold, or after all of them. *)
Definition power_result (g : list (list nat)) (deg : nat -> nat) (d thr : Q) (max : nat) (out : prout) : Prop :=
  (exists y, scores (length g) out y /\ forall i, i < length g -> (y i == power g deg d (o_sweeps out) i)%Q) /\
  if o_conv out
  then exists k, o_sweeps out = S k /\ k < max /\ (change g deg d k < thr)%Q /\ forall m, m < k -> (thr <= change g deg d m)%Q
  else o_sweeps out = max /\ forall m, m < max -> (thr <= change g deg d m)%Q.

Lemma qsum_perm l l' : Permutation l l' -> (qsum l == qsum l')%Q.
Proof. intros P. induction P; cbn [qsum]; lra. Qed.

Section Power.
Variables (g : list (list nat)) (degf : nat -> nat) (d thr : Q).
Notation n := (length g).
Notation dist y a := (qs n (fun i => Qabs (y i - a i))%Q).
Hypothesis TG : forall i j, In j (nth i g []) -> j < n.

Lemma rhs_ext x x' : (forall j, j < n -> (x j == x' j)%Q) -> forall i, (pr_rhs g degf d x i == pr_rhs g degf d x' i)%Q.
Proof.
  intros H i. unfold pr_rhs. assert (E : (qsum (map (share x degf) (nth i g [])) == qsum (map (share x' degf) (nth i g [])))%Q).
  { apply qsum_map_ext. intros j I. unfold share. rewrite (H j (TG _ _ I)). reflexivity. }
  rewrite E. reflexivity.
Qed.
Lemma dist_ext y y' a a' : (forall i, i < n -> (y i == y' i)%Q) -> (forall i, i < n -> (a i == a' i)%Q) -> (dist y a == dist y' a')%Q.
Proof. intros H H'. apply qs_ext. intros i Hi. rewrite (H i Hi), (H' i Hi). reflexivity. Qed.

(** A state that holds the scores a. *)
Definition holds (L : nat) (st : prst) (a : nat -> Q) : Prop :=
  length (pr_rank st) = L /\ forall i, i < n -> nth_error (pr_rank st) i = Some (Some (a i)).
Definition jac_ok (L : nat) (sweep : prst -> res prst) : Prop := forall st a, holds L st a -> exists st' y e, sweep st = Ok st' /\ holds L st' y /\
  (forall i, i < n -> (y i == pr_rhs g degf d a i)%Q) /\ pr_err st' = Some e /\ (e == dist y a)%Q.

Lemma xpr_loop_ok L sweep : (forall k, jac_ok L (sweep k)) -> forall todo k st a, holds L st a -> (forall i, i < n -> (a i == power g degf d k i)%Q) ->
  (forall m, m < k -> (thr <= change g degf d m)%Q) ->
  exists out, xpr_loop sweep thr todo k st = Ok out /\ power_result g degf d thr (k + todo) out /\ length (o_rank out) = L.
Proof.
  intros SW. induction todo as [|m IH]; intros k st a HO HA HT; cbn [xpr_loop].
  - eexists. split; [reflexivity|]. split; [|apply HO]. split; cbn [o_rank o_sweeps o_conv].
    + exists a. split; auto. intros i Hi. cbn [o_rank]. now apply HO.
    + rewrite Nat.add_0_r. auto.
  - destruct (SW k st a HO) as (st' & y & e & E & HO' & HY & EE & EQ). rewrite E. cbn [bind]. rewrite EE. cbn [oltb].
    assert (PY : forall i, i < n -> (y i == power g degf d (S k) i)%Q).
    { intros i Hi. rewrite HY by auto. cbn [power]. now apply rhs_ext. }
    assert (CH : (e == change g degf d k)%Q) by (rewrite EQ; apply dist_ext; auto).
    destruct (Qle_bool thr e) eqn:T; cbn [negb].
    + apply Qle_bool_iff in T. destruct (IH (S k) st' y HO' PY) as (out & E' & R & LR).
      * intros m' Hm. destruct (Nat.eq_dec m' k) as [->|N]; [now rewrite <- CH|]. apply HT. lia.
      * exists out. split; auto. split; auto. now replace (k + S m) with (S k + m) by lia.
    + eexists. split; [reflexivity|]. split; [|apply HO']. split; cbn [o_rank o_sweeps o_conv].
      * exists y. split; auto. intros i Hi. cbn [o_rank]. now apply HO'.
      * exists k. split; auto. split; [lia|]. split; auto. rewrite <- CH. apply Qnot_le_lt. intros X. apply Qle_bool_iff in X. congruence.
Qed.

Lemma fill_holds ranks : length ranks = n -> holds n (start (fill_init ranks)) (fun _ => 1 / qn n)%Q.
Proof.
  intros L. unfold holds, start, fill_init. cbn [pr_rank]. split; [now rewrite map_length|]. intros i Hi. rewrite nth_error_map.
  destruct (nth_error ranks i) eqn:E; [|apply nth_error_None in E; lia]. cbn [option_map]. rewrite L. unfold odivn. destruct (Nat.eqb_spec n 0); [lia|]. reflexivity.
Qed.
Lemma xpr_fill sweep ranks max : length ranks = n -> (forall k, jac_ok n (sweep k)) ->
  exists out, xpr_loop sweep thr max 0 (start (fill_init ranks)) = Ok out /\ power_result g degf d thr max out /\ length (o_rank out) = n.
Proof.
  intros L SW. destruct (@xpr_loop_ok n sweep SW max 0 _ _ (fill_holds ranks L)) as (out & E & R & LR).
  - reflexivity.
  - intros m Hm. lia.
  - exists out. auto.
Qed.
End Power.

(** ** One sweep of the versions that read the old scores *)
Section Jac.
Variables (g : list (list nat)) (deg : list nat) (d : Q).
Notation n := (length g).
Notation degf := (fun j => nth j deg 0).
Notation base := ((1 - d) / qn n)%Q.
Notation dist y a := (qs n (fun i => Qabs (y i - a i))%Q).
Hypothesis IN : pr_input g degf d.
Hypothesis LD : n <= length deg.

(** The array of contributions of the scores a. *)
Definition contrib_of (a : nat -> Q) (out : list num) : Prop := length out = n /\ forall j, j < n -> nth_error out j = Some (odivn (Some (a j)) (degf j)).

Lemma contribs_ok L st a : n <= L -> holds g L st a -> exists out, contribs deg n (pr_rank st) = Ok out /\ contrib_of a out.
Proof.
  intros HL (HR & HV). unfold contribs. rewrite (@rmap_ok _ _ _ (fun i => odivn (Some (a i)) (degf i))).
  - eexists. split; [reflexivity|]. split; [now rewrite map_length, seq_length|]. intros j Hj. rewrite nth_error_map, (nth_error_nth' _ 0) by (rewrite seq_length; auto).
    rewrite seq_nth by auto. reflexivity.
  - intros i I. apply in_seq in I. rewrite (proj2 (vget_Ok _ _ _) (HV i ltac:(lia))). cbn [bind]. rewrite (@vget_nth _ deg i 0) by lia. reflexivity.
Qed.

Lemma row_sum_ok a out t : contrib_of a out -> forall l, (forall j, In j l -> exists i, In j (nth i g [])) ->
  exists z, row_sum out t l = Ok (Some z) /\ (z == qsum (map (share a degf) l))%Q.
Proof.
  intros (LO & HO). induction t as [|k t1 IH1 t2 IH2]; intros l HI; cbn [row_sum].
  - assert (X : forall l z0, (forall j, In j l -> exists i, In j (nth i g [])) -> exists z, rfold (fun z j => do c <- vget out j ; Ok (oplus z c)) l (Some z0) = Ok (Some z) /\ (z == z0 + qsum (map (share a degf) l))%Q).
    { clear l HI. induction l as [|j l IH]; intros z0 HI; cbn [rfold map qsum]; [exists z0; split; auto; lra|].
      destruct (HI j (or_introl eq_refl)) as (i & I). assert (Lj := pi_tgt IN i j I). assert (DJ := @occ_in g deg d IN LD n (le_n _) i j I). cbn beta in DJ.
      rewrite (proj2 (vget_Ok _ _ _) (HO j Lj)). cbn [bind]. unfold odivn. destruct (Nat.eqb_spec (nth j deg 0) 0); [lia|]. unfold oplus at 2. cbn [olift2].
      destruct (IH (z0 + a j / qnat (nth j deg 0%nat))%Q) as (z & E & Z); [intros; apply HI; now right|]. exists z. split; auto. rewrite Z. unfold share, qnat, qn. lra. }
    destruct (X l 0%Q HI) as (z & E & Z). exists z. split; auto. lra.
  - rewrite <- (firstn_skipn k l) in HI. destruct (IH1 (firstn k l)) as (x & Ex & X); [intros; apply HI, in_or_app; auto|].
    destruct (IH2 (skipn k l)) as (y & Ey & Y); [intros; apply HI, in_or_app; auto|]. rewrite Ex, Ey. cbn [bind]. unfold oplus. cbn [olift2]. exists (x + y)%Q. split; auto.
    rewrite X, Y, <- qsum_app, <- map_app, firstn_skipn. reflexivity.
Qed.

Variable a : nat -> Q.
Variable L : nat.
Hypothesis HL : n <= L.
Variable arr : nat -> list nat -> list nat * stre.
Hypothesis PA : forall i l, Permutation (fst (arr i l)) l.

Record js (ts : list (list nat)) (st : prst) (y : nat -> Q) : Prop := {
  j_len : length (pr_rank st) = L;
  j_out : contrib_of a (pr_out st);
  j_rank : forall i, i < n -> nth_error (pr_rank st) i = Some (Some (y i));
  j_nd : NoDup (concat ts);
  j_lt : forall i, In i (concat ts) -> i < n;
  j_old : forall i, In i (concat ts) -> y i = a i;
  j_new : forall i, i < n -> ~ In i (concat ts) -> (y i == pr_rhs g degf d a i)%Q;
  j_err : exists e, pr_err st = Some e /\ (e == dist y a)%Q
}.

Lemma jac_step_ok l1 t l2 st : (exists y, js (l1 ++ t :: l2) st y) ->
  exists o st', for_step (jac_vertex g base d arr) t st = Ok (o, st') /\ (exists y, js (l1 ++ opt_list o ++ l2) st' y) /\ match o with Some t' => length t' < length t | None => True end.
Proof.
  intros (y & W). destruct t as [|i t]; cbn [for_step].
  - exists None, st. split; auto. split; auto. exists y. cbn [opt_list app]. destruct W. rewrite concat_app in *. cbn [concat app] in *. rewrite <- concat_app in *. constructor; auto.
  - assert (CE : concat (l1 ++ (i :: t) :: l2) = concat l1 ++ i :: t ++ concat l2) by (rewrite concat_app; reflexivity).
    assert (CE' : concat (l1 ++ [t] ++ l2) = concat l1 ++ t ++ concat l2) by (rewrite concat_app; reflexivity).
    assert (IC : In i (concat (l1 ++ (i :: t) :: l2))) by (rewrite CE; apply in_or_app; right; now left).
    assert (Li := j_lt W i IC). unfold jac_vertex. rewrite (@vget_nth _ g i []) by auto. cbn [bind]. assert (PI := PA i (nth i g [])). destruct (arr i (nth i g [])) as (l, tr). cbn [fst] in PI.
    destruct (@row_sum_ok a (pr_out st) tr (j_out W) l) as (z & EZ & Z); [intros j I; exists i; eapply Permutation_in; eauto|]. rewrite EZ. cbn [bind].
    rewrite (proj2 (vget_Ok _ _ _) (j_rank W Li)). cbn [bind]. assert (LR := j_len W). rewrite vset_lt by lia. cbn [bind].
    eexists _, _. split; [reflexivity|]. split; [|cbn [length]; lia]. cbn [opt_list].
    unfold new_rank, oplus, gap. cbn [olift2]. set (new := (base + d * z)%Q).
    assert (NEW : (new == pr_rhs g degf d a i)%Q).
    { unfold new, pr_rhs. rewrite Z, (qsum_perm (Permutation_map (share a degf) PI)). reflexivity. }
    assert (ND := j_nd W). rewrite CE in ND. assert (NI := NoDup_remove_2 _ _ _ ND). assert (ND' := NoDup_remove_1 _ _ _ ND).
    exists (fun k => if k =? i then new else y k). constructor; cbn [pr_rank pr_out pr_err].
    + now rewrite upd_length.
    + apply W.
    + intros k Hk. destruct (Nat.eqb_spec k i) as [->|N]; [apply vget_Ok, vget_upd_eq; lia|]. apply vget_Ok. rewrite vget_upd_neq by auto. apply vget_Ok. now apply W.
    + now rewrite CE'.
    + intros k I. apply (j_lt W). rewrite CE. rewrite CE' in I. apply in_app_or in I. apply in_or_app. destruct I; [left|right; right]; auto.
    + intros k I. rewrite CE' in I. destruct (Nat.eqb_spec k i) as [->|N]; [contradiction|]. apply (j_old W). rewrite CE. apply in_app_or in I. apply in_or_app. destruct I; [left|right; right]; auto.
    + intros k Hk I. rewrite CE' in I. destruct (Nat.eqb_spec k i) as [->|N]; auto. apply (j_new W); auto. rewrite CE. intros X. apply I. apply in_app_or in X. apply in_or_app.
      destruct X as [X|[X|X]]; [left|congruence|right]; auto.
    + destruct (j_err W) as (e & EE & EQ). rewrite EE. cbn [olift2]. eexists. split; [reflexivity|]. rewrite EQ, (j_old W i IC).
      assert (DL := @qs_delta n i (Qabs (new - a i)) Li). rewrite <- DL. rewrite <- qs_add. apply qs_ext. intros k Hk.
      destruct (Nat.eq_dec i k) as [<-|N].
      * rewrite Nat.eqb_refl, (j_old W i IC). setoid_replace (a i - a i)%Q with 0%Q by lra. change (Qabs 0) with 0%Q. lra.
      * destruct (Nat.eqb_spec k i); [congruence|]. lra.
Qed.

Lemma jac_sweep_ok parts sched st : holds g L st a -> Permutation (concat parts) (seq 0 n) ->
  exists st' y e, jac_sweep g deg base d n parts arr sched st = Ok st' /\ holds g L st' y /\
    (forall i, i < n -> (y i == pr_rhs g degf d a i)%Q) /\ pr_err st' = Some e /\ (e == dist y a)%Q.
Proof.
  intros HO PM. unfold jac_sweep. destruct (@contribs_ok L st a HL HO) as (out & E & CO). rewrite E. cbn [bind].
  destruct (@run_inv _ _ (for_step (jac_vertex g base d arr)) (@length nat) (fun ts st => exists y, js ts st y) jac_step_ok) with
    (fuel := sum (map (@length nat) parts) + length parts) (sched := sched) (now := 0) (ts := parts) (s := mkPr (pr_rank st) out (Some 0%Q)) as (st' & E' & y & W); auto.
  - exists a. destruct HO as (HR & HV). constructor; cbn [pr_rank pr_out pr_err]; auto.
    + apply (Permutation_NoDup (Permutation_sym PM)), seq_NoDup.
    + intros i I. apply (Permutation_in _ PM) in I. apply in_seq in I. lia.
    + intros i Hi NI. exfalso. apply NI. apply (Permutation_in _ (Permutation_sym PM)). apply in_seq. lia.
    + exists 0%Q. split; auto. rewrite (@qs_ext n _ (fun _ => 0%Q)); [rewrite qs_const; lra|]. intros i _. setoid_replace (a i - a i)%Q with 0%Q by lra. reflexivity.
  - destruct (j_err W) as (e & EE & EQ). exists st', y, e. split; auto. split; [split; apply W|]. split; auto. intros i Hi. apply (j_new W); auto.
Qed.
End Jac.

(** ** The sums by edges (v6) *)
Definition rows_of (r : orange) : list nat := seq (or_begin r) (or_end r - or_begin r).
Section Scatter.
Variables (g : list (list nat)) (deg : list nat) (d : Q).
Notation n := (length g).
Notation degf := (fun j => nth j deg 0).
Notation base := ((1 - d) / qn n)%Q.
Notation dist y a := (qs n (fun i => Qabs (y i - a i))%Q).
Hypothesis IN : pr_input g degf d.
Hypothesis LD : n <= length deg.
Variables (a : nat -> Q) (out : list num).
Hypothesis CO : contrib_of g deg a out.

Definition part (i : nat) (es : list (nat * nat)) : Q := qsum (map (fun e => if fst e =? i then share a degf (snd e) else 0%Q) es).
Lemma part_app i l l' : (part i (l ++ l') == part i l + part i l')%Q.
Proof. unfold part. rewrite map_app. apply qsum_app. Qed.
Lemma part_row i k (l : list nat) : (part i (map (pair k) l) == if k =? i then qsum (map (share a degf) l) else 0)%Q.
Proof. unfold part. rewrite map_map. cbn [fst snd]. destruct (Nat.eqb_spec k i); [reflexivity|]. rewrite qsum_const. lra. Qed.
Lemma part_between i m : forall b, (part i (flat_map (row_edges g) (seq b m)) == if (b <=? i) && (i <? b + m) then qsum (map (share a degf) (nth i g [])) else 0)%Q.
Proof.
  induction m as [|m IH]; intros b; cbn [seq flat_map].
  - destruct (Nat.leb_spec b i), (Nat.ltb_spec i (b + 0)); cbn [andb]; try lia; reflexivity.
  - rewrite part_app, IH. unfold row_edges. rewrite part_row. destruct (Nat.eqb_spec b i) as [->|N].
    + replace (S i <=? i) with false by (symmetry; apply Nat.leb_gt; lia). replace (i <=? i) with true by (symmetry; apply Nat.leb_le; lia). replace (i <? i + S m) with true by (symmetry; apply Nat.ltb_lt; lia).
      cbn [andb]. lra.
    + destruct (Nat.leb_spec (S b) i), (Nat.ltb_spec i (S b + m)), (Nat.leb_spec b i), (Nat.ltb_spec i (b + S m)); cbn [andb]; try lia; lra.
Qed.

Record sc (ts : list etask) (z : list num) (zv : nat -> Q) : Prop := {
  s_len : length z = n;
  s_val : forall i, i < n -> nth_error z i = Some (Some (zv i));
  s_nd : NoDup (flat_map (fun t => rows_of (e_rng t)) ts);
  s_in : forall t i j, In t ts -> In (i, j) (e_left t) -> In i (rows_of (e_rng t)) /\ i < n /\ In j (nth i g []);
  s_load : forall t v, In t ts -> e_load t = Some v -> exists i j l w, e_left t = (i, j) :: l /\ v = Some w /\ (w == zv i + share a degf j)%Q;
  s_sum : forall i, i < n -> (zv i + part i (flat_map e_left ts) == qsum (map (share a degf) (nth i g [])))%Q
}.

Lemma NoDup_mid (A : Type) (l1 l2 l3 : list A) x : NoDup (l1 ++ l2 ++ l3) -> In x l2 -> ~ In x l1 /\ ~ In x l3.
Proof.
  intros ND I. split; intros J.
  - apply in_split in J. destruct J as (p & q & ->). rewrite <- app_assoc in ND. cbn [app] in ND. apply NoDup_remove_2 in ND. apply ND. rewrite !in_app_iff. auto.
  - apply in_split in I. destruct I as (p & q & ->). rewrite <- app_assoc in ND. cbn [app] in ND. rewrite app_assoc in ND. apply NoDup_remove_2 in ND. apply ND. rewrite !in_app_iff. auto.
Qed.
Lemma NoDup_drop (A : Type) (l1 l2 l3 : list A) : NoDup (l1 ++ l2 ++ l3) -> NoDup (l1 ++ l3).
Proof. induction l2 as [|x l2 IH]; cbn [app]; auto. intros ND. apply NoDup_remove_1 in ND. auto. Qed.

Lemma scatter_step_ok l1 t l2 z : (exists zv, sc (l1 ++ t :: l2) z zv) ->
  exists o z', scatter_step out t z = Ok (o, z') /\ (exists zv, sc (l1 ++ opt_list o ++ l2) z' zv) /\ match o with Some t' => scatter_size t' < scatter_size t | None => True end.
Proof.
  intros (zv & W). assert (IT : In t (l1 ++ t :: l2)) by (apply in_or_app; right; now left). unfold scatter_step, scatter_size.
  assert (SUB : forall x, In x (l1 ++ l2) -> In x (l1 ++ t :: l2)) by (intros x X; apply in_app_or in X; apply in_or_app; destruct X; [left|right; right]; auto).
  assert (NDT : forall t' i, In t' (l1 ++ l2) -> In i (rows_of (e_rng t)) -> ~ In i (rows_of (e_rng t'))).
  { intros t' i I Ii Ii'. assert (ND := s_nd W). rewrite flat_map_app in ND. cbn [flat_map] in ND. destruct (NoDup_mid _ _ _ _ ND Ii) as [N1 N2].
    apply in_app_or in I. destruct I as [I|I]; [apply N1|apply N2]; apply in_flat_map; eauto. }
  assert (PE : forall l i, (part i (flat_map e_left (l1 ++ l ++ l2)) == part i (flat_map e_left l1) + part i (flat_map e_left l) + part i (flat_map e_left l2))%Q).
  { intros l i. rewrite !flat_map_app, !part_app. lra. }
  assert (PT : forall i, (part i (flat_map e_left (l1 ++ t :: l2)) == part i (flat_map e_left l1) + part i (e_left t) + part i (flat_map e_left l2))%Q).
  { intros i. rewrite !flat_map_app, !part_app. cbn [flat_map]. rewrite part_app. lra. }
  destruct (e_left t) as [|(i, j) l] eqn:EL.
  - exists None, z. split; auto. split; auto. exists zv. cbn [opt_list app]. constructor; try apply W.
    + assert (ND := s_nd W). rewrite flat_map_app in *. cbn [flat_map] in ND. eapply NoDup_drop; eauto.
    + intros t' i j I. apply (s_in W). auto.
    + intros t' v I. apply (s_load W). auto.
    + intros i Hi. assert (X := s_sum W Hi). rewrite PT in X. rewrite flat_map_app, part_app. unfold part at 2 in X. cbn [map qsum] in X. lra.
  - destruct (s_in W t i j IT) as (IR & Li & IJ); [rewrite EL; now left|]. assert (Lj := pi_tgt IN i j IJ). assert (DJ := @occ_in g deg d IN LD n (le_n _) i j IJ). cbn beta in DJ.
    destruct (e_load t) as [v|] eqn:EV.
    + destruct (s_load W t IT EV) as (i' & j' & l' & w & EL' & -> & EW). rewrite EL in EL'. injection EL' as <- <- <-.
      rewrite vset_lt by (rewrite (s_len W); auto). cbn [bind]. eexists _, _. split; [reflexivity|]. split; [|cbn [e_left e_load length]; lia].
      cbn [opt_list]. exists (fun k => if k =? i then w else zv k). constructor.
      * rewrite upd_length. apply W.
      * intros k Hk. destruct (Nat.eqb_spec k i) as [->|N]; [apply vget_Ok, vget_upd_eq; rewrite (s_len W); auto|]. apply vget_Ok. rewrite vget_upd_neq by auto. apply vget_Ok. now apply W.
      * assert (ND := s_nd W). rewrite !flat_map_app in *. cbn [flat_map e_rng] in *. rewrite app_nil_r. exact ND.
      * intros t' k q I J. apply in_app_or in I. destruct I as [I|[<-|I]]; [apply (s_in W); auto; apply SUB, in_or_app; auto| |apply (s_in W); auto; apply SUB, in_or_app; auto].
        cbn [e_rng e_left] in *. apply (s_in W t); auto. rewrite EL. now right.
      * intros t' v I EV'. assert (I' : t' = mkE (e_rng t) None l \/ In t' (l1 ++ l2)) by (rewrite in_app_iff in *; cbn [In app] in I; intuition auto).
        destruct I' as [->|I']; [discriminate EV'|]. destruct (s_load W t' (SUB _ I') EV') as (k & q & l0 & u & E0 & -> & U). exists k, q, l0, u. split; auto. split; auto.
        destruct (Nat.eqb_spec k i) as [->|N]; auto. exfalso. destruct (s_in W t' i q (SUB _ I')) as (X & _); [rewrite E0; now left|]. eapply NDT; eauto.
      * intros k Hk. assert (X := s_sum W Hk). rewrite PT in X. assert (Y := PE [mkE (e_rng t) None l] k). cbn [flat_map e_left] in Y. rewrite app_nil_r in Y. rewrite Y.
        unfold part at 2 in X. cbn [map qsum fst snd] in X. fold (part k l) in X. rewrite (Nat.eqb_sym i k) in X. destruct (Nat.eqb_spec k i) as [->|N]; [rewrite EW|]; lra.
    + destruct CO as (LO & HO). rewrite (proj2 (vget_Ok _ _ _) (s_val W Li)). cbn [bind]. rewrite (proj2 (vget_Ok _ _ _) (HO j Lj)). cbn [bind].
      eexists _, _. split; [reflexivity|]. split; [|cbn [e_left e_load length]; lia]. cbn [opt_list]. exists zv. constructor; try apply W.
      * assert (ND := s_nd W). rewrite !flat_map_app in *. cbn [flat_map e_rng] in *. rewrite app_nil_r. exact ND.
      * intros t' k q I J. apply in_app_or in I. destruct I as [I|[<-|I]]; [apply (s_in W); auto; apply SUB, in_or_app; auto| |apply (s_in W); auto; apply SUB, in_or_app; auto].
        cbn [e_rng e_left] in *. apply (s_in W t); auto. now rewrite EL.
      * intros t' v I EV'. apply in_app_or in I. destruct I as [I|[<-|I]]; [apply (s_load W); auto; apply SUB, in_or_app; auto| |apply (s_load W); auto; apply SUB, in_or_app; auto].
        cbn [e_load e_left] in *. injection EV' as <-. exists i, j, l. unfold odivn. destruct (Nat.eqb_spec (nth j deg 0) 0); [lia|]. unfold oplus. cbn [olift2]. eexists. split; auto. split; auto. reflexivity.
      * intros k Hk. assert (X := s_sum W Hk). rewrite PT in X. assert (Y := PE [mkE (e_rng t) (Some (oplus (Some (zv i)) (odivn (Some (a j)) (nth j deg 0)))) ((i, j) :: l)] k). cbn [flat_map e_left] in Y. rewrite app_nil_r in Y. rewrite Y. exact X.
Qed.

Lemma spieces_rows t : forall r, orw g r -> Forall (orw g) (spieces or_split t r) /\ flat_map rows_of (spieces or_split t r) = rows_of r.
Proof.
  induction t as [|t1 IH1 t2 IH2]; intros r H; cbn [spieces].
  - cbn [flat_map]. rewrite app_nil_r. auto.
  - destruct (orw_split H) as (W1 & W2). destruct H as (H & HL). destruct (@or_split_ok r H) as (k & M & E & _). rewrite E in *. cbn [fst snd] in *.
    destruct (IH1 _ W1) as (F1 & E1). destruct (IH2 _ W2) as (F2 & E2). split; [apply Forall_app; auto|]. rewrite flat_map_app, E1, E2. unfold rows_of. cbn [or_begin or_end].
    replace (or_end r - or_begin r) with ((k - or_begin r) + (or_end r - k)) by lia. rewrite seq_app. f_equal. f_equal. lia.
Qed.

Lemma scatter_ok t sched : exists z zv, scatter g out t sched (repeat (Some 0%Q) n) = Ok z /\ length z = n /\
  (forall i, i < n -> nth_error z i = Some (Some (zv i))) /\ forall i, i < n -> (zv i == qsum (map (share a degf) (nth i g [])))%Q.
Proof.
  unfold scatter. destruct (@orw_make nat g 0 ltac:(lia)) as (W & _). destruct (spieces_rows t W) as (FO & RO).
  set (ps := spieces or_split t (or_make g 0)) in *. rewrite Forall_forall in FO.
  rewrite (@rmap_ok _ _ _ (fun r => mkE r None (edges_between g (or_begin r) (or_end r)))).
  2:{ intros r I. rewrite (orw_visit (FO r I)). reflexivity. }
  cbn [bind]. set (ts := map (fun r => mkE r None (edges_between g (or_begin r) (or_end r))) ps).
  destruct (@run_inv _ _ (scatter_step out) scatter_size (fun ts z => exists zv, sc ts z zv) scatter_step_ok) with
    (fuel := sum (map scatter_size ts) + length ts) (sched := sched) (now := 0) (ts := ts) (s := repeat (Some 0%Q) n) as (z & E & zv & S); auto.
  - exists (fun _ => 0%Q).
    assert (RT : flat_map (fun t => rows_of (e_rng t)) ts = seq 0 n).
    { unfold ts. rewrite flat_map_concat_map, map_map. cbn [e_rng]. rewrite <- flat_map_concat_map. change (flat_map (fun x => rows_of x) ps) with (flat_map rows_of ps). rewrite RO. unfold rows_of. cbn [or_make or_begin or_end]. f_equal. lia. }
    constructor.
    + now rewrite repeat_length.
    + intros i Hi. rewrite (nth_error_nth' _ (Some 0%Q)) by (now rewrite repeat_length). now rewrite nth_repeat.
    + rewrite RT. apply seq_NoDup.
    + intros t0 i j I J. apply in_map_iff in I. destruct I as (r & <- & I). cbn [e_left e_rng] in *. unfold edges_between in J. apply in_flat_map in J. destruct J as (u & U & J). unfold row_edges in J.
      apply in_map_iff in J. destruct J as (x & X & J). injection X as <- <-. destruct (FO r I) as (_ & HL). split; auto. apply in_seq in U. split; auto. lia.
    + intros t0 v I. apply in_map_iff in I. destruct I as (r & <- & I). discriminate.
    + intros i Hi. assert (EE : flat_map e_left ts = flat_map (row_edges g) (seq 0 n)).
      { rewrite <- RT. unfold ts. clear. induction ps as [|r l IH]; auto. cbn [map flat_map e_left e_rng]. rewrite flat_map_app, IH. reflexivity. }
      rewrite EE, part_between. replace (i <? 0 + n) with true by (symmetry; apply Nat.ltb_lt; lia). cbn [Nat.leb andb]. lra.
  - exists z, zv. split; auto. split; [apply S|]. split; [apply S|]. intros i Hi. assert (X := s_sum S Hi). cbn [flat_map part map qsum] in X. unfold part in X. cbn [map qsum] in X. lra.
Qed.
End Scatter.

Section V6.
Variables (g : list (list nat)) (deg : list nat) (d : Q).
Notation n := (length g).
Notation degf := (fun j => nth j deg 0).
Notation base := ((1 - d) / qn n)%Q.
Hypothesis IN : pr_input g degf d.
Hypothesis LD : n <= length deg.

Lemma v6_sweep_ok t sched : jac_ok g degf d n (v6_sweep g deg base d t sched).
Proof.
  intros st a HO. unfold v6_sweep. assert (LR := proj1 HO). rewrite LR. destruct (@contribs_ok g deg LD n st a (le_n _) HO) as (out & E & CO). rewrite E. cbn [bind].
  destruct (@scatter_ok g deg d IN LD a out CO t sched) as (z & zv & EZ & LZ & VZ & SZ). rewrite EZ. cbn [bind].
  set (y := fun i => (base + d * zv i)%Q). assert (NV : forall i, i < n -> nth_error (map (new_rank base d) z) i = Some (Some (y i))).
  { intros i Hi. rewrite nth_error_map, VZ by auto. reflexivity. }
  assert (ER : forall m e0, m <= n -> exists e, rfold (fun e i => do p <- vget (map (new_rank base d) z) i ; do b <- vget (pr_rank st) i ; Ok (oplus e (gap p b))) (seq 0 m) (Some e0) = Ok (Some e) /\
    (e == e0 + qs m (fun i => Qabs (y i - a i)))%Q).
  { induction m as [|m IH]; intros e0 Hm; [exists e0; split; auto; unfold qs; cbn [seq map qsum]; lra|].
    rewrite seq_S, rfold_app. destruct (IH e0 ltac:(lia)) as (e & Ee & Q). rewrite Ee. cbn [bind rfold Nat.add]. rewrite (proj2 (vget_Ok _ _ _) (NV m ltac:(lia))). cbn [bind].
    rewrite (proj2 (vget_Ok _ _ _) (proj2 HO m ltac:(lia))). cbn [bind gap oplus olift2]. eexists. split; [reflexivity|]. rewrite qs_S, Q. lra. }
  destruct (ER n 0%Q (le_n _)) as (e & EE & EQ). rewrite EE. cbn [bind]. eexists _, y, e. split; [reflexivity|]. split; [split; cbn [pr_rank]; auto; now rewrite map_length|]. split; [|split; auto; rewrite EQ; lra].
  intros i Hi. unfold y, pr_rhs. rewrite SZ by auto. reflexivity.
Qed.
End V6.
