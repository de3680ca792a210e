From Coq Require Import List Arith ZArith QArith Qround Lia Lqa.
From Verif Require Import Base GraphLib WalkModel.
Import ListNotations.
Set Implicit Arguments.
Local Open Scope nat_scope.

Lemma concat_nth (g : list (list nat)) : forall v i, i < length (nth v g []) -> nth_error (concat g) (row_start g v + i) = nth_error (nth v g []) i.
Proof.
  unfold row_start. induction g as [|r g IH]; intros v i L.
  - destruct v; cbn in L; lia.
  - destruct v as [|v]; cbn [nth firstn map sum concat] in *.
    + now rewrite nth_error_app1.
    + rewrite nth_error_app2 by lia. replace (length r + sum (map (@length nat) (firstn v g)) + i - length r) with (sum (map (@length nat) (firstn v g)) + i) by lia. now apply IH.
Qed.
Lemma pick_lt N d : 0 < N -> (0 <= d)%Q -> (d < 1)%Q -> Z.to_nat (Qfloor (inject_Z (Z.of_nat N) * d)) < N.
Proof.
  intros P L U. set (q := (inject_Z (Z.of_nat N) * d)%Q).
  assert (A : (q < inject_Z (Z.of_nat N))%Q).
  { unfold q. assert (Pq : (0 < inject_Z (Z.of_nat N))%Q) by (change 0%Q with (inject_Z 0); rewrite <- Zlt_Qlt; lia).
    setoid_replace (inject_Z (Z.of_nat N)) with (inject_Z (Z.of_nat N) * 1)%Q at 2 by ring. rewrite Qmult_comm, (Qmult_comm _ 1). now apply Qmult_lt_compat_r. }
  assert (B : (Qfloor q < Z.of_nat N)%Z). { rewrite Zlt_Qlt. apply Qle_lt_trans with q; auto. apply Qfloor_le. }
  lia.
Qed.
Lemma pick_frac N i : i < N -> Z.to_nat (Qfloor (inject_Z (Z.of_nat N) * (Z.of_nat i # Pos.of_nat N))) = i.
Proof.
  intros L. assert (E : (inject_Z (Z.of_nat N) * (Z.of_nat i # Pos.of_nat N) == inject_Z (Z.of_nat i))%Q).
  { unfold Qeq, inject_Z, Qmult. cbn [Qnum Qden]. rewrite Pos2Z.inj_mul. rewrite <- (positive_nat_Z (Pos.of_nat N)), Nat2Pos.id by lia. lia. }
  rewrite E, Qfloor_Z. apply Nat2Z.id.
Qed.
Lemma step_edge g v d : v < length g -> nth v g [] <> [] -> (0 <= d)%Q -> (d < 1)%Q -> exists w, rr_step g v d = Ok w /\ edge g v w.
Proof.
  intros L N A B. unfold rr_step. rewrite (@vget_nth _ g v []) by auto. cbn [bind].
  set (p := Z.to_nat (Qfloor (inject_Z (Z.of_nat (length (nth v g []))) * d))). assert (P : p < length (nth v g [])).
  { apply pick_lt; auto. destruct (nth v g []); [congruence|cbn; lia]. }
  exists (nth p (nth v g []) 0). split; [|now apply nth_In]. apply vget_Ok. rewrite concat_nth by auto. now apply nth_error_nth'.
Qed.
(** ** The whole walk *)
(** [l] lists consecutive vertices of a walk *)
Fixpoint is_path (g : list (list nat)) (l : list nat) : Prop :=
  match l with [] => True | u :: t => match t with [] => True | v :: _ => edge g u v /\ is_path g t end end.
Lemma run_path g dice : targets_ok g -> (forall i, (0 <= dice i)%Q /\ (dice i < 1)%Q) ->
  forall len s i, s < length g -> (forall v, reachable g s v -> nth v g [] <> []) ->
  exists l, rr_run len g s dice i = Ok l /\ length l = len /\ is_path g l /\ (forall u t, l = u :: t -> u = s).
Proof.
  intros T D. induction len as [|len IH]; intros s i L R.
  - exists []. cbn. repeat split; auto. discriminate.
  - assert (N : nth s g [] <> []) by (apply R; exists 0; constructor).
    destruct (D i) as [D1 D2]. destruct (@step_edge g s (dice i) L N D1 D2) as (w & E & W). destruct (IH w (S i)) as (l & El & Ll & Pl & Hl).
    + exact (T _ _ W).
    + intros v (k & K). apply R. exists (1 + k). eapply walk_app; [|exact K]. eapply walk_S; [constructor|exact W].
    + exists (s :: l). cbn [rr_run]. rewrite E. cbn [bind]. rewrite El. cbn [bind]. split; auto. split; [cbn; lia|]. split.
      * cbn. destruct l as [|u t]; auto. split; auto. rewrite (Hl _ _ eq_refl). exact W.
      * intros u t Q. now inversion Q.
Qed.
Lemma run_shift g dice dice' : forall len s i j, (forall k, dice (i + k) = dice' (j + k)) -> rr_run len g s dice i = rr_run len g s dice' j.
Proof.
  induction len as [|len IH]; intros s i j E; [reflexivity|]. cbn [rr_run].
  assert (E0 := E 0). rewrite !Nat.add_0_r in E0. rewrite E0. destruct (rr_step g s (dice' j)); cbn [bind]; auto.
  rewrite (IH a (S i) (S j)); auto. intros k. replace (S i + k) with (i + S k) by lia. rewrite E. f_equal. lia.
Qed.
Lemma step_reach g v w : edge g v w -> exists d, (0 <= d)%Q /\ (d < 1)%Q /\ rr_step g v d = Ok w.
Proof.
  intros W. assert (L := @edge_lt _ _ _ W). destruct (In_nth _ _ 0 W) as (i & I & N).
  exists (Z.of_nat i # Pos.of_nat (length (nth v g []))). split; [|split].
  - unfold Qle. cbn. lia.
  - unfold Qlt. cbn [Qnum Qden]. rewrite <- (positive_nat_Z (Pos.of_nat _)), Nat2Pos.id by lia. lia.
  - unfold rr_step. rewrite (@vget_nth _ g v []) by auto. cbn [bind]. rewrite pick_frac by auto. apply vget_Ok. rewrite concat_nth by auto. rewrite <- N. now apply nth_error_nth'.
Qed.
Lemma run_complete g : forall l s, is_path g (s :: l) -> nth (last l s) g [] <> [] ->
  exists dice, (forall i, (0 <= dice i)%Q /\ (dice i < 1)%Q) /\ rr_run (S (length l)) g s dice 0 = Ok (s :: l).
Proof.
  induction l as [|w l IH]; intros s P N.
  - cbn [last] in N. destruct (nth s g []) as [|w t] eqn:E; [congruence|]. assert (W : edge g s w) by (unfold edge; rewrite E; left; auto).
    destruct (@step_reach _ _ _ W) as (d & D1 & D2 & D3). exists (fun _ => d). split; [auto|]. cbn [rr_run length]. rewrite D3. reflexivity.
  - destruct P as [W P]. assert (NL : last (w :: l) s = last l w) by (clear; revert w s; induction l as [|x l IH]; intros w s; [reflexivity|]; cbn [last] in *; destruct l; auto).
    rewrite NL in N. destruct (IH w P N) as (dice & D & R). destruct (@step_reach _ _ _ W) as (d & D1 & D2 & D3).
    exists (fun i => match i with 0 => d | S j => dice j end). split; [intros [|i]; auto|].
    cbn [length]. cbn [rr_run]. rewrite D3. cbn [bind].
    assert (RS : rr_run (S (length l)) g w (fun i => match i with 0 => d | S j => dice j end) 1 = Ok (w :: l)) by (rewrite <- R; apply run_shift; reflexivity).
    cbn [rr_run] in RS. rewrite RS. reflexivity.
Qed.
(** ** A sink *)
Lemma concat_all_nil (g : list (list nat)) : (forall r, In r g -> r = []) -> concat g = [].
Proof. induction g as [|r g IH]; intros H; cbn; auto. rewrite (H r) by (left; auto). apply IH. intros; apply H; now right. Qed.
Lemma row_start_length g v : length (concat (firstn v g)) = row_start g v.
Proof. unfold row_start. generalize (firstn v g). intros l. induction l as [|r l IH]; cbn; auto. rewrite app_length, IH. reflexivity. Qed.
Lemma sum_nil_rows (l : list (list nat)) : (forall r, In r l -> r = []) -> sum (map (@length nat) l) = 0.
Proof. induction l as [|r l IH]; cbn; intros H; auto. rewrite (H r) by auto. cbn. auto. Qed.
Lemma sink_step g v d : v < length g -> nth v g [] = [] -> rr_step g v d = vget (concat g) (row_start g v).
Proof.
  intros L E. unfold rr_step. rewrite (@vget_nth _ g v []) by auto. cbn [bind]. rewrite E. cbn [length]. f_equal.
  assert (Z : (inject_Z (Z.of_nat 0) * d == inject_Z 0)%Q) by (cbn; ring). rewrite Z, Qfloor_Z. cbn. lia.
Qed.
Lemma row_start_skip g v : forall w, v <= w -> (forall u, v <= u < w -> nth u g [] = []) -> row_start g w = row_start g v.
Proof.
  intros w L H. induction w as [|w IH]; [now replace v with 0 by lia|]. destruct (Nat.eq_dec v (S w)) as [->|N]; auto.
  rewrite <- IH by (try lia; intros; apply H; lia). unfold row_start. destruct (Nat.lt_ge_cases w (length g)) as [G|G].
  - assert (F : firstn (S w) g = firstn w g ++ [nth w g []]).
    { clear - G. revert g G. induction w as [|w IH]; intros [|r g] G; cbn in G; try lia; auto. cbn [firstn nth app]. f_equal. now apply IH; lia. }
    rewrite F, map_app, sum_app, (H w) by lia. cbn. lia.
  - now rewrite !firstn_all2 by lia.
Qed.
(** ** Paths backwards *)
Lemma rp_chain path none stop : forall k curr fuel, 0 < k -> k <= fuel -> ancestor path none k curr = stop ->
  (forall j, 0 < j < k -> ancestor path none j curr <> stop) -> (forall j, j < k -> ancestor path none j curr < length path) ->
  rp_run fuel path stop curr false = Ok (map (fun j => ancestor path none j curr) (seq 0 k), true).
Proof.
  induction k as [|k IH]; intros curr fuel P F A N R; [lia|]. destruct fuel as [|fuel]; [lia|]. cbn [rp_run].
  assert (R0 := R 0 P). cbn in R0. rewrite (@vget_nth _ path curr none) by auto. cbn [bind].
  destruct (Nat.eq_dec k 0) as [->|K].
  - cbn in A. rewrite A, Nat.eqb_refl. destruct fuel; reflexivity.
  - assert (N1 : nth curr path none <> stop) by (apply (N 1); lia). rewrite (proj2 (Nat.eqb_neq _ _) N1).
    rewrite (IH (nth curr path none) fuel).
    + cbn [bind fst snd seq map ancestor]. rewrite <- seq_shift, map_map. reflexivity.
    + lia.
    + lia.
    + exact A.
    + intros j J. apply (N (S j)). lia.
    + intros j J. apply (R (S j)). lia.
Qed.
Lemma rp_endless path none stop : forall fuel curr, (forall j, 0 < j -> ancestor path none j curr <> stop) ->
  (forall j, ancestor path none j curr < length path) -> rp_run fuel path stop curr false = OutOfFuel.
Proof.
  induction fuel as [|fuel IH]; intros curr N R; [reflexivity|]. cbn [rp_run]. assert (R0 := R 0). cbn in R0.
  rewrite (@vget_nth _ path curr none) by auto. cbn [bind]. assert (N1 : nth curr path none <> stop) by (apply (N 1); lia).
  rewrite (proj2 (Nat.eqb_neq _ _) N1), IH; [reflexivity| |]; intros j.
  - intros _. apply (N (S j)). lia.
  - apply (R (S j)).
Qed.
Lemma tree_dist g s none par : is_bfs_tree g s none par -> targets_ok g -> s < length g ->
  forall d v j, dist g s v d -> j <= d -> dist g s (ancestor par none j v) (d - j).
Proof.
  intros (L & R & P) HT HS d v j. revert d v. induction j as [|j IH]; intros d v D J.
  - cbn. now rewrite Nat.sub_0_r.
  - cbn [ancestor]. destruct d as [|d]; [lia|]. assert (Hv : v < length g) by (destruct D as [W _]; eapply walk_lt; eauto).
    assert (NE : v <> s) by (intros ->; assert (X := dist_fun D (proj2 (dist_0 g s s) eq_refl)); discriminate).
    destruct (P v Hv) as (_ & _ & Q). destruct (Q (S d) NE D) as [E D']. replace (S d - 1) with d in D' by lia. replace (S d - S j) with (d - j) by lia. apply IH; auto. lia.
Qed.
Lemma ancestor_S par none : forall k v, ancestor par none (S k) v = nth (ancestor par none k v) par none.
Proof. induction k as [|k IH]; intros v; [reflexivity|]. cbn [ancestor] in *. now rewrite IH. Qed.
