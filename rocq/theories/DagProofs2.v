(** Proofs about dag_based_mis. *)
From Coq Require Import List Arith Lia Bool Permutation.
From Verif Require Import Base GraphLib RangeModel RangeProperties MisModel DagProofs.
Import ListNotations.
Set Implicit Arguments.

Definition loop_free (g : list (list nat)) : Prop := forall v, ~ edge g v v.
Definition adjacent (g : list (list nat)) (u v : nat) : Prop := edge g u v \/ edge g v u.
(** The orientation: higher degree first, ties by smaller id. *)
Definition before (d : list nat) (a b : nat) : Prop := nth b d 0 < nth a d 0 \/ (nth a d 0 = nth b d 0 /\ a < b).

Lemma push_at_ok (l : list (list nat)) i x : i < length l -> push_at l i x = Ok (upd l i (nth i l [] ++ [x])).
Proof. intros H. unfold push_at. rewrite (@vget_nth _ l i []) by auto. cbn [bind]. now rewrite vset_lt. Qed.
Lemma cocc_push (l : list (list nat)) i x a b : i < length l ->
  count_occ Nat.eq_dec (nth a (upd l i (nth i l [] ++ [x])) []) b = count_occ Nat.eq_dec (nth a l []) b + (if (a =? i) && (b =? x) then 1 else 0).
Proof.
  intros H. destruct (Nat.eqb_spec a i) as [->|N].
  - rewrite nth_upd_eq by auto. rewrite count_occ_app. cbn [count_occ]. destruct (Nat.eq_dec x b) as [->|N].
    + now rewrite Nat.eqb_refl.
    + replace (b =? x) with false by (symmetry; apply Nat.eqb_neq; auto). reflexivity.
  - rewrite nth_upd_neq by auto. cbn [andb]. lia.
Qed.
Lemma in_push (l : list (list nat)) i (x : nat) a b : i < length l -> (In b (nth a (upd l i (nth i l [] ++ [x])) []) <-> In b (nth a l []) \/ (a = i /\ b = x)).
Proof.
  intros H. rewrite !(count_occ_In Nat.eq_dec), cocc_push by auto. destruct (Nat.eqb_spec a i), (Nat.eqb_spec b x); cbn [andb]; lia.
Qed.
Record oinv (d : list nat) (n : nat) (es : list (nat * nat)) (p s : list (list nat)) : Prop := {
  o_p : length p = n; o_s : length s = n;
  o_match : forall a b, count_occ Nat.eq_dec (nth a s []) b = count_occ Nat.eq_dec (nth b p []) a;
  o_in : forall a b, In b (nth a s []) <-> before d a b /\ (In (a, b) es \/ In (b, a) es) }.
Lemma orient_ok d n : length d = n -> forall es, (forall v u, In (v, u) es -> v < n /\ u < n /\ v <> u) ->
  exists p s, rfold (orient d) es (repeat [] n, repeat [] n) = Ok (p, s) /\ oinv d n es p s.
Proof.
  intros Ld es. induction es as [|(v, u) es IH] using rev_ind; intros H.
  - exists (repeat [] n), (repeat [] n). split; auto. constructor; try apply repeat_length.
    + intros a b. now rewrite !nth_repeat.
    + intros a b. rewrite nth_repeat. simpl. tauto.
  - destruct IH as (p & s & E & [A B C D]); [intros; apply H, in_or_app; auto|]. destruct (H v u) as (Hv & Hu & N); [apply in_or_app; simpl; auto|].
    rewrite rfold_app, E. cbn [bind rfold orient]. rewrite (@vget_nth _ d v 0), (@vget_nth _ d u 0) by lia. cbn [bind].
    assert (VF : before d v u -> exists p' s', (do s1 <- push_at s v u; do p1 <- push_at p u v; Ok (p1, s1)) = Ok (p', s') /\ oinv d n (es ++ [(v, u)]) p' s').
    { intros BF. rewrite push_at_ok by lia. cbn [bind]. rewrite push_at_ok by lia. cbn [bind]. do 2 eexists. split; [reflexivity|].
      constructor; rewrite ?upd_length; auto.
      - intros a b. rewrite !cocc_push by lia. rewrite C, andb_comm. reflexivity.
      - intros a b. rewrite in_push, D by lia. rewrite !in_app_iff. simpl. split.
        + intros [(X & Y)|(-> & ->)]; [tauto|]. auto.
        + intros (X & [[Y|[Y|[]]]|[Y|[Y|[]]]]); auto; injection Y as <- <-; auto. exfalso. unfold before in *. lia. }
    assert (UF : before d u v -> exists p' s', (do p1 <- push_at p v u; do s1 <- push_at s u v; Ok (p1, s1)) = Ok (p', s') /\ oinv d n (es ++ [(v, u)]) p' s').
    { intros BF. rewrite push_at_ok by lia. cbn [bind]. rewrite push_at_ok by lia. cbn [bind]. do 2 eexists. split; [reflexivity|].
      constructor; rewrite ?upd_length; auto.
      - intros a b. rewrite !cocc_push by lia. rewrite C, andb_comm. reflexivity.
      - intros a b. rewrite in_push, D by lia. rewrite !in_app_iff. simpl. split.
        + intros [(X & Y)|(-> & ->)]; [tauto|]. auto.
        + intros (X & [[Y|[Y|[]]]|[Y|[Y|[]]]]); auto; injection Y as <- <-; auto. exfalso. unfold before in *. lia. }
    unfold before in VF, UF.
    destruct (Nat.ltb_spec (nth u d 0) (nth v d 0)) as [L1|L1]; [destruct (VF ltac:(lia)) as (p2 & s2 & -> & I2); exists p2, s2; auto|].
    destruct (Nat.ltb_spec (nth v d 0) (nth u d 0)) as [L2|L2]; [destruct (UF ltac:(lia)) as (p2 & s2 & -> & I2); exists p2, s2; auto|].
    destruct (Nat.ltb_spec u v) as [L3|L3]; [destruct (UF ltac:(lia)) as (p2 & s2 & -> & I2)|destruct (VF ltac:(lia)) as (p2 & s2 & -> & I2)]; exists p2, s2; auto.
Qed.
Lemma before_walk d s : (forall a b, edge s a b -> before d a b) -> forall u k v, walk s u (S k) v -> before d u v.
Proof.
  intros H u k. induction k as [|k IH]; intros v W; inversion W; subst.
  - inversion H1; subst. auto.
  - apply IH in H1. apply H in H2. unfold before in *. lia.
Qed.

Lemma degrees_ok : forall (l : list nat) k (d : list nat), k + length l <= length d ->
  exists d', rfold (fun d e => vset d (fst e) (snd e)) (combine (seq k (length l)) l) d = Ok d' /\ length d' = length d /\
    (forall i, i < k -> nth i d' 0 = nth i d 0) /\ (forall i, i < length l -> nth (k + i) d' 0 = nth i l 0).
Proof.
  induction l as [|x l IH]; intros k d H; cbn [length seq combine rfold].
  - exists d. repeat split; auto. simpl. lia.
  - simpl in H. cbn [fst snd]. rewrite vset_lt by lia. cbn [bind]. destruct (IH (S k) (upd d k x)) as (d' & E & L & A & B); [rewrite upd_length; lia|].
    rewrite E. exists d'. rewrite upd_length in L. split; auto. split; auto. split.
    + intros i Hi. rewrite A by lia. apply nth_upd_neq. lia.
    + intros i Hi. destruct i.
      * rewrite Nat.add_0_r, A by lia. rewrite nth_upd_eq by lia. reflexivity.
      * rewrite Nat.add_succ_r. change (S (k + i)) with (S k + i). rewrite B by (simpl in Hi; lia). reflexivity.
Qed.
Lemma in_list_edges (g : list (list nat)) : forall k v u, In (v, u) (list_edges k g) <-> k <= v /\ In u (nth (v - k) g []).
Proof.
  induction g as [|r g IH]; intros k v u; cbn [list_edges].
  - destruct (v - k); simpl; tauto.
  - rewrite in_app_iff, IH, in_map_iff. split.
    + intros [(x & E & I)|(L & I)].
      * injection E as -> ->. split; [lia|]. now rewrite Nat.sub_diag.
      * split; [lia|]. replace (v - k) with (S (v - S k)) by lia. exact I.
    + intros (L & I). destruct (Nat.eq_dec v k) as [->|N].
      * left. rewrite Nat.sub_diag in I. exists u. auto.
      * right. split; [lia|]. replace (v - k) with (S (v - S k)) in I by lia. exact I.
Qed.

Lemma mis_roots_ok n pred : length pred = n -> forall m mis, m <= n -> n <= length mis ->
  exists mis', mis_roots m pred mis = Ok mis' /\ length mis' = length mis /\
    forall u, nth u mis' false = true <-> nth u mis false = true \/ (u < m /\ nth u pred [] = []).
Proof.
  intros Lp. unfold mis_roots. induction m as [|m IH]; intros mis Hm Hn.
  - exists mis. repeat split; auto. intros [|(X & _)]; [auto|lia].
  - destruct (IH mis) as (m1 & E & L & C); [lia|auto|]. rewrite seq_S, rfold_app, E. cbn [bind rfold plus]. rewrite (@vget_nth _ pred m []) by lia. cbn [bind].
    destruct (Nat.eqb_spec (length (nth m pred [])) 0) as [Z|Z].
    + rewrite vset_lt by lia. cbn [bind]. exists (upd m1 m true). rewrite upd_length. split; auto. split; auto. intros u.
      destruct (Nat.eq_dec u m) as [->|N].
      * rewrite nth_upd_eq by lia. split; auto. intros _. right. split; [lia|]. now apply length_zero_iff_nil.
      * rewrite nth_upd_neq by auto. rewrite C. split; intros [|(X & Y)]; auto; right; split; auto; lia.
    + exists m1. split; auto. split; auto. intros u. rewrite C. split; intros [|(X & Y)]; auto; right; split; auto; try lia.
      assert (u <> m); [|lia]. intros ->. rewrite Y in Z. simpl in Z. lia.
Qed.

Lemma mis_fold_ok n : forall l m0, n <= length m0 -> (forall a b, In (a, b) (map fst l) -> a < n /\ b < n) ->
  (forall o1 a b o2, map fst l = o1 ++ (a, b) :: o2 -> forall c, ~ In (c, a) ((a, b) :: o2)) ->
  exists m, rfold mis_visit l m0 = Ok m /\ length m = length m0 /\
    forall u, nth u m false = true <-> nth u m0 false = true /\ ~ exists a, In (a, u) (map fst l) /\ nth a m false = true.
Proof.
  induction l as [|((a, b), r) l IH]; intros m0 L B O.
  - exists m0. split; auto. split; auto. intros u. split; [intros X; split; auto; intros (x & [] & _)|tauto].
  - cbn [map fst] in B, O. destruct (B a b) as (Ha & Hb); [simpl; auto|].
    assert (NB : forall c, ~ In (c, a) ((a, b) :: map fst l)) by (apply (O [] a b (map fst l) eq_refl)).
    cbn [rfold]. unfold mis_visit at 1. rewrite (@vget_nth _ m0 a false) by lia. cbn [bind].
    set (m1 := if nth a m0 false then upd m0 b false else m0).
    assert (E1 : (if nth a m0 false then vset m0 b false else Ok m0) = Ok m1) by (unfold m1; destruct (nth a m0 false); auto; apply vset_lt; lia).
    rewrite E1. cbn [bind]. destruct (IH m1) as (m & E & Lm & C).
    + unfold m1. destruct (nth a m0 false); [rewrite upd_length|]; auto.
    + intros x y I. apply B. simpl; auto.
    + intros o1 x y o2 EQ. apply (O ((a, b) :: o1)). simpl. now rewrite EQ.
    + assert (Nab : b <> a) by (intros ->; apply (NB a); simpl; auto).
      assert (Ma : nth a m false = nth a m0 false).
      { assert (X : nth a m1 false = nth a m0 false) by (unfold m1; destruct (nth a m0 false) eqn:Y; auto; rewrite nth_upd_neq; auto).
        rewrite <- X. apply eq_true_iff_eq. rewrite C. split; [tauto|]. intros Y. split; auto. intros (c & I & _). apply (NB c). simpl; auto. }
      rewrite E. exists m. split; auto. split; [rewrite Lm; unfold m1; destruct (nth a m0 false); rewrite ?upd_length; auto|].
      intros u. rewrite C. assert (M1 : nth u m1 false = true <-> nth u m0 false = true /\ ~ (u = b /\ nth a m0 false = true)).
      { unfold m1. destruct (nth a m0 false) eqn:Y; [|intuition congruence]. destruct (Nat.eq_dec u b) as [->|N]; [rewrite nth_upd_eq by lia; intuition congruence|]. rewrite nth_upd_neq by auto. intuition congruence. }
      rewrite M1. split.
      * intros ((X & Y) & Z). split; auto. intros (c & I & Mc). destruct I as [I|I]; [injection I as <- <-; apply Y; split; congruence|]. apply Z. eauto.
      * intros (X & Z). split; [split; auto|].
        -- intros (-> & Y). apply Z. exists a. split; [simpl; auto|congruence].
        -- intros (c & I & Mc). apply Z. exists c. split; [simpl; auto|auto].
Qed.

Definition deg (g : list (list nat)) (v : nat) : nat := length (nth v g []).
(** a is oriented before b. *)
Definition earlier (g : list (list nat)) (a b : nat) : Prop := deg g b < deg g a \/ (deg g a = deg g b /\ a < b).
Lemma dag_mis_ok g mis0 : g <> [] -> targets_ok g -> loop_free g -> length g <= length mis0 ->
  exists m, dag_based_mis g mis0 = Ok m /\ length m = length mis0 /\
    forall u, u < length g -> (nth u m false = true <->
      (nth u mis0 false = true \/ forall a, adjacent g a u -> ~ earlier g a u) /\
      ~ exists a, adjacent g a u /\ earlier g a u /\ nth a m false = true).
Proof.
  intros NE HT LF Lm. set (n := length g). assert (Hn : 0 < n) by (unfold n; destruct g; [congruence|simpl; lia]).
  unfold dag_based_mis. fold n.
  destruct (@C26_plain_and_neighbor_ranges nat g 0 SLeaf (Nat.le_0_l _)) as (_ & _ & PD). fold n in PD. rewrite PD. cbn [bind].
  pose proof (map_length (@length nat) g) as ML.
  destruct (@degrees_ok (map (@length nat) g) 0 (repeat 0 n)) as (d & ED & LD & _ & DD); [rewrite map_length, repeat_length; auto|].
  rewrite ML in ED. fold n in ED. rewrite ED. cbn [bind]. rewrite repeat_length in LD.
  rewrite (@C26_edge_range_enumerates nat g 0) by lia. cbn [bind skipn].
  assert (DG : forall a, a < n -> nth a d 0 = deg g a).
  { intros a Ha. specialize (DD a). cbn [plus] in DD. rewrite DD by (rewrite ML; auto). unfold deg. apply (map_nth (@length nat) g []). }
  assert (ES : forall v u, In (v, u) (list_edges 0 g) <-> edge g v u) by (intros v u; rewrite in_list_edges, Nat.sub_0_r; unfold edge; split; [tauto|split; auto; lia]).
  destruct (@orient_ok d n LD (list_edges 0 g)) as (p & s & EO & [A B C D]).
  { intros v u I. apply ES in I. split; [eapply edge_src; eauto|]. split; [eapply HT; eauto|]. intros ->. eapply LF; eauto. }
  rewrite EO. cbn [bind fst snd].
  assert (ADJ : forall a b, adjacent g a b -> a < n /\ b < n).
  { assert (X : forall a b, edge g a b -> a < n /\ b < n) by (intros a b Y; split; [eapply edge_src; eauto|exact (HT _ _ Y)]). intros a b [Y|Y]; apply X in Y; tauto. }
  assert (SU : forall a b, edge s a b <-> adjacent g a b /\ earlier g a b).
  { intros a b. unfold edge at 1. rewrite D, !ES. unfold adjacent, before, earlier. split.
    - intros (X & Y). pose proof (ADJ a b Y). rewrite <- !DG by tauto. tauto.
    - intros (Y & X). pose proof (ADJ a b Y). rewrite !DG by tauto. tauto. }
  assert (TS : targets_ok s) by (intros a b E; rewrite B; apply SU in E; apply ADJ with (a := a); tauto).
  assert (AC : acyclic s).
  { intros v k W. assert (X : before d v v) by (apply (@before_walk d s) with (k := k); auto; intros a b E; apply D in E; tauto). unfold before in X. lia. }
  destruct (@mis_roots_ok n p A n mis0) as (m1 & E1 & L1 & C1); [lia|auto|]. rewrite E1. cbn [bind].
  assert (TOT : total s n <= sum (map (@length nat) g)).
  { assert (X : forall l p s, (forall v u, In (v, u) l -> v < n /\ u < n) -> rfold (orient d) l (repeat [] n, repeat [] n) = Ok (p, s) -> length p = n /\ length s = n /\ total s n = length l).
    { clear - LD. induction l as [|(v, u) l IH] using rev_ind; intros p s H E.
      - injection E as <- <-. rewrite repeat_length. split; auto. split; auto. apply sum_map_0. intros a _. unfold row. now rewrite nth_repeat.
      - rewrite rfold_app in E. destruct (rfold (orient d) l _) as [(p1, s1)| |] eqn:E1; try discriminate. cbn [bind rfold orient] in E.
        destruct (IH p1 s1) as (X & Y & Z); [intros; apply H, in_or_app; auto|auto|]. destruct (H v u) as (Hv & Hu); [apply in_or_app; simpl; auto|].
        rewrite (@vget_nth _ d v 0), (@vget_nth _ d u 0) in E by lia. cbn [bind] in E. rewrite app_length. cbn [length].
        assert (G : forall i x, i < n -> total (upd s1 i (nth i s1 [] ++ [x])) n = length l + 1).
        { intros i x Hi. rewrite <- Z. unfold total. assert (Hs : In i (seq 0 n)) by (apply in_seq; lia). pose proof (seq_NoDup n 0) as ND. apply in_split in Hs. destruct Hs as (l1 & l2 & EQ). rewrite EQ in *. clear EQ.
          rewrite !map_app, !sum_app. cbn [map sum]. unfold row at 2. rewrite nth_upd_eq by lia. rewrite app_length. cbn [length].
          rewrite (@sum_map_ext _ (fun a => length (row (upd s1 i (nth i s1 [] ++ [x])) a)) (fun a => length (row s1 a)) l1), (@sum_map_ext _ (fun a => length (row (upd s1 i (nth i s1 [] ++ [x])) a)) (fun a => length (row s1 a)) l2).
          - unfold row. lia.
          - intros y I. unfold row. rewrite nth_upd_neq; auto. intros ->. apply NoDup_remove_2 in ND. apply ND, in_or_app; auto.
          - intros y I. unfold row. rewrite nth_upd_neq; auto. intros ->. apply NoDup_remove_2 in ND. apply ND, in_or_app; auto. }
        destruct (_ <? _); [|destruct (_ <? _); [|destruct (_ <? _)]]; rewrite ?push_at_ok in E by lia; cbn [bind] in E; rewrite ?push_at_ok in E by lia; cbn [bind] in E;
        injection E as <- <-; rewrite !upd_length; auto. }
    destruct (X (list_edges 0 g) p s) as (_ & _ & Y); auto.
    - intros v u I. apply ES in I. split; [eapply edge_src; eauto|eapply HT; eauto].
    - rewrite Y, list_edges_length. lia. }
  destruct (@iterate_ok p s n A B TS C (acyclic_wf TS AC) _ Hn TOT) as (P & l & EI & FI & EL & FL). rewrite EI. cbn [bind].
  assert (IN : forall a b, In (a, b) (map fst l) <-> edge s a b).
  { intros a b. rewrite EL, in_flat_map. unfold eds, row. split.
    - intros (x & _ & I). apply in_map_iff in I. destruct I as (y & E & I). injection E as -> ->. exact I.
    - intros E. exists a. split; [apply FI; rewrite <- B; eapply edge_src; eauto|]. apply in_map. exact E. }
  destruct (@mis_fold_ok n l m1) as (m & EM & LM & CM).
  { lia. }
  { intros a b I. apply IN, SU in I. now apply ADJ. }
  { intros o1 a b o2 EQ. rewrite EL in EQ. eapply finished_order; eauto. }
  rewrite EM. exists m. split; auto. split; [lia|]. intros u Hu. rewrite CM, C1.
  assert (PE : nth u p [] = [] <-> forall a, adjacent g a u -> ~ earlier g a u).
  { split.
    - intros Z a X Y. assert (E : edge s a u) by (apply SU; auto). unfold edge in E. rewrite (count_occ_In Nat.eq_dec), C, Z in E. simpl in E. lia.
    - intros H. destruct (nth u p []) as [|a r] eqn:Er; auto. exfalso.
      assert (I : In a (nth u p [])) by (rewrite Er; simpl; auto). rewrite (count_occ_In Nat.eq_dec), <- C in I. apply (count_occ_In Nat.eq_dec) in I.
      assert (X : edge s a u) by exact I. apply SU in X. eapply H; apply X. }
  rewrite PE. split.
  - intros (X & Y). split; [tauto|]. intros (a & Z1 & Z2 & Z3). apply Y. exists a. split; auto. apply IN, SU. auto.
  - intros (X & Y). split; [tauto|]. intros (a & Z1 & Z2). apply Y. exists a. apply IN, SU in Z1. tauto.
Qed.
