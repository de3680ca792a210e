(** Proofs about MisModel: the greedy set, the gap finder and the colouring. *)
From Coq Require Import List Arith Lia Bool Sorting.Sorted.
From Verif Require Import Base GraphLib MisModel.
Import ListNotations.
Set Implicit Arguments.

(** ** maximal_independent_set *)
Lemma mis_mark_ok row removed : (forall u, In u row -> u < length removed) ->
  exists r', mis_mark row removed = Ok r' /\ length r' = length removed /\
    forall w, nth w r' false = true <-> nth w removed false = true \/ In w row.
Proof.
  revert removed. unfold mis_mark. induction row as [|u row IH]; intros removed H; cbn [rfold].
  - exists removed. repeat split; auto. now intros [E|[]].
  - rewrite vset_lt by (apply H; simpl; auto). cbn [bind].
    destruct (IH (upd removed u true)) as (r' & E & L & C); [intros x I; rewrite upd_length; apply H; simpl; auto|].
    exists r'. rewrite E. rewrite upd_length in L. repeat split; auto.
    + rewrite C. intros [X|X]; [|simpl; auto]. destruct (Nat.eq_dec w u) as [->|N]; [simpl; auto|]. rewrite nth_upd_neq in X by auto. auto.
    + rewrite C. intros [X|[->|X]]; auto.
      * left. destruct (Nat.eq_dec w u) as [->|N]; [apply nth_upd_eq; apply H; simpl; auto|]. now rewrite nth_upd_neq by auto.
      * left. apply nth_upd_eq. apply H; simpl; auto.
Qed.
Definition greedy_upto (g : list (list nat)) (k : nat) (M : list nat) : Prop :=
  StronglySorted lt M /\
  forall v, In v M <-> v < k /\ ~ exists u, In u M /\ u < v /\ edge g u v.
Lemma mis_loop g m0 (HT : targets_ok g) k : k <= length g ->
  exists r M, rfold (mis_body g) (seq 0 k) (repeat false (length g), m0) = Ok (r, m0 ++ M) /\
    length r = length g /\ greedy_upto g k M /\ forall w, nth w r false = true <-> exists u, In u M /\ edge g u w.
Proof.
  induction k as [|k IH]; intros Hk.
  - exists (repeat false (length g)), []. cbn. rewrite app_nil_r, repeat_length. split; [auto|]. split; auto. split.
    + split; [constructor|]. intros v. simpl. lia.
    + intros w. rewrite nth_repeat. split; [discriminate|]. intros (u & [] & _).
  - destruct IH as (r & M & E & L & (S & G) & R); [lia|]. rewrite seq_S, rfold_app, E. cbn [bind rfold plus].
    unfold mis_body at 1. rewrite (@vget_nth _ r k false) by lia. cbn [bind].
    assert (B : forall v, In v M -> v < k) by (intros v I; apply G in I; tauto).
    destruct (nth k r false) eqn:Ek; cbn [negb bind].
    + exists r, M. split; [auto|]. split; [auto|]. split; [|auto]. split; auto. intros v. rewrite G. split; intros (A & C); split; auto; try lia.
      assert (v <> k); [|lia]. intros ->. apply R in Ek. destruct Ek as (u & I & Ed). apply C. exists u. split; auto.
    + rewrite (@vget_nth _ g k []) by lia. cbn [bind].
      destruct (@mis_mark_ok (nth k g []) r) as (r' & E' & L' & C); [intros u I; rewrite L; eapply HT; eauto|].
      rewrite E'. cbn [bind]. exists r', (M ++ [k]). rewrite <- app_assoc. split; [auto|]. split; [lia|]. split; [split|].
      * clear - S B. induction S as [|x l S IH F]; simpl.
        { repeat constructor. }
        constructor; [apply IH; intros; apply B; simpl; auto|]. apply Forall_forall. intros y I. rewrite Forall_forall in F.
        apply in_app_or in I. destruct I as [I|[<-|[]]]; [now apply F|apply B; simpl; auto].
      * intros v. split.
        -- intros I. apply in_app_or in I. destruct I as [I|[<-|[]]].
           ++ assert (v < k) by auto. split; [lia|]. intros (u & I' & Hu & Ed). apply G in I. apply (proj2 I). exists u. split; auto.
              apply in_app_or in I'. destruct I' as [|[<-|[]]]; [auto|lia].
           ++ split; [lia|]. intros (u & I' & Hu & Ed). apply in_app_or in I'. destruct I' as [I'|[<-|[]]]; [|lia].
              assert (nth k r false = true) by (apply R; eauto). congruence.
        -- intros (Hv & N). apply in_or_app. destruct (Nat.eq_dec v k) as [->|Nk]; [simpl; auto|]. left. apply G. split; [lia|].
           intros (u & I & X). apply N. exists u. split; auto. apply in_or_app; auto.
      * intros w. rewrite C, R. split.
        -- intros [(u & I & Ed)|I]; [exists u|exists k]; split; auto; apply in_or_app; simpl; auto.
        -- intros (u & I & Ed). apply in_app_or in I. destruct I as [I|[<-|[]]]; eauto.
Qed.
Lemma mis_ok g m0 : targets_ok g -> exists M, maximal_independent_set g m0 = Ok (m0 ++ M) /\ greedy_upto g (length g) M.
Proof.
  intros HT. destruct (@mis_loop g m0 HT (length g) (Nat.le_refl _)) as (r & M & E & _ & G & _).
  exists M. unfold maximal_independent_set. rewrite E. auto.
Qed.

(** ** firstMissingPositive *)
Definition placed (arr : list nat) : list nat := filter (fun j => nth j arr 0 =? S j) (seq 0 (length arr)).
Definition okpos (arr : list nat) (j : nat) : Prop :=
  1 <= nth j arr 0 <= length arr -> nth (nth j arr 0 - 1) arr 0 = nth j arr 0.
Lemma swap_ok arr i j : i < length arr -> j < length arr -> i <> j ->
  exists arr', swap arr i j = Ok arr' /\ length arr' = length arr /\
    nth i arr' 0 = nth j arr 0 /\ nth j arr' 0 = nth i arr 0 /\
    (forall k, k <> i -> k <> j -> nth k arr' 0 = nth k arr 0).
Proof.
  intros Hi Hj N. unfold swap. rewrite (@vget_nth _ arr i 0), (@vget_nth _ arr j 0) by auto. cbn [bind].
  rewrite vset_lt by auto. cbn [bind]. rewrite vset_lt by (now rewrite upd_length). eexists. split; [reflexivity|].
  rewrite !upd_length. split; auto. split; [|split].
  - rewrite nth_upd_neq by auto. now apply nth_upd_eq.
  - apply nth_upd_eq. now rewrite upd_length.
  - intros k A B. now rewrite !nth_upd_neq by auto.
Qed.
Lemma in_nth_iff (arr : list nat) v : In v arr <-> exists j, j < length arr /\ nth j arr 0 = v.
Proof.
  split; [apply In_nth|]. intros (j & L & <-). now apply nth_In.
Qed.
Lemma placed_in arr j : In j (placed arr) <-> j < length arr /\ nth j arr 0 = S j.
Proof. unfold placed. rewrite filter_In, in_seq, Nat.eqb_eq. lia. Qed.
Lemma placed_le arr : length (placed arr) <= length arr.
Proof. unfold placed. rewrite filter_length_le, seq_length. lia. Qed.
Lemma placed_lt arr arr' x : length arr' = length arr -> (forall j, nth j arr 0 = S j -> j < length arr -> nth j arr' 0 = S j) ->
  x < length arr -> nth x arr 0 <> S x -> nth x arr' 0 = S x -> length (placed arr) < length (placed arr').
Proof.
  intros L P Hx N E. change (length (x :: placed arr) <= length (placed arr')). apply NoDup_incl_length.
  - constructor; [rewrite placed_in; tauto|]. apply NoDup_filter, seq_NoDup.
  - intros y [<-|I]; apply placed_in; [rewrite L; auto|]. apply placed_in in I. rewrite L. split; [tauto|]. apply P; tauto.
Qed.
Lemma fmp_while_ok i : forall fuel arr, i < length arr -> length arr - length (placed arr) < fuel ->
  exists arr', fmp_while fuel (length arr) i arr = Ok arr' /\ length arr' = length arr /\ (forall v, In v arr' <-> In v arr) /\
    okpos arr' i /\ forall j, j < i -> okpos arr j -> okpos arr' j.
Proof.
  induction fuel as [|f IH]; intros arr Hi F; [lia|]. cbn [fmp_while]. rewrite (@vget_nth _ arr i 0) by auto. cbn [bind].
  set (x := nth i arr 0). destruct ((1 <=? x) && (x <=? length arr)) eqn:B.
  - apply andb_prop in B. destruct B as (B1 & B2). apply Nat.leb_le in B1, B2. rewrite (@vget_nth _ arr (x - 1) 0) by lia. cbn [bind].
    destruct (Nat.eqb_spec x (nth (x - 1) arr 0)) as [E|N]; cbn [negb].
    + exists arr. repeat split; auto. intros _. fold x. auto.
    + assert (Nx : i <> x - 1) by (intros H; apply N; rewrite <- H; reflexivity).
      destruct (@swap_ok arr i (x - 1)) as (a1 & E1 & L1 & S1 & S2 & S3); [auto|lia|auto|]. rewrite E1. cbn [bind].
      fold x in S2.
      assert (FX : forall j, nth j arr 0 = S j -> j < length arr -> nth j a1 0 = S j).
      { intros j Ej Lj. rewrite S3; auto; intros ->; [fold x in Ej|]; lia. }
      assert (PL : length (placed arr) < length (placed a1)) by (apply (@placed_lt arr a1 (x - 1)); auto; lia).
      pose proof (placed_le a1). destruct (IH a1) as (a2 & E2 & L2 & I2 & O2 & P2); [lia|lia|]. rewrite L1 in E2, L2. rewrite E2.
      exists a2. split; auto. split; auto. split; [|split; [auto|]].
      * intros v. rewrite I2, !in_nth_iff, L1. split; intros (j & Lj & Ej).
        -- destruct (Nat.eq_dec j i) as [->|Ni]; [exists (x - 1); split; [lia|congruence]|].
           destruct (Nat.eq_dec j (x - 1)) as [->|Nj]; [exists i; split; [lia|fold x; congruence]|]. exists j. rewrite <- S3; auto.
        -- destruct (Nat.eq_dec j i) as [->|Ni]; [exists (x - 1); split; [lia|fold x in Ej; congruence]|].
           destruct (Nat.eq_dec j (x - 1)) as [->|Nj]; [exists i; split; [lia|congruence]|]. exists j. rewrite S3; auto.
      * intros j Lj O. apply P2; auto. intros R. destruct (Nat.eq_dec j (x - 1)) as [->|Nj].
        -- rewrite S2. auto.
        -- assert (Ej : nth j a1 0 = nth j arr 0) by (apply S3; lia). rewrite Ej, L1 in R. rewrite Ej. specialize (O R). rewrite FX by lia. lia.
  - exists arr. repeat split; auto. intros R. fold x in R. apply andb_false_iff in B. destruct B as [B|B]; apply Nat.leb_gt in B; lia.
Qed.
Lemma fmp_sort_ok arr k : k <= length arr ->
  exists arr', rfold (fun a i => fmp_while (length arr + 1) (length arr) i a) (seq 0 k) arr = Ok arr' /\ length arr' = length arr /\
    (forall v, In v arr' <-> In v arr) /\ forall j, j < k -> okpos arr' j.
Proof.
  induction k as [|k IH]; intros Hk.
  - exists arr. repeat split; auto. lia.
  - destruct IH as (a1 & E & L & I & O); [lia|]. rewrite seq_S, rfold_app, E. cbn [bind rfold plus].
    destruct (@fmp_while_ok k (length arr + 1) a1) as (a2 & E2 & L2 & I2 & O2 & P2); [lia|lia|]. rewrite L in E2. rewrite E2. cbn [bind].
    exists a2. split; auto. split; [lia|]. split; [intros v; now rewrite I2, I|].
    intros j Hj. destruct (Nat.eq_dec j k) as [->|N]; auto. apply P2; [lia|]. apply O; lia.
Qed.
Lemma fmp_scan_ok arr d : forall m k, k + m = length arr -> (forall j, j < k -> nth j arr 0 = S j) ->
  exists r, fmp_scan arr (seq k m) d = Ok r /\
    ((exists i, i < length arr /\ r = S i /\ nth i arr 0 <> S i /\ forall j, j < i -> nth j arr 0 = S j) \/
     (r = d /\ forall j, j < length arr -> nth j arr 0 = S j)).
Proof.
  induction m as [|m IH]; intros k Hk P; cbn [seq fmp_scan].
  - exists d. split; auto. right. split; auto. intros j Hj. apply P. lia.
  - rewrite (@vget_nth _ arr k 0) by lia. cbn [bind]. destruct (Nat.eqb_spec (nth k arr 0) (k + 1)) as [E|N]; cbn [negb].
    + apply IH; [lia|]. intros j Hj. destruct (Nat.eq_dec j k) as [->|]; [lia|apply P; lia].
    + exists (k + 1). split; auto. left. exists k. repeat split; auto; lia.
Qed.
Lemma fmp_ok arr : exists r, firstMissingPositive arr = Ok r /\ 1 <= r /\ ~ In r arr /\ forall k, 1 <= k < r -> In k arr.
Proof.
  destruct (@fmp_sort_ok arr (length arr) (Nat.le_refl _)) as (a & E & L & I & O).
  unfold firstMissingPositive. rewrite E. cbn [bind]. destruct (@fmp_scan_ok a (length arr + 1) (length arr) 0) as (r & ER & C); [lia|lia|].
  rewrite ER. exists r. split; auto. rewrite L in C.
  assert (IN : forall v, In v arr <-> exists j, j < length arr /\ nth j a 0 = v) by (intros v; rewrite <- I, in_nth_iff, L; tauto).
  destruct C as [(i & Hi & -> & N & P)|(-> & P)].
  - split; [lia|]. split.
    + rewrite IN. intros (j & Hj & Ej). pose proof (O j Hj) as X. unfold okpos in X. rewrite Ej, L in X. simpl in X. rewrite Nat.sub_0_r in X. apply N, X. lia.
    + intros k Hk. apply IN. exists (k - 1). split; [lia|]. rewrite P by lia. lia.
  - split; [lia|]. split.
    + rewrite IN. intros (j & Hj & Ej). rewrite P in Ej by auto. lia.
    + intros k Hk. apply IN. exists (k - 1). split; [lia|]. rewrite P by lia. lia.
Qed.

(** ** the colouring on symmetric graphs *)
Definition sym (g : list (list nat)) : Prop := forall u v, edge g u v -> edge g v u.
Lemma fmp_zeros arr : (forall x, In x arr -> x = 0) -> firstMissingPositive arr = Ok 1.
Proof.
  intros Z. destruct (fmp_ok arr) as (r & E & R & N & P). rewrite E. f_equal. assert (r < 2 \/ 2 <= r) as [|H] by lia; [lia|].
  specialize (Z 1 (P 1 ltac:(lia))). lia.
Qed.
Lemma jp_loop g (HT : targets_ok g) M : (forall u v, In u M -> edge g u v -> ~ In v M \/ v = u) -> (forall u, In u M -> u < length g) -> NoDup M ->
  forall done todo colors, M = done ++ todo -> length g <= length colors ->
    (forall v, In v done -> nth v colors 0 = 1) -> (forall v, ~ In v done -> nth v colors 0 = 0) ->
    exists c', rfold (jp_vertex g) todo colors = Ok c' /\ length c' = length colors /\
      (forall v, In v M -> nth v c' 0 = 1) /\ (forall v, ~ In v M -> nth v c' 0 = 0).
Proof.
  intros IND B ND done todo. revert done. induction todo as [|u todo IH]; intros done colors EM L D1 D0; cbn [rfold].
  - exists colors. rewrite app_nil_r in EM. subst. auto.
  - assert (Iu : In u M) by (rewrite EM; apply in_or_app; simpl; auto).
    unfold jp_vertex at 1. rewrite (@vget_nth _ g u []) by auto. cbn [bind].
    assert (RM : rmap (vget colors) (nth u g []) = Ok (map (fun v => nth v colors 0) (nth u g []))).
    { apply rmap_ok. intros v I. apply vget_nth. assert (v < length g) by (eapply HT; eauto). lia. }
    rewrite RM. cbn [bind]. rewrite fmp_zeros; cbn [bind].
    + rewrite vset_lt by (specialize (B u Iu); lia). cbn [bind].
      assert (Lu : u < length colors) by (specialize (B u Iu); lia).
      destruct (IH (done ++ [u]) (upd colors u 1)) as (c' & E & L' & X & Y).
      * now rewrite <- app_assoc.
      * now rewrite upd_length.
      * intros v I. destruct (Nat.eq_dec v u) as [->|N]; [now apply nth_upd_eq|]. rewrite nth_upd_neq by auto. apply D1.
        apply in_app_or in I. destruct I as [I|[->|[]]]; [auto|congruence].
      * intros v I. rewrite nth_upd_neq; [apply D0; intros I'; apply I, in_or_app; auto|]. intros ->. apply I, in_or_app. simpl; auto.
      * rewrite upd_length in L'. exists c'. repeat split; auto.
    + intros x I. apply in_map_iff in I. destruct I as (v & <- & Ed). apply D0. intros ID.
      assert (IM : In v M) by (rewrite EM; apply in_or_app; auto). destruct (IND u v Iu Ed) as [N| ->]; [auto|].
      rewrite EM in ND. apply NoDup_remove_2 in ND. apply ND, in_or_app; auto.
Qed.

(** Strictly increasing lists with the same elements are equal. *)
Lemma sorted_lt_ext l l' : StronglySorted lt l -> StronglySorted lt l' -> (forall v, In v l <-> In v l') -> l = l'.
Proof.
  intros S. revert l'. induction S as [|x l S IH F]; intros l' S' H.
  - destruct l' as [|y l']; auto. destruct (proj2 (H y)); simpl; auto.
  - destruct S' as [|y l' S' F']; [destruct (proj1 (H x)); simpl; auto|]. rewrite Forall_forall in F, F'.
    assert (x = y).
    { destruct (proj1 (H x)) as [|I]; [simpl; auto|auto|]. destruct (proj2 (H y)) as [|J]; [simpl; auto|auto|]. specialize (F _ J). specialize (F' _ I). lia. }
    subst y. f_equal. apply IH; auto. intros v. split; intros I.
    + destruct (proj1 (H v)) as [->|]; simpl; auto. specialize (F _ I). lia.
    + destruct (proj2 (H v)) as [->|]; simpl; auto. specialize (F' _ I). lia.
Qed.
Lemma sorted_seq k n : StronglySorted lt (seq k n).
Proof. revert k. induction n as [|n IH]; intros k; constructor; auto. apply Forall_forall. intros x I. apply in_seq in I. lia. Qed.
