(** Counting shortest paths: specification of betweenness centrality, and the recurrence behind Brandes' algorithm. *)
From Coq Require Import List Arith ZArith Qcanon Field Lia Bool.
From Verif Require Import Base GraphLib SumLib QcLib.
Import ListNotations.
Set Implicit Arguments.
Local Open Scope nat_scope.

(** ** Specification *)
(** All walks of [k] arcs starting at [u], as the lists of their vertices; parallel arcs give distinct entries. *)
Fixpoint paths (g : list (list nat)) (k u : nat) : list (list nat) :=
  match k with
  | 0 => [[u]]
  | S k' => map (cons u) (flat_map (paths g k') (nth u g []))
  end.
Definition ends_at (t : nat) (p : list nat) : bool := last p 0 =? t.
(** the number of walks with [k] arcs from [u] to [t]; and of those among them that visit [v] *)
Definition cnt (g : list (list nat)) (k u t : nat) : nat := length (filter (ends_at t) (paths g k u)).
Definition through (g : list (list nat)) (k u t v : nat) : nat := length (filter (fun p => ends_at t p && mem v p) (paths g k u)).
(** the length of a shortest path *)
Definition distf (g : list (list nat)) (s t : nat) : option nat := find (fun k => 0 <? cnt g k s t) (seq 0 (length g)).
(** the fraction of the shortest paths from [s] to [t] that visit [v] (0 when there is none) *)
Definition pair_dep (g : list (list nat)) (s t v : nat) : Qc :=
  match distf g s t with Some d => (qn (through g d s t v) / qn (cnt g d s t))%Qc | None => 0%Qc end.
(** summed over the targets other than [v] *)
Definition dependency (g : list (list nat)) (s v : nat) : Qc :=
  qsum (map (fun t => pair_dep g s t v) (filter (fun t => negb (t =? v)) (seq 0 (length g)))).

(** ** Walk counts *)
Lemma filter_flat_map_len (A B : Type) (p : B -> bool) (f : A -> list B) l :
  length (filter p (flat_map f l)) = sum (map (fun x => length (filter p (f x))) l).
Proof. induction l as [|x l IH]; auto. cbn [flat_map map sum]. rewrite filter_app, app_length, IH. reflexivity. Qed.
Lemma filter_map_len (A B : Type) (p : B -> bool) (f : A -> B) l : length (filter p (map f l)) = length (filter (fun x => p (f x)) l).
Proof. induction l as [|x l IH]; auto. cbn [map filter]. destruct (p (f x)); cbn [length]; now rewrite IH. Qed.
Lemma paths_head g k : forall u p, In p (paths g k u) -> exists q, p = u :: q /\ length q = k.
Proof.
  induction k as [|k IH]; intros u p I.
  - destruct I as [<-|[]]. exists []. auto.
  - cbn [paths] in I. apply in_map_iff in I. destruct I as (q & <- & I). apply in_flat_map in I. destruct I as (w & _ & I).
    destruct (IH _ _ I) as (r & -> & L). exists (w :: r). cbn [length]. auto.
Qed.
Lemma last_cons (A : Type) (x : A) p d : p <> [] -> last (x :: p) d = last p d.
Proof. destruct p; [congruence|reflexivity]. Qed.
Lemma paths_cons g k u w p : In w (nth u g []) -> In p (paths g k w) -> last (u :: p) 0 = last p 0.
Proof. intros _ I. destruct (paths_head _ _ _ _ I) as (q & -> & _). apply last_cons. discriminate. Qed.
Lemma cnt_0 g u t : cnt g 0 u t = if u =? t then 1 else 0.
Proof. unfold cnt, ends_at. cbn. destruct (u =? t); reflexivity. Qed.
Lemma cnt_S g k u t : cnt g (S k) u t = sum (map (fun w => cnt g k w t) (nth u g [])).
Proof.
  unfold cnt. cbn [paths]. rewrite filter_map_len, filter_flat_map_len. apply sum_map_ext. intros w W. f_equal.
  apply filter_ext_in. intros p I. unfold ends_at. now rewrite (@paths_cons g k u w p).
Qed.
Lemma walk_cons' g u w k t : edge g u w -> walk g w k t -> walk g u (S k) t.
Proof. intros E W. change (S k) with (1 + k). eapply walk_app; eauto. econstructor; eauto. constructor. Qed.
Lemma walk_uncons g u k t : walk g u (S k) t -> exists w, edge g u w /\ walk g w k t.
Proof.
  remember (S k) as k' eqn:E. intros W. revert k E. induction W as [|k' x v W IH Ed]; intros k E; [discriminate|].
  injection E as ->. destruct k as [|k].
  - inversion W; subst. exists v. split; auto. constructor.
  - destruct (IH k eq_refl) as (w & E1 & W1). exists w. split; auto. econstructor; eauto.
Qed.
Lemma sum_pos (A : Type) (f : A -> nat) l : 0 < sum (map f l) <-> exists x, In x l /\ 0 < f x.
Proof.
  induction l as [|x l IH]; cbn [map sum].
  - split; [lia|]. intros (x & [] & _).
  - split.
    + intros P. destruct (Nat.eq_dec (f x) 0) as [E|E]; [|exists x; split; [now left|lia]].
      destruct (proj1 IH ltac:(lia)) as (y & I & P'). exists y. split; auto. now right.
    + intros (y & [<-|I] & P); [lia|]. enough (0 < sum (map f l)) by lia. apply IH. eauto.
Qed.
Lemma cnt_pos g k : forall u t, 0 < cnt g k u t <-> walk g u k t.
Proof.
  induction k as [|k IH]; intros u t.
  - rewrite cnt_0. destruct (Nat.eqb_spec u t) as [->|N]; split; intros H; try lia; try constructor. inversion H; congruence.
  - rewrite cnt_S, sum_pos. split.
    + intros (w & I & P). apply IH in P. eapply walk_cons'; eauto.
    + intros W. apply walk_uncons in W. destruct W as (w & E & W). exists w. split; auto. now apply IH.
Qed.
Lemma cnt_zero g k u t : ~ walk g u k t -> cnt g k u t = 0.
Proof. intros N. destruct (Nat.eq_dec (cnt g k u t) 0); auto. exfalso. apply N. apply cnt_pos. lia. Qed.
Lemma sum_count (f : nat -> nat) n row : (forall x, In x row -> x < n) ->
  sum (map f row) = bsum n (fun x => count_occ Nat.eq_dec row x * f x).
Proof.
  induction row as [|y row IH]; intros C; cbn [map sum].
  - symmetry. apply bsum_0. auto.
  - rewrite IH by (intros; apply C; now right). transitivity (bsum n (fun x => b2n (x =? y) * f x) + bsum n (fun x => count_occ Nat.eq_dec row x * f x)).
    + f_equal. unfold bsum. assert (L : y < n) by (apply C; now left). clear - L.
      assert (G : forall k, sum (map (fun x => b2n (x =? y) * f x) (seq k n)) = if (k <=? y) && (y <? k + n) then f y else 0).
      { clear L. induction n as [|n IH]; intros k; cbn [seq map sum].
        - destruct (Nat.leb_spec k y), (Nat.ltb_spec y (k + 0)); cbn [andb]; auto; lia.
        - rewrite IH. destruct (Nat.eqb_spec k y) as [->|N]; cbn [b2n].
          + rewrite Nat.leb_refl. replace (S y <=? y) with false by (symmetry; apply Nat.leb_gt; lia). cbn [andb].
            replace (y <? y + S n) with true by (symmetry; apply Nat.ltb_lt; lia). lia.
          + destruct (Nat.leb_spec (S k) y), (Nat.leb_spec k y), (Nat.ltb_spec y (S k + n)), (Nat.ltb_spec y (k + S n)); cbn [andb]; lia. }
      rewrite G. cbn [Nat.leb andb Nat.add]. replace (y <? n) with true; auto. symmetry. now apply Nat.ltb_lt.
    + rewrite <- bsum_add. apply bsum_ext. intros x _. cbn [count_occ]. destruct (Nat.eq_dec y x) as [->|N].
      * rewrite Nat.eqb_refl. cbn [b2n]. lia.
      * replace (x =? y) with false by (symmetry; apply Nat.eqb_neq; auto). cbn [b2n]. lia.
Qed.
(** the last arc instead of the first *)
Lemma cnt_last g k : targets_ok g -> forall u t, u < length g ->
  cnt g (S k) u t = bsum (length g) (fun v => cnt g k u v * count_occ Nat.eq_dec (nth v g []) t).
Proof.
  intros T. induction k as [|k IH]; intros u t L.
  - rewrite cnt_S.
    transitivity (count_occ Nat.eq_dec (nth u g []) t).
    { induction (nth u g []) as [|y row IH]; auto. cbn [map sum count_occ]. rewrite IH, cnt_0.
      destruct (Nat.eq_dec y t) as [->|N]; [rewrite Nat.eqb_refl; lia|]. apply Nat.eqb_neq in N. now rewrite N. }
    transitivity (sum (map (fun v => count_occ Nat.eq_dec (nth v g []) t) [u])); [cbn [map sum]; lia|].
    rewrite (@sum_count _ (length g)) by (intros x [<-|[]]; auto). apply bsum_ext. intros v _. rewrite cnt_0. cbn [count_occ].
    destruct (Nat.eq_dec u v) as [->|N]; [now rewrite Nat.eqb_refl|]. apply Nat.eqb_neq in N. now rewrite N.
  - rewrite cnt_S. rewrite (@sum_map_ext _ _ (fun w => bsum (length g) (fun v => cnt g k w v * count_occ Nat.eq_dec (nth v g []) t))).
    2:{ intros w W. apply IH. eapply T; eauto. }
    unfold bsum at 1. transitivity (bsum (length g) (fun v => sum (map (fun w => cnt g k w v * count_occ Nat.eq_dec (nth v g []) t) (nth u g [])))).
    + generalize (nth u g []). unfold bsum. intros row. induction row as [|w row IHr]; cbn [map sum].
      * symmetry. now apply sum_map_0.
      * rewrite IHr, <- sum_map_add. reflexivity.
    + apply bsum_ext. intros v _. rewrite cnt_S. clear. induction (nth u g []) as [|w row IH]; cbn [map sum]; [reflexivity|]. rewrite IH. ring.
Qed.

(** ** Walks through a vertex *)
Definition at_pos (j v : nat) (p : list nat) : bool := match nth_error p j with Some x => x =? v | None => false end.
Lemma count_at g v t m : forall j u, length (filter (fun p => ends_at t p && at_pos j v p) (paths g (j + m) u)) = cnt g j u v * cnt g m v t.
Proof.
  induction j as [|j IH]; intros u.
  - cbn [Nat.add]. rewrite cnt_0. transitivity (length (filter (fun p => ends_at t p && (u =? v)) (paths g m u))).
    + f_equal. apply filter_ext_in. intros p I. destruct (paths_head _ _ _ _ I) as (q & -> & _). reflexivity.
    + destruct (Nat.eqb_spec u v) as [->|N].
      * rewrite Nat.mul_1_l. unfold cnt. f_equal. apply filter_ext. intros p. apply andb_true_r.
      * rewrite (@filter_none _ _ (paths g m u)); auto. intros p _. apply andb_false_r.
  - cbn [Nat.add paths]. rewrite filter_map_len, filter_flat_map_len, cnt_S.
    transitivity (sum (map (fun w => cnt g j w v * cnt g m v t) (nth u g []))).
    + apply sum_map_ext. intros w W. rewrite <- IH. f_equal. apply filter_ext_in. intros p I. unfold ends_at, at_pos. cbn [nth_error].
      now rewrite (@paths_cons g (j + m) u w p).
    + clear. induction (nth u g []) as [|w row IH]; cbn [map sum]; [reflexivity|]. rewrite IH. ring.
Qed.
Lemma paths_at g k : forall u p i x, In p (paths g k u) -> nth_error p i = Some x -> i <= k /\ walk g u i x /\ walk g x (k - i) (last p 0).
Proof.
  induction k as [|k IH]; intros u p i x I E.
  - destruct I as [<-|[]]. destruct i as [|[|i]]; cbn in E; try discriminate. injection E as ->. repeat constructor.
  - cbn [paths] in I. apply in_map_iff in I. destruct I as (q & <- & I). apply in_flat_map in I. destruct I as (w & W & I).
    rewrite (@paths_cons g k u w q) by auto. destruct (paths_head _ _ _ _ I) as (r & -> & L).
    destruct i as [|i]; cbn [nth_error] in E.
    + injection E as ->. split; [lia|]. split; [constructor|]. rewrite Nat.sub_0_r. destruct (IH _ _ 0 w I eq_refl) as (_ & _ & H).
      rewrite Nat.sub_0_r in H. eapply walk_cons'; eauto.
    + destruct (IH _ _ _ _ I E) as (A & B & C). split; [lia|]. split; [eapply walk_cons'; eauto|exact C].
Qed.
(** [v] at distance [a] of [s] lies on a shortest path of length [b] to [t] only as its vertex number [a] *)
Lemma through_eq g s t v a b : dist g s t b -> dist g s v a -> a <= b -> through g b s t v = cnt g a s v * cnt g (b - a) v t.
Proof.
  intros Dt Dv L. rewrite <- count_at. replace (a + (b - a)) with b by lia. unfold through. f_equal. apply filter_ext_in. intros p I.
  destruct (ends_at t p) eqn:E; auto. cbn [andb]. unfold ends_at in E. apply Nat.eqb_eq in E.
  apply eq_true_iff_eq. rewrite mem_In. split.
  - intros M. apply In_nth_error in M. destruct M as [i M]. destruct (paths_at _ _ _ _ _ I M) as (Li & W1 & W2). rewrite E in W2.
    assert (i = a). { assert (a <= i) by (apply Dv; auto). assert (X := walk_app (proj1 Dv) W2). apply Dt in X. lia. }
    subst i. unfold at_pos. now rewrite M, Nat.eqb_refl.
  - unfold at_pos. destruct (nth_error p a) as [x|] eqn:N; [|discriminate]. intros X. apply Nat.eqb_eq in X. subst x. eapply nth_error_In; eauto.
Qed.
Lemma through_far g s t v a b : dist g s t b -> dist g s v a -> b < a -> through g b s t v = 0.
Proof.
  intros Dt Dv L. unfold through. rewrite (@filter_none _ _ (paths g b s)); auto. intros p I.
  destruct (ends_at t p && mem v p) eqn:E; auto. apply andb_prop in E. destruct E as [_ M]. apply mem_In in M.
  apply In_nth_error in M. destruct M as [i M]. destruct (paths_at _ _ _ _ _ I M) as (Li & W1 & _). apply Dv in W1. lia.
Qed.
Lemma through_unreach g s t v b : ~ reachable g s v -> through g b s t v = 0.
Proof.
  intros N. unfold through. rewrite (@filter_none _ _ (paths g b s)); auto. intros p I.
  destruct (ends_at t p && mem v p) eqn:E; auto. apply andb_prop in E. destruct E as [_ M]. apply mem_In in M.
  apply In_nth_error in M. destruct M as [i M]. destruct (paths_at _ _ _ _ _ I M) as (Li & W1 & _). exfalso. apply N. now exists i.
Qed.

(** ** Distances *)
Lemma dist_lt_n g s v d : targets_ok g -> s < length g -> dist g s v d -> d < length g.
Proof.
  intros T Ls D. assert (X : forall j, j <= d -> exists l, length l = S j /\ NoDup l /\ forall x, In x l -> x < length g /\ exists i, i <= j /\ dist g s x i).
  { induction j as [|j IH]; intros L.
    - exists [s]. split; auto. split; [repeat constructor; auto|]. intros x [<-|[]]. split; auto. exists 0. split; auto. now apply dist_0.
    - destruct IH as (l & Ll & ND & H); [lia|]. destruct (@dist_pred g s v d (S j) D L) as [x Dx]. exists (x :: l). split; [cbn; lia|]. split.
      + constructor; auto. intros I. destruct (H _ I) as (_ & i & Li & Di). assert (E := dist_fun Di Dx). lia.
      + intros y [<-|I]. split; [eapply walk_lt; eauto; apply Dx|eauto]. destruct (H _ I) as (A & i & Li & Di). split; auto. exists i. split; auto. }
  destruct (X d (le_n _)) as (l & L & ND & H). assert (Y : length l <= length (seq 0 (length g))).
  { apply NoDup_incl_length; auto. intros x I. apply in_seq. destruct (H _ I). lia. }
  rewrite seq_length in Y. lia.
Qed.
Lemma distf_Some g s t d : targets_ok g -> s < length g -> distf g s t = Some d <-> dist g s t d.
Proof.
  intros T Ls. assert (A : forall n k0, (forall k, k < k0 -> ~ walk g s k t) ->
      match find (fun k => 0 <? cnt g k s t) (seq k0 n) with Some d => dist g s t d | None => forall k, k < k0 + n -> ~ walk g s k t end).
  { induction n as [|n IH]; intros k0 H; cbn [seq find].
    - intros k L. apply H. lia.
    - destruct (Nat.ltb_spec 0 (cnt g k0 s t)) as [P|P].
      + apply cnt_pos in P. split; auto. intros k W. destruct (Nat.le_gt_cases k0 k); auto. destruct (H k); auto.
      + specialize (IH (S k0)). replace (k0 + S n) with (S k0 + n) by lia. apply IH. intros k L W.
        destruct (Nat.eq_dec k k0) as [->|]; [apply cnt_pos in W; lia|]. apply (H k); auto. lia. }
  specialize (A (length g) 0 ltac:(intros; lia)). unfold distf. destruct (find _ _) as [d'|].
  - split; intros E; [injection E as <-; auto|]. f_equal. eapply dist_fun; eauto.
  - split; intros E; [discriminate|]. exfalso. apply (A d); [|apply E]. assert (L := dist_lt_n T Ls E). lia.
Qed.
Arguments distf_Some {g s} t {d} _ _.
Lemma distf_None g s t : targets_ok g -> s < length g -> distf g s t = None <-> ~ reachable g s t.
Proof.
  intros T Ls. split.
  - intros E R. apply dist_reach in R. destruct R as [d D]. apply (distf_Some _ T Ls) in D. congruence.
  - intros N. destruct (distf g s t) as [d|] eqn:E; auto. exfalso. apply N. apply (distf_Some _ T Ls) in E. exists d. apply E.
Qed.

(** ** The recurrence *)
Section R.
  Variables (g : list (list nat)) (s : nat).
  Hypothesis (T : targets_ok g) (Hs : s < length g).
  (** number of shortest paths from [s] *)
  Definition sg (v : nat) : nat := match distf g s v with Some d => cnt g d s v | None => 0 end.
  (** [w] is one further away than [v] *)
  Definition nxt (v w : nat) : bool := match distf g s v, distf g s w with Some a, Some b => b =? S a | _, _ => false end.
  Lemma nxt_dist v w : nxt v w = true <-> exists a, dist g s v a /\ dist g s w (S a).
  Proof.
    unfold nxt. split.
    - destruct (distf g s v) as [a|] eqn:Ea; [|discriminate]. destruct (distf g s w) as [b|] eqn:Eb; [|discriminate]. intros E.
      apply Nat.eqb_eq in E. subst b. exists a. split; now apply distf_Some.
    - intros (a & Da & Db). apply (distf_Some _ T Hs) in Da. apply (distf_Some _ T Hs) in Db. rewrite Da, Db. apply Nat.eqb_refl.
  Qed.
  Lemma nxt_irrefl v : nxt v v = false.
  Proof. destruct (nxt v v) eqn:E; auto. apply nxt_dist in E. destruct E as (a & D1 & D2). assert (X := dist_fun D1 D2). lia. Qed.
  Lemma nxt_s v : nxt v s = false.
  Proof.
    destruct (nxt v s) eqn:E; auto. apply nxt_dist in E. destruct E as (a & D1 & D2). assert (X := dist_fun D2 (proj2 (dist_0 g s s) eq_refl)). lia.
  Qed.
  Lemma sg_dist v d : dist g s v d -> sg v = cnt g d s v.
  Proof. intros D. apply (distf_Some _ T Hs) in D. unfold sg. now rewrite D. Qed.
  Lemma sg_pos v : reachable g s v -> 0 < sg v.
  Proof. intros R. apply dist_reach in R. destruct R as [d D]. rewrite (sg_dist D). apply cnt_pos. apply D. Qed.
  Lemma sg_s : sg s = 1.
  Proof. rewrite (@sg_dist s 0) by (now apply dist_0). rewrite cnt_0, Nat.eqb_refl. reflexivity. Qed.
  (** shortest paths to [w] come through the vertices one nearer; [X] is any duplicate-free list of vertices that covers them *)
  Lemma sg_rec w X : reachable g s w -> w <> s -> NoDup X -> (forall v, nxt v w = true -> edge g v w -> In v X) ->
    sg w = sum (map (fun v => if nxt v w then count_occ Nat.eq_dec (nth v g []) w * sg v else 0) X).
  Proof.
    intros R N ND C. apply dist_reach in R. destruct R as [d D]. rewrite (sg_dist D).
    destruct d as [|k]; [apply dist_0 in D; congruence|]. rewrite (@cnt_last g k T s w Hs).
    assert (E : forall v, cnt g k s v * count_occ Nat.eq_dec (nth v g []) w = if nxt v w then count_occ Nat.eq_dec (nth v g []) w * sg v else 0).
    { intros v. destruct (nxt v w) eqn:E.
      - apply nxt_dist in E. destruct E as (a & Da & Db). assert (X1 := dist_fun D Db). injection X1 as <-. rewrite (sg_dist Da). apply Nat.mul_comm.
      - destruct (count_occ Nat.eq_dec (nth v g []) w) eqn:Ec; [lia|]. rewrite cnt_zero; auto. intros W.
        assert (Ed : edge g v w) by (unfold edge; apply (count_occ_In Nat.eq_dec); lia).
        enough (nxt v w = true) by congruence. apply nxt_dist. exists k. split; auto. split; auto. intros j Wj.
        assert (Wj' : walk g s (S j) w) by (econstructor; eauto). apply D in Wj'. lia. }
    set (h := fun v => if nxt v w then count_occ Nat.eq_dec (nth v g []) w * sg v else 0) in *.
    transitivity (bsum (length g) h); [apply bsum_ext; intros v _; apply E|].
    transitivity (sum (map h (filter (fun x => x <? length g) X))).
    - rewrite (@sum_row (length g)).
      + apply bsum_ext. intros v L. destruct (mem v (filter (fun x => x <? length g) X)) eqn:M; cbn [b2n]; [lia|].
        unfold h. destruct (nxt v w) eqn:Ev; auto. destruct (count_occ Nat.eq_dec (nth v g []) w) eqn:Ec; auto. exfalso.
        apply mem_false in M. apply M. apply filter_In. split; [|now apply Nat.ltb_lt]. apply C; auto. unfold edge. apply (count_occ_In Nat.eq_dec). lia.
      + now apply NoDup_filter.
      + intros x I. apply filter_In in I. now apply Nat.ltb_lt.
    - rewrite sum_filter. apply sum_map_ext. intros v _. destruct (Nat.ltb_spec v (length g)) as [L|L]; cbn [b2n]; [lia|].
      unfold h. destruct (nxt v w); auto. rewrite nth_overflow by auto. reflexivity.
  Qed.

  Local Open Scope Qc_scope.
  Definition dep (v : nat) : Qc := dependency g s v.
  Lemma dep_unreach v : ~ reachable g s v -> dep v = 0.
  Proof.
    intros N. unfold dep, dependency. apply qsum_0. intros t _. unfold pair_dep. destruct (distf g s t); auto.
    rewrite through_unreach by auto. rewrite qn_0. unfold Qcdiv. ring.
  Qed.
  (** number of walks from [v] to [t] that finish a shortest path from [s] to [t] *)
  Definition rest (v t : nat) : nat :=
    match distf g s v, distf g s t with Some a, Some b => if a <=? b then cnt g (b - a) v t else 0%nat | _, _ => 0%nat end.
  Lemma pair_dep_eq v t : reachable g s v -> pair_dep g s t v = qn (sg v) * qn (rest v t) / qn (sg t).
  Proof.
    intros R. unfold pair_dep, rest, sg. apply dist_reach in R. destruct R as [a Da]. rewrite (proj2 (distf_Some v T Hs) Da).
    destruct (distf g s t) as [b|] eqn:Eb.
    - apply (distf_Some _ T Hs) in Eb. destruct (Nat.leb_spec a b) as [L|L].
      + rewrite (through_eq Eb Da L), qn_mul. reflexivity.
      + rewrite (through_far Eb Da L), qn_0. unfold Qcdiv. ring.
    - rewrite qn_0. unfold Qcdiv. ring.
  Qed.
  Lemma rest_rec v t : reachable g s v -> t <> v -> rest v t = sum (map (fun w => if nxt v w then rest w t else 0%nat) (nth v g [])).
  Proof.
    intros R N. apply dist_reach in R. destruct R as [a Da]. assert (Ea := proj2 (distf_Some v T Hs) Da). unfold rest at 1. rewrite Ea.
    destruct (distf g s t) as [b|] eqn:Eb.
    2:{ symmetry. apply sum_map_0. intros w _. destruct (nxt v w); auto. unfold rest. rewrite Eb. now destruct (distf g s w). }
    assert (Db := proj1 (distf_Some t T Hs) Eb).
    assert (F : forall w, nxt v w = true -> rest w t = if S a <=? b then cnt g (b - S a) w t else 0%nat).
    { intros w E. apply nxt_dist in E. destruct E as (a' & D1 & D2). assert (a' = a) by (eapply dist_fun; eauto). subst a'.
      unfold rest. now rewrite (proj2 (distf_Some w T Hs) D2), Eb. }
    destruct (Nat.leb_spec a b) as [L|L].
    - destruct (b - a)%nat as [|k] eqn:Ek.
      + rewrite cnt_0. replace (v =? t)%nat with false by (symmetry; apply Nat.eqb_neq; auto). symmetry. apply sum_map_0. intros w _.
        destruct (nxt v w) eqn:E; auto. rewrite F by auto. replace (S a <=? b)%nat with false; auto. symmetry. apply Nat.leb_gt. lia.
      + rewrite cnt_S. apply sum_map_ext. intros w W. destruct (nxt v w) eqn:E.
        * rewrite F by auto. replace (S a <=? b)%nat with true by (symmetry; apply Nat.leb_le; lia). f_equal. lia.
        * apply cnt_zero. intros Wk. enough (nxt v w = true) by congruence. apply nxt_dist. exists a. split; auto.
          assert (Ww : walk g s (S a) w) by (econstructor; [apply Da|apply W]). split; auto. intros j Wj.
          assert (X := walk_app Wj Wk). apply Db in X. lia.
    - symmetry. apply sum_map_0. intros w _. destruct (nxt v w) eqn:E; auto. rewrite F by auto.
      replace (S a <=? b)%nat with false; auto. symmetry. apply Nat.leb_gt. lia.
  Qed.
  Lemma qn_sum (A : Type) (f : A -> nat) l : qn (sum (map f l)) = qsum (map (fun x => qn (f x)) l).
  Proof. induction l as [|x l IH]; cbn [map sum qsum]; [reflexivity|]. now rewrite qn_add, IH. Qed.
  Lemma rest_self v : reachable g s v -> rest v v = 1%nat.
  Proof.
    intros R. apply dist_reach in R. destruct R as [a Da]. unfold rest. rewrite (proj2 (distf_Some v T Hs) Da), Nat.leb_refl, Nat.sub_diag, cnt_0, Nat.eqb_refl.
    reflexivity.
  Qed.
  Lemma reach_edge v w : reachable g s v -> edge g v w -> reachable g s w.
  Proof. intros [k W] E. exists (S k). econstructor; eauto. Qed.
  Lemma nxt_reach v w : nxt v w = true -> reachable g s v /\ reachable g s w.
  Proof. intros E. apply nxt_dist in E. destruct E as (a & [D1 _] & [D2 _]). split; eexists; eauto. Qed.
  Theorem dep_rec v : reachable g s v ->
    dep v = qsum (map (fun w => if nxt v w then qn (sg v) / qn (sg w) * (1 + dep w) else 0) (nth v g [])).
  Proof.
    intros R. set (n := length g).
    assert (Ef : forall w, reachable g s w -> 1 + dep w = qsum (map (fun t => qn (sg w) * qn (rest w t) / qn (sg t)) (seq 0 n))).
    { intros w Rw. assert (P : qn (sg w) <> 0) by (apply qn_neq0; assert (X := sg_pos Rw); lia).
      unfold dep, dependency. rewrite qsum_filter.
      transitivity (qsum (map (fun t => if (t =? w)%nat then qn (sg w) * qn (rest w t) / qn (sg t) else 0) (seq 0 n)) +
                    qsum (map (fun t => if negb (t =? w)%nat then pair_dep g s t w else 0) (seq 0 n))).
      - f_equal. rewrite (@qsum_one (fun t => qn (sg w) * qn (rest w t) / qn (sg t)) (seq 0 n) w).
        + rewrite rest_self, qn_1 by auto. field. auto.
        + apply seq_NoDup.
        + apply in_seq. destruct Rw as [k W]. assert (X := walk_lt T Hs W). unfold n. lia.
      - rewrite <- qsum_add. apply qsum_ext. intros t _. destruct (Nat.eqb_spec t w) as [->|N]; cbn [negb]; [ring|]. rewrite pair_dep_eq by auto. ring. }
    transitivity (qsum (map (fun w => qsum (map (fun t => if nxt v w then qn (sg v) * qn (rest w t) / qn (sg t) else 0) (seq 0 n))) (nth v g []))).
    - rewrite qsum_swap. unfold dep, dependency. rewrite qsum_filter. apply qsum_ext. intros t _.
      destruct (Nat.eqb_spec t v) as [->|N]; cbn [negb].
      + symmetry. apply qsum_0. intros w _. destruct (nxt v w) eqn:E; auto.
        replace (rest w v) with 0%nat; [rewrite qn_0; unfold Qcdiv; ring|]. apply nxt_dist in E. destruct E as (a & D1 & D2). unfold rest.
        rewrite (proj2 (distf_Some w T Hs) D2), (proj2 (distf_Some v T Hs) D1). replace (S a <=? a)%nat with false; auto. symmetry. apply Nat.leb_gt. lia.
      + rewrite pair_dep_eq, rest_rec, qn_sum by auto. unfold Qcdiv. rewrite <- !qsum_mul, <- qsum_mulr. apply qsum_ext. intros w _.
        destruct (nxt v w); [ring|]. rewrite qn_0. ring.
    - apply qsum_ext. intros w W. destruct (nxt v w) eqn:E; [|now apply qsum_0].
      destruct (nxt_reach _ _ E) as [_ Rw]. rewrite Ef by auto. rewrite <- qsum_mul. apply qsum_ext. intros t _.
      assert (P : qn (sg w) <> 0) by (apply qn_neq0; assert (X := sg_pos Rw); lia). unfold Qcdiv. generalize (/ qn (sg t)). intros z. field. auto.
  Qed.
End R.
