(** Lemmas for TriModel. *)
From Coq Require Import List Arith Lia Bool Permutation Sorting.Sorted.
From Verif Require Import Base GraphLib SumLib UtilModel UtilProofs UtilProperties TriModel.
Import ListNotations.
Set Implicit Arguments.

Definition rows_sorted (g : list (list nat)) : Prop := forall u, StronglySorted lt (nth u g []).
Definition common (a b : list nat) : nat := length (filter (fun x => mem x b) a).
Lemma inter_common a b : StronglySorted lt a -> StronglySorted lt b -> intersection_size a b = Ok (common a b).
Proof. intros. now apply C23_set_intersection. Qed.
Lemma sorted_lt_nodup l : StronglySorted lt l -> NoDup l.
Proof. induction 1 as [|x l S IH F]; constructor; auto. intros I. rewrite Forall_forall in F. specialize (F x I). lia. Qed.

Section Tri.
Variable g : list (list nat).
Hypothesis HT : targets_ok g.
Hypothesis HS : rows_sorted g.
Notation n := (length g).
Notation row u := (nth u g []).
Definition e2n (u v : nat) : nat := b2n (mem v (row u)).
Lemma common_sum u v : common (row u) (row v) = bsum n (fun w => e2n u w * e2n v w).
Proof.
  unfold common. rewrite filter_len, (@sum_row n).
  - reflexivity.
  - apply sorted_lt_nodup, HS.
  - intros x I. eapply HT; eauto.
Qed.
(** The number of (u,v,w) with arcs u->v, u->w, v->w. *)
Definition wedge : nat := bsum n (fun u => bsum n (fun v => bsum n (fun w => e2n u v * (e2n u w * e2n v w)))).

Lemma rfold_add (X : Type) (f : X -> res nat) (F : X -> nat) l : (forall x, In x l -> f x = Ok (F x)) -> forall t,
  rfold (fun t x => do k <- f x ; Ok (t + k)) l t = Ok (t + sum (map F l)).
Proof.
  induction l as [|x l IH]; intros H t; cbn [rfold map sum]; [f_equal; lia|]. rewrite (H x) by now left. cbn [bind].
  rewrite IH by (intros; apply H; now right). f_equal. lia.
Qed.
Lemma rfold_ext (S X : Type) (f f' : S -> X -> res S) l : (forall s x, In x l -> f s x = f' s x) -> forall s, rfold f l s = rfold f' l s.
Proof. induction l as [|x l IH]; intros H s; cbn [rfold]; auto. rewrite H by now left. destruct (f' s x); cbn [bind]; auto. apply IH. intros; apply H; now right. Qed.

Lemma tri_row_ok u t : u < n -> tri_row g (row u) t = Ok (t + sum (map (fun v => common (row u) (row v)) (row u))).
Proof.
  intros Hu. unfold tri_row. rewrite <- rfold_add with (f := fun v => Ok (common (row u) (row v))) by auto.
  apply rfold_ext. intros s v I. rewrite (@vget_nth _ g v []) by (eapply HT; eauto). cbn [bind]. rewrite inter_common by apply HS. reflexivity.
Qed.
Lemma triangle_count_wedge : triangle_count g = Ok wedge.
Proof.
  unfold triangle_count. assert (H : forall k, k <= n -> rfold (fun t r => tri_row g r t) (firstn k g) 0 =
     Ok (bsum k (fun u => sum (map (fun v => common (row u) (row v)) (row u))))).
  { induction k; intros Hk; auto. assert (E : firstn (S k) g = firstn k g ++ [row k]).
    { clear - Hk. revert k Hk. induction g as [|x l IH]; intros k Hk; [simpl in Hk; lia|]. destruct k; simpl; auto. simpl in Hk. rewrite <- IH by lia. reflexivity. }
    rewrite E, rfold_app, IHk by lia. cbn [bind rfold]. rewrite tri_row_ok by lia. cbn [bind]. now rewrite bsum_S. }
  specialize (H n (le_n n)). rewrite firstn_all in H. rewrite H. f_equal. apply bsum_ext. intros u Hu.
  rewrite (@sum_row n); [|apply sorted_lt_nodup, HS|intros x I; eapply HT; eauto].
  apply bsum_ext. intros v Hv. rewrite common_sum, <- bsum_mul. reflexivity.
Qed.

(** * Threads *)
Lemma tri_suffix_ok : forall r t, StronglySorted lt r -> (forall v, In v r -> v < n) ->
  exists k, tri_suffix g r t = Ok (t + k) /\
    ((forall v w, In v r -> In w (row v) -> v < w) -> k = sum (map (fun v => common r (row v)) r)) /\
    ((forall v w, In v r -> In w (row v) -> w < v) -> k = 0).
Proof.
  induction r as [|v r IH]; intros t S H; cbn [tri_suffix].
  - exists 0. split; [f_equal; lia|]. auto.
  - rewrite (@vget_nth _ g v []) by (apply H; now left). cbn [bind]. rewrite inter_common by (auto using HS). cbn [bind].
    inversion S as [|? ? S' F]; subst. rewrite Forall_forall in F.
    destruct (IH (t + common (v :: r) (row v)) S') as (k & E & U & D); [intros; apply H; now right|]. rewrite E.
    exists (common (v :: r) (row v) + k). split; [f_equal; lia|]. split.
    + intros UP. cbn [map sum]. rewrite U by (intros x w I J; apply (UP x w); auto; now right). f_equal. apply sum_map_ext. intros x I. unfold common. cbn [filter].
      replace (mem v (row x)) with false; auto. symmetry. apply mem_false. intros J. specialize (UP x v (or_intror I) J). specialize (F x I). lia.
    + intros DN. rewrite D by (intros x w I J; apply (DN x w); auto; now right).
      assert (Z : common (v :: r) (row v) = 0); [|lia]. unfold common. rewrite filter_len. apply sum_map_0. intros x I.
      replace (mem x (row v)) with false; auto. symmetry. apply mem_false. intros J. specialize (DN v x (or_introl eq_refl) J). destruct I as [->|I]; [lia|]. specialize (F x I). lia.
Qed.

Lemma stride_S step : forall fuel i, 0 < step -> n <= i + fuel -> forall fuel', n <= i + fuel' -> stride fuel i step n = stride fuel' i step n.
Proof.
  induction fuel; intros i Hs H fuel' H'.
  - destruct fuel'; auto. cbn [stride]. destruct (Nat.ltb_spec i n); auto; lia.
  - destruct fuel'; cbn [stride]; [destruct (Nat.ltb_spec i n); auto; lia|]. destruct (i <? n); auto. f_equal. apply IHfuel; auto; lia.
Qed.
Definition ssum (f : nat -> nat) (step i : nat) : nat := sum (map f (stride n i step n)).
Lemma ssum_step f step i : 0 < step -> i < n -> ssum f step i = f i + ssum f step (i + step).
Proof.
  intros Hs Hi. unfold ssum. rewrite (@stride_S step n i Hs ltac:(lia) (S n) ltac:(lia)). cbn [stride]. destruct (Nat.ltb_spec i n); [|lia]. reflexivity.
Qed.
Lemma ssum_end f step i : n <= i -> ssum f step i = 0.
Proof. intros Hi. unfold ssum. destruct n as [|k]; auto. cbn [stride]. destruct (Nat.ltb_spec i (S k)); [lia|]. reflexivity. Qed.
Lemma ssum_all f step : 0 < step -> forall d k, k + d = n -> sum (map (ssum f step) (seq k step)) = sum (map f (seq k d)).
Proof.
  intros Hs. induction d; intros k Hk.
  - simpl. apply sum_map_0. intros x I. apply in_seq in I. apply ssum_end. lia.
  - destruct step as [|s']; [lia|]. cbn [seq map sum]. rewrite ssum_step by lia. rewrite <- (IHd (S k)) by lia.
    rewrite seq_S, map_app, sum_app. cbn [map sum]. replace (S k + s') with (k + S s') by lia. lia.
Qed.
Lemma stride_lt step fuel : forall i x, In x (stride fuel i step n) -> x < n.
Proof. induction fuel; intros i x I; cbn [stride] in I; [destruct I|]. destruct (Nat.ltb_spec i n); [|destruct I]. destruct I as [<-|I]; eauto. Qed.

Lemma threads_ok threads (F : nat -> nat) : 0 < threads ->
  (forall u t, u < n -> tri_suffix g (row u) t = Ok (t + F u)) -> triangle_count_threads g threads = Ok (bsum n F).
Proof.
  intros Ht H. unfold triangle_count_threads. rewrite rfold_add with (F := ssum F threads).
  - f_equal. cbn [plus]. apply (@ssum_all F threads Ht n 0). reflexivity.
  - intros tid _. unfold tri_thread. unfold ssum.
    assert (SL : forall l t, (forall x, In x l -> x < n) -> rfold (fun t i => do r <- vget g i; tri_suffix g r t) l t = Ok (t + sum (map F l))).
    { induction l as [|x l IH]; intros t L; cbn [rfold map sum]; [f_equal; lia|]. rewrite (@vget_nth _ g x []) by (apply L; now left). cbn [bind].
      rewrite H by (apply L; now left). cbn [bind]. rewrite IH by (intros; apply L; now right). f_equal. lia. }
    rewrite SL; auto. apply stride_lt.
Qed.
End Tri.

(** * Triangles *)
Definition adj (g : list (list nat)) (u v : nat) : bool := mem v (nth u g []) || mem u (nth v g []).
Definition triple_ok (g : list (list nat)) (t : nat * nat * nat) : bool :=
  let '(a, b, c) := t in (a <? b) && (b <? c) && adj g a b && adj g a c && adj g b c.
(** Vertex triples a < b < c pairwise joined by an edge. *)
Definition triangles (g : list (list nat)) : nat :=
  length (filter (triple_ok g) (list_prod (list_prod (seq 0 (length g)) (seq 0 (length g))) (seq 0 (length g)))).
Definition upper (g : list (list nat)) : Prop := forall u v, edge g u v -> u < v.
Definition lower (g : list (list nat)) : Prop := forall u v, edge g u v -> v < u.

Lemma triangles_sum g : triangles g = bsum (length g) (fun a => bsum (length g) (fun b => bsum (length g) (fun c => b2n (triple_ok g (a, b, c))))).
Proof. unfold triangles. rewrite filter_len, !sum_prod. reflexivity. Qed.
Lemma mem_edge g u v : mem v (nth u g []) = true <-> edge g u v.
Proof. apply mem_In. Qed.
Lemma wedge_upper g : upper g -> wedge g = triangles g.
Proof.
  intros U. rewrite triangles_sum. unfold wedge. apply bsum_ext. intros a _. apply bsum_ext. intros b _. apply bsum_ext. intros c _.
  assert (A : forall x y, x < y -> adj g x y = mem y (nth x g [])).
  { intros x y L. unfold adj. replace (mem x (nth y g [])) with false; [now rewrite orb_false_r|]. symmetry. apply mem_false. intros E. specialize (U y x E). lia. }
  unfold e2n. unfold triple_ok. destruct (Nat.ltb_spec a b) as [L1|L1].
  - destruct (Nat.ltb_spec b c) as [L2|L2].
    + rewrite !A by lia. cbn [andb]. rewrite !b2n_and. lia.
    + cbn [andb]. replace (mem c (nth b g [])) with false; [cbn [b2n]; lia|]. symmetry. apply mem_false. intros E. specialize (U b c E). lia.
  - cbn [andb]. replace (mem b (nth a g [])) with false; [cbn [b2n]; lia|]. symmetry. apply mem_false. intros E. specialize (U a b E). lia.
Qed.
Lemma wedge_lower g : lower g -> wedge g = triangles g.
Proof.
  intros U. rewrite triangles_sum. unfold wedge.
  (* rename (u,v,w) to (c,b,a) *)
  assert (SW : forall n (F : nat -> nat -> nat -> nat), bsum n (fun u => bsum n (fun v => bsum n (fun w => F u v w))) = bsum n (fun a => bsum n (fun b => bsum n (fun c => F c b a)))).
  { intros n F. transitivity (bsum n (fun v => bsum n (fun u => bsum n (fun w => F u v w)))); [apply bsum_swap|].
    transitivity (bsum n (fun v => bsum n (fun w => bsum n (fun u => F u v w)))); [apply bsum_ext; intros v _; apply bsum_swap|]. apply (bsum_swap n n). }
  rewrite SW. apply bsum_ext. intros a _. apply bsum_ext. intros b _. apply bsum_ext. intros c _.
  assert (A : forall x y, x < y -> adj g x y = mem x (nth y g [])).
  { intros x y L. unfold adj. replace (mem y (nth x g [])) with false; auto. symmetry. apply mem_false. intros E. specialize (U x y E). lia. }
  unfold e2n, triple_ok. destruct (Nat.ltb_spec a b) as [L1|L1].
  - destruct (Nat.ltb_spec b c) as [L2|L2].
    + rewrite !A by lia. cbn [andb]. rewrite !b2n_and. lia.
    + cbn [andb]. replace (mem b (nth c g [])) with false; [cbn [b2n]; lia|]. symmetry. apply mem_false. intros E. specialize (U c b E). lia.
  - cbn [andb]. replace (mem a (nth b g [])) with false; [cbn [b2n]; lia|]. symmetry. apply mem_false. intros E. specialize (U b a E). lia.
Qed.

(** * jaccard *)
Definition tgt (g : list jrow) : list (list nat) := map (map fst) g.
Lemma tgt_nth g u : nth u (tgt g) [] = map fst (nth u g []).
Proof. unfold tgt. apply (map_nth (map fst) g []). Qed.
Definition jval (g : list jrow) (u : nat) (e : nat * option (nat * nat)) : nat * option (nat * nat) :=
  if u <? fst e then
    let a := map fst (nth u g []) in let b := map fst (nth (fst e) g []) in
    (fst e, Some (common a b, length a + length b - common a b))
  else e.
Lemma jaccard_ok g : targets_ok (tgt g) -> rows_sorted (tgt g) ->
  exists ctr, jaccard g = Ok (ctr, map (fun u => map (jval g u) (nth u g [])) (seq 0 (length g))) /\
    ctr = sum (map (fun u => length (filter (fun e => u <? fst e) (nth u g []))) (seq 0 (length g))).
Proof.
  intros HT HS. unfold jaccard.
  destruct (@rfold_ind _ _ (fun st u => do gu <- vget g u; do r <- rfold (jc_edge g u) gu (fst st, []); Ok (fst r, snd st ++ [snd r]))
    (fun done st => st = (sum (map (fun u => length (filter (fun e => u <? fst e) (nth u g []))) done), map (fun u => map (jval g u) (nth u g [])) done))
    (seq 0 (length g)) (0, [])) as (st & E & H).
  - reflexivity.
  - intros done u st -> (rest & ER). assert (Hu : u < length g). { assert (I : In u (seq 0 (length g))) by (rewrite ER; apply in_or_app; right; now left). apply in_seq in I. lia. }
    rewrite (@vget_nth _ g u []) by auto. cbn [bind].
    assert (RR : forall l c acc, incl l (nth u g []) -> rfold (jc_edge g u) l (c, acc) = Ok (c + length (filter (fun e => u <? fst e) l), acc ++ map (jval g u) l)).
    { induction l as [|[v w] l IH]; intros c acc I; cbn [rfold]; [rewrite app_nil_r, Nat.add_0_r; reflexivity|].
      unfold jc_edge at 1. cbn [fst snd filter map]. assert (IV : In (v, w) (nth u g [])) by (apply I; now left).
      assert (Hv : v < length g). { assert (X : edge (tgt g) u v) by (unfold edge; rewrite tgt_nth; change v with (fst (v, w)); now apply in_map). apply HT in X. unfold tgt in X. now rewrite map_length in X. }
      unfold jval at 1. cbn [fst]. destruct (u <? v) eqn:EL.
      - rewrite (@vget_nth _ g u []), (@vget_nth _ g v []) by auto. cbn [bind]. rewrite inter_common by (rewrite <- tgt_nth; apply HS). cbn [bind fst snd].
        rewrite IH by (intros x J; apply I; now right). rewrite <- app_assoc. cbn [app length]. rewrite !map_length. do 2 f_equal. lia.
      - cbn [bind fst snd]. rewrite IH by (intros x J; apply I; now right). now rewrite <- app_assoc. }
    cbn [fst snd]. rewrite RR by apply incl_refl. cbn [bind fst snd app]. eexists. split; [reflexivity|].
    rewrite !map_app, sum_app. cbn [map sum]. rewrite Nat.add_0_r. reflexivity.
  - rewrite E, H. eexists. split; reflexivity.
Qed.
