(** Proofs about the choice of sources. *)
From Coq Require Import List Arith Ascii Bool Lia Permutation.
From Verif Require Import Base Pool ParBfsModel ParBfsProofs GraphLib RangeModel RangeProofs RangeProperties CsrModel MmvModel SrcModel.
Import ListNotations.
Set Implicit Arguments.
Local Open Scope nat_scope.

Notation cnt l v := (count_occ Nat.eq_dec l v).

(** ** Counting *)
Lemma cnt_app (a b : list nat) v : cnt (a ++ b) v = cnt a v + cnt b v.
Proof. apply count_occ_app. Qed.
Lemma rmap_of_maps A B C (f : A -> res B) (h : B -> C) l : forall parts, map f l = map Ok parts -> rmap (fun r => do x <- f r ; Ok (h x)) l = Ok (map h parts).
Proof.
  induction l as [|a l IH]; intros [|p parts] E; cbn in E; try discriminate; [reflexivity|]. injection E as E1 E2.
  cbn [rmap map]. rewrite E1. cbn [bind]. now rewrite (IH _ E2).
Qed.
Lemma snd_list_edges (g : list (list nat)) : forall u, map snd (list_edges u g) = concat g.
Proof. induction g as [|r g IH]; intros u; cbn; auto. rewrite map_app, map_map. cbn. rewrite map_id. now rewrite IH. Qed.
Lemma map_concat A B (f : A -> B) ll : map f (concat ll) = concat (map (map f) ll).
Proof. induction ll; cbn; auto. now rewrite map_app, IHll. Qed.

(** The tasks are the targets, in some grouping. *)
Lemma deg_tasks (g : list (list nat)) t :
  exists ts, rmap (fun r => do l <- edges_of_range (sum (map (@length nat) g)) g r ; Ok (map snd l)) (spieces or_split t (or_make g 0)) = Ok ts /\ concat ts = concat g.
Proof.
  destruct (@C26_edge_range_splits nat g 0 (sum (map (@length nat) g)) t) as (parts & E & _ & C); try lia.
  exists (map (map snd) parts). split.
  - exact (rmap_of_maps _ (map snd) _ _ E).
  - rewrite <- map_concat, C. cbn [skipn]. apply snd_list_edges.
Qed.
Lemma add_mod1 M a b : M <> 0 -> ((a + 1) mod M + b) mod M = (a + S b) mod M.
Proof. intros H. rewrite Nat.add_mod_idemp_l by auto. f_equal. lia. Qed.

Lemma deg_run M n sched ts d : 0 < M -> length d = n -> (forall v, In v (concat ts) -> v < n) -> (forall v, v < n -> nth v d 0 < M) ->
  exists d', run_all (@length nat) (deg_step M) sched ts d = Ok d' /\ length d' = n /\ forall v, v < n -> nth v d' 0 = (nth v d 0 + cnt (concat ts) v) mod M.
Proof.
  intros HM L HT HB.
  destruct (@run_all_inv _ _ (@length nat) (deg_step M) (fun ts' b => length b = n /\ (forall v, In v (concat ts') -> v < n) /\ (forall v, v < n -> nth v b 0 < M) /\
     forall v, v < n -> (nth v b 0 + cnt (concat ts') v) mod M = (nth v d 0 + cnt (concat ts) v) mod M)) with (sched := sched) (ts := ts) (s := d) as (d' & E & Ld & _ & BB & H).
  - intros l1 t l2 b (Lb & HI & HS & H). destruct t as [|u r]; cbn [deg_step].
    + exists None, b. split; auto. split; auto. split; auto. cbn [opt_list app]. split; [|split; auto].
      * intros v I. apply HI. rewrite concat_app in *. exact I.
      * intros v Lv. rewrite <- (H v Lv), !concat_app. reflexivity.
    + assert (Lu : u < n) by (apply HI; rewrite concat_app; apply in_or_app; right; now left).
      rewrite (@vget_nth _ b u 0) by lia. cbn [bind]. rewrite vset_lt by lia. cbn [bind]. eexists. eexists. split; [reflexivity|]. split; [|cbn; lia].
      split; [now rewrite upd_length|]. cbn [opt_list app]. split; [|split].
      * intros v I. apply HI. rewrite concat_app in *. apply in_app_or in I. apply in_or_app. destruct I; auto. right. cbn. now right.
      * intros v Lv. rewrite nth_upd by lia. destruct (v =? u); [apply Nat.mod_upper_bound; lia|auto].
      * intros v Lv. rewrite <- (H v Lv). rewrite nth_upd by lia. rewrite !concat_app, !cnt_app. cbn [concat app]. cbn [count_occ]. rewrite !cnt_app.
        destruct (Nat.eqb_spec v u) as [E|E].
        -- subst v. destruct (Nat.eq_dec u u); [|easy]. rewrite add_mod1 by lia. f_equal. lia.
        -- destruct (Nat.eq_dec u v); [congruence|]. reflexivity.
  - auto.
  - exists d'. split; auto. split; auto. intros v Lv. rewrite <- (H v Lv). cbn. rewrite Nat.add_0_r. symmetry. apply Nat.mod_small. auto.
Qed.
Lemma degrees_ok M g t sched : 0 < M -> targets_ok g ->
  exists d, build_degrees M g t sched = Ok d /\ length d = length g /\ forall v, v < length g -> nth v d 0 = cnt (concat g) v mod M.
Proof.
  intros HM T. unfold build_degrees. destruct (deg_tasks g t) as (ts & -> & C). cbn [bind].
  destruct (@deg_run M (length g) sched ts (repeat 0 (length g))) as (d & E & L & H); auto.
  - apply repeat_length.
  - intros v I. rewrite C in I. apply in_concat in I. destruct I as (r & R & I). apply (In_nth _ _ []) in R. destruct R as (u & Lu & <-). eapply T; eauto.
  - intros v Lv. rewrite nth_repeat. auto.
  - exists d. split; auto. split; auto. intros v Lv. rewrite H by auto. rewrite C, nth_repeat. reflexivity.
Qed.

Lemma skipn_nth_S A (d : A) ts : forall i, i < length ts -> skipn i ts = nth i ts d :: skipn (S i) ts.
Proof. induction ts; intros [|i] H; cbn in *; try lia; auto. apply IHts. lia. Qed.
(** A target outside the graph: undefined whatever the order. *)
Lemma deg_run_ub M sched : forall fuel now ts d, sum (map (@length nat) ts) + length ts <= fuel -> (exists v, In v (concat ts) /\ length d <= v) ->
  run (deg_step M) fuel sched now ts d = Ub.
Proof.
  induction fuel; intros now ts d HF (v & I & Lv).
  - destruct ts; [destruct I|]. cbn in HF. lia.
  - destruct ts as [|t0 ts0]; [destruct I|]. set (ts := t0 :: ts0) in *. assert (NE : length ts <> 0) by discriminate. cbn [run]. fold ts. unfold ts at 1.
    set (i := sched now mod length ts). assert (Hi : i < length ts) by (apply Nat.mod_upper_bound; auto).
    rewrite (@vget_nth _ ts i []) by auto. cbn [bind].
    assert (SP : ts = firstn i ts ++ nth i ts [] :: skipn (S i) ts).
    { rewrite <- (firstn_skipn i ts) at 1. f_equal. now apply skipn_nth_S. }
    rewrite SP in I, HF. rewrite concat_app in I. rewrite map_app, sum_app, app_length in HF. cbn [map length sum] in HF.
    destruct (nth i ts []) as [|u r] eqn:En; cbn [deg_step].
    + cbn [bind fst snd opt_list app]. apply IHfuel.
      * rewrite map_app, sum_app, app_length. cbn [length] in HF. lia.
      * exists v. split; auto. rewrite concat_app. exact I.
    + destruct (Nat.lt_ge_cases u (length d)) as [Lu|Lu].
      * rewrite (@vget_nth _ d u 0) by auto. cbn [bind]. rewrite vset_lt by auto. cbn [bind fst snd opt_list app]. apply IHfuel.
        -- rewrite map_app, sum_app, app_length. cbn [map length sum] in *. lia.
        -- exists v. rewrite upd_length. split; auto. rewrite concat_app. apply in_app_or in I. apply in_or_app. destruct I as [I|I]; auto. right. cbn in I |- *.
           destruct I; [lia|auto].
      * rewrite vget_ge by auto. reflexivity.
Qed.
Lemma degrees_ub M g t sched v : In v (concat g) -> length g <= v -> build_degrees M g t sched = Ub.
Proof.
  intros I L. unfold build_degrees. destruct (deg_tasks g t) as (ts & -> & C). cbn [bind]. unfold run_all. apply deg_run_ub; auto.
  exists v. rewrite C, repeat_length. auto.
Qed.

(** ** Drawing *)
Section Draw.
  Variables (draw : nat -> nat) (deg : list nat).
  Notation good v := (negb (nth v deg 0 =? 0)).
  Notation drawn k K := (map draw (seq k K)).
  Lemma pick_first : forall K k fuel x rest, (forall i, k <= i < k + K -> draw i < length deg) -> filter (fun v => good v) (drawn k K) = x :: rest -> K <= fuel ->
    exists j, k <= j < k + K /\ pick fuel draw deg k = Ok (x, S j) /\ rest = filter (fun v => good v) (drawn (S j) (k + K - S j)).
  Proof.
    induction K; intros k fuel x rest HD E HF; [discriminate|]. destruct fuel as [|f]; [lia|]. cbn [pick]. rewrite (@vget_nth _ deg (draw k) 0) by (apply HD; lia). cbn [bind].
    cbn [seq map filter] in E. destruct (nth (draw k) deg 0 =? 0) eqn:G; cbn [negb] in E.
    - destruct (IHK (S k) f x rest) as (j & J & P & R); auto; [intros i I; apply HD; lia|lia|]. exists j. split; [lia|]. split; auto.
      replace (k + S K - S j) with (S k + K - S j) by lia. auto.
    - injection E as E1 E2. subst. exists k. split; [lia|]. split; auto. replace (k + S K - S k) with K by lia. auto.
  Qed.
  Lemma picks_ok : forall n k K fuel, (forall i, k <= i < k + K -> draw i < length deg) -> n <= length (filter (fun v => good v) (drawn k K)) -> K <= fuel ->
    picks fuel draw deg n k = Ok (firstn n (filter (fun v => good v) (drawn k K))).
  Proof.
    induction n; intros k K fuel HD HN HF; [reflexivity|]. cbn [picks]. destruct (filter (fun v => good v) (drawn k K)) as [|x rest] eqn:E; [cbn in HN; lia|].
    destruct (@pick_first K k fuel x rest HD E HF) as (j & J & P & R). rewrite P. cbn [bind fst snd].
    rewrite (IHn (S j) (k + K - S j) fuel); try lia.
    - cbn [bind firstn]. now rewrite <- R.
    - intros i I. apply HD. lia.
    - rewrite <- R. cbn in HN. lia.
  Qed.
  Lemma pick_none : forall K k fuel, (forall i, k <= i < k + K -> draw i < length deg) -> filter (fun v => good v) (drawn k K) = [] -> length deg <= draw (k + K) -> K < fuel ->
    pick fuel draw deg k = Ub.
  Proof.
    induction K; intros k fuel HD E HL HF; (destruct fuel as [|f]; [lia|]); cbn [pick].
    - rewrite Nat.add_0_r in HL. now rewrite vget_ge.
    - rewrite (@vget_nth _ deg (draw k) 0) by (apply HD; lia). cbn [bind]. cbn [seq map filter] in E. destruct (nth (draw k) deg 0 =? 0) eqn:G; [|discriminate].
      apply IHK; auto; try lia; [intros i I; apply HD; lia|]. now replace (S k + K) with (k + S K) by lia.
  Qed.
  Lemma picks_ub : forall n k K fuel, (forall i, k <= i < k + K -> draw i < length deg) -> length (filter (fun v => good v) (drawn k K)) < n -> length deg <= draw (k + K) -> K < fuel ->
    picks fuel draw deg n k = Ub.
  Proof.
    induction n; intros k K fuel HD HN HL HF; [lia|]. cbn [picks]. destruct (filter (fun v => good v) (drawn k K)) as [|x rest] eqn:E.
    - rewrite (@pick_none K k fuel HD E HL HF). reflexivity.
    - destruct (@pick_first K k fuel x rest HD E) as (j & J & P & R); [lia|]. rewrite P. cbn [bind fst snd]. rewrite (IHn (S j) (k + K - S j) fuel); try lia; [reflexivity| | |].
      + intros i I. apply HD. lia.
      + rewrite <- R. cbn in HN. lia.
      + now replace (S j + (k + K - S j)) with (k + K) by lia.
  Qed.
  Lemma pick_forever : forall fuel k, (forall i, draw i < length deg) -> (forall v, nth v deg 0 = 0) -> pick fuel draw deg k = OutOfFuel.
  Proof. induction fuel; intros k HD HZ; cbn [pick]; auto. rewrite (@vget_nth _ deg (draw k) 0) by auto. cbn [bind]. rewrite HZ. cbn. auto. Qed.
  Lemma pick_Ok : forall fuel k x k', pick fuel draw deg k = Ok (x, k') -> x < length deg /\ nth x deg 0 <> 0.
  Proof.
    induction fuel; intros k x k' E; cbn [pick] in E; [discriminate|]. destruct (vget deg (draw k)) as [d| |] eqn:V; try discriminate. cbn [bind] in E.
    destruct (Nat.eqb_spec d 0); [eauto|]. injection E as E1 E2. subst. apply vget_Ok in V. split; [apply nth_error_Some; congruence|]. now rewrite (nth_error_nth _ _ 0 V).
  Qed.
  Lemma picks_Ok : forall fuel n k l, picks fuel draw deg n k = Ok l -> length l = n /\ forall x, In x l -> x < length deg /\ nth x deg 0 <> 0.
  Proof.
    intros fuel. induction n; intros k l E; cbn [picks] in E.
    - injection E as <-. split; auto. intros x [].
    - destruct (pick fuel draw deg k) as [[x k']| |] eqn:P; try discriminate. cbn [bind fst snd] in E. destruct (picks fuel draw deg n k') as [l'| |] eqn:Q; try discriminate.
      cbn [bind] in E. injection E as <-. destruct (IHn _ _ Q) as [L H]. split; [cbn; lia|]. intros y [<-|I]; auto. eapply pick_Ok; eauto.
  Qed.
End Draw.

(** ** Slices *)
Lemma rmap_ext A B (f h : A -> res B) l : (forall x, In x l -> f x = h x) -> rmap f l = rmap h l.
Proof. induction l; cbn; intros H; auto. rewrite H by auto. rewrite IHl by auto. reflexivity. Qed.
Lemma rmap_total A B (f : A -> res B) (h : A -> B) l : (forall x, In x l -> f x = Ok (h x)) -> rmap f l = Ok (map h l).
Proof. induction l; cbn; intros H; auto. rewrite H by auto. rewrite IHl by auto. reflexivity. Qed.
Lemma rmap_last_ub A B (f : A -> res B) l x : (forall y, In y l -> exists b, f y = Ok b) -> f x = Ub -> rmap f (l ++ [x]) = Ub.
Proof. induction l; cbn; intros H E; [now rewrite E|]. destruct (H a) as [b ->]; auto. cbn [bind]. rewrite IHl by auto. reflexivity. Qed.
Lemma skipn_firstn_add A (l : list A) : forall a b, firstn a l ++ firstn b (skipn a l) = firstn (a + b) l.
Proof. induction l; intros [|a0] b; cbn; auto. - now rewrite firstn_nil. - f_equal. apply IHl. Qed.
Lemma slices_concat (l : list nat) it : forall k, concat (map (fun i => firstn it (skipn (it * i) l)) (seq 0 k)) = firstn (it * k) l.
Proof.
  induction k; [now rewrite Nat.mul_0_r|]. rewrite seq_S, map_app, concat_app, IHk. cbn [map concat Nat.add]. rewrite app_nil_r, skipn_firstn_add. f_equal. lia.
Qed.
