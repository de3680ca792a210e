(** Proofs about bench/bfs.cpp (BbModel.v). *)
From Coq Require Import List Arith Lia Bool Permutation.
From Verif Require Import Base GraphLib SumLib RangeModel EdgeListModel EdgeListProofs CsrModel CsrProofs CsrProofs2 CsrProofs4 CsrProperties
  TcProofs BcLib BfsModel ParBfsModel XbfsModel XbfsProofs XbfsProperties CbModel CbProofs BbModel.
Import ListNotations.
Set Implicit Arguments.

(** The graph object of a directed list: size, the rows below size() with their multiplicities, and the row too many. *)
Lemma dir_graph_ok W zsrt srt1 s n (es : list uedge) : is_sort_by fst zsrt -> n < W -> ids_ok W es -> 2 * length es < W ->
  let el := el_build W n es in let N := el_num_vertices el in
  exists g rows, adjacency_of W zsrt srt1 true s el false = Ok g /\ csr_size g = N /\ csr_N g = N + 1 /\ csr_iterate g = Ub /\
    csr_rows g = Ok rows /\ length rows = N /\
    forall u, u < N -> Permutation (nth u rows []) (map (ekey (other_side s)) (filter (fun e => ekey s e =? u) es)).
Proof.
  intros HS Hn He HL el N.
  destruct (@C04_full_iteration_out_of_bounds unit W zsrt srt1 true s n es HS Hn He HL) as (g & EG & SZ & CN & IT). fold el N in EG, SZ.
  destruct (@C02_directed_csr_exact unit W zsrt srt1 s n 0 es HS Hn He ltac:(lia)) as ((g' & EG' & _ & _ & R) & _). fold el in EG'.
  rewrite EG in EG'. injection EG' as <-.
  destruct (@rmap_ex _ _ (fun u => do row <- csr_row g u; Ok (map fst row)) (fun u row => Permutation row (map fst (spec_row s es u))) (seq 0 (csr_size g))) as (rows & E & F).
  { intros u I. apply in_seq in I. destruct (R u) as (row & E & P); [lia|]. exists (map fst row). rewrite E. split; [reflexivity|]. now apply Permutation_map. }
  destruct (forall2_nth 0 [] F) as [L K]. rewrite seq_length in L, K.
  exists g, rows. repeat (split; [solve [auto|lia]|]). intros u Hu. specialize (K u ltac:(lia)). rewrite seq_nth in K by lia. cbn [plus] in K.
  unfold spec_row in K. now rewrite map_map in K.
Qed.
Lemma dir_edges s (es : list uedge) rows N : length rows = N -> (forall e, In e es -> esrc e < N /\ etgt e < N) ->
  (forall u, u < N -> Permutation (nth u rows []) (map (ekey (other_side s)) (filter (fun e => ekey s e =? u) es))) ->
  forall u v, GraphLib.edge rows u v <-> In (match s with S0 => (u, v) | S1 => (v, u) end) (pairs es).
Proof.
  intros LR B K u v. unfold GraphLib.edge. rewrite <- in_spec_row. unfold spec_row. rewrite map_map. cbn [fst].
  destruct (Nat.lt_ge_cases u N) as [H|H].
  - specialize (K u H). split; intros I; [exact (Permutation_in _ K I)|exact (Permutation_in _ (Permutation_sym K) I)].
  - rewrite nth_overflow by lia. split; [intros []|]. intros I. apply in_map_iff in I. destruct I as (e & _ & I). apply filter_In in I. destruct I as (I & Q).
    apply Nat.eqb_eq in Q. destruct (B e I), s; cbn [ekey] in Q; lia.
Qed.
Lemma filter_partition n (es : list uedge) s : (forall e, In e es -> ekey s e < n) ->
  sum (map (fun u => length (filter (fun e => ekey s e =? u) es)) (seq 0 n)) = length es.
Proof.
  intros B. induction es as [|e es IH].
  - cbn [filter length]. clear. induction (seq 0 n); auto.
  - cbn [length]. rewrite <- IH by (intros; apply B; now right). assert (X : ekey s e < n) by (apply B; now left). clear IH B.
    assert (G : forall l, NoDup l -> sum (map (fun u => length (filter (fun x => ekey s x =? u) (e :: es))) l) =
      sum (map (fun u => length (filter (fun x => ekey s x =? u) es)) l) + if existsb (Nat.eqb (ekey s e)) l then 1 else 0).
    { induction 1 as [|x l NI ND IH]; [reflexivity|]. cbn [map existsb]. change (sum (?a :: ?b)) with (a + sum b). rewrite IH. cbn [filter].
      destruct (Nat.eqb_spec (ekey s e) x) as [Q|Q]; cbn [length orb].
      - destruct (existsb (Nat.eqb (ekey s e)) l) eqn:EX; [|lia]. apply existsb_exists in EX. destruct EX as (y & I & Y). apply Nat.eqb_eq in Y. congruence.
      - lia. }
    rewrite G by apply seq_NoDup. replace (existsb (Nat.eqb (ekey s e)) (seq 0 n)) with true; [lia|]. symmetry. apply existsb_exists. exists (ekey s e). split; [apply in_seq; lia|apply Nat.eqb_refl].
Qed.
Lemma dir_sum s (es : list uedge) rows N : length rows = N -> (forall e, In e es -> esrc e < N /\ etgt e < N) ->
  (forall u, u < N -> Permutation (nth u rows []) (map (ekey (other_side s)) (filter (fun e => ekey s e =? u) es))) ->
  sum (map (@length nat) rows) = length es.
Proof.
  intros LR B K. rewrite <- (@filter_partition N es s) by (intros e I; destruct (B e I), s; auto). f_equal.
  apply nth_ext with 0 0; [rewrite !map_length, seq_length; auto|]. intros u Hu. rewrite map_length in Hu. rewrite nth_map_seq by lia.
  rewrite (nth_indep _ 0 (@length nat [])) by (rewrite map_length; lia). rewrite map_nth. specialize (K u ltac:(lia)). apply Permutation_length in K. now rewrite map_length in K.
Qed.

(** * Version 2: undefined as soon as it goes bottom-up, otherwise the search of C65, which does not look at the bit vectors. *)
Lemma v2_ub_or_top_down f vmax W alpha beta g g_t sched wk : forall ph fr lq front cur par e sc front' cur',
  bb_v2_loop f vmax W alpha beta g Ub sched wk ph fr lq front cur par e sc = Ub \/
  bb_v2_loop f vmax W alpha beta g Ub sched wk ph fr lq front cur par e sc = v2_loop f vmax W alpha beta g g_t sched wk ph fr lq front' cur' par e sc.
Proof.
  induction f as [|f IH]; intros; cbn [bb_v2_loop v2_loop]; [auto|]. destruct fr as [|x fr]; [auto|]. destruct (alpha =? 0); auto.
  destruct (e / alpha <? sc); [now left|]. destruct (xphase _ _ _ _ _ _ _ _ _ _ _) as [s| |]; cbn [bind]; auto. destruct (flush _ _ _) as [fl| |]; cbn [bind]; auto.
Qed.

(** * Breadth-first trees of the pairs, taken backwards *)
(** k pairs of the list lead from u to v. *)
Inductive leads (es : list uedge) : nat -> nat -> nat -> Prop :=
| leads_0 v : leads es 0 v v
| leads_S k u w v : In (u, w) (pairs es) -> leads es k w v -> leads es (S k) u v.
Definition leads_least (es : list uedge) (u v d : nat) : Prop := leads es d u v /\ forall k, leads es k u v -> d <= k.
(** Exactly the n vertices from which pairs lead to the source have a parent; the parent of another vertex than the source is
    the second vertex of a shortest way to it. *)
Definition back_tree (es : list uedge) (n source none : nat) (par : list nat) : Prop :=
  length par = n /\ nth source par none = source /\
  forall v, v < n -> (nth v par none <> none <-> exists k, leads es k v source) /\
    forall d, v <> source -> leads_least es v source d -> In (v, nth v par none) (pairs es) /\ leads_least es (nth v par none) source (d - 1).
Lemma walk_leads es rows s : (forall u v, GraphLib.edge rows u v <-> In (v, u) (pairs es)) -> forall k v, walk rows s k v <-> leads es k v s.
Proof.
  intros H. induction k as [|k IH]; intros v.
  - split; intros X; inversion X; subst; constructor.
  - split; intros X; inversion X; subst.
    + econstructor; [apply H; eauto|]. now apply IH.
    + econstructor; [apply IH; eauto|]. now apply H.
Qed.
Lemma reach_dec g s v : targets_ok g -> s < length g -> reachable g s v \/ ~ reachable g s v.
Proof.
  intros HT HS. destruct (distf g s v) as [d|] eqn:E; [left; apply (@distf_Some g s v d HT HS) in E; apply dist_reach; eauto|right; now apply (@distf_None g s v HT HS)].
Qed.
Lemma tree_back es rows s vmax par n : length rows = n -> n <= vmax -> targets_ok rows -> s < n -> (forall u v, GraphLib.edge rows u v <-> In (v, u) (pairs es)) ->
  is_bfs_tree rows s vmax par <-> back_tree es n s vmax par.
Proof.
  intros LR HN HT HS H. pose proof (@walk_leads es rows s H) as WL.
  assert (R : forall v, reachable rows s v <-> exists k, leads es k v s) by (intros v; unfold reachable; split; intros (k & X); exists k; now apply WL).
  assert (D : forall v d, dist rows s v d <-> leads_least es v s d).
  { intros v d. unfold dist, leads_least. split; intros (X & Y); (split; [now apply WL|]); intros k Z; apply Y; now apply WL. }
  unfold is_bfs_tree, back_tree. rewrite LR. split; intros (L & S0 & T); (split; [auto|split; [auto|]]); intros v Hv; destruct (T v Hv) as (T1 & T2).
  - destruct T2 as (T2 & T3). split.
    + split; [|intros X; apply R in X; specialize (T2 X); lia]. intros X. apply R. destruct (@reach_dec rows s v HT ltac:(lia)) as [Y|Y]; auto. destruct (X (T1 Y)).
    + intros d NE X. apply D in X. destruct (T3 d NE X) as (A & B). split; [now apply H|now apply D].
  - split; [|split].
    + intros X. destruct (Nat.eq_dec (nth v par vmax) vmax) as [E|E]; auto. exfalso. apply X, R, T1, E.
    + intros X. assert (E : nth v par vmax <> vmax) by (apply T1, R, X). destruct (Nat.eq_dec v s) as [->|NE]; [lia|].
      destruct (proj1 (dist_reach rows s v) X) as (d & Q). destruct (T2 d NE) as (A & B); [now apply D|]. apply H in A. unfold GraphLib.edge in A. rewrite <- LR.
      destruct (Nat.lt_ge_cases (nth v par vmax) (length rows)); auto. rewrite nth_overflow in A by lia. destruct A.
    + intros d NE X. destruct (T2 d NE) as (A & B); [now apply D|]. split; [now apply H|now apply D].
Qed.
