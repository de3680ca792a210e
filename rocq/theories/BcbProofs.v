(** Proofs about bench/bc.cpp (BcbModel.v): shortest paths of a graph and of the reversed graph. *)
From Coq Require Import List Arith ZArith QArith Qcanon Field Lia Bool Permutation.
From Verif Require Import EdgeListModel EdgeListProofs CsrModel CsrProofs CsrProofs2 CsrProofs4 CsrProperties CbModel CbProofs BbModel BbProofs
  Base GraphLib SumLib QcLib BcLib BcModel BcProofs BcVerProofs BcParProofs BcParProofs2 BcProperties XbcModel XbcProperties SrcModel BcbModel.
Import ListNotations.
Set Implicit Arguments.
Local Open Scope nat_scope.

(** h has every arc of g backwards, as often. *)
Definition reversed (g h : list (list nat)) : Prop :=
  length g = length h /\ targets_ok g /\ targets_ok h /\
  forall u v, u < length g -> v < length g -> count_occ Nat.eq_dec (nth u g []) v = count_occ Nat.eq_dec (nth v h []) u.
Lemma reversed_sym g h : reversed g h -> reversed h g.
Proof. intros (L & T & U & C). split; auto. split; auto. split; auto. intros u v Hu Hv. symmetry. apply C; lia. Qed.
Lemma reversed_cnt g h k : reversed g h -> forall u v, u < length g -> v < length g -> cnt g k u v = cnt h k v u.
Proof.
  intros (L & T & U & C). induction k as [|k IH]; intros u v Hu Hv.
  - rewrite !cnt_0, Nat.eqb_sym. reflexivity.
  - rewrite cnt_S, (cnt_last k U) by lia. rewrite (@sum_count _ (length g)) by (intros x I; eapply T; eauto). rewrite <- L.
    apply bsum_ext. intros x Hx. rewrite IH, C by auto. apply Nat.mul_comm.
Qed.
Lemma reversed_walk g h k u v : reversed g h -> u < length g -> v < length g -> walk g u k v <-> walk h v k u.
Proof. intros R Hu Hv. rewrite <- !cnt_pos, (reversed_cnt k R) by auto. reflexivity. Qed.
Lemma reversed_distf g h u v : reversed g h -> u < length g -> v < length g -> distf g u v = distf h v u.
Proof.
  intros R Hu Hv. unfold distf. destruct R as (L & R'). rewrite <- L. assert (R : reversed g h) by (split; auto). clear R'.
  generalize (seq 0 (length g)). induction l as [|k l IH]; [reflexivity|]. cbn [find]. rewrite (reversed_cnt k R) by auto. now rewrite IH.
Qed.
Lemma reversed_dist g h u v d : reversed g h -> u < length g -> v < length g -> dist g u v d -> dist h v u d.
Proof.
  intros R Hu Hv D. assert (T := proj1 (proj2 R)). assert (U := proj1 (proj2 (proj2 R))). apply (distf_Some v T Hu) in D. rewrite (reversed_distf R) in D by auto.
  apply (distf_Some u U); auto. destruct R. lia.
Qed.
Lemma pair_dep_reversed g h s t v : reversed g h -> s < length g -> t < length g -> v < length g -> pair_dep g s t v = pair_dep h t s v.
Proof.
  intros R Hs Ht Hv. assert (T := proj1 (proj2 R)). assert (U := proj1 (proj2 (proj2 R))). assert (L := proj1 R). unfold pair_dep. rewrite <- (reversed_distf R) by auto.
  destruct (distf g s t) as [d|] eqn:E; auto. apply (distf_Some t T Hs) in E. rewrite (reversed_cnt d R) by auto. do 2 f_equal.
  assert (EH : dist h t s d) by (now apply (reversed_dist R)).
  destruct (distf g s v) as [a|] eqn:EA; [apply (distf_Some v T Hs) in EA|apply (distf_None v T Hs) in EA].
  - destruct (distf h t v) as [b|] eqn:EB; [apply distf_Some in EB; auto; try lia|apply distf_None in EB; auto; try lia].
    + assert (EBG : dist g v t b) by (apply (reversed_dist (reversed_sym R)); auto; lia). assert (EAH : dist h v s a) by (now apply (reversed_dist R)).
      assert (TR : d <= a + b) by (apply (proj2 E); eapply walk_app; [apply EA|apply EBG]).
      destruct (Nat.lt_ge_cases d a) as [La|La].
      * rewrite (through_far E EA La). symmetry. destruct (Nat.lt_ge_cases d b) as [Lb|Lb]; [exact (through_far EH EB Lb)|]. rewrite (through_eq EH EB Lb).
        rewrite (@cnt_zero h (d - b) v s); [lia|]. intros X. apply (proj2 EAH) in X. lia.
      * rewrite (through_eq E EA La). destruct (Nat.lt_ge_cases d b) as [Lb|Lb].
        -- rewrite (through_far EH EB Lb), (@cnt_zero g (d - a) v t); [lia|]. intros X. apply (proj2 EBG) in X. lia.
        -- rewrite (through_eq EH EB Lb). destruct (Nat.eq_dec d (a + b)) as [->|N].
           ++ replace (a + b - a) with b by lia. replace (a + b - b) with a by lia. rewrite (reversed_cnt a R), (reversed_cnt b R) by auto. apply Nat.mul_comm.
           ++ rewrite (@cnt_zero g (d - a) v t), (@cnt_zero h (d - b) v s); [lia| |]; intros X; [apply (proj2 EAH) in X|apply (proj2 EBG) in X]; lia.
    + rewrite (@through_unreach h t s v d) by auto. destruct (Nat.lt_ge_cases d a) as [La|La]; [exact (through_far E EA La)|]. rewrite (through_eq E EA La).
      rewrite (@cnt_zero g (d - a) v t); [lia|]. intros X. apply EB. exists (d - a). now apply (reversed_walk _ R).
  - rewrite (@through_unreach g s t v d) by auto. symmetry. destruct (Nat.eq_dec (through h d t s v) 0) as [Z|Z]; auto. exfalso. apply EA.
    destruct (distf h t v) as [b|] eqn:EB; [apply distf_Some in EB; auto; try lia|apply distf_None in EB; auto; try lia].
    + destruct (Nat.lt_ge_cases d b) as [Lb|Lb]; [now rewrite (through_far EH EB Lb) in Z|]. rewrite (through_eq EH EB Lb) in Z. exists (d - b). apply (reversed_walk _ R); auto.
      apply cnt_pos. destruct (cnt h (d - b) v s); [rewrite Nat.mul_0_r in Z; congruence|lia].
    + now rewrite (@through_unreach h t s v d) in Z by auto.
Qed.

(** ** The file *)
(** The arcs of the file as they are written there: the targets of each vertex. *)
Definition file_rows (N : nat) (es : list uedge) : list (list nat) := map (fun u => map (@etgt unit) (filter (fun e => esrc e =? u) es)) (seq 0 N).
Lemma file_rows_length N es : length (file_rows N es) = N.
Proof. unfold file_rows. now rewrite map_length, seq_length. Qed.
Lemma file_rows_nth N es u : u < N -> nth u (file_rows N es) [] = map (@etgt unit) (filter (fun e => esrc e =? u) es).
Proof. intros L. unfold file_rows. now rewrite nth_map_seq. Qed.
Lemma file_edge N es : (forall e, In e es -> esrc e < N /\ etgt e < N) -> forall u v, GraphLib.edge (file_rows N es) u v <-> In (u, v) (pairs es).
Proof.
  intros B u v. unfold GraphLib.edge. rewrite in_pairs. destruct (Nat.lt_ge_cases u N) as [L|L].
  - rewrite file_rows_nth by auto. rewrite in_map_iff. split.
    + intros (e & E & I). apply filter_In in I. destruct I as [I Q]. apply Nat.eqb_eq in Q. exists e. auto.
    + intros (e & I & E1 & E2). exists e. split; auto. apply filter_In. split; auto. now apply Nat.eqb_eq.
  - rewrite nth_overflow by (now rewrite file_rows_length). split; [intros []|]. intros (e & I & E & _). apply B in I. lia.
Qed.
Lemma count_filter (f k : uedge -> nat) es u v :
  count_occ Nat.eq_dec (map f (filter (fun e => k e =? u) es)) v = length (filter (fun e => (k e =? u) && (f e =? v)) es).
Proof.
  induction es as [|e es IH]; [reflexivity|]. cbn [filter]. destruct (k e =? u); cbn [andb]; auto. cbn [map count_occ]. rewrite IH.
  destruct (Nat.eq_dec (f e) v) as [E|E]; [apply Nat.eqb_eq in E|apply Nat.eqb_neq in E]; rewrite E; reflexivity.
Qed.
Lemma bcb_rows W zsrt srt1 n (es : list uedge) : is_sort_by fst zsrt -> n < W -> ids_ok W es -> 2 * length es < W ->
  let el := el_build W n es in let N := el_num_vertices el in
  exists g rows, bcb_graph W zsrt srt1 el = Ok g /\ csr_rows g = Ok rows /\ length rows = N /\ N < W /\ (forall e, In e es -> esrc e < N /\ etgt e < N) /\
    reversed rows (file_rows N es) /\ (es <> [] -> concat rows <> []) /\ (es = [] -> forall u v, ~ GraphLib.edge rows u v).
Proof.
  intros HS Hn He HL el N. destruct (@dir_graph_ok W zsrt srt1 S1 n es HS Hn He HL) as (g & rows & EG & _ & _ & _ & ER & LR & K). fold el N in EG, LR, K.
  destruct (build_card es Hn He) as (_ & B & _). cbv zeta in B. change (forall e, In e es -> esrc e < N /\ etgt e < N) in B.
  pose proof (@dir_edges S1 es rows N LR B K) as ED. cbn in ED.
  exists g, rows. split; [exact EG|]. split; auto. split; auto. split; [now apply card_lt|]. split; auto. split; [|split].
  - split; [now rewrite file_rows_length|]. split. { intros u v Q. apply ED, in_pairs in Q. destruct Q as (e & I & <- & _). rewrite LR. now apply B. }
    split. { intros u v Q. apply (@file_edge N es B) in Q. apply in_pairs in Q. destruct Q as (e & I & _ & <-). rewrite file_rows_length. now apply B. }
    intros u v Hu Hv. rewrite LR in Hu, Hv. rewrite (proj1 (Permutation_count_occ Nat.eq_dec _ _) (K u Hu)). cbn [ekey other_side]. rewrite file_rows_nth, !count_filter by auto.
    f_equal. apply filter_ext. intros e. apply andb_comm.
  - intros NE. destruct es as [|e es']; [congruence|]. assert (I : GraphLib.edge rows (etgt e) (esrc e)) by (apply ED; now left).
    intros X. unfold GraphLib.edge in I. assert (Y : In (esrc e) (concat rows)). { apply in_concat. exists (nth (etgt e) rows []). split; auto. apply nth_In.
      rewrite LR. apply (B e). now left. } rewrite X in Y. destruct Y.
  - intros -> u v Q. apply ED in Q. destruct Q.
Qed.

(** ** Scores towards the sources *)
(** What v gets from a list of sources: the fractions of the shortest paths from each other vertex t *to* the source that visit v. *)
Definition toward (h : list (list nat)) (sources : list nat) (v : nat) : Qc :=
  qsum (map (fun s => qsum (map (fun t => pair_dep h t s v) (filter (fun t => negb (t =? v)) (seq 0 (length h))))) sources).
(** Betweenness: over all pairs of vertices other than v. *)
Definition betweenness (h : list (list nat)) (v : nat) : Qc :=
  let l := filter (fun t => negb (t =? v)) (seq 0 (length h)) in qsum (map (fun s => qsum (map (fun t => pair_dep h s t v) l)) l).
Lemma score_toward g h sources v : reversed g h -> (forall s, In s sources -> s < length g) -> v < length g -> score g sources v = toward h sources v.
Proof.
  intros R HS Hv. unfold score, toward, dependency. rewrite (proj1 R). apply qsum_ext. intros s I. apply qsum_ext. intros t J. apply filter_In in J. destruct J as [J _]. apply in_seq in J.
  destruct R as (L & R'). rewrite <- L in J. apply pair_dep_reversed; auto; [split; auto|lia].
Qed.
Lemma score_betweenness g h v : reversed g h -> v < length g -> score g (others v (seq 0 (length g))) v = betweenness h v.
Proof.
  intros R Hv. rewrite (@score_toward g h); auto.
  - unfold toward, betweenness, others. rewrite (proj1 R). apply qsum_swap.
  - intros s I. apply filter_In in I. destruct I as [I _]. apply in_seq in I. lia.
Qed.
Lemma in_others v l s : In s (others v l) -> In s l.
Proof. intros I. now apply filter_In in I. Qed.
Lemma with_toward g h sources : reversed g h -> (forall s, In s sources -> s < length g) -> with_sources g sources = map (toward h sources) (seq 0 (length g)).
Proof. intros R HS. apply map_ext_in. intros v I. apply in_seq in I. apply score_toward; auto. lia. Qed.
Lemma without_toward g h sources : reversed g h -> (forall s, In s sources -> s < length g) ->
  without_sources g sources = map (fun v => toward h (others v sources) v) (seq 0 (length g)).
Proof. intros R HS. apply map_ext_in. intros v I. apply in_seq in I. apply score_toward; auto; [|lia]. intros s J. apply HS. now apply in_others in J. Qed.
Lemma counts_reversed g h M : reversed g h -> counts_below h M -> counts_below g M.
Proof.
  intros R C s t d HS D. assert (Ht : t < length g) by (eapply walk_lt; [apply R|apply HS|apply D]). rewrite (reversed_cnt d R) by auto.
  apply C; [destruct R; lia|]. now apply (reversed_dist R).
Qed.
(** A vertex's own contribution as a source is the number of other vertices that lead to it. *)
Lemma pair_dep_end h t v : targets_ok h -> t < length h -> pair_dep h t v v = if distf h t v then 1%Qc else 0%Qc.
Proof.
  intros T Ht. unfold pair_dep. destruct (distf h t v) as [d|] eqn:E; auto. apply (distf_Some v T Ht) in E. rewrite (through_eq E E (le_n d)), Nat.sub_diag, cnt_0, Nat.eqb_refl, Nat.mul_1_r.
  assert (P : 0 < cnt h d t v) by (apply cnt_pos, E). field. apply qn_neq0. lia.
Qed.
Lemma toward_own h v : targets_ok h -> v < length h ->
  exists l, NoDup l /\ (forall t, In t l <-> t < length h /\ t <> v /\ reachable h t v) /\ toward h [v] v = qn (length l).
Proof.
  intros T Hv. exists (filter (fun t => if distf h t v then true else false) (filter (fun t => negb (t =? v)) (seq 0 (length h)))). split; [apply NoDup_filter, NoDup_filter, seq_NoDup|]. split.
  - intros t. rewrite !filter_In, in_seq, negb_true_iff, Nat.eqb_neq. split.
    + intros (((_ & Lt) & N) & X). cbn in Lt. split; auto. split; auto. destruct (distf h t v) as [d|] eqn:E; [|discriminate]. apply distf_Some in E; auto. exists d. apply E.
    + intros (Lt & N & X). split; [split; [lia|auto]|]. destruct (distf h t v) as [d|] eqn:E; auto. apply distf_None in E; auto.
  - unfold toward. cbn [map qsum]. rewrite Qcplus_0_r.
    assert (G : forall l, (forall t, In t l -> t < length h) -> qsum (map (fun t => pair_dep h t v v) l) = qn (length (filter (fun t => if distf h t v then true else false) l))).
    { induction l as [|t l IH]; intros HL; [reflexivity|]. cbn [map qsum filter]. rewrite IH by (intros; apply HL; now right). rewrite pair_dep_end by (auto; apply HL; now left).
      destruct (distf h t v); cbn [length]; [rewrite qn_S; ring|ring]. }
    apply G. intros t I. apply filter_In in I. destruct I as [I _]. apply in_seq in I. lia.
Qed.
Lemma toward_split h v : targets_ok h -> v < length h -> toward h (seq 0 (length h)) v = (betweenness h v + toward h [v] v)%Qc.
Proof.
  intros T Hv. assert (B : betweenness h v = toward h (others v (seq 0 (length h))) v) by (unfold betweenness, toward, others; apply qsum_swap). rewrite B. clear B.
  assert (SC : forall l, NoDup l -> In v l -> toward h l v = (toward h (others v l) v + toward h [v] v)%Qc).
  { clear. induction l as [|x l IH]; intros ND I; [destruct I|]. inversion ND; subst. unfold toward, others in *. cbn [map qsum filter] in *. destruct (Nat.eqb_spec x v) as [->|Nx]; cbn [negb].
    - rewrite (@filter_all _ _ l); [ring|]. intros y Y. apply negb_true_iff. apply Nat.eqb_neq. intros ->. auto.
    - destruct I as [|I]; [congruence|]. cbn [map qsum]. rewrite IH by auto. ring. }
  apply SC; [apply seq_NoDup|apply in_seq; lia].
Qed.

(** ** Trials *)
Lemma rmap_seq_iff A (f : nat -> res A) d : forall n k out, rmap f (seq k n) = Ok out <-> length out = n /\ forall i, i < n -> f (k + i) = Ok (nth i out d).
Proof.
  induction n as [|n IH]; intros k out; cbn [seq rmap].
  - split; [intros Q; injection Q as <-; split; auto; intros; lia|]. intros (L & _). destruct out; [reflexivity|discriminate].
  - split.
    + intros Q. destruct (f k) as [y| |] eqn:E; cbn [bind] in Q; try discriminate. destruct (rmap f (seq (S k) n)) as [ys| |] eqn:R; cbn [bind] in Q; try discriminate.
      injection Q as <-. apply IH in R. destruct R as (L & H). split; [cbn; lia|]. intros [|i] Hi; cbn [nth]; [now rewrite Nat.add_0_r|]. rewrite Nat.add_succ_r. apply H. lia.
    + intros (L & H). destruct out as [|y ys]; [discriminate|]. assert (E := H 0 ltac:(lia)). rewrite Nat.add_0_r in E. cbn [nth] in E. rewrite E. cbn [bind].
      rewrite (proj2 (IH (S k) ys)); [reflexivity|]. split; [cbn in L; lia|]. intros i Hi. specialize (H (S i) ltac:(lia)). now rewrite Nat.add_succ_r in H.
Qed.
