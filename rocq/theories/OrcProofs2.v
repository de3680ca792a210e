(** Proofs about examples/imdb/oracle.cpp, continued: the graph of those who acted together, and the search in it. *)
From Coq Require Import String List Arith Lia Bool Permutation Sorted.
From Verif Require Import EdgeListModel EdgeListProofs CsrModel CsrProofs CsrProofs2 CsrProofs4 CsrProperties CbProofs
  BfsRangeModel BfsRangeProofs BfsRangeProperties OrcModel OrcProofs SumLib Base GraphLib FifoLib.
Import ListNotations.
Set Implicit Arguments.
Local Open Scope nat_scope.

Notation uedge := (EdgeListModel.edge unit) (only parsing).
(** ** Who acted together *)
(** Number of ordered pairs of edges from the same source. *)
Definition same_src (es : list uedge) : list (uedge * uedge) := filter (fun p => esrc (fst p) =? esrc (snd p)) (list_prod es es).
Lemma sum_swap_filter (f : uedge -> nat) N es : (forall e, In e es -> etgt e < N) ->
  sum (map (fun i => sum (map f (filter (fun e => etgt e =? i) es))) (seq 0 N)) = sum (map f es).
Proof.
  induction es as [|e es IH]; intros B.
  - cbn. clear. induction (seq 0 N); auto.
  - cbn [map]. change (sum (?a :: ?b)) with (a + sum b). rewrite <- IH by (intros; apply B; now right). assert (X : etgt e < N) by (apply B; now left). clear IH B.
    assert (G : forall l, NoDup l -> sum (map (fun i => sum (map f (filter (fun x => etgt x =? i) (e :: es)))) l) =
      (if in_dec Nat.eq_dec (etgt e) l then f e else 0) + sum (map (fun i => sum (map f (filter (fun x => etgt x =? i) es))) l)).
    { induction 1 as [|x l NI ND IH]; [reflexivity|]. cbn [map]. change (sum (?a :: ?b)) with (a + sum b). rewrite IH. cbn [filter]. destruct (Nat.eqb_spec (etgt e) x) as [Q|Q].
      - subst x. cbn [map]. change (sum (?a :: ?b)) with (a + sum b). destruct (in_dec Nat.eq_dec (etgt e) l); [easy|]. destruct (in_dec Nat.eq_dec (etgt e) (etgt e :: l)) as [|H]; [lia|]. destruct H. now left.
      - destruct (in_dec Nat.eq_dec (etgt e) l), (in_dec Nat.eq_dec (etgt e) (x :: l)) as [H|H]; try lia; [destruct H; now right|]. destruct H; [congruence|easy]. }
    rewrite G by apply seq_NoDup. destruct (in_dec Nat.eq_dec (etgt e) (seq 0 N)) as [|H]; auto. destruct H. apply in_seq. lia.
Qed.
Lemma same_src_length es : length (same_src es) = sum (map (fun e => length (filter (fun e' => esrc e' =? esrc e) es)) es).
Proof.
  unfold same_src. generalize es at 1 4. intros l. induction l as [|e l IH]; [reflexivity|]. cbn [list_prod map]. change (sum (?a :: ?b)) with (a + sum b).
  rewrite filter_app, app_length, IH. f_equal. clear. induction es as [|x es IH]; [reflexivity|]. cbn [map filter fst snd]. rewrite (Nat.eqb_sym (esrc x)). destruct (esrc e =? esrc x); cbn [length]; now rewrite IH.
Qed.
Lemma concat_length A (l : list (list A)) : length (concat l) = sum (map (@length A) l).
Proof. induction l; auto. cbn [concat map]. rewrite app_length, IHl. reflexivity. Qed.
Lemma sum_le A (f h : A -> nat) l : (forall x, In x l -> f x <= h x) -> sum (map f l) <= sum (map h l).
Proof. induction l as [|x l IH]; intros H; [auto|]. cbn [map]. change (sum (?a :: ?b)) with (a + sum b). assert (X := H x (or_introl eq_refl)). assert (Y := IH (fun y I => H y (or_intror I))). lia. Qed.
Lemma sum_f2 A B (f : A -> nat) (h : B -> nat) l l' : Forall2 (fun a b => h b <= f a) l l' -> sum (map h l') <= sum (map f l).
Proof. induction 1; auto. cbn [map]. change (sum (?a :: ?b)) with (a + sum b). lia. Qed.
Lemma in_concat_f2 A B (P : A -> list B -> Prop) l l' x : Forall2 P l l' -> (In x (concat l') <-> exists a b, P a b /\ In a l /\ In x b /\ In (a, b) (combine l l')).
Proof.
  intros F. induction F as [|a b l l' H F IH]; cbn [concat combine].
  - split; [intros []|]. intros (a & b & _ & [] & _).
  - rewrite in_app_iff, IH. split.
    + intros [I|(a' & b' & P' & I1 & I2 & I3)]; [exists a, b; repeat split; auto; now left|]. exists a', b'. repeat split; auto; now right.
    + intros (a' & b' & P' & _ & I2 & [[= -> ->]|I3]); auto. right. exists a', b'. repeat split; auto. eapply in_combine_l; eauto.
Qed.
Lemma f2_combine_l A B (P : A -> B -> Prop) l l' a : Forall2 P l l' -> In a l -> exists b, In (a, b) (combine l l') /\ P a b.
Proof. induction 1 as [|x y l l' H F IH]; intros I; [easy|]. destruct I as [->|I]; [exists y; split; auto; now left|]. destruct (IH I) as (b & J & K). exists b. split; auto. now right. Qed.
Lemma overlap_ok W srt srt1 n (es : list uedge) : is_sort_by fst srt -> n < W -> ids_ok W es -> length es < W ->
  exists G H o, adjacency_of W srt srt1 true S0 (el_build W n es) false = Ok G /\ adjacency_of W srt srt1 true S1 (el_build W n es) false = Ok H /\ orc_overlap G H = Ok o /\
    (forall i j k, In ((i, j), k) o <-> In ((k, i), tt) es /\ In ((k, j), tt) es /\ i < j) /\ length o <= length (same_src es).
Proof.
  intros HS Hn He HL. destruct (@C02_directed_csr_exact unit W srt srt1 S0 n 0 es HS Hn He HL) as ((G & EG & SG & _ & RG) & _).
  destruct (@C02_directed_csr_exact unit W srt srt1 S1 n 0 es HS Hn He HL) as ((H & EH & SH & _ & RH) & _). exists G, H.
  assert (BK := fun s => @build_key_lt unit W n es s Hn He).
  set (inner := fun i (k : nat * unit) => do cast <- csr_row G (fst k) ; Ok (map (fun j : nat * unit => ((i, fst j), fst k)) (filter (fun j => i <? fst j) cast))).
  assert (IN : forall i k, fst k < csr_size G -> exists l, inner i k = Ok l /\ (forall a j c, In ((a, j), c) l <-> a = i /\ c = fst k /\ i < j /\ In ((fst k, j), tt) es) /\
    length l <= length (filter (fun e => esrc e =? fst k) es)).
  { intros i k Lk. destruct (RG (fst k) Lk) as (row & ER & P). unfold inner. rewrite ER. cbn [bind]. eexists. split; [reflexivity|]. split.
    - intros a j c. rewrite in_map_iff. split.
      + intros ([y []] & [= <- <- <-] & I). apply filter_In in I. destruct I as [I L]. cbn [fst] in *. apply Nat.ltb_lt in L. repeat split; auto.
        apply (Permutation_in _ P) in I. unfold spec_row in I. apply in_map_iff in I. destruct I as ([[a b] []] & [= <-] & I). apply filter_In in I. destruct I as [I Q]. cbn [ekey] in Q. apply Nat.eqb_eq in Q. unfold esrc in Q. cbn [fst] in Q. subst a. exact I.
      + intros (-> & -> & L & I). exists (j, tt). split; auto. apply filter_In. split; [|now apply Nat.ltb_lt]. apply (Permutation_in _ (Permutation_sym P)). unfold spec_row. apply in_map_iff. exists ((fst k, j), tt). split; auto.
        apply filter_In. split; auto. cbn [ekey]. apply Nat.eqb_refl.
    - rewrite map_length. apply Permutation_length in P. unfold spec_row in P. rewrite map_length in P. cbn [ekey] in P. rewrite <- P. clear. induction row as [|x r IH]; auto. cbn [filter]. destruct (i <? fst x); cbn [length]; lia. }
  destruct (@rmap_ex _ _ (fun i => do titles <- csr_row H i ; do l2 <- rmap (inner i) titles ; Ok (concat l2))
    (fun i l => (forall a j c, In ((a, j), c) l <-> a = i /\ In ((c, i), tt) es /\ i < j /\ In ((c, j), tt) es) /\ length l <= sum (map (fun e => length (filter (fun e' => esrc e' =? esrc e) es)) (filter (fun e => etgt e =? i) es))) (seq 0 (csr_size H))) as (o & EO & F).
  { intros i I. apply in_seq in I. destruct (RH i) as (row & ER & P); [lia|]. rewrite ER. cbn [bind].
    assert (KI : forall k, In k row <-> In ((fst k, i), tt) es).
    { intros [k []]. split; intros J.
      - apply (Permutation_in _ P) in J. unfold spec_row in J. apply in_map_iff in J. destruct J as ([[a b] []] & [= <-] & J). apply filter_In in J. destruct J as [J Q]. cbn [ekey] in Q. apply Nat.eqb_eq in Q. unfold etgt in Q. cbn [fst snd] in Q. subst b. exact J.
      - apply (Permutation_in _ (Permutation_sym P)). unfold spec_row. apply in_map_iff. exists ((k, i), tt). split; auto. apply filter_In. split; auto. cbn [ekey]. apply Nat.eqb_refl. }
    destruct (@rmap_ex _ _ (inner i) (fun k l => (forall a j c, In ((a, j), c) l <-> a = i /\ c = fst k /\ i < j /\ In ((fst k, j), tt) es) /\ length l <= length (filter (fun e => esrc e =? fst k) es)) row) as (l2 & E2 & F2).
    { intros k J. apply IN. apply KI in J. rewrite SG. apply (BK S0 _ J). }
    rewrite E2. cbn [bind]. exists (concat l2). split; auto. split.
    - intros a j c. rewrite (in_concat_f2 _ F2). split.
      + intros (k & l & (Q & _) & Ik & J & _). apply Q in J. destruct J as (-> & -> & L & J). apply KI in Ik. auto.
      + intros (-> & J1 & L & J2). destruct (f2_combine_l (c, tt) F2) as (l & J & Q & B); [now apply KI|]. exists (c, tt), l. split; auto. split; [now apply KI|]. split; auto. apply Q. auto.
    - rewrite concat_length. eapply Nat.le_trans.
      + apply (@sum_f2 _ _ (fun k : nat * unit => length (filter (fun e => esrc e =? fst k) es)) (@length _) row). eapply f2_impl; [|exact F2]. cbn beta. intros k l (_ & B). exact B.
      + rewrite (sum_perm (Permutation_map _ P)). unfold spec_row. rewrite map_map. cbn [ekey other_side fst]. apply Nat.le_refl. }
  exists (concat o). split; auto. split; auto. split; [unfold orc_overlap; fold inner; change (fun i => do titles <- csr_row H i; do l2 <- rmap (fun k : nat * unit => do cast <- csr_row G (fst k); Ok (map (fun j : nat * unit => ((i, fst j), fst k)) (filter (fun j : nat * unit => i <? fst j) cast))) titles; Ok (concat l2)) with (fun i => do titles <- csr_row H i ; do l2 <- rmap (inner i) titles ; Ok (concat l2)); rewrite EO; reflexivity|]. split.
  - intros i j k. rewrite (in_concat_f2 _ F). split.
    + intros (a & l & (Q & _) & Ik & J & _). apply Q in J. destruct J as (-> & J1 & L & J2). auto.
    + intros (J1 & J2 & L). destruct (f2_combine_l i F) as (l & J & Q & B). { apply in_seq. split; [lia|]. rewrite SH. apply (BK S1 _ J1). }
      exists i, l. split; auto. split; [apply in_seq; split; [lia|]; rewrite SH; apply (BK S1 _ J1)|]. split; auto. apply Q. auto.
  - rewrite concat_length, same_src_length. rewrite <- (@sum_swap_filter _ (csr_size H)) by (intros e I; rewrite SH; apply (BK S1 _ I)).
    apply (@sum_f2 _ _ _ (@length _) (seq 0 (csr_size H))). eapply f2_impl; [|exact F]. cbn beta. intros k l (_ & B). exact B.
Qed.

(** ** The graph *)
Definition acted (es : list uedge) (k u : nat) : Prop := In ((k, u), tt) es.
Lemma graph_ok W srt2 srt1 (es : list uedge) (o : list (EdgeListModel.edge nat)) : is_sort_by fst srt2 -> 0 < W -> ids_ok W es -> 2 * length o < W ->
  (forall i j k, In ((i, j), k) o <-> In ((k, i), tt) es /\ In ((k, j), tt) es /\ i < j) ->
  exists L rows, adjacency_of W srt2 srt1 false S0 (el_build W 0 o) false = Ok L /\ att_rows L = Ok rows /\ length rows = csr_size L /\
    (forall u v k, In (v, k) (nth u rows []) <-> acted es k u /\ acted es k v /\ u <> v) /\
    (forall u v k, acted es k u -> acted es k v -> u <> v -> u < csr_size L) /\
    (forall x, x < csr_size L -> exists u v k, x <= u /\ acted es k u /\ acted es k v /\ u <> v).
Proof.
  intros HS HW He HL HO. assert (Ho : ids_ok W o).
  { intros [[i j] k] I. apply HO in I. destruct I as (I1 & I2 & _). split; [apply (He _ I1)|apply (He _ I2)]. }
  destruct (@C03_undirected_csr_exact nat W srt2 srt1 S0 0 o HS HW Ho HL) as (L & EL & SL & _ & R).
  destruct (@rmap_ex _ _ (csr_row L) (fun u row => Permutation row (spec_row_undirected o u)) (seq 0 (csr_size L))) as (rows & E & F). { intros u I. apply in_seq in I. apply R. lia. }
  destruct (forall2_nth 0 [] F) as [LR K]. rewrite seq_length in LR, K. destruct (build_card (W := W) o HW Ho) as (_ & B1 & B2). rewrite <- SL in B1, B2.
  assert (KI : forall u v k, In (v, k) (spec_row_undirected o u) <-> acted es k u /\ acted es k v /\ u <> v).
  { intros u v k. unfold spec_row_undirected. rewrite in_flat_map. split.
    - intros ([[i j] c] & I & J). apply HO in I. destruct I as (I1 & I2 & L'). unfold esrc, etgt, eatt in J. cbn [fst snd] in J. apply in_app_or in J. destruct J as [J|J].
      + destruct (Nat.eqb_spec i u) as [Q|Q]; [|easy]. destruct J as [[= <- <-]|[]]. subst u. repeat split; auto. lia.
      + destruct (Nat.eqb_spec j u) as [Q|Q]; [|easy]. destruct J as [[= <- <-]|[]]. subst u. repeat split; auto. lia.
    - intros (I1 & I2 & N). destruct (Nat.lt_ge_cases u v) as [L'|L'].
      + exists ((u, v), k). split; [apply HO; auto|]. unfold esrc, etgt, eatt. cbn [fst snd]. rewrite Nat.eqb_refl. now left.
      + exists ((v, u), k). split; [apply HO; repeat split; auto; lia|]. unfold esrc, etgt, eatt. cbn [fst snd]. rewrite Nat.eqb_refl. apply in_or_app. right. now left. }
  assert (BU : forall u v k, acted es k u -> acted es k v -> u <> v -> u < csr_size L).
  { intros u v k I1 I2 N. destruct (Nat.lt_ge_cases u v) as [L'|L'].
    - apply (B1 ((u, v), k)). apply HO. auto.
    - apply (B1 ((v, u), k)). apply HO. repeat split; auto. lia. }
  exists L, rows. split; auto. split; auto. split; auto. split; [|split; auto].
  - intros u v k. destruct (Nat.lt_ge_cases u (csr_size L)) as [Lu|Lu].
    + specialize (K u Lu). rewrite seq_nth in K by auto. cbn [plus] in K. rewrite <- KI. split; apply Permutation_in; auto. now apply Permutation_sym.
    + rewrite nth_overflow by lia. split; [intros []|]. intros (I1 & I2 & N). specialize (BU u v k I1 I2 N). lia.
  - intros x Lx. destruct (Exists_dec (fun e : EdgeListModel.edge nat => x <= esrc e \/ x <= etgt e) o) as [X|X].
    { intros e. destruct (le_dec x (esrc e)); [left; auto|]. destruct (le_dec x (etgt e)); [left; auto|right]. lia. }
    + apply Exists_exists in X. destruct X as ([[i j] k] & I & X). apply HO in I. destruct I as (I1 & I2 & L'). unfold esrc, etgt in X. cbn [fst snd] in X.
      exists j, i, k. repeat split; auto; lia.
    + assert (csr_size L <= x); [|lia]. apply B2; [lia|]. intros e I. rewrite <- Forall_Exists_neg in X. rewrite Forall_forall in X. specialize (X e I). lia.
Qed.

(** ** The search with attributes *)
Lemma nth_map_map A (g : list (list (nat * A))) u : nth u (map (map fst) g) [] = map fst (nth u g []).
Proof. change (@nil nat) with (map (@fst nat A) []) at 1. apply map_nth. Qed.
Lemma vget_map A B (f : A -> B) l i : vget (map f l) i = do x <- vget l i ; Ok (f x).
Proof. unfold vget. rewrite nth_error_map. now destruct (nth_error l i). Qed.
Lemma er_att A (g : list (list (nat * A))) f : forall st,
  match er_loop f (map (map fst) g) st with
  | Ok T => exists T3, er_att_loop f g st = Ok T3 /\ map fst T3 = T /\ forall u v k, In ((u, v), k) T3 -> In (v, k) (nth u g [])
  | Ub => er_att_loop f g st = Ub
  | OutOfFuel => er_att_loop f g st = OutOfFuel
  end.
Proof.
  induction f as [|f IH]; intros st; cbn [er_loop er_att_loop]; destruct (er_q st) as [|x q]; try (exists []; split; [|split]; auto; intros; easy); auto.
  unfold er_deref. rewrite vget_map. destruct (vget g (er_v st)) as [row| |] eqn:ER; cbn [bind]; auto. rewrite vget_map. destruct (vget row (er_i st)) as [[u k]| |] eqn:EU; cbn [bind fst snd]; auto.
  destruct (er_next (map (map fst) g) st) as [st'| |]; cbn [bind]; auto. specialize (IH st'). destruct (er_loop f (map (map fst) g) st') as [T| |]; cbn [bind]; auto.
  - destruct IH as (T3 & -> & <- & H). cbn [bind]. eexists. split; [reflexivity|]. split; [reflexivity|]. intros u' v k' [[= <- <- <-]|I]; auto.
    apply vget_Ok in ER. apply vget_Ok in EU. rewrite (nth_error_nth _ _ [] ER). now apply nth_error_In in EU.
  - now rewrite IH.
  - now rewrite IH.
Qed.
Lemma bfs_att A (g : list (list (nat * A))) s :
  match bfs_edges (map (map fst) g) s with
  | Ok T => exists T3, bfs_att_edges g s = Ok T3 /\ map fst T3 = T /\ forall u v k, In ((u, v), k) T3 -> In (v, k) (nth u g [])
  | Ub => bfs_att_edges g s = Ub
  | OutOfFuel => bfs_att_edges g s = OutOfFuel
  end.
Proof.
  unfold bfs_edges, bfs_att_edges. rewrite map_length. destruct (vset (repeat false (length g)) s true) as [vis| |]; cbn [bind]; auto. rewrite vget_map. destruct (vget g s); cbn [bind]; auto. apply er_att.
Qed.

(** ** distance, parents, together_in *)
Record tabs_ok (g : list (list nat)) (s : nat) (T : list (nat * nat * nat)) (t : tables) : Prop := {
  k_ld : length (t_distance t) = length g;
  k_lp : length (t_parents t) = length g;
  k_lt : length (t_together t) = length g;
  k_dist : forall x d, x = s \/ In x (map snd (map fst T)) -> dist g s x d -> nth x (t_distance t) 0 = d;
  k_none : forall x, x <> s -> ~ In x (map snd (map fst T)) -> nth x (t_distance t) 0 = 0 /\ nth x (t_parents t) 0 = 0 /\ nth x (t_together t) 0 = 0;
  k_tree : forall p c k, In ((p, c), k) T -> nth c (t_parents t) 0 = p /\ nth c (t_together t) 0 = k }.
Lemma tables_ok g s T : tree_order g s (map fst T) -> targets_ok g -> s < length g ->
  exists t, rfold orc_visit T (mkTab (repeat 0 (length g)) (repeat 0 (length g)) (repeat 0 (length g))) = Ok t /\ tabs_ok g s T t.
Proof.
  intros (LO & TR) TO Ls. assert (Z : forall x n, nth x (repeat 0 n) 0 = 0). { intros x n. revert x. induction n; destruct x; cbn; auto. }
  assert (G : forall T1 T2, T = T1 ++ T2 -> exists t, rfold orc_visit T1 (mkTab (repeat 0 (length g)) (repeat 0 (length g)) (repeat 0 (length g))) = Ok t /\ tabs_ok g s T1 t).
  2:{ destruct (G T []) as (t & E & H); [now rewrite app_nil_r|]. eauto. }
  induction T1 as [|[[p c] k] T1 IH] using rev_ind; intros T2 ET.
  - exists (mkTab (repeat 0 (length g)) (repeat 0 (length g)) (repeat 0 (length g))). split; auto. constructor; cbn [t_distance t_parents t_together]; rewrite ?repeat_length; auto; try easy.
    intros x d [->|[]] D. rewrite Z. apply (@dist_fun g s s); auto. now apply dist_0.
  - rewrite <- app_assoc in ET. cbn [app] in ET. destruct (IH _ ET) as (t & E & K). rewrite rfold_app, E. cbn [bind rfold orc_visit].
    destruct (TR (map fst T1) p c (map fst T2)) as (EP & DP & IP). { rewrite ET, map_app. reflexivity. }
    assert (Lc : c < length g) by (eapply TO; eauto).
    assert (Lp : p < length g). { unfold edge in EP. destruct (Nat.lt_ge_cases p (length g)); auto. rewrite nth_overflow in EP by auto. easy. }
    assert (ND : ~ In c (s :: map snd (map fst T1))).
    { destruct LO as (ND & _). rewrite ET, !map_app in ND. cbn [map fst snd] in ND. change (s :: map snd (map fst T1) ++ c :: map snd (map fst T2)) with ((s :: map snd (map fst T1)) ++ c :: map snd (map fst T2)) in ND. apply NoDup_remove_2 in ND. intros I. apply ND. apply in_or_app. now left. }
    rewrite (@vget_nth _ _ p 0) by (rewrite (k_ld K); auto). cbn [bind]. rewrite vset_lt by (rewrite (k_ld K); auto). cbn [bind]. rewrite vset_lt by (rewrite (k_lp K); auto). cbn [bind]. rewrite vset_lt by (rewrite (k_lt K); auto). cbn [bind].
    eexists. split; [reflexivity|]. constructor; cbn [t_distance t_parents t_together].
    + rewrite upd_length. apply K.
    + rewrite upd_length. apply K.
    + rewrite upd_length. apply K.
    + intros x d X D. rewrite map_app, map_app in X. cbn [map fst snd] in X. rewrite nth_upd by (rewrite (k_ld K); auto). destruct (Nat.eqb_spec x c) as [->|NE].
      * assert (exists dp, dist g s p dp) as [dp Dp]. { assert (R : reachable g s p) by (apply (proj1 (proj2 LO)); rewrite ET, !map_app; destruct IP as [->|IP]; [now left|right; apply in_or_app; now left]). now apply dist_reach. }
        rewrite (k_dist K (x := p) (d := dp)); auto. { rewrite (dist_fun D (DP dp Dp)). lia. } destruct IP as [->|IP]; auto.
      * apply (k_dist K); auto. destruct X as [X|X]; auto. apply in_app_or in X. destruct X as [X|[X|[]]]; auto. congruence.
    + intros x NS NI. rewrite map_app, map_app in NI. cbn [map fst snd] in NI. assert (x <> c) by (intros ->; apply NI; apply in_or_app; right; now left). rewrite !nth_upd_neq by auto. apply (k_none K); auto. intros I. apply NI. apply in_or_app. now left.
    + intros p' c' k' I. apply in_app_or in I. destruct I as [I|[[= <- <- <-]|[]]].
      * assert (c' <> c). { intros ->. apply ND. right. apply in_map_iff. exists (p', c). split; auto. apply in_map_iff. exists ((p', c), k'). auto. }
        rewrite !nth_upd_neq by auto. now apply (k_tree K).
      * rewrite !nth_upd_eq by (rewrite ?(k_lp K), ?(k_lt K); auto). auto.
Qed.

(** ** The whole search *)
Definition costars (es : list uedge) (u v : nat) : Prop := exists k, acted es k u /\ acted es k v /\ u <> v.
Lemma same_src_ge es : length es <= length (same_src es).
Proof.
  rewrite same_src_length. assert (G : forall l, (forall e, In e l -> In e es) -> length l <= sum (map (fun e => length (filter (fun e' => esrc e' =? esrc e) es)) l)); [|apply G; auto].
  induction l as [|e l IH]; intros H; [auto|]. cbn [map length]. change (sum (?a :: ?b)) with (a + sum b). assert (X := IH (fun x I => H x (or_intror I))).
  assert (Y : In e (filter (fun e' => esrc e' =? esrc e) es)) by (apply filter_In; split; [apply H; now left|apply Nat.eqb_refl]). destruct (filter _ es); [easy|]. cbn [length]. lia.
Qed.
Lemma search_ok W srt srt2 srt1 (es : list uedge) b : is_sort_by fst srt -> is_sort_by fst srt2 -> 0 < W -> ids_ok W es -> 2 * length (same_src es) < W ->
  (exists v, costars es b v) ->
  exists t g T, orc_search W srt srt2 srt1 es b = Ok t /\ tabs_ok g b T t /\ tree_order g b (map fst T) /\ targets_ok g /\ b < length g /\
    (forall u v, edge g u v <-> costars es u v) /\ (forall u v, costars es u v -> u < length g) /\ (forall x, x < length g -> exists u v, x <= u /\ costars es u v) /\
    (forall u v k, In ((u, v), k) T -> acted es k u /\ acted es k v /\ u <> v).
Proof.
  intros HS HS2 HW He HL (v0 & k0 & A1 & A2 & N0). assert (LE := same_src_ge es).
  destruct (@overlap_ok W srt srt1 0 es HS HW He ltac:(lia)) as (G & H & o & EG & EH & EO & IO & LO).
  destruct (@graph_ok W srt2 srt1 es o HS2 HW He ltac:(lia) IO) as (L & rows & EL & ER & LR & IR & BU & BX).
  unfold orc_search. rewrite EG. cbn [bind]. rewrite EH. cbn [bind]. rewrite EO. cbn [bind]. rewrite EL. cbn [bind]. rewrite ER. cbn [bind].
  set (g := map (map fst) rows). assert (LG : length g = csr_size L) by (unfold g; rewrite map_length; auto).
  assert (EE : forall u v, edge g u v <-> costars es u v).
  { intros u v. unfold edge, g. rewrite nth_map_map, in_map_iff. split.
    - intros ([v' k] & Q & I). cbn in Q. subst v'. exists k. now apply IR.
    - intros (k & I). exists (v, k). split; auto. now apply IR. }
  assert (SY : forall u v, costars es u v -> costars es v u) by (intros u v (k & X & Y & Z); exists k; auto).
  assert (BC : forall u v, costars es u v -> u < length g) by (intros u v (k & X & Y & Z); rewrite LG; eapply BU; eauto).
  assert (TO : targets_ok g) by (intros u v E; apply EE in E; eapply BC; eauto).
  assert (Lb : b < length g) by (apply (BC b v0); exists k0; auto).
  assert (IB : In v0 (nth b g [])) by (apply EE; exists k0; auto). destruct (nth b g []) as [|w row] eqn:NB; [easy|].
  assert (NW : w <> b). { assert (X : edge g b w) by (unfold edge; rewrite NB; now left). apply EE in X. destruct X as (k & _ & _ & X). auto. }
  destruct (@C44_bfs_edge_range g b w row TO Lb NB) as (T0 & TR & EB). destruct (Nat.eqb_spec w b) as [|_]; [easy|].
  assert (X := bfs_att rows b). fold g in X. rewrite EB in X. destruct X as (T & ET & MT & IT). rewrite ET. cbn [bind]. rewrite <- MT in TR.
  destruct (tables_ok T TR TO Lb) as (t & E & K). rewrite LG in E. exists t, g, T. split; auto. split; auto. split; auto. split; auto. split; auto. split; auto. split; auto. split.
  - intros x Lx. rewrite LG in Lx. destruct (BX x Lx) as (u & v & k & X & Y). exists u, v. split; auto. exists k. auto.
  - intros u v k I. apply IT in I. now apply IR in I.
Qed.
Lemma search_ub W srt srt2 srt1 (es : list uedge) b : is_sort_by fst srt -> is_sort_by fst srt2 -> 0 < W -> ids_ok W es -> 2 * length (same_src es) < W ->
  (forall v, ~ costars es b v) -> orc_search W srt srt2 srt1 es b = Ub.
Proof.
  intros HS HS2 HW He HL NC. assert (LE := same_src_ge es).
  destruct (@overlap_ok W srt srt1 0 es HS HW He ltac:(lia)) as (G & H & o & EG & EH & EO & IO & LO).
  destruct (@graph_ok W srt2 srt1 es o HS2 HW He ltac:(lia) IO) as (L & rows & EL & ER & LR & IR & BU & BX).
  unfold orc_search. rewrite EG. cbn [bind]. rewrite EH. cbn [bind]. rewrite EO. cbn [bind]. rewrite EL. cbn [bind]. rewrite ER. cbn [bind].
  set (g := map (map fst) rows). assert (LG : length g = csr_size L) by (unfold g; rewrite map_length; auto).
  assert (X : bfs_edges g b = Ub).
  { destruct (Nat.lt_ge_cases b (length g)) as [Lb|Lb].
    - apply C44_bfs_edge_range_isolated; auto.
      + intros u v E. unfold edge, g in E. rewrite nth_map_map in E. apply in_map_iff in E. destruct E as ([v' k] & Q & I). cbn in Q. subst v'. apply IR in I. destruct I as (I1 & I2 & N). rewrite LG. apply (BU v u k); auto.
      + unfold g. rewrite nth_map_map. destruct (nth b rows []) as [|[v k] r] eqn:NB; auto. exfalso. apply (NC v). exists k. apply IR. rewrite NB. now left.
    - unfold bfs_edges. rewrite vset_ge; [reflexivity|]. now rewrite repeat_length. }
  assert (Y := bfs_att rows b). fold g in Y. rewrite X in Y. now rewrite Y.
Qed.
