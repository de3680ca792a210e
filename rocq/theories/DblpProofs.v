(** Proofs about examples/imdb/dblp.cpp and oracle+dblp.cpp. *)
From Coq Require Import String List Arith Lia Bool Permutation Sorted.
From Verif Require Import EdgeListModel EdgeListProofs CsrModel CsrProofs CsrProofs2 CsrProofs4 CsrProperties CbProofs
  BfsRangeModel BfsRangeProofs BfsRangeProperties OrcModel OrcProofs OrcProofs2 ImdbModel ImdbProofs DblpModel SumLib Base GraphLib FifoLib.
Import ListNotations.
Set Implicit Arguments.
Local Open Scope nat_scope.

(** ** Specification *)
(** The entries flattened: a title with each of its names. *)
Definition pairs_of (data : list (string * list string)) : list (string * string) := flat_map (fun e => map (pair (fst e)) (snd e)) data.
(** Titles and names in the order in which they first come. *)
Definition titles_of (data : list (string * list string)) : list string := first_seen (map fst data).
Definition names_of (data : list (string * list string)) : list string := first_seen (map snd (pairs_of data)).
(** The number of a name, 0 if it does not occur. *)
Fixpoint place (l : list string) (q : string) : option nat := match l with [] => None | x :: r => if String.eqb q x then Some 0 else option_map S (place r q) end.
Definition no_of (l : list string) (q : string) : nat := match place l q with Some i => i | None => 0 end.
(** Name number u is one of the names of title number k. *)
Definition wrote (data : list (string * list string)) (k u : nat) : Prop :=
  exists t a, In (t, a) (pairs_of data) /\ nth_error (titles_of data) k = Some t /\ nth_error (names_of data) u = Some a.
(** Pairs of names of the same title. *)
Definition same_title (data : list (string * list string)) : list ((string * string) * (string * string)) :=
  filter (fun q => String.eqb (fst (fst q)) (fst (snd q))) (list_prod (pairs_of data) (pairs_of data)).

(** ** Reading *)
Lemma place_nth l : NoDup l -> forall q i, place l q = Some i <-> nth_error l i = Some q.
Proof.
  induction 1 as [|x l NI ND IH]; intros q i; cbn [place].
  - destruct i; split; discriminate.
  - destruct (String.eqb_spec q x) as [->|N].
    + split; [intros [= <-]; reflexivity|]. destruct i as [|i]; auto. cbn. intros E. apply nth_error_In in E. contradiction.
    + destruct i as [|i]; cbn [nth_error].
      * split; [destruct (place l q); discriminate|congruence].
      * rewrite <- IH. destruct (place l q); cbn; split; congruence.
Qed.
Lemma dat_no m v q : dict_ok m v -> NoDup v -> dat m q = no_of v q.
Proof.
  intros D N. unfold dat, no_of. destruct (dfind m q) as [i|] eqn:E.
  - apply (do_find D) in E. apply (place_nth N) in E. now rewrite E.
  - destruct (place v q) as [i|] eqn:P; auto. apply (place_nth N) in P. apply (do_find D) in P. congruence.
Qed.
Lemma intern_ok m v x : dict_ok m v -> v = first_seen v -> exists m', intern m v x = (m', see v x) /\ dict_ok m' (see v x).
Proof.
  intros D _. unfold intern, see. assert (FI := dfind_none x D). destruct (dfind m x) as [i|] eqn:E.
  - assert (I : In x v) by (apply (do_find D), nth_error_In in E; auto). rewrite (proj2 (existsb_string x v) I). eauto.
  - assert (N : ~ In x v) by now apply FI. destruct (existsb (String.eqb x) v) eqn:X; [now apply existsb_string in X|]. rewrite app_length. cbn [List.length]. rewrite Nat.add_sub.
    eexists. split; [reflexivity|]. now apply dict_add.
Qed.
Record dbuilt (W : nat) (s : dbl) (ts : list string) (cs : list (string * string)) : Prop := {
  db_titles : d_titles s = first_seen ts;
  db_names : d_names s = first_seen (map snd cs);
  db_tmap : dict_ok (d_tmap s) (d_titles s);
  db_nmap : dict_ok (d_nmap s) (d_names s);
  db_said : d_said s = [];
  db_edges : Forall2 (fun c e => exists i j, nth_error (d_titles s) i = Some (fst c) /\ nth_error (d_names s) j = Some (snd c) /\ e = ((i mod W, j mod W), tt)) cs (d_edges s) }.
Lemma see_nth v x i y : nth_error v i = Some y -> nth_error (see v x) i = Some y.
Proof. intros E. unfold see. destruct (existsb _ _); auto. rewrite nth_error_app1; auto. apply nth_error_Some. congruence. Qed.
Lemma name_ok W t s ts cs x : dbuilt W s ts cs -> In t ts -> exists s', dbl_name W t s x = Ok s' /\ dbuilt W s' ts (cs ++ [(t, x)]).
Proof.
  intros [B1 B2 B3 B4 B5 B6] IT. unfold dbl_name. destruct (@intern_ok (d_nmap s) (d_names s) x) as (m' & EI & D'); auto.
  { rewrite B2. clear. induction (map snd cs) as [|y l IH] using rev_ind; auto. rewrite first_seen_app. unfold see. destruct (existsb _ _) eqn:X; auto. rewrite first_seen_app, <- IH. unfold see. now rewrite X. }
  rewrite EI. assert (IX : In x (see (d_names s) x)) by (apply see_in; auto). assert (NX := dat_ok x D' IX). unfold vget. rewrite NX. cbn [bind]. rewrite String.eqb_refl, B5. eexists. split; [reflexivity|].
  assert (IT' : In t (d_titles s)) by (rewrite B1; now apply first_seen_in).
  constructor; cbn [d_titles d_names d_tmap d_nmap d_edges d_said]; auto.
  - rewrite map_app. cbn [map snd]. now rewrite first_seen_app, <- B2.
  - apply Forall2_app.
    + eapply OrcProofs.f2_impl; [|exact B6]. cbn beta. intros c e (i & j & X & Y & Z). exists i, j. split; auto. split; auto. now apply see_nth.
    + constructor; [|constructor]. exists (dat (d_tmap s) t), (dat m' x). cbn [fst snd]. split; [now apply dat_ok|auto].
Qed.
Lemma entry_ok W s ts cs e : dbuilt W s ts cs -> exists s', dbl_entry W s e = Ok s' /\ dbuilt W s' (ts ++ [fst e]) (cs ++ map (pair (fst e)) (snd e)).
Proof.
  intros [B1 B2 B3 B4 B5 B6]. unfold dbl_entry. destruct (@intern_ok (d_tmap s) (d_titles s) (fst e)) as (m' & EI & D'); auto.
  { rewrite B1. clear. induction ts as [|y l IH] using rev_ind; auto. rewrite first_seen_app. unfold see. destruct (existsb _ _) eqn:X; auto. rewrite first_seen_app, <- IH. unfold see. now rewrite X. }
  rewrite EI. set (s0 := mkDbl _ _ _ _ _ _). assert (B : dbuilt W s0 (ts ++ [fst e]) cs).
  { constructor; cbn [s0 d_titles d_names d_tmap d_nmap d_edges d_said]; auto; [now rewrite first_seen_app, <- B1|]. eapply OrcProofs.f2_impl; [|exact B6]. cbn beta. intros c x (i & j & X & Y & Z). exists i, j. split; auto. now apply see_nth. }
  assert (IT : In (fst e) (ts ++ [fst e])) by (apply in_or_app; right; now left). revert B. generalize s0 cs. clear - IT. induction (snd e) as [|x l IH]; intros s cs B; cbn [rfold map].
  - exists s. split; auto. now rewrite app_nil_r.
  - destruct (@name_ok W (fst e) s (ts ++ [fst e]) cs x B IT) as (s1 & E1 & B1). rewrite E1. cbn [bind]. destruct (IH s1 _ B1) as (s2 & E2 & B2). exists s2. split; auto. now rewrite <- app_assoc in B2.
Qed.
Lemma build_ok W data : exists s, dbl_build W data = Ok s /\ dbuilt W s (map fst data) (pairs_of data).
Proof.
  unfold dbl_build. assert (G : forall data s ts cs, dbuilt W s ts cs -> exists s', rfold (dbl_entry W) data s = Ok s' /\ dbuilt W s' (ts ++ map fst data) (cs ++ pairs_of data)).
  { clear. induction data as [|e d IH]; intros s ts cs B; cbn [rfold map].
    - exists s. unfold pairs_of. cbn. now rewrite !app_nil_r.
    - destruct (@entry_ok W s ts cs e B) as (s1 & E1 & B1). rewrite E1. cbn [bind]. destruct (IH s1 _ _ B1) as (s2 & E2 & B2). exists s2. split; auto. unfold pairs_of. cbn [flat_map]. fold (pairs_of d).
      rewrite <- !app_assoc in B2. exact B2. }
  apply (G data _ [] []). assert (D : dict_ok [] []) by (constructor; [intros k [|i]; cbn; split; discriminate|constructor]). constructor; auto. constructor.
Qed.

(** ** The graph *)
Lemma overlap_all W srt srt1 (es : list uedge) : is_sort_by fst srt -> 0 < W -> ids_ok W es -> length es < W ->
  exists G H o, adjacency_of W srt srt1 true S0 (el_build W 0 es) false = Ok G /\ adjacency_of W srt srt1 true S1 (el_build W 0 es) false = Ok H /\ dbl_overlap G H = Ok o /\
    (forall i j k, In ((i, j), k) o <-> In ((k, i), tt) es /\ In ((k, j), tt) es) /\ length o <= length (same_src es).
Proof.
  intros HS Hn He HL. destruct (@C02_directed_csr_exact unit W srt srt1 S0 0 0 es HS Hn He HL) as ((G & EG & SG & _ & RG) & _).
  destruct (@C02_directed_csr_exact unit W srt srt1 S1 0 0 es HS Hn He HL) as ((H & EH & SH & _ & RH) & _). exists G, H.
  assert (BK := fun s => @build_key_lt unit W 0 es s Hn He).
  set (inner := fun (i : nat) (k : nat * unit) => do cast <- csr_row G (fst k) ; Ok (map (fun j : nat * unit => ((i, fst j), fst k)) cast)).
  assert (IN : forall i k, fst k < csr_size G -> exists l, inner i k = Ok l /\ (forall a j c, In ((a, j), c) l <-> a = i /\ c = fst k /\ In ((fst k, j), tt) es) /\
    length l <= length (filter (fun e => esrc e =? fst k) es)).
  { intros i k Lk. destruct (RG (fst k) Lk) as (row & ER & P). unfold inner. rewrite ER. cbn [bind]. eexists. split; [reflexivity|]. split.
    - intros a j c. rewrite in_map_iff. split.
      + intros ([y []] & [= <- <- <-] & I). cbn [fst] in *. repeat split; auto.
        apply (Permutation_in _ P) in I. unfold spec_row in I. apply in_map_iff in I. destruct I as ([[a b] []] & [= <-] & I). apply filter_In in I. destruct I as [I Q]. cbn [ekey] in Q. apply Nat.eqb_eq in Q. unfold esrc in Q. cbn [fst] in Q. subst a. exact I.
      + intros (-> & -> & I). exists (j, tt). split; auto. apply (Permutation_in _ (Permutation_sym P)). unfold spec_row. apply in_map_iff. exists ((fst k, j), tt). split; auto.
        apply filter_In. split; auto. cbn [ekey]. apply Nat.eqb_refl.
    - rewrite map_length. apply Permutation_length in P. unfold spec_row in P. rewrite map_length in P. cbn [ekey] in P. rewrite <- P. auto. }
  destruct (@rmap_ex _ _ (fun i => do titles <- csr_row H i ; do l2 <- rmap (inner i) titles ; Ok (concat l2))
    (fun i l => (forall a j c, In ((a, j), c) l <-> a = i /\ In ((c, i), tt) es /\ In ((c, j), tt) es) /\ length l <= sum (map (fun e => length (filter (fun e' => esrc e' =? esrc e) es)) (filter (fun e => etgt e =? i) es))) (seq 0 (csr_size H))) as (o & EO & F).
  { intros i I. apply in_seq in I. destruct (RH i) as (row & ER & P); [lia|]. rewrite ER. cbn [bind].
    assert (KI : forall k, In k row <-> In ((fst k, i), tt) es).
    { intros [k []]. split; intros J.
      - apply (Permutation_in _ P) in J. unfold spec_row in J. apply in_map_iff in J. destruct J as ([[a b] []] & [= <-] & J). apply filter_In in J. destruct J as [J Q]. cbn [ekey] in Q. apply Nat.eqb_eq in Q. unfold etgt in Q. cbn [fst snd] in Q. subst b. exact J.
      - apply (Permutation_in _ (Permutation_sym P)). unfold spec_row. apply in_map_iff. exists ((k, i), tt). split; auto. apply filter_In. split; auto. cbn [ekey]. apply Nat.eqb_refl. }
    destruct (@rmap_ex _ _ (inner i) (fun k l => (forall a j c, In ((a, j), c) l <-> a = i /\ c = fst k /\ In ((fst k, j), tt) es) /\ length l <= length (filter (fun e => esrc e =? fst k) es)) row) as (l2 & E2 & F2).
    { intros k J. apply IN. apply KI in J. rewrite SG. apply (BK S0 _ J). }
    rewrite E2. cbn [bind]. exists (concat l2). split; auto. split.
    - intros a j c. rewrite (in_concat_f2 _ F2). split.
      + intros (k & l & (Q & _) & Ik & J & _). apply Q in J. destruct J as (-> & -> & J). apply KI in Ik. auto.
      + intros (-> & J1 & J2). destruct (f2_combine_l (c, tt) F2) as (l & J & Q & B); [now apply KI|]. exists (c, tt), l. split; auto. split; [now apply KI|]. split; auto. apply Q. auto.
    - rewrite concat_length. eapply Nat.le_trans.
      + apply (@sum_f2 _ _ (fun k : nat * unit => length (filter (fun e => esrc e =? fst k) es)) (@length _) row). eapply OrcProofs.f2_impl; [|exact F2]. cbn beta. intros k l (_ & B). exact B.
      + rewrite (sum_perm (Permutation_map _ P)). unfold spec_row. rewrite map_map. cbn [ekey other_side fst]. apply Nat.le_refl. }
  exists (concat o). split; auto. split; auto. split; [unfold dbl_overlap; fold inner; change (fun i => do titles <- csr_row H i; do l2 <- rmap (fun k : nat * unit => do cast <- csr_row G (fst k); Ok (map (fun j : nat * unit => ((i, fst j), fst k)) cast)) titles; Ok (concat l2)) with (fun i => do titles <- csr_row H i ; do l2 <- rmap (inner i) titles ; Ok (concat l2)); rewrite EO; reflexivity|]. split.
  - intros i j k. rewrite (in_concat_f2 _ F). split.
    + intros (a & l & (Q & _) & Ik & J & _). apply Q in J. destruct J as (-> & J1 & J2). auto.
    + intros (J1 & J2). destruct (f2_combine_l i F) as (l & J & Q & B). { apply in_seq. split; [lia|]. rewrite SH. apply (BK S1 _ J1). }
      exists i, l. split; auto. split; [apply in_seq; split; [lia|]; rewrite SH; apply (BK S1 _ J1)|]. split; auto. apply Q. auto.
  - rewrite concat_length, same_src_length. rewrite <- (@sum_swap_filter _ (csr_size H)) by (intros e I; rewrite SH; apply (BK S1 _ I)).
    apply (@sum_f2 _ _ _ (@length _) (seq 0 (csr_size H))). eapply OrcProofs.f2_impl; [|exact F]. cbn beta. intros k l (_ & B). exact B.
Qed.
Lemma graph_all W srt2 srt1 (es : list uedge) (o : list (EdgeListModel.edge nat)) : is_sort_by fst srt2 -> 0 < W -> ids_ok W es -> 2 * length o < W ->
  (forall i j k, In ((i, j), k) o <-> In ((k, i), tt) es /\ In ((k, j), tt) es) ->
  exists L rows, adjacency_of W srt2 srt1 false S0 (el_build W 0 o) false = Ok L /\ att_rows L = Ok rows /\ length rows = csr_size L /\
    (forall u v k, In (v, k) (nth u rows []) <-> acted es k u /\ acted es k v) /\
    (forall u k, acted es k u -> u < csr_size L) /\ (es = [] -> csr_size L = 0).
Proof.
  intros HS HW He HL HO. assert (Ho : ids_ok W o).
  { intros [[i j] k] I. apply HO in I. destruct I as (I1 & I2). split; [apply (He _ I1)|apply (He _ I2)]. }
  destruct (@C03_undirected_csr_exact nat W srt2 srt1 S0 0 o HS HW Ho HL) as (L & EL & SL & _ & R).
  destruct (@rmap_ex _ _ (csr_row L) (fun u row => Permutation row (spec_row_undirected o u)) (seq 0 (csr_size L))) as (rows & E & F). { intros u I. apply in_seq in I. apply R. lia. }
  destruct (forall2_nth 0 [] F) as [LR K]. rewrite seq_length in LR, K. destruct (build_card (W := W) o HW Ho) as (_ & B1 & B2). rewrite <- SL in B1, B2.
  assert (KI : forall u v k, In (v, k) (spec_row_undirected o u) <-> acted es k u /\ acted es k v).
  { intros u v k. unfold spec_row_undirected. rewrite in_flat_map. split.
    - intros ([[i j] c] & I & J). apply HO in I. destruct I as (I1 & I2). unfold esrc, etgt, eatt in J. cbn [fst snd] in J. apply in_app_or in J. destruct J as [J|J].
      + destruct (Nat.eqb_spec i u) as [Q|Q]; [|easy]. destruct J as [[= <- <-]|[]]. subst u. auto.
      + destruct (Nat.eqb_spec j u) as [Q|Q]; [|easy]. destruct J as [[= <- <-]|[]]. subst u. auto.
    - intros (I1 & I2). exists ((u, v), k). split; [apply HO; auto|]. unfold esrc, etgt, eatt. cbn [fst snd]. rewrite Nat.eqb_refl. now left. }
  assert (BU : forall u k, acted es k u -> u < csr_size L) by (intros u k I; apply (B1 ((u, u), k)); apply HO; auto).
  exists L, rows. split; auto. split; auto. split; auto. split; [|split; auto].
  - intros u v k. destruct (Nat.lt_ge_cases u (csr_size L)) as [Lu|Lu].
    + specialize (K u Lu). rewrite seq_nth in K by auto. cbn [plus] in K. rewrite <- KI. split; apply Permutation_in; auto. now apply Permutation_sym.
    + rewrite nth_overflow by lia. split; [intros []|]. intros (I1 & _). specialize (BU u k I1). lia.
  - intros ->. destruct o as [|[[i j] k] o]; [|destruct (proj1 (HO i j k)) as [[] _]; now left]. assert (csr_size L <= 0) by (apply B2; [lia|easy]). lia.
Qed.

(** ** The search *)
Record tabs_at (g : list (list nat)) (s : nat) (T : list (nat * nat * nat)) (c : nat) (t : tables) : Prop := {
  a_ld : length (t_distance t) = length g;
  a_lp : length (t_parents t) = length g;
  a_lt : length (t_together t) = length g;
  a_dist : forall x d, x = s \/ In x (map snd (map fst T)) -> dist g s x d -> nth x (t_distance t) 0 = d + c;
  a_none : forall x, x <> s -> ~ In x (map snd (map fst T)) -> nth x (t_distance t) 0 = 0 /\ nth x (t_parents t) 0 = 0 /\ nth x (t_together t) 0 = 0;
  a_tree : forall p q k, In ((p, q), k) T -> nth q (t_parents t) 0 = p /\ nth q (t_together t) 0 = k }.
Lemma tables_at g s T c t0 : tree_order g s (map fst T) -> targets_ok g -> s < length g -> tabs_at g s [] c t0 ->
  exists t, rfold orc_visit T t0 = Ok t /\ tabs_at g s T c t /\ (forall p q k, In ((p, q), k) T -> p <> q).
Proof.
  intros (LO & TR) TO Ls K0.
  assert (G : forall T1 T2, T = T1 ++ T2 -> exists t, rfold orc_visit T1 t0 = Ok t /\ tabs_at g s T1 c t /\ (forall p q k, In ((p, q), k) T1 -> p <> q)).
  2:{ destruct (G T []) as (t & E & H); [now rewrite app_nil_r|]. eauto. }
  induction T1 as [|[[p q] k] T1 IH] using rev_ind; intros T2 ET.
  - exists t0. split; [auto|]. split; [auto|intros p q k []].
  - rewrite <- app_assoc in ET. cbn [app] in ET. destruct (IH _ ET) as (t & E & K & NE0). rewrite rfold_app, E. cbn [bind rfold orc_visit].
    destruct (TR (map fst T1) p q (map fst T2)) as (EP & DP & IP). { rewrite ET, map_app. reflexivity. }
    assert (Lq : q < length g) by (eapply TO; eauto).
    assert (Lp : p < length g). { unfold edge in EP. destruct (Nat.lt_ge_cases p (length g)); auto. rewrite nth_overflow in EP by auto. easy. }
    assert (ND : ~ In q (s :: map snd (map fst T1))).
    { destruct LO as (ND & _). rewrite ET, !map_app in ND. cbn [map fst snd] in ND. change (s :: map snd (map fst T1) ++ q :: map snd (map fst T2)) with ((s :: map snd (map fst T1)) ++ q :: map snd (map fst T2)) in ND. apply NoDup_remove_2 in ND. intros I. apply ND. apply in_or_app. now left. }
    rewrite (@vget_nth _ _ p 0) by (rewrite (a_ld K); auto). cbn [bind]. rewrite vset_lt by (rewrite (a_ld K); auto). cbn [bind]. rewrite vset_lt by (rewrite (a_lp K); auto). cbn [bind]. rewrite vset_lt by (rewrite (a_lt K); auto). cbn [bind].
    eexists. split; [reflexivity|]. split.
    2:{ intros p' q' k' I. apply in_app_or in I. destruct I as [I|[[= <- <- <-]|[]]]; [eauto|]. intros ->. apply ND. destruct IP as [->|IP]; [now left|now right]. }
    constructor; cbn [t_distance t_parents t_together].
    + rewrite upd_length. apply K.
    + rewrite upd_length. apply K.
    + rewrite upd_length. apply K.
    + intros x d X D. rewrite map_app, map_app in X. cbn [map fst snd] in X. rewrite nth_upd by (rewrite (a_ld K); auto). destruct (Nat.eqb_spec x q) as [->|NE].
      * assert (exists dp, dist g s p dp) as [dp Dp]. { assert (R : reachable g s p) by (apply (proj1 (proj2 LO)); rewrite ET, !map_app; destruct IP as [->|IP]; [now left|right; apply in_or_app; now left]). now apply dist_reach. }
        rewrite (a_dist K (x := p) (d := dp)); auto. { rewrite (dist_fun D (DP dp Dp)). lia. } destruct IP as [->|IP]; auto.
      * apply (a_dist K); auto. destruct X as [X|X]; auto. apply in_app_or in X. destruct X as [X|[X|[]]]; auto. congruence.
    + intros x NS NI. rewrite map_app, map_app in NI. cbn [map fst snd] in NI. assert (x <> q) by (intros ->; apply NI; apply in_or_app; right; now left). rewrite !nth_upd_neq by auto. apply (a_none K); auto. intros I. apply NI. apply in_or_app. now left.
    + intros p' c' k' I. apply in_app_or in I. destruct I as [I|[[= <- <- <-]|[]]].
      * assert (c' <> q). { intros ->. apply ND. right. apply in_map_iff. exists (p', q). split; auto. apply in_map_iff. exists ((p', q), k'). auto. }
        rewrite !nth_upd_neq by auto. now apply (a_tree K).
      * rewrite !nth_upd_eq by (rewrite ?(a_lp K), ?(a_lt K); auto). auto.
Qed.
Lemma nth_zeros x n : nth x (repeat 0 n) 0 = 0.
Proof. revert x. induction n; destruct x; cbn; auto. Qed.
Definition both (es : list uedge) (u v : nat) : Prop := exists k, acted es k u /\ acted es k v.
Lemma search_all W srt srt2 srt1 (es : list uedge) b : is_sort_by fst srt -> is_sort_by fst srt2 -> 0 < W -> ids_ok W es -> 2 * length (same_src es) < W ->
  (exists k, acted es k b) ->
  exists t g T c, dbl_search W srt srt2 srt1 es b = Ok t /\ c <= 1 /\ ((forall v, both es b v -> v = b) -> c = 1) /\ tabs_at g b T c t /\ tree_order g b (map fst T) /\ targets_ok g /\ b < length g /\
    (forall u v, edge g u v <-> both es u v) /\ (forall u k, acted es k u -> u < length g) /\
    (forall u v k, In ((u, v), k) T -> acted es k u /\ acted es k v /\ u <> v).
Proof.
  intros HS HS2 HW He HL (k0 & A0). assert (LE := same_src_ge es).
  destruct (@overlap_all W srt srt1 es HS HW He ltac:(lia)) as (G & H & o & EG & EH & EO & IO & LO).
  destruct (@graph_all W srt2 srt1 es o HS2 HW He ltac:(lia) IO) as (L & rows & EL & ER & LR & IR & BU & _).
  unfold dbl_search. rewrite EG. cbn [bind]. rewrite EH. cbn [bind]. rewrite EO. cbn [bind]. rewrite EL. cbn [bind]. rewrite ER. cbn [bind].
  set (g := map (map fst) rows). assert (LG : length g = csr_size L) by (unfold g; rewrite map_length; auto).
  assert (EE : forall u v, edge g u v <-> both es u v).
  { intros u v. unfold edge, g. rewrite nth_map_map, in_map_iff. split.
    - intros ([v' k] & Q & I). cbn in Q. subst v'. exists k. now apply IR.
    - intros (k & I). exists (v, k). split; auto. now apply IR. }
  assert (TO : targets_ok g) by (intros u v E; apply EE in E; destruct E as (k & _ & I); rewrite LG; eapply BU; eauto).
  assert (Lb : b < length g) by (rewrite LG; eapply BU; eauto).
  assert (IB : In b (nth b g [])) by (apply EE; exists k0; auto). destruct (nth b g []) as [|w row] eqn:NB; [easy|].
  destruct (@C44_bfs_edge_range g b w row TO Lb NB) as (T0 & TR & EB).
  assert (X := bfs_att rows b). fold g in X. rewrite EB in X. destruct X as (T & ET & MT & IT). rewrite ET. cbn [bind].
  assert (LT : csr_size L = length g) by auto. rewrite LT.
  destruct (Nat.eqb_spec w b) as [->|NW].
  - destruct T as [|[[x y] k] T]; [discriminate|]. cbn [map fst] in MT. injection MT as -> -> MT. rewrite <- MT in TR. cbn [rfold orc_visit].
    cbn [t_distance t_parents t_together]. rewrite (@vget_nth _ _ b 0) by (rewrite repeat_length; auto). cbn [bind]. rewrite nth_zeros. do 3 (rewrite vset_lt by (rewrite repeat_length; auto); cbn [bind plus]).
    edestruct (@tables_at g b T 1) as (t & E & K & NE); eauto.
    2:{ rewrite E. exists t, g, T, 1. split; auto. split; auto. split; auto. split; auto. split; auto. split; auto. split; auto. split; auto. split; [intros u j I; rewrite LG; eauto|].
        intros u v j I. split; [|split; [|eauto]]; (destruct (IR u v j) as [Q _]; apply Q; apply IT; now right). }
    constructor; cbn [t_distance t_parents t_together]; rewrite ?upd_length, ?repeat_length; auto; try easy.
    + intros x d [->|[]] D. rewrite nth_upd_eq by (rewrite repeat_length; auto). assert (d = 0) by (apply (@dist_fun g b b); auto; now apply dist_0). lia.
    + intros x N _. rewrite !nth_upd_neq by auto. rewrite !nth_zeros. auto.
  - rewrite <- MT in TR. destruct (@tables_at g b T 0 (mkTab (repeat 0 (length g)) (repeat 0 (length g)) (repeat 0 (length g)))) as (t & E & K & NE); auto.
    { constructor; cbn [t_distance t_parents t_together]; rewrite ?repeat_length; auto; try easy.
      - intros x d [->|[]] D. rewrite nth_zeros. assert (d = 0) by (apply (@dist_fun g b b); auto; now apply dist_0). lia.
      - intros. rewrite !nth_zeros. auto. }
    rewrite E. exists t, g, T, 0. split; auto. split; auto. split.
    { intros AL. exfalso. apply NW, AL, EE. unfold edge. rewrite NB. now left. }
    split; auto. split; auto. split; auto. split; auto. split; auto. split; [intros u j I; rewrite LG; eauto|].
    intros u v j I. split; [|split; [|eauto]]; (destruct (IR u v j) as [Q _]; apply Q; now apply IT).
Qed.
Lemma search_none W srt srt2 srt1 b : is_sort_by fst srt -> is_sort_by fst srt2 -> 0 < W -> dbl_search W srt srt2 srt1 [] b = Ub.
Proof.
  intros HS HS2 HW. assert (He : ids_ok W (@nil uedge)) by (intros e []).
  destruct (@overlap_all W srt srt1 [] HS HW He ltac:(cbn; lia)) as (G & H & o & EG & EH & EO & IO & LO).
  destruct (@graph_all W srt2 srt1 [] o HS2 HW He) as (L & rows & EL & ER & LR & IR & BU & BZ); [cbn in LO; lia|exact IO|].
  unfold dbl_search. rewrite EG. cbn [bind]. rewrite EH. cbn [bind]. rewrite EO. cbn [bind]. rewrite EL. cbn [bind]. rewrite ER. cbn [bind].
  specialize (BZ eq_refl). rewrite BZ in LR. destruct rows; [|discriminate]. assert (X := @bfs_att nat [] b).
  assert (Y : bfs_edges (map (map fst) (@nil (list (nat * nat)))) b = Ub) by (unfold bfs_edges; rewrite vset_ge; [reflexivity|cbn; lia]). rewrite Y in X. now rewrite X.
Qed.

(** ** Distances without the loops *)
Lemma both_number g b (acts : nat -> nat -> Prop) : (forall u v, edge g u v <-> exists k, acts k u /\ acts k v) ->
  (forall n u, apart acts b n u -> walk g b n u) /\ (forall n u, walk g b n u -> exists m, m <= n /\ apart acts b m u) /\ forall u d, dist g b u d <-> number acts b u d.
Proof.
  intros E. assert (A : forall n u, apart acts b n u -> walk g b n u).
  { induction 1 as [|n v u _ IH (k & X & Y & _)]; [constructor|]. econstructor; eauto. apply E. eauto. }
  assert (B : forall n u, walk g b n u -> exists m, m <= n /\ apart acts b m u).
  { induction 1 as [|n v u _ IH ED]; [exists 0; split; auto; constructor|]. destruct IH as (m & L & IH). apply E in ED. destruct ED as (k & X & Y).
    destruct (Nat.eq_dec v u) as [<-|N]; [exists m; auto|]. exists (S m). split; [lia|]. econstructor; eauto. exists k. auto. }
  split; auto. split; auto. intros u d. split.
  - intros [X Y]. destruct (B _ _ X) as (m & L & Z). assert (d <= m) by (apply Y; auto). replace d with m by lia. split; auto. intros n Q. assert (d <= n) by (apply Y; auto). lia.
  - intros [X Y]. split; auto. intros n Q. destruct (B _ _ Q) as (m & L & Z). specialize (Y _ Z). lia.
Qed.

(** ** The program *)
(** What is printed about name number a: the number, c too large, and a shortest trail; or 0 and a line naming name 0 and title 0. *)
Definition told_off (acts : nat -> nat -> Prop) (c b a d : nat) (rows : list (nat * nat * nat)) : Prop :=
  (number acts b a (d - c) /\ c <= d /\ length rows = d - c /\ trail acts rows a b) \/ ((forall n, ~ apart acts b n a) /\ d = 0 /\ rows = [((a, 0), 0)]).
Definition pair_edge (data : list (string * list string)) (c : string * string) : uedge := ((no_of (titles_of data) (fst c), no_of (names_of data) (snd c)), tt).
Lemma titles_nodup data : NoDup (titles_of data). Proof. apply first_seen_nodup. Qed.
Lemma names_nodup data : NoDup (names_of data). Proof. apply first_seen_nodup. Qed.
Lemma no_of_nth l i x : NoDup l -> nth_error l i = Some x -> no_of l x = i.
Proof. intros N E. apply (place_nth N) in E. unfold no_of. now rewrite E. Qed.
Lemma no_of_in l x : NoDup l -> In x l -> nth_error l (no_of l x) = Some x.
Proof. intros N I. apply In_nth_error in I. destruct I as [i E]. now rewrite (@no_of_nth _ _ _ N E). Qed.
Lemma no_of_lt l x : l <> [] -> NoDup l -> no_of l x < length l.
Proof.
  intros NE N. unfold no_of. destruct (place l x) as [i|] eqn:E.
  - apply (place_nth N) in E. apply nth_error_Some. congruence.
  - destruct l; [congruence|cbn; lia].
Qed.
Lemma pairs_titles data c : In c (pairs_of data) -> In (fst c) (titles_of data).
Proof. intros I. unfold titles_of. apply first_seen_in. unfold pairs_of in I. apply in_flat_map in I. destruct I as (e & I & J). apply in_map_iff in J. destruct J as (x & <- & J). cbn. now apply in_map. Qed.
Lemma pairs_names data c : In c (pairs_of data) -> In (snd c) (names_of data).
Proof. intros I. unfold names_of. apply first_seen_in. now apply in_map. Qed.
Section Main.
  Variables (W : nat) (data : list (string * list string)).
  Hypothesis LT : length (titles_of data) < W.
  Hypothesis LN : length (names_of data) < W.
  Hypothesis SM : 2 * length (same_title data) < W.
  Let es := map (pair_edge data) (pairs_of data).
  Let acts := wrote data.
  Lemma es_acted k u : acted es k u <-> acts k u.
  Proof.
    unfold acted, es, acts, wrote, pair_edge. rewrite in_map_iff. split.
    - intros ([t a] & [= <- <-] & I). exists t, a. split; auto. split; apply no_of_in; auto using titles_nodup, names_nodup; [apply (pairs_titles _ _ I)|apply (pairs_names _ _ I)].
    - intros (t & a & I & X & Y). exists (t, a). cbn [fst snd]. rewrite (@no_of_nth _ _ _ (titles_nodup data) X), (@no_of_nth _ _ _ (names_nodup data) Y). auto.
  Qed.
  Lemma acts_lt k u : acts k u -> k < length (titles_of data) /\ u < length (names_of data).
  Proof. intros (t & a & _ & X & Y). split; apply nth_error_Some; congruence. Qed.
  Lemma es_ids : ids_ok W es.
  Proof.
    intros [[k u] []] I. assert (A : acts k u) by (now apply es_acted). apply acts_lt in A. unfold esrc, etgt. cbn [fst snd]. lia.
  Qed.
  Lemma es_same : length (same_src es) = length (same_title data).
  Proof.
    unfold same_src, same_title, es. assert (G : forall c' c, (forall x, In x c -> In x (pairs_of data)) -> (forall x, In x c' -> In x (pairs_of data)) ->
      length (filter (fun p : uedge * uedge => esrc (fst p) =? esrc (snd p)) (list_prod (map (pair_edge data) c) (map (pair_edge data) c'))) =
      length (filter (fun q : (string * string) * (string * string) => String.eqb (fst (fst q)) (fst (snd q))) (list_prod c c'))); [|apply G; auto].
    intros c'. induction c as [|x c IH]; intros Hc Hc'; [reflexivity|]. cbn [map list_prod].
    rewrite !filter_app, !app_length. rewrite IH by (auto; intros; apply Hc; now right). f_equal. assert (Ix : In x (pairs_of data)) by (apply Hc; now left). clear - Ix Hc'. induction c' as [|y c' IH]; [reflexivity|]. cbn [map filter fst snd].
    assert (Iy : In y (pairs_of data)) by (apply Hc'; now left).
    assert (Q : (esrc (pair_edge data x) =? esrc (pair_edge data y)) = String.eqb (fst x) (fst y)).
    { unfold pair_edge, esrc. cbn [fst]. destruct (String.eqb_spec (fst x) (fst y)) as [->|N]; [apply Nat.eqb_refl|]. apply Nat.eqb_neq. intros Q. apply N.
      assert (X := @no_of_in _ _ (titles_nodup data) (pairs_titles _ _ Ix)). assert (Y := @no_of_in _ _ (titles_nodup data) (pairs_titles _ _ Iy)). congruence. }
    rewrite Q. destruct (String.eqb (fst x) (fst y)); cbn [length]; rewrite IH; auto; intros z I; apply Hc'; now right.
  Qed.
  Lemma names_some : pairs_of data <> [] -> names_of data <> [] /\ titles_of data <> [].
  Proof. intros N. destruct (pairs_of data) as [|c l] eqn:E; [congruence|]. assert (I : In c (pairs_of data)) by (rewrite E; now left). split; intros Q. { apply pairs_names in I. now rewrite Q in I. } apply pairs_titles in I. now rewrite Q in I. Qed.
  Lemma wrote_some u : u < length (names_of data) -> exists k, acts k u.
  Proof.
    intros L. assert (X : In (nth u (names_of data) ""%string) (names_of data)) by now apply nth_In. unfold names_of in X at 2. apply (proj1 (first_seen_in _ _)) in X. apply in_map_iff in X. destruct X as ([t a] & Q & I). cbn in Q. subst a.
    exists (no_of (titles_of data) t), t, (nth u (names_of data) ""%string). split; auto. split; [apply no_of_in; [apply titles_nodup|apply (pairs_titles _ _ I)]|]. now apply nth_error_nth'.
  Qed.
  Lemma built_eq s : dbuilt W s (map fst data) (pairs_of data) -> d_titles s = titles_of data /\ d_names s = names_of data /\ d_edges s = es /\ d_said s = [] /\ forall q, dat (d_nmap s) q = no_of (names_of data) q.
  Proof.
    intros [B1 B2 B3 B4 B5 B6]. fold (titles_of data) in B1. fold (names_of data) in B2. split; auto. split; auto. split; [|split; auto; intros q; rewrite B2 in B4; apply dat_no; auto; apply names_nodup].
    unfold es. rewrite B1, B2 in B6. clear - B6 LT LN. induction B6 as [|c e cs l (i & j & X & Y & ->) _ IH]; [reflexivity|]. cbn [map]. rewrite IH. f_equal. unfold pair_edge. rewrite (@no_of_nth _ _ _ (titles_nodup data) X), (@no_of_nth _ _ _ (names_nodup data) Y).
    assert (i < length (titles_of data)) by (apply nth_error_Some; congruence). assert (j < length (names_of data)) by (apply nth_error_Some; congruence). now rewrite !Nat.mod_small by lia.
  Qed.
  Definition who_of (i : nat) := nth i (names_of data) ""%string.
  Definition what_of (i : nat) := nth i (titles_of data) ""%string.
  Lemma report_ok g T t c b a : pairs_of data <> [] -> tabs_at g b T c t -> tree_order g b (map fst T) -> targets_ok g -> b < length g -> (forall u v, edge g u v <-> exists k, acts k u /\ acts k v) ->
    (forall u v k, In ((u, v), k) T -> acts k u /\ acts k v /\ u <> v) -> a < length g -> a < length (names_of data) ->
    exists d rows, tab_report (vget (names_of data)) (vget (titles_of data)) t b a = Ok (d, map (words who_of what_of) rows) /\ told_off acts c b a d rows.
  Proof.
    intros NP K TR TO Lb E IT La LaN. destruct (names_some NP) as [NN NT]. unfold tab_report. rewrite (@vget_nth _ _ a 0) by (rewrite (a_ld K); auto). cbn [bind].
    assert (WO : forall i, i < length (names_of data) -> vget (names_of data) i = Ok (who_of i)) by (intros i L; now apply vget_nth).
    assert (TI : forall i, i < length (titles_of data) -> vget (titles_of data) i = Ok (what_of i)) by (intros i L; now apply vget_nth).
    destruct (@both_number g b acts E) as (BA & BB & BD).
    destruct (in_dec Nat.eq_dec a (b :: map snd (map fst T))) as [I|I].
    - assert (R : reachable g b a) by (now apply (proj1 (proj2 (proj1 TR)))). apply dist_reach in R. destruct R as [d D]. rewrite (a_dist K (x := a) (d := d)); auto; [|destruct I; auto].
      destruct (@tab_path_ok g b T t (vget (names_of data)) (vget (titles_of data)) who_of what_of acts (a_lp K) (a_lt K) (a_tree K) TR TO) with (d := d) (d' := d + c) (v := a) as (rows & EP & LL & TL); auto; [|lia|].
      { intros u v k J. destruct (IT _ _ _ J) as (A1 & A2 & A3). destruct (acts_lt A1) as [B1 B2]. destruct (acts_lt A2) as [_ B3]. split; auto. split; auto. split; auto. split; [apply E; exists k; auto|]. split; [now apply WO|]. split; [now apply WO|now apply TI]. }
      rewrite EP. cbn [bind]. exists (d + c), rows. split; auto. left. rewrite Nat.add_sub. split; [now apply BD|]. split; [lia|auto].
    - destruct (a_none K (x := a)) as (Z1 & Z2 & Z3); [intros ->; apply I; now left|intros J; apply I; now right|]. rewrite Z1. cbn [tab_path]. destruct (Nat.eqb_spec a b) as [->|N]; [destruct I; now left|].
      rewrite WO by auto. cbn [bind]. rewrite (@vget_nth _ _ a 0) by (rewrite (a_lp K); auto). cbn [bind]. rewrite Z2, WO by (destruct (names_of data); [congruence|cbn; lia]). cbn [bind].
      rewrite (@vget_nth _ _ a 0) by (rewrite (a_lt K); auto). cbn [bind]. rewrite Z3, TI by (destruct (titles_of data); [congruence|cbn; lia]). cbn [bind].
      exists 0, [((a, 0), 0)]. split; auto. right. split; auto. intros n X. apply I. apply (proj1 (proj2 (proj1 TR))). exists n. now apply BA.
  Qed.
  Variables (srt : list (nat * (nat * unit)) -> list (nat * (nat * unit))) (srt2 : list (nat * (nat * nat)) -> list (nat * (nat * nat))) (srt1 : list nat -> list nat).
  Hypothesis HS : is_sort_by fst srt.
  Hypothesis HS2 : is_sort_by fst srt2.
  (** The answers to [asked], measured from [hero]. *)
  Definition answers (hero : string) (asked : list string) (c : nat) (out : list (string * nat * list (string * string * string))) : Prop :=
    Forall2 (fun q r => exists d rows, r = ((q, d), map (words who_of what_of) rows) /\ told_off acts c (no_of (names_of data) hero) (no_of (names_of data) q) d rows) asked out.
  Lemma asked_ok s hero : pairs_of data <> [] -> dbuilt W s (map fst data) (pairs_of data) ->
    exists t c, dbl_search W srt srt2 srt1 (d_edges s) (dat (d_nmap s) hero) = Ok t /\ c <= 1 /\ ((forall v, ~ co acts (no_of (names_of data) hero) v) -> c = 1) /\
      forall asked, exists out, rmap (dbl_ask s t (dat (d_nmap s) hero)) asked = Ok out /\ answers hero asked c out.
  Proof.
    intros NP B. destruct (built_eq B) as (B1 & B2 & B3 & B4 & B5). destruct (names_some NP) as [NN NT]. rewrite B3, B5. set (b := no_of (names_of data) hero).
    assert (Lb := no_of_lt hero NN (names_nodup data)). fold b in Lb. destruct (wrote_some Lb) as [k0 A0].
    destruct (@search_all W srt srt2 srt1 es b HS HS2 ltac:(lia) es_ids) as (t & g & T & c & E & C1 & CA & K & TR & TO & LG & EE & BU & IT). { now rewrite es_same. } { exists k0. now apply es_acted. }
    exists t, c. split; auto. split; auto. split.
    { intros N. apply CA. intros v (k & X & Y). destruct (Nat.eq_dec v b) as [|D]; auto. destruct (N v). exists k. split; [now apply es_acted|]. split; [now apply es_acted|auto]. }
    assert (E1 : forall u v, edge g u v <-> exists k, acts k u /\ acts k v).
    { intros u v. rewrite EE. unfold both. split; intros (k & X & Y); exists k; split; now apply es_acted. }
    induction asked as [|q asked (out & EO & IH)]; [exists []; split; [reflexivity|constructor]|].
    assert (Lq := no_of_lt q NN (names_nodup data)). destruct (wrote_some Lq) as [k1 A1].
    destruct (@report_ok g T t c b (no_of (names_of data) q)) as (d & rows & ER & TD); auto.
    { intros u v k I. destruct (IT _ _ _ I) as (X & Y & Z). split; [now apply es_acted|]. split; [now apply es_acted|auto]. } { apply (BU _ k1). now apply es_acted. }
    cbn [rmap]. unfold dbl_ask at 1. rewrite B1, B2, B5, ER. cbn [bind fst snd]. rewrite EO. cbn [bind]. eexists. split; [reflexivity|]. constructor; [|exact IH]. exists d, rows. auto.
  Qed.
  Lemma dblp_ok hero asked : pairs_of data <> [] -> exists n out c, dblp W srt srt2 srt1 hero data asked = Ok ([], n, out) /\ nth_error (names_of data) (no_of (names_of data) hero) = Some n /\
    c <= 1 /\ ((forall v, ~ co acts (no_of (names_of data) hero) v) -> c = 1) /\ answers hero (n :: asked) c out.
  Proof.
    intros NP. destruct (names_some NP) as [NN NT]. unfold dblp. destruct (build_ok W data) as (s & E & B). rewrite E. cbn [bind]. destruct (built_eq B) as (B1 & B2 & B3 & B4 & B5).
    destruct (asked_ok hero NP B) as (t & c & ES & C1 & CA & EA). rewrite ES. cbn [bind]. rewrite B2, B5. assert (Lb := no_of_lt hero NN (names_nodup data)).
    rewrite (@vget_nth _ _ _ ""%string) by auto. cbn [bind]. set (n := nth _ (names_of data) ""%string). destruct (EA (n :: asked)) as (out & EO & AO). rewrite B5 in EO. rewrite EO, B4. cbn [bind].
    exists n, out, c. split; auto. split; auto. now apply nth_error_nth'.
  Qed.
  Lemma dblp_none hero asked : pairs_of data = [] -> dblp W srt srt2 srt1 hero data asked = Ub.
  Proof.
    intros NP. unfold dblp. destruct (build_ok W data) as (s & E & B). rewrite E. cbn [bind]. destruct (built_eq B) as (B1 & B2 & B3 & B4 & B5). rewrite B3. unfold es. rewrite NP. cbn [map].
    rewrite search_none; auto. lia.
  Qed.
End Main.
Lemma oracle_dblp_ok W M srt srt2 srt1 movies articles asked : is_sort_by fst srt -> is_sort_by fst srt2 ->
  let data := map (fun m => (fst m, map (delink M) (snd m))) movies ++ articles in
  length (titles_of data) < W -> length (names_of data) < W -> 2 * length (same_title data) < W -> pairs_of data <> [] ->
  exists out c, oracle_dblp W M srt srt2 srt1 movies articles asked = Ok out /\ c <= 1 /\ ((forall v, ~ co (wrote data) (no_of (names_of data) "Kevin Bacon"%string) v) -> c = 1) /\
    answers data "Kevin Bacon"%string ("Kevin Bacon"%string :: asked) c out.
Proof.
  intros HS HS2 data LT LN SM NP. unfold oracle_dblp. fold data. destruct (build_ok W data) as (s & E & B). rewrite E. cbn [bind].
  destruct (@asked_ok W data LT LN SM srt srt2 srt1 HS HS2 s "Kevin Bacon"%string NP B) as (t & c & ES & C1 & CA & EA). rewrite ES. cbn [bind].
  destruct (EA ("Kevin Bacon"%string :: asked)) as (out & EO & AO). rewrite EO. exists out, c. auto.
Qed.
