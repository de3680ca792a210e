From Coq Require Import List Arith ZArith Lia Bool Permutation Sorted.
From Verif Require Import Base ConnLib DsuModel DsuProofs KruskalModel.
Import ListNotations.
Set Implicit Arguments.

(** * Number of components through roots of a representing forest *)
Definition roots (n : nat) (p : nat -> nat) : list nat := filter (fun v => p v =? v) (seq 0 n).

Lemma in_roots n p v : In v (roots n p) <-> v < n /\ p v = v.
Proof. unfold roots. rewrite filter_In, in_seq, Nat.eqb_eq. split; intros [H1 H2]; split; auto; lia. Qed.

Lemma roots_le n p q es fs : represents n p es -> represents n q fs ->
  (forall u v, u < n -> v < n -> conn es u v -> conn fs u v) -> length (roots n q) <= length (roots n p).
Proof.
  intros RP RQ H. destruct (root_fun_exists (proj1 RP)) as [rt HR].
  rewrite <- (map_length rt (roots n q)). apply NoDup_incl_length.
  - assert (ND : NoDup (roots n q)) by (apply NoDup_filter, seq_NoDup).
    assert (SUB : forall x, In x (roots n q) -> In x (roots n q)) by auto.
    revert ND SUB. generalize (roots n q) at 1 2 4. intros l. induction l as [|x l IH]; intros ND SUB; simpl; constructor.
    + intros I. apply in_map_iff in I. destruct I as (y & E & Iy). inversion ND; subst.
      assert (x = y); [|congruence].
      destruct (proj1 (in_roots n q x) (SUB x (or_introl eq_refl))) as [Hx Qx].
      destruct (proj1 (in_roots n q y) (SUB y (or_intror Iy))) as [Hy Qy].
      destruct (HR x Hx) as [kx Kx], (HR y Hy) as [ky Ky].
      assert (C : conn es x y) by (apply (proj2 RP x y _ _ _ _ Hx Hy Kx Ky); auto).
      apply H in C; auto. assert (Ux : up q 0 x x) by now constructor. assert (Uy : up q 0 y y) by now constructor.
      now apply (proj2 RQ x y _ _ _ _ Hx Hy Ux Uy).
    + apply IH; [now inversion ND|]. intros y Iy. apply SUB. now right.
  - intros y I. apply in_map_iff in I. destruct I as (x & E & Ix). apply in_roots in Ix. destruct Ix as [Hx Qx].
    destruct (HR x Hx) as [k K]. apply in_roots. rewrite <- E. split.
    + eapply up_end_lt; [apply RP|exact K|auto].
    + eapply up_end; eauto.
Qed.

Definition set_par (p : nat -> nat) (a b : nat) : nat -> nat := fun x => if x =? a then b else p x.
Lemma roots_set_par n p a b : a < n -> p a = a -> a <> b -> S (length (roots n (set_par p a b))) = length (roots n p).
Proof.
  intros Ha Pa NE. unfold roots, set_par.
  replace n with (a + S (n - S a)) by lia. rewrite seq_app. simpl. rewrite !filter_app. simpl.
  rewrite Nat.eqb_refl. destruct (Nat.eqb_spec b a); [congruence|]. rewrite Pa, Nat.eqb_refl.
  rewrite !app_length. simpl. rewrite Nat.add_succ_r. f_equal. f_equal.
  - f_equal. apply filter_ext_in. intros x I. apply in_seq in I. destruct (Nat.eqb_spec x a); [lia|auto].
  - f_equal. apply filter_ext_in. intros x I. apply in_seq in I. destruct (Nat.eqb_spec x a); [lia|auto].
Qed.

(** Connectivity is decidable below n, and adding an edge lowers the root count by one exactly when it joins. *)
Lemma add_edge n p es u v : represents n p es -> u < n -> v < n ->
  exists p', represents n p' (es ++ [(u, v)]) /\
    ((conn es u v /\ length (roots n p') = length (roots n p)) \/ (~ conn es u v /\ S (length (roots n p')) = length (roots n p))).
Proof.
  intros RP Hu Hv. assert (F := proj1 RP). destruct F as [C F]. destruct (F u Hu) as (ku & a & U), (F v Hv) as (kv & b & V).
  assert (CN := proj2 RP u v _ _ _ _ Hu Hv U V). destruct (Nat.eq_dec a b) as [->|NE].
  - exists p. split; [eapply represents_noop; eauto|]. left. split; auto. now apply CN.
  - exists (set_par p a b). split.
    + apply (@represents_link n p (set_par p a b) es u v a b); auto.
      * left. eauto.
      * unfold set_par. now rewrite Nat.eqb_refl.
      * intros y Ny. unfold set_par. now rewrite (proj2 (Nat.eqb_neq y a) Ny).
    + right. split; [intros H; apply CN in H; auto|]. apply roots_set_par; auto.
      * eapply up_end_lt; eauto.
      * eapply up_end; eauto.
Qed.

Definition below (n : nat) (es : list (nat * nat)) : Prop := forall u v, In (u, v) es -> u < n /\ v < n.

(** Every edge joins two classes of the edges before it. *)
Definition grows (es : list (nat * nat)) : Prop := forall A u v B, es = A ++ (u, v) :: B -> ~ conn A u v.

Lemma grows_prefix A B : grows (A ++ B) -> grows A.
Proof. intros G A1 u v B1 E. apply (G A1 u v (B1 ++ B)). rewrite E, <- app_assoc. reflexivity. Qed.

Lemma forest_of n es : below n es -> exists p, represents n p es /\ n <= length (roots n p) + length es /\
  (grows es -> length (roots n p) + length es = n).
Proof.
  induction es as [|[u v] es IH] using rev_ind; intros H.
  - exists (fun x => x). split; [apply represents_singletons; auto|].
    assert (E : roots n (fun x => x) = seq 0 n) by (apply filter_all; intros; apply Nat.eqb_refl).
    rewrite E, seq_length. simpl. lia.
  - destruct IH as (p & RP & L & G). { intros a b I. apply H. apply in_or_app. now left. }
    destruct (H u v) as [Hu Hv]; [apply in_or_app; right; now left|].
    destruct (add_edge RP Hu Hv) as (p' & RP' & [[C E]|[C E]]); exists p'; (split; [auto|]); rewrite app_length; simpl.
    + split; [lia|]. intros GR. exfalso. apply (GR es u v []); auto.
    + split; [lia|]. intros GR. assert (G' := G (grows_prefix _ GR)). lia.
Qed.

Lemma represents_dec n p es u v : represents n p es -> u < n -> v < n -> conn es u v \/ ~ conn es u v.
Proof.
  intros RP Hu Hv. assert (F := proj1 RP). destruct F as [C F]. destruct (F u Hu) as (ku & a & U), (F v Hv) as (kv & b & V).
  rewrite <- (proj2 RP u v _ _ _ _ Hu Hv U V). destruct (Nat.eq_dec a b); auto.
Qed.

(** Acyclic: no edge's endpoints are connected by the other edges. *)
Definition acyclic (es : list (nat * nat)) : Prop := forall A u v B, es = A ++ (u, v) :: B -> ~ conn (A ++ B) u v.
Lemma acyclic_grows es : acyclic es -> grows es.
Proof. intros H A u v B E C. apply (H A u v B E). eapply conn_incl; [|exact C]. intros x I. apply in_or_app. now left. Qed.
Lemma grows_acyclic n es : below n es -> grows es -> acyclic es.
Proof.
  intros HB G A u v B -> C.
  destruct (forest_of HB) as (p & RP & L & K). specialize (K G).
  assert (HB' : below n (A ++ B)).
  { intros x y I. apply HB. apply in_app_or in I. apply in_or_app. destruct I; [now left|right; now right]. }
  destruct (forest_of HB') as (q & RQ & L' & _).
  assert (LE : length (roots n q) <= length (roots n p)).
  { apply (roots_le RP RQ). intros x y _ _. apply conn_mono. intros a b I. apply in_app_or in I. destruct I as [I|[I|I]].
    - apply conn_edge, in_or_app. now left.
    - injection I as <- <-. exact C.
    - apply conn_edge, in_or_app. now right. }
  rewrite app_length in *. simpl in *. lia.
Qed.

(** The size of a forest is at most that of anything connecting as much. *)
Lemma forest_size n es fs : below n es -> below n fs -> acyclic es ->
  (forall u v, u < n -> v < n -> conn es u v -> conn fs u v) -> length es <= length fs.
Proof.
  intros H1 H2 A H. destruct (forest_of H1) as (p & RP & _ & K). destruct (forest_of H2) as (q & RQ & L & _).
  specialize (K (acyclic_grows A)). assert (LE := roots_le RP RQ H). lia.
Qed.

(** * Weights *)
Definition zsum (l : list Z) : Z := fold_right Z.add 0%Z l.
Definition cnt_le (t : Z) (l : list Z) : nat := length (filter (fun x => (x <=? t)%Z) l).
Lemma zsum_perm l l' : Permutation l l' -> zsum l = zsum l'.
Proof. unfold zsum. induction 1; simpl; try lia. Qed.
Lemma cnt_le_perm t l l' : Permutation l l' -> cnt_le t l = cnt_le t l'.
Proof. intros P. unfold cnt_le. apply Permutation_length, Permutation_filter, P. Qed.
Lemma cnt_le_bound t l : cnt_le t l <= length l.
Proof. unfold cnt_le. induction l; simpl; auto. destruct (_ <=? _)%Z; simpl; lia. Qed.
Lemma cnt_le_all t l : (forall x, In x l -> (x <= t)%Z) -> cnt_le t l = length l.
Proof. intros H. unfold cnt_le. rewrite filter_all; auto. intros x I. apply Z.leb_le; auto. Qed.
Lemma cnt_le_full t l : cnt_le t l = length l -> forall x, In x l -> (x <= t)%Z.
Proof.
  unfold cnt_le. induction l as [|y l IH]; simpl; intros E x I; [contradiction|].
  assert (B := cnt_le_bound t l). unfold cnt_le in B. destruct (Z.leb_spec y t); simpl in E; [|lia].
  destruct I as [->|I]; auto.
Qed.
Lemma take_max l : l <> [] -> exists m r, Permutation l (m :: r) /\ forall x, In x l -> (x <= m)%Z.
Proof.
  induction l as [|y l IH]; intros H; [congruence|]. destruct l as [|z l].
  - exists y, []. split; auto. intros x [->|[]]. lia.
  - destruct IH as (m & r & P & M); [discriminate|]. destruct (Z.le_gt_cases y m).
    + exists m, (y :: r). split; [|intros x [->|I]; auto].
      transitivity (y :: m :: r); [now constructor|apply perm_swap].
    + exists y, (z :: l). split; auto. intros x [->|I]; [lia|]. specialize (M x I). lia.
Qed.
Lemma zsum_dom : forall n a b, length a = n -> length b = n -> (forall t, cnt_le t b <= cnt_le t a) -> (zsum a <= zsum b)%Z.
Proof.
  induction n; intros a b La Lb H.
  - destruct a; [|discriminate]. destruct b; [|discriminate]. lia.
  - destruct (@take_max a) as (ma & ra & Pa & Ma); [now destruct a|]. destruct (@take_max b) as (mb & rb & Pb & Mb); [now destruct b|].
    assert (La' : length ra = n) by (apply Permutation_length in Pa; simpl in Pa; lia).
    assert (Lb' : length rb = n) by (apply Permutation_length in Pb; simpl in Pb; lia).
    assert (LE : (ma <= mb)%Z).
    { apply (@cnt_le_full mb a); [|apply Permutation_in with (ma :: ra); [now symmetry|now left]].
      assert (X := H mb). rewrite (@cnt_le_all mb b Mb) in X. assert (Y := cnt_le_bound mb a). lia. }
    rewrite (zsum_perm Pa), (zsum_perm Pb). simpl. assert (zsum ra <= zsum rb)%Z; [|unfold zsum in *; lia].
    apply IHn; auto. intros t. specialize (H t). rewrite (cnt_le_perm t Pa), (cnt_le_perm t Pb) in H.
    assert (AL : (ma <= t)%Z -> cnt_le t rb <= cnt_le t ra).
    { intros. rewrite (@cnt_le_all t ra). { assert (Y := cnt_le_bound t rb). lia. }
      intros x I. assert (x <= ma)%Z; [|lia]. apply Ma. apply Permutation_in with (ma :: ra); [now symmetry|now right]. }
    destruct (Z.le_gt_cases ma t) as [|G]; auto. unfold cnt_le in *. simpl in H.
    rewrite (proj2 (Z.leb_gt mb t)), (proj2 (Z.leb_gt ma t)) in H by lia. exact H.
Qed.

(** * The algorithm *)
Definition ends (es : list wedge) : list (nat * nat) := map fst es.
Definition wbelow (n : nat) (es : list wedge) : Prop := forall e, In e es -> w_src e < n /\ w_tgt e < n.
Lemma wbelow_ends n es : wbelow n es -> below n (ends es).
Proof. intros H u v I. apply in_map_iff in I. destruct I as ([[a b] w] & E & I). simpl in E. injection E as -> ->. apply (H _ I). Qed.

(** T as chosen from the prefix P. *)
Record kinv (n : nat) (P T : list wedge) (s : dsu) : Prop := {
  k_len : length s = n;
  k_rep : represents n (dp s) (ends P);
  k_conn : forall u v, conn (ends T) u v <-> conn (ends P) u v;
  k_grow : grows (ends T);
  k_sub : exists R, Permutation (T ++ R) P
}.

Lemma ends_app a b : ends (a ++ b) = ends a ++ ends b.
Proof. apply map_app. Qed.
Lemma ends_length (l : list wedge) : length (ends l) = length l.
Proof. apply map_length. Qed.
Lemma grows_snoc es u v : grows es -> ~ conn es u v -> grows (es ++ [(u, v)]).
Proof.
  intros G C A a b B E. destruct B as [|x B] using rev_ind.
  - apply app_inj_tail in E. destruct E as [<- E]. injection E as <- <-. exact C.
  - clear IHB. assert (E' : es ++ [(u, v)] = (A ++ (a, b) :: B) ++ [x]) by (rewrite E, <- app_assoc; reflexivity).
    apply app_inj_tail in E'. destruct E' as [E' _]. now apply (G A a b B).
Qed.

Lemma kruskal_step_ok n P T s y : kinv n P T s -> w_src y < n -> w_tgt y < n ->
  exists s' T', kruskal_step (s, T) y = Ok (s', T') /\ kinv n (P ++ [y]) T' s'.
Proof.
  intros [L R C G [Q S]] Hu Hv. unfold kruskal_step. cbn [fst snd].
  destruct (disjoint_union_find_ok L R Hu Hv) as (b & s' & E & L' & R' & B). rewrite E. cbn [bind fst snd].
  assert (EQ : ends (P ++ [y]) = ends P ++ [(w_src y, w_tgt y)]).
  { rewrite ends_app. destruct y as [[a c] w]. reflexivity. }
  exists s', (if b then T ++ [y] else T). split; auto. constructor; auto.
  - now rewrite EQ.
  - intros u v. rewrite EQ. destruct b.
    + rewrite ends_app. simpl. rewrite (surjective_pairing (fst y)). fold (w_src y) (w_tgt y). rewrite !conn_snoc, !C. reflexivity.
    + assert (D : conn (ends P) (w_src y) (w_tgt y)).
      { destruct (represents_dec R Hu Hv) as [D|D]; auto. apply B in D. discriminate. }
      rewrite C, conn_snoc. split; [now left|]. intros [H|[[H1 H2]|[H1 H2]]]; auto.
      * apply conn_trans with (w_src y); auto. now apply conn_trans with (w_tgt y).
      * apply conn_trans with (w_tgt y); auto. apply conn_trans with (w_src y); auto. now apply conn_sym.
  - destruct b; auto. rewrite ends_app. simpl. rewrite (surjective_pairing (fst y)). apply grows_snoc; auto.
    rewrite C. now apply B.
  - destruct b.
    + exists Q. rewrite <- app_assoc. simpl. transitivity (y :: (T ++ Q)); [symmetry; apply Permutation_middle|].
      transitivity (y :: P); [now constructor|]. apply Permutation_cons_append.
    + exists (Q ++ [y]). rewrite app_assoc. now apply Permutation_app_tail.
Qed.

Lemma kruskal_loop_ok n l : forall P T s, kinv n P T s -> wbelow n l ->
  exists s' T', rfold kruskal_step l (s, T) = Ok (s', T') /\ kinv n (P ++ l) T' s' /\ exists T2, T' = T ++ T2 /\ incl T2 l.
Proof.
  induction l as [|y l IH]; intros P T s K H.
  - exists s, T. rewrite app_nil_r. split; auto. split; auto. exists []. rewrite app_nil_r. split; auto. apply incl_refl.
  - destruct (H y (or_introl eq_refl)) as [Hu Hv]. destruct (kruskal_step_ok y K Hu Hv) as (s1 & T1 & E1 & K1).
    cbn [rfold]. rewrite E1. cbn [bind]. destruct (IH _ _ _ K1) as (s2 & T2 & E2 & K2 & T3 & -> & I3); [intros e I; apply H; now right|].
    exists s2, (T1 ++ T3). split; auto. split; [now rewrite <- app_assoc in K2|].
    unfold kruskal_step in E1. cbn [fst snd] in E1. destruct (disjoint_union_find s (w_src y) (w_tgt y)) as [[b s3]| |]; try discriminate.
    cbn [bind fst snd] in E1. injection E1 as _ <-. destruct b.
    + exists (y :: T3). rewrite <- app_assoc. split; auto. intros e [->|I]; [now left|right; auto].
    + exists T3. split; auto. intros e I. right; auto.
Qed.

Lemma kinv_init n : kinv n [] [] (dsu_init n).
Proof.
  destruct (dsu_init_represents n). constructor; auto; try tauto.
  - intros A u v B E. destruct A; discriminate.
  - exists []. constructor.
Qed.

Lemma sorted_threshold (l : list wedge) t : StronglySorted (fun a b => w_lt b a = false) l ->
  exists A B, l = A ++ B /\ (forall e, In e A -> (w_wt e <= t)%Z) /\ (forall e, In e B -> (t < w_wt e)%Z).
Proof.
  induction 1 as [|x l S (A & B & -> & HA & HB) F].
  - exists [], []. split; auto. split; intros e [].
  - destruct (Z.le_gt_cases (w_wt x) t).
    + exists (x :: A), B. split; auto. split; auto. intros e [<-|I]; auto.
    + exists [], (x :: A ++ B). split; auto. split; [intros e []|]. intros e [<-|I]; [assumption|].
      rewrite Forall_forall in F. specialize (F e I). unfold w_lt in F. apply Z.ltb_ge in F. lia.
Qed.

Definition wle (t : Z) (e : wedge) : bool := (w_wt e <=? t)%Z.
Lemma cnt_le_wt t l : cnt_le t (map w_wt l) = length (filter (wle t) l).
Proof. unfold cnt_le, wle. induction l; simpl; auto. destruct (_ <=? _)%Z; simpl; auto. Qed.

Lemma filter_split (A : Type) (f : A -> bool) l : forall A1 e B1, filter f l = A1 ++ e :: B1 ->
  exists A0 B0, l = A0 ++ e :: B0 /\ A1 = filter f A0 /\ B1 = filter f B0.
Proof.
  induction l as [|x l IH]; intros A1 e B1 E; simpl in E; [destruct A1; discriminate|].
  destruct (f x) eqn:Fx.
  - destruct A1 as [|a A1]; simpl in E; injection E as -> E.
    + exists [], l. simpl. auto.
    + destruct (IH _ _ _ E) as (A0 & B0 & -> & -> & ->). exists (a :: A0), B0. simpl. rewrite Fx. auto.
  - destruct (IH _ _ _ E) as (A0 & B0 & -> & -> & ->). exists (x :: A0), B0. simpl. rewrite Fx. auto.
Qed.
Lemma map_split (A C : Type) (f : A -> C) l : forall A1 c B1, map f l = A1 ++ c :: B1 ->
  exists A0 e B0, l = A0 ++ e :: B0 /\ A1 = map f A0 /\ c = f e /\ B1 = map f B0.
Proof.
  induction l as [|x l IH]; intros A1 c B1 E; simpl in E; [destruct A1; discriminate|].
  destruct A1 as [|a A1]; simpl in E; injection E as <- E.
  - exists [], x, l. simpl. auto.
  - destruct (IH _ _ _ E) as (A0 & e & B0 & -> & -> & -> & ->). exists (x :: A0), e, B0. auto.
Qed.
Lemma acyclic_filter f (l : list wedge) : acyclic (ends l) -> acyclic (ends (filter f l)).
Proof.
  intros H A u v B E. apply map_split in E. destruct E as (A0 & e & B0 & E & -> & Ee & ->).
  apply filter_split in E. destruct E as (A1 & B1 & -> & -> & ->). intros C.
  apply (H (ends A1) u v (ends B1)).
  - rewrite ends_app. simpl. now rewrite Ee.
  - eapply conn_incl; [|exact C]. intros x I. apply in_app_or in I. apply in_or_app.
    destruct I as [I|I]; [left|right]; apply in_map_iff in I; destruct I as (y & <- & I); apply filter_In in I; apply in_map; tauto.
Qed.

Lemma kruskal_ok srt E : is_sort_lt w_lt srt -> wbelow (length E) E ->
  exists T s, kruskal srt E = Ok (srt E, T) /\ kinv (length E) (srt E) T s /\
    forall t u v, conn (ends (filter (wle t) (srt E))) u v -> conn (ends (filter (wle t) T)) u v.
Proof.
  intros HS HB. destruct (HS E) as [P S]. set (n := length E) in *.
  assert (HB' : wbelow n (srt E)) by (intros e I; apply HB; apply Permutation_in with (srt E); auto; now symmetry).
  destruct (kruskal_loop_ok (kinv_init n) HB') as (s & T & ER & K & _). simpl in K.
  exists T, s. unfold kruskal. fold n. rewrite ER. cbn [bind snd]. split; auto. split; auto.
  intros t. destruct (sorted_threshold t S) as (A & B & EQ & HA & HBt).
  rewrite EQ in *. assert (FA : filter (wle t) A = A) by (apply filter_all; intros e I; apply Z.leb_le; auto).
  assert (FB : filter (wle t) B = []) by (apply filter_none; intros e I; apply Z.leb_gt; auto).
  assert (HBA : wbelow n A) by (intros e I; apply HB'; apply in_or_app; now left).
  assert (HBB : wbelow n B) by (intros e I; apply HB'; apply in_or_app; now right).
  destruct (kruskal_loop_ok (kinv_init n) HBA) as (s1 & T1 & E1 & K1 & _). simpl in K1.
  rewrite rfold_app, E1 in ER. cbn [bind] in ER.
  destruct (kruskal_loop_ok K1 HBB) as (s2 & T2 & E2 & K2 & T3 & -> & I3). rewrite E2 in ER. injection ER as -> <-.
  intros u v. rewrite filter_app, FA, FB, app_nil_r. intros C. rewrite filter_app.
  destruct K1 as [_ _ CK _ [R1 PR]]. rewrite (filter_all (wle t) T1).
  2:{ intros e I. apply Z.leb_le, HA. apply Permutation_in with (T1 ++ R1); auto. apply in_or_app. now left. }
  rewrite (filter_none (wle t) T3).
  2:{ intros e I. apply Z.leb_gt, HBt, I3, I. }
  rewrite app_nil_r. now apply CK.
Qed.

Lemma kruskal_min n E T F s : wbelow n E -> kinv n E T s ->
  (forall t u v, conn (ends (filter (wle t) E)) u v -> conn (ends (filter (wle t) T)) u v) ->
  incl F E -> acyclic (ends F) -> (forall u v, conn (ends E) u v -> conn (ends F) u v) ->
  (zsum (map w_wt T) <= zsum (map w_wt F))%Z.
Proof.
  intros HB [L R C G [Q PQ]] HT IF AF CF.
  assert (BT : wbelow n T) by (intros e I; apply HB; apply Permutation_in with (T ++ Q); auto; apply in_or_app; now left).
  assert (BF : wbelow n F) by (intros e I; apply HB; auto).
  assert (AT : acyclic (ends T)) by (apply grows_acyclic with n; auto using wbelow_ends).
  assert (SUBF : forall u v, conn (ends F) u v -> conn (ends E) u v).
  { intros u v. apply conn_incl. intros e I. apply in_map_iff in I. destruct I as (x & <- & I). apply in_map. auto. }
  assert (L1 : length (ends F) <= length (ends T)).
  { apply forest_size with n; auto using wbelow_ends. intros u v _ _ H. apply C. auto. }
  assert (L2 : length (ends T) <= length (ends F)).
  { apply forest_size with n; auto using wbelow_ends. intros u v _ _ H. apply CF. now apply C. }
  rewrite !ends_length in *.
  apply zsum_dom with (length T); [apply map_length|rewrite map_length; now apply Nat.le_antisymm|].
  intros t. rewrite !cnt_le_wt. 
  rewrite <- !ends_length. apply forest_size with n.
  - apply wbelow_ends. intros e I. apply filter_In in I. apply BF. tauto.
  - apply wbelow_ends. intros e I. apply filter_In in I. apply BT. tauto.
  - now apply acyclic_filter.
  - intros u v _ _ H. apply HT. eapply conn_incl; [|exact H]. intros e I. apply in_map_iff in I.
    destruct I as (x & <- & I). apply filter_In in I. apply in_map. apply filter_In. split; [apply IF|]; tauto.
Qed.

(** Every edge set contains an acyclic subset with the same connectivity. *)
Lemma spanning_subset n F : wbelow n F -> exists H R, Permutation (H ++ R) F /\ acyclic (ends H) /\ forall u v, conn (ends H) u v <-> conn (ends F) u v.
Proof.
  intros HB. destruct (kruskal_loop_ok (kinv_init n) HB) as (s & T & ER & [L R C G [Q PQ]] & _). simpl in *.
  exists T, Q. split; auto. split; auto. apply grows_acyclic with n; auto. apply wbelow_ends. intros e I. apply HB.
  apply Permutation_in with (T ++ Q); auto. apply in_or_app. now left.
Qed.

Lemma kruskal_oob srt E : is_sort_lt w_lt srt -> (exists e, In e E /\ (length E <= w_src e \/ length E <= w_tgt e)) ->
  kruskal srt E = Ub.
Proof.
  intros HS (e & I & H). destruct (HS E) as [P _]. unfold kruskal. set (n := length E) in *.
  assert (I' : In e (srt E)) by (apply Permutation_in with E; auto).
  assert (G : forall l P T s, kinv n P T s -> In e l -> rfold kruskal_step l (s, T) = Ub).
  { clear - H. induction l as [|y l IH]; intros P T s K I; [destruct I|].
    cbn [rfold]. destruct (Nat.lt_ge_cases (w_src y) n) as [Hu|Hu].
    - destruct (Nat.lt_ge_cases (w_tgt y) n) as [Hv|Hv].
      + destruct (kruskal_step_ok y K Hu Hv) as (s1 & T1 & E1 & K1). rewrite E1. cbn [bind]. apply IH with (P ++ [y]); auto.
        destruct I as [->|I]; auto. lia.
      + unfold kruskal_step, disjoint_union_find. cbn [fst snd]. destruct K as [L R _ _ _].
        destruct (disjoint_find_ok L R Hu) as (a & s1 & E1 & L1 & _). rewrite E1. cbn [bind].
        unfold disjoint_find, dsu_first. rewrite (vget_ge s1) by lia. reflexivity.
    - unfold kruskal_step, disjoint_union_find. cbn [fst snd]. destruct K as [L R _ _ _].
      unfold disjoint_find at 1, dsu_first. rewrite (vget_ge s) by lia. reflexivity. }
  rewrite (G (srt E) [] [] (dsu_init n)); auto using kinv_init.
Qed.
