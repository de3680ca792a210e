(** Proofs about the sparse matrix-vector and degree benchmarks (apb/spmv.cpp, exec.cpp, plain.cpp, tbb.cpp). *)
From Coq Require Import List Arith ZArith Lia Bool Permutation.
From Verif Require Import EdgeListModel CsrModel EdgeListProofs CsrProofs CsrProofs2 CsrProofs3 CsrProofs4 CsrProperties CbProofs RangeModel RangeProofs RangeProperties ApbModel ApbProofs SpmModel Base GraphLib.
Import ListNotations.
Set Implicit Arguments.

(** ** Loops *)
Lemma rfold_flat S I X (f : S -> X -> res S) (h : I -> list X) : forall l s, rfold (fun s i => rfold f (h i) s) l s = rfold f (flat_map h l) s.
Proof. induction l as [|i l IH]; intros s; cbn [rfold flat_map]; auto. rewrite rfold_app. destruct (rfold f (h i) s); cbn [bind]; auto. Qed.
Lemma rfold_map S I X (f : S -> X -> res S) (h : I -> X) : forall l s, rfold (fun s i => f s (h i)) l s = rfold f (map h l) s.
Proof. induction l as [|i l IH]; intros s; cbn [rfold map]; auto. destruct (f s (h i)); cbn [bind]; auto. Qed.
Lemma rfold_ext_in S X (f h : S -> X -> res S) : forall l s, (forall s x, In x l -> f s x = h s x) -> rfold f l s = rfold h l s.
Proof.
  induction l as [|x l IH]; intros s H; cbn [rfold]; auto. rewrite H by now left. destruct (h s x); cbn [bind]; auto. apply IH. intros; apply H; now right.
Qed.
Lemma rfold_const S X Y (f : S -> res S) : forall (l : list X) (l' : list Y) s, length l = length l' -> rfold (fun s _ => f s) l s = rfold (fun s _ => f s) l' s.
Proof. induction l as [|x l IH]; intros [|y l'] s E; cbn in E; try discriminate; cbn [rfold]; auto. destruct (f s); cbn [bind]; auto. Qed.

(** A loop over positions against a loop over the slices. *)
Lemma skipn_cons A (l : list A) k : k < length l -> exists x, nth_error l k = Some x /\ skipn k l = x :: skipn (S k) l.
Proof.
  revert k. induction l as [|y l IH]; intros [|k] L; cbn in L; try lia; [exists y; auto|]. destruct (IH k ltac:(lia)) as (x & E & F). exists x. auto.
Qed.
Lemma rfold_slices S T V (f : S -> T -> V -> res S) (t : list T) (a : list V) : forall n lo s, lo + n <= length t -> lo + n <= length a ->
  rfold (fun s j => do c <- vget t j ; do d <- vget a j ; f s c d) (seq lo n) s =
  rfold (fun s e => f s (fst e) (snd e)) (combine (firstn n (skipn lo t)) (firstn n (skipn lo a))) s.
Proof.
  induction n; intros lo s L1 L2; cbn [seq rfold]; auto.
  destruct (@skipn_cons _ t lo ltac:(lia)) as (c & E1 & F1). destruct (@skipn_cons _ a lo ltac:(lia)) as (d & E2 & F2).
  rewrite F1, F2. cbn [firstn combine rfold fst snd]. unfold vget at 1 2. rewrite E1, E2. cbn [bind].
  destruct (f s c d) as [s'| |]; cbn [bind]; auto. apply IHn; lia.
Qed.
Lemma rfold_slice S T (f : S -> T -> res S) (t : list T) : forall n lo s, lo + n <= length t ->
  rfold (fun s j => do c <- vget t j ; f s c) (seq lo n) s = rfold f (firstn n (skipn lo t)) s.
Proof.
  induction n; intros lo s L1; cbn [seq rfold]; auto.
  destruct (@skipn_cons _ t lo ltac:(lia)) as (c & E1 & F1). rewrite F1. cbn [firstn rfold]. unfold vget at 1. rewrite E1. cbn [bind].
  destruct (f s c) as [s'| |]; cbn [bind]; auto. apply IHn; lia.
Qed.

(** What a readable row says about the arrays. *)
Lemma row_arrays A (g : csr A) i row : csr_row g i = Ok row -> exists lo hi, vget (csr_ind g) i = Ok lo /\ vget (csr_ind g) (i + 1) = Ok hi /\ lo <= hi /\
  lo + (hi - lo) <= length (csr_tgt g) /\ lo + (hi - lo) <= length (csr_att g) /\
  row = combine (firstn (hi - lo) (skipn lo (csr_tgt g))) (firstn (hi - lo) (skipn lo (csr_att g))) /\ length row = hi - lo /\
  map fst row = firstn (hi - lo) (skipn lo (csr_tgt g)).
Proof.
  unfold csr_row. intros E. apply bind_Ok in E. destruct E as (a & Ea & E). apply bind_Ok in E. destruct E as (b & Eb & E).
  apply bind_Ok in E. destruct E as (ts & E1 & E). apply bind_Ok in E. destruct E as (xs & E2 & E). injection E as <-.
  unfold vslice in E1, E2.
  destruct ((a <=? b) && (b <=? length (csr_tgt g))) eqn:C1; [|discriminate]. destruct ((a <=? b) && (b <=? length (csr_att g))) eqn:C2; [|discriminate].
  apply andb_prop in C1. apply andb_prop in C2. rewrite !Nat.leb_le in *. injection E1 as <-. injection E2 as <-.
  exists a, b. repeat split; auto; try lia.
  - rewrite combine_length, !firstn_length, !skipn_length. lia.
  - apply map_fst_combine. rewrite !firstn_length, !skipn_length. lia.
Qed.
Lemma row_past A (g : csr A) : csr_row g (csr_size g) = Ub.
Proof.
  unfold csr_row, csr_size. destruct (vget (csr_ind g) _) eqn:E; cbn [bind]; auto; [|unfold vget in E; destruct nth_error; discriminate].
  rewrite vget_ge by lia. reflexivity.
Qed.

(** ** Matrix and vector *)
Section SpMV.
Variables F X V : Type.
Variable mac : F -> X -> V -> F.
Variables (dx : X) (dy : F).
Definition rowval (x : list X) (row : list (nat * V)) (a : F) : F := fold_left (fun a e => mac a (nth (fst e) x dx) (snd e)) row a.

Lemma upd_same A (l : list A) i d : i < length l -> upd l i (nth i l d) = l.
Proof. revert i. induction l as [|y l IH]; intros [|i] L; cbn in L; try lia; cbn; auto. f_equal. apply IH. lia. Qed.
Lemma upd_upd A (l : list A) i a b : upd (upd l i a) i b = upd l i b.
Proof. revert i. induction l as [|y l IH]; intros [|i]; cbn; auto. now rewrite IH. Qed.

Lemma madd_row x i : forall row y, (forall e, In e row -> fst e < length x) -> i < length y ->
  rfold (fun y e => madd mac x y i (fst e) (snd e)) row y = Ok (upd y i (rowval x row (nth i y dy))).
Proof.
  induction row as [|e row IH]; intros y H L; cbn [rfold rowval fold_left]; [now rewrite upd_same|].
  unfold madd at 1. rewrite (@vget_nth _ y i dy) by auto. cbn [bind]. rewrite (@vget_nth _ x (fst e) dx) by (apply H; now left). cbn [bind].
  rewrite vset_lt by auto. cbn [bind]. rewrite IH; [|intros; apply H; now right|now rewrite upd_length].
  now rewrite nth_upd_eq, upd_upd by auto.
Qed.
Lemma raw_row_ok (g : csr V) x i row y : csr_row g i = Ok row -> (forall e, In e row -> fst e < length x) -> i < length y ->
  raw_row mac g x y i = Ok (upd y i (rowval x row (nth i y dy))).
Proof.
  intros E H L. destruct (row_arrays g i E) as (lo & hi & E1 & E2 & Lh & L1 & L2 & Er & _). unfold raw_row. rewrite E1. cbn [bind]. rewrite E2. cbn [bind].
  rewrite (rfold_slices (fun y c d => madd mac x y i c d)) by auto. rewrite <- Er. now apply madd_row.
Qed.

(** Any loop that gives each element of y its own new value once. *)
Lemma rows_done (step : list F -> nat -> res (list F)) (val : nat -> F -> F) n : 
  (forall y i, i < n -> length y = n -> step y i = Ok (upd y i (val i (nth i y dy)))) ->
  forall order y, NoDup order -> (forall i, In i order -> i < n) -> length y = n ->
  exists y', rfold step order y = Ok y' /\ length y' = n /\ 
    forall i, nth i y' dy = if in_dec Nat.eq_dec i order then val i (nth i y dy) else nth i y dy.
Proof.
  intros H. induction order as [|k order IH]; intros y ND B L; cbn [rfold]; [exists y; auto|].
  apply NoDup_cons_iff in ND. destruct ND as [H2 H3]. rewrite H by (auto; apply B; now left). cbn [bind].
  destruct (IH (upd y k (val k (nth k y dy)))) as (y' & E & L' & N); auto; [intros; apply B; now right|now rewrite upd_length|].
  exists y'. split; auto. split; auto. intros i. rewrite N. destruct (Nat.eq_dec i k) as [->|Ne].
  - rewrite nth_upd_eq by (rewrite L; apply B; now left). destruct (in_dec Nat.eq_dec k order); [contradiction|].
    destruct (in_dec Nat.eq_dec k (k :: order)) as [|N']; auto. exfalso. apply N'. now left.
  - rewrite nth_upd_neq by auto. destruct (in_dec Nat.eq_dec i order) as [I|I]; destruct (in_dec Nat.eq_dec i (k :: order)) as [I'|I']; auto.
    + exfalso. apply I'. now right.
    + exfalso. destruct I' as [->|]; auto.
Qed.
Lemma rows_done_all step val n order y : (forall y i, i < n -> length y = n -> step y i = Ok (upd y i (val i (nth i y dy)))) ->
  Permutation order (seq 0 n) -> length y = n ->
  exists y', rfold step order y = Ok y' /\ length y' = n /\ forall i, i < n -> nth_error y' i = Some (val i (nth i y dy)).
Proof.
  intros H P L. destruct (@rows_done step val n H order y) as (y' & E & L' & N); auto.
  - apply (Permutation_NoDup (Permutation_sym P)), seq_NoDup.
  - intros i I. apply (Permutation_in _ P), in_seq in I. lia.
  - exists y'. split; auto. split; auto. intros i Li. rewrite (nth_error_nth' y' dy) by lia. f_equal. rewrite N.
    destruct (in_dec Nat.eq_dec i order) as [|N']; auto. exfalso. apply N'. apply (Permutation_in _ (Permutation_sym P)), in_seq. lia.
Qed.
End SpMV.

(** ** Reductions *)
Section Red.
Variables F X V : Type.
Variables (prod : X -> V -> F) (plus : F -> F -> F) (red : list F -> F).
Variables (dx : X) (dy : F).
Lemma red_row_ok (g : csr V) x i row y : csr_row g i = Ok row -> (forall e, In e row -> fst e < length x) -> i < length y ->
  red_row prod plus red g x y i = Ok (upd y i (plus (nth i y dy) (red (map (fun e => prod (nth (fst e) x dx) (snd e)) row)))).
Proof.
  intros E H L. unfold red_row. rewrite E. cbn [bind].
  rewrite (rmap_ok _ (fun e => prod (nth (fst e) x dx) (snd e))) by (intros e I; now rewrite (@vget_nth _ x (fst e) dx) by auto). cbn [bind].
  rewrite (@vget_nth _ y i dy) by auto. cbn [bind]. now rewrite vset_lt by auto.
Qed.
Lemma rmap_slices A B C (f : A -> B -> res C) (t : list A) (a : list B) : forall n lo, lo + n <= length t -> lo + n <= length a ->
  rmap (fun j => do c <- vget t j ; do d <- vget a j ; f c d) (seq lo n) = rmap (fun e => f (fst e) (snd e)) (combine (firstn n (skipn lo t)) (firstn n (skipn lo a))).
Proof.
  induction n; intros lo L1 L2; cbn [seq rmap]; auto.
  destruct (@skipn_cons _ t lo ltac:(lia)) as (c & E1 & F1). destruct (@skipn_cons _ a lo ltac:(lia)) as (d & E2 & F2).
  rewrite F1, F2. cbn [firstn combine rmap fst snd]. unfold vget at 1 2. rewrite E1, E2. cbn [bind].
  destruct (f c d) as [z| |]; cbn [bind]; auto. rewrite IHn by lia. reflexivity.
Qed.
Lemma rmap_ext_in A B (f h : A -> res B) : forall l, (forall x, In x l -> f x = h x) -> rmap f l = rmap h l.
Proof. induction l as [|x l IH]; intros H; cbn [rmap]; auto. rewrite H, IH; auto; [intros; apply H; now right|now left]. Qed.
Lemma red_row_raw_ok (g : csr V) x i row y : csr_row g i = Ok row -> (forall e, In e row -> fst e < length x) -> i < length y ->
  red_row_raw prod plus red g x y i = red_row prod plus red g x y i.
Proof.
  intros E H L. unfold red_row. rewrite E. cbn [bind].
  destruct (row_arrays g i E) as (lo & hi & E1 & E2 & Lh & L1 & L2 & Er & _ & Ef). unfold red_row_raw. rewrite E1. cbn [bind]. rewrite E2. cbn [bind].
  rewrite (rmap_ext_in (fun j => do c <- vget (csr_tgt g) j ; do xc <- vget x c ; do d <- vget (csr_att g) j ; Ok (prod xc d))
    (fun j => do c <- vget (csr_tgt g) j ; do d <- vget (csr_att g) j ; do xc <- vget x c ; Ok (prod xc d))).
  - rewrite (rmap_slices (fun c d => do xc <- vget x c ; Ok (prod xc d))) by auto. now rewrite <- Er.
  - intros j I. apply in_seq in I. destruct (@skipn_cons _ (csr_tgt g) j ltac:(lia)) as (c & N1 & _).
    destruct (@skipn_cons _ (csr_att g) j ltac:(lia)) as (d & N2 & _). unfold vget at 1 3 4 5. rewrite N1, N2. cbn [bind]. destruct (vget x c); reflexivity.
Qed.
End Red.

Lemma gsum_Z l a : gsum Z.add l a -> a = fold_right Z.add 0%Z l.
Proof.
  induction 1 as [a|l1 l2 a b _ -> _ ->|l1 l2 a P _ ->]; cbn; [lia| |].
  - induction l1; cbn; lia.
  - induction P; cbn; lia.
Qed.

(** ** Degrees *)
Definition cnt (v : nat) (l : list nat) : nat := count_occ Nat.eq_dec l v.
Lemma bumps W : 0 < W -> forall vs deg, (forall v, In v vs -> v < length deg) -> (forall d, In d deg -> d < W) ->
  exists deg', rfold (bump W) vs deg = Ok deg' /\ length deg' = length deg /\ forall v, v < length deg -> nth v deg' 0 = (nth v deg 0 + cnt v vs) mod W.
Proof.
  intros W0. induction vs as [|u vs IH]; intros deg B D; cbn [rfold].
  - exists deg. split; auto. split; auto. intros v L. unfold cnt. cbn. rewrite Nat.add_0_r, Nat.mod_small; auto. apply D. now apply nth_In.
  - assert (Lu : u < length deg) by (apply B; now left). unfold bump at 1. rewrite (@vget_nth _ deg u 0) by auto. cbn [bind]. rewrite vset_lt by auto. cbn [bind].
    destruct (IH (upd deg u ((nth u deg 0 + 1) mod W))) as (deg' & E & L & N).
    + intros v I. rewrite upd_length. apply B. now right.
    + intros d I. apply In_nth with (d := 0) in I. destruct I as (k & Lk & <-). rewrite upd_length in Lk.
      destruct (Nat.eq_dec k u) as [->|Ne]; [rewrite nth_upd_eq by auto; apply Nat.mod_upper_bound; lia|]. rewrite nth_upd_neq by auto. apply D. now apply nth_In.
    + rewrite upd_length in *. exists deg'. split; auto. split; auto. intros v Lv. rewrite N by auto. unfold cnt. cbn [count_occ].
      destruct (Nat.eq_dec u v) as [->|Ne].
      * rewrite nth_upd_eq by auto. rewrite Nat.add_mod_idemp_l by lia. f_equal. lia.
      * now rewrite nth_upd_neq by auto.
Qed.
Lemma cnt_flat (h : nat -> list nat) v : forall l, cnt v (flat_map h l) = sum (map (fun i => cnt v (h i)) l).
Proof. unfold cnt. induction l as [|i l IH]; cbn [flat_map map sum count_occ]; auto. now rewrite count_occ_app, IH. Qed.
Lemma cnt_repeat v i n : cnt v (repeat i n) = if i =? v then n else 0.
Proof.
  unfold cnt. induction n; cbn [repeat count_occ]; [now destruct (i =? v)|]. destruct (Nat.eq_dec i v) as [->|Ne].
  - rewrite Nat.eqb_refl in *. lia.
  - rewrite IHn. apply Nat.eqb_neq in Ne. now rewrite Ne.
Qed.
Lemma cnt_perm v l l' : Permutation l l' -> cnt v l = cnt v l'.
Proof. intros P. unfold cnt. now apply Permutation_count_occ. Qed.
Lemma cnt_map A (key : A -> nat) v l : cnt v (map key l) = length (filter (fun x => key x =? v) l).
Proof.
  unfold cnt. induction l as [|x l IH]; cbn [map count_occ filter]; auto. destruct (Nat.eq_dec (key x) v) as [->|Ne].
  - rewrite Nat.eqb_refl. cbn. now rewrite IH.
  - apply Nat.eqb_neq in Ne. rewrite Ne. auto.
Qed.
Lemma sum_single v n (h : nat -> nat) : forall a, a <= v < a + n -> sum (map (fun i => if i =? v then h i else 0) (seq a n)) = h v.
Proof.
  induction n; intros a L; [lia|]. cbn [seq map sum]. destruct (Nat.eqb_spec a v) as [->|Ne].
  - enough (Z : forall m b, v < b -> sum (map (fun i => if i =? v then h i else 0) (seq b m)) = 0) by (rewrite Z by lia; lia).
    induction m; intros b B; cbn [seq map sum]; auto. rewrite IHm by lia. destruct (Nat.eqb_spec b v); lia.
  - rewrite IHn by lia. reflexivity.
Qed.

(** ** Edge ranges that end one row late *)
Section Past.
Variable A : Type.
Variable g : list (list A).
Definition erem (it : eiter) : nat := (ei_ue it - ei_ub it) + sum (map (fun k => length (nth k g [])) (seq (S (ei_first it)) (length g - S (ei_first it)))).
Record evalid (it : eiter) : Prop := {
  ev_last : ei_last it = S (length g); ev_first : ei_first it < length g; ev_ue : ei_ue it = length (nth (ei_first it) g []); ev_ub : ei_ub it <= ei_ue it }.
Lemma check_past fuel : forall it, evalid it -> length g - ei_first it <= fuel ->
  ei_check fuel g it = Ub \/ exists it', ei_check fuel g it = Ok it' /\ evalid it' /\ ei_ub it' < ei_ue it' /\ erem it' = erem it.
Proof.
  induction fuel as [|f IH]; intros it V L; destruct V as [Vl Vf Vu Vb]; [lia|]. cbn [ei_check].
  destruct (Nat.eqb_spec (ei_ub it) (ei_ue it)) as [E|E]; cbn [andb].
  - destruct (Nat.eqb_spec (ei_first it) (ei_last it)) as [E2|E2]; [lia|]. cbn [negb].
    destruct (Nat.eqb_spec (S (ei_first it)) (ei_last it)) as [E3|E3]; [lia|]. cbn [negb]. unfold ei_enter.
    destruct (Nat.lt_ge_cases (S (ei_first it)) (length g)) as [Ls|Ls]; [|left; rewrite vget_ge by auto; reflexivity].
    rewrite (@vget_nth _ g (S (ei_first it)) []) by auto. cbn [bind].
    match goal with |- context [ei_check f g ?i] => set (it1 := i) end.
    assert (V1 : evalid it1) by (constructor; cbn; auto; lia).
    destruct (IH it1 V1) as [U|(it' & E' & V' & R' & Q')]; [cbn; lia|auto|]. right. exists it'. split; auto. split; auto. split; auto. rewrite Q'.
    unfold erem. cbn [it1 ei_ue ei_ub ei_first]. rewrite E. replace (length g - S (ei_first it)) with (S (length g - S (S (ei_first it)))) by lia.
    cbn [seq map sum]. lia.
  - right. exists it. split; auto. split; [constructor; auto|]. split; [lia|auto].
Qed.
Lemma visit_past : forall fuel it, evalid it -> ei_ub it < ei_ue it -> erem it <= fuel -> ei_visit fuel g (S (length g)) it = Ub.
Proof.
  induction fuel as [|f IH]; intros it V R L; destruct V as [Vl Vf Vu Vb]; [unfold erem in L; lia|]. cbn [ei_visit].
  destruct (Nat.eqb_spec (ei_first it) (S (length g))) as [E|E]; [lia|]. unfold ei_deref. rewrite (@vget_nth _ g (ei_first it) []) by auto. cbn [bind].
  destruct (nth (ei_first it) g []) as [|a0 row] eqn:Er; [cbn in Vu; lia|]. rewrite <- Er in *. rewrite (@vget_nth _ (nth (ei_first it) g []) (ei_ub it) a0) by lia. cbn [bind].
  unfold ei_next. match goal with |- context [ei_check _ g ?i] => set (it1 := i) end.
  assert (V1 : evalid it1) by (constructor; cbn; auto; lia).
  destruct (@check_past (length g) it1 V1) as [U|(it' & E' & V' & R' & Q')]; [lia|rewrite U; reflexivity|].
  rewrite E'. cbn [bind]. rewrite IH; auto. rewrite Q'. unfold erem in *. cbn [it1 ei_ue ei_ub ei_first]. lia.
Qed.
Lemma range_past b fuel : b <= length g -> sum (map (@length A) g) <= fuel -> edges_of_range fuel g {| or_begin := b; or_end := S (length g) |} = Ub.
Proof.
  intros B Fu. unfold edges_of_range, ei_make. cbn [or_begin or_end]. destruct (Nat.eqb_spec b (S (length g))) as [E|E]; [lia|]. cbn [negb]. unfold ei_enter.
  destruct (Nat.lt_ge_cases b (length g)) as [L|L]; [|rewrite vget_ge by auto; reflexivity].
  rewrite (@vget_nth _ g b []) by auto. cbn [bind]. match goal with |- context [ei_check _ g ?i] => set (it1 := i) end.
  assert (V1 : evalid it1) by (constructor; cbn; auto; lia).
  destruct (@check_past (length g) it1 V1) as [U|(it' & E' & V' & R' & Q')]; [lia|rewrite U; reflexivity|].
  rewrite E'. cbn [bind]. apply visit_past; auto. rewrite Q'. unfold erem. cbn [it1 ei_ue ei_ub ei_first].
  rewrite Nat.sub_0_r. etransitivity; [|exact Fu].
  assert (Q : sum (map (fun k => length (nth k g [])) (seq b (length g - b))) <= sum (map (@length A) g)).
  { rewrite <- (map_map (fun k => nth k g []) (@length A)). replace (map (@length A) g) with (map (@length A) (map (fun k => nth k g []) (seq 0 (length g)))).
    - replace (length g) with (b + (length g - b)) at 2 by lia. rewrite seq_app, !map_app, sum_app. cbn. lia.
    - f_equal. apply nth_ext with (d := []) (d' := []); [now rewrite map_length, seq_length|]. intros i Li. rewrite map_length, seq_length in Li.
      now rewrite (nth_map_seq (fun v => nth v g [])). }
  replace (length g - b) with (S (length g - S b)) in Q by lia. cbn [seq map sum] in Q. exact Q.
Qed.
Lemma split_past fuel : sum (map (@length A) g) <= fuel -> forall t b, b <= length g ->
  exists p, In p (spieces or_split t {| or_begin := b; or_end := S (length g) |}) /\ edges_of_range fuel g p = Ub.
Proof.
  intros Fu. induction t as [|t1 _ t2 IH]; intros b B.
  - eexists. split; [now left|]. now apply range_past.
  - cbn [spieces]. unfold or_split at 1. cbn [or_begin or_end].
    destruct (IH (b + (S (length g) - b) / 2)) as (p & I & E).
    + assert ((S (length g) - b) / 2 < S (length g) - b) by (apply Nat.div_lt; lia). lia.
    + exists p. split; auto. apply in_or_app. now right.
Qed.
End Past.

(** ** The graph of an edge list *)
Lemma spm_graph A W srt srt1 n N0 (es : list (EdgeListModel.edge A)) : is_sort_by fst srt -> n < W -> ids_ok W es -> length es < W ->
  exists g rows, fill W srt srt1 true S1 (el_build W n es) (csr_new N0) false = Ok g /\ csr_size g = el_num_vertices (el_build W n es) /\ csr_N g = N0 /\
    length rows = csr_size g /\ graph_rows g = Ok rows /\ (forall v, v < csr_size g -> csr_row g v = Ok (nth v rows []) /\ Permutation (nth v rows []) (spec_row S1 es v)) /\
    (forall v e, v < csr_size g -> In e (nth v rows []) -> fst e < csr_size g) /\ sum (map (@length _) rows) = length es.
Proof.
  intros Hs Hn He HW. destruct (adjacency_directed_rows srt1 S1 N0 Hs Hn He HW) as (g & E & S1' & _ & N & R).
  destruct (@rmap_ex nat _ (csr_row g) (fun v r => csr_row g v = Ok r /\ Permutation r (spec_row S1 es v)) (seq 0 (csr_size g))) as (rows & Er & Fa).
  { intros v I. apply in_seq in I. destruct (R v ltac:(lia)) as (row & Ev & Pm). exists row. auto. }
  assert (L : length rows = csr_size g) by (apply rmap_Ok_length in Er; now rewrite seq_length in Er).
  assert (H : forall v, v < csr_size g -> csr_row g v = Ok (nth v rows []) /\ Permutation (nth v rows []) (spec_row S1 es v)).
  { intros v Lv. destruct (forall2_nth 0 [] Fa) as [_ H]. specialize (H v ltac:(now rewrite seq_length)). now rewrite seq_nth in H. }
  exists g, rows. repeat (split; [now auto|]). split.
  - intros v e Lv I. destruct (H v Lv) as [_ Pm]. apply (Permutation_in _ Pm) in I. unfold spec_row in I.
    apply in_map_iff in I. destruct I as (x & <- & I). apply filter_In in I. rewrite S1'. apply (build_key_lt S0 Hn He x (proj1 I)).
  - rewrite <- (@count_keys _ (ekey S1) (csr_size g) es) by (intros e I; rewrite S1'; apply (build_key_lt S1 Hn He e I)).
    f_equal. apply nth_ext with (d := 0) (d' := 0); [now rewrite !map_length, seq_length|]. intros v Lv. rewrite map_length in Lv.
    rewrite (nth_map_seq (fun u => length (filter (fun x => ekey S1 x =? u) es))) by lia.
    change 0 with (length (@nil (nat * A))). rewrite map_nth. destruct (H v ltac:(lia)) as [_ Pm]. apply Permutation_length in Pm.
    rewrite Pm. unfold spec_row. now rewrite map_length.
Qed.
(** A row as a list of arcs. *)
Lemma perm_map_inv A B (f : A -> B) : forall (l : list A) (m : list B), Permutation m (map f l) -> exists l', m = map f l' /\ Permutation l' l.
Proof.
  intros l m P. apply Permutation_map_inv in P. destruct P as (l' & E & P). exists l'. split; auto. now apply Permutation_sym.
Qed.
Lemma row_arcs A (es : list (EdgeListModel.edge A)) v row : Permutation row (spec_row S1 es v) ->
  exists l, Permutation l (filter (fun e => etgt e =? v) es) /\ row = map (fun e => (esrc e, eatt e)) l.
Proof. intros P. unfold spec_row in P. apply perm_map_inv in P. destruct P as (l & E & P). exists l. auto. Qed.

Lemma fold_left_map A B C (f : C -> B -> C) (h : A -> B) : forall l a, fold_left f (map h l) a = fold_left (fun a x => f a (h x)) l a.
Proof. induction l; intros a0; cbn; auto. Qed.
Lemma fold_left_Z A (h : A -> Z) : forall l a, fold_left (fun a x => (a + h x)%Z) l a = (a + fold_right Z.add 0 (map h l))%Z.
Proof. induction l as [|x l IH]; intros a; cbn; [lia|]. rewrite IH. lia. Qed.
Lemma fold_right_perm l l' : Permutation l l' -> fold_right Z.add 0%Z l = fold_right Z.add 0%Z l'.
Proof. induction 1; cbn; lia. Qed.

Lemma pr_seq : forall n a, pr_visit n a (a + n) = Ok (seq a n).
Proof.
  induction n; intros a; cbn [pr_visit seq].
  - now rewrite Nat.add_0_r, Nat.eqb_refl.
  - destruct (Nat.eqb_spec a (a + S n)); [lia|]. replace (a + S n) with (S a + n) by lia. rewrite IHn. reflexivity.
Qed.
Lemma pr_seq0 n : pr_visit n 0 n = Ok (seq 0 n).
Proof. exact (pr_seq n 0). Qed.

Lemma list_edges_fold St A (f : St -> nat -> A -> res St) : forall rows u s, 
  rfold (fun s e => f s (fst e) (snd e)) (list_edges u rows) s = rfold (fun s k => rfold (fun s e => f s k e) (nth (k - u) rows []) s) (seq u (length rows)) s.
Proof.
  induction rows as [|r rows IH]; intros u s; cbn [list_edges length seq rfold]; auto.
  rewrite rfold_app, Nat.sub_diag. cbn [nth]. rewrite <- (rfold_map (fun s e => f s (fst e) (snd e)) (fun x => (u, x))). cbn [fst snd].
  destruct (rfold (fun s e => f s u e) r s) as [s'| |]; cbn [bind]; auto. rewrite IH. apply rfold_ext_in. intros s0 k I. apply in_seq in I.
  replace (k - u) with (S (k - S u)) by lia. reflexivity.
Qed.

(** The degree loops as sequences of increments. *)
Lemma deg_raw_rows A W (g : csr A) N rows deg : N <= csr_size g -> (forall v, v < csr_size g -> csr_row g v = Ok (nth v rows [])) ->
  deg_raw W g N deg = rfold (bump W) (flat_map (fun i => repeat i (length (nth i rows []))) (seq 0 N)) deg /\
  deg_rows W g N deg = rfold (bump W) (flat_map (fun i => repeat i (length (nth i rows []))) (seq 0 N)) deg.
Proof.
  intros LN R. assert (Rep : forall i n s, rfold (fun s (_ : nat) => bump W s i) (seq 0 n) s = rfold (bump W) (repeat i n) s).
  { intros i n s. rewrite <- (map_id (repeat i n)). rewrite <- (rfold_map (bump W) (fun x => x)).
    rewrite (rfold_ext_in (fun s x => bump W s x) (fun s _ => bump W s i)) by (intros s0 x I; apply repeat_spec in I; now subst).
    apply rfold_const. now rewrite seq_length, repeat_length. }
  split; rewrite <- rfold_flat; apply rfold_ext_in; intros s i I; apply in_seq in I; pose proof (R i ltac:(lia)) as E.
  - destruct (row_arrays g i E) as (lo & hi & E1 & E2 & Lh & _ & _ & _ & Len & _). rewrite E1. cbn [bind]. rewrite E2. cbn [bind]. rewrite <- Rep.
    apply (rfold_const (fun s => bump W s i)). now rewrite !seq_length.
  - rewrite E. cbn [bind]. rewrite <- Rep. apply (rfold_const (fun s => bump W s i)). now rewrite seq_length.
Qed.
Lemma deg_other_loops A W (g : csr A) N rows deg : N <= csr_size g -> (forall v, v < csr_size g -> csr_row g v = Ok (nth v rows [])) ->
  deg_other_raw W g N deg = rfold (bump W) (flat_map (fun i => map fst (nth i rows [])) (seq 0 N)) deg /\
  deg_other_rows W g N deg = rfold (bump W) (flat_map (fun i => map fst (nth i rows [])) (seq 0 N)) deg.
Proof.
  intros LN R. split; rewrite <- rfold_flat; apply rfold_ext_in; intros s i I; apply in_seq in I; pose proof (R i ltac:(lia)) as E.
  - destruct (row_arrays g i E) as (lo & hi & E1 & E2 & Lh & L1 & _ & _ & Len & Ef). rewrite E1. cbn [bind]. rewrite E2. cbn [bind].
    rewrite (rfold_slice (bump W)) by auto. now rewrite Ef.
  - rewrite E. cbn [bind]. apply (rfold_map (bump W) fst).
Qed.
Lemma filter_swap A (f h : A -> bool) : forall l, filter f (filter h l) = filter h (filter f l).
Proof. induction l as [|x l IH]; cbn; auto. destruct (f x) eqn:E, (h x) eqn:E2; cbn; rewrite ?E, ?E2, IH; auto. Qed.
