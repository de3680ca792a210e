(** C26, C27, C28: splittable ranges. *)
From Coq Require Import List Arith ZArith NArith Lia Bool Permutation Sorted.
From Verif Require Import Base UtilModel UtilProofs RangeModel RangeProofs.
Import ListNotations.
Set Implicit Arguments.

(** Specification: the edges of the rows [u, u+1, ...]. *)
Fixpoint list_edges {A} (u : nat) (rows : list (list A)) : list (nat * A) :=
  match rows with [] => [] | r :: rs => map (fun x => (u, x)) r ++ list_edges (S u) rs end.
Fixpoint leaves (t : stree) : nat := match t with SLeaf => 1 | SNode a b => leaves a + leaves b end.

Lemma edges_between_list A (g : list (list A)) b : b <= length g -> edges_between g b (length g) = list_edges b (skipn b g).
Proof.
  remember (length g - b) as k eqn:K. revert b K. induction k; intros b K H.
  - rewrite edges_between_nil by lia. rewrite skipn_all2 by lia. reflexivity.
  - rewrite edges_between_cons by lia. rewrite (@skipn_nth_cons _ g b []) by lia. cbn [list_edges]. unfold row_edges.
    f_equal. apply IHk; lia.
Qed.
Lemma list_edges_length A (rows : list (list A)) u : length (list_edges u rows) = sum (map (@length A) rows).
Proof. revert u. induction rows; intros u; simpl; auto. now rewrite app_length, map_length, IHrows. Qed.
Lemma map_ok_exists (X Y : Type) (f : X -> res Y) (h : X -> Y) l : (forall x, In x l -> f x = Ok (h x)) -> map f l = map Ok (map h l).
Proof. intros H. rewrite map_map. apply map_ext_in. exact H. Qed.

(** * C26 *)
(** One pass over edge_range(g, offset): every edge of every row from [offset] on, once, in row order; empty
    rows are skipped and nothing is read out of bounds. *)
Theorem C26_edge_range_enumerates : forall A (g : list (list A)) offset fuel,
  offset <= length g -> sum (map (@length A) g) <= fuel ->
  edges_of_range fuel g (or_make g offset) = Ok (list_edges offset (skipn offset g)).
Proof.
  intros A g offset fuel H F. assert (L : length (edges_between g offset (length g)) <= fuel).
  { rewrite edges_between_list, list_edges_length by auto. rewrite <- (firstn_skipn offset g), map_app, sum_app in F. lia. }
  rewrite edges_of_range_ok; unfold or_make; cbn [or_begin or_end]; auto. now rewrite edges_between_list.
Qed.

(** The constructor's offset is not checked: past the end the first access is out of bounds. *)
Theorem C26_edge_range_offset_unchecked : forall A (g : list (list A)) offset fuel,
  length g < offset -> edges_of_range fuel g (or_make g offset) = Ub.
Proof.
  intros A g offset fuel H. unfold edges_of_range, ei_make, or_make. cbn [or_begin or_end].
  destruct (Nat.eqb_spec offset (length g)); [lia|]. cbn [negb]. unfold ei_enter. rewrite vget_ge by lia. reflexivity.
Qed.

(** However the range is split, the pieces visited in order give the whole sequence again. *)
Theorem C26_edge_range_splits : forall A (g : list (list A)) offset fuel t,
  offset <= length g -> sum (map (@length A) g) <= fuel ->
  exists parts, map (edges_of_range fuel g) (spieces or_split t (or_make g offset)) = map Ok parts /\
    length parts = leaves t /\
    concat parts = list_edges offset (skipn offset g).
Proof.
  intros A g offset fuel t H F.
  destruct (@or_pieces_concat _ (edges_between g) (fun b m e P Q => edges_between_app g P Q) t (or_make g offset)) as [B C]; [exact H|].
  cbn [or_make or_begin or_end] in B, C.
  exists (map (fun p => edges_between g (or_begin p) (or_end p)) (spieces or_split t (or_make g offset))).
  assert (TOT : length (edges_between g 0 (length g)) <= fuel) by (rewrite edges_between_list, list_edges_length; auto; lia).
  split; [|split].
  - apply map_ok_exists. intros p I. specialize (B p I). apply edges_of_range_ok; try lia.
    rewrite (@edges_between_app _ g 0 (or_begin p) (length g)) in TOT by lia.
    rewrite (@edges_between_app _ g (or_begin p) (or_end p) (length g)) in TOT by lia. rewrite !app_length in TOT. lia.
  - rewrite map_length. clear. generalize (or_make g offset). induction t; intros r; simpl; auto. now rewrite app_length, IHt1, IHt2.
  - rewrite C. now apply edges_between_list.
Qed.

Theorem C26_plain_and_neighbor_ranges : forall A (g : list (list A)) offset t,
  offset <= length g ->
  (exists parts, map (plain_of_range (length g)) (spieces or_split t (or_make g offset)) = map Ok parts /\
     concat parts = seq offset (length g - offset)) /\
  (exists parts, map (neighbors_of_range (length g) g) (spieces or_split t (or_make g offset)) = map Ok parts /\
     concat parts = combine (seq offset (length g - offset)) (skipn offset g)) /\
  pd_visit (length g) g 0 (length g) = Ok (combine (seq 0 (length g)) (map (@length A) g)).
Proof.
  intros A g offset t H.
  assert (SEQ : forall b m e, b <= m -> m <= e -> seq b (e - b) = seq b (m - b) ++ seq m (e - m)).
  { intros b m e P Q. replace (e - b) with ((m - b) + (e - m)) by lia. rewrite seq_app. now replace (b + (m - b)) with m by lia. }
  destruct (@or_pieces_concat _ (fun b e => seq b (e - b)) SEQ t (or_make g offset)) as [B C]; [exact H|]. cbn [or_make or_begin or_end] in B, C.
  split; [|split].
  - exists (map (fun p => seq (or_begin p) (or_end p - or_begin p)) (spieces or_split t (or_make g offset))). split; auto.
    apply map_ok_exists. intros p I. specialize (B p I). apply pr_visit_ok; lia.
  - exists (map (fun p => map (fun u => (u, nth u g [])) (seq (or_begin p) (or_end p - or_begin p))) (spieces or_split t (or_make g offset))). split.
    + apply map_ok_exists. intros p I. specialize (B p I). apply nr_visit_ok; lia.
    + rewrite <- (map_map (fun p => seq (or_begin p) (or_end p - or_begin p)) (map (fun u => (u, nth u g [])))).
      rewrite <- concat_map, C. clear - H. remember (length g - offset) as k eqn:K. revert offset H K. induction k; intros o H K.
      * rewrite skipn_all2 by lia. reflexivity.
      * rewrite (@skipn_nth_cons _ g o []) by lia. simpl. f_equal. apply IHk; lia.
  - rewrite pd_visit_ok by lia. rewrite Nat.sub_0_r. f_equal.
    rewrite <- (map_id (seq 0 (length g))) at 2. 
    assert (E : map (@length A) g = map (fun u => length (nth u g [])) (seq 0 (length g))).
    { apply nth_ext_default with (d := 0); rewrite !map_length, ?seq_length; auto. intros i Hi.
      rewrite (@nth_map_default _ _ (@length A) g i []) by auto. now rewrite (@nth_map_seq _ (fun u => length (nth u g []))) by auto. }
    rewrite E. rewrite combine_map. apply map_ext. reflexivity.
Qed.

(** Splitting while is_divisible() terminates, with pieces of at most 16 rows. *)
Theorem C26_full_split_terminates : forall A (g : list (list A)) offset, offset <= length g ->
  exists t, full_split or_split or_divisible (length g) (or_make g offset) = Ok (spieces or_split t (or_make g offset)) /\
    forall p, In p (spieces or_split t (or_make g offset)) -> or_size p <= 16.
Proof. intros A g offset H. apply or_full_split_ok; unfold or_make; cbn [or_begin or_end]; lia. Qed.

(** splittable_range_adaptor over [b, e) of a container. *)
Theorem C26_splittable_adaptor : forall A (l : list A) b e cutoff t,
  e <= length l ->
  exists parts, map (sr_visit l) (spieces sr_split t (sr_make b e cutoff)) = map Ok parts /\
    concat parts = firstn (e - b) (skipn b l).
Proof.
  intros A l b e cutoff t H. unfold sr_make.
  destruct (@sr_pieces_ok _ l t {| sr_begin := if e <? b then e else b; sr_end := e; sr_cutoff := cutoff |}) as (parts & E & C);
    cbn [sr_begin sr_end] in *; auto.
  { destruct (Nat.ltb_spec e b); lia. }
  exists parts. split; auto. rewrite C. destruct (Nat.ltb_spec e b); auto. rewrite Nat.sub_diag. replace (e - b) with 0 by lia. reflexivity.
Qed.
Theorem C26_splittable_full_split : forall b e cutoff, 0 < cutoff ->
  exists t, full_split sr_split sr_divisible (e - b) (sr_make b e cutoff) = Ok (spieces sr_split t (sr_make b e cutoff)) /\
    forall p, In p (spieces sr_split t (sr_make b e cutoff)) -> sr_size p <= cutoff.
Proof.
  intros b e cutoff H. apply (@sr_full_split_ok (e - b) (sr_make b e cutoff)); unfold sr_make; cbn [sr_begin sr_end sr_cutoff]; auto;
  destruct (Nat.ltb_spec e b); lia.
Qed.
(** With cutoff 0 the splitting of a non-empty range never ends. *)
Theorem C26_splittable_cutoff_zero_never_stops : forall fuel b e, b < e ->
  full_split sr_split sr_divisible fuel (sr_make b e 0) = OutOfFuel.
Proof. intros fuel b e H. apply sr_full_split_cutoff0; unfold sr_make; cbn [sr_begin sr_end sr_cutoff]; auto. destruct (Nat.ltb_spec e b); lia. Qed.

Example C26_ex : let g := [[]; [5; 7]; []; []; [1]; []] in
  edges_of_range 3 g (or_make g 0) = Ok [(1, 5); (1, 7); (4, 1)] /\
  map (edges_of_range 3 g) (spieces or_split (SNode (SNode SLeaf SLeaf) SLeaf) (or_make g 0)) = [Ok []; Ok [(1, 5); (1, 7)]; Ok [(4, 1)]].
Proof. split; reflexivity. Qed.
Example C26_ex_full : full_split or_split or_divisible 40 {| or_begin := 0; or_end := 40 |} =
  Ok [{| or_begin := 0; or_end := 10 |}; {| or_begin := 10; or_end := 20 |}; {| or_begin := 20; or_end := 30 |}; {| or_begin := 30; or_end := 40 |}].
Proof. reflexivity. Qed.

(** * C27 *)
Lemma cr_make_ok n cutoff r : cr_make n cutoff = Ok r -> cr_wf n r /\ cr_stride r = 1%Z /\ cr_cycle r = 0%Z.
Proof.
  unfold cr_make. destruct (ceil_log2 64 cutoff) as [e| |]; try discriminate. cbn [bind].
  destruct (pow2 64 e) as [p| |]; try discriminate. cbn [bind]. intros E. injection E as <-. unfold cr_wf. simpl. lia.
Qed.

(** Any recursive splitting: the pieces partition the range, both for the plain and the neighbour variant,
    a piece visits positions [cycle, cycle + stride, ...], and size() is the number of elements it visits. *)
Theorem C27_pieces_partition : forall A (l : list A) cutoff r t,
  cr_make (length l) cutoff = Ok r ->
  exists parts nparts,
    map (cr_visit (length l) l) (spieces cr_split t r) = map Ok parts /\
    map (cn_visit (length l) l) (spieces cr_split t r) = map Ok nparts /\
    Permutation (concat parts) l /\
    Permutation (concat nparts) (combine (seq 0 (length l)) l) /\
    Forall2 (fun p part => cr_size p = Z.of_nat (length part)) (spieces cr_split t r) parts /\
    map (map snd) nparts = parts /\
    Forall2 (fun p part => StronglySorted lt (map fst part) /\
               forall i x, In (i, x) part -> nth_error l i = Some x /\ (Z.of_nat i mod cr_stride p = cr_cycle p)%Z) (spieces cr_split t r) nparts.
Proof.
  intros A l cutoff r t E. destruct (cr_make_ok _ _ E) as (W & S1 & C0). set (n := length l) in *.
  destruct (@cr_pieces_ok n t r W) as [WF P]. rewrite S1, C0, residues_one in P.
  assert (G : forall ps, (forall p, In p ps -> cr_wf n p) ->
    exists parts nparts, map (cr_visit n l) ps = map Ok parts /\ map (cn_visit n l) ps = map Ok nparts /\
      map Ok (concat parts) = map (vget l) (concat (map (fun p => residues n (cr_stride p) (cr_cycle p)) ps)) /\
      concat nparts = combine (concat (map (fun p => residues n (cr_stride p) (cr_cycle p)) ps)) (concat parts) /\
      Forall2 (fun p part => cr_size p = Z.of_nat (length part)) ps parts /\ map (map snd) nparts = parts /\
      Forall2 (fun p part => StronglySorted lt (map fst part) /\
               forall i x, In (i, x) part -> nth_error l i = Some x /\ (Z.of_nat i mod cr_stride p = cr_cycle p)%Z) ps nparts).
  { induction ps as [|p ps IH]; intros H.
    - exists [], []. simpl. repeat split; constructor.
    - destruct IH as (parts & nparts & E1 & E2 & E3 & E4 & F1 & FS & F2); [intros; apply H; now right|].
      destruct (@cr_visit_ok A l n p n eq_refl (H p (or_introl eq_refl)) (le_n n)) as (vals & V1 & V2 & V3).
      assert (LV : length vals = length (residues n (cr_stride p) (cr_cycle p))) by (apply (f_equal (@length _)) in V3; now rewrite !map_length in V3).
      exists (vals :: parts), (combine (residues n (cr_stride p) (cr_cycle p)) vals :: nparts). cbn [map concat]. rewrite V1, V2, E1, E2, !map_app, V3, E3, E4.
      split; auto. split; auto. split; auto. split.
      { assert (CA : forall (X Y : Type) (a1 a2 : list X) (b1 b2 : list Y), length a1 = length b1 -> combine (a1 ++ a2) (b1 ++ b2) = combine a1 b1 ++ combine a2 b2).
        { induction a1; intros a2 [|y b1] b2 Q; simpl in *; try discriminate; auto. f_equal. apply IHa1. lia. }
        rewrite CA; auto. }
      split; [constructor; auto|split; [|constructor; auto]].
      + rewrite LV. apply cr_size_ok. apply H. now left.
      + f_equal; auto. clear - LV. revert LV. generalize (residues n (cr_stride p) (cr_cycle p)). induction vals; intros [|y q] Q; simpl in *; try discriminate; auto. f_equal. apply IHvals. lia.
      + assert (SS : StronglySorted lt (residues n (cr_stride p) (cr_cycle p))).
        { unfold residues. assert (Q : forall f a k, StronglySorted lt (filter f (seq a k)) /\ Forall (le a) (filter f (seq a k))).
          { intros f. intros a k. revert a. induction k; intros a; simpl; [split; constructor|]. destruct (IHk (S a)) as [X Y].
            assert (Z : Forall (lt a) (filter f (seq (S a) k))) by exact Y.
            destruct (f a); split; auto; try constructor; auto; eapply Forall_impl; [|exact Z| |exact Z]; simpl; lia. }
          apply Q. }
        split.
        { assert (MC : forall (X Y : Type) (a : list X) (b : list Y), length b = length a -> map fst (combine a b) = a).
          { induction a; intros [|y b] Q; simpl in *; try discriminate; auto. f_equal. apply IHa. lia. }
          now rewrite MC. }
        intros i x I. split.
        * apply vget_Ok. revert I V3. generalize (residues n (cr_stride p) (cr_cycle p)). clear. induction vals; intros [|y q]; simpl; try tauto.
          intros [I|I] Q; injection Q; intros; [injection I as -> ->; auto|eapply IHvals; eauto].
        * apply in_combine_l in I. apply filter_In in I. apply Z.eqb_eq, I. }
  destruct (G _ WF) as (parts & nparts & E1 & E2 & E3 & E4 & F1 & FS & F2). exists parts, nparts. split; auto. split; auto.
  assert (D : l = [] \/ exists d0 : A, True) by (clear; destruct l; [auto|right; eauto]). destruct D as [EL|[d0 _]].
  { assert (N0 : n = 0) by (unfold n; now rewrite EL). rewrite N0 in P. clear N0. subst l. simpl in n. assert (Z : concat (map (fun p => residues n (cr_stride p) (cr_cycle p)) (spieces cr_split t r)) = []).
    { apply Permutation_nil. symmetry. exact P. }
    rewrite Z in *. simpl in E3, E4. destruct (concat parts); [|discriminate]. rewrite E4. simpl. auto 6. }
  set (is_ := concat (map (fun p => residues n (cr_stride p) (cr_cycle p)) (spieces cr_split t r))) in *.
  assert (V : concat parts = map (fun i => nth i l d0) is_).
  { assert (L : forall i, In i is_ -> i < n) by (intros i I; apply (Permutation_in i P) in I; apply in_seq in I; lia).
    revert E3 L. generalize (concat parts). generalize is_. clear. induction is_ as [|i js IH]; intros [|v vs] Q L; simpl in *; try discriminate; auto.
    injection Q as Q1 Q2. f_equal; [|apply IH; auto]. rewrite (@vget_nth _ _ _ d0) in Q1 by (apply L; now left). now injection Q1. }
  assert (SEQL : map (fun i => nth i l d0) (seq 0 n) = l).
  { apply nth_ext_default with (d := d0); rewrite map_length, seq_length; auto. intros i Hi. apply (@nth_map_seq _ (fun i => nth i l d0)). exact Hi. }
  split; [|split; auto].
  - rewrite V. transitivity (map (fun i => nth i l d0) (seq 0 n)); [now apply Permutation_map|now rewrite SEQL].
  - assert (SC : combine (seq 0 n) l = map (fun i => (i, nth i l d0)) (seq 0 n)).
    { assert (Q : combine (map (fun i : nat => i) (seq 0 n)) (map (fun i => nth i l d0) (seq 0 n)) = map (fun i => (i, nth i l d0)) (seq 0 n)) by apply combine_map.
      rewrite SEQL, map_id in Q. exact Q. }
    rewrite E4, V, SC. assert (Q : combine (map (fun i : nat => i) is_) (map (fun i => nth i l d0) is_) = map (fun i => (i, nth i l d0)) is_) by apply combine_map.
    rewrite map_id in Q. rewrite Q. now apply Permutation_map.
Qed.

(** Splitting while is_divisible() gives 2 * 2^e pieces, all of stride 2 * 2^e, where e is the least exponent with
    cutoff <= 2^e: always more than the documented maximum of [cutoff] cycles, even for cutoff 1. *)
Theorem C27_full_split_exceeds_cutoff : forall n cutoff, (0 < cutoff < 2 ^ 62)%N ->
  exists r e t, cr_make n cutoff = Ok r /\
    (cutoff <= 2 ^ N.of_nat e)%N /\ (forall e', (cutoff <= 2 ^ N.of_nat e')%N -> e <= e') /\
    full_split cr_split cr_divisible (S e) r = Ok (spieces cr_split t r) /\
    length (spieces cr_split t r) = 2 * 2 ^ e /\
    (2 * cutoff <= N.of_nat (length (spieces cr_split t r)))%N /\
    forall p, In p (spieces cr_split t r) -> cr_stride p = (2 * 2 ^ Z.of_nat e)%Z.
Proof.
  intros n cutoff H. destruct (@ceil_log2_ok 64 cutoff) as (e & E & L1 & L2); try lia.
  assert (E62 : (e <= 62)%N) by (apply L2; lia).
  assert (P : pow2 64 e = Ok (2 ^ e)%N) by (apply pow2_ok; lia).
  unfold cr_make. rewrite E. cbn [bind]. rewrite P. cbn [bind].
  set (r := {| cr_n := Z.of_nat n; cr_cutoff := Z.of_N (2 ^ e); cr_cycle := 0; cr_stride := 1 |}).
  destruct (@cr_full_split_ok (S (N.to_nat e)) r) as (t & F & L & S); unfold r; cbn [cr_stride cr_cutoff]; [lia| |left; lia|].
  { rewrite N2Z.inj_pow. replace (Z.of_nat (S (N.to_nat e)) - 1)%Z with (Z.of_N e) by lia. lia. }
  exists r, (N.to_nat e), t. split; auto. rewrite N2Nat.id. split; auto. split; [|split; [|split; [|split]]].
  - intros e' Q. apply L2 in Q. lia.
  - exact F.
  - fold r in L. rewrite L. simpl. lia.
  - fold r in L. rewrite L. rewrite Nat2N.inj_pow. replace (N.of_nat (Datatypes.S (N.to_nat e))) with (N.succ e) by lia.
    rewrite N.pow_succ_r'. change (N.of_nat 2) with 2%N. lia.
  - intros p I. rewrite (S p I). fold r. unfold r. cbn [cr_stride]. replace (Z.of_nat (Datatypes.S (N.to_nat e))) with (1 + Z.of_nat (N.to_nat e))%Z by lia.
    rewrite Z.pow_add_r by lia. lia.
Qed.

Example C27_ex : exists r, cr_make 7 3 = Ok r /\
  map (cr_visit 7 [10; 11; 12; 13; 14; 15; 16]) (spieces cr_split (SNode (SNode SLeaf SLeaf) SLeaf) r) =
    [Ok [10; 14]; Ok [12; 16]; Ok [11; 13; 15]].
Proof. eexists. split; reflexivity. Qed.
(** Two elements, documented limit of 3 cycles: 8 pieces, most of them empty, and begin() of the last one is
    formed 5 positions past the end of the container. *)
Example C27_ex_full : exists r ps, cr_make 2 3 = Ok r /\ full_split cr_split cr_divisible 3 r = Ok ps /\ length ps = 8 /\
  map (cr_visit 2 [10; 11]) ps = [Ok [10]; Ok []; Ok []; Ok []; Ok [11]; Ok []; Ok []; Ok []] /\
  map cr_first ps = [0; 4; 2; 6; 1; 5; 3; 7]%Z.
Proof. eexists. eexists. repeat split; reflexivity. Qed.
(** Cutoff 1, documented as "can't be split", splits in two. *)
Example C27_ex_cutoff1 : exists r, cr_make 4 1 = Ok r /\ cr_divisible r = true.
Proof. eexists. split; reflexivity. Qed.

(** * C28 *)
Open Scope Z_scope.
Definition vertices (n : nat) : list Z := map Z.of_nat (seq 0 n).

Lemma ci_diff_0 W a b : 2 <= W -> 0 <= a < W -> 0 <= b < W -> (ci_diff W a b =? 0) = (a =? b).
Proof.
  intros HW Ha Hb. unfold ci_diff. destruct (Z.eqb_spec a b) as [->|N].
  - rewrite Z.sub_diag, Z.mod_0_l by lia. destruct (Z.ltb_spec 0 (W / 2)); [reflexivity|].
    assert (1 <= W / 2) by (apply Z.div_le_lower_bound; lia). lia.
  - assert (M := Z.mod_pos_bound (a - b) W ltac:(lia)).
    assert ((a - b) mod W <> 0). { destruct (Z.le_gt_cases b a); [rewrite Z.mod_small; lia|]. rewrite <- (Z.mod_add _ 1), Z.mod_small by lia. lia. }
    destruct (_ <? _); apply Z.eqb_neq; lia.
Qed.

Lemma vr_loop_ok W k : 2 <= W -> forall i, 0 <= i -> i + Z.of_nat k < W -> forall fuel, (k <= fuel)%nat ->
  vr_loop fuel W i (i + Z.of_nat k) = Ok (map (fun j => i + Z.of_nat j) (seq 0 k)).
Proof.
  intros HW. induction k; intros i H1 H2 fuel F.
  - destruct fuel; cbn [vr_loop]; rewrite ci_diff_0 by lia; rewrite Z.add_0_r, Z.eqb_refl; reflexivity.
  - destruct fuel as [|f]; [lia|]. cbn [vr_loop]. rewrite ci_diff_0 by lia. destruct (Z.eqb_spec i (i + Z.of_nat (S k))); [lia|].
    rewrite (Z.mod_small (i + 1)) by lia. replace (i + Z.of_nat (S k)) with (i + 1 + Z.of_nat k) by lia.
    rewrite IHk by lia. cbn [bind seq map]. f_equal. f_equal; [lia|]. rewrite <- seq_shift, map_map. apply map_ext. intros. lia.
Qed.

(** vertex_range(n) by itself visits 0 .. n-1. *)
Theorem C28_single_pass : forall W n, 2 <= W -> Z.of_nat n < W -> vr_visit n W (vr_make W (Z.of_nat n)) = Ok (vertices n).
Proof.
  intros W n HW H. unfold vr_visit, vr_make. cbn [vr_begin vr_end]. rewrite Z.mod_small by lia.
  exact (@vr_loop_ok W n HW 0 ltac:(lia) ltac:(lia) n (le_n n)).
Qed.
(** But splitting copies the range on both sides, so with k leaves every vertex is visited k times. *)
Theorem C28_split_duplicates : forall W n t, 2 <= W -> Z.of_nat n < W ->
  map (vr_visit n W) (spieces vr_split t (vr_make W (Z.of_nat n))) = repeat (Ok (vertices n)) (leaves t).
Proof.
  intros W n t HW H. assert (G : spieces vr_split t (vr_make W (Z.of_nat n)) = repeat (vr_make W (Z.of_nat n)) (leaves t)).
  { induction t; cbn [spieces leaves]; auto. cbn. fold (vr_make W (Z.of_nat n)).
    change {| vr_begin := 0; vr_end := Z.of_nat n mod W |} with (vr_make W (Z.of_nat n)). rewrite IHt1, IHt2. now rewrite repeat_app. }
  rewrite G. clear G. induction (leaves t); simpl; auto. rewrite IHn0. f_equal. now apply C28_single_pass.
Qed.
(** A client that splits while is_divisible() never stops, for every size up to half the id range
    (even the empty range). *)
Theorem C28_always_divisible : forall W n fuel, 2 <= W -> Z.of_nat n <= W / 2 ->
  vr_divisible W (vr_make W (Z.of_nat n)) = true /\
  full_split vr_split (vr_divisible W) fuel (vr_make W (Z.of_nat n)) = OutOfFuel.
Proof.
  intros W n fuel HW H.
  assert (W2 : W / 2 < W) by (apply Z.div_lt; lia).
  assert (D : vr_divisible W (vr_make W (Z.of_nat n)) = true).
  { unfold vr_divisible, vr_make, ci_diff. cbn [vr_begin vr_end]. apply Z.leb_le. rewrite (Z.mod_small (Z.of_nat n)) by lia.
    destruct n as [|n].
    - rewrite Z.mod_0_l by lia. destruct (0 <? W / 2); lia.
    - replace (0 - Z.of_nat (S n)) with (W - Z.of_nat (S n) + (-1) * W) by lia. rewrite Z.mod_add, Z.mod_small by lia.
      destruct (Z.ltb_spec (W - Z.of_nat (S n)) (W / 2)) as [L|L]; [|lia].
      assert (2 * (W / 2) <= W) by (apply Z.mul_div_le; lia). lia. }
  split; auto. induction fuel; cbn [full_split]; rewrite D; auto. unfold vr_split at 1.
  change {| vr_begin := vr_begin (vr_make W (Z.of_nat n)); vr_end := vr_end (vr_make W (Z.of_nat n)) |} with (vr_make W (Z.of_nat n)).
  rewrite IHfuel. reflexivity.
Qed.
(** Above half the range the signed difference flips and the range is reported indivisible. *)
Theorem C28_large_not_divisible : forall w n, (0 < w) -> 2 ^ w / 2 < n < 2 ^ w -> vr_divisible (2 ^ w) (vr_make (2 ^ w) n) = false.
Proof.
  intros w n Hw H. unfold vr_divisible, vr_make, ci_diff. cbn [vr_begin vr_end]. apply Z.leb_gt.
  assert (E : 2 ^ w = 2 * 2 ^ (w - 1)) by (rewrite <- Z.pow_succ_r by lia; f_equal; lia).
  assert (P : 0 < 2 ^ (w - 1)) by (apply Z.pow_pos_nonneg; lia).
  rewrite E in *. rewrite (Z.mul_comm 2), Z.div_mul in * by lia. set (h := 2 ^ (w - 1)) in *.
  rewrite (Z.mod_small n) by lia. replace (0 - n) with (h * 2 - n + (-1) * (h * 2)) by lia. rewrite Z.mod_add, Z.mod_small by lia.
  destruct (Z.ltb_spec (h * 2 - n) h); lia.
Qed.
Example C28_ex : map (vr_visit 3 (2 ^ 32)) (spieces vr_split (SNode SLeaf (SNode SLeaf SLeaf)) (vr_make (2 ^ 32) 3)) =
  [Ok [0; 1; 2]; Ok [0; 1; 2]; Ok [0; 1; 2]].
Proof. reflexivity. Qed.
Close Scope Z_scope.
Print Assumptions C26_edge_range_enumerates.
Print Assumptions C26_edge_range_offset_unchecked.
Print Assumptions C26_edge_range_splits.
Print Assumptions C26_plain_and_neighbor_ranges.
Print Assumptions C26_full_split_terminates.
Print Assumptions C26_splittable_adaptor.
Print Assumptions C26_splittable_full_split.
Print Assumptions C26_splittable_cutoff_zero_never_stops.
Print Assumptions C27_pieces_partition.
Print Assumptions C27_full_split_exceeds_cutoff.
Print Assumptions C28_single_pass.
Print Assumptions C28_split_duplicates.
Print Assumptions C28_always_divisible.
Print Assumptions C28_large_not_divisible.
