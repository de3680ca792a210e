(** C21, C22: the concurrent bit vector. *)
From Coq Require Import List Arith NArith Lia Permutation Bool.
From Verif Require Import Base BitModel BitProofs.
Import ListNotations.
Set Implicit Arguments.

(** Specification: position p of an array of B-bit words. *)
Definition bit_set (B : nat) (data : list N) (p : nat) : Prop :=
  N.testbit (nth (p / B) data 0%N) (N.of_nat (p mod B)) = true.
Lemma bit_set_at B data p : bit_set B data p <-> bit_at B data p = true.
Proof. reflexivity. Qed.

(** get reports the bit: its result is non-zero iff the bit is set. *)
Theorem C21_get : forall B bits data i, 0 < B -> length data = words B bits -> i < bits ->
  exists r, bv_get B data i = Ok r /\ (r <> 0%N <-> bit_set B data i).
Proof.
  intros B bits data i HB HL Hi. destruct (@bv_get_ok B data i) as (r & E & Z).
  - rewrite HL. now apply words_lt.
  - exists r. split; auto. rewrite bit_set_at. destruct (N.eqb_spec r 0); destruct (bit_at B data i); simpl in Z; split; congruence.
Qed.

Theorem C21_new_vector_is_clear : forall B bits i, ~ bit_set B (bv_new B bits) i.
Proof. intros B bits i. rewrite bit_set_at, bv_new_bits. discriminate. Qed.

(** [css]: one list of set calls per thread. [s] is any state in which every thread has returned from all its calls. *)
Definition all_returned (ts : list bv_thread) : Prop := Forall (fun t => fst t = []) ts.
Definition calls_of (css : list (list nat)) (i : nat) : Prop := In i (concat css).
(** Number of calls set(i) that reported a clear bit. *)
Definition winners (i : nat) (ts : list bv_thread) : nat :=
  length (filter (fun x => (fst x =? i) && (snd x =? 0)%N) (concat (map snd ts))).

Theorem C21_concurrent_sets : forall B bits data css data' ts,
  0 < B -> length data = words B bits -> (forall i, calls_of css i -> i < bits) ->
  bv_run B (data, map (fun c => (c, [])) css) (data', ts) -> all_returned ts ->
  (* every thread made exactly its calls, in its order *)
  map (fun t => map fst (snd t)) ts = css /\
  (* lossless, nothing else changes *)
  length data' = length data /\
  (forall j, bit_set B data' j <-> bit_set B data j \/ calls_of css j) /\
  (* one winner *)
  (forall j, calls_of css j -> ~ bit_set B data j -> winners j ts = 1) /\
  (forall j, bit_set B data j -> winners j ts = 0).
Proof.
  intros B bits data css data' ts HB HL HC R AR.
  assert (I : bv_inv B data css (data', ts)).
  { apply bv_inv_run; auto. intros i Hi. rewrite HL. apply words_lt; auto. }
  destruct I as (L & F & BT & W). simpl in *.
  assert (E : map (fun t => map fst (snd t)) ts = css).
  { clear - F AR. induction F as [|c t css ts Q F IH]; auto. inversion AR; subst. simpl. rewrite IH by auto. 
    rewrite H1, app_nil_r. reflexivity. }
  assert (D : forall j, existsb (Nat.eqb j) (map fst (done_calls ts)) = true <-> calls_of css j).
  { intros j. unfold calls_of. rewrite <- E. unfold done_calls. rewrite existsb_exists.
    rewrite concat_map, map_map. split.
    - intros (x & Hx & Q). apply Nat.eqb_eq in Q. now subst.
    - intros Hx. exists j. split; auto. apply Nat.eqb_refl. }
  split; [auto|]. split; [auto|]. split; [|split].
  - intros j. rewrite !bit_set_at, BT, orb_true_iff, D. reflexivity.
  - intros j Hj NB. unfold winners. specialize (W j). unfold wins, done_calls in W. rewrite W.
    rewrite bit_set_at in NB. destruct (bit_at B data j); [congruence|]. apply D in Hj. unfold done_calls in Hj. now rewrite Hj.
  - intros j Bj. unfold winners. specialize (W j). unfold wins, done_calls in W. rewrite W.
    rewrite bit_set_at in Bj. now rewrite Bj.
Qed.

(** No call is ever undefined: whatever has happened, every thread with a pending call can take its step. *)
Theorem C21_no_undefined_call : forall B bits data css data' pre i calls results post,
  0 < B -> length data = words B bits -> (forall i, calls_of css i -> i < bits) ->
  bv_run B (data, map (fun c => (c, [])) css) (data', pre ++ (i :: calls, results) :: post) ->
  exists s, bv_step B (data', pre ++ (i :: calls, results) :: post) s.
Proof.
  intros B bits data css data' pre i calls results post HB HL HC R.
  assert (I : bv_inv B data css (data', pre ++ (i :: calls, results) :: post)).
  { apply bv_inv_run; auto. intros k Hk. rewrite HL. apply words_lt; auto. }
  destruct I as (L & F & _). simpl in *.
  assert (Hi : i < bits).
  { apply HC. apply Forall2_app_inv_r in F. destruct F as (l1 & l2 & F1 & F2 & ->).
    inversion F2 as [|c ? l2' ? Q]; subst. simpl in *. unfold calls_of. rewrite concat_app. apply in_or_app. right. simpl.
    apply in_or_app. left. apply in_or_app. right. now left. }
  destruct (@bv_set_ok B data' i HB) as (r & d & E & _); [rewrite L, HL; now apply words_lt|].
  eexists. constructor. exact E.
Qed.

(** 8-bit words, 20 bits, two threads setting {3, 17} and {17, 9}; bit 9 was set before. *)
Definition ex_bv : list N := [0; 2; 0]%N.
Example C21_ex : bv_run 8 (ex_bv, map (fun c => (c, [])) [[3; 17]; [17; 9]])
  ([8; 2; 2]%N, [([], [(3, 0%N); (17, 2%N)]); ([], [(17, 0%N); (9, 2%N)])]).
Proof.
  simpl. eapply bv_more with (s2 := ([8; 2; 2]%N, [([], [(3, 0%N); (17, 2%N)]); ([9], [(17, 0%N)])])).
  eapply bv_more with (s2 := ([8; 2; 2]%N, [([17], [(3, 0%N)]); ([9], [(17, 0%N)])])).
  eapply bv_more with (s2 := ([8; 2; 0]%N, [([17], [(3, 0%N)]); ([17; 9], [])])).
  eapply bv_more with (s2 := ([0; 2; 0]%N, [([3; 17], []); ([17; 9], [])])); [constructor|].
  - refine (@bv_call 8 _ _ [] 3 [17] [] _ _ _). reflexivity.
  - refine (@bv_call 8 _ _ [([17], [(3, 0%N)])] 17 [9] [] _ [] _). reflexivity.
  - refine (@bv_call 8 _ _ [] 17 [] [(3, 0%N)] _ _ _). reflexivity.
  - refine (@bv_call 8 _ _ [([], [(3, 0%N); (17, 2%N)])] 9 [] [(17, 0%N)] _ [] _). reflexivity.
Qed.
Example C21_ex_result : winners 17 [([], [(3, 0%N); (17, 2%N)]); ([], [(17, 0%N); (9, 2%N)])] = 1 /\
  winners 9 [([], [(3, 0%N); (17, 2%N)]); ([], [(17, 0%N); (9, 2%N)])] = 0.
Proof. now vm_compute. Qed.

(** * C22 *)
(** Set positions in [lo, hi), ascending. *)
Definition set_positions (B : nat) (data : list N) (lo hi : nat) : list nat :=
  filter (fun p => N.testbit (nth (p / B) data 0%N) (N.of_nat (p mod B))) (seq lo (hi - lo)).
Definition words_wf (B : nat) (data : list N) : Prop := Forall (fun w => (w < 2 ^ N.of_nat B)%N) data.

Theorem C22_iteration_enumerates_set_bits : forall B bits data cutoff fuel,
  0 < B -> length data = words B bits -> words_wf B data -> words B bits * B <= fuel ->
  nz_visit fuel B data (words B bits) (non_zeros B bits cutoff)
  = Ok (set_positions B data 0 (words B bits * B)).
Proof.
  intros B bits data cutoff fuel HB HL HW HF.
  rewrite nz_visit_ok; simpl; auto; try lia.
  - unfold nz_size, set_positions. simpl. now rewrite !Nat.sub_0_r.
  - intros w I. unfold words_wf in HW. rewrite Forall_forall in HW. auto.
  - unfold nz_size. simpl. lia.
Qed.

(** Recursive splitting: the tree says which pieces are split again; pieces are listed left to right. *)
Inductive split_tree : Type := Leaf | Node (l r : split_tree).
Fixpoint nz_pieces (t : split_tree) (r : nz_range) : list nz_range :=
  match t with
  | Leaf => [r]
  | Node t1 t2 => let (a, b) := nz_split r in nz_pieces t1 a ++ nz_pieces t2 b
  end.

Lemma set_positions_app B data lo mid hi : lo <= mid -> mid <= hi ->
  set_positions B data lo hi = set_positions B data lo mid ++ set_positions B data mid hi.
Proof.
  intros H1 H2. unfold set_positions. replace (hi - lo) with ((mid - lo) + (hi - mid)) by lia.
  rewrite seq_app, filter_app. now replace (lo + (mid - lo)) with mid by lia.
Qed.

Theorem C22_split_pieces_concatenate : forall B bits data cutoff fuel t,
  0 < B -> length data = words B bits -> words_wf B data -> words B bits * B <= fuel ->
  exists parts,
    map (nz_visit fuel B data (words B bits)) (nz_pieces t (non_zeros B bits cutoff)) = map Ok parts /\
    concat parts = set_positions B data 0 (words B bits * B).
Proof.
  intros B bits data cutoff fuel t HB HL HW HF.
  assert (G : forall t r, nz_first r <= nz_last r -> nz_last r <= words B bits ->
     exists parts, map (nz_visit fuel B data (words B bits)) (nz_pieces t r) = map Ok parts /\
       concat parts = set_positions B data (nz_first r * B) (nz_last r * B)).
  { clear t. induction t as [|t1 IH1 t2 IH2]; intros r H1 H2; cbn [nz_pieces]; [cbn [map]|unfold nz_split].
    - exists [set_positions B data (nz_first r * B) (nz_last r * B)]. split; [|simpl; now rewrite app_nil_r].
      rewrite nz_visit_ok; auto; [|lia|intros w I; unfold words_wf in HW; rewrite Forall_forall in HW; auto|].
      + unfold nz_size, set_positions. now rewrite Nat.mul_sub_distr_r.
      + unfold nz_size. transitivity (words B bits * B); auto. apply Nat.mul_le_mono_r. lia.
    - set (mid := nz_first r + nz_size r / 2).
      assert (M : nz_first r <= mid <= nz_last r).
      { unfold mid, nz_size. pose proof (Nat.div_mod (nz_last r - nz_first r) 2). lia. }
      destruct (IH1 (mkNz (nz_first r) mid (nz_cutoff r))) as (p1 & E1 & C1); simpl; [lia|lia|].
      destruct (IH2 (mkNz mid (nz_last r) (nz_cutoff r))) as (p2 & E2 & C2); simpl; [lia|lia|].
      exists (p1 ++ p2). rewrite !map_app, E1, E2. split; auto. rewrite concat_app, C1, C2. cbn [nz_first nz_last].
      symmetry. apply set_positions_app; apply Nat.mul_le_mono_r; lia. }
  destruct (G t (non_zeros B bits cutoff)) as (p & E & C); simpl; [lia|lia|]. exists p. auto.
Qed.

(** Bits below [bits] only: when no bit beyond the logical end is set (always true of vectors built with
    clear() and set() on valid indices) the enumeration is exactly the set indices. *)
Theorem C22_only_valid_indices : forall B bits data,
  0 < B -> length data = words B bits -> (forall p, bit_set B data p -> p < bits) ->
  forall p, In p (set_positions B data 0 (words B bits * B)) <-> bit_set B data p.
Proof.
  intros B bits data HB HL HV p. unfold set_positions. rewrite filter_In, in_seq. unfold bit_set in *. split; [tauto|].
  intros H. split; auto. split; [lia|]. assert (p < bits) by auto.
  assert (p / B < words B bits) by now apply words_lt.
  pose proof (Nat.div_mod p B). pose proof (Nat.mod_upper_bound p B).
  assert (S (p / B) * B <= words B bits * B) by (apply Nat.mul_le_mono_r; lia). simpl in *. lia.
Qed.

(** With cutoff 0 a one-word range reports itself divisible and its split gives an empty piece and itself back:
    a client that splits while is_divisible() never finishes. *)
Theorem C22_cutoff_zero_never_stops : forall w,
  let r := mkNz w (S w) 0 in
  nz_divisible r = true /\ nz_split r = (mkNz w w 0, r).
Proof.
  intros w r. unfold r, nz_divisible, nz_split, nz_size. cbn [nz_first nz_last nz_cutoff].
  replace (S w - w) with 1 by lia. simpl. now rewrite Nat.add_0_r.
Qed.
(** With a positive cutoff every split of a divisible range gives two strictly smaller pieces. *)
Theorem C22_positive_cutoff_terminates : forall r, 0 < nz_cutoff r -> nz_divisible r = true ->
  0 < nz_size (fst (nz_split r)) < nz_size r /\ 0 < nz_size (snd (nz_split r)) < nz_size r.
Proof.
  intros r HC D. unfold nz_divisible in D. apply Nat.ltb_lt in D. unfold nz_split, nz_size in *. cbn [fst snd nz_first nz_last nz_cutoff].
  pose proof (Nat.div_mod (nz_last r - nz_first r) 2). pose proof (Nat.mod_upper_bound (nz_last r - nz_first r) 2). lia.
Qed.

Example C22_ex : nz_visit 24 8 [8; 0; 130]%N 3 (non_zeros 8 20 1) = Ok [3; 17; 23].
Proof. now vm_compute. Qed.
Example C22_ex_split : map (nz_visit 24 8 [8; 0; 130]%N 3) (nz_pieces (Node Leaf (Node Leaf Leaf)) (non_zeros 8 20 1))
  = [Ok [3]; Ok []; Ok [17; 23]].
Proof. now vm_compute. Qed.

Print Assumptions C21_get.
Print Assumptions C21_new_vector_is_clear.
Print Assumptions C21_concurrent_sets.
Print Assumptions C21_no_undefined_call.
Print Assumptions C22_iteration_enumerates_set_bits.
Print Assumptions C22_split_pieces_concatenate.
Print Assumptions C22_only_valid_indices.
Print Assumptions C22_cutoff_zero_never_stops.
Print Assumptions C22_positive_cutoff_terminates.
