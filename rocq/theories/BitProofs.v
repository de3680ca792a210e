From Coq Require Import List Arith NArith Lia Permutation Bool.
From Verif Require Import Base BitModel.
Import ListNotations.
Set Implicit Arguments.

(** Bit [p] of the vector, independently of get. *)
Definition bit_at (B : nat) (data : list N) (p : nat) : bool :=
  N.testbit (nth (p / B) data 0%N) (N.of_nat (p mod B)).

Lemma land_shiftl_zero w k : (N.land w (N.shiftl 1 k) =? 0)%N = negb (N.testbit w k).
Proof.
  destruct (N.testbit w k) eqn:T; cbn [negb].
  - apply N.eqb_neq. intros Z. assert (N.testbit (N.land w (N.shiftl 1 k)) k = true).
    { rewrite N.land_spec, T, N.shiftl_spec_high' by lia. rewrite N.sub_diag. reflexivity. }
    rewrite Z, N.bits_0 in H. discriminate.
  - apply N.eqb_eq. apply N.bits_inj_0. intros j. rewrite N.land_spec. destruct (N.eq_dec j k) as [->|NE].
    + now rewrite T.
    + rewrite N.shiftl_1_l, N.pow2_bits_false by auto. apply andb_false_r.
Qed.

Lemma words_lt B n i : 0 < B -> i < n -> i / B < words B n.
Proof.
  intros HB H. unfold words. destruct (Nat.eqb_spec (n mod B) 0) as [E|E].
  - rewrite Nat.add_0_r. apply Nat.div_lt_upper_bound; [lia|]. pose proof (Nat.div_mod n B). lia.
  - apply Nat.div_lt_upper_bound; [lia|]. pose proof (Nat.div_mod n B). pose proof (Nat.mod_upper_bound n B). lia.
Qed.

Lemma bv_set_ok B data i : 0 < B -> i / B < length data ->
  exists r data', bv_set B data i = Ok (r, data') /\ length data' = length data /\
    ((r =? 0)%N = negb (bit_at B data i)) /\ forall j, bit_at B data' j = bit_at B data j || (j =? i).
Proof.
  intros HB HL. unfold bv_set, bv_split. rewrite (@vget_nth N _ _ 0%N) by auto. cbn [bind].
  rewrite vset_lt by auto. cbn [bind]. eexists _, _. split; [reflexivity|]. split; [apply upd_length|].
  split; [apply land_shiftl_zero|]. intros j. unfold bit_at. destruct (Nat.eq_dec (j / B) (i / B)) as [E|NE].
  - rewrite E, nth_upd_eq by auto. rewrite N.lor_spec. f_equal.
    rewrite N.shiftl_1_l. destruct (Nat.eqb_spec j i) as [->|NE].
    + apply N.pow2_bits_true.
    + apply N.pow2_bits_false. intros Q. apply Nat2N.inj in Q. apply NE.
      pose proof (Nat.div_mod j B). pose proof (Nat.div_mod i B). rewrite E in H. lia.
  - rewrite nth_upd_neq by auto. destruct (Nat.eqb_spec j i) as [->|]; [congruence|]. now rewrite orb_false_r.
Qed.

Lemma bv_get_ok B data i : i / B < length data ->
  exists r, bv_get B data i = Ok r /\ ((r =? 0)%N = negb (bit_at B data i)).
Proof.
  intros HL. unfold bv_get, bv_split. rewrite (@vget_nth N _ _ 0%N) by auto. cbn [bind]. eexists. split; [reflexivity|].
  apply land_shiftl_zero.
Qed.
Lemma bv_new_bits B n i : bit_at B (bv_new B n) i = false.
Proof.
  unfold bit_at, bv_new. rewrite nth_repeat. apply N.bits_0.
Qed.

(** * Concurrent sets *)
Definition done_calls (ts : list bv_thread) : list (nat * N) := concat (map snd ts).
Definition wins (i : nat) (l : list (nat * N)) : nat := length (filter (fun x => (fst x =? i) && (snd x =? 0)%N) l).

Definition bv_inv (B : nat) (d0 : list N) (css : list (list nat)) (s : list N * list bv_thread) : Prop :=
  length (fst s) = length d0 /\
  Forall2 (fun calls t => map fst (snd t) ++ fst t = calls) css (snd s) /\
  (forall j, bit_at B (fst s) j = bit_at B d0 j || existsb (Nat.eqb j) (map fst (done_calls (snd s)))) /\
  (forall j, wins j (done_calls (snd s)) =
     if bit_at B d0 j then 0 else if existsb (Nat.eqb j) (map fst (done_calls (snd s))) then 1 else 0).

Lemma existsb_perm (A : Type) (f : A -> bool) l l' : Permutation l l' -> existsb f l = existsb f l'.
Proof. induction 1; simpl; auto; try congruence. destruct (f x), (f y); auto. Qed.

Lemma done_step pre i calls results r post :
  Permutation (done_calls (pre ++ (calls, results ++ [(i, r)]) :: post))
              ((i, r) :: done_calls (pre ++ (i :: calls, results) :: post)).
Proof.
  unfold done_calls. rewrite !map_app, !concat_app. simpl.
  transitivity (concat (map snd pre) ++ (i, r) :: (results ++ concat (map snd post))).
  - apply Permutation_app_head. rewrite <- app_assoc. simpl. symmetry. apply Permutation_middle.
  - symmetry. apply Permutation_middle.
Qed.

Lemma Forall2_mid (A C : Type) (R : A -> C -> Prop) l pre x post : Forall2 R l (pre ++ x :: post) ->
  forall y, (forall a, R a x -> R a y) -> Forall2 R l (pre ++ y :: post).
Proof.
  revert l. induction pre; intros l F y H; inversion F; subst; simpl; constructor; auto.
Qed.

Lemma bv_inv_step B d0 css s s' : 0 < B -> bv_inv B d0 css s ->
  (forall i, In i (concat css) -> i / B < length d0) ->
  bv_step B s s' -> bv_inv B d0 css s'.
Proof.
  intros HB (L & F & BT & W) BD ST. inversion ST as [data data' pre i calls results r post E]; subst. simpl in *.
  assert (Hi : i / B < length data).
  { rewrite L. apply BD. apply Forall2_app_inv_r in F. destruct F as (l1 & l2 & F1 & F2 & ->).
    inversion F2 as [|c ? l2' ? Q]; subst. simpl in *. rewrite concat_app. apply in_or_app. right. simpl.
    apply in_or_app. left. apply in_or_app. right. now left. }
  destruct (@bv_set_ok B data i HB Hi) as (r1 & d1 & E1 & L1 & Z & Bit). rewrite E in E1. injection E1 as <- <-.
  pose proof (done_step pre i calls results r post) as P.
  split; [|split; [|split]]; simpl.
  - congruence.
  - eapply Forall2_mid; [exact F|]. simpl. intros a <-. rewrite map_app. simpl. now rewrite <- app_assoc.
  - intros j. rewrite (existsb_perm _ (Permutation_map fst P)). simpl. rewrite Bit, BT.
    rewrite (orb_comm (j =? i)). now rewrite orb_assoc.
  - intros j. unfold wins. rewrite (Permutation_length (Permutation_filter _ P)).
    rewrite (existsb_perm _ (Permutation_map fst P)). simpl.
    specialize (W j). unfold wins in W. destruct (Nat.eqb_spec i j) as [->|NE]; simpl.
    + rewrite Nat.eqb_refl. simpl. rewrite Z, BT. 
      destruct (bit_at B d0 j); simpl; [exact W|].
      destruct (existsb (Nat.eqb j) _); simpl; rewrite ?W; auto.
    + rewrite W. destruct (Nat.eqb_spec j i); [congruence|]. reflexivity.
Qed.

Lemma bv_inv_init B d0 css : bv_inv B d0 css (d0, map (fun c => (c, [])) css).
Proof.
  assert (E : done_calls (map (fun c => (c, [])) css) = []) by (unfold done_calls; induction css; auto).
  split; [|split; [|split]]; simpl; auto.
  - induction css; simpl; constructor; auto. 
  - intros j. rewrite E. simpl. now rewrite orb_false_r.
  - intros j. rewrite E. simpl. now destruct (bit_at B d0 j).
Qed.
Lemma bv_inv_run B d0 css s : 0 < B -> (forall i, In i (concat css) -> i / B < length d0) ->
  bv_run B (d0, map (fun c => (c, [])) css) s -> bv_inv B d0 css s.
Proof.
  intros HB BD R. remember (d0, map (fun c => (c, [])) css) as s0 eqn:E. revert E. induction R; intros ->.
  - apply bv_inv_init.
  - eapply bv_inv_step; eauto.
Qed.

(** * Non-zero iteration *)
Section NonZero.
Variables (B n : nat) (data : list N).
Hypothesis HB : 0 < B.
Hypothesis HN : n <= length data.
Hypothesis HW : forall w, In w data -> (w < 2 ^ N.of_nat B)%N.

Definition bitd (p : nat) : bool := bit_at B data p.
Definition first_from (lo q : nat) : Prop :=
  lo <= q <= n * B /\ (forall r, lo <= r < q -> bitd r = false) /\ (q < n * B -> bitd q = true).

Lemma pos_ctz_spec p : N.testbit (Npos p) (N.of_nat (pos_ctz p)) = true /\
  forall k, k < pos_ctz p -> N.testbit (Npos p) (N.of_nat k) = false.
Proof.
  induction p as [p IH|p IH|]; simpl pos_ctz.
  - split; [reflexivity|]. intros; lia.
  - destruct IH as [I1 I2]. split.
    + change (N.pos p~0) with (2 * N.pos p)%N. rewrite Nat2N.inj_succ. rewrite N.double_bits_succ. exact I1.
    + intros k Hk. change (N.pos p~0) with (2 * N.pos p)%N. destruct k; [now apply N.testbit_even_0|].
      rewrite Nat2N.inj_succ, N.double_bits_succ. apply I2. lia.
  - split; [reflexivity|]. intros; lia.
Qed.
Lemma ctz_spec w : w <> 0%N -> N.testbit w (N.of_nat (ctz w)) = true /\ forall k, k < ctz w -> N.testbit w (N.of_nat k) = false.
Proof. destruct w; [congruence|]. intros _. apply pos_ctz_spec. Qed.

Lemma bitd_word w b : b < B -> bitd (w * B + b) = N.testbit (nth w data 0%N) (N.of_nat b).
Proof.
  intros H. unfold bitd, bit_at. rewrite Nat.div_add_l by lia. rewrite (Nat.div_small b) by auto.
  rewrite Nat.add_0_r. rewrite Nat.add_comm, Nat.mod_add by lia. now rewrite Nat.mod_small.
Qed.
Lemma word_high w b : w < length data -> B <= b -> N.testbit (nth w data 0%N) (N.of_nat b) = false.
Proof.
  intros Hw Hb. set (v := nth w data 0%N). destruct (N.eq_dec v 0) as [->|NZ]; [apply N.bits_0|].
  apply N.bits_above_log2. assert (v < 2 ^ N.of_nat B)%N by (apply HW; now apply nth_In).
  apply N.log2_lt_pow2 in H; lia.
Qed.

Lemma split_pos r w : w * B <= r -> r < S w * B -> exists b, b < B /\ r = w * B + b.
Proof. intros H1 H2. exists (r - w * B). simpl in H2. split; lia. Qed.

Lemma search_next_ok fuel : forall word, word <= n -> n - word <= fuel ->
  exists w b, search_next fuel data n word = Ok (w, b) /\ b < B /\ first_from (word * B) (w * B + b).
Proof.
  induction fuel; intros word Hw Hf; simpl.
  - destruct (Nat.ltb_spec word n); [lia|]. exists n, 0. split; auto. split; auto.
    assert (word = n) by lia. subst. split; [lia|]. split; intros; lia.
  - destruct (Nat.ltb_spec word n) as [L|G].
    + rewrite (@vget_nth N _ _ 0%N) by lia. cbn [bind]. destruct (N.eqb_spec (nth word data 0%N) 0) as [Z|NZ].
      * destruct (IHfuel (word + 1)) as (w & b & E & Hb & [R1 [R2 R3]]); [lia|lia|]. exists w, b. split; auto. split; auto.
        split; [lia|]. split; auto. intros r Hr. destruct (Nat.lt_ge_cases r ((word + 1) * B)).
        -- destruct (@split_pos r word) as (c & Hc & ->); [lia|lia|]. rewrite bitd_word by auto. rewrite Z. apply N.bits_0.
        -- apply R2. lia.
      * exists word, (ctz (nth word data 0%N)). destruct (ctz_spec NZ) as [T F]. split; auto.
        assert (C : ctz (nth word data 0%N) < B).
        { destruct (Nat.lt_ge_cases (ctz (nth word data 0%N)) B); auto. rewrite word_high in T by (lia || auto). discriminate. }
        split; auto. split; [assert (S word * B <= n * B) by (apply Nat.mul_le_mono_r; lia); lia|]. split.
        -- intros r Hr. destruct (@split_pos r word) as (c & Hc & ->); [lia|lia|]. rewrite bitd_word by auto. apply F. lia.
        -- intros _. rewrite bitd_word by auto. exact T.
    + exists n, 0. split; auto. split; auto. assert (word = n) by lia. subst. split; [lia|]. split; intros; lia.
Qed.

Lemma nz_next_ok w b : b < B -> w < n -> 
  exists w' b', nz_next B data n (w, b) = Ok (w', b') /\ b' < B /\ first_from (w * B + b + 1) (w' * B + b').
Proof.
  intros Hb Hw. unfold nz_next. rewrite (proj2 (Nat.ltb_lt w n) Hw). simpl andb.
  assert (SN : (forall c, b < c -> c < B -> bitd (w * B + c) = false) ->
     exists w' b', search_next n data n (w + 1) = Ok (w', b') /\ b' < B /\ first_from (w * B + b + 1) (w' * B + b')).
  { intros HZ. destruct (@search_next_ok n (w + 1)) as (w' & b' & E & Hb' & [R1 [R2 R3]]); [lia|lia|].
    exists w', b'. split; auto. split; auto. split; [lia|]. split; auto. intros r Hr.
    destruct (Nat.lt_ge_cases r ((w + 1) * B)); [|apply R2; lia].
    destruct (@split_pos r w) as (c & Hc & ->); [lia|lia|]. apply HZ; lia. }
  destruct (Nat.ltb_spec (b + 1) B) as [L|G].
  - rewrite (@vget_nth N _ _ 0%N) by lia. cbn [bind].
    destruct (N.eqb_spec (N.shiftr (nth w data 0%N) (N.of_nat (b + 1))) 0) as [Z|NZ].
    + apply SN. intros c H1 H2. rewrite bitd_word by auto.
      assert (Q : N.testbit (N.shiftr (nth w data 0%N) (N.of_nat (b + 1))) (N.of_nat (c - (b + 1))) = false) by (rewrite Z; apply N.bits_0).
      rewrite N.shiftr_spec' in Q. replace (N.of_nat (c - (b + 1)) + N.of_nat (b + 1))%N with (N.of_nat c) in Q by lia. exact Q.
    + set (v := N.shiftr (nth w data 0%N) (N.of_nat (b + 1))) in *. destruct (ctz_spec NZ) as [T F].
      assert (SH : forall k, N.testbit v (N.of_nat k) = N.testbit (nth w data 0%N) (N.of_nat (b + 1 + k))).
      { intros k. unfold v. rewrite N.shiftr_spec'. f_equal. lia. }
      rewrite SH in T. exists w, (b + 1 + ctz v). split; auto.
      assert (C : b + 1 + ctz v < B).
      { destruct (Nat.lt_ge_cases (b + 1 + ctz v) B); auto. rewrite word_high in T by (lia || auto). discriminate. }
      split; auto. split; [assert (S w * B <= n * B) by (apply Nat.mul_le_mono_r; lia); lia|]. split.
      * intros r Hr. destruct (@split_pos r w) as (c & Hc & ->); [lia|lia|]. rewrite bitd_word by auto.
        assert (Q := F (c - (b + 1))). rewrite SH in Q. replace (b + 1 + (c - (b + 1))) with c in Q by lia. apply Q. lia.
      * intros _. rewrite bitd_word by auto. exact T.
  - apply SN. intros. lia.
Qed.

Lemma filter_bits_none lo len : (forall r, lo <= r < lo + len -> bitd r = false) -> filter bitd (seq lo len) = [].
Proof. intros H. apply filter_none. intros x I. apply in_seq in I. apply H. lia. Qed.

Lemma pos_inj w b w' b' : b < B -> b' < B -> w * B + b = w' * B + b' -> w = w' /\ b = b'.
Proof.
  intros H1 H2 E. assert (w = w'). { assert ((w * B + b) / B = (w' * B + b') / B) by congruence. rewrite !Nat.div_add_l, !Nat.div_small in H by lia. lia. }
  subst. split; auto. lia.
Qed.
Lemma nz_collect_ok fuel : forall lo hi w b we be,
  b < B -> be < B -> lo <= hi -> hi <= n * B -> hi - lo <= fuel ->
  first_from lo (w * B + b) -> first_from hi (we * B + be) ->
  nz_collect fuel B data n (w, b) (we, be) = Ok (filter bitd (seq lo (hi - lo))).
Proof.
  induction fuel as [|fuel IH]; intros lo hi w b we be Hb Hbe H1 H2 Hf F1 F2;
    (destruct (Nat.eq_dec (w * B + b) (we * B + be)) as [E|NE];
     [destruct (@pos_inj w b we be Hb Hbe E) as [-> ->]; simpl; rewrite !Nat.eqb_refl; simpl;
      rewrite filter_bits_none; auto; intros r Hr; apply F1; destruct F2 as [F2 _]; lia|]).
  - exfalso. destruct F1 as (A1 & A2 & A3), F2 as (C1 & C2 & C3). assert (lo = hi) by lia. subst hi.
    destruct (Nat.lt_trichotomy (w * B + b) (we * B + be)) as [L|[L|L]]; auto.
    + rewrite C2 in A3 by lia. discriminate A3. lia.
    + rewrite A2 in C3 by lia. discriminate C3. lia.
  - assert (Q : (fst (w, b) =? fst (we, be)) && (snd (w, b) =? snd (we, be)) = false).
    { apply andb_false_iff. simpl. destruct (Nat.eqb_spec w we); [right|now left]. apply Nat.eqb_neq. intros ->. congruence. }
    cbn [nz_collect]. rewrite Q.
    assert (LT : w * B + b < hi).
    { destruct F1 as (A1 & A2 & A3), F2 as (C1 & C2 & C3).
      destruct (Nat.lt_ge_cases (w * B + b) hi); auto. exfalso.
      destruct (Nat.lt_trichotomy (w * B + b) (we * B + be)) as [L|[L|L]]; auto.
      + rewrite C2 in A3 by lia. discriminate A3. lia.
      + rewrite A2 in C3 by lia. discriminate C3. lia. }
    assert (Hw : w < n). { destruct (Nat.lt_ge_cases w n); auto. assert (n * B <= w * B) by (apply Nat.mul_le_mono_r; auto). lia. }
    destruct (@nz_next_ok w b Hb Hw) as (w' & b' & E & Hb' & F'). rewrite E. cbn [bind].
    rewrite (IH (w * B + b + 1) hi) by (auto; destruct F1; lia). cbn [bind fst snd]. f_equal.
    destruct F1 as (A1 & A2 & A3).
    replace (hi - lo) with ((w * B + b - lo) + S (hi - (w * B + b + 1))) by lia.
    rewrite seq_app, filter_app. rewrite (@filter_bits_none lo (w * B + b - lo)) by (intros; apply A2; lia). simpl app.
    replace (lo + (w * B + b - lo)) with (w * B + b) by lia. cbn [seq filter].
    rewrite A3 by lia. now rewrite Nat.add_1_r.
Qed.

Lemma nz_visit_ok r fuel : nz_first r <= nz_last r -> nz_last r <= n -> nz_size r * B <= fuel ->
  nz_visit fuel B data n r = Ok (filter bitd (seq (nz_first r * B) (nz_size r * B))).
Proof.
  intros H1 H2 H3. unfold nz_visit, nz_iter.
  destruct (@search_next_ok n (nz_first r)) as (w & b & E & Hb & F); [lia|lia|].
  destruct (@search_next_ok n (nz_last r)) as (we & be & Ee & Hbe & Fe); [lia|lia|].
  rewrite E, Ee. cbn [bind]. unfold nz_size in *. rewrite Nat.mul_sub_distr_r in *. apply nz_collect_ok; auto.
  - now apply Nat.mul_le_mono_r.
  - now apply Nat.mul_le_mono_r.
Qed.
End NonZero.
