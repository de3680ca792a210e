From Coq Require Import List Arith NArith Lia Permutation Sorted.
From Verif Require Import Base UtilModel.
Import ListNotations.
Set Implicit Arguments.

(** * log2 *)
Section Log.
Open Scope N_scope.
Lemma log2_val w v : v <> 0 -> v < 2 ^ w -> w - 1 - clz w v = N.log2 v.
Proof.
  intros NZ LT. unfold clz. rewrite N.size_log2 by auto.
  assert (N.log2 v < w). { apply N.log2_lt_pow2; lia. } lia.
Qed.
Lemma log2_ok w v : v <> 0 -> v < 2 ^ w -> log2_ w v = Ok (N.log2 v).
Proof. intros NZ LT. unfold log2_. destruct (N.eqb_spec v 0); [congruence|]. now rewrite log2_val. Qed.
Lemma land_pred v : v <> 0 -> (N.land v (v - 1) =? 0) = (v =? 2 ^ N.log2 v).
Proof.
  intros NZ. destruct (N.log2_spec v) as [L U]; [lia|]. set (k := N.log2 v) in *.
  destruct (N.eqb_spec v (2 ^ k)) as [E|NE].
  - rewrite E. rewrite N.sub_1_r. rewrite <- N.ones_equiv, N.land_ones, N.mod_same; [reflexivity|]. apply N.pow_nonzero. lia.
  - apply N.eqb_neq. intros Z.
    assert (B : N.testbit (N.land v (v - 1)) k = true).
    { rewrite N.land_spec. assert (P : 0 < 2 ^ k) by (apply N.neq_0_lt_0; apply N.pow_nonzero; lia).
      assert (K : N.log2 (v - 1) = k).
      { apply N.log2_unique; [lia|]. split; lia. }
      rewrite <- K at 2. unfold k at 1. rewrite !N.bit_log2; auto. lia. }
    rewrite Z in B. rewrite N.bits_0 in B. discriminate.
Qed.
Lemma ceil_log2_ok w v : v <> 0 -> v < 2 ^ w -> exists e, ceil_log2 w v = Ok e /\ v <= 2 ^ e /\ forall e', v <= 2 ^ e' -> e <= e'.
Proof.
  intros NZ LT. unfold ceil_log2. destruct (N.eqb_spec v 0); [congruence|]. rewrite log2_val by auto.
  rewrite land_pred by auto. destruct (N.log2_spec v) as [L U]; [lia|]. eexists. split; [reflexivity|].
  destruct (N.eqb_spec v (2 ^ N.log2 v)) as [E|NE].
  - rewrite N.add_0_r. split; [lia|]. intros e' He. rewrite E in He. apply N.pow_le_mono_r_iff in He; lia.
  - rewrite N.add_1_r. split; [lia|]. intros e' He. apply N.le_succ_l. apply (N.pow_lt_mono_r_iff 2); lia.
Qed.
Lemma pow2_ok w e : e < w -> pow2 w e = Ok (2 ^ e).
Proof.
  intros H. unfold pow2. rewrite (proj2 (N.ltb_lt e w) H). rewrite N.shiftl_1_l. rewrite N.mod_small; auto.
  apply N.pow_lt_mono_r; lia.
Qed.
End Log.

(** * block *)
Lemma block_ok N n id : 0 < n -> block N n id = Ok (id * (N / n) + Nat.min id (N mod n), S id * (N / n) + Nat.min (S id) (N mod n)).
Proof.
  intros H. unfold block. destruct (Nat.eqb_spec n 0); [lia|]. now rewrite Nat.add_1_r.
Qed.

(** * intersection *)
Definition cnt (x : nat) (l : list nat) : nat := count_occ Nat.eq_dec l x.

Fixpoint merge_size (fuel : nat) (a b : list nat) : nat :=
  match fuel with
  | 0 => 0
  | S f => match a, b with
           | x :: a', y :: b' => if x <? y then merge_size f a' b else if y <? x then merge_size f a b' else S (merge_size f a' b')
           | _, _ => 0 end
  end.
Lemma intersection_loop_merge fuel : forall a b n, length a + length b <= fuel ->
  intersection_loop fuel a b n = Ok (n + merge_size fuel a b).
Proof.
  induction fuel; intros a b n H; destruct a as [|x a], b as [|y b]; simpl in *; try lia; try (f_equal; lia).
  destruct (x <? y); [rewrite IHfuel by (simpl; lia); f_equal; lia|].
  destruct (y <? x); [rewrite IHfuel by (simpl; lia); f_equal; lia|].
  rewrite IHfuel by (simpl; lia). f_equal. lia.
Qed.

(** Sum over any duplicate-free list of keys containing every key of [a]. *)
Lemma cnt_zero_lt x l : Sorted.StronglySorted le l -> (forall y, In y l -> x < y) -> cnt x l = 0.
Proof. intros _ H. unfold cnt. apply count_occ_not_In. intros I. apply H in I. lia. Qed.

Lemma sum_map_ext_in {A} (f g : A -> nat) l : (forall x, In x l -> f x = g x) -> sum (map f l) = sum (map g l).
Proof. induction l; intros H; simpl; auto. rewrite (H a) by now left. rewrite IHl; auto. intros; apply H; now right. Qed.

Lemma sum_bump (f g : nat -> nat) x l : NoDup l -> In x l -> f x = S (g x) -> (forall y, y <> x -> f y = g y) ->
  sum (map f l) = S (sum (map g l)).
Proof.
  induction 1 as [|y l NI ND IH]; intros I E H; [destruct I|]. simpl. destruct I as [->|I].
  - rewrite E. rewrite (sum_map_ext_in f g); [lia|]. intros z Hz. apply H. intros ->. auto.
  - rewrite IH by auto. rewrite (H y); [lia|]. intros ->. auto.
Qed.

Lemma merge_size_spec fuel : forall a b keys, length a + length b <= fuel ->
  StronglySorted le a -> StronglySorted le b -> NoDup keys -> (forall x, In x a -> In x b -> In x keys) ->
  merge_size fuel a b = sum (map (fun x => Nat.min (cnt x a) (cnt x b)) keys).
Proof.
  induction fuel; intros a b keys L SA SB ND K; destruct a as [|x a], b as [|y b]; simpl in L; try lia; cbn [merge_size];
    try (rewrite (sum_map_ext_in _ (fun _ => 0)); [clear; induction keys; auto|]; intros z _; unfold cnt; simpl; try lia; rewrite Nat.min_0_r; reflexivity).
  - inversion SA as [|? ? SA' FA]; inversion SB as [|? ? SB' FB]; subst.
    rewrite Forall_forall in FA, FB.
    destruct (Nat.ltb_spec x y) as [LT|GE].
    + rewrite (IHfuel a (y :: b) keys); auto; [|simpl; lia|intros; apply K; auto; now right].
      apply sum_map_ext_in. intros z _. unfold cnt at 3. simpl count_occ. destruct (Nat.eq_dec x z); auto. subst z.
      assert (Z : cnt x (y :: b) = 0). { unfold cnt. apply count_occ_not_In. intros [E|I]; [lia|]. specialize (FB _ I). lia. }
      rewrite Z. lia.
    + destruct (Nat.ltb_spec y x) as [LT|GE'].
      * rewrite (IHfuel (x :: a) b keys); auto; [|simpl; lia|intros; apply K; auto; now right].
        apply sum_map_ext_in. intros z _. unfold cnt at 4. simpl count_occ. destruct (Nat.eq_dec y z); auto. subst z.
        assert (Z : cnt y (x :: a) = 0). { unfold cnt. apply count_occ_not_In. intros [E|I]; [lia|]. specialize (FA _ I). lia. }
        rewrite Z. lia.
      * assert (x = y) by lia. subst y. rewrite (IHfuel a b keys); auto; [|lia|intros; apply K; now right].
        symmetry. apply sum_bump with (x := x); auto.
        -- apply K; now left.
        -- unfold cnt. simpl. destruct (Nat.eq_dec x x); [lia|congruence].
        -- intros z NE. unfold cnt. simpl. destruct (Nat.eq_dec x z); [congruence|auto].
Qed.

Lemma sum_filter_bool {A} (p : A -> bool) l : sum (map (fun x => if p x then 1 else 0) l) = length (filter p l).
Proof. induction l; simpl; auto. destruct (p a); simpl; lia. Qed.

(** * fetch_add *)
Section FetchAdd.
Context {V : Type} (add : V -> V -> V).

Definition addend_of (t : fa_thread V) : option V :=
  match t with FaStart u => Some u | FaLoop _ u => Some u | FaDone _ => None end.

(** [explains m0 us log m]: log lists (thread, addend, returned value) in the order of the successful CASes. *)
Fixpoint chain (m0 : V) (log : list (nat * V * V)) (m : V) : Prop :=
  match log with
  | [] => m = m0
  | (_, u, r) :: log' => r = m0 /\ chain (add m0 u) log' m
  end.
Lemma chain_snoc log : forall m0 m i u, chain m0 log m -> chain m0 (log ++ [(i, u, m)]) (add m u).
Proof. induction log as [|[[j v] r] log IH]; intros m0 m i u H; simpl in *; [subst; auto|]. destruct H; split; auto. Qed.

(** Thread i of the initial list [us] either has not completed, carrying its addend, or is logged exactly once. *)
Definition inv (m0 : V) (us : list V) (s : V * list (fa_thread V)) (log : list (nat * V * V)) : Prop :=
  chain m0 log (fst s) /\ length (snd s) = length us /\ NoDup (map (fun x => fst (fst x)) log) /\
  (forall i u r, In (i, u, r) log -> nth_error us i = Some u /\ nth_error (snd s) i = Some (FaDone r)) /\
  (forall i t, nth_error (snd s) i = Some t -> match t with
     | FaStart u => nth_error us i = Some u | FaLoop _ u => nth_error us i = Some u
     | FaDone r => exists u, In (i, u, r) log end).

Lemma nth_error_mid {A} (pre : list A) t post i : nth_error (pre ++ t :: post) i =
  if i =? length pre then Some t else nth_error (pre ++ t :: post) i.
Proof. destruct (Nat.eqb_spec i (length pre)); auto. subst. rewrite nth_error_app2, Nat.sub_diag; auto. Qed.
Lemma nth_error_replace {A} (pre : list A) t t' post i : i <> length pre ->
  nth_error (pre ++ t' :: post) i = nth_error (pre ++ t :: post) i.
Proof.
  intros NE. destruct (Nat.lt_ge_cases i (length pre)).
  - now rewrite !nth_error_app1.
  - rewrite !nth_error_app2 by lia. destruct (i - length pre) eqn:E; [lia|]. reflexivity.
Qed.
Lemma nth_error_here {A} (pre : list A) t post : nth_error (pre ++ t :: post) (length pre) = Some t.
Proof. rewrite nth_error_app2, Nat.sub_diag; auto. Qed.

Lemma fa_inv_step m0 us s s' log : inv m0 us s log -> fa_sys_step add s s' -> exists log', inv m0 us s' log'.
Proof.
  intros (C & L & ND & LI & TH) ST. inversion ST as [m m' pre t t' post H]; subst. simpl in *.
  assert (Ht := TH (length pre) t (nth_error_here _ _ _)).
  assert (NL : forall u r, (match t with FaDone _ => False | _ => True end) -> ~ In (length pre, u, r) log).
  { intros u r Q I. apply LI in I. destruct I as [_ I]. rewrite nth_error_here in I. injection I as ->. exact Q. }
  inversion H; subst.
  - exists log. repeat split; simpl; auto.
    + rewrite app_length in *; simpl in *; auto.
    + now apply LI in H0.
    + destruct (LI _ _ _ H0) as [_ I]. destruct (Nat.eq_dec i (length pre)) as [->|NE]; [exfalso; eapply NL; simpl; eauto|].
      erewrite nth_error_replace by eauto. exact I.
    + intros i t1 Hi. destruct (Nat.eq_dec i (length pre)) as [->|NE].
      * rewrite nth_error_here in Hi. injection Hi as <-. exact Ht.
      * apply TH. erewrite nth_error_replace by eauto. exact Hi.
  - exists (log ++ [(length pre, u, m)]). repeat split; simpl; auto.
    + now apply chain_snoc.
    + rewrite app_length in *; simpl in *; auto.
    + rewrite map_app. simpl. rewrite Permutation_app_comm. simpl. constructor; auto.
      intros I. apply in_map_iff in I. destruct I as [[[j v] r] [E I]]. simpl in E. subst j. eapply NL; simpl; eauto.
    + intros. apply in_app_or in H0. destruct H0 as [I|[I|[]]]; [now apply LI in I|]. injection I as <- <- <-. exact Ht.
    + apply in_app_or in H0. destruct H0 as [I|[I|[]]].
      * destruct (Nat.eq_dec i (length pre)) as [->|NE]; [exfalso; eapply NL; simpl; eauto|].
        rewrite (nth_error_replace pre (FaLoop m u) (FaDone m) post NE). now apply LI in I.
      * injection I as <- <- <-. apply nth_error_here.
    + intros i t1 Hi. destruct (Nat.eq_dec i (length pre)) as [->|NE].
      * rewrite nth_error_here in Hi. injection Hi as <-. exists u. apply in_or_app. right. now left.
      * assert (Q := TH i t1). erewrite nth_error_replace in Hi by eauto. specialize (Q Hi). destruct t1; auto.
        destruct Q as [u0 Q]. exists u0. apply in_or_app. now left.
  - exists log. repeat split; simpl; auto.
    + rewrite app_length in *; simpl in *; auto.
    + now apply LI in H0.
    + destruct (LI _ _ _ H0) as [_ I]. destruct (Nat.eq_dec i (length pre)) as [->|NE]; [exfalso; eapply NL; simpl; eauto|].
      erewrite nth_error_replace by eauto. exact I.
    + intros i t1 Hi. destruct (Nat.eq_dec i (length pre)) as [->|NE].
      * rewrite nth_error_here in Hi. injection Hi as <-. exact Ht.
      * apply TH. erewrite nth_error_replace by eauto. exact Hi.
Qed.

Lemma fa_inv_init m0 us : inv m0 us (m0, map FaStart us) [].
Proof.
  repeat split; simpl; auto using NoDup_nil; try contradiction.
  - apply map_length.
  - intros i t H. rewrite nth_error_map in H. destruct (nth_error us i) eqn:E; simpl in H; [|discriminate].
    injection H as <-. auto.
Qed.
Lemma fa_inv_run m0 us s : fa_run add (m0, map FaStart us) s -> exists log, inv m0 us s log.
Proof.
  intros R. remember (m0, map FaStart us) as s0 eqn:E. revert E. induction R; intros ->.
  - exists []. apply fa_inv_init.
  - destruct (IHR eq_refl) as [log I]. eapply fa_inv_step; eauto.
Qed.

(** When every thread has returned the log is a permutation of all calls. *)
Lemma fa_final m0 us m rs : fa_run add (m0, map FaStart us) (m, map FaDone rs) ->
  exists order, Permutation order (seq 0 (length us)) /\
    length rs = length us /\
    exists log, map (fun x => fst (fst x)) log = order /\ chain m0 log m /\
      forall i u r, In (i, u, r) log -> nth_error us i = Some u /\ nth_error rs i = Some r.
Proof.
  intros R. destruct (@fa_inv_run m0 us _ R) as (log & C & L & ND & LI & TH). simpl in *. rewrite map_length in L.
  exists (map (fun x => fst (fst x)) log). split; [|split; [auto|]].
  - apply NoDup_Permutation; auto using seq_NoDup. intros i. rewrite in_seq. split.
    + intros I. apply in_map_iff in I. destruct I as [[[j u] r] [E I]]. simpl in E. subst j. apply LI in I.
      destruct I as [I _]. assert (nth_error us i <> None) by congruence. apply nth_error_Some in H. lia.
    + intros H. destruct (nth_error rs i) as [r|] eqn:E; [|apply nth_error_None in E; lia].
      destruct (TH i (FaDone r)) as [u I]; [rewrite nth_error_map, E; reflexivity|].
      apply in_map_iff. exists (i, u, r). auto.
  - exists log. split; [auto|split; auto]. intros i u r I. destruct (LI _ _ _ I) as [A B]. split; auto.
    rewrite nth_error_map in B. destruct (nth_error rs i); simpl in B; [|discriminate]. now injection B as ->.
Qed.

(** Progress: from any state every thread can finish (no deadlock). *)
End FetchAdd.
