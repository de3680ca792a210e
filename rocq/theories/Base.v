(** Common vocabulary of the model: outcomes of C++ computations, checked vector accesses,
    unstable sorting, and general list lemmas.  No C++ function is modelled here. *)
From Coq Require Import List Arith Lia Permutation Sorting.Sorted Bool.
Import ListNotations.

Set Implicit Arguments.

(** Outcome of a C++ computation: a value, undefined behaviour, or fuel of a loop exhausted. *)
Inductive res (A : Type) : Type :=
| Ok (a : A)
| Ub
| OutOfFuel.
Arguments Ok {A} a.
Arguments Ub {A}.
Arguments OutOfFuel {A}.

Definition bind {A B} (m : res A) (f : A -> res B) : res B :=
  match m with
  | Ok a => f a
  | Ub => Ub
  | OutOfFuel => OutOfFuel
  end.

Notation "'do' x <- m ; f" := (bind m (fun x => f))
  (at level 200, x pattern, m at level 100, f at level 200).

Definition ret {A} (a : A) : res A := Ok a.

Definition is_ok {A} (m : res A) : bool := match m with Ok _ => true | _ => false end.

(** [v[i]] on a std::vector: undefined outside the bounds. *)
Definition vget {A} (l : list A) (i : nat) : res A :=
  match nth_error l i with Some a => Ok a | None => Ub end.

(** Pure update of position [i] (no effect outside the bounds; used only behind [vset]). *)
Fixpoint upd {A} (l : list A) (i : nat) (x : A) : list A :=
  match l, i with
  | [], _ => []
  | _ :: t, 0 => x :: t
  | h :: t, S i' => h :: upd t i' x
  end.

(** [v[i] = x] on a std::vector: undefined outside the bounds. *)
Definition vset {A} (l : list A) (i : nat) (x : A) : res (list A) :=
  if i <? length l then Ok (upd l i x) else Ub.

(** The sub-range [v.begin()+a, v.begin()+b): undefined unless a <= b <= size. *)
Definition vslice {A} (l : list A) (a b : nat) : res (list A) :=
  if (a <=? b) && (b <=? length l) then Ok (firstn (b - a) (skipn a l)) else Ub.

(** Effectful left fold: [for (x : l) s = f(s,x)]. *)
Fixpoint rfold {S X} (f : S -> X -> res S) (l : list X) (s : S) : res S :=
  match l with
  | [] => Ok s
  | x :: t => do s' <- f s x; rfold f t s'
  end.

(** Effectful map. *)
Fixpoint rmap {X Y} (f : X -> res Y) (l : list X) : res (list Y) :=
  match l with
  | [] => Ok []
  | x :: t => do y <- f x; do ys <- rmap f t; Ok (y :: ys)
  end.

(** What std::sort may return when called with the comparison [key a < key b]: any permutation of
    the input with non-decreasing keys.  Models take such a function as a parameter. *)
Definition sorted_by {A} (key : A -> nat) (l : list A) : Prop :=
  StronglySorted (fun a b => key a <= key b) l.

Definition is_sort_by {A} (key : A -> nat) (srt : list A -> list A) : Prop :=
  forall l, Permutation l (srt l) /\ sorted_by key (srt l).

(** Same for an arbitrary comparison [lt]: nothing later is smaller than something earlier. *)
Definition is_sort_lt {A} (lt : A -> A -> bool) (srt : list A -> list A) : Prop :=
  forall l, Permutation l (srt l) /\ StronglySorted (fun a b => lt b a = false) (srt l).

(** Executable instance used in examples: stable insertion sort. *)
Fixpoint insert_by {A} (key : A -> nat) (x : A) (l : list A) : list A :=
  match l with
  | [] => [x]
  | y :: t => if key x <=? key y then x :: l else y :: insert_by key x t
  end.
Fixpoint isort_by {A} (key : A -> nat) (l : list A) : list A :=
  match l with
  | [] => []
  | x :: t => insert_by key x (isort_by key t)
  end.

(** Pure sum of a list. *)
Fixpoint sum (l : list nat) : nat :=
  match l with [] => 0 | x :: t => x + sum t end.

(** ------------------------------------------------------------------ lemmas *)

Lemma bind_Ok A B (m : res A) (f : A -> res B) b :
  bind m f = Ok b <-> exists a, m = Ok a /\ f a = Ok b.
Proof.
  destruct m; simpl; split; intros H; try discriminate; eauto.
  - destruct H as (a0 & E & H). now inversion E; subst.
  - destruct H as (a0 & E & H). discriminate.
  - destruct H as (a0 & E & H). discriminate.
Qed.

Lemma vget_Ok A (l : list A) i a : vget l i = Ok a <-> nth_error l i = Some a.
Proof. unfold vget. destruct (nth_error l i); split; congruence. Qed.

Lemma vget_lt A (l : list A) i : i < length l -> exists a, vget l i = Ok a.
Proof.
  intros H. unfold vget. destruct (nth_error l i) eqn:E; eauto.
  apply nth_error_None in E. lia.
Qed.

Lemma vget_ge A (l : list A) i : length l <= i -> vget l i = Ub.
Proof. intros H. unfold vget. now apply nth_error_None in H as ->. Qed.

Lemma vget_nth A (l : list A) i d : i < length l -> vget l i = Ok (nth i l d).
Proof. intros H. apply vget_Ok. now apply nth_error_nth'. Qed.

Lemma vget_Ok_lt A (l : list A) i a : vget l i = Ok a -> i < length l.
Proof. intros H. apply vget_Ok in H. apply nth_error_Some. congruence. Qed.

Lemma vset_lt A (l : list A) i x : i < length l -> vset l i x = Ok (upd l i x).
Proof. intros H. unfold vset. now apply Nat.ltb_lt in H as ->. Qed.

Lemma vset_ge A (l : list A) i x : length l <= i -> vset l i x = Ub.
Proof. intros H. unfold vset. now apply Nat.ltb_ge in H as ->. Qed.

Lemma vset_Ok A (l l' : list A) i x : vset l i x = Ok l' <-> i < length l /\ l' = upd l i x.
Proof.
  unfold vset. destruct (Nat.ltb_spec i (length l)); split; intros; try (split; [lia|]);
  try congruence; try tauto; try (destruct H0; subst; auto; lia).
Qed.

Lemma upd_length A (l : list A) i x : length (upd l i x) = length l.
Proof. revert i. induction l; destruct i; simpl; auto. Qed.

Lemma nth_error_upd_eq A (l : list A) i x : i < length l -> nth_error (upd l i x) i = Some x.
Proof. revert i. induction l; destruct i; simpl; intros; try lia; auto. apply IHl. lia. Qed.

Lemma nth_error_upd_neq A (l : list A) i j x : i <> j -> nth_error (upd l i x) j = nth_error l j.
Proof. revert i j. induction l; destruct i, j; simpl; intros; try lia; auto. Qed.

Lemma nth_upd_eq A (l : list A) i x d : i < length l -> nth i (upd l i x) d = x.
Proof. revert i. induction l; destruct i; simpl; intros; try lia; auto. apply IHl. lia. Qed.

Lemma nth_upd_neq A (l : list A) i j x d : i <> j -> nth j (upd l i x) d = nth j l d.
Proof. revert i j. induction l; destruct i, j; simpl; intros; try lia; auto. Qed.

Lemma nth_upd A (l : list A) i j x d : i < length l ->
  nth j (upd l i x) d = if j =? i then x else nth j l d.
Proof.
  intros H. destruct (Nat.eqb_spec j i).
  - subst. now apply nth_upd_eq.
  - apply nth_upd_neq. congruence.
Qed.

Lemma upd_ge A (l : list A) i x : length l <= i -> upd l i x = l.
Proof. revert i. induction l; destruct i; simpl; intros; auto; try lia. f_equal. apply IHl. lia. Qed.

Lemma vget_upd_eq A (l : list A) i x : i < length l -> vget (upd l i x) i = Ok x.
Proof. intros. apply vget_Ok. now apply nth_error_upd_eq. Qed.

Lemma vget_upd_neq A (l : list A) i j x : i <> j -> vget (upd l i x) j = vget l j.
Proof. intros. unfold vget. now rewrite nth_error_upd_neq. Qed.

Lemma vslice_Ok A (l : list A) a b : a <= b -> b <= length l ->
  vslice l a b = Ok (firstn (b - a) (skipn a l)).
Proof.
  intros. unfold vslice.
  apply Nat.leb_le in H. apply Nat.leb_le in H0. now rewrite H, H0.
Qed.

Lemma rfold_app S X (f : S -> X -> res S) l1 l2 s :
  rfold f (l1 ++ l2) s = do s' <- rfold f l1 s; rfold f l2 s'.
Proof.
  revert s. induction l1; simpl; intros; auto.
  destruct (f s a); simpl; auto.
Qed.

(** Loop-invariant rule for [rfold]. *)
Lemma rfold_ind S X (f : S -> X -> res S) (P : list X -> S -> Prop) l s :
  P [] s ->
  (forall done x s, P done s -> (exists rest, l = done ++ x :: rest) ->
     exists s', f s x = Ok s' /\ P (done ++ [x]) s') ->
  exists s', rfold f l s = Ok s' /\ P l s'.
Proof.
  intros H0 Hstep.
  assert (G : forall rest done s, l = done ++ rest -> P done s ->
    exists s', rfold f rest s = Ok s' /\ P l s').
  { induction rest; intros done s1 E HP.
    - rewrite app_nil_r in E. subst. simpl. eauto.
    - simpl. destruct (Hstep done a s1 HP) as (s2 & E2 & HP2). { eauto. }
      rewrite E2. simpl. apply (IHrest (done ++ [a])); auto.
      rewrite <- app_assoc. exact E. }
  apply (G l [] s); auto.
Qed.

Lemma rmap_Ok_length X Y (f : X -> res Y) l ys : rmap f l = Ok ys -> length ys = length l.
Proof.
  revert ys. induction l; simpl; intros ys H.
  - now inversion H.
  - apply bind_Ok in H as (y & E & H). apply bind_Ok in H as (ys' & E' & H).
    inversion H; subst. simpl. f_equal. auto.
Qed.

Lemma rmap_ok X Y (f : X -> res Y) (g : X -> Y) l :
  (forall x, In x l -> f x = Ok (g x)) -> rmap f l = Ok (map g l).
Proof.
  induction l; simpl; intros H; auto.
  rewrite H by auto. simpl. rewrite IHl by auto. auto.
Qed.

Lemma sum_app l1 l2 : sum (l1 ++ l2) = sum l1 + sum l2.
Proof. induction l1; simpl; lia. Qed.

Lemma sum_perm l1 l2 : Permutation l1 l2 -> sum l1 = sum l2.
Proof. induction 1; simpl; lia. Qed.

Lemma sum_firstn_S l i : i < length l -> sum (firstn (S i) l) = sum (firstn i l) + nth i l 0.
Proof.
  revert i. induction l as [|a l IH]; intros i H; [simpl in H; lia|].
  destruct i as [|i]; [destruct l; simpl; lia|].
  assert (H' : i < length l) by (simpl in H; lia). specialize (IH i H').
  transitivity (a + sum (firstn (S i) l)); [reflexivity|]. rewrite IH. simpl. lia.
Qed.

Lemma sum_map_ext A (f g : A -> nat) l : (forall x, In x l -> f x = g x) -> sum (map f l) = sum (map g l).
Proof. induction l; simpl; intros H; [reflexivity|]. rewrite H, IHl by auto. reflexivity. Qed.

Lemma sum_map_add A (f g : A -> nat) l :
  sum (map (fun x => f x + g x) l) = sum (map f l) + sum (map g l).
Proof. induction l; simpl; lia. Qed.

Lemma sum_map_0 A (f : A -> nat) l : (forall x, In x l -> f x = 0) -> sum (map f l) = 0.
Proof. induction l; simpl; intros H; [reflexivity|]. rewrite H, IHl by auto. reflexivity. Qed.

Lemma sum_map_le A (f g : A -> nat) l : (forall x, In x l -> f x <= g x) -> sum (map f l) <= sum (map g l).
Proof. induction l; simpl; intros; auto. specialize (IHl (fun x Hx => H x (or_intror Hx))).
  pose proof (H a (or_introl eq_refl)). lia. Qed.

Lemma upd_app1 A (l1 l2 : list A) i x : i < length l1 -> upd (l1 ++ l2) i x = upd l1 i x ++ l2.
Proof. revert i. induction l1; destruct i; simpl; intros; try lia; auto. f_equal. apply IHl1. lia. Qed.

Lemma upd_app2 A (l1 l2 : list A) i x : length l1 <= i -> upd (l1 ++ l2) i x = l1 ++ upd l2 (i - length l1) x.
Proof. revert i. induction l1; simpl; intros. - now rewrite Nat.sub_0_r. - destruct i; [lia|]. simpl. f_equal. apply IHl1. lia. Qed.

Lemma nth_ext_default A (l1 l2 : list A) d :
  length l1 = length l2 -> (forall i, i < length l1 -> nth i l1 d = nth i l2 d) -> l1 = l2.
Proof. intros. now apply nth_ext with d d. Qed.

Lemma insert_by_perm A (key : A -> nat) x l : Permutation (x :: l) (insert_by key x l).
Proof.
  induction l; simpl; auto. destruct (key x <=? key a); auto.
  eapply perm_trans. apply perm_swap. now constructor.
Qed.

Lemma isort_by_is_sort A (key : A -> nat) : is_sort_by key (isort_by key).
Proof.
  intros l. induction l as [|x t [IP IS]]; simpl.
  - split; constructor.
  - split.
    + eapply perm_trans; [|apply insert_by_perm]. now constructor.
    + clear IP. unfold sorted_by in *.
      induction (isort_by key t) as [|y u IHu]; simpl.
      * repeat constructor.
      * destruct (Nat.leb_spec (key x) (key y)).
        { constructor; auto. constructor; auto. inversion IS; subst.
          rewrite Forall_forall in *. intros z Hz. specialize (H3 z Hz). simpl in *. lia. }
        { inversion IS; subst. constructor; auto.
          rewrite Forall_forall in *. intros z Hz.
          apply (Permutation_in _ (Permutation_sym (insert_by_perm key x u))) in Hz.
          destruct Hz as [<-|Hz]; auto. lia. }
Qed.

Lemma is_sort_by_length A (key : A -> nat) srt l : is_sort_by key srt -> length (srt l) = length l.
Proof. intros H. destruct (H l) as [P _]. symmetry. now apply Permutation_length. Qed.

Lemma combine_map A B C (f : A -> B) (g : A -> C) l :
  combine (map f l) (map g l) = map (fun x => (f x, g x)) l.
Proof. induction l; simpl; auto. now rewrite IHl. Qed.

Lemma seq_S_app n : seq 0 (S n) = seq 0 n ++ [n].
Proof. now rewrite seq_S. Qed.

Lemma filter_length_le A (f : A -> bool) l : length (filter f l) <= length l.
Proof. induction l; simpl; auto. destruct (f a); simpl; lia. Qed.

Lemma Permutation_filter A (f : A -> bool) l1 l2 :
  Permutation l1 l2 -> Permutation (filter f l1) (filter f l2).
Proof.
  induction 1; simpl; auto.
  - destruct (f x); auto.
  - destruct (f x), (f y); auto. constructor.
  - eapply perm_trans; eauto.
Qed.

Lemma filter_all A (f : A -> bool) l : (forall x, In x l -> f x = true) -> filter f l = l.
Proof. induction l; simpl; intros; auto. rewrite H by auto. f_equal. auto. Qed.

Lemma filter_none A (f : A -> bool) l : (forall x, In x l -> f x = false) -> filter f l = [].
Proof. induction l; simpl; intros; auto. rewrite H by auto. auto. Qed.

Lemma StronglySorted_app_inv A (R : A -> A -> Prop) l1 l2 :
  StronglySorted R (l1 ++ l2) ->
  StronglySorted R l1 /\ StronglySorted R l2 /\ forall a b, In a l1 -> In b l2 -> R a b.
Proof.
  induction l1; simpl; intros H.
  - repeat split; auto. constructor. intros; contradiction.
  - inversion H; subst. destruct (IHl1 H2) as (S1 & S2 & S12).
    rewrite Forall_forall in H3. repeat split; auto.
    + constructor; auto. rewrite Forall_forall. intros. apply H3. apply in_or_app. auto.
    + intros x y [<-|Hx] Hy; auto. apply H3. apply in_or_app; auto.
Qed.

Lemma StronglySorted_app A (R : A -> A -> Prop) l1 l2 :
  StronglySorted R l1 -> StronglySorted R l2 -> (forall a b, In a l1 -> In b l2 -> R a b) ->
  StronglySorted R (l1 ++ l2).
Proof.
  induction l1; simpl; intros H1 H2 H; auto.
  inversion H1; subst. constructor; auto.
  rewrite Forall_forall in *. intros x Hx. apply in_app_or in Hx as [Hx|Hx]; auto.
Qed.

Lemma nth_map_seq A (f : nat -> A) n i d : i < n -> nth i (map f (seq 0 n)) d = f i.
Proof.
  intros H. rewrite nth_indep with (d' := f 0) by now rewrite map_length, seq_length.
  rewrite map_nth. now rewrite seq_nth.
Qed.

Lemma nth_map_default A B (f : A -> B) l i d d' : i < length l -> nth i (map f l) d' = f (nth i l d).
Proof.
  intros H. rewrite nth_indep with (d' := f d) by now rewrite map_length. apply map_nth.
Qed.
