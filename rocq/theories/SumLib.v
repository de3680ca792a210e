(** Finite sums of naturals over an initial segment, and counting. *)
From Coq Require Import List Arith Lia Bool Permutation.
From Verif Require Import Base.
Import ListNotations.
Set Implicit Arguments.

(** Sum of f 0 .. f (n-1). *)
Definition bsum (n : nat) (f : nat -> nat) : nat := sum (map f (seq 0 n)).
Definition b2n (b : bool) : nat := if b then 1 else 0.
Definition mem (x : nat) (l : list nat) : bool := existsb (Nat.eqb x) l.
Lemma mem_In x l : mem x l = true <-> In x l.
Proof. unfold mem. rewrite existsb_exists. split; [intros (y & I & E); apply Nat.eqb_eq in E; now subst|intros I; exists x; split; auto; apply Nat.eqb_refl]. Qed.
Lemma mem_false x l : mem x l = false <-> ~ In x l.
Proof. rewrite <- mem_In. destruct (mem x l); split; congruence. Qed.
Lemma bsum_ext n f g : (forall i, i < n -> f i = g i) -> bsum n f = bsum n g.
Proof. intros H. apply sum_map_ext. intros x I. apply in_seq in I. apply H. lia. Qed.
Lemma bsum_S n f : bsum (S n) f = bsum n f + f n.
Proof. unfold bsum. rewrite seq_S_app, map_app, sum_app. simpl. lia. Qed.
Lemma bsum_add n f g : bsum n (fun i => f i + g i) = bsum n f + bsum n g.
Proof. apply sum_map_add. Qed.
Lemma bsum_0 n f : (forall i, i < n -> f i = 0) -> bsum n f = 0.
Proof. intros H. apply sum_map_0. intros x I. apply in_seq in I. apply H. lia. Qed.
Lemma bsum_mul n c f : bsum n (fun i => c * f i) = c * bsum n f.
Proof. induction n; [unfold bsum; simpl; lia|]. rewrite !bsum_S, IHn. lia. Qed.
Lemma bsum_swap n m f : bsum n (fun a => bsum m (fun b => f a b)) = bsum m (fun b => bsum n (fun a => f a b)).
Proof.
  induction n.
  - symmetry. apply bsum_0. reflexivity.
  - rewrite bsum_S, IHn, <- bsum_add. apply bsum_ext. intros i _. now rewrite bsum_S.
Qed.
Lemma sum_filter (A : Type) (p : A -> bool) (f : A -> nat) l : sum (map f (filter p l)) = sum (map (fun x => b2n (p x) * f x) l).
Proof. induction l as [|x l IH]; simpl; auto. destruct (p x); simpl; rewrite IH; lia. Qed.
Lemma filter_len (A : Type) (p : A -> bool) l : length (filter p l) = sum (map (fun x => b2n (p x)) l).
Proof. induction l as [|x l IH]; simpl; auto. destruct (p x); simpl; rewrite IH; lia. Qed.
(** A sum over a duplicate-free list of numbers below n. *)
Lemma sum_row n l f : NoDup l -> (forall x, In x l -> x < n) -> sum (map f l) = bsum n (fun x => b2n (mem x l) * f x).
Proof.
  intros ND H. unfold bsum. rewrite <- sum_filter. apply sum_perm, Permutation_map. apply NoDup_Permutation; auto.
  - apply NoDup_filter, seq_NoDup.
  - intros x. rewrite filter_In, mem_In, in_seq. split; [intros I; split; auto; split; [lia|apply H; auto]|tauto].
Qed.
Lemma sum_prod (A B : Type) (f : A * B -> nat) la lb : sum (map f (list_prod la lb)) = sum (map (fun a => sum (map (fun b => f (a, b)) lb)) la).
Proof.
  induction la as [|a la IH]; simpl; auto. rewrite map_app, sum_app, IH. f_equal. rewrite map_map. reflexivity.
Qed.
Lemma b2n_and a b : b2n (a && b) = b2n a * b2n b.
Proof. destruct a, b; reflexivity. Qed.
