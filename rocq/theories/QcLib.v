(** Finite sums of exact rationals (canonical fractions, so equality is Leibniz equality). *)
From Coq Require Import List Arith ZArith QArith Qcanon Lia Permutation.
Import ListNotations.
Set Implicit Arguments.
Local Open Scope Qc_scope.

Definition qn (n : nat) : Qc := Q2Qc (inject_Z (Z.of_nat n)).
Lemma qn_0 : qn 0 = 0. Proof. reflexivity. Qed.
Lemma qn_1 : qn 1 = 1. Proof. reflexivity. Qed.
Lemma qn_add a b : qn (a + b) = qn a + qn b.
Proof. unfold qn. apply Qc_is_canon. unfold Qcplus, Qcmult, Q2Qc. cbn [this]. rewrite !Qred_correct, Nat2Z.inj_add, inject_Z_plus. reflexivity. Qed.
Lemma qn_mul a b : qn (a * b) = qn a * qn b.
Proof. unfold qn. apply Qc_is_canon. unfold Qcplus, Qcmult, Q2Qc. cbn [this]. rewrite !Qred_correct, Nat2Z.inj_mul, inject_Z_mult. reflexivity. Qed.
Lemma qn_S a : qn (S a) = 1 + qn a.
Proof. change (S a) with (1 + a)%nat. rewrite qn_add. reflexivity. Qed.
Lemma qn_inj a b : qn a = qn b -> a = b.
Proof.
  unfold qn. intros E. apply (f_equal this) in E. unfold Q2Qc in E. cbn [this] in E. assert (X : (inject_Z (Z.of_nat a) == inject_Z (Z.of_nat b))%Q).
  { now rewrite <- Qred_correct, E, Qred_correct. }
  unfold Qeq in X. cbn in X. lia.
Qed.
Lemma qn_neq0 a : a <> 0%nat -> qn a <> 0.
Proof. intros N E. apply N. apply qn_inj. exact E. Qed.
Lemma qn_le a b : (a <= b)%nat -> qn a <= qn b.
Proof. intros L. unfold qn, Qcle, Q2Qc. cbn [this]. rewrite !Qred_correct. unfold Qle. cbn. lia. Qed.
Lemma qn_nonneg a : 0 <= qn a.
Proof. apply (@qn_le 0). lia. Qed.

Fixpoint qsum (l : list Qc) : Qc := match l with [] => 0 | x :: l' => x + qsum l' end.
Lemma qsum_app a b : qsum (a ++ b) = qsum a + qsum b.
Proof. induction a as [|x a IH]; cbn [qsum app]; [ring|rewrite IH; ring]. Qed.
Lemma qsum_perm a b : Permutation a b -> qsum a = qsum b.
Proof. induction 1; cbn [qsum]; try congruence; ring. Qed.
Section S.
  Variable A : Type.
  Lemma qsum_ext (f h : A -> Qc) l : (forall x, In x l -> f x = h x) -> qsum (map f l) = qsum (map h l).
  Proof. intros E. f_equal. now apply map_ext_in. Qed.
  Lemma qsum_0 (f : A -> Qc) l : (forall x, In x l -> f x = 0) -> qsum (map f l) = 0.
  Proof. induction l as [|x l IH]; intros E; cbn [map qsum]; auto. rewrite IH, E by (try (now left); intros; apply E; now right). ring. Qed.
  Lemma qsum_add (f h : A -> Qc) l : qsum (map (fun x => f x + h x) l) = qsum (map f l) + qsum (map h l).
  Proof. induction l as [|x l IH]; cbn [map qsum]; [ring|rewrite IH; ring]. Qed.
  Lemma qsum_mul (c : Qc) (f : A -> Qc) l : qsum (map (fun x => c * f x) l) = c * qsum (map f l).
  Proof. induction l as [|x l IH]; cbn [map qsum]; [ring|rewrite IH; ring]. Qed.
  Lemma qsum_mulr (c : Qc) (f : A -> Qc) l : qsum (map (fun x => f x * c) l) = qsum (map f l) * c.
  Proof. induction l as [|x l IH]; cbn [map qsum]; [ring|rewrite IH; ring]. Qed.
  Lemma qsum_nonneg (f : A -> Qc) l : (forall x, In x l -> 0 <= f x) -> 0 <= qsum (map f l).
  Proof.
    induction l as [|x l IH]; intros E; cbn [map qsum]; [apply Qcle_refl|]. replace 0 with (0 + 0) by ring. apply Qcplus_le_compat; [apply E; now left|].
    apply IH. intros; apply E; now right.
  Qed.
  Lemma qsum_filter (p : A -> bool) (f : A -> Qc) l : qsum (map f (filter p l)) = qsum (map (fun x => if p x then f x else 0) l).
  Proof. induction l as [|x l IH]; cbn [map filter qsum]; auto. destruct (p x); cbn [map qsum]; rewrite IH; ring. Qed.
End S.
Lemma qsum_swap (A B : Type) (f : A -> B -> Qc) l m :
  qsum (map (fun x => qsum (map (f x) m)) l) = qsum (map (fun y => qsum (map (fun x => f x y) l)) m).
Proof.
  induction l as [|x l IH]; cbn [map qsum].
  - symmetry. apply qsum_0. auto.
  - rewrite IH, <- qsum_add. reflexivity.
Qed.
Lemma qsum_one (f : nat -> Qc) l v : NoDup l -> In v l -> qsum (map (fun t => if (t =? v)%nat then f t else 0) l) = f v.
Proof.
  induction 1 as [|x l N ND IH]; intros I; [destruct I|]. cbn [map qsum]. destruct (Nat.eqb_spec x v) as [->|E].
  - rewrite qsum_0; [ring|]. intros y Y. destruct (Nat.eqb_spec y v) as [->|]; tauto.
  - destruct I as [->|I]; [congruence|]. rewrite IH by auto. ring.
Qed.
(** summing over a list with repetitions, through a duplicate-free list that covers it *)
Lemma qsum_count (f : nat -> Qc) (p : nat -> bool) row l : NoDup l -> (forall x, In x row -> p x = true -> In x l) ->
  qsum (map (fun x => if p x then f x else 0) row) = qsum (map (fun x => if p x then qn (count_occ Nat.eq_dec row x) * f x else 0) l).
Proof.
  intros ND. induction row as [|y row IH]; intros C; cbn [map qsum].
  - symmetry. apply qsum_0. intros x _. destruct (p x); auto. cbn [count_occ]. rewrite qn_0. ring.
  - rewrite IH by (intros; apply C; auto; now right). transitivity (qsum (map (fun x => if (x =? y)%nat then (if p x then f x else 0) else 0) l) +
      qsum (map (fun x => if p x then qn (count_occ Nat.eq_dec row x) * f x else 0) l)).
    + f_equal. destruct (p y) eqn:E.
      * rewrite (@qsum_one (fun x => if p x then f x else 0) l y); auto. now rewrite E. apply C; auto. now left.
      * symmetry. apply qsum_0. intros x _. destruct (Nat.eqb_spec x y) as [->|]; auto. now rewrite E.
    + rewrite <- qsum_add. apply qsum_ext. intros x _. cbn [count_occ]. destruct (Nat.eq_dec y x) as [->|N].
      * rewrite Nat.eqb_refl, qn_S. destruct (p x); ring.
      * replace (x =? y)%nat with false by (symmetry; apply Nat.eqb_neq; auto). destruct (p x); ring.
Qed.
