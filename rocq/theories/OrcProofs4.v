(** Proofs about examples/imdb/oracle.cpp, continued: delink. *)
From Coq Require Import List Arith Lia Bool Ascii String.
From Verif Require Import OrcModel.

Set Implicit Arguments.
Local Open Scope string_scope.

(** ** Specification *)
(** [p] is what precedes the first occurrence of [k] in [l], [q] what follows it. *)
Definition first_occ (k l p q : string) : Prop := l = p ++ k ++ q /\ forall p' q', l = p' ++ k ++ q' -> length p <= length p'.
Definition absent (k l : string) : Prop := forall p q, l <> p ++ k ++ q.
(** What follows the first bar, or everything when there is none. *)
Definition after_bar (m r : string) : Prop := (absent "|" m /\ r = m) \/ exists x, first_occ "|" m x r.

Lemma app_nil_s s : s ++ "" = s. Proof. induction s; cbn; congruence. Qed.
Lemma app_assoc_s a b c : (a ++ b) ++ c = a ++ b ++ c. Proof. induction a; cbn; congruence. Qed.
Lemma app_length_s a b : length (a ++ b) = length a + length b. Proof. induction a; cbn; congruence. Qed.
Lemma substring_0 n s : n = 0 -> substring 0 n s = "". Proof. intros ->. now destruct s. Qed.
Lemma substring_pre k q : substring 0 (length k) (k ++ q) = k.
Proof. induction k as [|c k IH]; cbn [append length]; [apply substring_0; auto|]. cbn [substring]. now rewrite IH. Qed.
Lemma substring_app p k q : substring (length p) (length k) (p ++ k ++ q) = k.
Proof. induction p as [|c p IH]; cbn [append length]; [apply substring_pre|]. exact IH. Qed.
Lemma substring_all n s : length s <= n -> substring 0 n s = s.
Proof. revert n. induction s as [|c s IH]; intros [|n] L; cbn in *; auto; try lia. rewrite IH by lia. reflexivity. Qed.
Lemma substring_tail p q n : length q <= n -> substring (length p) n (p ++ q) = q.
Proof. intros L. induction p as [|c p IH]; cbn [append length]; [now apply substring_all|]. exact IH. Qed.
Lemma substring_split0 : forall k s, substring 0 (length k) s = k -> exists q, s = k ++ q.
Proof.
  induction k as [|c k IH]; intros s H; [exists s; reflexivity|]. cbn [length] in H. destruct s as [|d s]; cbn [substring] in H; [discriminate|]. injection H as -> H. apply IH in H. destruct H as [q ->]. exists q. reflexivity.
Qed.
Lemma substring_split : forall i k s, k <> "" -> substring i (length k) s = k -> exists p q, s = p ++ k ++ q /\ length p = i.
Proof.
  induction i as [|i IH]; intros k s N H.
  - apply substring_split0 in H. destruct H as [q ->]. exists "", q. auto.
  - destruct s as [|c s]; cbn [substring] in H; [congruence|]. destruct (IH k s N H) as (p & q & -> & L). exists (String c p), q. cbn [append length]. auto.
Qed.
Lemma index_first k l p q : k <> "" -> first_occ k l p q -> index 0 k l = Some (length p).
Proof.
  intros N [E H]. destruct (index 0 k l) as [m|] eqn:I.
  - f_equal. assert (A := index_correct1 0 m k l I). destruct (@substring_split m k l N A) as (p' & q' & E' & L'). specialize (H p' q' E').
    destruct (Nat.eq_dec m (length p)) as [|NE]; auto. exfalso. apply (index_correct2 0 m k l I (length p)); try lia. rewrite E. apply substring_app.
  - exfalso. apply (index_correct3 0 (length p) k l I N); [lia|]. rewrite E. apply substring_app.
Qed.
Lemma index_absent k l : k <> "" -> absent k l -> index 0 k l = None.
Proof. intros N A. destruct (index 0 k l) as [m|] eqn:I; auto. destruct (@substring_split m k l N (index_correct1 0 m k l I)) as (p & q & E & _). now apply A in E. Qed.
Lemma index_some k l m : k <> "" -> index 0 k l = Some m -> exists p q, first_occ k l p q /\ length p = m.
Proof.
  intros N I. destruct (@substring_split m k l N (index_correct1 0 m k l I)) as (p & q & E & L). exists p, q. split; auto. split; auto. intros p' q' E'.
  destruct (Nat.le_gt_cases (length p) (length p')) as [|X]; auto. exfalso. apply (index_correct2 0 m k l I (length p')); try lia. rewrite E'. apply substring_app.
Qed.
Lemma index_none k l : k <> "" -> index 0 k l = None -> absent k l.
Proof. intros N I p q E. apply (index_correct3 0 (length p) k l I N); [lia|]. rewrite E. apply substring_app. Qed.
Lemma bar_ok m : after_bar m (match index 0 "|" m with None => m | Some bar => substring (bar + 1) (length m) m end).
Proof.
  destruct (index 0 "|" m) as [i|] eqn:I.
  - destruct (@index_some "|" m i ltac:(discriminate) I) as (p & q & F & <-). right. exists p. destruct F as [E F]. assert (Q : substring (length p + 1) (length m) m = q); [|rewrite Q; split; auto].
    rewrite E at 2. change ("|" ++ q) with (String "|" "" ++ q). rewrite <- app_assoc_s. replace (length p + 1) with (length (p ++ "|")) by (rewrite app_length_s; auto). apply substring_tail. rewrite E, !app_length_s. lia.
  - left. split; auto. apply index_none; auto. discriminate.
Qed.
Lemma delink_absent M l : absent "[[" l -> delink M l = l.
Proof. intros A. unfold delink. rewrite (index_absent (k := "[[")); auto. discriminate. Qed.
Lemma delink_closed M l p m q : length l < M -> first_occ "[[" l p (m ++ "]]" ++ q) -> first_occ "]]" l (p ++ "[[" ++ m) q -> after_bar m (delink M l).
Proof.
  intros LM F1 F2. unfold delink. rewrite (index_first (k := "[[") ltac:(discriminate) F1), (index_first (k := "]]") ltac:(discriminate) F2).
  assert (E := proj1 F1). assert (LE : length l = length p + 2 + length m + 2 + length q) by (rewrite E, !app_length_s; cbn [length]; lia).
  rewrite !app_length_s. cbn [length]. assert (Q : (M + (length p + (2 + length m)) - length p - 2) mod M = length m).
  { replace (M + (length p + (2 + length m)) - length p - 2) with (length m + 1 * M) by lia. rewrite Nat.mod_add by lia. apply Nat.mod_small. lia. }
  rewrite Q. assert (S1 : substring (length p + 2) (length m) l = m).
  { rewrite E. rewrite <- app_assoc_s. replace (length p + 2) with (length (p ++ "[[")) by (rewrite app_length_s; auto). apply substring_app. }
  rewrite S1. apply bar_ok.
Qed.
Lemma no_overlap p q p' q' : p ++ "[[" ++ q = p' ++ "]]" ++ q' -> length p' < length p -> length p' + 2 <= length p.
Proof.
  intros E L. destruct (Nat.eq_dec (length p) (S (length p'))) as [Q|]; [|lia]. exfalso.
  assert (A : substring (length p) 1 (p ++ "[[" ++ q) = "["). { change ("[[" ++ q) with ("[" ++ "[" ++ q). apply (substring_app p "[" ("[" ++ q)). }
  rewrite E, Q in A. change ("]]" ++ q') with ("]" ++ "]" ++ q') in A. rewrite <- app_assoc_s in A. replace (S (length p')) with (length (p' ++ "]")) in A by (rewrite app_length_s; cbn; lia). assert (C := substring_app (p' ++ "]") "]" q'). cbn [length] in A, C. cbn [length] in C. congruence.
Qed.
Lemma delink_open M l p q : length l < M -> first_occ "[[" l p q -> absent "]]" l \/ (exists p' q', l = p' ++ "]]" ++ q' /\ length p' < length p) -> after_bar q (delink M l).
Proof.
  intros LM F1 H. unfold delink. rewrite (index_first (k := "[[") ltac:(discriminate) F1). assert (E := proj1 F1). assert (LE : length l = length p + 2 + length q) by (rewrite E, !app_length_s; cbn [length]; lia).
  assert (X : forall n, length q <= n -> substring (length p + 2) n l = q).
  { intros n Ln. rewrite E. rewrite <- app_assoc_s. replace (length p + 2) with (length (p ++ "[[")) by (rewrite app_length_s; auto). now apply substring_tail. }
  destruct (index 0 "]]" l) as [c|] eqn:I.
  - destruct H as [H|(p' & q' & E' & L')]; [rewrite (index_absent (k := "]]")) in I; auto; discriminate|]. destruct (@index_some "]]" l c ltac:(discriminate) I) as (p2 & q2 & [E2 F2] & <-). specialize (F2 p' q' E').
    assert (Y := no_overlap p q p2 q2 ltac:(congruence) ltac:(lia)). rewrite Nat.mod_small by lia. rewrite X by lia. apply bar_ok.
  - replace (M + (M - 1) - length p - 2) with ((M - 3 - length p) + 1 * M) by lia. rewrite Nat.mod_add by lia. rewrite Nat.mod_small by lia. rewrite X by lia. apply bar_ok.
Qed.
