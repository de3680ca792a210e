(** C75: jones_plassmann_coloring2 (experimental/algorithms/jones_plassmann_coloring.hpp). *)
From Coq Require Import List Arith Lia Bool Permutation.
From Verif Require Import Base GraphLib MisModel MisProofs DagProofs DagProofs2 Jp2Model Jp2Proofs.
Import ListNotations.
Set Implicit Arguments.

Definition proper (g : list (list nat)) (c : list nat) : Prop := forall u v, edge g u v -> nth u c 0 <> nth v c 0.

(** The colours: the number of arcs to earlier vertices (higher degree, or the same and a smaller id) if these vertices have all
    smaller colours, else 0 -- whether or not 0 is in use next to the vertex. *)
Theorem C75_colours g c0 : g <> [] -> targets_ok g -> loop_free g -> length g <= length c0 ->
  exists c, jones_plassmann_coloring2 g c0 = Ok c /\ length c = length c0 /\ (forall v, length g <= v -> nth v c 0 = nth v c0 0) /\
    forall u, u < length g ->
      (nth u c 0 = prior g u /\ forall i, i < prior g u -> exists a, adjacent g a u /\ earlier g a u /\ nth a c 0 = i) \/
      (nth u c 0 = 0 /\ exists i, i < prior g u /\ forall a, adjacent g a u -> earlier g a u -> nth a c 0 <> i).
Proof.
  intros NE HT LF L. destruct (jp2_ok c0 NE HT LF L) as (c & p & s & E & Lc & U & R & C). exists c. split; auto. split; auto. split; auto. intros u Hu. rewrite (C u Hu). unfold choose. rewrite (u_prior U Hu).
  destruct (forallb (fun i => existsb (fun a => nth a c 0 =? i) (nth u p [])) (seq 0 (prior g u))) eqn:F.
  - left. split; auto. intros i Hi. rewrite forallb_forall in F. specialize (F i ltac:(apply in_seq; lia)). apply existsb_exists in F. destruct F as (a & Ia & Ea). apply (in_pred U) in Ia. apply Nat.eqb_eq in Ea. exists a. tauto.
  - right. split; auto. apply not_true_iff_false in F. rewrite forallb_forall in F.
    destruct (existsb (fun i => negb (existsb (fun a => nth a c 0 =? i) (nth u p []))) (seq 0 (prior g u))) eqn:X.
    + apply existsb_exists in X. destruct X as (i & Ii & Xi). apply in_seq in Ii. apply negb_true_iff in Xi. exists i. split; [lia|]. intros a A1 A2 A3.
      assert (existsb (fun a => nth a c 0 =? i) (nth u p []) = true); [|congruence]. apply existsb_exists. exists a. split; [apply (in_pred U); auto|now apply Nat.eqb_eq].
    + exfalso. apply F. intros i Ii. destruct (existsb (fun a => nth a c 0 =? i) (nth u p [])) eqn:Y; auto. exfalso.
      assert (existsb (fun i => negb (existsb (fun a => nth a c 0 =? i) (nth u p []))) (seq 0 (prior g u)) = true); [|congruence]. apply existsb_exists. exists i. rewrite Y. auto.
Qed.

Lemma joins_sym g a u : sym g -> adjacent g a u -> 2 <= joins g a u.
Proof. intros S A. assert (E : edge g a u /\ edge g u a) by (unfold adjacent in A; destruct A; split; auto). unfold joins. destruct E as [E1 E2]. apply (count_occ_In Nat.eq_dec) in E1, E2. lia. Qed.
Lemma prior_ge g u l k : NoDup l -> (forall a, In a l -> a < length g /\ earlier g a u /\ k <= joins g a u) -> k * length l <= prior g u.
Proof.
  intros ND H. unfold prior. etransitivity; [|apply (@sum_incl _ l); auto; intros a I; apply in_seq; apply H in I; lia].
  clear ND. induction l as [|a l IH]; cbn; [lia|]. destruct (H a) as (_ & A & B); [now left|]. apply earlierb_spec in A. rewrite A. assert (k * length l <= sum (map (fun a0 => if earlierb g a0 u then joins g a0 u else 0) l)) by (apply IH; intros; apply H; now right). lia.
Qed.
(** A graph given by both arcs of every edge: every vertex gets colour 0, so the colouring is not proper if there is an edge. *)
Theorem C75_symmetric g c0 : g <> [] -> targets_ok g -> loop_free g -> sym g -> length g <= length c0 ->
  exists c, jones_plassmann_coloring2 g c0 = Ok c /\ (forall u, u < length g -> nth u c 0 = 0) /\ ((exists u v, edge g u v) -> ~ proper g c).
Proof.
  intros NE HT LF SY L. destruct (C75_colours c0 NE HT LF L) as (c & E & _ & _ & C). exists c. split; auto.
  assert (Z : forall u, u < length g -> nth u c 0 = 0).
  { intros u Hu. destruct (C u Hu) as [(A & B)|(A & _)]; auto. destruct (prior g u) as [|k] eqn:P; auto. exfalso.
    assert (W : exists l, NoDup l /\ length l = S k /\ forall a, In a l -> adjacent g a u /\ earlier g a u).
    { assert (W : forall m, m <= S k -> exists l, NoDup (map (fun a => nth a c 0) l) /\ length l = m /\ (forall a, In a l -> nth a c 0 < m) /\ forall a, In a l -> adjacent g a u /\ earlier g a u).
      { induction m as [|m IH]; intros Hm; [exists []; repeat split; try constructor; try (intros a []); destruct H|]. destruct (IH ltac:(lia)) as (l & N1 & N2 & N3 & N4). destruct (B m ltac:(lia)) as (a & A1 & A2 & A3). exists (a :: l).
        split; [cbn [map]; constructor; auto; intros I; apply in_map_iff in I; destruct I as (x & Ex & Ix); apply N3 in Ix; lia|]. split; [cbn; lia|]. split; [intros x [<-|I]; [lia|apply N3 in I; lia]|]. intros x [<-|I]; auto. }
      destruct (W (S k) (le_n _)) as (l & N1 & N2 & _ & N4). exists l. split; [eapply NoDup_map_inv; eauto|auto]. }
    destruct W as (l & N1 & N2 & N3). assert (2 * length l <= prior g u); [|lia]. apply prior_ge; auto. intros a I. destruct (N3 a I) as (A1 & A2).
    split; [destruct A1 as [X|X]; [eapply edge_src; eauto|exact (HT _ _ X)]|]. split; auto. now apply joins_sym. }
  split; auto. intros (u & v & Ed) PR. apply (PR u v Ed). rewrite !Z; auto; [exact (HT _ _ Ed)|eapply edge_src; eauto].
Qed.
(** Each edge given once does not help: a vertex joined to two or more earlier vertices that have nothing before them gets their
    colour. *)
Theorem C75_two_roots g c0 u : g <> [] -> targets_ok g -> loop_free g -> length g <= length c0 -> u < length g -> 2 <= prior g u ->
  (forall a, adjacent g a u -> earlier g a u -> prior g a = 0) ->
  exists c, jones_plassmann_coloring2 g c0 = Ok c /\ nth u c 0 = 0 /\ (forall a, adjacent g a u -> earlier g a u -> nth a c 0 = 0) /\ ~ proper g c.
Proof.
  intros NE HT LF L Hu P R. destruct (C75_colours c0 NE HT LF L) as (c & E & _ & _ & C). exists c. split; auto.
  assert (Z : forall a, adjacent g a u -> earlier g a u -> nth a c 0 = 0).
  { intros a A1 A2. assert (Ha : a < length g) by (destruct A1 as [X|X]; [eapply edge_src; eauto|exact (HT _ _ X)]). destruct (C a Ha) as [(X & _)|(X & _)]; auto. rewrite X. auto. }
  assert (Zu : nth u c 0 = 0). { destruct (C u Hu) as [(A & B)|(A & _)]; auto. destruct (B 1) as (a & A1 & A2 & A3); [lia|]. rewrite Z in A3 by auto. discriminate. }
  split; auto. split; auto. intros PR.
  assert (X : exists a, adjacent g a u /\ earlier g a u).
  { unfold prior in P. assert (Y : exists a, a < length g /\ (if earlierb g a u then joins g a u else 0) <> 0).
    { destruct (existsb (fun a => negb ((if earlierb g a u then joins g a u else 0) =? 0)) (seq 0 (length g))) eqn:X; [apply existsb_exists in X; destruct X as (a & I & Na); apply in_seq in I; apply negb_true_iff, Nat.eqb_neq in Na; exists a; split; [lia|auto]|].
      exfalso. rewrite sum_map_0 in P; [lia|]. intros a I. destruct (Nat.eq_dec (if earlierb g a u then joins g a u else 0) 0); auto. exfalso.
      assert (existsb (fun a => negb ((if earlierb g a u then joins g a u else 0) =? 0)) (seq 0 (length g)) = true); [|congruence]. apply existsb_exists. exists a. split; auto. apply negb_true_iff. now apply Nat.eqb_neq. }
    destruct Y as (a & _ & Na). exists a. destruct (earlierb g a u) eqn:Eb; [|congruence]. apply earlierb_spec in Eb. split; auto. unfold joins in Na. unfold adjacent, edge. rewrite !(count_occ_In Nat.eq_dec). lia. }
  destruct X as (a & A1 & A2). destruct A1 as [X|X]; apply (PR _ _ X); rewrite Zu, Z; auto; now (left + right).
Qed.
(** Where no vertex is joined to earlier vertices by more than one arc, the colours are 0 and 1 and the colouring is proper. *)
Theorem C75_forest g c0 : g <> [] -> targets_ok g -> loop_free g -> length g <= length c0 -> (forall u, u < length g -> prior g u <= 1) ->
  exists c, jones_plassmann_coloring2 g c0 = Ok c /\ proper g c /\ forall u, u < length g -> nth u c 0 <= 1.
Proof.
  intros NE HT LF L P. destruct (C75_colours c0 NE HT LF L) as (c & E & _ & _ & C). exists c. split; auto.
  assert (B : forall u, u < length g -> nth u c 0 <= 1) by (intros u Hu; specialize (P u Hu); destruct (C u Hu) as [(A & _)|(A & _)]; lia).
  split; auto.
  assert (LT : forall u v, edge g u v -> u < length g /\ v < length g) by (intros u v X; split; [eapply edge_src; eauto|exact (HT _ _ X)]).
  assert (K : forall a u, adjacent g a u -> earlier g a u -> nth a c 0 <> nth u c 0).
  { intros a u A1 A2. assert (H : a < length g /\ u < length g) by (destruct A1 as [X|X]; apply LT in X; tauto). destruct H as (Ha & Hu).
    assert (J1 : 1 <= joins g a u) by (unfold adjacent, edge in A1; rewrite !(count_occ_In Nat.eq_dec) in A1; unfold joins; lia).
    assert (ONE : forall b, adjacent g b u -> earlier g b u -> b = a).
    { intros b B1 B2. destruct (Nat.eq_dec b a) as [|N]; auto. exfalso. assert (Hb : b < length g) by (destruct B1 as [X|X]; apply LT in X; tauto).
      assert (J2 : 1 <= joins g b u) by (unfold adjacent, edge in B1; rewrite !(count_occ_In Nat.eq_dec) in B1; unfold joins; lia).
      assert (Q : 1 * length [a; b] <= prior g u); [|specialize (P u Hu); cbn in Q; lia]. apply prior_ge; [repeat constructor; cbn; intuition congruence|]. intros x [<-|[<-|[]]]; auto. }
    assert (P1 : prior g u = 1). { specialize (P u Hu). assert (Q : 1 * length [a] <= prior g u); [|cbn in Q; lia]. apply prior_ge; [repeat constructor; cbn; tauto|]. intros x [<-|[]]; auto. }
    destruct (C u Hu) as [(X & Y)|(X & i & Hi & Y)].
    - destruct (Y 0) as (b & B1 & B2 & B3); [lia|]. rewrite (ONE b B1 B2) in B3. lia.
    - assert (i = 0) by lia. subst i. specialize (Y a A1 A2). lia. }
  intros u v Ed. assert (N : u <> v) by (intros ->; exact (LF _ Ed)). assert (T : earlier g u v \/ earlier g v u) by (unfold earlier; lia). destruct T as [T|T]; [apply K; auto; now left|]. intros Q. symmetry in Q. revert Q. apply K; auto. now right.
Qed.
Theorem C75_empty c0 : jones_plassmann_coloring2 [] c0 = Ub.
Proof. reflexivity. Qed.

(** a triangle: both arcs of every edge, and each edge once *)
Definition tri2 : list (list nat) := [[1; 2]; [0; 2]; [0; 1]].
Example C75_ex_meets : tri2 <> [] /\ targets_ok tri2 /\ loop_free tri2 /\ sym tri2.
Proof.
  assert (K : forall u v, edge tri2 u v -> u < 3 /\ v < 3 /\ u <> v).
  { intros u v I. unfold edge in I. do 3 (destruct u as [|u]; [cbn in I; lia|]). destruct u; destruct I. }
  split; [discriminate|]. split; [intros u v I; apply K in I; cbn; lia|]. split; [intros v I; apply K in I; lia|].
  intros u v I. apply K in I. do 3 (destruct u as [|u]; [do 3 (destruct v as [|v]; [cbn; lia|]); lia|]). lia.
Qed.
Example C75_ex_runs : jones_plassmann_coloring2 tri2 [9; 9; 9; 9] = Ok [0; 0; 0; 9] /\ jones_plassmann_coloring2 [[1; 2]; [2]; []] [9; 9; 9] = Ok [0; 1; 2].
Proof. split; reflexivity. Qed.
(** a cycle of four, each edge once: nothing is before 0 and 1; 2 and 3 are after both *)
Definition two_roots : list (list nat) := [[2; 3]; [2; 3]; []; []].
Example C75_ex_two_roots : prior two_roots 2 = 2 /\ prior two_roots 0 = 0 /\ prior two_roots 1 = 0 /\ jones_plassmann_coloring2 two_roots [9; 9; 9; 9] = Ok [0; 0; 0; 0].
Proof. repeat split. Qed.
Definition path4 : list (list nat) := [[1; 2; 3]; [4]; []; []; [5]; []].
Example C75_ex_forest : (forall u, u < length path4 -> prior path4 u <= 1) /\ jones_plassmann_coloring2 path4 [9; 9; 9; 9; 9; 9] = Ok [0; 1; 1; 1; 0; 1].
Proof. split; [|reflexivity]. intros u Hu. cbn in Hu. do 6 (destruct u as [|u]; [vm_compute; lia|]). lia. Qed.
Print Assumptions C75_colours.
Print Assumptions C75_symmetric.
Print Assumptions C75_two_roots.
Print Assumptions C75_forest.
Print Assumptions C75_empty.
