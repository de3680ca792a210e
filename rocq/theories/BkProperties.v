(** C73: bk_maxflow (algorithms/boykov_kolmogorov.hpp). *)
From Coq Require Import List Arith ZArith Bool Lia.
From Verif Require Import Base BkModel BkLib BkProofs BkProofs2.
Import ListNotations.
Local Open Scope nat_scope.

(** On every graph, for every vector of vertex capacities, the function ends without undefined behaviour, and what it returns is the
    value of a flow plus the (negative) capacities towards the terminal that line 75 adds at the start.  [infd] is INFINITE_D. *)
Theorem C73_flow infd g cap : bk_graph g -> length cap = length g ->
  exists v labels, bk_maxflow infd g cap = Ok (v, labels) /\ length labels = length g /\
    exists f x, is_flow (length g) (arc_cap g) (fun p => nth p cap 0%Z) f x /\ flow_value (length g) x = (v - neg cap)%Z.
Proof.
  intros G L. destruct (bk_ok false infd g cap G L) as (v & labels & E & LL & f & x & F & V & _). exists v, labels. split; auto. split; auto. exists f, x. auto.
Qed.

(** So it never exceeds the capacity of a cut. *)
Theorem C73_below_every_cut infd g cap v labels : bk_graph g -> length cap = length g -> bk_maxflow infd g cap = Ok (v, labels) ->
  forall term, (v - neg cap <= cut_value (length g) (arc_cap g) (fun p => nth p cap 0%Z) term)%Z.
Proof.
  intros G L E term. destruct (C73_flow infd g cap G L) as (v' & labels' & E' & _ & f & x & F & V). assert (v' = v) by congruence. subst v'.
  rewrite <- V. apply (weak_duality term F).
Qed.

(** With the arcs tested at lines 308 and 310 exchanged (an orphan that finds no parent makes active the neighbours that can reach it,
    not those that it can reach), the flow is a maximum flow and the labels are a minimum cut. *)
Theorem C73_exchanged infd g cap : bk_graph g -> length cap = length g ->
  let b p := nth p cap 0%Z in
  exists v labels, bk_gen true infd g cap = Ok (v, labels) /\ length labels = length g /\
    (exists f x, is_flow (length g) (arc_cap g) b f x /\ flow_value (length g) x = (v - neg cap)%Z) /\
    (v - neg cap = cut_value (length g) (arc_cap g) b (fun p => nth p labels true))%Z /\
    (forall f x, is_flow (length g) (arc_cap g) b f x -> (flow_value (length g) x <= v - neg cap)%Z) /\
    (forall term, (v - neg cap <= cut_value (length g) (arc_cap g) b term)%Z).
Proof.
  intros G L b. destruct (bk_ok true infd g cap G L) as (v & labels & E & LL & f & x & F & V & C). fold b in F, C. specialize (C eq_refl).
  exists v, labels. split; auto. split; auto. split; [exists f, x; auto|]. split; [congruence|]. split.
  - intros f' x' F'. rewrite <- V, C. apply (weak_duality _ F').
  - intros term. rewrite <- V. apply (weak_duality _ F).
Qed.

(** As it is, the flow need not be a maximum flow ... *)
Definition ex_g1 : list (list (nat * Z)) :=
  [[(8, 1%Z)]; [(5, 1%Z); (10, 0%Z)]; [(6, 3%Z); (8, 0%Z); (7, 0%Z)]; [(11, 3%Z)]; [(5, 1%Z); (10, 0%Z)]; [(4, 0%Z); (1, 0%Z)];
   [(10, 2%Z); (11, 1%Z); (2, 0%Z)]; [(8, 0%Z); (11, 2%Z); (9, 0%Z); (2, 2%Z)]; [(9, 1%Z); (0, 0%Z); (7, 3%Z); (11, 2%Z); (2, 1%Z)];
   [(7, 1%Z); (8, 0%Z)]; [(6, 0%Z); (4, 2%Z); (11, 0%Z); (1, 1%Z)]; [(7, 0%Z); (8, 0%Z); (10, 1%Z); (3, 0%Z); (6, 0%Z)]].
Definition ex_c1 : list Z := [1; 0; 0; 3; -1; -2; 0; 0; 6; 0; 0; -7]%Z.
(** ... nor the labels a minimum cut when it is. *)
Definition ex_g2 : list (list (nat * Z)) :=
  [[(1, 1%Z)]; [(5, 1%Z); (0, 0%Z); (3, 1%Z)]; [(4, 0%Z)]; [(5, 1%Z); (1, 0%Z)]; [(6, 0%Z); (2, 1%Z)]; [(6, 1%Z); (1, 0%Z); (3, 0%Z)]; [(5, 0%Z); (4, 1%Z)]].
Definition ex_c2 : list Z := [1; 1; -1; 0; 0; 0; 0]%Z.

(** deciding bk_graph, for the examples *)
Definition bk_graphb (g : list (list (nat * Z))) : bool :=
  forallb (fun p => forallb (fun q => existsb (Nat.eqb p) (nbr g q)) (nbr g p) && negb (existsb (Nat.eqb p) (nbr g p)) &&
    forallb (fun a => 0 <=? snd a)%Z (nth p g [])) (seq 0 (length g)).
Lemma bk_graphb_ok g : bk_graphb g = true -> (forall p, p < length g -> NoDup (nbr g p)) -> bk_graph g.
Proof.
  intros H ND. unfold bk_graphb in H. rewrite forallb_forall in H.
  assert (OUT : forall p, length g <= p -> nth p g [] = []) by (intros p L; now apply nth_overflow).
  assert (Q : forall p, p < length g -> (forall q, In q (nbr g p) -> In p (nbr g q)) /\ ~ In p (nbr g p) /\ (forall a, In a (nth p g []) -> (0 <= snd a)%Z)).
  { intros p L. specialize (H p ltac:(apply in_seq; lia)). apply andb_true_iff in H as [H H3]. apply andb_true_iff in H as [H1 H2].
    rewrite forallb_forall in H1, H3. apply negb_true_iff in H2. split; [|split].
    - intros q I. specialize (H1 q I). apply existsb_exists in H1 as (y & Y & E). apply Nat.eqb_eq in E. congruence.
    - intros I. assert (existsb (Nat.eqb p) (nbr g p) = true) by (apply existsb_exists; exists p; split; auto; apply Nat.eqb_refl). congruence.
    - intros a I. apply Z.leb_le. auto. }
  split; [|split; [|split]].
  - intros p q I. destruct (Nat.lt_ge_cases p (length g)) as [L|L]; [now apply Q|]. unfold nbr in I. rewrite OUT in I by auto. destruct I.
  - intros p. destruct (Nat.lt_ge_cases p (length g)) as [L|L]; [now apply Q|]. unfold nbr. rewrite OUT by auto. intros [].
  - intros p. destruct (Nat.lt_ge_cases p (length g)) as [L|L]; auto. unfold nbr. rewrite OUT by auto. constructor.
  - intros p. destruct (Nat.lt_ge_cases p (length g)) as [L|L]; [now apply Q|]. rewrite OUT by auto. intros a [].
Qed.
Lemma nodup_ok g : forallb (fun p => length (nodup Nat.eq_dec (nbr g p)) =? length (nbr g p)) (seq 0 (length g)) = true -> forall p, p < length g -> NoDup (nbr g p).
Proof.
  intros H p L. rewrite forallb_forall in H. specialize (H p ltac:(apply in_seq; lia)). apply Nat.eqb_eq in H.
  apply NoDup_incl_NoDup with (l := nodup Nat.eq_dec (nbr g p)); [apply NoDup_nodup|lia|]. intros x I. now apply nodup_In in I.
Qed.
Ltac graph := apply bk_graphb_ok; [vm_compute; reflexivity|apply nodup_ok; vm_compute; reflexivity].

Example ex_g1_ok : bk_graph ex_g1. Proof. graph. Qed.
Example ex_g2_ok : bk_graph ex_g2. Proof. graph. Qed.

Theorem C73_not_maximum : exists infd g cap v labels f x, bk_graph g /\ length cap = length g /\ bk_maxflow infd g cap = Ok (v, labels) /\
  is_flow (length g) (arc_cap g) (fun p => nth p cap 0%Z) f x /\ (v - neg cap < flow_value (length g) x)%Z.
Proof.
  destruct (C73_exchanged 1000 ex_g1 ex_c1 ex_g1_ok eq_refl) as (v & labels & E & _ & (f & x & F & V) & _).
  exists 1000, ex_g1, ex_c1. exists (-1)%Z, [false; true; true; true; true; true; true; true; false; false; true; true], f, x. split; [exact ex_g1_ok|]. split; [reflexivity|]. split; [vm_compute; reflexivity|]. split; [exact F|].
  rewrite V. assert (E2 : bk_gen true 1000 ex_g1 ex_c1 = Ok (0%Z, labels)). { vm_compute in E |- *. congruence. }
  assert (v = 0%Z) by congruence. subst v. vm_compute. reflexivity.
Qed.

Theorem C73_not_minimum_cut : exists infd g cap v labels term, bk_graph g /\ length cap = length g /\ bk_maxflow infd g cap = Ok (v, labels) /\
  (v - neg cap = cut_value (length g) (arc_cap g) (fun p => nth p cap 0%Z) term)%Z /\
  (cut_value (length g) (arc_cap g) (fun p => nth p cap 0%Z) term < cut_value (length g) (arc_cap g) (fun p => nth p cap 0%Z) (fun p => nth p labels true))%Z.
Proof.
  exists 1000, ex_g2, ex_c2, 0%Z, [false; false; true; false; true; true; true], (fun p => nth p [false; false; true; false; true; false; true] true).
  split; [exact ex_g2_ok|]. split; [reflexivity|]. split; [vm_compute; reflexivity|]. split; vm_compute; reflexivity.
Qed.

(** The hypotheses of C73_flow and C73_exchanged hold of ex_g1; a flow of 9 (of at most 10) is found: 9 - 10 = -1. *)
Example ex_C73_code : bk_maxflow 1000 ex_g1 ex_c1 = Ok ((-1)%Z, [false; true; true; true; true; true; true; true; false; false; true; true]).
Proof. vm_compute. reflexivity. Qed.
Example ex_C73_exchanged : fst (match bk_gen true 1000 ex_g1 ex_c1 with Ok r => r | _ => (100%Z, []) end) = 0%Z /\ neg ex_c1 = (-10)%Z.
Proof. vm_compute. auto. Qed.
Print Assumptions C73_flow.
Print Assumptions C73_below_every_cut.
Print Assumptions C73_exchanged.
Print Assumptions C73_not_maximum.
Print Assumptions C73_not_minimum_cut.
