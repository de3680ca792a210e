(** C57: the parallel delta_stepping, under every schedule.  The specification is SsspLib's [wwalk] and [shortest], as
    for the sequential version (C33).  [ind] is what line 192 reads from the unset `success` (see ParDsModel.v). *)
From Coq Require Import List Arith Lia Bool.
From Verif Require Import Base SsspModel SsspLib SsspProofs SsspProperties ParDsModel ParDsProofs.
Import ListNotations.
Set Implicit Arguments.

(** The values the sequential version computes. *)
Definition shortest_map (g : wgraph) (s inf : nat) (dist : list nat) : Prop := length dist = length g /\
  forall v, v < length g ->
    (wreach g s v -> shortest g s v (nth v dist inf) /\ nth v dist inf < inf) /\
    (~ wreach g s v -> nth v dist inf = inf).

Lemma cut_shortest g s inf d : 0 < inf -> no_overflow g s inf -> cut_dist g s inf d -> shortest_map g s inf d.
Proof.
  intros HI NO [LD C]. split; auto. intros v Hv. destruct (C v Hv) as (LE & C1 & C2). split.
  - intros (d' & W). destruct (wreach_spath W) as (l & p & P). assert (X := @spath_below g s inf _ _ _ HI NO P).
    assert (LT : nth v d inf < inf).
    { destruct (Nat.eq_dec (nth v d inf) inf) as [E|N]; [|lia]. assert (Y := C2 E l (spath_wwalk P _ _ (or_introl eq_refl))). lia. }
    auto.
  - intros NR. destruct (Nat.eq_dec (nth v d inf) inf) as [E|N]; auto. exfalso. apply NR. exists (nth v d inf). apply C1. lia.
Qed.

Lemma cut_unique g s inf d d' : cut_dist g s inf d -> cut_dist g s inf d' -> d = d'.
Proof.
  intros [L C] [L' C']. apply (nth_ext _ _ inf inf); [congruence|]. intros v Hv. rewrite L in Hv.
  destruct (C v Hv) as (LE & A & B). destruct (C' v Hv) as (LE' & A' & B').
  destruct (Nat.eq_dec (nth v d inf) inf) as [E|N], (Nat.eq_dec (nth v d' inf) inf) as [E'|N']; [congruence| | |].
  - destruct (A' ltac:(lia)) as [W _]. specialize (B E _ W). lia.
  - destruct (A ltac:(lia)) as [W _]. specialize (B' E' _ W). lia.
  - eapply shortest_fun; [apply A|apply A']; lia.
Qed.

(** If the unset flag happens to read false (or is initialised), every schedule gives the shortest distances. *)
Theorem C57_flag_false fuel D inf g source delta ind sched :
  wtargets_ok g -> source < length g -> 0 < inf -> inf <= D -> no_overflow g source inf -> 0 < delta ->
  (forall k, ind k = Some false) -> 2 * (length g * inf) + 1 <= fuel ->
  exists dist, pdelta_stepping fuel D inf g source delta ind sched = Ok dist /\ shortest_map g source inf dist.
Proof.
  intros HT HS HI HID NO HD FA HF. destruct (@pdelta_ok g source inf D delta ind HT HS HI HID NO HD sched fuel) as [[(j & N) _]|[[_ Q]|(d & E & R & _)]].
  - rewrite FA in N. discriminate.
  - assert (X : quiet ind) by (intros k E; rewrite FA in E; discriminate). specialize (Q X). lia.
  - exists d. split; auto. now apply cut_shortest.
Qed.

(** So all schedules, and all deltas, agree with the sequential version. *)
Theorem C57_as_sequential fuel D inf g source delta delta' ind sched :
  wtargets_ok g -> source < length g -> 0 < inf -> inf <= D -> no_overflow g source inf -> 0 < delta -> 0 < delta' ->
  (forall k, ind k = Some false) -> 2 * (length g * inf) + 1 <= fuel ->
  pdelta_stepping fuel D inf g source delta ind sched = delta_stepping fuel D inf g source delta'.
Proof.
  intros HT HS HI HID NO HD HD' FA HF. destruct (@pdelta_ok g source inf D delta ind HT HS HI HID NO HD sched fuel) as [[(j & N) _]|[[_ Q]|(d & -> & R & _)]].
  - rewrite FA in N. discriminate.
  - assert (X : quiet ind) by (intros k E; rewrite FA in E; discriminate). specialize (Q X). lia.
  - assert (SAFE : forall u l p v w, spath g source ((u, l) :: p) -> l < inf -> warc g u v w -> l + w < D).
    { intros u l p v w P _ A. assert (X := NO _ _ _ _ _ P A). lia. }
    destruct (@delta_stepping_ok g source inf D HT HS HI SAFE delta' HD' fuel HF) as (d' & -> & R'). f_equal. eapply cut_unique; eauto.
Qed.

(** Whatever the flag reads, a run that ends with a result gives the shortest distances. *)
Theorem C57_any_flag fuel D inf g source delta ind sched dist :
  wtargets_ok g -> source < length g -> 0 < inf -> inf <= D -> no_overflow g source inf -> 0 < delta ->
  pdelta_stepping fuel D inf g source delta ind sched = Ok dist -> shortest_map g source inf dist.
Proof.
  intros HT HS HI HID NO HD E. destruct (@pdelta_ok g source inf D delta ind HT HS HI HID NO HD sched fuel) as [[_ X]|[[X _]|(d & X & R & _)]]; rewrite E in X; try discriminate.
  injection X as <-. now apply cut_shortest.
Qed.

(** Reading an unset bool is undefined: on every graph with a cycle reachable from the source (every undirected graph
    whose source has a neighbour), every schedule runs into it. *)
Theorem C57_undefined fuel D inf g source delta ind sched u v w :
  wtargets_ok g -> source < length g -> 0 < inf -> inf <= D -> no_overflow g source inf -> 0 < delta ->
  (forall k, ind k = None) -> 2 * (length g * inf) + 1 <= fuel ->
  wreach g source u -> warc g u v w -> wreach g v u ->
  pdelta_stepping fuel D inf g source delta ind sched = Ub.
Proof.
  intros HT HS HI HID NO HD FA HF RU A (c & RV). destruct (@pdelta_ok g source inf D delta ind HT HS HI HID NO HD sched fuel) as [[_ X]|[[_ Q]|(d & E & R & SR)]]; auto; exfalso.
  - assert (X : quiet ind) by (intros k E; rewrite FA in E; discriminate). specialize (Q X). lia.
  - destruct (SR FA) as (rk & RK). assert (LAB : forall x, wreach g source x -> dst inf d x < inf).
    { intros x W. destruct (cut_shortest HI NO R) as [LD S]. assert (Lx : x < length g) by (destruct W as (e & W); inversion W; subst; auto; eapply HT; eauto).
      now apply (S x Lx). }
    assert (UP : forall x, (exists e, wwalk g v x e) -> wreach g source x /\ rk v <= rk x).
    { intros x (e & W). induction W as [|x y e z W [(f & I1) I2] Ax].
      - destruct RU as (e & W). split; auto. exists (e + w). econstructor; eauto.
      - assert (W' : wreach g source y) by (exists (f + z); econstructor; eauto). split; auto.
        assert (X := RK x y z (LAB x (ex_intro _ f I1)) Ax). lia. }
    destruct (UP u (ex_intro _ c RV)) as [_ L]. assert (X := RK u v w (LAB u RU) A). lia.
Qed.

(** If the unset flag reads true, a cycle of length below delta through the source (such as an undirected edge of weight
    below delta/2) keeps the search in bin 0 for ever, under every schedule. *)
Theorem C57_flag_true_endless fuel D inf g source delta ind sched v w1 w2 :
  wtargets_ok g -> source < length g -> 0 < inf -> inf <= D -> no_overflow g source inf -> 0 < delta ->
  (forall k, ind k = Some true) -> v <> source -> warc g source v w1 -> warc g v source w2 -> w1 + w2 < delta ->
  pdelta_stepping fuel D inf g source delta ind sched = OutOfFuel.
Proof. intros. eapply pdelta_endless; eauto. Qed.

(** ** Non-vacuity *)
(** The graph of C33: two routes to 2, cycles, an unreachable vertex. *)
Definition ex_sch (k t : nat) : nat := 7 * k + 3 * t + t * t.
Example C57_ex_false : pdelta_stepping 500 41 40 ex_w 0 3 (fun _ => Some false) ex_sch = Ok [0; 4; 5; 7; 40].
Proof. vm_compute. reflexivity. Qed.
(** Whatever is read, here true at every second read. *)
Example C57_ex_mixed : pdelta_stepping 500 41 40 ex_w 0 3 (fun k => Some (Nat.odd k)) ex_sch = Ok [0; 4; 5; 7; 40].
Proof. vm_compute. reflexivity. Qed.
Example C57_ex_strict : pdelta_stepping 500 41 40 ex_w 0 3 (fun _ => None) ex_sch = Ub.
Proof. vm_compute. reflexivity. Qed.
(** A tree escapes the undefined read. *)
Example C57_ex_tree : pdelta_stepping 500 41 40 [[(1, 4); (2, 6)]; [(3, 1)]; []; []] 0 3 (fun _ => None) ex_sch = Ok [0; 4; 6; 5].
Proof. vm_compute. reflexivity. Qed.
(** An undirected path 0 -2- 1 -1- 2: with delta = 5 bin 0 is never left; with delta = 4 it is. *)
Definition ex_und : wgraph := [[(1, 2)]; [(0, 2); (2, 1)]; [(1, 1)]].
Example C57_ex_endless : pdelta_stepping 10 41 40 ex_und 0 5 (fun _ => Some true) ex_sch = OutOfFuel /\
  pdelta_stepping 100 41 40 ex_und 0 4 (fun _ => Some true) ex_sch = Ok [0; 2; 3].
Proof. split; vm_compute; reflexivity. Qed.
Example C57_ex_und_ok : wtargets_ok ex_und /\ no_overflow ex_und 0 40.
Proof.
  assert (W : wtargets_ok ex_und) by (intros [|[|[|u]]] v w A; unfold warc in A; simpl in A; [| | |destruct u; destruct A]; intuition; congruence || (simpl; injection H as <- <-; lia) || (simpl; injection H0 as <- <-; lia)).
  split; auto. apply C33_no_overflow_from_weights with (wmax := 2); auto; [simpl; lia| |simpl; lia].
  intros [|[|[|u]]] v w A; unfold warc in A; simpl in A; [| | |destruct u; destruct A]; intuition; try (injection H as <- <-; lia); injection H0 as <- <-; lia.
Qed.
Print Assumptions C57_flag_false.
Print Assumptions C57_as_sequential.
Print Assumptions C57_any_flag.
Print Assumptions C57_undefined.
Print Assumptions C57_flag_true_endless.
