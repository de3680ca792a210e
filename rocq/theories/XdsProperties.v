(** C68: the delta-stepping variants of experimental/algorithms/delta_stepping.hpp.  The specification is SsspLib's [wwalk]
    and [shortest], as for C33 and C57. *)
From Coq Require Import List Arith Lia Bool.
From Verif Require Import Base SsspModel SsspLib SsspProofs SsspProperties ParDsModel ParDsProofs ParDsProperties XdsModel XdsProofs.
Import ListNotations.
Set Implicit Arguments.

(** The results that v9, v10 and v11 can have: any schedule, any splitting of the ranges by TBB. *)
Inductive xresult (fuel D inf : nat) (g : wgraph) (source delta : nat) (ind : nat -> option bool) : res (list nat) -> Prop :=
| x9 sched : xresult fuel D inf g source delta ind (delta_stepping_v9 fuel D inf g source delta ind sched)
| x10 bt sched : xresult fuel D inf g source delta ind (delta_stepping_v10 fuel D inf g source delta ind bt sched)
| x11 bt bu sched : xresult fuel D inf g source delta ind (delta_stepping_v11 fuel D inf g source delta ind bt bu sched).

Lemma xresult_pds fuel D inf g source delta ind r : xresult fuel D inf g source delta ind r -> exists sc, r = pdelta_stepping fuel D inf g source delta ind sc.
Proof.
  intros [sched|bt sched|bt bu sched]; apply xds_pds; intros; auto using leaves_par, leaves_seq, leaves_blocks.
Qed.

(** The three versions give the shortest distances if the unset `success` reads false ... *)
Theorem C68_flag_false fuel D inf g source delta ind r :
  wtargets_ok g -> source < length g -> 0 < inf -> inf <= D -> no_overflow g source inf -> 0 < delta ->
  (forall k, ind k = Some false) -> 2 * (length g * inf) + 1 <= fuel ->
  xresult fuel D inf g source delta ind r -> exists dist, r = Ok dist /\ shortest_map g source inf dist.
Proof. intros HT HS HI HID NO HD FA HF X. destruct (xresult_pds X) as (sc & ->). now apply C57_flag_false. Qed.

(** ... and whatever it reads if they end with a result at all. *)
Theorem C68_any_flag fuel D inf g source delta ind dist :
  wtargets_ok g -> source < length g -> 0 < inf -> inf <= D -> no_overflow g source inf -> 0 < delta ->
  xresult fuel D inf g source delta ind (Ok dist) -> shortest_map g source inf dist.
Proof. intros HT HS HI HID NO HD X. destruct (xresult_pds X) as (sc & E). eapply C57_any_flag; eauto. Qed.

(** By the standard the read is undefined, and a cycle reachable from the source makes it unavoidable. *)
Theorem C68_undefined fuel D inf g source delta ind r u v w :
  wtargets_ok g -> source < length g -> 0 < inf -> inf <= D -> no_overflow g source inf -> 0 < delta ->
  (forall k, ind k = None) -> 2 * (length g * inf) + 1 <= fuel ->
  wreach g source u -> warc g u v w -> wreach g v u ->
  xresult fuel D inf g source delta ind r -> r = Ub.
Proof. intros HT HS HI HID NO HD FA HF RU A RV X. destruct (xresult_pds X) as (sc & ->). eapply C57_undefined; eauto. Qed.

(** v8 initialises its flag: shortest distances under every schedule, however the loops are cut. *)
Theorem C68_v8 fuel D inf g source delta split shape sched :
  wtargets_ok g -> source < length g -> 0 < inf -> inf <= D -> no_overflow g source inf -> 0 < delta ->
  (forall k l, leaves (split k l) = l) -> (forall k now l, leaves (shape k now l) = l) -> 2 * (length g * inf) + 1 <= fuel ->
  exists dist, delta_stepping_v8 fuel D inf g source delta split shape sched = Ok dist /\ shortest_map g source inf dist.
Proof.
  intros HT HS HI HID NO HD SPL SHP HF. destruct (@v8_pds D inf delta g split shape sched SPL SHP fuel source) as (sc & ->). now apply C57_flag_false.
Qed.

(** v6 on one thread is the sequential version, whatever the input ... *)
Theorem C68_v6_one_thread fuel D inf g source delta :
  delta_stepping_v6 fuel D inf g source delta (fun _ _ => 0) = delta_stepping fuel D inf g source delta.
Proof. unfold delta_stepping_v6, delta_stepping. destruct (vset _ _ _); cbn [bind]; auto. apply v6_loop_seq. Qed.

(** ... and on several, a label below infinity is the length of a walk, so no label is too small. *)
Theorem C68_v6_labels fuel D inf g source delta sched dist :
  source < length g -> 0 < inf -> inf <= D -> no_overflow g source inf ->
  delta_stepping_v6 fuel D inf g source delta sched = Ok dist ->
  length dist = length g /\ nth source dist inf = 0 /\ forall v, v < length g -> nth v dist inf = inf \/ (wwalk g source v (nth v dist inf) /\ nth v dist inf < inf).
Proof.
  intros HS HI HID NO E. destruct (@v6_base D delta g source inf HS HI HID NO fuel sched dist E) as (bs & B). split; [apply (bs_len B)|]. split; [apply (bs_src B)|].
  intros v _. assert (LE := bs_le B v). unfold dst in LE. cbn [fst] in LE. destruct (Nat.eq_dec (nth v dist inf) inf) as [X|X]; auto. right. split; [|lia].
  apply (bs_walk B). unfold lbl, dst. cbn [fst]. lia.
Qed.

(** But labels can be too large, reachable vertices can be missed, and a bin can be used that is gone: two relaxations of
    one target (a lost update), and two calls of bins.resize (the later and smaller one drops a bin). *)
Definition race_w : wgraph := [[(1, 1); (2, 1)]; [(3, 9)]; [(3, 2)]; []].
Definition race_b : wgraph := [[(1, 1); (2, 1)]; [(3, 10)]; [(4, 5)]; [(5, 1)]; []; []].
Theorem C68_v6_race_refuted :
  (exists sched, delta_stepping_v6 100 41 40 race_w 0 5 sched = Ok [0; 1; 1; 10] /\ shortest race_w 0 3 3) /\
  (exists sched, delta_stepping_v6 100 41 40 race_b 0 5 sched = Ok [0; 1; 1; 11; 6; 40] /\ wwalk race_b 0 5 12) /\
  (exists sched, delta_stepping_v6 100 41 40 race_b 0 5 sched = Ub).
Proof.
  assert (W : wwalk race_w 0 3 3).
  { apply (@ww_S race_w 0 2 3 1 2); [|unfold warc; simpl; auto]. apply (@ww_S race_w 0 0 2 0 1); [constructor|]. unfold warc. simpl. auto. }
  split; [|split].
  - exists (fun k n => if k =? 1 then if n <? 3 then 0 else 1 else 0). split; [vm_compute; reflexivity|]. split; auto. intros d' X.
    inversion X as [|u v d w X1 A]; subst. assert (U : u = 1 /\ w = 9 \/ u = 2 /\ w = 2).
    { unfold warc in A. destruct u as [|[|[|[|u]]]]; simpl in A; intuition; try congruence; try (injection H; auto); try (injection H0; auto). destruct u; destruct A. }
    destruct U as [[-> ->]|[-> ->]]; [lia|]. inversion X1 as [|u' v' d'' w' X2 A2]; subst. assert (U : w' = 1).
    { unfold warc in A2. destruct u' as [|[|[|[|u]]]]; simpl in A2; intuition; try congruence. destruct u; destruct A2. }
    lia.
  - exists (fun k n => if k =? 1 then if n <? 5 then 0 else if n <? 10 then 1 else 0 else 0). split; [vm_compute; reflexivity|].
    apply (@ww_S race_b 0 3 5 11 1); [|simpl; unfold warc; simpl; auto]. apply (@ww_S race_b 0 1 3 1 10); [|unfold warc; simpl; auto]. apply (@ww_S race_b 0 0 1 0 1); [constructor|unfold warc; simpl; auto].
  - exists (fun k n => if k =? 1 then if n <? 5 then 0 else if n <? 10 then 1 else if n <? 11 then 0 else if n <? 12 then 1 else 0 else 0). vm_compute; reflexivity.
Qed.

(** ** Non-vacuity: the graph of C33 (two routes to 2, cycles, an unreachable vertex) *)
Definition ex_bt (k : nat) : btree := if Nat.even k then BNode (BNode BLeaf BLeaf) BLeaf else BNode BLeaf (BNode BLeaf BLeaf).
Example C68_ex_false :
  delta_stepping_v9 500 41 40 ex_w 0 3 (fun _ => Some false) ex_sch = Ok [0; 4; 5; 7; 40] /\
  delta_stepping_v10 500 41 40 ex_w 0 3 (fun _ => Some false) ex_bt ex_sch = Ok [0; 4; 5; 7; 40] /\
  delta_stepping_v11 500 41 40 ex_w 0 3 (fun k => Some (Nat.odd k)) ex_bt (fun k n => ex_bt (k + n)) ex_sch = Ok [0; 4; 5; 7; 40].
Proof. repeat split; vm_compute; reflexivity. Qed.
Example C68_ex_strict : delta_stepping_v9 500 41 40 ex_w 0 3 (fun _ => None) ex_sch = Ub /\ delta_stepping_v11 500 41 40 ex_w 0 3 (fun _ => None) ex_bt (fun k n => ex_bt (k + n)) ex_sch = Ub.
Proof. split; vm_compute; reflexivity. Qed.
Example C68_ex_v8 : delta_stepping_v8 500 41 40 ex_w 0 3 (fun _ => @par_of _) (fun _ _ => @par_of _) ex_sch = Ok [0; 4; 5; 7; 40].
Proof. vm_compute. reflexivity. Qed.
Example C68_ex_v8_arranged : (forall (k : nat) l, leaves (@par_of etask l) = l) /\ (forall k (now : nat) l, leaves (blocks_of (ex_bt (k + now)) (l : list etask)) = l).
Proof. split; intros; [apply leaves_par|apply leaves_blocks]. Qed.
Example C68_ex_v6 : delta_stepping_v6 500 41 40 ex_w 0 3 (fun _ _ => 0) = Ok [0; 4; 5; 7; 40] /\ delta_stepping_v6 500 41 40 ex_w 0 3 ex_sch = Ok [0; 4; 5; 7; 40].
Proof. split; vm_compute; reflexivity. Qed.
(** The hypotheses hold of the graph of the race too. *)
Example C68_ex_race : wtargets_ok race_w /\ no_overflow race_w 0 40.
Proof.
  assert (W : wtargets_ok race_w) by (intros [|[|[|[|u]]]] v w A; unfold warc in A; simpl in A; [| | | |destruct u; destruct A]; intuition; try congruence; try (injection H as <- <-; simpl; lia); injection H0 as <- <-; simpl; lia).
  split; auto. apply C33_no_overflow_from_weights with (wmax := 9); [exact W|simpl; lia| |simpl; lia].
  intros [|[|[|[|u]]]] v w A; unfold warc in A; simpl in A; [| | | |destruct u; destruct A]; intuition; try (injection H as <- <-; lia); injection H0 as <- <-; lia.
Qed.
Print Assumptions C68_flag_false.
Print Assumptions C68_any_flag.
Print Assumptions C68_undefined.
Print Assumptions C68_v8.
Print Assumptions C68_v6_one_thread.
Print Assumptions C68_v6_labels.
Print Assumptions C68_v6_race_refuted.
