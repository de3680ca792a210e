(** How many vertices dijkstra takes from its queue on the ladder graph. *)
From Coq Require Import List Arith Lia Bool.
From Verif Require Import Base SsspModel.
Import ListNotations.
Set Implicit Arguments.

Definition ladder_row (v : nat) : list (nat * nat) :=
  if v =? 0 then [] else if Nat.odd v then [(v - 1, 0)] else [(v - 2, 2 ^ (v / 2 - 1)); (v - 1, 0)].
Definition ladder (k : nat) : wgraph := map ladder_row (seq 0 (2 * k + 1)).

Lemma ladder_get k v : v <= 2 * k -> vget (ladder k) v = Ok (ladder_row v).
Proof.
  intros H. assert (L : v < length (ladder k)) by (unfold ladder; rewrite map_length, seq_length; lia).
  rewrite (@vget_nth _ (ladder k) v []) by auto. f_equal. unfold ladder. apply nth_map_seq. lia.
Qed.
Lemma ladder_row_even j : ladder_row (2 * S j) = [(2 * j, 2 ^ j); (2 * j + 1, 0)].
Proof.
  unfold ladder_row. destruct (Nat.eqb_spec (2 * S j) 0); [lia|].
  rewrite <- Nat.negb_even. rewrite Nat.even_mul. cbn [negb Nat.even orb].
  replace (2 * S j) with (S j * 2) by lia. rewrite Nat.div_mul by lia.
  replace (S j * 2 - 2) with (2 * j) by lia. replace (S j * 2 - 1) with (2 * j + 1) by lia. now replace (S j - 1) with j by lia.
Qed.
Lemma ladder_row_odd j : ladder_row (2 * j + 1) = [(2 * j, 0)].
Proof.
  unfold ladder_row. destruct (Nat.eqb_spec (2 * j + 1) 0); [lia|].
  assert (O : Nat.odd (2 * j + 1) = true) by (apply Nat.odd_spec; exists j; lia). rewrite O.
  now replace (2 * j + 1 - 1) with (2 * j) by lia.
Qed.

Definition pops (j : nat) : nat := 3 * 2 ^ j - 2.
Lemma pops_S j : pops (S j) = 2 + 2 * pops j.
Proof. unfold pops. rewrite Nat.pow_succ_r'. assert (1 <= 2 ^ j) by (apply Nat.neq_0_lt_0, Nat.pow_nonzero; lia). lia. Qed.

(** Pushing something below the whole queue. *)
Lemma push_least x q : (forall y, In y q -> fst x < fst y) -> pq_push x q = x :: q.
Proof.
  intros H. destruct q as [|y r]; auto. cbn [pq_push]. assert (L := H y (or_introl eq_refl)).
  unfold lex_lt. destruct (Nat.ltb_spec (fst y) (fst x)); [lia|]. destruct (Nat.eqb_spec (fst y) (fst x)); [lia|]. reflexivity.
Qed.
Lemma push_second x z q : fst z < fst x -> (forall y, In y q -> fst x < fst y) -> pq_push x (z :: q) = z :: x :: q.
Proof.
  intros L H. cbn [pq_push]. unfold lex_lt at 1. destruct (Nat.ltb_spec (fst z) (fst x)); [|lia]. cbn [orb].
  now rewrite push_least.
Qed.

Lemma relax_improves D u dist Q v w : u < length dist -> v < length dist -> nth u dist 0 + w < D ->
  nth u dist 0 + w < nth v dist 0 ->
  dj_relax D u (dist, Q) (v, w) = Ok (upd dist v (nth u dist 0 + w), pq_push (v, nth u dist 0 + w) Q).
Proof.
  intros Hu Hv HD Lt. unfold dj_relax. cbn [fst snd]. rewrite (@vget_nth _ dist u 0), (@vget_nth _ dist v 0) by auto. cbn [bind fst snd].
  rewrite Nat.mod_small by auto. destruct (Nat.ltb_spec (nth u dist 0 + w) (nth v dist 0)); [|lia].
  rewrite vset_lt by auto. reflexivity.
Qed.

(** Popping 2j with label d when every smaller vertex has a label of at least d + 2^j. *)
Lemma ladder_pop D k : forall j d dist Q, j <= k -> length dist = 2 * k + 1 -> nth (2 * j) dist 0 = d ->
  (forall v, v < 2 * j -> d + 2 ^ j <= nth v dist 0) -> d + 2 ^ j <= D -> (forall y, In y Q -> 2 * j < fst y) ->
  exists dist', length dist' = 2 * k + 1 /\ (forall v, nth v dist' 0 = if v <=? 2 * j then d else nth v dist 0) /\
    forall fuel w, dj_loop fuel D (ladder k) (dist, (2 * j, w) :: Q) =
      if fuel <? pops j then OutOfFuel else dj_loop (fuel - pops j) D (ladder k) (dist', Q).
Proof.
  induction j; intros d dist Q Hj L Hd Lo HD HQ.
  - exists dist. split; auto. split.
    + intros v. destruct (Nat.leb_spec v (2 * 0)); auto. now replace v with (2 * 0) by lia.
    + intros fuel w. change (pops 0) with 1. destruct fuel; [reflexivity|]. cbn [dj_loop snd].
      change (2 * 0) with 0. rewrite ladder_get by lia. cbn [bind ladder_row Nat.eqb rfold fst].
      change (S fuel <? 1) with false. cbv iota. now replace (S fuel - 1) with fuel by lia.
  - assert (P2 : 2 ^ S j = 2 * 2 ^ j) by apply Nat.pow_succ_r'. assert (P1 : 1 <= 2 ^ j) by (apply Nat.neq_0_lt_0, Nat.pow_nonzero; lia).
    set (d1 := upd dist (2 * j) (d + 2 ^ j)). set (d2 := upd d1 (2 * j + 1) d).
    assert (L1 : length d1 = 2 * k + 1) by (unfold d1; now rewrite upd_length).
    assert (L2 : length d2 = 2 * k + 1) by (unfold d2; now rewrite upd_length).
    assert (N1 : forall v, nth v d1 0 = if v =? 2 * j then d + 2 ^ j else nth v dist 0) by (intros; apply nth_upd; lia).
    assert (N2 : forall v, nth v d2 0 = if v =? 2 * j + 1 then d else nth v d1 0) by (intros; apply nth_upd; lia).
    destruct (@IHj (d + 2 ^ j) d2 ((2 * j + 1, d) :: Q)) as (d3 & L3 & N3 & R3); auto; try lia.
    { rewrite N2. destruct (Nat.eqb_spec (2 * j) (2 * j + 1)); [lia|]. rewrite N1, Nat.eqb_refl. auto. }
    { intros v Hv. rewrite N2. destruct (Nat.eqb_spec v (2 * j + 1)); [lia|]. rewrite N1.
      destruct (Nat.eqb_spec v (2 * j)); [lia|]. specialize (Lo v). lia. }
    { intros y [<-|Hy]; cbn [fst]; [lia|]. specialize (HQ y Hy). lia. }
    assert (A3 : nth (2 * j + 1) d3 0 = d).
    { rewrite N3. destruct (Nat.leb_spec (2 * j + 1) (2 * j)); [lia|]. rewrite N2, Nat.eqb_refl. auto. }
    assert (B3 : nth (2 * j) d3 0 = d + 2 ^ j) by (rewrite N3, Nat.leb_refl; auto).
    set (d4 := upd d3 (2 * j) d).
    assert (L4 : length d4 = 2 * k + 1) by (unfold d4; now rewrite upd_length).
    assert (N4 : forall v, nth v d4 0 = if v =? 2 * j then d else nth v d3 0) by (intros; apply nth_upd; lia).
    destruct (@IHj d d4 Q) as (d5 & L5 & N5 & R5); auto; try lia.
    { rewrite N4, Nat.eqb_refl. auto. }
    { intros v Hv. rewrite N4. destruct (Nat.eqb_spec v (2 * j)); [lia|]. rewrite N3.
      destruct (Nat.leb_spec v (2 * j)); lia. }
    { intros y Hy. specialize (HQ y Hy). lia. }
    exists d5. split; auto. split.
    + intros v. rewrite N5. destruct (Nat.leb_spec v (2 * j)); destruct (Nat.leb_spec v (2 * S j)); auto; try lia.
      * rewrite N4. destruct (Nat.eqb_spec v (2 * j)); auto. rewrite N3. destruct (Nat.leb_spec v (2 * j)); [lia|].
        rewrite N2. destruct (Nat.eqb_spec v (2 * j + 1)); auto. rewrite N1. destruct (Nat.eqb_spec v (2 * j)); auto; [lia|].
        replace v with (2 * S j) by lia. auto.
      * rewrite N4. destruct (Nat.eqb_spec v (2 * j)); [lia|]. rewrite N3. destruct (Nat.leb_spec v (2 * j)); [lia|].
        rewrite N2. destruct (Nat.eqb_spec v (2 * j + 1)); [lia|]. rewrite N1. destruct (Nat.eqb_spec v (2 * j)); auto; lia.
    + intros fuel w. rewrite pops_S.
      destruct fuel; [reflexivity|]. cbn [dj_loop snd fst]. rewrite ladder_get by lia. rewrite ladder_row_even. cbn [bind rfold].
      assert (R1 : dj_relax D (2 * S j) (dist, Q) (2 * j, 2 ^ j) = Ok (d1, (2 * j, d + 2 ^ j) :: Q)).
      { rewrite relax_improves; rewrite ?Hd; try lia.
        - rewrite push_least; [reflexivity|]. intros y Hy. specialize (HQ y Hy). cbn [fst]. lia.
        - specialize (Lo (2 * j)). lia. }
      rewrite R1. cbn [bind].
      assert (E1 : nth (2 * S j) d1 0 = d) by (rewrite N1; destruct (Nat.eqb_spec (2 * S j) (2 * j)); [lia|auto]).
      assert (R2 : dj_relax D (2 * S j) (d1, (2 * j, d + 2 ^ j) :: Q) (2 * j + 1, 0) = Ok (d2, (2 * j, d + 2 ^ j) :: (2 * j + 1, d) :: Q)).
      { rewrite relax_improves; rewrite ?E1, ?Nat.add_0_r; try lia.
        - rewrite push_second; cbn [fst]; [reflexivity|lia|]. intros y Hy. specialize (HQ y Hy). lia.
        - rewrite N1. destruct (Nat.eqb_spec (2 * j + 1) (2 * j)); [lia|]. specialize (Lo (2 * j + 1)). lia. }
      rewrite R2. cbn [bind]. rewrite R3.
      destruct (Nat.ltb_spec fuel (pops j)) as [F1|F1]; [destruct (Nat.ltb_spec (S fuel) (2 + 2 * pops j)); [auto|lia]|].
      destruct (fuel - pops j) as [|fuel2] eqn:EF.
      { cbn [dj_loop snd]. destruct (Nat.ltb_spec (S fuel) (2 + 2 * pops j)); [auto|]. assert (1 <= pops j) by (unfold pops; lia). lia. }
      cbn [dj_loop snd fst]. rewrite ladder_get by lia. rewrite ladder_row_odd. cbn [bind rfold].
      assert (R4 : dj_relax D (2 * j + 1) (d3, Q) (2 * j, 0) = Ok (d4, (2 * j, d) :: Q)).
      { rewrite relax_improves; rewrite ?A3, ?B3, ?Nat.add_0_r; try lia.
        rewrite push_least; [reflexivity|]. intros y Hy. specialize (HQ y Hy). cbn [fst]. lia. }
      rewrite R4. cbn [bind]. rewrite R5.
      destruct (Nat.ltb_spec fuel2 (pops j)); destruct (Nat.ltb_spec (S fuel) (2 + 2 * pops j)); auto; try lia.
      f_equal. lia.
Qed.

Lemma ladder_run fuel D vmax k : 2 ^ k <= vmax -> 2 ^ k <= D ->
  dijkstra fuel D vmax (ladder k) (2 * k) = if fuel <? 3 * 2 ^ k - 2 then OutOfFuel else Ok (repeat 0 (2 * k + 1)).
Proof.
  intros HV HD. unfold dijkstra. assert (LL : length (ladder k) = 2 * k + 1) by (unfold ladder; now rewrite map_length, seq_length).
  rewrite LL. rewrite vset_lt by (rewrite repeat_length; lia). cbn [bind].
  set (d0 := upd (repeat vmax (2 * k + 1)) (2 * k) 0).
  assert (N0 : forall v, nth v d0 0 = if v =? 2 * k then 0 else nth v (repeat vmax (2 * k + 1)) 0) by (intros; apply nth_upd; rewrite repeat_length; lia).
  destruct (@ladder_pop D k k 0 d0 []) as (d' & L' & N' & R); auto; try lia.
  - unfold d0. rewrite upd_length, repeat_length. auto.
  - rewrite N0, Nat.eqb_refl. auto.
  - intros v Hv. rewrite N0. destruct (Nat.eqb_spec v (2 * k)); [lia|]. 
    assert (X : nth v (repeat vmax (2 * k + 1)) 0 = vmax) by (apply (repeat_spec (2 * k + 1)), nth_In; rewrite repeat_length; lia). lia.
  - intros y [].
  - rewrite R. fold (pops k). destruct (fuel <? pops k); auto.
    replace (dj_loop (fuel - pops k) D (ladder k) (d', [])) with (Ok d') by (destruct (fuel - pops k); reflexivity).
    f_equal. apply nth_ext_default with (d := 0); [now rewrite repeat_length|]. intros i Hi. rewrite N'. rewrite nth_repeat.
    destruct (Nat.leb_spec i (2 * k)); auto. lia.
Qed.
