(** The depth-first edge range of new_dfs_range.hpp comes to an end on every graph. *)
From Coq Require Import List Arith Bool ZArith Lia.
From Verif Require Import Base WalkModel KcoreModel.
Import ListNotations.
Set Implicit Arguments.
Local Open Scope nat_scope.

Ltac binv H := let x := fresh "x" in let E := fresh "E" in apply bind_Ok in H; destruct H as (x & E & H).

Definition whites (c : list color) : nat := length (filter is_white c).
Arguments whites : simpl never.
Definition phi (s : dfs) : nat := 2 * whites (colors s) + (if is_white (nth (cur s) (colors s) black) then 0 else 1).
Lemma whites_upd c x : forall i, is_white x = false -> i < length c -> whites (upd c i x) + (if is_white (nth i c black) then 1 else 0) = whites c.
Proof.
  unfold whites. induction c as [|y c IH]; intros i W L; cbn in L; [lia|]. destruct i as [|i]; cbn [upd nth filter].
  - rewrite W. destruct (is_white y); cbn [length]; lia.
  - destruct (is_white y); cbn [length]; rewrite <- (IH i W ltac:(lia)); lia.
Qed.
Lemma leave_facts s s1 b : leave s = Ok (s1, b) -> phi s1 <= phi s /\ length (Q s1) + 1 = length (Q s) /\ ub s1 = ub s /\ ue s1 = ue s.
Proof.
  unfold leave. intros H. binv H. binv H. inversion H; subst; clear H. cbn. apply vset_Ok in E. destruct E as [L ->].
  unfold top in E0. destruct (Q s) as [|y q] eqn:EQ; [discriminate|]. inversion E0; subst. cbn. repeat split; try lia.
  unfold phi. cbn. assert (W := @whites_upd (colors s) black (cur s) eq_refl L).
  destruct (is_white (nth (cur s) (colors s) black)), (is_white (nth x0 _ black)); lia.
Qed.
Lemma skip_facts arr t : forall fuel u p h u' p' h', skip_parent fuel arr t u p h = Ok (u', p', h') -> u <= u' /\ u' < length arr.
Proof.
  induction fuel as [|f IH]; intros u p h u' p' h' H; cbn [skip_parent] in H; binv H; assert (L := @vget_Ok_lt _ _ _ _ E).
  - destruct (x =? t); [discriminate|]. inversion H; subst. lia.
  - destruct (x =? t); [|inversion H; subst; lia]. apply IH in H. lia.
Qed.
Lemma skip_fuel arr t : forall fuel u p h, length arr <= u + fuel -> skip_parent fuel arr t u p h <> OutOfFuel.
Proof.
  induction fuel as [|f IH]; intros u p h L; cbn [skip_parent].
  - rewrite vget_ge by lia. discriminate.
  - unfold vget. destruct (nth_error arr u); cbn [bind]; [|discriminate]. destruct (n =? t); [|discriminate]. apply IH. lia.
Qed.

Definition mu (len : nat) (s : dfs) : nat := phi s * (2 * (len + 2)) + length (Q s) * (len + 2) + (len - ub s).
Lemma mu_leave len s s' k : phi s' <= phi s -> length (Q s') + 1 + k = length (Q s) -> mu len s' < mu len s.
Proof. unfold mu. intros. nia. Qed.
Lemma mu_same len s s' : phi s' <= phi s -> length (Q s') = length (Q s) -> ub s < len -> ub s < ub s' -> mu len s' < mu len s.
Proof. unfold mu. intros A B C D. rewrite B. assert (phi s' * (2 * (len + 2)) <= phi s * (2 * (len + 2))) by nia. lia. Qed.
Lemma mu_down len s s' : phi s' < phi s -> length (Q s') <= 1 + length (Q s) -> mu len s' < mu len s.
Proof. unfold mu. intros A B. nia. Qed.
Lemma finish_facts s s' : dfs_finish s = Ok s' -> s' = s \/ (phi s' <= phi s /\ length (Q s') + 1 = length (Q s)).
Proof.
  unfold dfs_finish. destruct (ub s =? ue s); [|intros H; inversion H; auto]. intros H. binv H. destruct x; [inversion H; auto|].
  binv H. destruct x as [s1 b]. inversion H; subst. apply leave_facts in E0. right. cbn. tauto.
Qed.
Lemma incr_decreases debug g s s' : dfs_incr debug g s = Ok s' -> mu (length (concat g)) s' < mu (length (concat g)) s.
Proof.
  unfold dfs_incr. set (s0 := mk_dfs _ _ _ _ _ _ _ false). set (len := length (concat g)).
  assert (MS : mu len s = mu len s0) by reflexivity. rewrite MS. clear MS. generalize s0. clear s s0. intros s.
  destruct (ub s =? ue s).
  - intros H. binv H. destruct x as [s1 b]. cbn [fst snd] in H. assert (B : phi s1 <= phi s /\ length (Q s1) + 1 = length (Q s)).
    { unfold dfs_up in E. binv E. destruct x as [s2 b2]. apply leave_facts in E0. destruct b2; [inversion E; subst; tauto|].
      binv E. destruct (debug && negb (is_grey x)); [discriminate|]. binv E. binv E. binv E. destruct x2 as [[u p] h]. inversion E; subst. unfold phi in *. cbn in *. tauto. }
    destruct b; [inversion H; subst; apply mu_leave with 0; lia|]. apply finish_facts in H. destruct H as [->|[A C]]; [apply mu_leave with 0; lia|apply mu_leave with 1; lia].
  - intros H. binv H. assert (UL := @vget_Ok_lt _ _ _ _ E). binv H. destruct (is_white x0) eqn:W.
    + binv H. assert (B : phi x1 < phi s /\ length (Q x1) = 1 + length (Q s)).
      { unfold dfs_down in E1. binv E1. binv E1. binv E1. destruct x4 as [[u p] h]. inversion E1; subst. cbn. split; [|reflexivity].
        apply vset_Ok in E2. destruct E2 as [L ->]. unfold phi. cbn. assert (WU := @whites_upd (colors s) grey (cur s) eq_refl L).
        assert (XL := @vget_Ok_lt _ _ _ _ E0). rewrite (@vget_nth _ _ _ black XL) in E0. inversion E0 as [E0']. rewrite nth_upd by auto.
        destruct (x =? cur s) eqn:XC.
        - apply Nat.eqb_eq in XC. rewrite XC in E0'. rewrite E0' in *. rewrite W in *. cbn. lia.
        - rewrite E0', W. destruct (is_white (nth (cur s) (colors s) black)); lia. }
      apply finish_facts in H. assert (P2 : phi (set_back x1) = phi x1) by reflexivity. assert (Q2 : Q (set_back x1) = Q x1) by reflexivity.
      destruct H as [->|[A C]]; apply mu_down; rewrite ?P2, ?Q2 in *; lia.
    + binv H. destruct x1 as [s1 b]. cbn [fst snd] in H. assert (P2 : phi (set_back s1) = phi s1) by reflexivity. assert (Q2 : Q (set_back s1) = Q s1) by reflexivity.
      assert (B : phi s1 <= phi s /\ (length (Q s1) + 1 = length (Q s) \/ (length (Q s1) = length (Q s) /\ ub s < ub s1))).
      { unfold dfs_next in E1. binv E1. set (s2 := if x =? x1 then _ else _) in E1.
        assert (S2 : phi s2 = phi s /\ Q s2 = Q s /\ ub s2 = S (ub s)) by (unfold s2; destruct (x =? x1); repeat split). clearbody s2. destruct S2 as (S2a & S2b & S2c).
        binv E1. destruct x2 as [s3 st].
        assert (B3 : (phi s3 <= phi s /\ (length (Q s3) + 1 = length (Q s) \/ (length (Q s3) = length (Q s) /\ ub s < ub s3)))).
        { destruct (ub s2 =? ue s2).
          - binv E3. destruct x2; [inversion E3; subst s3; rewrite S2a, S2b, S2c; lia|]. apply leave_facts in E3. rewrite S2a, S2b in E3. lia.
          - inversion E3; subst s3. rewrite S2a, S2b, S2c. lia. }
        destruct st; [inversion E1; subst; exact B3|]. destruct (ub s3 =? ue s3); [inversion E1; subst; exact B3|].
        binv E1. binv E1. inversion E1; subst. destruct (x2 =? x3); [|exact B3]. unfold phi in *. cbn. destruct B3 as [B3a B3b]. split; [exact B3a|]. lia. }
      destruct B as [B1 B2].
      assert (C : s' = s1 \/ s' = set_back s1 \/ (phi s' <= phi s1 /\ length (Q s') + 1 = length (Q s1))).
      { destruct b; [inversion H; auto|]. apply finish_facts in H. rewrite P2, Q2 in H. tauto. }
      destruct C as [->|[->|[C1 C2]]].
      * destruct B2 as [B2|[B2 B3]]; [apply mu_leave with 0; lia|apply mu_same; auto].
      * destruct B2 as [B2|[B2 B3]]; [apply mu_leave with 0; rewrite ?P2, ?Q2; lia|apply mu_same; rewrite ?P2, ?Q2; auto].
      * destruct B2 as [B2|[B2 B3]]; [apply mu_leave with 1; lia|apply mu_leave with 0; lia].
Qed.

Lemma bind_fuel A B (m : res A) (f : A -> res B) : m <> OutOfFuel -> (forall a, m = Ok a -> f a <> OutOfFuel) -> (do x <- m ; f x) <> OutOfFuel.
Proof. intros M F. destruct m; cbn [bind]; auto; discriminate. Qed.
Lemma vget_fuel A (l : list A) i : vget l i <> OutOfFuel.
Proof. unfold vget. destruct (nth_error l i); discriminate. Qed.
Lemma vset_fuel A (l : list A) i x : vset l i x <> OutOfFuel.
Proof. unfold vset. destruct (i <? length l); discriminate. Qed.
Lemma top_fuel q : top q <> OutOfFuel. Proof. destruct q; discriminate. Qed.
Lemma read_fuel A (o : option A) : read o <> OutOfFuel. Proof. destruct o; discriminate. Qed.
Ltac nf := repeat (first [apply vget_fuel | apply vset_fuel | apply top_fuel | apply read_fuel | discriminate | apply bind_fuel; [|intros ? ?]]).
Lemma leave_fuel s : leave s <> OutOfFuel. Proof. unfold leave. nf. Qed.
Lemma row_fuel g v : row_of g v <> OutOfFuel. Proof. unfold row_of. nf. Qed.
Lemma finish_fuel s : dfs_finish s <> OutOfFuel.
Proof. unfold dfs_finish. destruct (ub s =? ue s); [|discriminate]. nf. destruct a; nf; apply leave_fuel. Qed.
Lemma incr_fuel debug g s : dfs_incr debug g s <> OutOfFuel.
Proof.
  unfold dfs_incr. set (s0 := mk_dfs _ _ _ _ _ _ _ false). destruct (ub s0 =? ue s0).
  - apply bind_fuel.
    + unfold dfs_up. apply bind_fuel; [apply leave_fuel|]. intros [s1 st] _. destruct st; [discriminate|]. nf. destruct (debug && _); [discriminate|].
      apply bind_fuel; [apply row_fuel|]. intros rw _. apply bind_fuel; [apply top_fuel|intros t _]. apply bind_fuel; [apply skip_fuel; lia|intros [[? ?] ?] _]. discriminate.
    + intros [s1 st] _. destruct st; [discriminate|]. apply finish_fuel.
  - nf. destruct (is_white a0).
    + apply bind_fuel.
      * unfold dfs_down. apply bind_fuel; [apply vset_fuel|intros c _]. apply bind_fuel; [apply row_fuel|intros r _]. apply bind_fuel; [apply skip_fuel; lia|intros [[? ?] ?] _]. discriminate.
      * intros s1 _. apply finish_fuel.
    + apply bind_fuel.
      * unfold dfs_next. nf.
        { match goal with |- context [if ?c then _ else _] => destruct c end; [|discriminate]. nf. destruct a2; nf; apply leave_fuel. }
        destruct a2 as [s2 st]. destruct st; [discriminate|]. destruct (ub s2 =? ue s2); nf.
      * intros [s1 st] _. destruct st; [discriminate|]. apply finish_fuel.
Qed.
Lemma deref_fuel g s : dfs_deref g s <> OutOfFuel.
Proof. unfold dfs_deref. destruct (be s); nf. Qed.
Lemma lose_fuel x st : lose x st <> OutOfFuel. Proof. destruct st. unfold lose. nf. Qed.
Lemma edge_fuel k st vw : kc_edge k st vw <> OutOfFuel.
Proof. destruct st as [[f deg] n], vw as [v w]. unfold kc_edge. destruct (has_pair f (my_pair v w)); nf. destruct (a <? k)%Z; nf; apply lose_fuel. Qed.
Lemma loop_fuel debug k g : forall fuel s st, mu (length (concat g)) s < fuel -> kc_loop fuel debug k g s st <> OutOfFuel.
Proof.
  induction fuel as [|f IH]; intros s st L; [lia|]. cbn [kc_loop]. destruct (Q s); [discriminate|].
  apply bind_fuel; [apply deref_fuel|]. intros vw _. apply bind_fuel; [apply edge_fuel|]. intros st' _. apply bind_fuel; [apply incr_fuel|].
  intros s' E. apply IH. apply incr_decreases in E. lia.
Qed.
Lemma whites_le c : whites c <= length c.
Proof. apply filter_length_le. Qed.
Lemma k_core_fuel debug g k : k_core debug g k <> OutOfFuel.
Proof.
  unfold k_core. apply bind_fuel.
  - unfold in_degrees. generalize (repeat 0%Z (length g)). induction (concat g) as [|x l IH]; intros d; [discriminate|]. cbn [rfold]. apply bind_fuel; [nf|]. intros a _. apply IH.
  - intros deg _. apply bind_fuel; [unfold dfs_begin; nf|]. intros s E. apply bind_fuel; [|intros st _; discriminate]. apply loop_fuel.
    unfold dfs_begin in E. binv E. binv E. inversion E; subst; clear E. apply vset_Ok in E0. destruct E0 as [L ->].
    unfold mu, phi, kc_fuel. cbn [Q colors cur ub length]. assert (W := whites_le (upd (repeat white (length g)) 0 grey)). rewrite upd_length, repeat_length in W.
    set (c := upd _ _ _) in *. set (n := length g) in *. set (len := length (concat g)). set (w := whites c) in *. destruct (is_white _); nia.
Qed.
