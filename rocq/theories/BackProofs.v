(** Proofs for C60: back_edge_range. *)
From Coq Require Import List Arith ZArith Lia Bool Sorted.
From Verif Require Import Base GraphLib BackModel.
Import ListNotations.
Set Implicit Arguments.

(** Position [i] of row [v] is the first arc from [v] to [u]. *)
Definition first_arc (G : list (list nat)) (v u i : nat) : Prop :=
  nth_error (nth v G []) i = Some u /\ forall j, j < i -> nth_error (nth v G []) j <> Some u.
Lemma first_edge G v u i : first_arc G v u i -> edge G v u.
Proof. intros [E _]. eapply nth_error_In; eauto. Qed.
Lemma first_fun G v u i j : first_arc G v u i -> first_arc G v u j -> i = j.
Proof. intros [A B] [C D]. destruct (Nat.lt_trichotomy i j) as [L|[L|L]]; auto; exfalso; [apply (D _ L A)|apply (B _ L C)]. Qed.
Lemma first_ex G v u : edge G v u -> exists i, first_arc G v u i.
Proof.
  unfold edge, first_arc. induction (nth v G []) as [|w l IH]; intros E; [destruct E|]. destruct (Nat.eq_dec w u) as [->|N].
  - exists 0. split; auto. lia.
  - destruct E as [E|E]; [congruence|]. destruct (IH E) as (i & A & B). exists (S i). split; auto. intros [|j] L; simpl; [congruence|]. apply B. lia.
Qed.
Lemma edge_dec G v u : edge G v u \/ ~ edge G v u.
Proof. unfold edge. destruct (in_dec Nat.eq_dec u (nth v G [])); auto. Qed.

(* ---- association lists *)
Definition asorted A (m : amap A) : Prop := StronglySorted lt (map fst m).
Lemma afind_gt A k (m : amap A) : Forall (lt k) (map fst m) -> afind k m = None.
Proof. induction m as [|[k' y] m IH]; intros F; auto. inversion F; subst. simpl in *. destruct (Nat.eqb_spec k k'); [lia|auto]. Qed.
Lemma aemplace_keys A k (x : A) m y : In y (map fst (aemplace k x m)) -> y = k \/ In y (map fst m).
Proof.
  induction m as [|[k' z] m IH]; simpl; [intuition|]. destruct (k <? k'); [simpl; intuition|]. destruct (k =? k'); [simpl; intuition|]. simpl. intuition.
Qed.
Lemma asorted_emplace A k (x : A) m : asorted m -> asorted (aemplace k x m).
Proof.
  unfold asorted. induction m as [|[k' z] m IH]; intros S; [repeat constructor|]. inversion S; subst. cbn [aemplace]. destruct (Nat.ltb_spec k k').
  - cbn [map fst]. constructor; auto. constructor; auto. eapply Forall_impl; [|exact H2]. simpl. intros; lia.
  - destruct (Nat.eqb_spec k k'); [exact S|]. cbn [map fst]. constructor; auto. apply Forall_forall. intros y Y. apply aemplace_keys in Y. rewrite Forall_forall in H2. destruct Y as [->|Y]; [lia|auto].
Qed.
Lemma afind_emplace A k (x : A) m k' : asorted m -> afind k' (aemplace k x m) = if k' =? k then (match afind k m with Some y => Some y | None => Some x end) else afind k' m.
Proof.
  unfold asorted. induction m as [|[k0 z] m IH]; intros So; cbn [aemplace afind].
  - destruct (k' =? k); auto.
  - inversion So; subst. destruct (Nat.ltb_spec k k0).
    + cbn [afind]. destruct (Nat.eqb_spec k' k) as [E|N]; auto. destruct (Nat.eqb_spec k k0); [lia|]. rewrite afind_gt; auto. eapply Forall_impl; [|exact H2]. simpl. intros; lia.
    + destruct (Nat.eqb_spec k k0) as [E|N]; cbn [afind].
      * destruct (Nat.eqb_spec k' k0), (Nat.eqb_spec k' k); auto; congruence.
      * rewrite IH by auto. destruct (Nat.eqb_spec k' k0), (Nat.eqb_spec k' k); auto; congruence.
Qed.
Lemma afind_keys A k (m : amap A) : In k (map fst m) <-> afind k m <> None.
Proof.
  induction m as [|[k' y] m IH]; simpl; [split; [intros []|congruence]|]. destruct (Nat.eqb_spec k k') as [->|N]; [split; [discriminate|auto]|]. rewrite <- IH. split; [intros [X|X]; [congruence|auto]|auto].
Qed.
Lemma aset_keys A k (x : A) m : map fst (aset k x m) = map fst m.
Proof. induction m as [|[k' y] m IH]; auto. simpl. destruct (k =? k'); simpl; congruence. Qed.
Lemma afind_aset A k (x : A) m k' : afind k' (aset k x m) = if k' =? k then (match afind k m with Some _ => Some x | None => None end) else afind k' m.
Proof.
  induction m as [|[k0 y] m IH]; simpl; [now destruct (k' =? k)|]. destruct (Nat.eqb_spec k k0) as [E|N]; simpl.
  - destruct (Nat.eqb_spec k' k0), (Nat.eqb_spec k' k); auto; congruence.
  - rewrite IH. destruct (Nat.eqb_spec k' k0), (Nat.eqb_spec k' k); auto; congruence.
Qed.

Lemma upd_same A (l : list A) i x : nth_error l i = Some x -> upd l i x = l.
Proof. revert i; induction l as [|a l IH]; intros [|i] E; simpl in *; try discriminate; [congruence|]. f_equal. auto. Qed.

(* ---- tables of maps *)
Definition tsorted A (t : list (amap A)) : Prop := forall u, asorted (nth u t []).
Definition tput A (t : list (amap A)) (u v : nat) (x : A) : list (amap A) := upd t u (aemplace v x (nth u t [])).
Lemma tput_length A (t : list (amap A)) u v x : length (tput t u v x) = length t.
Proof. apply upd_length. Qed.
Lemma tput_sorted A (t : list (amap A)) u v x : u < length t -> tsorted t -> tsorted (tput t u v x).
Proof. intros L S w. unfold tput. destruct (Nat.eq_dec u w) as [<-|N]; [rewrite nth_upd_eq by auto; apply asorted_emplace; auto|rewrite nth_upd_neq by auto; auto]. Qed.
Lemma tput_find A (t : list (amap A)) u v x a b : u < length t -> tsorted t ->
  afind b (nth a (tput t u v x) []) = if (a =? u) && (b =? v) then (match afind v (nth u t []) with Some y => Some y | None => Some x end) else afind b (nth a t []).
Proof.
  intros L S. unfold tput. destruct (Nat.eqb_spec a u) as [->|N]; cbn [andb]; [|rewrite nth_upd_neq by auto; auto]. rewrite nth_upd_eq by auto. now apply afind_emplace.
Qed.
Lemma nth_repeat_nil A n u : nth u (repeat (@nil A) n) [] = [].
Proof. revert u; induction n; intros [|u]; simpl; auto. Qed.
Lemma tsorted_repeat A n : tsorted (repeat (@nil (nat * A)) n).
Proof. intros u. unfold asorted. rewrite (nth_repeat_nil (nat * A)). constructor. Qed.

(* ---- the scan *)
Lemma bscan_ok x : forall row i0, (bscan row x i0 = i0 + length row /\ ~ In x (map fst row)) \/
  exists k, bscan row x i0 = i0 + k /\ k < length row /\ nth_error (map fst row) k = Some x /\ forall j, j < k -> nth_error (map fst row) j <> Some x.
Proof.
  induction row as [|a row IH]; intros i0; cbn [bscan].
  - left. split; [simpl; lia|auto].
  - destruct (Nat.eqb_spec (fst a) x) as [E|N].
    + right. exists 0. simpl. rewrite E. repeat split; auto; try lia.
    + destruct (IH (S i0)) as [[E M]|(k & E & L & F & B)].
      * left. rewrite E. simpl. split; [lia|]. intros [X|X]; auto.
      * right. exists (S k). rewrite E. simpl. split; [lia|]. split; [lia|]. split; auto. intros [|j] J; simpl; [congruence|]. apply B. lia.
Qed.

(* ---- places *)
(** No place that can be read changes; a place that comes into being holds the attribute 0. *)
Definition quiet (st st' : bst) : Prop := b_g st' = b_g st /\ forall l, rd st' l = rd st l \/ (rd st l = Ub /\ exists u, rd st' l = Ok (u, 0%Z)).
Lemma quiet_refl st : quiet st st.
Proof. split; auto. Qed.
Lemma quiet_trans a b c : quiet a b -> quiet b c -> quiet a c.
Proof. intros [G1 H1] [G2 H2]. split; [congruence|]. intros l. destruct (H2 l) as [->|[E (u & X)]]; auto. destruct (H1 l) as [E'|[E' _]]; right; split; eauto; congruence. Qed.
Lemma quiet_g st st' : b_g st' = b_g st -> b_bx st' = b_bx st -> b_ax st' = b_ax st -> quiet st st'.
Proof. intros A B C. split; auto. intros l. left. destruct l; cbn [rd]; congruence. Qed.
Lemma mget_nth A (t : list (amap A)) u v : mget t u v = match afind v (nth u t []) with Some x => Ok x | None => Ub end.
Proof.
  unfold mget. destruct (Nat.lt_ge_cases u (length t)) as [L|L].
  - rewrite (@vget_nth _ t u []) by auto. reflexivity.
  - rewrite nth_overflow by auto. unfold vget. rewrite (proj2 (nth_error_None _ _)) by auto. reflexivity.
Qed.
Lemma quiet_extra st ba u v : u < length (b_bx st) -> v < length (b_ax st) -> tsorted (b_bx st) -> tsorted (b_ax st) ->
  quiet st (mkB (b_g st) ba (tput (b_bx st) u v (u, 0%Z)) (tput (b_ax st) v u (u, 0%Z))).
Proof.
  intros Lu Lv S1 S2. split; auto. intros l. destruct l as [a i|a b|a b]; cbn [rd b_g b_bx b_ax]; auto; rewrite !mget_nth, tput_find by auto.
  - destruct (Nat.eqb_spec a u) as [->|], (Nat.eqb_spec b v) as [->|]; cbn [andb]; auto. destruct (afind v _); eauto.
  - destruct (Nat.eqb_spec a v) as [->|], (Nat.eqb_spec b u) as [->|]; cbn [andb]; auto. destruct (afind u _); eauto.
Qed.

Section I.
Variable G : list (list nat).
Hypothesis HG : targets_ok G.
Notation n := (length G).

Record binv (A : nat -> nat -> Prop) (st : bst) : Prop := {
  bi_g : map (map fst) (b_g st) = G;
  bi_lba : length (b_ba st) = n; bi_lbx : length (b_bx st) = n; bi_lax : length (b_ax st) = n;
  bi_sba : tsorted (b_ba st); bi_sbx : tsorted (b_bx st); bi_sax : tsorted (b_ax st);
  bi_A : forall u v, A u v -> edge G u v;
  bi_ba : forall u v r, afind v (nth u (b_ba st) []) = Some r <-> (A u v \/ A v u) /\ fst r = v /\ first_arc G v u (snd r);
  bi_bx : forall u v, match afind v (nth u (b_bx st) []) with Some e => A u v /\ ~ edge G v u /\ fst e = u | None => ~ (A u v /\ ~ edge G v u) end;
  bi_ax : forall u v, match afind u (nth v (b_ax st) []) with Some e => A u v /\ ~ edge G v u /\ fst e = u | None => ~ (A u v /\ ~ edge G v u) end }.

Lemma binv_ext A B st : (forall u v, A u v <-> B u v) -> binv A st -> binv B st.
Proof.
  intros E [H1 H2 H3 H4 H5 H6 H7 H8 H9 H10 H11]. constructor; auto.
  - intros u v X. apply H8, E, X.
  - intros u v r. rewrite H9, !E. reflexivity.
  - intros u v. specialize (H10 u v). destruct (afind v _); rewrite <- E; auto.
  - intros u v. specialize (H11 u v). destruct (afind u _); rewrite <- E; auto.
Qed.
Lemma binv_row A st u : binv A st -> u < n -> exists row, vget (b_g st) u = Ok row /\ map fst row = nth u G [].
Proof.
  intros I L. assert (Lg : length (b_g st) = n) by (rewrite <- (bi_g I); now rewrite map_length).
  exists (nth u (b_g st) []). split; [apply vget_nth; lia|]. rewrite <- (bi_g I). change (@nil nat) with (map (@fst nat Z) []). now rewrite map_nth.
Qed.
Lemma edge_l u v : edge G u v -> u < n.
Proof. intros E. destruct (Nat.lt_ge_cases u n) as [L|L]; auto. unfold edge in E. rewrite nth_overflow in E by auto. destruct E. Qed.

Lemma ioa_fresh st u v r : u < length (b_ba st) -> afind v (nth u (b_ba st) []) = None -> ioa st u v r = Ok (mkB (b_g st) (tput (b_ba st) u v r) (b_bx st) (b_ax st)).
Proof. intros L E. unfold ioa. rewrite (@vget_nth _ (b_ba st) u []) by auto. cbn [bind]. rewrite E. rewrite vset_lt by auto. reflexivity. Qed.

Definition add (A : nat -> nat -> Prop) (u v : nat) : nat -> nat -> Prop := fun a b => A a b \/ (a = u /\ b = v).

(** the arc back is there *)
Lemma pair_find A st u v i j (ba : list (amap (nat * nat))) : binv A st -> first_arc G u v i -> first_arc G v u j -> ~ A u v -> ~ A v u ->
  (forall a b, afind b (nth a ba []) = if (a =? u) && (b =? v) then Some (v, j) else if (a =? v) && (b =? u) then Some (u, i) else afind b (nth a (b_ba st) [])) ->
  length ba = n -> tsorted ba -> binv (add A u v) (mkB (b_g st) ba (b_bx st) (b_ax st)).
Proof.
  intros [H1 H2 H3 H4 H5 H6 H7 H8 H9 H10 H11] Fi Fj N1 N2 Hf Hl Hs. assert (E1 := first_edge Fi). assert (E2 := first_edge Fj). constructor; cbn [b_g b_ba b_bx b_ax]; auto.
  - intros a b [X|[-> ->]]; auto.
  - intros a b r. rewrite Hf. unfold add. destruct (Nat.eqb_spec a u) as [Ea|Na], (Nat.eqb_spec b v) as [Eb|Nb]; cbn [andb].
    + subst a b. split; [intros X; injection X as <-; auto|]. intros (_ & F & X). f_equal. destruct r as [r1 r2]. simpl in *. subst r1. f_equal. eapply first_fun; eauto.
    + destruct (Nat.eqb_spec a v) as [Ea'|Na'], (Nat.eqb_spec b u) as [Eb'|Nb']; cbn [andb]; try (rewrite H9; intuition congruence). congruence.
    + destruct (Nat.eqb_spec a v) as [Ea'|Na'], (Nat.eqb_spec b u) as [Eb'|Nb']; cbn [andb]; try (rewrite H9; intuition congruence). congruence.
    + destruct (Nat.eqb_spec a v) as [Ea'|Na'], (Nat.eqb_spec b u) as [Eb'|Nb']; cbn [andb]; try (rewrite H9; intuition congruence).
      subst a b. split; [intros X; injection X as <-; auto|]. intros (_ & F & X). f_equal. destruct r as [r1 r2]. simpl in *. subst r1. f_equal. eapply first_fun; eauto.
  - intros a b. specialize (H10 a b). unfold add. destruct (afind b _); [intuition|]. intros [[X|[-> ->]] Y]; auto.
  - intros a b. specialize (H11 a b). unfold add. destruct (afind a _); [intuition|]. intros [[X|[-> ->]] Y]; auto.
Qed.
Lemma ba_none A st u v : binv A st -> ~ A u v -> ~ A v u -> afind v (nth u (b_ba st) []) = None.
Proof. intros I N1 N2. destruct (afind v _) eqn:E; auto. apply (bi_ba I) in E. destruct E as [[E|E] _]; contradiction. Qed.
Lemma pair_ok A st u v i j : u <> v -> binv A st -> first_arc G u v i -> first_arc G v u j -> ~ A u v -> ~ A v u ->
  exists st', (do st1 <- ioa st u v (v, j) ; ioa st1 v u (u, i)) = Ok st' /\ binv (add A u v) st' /\ quiet st st'.
Proof.
  intros Ne I Fi Fj N1 N2. assert (Lu := @edge_l _ _ (first_edge Fi)). assert (Lv := @edge_l _ _ (first_edge Fj)).
  assert (La := bi_lba I). assert (Sa := bi_sba I). assert (E1 := @ba_none _ _ u v I N1 N2). assert (E2 := @ba_none _ _ v u I N2 N1).
  rewrite ioa_fresh by (auto; lia). cbn [bind]. rewrite ioa_fresh; cbn [b_ba b_g b_bx b_ax]; [|rewrite tput_length; lia|].
  - eexists. split; [reflexivity|]. split; [|apply quiet_g; reflexivity]. apply (@pair_find A st u v i j); try assumption; [|rewrite !tput_length; auto|repeat apply tput_sorted; rewrite ?tput_length; auto; lia].
    intros a b. rewrite !tput_find by (rewrite ?tput_length; try apply tput_sorted; auto; lia). rewrite E1, E2.
    destruct (Nat.eqb_spec a u) as [Ea|Na], (Nat.eqb_spec b v) as [Eb|Nb], (Nat.eqb_spec a v) as [Ea'|Na'], (Nat.eqb_spec b u) as [Eb'|Nb']; cbn [andb]; subst; auto; try congruence.
    destruct (Nat.eqb_spec v u); [congruence|]. now rewrite andb_false_l.
  - rewrite tput_find by (auto; lia). destruct (Nat.eqb_spec v u); [congruence|]. auto.
Qed.
Lemma pair_ok' A st u v i j : u <> v -> binv A st -> first_arc G u v i -> first_arc G v u j -> ~ A u v -> ~ A v u ->
  exists st', (do st1 <- ioa st v u (u, i) ; ioa st1 u v (v, j)) = Ok st' /\ binv (add A u v) st' /\ quiet st st'.
Proof.
  intros Ne I Fi Fj N1 N2. destruct (@pair_ok A st v u j i) as (st' & E & I' & Eg); auto. exists st'. split; auto. split; auto.
  destruct I' as [H1 H2 H3 H4 H5 H6 H7 H8 H9 H10 H11]. assert (E1 := first_edge Fi). assert (E2 := first_edge Fj). constructor; auto.
  - intros a b [X|[-> ->]]; auto. apply (bi_A I); auto.
  - intros a b r. rewrite H9. unfold add. intuition congruence.
  - intros a b. specialize (H10 a b). unfold add in *. destruct (afind b _); [|intuition congruence]. destruct H10 as [[X|[-> ->]] [Y Z]]; intuition.
  - intros a b. specialize (H11 a b). unfold add in *. destruct (afind a _); [|intuition congruence]. destruct H11 as [[X|[-> ->]] [Y Z]]; intuition.
Qed.

(** the arc back is missing *)
Lemma extra_ok A st u v i : binv A st -> edge G u v -> ~ edge G v u -> (first_arc G u v i \/ A u v) ->
  exists st', extra st u v (u, i) = Ok st' /\ binv (add A u v) st' /\ quiet st st'.
Proof.
  intros I E NE Fi. assert (Lu := @edge_l _ _ E). assert (Lv := HG _ _ E). assert (I0 := I). destruct I0 as [H1 H2 H3 H4 H5 H6 H7 H8 H9 H10 H11].
  unfold extra, bemp. rewrite (@vget_nth _ (b_bx st) u []) by lia. cbn [bind]. rewrite vset_lt by lia. cbn [bind]. rewrite (@vget_nth _ (b_ax st) v []) by lia. cbn [bind]. rewrite vset_lt by lia. cbn [bind b_ba b_g b_bx b_ax].
  rewrite (@vget_nth _ (b_ba st) v []) by lia. cbn [bind]. rewrite vset_lt by lia. cbn [bind]. eexists. split; [reflexivity|]. split; cycle 1.
  { apply quiet_extra; auto; lia. }
  change (upd (b_bx st) u (aemplace v (u, 0%Z) (nth u (b_bx st) []))) with (tput (b_bx st) u v (u, 0%Z)).
  change (upd (b_ax st) v (aemplace u (u, 0%Z) (nth v (b_ax st) []))) with (tput (b_ax st) v u (u, 0%Z)).
  change (upd (b_ba st) v (aemplace u (u, i) (nth v (b_ba st) []))) with (tput (b_ba st) v u (u, i)).
  assert (NA : ~ A v u) by (intros X; apply NE; auto).
  constructor; cbn [b_g b_ba b_bx b_ax]; auto; try (rewrite tput_length; auto); try (apply tput_sorted; auto; lia).
  - intros a b [X|[-> ->]]; auto.
  - intros a b r. rewrite tput_find by (auto; lia). unfold add. destruct (Nat.eqb_spec a v) as [Ea|Na], (Nat.eqb_spec b u) as [Eb|Nb]; cbn [andb]; try (rewrite H9; intuition congruence).
    + subst a b. destruct (afind u (nth v (b_ba st) [])) as [r0|] eqn:E0.
      * split; [intros X; injection X as <-; apply H9 in E0; intuition|]. intros (_ & F & X). f_equal. apply H9 in E0. destruct E0 as (_ & F0 & X0). destruct r, r0. simpl in *. subst. f_equal. eapply first_fun; eauto.
      * assert (NU : ~ A u v). { intros X. destruct (@first_ex _ _ _ E) as (k & K). assert (afind u (nth v (b_ba st) []) = Some (u, k)) by (apply H9; auto). congruence. }
        destruct Fi as [Fi|Fi]; [|contradiction]. split; [intros X; injection X as <-; auto|]. intros (_ & F & X). f_equal. destruct r. simpl in *. subst. f_equal. eapply first_fun; eauto.
    + rewrite H9. split; [intuition|]. intros ([[X|X]|[X|X]] & F & X'); try (destruct X; congruence); auto. destruct X as [-> ->]. exfalso. apply NE. eapply first_edge; eauto.
  - intros a b. rewrite tput_find by (auto; lia). unfold add. specialize (H10 a b). destruct (Nat.eqb_spec a u) as [Ea|Na], (Nat.eqb_spec b v) as [Eb|Nb]; cbn [andb].
    + subst a b. destruct (afind v (nth u (b_bx st) [])); intuition.
    + destruct (afind b _); intuition.
    + destruct (afind b _); intuition.
    + destruct (afind b _); intuition.
  - intros a b. rewrite tput_find by (auto; lia). unfold add. specialize (H11 a b). destruct (Nat.eqb_spec b v) as [Ea|Na], (Nat.eqb_spec a u) as [Eb|Nb]; cbn [andb].
    + subst a b. destruct (afind u (nth v (b_ax st) [])); intuition.
    + destruct (afind a _); intuition.
    + destruct (afind a _); intuition.
    + destruct (afind a _); intuition.
Qed.

(** a self loop *)
Lemma loop_ok A st u i : binv A st -> first_arc G u u i -> ~ A u u ->
  exists st', (do st1 <- ioa st u u (u, i) ; ioa st1 u u (u, i)) = Ok st' /\ binv (add A u u) st' /\ quiet st st'.
Proof.
  intros I F N. assert (Lu := @edge_l _ _ (first_edge F)). assert (La := bi_lba I). assert (Sa := bi_sba I). assert (E1 := @ba_none _ _ u u I N N).
  rewrite ioa_fresh by (auto; lia). cbn [bind]. set (st1 := mkB (b_g st) (tput (b_ba st) u u (u, i)) (b_bx st) (b_ax st)). exists st1.
  split; [|split; [|apply quiet_g; reflexivity]].
  - unfold ioa. rewrite (@vget_nth _ (b_ba st1) u []) by (cbn; rewrite tput_length; lia). cbn [bind]. cbn [b_ba st1]. rewrite tput_find by (auto; lia). rewrite Nat.eqb_refl. cbn [andb]. rewrite E1. cbn [fst snd].
    destruct (@binv_row A st u I Lu) as (row & Er & Em). destruct F as [F _]. rewrite <- Em in F. rewrite nth_error_map in F. destruct (nth_error row i) as [x|] eqn:Ex; cbn [option_map] in F; [|discriminate].
    cbn [rd wr]. unfold vget2, vset2. cbn [b_g b_ba b_bx b_ax st1]. rewrite Er. cbn [bind]. rewrite (proj2 (vget_Ok _ _ _) Ex). cbn [bind]. rewrite vset_lt by (apply nth_error_Some; congruence). cbn [bind].
    rewrite (upd_same _ _ Ex). apply vget_Ok in Er. rewrite vset_lt by (apply nth_error_Some; congruence). cbn [bind]. now rewrite (upd_same _ _ Er).
  - apply (@pair_find A st u u i i); auto; [|cbn; now rewrite tput_length|apply tput_sorted; auto; lia]. intros a b. rewrite tput_find by (auto; lia). rewrite E1. destruct ((a =? u) && (b =? u)); auto.
Qed.
Lemma known_ok A st u v r : binv A st -> edge G u v -> afind v (nth u (b_ba st) []) = Some r -> binv (add A u v) st.
Proof.
  intros [H1 H2 H3 H4 H5 H6 H7 H8 H9 H10 H11] E K. apply H9 in K. destruct K as (K & _ & F). apply first_edge in F. constructor; auto.
  - intros a b [X|[-> ->]]; auto.
  - intros a b r'. rewrite H9. unfold add. split; [tauto|]. intros ([[X|[-> ->]]|[X|[-> ->]]] & Y); tauto.
  - intros a b. specialize (H10 a b). unfold add. destruct (afind b _); [tauto|]. intros [[X|[-> ->]] Y]; tauto.
  - intros a b. specialize (H11 a b). unfold add. destruct (afind a _); [tauto|]. intros [[X|[-> ->]] Y]; tauto.
Qed.

Lemma scan_ok u v row : map fst row = nth u G [] ->
  (bscan row v 0 = length row /\ ~ edge G u v) \/ (bscan row v 0 < length row /\ first_arc G u v (bscan row v 0)).
Proof.
  intros E. unfold edge, first_arc. rewrite <- E. destruct (bscan_ok v row 0) as [[A B]|(k & A & L & F & B)]; [left; auto|right]. rewrite A. simpl. auto.
Qed.

(* ---- the constructor *)
Definition seen (u i a b : nat) : Prop := edge G a b /\ a <> b /\ (a < u \/ (a = u /\ In b (firstn i (nth u G [])))).
Lemma seen_S u i v : nth_error (nth u G []) i = Some v -> forall a b, seen u (S i) a b <-> seen u i a b \/ (a = u /\ b = v /\ u <> v).
Proof.
  intros E a b. unfold seen. assert (X : firstn (S i) (nth u G []) = firstn i (nth u G []) ++ [v]).
  { revert E. generalize (nth u G []). induction i as [|i IH]; intros [|w l] E; try discriminate; simpl in *; [congruence|]. f_equal. auto. }
  rewrite X, in_app_iff. simpl. assert (edge G u v) by (eapply nth_error_In; eauto). intuition; subst; auto.
Qed.
Lemma b_step_ok u i st : i < length (nth u G []) -> u < n -> binv (seen u i) st -> exists st', b_step u st i = Ok st' /\ binv (seen u (S i)) st' /\ quiet st st'.
Proof.
  intros Li Lu I. destruct (@binv_row _ st u I Lu) as (row & Er & Em). unfold b_step, vget2. rewrite Er. cbn [bind].
  assert (Lr : i < length row) by (rewrite <- (map_length fst), Em; auto). destruct (nth_error row i) as [x|] eqn:Ex; [|apply nth_error_None in Ex; lia]. rewrite (proj2 (vget_Ok _ _ _) Ex). cbn [bind]. set (v := fst x).
  assert (Ev : nth_error (nth u G []) i = Some v) by (rewrite <- Em, nth_error_map, Ex; reflexivity). assert (E : edge G u v) by (eapply nth_error_In; eauto). assert (Lv := HG _ _ E).
  destruct (@binv_row _ st v I Lv) as (brow & Eb & Ebm). rewrite Eb. cbn [bind]. rewrite (@vget_nth _ (b_ba st) u []) by (rewrite (bi_lba I); auto). cbn [bind].
  assert (ADD : u <> v -> forall a b, add (seen u i) u v a b <-> seen u (S i) a b) by (intros N a b; rewrite (seen_S _ _ Ev); unfold add; tauto).
  assert (FA : seen u i u v \/ (u <> v -> first_arc G u v i)).
  { destruct (in_dec Nat.eq_dec v (firstn i (nth u G []))) as [M|M]; destruct (Nat.eq_dec u v) as [Ne|Ne].
    - right. congruence.
    - left. split; auto.
    - right. congruence.
    - right. intros _. split; auto. intros j J X. apply M. rewrite <- (firstn_skipn i (nth u G [])) in X. rewrite nth_error_app1 in X by (rewrite firstn_length_le; lia). eapply nth_error_In; eauto. }
  destruct (afind v (nth u (b_ba st) [])) as [r|] eqn:K.
  - exists st. split; auto. split; [|apply quiet_refl]. assert (Ne : u <> v). { apply (bi_ba I) in K. destruct K as [[K|K] _]; destruct K as (_ & K & _); auto. }
    eapply binv_ext; [exact (ADD Ne)|]. eapply known_ok; eauto.
  - assert (KN : edge G v u -> ~ seen u i u v /\ ~ seen u i v u).
    { intros E'. destruct (@first_ex _ _ _ E') as (k & Fk). split; intros X; assert (Y : afind v (nth u (b_ba st) []) = Some (v, k)) by (apply (bi_ba I); auto); congruence. }
    destruct (@scan_ok v u brow Ebm) as [[Es NE]|[Es Fj]].
    + rewrite Es, Nat.ltb_irrefl. assert (Ne : u <> v) by (intros C; apply NE; congruence).
      destruct (@extra_ok (seen u i) st u v i I E NE) as (st' & E' & I' & Q); [destruct FA; auto|]. exists st'. split; auto. split; auto. eapply binv_ext; [exact (ADD Ne)|auto].
    + destruct (Nat.ltb_spec (bscan brow u 0) (length brow)); [|lia]. destruct (KN (first_edge Fj)) as [N1 N2]. destruct (Nat.ltb_spec u v) as [L|L].
      * assert (Ne : u <> v) by lia. destruct FA as [FA|FA]; [contradiction|]. destruct (@pair_ok (seen u i) st u v i _ Ne I (FA Ne) Fj N1 N2) as (st' & E' & I' & Q). exists st'. split; auto. split; auto. eapply binv_ext; [exact (ADD Ne)|auto].
      * exists st. split; auto. split; [|apply quiet_refl]. assert (u = v). { destruct (Nat.eq_dec u v); auto. exfalso. apply N2. split; [eapply first_edge; eauto|]. split; [lia|left; lia]. }
        eapply binv_ext; [|exact I]. intros a b. rewrite (seen_S _ _ Ev). intuition.
Qed.
Lemma binv_empty g : map (map fst) g = G -> binv (fun _ _ => False) (mkB g (repeat [] n) (repeat [] n) (repeat [] n)).
Proof.
  intros E. constructor; cbn [b_g b_ba b_bx b_ax]; rewrite ?repeat_length; auto; try apply tsorted_repeat; try tauto; intros u v; rewrite nth_repeat_nil; cbn [afind]; try tauto.
  intros r. split; [discriminate|tauto].
Qed.
Lemma b_make_ok g : map (map fst) g = G -> exists st, b_make g false = Ok st /\ binv (fun a b => edge G a b /\ a <> b) st /\
  quiet (mkB g (repeat [] n) (repeat [] n) (repeat [] n)) st.
Proof.
  intros E. unfold b_make. assert (Lg : length g = n) by (rewrite <- E; now rewrite map_length). rewrite Lg. set (st0 := mkB g (repeat [] n) (repeat [] n) (repeat [] n)).
  destruct (@rfold_ind _ _ b_outer (fun l st => binv (seen (length l) 0) st /\ quiet st0 st) (seq 0 n) st0) as (st & Es & I & Q).
  - split; [|apply quiet_refl]. eapply binv_ext; [|apply binv_empty; exact E]. intros a b. unfold seen. simpl. intuition; lia.
  - intros l u st [I Q] [rest Eq]. assert (Hu : u = length l /\ u < n).
    { assert (X : nth_error (seq 0 n) (length l) = Some u) by (rewrite Eq, nth_error_app2, Nat.sub_diag by lia; reflexivity). assert (length l < n) by (rewrite <- (seq_length n 0); apply nth_error_Some; congruence).
      apply (nth_error_nth _ _ 0) in X. rewrite seq_nth in X by auto. simpl in X. lia. }
    destruct Hu as [Hu Lu]. rewrite app_length. simpl. rewrite <- Hu in *. unfold b_outer. destruct (@binv_row _ st u I Lu) as (row & Er & Em). rewrite Er. cbn [bind].
    assert (Lr : length row = length (nth u G [])) by (rewrite <- Em; now rewrite map_length). rewrite Lr.
    destruct (@rfold_ind _ _ (b_step u) (fun l st => binv (seen u (length l)) st /\ quiet st0 st) (seq 0 (length (nth u G []))) st) as (st' & Es & I' & Q').
    + split; auto.
    + intros l' i st1 [I1 Q1] [rest' Eq']. assert (Hi : i = length l' /\ i < length (nth u G [])).
      { assert (X : nth_error (seq 0 (length (nth u G []))) (length l') = Some i) by (rewrite Eq', nth_error_app2, Nat.sub_diag by lia; reflexivity). assert (length l' < length (nth u G [])) by (rewrite <- (seq_length (length (nth u G [])) 0); apply nth_error_Some; congruence).
        apply (nth_error_nth _ _ 0) in X. rewrite seq_nth in X by auto. simpl in X. lia. }
      destruct Hi as [Hi Li]. rewrite app_length. simpl. rewrite <- Hi in *. destruct (b_step_ok Li Lu I1) as (st2 & E2 & I2 & Q2). exists st2. split; auto. replace (i + 1) with (S i) by lia. split; auto. eapply quiet_trans; eauto.
    + exists st'. split; auto. split; auto. rewrite seq_length in I'. eapply binv_ext; [|exact I']. intros a b. unfold seen. rewrite firstn_all. simpl. assert (edge G a b -> a < u + 1 -> a < u \/ a = u /\ In b (nth u G [])) by (intros X Y; destruct (Nat.eq_dec a u) as [->|]; [right; auto|left; lia]). intuition; lia.
  - exists st. split; auto. split; auto. rewrite seq_length in I. eapply binv_ext; [|exact I]. intros a b. unfold seen. simpl. assert (edge G a b -> a < n) by (intros X; eapply edge_l; eauto). intuition.
Qed.

(* ---- get_back_edge *)
Lemma b_find_ok A st u v : binv A st -> u < n ->
  (exists j, (A u v \/ A v u) /\ first_arc G v u j /\ b_find st u v = Ok (Some (LReal v j))) \/
  (A u v /\ ~ edge G v u /\ b_find st u v = Ok (Some (LBx u v)) /\ exists z, rd st (LBx u v) = Ok (u, z)) \/
  (~ A u v /\ ~ A v u /\ b_find st u v = Ok None) \/ (~ edge G v u /\ ~ A u v /\ b_find st u v = Ok None).
Proof.
  intros I Lu. unfold b_find. rewrite (@vget_nth _ (b_ba st) u []) by (rewrite (bi_lba I); auto). cbn [bind]. destruct (afind v (nth u (b_ba st) [])) as [r|] eqn:K.
  - left. apply (bi_ba I) in K. destruct r as [r j]. simpl in K. destruct K as (K & -> & F). exists j. auto.
  - rewrite (@vget_nth _ (b_bx st) u []) by (rewrite (bi_lbx I); auto). cbn [bind rd]. rewrite mget_nth. assert (X := bi_bx I u v). destruct (afind v (nth u (b_bx st) [])) as [e|].
    + right. left. destruct X as (X & Y & Z). split; auto. split; auto. split; auto. exists (snd e). rewrite <- Z. now destruct e.
    + right. right. destruct (edge_dec G v u) as [E|E]; [left|right].
      * destruct (@first_ex _ _ _ E) as (j & F). assert (NN : ~ (A u v \/ A v u)). { intros C. assert (Y : afind v (nth u (b_ba st) []) = Some (v, j)) by (apply (bi_ba I); auto). congruence. } tauto.
      * split; auto.
Qed.
Definition back_place (u v : nat) (l : loc) : Prop := (exists j, first_arc G v u j /\ l = LReal v j) \/ (~ edge G v u /\ l = LBx u v).
Lemma rd_real A st v u j : binv A st -> first_arc G v u j -> exists z, rd st (LReal v j) = Ok (u, z).
Proof.
  intros I F. destruct (@binv_row _ st v I (@edge_l _ _ (first_edge F))) as (row & Er & Em). destruct F as [F _]. rewrite <- Em, nth_error_map in F. destruct (nth_error row j) as [x|] eqn:Ex; cbn [option_map] in F; [|discriminate]. simpl in F. injection F as <-.
  exists (snd x). cbn [rd]. unfold vget2. rewrite Er. cbn [bind]. rewrite (proj2 (vget_Ok _ _ _) Ex). now destruct x.
Qed.
Lemma get_forward A st u v : binv A st -> edge G u v ->
  exists st' l z, get_back st u v = Ok (st', l) /\ binv (add A u v) st' /\ quiet st st' /\ back_place u v l /\ rd st' l = Ok (u, z).
Proof.
  intros I E. assert (Lu := @edge_l _ _ E). assert (Lv := HG _ _ E). unfold get_back. destruct (@b_find_ok A st u v I Lu) as [(j & KA & F & ->)|[(KA & NE & -> & z & Rz)|[C|C]]]; cbn [bind].
  - destruct (@rd_real _ _ _ _ _ I F) as (z & Z). exists st, (LReal v j), z. split; auto. split; [|split; [apply quiet_refl|split; [left; eauto|auto]]]. eapply known_ok; eauto. apply (bi_ba I). split; auto. cbn [fst snd]. instantiate (1 := (v, j)). auto.
  - exists st, (LBx u v), z. split; auto. split; [|split; [apply quiet_refl|split; [right; auto|auto]]]. eapply binv_ext; [|exact I]. intros a b. unfold add. intuition; subst; auto.
  - destruct C as (N1 & N2 & ->). cbn [bind]. unfold b_search. destruct (@binv_row _ st u I Lu) as (row & Er & Em). rewrite Er. cbn [bind].
    destruct (@scan_ok u v row Em) as [[_ X]|[Ls Fi]]; [contradiction|]. destruct (Nat.ltb_spec (bscan row v 0) (length row)); [|lia].
    destruct (@binv_row _ st v I Lv) as (brow & Eb & Ebm). rewrite Eb. cbn [bind].
    assert (X : exists st', (if bscan brow u 0 <? length brow then do st1 <- ioa st v u (u, bscan row v 0); ioa st1 u v (v, bscan brow u 0) else extra st u v (u, bscan row v 0)) = Ok st' /\ binv (add A u v) st' /\ quiet st st').
    { destruct (@scan_ok v u brow Ebm) as [[Es NE]|[Es Fj]].
      - rewrite Es, Nat.ltb_irrefl. eapply extra_ok; eauto.
      - destruct (Nat.ltb_spec (bscan brow u 0) (length brow)); [|lia]. destruct (Nat.eq_dec u v) as [Ne|Ne]; [|apply pair_ok'; auto].
        subst v. rewrite (first_fun Fj Fi). apply loop_ok; auto. }
    destruct X as (st' & -> & I' & Q). cbn [bind]. destruct (@b_find_ok _ st' u v I' Lu) as [(j & KA & F & ->)|[(KA & NE & -> & z & Rz)|[C|C]]]; cbn [bind].
    + destruct (@rd_real _ _ _ _ _ I' F) as (z & Z). exists st', (LReal v j), z. split; auto. split; auto. split; auto. split; auto. left. eauto.
    + exists st', (LBx u v), z. split; auto. split; auto. split; auto. split; auto. right. auto.
    + destruct C as (C & _). exfalso. apply C. right. auto.
    + destruct C as (_ & C & _). exfalso. apply C. right. auto.
  - destruct C as (NE & N1 & ->). cbn [bind]. unfold b_search. destruct (@binv_row _ st u I Lu) as (row & Er & Em). rewrite Er. cbn [bind].
    destruct (@scan_ok u v row Em) as [[_ X]|[Ls Fi]]; [contradiction|]. destruct (Nat.ltb_spec (bscan row v 0) (length row)); [|lia].
    destruct (@binv_row _ st v I Lv) as (brow & Eb & Ebm). rewrite Eb. cbn [bind].
    destruct (@scan_ok v u brow Ebm) as [[Es _]|[Es Fj]]; [|apply first_edge in Fj; contradiction]. rewrite Es, Nat.ltb_irrefl.
    destruct (@extra_ok A st u v (bscan row v 0) I E NE (or_introl Fi)) as (st' & -> & I' & Q). cbn [bind]. destruct (@b_find_ok _ st' u v I' Lu) as [(j & KA & F & ->)|[(KA & _ & -> & z & Rz)|[C|C]]]; cbn [bind].
    + apply first_edge in F. contradiction.
    + exists st', (LBx u v), z. split; auto. split; auto. split; auto. split; auto. right. auto.
    + destruct C as (C & _). exfalso. apply C. right. auto.
    + destruct C as (_ & C & _). exfalso. apply C. right. auto.
Qed.
Lemma get_backward A st u v : binv A st -> u < n -> ~ edge G u v ->
  (A v u -> exists j z, first_arc G v u j /\ get_back st u v = Ok (st, LReal v j) /\ rd st (LReal v j) = Ok (u, z)) /\ (~ A v u -> get_back st u v = Ub).
Proof.
  intros I Lu NE. assert (NA : ~ A u v) by (intros X; apply NE; eapply bi_A; eauto). unfold get_back. destruct (@b_find_ok A st u v I Lu) as [(j & KA & F & EF)|[(KA & _)|[C|C]]]; [| |destruct C as (_ & C & EF)|destruct C as (C & _ & EF)]; try contradiction; rewrite ?EF; cbn [bind].
  - split; [|tauto]. intros _. destruct (@rd_real _ _ _ _ _ I F) as (z & Z). exists j, z. auto.
  - split; [tauto|]. intros _. unfold b_search. destruct (@binv_row _ st u I Lu) as (row & Er & Em). rewrite Er. cbn [bind]. destruct (@scan_ok u v row Em) as [[Es _]|[_ F]]; [|apply first_edge in F; contradiction]. rewrite Es, Nat.ltb_irrefl. cbn [bind]. rewrite EF. reflexivity.
  - split; [intros X; exfalso; apply C; eapply bi_A; eauto|]. intros _. unfold b_search. destruct (@binv_row _ st u I Lu) as (row & Er & Em). rewrite Er. cbn [bind]. destruct (@scan_ok u v row Em) as [[Es _]|[_ F]]; [|apply first_edge in F; contradiction]. rewrite Es, Nat.ltb_irrefl. cbn [bind]. rewrite EF. reflexivity.
Qed.

(* ---- assignments *)
Lemma loc_dec (a b : loc) : {a = b} + {a <> b}.
Proof. decide equality; apply Nat.eq_dec. Qed.
Lemma vset2_ok T (t t' : list (list T)) v i x : vset2 t v i x = Ok t' ->
  exists row, nth_error t v = Some row /\ i < length row /\ t' = upd t v (upd row i x).
Proof.
  unfold vset2. intros E. destruct (vget t v) as [row| |] eqn:Er; try discriminate. cbn [bind] in E. destruct (vset row i x) as [row'| |] eqn:Ex; try discriminate. cbn [bind] in E.
  apply vget_Ok in Er. exists row. split; auto. assert (Li : i < length row) by (apply vset_Ok in Ex; tauto). split; auto. rewrite vset_lt in Ex by auto. injection Ex as <-. rewrite vset_lt in E by (apply nth_error_Some; congruence). now injection E as <-.
Qed.
Lemma mset_ok T (t t' : list (amap T)) u v x : mset t u v x = Ok t' ->
  u < length t /\ (exists y, afind v (nth u t []) = Some y) /\ t' = upd t u (aset v x (nth u t [])).
Proof.
  unfold mset. intros E. destruct (Nat.lt_ge_cases u (length t)) as [L|L].
  - rewrite (@vget_nth _ t u []) in E by auto. cbn [bind] in E. destruct (afind v (nth u t [])) as [y|] eqn:F; [|discriminate]. rewrite vset_lt in E by auto. injection E as <-. eauto.
  - unfold vget in E. rewrite (proj2 (nth_error_None _ _)) in E by auto. discriminate.
Qed.
Lemma mset_find T (t : list (amap T)) u v x a b : u < length t -> (exists y, afind v (nth u t []) = Some y) ->
  afind b (nth a (upd t u (aset v x (nth u t []))) []) = if (a =? u) && (b =? v) then Some x else afind b (nth a t []).
Proof.
  intros L (y & F). destruct (Nat.eqb_spec a u) as [->|N]; cbn [andb]; [|now rewrite nth_upd_neq by auto]. rewrite nth_upd_eq by auto. rewrite afind_aset, F. reflexivity.
Qed.
Lemma mset_sorted T (t : list (amap T)) u v x : u < length t -> tsorted t -> tsorted (upd t u (aset v x (nth u t []))).
Proof. intros L So w. destruct (Nat.eq_dec u w) as [<-|N]; [rewrite nth_upd_eq by auto; unfold asorted; rewrite aset_keys; apply So|rewrite nth_upd_neq by auto; auto]. Qed.
Lemma map_upd S T (f : S -> T) l i x : map f (upd l i x) = upd (map f l) i (f x).
Proof. revert i; induction l as [|a l IH]; intros [|i]; simpl; auto. now rewrite IH. Qed.

Lemma put_ok A st l z st' : binv A st -> put st l z = Ok st' ->
  binv A st' /\ (forall l', l' <> l -> rd st' l' = rd st l') /\ exists x, rd st l = Ok x /\ rd st' l = Ok (fst x, z).
Proof.
  intros [H1 H2 H3 H4 H5 H6 H7 H8 H9 H10 H11] E. unfold put in E. destruct (rd st l) as [x| |] eqn:Ex; try discriminate. cbn [bind] in E. destruct l as [v i|u v|v u]; cbn [wr] in E.
  - destruct (vset2 (b_g st) v i (fst x, z)) as [g'| |] eqn:Eg; try discriminate. cbn [bind] in E. injection E as <-. apply vset2_ok in Eg. destruct Eg as (row & Er & Li & ->).
    cbn [rd] in Ex. unfold vget2 in Ex. rewrite (proj2 (vget_Ok _ _ _) Er) in Ex. cbn [bind] in Ex. apply vget_Ok in Ex. assert (Lv : v < length (b_g st)) by (apply nth_error_Some; congruence).
    split; [constructor; auto|split].
    + cbn [b_g]. rewrite map_upd, map_upd. cbn [fst]. rewrite <- H1. rewrite (@upd_same _ (map fst row) i (fst x)) by (rewrite nth_error_map, Ex; reflexivity). apply upd_same. now rewrite nth_error_map, Er.
    + intros l' N. destruct l' as [v' i'|a b|a b]; auto. cbn [rd b_g]. unfold vget2. destruct (Nat.eq_dec v v') as [<-|Nv].
      * rewrite vget_upd_eq by auto. rewrite (proj2 (vget_Ok _ _ _) Er). cbn [bind]. apply vget_upd_neq. congruence.
      * now rewrite vget_upd_neq by auto.
    + exists x. split; auto. cbn [rd b_g]. unfold vget2. rewrite vget_upd_eq by auto. cbn [bind]. now apply vget_upd_eq.
  - destruct (mset (b_bx st) u v (fst x, z)) as [g'| |] eqn:Eg; try discriminate. cbn [bind] in E. injection E as <-. apply mset_ok in Eg. destruct Eg as (Lu & Ey & ->).
    cbn [rd] in Ex. rewrite mget_nth in Ex. split; [constructor; auto|split]; cbn [b_bx].
    + now rewrite upd_length.
    + now apply mset_sorted.
    + intros a b. specialize (H10 a b). rewrite mset_find by auto. destruct (Nat.eqb_spec a u) as [->|], (Nat.eqb_spec b v) as [->|]; cbn [andb]; auto. destruct Ey as (y & Ey). rewrite Ey in Ex, H10. injection Ex as <-. auto.
    + intros l' N. destruct l' as [v' i'|a b|a b]; auto. cbn [rd b_bx]. rewrite !mget_nth, mset_find by auto. destruct (Nat.eqb_spec a u) as [->|], (Nat.eqb_spec b v) as [->|]; cbn [andb]; congruence.
    + exists x. split; auto. cbn [rd b_bx]. rewrite mget_nth, mset_find by auto. now rewrite !Nat.eqb_refl.
  - destruct (mset (b_ax st) v u (fst x, z)) as [g'| |] eqn:Eg; try discriminate. cbn [bind] in E. injection E as <-. apply mset_ok in Eg. destruct Eg as (Lu & Ey & ->).
    cbn [rd] in Ex. rewrite mget_nth in Ex. split; [constructor; auto|split]; cbn [b_ax].
    + now rewrite upd_length.
    + now apply mset_sorted.
    + intros a b. specialize (H11 a b). rewrite mset_find by auto. destruct (Nat.eqb_spec b v) as [->|], (Nat.eqb_spec a u) as [->|]; cbn [andb]; auto. destruct Ey as (y & Ey). rewrite Ey in Ex, H11. injection Ex as <-. auto.
    + intros l' N. destruct l' as [v' i'|a b|a b]; auto. cbn [rd b_ax]. rewrite !mget_nth, mset_find by auto. destruct (Nat.eqb_spec a v) as [->|], (Nat.eqb_spec b u) as [->|]; cbn [andb]; congruence.
    + exists x. split; auto. cbn [rd b_ax]. rewrite mget_nth, mset_find by auto. now rewrite !Nat.eqb_refl.
Qed.

(* ---- histories *)
Lemma ask_range A st u v r : binv A st -> get_back st u v = Ok r -> u < n.
Proof. intros I E. destruct (Nat.lt_ge_cases u n) as [L|L]; auto. unfold get_back, b_find in E. unfold vget at 1 in E. rewrite (proj2 (nth_error_None _ _)) in E by (rewrite (bi_lba I); auto). discriminate. Qed.
Lemma op_ok A st o st' : binv A st -> b_op st o = Ok st' -> binv (fun a b => A a b \/ (edge G a b /\ o = Ask a b)) st'.
Proof.
  intros I E. destruct o as [u v|l z]; cbn [b_op] in E.
  - destruct (get_back st u v) as [[s1 l]| |] eqn:Eg; try discriminate. cbn [bind fst] in E. injection E as <-. assert (Lu := @ask_range _ _ _ _ _ I Eg). destruct (edge_dec G u v) as [Ed|Ed].
    + destruct (@get_forward _ _ _ _ I Ed) as (s2 & l2 & z & E2 & I2 & _). rewrite Eg in E2. injection E2 as <- <-. eapply binv_ext; [|exact I2]. intros a b. unfold add. split; [intros [X|[-> ->]]; auto|intros [X|[X Y]]; auto; injection Y as <- <-; auto].
    + assert (s1 = st). { destruct (@get_backward _ _ _ _ I Lu Ed) as [B1 B2]. assert (X : A v u \/ ~ A v u). { destruct (afind v (nth u (b_ba st) [])) as [r|] eqn:F; [apply (bi_ba I) in F; destruct F as ([F|F] & _); [apply (bi_A I) in F; contradiction|auto]|]. right. intros X. destruct (@first_ex _ _ _ (bi_A I _ _ X)) as (j & J). assert (afind v (nth u (b_ba st) []) = Some (v, j)) by (apply (bi_ba I); auto). congruence. }
        destruct X as [X|X]; [destruct (B1 X) as (j & z & _ & Y & _); congruence|rewrite (B2 X) in Eg; discriminate]. }
      subst s1. eapply binv_ext; [|exact I]. intros a b. split; auto. intros [X|[X Y]]; auto. injection Y as -> ->. contradiction.
  - destruct (@put_ok _ _ _ _ _ I E) as (I' & _). eapply binv_ext; [|exact I']. intros a b. split; auto. intros [X|[X Y]]; auto. discriminate.
Qed.
Lemma run_ok : forall ops A st st', binv A st -> b_run st ops = Ok st' -> binv (fun a b => A a b \/ (edge G a b /\ In (Ask a b) ops)) st'.
Proof.
  unfold b_run. induction ops as [|o ops IH]; intros A st st' I E; cbn [rfold] in E.
  - injection E as <-. eapply binv_ext; [|exact I]. intros a b. simpl. tauto.
  - destruct (b_op st o) as [s1| |] eqn:E1; try discriminate. cbn [bind] in E. assert (I1 := @op_ok _ _ _ _ I E1). eapply binv_ext; [|exact (IH _ _ _ I1 E)]. intros a b. simpl. intuition.
Qed.

(* ---- iteration *)
Lemma view_ok A st v : binv A st -> v < n -> exists K, b_view st v = Ok (map (LReal v) (seq 0 (length (nth v G []))) ++ map (LAx v) K) /\
  StronglySorted lt K /\ forall u, In u K <-> A u v /\ ~ edge G v u.
Proof.
  intros I Lv. exists (map fst (nth v (b_ax st) [])). unfold b_view. destruct (@binv_row _ st v I Lv) as (row & Er & Em). rewrite Er. cbn [bind]. rewrite (@vget_nth _ (b_ax st) v []) by (rewrite (bi_lax I); auto). cbn [bind].
  rewrite <- Em, map_length, map_map. split; auto. split; [apply (bi_sax I)|]. intros u. rewrite afind_keys. assert (X := bi_ax I u v). destruct (afind u _); [split; [tauto|discriminate]|]. split; [congruence|tauto].
Qed.
Lemma rd_ax A st u v : binv A st -> A u v -> ~ edge G v u -> exists z, rd st (LAx v u) = Ok (u, z).
Proof. intros I X NE. cbn [rd]. rewrite mget_nth. assert (Y := bi_ax I u v). destruct (afind u _) as [e|]; [|tauto]. exists (snd e). destruct Y as (_ & _ & <-). now destruct e. Qed.
End I.
