(** Invariants of the experimental betweenness versions: what a level of the forward phase has still to do is a list of arcs. *)
From Coq Require Import List Arith ZArith Qcanon Field Lia Bool Permutation.
From Verif Require Import Base GraphLib FifoLib SumLib QcLib BcLib Pool ParBfsModel ParBfsProofs BcModel BcProofs BcParProofs BcParProofs2 CcProofs XbcModel.
Import ListNotations.
Set Implicit Arguments.
Local Open Scope nat_scope.

Notation cocc := (count_occ Nat.eq_dec).
(** ** Pending arcs *)
Definition pto (x : nat) (l : list (nat * nat)) : nat := sum (map (fun a => b2n (snd a =? x)) l).
Definition pab (v x : nat) (l : list (nat * nat)) : nat := sum (map (fun a => b2n ((fst a =? v) && (snd a =? x))) l).
Definition wgt (f : nat -> nat) (x : nat) (l : list (nat * nat)) : nat := sum (map (fun a => if snd a =? x then f (fst a) else 0) l).
Lemma pab_app v x a b : pab v x (a ++ b) = pab v x a + pab v x b.
Proof. unfold pab. now rewrite map_app, sum_app. Qed.
Lemma wgt_app f x a b : wgt f x (a ++ b) = wgt f x a + wgt f x b.
Proof. unfold wgt. now rewrite map_app, sum_app. Qed.
Lemma wgt_row f x u l : wgt f x (map (fun v => (u, v)) l) = cocc l x * f u.
Proof.
  unfold wgt. rewrite map_map. cbn [fst snd]. induction l as [|v l IH]; auto. cbn [map sum count_occ]. rewrite IH.
  destruct (Nat.eq_dec v x) as [->|N]; [rewrite Nat.eqb_refl; lia|]. now rewrite (proj2 (Nat.eqb_neq v x)).
Qed.
Lemma pab_row v x u l : pab v x (map (fun y => (u, y)) l) = if u =? v then cocc l x else 0.
Proof.
  unfold pab. rewrite map_map. cbn [fst snd]. induction l as [|y l IH]; cbn [map sum count_occ]; [now destruct (u =? v)|]. rewrite IH.
  destruct (u =? v); cbn [andb b2n]; auto. destruct (Nat.eq_dec y x) as [->|N]; [now rewrite Nat.eqb_refl|]. now rewrite (proj2 (Nat.eqb_neq y x)).
Qed.

Section P.
  Variables (g : list (list nat)) (s M vmax : nat).
  Hypothesis (T : targets_ok g) (Hs : s < length g) (HM : forall t, sg g s t < M) (HV : length g <= vmax).
  Notation n := (length g).
  Notation row v := (nth v g []).
  Notation sg := (sg g s).
  Notation nxt := (nxt g s).
  Notation dist := (dist g s).
  Notation far k x := (forall a, a <= k -> ~ dist x a).
  (** how often [v] is recorded as predecessor of [x] *)
  Definition mult (v x : nat) : nat := if nxt v x then cocc (row v) x else 0.

  (** levels: [q] holds the vertices found so far, [C] the vertices still to be looked at *)
  Record LV (k : nat) (C : nat -> Prop) (q : list nat) (lv : list nat) : Prop := {
    v_len : length lv = n;
    v_1 : forall x a, dist x a -> a <= k -> nth x lv 0 = a;
    v_2 : forall x, dist x (S k) -> nth x lv 0 = vmax \/ nth x lv 0 = S k;
    v_3 : forall x, x < n -> far (S k) x -> nth x lv 0 = vmax;
    v_nd : NoDup q;
    v_q : forall x, In x q <-> dist x (S k) /\ nth x lv 0 = S k;
    v_c : forall x, dist x (S k) -> nth x lv 0 = S k \/ C x }.
  Record PC (k : nat) (W : nat -> nat) (pc : list nat) : Prop := {
    c_len : length pc = n;
    c_1 : forall x a, dist x a -> a <= k -> nth x pc 0 = sg x;
    c_2 : forall x, dist x (S k) -> nth x pc 0 + W x = sg x;
    c_3 : forall x, x < n -> far (S k) x -> nth x pc 0 = 0 }.
  Record PR (k : nat) (R : nat -> nat -> nat) (P : list (list nat)) : Prop := {
    r_len : length P = n;
    r_1 : forall x a v, dist x a -> a <= k -> cocc (nth x P []) v = mult v x;
    r_2 : forall x v, dist x (S k) -> cocc (nth x P []) v + R v x = mult v x;
    r_3 : forall x, x < n -> far (S k) x -> nth x P [] = [] }.
  Record LVb (k : nat) (lv : list nat) : Prop := {
    vb_len : length lv = n;
    vb_1 : forall x a, dist x a -> a <= k -> nth x lv 0 = a;
    vb_3 : forall x, x < n -> far k x -> nth x lv 0 = vmax }.
  Record PCb (k : nat) (pc : list nat) : Prop := {
    cb_len : length pc = n;
    cb_1 : forall x a, dist x a -> a <= k -> nth x pc 0 = sg x;
    cb_3 : forall x, x < n -> far k x -> nth x pc 0 = 0 }.
  Record PRb (k : nat) (P : list (list nat)) : Prop := {
    rb_len : length P = n;
    rb_1 : forall x a v, dist x a -> a <= k -> cocc (nth x P []) v = mult v x;
    rb_3 : forall x, x < n -> far k x -> nth x P [] = [] }.
  Definition lev (k : nat) (l : list nat) : Prop := NoDup l /\ forall x, In x l <-> dist x k.

  Lemma dlt x a : dist x a -> x < n /\ a < vmax.
  Proof. intros D. split; [exact (walk_lt T Hs (proj1 D))|]. assert (X := dist_lt_n T Hs D). lia. Qed.
  Lemma far_S k x : dist x (S k) -> far k x.
  Proof. intros D a La D'. assert (X := dist_fun D D'). lia. Qed.
  Lemma not_S k x a : dist x a -> a <= k -> ~ dist x (S k).
  Proof. intros D La D'. assert (X := dist_fun D D'). lia. Qed.
  Lemma far_not k x : far (S k) x -> ~ dist x (S k).
  Proof. intros F D. exact (F (S k) (le_n _) D). Qed.
  Lemma edge_cases k u v : dist u k -> edge g u v -> (exists a, a <= k /\ dist v a) \/ dist v (S k).
  Proof.
    intros Du Ed. destruct (proj1 (dist_reach g s v)) as [a Da]; [exists (S k); econstructor; [apply Du|exact Ed]|].
    assert (L : a <= S k) by (apply Da; econstructor; [apply Du|exact Ed]). destruct (Nat.eq_dec a (S k)) as [->|N]; auto. left. exists a. split; auto. lia.
  Qed.

  (** *** Levels *)
  Lemma LV_weak k (C C' : nat -> Prop) q q' lv : LV k C q lv -> Permutation q q' ->
    (forall x, C x -> dist x (S k) -> nth x lv 0 <> S k -> C' x) -> LV k C' q' lv.
  Proof.
    intros [A1 A2 A3 A4 A5 A6 A7] P H. constructor; auto.
    - exact (Permutation_NoDup P A5).
    - intros x. rewrite <- A6. split; apply Permutation_in; [now symmetry|auto].
    - intros x D. destruct (A7 x D) as [|X]; auto. destruct (Nat.eq_dec (nth x lv 0) (S k)); auto.
  Qed.
  Lemma LV_set k C q lv v : LV k C q lv -> dist v (S k) -> nth v lv 0 = vmax -> LV k C (v :: q) (upd lv v (S k)).
  Proof.
    intros [A1 A2 A3 A4 A5 A6 A7] D E. destruct (dlt D) as [Lv Lm].
    constructor; rewrite ?upd_length; auto.
    - intros x a Dx La. rewrite nth_upd_neq; auto. intros ->. exact (not_S Dx La D).
    - intros x Dx. rewrite nth_upd by lia. destruct (x =? v); auto.
    - intros x Lx F. rewrite nth_upd_neq; auto. intros ->. exact (far_not F D).
    - constructor; auto. intros I. apply A6 in I. lia.
    - intros x. cbn [In]. rewrite A6, nth_upd by lia. destruct (Nat.eqb_spec x v) as [->|N].
      + split; auto.
      + intuition congruence.
    - intros x Dx. rewrite nth_upd by lia. destruct (x =? v); auto.
  Qed.
  Lemma LV_max k C q lv u v : LV k C q lv -> dist u k -> edge g u v -> nth v lv 0 = vmax -> dist v (S k).
  Proof.
    intros A Du Ed E. destruct (@edge_cases _ _ _ Du Ed) as [(a & La & D)|]; auto. exfalso. rewrite (v_1 A D La) in E. destruct (dlt D). lia.
  Qed.
  Lemma LV_at k C q lv u v : LV k C q lv -> dist u k -> edge g u v -> nth v lv 0 <> vmax -> nth v lv 0 = S k <-> dist v (S k).
  Proof.
    intros A Du Ed N. split.
    - intros E. destruct (@edge_cases _ _ _ Du Ed) as [(a & La & D)|]; auto. exfalso. rewrite (v_1 A D La) in E. lia.
    - intros D. destruct (v_2 A D); tauto.
  Qed.
  Lemma LV_start k (C : nat -> Prop) lv : LVb k lv -> (forall x, dist x (S k) -> C x) -> LV k C [] lv.
  Proof.
    intros [A1 A2 A3] H. assert (Q : forall x, dist x (S k) -> nth x lv 0 = vmax) by (intros x D; apply A3; [apply (dlt D)|now apply far_S]).
    constructor; auto.
    - constructor.
    - intros x. split; [intros []|]. intros [D E]. rewrite (Q x D) in E. destruct (dlt D). lia.
  Qed.
  Lemma LV_end k q lv : LV k (fun _ => False) q lv -> LVb (S k) lv /\ lev (S k) q.
  Proof.
    intros [A1 A2 A3 A4 A5 A6 A7]. assert (Q : forall x, dist x (S k) -> nth x lv 0 = S k) by (intros x D; destruct (A7 x D) as [|[]]; auto).
    split.
    - constructor; auto. intros x a D La. destruct (Nat.eq_dec a (S k)) as [->|]; [auto|]. apply A2; auto. lia.
    - split; auto. intros x. rewrite A6. split; [tauto|auto].
  Qed.

  (** *** Path counts *)
  Lemma PC_ext k (W W' : nat -> nat) pc : PC k W pc -> (forall x, dist x (S k) -> W' x = W x) -> PC k W' pc.
  Proof. intros [A1 A2 A3 A4] H. constructor; auto. intros x D. rewrite H; auto. Qed.
  Lemma PC_add k (W W' : nat -> nat) pc v c : PC k W pc -> dist v (S k) -> (forall x, dist x (S k) -> W x = W' x + if x =? v then c else 0) ->
    PC k W' (upd pc v ((nth v pc 0 + c) mod M)).
  Proof.
    intros [A1 A2 A3 A4] D H. destruct (dlt D) as [Lv _]. constructor; rewrite ?upd_length; auto.
    - intros x a Dx La. rewrite nth_upd_neq; [eauto|]. intros ->. exact (not_S Dx La D).
    - intros x Dx. assert (X := A3 x Dx). rewrite H in X by auto. rewrite nth_upd by lia. destruct (Nat.eqb_spec x v) as [->|N]; [|lia].
      assert (HM' := HM v). rewrite Nat.mod_small by lia. lia.
    - intros x Lx F. rewrite nth_upd_neq; auto. intros ->. exact (far_not F D).
  Qed.
  Lemma PC_start k cur pc : lev k cur -> PCb k pc -> PC k (fun x => wgt sg x (out_edges g cur)) pc.
  Proof.
    intros [ND HL] [A1 A2 A3]. constructor; auto.
    - intros x D. rewrite A3 by (try apply (dlt D); now apply far_S). cbn [Nat.add].
      assert (Rx : reachable g s x) by (exists (S k); apply D). rewrite (@sg_rec g s T Hs x cur Rx); auto.
      + unfold out_edges. clear - HL D T Hs. assert (H : forall u, In u cur -> nxt u x = true).
        { intros u I. apply (nxt_dist T Hs). exists k. split; auto. now apply HL. }
        clear HL. induction cur as [|u l IH]; auto. cbn [flat_map map sum]. rewrite wgt_app, wgt_row, IH by (intros; apply H; now right).
        rewrite (H u) by now left. reflexivity.
      + intros ->. assert (X := dist_fun D (proj2 (dist_0 g s s) eq_refl)). discriminate.
      + intros v Nv _. apply (nxt_dist T Hs) in Nv. destruct Nv as (a & D1 & D2). assert (X := dist_fun D D2). injection X as <-. now apply HL.
  Qed.
  Lemma PC_end k W pc : PC k W pc -> (forall x, W x = 0) -> PCb (S k) pc.
  Proof.
    intros [A1 A2 A3 A4] H. constructor; auto. intros x a D La. destruct (Nat.eq_dec a (S k)) as [->|].
    - assert (X := A3 x D). rewrite H in X. lia.
    - apply A2 with a; auto. lia.
  Qed.

  (** *** Predecessors *)
  Lemma PR_ext k (R R' : nat -> nat -> nat) P : PR k R P -> (forall v x, dist x (S k) -> R' v x = R v x) -> PR k R' P.
  Proof. intros [A1 A2 A3 A4] H. constructor; auto. intros x v D. rewrite H; auto. Qed.
  Lemma PR_add k (R R' : nat -> nat -> nat) P u v : PR k R P -> dist v (S k) ->
    (forall y x, dist x (S k) -> R y x = R' y x + b2n ((u =? y) && (v =? x))) -> PR k R' (upd P v (nth v P [] ++ [u])).
  Proof.
    intros [A1 A2 A3 A4] D H. destruct (dlt D) as [Lv _]. constructor; rewrite ?upd_length; auto.
    - intros x a y Dx La. rewrite nth_upd_neq; [eauto|]. intros ->. exact (not_S Dx La D).
    - intros x y Dx. assert (X := A3 x y Dx). rewrite H in X by auto. rewrite nth_upd by lia. destruct (Nat.eqb_spec x v) as [->|N].
      + rewrite count_occ_app. rewrite Nat.eqb_refl, andb_true_r in X. cbn [count_occ]. destruct (Nat.eq_dec u y) as [->|Ne].
        * rewrite Nat.eqb_refl in X. cbn [b2n] in X. lia.
        * rewrite (proj2 (Nat.eqb_neq u y)) in X by auto. cbn [b2n] in X. lia.
      + rewrite (proj2 (Nat.eqb_neq v x)), andb_false_r in X by auto. cbn [b2n] in X. lia.
    - intros x Lx F. rewrite nth_upd_neq; auto. intros ->. exact (far_not F D).
  Qed.
  Lemma pab_out v x : forall cur, NoDup cur -> pab v x (out_edges g cur) = if mem v cur then cocc (row v) x else 0.
  Proof.
    unfold out_edges. induction cur as [|u l IH]; intros ND; auto. inversion ND; subst. cbn [flat_map mem existsb]. fold (mem v l).
    rewrite pab_app, pab_row, IH, (Nat.eqb_sym v u) by auto. destruct (Nat.eqb_spec u v) as [->|]; cbn [orb]; auto.
    rewrite (proj2 (mem_false _ _)) by auto. lia.
  Qed.
  Lemma PR_start k cur P : lev k cur -> PRb k P -> PR k (fun v x => pab v x (out_edges g cur)) P.
  Proof.
    intros [ND HL] [A1 A2 A3]. constructor; auto.
    - intros x v D. rewrite A3 by (try apply (dlt D); now apply far_S). cbn [count_occ Nat.add]. rewrite pab_out by auto. unfold mult.
      destruct (nxt v x) eqn:Nx.
      + apply (nxt_dist T Hs) in Nx. destruct Nx as (a & D1 & D2). assert (X := dist_fun D D2). injection X as <-.
        rewrite (proj2 (mem_In _ _)); auto. now apply HL.
      + destruct (mem v cur) eqn:Mv; auto. apply mem_In in Mv. apply HL in Mv. exfalso. assert (X : nxt v x = true) by (apply (nxt_dist T Hs); eauto). congruence.
  Qed.
  Lemma PR_end k R P : PR k R P -> (forall v x, R v x = 0) -> PRb (S k) P.
  Proof.
    intros [A1 A2 A3 A4] H. constructor; auto. intros x a v D La. destruct (Nat.eq_dec a (S k)) as [->|].
    - assert (X := A3 x v D). rewrite H in X. lia.
    - apply A2 with a; auto. lia.
  Qed.

  (** *** The state before the first level *)
  Lemma d0 x : dist x 0 <-> x = s.
  Proof. rewrite dist_0. intuition auto. Qed.
  Lemma LVb_init : LVb 0 (upd (repeat vmax n) s 0).
  Proof.
    constructor.
    - now rewrite upd_length, repeat_length.
    - intros x a D La. replace a with 0 in * by lia. apply d0 in D. subst x. apply nth_upd_eq. now rewrite repeat_length.
    - intros x Lx H. rewrite nth_upd_neq; [|intros X; apply (H 0); [lia|now apply d0]]. rewrite (@nth_indep _ _ x 0 vmax) by (now rewrite repeat_length). apply nth_repeat.
  Qed.
  Lemma PCb_init : PCb 0 (upd (repeat 0 n) s (1 mod M)).
  Proof.
    constructor.
    - now rewrite upd_length, repeat_length.
    - intros x a D La. replace a with 0 in * by lia. apply d0 in D. subst x. rewrite nth_upd_eq by (now rewrite repeat_length).
      rewrite (sg_s T Hs). apply Nat.mod_small. rewrite <- (sg_s T Hs). apply HM.
    - intros x Lx H. rewrite nth_upd_neq; [|intros X; apply (H 0); [lia|now apply d0]]. apply nth_repeat.
  Qed.
  Lemma PRb_init : PRb 0 (repeat [] n).
  Proof.
    constructor.
    - apply repeat_length.
    - intros x a v D La. replace a with 0 in * by lia. apply d0 in D. subst x. rewrite nth_repeat. unfold mult. now rewrite (nxt_s T Hs).
    - intros x Lx H. apply nth_repeat.
  Qed.
  Lemma lev_init : lev 0 [s].
  Proof. split; [repeat constructor; auto|]. intros x. rewrite d0. cbn. intuition auto. Qed.

  (** *** The end *)
  Definition all_below (k : nat) : Prop := forall x, reachable g s x <-> exists a, a < k /\ dist x a.
  Lemma last_level k : lev (S k) [] -> all_below (S k).
  Proof.
    intros [_ HL] x. assert (NO : forall y, ~ dist y (S k)) by (intros y D; apply HL in D; exact D). split.
    - intros R. apply dist_reach in R. destruct R as [a D]. exists a. split; auto. destruct (Nat.lt_ge_cases a (S k)); auto. exfalso.
      destruct (@dist_pred g s x a (S k) D) as [y Dy]; auto. exact (NO y Dy).
    - intros (a & _ & D). exists a. apply D.
  Qed.
  Fixpoint levs (k : nat) (ret : list (list nat)) : Prop :=
    match ret with
    | [] => k = 0
    | l :: r => exists j, k = S j /\ lev j l /\ levs j r
    end.
  (** what the backward phase relies on *)
  Record fin (pc : list nat) (P : list (list nat)) : Prop := {
    f_lc : length pc = n;
    f_lP : length P = n;
    f_pc : forall x, reachable g s x -> nth x pc 0 = sg x;
    f_P : forall x v, reachable g s x -> cocc (nth x P []) v = mult v x }.
  Lemma fin_of k pc P : PCb k pc -> PRb k P -> all_below (S k) -> fin pc P.
  Proof.
    intros [A1 A2 A3] [B1 B2 B3] H. constructor; auto.
    - intros x R. apply H in R. destruct R as (a & La & D). apply A2 with a; auto. lia.
    - intros x v R. apply H in R. destruct R as (a & La & D). apply B2 with a; auto. lia.
  Qed.

  (** ** bc2_v0 and bc2_v1, forward *)
  Section SQ.
    Variable front : bool.
    Record sinv (k : nat) (rem : list (nat * nat)) (st : xst) : Prop := {
      si_v : LV k (fun x => In x (map snd rem)) (s_nx st) (s_lv st);
      si_c : PC k (fun x => wgt sg x rem) (s_pc st);
      si_r : PR k (fun v x => pab v x rem) (s_P st) }.
    Lemma sq_arc_ok k u v rem st : sinv k ((u, v) :: rem) st -> dist u k -> edge g u v ->
      exists st', sq_arc vmax M front u st v = Ok st' /\ sinv k rem st'.
    Proof.
      intros [A B C] Du Ed. assert (Lv := T _ _ Ed). destruct (dlt Du) as [Lu _]. assert (LA := v_len A). assert (LB := c_len B). assert (LC := r_len C).
      unfold sq_arc. rewrite (@vget_nth _ (s_lv st) v 0), (@vget_nth _ (s_lv st) u 0) by lia. cbn [bind]. rewrite (v_1 A Du) by lia.
      replace (k + 1) with (S k) by lia.
      assert (G : exists st1, (if nth v (s_lv st) 0 =? vmax
             then do l <- vset (s_lv st) v (S k) ;
                  Ok {| s_lv := l; s_pc := s_pc st; s_P := s_P st; s_nx := if front then v :: s_nx st else s_nx st ++ [v] |}
             else Ok st) = Ok st1 /\ s_pc st1 = s_pc st /\ s_P st1 = s_P st /\ LV k (fun x => In x (map snd rem)) (s_nx st1) (s_lv st1) /\
             (nth v (s_lv st1) 0 = S k <-> dist v (S k))).
      { destruct (Nat.eqb_spec (nth v (s_lv st) 0) vmax) as [E|N].
        - assert (Dv := @LV_max _ _ _ _ _ _ A Du Ed E). rewrite vset_lt by lia. cbn [bind]. eexists. split; [reflexivity|]. cbn [s_pc s_P s_lv s_nx]. split; auto. split; auto.
          assert (U : nth v (upd (s_lv st) v (S k)) 0 = S k) by (apply nth_upd_eq; lia). split; [|tauto].
          eapply LV_weak; [exact (LV_set A Dv E)| |].
          + destruct front; [reflexivity|apply Permutation_cons_append].
          + intros x [<-|I] _ X; [tauto|auto].
        - exists st. split; auto. split; auto. split; auto. assert (Q := @LV_at _ _ _ _ _ _ A Du Ed N). split; auto.
          eapply LV_weak; [exact A|reflexivity|]. intros x [<-|I] D X; [tauto|auto]. }
      destruct G as (st1 & -> & E1 & E2 & A1 & Q). cbn [bind]. assert (LA1 := v_len A1).
      rewrite (@vget_nth _ (s_lv st1) v 0), (@vget_nth _ (s_lv st1) u 0) by lia. cbn [bind]. rewrite (v_1 A1 Du) by lia. replace (k + 1) with (S k) by lia.
      destruct (Nat.eqb_spec (nth v (s_lv st1) 0) (S k)) as [E|N].
      - apply Q in E. rewrite E1, E2. rewrite (@vget_nth _ (s_pc st) v 0), (@vget_nth _ (s_pc st) u 0) by lia. cbn [bind]. rewrite (c_1 B Du) by lia.
        rewrite vset_lt by lia. cbn [bind]. rewrite (@vget_nth _ (s_P st) v []) by lia. cbn [bind]. rewrite vset_lt by lia. cbn [bind].
        eexists. split; [reflexivity|]. constructor; cbn [s_pc s_P s_lv s_nx]; auto.
        + eapply PC_add; [exact B|exact E|]. intros x _. unfold wgt at 1. cbn [map sum fst snd]. fold (wgt sg x rem). rewrite (Nat.eqb_sym v x). destruct (x =? v); lia.
        + eapply PR_add; [exact C|exact E|]. intros y x _. unfold pab at 1. cbn [map sum fst snd]. fold (pab y x rem). lia.
      - assert (D : ~ dist v (S k)) by tauto. exists st1. split; auto. constructor; auto.
        + rewrite E1. eapply PC_ext; [exact B|]. intros x Dx. unfold wgt at 2. cbn [map sum fst snd]. rewrite (proj2 (Nat.eqb_neq v x)) by congruence. reflexivity.
        + rewrite E2. eapply PR_ext; [exact C|]. intros y x Dx. unfold pab at 2. cbn [map sum fst snd]. rewrite (proj2 (Nat.eqb_neq v x)), andb_false_r by congruence. reflexivity.
    Qed.
    Lemma sq_vertex_ok k u rem st : sinv k (map (fun v => (u, v)) (row u) ++ rem) st -> dist u k ->
      exists st', sq_vertex g vmax M front st u = Ok st' /\ sinv k rem st'.
    Proof.
      intros I Du. unfold sq_vertex. rewrite (@vget_nth _ g u []) by apply (dlt Du). cbn [bind].
      assert (H : forall v, In v (row u) -> edge g u v) by auto. revert st I H. induction (row u) as [|v l IH]; intros st I H.
      - exists st. auto.
      - cbn [rfold]. destruct (@sq_arc_ok k u v (map (fun v => (u, v)) l ++ rem) st) as (st1 & -> & I1); auto; [apply H; now left|]. cbn [bind].
        apply IH; auto. intros w W. apply H. now right.
    Qed.
    Lemma sq_level_ok k : forall cur st, sinv k (out_edges g cur) st -> (forall u, In u cur -> dist u k) ->
      exists st', rfold (sq_vertex g vmax M front) cur st = Ok st' /\ sinv k [] st'.
    Proof.
      induction cur as [|u cur IH]; intros st I H; [exists st; auto|]. cbn [rfold].
      destruct (@sq_vertex_ok k u (out_edges g cur) st) as (st1 & -> & I1); auto; [apply H; now left|]. cbn [bind]. apply IH; auto. intros w W. apply H. now right.
    Qed.
    Lemma in_out_snd cur k x : lev k cur -> dist x (S k) -> In x (map snd (out_edges g cur)).
    Proof.
      intros [_ HL] D. destruct (proj2 (proj1 (dist_S g s k x) D)) as (u & Du & Eu). apply in_map_iff. exists (u, x). split; auto.
      apply in_out_edges. split; auto. now apply HL.
    Qed.
    Lemma sq_loop_ok : forall fuel k cur st ret, n < fuel + k -> lev k cur -> cur <> [] -> LVb k (s_lv st) -> PCb k (s_pc st) -> PRb k (s_P st) -> levs k ret ->
      exists st' ret' k', sq_loop fuel g vmax M front cur st ret = Ok (st', ret') /\ fin (s_pc st') (s_P st') /\ levs (S k') ret' /\ all_below (S k').
    Proof.
      induction fuel as [|fuel IH]; intros k cur st ret Lf HL NE B1 B2 B3 HR.
      - exfalso. destruct cur as [|x c]; [congruence|]. assert (D : dist x k) by (apply HL; now left). assert (X := dist_lt_n T Hs D). lia.
      - cbn [sq_loop]. destruct (@sq_level_ok k cur {| s_lv := s_lv st; s_pc := s_pc st; s_P := s_P st; s_nx := [] |}) as (st' & -> & [A1 A2 A3]).
        { constructor; cbn [s_lv s_pc s_P s_nx].
          - apply LV_start; auto. intros x. now apply in_out_snd.
          - now apply PC_start.
          - now apply PR_start. }
        { intros u. apply HL. }
        cbn [bind]. destruct (LV_end A1) as [B1' HL']. assert (B2' := PC_end A2 (fun _ => eq_refl)). assert (B3' := PR_end A3 (fun _ _ => eq_refl)).
        assert (HR' : levs (S k) (cur :: ret)) by (exists k; auto).
        destruct (s_nx st') as [|y nx] eqn:E.
        + assert (AB := last_level HL'). exists st', (cur :: ret), k. split; auto. split; auto.
          assert (Q := fin_of B2' B3'). apply Q. intros x. rewrite (AB x). split; intros (a & La & D); exists a; split; auto; try lia.
          destruct (proj1 (AB x)) as (b & Lb & Db); [exists a; apply D|]. rewrite (dist_fun D Db). auto.
        + apply IH with (k := S k); auto; [lia|]. discriminate.
    Qed.
  End SQ.

  (** ** Backward *)
  Local Open Scope Qc_scope.
  Notation dep := (dep g s).
  Definition share (x w : nat) : Qc := qn (sg x) / qn (sg w) * (1 + dep w).
  (** [V] is what the vertices of level [j] have still to send *)
  Record DL (j : nat) (V : nat -> Qc) (d : list Qc) : Prop := {
    d_len : length d = n;
    d_ge : forall x a, dist x a -> (j <= a)%nat -> nth x d 0 = dep x;
    d_eq : forall x a, dist x a -> S a = j -> nth x d 0 + V x = dep x;
    d_lt : forall x a, dist x a -> (S a < j)%nat -> nth x d 0 = 0 }.
  Record DLb (j : nat) (d : list Qc) : Prop := {
    db_len : length d = n;
    db_ge : forall x a, dist x a -> (j <= a)%nat -> nth x d 0 = dep x;
    db_lt : forall x a, dist x a -> (a < j)%nat -> nth x d 0 = 0 }.
  Lemma DL_ext j (V V' : nat -> Qc) d : DL j V d -> (forall x, (x < n)%nat -> V' x = V x) -> DL j V' d.
  Proof. intros [A1 A2 A3 A4] H. constructor; auto. intros x a D E. rewrite H; eauto. apply (dlt D). Qed.
  Lemma DL_start pc P j l d : fin pc P -> lev j l -> DLb j d -> DL j (fun x => qsum (map (fun w => qn (cocc (nth w P []) x) * share x w) l)) d.
  Proof.
    intros F [ND HL] [A1 A2 A3]. constructor; auto.
    - intros x a D E. rewrite (A3 x a D) by lia. assert (R : reachable g s x) by (exists a; apply D). rewrite (dep_rec T Hs R).
      rewrite (@qsum_count (fun w => qn (sg x) / qn (sg w) * (1 + dep w)) (nxt x) (row x) l); auto.
      + rewrite Qcplus_0_l. apply qsum_ext. intros w W. assert (Dw := proj1 (HL w) W). rewrite (f_P F x) by (exists j; apply Dw). unfold mult.
        destruct (nxt x w); auto. rewrite qn_0. ring.
      + intros w W Nx. apply (nxt_dist T Hs) in Nx. destruct Nx as (b & D1 & D2). apply HL. rewrite (dist_fun D D1) in E. congruence.
    - intros x a D E. apply (A3 x a D). lia.
  Qed.
  Lemma DL_end j (V : nat -> Qc) d : DL (S j) V d -> (forall x, V x = 0) -> DLb j d.
  Proof.
    intros [A1 A2 A3 A4] H. constructor; auto.
    - intros x a D L. destruct (Nat.eq_dec a j) as [->|]; [|apply A2 with a; auto; lia]. rewrite <- (A3 x j D eq_refl), H. ring.
    - intros x a D L. apply A4 with a; auto. lia.
  Qed.
  (** a vertex of level [j] sends [c] to [v] *)
  Lemma DL_put j (V V' : nat -> Qc) d d' : DL j V d -> length d' = n -> (forall x a, dist x a -> (S a <> j)%nat -> nth x d' 0 = nth x d 0) ->
    (forall x, (x < n)%nat -> nth x d' 0 + V' x = nth x d 0 + V x) -> DL j V' d'.
  Proof.
    intros [A1 A2 A3 A4] L H1 H2. constructor; auto.
    - intros x a D La. rewrite (H1 x a) by (auto; lia). eauto.
    - intros x a D E. rewrite H2 by apply (dlt D). eauto.
    - intros x a D La. rewrite (H1 x a) by (auto; lia). eauto.
  Qed.
  Lemma DLb_init k : all_below k -> DLb k (repeat 0 n).
  Proof.
    intros H. constructor.
    - apply repeat_length.
    - intros x a D L. destruct (proj1 (H x)) as (b & Lb & Db); [exists a; apply D|]. rewrite (dist_fun D Db) in L. lia.
    - intros x a D L. apply nth_repeat.
  Qed.
  Lemma DLb_first k : all_below (S k) -> DLb k (repeat 0 n).
  Proof.
    intros H. assert (H2 : lev (S k) []).
    { split; [constructor|]. intros x. split; [intros []|]. intros D. destruct (proj1 (H x)) as (b & Lb & Db); [exists (S k); apply D|]. assert (X := dist_fun D Db). lia. }
    assert (X := DLb_init H). destruct X as [A1 A2 A3]. constructor; auto.
    - intros x a D L. assert (Ea : a = k) by (destruct (proj1 (H x)) as (b & Lb & Db); [exists a; apply D|]; assert (X := dist_fun D Db); lia). subst a.
      assert (R : reachable g s x) by (exists k; apply D). rewrite (dep_rec T Hs R), nth_repeat. symmetry. apply qsum_0. intros w W.
      destruct (nxt x w) eqn:Nx; auto. exfalso. apply (nxt_dist T Hs) in Nx. destruct Nx as (b & D1 & D2). rewrite (dist_fun D1 D) in D2. apply H2 in D2. exact D2.
    - intros x a D L. apply nth_repeat.
  Qed.
  Section BK.
    Variables (pc : list nat) (P : list (list nat)).
    Hypothesis (F : fin pc P).
    Lemma P_in w v : reachable g s w -> In v (nth w P []) -> nxt v w = true.
    Proof.
      intros R I. apply (count_occ_In Nat.eq_dec) in I. rewrite (f_P F) in I by auto. unfold mult in I. destruct (nxt v w); auto. lia.
    Qed.
    Lemma nxt_lt v w : nxt v w = true -> (v < n)%nat /\ v <> w.
    Proof. intros Nx. apply (nxt_dist T Hs) in Nx. destruct Nx as (a & D1 & D2). split; [apply (dlt D1)|]. intros ->. assert (X := dist_fun D1 D2). lia. Qed.
    Lemma pc_nz w : reachable g s w -> nth w pc 0%nat <> 0%nat.
    Proof. intros R. rewrite (f_pc F) by auto. assert (X := sg_pos T Hs R). lia. Qed.
    Definition sent (x : nat) (l : list nat) : Qc := qsum (map (fun w => qn (cocc (nth w P []) x) * share x w) l).
    Lemma sq_back_ok j w l d bc : dist w j -> DL j (fun x => sent x (w :: l)) d -> length bc = n ->
      exists d' bc', sq_back pc P (d, bc) w = Ok (d', bc') /\ DL j (fun x => sent x l) d' /\ length bc' = n /\
        forall x, nth x bc' 0 = nth x bc 0 + (if (x =? w)%nat then dep x else 0).
    Proof.
      intros Dw A Lb. destruct (dlt Dw) as [Lw _]. assert (Rw : reachable g s w) by (exists j; apply Dw). unfold sq_back.
      rewrite (@vget_nth _ P w []) by (rewrite (f_lP F); auto). cbn [bind].
      assert (Ew : nth w d 0 = dep w) by (apply (d_ge A Dw); lia).
      destruct (@pull_ok g s Hs pc w (f_lc F) Lw (pc_nz Rw) (nth w P []) d) as (d' & E & Ld & H).
      { intros I. apply P_in in I; auto. apply nxt_lt in I. tauto. }
      { intros v I. apply P_in in I; auto. apply (nxt_lt _ _ I). }
      { apply (d_len A). }
      rewrite E. cbn [bind]. rewrite (@vget_nth _ bc w 0), (@vget_nth _ d' w 0) by lia. cbn [bind]. rewrite vset_lt by lia. cbn [bind].
      assert (H' : forall x a, dist x a -> (S a <> j)%nat -> nth x d' 0 = nth x d 0).
      { intros x a D Na. rewrite H by apply (dlt D). rewrite (f_P F) by auto. unfold mult. destruct (nxt x w) eqn:Nx; [|rewrite qn_0; ring].
        exfalso. apply (nxt_dist T Hs) in Nx. destruct Nx as (b & D1 & D2). rewrite (dist_fun D D1) in Na. apply Na. exact (dist_fun D2 Dw). }
      eexists. eexists. split; [reflexivity|]. split; [|split].
      - eapply DL_put; [exact A|auto|exact H'|]. intros x Lx. rewrite H by auto. unfold sent at 2. cbn [map qsum]. fold (sent x l). unfold share. rewrite (f_pc F Rw), Ew.
        destruct (Nat.eq_dec (cocc (nth w P []) x) 0) as [->|Nz]; [rewrite qn_0; ring|].
        rewrite (f_pc F (x := x)); [ring|]. rewrite (f_P F) in Nz by auto. unfold mult in Nz. destruct (nxt x w) eqn:Nx; [|congruence].
        apply (nxt_dist T Hs) in Nx. destruct Nx as (b & D1 & _). exists b. apply D1.
      - now rewrite upd_length.
      - intros x. rewrite nth_upd by lia. destruct (Nat.eqb_spec x w) as [->|N]; [|ring]. rewrite (H' w j Dw), Ew by lia. ring.
    Qed.
    Lemma sq_back_level j : forall l d bc, (forall w, In w l -> dist w j) -> NoDup l -> DL j (fun x => sent x l) d -> length bc = n ->
      exists d' bc', rfold (sq_back pc P) l (d, bc) = Ok (d', bc') /\ DL j (fun _ => 0) d' /\ length bc' = n /\
        forall x, nth x bc' 0 = nth x bc 0 + (if mem x l then dep x else 0).
    Proof.
      induction l as [|w l IH]; intros d bc HL ND A Lb.
      - exists d, bc. split; auto. split; [exact A|]. split; auto. intros x. cbn. ring.
      - inversion ND; subst. cbn [rfold]. destruct (@sq_back_ok j w l d bc) as (d1 & b1 & -> & A1 & L1 & G1); auto; [apply HL; now left|]. cbn [bind].
        destruct (IH d1 b1) as (d2 & b2 & E2 & A2 & L2 & H2'); auto; [intros y Y; apply HL; now right|]. exists d2, b2. split; auto. split; auto. split; auto.
        intros x. rewrite H2', G1. cbn [mem existsb]. fold (mem x l). destruct (Nat.eqb_spec x w) as [->|]; cbn [orb]; [|ring].
        rewrite (proj2 (mem_false _ _)) by auto. ring.
    Qed.
    Lemma sq_back_all (with_root : bool) : forall ret k d bc, levs (S k) ret -> DLb k d -> length bc = n ->
      exists d' bc', rfold (sq_back pc P) (concat (if with_root then ret else removelast ret)) (d, bc) = Ok (d', bc') /\ length bc' = n /\
        forall x, nth x bc' 0 = nth x bc 0 + (if existsb (fun j => match distf g s x with Some a => (a =? j)%nat | None => false end && (with_root || negb (j =? 0)%nat)) (seq 0 (S k)) then dep x else 0).
    Proof.
      induction ret as [|l ret IH]; intros k d bc HR A Lb; [discriminate|]. destruct HR as (j & E & HL & HR). injection E as <-.
      assert (SA : DL k (fun x => sent x l) d) by (exact (DL_start F HL A)).
      destruct (@sq_back_level k l d bc) as (d1 & b1 & E1 & A1 & L1 & H1); auto; try (intros w; apply HL); [apply HL|].
      assert (HM1 : forall x, mem x l = match distf g s x with Some a => (a =? k)%nat | None => false end).
      { intros x. destruct (mem x l) eqn:Mx.
        - apply mem_In in Mx. apply HL in Mx. rewrite (proj2 (distf_Some x T Hs) Mx). now rewrite Nat.eqb_refl.
        - destruct (distf g s x) as [a|] eqn:Ed; auto. apply (distf_Some x T Hs) in Ed. symmetry. apply Nat.eqb_neq. intros ->. apply mem_false in Mx. apply Mx. now apply HL. }
      destruct k as [|k].
      - destruct ret as [|l2 r]; [|destruct HR as (j & X & _); discriminate]. cbn [removelast seq existsb]. destruct with_root.
        + cbn [concat]. rewrite app_nil_r, E1. exists d1, b1. split; auto. split; auto. intros x. rewrite H1, HM1. cbn [orb]. rewrite andb_true_r, orb_false_r. reflexivity.
        + exists d, bc. split; auto. split; auto. intros x. cbn [Nat.eqb negb orb]. rewrite andb_false_r. cbn [orb]. ring.
      - destruct ret as [|l2 r]; [discriminate|]. destruct (IH k d1 b1) as (d2 & b2 & E2 & L2 & H2); auto.
        { eapply DL_end; [exact A1|reflexivity]. }
        replace (concat (if with_root then l :: l2 :: r else removelast (l :: l2 :: r))) with (l ++ concat (if with_root then l2 :: r else removelast (l2 :: r))) by (destruct with_root; reflexivity).
        rewrite rfold_app, E1. cbn [bind]. rewrite E2. exists d2, b2. split; auto. split; auto. intros x. rewrite H2, H1, HM1, (seq_S (S k) 0), existsb_app. cbn [existsb Nat.add Nat.eqb negb].
        rewrite orb_true_r, andb_true_r, orb_false_r.
        destruct (distf g s x) as [a|]; [|rewrite orb_false_r; destruct (existsb _ _); ring].
        destruct (Nat.eqb_spec a (S k)) as [->|]; [|rewrite orb_false_r; ring]. rewrite orb_true_r.
        destruct (existsb (fun j => (S k =? j)%nat && (with_root || negb (j =? 0)%nat)) (seq 0 (S k))) eqn:Ex; [|ring]. exfalso.
        apply existsb_exists in Ex. destruct Ex as (i & I & J). apply andb_prop in J. destruct J as [J _]. apply Nat.eqb_eq in J. apply in_seq in I. lia.
    Qed.
    Lemma back_total k (with_root : bool) x : all_below (S k) ->
      (if existsb (fun j => match distf g s x with Some a => (a =? j)%nat | None => false end && (with_root || negb (j =? 0)%nat)) (seq 0 (S k)) then dep x else 0)
      = if with_root || negb (x =? s)%nat then dep x else 0.
    Proof.
      intros H. destruct (existsb _ _) eqn:Ex.
      - apply existsb_exists in Ex. destruct Ex as (j & I & J). apply andb_prop in J. destruct J as [J1 J2]. destruct (distf g s x) as [a|] eqn:Ed; [|discriminate].
        apply Nat.eqb_eq in J1. subst a. apply (distf_Some x T Hs) in Ed. destruct (Nat.eqb_spec x s) as [Xs|]; [|now rewrite orb_true_r].
        assert (j = 0)%nat by (eapply dist_fun; [exact Ed|now apply d0]). subst j. cbn [Nat.eqb] in J2. now rewrite J2.
      - destruct (with_root || negb (x =? s)%nat) eqn:W; auto. symmetry. apply dep_unreach. intros R. destruct (proj1 (H x) R) as (a & La & D).
        enough (X : true = false) by discriminate. rewrite <- Ex. symmetry. apply existsb_exists. exists a. split; [apply in_seq; lia|].
        rewrite (proj2 (distf_Some x T Hs) D), Nat.eqb_refl. cbn [andb]. destruct with_root; auto. cbn [orb] in *.
        destruct (Nat.eqb_spec a 0) as [->|]; auto. apply d0 in D. subst x. rewrite Nat.eqb_refl in W. discriminate.
    Qed.
  End BK.
  Lemma sq_root_ok front with_root bc : length bc = n -> exists bc', sq_root g vmax M front with_root bc s = Ok bc' /\ length bc' = n /\
    forall x, nth x bc' 0 = nth x bc 0 + (if with_root || negb (x =? s)%nat then dep x else 0).
  Proof.
    intros Lb. unfold sq_root. rewrite !vset_lt by (now rewrite repeat_length). cbn [bind].
    destruct (@sq_loop_ok front (S n) 0 [s] {| s_lv := upd (repeat vmax n) s 0; s_pc := upd (repeat 0 n) s (1 mod M); s_P := repeat [] n; s_nx := [] |} [])%nat
      as (st & ret & k & -> & F & HR & AB); cbn [s_lv s_pc s_P].
    - lia.
    - apply lev_init.
    - discriminate.
    - apply LVb_init.
    - apply PCb_init.
    - apply PRb_init.
    - reflexivity.
    - cbn [bind]. destruct (@sq_back_all _ _ F with_root ret k (repeat 0 n) bc HR (DLb_first AB) Lb) as (d & b & -> & L & H). cbn [bind snd]. exists b. split; auto. split; auto.
      intros x. rewrite H. f_equal. now apply back_total.
  Qed.
End P.
