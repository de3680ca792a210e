(** Proofs for C74: from the rounds to max_flow. *)
From Coq Require Import List Arith ZArith Lia Bool Sorted.
From Verif Require Import Base GraphLib FifoLib BkLib BackModel BackProofs FbfsModel FbfsProofs WalkModel WalkProofs MflowLib MflowModel MflowProofs.
Import ListNotations.
Set Implicit Arguments.
Local Open Scope nat_scope.

Notation net := (list (list (nat * (Z * Z)))) (only parsing).
Definition tg (G : net) : list (list nat) := map (map fst) G.
Lemma tg_len G : length (tg G) = length G.
Proof. unfold tg. apply map_length. Qed.
Lemma tg_row G v : nth v (tg G) [] = map fst (nth v G []).
Proof. unfold tg. change (@nil nat) with (map (@fst nat (Z * Z)) []). now rewrite map_nth. Qed.
Lemma tg_flows G : map (map fst) (flows G) = tg G.
Proof. unfold flows, tg. rewrite map_map. apply map_ext. intros r. rewrite map_map. reflexivity. Qed.
Section G.
Variable G : net.
Hypothesis HS : simple_net G.
Lemma tg_ok : targets_ok (tg G).
Proof. intros v u E. unfold edge in E. rewrite tg_row in E. rewrite tg_len. now apply HS in E. Qed.
Lemma tg_nodup v : NoDup (nth v (tg G) []).
Proof. rewrite tg_row. apply HS. Qed.
Lemma tg_loop v : ~ edge (tg G) v v.
Proof. unfold edge. rewrite tg_row. apply HS. Qed.
Lemma first_row v u i : first_arc (tg G) v u i -> exists a, nth_error (nth v G []) i = Some (u, a) /\ capacity G v u = fst a /\ flow G v u = snd a.
Proof.
  intros [E _]. rewrite tg_row, nth_error_map in E. destruct (nth_error (nth v G []) i) as [[w a]|] eqn:X; [|discriminate]. cbn in E. injection E as ->. exists a. split; auto.
  apply nth_error_In in X. unfold capacity, flow. destruct (HS v) as (ND & _). assert (Q := fun sel => amount_in sel _ (u, a) ND X). cbn [fst snd] in Q. now rewrite !Q.
Qed.
Lemma caps_arc v u i : first_arc (tg G) v u i -> vget2 (capacities G) v i = Ok (capacity G v u).
Proof.
  intros F. destruct (first_row F) as (a & E & -> & _). assert (Lv : v < length G) by (rewrite <- tg_len; eapply edge_l; eapply first_edge; eauto). unfold vget2, capacities.
  rewrite (@vget_nth _ _ v []) by (now rewrite map_length). cbn [bind]. change (@nil Z) with (map (fun a : nat * (Z * Z) => fst (snd a)) []). rewrite map_nth. apply vget_Ok. rewrite nth_error_map, E. reflexivity.
Qed.
Lemma caps_none v u : ~ edge (tg G) v u -> capacity G v u = 0%Z.
Proof. intros N. unfold capacity. apply amount_notin. unfold edge in N. now rewrite tg_row in N. Qed.
Lemma flow_none v u : ~ edge (tg G) v u -> flow G v u = 0%Z.
Proof. intros N. unfold flow. apply amount_notin. unfold edge in N. now rewrite tg_row in N. Qed.
Lemma make_rep : exists st, b_make (flows G) false = Ok st /\ rep (tg G) (flow G) st.
Proof.
  destruct (@b_make_ok (tg G) tg_ok (flows G) (tg_flows G)) as (st & E & I & Q). exists st. split; auto. destruct Q as [Qg Q].
  assert (AX : forall v u, edge (tg G) u v -> ~ edge (tg G) v u -> rd st (LAx v u) = Ok (u, 0%Z)).
  { intros v u E1 E2. assert (N : u <> v) by (intros ->; contradiction). destruct (@rd_ax _ _ _ u v I (conj E1 N) E2) as (z & Z1). destruct (Q (LAx v u)) as [X|[_ (x & X)]]; [|congruence].
    cbn [rd b_ax] in X. rewrite (@mget_nth _ (repeat [] _)), nth_repeat_nil in X. cbn [afind] in X. cbn [rd] in Z1. congruence. }
  assert (BX : forall v u, edge (tg G) u v -> ~ edge (tg G) v u -> rd st (LBx u v) = Ok (u, 0%Z)).
  { intros v u E1 E2. assert (N : u <> v) by (intros ->; contradiction). assert (Y := bi_bx I u v). assert (Z1 : exists z, rd st (LBx u v) = Ok (u, z)).
    { cbn [rd]. rewrite mget_nth. destruct (afind v (nth u (b_bx st) [])) as [e|]; [|exfalso; apply Y; auto]. destruct Y as (_ & _ & <-). exists (snd e). now destruct e. }
    destruct Z1 as (z & Z1). destruct (Q (LBx u v)) as [X|[_ (x & X)]]; [|congruence].
    cbn [rd b_bx] in X. rewrite (@mget_nth _ (repeat [] _)), nth_repeat_nil in X. cbn [afind] in X. cbn [rd] in Z1. congruence. }
  constructor; auto; [|apply flow_none]. intros v u i F. destruct (first_row F) as (a & En & _ & ->). assert (Lv : v < length G) by (rewrite <- tg_len; eapply edge_l; eapply first_edge; eauto).
  cbn [rd]. rewrite Qg. cbn [b_g]. unfold vget2, flows. rewrite (@vget_nth _ _ v []) by (now rewrite map_length). cbn [bind]. change (@nil (nat * Z)) with (map (fun a : nat * (Z * Z) => (fst a, snd (snd a))) []). rewrite map_nth. apply vget_Ok. rewrite nth_error_map, En. reflexivity.
Qed.
(** ** The flows left in the graph *)
Definition zip_row (rs : list (nat * (Z * Z)) * list (nat * Z)) : list (nat * (Z * Z)) :=
  map (fun ab => (fst (fst ab), (fst (snd (fst ab)), snd (snd ab)))) (combine (fst rs) (snd rs)).
Lemma zip_same r : forall r', length r = length r' -> map (fun a : nat * (Z * Z) => (fst a, fst (snd a))) (zip_row (r, r')) = map (fun a => (fst a, fst (snd a))) r.
Proof. unfold zip_row. cbn [fst snd]. induction r as [|a r IH]; intros [|b r'] L; try discriminate; auto. cbn [combine map]. f_equal. apply IH. now injection L. Qed.
Lemma zip_nth r : forall r' i a b, nth_error r i = Some a -> nth_error r' i = Some b -> nth_error (zip_row (r, r')) i = Some (fst a, (fst (snd a), snd b)).
Proof.
  unfold zip_row. cbn [fst snd]. induction r as [|x r IH]; intros [|y r'] [|i] a b A B; try discriminate; cbn in *; [injection A as ->; injection B as ->; reflexivity|eauto].
Qed.
Lemma rows_len g v : map (map (@fst nat Z)) g = tg G -> length (nth v G []) = length (nth v g []).
Proof.
  intros E. assert (X := f_equal (fun l => length (nth v l [])) E). cbn beta in X. rewrite tg_row, map_length in X. rewrite <- X. change (@nil nat) with (map (@fst nat Z) []). now rewrite map_nth, map_length.
Qed.
Lemma with_row g v : map (map (@fst nat Z)) g = tg G -> nth v (with_flows G g) [] = zip_row (nth v G [], nth v g []).
Proof.
  intros E. assert (L : length g = length G) by (rewrite <- (tg_len G), <- E; now rewrite map_length). unfold with_flows. change (@nil (nat * (Z * Z))) with (zip_row ([], [])) at 1. fold zip_row.
  change (fun rs : list (nat * (Z * Z)) * list (nat * Z) => map (fun ab => (fst (fst ab), (fst (snd (fst ab)), snd (snd ab)))) (combine (fst rs) (snd rs))) with zip_row. rewrite map_nth. f_equal. apply combine_nth. auto.
Qed.
Lemma with_len g : map (map (@fst nat Z)) g = tg G -> length (with_flows G g) = length G.
Proof. intros E. assert (L : length g = length G) by (rewrite <- (tg_len G), <- E; now rewrite map_length). unfold with_flows. rewrite map_length, combine_length. lia. Qed.
Lemma with_same g : map (map (@fst nat Z)) g = tg G -> same_net G (with_flows G g).
Proof.
  intros E. unfold same_net. apply (nth_ext _ _ [] []); [now rewrite !map_length, with_len|]. intros v _. change (@nil (nat * Z)) with (map (fun a : nat * (Z * Z) => (fst a, fst (snd a))) []).
  rewrite !map_nth, with_row by auto. symmetry. apply zip_same. now apply rows_len.
Qed.
Lemma with_flow f st v u : rep (tg G) f st -> flow (with_flows G (b_g st)) v u = f v u.
Proof.
  intros R. assert (E := bi_g (r_inv R)). assert (S' := same_simple (with_same _ E) HS). destruct (edge_dec (tg G) v u) as [Ed|Ed].
  - destruct (@first_ex (tg G) v u Ed) as (i & F). destruct (first_row F) as (a & En & _). assert (X := r_real R F). cbn [rd] in X. unfold vget2 in X.
    destruct (vget (b_g st) v) as [row| |] eqn:Er; try discriminate. cbn [bind] in X. apply vget_Ok in Er, X. assert (Er' := nth_error_nth _ _ [] Er).
    rewrite <- Er' in X. assert (Z1 := zip_nth _ _ _ En X). rewrite <- (with_row _ v E) in Z1. apply nth_error_In in Z1. unfold flow. destruct (S' v) as (ND & _). assert (Q := amount_in snd _ _ ND Z1). exact Q.
  - rewrite (r_0 R _ _ Ed). unfold flow. apply amount_notin. rewrite <- (same_targets v (with_same _ E)), <- tg_row. exact Ed.
Qed.
End G.

(** [s] has an arc in or out *)
Definition touched (G : net) (s : nat) : Prop := exists u, In u (map fst (nth s G [])) \/ In s (map fst (nth u G [])).
Lemma concat_tg G : length (concat (tg G)) = length (concat G).
Proof. unfold tg. induction G as [|r G IH]; auto. cbn [map concat]. now rewrite !app_length, map_length, IH. Qed.
Lemma max_flow_ok debug G s t max_iters : simple_net G -> feasible G s t -> s < length G -> t < length G -> s <> t -> touched G s ->
  exists val G', max_flow debug G s t max_iters = Ok (val, G') /\ same_net G G' /\ feasible G' s t /\
    (outflow G' s = outflow G s + val)%Z /\ (outflow G' t = outflow G t - val)%Z /\ (0 <= val <= 100000 * Z.of_nat (S max_iters))%Z /\
    ((exists side, side s = true /\ side t = false /\ outflow G' s = cut G side) \/
     (Z.of_nat (S max_iters) <= val /\ Z.of_nat (S max_iters) <= Z.of_nat (length (concat G) * S (length G)) + val / 100000)%Z).
Proof.
  intros HS HF Ls Lt N HT. unfold max_flow. destruct (make_rep HS) as (st & -> & R). cbn [bind].
  assert (K : exists u, linked (tg G) s u). { destruct HT as (u & [H|H]); exists u; [left|right]; unfold edge; now rewrite tg_row. }
  assert (LG := tg_len G). assert (Ls' : s < length (tg G)) by lia. assert (Lt' : t < length (tg G)) by lia. assert (Lr : length (repeat te_init (length G)) = length (tg G)) by (rewrite repeat_length; lia).
  destruct (@rounds_ok (tg G) (capacities G) (capacity G) (tg_ok HS) (tg_nodup HS) (tg_loop HS) (caps_arc HS) (@caps_none G) debug s t Ls' Lt' N K (S max_iters) (flow G) st _ 0%Z R (feasible_bounded HS HF) Lr)
    as (val & f' & st' & j & E & R' & B' & X' & V' & J' & D'). rewrite E. cbn [bind fst snd]. rewrite Z.add_0_l. eexists. eexists. split; [reflexivity|].
  assert (Eg := bi_g (r_inv R')). assert (SN := with_same G _ Eg). set (G' := with_flows G (b_g st')) in *. split; auto. assert (SL := same_length SN).
  assert (FE : forall a, exc (length G') (flow G') a = exc (length G) f' a). { intros a. rewrite <- SL. unfold exc. apply total_ext. intros b _. unfold nt, G'. now rewrite !(with_flow HS _ _ R'). }
  assert (OF : forall a, outflow G' a = (outflow G a + (if Nat.eqb a s then val else 0) - (if Nat.eqb a t then val else 0))%Z). { intros a. rewrite !outflow_exc, FE, <- LG, X'. reflexivity. }
  assert (CO : forall v, v < length G -> v <> s -> v <> t -> exc (length G) f' v = 0%Z).
  { intros v Lv N1 N2. rewrite <- FE, <- outflow_exc, OF. destruct (Nat.eqb_spec v s); [congruence|]. destruct (Nat.eqb_spec v t); [congruence|]. rewrite (proj2 HF) by auto. lia. }
  split.
  { apply bounded_feasible; [eapply same_simple; eauto| |].
    - intros a b. rewrite <- (same_cap a b SN). unfold G'. rewrite (with_flow HS _ _ R'). apply B'.
    - intros v Lv N1 N2. rewrite FE. apply CO; auto. lia. }
  split; [rewrite OF, Nat.eqb_refl; destruct (Nat.eqb_spec s t); [congruence|lia]|]. split; [rewrite OF, Nat.eqb_refl; destruct (Nat.eqb_spec t s); [congruence|lia]|]. split; [exact V'|].
  destruct D' as [[D1 D2]|(side & S1 & S2 & D)]; [right|left].
  - split; [exact D1|]. assert (Q : psi (tg G) (capacity G) s f' <= 2 * length (concat (tg G)) * S (length (tg G))) by (apply psi_bound with (t := t); auto using tg_ok, tg_loop). rewrite concat_tg, LG in Q.
    assert (JV : (Z.of_nat j <= val / 100000)%Z) by (apply Z.div_le_lower_bound; lia). nia.
  - exists side. split; auto. split; auto. rewrite outflow_exc, FE, cut_across. apply exc_tight with (t := t); auto. rewrite <- LG. auto.
Qed.
