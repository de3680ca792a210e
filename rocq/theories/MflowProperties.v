(** C74: max_flow (algorithms/max_flow.hpp). *)
From Coq Require Import List Arith ZArith Lia Bool.
From Verif Require Import Base GraphLib BkLib BackModel BackProofs FbfsModel WalkModel MflowLib MflowModel MflowProofs MflowProofs2.
Import ListNotations.
Local Open Scope nat_scope.

(** No flow in the network [G] carries more from [s] to [t] than the one it holds. *)
Definition maximum (G : list (list (nat * (Z * Z)))) (s t : nat) : Prop := forall H, same_net G H -> feasible H s t -> (outflow H s <= outflow G s)%Z.

Lemma max_by_cut G G' s t side : simple_net G -> same_net G G' -> s < length G -> side s = true -> side t = false -> outflow G' s = cut G side -> maximum G' s t.
Proof.
  intros S E L A B C H EH FH. rewrite C. assert (E2 : same_net G H) by (unfold same_net in *; congruence). rewrite (same_cut side E2). apply below_cut with (t := t); auto; [eapply same_simple; eauto|]. now rewrite <- (same_length E2).
Qed.

(** max_flow ends; it changes the flows only and leaves a flow, whose value has grown by the number it returns. *)
Theorem C74_flow debug G s t max_iters : simple_net G -> feasible G s t -> s < length G -> t < length G -> s <> t -> touched G s ->
  exists val G', max_flow debug G s t max_iters = Ok (val, G') /\ same_net G G' /\ feasible G' s t /\
    outflow G' s = (outflow G s + val)%Z /\ outflow G' t = (outflow G t - val)%Z /\ (0 <= val)%Z.
Proof. intros H1 H2 H3 H4 H5 H6. destruct (max_flow_ok debug max_iters H1 H2 H3 H4 H5 H6) as (val & G' & E & A & B & C & D & F & _). exists val, G'. repeat (split; auto). lia. Qed.

(** The flow is maximum, and a cut has its value, unless all max_iters + 1 rounds were used: then at least that many units were
    sent, and the rounds number at most (arcs) * (vertices + 1) and one for every 100000 units sent. *)
Theorem C74_rounds debug G s t max_iters val G' : simple_net G -> feasible G s t -> s < length G -> t < length G -> s <> t -> touched G s ->
  max_flow debug G s t max_iters = Ok (val, G') ->
  ((exists side, side s = true /\ side t = false /\ outflow G' s = cut G side) /\ maximum G' s t) \/
  (Z.of_nat (S max_iters) <= val /\ Z.of_nat (S max_iters) <= Z.of_nat (length (concat G) * S (length G)) + val / 100000)%Z.
Proof.
  intros H1 H2 H3 H4 H5 H6 E. destruct (max_flow_ok debug max_iters H1 H2 H3 H4 H5 H6) as (val' & G2 & E' & A & _ & _ & _ & _ & D). rewrite E in E'. injection E' as <- <-.
  destruct D as [(side & S1 & S2 & D)|D]; [left|right; exact D]. split; [exists side; auto|]. eapply max_by_cut; eauto.
Qed.
(** In terms of the input: if some cut allows less than 100000 * (q + 1) more units, arcs * (vertices + 1) + q iterations are
    enough for a maximum flow; so are as many as the cut allows more units. *)
Theorem C74_maximum debug G s t max_iters side q : simple_net G -> feasible G s t -> s < length G -> t < length G -> s <> t -> touched G s ->
  side s = true -> side t = false ->
  (cut G side - outflow G s < 100000 * Z.of_nat (S q))%Z /\ length (concat G) * S (length G) + q <= max_iters \/ (cut G side - outflow G s <= Z.of_nat max_iters)%Z ->
  exists val G', max_flow debug G s t max_iters = Ok (val, G') /\ same_net G G' /\ feasible G' s t /\ outflow G' s = (outflow G s + val)%Z /\ maximum G' s t.
Proof.
  intros H1 H2 H3 H4 H5 H6 S1 S2 Q. destruct (C74_flow debug G s t max_iters H1 H2 H3 H4 H5 H6) as (val & G' & E & A & B & C & _ & F). exists val, G'. repeat (split; auto).
  assert (BC : (outflow G' s <= cut G side)%Z). { rewrite (same_cut side A). apply below_cut with (t := t); auto; [eapply same_simple; eauto|]. now rewrite <- (same_length A). }
  destruct (C74_rounds debug G s t max_iters val G' H1 H2 H3 H4 H5 H6 E) as [[_ M]|[M1 M2]]; auto. exfalso. destruct Q as [[Q1 Q2]|Q]; [|lia].
  assert (val / 100000 < Z.of_nat (S q))%Z by (apply Z.div_lt_upper_bound; lia). lia.
Qed.
(** No more than 100000 units are sent in a round: where more than 100000 * (max_iters + 1) can be sent, the result is too
    small. *)
Theorem C74_not_maximum debug G s t max_iters val G' H : simple_net G -> feasible G s t -> s < length G -> t < length G -> s <> t -> touched G s ->
  max_flow debug G s t max_iters = Ok (val, G') -> same_net G H -> feasible H s t -> (outflow G s + 100000 * Z.of_nat (S max_iters) < outflow H s)%Z ->
  (val <= 100000 * Z.of_nat (S max_iters))%Z /\ (outflow G' s < outflow H s)%Z /\ ~ maximum G' s t.
Proof.
  intros H1 H2 H3 H4 H5 H6 E EH FH LH. destruct (max_flow_ok debug max_iters H1 H2 H3 H4 H5 H6) as (val' & G2 & E' & A & _ & C & _ & F & _). rewrite E in E'. injection E' as <- <-.
  split; [apply F|]. split; [lia|]. intros M. assert (Q : (outflow H s <= outflow G' s)%Z) by (apply M; auto; unfold same_net in *; congruence). lia.
Qed.
(** A source that no arc touches is undefined behaviour. *)
Theorem C74_isolated debug G s t max_iters : simple_net G -> s < length G -> ~ touched G s -> max_flow debug G s t max_iters = Ub.
Proof.
  intros HS Ls NT. unfold max_flow. destruct (make_rep HS) as (st & -> & R). cbn [bind mf_rounds]. unfold mf_bfs.
  destruct (@views_rep (tg G) (capacities G) (capacity G) (tg_ok HS) (tg_nodup HS) (tg_loop HS) (caps_arc HS) (@caps_none G) _ st R) as (V & -> & W). cbn [bind].
  assert (LV := w_len W). rewrite tg_len in LV. rewrite vset_lt by (rewrite repeat_length; lia). cbn [bind].
  assert (LG := graph_len W). rewrite tg_len in LG. rewrite (@vget_nth _ (mf_graph V) s []) by lia. cbn [bind].
  assert (Z0 : nth s (mf_graph V) [] = []). { destruct (nth s (mf_graph V) []) as [|u r] eqn:E; auto. exfalso. apply NT. assert (K : edge (mf_graph V) s u) by (unfold edge; rewrite E; now left).
    apply (graph_edge _ _ W) in K. exists u. destruct K as [K|K]; unfold edge in K; rewrite tg_row in K; auto. }
  rewrite Z0. reflexivity.
Qed.
(** Nor does it work for a sink that is the source: the search ends at once and the null pointers of the tree's entry are
    followed. *)
Theorem C74_same debug G s max_iters r : simple_net G -> s < length G -> max_flow debug G s s max_iters <> Ok r.
Proof.
  intros HS Ls. unfold max_flow. destruct (make_rep HS) as (st & -> & R). cbn [bind mf_rounds]. unfold mf_bfs.
  destruct (@views_rep (tg G) (capacities G) (capacity G) (tg_ok HS) (tg_nodup HS) (tg_loop HS) (caps_arc HS) (@caps_none G) _ st R) as (V & -> & W). cbn [bind].
  assert (LV := w_len W). rewrite tg_len in LV. rewrite vset_lt by (rewrite repeat_length; lia). cbn [bind].
  assert (LG := graph_len W). rewrite tg_len in LG. rewrite (@vget_nth _ (mf_graph V) s []) by lia. cbn [bind].
  destruct (fb_first (mf_answer V) s (nth s (mf_graph V) []) 0) as [q| |]; try discriminate. cbn [bind mf_search fb_c].
  rewrite (@vget_nth _ _ s 0) by (rewrite upd_length, repeat_length; lia). rewrite nth_upd_eq by (rewrite repeat_length; lia). cbn [bind Nat.eqb orb fst snd]. cbn [rp_run].
  destruct (vget (map te_pred (repeat te_init (length G))) s) as [p| |]; try discriminate. cbn [bind].
  destruct (rp_run (length (repeat te_init (length G))) (map te_pred (repeat te_init (length G))) s p (if p =? s then true else false)) as [l| |]; try discriminate. cbn [bind fst rfold].
  unfold mf_min at 1, mf_arc. rewrite (@vget_nth _ _ s te_init) by (rewrite repeat_length; auto). rewrite nth_repeat. discriminate.
Qed.

Definition ar (t : nat) (c f : Z) : nat * (Z * Z) := (t, (c, f)).
(** the network of test/max_flow_test.cpp (mf1); it holds the flow 10 along 0 -> 3 -> 4 -> 6 -> 5 *)
Definition mf1 : list (list (nat * (Z * Z))) :=
  [[ar 1 10 0; ar 3 10 10]; [ar 0 10 0; ar 7 10 0]; [ar 5 10 0]; [ar 4 10 10; ar 2 1 0]; [ar 6 10 10]; []; [ar 5 10 10]; [ar 2 10 0]].
Definition mf1_side (v : nat) : bool := v =? 0.
Example C74_ex_meets : simple_net mf1 /\ feasible mf1 0 5 /\ touched mf1 0 /\ (cut mf1 mf1_side - outflow mf1 0 = 10)%Z /\ outflow mf1 0 = 10%Z.
Proof.
  split; [|split; [|split; [|split]]].
  - intros v. do 8 (destruct v as [|v]; [cbn; repeat split; try (repeat constructor; cbn; intuition lia); intuition lia|]). replace (nth (S (S (S (S (S (S (S (S v)))))))) mf1 []) with (@nil (nat * (Z * Z))) by (destruct v; reflexivity). cbn. repeat split; [constructor|tauto|tauto].
  - split.
    + intros v a. do 8 (destruct v as [|v]; [cbn; intuition (subst; cbn; lia)|]). replace (nth (S (S (S (S (S (S (S (S v)))))))) mf1 []) with (@nil (nat * (Z * Z))) by (destruct v; reflexivity). intros [].
    + intros v L N1 N2. do 8 (destruct v as [|v]; [first [congruence|vm_compute; reflexivity]|]). cbn in L. lia.
  - exists 1. left. now left.
  - vm_compute. reflexivity.
  - vm_compute. reflexivity.
Qed.
Example C74_ex_run : max_flow true mf1 0 5 1000 = Ok (10%Z,
  [[ar 1 10 10; ar 3 10 10]; [ar 0 10 0; ar 7 10 10]; [ar 5 10 10]; [ar 4 10 10; ar 2 1 0]; [ar 6 10 10]; []; [ar 5 10 10]; [ar 2 10 10]]).
Proof. vm_compute. reflexivity. Qed.
(** as in the test: no flow at first, 20 returned *)
Example C74_ex_test : match max_flow true [[ar 1 10 0; ar 3 10 0]; [ar 0 10 0; ar 7 10 0]; [ar 5 10 0]; [ar 4 10 0; ar 2 1 0]; [ar 6 10 0]; []; [ar 5 10 0]; [ar 2 10 0]] 0 5 1000 with Ok r => fst r = 20%Z | _ => False end.
Proof. vm_compute. reflexivity. Qed.
(** Flow is taken back from an arc without a reverse arc: 0 -> 1 -> 2 -> 3 is found first, then 0 -> 4 -> 5 -> 2, back to 1, -> 6
    -> 7 -> 3. *)
Definition mf2 : list (list (nat * (Z * Z))) :=
  [[ar 1 1 0; ar 4 1 0]; [ar 2 1 0; ar 6 1 0]; [ar 3 1 0]; []; [ar 5 1 0]; [ar 2 1 0]; [ar 7 1 0]; [ar 3 1 0]].
Example C74_ex_back : max_flow true mf2 0 3 0 = Ok (1%Z,
    [[ar 1 1 1; ar 4 1 0]; [ar 2 1 1; ar 6 1 0]; [ar 3 1 1]; []; [ar 5 1 0]; [ar 2 1 0]; [ar 7 1 0]; [ar 3 1 0]]) /\
  max_flow true mf2 0 3 10 = Ok (2%Z,
    [[ar 1 1 1; ar 4 1 1]; [ar 2 1 0; ar 6 1 1]; [ar 3 1 1]; []; [ar 5 1 1]; [ar 2 1 1]; [ar 7 1 1]; [ar 3 1 1]]).
Proof. split; vm_compute; reflexivity. Qed.
(** one arc for 1000000 units: 100000 a round *)
Example C74_ex_limit : max_flow true [[ar 1 1000000 0]; []] 0 1 2 = Ok (300000%Z, [[ar 1 1000000 300000]; []]) /\
  max_flow true [[ar 1 1000000 0]; []] 0 1 20 = Ok (1000000%Z, [[ar 1 1000000 1000000]; []]).
Proof. split; vm_compute; reflexivity. Qed.
Example C74_ex_isolated : max_flow true [[]; [ar 2 1 0]; []] 0 2 5 = Ub /\ max_flow true mf1 0 0 5 = Ub.
Proof. split; vm_compute; reflexivity. Qed.

(** Parallel arcs break it: the same network with an arc of capacity 0 before the arc 1 -> 2.  The flow on the second arc cannot
    be taken back, and 1 is returned although 2 units can be sent. *)
Definition mf3 : list (list (nat * (Z * Z))) :=
  [[ar 1 1 0; ar 4 1 0]; [ar 2 0 0; ar 2 1 0; ar 6 1 0]; [ar 3 1 0]; []; [ar 5 1 0]; [ar 2 1 0]; [ar 7 1 0]; [ar 3 1 0]].
Definition mf3_best : list (list (nat * (Z * Z))) :=
  [[ar 1 1 1; ar 4 1 1]; [ar 2 0 0; ar 2 1 0; ar 6 1 1]; [ar 3 1 1]; []; [ar 5 1 1]; [ar 2 1 1]; [ar 7 1 1]; [ar 3 1 1]].
Theorem C74_parallel_refuted : exists G', max_flow true mf3 0 3 1000 = Ok (1%Z, G') /\ outflow G' 0 = 1%Z /\ same_net G' mf3_best /\ feasible mf3_best 0 3 /\ outflow mf3_best 0 = 2%Z.
Proof.
  eexists. split; [vm_compute; reflexivity|]. split; [vm_compute; reflexivity|]. split; [vm_compute; reflexivity|]. split; [split|vm_compute; reflexivity].
  - intros v a. do 8 (destruct v as [|v]; [cbn; intuition (subst; cbn; lia)|]). replace (nth (S (S (S (S (S (S (S (S v)))))))) mf3_best []) with (@nil (nat * (Z * Z))) by (destruct v; reflexivity). intros [].
  - intros v L N1 N2. do 8 (destruct v as [|v]; [first [congruence|vm_compute; reflexivity]|]). cbn in L. lia.
Qed.
Print Assumptions C74_flow.
Print Assumptions C74_rounds.
Print Assumptions C74_maximum.
Print Assumptions C74_not_maximum.
Print Assumptions C74_isolated.
Print Assumptions C74_same.
Print Assumptions C74_parallel_refuted.
