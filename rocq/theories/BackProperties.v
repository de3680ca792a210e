(** C60: back_edge_range (adaptors/back_edge_range.hpp). *)
From Coq Require Import List Arith ZArith Lia Bool Sorted.
From Verif Require Import Base GraphLib BackModel BackProofs.
Import ListNotations.

(** The targets of the arcs of a graph with attributes. *)
Definition targets (g : list (list (nat * Z))) : list (list nat) := map (map fst) g.
(** [reached g as_needed ops st]: [st] arises from the constructor by a history of calls and assignments. *)
Definition reached (g : list (list (nat * Z))) (as_needed : bool) (ops : list bop) (st : bst) : Prop :=
  exists st0, b_make g as_needed = Ok st0 /\ b_run st0 ops = Ok st.

Lemma reached_eager g ops st : targets_ok (targets g) -> reached g false ops st ->
  exists A, binv (targets g) A st /\ (forall u v, A u v -> edge (targets g) u v) /\ (forall u v, edge (targets g) u v -> u <> v -> A u v).
Proof.
  intros T (st0 & E & R). destruct (@b_make_ok _ T g eq_refl) as (s & E' & I & _). rewrite E in E'. injection E' as <-. assert (I' := @run_ok _ T _ _ _ _ I R).
  eexists. split; [exact I'|]. split; [intros u v X; eapply bi_A; eauto|]. intros u v X N. left. auto.
Qed.
Lemma reached_lazy g ops st : targets_ok (targets g) -> reached g true ops st ->
  binv (targets g) (fun u v => edge (targets g) u v /\ In (Ask u v) ops) st.
Proof.
  intros T (st0 & E & R). unfold b_make in E. injection E as <-. assert (I := @binv_empty (targets g) g eq_refl). assert (L : length (targets g) = length g) by (unfold targets; now rewrite map_length). rewrite L in I.
  assert (I' := @run_ok _ T _ _ _ _ I R). eapply binv_ext; [|exact I']. intros a b. simpl. tauto.
Qed.

(** The constructor succeeds and leaves the graph as it is. *)
Theorem C60_make g as_needed : targets_ok (targets g) -> exists st, b_make g as_needed = Ok st /\ b_g st = g.
Proof.
  intros T. destruct as_needed; [eexists; split; reflexivity|]. destruct (@b_make_ok _ T g eq_refl) as (s & E' & I & [Q _]). exists s. auto.
Qed.

(** Eager mode: after any history, get_back_edge(u, v) names the first arc from v to u; if there is none but an arc from u
    to v, it names the extra arc; its target is u in both cases.  Without an arc in either direction it is undefined. *)
Theorem C60_eager g ops st u v : targets_ok (targets g) -> reached g false ops st -> u < length g ->
  (edge (targets g) u v \/ edge (targets g) v u -> exists st' l z, get_back st u v = Ok (st', l) /\ rd st' l = Ok (u, z) /\
     ((exists j, first_arc (targets g) v u j /\ l = LReal v j) \/ (~ edge (targets g) v u /\ l = LBx u v))) /\
  (~ edge (targets g) u v -> ~ edge (targets g) v u -> get_back st u v = Ub).
Proof.
  intros T R L. destruct (reached_eager g ops st T R) as (A & I & A1 & A2). assert (Lu : u < length (targets g)) by (unfold targets; now rewrite map_length). split.
  - intros E. destruct (edge_dec (targets g) u v) as [E1|E1].
    + destruct (@get_forward _ T _ _ _ _ I E1) as (st' & l & z & G & _ & _ & P & Rd). exists st', l, z. auto.
    + destruct E as [E|E]; [contradiction|]. destruct (@get_backward _ _ _ _ _ I Lu E1) as [B _]. destruct B as (j & z & F & G & Rd); [apply A2; auto; intros ->; contradiction|]. exists st, (LReal v j), z. split; auto. split; auto. left. eauto.
  - intros E1 E2. destruct (@get_backward _ _ _ _ _ I Lu E1) as [_ B]. apply B. intros X. apply E2. auto.
Qed.
(** As-needed mode: the same for an arc from u to v; the other direction is defined only after a call for the arc itself. *)
Theorem C60_lazy g ops st u v : targets_ok (targets g) -> reached g true ops st -> u < length g ->
  (edge (targets g) u v -> exists st' l z, get_back st u v = Ok (st', l) /\ rd st' l = Ok (u, z) /\
     ((exists j, first_arc (targets g) v u j /\ l = LReal v j) \/ (~ edge (targets g) v u /\ l = LBx u v))) /\
  (~ edge (targets g) u v -> edge (targets g) v u -> In (Ask v u) ops ->
     exists j z, first_arc (targets g) v u j /\ get_back st u v = Ok (st, LReal v j) /\ rd st (LReal v j) = Ok (u, z)) /\
  (~ edge (targets g) u v -> ~ (edge (targets g) v u /\ In (Ask v u) ops) -> get_back st u v = Ub).
Proof.
  intros T R L. assert (I := reached_lazy g ops st T R). assert (Lu : u < length (targets g)) by (unfold targets; now rewrite map_length). split; [|split].
  - intros E1. destruct (@get_forward _ T _ _ _ _ I E1) as (st' & l & z & G & _ & _ & P & Rd). exists st', l, z. auto.
  - intros E1 E2 H. destruct (@get_backward _ _ _ _ _ I Lu E1) as [B _]. apply B. auto.
  - intros E1 H. destruct (@get_backward _ _ _ _ _ I Lu E1) as [_ B]. apply B. auto.
Qed.

(** No call changes the graph or any arc that could be read before; an extra arc that it creates has attribute 0. *)
Theorem C60_quiet g as_needed ops st u v st' l : targets_ok (targets g) -> reached g as_needed ops st -> get_back st u v = Ok (st', l) ->
  b_g st' = b_g st /\ forall p, rd st' p = rd st p \/ (rd st p = Ub /\ exists x, rd st' p = Ok (x, 0%Z)).
Proof.
  intros T R E. assert (X : exists A, binv (targets g) A st /\ (forall a b, A a b \/ ~ A a b \/ edge (targets g) a b)).
  { destruct as_needed; [exists (fun u v => edge (targets g) u v /\ In (Ask u v) ops); split; [now apply reached_lazy|]|destruct (reached_eager g ops st T R) as (A & I & A1 & A2); exists A; split; auto].
    - intros a b. destruct (edge_dec (targets g) a b); tauto.
    - intros a b. destruct (edge_dec (targets g) a b); [tauto|]. right. left. auto. }
  destruct X as (A & I & _). assert (Lu := @ask_range _ _ _ _ _ _ I E). destruct (edge_dec (targets g) u v) as [E1|E1].
  - destruct (@get_forward _ T _ _ _ _ I E1) as (st2 & l2 & z & G & _ & Q & _). rewrite E in G. injection G as <- <-. exact Q.
  - assert (st' = st). { destruct (@get_backward _ _ _ _ _ I Lu E1) as [B1 B2]. destruct (@b_find_ok _ _ _ _ v I Lu) as [(j & [X|X] & _)|[(X & _)|[(_ & X & _)|(X & _)]]].
      - apply (bi_A I) in X. contradiction.
      - destruct (B1 X) as (j' & z & _ & Y & _). congruence.
      - apply (bi_A I) in X. contradiction.
      - rewrite (B2 X) in E. discriminate.
      - rewrite B2 in E; [discriminate|]. intros Y. apply X. eapply bi_A; eauto. }
    subst st'. split; auto.
Qed.

(** Iterating over row v (eager mode) visits the arcs of the graph, then an extra arc for every u, ascending, that has an
    arc to v but none from v.  For every arc visited get_back_edge gives an arc that points back to v. *)
Theorem C60_iteration g ops st v : targets_ok (targets g) -> reached g false ops st -> v < length g ->
  exists K, b_view st v = Ok (map (LReal v) (seq 0 (length (nth v (targets g) []))) ++ map (LAx v) K) /\
    StronglySorted lt K /\ (forall u, In u K <-> edge (targets g) u v /\ ~ edge (targets g) v u) /\
    forall l, In l (map (LReal v) (seq 0 (length (nth v (targets g) []))) ++ map (LAx v) K) ->
      exists x z st' l' z', rd st l = Ok (x, z) /\ get_back st v x = Ok (st', l') /\ rd st' l' = Ok (v, z').
Proof.
  intros T R L. destruct (reached_eager g ops st T R) as (A & I & A1 & A2). assert (Lv : v < length (targets g)) by (unfold targets; now rewrite map_length).
  destruct (@view_ok _ _ _ _ I Lv) as (K & E & S & M). exists K. split; auto. split; auto.
  assert (M' : forall u, In u K <-> edge (targets g) u v /\ ~ edge (targets g) v u).
  { intros u. rewrite M. split; [intros [X Y]; auto|]. intros [X Y]. split; auto. apply A2; auto. intros ->. contradiction. }
  split; auto. intros l H. assert (Z : forall x, edge (targets g) v x \/ edge (targets g) x v -> exists st' l' z', get_back st v x = Ok (st', l') /\ rd st' l' = Ok (v, z')).
  { intros x X. destruct (proj1 (C60_eager g ops st v x T R L) X) as (st' & l' & z' & B & C & _). eauto. }
  apply in_app_or in H. destruct H as [H|H]; apply in_map_iff in H; destruct H as (i & <- & H).
  - apply in_seq in H. destruct (@binv_row _ _ st v I Lv) as (row & Er & Em). assert (Lr : i < length row) by (rewrite <- (map_length fst), Em; lia). destruct (nth_error row i) as [x|] eqn:Ex; [|apply nth_error_None in Ex; lia].
    destruct (Z (fst x)) as (st' & l' & z' & B & C); [left; unfold edge; rewrite <- Em; apply in_map; eapply nth_error_In; eauto|]. exists (fst x), (snd x), st', l', z'. split; auto. cbn [rd]. unfold vget2. rewrite Er. cbn [bind]. rewrite (proj2 (vget_Ok _ _ _) Ex). now destruct x.
  - assert (H' := H). apply M' in H'. apply M in H. destruct H' as [H1 H2], H as [H _]. destruct (@rd_ax _ _ _ _ _ I H H2) as (z & Z1). destruct (Z i (or_intror H1)) as (st' & l' & z' & B & C). exists i, z, st', l', z'. auto.
Qed.

(** The extra arc that get_back_edge names is not the extra arc that the iteration visits: what is assigned through the
    one is never seen through the other. *)
Theorem C60_copies g st u v z : targets_ok (targets g) -> b_make g false = Ok st -> edge (targets g) u v -> ~ edge (targets g) v u ->
  get_back st u v = Ok (st, LBx u v) /\ exists st', put st (LBx u v) z = Ok st' /\ rd st' (LBx u v) = Ok (u, z) /\
    (exists L, b_view st' v = Ok L /\ In (LAx v u) L) /\ rd st' (LAx v u) = Ok (u, 0%Z).
Proof.
  intros T E E1 E2. destruct (@b_make_ok _ T g eq_refl) as (s & E' & I & Q). rewrite E in E'. injection E' as <-. assert (Lu := @edge_l _ _ _ E1). assert (Lv := T _ _ E1). assert (N : u <> v) by (intros ->; contradiction).
  assert (F : b_find st u v = Ok (Some (LBx u v))). { destruct (@b_find_ok _ _ _ _ v I Lu) as [(j & _ & X & _)|[(_ & _ & X & _)|[(X & _)|(_ & X & _)]]]; auto; try tauto. apply first_edge in X. contradiction. }
  assert (Z1 : exists z, rd st (LBx u v) = Ok (u, z)). { destruct (@b_find_ok _ _ _ _ v I Lu) as [(j & _ & X & _)|[(_ & _ & _ & X)|[(X & _)|(_ & X & _)]]]; auto; try tauto. apply first_edge in X. contradiction. }
  destruct (@rd_ax _ _ _ u v I (conj E1 N) E2) as (z2 & Z2). split; [unfold get_back; rewrite F; reflexivity|].
  destruct Z1 as (z1 & Z1). assert (P : exists st', put st (LBx u v) z = Ok st').
  { unfold put. rewrite Z1. cbn [bind fst wr]. cbn [rd] in Z1. rewrite mget_nth in Z1. unfold mset. rewrite (@vget_nth _ (b_bx st) u []) by (rewrite (bi_lbx I); auto). cbn [bind]. destruct (afind v (nth u (b_bx st) [])); [|discriminate]. rewrite vset_lt by (rewrite (bi_lbx I); auto). cbn [bind]. eauto. }
  destruct P as (st' & P). exists st'. split; auto. destruct (@put_ok _ _ _ _ _ _ I P) as (I' & O & x & X1 & X2). split; [rewrite Z1 in X1; injection X1 as <-; exact X2|]. split.
  - destruct (@view_ok _ _ _ _ I' Lv) as (K & V & _ & M). eexists. split; [exact V|]. apply in_or_app. right. apply in_map, M. auto.
  - rewrite O by discriminate. destruct Q as [_ Q]. specialize (Q (LAx v u)). cbn [rd b_ax] in Q. rewrite (@mget_nth _ (repeat [] (length (targets g)))), nth_repeat_nil in Q. cbn [afind] in Q. cbn [rd] in Z2. destruct Q as [Q|[_ (x' & Q)]]; cbn [rd]; congruence.
Qed.

(** 0 -> 1 (twice) -> 2 <-> 3, a self loop at 3; attributes 10, 11, ... *)
Definition bg : list (list (nat * Z)) := [[(1, 10%Z); (1, 11%Z)]; [(2, 12%Z)]; [(3, 13%Z)]; [(2, 14%Z); (3, 15%Z)]].
Example C60_ex_ok : targets_ok (targets bg) /\ edge (targets bg) 0 1 /\ ~ edge (targets bg) 1 0.
Proof.
  split; [|split; cbv; intuition lia]. intros u v E. unfold edge in E. simpl length.
  do 4 (destruct u as [|u]; [simpl in E; intuition lia|]). destruct u; destruct E.
Qed.
Example C60_ex_calls : exists st, b_make bg false = Ok st /\
  get_back st 0 1 = Ok (st, LBx 0 1) /\ get_back st 1 0 = Ok (st, LReal 0 0) /\ get_back st 2 3 = Ok (st, LReal 3 0) /\ get_back st 3 2 = Ok (st, LReal 2 0) /\
  (exists st', get_back st 3 3 = Ok (st', LReal 3 1)) /\ get_back st 0 2 = Ub /\ b_view st 1 = Ok [LReal 1 0; LAx 1 0] /\ b_view st 2 = Ok [LReal 2 0; LAx 2 1].
Proof. eexists. split; [vm_compute; reflexivity|]. repeat (split; [vm_compute; reflexivity|]). split; [eexists; vm_compute; reflexivity|]. repeat split; vm_compute; reflexivity. Qed.
(** as needed: the arc back of 1 -> 0 is known only after a call for 0 -> 1 *)
Example C60_ex_lazy : exists st st', b_make bg true = Ok st /\ get_back st 1 0 = Ub /\ get_back st 0 1 = Ok (st', LBx 0 1) /\ get_back st' 1 0 = Ok (st', LReal 0 0) /\ b_view st 1 = Ok [LReal 1 0].
Proof. eexists. eexists. repeat (split; [vm_compute; reflexivity|]). vm_compute; reflexivity. Qed.
(** five units sent along 0 -> 1: the arc back holds 5 where get_back_edge looks, and 0 where the iteration looks *)
Example C60_ex_copies : exists st st', b_make bg false = Ok st /\ put st (LBx 0 1) 5%Z = Ok st' /\ rd st' (LBx 0 1) = Ok (0, 5%Z) /\ rd st' (LAx 1 0) = Ok (0, 0%Z) /\
  reached bg false [Ask 0 1; Put (LBx 0 1) 5%Z] st'.
Proof. eexists. eexists. repeat (split; [vm_compute; reflexivity|]). eexists. split; vm_compute; reflexivity. Qed.
Print Assumptions C60_make.
Print Assumptions C60_eager.
Print Assumptions C60_lazy.
Print Assumptions C60_quiet.
Print Assumptions C60_iteration.
Print Assumptions C60_copies.
