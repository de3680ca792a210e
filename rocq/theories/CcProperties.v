(** C35 (link and compress under every interleaving), C36 (afforest and CCVerifier are off by one), C52 and C53 (both
    are right once their arrays have the graph's size). The specification is ConnLib's [conn]: joined by a path of
    the given edges in either direction; [gedges g] are the arcs of g. *)
From Coq Require Import List Arith Lia Bool Permutation.
From Verif Require Import Base ConnLib GraphLib Pool ParBfsModel CcModel CcProofs CcProofs2.
Import ListNotations.
Set Implicit Arguments.

(** ** C35 *)
(** At every point of every execution, labels stay in the component and do not exceed the vertex. *)
Theorem C35_link_every_prefix n W sched es k : n <= W -> (forall a b, In (a, b) es -> a < n /\ b < n) ->
  exists ts comp, runk (lk_step W) k sched 0 (map (fun e => LkP1 (fst e) (snd e)) es) (seq 0 n) = Ok (ts, comp) /\
    length comp = n /\ forall v, v < n -> nth v comp v <= v /\ conn es v (nth v comp v).
Proof.
  intros HW HE.
  destruct (@runk_inv _ _ (lk_step W) (lk_inv n (cedges (seq 0 n) ++ es))) with (k := k) (sched := sched) (now := 0)
    (ts := map (fun e => LkP1 (fst e) (snd e)) es) (s := seq 0 n) as (ts & comp & E & C & _ & Q).
  - intros l1 t l2 s I. destruct (@lk_inv_step n W HW _ _ _ _ _ I) as (o & s' & A & B & _). eauto.
  - apply lk_inv_init; auto. apply comp_ok_seq.
  - exists ts, comp. split; auto. split; [apply C|]. intros v Hv. split; [now apply C|].
    assert (X : conn (cedges (seq 0 n) ++ es) v (nth v comp v)).
    { apply Q. apply conn_app1, conn_edge, in_cedges. split; auto. rewrite (proj1 C). auto. }
    revert X. apply conn_mono. intros a b I. apply in_app_or in I. destruct I as [I|I]; [|now apply conn_edge].
    apply conn_edge, cedges_seq in I. subst. apply conn_refl.
Qed.

(** When all links have finished the labels form a forest whose trees are the components. *)
Theorem C35_link_components n W sched es : n <= W -> (forall a b, In (a, b) es -> a < n /\ b < n) ->
  exists comp, link_all W sched es (seq 0 n) = Ok comp /\ length comp = n /\
    (forall v, v < n -> nth v comp v <= v) /\ represents n (fun v => nth v comp v) es.
Proof.
  intros HW HE. destruct (@link_all_ok n W HW sched es (seq 0 n) (comp_ok_seq n) HE) as (comp & E & C & Q).
  assert (Q' : forall u v, conn (cedges comp) u v <-> conn es u v).
  { intros u v. rewrite Q. split; apply conn_mono; intros a b I.
    - apply in_app_or in I. destruct I as [I|I]; [apply conn_edge, cedges_seq in I; subst; apply conn_refl|now apply conn_edge].
    - apply conn_app2, conn_edge; auto. }
  exists comp. split; auto. split; [apply C|]. split; [apply C|]. split; [split|].
  - intros v Hv. assert (X := proj2 C v Hv). unfold lab in X. lia.
  - intros v Hv. destruct (root_up C Hv) as [k U]. exists k, (root comp v). exact U.
  - intros u v ku kv ru rv Hu Hv U V. rewrite <- Q', <- (root_conn C Hu Hv).
    destruct (root_up C Hu) as [k1 U1]. destruct (root_up C Hv) as [k2 V1].
    destruct (up_fun U U1) as [_ ->], (up_fun V V1) as [_ ->]. tauto.
Qed.

(** compress leaves every vertex with the root of its tree, whatever the interleaving. *)
Theorem C35_compress_roots n sched comp : length comp = n -> (forall v, v < n -> nth v comp v <= v) ->
  exists comp', compress sched comp = Ok comp' /\ length comp' = n /\
    forall v, v < n -> exists k, up (fun x => nth x comp x) k v (nth v comp' v).
Proof.
  intros L H. assert (C : comp_ok n comp) by (split; auto). destruct (compress_ok sched C) as (comp' & E & L' & R).
  exists comp'. split; auto. split; auto. intros v Hv. rewrite R by auto. apply (root_up C Hv).
Qed.

(** Together: the label of v becomes the least vertex of its component. *)
Theorem C35_link_compress_least n W s1 s2 es : n <= W -> (forall a b, In (a, b) es -> a < n /\ b < n) ->
  exists comp, (do c <- link_all W s1 es (seq 0 n) ; compress s2 c) = Ok comp /\ length comp = n /\
    forall v, v < n -> conn es v (nth v comp v) /\ forall w, w < n -> conn es v w -> nth v comp v <= w.
Proof.
  intros HW HE. destruct (@link_all_ok n W HW s1 es (seq 0 n) (comp_ok_seq n) HE) as (c & E & C & Q).
  assert (Q' : forall u v, conn (cedges c) u v <-> conn es u v).
  { intros u v. rewrite Q. split; apply conn_mono; intros a b I.
    - apply in_app_or in I. destruct I as [I|I]; [apply conn_edge, cedges_seq in I; subst; apply conn_refl|now apply conn_edge].
    - apply conn_app2, conn_edge; auto. }
  rewrite E. cbn [bind]. destruct (compress_ok s2 C) as (comp & E2 & L2 & R). exists comp. split; auto. split; auto.
  intros v Hv. rewrite R by auto. split; [apply Q', (climb_conn C); auto|]. intros w Hw K. apply Q' in K. apply (root_least C Hv Hw K).
Qed.

(** ** C36 *)
(** afforest reads graph[size] in its first round. *)
Theorem C36_afforest_out_of_bounds W sched pick g tg rounds : afforest W sched pick g tg (S rounds) = Ub.
Proof.
  unfold afforest, afforest_m. cbn [seq rfold]. rewrite af_round_ub by lia. reflexivity.
Qed.
(** CCVerifier rejects every labelling. *)
Theorem C36_verifier_rejects_all order g xg comp : (forall l, Permutation l (order l)) ->
  targets_ok g -> length xg <= length g -> (forall u v, edge xg u v -> v < length g) -> length g <= length comp ->
  cc_verifier order g xg comp = Ok false.
Proof.
  intros PO HT HX HXT HC. unfold cc_verifier.
  destruct (@verifier_ok (length g + 1) g xg comp HT HX HXT HC ltac:(lia) order PO) as (b & E & H & _).
  rewrite E. destruct b; auto. destruct (H eq_refl). lia.
Qed.

(** ** C52 *)
(** With a label array of the graph's size, afforest labels every vertex with the least vertex of its component, for
    every schedule, every sampled label and every number of rounds; the graph must be symmetric or come with its
    transpose. *)
Theorem C52_afforest_components W sched pick g tg rounds : length g <= W -> targets_ok g ->
  (tg = [] /\ (forall u v, edge g u v -> edge g v u)) \/ transpose_of g tg ->
  exists comp, afforest_m W (length g) sched pick g tg rounds = Ok comp /\ length comp = length g /\
    forall v, v < length g -> conn (gedges g) v (nth v comp v) /\ forall w, w < length g -> conn (gedges g) v w -> nth v comp v <= w.
Proof. intros HW HT HC. now apply afforest_m_ok. Qed.
(** Without the transpose a directed graph may be mislabelled: the skipped component loses its remaining arcs. *)
Theorem C52_directed_alone_refuted : exists g sched pick comp, targets_ok g /\
  afforest_m 16 (length g) sched pick g [] 2 = Ok comp /\ edge g 0 3 /\ nth 0 comp 0 <> nth 3 comp 0.
Proof.
  exists [[1; 2; 3]; []; []; []], (fun _ t => t), (fun c => nth 0 c 0), [0; 0; 0; 3].
  split; [|split; [reflexivity|split; [right; right; now left|discriminate]]].
  intros u v E. unfold edge in E. destruct u as [|[|[|[|u]]]]; simpl in E; try tauto; simpl; try lia. destruct u; destruct E.
Qed.

(** ** C53 *)
(** With a visited vector of the graph's size, CCVerifier accepts exactly the labellings that separate the
    components. *)
Theorem C53_verifier_exact order g xg comp : (forall l, Permutation l (order l)) ->
  targets_ok g -> length xg <= length g -> (forall u v, edge xg u v -> v < length g) -> length g <= length comp ->
  (forall u v, edge g u v \/ edge xg u v -> edge g v u \/ edge xg v u) ->
  exists b, cc_verifier_m (length g) order g xg comp = Ok b /\
    (b = true <-> forall u v, u < length g -> v < length g -> (nth u comp 0 = nth v comp 0 <-> conn (gedges g ++ gedges xg) u v)).
Proof.
  intros PO HT HX HXT HC SY.
  destruct (@verifier_ok (length g) g xg comp HT HX HXT HC ltac:(lia) order PO) as (b & E & H1 & H2).
  exists b. split; auto. split; [intros Hb; apply H1; auto|intros SP; apply H2; auto].
Qed.
(** Without the reverse arcs it may reject a right labelling: the search starts at the last vertex of the class. *)
Theorem C53_directed_alone_refuted : exists g comp, targets_ok g /\
  cc_verifier_m (length g) (fun l => l) g [] comp = Ok false /\
  forall u v, u < length g -> v < length g -> (nth u comp 0 = nth v comp 0 <-> conn (gedges g) u v).
Proof.
  exists [[1]; []], [0; 0]. split; [|split; [reflexivity|]].
  - intros u v E. unfold edge in E. destruct u as [|[|u]]; simpl in E; try tauto; simpl; try lia. destruct u; destruct E.
  - intros u v Hu Hv. assert (E : conn (gedges [[1]; []]) 0 1) by (apply conn_edge; simpl; auto). simpl in Hu, Hv.
    destruct u as [|[|u]], v as [|[|v]]; try lia; simpl nth; split; auto; intros _; auto using conn_refl, conn_sym.
Qed.

(** ** Non-vacuity *)
(** Three links meeting in 0 and 4, under two schedules; 5 stays alone. *)
Definition ex_es : list (nat * nat) := [(3, 1); (1, 0); (4, 2)].
Example ex_link : link_all 8 (fun t => 1) ex_es (seq 0 6) = Ok [0; 0; 2; 0; 2; 5] /\
  link_all 8 (fun t => 0) ex_es (seq 0 6) = Ok [0; 0; 2; 1; 2; 5] /\
  (do c <- link_all 8 (fun _ => 0) ex_es (seq 0 6) ; compress (fun t => 7 * t) c) = Ok [0; 0; 2; 0; 2; 5].
Proof. repeat split; reflexivity. Qed.
(** Two links race for the root 3: one exchange fails and its link goes on from the new parent. *)
Example ex_link_race : link_all 8 (fun t => t) [(3, 1); (3, 2)] (seq 0 4) = Ok [0; 1; 1; 1].
Proof. reflexivity. Qed.
Definition ex_sym : list (list nat) := [[1; 3]; [0; 3]; [4]; [1; 0]; [2]].
Example ex_sym_ok : targets_ok ex_sym /\ forall u v, edge ex_sym u v -> edge ex_sym v u.
Proof.
  split; intros u v E; unfold edge in *; do 5 (destruct u as [|u]; [simpl in E; repeat (destruct E as [E|E]; [subst v; simpl; auto; try lia|]); destruct E|]); destruct u; destruct E.
Qed.
Example ex_afforest : afforest_m 8 5 (fun i t => i + t) (fun c => nth 1 c 0) ex_sym [] 1 = Ok [0; 0; 2; 0; 2] /\
  afforest 8 (fun i t => i + t) (fun c => nth 1 c 0) ex_sym [] 1 = Ub /\
  cc_verifier_m 5 (fun l => l) ex_sym [] [0; 0; 2; 0; 2] = Ok true /\
  cc_verifier_m 5 (fun l => l) ex_sym [] [0; 0; 0; 0; 0] = Ok false /\
  cc_verifier (fun l => l) ex_sym [] [0; 0; 2; 0; 2] = Ok false.
Proof. repeat split; reflexivity. Qed.
(** With no rounds the access remains unless the sampled label is the extra one. *)
Example ex_afforest0 : afforest 8 (fun i t => t) (fun c => 0) ex_sym [] 0 = Ub.
Proof. reflexivity. Qed.
Print Assumptions C35_link_every_prefix.
Print Assumptions C35_link_components.
Print Assumptions C35_compress_roots.
Print Assumptions C35_link_compress_least.
Print Assumptions C36_afforest_out_of_bounds.
Print Assumptions C36_verifier_rejects_all.
Print Assumptions C52_afforest_components.
Print Assumptions C52_directed_alone_refuted.
Print Assumptions C53_verifier_exact.
Print Assumptions C53_directed_alone_refuted.
