(** C90: the Dijkstra benchmark apb/dijkstra.cpp. The specification [wsum] (ApdProofs.v): the sums along the walks, each added up from its start. *)
From Coq Require Import List Arith ZArith Lia Bool Permutation.
From Verif Require Import EdgeListModel EdgeListProofs CsrModel CsrProofs CsrProofs2 CsrProofs4 CbProofs ApbProofs ApdModel ApdProofs Base.
Import ListNotations.
Set Implicit Arguments.

Notation apd_graph_of W srt srt1 n es g := (adjacency_of W srt srt1 true S1 (el_build W n es) false = Ok g) (only parsing).
(** a is not above b *)
Notation le ltb a b := (ltb b a = false) (only parsing).
(** operator< of a number type without NaN: a weak order. *)
Definition number_order {D} (ltb : D -> D -> bool) : Prop :=
  (forall a, le ltb a a) /\ (forall a b c, le ltb a b -> le ltb b c -> le ltb a c) /\ (forall a b, ltb a b = true -> le ltb a b).
(** What std::priority_queue promises with that comparison: an element none is below. *)
Definition takes_least {D} (ltb : D -> D -> bool) (best : list (nat * D) -> nat) : Prop :=
  forall Q, Q <> [] -> best Q < length Q /\ forall x y, nth_error Q (best Q) = Some x -> In y Q -> le ltb (snd x) (snd y).
(** The graph is indexed by the second column: an arc leads from the target of an edge to its source. *)
Definition against {V} (es : list (edge V)) (u v : nat) (w : V) : Prop := In (v, u, w) es.

Lemma apd_rows V W srt srt1 n (es : list (edge V)) g : is_sort_by fst srt -> n < W -> ids_ok W es -> length es < W -> apd_graph_of W srt srt1 n es g ->
  exists rows, length rows = csr_size g /\ csr_size g < W /\ (forall u, u < length rows -> csr_row g u = Ok (nth u rows [])) /\
    (forall u row, csr_row g u = Ok row -> u < length rows /\ row = nth u rows []) /\
    (forall u e, In e (nth u rows []) -> fst e < length rows) /\
    (forall u v w, In (v, w) (nth u rows []) <-> against es u v w) /\ sum (map (@length _) rows) = length es.
Proof.
  intros Hs Hn He HW Eg. destruct (adjacency_directed_rows srt1 S1 (el_num_vertices (el_build W n es) + 1) Hs Hn He HW) as (g' & E & S1' & _ & _ & R).
  unfold adjacency_of in Eg. rewrite Eg in E. injection E as <-.
  destruct (@rmap_ex nat (list (nat * V)) (csr_row g) (fun v r => csr_row g v = Ok r /\ Permutation r (spec_row S1 es v)) (seq 0 (csr_size g))) as (rows & Er & F).
  { intros v I. apply in_seq in I. destruct (R v ltac:(lia)) as (row & Ev & Pm). eauto. }
  assert (L : length rows = csr_size g) by (apply rmap_Ok_length in Er; now rewrite seq_length in Er).
  assert (N : forall v, v < csr_size g -> csr_row g v = Ok (nth v rows []) /\ Permutation (nth v rows []) (spec_row S1 es v)).
  { intros v Lv. destruct (forall2_nth 0 [] F) as [_ H]. specialize (H v ltac:(now rewrite seq_length)). now rewrite seq_nth in H. }
  assert (Ed : forall u v w, In (v, w) (nth u rows []) <-> against es u v w).
  { intros u v w. unfold against. split.
    - intros I. assert (Lu : u < csr_size g). { destruct (Nat.lt_ge_cases u (length rows)) as [H|H]; [lia|]. rewrite nth_overflow in I by auto. destruct I. }
      destruct (N u Lu) as (_ & Pm). apply (Permutation_in _ Pm) in I. unfold spec_row in I. apply in_map_iff in I. destruct I as ([[a b] c] & Ee & I). apply filter_In in I. destruct I as [I K].
      apply Nat.eqb_eq in K. cbn in K, Ee. injection Ee as <- <-. now subst b.
    - intros I. assert (Lu : u < csr_size g) by (rewrite S1'; apply (build_key_lt S1 Hn He _ I)).
      destruct (N u Lu) as (_ & Pm). apply (Permutation_in _ (Permutation_sym Pm)). apply in_map_iff. exists (v, u, w). split; auto. apply filter_In. split; auto. apply Nat.eqb_refl. }
  exists rows. split; auto. split; [rewrite S1'; now apply size_le|]. split; [intros u Hu; apply N; lia|]. split; [|split; [|split; auto]].
  - intros u row Eu. assert (Lu : u < csr_size g).
    { destruct (Nat.lt_ge_cases u (csr_size g)) as [H|H]; auto. exfalso. unfold csr_row in Eu. unfold csr_size in H. destruct (vget (csr_ind g) u); cbn [bind] in Eu; try discriminate.
      rewrite vget_ge in Eu by lia. discriminate. }
    split; [lia|]. destruct (N u Lu) as [E _]. congruence.
  - intros u [v w] I. apply Ed in I. rewrite L, S1'. apply (build_key_lt S0 Hn He _ I).
  - rewrite <- (@count_keys _ (ekey S1) (csr_size g) es) by (intros e I; rewrite S1'; apply (build_key_lt S1 Hn He e I)).
    transitivity (sum (map (@length _) (map (fun u => nth u rows []) (seq 0 (csr_size g))))).
    + f_equal. f_equal. apply nth_ext with (d := []) (d' := []); [now rewrite map_length, seq_length|]. intros i Hi. rewrite nth_map_seq by lia. auto.
    + rewrite map_map. f_equal. apply map_ext_in. intros v I. apply in_seq in I. destruct (N v ltac:(lia)) as (_ & Pm). apply Permutation_length in Pm. rewrite Pm. unfold spec_row. now rewrite map_length.
Qed.
Lemma wsum_mono D V (add : D -> V -> D) zero (a1 a2 : nat -> nat -> V -> Prop) s v d : (forall x y w, a1 x y w -> a2 x y w) -> wsum add zero a1 s v d -> wsum add zero a2 s v d.
Proof. intros H. induction 1; econstructor; eauto. Qed.
Lemma arc_against V (es : list (edge V)) rows : (forall u v w, In (v, w) (nth u rows []) <-> against es u v w) -> forall u v w, arc snd rows u v w <-> against es u v w.
Proof. intros Ed u v w. split; [intros ([a b] & I & <- & <-); now apply Ed|intros I; apply Ed in I; exists (v, w); auto]. Qed.

(** The six loops stay in bounds, end (each after at most one step for each edge and one for the start), and leave the same distances after each. The distance of v is the
    least of the sums along walks from the start to v, or the initial maximum if no sum is below it. This holds for every number type whose addition is monotone and
    never decreases the distance by adding a weight that occurs, such as the rounded addition of non-negative doubles, and however ties in the queue are broken. *)
Theorem C90_dijkstra D V (ltb : D -> D -> bool) (add : D -> V -> D) zero top best W srt srt1 n (es : list (edge V)) g fuel source ntrial :
  is_sort_by fst srt -> n < W -> ids_ok W es -> length es < W -> apd_graph_of W srt srt1 n es g ->
  number_order ltb -> (forall a b w, le ltb a b -> le ltb (add a w) (add b w)) -> (forall e, In e es -> forall a, le ltb a (add a (eatt e))) -> ltb zero top = true ->
  takes_least ltb best -> source < csr_size g -> 1 + length es <= fuel -> 0 < ntrial ->
  exists dist, apd_run ltb add zero top best snd W g fuel source ntrial = Ok (repeat dist 6) /\ length dist = csr_size g /\
    forall v, (nth v dist top = top \/ wsum add zero (against es) source v (nth v dist top)) /\ forall d, wsum add zero (against es) source v d -> le ltb (nth v dist top) d.
Proof.
  intros Hs Hn He HW Eg (O1 & O2 & O3) Mo Inf Zt Be So Fu Nt. destruct (@apd_rows V W srt srt1 n es g Hs Hn He HW Eg) as (rows & L & SW & R & _ & T & Ed & Su).
  pose proof (@arc_against V es rows Ed) as Ar. rewrite <- L in *.
  assert (TR : exists dist, (forall d0, length d0 = length rows -> apd_trial ltb add zero top best snd g fuel source d0 = Ok dist) /\ length dist = length rows /\
    forall v, (dv top dist v = top \/ (ltb (dv top dist v) top = true /\ wsum add zero (arc snd rows) source v (dv top dist v))) /\ forall d, wsum add zero (arc snd rows) source v d -> le ltb (dv top dist v) d).
  { destruct (@trial_ok D V ltb add zero top best snd g rows source O1 O2 O3 Mo Zt Be R T So) with (fuel := fuel) (d0 := repeat top (length rows)) as (dist & E & H); auto.
    - intros u v w A a. apply Ar in A. apply (Inf _ A).
    - apply repeat_length.
    - lia.
    - exists dist. split; auto. intros d0 L0. unfold apd_trial in *. rewrite L0. rewrite repeat_length in E. exact E. }
  destruct TR as (dist & TR & Ld & Q). exists dist. split; [|split; auto].
  - assert (TS : forall d0, length d0 = length rows -> apd_trials ltb add zero top best snd g fuel source ntrial d0 = Ok dist).
    { intros d0 L0. unfold apd_trials. destruct ntrial as [|k]; [lia|]. cbn [seq rfold]. rewrite TR by auto. cbn [bind]. clear - TR Ld. generalize (seq 1 k). induction l as [|a l IH]; auto. cbn [rfold]. now rewrite TR. }
    unfold apd_run. rewrite Nat.mod_small by lia. rewrite <- L. cbn [rfold bind fst snd]. rewrite TS by apply repeat_length. cbn [bind fst snd].
    repeat (rewrite TS by auto; cbn [bind fst snd]). reflexivity.
  - intros v. destruct (Q v) as [A B]. split.
    + destruct A as [A|[_ A]]; [now left|right]. eapply wsum_mono; [|exact A]. intros; now apply Ar.
    + intros d Wd. apply B. eapply wsum_mono; [|exact Wd]. intros; now apply Ar.
Qed.

(** With no trial the distances are never set; with a start that is not a vertex, distance[source] = 0 writes out of bounds. *)
Theorem C90_no_trial D V (ltb : D -> D -> bool) (add : D -> V -> D) zero top best fn W g fuel source : csr_size g < W ->
  apd_run ltb add zero top best fn W g fuel source 0 = Ok (repeat (repeat top (csr_size g)) 6).
Proof. intros H. unfold apd_run. rewrite Nat.mod_small by auto. reflexivity. Qed.
Theorem C90_no_such_source D V (ltb : D -> D -> bool) (add : D -> V -> D) zero top best fn W g fuel source ntrial : csr_size g < W ->
  csr_size g <= source -> 0 < ntrial -> apd_run ltb add zero top best fn W g fuel source ntrial = Ub.
Proof.
  intros H Hs Nt. unfold apd_run. rewrite Nat.mod_small by auto. cbn [rfold bind fst snd]. unfold apd_trials at 1. destruct ntrial; [lia|]. cbn [seq rfold].
  unfold apd_trial at 1. rewrite vset_ge; [reflexivity|]. rewrite !repeat_length. auto.
Qed.

(** Any weights and any order of the queue: if the run ends, no edge could improve the distances any more ... *)
Theorem C90_when_it_ends D V (ltb : D -> D -> bool) (add : D -> V -> D) zero top best W srt srt1 n (es : list (edge V)) g fuel source ntrial ds :
  is_sort_by fst srt -> n < W -> ids_ok W es -> length es < W -> apd_graph_of W srt srt1 n es g -> number_order ltb -> ltb zero top = true ->
  source < csr_size g -> 0 < ntrial -> apd_run ltb add zero top best snd W g fuel source ntrial = Ok ds ->
  exists dist, ds = repeat dist 6 /\ length dist = csr_size g /\ le ltb (nth source dist top) zero /\
    forall u v w, against es u v w -> ltb (nth u dist top) top = true -> le ltb (nth v dist top) (add (nth u dist top) w).
Proof.
  intros Hs Hn He HW Eg (O1 & O2 & O3) Zt So Nt E. destruct (@apd_rows V W srt srt1 n es g Hs Hn He HW Eg) as (rows & L & SW & R & RO & T & Ed & Su). rewrite <- L in *.
  assert (SAME : forall d1 d2, length d1 = length d2 -> apd_trial ltb add zero top best snd g fuel source d1 = apd_trial ltb add zero top best snd g fuel source d2) by (intros d1 d2 Hl; unfold apd_trial; now rewrite Hl).
  unfold apd_run in E. rewrite Nat.mod_small in E by lia. rewrite <- L in E. cbn [rfold bind fst snd] in E.
  destruct (apd_trial ltb add zero top best snd g fuel source (repeat top (length rows))) as [dist| |] eqn:E1.
  - destruct (@p_trial D V ltb add zero top best snd g rows source O1 O2 O3 RO fuel _ dist (repeat_length top (length rows)) So Zt E1) as (Ld & P0 & P).
    assert (TS : forall d0, length d0 = length rows -> apd_trials ltb add zero top best snd g fuel source ntrial d0 = Ok dist).
    { intros d0 L0. assert (TR : forall d, length d = length rows -> apd_trial ltb add zero top best snd g fuel source d = Ok dist) by (intros d Hd; rewrite <- E1; apply SAME; now rewrite repeat_length).
      unfold apd_trials. destruct ntrial as [|k]; [lia|]. cbn [seq rfold]. rewrite TR by auto. cbn [bind]. generalize (seq 1 k). induction l as [|a l IH]; auto. cbn [rfold]. now rewrite TR. }
    rewrite TS in E by apply repeat_length. cbn [bind fst snd] in E. repeat (rewrite TS in E by auto; cbn [bind fst snd] in E). injection E as <-.
    exists dist. split; auto. split; auto. split; auto. intros u v w A Hu. apply Ed in A. exact (P u Hu (v, w) A).
  - exfalso. unfold apd_trials at 1 in E. destruct ntrial as [|k]; [lia|]. cbn [seq rfold] in E. rewrite E1 in E. discriminate.
  - exfalso. unfold apd_trials at 1 in E. destruct ntrial as [|k]; [lia|]. cbn [seq rfold] in E. rewrite E1 in E. discriminate.
Qed.
(** ... so with exact numbers it never ends when some walk from the start back to it, not reaching the maximum on its way, has a negative sum. *)
Inductive below (es : list (edge Z)) (s : nat) (top : Z) : nat -> Z -> Prop :=
| be_0 : below es s top s 0
| be_S : forall u v d w, below es s top u d -> (d < top)%Z -> against es u v w -> below es s top v (d + w).
Theorem C90_negative_cycle best W srt srt1 n (es : list (edge Z)) g fuel source ntrial top d ds :
  is_sort_by fst srt -> n < W -> ids_ok W es -> length es < W -> apd_graph_of W srt srt1 n es g -> source < csr_size g -> 0 < ntrial ->
  below es source top source d -> (d < 0 < top)%Z ->
  apd_run Z.ltb Z.add 0%Z top best snd W g fuel source ntrial <> Ok ds.
Proof.
  intros Hs Hn He HW Eg So Nt Wd [Hd Ht] E.
  destruct (@C90_when_it_ends Z Z Z.ltb Z.add 0%Z top best W srt srt1 n es g fuel source ntrial ds) as (dist & _ & _ & P0 & P); auto.
  - repeat split; intros *; rewrite ?Z.ltb_ge, ?Z.ltb_lt; lia.
  - now apply Z.ltb_lt.
  - apply Z.ltb_ge in P0. assert (H : forall v d, below es source top v d -> (nth v dist top <= nth source dist top + d)%Z).
    { induction 1 as [|u v d' w B IH Lt A]; [lia|]. specialize (P u v w A). rewrite Z.ltb_lt, Z.ltb_ge in P. lia. }
    specialize (H _ _ Wd). lia.
Qed.

(** ** Examples *)
(** A queue that takes the first of the least. *)
Fixpoint pick {D} (ltb : D -> D -> bool) (i j : nat) (b : D) (Q : list (nat * D)) : nat :=
  match Q with [] => j | x :: r => if ltb (snd x) b then pick ltb (S i) i (snd x) r else pick ltb (S i) j b r end.
Definition first_least {D} (ltb : D -> D -> bool) (Q : list (nat * D)) : nat := match Q with [] => 0 | x :: r => pick ltb 1 0 (snd x) r end.
Lemma first_least_ok D (ltb : D -> D -> bool) : number_order ltb -> takes_least ltb (first_least ltb).
Proof.
  intros (O1 & O2 & O3) Q NE. destruct Q as [|x0 Q]; [congruence|]. cbn [first_least].
  assert (H : forall Q P j x, nth_error (P ++ Q) j = Some x -> j < length P -> (forall y, In y P -> le ltb (snd x) (snd y)) ->
    exists z, nth_error (P ++ Q) (pick ltb (length P) j (snd x) Q) = Some z /\ forall y, In y (P ++ Q) -> le ltb (snd z) (snd y)).
  { clear x0 Q NE. intros Q. induction Q as [|q Q IH]; intros P j x E Lj M; cbn [pick].
    - rewrite app_nil_r in *. eauto.
    - replace (S (length P)) with (length (P ++ [q])) by (rewrite app_length; cbn; lia). replace (P ++ q :: Q) with ((P ++ [q]) ++ Q) in * by (now rewrite <- app_assoc).
      destruct (ltb (snd q) (snd x)) eqn:C.
      + apply IH.
        * rewrite <- app_assoc. rewrite nth_error_app2, Nat.sub_diag by auto. reflexivity.
        * rewrite app_length. cbn. lia.
        * intros y I. apply in_app_or in I. destruct I as [I|[<-|[]]]; [|apply O1]. eapply O2; [apply O3; exact C|now apply M].
      + apply IH; auto; [rewrite app_length; cbn; lia|]. intros y I. apply in_app_or in I. destruct I as [I|[<-|[]]]; auto. }
  destruct (H Q [x0] 0 x0) as (z & Ez & Mz); [reflexivity|cbn; lia|intros y [<-|[]]; apply O1|]. change (length [x0]) with 1 in Ez. change ([x0] ++ Q) with (x0 :: Q) in *.
  split; [apply nth_error_Some; congruence|]. intros x y Ex I. rewrite Ez in Ex. injection Ex as <-. auto.
Qed.
Lemma nat_order : number_order Nat.ltb.
Proof. repeat split; intros *; rewrite ?Nat.ltb_ge, ?Nat.ltb_lt; lia. Qed.
Definition ex_es : list (edge nat) := [(1, 0, 4); (2, 0, 1); (1, 2, 2); (3, 1, 5); (0, 3, 7); (5, 4, 1)].
Definition ex_g {V} (es : list (edge V)) := adjacency_of 100 (isort_by fst) (isort_by (fun x => x)) true S1 (el_build 100 0 es) false.
(** An addition that rounds up to a multiple of three: the hypotheses hold, and the result is the least rounded sum. *)
Definition rounded (a w : nat) : nat := 3 * ((a + w + 2) / 3).
Example ex_rounded_hyp : (forall a b w, a <= b -> rounded a w <= rounded b w) /\ forall a w, a <= rounded a w.
Proof.
  unfold rounded. split; intros.
  - apply Nat.mul_le_mono_l, Nat.div_le_mono; lia.
  - pose proof (Nat.div_mod (a + w + 2) 3 ltac:(lia)). pose proof (Nat.mod_upper_bound (a + w + 2) 3 ltac:(lia)). lia.
Qed.
Definition runs {D} (r : res (csr nat)) (f : csr nat -> res (list (list D))) : res (list D) := do g <- r ; do l <- f g ; Ok (hd [] l).
Example ex_hyp : ids_ok 100 ex_es /\ length ex_es < 100 /\ exists g, ex_g ex_es = Ok g /\ csr_size g = 6.
Proof. split; [intros e [<-|[<-|[<-|[<-|[<-|[<-|[]]]]]]]; cbn; lia|]. split; [cbn; lia|]. eexists. split; vm_compute; reflexivity. Qed.
Example ex_exact : runs (ex_g ex_es) (fun g => apd_run Nat.ltb Nat.add 0 50 (first_least Nat.ltb) snd 100 g 7 0 2) = Ok [0; 3; 1; 8; 50; 50].
Proof. vm_compute. reflexivity. Qed.
Example ex_rounded : runs (ex_g ex_es) (fun g => apd_run Nat.ltb rounded 0 50 (first_least Nat.ltb) snd 100 g 7 0 2) = Ok [0; 6; 3; 12; 50; 50].
Proof. vm_compute. reflexivity. Qed.
(** An edge from 0 back to itself over 1 with sum -1: the loop goes on for ever. *)
Definition ex_neg : list (edge Z) := [(1, 0, 3%Z); (0, 1, (-4)%Z)].
Example ex_negative : below ex_neg 0 1000%Z 0 (0 + 3 + -4)%Z /\ (0 + 3 + -4 < 0)%Z /\ (0 < 1000)%Z /\
  (do g <- ex_g ex_neg ; apd_run Z.ltb Z.add 0%Z 1000%Z (first_least Z.ltb) snd 100 g 60 0 1) = OutOfFuel.
Proof.
  split; [|split; [lia|split; [lia|vm_compute; reflexivity]]].
  apply be_S with (u := 1); [|lia|right; left; reflexivity]. apply be_S with (u := 0); [constructor|lia|left; reflexivity].
Qed.
(** A negative weight without a negative cycle: it may end, and then no edge improves. *)
Example ex_ends : (do g <- ex_g [(1, 0, 3%Z); (2, 1, (-2)%Z)] ; do l <- apd_run Z.ltb Z.add 0%Z 1000%Z (first_least Z.ltb) snd 100 g 60 0 1 ; Ok (hd [] l)) = Ok [0%Z; 3%Z; 1%Z].
Proof. vm_compute. reflexivity. Qed.

Print Assumptions C90_dijkstra.
Print Assumptions C90_no_trial.
Print Assumptions C90_no_such_source.
Print Assumptions C90_when_it_ends.
Print Assumptions C90_negative_cycle.
