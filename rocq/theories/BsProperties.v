(** C77: the single-source shortest path benchmark. The specification is SsspLib's [wwalk], [shortest], [wreach],
    [cut_dist] and [no_overflow]. *)
From Coq Require Import List Arith Lia Bool Permutation.
From Verif Require Import Base SsspModel SsspLib SsspProofs SsspProperties BsModel BsProofs.
Import ListNotations.
Set Implicit Arguments.

(** Whatever order the queue hands the vertices out in, the oracle's answer is right: the shortest distances, cut at
    its initial value. *)
Theorem C77_oracle push pop fuel D inf g source :
  hperm push -> hperm pop -> wtargets_ok g -> source < length g -> 0 < inf -> (forall u v w, warc g u v w -> inf + w <= D) ->
  2 * (length g * inf) + 1 <= fuel ->
  exists dist, bs_dijkstra false push pop fuel D inf g source = Ok dist /\ length dist = length g /\
    forall v, v < length g ->
      nth v dist inf <= inf /\
      (nth v dist inf < inf -> shortest g source v (nth v dist inf)) /\
      (nth v dist inf = inf -> forall d, wwalk g source v d -> inf <= d).
Proof.
  intros P1 P2 HT HS HV HD HF. destruct (@bs_dijkstra_ok g source inf D push pop HT HS HV) with (fuel := fuel) as (d & E & L & C); auto.
  - intros u l p v w _ Hl A. specialize (HD u v w A). lia.
  - exists d. auto.
Qed.

(** With the preconditions of the heap operations checked, an answer is right whenever there is one. *)
Theorem C77_oracle_strict push pop fuel D inf g source dist :
  hperm push -> hperm pop -> wtargets_ok g -> source < length g -> 0 < inf -> (forall u v w, warc g u v w -> inf + w <= D) ->
  2 * (length g * inf) + 1 <= fuel -> bs_dijkstra true push pop fuel D inf g source = Ok dist -> cut_dist g source inf dist.
Proof.
  intros P1 P2 HT HS HV HD HF E. apply dijkstra_strict in E.
  destruct (@C77_oracle push pop fuel D inf g source P1 P2 HT HS HV HD HF) as (d & E' & L & C). replace dist with d by congruence. split; auto.
Qed.

(** But they are not kept: on the graph 0 -1-> 1, 0 -5-> 2, 0 -9-> 3, 1 -1-> 3 every implementation of the heap calls
    is handed an array that is no heap (vertex 3 is in the queue when its distance drops from 9 to 2). *)
Definition gheap : wgraph := [[(1, 1); (2, 5); (3, 9)]; [(3, 1)]; []; []].
Theorem C77_queue_refuted push pop fuel D inf : push_heap_ok push -> pop_heap_ok pop -> 9 < inf -> inf <= D ->
  bs_dijkstra true push pop (S (S fuel)) D inf gheap 0 = Ub.
Proof.
  intros HP HO HI HD.
  assert (P0 : forall d v, push d [v] = [v]).
  { intros d v. destruct (HP d [] v eq_refl) as (P & _). simpl in P. apply Permutation_length_1_inv in P. exact P. }
  assert (O0 : forall d u, bs_is_heap d [u] = true) by reflexivity.
  assert (O1 : forall d, pop d [] = []). { intros d. destruct (HO d 0 [] eq_refl) as (P & _). now apply Permutation_nil in P. }
  unfold bs_dijkstra, gheap. cbn [length repeat]. unfold bs_emplace at 1. cbn [bs_is_heap length seq forallb negb andb app Nat.sub]. rewrite P0. cbn [bind vset length Nat.ltb Nat.leb upd].
  cbn [bs_loop fst snd bs_pop]. rewrite O0. cbn [negb andb bind fst snd vget nth_error]. rewrite O1.
  cbn [rfold]. unfold bs_relax at 1. cbn [fst snd vget nth_error bind]. rewrite Nat.mod_small by lia. cbn [Nat.add]. destruct (Nat.ltb_spec 1 inf); [|lia].
  cbn [vset length Nat.ltb Nat.leb upd bind]. unfold bs_emplace at 1. cbn [bs_is_heap length seq forallb negb andb app Nat.sub]. rewrite P0. cbn [bind].
  unfold bs_relax at 1. cbn [fst snd vget nth_error bind]. rewrite Nat.mod_small by lia. cbn [Nat.add]. destruct (Nat.ltb_spec 5 inf); [|lia].
  cbn [vset length Nat.ltb Nat.leb upd bind]. unfold bs_emplace at 1. rewrite O0. cbn [negb andb bind app].
  set (d1 := [0; 1; 5; inf]).
  destruct (HP d1 [1] 2 (O0 _ _)) as (Pa & Ha). simpl app in Pa, Ha. destruct (Permutation_length_2_inv Pa) as [E|E]; rewrite E in *; [|cbv in Ha; discriminate].
  unfold bs_relax at 1. cbn [fst snd vget nth_error bind d1]. unfold d1. cbn [nth_error]. rewrite Nat.mod_small by lia. cbn [Nat.add]. destruct (Nat.ltb_spec 9 inf); [|lia].
  cbn [vset length Nat.ltb Nat.leb upd bind]. unfold bs_emplace at 1. set (d2 := [0; 1; 5; 9]).
  assert (H12 : bs_is_heap d2 [1; 2] = true) by reflexivity. rewrite H12. cbn [negb andb bind app].
  destruct (HP d2 [1; 2] 3 H12) as (Pb & Hb). simpl app in Pb, Hb.
  assert (C3 : push d2 [1; 2; 3] = [1; 2; 3] \/ push d2 [1; 2; 3] = [1; 3; 2]).
  { destruct (push d2 [1; 2; 3]) as [|a [|b [|c [|e r]]]] eqn:EP; try (apply Permutation_length in Pb; simpl in Pb; lia).
    assert (Ia : In a [1; 2; 3]) by (eapply Permutation_in; [apply Permutation_sym; exact Pb|now left]).
    assert (Ib : In b [1; 2; 3]) by (eapply Permutation_in; [apply Permutation_sym; exact Pb|right; now left]).
    assert (Ic : In c [1; 2; 3]) by (eapply Permutation_in; [apply Permutation_sym; exact Pb|right; right; now left]).
    assert (ND : NoDup [a; b; c]) by (eapply Permutation_NoDup; [exact Pb|repeat constructor; simpl; intuition lia]).
    inversion ND as [|? ? N1 ND1]; subst. inversion ND1 as [|? ? N2 _]; subst. simpl in N1, N2.
    simpl in Ia, Ib, Ic. destruct Ia as [<-|[<-|[<-|[]]]]; destruct Ib as [<-|[<-|[<-|[]]]]; destruct Ic as [<-|[<-|[<-|[]]]]; try (exfalso; tauto); auto; cbv in Hb; discriminate. }
  assert (GO : forall r, (r = [2; 3] \/ r = [3; 2]) -> bs_is_heap d2 (1 :: r) = true -> pop d2 r = [2; 3]).
  { intros r Hr Hh. destruct (HO d2 1 r Hh) as (Pc & Hc). destruct Hr as [->| ->]; destruct (Permutation_length_2_inv Pc) as [E'|E']; rewrite E' in *; auto; cbv in Hc; discriminate. }
  assert (X : exists r, push d2 [1; 2; 3] = 1 :: r /\ (r = [2; 3] \/ r = [3; 2])) by (destruct C3 as [->| ->]; eexists; split; eauto).
  destruct X as (r & EP & Hr). rewrite EP in *. cbn [fst snd bs_pop]. rewrite Hb. cbn [negb andb bind fst snd vget nth_error]. rewrite (GO r Hr Hb).
  cbn [rfold]. unfold bs_relax at 1. unfold d2 at 1 2. cbn [fst snd vget nth_error bind]. rewrite Nat.mod_small by lia. cbn [Nat.add Nat.ltb Nat.leb].
  reflexivity.
Qed.

(** ** SSSPVerifier *)
(** An answer with one entry per vertex is accepted exactly if it is the list of shortest distances cut at max / 4. *)
Theorem C77_verifier push pop fuel D inf g source verbose dist :
  hperm push -> hperm pop -> wtargets_ok g -> source < length g -> 0 < inf -> (forall u v w, warc g u v w -> inf + w <= D) ->
  2 * (length g * inf) + 1 <= fuel -> length dist = length g ->
  exists b, sssp_verifier push pop fuel D inf g source verbose dist = Ok b /\ (b = true <-> cut_dist g source inf dist).
Proof.
  intros P1 P2 HT HS HV HD HF HL. destruct (@C77_oracle push pop fuel D inf g source P1 P2 HT HS HV HD HF) as (o & E & L & C).
  assert (CO : cut_dist g source inf o) by (split; auto).
  unfold sssp_verifier. rewrite E. cbn [bind]. destruct (@equal3_spec dist o ltac:(lia)) as (b & E3 & Q). rewrite E3. cbn [bind].
  assert (QQ : b = true <-> cut_dist g source inf dist).
  { rewrite Q. split.
    - intros H. replace dist with o; auto. symmetry. apply nth_ext with (d := 0) (d' := 0); [lia|]. intros v Hv. now apply H.
    - intros CD d v Hv. now rewrite (cut_fun CD CO). }
  exists b. split; auto. destruct b; auto. replace (length o <? length dist) with false by (symmetry; apply Nat.ltb_ge; lia). now rewrite andb_false_r.
Qed.

(** Answers of another length: only the entries that are there are compared. A proper prefix of the right answer (the
    empty one, say) is accepted; the right answer with anything after it is read past the end of the oracle. *)
Theorem C77_verifier_length push pop fuel D inf g source verbose dist oracle :
  hperm push -> hperm pop -> wtargets_ok g -> source < length g -> 0 < inf -> (forall u v w, warc g u v w -> inf + w <= D) ->
  2 * (length g * inf) + 1 <= fuel -> cut_dist g source inf oracle ->
  ((exists k, dist = firstn k oracle) -> sssp_verifier push pop fuel D inf g source verbose dist = Ok true) /\
  ((exists x l, dist = oracle ++ x :: l) -> sssp_verifier push pop fuel D inf g source verbose dist = Ub).
Proof.
  intros P1 P2 HT HS HV HD HF CO. destruct (@C77_oracle push pop fuel D inf g source P1 P2 HT HS HV HD HF) as (o & E & L & C).
  replace o with oracle in * by (eapply cut_fun; [exact CO|split; auto]). unfold sssp_verifier. rewrite E. cbn [bind]. split.
  - intros (k & ->). destruct (@equal3_spec (firstn k oracle) oracle) as (b & E3 & Q); [rewrite firstn_length; lia|].
    rewrite E3. cbn [bind]. replace b with true; auto. symmetry. apply Q. intros d v Hv. rewrite firstn_length in Hv.
    rewrite <- (firstn_skipn k oracle) at 2. rewrite app_nth1; auto. rewrite firstn_length. auto.
  - intros (x & l & ->). rewrite equal3_long; auto.
    + rewrite app_length. simpl. lia.
    + intros d v Hv. now rewrite app_nth1.
Qed.

(** ** The versions *)
(** Version 0 (delta_stepping) marks unreachable vertices with max, the oracle with max / 4: although the distances are
    right (C33), the run is reported as failed unless every vertex can be reached from the source. *)
Theorem C77_delta_stepping push pop fuel D inf dmax g source delta verbose :
  hperm push -> hperm pop -> wtargets_ok g -> source < length g -> 0 < inf -> inf < dmax -> dmax <= D ->
  (forall u v w, warc g u v w -> inf + w <= D) -> no_overflow g source inf -> 0 < delta -> 2 * (length g * dmax) + 1 <= fuel ->
  exists b, sssp_bench push pop fuel D inf dmax g source delta verbose 0 = Some (Ok b) /\
    (b = true <-> forall v, v < length g -> wreach g source v).
Proof.
  intros P1 P2 HT HS HV HM HMD HD NO Hd HF.
  destruct (@C33_delta_stepping_shortest fuel D dmax g source delta) as (dist & E & L & C); auto; [lia|intros u l p v w SP A; specialize (NO u l p v w SP A); lia|].
  cbn [sssp_bench]. rewrite E. cbn [bind].
  assert (HF' : 2 * (length g * inf) + 1 <= fuel) by (assert (length g * inf <= length g * dmax) by (apply Nat.mul_le_mono_l; lia); lia).
  destruct (@C77_verifier push pop fuel D inf g source verbose dist P1 P2 HT HS HV HD HF' L) as (b & EV & Q).
  rewrite EV. exists b. split; auto. rewrite Q. clear EV Q.
  assert (NV : forall v, v < length g -> nth v dist inf = nth v dist dmax) by (intros v Hv; apply nth_indep; lia).
  split.
  - intros (_ & CD) v Hv. destruct (CD v Hv) as (A & B & _). rewrite NV in * by auto. destruct (Nat.eq_dec (nth v dist dmax) inf) as [EQ|NE].
    + (* the entry is inf < dmax, so delta_stepping reached v *)
      destruct (C v Hv) as (_ & C2). (* decide reachability through the entry *)
      assert (DEC : ~ ~ wreach g source v) by (intros N; specialize (C2 N); lia).
      exfalso. apply DEC. intros (d & W). destruct (C v Hv) as (C1 & _). destruct (C1 (ex_intro _ d W)) as ((W' & _) & _).
      destruct (wreach_spath W) as (l & p & SP). assert (X := spath_below HV NO SP).
      assert (Y := proj2 (proj1 (C1 (ex_intro _ d W))) _ (spath_wwalk SP _ _ (or_introl eq_refl))). lia.
    + exists (nth v dist dmax). apply B. lia.
  - intros R. split; auto. intros v Hv. rewrite NV by auto. destruct (C v Hv) as (C1 & _). destruct (C1 (R v Hv)) as (SH & _).
    destruct (R v Hv) as (d & W). destruct (wreach_spath W) as (l & p & SP). assert (X := spath_below HV NO SP).
    assert (Y := proj2 SH _ (spath_wwalk SP _ _ (or_introl eq_refl))). split; [lia|]. split; auto. intros EQ. lia.
Qed.

(** Version 1 (delta_stepping_m1) is reported as failed on every graph with a second vertex. *)
Theorem C77_m1 push pop fuel D inf dmax g source delta verbose :
  hperm push -> hperm pop -> wtargets_ok g -> source < length g -> 1 < length g -> 0 < inf -> inf < dmax ->
  (forall u v w, warc g u v w -> inf + w <= D) -> 2 * (length g * inf) + 1 <= fuel ->
  sssp_bench push pop fuel D inf dmax g source delta verbose 1 = Some (Ok false).
Proof.
  intros P1 P2 HT HS HN HV HM HD HF. destruct fuel as [|fuel]; [lia|].
  destruct (@C34_m1_never_relaxes fuel D dmax g source HS) as (dist & E & L & C). cbn [sssp_bench]. rewrite E. cbn [bind].
  destruct (@C77_verifier push pop (S fuel) D inf g source verbose dist P1 P2 HT HS HV HD HF L) as (b & EV & Q). rewrite EV.
  destruct b; auto. exfalso. destruct (proj1 Q eq_refl) as (_ & CD).
  assert (X : exists v, v < length g /\ v <> source) by (destruct source; [exists 1|exists 0]; split; lia). destruct X as (v & Hv & NE).
  destruct (CD v Hv) as (A & _). rewrite (@nth_indep _ dist v inf dmax) in A by lia. rewrite C in A by auto. destruct (Nat.eqb_spec v source); [congruence|lia].
Qed.

(** Version 13 (the oracle itself) and unknown versions always pass. *)
Theorem C77_passes push pop fuel D inf dmax g source delta verbose id :
  hperm push -> hperm pop -> wtargets_ok g -> source < length g -> 0 < inf -> (forall u v w, warc g u v w -> inf + w <= D) ->
  2 * (length g * inf) + 1 <= fuel -> id = 13 \/ ~ In id [0; 1; 6; 8; 9; 10; 11; 12; 13] ->
  sssp_bench push pop fuel D inf dmax g source delta verbose id = Some (Ok true).
Proof.
  intros P1 P2 HT HS HV HD HF [->|NI].
  - cbn [sssp_bench]. destruct (@C77_oracle push pop fuel D inf g source P1 P2 HT HS HV HD HF) as (o & E & L & C).
    destruct (@C77_verifier push pop fuel D inf g source verbose o P1 P2 HT HS HV HD HF L) as (b & EV & Q). rewrite E. cbn [bind]. rewrite EV.
    replace b with true; auto. symmetry. apply Q. split; auto.
  - assert (X : forall k, id = k -> In k [0; 1; 6; 8; 9; 10; 11; 12; 13] -> False) by (intros k -> I; auto). clear NI.
    do 14 (destruct id as [|id]; [first [reflexivity | exfalso; apply (X _ eq_refl); simpl; tauto]|]). reflexivity.
Qed.

(** ** The sources read by main *)
Lemma used_len sources trials iterations l : sssp_used sources trials iterations = Ok l -> 0 < trials -> 0 < iterations -> trials * iterations <= length sources.
Proof.
  unfold sssp_used. intros E HT HI.
  assert (G : forall ks l', rmap (vget sources) ks = Ok l' -> forall k, In k ks -> k < length sources).
  { induction ks as [|a ks IH]; intros l' H k I; [destruct I|]. simpl in H. apply bind_Ok in H. destruct H as (y & E1 & H). apply bind_Ok in H. destruct H as (ys & E2 & _).
    destruct I as [<-|I]; [|eauto]. destruct (Nat.lt_ge_cases a (length sources)); auto. unfold vget in E1. rewrite (proj2 (nth_error_None _ _)) in E1 by auto. discriminate. }
  specialize (G _ _ E ((trials - 1) * iterations + (iterations - 1))).
  assert (I : In ((trials - 1) * iterations + (iterations - 1)) (flat_map (fun i => map (fun j => i * iterations + j) (seq 0 iterations)) (seq 0 trials))).
  { apply in_flat_map. exists (trials - 1). split; [apply in_seq; lia|]. apply in_map_iff. exists (iterations - 1). split; auto. apply in_seq. lia. }
  specialize (G I). assert (trials * iterations = (trials - 1) * iterations + iterations) by (destruct trials; simpl; lia). lia.
Qed.
(** The runs read the first trials * iterations entries in order, so the list has to be that long. *)
Theorem C77_sources sources trials iterations : 0 < trials -> 0 < iterations ->
  (trials * iterations <= length sources -> sssp_used sources trials iterations = Ok (firstn (trials * iterations) sources)) /\
  (length sources < trials * iterations -> forall l, sssp_used sources trials iterations <> Ok l).
Proof.
  intros HT HI. split.
  - intros HL. unfold sssp_used.
    assert (FM : forall t, flat_map (fun i => map (fun j => i * iterations + j) (seq 0 iterations)) (seq 0 t) = seq 0 (t * iterations)).
    { induction t as [|t IH]; auto. rewrite seq_S, flat_map_app, IH. cbn [flat_map Nat.add]. rewrite app_nil_r. replace (S t * iterations) with (t * iterations + iterations) by (simpl; lia).
      rewrite seq_app. f_equal. cbn [Nat.add]. generalize (t * iterations) as a. intros a. clear. revert a. induction iterations as [|m IH]; intros a; auto. rewrite !seq_S, map_app, IH. auto. }
    rewrite FM. rewrite (@rmap_ok _ _ _ (fun k => nth k sources 0)).
    + f_equal. apply nth_ext with (d := 0) (d' := 0).
      * rewrite map_length, seq_length, firstn_length. lia.
      * intros k Hk. rewrite map_length, seq_length in Hk. rewrite (nth_indep _ 0 (nth 0 sources 0)) by (now rewrite map_length, seq_length).
        rewrite (map_nth (fun k => nth k sources 0)), seq_nth by auto. cbn [Nat.add]. rewrite <- (firstn_skipn (trials * iterations) sources) at 1.
        rewrite app_nth1; auto. rewrite firstn_length. lia.
    + intros k I. apply in_seq in I. apply vget_nth. lia.
  - intros HL l E. assert (X := @used_len _ _ _ _ E HT HI). lia.
Qed.
(** With -r (or random sources) only [trials] entries are made: asking for more than one iteration reads out of range. *)
Theorem C77_sources_iterations r trials iterations : 0 < trials -> 1 < iterations -> forall l, sssp_used (repeat r trials) trials iterations <> Ok l.
Proof.
  intros HT HI. apply C77_sources; try lia. rewrite repeat_length.
  assert (trials * 2 <= trials * iterations) by (apply Nat.mul_le_mono_l; lia). lia.
Qed.

(** ** Examples *)
Definition idh : hop := fun _ q => q.
Lemma idh_perm : hperm idh. Proof. intros d q. apply Permutation_refl. Qed.
Definition gs : wgraph := [[(1, 4); (2, 1)]; [(3, 1)]; [(1, 2)]; []; [(0, 1)]].
Example ex_oracle_fifo : bs_dijkstra false idh idh 300 100 30 gs 0 = Ok [0; 3; 1; 4; 30]. Proof. reflexivity. Qed.
Definition revh : hop := fun _ q => rev q.
Example ex_oracle_rev : bs_dijkstra false revh revh 300 100 30 gs 0 = Ok [0; 3; 1; 4; 30]. Proof. reflexivity. Qed.
Example ex_delta_rejected : sssp_bench idh idh 1000 100 30 99 gs 0 3 true 0 = Some (Ok false). Proof. reflexivity. Qed.
Example ex_delta_accepted : sssp_bench idh idh 1000 100 30 99 gs 4 3 true 0 = Some (Ok true). Proof. reflexivity. Qed.
(** The hypotheses of C77_delta_stepping hold for this graph. *)
Example ex_delta_hyp : wtargets_ok gs /\ no_overflow gs 0 30 /\ (forall u v w, warc gs u v w -> 30 + w <= 100).
Proof.
  assert (T : forall u v w, warc gs u v w -> v < 5 /\ w <= 4).
  { intros u v w A. unfold warc, gs in A. do 5 (destruct u as [|u]; [simpl in A; repeat (destruct A as [A|A]; [injection A as <- <-; lia|]); destruct A|]). destruct u; destruct A. }
  split; [intros u v w A; now apply (T u v w)|]. split.
  - apply C33_no_overflow_from_weights with (wmax := 4); [intros u v w A; now apply (T u v w)|simpl; lia|intros u v w A; now apply (T u v w)|simpl; lia].
  - intros u v w A. specialize (T u v w A). lia.
Qed.
Example ex_m1_rejected : sssp_bench idh idh 1000 100 30 99 gs 0 3 false 1 = Some (Ok false). Proof. reflexivity. Qed.
(** A heap implementation as in C77_queue_refuted: insertion sort by distance. *)
Fixpoint ins (dist : list nat) (v : nat) (q : list nat) : list nat :=
  match q with [] => [v] | x :: r => if nth v dist 0 <=? nth x dist 0 then v :: q else x :: ins dist v r end.
Definition sorth : hop := fun dist q => fold_right (ins dist) [] q.
Lemma ins_perm d v q : Permutation (v :: q) (ins d v q).
Proof. induction q as [|x q IH]; simpl; auto. destruct (_ <=? _); auto. eapply perm_trans; [apply perm_swap|]. now constructor. Qed.
Lemma sorth_perm : hperm sorth.
Proof. intros d q. induction q as [|x q IH]; simpl; auto. eapply perm_trans; [apply perm_skip, IH|apply ins_perm]. Qed.
Lemma ins_sorted d v q : (forall i j, i <= j -> j < length q -> nth (nth i q 0) d 0 <= nth (nth j q 0) d 0) ->
  forall i j, i <= j -> j < length (ins d v q) -> nth (nth i (ins d v q) 0) d 0 <= nth (nth j (ins d v q) 0) d 0.
Proof.
  induction q as [|x q IH]; intros HS i j Hi Hj.
  - simpl in *. destruct j; [|lia]. destruct i; [auto|lia].
  - cbn [ins] in *. destruct (Nat.leb_spec (nth v d 0) (nth x d 0)) as [LE|GT].
    + destruct i as [|i], j as [|j]; try lia; [|simpl; apply HS; simpl in *; lia].
      cbn [nth]. specialize (HS 0 j ltac:(lia) ltac:(simpl in *; lia)). cbn [nth] in HS. lia.
    + assert (HS' : forall i j, i <= j -> j < length q -> nth (nth i q 0) d 0 <= nth (nth j q 0) d 0) by (intros a b A B; apply (HS (S a) (S b)); simpl; lia).
      destruct i as [|i], j as [|j]; try lia; [|simpl; apply IH; auto; simpl in *; lia]. cbn [nth].
      assert (I : In (nth j (ins d v q) 0) (v :: q)) by (eapply Permutation_in; [apply Permutation_sym, ins_perm|apply nth_In; simpl in Hj; lia]).
      destruct I as [<-|I]; [lia|]. destruct (In_nth _ _ 0 I) as (k & Hk & <-). apply (HS 0 (S k)); simpl; lia.
Qed.
Lemma sorth_heap d q : bs_is_heap d (sorth d q) = true.
Proof.
  assert (HS : forall i j, i <= j -> j < length (sorth d q) -> nth (nth i (sorth d q) 0) d 0 <= nth (nth j (sorth d q) 0) d 0).
  { induction q as [|x q IH]; simpl; [intros; lia|]. apply ins_sorted; auto. }
  unfold bs_is_heap. apply forallb_forall. intros i I. apply in_seq in I. unfold bs_comp. apply negb_true_iff, Nat.ltb_ge. apply HS; [|lia].
  assert ((i - 1) / 2 <= i - 1) by (apply Nat.div_le_upper_bound; lia). lia.
Qed.
Example ex_heap_impl : push_heap_ok sorth /\ pop_heap_ok sorth.
Proof. split; [intros d q v _|intros d u q _]; (split; [apply sorth_perm|apply sorth_heap]). Qed.
Example ex_queue : bs_dijkstra true sorth sorth 5 1000 100 gheap 0 = Ub. Proof. reflexivity. Qed.
Example ex_queue_lax : bs_dijkstra false sorth sorth 500 1000 100 gheap 0 = Ok [0; 1; 5; 2]. Proof. reflexivity. Qed.
Example ex_queue_kept : bs_dijkstra true sorth sorth 500 1000 100 gs 0 = Ok [0; 3; 1; 4; 100]. Proof. reflexivity. Qed.
Example ex_used : sssp_used [7; 8; 9; 10] 2 2 = Ok [7; 8; 9; 10] /\ sssp_used [7; 8] 2 2 = Ub. Proof. split; reflexivity. Qed.
(** The array counts as a heap exactly when no element is further away than one of its two children, the usual layout: so the calls
    that C77_queue_undefined is about break the precondition of push_heap and pop_heap. *)
Theorem C77_heap : forall dist q, bs_is_heap dist q = true <->
  forall i c, c = 2 * i + 1 \/ c = 2 * i + 2 -> c < length q -> nth (nth i q 0) dist 0 <= nth (nth c q 0) dist 0.
Proof.
  intros dist q. unfold bs_is_heap. rewrite forallb_forall. unfold bs_comp. split.
  - intros H i c E L. assert (X : (c - 1) / 2 = i).
    { destruct E as [-> | ->]; [replace (2 * i + 1 - 1) with (i * 2) by lia; apply Nat.div_mul; lia|].
      replace (2 * i + 2 - 1) with (1 + i * 2) by lia. rewrite Nat.div_add by lia. reflexivity. }
    specialize (H c ltac:(apply in_seq; lia)). rewrite X in H. now apply negb_true_iff, Nat.ltb_ge in H.
  - intros H c I. apply in_seq in I. apply negb_true_iff, Nat.ltb_ge. apply H; [|lia].
    pose proof (Nat.div_mod (c - 1) 2 ltac:(lia)). pose proof (Nat.mod_upper_bound (c - 1) 2 ltac:(lia)). lia.
Qed.

Print Assumptions C77_oracle.
Print Assumptions C77_oracle_strict.
Print Assumptions C77_queue_refuted.
Print Assumptions C77_verifier.
Print Assumptions C77_verifier_length.
Print Assumptions C77_delta_stepping.
Print Assumptions C77_m1.
Print Assumptions C77_passes.
Print Assumptions C77_sources.
Print Assumptions C77_sources_iterations.
Print Assumptions C77_heap.
