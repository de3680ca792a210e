(** C70: the experimental betweenness centrality functions.  The specification ([dependency], [score], [others],
    [normalized], [funnels]) is that of C48 (BcLib.v, BcParProofs2.v, BcProperties.v). *)
From Coq Require Import List Arith ZArith QArith Qcanon Field Lia Bool.
From Verif Require Import Base GraphLib SumLib QcLib BcLib ParBfsModel BcModel BcProofs BcVerProofs BcParProofs BcParProofs2 BcProperties
  XbcModel XbcProofs XbcParProofs XbcParProofs2.
Import ListNotations.
Set Implicit Arguments.
Local Open Scope nat_scope.

(** The scores themselves, or the scores divided by the largest; the latter do not exist when all scores are 0. *)
Definition outcome (normalize : bool) (exact : list Qc) (r : res (list Qc)) : Prop :=
  if normalize then match r with Ok l => normalized exact l | Ub => forall x, In x exact -> x = 0%Qc | OutOfFuel => False end
  else r = Ok exact.
(** Scores that count a source's own contribution to itself, and scores that do not. *)
Definition with_sources (g : list (list nat)) (sources : list nat) : list Qc := map (score g sources) (seq 0 (length g)).
Definition without_sources (g : list (list nat)) (sources : list nat) : list Qc := map (fun v => score g (others v sources) v) (seq 0 (length g)).

Lemma finish_ok normalize l : (forall x, In x l -> (0 <= x)%Qc) -> outcome normalize l (finish normalize l).
Proof.
  intros NN. destruct normalize; [|reflexivity]. cbn [outcome finish]. assert (B := bc_normalize_ok l). unfold bc_normalize in *.
  destruct l as [|x l]; [intros x []|]. destruct (Qc_eq_dec (qmax x l) 0%Qc) as [E|E]; auto.
  intros y I. apply Qcle_antisym; auto. rewrite <- E. now apply qmax_max.
Qed.
Lemma with_nonneg g sources x : In x (with_sources g sources) -> (0 <= x)%Qc.
Proof. intros I. apply in_map_iff in I. destruct I as (v & <- & _). apply score_nonneg. Qed.
Lemma without_nonneg g sources x : In x (without_sources g sources) -> (0 <= x)%Qc.
Proof. intros I. apply in_map_iff in I. destruct I as (v & <- & _). apply score_nonneg. Qed.
Lemma score_cons g s l v : score g (s :: l) v = (dependency g s v + score g l v)%Qc.
Proof. reflexivity. Qed.

(** ** approx_betweenness_brandes *)
Theorem C70_approx g M sources : targets_ok g -> counts_below g M -> (forall s, In s sources -> s < length g) ->
  outcome true (without_sources g sources) (approx_brandes g M sources).
Proof.
  intros T C HS. unfold approx_brandes. destruct (sources_ok T (below_sg T C) sources (repeat 0%Qc (length g))) as (c & -> & L & H); auto; [apply repeat_length|].
  cbn [bind]. replace c with (without_sources g sources); [exact (finish_ok true _ (@without_nonneg g sources))|].
  symmetry. apply nth_eq_map; auto. intros v Lv. rewrite H, nth_repeat by auto. apply Qcplus_0_l.
Qed.
Example C70_approx_ex : show (approx_brandes diamond 256 [0; 1]) = [0; 1; 1; 0]%Q /\ approx_brandes diamond 256 [1] = Ub.
Proof. vm_compute. auto. Qed.

(** ** bc2_v0 and bc2_v1 *)
Lemma sq_roots_ok g vmax M front with_root : targets_ok g -> counts_below g M -> length g <= vmax -> forall sources bc, (forall s, In s sources -> s < length g) -> length bc = length g ->
  exists bc', rfold (sq_root g vmax M front with_root) sources bc = Ok bc' /\ length bc' = length g /\
    forall x, nth x bc' 0%Qc = (nth x bc 0 + score g (if with_root then sources else others x sources) x)%Qc.
Proof.
  intros T C HV. induction sources as [|s sources IH]; intros bc HS Lb.
  - exists bc. split; auto. split; auto. intros x. destruct with_root; cbn; ring.
  - assert (Ls : s < length g) by (apply HS; now left). cbn [rfold].
    destruct (@sq_root_ok g s M vmax T Ls (fun t => below_sg T C t Ls) HV front with_root bc Lb) as (b1 & -> & L1 & H1). cbn [bind].
    destruct (IH b1) as (b2 & E2 & L2 & H2); auto; [intros x X; apply HS; now right|]. exists b2. split; auto. split; auto. intros x. rewrite H2, H1.
    destruct with_root; cbn [orb].
    + rewrite score_cons. unfold dep. ring.
    + cbn [others filter]. rewrite (Nat.eqb_sym s x). destruct (x =? s); cbn [negb]; fold (others x sources); rewrite ?score_cons; unfold dep; ring.
Qed.
(** v0 counts what a source gives itself. *)
Theorem C70_v0 g vmax M sources normalize : targets_ok g -> counts_below g M -> length g <= vmax -> (forall s, In s sources -> s < length g) ->
  outcome normalize (with_sources g sources) (bc2_v0 g vmax M sources normalize).
Proof.
  intros T C HV HS. unfold bc2_v0. destruct (@sq_roots_ok g vmax M true true T C HV sources (repeat 0%Qc (length g)) HS) as (c & -> & L & H); [apply repeat_length|].
  cbn [bind]. replace c with (with_sources g sources); [exact (finish_ok normalize _ (@with_nonneg g sources))|].
  symmetry. apply nth_eq_map; auto. intros v Lv. rewrite H, nth_repeat by auto. apply Qcplus_0_l.
Qed.
(** v1 does not. *)
Theorem C70_v1 g vmax M sources normalize : targets_ok g -> counts_below g M -> length g <= vmax -> (forall s, In s sources -> s < length g) ->
  outcome normalize (without_sources g sources) (bc2_v1 g vmax M sources normalize).
Proof.
  intros T C HV HS. unfold bc2_v1. destruct (@sq_roots_ok g vmax M false false T C HV sources (repeat 0%Qc (length g)) HS) as (c & -> & L & H); [apply repeat_length|].
  cbn [bind]. replace c with (without_sources g sources); [exact (finish_ok normalize _ (@without_nonneg g sources))|].
  symmetry. apply nth_eq_map; auto. intros v Lv. rewrite H, nth_repeat by auto. apply Qcplus_0_l.
Qed.
Definition kite : list (list nat) := [[1; 2]; [3]; [3]; [4]; []].
Example C70_kite : targets_ok kite /\ counts_below kite 256.
Proof. assert (T : targets_ok kite) by (now apply small_targets). split; auto. apply small_counts; auto. Qed.
Example C70_v0_ex : show (bc2_v0 kite 100 256 [0; 1] false) = [4; 3; 1; 2; 0]%Q /\ show (bc2_v0 kite 100 256 [0; 1] true) = [1; 3 # 4; 1 # 4; 1 # 2; 0]%Q /\
  show (bc2_v1 kite 100 256 [0; 1] false) = [0; 1; 1; 2; 0]%Q /\ bc2_v0 kite 100 256 [4] true = Ub.
Proof. vm_compute. auto. Qed.

(** ** bc2_v2 *)
(** At most one shortest path leads from a source to any vertex. *)
Definition unique_paths (g : list (list nat)) (sources : list nat) : Prop := forall s t d, In s sources -> dist g s t d -> cnt g d s t <= 1.
Lemma v2_roots_ok g vmax M (sched : nat -> nat -> nat -> nat) : targets_ok g -> counts_below g M -> length g <= vmax -> forall sources k bc, (forall s, In s sources -> s < length g) -> length bc = length g ->
  (unique_paths g sources \/ forall i l j, l <= length g -> sched i l j = 0) ->
  exists bc', rfold (fun bc ks => v2_root vmax M g (sched (fst ks)) bc (snd ks)) (combine (seq k (length sources)) sources) bc = Ok bc' /\ length bc' = length g /\
    forall x, nth x bc' 0%Qc = (nth x bc 0 + score g (others x sources) x)%Qc.
Proof.
  intros T C HV. induction sources as [|s sources IH]; intros k bc HS Lb U.
  - exists bc. split; auto. split; auto. intros x. cbn. ring.
  - assert (Ls : s < length g) by (apply HS; now left). cbn [length seq combine rfold fst snd].
    destruct (@v2_root_ok g s M vmax T Ls (fun t => below_sg T C t Ls) HV (sched k) bc) as (b1 & -> & L1 & H1); auto.
    { intros l Ll _. destruct U as [U|U]; [left|right; intros i; now apply U]. intros t. unfold sg. destruct (distf g s t) as [d|] eqn:E; [|lia].
      apply (distf_Some _ T Ls) in E. apply U; auto. now left. }
    cbn [bind]. destruct (IH (S k) b1) as (b2 & E2 & L2 & H2); auto; [intros x X; apply HS; now right| |].
    { destruct U as [U|U]; [left|now right]. intros s' t d I. apply U. now right. }
    exists b2. split; auto. split; auto. intros x. rewrite H2, H1. cbn [others filter]. rewrite (Nat.eqb_sym s x). destruct (x =? s); cbn [negb]; fold (others x sources); rewrite ?score_cons; unfold dep; ring.
Qed.
(** path_counts is a plain vector which the tasks of a level read and write without synchronisation.  The result is exact
    for every schedule if no vertex has two shortest paths, and for every graph if the tasks of the forward phase run one
    after the other (the backward phase may run in any order). *)
Theorem C70_v2 g vmax M sched sources normalize : targets_ok g -> counts_below g M -> length g <= vmax -> (forall s, In s sources -> s < length g) ->
  (unique_paths g sources \/ forall i l j, l <= length g -> sched i l j = 0) ->
  outcome normalize (without_sources g sources) (bc2_v2 vmax M g sched sources normalize).
Proof.
  intros T C HV HS U. unfold bc2_v2. destruct (@v2_roots_ok g vmax M sched T C HV sources 0 (repeat 0%Qc (length g)) HS) as (c & -> & L & H); auto; [apply repeat_length|].
  cbn [bind]. replace c with (without_sources g sources); [exact (finish_ok normalize _ (@without_nonneg g sources))|].
  symmetry. apply nth_eq_map; auto. intros v Lv. rewrite H, nth_repeat by auto. apply Qcplus_0_l.
Qed.
(** Otherwise an addition can be lost, and the scores are wrong: here the two paths 0-1-3 and 0-2-3 are counted once. *)
Theorem C70_v2_refuted : exists g vmax M sched sources, targets_ok g /\ counts_below g M /\ length g <= vmax /\ (forall s, In s sources -> s < length g) /\
  exists l, bc2_v2 vmax M g sched sources false = Ok l /\ l <> without_sources g sources.
Proof.
  exists kite, 100, 256, (fun _ _ i => i), [0]. split; [apply C70_kite|]. split; [apply C70_kite|]. split; [cbn; lia|]. split; [intros s [<-|[]]; cbn; lia|].
  destruct (bc2_v2 100 256 kite (fun _ _ i => i) [0] false) as [l| |] eqn:E; [|vm_compute in E; discriminate..]. exists l. split; auto. intros X.
  assert (Y : show (Ok l) = show (Ok (without_sources kite [0]))) by (now rewrite X). rewrite <- E in Y. vm_compute in Y. discriminate.
Qed.
Definition tree5 : list (list nat) := [[1; 2]; [3]; [4]; []; []].
Example C70_v2_hyps : targets_ok tree5 /\ counts_below tree5 256 /\ unique_paths tree5 [0; 1].
Proof.
  assert (T : targets_ok tree5) by (now apply small_targets). split; auto. split; [apply small_counts; auto|].
  intros s t d I D. assert (Ls : s < length tree5) by (destruct I as [<-|[<-|[]]]; cbn; lia). assert (C : counts_below tree5 2) by (apply small_counts; auto).
  assert (X := C s t d Ls D). lia.
Qed.
Example C70_v2_ex :
  show (bc2_v2 100 256 kite (fun _ _ _ => 0) [0; 1] false) = [0; 1; 1; 2; 0]%Q /\
  show (bc2_v2 100 256 kite (fun _ l i => if l <=? 5 then 0 else i) [0; 1] false) = [0; 1; 1; 2; 0]%Q /\
  show (bc2_v2 100 256 kite (fun _ _ i => i) [0; 1] false) = [0; 2; 2; 2; 0]%Q /\
  show (bc2_v2 100 256 tree5 (fun _ _ i => i) [0; 1] false) = [0; 1; 1; 0; 0]%Q.
Proof. vm_compute. auto. Qed.

(** ** bc2_v3 and bc2_v4, every schedule *)
Theorem C70_v3 g vmax M sched sources normalize : targets_ok g -> counts_below g M -> length g <= vmax -> (forall s, In s sources -> s < length g) ->
  outcome normalize (with_sources g sources) (bc2_v3 vmax M g sched sources normalize).
Proof.
  intros T C HV HS. unfold bc2_v3, xb_roots.
  destruct (@xb_roots_ok V3 vmax M 32 false g ltac:(discriminate) T HV ltac:(lia) (below_sg T C) sched sources 0 (repeat 0%Qc (length g)) HS) as (c & -> & L & H); [apply repeat_length|].
  cbn [bind]. replace c with (with_sources g sources); [exact (finish_ok normalize _ (@with_nonneg g sources))|].
  symmetry. apply nth_eq_map; auto. intros v Lv. rewrite H, nth_repeat by auto. apply Qcplus_0_l.
Qed.
(** v4 with an integral type truncates the quotients, as brandes_bc does (C48). *)
Theorem C70_v4 g vmax M nbins integral sched sources normalize : targets_ok g -> counts_below g M -> length g <= vmax -> 0 < nbins -> concat g <> [] ->
  (forall s, In s sources -> s < length g) ->
  outcome normalize (exact_or_floored integral g sources) (bc2_v4 vmax M nbins integral g sched sources normalize).
Proof.
  intros T C HV HB NE HS. unfold bc2_v4, xb_roots. destruct (concat g) eqn:Ec; [congruence|].
  destruct (@xb_roots_ok V4 vmax M nbins integral g ltac:(discriminate) T HV HB (below_sg T C) sched sources 0 (repeat 0%Qc (length g)) HS) as (c & -> & L & H); [apply repeat_length|].
  cbn [bind]. replace c with (exact_or_floored integral g sources).
  - apply finish_ok. intros x I. apply in_map_iff in I. destruct I as (v & <- & _). destruct integral; [|apply score_nonneg].
    induction sources as [|s l' IH]; [apply Qcle_refl|]. cbn [map qsum]. rewrite <- (Qcplus_0_l 0%Qc). apply Qcplus_le_compat; [apply qn_nonneg|].
    clear - l'. induction l' as [|s l' IH]; [apply Qcle_refl|]. cbn [map qsum]. rewrite <- (Qcplus_0_l 0%Qc). apply Qcplus_le_compat; [apply qn_nonneg|auto].
  - symmetry. apply nth_eq_map; auto. intros v Lv. rewrite H, nth_repeat, Qcplus_0_l by auto. destruct integral; reflexivity.
Qed.
(** A graph without arcs: the first arc is read all the same. *)
Theorem C70_v4_no_arcs vmax M nbins integral g sched sources normalize : (forall u v, ~ edge g u v) ->
  bc2_v4 vmax M nbins integral g sched sources normalize = Ub.
Proof.
  intros N. unfold bc2_v4. destruct (concat g) as [|v l] eqn:E; auto. exfalso. assert (I : In v (concat g)) by (rewrite E; now left).
  apply in_concat in I. destruct I as (r & Ir & Iv). apply In_nth with (d := []) in Ir. destruct Ir as (u & _ & <-). now apply (N u v).
Qed.
Example C70_v3_ex :
  show (bc2_v3 100 256 kite (fun a b c => 7 * a + 3 * b + c) [0; 1] false) = [4; 3; 1; 2; 0]%Q /\
  show (bc2_v3 100 256 kite (fun a b c => c) [0; 1] true) = [1; 3 # 4; 1 # 4; 1 # 2; 0]%Q /\
  show (bc2_v4 100 256 4 false kite (fun a b c => 5 * c) [0; 1] false) = [4; 3; 1; 2; 0]%Q /\
  show (bc2_v4 100 256 4 true kite (fun a b c => c) [0; 1] false) = [2; 2; 0; 2; 0]%Q /\
  bc2_v4 100 256 4 false [[]; []] (fun a b c => c) [0] false = Ub.
Proof. vm_compute. auto. Qed.

Print Assumptions C70_approx.
Print Assumptions C70_v0.
Print Assumptions C70_v1.
Print Assumptions C70_v2.
Print Assumptions C70_v2_refuted.
Print Assumptions C70_v3.
Print Assumptions C70_v4.
Print Assumptions C70_v4_no_arcs.
