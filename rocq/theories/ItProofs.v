(** Proofs about the counting and the permuting iterators. *)
From Coq Require Import List Arith Lia Bool Permutation.
From Verif Require Import ItModel Base.
Import ListNotations.
Set Implicit Arguments.

(** How often counter [c] is assigned to, by all threads. *)
Definition writes (c : nat) (work : list (list nat)) : nat := count_occ Nat.eq_dec (concat work) c.
Definition in_range (n : nat) (work : list (list nat)) : Prop := forall w c, In w work -> In c w -> c < n.

Lemma nth_error_upd X (l : list X) t y k : nth_error (upd l t y) k = if (k =? t) && (t <? length l) then Some y else nth_error l k.
Proof.
  revert t k. induction l as [|x l IH]; intros t k; [destruct t; cbn; now rewrite andb_false_r|].
  destruct t as [|t], k as [|k]; cbn; auto. rewrite IH. change (S t <? S (length l)) with (t <? length l). reflexivity.
Qed.
Lemma sum_upd X (f : X -> nat) l t x y : nth_error l t = Some x -> list_sum (map f (upd l t y)) + f x = list_sum (map f l) + f y.
Proof.
  revert t. induction l as [|z l IH]; intros [|t] E; try discriminate; cbn [upd map nth_error] in *.
  - injection E as ->. unfold list_sum. cbn. lia.
  - specialize (IH t E). unfold list_sum in *. cbn in *. lia.
Qed.

(** What a thread has still to add to [c]. *)
Definition pend (c : nat) (th : thread) : nat := count_occ Nat.eq_dec (match at_ th with Stored => tl (todo th) | _ => todo th end) c.
Definition pends c s := list_sum (map (pend c) (threads s)).
Record inv (W : nat) (cs : list nat) (work : list (list nat)) (s : pstate) : Prop := {
  v_len : length (counts s) = length cs; v_ths : length (threads s) = length work;
  v_work : forall i th c, nth_error (threads s) i = Some th -> In c (todo th) -> c < length cs;
  v_lock : forall i th, nth_error (threads s) i = Some th -> at_ th <> Outside -> locked s = Some i /\ todo th <> [];
  v_held : forall i, locked s = Some i -> exists th, nth_error (threads s) i = Some th /\ at_ th <> Outside;
  v_load : forall i th v c r, nth_error (threads s) i = Some th -> at_ th = Loaded v -> todo th = c :: r -> nth c (counts s) 0 = v;
  v_small : forall c, c < length cs -> nth c (counts s) 0 < W;
  v_sum : forall c, c < length cs -> (nth c (counts s) 0 + pends c s) mod W = (nth c cs 0 + writes c work) mod W }.
Lemma inv_start W cs work : (forall c, c < length cs -> nth c cs 0 < W) -> in_range (length cs) work -> inv W cs work (par_start cs work).
Proof.
  intros HS HR. assert (Q : forall i th, nth_error (threads (par_start cs work)) i = Some th -> exists w, In w work /\ th = mkTh w Outside).
  { intros i th E. cbn in E. rewrite nth_error_map in E. destruct (nth_error work i) as [w|] eqn:F; [|discriminate]. injection E as <-. exists w. split; auto. eapply nth_error_In; eauto. }
  constructor; cbn [counts par_start locked]; auto.
  - apply map_length.
  - intros i th c E I. destruct (Q i th E) as (w & J & ->). eapply HR; eauto.
  - intros i th E N. destruct (Q i th E) as (w & J & ->). now destruct N.
  - discriminate.
  - intros i th v c r E A. destruct (Q i th E) as (w & J & ->). discriminate.
  - intros c L. f_equal. f_equal. unfold pends, writes, par_start. cbn [threads]. clear. induction work as [|w work IH]; [reflexivity|]. cbn [map concat]. rewrite count_occ_app, <- IH. reflexivity.
Qed.
Lemma inv_step W cs work s t : 0 < W -> inv W cs work s -> exists s', par_step W s t = Ok s' /\ inv W cs work s'.
Proof.
  intros HW V. assert (V0 := V). destruct V as [A B C D H F S0 M]. unfold par_step. destruct (nth_error (threads s) t) as [th|] eqn:E; [|eauto].
  destruct (todo th) as [|c r] eqn:T; [eauto|]. assert (Lt : t < length (threads s)) by (apply nth_error_Some; congruence).
  assert (CL : c < length cs) by (apply (C t th c E); rewrite T; now left).
  assert (G : forall y k, nth_error (upd (threads s) t y) k = if k =? t then Some y else nth_error (threads s) k).
  { intros y k. rewrite nth_error_upd. replace (t <? length (threads s)) with true by (symmetry; now apply Nat.ltb_lt). now rewrite andb_true_r. }
  assert (U : forall y c', list_sum (map (pend c') (upd (threads s) t y)) + pend c' th = pends c' s + pend c' y) by (intros; now apply sum_upd).
  destruct (at_ th) as [| |v|] eqn:P.
  - destruct (locked s) as [o|] eqn:LK; [eauto|]. eexists. split; [reflexivity|]. constructor; cbn [counts threads locked]; auto.
    + now rewrite upd_length.
    + intros i y c' E' I. rewrite G in E'. destruct (i =? t); [injection E' as <-; apply (C t th c' E); rewrite T; exact I|eauto].
    + intros i y E' N. rewrite G in E'. destruct (Nat.eqb_spec i t) as [->|X]; [injection E' as <-; split; [reflexivity|discriminate]|]. destruct (D i y E' N). congruence.
    + intros i [= <-]. exists (mkTh (c :: r) Inside). rewrite G, Nat.eqb_refl. split; [reflexivity|discriminate].
    + intros i y v c' r' E' P' T'. rewrite G in E'. destruct (i =? t); [injection E' as <-; discriminate|eauto].
    + intros c' L. rewrite <- (M c' L). f_equal. f_equal. unfold pends at 1. cbn [threads]. specialize (U (mkTh (c :: r) Inside) c'). unfold pend in U at 2 3. rewrite P in U. cbn [at_ todo] in U. rewrite T in U. lia.
  - destruct (D t th E ltac:(congruence)) as [LK _]. rewrite (@vget_nth _ (counts s) c 0) by lia. cbn [bind]. eexists. split; [reflexivity|]. constructor; cbn [counts threads locked]; auto.
    + now rewrite upd_length.
    + intros i y c' E' I. rewrite G in E'. destruct (i =? t); [injection E' as <-; apply (C t th c' E); rewrite T; exact I|eauto].
    + intros i y E' N. rewrite G in E'. destruct (Nat.eqb_spec i t) as [->|X]; [injection E' as <-; split; [exact LK|discriminate]|]. eauto.
    + intros i LK'. destruct (Nat.eqb_spec i t) as [->|X]; [|congruence]. eexists. rewrite G, Nat.eqb_refl. split; [reflexivity|discriminate].
    + intros i y v c' r' E' P' T'. rewrite G in E'. destruct (i =? t); [injection E' as <-|eauto]. cbn in P', T'. congruence.
    + intros c' L. rewrite <- (M c' L). f_equal. f_equal. unfold pends at 1. cbn [threads]. specialize (U (mkTh (c :: r) (Loaded (nth c (counts s) 0))) c'). unfold pend in U at 2 3. rewrite P in U. cbn [at_ todo] in U. rewrite T in U. lia.
  - destruct (D t th E ltac:(congruence)) as [LK _]. assert (Fv := F t th v c r E P T). rewrite vset_lt by lia. cbn [bind]. eexists. split; [reflexivity|].
    assert (O : forall i y, nth_error (threads s) i = Some y -> i <> t -> at_ y = Outside) by (intros i y E' X; destruct (at_ y) eqn:Q; auto; destruct (D i y E' ltac:(congruence)); congruence).
    constructor; cbn [counts threads locked]; auto.
    + now rewrite upd_length.
    + now rewrite upd_length.
    + intros i y c' E' I. rewrite G in E'. destruct (i =? t); [injection E' as <-; apply (C t th c' E); rewrite T; exact I|eauto].
    + intros i y E' N. rewrite G in E'. destruct (Nat.eqb_spec i t) as [->|X]; [injection E' as <-; split; [exact LK|discriminate]|]. eauto.
    + intros i LK'. destruct (Nat.eqb_spec i t) as [->|X]; [|congruence]. eexists. rewrite G, Nat.eqb_refl. split; [reflexivity|discriminate].
    + intros i y v' c' r' E' P' T'. rewrite G in E'. destruct (Nat.eqb_spec i t) as [->|X]; [injection E' as <-; discriminate|]. rewrite (O i y E' X) in P'. discriminate.
    + intros c' L. rewrite nth_upd by lia. destruct (c' =? c); [apply Nat.mod_upper_bound; lia|auto].
    + intros c' L. rewrite <- (M c' L). unfold pends at 1. cbn [threads]. specialize (U (mkTh (c :: r) Stored) c'). unfold pend in U at 2 3. rewrite P in U. cbn [at_ todo tl] in U. rewrite T in U. cbn [count_occ] in U.
      rewrite nth_upd by lia. destruct (Nat.eqb_spec c' c) as [->|X].
      * destruct (Nat.eq_dec c c); [|congruence]. rewrite Nat.add_mod_idemp_l by lia. f_equal. rewrite Fv. lia.
      * destruct (Nat.eq_dec c c'); [congruence|]. f_equal. lia.
  - destruct (D t th E ltac:(congruence)) as [LK _]. assert (O : forall i y, nth_error (threads s) i = Some y -> i <> t -> at_ y = Outside) by (intros i y E' X; destruct (at_ y) eqn:Q; auto; destruct (D i y E' ltac:(congruence)); congruence).
    eexists. split; [reflexivity|]. constructor; cbn [counts threads locked]; auto.
    + now rewrite upd_length.
    + intros i y c' E' I. rewrite G in E'. destruct (i =? t); [injection E' as <-; apply (C t th c' E); rewrite T; now right|eauto].
    + intros i y E' N. rewrite G in E'. destruct (Nat.eqb_spec i t) as [->|X]; [injection E' as <-; now destruct N|]. now destruct N; eauto.
    + discriminate.
    + intros i y v c' r' E' P' T'. rewrite G in E'. destruct (i =? t); [injection E' as <-; discriminate|eauto].
    + intros c' L. rewrite <- (M c' L). f_equal. f_equal. unfold pends at 1. cbn [threads]. specialize (U (mkTh r Outside) c'). unfold pend in U at 2 3. rewrite P in U. cbn [at_ todo] in U. rewrite T in U. cbn [tl] in U. lia.
Qed.

Definition finished (s : pstate) : Prop := forall th, In th (threads s) -> todo th = [].
Lemma inv_run W cs work : 0 < W -> forall sched s, inv W cs work s -> exists s', par_run W sched s = Ok s' /\ inv W cs work s'.
Proof.
  intros HW. induction sched as [|t sched IH]; intros s V; [exists s; split; auto; reflexivity|]. destruct (@inv_step W cs work s t HW V) as (s1 & E & V1).
  destruct (IH s1 V1) as (s2 & E2 & V2). exists s2. split; auto. unfold par_run in *. cbn [rfold]. rewrite E. exact E2.
Qed.
Definition stage (w : where_) : nat := match w with Outside => 0 | Inside => 1 | Loaded _ => 2 | Stored => 3 end.
Definition left_of (th : thread) : nat := 4 * length (todo th) - stage (at_ th).
Definition left (s : pstate) : nat := list_sum (map left_of (threads s)).
Lemma finished_dec s : finished s \/ exists i th, nth_error (threads s) i = Some th /\ todo th <> [].
Proof.
  unfold finished. induction (threads s) as [|th l IH]; [left; intros th []|]. destruct (todo th) eqn:T.
  - destruct IH as [IH|(i & y & E & N)]; [left; intros y [<-|I]; auto|right; exists (S i), y; auto].
  - right. exists 0, th. split; [reflexivity|]. rewrite T. discriminate.
Qed.
Lemma step_down W cs work s t th s' : inv W cs work s -> nth_error (threads s) t = Some th -> todo th <> [] -> (at_ th = Outside -> locked s = None) -> par_step W s t = Ok s' -> left s' < left s.
Proof.
  intros V E N O. unfold par_step. rewrite E. destruct (todo th) as [|c r] eqn:T; [congruence|].
  assert (U : forall y, list_sum (map left_of (upd (threads s) t y)) + left_of th = left s + left_of y) by (intros; now apply sum_upd).
  assert (LT : left_of th = 4 * S (length r) - stage (at_ th)) by (unfold left_of; now rewrite T).
  destruct (at_ th) as [| |v|] eqn:P; cbn [stage] in LT.
  - rewrite O by reflexivity. intros [= <-]. specialize (U (mkTh (c :: r) Inside)). unfold left at 1. cbn [threads]. change (left_of (mkTh (c :: r) Inside)) with (4 * S (length r) - 1) in U. lia.
  - destruct (vget (counts s) c) as [v| |]; cbn [bind]; try discriminate. intros [= <-]. specialize (U (mkTh (c :: r) (Loaded v))). unfold left at 1. cbn [threads]. change (left_of (mkTh (c :: r) (Loaded v))) with (4 * S (length r) - 2) in U. lia.
  - destruct (vset (counts s) c _) as [v'| |]; cbn [bind]; try discriminate. intros [= <-]. specialize (U (mkTh (c :: r) Stored)). unfold left at 1. cbn [threads]. change (left_of (mkTh (c :: r) Stored)) with (4 * S (length r) - 3) in U. lia.
  - intros [= <-]. specialize (U (mkTh r Outside)). unfold left at 1. cbn [threads]. change (left_of (mkTh r Outside)) with (4 * length r - 0) in U. lia.
Qed.
Lemma can_finish W cs work : 0 < W -> forall k s, left s <= k -> inv W cs work s -> exists sched s', par_run W sched s = Ok s' /\ finished s'.
Proof.
  intros HW. induction k as [|k IH]; intros s L V.
  all: destruct (finished_dec s) as [Fi|(i & th & E & N)]; [exists [], s; split; auto; reflexivity|].
  all: assert (X : exists t th, nth_error (threads s) t = Some th /\ todo th <> [] /\ (at_ th = Outside -> locked s = None)).
  1, 3: destruct (locked s) as [o|] eqn:LK; [destruct (v_held V LK) as (y & Ey & Ny); exists o, y; split; auto; split; [apply (v_lock V _ Ey Ny)|intros; congruence]|exists i, th; auto].
  all: destruct X as (t & y & Ey & Ny & Oy); destruct (@inv_step W cs work s t HW V) as (s1 & E1 & V1); assert (D := step_down t V Ey Ny Oy E1).
  - lia.
  - destruct (IH s1 ltac:(lia) V1) as (sched & s2 & E2 & F2). exists (t :: sched), s2. split; auto. unfold par_run in *. cbn [rfold]. rewrite E1. exact E2.
Qed.
Lemma finished_pends c s : finished s -> pends c s = 0.
Proof. unfold finished, pends. intros F. induction (threads s) as [|th l IH]; [reflexivity|]. cbn [map]. change (pend c th + list_sum (map (pend c) l) = 0). rewrite IH by (intros; apply F; now right). unfold pend. rewrite (F th) by now left. destruct (at_ th); reflexivity. Qed.

(** * Atomic *)
Definition apend c (s : astate) := list_sum (map (fun w => count_occ Nat.eq_dec w c) (a_todo s)).
Record ainv (W : nat) (cs : list nat) (work : list (list nat)) (s : astate) : Prop := {
  a_len : length (a_counts s) = length cs; a_work : in_range (length cs) (a_todo s); a_small : forall c, c < length cs -> nth c (a_counts s) 0 < W;
  a_sum : forall c, c < length cs -> (nth c (a_counts s) 0 + apend c s) mod W = (nth c cs 0 + writes c work) mod W }.
Lemma ainv_step W cs work s t : 0 < W -> ainv W cs work s -> exists s', atomic_step W s t = Ok s' /\ ainv W cs work s'.
Proof.
  intros HW V. assert (V0 := V). destruct V as [A B C M]. unfold atomic_step. destruct (nth_error (a_todo s) t) as [[|c r]|] eqn:E; eauto.
  assert (CL : c < length cs) by (eapply B; [eapply nth_error_In; eauto|now left]). rewrite (@vget_nth _ _ c 0) by lia. cbn [bind]. rewrite vset_lt by lia. cbn [bind]. eexists. split; [reflexivity|].
  constructor; cbn [a_counts a_todo].
  - now rewrite upd_length.
  - intros w c' I J. apply In_nth_error in I. destruct I as [k I]. rewrite nth_error_upd in I. destruct ((k =? t) && _); [injection I as <-|]; eapply B; [eapply nth_error_In; eauto|now right|eapply nth_error_In; eauto|auto].
  - intros c' L. rewrite nth_upd by lia. destruct (c' =? c); [apply Nat.mod_upper_bound; lia|auto].
  - intros c' L. rewrite <- (M c' L). unfold apend at 1. cbn [a_todo]. assert (U := sum_upd (fun w => count_occ Nat.eq_dec w c') (a_todo s) t r E). fold (apend c' s) in U. cbn beta in U. cbn [count_occ] in U.
    rewrite nth_upd by lia. destruct (Nat.eqb_spec c' c) as [->|X].
    + destruct (Nat.eq_dec c c); [|congruence]. rewrite Nat.add_mod_idemp_l by lia. f_equal. lia.
    + destruct (Nat.eq_dec c c'); [congruence|]. f_equal. lia.
Qed.
Lemma ainv_run W cs work : 0 < W -> forall sched s, ainv W cs work s -> exists s', atomic_run W sched s = Ok s' /\ ainv W cs work s'.
Proof.
  intros HW. induction sched as [|t sched IH]; intros s V; [exists s; split; auto; reflexivity|]. destruct (@ainv_step W cs work s t HW V) as (s1 & E & V1).
  destruct (IH s1 V1) as (s2 & E2 & V2). exists s2. split; auto. unfold atomic_run in *. cbn [rfold]. rewrite E. exact E2.
Qed.
Lemma ainv_start W cs work : (forall c, c < length cs -> nth c cs 0 < W) -> in_range (length cs) work -> ainv W cs work (mkAs cs work).
Proof.
  intros HS HR. constructor; cbn [a_counts a_todo]; auto. intros c L. f_equal. f_equal. unfold apend, writes. cbn [a_todo]. clear. induction work as [|w work IH]; [reflexivity|]. cbn [map concat]. rewrite count_occ_app, <- IH. reflexivity.
Qed.

(** * permutation_iterator *)
Lemma p_loop_ok A (array : list A) perm base last : forall n i, i + n = last -> (forall k, i <= k < last -> base + perm k < length array) -> forall fuel, n <= fuel ->
  exists out, p_loop fuel array perm (base, i) (base, last) = Ok out /\ length out = n /\ forall k, k < n -> nth_error out k = nth_error array (base + perm (i + k)).
Proof.
  induction n as [|n IH]; intros i H B fuel F.
  - exists []. assert (p_neq (base, i) (base, last) = false) as X by (unfold p_neq; cbn [fst snd]; replace i with last by lia; now rewrite !Nat.eqb_refl). destruct fuel; cbn [p_loop]; rewrite X; repeat split; auto; lia.
  - destruct fuel as [|fuel]; [lia|]. cbn [p_loop]. assert (p_neq (base, i) (base, last) = true) as -> by (unfold p_neq; cbn [fst snd]; destruct (Nat.eqb_spec i last); [lia|reflexivity]).
    unfold p_deref. cbn [fst snd]. assert (Bi := B i ltac:(lia)). destruct (nth_error array (base + perm i)) as [x|] eqn:E; [|apply nth_error_None in E; lia]. unfold vget. rewrite E. cbn [bind]. unfold p_next. cbn [fst snd].
    destruct (IH (i + 1) ltac:(lia) ltac:(intros k K; apply B; lia) fuel ltac:(lia)) as (out & -> & L & N). cbn [bind]. exists (x :: out). split; [reflexivity|]. split; [cbn; lia|]. intros [|k] K; cbn [nth_error].
    + now rewrite Nat.add_0_r, E.
    + rewrite N by lia. f_equal. f_equal. f_equal. lia.
Qed.
Lemma p_loop_on A (array : list A) perm base i base' last : (base <> base' \/ last < i) -> (forall k, i <= k -> base + perm k < length array) -> forall fuel, p_loop fuel array perm (base, i) (base', last) = OutOfFuel.
Proof.
  intros H B fuel. revert i H B. induction fuel as [|fuel IH]; intros i H B; cbn [p_loop].
  all: assert (p_neq (base, i) (base', last) = true) as -> by (unfold p_neq; cbn [fst snd]; destruct H as [H|H]; [destruct (Nat.eqb_spec base base'); [contradiction|apply orb_true_r]|destruct (Nat.eqb_spec i last); [lia|reflexivity]]).
  - reflexivity.
  - unfold p_deref. cbn [fst snd]. assert (Bi := B i (le_n i)). destruct (nth_error array (base + perm i)) as [x|] eqn:E; [|apply nth_error_None in E; lia]. unfold vget. rewrite E. cbn [bind]. unfold p_next. cbn [fst snd]. rewrite IH; [reflexivity| |].
    + destruct H; [now left|right; lia].
    + intros k K. apply B. lia.
Qed.

(** * Rounds in which every thread gets a turn *)
Lemma step_cases W cs work s t s' : inv W cs work s -> par_step W s t = Ok s' -> s' = s \/ left s' < left s.
Proof.
  intros V E. destruct (nth_error (threads s) t) as [th|] eqn:T; [|left; unfold par_step in E; rewrite T in E; congruence].
  destruct (todo th) as [|c r] eqn:D; [left; unfold par_step in E; rewrite T, D in E; congruence|].
  destruct (at_ th) eqn:P; [destruct (locked s) as [o|] eqn:LK; [left; unfold par_step in E; rewrite T, D, P, LK in E; congruence|]| | |]; right; eapply step_down; eauto; try congruence; intros; congruence.
Qed.
Lemma run_cases W cs work : 0 < W -> forall sched s s', inv W cs work s -> par_run W sched s = Ok s' ->
  left s' < left s \/ s' = s /\ forall t, In t sched -> par_step W s t = Ok s.
Proof.
  intros HW. induction sched as [|t sched IH]; intros s s' V E; [right; split; [unfold par_run in E; cbn in E; congruence|intros ? []]|].
  destruct (@inv_step W cs work s t HW V) as (s1 & E1 & V1). unfold par_run in *. cbn [rfold] in E. rewrite E1 in E. cbn [bind] in E.
  destruct (step_cases t V E1) as [->|L]; destruct (IH _ _ V1 E) as [L'|[-> X]]; try (left; lia).
  right. split; [reflexivity|]. intros u [<-|I]; auto.
Qed.
Lemma can_step W cs work s : inv W cs work s -> ~ finished s -> exists t th, nth_error (threads s) t = Some th /\ todo th <> [] /\ (at_ th = Outside -> locked s = None).
Proof.
  intros V F. destruct (finished_dec s) as [Fi|(i & th & E & N)]; [contradiction|].
  destruct (locked s) as [o|] eqn:LK; [destruct (v_held V LK) as (y & Ey & Ny); exists o, y; split; auto; split; [apply (v_lock V _ Ey Ny)|intros; congruence]|exists i, th; auto].
Qed.
Lemma finished_step W s t : finished s -> par_step W s t = Ok s.
Proof. intros F. unfold par_step. destruct (nth_error (threads s) t) as [th|] eqn:E; [|reflexivity]. rewrite (F th) by (eapply nth_error_In; eauto). reflexivity. Qed.
Lemma finished_run W sched s : finished s -> par_run W sched s = Ok s.
Proof. intros F. unfold par_run. induction sched as [|t sched IH]; [reflexivity|]. cbn [rfold]. rewrite finished_step by auto. exact IH. Qed.
Lemma rounds_finish W cs work : 0 < W -> forall rounds s, inv W cs work s -> left s <= length rounds -> (forall r t, In r rounds -> t < length work -> In t r) ->
  exists s', par_run W (concat rounds) s = Ok s' /\ finished s'.
Proof.
  intros HW. induction rounds as [|r rounds IH]; intros s V L H.
  - destruct (finished_dec s) as [F|(i & th & E & N)]; [exists s; split; auto; reflexivity|]. exfalso.
    destruct (@can_step W cs work s V) as (t & y & Ey & Ny & Oy); [intros F; apply N, F; eapply nth_error_In; eauto|]. destruct (@inv_step W cs work s t HW V) as (s1 & E1 & V1).
    assert (D := step_down t V Ey Ny Oy E1). cbn in L. lia.
  - destruct (finished_dec s) as [F|(i & th & E & N)]; [exists s; split; auto; now apply finished_run|].
    cbn [concat]. destruct (@inv_run W cs work HW r s V) as (s1 & E1 & V1). destruct (@can_step W cs work s V) as (t & y & Ey & Ny & Oy); [intros F; apply N, F; eapply nth_error_In; eauto|].
    assert (D : left s1 < left s).
    { destruct (run_cases HW r V E1) as [D|[-> X]]; [exact D|]. assert (T : In t r) by (apply H; [now left|]; rewrite <- (v_ths V); apply nth_error_Some; congruence). assert (Z := step_down t V Ey Ny Oy (X t T)). lia. }
    destruct (IH s1 V1 ltac:(cbn in L; lia) ltac:(intros; eapply H; eauto; now right)) as (s2 & E2 & F2). exists s2. split; auto. unfold par_run in *. rewrite rfold_app, E1. exact E2.
Qed.
Lemma left_start cs work : left (par_start cs work) = 4 * length (concat work).
Proof.
  unfold left, par_start. cbn [threads]. induction work as [|w work IH]; [reflexivity|]. cbn [map concat]. rewrite app_length. change (left_of (mkTh w Outside) + list_sum (map left_of (map (fun w => mkTh w Outside) work)) = 4 * (length w + length (concat work))). rewrite IH.
  unfold left_of. cbn [todo at_ stage]. lia.
Qed.
