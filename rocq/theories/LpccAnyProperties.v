(** C63, continued: workers that have no frontier. *)
From Coq Require Import List Arith Lia Bool.
From Verif Require Import Base Pool GraphLib CcxModel LpccModel LpccProofs.
Import ListNotations.

(** Any division into pieces that together hold the elements of the list, run by any workers. *)
Definition covers (split : nat -> list nat -> list (nat * list nat)) : Prop := forall i l x, In x (concat (map snd (split i l))) <-> In x l.
(** The labels C63 promises. *)
Definition least_reaching (g : list (list nat)) (comp : list nat) : Prop :=
  length comp = length g /\ forall v, v < length g -> reachable g (nth v comp 0) v /\ forall u, reachable g u v -> nth v comp 0 <= u.

(** ** A run is undefined, or that with the workers past the last frontier sharing one more *)
Definition worker (t : lp) : nat :=
  match t with LpX w _ _ | LpT w _ _ _ _ | LpRead w _ _ _ _ | LpCas w _ _ _ _ _ | LpGet w _ _ _ _ | LpSet w _ _ _ _ | LpPush w _ _ _ _ => w end.
Definition clamp (nb : nat) (t : lp) : lp :=
  match t with
  | LpX w x xs => LpX (min w nb) x xs
  | LpT w a b c d => LpT (min w nb) a b c d
  | LpRead w a b c d => LpRead (min w nb) a b c d
  | LpCas w a b e c d => LpCas (min w nb) a b e c d
  | LpGet w a b c d => LpGet (min w nb) a b c d
  | LpSet w a b c d => LpSet (min w nb) a b c d
  | LpPush w a b c d => LpPush (min w nb) a b c d
  end.
Definition wider (s : lst) : lst := (fst (fst s), snd (fst s), snd s ++ [[]]).
Lemma clamp_next nb w lx ys xs : lp_next (min w nb) lx ys xs = option_map (clamp nb) (lp_next w lx ys xs).
Proof. destruct ys; [destruct xs|]; reflexivity. Qed.
Lemma upd_app A (l r : list A) i x : i < length l -> upd (l ++ r) i x = upd l i x ++ r.
Proof. revert i. induction l as [|a l IH]; intros [|i] H; cbn in *; try lia; auto. now rewrite IH by lia. Qed.
Lemma step_sim g nb t s : length (snd s) = nb -> lp_step g t s = Ub \/
  exists o s', lp_step g t s = Ok (o, s') /\ lp_step g (clamp nb t) (wider s) = Ok (option_map (clamp nb) o, wider s') /\ length (snd s') = nb.
Proof.
  destruct s as [[l b] bins]. unfold wider. cbn [fst snd]. intros HL. destruct t; cbn [lp_step clamp].
  - destruct (vget l x) eqn:E; cbn [bind]; [|now left|unfold vget in E; destruct (nth_error l x); discriminate].
    destruct (vget g x) eqn:E'; cbn [bind]; [|now left|unfold vget in E'; destruct (nth_error g x); discriminate].
    right. do 2 eexists. split; [reflexivity|]. split; auto. now rewrite clamp_next.
  - destruct (vget l y) as [ly| |] eqn:E; cbn [bind]; [|now left|unfold vget in E; destruct (nth_error l y); discriminate].
    right. do 2 eexists. split; [reflexivity|]. split; auto. destruct (lx <? ly); [reflexivity|now rewrite clamp_next].
  - destruct (vget l y) as [ly| |] eqn:E; cbn [bind]; [|now left|unfold vget in E; destruct (nth_error l y); discriminate].
    right. do 2 eexists. split; [reflexivity|]. split; auto. destruct (lx <? ly); [reflexivity|now rewrite clamp_next].
  - destruct (vget l y) as [ly| |] eqn:E; cbn [bind]; [|now left|unfold vget in E; destruct (nth_error l y); discriminate].
    right. destruct (ly =? prev).
    + rewrite vset_lt by (eapply vget_Ok_lt; eauto). cbn [bind]. do 2 eexists. split; [reflexivity|]. split; [reflexivity|auto].
    + do 2 eexists. split; [reflexivity|]. split; [reflexivity|auto].
  - destruct (vget b y) as [q| |] eqn:E; cbn [bind]; [|now left|unfold vget in E; destruct (nth_error b y); discriminate].
    right. do 2 eexists. split; [reflexivity|]. split; auto. destruct q; [now rewrite clamp_next|reflexivity].
  - destruct (vget b y) as [q| |] eqn:E; cbn [bind]; [|now left|unfold vget in E; destruct (nth_error b y); discriminate].
    right. rewrite vset_lt by (eapply vget_Ok_lt; eauto). cbn [bind]. do 2 eexists. split; [reflexivity|]. split; auto. destruct q; [now rewrite clamp_next|reflexivity].
  - destruct (Nat.lt_ge_cases w nb) as [L|L]; [|left; now rewrite vget_ge by lia]. right. rewrite Nat.min_l by lia.
    rewrite (@vget_nth _ bins w []), (@vget_nth _ (bins ++ [[]]) w []) by (rewrite ?app_length; cbn; lia). cbn [bind].
    rewrite !vset_lt by (rewrite ?app_length; cbn; lia). cbn [bind]. do 2 eexists. split; [reflexivity|]. cbn [fst snd]. rewrite upd_length. split; auto.
    rewrite app_nth1 by lia. rewrite upd_app by lia. rewrite <- clamp_next, Nat.min_l by lia. reflexivity.
Qed.
Lemma run_sim g nb sched : forall fuel now ts s, length (snd s) = nb -> run (lp_step g) fuel sched now ts s = Ub \/
  run (lp_step g) fuel sched now (map (clamp nb) ts) (wider s) = (do r <- run (lp_step g) fuel sched now ts s ; Ok (wider r)).
Proof.
  induction fuel as [|f IH]; intros now ts s HL; (destruct ts as [|t0 ts0]; [now right|]); [now right|]. remember (t0 :: ts0) as ts.
  replace (run (lp_step g) (S f) sched now ts s) with (do t <- vget ts (sched now mod length ts) ; do r <- lp_step g t s ;
    run (lp_step g) f sched (S now) (firstn (sched now mod length ts) ts ++ opt_list (fst r) ++ skipn (S (sched now mod length ts)) ts) (snd r)) by now subst ts.
  replace (run (lp_step g) (S f) sched now (map (clamp nb) ts) (wider s)) with (do t <- vget (map (clamp nb) ts) (sched now mod length ts) ; do r <- lp_step g t (wider s) ;
    run (lp_step g) f sched (S now) (firstn (sched now mod length ts) (map (clamp nb) ts) ++ opt_list (fst r) ++ skipn (S (sched now mod length ts)) (map (clamp nb) ts)) (snd r))
    by (rewrite <- (map_length (clamp nb) ts); now subst ts).
  set (i := sched now mod length ts). unfold vget. rewrite nth_error_map. destruct (nth_error ts i) as [t|]; [|now left]. cbn [option_map bind].
  destruct (@step_sim g nb t s HL) as [->|(o & s' & -> & -> & HL')]; [now left|]. cbn [bind fst snd].
  specialize (IH (S now) (firstn i ts ++ opt_list o ++ skipn (S i) ts) s' HL'). rewrite !map_app, <- firstn_map, <- skipn_map in IH.
  replace (opt_list (option_map (clamp nb) o)) with (map (clamp nb) (opt_list o)) by (destruct o; reflexivity). exact IH.
Qed.
Definition shared (nb : nat) (chunks : list (nat * list nat)) : list (nat * list nat) := map (fun c => (min (fst c) nb, snd c)) chunks.
Lemma shared_snd nb chunks : map snd (shared nb chunks) = map snd chunks.
Proof. unfold shared. rewrite map_map. reflexivity. Qed.
Lemma round_sim g nb sched chunks labels : lp_round nb sched g chunks labels = Ub \/ lp_round (S nb) sched g (shared nb chunks) labels = lp_round nb sched g chunks labels.
Proof.
  unfold lp_round. set (s := (labels, repeat false (length labels), repeat [] nb)). set (ts := concat (map (fun c => opt_list (lp_start (fst c) (snd c))) chunks)).
  replace (labels, repeat false (length labels), repeat [] (S nb)) with (wider s) by (unfold wider, s; cbn [fst snd repeat]; rewrite <- repeat_cons; reflexivity).
  replace (concat (map (fun c => opt_list (lp_start (fst c) (snd c))) (shared nb chunks))) with (map (clamp nb) ts).
  2: { unfold ts, shared. rewrite concat_map, !map_map. f_equal. apply map_ext. intros [w [|x xs]]; reflexivity. }
  replace (map (fun c => lp_cost g (snd c)) (shared nb chunks)) with (map (fun c => lp_cost g (snd c)) chunks) by (unfold shared; now rewrite map_map).
  destruct (@run_sim g nb sched (sum (map (fun c => lp_cost g (snd c)) chunks)) 0 ts s) as [->| ->]; [unfold s; cbn [snd]; apply repeat_length|now left|]. right.
  destruct (run (lp_step g) _ sched 0 ts s) as [[[l b] bins]| |]; cbn [bind]; auto. unfold wider. cbn [fst snd]. now rewrite concat_app, app_nil_r.
Qed.
Lemma loop_sim cyclic W nb sched split g : forall fuel i cur labels, lp_loop fuel cyclic W nb sched split i g cur labels = Ub \/
  lp_loop fuel cyclic W (S nb) sched (fun i l => shared nb (split i l)) i g cur labels = lp_loop fuel cyclic W nb sched split i g cur labels.
Proof.
  induction fuel as [|f IH]; intros i [|c cur] labels; cbn [lp_loop]; [now right..|].
  destruct (@round_sim g nb (sched i) (split i (if cyclic then seq 0 (length g) else firstn (length (c :: cur) mod W) (c :: cur))) labels) as [->| ->]; [now left|].
  destruct (lp_round nb _ _ _ _) as [[l next]| |]; cbn [bind fst snd]; auto.
Qed.
Lemma shared_divides nb split : covers split ->
  forall i l, Forall (fun c => fst c < S nb) (shared nb (split i l)) /\ forall x, In x (concat (map snd (shared nb (split i l)))) <-> In x l.
Proof.
  intros C i l. split; [|intros x; rewrite shared_snd; apply C]. apply Forall_forall. intros c J. apply in_map_iff in J. destruct J as (d & <- & _). cbn [fst]. lia.
Qed.

(** With any number of frontiers and any workers the labels are right unless a worker writes to a frontier that does not exist. *)
Theorem C63_any_workers W nbins sched split g : length g < W -> targets_ok g -> covers split ->
  (lpcc W nbins sched split g = Ub \/ exists comp, lpcc W nbins sched split g = Ok comp /\ least_reaching g comp) /\
  (lpcc_cyclic W nbins sched split g = Ub \/ exists comp, lpcc_cyclic W nbins sched split g = Ok comp /\ least_reaching g comp).
Proof.
  intros HW HT C.
  assert (G : forall cyclic, let r := lp_loop (sum (x_init W (length g)) + 2) cyclic W nbins sched split 0 g (x_init W (length g)) (x_init W (length g)) in
    r = Ub \/ exists comp, r = Ok comp /\ least_reaching g comp).
  { intros cyclic r. destruct (@loop_sim cyclic W nbins sched split g (sum (x_init W (length g)) + 2) 0 (x_init W (length g)) (x_init W (length g))) as [E|E]; [now left|]. right.
    destruct (@lpcc_ok cyclic W (S nbins) sched (fun i l => shared nbins (split i l)) g HW HT (@shared_divides nbins split C)) as (comp & E' & L & H).
    exists comp. split; [unfold r; congruence|split; auto]. }
  split; apply G.
Qed.

(** ** When that is unavoidable *)
Definition apart (g : list (list nat)) (nb y : nat) (t : lp) : Prop :=
  nb <= worker t \/
  match t with
  | LpX _ x xs => forall z, In z (x :: xs) -> ~ edge g z y
  | LpT _ _ v ys xs | LpRead _ _ v ys xs | LpCas _ _ v _ ys xs | LpGet _ _ v ys xs | LpSet _ _ v ys xs | LpPush _ _ v ys xs =>
      ~ In y (v :: ys) /\ forall z, In z xs -> ~ edge g z y
  end.
Lemma apart_next g nb y w lx ys xs : nb <= w \/ (~ In y ys /\ forall z, In z xs -> ~ edge g z y) -> Forall (apart g nb y) (opt_list (lp_next w lx ys xs)).
Proof.
  intros H. destruct ys as [|v ys]; [destruct xs as [|x xs]|]; cbn [lp_next lp_start opt_list]; [apply Forall_nil|apply Forall_cons; [|apply Forall_nil]..]; unfold apart; cbn [worker]; destruct H as [H|[H H']]; auto.
Qed.
Lemma apart_step g nb y t s o s' : length (snd s) = nb -> apart g nb y t -> ~ In y (concat (snd s)) -> lp_step g t s = Ok (o, s') ->
  length (snd s') = nb /\ Forall (apart g nb y) (opt_list o) /\ ~ In y (concat (snd s')).
Proof.
  destruct s as [[l b] bins]. cbn [snd]. intros HL A N E. destruct t; cbn [lp_step] in E; unfold apart in A; cbn [worker] in A.
  - destruct (vget l x); cbn [bind] in E; try discriminate. destruct (vget g x) as [row| |] eqn:E'; cbn [bind] in E; try discriminate. injection E as <- <-.
    split; auto. split; auto. apply apart_next. destruct A as [A|A]; auto. right. split; [|intros z J; apply A; now right].
    specialize (A x (or_introl eq_refl)). unfold edge in A. apply vget_Ok in E'. now rewrite (nth_error_nth _ _ _ E') in A.
  - destruct (vget l y0) as [ly| |]; cbn [bind] in E; try discriminate. injection E as <- <-. split; auto. split; auto.
    destruct (lx <? ly); [constructor; [unfold apart; exact A|constructor]|]. apply apart_next. destruct A as [A|[A B]]; auto. right. split; auto. intros J. apply A. now right.
  - destruct (vget l y0) as [ly| |]; cbn [bind] in E; try discriminate. injection E as <- <-. split; auto. split; auto.
    destruct (lx <? ly); [constructor; [unfold apart; exact A|constructor]|]. apply apart_next. destruct A as [A|[A B]]; auto. right. split; auto. intros J. apply A. now right.
  - destruct (vget l y0) as [ly| |]; cbn [bind] in E; try discriminate. destruct (ly =? prev).
    + destruct (vset l y0 lx); cbn [bind] in E; try discriminate. injection E as <- <-. split; auto. split; auto. constructor; [unfold apart; exact A|constructor].
    + injection E as <- <-. split; auto. split; auto. constructor; [unfold apart; exact A|constructor].
  - destruct (vget b y0) as [q| |]; cbn [bind] in E; try discriminate. injection E as <- <-. split; auto. split; auto.
    destruct q; [|constructor; [unfold apart; exact A|constructor]]. apply apart_next. destruct A as [A|[A B]]; auto. right. split; auto. intros J. apply A. now right.
  - destruct (vget b y0) as [q| |]; cbn [bind] in E; try discriminate. destruct (vset b y0 true); cbn [bind] in E; try discriminate. injection E as <- <-. split; auto. split; auto.
    destruct q; [|constructor; [unfold apart; exact A|constructor]]. apply apart_next. destruct A as [A|[A B]]; auto. right. split; auto. intros J. apply A. now right.
  - destruct (vget bins w) as [q| |] eqn:E'; cbn [bind] in E; try discriminate. assert (LW := vget_Ok_lt _ _ E'). rewrite vset_lt in E by auto. cbn [bind] in E. injection E as <- <-.
    cbn [snd]. rewrite upd_length. split; auto. destruct A as [A|[A B]]; [lia|]. split; [apply apart_next; right; split; auto; intros J; apply A; now right|].
    intros J. apply in_concat in J. destruct J as (r & J & K). apply In_nth with (d := []) in J. destruct J as (j & Hj & <-). rewrite upd_length in Hj. rewrite nth_upd in K by auto.
    destruct (Nat.eqb_spec j w) as [->|Q].
    + apply in_app_iff in K. destruct K as [K|[K|[]]]; [|apply A; now left]. apply N. apply in_concat. exists q. split; auto. apply vget_Ok in E'. eapply nth_error_In; eauto.
    + apply N. apply in_concat. exists (nth j bins []). split; auto. now apply nth_In.
Qed.
Lemma apart_run g nb y sched : forall fuel now ts s s', length (snd s) = nb -> Forall (apart g nb y) ts -> ~ In y (concat (snd s)) ->
  run (lp_step g) fuel sched now ts s = Ok s' -> ~ In y (concat (snd s')).
Proof.
  induction fuel as [|f IH]; intros now ts s s' HL A N E; (destruct ts as [|t0 ts0]; [injection E as <-; auto|]); [discriminate|]. remember (t0 :: ts0) as ts.
  assert (E2 : (do t <- vget ts (sched now mod length ts) ; do r <- lp_step g t s ;
    run (lp_step g) f sched (S now) (firstn (sched now mod length ts) ts ++ opt_list (fst r) ++ skipn (S (sched now mod length ts)) ts) (snd r)) = Ok s') by now subst ts.
  clear E. set (i := sched now mod length ts) in *. destruct (vget ts i) as [t| |] eqn:Et; cbn [bind] in E2; try discriminate.
  destruct (lp_step g t s) as [[o s1]| |] eqn:Es; cbn [bind fst snd] in E2; try discriminate.
  assert (At : apart g nb y t) by (apply vget_Ok in Et; apply nth_error_In in Et; rewrite Forall_forall in A; now apply A).
  destruct (apart_step _ _ _ _ _ _ _ HL At N Es) as (HL1 & A1 & N1). eapply IH; [exact HL1| |exact N1|exact E2].
  rewrite <- (firstn_skipn i ts) in A. apply Forall_app in A. destruct A as [A2 A3]. apply Forall_app. split; auto. apply Forall_app. split; auto.
  replace (S i) with (i + 1) by lia. rewrite Forall_forall in *. intros z J. apply A3. clear - J. clearbody i. revert ts J. induction i as [|i IH]; intros [|a r] J; cbn in *; auto.
Qed.
(** If the list of x holds the larger vertex y, and the workers that have a frontier are given no vertex with an arc to y, no interleaving
    avoids the write to a missing frontier.  (The default num_bins is 32, however many threads there are.) *)
Theorem C63_missing_frontier W nbins sched split g x y : length g < W -> targets_ok g -> covers split -> edge g x y -> x < y ->
  (forall c u, In c (split 0 (seq 0 (length g))) -> fst c < nbins -> In u (snd c) -> ~ edge g u y) ->
  lpcc W nbins sched split g = Ub /\ lpcc_cyclic W nbins sched split g = Ub.
Proof.
  intros HW HT C Ed XY HC. assert (Hy := HT _ _ Ed). assert (Hx : x < length g) by lia. set (n := length g) in *.
  assert (EI : x_init W n = seq 0 n) by (unfold x_init; rewrite Nat.mod_small, Nat.sub_diag by auto; apply app_nil_r).
  assert (LI : forall z, z < n -> lb (seq 0 n) z = z) by (intros z Hz; unfold lb; now rewrite seq_nth).
  assert (R : forall sc, lp_round nbins sc g (split 0 (seq 0 n)) (seq 0 n) = Ub).
  { intros sc. destruct (@round_sim g nbins sc (split 0 (seq 0 n)) (seq 0 n)) as [E|E]; auto. exfalso.
    destruct (shared_divides nbins split C 0 (seq 0 n)) as [D1 D2].
    destruct (@lp_round_ok g (S nbins) sc (shared nbins (split 0 (seq 0 n))) (seq 0 n) HT) as (L & next & E' & _ & _ & _ & NX & AR).
    - apply seq_length.
    - intros z Hz. fold n in Hz. rewrite LI by auto. split; auto. exists 0. constructor.
    - exact D1.
    - intros z J. apply D2 in J. apply in_seq in J. unfold n in J. lia.
    - assert (Iy : In y next).
      { apply NX. split; auto. rewrite (LI y) by auto. assert (Q := AR x y). rewrite (LI x) in Q by auto. assert (lb L y <= x); [|lia]. apply Q; auto. apply D2. apply in_seq. lia. }
      rewrite E' in E. symmetry in E. unfold lp_round in E.
      destruct (run (lp_step g) (sum (map (fun c => lp_cost g (snd c)) (split 0 (seq 0 n)))) sc 0
        (concat (map (fun c => opt_list (lp_start (fst c) (snd c))) (split 0 (seq 0 n)))) (seq 0 n, repeat false (length (seq 0 n)), repeat [] nbins)) as [s| |] eqn:ER; try discriminate.
      cbn [bind] in E. injection E as _ <-. revert Iy. refine (apart_run g nbins y sc _ 0 _ _ s _ _ _ ER); [cbn [snd]; apply repeat_length| |].
      + apply Forall_forall. intros t J. apply in_concat in J. destruct J as (l & J & K). apply in_map_iff in J. destruct J as ([w [|z zs]] & <- & J); cbn in K; [destruct K|].
        destruct K as [<-|[]]. unfold apart. cbn [worker]. destruct (Nat.lt_ge_cases w nbins) as [Lw|Lw]; [right|now left]. intros u Ju. apply (HC _ u J Lw Ju).
      + cbn [snd]. clear. induction nbins; cbn; auto. }
  assert (G : forall cyclic, lp_loop (sum (x_init W n) + 2) cyclic W nbins sched split 0 g (x_init W n) (x_init W n) = Ub).
  { intros cyclic. rewrite EI, Nat.add_comm. assert (NE : seq 0 n <> []) by (destruct n; [lia|discriminate]).
    assert (F : firstn (length (seq 0 n) mod W) (seq 0 n) = seq 0 n) by (rewrite seq_length, Nat.mod_small by auto; apply firstn_all2; rewrite seq_length; lia).
    cbn [lp_loop Nat.add]. destruct (seq 0 n) as [|a l] eqn:Q; [congruence|]. rewrite F. unfold n in Q. rewrite Q. replace (if cyclic then a :: l else a :: l) with (a :: l) by now destruct cyclic.
    now rewrite R. }
  split; apply G.
Qed.

(** ** Non-vacuity *)
Definition w_split (i : nat) (l : list nat) : list (nat * list nat) := [(40, firstn 2 l); (3, skipn 2 l)].
Definition w_graph : list (list nat) := [[3]; []; [1]; []].
Example w_covers : covers w_split.
Proof. intros i l x. unfold w_split. cbn [map snd concat]. now rewrite app_nil_r, firstn_skipn. Qed.
(** Worker 40 of a machine with more than 32 threads is given 0 and 1; only 0 has an arc to 3. *)
Example C63_missing_ex : targets_ok w_graph /\ edge w_graph 0 3 /\
  (forall c u, In c (w_split 0 (seq 0 4)) -> fst c < 32 -> In u (snd c) -> ~ edge w_graph u 3) /\
  lpcc 8 32 (fun i t => i + t) w_split w_graph = Ub /\ lpcc 8 41 (fun i t => i + t) w_split w_graph = Ok [0; 1; 2; 0].
Proof.
  split; [intros u v E; unfold edge, w_graph in *; do 4 (destruct u as [|u]; [cbn in E; cbn; intuition lia|]); destruct u; destruct E|]. split; [now left|].
  split; [|split; vm_compute; reflexivity]. intros c u [<-|[<-|[]]] L J E; cbn in L; [lia|]. cbn in J. unfold edge, w_graph in E. destruct J as [<-|[<-|[]]]; cbn in E; intuition lia.
Qed.
(** Worker 40 may also find nothing to relabel; then the labels are right. *)
Example C63_any_ex : lpcc 8 32 (fun i t => i + t) w_split [[]; []; []; [2]] = Ok [0; 1; 2; 3].
Proof. vm_compute; reflexivity. Qed.
Print Assumptions C63_any_workers.
Print Assumptions C63_missing_frontier.
