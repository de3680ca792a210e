(** Proofs about the search-based components (XccModel.v). *)
From Coq Require Import List Arith Lia Bool Sorted.
From Verif Require Import Pool ParBfsModel ParBfsProofs BfsRangeModel BfsRangeProperties XccModel Base GraphLib FifoLib.
Import ListNotations.
Set Implicit Arguments.

(** ** Executions of a pool as a relation *)
Section Psteps.
Variables (T S : Type) (step : T -> S -> res (option T * S)).
Inductive psteps : list T -> S -> list T -> S -> Prop :=
| ps_refl ts s : psteps ts s ts s
| ps_step l1 t l2 s o s' ts'' s'' : step t s = Ok (o, s') -> psteps (l1 ++ opt_list o ++ l2) s' ts'' s'' -> psteps (l1 ++ t :: l2) s ts'' s''.
Lemma ps_trans ts s ts1 s1 ts2 s2 : psteps ts s ts1 s1 -> psteps ts1 s1 ts2 s2 -> psteps ts s ts2 s2.
Proof. induction 1; auto. intros. eapply ps_step; eauto. Qed.
Lemma firstn_mid (l1 l2 : list T) t : firstn (length l1) (l1 ++ t :: l2) = l1.
Proof. rewrite firstn_app, firstn_all, Nat.sub_diag. cbn. apply app_nil_r. Qed.
Lemma skipn_mid (l1 l2 : list T) t : skipn (Datatypes.S (length l1)) (l1 ++ t :: l2) = l2.
Proof. rewrite skipn_app, skipn_all2 by lia. now replace (Datatypes.S (length l1) - length l1) with 1 by lia. Qed.
Lemma run_step fuel sched now l1 t l2 s o s' : sched now = length l1 -> step t s = Ok (o, s') ->
  run step (Datatypes.S fuel) sched now (l1 ++ t :: l2) s = run step fuel sched (Datatypes.S now) (l1 ++ opt_list o ++ l2) s'.
Proof.
  intros E H. cbn [run]. assert (L : length l1 < length (l1 ++ t :: l2)) by (rewrite app_length; cbn; lia).
  assert (V : vget (l1 ++ t :: l2) (length l1) = Ok t) by (apply vget_Ok; rewrite nth_error_app2, Nat.sub_diag by lia; reflexivity).
  rewrite E, Nat.mod_small, V by auto. cbn [bind]. rewrite H. cbn [bind fst snd]. rewrite firstn_mid, skipn_mid. destruct (l1 ++ t :: l2) eqn:Q; [destruct l1; discriminate|reflexivity].
Qed.
Lemma ps_run ts s ts' s' : psteps ts s ts' s' -> exists l, forall sched now fuel, (forall j, j < length l -> sched (now + j) = nth j l 0) ->
  run step (length l + fuel) sched now ts s = run step fuel sched (now + length l) ts' s'.
Proof.
  induction 1 as [ts s|l1 t l2 s o s' ts'' s'' E P (l & IH)].
  - exists []. intros. cbn. now rewrite Nat.add_0_r.
  - exists (length l1 :: l). intros sched now fuel H. cbn [length plus]. rewrite (@run_step _ _ _ _ _ _ _ _ _ (eq_trans (eq_sym (f_equal sched (Nat.add_0_r now))) (H 0 ltac:(cbn; lia))) E).
    rewrite IH; [f_equal; lia|]. intros j Lj. specialize (H (Datatypes.S j) ltac:(cbn; lia)). cbn [nth] in H. rewrite <- H. f_equal. lia.
Qed.
Lemma run_more fuel : forall k sched now ts s r, run step fuel sched now ts s = Ok r -> run step (fuel + k) sched now ts s = Ok r.
Proof.
  induction fuel as [|f IH]; intros k sched now ts s r E.
  - destruct ts; [|discriminate]. cbn in E. injection E as <-. now destruct k.
  - destruct ts as [|t ts]; [exact E|]. cbn [run plus] in *. destruct (vget (t :: ts) (sched now mod length (t :: ts))); try discriminate. cbn [bind] in *. destruct (step a s) as [[o s']| |]; try discriminate. cbn [bind fst snd] in *. now apply IH.
Qed.
(** An execution to the end is what some schedule does. *)
Lemma ps_schedule ts s s' F : psteps ts s [] s' -> (forall sched, exists r, run step F sched 0 ts s = Ok r) -> exists sched, run step F sched 0 ts s = Ok s'.
Proof.
  intros P TOT. destruct (ps_run P) as (l & H). exists (fun k => nth k l 0). destruct (TOT (fun k => nth k l 0)) as (r & E). rewrite E. f_equal.
  specialize (H (fun k => nth k l 0) 0 0 ltac:(auto)). rewrite Nat.add_0_r in H. cbn [run plus] in H.
  apply (run_more _ F) in H. apply (run_more _ (length l)) in E. rewrite Nat.add_comm in E. congruence.
Qed.
(** The first task always moves. *)
Inductive qsteps : list T -> S -> list T -> S -> Prop :=
| qs_refl ts s : qsteps ts s ts s
| qs_step t l2 s o s' ts'' s'' : step t s = Ok (o, s') -> qsteps (opt_list o ++ l2) s' ts'' s'' -> qsteps (t :: l2) s ts'' s''.
Lemma qs_trans ts s ts1 s1 ts2 s2 : qsteps ts s ts1 s1 -> qsteps ts1 s1 ts2 s2 -> qsteps ts s ts2 s2.
Proof. induction 1; auto. intros. eapply qs_step; eauto. Qed.
Lemma qs_run ts s ts' s' : qsteps ts s ts' s' -> exists n, forall now fuel, run step (n + fuel) (fun _ => 0) now ts s = run step fuel (fun _ => 0) (now + n) ts' s'.
Proof.
  induction 1 as [ts s|t l2 s o s' ts'' s'' E P (n & IH)].
  - exists 0. intros. cbn. now rewrite Nat.add_0_r.
  - exists (Datatypes.S n). intros now fuel. cbn [plus]. assert (X := @run_step (n + fuel) (fun _ => 0) now [] t l2 s o s' eq_refl E). cbn [app] in X. rewrite X, IH. f_equal. lia.
Qed.
Lemma qs_schedule ts s s' F : qsteps ts s [] s' -> (exists r, run step F (fun _ => 0) 0 ts s = Ok r) -> run step F (fun _ => 0) 0 ts s = Ok s'.
Proof.
  intros P (r & E). destruct (qs_run P) as (n & H). specialize (H 0 0). rewrite Nat.add_0_r in H. cbn [run plus] in H.
  rewrite E. f_equal. apply (run_more _ F) in H. apply (run_more _ n) in E. rewrite Nat.add_comm in E. congruence.
Qed.
(** A pool whose tasks get smaller comes to an end. *)
Lemma ps_end (size : T -> nat) (I : list T -> S -> Prop) :
  (forall l1 t l2 s, I (l1 ++ t :: l2) s -> exists o s', step t s = Ok (o, s') /\ I (l1 ++ opt_list o ++ l2) s' /\ match o with Some t' => size t' < size t | None => True end) ->
  forall ts s, I ts s -> exists s', psteps ts s [] s' /\ I [] s'.
Proof.
  intros ST ts s. remember (sum (map size ts) + length ts) as n eqn:En. revert ts s En. induction n as [n IH] using lt_wf_ind. intros [|t l2] s En HI.
  - exists s. split; auto. constructor.
  - destruct (ST [] t l2 s HI) as (o & s' & E & HI' & M). cbn [app] in HI'. destruct (IH (sum (map size (opt_list o ++ l2)) + length (opt_list o ++ l2))) with (ts := opt_list o ++ l2) (s := s') as (s'' & P & H); auto.
    + subst n. rewrite map_app, sum_app, app_length. cbn [map length sum]. destruct o; cbn [opt_list map length sum]; lia.
    + exists s''. split; auto. apply (@ps_step [] t l2 s o s' [] s'' E). exact P.
Qed.
End Psteps.

(** ** The search *)
Section Components.
Variables (W : nat) (g : list (list nat)).
Hypothesis TO : targets_ok g.
Let N := length g.
Hypothesis HW : N < W.
Lemma reach_lt v w : v < N -> reachable g v w -> w < N.
Proof. intros L [k WK]. eapply walk_lt; eauto. Qed.
Lemma reach_refl v : reachable g v v. Proof. exists 0. constructor. Qed.
Lemma reach_trans u v w : reachable g u v -> reachable g v w -> reachable g u w.
Proof. intros [k A] [j B]. exists (k + j). eapply walk_app; eauto. Qed.
Lemma search_spec v : v < N -> exists t, bfs_edges3 g v = Ok t /\ length (map snd t) <= N /\ forall w, In w (v :: map snd t) <-> reachable g v w.
Proof.
  intros L. destruct (C44_bfs_edge_range3 (seed := v) TO L) as (T & TR & E). exists (match T with [] => [(v, v)] | _ => T end). split; auto.
  destruct (C44_tree_edges TR) as [ND IF]. destruct T as [|e T].
  - split; [cbn; lia|]. intros w. cbn. split.
    + intros [<-|[<-|[]]]; apply reach_refl.
    + intros R. destruct (Nat.eq_dec w v) as [->|NE]; auto. exfalso. apply (IF w). auto.
  - split.
    + rewrite <- (seq_length N 0). apply NoDup_incl_length; auto. intros w I. apply in_seq. apply IF in I. destruct I as [R _]. apply reach_lt in R; auto. lia.
    + intros w. split.
      * intros [<-|I]; [apply reach_refl|]. apply IF in I. tauto.
      * intros R. destruct (Nat.eq_dec v w) as [->|NE]; [now left|]. right. apply IF. split; auto.
Qed.
Lemma search_self v t : v < N -> bfs_edges3 g v = Ok t -> In v (map snd t) -> map snd t = [v].
Proof.
  intros L E I. destruct (C44_bfs_edge_range3 (seed := v) TO L) as (T & TR & E'). rewrite E in E'. injection E' as ->. destruct (C44_tree_edges TR) as [ND IF]. destruct T as [|e T]; auto. apply IF in I. exfalso. tauto.
Qed.

(** ** Every schedule *)
Definition waiting (t : ct) (x : nat) : Prop := match t with CTest v | CInc v | CLoad v _ | CStore v _ _ => v = x end.
Definition fresh (t : ct) : nat := match t with CTest _ | CInc _ => 1 | _ => 0 end.
Definition task_ok (k : nat) (t : ct) : Prop :=
  match t with CTest v | CInc v => v < N | CLoad w r => w < N /\ (forall x, In x r -> x < N) /\ 1 <= k | CStore w c r => w < N /\ (forall x, In x r -> x < N) /\ c < k end.
Record inv (ts : list ct) (s : list nat * nat) : Prop := {
  i_len : length (fst s) = N;
  i_k : exists k, snd s = (W - 1 + k) mod W /\ k + sum (map fresh ts) <= N /\ (forall t, In t ts -> task_ok k t) /\
    forall x, x < N -> nth x (fst s) (W - 1) = W - 1 \/ nth x (fst s) (W - 1) < k;
  i_wait : forall x, x < N -> (exists t, In t ts /\ waiting t x) \/ nth x (fst s) (W - 1) <> W - 1 }.
Lemma counter_value k : 1 <= k -> k <= N -> (W - 1 + k) mod W = k - 1.
Proof. intros A B. replace (W - 1 + k) with (k - 1 + 1 * W) by lia. rewrite Nat.mod_add by lia. apply Nat.mod_small. lia. Qed.
Lemma counter_next k : k < N -> ((W - 1 + k) mod W + 1) mod W = (W - 1 + S k) mod W.
Proof. intros L. rewrite Nat.add_mod_idemp_l by lia. f_equal. lia. Qed.
Lemma in_mid A (x t : A) l1 l2 : In x (l1 ++ t :: l2) <-> In x (l1 ++ l2) \/ x = t.
Proof. rewrite !in_app_iff. cbn. intuition. Qed.
Lemma in_opt A (x : A) l1 o l2 : In x (l1 ++ opt_list o ++ l2) <-> In x (l1 ++ l2) \/ o = Some x.
Proof. rewrite !in_app_iff. destruct o as [a|]; cbn; split; [intros [H|[[->|[]]|H]]; auto|intros [[H|H]|[= ->]]; auto|intros [H|[[]|H]]; auto|intros [[H|H]|[=]]; auto]. Qed.
Lemma sum_mid l1 t l2 : sum (map fresh (l1 ++ t :: l2)) = sum (map fresh (l1 ++ l2)) + fresh t.
Proof. rewrite !map_app, !sum_app. cbn [map sum]. lia. Qed.
Lemma sum_opt l1 o l2 : sum (map fresh (l1 ++ opt_list o ++ l2)) = sum (map fresh (l1 ++ l2)) + match o with Some t => fresh t | None => 0 end.
Proof. rewrite !map_app, !sum_app. destruct o; cbn; lia. Qed.
Lemma inv_step l1 t l2 s : inv (l1 ++ t :: l2) s ->
  exists o s', c_step W g t s = Ok (o, s') /\ inv (l1 ++ opt_list o ++ l2) s' /\ match o with Some t' => c_size N t' < c_size N t | None => True end.
Proof.
  intros [LEN (k & EC & KS & TK & LAB) WT]. destruct s as [ids c]. cbn [fst snd] in *. rewrite sum_mid in KS.
  assert (TT : task_ok k t) by (apply TK, in_mid; now right).
  assert (OT : forall x, In x (l1 ++ l2) -> task_ok k x) by (intros x I; apply TK, in_mid; now left).
  destruct t as [v|v|w r|w cc r]; cbn [c_step fresh] in *.
  - cbn [task_ok] in TT. rewrite (@vget_nth _ _ v (W - 1)) by lia. cbn [bind]. eexists _, (ids, c). split; [reflexivity|]. destruct (Nat.eqb_spec (W - 1) (nth v ids (W - 1))) as [Q|Q].
    + split; [|cbn; lia]. constructor; cbn [fst snd]; auto.
      * exists k. split; auto. rewrite sum_opt. cbn [fresh]. split; [lia|]. split; auto. intros t I. apply in_opt in I. destruct I as [I|[= <-]]; auto.
      * intros x Lx. destruct (WT x Lx) as [(t & I & Wt)|]; auto. left. apply in_mid in I. destruct I as [I| ->]; [exists t; split; auto; apply in_opt; auto|]. exists (CInc v). split; auto. apply in_opt. auto.
    + split; auto. constructor; cbn [fst snd]; auto.
      * exists k. split; auto. rewrite sum_opt. split; [lia|]. split; [exact OT|exact LAB].
      * intros x Lx. destruct (WT x Lx) as [(t & I & Wt)|]; auto. apply in_mid in I. destruct I as [I| ->]; [left; exists t; split; auto; apply in_opt; auto|]. cbn in Wt. subst x. right. auto.
  - cbn [task_ok] in TT. destruct (search_spec TT) as (t & E & LT & IT). rewrite E. cbn [bind]. eexists _, _. split; [reflexivity|]. split; [|cbn; lia].
    assert (RN : forall x, In x (map snd t) -> x < N) by (intros x I; apply (@reach_lt v); auto; apply IT; now right).
    constructor; cbn [fst snd]; auto.
    + exists (S k). split; [rewrite EC; apply counter_next; lia|]. rewrite sum_opt. cbn [fresh]. split; [lia|]. split.
      * intros t0 I. apply in_opt in I. destruct I as [I|[= <-]]; [|cbn; repeat split; auto; lia]. apply OT in I. destruct t0; cbn in *; intuition; lia.
      * intros x Lx. destruct (LAB x Lx); [now left|right; lia].
    + intros x Lx. destruct (WT x Lx) as [(t0 & I & Wt)|]; auto. left. apply in_mid in I. destruct I as [I| ->]; [exists t0; split; auto; apply in_opt; auto|]. exists (CLoad v (map snd t)). split; auto. apply in_opt. auto.
  - destruct TT as (Lw & Lr & K1). eexists _, _. split; [reflexivity|]. split; [|cbn; lia]. constructor; cbn [fst snd]; auto.
    + exists k. split; auto. rewrite sum_opt. cbn [fresh]. split; [lia|]. split; auto. intros t I. apply in_opt in I. destruct I as [I|[= <-]]; auto. cbn. repeat split; auto. rewrite EC, counter_value by lia. lia.
    + intros x Lx. destruct (WT x Lx) as [(t & I & Wt)|]; auto. left. apply in_mid in I. destruct I as [I| ->]; [exists t; split; auto; apply in_opt; auto|]. exists (CStore w c r). split; auto. apply in_opt. auto.
  - destruct TT as (Lw & Lr & K1). rewrite vset_lt by lia. cbn [bind]. eexists _, _. split; [reflexivity|]. split; [|destruct r; cbn; lia]. constructor; cbn [fst snd]; [now rewrite upd_length| |].
    + exists k. split; auto. rewrite sum_opt. split; [destruct r; cbn [fresh]; lia|]. split.
      * intros t I. apply in_opt in I. destruct I as [I|I]; auto. destruct r as [|x r]; [discriminate|]. injection I as <-. cbn. split; [apply Lr; now left|]. split; [intros y J; apply Lr; now right|lia].
      * intros x Lx. rewrite nth_upd by lia. destruct (x =? w); auto.
    + intros x Lx. rewrite nth_upd by lia. destruct (Nat.eqb_spec x w) as [->|NE]; [right; lia|]. destruct (WT x Lx) as [(t & I & Wt)|]; auto. left. apply in_mid in I. destruct I as [I| ->]; [exists t; split; auto; apply in_opt; auto|]. cbn in Wt. congruence.
Qed.
Let start := map CTest (seq 0 N).
Let init := (repeat (W - 1) N, W - 1).
Lemma inv_init : inv start init.
Proof.
  constructor; cbn [init fst snd].
  - apply repeat_length.
  - exists 0. split; [rewrite Nat.add_0_r, Nat.mod_small by lia; reflexivity|]. split.
    + unfold start. rewrite map_map. cbn [fresh]. assert (G : forall l, sum (map (fun _ : nat => 1) l) = length l) by (induction l; cbn; auto). rewrite G, seq_length. lia.
    + split; [intros t I; apply in_map_iff in I; destruct I as (v & <- & I); apply in_seq in I; cbn; lia|]. intros x Lx. left. apply nth_repeat.
  - intros x Lx. left. exists (CTest x). split; [|reflexivity]. apply in_map, in_seq. lia.
Qed.
Lemma inv_total sched : exists r, run_all (c_size N) (c_step W g) sched start init = Ok r /\ inv [] r.
Proof. apply run_all_inv; [exact inv_step|exact inv_init]. Qed.
Lemma inv_final r : inv [] r -> length (fst r) = N /\ forall x, x < N -> nth x (fst r) (W - 1) < N.
Proof.
  intros [LEN (k & _ & KS & _ & LAB) WT]. split; auto. intros x Lx. cbn in KS. destruct (WT x Lx) as [(t & [] & _)|NM]. destruct (LAB x Lx); [easy|]. lia.
Qed.
Lemma compute_run sched : compute_connected_components W g sched (repeat (W - 1) N) = do r <- run_all (c_size N) (c_step W g) sched start init ; Ok (fst r).
Proof. unfold compute_connected_components. rewrite Nat.mod_small by auto. reflexivity. Qed.

(** ** Painting *)
Definition paint (c : nat) (ws ids : list nat) : list nat := fold_left (fun ids w => upd ids w c) ws ids.
Lemma paint_length c ws : forall ids, length (paint c ws ids) = length ids.
Proof. induction ws as [|w ws IH]; intros ids; auto. cbn. unfold paint in IH. rewrite IH. apply upd_length. Qed.
Lemma paint_in c ws d : forall ids x, In x ws -> x < length ids -> nth x (paint c ws ids) d = c.
Proof.
  induction ws as [|w ws IH] using rev_ind; intros ids x I L; [easy|]. unfold paint. rewrite fold_left_app. cbn [fold_left]. change (fold_left _ ws ids) with (paint c ws ids). destruct (Nat.eq_dec x w) as [->|NE].
  - rewrite nth_upd_eq; auto. now rewrite paint_length.
  - rewrite nth_upd_neq by auto. apply IH; auto. apply in_app_or in I. destruct I as [I|[->|[]]]; auto. easy.
Qed.
Lemma paint_out c ws d : forall ids x, ~ In x ws -> nth x (paint c ws ids) d = nth x ids d.
Proof. induction ws as [|w ws IH]; intros ids x NI; auto. cbn [paint fold_left]. change (fold_left _ ws (upd ids w c)) with (paint c ws (upd ids w c)). rewrite IH; [|intros I; apply NI; now right]. apply nth_upd_neq. intros ->. apply NI. now left. Qed.
Lemma solo_q l2 c : forall r w ids, (forall x, In x (w :: r) -> x < length ids) -> qsteps (c_step W g) (CLoad w r :: l2) (ids, c) l2 (paint c (w :: r) ids, c).
Proof.
  induction r as [|x r IH]; intros w ids H.
  - eapply qs_step; [reflexivity|]. cbn [opt_list app]. eapply qs_step; [cbn [c_step]; rewrite vset_lt by (apply H; now left); reflexivity|]. constructor.
  - eapply qs_step; [reflexivity|]. cbn [opt_list app]. eapply qs_step; [cbn [c_step]; rewrite vset_lt by (apply H; now left); reflexivity|]. cbn [opt_list app]. apply (IH x (upd ids w c)). intros y I. rewrite upd_length. apply H. now right.
Qed.
Lemma solo l1 l2 c : forall r w ids, (forall x, In x (w :: r) -> x < length ids) -> psteps (c_step W g) (l1 ++ CLoad w r :: l2) (ids, c) (l1 ++ l2) (paint c (w :: r) ids, c).
Proof.
  induction r as [|x r IH]; intros w ids H.
  - eapply ps_step; [reflexivity|]. cbn [opt_list app]. eapply ps_step; [cbn [c_step]; rewrite vset_lt by (apply H; now left); reflexivity|]. constructor.
  - eapply ps_step; [reflexivity|]. cbn [opt_list app]. eapply ps_step; [cbn [c_step]; rewrite vset_lt by (apply H; now left); reflexivity|]. cbn [opt_list app]. apply (IH x (upd ids w c)). intros y I. rewrite upd_length. apply H. now right.
Qed.

(** ** In order *)
(** i is the last position of [roots] whose root reaches x. *)
Definition last_root (roots : list nat) (x i : nat) : Prop :=
  i < length roots /\ reachable g (nth i roots 0) x /\ forall j, i < j -> j < length roots -> ~ reachable g (nth j roots 0) x.
Definition are_roots (v : nat) (roots : list nat) : Prop := StronglySorted lt roots /\ forall r, In r roots <-> r < v /\ forall u, u < r -> ~ reachable g u r.
Record sinv (v : nat) (roots : list nat) (s : list nat * nat) : Prop := {
  s_len : length (fst s) = N;
  s_cnt : snd s = (W - 1 + length roots) mod W;
  s_roots : are_roots v roots;
  s_lab : forall x, x < N -> last_root roots x (nth x (fst s) (W - 1)) \/ ((forall r, In r roots -> ~ reachable g r x) /\ nth x (fst s) (W - 1) = W - 1) }.
Lemma roots_le v roots : are_roots v roots -> length roots <= v.
Proof.
  intros [SS IF]. rewrite <- (seq_length v 0). apply NoDup_incl_length; [|intros r I; apply IF in I; apply in_seq; lia].
  clear IF. induction SS as [|r l SS IH F]; constructor; auto. intros I. rewrite Forall_forall in F. apply F in I. lia.
Qed.
Lemma sorted_snoc l v : StronglySorted lt l -> (forall x, In x l -> x < v) -> StronglySorted lt (l ++ [v]).
Proof.
  induction 1 as [|a l SS IH F]; intros H; cbn; [repeat constructor|]. constructor; [apply IH; intros x I; apply H; now right|]. apply Forall_app. split; auto. constructor; auto. apply H. now left.
Qed.
Lemma reach_dec v w : v < N -> {reachable g v w} + {~ reachable g v w}.
Proof.
  intros L. destruct (bfs_edges3 g v) as [t| |] eqn:E.
  - destruct (in_dec Nat.eq_dec w (v :: map snd t)) as [I|I]; [left|right]; destruct (search_spec L) as (t' & E' & _ & IF); assert (t' = t) by congruence; subst t'.
    + now apply IF.
    + intros R. apply I. now apply IF.
  - exfalso. destruct (search_spec L) as (t' & E' & _). congruence.
  - exfalso. destruct (search_spec L) as (t' & E' & _). congruence.
Qed.
(** Every vertex is reached from one that no smaller vertex reaches. *)
Lemma root_exists u : u < N -> exists r, r <= u /\ reachable g r u /\ forall u', u' < r -> ~ reachable g u' r.
Proof.
  induction u as [u IH] using lt_wf_ind. intros L.
  assert (D : (exists u', u' < u /\ reachable g u' u) \/ forall u', u' < u -> ~ reachable g u' u).
  { assert (G : forall m, m <= u -> (exists u', u' < m /\ reachable g u' u) \/ forall u', u' < m -> ~ reachable g u' u).
    { induction m as [|m IHm]; intros Lm; [right; intros; lia|]. destruct IHm as [(u' & A & B)|H]; [lia|left; exists u'; split; auto|]. destruct (@reach_dec m u ltac:(lia)) as [R|R]; [left; exists m; auto|]. right. intros u' Lu. destruct (Nat.eq_dec u' m) as [->|]; auto. apply H. lia. }
    apply (G u). lia. }
  destruct D as [(u' & A & B)|H].
  - destruct (IH u' A ltac:(lia)) as (r & C1 & C2 & C3). exists r. split; [lia|]. split; auto. eapply reach_trans; eauto.
  - exists u. split; auto. split; auto. apply reach_refl.
Qed.
Lemma in_order_step v roots ids c l2 : v < N -> sinv v roots (ids, c) ->
  exists roots' s', qsteps (c_step W g) (CTest v :: l2) (ids, c) l2 s' /\ sinv (S v) roots' s'.
Proof.
  intros Lv [LEN CNT RT LAB]. cbn [fst snd] in *. assert (RL := roots_le RT). destruct RT as [SS IF].
  assert (NR : (forall u, u < v -> ~ reachable g u v) <-> nth v ids (W - 1) = W - 1).
  { split.
    - intros H. destruct (LAB v Lv) as [(A & B & _)|[_ E]]; auto. exfalso. apply (nth_In roots 0) in A. apply IF in A. destruct A as [A _]. now apply (H _ A).
    - intros E u Lu R. destruct (LAB v Lv) as [(A & _)|[H _]]; [lia|]. destruct (@root_exists u ltac:(lia)) as (r & C1 & C2 & C3). apply (H r); [apply IF; split; auto; lia|]. eapply reach_trans; eauto. }
  destruct (Nat.eq_dec (nth v ids (W - 1)) (W - 1)) as [Q|Q].
  - destruct (search_spec Lv) as (t & E & LT & IT). exists (roots ++ [v]), (paint (length roots) (v :: map snd t) ids, length roots).
    assert (C' : (c + 1) mod W = length roots) by (rewrite CNT, counter_next by lia; rewrite counter_value by lia; lia).
    split.
    + eapply qs_step; [cbn [c_step]; rewrite (@vget_nth _ _ v (W - 1)) by lia; cbn [bind]; rewrite Q, Nat.eqb_refl; reflexivity|]. cbn [opt_list app].
      eapply qs_step; [cbn [c_step]; rewrite E; reflexivity|]. cbn [opt_list app]. rewrite C'. apply solo_q. intros x I. rewrite LEN. apply (@reach_lt v); auto. now apply IT.
    + constructor; cbn [fst snd].
      * now rewrite paint_length.
      * rewrite app_length. cbn [length]. rewrite counter_value by lia. lia.
      * split; [apply sorted_snoc; auto; intros x I; apply IF in I; lia|]. intros r. rewrite in_app_iff, IF. cbn. split.
        -- intros [[A B]|[<-|[]]]; [split; [lia|auto]|]. split; [lia|]. now apply NR.
        -- intros [A B]. destruct (Nat.eq_dec r v) as [->|]; auto. left. split; [lia|auto].
      * intros x Lx. destruct (in_dec Nat.eq_dec x (v :: map snd t)) as [I|I].
        -- left. rewrite paint_in by (auto; lia). split; [rewrite app_length; cbn; lia|]. split; [|intros j A B; rewrite app_length in B; cbn in B; lia]. rewrite app_nth2, Nat.sub_diag by lia. now apply IT.
        -- rewrite paint_out by auto. assert (NV : ~ reachable g v x) by (intros R; apply I; now apply IT). destruct (LAB x Lx) as [(A & B & D)|[H E']].
           ++ left. split; [rewrite app_length; lia|]. rewrite app_nth1 by auto. split; auto. intros j J1 J2. rewrite app_length in J2. cbn in J2. destruct (Nat.eq_dec j (length roots)) as [->|]; [rewrite app_nth2, Nat.sub_diag by lia; exact NV|]. rewrite app_nth1 by lia. apply D; lia.
           ++ right. split; auto. intros r J. apply in_app_or in J. destruct J as [J|[<-|[]]]; auto.
  - exists roots, (ids, c). split.
    + apply qs_step with (o := None) (s' := (ids, c)); [|apply qs_refl]. cbn [c_step]. rewrite (@vget_nth _ _ v (W - 1)) by lia. cbn [bind]. destruct (Nat.eqb_spec (W - 1) (nth v ids (W - 1))); [congruence|reflexivity].
    + constructor; auto. split; auto. intros r. rewrite IF. split; [intros [A B]; split; [lia|auto]|]. intros [A B]. split; auto. destruct (Nat.eq_dec r v) as [->|]; [|lia]. exfalso. apply Q. now apply NR.
Qed.
Lemma in_order n : forall v roots s, v + n = N -> sinv v roots s -> exists roots' s', qsteps (c_step W g) (map CTest (seq v n)) s [] s' /\ sinv N roots' s'.
Proof.
  induction n as [|n IH]; intros v roots s E H.
  - exists roots, s. split; [constructor|]. now replace N with v by lia.
  - destruct s as [ids c]. cbn [seq map]. destruct (@in_order_step v roots ids c (map CTest (seq (S v) n)) ltac:(lia) H) as (roots1 & s1 & Q1 & H1).
    destruct (IH (S v) roots1 s1 ltac:(lia) H1) as (roots2 & s2 & Q2 & H2). exists roots2, s2. split; auto. eapply qs_trans; eauto.
Qed.
Lemma sequential : exists roots ids, compute_connected_components W g (fun _ => 0) (repeat (W - 1) N) = Ok ids /\ length ids = N /\ are_roots N roots /\ forall x, x < N -> last_root roots x (nth x ids (W - 1)).
Proof.
  destruct (@in_order N 0 [] init eq_refl) as (roots & s' & Q & H).
  { constructor; cbn [init fst snd].
    - apply repeat_length.
    - cbn [length]. rewrite Nat.add_0_r, Nat.mod_small by lia. reflexivity.
    - split; [constructor|]. intros r. split; [easy|]. intros [A _]. lia.
    - intros x Lx. right. split; [easy|]. apply nth_repeat. }
  destruct (inv_total (fun _ => 0)) as (r & E & F). exists roots, (fst s'). rewrite compute_run. unfold run_all in *. rewrite (@qs_schedule _ _ _ start init s' _ Q) by (exists r; exact E). split; auto.
  destruct H as [LEN _ RT LAB]. split; auto. split; auto. intros x Lx. destruct (LAB x Lx) as [|[H _]]; auto. exfalso. destruct (root_exists Lx) as (r0 & A & B & C). apply (H r0); auto. apply RT. split; auto. lia.
Qed.

(** ** Races *)
Hypothesis SYM : forall u v, edge g u v -> edge g v u.
Lemma reach_sym u v : reachable g u v -> reachable g v u.
Proof. intros [k WK]. induction WK as [|k x y WK IH E]; [apply reach_refl|]. eapply reach_trans; [|exact IH]. exists 1. apply walk_S with (u := y); [constructor|]. now apply SYM. Qed.
(** The vertices of P keep their labels: nothing that is still to be done touches them. *)
Definition away (P : nat -> Prop) (t : ct) : Prop :=
  match t with CTest v => True | CInc v => ~ P v | CLoad w r | CStore w _ r => forall x, In x (w :: r) -> ~ P x end.
Definition frozen (P : nat -> Prop) (f : nat -> nat) (ts : list ct) (s : list nat * nat) : Prop :=
  inv ts s /\ (forall t, In t ts -> away P t) /\ forall x, P x -> x < N -> nth x (fst s) (W - 1) = f x.
Lemma frozen_step (P : nat -> Prop) f : (forall u v, P u -> reachable g v u -> P v) -> (forall x, P x -> f x < N) -> forall l1 t l2 s, frozen P f (l1 ++ t :: l2) s ->
  exists o s', c_step W g t s = Ok (o, s') /\ frozen P f (l1 ++ opt_list o ++ l2) s' /\ match o with Some t' => c_size N t' < c_size N t | None => True end.
Proof.
  intros CL FN l1 t l2 s (I & AW & FR). destruct (@inv_step _ _ _ _ I) as (o & s' & E & I' & M). exists o, s'. split; auto. split; auto.
  assert (LEN := i_len I). assert (TK : exists k, task_ok k t) by (destruct (i_k I) as (k & _ & _ & TK & _); exists k; apply TK, in_mid; now right). destruct TK as (k & TK).
  assert (AT : away P t) by (apply AW, in_mid; now right). assert (AO : forall t', In t' (l1 ++ l2) -> away P t') by (intros t' J; apply AW, in_mid; now left).
  destruct s as [ids c]. cbn [fst] in *. split; auto. destruct t as [v|v|w r|w cc r]; cbn [c_step] in E.
  - cbn in TK. rewrite (@vget_nth _ _ v (W - 1)) in E by lia. cbn [bind] in E. injection E as <- <-. split; auto. intros t' J. apply in_opt in J. destruct J as [J|J]; auto. destruct (Nat.eqb_spec (W - 1) (nth v ids (W - 1))) as [Q|]; [|discriminate]. injection J as <-. cbn. intros PV. assert (X := FR v PV TK). assert (Y := FN v PV). lia.
  - cbn in TK. destruct (search_spec TK) as (t & Et & _ & IT). rewrite Et in E. cbn [bind] in E. injection E as <- <-. split; auto. intros t' J. apply in_opt in J. destruct J as [J|[= <-]]; auto. intros x Ix PX. apply AT. apply (CL x); auto. now apply IT.
  - injection E as <- <-. split; auto. intros t' J. apply in_opt in J. destruct J as [J|[= <-]]; auto.
  - destruct TK as (Lw & _). rewrite vset_lt in E by lia. cbn [bind] in E. injection E as <- <-. cbn [fst]. split.
    + intros t' J. apply in_opt in J. destruct J as [J|J]; auto. destruct r as [|y r]; [discriminate|]. injection J as <-. intros x Ix. apply AT. now right.
    + intros x PX Lx. rewrite nth_upd by lia. destruct (Nat.eqb_spec x w) as [->|]; auto. exfalso. apply (AT w); auto. now left.
Qed.
Lemma psteps_inv ts s ts' s' : psteps (c_step W g) ts s ts' s' -> inv ts s -> inv ts' s'.
Proof. induction 1 as [|l1 t l2 s o s' ts'' s'' E P IH]; auto. intros I. apply IH. destruct (@inv_step _ _ _ _ I) as (o' & s1 & E' & I' & _). rewrite E in E'. injection E' as <- <-. exact I'. Qed.
(** An execution that gets this far can be completed without changing the labels of P. *)
Lemma complete (P : nat -> Prop) f ts s : (forall u v, P u -> reachable g v u -> P v) -> (forall x, P x -> f x < N) -> psteps (c_step W g) start init ts s -> (forall t, In t ts -> exists v, t = CTest v) ->
  (forall x, P x -> x < N -> nth x (fst s) (W - 1) = f x) ->
  exists sched ids, compute_connected_components W g sched (repeat (W - 1) N) = Ok ids /\ forall x, P x -> x < N -> nth x ids (W - 1) = f x.
Proof.
  intros CL FN PS AT FR. destruct (@ps_end _ _ (c_step W g) (c_size N) (frozen P f) (@frozen_step P f CL FN) ts s) as (s' & PE & (_ & _ & FE)).
  { split; [exact (psteps_inv PS inv_init)|]. split; auto. intros t I. destruct (AT t I) as (v & ->). exact Logic.I. }
  destruct (@ps_schedule _ _ (c_step W g) start init s' (sum (map (c_size N) start) + length start)) as (sched & E).
  { eapply ps_trans; eauto. } { intros sched. destruct (inv_total sched) as (r & E & _). exists r. exact E. }
  exists sched, (fst s'). rewrite compute_run. unfold run_all. rewrite E. auto.
Qed.
Lemma start_split u v : u < v -> v < N -> exists A B C, start = A ++ CTest u :: B ++ CTest v :: C /\ forall t, In t (A ++ B ++ C) -> exists x, t = CTest x.
Proof.
  intros L1 L2. exists (map CTest (seq 0 u)), (map CTest (seq (S u) (v - u - 1))), (map CTest (seq (S v) (N - v - 1))). split.
  - unfold start. replace N with (u + (1 + ((v - u - 1) + (1 + (N - v - 1))))) at 1 by lia. rewrite (seq_app u), (seq_app 1), (seq_app (v - u - 1)), (seq_app 1). cbn [plus]. rewrite !map_app. cbn [seq map app].
    replace (u + 1) with (S u) by lia. replace (S u + (v - u - 1)) with v by lia. replace (v + 1) with (S v) by lia. reflexivity.
  - intros t I. rewrite !in_app_iff, !in_map_iff in I. destruct I as [(x & <- & _)|[(x & <- & _)|(x & <- & _)]]; eauto.
Qed.

Lemma race u v : u < v -> v < N ->
  (~ reachable g u v -> exists sched ids, compute_connected_components W g sched (repeat (W - 1) N) = Ok ids /\ nth u ids (W - 1) = 1 /\ nth v ids (W - 1) = 1) /\
  (reachable g u v -> exists sched ids, compute_connected_components W g sched (repeat (W - 1) N) = Ok ids /\ nth u ids (W - 1) = 0 /\ nth v ids (W - 1) = 1).
Proof.
  intros L1 L2. destruct (start_split L1 L2) as (A & B & C & ES & HT). destruct (@search_spec u ltac:(lia)) as (tu & Eu & _ & Iu). destruct (search_spec L2) as (tv & Ev & _ & Iv).
  assert (ST : forall x, c_step W g (CTest x) init = Ok (if x <? N then Some (CInc x) else None, init) \/ N <= x).
  { intros x. destruct (Nat.ltb_spec x N); auto. left. unfold init. cbn [c_step]. rewrite (@vget_nth _ _ x (W - 1)) by (rewrite repeat_length; auto). cbn [bind]. now rewrite nth_repeat, Nat.eqb_refl. }
  assert (Su : c_step W g (CTest u) init = Ok (Some (CInc u), init)) by (destruct (ST u) as [->|]; [|lia]; rewrite (proj2 (Nat.ltb_lt u N)) by lia; auto).
  assert (Sv : c_step W g (CTest v) init = Ok (Some (CInc v), init)) by (destruct (ST v) as [->|]; [|lia]; rewrite (proj2 (Nat.ltb_lt v N)) by lia; auto).
  set (ids0 := repeat (W - 1) N). assert (L0 : length ids0 = N) by apply repeat_length.
  assert (C0 : (W - 1 + 1) mod W = 0) by (replace (W - 1 + 1) with (0 + 1 * W) by lia; rewrite Nat.mod_add by lia; apply Nat.mod_small; lia).
  assert (C1 : (0 + 1) mod W = 1) by (apply Nat.mod_small; lia).
  (** both have found that they are not labelled, u has incremented the counter *)
  assert (P1 : psteps (c_step W g) start init (A ++ CLoad u (map snd tu) :: B ++ CInc v :: C) (ids0, 0)).
  { rewrite ES. eapply ps_step; [exact Su|]. cbn [opt_list app]. replace (A ++ CInc u :: B ++ CTest v :: C) with ((A ++ CInc u :: B) ++ CTest v :: C) by (rewrite <- app_assoc; reflexivity).
    eapply ps_step; [exact Sv|]. cbn [opt_list app]. rewrite <- app_assoc. cbn [app]. eapply ps_step; [unfold init; cbn [c_step]; rewrite Eu; cbn [bind]; rewrite C0; reflexivity|]. cbn [opt_list app]. constructor. }
  assert (Bu : forall ids : list nat, length ids = N -> forall x, In x (u :: map snd tu) -> x < length ids) by (intros ids LI x I; rewrite LI; apply (@reach_lt u); [lia|]; now apply Iu).
  assert (Bv : forall ids : list nat, length ids = N -> forall x, In x (v :: map snd tv) -> x < length ids) by (intros ids LI x I; rewrite LI; apply (@reach_lt v); [lia|]; now apply Iv).
  split.
  - intros NR. set (ids1 := paint 1 (u :: map snd tu) ids0). assert (LI1 : length ids1 = N) by (unfold ids1; now rewrite paint_length). set (ids2 := paint 1 (v :: map snd tv) ids1).
    assert (P2 : psteps (c_step W g) start init (A ++ B ++ C) (ids2, 1)).
    { eapply ps_trans; [exact P1|]. replace (A ++ CLoad u (map snd tu) :: B ++ CInc v :: C) with ((A ++ CLoad u (map snd tu) :: B) ++ CInc v :: C) by (rewrite <- app_assoc; reflexivity).
      eapply ps_step; [cbn [c_step]; rewrite Ev; cbn [bind]; rewrite C1; reflexivity|]. cbn [opt_list app]. rewrite <- app_assoc. cbn [app].
      eapply ps_trans; [apply solo; apply Bu; auto|]. fold ids1. replace (A ++ B ++ CLoad v (map snd tv) :: C) with ((A ++ B) ++ CLoad v (map snd tv) :: C) by (now rewrite <- app_assoc).
      rewrite (app_assoc A B C). apply solo. apply Bv. auto. }
    destruct (@complete (fun x => reachable g u x \/ reachable g v x) (fun _ => 1) (A ++ B ++ C) (ids2, 1)) as (sched & ids & E & H); auto.
    + intros x y [R|R] R'; [left|right]; apply (reach_trans R); now apply reach_sym.
    + intros _ _. lia.
    + intros x PX Lx. cbn [fst]. unfold ids2. destruct (in_dec Nat.eq_dec x (v :: map snd tv)) as [I|I]; [apply paint_in; auto; lia|]. rewrite paint_out by auto. destruct PX as [R|R]; [|exfalso; apply I; now apply Iv]. unfold ids1. apply paint_in; [now apply Iu|lia].
    + exists sched, ids. split; auto. split; apply H; try lia; [left|right]; apply reach_refl.
  - intros R. set (ids1 := paint 1 (v :: map snd tv) ids0). assert (LI1 : length ids1 = N) by (unfold ids1; now rewrite paint_length).
    assert (NU : exists x r, map snd tu = x :: r). { destruct (map snd tu) as [|x r] eqn:Q; [|eauto]. exfalso. apply Iu in R. destruct R as [R|[]]. lia. } destruct NU as (x1 & r1 & EU).
    set (ids2 := upd ids1 u 0). assert (LI2 : length ids2 = N) by (unfold ids2; now rewrite upd_length). set (ids3 := paint 1 (x1 :: r1) ids2).
    assert (NIu : ~ In u (x1 :: r1)). { intros I. rewrite <- EU in I. apply search_self in I; auto; [|lia]. apply Iu in R. rewrite I in R. destruct R as [R|[R|[]]]; lia. }
    assert (P2 : psteps (c_step W g) start init (A ++ B ++ C) (ids3, 1)).
    { eapply ps_trans; [exact P1|]. rewrite EU. eapply ps_step; [reflexivity|]. cbn [opt_list app]. replace (A ++ CStore u 0 (x1 :: r1) :: B ++ CInc v :: C) with ((A ++ CStore u 0 (x1 :: r1) :: B) ++ CInc v :: C) by (rewrite <- app_assoc; reflexivity).
      eapply ps_step; [cbn [c_step]; rewrite Ev; cbn [bind]; rewrite C1; reflexivity|]. cbn [opt_list app]. eapply ps_trans; [apply solo; apply Bv; auto|]. fold ids1. rewrite <- app_assoc. cbn [app].
      eapply ps_step; [cbn [c_step]; rewrite vset_lt by lia; reflexivity|]. cbn [opt_list app]. apply solo. fold ids2. intros x I. apply Bu; auto. rewrite EU. now right. }
    destruct (@complete (fun x => reachable g u x) (fun x => if x =? u then 0 else 1) (A ++ B ++ C) (ids3, 1)) as (sched & ids & E & H); auto.
    + intros x y R1 R'. apply (reach_trans R1). now apply reach_sym.
    + intros x _. destruct (x =? u); lia.
    + intros x PX Lx. cbn [fst]. unfold ids3. destruct (Nat.eqb_spec x u) as [->|NE].
      * rewrite paint_out by auto. unfold ids2. apply nth_upd_eq. lia.
      * apply paint_in; [|lia]. apply Iu in PX. rewrite EU in PX. destruct PX; [congruence|auto].
    + exists sched, ids. split; auto. rewrite (H u), (H v) by (auto using reach_refl; lia). rewrite Nat.eqb_refl. split; auto. destruct (Nat.eqb_spec v u); [lia|auto].
Qed.
End Components.
