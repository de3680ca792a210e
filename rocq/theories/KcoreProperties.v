(** C49: k_core. *)
From Coq Require Import List Arith Bool ZArith Lia.
From Verif Require Import Base GraphLib SumLib WalkModel WalkProofs KcoreModel KcoreTermProofs KcoreProofs.
Import ListNotations.
Set Implicit Arguments.
Local Open Scope nat_scope.

(** ** What always holds *)
(** k_core comes to an end on every graph: its depth-first walk, in which a vertex stays white while it is current and row
    iterators may run past their rows, always runs out. *)
Theorem C49_terminates : forall debug g k, k_core debug g k <> OutOfFuel.
Proof. exact k_core_fuel. Qed.
(** Whatever pairs the walk visits, the number of vertices returned is that of the vertices without incoming arcs and of
    those with more incoming arcs than ends of removed pairs; the removed pairs are different, and each was removed when
    one of its ends had less than k arcs left. *)
Theorem C49_count : forall debug g k f n, k_core debug g k = Ok (f, n) ->
  n = Z.of_nat (length (filter (counted g f) (seq 0 (length g)))) /\ NoDup f /\
  forall f1 e f2, f = f1 ++ e :: f2 -> fst e <= snd e < length g /\
    exists v, (v = fst e \/ v = snd e) /\ (Z.of_nat (in_degree g v) - Z.of_nat (touches f1 v) < k)%Z.
Proof.
  intros debug g k f n H.
  destruct (@k_core_inv debug g k f n (fun st => forall f1 e f2, fst (fst st) = f1 ++ e :: f2 -> exists v, (v = fst e \/ v = snd e) /\ (Z.of_nat (in_degree g v) - Z.of_nat (touches f1 v) < k)%Z)) as (deg & I & R); auto.
  - intros deg _ f1 e f2 E. destruct f1; discriminate.
  - clear H. intros st v w st' I P H. destruct (@edge_inv g _ _ _ _ _ I H) as [I' [->|(VL & F & LT)]]; [exact P|].
    intros f1 e f2 E. rewrite F in E. destruct (@exists_last _ (e :: f2)) as (f3 & x & X); [discriminate|]. rewrite X, app_assoc in E. apply app_inj_tail in E. destruct E as [E1 E2]. subst x.
    destruct f3 as [|e' f3].
    + cbn in X. inversion X; subst. rewrite app_nil_r in E1. subst f1. exists v. split; [unfold my_pair; destruct (v <? w); cbn; auto|].
      destruct (ki_acct I) as (_ & A & _). cbn [fst snd] in A. rewrite A in LT by auto. exact LT.
    + cbn in X. inversion X; subst. apply (P f1 e' f3). exact E1.
  - cbn [fst] in R. destruct I as [(A1 & A2 & A3) N P]. cbn [fst snd] in *. split; [|split; [exact N|]].
    + rewrite A3, filter_len. reflexivity.
    + intros f1 e f2 E. split; [apply P; rewrite E; apply in_or_app; right; now left|]. now apply R with f2.
Qed.
(** On a simple undirected graph, when the walk has visited edges only: no edge of the k-core is removed, and all its
    vertices are counted, so that the number returned is at least that of the k-core. *)
Theorem C49_core_counted : forall debug g k f n, simple_graph g -> 0 < k -> k_core debug g (Z.of_nat k) = Ok (f, n) ->
  (forall e, In e f -> edge g (fst e) (snd e)) ->
  (forall C u v, dense g k C -> In u C -> In v C -> ~ In (u, v) f) /\ (forall v, in_core g k v -> counted g f v = true) /\
  forall core, NoDup core -> (forall v, In v core -> in_core g k v) -> (Z.of_nat (length core) <= n)%Z.
Proof.
  intros debug g k f n SG K H ALL. destruct (C49_count _ _ _ H) as (CN & ND & PR).
  assert (PO : forall e, In e f -> fst e <= snd e). { intros e I. apply in_split in I. destruct I as (f1 & f2 & E). apply (PR f1 e f2) in E. lia. }
  assert (CC : forall v, in_core g k v -> v < length g /\ counted g f v = true).
  { intros v (C & D & V). split; [apply (D v V)|]. unfold counted. assert (X : touches f v + k <= in_degree g v).
    { apply core_degree with C; auto. eapply core_kept; eauto. }
    apply orb_true_iff. right. apply Nat.ltb_lt. lia. }
  split; [|split].
  - intros C u v D U V I. exact (@core_kept debug g k f n C SG D H ALL _ I U V).
  - intros v V. now apply CC.
  - intros core NC IC. rewrite CN. apply inj_le. apply NoDup_incl_length; auto. intros v V. destruct (CC v (IC v V)). apply filter_In. split; auto. apply in_seq. lia.
Qed.

(** ** Where it goes wrong *)
(** Vertices without arcs are always counted, though they belong to no k-core with k > 0. *)
Theorem C49_isolated_counted : forall debug g k f n, k_core debug g (Z.of_nat k) = Ok (f, n) -> 0 < k ->
  (forall v, nth v g [] = [] -> ~ in_core g k v) /\
  (Z.of_nat (length (filter (fun v => in_degree g v =? 0)%nat (seq 0 (length g)))) <= n)%Z.
Proof.
  intros debug g k f n H K. split.
  - intros v E (C & D & V). destruct (D v V) as [_ X]. rewrite E in X. cbn in X. lia.
  - destruct (C49_count _ _ _ H) as (-> & _). apply inj_le. apply NoDup_incl_length; [apply NoDup_filter, seq_NoDup|].
    intros v V. apply filter_In in V. destruct V as [V E]. apply filter_In. split; auto. unfold counted. now rewrite E.
Qed.
Lemma fuel_S g : exists m, kc_fuel g = S m.
Proof. destruct (kc_fuel g) as [|m] eqn:F; eauto. unfold kc_fuel in F. apply Nat.mul_eq_0 in F. lia. Qed.
(** A graph without arcs: the first dereferenced iterator is past the end. *)
Theorem C49_no_arcs : forall debug g k, concat g = [] -> k_core debug g k = Ub.
Proof.
  intros debug g k E. unfold k_core, in_degrees. rewrite E. cbn [rfold bind]. unfold dfs_begin. destruct g as [|r g]; [reflexivity|].
  cbn [length repeat]. rewrite vset_lt by (cbn; lia). cbn [bind]. unfold row_of. cbn [vget nth_error bind]. destruct (fuel_S (r :: g)) as [m FM]. rewrite FM. cbn [kc_loop Q].
  unfold dfs_deref. cbn [be ub]. rewrite E, vget_ge by (cbn; lia). reflexivity.
Qed.
(** When every arc out of the first neighbour of vertex 0 and out of the vertices after it leads back to vertex 0, the
    search for an arc that does not runs off the array: so for a single edge, and for every star with centre 0. *)
Theorem C49_star_reads_past : forall debug g k w r0 rest, targets_ok g -> g = (w :: r0) :: rest -> w <> 0 ->
  (forall v x, w <= v -> edge g v x -> x = 0) -> k_core debug g k = Ub.
Proof.
  intros debug g k w r0 rest T G W A. unfold k_core. destruct (in_degrees_ok T) as (deg & ED). rewrite ED. cbn [bind].
  assert (WL : w < length g) by (apply (T 0); rewrite G; now left). assert (GL : length g = S (length rest)) by (rewrite G; reflexivity).
  unfold dfs_begin. rewrite GL. cbn [repeat]. rewrite vset_lt by (cbn; lia). cbn [upd bind]. unfold row_of at 1. rewrite G at 1. cbn [vget nth_error bind].
  destruct (fuel_S g) as [m FM]. rewrite FM. cbn [kc_loop Q fst snd bind].
  assert (U0 : vget (concat g) 0 = Ok w) by (rewrite G; reflexivity). assert (S0 : row_start g 0 = 0) by (rewrite G; reflexivity).
  assert (C0 : vget (grey :: repeat white (length rest)) w = Ok white).
  { destruct w as [|w]; [congruence|]. apply vget_Ok. cbn [nth_error]. rewrite (@nth_error_nth' _ _ _ white) by (rewrite repeat_length; lia). now rewrite nth_repeat. }
  unfold dfs_deref. cbn [be ub colors]. rewrite S0, U0. cbn [bind]. rewrite C0. cbn [bind cur].
  assert (EF := @edge_fuel k ([], deg, Z.of_nat (S (length rest))) (0, w)). rewrite GL in *.
  destruct (kc_edge k ([], deg, Z.of_nat (S (length rest))) (0, w)) as [st| |]; [|reflexivity|congruence]. cbn [bind].
  unfold dfs_incr. cbn [Q colors cur ub ue up hp be]. rewrite G at 1. cbn [length Nat.add Nat.eqb]. rewrite U0. cbn [bind]. rewrite C0. cbn [bind is_white].
  unfold dfs_down. cbn [Q colors cur ub ue up hp be]. rewrite vset_lt by (cbn; lia). cbn [bind]. unfold row_of. rewrite (@vget_nth _ g w []) by (rewrite GL; exact WL). cbn [bind fst snd].
  assert (SK : forall fuel p h u, row_start g w <= u -> length (concat g) <= u + fuel -> skip_parent fuel (concat g) 0 u p h = Ub).
  { induction fuel as [|fl IH]; intros p h u R L; cbn [skip_parent].
    - now rewrite vget_ge by lia.
    - unfold vget. destruct (nth_error (concat g) u) as [x|] eqn:NE; cbn [bind]; [|reflexivity].
      assert (X : x = 0).
      { rewrite <- (firstn_skipn w g), concat_app, nth_error_app2 in NE by (rewrite row_start_length; exact R). apply nth_error_In in NE. apply in_concat in NE. destruct NE as (r & RI & XI).
        destruct (In_nth _ _ [] RI) as (i & IL & IE). apply (A (w + i) x); [lia|]. unfold edge. rewrite <- (firstn_skipn w g), app_nth2, firstn_length_le by (rewrite ?firstn_length_le; lia).
        replace (w + i - w) with i by lia. now rewrite IE. }
      rewrite X. cbn. apply IH; lia. }
  rewrite SK by lia. reflexivity.
Qed.
(** To tell the k-core of an example: vertices that can be taken away one after the other are not in it. *)
Fixpoint peel (g : list (list nat)) (k : nat) (out l : list nat) : bool :=
  match l with
  | [] => true
  | v :: t => (length (filter (fun w => negb (mem w out)) (nth v g [])) <? k) && peel g k (v :: out) t
  end.
Lemma peel_out g k C : dense g k C -> forall l out, (forall x, In x out -> ~ In x C) -> peel g k out l = true -> forall x, In x l -> ~ In x C.
Proof.
  intros D. induction l as [|v l IH]; intros out O P x X; [contradiction|]. cbn [peel] in P. apply andb_true_iff in P. destruct P as [P1 P2]. apply Nat.ltb_lt in P1.
  assert (NV : ~ In v C).
  { intros V. destruct (D v V) as [_ K]. assert (LE : length (filter (fun w => mem w C) (nth v g [])) <= length (filter (fun w => negb (mem w out)) (nth v g []))).
    { clear - O. induction (nth v g []) as [|w r IH]; [apply le_n|]. cbn [filter]. destruct (mem w C) eqn:M, (mem w out) eqn:N; cbn [negb length]; try lia.
      exfalso. apply mem_In in M, N. exact (O w N M). }
    lia. }
  destruct X as [<-|X]; [exact NV|]. apply (IH (v :: out)); auto. intros y [<-|Y]; auto.
Qed.
Lemma simple_check g : forallb (fun v => forallb (fun w => (w <? length g) && mem v (nth w g []) && negb (w =? v)) (nth v g []) && (length (nodup Nat.eq_dec (nth v g [])) =? length (nth v g []))) (seq 0 (length g)) = true -> simple_graph g.
Proof.
  intros H. rewrite forallb_forall in H.
  assert (ROW : forall u v, edge g u v -> v < length g /\ edge g v u /\ v <> u).
  { intros u v E. assert (L := @edge_lt _ _ _ E). assert (X := H u (proj2 (in_seq _ _ _) (conj (Nat.le_0_l _) L))). apply andb_true_iff in X. destruct X as [X _].
    rewrite forallb_forall in X. specialize (X v E). apply andb_true_iff in X. destruct X as [X X3]. apply andb_true_iff in X. destruct X as [X1 X2].
    apply Nat.ltb_lt in X1. apply mem_In in X2. apply negb_true_iff, Nat.eqb_neq in X3. auto. }
  split; [intros u v E; apply (ROW u v E)|]. split; [intros u v E; apply (ROW u v E)|]. split; [intros v E; destruct (ROW v v E) as (_ & _ & N); congruence|].
  intros v. destruct (Nat.lt_ge_cases v (length g)) as [L|L]; [|rewrite nth_overflow by auto; constructor].
  assert (X := H v (proj2 (in_seq _ _ _) (conj (Nat.le_0_l _) L))). apply andb_true_iff in X. destruct X as [_ X]. apply Nat.eqb_eq in X.
  apply (@NoDup_incl_NoDup _ (nodup Nat.eq_dec (nth v g []))); [apply NoDup_nodup|lia|]. intros x I. apply nodup_In in I. exact I.
Qed.
Definition tailed : list (list nat) := [[1; 2; 3]; [0]; [0; 3]; [0; 2]].
Definition six : list (list nat) := [[2; 3]; [2; 4; 5]; [0; 1; 3; 5]; [0; 2; 4]; [1; 3; 5]; [1; 2; 4]].
Definition connected (g : list (list nat)) : Prop := forall v, v < length g -> reachable g 0 v.
(** [core] lists the k-core of g *)
Definition is_core (g : list (list nat)) (k : nat) (core : list nat) : Prop := NoDup core /\ forall v, In v core <-> in_core g k v.
Lemma tailed_core : is_core tailed 2 [0; 2; 3].
Proof.
  assert (D : dense tailed 2 [0; 2; 3]) by (intros u U; repeat (destruct U as [<-|U]; [cbn; lia|]); destruct U).
  split; [repeat constructor; cbn; intuition discriminate|]. intros v. split.
  - intros V. exists [0; 2; 3]. auto.
  - intros (C & DC & V). destruct (DC v V) as [L _]. assert (X := @peel_out tailed 2 C DC [1] [] ltac:(intros x []) eq_refl v).
    cbn in L. do 4 (destruct v as [|v]; [cbn in *; tauto|]). lia.
Qed.
Lemma six_core : is_core six 3 [].
Proof.
  split; [constructor|]. intros v. split; [intros []|]. intros (C & DC & V). destruct (DC v V) as [L _]. assert (X := @peel_out six 3 C DC [0; 3; 2; 4; 1; 5] [] ltac:(intros x []) eq_refl v).
  cbn in L. do 6 (destruct v as [|v]; [cbn in *; tauto|]). lia.
Qed.
Lemma tailed_connected : connected tailed.
Proof.
  intros v V. cbn in V. destruct v as [|v]; [exists 0; constructor|]. exists 1. eapply walk_S; [constructor|]. do 3 (destruct v as [|v]; [cbn; tauto|]). lia.
Qed.
Lemma six_connected : connected six.
Proof.
  intros v V. cbn in V. assert (W2 : walk six 0 1 2) by (eapply walk_S; [constructor|cbn; tauto]). assert (W3 : walk six 0 1 3) by (eapply walk_S; [constructor|cbn; tauto]).
  destruct v as [|[|[|[|[|[|v]]]]]]; [exists 0; constructor|exists 2|exists 1; exact W2|exists 1; exact W3|exists 2|exists 2|lia].
  - eapply walk_S; [exact W2|cbn; tauto].
  - eapply walk_S; [exact W3|cbn; tauto].
  - eapply walk_S; [exact W2|cbn; tauto].
Qed.
(** On connected simple undirected graphs the number returned can be smaller than that of the k-core, with edges inside
    the k-core removed (the walk has left its rows and taken vertices 1 and 3 for neighbours); and it can be larger, though
    only edges have been removed: one walk over the graph does not come back to the vertices whose degree has dropped. *)
Theorem C49_refuted :
  (exists g k f n core, simple_graph g /\ connected g /\ 0 < k /\ k_core true g (Z.of_nat k) = Ok (f, n) /\ is_core g k core /\
    (n < Z.of_nat (length core))%Z /\ (exists e, In e f /\ ~ edge g (fst e) (snd e)) /\
    exists u v, In u core /\ In v core /\ edge g u v /\ In (u, v) f) /\
  (exists g k f n core, simple_graph g /\ connected g /\ 0 < k /\ k_core true g (Z.of_nat k) = Ok (f, n) /\ is_core g k core /\
    (Z.of_nat (length core) < n)%Z /\ (forall e, In e f -> edge g (fst e) (snd e))).
Proof.
  split.
  - exists tailed, 2, [(1, 3); (0, 3); (2, 3); (0, 2)], 1%Z, [0; 2; 3].
    split; [now apply simple_check|]. split; [exact tailed_connected|]. split; [lia|]. split; [vm_compute; reflexivity|]. split; [exact tailed_core|]. split; [cbn; lia|]. split.
    + exists (1, 3). split; [cbn; tauto|]. cbn. intuition discriminate.
    + exists 2, 3. cbn. tauto.
  - exists six, 3, [(0, 2); (0, 3)], 5%Z, [].
    split; [now apply simple_check|]. split; [exact six_connected|]. split; [lia|]. split; [vm_compute; reflexivity|]. split; [exact six_core|]. split; [cbn; lia|].
    intros e [<-|[<-|[]]]; cbn; tauto.
Qed.

(** ** Examples *)
(** a right answer that meets the hypotheses of C49_core_counted: a triangle with a tail at another vertex *)
Definition tri_tail : list (list nat) := [[3]; [2; 3]; [1; 3]; [0; 1; 2]].
Example C49_right : simple_graph tri_tail /\ k_core true tri_tail 2 = Ok ([(0, 3)], 3%Z) /\ edge tri_tail 0 3 /\ in_core tri_tail 2 1.
Proof.
  split; [now apply simple_check|]. split; [vm_compute; reflexivity|]. split; [cbn; tauto|]. exists [1; 2; 3]. split; [|cbn; tauto].
  intros u U. repeat (destruct U as [<-|U]; [cbn; lia|]). destruct U.
Qed.
Example C49_isolated_run : k_core true [[2]; [2]; [0; 1]; []] 1 = Ok ([], 4%Z).
Proof. vm_compute. reflexivity. Qed.
Example C49_star_run : k_core false [[1; 2]; [0]; [0]] 1 = Ub /\ k_core false [[1]; [0]] 1 = Ub /\ targets_ok [[1; 2]; [0]; [0]].
Proof. split; [|split]; [vm_compute; reflexivity|vm_compute; reflexivity|]. apply simple_check. reflexivity. Qed.
Print Assumptions C49_terminates.
Print Assumptions C49_count.
Print Assumptions C49_core_counted.
Print Assumptions C49_isolated_counted.
Print Assumptions C49_no_arcs.
Print Assumptions C49_star_reads_past.
Print Assumptions C49_refuted.
