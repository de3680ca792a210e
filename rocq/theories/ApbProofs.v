(** Proofs about the search benchmarks apb/dfs.cpp and apb/bfs.cpp. *)
From Coq Require Import List Arith Lia Bool Permutation.
From Verif Require Import EdgeListModel CsrModel EdgeListProofs CsrProofs CsrProofs2 CsrProofs3 CsrProofs4 CsrProperties CbProofs ApbModel Base GraphLib.
Import ListNotations.
Set Implicit Arguments.

(** ** Reading the neighbours *)
Lemma rmap_get A (l : list A) : forall n a, a + n <= length l -> rmap (vget l) (seq a n) = Ok (firstn n (skipn a l)).
Proof.
  induction n; intros a L; cbn [seq rmap]; auto.
  destruct (skipn a l) as [|x t] eqn:E; [apply (f_equal (@length A)) in E; rewrite skipn_length in E; cbn in E; lia|].
  assert (N : nth_error l a = Some x).
  { rewrite <- (firstn_skipn a l), E, nth_error_app2; rewrite firstn_length, Nat.min_l by lia; auto. now rewrite Nat.sub_diag. }
  assert (E' : skipn (S a) l = t).
  { rewrite <- (firstn_skipn a l) at 1. rewrite E, skipn_app, firstn_length, Nat.min_l by lia.
    rewrite skipn_all2 by (rewrite firstn_length; lia). now replace (S a - a) with 1 by lia. }
  unfold vget at 1. rewrite N. cbn [bind]. rewrite IHn, E' by lia. reflexivity.
Qed.
Lemma map_fst_combine A B (l : list A) : forall (m : list B), length l = length m -> map fst (combine l m) = l.
Proof. induction l; destruct m; cbn; intros L; auto; try discriminate. f_equal. apply IHl. lia. Qed.

Lemma raw_of_row A (g : csr A) v row : csr_row g v = Ok row -> raw_targets g v = Ok (map fst row).
Proof.
  unfold csr_row, raw_targets. intros E. apply bind_Ok in E. destruct E as (a & -> & E). cbn [bind].
  apply bind_Ok in E. destruct E as (b & -> & E). cbn [bind].
  apply bind_Ok in E. destruct E as (ts & E1 & E). apply bind_Ok in E. destruct E as (xs & E2 & E). injection E as <-.
  unfold vslice in E1, E2.
  destruct ((a <=? b) && (b <=? length (csr_tgt g))) eqn:C1; [|discriminate]. destruct ((a <=? b) && (b <=? length (csr_att g))) eqn:C2; [|discriminate].
  apply andb_prop in C1. apply andb_prop in C2. rewrite !Nat.leb_le in *. injection E1 as <-. injection E2 as <-.
  rewrite map_fst_combine by (rewrite !firstn_length, !skipn_length; lia). apply rmap_get. lia.
Qed.
Lemma targets_of_row A (g : csr A) v row : csr_row g v = Ok row -> row_targets g v = Ok (map fst row).
Proof. unfold row_targets. intros ->. reflexivity. Qed.

Lemma firstn_upd A (l : list A) k x : k < length l -> firstn (S k) (upd l k x) = firstn k l ++ [x].
Proof.
  revert k. induction l as [|y l IH]; intros [|k] L; cbn in L; try lia; cbn; auto.
  f_equal. apply (IH k). lia.
Qed.
Lemma copy_row_ok W row : copy_row W row = Ok (map (int_index W) row).
Proof.
  unfold copy_row.
  assert (H : forall r p l, length l = length p + length r -> firstn (length p) l = map (int_index W) p ->
     exists l', rfold (fun (st : list nat * nat) x => do l <- vset (fst st) (snd st) (int_index W x) ; Ok (l, S (snd st))) r (l, length p) = Ok (l', length (p ++ r)) /\
       length l' = length l /\ firstn (length (p ++ r)) l' = map (int_index W) (p ++ r)).
  { induction r as [|x r IH]; intros p l L F; cbn [rfold].
    - rewrite app_nil_r. eauto.
    - cbn [fst snd]. cbn [length] in L. rewrite vset_lt by lia. cbn [bind].
      destruct (IH (p ++ [x]) (upd l (length p) (int_index W x))) as (l' & E & L' & F').
      + rewrite upd_length, app_length. cbn. lia.
      + rewrite app_length. cbn [length]. rewrite Nat.add_1_r, firstn_upd, F, map_app by lia. reflexivity.
      + rewrite app_length in E at 1. cbn [length] in E. rewrite Nat.add_1_r in E. rewrite <- app_assoc in *. cbn [app] in *.
        exists l'. rewrite upd_length in L'. auto. }
  destruct (H row [] (repeat 0 (length row))) as (l' & E & L & F); [now rewrite repeat_length|auto|].
  cbn [length app] in *. rewrite E. cbn [bind fst]. rewrite repeat_length in L. rewrite <- L, firstn_all in F. now rewrite F.
Qed.

(** The rows of a graph whose rows can all be read. *)
Lemma copied_ok A W (g : csr A) (rows : list (list nat)) : length rows = csr_size g ->
  (forall v, v < csr_size g -> row_targets g v = Ok (nth v rows [])) -> copied W g = Ok (map (map (int_index W)) rows).
Proof.
  intros L R. unfold copied.
  assert (H : forall n i l, i + n = csr_size g -> length l = csr_size g -> firstn i l = map (map (int_index W)) (firstn i rows) ->
     rfold (fun vg i => do row <- row_targets g i ; do r <- copy_row W row ; vset vg i r) (seq i n) l = Ok (map (map (int_index W)) rows)).
  { induction n; intros i l I Ll F; cbn [seq rfold].
    - f_equal. replace i with (length l) in F by lia. rewrite firstn_all in F. rewrite F. f_equal. apply firstn_all2. lia.
    - rewrite R by lia. cbn [bind]. rewrite copy_row_ok. cbn [bind]. rewrite vset_lt by lia. cbn [bind]. apply IHn; [lia|now rewrite upd_length|].
      rewrite firstn_upd by lia. rewrite F. replace (S i) with (i + 1) by lia.
      rewrite <- (firstn_skipn i rows) at 3. rewrite firstn_app, firstn_firstn, Nat.min_r by lia. rewrite firstn_length, Nat.min_l by lia.
      rewrite map_app. f_equal. replace (i + 1 - i) with 1 by lia.
      destruct (skipn i rows) as [|y t] eqn:E; [apply (f_equal (@length _)) in E; rewrite skipn_length in E; cbn in E; lia|]. cbn. f_equal.
      f_equal. rewrite <- (firstn_skipn i rows), E, app_nth2; rewrite firstn_length, Nat.min_l by lia; auto. now rewrite Nat.sub_diag. }
  apply H; auto. now rewrite repeat_length.
Qed.

(** ** Depth first *)
Definition at_true (vis : list bool) (v : nat) : Prop := nth v vis false = true.
Definition unv (vis : list bool) (v : nat) : bool := negb (nth v vis false).

Lemma push_ok vis : forall ns S0, (forall n, In n ns -> n < length vis) ->
  rfold (fun S n => do b <- vget vis n ; Ok (if negb b then n :: S else S)) ns S0 = Ok (rev (filter (unv vis) ns) ++ S0).
Proof.
  induction ns as [|n ns IH]; intros S0 H; cbn [rfold filter]; auto.
  rewrite (@vget_nth _ vis n false) by (apply H; now left). cbn [bind]. unfold unv at 1.
  rewrite IH by (intros; apply H; now right). destruct (negb (nth n vis false)); auto. cbn [rev]. now rewrite <- app_assoc.
Qed.
Lemma split_after A (P : list A) : forall S A0 v B, ~ In v P -> P ++ S = A0 ++ v :: B -> exists A', A0 = P ++ A' /\ S = A' ++ v :: B.
Proof.
  induction P as [|p P IH]; intros S A0 v B N E; cbn in *; [eauto|].
  destruct A0 as [|a A0]; cbn in E; injection E as E1 E2; [exfalso; auto|]. subst a.
  destruct (IH S A0 v B) as (A' & -> & E); auto. exists A'. auto.
Qed.

Lemma rows_seq (g : list (list nat)) : map (fun v => nth v g []) (seq 0 (length g)) = g.
Proof.
  apply nth_ext with (d := []) (d' := []); [now rewrite map_length, seq_length|]. intros i L. rewrite map_length, seq_length in L.
  now rewrite (nth_map_seq (fun v => nth v g [])).
Qed.

Section DFS.
Variables (g : list (list nat)) (seed : nat) (nbrs : nat -> res (list nat)).
Hypothesis NB : forall v, v < length g -> nbrs v = Ok (nth v g []).
Hypothesis TG : targets_ok g.
Hypothesis SD : seed < length g.

(** The arcs that leave unvisited vertices. *)
Definition todo (vis : list bool) : nat := sum (map (fun v => if unv vis v then length (nth v g []) else 0) (seq 0 (length g))).

Record dinv (S : list nat) (vis : list bool) : Prop := {
  d_len : length vis = length g;
  d_seed : at_true vis seed \/ In seed S;
  d_stk : forall v, In v S -> v < length g /\ reachable g seed v;
  d_vis : forall v, at_true vis v -> reachable g seed v;
  d_open : forall v w, at_true vis v -> edge g v w -> ~ at_true vis w -> In w S;
  d_above : forall v w A B, at_true vis v -> edge g v w -> ~ at_true vis w -> S = A ++ v :: B -> In w A }.

Lemma at_upd vis v u : v < length vis -> (at_true (upd vis v true) u <-> u = v \/ at_true vis u).
Proof.
  intros L. unfold at_true. destruct (Nat.eq_dec u v) as [->|N].
  - rewrite nth_upd_eq by auto. intuition.
  - rewrite nth_upd_neq by auto. intuition.
Qed.
Lemma todo_upd vis v : v < length vis -> length vis = length g -> unv vis v = true -> todo (upd vis v true) + length (nth v g []) = todo vis.
Proof.
  intros L Lg U. unfold todo. assert (I : In v (seq 0 (length g))) by (apply in_seq; lia). pose proof (seq_NoDup (length g) 0) as ND.
  induction (seq 0 (length g)) as [|x l IH]; [destruct I|]. inversion ND; subst. cbn [map sum]. destruct I as [->|I].
  - rewrite U. unfold unv at 1. rewrite nth_upd_eq by auto. cbn [negb].
    rewrite (map_ext_in _ (fun u => if unv vis u then length (nth u g []) else 0)); [lia|].
    intros u I'. unfold unv. rewrite nth_upd_neq; auto. intros ->. auto.
  - assert (x <> v) by (intros ->; auto). unfold unv at 1 3. rewrite nth_upd_neq by auto. specialize (IH I H2). lia.
Qed.

Lemma dfs_loop_ok : forall fuel S vis, dinv S vis -> length S + todo vis <= fuel ->
  exists vis', dfs_loop nbrs fuel S vis = Ok vis' /\ dinv [] vis'.
Proof.
  induction fuel as [|f IH]; intros S vis I L; destruct S as [|x S']; cbn [dfs_loop]; eauto; [cbn in L; lia|].
  destruct I as [Len Sd Stk Vis Open Above].
  destruct (Stk x (or_introl eq_refl)) as [Lx Rx].
  rewrite (@vget_nth _ vis x false) by lia. cbn [bind]. cbn [length] in L.
  destruct (nth x vis false) eqn:Vx; cbn [negb bind].
  - rewrite NB by auto. cbn [bind]. rewrite push_ok by (intros n In'; rewrite Len; eapply TG; apply In').
    assert (F : filter (unv vis) (nth x g []) = []).
    { destruct (filter (unv vis) (nth x g [])) as [|w t] eqn:F; auto. exfalso.
      assert (I : In w (filter (unv vis) (nth x g []))) by (rewrite F; now left). apply filter_In in I. destruct I as [I U].
      apply (Above x w [] S'); auto. unfold at_true. unfold unv in U. intros T. rewrite T in U. discriminate. }
    rewrite F. cbn [rev app bind]. apply IH; [|lia]. constructor; auto.
    + destruct Sd as [T|[->|I]]; auto.
    + intros v I. apply Stk. now right.
    + intros v w T E N. destruct (Open v w T E N) as [->|I]; auto. contradiction.
    + intros v w A B T E N ES. destruct (Above v w (x :: A) B T E N) as [->|I]; auto; [cbn; now rewrite ES|]. contradiction.
  - rewrite vset_lt by lia. cbn [bind]. rewrite NB by auto. cbn [bind].
    rewrite push_ok by (intros n In'; rewrite upd_length, Len; eapply TG; apply In'). cbn [bind].
    set (vis' := upd vis x true). set (P := rev (filter (unv vis') (nth x g []))).
    assert (Lx' : x < length vis) by lia.
    assert (HP : forall w, In w P <-> edge g x w /\ ~ at_true vis' w).
    { intros w. unfold P. rewrite <- in_rev, filter_In. unfold edge, unv, at_true. destruct (nth w vis' false); cbn; intuition discriminate. }
    assert (HV : forall u, at_true vis' u <-> u = x \/ at_true vis u) by (intros u; apply at_upd; auto).
    apply IH.
    + constructor.
      * unfold vis'. now rewrite upd_length.
      * destruct Sd as [T|[->|I]]; [left; apply HV; auto|left; apply HV; auto|right; apply in_or_app; auto].
      * intros v I. apply in_app_or in I. destruct I as [I|I]; [|apply Stk; now right]. apply HP in I. destruct I as [E _].
        split; [eapply TG; eauto|]. destruct Rx as [k K]. exists (Datatypes.S k). econstructor; eauto.
      * intros v T. apply HV in T. destruct T as [->|T]; auto.
      * intros v w T E N. apply in_or_app. apply HV in T. destruct T as [->|T]; [left; apply HP; auto|].
        destruct (Open v w T E) as [->|I]; auto; [intros T'; apply N, HV; auto|]. exfalso. apply N, HV. auto.
      * intros v w A B T E N ES.
        destruct (@split_after nat P S' A v B) as (A' & -> & ES'); auto; [intros I; apply HP in I; tauto|].
        apply in_or_app. apply HV in T. destruct T as [->|T]; [left; apply HP; auto|]. right.
        destruct (Above v w (x :: A') B T E) as [->|I]; auto; [intros T'; apply N, HV; auto|cbn; now rewrite ES'|]. exfalso. apply N, HV. auto.
    + assert (U : unv vis x = true) by (unfold unv; now rewrite Vx).
      pose proof (todo_upd vis Lx' Len U) as Q. fold vis' in Q. rewrite app_length.
      assert (length P <= length (nth x g [])).
      { unfold P. rewrite rev_length. generalize (nth x g []) as l. induction l as [|y l IHl]; cbn; auto. destruct (unv vis' y); cbn; lia. }
      lia.
Qed.

Lemma closed_reach vis : at_true vis seed -> (forall v w, at_true vis v -> edge g v w -> at_true vis w) ->
  forall v, reachable g seed v -> at_true vis v.
Proof. intros T C v [k K]. induction K; eauto. Qed.

Theorem dfs_ok fuel : S (sum (map (@length nat) g)) <= fuel ->
  exists vis, apb_dfs nbrs fuel (length g) seed = Ok vis /\ length vis = length g /\ forall v, nth v vis false = true <-> reachable g seed v.
Proof.
  intros F. assert (NF : forall v, nth v (repeat false (length g)) false = false).
  { intros v. generalize (length g) as n. induction v; destruct n; cbn; auto. }
  destruct (@dfs_loop_ok fuel [seed] (repeat false (length g))) as (vis & E & I).
  - constructor; [now rewrite repeat_length|right; now left| | | | ]; unfold at_true; try (intros v; rewrite NF; discriminate).
    intros v [<-|[]]. split; auto. exists 0. constructor.
  - cbn [length]. unfold todo. assert (H : forall l, sum (map (fun v => if unv (repeat false (length g)) v then length (nth v g []) else 0) l) <= sum (map (fun v => length (nth v g [])) l)).
    { induction l; cbn [map sum]; auto. destruct (unv _ a); lia. }
    specialize (H (seq 0 (length g))). rewrite <- (map_map (fun v => nth v g []) (@length nat)), rows_seq in H. lia.
  - exists vis. destruct I as [Len Sd Stk Vis Open Above]. split; [exact E|]. split; auto. intros v. split; [apply Vis|].
    apply closed_reach; [destruct Sd as [T|[]]; auto|]. intros u w T Ed.
    destruct (bool_dec (nth w vis false) true) as [T'|N]; auto. exfalso. exact (Open u w T Ed N).
Qed.
End DFS.

(** ** Breadth first *)
Definition cfalse (vis : list bool) : nat := length (filter negb vis).
Lemma cfalse_upd : forall vis n, n < length vis -> nth n vis false = false -> S (cfalse (upd vis n true)) = cfalse vis.
Proof.
  unfold cfalse. induction vis as [|b vis IH]; intros [|n] L E; cbn in L; try lia; cbn in E; cbn.
  - subst b. reflexivity.
  - specialize (IH n ltac:(lia) E). destruct b; cbn; lia.
Qed.

Section BFS.
Variables (g : list (list nat)) (seed : nat) (nbrs : nat -> res (list nat)).
Hypothesis NB : forall v, v < length g -> nbrs v = Ok (nth v g []).
Hypothesis SD : seed < length g.

Definition bstep (st : list nat * list bool) (n : nat) : res (list nat * list bool) :=
  do b <- vget (snd st) n ; if negb b then do vis <- vset (snd st) n true ; Ok (fst st ++ [n], vis) else Ok st.

Lemma bstep_fold : forall ns Q vis,
  (exists new vis', rfold bstep ns (Q, vis) = Ok (Q ++ new, vis') /\ length vis' = length vis /\ length new + cfalse vis' = cfalse vis /\
     (forall v, at_true vis' v <-> at_true vis v \/ In v ns) /\ (forall v, at_true vis' v -> at_true vis v \/ In v new) /\
     (forall v, In v new -> at_true vis' v) /\ (forall n, In n ns -> n < length vis)) \/
  (rfold bstep ns (Q, vis) = Ub /\ exists n, In n ns /\ length vis <= n).
Proof.
  induction ns as [|n ns IH]; intros Q vis; cbn [rfold].
  - left. exists [], vis. rewrite app_nil_r. repeat split; auto; try tauto.
    + intros [H|[]]; auto.
    + intros v [].
    + intros v [].
  - unfold bstep at 1 3. cbn [fst snd]. destruct (Nat.lt_ge_cases n (length vis)) as [L|L].
    2:{ right. rewrite vget_ge by auto. split; [reflexivity|]. exists n. split; [now left|lia]. }
    rewrite (@vget_nth _ vis n false) by auto. cbn [bind]. destruct (nth n vis false) eqn:B; cbn [negb bind].
    + destruct (IH Q vis) as [(new & vis' & E & Lv & C & V & V' & Nw & R)|(E & m & I & Lm)].
      * left. exists new, vis'. repeat split; auto.
        -- intros T. apply V in T. cbn. tauto.
        -- intros [T|[<-|I]]; apply V; auto.
        -- intros m [<-|I]; auto.
      * right. split; auto. exists m. split; auto. now right.
    + rewrite vset_lt by auto. cbn [bind]. destruct (IH (Q ++ [n]) (upd vis n true)) as [(new & vis' & E & Lv & C & V & V' & Nw & R)|(E & m & I & Lm)].
      * left. exists (n :: new), vis'. rewrite upd_length in *. pose proof (cfalse_upd vis L B) as CU.
        assert (AU : forall u, at_true (upd vis n true) u <-> u = n \/ at_true vis u) by (intros; apply at_upd; auto).
        rewrite <- app_assoc in E. cbn [app] in E. repeat split; auto.
        -- cbn [length]. lia.
        -- intros T. apply V in T. rewrite AU in T. cbn. intuition.
        -- intros T. apply V. rewrite AU. cbn in T. intuition.
        -- intros v T. apply V' in T. rewrite AU in T. cbn. intuition.
        -- intros v [<-|I]; auto. apply V. rewrite AU. auto.
        -- intros m [<-|I]; auto.
      * right. rewrite upd_length in Lm. split; auto. exists m. split; auto. now right.
Qed.

Record binv (Q : list nat) (vis : list bool) : Prop := {
  b_len : length vis = length g;
  b_seed : at_true vis seed;
  b_que : forall v, In v Q -> at_true vis v;
  b_vis : forall v, at_true vis v -> reachable g seed v;
  b_open : forall v w, at_true vis v -> edge g v w -> at_true vis w \/ In v Q }.

Lemma at_lt vis v : at_true vis v -> v < length vis.
Proof. unfold at_true. intros T. destruct (Nat.lt_ge_cases v (length vis)); auto. rewrite nth_overflow in T by auto. discriminate. Qed.

Lemma bfs_loop_ok : forall fuel Q vis, binv Q vis -> length Q + cfalse vis <= fuel ->
  (exists vis', bfs_loop nbrs fuel Q vis = Ok vis' /\ binv [] vis') \/
  (bfs_loop nbrs fuel Q vis = Ub /\ exists v w, reachable g seed v /\ edge g v w /\ length g <= w).
Proof.
  induction fuel as [|f IH]; intros Q vis I L; destruct Q as [|x Q']; cbn [bfs_loop]; try (left; now eauto).
  destruct I as [Len Sd Que Vis Open]. pose proof (Que x (or_introl eq_refl)) as Tx. pose proof (@at_lt vis x Tx) as Lx.
  rewrite NB by lia. cbn [bind]. fold bstep. cbn [length] in L.
  destruct (bstep_fold (nth x g []) Q' vis) as [(new & vis' & E & Lv & C & V & V' & Nw & R)|(E & m & I & Lm)]; rewrite E; cbn [bind fst snd].
  - apply IH; [|rewrite app_length; lia]. constructor; [lia|apply V; auto| | | ].
    + intros v I. apply in_app_or in I. destruct I as [I|I]; auto. apply V. left. apply Que. now right.
    + intros v T. apply V in T. destruct T as [T|I]; auto. destruct (Vis x Tx) as [k K]. exists (S k). econstructor; eauto.
    + intros v w T Ed. destruct (Nat.eq_dec v x) as [->|Nv]; [left; apply V; auto|].
      apply V' in T. destruct T as [T|I]; [|right; apply in_or_app; auto].
      destruct (Open v w T Ed) as [T'|[->|I]]; [left; apply V; auto|congruence|right; apply in_or_app; auto].
  - right. split; auto. exists x, m. split; auto. split; auto. lia.
Qed.

Lemma cfalse_le vis : cfalse vis <= length vis.
Proof. unfold cfalse. induction vis as [|b vis IH]; cbn; auto. destruct b; cbn; lia. Qed.

Theorem bfs_result fuel : length g <= fuel ->
  (exists vis, apb_bfs nbrs fuel (length g) seed = Ok vis /\ length vis = length g /\ forall v, nth v vis false = true <-> reachable g seed v) \/
  (apb_bfs nbrs fuel (length g) seed = Ub /\ exists v w, reachable g seed v /\ edge g v w /\ length g <= w).
Proof.
  intros F. assert (NF : forall v, nth v (repeat false (length g)) false = false).
  { intros v. generalize (length g) as n. induction v; destruct n; cbn; auto. }
  unfold apb_bfs. rewrite vset_lt by (now rewrite repeat_length). cbn [bind].
  assert (AU : forall u, at_true (upd (repeat false (length g)) seed true) u <-> u = seed).
  { intros u. rewrite at_upd by (now rewrite repeat_length). unfold at_true. rewrite NF. intuition discriminate. }
  destruct (@bfs_loop_ok fuel [seed] (upd (repeat false (length g)) seed true)) as [(vis & E & I)|(E & H)].
  - constructor.
    + now rewrite upd_length, repeat_length.
    + apply AU. auto.
    + intros v [<-|[]]. apply AU. auto.
    + intros v T. apply AU in T. subst v. exists 0. constructor.
    + intros v w T _. apply AU in T. subst v. right. now left.
  - pose proof (@cfalse_upd (repeat false (length g)) seed ltac:(now rewrite repeat_length) (NF seed)) as C.
    pose proof (cfalse_le (repeat false (length g))). rewrite repeat_length in *. cbn [length]. lia.
  - left. exists vis. destruct I as [Len Sd Que Vis Open]. split; auto. split; auto. intros v. split; [apply Vis|].
    apply closed_reach; auto. intros u w T Ed. destruct (Open u w T Ed) as [T'|[]]; auto.
  - right. auto.
Qed.
Theorem bfs_ok fuel : targets_ok g -> length g <= fuel ->
  exists vis, apb_bfs nbrs fuel (length g) seed = Ok vis /\ length vis = length g /\ forall v, nth v vis false = true <-> reachable g seed v.
Proof.
  intros T F. destruct (bfs_result F) as [H|(_ & v & w & _ & E & L)]; auto. apply T in E. lia.
Qed.
End BFS.

Lemma int_index_small W x : 2 * x < W -> int_index W x = x.
Proof. intros L. unfold int_index. apply Nat.ltb_lt in L. now rewrite L. Qed.
Lemma int_index_large W x : W <= 2 * x -> 1 < W -> W < int_index W x.
Proof. intros L B. unfold int_index. apply Nat.ltb_ge in L as L'. rewrite L'. nia. Qed.

(** A search of the copied graph. *)
Theorem bfs_int g W seed nbrs fuel : (forall v, v < length g -> nbrs v = Ok (map (int_index W) (nth v g []))) ->
  targets_ok g -> seed < length g -> length g <= W -> 1 < W -> length g <= fuel ->
  ((forall v w, reachable g seed v -> edge g v w -> 2 * w < W) ->
     exists vis, apb_bfs nbrs fuel (length g) seed = Ok vis /\ length vis = length g /\ forall v, nth v vis false = true <-> reachable g seed v) /\
  (forall v w, reachable g seed v -> edge g v w -> W <= 2 * w -> apb_bfs nbrs fuel (length g) seed = Ub).
Proof.
  intros NB TG SD LW W1 F. set (g' := map (map (int_index W)) g). assert (Lg : length g' = length g) by (unfold g'; now rewrite map_length).
  assert (Ng : forall v, nth v g' [] = map (int_index W) (nth v g [])) by (intros v; unfold g'; now rewrite <- (map_nth (map (int_index W)))).
  assert (H := @bfs_result g' seed nbrs). rewrite Lg in H.
  specialize (H ltac:(intros v L; rewrite NB, Ng; auto) SD fuel F).
  assert (Ed : forall u w, edge g u w -> edge g' u (int_index W w)) by (intros u w E; unfold edge; rewrite Ng; now apply in_map).
  split.
  - intros Sm. assert (R1 : forall v, reachable g seed v -> reachable g' seed v).
    { intros v [k K]. exists k. induction K as [|k u v K IH E]; [constructor|]. econstructor; eauto.
      replace v with (int_index W v); auto. apply int_index_small. eapply Sm; eauto. now exists k. }
    assert (R2 : forall v, reachable g' seed v -> reachable g seed v).
    { intros v [k K]. induction K as [|k u v K IH E]; [exists 0; constructor|]. unfold edge in E. rewrite Ng in E. apply in_map_iff in E.
      destruct E as (w & <- & I). rewrite int_index_small by (eapply Sm; eauto). destruct IH as [j J]. exists (S j). econstructor; eauto. }
    destruct H as [(vis & E & L & V)|(E & v & w & R & Ew & Lw)].
    + exists vis. split; auto. split; auto. intros v. rewrite V. split; auto.
    + exfalso. apply R2 in R. unfold edge in Ew. rewrite Ng in Ew. apply in_map_iff in Ew. destruct Ew as (x & <- & I).
      rewrite int_index_small in Lw by (eapply Sm; eauto). assert (x < length g) by (eapply TG; eauto). lia.
  - intros v w R Ew Lw. destruct H as [(vis & E & L & V)|(E & _)]; auto. exfalso.
    assert (Small : forall x, nth (int_index W x) vis false = true -> 2 * x < W).
    { intros x T. destruct (Nat.lt_ge_cases (2 * x) W) as [|G]; auto. exfalso. pose proof (@int_index_large W x G W1).
      rewrite nth_overflow in T by lia. discriminate. }
    assert (Step : forall x y, reachable g' seed x -> edge g x y -> 2 * y < W /\ reachable g' seed y).
    { intros x y [k K] E'. assert (T : reachable g' seed (int_index W y)) by (exists (S k); econstructor; eauto).
      assert (B : 2 * y < W) by (apply Small, V, T). split; auto. now rewrite int_index_small in T. }
    assert (R' : reachable g' seed v).
    { destruct R as [k K]. clear Ew. induction K as [|k u x K IH E']; [exists 0; constructor|]. now apply (Step u x). }
    destruct (Step v w R' Ew). lia.
Qed.

(** ** The graph of an edge list *)
Lemma count_keys A (key : A -> nat) n : forall l, (forall x, In x l -> key x < n) ->
  sum (map (fun u => length (filter (fun x => key x =? u) l)) (seq 0 n)) = length l.
Proof.
  induction l as [|x l IH]; intros H; cbn [filter length].
  - assert (Z : forall m, sum (map (fun _ : nat => 0) m) = 0) by (induction m; auto). apply Z.
  - rewrite <- IH by (intros; apply H; now right). assert (L : key x < n) by (apply H; now left).
    assert (I : In (key x) (seq 0 n)) by (apply in_seq; lia). pose proof (seq_NoDup n 0) as ND. clear H L IH.
    assert (Out : forall m, ~ In (key x) m -> map (fun u => length (if key x =? u then x :: filter (fun y => key y =? u) l else filter (fun y => key y =? u) l)) m =
                                         map (fun u => length (filter (fun y => key y =? u) l)) m).
    { intros m N. apply map_ext_in. intros u Iu. destruct (Nat.eqb_spec (key x) u); auto. subst. contradiction. }
    induction (seq 0 n) as [|u m IHm]; [destruct I|]. inversion ND; subst. cbn [map sum]. destruct (Nat.eqb_spec (key x) u) as [<-|Nu].
    + rewrite Out by auto. cbn [length]. lia.
    + destruct I as [->|I]; [congruence|]. rewrite IHm by auto. lia.
Qed.

Lemma apb_graph A W srt srt1 n (es : list (EdgeListModel.edge A)) : is_sort_by fst srt -> n < W -> ids_ok W es -> length es < W ->
  exists g rows, adjacency_of W srt srt1 true S1 (el_build W n es) false = Ok g /\ csr_size g = el_num_vertices (el_build W n es) /\
    length rows = csr_size g /\ apb_rows g = Ok rows /\
    (forall v, v < csr_size g -> raw_targets g v = Ok (nth v rows []) /\ row_targets g v = Ok (nth v rows [])) /\
    targets_ok rows /\ (forall v w, edge rows v w <-> exists e, In e es /\ etgt e = v /\ esrc e = w) /\ sum (map (@length nat) rows) = length es.
Proof.
  intros Hs Hn He HW. destruct (adjacency_directed_rows srt1 S1 (el_num_vertices (el_build W n es) + 1) Hs Hn He HW) as (g & E & S1' & _ & _ & R).
  set (P := fun v r => raw_targets g v = Ok r /\ row_targets g v = Ok r /\ Permutation r (map fst (spec_row S1 es v))).
  destruct (@rmap_ex nat (list nat) (row_targets g) P (seq 0 (csr_size g))) as (rows & Er & F).
  { intros v I. apply in_seq in I. destruct (R v ltac:(lia)) as (row & Ev & Pm). exists (map fst row).
    pose proof (targets_of_row g v Ev) as ET. split; auto. split; [now apply raw_of_row|]. split; auto. now apply Permutation_map. }
  assert (L : length rows = csr_size g) by (apply rmap_Ok_length in Er; now rewrite seq_length in Er).
  assert (N : forall v, v < csr_size g -> P v (nth v rows [])).
  { intros v Lv. destruct (forall2_nth 0 [] F) as [_ H]. specialize (H v ltac:(now rewrite seq_length)). now rewrite seq_nth in H. }
  assert (Ed : forall v w, edge rows v w <-> exists e, In e es /\ etgt e = v /\ esrc e = w).
  { intros v w. unfold edge. split.
    - intros I. assert (Lv : v < csr_size g) by (rewrite <- L; now apply edge_lt with (v := w)).
      destruct (N v Lv) as (_ & _ & Pm). apply (Permutation_in _ Pm) in I. apply in_map_iff in I. destruct I as ((w' & a) & Ew & I). cbn in Ew. subst w'.
      unfold spec_row in I. apply in_map_iff in I. destruct I as (e & Ee & I). apply filter_In in I. destruct I as [I K].
      apply Nat.eqb_eq in K. cbn in K, Ee. injection Ee as Ew _. eauto.
    - intros (e & I & <- & <-). assert (Lv : etgt e < csr_size g) by (rewrite S1'; apply (build_key_lt S1 Hn He e I)).
      destruct (N _ Lv) as (_ & _ & Pm). apply (Permutation_in _ (Permutation_sym Pm)). apply in_map_iff. exists (esrc e, eatt e). split; auto.
      unfold spec_row. apply in_map_iff. exists e. split; auto. apply filter_In. split; auto. apply Nat.eqb_refl. }
  exists g, rows. repeat split; auto; try (now apply N); try (now apply Ed).
  - intros v w I. apply Ed in I. destruct I as (e & I & <- & <-). rewrite L, S1'. apply (build_key_lt S0 Hn He e I).
  - rewrite <- (@count_keys _ (ekey S1) (csr_size g) es) by (intros e I; rewrite S1'; apply (build_key_lt S1 Hn He e I)).
    rewrite <- (rows_seq rows), map_map, L. f_equal. apply map_ext_in. intros v I. apply in_seq in I. destruct (N v ltac:(lia)) as (_ & _ & Pm).
    apply Permutation_length in Pm. rewrite Pm. unfold spec_row. now rewrite !map_length.
Qed.

(** v leads to t along the arcs of the list. *)
Inductive leads {A} (es : list (EdgeListModel.edge A)) (t : nat) : nat -> Prop :=
| leads_refl : leads es t t
| leads_arc : forall e, In e es -> leads es t (etgt e) -> leads es t (esrc e).
Lemma leads_reach A (es : list (EdgeListModel.edge A)) rows t : (forall v w, edge rows v w <-> exists e, In e es /\ etgt e = v /\ esrc e = w) ->
  forall v, reachable rows t v <-> leads es t v.
Proof.
  intros Ed v. split.
  - intros [k K]. induction K as [|k u w K IH E]; [constructor|]. apply Ed in E. destruct E as (e & I & <- & <-). now constructor.
  - induction 1 as [|e I _ [k K]]; [exists 0; constructor|]. exists (S k). econstructor; eauto. apply Ed. eauto.
Qed.

Lemma nth_true (vis : list bool) v : nth_error vis v = Some true <-> nth v vis false = true.
Proof. revert v. induction vis as [|b vis IH]; intros [|v]; cbn; auto; split; try discriminate; [congruence|now intros ->]. Qed.
Lemma vget_map_rows (f : nat -> nat) (rows : list (list nat)) v : v < length rows -> vget (map (map f) rows) v = Ok (map f (nth v rows [])).
Proof. intros L. rewrite (@vget_nth _ _ v []) by (now rewrite map_length). f_equal. now rewrite <- (map_nth (map f)). Qed.
Lemma size_le A W n (es : list (EdgeListModel.edge A)) : n < W -> ids_ok W es -> el_num_vertices (el_build W n es) < W.
Proof.
  intros Hn He. destruct (@C01_edge_list_exact A W n es Hn He) as (_ & _ & _ & _ & H).
  specialize (H (W - 1) ltac:(lia)). enough (el_num_vertices (el_build W n es) <= W - 1) by lia. apply H.
  intros e I. destruct (He e I). lia.
Qed.
