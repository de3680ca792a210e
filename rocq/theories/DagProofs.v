(** Proofs about dag_range. *)
From Coq Require Import List Arith Lia Bool Permutation.
From Verif Require Import Base GraphLib MisModel.
Import ListNotations.
Set Implicit Arguments.

(** No closed walk. *)
Definition acyclic (g : list (list nat)) : Prop := forall v k, ~ walk g v (S k) v.

Lemma edge_src g a b : edge g a b -> a < length g.
Proof. unfold edge. intros I. destruct (Nat.lt_ge_cases a (length g)); auto. rewrite nth_overflow in I by auto. destruct I. Qed.

(** On a finite graph that makes the edge relation well founded. *)
Inductive path (g : list (list nat)) : list nat -> Prop :=
| path_1 v : path g [v]
| path_cons y v p : edge g y v -> path g (v :: p) -> path g (y :: v :: p).
Lemma walk_cons g y v k w : edge g y v -> walk g v k w -> walk g y (S k) w.
Proof. intros E. induction 1; [eapply walk_S; [apply walk_0|auto]|eapply walk_S; eauto]. Qed.
Lemma path_walk g p : path g p -> forall y, In y p -> exists k, walk g (hd 0 p) k y.
Proof.
  induction 1 as [v|y0 v p E P IH]; intros y I.
  - destruct I as [<-|[]]. exists 0. constructor.
  - destruct I as [<-|I]; [exists 0; constructor|]. destruct (IH y I) as (k & W). exists (S k). simpl in *. eapply walk_cons; eauto.
Qed.
Lemma acyclic_wf g : targets_ok g -> acyclic g -> well_founded (fun a b => edge g a b).
Proof.
  intros HT AC. assert (K : forall m p, path g p -> NoDup p -> (forall x, In x p -> x < length g) -> length g - length p <= m -> Acc (fun a b => edge g a b) (hd 0 p)).
  { induction m as [|m IH]; intros p P ND B L; constructor; intros y E.
    - exfalso. assert (NI : ~ In y p).
      { intros I. destruct (path_walk P y I) as (k & W). apply (AC y k). eapply walk_cons; eauto. }
      assert (H : length (y :: p) <= length (seq 0 (length g))).
      { apply NoDup_incl_length; [now constructor|]. intros x [<-|I]; apply in_seq; [split; [lia|]; simpl; eapply edge_src; eauto|split; [lia|apply B; auto]]. }
      rewrite seq_length in H. simpl in H. lia.
    - assert (NI : ~ In y p).
      { intros I. destruct (path_walk P y I) as (k & W). apply (AC y k). eapply walk_cons; eauto. }
      apply (IH (y :: p)).
      + destruct p; [inversion P|]. simpl in E. now constructor.
      + now constructor.
      + intros x [<-|I]; [eapply edge_src; eauto|auto].
      + simpl. lia. }
  intros v. destruct (Nat.lt_ge_cases v (length g)) as [L|L].
  - apply (K (length g) [v]); [constructor|repeat constructor; auto|intros x [<-|[]]; auto|lia].
  - constructor. intros y E. apply HT in E. lia.
Qed.

Lemma NoDup_app_l (A : Type) (l l' : list A) : NoDup (l ++ l') -> NoDup l.
Proof. induction l as [|x l IH]; simpl; intros H; constructor; inversion H; subst; auto. intros I. apply H2, in_or_app; auto. Qed.
(** ** Counting *)
Notation cocc := (count_occ Nat.eq_dec).
Definition into (o : list (nat * nat)) (b : nat) : nat := length (filter (fun e => snd e =? b) o).
Lemma into_app o1 o2 b : into (o1 ++ o2) b = into o1 b + into o2 b.
Proof. unfold into. now rewrite filter_app, app_length. Qed.
Lemma into_row a l b : into (map (pair a) l) b = cocc l b.
Proof.
  unfold into. induction l as [|x l IH]; simpl; auto. destruct (Nat.eq_dec x b) as [->|N]; [rewrite Nat.eqb_refl; simpl; lia|].
  apply Nat.eqb_neq in N. now rewrite N.
Qed.
Lemma sum_incl (f : nat -> nat) l l' : NoDup l -> incl l l' -> sum (map f l) <= sum (map f l').
Proof.
  revert l'. induction l as [|x l IH]; intros l' ND I; simpl; [lia|]. inversion ND; subst.
  assert (Ix : In x l') by (apply I; simpl; auto). apply in_split in Ix. destruct Ix as (l1 & l2 & ->).
  specialize (IH (l1 ++ l2) H2). rewrite map_app, sum_app in *. simpl. assert (incl l (l1 ++ l2)); [|specialize (IH H); lia].
  intros y Iy. assert (Iy' : In y (l1 ++ x :: l2)) by (apply I; simpl; auto). apply in_app_or in Iy'. apply in_or_app.
  destruct Iy' as [|[->|]]; auto. contradiction.
Qed.
Lemma len_cocc n l : (forall x, In x l -> x < n) -> length l = sum (map (cocc l) (seq 0 n)).
Proof.
  induction l as [|x l IH]; intros H.
  - simpl. symmetry. apply sum_map_0. auto.
  - simpl length. rewrite IH by (intros; apply H; simpl; auto).
    assert (Hx : In x (seq 0 n)) by (apply in_seq; split; [lia|]; simpl; apply H; simpl; auto).
    pose proof (seq_NoDup n 0) as ND. apply in_split in Hx. destruct Hx as (s1 & s2 & E). rewrite E in *.
    rewrite !map_app, !sum_app. cbn [map sum]. assert (X : cocc (x :: l) x = S (cocc l x)) by (apply count_occ_cons_eq; auto). rewrite X.
    rewrite (sum_map_ext (cocc (x :: l)) (cocc l) s1), (sum_map_ext (cocc (x :: l)) (cocc l) s2); [lia| |];
    intros y Iy; apply count_occ_cons_neq; intros ->; apply NoDup_remove_2 in ND; apply ND, in_or_app; auto.
Qed.

Section Dag.
Variables (pred succ : list (list nat)) (n : nat).
Hypothesis Lp : length pred = n.
Hypothesis Ls : length succ = n.
Hypothesis HT : targets_ok succ.
Hypothesis MATCH : forall a b, cocc (nth a succ []) b = cocc (nth b pred []) a.
Hypothesis WF : well_founded (fun a b => edge succ a b).

Definition row (a : nat) : list nat := nth a succ [].
Definition eds (a : nat) : list (nat * nat) := map (pair a) (row a).
Definition topo (P : list nat) : Prop := forall l1 b l2 a, P = l1 ++ b :: l2 -> edge succ a b -> In a l1.
Lemma into_eds P b : into (flat_map eds P) b = sum (map (fun a => cocc (row a) b) P).
Proof. induction P; simpl; auto. unfold eds at 1. now rewrite into_app, IHP, into_row. Qed.
Lemma pred_lt b a : In a (nth b pred []) -> a < n.
Proof.
  intros I. rewrite (count_occ_In Nat.eq_dec), <- MATCH in I. apply (count_occ_In Nat.eq_dec) in I. rewrite <- Ls. eapply edge_src. exact I.
Qed.
Lemma pred_len b : length (nth b pred []) = sum (map (fun a => cocc (row a) b) (seq 0 n)).
Proof. rewrite (@len_cocc n); [|apply pred_lt]. apply sum_map_ext. intros a _. symmetry. apply MATCH. Qed.
Definition total : nat := sum (map (fun a => length (row a)) (seq 0 n)).
Lemma eds_len P : length (flat_map eds P) = sum (map (fun a => length (row a)) P).
Proof. induction P; simpl; auto. rewrite app_length, IHP. unfold eds. now rewrite map_length. Qed.

(** The arcs handed out before position i of v's row, when D has been finished. *)
Definition out (D : list nat) (v i : nat) : list (nat * nat) := flat_map eds D ++ firstn i (eds v).
Record inv (D : list nat) (v : nat) (rest : list nat) (i : nat) (cnt : list nat) : Prop := {
  i_nd : NoDup (D ++ v :: rest);
  i_lt : forall x, In x (D ++ v :: rest) -> x < n;
  i_i : i <= length (row v);
  i_len : length cnt = n;
  i_cnt : forall u, u < n -> nth u cnt 0 = into (out D v i) u;
  i_mem : forall u, u < n -> (In u (D ++ v :: rest) <-> into (out D v i) u = length (nth u pred []));
  i_topo : topo (D ++ v :: rest) }.

Lemma firstn_eds v i : firstn i (eds v) = map (pair v) (firstn i (row v)).
Proof. unfold eds. apply firstn_map. Qed.
Lemma cocc_firstn i l b : cocc (firstn i l) b <= cocc l b.
Proof. rewrite <- (firstn_skipn i l) at 2. rewrite count_occ_app. lia. Qed.
(** When everything into u has been handed out, u's predecessors are finished or current. *)
Lemma full_preds D v i u a : NoDup (D ++ [v]) -> (forall x, In x (D ++ [v]) -> x < n) -> into (out D v i) u = length (nth u pred []) ->
  edge succ a u -> In a (D ++ [v]).
Proof.
  intros ND B F E. destruct (in_dec Nat.eq_dec a (D ++ [v])) as [|N]; auto. exfalso.
  assert (Ha : a < n) by (rewrite <- Ls; eapply edge_src; eauto).
  assert (X : sum (map (fun a => cocc (row a) u) (a :: D ++ [v])) <= sum (map (fun a => cocc (row a) u) (seq 0 n))).
  { apply sum_incl; [now constructor|]. intros x [<-|I]; apply in_seq; [lia|]. specialize (B x I). lia. }
  rewrite <- pred_len, <- F in X. unfold out in X. rewrite into_app, into_eds, firstn_eds, into_row in X. cbn [map sum] in X. rewrite map_app, sum_app in X.
  cbn [map sum] in X. pose proof (cocc_firstn i (row v) u). assert (0 < cocc (row a) u) by (apply (count_occ_In Nat.eq_dec); exact E). lia.
Qed.
(** When all pushed vertices are finished, all vertices are. *)
Lemma all_done P : NoDup P -> (forall x, In x P -> x < n) -> (forall u, u < n -> into (flat_map eds P) u = length (nth u pred []) -> In u P) ->
  forall u, u < n -> In u P.
Proof.
  intros ND B C u. induction (WF u) as [u _ IH]. intros Hu. apply C; auto. rewrite into_eds, pred_len.
  apply Nat.le_antisymm.
  - apply sum_incl; auto. intros x I. apply in_seq. specialize (B x I). lia.
  - assert (X : forall l, incl l (seq 0 n) -> sum (map (fun a => cocc (row a) u) l) = sum (map (fun a => cocc (row a) u) (filter (fun a => if in_dec Nat.eq_dec a P then true else false) l))).
    { induction l as [|a l IHl]; intros I; auto. cbn [filter]. destruct (in_dec Nat.eq_dec a P) as [Y|Y]; cbn [map sum]; rewrite IHl by (intros z Iz; apply I; simpl; auto); auto.
      replace (cocc (row a) u) with 0; auto. symmetry. apply (count_occ_not_In Nat.eq_dec). intros E. apply Y, IH; auto.
      specialize (I a (or_introl eq_refl)). apply in_seq in I. lia. }
    rewrite X by apply incl_refl. apply sum_incl; [apply NoDup_filter, seq_NoDup|]. intros a I. apply filter_In in I. destruct I as (_ & I).
    destruct (in_dec Nat.eq_dec a P); [auto|discriminate].
Qed.
Lemma out_full D v : out D v (length (row v)) = flat_map eds (D ++ [v]).
Proof. unfold out. rewrite flat_map_app. simpl. rewrite app_nil_r. f_equal. apply firstn_all2. unfold eds. now rewrite map_length. Qed.
Lemma out_S D v i : i < length (row v) -> out D v (S i) = out D v i ++ [(v, nth i (row v) 0)].
Proof.
  intros H. unfold out. rewrite <- app_assoc. f_equal. rewrite !firstn_eds.
  change [(v, nth i (row v) 0)] with (map (pair v) [nth i (row v) 0]). rewrite <- map_app. f_equal.
  clear - H. revert H. generalize (row v) as l. intros l. revert i. induction l as [|x l IH]; intros i H; [simpl in H; lia|].
  destruct i; [now destruct l|]. cbn [firstn nth app]. f_equal. apply IH. simpl in H. lia.
Qed.
(** The last finished vertex has no successors. *)
Lemma last_sink D v : NoDup (D ++ [v]) -> (forall x, In x (D ++ [v]) -> x < n) -> topo (D ++ [v]) ->
  (forall u, u < n -> into (flat_map eds (D ++ [v])) u = length (nth u pred []) -> In u (D ++ [v])) -> row v = [].
Proof.
  intros ND B T C. destruct (row v) as [|s r] eqn:Er; auto. exfalso.
  assert (E : edge succ v s) by (unfold edge; fold (row v); rewrite Er; simpl; auto).
  assert (Hs : s < n) by (rewrite <- Ls; eapply HT; eauto).
  assert (Is : In s (D ++ [v])) by (eapply all_done; eauto).
  apply in_split in Is. destruct Is as (l1 & l2 & EQ). pose proof (T _ _ _ _ EQ E) as Iv.
  apply NoDup_remove in ND. rewrite app_nil_r in ND. destruct ND as (_ & NV). apply NV.
  destruct (@exists_last _ (s :: l2)) as (l' & z & El); [discriminate|]. rewrite El, app_assoc in EQ.
  apply app_inj_tail in EQ. destruct EQ as (-> & _). apply in_or_app; auto.
Qed.
(** Finishing v and popping sinks. *)
Lemma skip_ok : forall rest D v cnt rdy s, inv D v rest (length (row v)) cnt -> dcnt s = cnt -> dready s = rdy ->
  (exists D' v' rest' , dag_skip succ rest s = Ok (mkDag (v' :: rest') v' 0 cnt rdy) /\ row v' <> [] /\ inv D' v' rest' 0 cnt /\ out D' v' 0 = out D v (length (row v))) \/
  (exists D' v' j, dag_skip succ rest s = Ok (mkDag [] (match rest with [] => dv s | _ => v' end) j cnt rdy) /\ row v' = [] /\ NoDup (D' ++ [v']) /\
     (forall x, In x (D' ++ [v']) <-> x < n) /\ topo (D' ++ [v']) /\ flat_map eds (D' ++ [v']) = out D v (length (row v)) /\ (rest = [] -> v' = v)).
Proof.
  induction rest as [|w rest IH]; intros D v cnt rdy s I Ec Er.
  - right. exists D, v, (di s). cbn [dag_skip]. unfold dag_set_q. rewrite Ec, Er. split; auto.
    assert (B : forall x, In x (D ++ [v]) -> x < n) by apply (i_lt I).
    assert (C : forall u, u < n -> into (flat_map eds (D ++ [v])) u = length (nth u pred []) -> In u (D ++ [v])).
    { intros u Hu F. apply (i_mem I); auto. now rewrite out_full. }
    assert (R : row v = []) by (apply (@last_sink D v); auto; [apply (i_nd I)|apply (i_topo I)]).
    split; auto. split; [apply (i_nd I)|]. split; [intros x; split; auto; apply all_done; auto; apply (i_nd I)|].
    split; [apply (i_topo I)|]. split; [now rewrite out_full|auto].
  - cbn [dag_skip]. assert (Hw : w < n) by (apply (i_lt I); apply in_or_app; simpl; auto).
    rewrite (@vget_nth _ succ w []) by lia. cbn [bind]. fold (row w).
    assert (O : out (D ++ [v]) w 0 = out D v (length (row v))) by (rewrite out_full; unfold out; simpl; now rewrite app_nil_r).
    assert (I' : inv (D ++ [v]) w rest 0 cnt).
    { destruct I as [A1 A2 A3 A4 A5 A6 A7].
      constructor; try rewrite <- app_assoc; cbn [app]; auto; try lia; intros u Hu; rewrite O; auto. }
    destruct (Nat.eqb_spec (length (row w)) 0) as [Z|Z].
    + rewrite <- Z in I' at 1. destruct (IH (D ++ [v]) w cnt rdy (mkDag rest w (di s) (dcnt s) (dready s)) I') as [(D' & v' & rest' & E & R & J & X)|(D' & v' & j & E & R & ND & B & T & X & F)]; auto.
      * left. exists D', v', rest'. rewrite Z, O in X. auto.
      * right. exists D', v', j. rewrite E. split; [|rewrite Z, O in X; repeat split; auto; try apply B; discriminate].
        destruct rest; [rewrite (F eq_refl)|]; auto.
    + left. exists (D ++ [v]), w, rest. rewrite Ec, Er. split; auto. split; [intros H; rewrite H in Z; simpl in Z; lia|]. split; auto.
Qed.

(** After advance: either the queue is empty and everything was handed out, or a current arc is ready. *)
Definition live (D : list nat) (v i : nat) (s : dag) : Prop :=
  exists rest cnt rdy, s = mkDag (v :: rest) v i cnt rdy /\ i < length (row v) /\ inv D v rest (S i) cnt /\
    rdy = (into (out D v (S i)) (nth i (row v) 0) =? length (nth (nth i (row v) 0) pred [])).
Definition finished (P : list nat) : Prop := NoDup P /\ (forall x, In x P <-> x < n) /\ topo P.

Lemma emit D v rest i cnt q rdy0 : inv D v rest i cnt -> i < length (row v) -> q = v :: rest ->
  exists s, (do row1 <- vget succ v ;
     if 0 <? length row1 then
       do u <- vget row1 i ; do c <- vget cnt u ; do cnt' <- vset cnt u (c + 1) ; do p <- vget pred u ;
       if c + 1 =? length p then Ok (mkDag (q ++ [u]) v i cnt' true) else Ok (mkDag q v i cnt' false)
     else Ok (mkDag q v i cnt rdy0)) = Ok s /\ live D v i s.
Proof.
  intros I Hi ->. assert (Hv : v < n) by (apply (i_lt I), in_or_app; simpl; auto).
  rewrite (@vget_nth _ succ v []) by lia. cbn [bind]. fold (row v). destruct (Nat.ltb_spec 0 (length (row v))) as [_|]; [|lia].
  rewrite (@vget_nth _ (row v) i 0) by auto. cbn [bind]. set (u := nth i (row v) 0).
  assert (E : edge succ v u) by (unfold edge; fold (row v); now apply nth_In).
  assert (Hu : u < n) by (rewrite <- Ls; eapply HT; eauto). pose proof (i_len I) as Lc.
  rewrite (@vget_nth _ cnt u 0) by lia. cbn [bind]. rewrite vset_lt by lia. cbn [bind]. rewrite (@vget_nth _ pred u []) by lia. cbn [bind]. rewrite (i_cnt I) by auto.
  assert (OS : out D v (S i) = out D v i ++ [(v, u)]) by (now apply out_S).
  assert (IU : into (out D v (S i)) u = into (out D v i) u + 1) by (rewrite OS, into_app; unfold into at 2; simpl; now rewrite Nat.eqb_refl).
  assert (IO : forall w, w <> u -> into (out D v (S i)) w = into (out D v i) w).
  { intros w N. rewrite OS, into_app. unfold into at 2. simpl. replace (u =? w) with false by (symmetry; now apply Nat.eqb_neq; auto). simpl. lia. }
  assert (NU : ~ In u (D ++ v :: rest)).
  { intros J. assert (X : into (out D v i) u = length (nth u pred [])) by (now apply (i_mem I)).
    assert (Y : into (out D v (S i)) u <= length (nth u pred [])); [|lia].
    rewrite pred_len. unfold out. rewrite into_app, into_eds, firstn_eds, into_row.
    pose proof (cocc_firstn (S i) (row v) u).
    assert (Z : sum (map (fun a => cocc (row a) u) (D ++ [v])) <= sum (map (fun a => cocc (row a) u) (seq 0 n))).
    { apply sum_incl.
      - pose proof (i_nd I) as ND. replace (D ++ v :: rest) with ((D ++ [v]) ++ rest) in ND by (now rewrite <- app_assoc). eapply NoDup_app_l; eauto.
      - intros x Ix. apply in_seq. assert (x < n); [|lia]. apply (i_lt I). apply in_app_or in Ix. apply in_or_app. destruct Ix as [|[<-|[]]]; simpl; auto. }
    rewrite map_app, sum_app in Z. simpl in Z. lia. }
  assert (CNT : forall w, w < n -> nth w (upd cnt u (into (out D v i) u + 1)) 0 = into (out D v (S i)) w).
  { intros w Hw. destruct (Nat.eq_dec w u) as [->|N]; [rewrite nth_upd_eq by lia; auto|]. rewrite nth_upd_neq by auto. rewrite IO by auto. now apply (i_cnt I). }
  destruct (Nat.eqb_spec (into (out D v i) u + 1) (length (nth u pred []))) as [F|F]; eexists; (split; [reflexivity|]).
  - exists (rest ++ [u]), (upd cnt u (into (out D v i) u + 1)), true. cbn [app]. split; auto. split; auto. split.
    + assert (EQ : D ++ v :: rest ++ [u] = (D ++ v :: rest) ++ [u]) by (now rewrite <- app_assoc).
      constructor; rewrite ?EQ; auto.
      * apply NoDup_snoc; auto. apply (i_nd I).
      * intros x J. apply in_app_or in J. destruct J as [J|[<-|[]]]; [now apply (i_lt I)|auto].
      * now rewrite upd_length.
      * intros w Hw. destruct (Nat.eq_dec w u) as [->|N].
        -- rewrite IU. split; [auto|intros _; apply in_or_app; simpl; auto].
        -- rewrite IO by auto. rewrite <- (i_mem I) by auto. split; intros J; [|apply in_or_app; auto]. apply in_app_or in J. destruct J as [|[->|[]]]; [auto|congruence].
      * intros l1 b l2 a EP Ed. destruct l2 as [|z l2] using rev_ind.
        -- apply app_inj_tail in EP. destruct EP as (<- & <-). apply in_or_app.
           assert (J : In a (D ++ [v])).
           { apply (@full_preds D v (S i) u); auto.
             - pose proof (i_nd I) as ND. replace (D ++ v :: rest) with ((D ++ [v]) ++ rest) in ND by (now rewrite <- app_assoc). eapply NoDup_app_l; eauto.
             - intros x Ix. apply (i_lt I). apply in_app_or in Ix. apply in_or_app. destruct Ix as [|[<-|[]]]; simpl; auto.
             - lia. }
           apply in_app_or in J. destruct J as [|[<-|[]]]; simpl; auto.
        -- rewrite app_comm_cons, app_assoc in EP. apply app_inj_tail in EP. destruct EP as (EP & _). eapply (i_topo I); eauto.
    + symmetry. apply Nat.eqb_eq. fold u. lia.
  - exists rest, (upd cnt u (into (out D v i) u + 1)), false. split; auto. split; auto. split.
    + destruct I as [A1 A2 A3 A4 A5 A6 A7]. constructor; auto.
      * now rewrite upd_length.
      * intros w Hw. destruct (Nat.eq_dec w u) as [->|N]; [|rewrite IO by auto; now apply A6]. rewrite IU. split; [contradiction|congruence].
    + symmetry. apply Nat.eqb_neq. fold u. lia.
Qed.
Lemma advance_ok D v rest i cnt rdy : inv D v rest i cnt ->
  (exists D' v' i' s, dag_advance pred succ (mkDag (v :: rest) v i cnt rdy) = Ok s /\ live D' v' i' s /\ out D' v' i' = out D v i) \/
  (exists P s, dag_advance pred succ (mkDag (v :: rest) v i cnt rdy) = Ok s /\ dq s = [] /\ finished P /\ flat_map eds P = out D v i).
Proof.
  intros I. assert (Hv : v < n) by (apply (i_lt I), in_or_app; simpl; auto). unfold dag_advance. cbn [dv di dq].
  rewrite (@vget_nth _ succ v []) by lia. cbn [bind]. fold (row v).
  destruct (Nat.eqb_spec i (length (row v))) as [->|N].
  - destruct (@skip_ok rest D v cnt rdy (dag_set_q (mkDag (v :: rest) v (length (row v)) cnt rdy) rest) I eq_refl eq_refl)
      as [(D' & v' & rest' & E & R & J & X)|(D' & v' & j & E & R & ND & B & T & X & F)]; rewrite E; cbn [bind dv di dq dcnt].
    + left. destruct (@emit D' v' rest' 0 cnt (v' :: rest') rdy J) as (s & Es & L); [destruct (row v'); [congruence|simpl; lia]|auto|].
      exists D', v', 0, s. split; [exact Es|]. split; auto.
    + right. assert (H : match rest with [] => dv (dag_set_q (mkDag (v :: rest) v (length (row v)) cnt rdy) rest) | _ => v' end = v').
      { destruct rest; auto. rewrite (F eq_refl). reflexivity. }
      rewrite H. assert (Hv' : v' < n) by (apply B, in_or_app; simpl; auto).
      rewrite (@vget_nth _ succ v' []) by lia. cbn [bind]. fold (row v'). rewrite R. cbn [length Nat.ltb Nat.leb].
      exists (D' ++ [v']). eexists. split; [reflexivity|]. split; auto. split; [repeat split; auto; apply B|auto].
  - left. assert (Hi : i < length (row v)) by (pose proof (i_i I); lia). cbn [bind dv di dq dcnt].
    destruct (@emit D v rest i cnt (v :: rest) rdy I Hi eq_refl) as (s & Es & L). exists D, v, i, s. auto.
Qed.

Definition flags (o : list (nat * nat)) (l : list (nat * nat * bool)) : Prop :=
  forall l1 e r l2, l = l1 ++ (e, r) :: l2 -> r = (into (o ++ map fst l1 ++ [e]) (snd e) =? length (nth (snd e) pred [])).
Lemma out_lt D v rest i cnt : inv D v rest i cnt -> forall j, j < length (row v) -> length (out D v j) < total.
Proof.
  intros I j Hj. unfold out. rewrite app_length, firstn_eds, map_length, firstn_length, eds_len.
  assert (Z : sum (map (fun a => length (row a)) (D ++ [v])) <= total).
  { apply sum_incl.
    - pose proof (i_nd I) as ND. replace (D ++ v :: rest) with ((D ++ [v]) ++ rest) in ND by (now rewrite <- app_assoc). eapply NoDup_app_l; eauto.
    - intros x Ix. apply in_seq. assert (x < n); [|lia]. apply (i_lt I). apply in_app_or in Ix. apply in_or_app. destruct Ix as [|[<-|[]]]; simpl; auto. }
  rewrite map_app, sum_app in Z. simpl in Z. lia.
Qed.
Lemma visit_ok : forall fuel D v i s, live D v i s -> total - length (out D v i) <= fuel ->
  exists P l, dag_visit fuel pred succ s = Ok l /\ finished P /\ out D v i ++ map fst l = flat_map eds P /\ flags (out D v i) l.
Proof.
  induction fuel as [|f IH]; intros D v i s (rest & cnt & rdy & -> & Hi & I & Er) F; pose proof (out_lt I Hi) as OL; [lia|].
  cbn [dag_visit dq dv di dcnt dready]. assert (Hv : v < n) by (apply (i_lt I), in_or_app; simpl; auto).
  rewrite (@vget_nth _ succ v []) by lia. cbn [bind]. fold (row v). rewrite (@vget_nth _ (row v) i 0) by auto. cbn [bind].
  set (u := nth i (row v) 0) in *. assert (OS : out D v (S i) = out D v i ++ [(v, u)]) by (now apply out_S).
  destruct (advance_ok rdy I) as [(D' & v' & i' & s' & E & L & O)|(P & s' & E & Q & FI & O)]; rewrite E; cbn [bind].
  - destruct (IH _ _ _ _ L) as (P & l & EV & FI & EO & FL); [rewrite O, OS, app_length; simpl; lia|]. rewrite EV. cbn [bind].
    exists P, ((v, u, rdy) :: l). split; auto. split; auto. rewrite O, OS in EO, FL. split; [cbn [map fst]; rewrite <- app_assoc in EO; exact EO|].
    intros l1 e r l2 EL. destruct l1 as [|x l1].
    + injection EL as <- <- _. cbn [map app snd]. rewrite <- OS. exact Er.
    + injection EL as <- EL. rewrite (FL _ _ _ _ EL). cbn [map fst]. now rewrite <- !app_assoc.
  - exists P, [(v, u, rdy)]. destruct f; cbn [dag_visit]; rewrite Q; cbn [bind]; (split; [auto|]); (split; [auto|]); (split; [cbn [map fst]; congruence|]);
    intros l1 e r l2 EL; (destruct l1 as [|x l1]; [|destruct l1; discriminate EL]); injection EL as <- <- _; cbn [map app snd]; rewrite <- OS; exact Er.
Qed.
Lemma roots_ok : forall m q, m <= n -> rfold (fun q i => do p <- vget pred i ; Ok (if length p =? 0 then q ++ [i] else q)) (seq 0 m) q =
  Ok (q ++ filter (fun i => length (nth i pred []) =? 0) (seq 0 m)).
Proof.
  induction m as [|m IH]; intros q H; [simpl; now rewrite app_nil_r|]. rewrite seq_S, rfold_app, IH by lia. cbn [bind rfold plus].
  rewrite (@vget_nth _ pred m []) by lia. cbn [bind]. rewrite filter_app. cbn [filter]. destruct (_ =? 0); now rewrite <- ?app_assoc, ?app_nil_r.
Qed.
Lemma iterate_ok fuel : 0 < n -> total <= fuel ->
  exists P l, dag_iterate fuel n pred succ = Ok l /\ finished P /\ map fst l = flat_map eds P /\ flags [] l.
Proof.
  intros Hn F. unfold dag_iterate, dag_begin, dag_roots. rewrite roots_ok by auto. cbn [app bind].
  assert (RT : forall x, In x (filter (fun i => length (nth i pred []) =? 0) (seq 0 n)) <-> x < n /\ 0 = length (nth x pred [])).
  { intros x. rewrite filter_In, in_seq, Nat.eqb_eq. lia. }
  pose proof (NoDup_filter (fun i => length (nth i pred []) =? 0) (seq_NoDup n 0)) as ND.
  destruct (filter (fun i => length (nth i pred []) =? 0) (seq 0 n)) as [|v rest].
  { exfalso. apply (@all_done []) with (u := 0); auto; [intros x Hx; destruct Hx|]. intros u Hu E. apply RT. auto. }
  assert (Hv : v < n) by (apply RT; simpl; auto).
  rewrite (@vget_nth _ succ v []) by lia. cbn [bind].
  assert (O0 : out [] v 0 = []) by reflexivity.
  assert (I : inv [] v rest 0 (repeat 0 n)).
  { constructor; cbn [app]; auto; try lia.
    - intros x I. now apply RT.
    - apply repeat_length.
    - intros u Hu. rewrite nth_repeat, O0. reflexivity.
    - intros u Hu. rewrite RT, O0. unfold into. simpl. tauto.
    - intros l1 b l2 a EP Ed. exfalso. assert (Ib : In b (v :: rest)) by (rewrite EP; apply in_or_app; simpl; auto). apply RT in Ib. destruct Ib as (_ & Z).
      unfold edge in Ed. rewrite (count_occ_In Nat.eq_dec), MATCH in Ed. destruct (nth b pred []); [simpl in Ed; lia|discriminate]. }
  destruct (advance_ok false I) as [(D' & v' & i' & s' & E & L & O)|(P & s' & E & Q & FI & O)]; rewrite E; cbn [bind].
  - destruct (@visit_ok fuel _ _ _ _ L) as (P & l & EV & FI & EO & FL); [rewrite O, O0; simpl; lia|]. rewrite EV. exists P, l. rewrite O, O0 in EO, FL. auto.
  - exists P, []. split; [destruct fuel; cbn [dag_visit]; now rewrite Q|]. split; auto. split; [simpl; congruence|]. intros l1 e r l2 EL. destruct l1; discriminate.
Qed.
Lemma finished_perm P : finished P -> Permutation P (seq 0 n).
Proof. intros (ND & M & _). apply NoDup_Permutation; auto; [apply seq_NoDup|]. intros x. rewrite M, in_seq. lia. Qed.
(** Arcs come after all arcs into their source. *)
Lemma finished_order P o1 a b o2 : finished P -> flat_map eds P = o1 ++ (a, b) :: o2 -> forall c, ~ In (c, a) ((a, b) :: o2).
Proof.
  intros (ND & M & T). clear M.
  assert (K : forall Q D, P = D ++ Q -> forall o1, flat_map eds Q = o1 ++ (a, b) :: o2 -> forall c, ~ In (c, a) ((a, b) :: o2)).
  { induction Q as [|q Q IH]; intros D EP o E c I; [destruct o; discriminate|]. cbn [flat_map] in E.
    assert (CUT : (exists o', o = eds q ++ o' /\ flat_map eds Q = o' ++ (a, b) :: o2) \/ (q = a /\ exists z, (a, b) :: o2 = z ++ flat_map eds Q /\ forall e, In e z -> fst e = a)).
    { assert (G : forall (x : list (nat * nat)) y o, x ++ y = o ++ (a, b) :: o2 -> (exists o', o = x ++ o' /\ y = o' ++ (a, b) :: o2) \/ (In (a, b) x /\ exists z, (a, b) :: o2 = z ++ y /\ incl z x)).
      { clear. induction x as [|e x IH]; intros y o E; simpl in E.
        - left. exists o. auto.
        - destruct o as [|e' o]; simpl in E; injection E as -> E.
          + right. split; [simpl; auto|]. exists ((a, b) :: x). split; [now rewrite <- E|apply incl_refl].
          + destruct (IH y o E) as [(o' & -> & E')|(I & z & E' & IC)].
            * left. exists o'. auto.
            * right. split; [simpl; auto|]. exists z. split; auto. intros w Iw. right. now apply IC. }
      destruct (G _ _ _ E) as [|(I' & z & E' & IC)]; [left; auto|right]. unfold eds in I'. apply in_map_iff in I'. destruct I' as (x & EX & _). injection EX as -> _.
      split; auto. exists z. split; auto. intros e Ie. apply IC in Ie. unfold eds in Ie. apply in_map_iff in Ie. destruct Ie as (w & <- & _). reflexivity. }
    destruct CUT as [(o' & -> & E')|(-> & z & E' & Z)].
    - eapply (IH (D ++ [q])); eauto. now rewrite <- app_assoc.
    - rewrite E' in I. apply in_app_or in I.
      assert (Ed : edge succ c a /\ (c = a \/ In c Q)).
      { destruct I as [I|I].
        - assert (c = a) by (specialize (Z _ I); auto). subst c. split; auto.
          assert (In (a, a) (flat_map eds (a :: Q))). { cbn [flat_map]. rewrite E. apply in_or_app. right. rewrite E'. apply in_or_app; auto. }
          apply in_flat_map in H. destruct H as (x & _ & Ix). unfold eds in Ix. apply in_map_iff in Ix. destruct Ix as (w & EW & Iw). injection EW as -> ->. exact Iw.
        - apply in_flat_map in I. destruct I as (x & Jx & Ix). unfold eds in Ix. apply in_map_iff in Ix. destruct Ix as (w & EW & Iw). injection EW as -> ->. split; auto. }
      destruct Ed as (Ed & IC). pose proof (T _ _ _ _ EP Ed) as ID. rewrite EP in ND.
      assert (X : NoDup ((D ++ [a]) ++ Q)) by (now rewrite <- app_assoc). destruct IC as [->|IC].
      + apply NoDup_remove_2 in ND. apply ND, in_or_app; auto.
      + apply in_split in ID. destruct ID as (d1 & d2 & ->). rewrite <- app_assoc in ND. apply NoDup_remove_2 in ND. apply ND. apply in_or_app. right. apply in_or_app. right. right. auto. }
  intros E. eapply (K P []); eauto.
Qed.
End Dag.
