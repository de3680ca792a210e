(** Lemmas for CcModel: afforest and CCVerifier. *)
From Coq Require Import List Arith Lia Bool Relations Permutation.
From Verif Require Import Base ConnLib GraphLib SsspLib Pool ParBfsModel ParBfsProofs CcModel CcProofs.
Import ListNotations.
Set Implicit Arguments.

Lemma nth_error_skipn_eq (A : Type) (l : list A) : forall r i, nth_error (skipn r l) i = nth_error l (r + i).
Proof. induction l; destruct r; intros i; simpl; auto. destruct i; auto. Qed.
(** All arcs of a graph. *)
Definition gedges (g : list (list nat)) : list (nat * nat) :=
  concat (map (fun u => map (fun v => (u, v)) (nth u g [])) (seq 0 (length g))).
Lemma in_gedges g u v : In (u, v) (gedges g) <-> edge g u v.
Proof.
  unfold gedges. rewrite in_concat. split.
  - intros (l & I & J). apply in_map_iff in I. destruct I as (x & <- & I). apply in_map_iff in J. destruct J as (y & E & J). injection E as <- <-. exact J.
  - intros E. exists (map (fun y => (u, y)) (nth u g [])). split; [|apply in_map_iff; exists v; auto].
    apply in_map_iff. exists u. split; auto. apply in_seq. apply edge_lt in E. lia.
Qed.

Lemma comp_ok_seq n : comp_ok n (seq 0 n).
Proof. split; [apply seq_length|]. intros x Hx. unfold lab. rewrite seq_nth; lia. Qed.
Lemma cedges_seq n u v : conn (cedges (seq 0 n)) u v -> u = v.
Proof.
  induction 1 as [a b I|a|a b _ IH|a b c _ IH1 _ IH2]; auto; try congruence. apply in_cedges in I. rewrite seq_length in I. destruct I as [I ->]. unfold lab. rewrite seq_nth; lia.
Qed.
Lemma compress_conn n comp comp' : comp_ok n comp -> length comp' = n -> (forall x, x < n -> nth x comp' x = root comp x) ->
  comp_ok n comp' /\ forall u v, conn (cedges comp') u v <-> conn (cedges comp) u v.
Proof.
  intros C L H. assert (C' : comp_ok n comp') by (split; auto; intros x Hx; unfold lab; rewrite H by auto; now apply (root_props C)).
  split; auto. intros u v. split; apply conn_mono; intros a b I; apply in_cedges in I; destruct I as [I ->].
  - rewrite L in I. unfold lab. rewrite H by auto. apply (climb_conn C); auto.
  - rewrite (proj1 C) in I. assert (LA := proj2 C a I). assert (R := root_lab C I).
    assert (E : forall x, x < n -> conn (cedges comp') x (root comp x)).
    { intros x Hx. apply conn_edge, in_cedges. split; [lia|]. symmetry. now apply H. }
    eapply conn_trans; [apply E; auto|]. rewrite <- R. apply conn_sym, E. lia.
Qed.

(** * afforest *)
Section Afforest.
Variables (W : nat) (g tg : list (list nat)).
Notation n := (length g).
Hypothesis HW : n <= W.
Hypothesis HT : targets_ok g.
Hypothesis HC : (tg = [] /\ forall u v, edge g u v -> edge g v u) \/ transpose_of g tg.
Notation G := (gedges g).

Definition round_inv (k : nat) (comp : list nat) : Prop :=
  comp_ok n comp /\ (forall u v, conn (cedges comp) u v -> conn G u v) /\
  forall u j v, j < k -> nth_error (nth u g []) j = Some v -> conn (cedges comp) u v.
Lemma edge_nth u j v : nth_error (nth u g []) j = Some v -> edge g u v.
Proof. apply nth_error_In. Qed.
Lemma af_round_ok sched r comp : round_inv r comp -> exists comp', af_round W n sched g r comp = Ok comp' /\ round_inv (S r) comp'.
Proof.
  intros (C & S & D). unfold af_round.
  rewrite rmap_ok with (g := fun u => map (fun v => (u, v)) (firstn 1 (skipn r (nth u g [])))).
  2:{ intros u I. apply in_seq in I. rewrite (@vget_nth _ g u []) by lia. reflexivity. }
  cbn [bind]. set (es := concat _).
  assert (IE : forall a b, In (a, b) es <-> nth_error (nth a g []) r = Some b).
  { intros a b. unfold es. rewrite in_concat. split.
    - intros (l & I & J). apply in_map_iff in I. destruct I as (x & <- & I). apply in_map_iff in J. destruct J as (y & E & J). injection E as <- <-.
      rewrite <- (Nat.add_0_r r), <- nth_error_skipn_eq. destruct (skipn r (nth x g [])); [destruct J|]. destruct J as [->|[]]. reflexivity.
    - intros E. exists (map (fun v => (a, v)) (firstn 1 (skipn r (nth a g [])))). split.
      + apply in_map_iff. exists a. split; auto. apply in_seq. assert (X := edge_lt _ _ _ (edge_nth _ _ E)). lia.
      + apply in_map_iff. exists b. split; auto. rewrite <- (Nat.add_0_r r), <- nth_error_skipn_eq in E. destruct (skipn r (nth a g [])); [discriminate|]. injection E as ->. now left. }
  destruct (@link_all_ok n W HW sched es comp C) as (comp' & E & C' & Q).
  { intros a b I. apply IE in I. apply edge_nth in I. split; [eapply edge_lt; eauto|eapply HT; eauto]. }
  exists comp'. split; auto. split; auto. split.
  - intros u v. rewrite Q. apply conn_mono. intros a b I. apply in_app_or in I. destruct I as [I|I]; [apply S, conn_edge; auto|].
    apply conn_edge, in_gedges. apply IE in I. eapply edge_nth; eauto.
  - intros u j v Hj E2. rewrite Q. destruct (Nat.eq_dec j r) as [->|]; [apply conn_app2, conn_edge, IE; auto|apply conn_app1; apply D with j; auto; lia].
Qed.
Lemma round_compress k sched comp : round_inv k comp -> exists comp', compress sched comp = Ok comp' /\ round_inv k comp'.
Proof.
  intros (C & S & D). destruct (compress_ok sched C) as (comp' & E & L & H). exists comp'. split; auto.
  destruct (compress_conn _ C L H) as [C' Q]. split; auto. split; intros; rewrite ?Q in *; eauto.
Qed.

(** The last phase. *)
Section Final.
Variables (rounds c : nat) (comp0 : list nat).
Hypothesis H0 : round_inv rounds comp0.
Definition arcs_of (u : nat) : list nat := skipn rounds (nth u g []) ++ nth u tg [].
Definition apend (t : af) : list (nat * nat) := match t with AfChk _ => [] | AfLnk t rest => lk_pend t :: rest end.
Definition af_ok (comp : list nat) (t : af) : Prop :=
  match t with AfChk u => u < n | AfLnk t rest => lk_ok n comp t /\ forall a b, In (a, b) rest -> a < n /\ b < n end.
Definition Qc (comp : list nat) (ts : list af) : nat -> nat -> Prop := conn (cedges comp ++ concat (map apend ts)).
Record af_inv (ts : list af) (comp : list nat) : Prop := {
  ai_comp : comp_ok n comp;
  ai_ok : Forall (af_ok comp) ts;
  ai_sound : forall u v, Qc comp ts u v -> conn G u v;
  ai_grow : forall u v, conn (cedges comp0) u v -> Qc comp ts u v;
  ai_arcs : forall u v, u < n -> In v (arcs_of u) -> In (AfChk u) ts \/ Qc comp ts u v \/ Qc comp ts u c }.

Lemma arcs_edge u v : u < n -> In v (arcs_of u) -> conn G u v /\ v < n.
Proof.
  intros Hu I. unfold arcs_of in I. apply in_app_or in I. destruct I as [I|I].
  - assert (E : edge g u v). { unfold edge. rewrite <- (firstn_skipn rounds (nth u g [])). apply in_or_app. auto. }
    split; [apply conn_edge, in_gedges; auto|eapply HT; eauto].
  - destruct HC as [[-> _]|[L TR]]; [destruct u; destruct I|]. assert (E : edge g v u) by (apply TR; exact I).
    split; [apply conn_sym, conn_edge, in_gedges; auto|eapply edge_lt; eauto].
Qed.
Lemma af_links_ok u : u < n -> af_links rounds g tg u = Ok (map (fun v => (u, v)) (arcs_of u)).
Proof.
  intros Hu. unfold af_links. rewrite (@vget_nth _ g u []) by auto. cbn [bind]. unfold arcs_of. destruct HC as [[-> _]|[L TR]].
  - cbn [length Nat.eqb bind]. now destruct u.
  - destruct (Nat.eqb_spec (length tg) 0); [lia|]. rewrite (@vget_nth _ tg u []) by lia. reflexivity.
Qed.
Lemma af_ok_below comp comp' t : below comp' comp -> af_ok comp t -> af_ok comp' t.
Proof. intros B. destruct t; cbn [af_ok]; auto. intros [A D]. split; auto. eapply lk_ok_below; eauto. Qed.
Definition oapend (o : option af) : list (nat * nat) := match o with Some t => apend t | None => [] end.
Lemma oapend_start es : oapend (af_start es) = es.
Proof. destruct es as [|[a b] es]; reflexivity. Qed.
Lemma Qc_mid comp l1 o l2 u v : Qc comp (l1 ++ opt_list o ++ l2) u v <-> conn ((cedges comp ++ oapend o) ++ concat (map apend (l1 ++ l2))) u v.
Proof.
  unfold Qc. split; apply conn_incl; intros x I; repeat rewrite ?map_app, ?concat_app, ?in_app_iff in *; destruct o; cbn [opt_list map concat oapend app] in *; repeat rewrite ?app_nil_r, ?in_app_iff in *; tauto.
Qed.
Lemma Qc_mid1 comp l1 t l2 u v : Qc comp (l1 ++ t :: l2) u v <-> conn ((cedges comp ++ apend t) ++ concat (map apend (l1 ++ l2))) u v.
Proof. apply (Qc_mid comp l1 (Some t) l2). Qed.
Lemma in_mid_chk u l1 t l2 o : In (AfChk u) (l1 ++ t :: l2) -> t <> AfChk u -> In (AfChk u) (l1 ++ opt_list o ++ l2).
Proof. intros I N. rewrite !in_app_iff in *. destruct I as [I|[I|I]]; auto. congruence. Qed.

Lemma af_step_ok l1 t l2 comp : af_inv (l1 ++ t :: l2) comp ->
  exists o comp', af_step W c rounds g tg t comp = Ok (o, comp') /\ af_inv (l1 ++ opt_list o ++ l2) comp' /\
    match o with Some t' => af_size rounds g tg t' < af_size rounds g tg t | None => True end.
Proof.
  intros I. assert (C := ai_comp I). assert (F := ai_ok I). apply Forall_app in F. destruct F as [F1 F2]. inversion F2 as [|t' l' Ht F3]; subst.
  destruct t as [u|t rest]; cbn [af_step].
  - cbn [af_ok] in Ht. rewrite (lab_get C Ht). cbn [bind].
    assert (CU : forall X, conn (cedges comp ++ X) u (lab comp u)) by (intros X; apply conn_app1, conn_edge, in_cedges; split; auto; rewrite (proj1 C); auto).
    destruct (Nat.eqb_spec (lab comp u) c) as [E|N].
    + exists None, comp. split; auto. split; auto. destruct I.
      assert (QE : forall a b, Qc comp (l1 ++ opt_list None ++ l2) a b <-> Qc comp (l1 ++ AfChk u :: l2) a b) by (intros a b; rewrite Qc_mid, Qc_mid1; tauto).
      constructor; auto; try (intros a b; rewrite QE; auto; fail).
      * apply Forall_app. auto.
      * intros a b Ha Hb. rewrite !QE. destruct (ai_arcs0 a b Ha Hb) as [Q|Q]; auto. destruct (Nat.eq_dec a u) as [->|NE].
        -- right. right. rewrite <- E. apply CU.
        -- left. apply in_mid_chk with (t := AfChk u); auto. congruence.
    + rewrite (af_links_ok Ht). cbn [bind]. set (es := map (fun v => (u, v)) (arcs_of u)). exists (af_start es), comp. split; auto.
      assert (RE : forall a b, In (a, b) es -> a = u /\ In b (arcs_of u)) by (unfold es; intros a b J; apply in_map_iff in J; destruct J as (y & E & J); injection E as <- <-; auto).
      assert (QE : forall a b, Qc comp (l1 ++ opt_list (af_start es) ++ l2) a b <-> conn ((cedges comp ++ es) ++ concat (map apend (l1 ++ l2))) a b) by (intros a b; now rewrite Qc_mid, oapend_start).
      assert (QM : forall a b, Qc comp (l1 ++ AfChk u :: l2) a b -> Qc comp (l1 ++ opt_list (af_start es) ++ l2) a b).
      { intros a b. rewrite QE, Qc_mid1. cbn [apend]. apply conn_incl. intros x. rewrite !in_app_iff. simpl (In x []). tauto. }
      split.
      * destruct I. constructor; auto.
        -- apply Forall_app. split; auto. apply Forall_app. split; auto. destruct es as [|[a b] es'] eqn:EE; cbn [af_start opt_list]; constructor; auto.
           assert (R : forall x y, In (x, y) ((a, b) :: es') -> x < n /\ y < n). { intros x y J. destruct (RE x y J) as [-> K]. split; auto. now apply (arcs_edge _ Ht). }
           destruct (R a b (or_introl eq_refl)). repeat split; auto; apply (R a0 b0); now right.
        -- intros a b. rewrite QE. apply conn_mono. intros x y J. rewrite !in_app_iff in J. destruct J as [[J|J]|J].
           ++ apply ai_sound0. apply conn_app1, conn_edge; auto.
           ++ destruct (RE x y J) as [-> K]. now apply (arcs_edge _ Ht).
           ++ apply ai_sound0. rewrite Qc_mid1. apply conn_app2, conn_edge; auto.
        -- intros a b Ha Hb. destruct (Nat.eq_dec a u) as [->|NE].
           ++ right. left. rewrite QE. apply conn_app1, conn_app2, conn_edge. unfold es. apply in_map_iff. exists b; auto.
           ++ destruct (ai_arcs0 a b Ha Hb) as [Q|[Q|Q]]; auto. left. apply in_mid_chk with (t := AfChk u); auto. congruence.
      * assert (AZ : af_size rounds g tg (AfChk u) = 1 + af_rest_size es) by reflexivity. destruct es as [|[a b] es']; cbn [af_start]; auto. rewrite AZ. unfold af_rest_size. cbn [af_size lk_size map sum fst snd]. unfold af_rest_size. lia.
  - destruct Ht as [Ht HR]. destruct (@lk_step_ok n W HW comp t C Ht) as (o & comp' & E & C' & B & OK & Q). rewrite E. cbn [bind fst snd].
    set (o' := match o with Some t' => Some (AfLnk t' rest) | None => af_start rest end). exists o', comp'. split; auto.
    assert (PO : oapend o' = opend o ++ rest) by (unfold o'; destruct o; cbn [oapend apend opend app]; auto; apply oapend_start).
    assert (QE : forall a b, Qc comp' (l1 ++ opt_list o' ++ l2) a b <-> Qc comp (l1 ++ AfLnk t rest :: l2) a b).
    { intros a b. rewrite Qc_mid, Qc_mid1, PO. cbn [apend].
      assert (X1 : (cedges comp' ++ opend o ++ rest) ++ concat (map apend (l1 ++ l2)) = (cedges comp' ++ opend o) ++ rest ++ concat (map apend (l1 ++ l2))) by now rewrite !app_assoc.
      assert (X2 : (cedges comp ++ lk_pend t :: rest) ++ concat (map apend (l1 ++ l2)) = (cedges comp ++ [lk_pend t]) ++ rest ++ concat (map apend (l1 ++ l2))) by (rewrite <- !app_assoc; reflexivity).
      rewrite X1, X2. apply Q. }
    split.
    + destruct I. constructor; auto.
      * apply Forall_app. split; [eapply Forall_impl; [|exact F1]; intros x; now apply af_ok_below|]. apply Forall_app. split; [|eapply Forall_impl; [|exact F3]; intros x; now apply af_ok_below].
        unfold o'. destruct o as [t'|]; [constructor; [split; tauto|constructor]|]. destruct rest as [|[a b] rest']; cbn [af_start opt_list]; constructor; auto.
        assert (R := HR a b (or_introl eq_refl)). repeat split; try tauto; apply (HR a0 b0); now right.
      * intros a b. rewrite QE. auto.
      * intros a b. rewrite QE. auto.
      * intros a b Ha Hb. rewrite !QE. destruct (ai_arcs0 a b Ha Hb) as [K|K]; auto. left. apply in_mid_chk with (t := AfLnk t rest); auto. discriminate.
    + unfold o'. destruct o as [t'|]; cbn [af_size]; [lia|]. destruct rest as [|[a b] rest']; cbn [af_start]; auto. unfold af_rest_size. cbn [af_size lk_size map sum fst snd]. unfold af_rest_size. lia.
Qed.

Lemma af_final_ok sched : exists comp', run_all (af_size rounds g tg) (af_step W c rounds g tg) sched (map AfChk (seq 0 n)) comp0 = Ok comp' /\
  comp_ok n comp' /\ forall u v, conn (cedges comp') u v <-> conn G u v.
Proof.
  assert (HQ : forall a b, Qc comp0 (map AfChk (seq 0 n)) a b <-> conn (cedges comp0) a b).
  { intros a b. unfold Qc. rewrite map_map. cbn [apend]. replace (concat (map (fun _ : nat => []) (seq 0 n))) with (@nil (nat * nat)) by (induction (seq 0 n); auto). now rewrite app_nil_r. }
  destruct H0 as (C0 & S0 & D0).
  destruct (@run_all_inv _ _ (af_size rounds g tg) (af_step W c rounds g tg) af_inv (@af_step_ok) sched (map AfChk (seq 0 n)) comp0) as (comp' & E & I).
  - constructor; auto.
    + apply Forall_forall. intros t J. apply in_map_iff in J. destruct J as (x & <- & J). apply in_seq in J. cbn [af_ok]. lia.
    + intros u v. rewrite HQ. auto.
    + intros u v. rewrite HQ. auto.
    + intros u v Hu _. left. apply in_map_iff. exists u. split; auto. apply in_seq. lia.
  - exists comp'. split; auto. destruct I. split; auto.
    assert (QE : forall u v, Qc comp' [] u v <-> conn (cedges comp') u v) by (intros; unfold Qc; simpl; now rewrite app_nil_r).
    assert (A : forall u v, u < n -> In v (arcs_of u) -> conn (cedges comp') u v \/ conn (cedges comp') u c).
    { intros u v Hu Hv. destruct (ai_arcs0 u v Hu Hv) as [[]|Q]. rewrite !QE in Q. auto. }
    assert (EA : forall u v, edge g u v -> conn (cedges comp') u v \/ In v (arcs_of u)).
    { intros u v E1. destruct (In_nth_error _ _ E1) as [j J]. destruct (Nat.lt_ge_cases j rounds) as [L|L].
      - left. apply QE, ai_grow0. eapply D0; eauto.
      - right. unfold arcs_of. apply in_or_app. left. apply nth_error_In with (n := j - rounds). rewrite nth_error_skipn_eq. now replace (rounds + (j - rounds)) with j by lia. }
    intros u v. split; [intros H; apply ai_sound0; now rewrite QE|]. apply conn_mono. intros a b J. apply in_gedges in J.
    assert (La := edge_lt _ _ _ J). assert (Lb := HT _ _ J).
    destruct (EA a b J) as [Q|Q]; auto. destruct (A a b La Q) as [Q1|Q1]; auto.
    assert (R : conn (cedges comp') b a \/ conn (cedges comp') b c).
    { destruct HC as [[_ SY]|[LT TR]].
      - destruct (EA b a (SY _ _ J)) as [X|X]; auto.
      - apply A; auto. unfold arcs_of. apply in_or_app. right. now apply TR. }
    destruct R as [R|R]; [now apply conn_sym|]. eapply conn_trans; [exact Q1|]. now apply conn_sym.
Qed.
End Final.

Lemma afforest_m_ok sched pick rounds : exists comp, afforest_m W n sched pick g tg rounds = Ok comp /\ length comp = n /\
  forall v, v < n -> conn G v (nth v comp v) /\ forall w, w < n -> conn G v w -> nth v comp v <= w.
Proof.
  unfold afforest_m.
  assert (RD : forall k, exists comp, rfold (fun comp r => do comp1 <- af_round W n (sched (2 * r)) g r comp; compress (sched (2 * r + 1)) comp1) (seq 0 k) (seq 0 n) = Ok comp /\ round_inv k comp).
  { induction k as [|k (comp & E & I)].
    - exists (seq 0 n). split; auto. split; [apply comp_ok_seq|]. split; [intros u v H; apply cedges_seq in H; subst; apply conn_refl|]. intros; lia.
    - rewrite seq_S_app, rfold_app, E. cbn [bind rfold]. destruct (af_round_ok (sched (2 * k)) I) as (c1 & E1 & I1). rewrite E1. cbn [bind].
      destruct (round_compress (sched (2 * k + 1)) I1) as (c2 & E2 & I2). rewrite E2. cbn [bind]. exists c2. auto. }
  destruct (RD rounds) as (comp0 & E0 & I0). rewrite E0. cbn [bind].
  destruct (@af_final_ok rounds (pick comp0) comp0 I0 (sched (2 * rounds))) as (comp1 & E1 & C1 & Q1). rewrite E1. cbn [bind].
  destruct (compress_ok (sched (2 * rounds + 1)) C1) as (comp2 & E2 & L2 & H2). exists comp2. split; auto. split; auto.
  intros v Hv. rewrite H2 by auto. split.
  - apply Q1. apply (climb_conn C1); auto.
  - intros w Hw K. apply Q1 in K. apply (root_least C1 Hv Hw K).
Qed.
End Afforest.

(** * The label array of length size + 1 *)
Lemma af_round_ub W sched g r comp m : length g < m -> af_round W m sched g r comp = Ub.
Proof.
  intros L. unfold af_round. assert (H : forall k a, a <= length g -> length g < a + k ->
    rmap (fun u => do row <- vget g u; Ok (map (fun v => (u, v)) (firstn 1 (skipn r row)))) (seq a k) = Ub).
  { induction k; intros a H1 H2; [lia|]. cbn [seq rmap]. destruct (Nat.eq_dec a (length g)) as [->|N].
    - rewrite vget_ge by auto. reflexivity.
    - rewrite (@vget_nth _ g a []) by lia. cbn [bind]. rewrite IHk by lia. reflexivity. }
  rewrite H by lia. reflexivity.
Qed.

(** * CCVerifier *)
Section Verifier.
Variables (m : nat) (g xg : list (list nat)) (comp : list nat).
Notation n := (length g).
Hypothesis HT : targets_ok g.
Hypothesis HX : length xg <= n.
Hypothesis HXT : forall u v, edge xg u v -> v < n.
Hypothesis HC : n <= length comp.
Hypothesis HM : n <= m <= S n.
Definition nbr (x y : nat) : Prop := edge g x y \/ edge xg x y.
Notation U := (gedges g ++ gedges xg).
Definition cl (x : nat) : nat := nth x comp 0.
Definition vis (V : list bool) (x : nat) : Prop := nth x V false = true.
Definition cntf (V : list bool) : nat := sum (map (fun b : bool => if b then 0 else 1) V).

Lemma cntf_upd V x : x < length V -> cntf (upd V x true) <= cntf V /\ (nth x V false = false -> S (cntf (upd V x true)) = cntf V).
Proof.
  unfold cntf. revert x. induction V as [|b V IH]; intros x L; [simpl in L; lia|]. destruct x; simpl upd; cbn [map sum nth].
  - destruct b; split; try lia; discriminate.
  - simpl in L. destruct (IH x ltac:(lia)) as [A B]. split; [lia|]. intros H. specialize (B H). lia.
Qed.
Lemma vis_upd V x y : x < length V -> vis (upd V x true) y <-> y = x \/ vis V y.
Proof.
  intros L. unfold vis. destruct (Nat.eq_dec y x) as [->|N]; [rewrite nth_upd_eq by auto; tauto|]. rewrite nth_upd_neq by auto. tauto.
Qed.

(** One row: either a wrong label is met, or every target is visited and newly visited ones are queued. *)
Lemma cv_none label : forall row, rfold (cv_edge comp label) row None = Ok None.
Proof. induction row; auto. Qed.
Lemma cv_row label : forall row V q, length V = m -> (forall v, In v row -> v < n) ->
  (rfold (cv_edge comp label) row (Some (V, q)) = Ok None /\ exists v, In v row /\ cl v <> label) \/
  (exists V' q' new, rfold (cv_edge comp label) row (Some (V, q)) = Ok (Some (V', q')) /\ length V' = m /\ q' = q ++ new /\
     (forall v, In v row -> vis V' v /\ cl v = label) /\ (forall x, vis V x -> vis V' x) /\ (forall x, vis V' x -> vis V x \/ In x new) /\
     (forall x, In x new -> In x row /\ vis V' x) /\ cntf V' + length new = cntf V).
Proof.
  induction row as [|v row IH]; intros V q L R.
  - right. exists V, q, []. rewrite app_nil_r. simpl. repeat split; auto; tauto.
  - assert (Hv := R v (or_introl eq_refl)). cbn [rfold]. unfold cv_edge at 1 3. rewrite (@vget_nth _ comp v 0) by lia. cbn [bind]. fold (cl v).
    destruct (Nat.eqb_spec (cl v) label) as [E|N].
    2:{ left. cbn [bind]. rewrite cv_none. split; auto. exists v. split; auto. now left. }
    rewrite (@vget_nth _ V v false) by lia. cbn [bind]. destruct (nth v V false) eqn:EV.
    + cbn [bind]. destruct (IH V q L) as [(E1 & w & Iw & Nw)|(V' & q' & new & E1 & L' & Q & R1 & R2 & R3 & R4 & R5)]; [intros; apply R; now right| |].
      * left. split; auto. exists w. split; auto. now right.
      * right. exists V', q', new. repeat split; auto.
        -- destruct H as [->|H]; [apply R2; exact EV|now apply R1].
        -- destruct H as [->|H]; auto. now apply R1.
        -- right. now apply R4.
        -- now apply R4.
    + rewrite vset_lt by lia. cbn [bind]. destruct (IH (upd V v true) (q ++ [v])) as [(E1 & w & Iw & Nw)|(V' & q' & new & E1 & L' & Q & R1 & R2 & R3 & R4 & R5)].
      * now rewrite upd_length.
      * intros; apply R; now right.
      * left. split; auto. exists w. split; auto. now right.
      * right. exists V', q', (v :: new). destruct (@cntf_upd V v ltac:(lia)) as [_ CF]. specialize (CF EV).
        assert (VV : vis V' v) by (apply R2; apply vis_upd; auto; lia). repeat split; auto.
        -- rewrite Q, <- app_assoc. reflexivity.
        -- destruct H as [->|H]; auto. now apply R1.
        -- destruct H as [->|H]; auto. now apply R1.
        -- intros x H. apply R2, vis_upd; auto; lia.
        -- intros x H. destruct (R3 x H) as [K|K]; [|right; now right]. apply vis_upd in K; [|lia]. destruct K as [->|K]; auto. right. now left.
        -- destruct H as [->|H]; [now left|right; now apply R4].
        -- destruct H as [->|H]; auto. now apply R4.
        -- simpl. lia.
Qed.

Definition spec : Prop := forall u v, u < n -> v < n -> (cl u = cl v <-> conn U u v).
(** [seen]: entries whose search has started. *)
Record cv_inv (seen : list (nat * nat)) (label : nat) (V : list bool) (q : list nat) : Prop := {
  vi_len : length V = m;
  vi_lt : forall x, vis V x -> x < n;
  vi_q : forall x, In x q -> vis V x /\ cl x = label;
  vi_closed : forall x y, vis V x -> ~ In x q -> nbr x y -> vis V y /\ cl y = cl x;
  vi_src : forall x, vis V x -> exists s, In (cl x, s) seen /\ conn U s x;
  vi_seen : forall l s, In (l, s) seen -> vis V s }.
Lemma nbr_conn x y : nbr x y -> conn U x y.
Proof. intros [H|H]; [apply conn_app1|apply conn_app2]; apply conn_edge; now apply in_gedges. Qed.
Lemma nbr_lt x y : nbr x y -> y < n.
Proof. intros [H|H]; [eapply HT; eauto|eapply HXT; eauto]. Qed.

Lemma cv_bfs_ok seen label : forall fuel V q, cv_inv seen label V q -> length q + cntf V <= fuel ->
  (cv_bfs fuel g xg comp label (V, q) = Ok None /\ ~ spec) \/
  (exists V', cv_bfs fuel g xg comp label (V, q) = Ok (Some V') /\ cv_inv seen label V' []).
Proof.
  induction fuel; intros V q I HF.
  - destruct q as [|u q]; [|simpl in HF; lia]. right. exists V. split; auto.
  - destruct q as [|u q]; [right; exists V; split; auto|]. cbn [cv_bfs].
    destruct (vi_q I _ (or_introl eq_refl)) as [VU CU]. assert (Hu := vi_lt I VU). rewrite (@vget_nth _ g u []) by auto. cbn [bind].
    assert (BAD : forall v, nbr u v -> cl v <> label -> ~ spec).
    { intros v N1 N2 SP. assert (X := nbr_lt N1). assert (Y := proj2 (SP u v Hu X) (nbr_conn N1)). congruence. }
    destruct (@cv_row label (nth u g []) V q (vi_len I)) as [(E & v & Iv & Nv)|(V1 & q1 & new1 & E & L1 & Q1 & A1 & A2 & A3 & A4 & A5)].
    { intros v Iv. eapply HT; eauto. }
    { left. rewrite E. cbn [bind]. split; [|apply (BAD v); auto; left; exact Iv].
      assert (Z : exists xrow, (if u <? length xg then vget xg u else Ok []) = Ok xrow).
      { destruct (Nat.ltb_spec u (length xg)); [rewrite (@vget_nth _ xg u []) by auto|]; eauto. }
      destruct Z as [xrow ->]. cbn [bind]. rewrite cv_none. reflexivity. }
    rewrite E. cbn [bind]. assert (Z : (if u <? length xg then vget xg u else Ok []) = Ok (nth u xg [])).
    { destruct (Nat.ltb_spec u (length xg)); [now apply vget_nth|]. now rewrite nth_overflow. }
    rewrite Z. cbn [bind].
    destruct (@cv_row label (nth u xg []) V1 q1 L1) as [(E2 & v & Iv & Nv)|(V2 & q2 & new2 & E2 & L2 & Q2 & B1 & B2 & B3 & B4 & B5)].
    { intros v Iv. eapply HXT; eauto. }
    { left. rewrite E2. cbn [bind]. split; auto. apply (BAD v); auto. right. exact Iv. }
    rewrite E2. cbn [bind]. subst q1 q2.
    assert (NB : forall x, In x (new1 ++ new2) -> nbr u x /\ vis V2 x /\ cl x = label).
    { intros x J. apply in_app_or in J. destruct J as [J|J].
      - destruct (A4 x J) as [K1 K2]. split; [left; exact K1|]. split; auto. now apply A1.
      - destruct (B4 x J) as [K1 K2]. split; [right; exact K1|]. split; auto. now apply B1. }
    apply IHfuel.
    + constructor; auto.
      * intros x Hx. destruct (B3 x Hx) as [K|K]; [destruct (A3 x K) as [K'|K']|]; [now apply (vi_lt I)| |];
          apply (@nbr_lt u x); apply (NB x); apply in_or_app; auto.
      * intros x J. rewrite <- app_assoc in J. apply in_app_or in J. destruct J as [J|J].
        -- destruct (vi_q I _ (or_intror J)) as [K1 K2]. split; auto.
        -- destruct (NB x J) as (_ & K). exact K.
      * intros x y Hx Nx N. rewrite <- app_assoc in Nx. destruct (Nat.eq_dec x u) as [->|NE].
        -- destruct N as [N|N]; [destruct (A1 y N) as [K1 K2]|destruct (B1 y N) as [K1 K2]]; split; auto; congruence.
        -- assert (Vx : vis V x).
           { destruct (B3 x Hx) as [K|K]; [destruct (A3 x K) as [K'|K']; auto|]; exfalso; apply Nx; apply in_or_app; right; apply in_or_app; auto. }
           assert (NQ : ~ In x (u :: q)) by (intros [J|J]; [congruence|]; apply Nx, in_or_app; auto). destruct (@vi_closed _ _ _ _ I x y Vx NQ N) as [K1 K2]. auto.
      * intros x Hx. destruct (in_dec Nat.eq_dec x (new1 ++ new2)) as [J|J].
        -- destruct (NB x J) as (K1 & K2 & K3). destruct (vi_src I VU) as (s & S1 & S2). exists s. split; [congruence|]. eapply conn_trans; [exact S2|]. now apply nbr_conn.
        -- apply (vi_src I). destruct (B3 x Hx) as [K|K]; [destruct (A3 x K) as [K'|K']; auto|]; exfalso; apply J, in_or_app; auto.
      * intros l s J. apply B2, A2. eapply vi_seen; eauto.
    + rewrite !app_length. simpl in HF. lia.
Qed.

Lemma cv_labels_ok : forall entries seen V label, cv_inv seen label V [] -> (forall l s, In (l, s) entries -> s < n /\ cl s = l) ->
  (cv_labels (n + 1) g xg comp entries V = Ok None /\ ~ spec) \/
  (exists V' label', cv_labels (n + 1) g xg comp entries V = Ok (Some V') /\ cv_inv (seen ++ entries) label' V' []).
Proof.
  induction entries as [|[l s] entries IH]; intros seen V label I HE.
  - right. exists V, label. rewrite app_nil_r. split; auto.
  - destruct (HE l s (or_introl eq_refl)) as [Hs Cs]. cbn [cv_labels]. assert (LV := vi_len I). rewrite vset_lt by lia. cbn [bind].
    assert (LS : s < length V) by lia.
    destruct (@cv_bfs_ok (seen ++ [(l, s)]) l (n + 1) (upd V s true) [s]) as [(E & N)|(V' & E & I')].
    + constructor.
      * now rewrite upd_length.
      * intros x. rewrite vis_upd by auto. intros [->|K]; auto. now apply (vi_lt I).
      * intros x [<-|[]]. split; auto. apply vis_upd; auto.
      * intros x y. rewrite !vis_upd by auto. intros [->|K] NI N; [exfalso; apply NI; now left|]. destruct (@vi_closed _ _ _ _ I x y K (fun F : In x [] => F) N). auto.
      * intros x. rewrite vis_upd by auto. intros [->|K].
        -- exists s. rewrite Cs. split; [apply in_or_app; right; now left|apply conn_refl].
        -- destruct (vi_src I K) as (s' & S1 & S2). exists s'. split; auto. apply in_or_app. auto.
      * intros l' s' J. rewrite vis_upd by auto. apply in_app_or in J. destruct J as [J|[J|[]]]; [right; eapply vi_seen; eauto|injection J as <- <-; auto].
    + destruct (@cntf_upd V s LS) as [K1 K2]. assert (LE : forall W : list bool, cntf W <= length W) by (induction W as [|b W IHW]; unfold cntf in *; cbn [map sum length]; [lia|destruct b; lia]).
      simpl. destruct (nth s V false) eqn:EV; [|specialize (K2 eq_refl); specialize (LE V); lia].
      assert (Y : cntf (upd V s true) < length V). { clear - EV LS. assert (H : forall W x, x < length W -> cntf (upd W x true) < length W).
        { induction W as [|b W IHW]; intros x L; [simpl in L; lia|]. destruct x; cbn [upd]; unfold cntf in *; cbn [map sum length] in *.
          - clear. enough (sum (map (fun b : bool => if b then 0 else 1) W) <= length W) by lia. induction W as [|c W IHW]; cbn [map sum length]; [lia|destruct c; lia].
          - specialize (IHW x ltac:(lia)). destruct b; lia. }
        auto. }
      lia.
    + left. rewrite E. split; auto.
    + rewrite E. cbn [bind]. destruct (IH _ _ _ I') as [K|(V2 & l2 & K1 & K2)]; [intros; apply HE; now right|auto|].
      right. exists V2, l2. split; auto. rewrite <- app_assoc in K2. exact K2.
Qed.

(** The map of labels. *)
Lemma lts_set_in k v l a b : NoDup (map fst l) -> (In (a, b) (lts_set k v l) <-> (a = k /\ b = v) \/ (a <> k /\ In (a, b) l)).
Proof.
  induction l as [|[c d] l IH]; intros ND; cbn [lts_set].
  - simpl. split; [intros [E|[]]; injection E as <- <-; auto|intros [[-> ->]|[_ []]]; auto].
  - inversion ND; subst. cbn [fst]. destruct (Nat.eqb_spec c k) as [->|N].
    + cbn [In]. split.
      * intros [E|J]; [injection E as <- <-; auto|]. right. split; auto. intros ->. apply H1. cbn [fst]. change k with (fst (k, b)). now apply in_map.
      * intros [[-> ->]|[N [E|J]]]; auto. injection E as <- <-. congruence.
    + cbn [In]. rewrite IH by auto. split.
      * intros [E|[J|J]]; [injection E as <- <-; auto| |]; tauto.
      * intros [[-> ->]|[N' [E|J]]]; auto.
Qed.
Lemma lts_set_keys k v l : NoDup (map fst l) -> NoDup (map fst (lts_set k v l)).
Proof.
  induction l as [|[c d] l IH]; intros ND; cbn [lts_set].
  - repeat constructor; intros [].
  - inversion ND; subst. cbn [fst] in *. destruct (Nat.eqb_spec c k) as [->|N]; cbn [map fst]; constructor; auto.
    intros J. apply in_map_iff in J. destruct J as ([a b] & E & J). cbn [fst] in E. subst a. apply lts_set_in in J; auto. destruct J as [[J _]|[_ J]]; [congruence|].
    apply H1. change c with (fst (c, b)). now apply in_map.
Qed.
Lemma lts_ok : exists l, lts comp n = Ok l /\ NoDup (map fst l) /\ (forall k s, In (k, s) l -> s < n /\ cl s = k) /\ (forall x, x < n -> exists s, In (cl x, s) l).
Proof.
  unfold lts. assert (H : forall k, k <= n -> exists l, rfold (fun l i => do c <- vget comp i; Ok (lts_set c i l)) (seq 0 k) [] = Ok l /\ NoDup (map fst l) /\
     (forall a s, In (a, s) l -> s < n /\ cl s = a) /\ (forall x, x < k -> exists s, In (cl x, s) l)).
  { induction k as [|k IH]; intros Hk.
    - exists []. simpl. split; auto. split; [constructor|]. split; [intros ? ? []|intros; lia].
    - destruct (IH ltac:(lia)) as (l & E & ND & A & B). rewrite seq_S_app, rfold_app, E. cbn [bind rfold]. rewrite (@vget_nth _ comp k 0) by lia. cbn [bind]. fold (cl k).
      exists (lts_set (cl k) k l). split; auto. split; [now apply lts_set_keys|]. split.
      + intros a s J. apply lts_set_in in J; auto. destruct J as [[-> ->]|[_ J]]; auto.
      + intros x Hx. destruct (Nat.eq_dec (cl x) (cl k)) as [EQ|NE].
        * exists k. apply lts_set_in; auto.
        * destruct (B x) as [s J]; [destruct (Nat.eq_dec x k); [subst; congruence|lia]|]. exists s. apply lts_set_in; auto. }
  apply H. auto.
Qed.

Lemma verifier_ok order : (forall l, Permutation l (order l)) ->
  exists b, cc_verifier_m m order g xg comp = Ok b /\ (b = true -> m = n /\ spec) /\ ((forall x y, nbr x y -> nbr y x) -> m = n -> spec -> b = true).
Proof.
  intros PO. unfold cc_verifier_m. destruct lts_ok as (l & E & ND & A & B). rewrite E. cbn [bind].
  assert (PI : forall e, In e (order l) <-> In e l) by (intros e; split; apply Permutation_in; auto; now apply Permutation_sym).
  destruct (@cv_labels_ok (order l) [] (repeat false m) 0) as [(E1 & N)|(V & lb & E1 & I)].
  - constructor; try (intros; simpl in *; tauto).
    + apply repeat_length.
    + intros x H. unfold vis in H. rewrite nth_repeat in H. discriminate.
    + intros x y H. unfold vis in H. rewrite nth_repeat in H. discriminate.
    + intros x H. unfold vis in H. rewrite nth_repeat in H. discriminate.
  - intros k s J. apply PI in J. auto.
  - rewrite E1. cbn [bind]. exists false. split; auto. split; [discriminate|]. intros _ _ SP. contradiction.
  - rewrite E1. cbn [bind]. simpl app in I. exists (forallb (fun b => b) V). split; auto. rewrite !forallb_forall. split.
    + intros ALL. assert (AV : forall x, x < m -> vis V x).
      { intros x Hx. unfold vis. apply ALL. apply nth_In. rewrite (vi_len I). auto. }
      split.
      * destruct (Nat.eq_dec m n) as [|NE]; auto. assert (X := vi_lt I (AV n ltac:(lia))). lia.
      * assert (CE : forall x y, conn U x y -> cl x = cl y).
        { induction 1 as [a b J|a|a b _ IH|a b c _ IH1 _ IH2]; auto; try congruence.
          assert (NB : nbr a b) by (apply in_app_or in J; destruct J as [J|J]; apply in_gedges in J; [left|right]; auto).
          assert (La : a < n) by (destruct NB as [NB|NB]; apply edge_lt in NB; lia).
          symmetry. apply (@vi_closed _ _ _ _ I a b (AV a ltac:(lia)) (fun F : In a [] => F) NB). }
        intros u v Hu Hv. split; [|apply CE]. intros EQ.
        destruct (vi_src I (AV u ltac:(lia))) as (s & S1 & S2). destruct (vi_src I (AV v ltac:(lia))) as (t & T1 & T2).
        assert (s = t). { apply PI in S1. apply PI in T1. rewrite <- EQ in T1. clear - ND S1 T1. induction l as [|[a b] l IH]; [destruct S1|]. inversion ND; subst. destruct S1 as [S1|S1], T1 as [T1|T1]; try congruence; auto.
          - injection S1 as -> ->. exfalso. apply H1. cbn [fst]. change (cl u) with (fst (cl u, t)). now apply in_map.
          - injection T1 as -> ->. exfalso. apply H1. cbn [fst]. change (cl u) with (fst (cl u, s)). now apply in_map. }
        subst t. eapply conn_trans; [apply conn_sym; exact S2|exact T2].
    + intros HSY EM SP b J. destruct (In_nth _ _ false J) as (x & Hx & <-). rewrite (vi_len I), EM in Hx.
      destruct (B x Hx) as [s K]. destruct (A _ _ K) as [Hs CS]. assert (CN := proj1 (SP s x Hs Hx) CS).
      assert (VS : vis V s) by (apply PI in K; eapply vi_seen; eauto).
      assert (CL : forall a b, conn U a b -> (vis V a <-> vis V b)).
      { assert (OE : forall a b, nbr a b -> vis V a -> vis V b) by (intros a b NB Va; apply (@vi_closed _ _ _ _ I a b Va (fun F : In a [] => F) NB)).
        clear J. induction 1 as [a b J|a|a b _ IH|a b c _ IH1 _ IH2]; try tauto.
        assert (NB : nbr a b) by (apply in_app_or in J; destruct J as [J|J]; apply in_gedges in J; [left|right]; auto). split; apply OE; auto. }
      apply (CL s x CN). exact VS.
Qed.
End Verifier.
