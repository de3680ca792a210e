(** Proofs for C56, dfs_range: what it yields is the post-order of the recursive depth-first search. *)
From Coq Require Import List Arith Lia Bool.
From Verif Require Import Base GraphLib DfsModel.
Import ListNotations.
Set Implicit Arguments.

(** * Recursive depth-first search.  [post g D l D' P]: with the vertices [D] discovered, going through the list [l] of
    vertices leaves [D'] discovered and finishes the vertices [P] in this order. *)
Inductive post (g : list (list nat)) : list nat -> list nat -> list nat -> list nat -> Prop :=
| post_nil D : post g D [] D []
| post_old D u l D' P : In u D -> post g D l D' P -> post g D (u :: l) D' P
| post_new D u l D1 D2 P1 P2 : ~ In u D -> post g (u :: D) (nth u g []) D1 P1 -> post g D1 l D2 P2 ->
    post g D (u :: l) D2 (P1 ++ u :: P2).
(** The same over a list of roots, none of which has an empty row when its turn comes. *)
Inductive forest (g : list (list nat)) : list nat -> list nat -> list nat -> list nat -> Prop :=
| forest_nil D : forest g D [] D []
| forest_old D u l D' P : In u D -> forest g D l D' P -> forest g D (u :: l) D' P
| forest_new D u l D1 D2 P1 P2 : ~ In u D -> nth u g [] <> [] -> post g (u :: D) (nth u g []) D1 P1 -> forest g D1 l D2 P2 ->
    forest g D (u :: l) D2 (P1 ++ u :: P2).

Lemma forest_post g D l D' P : forest g D l D' P -> post g D l D' P.
Proof. induction 1; [apply post_nil|apply post_old; auto|eapply post_new; eauto]. Qed.

Lemma post_sets g D l D' P : post g D l D' P -> forall x, In x D' <-> In x D \/ In x P.
Proof.
  induction 1 as [D|D u l D' P I H IH|D u l D1 D2 P1 P2 NI H1 IH1 H2 IH2]; intros x.
  - simpl. tauto.
  - apply IH.
  - rewrite IH2, IH1, in_app_iff. simpl. tauto.
Qed.
Lemma nodup_app (A : Type) (l l' : list A) : NoDup l -> NoDup l' -> (forall x, In x l -> ~ In x l') -> NoDup (l ++ l').
Proof. induction 1 as [|a l NI ND IH]; intros N2 H; simpl; auto. constructor; [rewrite in_app_iff; intros [X|X]; [auto|apply (H a); simpl; auto]|]. apply IH; auto. intros x X. apply H. now right. Qed.
Lemma reach_step g u r x : edge g u r -> reachable g r x -> reachable g u x.
Proof. intros E (k & W). exists (1 + k). eapply walk_app; [eapply walk_S; [apply walk_0|exact E]|exact W]. Qed.
Lemma post_nodup g D l D' P : post g D l D' P -> NoDup P /\ forall x, In x P -> ~ In x D.
Proof.
  induction 1 as [D|D u l D' P I H IH|D u l D1 D2 P1 P2 NI H1 [N1 A1] H2 [N2 A2]].
  - split; [constructor|]. intros x [].
  - apply IH.
  - assert (S1 := post_sets H1). split.
    + apply nodup_app; auto.
      * constructor; auto. intros X. apply (A2 _ X). apply S1. left. now left.
      * intros x X [<-|Y]; [apply (A1 _ X); now left|]. apply (A2 _ Y). apply S1. auto.
    + intros x X. apply in_app_or in X. destruct X as [X|[<-|X]]; auto.
      * intros Y. apply (A1 _ X). now right.
      * intros Y. apply (A2 _ X). apply S1. left. now right.
Qed.
(** Everything finished is reachable from the list, and the discovered set becomes closed. *)
Lemma post_reach g D l D' P : post g D l D' P -> forall x, In x P -> exists r, In r l /\ reachable g r x.
Proof.
  induction 1 as [D|D u l D' P I H IH|D u l D1 D2 P1 P2 NI H1 IH1 H2 IH2]; intros x X.
  - destruct X.
  - destruct (IH x X) as (r & A & B). exists r. split; [now right|auto].
  - apply in_app_or in X. destruct X as [X|[<-|X]].
    + destruct (IH1 x X) as (r & A & B). exists u. split; [now left|]. eapply reach_step; eauto.
    + exists u. split; [now left|exists 0; apply walk_0].
    + destruct (IH2 x X) as (r & A & B). exists r. split; [now right|auto].
Qed.
Lemma post_closed g D l D' P : post g D l D' P -> (forall x, In x l -> In x D') /\ forall x y, In x P -> edge g x y -> In y D'.
Proof.
  induction 1 as [D|D u l D' P I H [IH IH']|D u l D1 D2 P1 P2 NI H1 [A1 B1] H2 [A2 B2]].
  - split; intros x; intros; now destruct H.
  - split; auto. intros x [<-|X]; auto. apply (post_sets H). auto.
  - assert (S1 := post_sets H1). assert (S2 := post_sets H2). split.
    + intros x [<-|X]; auto. apply S2. left. apply S1. left. now left.
    + intros x y X E. apply in_app_or in X. destruct X as [X|[<-|X]].
      * apply S2. left. eapply B1; eauto.
      * apply S2. left. apply A1. exact E.
      * eapply B2; eauto.
Qed.

Lemma post_unique g D l D' P : post g D l D' P -> forall E' Q, post g D l E' Q -> D' = E' /\ P = Q.
Proof.
  induction 1 as [D|D u l D' P I H IH|D u l D1 D2 P1 P2 NI H1 IH1 H2 IH2]; intros E' Q X; inversion X; subst; try contradiction; auto.
  match goal with [ A : post g (u :: D) _ _ _, B : post g _ l E' _ |- _ ] => destruct (IH1 _ _ A) as [<- <-]; destruct (IH2 _ _ B) as [<- <-] end. auto.
Qed.
Lemma forest_of_post g D l D' P : post g D l D' P -> (forall x, In x l -> nth x g [] <> []) -> forest g D l D' P.
Proof.
  induction 1 as [D|D u l D' P I H IH|D u l D1 D2 P1 P2 NI H1 IH1 H2 IH2]; intros N.
  - constructor.
  - constructor; auto. apply IH. intros; apply N; now right.
  - econstructor; eauto; [apply N; now left|]. apply IH2. intros; apply N; now right.
Qed.

(** Undiscovered vertices. *)
Definition free (n : nat) (D : list nat) : list nat := filter (fun x => if in_dec Nat.eq_dec x D then false else true) (seq 0 n).
Lemma free_in n D x : In x (free n D) <-> x < n /\ ~ In x D.
Proof. unfold free. rewrite filter_In, in_seq. destruct (in_dec Nat.eq_dec x D); intuition (try discriminate; try lia). Qed.
Lemma free_nodup n D : NoDup (free n D).
Proof. apply NoDup_filter, seq_NoDup. Qed.
Lemma free_le n D D' : (forall x, In x D -> In x D') -> length (free n D') <= length (free n D).
Proof. intros H. apply NoDup_incl_length; [apply free_nodup|]. intros x X. apply free_in in X. apply free_in. intuition. Qed.
Lemma free_lt n D u : u < n -> ~ In u D -> length (free n (u :: D)) < length (free n D).
Proof.
  intros Hu NI. assert (X : NoDup (u :: free n (u :: D))) by (constructor; [rewrite free_in; simpl; tauto|apply free_nodup]).
  apply (@NoDup_incl_length _ _ (free n D)) in X; [simpl in X; lia|]. intros x [<-|Y]; [apply free_in; auto|]. apply free_in in Y. apply free_in. simpl in Y. tauto.
Qed.
Lemma post_exists g : targets_ok g -> forall k D, length (free (length g) D) <= k -> forall l, (forall x, In x l -> x < length g) -> exists D' P, post g D l D' P.
Proof.
  intros TG. induction k as [|k IH]; intros D HF l; revert D HF; induction l as [|u l IL]; intros D HF HL; try (exists D, []; apply post_nil).
  - destruct (in_dec Nat.eq_dec u D) as [I|NI].
    + destruct (IL D HF) as (D' & P & H); [intros; apply HL; now right|]. exists D', P. apply post_old; auto.
    + exfalso. assert (X := @free_lt (length g) D u (HL u (or_introl eq_refl)) NI). lia.
  - destruct (in_dec Nat.eq_dec u D) as [I|NI].
    + destruct (IL D HF) as (D' & P & H); [intros; apply HL; now right|]. exists D', P. apply post_old; auto.
    + assert (X := @free_lt (length g) D u (HL u (or_introl eq_refl)) NI). destruct (IH (u :: D) ltac:(lia) (nth u g [])) as (D1 & P1 & H1); [intros x I; eapply TG; exact I|].
      destruct (IL D1) as (D2 & P2 & H2); [|intros; apply HL; now right|].
      { assert (Y := @free_le (length g) (u :: D) D1). specialize (Y ltac:(intros x I; apply (post_sets H1); auto)). lia. }
      exists D2, (P1 ++ u :: P2). eapply post_new; eauto.
Qed.

(** * The machine *)
Section Machine.
Variables (g : list (list nat)) (vf : nat).
Notation n := (length g).
Hypothesis TG : targets_ok g.
Notation row v := (nth v g []).
(** steps a visit may still need *)
Definition need (D : list nat) : nat := sum (map (fun x => length (row x)) (free n D)).
Definition coh (c D : list nat) : Prop := n <= length c /\ (forall x, In x D -> x < n) /\ forall x, x < length c -> nth x c 0 = 1 <-> ~ In x D.

Lemma nth_upd2 (l : list nat) i j x : i < length l -> nth j (upd l i x) 0 = if j =? i then x else nth j l 0.
Proof. intros H. destruct (Nat.eqb_spec j i) as [->|N]; [apply nth_upd_eq; lia|apply nth_upd_neq; auto]. Qed.
Lemma coh_upd c D v x : coh c D -> In v D -> x <> 1 -> coh (upd c v x) D.
Proof.
  intros (L & B & H) I N. split; [now rewrite upd_length|]. split; auto. intros y Hy. rewrite upd_length in Hy. assert (Hv := B v I). rewrite nth_upd2 by lia.
  destruct (Nat.eqb_spec y v) as [->|]; [|now apply H]. split; [contradiction|tauto].
Qed.
Lemma coh_new c D u x : coh c D -> u < n -> x <> 1 -> coh (upd c u x) (u :: D).
Proof.
  intros (L & B & H) Hu N. split; [now rewrite upd_length|]. split; [intros y [<-|Y]; auto|]. intros y Hy. rewrite upd_length in Hy. rewrite nth_upd2 by lia.
  destruct (Nat.eqb_spec y u) as [->|NE]; simpl; [tauto|]. rewrite (H y Hy). intuition.
Qed.

Lemma sum_incl (f : nat -> nat) : forall l l', NoDup l -> (forall x, In x l -> In x l') -> sum (map f l) <= sum (map f l').
Proof.
  induction l as [|a l IH]; intros l' ND H; [simpl; lia|]. inversion ND as [|? ? NI ND']; subst.
  destruct (in_split a l' (H a (or_introl eq_refl))) as (l1 & l2 & ->). rewrite map_app, sum_app. cbn [map sum]. specialize (IH (l1 ++ l2) ND').
  rewrite map_app, sum_app in IH. assert (X : forall x, In x l -> In x (l1 ++ l2)).
  { intros x I. assert (Y := H x (or_intror I)). apply in_app_or in Y. apply in_or_app. destruct Y as [Y|[Y|Y]]; auto. subst. contradiction. }
  specialize (IH X). unfold sum in *. simpl in *. lia.
Qed.
Lemma need_new D u : u < n -> ~ In u D -> length (row u) + need (u :: D) <= need D.
Proof.
  intros Hu NI. unfold need. assert (X := @sum_incl (fun x => length (row x)) (u :: free n (u :: D)) (free n D)). cbn [map sum] in X. simpl in X. unfold sum in *. apply X.
  - constructor; [rewrite free_in; simpl; tauto|apply free_nodup].
  - intros x [<-|Y]; [apply free_in; auto|]. apply free_in in Y. apply free_in. simpl in Y. tauto.
Qed.
Lemma need_all D v : In v D -> v < n -> length (row v) + need D <= need [].
Proof.
  intros I Hv. unfold need. assert (X := @sum_incl (fun x => length (row x)) (v :: free n D) (free n [])). cbn [map] in X. simpl in X. unfold sum in *. apply X.
  - constructor; [rewrite free_in; tauto|apply free_nodup].
  - intros x [<-|Y]; apply free_in; simpl; auto. apply free_in in Y. tauto.
Qed.

(** Going over a prefix of the row with discovered targets only. *)
Lemma visit_old c D v q : coh c D -> In v D -> forall l i f, (forall x, In x l -> In x D) -> (exists l2, skipn i (row v) = l ++ l2) -> length l <= f ->
  dr_visit f g q c v i = dr_visit (f - length l) g (repeat v (length l) ++ q) (if length l =? 0 then c else upd c v 0) v (i + length l).
Proof.
  intros C I l. revert c q C. induction l as [|u l IH]; intros c q C i f HI (l2 & E) HF.
  - cbn [length repeat app Nat.eqb]. now rewrite Nat.sub_0_r, Nat.add_0_r.
  - destruct f as [|f]; [simpl in HF; lia|]. assert (C' := C). destruct C' as (L & B & W). assert (Hv := B v I).
    assert (Li : i < length (row v)). { destruct (Nat.lt_ge_cases i (length (row v))); auto. rewrite skipn_all2 in E by auto. discriminate E. }
    assert (Eu : nth_error (row v) i = Some u). { rewrite <- (firstn_skipn i (row v)), E. rewrite nth_error_app2; rewrite firstn_length_le by lia; [|lia]. now rewrite Nat.sub_diag. }
    assert (Es : skipn (S i) (row v) = l ++ l2).
    { clear -E. revert i E. generalize (row v). induction l0 as [|a l0 IHl]; intros [|i] E; simpl in *; try discriminate; [congruence|]. now apply IHl. }
    cbn [dr_visit]. rewrite (@vget_nth _ g v []) by auto. cbn [bind]. destruct (Nat.eqb_spec i (length (row v))); [lia|]. rewrite (proj2 (vget_Ok _ _ _) Eu). cbn [bind].
    assert (Iu : In u D) by (apply HI; now left). rewrite (@vget_nth _ c u 0) by (assert (X := B u Iu); lia). cbn [bind].
    destruct (Nat.eqb_spec (nth u c 0) 1) as [X|X]; [apply W in X; [contradiction|assert (Y := B u Iu); lia]|]. rewrite vset_lt by lia. cbn [bind].
    rewrite (IH (upd c v 0) (v :: q)); [|apply coh_upd; auto|intros; apply HI; now right|eauto|simpl in HF; lia].
    cbn [length Nat.sub Nat.eqb]. replace (i + S (length l)) with (S i + length l) by lia.
    assert (R : repeat v (length l) ++ v :: q = repeat v (S (length l)) ++ q). { cbn [repeat app]. clear. induction l; simpl; auto. now f_equal. }
    rewrite R. f_equal. destruct (length l =? 0); auto. clear. revert v. induction c as [|a c IH]; intros [|v]; simpl; auto. now rewrite IH.
Qed.

Lemma dr_pop_all c v : nth v c 0 = 0 -> v < length c -> forall k q, dr_pop c (repeat v k ++ q) = dr_pop c q.
Proof. intros E L. induction k as [|k IH]; intros q; auto. cbn [repeat app dr_pop]. rewrite (@vget_nth _ c v 0) by auto. cbn [bind]. rewrite E. cbn [Nat.eqb]. apply IH. Qed.

(** The main simulation.  The continuation is the rest of the loop from the moment [v] is on top and finished. *)
Lemma visit_post D l D' P : post g D l D' P -> forall v i q c f cur, l = skipn i (row v) -> i <= length (row v) -> (forall x, In x (firstn i (row v)) -> In x D) ->
  coh c D -> In v D -> length l + need D <= f -> need [] <= vf ->
  exists c' k, coh c' D' /\ length c' = length c /\ nth v c' 0 = (if length l =? 0 then nth v c 0 else 0) /\ (forall x, In x D -> x <> v -> nth x c' 0 = nth x c 0) /\ (forall x, In x P -> nth x c' 0 = 0) /\
    forall F, (do r <- dr_visit f g (v :: q) c v i ; dr_loop vf (length P + F) g {| dr_q := fst r; dr_c := snd r; dr_cursor := cur |}) =
      (do r <- dr_loop vf F g {| dr_q := repeat v (S k) ++ q; dr_c := c'; dr_cursor := cur |} ; Ok (P ++ r)).
Proof.
  induction 1 as [D|D u l D' P I H IH|D u l D1 D2 P1 P2 NI H1 IH1 H2 IH2]; intros v i q c f cur El Hi Hpre C Iv Hf Hvf; assert (C' := C); destruct C' as (L & B & W); assert (Hv := B v Iv).
  - exists c, 0. assert (Ei : i = length (row v)) by (assert (X := skipn_length i (row v)); rewrite <- El in X; simpl in X; lia).
    repeat split; auto; try (intros x []). { now apply W. } { now apply W. } intros F. assert (DV : dr_visit f g (v :: q) c v i = Ok (v :: q, c)).
    { destruct f; cbn [dr_visit]; rewrite (@vget_nth _ g v []) by auto; cbn [bind]; rewrite Ei, Nat.eqb_refl; reflexivity. }
    rewrite DV. cbn [bind fst snd length Nat.add repeat app]. now destruct (dr_loop vf F g _).
  - assert (Es : skipn (S i) (row v) = l). { clear -El. revert i El. generalize (row v). induction l0 as [|a l0 IHl]; intros [|i] E; simpl in *; try discriminate; [congruence|]. now apply IHl. }
    assert (Li : i < length (row v)) by (destruct (Nat.lt_ge_cases i (length (row v))); auto; rewrite skipn_all2 in El by auto; discriminate El).
    destruct (IH v (S i) (v :: q) (upd c v 0) (f - 1) cur) as (c' & k & A1 & A2 & A3 & A4 & A5 & A6); auto.
    { intros x X. assert (Y : firstn (S i) (row v) = firstn i (row v) ++ [u]).
      { rewrite <- (firstn_skipn i (row v)) at 1. rewrite <- El. rewrite firstn_app, firstn_firstn, firstn_length_le by lia. replace (Nat.min (S i) i) with i by lia. replace (S i - i) with 1 by lia. reflexivity. }
      rewrite Y in X. apply in_app_or in X. destruct X as [X|[<-|[]]]; auto. }
    { apply coh_upd; auto. } { simpl in Hf. lia. }
    exists c', (S k). split; auto. rewrite upd_length in A2. split; auto. split; [|split; [|split]]; auto.
    { rewrite A3. cbn [length Nat.eqb]. destruct (length l =? 0); auto. rewrite nth_upd2 by lia. now rewrite Nat.eqb_refl. }
    { intros x X NX. rewrite A4 by auto. rewrite nth_upd2 by lia. destruct (Nat.eqb_spec x v); [contradiction|auto]. }
    intros F. rewrite (@visit_old c D v (v :: q) C Iv [u] i f); [|intros x [<-|[]]; auto|exists l; now rewrite <- El|simpl in Hf |- *; lia]. cbn [length repeat app Nat.eqb]. rewrite Nat.add_1_r. rewrite A6.
    replace (repeat v (S k) ++ v :: q) with (repeat v (S (S k)) ++ q); auto. cbn [repeat app]. clear. f_equal. induction k; simpl; auto. now f_equal.
  - assert (Es : skipn (S i) (row v) = l). { clear -El. revert i El. generalize (row v). induction l0 as [|a l0 IHl]; intros [|i] E; simpl in *; try discriminate; [congruence|]. now apply IHl. }
    assert (Li : i < length (row v)) by (destruct (Nat.lt_ge_cases i (length (row v))); auto; rewrite skipn_all2 in El by auto; discriminate El).
    assert (Eu : nth_error (row v) i = Some u). { rewrite <- (firstn_skipn i (row v)), <- El. rewrite nth_error_app2; rewrite firstn_length_le by lia; [|lia]. now rewrite Nat.sub_diag. }
    assert (Hu : u < n) by (apply (TG v u); eapply nth_error_In; eauto).
    assert (NUV : u <> v) by (intros ->; contradiction).
    assert (Y : firstn (S i) (row v) = firstn i (row v) ++ [u]).
    { rewrite <- (firstn_skipn i (row v)) at 1. rewrite <- El. rewrite firstn_app, firstn_firstn, firstn_length_le by lia. replace (Nat.min (S i) i) with i by lia. replace (S i - i) with 1 by lia. reflexivity. }
    assert (NN := @need_new D u Hu NI).
    destruct (IH1 u 0 (v :: v :: q) (upd (upd c v 2) u 0) (f - 1) cur) as (c1 & k1 & A1 & A2 & A3 & A4 & A5 & A6); auto; try lia.
    { intros x []. } { apply coh_new; auto. apply coh_upd; auto. } { now left. } { cbn [length] in Hf. lia. }
    rewrite !upd_length in A2. assert (S1 := post_sets H1). assert (Iv1 : In v D1) by (apply S1; left; now right).
    assert (U0 : nth u c1 0 = 0). { rewrite A3. destruct (length (row u) =? 0); auto. rewrite nth_upd2 by (rewrite upd_length; lia). now rewrite Nat.eqb_refl. }
    assert (V2 : nth v c1 0 = 2). { rewrite A4; auto; [|now right]. rewrite nth_upd2 by (rewrite upd_length; lia). destruct (Nat.eqb_spec v u); [congruence|]. rewrite nth_upd2 by lia. now rewrite Nat.eqb_refl. }
    assert (PRE1 : forall x, In x (firstn (S i) (row v)) -> In x D1).
    { intros x X. rewrite Y in X. apply S1. apply in_app_or in X. destruct X as [X|[<-|[]]]; left; [right; auto|now left]. }
    assert (LF : length (firstn (S i) (row v)) = S i) by (rewrite firstn_length_le; lia).
    assert (NA := @need_all D1 v Iv1 Hv). assert (LS : length l = length (row v) - S i) by (rewrite <- Es; apply skipn_length).
    destruct (IH2 v (S i) (repeat v i ++ v :: v :: q) (upd c1 v 0) (vf - S i) cur) as (c2 & k2 & B1 & B2 & B3 & B4 & B5 & B6); auto; try lia.
    { apply coh_upd; auto. }
    exists c2, (k2 + S (S i)). rewrite upd_length in B2. split; auto. split; [lia|]. split; [|split; [|split]].
    { cbn [length Nat.eqb]. rewrite B3. destruct (length l =? 0); auto. rewrite nth_upd2 by lia. now rewrite Nat.eqb_refl. }
    { intros x X NX. rewrite B4; auto; [|apply S1; left; now right]. rewrite nth_upd2 by lia. destruct (Nat.eqb_spec x v); [contradiction|]. assert (x <> u) by (intros ->; contradiction). rewrite A4; auto; [|now right].
      rewrite nth_upd2 by (rewrite upd_length; lia). destruct (Nat.eqb_spec x u); [contradiction|]. rewrite nth_upd2 by lia. destruct (Nat.eqb_spec x v); [contradiction|auto]. }
    { intros x X. assert (ND := post_nodup H1). apply in_app_or in X. assert (Z : In x P2 \/ (In x D1 /\ x <> v /\ nth x c1 0 = 0)).
      { destruct X as [X|[<-|X]]; auto; right; (split; [apply S1; simpl; auto|]); split; auto. intros ->. apply (proj2 ND v X). now right. }
      destruct Z as [Z|(Z1 & Z2 & Z3)]; auto. rewrite B4 by auto. rewrite nth_upd2 by lia. destruct (Nat.eqb_spec x v); [contradiction|auto]. }
    intros F. destruct f as [|f]; [simpl in Hf; lia|]. replace (S f - 1) with f in * by lia. cbn [dr_visit]. rewrite (@vget_nth _ g v []) by auto. cbn [bind]. destruct (Nat.eqb_spec i (length (row v))); [lia|].
    rewrite (proj2 (vget_Ok _ _ _) Eu). cbn [bind]. rewrite (@vget_nth _ c u 0) by lia. cbn [bind]. rewrite (proj2 (W u ltac:(lia)) NI). cbn [Nat.eqb].
    rewrite vset_lt by lia. cbn [bind]. rewrite vset_lt by (rewrite upd_length; lia). cbn [bind].
    rewrite app_length. cbn [length]. replace (length P1 + S (length P2) + F) with (length P1 + S (length P2 + F)) by lia. specialize (A6 (S (length P2 + F))). cbn [bind] in A6. rewrite A6.
    cbn [repeat app dr_loop dr_q]. unfold dr_next. cbn [dr_q dr_c dr_cursor]. change (u :: repeat u k1 ++ v :: v :: q) with (repeat u (S k1) ++ v :: v :: q). rewrite dr_pop_all by (auto; lia). cbn [dr_pop].
    rewrite (@vget_nth _ c1 v 0) by lia. cbn [bind]. rewrite V2. cbn [Nat.eqb bind].
    rewrite (@visit_old c1 D1 v (v :: v :: q) A1 Iv1 (firstn (S i) (row v)) 0 vf PRE1); [|exists (skipn (S i) (row v)); simpl skipn; now rewrite firstn_skipn|lia]. rewrite LF. cbn [Nat.eqb Nat.add].
    replace (repeat v (S i) ++ v :: v :: q) with (v :: repeat v i ++ v :: v :: q) by reflexivity.
    assert (B7 := B6 F). clear -B7.
    assert (R : repeat v (S k2) ++ repeat v i ++ v :: v :: q = repeat v (S (k2 + S (S i))) ++ q).
    { rewrite app_assoc, <- repeat_app. replace (S (k2 + S (S i))) with ((S k2 + i) + 2) by lia. rewrite (repeat_app v (S k2 + i) 2), <- app_assoc. reflexivity. }
    rewrite R in B7. destruct (dr_visit (vf - S i) g (v :: repeat v i ++ v :: v :: q) (upd c1 v 0) v (S i)) as [[q' c']| |]; cbn [bind fst snd] in *.
    + rewrite B7. destruct (dr_loop vf F g _); cbn [bind]; auto. now rewrite <- app_assoc.
    + destruct (dr_loop vf F g _); cbn [bind] in *; auto; discriminate B7.
    + destruct (dr_loop vf F g _); cbn [bind] in *; auto; discriminate B7.
Qed.

Definition black (c D : list nat) : Prop := forall x, In x D -> nth x c 0 = 0.
(** operator++ with an empty stack (83-90), and the rest of the loop *)
Definition roots (sf : nat) (c : list nat) (cur F : nat) : res (list nat) :=
  do st <- (do k <- dr_scan sf g c cur ;
            if k =? n then Ok {| dr_q := []; dr_c := c; dr_cursor := k |}
            else do c' <- vset c k 2 ; do r <- dr_visit vf g [k] c' k 0 ; Ok {| dr_q := fst r; dr_c := snd r; dr_cursor := k |}) ;
  dr_loop vf F g st.

Lemma black_tree D u D1 P1 c : ~ In u D -> u < n -> nth u g [] <> [] -> post g (u :: D) (row u) D1 P1 -> coh c D -> black c D -> need [] <= vf -> forall cur,
  exists c' k, coh c' D1 /\ length c' = length c /\ black c' D1 /\
    forall F, (do r <- dr_visit vf g [u] (upd c u 2) u 0 ; dr_loop vf (length P1 + F) g {| dr_q := fst r; dr_c := snd r; dr_cursor := cur |}) =
      (do r <- dr_loop vf F g {| dr_q := repeat u (S k) ++ []; dr_c := c'; dr_cursor := cur |} ; Ok (P1 ++ r)).
Proof.
  intros NI Hu NE H1 C BL Hvf cur. destruct (@visit_post (u :: D) (row u) D1 P1 H1 u 0 [] (upd c u 2) vf cur) as (c' & k & A1 & A2 & A3 & A4 & A5 & A6); auto; try lia.
  { intros x []. } { apply coh_new; auto. } { now left. } { assert (X := @need_all (u :: D) u (or_introl eq_refl) Hu). lia. }
  exists c', k. rewrite upd_length in A2. split; auto. split; auto. split; auto. intros x X. apply (post_sets H1) in X. destruct C as (L & B & W).
  destruct X as [[<-|X]|X]; auto.
  - rewrite A3. destruct (Nat.eqb_spec (length (row u)) 0) as [E|]; auto. destruct (row u); [contradiction|discriminate E].
  - assert (x <> u) by (intros ->; contradiction). rewrite A4 by (auto; now right). rewrite nth_upd2 by lia. destruct (Nat.eqb_spec x u); [contradiction|]. now apply BL.
Qed.

Lemma roots_tree D u D1 P1 c cur sf F : ~ In (S cur) D -> u = S cur -> S cur < n -> nth u g [] <> [] -> post g (u :: D) (row u) D1 P1 -> coh c D -> black c D -> need [] <= vf ->
  exists c', coh c' D1 /\ length c' = length c /\ black c' D1 /\
    roots (S sf) c cur (length P1 + S F) = do r <- roots (S n) c' (S cur) F ; Ok (P1 ++ S cur :: r).
Proof.
  intros NI -> Hc NE H1 C BL Hvf. assert (C' := C). destruct C' as (L & B & W).
  destruct (@black_tree D (S cur) D1 P1 c NI ltac:(lia) NE H1 C BL Hvf (S cur)) as (c' & k & A1 & A2 & A3 & A4). exists c'. split; auto. split; auto. split; auto.
  unfold roots at 1. cbn [dr_scan]. rewrite (@vget_nth _ c (S cur) 0) by lia. cbn [bind]. rewrite (proj2 (W (S cur) ltac:(lia)) NI). cbn [Nat.eqb negb andb bind].
  replace (match n with 0 => false | S m' => cur =? m' end) with false by (destruct n; auto; symmetry; apply Nat.eqb_neq; lia). rewrite vset_lt by lia. cbn [bind].
  specialize (A4 (S F)).
  assert (T : dr_loop vf (S F) g {| dr_q := repeat (S cur) (S k) ++ []; dr_c := c'; dr_cursor := S cur |} = do r <- roots (S n) c' (S cur) F ; Ok (S cur :: r)).
  { cbn [repeat app dr_loop dr_q]. unfold dr_next. cbn [dr_q dr_c dr_cursor]. change (S cur :: repeat (S cur) k ++ []) with (repeat (S cur) (S k) ++ []).
    rewrite dr_pop_all; [|apply A3; apply (post_sets H1); left; now left|destruct A1; lia]. cbn [dr_pop bind]. unfold roots.
    match goal with |- (do st' <- ?a ; _) = _ => destruct a; reflexivity end. }
  rewrite T in A4. destruct (dr_visit vf g [S cur] (upd c (S cur) 2) (S cur) 0) as [[q' c2]| |]; cbn [bind fst snd] in *.
  - rewrite A4. now destruct (roots (S n) c' (S cur) F).
  - destruct (roots (S n) c' (S cur) F); cbn [bind] in *; congruence.
  - destruct (roots (S n) c' (S cur) F); cbn [bind] in *; congruence.
Qed.

Lemma roots_forest D l D' P : forest g D l D' P -> forall cur c sf F, l = seq (S cur) (length l) -> cur + length l < n -> coh c D -> black c D -> n - cur <= sf -> need [] <= vf ->
  exists c' sf', coh c' D' /\ length c' = length c /\ black c' D' /\ n - (cur + length l) <= sf' /\
    roots sf c cur (length P + F) = do r <- roots sf' c' (cur + length l) F ; Ok (P ++ r).
Proof.
  induction 1 as [D|D u l D' P I H IH|D u l D1 D2 P1 P2 NI NE H1 H2 IH]; intros cur c sf F El Hc C BL Hs Hvf; assert (C' := C); destruct C' as (L & B & W); cbn [length] in *.
  - exists c, sf. rewrite Nat.add_0_r. repeat split; auto; try (now apply W). cbn [Nat.add]. now destruct (roots sf c cur F).
  - destruct sf as [|sf]; [lia|]. cbn [seq] in El. injection El as -> El. destruct (IH (S cur) c sf F El) as (c' & sf' & A1 & A2 & A3 & A4 & A5); auto; try lia.
    exists c', sf'. replace (cur + S (length l)) with (S cur + length l) by lia. repeat (split; auto); try apply A1. rewrite <- A5.
    unfold roots. cbn [dr_scan]. rewrite (@vget_nth _ c (S cur) 0) by lia. cbn [bind]. rewrite (BL (S cur) I). cbn [Nat.eqb negb andb].
    replace (match n with 0 => false | S m' => cur =? m' end) with false by (destruct n; auto; symmetry; apply Nat.eqb_neq; lia). reflexivity.
  - destruct sf as [|sf]; [lia|]. cbn [seq] in El. injection El as -> El.
    destruct (@roots_tree D (S cur) D1 P1 c cur sf (length P2 + F) NI eq_refl ltac:(lia) NE H1 C BL Hvf) as (c1 & A1 & A2 & A3 & A4).
    destruct (IH (S cur) c1 (S n) F El) as (c' & sf' & B1 & B2 & B3 & B4 & B5); auto; try lia.
    exists c', sf'. replace (cur + S (length l)) with (S cur + length l) by lia. split; auto. split; [lia|]. split; auto. split; auto.
    rewrite app_length. cbn [length]. replace (length P1 + S (length P2) + F) with (length P1 + S (length P2 + F)) by lia. rewrite A4, B5.
    destruct (roots sf' c' (S cur + length l) F); cbn [bind]; auto. now rewrite <- app_assoc.
Qed.

Lemma roots_end D c sf F cur : S cur = n -> coh c D -> 0 < sf -> roots sf c cur F = if n <? length c then Ok [] else Ub.
Proof.
  intros E (L & B & W) Hs. destruct sf as [|sf]; [lia|]. unfold roots. cbn [dr_scan]. rewrite E. destruct (Nat.ltb_spec n (length c)) as [LT|GE].
  - rewrite (@vget_nth _ c n 0) by auto. cbn [bind]. rewrite (proj2 (W n LT)) by (intros X; apply B in X; lia). cbn [Nat.eqb negb andb bind]. rewrite Nat.eqb_refl. cbn [bind]. now destruct F.
  - unfold vget. rewrite (proj2 (nth_error_None c n)) by lia. reflexivity.
Qed.

(** A grey vertex with an empty row on top is yielded for ever. *)
Lemma stuck v : v < n -> row v = [] -> forall F c q cur, v < length c -> nth v c 0 = 2 -> dr_loop vf F g {| dr_q := v :: q; dr_c := c; dr_cursor := cur |} = OutOfFuel.
Proof.
  intros Hv E. induction F as [|F IH]; intros c q cur L G; auto. cbn [dr_loop dr_q]. unfold dr_next. cbn [dr_q dr_c dr_cursor dr_pop]. rewrite (@vget_nth _ c v 0) by auto. cbn [bind]. rewrite G. cbn [Nat.eqb bind].
  assert (DV : dr_visit vf g (v :: q) c v 0 = Ok (v :: q, c)) by (destruct vf; cbn [dr_visit]; rewrite (@vget_nth _ g v []) by auto; cbn [bind]; rewrite E; reflexivity).
  rewrite DV. cbn [bind fst snd]. now rewrite IH.
Qed.
Lemma roots_stuck D c sf F cur : S cur < n -> row (S cur) = [] -> ~ In (S cur) D -> coh c D -> 0 < sf -> roots sf c cur F = OutOfFuel.
Proof.
  intros Hc E NI (L & B & W) Hs. destruct sf as [|sf]; [lia|]. unfold roots. cbn [dr_scan]. rewrite (@vget_nth _ c (S cur) 0) by lia. cbn [bind]. rewrite (proj2 (W (S cur) ltac:(lia)) NI). cbn [Nat.eqb negb andb bind].
  replace (match n with 0 => false | S m' => cur =? m' end) with false by (destruct n; auto; symmetry; apply Nat.eqb_neq; lia). rewrite vset_lt by lia. cbn [bind].
  assert (DV : forall c, dr_visit vf g [S cur] c (S cur) 0 = Ok ([S cur], c)) by (intros c0; destruct vf; cbn [dr_visit]; rewrite (@vget_nth _ g (S cur) []) by auto; cbn [bind]; rewrite E; reflexivity).
  rewrite DV. cbn [bind fst snd]. apply stuck; auto; [rewrite upd_length; lia|]. rewrite nth_upd2 by lia. now rewrite Nat.eqb_refl.
Qed.

Lemma nth_rep k m x : x < m -> nth x (repeat k m) 0 = k.
Proof. revert x. induction m as [|m IH]; intros [|x] H; simpl; auto; try lia. apply IH. lia. Qed.

Lemma dfs_vertices_forest m s k D' P F : s < n -> n <= m -> k < n -> forest g [] (s :: seq 1 k) D' P -> need [] <= vf ->
  exists c' sf', coh c' D' /\ length c' = m /\ 0 < sf' /\ dfs_vertices m vf (length P + F) g s = do r <- roots sf' c' k F ; Ok (P ++ r).
Proof.
  intros Hs Hm Hk FO Hvf. inversion FO as [|? ? ? ? ? I|D u l D1 D2 P1 P2 NI NE H1 H2]; subst; [destruct I|]. unfold dfs_vertices. rewrite vset_lt by (rewrite repeat_length; lia). cbn [bind].
  assert (C : coh (repeat 1 m) []).
  { split; [rewrite repeat_length; auto|]. split; [intros x []|]. intros x Hx. rewrite repeat_length in Hx. rewrite nth_rep by auto. simpl. tauto. }
  destruct (@black_tree [] s D1 P1 (repeat 1 m) NI Hs NE H1 C ltac:(intros x []) Hvf 0) as (c1 & k1 & A1 & A2 & A3 & A4). rewrite repeat_length in A2.
  destruct (@roots_forest D1 (seq 1 k) D' P2 H2 0 c1 (S n) F) as (c' & sf' & B1 & B2 & B3 & B4 & B5); auto; rewrite ?seq_length; try lia; auto.
  rewrite seq_length in *. exists c', sf'. split; auto. split; [lia|]. split; [lia|].
  rewrite app_length. cbn [length]. replace (length P1 + S (length P2) + F) with (length P1 + S (length P2 + F)) by lia. rewrite A4.
  assert (T : dr_loop vf (S (length P2 + F)) g {| dr_q := repeat s (S k1) ++ []; dr_c := c1; dr_cursor := 0 |} = do r <- roots (S n) c1 0 (length P2 + F) ; Ok (s :: r)).
  { cbn [repeat app dr_loop dr_q]. unfold dr_next. cbn [dr_q dr_c dr_cursor]. change (s :: repeat s k1 ++ []) with (repeat s (S k1) ++ []).
    rewrite dr_pop_all; [|apply A3; apply (post_sets H1); left; now left|destruct A1; lia]. cbn [dr_pop bind]. unfold roots.
    match goal with |- (do st' <- ?a ; _) = _ => destruct a; reflexivity end. }
  rewrite T, B5. cbn [Nat.add]. destruct (roots sf' c' k F); cbn [bind]; auto. now rewrite <- app_assoc.
Qed.

Lemma dfs_vertices_post m s D' P F : s < n -> n <= m -> forest g [] (s :: seq 1 (n - 1)) D' P -> need [] <= vf ->
  dfs_vertices m vf (length P + F) g s = if n <? m then Ok P else Ub.
Proof.
  intros Hs Hm FO Hvf. destruct (@dfs_vertices_forest m s (n - 1) D' P F Hs Hm ltac:(lia) FO Hvf) as (c' & sf' & A & B & C & E). rewrite E.
  rewrite (@roots_end D' c' sf' F (n - 1)) by (auto; lia). rewrite B. destruct (n <? m); cbn [bind]; auto. now rewrite app_nil_r.
Qed.
Lemma dfs_vertices_stuck m s k D' P F : s < n -> n <= m -> S k < n -> forest g [] (s :: seq 1 k) D' P -> ~ In (S k) D' -> row (S k) = [] -> need [] <= vf ->
  dfs_vertices m vf (length P + F) g s = OutOfFuel.
Proof.
  intros Hs Hm Hk FO NI E0 Hvf. destruct (@dfs_vertices_forest m s k D' P F Hs Hm ltac:(lia) FO Hvf) as (c' & sf' & A & B & C & E). rewrite E.
  rewrite (@roots_stuck D' c' sf' F k) by auto. reflexivity.
Qed.
Lemma need_sum : need [] = sum (map (@length nat) g).
Proof.
  unfold need. assert (X : free n [] = seq 0 n). { unfold free. induction (seq 0 n) as [|a l IH]; auto. cbn [filter]. rewrite IH. now destruct (in_dec Nat.eq_dec a []) as [[]|]. }
  rewrite X. f_equal. apply nth_ext with (d := 0) (d' := 0); [now rewrite !map_length, seq_length|]. intros i Hi. rewrite map_length, seq_length in Hi.
  rewrite (nth_indep _ 0 (length (row 0))) by (now rewrite map_length, seq_length). rewrite map_nth with (f := fun x => length (row x)) (d := 0). rewrite seq_nth by auto.
  change 0 with (length (@nil nat)) at 2. rewrite map_nth. reflexivity.
Qed.
End Machine.
