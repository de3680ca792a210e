(** Lemmas for CcvModel. *)
From Coq Require Import List Arith Lia Bool Relations.
From Verif Require Import Base ConnLib GraphLib SsspLib Pool ParBfsModel ParBfsProofs CcModel CcProofs CcProofs2 CcxModel CcxProofs CcvModel.
Import ListNotations.
Set Implicit Arguments.

Section Sound.
Variables (W n : nat) (G : list (nat * nat)).
(** Every label is connected to its vertex and not above it. *)
Definition lok (comp : list nat) : Prop := comp_ok n comp /\ forall x, x < n -> conn G x (lab comp x).
(** Vertices that are no roots stay so. *)
Definition keeps (comp comp' : list nat) : Prop := forall x, x < n -> lab comp x < x -> lab comp' x < x.
Lemma keeps_refl comp : keeps comp comp.
Proof. intros x _ H. exact H. Qed.
Lemma lok_upd comp x y : lok comp -> x < n -> y < x -> conn G x y -> lok (upd comp x y) /\ keeps comp (upd comp x y).
Proof.
  intros [[L LE] CN] Hx Hy HC. assert (LU : forall z, lab (upd comp x y) z = if z =? x then y else lab comp z) by (intros; apply lab_upd; lia).
  split; [split; [split; [now rewrite upd_length|]|]|]; intros z Hz; rewrite LU; destruct (Nat.eqb_spec z x) as [->|]; auto; lia.
Qed.
Lemma lok_get comp x : lok comp -> x < n -> vget comp x = Ok (lab comp x) /\ lab comp x <= x /\ lab comp x < n /\ conn G x (lab comp x).
Proof.
  intros [C CN] Hx. assert (LE := proj2 C x Hx). split; [now apply (lab_get C)|]. split; auto. split; [lia|auto].
Qed.
Lemma lok_seq : lok (seq 0 n).
Proof.
  split; [apply comp_ok_seq|]. intros x Hx. unfold lab. rewrite seq_nth by auto. apply conn_refl.
Qed.

(** * The result loop of v1 *)
Definition vr_id (t : vr) : nat := match t with RA n _ | RB n _ _ | RC n _ _ _ | RD n _ | RE n _ _ | RF n _ _ | RG n _ | RR n | RW n _ => n end.
Definition vr_ok (comp : list nat) (t : vr) : Prop :=
  vr_id t < n /\
  match t with
  | RA _ m => m < n
  | RB _ m a => m < n /\ (a = m \/ lab comp m < m)
  | RC _ m a b => m < n /\ b < n /\ ((a = m /\ b = m) \/ lab comp m < m)
  | RD _ m => m < n /\ lab comp m < m
  | RE _ m x => m < n /\ lab comp m < m /\ x < m /\ conn G m x
  | RF _ m y => m < n /\ lab comp m < m /\ y < m /\ conn G m y
  | RG _ m => m < n /\ lab comp m < m
  | RR _ => True
  | RW k x => x <= k /\ conn G k x
  end.
Lemma vr_ok_keeps comp comp' t : keeps comp comp' -> vr_ok comp t -> vr_ok comp' t.
Proof. intros K. unfold vr_ok. destruct t; cbn [vr_id]; intuition. Qed.
Record vr_inv (ts : list vr) (s : list nat * list nat) : Prop := {
  ri_comp : lok (fst s);
  ri_ok : Forall (vr_ok (fst s)) ts;
  ri_len : length (snd s) = n;
  ri_done : forall x, x < n -> In x (map vr_id ts) \/ (nth x (snd s) x <= x /\ conn G x (nth x (snd s) x)) }.
Lemma vr_inv_step l1 t l2 s : vr_inv (l1 ++ t :: l2) s ->
  exists o s', vr_step t s = Ok (o, s') /\ vr_inv (l1 ++ opt_list o ++ l2) s' /\ match o with Some t' => vr_size t' < vr_size t | None => True end.
Proof.
  destruct s as [comp out]. intros [C F L D]. cbn [fst snd] in *. apply Forall_app in F. destruct F as [F1 F2]. inversion F2 as [|t' l' [Hid Ht] F3]; subst. clear F2.
  assert (RE : forall t' comp', lok comp' -> keeps comp comp' -> vr_id t' = vr_id t -> vr_ok comp' t' -> vr_inv (l1 ++ opt_list (Some t') ++ l2) (comp', out)).
  { intros t' comp' C' K Ei Eo. constructor; auto; cbn [fst snd].
    - apply Forall_app. split; [eapply Forall_impl; [|exact F1]; intros x; now apply vr_ok_keeps|]. constructor; auto. eapply Forall_impl; [|exact F3]; intros x; now apply vr_ok_keeps.
    - intros x Hx. destruct (D x Hx) as [Q|Q]; auto. left. rewrite map_app in *. cbn [opt_list app map] in *. now rewrite Ei. }
  assert (KR := keeps_refl comp).
  destruct t as [k m|k m a|k m a b|k m|k m x|k m y|k m|k|k x]; cbn [vr_id vr_step] in *.
  - destruct (lok_get C Ht) as (-> & LE & LT & CN). cbn [bind]. eexists _, _. split; [reflexivity|]. split; [|cbn [vr_size]; lia].
    apply RE; auto. split; auto. split; auto. lia.
  - destruct Ht as [Hm Ht]. destruct (lok_get C Hm) as (-> & LE & LT & CN). cbn [bind]. eexists _, _. split; [reflexivity|]. split; [|cbn [vr_size]; lia].
    apply RE; auto. split; auto. split; auto. split; auto. lia.
  - destruct Ht as (Hm & Hb & Ht). destruct (lok_get C Hb) as (-> & LE & LT & CN). cbn [bind]. eexists _, _. split; [reflexivity|].
    destruct (Nat.eqb_spec a (lab comp b)) as [E|N]; (split; [|cbn [vr_size]; lia]); apply RE; auto; split; auto.
    split; auto. destruct Ht as [[E1 E2]|Ht]; auto. subst. lia.
  - destruct Ht as [Hm Ht]. destruct (lok_get C Hm) as (-> & LE & LT & CN). cbn [bind]. eexists _, _. split; [reflexivity|]. split; [|cbn [vr_size]; lia].
    apply RE; auto. try (split; auto; repeat split; auto).
  - destruct Ht as (Hm & HR & Hx & CX). destruct (@lok_get comp x C ltac:(lia)) as (-> & LE & LT & CN). cbn [bind]. eexists _, _. split; [reflexivity|]. split; [|cbn [vr_size]; lia].
    apply RE; auto. split; auto. repeat split; auto; try lia. eapply conn_trans; eauto.
  - destruct Ht as (Hm & HR & Hy & CY). rewrite vset_lt by (destruct C as [[LL _] _]; lia). cbn [bind]. eexists _, _. split; [reflexivity|]. split; [|cbn [vr_size]; lia].
    destruct (@lok_upd comp m y C Hm Hy CY) as [C' K']. apply RE; auto. try (split; auto; split; auto).
  - destruct Ht as [Hm Ht]. destruct (lok_get C Hm) as (-> & LE & LT & CN). cbn [bind]. eexists _, _. split; [reflexivity|]. split; [|cbn [vr_size]; lia].
    apply RE; auto. try (split; auto).
  - destruct (lok_get C Hid) as (-> & LE & LT & CN). cbn [bind]. eexists _, _. split; [reflexivity|]. split; [|cbn [vr_size]; lia].
    apply RE; auto. try (split; auto).
  - destruct Ht as [Hx CX]. rewrite vset_lt by lia. cbn [bind]. eexists _, _. split; [reflexivity|]. split; auto. constructor; cbn [fst snd opt_list app]; auto.
    + apply Forall_app; auto.
    + now rewrite upd_length.
    + intros z Hz. destruct (Nat.eq_dec z k) as [->|NE].
      * right. rewrite nth_upd_eq by lia. auto.
      * rewrite nth_upd_neq by auto. destruct (D z Hz) as [Q|Q]; auto. left. rewrite map_app in *. cbn [map vr_id] in Q. apply in_app_or in Q. apply in_or_app. destruct Q as [Q|[Q|Q]]; auto. congruence.
Qed.
Lemma vr_run_ok sched comp : lok comp ->
  exists comp' out, run_all vr_size vr_step sched (map (fun n => RA n n) (seq 0 n)) (comp, repeat 0 n) = Ok (comp', out) /\
    length out = n /\ forall x, x < n -> nth x out x <= x /\ conn G x (nth x out x).
Proof.
  intros C. destruct (@run_all_inv _ _ vr_size vr_step vr_inv vr_inv_step sched (map (fun n => RA n n) (seq 0 n)) (comp, repeat 0 n)) as ([comp' out] & E & I).
  - constructor; cbn [fst snd]; auto.
    + apply Forall_forall. intros t J. apply in_map_iff in J. destruct J as (x & <- & J). apply in_seq in J. split; cbn [vr_id]; lia.
    + apply repeat_length.
    + intros x Hx. left. rewrite map_map. cbn [vr_id]. rewrite map_id. apply in_seq. lia.
  - exists comp', out. split; auto. destruct I as [_ _ L D]. split; auto. intros x Hx. destruct (D x Hx) as [[]|Q]. auto.
Qed.
(** * v1 *)
Definition v1_ok (comp : list nat) (t : v1) : Prop :=
  let rok u rest := u < n /\ forall v, In v rest -> v < n /\ conn G u v in
  match t with
  | V1U u v rest => rok u rest /\ v < n /\ conn G u v
  | V1P2 u p1 x rest => rok u rest /\ p1 < n /\ x < n /\ conn G p1 x
  | V1High u p1 p2 rest => rok u rest /\ p1 < n /\ p2 < n /\ conn G p1 p2 /\ p1 <> p2
  | V1Low u high ph low rest => rok u rest /\ high < n /\ low < high /\ conn G high low /\ (ph = high \/ lab comp high < high)
  | V1Cas u high ph low c rest => rok u rest /\ high < n /\ low < high /\ conn G high low /\ (ph = high \/ lab comp high < high) /\ c <= low /\ conn G high c
  | V1Flag u rest => rok u rest
  | V1H u high low rest => rok u rest /\ high < n /\ low < high /\ conn G high low /\ lab comp high < high
  | V1P1 u h low rest => rok u rest /\ h < n /\ low < n /\ conn G h low
  end.
Lemma v1_ok_keeps comp comp' t : keeps comp comp' -> v1_ok comp t -> v1_ok comp' t.
Proof. intros K. destruct t; cbn [v1_ok]; auto; intuition. Qed.
Lemma v1_next_ok comp u rest : u < n -> (forall v, In v rest -> v < n /\ conn G u v) ->
  match v1_next u rest with Some t' => v1_ok comp t' /\ v1_size t' < v1_rest_size u rest | None => True end.
Proof.
  intros Hu HR. destruct rest as [|v r]; cbn [v1_next]; auto. split.
  - cbn [v1_ok]. destruct (HR v (or_introl eq_refl)). repeat split; auto; apply HR; now right.
  - unfold v1_rest_size. cbn [v1_size map sum]. unfold v1_rest_size. lia.
Qed.
Hypothesis HW : n <= W.
Lemma v1_step_ok comp ch t : lok comp -> v1_ok comp t ->
  exists o comp' ch', v1_step W t (comp, ch) = Ok (o, (comp', ch')) /\ lok comp' /\ keeps comp comp' /\
    match o with Some t' => v1_ok comp' t' /\ v1_size t' < v1_size t | None => True end.
Proof.
  intros C H. assert (KR := keeps_refl comp).
  destruct t as [u v rest|u p1 x rest|u p1 p2 rest|u high ph low rest|u high ph low c rest|u rest|u high low rest|u h low rest]; cbn [v1_ok v1_step] in *.
  - destruct H as ((Hu & HR) & Hv & CV). destruct (lok_get C Hu) as (-> & LE & LT & CN). cbn [bind]. eexists _, _, _. split; [reflexivity|]. split; auto. split; auto.
    cbn [v1_ok v1_size]. repeat split; auto; try lia; try (apply HR; assumption). eapply conn_trans; [apply conn_sym, CN|auto].
  - destruct H as ((Hu & HR) & Hp & Hx & CV). destruct (lok_get C Hx) as (-> & LE & LT & CN). cbn [bind]. eexists _, _, _. split; [reflexivity|]. split; auto. split; auto.
    destruct (Nat.eqb_spec p1 (lab comp x)) as [E|N].
    + assert (X := @v1_next_ok comp u rest Hu HR). destruct (v1_next u rest); auto. split; [tauto|]. cbn [v1_size]. lia.
    + cbn [v1_ok v1_size]. repeat split; auto; try lia; try (apply HR; assumption). eapply conn_trans; eauto.
  - destruct H as ((Hu & HR) & H1 & H2 & CV & NE). rewrite (hk_low_min HW H1 H2). set (high := Nat.max p1 p2). set (low := Nat.min p1 p2).
    assert (HH : high < n) by (unfold high; lia). assert (HL : low < high) by (unfold high, low; lia). assert (SUM : high + low = p1 + p2) by (unfold high, low; lia).
    assert (CP : conn G high low).
    { unfold high, low. destruct (Nat.le_ge_cases p1 p2); [rewrite Nat.max_r, Nat.min_l by auto; now apply conn_sym|rewrite Nat.max_l, Nat.min_r by auto; auto]. }
    clearbody high low. destruct (lok_get C HH) as (-> & LE & LT & CN). cbn [bind]. eexists _, _, _. split; [reflexivity|]. split; auto. split; auto.
    destruct (Nat.eqb_spec (lab comp high) low) as [E|N].
    + cbn [v1_ok v1_size]. repeat split; auto; try lia; try (apply HR; assumption).
    + cbn [v1_ok v1_size]. repeat split; auto; try lia; try (apply HR; assumption).
  - destruct H as ((Hu & HR) & HH & HL & CV & PH). destruct (@lok_get comp low C ltac:(lia)) as (-> & LE & LT & CN). cbn [bind]. eexists _, _, _. split; [reflexivity|]. split; auto. split; auto.
    cbn [v1_ok v1_size]. repeat split; auto; try lia; try (apply HR; assumption). eapply conn_trans; eauto.
  - destruct H as ((Hu & HR) & HH & HL & CV & PH & LC & CC). destruct (lok_get C HH) as (-> & LE & LT & CN). cbn [bind].
    destruct (Nat.eqb_spec (lab comp high) ph) as [E|N].
    + rewrite vset_lt by (destruct C as [[L _] _]; lia). cbn [bind]. eexists _, _, _. split; [reflexivity|].
      destruct (@lok_upd comp high c C HH ltac:(lia) CC) as [C' K']. split; auto. split; auto. cbn [v1_ok v1_size]. repeat split; auto; try lia; try (apply HR; assumption).
    + eexists _, _, _. split; [reflexivity|]. split; auto. split; auto. cbn [v1_ok v1_size]. repeat split; auto; try lia; try (apply HR; assumption).
  - destruct H as (Hu & HR). eexists _, _, _. split; [reflexivity|]. split; auto. split; auto.
    assert (X := @v1_next_ok comp u rest Hu HR). destruct (v1_next u rest); auto. split; [tauto|]. cbn [v1_size]. lia.
  - destruct H as ((Hu & HR) & HH & HL & CV & RT). destruct (lok_get C HH) as (-> & LE & LT & CN). cbn [bind]. eexists _, _, _. split; [reflexivity|]. split; auto. split; auto.
    cbn [v1_ok v1_size]. repeat split; auto; try lia; try (apply HR; assumption). eapply conn_trans; [apply conn_sym, CN|auto].
  - destruct H as ((Hu & HR) & HH & HL & CV). destruct (lok_get C HH) as (-> & LE & LT & CN). cbn [bind]. eexists _, _, _. split; [reflexivity|]. split; auto. split; auto.
    cbn [v1_ok v1_size]. repeat split; auto; try lia; try (apply HR; assumption). eapply conn_trans; [apply conn_sym, CN|auto].
Qed.
Lemma v1_run_ok sched ts comp ch : lok comp -> Forall (v1_ok comp) ts ->
  exists comp' ch', run_all v1_size (v1_step W) sched ts (comp, ch) = Ok (comp', ch') /\ lok comp'.
Proof.
  intros C F.
  destruct (@run_all_inv _ _ v1_size (v1_step W) (fun ts s => lok (fst s) /\ Forall (v1_ok (fst s)) ts)) with (sched := sched) (ts := ts) (s := (comp, ch)) as ([comp' ch'] & E & C' & _); auto.
  - intros l1 t l2 [c b] (C1 & F1). cbn [fst] in *. apply Forall_app in F1. destruct F1 as [F1 F2]. inversion F2 as [|t' l' Ht F3]; subst.
    destruct (@v1_step_ok c b t C1 Ht) as (o & c' & b' & E & C' & K & O). exists o, (c', b'). split; auto. cbn [fst]. split.
    + split; auto. apply Forall_app. split; [eapply Forall_impl; [|exact F1]; intros x; now apply v1_ok_keeps|].
      apply Forall_app. split; [|eapply Forall_impl; [|exact F3]; intros x; now apply v1_ok_keeps]. destruct o; constructor; tauto || constructor.
    + destruct o; tauto.
  - exists comp', ch'. auto.
Qed.

End Sound.

(** v1 never joins what is not connected. *)
Lemma cc_v1_ok W sched g : length g < W -> targets_ok g ->
  exists out, cc_v1 W sched g = Ok out /\ length out = length g /\
    forall x, x < length g -> nth x out x <= x /\ conn (gedges g) x (nth x out x).
Proof.
  intros HW HT. unfold cc_v1. rewrite x_init_small by auto.
  assert (TK : forall comp, lok (length g) (gedges g) comp -> Forall (v1_ok (length g) (gedges g) comp) (v1_tasks W g)).
  { intros comp C. apply Forall_forall. intros t I. unfold v1_tasks in I. rewrite Nat.mod_small in I by auto. apply in_concat in I. destruct I as (l & I & J). apply in_map_iff in I. destruct I as (u & <- & I).
    apply in_seq in I. assert (Hu : u < length g) by lia.
    assert (X := @v1_next_ok (length g) (gedges g) comp u (nth u g []) Hu). destruct (v1_next u (nth u g [])); [|destruct J]. destruct J as [->|[]]. apply X.
    intros v E. split; [eapply HT; exact E|apply conn_edge, in_gedges; exact E]. }
  assert (PS : forall iters i ch comp, lok (length g) (gedges g) comp -> exists comp', v1_passes iters W sched i g ch comp = Ok comp' /\ lok (length g) (gedges g) comp').
  { induction iters; intros i ch comp C; cbn [v1_passes]; eauto. destruct ch; eauto.
    unfold v1_pass. destruct (@v1_run_ok W (length g) (gedges g) (Nat.lt_le_incl _ _ HW) (sched i) (v1_tasks W g) comp false C (TK _ C)) as (c' & b' & E & C'). rewrite E. cbn [bind fst snd]. auto. }
  destruct (PS 2 0 true (seq 0 (length g)) (lok_seq _ _)) as (comp & E & C). rewrite E. cbn [bind]. rewrite Nat.mod_small by auto.
  destruct (@vr_run_ok (length g) (gedges g) (sched 2) comp C) as (c' & out & E2 & L & H). rewrite E2. cbn [bind snd]. eauto.
Qed.

(** * sv *)
Section Sv.
Variables (W n : nat) (G : list (nat * nat)).
Hypothesis HW : n < W.
Hypothesis HG : forall a b, In (a, b) G -> a < n /\ b < n.
Notation lok := (lok n G).
(** Every label is a root. *)
Definition flat (comp : list nat) : Prop := forall x, x < n -> lab comp (lab comp x) = lab comp x.
Section Phase.
Variable comp0 : list nat.
Hypothesis C0 : lok comp0.
Hypothesis FL : flat comp0.
Definition svpend (t : sv) : list (nat * nat) :=
  match t with SvU u v r | SvV u v _ r | SvTest u v _ _ r => (u, v) :: r | SvFlag _ _ r | SvStore _ _ r => r end.
Definition sv_ok (s : list nat * bool) (t : sv) : Prop :=
  let same := snd s = false in
  (forall a b, In (a, b) (svpend t) -> In (a, b) G) /\
  match t with
  | SvU u v r => True
  | SvV u v cu r => cu < n /\ conn G u cu /\ (same -> cu = lab comp0 u)
  | SvTest u v cu cv r => cu < n /\ cv < n /\ conn G cu cv /\ cu <> cv /\ (same -> cu = lab comp0 u /\ cv = lab comp0 v)
  | SvFlag high low r => high < n /\ low < high /\ conn G high low /\ lab comp0 high = high
  | SvStore high low r => high < n /\ low < high /\ conn G high low /\ lab comp0 high = high /\ snd s = true
  end.
Definition storing (t : sv) : Prop := match t with SvStore _ _ _ => True | _ => False end.
Definition flagging (t : sv) : Prop := match t with SvFlag _ _ _ => True | _ => False end.
Record sv_inv (ts : list sv) (s : list nat * bool) : Prop := {
  si_comp : lok (fst s);
  si_keep : keeps n comp0 (fst s);
  si_ok : Forall (sv_ok s) ts;
  si_same : snd s = false -> fst s = comp0;
  si_diff : snd s = true -> (exists t, In t ts /\ storing t) \/ exists x, x < n /\ lab comp0 x = x /\ lab (fst s) x <> x;
  si_arcs : forall a b, In (a, b) G -> snd s = true \/ (exists t, In t ts /\ (flagging t \/ In (a, b) (svpend t))) \/ lab comp0 a = lab comp0 b }.

Lemma sv_ok_next s rest : (forall a b, In (a, b) rest -> In (a, b) G) -> match sv_next rest with Some t => sv_ok s t /\ svpend t = rest | None => rest = [] end.
Proof. intros H. destruct rest as [|[u v] r]; cbn [sv_next]; auto. split; auto. split; auto. Qed.
Lemma sv_ok_change comp comp' b t : sv_ok (comp, b) t -> sv_ok (comp', true) t.
Proof. unfold sv_ok. cbn [snd]. destruct t; intuition; try discriminate. Qed.
Lemma sv_ok_comp comp comp' b t : sv_ok (comp, b) t -> sv_ok (comp', b) t.
Proof. unfold sv_ok. cbn [snd]. auto. Qed.

Lemma sv_step_ok l1 t l2 s : sv_inv (l1 ++ t :: l2) s ->
  exists o s', sv_step W t s = Ok (o, s') /\ sv_inv (l1 ++ opt_list o ++ l2) s' /\ match o with Some t' => sv_size t' < sv_size t | None => True end.
Proof.
  destruct s as [comp ch]. intros [C K F SM DF AR]. cbn [fst snd] in *. apply Forall_app in F. destruct F as [F1 F2]. inversion F2 as [|t' l' Ht F3]; subst. clear F2.
  (* the state does not change; t, not storing nor flagging, becomes o *)
  assert (RE : forall o, ~ storing t -> ~ flagging t -> (forall t', o = Some t' -> sv_ok (comp, ch) t') ->
     (forall a b, In (a, b) (svpend t) -> ch = true \/ (exists t', o = Some t' /\ (flagging t' \/ In (a, b) (svpend t'))) \/ lab comp0 a = lab comp0 b) ->
     sv_inv (l1 ++ opt_list o ++ l2) (comp, ch)).
  { intros o NS NF Ho HA. constructor; cbn [fst snd]; auto.
    - apply Forall_app. split; auto. apply Forall_app. split; auto. destruct o; constructor; auto.
    - intros E. destruct (DF E) as [(t' & I & S)|Q]; auto. left. exists t'. split; auto. rewrite !in_app_iff in *. destruct I as [I|[I|I]]; auto. subst. tauto.
    - intros a b I. destruct (AR a b I) as [Q|[(t' & J & Q)|Q]]; auto. rewrite in_app_iff in J. destruct J as [J|[J|J]].
      + right. left. exists t'. rewrite !in_app_iff. auto.
      + subst t'. destruct Q as [Q|Q]; [tauto|]. destruct (HA a b Q) as [X|[(t' & E & X)|X]]; auto.
        right. left. exists t'. rewrite !in_app_iff. subst o. cbn [opt_list]. simpl (In t' [t']). auto.
      + right. left. exists t'. rewrite !in_app_iff. auto. }
  destruct t as [u v rest|u v cu rest|u v cu cv rest|high low rest|high low rest]; cbn [sv_step]; destruct Ht as [Hp Ht]; cbn [svpend fst snd] in *.
  - destruct (HG u v (Hp u v (or_introl eq_refl))) as [Hu Hv]. destruct (lok_get C Hu) as (-> & LE & LT & CN). cbn [bind]. eexists _, _. split; [reflexivity|]. split; [|cbn [sv_size]; lia].
    apply RE; try solve [intros []].
    + intros t' E. injection E as <-. split; auto. cbn [snd]. split; auto. split; auto. intros E. now rewrite SM.
    + intros a b I. right. left. eexists. split; [reflexivity|]. auto.
  - destruct (HG u v (Hp u v (or_introl eq_refl))) as [Hu Hv]. destruct (lok_get C Hv) as (-> & LE & LT & CN). cbn [bind]. destruct Ht as (HC & CU & HS). eexists _, _. split; [reflexivity|].
    destruct (Nat.eqb_spec cu (lab comp v)) as [E|N].
    + assert (X := @sv_ok_next (comp, ch) rest (fun a b I => Hp a b (or_intror I))). split.
      * apply RE; try solve [intros []].
        -- intros t' E'. rewrite E' in X. tauto.
        -- intros a b [I|I].
           ++ injection I as <- <-. destruct ch; auto. right. right. rewrite <- HS, E by auto. now rewrite SM.
           ++ right. left. destruct (sv_next rest) as [t'|]; [|subst rest; destruct I]. exists t'. split; auto. right. destruct X as [_ ->]. auto.
      * destruct rest as [|[? ?] ?]; cbn [sv_next sv_size length]; auto. lia.
    + split; [|cbn [sv_size]; lia]. apply RE; try solve [intros []].
      * intros t' E. injection E as <-. split; auto. cbn [snd]. split; auto. split; auto. split; [|split; auto].
        -- eapply conn_trans; [apply conn_sym, CU|]. eapply conn_trans; [apply conn_edge, Hp; now left|auto].
        -- intros E. split; auto. now rewrite SM.
      * intros a b I. right. left. eexists. split; [reflexivity|]. auto.
  - destruct Ht as (H1 & H2 & CV & NE & HS). rewrite (@lk_low_min n W ltac:(lia) cu cv H1 H2). set (high := Nat.max cu cv). set (low := Nat.min cu cv).
    assert (HH : high < n) by (unfold high; lia). assert (HL : low < high) by (unfold high, low; lia).
    assert (CP : conn G high low).
    { unfold high, low. destruct (Nat.le_ge_cases cu cv); [rewrite Nat.max_r, Nat.min_l by auto; now apply conn_sym|rewrite Nat.max_l, Nat.min_r by auto; auto]. }
    assert (HX : high = cu \/ high = cv) by (unfold high; lia). clearbody high low.
    destruct (HG u v (Hp u v (or_introl eq_refl))) as [Hu Hv]. destruct (lok_get C HH) as (-> & LE & LT & CN). cbn [bind]. eexists _, _. split; [reflexivity|].
    destruct (Nat.eqb_spec high (lab comp high)) as [E|N].
    + split; [|cbn [sv_size]; lia]. apply RE; try solve [intros []].
      * intros t' E'. injection E' as <-. split; [intros a b I; apply Hp; now right|]. split; auto. split; auto. split; auto.
        destruct (lok_get C0 HH) as (_ & LE0 & _). destruct (Nat.eq_dec (lab comp0 high) high) as [|N0]; auto. assert (X := @K high HH ltac:(lia)). lia.
      * intros a b I. right. left. eexists. split; [reflexivity|]. left. exact Logic.I.
    + assert (X := @sv_ok_next (comp, ch) rest (fun a b I => Hp a b (or_intror I))).
      assert (CT : ch = true).
      { destruct ch; auto. exfalso. destruct (HS eq_refl) as [E1 E2]. rewrite (SM eq_refl) in N. destruct HX as [->| ->]; apply N; [rewrite E1|rewrite E2]; symmetry; apply FL; auto. }
      split.
      * apply RE; try solve [intros []]; auto. intros t' E'. rewrite E' in X. tauto.
      * destruct rest as [|[? ?] ?]; cbn [sv_next sv_size length]; auto. lia.
  - eexists _, _. split; [reflexivity|]. split; [|cbn [sv_size]; lia]. constructor; cbn [fst snd]; auto; try discriminate.
    + apply Forall_app. split; [eapply Forall_impl; [|exact F1]; intros x; apply sv_ok_change|]. constructor; [|eapply Forall_impl; [|exact F3]; intros x; apply sv_ok_change].
      split; auto. cbn [snd]. tauto.
    + intros _. left. exists (SvStore high low rest). split; [rewrite !in_app_iff; right; left; now left|exact Logic.I].
  - destruct Ht as (HH & HL & CP & R0 & ->). rewrite vset_lt by (destruct C as [[LL _] _]; lia). cbn [bind]. eexists _, _. split; [reflexivity|].
    assert (X := @sv_ok_next (upd comp high low, true) rest Hp). destruct (@lok_upd n G comp high low C HH HL CP) as [C' K']. split.
    + constructor; cbn [fst snd]; auto; try discriminate.
      * intros x Hx Hl. apply K'; auto.
      * apply Forall_app. split; [eapply Forall_impl; [|exact F1]; intros x; apply sv_ok_comp|]. apply Forall_app. split; [|eapply Forall_impl; [|exact F3]; intros x; apply sv_ok_comp].
        destruct (sv_next rest); constructor; tauto || constructor.
      * intros _. right. exists high. split; auto. split; auto. rewrite lab_upd by (destruct C as [[LL _] _]; lia). rewrite Nat.eqb_refl. lia.
    + destruct rest as [|[? ?] ?]; cbn [sv_next sv_size length]; auto. lia.
Qed.
Lemma sv_phase_ok sched chunks : (forall e, In e G <-> In e (concat chunks)) ->
  exists comp ch, run_all sv_size (sv_step W) sched (concat (map (fun c => opt_list (sv_next c)) chunks)) (comp0, false) = Ok (comp, ch) /\
    lok comp /\ keeps n comp0 comp /\
    (ch = false -> comp = comp0 /\ forall a b, In (a, b) G -> lab comp0 a = lab comp0 b) /\
    (ch = true -> exists x, x < n /\ lab comp0 x = x /\ lab comp x <> x).
Proof.
  intros HCh.
  destruct (@run_all_inv _ _ sv_size (sv_step W) sv_inv sv_step_ok sched (concat (map (fun c => opt_list (sv_next c)) chunks)) (comp0, false)) as ([comp ch] & E & I).
  - constructor; cbn [fst snd]; auto; try discriminate.
    + apply keeps_refl.
    + apply Forall_forall. intros t I. apply in_concat in I. destruct I as (l & I & J). apply in_map_iff in I. destruct I as (c & <- & I).
      assert (X := @sv_ok_next (comp0, false) c). destruct (sv_next c); [|destruct J]. destruct J as [->|[]]. apply X. intros a b Q. apply HCh, in_concat. eauto.
    + intros a b I. right. left. apply HCh, in_concat in I. destruct I as (c & I & J). assert (X := @sv_ok_next (comp0, false) c). destruct (sv_next c) as [t|] eqn:EN.
      * exists t. split; [apply in_concat; exists (opt_list (sv_next c)); split; [apply in_map_iff; eauto|rewrite EN; now left]|]. right.
        destruct X as [_ ->]; auto. intros x y Q. apply HCh, in_concat. eauto.
      * destruct c as [|[? ?] ?]; [destruct J|discriminate].
  - exists comp, ch. split; auto. destruct I as [C K _ SM DF AR]. cbn [fst snd] in *. split; auto. split; auto. split.
    + intros Ef. split; auto. intros a b I. destruct (AR a b I) as [Q|[(t & [] & _)|Q]]; auto. congruence.
    + intros Et. destruct (DF Et) as [(t & [] & _)|Q]; auto.
Qed.
End Phase.

(** The sweep compresses every label to its root. *)
Lemma sv_down_ok fuel comp k : comp_ok n comp -> k < n -> k < fuel -> (forall x, x < k -> lab comp (lab comp x) = lab comp x) ->
  exists comp', sv_down fuel comp k = Ok comp' /\ length comp' = n /\
    forall x, x < n -> lab comp' x = if x =? k then root comp k else lab comp x.
Proof.
  intros C Hk Hf HF. assert (LE := proj2 C k Hk).
  assert (RT : lab comp (lab comp k) = root comp k).
  { destruct (Nat.eq_dec (lab comp k) k) as [E|N]; [now rewrite E, E, root_fix|]. assert (E := HF (lab comp k) ltac:(lia)).
    rewrite <- (root_lab C Hk), <- (root_lab C (x := lab comp k)) by lia. symmetry. apply root_fix. exact E. }
  assert (RF := root_props C Hk). destruct fuel as [|f]; [lia|]. cbn [sv_down].
  rewrite (lab_get C Hk). cbn [bind]. rewrite (lab_get C (x := lab comp k)) by lia. cbn [bind]. rewrite RT. destruct (Nat.eqb_spec (lab comp k) (root comp k)) as [E|N].
  - exists comp. split; auto. split; [apply C|]. intros x Hx. destruct (Nat.eqb_spec x k) as [->|]; auto.
  - rewrite vset_lt by (destruct C; lia). cbn [bind].
    assert (LU : forall z, lab (upd comp k (root comp k)) z = if z =? k then root comp k else lab comp z) by (intros; apply lab_upd; destruct C; lia).
    assert (NK : lab comp k <> k) by (intros E; apply N; rewrite <- RT, E; auto).
    destruct f as [|f']; [lia|]. cbn [sv_down].
    assert (G1 : vget (upd comp k (root comp k)) k = Ok (root comp k)) by (rewrite (@vget_nth _ _ k k) by (rewrite upd_length; destruct C; lia); fold (lab (upd comp k (root comp k)) k); now rewrite LU, Nat.eqb_refl).
    assert (G2 : vget (upd comp k (root comp k)) (root comp k) = Ok (root comp k)).
    { rewrite (@vget_nth _ _ (root comp k) (root comp k)) by (rewrite upd_length; destruct C; lia). fold (lab (upd comp k (root comp k)) (root comp k)). rewrite LU.
      destruct (Nat.eqb_spec (root comp k) k); auto. now rewrite (proj1 RF). }
    rewrite G1. cbn [bind]. rewrite G2. cbn [bind]. rewrite Nat.eqb_refl. eexists. split; [reflexivity|]. split; [rewrite upd_length; apply C|]. intros x _. apply LU.
Qed.
Lemma sv_sweep_ok comp0 : comp_ok n comp0 -> exists comp', sv_sweep n W comp0 0 = Ok comp' /\ length comp' = n /\ forall x, x < n -> lab comp' x = root comp0 x.
Proof.
  intros C0.
  assert (H : forall fuel k comp, k + fuel = n -> length comp = n -> (forall x, x < n -> lab comp x = if x <? k then root comp0 x else lab comp0 x) ->
     exists comp', sv_sweep fuel W comp k = Ok comp' /\ length comp' = n /\ forall x, x < n -> lab comp' x = root comp0 x).
  { induction fuel; intros k comp Hk L H.
    - exists comp. cbn [sv_sweep]. rewrite L. destruct (Nat.ltb_spec k n); [lia|]. split; auto. split; auto. intros x Hx. rewrite H by auto. destruct (Nat.ltb_spec x k); auto. lia.
    - cbn [sv_sweep]. rewrite L. destruct (Nat.ltb_spec k n) as [Hk'|]; [|lia].
      assert (C : comp_ok n comp).
      { split; auto. intros x Hx. rewrite H by auto. destruct (Nat.ltb_spec x k); [now apply (root_props C0)|now apply C0]. }
      assert (RX : forall x, x < n -> root comp0 (lab comp x) = root comp0 x).
      { intros x Hx. rewrite H by auto. destruct (Nat.ltb_spec x k); [|now apply (root_lab C0)]. apply root_fix. now apply (root_props C0). }
      assert (FX : forall x, x < k -> lab comp (lab comp x) = lab comp x).
      { intros x Hx. assert (E : lab comp x = root comp0 x) by (rewrite H by lia; destruct (Nat.ltb_spec x k); auto; lia). rewrite E. destruct (@root_props n comp0 x C0 ltac:(lia)) as (R1 & R2 & R3).
        rewrite H by auto. destruct (Nat.ltb_spec (root comp0 x) k); [now apply root_fix|auto]. }
      destruct (@sv_down_ok n comp k C Hk' Hk' FX) as (comp' & E & L' & H'). rewrite E. cbn [bind]. rewrite Nat.mod_small by lia. apply IHfuel; auto; [lia|].
      intros x Hx. rewrite H' by auto. destruct (Nat.eqb_spec x k) as [->|N].
      + destruct (Nat.ltb_spec k (k + 1)); [|lia].
        assert (RL : lab comp0 (root comp k) = root comp k).
        { destruct (@root_props n comp k C Hk') as (R1 & R2 & R3). rewrite H in R1 by auto. destruct (Nat.ltb_spec (root comp k) k) as [Q|Q]; auto. rewrite <- R1. now apply (root_props C0). }
        rewrite <- (@root_fix comp0 _ RL). assert (CL : forall j x, x < n -> root comp0 (climb j comp x) = root comp0 x).
        { induction j; intros y Hy; cbn [climb]; auto. assert (Q := proj2 C y Hy). rewrite IHj by lia. auto. }
        apply CL; auto.
      + rewrite H by auto. destruct (Nat.ltb_spec x k), (Nat.ltb_spec x (k + 1)); auto; lia. }
  apply H; auto. apply C0.
Qed.

Definition roots (comp : list nat) : nat := length (filter (fun x => lab comp x =? x) (seq 0 n)).
Lemma filter_len_le (A : Type) (p q : A -> bool) l : (forall x, In x l -> p x = true -> q x = true) -> length (filter p l) <= length (filter q l).
Proof.
  induction l as [|a l IH]; intros H; cbn [filter]; auto. assert (I := IH (fun x J => H x (or_intror J))). assert (Q := H a (or_introl eq_refl)).
  destruct (p a), (q a); cbn [length]; try lia; try now discriminate Q.
Qed.
Lemma filter_len_lt (A : Type) (p q : A -> bool) l a : (forall x, In x l -> p x = true -> q x = true) -> In a l -> p a = false -> q a = true -> length (filter p l) < length (filter q l).
Proof.
  intros H I Pa Qa. induction l as [|b l IH]; [destruct I|]. cbn [filter]. destruct I as [->|I].
  - rewrite Pa, Qa. cbn [length]. apply Nat.lt_succ_r, filter_len_le. intros x J. apply H. now right.
  - assert (X := IH (fun x J => H x (or_intror J)) I). assert (Q := H b (or_introl eq_refl)). destruct (p b), (q b); cbn [length]; try lia; try now discriminate Q.
Qed.
Lemma roots_pos comp : comp_ok n comp -> 0 < n -> 0 < roots comp.
Proof.
  intros C Hn. unfold roots. destruct n as [|m] eqn:E; [lia|]. rewrite <- E in *. rewrite E at 1. cbn [seq filter]. assert (Q := proj2 C 0 ltac:(lia)). destruct (Nat.eqb_spec (lab comp 0) 0); [cbn [length]; lia|lia].
Qed.
Lemma sv_loop_ok chunks sched : (forall e, In e G <-> In e (concat chunks)) -> forall iters i comp, lok comp -> flat comp -> roots comp <= iters ->
  exists comp', sv_loop iters W sched i chunks true comp = Ok comp' /\ lok comp' /\ forall a b, In (a, b) G -> lab comp' a = lab comp' b.
Proof.
  intros HCh. induction iters; intros i comp C FL HR.
  - exists comp. split; auto. split; auto. intros a b I. destruct (HG _ _ I) as [Ha _]. assert (X := @roots_pos comp (proj1 C) ltac:(lia)). lia.
  - cbn [sv_loop]. destruct (@sv_phase_ok comp C FL (sched i) chunks HCh) as (c1 & ch & E & C1 & K & SM & DF). rewrite E. cbn [bind fst snd].
    replace (length comp) with n by (symmetry; apply C).
    destruct (@sv_sweep_ok c1 (proj1 C1)) as (c2 & E2 & L2 & R2). rewrite E2. cbn [bind].
    assert (C2 : lok c2).
    { split; [split; auto; intros x Hx; rewrite R2 by auto; now apply (root_props (proj1 C1))|]. intros x Hx. rewrite R2 by auto.
      assert (Q : conn (cedges c1) x (root c1 x)) by (apply (climb_conn (proj1 C1)); auto). revert Q. apply conn_mono. intros a b I. apply in_cedges in I. destruct I as [I ->]. apply C1. destruct C1 as [[L1 _] _]. lia. }
    destruct ch.
    + destruct (DF eq_refl) as (x & Hx & X0 & X1). apply IHiters; auto.
      * intros y Hy. destruct (@root_props n c1 y (proj1 C1) Hy) as (R1 & R3 & R4). rewrite (R2 y Hy), R2 by auto. now apply root_fix.
      * enough (roots c2 < roots comp) by lia. unfold roots. apply filter_len_lt with x.
        -- intros y Iy. apply in_seq in Iy. rewrite !Nat.eqb_eq, R2 by lia. intros Q. destruct (@lok_get n G comp y C ltac:(lia)) as (_ & LE & _). destruct (Nat.eq_dec (lab comp y) y); auto.
           assert (Z := @K y ltac:(lia) ltac:(lia)). assert (Q2 := @root_props n c1 y (proj1 C1) ltac:(lia)). rewrite Q in Q2. lia.
        -- apply in_seq. lia.
        -- rewrite R2 by auto. apply Nat.eqb_neq. intros Q. assert (Q2 := @root_props n c1 x (proj1 C1) Hx). rewrite Q in Q2. lia.
        -- now apply Nat.eqb_eq.
    + destruct (SM eq_refl) as [-> AG]. assert (EQ : forall x, x < n -> lab c2 x = lab comp x).
      { intros x Hx. rewrite R2 by auto. rewrite <- (root_lab (proj1 C) Hx). apply root_fix. auto. }
      exists c2. split; [destruct iters; reflexivity|]. split; auto. intros a b I. destruct (HG _ _ I). rewrite !EQ by auto. auto.
Qed.
Lemma sv_run_ok chunks sched : (forall e, In e G <-> In e (concat chunks)) ->
  exists comp, sv_run W sched n chunks = Ok comp /\ length comp = n /\
    forall v, v < n -> conn G v (nth v comp v) /\ forall w, w < n -> conn G v w -> nth v comp v <= w.
Proof.
  intros HCh. unfold sv_run. replace (x_init W n) with (seq 0 n) by (unfold x_init; rewrite Nat.mod_small, Nat.sub_diag by auto; now rewrite app_nil_r). destruct (@sv_loop_ok chunks sched HCh n 0 (seq 0 n) (lok_seq n G)) as (comp & E & C & A).
  - intros x Hx. unfold lab. rewrite (@seq_nth n 0 x x Hx). cbn [plus]. rewrite (@seq_nth n 0 x x Hx). auto.
  - unfold roots. etransitivity; [apply filter_len_le with (q := fun _ => true); auto|]. rewrite <- (seq_length n 0) at 2. generalize (seq 0 n) as l. induction l; cbn [filter length]; lia.
  - exists comp. split; auto. split; [apply C|]. intros v Hv. split; [now apply C|]. intros w Hw Q.
    assert (EQ : lab comp v = lab comp w). { clear Hv Hw. induction Q; auto; congruence. }
    fold (lab comp v). rewrite EQ. now apply C.
Qed.
End Sv.

Lemma full_v1 W sched g : 0 < W -> length g = W -> cc_v1 W sched g = Ok (repeat 0 W).
Proof.
  intros H L. unfold cc_v1. rewrite L, full_init by auto. cbn [v1_passes]. unfold v1_pass, v1_tasks. rewrite L, Nat.mod_same by lia. cbn [seq map concat]. rewrite !run_all_nil. cbn [bind fst snd v1_passes].
  rewrite run_all_nil. reflexivity.
Qed.
(** With as many vertices as the id type has values the sweep does not end. *)
Lemma sv_sweep_endless fuel W comp k : length comp = W -> k < W -> forall c, sv_sweep fuel W comp k <> Ok c.
Proof.
  assert (D : forall f c x c', sv_down f c x = Ok c' -> length c' = length c).
  { induction f; intros c x c' E; cbn [sv_down] in E; [discriminate|]. destruct (vget c x) as [a| |]; cbn [bind] in E; try discriminate. destruct (vget c a) as [b| |]; cbn [bind] in E; try discriminate.
    destruct (a =? b); [congruence|]. destruct (vset c x b) as [c1| |] eqn:EV; cbn [bind] in E; try discriminate. apply IHf in E. rewrite E. unfold vset in EV. destruct (x <? length c); [injection EV as <-; apply upd_length|discriminate]. }
  revert comp k. induction fuel; intros comp k L Hk c; cbn [sv_sweep]; rewrite L; destruct (Nat.ltb_spec k W); try lia; try discriminate.
  destruct (sv_down W comp k) as [c'| |] eqn:E; cbn [bind]; try discriminate. apply IHfuel; [apply D in E; congruence|apply Nat.mod_upper_bound; lia].
Qed.
