(** Proofs about the experimental bfs variants (XbfsModel.v). *)
From Coq Require Import List Arith Lia Bool.
From Verif Require Import Base GraphLib Pool ParBfsModel BfsProofs ParBfsProofs XbfsModel.
Import ListNotations.
Set Implicit Arguments.

Lemma push_at_ok q b v : b < length q ->
  exists q', push_at q b v = Ok q' /\ length q' = length q /\ forall x, In x (concat q') <-> In x (concat q) \/ x = v.
Proof.
  intros H. unfold push_at. destruct (nth_error q b) as [l|] eqn:E; [|apply nth_error_None in E; lia].
  rewrite (proj2 (vget_Ok q _ l) E). cbn [bind]. rewrite vset_lt by auto. eexists. split; [reflexivity|]. split; [apply upd_length|].
  intros x. apply concat_upd; auto.
Qed.

(** * One top-down level *)
Inductive variant : Type := V689 | V7 | VTD | VBM | VCAS.
Definition body (r : variant) : list act :=
  match r with V689 => body_v689 | V7 => body_v7 | VTD => body_top_down | VBM => body_bitmap | VCAS => body_cas end.
Fixpoint tails (p : list act) : list (list act) := p :: match p with [] => [] | _ :: q => tails q end.

(** The program still has to decide whether it discovers its target. *)
Definition und (p : list act) : bool :=
  match p with (TestLevel | TestLess | CasLevel | TestBit | SetBit | TestPar | CasPar) :: _ => true | _ => false end.

Section Phase.
Variables (vmax : nat) (g : list (list nat)) (r : variant) (nl nb : nat) (bin : nat -> nat) (us par0 : list nat).
Hypothesis HT : targets_ok g.
Hypothesis HV : length g <= vmax.
Hypothesis HN : forall u v, In u us -> edge g u v -> nth v par0 vmax = vmax -> nl < vmax.
Hypothesis HU : forall u, In u us -> u < length g.
Hypothesis HB : forall u, In u us -> bin u < nb.

Definition vis0 (x : nat) : Prop := nth x par0 vmax <> vmax.
Definition flag (st : xst) (x : nat) : Prop :=
  match r with
  | V689 | V7 => nth x (x_level st) vmax <> vmax
  | VBM => nth x (x_bits st) false = true
  | _ => nth x (x_par st) vmax <> vmax
  end.
Definition has_par (st : xst) (x : nat) : Prop := nth x (x_par st) vmax <> vmax.
Definition queued (st : xst) (x : nat) : Prop := In x (concat (x_q st)).
Definition flag_act : act := match r with VTD | VCAS => SetPar | _ => SetLevel end.

Definition promise (f : Prop) (a : act) (x : nat) (ts : list xtask) : Prop :=
  f \/ exists t, In t ts /\ t_v t = x /\ und (t_prog t) = false /\ In a (t_prog t).
Definition full (ts : list xtask) (st : xst) (x : nat) : Prop :=
  promise (flag st x) flag_act x ts /\ promise (has_par st x) SetPar x ts /\ promise (queued st x) Push x ts.

Definition lens (st : xst) : Prop :=
  length (x_par st) = length g /\ length (x_q st) = nb /\
  match r with V689 | V7 => length (x_level st) = length g | VBM => length (x_bits st) = length g | _ => True end.
Definition lev_ok (st : xst) : Prop :=
  match r with V689 | V7 => forall x, x < length g -> nth x (x_level st) vmax = vmax \/ nth x (x_level st) vmax <= nl | _ => True end.
Definition task_ok (t : xtask) : Prop :=
  In (t_u t) us /\ edge g (t_u t) (t_v t) /\ In (t_prog t) (tails (body r)) /\
  (forall p, t_prog t = CasLevel :: p -> t_old t = vmax).

Record pinv (ts : list xtask) (st : xst) : Prop := {
  pv_lens : lens st;
  pv_lev : lev_ok st;
  pv_task : forall t, In t ts -> task_ok t /\ (und (t_prog t) = false -> ~ vis0 (t_v t) /\ full ts st (t_v t));
  pv_par : forall x, nth x (x_par st) vmax = nth x par0 vmax \/
                     (~ vis0 x /\ full ts st x /\ In (nth x (x_par st) vmax) us /\ edge g (nth x (x_par st) vmax) x);
  pv_q : forall x, queued st x -> ~ vis0 x /\ full ts st x;
  pv_flag : forall x, (flag st x -> vis0 x \/ full ts st x) /\ (x < length g -> vis0 x -> flag st x);
  pv_all : forall u v, In u us -> edge g u v -> vis0 v \/ full ts st v \/ exists t, In t ts /\ t_v t = v /\ und (t_prog t) = true
}.

(** What an action by the task t has to satisfy. *)
Definition follows (t : xtask) (o : option xtask) (st st' : xst) : Prop :=
  (forall x, flag st x -> flag st' x) /\ (forall x, has_par st x -> has_par st' x) /\ (forall x, queued st x -> queued st' x) /\
  (und (t_prog t) = false -> forall a f, (a = flag_act /\ f = flag st' (t_v t)) \/ (a = SetPar /\ f = has_par st' (t_v t)) \/ (a = Push /\ f = queued st' (t_v t)) ->
     In a (t_prog t) -> f \/ exists t', o = Some t' /\ t_v t' = t_v t /\ und (t_prog t') = false /\ In a (t_prog t')).

Lemma promise_keep l1 t o l2 (f f' : Prop) a x : (f -> f') ->
  (und (t_prog t) = false -> t_v t = x -> In a (t_prog t) -> f' \/ exists t', o = Some t' /\ t_v t' = t_v t /\ und (t_prog t') = false /\ In a (t_prog t')) ->
  promise f a x (l1 ++ t :: l2) -> promise f' a x (l1 ++ opt_list o ++ l2).
Proof.
  intros M K [F|(t0 & I & V & U & A)]; [left; auto|]. destruct (in_mid_inv l1 t (opt_list o) l2 t0 I) as [->|J].
  - destruct (K U V A) as [F|(t' & -> & V' & U' & A')]; [left; auto|]. right. exists t'. split; [apply in_mid_new; simpl; auto|]. split; [congruence|auto].
  - right. exists t0. auto.
Qed.
Lemma full_keep l1 t o l2 st st' x : follows t o st st' -> full (l1 ++ t :: l2) st x -> full (l1 ++ opt_list o ++ l2) st' x.
Proof.
  intros (A & B & C & D) (F1 & F2 & F3). split; [|split].
  - eapply promise_keep; [apply A| |exact F1]. intros U V I. subst x. apply D; auto.
  - eapply promise_keep; [apply B| |exact F2]. intros U V I. subst x. apply D; auto.
  - eapply promise_keep; [apply C| |exact F3]. intros U V I. subst x. apply D; auto.
Qed.

Lemma step_gen l1 t o l2 st st' : pinv (l1 ++ t :: l2) st -> follows t o st st' -> lens st' -> lev_ok st' ->
  let ts' := l1 ++ opt_list o ++ l2 in
  (st' = st \/ (~ vis0 (t_v t) /\ full ts' st' (t_v t) /\
     (forall x, x <> t_v t -> nth x (x_par st') vmax = nth x (x_par st) vmax) /\
     (nth (t_v t) (x_par st') vmax = nth (t_v t) (x_par st) vmax \/ nth (t_v t) (x_par st') vmax = t_u t) /\
     (forall x, queued st' x -> queued st x \/ x = t_v t) /\ (forall x, flag st' x -> flag st x \/ x = t_v t))) ->
  (forall t', o = Some t' -> t_v t' = t_v t /\ task_ok t' /\ (und (t_prog t') = false -> ~ vis0 (t_v t) /\ full ts' st' (t_v t))) ->
  (und (t_prog t) = true -> vis0 (t_v t) \/ full ts' st' (t_v t) \/ exists t', o = Some t' /\ und (t_prog t') = true) ->
  pinv ts' st'.
Proof.
  intros I FO L LV ts' CH TO UN. assert (K : forall x, full (l1 ++ t :: l2) st x -> full ts' st' x) by (intros x; now apply full_keep).
  assert (IT : In t (l1 ++ t :: l2)) by (apply in_or_app; simpl; auto).
  destruct (proj1 (pv_task I t IT)) as (TU & TE & _ & _).
  constructor; auto.
  - intros t' J. destruct (in_mid l1 t (opt_list o) l2 t' J) as [J'|J'].
    + destruct o as [t0|]; [|destruct J']. destruct J' as [->|[]]. destruct (TO t' eq_refl) as (V & A & B). split; auto. intros U. rewrite V. auto.
    + destruct (pv_task I t' J') as (A & B). split; [exact A|]. intros U. destruct (B U). auto.
  - intros x. destruct CH as [->|(NV & FU & P1 & P2 & _ & _)].
    + destruct (pv_par I x) as [E|(A & B & C & D)]; [auto|right; auto].
    + destruct (Nat.eq_dec x (t_v t)) as [->|NE].
      * destruct P2 as [E|E]; rewrite E.
        { destruct (pv_par I (t_v t)) as [E'|(A & B & C & D)]; [left; congruence|right; auto]. }
        { right. auto. }
      * rewrite P1 by auto. destruct (pv_par I x) as [E|(A & B & C & D)]; [auto|right; auto].
  - intros x Q. destruct CH as [->|(NV & FU & _ & _ & Q' & _)].
    + destruct (pv_q I x Q). auto.
    + destruct (Q' x Q) as [J| ->]; auto. destruct (pv_q I x J). auto.
  - intros x. destruct (pv_flag I x) as [F1 F2]. split.
    + intros F. destruct CH as [->|(NV & FU & _ & _ & _ & FL)]; [destruct (F1 F); auto|]. destruct (FL x F) as [J| ->]; auto. destruct (F1 J); auto.
    + intros Hx V. apply (proj1 FO). auto.
  - intros u v Iu E. destruct (pv_all I u v Iu E) as [V|[F|(t0 & J & V & U)]]; auto.
    destruct (in_mid_inv l1 t (opt_list o) l2 t0 J) as [->|J'].
    + subst v. destruct (UN U) as [A|[A|(t' & -> & U')]]; auto. right. right. exists t'. destruct (TO t' eq_refl) as (V & _). split; [apply in_mid_new; simpl; auto|auto].
    + right. right. eauto.
Qed.

Ltac same_state := split; [auto|split; [auto|split; [auto|]]].

(** A decided test that ends the task. *)
Lemma step_stop l1 t l2 st : pinv (l1 ++ t :: l2) st -> und (t_prog t) = true -> flag st (t_v t) -> pinv (l1 ++ opt_list None ++ l2) st.
Proof.
  intros I U F. assert (FO : follows t None st st) by (same_state; congruence).
  apply step_gen with (t := t) (st := st); auto; [apply I|apply I|intros t' E; discriminate|].
  intros _. destruct (proj1 (pv_flag I (t_v t)) F) as [V|V]; auto. right. left. now apply (@full_keep l1 t None l2 st st (t_v t) FO).
Qed.
(** A test that leads to another test. *)
Lemma step_on l1 t l2 st t' : pinv (l1 ++ t :: l2) st -> und (t_prog t) = true -> und (t_prog t') = true -> t_v t' = t_v t -> task_ok t' ->
  pinv (l1 ++ opt_list (Some t') ++ l2) st.
Proof.
  intros I U U' V T. assert (FO : follows t (Some t') st st) by (same_state; congruence).
  apply step_gen with (t := t) (st := st); auto; [apply I|apply I| |].
  - intros t0 E. injection E as <-. split; auto. split; auto. congruence.
  - intros _. right. right. eauto.
Qed.
(** The test that discovers the target. *)
Lemma step_win l1 t l2 st st' t' : pinv (l1 ++ t :: l2) st -> und (t_prog t) = true -> und (t_prog t') = false -> t_v t' = t_v t -> task_ok t' ->
  ~ flag st (t_v t) -> lens st' -> lev_ok st' -> x_q st' = x_q st ->
  (flag st' (t_v t) \/ In flag_act (t_prog t')) -> (has_par st' (t_v t) \/ In SetPar (t_prog t')) -> In Push (t_prog t') ->
  (forall x, x <> t_v t -> nth x (x_par st') vmax = nth x (x_par st) vmax) ->
  (nth (t_v t) (x_par st') vmax = nth (t_v t) (x_par st) vmax \/ nth (t_v t) (x_par st') vmax = t_u t) ->
  (forall x, flag st' x -> flag st x \/ x = t_v t) -> (forall x, x <> t_v t -> flag st x -> flag st' x) ->
  pinv (l1 ++ opt_list (Some t') ++ l2) st'.
Proof.
  intros I U U' V T NF L LV Q K1 K2 K3 P1 P2 F1 F2.
  assert (IT : In t (l1 ++ t :: l2)) by (apply in_or_app; simpl; auto).
  destruct (proj1 (pv_task I t IT)) as (TU & TE & _ & _). assert (Hv := HT _ _ TE). assert (Hu := HU _ TU).
  assert (FO : follows t (Some t') st st').
  { split; [|split; [|split]].
    - intros x F. apply F2; auto. congruence.
    - intros x F. unfold has_par in *. destruct (Nat.eq_dec x (t_v t)) as [->|NE]; [|now rewrite P1]. destruct P2 as [->| ->]; [auto|lia].
    - unfold queued. now rewrite Q.
    - congruence. }
  assert (NV : ~ vis0 (t_v t)) by (intros W; now apply NF, (proj2 (pv_flag I (t_v t)))).
  assert (FU : full (l1 ++ opt_list (Some t') ++ l2) st' (t_v t)).
  { assert (J : In t' (l1 ++ opt_list (Some t') ++ l2)) by (apply in_mid_new; simpl; auto).
    split; [|split].
    - destruct K1; [left; auto|right; exists t'; auto].
    - destruct K2; [left; auto|right; exists t'; auto].
    - right. exists t'. auto. }
  apply step_gen with (t := t) (st := st); auto.
  - right. repeat (split; [assumption|]). split; auto. unfold queued. rewrite Q. auto.
  - intros t0 E. injection E as <-. auto.
Qed.
(** An action of a task that has discovered its target. *)
Lemma step_act l1 t l2 st st' t' : pinv (l1 ++ t :: l2) st -> und (t_prog t) = false -> und (t_prog t') = false -> t_v t' = t_v t -> task_ok t' ->
  lens st' -> lev_ok st' ->
  (forall x, x <> t_v t -> nth x (x_par st') vmax = nth x (x_par st) vmax) ->
  (nth (t_v t) (x_par st') vmax = nth (t_v t) (x_par st) vmax \/ nth (t_v t) (x_par st') vmax = t_u t) ->
  (forall x, flag st' x -> flag st x \/ x = t_v t) -> (forall x, flag st x -> flag st' x) ->
  (forall x, queued st' x -> queued st x \/ x = t_v t) -> (forall x, queued st x -> queued st' x) ->
  (In flag_act (t_prog t) -> flag st' (t_v t) \/ In flag_act (t_prog t')) ->
  (In SetPar (t_prog t) -> has_par st' (t_v t) \/ In SetPar (t_prog t')) ->
  (In Push (t_prog t) -> queued st' (t_v t) \/ In Push (t_prog t')) ->
  pinv (l1 ++ opt_list (Some t') ++ l2) st'.
Proof.
  intros I U U' V T L LV P1 P2 F1 F2 Q1 Q2 K1 K2 K3.
  assert (IT : In t (l1 ++ t :: l2)) by (apply in_or_app; simpl; auto).
  destruct (pv_task I t IT) as ((TU & TE & _ & _) & X). destruct (X U) as (NV & FU). clear X. assert (Hv := HT _ _ TE). assert (Hu := HU _ TU).
  assert (FO : follows t (Some t') st st').
  { split; [auto|split; [|split; [auto|]]].
    - intros x F. unfold has_par in *. destruct (Nat.eq_dec x (t_v t)) as [->|NE]; [|now rewrite P1]. destruct P2 as [->| ->]; [auto|lia].
    - intros _ a f H A. destruct H as [(-> & ->)|[(-> & ->)|(-> & ->)]].
      + destruct (K1 A); auto. right. exists t'. auto.
      + destruct (K2 A); auto. right. exists t'. auto.
      + destruct (K3 A); auto. right. exists t'. auto. }
  assert (FU' := @full_keep l1 t (Some t') l2 st st' (t_v t) FO FU).
  apply step_gen with (t := t) (st := st); auto.
  - right. repeat (split; [assumption|]). assumption.
  - intros t0 E. injection E as <-. auto.
Qed.
Lemma step_end l1 t l2 st : pinv (l1 ++ t :: l2) st -> t_prog t = [] -> pinv (l1 ++ opt_list None ++ l2) st.
Proof.
  intros I U. assert (FO : follows t None st st) by (same_state; intros _ a f _ A; rewrite U in A; destruct A).
  apply step_gen with (t := t) (st := st); auto; [apply I|apply I|intros t' E; discriminate|]. rewrite U. discriminate.
Qed.

Lemma upd_id (A : Type) (l : list A) : forall i x d, i < length l -> nth i l d = x -> upd l i x = l.
Proof. induction l as [|a l IH]; intros [|i] x d H E; simpl in *; try lia; [now subst|]. f_equal. apply IH with d; auto. lia. Qed.
Lemma nth_upd' (A : Type) (l : list A) i x j d : i < length l -> nth j (upd l i x) d = if j =? i then x else nth j l d.
Proof. intros H. destruct (Nat.eqb_spec j i) as [->|N]; [now apply nth_upd_eq|now apply nth_upd_neq; auto]. Qed.

Ltac side_cbn R := unfold flag, has_par, queued, lens, flag_act, lev_ok; rewrite ?R; cbn [x_level x_bits x_par x_q x_count t_prog t_v t_u].
Ltac side R TK := first [reflexivity | apply TK; [simpl; tauto|intros ? X; discriminate X] | side_cbn R; simpl; auto; fail | side_cbn R; simpl; tauto].
Ltac rw_hyps E := repeat match goal with H : _ |- _ => lazymatch type of H with (forall _, _) => fail | _ => rewrite E in H end end.
Ltac side2 R TK PAR HQ LVL := first [reflexivity | apply TK; [simpl; tauto|intros ? X; discriminate X] |
  side_cbn R; intros; rewrite ?PAR, ?LVL, ?HQ, ?upd_length; rw_hyps PAR; rw_hyps LVL; rw_hyps HQ;
  repeat (match goal with |- context [?a =? ?b] => destruct (Nat.eqb_spec a b) | H : context [?a =? ?b] |- _ => destruct (Nat.eqb_spec a b) end; subst; try congruence);
  try (repeat split; lia); simpl in *; auto; try tauto; try lia; try (intuition (auto; try congruence; try lia)); fail].
Lemma xstep_ok l1 t l2 st : pinv (l1 ++ t :: l2) st ->
  exists o st', xstep vmax nl g bin t st = Ok (o, st') /\ pinv (l1 ++ opt_list o ++ l2) st' /\
    match o with Some t' => xsize t' < xsize t | None => True end.
Proof.
  intros I. assert (IT : In t (l1 ++ t :: l2)) by (apply in_or_app; simpl; auto).
  destruct (proj1 (pv_task I t IT)) as (TU & TE & TP & TO). assert (Hv := HT _ _ TE). assert (Hu := HU _ TU). assert (Hb := HB _ TU).
  assert (HN1 : und (t_prog t) = false -> nl < vmax).
  { intros U. destruct (pv_task I t IT) as (_ & X). destruct (X U) as (NV & _). unfold vis0 in NV. apply (@HN _ _ TU TE). lia. }
  assert (HN2 : flag st (t_v t) \/ nl < vmax).
  { destruct (Nat.eq_dec (nth (t_v t) par0 vmax) vmax) as [Z|Z]; [right; now apply (@HN _ _ TU TE)|left; now apply (proj2 (pv_flag I (t_v t)))]. }
  destruct st as [level bits par q count]. destruct t as [u v old prog]. cbn [t_u t_v t_prog t_old] in *.
  assert (L := pv_lens I). assert (LV := pv_lev I). destruct L as (LP & LQ & LC). cbn [x_par x_q x_level x_bits] in *.
  assert (STOP : und prog = true -> flag (Xst level bits par q count) v -> pinv (l1 ++ opt_list None ++ l2) (Xst level bits par q count)).
  { intros. eapply step_stop; eauto. }
  destruct (@push_at_ok q (bin u) v) as (q' & EQ & LQ' & HQ); [lia|].
  assert (NU : u <> vmax) by lia.
  assert (TK : forall p, In p (tails (body r)) -> (forall p', p = CasLevel :: p' -> old = vmax) -> task_ok (Xt u v old p)).
  { intros p A B. repeat split; auto. }
  assert (PAR : forall x, nth x (upd par v u) vmax = if x =? v then u else nth x par vmax) by (intros x; apply nth_upd'; lia).
  assert (FIN : exists o st', prog = [] -> xstep vmax nl g bin (Xt u v old []) (Xst level bits par q count) = Ok (o, st') /\
    pinv (l1 ++ opt_list o ++ l2) st' /\ match o with Some t' => xsize t' < 0 | None => True end).
  { exists None, (Xst level bits par q count). intros E. split; auto. split; auto. eapply step_end; eauto. }
  assert (R : r = V689 \/ r = V7 \/ r = VTD \/ r = VBM \/ r = VCAS) by (destruct r; auto 6).
  unfold lev_ok in LV. cbn [x_level] in LV.
  destruct R as [R|[R|[R|[R|R]]]]; rewrite R in *; cbn [body body_v689 body_v7 body_top_down body_bitmap body_cas tails] in TP, TK.
  - (* v6, v8, v9 *)
    assert (LVL : forall x, nth x (upd level v nl) vmax = if x =? v then nl else nth x level vmax) by (intros x; apply nth_upd'; lia).
    destruct TP as [<-|[<-|[<-|[<-|[<-|[]]]]]]; cbn [xstep].
    + rewrite (@vget_nth _ level v vmax) by lia. cbn [bind]. destruct (Nat.eqb_spec (nth v level vmax) vmax) as [E|E].
      * eexists _, _. split; [reflexivity|]. split; [eapply step_win; eauto; side R TK|simpl; auto].
      * eexists None, _. split; [reflexivity|]. split; auto. apply STOP; side R TK.
    + rewrite EQ. cbn [bind]. eexists _, _. split; [reflexivity|]. split; [eapply step_act; eauto; side2 R TK PAR HQ LVL|simpl; auto].
    + specialize (HN1 eq_refl). rewrite vset_lt by lia. cbn [bind]. eexists _, _. split; [reflexivity|]. split; [eapply step_act; eauto; side2 R TK PAR HQ LVL|simpl; auto].
    + rewrite vset_lt by lia. cbn [bind]. eexists _, _. split; [reflexivity|]. split; [eapply step_act; eauto; side2 R TK PAR HQ LVL|simpl; auto].
    + destruct FIN as (o & st' & F). exists o, st'. apply F. auto.
  - (* v7 *)
    assert (LVL : forall x, nth x (upd level v nl) vmax = if x =? v then nl else nth x level vmax) by (intros x; apply nth_upd'; lia).
    destruct TP as [<-|[<-|[<-|[<-|[<-|[]]]]]]; cbn [xstep].
    + rewrite (@vget_nth _ level v vmax) by lia. cbn [bind]. destruct (Nat.ltb_spec nl (nth v level vmax)) as [E|E].
      * eexists _, _. split; [reflexivity|]. split; [|simpl; auto]. eapply step_on; eauto.
        split; [exact TU|]. split; [exact TE|]. split; [rewrite R; simpl; auto|]. intros p _. cbn [t_old]. destruct (LV v Hv); auto. lia.
      * eexists None, _. split; [reflexivity|]. split; auto. apply STOP; auto. destruct HN2 as [|H2]; auto. side_cbn R. lia.
    + assert (old = vmax) by (eapply TO; eauto). subst old. rewrite (@vget_nth _ level v vmax) by lia. cbn [bind].
      destruct (Nat.eqb_spec (nth v level vmax) vmax) as [E|E].
      * assert (nl < vmax) by (destruct HN2 as [F|]; auto; revert F; side_cbn R; contradiction).
        rewrite vset_lt by lia. cbn [bind]. eexists _, _. split; [reflexivity|]. split; [eapply step_win; eauto; side2 R TK PAR HQ LVL|simpl; auto].
      * destruct (LV v Hv) as [E'|E']; [contradiction|]. apply Nat.leb_le in E'. rewrite E'.
        eexists None, _. split; [reflexivity|]. split; auto. apply STOP; side R TK.
    + rewrite EQ. cbn [bind]. eexists _, _. split; [reflexivity|]. split; [eapply step_act; eauto; side2 R TK PAR HQ LVL|simpl; auto].
    + rewrite vset_lt by lia. cbn [bind]. eexists _, _. split; [reflexivity|]. split; [eapply step_act; eauto; side2 R TK PAR HQ LVL|simpl; auto].
    + destruct FIN as (o & st' & F). exists o, st'. apply F. auto.
  - (* top_down *)
    destruct TP as [<-|[<-|[<-|[<-|[]]]]]; cbn [xstep].
    + rewrite (@vget_nth _ par v vmax) by lia. cbn [bind]. destruct (Nat.eqb_spec (nth v par vmax) vmax) as [E|E].
      * eexists _, _. split; [reflexivity|]. split; [eapply step_win; eauto; side R TK|simpl; auto].
      * eexists None, _. split; [reflexivity|]. split; auto. apply STOP; side R TK.
    + rewrite vset_lt by lia. cbn [bind]. eexists _, _. split; [reflexivity|]. split; [eapply step_act; eauto; side2 R TK PAR HQ PAR|simpl; auto].
    + rewrite EQ. cbn [bind]. eexists _, _. split; [reflexivity|]. split; [eapply step_act; eauto; side2 R TK PAR HQ PAR|simpl; auto].
    + destruct FIN as (o & st' & F). exists o, st'. apply F. auto.
  - (* bitmap *)
    assert (BIT : forall x, nth x (upd bits v true) false = if x =? v then true else nth x bits false) by (intros x; apply nth_upd'; lia).
    destruct TP as [<-|[<-|[<-|[<-|[<-|[]]]]]]; cbn [xstep].
    + rewrite (@vget_nth _ bits v false) by lia. cbn [bind]. destruct (nth v bits false) eqn:E; cbn [negb].
      * eexists None, _. split; [reflexivity|]. split; auto. apply STOP; side R TK.
      * eexists _, _. split; [reflexivity|]. split; [|simpl; auto]. eapply step_on; eauto. side R TK.
    + rewrite (@vget_nth _ bits v false) by lia. cbn [bind]. rewrite vset_lt by lia. cbn [bind]. destruct (nth v bits false) eqn:E; cbn [negb].
      * eexists None, _. split; [reflexivity|]. split; auto.
        rewrite (@upd_id _ bits v true false) by (auto; lia). apply STOP; side R TK.
      * eexists _, _. split; [reflexivity|]. split; [eapply step_win; eauto; side2 R TK PAR HQ BIT|simpl; auto].
    + rewrite vset_lt by lia. cbn [bind]. eexists _, _. split; [reflexivity|]. split; [eapply step_act; eauto; side2 R TK PAR HQ BIT|simpl; auto].
    + rewrite EQ. cbn [bind]. eexists _, _. split; [reflexivity|]. split; [eapply step_act; eauto; side2 R TK PAR HQ BIT|simpl; auto].
    + destruct FIN as (o & st' & F). exists o, st'. apply F. auto.
  - (* cas *)
    destruct TP as [<-|[<-|[<-|[<-|[<-|[]]]]]]; cbn [xstep].
    + rewrite (@vget_nth _ par v vmax) by lia. cbn [bind]. destruct (Nat.eqb_spec (nth v par vmax) vmax) as [E|E].
      * eexists _, _. split; [reflexivity|]. split; [|simpl; auto]. eapply step_on; eauto. side R TK.
      * eexists None, _. split; [reflexivity|]. split; auto. apply STOP; side R TK.
    + rewrite (@vget_nth _ par v vmax) by lia. cbn [bind]. destruct (Nat.eqb_spec (nth v par vmax) vmax) as [E|E].
      * rewrite vset_lt by lia. cbn [bind]. eexists _, _. split; [reflexivity|]. split; [eapply step_win; eauto; side2 R TK PAR HQ PAR|simpl; auto].
      * eexists None, _. split; [reflexivity|]. split; auto. apply STOP; side R TK.
    + rewrite EQ. cbn [bind]. eexists _, _. split; [reflexivity|]. split; [eapply step_act; eauto; side2 R TK PAR HQ PAR|simpl; auto].
    + rewrite (@vget_nth _ g v []) by auto. cbn [bind]. eexists _, _. split; [reflexivity|]. split; [eapply step_act; eauto; side2 R TK PAR HQ PAR|simpl; auto].
    + destruct FIN as (o & st' & F). exists o, st'. apply F. auto.
Qed.

Lemma rows_ok : forall l, (forall u, In u l -> u < length g) ->
  rmap (fun u => do row <- vget g u ; Ok (map (fun v => Xt u v 0 (body r)) row)) l = Ok (map (fun u => map (fun v => Xt u v 0 (body r)) (nth u g [])) l).
Proof.
  induction l as [|u l IH]; intros H; auto. cbn [rmap map]. rewrite (@vget_nth _ g u []) by (apply H; simpl; auto). cbn [bind].
  rewrite IH by (intros; apply H; simpl; auto). reflexivity.
Qed.

(** One level of any of the top-down variants: the new vertices are exactly the unvisited targets of the frontier. *)
Lemma xphase_ok sched level bits q2 : length par0 = length g -> length q2 = nb -> concat q2 = [] ->
  (match r with V689 | V7 => length level = length g | VBM => length bits = length g | _ => True end) ->
  (match r with V689 | V7 => forall x, x < length g -> nth x level vmax = vmax \/ nth x level vmax <= nl | _ => True end) ->
  (forall x, flag (Xst level bits par0 q2 0) x <-> vis0 x) ->
  exists st new, xphase vmax nl g bin (body r) sched us level bits par0 q2 = Ok st /\ lens st /\ lev_ok st /\
    expanded g (fun u => In u us) vis0 new /\
    (forall v, ~ In v (map snd new) -> nth v (x_par st) vmax = nth v par0 vmax) /\
    (forall u v, In (u, v) new -> nth v (x_par st) vmax = u) /\
    (forall v, In v (concat (x_q st)) <-> In v (map snd new)) /\ (forall x, flag st x <-> vis0 x \/ In x (map snd new)).
Proof.
  intros LP LQ EQ LC LL FL. unfold xphase. rewrite rows_ok by auto. cbn [bind].
  set (ts := concat (map (fun u => map (fun v => Xt u v 0 (body r)) (nth u g [])) us)).
  assert (TS : forall t, In t ts <-> In (t_u t) us /\ edge g (t_u t) (t_v t) /\ t_old t = 0 /\ t_prog t = body r).
  { intros t. unfold ts. rewrite in_concat. split.
    - intros (l & I & J). apply in_map_iff in I. destruct I as (u & <- & I). apply in_map_iff in J. destruct J as (v & <- & J). simpl. auto.
    - intros (A & B & C & D). exists (map (fun v => Xt (t_u t) v 0 (body r)) (nth (t_u t) g [])). split; [apply in_map_iff; eauto|].
      apply in_map_iff. exists (t_v t). split; auto. destruct t; simpl in *. subst. reflexivity. }
  assert (UB : und (body r) = true) by (destruct r; reflexivity).
  assert (IN : pinv ts (Xst level bits par0 q2 0)).
  { constructor.
    - repeat split; auto.
    - exact LL.
    - intros t I. apply TS in I. destruct I as (A & B & C & D). split; [|rewrite D; congruence]. split; auto. split; auto. split.
      + rewrite D. destruct r; simpl; auto.
      + intros p E. rewrite D in E. destruct r; discriminate E.
    - intros x. left. reflexivity.
    - intros x Q. unfold queued in Q. cbn [x_q] in Q. rewrite EQ in Q. destruct Q.
    - intros x. split; [intros F; left; now apply FL|intros _ V; now apply FL].
    - intros u v A B. right. right. exists (Xt u v 0 (body r)). split; [apply TS; simpl; auto|auto]. }
  destruct (@run_all_inv _ _ xsize (xstep vmax nl g bin) pinv xstep_ok sched ts _ IN) as (st & E & I). rewrite E.
  assert (FU : forall x, full [] st x -> flag st x /\ has_par st x /\ queued st x).
  { intros x (A & B & C). destruct A as [A|(t & [] & _)], B as [B|(t & [] & _)], C as [C|(t & [] & _)]. auto. }
  set (new := map (fun x => (nth x (x_par st) vmax, x)) (filter (fun x => (nth x par0 vmax =? vmax) && negb (nth x (x_par st) vmax =? vmax)) (seq 0 (length g)))).
  assert (SN : map snd new = filter (fun x => (nth x par0 vmax =? vmax) && negb (nth x (x_par st) vmax =? vmax)) (seq 0 (length g))).
  { unfold new. rewrite map_map. simpl. apply map_id. }
  assert (IS : forall x, In x (map snd new) <-> ~ vis0 x /\ has_par st x).
  { intros x. rewrite SN, filter_In, in_seq, andb_true_iff, negb_true_iff, Nat.eqb_eq, Nat.eqb_neq. unfold vis0, has_par. split; [lia|].
    intros (A & B). assert (x < length g); [|lia]. destruct (Nat.lt_ge_cases x (length g)) as [|G]; auto. exfalso. apply B. apply nth_overflow.
    destruct (pv_lens I) as (X & _). lia. }
  exists st, new. split; auto. split; [apply I|]. split; [apply I|]. split; [|split; [|split; [|split]]].
  - constructor.
    + rewrite SN. apply NoDup_filter, seq_NoDup.
    + intros u v J. assert (Jv : In v (map snd new)) by (apply in_map_iff; exists (u, v); auto). apply IS in Jv. destruct Jv as (NV & HP).
      unfold new in J. apply in_map_iff in J. destruct J as (x & X & _). injection X as <- <-.
      destruct (pv_par I x) as [P|(_ & _ & A & B)]; auto. exfalso. unfold vis0, has_par in *. rewrite P in HP. auto.
    + intros u v A B. destruct (pv_all I u v A B) as [V|[F|(t & [] & _)]]; auto. apply FU in F. destruct F as (F1 & F2 & F3).
      destruct (Nat.eq_dec (nth v par0 vmax) vmax) as [Z|Z]; [|now left]. right. apply IS. split; [intros W; now apply W|assumption].
  - intros v N. destruct (pv_par I v) as [P|(A & F & _)]; auto. exfalso. apply N, IS. split; auto. now apply FU in F.
  - intros u v J. unfold new in J. apply in_map_iff in J. destruct J as (x & X & _). injection X as <- <-. reflexivity.
  - intros v. rewrite IS. split.
    + intros Q. destruct (pv_q I v Q) as (A & F). split; auto. now apply FU in F.
    + intros (A & B). destruct (pv_par I v) as [P|(_ & F & _)]; [exfalso; unfold vis0, has_par in *; rewrite P in B; auto|]. now apply FU in F.
  - intros x. rewrite IS. destruct (pv_flag I x) as [F1 F2]. split.
    + intros F. destruct (Nat.eq_dec (nth x par0 vmax) vmax) as [Z|Z]; [|now left]. right. destruct (F1 F) as [V|V]; [unfold vis0 in V; contradiction|].
      split; [unfold vis0; auto|]. now apply FU in V.
    + intros [V|(A & B)].
      * apply F2; auto. destruct (Nat.lt_ge_cases x (length g)) as [|G]; auto. exfalso. apply V. apply nth_overflow. lia.
      * destruct (pv_par I x) as [P|(_ & F & _)]; [exfalso; unfold vis0, has_par in *; rewrite P in B; auto|]. now apply FU in F.
Qed.
End Phase.

(** * The level loops *)
Section Run.
Variables (vmax : nat) (g : list (list nat)) (s : nat).
Hypothesis HT : targets_ok g.
Hypothesis HS : s < length g.
Hypothesis HV : length g <= vmax.

Definition lev_len (r : variant) (level : list nat) (bits : list bool) : Prop :=
  match r with V689 | V7 => length level = length g | VBM => length bits = length g | _ => True end.
Definition lev_small (r : variant) (nl : nat) (level : list nat) : Prop :=
  match r with V689 | V7 => forall x, x < length g -> nth x level vmax = vmax \/ nth x level vmax <= nl | _ => True end.
Definition flag_of (r : variant) (level : list nat) (bits : list bool) (par : list nat) (x : nat) : Prop :=
  flag vmax r (Xst level bits par [] 0) x.

(** The state before expanding level k. *)
Record before (r : variant) (k : nat) (us level : list nat) (bits : list bool) (par : list nat) : Prop := {
  be_us : forall u, In u us <-> dist g s u k;
  be_len : lev_len r level bits;
  be_small : lev_small r k level;
  be_flag : forall x, flag_of r level bits par x <-> nth x par vmax <> vmax;
  be_tree : tree_upto g s vmax k par
}.

Lemma phase_next r bin sched k nl us level bits par q2 : before r k us level bits par -> nl <= S k -> (r = V689 \/ r = V7 -> nl = S k) -> concat q2 = [] ->
  (forall u, In u us -> bin u < length q2) ->
  exists st, xphase vmax nl g bin (body r) sched us level bits par q2 = Ok st /\ length (x_q st) = length q2 /\
    before r (S k) (concat (x_q st)) (x_level st) (x_bits st) (x_par st).
Proof.
  intros [BU BL BS BF BT] NK NL EQ HB.
  assert (HN : forall u v, In u us -> edge g u v -> nth v par vmax = vmax -> nl < vmax).
  { intros u v I E N. assert (D : dist g s v (S k)).
    { apply BU in I. apply dist_S. split; [|eauto]. intros W. apply (@tree_marked vmax g s HS HV k par v BT) in W; auto. now apply (HT _ _ E). }
    assert (X := level_bound HT HS HV D). lia. }
  assert (HU : forall u, In u us -> u < length g) by (intros u I; apply BU in I; exact (dist_lt HT HS I)).
  assert (LL : match r with V689 | V7 => forall x, x < length g -> nth x level vmax = vmax \/ nth x level vmax <= nl | _ => True end).
  { unfold lev_small in BS. destruct r; auto; intros x Hx; rewrite NL by auto; destruct (BS x Hx); auto. }
  assert (FL : forall x, flag vmax r (Xst level bits par q2 0) x <-> vis0 vmax par x).
  { intros x. assert (X := BF x). unfold flag_of, flag in *. destruct r; exact X. }
  destruct (@xphase_ok vmax g r nl (length q2) bin us par HT HV HN HU HB sched level bits q2 (proj1 BT) eq_refl EQ BL LL FL)
    as (st & new & E & L & LV & EX & P1 & P2 & Q & F).
  - exists st. split; auto. destruct L as (L1 & L2 & L3). split; auto. unfold vis0 in EX. apply (@expanded_marked vmax g s HT HS HV k par _ _ BT) in EX.
    assert (NLV := expanded_level (fun v => iff_refl _) BU EX). constructor.
    + intros u. rewrite Q. apply NLV.
    + exact L3.
    + unfold lev_small, lev_ok in *. destruct r; auto; intros x Hx; rewrite NL in LV by auto; auto.
    + intros x. assert (X : nth x (x_par st) vmax <> vmax <-> vis0 vmax par x \/ In x (map snd new)).
      { unfold vis0. destruct (in_dec Nat.eq_dec x (map snd new)) as [I|I].
        - split; auto. intros _. apply in_map_iff in I. destruct I as ([u x'] & X & I). simpl in X. subst x'. rewrite (P2 u x I).
          destruct (exp_new EX u x I) as (U & _). apply BU in U. apply (dist_lt HT HS) in U. lia.
        - rewrite P1 by auto. tauto. }
      rewrite X, <- F. unfold flag_of, flag. destruct r; reflexivity.
    + apply tree_upto_step with (par := par) (F := fun u => In u us) (vis := within g s k) (new := new); auto; try (intros; apply iff_refl).
      split; [|auto]. rewrite L1. symmetry. apply BT.
Qed.

Lemma before_done r k us level bits par : before r k us level bits par -> us = [] -> is_bfs_tree g s vmax par.
Proof.
  intros B ->. apply tree_upto_final with k; auto; [apply B|]. intros v D. apply dist_S in D. destruct D as (_ & u & D & _). now apply (be_us B) in D.
Qed.

Lemma xwhile_ok r sched fuel : r = V689 \/ r = V7 -> forall k ph q1 level par, before r k q1 level [] par -> k <= length g -> length g < fuel + k ->
  exists p, xwhile fuel vmax (S k) g (body r) sched ph q1 level par = Ok p /\ is_bfs_tree g s vmax p.
Proof.
  intros R. induction fuel; intros k ph q1 level par B HK HF; [lia|]. cbn [xwhile].
  destruct q1 as [|u q0] eqn:EQ; [exists par; split; auto; eapply before_done; eauto|]. rewrite <- EQ in *.
  assert (D : dist g s u k) by (apply (be_us B); subst; simpl; auto). assert (KB := level_bound HT HS HV D).
  rewrite Nat.mod_small by lia.
  destruct (@phase_next r (fun _ => 0) (sched ph) k (S k) q1 level [] par [[]]) as (st & E & _ & B'); auto.
  rewrite E. cbn [bind]. apply IHfuel; [|lia|lia].
  destruct B' as [B1 B2 B3 B4 B5]. constructor; auto; [destruct R; subst r; exact B2|]. intros x. rewrite <- B4. destruct R; subst r; reflexivity.
Qed.

Lemma upd_root_nth x : nth x (upd (repeat vmax (length g)) s s) vmax <> vmax <-> x = s.
Proof.
  rewrite nth_upd' by (rewrite repeat_length; auto). destruct (Nat.eqb_spec x s) as [->|N]; [split; auto; lia|].
  rewrite nth_repeat. tauto.
Qed.

Lemma xlevel_bfs_ok r sched fuel : r = V689 \/ r = V7 -> length g < fuel ->
  exists p, xlevel_bfs fuel vmax g (body r) sched s = Ok p /\ is_bfs_tree g s vmax p.
Proof.
  intros R HF. unfold xlevel_bfs. rewrite !vset_lt by (rewrite repeat_length; auto). cbn [bind].
  apply xwhile_ok; auto; [|lia|lia]. constructor.
  - intros u. rewrite dist_0. simpl. intuition.
  - destruct R; subst r; simpl; now rewrite upd_length, repeat_length.
  - assert (X : forall x, x < length g -> nth x (upd (repeat vmax (length g)) s 0) vmax = vmax \/ nth x (upd (repeat vmax (length g)) s 0) vmax <= 0).
    { intros x Hx. rewrite nth_upd' by (rewrite repeat_length; auto). destruct (x =? s); auto. left. apply nth_repeat. }
    destruct R; subst r; exact X.
  - intros x. rewrite upd_root_nth. assert (X : nth x (upd (repeat vmax (length g)) s 0) vmax <> vmax <-> x = s).
    { rewrite nth_upd' by (rewrite repeat_length; auto). destruct (Nat.eqb_spec x s) as [->|N]; [split; auto; lia|]. rewrite nth_repeat. tauto. }
    destruct R; subst r; exact X.
  - now apply tree_upto_0.
Qed.

Lemma forallb_empty (q : list (list nat)) : forallb (fun l => length l =? 0) q = true <-> concat q = [].
Proof. induction q as [|l q IH]; simpl; [tauto|]. rewrite andb_true_iff, Nat.eqb_eq, IH. destruct l; simpl; [tauto|]. split; [intros [X _]; discriminate|discriminate]. Qed.

Lemma xdone_ok r lvl0 nb sched fuel : lvl0 <= 1 -> (r = V689 \/ r = V7 -> lvl0 = 1) -> nb <> 0 -> forall k ph q1 level bits par,
  before r k (concat q1) level bits par -> concat q1 <> [] -> length g <= fuel + k ->
  exists p, xdone fuel vmax (lvl0 + k) nb g (body r) sched ph q1 level bits par = Ok p /\ is_bfs_tree g s vmax p.
Proof.
  intros L0 L1 NB. induction fuel; intros k ph q1 level bits par B NE HF; 
    (assert (D : exists u, dist g s u k) by (destruct (concat q1) as [|u l] eqn:EQ; [contradiction|]; exists u; apply (be_us B); simpl; auto));
    destruct D as (u & D); assert (KB := level_bound HT HS HV D); [lia|].
  cbn [xdone]. rewrite Nat.mod_small by lia.
  destruct (@phase_next r (fun u => u mod nb) (sched ph) k (lvl0 + k) (concat q1) level bits par (repeat [] nb)) as (st & E & LQ & B'); auto.
  - lia.
  - intros R. rewrite L1 by auto. lia.
  - apply concat_repeat_nil.
  - intros x _. rewrite repeat_length. now apply Nat.mod_upper_bound.
  - rewrite E. cbn [bind]. destruct (forallb _ (x_q st)) eqn:FE.
    + apply forallb_empty in FE. exists (x_par st). split; auto. eapply before_done; eauto.
    + replace (S (lvl0 + k)) with (lvl0 + S k) by lia. apply IHfuel; auto; [|lia]. intros Z. apply forallb_empty in Z. congruence.
Qed.

Lemma concat_start : concat ([s] :: repeat [] 31) = [s].
Proof. reflexivity. Qed.

Lemma bfs_v9_ok sched fuel : length g <= fuel -> exists p, bfs_v9 fuel vmax g sched s = Ok p /\ is_bfs_tree g s vmax p.
Proof.
  intros HF. unfold bfs_v9. rewrite !vset_lt by (rewrite repeat_length; auto). cbn [bind].
  apply (@xdone_ok V689 1 32 sched fuel) with (k := 0); auto; [|discriminate|lia]. rewrite concat_start. constructor.
  - intros u. rewrite dist_0. simpl. intuition.
  - simpl. now rewrite upd_length, repeat_length.
  - intros x Hx. rewrite nth_upd' by (rewrite repeat_length; auto). destruct (x =? s); auto. left. apply nth_repeat.
  - intros x. rewrite upd_root_nth. unfold flag_of, flag. cbn [x_level]. rewrite nth_upd' by (rewrite repeat_length; auto).
    destruct (Nat.eqb_spec x s) as [->|N]; [split; auto; lia|]. rewrite nth_repeat. tauto.
  - now apply tree_upto_0.
Qed.
Lemma bfs_top_down_ok sched fuel : length g <= fuel -> exists p, bfs_top_down fuel vmax g sched s = Ok p /\ is_bfs_tree g s vmax p.
Proof.
  intros HF. unfold bfs_top_down. rewrite !vset_lt by (rewrite repeat_length; auto). cbn [bind].
  apply (@xdone_ok VTD 0 32 sched fuel) with (k := 0); auto; [intros [X|X]; discriminate| |discriminate|lia]. rewrite concat_start. constructor.
  - intros u. rewrite dist_0. simpl. intuition.
  - simpl. auto.
  - simpl. auto.
  - intros x. reflexivity.
  - now apply tree_upto_0.
Qed.
Lemma bfs_top_down_bitmap_ok sched fuel : length g <= fuel -> exists p, bfs_top_down_bitmap fuel vmax g sched s = Ok p /\ is_bfs_tree g s vmax p.
Proof.
  intros HF. unfold bfs_top_down_bitmap. rewrite !vset_lt by (rewrite repeat_length; auto). cbn [bind].
  apply (@xdone_ok VBM 0 32 sched fuel) with (k := 0); auto; [intros [X|X]; discriminate| |discriminate|lia]. rewrite concat_start. constructor.
  - intros u. rewrite dist_0. simpl. intuition.
  - simpl. now rewrite upd_length, repeat_length.
  - simpl. auto.
  - intros x. rewrite upd_root_nth. unfold flag_of, flag. cbn [x_bits]. rewrite nth_upd' by (rewrite repeat_length; auto).
    destruct (Nat.eqb_spec x s) as [->|N]; [split; auto|]. rewrite nth_repeat. intuition discriminate.
  - now apply tree_upto_0.
Qed.
End Run.

(** * flush *)
Lemma flush_tasks lq : forall a, concat (map (fun p => combine (seq (fst p) (length (snd p))) (snd p)) (combine (offsets a lq) lq)) =
  combine (seq a (length (concat lq))) (concat lq).
Proof.
  induction lq as [|l lq IH]; intros a; auto. cbn [offsets combine map concat fst snd]. rewrite IH. rewrite app_length, seq_app.
  clear IH. revert a. induction l as [|x l IH]; intros a; simpl; [now rewrite Nat.add_0_r|]. f_equal. rewrite <- Nat.add_succ_comm. apply IH.
Qed.
Lemma sum_lengths (lq : list (list nat)) : sum (map (@length nat) lq) = length (concat lq).
Proof. induction lq as [|l lq IH]; auto. cbn [map sum concat]. rewrite app_length, IH. reflexivity. Qed.
Lemma resize_length q n : length (resize q n) = n.
Proof. unfold resize. rewrite app_length, firstn_length, repeat_length. lia. Qed.
Lemma in_combine_seq (l : list nat) : forall a i x, In (i, x) (combine (seq a (length l)) l) <-> a <= i /\ i < a + length l /\ nth (i - a) l 0 = x.
Proof.
  induction l as [|y l IH]; intros a i x; simpl; [lia|]. rewrite IH. split.
  - intros [E|(A & B & C)]; [injection E as <- <-; rewrite Nat.sub_diag; lia|]. replace (i - a) with (S (i - S a)) by lia. lia.
  - intros (A & B & C). destruct (Nat.eq_dec a i) as [->|N]; [left; rewrite Nat.sub_diag in C; congruence|].
    right. replace (i - a) with (S (i - S a)) in C by lia. lia.
Qed.

Lemma flush_ok sched lq queue : flush sched lq queue = Ok (concat lq, map (fun _ => []) lq).
Proof.
  unfold flush. rewrite flush_tasks, sum_lengths. set (m := length (concat lq)).
  destruct (@run_all_inv _ _ (fun _ : nat * nat => 0) copy_step (fun ts q => length q = m /\ (forall t, In t ts -> fst t < m /\ nth (fst t) (concat lq) 0 = snd t) /\
     forall i, i < m -> nth i q 0 = nth i (concat lq) 0 \/ exists x, In (i, x) ts)) with (sched := sched) (ts := combine (seq 0 m) (concat lq)) (s := resize queue m) as (q & E & LQ & _ & H).
  - intros l1 [i x] l2 q (LQ & T & H). assert (IT : In (i, x) (l1 ++ (i, x) :: l2)) by (apply in_or_app; simpl; auto).
    destruct (T _ IT) as (Hi & Hx). cbn [fst snd] in *. unfold copy_step. cbn [fst snd]. rewrite vset_lt by lia. cbn [bind].
    eexists None, _. split; [reflexivity|]. split; auto. split; [now rewrite upd_length|]. split.
    + intros t J. apply T. apply in_app_or in J. apply in_or_app. simpl in *. tauto.
    + intros j Hj. rewrite nth_upd' by lia. destruct (Nat.eqb_spec j i) as [->|N]; [left; congruence|].
      destruct (H j Hj) as [A|(y & J)]; auto. right. exists y. apply in_app_or in J. apply in_or_app. simpl in *. destruct J as [J|[J|J]]; auto. congruence.
  - split; [apply resize_length|]. split.
    + intros [i x] I. apply in_combine_seq in I. cbn [fst snd]. rewrite Nat.sub_0_r in I. unfold m. lia.
    + intros i Hi. right. exists (nth i (concat lq) 0). apply in_combine_seq. rewrite Nat.sub_0_r. unfold m in Hi. lia.
  - rewrite E. cbn [bind]. f_equal. f_equal. apply nth_ext with 0 0; [exact LQ|]. intros i Hi. destruct (H i ltac:(lia)) as [A|(x & [])]. exact A.
Qed.

Lemma concat_map_nil (A B : Type) (l : list A) : concat (map (fun _ => @nil B) l) = [].
Proof. induction l; auto. Qed.

Lemma btq_ok sched wk us lq : concat lq = [] -> (forall i, In i us -> wk i < length lq) ->
  exists lq', run_all (fun _ => 0) (btq_step wk) sched us lq = Ok lq' /\ length lq' = length lq /\ forall v, In v (concat lq') <-> In v us.
Proof.
  intros EQ HW.
  destruct (@run_all_inv _ _ (fun _ : nat => 0) (btq_step wk) (fun ts q => length q = length lq /\ (forall u, In u ts -> In u us) /\
     forall v, (In v (concat q) -> In v us) /\ (In v us -> In v (concat q) \/ In v ts))) with (sched := sched) (ts := us) (s := lq) as (q & E & LQ & _ & H).
  - intros l1 t l2 q (LQ & T & H). assert (IT : In t (l1 ++ t :: l2)) by (apply in_or_app; simpl; auto).
    unfold btq_step. destruct (@push_at_ok q (wk t) t) as (q' & EQ' & LQ' & HQ); [rewrite LQ; auto|]. rewrite EQ'. cbn [bind].
    eexists None, _. split; [reflexivity|]. split; auto. split; [lia|]. split.
    + intros u J. apply T. apply in_app_or in J. apply in_or_app. simpl in *. tauto.
    + intros v. rewrite HQ. destruct (H v) as [A B]. split; [intros [J| ->]; auto|]. intros J. destruct (B J) as [K|K]; auto.
      apply in_app_or in K. simpl in K. destruct K as [K|[K|K]]; auto; right; apply in_or_app; simpl; auto.
  - split; auto. split; auto. intros v. rewrite EQ. simpl. tauto.
  - exists q. split; auto. split; auto. intros v. destruct (H v) as [A B]. split; auto. intros J. destruct (B J) as [|[]]; auto.
Qed.

(** * Bottom-up *)
Lemma bclear_repeat b n : length b = n -> bclear b = repeat false n.
Proof. intros <-. induction b; simpl; f_equal; auto. Qed.

Section Bottom.
Variables (vmax : nat) (g g_t : list (list nat)) (s : nat).
Hypothesis HT : targets_ok g.
Hypothesis HTR : transpose_of g g_t.
Hypothesis HS : s < length g.
Hypothesis HV : length g <= vmax.

Lemma gt_length : length g_t = length g.
Proof. destruct HTR as [L _]. exact L. Qed.

Lemma sweep_ok sched front next par0 : length par0 = length g -> length front = length g -> length next = length g ->
  exists curr par count new, sweep vmax g_t sched front (bclear next) par0 = Ok (curr, par, count) /\
    par = record par0 new /\ length curr = length g /\ (forall u, u < length g -> nth u curr false = true <-> In u (map snd new)) /\
    count = length new /\ expanded g (fun v => nth v front false = true) (fun u => nth u par0 vmax <> vmax) new.
Proof.
  intros LP LF LN. unfold sweep. rewrite gt_length, (bclear_repeat _ LN). now apply bu_sweep_ok with s.
Qed.

(** Some list of distinct vertices at distance k has more than [c] members. *)
Definition level_above (k c : nat) : Prop := exists l, NoDup l /\ c < length l /\ forall v, In v l -> dist g s v k.

Lemma xbottom_ok imax sched fuel : forall k ph n frontier next par,
  length frontier = length g -> length next = length g -> (forall v, v < length g -> nth v next false = true <-> dist g s v k) ->
  tree_upto g s vmax k par -> (n = 0 <-> forall v, ~ dist g s v k) -> k <= length g -> length g < fuel + k ->
  ((forall j, k <= j -> ~ level_above (S j) imax) -> exists p, xbottom fuel vmax imax g_t sched ph n frontier next par = Ok p /\ is_bfs_tree g s vmax p) /\
  ((exists j, k <= j /\ level_above (S j) imax) -> xbottom fuel vmax imax g_t sched ph n frontier next par = Ub).
Proof.
  induction fuel; intros k ph n frontier next par LF LN HN T N0 HK HF; [lia|]. cbn [xbottom].
  destruct (Nat.eqb_spec n 0) as [Z|Z].
  - assert (ND := proj1 N0 Z). split.
    + intros _. exists par. split; auto. apply tree_upto_final with k; auto. intros v D. apply dist_S in D. destruct D as (_ & u & D & _). now apply ND in D.
    + intros (j & Lj & l & _ & Ll & Hl). exfalso. destruct l as [|v l]; [simpl in Ll; lia|].
      destruct (dist_pred (Hl v (or_introl eq_refl)) (j := k) ltac:(lia)) as (u & Du). now apply (ND u).
  - assert (EX0 : exists u, dist g s u k).
    { destruct (in_dec Bool.bool_dec true next) as [I|I].
      - apply In_nth with (d := false) in I. destruct I as (u & Hu & E). exists u. apply HN; auto. lia.
      - exfalso. apply Z, N0. intros v D. assert (Hv := dist_lt HT HS D). apply HN in D; auto. apply I. rewrite <- D. apply nth_In. lia. }
    destruct EX0 as (u0 & D0). assert (KB := level_bound HT HS HV D0).
    destruct (@sweep_ok (sched ph) next frontier par (proj1 T) LN LF) as (c & p & cnt & new & E & EP & LC & HC & CN & EX). rewrite E. cbn [bind].
    apply (@expanded_marked vmax g s HT HS HV k par _ _ T) in EX.
    apply (@expanded_stale vmax g s HS HV k) in EX; [|intros v D; apply HN; auto; exact (dist_lt HT HS D)|intros v Fv Hv; exists k; split; auto; now apply HN].
    assert (T' := @record_tree vmax g s HT HS k par new _ T (fun u => iff_refl _) EX). rewrite <- EP in T'.
    assert (NL := expanded_level (fun v => iff_refl _) (fun u => iff_refl _) EX).
    assert (CB : forall l, NoDup l -> (forall v, In v l -> dist g s v (S k)) -> length l <= cnt).
    { intros l ND H. rewrite CN, <- (map_length snd). apply NoDup_incl_length; auto. intros v I. apply NL; auto. }
    assert (CG : cnt <= length g).
    { rewrite CN, <- (map_length snd), <- (seq_length (length g) 0). apply NoDup_incl_length; [apply EX|]. intros v I. apply in_seq. apply NL in I. apply (dist_lt HT HS) in I. lia. }
    rewrite (Nat.mod_small cnt) by lia.
    assert (LA : imax < cnt -> level_above (S k) imax).
    { intros L. exists (map snd new). split; [apply EX|]. split; [rewrite map_length; lia|]. intros v. apply NL. }
    destruct (IHfuel (S k) (S ph) cnt next c p) as (IH1 & IH2); auto; try lia.
    { intros v Hv. rewrite HC by auto. apply NL. }
    { rewrite CN. split.
      - intros Zn v D. apply NL in D. destruct new; [destruct D|discriminate].
      - intros H. destruct new as [|e new]; auto. exfalso. apply (H (snd e)). apply NL. now left. }
    split.
    + intros HA. destruct (Nat.ltb_spec imax cnt) as [L|L]; [exfalso; apply (HA k); auto|]. apply IH1. intros j Hj. apply HA. lia.
    + intros (j & Hj & A). destruct (Nat.ltb_spec imax cnt) as [L|L]; auto. apply IH2. exists j. split; auto.
      destruct (Nat.eq_dec j k) as [->|]; [|lia]. exfalso. destruct A as (l & ND & Ll & Hl). specialize (CB l ND Hl). lia.
Qed.

Lemma bottom_up_ok imax sched fuel : length g < fuel ->
  ((forall k, ~ level_above (S k) imax) -> exists p, bfs_bottom_up fuel vmax imax g_t sched s = Ok p /\ is_bfs_tree g s vmax p) /\
  ((exists k, level_above (S k) imax) -> bfs_bottom_up fuel vmax imax g_t sched s = Ub).
Proof.
  intros HF. unfold bfs_bottom_up. rewrite gt_length. rewrite !vset_lt by (rewrite repeat_length; auto). cbn [bind].
  destruct (@xbottom_ok imax sched fuel 0 0 1 (repeat false (length g)) (upd (repeat false (length g)) s true) (upd (repeat vmax (length g)) s s)) as (A & B); try lia.
  - apply repeat_length.
  - rewrite upd_length. apply repeat_length.
  - intros v Hv. rewrite nth_upd' by (rewrite repeat_length; auto). rewrite dist_0. destruct (Nat.eqb_spec v s) as [->|N]; [tauto|].
    rewrite nth_repeat. split; [discriminate|contradiction].
  - now apply tree_upto_0.
  - split; [discriminate|]. intros H. exfalso. apply (H s). now apply dist_0.
  - split; [intros H; apply A; auto|]. intros (k & H). apply B. exists k. split; auto. lia.
Qed.

(** * bfs_v1 and bfs_v2 *)
Lemma v1_bottom_eq beta sched fuel : forall ph front curr par awake ph' c' p' a', length front = length g -> length curr = length g -> length par = length g ->
  bu_loop fuel vmax beta (length g) g_t sched ph curr par awake = Ok (ph', c', p', a') ->
  exists fr', v1_bottom fuel vmax beta (length g) g_t sched ph front curr par awake = Ok (ph', fr', c', p', a') /\ length fr' = length g.
Proof.
  induction fuel; intros ph front curr par awake ph' c' p' a' LF LC LP; cbn [bu_loop v1_bottom]; [discriminate|].
  destruct (@sweep_ok (sched ph) curr front par LP LC LF) as (c & p & cnt & new & E & EP & LC' & _).
  assert (E' := E). unfold sweep in E'. rewrite gt_length, (bclear_repeat _ LF) in E'. rewrite E, E'. cbn [bind].
  assert (LP' : length p = length g) by (subst p; now rewrite record_length).
  destruct (awake <=? cnt); [apply IHfuel; auto|]. destruct (beta =? 0); [discriminate|]. destruct (length g / beta <? cnt); [apply IHfuel; auto|].
  intros X. injection X as <- <- <- <-. eauto.
Qed.
Lemma v2_bottom_eq beta sched fuel : forall ph front cur par awake ph' c' p' a', length front = length g -> length cur = length g -> length par = length g ->
  bu_loop fuel vmax beta (length g) g_t sched ph front par awake = Ok (ph', c', p', a') ->
  exists cu', v2_bottom fuel vmax beta (length g) g_t sched ph front cur par awake = Ok (ph', c', cu', p', a') /\ length cu' = length g.
Proof.
  induction fuel; intros ph front cur par awake ph' c' p' a' LF LC LP; cbn [bu_loop v2_bottom]; [discriminate|].
  destruct (@sweep_ok (sched ph) front cur par LP LF LC) as (c & p & cnt & new & E & EP & LC' & _).
  assert (E' := E). unfold sweep in E'. rewrite gt_length, (bclear_repeat _ LC) in E'. rewrite E, E'. cbn [bind].
  assert (LP' : length p = length g) by (subst p; now rewrite record_length).
  destruct (awake <=? cnt); [apply IHfuel; auto|]. destruct (beta =? 0); [discriminate|]. destruct (length g / beta <? cnt); [apply IHfuel; auto|].
  intros X. injection X as <- <- <- <-. eauto.
Qed.

(** Before an iteration: the queue is level k, the bitmap that will be seeded holds only vertices already reached. *)
Record qhead (k nb : nat) (queue : list nat) (lq : list (list nat)) (stale other : list bool) (par : list nat) : Prop := {
  qh_queue : forall u, In u queue <-> dist g s u k;
  qh_bins : length lq = nb;
  qh_empty : concat lq = [];
  qh_slen : length stale = length g;
  qh_stale : forall v, v < length g -> nth v stale false = true -> within g s k v;
  qh_olen : length other = length g;
  qh_tree : tree_upto g s vmax k par
}.

Lemma qhead_done k nb queue lq stale other par : qhead k nb queue lq stale other par -> queue = [] -> is_bfs_tree g s vmax par.
Proof.
  intros Q ->. apply tree_upto_final with k; auto; [apply Q|]. intros v D. apply dist_S in D. destruct D as (_ & u & D & _). now apply (qh_queue Q) in D.
Qed.

(** The bottom-up branch up to the drained queue. *)
Lemma seeded (sched : nat -> nat -> nat) k nb ph queue lq stale other par : qhead k nb queue lq stale other par ->
  exists c1, queue_to_bitmap (sched ph) queue stale = Ok c1 /\ front_ok g s k c1.
Proof.
  intros Q. assert (FR : forall u, In u queue -> u < length g) by (intros u J; apply (qh_queue Q) in J; exact (dist_lt HT HS J)).
  destruct (@seed_ok vmax g s HS HV (sched ph) queue stale (qh_slen Q) FR) as (c1 & E1 & L1 & H1). exists c1. split; [exact E1|]. constructor; auto.
  - intros v D. apply H1; [now apply (dist_lt HT HS D)|]. right. now apply (qh_queue Q).
  - intros v Hv M. apply H1 in M; auto. destruct M as [M|M]; [now apply (qh_stale Q)|]. exists k. split; auto. now apply (qh_queue Q).
Qed.

Lemma drained (sched : nat -> nat -> nat) wk nb k' ph c' p' lq other queue : (forall u, wk u < nb) -> length lq = nb -> concat lq = [] -> length c' = length g ->
  (forall v, v < length g -> nth v c' false = true <-> dist g s v k') -> tree_upto g s vmax k' p' -> length other = length g ->
  exists lq1 fl, bitmap_to_queue (sched ph) wk c' lq = Ok lq1 /\ flush (sched (S ph)) lq1 queue = Ok fl /\ qhead k' nb (fst fl) (snd fl) c' other p'.
Proof.
  intros HW LB EB LC HC T LO. destruct (@btq_ok (sched ph) wk (set_bits c') lq EB) as (lq1 & E & L & H); [intros; now rewrite LB|].
  exists lq1, (concat lq1, map (fun _ => []) lq1). split; [exact E|]. split; [apply flush_ok|]. constructor; auto.
  - intros u. cbn [fst]. rewrite H, (@in_set_bits vmax g s HS HV), LC. split; [intros [J1 J2]; now apply HC|]. intros D. assert (Hu := dist_lt HT HS D). split; auto. now apply HC.
  - cbn [snd]. rewrite map_length. lia.
  - apply concat_map_nil.
  - intros v Hv M. exists k'. split; auto. now apply HC.
Qed.

Lemma topped (sched : nat -> nat -> nat) wk k nb ph queue lq stale other par : (forall u, wk u < nb) -> qhead k nb queue lq stale other par ->
  exists st, xphase vmax 0 g wk body_cas (sched ph) queue [] [] par lq = Ok st /\
    forall sched', exists fl, flush sched' (x_q st) queue = Ok fl /\ qhead (S k) nb (fst fl) (snd fl) stale other (x_par st).
Proof.
  intros HW Q.
  assert (B : before vmax g s VCAS k queue [] [] par).
  { constructor; try (simpl; auto; fail); [apply Q| |apply Q]. intros x. reflexivity. }
  destruct (@phase_next vmax g s HT HS HV VCAS wk (sched ph) k 0 queue [] [] par lq B) as (st & E & LQ & B').
  - lia.
  - intros [X|X]; discriminate.
  - apply Q.
  - intros u _. rewrite (qh_bins Q). apply HW.
  - exists st. split; [exact E|]. intros sched'. exists (concat (x_q st), map (fun _ => []) (x_q st)). split; [apply flush_ok|]. constructor.
    + apply B'.
    + cbn [snd]. rewrite map_length, LQ. apply Q.
    + apply concat_map_nil.
    + apply Q.
    + intros v Hv M. destruct (qh_stale Q Hv M) as (d & Ld & D). exists d. split; auto.
    + apply Q.
    + apply B'.
Qed.

Lemma v1_loop_ok sched wk W alpha beta nb fuel : alpha <> 0 -> beta <> 0 -> (forall ph u, wk ph u < nb) ->
  forall k ph queue lq front curr par edges scout, qhead k nb queue lq curr front par -> 0 < fuel -> (queue <> [] -> length g < fuel + k) ->
  exists p, v1_loop fuel vmax W alpha beta g g_t sched wk ph queue lq front curr par edges scout = Ok p /\ is_bfs_tree g s vmax p.
Proof.
  intros HA HB HW. induction fuel; intros k ph queue lq front curr par edges scout Q F0 HF; [lia|]. cbn [v1_loop].
  destruct queue as [|u0 q0] eqn:EQ; [exists par; split; auto; eapply qhead_done; eauto|]. rewrite <- EQ in *.
  specialize (HF ltac:(subst; discriminate)). assert (D0 : dist g s u0 k) by (apply (qh_queue Q); subst; simpl; auto).
  assert (KB := level_bound HT HS HV D0). destruct (Nat.eqb_spec alpha 0); [contradiction|]. destruct (edges / alpha <? scout).
  - destruct (seeded sched ph Q) as (c1 & E1 & F1). rewrite E1. cbn [bind].
    destruct (@bu_loop_ok vmax g g_t s HT HTR HS HV sched beta fuel HB k (S ph) c1 par (length queue) F1 (qh_tree Q)) as (ph' & c2 & p2 & aw & k' & E2 & LK & T2 & L2 & H2 & Z2); [subst; simpl; lia|lia|eauto|].
    destruct (@v1_bottom_eq beta sched fuel (S ph) front c1 par (length queue) _ _ _ _ (qh_olen Q) (fo_len F1) (proj1 (qh_tree Q)) E2) as (fr' & E3 & LF'). rewrite E3. cbn [bind].
    destruct (Nat.eqb_spec aw 0) as [Z|_].
    + exists p2. split; auto. apply tree_upto_final with k'; auto. intros v D. apply dist_S in D. destruct D as (_ & u & D & _). now apply (Z2 Z) in D.
    + destruct (@drained sched (wk ph') nb k' ph' c2 p2 lq fr' queue (HW ph') (qh_bins Q) (qh_empty Q) L2 H2 T2 LF') as (lq1 & fl & E4 & E5 & Q').
      rewrite E4. cbn [bind]. rewrite E5. cbn [bind]. apply IHfuel with k'; auto; [lia|]. intros _. lia.
  - destruct (topped sched (wk ph) ph (HW ph) Q) as (st & E & FL). rewrite E. cbn [bind]. destruct (FL (sched (S ph))) as (fl & E' & Q'). rewrite E'. cbn [bind].
    apply IHfuel with (S k); auto; [lia|]. intros _. lia.
Qed.

Lemma bfs_v1_ok fuel W sched wk garbage nb alpha beta : 0 < fuel -> length g < fuel -> alpha <> 0 -> beta <> 0 -> (forall ph u, wk ph u < nb) ->
  length garbage = length g -> exists p, bfs_v1 fuel vmax W g g_t sched wk garbage s nb alpha beta = Ok p /\ is_bfs_tree g s vmax p.
Proof.
  intros F0 HF HA HB HW LG. unfold bfs_v1. rewrite (@vget_nth _ g s []) by auto. cbn [bind]. rewrite vset_lt by (rewrite repeat_length; auto). cbn [bind].
  apply v1_loop_ok with (k := 0) (nb := nb); auto; [|intros _; lia]. constructor; auto.
  - intros u. rewrite dist_0. simpl. intuition.
  - apply repeat_length.
  - apply concat_repeat_nil.
  - apply repeat_length.
  - intros v Hv M. rewrite nth_repeat in M. discriminate.
  - now apply tree_upto_0.
Qed.

Lemma v2_loop_ok sched wk W alpha beta nb fuel : alpha <> 0 -> beta <> 0 -> (forall ph u, wk ph u < nb) ->
  forall k ph queue lq front curr par edges scout, qhead k nb queue lq front curr par -> 0 < fuel -> (queue <> [] -> length g < fuel + k) ->
  exists p, v2_loop fuel vmax W alpha beta g g_t sched wk ph queue lq front curr par edges scout = Ok p /\ is_bfs_tree g s vmax p.
Proof.
  intros HA HB HW. induction fuel; intros k ph queue lq front curr par edges scout Q F0 HF; [lia|]. cbn [v2_loop].
  destruct queue as [|u0 q0] eqn:EQ; [exists par; split; auto; eapply qhead_done; eauto|]. rewrite <- EQ in *.
  specialize (HF ltac:(subst; discriminate)). assert (D0 : dist g s u0 k) by (apply (qh_queue Q); subst; simpl; auto).
  assert (KB := level_bound HT HS HV D0). destruct (Nat.eqb_spec alpha 0); [contradiction|]. destruct (edges / alpha <? scout).
  - destruct (seeded sched ph Q) as (c1 & E1 & F1). rewrite E1. cbn [bind].
    destruct (@bu_loop_ok vmax g g_t s HT HTR HS HV sched beta fuel HB k (S ph) c1 par (length queue) F1 (qh_tree Q)) as (ph' & c2 & p2 & aw & k' & E2 & LK & T2 & L2 & H2 & Z2); [subst; simpl; lia|lia|eauto|].
    destruct (@v2_bottom_eq beta sched fuel (S ph) c1 curr par (length queue) _ _ _ _ (fo_len F1) (qh_olen Q) (proj1 (qh_tree Q)) E2) as (cu' & E3 & LF'). rewrite E3. cbn [bind].
    destruct (@drained sched (wk ph') nb k' ph' c2 p2 lq cu' queue (HW ph') (qh_bins Q) (qh_empty Q) L2 H2 T2 LF') as (lq1 & fl & E4 & E5 & Q').
    rewrite E4. cbn [bind]. rewrite E5. cbn [bind]. apply IHfuel with k'; auto; [lia|]. intros _. lia.
  - destruct (topped sched (wk ph) ph (HW ph) Q) as (st & E & FL). rewrite E. cbn [bind]. destruct (FL (sched (S ph))) as (fl & E' & Q'). rewrite E'. cbn [bind].
    apply IHfuel with (S k); auto; [lia|]. intros _. lia.
Qed.

Lemma bfs_v2_ok fuel W sched wk garbage nb alpha beta : 0 < fuel -> length g < fuel -> alpha <> 0 -> beta <> 0 -> (forall ph u, wk ph u < nb) ->
  length garbage = length g -> (forall v, v < length g -> nth v garbage false = true -> v = s) ->
  exists p, bfs_v2 fuel vmax W g g_t sched wk garbage s nb alpha beta = Ok p /\ is_bfs_tree g s vmax p.
Proof.
  intros F0 HF HA HB HW LG HG. unfold bfs_v2. rewrite (@vget_nth _ g s []) by auto. cbn [bind]. rewrite vset_lt by (rewrite repeat_length; auto). cbn [bind].
  apply v2_loop_ok with (k := 0) (nb := nb); auto; [|intros _; lia]. constructor; auto.
  - intros u. rewrite dist_0. simpl. intuition.
  - apply repeat_length.
  - apply concat_repeat_nil.
  - intros v Hv M. rewrite (HG v Hv M). exists 0. split; auto. now apply dist_0.
  - apply repeat_length.
  - now apply tree_upto_0.
Qed.

(** Whatever the bitmap holds, its members' successors get a parent, and nothing loses one. *)
Lemma v2_bottom_marks beta sched fuel : forall ph front cur par awake ph' fr' cu' p' a', length front = length g -> length cur = length g -> length par = length g ->
  v2_bottom fuel vmax beta (length g) g_t sched ph front cur par awake = Ok (ph', fr', cu', p', a') ->
  length fr' = length g /\ length cu' = length g /\ length p' = length g /\
  (forall w, nth w par vmax <> vmax -> nth w p' vmax <> vmax) /\
  (forall x u, nth x front false = true -> edge g x u -> nth u p' vmax <> vmax).
Proof.
  induction fuel; intros ph front cur par awake ph' fr' cu' p' a' LF LC LP; cbn [v2_bottom]; [discriminate|].
  destruct (@sweep_ok (sched ph) front cur par LP LF LC) as (c & p & cnt & new & E & EP & LC' & _ & _ & EX). rewrite E. cbn [bind].
  assert (LP' : length p = length g) by (subst p; now rewrite record_length).
  assert (M : forall w, nth w p vmax <> vmax <-> nth w par vmax <> vmax \/ In w (map snd new)).
  { intros w. subst p. apply (@marked_record vmax g s HS HV par new w LP); [apply EX|]. intros a b I. destruct (exp_new EX a b I) as (_ & Ed & _).
    split; [exact (edge_lt _ _ _ Ed)|now apply (HT _ _ Ed)]. }
  assert (X : forall x u, nth x front false = true -> edge g x u -> nth u p vmax <> vmax) by (intros x u A B; apply M; exact (exp_all EX x u A B)).
  assert (GO : v2_bottom fuel vmax beta (length g) g_t sched (S ph) c front p cnt = Ok (ph', fr', cu', p', a') ->
    length fr' = length g /\ length cu' = length g /\ length p' = length g /\
    (forall w, nth w par vmax <> vmax -> nth w p' vmax <> vmax) /\
    (forall x u, nth x front false = true -> edge g x u -> nth u p' vmax <> vmax)).
  { intros H. destruct (IHfuel _ _ _ _ _ _ _ _ _ _ LC' LF LP' H) as (A & B & C & D & _). split; auto. split; auto. split; auto. split.
    - intros w Hw. apply D, M. auto.
    - intros x u Hx Ed. apply D, (X x u); auto. }
  destruct (awake <=? cnt); auto. destruct (beta =? 0); [discriminate|]. destruct (length g / beta <? cnt); auto.
  intros H. injection H as <- <- <- <- <-. split; auto. split; auto. split; auto. split; auto. intros w Hw. apply M. auto.
Qed.

Lemma v2_loop_marks sched wk W alpha beta nb fuel : (forall ph u, wk ph u < nb) ->
  forall ph queue lq front curr par edges scout p, (forall u, In u queue -> u < length g) -> length lq = nb -> concat lq = [] ->
  length front = length g -> length curr = length g -> length par = length g ->
  v2_loop fuel vmax W alpha beta g g_t sched wk ph queue lq front curr par edges scout = Ok p ->
  (forall w, nth w par vmax <> vmax -> nth w p vmax <> vmax) /\
  (forall x u, queue <> [] -> edges / alpha < scout -> nth x front false = true -> edge g x u -> nth u p vmax <> vmax).
Proof.
  intros HW. induction fuel; intros ph queue lq front curr par edges scout p HQ LB EB LF LC LP; cbn [v2_loop]; [discriminate|].
  destruct queue as [|u0 q0] eqn:EQ; [intros X; injection X as <-; split; auto; intros x u X; contradiction|]. rewrite <- EQ in *.
  destruct (alpha =? 0); [discriminate|]. destruct (Nat.ltb_spec (edges / alpha) scout) as [L|L].
  - destruct (@seed_ok vmax g s HS HV (sched ph) queue front LF HQ) as (c1 & E1 & L1 & H1). unfold queue_to_bitmap. rewrite E1. cbn [bind].
    destruct (v2_bottom fuel vmax beta (length g) g_t sched (S ph) c1 curr par (length queue)) as [[[[[ph' fr'] cu'] p'] a']| |] eqn:E2; cbn [bind]; try discriminate.
    destruct (@v2_bottom_marks beta sched fuel _ _ _ _ _ _ _ _ _ _ L1 LC LP E2) as (A1 & A2 & A3 & A4 & A5).
    destruct (@btq_ok (sched ph') (wk ph') (set_bits fr') lq EB) as (lq1 & E3 & L3 & H3); [intros; rewrite LB; auto|]. unfold bitmap_to_queue. rewrite E3. cbn [bind].
    rewrite flush_ok. cbn [bind fst snd]. intros H. apply IHfuel in H; auto.
    + destruct H as (H & _). split; [intros w Hw; apply H, A4, Hw|]. intros x u _ _ Hx Ed. apply H, (A5 x u); auto. apply H1; auto. exact (edge_lt _ _ _ Ed).
    + intros u I. apply H3, (@in_set_bits vmax g s HS HV) in I. lia.
    + rewrite map_length. lia.
    + apply concat_map_nil.
  - assert (Q : exists st new, xphase vmax 0 g (wk ph) (body VCAS) (sched ph) queue [] [] par lq = Ok st /\ lens g VCAS nb st /\ lev_ok vmax g VCAS 0 st /\
      expanded g (fun u => In u queue) (vis0 vmax par) new /\
      (forall v, ~ In v (map snd new) -> nth v (x_par st) vmax = nth v par vmax) /\
      (forall u v, In (u, v) new -> nth v (x_par st) vmax = u) /\
      (forall v, In v (concat (x_q st)) <-> In v (map snd new)) /\ (forall x, flag vmax VCAS st x <-> vis0 vmax par x \/ In x (map snd new))).
    { apply xphase_ok; simpl; auto; try lia. intros x. reflexivity. }
    destruct Q as (st & new & E & (Q1 & Q2 & _) & _ & EX & P1 & P2 & Q & _). change body_cas with (body VCAS). rewrite E. cbn [bind].
    rewrite flush_ok. cbn [bind fst snd]. intros H. apply IHfuel in H; auto.
    + destruct H as (H & _). split; [|intros x u _ X; lia]. intros w Hw. apply H. destruct (in_dec Nat.eq_dec w (map snd new)) as [I|I]; [|now rewrite P1].
      apply in_map_iff in I. destruct I as ([a w'] & X & I). simpl in X. subst w'. rewrite (P2 a w I). destruct (exp_new EX a w I) as (U & _). apply HQ in U. lia.
    + intros u I. apply Q, in_map_iff in I. destruct I as ([a w'] & X & I). simpl in X. subst w'. destruct (exp_new EX a u I) as (_ & Ed & _). now apply (HT _ _ Ed).
    + rewrite map_length. lia.
    + apply concat_map_nil.
Qed.

(** A garbage bit gives a parent to every successor of its vertex, reachable or not. *)
Lemma bfs_v2_garbage fuel W sched wk garbage nb alpha beta p x u : (forall ph v, wk ph v < nb) -> length garbage = length g ->
  sum (map (@length nat) g) / alpha < length (nth s g []) -> nth x garbage false = true -> edge g x u ->
  bfs_v2 fuel vmax W g g_t sched wk garbage s nb alpha beta = Ok p -> nth u p vmax <> vmax.
Proof.
  intros HW LG HA Hx Ed. unfold bfs_v2. rewrite (@vget_nth _ g s []) by auto. cbn [bind]. rewrite vset_lt by (rewrite repeat_length; auto). cbn [bind].
  intros H. apply (@v2_loop_marks sched wk W alpha beta nb fuel HW) in H; auto.
  - destruct H as (_ & H). apply (H x u); auto. discriminate.
  - intros v [<-|[]]. auto.
  - apply repeat_length.
  - apply concat_repeat_nil.
  - apply repeat_length.
  - rewrite upd_length. apply repeat_length.
Qed.
End Bottom.

(** * A worker with no queue *)
Lemma run_never (T S : Type) (step : T -> S -> res (option T * S)) (P : list T -> S -> Prop) :
  (forall l1 t l2 s o s', P (l1 ++ t :: l2) s -> step t s = Ok (o, s') -> P (l1 ++ opt_list o ++ l2) s') -> (forall s, ~ P [] s) ->
  forall fuel sched now ts s s', P ts s -> run step fuel sched now ts s <> Ok s'.
Proof.
  intros ST NE. induction fuel; intros sched now ts s s' H; destruct ts as [|t0 ts0]; try (exfalso; eapply NE; eauto; fail); [discriminate|].
  remember (t0 :: ts0) as ts. assert (NZ : length ts <> 0) by (subst; discriminate).
  assert (RW : run step (Datatypes.S fuel) sched now ts s = (do t <- vget ts (sched now mod length ts) ; do r <- step t s ;
    run step fuel sched (Datatypes.S now) (firstn (sched now mod length ts) ts ++ opt_list (fst r) ++ skipn (Datatypes.S (sched now mod length ts)) ts) (snd r))).
  { subst. reflexivity. }
  rewrite RW. set (i := sched now mod length ts). assert (Hi : i < length ts) by (apply Nat.mod_upper_bound; auto).
  destruct (nth_error ts i) as [t|] eqn:E; [|apply nth_error_None in E; lia]. rewrite (proj2 (vget_Ok ts i t) E). cbn [bind].
  destruct (nth_error_split _ _ E) as (l1 & l2 & SP & LL).
  replace (firstn i ts) with l1 by (rewrite SP, <- LL, firstn_app, firstn_all, Nat.sub_diag; simpl; now rewrite app_nil_r).
  replace (skipn (Datatypes.S i) ts) with l2 by (rewrite SP, <- LL, skipn_app, skipn_all2 by lia; now replace (Datatypes.S (length l1) - length l1) with 1 by lia).
  destruct (step t s) as [[o s1]| |] eqn:ES; cbn [bind fst snd]; try discriminate. apply IHfuel. apply (ST l1 t l2 s); auto. now rewrite <- SP.
Qed.

Definition doomed (vmax nb v : nat) (ts : list xtask) (st : xst) : Prop :=
  length (x_q st) = nb /\ (forall t, In t ts -> In (t_prog t) (tails body_cas)) /\
  ((exists t, In t ts /\ t_prog t = [Push; Count]) \/ (nth v (x_par st) vmax = vmax /\ exists t, In t ts /\ t_v t = v /\ und (t_prog t) = true)).

Lemma doomed_step vmax g bin nb v : (forall u, nb <= bin u) -> v < vmax -> forall l1 t l2 st o st',
  doomed vmax nb v (l1 ++ t :: l2) st -> xstep vmax 0 g bin t st = Ok (o, st') -> doomed vmax nb v (l1 ++ opt_list o ++ l2) st'.
Proof.
  intros HB HV l1 t l2 st o st' (LQ & TP & ALT).
  assert (IT : In t (l1 ++ t :: l2)) by (apply in_or_app; simpl; auto). assert (TT := TP t IT).
  assert (OLD : forall t0, In t0 (l1 ++ t :: l2) -> t0 = t \/ In t0 (l1 ++ opt_list o ++ l2)) by (intros t0; apply in_mid_inv).
  assert (NEW : forall t0, In t0 (opt_list o) -> In t0 (l1 ++ opt_list o ++ l2)) by (intros t0; apply in_mid_new).
  assert (TP' : forall p, (forall t', o = Some t' -> In (t_prog t') (tails p)) -> (forall q, In q (tails p) -> In q (tails body_cas)) ->
     forall t0, In t0 (l1 ++ opt_list o ++ l2) -> In (t_prog t0) (tails body_cas)).
  { intros p A B t0 J. destruct (in_mid l1 t (opt_list o) l2 t0 J) as [K|K]; [|now apply TP]. destruct o as [t'|]; [|destruct K]. destruct K as [<-|[]]. apply B, A. auto. }
  destruct st as [level bits par q count]. destruct t as [u w old prog]. cbn [t_prog x_q x_par] in *.
  destruct TT as [<-|[<-|[<-|[<-|[<-|[]]]]]]; cbn [xstep]; intros H.
  - destruct (vget par w) as [x| |] eqn:EX; cbn [bind] in H; try discriminate. destruct (Nat.eqb_spec x vmax) as [E|E]; injection H as <- <-.
    + split; auto. split; [apply (TP' body_cas); [intros t' X; injection X as <-; simpl; auto|auto]|].
      destruct ALT as [(t0 & J & P)|(N & t0 & J & V & U)].
      * destruct (OLD t0 J) as [->|J']; [discriminate P|]. left. eauto.
      * right. split; auto. destruct (OLD t0 J) as [->|J']; [|eauto]. eexists. split; [apply NEW; left; reflexivity|]. auto.
    + split; auto. split; [apply (TP' []); [discriminate|intros p [<-|[]]; simpl; auto 6]|].
      destruct ALT as [(t0 & J & P)|(N & t0 & J & V & U)].
      * destruct (OLD t0 J) as [->|J']; [discriminate P|]. left. eauto.
      * right. split; auto. destruct (OLD t0 J) as [->|J']; [|eauto]. exfalso. cbn [t_v] in V. subst w. apply vget_Ok in EX. apply nth_error_nth with (d := vmax) in EX. congruence.
  - destruct (vget par w) as [x| |] eqn:EX; cbn [bind] in H; try discriminate. destruct (Nat.eqb_spec x vmax) as [E|E].
    + destruct (vset par w u) as [par'| |] eqn:ES; cbn [bind] in H; try discriminate. injection H as <- <-.
      split; auto. split; [apply (TP' [Push; Count]); [intros t' X; injection X as <-; simpl; auto|intros p; simpl; tauto]|].
      left. eexists. split; [apply NEW; left; reflexivity|reflexivity].
    + injection H as <- <-. split; auto. split; [apply (TP' []); [discriminate|intros p [<-|[]]; simpl; auto 6]|].
      destruct ALT as [(t0 & J & P)|(N & t0 & J & V & U)].
      * destruct (OLD t0 J) as [->|J']; [discriminate P|]. left. eauto.
      * right. split; auto. destruct (OLD t0 J) as [->|J']; [|eauto]. exfalso. cbn [t_v] in V. subst w. apply vget_Ok in EX. apply nth_error_nth with (d := vmax) in EX. congruence.
  - exfalso. unfold push_at in H. destruct (vget q (bin u)) as [x| |] eqn:EX; cbn [bind] in H; try discriminate.
    apply vget_Ok in EX. assert (X := HB u). assert (Y : nth_error q (bin u) <> None) by congruence. apply nth_error_Some in Y. lia.
  - destruct (vget g w) as [row| |]; cbn [bind] in H; try discriminate. injection H as <- <-.
    split; auto. split; [apply (TP' []); [intros t' X; injection X as <-; simpl; auto|intros p [<-|[]]; simpl; auto 6]|].
    destruct ALT as [(t0 & J & P)|(N & t0 & J & V & U)].
    + destruct (OLD t0 J) as [->|J']; [discriminate P|]. left. eauto.
    + right. split; auto. destruct (OLD t0 J) as [->|J']; [discriminate U|]. eauto.
  - injection H as <- <-. split; auto. split; [apply (TP' []); [discriminate|intros p [<-|[]]; simpl; auto 6]|].
    destruct ALT as [(t0 & J & P)|(N & t0 & J & V & U)].
    + destruct (OLD t0 J) as [->|J']; [discriminate P|]. left. eauto.
    + right. split; auto. destruct (OLD t0 J) as [->|J']; [discriminate U|]. eauto.
Qed.

Lemma xphase_no_worker vmax g bin sched us par q2 st u v : (forall w, length q2 <= bin w) -> v < vmax -> In u us -> edge g u v -> nth v par vmax = vmax ->
  xphase vmax 0 g bin body_cas sched us [] [] par q2 <> Ok st.
Proof.
  intros HB HV IU Ed N. unfold xphase.
  destruct (rmap (fun u => do row <- vget g u ; Ok (map (fun v => Xt u v 0 body_cas) row)) us) as [rows| |] eqn:E; cbn [bind]; try discriminate.
  assert (R : rows = map (fun u => map (fun v => Xt u v 0 body_cas) (nth u g [])) us).
  { clear IU. revert rows E. induction us as [|a us IH]; intros rows E; cbn [rmap] in E; [injection E as <-; auto|].
    destruct (vget g a) as [row| |] eqn:EG; cbn [bind] in E; try discriminate.
    destruct (rmap (fun u => do row <- vget g u ; Ok (map (fun v => Xt u v 0 body_cas) row)) us) as [rs| |]; cbn [bind] in E; try discriminate.
    injection E as <-. simpl. f_equal; auto. apply vget_Ok in EG. apply nth_error_nth with (d := []) in EG. now rewrite EG. }
  subst rows. unfold run_all. apply run_never with (P := doomed vmax (length q2) v).
  - intros l1 t l2 st0 o st'. now apply doomed_step.
  - intros st0 (_ & _ & [(t & [] & _)|(_ & t & [] & _)]).
  - split; auto. split.
    + intros t I. apply in_concat in I. destruct I as (l & I & J). apply in_map_iff in I. destruct I as (a & <- & I). apply in_map_iff in J. destruct J as (b & <- & J). simpl. auto.
    + right. split; auto. exists (Xt u v 0 body_cas). split; [|auto]. apply in_concat. exists (map (fun v => Xt u v 0 body_cas) (nth u g [])).
      split; [apply in_map_iff; eauto|]. apply in_map_iff. eauto.
Qed.

Lemma v12_no_worker fuel vmax W g g_t sched wk garbage root nb alpha beta p v : length g <= vmax -> targets_ok g ->
  (forall u, nb <= wk 0 u) -> length (nth root g []) <= sum (map (@length nat) g) / alpha -> edge g root v -> v <> root ->
  bfs_v1 fuel vmax W g g_t sched wk garbage root nb alpha beta <> Ok p /\ bfs_v2 fuel vmax W g g_t sched wk garbage root nb alpha beta <> Ok p.
Proof.
  intros HV HT HW HA Ed NE. assert (HR := edge_lt _ _ _ Ed). assert (Hv := HT _ _ Ed).
  assert (NW : forall st, xphase vmax 0 g (wk 0) body_cas (sched 0) [root] [] [] (upd (repeat vmax (length g)) root root) (repeat [] nb) <> Ok st).
  { intros st. apply xphase_no_worker with (u := root) (v := v); auto; [intros w; rewrite repeat_length; apply HW|lia|now left|].
    rewrite nth_upd_neq by auto. apply nth_repeat. }
  unfold bfs_v1, bfs_v2. rewrite (@vget_nth _ g root []) by auto. cbn [bind]. rewrite vset_lt by (rewrite repeat_length; auto). cbn [bind].
  destruct fuel as [|fuel]; [split; discriminate|]. cbn [v1_loop v2_loop]. destruct (alpha =? 0); [split; discriminate|].
  destruct (Nat.ltb_spec (sum (map (@length nat) g) / alpha) (length (nth root g []))); [lia|].
  destruct (xphase vmax 0 g (wk 0) body_cas (sched 0) [root] [] [] (upd (repeat vmax (length g)) root root) (repeat [] nb)) as [st| |] eqn:E; cbn [bind]; [|split; discriminate..].
  exfalso. now apply (NW st).
Qed.
