(** Proofs for C57. *)
From Coq Require Import List Arith Lia Bool.
From Verif Require Import Base SsspModel SsspLib SsspProofs ParDsModel.
Import ListNotations.
Set Implicit Arguments.

Section ForkRule.
Variables (T S : Type) (step : T -> S -> res (list T * S)).
Lemma frun_pick fuel sched now ts s : ts <> [] -> exists l1 t l2, ts = l1 ++ t :: l2 /\
  frun step (Datatypes.S fuel) sched now ts s = do r <- step t s ; frun step fuel sched (Datatypes.S now) (l1 ++ fst r ++ l2) (snd r).
Proof.
  intros NN. assert (NE : length ts <> 0) by (destruct ts; [congruence|discriminate]).
  assert (Hi : sched now mod length ts < length ts) by (apply Nat.mod_upper_bound; auto). remember (sched now mod length ts) as i eqn:Ei.
  destruct (nth_error ts i) as [t|] eqn:E; [|apply nth_error_None in E; lia]. destruct (nth_error_split _ _ E) as (l1 & l2 & SP & LL).
  exists l1, t, l2. split; auto. cbn [frun]. destruct ts as [|t0 ts0] eqn:Ets; [congruence|]. rewrite <- Ets in *. rewrite <- Ei. clear Ets t0 ts0.
  rewrite (proj2 (vget_Ok ts i t) E). cbn [bind].
  replace (firstn i ts) with l1 by (rewrite SP, <- LL, firstn_app, firstn_all, Nat.sub_diag; simpl; now rewrite app_nil_r).
  replace (skipn (Datatypes.S i) ts) with l2 by (rewrite SP, <- LL, skipn_app, skipn_all2 by lia; now replace (Datatypes.S (length l1) - length l1) with 1 by lia).
  reflexivity.
Qed.
(** Rule: an invariant preserved by every step (or, when [allow], a step that is undefined), with a measure. *)
Lemma frun_inv (allow : Prop) (size : T -> nat) (I : list T -> S -> Prop) : (forall t, 0 < size t) ->
  (forall l1 t l2 s, I (l1 ++ t :: l2) s ->
     (allow /\ step t s = Ub) \/ exists o s', step t s = Ok (o, s') /\ I (l1 ++ o ++ l2) s' /\ sum (map size o) < size t) ->
  forall fuel sched now ts s, I ts s -> sum (map size ts) <= fuel ->
  (allow /\ frun step fuel sched now ts s = Ub) \/ exists s', frun step fuel sched now ts s = Ok s' /\ I [] s'.
Proof.
  intros PZ ST. induction fuel; intros sched now ts s H HF.
  - destruct ts as [|t0 ts0]; [right; exists s; auto|]. simpl in HF. specialize (PZ t0). lia.
  - destruct ts as [|t0 ts0]; [right; exists s; auto|]. destruct (@frun_pick fuel sched now (t0 :: ts0) s) as (l1 & t & l2 & SP & ->); [discriminate|].
    rewrite SP in *. destruct (ST _ _ _ _ H) as [[AL E']|(o & s' & E' & H' & M)]; rewrite E'; cbn [bind fst snd]; [auto|].
    apply IHfuel; auto. rewrite !map_app, !sum_app in *. cbn [map sum] in HF. lia.
Qed.
(** Rule for partial correctness. *)
Lemma frun_post (I : list T -> S -> Prop) :
  (forall l1 t l2 s o s', I (l1 ++ t :: l2) s -> step t s = Ok (o, s') -> I (l1 ++ o ++ l2) s') ->
  forall fuel sched now ts s s', I ts s -> frun step fuel sched now ts s = Ok s' -> I [] s'.
Proof.
  intros ST. induction fuel; intros sched now ts s s' H.
  - destruct ts; simpl; [|discriminate]. now intros [= <-].
  - destruct ts as [|t0 ts0]; [simpl; now intros [= <-]|]. destruct (@frun_pick fuel sched now (t0 :: ts0) s) as (l1 & t & l2 & SP & ->); [discriminate|].
    rewrite SP in H. intros E. apply bind_Ok in E. destruct E as ([o s1] & E1 & E2). cbn [fst snd] in E2. eapply IHfuel; [|exact E2]. eapply ST; eauto.
Qed.
End ForkRule.

Section Pds.
Variables (g : wgraph) (s inf D delta : nat) (ind : nat -> option bool).
Hypothesis HT : wtargets_ok g.
Hypothesis HS : s < length g.
Hypothesis HI : 0 < inf.
Hypothesis HID : inf <= D.
Hypothesis NOV : no_overflow g s inf.
Hypothesis HD : 0 < delta.

Definition strict : Prop := forall k, ind k = None.
Definition quiet : Prop := forall k, ind k <> Some true.
Notation dst := (dst inf).

(** A simple path whose prefixes bound the labels of its vertices. *)
Definition good (dist : list nat) (u l : nat) : Prop := exists p, spath g s ((u, l) :: p) /\ forall x m, In (x, m) ((u, l) :: p) -> dst dist x <= m.

Section Round.
Variables (top : nat).

Definition done (rk : nat -> nat) (dist : list nat) (x y w : nat) : Prop := dst dist y <= dst dist x + w /\ (strict -> rk x < rk y).
Definition pend (ts : list ptask) (st : pstate) (x : nat) : Prop :=
  inbin inf delta (pb st) (pd st) x \/ (In (PV x) ts /\ dst (pd st) x / delta = top) \/ In (PG x (dst (pd st) x)) ts \/ In (PP x (dst (pd st) x / delta)) ts.
Definition cur (ts : list ptask) (st : pstate) (x y w : nat) : Prop :=
  In (PS x y w) ts \/ In (PT x y w (dst (pd st) x + w)) ts \/ exists pv, In (PC x y w (dst (pd st) x + w) pv) ts.

Definition from (dist : list nat) (u v w next : nat) : Prop := exists l, warc g u v w /\ next = l + w /\ good dist u l /\ delta * top <= l.
Definition task_ok (rk : nat -> nat) (st : pstate) (t : ptask) : Prop :=
  match t with
  | PV u => dst (pd st) u < inf
  | PS u v w => warc g u v w /\ dst (pd st) u < inf /\ delta * top <= dst (pd st) u
  | PT u v w next => from (pd st) u v w next
  | PC u v w next prev => from (pd st) u v w next /\ next < prev /\ dst (pd st) v <= prev <= inf /\
      (strict -> dst (pd st) v = prev \/ dst (pd st) u + w < next \/ rk u < rk v)
  | PG v next => dst (pd st) v <= next /\ next < inf /\ delta * top <= next
  | PP v bin => top <= bin /\ bin < length (pb st) /\ dst (pd st) v < inf
  end.
Definition isq (t : ptask) : nat := match t with PG _ _ | PP _ _ => 1 | _ => 0 end.
Definition pot (ts : list ptask) (st : pstate) : nat := 2 * sum (pd st) + length (concat (pb st)) + sum (map isq ts).

Record core (rk : nat -> nat) (ts : list ptask) (st : pstate) : Prop := {
  c_len : length (pd st) = length g;
  c_le : forall v, dst (pd st) v <= inf;
  c_src : dst (pd st) s = 0;
  c_good : forall v, v < length g -> dst (pd st) v < inf -> good (pd st) v (dst (pd st) v);
  c_rel : forall x, dst (pd st) x < inf -> pend ts st x \/ forall y w, warc g x y w -> done rk (pd st) x y w \/ cur ts st x y w;
  c_task : forall t, In t ts -> task_ok rk st t;
  c_bins : bins_ok inf top (pd st) (pb st);
  c_rk : exists N, forall x, rk x <= N
}.
Definition pinv (M : nat) (ts : list ptask) (st : pstate) : Prop := (exists rk, core rk ts st) /\ (quiet -> pot ts st <= M).

Lemma core_lt rk ts st v : core rk ts st -> dst (pd st) v < inf -> v < length g.
Proof. intros L H. destruct (Nat.lt_ge_cases v (length g)); auto. unfold SsspLib.dst in H. rewrite nth_overflow in H; [lia|]. rewrite (c_len L); auto. Qed.

Lemma in_mid (A : Type) (l1 o l2 : list A) t x : In x (l1 ++ t :: l2) -> x = t \/ In x (l1 ++ o ++ l2).
Proof. rewrite !in_app_iff. simpl. intuition auto. Qed.
Lemma in_new (A : Type) (l1 o l2 : list A) t x : In x (l1 ++ o ++ l2) -> In x o \/ In x (l1 ++ t :: l2).
Proof. rewrite !in_app_iff. simpl. intuition auto. Qed.

(** A step that changes only the tasks. *)
Lemma core_tasks rk l1 t o l2 st : core rk (l1 ++ t :: l2) st ->
  (forall t', In t' o -> task_ok rk st t') ->
  (forall x, pend [t] st x -> dst (pd st) x < inf -> pend (l1 ++ o ++ l2) st x \/ forall y w, warc g x y w -> done rk (pd st) x y w \/ cur (l1 ++ o ++ l2) st x y w) ->
  (forall x y w, warc g x y w -> cur [t] st x y w -> done rk (pd st) x y w \/ cur (l1 ++ o ++ l2) st x y w) ->
  core rk (l1 ++ o ++ l2) st.
Proof.
  intros [A1 A2 A3 A4 A5 A6 A7 A8] H1 H2 H3. constructor; auto.
  - intros x Hx. destruct (A5 x Hx) as [P|P].
    + assert (Q : pend [t] st x \/ pend (l1 ++ o ++ l2) st x).
      { unfold pend in *. destruct P as [P|[[P E]|[P|P]]]; [auto| | |]; destruct (in_mid l1 o l2 _ _ P) as [<-|I]; simpl; auto 8. }
      destruct Q as [Q|Q]; auto.
    + right. intros y w A. destruct (P y w A) as [Q|Q]; auto.
      assert (R : cur [t] st x y w \/ cur (l1 ++ o ++ l2) st x y w).
      { unfold cur in *. destruct Q as [Q|[Q|(pv & Q)]]; destruct (in_mid l1 o l2 _ _ Q) as [<-|I]; simpl; eauto 8. }
      destruct R; auto.
  - intros t' I. destruct (@in_new _ l1 o l2 t t' I); auto.
Qed.

Lemma good_le dist dist' u l : (forall x, dst dist' x <= dst dist x) -> good dist u l -> good dist' u l.
Proof. intros H (p & P & B). exists p. split; auto. intros x m I. etransitivity; [apply H|now apply B]. Qed.
Lemma good_dst dist u l : good dist u l -> dst dist u <= l.
Proof. intros (p & _ & B). apply B. now left. Qed.
Lemma from_inf dist u v w next : from dist u v w next -> next < inf.
Proof. intros (l & A & -> & (p & P & _) & _). eapply NOV; eauto. Qed.
Lemma from_top dist u v w next : from dist u v w next -> delta * top <= next.
Proof. intros (l & A & -> & _ & T). lia. Qed.
Lemma from_arc dist u v w next : from dist u v w next -> warc g u v w.
Proof. intros (l & A & _). auto. Qed.

(** The successful compare-and-swap. *)
Lemma core_cas rk l1 u v w next l2 st : core rk (l1 ++ PC u v w next (dst (pd st) v) :: l2) st -> dst (pd st) v <= inf ->
  exists rk', core rk' (l1 ++ [PG v next] ++ l2) (mkP (upd (pd st) v next) (pb st) (pr st)).
Proof.
  intros C LE. assert (TK := c_task C (PC u v w next (dst (pd st) v)) ltac:(apply in_or_app; right; now left)).
  destruct TK as (F & LT & _ & _). assert (Lv := HT _ _ _ (from_arc F)). destruct C as [A1 A2 A3 A4 A5 A6 A7 (N & A8)].
  assert (UP : forall x, dst (upd (pd st) v next) x = if x =? v then next else dst (pd st) x).
  { intros x. unfold SsspLib.dst. destruct (Nat.eqb_spec x v) as [->|NE]; [apply nth_upd_eq; lia|apply nth_upd_neq; auto]. }
  assert (DE : forall x, dst (upd (pd st) v next) x <= dst (pd st) x).
  { intros x. rewrite UP. destruct (Nat.eqb_spec x v) as [->|NE]; lia. }
  exists (fun x => if x =? v then S N else rk x).
  assert (NI := from_inf F).
  assert (NVS : v <> s) by (intros ->; lia).
  assert (TOK : forall t, task_ok rk st t -> task_ok (fun x => if x =? v then S N else rk x) (mkP (upd (pd st) v next) (pb st) (pr st)) t).
  { assert (FR : forall u v0 w next0, from (pd st) u v0 w next0 -> from (upd (pd st) v next) u v0 w next0).
    { intros a b c e (l & X1 & X2 & X3 & X4). exists l. split; auto. split; auto. split; auto. eapply good_le; eauto. }
    assert (FT := from_top F).
    intros [a|a b c|a b c e|a b c e pv|a e|a e]; cbn [task_ok pd pb]; auto.
    - intros H. assert (X := DE a). lia.
    - intros (H1 & H2 & H3). split; auto. rewrite UP. destruct (a =? v); lia.
    - intros (H1 & H2 & H3 & H4). split; auto. split; auto. assert (X := DE b). split; [lia|]. intros SR. rewrite !UP.
      destruct (Nat.eqb_spec a v) as [->|NA].
      + right. left. destruct H1 as (l & _ & -> & G & _). apply good_dst in G. lia.
      + destruct (Nat.eqb_spec b v) as [->|NB]; [right; right; specialize (A8 a); lia|auto].
    - intros (H1 & H2 & H3). assert (X := DE a). split; auto. lia.
    - intros (H1 & H2 & H3). assert (X := DE a). split; auto. split; auto. lia. }
  constructor; cbn [pd pb pr].
  - now rewrite upd_length.
  - intros x. etransitivity; [apply DE|apply A2].
  - rewrite UP. destruct (Nat.eqb_spec s v); [congruence|auto].
  - intros x Hx. rewrite UP. destruct (Nat.eqb_spec x v) as [->|NE].
    + intros _. destruct F as (l & AR & -> & (p & SP & PB) & _). exists ((u, l) :: p). split.
      * econstructor; eauto. intros I. apply in_map_iff in I. destruct I as ([y m] & E & I). simpl in E. subst y.
        assert (X := spath_le SP eq_refl _ _ I). specialize (PB v m I). lia.
      * intros y m [I|I]; [injection I as <- <-; rewrite UP, Nat.eqb_refl; auto|]. etransitivity; [apply DE|]. now apply PB.
    + intros H. eapply good_le; [exact DE|]. now apply A4.
  - intros x. rewrite UP. destruct (Nat.eqb_spec x v) as [->|NE].
    + intros _. left. unfold pend. cbn [pd pb]. rewrite UP, Nat.eqb_refl. right. right. left. apply in_or_app. right. now left.
    + intros Hx. destruct (A5 x Hx) as [P|P].
      * left. unfold pend, inbin in *. cbn [pd pb]. rewrite UP. destruct (Nat.eqb_spec x v); [contradiction|].
        destruct P as [P|[[P E]|[P|P]]]; [auto| | |]; destruct (in_mid l1 [PG v next] l2 _ _ P) as [X|I]; try discriminate X; auto.
      * right. intros y z Ar. destruct (P y z Ar) as [[Q R]|Q].
        -- left. split; [rewrite (UP x); destruct (Nat.eqb_spec x v); [contradiction|]; assert (X := DE y); lia|]. intros SR. specialize (R SR).
           destruct (Nat.eqb_spec x v); [contradiction|]. destruct (y =? v); auto. specialize (A8 x). lia.
        -- unfold cur in *. cbn [pd]. rewrite UP. destruct (Nat.eqb_spec x v); [contradiction|].
           destruct Q as [Q|[Q|(pv & Q)]]; destruct (in_mid l1 [PG v next] l2 _ _ Q) as [X|I]; try discriminate X; eauto.
           injection X as <- <- <- E _. left. split; [rewrite !UP, Nat.eqb_refl; destruct (Nat.eqb_spec x y); [contradiction|]; lia|].
           intros _. rewrite Nat.eqb_refl. destruct (Nat.eqb_spec x y); [contradiction|]. specialize (A8 x). lia.
  - intros t I. destruct (@in_new _ l1 [PG v next] l2 (PC u v w next (dst (pd st) v)) t I) as [[<-|[]]|I']; [|apply TOK; auto].
    cbn [task_ok pd]. rewrite UP, Nat.eqb_refl. assert (X := from_top F). auto.
  - constructor; [apply A7|]. intros b x I. assert (X := bo_lab A7 b x I). assert (Y := DE x). lia.
  - exists (S N). intros x. destruct (x =? v); auto.
Qed.

Lemma grow_nth bins bin b : nth b (grow bins bin) [] = nth b bins [].
Proof. unfold grow. destruct (_ <? _); [apply nth_app_nils|auto]. Qed.
Lemma grow_len bins bin : length bins <= length (grow bins bin) /\ bin < length (grow bins bin).
Proof. unfold grow. destruct (Nat.ltb_spec (length bins) (bin + 1)); [rewrite app_length, repeat_length; lia|lia]. Qed.
Lemma grow_concat bins bin : concat (grow bins bin) = concat bins.
Proof. unfold grow. destruct (_ <? _); [rewrite concat_app, concat_nils; apply app_nil_r|auto]. Qed.

(** Changing only the bins and the reads. *)
Lemma core_bins rk ts st bins r : core rk ts st ->
  (forall x, inbin inf delta (pb st) (pd st) x -> inbin inf delta bins (pd st) x) -> length (pb st) <= length bins -> bins_ok inf top (pd st) bins ->
  core rk ts (mkP (pd st) bins r).
Proof.
  intros [A1 A2 A3 A4 A5 A6 A7 A8] H L B. constructor; cbn [pd pb]; auto.
  - intros x Hx. destruct (A5 x Hx) as [P|P]; [left|right; exact P]. unfold pend in *. cbn [pd pb]. destruct P as [P|P]; auto.
  - intros t I. specialize (A6 t I). destruct t; cbn [task_ok pd pb] in *; auto. destruct A6 as (X & Y & Z). split; auto. split; auto. lia.
Qed.

Lemma pstep_ok M l1 t l2 st : pinv M (l1 ++ t :: l2) st ->
  ((exists k, ind k = None) /\ pstep D delta g ind top t st = Ub) \/
  exists o st', pstep D delta g ind top t st = Ok (o, st') /\ pinv M (l1 ++ o ++ l2) st' /\ sum (map (psize g inf) o) < psize g inf t.
Proof.
  intros [(rk & C) PM]. assert (TK := c_task C t ltac:(apply in_or_app; right; now left)). assert (CL := c_len C).
  assert (POT : forall o, sum (map isq o) <= isq t -> quiet -> pot (l1 ++ o ++ l2) st <= M).
  { intros o LE Q. specialize (PM Q). unfold pot in *. rewrite !map_app, !sum_app in *. cbn [map sum] in PM. lia. }
  destruct t as [u|u v w|u v w next|u v w next prev|v next|v bin]; cbn [task_ok] in TK; cbn [pstep psize].
  - (* PV *) right. assert (Lu := core_lt _ C TK). rewrite (@vget_nth _ (pd st) u inf) by lia. cbn [bind]. fold (dst (pd st) u).
    destruct (Nat.leb_spec (delta * top) (dst (pd st) u)) as [TP|LOW].
    + rewrite (@vget_nth _ g u []) by auto. cbn [bind]. eexists _, st. split; [reflexivity|]. split.
      * split.
        -- exists rk. apply core_tasks with (t := PV u); auto.
           ++ intros t' I. apply in_map_iff in I. destruct I as ([v w] & <- & I). cbn [task_ok fst snd]. auto.
           ++ intros x P Hx. unfold pend in P. destruct P as [P|[[[P|[]] E]|[[P|[]]|[P|[]]]]]; try discriminate P; [left; left; exact P|].
              injection P as <-. right. intros y w A. right. left. rewrite !in_app_iff. right. left. apply in_map_iff. exists (y, w). auto.
           ++ intros x y w A [[X|[]]|[[X|[]]|(pv & [X|[]])]]; discriminate X.
        -- intros Q. apply POT; auto. clear. cbn [isq]. induction (nth u g []) as [|e r IH]; cbn [map sum isq]; lia.
      * clear. induction (nth u g []) as [|e r IH]; cbn [map sum psize length]; lia.
    + exists [], st. split; auto. split.
      * split; [|apply POT; auto]. exists rk. apply core_tasks with (t := PV u); auto.
        -- intros t' [].
        -- intros x P Hx. left. unfold pend in P. destruct P as [P|[[[P|[]] E]|[[P|[]]|[P|[]]]]]; try discriminate P; [left; exact P|].
           injection P as <-. exfalso. assert (Y := Nat.mul_div_le (dst (pd st) u) delta ltac:(lia)). rewrite E in Y. lia.
        -- intros x y w A [[X|[]]|[[X|[]]|(pv & [X|[]])]]; discriminate X.
      * cbn [map sum psize]. lia.
  - (* PS *) right. destruct TK as (A & Hu & TP). assert (Lu := core_lt _ C Hu). rewrite (@vget_nth _ (pd st) u inf) by lia. cbn [bind]. fold (dst (pd st) u).
    assert (GU := c_good C Lu Hu).
    assert (F : from (pd st) u v w (dst (pd st) u + w)) by (exists (dst (pd st) u); auto).
    rewrite Nat.mod_small by (assert (X := from_inf F); lia).
    eexists _, st. split; [reflexivity|]. split; [|cbn [map sum psize]; lia].
    split; [|apply POT; auto]. exists rk. apply core_tasks with (t := PS u v w); auto.
    + intros t' [<-|[]]. exact F.
    + intros x P Hx. left. unfold pend in P. destruct P as [P|[[[P|[]] E]|[[P|[]]|[P|[]]]]]; try discriminate P. left; exact P.
    + intros x y z _ [[X|[]]|[[X|[]]|(pv & [X|[]])]]; try discriminate X. injection X as <- <- <-. right. right. left. rewrite !in_app_iff. right. left. now left.
  - (* PT *) assert (A := from_arc TK). assert (Lv := HT _ _ _ A). rewrite (@vget_nth _ (pd st) v inf) by lia. cbn [bind]. fold (dst (pd st) v).
    assert (NI := from_inf TK). assert (LE := c_le C v).
    assert (PE : forall o x, pend [PT u v w next] st x -> pend (l1 ++ o ++ l2) st x).
    { intros o x P. unfold pend in P. destruct P as [P|[[[P|[]] E]|[[P|[]]|[P|[]]]]]; try discriminate P. left; exact P. }
    destruct (Nat.ltb_spec next (dst (pd st) v)) as [LT|GE].
    + right. eexists _, st. split; [reflexivity|]. split; [|cbn [map sum psize]; lia]. split; [|apply POT; auto].
      exists rk. apply core_tasks with (t := PT u v w next); auto.
      * intros t' [<-|[]]. cbn [task_ok]. split; auto.
      * intros x y z _ [[X|[]]|[[X|[]]|(pv & [X|[]])]]; try discriminate X. injection X as <- <- <- E. right. right. right. exists (dst (pd st) v). rewrite !in_app_iff. right. left. left. now rewrite E.
    + destruct (ind (pr st)) as [b|] eqn:EI; [right|left; split; [eauto|reflexivity]].
      eexists _, _. split; [reflexivity|]. split; [|destruct b; cbn [map sum psize]; lia]. split.
      * exists rk. apply (@core_bins rk _ st (pb st)); auto; [|apply C]. apply core_tasks with (t := PT u v w next); auto.
        -- intros t' I. destruct b; [|destruct I]. destruct I as [<-|[]]. cbn [task_ok]. split; auto. split; auto. apply (from_top TK).
        -- intros x y z _ [[X|[]]|[[X|[]]|(pv & [X|[]])]]; try discriminate X. injection X as <- <- <- E. left. split; [lia|]. intros SR. rewrite (SR (pr st)) in EI. discriminate.
      * intros Q. unfold pot. cbn [pd pb]. apply (POT (if b then [PG v next] else [])); auto. destruct b; [exfalso; apply (Q (pr st)); auto|cbn [map sum]; lia].
  - (* PC *) right. destruct TK as (F & LT & (LE1 & LE2) & SR). assert (A := from_arc F). assert (Lv := HT _ _ _ A).
    rewrite (@vget_nth _ (pd st) v inf) by lia. cbn [bind]. fold (dst (pd st) v).
    assert (PE : forall o x, pend [PC u v w next prev] st x -> pend (l1 ++ o ++ l2) st x).
    { intros o x P. unfold pend in P. destruct P as [P|[[[P|[]] E]|[[P|[]]|[P|[]]]]]; try discriminate P. left; exact P. }
    destruct (Nat.eqb_spec (dst (pd st) v) prev) as [EQ|NE].
    + rewrite vset_lt by lia. cbn [bind]. eexists _, _. split; [reflexivity|]. split; [|cbn [map sum psize]; lia]. split.
      * rewrite <- EQ in *. eapply core_cas; eauto.
      * intros Q. specialize (PM Q). unfold pot in *. cbn [pd pb]. rewrite !map_app, !sum_app in *. cbn [map sum isq app] in *.
        assert (SU := @sum_upd (pd st) v next ltac:(lia)). replace (nth v (pd st) 0) with (dst (pd st) v) in SU by (apply nth_indep; lia). lia.
    + destruct (Nat.ltb_spec next (dst (pd st) v)) as [LT'|GE].
      * eexists _, st. split; [reflexivity|]. split; [|cbn [map sum psize]; lia]. split; [|apply POT; auto].
        exists rk. apply core_tasks with (t := PC u v w next prev); auto.
        -- intros t' [<-|[]]. cbn [task_ok]. split; auto. split; auto. split; auto. lia.
        -- intros x y z _ [[X|[]]|[[X|[]]|(pv & [X|[]])]]; try discriminate X. injection X as <- <- <- E <-. right. right. right. exists (dst (pd st) v). rewrite !in_app_iff. right. left. left. now rewrite E.
      * exists [], st. split; auto. split; [|cbn [map sum psize]; lia]. split; [|apply POT; auto].
        exists rk. apply core_tasks with (t := PC u v w next prev); auto.
        -- intros t' [].
        -- intros x y z _ [[X|[]]|[[X|[]]|(pv & [X|[]])]]; try discriminate X. injection X as <- <- <- E <-. left. split; [lia|]. intros S1. destruct (SR S1) as [X|[X|X]]; auto; lia.
  - (* PG *) right. destruct (Nat.eqb_spec delta 0); [lia|]. destruct TK as (H1 & H2 & H3).
    assert (TN : top <= next / delta) by (apply Nat.div_le_lower_bound; lia).
    eexists _, _. split; [reflexivity|]. split; [|cbn [map sum psize]; lia]. destruct (grow_len (pb st) (next / delta)) as [G1 G2].
    assert (CB : core rk (l1 ++ PG v next :: l2) (mkP (pd st) (grow (pb st) (next / delta)) (pr st))).
    { apply core_bins; auto.
      - intros x. unfold inbin. now rewrite grow_nth.
      - destruct (c_bins C) as [B1 B2]. constructor; [intros b Hb; rewrite grow_nth; now apply B1|intros b x; rewrite grow_nth; apply B2]. }
    split.
    + exists rk. apply core_tasks with (t := PG v next); auto.
      * intros t' [<-|[]]. cbn [task_ok pb pd]. split; auto. split; auto. lia.
      * intros x P Hx. left. unfold pend in P. destruct P as [P|[[[P|[]] E]|[[P|[]]|[P|[]]]]]; try discriminate P; [left; exact P|].
        injection P as <- E. right. right. right. cbn [pd] in *. rewrite <- E, !in_app_iff. right. left. left. reflexivity.
      * intros x y z _ [[X|[]]|[[X|[]]|(pv & [X|[]])]]; discriminate X.
    + intros Q. unfold pot. cbn [pd pb]. rewrite grow_concat. now apply (POT [PP v (next / delta)]).
  - (* PP *) right. destruct TK as (H1 & H2 & H3). rewrite (@vget_nth _ (pb st) bin []) by auto. cbn [bind]. rewrite vset_lt by auto. cbn [bind].
    eexists _, _. split; [reflexivity|]. split; [|cbn [map sum psize]; lia].
    assert (NU : forall b, nth b (upd (pb st) bin (nth bin (pb st) [] ++ [v])) [] = if b =? bin then nth bin (pb st) [] ++ [v] else nth b (pb st) []).
    { intros b. destruct (Nat.eqb_spec b bin) as [->|NE]; [apply nth_upd_eq; lia|apply nth_upd_neq; auto]. }
    assert (CB : core rk (l1 ++ PP v bin :: l2) (mkP (pd st) (upd (pb st) bin (nth bin (pb st) [] ++ [v])) (pr st))).
    { apply core_bins; auto.
      - intros x. unfold inbin. rewrite NU. destruct (Nat.eqb_spec (dst (pd st) x / delta) bin) as [->|]; auto. intros I. apply in_or_app. auto.
      - now rewrite upd_length.
      - destruct (c_bins C) as [B1 B2]. constructor.
        + intros b Hb. rewrite NU. destruct (Nat.eqb_spec b bin); [lia|auto].
        + intros b x. rewrite NU. destruct (Nat.eqb_spec b bin) as [->|]; [|apply B2]. intros I. apply in_app_or in I. destruct I as [I|[<-|[]]]; [eapply B2; eauto|auto]. }
    split.
    + exists rk. apply core_tasks with (t := PP v bin); auto.
      * intros t' [].
      * intros x P Hx. left. left. unfold pend in P. destruct P as [P|[[[P|[]] E]|[[P|[]]|[P|[]]]]]; try discriminate P; [exact P|].
        injection P as <- E. unfold inbin. cbn [pd pb] in *. rewrite NU, <- E, Nat.eqb_refl. apply in_or_app. right. now left.
      * intros x y z _ [[X|[]]|[[X|[]]|(pv & [X|[]])]]; discriminate X.
    + intros Q. specialize (PM Q). unfold pot in *. cbn [pd pb]. rewrite !map_app, !sum_app in *. cbn [map sum isq app] in *.
      assert (X := @concat_upd_len g s inf HS HI delta HD (pb st) bin (nth bin (pb st) [] ++ [v]) H2). rewrite app_length in X. cbn [length] in X. lia.
Qed.
End Round.

(** ** The rounds *)
Definition outer (M top : nat) (st : pstate) : Prop := pinv top M [] st /\ (top < length (pb st) -> nth top (pb st) [] <> []).

Lemma psize_pos t : 0 < psize g inf t.
Proof. destruct t; simpl; lia. Qed.

(** What a finished run says. *)
Definition result (d : list nat) : Prop := cut_dist g s inf d /\
  (strict -> exists rk : nat -> nat, forall x y w, dst d x < inf -> warc g x y w -> rk x < rk y).

Lemma fin_result M top st : pinv top M [] st -> length (pb st) <= top -> result (pd st).
Proof.
  intros [(rk & C) _] LE.
  assert (NP : forall x, ~ pend top [] st x).
  { intros x [P|[[[] _]|[[]|[]]]]. unfold inbin in P. destruct (Nat.lt_ge_cases (dst (pd st) x / delta) top) as [LT|GE];
      [rewrite (bo_low (c_bins C) LT) in P|rewrite nth_overflow in P by lia]; destruct P. }
  assert (R : forall x, dst (pd st) x < inf -> forall y w, warc g x y w -> done rk (pd st) x y w).
  { intros x Hx y w A. destruct (c_rel C x Hx) as [P|P]; [exfalso; eapply NP; eauto|]. destruct (P y w A) as [Q|[[]|[[]|(pv & [])]]]; auto. }
  split.
  - apply (@lab_final g s inf HS HI). constructor; try apply C.
    + intros v Lv Hv. destruct (c_good C Lv Hv) as (p & P & B). exists p. split; auto. intros x l I. apply B. now right.
    + intros x Hx. right. intros y w A. left. apply (R x Hx y w A).
  - intros SR. exists rk. intros x y w Hx A. now apply (R x Hx y w A).
Qed.

Lemma pinv_start M top st : outer M top st -> top < length (pb st) ->
  pinv top (M - 1) (map PV (nth top (pb st) [])) (mkP (pd st) (upd (pb st) top []) (pr st)).
Proof.
  intros [P NE] LT. set (fr := nth top (pb st) []) in *. destruct P as [(rk & C) PM].
  split.
  - exists rk. destruct C as [A1 A2 A3 A4 A5 A6 [B1 B2] A8]. constructor; cbn [pd pb]; auto.
    + intros x Hx. destruct (A5 x Hx) as [[P|[[[] _]|[[]|[]]]]|P].
      * left. unfold pend, inbin in *. cbn [pd pb]. destruct (Nat.eq_dec (dst (pd st) x / delta) top) as [E|NT].
        -- right. left. split; auto. apply in_map. unfold fr. now rewrite <- E.
        -- left. rewrite nth_upd_neq; auto.
      * right. intros y w A. destruct (P y w A) as [Q|[[]|[[]|(pv & [])]]]; auto.
    + intros t I. apply in_map_iff in I. destruct I as (x & <- & I). cbn [task_ok pd]. eapply B2; eauto.
    + constructor.
      * intros b Hb. rewrite nth_upd_neq by lia. now apply B1.
      * intros b x I. destruct (Nat.eq_dec b top) as [->|NB]; [rewrite nth_upd_eq in I by auto; destruct I|]. rewrite nth_upd_neq in I by auto. eapply B2; eauto.
  - intros Q. specialize (PM Q). unfold pot in *. cbn [pd pb map sum] in *.
    assert (X := @concat_upd_len g s inf HS HI delta HD (pb st) top [] LT). fold fr in X. cbn [length] in X. specialize (NE LT).
    assert (Z : sum (map isq (map PV fr)) = 0) by (clear; induction fr; simpl; auto). rewrite Z.
    destruct fr; [congruence|cbn [length] in X; lia].
Qed.
Lemma outer_next M top st : pinv top M [] st -> outer M (ds_next (length (pb st)) top (pb st)) st.
Proof.
  intros [(rk & C) PM]. destruct (@ds_next_ok g s inf HS HI delta HD (pb st) (length (pb st)) top ltac:(lia) (bo_low (c_bins C))) as [N1 N2].
  split; [split; auto|auto]. exists rk. destruct C as [A1 A2 A3 A4 A5 A6 [B1 B2] A8]. constructor; auto.
  - intros x Hx. destruct (A5 x Hx) as [[P|[[[] _]|[[]|[]]]]|P]; [left; left; exact P|auto].
  - intros t [].
  - constructor; auto.
Qed.

Lemma pds_loop_ok sched fuel : forall k top st M, outer M top st ->
  let r := pds_loop fuel D inf delta g ind sched k top st in
  ((exists j, ind j = None) /\ r = Ub) \/ (r = OutOfFuel /\ (quiet -> fuel < M)) \/ exists d, r = Ok d /\ result d.
Proof.
  induction fuel; intros k top st M [P NE]; cbn [pds_loop]; destruct (Nat.ltb_spec top (length (pb st))) as [LT|GE]; cbn zeta.
  - right. left. split; auto. intros Q. destruct P as [_ P]. specialize (P Q). unfold pot in P. cbn [map sum] in P. specialize (NE LT).
    assert (X := @concat_upd_len g s inf HS HI delta HD (pb st) top [] LT). simpl length in X. destruct (nth top (pb st) []); [congruence|simpl length in X; lia].
  - right. right. exists (pd st). split; auto. eapply fin_result; eauto.
  - rewrite (@vget_nth _ (pb st) top []) by auto. cbn [bind]. rewrite vset_lt by auto. cbn [bind].
    set (fr := nth top (pb st) []) in *. destruct P as [(rk & C) PM].
    assert (PI := pinv_start (conj (conj (ex_intro _ rk C) PM) NE) LT). fold fr in PI.
    destruct (@frun_inv _ _ (pstep D delta g ind top) (exists j, ind j = None) (psize g inf) (pinv top (M - 1)) psize_pos (@pstep_ok top (M - 1))
                _ (sched k) 0 _ _ PI (le_n _)) as [[AL ->]|(st' & -> & PI')]; cbn [bind]; [left; auto|].
    destruct PI' as [(rk' & C') PM'].
    destruct (@ds_next_ok g s inf HS HI delta HD (pb st') (length (pb st')) top ltac:(lia) (bo_low (c_bins C'))) as [N1 N2].
    destruct (IHfuel (S k) (ds_next (length (pb st')) top (pb st')) st' (M - 1)) as [[AL ->]|[[-> FU]|(d & -> & R)]]; auto.
    + split; [split; auto|auto]. exists rk'. destruct C' as [A1 A2 A3 A4 A5 A6 [B1 B2] A8]. constructor; auto.
      * intros x Hx. destruct (A5 x Hx) as [[P|[[[] _]|[[]|[]]]]|P]; [left; left; exact P|auto].
      * intros t [].
      * constructor; auto.
    + right. left. split; auto. intros Q. specialize (FU Q). lia.
    + right. right. eauto.
  - right. right. exists (pd st). split; auto. eapply fin_result; eauto.
Qed.

Lemma outer_init : outer (2 * (length g * inf) + 1) 0 (mkP (upd (repeat inf (length g)) s 0) [[s]] 0).
Proof.
  assert (L := @lab_init g s inf HS HI). split.
  - split.
    + exists (fun _ => 0). destruct L as [A1 A2 A3 A4 A5]. constructor; cbn [pd pb]; auto.
      * intros v Lv Hv. destruct (A4 v Lv Hv) as (p & P & B). exists p. split; auto. intros x m [X|I]; [injection X as <- <-; auto|auto].
      * intros x Hx. left. left. cbn [pd pb]. destruct (A5 x Hx) as [->|P].
        -- unfold inbin. rewrite A3, Nat.div_0_l by lia. now left.
        -- assert (E : x = s); [|subst x; unfold inbin; rewrite A3, Nat.div_0_l by lia; now left].
           destruct (Nat.eq_dec x s); auto. exfalso. unfold SsspLib.dst in Hx. rewrite nth_upd_neq in Hx by auto. rewrite nth_repeat in Hx. lia.
      * intros t [].
      * constructor; [intros b Hb; lia|]. intros [|b] x I; [destruct I as [<-|[]]; rewrite A3; auto|destruct b; destruct I].
      * exists 0. auto.
    + intros _. unfold pot. cbn [pd pb map sum]. assert (SU := @sum_upd (repeat inf (length g)) s 0 ltac:(now rewrite repeat_length)). rewrite sum_repeat in SU. simpl length. lia.
  - discriminate.
Qed.
Lemma pdelta_ok sched fuel : let r := pdelta_stepping fuel D inf g s delta ind sched in
  ((exists j, ind j = None) /\ r = Ub) \/ (r = OutOfFuel /\ (quiet -> fuel < 2 * (length g * inf) + 1)) \/ exists d, r = Ok d /\ result d.
Proof.
  unfold pdelta_stepping. rewrite vset_lt by (rewrite repeat_length; auto). cbn [bind].
  apply pds_loop_ok. apply outer_init.
Qed.

(** ** The endless run: an unset `success` that reads true, and a cycle s -> v -> s of length below delta *)
Section Endless.
Variables (v w1 w2 : nat).
Hypothesis NVS : v <> s.
Hypothesis A1 : warc g s v w1.
Hypothesis A2 : warc g v s w2.
Hypothesis SM : w1 + w2 < delta.
Hypothesis TR : forall k, ind k = Some true.

Definition whot (dist : list nat) (a : nat) : Prop := a = s \/ (a = v /\ dst dist v <= w1).
Definition tk (d0 : nat) (st : pstate) (t : ptask) : Prop :=
  match t with
  | PV a => whot (pd st) a
  | PS a b w => (a = s /\ b = v /\ w = w1) \/ (a = v /\ b = s /\ w = w2 /\ dst (pd st) v <= w1)
  | PT a b w nx => (b = v /\ nx = w1) \/ (b = s /\ nx <= w1 + w2)
  | PC a b w nx pv => b = v /\ nx = w1 /\ pv <= d0
  | PG a nx => whot (pd st) a /\ nx < delta
  | PP a bin => whot (pd st) a /\ bin = 0
  end.
Definition btk (st : pstate) : Prop := exists a, In a (nth 0 (pb st) []) /\ whot (pd st) a.
(** v is queued under its label *)
Definition qd (ts : list ptask) (st : pstate) : Prop :=
  In (PG v (dst (pd st) v)) ts \/ In (PP v (dst (pd st) v / delta)) ts \/ In v (nth (dst (pd st) v / delta) (pb st) []).
Record tok (d0 : nat) (ts : list ptask) (st : pstate) : Prop := {
  t_le : dst (pd st) v <= d0;
  t_ch : dst (pd st) v = d0 \/ qd ts st;
  t_tk : (exists t, In t ts /\ tk d0 st t) \/ btk st
}.

Lemma whot_le d d' a : dst d' v <= dst d v -> whot d a -> whot d' a.
Proof. intros LE [->|[-> H]]; [now left|right; split; auto; lia]. Qed.
Lemma tk_le d0 st st' t : dst (pd st') v <= dst (pd st) v -> tk d0 st t -> tk d0 st' t.
Proof.
  intros LE. destruct t; cbn [tk]; auto.
  - apply whot_le; auto.
  - intros [H|(? & ? & ? & H)]; auto. right. repeat split; auto. lia.
  - intros [H ?]. split; auto. eapply whot_le; eauto.
  - intros [H ?]. split; auto. eapply whot_le; eauto.
Qed.

(** The moved task is the only thing to look at. *)
Lemma tok_step d0 l1 t o l2 st st' : tok d0 (l1 ++ t :: l2) st ->
  dst (pd st') v <= dst (pd st) v -> (forall b x, In x (nth b (pb st) []) -> In x (nth b (pb st') [])) ->
  (dst (pd st') v = dst (pd st) v \/ In (PG v (dst (pd st') v)) o) ->
  (qd [t] st -> dst (pd st') v = dst (pd st) v -> qd (l1 ++ o ++ l2) st') ->
  (tk d0 st t -> (exists t', In t' (l1 ++ o ++ l2) /\ tk d0 st' t') \/ btk st') ->
  tok d0 (l1 ++ o ++ l2) st'.
Proof.
  intros [TL TC TT] LE BI CH QD TK. constructor.
  - lia.
  - destruct CH as [CH|CH].
    + destruct TC as [E|Q]; [left; lia|]. right.
      assert (R : qd [t] st \/ qd (l1 ++ o ++ l2) st').
      { unfold qd in *. rewrite CH. destruct Q as [Q|[Q|Q]]; [| |right; right; right; now apply BI]; destruct (in_mid l1 o l2 _ _ Q) as [<-|I]; simpl; auto 8. }
      destruct R; auto.
    + right. left. apply in_or_app. right. apply in_or_app. now left.
  - destruct TT as [(t' & I & T')|(a & I & H)].
    + destruct (in_mid l1 o l2 _ _ I) as [->|I']; [now apply TK|]. left. exists t'. split; auto. eapply tk_le; eauto.
    + right. exists a. split; auto. eapply whot_le; eauto.
Qed.

Lemma pstep_tok M d0 l1 t l2 st o st' : pinv 0 M (l1 ++ t :: l2) st -> tok d0 (l1 ++ t :: l2) st -> pstep D delta g ind 0 t st = Ok (o, st') ->
  tok d0 (l1 ++ o ++ l2) st'.
Proof.
  intros [(rk & C) _] TK E. assert (TO := c_task C t ltac:(apply in_or_app; right; now left)). assert (CL := c_len C). assert (CS := c_src C).
  assert (Lv := HT _ _ _ A1).
  destruct t as [a|a b w|a b w nx|a b w nx pv|a nx|a bin]; cbn [task_ok pstep] in TO, E.
  - assert (La := core_lt _ C TO). rewrite (@vget_nth _ (pd st) a inf) in E by lia. cbn [bind] in E. rewrite Nat.mul_0_r in E. cbn [Nat.leb] in E.
    rewrite (@vget_nth _ g a []) in E by auto. cbn [bind] in E. injection E as <- <-. apply tok_step with (t := PV a) (st := st); auto.
    + intros [[X|[]]|[[X|[]]|X]] _; try discriminate X. right. right. exact X.
    + cbn [tk]. intros [->|[-> H]]; left; [exists (PS s v w1)|exists (PS v s w2)]; (split; [apply in_or_app; right; apply in_or_app; left|cbn [tk]; auto]).
      * apply in_map_iff. exists (v, w1). auto.
      * apply in_map_iff. exists (s, w2). auto.
  - destruct TO as (AR & Ha & _). assert (La := core_lt _ C Ha). rewrite (@vget_nth _ (pd st) a inf) in E by lia. cbn [bind] in E. fold (dst (pd st) a) in E.
    assert (GA := c_good C La Ha). destruct GA as (p & P & _). rewrite Nat.mod_small in E by (assert (X := NOV _ _ P AR); lia). injection E as <- <-.
    apply tok_step with (t := PS a b w) (st := st); auto.
    + intros [[X|[]]|[[X|[]]|X]] _; try discriminate X. right. right. exact X.
    + cbn [tk]. intros H. left. exists (PT a b w (dst (pd st) a + w)). split; [apply in_or_app; right; now left|]. cbn [tk].
      destruct H as [(-> & -> & ->)|(-> & -> & -> & H)]; [left|right]; split; auto; lia.
  - assert (Lb := HT _ _ _ (from_arc TO)). rewrite (@vget_nth _ (pd st) b inf) in E by lia. cbn [bind] in E. fold (dst (pd st) b) in E. rewrite TR in E.
    destruct (Nat.ltb_spec nx (dst (pd st) b)) as [LT|GE]; injection E as <- <-; apply tok_step with (t := PT a b w nx) (st := st); auto;
      try (intros [[X|[]]|[[X|[]]|X]] _; try discriminate X; right; right; exact X); cbn [tk]; intros H; left.
    + exists (PC a b w nx (dst (pd st) b)). split; [apply in_or_app; right; now left|]. cbn [tk]. assert (X := t_le TK). destruct H as [(-> & ->)|(-> & H)]; [auto|lia].
    + exists (PG b nx). split; [apply in_or_app; right; now left|]. cbn [tk pd]. destruct H as [(-> & ->)|(-> & H)]; (split; [|lia]); [right; auto|now left].
  - destruct TO as (F & LT & (LE1 & LE2) & _). assert (Lb := HT _ _ _ (from_arc F)). rewrite (@vget_nth _ (pd st) b inf) in E by lia. cbn [bind] in E. fold (dst (pd st) b) in E.
    destruct (Nat.eqb_spec (dst (pd st) b) pv) as [EQ|NE].
    + rewrite vset_lt in E by lia. cbn [bind] in E. injection E as <- <-.
      assert (UP : forall x, dst (upd (pd st) b nx) x = if x =? b then nx else dst (pd st) x).
      { intros x. unfold SsspLib.dst. destruct (Nat.eqb_spec x b) as [->|NX]; [apply nth_upd_eq; lia|apply nth_upd_neq; auto]. }
      apply tok_step with (t := PC a b w nx pv) (st := st); cbn [pd pb]; auto.
      * rewrite UP. destruct (Nat.eqb_spec v b) as [<-|]; lia.
      * rewrite UP. destruct (Nat.eqb_spec v b) as [<-|]; [right; now left|now left].
      * intros [[X|[]]|[[X|[]]|X]] Y; try discriminate X. right. right. cbn [pd pb]. rewrite Y. exact X.
      * cbn [tk]. intros (-> & -> & _). left. exists (PG v w1). split; [apply in_or_app; right; now left|]. cbn [tk pd]. split; [|lia]. right. split; auto.
        rewrite UP, Nat.eqb_refl. auto.
    + destruct (Nat.ltb_spec nx (dst (pd st) b)) as [LT'|GE]; injection E as <- <-; apply tok_step with (t := PC a b w nx pv) (st := st); auto;
        try (intros [[X|[]]|[[X|[]]|X]] _; try discriminate X; right; right; exact X); cbn [tk]; intros (-> & -> & H).
      * left. exists (PC a v w w1 (dst (pd st) v)). split; [apply in_or_app; right; now left|]. cbn [tk]. split; auto. split; auto. apply (t_le TK).
      * assert (Z : dst (pd st) v / delta = 0) by (apply Nat.div_small; lia).
        assert (W : whot (pd st) v) by (right; auto).
        destruct (t_ch TK) as [X|[X|[X|X]]]; [lia| | |].
        -- left. exists (PG v (dst (pd st) v)). split; [destruct (in_mid l1 [] l2 _ _ X) as [Y|Y]; [discriminate Y|exact Y]|]. cbn [tk]. split; auto. lia.
        -- left. exists (PP v 0). rewrite Z in X. split; [destruct (in_mid l1 [] l2 _ _ X) as [Y|Y]; [discriminate Y|exact Y]|]. cbn [tk]. split; auto.
        -- right. exists v. rewrite Z in X. auto.
  - destruct (Nat.eqb_spec delta 0); [lia|]. injection E as <- <-. apply tok_step with (t := PG a nx) (st := st); cbn [pd pb]; auto.
    + intros b x. now rewrite grow_nth.
    + intros [[X|[]]|[[X|[]]|X]] _; try discriminate X.
      * injection X as -> ->. right. left. cbn [pd]. apply in_or_app. right. now left.
      * right. right. cbn [pd pb]. now rewrite grow_nth.
    + cbn [tk]. intros (H & H2). left. exists (PP a (nx / delta)). split; [apply in_or_app; right; now left|]. cbn [tk pd]. split; auto. now apply Nat.div_small.
  - destruct TO as (_ & H2 & H3). rewrite (@vget_nth _ (pb st) bin []) in E by auto. cbn [bind] in E. rewrite vset_lt in E by auto. cbn [bind] in E. injection E as <- <-.
    assert (NU : forall b, nth b (upd (pb st) bin (nth bin (pb st) [] ++ [a])) [] = if b =? bin then nth bin (pb st) [] ++ [a] else nth b (pb st) []).
    { intros b. destruct (Nat.eqb_spec b bin) as [->|NE]; [apply nth_upd_eq; lia|apply nth_upd_neq; auto]. }
    apply tok_step with (t := PP a bin) (st := st); cbn [pd pb]; auto.
    + intros b x. rewrite NU. destruct (Nat.eqb_spec b bin) as [->|]; auto. intros I. apply in_or_app. auto.
    + intros [[X|[]]|[[X|[]]|X]] _; try discriminate X; right; right; cbn [pd pb]; rewrite NU.
      * injection X as -> <-. rewrite Nat.eqb_refl. apply in_or_app. right. now left.
      * destruct (Nat.eqb_spec (dst (pd st) v / delta) bin) as [<-|]; auto. apply in_or_app. now left.
    + cbn [tk]. intros (H & ->). right. exists a. cbn [pb pd]. split; auto. rewrite NU. simpl Nat.eqb. cbn iota. apply in_or_app. right. now left.
Qed.

Lemma pds_loop_endless sched fuel : forall k st M, outer M 0 st -> btk st -> forall d, pds_loop fuel D inf delta g ind sched k 0 st <> Ok d.
Proof.
  induction fuel; intros k st M [P NE] (a & Ia & Ha) d; cbn [pds_loop];
    (assert (LT : 0 < length (pb st)) by (destruct (pb st); [destruct Ia|simpl; lia])); destruct (Nat.ltb_spec 0 (length (pb st))); try lia; [discriminate|].
  rewrite (@vget_nth _ (pb st) 0 []) by auto. cbn [bind]. rewrite vset_lt by auto. cbn [bind].
  set (fr := nth 0 (pb st) []) in *. intros E. apply bind_Ok in E. destruct E as (st' & E1 & E2).
  assert (PI := pinv_start (conj P NE) LT). fold fr in PI.
  assert (FT : pinv 0 (M - 1) [] st' /\ tok (dst (pd st) v) [] st').
  { refine (@frun_post _ _ (pstep D delta g ind 0) (fun ts x => pinv 0 (M - 1) ts x /\ tok (dst (pd st) v) ts x) _ _ _ _ _ _ _ _ E1).
    - intros l1 t l2 x o x' [PX TX] ES. split; [|eapply pstep_tok; eauto].
      destruct (@pstep_ok 0 (M - 1) l1 t l2 x PX) as [[(j & NJ) _]|(o2 & x2 & EX & PX' & _)]; [rewrite TR in NJ; discriminate|]. rewrite EX in ES. injection ES as <- <-. auto.
    - split; auto. constructor; cbn [pd]; auto. left. exists (PV a). split; [now apply in_map|exact Ha]. }
  destruct FT as [PI' TK']. assert (B : btk st') by (destruct (t_tk TK') as [(t & [] & _)|B]; auto).
  assert (Z : ds_next (length (pb st')) 0 (pb st') = 0).
  { destruct B as (b & Ib & _). destruct (pb st') as [|b0 r]; [destruct Ib|]. cbn [length ds_next Nat.ltb Nat.leb nth]. destruct b0; [destruct Ib|auto]. }
  rewrite Z in E2. revert E2. apply IHfuel with (M := M - 1); auto. assert (O := outer_next PI'). now rewrite Z in O.
Qed.

Lemma pdelta_endless sched fuel : pdelta_stepping fuel D inf g s delta ind sched = OutOfFuel.
Proof.
  destruct (pdelta_ok sched fuel) as [[(j & NJ) _]|[[E _]|(d & E & _)]]; [rewrite TR in NJ; discriminate|auto|].
  exfalso. revert E. unfold pdelta_stepping. rewrite vset_lt by (rewrite repeat_length; auto). cbn [bind].
  apply pds_loop_endless with (M := 2 * (length g * inf) + 1); [apply outer_init|]. exists s. split; [now left|now left].
Qed.
End Endless.
End Pds.
