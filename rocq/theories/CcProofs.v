(** Lemmas for CcModel: link and compress under every interleaving. *)
From Coq Require Import List Arith Lia Bool Relations.
From Verif Require Import Base ConnLib Pool ParBfsModel ParBfsProofs CcModel.
Import ListNotations.
Set Implicit Arguments.

(** * Pools: a measure on the whole pool, and prefixes of executions *)
Section PoolMore.
Variables (T S : Type).
Variable step : T -> S -> res (option T * S).
Lemma run_inv_m (M : list T -> S -> nat) (I : list T -> S -> Prop) :
  (forall l1 t l2 s, I (l1 ++ t :: l2) s ->
     exists o s', step t s = Ok (o, s') /\ I (l1 ++ opt_list o ++ l2) s' /\ M (l1 ++ opt_list o ++ l2) s' < M (l1 ++ t :: l2) s) ->
  forall fuel sched now ts s, I ts s -> M ts s <= fuel -> exists s', run step fuel sched now ts s = Ok s' /\ I [] s'.
Proof.
  intros ST. assert (NZ : forall l1 t l2 s, I (l1 ++ t :: l2) s -> 0 < M (l1 ++ t :: l2) s).
  { intros l1 t l2 s H. destruct (ST _ _ _ _ H) as (o & s' & _ & _ & L). lia. }
  induction fuel; intros sched now ts s H HF.
  - destruct ts as [|t ts]; [exists s; auto|]. assert (X := NZ [] t ts s H). simpl in X. lia.
  - destruct ts as [|t0 ts0]; [exists s; auto|]. cbn [run].
    remember (t0 :: ts0) as ts. assert (NE : length ts <> 0) by (subst; discriminate).
    set (i := sched now mod length ts). assert (Hi : i < length ts) by (apply Nat.mod_upper_bound; auto).
    destruct (nth_error ts i) as [t|] eqn:E; [|apply nth_error_None in E; lia]. rewrite (proj2 (vget_Ok ts i t) E). cbn [bind].
    destruct (nth_error_split _ _ E) as (l1 & l2 & SP & LL).
    replace (firstn i ts) with l1 by (rewrite SP, <- LL, firstn_app, firstn_all, Nat.sub_diag; simpl; now rewrite app_nil_r).
    replace (skipn (Datatypes.S i) ts) with l2 by (rewrite SP, <- LL, skipn_app, skipn_all2 by lia; now replace (Datatypes.S (length l1) - length l1) with 1 by lia).
    rewrite SP in H, HF. destruct (ST _ _ _ _ H) as (o & s' & E' & H' & L). rewrite E'. cbn [bind fst snd]. apply IHfuel; auto; lia.
Qed.

(** The pool after at most k steps. *)
Fixpoint runk (k : nat) (sched : nat -> nat) (now : nat) (ts : list T) (s : S) : res (list T * S) :=
  match ts, k with
  | [], _ | _, 0 => Ok (ts, s)
  | _, Datatypes.S k' =>
      let i := sched now mod length ts in
      do t <- vget ts i ;
      do r <- step t s ;
      runk k' sched (Datatypes.S now) (firstn i ts ++ opt_list (fst r) ++ skipn (Datatypes.S i) ts) (snd r)
  end.
Lemma runk_inv (I : list T -> S -> Prop) :
  (forall l1 t l2 s, I (l1 ++ t :: l2) s -> exists o s', step t s = Ok (o, s') /\ I (l1 ++ opt_list o ++ l2) s') ->
  forall k sched now ts s, I ts s -> exists ts' s', runk k sched now ts s = Ok (ts', s') /\ I ts' s'.
Proof.
  intros ST. induction k; intros sched now ts s H.
  - exists ts, s. split; auto. destruct ts; auto.
  - destruct ts as [|t0 ts0]; [exists [], s; auto|]. cbn [runk].
    remember (t0 :: ts0) as ts. assert (NE : length ts <> 0) by (subst; discriminate).
    set (i := sched now mod length ts). assert (Hi : i < length ts) by (apply Nat.mod_upper_bound; auto).
    destruct (nth_error ts i) as [t|] eqn:E; [|apply nth_error_None in E; lia]. rewrite (proj2 (vget_Ok ts i t) E). cbn [bind].
    destruct (nth_error_split _ _ E) as (l1 & l2 & SP & LL).
    replace (firstn i ts) with l1 by (rewrite SP, <- LL, firstn_app, firstn_all, Nat.sub_diag; simpl; now rewrite app_nil_r).
    replace (skipn (Datatypes.S i) ts) with l2 by (rewrite SP, <- LL, skipn_app, skipn_all2 by lia; now replace (Datatypes.S (length l1) - length l1) with 1 by lia).
    rewrite SP in H. destruct (ST _ _ _ _ H) as (o & s' & E' & H'). rewrite E'. cbn [bind fst snd]. apply IHk; auto.
Qed.
End PoolMore.

(** * The edges x -- comp[x] *)
Definition lab (comp : list nat) (x : nat) : nat := nth x comp x.
Definition cedges (comp : list nat) : list (nat * nat) := map (fun x => (x, lab comp x)) (seq 0 (length comp)).
Lemma in_cedges comp a b : In (a, b) (cedges comp) <-> a < length comp /\ b = lab comp a.
Proof.
  unfold cedges. rewrite in_map_iff. split.
  - intros (x & E & I). injection E as <- <-. apply in_seq in I. split; [lia|auto].
  - intros [L ->]. exists a. split; auto. apply in_seq. lia.
Qed.
Definition comp_ok (n : nat) (comp : list nat) : Prop := length comp = n /\ forall x, x < n -> lab comp x <= x.
Definition below (comp' comp : list nat) : Prop := forall x, lab comp' x <= lab comp x.
Lemma lab_get n comp x : comp_ok n comp -> x < n -> vget comp x = Ok (lab comp x).
Proof. intros [L _] H. apply (@vget_nth _ comp x x). lia. Qed.
Lemma lab_upd comp x y z : x < length comp -> lab (upd comp x y) z = if z =? x then y else lab comp z.
Proof.
  intros L. unfold lab. destruct (Nat.eqb_spec z x) as [->|N]; [now apply nth_upd_eq|]. apply nth_upd_neq; auto.
Qed.

Lemma conn_swap A B X u v : (forall a b, In (a, b) A -> conn (B ++ X) a b) -> (forall a b, In (a, b) B -> conn (A ++ X) a b) ->
  (conn (A ++ X) u v <-> conn (B ++ X) u v).
Proof.
  intros H1 H2. split; apply conn_mono; intros a b I; apply in_app_or in I; destruct I as [I|I]; auto; apply conn_edge, in_or_app; auto.
Qed.
Lemma conn_app1 A B u v : conn A u v -> conn (A ++ B) u v.
Proof. apply conn_incl. intros e I. apply in_or_app. auto. Qed.
Lemma conn_app2 A B u v : conn B u v -> conn (A ++ B) u v.
Proof. apply conn_incl. intros e I. apply in_or_app. auto. Qed.

(** * link *)
Section Link.
Variables (n W : nat).
Hypothesis HW : n <= W.

(** The edge a link still has to realise. *)
Definition lk_pend (t : lk) : nat * nat :=
  match t with LkP1 u v => (u, v) | LkP2 p1 x => (p1, x) | LkHigh p1 p2 => (p1, p2) | LkCas h l => (h, l) | LkNext _ p l => (p, l) end.
Definition lk_ok (comp : list nat) (t : lk) : Prop :=
  fst (lk_pend t) < n /\ snd (lk_pend t) < n /\
  match t with
  | LkHigh p1 p2 => p1 <> p2
  | LkCas h l => l < h
  | LkNext h p l => lab comp p <= h
  | _ => True
  end.
Definition opend (o : option lk) : list (nat * nat) := match o with Some t => [lk_pend t] | None => [] end.

Lemma lk_low_min p1 p2 : p1 < n -> p2 < n -> lk_low W p1 p2 = Nat.min p1 p2.
Proof.
  intros H1 H2. unfold lk_low. destruct (Nat.le_ge_cases p1 p2) as [L|L].
  - rewrite Nat.max_r, Nat.min_l by auto. replace (p2 + W - p2) with (0 + 1 * W) by lia. rewrite Nat.mod_add by lia. rewrite Nat.mod_0_l by lia.
    rewrite Nat.add_0_r, Nat.mod_small; lia.
  - rewrite Nat.max_l, Nat.min_r by auto. destruct (Nat.eq_dec p1 p2) as [->|N].
    + replace (p2 + W - p2) with (0 + 1 * W) by lia. rewrite Nat.mod_add by lia. rewrite Nat.mod_0_l, Nat.add_0_r, Nat.mod_small; lia.
    + rewrite (Nat.mod_small (p2 + W - p1)) by lia. replace (p1 + (p2 + W - p1)) with (p2 + 1 * W) by lia. rewrite Nat.mod_add, Nat.mod_small; lia.
Qed.
Lemma lk_ok_below comp comp' t : below comp' comp -> lk_ok comp t -> lk_ok comp' t.
Proof. intros B (H1 & H2 & H3). split; auto. split; auto. destruct t; auto. specialize (B p_high). lia. Qed.

Lemma lk_step_ok comp t : comp_ok n comp -> lk_ok comp t ->
  exists o comp', lk_step W t comp = Ok (o, comp') /\ comp_ok n comp' /\ below comp' comp /\
    (match o with Some t' => lk_ok comp' t' /\ lk_size t' < lk_size t | None => True end) /\
    forall X u v, conn ((cedges comp' ++ opend o) ++ X) u v <-> conn ((cedges comp ++ [lk_pend t]) ++ X) u v.
Proof.
  intros C (H1 & H2 & H3). assert (C' := C). destruct C' as [LC LE]. assert (BR : below comp comp) by (intros x; auto).
  assert (CE : forall A X x, x < n -> conn ((cedges comp ++ A) ++ X) x (lab comp x)).
  { intros A X x Hx. apply conn_app1, conn_app1, conn_edge. apply in_cedges. split; [lia|auto]. }
  assert (CP : forall A e X, conn ((A ++ [e]) ++ X) (fst e) (snd e)).
  { intros A [a b] X. apply conn_app1, conn_app2, conn_edge. now left. }
  (* same comp, pending edge replaced by an equivalent one or dropped *)
  assert (RE : forall e o X u v, (forall X, conn ((cedges comp ++ opend o) ++ X) (fst e) (snd e)) ->
     (forall t', o = Some t' -> forall X, conn ((cedges comp ++ [e]) ++ X) (fst (lk_pend t')) (snd (lk_pend t'))) ->
     (conn ((cedges comp ++ opend o) ++ X) u v <-> conn ((cedges comp ++ [e]) ++ X) u v)).
  { intros e o X u v A1 A2. apply conn_swap; intros a b I; apply in_app_or in I; destruct I as [I|I].
    - apply conn_app1, conn_app1, conn_edge; auto.
    - destruct o as [t'|]; [|destruct I]. destruct I as [I|[]]. specialize (A2 t' eq_refl X). rewrite I in A2. exact A2.
    - apply conn_app1, conn_app1, conn_edge; auto.
    - destruct I as [I|[]]. specialize (A1 X). rewrite I in A1. exact A1. }
  destruct t as [a b|p1 x|p1 p2|h l|h p l]; cbn [lk_pend fst snd] in *; cbn [lk_step].
  - rewrite (lab_get C H1). cbn [bind]. eexists _, _. split; [reflexivity|]. assert (LA := LE a H1). repeat split; auto; cbn [lk_pend fst snd lk_size]; try lia.
    + apply (proj1 (RE (a, b) (Some (LkP2 (lab comp a) b)) X u v ltac:(cbn [fst snd opend lk_pend]; intros Y; eapply conn_trans; [apply CE; auto|apply (CP (cedges comp) (lab comp a, b))]) ltac:(intros t' E Y; injection E as <-; cbn [fst snd lk_pend]; eapply conn_trans; [apply conn_sym, CE; auto|apply (CP (cedges comp) (a, b))]))).
    + apply (proj2 (RE (a, b) (Some (LkP2 (lab comp a) b)) X u v ltac:(cbn [fst snd opend lk_pend]; intros Y; eapply conn_trans; [apply CE; auto|apply (CP (cedges comp) (lab comp a, b))]) ltac:(intros t' E Y; injection E as <-; cbn [fst snd lk_pend]; eapply conn_trans; [apply conn_sym, CE; auto|apply (CP (cedges comp) (a, b))]))).
  - rewrite (lab_get C H2). cbn [bind]. eexists _, _. split; [reflexivity|]. assert (LA := LE x H2). split; auto. split; auto. split.
    + destruct (Nat.eqb_spec p1 (lab comp x)); auto. repeat split; cbn [lk_pend fst snd lk_size]; auto; lia.
    + intros X u v. destruct (Nat.eqb_spec p1 (lab comp x)) as [->|N].
      * apply RE; [|discriminate]. intros Y. cbn [fst snd]. apply conn_sym, CE; auto.
      * apply RE; [intros Y|intros t' E Y; injection E as <-]; cbn [fst snd opend lk_pend].
        -- eapply conn_trans; [apply (CP (cedges comp) (p1, lab comp x))|apply conn_sym, CE; auto].
        -- eapply conn_trans; [apply (CP (cedges comp) (p1, x))|apply CE; auto].
  - rewrite (lk_low_min H1 H2). set (high := Nat.max p1 p2). set (low := Nat.min p1 p2).
    assert (HH : high < n) by (unfold high; lia). assert (HL : low < high) by (unfold high, low; lia). assert (SUM : high + low = p1 + p2) by (unfold high, low; lia).
    assert (PE : forall Y, conn ((cedges comp ++ [(p1, p2)]) ++ Y) high low).
    { intros Y. unfold high, low. destruct (Nat.le_ge_cases p1 p2); [rewrite Nat.max_r, Nat.min_l by auto; apply conn_sym|rewrite Nat.max_l, Nat.min_r by auto]; apply (CP (cedges comp) (p1, p2)). }
    assert (EP : forall A Y, conn (A ++ Y) high low -> conn (A ++ Y) p1 p2).
    { intros A Y. unfold high, low. destruct (Nat.le_ge_cases p1 p2); [rewrite Nat.max_r, Nat.min_l by auto; apply conn_sym|rewrite Nat.max_l, Nat.min_r by auto; auto]. }
    rewrite (lab_get C HH). cbn [bind]. eexists _, _. split; [reflexivity|]. assert (LA := LE high HH). split; auto. split; auto. split.
    + destruct (Nat.eqb_spec (lab comp high) low); auto. destruct (Nat.eqb_spec (lab comp high) high); repeat split; cbn [lk_pend fst snd lk_size]; auto; try lia.
      rewrite LE by lia. auto.
    + intros X u v. destruct (Nat.eqb_spec (lab comp high) low) as [E|N].
      * apply RE; [|discriminate]. intros Y. cbn [fst snd]. apply EP. rewrite <- E. apply CE; auto.
      * destruct (Nat.eqb_spec (lab comp high) high) as [E|N2].
        -- apply RE; [intros Y|intros t' E2 Y; injection E2 as <-]; cbn [fst snd opend lk_pend]; auto. apply EP. apply (CP (cedges comp) (high, low)).
        -- apply RE; [intros Y|intros t' E2 Y; injection E2 as <-]; cbn [fst snd opend lk_pend].
           ++ apply EP. eapply conn_trans; [apply CE; auto|apply (CP (cedges comp) (lab comp high, low))].
           ++ eapply conn_trans; [apply conn_sym, CE; auto|auto].
  - rewrite (lab_get C H1). cbn [bind]. assert (LA := LE h H1). destruct (Nat.eqb_spec (lab comp h) h) as [E|N].
    + rewrite vset_lt by lia. cbn [bind]. eexists _, _. split; [reflexivity|]. assert (LU : forall z, lab (upd comp h l) z = if z =? h then l else lab comp z) by (intros; apply lab_upd; lia).
      split; [|split; [|split; auto]].
      * split; [now rewrite upd_length|]. intros z Hz. rewrite LU. destruct (Nat.eqb_spec z h); auto. lia.
      * intros z. rewrite LU. destruct (Nat.eqb_spec z h) as [->|]; auto. lia.
      * intros X u v. cbn [opend]. apply conn_swap; intros a b I; apply in_app_or in I; destruct I as [I|I]; try (destruct I; fail).
        -- apply in_cedges in I. rewrite upd_length in I. destruct I as [I ->]. rewrite LU. destruct (Nat.eqb_spec a h) as [->|]; [apply (CP (cedges comp) (h, l))|apply CE; lia].
        -- apply in_cedges in I. destruct I as [I ->]. destruct (Nat.eq_dec a h) as [->|NE]; [rewrite E; apply conn_refl|].
           apply conn_app1, conn_app1, conn_edge, in_cedges. rewrite upd_length, LU. destruct (Nat.eqb_spec a h); [congruence|auto].
        -- destruct I as [I|[]]. injection I as <- <-. apply conn_app1, conn_app1, conn_edge, in_cedges. rewrite upd_length, LU, Nat.eqb_refl. split; auto; lia.
    + eexists _, _. split; [reflexivity|]. split; auto. split; auto. split.
      * repeat split; cbn [lk_pend fst snd lk_size]; auto. lia.
      * intros X u v. apply RE; [intros Y|intros t' E2 Y; injection E2 as <-]; cbn [fst snd opend lk_pend]; apply (CP (cedges comp) (h, l)).
  - rewrite (lab_get C H1). cbn [bind]. assert (LA := LE p H1). eexists _, _. split; [reflexivity|]. split; auto. split; auto. split.
    + repeat split; cbn [lk_pend fst snd lk_size]; auto; try lia.
    + intros X u v. apply RE; [intros Y|intros t' E2 Y; injection E2 as <-]; cbn [fst snd opend lk_pend].
      * eapply conn_trans; [apply CE; auto|apply (CP (cedges comp) (lab comp p, l))].
      * eapply conn_trans; [apply conn_sym, CE; auto|apply (CP (cedges comp) (p, l))].
Qed.

(** Invariant of a pool of links: nothing is gained or lost. *)
Definition lk_inv (E : list (nat * nat)) (ts : list lk) (comp : list nat) : Prop :=
  comp_ok n comp /\ Forall (lk_ok comp) ts /\ forall u v, conn (cedges comp ++ map lk_pend ts) u v <-> conn E u v.
Lemma conn_perm_app A e B X u v : conn (A ++ map lk_pend (B ++ e :: X)) u v <-> conn ((A ++ [lk_pend e]) ++ map lk_pend (B ++ X)) u v.
Proof.
  split; apply conn_incl; intros x I; repeat rewrite in_app_iff in *; rewrite map_app, in_app_iff in *; simpl in *; intuition.
Qed.
Lemma lk_inv_step E l1 t l2 comp : lk_inv E (l1 ++ t :: l2) comp ->
  exists o comp', lk_step W t comp = Ok (o, comp') /\ lk_inv E (l1 ++ opt_list o ++ l2) comp' /\ match o with Some t' => lk_size t' < lk_size t | None => True end.
Proof.
  intros (C & F & H). apply Forall_app in F. destruct F as [F1 F2]. inversion F2; subst.
  destruct (lk_step_ok C H2) as (o & comp' & E1 & C' & B & OK & Q). exists o, comp'. split; auto. split; [|destruct o; tauto].
  split; auto. split.
  - apply Forall_app. split; [eapply Forall_impl; [|exact F1]; intros a; apply lk_ok_below; auto|]. apply Forall_app. split; [|eapply Forall_impl; [|exact H3]; intros a; apply lk_ok_below; auto].
    destruct o; [constructor; [tauto|constructor]|constructor].
  - intros u v. rewrite <- H, conn_perm_app, <- Q. destruct o as [t'|]; cbn [opt_list opend app].
    + apply conn_perm_app.
    + now rewrite app_nil_r.
Qed.
Lemma lk_inv_init comp es : comp_ok n comp -> (forall a b, In (a, b) es -> a < n /\ b < n) ->
  lk_inv (cedges comp ++ es) (map (fun e => LkP1 (fst e) (snd e)) es) comp.
Proof.
  intros C H. split; auto. split.
  - apply Forall_forall. intros t I. apply in_map_iff in I. destruct I as ([a b] & <- & I). destruct (H a b I). repeat split; auto.
  - intros u v. rewrite map_map. cbn [lk_pend]. replace (map (fun x => (fst x, snd x)) es) with es; [tauto|]. clear. induction es as [|[a b] es IH]; simpl; congruence.
Qed.
Lemma link_all_ok sched es comp : comp_ok n comp -> (forall a b, In (a, b) es -> a < n /\ b < n) ->
  exists comp', link_all W sched es comp = Ok comp' /\ comp_ok n comp' /\ forall u v, conn (cedges comp') u v <-> conn (cedges comp ++ es) u v.
Proof.
  intros C H. unfold link_all. destruct (@run_all_inv _ _ lk_size (lk_step W) (lk_inv (cedges comp ++ es)) (@lk_inv_step _) sched _ comp (lk_inv_init es C H)) as (comp' & E & C' & _ & Q).
  exists comp'. split; auto. split; auto. intros u v. rewrite <- Q. simpl. now rewrite app_nil_r.
Qed.
End Link.

(** * Forests of labels: the root of a vertex *)
Section Roots.
Variable n : nat.
Fixpoint climb (k : nat) (comp : list nat) (x : nat) : nat := match k with 0 => x | S k' => climb k' comp (lab comp x) end.
Definition root (comp : list nat) (x : nat) : nat := climb x comp x.
Lemma climb_root comp : comp_ok n comp -> forall k x, x < n -> x <= k -> lab comp (climb k comp x) = climb k comp x /\ climb k comp x <= x /\ climb k comp x < n.
Proof.
  intros C. induction k; intros x Hx Hk; cbn [climb].
  - assert (x = 0) by lia. subst. destruct C as [_ C]. specialize (C 0 Hx). lia.
  - assert (L := proj2 C x Hx). destruct (Nat.eq_dec (lab comp x) x) as [E|N].
    + assert (F : forall j, climb j comp x = x) by (induction j; cbn [climb]; auto; now rewrite E). rewrite E, F. auto.
    + destruct (IHk (lab comp x)) as (A & B & D); lia.
Qed.
Lemma climb_fix comp x : lab comp x = x -> forall j, climb j comp x = x.
Proof. intros E. induction j; cbn [climb]; auto. now rewrite E. Qed.
Lemma climb_more comp : comp_ok n comp -> forall k x, x < n -> x <= k -> climb (S k) comp x = climb k comp x.
Proof.
  intros C. induction k; intros x Hx Hk.
  - assert (x = 0) by lia. subst. cbn [climb]. assert (L := proj2 C 0 Hx). lia.
  - change (climb (S (S k)) comp x) with (climb (S k) comp (lab comp x)). change (climb (S k) comp x) with (climb k comp (lab comp x)).
    assert (L := proj2 C x Hx). destruct (Nat.eq_dec (lab comp x) x) as [E|N]; [rewrite E, !climb_fix; auto|]. apply IHk; lia.
Qed.
Lemma climb_ge comp k x : comp_ok n comp -> x < n -> x <= k -> climb k comp x = root comp x.
Proof. intros C Hx Hk. unfold root. induction Hk; auto. rewrite climb_more; auto. Qed.
Lemma root_props comp x : comp_ok n comp -> x < n -> lab comp (root comp x) = root comp x /\ root comp x <= x /\ root comp x < n.
Proof. intros C Hx. apply (climb_root C); auto. Qed.
Lemma root_lab comp x : comp_ok n comp -> x < n -> root comp (lab comp x) = root comp x.
Proof.
  intros C Hx. assert (L := proj2 C x Hx). rewrite <- (@climb_ge comp x (lab comp x)) by (auto; lia). rewrite <- (@climb_ge comp (S x) x) by (auto; lia). reflexivity.
Qed.
Lemma root_fix comp x : lab comp x = x -> root comp x = x.
Proof. intros E. now apply climb_fix. Qed.
Lemma climb_conn comp : comp_ok n comp -> forall k x, x < n -> conn (cedges comp) x (climb k comp x).
Proof.
  intros C. induction k; intros x Hx; cbn [climb]; [apply conn_refl|]. assert (L := proj2 C x Hx).
  eapply conn_trans; [|apply IHk; lia]. apply conn_edge, in_cedges. split; auto. destruct C; lia.
Qed.
Lemma conn_cedges_dom comp u v : comp_ok n comp -> conn (cedges comp) u v -> u = v \/ (u < n /\ v < n).
Proof.
  intros C. induction 1 as [a b I|a|a b _ IH|a b c _ IH1 _ IH2]; auto; try lia.
  apply in_cedges in I. destruct I as [I ->]. right. destruct C as [L C]. rewrite L in I. specialize (C a I). lia.
Qed.
Lemma root_conn comp u v : comp_ok n comp -> u < n -> v < n -> (root comp u = root comp v <-> conn (cedges comp) u v).
Proof.
  intros C Hu Hv. split.
  - intros E. eapply conn_trans; [apply (climb_conn C u Hu)|]. apply conn_sym. fold (root comp u). rewrite E. apply climb_conn; auto.
  - intros H. assert (D : forall u v, conn (cedges comp) u v -> root comp u = root comp v).
    { induction 1 as [a b I|a|a b _ IH|a b c _ IH1 _ IH2]; auto; try congruence. apply in_cedges in I. destruct I as [I ->]. symmetry. apply root_lab; auto. destruct C; lia. }
    auto.
Qed.
(** The root of x is the least vertex connected to x. *)
Lemma root_least comp x y : comp_ok n comp -> x < n -> y < n -> conn (cedges comp) x y -> root comp x <= y.
Proof. intros C Hx Hy H. apply (root_conn C Hx Hy) in H. rewrite H. now apply root_props. Qed.
Lemma root_up comp x : comp_ok n comp -> x < n -> exists k, up (lab comp) k x (root comp x).
Proof.
  intros C Hx. assert (H : forall m x, x < m -> x < n -> exists k, up (lab comp) k x (root comp x)).
  { induction m as [|m IH]; intros y Hm Hy; [lia|]. assert (L := proj2 C y Hy). destruct (Nat.eq_dec (lab comp y) y) as [E|N].
    - exists 0. rewrite root_fix by auto. now constructor.
    - destruct (IH (lab comp y)) as [k U]; try lia. exists (S k). constructor; auto. now rewrite root_lab in U by auto. }
  apply (H (S x)); auto.
Qed.
End Roots.

(** * compress *)
Section Compress.
Variable n : nat.
Variable rt : nat -> nat.          (* the roots at the start *)
Hypothesis rt_le : forall x, x < n -> rt x <= x.
Definition ck_id (t : ck) : nat := match t with CkA n | CkB n _ | CkC n _ _ | CkFoo n | CkBar n _ | CkSet n _ => n end.
Definition ck_ph (t : ck) : nat := match t with CkA _ => 6 | CkB _ _ => 5 | CkC _ _ _ => 4 | CkFoo _ => 3 | CkBar _ _ => 2 | CkSet _ _ => 1 end.
Definition ck_ok (comp : list nat) (t : ck) : Prop :=
  ck_id t < n /\
  match t with
  | CkA _ => True
  | CkB x a => a = lab comp x
  | CkC x a b => a = lab comp x /\ b = lab comp x
  | CkFoo x => lab comp (lab comp x) <> lab comp x
  | CkBar x foo => foo = lab comp x /\ lab comp foo <> foo
  | CkSet x bar => bar < lab comp x /\ rt bar = rt x
  end.
Record ck_inv (ts : list ck) (comp : list nat) : Prop := {
  ci_comp : comp_ok n comp;
  ci_rt : forall x, x < n -> rt (lab comp x) = rt x;
  ci_root : forall x, x < n -> lab comp x = x -> rt x = x;
  ci_nd : NoDup (map ck_id ts);
  ci_ok : Forall (ck_ok comp) ts;
  ci_done : forall x, x < n -> In x (map ck_id ts) \/ lab comp x = rt x }.

Lemma ci_fixed ts comp x : ck_inv ts comp -> x < n -> rt x = x -> lab comp x = x.
Proof.
  intros I Hx E. assert (L := proj2 (ci_comp I) x Hx). assert (R := ci_rt I Hx). assert (Y := rt_le (x := lab comp x) ltac:(lia)). rewrite R, E in Y. lia.
Qed.

Lemma ck_step_ok l1 t l2 comp : ck_inv (l1 ++ t :: l2) comp ->
  exists o comp', ck_step t comp = Ok (o, comp') /\ ck_inv (l1 ++ opt_list o ++ l2) comp' /\
    6 * sum comp' + sum (map ck_ph (l1 ++ opt_list o ++ l2)) < 6 * sum comp + sum (map ck_ph (l1 ++ t :: l2)).
Proof.
  intros I. assert (C := ci_comp I). assert (F := ci_ok I). apply Forall_app in F. destruct F as [F1 F2]. inversion F2 as [|t' l' [Hid Ht] F3]; subst.
  (* replacing t by a task of the same vertex *)
  assert (RE : forall t', ck_id t' = ck_id t -> ck_ok comp t' -> ck_ph t' < ck_ph t ->
     ck_inv (l1 ++ [t'] ++ l2) comp /\ 6 * sum comp + sum (map ck_ph (l1 ++ [t'] ++ l2)) < 6 * sum comp + sum (map ck_ph (l1 ++ t :: l2))).
  { intros t' Ei Eo Ep. assert (EM : map ck_id (l1 ++ [t'] ++ l2) = map ck_id (l1 ++ t :: l2)) by (rewrite !map_app; cbn [app map]; now rewrite Ei). split.
    - destruct I. constructor; auto; rewrite ?EM; auto. apply Forall_app. split; auto. constructor; auto.
    - rewrite !map_app, !sum_app. cbn [app map sum]. lia. }
  destruct t as [x|x a|x a b|x|x foo|x bar]; cbn [ck_id] in *; cbn [ck_step].
  - rewrite (lab_get C Hid). cbn [bind]. eexists _, _. split; [reflexivity|]. apply RE; auto. split; auto.
  - rewrite (lab_get C Hid). cbn [bind]. eexists _, _. split; [reflexivity|]. apply RE; auto. split; auto.
  - destruct Ht as [-> ->]. assert (LX := proj2 C x Hid). rewrite (lab_get C (x := lab comp x)) by lia. cbn [bind]. eexists _, _. split; [reflexivity|].
    destruct (Nat.eqb_spec (lab comp x) (lab comp (lab comp x))) as [E|N].
    + cbn [opt_list app]. split.
      * destruct I. constructor; auto.
        -- rewrite map_app in *. cbn [map] in *. now apply NoDup_remove_1 in ci_nd0.
        -- apply Forall_app. auto.
        -- intros y Hy. destruct (ci_done0 y Hy) as [Q|Q]; auto. rewrite map_app in *. cbn [map ck_id] in Q. apply in_app_or in Q. destruct Q as [Q|[Q|Q]].
           ++ left. apply in_or_app. auto.
           ++ subst y. right. rewrite <- (ci_rt0 x Hid). symmetry. apply ci_root0; auto. lia.
           ++ left. apply in_or_app. auto.
      * rewrite !map_app, !sum_app. cbn [map sum ck_ph]. lia.
    + apply RE; auto. split; auto.
  - rewrite (lab_get C Hid). cbn [bind]. eexists _, _. split; [reflexivity|]. apply RE; auto. split; auto.
  - destruct Ht as [-> Hr]. assert (LX := proj2 C x Hid). rewrite (lab_get C (x := lab comp x)) by lia. cbn [bind]. eexists _, _. split; [reflexivity|].
    apply RE; auto. split; auto. assert (LF := proj2 C (lab comp x) ltac:(lia)). split; [lia|]. rewrite (ci_rt I) by lia. apply (ci_rt I); auto.
  - destruct Ht as [HB HR]. assert (LX := proj2 C x Hid). assert (LC := proj1 C). rewrite vset_lt by lia. cbn [bind]. eexists _, _. split; [reflexivity|].
    assert (LU : forall z, lab (upd comp x bar) z = if z =? x then bar else lab comp z) by (intros; apply lab_upd; lia).
    assert (ND := ci_nd I). rewrite map_app in ND. cbn [map ck_id] in ND. assert (NI := NoDup_remove_2 _ _ _ ND).
    assert (OK : forall t', In t' (l1 ++ l2) -> ck_ok comp t' -> ck_ok (upd comp x bar) t').
    { intros t' It [Ho Hp]. assert (NE : ck_id t' <> x). { intros E. apply NI. rewrite <- E, <- map_app. now apply in_map. }
      split; auto. assert (RX : forall y, y < n -> lab comp y <> y -> lab (upd comp x bar) y <> y).
      { intros y Hy N. rewrite LU. destruct (Nat.eqb_spec y x) as [->|]; auto. lia. }
      destruct t' as [y|y a|y a b|y|y foo|y b]; cbn [ck_id] in *; auto; assert (EY : lab (upd comp x bar) y = lab comp y) by (rewrite LU; destruct (Nat.eqb_spec y x); congruence); rewrite EY; auto.
      - apply RX; auto. assert (Q := proj2 C y Ho). lia.
      - destruct Hp as [-> Hp]. split; auto. apply RX; auto. assert (Q := proj2 C y Ho). lia. }
    cbn [opt_list app]. split.
    + destruct I. constructor.
      * split; [now rewrite upd_length|]. intros z Hz. rewrite LU. destruct (Nat.eqb_spec z x); [subst; lia|]. now apply C.
      * intros z Hz. rewrite LU. destruct (Nat.eqb_spec z x) as [->|]; auto.
      * intros z Hz. rewrite LU. destruct (Nat.eqb_spec z x) as [->|]; auto. lia.
      * rewrite map_app. cbn [map ck_id]. auto.
      * apply Forall_app. split; [|constructor; [split; auto; exact Logic.I|]]; apply Forall_forall; intros t' It; apply OK; try (apply in_or_app; now auto).
        -- rewrite Forall_forall in F1. auto.
        -- rewrite Forall_forall in F3. auto.
      * intros z Hz. rewrite map_app in *. cbn [map ck_id] in *. destruct (ci_done0 z Hz) as [Q|Q]; auto. rewrite LU. destruct (Nat.eqb_spec z x) as [->|]; auto. left. apply in_or_app. right. now left.
    + rewrite !map_app, !sum_app. cbn [map sum ck_ph].
      assert (SU : sum (upd comp x bar) + lab comp x = sum comp + bar).
      { clear - Hid LC. unfold lab. assert (Hx : x < length comp) by lia. clear LC Hid. generalize x at 3 as dd. revert x Hx. induction comp as [|y comp IH]; intros x Hx dd; [simpl in Hx; lia|].
        destruct x; cbn [upd sum nth]; [lia|]. simpl in Hx. specialize (IH x ltac:(lia) dd). lia. }
      lia.
Qed.
End Compress.

Lemma compress_ok n sched comp : comp_ok n comp ->
  exists comp', compress sched comp = Ok comp' /\ length comp' = n /\ forall x, x < n -> nth x comp' x = root comp x.
Proof.
  intros C. assert (LC := proj1 C).
  assert (RL : forall x, x < n -> root comp x <= x) by (intros x Hx; now apply (root_props C)).
  destruct (@run_inv_m _ _ ck_step (fun ts s => 6 * sum s + sum (map ck_ph ts)) (ck_inv n (root comp)) (@ck_step_ok n (root comp)))
    with (fuel := 6 * sum comp + 7 * length comp) (sched := sched) (now := 0) (ts := map CkA (seq 0 (length comp))) (s := comp) as (comp' & E & I).
  - constructor; auto.
    + intros x Hx. apply (root_lab C Hx).
    + intros x Hx. apply root_fix.
    + rewrite map_map. cbn [ck_id]. rewrite map_id. apply seq_NoDup.
    + apply Forall_forall. intros t I. apply in_map_iff in I. destruct I as (x & <- & I). apply in_seq in I. split; auto. cbn [ck_id]. lia.
    + intros x Hx. left. rewrite map_map. cbn [ck_id]. rewrite map_id. apply in_seq. lia.
  - rewrite map_map. cbn [ck_ph]. enough (S : forall k a, sum (map (fun _ : nat => 6) (seq a k)) = 6 * k) by (rewrite S; lia).
    induction k; intros a; cbn [seq map sum]; auto. rewrite IHk. lia.
  - exists comp'. split; auto. split; [apply (ci_comp I)|]. intros x Hx. destruct (ci_done I Hx) as [[]|Q]. exact Q.
Qed.
