(** Lemmas about bk_maxflow (BkModel.v): the two search trees. *)
From Coq Require Import List Arith ZArith Bool Lia.
From Verif Require Import Base BkModel BkLib.
Import ListNotations.
Local Open Scope nat_scope.

Definition dn : bnode := {| x_tree := false; x_e := None; x_pr := PNone; x_ts := 0; x_dist := 0; x_cap := 0 |}.
Definition N (vs : list bnode) (v : nat) : bnode := nth v vs dn.
Definition ra (r : nat -> nat -> Z) (e : nat * nat) : Z := r (fst e) (snd e).

Lemma N_upd vs q x v : q < length vs -> N (upd vs q x) v = if v =? q then x else N vs v.
Proof.
  intros L. unfold N. destruct (Nat.eqb_spec v q) as [->|H]; [now apply nth_upd_eq|]. apply nth_upd_neq; auto.
Qed.
Lemma N_eq vs q x : q < length vs -> N (upd vs q x) q = x.
Proof. intros. rewrite N_upd, Nat.eqb_refl; auto. Qed.
Lemma N_neq vs q x v : q < length vs -> v <> q -> N (upd vs q x) v = N vs v.
Proof. intros L H. rewrite N_upd by auto. destruct (Nat.eqb_spec v q); congruence. Qed.
Lemma N_out vs v : length vs <= v -> N vs v = dn.
Proof. intros. unfold N. now apply nth_overflow. Qed.
Lemma N_get vs v : v < length vs -> vget vs v = Ok (N vs v).
Proof. intros. unfold N. apply vget_nth; auto. Qed.

(** counting records *)
Definition cnt (P : bnode -> bool) (vs : list bnode) : nat := length (filter P vs).
Lemma cnt_le P vs : cnt P vs <= length vs.
Proof. unfold cnt. induction vs as [|x vs IH]; cbn; [lia|]. destruct (P x); cbn; lia. Qed.
Lemma cnt_upd P vs q x : q < length vs -> cnt P (upd vs q x) + (if P (N vs q) then 1 else 0) = cnt P vs + (if P x then 1 else 0).
Proof.
  revert q. induction vs as [|y vs IH]; intros q L; [cbn in L; lia|]. destruct q as [|q]; cbn in L |- *.
  - unfold cnt, N. cbn. destruct (P x), (P y); cbn; lia.
  - specialize (IH q ltac:(lia)). unfold cnt, N in *. cbn. destruct (P y); cbn; lia.
Qed.
Lemma cnt_mono P vs vs' : length vs = length vs' -> (forall v, P (N vs' v) = true -> P (N vs v) = true) -> cnt P vs' <= cnt P vs.
Proof.
  revert vs'. induction vs as [|x vs IH]; intros [|x' vs'] L H; cbn in L; try lia; injection L as L.
  assert (A : cnt P vs' <= cnt P vs) by (apply IH; auto; intros v; apply (H (S v))). assert (B := H 0). cbn in B. unfold cnt in *. cbn.
  destruct (P x'); [rewrite B by auto|destruct (P x)]; cbn; lia.
Qed.

Local Arguments N : simpl never.
Local Arguments upd : simpl never.

Lemma arc_inj t p q p' q' : arc t p q = arc t p' q' -> p = p' /\ q = q'.
Proof. destruct t; cbn; intros E; inversion E; auto. Qed.
Lemma rpush_nonneg r e m : (forall a b, 0 <= r a b)%Z -> (0 <= m <= ra r e)%Z -> forall a b, (0 <= rpush r e m a b)%Z.
Proof.
  intros H [M1 M2] a b. unfold rpush, same_arc, ra in *. specialize (H a b).
  destruct (Nat.eqb_spec a (fst e)), (Nat.eqb_spec b (snd e)), (Nat.eqb_spec b (fst e)), (Nat.eqb_spec a (snd e)); cbn; subst; try lia.
Qed.

Section Bk.
  Variable g : list (list (nat * Z)).
  Let n := length g.
  Hypothesis Sym : forall p q, In q (nbr g p) -> In p (nbr g q).
  Hypothesis Loop : forall p, ~ In p (nbr g p).

  Lemma nbr_lt p q : In q (nbr g p) -> p < n /\ q < n.
  Proof.
    assert (A : forall a b, In b (nbr g a) -> a < n).
    { intros a b H. unfold nbr in H. destruct (Nat.lt_ge_cases a n) as [|L]; auto. rewrite nth_overflow in H by auto. destruct H. }
    intros H. split; eauto.
  Qed.

  (** The trees: [O] are the orphans, [X] vertices whose children need not have consistent labels. *)
  Record tinv (X O : list nat) (r : nat -> nat -> Z) (gt : nat) (vs : list bnode) : Prop := {
    t_len : length vs = n;
    t_up : forall v w, x_pr (N vs v) = PVtx w ->
      In v (nbr g w) /\ x_tree (N vs w) = x_tree (N vs v) /\ (x_pr (N vs w) <> PNone \/ In w O) /\
      x_e (N vs v) = Some (arc (x_tree (N vs v)) w v) /\ (0 < ra r (arc (x_tree (N vs v)) w v))%Z /\
      (~ In w X -> x_ts (N vs v) <= x_ts (N vs w) /\ (x_ts (N vs v) = x_ts (N vs w) -> x_dist (N vs w) < x_dist (N vs v)));
    t_src : forall v, x_pr (N vs v) = PSource -> x_tree (N vs v) = false /\ (0 < x_cap (N vs v))%Z /\ x_dist (N vs v) = 1;
    t_trm : forall v, x_pr (N vs v) = PTerm -> x_tree (N vs v) = true /\ (x_cap (N vs v) < 0)%Z /\ x_dist (N vs v) = 1;
    t_pos : forall v, (0 < x_cap (N vs v))%Z -> x_pr (N vs v) = PSource;
    t_neg : forall v, (x_cap (N vs v) < 0)%Z -> x_pr (N vs v) = PTerm;
    t_dist : forall v, x_pr (N vs v) <> PNone -> 1 <= x_dist (N vs v);
    t_ts : forall v, x_ts (N vs v) <= gt;
    t_orp : forall o, In o O -> o < n /\ x_pr (N vs o) = PNone;
    t_nd : NoDup O }.

  Lemma pr_lt X O r gt vs v : tinv X O r gt vs -> x_pr (N vs v) <> PNone -> v < n.
  Proof. intros T H. destruct (Nat.lt_ge_cases v n) as [|L]; auto. rewrite N_out in H by (rewrite (t_len _ _ _ _ _ T); auto). cbn in H. congruence. Qed.
  Lemma up_neq X O r gt vs v w : tinv X O r gt vs -> x_pr (N vs v) = PVtx w -> v <> w.
  Proof. intros T H ->. destruct (t_up _ _ _ _ _ T _ _ H) as (A & _). now apply Loop in A. Qed.
  Lemma cap_0 X O r gt vs v : tinv X O r gt vs -> x_pr (N vs v) <> PSource -> x_pr (N vs v) <> PTerm -> x_cap (N vs v) = 0%Z.
  Proof.
    intros T A B. destruct (Z.lt_trichotomy (x_cap (N vs v)) 0) as [L|[L|L]]; auto; exfalso.
    - apply B, (t_neg _ _ _ _ _ T); auto.
    - apply A, (t_pos _ _ _ _ _ T); auto.
  Qed.

  (** ** Walking up *)
  Inductive path (vs : list bnode) : nat -> list nat -> Prop :=
  | path_end v : (forall w, x_pr (N vs v) <> PVtx w) -> path vs v []
  | path_up v w l : x_pr (N vs v) = PVtx w -> path vs w l -> path vs v (w :: l).
  Definition above (vs : list bnode) (u v : nat) : Prop :=
    x_ts (N vs u) < x_ts (N vs v) \/ (x_ts (N vs u) = x_ts (N vs v) /\ x_dist (N vs v) < x_dist (N vs u)).

  Lemma in_range_length (l : list nat) : NoDup l -> (forall u, In u l -> u < n) -> length l <= n.
  Proof. intros ND H. rewrite <- (seq_length n 0). apply NoDup_incl_length; auto. intros u I. apply in_seq. specialize (H u I). lia. Qed.

  Lemma path_build O r gt vs : tinv [] O r gt vs -> forall k v seen, length seen + k = n -> v < n -> NoDup seen ->
    (forall u, In u seen -> u < n /\ above vs u v) ->
    exists l, path vs v l /\ NoDup (v :: l) /\ forall u, In u l -> u < n /\ above vs v u.
  Proof.
    intros T. induction k as [|k IH]; intros v seen HL Hv ND HS.
    - exfalso. assert (L : length (v :: seen) <= n).
      { apply in_range_length; [constructor; auto|]; intros; [intros I; destruct (HS _ I) as (_ & A); unfold above in A; lia|].
        destruct H as [<-|H]; auto. now apply HS. }
      cbn in L. lia.
    - destruct (x_pr (N vs v)) as [| | |w] eqn:E.
      1,2,3: exists []; split; [constructor; intros w; congruence|]; split; [constructor; [intros []|constructor]|intros u []].
      destruct (t_up _ _ _ _ _ T _ _ E) as (A & _ & _ & _ & _ & L). destruct (nbr_lt _ _ A) as [Lw _]. destruct (L (fun x => x)) as [L1 L2].
      assert (AB : above vs v w). { unfold above. destruct (Nat.eq_dec (x_ts (N vs v)) (x_ts (N vs w))) as [Q|Q]; [right; auto|left; lia]. }
      destruct (IH w (v :: seen)) as (l & P & ND' & HU).
      + cbn. lia.
      + auto.
      + constructor; auto. intros I. destruct (HS _ I) as (_ & Y). unfold above in Y. lia.
      + intros u [<-|I]; [auto|]. destruct (HS _ I) as (Y & Z). split; auto. unfold above in *. lia.
      + exists (w :: l). split; [econstructor; eauto|]. assert (Q : forall u, In u (w :: l) -> u < n /\ above vs v u).
        { intros u [<-|I]; auto. destruct (HU _ I) as (Y & Z). split; auto. unfold above in *. lia. }
        split; auto. constructor; auto. intros I. destruct (Q _ I) as (_ & Z). unfold above in Z. lia.
  Qed.
  Lemma path_ex O r gt vs v : tinv [] O r gt vs -> v < n -> exists l, path vs v l /\ NoDup (v :: l) /\ (forall u, In u (v :: l) -> u < n) /\ length l < n.
  Proof.
    intros T L. destruct (path_build _ _ _ _ T n v []) as (l & P & ND & H); auto; [constructor|intros u []|]. exists l. split; auto. split; auto.
    assert (Q : forall u, In u (v :: l) -> u < n) by (intros u [<-|I]; auto; now apply H). split; auto. apply (in_range_length _ ND) in Q. cbn in Q. lia.
  Qed.
  Lemma path_tree X O r gt vs v l : tinv X O r gt vs -> path vs v l -> forall u, In u (v :: l) -> x_tree (N vs u) = x_tree (N vs v).
  Proof.
    intros T P. induction P as [v H|v w l E P IH]; intros u [<-|I]; auto; [destruct I|].
    destruct (t_up _ _ _ _ _ T _ _ E) as (_ & A & _). rewrite <- A. now apply IH.
  Qed.
  Lemma path_pr r gt vs v l : tinv [] [] r gt vs -> path vs v l -> x_pr (N vs v) <> PNone -> forall u, In u (v :: l) -> x_pr (N vs u) <> PNone.
  Proof.
    intros T P. induction P as [v H|v w l E P IH]; intros HN u [<-|I]; auto.
    destruct (t_up _ _ _ _ _ T _ _ E) as (_ & _ & [A|[]] & _). now apply IH.
  Qed.
  Lemma path_ext vs vs' v l : path vs v l -> (forall u, In u (v :: l) -> x_pr (N vs' u) = x_pr (N vs u)) -> path vs' v l.
  Proof.
    intros P. induction P as [v H|v w l E P IH]; intros H'.
    - constructor. intros w. rewrite H' by (now left). auto.
    - econstructor; [rewrite H' by (now left); eauto|]. apply IH. intros u I. apply H'. now right.
  Qed.

  (** ** Grow *)
  Lemma attach X O O' r gt vs p q ts d cap :
    tinv X O r gt vs -> In q (nbr g p) -> x_pr (N vs p) <> PNone -> (0 < ra r (arc (x_tree (N vs p)) p q))%Z -> cap = 0%Z -> x_cap (N vs q) = 0%Z ->
    ts <= x_ts (N vs p) -> (ts = x_ts (N vs p) -> x_dist (N vs p) < d) -> 1 <= d ->
    (forall v, x_pr (N vs v) = PVtx q -> x_tree (N vs q) = x_tree (N vs p) /\ x_ts (N vs v) <= ts /\ (x_ts (N vs v) = ts -> d < x_dist (N vs v))) ->
    (forall o, In o O' -> In o O /\ o <> q) -> (forall o, In o O -> o <> q -> In o O') -> NoDup O' ->
    tinv X O' r gt (upd vs q {| x_tree := x_tree (N vs p); x_e := Some (arc (x_tree (N vs p)) p q); x_pr := PVtx p; x_ts := ts; x_dist := d; x_cap := cap |}).
  Proof.
    intros T A HP HR -> HC L1 L2 L3 HCh H1 H2 ND. destruct (nbr_lt _ _ A) as [Lp Lq]. assert (PQ : p <> q) by (intros ->; now apply Loop in A).
    assert (LL := t_len _ _ _ _ _ T). assert (Lq' : q < length vs) by lia.
    constructor; try (rewrite upd_length; auto; fail); auto.
    - intros v w. rewrite (N_upd _ _ _ v) by auto. destruct (Nat.eqb_spec v q) as [->|NV].
      + cbn. intros E. injection E as <-. rewrite N_neq by auto. repeat split; auto.
      + intros E. destruct (t_up _ _ _ _ _ T _ _ E) as (B1 & B2 & B3 & B4 & B5 & B6). rewrite (N_upd _ _ _ w) by auto. destruct (Nat.eqb_spec w q) as [->|NW].
        * cbn. destruct (HCh _ E) as (C1 & C2 & C3). repeat split; auto; try congruence. left. congruence.
        * repeat split; auto; try (now apply B6). destruct B3; auto.
    - intros v. rewrite N_upd by auto. destruct (Nat.eqb_spec v q) as [->|NV]; cbn; [congruence|]. apply (t_src _ _ _ _ _ T).
    - intros v. rewrite N_upd by auto. destruct (Nat.eqb_spec v q) as [->|NV]; cbn; [congruence|]. apply (t_trm _ _ _ _ _ T).
    - intros v. rewrite N_upd by auto. destruct (Nat.eqb_spec v q) as [->|NV]; cbn; [lia|]. apply (t_pos _ _ _ _ _ T).
    - intros v. rewrite N_upd by auto. destruct (Nat.eqb_spec v q) as [->|NV]; cbn; [lia|]. apply (t_neg _ _ _ _ _ T).
    - intros v. rewrite N_upd by auto. destruct (Nat.eqb_spec v q) as [->|NV]; cbn; [auto|]. apply (t_dist _ _ _ _ _ T).
    - intros v. rewrite N_upd by auto. destruct (Nat.eqb_spec v q) as [->|NV]; cbn; [|apply (t_ts _ _ _ _ _ T)]. assert (Y := t_ts _ _ _ _ _ T p). lia.
    - intros o I. destruct (H1 _ I) as [I1 I2]. rewrite N_neq by auto. now apply (t_orp _ _ _ _ _ T).
  Qed.

  (** what is in a tree, and: a vertex that is not active has no residual arc that leaves its tree *)
  Definition intree (vs : list bnode) (O : list nat) (v : nat) : Prop := x_pr (N vs v) <> PNone \/ In v O.
  Definition kinv (vs : list bnode) (r : nat -> nat -> Z) (O act : list nat) : Prop :=
    forall v w, intree vs O v -> ~ In v act -> In w (nbr g v) -> (0 < ra r (arc (x_tree (N vs v)) v w))%Z -> intree vs O w /\ x_tree (N vs w) = x_tree (N vs v).
  Lemma kinv_mono vs vs' r O O' act act' : kinv vs r O act ->
    (forall v, intree vs' O' v -> ~ In v act' -> intree vs O v /\ ~ In v act /\ x_tree (N vs' v) = x_tree (N vs v)) ->
    (forall v, intree vs O v -> intree vs' O' v /\ x_tree (N vs' v) = x_tree (N vs v)) -> kinv vs' r O' act'.
  Proof.
    intros K H1 H2 v w I NA A R. destruct (H1 _ I NA) as (I1 & NA1 & E). rewrite E in R |- *. destruct (K _ _ I1 NA1 A R) as (Y & Z).
    destruct (H2 _ Y) as (Y' & Z'). split; auto. congruence.
  Qed.

  Definition isnone (x : bnode) : bool := match x_pr x with PNone => true | _ => false end.
  Lemma isnone_false x : x_pr x <> PNone -> isnone x = false.
  Proof. unfold isnone. destruct (x_pr x); congruence. Qed.
  Lemma none_off vs q x : q < length vs -> x_pr (N vs q) = PNone -> x_pr x <> PNone -> S (cnt isnone (upd vs q x)) = cnt isnone vs.
  Proof. intros L A B. assert (C := cnt_upd isnone vs q x L). rewrite (isnone_false _ B) in C. unfold isnone at 2 in C. rewrite A in C. lia. Qed.
  Lemma none_same vs q x : q < length vs -> x_pr (N vs q) <> PNone -> x_pr x <> PNone -> cnt isnone (upd vs q x) = cnt isnone vs.
  Proof. intros L A B. assert (C := cnt_upd isnone vs q x L). rewrite (isnone_false _ B), (isnone_false _ A) in C. lia. Qed.

  Record scan_res (p : nat) (t : bool) (row : list nat) (st : bk) (o : option nat) (st' : bk) : Prop := {
    s_t : tinv [] [] (k_r st) (k_gt st) (k_vs st');
    s_same : k_r st' = k_r st /\ k_orp st' = k_orp st /\ k_mf st' = k_mf st /\ k_gt st' = k_gt st;
    s_cap : forall v, x_cap (N (k_vs st') v) = x_cap (N (k_vs st) v);
    s_p : N (k_vs st') p = N (k_vs st) p;
    s_act : exists new, k_act st' = k_act st ++ new /\ (forall u, In u new -> u < n) /\ length new + cnt isnone (k_vs st') = cnt isnone (k_vs st);
    s_keep : forall v, x_pr (N (k_vs st) v) <> PNone -> x_pr (N (k_vs st') v) <> PNone /\ x_tree (N (k_vs st') v) = x_tree (N (k_vs st) v);
    s_k : kinv (k_vs st) (k_r st) [] (k_act st) -> kinv (k_vs st') (k_r st) [] (k_act st');
    s_some : forall q, o = Some q -> In q row /\ x_pr (N (k_vs st') q) <> PNone /\ x_tree (N (k_vs st') q) = negb t /\ (0 < ra (k_r st) (arc t p q))%Z;
    s_none : o = None -> forall w, In w row -> (0 < ra (k_r st) (arc t p w))%Z -> x_pr (N (k_vs st') w) <> PNone /\ x_tree (N (k_vs st') w) = t }.

  Lemma scan_ok p t : forall row st, incl row (nbr g p) -> tinv [] [] (k_r st) (k_gt st) (k_vs st) -> x_pr (N (k_vs st) p) <> PNone -> x_tree (N (k_vs st) p) = t ->
    exists o st', bk_scan p t row st = Ok (o, st') /\ scan_res p t row st o st'.
  Proof.
    induction row as [|q row IH]; intros st IN T HP Ht.
    - exists None, st. split; auto. constructor; auto; try congruence; [exists []; rewrite app_nil_r; repeat split; auto; intros u []|intros _ w []].
    - assert (Aq : In q (nbr g p)) by (apply IN; now left). destruct (nbr_lt _ _ Aq) as [Lp Lq]. assert (PQ : p <> q) by (intros ->; now apply Loop in Aq).
      assert (LL := t_len _ _ _ _ _ T). assert (Lq' : q < length (k_vs st)) by lia. assert (Lp' : p < length (k_vs st)) by lia.
      assert (IN' : incl row (nbr g p)) by (intros u I; apply IN; now right). cbn [bk_scan].
      destruct (Z.leb_spec (rcap st (arc t p q)) 0) as [R|R].
      { destruct (IH st IN' T HP Ht) as (o & st' & E & Z). exists o, st'. split; auto. destruct Z. constructor; auto.
        - intros q' Eq. destruct (s_some0 _ Eq) as (A & B). split; auto. now right.
        - intros Eo w [<-|I] W; [unfold rcap, ra in *; lia|]. auto. }
      rewrite (N_get _ _ Lq'). cbn [bind].
      assert (CA : x_pr (N (k_vs st) q) = PNone \/ (x_pr (N (k_vs st) q) <> PNone /\
        forall (X : Type) (a b : X), (match x_pr (N (k_vs st) q) with PNone => a | _ => b end) = b)).
      { destruct (x_pr (N (k_vs st) q)); auto; right; split; auto; congruence. }
      destruct CA as [EN|[EN ->]].
      + rewrite EN, (N_get _ _ Lp'). cbn [bind]. rewrite vset_lt by auto. cbn [bind].
        match goal with |- context[bk_scan p t row ?s] => set (st1 := s) end.
        assert (T1 : tinv [] [] (k_r st1) (k_gt st1) (k_vs st1)).
        { cbn. subst t. assert (C0 : x_cap (N (k_vs st) q) = 0%Z) by (eapply cap_0; eauto; congruence).
          apply attach with (O := []); auto; try apply NoDup_nil; try lia; try (now intros o []).
          intros v Ev. destruct (t_up _ _ _ _ _ T _ _ Ev) as (_ & _ & [Y|[]] & _). congruence. }
        assert (P1 : N (k_vs st1) p = N (k_vs st) p) by (cbn; rewrite N_neq; auto).
        destruct (IH st1 IN' T1) as (o & st' & E & Z); try (rewrite P1; auto). exists o, st'. split; auto. destruct Z. cbn [k_r k_gt k_orp k_mf with_act with_vs st1] in *.
        assert (KP : forall v, x_pr (N (k_vs st) v) <> PNone -> x_pr (N (k_vs st1) v) <> PNone /\ x_tree (N (k_vs st1) v) = x_tree (N (k_vs st) v)).
        { intros v V. cbn. assert (v <> q) by congruence. rewrite N_neq by auto. auto. }
        assert (Q1 : x_pr (N (k_vs st1) q) <> PNone /\ x_tree (N (k_vs st1) q) = t) by (cbn; rewrite N_eq by auto; cbn; split; congruence).
        constructor; auto.
        * intros v. rewrite s_cap0. cbn. rewrite N_upd by auto. destruct (Nat.eqb_spec v q) as [->|]; auto.
        * congruence.
        * destruct s_act0 as (new & E1 & E2 & E3). cbn in E1. exists (q :: new). split; [rewrite E1, <- app_assoc; auto|]. split; [intros u [<-|I]; auto|].
          assert (C : S (cnt isnone (k_vs st1)) = cnt isnone (k_vs st)) by (apply none_off; auto; discriminate). cbn [length]. lia.
        * intros v V. destruct (KP v V) as (V1 & V2). destruct (s_keep0 v V1) as (V3 & V4). split; auto. congruence.
        * intros K. apply s_k0. eapply kinv_mono; [exact K| |].
          -- intros v [I|[]] NA. cbn in NA, I |- *. rewrite in_app_iff in NA. cbn in NA. assert (v <> q) by (intros ->; tauto). rewrite N_neq in I |- * by auto. repeat split; auto. now left.
          -- intros v [I|[]]. destruct (KP v I). split; auto. now left.
        * intros q' Eq. destruct (s_some0 _ Eq) as (A & B). split; auto. now right.
        * intros Eo w [<-|I] W; auto. destruct Q1 as (Q1 & Q2). destruct (s_keep0 q Q1) as (A & B). split; auto. congruence.
      + destruct (negb (eqb (x_tree (N (k_vs st) q)) t)) eqn:EB.
        { exists (Some q), st. split; auto. constructor; auto; try congruence.
          - exists []. rewrite app_nil_r. repeat split; auto. intros u [].
          - intros q' Eq. injection Eq as <-. split; [now left|]. split; auto. split; auto. destruct (x_tree (N (k_vs st) q)), t; cbn in *; congruence. }
        assert (Et : x_tree (N (k_vs st) q) = t) by (destruct (x_tree (N (k_vs st) q)), t; cbn in *; congruence).
        rewrite (N_get _ _ Lp'). cbn [bind].
        destruct ((x_ts (N (k_vs st) q) <=? x_ts (N (k_vs st) p)) && (x_dist (N (k_vs st) p) <? x_dist (N (k_vs st) q))) eqn:EC.
        * rewrite vset_lt by auto. cbn [bind]. apply andb_true_iff in EC as [C1 C2]. apply Nat.leb_le in C1. apply Nat.ltb_lt in C2.
          match goal with |- context[bk_scan p t row ?s] => set (st1 := s) end.
          assert (DP := t_dist _ _ _ _ _ T p HP).
          assert (T1 : tinv [] [] (k_r st1) (k_gt st1) (k_vs st1)).
          { cbn. rewrite Et. subst t.
            assert (C0 : x_cap (N (k_vs st) q) = 0%Z).
            { eapply cap_0; eauto; intros Y; [apply (t_src _ _ _ _ _ T) in Y|apply (t_trm _ _ _ _ _ T) in Y]; lia. }
            apply attach with (O := []); auto; try apply NoDup_nil; try lia; try (now intros o []); auto.
            intros v Ev. destruct (t_up _ _ _ _ _ T _ _ Ev) as (_ & _ & _ & _ & _ & L). destruct (L (fun x => x)). repeat split; auto; lia. }
          assert (P1 : N (k_vs st1) p = N (k_vs st) p) by (cbn; rewrite N_neq; auto).
          destruct (IH st1 IN' T1) as (o & st' & E & Z); try (rewrite P1; auto). exists o, st'. split; auto. destruct Z. cbn [k_r k_gt k_orp k_mf with_act with_vs st1] in *.
          assert (KP : forall v, x_pr (N (k_vs st) v) <> PNone -> x_pr (N (k_vs st1) v) <> PNone /\ x_tree (N (k_vs st1) v) = x_tree (N (k_vs st) v)).
          { intros v V. cbn. rewrite N_upd by auto. destruct (Nat.eqb_spec v q) as [->|]; cbn; split; congruence. }
          constructor; auto.
          -- intros v. rewrite s_cap0. cbn. rewrite N_upd by auto. destruct (Nat.eqb_spec v q) as [->|]; auto.
          -- congruence.
          -- destruct s_act0 as (new & E1 & E2 & E3). cbn in E1. exists new. split; auto. split; auto.
             rewrite E3. apply none_same; auto. discriminate.
          -- intros v V. destruct (KP v V) as (V1 & V2). destruct (s_keep0 v V1) as (V3 & V4). split; auto. congruence.
          -- intros K. apply s_k0. eapply kinv_mono; [exact K| |].
             ++ intros v [I|[]] NA. cbn in NA. assert (I2 : x_pr (N (k_vs st) v) <> PNone).
                { cbn in I. destruct (Nat.eq_dec v q) as [Q|Q]; [rewrite Q; auto|]. rewrite N_neq in I; auto. }
                split; [now left|]. split; auto. now apply KP.
             ++ intros v [I|[]]. destruct (KP v I). split; auto. now left.
          -- intros q' Eq. destruct (s_some0 _ Eq) as (A & B). split; auto. now right.
          -- intros Eo w [<-|I] W; auto. destruct (KP q EN) as (Q1 & Q2). destruct (s_keep0 q Q1) as (A & B). split; auto. congruence.
        * destruct (IH st IN' T HP Ht) as (o & st' & E & Z). exists o, st'. split; auto. destruct Z. constructor; auto.
          -- intros q' Eq. destruct (s_some0 _ Eq) as (A & B). split; auto. now right.
          -- intros Eo w [<-|I] W; auto. destruct (s_keep0 q EN). split; auto. congruence.
  Qed.

  Lemma tinv_gt X O r gt gt' vs : tinv X O r gt vs -> gt <= gt' -> tinv X O r gt' vs.
  Proof. intros T L. destruct T. constructor; auto. intros v. specialize (t_ts0 v). lia. Qed.

  Record grow_res (st : bk) (o : option (nat * nat)) (st' : bk) : Prop := {
    g_t : tinv [] [] (k_r st) (k_gt st') (k_vs st');
    g_same : k_r st' = k_r st /\ k_orp st' = k_orp st /\ k_mf st' = k_mf st;
    g_cap : forall v, x_cap (N (k_vs st') v) = x_cap (N (k_vs st) v);
    g_act : forall u, In u (k_act st') -> u < n;
    g_k : kinv (k_vs st) (k_r st) [] (k_act st) -> kinv (k_vs st') (k_r st) [] (k_act st');
    g_none : o = None -> k_act st' = [];
    g_some : forall a b, o = Some (a, b) -> In b (nbr g a) /\ (0 < k_r st a b)%Z /\ x_pr (N (k_vs st') a) <> PNone /\ x_tree (N (k_vs st') a) = false /\
      x_pr (N (k_vs st') b) <> PNone /\ x_tree (N (k_vs st') b) = true /\ (forall v, x_ts (N (k_vs st') v) < k_gt st') }.

  Lemma grow_ok : forall fuel st, tinv [] [] (k_r st) (k_gt st) (k_vs st) -> (forall u, In u (k_act st) -> u < n) ->
    length (k_act st) + cnt isnone (k_vs st) < fuel -> exists o st', bk_grow fuel g st = Ok (o, st') /\ grow_res st o st'.
  Proof.
    induction fuel as [|fuel IH]; intros st T HA HF; [lia|]. cbn [bk_grow]. destruct (k_act st) as [|p rest] eqn:EA.
    - exists None, st. split; auto. constructor; auto; try congruence. rewrite EA. intros u [].
    - assert (Lp : p < n) by (apply HA; now left). assert (LL := t_len _ _ _ _ _ T). rewrite (N_get (k_vs st) p) by lia. cbn [bind].
      assert (HAr : forall u, In u rest -> u < n) by (intros u I; apply HA; now right).
      assert (CA : x_pr (N (k_vs st) p) = PNone \/ (x_pr (N (k_vs st) p) <> PNone /\
        forall (X : Type) (a b : X), (match x_pr (N (k_vs st) p) with PNone => a | _ => b end) = b)).
      { destruct (x_pr (N (k_vs st) p)); auto; right; split; auto; congruence. }
      destruct CA as [EN|[EN ->]].
      + rewrite EN. destruct (IH (with_act st rest)) as (o & st' & E & Z); auto; [cbn [k_act k_vs with_act length] in HF |- *; lia|]. exists o, st'. split; auto. destruct Z.
        constructor; auto. cbn in g_k0. intros K. apply g_k0. intros v w I NA A R. apply K; auto. intros IA. rewrite EA in IA. destruct IA as [<-|IA]; auto.
        destruct I as [I|[]]; congruence.
      + rewrite (@vget_nth _ g p []) by auto. cbn [bind]. fold (nbr g p).
        destruct (scan_ok p (x_tree (N (k_vs st) p)) (nbr g p) st) as (o & st' & E & Z); auto; [apply incl_refl|]. rewrite E. cbn [bind fst snd].
        destruct Z. destruct s_same0 as (Q1 & Q2 & Q3 & Q4). destruct s_act0 as (new & W1 & W2 & W3).
        destruct o as [q|].
        * eexists _, _. split; [reflexivity|]. destruct (s_some0 q eq_refl) as (Aq & PQ & TQ & RQ).
          assert (TT : tinv [] [] (k_r st) (k_gt (tick st')) (k_vs st')) by (eapply tinv_gt; [exact s_t0|]; cbn; lia).
          constructor; cbn [tick k_r k_orp k_mf k_vs k_act]; auto; try congruence.
          -- intros u I. rewrite W1, EA in I. apply in_app_iff in I. destruct I as [I|I]; auto.
          -- intros a b Eo. injection Eo as Eo.
             assert (TS : forall v, x_ts (N (k_vs st') v) < k_gt (tick st')).
             { intros v. assert (Y := t_ts _ _ _ _ _ s_t0 v). cbn. lia. }
             destruct (x_tree (N (k_vs st) p)) eqn:Ep; cbn [arc] in Eo; injection Eo as <- <-; unfold ra in RQ; cbn in RQ, TQ; rewrite s_p0; repeat split; auto.
        * set (st2 := with_act (tick st') (tl (k_act (tick st')))). assert (EA2 : k_act st2 = rest ++ new) by (cbn; rewrite W1, EA; auto).
          assert (R2 : k_r st2 = k_r st) by (cbn; auto). assert (V2 : k_vs st2 = k_vs st') by reflexivity.
          assert (HA2 : forall u, In u (k_act st2) -> u < n) by (intros u; rewrite EA2, in_app_iff; intros [I|I]; auto).
          destruct (IH st2) as (o & st3 & E3 & Z); auto.
          -- rewrite R2. eapply tinv_gt; [exact s_t0|]. cbn. lia.
          -- rewrite EA2, V2, app_length. cbn in HF. lia.
          -- exists o, st3. split; auto. destruct Z. rewrite R2 in *. constructor; auto.
             ++ destruct g_same0 as (Y1 & Y2 & Y3). repeat split; auto; [rewrite Y2|rewrite Y3]; cbn; auto.
             ++ intros v. rewrite g_cap0. auto.
             ++ intros K. apply g_k0. rewrite V2. specialize (s_k0 K).
                intros v w I NA A R. destruct (Nat.eq_dec v p) as [->|NV].
                ** rewrite s_p0 in R |- *. destruct (s_none0 eq_refl w A R) as (Y1 & Y2). split; auto. now left.
                ** apply s_k0; auto. rewrite W1, EA. intros [Y|Y]; [congruence|]. apply NA. rewrite EA2. auto.
  Qed.

  (** ** Augment *)
  Definition lim (t : bool) (vs : list bnode) (r : nat -> nat -> Z) (m : Z) (l : list nat) : Prop :=
    forall u, In u l -> (forall w, x_pr (N vs u) = PVtx w -> (m <= ra r (arc t w u))%Z) /\
      (is_root t (x_pr (N vs u)) = true -> (m <= if t then - x_cap (N vs u) else x_cap (N vs u))%Z).
  Lemma lim_le t vs r m m' l : lim t vs r m l -> (m' <= m)%Z -> lim t vs r m' l.
  Proof. intros H L u I. destruct (H u I) as (A & B). split; [intros w E; specialize (A w E); lia|]. intros E. specialize (B E). lia. Qed.

  Lemma min_ok gt st t v l : tinv [] [] (k_r st) gt (k_vs st) -> path (k_vs st) v l -> x_pr (N (k_vs st) v) <> PNone -> x_tree (N (k_vs st) v) = t ->
    forall m fuel, (0 < m)%Z -> length l < fuel ->
    exists m', bk_min fuel t st v m = Ok m' /\ (0 < m' <= m)%Z /\ lim t (k_vs st) (k_r st) m' (v :: l).
  Proof.
    intros T P. induction P as [v H|v w l E P IH]; intros HN Ht m fuel Hm HF; (destruct fuel as [|fuel]; [lia|]); cbn [bk_min];
      assert (Lv := pr_lt _ _ _ _ _ _ T HN); assert (LL := t_len _ _ _ _ _ T); rewrite (N_get (k_vs st) v) by lia; cbn [bind].
    - assert (IR : is_root t (x_pr (N (k_vs st) v)) = true).
      { destruct (x_pr (N (k_vs st) v)) eqn:Q; cbn; try congruence; [apply (t_src _ _ _ _ _ T) in Q|apply (t_trm _ _ _ _ _ T) in Q]; destruct Q as (Q & _); rewrite <- Ht, Q; auto. }
      rewrite IR. eexists. split; [reflexivity|].
      assert (C : (0 < if t then - x_cap (N (k_vs st) v) else x_cap (N (k_vs st) v))%Z).
      { destruct (x_pr (N (k_vs st) v)) eqn:Q; cbn in IR; try discriminate; [apply (t_src _ _ _ _ _ T) in Q|apply (t_trm _ _ _ _ _ T) in Q]; destruct t; cbn in IR; try discriminate; lia. }
      split; [lia|]. intros u [<-|[]]. split; [intros w Q; rewrite Q in IR; discriminate|intros _; lia].
    - destruct (t_up _ _ _ _ _ T _ _ E) as (B1 & B2 & [B3|[]] & B4 & B5 & _). rewrite E. cbn [is_root]. rewrite B4. rewrite Ht in *.
      assert (R0 : (0 < Z.min m (rcap st (arc t w v)))%Z) by (unfold rcap; unfold ra in B5; lia).
      destruct (IH B3 B2 _ fuel R0) as (m' & E' & M & L); [cbn in HF; lia|]. exists m'. split; auto. split; [lia|].
      intros u [<-|I]; auto. rewrite E. split; [|discriminate]. intros w' Q. injection Q as <-. unfold rcap in M. unfold ra. lia.
  Qed.

  (** what leaves p less what enters it, up to a constant *)
  Definition dif (r : nat -> nat -> Z) (vs : list bnode) (p : nat) : Z := (x_cap (N vs p) - total n (fun q => r p q))%Z.
  Definition pos (vs : list bnode) : Z := total n (fun p => Z.max (x_cap (N vs p)) 0).
  Definition one (p v : nat) (m : Z) : Z := if p =? v then m else 0%Z.

  Lemma total_rpush r x y m p : x < n -> y < n -> x <> y -> total n (fun q => rpush r (x, y) m p q) = (total n (fun q => r p q) - one p x m + one p y m)%Z.
  Proof.
    intros Lx Ly NE. unfold one. destruct (Nat.eqb_spec p x) as [->|Nx].
    - rewrite (total_change (fun q => rpush r (x, y) m x q) (fun q => r x q) Ly).
      + unfold rpush, same_arc; cbn. rewrite !Nat.eqb_refl. cbn. destruct (Nat.eqb_spec x y); lia.
      + intros i Hi NI. unfold rpush, same_arc; cbn. destruct (Nat.eqb_spec i y), (Nat.eqb_spec x y), (Nat.eqb_spec i x); try lia; rewrite ?andb_false_r; cbn; auto.
    - destruct (Nat.eqb_spec p y) as [->|Ny].
      + rewrite (total_change (fun q => rpush r (x, y) m y q) (fun q => r y q) Lx).
        * unfold rpush, same_arc; cbn. rewrite !Nat.eqb_refl. cbn. destruct (Nat.eqb_spec y x); cbn; lia.
        * intros i Hi NI. unfold rpush, same_arc; cbn. destruct (Nat.eqb_spec y x), (Nat.eqb_spec i x); try lia; cbn; auto.
      + rewrite (@total_ext _ _ (fun q => r p q)); [lia|]. intros i Hi. unfold rpush, same_arc; cbn.
        destruct (Nat.eqb_spec p x), (Nat.eqb_spec p y); try lia; rewrite ?andb_false_r; cbn; auto.
  Qed.

  Record ustep (t : bool) (m : Z) (v : nat) (l : list nat) (st st' : bk) : Prop := {
    u_t : tinv [] (k_orp st') (k_r st') (k_gt st) (k_vs st');
    u_same : k_act st' = k_act st /\ k_mf st' = k_mf st /\ k_gt st' = k_gt st;
    u_nn : forall a b, (0 <= k_r st' a b)%Z;
    u_sum : forall a b, (k_r st' a b + k_r st' b a = k_r st a b + k_r st b a)%Z;
    u_out : forall u, ~ In u (v :: l) -> N (k_vs st') u = N (k_vs st) u;
    u_tree : forall u, x_tree (N (k_vs st') u) = x_tree (N (k_vs st) u) /\ x_ts (N (k_vs st') u) = x_ts (N (k_vs st) u);
    u_in : forall u, intree (k_vs st') (k_orp st') u <-> intree (k_vs st) (k_orp st) u;
    u_r : forall a b, x_tree (N (k_vs st) a) <> t -> k_r st' a b = k_r st a b;
    u_cap : forall u, (0 <= x_cap (N (k_vs st) u) -> 0 <= x_cap (N (k_vs st') u) <= x_cap (N (k_vs st) u))%Z /\ (x_cap (N (k_vs st) u) <= 0 -> x_cap (N (k_vs st) u) <= x_cap (N (k_vs st') u) <= 0)%Z;
    u_pos : pos (k_vs st') = (pos (k_vs st) - if t then 0 else m)%Z;
    u_dif : forall p, p < n -> dif (k_r st') (k_vs st') p = (dif (k_r st) (k_vs st) p + one p v (if t then m else - m))%Z;
    u_k : kinv (k_vs st) (k_r st) (k_orp st) (k_act st) -> kinv (k_vs st') (k_r st') (k_orp st') (k_act st') }.

  Lemma snoc_nd (l : list nat) x : NoDup l -> ~ In x l -> NoDup (l ++ [x]).
  Proof.
    intros ND NI. induction ND as [|y l H ND IH]; cbn; [constructor; auto; constructor|]. constructor.
    - rewrite in_app_iff. intros [I|[I|[]]]; auto. apply NI. now left.
    - apply IH. intros I. apply NI. now right.
  Qed.
  Lemma cut_tinv X O r gt vs v : tinv X O r gt vs -> v < n -> x_pr (N vs v) <> PNone -> tinv X (O ++ [v]) r gt (upd vs v (cut_off (N vs v) 0)).
  Proof.
    intros T Lv HN. assert (LL := t_len _ _ _ _ _ T). assert (Lv' : v < length vs) by lia.
    assert (NO : ~ In v O) by (intros I; apply (t_orp _ _ _ _ _ T) in I; tauto).
    constructor; try (rewrite upd_length; auto; fail); auto.
    - intros u w E. assert (u <> v) by (intros ->; rewrite N_eq in E by auto; discriminate). rewrite (N_neq vs v _ u) in E by auto. rewrite !(N_neq vs v _ u) by auto.
      destruct (t_up _ _ _ _ _ T _ _ E) as (B1 & B2 & B3 & B4 & B5 & B6).
      rewrite (N_upd _ _ _ w) by auto. destruct (Nat.eqb_spec w v) as [->|NW]; cbn.
      + repeat split; auto; try (now apply B6). right. apply in_app_iff. right. now left.
      + repeat split; auto; try (now apply B6). destruct B3; auto. right. apply in_app_iff. auto.
    - intros u. rewrite N_upd by auto. destruct (Nat.eqb_spec u v) as [->|NV]; cbn; [congruence|]. apply (t_src _ _ _ _ _ T).
    - intros u. rewrite N_upd by auto. destruct (Nat.eqb_spec u v) as [->|NV]; cbn; [congruence|]. apply (t_trm _ _ _ _ _ T).
    - intros u. rewrite N_upd by auto. destruct (Nat.eqb_spec u v) as [->|NV]; cbn; [lia|]. apply (t_pos _ _ _ _ _ T).
    - intros u. rewrite N_upd by auto. destruct (Nat.eqb_spec u v) as [->|NV]; cbn; [lia|]. apply (t_neg _ _ _ _ _ T).
    - intros u. rewrite N_upd by auto. destruct (Nat.eqb_spec u v) as [->|NV]; cbn; [congruence|]. apply (t_dist _ _ _ _ _ T).
    - intros u. rewrite N_upd by auto. destruct (Nat.eqb_spec u v) as [->|NV]; cbn; apply (t_ts _ _ _ _ _ T).
    - intros o I. apply in_app_iff in I. destruct I as [I|[<-|[]]]; [|rewrite N_eq by auto; auto].
      assert (o <> v) by congruence. rewrite N_neq by auto. now apply (t_orp _ _ _ _ _ T).
    - apply snoc_nd; auto. apply (t_nd _ _ _ _ _ T).
  Qed.
  Lemma tinv_r X O r r' gt vs : tinv X O r gt vs -> (forall v w, x_pr (N vs v) = PVtx w -> (0 < ra r' (arc (x_tree (N vs v)) w v))%Z) -> tinv X O r' gt vs.
  Proof.
    intros T H. destruct T. constructor; auto. intros v w E. destruct (t_up0 _ _ E) as (B1 & B2 & B3 & B4 & B5 & B6). repeat split; auto; now apply B6.
  Qed.
  Lemma setcap_tinv O r gt vs v c : tinv [] O r gt vs -> v < n -> (0 < x_cap (N vs v) /\ 0 < c \/ x_cap (N vs v) < 0 /\ c < 0)%Z -> tinv [] O r gt (upd vs v (set_cap (N vs v) c)).
  Proof.
    intros T Lv HC. assert (LL := t_len _ _ _ _ _ T). assert (Lv' : v < length vs) by lia.
    assert (S1 : forall u, x_pr (N (upd vs v (set_cap (N vs v) c)) u) = x_pr (N vs u)) by (intros u; rewrite N_upd by auto; destruct (Nat.eqb_spec u v) as [->|]; auto).
    assert (S2 : forall u, x_tree (N (upd vs v (set_cap (N vs v) c)) u) = x_tree (N vs u)) by (intros u; rewrite N_upd by auto; destruct (Nat.eqb_spec u v) as [->|]; auto).
    assert (S3 : forall u, x_ts (N (upd vs v (set_cap (N vs v) c)) u) = x_ts (N vs u)) by (intros u; rewrite N_upd by auto; destruct (Nat.eqb_spec u v) as [->|]; auto).
    assert (S4 : forall u, x_dist (N (upd vs v (set_cap (N vs v) c)) u) = x_dist (N vs u)) by (intros u; rewrite N_upd by auto; destruct (Nat.eqb_spec u v) as [->|]; auto).
    assert (S5 : forall u, x_e (N (upd vs v (set_cap (N vs v) c)) u) = x_e (N vs u)) by (intros u; rewrite N_upd by auto; destruct (Nat.eqb_spec u v) as [->|]; auto).
    assert (S6 : forall u, ((0 < x_cap (N (upd vs v (set_cap (N vs v) c)) u) <-> 0 < x_cap (N vs u)) /\ (x_cap (N (upd vs v (set_cap (N vs v) c)) u) < 0 <-> x_cap (N vs u) < 0))%Z).
    { intros u; rewrite N_upd by auto; destruct (Nat.eqb_spec u v) as [->|]; cbn; [lia|tauto]. }
    destruct T. constructor; auto; try (rewrite upd_length; auto; fail).
    - intros u w. rewrite !S1, !S2, !S3, !S4, !S5. intros E. destruct (t_up0 u w E) as (B1 & B2 & B3 & B4 & B5 & B6). repeat split; auto; now apply B6.
    - intros u. rewrite S1, S2, S4. intros E. destruct (t_src0 u E) as (B1 & B2 & B3). repeat split; auto. now apply S6.
    - intros u. rewrite S1, S2, S4. intros E. destruct (t_trm0 u E) as (B1 & B2 & B3). repeat split; auto. now apply S6.
    - intros u E. rewrite S1. apply t_pos0. now apply S6.
    - intros u E. rewrite S1. apply t_neg0. now apply S6.
    - intros u. rewrite S1, S4. auto.
    - intros u. rewrite S3. auto.
    - intros u. rewrite S1. auto.
  Qed.

  Lemma ra_rpush r e m a b : fst e <> snd e -> (0 <= m)%Z ->
    (ra (rpush r e m) (a, b) = ra r (a, b) - m /\ (a, b) = e \/ ra (rpush r e m) (a, b) = ra r (a, b) + m /\ (b, a) = e \/
     ra (rpush r e m) (a, b) = ra r (a, b) /\ (a, b) <> e /\ (b, a) <> e)%Z.
  Proof.
    intros NE M. destruct e as [x y]. unfold ra, rpush, same_arc. cbn.
    destruct (Nat.eqb_spec a x), (Nat.eqb_spec b y), (Nat.eqb_spec b x), (Nat.eqb_spec a y); subst; cbn; try (left; split; [lia|congruence]); try (right; left; split; [lia|congruence]);
    try (right; right; split; [lia|]; split; congruence); exfalso; cbn in NE; congruence.
  Qed.
  Lemma arc_cross t t' p q p' q' : arc t p q = arc t' p' q' -> (t = t' /\ p = p' /\ q = q') \/ (t <> t' /\ p = q' /\ q = p').
  Proof. destruct t, t'; cbn; intros E; injection E as -> ->; auto; right; split; auto; discriminate. Qed.
  Lemma arc_rev t p q : (snd (arc t p q), fst (arc t p q)) = arc t q p.
  Proof. destruct t; auto. Qed.

  (** one step of the walk: flow is moved along the arc to the parent, and the vertex is cut off if the arc is full *)
  Definition ustep1 (t : bool) (m : Z) (v w : nat) (st : bk) : bk :=
    let st1 := push st (arc t w v) m in
    if (rcap st1 (arc t w v) <=? 0)%Z then with_orp (with_vs st1 (upd (k_vs st) v (cut_off (N (k_vs st) v) (x_cap (N (k_vs st) v))))) (k_orp st ++ [v]) else st1.

  Lemma ustep1_ok t m v w st : tinv [] (k_orp st) (k_r st) (k_gt st) (k_vs st) -> x_pr (N (k_vs st) v) = PVtx w -> x_tree (N (k_vs st) v) = t -> (0 < m)%Z ->
    let st' := ustep1 t m v w st in
    tinv [] (k_orp st') (k_r st') (k_gt st) (k_vs st') /\ k_r st' = rpush (k_r st) (arc t w v) m /\
    (k_act st' = k_act st /\ k_mf st' = k_mf st /\ k_gt st' = k_gt st) /\
    (forall u, u <> v -> N (k_vs st') u = N (k_vs st) u) /\
    (forall u, x_tree (N (k_vs st') u) = x_tree (N (k_vs st) u) /\ x_ts (N (k_vs st') u) = x_ts (N (k_vs st) u) /\ x_cap (N (k_vs st') u) = x_cap (N (k_vs st) u)) /\
    (forall u, intree (k_vs st') (k_orp st') u <-> intree (k_vs st) (k_orp st) u).
  Proof.
    intros T E Ht Hm st'. destruct (t_up _ _ _ _ _ T _ _ E) as (B1 & B2 & B3 & B4 & B5 & B6). destruct (nbr_lt _ _ B1) as [Lw Lv].
    assert (NVW := up_neq _ _ _ _ _ _ _ T E). assert (NE : fst (arc t w v) <> snd (arc t w v)) by (destruct t; cbn; congruence).
    assert (LL := t_len _ _ _ _ _ T). assert (Lv' : v < length (k_vs st)) by lia.
    assert (HN : x_pr (N (k_vs st) v) <> PNone) by congruence.
    assert (OTH : forall u y, u <> v -> x_pr (N (k_vs st) u) = PVtx y -> (0 < ra (rpush (k_r st) (arc t w v) m) (arc (x_tree (N (k_vs st) u)) y u))%Z).
    { intros u y NU EU. destruct (t_up _ _ _ _ _ T _ _ EU) as (C1 & C2 & C3 & C4 & C5 & C6). destruct (arc (x_tree (N (k_vs st) u)) y u) as [a b] eqn:EA.
      destruct (ra_rpush (k_r st) (arc t w v) m a b NE ltac:(lia)) as [(Z & Q)|[(Z & Q)|(Z & Q)]]; try lia. exfalso.
      rewrite <- EA in Q. apply arc_cross in Q as [(Q1 & Q2 & Q3)|(Q1 & Q2 & Q3)]; congruence. }
    subst st'. unfold ustep1. cbv zeta. destruct (Z.leb_spec (rcap (push st (arc t w v) m) (arc t w v)) 0) as [R|R]; cbn [k_r k_orp k_vs k_act k_mf k_gt with_orp with_vs push].
    - assert (C0 : x_cap (N (k_vs st) v) = 0%Z) by (eapply cap_0; eauto; congruence).
      split; [|split; [auto|split; [auto|split; [|split]]]].
      + rewrite C0. eapply tinv_r; [apply cut_tinv; eauto|]. intros u y EU. assert (u <> v) by (intros ->; rewrite N_eq in EU by auto; discriminate).
        rewrite N_neq in EU |- * by auto. auto.
      + intros u NU. now rewrite N_neq.
      + intros u. rewrite N_upd by auto. destruct (Nat.eqb_spec u v) as [->|]; auto.
      + intros u. unfold intree. rewrite N_upd by auto. destruct (Nat.eqb_spec u v) as [->|NU].
        * split; [left; auto|]. intros _. right. apply in_app_iff. right. now left.
        * rewrite in_app_iff. cbn. split; [intros [I|[I|[I|[]]]]; auto; congruence|]. intros [I|I]; auto.
    - split; [|split; [auto|split; [auto|split; [|split]]]]; auto; [|tauto].
      eapply tinv_r; [exact T|]. intros u y EU. destruct (Nat.eq_dec u v) as [->|NU]; auto. assert (y = w) by congruence. subst y.
      rewrite Ht. unfold rcap, push in R. cbn in R. unfold ra. auto.
  Qed.

  Lemma upd_ok t m : (0 < m)%Z -> forall l v st fuel, path (k_vs st) v l -> NoDup (v :: l) -> tinv [] (k_orp st) (k_r st) (k_gt st) (k_vs st) ->
    x_tree (N (k_vs st) v) = t -> (forall u, In u (v :: l) -> x_pr (N (k_vs st) u) <> PNone) -> lim t (k_vs st) (k_r st) m (v :: l) ->
    (forall a b, 0 <= k_r st a b)%Z -> length l < fuel ->
    exists st', bk_upd fuel t m v st = Ok st' /\ ustep t m v l st st'.
  Proof.
    intros Hm. induction l as [|w l IH]; intros v st fuel P ND T Ht HN HL NN HF; (destruct fuel as [|fuel]; [lia|]); cbn [bk_upd];
      assert (HNv := HN v (or_introl eq_refl)); assert (Lv := pr_lt _ _ _ _ _ _ T HNv); assert (LL := t_len _ _ _ _ _ T);
      assert (Lv' : v < length (k_vs st)) by lia; rewrite (N_get _ _ Lv'); cbn [bind].
    - inversion P as [v' H|]. subst v'.
      assert (IR : is_root t (x_pr (N (k_vs st) v)) = true).
      { destruct (x_pr (N (k_vs st) v)) eqn:Q; cbn; try congruence; [apply (t_src _ _ _ _ _ T) in Q|apply (t_trm _ _ _ _ _ T) in Q]; destruct Q as (Q & _); rewrite <- Ht, Q; auto. }
      rewrite IR. assert (C : (0 < if t then - x_cap (N (k_vs st) v) else x_cap (N (k_vs st) v))%Z).
      { destruct (x_pr (N (k_vs st) v)) eqn:Q; cbn in IR; try discriminate; [apply (t_src _ _ _ _ _ T) in Q|apply (t_trm _ _ _ _ _ T) in Q]; destruct t; cbn in IR; try discriminate; lia. }
      destruct (HL v (or_introl eq_refl)) as (_ & M). specialize (M IR).
      set (c := (if t then x_cap (N (k_vs st) v) + m else x_cap (N (k_vs st) v) - m)%Z).
      assert (CC : (0 <= c <= x_cap (N (k_vs st) v) /\ t = false \/ x_cap (N (k_vs st) v) <= c <= 0 /\ t = true)%Z) by (unfold c; destruct t; [right|left]; split; auto; lia).
      (* what holds in both cases *)
      assert (BOTH : forall x st', k_vs st' = upd (k_vs st) v x -> k_r st' = k_r st -> k_act st' = k_act st -> k_mf st' = k_mf st -> k_gt st' = k_gt st ->
        x_tree x = x_tree (N (k_vs st) v) -> x_ts x = x_ts (N (k_vs st) v) -> x_cap x = c ->
        (forall u, intree (k_vs st') (k_orp st') u <-> intree (k_vs st) (k_orp st) u) -> tinv [] (k_orp st') (k_r st) (k_gt st) (k_vs st') -> ustep t m v [] st st').
      { intros x st' E1 E2 E3 E4 E5 E6 E7 E8 E9 E10.
        assert (TR : forall u, x_tree (N (k_vs st') u) = x_tree (N (k_vs st) u) /\ x_ts (N (k_vs st') u) = x_ts (N (k_vs st) u)).
        { intros u. rewrite E1, N_upd by auto. destruct (Nat.eqb_spec u v) as [->|]; auto. }
        constructor; rewrite ?E2; auto.
        - intros u NI. rewrite E1, N_neq; auto. intros ->. apply NI. now left.
        - intros u. rewrite E1, N_upd by auto. destruct (Nat.eqb_spec u v) as [->|]; [|lia]. rewrite E8. lia.
        - unfold pos. rewrite (total_change (fun p => Z.max (x_cap (N (k_vs st') p)) 0) (fun p => Z.max (x_cap (N (k_vs st) p)) 0) Lv).
          + rewrite E1, N_eq, E8 by auto. unfold c. destruct t; lia.
          + intros i Hi NI. rewrite E1, N_neq; auto.
        - intros p Lp. unfold dif, one. rewrite E1, N_upd by auto. destruct (Nat.eqb_spec p v) as [->|]; [|lia]. rewrite E8. unfold c. destruct t; lia.
        - intros K. rewrite E3. eapply kinv_mono; [exact K| |].
          + intros u I NA. split; [now apply E9|]. split; auto. apply TR.
          + intros u I. split; [now apply E9|]. apply TR. }
      destruct (if t then (0 <=? c)%Z else (c <=? 0)%Z) eqn:EC.
      + assert (c = 0%Z) by (destruct t; [apply Z.leb_le in EC|apply Z.leb_le in EC]; destruct CC as [[? ?]|[? ?]]; try congruence; lia).
        rewrite vset_lt by auto. cbn [bind]. eexists. split; [reflexivity|]. eapply BOTH; try reflexivity.
        * intros u. unfold intree. cbn [k_vs k_orp with_vs with_orp]. rewrite N_upd by auto. destruct (Nat.eqb_spec u v) as [->|NU].
          -- split; [left; auto|]. intros _. right. apply in_app_iff. right. now left.
          -- rewrite in_app_iff. cbn. split; [intros [I|[I|[I|[]]]]; auto; congruence|]. intros [I|I]; auto.
        * cbn [k_vs k_orp with_vs with_orp]. rewrite H0. apply cut_tinv; auto.
      + rewrite vset_lt by auto. cbn [bind]. eexists. split; [reflexivity|]. eapply BOTH; try reflexivity.
        * intros u. unfold intree. cbn [k_vs k_orp with_vs with_orp]. rewrite N_upd by auto. destruct (Nat.eqb_spec u v) as [->|NU]; cbn; tauto.
        * cbn [k_vs k_orp with_vs with_orp]. apply setcap_tinv; auto. destruct t; apply Z.leb_gt in EC; lia.
    - inversion P as [|v' w' l' E P']. subst v' w' l'. destruct (t_up _ _ _ _ _ T _ _ E) as (B1 & B2 & B3 & B4 & B5 & B6). rewrite E. cbn [is_root]. rewrite B4, Ht. cbv zeta.
      destruct (nbr_lt _ _ B1) as [Lw _]. assert (NVW := up_neq _ _ _ _ _ _ _ T E).
      assert (NE : fst (arc t w v) <> snd (arc t w v)) by (destruct t; cbn; congruence).
      assert (U := ustep1_ok t m v w st T E Ht Hm). cbv zeta in U. set (st2 := ustep1 t m v w st) in *.
      match goal with |- exists st', (do st3 <- ?X ; _) = _ /\ _ => assert (E2 : X = Ok st2) end.
      { unfold st2, ustep1. cbv zeta. destruct (_ <=? 0)%Z; auto. cbn [k_vs push]. rewrite vset_lt by auto. reflexivity. }
      rewrite E2. cbn [bind]. destruct U as (U1 & U2 & (U3 & U4 & U5) & U6 & U7 & U8).
      assert (NI : ~ In v (w :: l)) by (inversion ND; auto).
      assert (OUT : forall u, In u (w :: l) -> N (k_vs st2) u = N (k_vs st) u) by (intros u I; apply U6; congruence).
      assert (MV : (m <= ra (k_r st) (arc t w v))%Z) by (now apply (HL v (or_introl eq_refl))).
      assert (NN2 : forall a b, (0 <= k_r st2 a b)%Z) by (rewrite U2; apply rpush_nonneg; auto; lia).
      destruct (IH w st2 fuel) as (st' & E' & Z).
      + eapply path_ext; [exact P'|]. intros u I. now rewrite OUT.
      + now inversion ND.
      + now rewrite U5.
      + rewrite OUT by (now left). congruence.
      + intros u I. rewrite OUT by auto. apply HN. now right.
      + intros u I. rewrite OUT by auto. destruct (HL u (or_intror I)) as (L1 & L2). split; auto. intros y EY. specialize (L1 y EY). rewrite U2.
        destruct (arc t y u) as [a b] eqn:EA. destruct (ra_rpush (k_r st) (arc t w v) m a b NE ltac:(lia)) as [(Y & Q)|[(Y & Q)|(Y & Q)]]; try lia.
        rewrite <- EA in Q. apply arc_inj in Q as [_ ->]. contradiction.
      + auto.
      + cbn in HF. lia.
      + exists st'. split; auto. destruct Z. constructor; auto.
        * rewrite <- U5. auto.
        * destruct u_same0 as (Y1 & Y2 & Y3). repeat split; congruence.
        * intros a b. rewrite u_sum0, U2. assert (A1 := ra_rpush (k_r st) (arc t w v) m a b NE ltac:(lia)). assert (A2 := ra_rpush (k_r st) (arc t w v) m b a NE ltac:(lia)).
          unfold ra in A1, A2. cbn [fst snd] in A1, A2. destruct (arc t w v) as [x y]. cbn in NE.
          destruct A1 as [(Y & Q)|[(Y & Q)|(Y & Q & Q')]], A2 as [(Y' & W)|[(Y' & W)|(Y' & W & W')]]; try lia; try congruence.
        * intros u NU. rewrite u_out0 by (intros I; apply NU; now right). apply U6. intros ->. apply NU. now left.
        * intros u. destruct (u_tree0 u) as (Y1 & Y2), (U7 u) as (Y3 & Y4 & _). split; congruence.
        * intros u. rewrite u_in0. apply U8.
        * intros a b TA. rewrite u_r0 by (destruct (U7 a) as (Y & _); congruence). rewrite U2.
          destruct (ra_rpush (k_r st) (arc t w v) m a b NE ltac:(lia)) as [(Y & Q)|[(Y & Q)|(Y & Q)]]; auto; exfalso; destruct t; cbn in Q; injection Q as -> ->; congruence.
        * intros u. destruct (U7 u) as (_ & _ & Y). rewrite <- Y. auto.
        * rewrite u_pos0. f_equal. unfold pos. apply total_ext. intros i Hi. destruct (U7 i) as (_ & _ & Y). now rewrite Y.
        * intros p Lp. rewrite u_dif0 by auto. unfold dif. destruct (U7 p) as (_ & _ & ->). rewrite U2.
          destruct t; cbn [arc]; rewrite total_rpush by auto; unfold one; destruct (p =? v), (p =? w); lia.
        * intros K. apply u_k0. rewrite U3. intros a x I NA A R. destruct (U7 a) as (TA & _), (U7 x) as (TX & _). rewrite TA in R |- *. rewrite TX, U8 in *.
          rewrite U2 in R. destruct (arc (x_tree (N (k_vs st) a)) a x) as [y z] eqn:EA.
          destruct (ra_rpush (k_r st) (arc t w v) m y z NE ltac:(lia)) as [(Y & Q)|[(Y & Q)|(Y & Q)]].
          -- apply K; auto. rewrite EA. lia.
          -- assert (Q' : arc (x_tree (N (k_vs st) a)) a x = arc t v w). { rewrite EA, <- (arc_rev t w v), <- Q. reflexivity. }
             apply arc_cross in Q' as [(Q1 & -> & ->)|(Q1 & -> & ->)]; [|congruence]. split; [exact B3|congruence].
          -- apply K; auto. rewrite EA. lia.
  Qed.

  Record aug_res (m : Z) (st st' : bk) : Prop := {
    a_t : tinv [] (k_orp st') (k_r st') (k_gt st) (k_vs st');
    a_same : k_act st' = k_act st /\ k_mf st' = (k_mf st + m)%Z /\ k_gt st' = k_gt st;
    a_nn : forall a b, (0 <= k_r st' a b)%Z;
    a_sum : forall a b, (k_r st' a b + k_r st' b a = k_r st a b + k_r st b a)%Z;
    a_ts : forall u, x_ts (N (k_vs st') u) = x_ts (N (k_vs st) u);
    a_cap : forall u, (0 <= x_cap (N (k_vs st) u) -> 0 <= x_cap (N (k_vs st') u) <= x_cap (N (k_vs st) u))%Z /\ (x_cap (N (k_vs st) u) <= 0 -> x_cap (N (k_vs st) u) <= x_cap (N (k_vs st') u) <= 0)%Z;
    a_pos : pos (k_vs st') = (pos (k_vs st) - m)%Z;
    a_dif : forall p, p < n -> dif (k_r st') (k_vs st') p = dif (k_r st) (k_vs st) p;
    a_k : kinv (k_vs st) (k_r st) [] (k_act st) -> kinv (k_vs st') (k_r st') (k_orp st') (k_act st') }.

  Lemma augment_ok st a b : tinv [] [] (k_r st) (k_gt st) (k_vs st) -> k_orp st = [] -> (forall a b, 0 <= k_r st a b)%Z ->
    In b (nbr g a) -> (0 < k_r st a b)%Z -> x_pr (N (k_vs st) a) <> PNone -> x_tree (N (k_vs st) a) = false ->
    x_pr (N (k_vs st) b) <> PNone -> x_tree (N (k_vs st) b) = true ->
    exists m st', bk_augment n st (a, b) = Ok st' /\ (0 < m)%Z /\ aug_res m st st'.
  Proof.
    intros T EO NN Aab R Pa Ta Pb Tb. destruct (nbr_lt _ _ Aab) as [La Lb]. assert (NAB : a <> b) by (intros ->; now apply Loop in Aab).
    destruct (path_ex _ _ _ _ b T Lb) as (lb & PB & NDb & Rb & LLb). destruct (path_ex _ _ _ _ a T La) as (la & PA & NDa & RA & LLa).
    unfold bk_augment. cbn [fst snd].
    destruct (min_ok _ _ _ _ _ T PB Pb Tb (rcap st (a, b)) (S n)) as (m1 & E1 & M1 & L1); [exact R|lia|]. rewrite E1. cbn [bind].
    destruct (min_ok _ _ _ _ _ T PA Pa Ta m1 (S n)) as (m & E2 & M2 & L2); [lia|lia|]. rewrite E2. cbn [bind]. apply (lim_le _ _ _ _ m) in L1; [|lia].
    assert (MR : (0 <= m <= ra (k_r st) (a, b))%Z) by (unfold rcap in M1; unfold ra; cbn in *; lia).
    set (st1 := push {| k_vs := k_vs st; k_r := k_r st; k_act := k_act st; k_orp := k_orp st; k_mf := (k_mf st + m)%Z; k_gt := k_gt st |} (a, b) m).
    assert (R1 : k_r st1 = rpush (k_r st) (a, b) m) by reflexivity.
    assert (NE : fst (a, b) <> snd (a, b)) by auto.
    assert (KEEP : forall x y, (x, y) <> (a, b) -> (ra (k_r st) (x, y) <= ra (k_r st1) (x, y))%Z).
    { intros x y NQ. rewrite R1. destruct (ra_rpush (k_r st) (a, b) m x y NE ltac:(lia)) as [(Y & Q)|[(Y & Q)|(Y & Q)]]; try lia; congruence. }
    assert (TA : forall u w, x_pr (N (k_vs st) u) = PVtx w -> arc (x_tree (N (k_vs st) u)) w u <> (a, b)).
    { intros u w EU Q. destruct (t_up _ _ _ _ _ T _ _ EU) as (_ & C2 & _). destruct (x_tree (N (k_vs st) u)) eqn:TU; cbn in Q; injection Q as -> ->; congruence. }
    assert (T1 : tinv [] (k_orp st1) (k_r st1) (k_gt st1) (k_vs st1)).
    { change (k_orp st1) with (k_orp st). rewrite EO. eapply tinv_r; [exact T|]. intros u w EU. assert (Q := TA u w EU). destruct (t_up _ _ _ _ _ T _ _ EU) as (_ & _ & _ & _ & C5 & _).
      cbn [k_vs push st1]. destruct (arc (x_tree (N (k_vs st) u)) w u) as [x y]. specialize (KEEP x y Q). lia. }
    assert (K1 : kinv (k_vs st) (k_r st) [] (k_act st) -> kinv (k_vs st1) (k_r st1) (k_orp st1) (k_act st1)).
    { cbn [k_vs k_orp k_act push st1]. rewrite EO. intros K u x I NA A RX. apply K; auto. destruct (arc (x_tree (N (k_vs st) u)) u x) as [y z] eqn:EA.
      rewrite R1 in RX. destruct (ra_rpush (k_r st) (a, b) m y z NE ltac:(lia)) as [(Y & Q)|[(Y & Q)|(Y & Q)]]; try lia. exfalso.
      destruct (x_tree (N (k_vs st) u)) eqn:TU; cbn in EA; injection EA as <- <-; injection Q as -> ->; congruence. }
    assert (NN1 : forall x y, (0 <= k_r st1 x y)%Z) by (rewrite R1; apply rpush_nonneg; auto).
    destruct (upd_ok true m ltac:(lia) lb b st1 (S n)) as (st2 & E3 & U); auto.
    { now apply (path_pr _ _ _ _ _ T). }
    { intros u I. destruct (L1 u I) as (Y1 & Y2). split; auto. intros w EU. specialize (Y1 w EU). assert (Q := TA u w EU).
      assert (TU := path_tree _ _ _ _ _ _ _ T PB u I). rewrite TU, Tb in Q. destruct (arc true w u) as [x y]. specialize (KEEP x y Q). lia. }
    rewrite E3. cbn [bind]. destruct U.
    assert (OUT : forall u, In u (a :: la) -> N (k_vs st2) u = N (k_vs st) u).
    { intros u I. apply u_out0. intros I'. assert (Y1 := path_tree _ _ _ _ _ _ _ T PA u I). assert (Y2 := path_tree _ _ _ _ _ _ _ T PB u I'). congruence. }
    destruct u_same0 as (S1 & S2 & S3). cbn [k_act k_mf k_gt push st1] in S1, S2, S3.
    destruct (upd_ok false m ltac:(lia) la a st2 (S n)) as (st3 & E4 & U); auto.
    { eapply path_ext; [exact PA|]. intros u I. now rewrite OUT. }
    { rewrite S3. auto. }
    { rewrite OUT; auto. now left. }
    { intros u I. rewrite OUT by auto. now apply (path_pr _ _ _ _ _ T PA). }
    { intros u I. rewrite OUT by auto. destruct (L2 u I) as (Y1 & Y2). split; auto. intros w EU. specialize (Y1 w EU). assert (Q := TA u w EU).
      assert (TU := path_tree _ _ _ _ _ _ _ T PA u I). rewrite TU, Ta in Q. destruct (t_up _ _ _ _ _ T _ _ EU) as (_ & C2 & _). cbn [arc] in *. specialize (KEEP w u Q).
      unfold ra in *. cbn [fst snd] in *. rewrite u_r0; [lia|]. change (k_vs st1) with (k_vs st). congruence. }
    exists m, st3. split; [exact E4|]. split; [lia|]. destruct U. destruct u_same0 as (S4 & S5 & S6). constructor; auto.
    - rewrite <- S3. auto.
    - repeat split; try congruence.
    - intros x y. rewrite u_sum1, u_sum0, R1. assert (A1 := ra_rpush (k_r st) (a, b) m x y NE ltac:(lia)). assert (A2 := ra_rpush (k_r st) (a, b) m y x NE ltac:(lia)).
      unfold ra in A1, A2. cbn [fst snd] in A1, A2.
      destruct A1 as [(Y & Q)|[(Y & Q)|(Y & Q & Q')]], A2 as [(Y' & W)|[(Y' & W)|(Y' & W & W')]]; try lia; try congruence.
    - intros u. destruct (u_tree1 u) as (_ & ->). now apply u_tree0.
    - intros u. specialize (u_cap0 u). specialize (u_cap1 u). change (k_vs st1) with (k_vs st) in u_cap0. lia.
    - rewrite u_pos1, u_pos0. change (k_vs st1) with (k_vs st). lia.
    - intros p Lp. rewrite u_dif1, u_dif0 by auto. unfold dif. rewrite R1. change (k_vs st1) with (k_vs st). rewrite total_rpush by auto. unfold one. destruct (p =? a), (p =? b); lia.
  Qed.

  (** ** Adopt: the labels *)
  Definition relabel (gt : nat) (vs vs' : list bnode) : Prop :=
    length vs' = length vs /\ forall u, N vs' u = N vs u \/
      (x_ts (N vs u) <> gt /\ x_pr (N vs u) <> PNone /\ (exists d, 1 <= d /\ N vs' u = set_label (N vs u) gt d /\ ((forall w, x_pr (N vs u) <> PVtx w) -> d = 1)) /\
       forall w, x_pr (N vs u) = PVtx w -> x_ts (N vs' w) = gt /\ x_dist (N vs' u) = S (x_dist (N vs' w))).
  (** what does not change *)
  Definition frame (vs vs' : list bnode) : Prop :=
    length vs' = length vs /\ forall u, x_tree (N vs' u) = x_tree (N vs u) /\ x_e (N vs' u) = x_e (N vs u) /\ x_pr (N vs' u) = x_pr (N vs u) /\ x_cap (N vs' u) = x_cap (N vs u).
  Lemma frame_refl vs : frame vs vs.
  Proof. split; auto. Qed.
  Lemma frame_trans a b c : frame a b -> frame b c -> frame a c.
  Proof. intros [L1 H1] [L2 H2]. split; [congruence|]. intros u. destruct (H1 u) as (A & B & C & D), (H2 u) as (A' & B' & C' & D'). repeat split; congruence. Qed.
  Lemma relabel_frame gt vs vs' : relabel gt vs vs' -> frame vs vs'.
  Proof. intros [L H]. split; auto. intros u. destruct (H u) as [->|(_ & _ & (d & _ & -> & _) & _)]; auto. Qed.
  Lemma relabel_old gt vs vs' u : relabel gt vs vs' -> x_ts (N vs u) = gt -> N vs' u = N vs u.
  Proof. intros [L H] E. destruct (H u) as [|(A & _)]; auto. congruence. Qed.
  Lemma relabel_ts gt vs vs' u : relabel gt vs vs' -> x_ts (N vs' u) = x_ts (N vs u) \/ x_ts (N vs' u) = gt.
  Proof. intros [L H]. destruct (H u) as [->|(_ & _ & (d & _ & -> & _) & _)]; auto. Qed.
  Lemma relabel_tinv O r gt vs vs' : tinv [] O r gt vs -> relabel gt vs vs' -> tinv [] O r gt vs'.
  Proof.
    intros T RL. assert (F := relabel_frame _ _ _ RL). destruct F as [LF HF]. destruct RL as [_ H].
    constructor.
    - rewrite LF. apply (t_len _ _ _ _ _ T).
    - intros v w. destruct (HF v) as (F1 & F2 & F3 & F4), (HF w) as (F5 & F6 & F7 & F8). rewrite F1, F2, F3, F5, F7. intros E.
      destruct (t_up _ _ _ _ _ T _ _ E) as (B1 & B2 & B3 & B4 & B5 & B6). split; auto. split; auto. split; auto. split; auto. split; auto. intros _.
      destruct (B6 (fun x => x)) as (L1 & L2).
      destruct (H v) as [Ev|(N1 & N2 & (d & D1 & Ev & D2) & N4)].
      + destruct (H w) as [Ew|(M1 & M2 & (d & D1 & Ew & D2) & M4)]; rewrite Ev, Ew; auto. cbn. assert (Y := t_ts _ _ _ _ _ T w). lia.
      + destruct (N4 w E) as (Y1 & Y2). rewrite Y2, Ev, Y1. cbn. lia.
    - intros v. destruct (HF v) as (F1 & F2 & F3 & F4). rewrite F1, F3, F4. intros E. destruct (t_src _ _ _ _ _ T v E) as (B1 & B2 & B3). repeat split; auto.
      destruct (H v) as [Ev|(N1 & N2 & (d & D1 & Ev & D2) & N4)]; rewrite Ev; auto. cbn. apply D2. congruence.
    - intros v. destruct (HF v) as (F1 & F2 & F3 & F4). rewrite F1, F3, F4. intros E. destruct (t_trm _ _ _ _ _ T v E) as (B1 & B2 & B3). repeat split; auto.
      destruct (H v) as [Ev|(N1 & N2 & (d & D1 & Ev & D2) & N4)]; rewrite Ev; auto. cbn. apply D2. congruence.
    - intros v. destruct (HF v) as (F1 & F2 & F3 & F4). rewrite F3, F4. apply (t_pos _ _ _ _ _ T).
    - intros v. destruct (HF v) as (F1 & F2 & F3 & F4). rewrite F3, F4. apply (t_neg _ _ _ _ _ T).
    - intros v. destruct (HF v) as (F1 & F2 & F3 & F4). rewrite F3. intros E. destruct (H v) as [Ev|(N1 & N2 & (d & D1 & Ev & D2) & N4)]; rewrite Ev; auto. now apply (t_dist _ _ _ _ _ T).
    - intros v. destruct (H v) as [Ev|(N1 & N2 & (d & D1 & Ev & D2) & N4)]; rewrite Ev; [apply (t_ts _ _ _ _ _ T)|cbn; auto].
    - intros o I. destruct (HF o) as (F1 & F2 & F3 & F4). rewrite F3. now apply (t_orp _ _ _ _ _ T).
    - apply (t_nd _ _ _ _ _ T).
  Qed.

  (** the depth of a vertex below labelled vertices *)
  Inductive dep (gt : nat) (vs : list bnode) : nat -> nat -> Prop :=
  | dep_hit v : x_ts (N vs v) = gt -> dep gt vs v (x_dist (N vs v))
  | dep_up v w k : x_ts (N vs v) <> gt -> x_pr (N vs v) = PVtx w -> dep gt vs w k -> dep gt vs v (S k).
  Lemma dep_ext gt vs vs' v l k : path vs v l -> dep gt vs v k -> (forall u, In u (v :: l) -> N vs' u = N vs u) -> dep gt vs' v k.
  Proof.
    intros P. revert k. induction P as [v H|v w l E P IH]; intros k D H'; assert (Hv := H' v (or_introl eq_refl)).
    - inversion D as [v0 E0|v0 w0 k0 E0 E1 D0]; subst; [|congruence]. rewrite <- Hv. constructor. congruence.
    - inversion D as [v0 E0|v0 w0 k0 E0 E1 D0]; subst; [rewrite <- Hv; constructor; congruence|]. assert (w0 = w) by congruence. subst w0.
      apply dep_up with w; try congruence. apply IH; auto. intros u I. apply H'. now right.
  Qed.

  Lemma depth_ok infd gt t : forall l vs v d fuel, path vs v l -> NoDup (v :: l) -> (forall u, In u (v :: l) -> u < length vs) ->
    (forall u, In u (v :: l) -> is_root t (x_pr (N vs u)) = true \/ x_pr (N vs u) = PNone \/ exists w, x_pr (N vs u) = PVtx w) -> length l < fuel ->
    bk_depth fuel infd gt t v d vs = Ok (infd, vs) \/
    exists k vs', bk_depth fuel infd gt t v d vs = Ok (d + k, vs') /\ relabel gt vs vs' /\ dep gt vs' v k /\ (forall u, ~ In u (v :: l) -> N vs' u = N vs u).
  Proof.
    induction l as [|w l IH]; intros vs v d fuel P ND RG HR HF; (destruct fuel as [|fuel]; [lia|]); cbn [bk_depth]; assert (Lv := RG v (or_introl eq_refl));
      rewrite (N_get _ _ Lv); cbn [bind]; (destruct (Nat.eqb_spec (x_ts (N vs v)) gt) as [E|E]; [right; exists (x_dist (N vs v)), vs; split; auto; split; [split; auto|]; split; [now constructor|auto]|]).
    - inversion P as [v' H|]. subst v'. destruct (HR v (or_introl eq_refl)) as [IR|[Q|(w & Q)]]; [rewrite IR| |now apply H in Q].
      + right. rewrite vset_lt by auto. cbn [bind]. exists 1, (upd vs v (set_label (N vs v) gt 1)). split; auto.
        assert (RL : relabel gt vs (upd vs v (set_label (N vs v) gt 1))).
        { split; [apply upd_length|]. intros u. rewrite !N_upd by auto. destruct (Nat.eqb_spec u v) as [->|]; auto. right. split; auto. split; [intros Q; rewrite Q in IR; discriminate|].
          split; [exists 1; auto|]. intros w Q. now apply H in Q. }
        split; auto. split.
        * assert (Y : x_dist (N (upd vs v (set_label (N vs v) gt 1)) v) = 1) by (rewrite N_eq; auto). rewrite <- Y at 2. constructor. rewrite N_eq; auto.
        * intros u NI. rewrite N_neq; auto. intros ->. apply NI. now left.
      + rewrite Q. left. destruct t; auto.
    - inversion P as [|v' w' l' Ew P']. subst v' w' l'. rewrite Ew. cbn [is_root].
      assert (NI : ~ In v (w :: l)) by (inversion ND; auto).
      destruct (IH vs w (d + 1) fuel P') as [Q|(k & vs' & Q & RL & D & OUT)]; auto.
      + now inversion ND.
      + intros u I. apply RG. now right.
      + intros u I. apply HR. now right.
      + cbn in HF. lia.
      + right. exists (S k), vs'. split; [rewrite Q; do 2 f_equal; lia|]. split; auto. split.
        * assert (Y := OUT v NI). apply dep_up with w; auto; rewrite Y; auto.
        * intros u NU. apply OUT. intros I. apply NU. now right.
  Qed.

  Lemma mark_ok gt t : forall l vs v k fuel, path vs v l -> NoDup (v :: l) -> (forall u, In u (v :: l) -> u < length vs) -> dep gt vs v k -> length l < fuel ->
    exists vs', bk_mark fuel gt t v k vs = Ok vs' /\ relabel gt vs vs' /\ x_ts (N vs' v) = gt /\ x_dist (N vs' v) = k /\ (forall u, ~ In u (v :: l) -> N vs' u = N vs u).
  Proof.
    induction l as [|w l IH]; intros vs v k fuel P ND RG D HF; (destruct fuel as [|fuel]; [lia|]); cbn [bk_mark]; assert (Lv := RG v (or_introl eq_refl));
      rewrite (N_get _ _ Lv); cbn [bind]; (destruct (Nat.eqb_spec (x_ts (N vs v)) gt) as [E|E];
      [exists vs; split; auto; split; [split; auto|]; split; auto; split; auto; inversion D; congruence|]).
    - inversion P as [v' H|]. subst v'. inversion D as [v0 E0|v0 w0 k0 E0 E1 D0]; [congruence|]. now apply H in E1.
    - inversion P as [|v' w' l' Ew P']. subst v' w' l'. inversion D as [v0 E0|v0 w0 k0 E0 E1 D0]; [congruence|]. subst v0 k. assert (w0 = w) by congruence. subst w0.
      rewrite vset_lt by auto. cbn [bind]. rewrite Ew. cbn [is_root]. assert (NI : ~ In v (w :: l)) by (inversion ND; auto).
      set (vs1 := upd vs v (set_label (N vs v) gt (S k0))). assert (OUT1 : forall u, u <> v -> N vs1 u = N vs u) by (intros u NU; apply N_neq; auto).
      assert (OUT2 : forall u, In u (w :: l) -> N vs1 u = N vs u) by (intros u I; apply OUT1; congruence).
      assert (L1 : length vs1 = length vs) by apply upd_length.
      destruct (IH vs1 w k0 fuel) as (vs' & Q & RL & X1 & X2 & X3).
      + eapply path_ext; [exact P'|]. intros u I. now rewrite OUT2.
      + now inversion ND.
      + intros u I. rewrite L1. apply RG. now right.
      + eapply dep_ext; eauto.
      + cbn in HF. lia.
      + assert (Vv : N vs' v = set_label (N vs v) gt (S k0)) by (rewrite X3 by auto; apply N_eq; auto).
        exists vs'. split; auto. split.
        * destruct RL as [RL1 RL2]. split; [congruence|]. intros u. destruct (Nat.eq_dec u v) as [->|NU].
          -- right. split; auto. split; [congruence|]. split; [exists (S k0); split; [lia|]; split; auto; intros Y; now apply Y in Ew|].
             intros w0 Q0. assert (w0 = w) by congruence. subst w0. split; auto. rewrite Vv. cbn. congruence.
          -- rewrite <- (OUT1 u NU). apply RL2.
        * split; [rewrite Vv; auto|]. split; [rewrite Vv; auto|]. intros u NU. rewrite X3 by (intros I; apply NU; now right). apply OUT1. intros ->. apply NU. now left.
  Qed.

  (** ** Adopt: one orphan *)
  Definition live (gt : nat) (x : bnode) : bool := negb (isnone x) && (x_ts x <? gt).
  Definition fresh (gt : nat) (vs : list bnode) : Prop := forall u, x_ts (N vs u) = gt -> x_pr (N vs u) <> PNone.
  Lemma frame_path vs vs' v l : path vs v l -> frame vs vs' -> path vs' v l.
  Proof. intros P [_ F]. eapply path_ext; [exact P|]. intros u _. apply F. Qed.
  Lemma relabel_fresh gt vs vs' : fresh gt vs -> relabel gt vs vs' -> fresh gt vs'.
  Proof. intros F [_ H] u. destruct (H u) as [->|(_ & Y & (d & _ & -> & _) & _)]; auto. Qed.
  Lemma relabel_live gt vs vs' u : relabel gt vs vs' -> live gt (N vs' u) = true -> live gt (N vs u) = true.
  Proof. intros [_ H]. destruct (H u) as [->|(_ & Y & (d & _ & -> & _) & _)]; auto. unfold live. cbn [x_ts set_label]. rewrite Nat.ltb_irrefl, andb_false_r. discriminate. Qed.

  Definition tacc (p : nat) (t : bool) (O : list nat) (r : nat -> nat -> Z) (gt : nat) (vs0 : list bnode) (acc : option (nat * (nat * nat)) * nat * list bnode) : Prop :=
    let '(best, dmin, vs) := acc in
    tinv [] O r gt vs /\ fresh gt vs /\ frame vs0 vs /\ (forall u, live gt (N vs u) = true -> live gt (N vs0 u) = true) /\
    forall q e, best = Some (q, e) -> In q (nbr g p) /\ x_tree (N vs q) = t /\ e = arc (negb t) p q /\ (0 < ra r e)%Z /\ x_ts (N vs q) = gt /\ x_dist (N vs q) = dmin.

  Lemma try_ok infd p t O r gt vs0 acc q : tacc p t O r gt vs0 acc -> In q (nbr g p) ->
    exists acc', bk_try infd gt r p t acc q = Ok acc' /\ tacc p t O r gt vs0 acc'.
  Proof.
    destruct acc as [[best dmin] vs]. intros (T & F & FR & LV & HB) Aq. destruct (nbr_lt _ _ Aq) as [Lp Lq]. assert (LL := t_len _ _ _ _ _ T).
    assert (ACC : tacc p t O r gt vs0 (best, dmin, vs)) by (unfold tacc; auto).
    unfold bk_try. rewrite (N_get vs q) by lia. cbn [bind].
    destruct (negb (eqb (x_tree (N vs q)) t) || is_child p (x_pr (N vs q))) eqn:EB; [eauto|]. apply orb_false_iff in EB as [EB _].
    assert (Tq : x_tree (N vs q) = t) by (destruct (x_tree (N vs q)), t; cbn in EB; congruence).
    destruct (Z.leb_spec (r (fst (arc (negb t) p q)) (snd (arc (negb t) p q))) 0) as [R|R]; [eauto|].
    destruct (path_ex _ _ _ _ q T Lq) as (l & P & ND & RG & LLl).
    assert (STEP : forall vs', relabel gt vs vs' -> tacc p t O r gt vs0 (best, dmin, vs')).
    { intros vs' RL. split; [eapply relabel_tinv; eauto|]. split; [eapply relabel_fresh; eauto|]. split; [eapply frame_trans; eauto; eapply relabel_frame; eauto|].
      split; [intros u Y; apply LV; eapply relabel_live; eauto|]. intros q0 e0 E0. destruct (HB _ _ E0) as (Y1 & Y2 & Y3 & Y4 & Y5 & Y6). rewrite (relabel_old _ _ _ _ RL Y5). repeat split; auto. }
    destruct (depth_ok infd gt t l vs q 0 (S (length vs)) P ND) as [Q|(k & vs1 & Q & RL & D & OUT)]; try (rewrite LL; auto; fail).
    - intros u I. assert (TU := path_tree _ _ _ _ _ _ _ T P u I). destruct (x_pr (N vs u)) as [| | |w] eqn:E; auto; [| |right; right; eauto]; left.
      + apply (t_src _ _ _ _ _ T) in E. destruct E as (E & _). cbn. rewrite <- Tq, <- TU, E. auto.
      + apply (t_trm _ _ _ _ _ T) in E. destruct E as (E & _). cbn. rewrite <- Tq, <- TU, E. auto.
    - rewrite Q. cbn [bind]. rewrite Nat.ltb_irrefl. eauto.
    - rewrite Q. cbn [bind]. cbn [Nat.add]. destruct (Nat.ltb_spec k infd) as [L|L]; [|eauto].
      assert (L1 : length vs1 = length vs) by apply RL. assert (FR1 := relabel_frame _ _ _ RL).
      destruct (mark_ok gt t l vs1 q k (S (length vs))) as (vs2 & Q2 & RL2 & X1 & X2 & X3); auto.
      + eapply frame_path; eauto.
      + rewrite L1, LL. auto.
      + lia.
      + rewrite Q2. cbn [bind]. assert (ST1 := STEP _ RL). destruct ST1 as (T1 & F1 & G1 & V1 & B1).
        assert (T2 : tinv [] O r gt vs2) by (eapply relabel_tinv; eauto). assert (F2 : fresh gt vs2) by (eapply relabel_fresh; eauto).
        assert (G2 : frame vs0 vs2) by (eapply frame_trans; eauto; eapply relabel_frame; eauto).
        assert (V2 : forall u, live gt (N vs2 u) = true -> live gt (N vs0 u) = true) by (intros u Y; apply V1; eapply relabel_live; eauto).
        eexists. split; [reflexivity|]. destruct (Nat.ltb_spec k dmin).
        * split; auto. split; auto. split; auto. split; auto. intros q0 e0 E0. injection E0 as <- <-. repeat split; auto.
          assert (Y := relabel_frame _ _ _ RL2). destruct Y as [_ Y]. destruct (Y q) as (-> & _). destruct FR1 as [_ Y']. destruct (Y' q) as (-> & _). auto.
        * split; auto. split; auto. split; auto. split; auto. intros q0 e0 E0. destruct (B1 _ _ E0) as (Y1 & Y2 & Y3 & Y4 & Y5 & Y6). rewrite (relabel_old _ _ _ _ RL2 Y5). repeat split; auto.
  Qed.
  Lemma tries_ok infd p t O r gt vs0 : forall row acc, incl row (nbr g p) -> tacc p t O r gt vs0 acc ->
    exists acc', rfold (bk_try infd gt r p t) row acc = Ok acc' /\ tacc p t O r gt vs0 acc'.
  Proof.
    induction row as [|q row IH]; intros acc IN H; cbn [rfold]; [eauto|].
    destruct (try_ok infd p t O r gt vs0 acc q H) as (acc' & E & H'); [apply IN; now left|]. rewrite E. cbn [bind]. apply IH; auto. intros u I. apply IN. now right.
  Qed.

  (** an orphan that stays without a parent *)
  Record rel_inv (exch : bool) (p : nat) (t : bool) (r : nat -> nat -> Z) (gt : nat) (mf : Z) (cap : nat -> Z) (M : nat) (K : Prop) (row : list nat) (st : bk) : Prop := {
    l_t : tinv [p] (p :: k_orp st) r gt (k_vs st);
    l_same : k_r st = r /\ k_gt st = gt /\ k_mf st = mf;
    l_fresh : fresh gt (k_vs st);
    l_ch : forall v, x_pr (N (k_vs st) v) = PVtx p -> In v row /\ x_ts (N (k_vs st) v) < gt;
    l_tree : x_tree (N (k_vs st) p) = t;
    l_cap : forall v, x_cap (N (k_vs st) v) = cap v;
    l_act : forall u, In u (k_act st) -> u < n;
    l_m : length (k_orp st) + cnt (live gt) (k_vs st) <= M;
    l_k : exch = true -> K -> kinv (k_vs st) r (p :: k_orp st) (k_act st) /\
      forall u, In u (nbr g p) -> ~ In u row -> x_tree (N (k_vs st) u) = t -> (0 < ra r (arc t u p))%Z -> In u (k_act st) }.

  Lemma release_ok exch p t r gt mf cap M K row st q : rel_inv exch p t r gt mf cap M K (q :: row) st -> In q (nbr g p) ->
    exists st', bk_release exch p t st q = Ok st' /\ rel_inv exch p t r gt mf cap M K row st'.
  Proof.
    intros H Aq. destruct H. destruct (nbr_lt _ _ Aq) as [Lp Lq]. assert (LL := t_len _ _ _ _ _ l_t0). assert (PQ : p <> q) by (intros ->; now apply Loop in Aq).
    assert (Lq' : q < length (k_vs st)) by lia. unfold bk_release. rewrite (N_get _ _ Lq'). cbn [bind]. destruct l_same0 as (S1 & S2 & S3).
    assert (AR : arc (negb t) p q = arc t q p) by (destruct t; auto).
    destruct (negb (eqb (x_tree (N (k_vs st) q)) t)) eqn:EB.
    - assert (Tq : x_tree (N (k_vs st) q) <> t) by (destruct (x_tree (N (k_vs st) q)), t; cbn in EB; congruence).
      eexists. split; [reflexivity|]. constructor; auto.
      + intros v E. destruct (l_ch0 v E) as ([<-|I] & Y); auto. destruct (t_up _ _ _ _ _ l_t0 _ _ E) as (_ & Z & _). congruence.
      + intros EX HK. destruct (l_k0 EX HK) as (K1 & K2). split; auto. intros u A NI TU RU. apply K2; auto. intros [<-|I]; auto.
    - assert (Tq : x_tree (N (k_vs st) q) = t) by (destruct (x_tree (N (k_vs st) q)), t; cbn in EB; congruence).
      set (st1 := if (0 <? rcap st (arc (if exch then negb t else t) p q))%Z then with_act st (k_act st ++ [q]) else st).
      assert (W : k_vs st1 = k_vs st /\ k_orp st1 = k_orp st /\ k_r st1 = r /\ k_gt st1 = gt /\ k_mf st1 = mf) by (unfold st1; destruct (_ <? _)%Z; auto).
      destruct W as (W1 & W2 & W3 & W4 & W5).
      assert (W6 : forall u, In u (k_act st1) -> u < n).
      { unfold st1; destruct (_ <? _)%Z; auto. cbn. intros u I. apply in_app_iff in I. destruct I as [I|[<-|[]]]; auto. }
      assert (W7 : forall u, In u (k_act st) -> In u (k_act st1)). { unfold st1; destruct (_ <? _)%Z; auto. cbn. intros u I. apply in_app_iff. auto. }
      assert (W8 : exch = true -> (0 < ra r (arc t q p))%Z -> In q (k_act st1)).
      { intros -> R. unfold st1. rewrite AR. unfold rcap. rewrite S1. destruct (Z.ltb_spec 0 (r (fst (arc t q p)) (snd (arc t q p)))) as [L|L]; [cbn; apply in_app_iff; right; now left|].
        unfold ra in R. lia. }
      destruct (is_child p (x_pr (N (k_vs st) q))) eqn:EC.
      + assert (Eq : x_pr (N (k_vs st) q) = PVtx p) by (destruct (x_pr (N (k_vs st) q)); try discriminate; cbn in EC; apply Nat.eqb_eq in EC; congruence).
        rewrite W1, vset_lt by auto. cbn [bind]. eexists. split; [reflexivity|].
        assert (C0 : x_cap (N (k_vs st) q) = 0%Z) by (eapply cap_0; eauto; congruence). rewrite C0.
        assert (HN : x_pr (N (k_vs st) q) <> PNone) by congruence. destruct (l_ch0 q Eq) as (_ & TQ).
        constructor; cbn [k_vs k_orp k_r k_gt k_mf k_act with_orp with_vs]; rewrite ?W2; auto.
        * change (p :: k_orp st ++ [q]) with ((p :: k_orp st) ++ [q]). apply cut_tinv; auto.
        * intros u. rewrite N_upd by auto. destruct (Nat.eqb_spec u q) as [->|]; auto. cbn. lia.
        * intros v. rewrite N_upd by auto. destruct (Nat.eqb_spec v q) as [->|NV]; [discriminate|]. intros E. destruct (l_ch0 v E) as ([Y|I] & Y'); auto. congruence.
        * rewrite N_neq by auto. auto.
        * intros v. rewrite N_upd by auto. destruct (Nat.eqb_spec v q) as [->|]; auto. cbn. rewrite <- l_cap0. auto.
        * assert (C := cnt_upd (live gt) (k_vs st) q (cut_off (N (k_vs st) q) 0) Lq').
          assert (Y1 : live gt (N (k_vs st) q) = true) by (unfold live; rewrite isnone_false by auto; cbn; apply Nat.ltb_lt; auto).
          assert (Y2 : live gt (cut_off (N (k_vs st) q) 0) = false) by reflexivity. rewrite Y1, Y2 in C. rewrite app_length. cbn [length]. lia.
        * intros EX HK. destruct (l_k0 EX HK) as (K1 & K2).
          assert (TS : forall u, x_tree (N (upd (k_vs st) q (cut_off (N (k_vs st) q) 0)) u) = x_tree (N (k_vs st) u)).
          { intros u. rewrite N_upd by auto. destruct (Nat.eqb_spec u q) as [->|]; auto. }
          assert (IT : forall u, intree (upd (k_vs st) q (cut_off (N (k_vs st) q) 0)) (p :: k_orp st ++ [q]) u <-> intree (k_vs st) (p :: k_orp st) u).
          { intros u. unfold intree. rewrite N_upd by auto. cbn [In]. rewrite in_app_iff. cbn [In]. destruct (Nat.eqb_spec u q) as [->|NU]; cbn; [tauto|]. 
            split; [|tauto]. intros [I|[I|[I|[I|[]]]]]; auto; congruence. }
          split.
          -- eapply kinv_mono; [exact K1| |]; intros u I; [intros NA; split; [now apply IT|split; auto]|split; [now apply IT|auto]].
          -- intros u A NI. rewrite TS. intros TU RU. destruct (Nat.eq_dec u q) as [->|NU]; auto. apply W7, K2; auto. intros [Y|I]; auto.
      + eexists. split; [reflexivity|]. constructor; rewrite ?W1, ?W2; auto.
        * intros v E. destruct (l_ch0 v E) as ([<-|I] & Y); auto. rewrite E in EC. cbn in EC. rewrite Nat.eqb_refl in EC. discriminate.
        * intros EX HK. destruct (l_k0 EX HK) as (K1 & K2). split.
          -- eapply kinv_mono; [exact K1| |]; intros u I; [intros NA; split; [auto|split; auto]|auto].
          -- intros u A NI TU RU. destruct (Nat.eq_dec u q) as [->|NU]; auto. apply W7, K2; auto. intros [Y|I]; auto.
  Qed.
  Lemma releases_ok exch p t r gt mf cap M K : forall row st, incl row (nbr g p) -> rel_inv exch p t r gt mf cap M K row st ->
    exists st', rfold (bk_release exch p t) row st = Ok st' /\ rel_inv exch p t r gt mf cap M K [] st'.
  Proof.
    induction row as [|q row IH]; intros st IN H; cbn [rfold]; [eauto|].
    destruct (release_ok _ _ _ _ _ _ _ _ _ _ _ _ H) as (st' & E & H'); [apply IN; now left|]. rewrite E. cbn [bind]. apply IH; auto. intros u I. apply IN. now right.
  Qed.

  Record orp_res (exch : bool) (O : list nat) (st st' : bk) : Prop := {
    o_t : tinv [] (k_orp st') (k_r st) (k_gt st) (k_vs st');
    o_same : k_r st' = k_r st /\ k_gt st' = k_gt st /\ k_mf st' = k_mf st;
    o_fresh : fresh (k_gt st) (k_vs st');
    o_cap : forall v, x_cap (N (k_vs st') v) = x_cap (N (k_vs st) v);
    o_act : forall u, In u (k_act st') -> u < n;
    o_m : length (k_orp st') + cnt (live (k_gt st)) (k_vs st') <= length (k_orp st) + cnt (live (k_gt st)) (k_vs st);
    o_k : exch = true -> kinv (k_vs st) (k_r st) O (k_act st) -> kinv (k_vs st') (k_r st) (k_orp st') (k_act st') }.

  Lemma orphan_ok exch infd p st : tinv [] (p :: k_orp st) (k_r st) (k_gt st) (k_vs st) -> fresh (k_gt st) (k_vs st) -> 0 < k_gt st -> (forall u, In u (k_act st) -> u < n) ->
    exists st', bk_orphan exch infd g p st = Ok st' /\ orp_res exch (p :: k_orp st) st st'.
  Proof.
    intros T F G HA. destruct (t_orp _ _ _ _ _ T p (or_introl eq_refl)) as [Lp HP]. assert (LL := t_len _ _ _ _ _ T).
    unfold bk_orphan. rewrite (N_get (k_vs st) p) by lia. cbn [bind]. rewrite (@vget_nth _ g p []) by auto. cbn [bind]. fold (nbr g p).
    set (t := x_tree (N (k_vs st) p)). set (gt := k_gt st) in *. set (r := k_r st) in *.
    destruct (tries_ok infd p t (p :: k_orp st) r gt (k_vs st) (nbr g p) (None, infd, k_vs st)) as ([[best dmin] vs] & E & HT).
    { apply incl_refl. }
    { split; auto. split; auto. split; [apply frame_refl|]. split; auto. discriminate. }
    rewrite E. cbn [bind]. destruct HT as (T1 & F1 & [LF FR] & LV & HB). rewrite (N_get vs p) by (rewrite LF; lia). cbn [bind].
    assert (Lp' : p < length vs) by (rewrite LF; lia).
    assert (HP1 : x_pr (N vs p) = PNone) by (destruct (FR p) as (_ & _ & -> & _); auto).
    assert (Ht1 : x_tree (N vs p) = t) by (destruct (FR p) as (-> & _); auto).
    assert (TSP : x_ts (N vs p) < gt). { assert (Y1 := t_ts _ _ _ _ _ T1 p). assert (Y2 := F1 p). destruct (Nat.eq_dec (x_ts (N vs p)) gt); [tauto|lia]. }
    assert (C0 : x_cap (N vs p) = 0%Z) by (eapply cap_0; eauto; congruence).
    assert (CM : cnt (live gt) vs <= cnt (live gt) (k_vs st)) by (apply cnt_mono; auto).
    assert (ND : ~ In p (k_orp st)) by (assert (Y := t_nd _ _ _ _ _ T); now inversion Y).
    assert (IT1 : forall O u, intree vs O u <-> intree (k_vs st) O u) by (intros O u; unfold intree; destruct (FR u) as (_ & _ & -> & _); tauto).
    assert (TR1 : forall u, x_tree (N vs u) = x_tree (N (k_vs st) u)) by (intros u; apply FR).
    assert (CP1 : forall u, x_cap (N vs u) = x_cap (N (k_vs st) u)) by (intros u; apply FR).
    destruct best as [[q e]|].
    - destruct (HB q e eq_refl) as (Aq & Tq & -> & Rq & TSq & Dq). assert (PQ : p <> q) by (intros ->; now apply Loop in Aq).
      rewrite vset_lt by auto. cbn [bind]. eexists. split; [reflexivity|]. assert (AR : arc (negb t) p q = arc t q p) by (destruct t; auto). rewrite Ht1, AR, C0. rewrite AR in Rq.
      set (x := {| x_tree := t; x_e := Some (arc t q p); x_pr := PVtx q; x_ts := gt; x_dist := dmin + 1; x_cap := 0 |}).
      assert (TX : tinv [] (k_orp st) r gt (upd vs p x)).
      { unfold x. rewrite <- Tq in Rq |- *. apply attach with (O := p :: k_orp st); auto; try lia.
        - intros v E0. destruct (t_up _ _ _ _ _ T1 _ _ E0) as (_ & _ & _ & _ & _ & L). destruct (L (fun x => x)) as (Y & _). repeat split; try congruence; lia.
        - intros o I. split; [now right|]. congruence.
        - intros o [Y|I] NO; auto. congruence.
        - assert (Y := t_nd _ _ _ _ _ T). now inversion Y. }
      constructor; cbn [with_vs k_vs k_orp k_r k_gt k_mf k_act]; auto.
      + intros u. rewrite N_upd by auto. destruct (Nat.eqb_spec u p) as [->|]; auto. discriminate.
      + intros v. rewrite N_upd by auto. destruct (Nat.eqb_spec v p) as [->|]; auto. cbn. rewrite <- CP1. auto.
      + assert (C := cnt_upd (live gt) vs p x Lp'). assert (Y1 : live gt (N vs p) = false) by (unfold live, isnone; rewrite HP1; auto).
        assert (Y2 : live gt x = false) by (unfold live; apply Nat.ltb_irrefl). rewrite Y1, Y2 in C. fold gt. lia.
      + intros _ K. fold r. eapply kinv_mono; [exact K| |].
        * intros u [I|I] NA.
          -- destruct (Nat.eq_dec u p) as [Q|NU]; [subst u; rewrite N_eq by auto; split; [right; now left|split; auto]|]. rewrite N_neq in I |- * by auto. split; [left; destruct (FR u) as (_ & _ & <- & _); auto|split; auto].
          -- assert (u <> p) by congruence. rewrite N_neq by auto. split; [right; now right|split; auto].
        * intros u I. unfold intree. rewrite N_upd by auto. destruct (Nat.eqb_spec u p) as [->|NU]; [split; [left; discriminate|auto]|]. split; auto.
          destruct I as [I|[I|I]]; [left; destruct (FR u) as (_ & _ & -> & _); auto|congruence|now right].
    - rewrite vset_lt by auto. cbn [bind]. set (x := set_label (N vs p) 0 (x_dist (N vs p))). set (st1 := with_vs st (upd vs p x)).
      assert (PRX : forall u, x_pr (N (upd vs p x) u) = x_pr (N vs u)) by (intros u; rewrite N_upd by auto; destruct (Nat.eqb_spec u p) as [->|]; auto).
      assert (TRX : forall u, x_tree (N (upd vs p x) u) = x_tree (N vs u)) by (intros u; rewrite N_upd by auto; destruct (Nat.eqb_spec u p) as [->|]; auto).
      assert (CPX : forall u, x_cap (N (upd vs p x) u) = x_cap (N vs u)) by (intros u; rewrite N_upd by auto; destruct (Nat.eqb_spec u p) as [->|]; auto).
      assert (EX : forall u, x_e (N (upd vs p x) u) = x_e (N vs u)) by (intros u; rewrite N_upd by auto; destruct (Nat.eqb_spec u p) as [->|]; auto).
      assert (DX : forall u, x_dist (N (upd vs p x) u) = x_dist (N vs u)) by (intros u; rewrite N_upd by auto; destruct (Nat.eqb_spec u p) as [->|]; auto).
      assert (RI : rel_inv exch p t r gt (k_mf st) (fun v => x_cap (N (k_vs st) v)) (length (k_orp st) + cnt (live gt) (k_vs st)) (kinv (k_vs st) r (p :: k_orp st) (k_act st)) (nbr g p) st1).
      { constructor; cbn [with_vs k_vs k_orp k_r k_gt k_mf k_act st1]; auto.
        - destruct T1. constructor.
          + rewrite upd_length. auto.
          + intros v w. rewrite !PRX, !TRX, EX. intros E0. destruct (t_up0 v w E0) as (B1 & B2 & B3 & B4 & B5 & B6). split; auto. split; auto. split; auto. split; auto. split; auto.
            intros NW. rewrite (N_neq vs p x w) by (auto; intros ->; apply NW; now left). assert (v <> p) by congruence. rewrite (N_neq vs p x v) by auto. now apply B6.
          + intros v. rewrite PRX, TRX, CPX, DX. auto.
          + intros v. rewrite PRX, TRX, CPX, DX. auto.
          + intros v. rewrite PRX, CPX. auto.
          + intros v. rewrite PRX, CPX. auto.
          + intros v. rewrite PRX, DX. auto.
          + intros v. rewrite N_upd by auto. destruct (Nat.eqb_spec v p); auto. cbn. lia.
          + intros o. rewrite PRX. auto.
          + auto.
        - intros u. rewrite PRX. rewrite N_upd by auto. destruct (Nat.eqb_spec u p) as [->|]; [cbn; lia|auto].
        - intros v. rewrite PRX. intros E0. destruct (t_up _ _ _ _ _ T1 _ _ E0) as (B1 & _ & _ & _ & _ & L). destruct (L (fun x => x)) as (Y & _). split; auto.
          assert (v <> p) by congruence. rewrite N_neq by auto. lia.
        - now rewrite TRX.
        - intros v. now rewrite CPX.
        - assert (C := cnt_upd (live gt) vs p x Lp'). assert (Y1 : live gt (N vs p) = false) by (unfold live, isnone; rewrite HP1; auto).
          assert (Y2 : live gt x = false) by (unfold live, isnone, x; cbn; rewrite HP1; auto). rewrite Y1, Y2 in C. lia.
        - intros _ K. split.
          + eapply kinv_mono; [exact K| |].
            * intros u I NA. split; [|split; auto; rewrite TRX; auto]. apply IT1. unfold intree in *. now rewrite PRX in I.
            * intros u I. split; [|rewrite TRX; auto]. apply IT1 in I. unfold intree in *. now rewrite PRX.
          + intros u A NI. contradiction. }
      destruct (releases_ok _ _ _ _ _ _ _ _ _ _ _ (incl_refl _) RI) as (st' & E' & RI'). exists st'. split; [exact E'|]. destruct RI'.
      constructor; auto.
      + destruct l_t0. constructor; auto.
        * intros v w E0. destruct (t_up0 v w E0) as (B1 & B2 & B3 & B4 & B5 & B6). assert (w <> p) by (intros ->; destruct (l_ch0 v E0) as ([] & _)).
          assert (NW : ~ In w [p]) by (intros [Y|[]]; congruence). destruct (B6 NW) as (Y1 & Y2). repeat split; auto. destruct B3 as [B3|[B3|B3]]; [now left|congruence|now right].
        * intros o I. apply t_orp0. now right.
        * now inversion t_nd0.
      + intros EXT K. destruct (l_k0 EXT K) as (K1 & K2). fold r.
        assert (NP : x_pr (N (k_vs st') p) = PNone) by (apply (t_orp _ _ _ _ _ l_t0); now left).
        assert (NPO : ~ In p (k_orp st')) by (assert (Y := t_nd _ _ _ _ _ l_t0); now inversion Y).
        intros v w I NA A R. assert (NV : v <> p) by (intros ->; destruct I; tauto).
        destruct (K1 v w) as (I2 & T2); auto; [destruct I; [left|right; right]; auto|].
        destruct (Nat.eq_dec w p) as [->|NW].
        * exfalso. apply NA, K2; auto; congruence.
        * split; auto. destruct I2 as [I2|[I2|I2]]; [now left|congruence|now right].
  Qed.

  Lemma adopt_ok exch infd : forall fuel st, tinv [] (k_orp st) (k_r st) (k_gt st) (k_vs st) -> fresh (k_gt st) (k_vs st) -> 0 < k_gt st -> (forall u, In u (k_act st) -> u < n) ->
    length (k_orp st) + cnt (live (k_gt st)) (k_vs st) < fuel ->
    exists st', bk_adopt fuel exch infd g st = Ok st' /\ k_orp st' = [] /\ orp_res exch (k_orp st) st st'.
  Proof.
    induction fuel as [|fuel IH]; intros st T F G HA HF; [lia|]. cbn [bk_adopt]. destruct (k_orp st) as [|p rest] eqn:EO.
    - exists st. split; auto. split; auto. constructor; auto; rewrite EO; auto.
    - destruct (orphan_ok exch infd p (with_orp st rest)) as (st1 & E1 & O1); auto. rewrite E1. cbn [bind]. destruct O1. cbn [with_orp k_orp k_gt k_r k_vs k_mf k_act] in *.
      destruct o_same0 as (S1 & S2 & S3). cbn [length] in HF.
      destruct (IH st1) as (st2 & E2 & O2 & H2); auto; rewrite ?S1, ?S2; auto; [lia|]. exists st2. split; auto. split; auto. destruct H2. rewrite S1, S2, S3 in *.
      constructor; auto.
      + intros v. rewrite o_cap1. auto.
      + cbn [length]. rewrite EO. cbn [length]. lia.
  Qed.

  (** ** The rounds *)
  Record ginv (exch : bool) (c0 : nat -> nat -> Z) (b : nat -> Z) (tot : Z) (st : bk) : Prop := {
    j_t : tinv [] [] (k_r st) (k_gt st) (k_vs st);
    j_o : k_orp st = [];
    j_act : forall u, In u (k_act st) -> u < n;
    j_nn : forall x y, (0 <= k_r st x y)%Z;
    j_sum : forall x y, (k_r st x y + k_r st y x = c0 x y + c0 y x)%Z;
    j_cap : forall u, (0 <= b u -> 0 <= x_cap (N (k_vs st) u) <= b u)%Z /\ (b u <= 0 -> b u <= x_cap (N (k_vs st) u) <= 0)%Z;
    j_dif : forall p, p < n -> dif (k_r st) (k_vs st) p = (b p - total n (fun q => c0 p q))%Z;
    j_mf : (k_mf st + pos (k_vs st) = tot)%Z;
    j_k : exch = true -> kinv (k_vs st) (k_r st) [] (k_act st) }.

  Lemma pos_nonneg vs : (0 <= pos vs)%Z.
  Proof. apply total_nonneg. intros i _. lia. Qed.

  Lemma rounds_ok exch infd c0 b tot : forall fuel st, ginv exch c0 b tot st -> Z.to_nat (pos (k_vs st)) < fuel ->
    exists st', bk_rounds fuel exch infd g st = Ok st' /\ ginv exch c0 b tot st' /\ k_act st' = [].
  Proof.
    induction fuel as [|fuel IH]; intros st J HF; [lia|]. cbn [bk_rounds]. destruct J.
    assert (LL := t_len _ _ _ _ _ j_t0).
    destruct (grow_ok (S (length (k_act st) + length g)) st j_t0 j_act0) as (o & st1 & E1 & G1).
    { assert (Y := cnt_le isnone (k_vs st)). fold n. lia. }
    rewrite E1. cbn [bind fst snd]. destruct G1. destruct g_same0 as (S1 & S2 & S3).
    assert (PS : pos (k_vs st1) = pos (k_vs st)) by (apply total_ext; intros i _; now rewrite g_cap0).
    assert (DS : forall p, dif (k_r st1) (k_vs st1) p = dif (k_r st) (k_vs st) p) by (intros p; unfold dif; rewrite S1, g_cap0; auto).
    destruct o as [[a c]|].
    - destruct (g_some0 a c eq_refl) as (Q1 & Q2 & Q3 & Q4 & Q5 & Q6 & Q7).
      destruct (augment_ok st1 a c) as (m & st2 & E2 & M & A2); auto; try (rewrite S1; auto; fail); [congruence|]. fold n. rewrite E2. cbn [bind]. destruct A2.
      destruct a_same0 as (R1 & R2 & R3).
      assert (LV := t_len _ _ _ _ _ a_t0).
      destruct (adopt_ok exch infd (S (length (k_orp st2) + n)) st2) as (st3 & E3 & O3 & H3); rewrite ?R1, ?R3; auto.
      + intros u E. exfalso. specialize (Q7 u). rewrite a_ts0 in E. lia.
      + specialize (Q7 0). lia.
      + assert (Y := cnt_le (live (k_gt st1)) (k_vs st2)). lia.
      + rewrite E3. cbn [bind]. destruct H3. destruct o_same0 as (W1 & W2 & W3). rewrite O3 in *. rewrite S1 in *.
        assert (PS3 : pos (k_vs st3) = pos (k_vs st2)) by (apply total_ext; intros i _; now rewrite o_cap0).
        apply IH.
        * constructor; auto; rewrite ?W1; auto.
          -- rewrite W2. auto.
          -- intros x y. rewrite a_sum0. auto.
          -- intros u. rewrite o_cap0. specialize (j_cap0 u). specialize (a_cap0 u). rewrite g_cap0 in a_cap0. lia.
          -- intros p Lp. unfold dif. rewrite o_cap0. fold (dif (k_r st2) (k_vs st2) p). rewrite a_dif0 by auto. rewrite <- j_dif0 by auto. unfold dif. rewrite g_cap0. auto.
          -- rewrite PS3, W3, R2, a_pos0, PS, S3. lia.
        * rewrite PS3, a_pos0, PS. assert (Y := pos_nonneg (k_vs st2)). lia.
    - exists st1. split; auto. split; auto. constructor; rewrite ?S1; auto; try congruence.
      + intros u. rewrite g_cap0. auto.
      + intros p Lp. rewrite <- j_dif0, <- DS, S1 by auto. reflexivity.
  Qed.
End Bk.

(** ** From the last state to a flow *)
Lemma final_flow g exch c0 b tot st : let n := length g in ginv g exch c0 b tot st ->
  is_flow n c0 b (fun p q => c0 p q - k_r st p q)%Z (fun p => b p - x_cap (N (k_vs st) p))%Z /\
  flow_value n (fun p => b p - x_cap (N (k_vs st) p))%Z = (k_mf st - tot + total n (fun p => Z.max (b p) 0))%Z.
Proof.
  intros n J. destruct J. split; [split; [|split; [|split]]|].
  - intros p q. specialize (j_sum0 p q). lia.
  - intros p q _ _. specialize (j_nn0 p q). lia.
  - intros p _. specialize (j_cap0 p). lia.
  - intros p Lp. rewrite total_sub. specialize (j_dif0 p Lp). unfold dif in j_dif0. fold n in j_dif0. change (fun q => c0 p q) with (c0 p) in *. change (fun q => k_r st p q) with (k_r st p) in *. lia.
  - unfold flow_value. rewrite <- j_mf0. unfold pos. fold n.
    rewrite (@total_ext n (fun p => Z.max (b p - x_cap (N (k_vs st) p)) 0) (fun p => Z.max (b p) 0 - Z.max (x_cap (N (k_vs st) p)) 0)%Z); [rewrite total_sub; lia|].
    intros p _. specialize (j_cap0 p). lia.
Qed.
Lemma final_cut g c0 b tot st : let n := length g in (forall p q, In q (nbr g p) -> In p (nbr g q)) -> (forall p q, ~ In q (nbr g p) -> c0 p q = 0%Z) ->
  ginv g true c0 b tot st -> k_act st = [] ->
  flow_value n (fun p => b p - x_cap (N (k_vs st) p))%Z = cut_value n c0 b (fun p => bk_label (N (k_vs st) p)).
Proof.
  intros n Sym C0 J EA. destruct (final_flow g true c0 b tot st J) as (F & _). fold n in F. apply (tight_cut _ F); destruct J.
  - intros p q Lp Lq Hp Hq. enough (k_r st p q = 0%Z) by lia. assert (NNpq := j_nn0 p q). assert (NNqp := j_nn0 q p).
    destruct (in_dec Nat.eq_dec q (nbr g p)) as [A|A].
    + destruct (Z.eq_dec (k_r st p q) 0) as [|NZ]; auto. exfalso. unfold bk_label in *.
      assert (Pp : x_pr (N (k_vs st) p) <> PNone /\ x_tree (N (k_vs st) p) = false) by (destruct (x_pr (N (k_vs st) p)); split; congruence).
      destruct Pp as (Pp & Tp). destruct (j_k0 eq_refl p q) as ([I|[]] & T); auto; [now left|now rewrite EA| |].
      * rewrite Tp. unfold ra. cbn. lia.
      * destruct (x_pr (N (k_vs st) q)); congruence.
    + assert (B : ~ In p (nbr g q)) by auto. specialize (j_sum0 p q). rewrite (C0 p q A), (C0 q p B) in j_sum0. lia.
  - intros p Lp. specialize (j_cap0 p). destruct (Z.lt_trichotomy (x_cap (N (k_vs st) p)) 0) as [L|[L|L]]; [right|left; lia|right].
    + unfold bk_label. assert (E := t_neg _ _ _ _ _ _ j_t0 p L). rewrite E. destruct (t_trm _ _ _ _ _ _ j_t0 p E) as (-> & _). lia.
    + unfold bk_label. assert (E := t_pos _ _ _ _ _ _ j_t0 p L). rewrite E. destruct (t_src _ _ _ _ _ _ j_t0 p E) as (-> & _). lia.
Qed.
