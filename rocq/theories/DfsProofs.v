(** Proofs for DfsModel.v. *)
From Coq Require Import List Arith Lia Bool.
From Verif Require Import Base GraphLib DfsModel.
Import ListNotations.
Set Implicit Arguments.

(** * Depth-first order.  [D] are the discovered vertices, the earliest first.  The next tree edge starts at the latest
    discovered vertex [u] that still has an undiscovered target (those after it have none), and goes to the first
    undiscovered target in the row of [u]; it is over when nothing undiscovered can be reached. *)
Inductive dfs_from (g : list (list nat)) : list nat -> list (nat * nat) -> Prop :=
| dfs_end : forall D, (forall x y, In x D -> edge g x y -> In y D) -> dfs_from g D []
| dfs_next : forall D1 u D2 l1 v l2 T,
    nth u g [] = l1 ++ v :: l2 -> (forall x, In x l1 -> In x (D1 ++ u :: D2)) -> ~ In v (D1 ++ u :: D2) ->
    (forall x y, In x D2 -> edge g x y -> In y (D1 ++ u :: D2)) ->
    dfs_from g ((D1 ++ u :: D2) ++ [v]) T -> dfs_from g (D1 ++ u :: D2) ((u, v) :: T).

(** Following the tree edges [T] down from [x]. *)
Inductive below (T : list (nat * nat)) (x : nat) : nat -> Prop :=
| below_refl : below T x x
| below_step : forall u v, below T x u -> In (u, v) T -> below T x v.

Lemma below_mono T T' x y : (forall e, In e T -> In e T') -> below T x y -> below T' x y.
Proof. intros H B. induction B; [constructor|]. econstructor; eauto. Qed.

Lemma snoc_cons A (l : list A) v r : (l ++ [v]) ++ r = l ++ v :: r.
Proof. now rewrite <- app_assoc. Qed.

Lemma dfs_from_nodup g D T : dfs_from g D T -> NoDup D -> NoDup (D ++ map snd T).
Proof.
  intros H. induction H; intros N; [now rewrite app_nil_r|].
  cbn [map snd]. rewrite snoc_cons in IHdfs_from. apply IHdfs_from.
  apply NoDup_Add with (a := v) (l := D1 ++ u :: D2); [|split; auto].
  replace (D1 ++ u :: D2) with ((D1 ++ u :: D2) ++ []) at 1 by apply app_nil_r. apply Add_app.
Qed.

Lemma dfs_from_closed g D T : dfs_from g D T -> forall x y, In x (D ++ map snd T) -> edge g x y -> In y (D ++ map snd T).
Proof.
  intros H. induction H.
  - rewrite app_nil_r. auto.
  - intros x y Hx Hy. cbn [map snd] in *. rewrite snoc_cons in IHdfs_from. eauto.
Qed.

Lemma dfs_from_edges g D T : dfs_from g D T -> forall u v, In (u, v) T -> edge g u v.
Proof.
  intros H. induction H; intros a b I; [destruct I|]. destruct I as [E|I]; auto.
  injection E as <- <-. unfold edge. rewrite H. apply in_or_app. right. now left.
Qed.

(** Every tree edge starts at a vertex discovered before. *)
Lemma dfs_from_src g D T : dfs_from g D T -> forall T1 u v T2, T = T1 ++ (u, v) :: T2 -> In u (D ++ map snd T1).
Proof.
  intros H. induction H; intros T1 a b T2 E; [destruct T1; discriminate|].
  destruct T1 as [|[c d] T1]; cbn in E; injection E as ? ? ?; subst.
  - rewrite app_nil_r. apply in_or_app. right. now left.
  - cbn [map snd]. rewrite <- snoc_cons. eapply IHdfs_from; eauto.
Qed.

Lemma dfs_from_reach g D T s : dfs_from g D T -> (forall x, In x D -> reachable g s x) ->
  forall x, In x (D ++ map snd T) -> reachable g s x.
Proof.
  intros H. induction H; intros R x I; [rewrite app_nil_r in I; auto|].
  cbn [map snd] in I. rewrite snoc_cons in IHdfs_from.
  apply IHdfs_from; auto. intros y Hy. apply in_app_or in Hy. destruct Hy as [Hy|[<-|[]]]; auto.
  destruct (R u) as [k W]; [apply in_or_app; right; now left|]. exists (S k). econstructor; eauto.
  unfold edge. rewrite H. apply in_or_app. right. now left.
Qed.

Lemma split_two A (D1 D2 E1 E2 : list A) u x : D1 ++ u :: D2 = E1 ++ x :: E2 ->
  (In x D2) \/ (u = x /\ D1 = E1 /\ D2 = E2) \/ In u E2.
Proof.
  revert E1. induction D1 as [|a D1 IH]; intros E1 E; destruct E1 as [|b E1]; cbn in E; injection E as ? ?; subst.
  - right. left. auto.
  - left. apply in_or_app. right. now left.
  - right. right. apply in_or_app. right. now left.
  - destruct (IH _ H0) as [X|[(?&?&?)|X]]; subst; auto.
Qed.

Lemma split_first A (D1 D2 E1 E2 : list A) u x : D1 ++ u :: D2 = E1 ++ x :: E2 -> x = u \/ In u E1 \/ In x D1.
Proof.
  revert E1. induction D1 as [|a D1 IH]; intros E1 E; destruct E1 as [|b E1]; cbn in E; injection E as E E'; subst; auto.
  - right. left. now left.
  - right. right. now left.
  - destruct (IH _ E') as [X|[X|X]]; auto; right; [left|right]; now right.
Qed.

(** An arc leads to an earlier vertex or to one below its source in the tree. *)
Lemma dfs_arc g D T : dfs_from g D T -> forall T0, (forall e, In e T -> In e T0) ->
  (forall x y E1 E2, D = E1 ++ x :: E2 -> edge g x y -> In y E2 -> below T0 x y) ->
  (forall E1 x E2, D = E1 ++ x :: E2 -> (exists y, edge g x y /\ ~ In y D) -> forall z, In z E2 -> below T0 x z) ->
  forall x y E1 E2, D ++ map snd T = E1 ++ x :: E2 -> edge g x y -> In y E2 -> below T0 x y.
Proof.
  intros H. induction H; intros T0 HT H3' H4 x y E1 E2 E Hxy Hy.
  - rewrite app_nil_r in E. eauto.
  - cbn [map snd] in E. refine (IHdfs_from T0 _ _ _ x y E1 E2 _ Hxy Hy).
    + intros e He. apply HT. now right.
    + clear x y E1 E2 E Hxy Hy. intros x y E1 E2 E Hxy Hy.
      destruct (exists_last (l := x :: E2) ltac:(discriminate)) as (F & z & EF). rewrite EF in E. rewrite app_assoc in E.
      apply app_inj_tail in E. destruct E as [E <-]. destruct F as [|a F]; cbn in EF; [injection EF as _ ->; destruct Hy|injection EF as <- ->].
      apply in_app_or in Hy. destruct Hy as [Hy|[<-|[]]]; [eapply H3'; eauto|].
      assert (Bu : below T0 x u).
      { assert (E0 := E); apply split_two in E0; destruct E0 as [X|[(X & _)|X]].
        - exfalso. apply H1. eapply H2; eauto.
        - subst. constructor.
        - eapply H4; eauto. }
      econstructor; [exact Bu|apply HT; now left].
    + clear x y E1 E2 E Hxy Hy. intros E1 x E2 E (y & Hxy & Ny) z Hz.
      destruct (exists_last (l := x :: E2) ltac:(discriminate)) as (F & w & EF). rewrite EF in E. rewrite app_assoc in E.
      apply app_inj_tail in E. destruct E as [E <-]. destruct F as [|a F]; cbn in EF; [injection EF as _ ->; destruct Hz|injection EF as <- ->].
      assert (Ny' : ~ In y (D1 ++ u :: D2)) by (intros C; apply Ny; apply in_or_app; now left).
      assert (HB : forall z, In z F -> below T0 x z) by (intros; eapply H4; eauto).
      apply in_app_or in Hz. destruct Hz as [Hz|[<-|[]]]; auto.
      assert (Bu : below T0 x u).
      { assert (E0 := E); apply split_two in E0; destruct E0 as [X|[(X & _)|X]].
        - exfalso. apply Ny'. eapply H2; eauto.
        - subst. constructor.
        - auto. }
      econstructor; [exact Bu|apply HT; now left].
    + now rewrite snoc_cons.
Qed.

(** * The machine *)
Definition fin (g : list (list nat)) (D : list nat) (x : nat) : Prop := forall y, edge g x y -> In y D.
(** [y] was discovered after [x]. *)
Definition after (D : list nat) (x y : nat) : Prop := exists A B, D = A ++ x :: B /\ In y B.

Definition nonloop (e : nat * nat) : bool := negb (fst e =? snd e).

Section Run.
Variables (g : list (list nat)) (s : nat) (debug : bool).
Hypothesis Hok : targets_ok g.
Hypothesis Hs : s < length g.
Hypothesis Hloop : debug = true -> forall x, ~ edge g x x.

(** [L] is the current vertex and the stack below it; [fr]: the current vertex is still white. *)
Record dinv (D L c : list nat) (v : nat) (fr : bool) : Prop := {
  di_nodup : NoDup D;
  di_lt : forall x, In x D -> x < length g;
  di_head : exists L', L = v :: L';
  di_in : forall x, In x L -> In x D;
  di_cover : forall x, In x D -> In x L \/ fin g D x;
  di_ord : forall L1 x L2, L = L1 ++ x :: L2 -> forall y, after D x y -> In y L1 \/ fin g D y;
  di_len : length c = length g;
  di_white : forall x, x < length g -> nth x c 0 = 1 <-> ~ In x D \/ (x = v /\ fr = true);
  di_two : exists L', L = L' ++ [s; s] /\ (debug = true -> NoDup (L' ++ [s]));
  di_grey : debug = true -> forall L', L = v :: L' ++ [s] -> forall x, In x L' -> nth x c 0 = 2 }.

Lemma after_snoc D x y w : NoDup (D ++ [w]) -> after (D ++ [w]) x y -> x <> w /\ (after D x y \/ y = w).
Proof.
  intros N (A & B & E & I). destruct (exists_last (l := x :: B) ltac:(discriminate)) as (F & z & EF).
  rewrite EF in E. rewrite app_assoc in E. apply app_inj_tail in E. destruct E as [E <-].
  destruct F as [|a F]; cbn in EF; injection EF as ? ?; subst; [destruct I|]. split.
  - intros ->. rewrite <- app_assoc in N. cbn in N. apply NoDup_remove_2 in N. apply N. apply in_or_app. right.
    apply in_or_app. right. now left.
  - apply in_app_or in I. destruct I as [I|[<-|[]]]; auto. left. exists A, F. auto.
Qed.

Lemma de_skip_ok c : forall l i, (forall x, In x l -> x < length c) ->
  exists i', de_skip c l i = Ok i' /\ i <= i' <= i + length l /\
    (forall x, In x (firstn (i' - i) l) -> nth x c 0 <> 1) /\
    (i' < i + length l -> exists w, nth_error l (i' - i) = Some w /\ nth w c 0 = 1).
Proof.
  induction l as [|u l IH]; intros i Hl; cbn [de_skip length].
  - exists i. split; auto. rewrite Nat.sub_diag. cbn. split; [lia|]. split; [easy|lia].
  - rewrite (@vget_nth _ c u 0) by (apply Hl; now left). cbn [bind]. destruct (Nat.eqb_spec (nth u c 0) 1) as [E|N].
    + exists i. split; auto. rewrite Nat.sub_diag. cbn. split; [lia|]. split; [easy|]. eauto.
    + destruct (IH (S i)) as (i' & E & B & F & G); [intros; apply Hl; now right|]. exists i'. split; auto.
      split; [lia|]. replace (i' - i) with (S (i' - S i)) by lia. cbn [firstn nth_error]. split.
      * intros x [<-|Hx]; auto.
      * intros. apply G. lia.
Qed.

Lemma row_lt v x : In x (nth v g []) -> x < length g.
Proof. intros H. exact (Hok v x H). Qed.

(** What the skip finds in the row of the current vertex. *)
Lemma skip_row D L c v fr : dinv D L c v fr ->
  exists i, de_skip c (nth v g []) 0 = Ok i /\
   ((i = length (nth v g []) /\ fin g D v) \/
    (i <> length (nth v g []) /\ exists w, nth_error (nth v g []) i = Some w /\ 
      ((~ In w D /\ forall x, In x (firstn i (nth v g [])) -> In x D) \/ (w = v /\ fr = true)))).
Proof.
  intros I. destruct (@de_skip_ok c (nth v g []) 0) as (i & E & B & F & G).
  { intros x Hx. rewrite (di_len I). eapply row_lt; eauto. }
  exists i. split; auto. rewrite Nat.sub_0_r in *. cbn in B.
  assert (K : forall x, In x (firstn i (nth v g [])) -> In x D).
  { intros x Hx. specialize (F _ Hx). assert (Lx : x < length g).
    { apply (row_lt v). rewrite <- (firstn_skipn i). apply in_or_app. now left. }
    destruct (in_dec Nat.eq_dec x D); auto. exfalso. apply F. apply (di_white I); auto. }
  destruct (Nat.eq_dec i (length (nth v g []))) as [Ei|Ni].
  - left. split; auto. intros y Hy. apply K. rewrite Ei, firstn_all. exact Hy.
  - right. split; auto. destruct G as (w & Ew & W); [lia|]. exists w. split; auto.
    assert (Lw : w < length g) by (apply (row_lt v); eapply nth_error_In; eauto).
    destruct (proj1 (di_white I Lw) W) as [X|X]; auto.
Qed.

(** Ready to yield the arc to [w]. *)
Definition yinv (D : list nat) (st : de_state) (w : nat) : Prop :=
  exists fr, dinv D (de_v st :: de_q st) (de_c st) (de_v st) fr /\ de_q st <> [] /\
    nth_error (nth (de_v st) g []) (de_i st) = Some w /\
    ((~ In w D /\ forall x, In x (firstn (de_i st) (nth (de_v st) g [])) -> In x D) \/ w = de_v st).
Definition done (D : list nat) (st : de_state) : Prop := de_q st = [] /\ forall x, In x D -> fin g D x.

Lemma nth_upd' (l : list nat) i j x : i < length l -> nth j (upd l i x) 0 = if j =? i then x else nth j l 0.
Proof. apply nth_upd. Qed.

Lemma de_up_ok : forall q D c v fr i, dinv D (v :: q) c v fr -> fin g D v ->
  exists st, de_up debug g c q v i = Ok st /\ (done D st \/ exists w, yinv D st w /\ ~ In w D).
Proof.
  induction q as [|v' q IH]; intros D c v fr i I F.
  { exfalso. destruct (di_two I) as (L' & E & _). destruct L' as [|a [|b L']]; discriminate. }
  cbn [de_up]. assert (Lv : v < length g) by (apply (di_lt I), (di_in I); now left).
  rewrite vset_lt by (rewrite (di_len I); auto). cbn [bind].
  destruct q as [|q0 q].
  - eexists. split; [reflexivity|]. left. split; [reflexivity|]. intros x Hx.
    destruct (di_two I) as (L' & E & _).
    destruct L' as [|a [|b L']]; cbn in E; try discriminate; [|destruct L'; discriminate]. injection E as -> ->.
    destruct (di_cover I x Hx) as [[<-|[<-|[]]]|X]; auto.
  - assert (Lc : length (upd c v 0) = length g) by (rewrite upd_length; apply I).
    assert (Lv' : v' < length g) by (apply (di_lt I), (di_in I); right; now left).
    rewrite (@vget_nth _ _ v' 0) by (rewrite Lc; auto). cbn [bind].
    destruct (di_two I) as (L' & E & ND). destruct L' as [|a L']; cbn in E; [discriminate|]. injection E as <- E.
    assert (I' : dinv D (v' :: q0 :: q) (upd c v 0) v' false).
    { constructor.
      - apply I.
      - apply I.
      - eauto.
      - intros x Hx. apply (di_in I). now right.
      - intros x Hx. destruct (di_cover I x Hx) as [[<-|X]|X]; auto.
      - intros L1 x L2 EL y Hy. destruct (@di_ord _ _ _ _ _ I (v :: L1) x L2 ltac:(now rewrite EL) y Hy) as [[<-|X]|X]; auto.
      - auto.
      - intros x Hx. rewrite nth_upd' by (rewrite (di_len I); auto). destruct (Nat.eqb_spec x v) as [->|N].
        + split; [discriminate|]. intros [X|[_ X]]; [|discriminate]. exfalso. apply X, (di_in I). now left.
        + rewrite (di_white I Hx). intuition congruence.
      - exists L'. split; auto. intros Hd. specialize (ND Hd). now inversion ND.
      - intros Hd L1 EL x Hx. rewrite nth_upd' by (rewrite (di_len I); auto). specialize (ND Hd). cbn in ND.
        assert (EL' : v' :: L1 = L' ++ [s]).
        { rewrite E in EL. change (v' :: L1 ++ [s]) with ((v' :: L1) ++ [s]) in EL.
          replace (L' ++ [s; s]) with ((L' ++ [s]) ++ [s]) in EL by now rewrite <- app_assoc.
          apply app_inj_tail in EL. symmetry. apply EL. }
        rewrite <- EL' in ND. inversion ND as [|? ? N1 N2]; subst.
        destruct (Nat.eqb_spec x v) as [->|N]; [exfalso; apply N1; now right|].
        apply (@di_grey _ _ _ _ _ I Hd (v' :: L1)); [|now right]. now rewrite EL. }
    assert (G : debug && negb (nth v' (upd c v 0) 0 =? 2) = false).
    { destruct debug eqn:Hd; auto. specialize (ND eq_refl). cbn in ND. rewrite nth_upd' by (rewrite (di_len I); auto).
      assert (EL : exists L1, v' :: q0 :: q = v' :: L1 ++ [s]).
      { destruct (exists_last (l := q0 :: q) ltac:(discriminate)) as (L1 & z & EL).
        rewrite EL in E. change (v' :: L1 ++ [z]) with ((v' :: L1) ++ [z]) in E.
        replace (L' ++ [s; s]) with ((L' ++ [s]) ++ [s]) in E by now rewrite <- app_assoc.
        apply app_inj_tail in E. destruct E as [_ ->]. exists L1. now rewrite EL. }
      destruct EL as (L1 & EL). assert (E2 : v' :: L1 = L' ++ [s]).
      { rewrite EL in E. change (v' :: L1 ++ [s]) with ((v' :: L1) ++ [s]) in E.
        replace (L' ++ [s; s]) with ((L' ++ [s]) ++ [s]) in E by now rewrite <- app_assoc.
        apply app_inj_tail in E. apply E. }
      rewrite <- E2 in ND. inversion ND as [|? ? N1 N2]; subst.
      destruct (Nat.eqb_spec v' v) as [->|N]; [exfalso; apply N1; now left|].
      rewrite (@di_grey _ _ _ _ _ I Hd (v' :: L1)); [reflexivity| |now left]. now rewrite EL. }
    rewrite G. rewrite (@vget_nth _ g v' []) by auto. cbn [bind].
    destruct (skip_row I') as (i' & -> & C). cbn [bind].
    destruct C as [[Ei F']|(Ni & w & Ew & C)].
    + rewrite Ei, Nat.eqb_refl. eapply IH; eauto.
    + destruct (Nat.eqb_spec i' (length (nth v' g []))); [contradiction|]. eexists. split; [reflexivity|].
      destruct C as [[Nw Fw]|[_ X]]; [|discriminate]. right. exists w. split; auto.
      exists false. cbn. split; [exact I'|]. split; [discriminate|]. auto.
Qed.

Lemma de_step D st w : yinv D st w -> 
  exists st', de_deref g st = Ok (de_v st, w) /\ de_next debug g st = Ok st' /\
    let D' := if w =? de_v st then D else D ++ [w] in
    (w = de_v st \/ ~ In w D) /\
    (done D' st' \/ exists w', yinv D' st' w' /\ (w' = w -> w <> de_v st) /\ (~ In w' D' \/ (w' = w /\ w' = de_v st'))).
Proof.
  intros (fr & I & Nq & Ew & C). destruct st as [q c v i]. cbn [de_v de_q de_c de_i] in *.
  assert (Lv : v < length g) by (apply (di_lt I), (di_in I); now left).
  assert (Lw : w < length g) by (apply (row_lt v); eapply nth_error_In; eauto).
  unfold de_deref, de_next. cbn [de_v de_q de_c de_i].
  rewrite (@vget_nth _ g v []) by auto. cbn [bind].
  replace (vget (nth v g []) i) with (Ok w) by (symmetry; apply vget_Ok; auto). cbn [bind].
  rewrite vset_lt by (rewrite (di_len I); auto). cbn [bind].
  rewrite (@vget_nth _ g w []) by auto. cbn [bind].
  assert (Lc : length (upd c v 2) = length g) by (rewrite upd_length; apply I).
  set (D' := if w =? v then D else D ++ [w]). cbv zeta.
  assert (Hw : w = v \/ ~ In w D) by (destruct C as [[X _]|X]; auto).
  assert (I' : dinv D' (w :: v :: q) (upd c v 2) w (negb (w =? v))).
  { subst D'. destruct (Nat.eqb_spec w v) as [->|N].
    - constructor; try apply I.
      + eauto.
      + intros x [<-|Hx]; apply (di_in I); [now left|auto].
      + intros x Hx. destruct (di_cover I x Hx); auto. left. now right.
      + intros L1 x L2 EL y Hy. destruct L1 as [|a L1]; cbn in EL; injection EL as ? EL; subst.
        * apply (@di_ord _ _ _ _ _ I [] x q); auto.
        * destruct (@di_ord _ _ _ _ _ I L1 x L2 EL y Hy); auto. left. now right.
      + auto.
      + intros x Hx. rewrite nth_upd' by (rewrite (di_len I); auto). destruct (Nat.eqb_spec x v) as [->|N].
        * split; [discriminate|]. intros [X|[_ X]]; [|discriminate]. exfalso. apply X, (di_in I). now left.
        * rewrite (di_white I Hx). cbn. intuition congruence.
      + destruct (di_two I) as (L' & E & ND). exists (v :: L'). cbn. rewrite <- E. split; auto.
        intros Hd. exfalso. eapply Hloop; eauto. unfold edge. eapply nth_error_In; eauto.
      + intros Hd. exfalso. eapply Hloop; eauto. unfold edge. eapply nth_error_In; eauto.
    - destruct Hw as [?|Hw]; [contradiction|].
      assert (ND' : NoDup (D ++ [w])).
      { apply NoDup_Add with (a := w) (l := D); [|split; [apply I|auto]].
        replace D with (D ++ []) at 1 by apply app_nil_r. apply Add_app. }
      constructor.
      + auto.
      + intros x Hx. apply in_app_or in Hx. destruct Hx as [Hx|[<-|[]]]; auto. now apply I.
      + eauto.
      + intros x [<-|Hx]; apply in_or_app; [right; now left|left; now apply (di_in I)].
      + intros x Hx. apply in_app_or in Hx. destruct Hx as [Hx|[<-|[]]]; [|left; now left].
        destruct (di_cover I x Hx) as [X|X]; [left; now right|]. right. intros y Hy. apply in_or_app. left. auto.
      + intros L1 x L2 EL y Hy. apply after_snoc in Hy; auto. destruct Hy as [Nx Hy].
        destruct L1 as [|a L1]; cbn in EL; injection EL as ? EL; subst; [contradiction|].
        destruct Hy as [Hy| ->]; [|left; now left].
        destruct (@di_ord _ _ _ _ _ I L1 x L2 EL y Hy) as [X|X]; [left; now right|].
        right. intros z Hz. apply in_or_app. left. auto.
      + auto.
      + intros x Hx. rewrite nth_upd' by (rewrite (di_len I); auto). destruct (Nat.eqb_spec x v) as [->|Nx].
        * split; [discriminate|]. intros [X|[X _]]; [|congruence]. exfalso. apply X. apply in_or_app. left.
          apply (di_in I). now left.
        * rewrite (di_white I Hx). cbn. rewrite in_app_iff. cbn. destruct (Nat.eq_dec x w) as [->|]; [|intuition congruence].
          intuition auto.
      + destruct (di_two I) as (L' & E & ND). exists (w :: L'). cbn. rewrite <- E. split; auto.
        intros Hd. constructor; auto. intros X. apply Hw. apply (di_in I). rewrite E.
        apply in_app_or in X. apply in_or_app. destruct X as [X|[X|[]]]; auto. right. now left.
      + intros Hd L' EL x Hx. injection EL as EL. destruct L' as [|a L']; [destruct Hx|]. cbn in EL. injection EL as <- EL.
        rewrite nth_upd' by (rewrite (di_len I); auto). destruct (Nat.eqb_spec x v) as [->|Nx]; auto.
        destruct Hx as [<-|Hx]; [congruence|]. apply (@di_grey _ _ _ _ _ I Hd L'); auto. now rewrite EL. }
  destruct (skip_row I') as (i' & -> & C'). cbn [bind].
  destruct C' as [[Ei F]|(Ni & w' & Ew' & C')].
  - rewrite Ei, Nat.eqb_refl. destruct (de_up_ok (length (nth w g [])) I' F) as (st' & -> & K).
    exists st'. split; auto. split; auto. split; auto. destruct K as [K|(w' & Y & Nw')]; auto. right.
    exists w'. split; auto. split; auto. intros -> ->. apply Nw'. subst D'. rewrite Nat.eqb_refl.
    apply (di_in I). now left.
  - destruct (Nat.eqb_spec i' (length (nth w g []))); [contradiction|]. eexists. split; [reflexivity|].
    split; [reflexivity|]. split; auto. right. exists w'. cbn [de_v]. split.
    + exists (negb (w =? v)). cbn. split; [exact I'|]. split; [discriminate|]. split; [exact Ew'|]. tauto.
    + destruct C' as [[Nw' _]|[-> Hf]].
      * split; auto. intros -> ->. apply Nw'. subst D'. rewrite Nat.eqb_refl. apply (di_in I). now left.
      * split; auto. intros _ ->. now rewrite Nat.eqb_refl in Hf.
Qed.

Lemma dinv_len D L c v fr : dinv D L c v fr -> length D <= length g.
Proof.
  intros I. rewrite <- (seq_length (length g) 0). apply NoDup_incl_length; [apply I|].
  intros x Hx. apply in_seq. apply (di_lt I) in Hx. lia.
Qed.

Lemma de_loop_ok : forall fuel D st w, yinv D st w -> 2 * (length g - length D) + (if w =? de_v st then 1 else 0) <= fuel ->
  exists r, de_loop debug fuel g st = Ok r /\ dfs_from g D (filter nonloop r) /\ NoDup r /\
    (forall x y, In (x, y) r -> edge g x y) /\
    (forall x, In (x, x) r -> ~ In x D \/ (x = de_v st /\ w = de_v st)).
Proof.
  induction fuel as [|fuel IH]; intros D st w Y B.
  { exfalso. destruct Y as (fr & I & Nq & Ew & C). destruct (Nat.eqb_spec w (de_v st)); [lia|].
    destruct C as [[C _]|C]; [|contradiction].
    assert (X : length (w :: D) <= length g).
    { rewrite <- (seq_length (length g) 0). apply NoDup_incl_length; [constructor; [auto|apply I]|].
      intros x [<-|Hx]; apply in_seq; [|apply (di_lt I) in Hx; lia].
      split; [lia|]. apply nth_error_In in Ew. apply row_lt in Ew. lia. }
    cbn in X. lia. }
  destruct (de_step Y) as (st' & Ed & En & Hw & K). destruct Y as (fr & I & Nq & Ew & C).
  cbn [de_loop]. destruct (de_q st) as [|q0 q] eqn:Eq; [contradiction|]. clear Nq.
  rewrite Ed, En. cbn [bind]. assert (Ev : edge g (de_v st) w) by (unfold edge; eapply nth_error_In; eauto).
  assert (VD : In (de_v st) D) by (apply (di_in I); now left).
  set (D' := if w =? de_v st then D else D ++ [w]) in *. cbv zeta in K.
  assert (R : exists r, de_loop debug fuel g st' = Ok r /\ dfs_from g D' (filter nonloop r) /\ NoDup r /\
    (forall x y, In (x, y) r -> edge g x y) /\ (forall x, In (x, x) r -> ~ In x D' \/ (x = w /\ w <> de_v st))).
  { destruct K as [[Eq' F]|(w' & Y' & N1 & N2)].
    - exists []. cbn. split; [destruct fuel; cbn [de_loop]; rewrite Eq'; auto|]. split; [apply dfs_end; intros x y Hx; apply (F x Hx)|].
      split; [constructor|]. split; intros; contradiction.
    - assert (VD' : In (de_v st') D') by (destruct Y' as (fr' & I' & _); apply (di_in I'); now left).
      assert (LD : length D' <= length g) by (destruct Y' as (fr' & I' & _); eapply dinv_len; eauto).
      destruct (IH D' st' w' Y') as (r & Er & Dr & Nr & Hr & Lr).
      + subst D'. destruct (Nat.eqb_spec w (de_v st)) as [->|N].
        * destruct (Nat.eqb_spec w' (de_v st')) as [X|X]; [|lia].
          exfalso. destruct N2 as [N2|[N2 _]]; [congruence|]. subst w'. now apply N1.
        * rewrite app_length in *. cbn in *. destruct (w' =? de_v st'); lia.
      + exists r. split; auto. split; auto. split; auto. split; auto. intros x Hx. destruct (Lr x Hx) as [X|[X1 X2]]; auto.
        right. destruct N2 as [N2|[N2 _]]; [exfalso; apply N2; congruence|]. split; [congruence|]. now apply N1. }
  destruct R as (r & -> & Dr & Nr & Hr & Lr). cbn [bind]. eexists. split; [reflexivity|].
  cbn [filter]. unfold nonloop at 1. cbn [fst snd]. subst D'.
  destruct (Nat.eqb_spec w (de_v st)) as [->|N].
  - rewrite Nat.eqb_refl. cbn [negb]. split; auto. split; [|split].
    + constructor; auto. intros X. destruct (Lr _ X) as [X1|[X1 X2]]; auto.
    + intros x y [E|X]; [injection E as <- <-|]; auto.
    + intros x [E|X]; [injection E as <-; auto|]. destruct (Lr x X) as [X1|[X1 X2]]; auto; contradiction.
  - destruct Hw as [?|Hw]; [contradiction|].
    destruct (Nat.eqb_spec (de_v st) w) as [?|_]; [congruence|]. cbn [negb]. split; [|split; [|split]].
    + destruct (in_split _ _ VD) as (D1 & D2 & ED).
      assert (FD : forall x y, In x D2 -> edge g x y -> In y D).
      { intros x y Hx. destruct (@di_ord _ _ _ _ _ I [] (de_v st) (q0 :: q) eq_refl x) as [[]|X]; [|apply X].
        exists D1, D2. auto. }
      destruct C as [[_ C]|C]; [|contradiction].
      destruct (nth_error_split _ _ Ew) as (l1 & l2 & El & Ei).
      rewrite ED in Dr, C, Hw, FD |- *. apply dfs_next with (l1 := l1) (l2 := l2); auto.
      intros x Hx. apply C. rewrite El, <- Ei, firstn_app, Nat.sub_diag, firstn_all, app_nil_r. exact Hx.
    + constructor; auto. intros X. 
      assert (X' : In w (map snd (filter nonloop r))).
      { apply in_map_iff. exists (de_v st, w). split; auto. apply filter_In. split; auto. unfold nonloop. cbn.
        destruct (Nat.eqb_spec (de_v st) w); [congruence|auto]. }
      assert (ND' : NoDup (D ++ [w])).
      { apply NoDup_Add with (a := w) (l := D); [|split; [apply I|auto]].
        replace D with (D ++ []) at 1 by apply app_nil_r. apply Add_app. }
      apply dfs_from_nodup in Dr; auto. rewrite snoc_cons in Dr. apply NoDup_remove_2 in Dr. apply Dr.
      apply in_or_app. now right.
    + intros x y [E|X]; [injection E as <- <-|]; auto.
    + intros x [E|X]; [injection E as E1 E2; congruence|]. left. intros XD.
      destruct (Lr x X) as [X1|[-> _]]; [|auto]. apply X1. apply in_or_app. now left.
Qed.

Lemma dinv_init : dinv [s] [s; s] (upd (repeat 1 (length g)) s 2) s false.
Proof.
  constructor.
  - repeat constructor. easy.
  - intros x [<-|[]]; auto.
  - eauto.
  - intros x [<-|[<-|[]]]; now left.
  - intros x [<-|[]]. left. now left.
  - intros L1 x L2 _ y (A & B & E & Hy). destruct A as [|a [|b A]]; try discriminate. cbn in E. injection E as <- <-. destruct Hy.
  - now rewrite upd_length, repeat_length.
  - intros x Hx. rewrite nth_upd' by (now rewrite repeat_length). destruct (Nat.eqb_spec x s) as [->|N].
    + split; [discriminate|]. intros [X|[_ X]]; [|discriminate]. exfalso. apply X. now left.
    + split; auto. intros _. left. intros [X|[]]. congruence. intros _.
      rewrite nth_indep with (d' := 1) by now rewrite repeat_length. apply nth_repeat.
  - exists []. split; auto. intros _. repeat constructor. easy.
  - intros _ L' E x Hx. destruct L' as [|a [|b L']]; [destruct Hx|discriminate|discriminate].
Qed.

Lemma dfs_edges_ok w row : nth s g [] = w :: row ->
  exists r, dfs_edges debug g s = Ok r /\ dfs_from g [s] (filter nonloop r) /\ NoDup r /\
    (forall x y, In (x, y) r -> edge g x y).
Proof.
  intros Er. unfold dfs_edges. rewrite vset_lt by (now rewrite repeat_length). cbn [bind].
  rewrite (@vget_nth _ g s []) by auto. cbn [bind].
  destruct (@de_loop_ok (2 * length g + 1) [s] {| de_q := [s]; de_c := upd (repeat 1 (length g)) s 2; de_v := s; de_i := 0 |} w) as (r & E & Dr & Nr & Hr & _).
  - exists false. cbn [de_v de_q de_c de_i]. split; [exact dinv_init|]. split; [discriminate|]. rewrite Er. split; auto.
    destruct (Nat.eq_dec w s); auto. left. split; [|intros ? []]. intros [X|[]]; congruence.
  - cbn [length]. destruct (w =? _); lia.
  - eauto.
Qed.
End Run.

Lemma dfs_edges_isolated debug g s : s < length g -> nth s g [] = [] -> dfs_edges debug g s = Ub.
Proof.
  intros Hs Er. unfold dfs_edges. rewrite vset_lt by (now rewrite repeat_length). cbn [bind].
  rewrite (@vget_nth _ g s []) by auto. cbn [bind]. rewrite Nat.add_1_r. cbn [de_loop de_q]. unfold de_deref. cbn [de_v de_i].
  rewrite (@vget_nth _ g s []) by auto. cbn [bind]. now rewrite Er.
Qed.

(** * dfs_range *)
Lemma dr_visit_len fuel g : forall q c v i r, dr_visit fuel g q c v i = Ok r -> length (snd r) = length c /\ (q <> [] -> fst r <> []).
Proof.
  induction fuel as [|f IH]; intros q c v i r E; cbn [dr_visit] in E; apply bind_Ok in E; destruct E as (row & _ & E);
    destruct (i =? length row).
  - injection E as <-. auto.
  - discriminate.
  - injection E as <-. auto.
  - apply bind_Ok in E. destruct E as (u & _ & E). apply bind_Ok in E. destruct E as (x & _ & E). destruct (x =? 1).
    + apply bind_Ok in E. destruct E as (c1 & E1 & E). apply bind_Ok in E. destruct E as (c2 & E2 & E).
      apply vset_Ok in E1. apply vset_Ok in E2. destruct E1 as [_ ->]. destruct E2 as [_ ->].
      apply IH in E. rewrite !upd_length in E. split; [apply E|]. intros _. apply E. discriminate.
    + apply bind_Ok in E. destruct E as (c2 & E2 & E). apply vset_Ok in E2. destruct E2 as [_ ->].
      apply IH in E. rewrite !upd_length in E. split; [apply E|]. intros _. apply E. discriminate.
Qed.

Lemma dr_scan_lt g c : length c <= length g -> forall k cur r, dr_scan k g c cur = Ok r -> r < length g.
Proof.
  intros L. induction k as [|k IH]; intros cur r E; [discriminate|]. cbn [dr_scan] in E.
  apply bind_Ok in E. destruct E as (x & Ex & E). apply vget_Ok_lt in Ex.
  destruct (negb (x =? 1) && negb (S cur =? length g)); [eauto|]. injection E as <-. lia.
Qed.

Lemma dr_next_q vf g st st' : length (dr_c st) <= length g -> dr_next vf g st = Ok st' ->
  dr_q st' <> [] /\ length (dr_c st') <= length g.
Proof.
  intros L E. unfold dr_next in E. apply bind_Ok in E. destruct E as (q & Eq & E). destruct q as [|v q].
  - apply bind_Ok in E. destruct E as (k & Ek & E). apply dr_scan_lt in Ek; auto.
    destruct (Nat.eqb_spec k (length g)); [lia|]. apply bind_Ok in E. destruct E as (c & Ec & E).
    apply vset_Ok in Ec. destruct Ec as [_ ->]. apply bind_Ok in E. destruct E as (r & Er & E). injection E as <-. cbn.
    apply dr_visit_len in Er. rewrite upd_length in Er. split; [apply Er; discriminate|]. lia.
  - apply bind_Ok in E. destruct E as (r & Er & E). injection E as <-. cbn.
    apply dr_visit_len in Er. split; [apply Er; discriminate|]. lia.
Qed.

Lemma dr_loop_never vf g : forall fuel st, length (dr_c st) <= length g -> dr_q st <> [] -> forall r, dr_loop vf fuel g st <> Ok r.
Proof.
  induction fuel as [|f IH]; intros st L N r E; cbn [dr_loop] in E; destruct (dr_q st) as [|v q] eqn:Eq; try contradiction; try discriminate.
  apply bind_Ok in E. destruct E as (st' & En & E). apply bind_Ok in E. destruct E as (r' & Er & _).
  apply dr_next_q in En; auto. destruct En. eapply IH; eauto.
Qed.

Lemma dfs_vertices_never m vf fuel g s r : m <= length g -> dfs_vertices m vf fuel g s <> Ok r.
Proof.
  intros L E. unfold dfs_vertices in E. apply bind_Ok in E. destruct E as (c & Ec & E). apply vset_Ok in Ec. destruct Ec as [_ ->].
  apply bind_Ok in E. destruct E as (p & Ep & E). apply dr_visit_len in Ep. rewrite upd_length, repeat_length in Ep.
  revert E. apply dr_loop_never; cbn; [lia|]. apply Ep. discriminate.
Qed.

Lemma dr_visit_empty vf g q c v : v < length g -> nth v g [] = [] -> dr_visit vf g q c v 0 = Ok (q, c).
Proof.
  intros L E. destruct vf; cbn [dr_visit]; rewrite (@vget_nth _ g v []) by auto; cbn [bind]; now rewrite E.
Qed.

(** An isolated seed is the only element for ever. *)
Lemma dfs_vertices_isolated m vf fuel g s : s < length g -> length g <= m -> nth s g [] = [] -> dfs_vertices m vf fuel g s = OutOfFuel.
Proof.
  intros Hs Hm E. unfold dfs_vertices. rewrite vset_lt by (rewrite repeat_length; lia). cbn [bind].
  rewrite dr_visit_empty by auto. cbn [bind fst snd].
  induction fuel as [|f IH]; cbn [dr_loop dr_q]; auto.
  unfold dr_next. cbn [dr_q dr_c dr_cursor dr_pop]. rewrite vget_upd_eq by (rewrite repeat_length; lia). cbn [bind Nat.eqb].
  rewrite dr_visit_empty by auto. cbn [bind fst snd]. now rewrite IH.
Qed.
