(** Union by height in class disjoint_set: depths under path compression and linking. *)
From Coq Require Import List Arith ZArith Lia Bool.
From Verif Require Import Base ConnLib DsuModel DsuProofs.
Import ListNotations.
Set Implicit Arguments.

Definition hinv (n : nat) (s : list Z) (es : list (nat * nat)) : Prop :=
  length s = n /\ noself s /\ represents n (zp s) es /\
  forall rt, root_fun n (zp s) rt -> forall r, r < n -> zp s r = r ->
    exists h, nth r s (-1)%Z = (- Z.of_nat (S h))%Z /\ 2 ^ h <= count_root n rt r /\ forall k x, x < n -> up (zp s) k x r -> k <= h.

(** Pointing x at its root makes no path longer. *)
Lemma compress_depth p p' x r k : up p k x r -> x <> r -> p' x = r -> (forall y, y <> x -> p' y = p y) ->
  forall j y q, up p j y q -> exists j', j' <= j /\ up p' j' y q.
Proof.
  intros U NE P1 P2. assert (Pr := up_end U). assert (R : p' r = r) by (rewrite P2; auto).
  assert (X : up p' 1 x r) by (constructor; rewrite P1; auto; now constructor).
  induction 1 as [y Py|j y q Py Y IH].
  - exists 0. split; auto. constructor. rewrite P2; auto. intros ->. assert (up p 0 x x) by now constructor.
    destruct (up_fun U H). congruence.
  - destruct (Nat.eq_dec y x) as [->|Ny].
    + assert (up p (S j) x q) by now constructor. destruct (up_fun U H) as [-> ->]. exists 1. split; [lia|auto].
    + destruct IH as (j' & L & IH). exists (S j'). split; [lia|]. constructor; rewrite P2; auto.
Qed.
Lemma ds_compress_depth n : forall stk s r s', length s = n -> r < n -> zp s r = r ->
  (forall x, In x stk -> x < n /\ x <> r /\ exists k, up (zp s) k x r) -> ds_compress s stk r = Ok s' ->
  forall j y q, up (zp s) j y q -> exists j', j' <= j /\ up (zp s') j' y q.
Proof.
  induction stk as [|x stk IH]; intros s r s' L Hr Pr H E.
  - injection E as <-. eauto.
  - destruct (H x (or_introl eq_refl)) as (Hx & NE & [k U]). unfold ds_compress in E. cbn [rfold] in E.
    rewrite vset_lt in E by lia. cbn [bind] in E.
    set (s1 := upd s x (Z.of_nat r)) in *.
    assert (G : forall y, nth y s1 (-1)%Z = if y =? x then Z.of_nat r else nth y s (-1)%Z) by (intros; unfold s1; apply nth_upd; lia).
    assert (P1 : zp s1 x = r).
    { unfold zp. rewrite G, Nat.eqb_refl. destruct (Z.leb_spec 0 (Z.of_nat r)); lia. }
    assert (P2 : forall y, y <> x -> zp s1 y = zp s y).
    { intros y Ny. unfold zp. rewrite G. now rewrite (proj2 (Nat.eqb_neq y x) Ny). }
    assert (CD := @compress_depth (zp s) (zp s1) x r k U NE P1 P2).
    intros j y q Y. destruct (CD _ _ _ Y) as (j1 & L1 & Y1).
    destruct (IH s1 r s') with (j := j1) (y := y) (q := q) as (j2 & L2 & Y2); auto.
    + unfold s1. now rewrite upd_length.
    + rewrite P2; auto.
    + intros z Iz. destruct (H z (or_intror Iz)) as (Hz & NEz & [kz Uz]). split; auto. split; auto.
      destruct (CD _ _ _ Uz) as (z' & _ & Z'). eauto.
    + exists j2. split; [lia|auto].
Qed.

Lemma find_height n s es v : hinv n s es -> v < n ->
  exists r s', ds_find_pc s (Z.of_nat v) = DsOk (r, s') /\ (exists k, up (zp s) k v r) /\ hinv n s' es /\
    (forall k x q, x < n -> up (zp s) k x q -> exists k', up (zp s') k' x q).
Proof.
  intros (L & N & RP & SZ) Hv. unfold ds_find_pc, ds_check.
  destruct (Z.ltb_spec (Z.of_nat (length s)) (Z.of_nat v)); [lia|]. destruct (Z.ltb_spec (Z.of_nat v) 0); [lia|].
  cbn [orb]. rewrite Nat2Z.id. assert (RP' := RP). destruct RP' as [F R]. assert (F' := F). destruct F as [C F]. destruct (F v Hv) as (k & r & U).
  assert (B := up_bound C Hv U).
  rewrite (@ds_climb_ok s N) with (k := k) (r := r) by (auto; subst; auto; lia). cbn [bind fst snd]. rewrite app_nil_r.
  assert (Pr := up_end U). assert (Hr : r < n) by (eapply up_end_lt; eauto).
  assert (K : forall x, In x (rev (removelast (path (zp s) k v))) -> x < n /\ x <> r /\ exists k, up (zp s) k x r).
  { intros x I. apply in_rev in I.
    assert (I2 := in_removelast _ _ I).
    split; [exact (@path_lt n (zp s) k v x C Hv I2)|]. split.
    - intros ->. assert (ND := path_nodup U). rewrite (path_last U) in ND.
      apply NoDup_remove_2 in ND. apply ND. now rewrite app_nil_r.
    - destruct (@path_depth (zp s) k v r x U I2) as (j & _ & X). eauto. }
  destruct (@ds_compress_ok n (rev (removelast (path (zp s) k v))) s r) as (s' & E & L' & N' & F2 & R2 & V2); auto.
  assert (D := @ds_compress_depth n _ s r s' L Hr Pr K E).
  rewrite E. cbn [bind of_res]. exists r, s'.
  split; auto. split; [eauto|]. assert (RP2 : represents n (zp s') es) by (eapply represents_same_roots; eauto).
  split; [|auto]. split; auto. split; auto. split; auto. intros rt HR q Hq Pq.
  destruct (root_fun_exists F') as [rt0 H0'].
  assert (EQ : forall x, x < n -> rt x = rt0 x).
  { intros x Hx. destruct (H0' x Hx) as [j J]. destruct (R2 _ _ _ Hx J) as [j' J']. destruct (HR x Hx) as [i I]. now destruct (up_fun I J'). }
  rewrite (@count_root_ext n rt rt0 q EQ).
  assert (Pq0 : zp s q = q).
  { destruct (F q Hq) as (j & w & W). destruct (R2 _ _ _ Hq W) as [j' W'].
    assert (up (zp s') 0 q q) by now constructor. destruct (up_fun W' H1) as [_ ->]. apply (up_end W). }
  rewrite V2 by auto. destruct (SZ rt0 H0' q Hq Pq0) as (h & Eh & Ch & Dh). exists h. split; auto. split; auto.
  intros i x Hx X. destruct (F x Hx) as (j & w & W). destruct (D _ _ _ W) as (j' & Lj & W'). destruct (up_fun X W') as [-> ->].
  specialize (Dh j x Hx W). lia.
Qed.

(** Depths after linking a under b. *)
Lemma link_depth p p' a b : p a = a -> p b = b -> b <> a -> p' a = b -> (forall y, y <> a -> p' y = p y) ->
  forall k x r, up p k x r -> exists k', up p' k' x (if r =? a then b else r) /\ k' <= (if r =? a then S k else k).
Proof.
  intros Pa Pb NE Ha Hp. assert (B : p' b = b) by (rewrite Hp; auto).
  induction 1 as [v Pv|k v r Pv V IH].
  - destruct (Nat.eqb_spec v a) as [->|Nv].
    + exists 1. split; auto. constructor; rewrite Ha; auto. now constructor.
    + exists 0. split; auto. constructor. now rewrite Hp.
  - destruct IH as (k' & U & Hk). exists (S k'). split.
    + assert (v <> a) by (intros ->; auto). constructor; rewrite Hp; auto.
    + destruct (r =? a); lia.
Qed.

Lemma hlink n s s1 es u v a b ku kv ha hb h : hinv n s es -> u < n -> v < n ->
  (up (zp s) ku u a /\ up (zp s) kv v b \/ up (zp s) ku u b /\ up (zp s) kv v a) -> a <> b -> length s1 = n ->
  (forall y, nth y s1 (-1)%Z = if y =? a then Z.of_nat b else if y =? b then (- Z.of_nat (S h))%Z else nth y s (-1)%Z) ->
  nth a s (-1)%Z = (- Z.of_nat (S ha))%Z -> nth b s (-1)%Z = (- Z.of_nat (S hb))%Z -> (ha < hb /\ h = hb \/ ha = hb /\ h = S hb) ->
  hinv n s1 (es ++ [(u, v)]).
Proof.
  intros (L & N & RP & SZ) Hu Hv UV NE L1 G Za Zb HH. assert (F := proj1 RP). assert (C := proj1 F).
  assert (Q : a < n /\ b < n /\ zp s a = a /\ zp s b = b).
  { destruct UV as [[U V]|[U V]]; repeat split; try (eapply up_end_lt; eauto; fail); eapply up_end; eauto. }
  destruct Q as (Ha & Hb & Pa & Pb).
  assert (P1 : zp s1 a = b). { unfold zp. rewrite G, Nat.eqb_refl. destruct (Z.leb_spec 0 (Z.of_nat b)); lia. }
  assert (P2 : forall y, y <> a -> zp s1 y = zp s y).
  { intros y Ny. unfold zp. rewrite G. rewrite (proj2 (Nat.eqb_neq y a) Ny). destruct (Nat.eqb_spec y b) as [->|]; auto. }
  split; auto. split; [|split].
  - intros y Hy Z0. rewrite G in *. destruct (Nat.eqb_spec y a) as [->|]; [rewrite Nat2Z.id; congruence|].
    destruct (Nat.eqb_spec y b); [lia|]. apply N; auto; lia.
  - apply (@represents_link n (zp s) (zp s1) es u v a b); auto. destruct UV as [[U V]|[U V]]; [left|right]; eauto.
  - intros rt HR q Hq Pq. destruct (root_fun_exists F) as [rt0 H0].
    assert (LK := @link_depth (zp s) (zp s1) a b Pa Pb (not_eq_sym NE) P1 P2).
    assert (EQ : forall x, x < n -> rt x = if rt0 x =? a then b else rt0 x).
    { intros x Hx. destruct (H0 x Hx) as [j J]. destruct (LK _ _ _ J) as (j' & J' & _). destruct (HR x Hx) as [i I]. now destruct (up_fun I J'). }
    rewrite (@count_root_ext n rt (fun x => if rt0 x =? a then b else rt0 x) q EQ).
    assert (Nq : q <> a) by (intros ->; congruence). rewrite G. rewrite (proj2 (Nat.eqb_neq q a) Nq).
    assert (DD : forall k x, x < n -> up (zp s1) k x q -> exists j w, up (zp s) j x w /\ (w = q /\ w <> a /\ k <= j \/ w = a /\ q = b /\ k <= S j)).
    { intros k x Hx X. destruct (proj2 F x Hx) as (j & w & W). exists j, w. split; auto. destruct (LK _ _ _ W) as (j' & W' & Lj).
      destruct (up_fun X W') as [-> ->]. destruct (Nat.eqb_spec w a); auto. }
    destruct (SZ rt0 H0 a Ha Pa) as (ha' & Ea & Ca & Da). destruct (SZ rt0 H0 b Hb Pb) as (hb' & Eb & Cb & Db).
    assert (ha' = ha) by lia. assert (hb' = hb) by lia. subst ha' hb'.
    destruct (Nat.eqb_spec q b) as [->|Nb].
    + exists h. split; auto. rewrite count_root_link by auto. split.
      * destruct HH as [[_ ->]|[-> ->]]; [lia|]. cbn [Nat.pow]. lia.
      * intros k x Hx X. destruct (DD k x Hx X) as (j & w & W & [(-> & _ & Lk)|(-> & _ & Lk)]);
          [specialize (Db j x Hx W)|specialize (Da j x Hx W)]; lia.
    + rewrite count_root_other by auto. destruct (SZ rt0 H0 q Hq) as (hq & Eq & Cq & Dq); [rewrite <- P2; auto|]. exists hq. split; auto. split; auto.
      intros k x Hx X. destruct (DD k x Hx X) as (j & w & W & [(-> & _ & Lk)|(_ & -> & _)]); [|congruence]. specialize (Dq j x Hx W). lia.
Qed.

Lemma union_height n s es u v : hinv n s es -> u < n -> v < n ->
  exists s', ds_union_pc_height s (Z.of_nat u) (Z.of_nat v) = DsOk s' /\ hinv n s' (es ++ [(u, v)]).
Proof.
  intros I Hu Hv. unfold ds_union_pc_height.
  destruct (find_height I Hu) as (a & s1 & E1 & [k1 U1] & I1 & K1). rewrite E1. cbn [ds_bind fst snd].
  destruct (find_height I1 Hv) as (b & s2 & E2 & [k2 V1] & I2 & K2). rewrite E2. cbn [ds_bind fst snd].
  destruct (K1 _ _ _ Hu U1) as [k3 U2]. destruct (K2 _ _ _ Hu U2) as [k4 U3]. destruct (K2 _ _ _ Hv V1) as [k5 V2].
  destruct (Nat.eqb_spec a b) as [->|NE]; cbn [negb].
  - exists s2. split; auto. destruct I2 as (L & N & RP & SZ). split; auto. split; auto. split; auto.
    eapply represents_noop; eauto.
  - assert (I3 := I2). destruct I3 as (L & _ & RP & SZ). assert (F := proj1 RP). assert (C := proj1 F).
    assert (Ha : a < n) by (eapply up_end_lt; eauto). assert (Hb : b < n) by (eapply up_end_lt; eauto).
    assert (Pa := up_end U3). assert (Pb := up_end V2). destruct (root_fun_exists F) as [rt HR].
    destruct (SZ rt HR a Ha Pa) as (ha & Ea & _). destruct (SZ rt HR b Hb Pb) as (hb & Eb & _).
    unfold ds_combine_by_height, ds_get. rewrite !(@vget_nth _ _ _ (-1)%Z) by lia. cbn [bind].
    rewrite Ea, Eb. destruct (Z.ltb_spec (- Z.of_nat (S hb)) (- Z.of_nat (S ha))).
    + rewrite vset_lt by lia. cbn [of_res]. eexists. split; [reflexivity|].
      eapply (@hlink n s2 _ es u v a b k4 k5 ha hb hb I2); eauto; [now rewrite upd_length| |lia].
      intros y. rewrite nth_upd by lia. destruct (y =? a); auto. destruct (Nat.eqb_spec y b) as [->|]; auto.
    + destruct (Z.eqb_spec (- Z.of_nat (S hb)) (- Z.of_nat (S ha))) as [Q|Q].
      * rewrite vset_lt by lia. cbn [bind]. rewrite vset_lt by (rewrite upd_length; lia). cbn [of_res]. eexists. split; [reflexivity|].
        eapply (@hlink n s2 _ es u v b a k4 k5 hb ha (S ha) I2); eauto; [now rewrite !upd_length| |lia].
        intros y. rewrite nth_upd by (rewrite upd_length; lia). destruct (y =? b); auto. rewrite nth_upd by lia. destruct (y =? a); auto. lia.
      * cbn [bind]. rewrite vset_lt by lia. cbn [of_res]. eexists. split; [reflexivity|].
        eapply (@hlink n s2 _ es u v b a k4 k5 hb ha ha I2); eauto; [now rewrite upd_length| |lia].
        intros y. rewrite nth_upd by lia. destruct (y =? b); auto. destruct (Nat.eqb_spec y a) as [->|]; auto.
Qed.

Lemma count_self n r : r < n -> count_root n (fun x => x) r = 1.
Proof.
  intros Hr. unfold count_root. replace n with (r + S (n - S r)) by lia. rewrite seq_app. simpl. rewrite filter_app. simpl. rewrite Nat.eqb_refl.
  rewrite (filter_none (fun x => x =? r) (seq 0 r)). 2:{ intros x I. apply in_seq in I. apply Nat.eqb_neq. lia. }
  rewrite (filter_none (fun x => x =? r) (seq (S r) _)). 2:{ intros x I. apply in_seq in I. apply Nat.eqb_neq. lia. }
  reflexivity.
Qed.
Lemma hinv_new n : hinv n (ds_new n) [].
Proof.
  assert (G : forall v, nth v (ds_new n) (-1)%Z = (-1)%Z) by (intros; unfold ds_new; apply nth_repeat).
  assert (P : forall v, zp (ds_new n) v = v) by (intros; apply zp_neg; rewrite G; lia).
  split; [apply repeat_length|]. split; [intros v Hv H; rewrite G in H; lia|]. split; [apply represents_singletons; auto|].
  intros rt HR r Hr _. exists 0. rewrite G. split; auto. rewrite (@count_root_ext n rt (fun x => x) r).
  - rewrite count_self by auto. split; auto. intros k x Hx X. assert (up (zp (ds_new n)) 0 x x) by (constructor; auto). now destruct (up_fun X H) as [-> _].
  - intros x Hx. destruct (HR x Hx) as [k K]. assert (up (zp (ds_new n)) 0 x x) by (constructor; auto). now destruct (up_fun K H).
Qed.
