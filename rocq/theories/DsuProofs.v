From Coq Require Import List Arith ZArith Lia Bool Permutation.
From Verif Require Import Base ConnLib DsuModel.
Import ListNotations.
Set Implicit Arguments.

(** * Free functions *)
Definition dp (s : dsu) (v : nat) : nat := fst (nth v s (v, 0)).

Lemma dsu_first_ok s v : v < length s -> dsu_first s v = Ok (dp s v).
Proof. intros H. unfold dsu_first, dp. rewrite (@vget_nth _ _ _ (v, 0)) by auto. reflexivity. Qed.
Lemma dsu_second_ok s v : v < length s -> exists k, dsu_second s v = Ok k.
Proof. intros H. unfold dsu_second. rewrite (@vget_nth _ _ _ (v, 0)) by auto. eexists. reflexivity. Qed.
Lemma dsu_set_first_ok s v p : v < length s ->
  exists s', dsu_set_first s v p = Ok s' /\ length s' = length s /\ dp s' v = p /\ (forall y, y <> v -> dp s' y = dp s y).
Proof.
  intros H. unfold dsu_set_first. rewrite (@vget_nth _ _ _ (v, 0)) by auto. cbn [bind]. rewrite vset_lt by auto.
  eexists. split; [reflexivity|]. split; [apply upd_length|]. split.
  - unfold dp. rewrite nth_upd_eq by auto. reflexivity.
  - intros y NE. unfold dp. now rewrite nth_upd_neq by auto.
Qed.
Lemma dsu_inc_second_ok s v : v < length s ->
  exists s', dsu_inc_second s v = Ok s' /\ length s' = length s /\ (forall y, dp s' y = dp s y).
Proof.
  intros H. unfold dsu_inc_second. rewrite (@vget_nth _ _ _ (v, 0)) by auto. cbn [bind]. rewrite vset_lt by auto.
  eexists. split; [reflexivity|]. split; [apply upd_length|].
  intros y. unfold dp. destruct (Nat.eq_dec y v) as [->|NE]; [now rewrite nth_upd_eq by auto|now rewrite nth_upd_neq by auto].
Qed.

Lemma up_ext p p' k v r : (forall y, p' y = p y) -> up p k v r -> up p' k v r.
Proof. intros E. induction 1; constructor; rewrite E; auto. Qed.
Lemma represents_pext n p p' es : (forall y, p' y = p y) -> represents n p es -> represents n p' es.
Proof.
  intros E RP. destruct RP as [[C F] R].
  assert (F' : forest n p').
  { split; [intros v Hv; rewrite E; auto|]. intros v Hv. destruct (F v Hv) as (k & r & U). exists k, r. now apply up_ext with p. }
  split; auto. intros u v ku kv ru rv Hu Hv U V.
  apply (R u v ku kv); auto; apply up_ext with p'; auto.
Qed.

Lemma dfind_loop_ok n s : length s = n -> closed n (dp s) ->
  forall k v r fuel, up (dp s) k v r -> v < n -> k <= fuel -> dfind_loop fuel s v = Ok r.
Proof.
  intros L C k v r fuel U. revert fuel. induction U; intros fuel Hv Hk.
  - destruct fuel; simpl; rewrite dsu_first_ok by lia; cbn [bind]; rewrite H, Nat.eqb_refl; reflexivity.
  - destruct fuel; [lia|]. simpl. rewrite dsu_first_ok by lia. cbn [bind].
    destruct (Nat.eqb_spec v (dp s v)); [congruence|]. apply IHU; auto. lia.
Qed.

Lemma dcompress_ok n : forall fuel s k v r, length s = n -> forest n (dp s) -> up (dp s) k v r -> v < n -> k <= fuel ->
  exists s', dcompress fuel s v r = Ok s' /\ length s' = n /\ forest n (dp s') /\
    forall j x q, x < n -> up (dp s) j x q -> exists j', up (dp s') j' x q.
Proof.
  induction fuel; intros s k v r L F U Hv Hk.
  - assert (k = 0) by lia. subst. inversion U; subst. simpl. rewrite Nat.eqb_refl. exists s. split; auto. split; auto. split; auto. eauto.
  - simpl. destruct (Nat.eqb_spec v r) as [E|NE].
    + exists s. split; auto. split; auto. split; auto. eauto.
    + inversion U as [|k' v' r' NR U']; subst; [congruence|]. rewrite dsu_first_ok by auto. cbn [bind].
      assert (Hp : dp s v < length s) by (apply F; auto).
      destruct (@dsu_set_first_ok s (dp s v) r Hp) as (s1 & E1 & L1 & P1 & P2). rewrite E1. cbn [bind].
      assert (F1 : forest (length s) (dp s1)) by (eapply (@forest_compress (length s) (dp s) (dp s1)); eauto).
      assert (CR := @compress_roots (dp s) (dp s1) _ _ _ U' P1 P2).
      assert (U1 : exists k1, up (dp s1) k1 (dp s v) r /\ k1 <= k').
      { destruct (Nat.eq_dec (dp s v) r) as [Er|Nr].
        - exists 0. split; [|lia]. rewrite Er in *. constructor. auto.
        - exists 1. split.
          + constructor; rewrite P1; auto. constructor. rewrite P2 by auto. apply (up_end U').
          + inversion U'; subst; [congruence|lia]. }
      destruct U1 as (k1 & U1 & Hk1).
      destruct (IHfuel s1 k1 (dp s v) r) as (s2 & E2 & L2 & F2 & R2); auto; try lia.
      exists s2. split; auto. split; auto. split; auto. intros j x q Hx X.
      destruct (CR _ _ _ X) as [j1 X1]. eauto.
Qed.

Lemma disjoint_find_ok n s es v : length s = n -> represents n (dp s) es -> v < n ->
  exists r s', disjoint_find s v = Ok (r, s') /\ length s' = n /\ (exists k, up (dp s) k v r) /\
    (forall k x q, x < n -> up (dp s) k x q -> exists k', up (dp s') k' x q) /\ represents n (dp s') es.
Proof.
  intros L RP Hv. assert (RP' := RP). destruct RP as [F R]. assert (F' := F). destruct F as [C F].
  destruct (F v Hv) as (k & r & U). unfold disjoint_find. rewrite dsu_first_ok by lia. cbn [bind].
  assert (Q : exists k', up (dp s) k' (dp s v) r /\ k' <= k).
  { inversion U; subst; [exists 0; rewrite H; split; auto|]. exists k0. split; auto. }
  destruct Q as (k' & U' & Hk). assert (B := up_bound C Hv U).
  rewrite (@dfind_loop_ok n s L C k' (dp s v) r) by (auto; lia). cbn [bind].
  destruct (@dcompress_ok n (length s) s k v r) as (s' & E & L' & F2 & R2); auto; [lia|].
  rewrite E. cbn [bind]. exists r, s'. split; auto. split; auto. split; [eauto|]. split; auto.
  eapply represents_same_roots; eauto.
Qed.

Lemma dsu_link_ok n s es u v a b ka kb : length s = n -> represents n (dp s) es -> u < n -> v < n ->
  up (dp s) ka u a -> up (dp s) kb v b -> a <> b ->
  exists s', dsu_link s a b = Ok s' /\ length s' = n /\ represents n (dp s') (es ++ [(u, v)]).
Proof.
  intros L RP Hu Hv U V NE. assert (C : closed n (dp s)) by apply RP.
  assert (Ha : a < n) by (eapply up_end_lt; eauto). assert (Hb : b < n) by (eapply up_end_lt; eauto).
  unfold dsu_link. destruct (@dsu_second_ok s a) as [ra Ea]; [lia|]. destruct (@dsu_second_ok s b) as [rb Eb]; [lia|].
  rewrite Ea, Eb. cbn [bind]. destruct (ra <? rb).
  - destruct (@dsu_set_first_ok s a b) as (s1 & E1 & L1 & P1 & P2); [lia|]. rewrite E1. exists s1. split; auto. split; [lia|].
    apply (@represents_link n (dp s) (dp s1) es u v a b); auto. left. eauto.
  - destruct (@dsu_set_first_ok s b a) as (s1 & E1 & L1 & P1 & P2); [lia|]. rewrite E1.
    assert (R1 : represents n (dp s1) (es ++ [(u, v)])).
    { apply (@represents_link n (dp s) (dp s1) es u v b a); auto. right. eauto. }
    destruct (rb <? ra); [exists s1; split; auto; split; auto; lia|]. cbn [bind].
    destruct (@dsu_inc_second_ok s1 a) as (s2 & E2 & L2 & P3); [lia|]. rewrite E2. exists s2. split; auto. split; [lia|].
    now apply represents_pext with (dp s1).
Qed.
Lemma dsu_link_same s a : a < length s -> dp s a = a ->
  exists s', dsu_link s a a = Ok s' /\ length s' = length s /\ forall y, dp s' y = dp s y.
Proof.
  intros Ha Pa. unfold dsu_link. destruct (@dsu_second_ok s a Ha) as [ra Ea]. rewrite Ea. cbn [bind]. rewrite Nat.ltb_irrefl.
  destruct (@dsu_set_first_ok s a a Ha) as (s1 & E1 & L1 & P1 & P2). rewrite E1. cbn [bind].
  destruct (@dsu_inc_second_ok s1 a) as (s2 & E2 & L2 & P3); [lia|]. exists s2. split; auto. split; [lia|].
  intros y. rewrite P3. destruct (Nat.eq_dec y a) as [->|]; auto. congruence.
Qed.

Lemma disjoint_union_ok n s es u v : length s = n -> represents n (dp s) es -> u < n -> v < n ->
  exists s', disjoint_union s u v = Ok s' /\ length s' = n /\ represents n (dp s') (es ++ [(u, v)]).
Proof.
  intros L RP Hu Hv. unfold disjoint_union.
  destruct (disjoint_find_ok L RP Hu) as (a & s1 & E1 & L1 & [k1 U1] & K1 & R1). rewrite E1. cbn [bind].
  destruct (disjoint_find_ok L1 R1 Hv) as (b & s2 & E2 & L2 & [k2 V1] & K2 & R2). rewrite E2. cbn [bind].
  destruct (K1 _ _ _ Hu U1) as [k3 U2]. destruct (K2 _ _ _ Hu U2) as [k4 U3]. destruct (K2 _ _ _ Hv V1) as [k5 V2].
  destruct (Nat.eq_dec a b) as [->|NE].
  - destruct (@dsu_link_same s2 b) as (s3 & E3 & L3 & P3).
    + rewrite L2. eapply up_end_lt; [apply R2|exact V2|auto].
    + eapply up_end; eauto.
    + rewrite E3. exists s3. split; auto. split; [lia|]. apply represents_pext with (dp s2); auto.
      eapply represents_noop; eauto.
  - eapply dsu_link_ok; eauto.
Qed.
Lemma disjoint_union_find_ok n s es u v : length s = n -> represents n (dp s) es -> u < n -> v < n ->
  exists b s', disjoint_union_find s u v = Ok (b, s') /\ length s' = n /\ represents n (dp s') (es ++ [(u, v)]) /\
    (b = true <-> ~ conn es u v).
Proof.
  intros L RP Hu Hv. unfold disjoint_union_find.
  destruct (disjoint_find_ok L RP Hu) as (a & s1 & E1 & L1 & [k1 U1] & K1 & R1). rewrite E1. cbn [bind].
  destruct (disjoint_find_ok L1 R1 Hv) as (b & s2 & E2 & L2 & [k2 V1] & K2 & R2). rewrite E2. cbn [bind].
  destruct (K1 _ _ _ Hu U1) as [k3 U2]. destruct (K2 _ _ _ Hu U2) as [k4 U3]. destruct (K2 _ _ _ Hv V1) as [k5 V2].
  assert (CN := proj2 R2 u v _ _ _ _ Hu Hv U3 V2).
  destruct (Nat.eqb_spec a b) as [->|NE]; simpl negb.
  - exists false, s2. split; auto. split; auto. split; [eapply represents_noop; eauto|].
    split; [discriminate|]. intros H. exfalso. apply H. now apply CN.
  - destruct (dsu_link_ok L2 R2 Hu Hv U3 V2 NE) as (s3 & E3 & L3 & R3). rewrite E3. cbn [bind].
    exists true, s3. split; auto. split; auto. split; auto. split; auto. intros _ H. apply CN in H. congruence.
Qed.

Lemma dsu_init_represents n : length (dsu_init n) = n /\ represents n (dp (dsu_init n)) [].
Proof.
  split; [unfold dsu_init; now rewrite map_length, seq_length|]. apply represents_singletons. intros v Hv.
  unfold dp, dsu_init. rewrite nth_map_seq by auto. reflexivity.
Qed.

Definition op_edges (o : dsu_op) : list (nat * nat) :=
  match o with OpFind _ => [] | OpUnion u v => [(u, v)] | OpUnionFind u v => [(u, v)] end.
Definition op_lt (n : nat) (o : dsu_op) : Prop :=
  match o with OpFind u => u < n | OpUnion u v => u < n /\ v < n | OpUnionFind u v => u < n /\ v < n end.
(** What each output must be, given the unions before. *)
Definition out_ok (es : list (nat * nat)) (o : dsu_op) (r : dsu_out) : Prop :=
  match o, r with
  | OpFind u, OutRoot x => conn es u x
  | OpUnion _ _, OutUnit => True
  | OpUnionFind u v, OutBool b => b = true <-> ~ conn es u v
  | _, _ => False
  end.
Lemma dsu_exec_ok n s es o : length s = n -> represents n (dp s) es -> op_lt n o ->
  exists r s', dsu_exec s o = Ok (r, s') /\ length s' = n /\ represents n (dp s') (es ++ op_edges o) /\ out_ok es o r.
Proof.
  intros L RP H. destruct o as [u|u v|u v]; simpl in *.
  - destruct (disjoint_find_ok L RP H) as (a & s1 & E1 & L1 & [k1 U1] & K1 & R1). rewrite E1. cbn [bind].
    exists (OutRoot a), s1. split; auto. split; auto. rewrite app_nil_r. split; auto. simpl. exact (root_conn RP H U1).
  - destruct H as [Hu Hv]. destruct (disjoint_union_ok L RP Hu Hv) as (s1 & E1 & L1 & R1). rewrite E1. cbn [bind].
    exists OutUnit, s1. simpl. auto.
  - destruct H as [Hu Hv]. destruct (disjoint_union_find_ok L RP Hu Hv) as (b & s1 & E1 & L1 & R1 & B). rewrite E1. cbn [bind].
    exists (OutBool b), s1. simpl. auto.
Qed.

Fixpoint outs_ok (es : list (nat * nat)) (ops : list dsu_op) (outs : list dsu_out) : Prop :=
  match ops, outs with
  | [], [] => True
  | o :: ops', r :: outs' => out_ok es o r /\ outs_ok (es ++ op_edges o) ops' outs'
  | _, _ => False
  end.
Lemma dsu_run_ok n ops : forall s es, length s = n -> represents n (dp s) es -> Forall (op_lt n) ops ->
  exists outs s', dsu_run s ops = Ok (outs, s') /\ length s' = n /\
    represents n (dp s') (es ++ concat (map op_edges ops)) /\ outs_ok es ops outs.
Proof.
  induction ops as [|o ops IH]; intros s es L RP H; simpl.
  - exists [], s. rewrite app_nil_r. auto.
  - inversion H; subst. destruct (dsu_exec_ok o eq_refl RP H2) as (r & s1 & E1 & L1 & R1 & O1). rewrite E1. cbn [bind fst snd].
    destruct (IH s1 _ L1 R1 H3) as (outs & s2 & E2 & L2 & R2 & O2). rewrite E2. cbn [bind fst snd].
    exists (r :: outs), s2. rewrite app_assoc. auto.
Qed.

(** * class disjoint_set *)
Definition zp (s : list Z) (v : nat) : nat :=
  let z := nth v s (-1)%Z in if (0 <=? z)%Z then Z.to_nat z else v.
Definition noself (s : list Z) : Prop := forall v, v < length s -> (0 <= nth v s (-1))%Z -> Z.to_nat (nth v s (-1)%Z) <> v.

Lemma zp_neg s v : (nth v s (-1) < 0)%Z -> zp s v = v.
Proof. intros H. unfold zp. destruct (Z.leb_spec 0 (nth v s (-1)%Z)); [lia|auto]. Qed.
Lemma zp_root s v : noself s -> v < length s -> zp s v = v -> (nth v s (-1) < 0)%Z.
Proof.
  intros N H E. unfold zp in E. destruct (Z.leb_spec 0 (nth v s (-1)%Z)); auto. exfalso. apply (N v); auto.
Qed.

Lemma ds_climb_ok s : noself s -> closed (length s) (zp s) ->
  forall k v r, up (zp s) k v r -> forall fuel stk, v < length s -> k <= fuel ->
  ds_climb fuel s v stk = Ok (r, rev (removelast (path (zp s) k v)) ++ stk).
Proof.
  intros N C k v r U. induction U; intros fuel stk Hv Hk.
  - assert (Z := zp_root N Hv H). simpl. unfold ds_get.
    destruct fuel; simpl; unfold ds_get; rewrite (@vget_nth _ _ _ (-1)%Z) by auto; cbn [bind];
      destruct (Z.leb_spec 0 (nth v s (-1)%Z)); try lia; reflexivity.
  - destruct fuel; [lia|]. cbn [ds_climb]. unfold ds_get. rewrite (@vget_nth _ _ _ (-1)%Z) by auto. cbn [bind].
    assert (P : zp s v = Z.to_nat (nth v s (-1)%Z) /\ (0 <= nth v s (-1)%Z)%Z).
    { unfold zp in H |- *. destruct (Z.leb_spec 0 (nth v s (-1)%Z)); [auto|congruence]. }
    destruct P as [P1 P2]. rewrite (proj2 (Z.leb_le _ _) P2). rewrite <- P1. rewrite IHU by (auto; lia). f_equal. f_equal.
    cbn [path]. destruct (path (zp s) k (zp s v)) eqn:EP; [destruct k; discriminate|].
    change (removelast (v :: n :: l)) with (v :: removelast (n :: l)). simpl rev. rewrite <- app_assoc. reflexivity.
Qed.

Lemma ds_compress_ok n : forall stk s r, length s = n -> noself s -> forest n (zp s) -> r < n -> zp s r = r ->
  (forall x, In x stk -> x < n /\ x <> r /\ exists k, up (zp s) k x r) ->
  exists s', ds_compress s stk r = Ok s' /\ length s' = n /\ noself s' /\ forest n (zp s') /\
    (forall k x q, x < n -> up (zp s) k x q -> exists k', up (zp s') k' x q) /\
    (forall x, x < n -> zp s x = x -> nth x s' (-1)%Z = nth x s (-1)%Z).
Proof.
  induction stk as [|x stk IH]; intros s r L N F Hr Pr H.
  - exists s. simpl. split; auto. split; auto. split; auto. split; auto. split; eauto.
  - destruct (H x (or_introl eq_refl)) as (Hx & NE & [k U]). unfold ds_compress. cbn [rfold].
    rewrite vset_lt by lia. cbn [bind].
    assert (L1 : length (upd s x (Z.of_nat r)) = n) by (now rewrite upd_length).
    set (s1 := upd s x (Z.of_nat r)) in *.
    assert (G : forall y, nth y s1 (-1)%Z = if y =? x then Z.of_nat r else nth y s (-1)%Z) by (intros; unfold s1; apply nth_upd; lia).
    assert (P1 : zp s1 x = r).
    { unfold zp. rewrite G, Nat.eqb_refl. destruct (Z.leb_spec 0 (Z.of_nat r)); lia. }
    assert (P2 : forall y, y <> x -> zp s1 y = zp s y).
    { intros y Ny. unfold zp. rewrite G. now rewrite (proj2 (Nat.eqb_neq y x) Ny). }
    assert (N1 : noself s1).
    { intros y Hy Z0. rewrite G in *. destruct (Nat.eqb_spec y x) as [->|]; [rewrite Nat2Z.id; congruence|]. apply N; auto; lia. }
    assert (F1 : forest n (zp s1)) by (eapply (@forest_compress n (zp s) (zp s1) x r); eauto).
    assert (CR := @compress_roots (zp s) (zp s1) x r k U P1 P2).
    destruct (IH s1 r L1 N1 F1 Hr) as (s2 & E2 & L2 & N2 & F2 & R2 & V2).
    + rewrite P2; auto.
    + intros y Iy. destruct (H y (or_intror Iy)) as (Hy & NEy & [ky Uy]). split; auto. split; auto. eapply CR; eauto.
    + exists s2. split; [exact E2|]. split; auto. split; auto. split; auto. split.
      * intros j y q Hy Y. destruct (CR _ _ _ Y) as [j1 Y1]. eauto.
      * intros y Hy Py. assert (y <> x).
        { intros ->. assert (up (zp s) 0 x x) by now constructor. destruct (up_fun U H0). congruence. }
        rewrite V2; auto; [|rewrite P2; auto]. rewrite G. now rewrite (proj2 (Nat.eqb_neq y x) H0).
Qed.

Definition count_root (n : nat) (rt : nat -> nat) (r : nat) : nat := length (filter (fun x => rt x =? r) (seq 0 n)).
Definition root_fun (n : nat) (p : nat -> nat) (rt : nat -> nat) : Prop := forall x, x < n -> exists k, up p k x (rt x).
Definition zinv (n : nat) (s : list Z) (es : list (nat * nat)) : Prop :=
  length s = n /\ noself s /\ represents n (zp s) es /\
  forall rt, root_fun n (zp s) rt -> forall r, r < n -> zp s r = r -> nth r s (-1)%Z = (- Z.of_nat (count_root n rt r))%Z.

Lemma count_root_ext n rt rt' r : (forall x, x < n -> rt x = rt' x) -> count_root n rt r = count_root n rt' r.
Proof. intros H. unfold count_root. f_equal. apply filter_ext_in. intros x I. apply in_seq in I. rewrite H by lia. reflexivity. Qed.
Lemma root_fun_eq n p rt rt' : root_fun n p rt -> root_fun n p rt' -> forall x, x < n -> rt x = rt' x.
Proof. intros H1 H2 x Hx. destruct (H1 x Hx) as [k K], (H2 x Hx) as [j J]. now destruct (up_fun K J). Qed.

(** A function computing the root. *)
Fixpoint climb (fuel : nat) (p : nat -> nat) (v : nat) : nat :=
  match fuel with 0 => v | S f => if p v =? v then v else climb f p (p v) end.
Lemma climb_ok p k v r : up p k v r -> forall fuel, k <= fuel -> climb fuel p v = r.
Proof.
  induction 1; intros fuel Hf.
  - destruct fuel; simpl; auto. now rewrite H, Nat.eqb_refl.
  - destruct fuel; [lia|]. simpl. destruct (Nat.eqb_spec (p v) v); [congruence|]. apply IHup. lia.
Qed.
Lemma root_fun_exists n p : forest n p -> exists rt, root_fun n p rt.
Proof.
  intros [C F]. exists (climb n p). intros x Hx. destruct (F x Hx) as (k & r & U). exists k.
  rewrite (climb_ok U); auto. assert (B := up_bound C Hx U). lia.
Qed.

Lemma in_removelast (A : Type) (x : A) l : In x (removelast l) -> In x l.
Proof.
  induction l as [|a l IH]; simpl; auto. destruct l as [|b l]; [contradiction|]. intros [->|I]; [now left|right; auto].
Qed.
Lemma path_last p k v r : up p k v r -> path p k v = removelast (path p k v) ++ [r].
Proof.
  induction 1.
  - reflexivity.
  - cbn [path]. rewrite IHup at 1. destruct (path p k (p v)) as [|a l] eqn:E; [destruct k; discriminate|].
    change (removelast (v :: a :: l)) with (v :: removelast (a :: l)). reflexivity.
Qed.

Lemma ds_find_pc_ok n s es v : zinv n s es -> v < n ->
  exists r s', ds_find_pc s (Z.of_nat v) = DsOk (r, s') /\ (exists k, up (zp s) k v r) /\ zinv n s' es /\
    (forall k x q, x < n -> up (zp s) k x q -> exists k', up (zp s') k' x q).
Proof.
  intros (L & N & RP & SZ) Hv. unfold ds_find_pc, ds_check.
  destruct (Z.ltb_spec (Z.of_nat (length s)) (Z.of_nat v)); [lia|]. destruct (Z.ltb_spec (Z.of_nat v) 0); [lia|].
  cbn [orb]. rewrite Nat2Z.id. assert (RP' := RP). destruct RP' as [F R]. assert (F' := F). destruct F as [C F]. destruct (F v Hv) as (k & r & U).
  assert (B := up_bound C Hv U).
  rewrite (@ds_climb_ok s N) with (k := k) (r := r) by (auto; subst; auto; lia). cbn [bind fst snd]. rewrite app_nil_r.
  assert (Pr := up_end U). assert (Hr : r < n) by (eapply up_end_lt; eauto).
  destruct (@ds_compress_ok n (rev (removelast (path (zp s) k v))) s r) as (s' & E & L' & N' & F2 & R2 & V2); auto.
  { intros x I. apply in_rev in I.
    assert (I2 := in_removelast _ _ I).
    split; [exact (@path_lt n (zp s) k v x C Hv I2)|]. split.
    - intros ->. assert (ND := path_nodup U). rewrite (path_last U) in ND.
      apply NoDup_remove_2 in ND. apply ND. now rewrite app_nil_r.
    - destruct (@path_depth (zp s) k v r x U I2) as (j & _ & X). eauto. }
  unfold ds_compress in E. unfold ds_compress. rewrite E. cbn [bind of_res]. exists r, s'.
  split; auto. split; [eauto|]. assert (RP2 : represents n (zp s') es) by (eapply represents_same_roots; eauto).
  split; [|auto]. split; auto. split; auto. split; auto. intros rt HR q Hq Pq.
  destruct (root_fun_exists F') as [rt0 H0'].
  assert (EQ : forall x, x < n -> rt x = rt0 x).
  { intros x Hx. destruct (H0' x Hx) as [j J]. destruct (R2 _ _ _ Hx J) as [j' J']. destruct (HR x Hx) as [i I]. now destruct (up_fun I J'). }
  rewrite (@count_root_ext n rt rt0 q EQ).
  assert (Pq0 : zp s q = q).
  { destruct (F q Hq) as (j & w & W). destruct (R2 _ _ _ Hq W) as [j' W'].
    assert (up (zp s') 0 q q) by now constructor. destruct (up_fun W' H1) as [_ ->]. apply (up_end W). }
  rewrite V2 by auto. now apply SZ.
Qed.

Lemma count_root_link n rt a b : a <> b -> 
  count_root n (fun x => if rt x =? a then b else rt x) b = count_root n rt a + count_root n rt b.
Proof.
  intros NE. unfold count_root. induction (seq 0 n) as [|x l IH]; simpl; auto.
  destruct (Nat.eqb_spec (rt x) a) as [E|E].
  - rewrite Nat.eqb_refl. rewrite E. destruct (Nat.eqb_spec a b); [congruence|]. simpl. lia.
  - destruct (Nat.eqb_spec (rt x) b); simpl; lia.
Qed.
Lemma count_root_other n rt a b q : q <> a -> q <> b ->
  count_root n (fun x => if rt x =? a then b else rt x) q = count_root n rt q.
Proof.
  intros N1 N2. unfold count_root. f_equal. apply filter_ext. intros x. destruct (Nat.eqb_spec (rt x) a) as [->|]; auto.
  destruct (Nat.eqb_spec b q), (Nat.eqb_spec a q); congruence.
Qed.

(** Redirecting root [a] to root [b] with the sizes added. *)
Lemma zlink n s es u v a b ku kv : zinv n s es -> u < n -> v < n ->
  (up (zp s) ku u a /\ up (zp s) kv v b \/ up (zp s) ku u b /\ up (zp s) kv v a) -> a <> b ->
  zinv n (upd (upd s b (nth b s (-1) + nth a s (-1))%Z) a (Z.of_nat b)) (es ++ [(u, v)]).
Proof.
  intros (L & N & RP & SZ) Hu Hv UV NE. assert (F := proj1 RP). assert (C := proj1 F).
  assert (Q : a < n /\ b < n /\ zp s a = a /\ zp s b = b).
  { destruct UV as [[U V]|[U V]]; repeat split; try (eapply up_end_lt; eauto; fail); eapply up_end; eauto. }
  destruct Q as (Ha & Hb & Pa & Pb).
  set (s1 := upd (upd s b (nth b s (-1) + nth a s (-1))%Z) a (Z.of_nat b)).
  assert (L1 : length s1 = n) by (unfold s1; now rewrite !upd_length).
  assert (Za : (nth a s (-1) < 0)%Z) by (apply zp_root; auto; lia). assert (Zb : (nth b s (-1) < 0)%Z) by (apply zp_root; auto; lia).
  assert (G : forall y, nth y s1 (-1)%Z = if y =? a then Z.of_nat b else if y =? b then (nth b s (-1) + nth a s (-1))%Z else nth y s (-1)%Z).
  { intros y. unfold s1. rewrite nth_upd by (rewrite upd_length; lia). destruct (y =? a); auto. now rewrite nth_upd by lia. }
  assert (P1 : zp s1 a = b). { unfold zp. rewrite G, Nat.eqb_refl. destruct (Z.leb_spec 0 (Z.of_nat b)); lia. }
  assert (P2 : forall y, y <> a -> zp s1 y = zp s y).
  { intros y Ny. unfold zp. rewrite G. rewrite (proj2 (Nat.eqb_neq y a) Ny). destruct (Nat.eqb_spec y b) as [->|]; auto.
    destruct (Z.leb_spec 0 (nth b s (-1) + nth a s (-1))%Z); [lia|]. destruct (Z.leb_spec 0 (nth b s (-1))%Z); [lia|]. auto. }
  split; auto. split; [|split].
  - intros y Hy Z0. rewrite G in *. destruct (Nat.eqb_spec y a) as [->|]; [rewrite Nat2Z.id; congruence|].
    destruct (Nat.eqb_spec y b); [lia|]. apply N; auto; lia.
  - apply (@represents_link n (zp s) (zp s1) es u v a b); auto. destruct UV as [[U V]|[U V]]; [left|right]; eauto.
  - intros rt HR q Hq Pq. destruct (root_fun_exists F) as [rt0 H0].
    assert (LK := @link_roots (zp s) (zp s1) a b Pa Pb (not_eq_sym NE) P1 P2).
    assert (EQ : forall x, x < n -> rt x = if rt0 x =? a then b else rt0 x).
    { intros x Hx. destruct (H0 x Hx) as [j J]. destruct (LK _ _ _ J) as [j' J']. destruct (HR x Hx) as [i I]. now destruct (up_fun I J'). }
    rewrite (@count_root_ext n rt (fun x => if rt0 x =? a then b else rt0 x) q EQ).
    assert (q <> a) by (intros ->; congruence). rewrite G. rewrite (proj2 (Nat.eqb_neq q a) H).
    destruct (Nat.eqb_spec q b) as [->|Nb].
    + rewrite count_root_link by auto. rewrite (SZ rt0 H0 a Ha Pa), (SZ rt0 H0 b Hb Pb). lia.
    + rewrite count_root_other by auto. apply SZ; auto. rewrite <- P2; auto.
Qed.

Lemma ds_union_pc_ok n s es u v : zinv n s es -> u < n -> v < n ->
  exists s', ds_union_pc s (Z.of_nat u) (Z.of_nat v) = DsOk s' /\ zinv n s' (es ++ [(u, v)]).
Proof.
  intros I Hu Hv. unfold ds_union_pc.
  destruct (ds_find_pc_ok I Hu) as (a & s1 & E1 & [k1 U1] & I1 & K1). rewrite E1. cbn [ds_bind fst snd].
  destruct (ds_find_pc_ok I1 Hv) as (b & s2 & E2 & [k2 V1] & I2 & K2). rewrite E2. cbn [ds_bind fst snd].
  destruct (K1 _ _ _ Hu U1) as [k3 U2]. destruct (K2 _ _ _ Hu U2) as [k4 U3]. destruct (K2 _ _ _ Hv V1) as [k5 V2].
  destruct (Nat.eqb_spec a b) as [->|NE]; cbn [negb].
  - exists s2. split; auto. destruct I2 as (L & N & RP & SZ). split; auto. split; auto. split; auto.
    eapply represents_noop; eauto.
  - assert (C : closed n (zp s2)) by (destruct I2 as (_ & _ & [[C _] _] & _); exact C).
    assert (L : length s2 = n) by apply I2.
    assert (Ha : a < n) by (eapply up_end_lt; eauto). assert (Hb : b < n) by (eapply up_end_lt; eauto).
    unfold ds_combine_by_size, ds_get. rewrite !(@vget_nth _ _ _ (-1)%Z) by lia. cbn [bind].
    destruct (Z.ltb_spec (nth b s2 (-1)%Z) (nth a s2 (-1)%Z)).
    + rewrite vset_lt by lia. cbn [bind]. rewrite vset_lt by (rewrite upd_length; lia). cbn [of_res].
      eexists. split; [reflexivity|]. eapply zlink; eauto.
    + rewrite vset_lt by lia. cbn [bind]. rewrite vset_lt by (rewrite upd_length; lia). cbn [of_res].
      eexists. split; [reflexivity|]. eapply zlink; eauto.
Qed.

Lemma zinv_new n : zinv n (ds_new n) [].
Proof.
  assert (G : forall v, nth v (ds_new n) (-1)%Z = (-1)%Z) by (intros; unfold ds_new; apply nth_repeat).
  assert (P : forall v, zp (ds_new n) v = v) by (intros; apply zp_neg; rewrite G; lia).
  split; [apply repeat_length|]. split; [intros v Hv H; rewrite G in H; lia|]. split; [apply represents_singletons; auto|].
  intros rt HR r Hr _. rewrite G. rewrite (@count_root_ext n rt (fun x => x) r).
  - unfold count_root. assert (E : filter (fun x => x =? r) (seq 0 n) = [r]).
    { clear - Hr. replace n with (r + S (n - S r)) by lia. rewrite seq_app. simpl. rewrite filter_app. simpl. rewrite Nat.eqb_refl.
      rewrite (filter_none (fun x => x =? r) (seq 0 r)). 2:{ intros x I. apply in_seq in I. apply Nat.eqb_neq. lia. }
      rewrite (filter_none (fun x => x =? r) (seq (S r) _)). 2:{ intros x I. apply in_seq in I. apply Nat.eqb_neq. lia. }
      reflexivity. }
    rewrite E. reflexivity.
  - intros x Hx. destruct (HR x Hx) as [k K]. assert (up (zp (ds_new n)) 0 x x) by (constructor; auto). now destruct (up_fun K H).
Qed.

(** find ignores its argument. *)
Lemma ds_find_const s i j : ds_check s i = false -> ds_check s j = false -> ds_find s i = ds_find s j.
Proof. intros H1 H2. unfold ds_find. now rewrite H1, H2. Qed.
