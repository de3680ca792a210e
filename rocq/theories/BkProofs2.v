(** Lemmas about bk_maxflow (BkModel.v): the start and the result. *)
From Coq Require Import List Arith ZArith Bool Lia.
From Verif Require Import Base BkModel BkLib BkProofs.
Import ListNotations.
Local Open Scope nat_scope.

Lemma entry_out row q : ~ In q (map fst row) -> entry row q = 0%Z.
Proof.
  induction row as [|[a c] row IH]; cbn; auto. intros H. destruct (Nat.eqb_spec a q) as [->|]; [tauto|]. rewrite IH; auto.
Qed.
Lemma entry_find row q : NoDup (map fst row) -> entry row q = match find (fun a => fst a =? q) row with Some a => snd a | None => 0%Z end.
Proof.
  induction row as [|[a c] row IH]; cbn; auto. intros ND. inversion ND as [|x l NI ND']. subst.
  destruct (Nat.eqb_spec a q) as [->|]; cbn; [rewrite entry_out; auto; lia|]. rewrite <- IH; auto.
Qed.

Lemma total_shift n f : total (S n) f = (f 0%nat + total n (fun i => f (S i)))%Z.
Proof. induction n as [|n IH]; [cbn; lia|]. change (total (S (S n)) f) with (total (S n) f + f (S n))%Z. rewrite IH. cbn [total]. lia. Qed.
Lemma fold_total (f : Z -> Z) l m : fold_left (fun m c => m + f c)%Z l m = (m + total (length l) (fun i => f (nth i l 0%Z)))%Z.
Proof.
  revert m. induction l as [|x l IH]; intros m; cbn [fold_left length]; [cbn; lia|]. rewrite IH, total_shift. cbn [nth]. lia.
Qed.
Lemma rmap_vget (l : list Z) : rmap (fun i => vget l i) (seq 0 (length l)) = Ok l.
Proof.
  rewrite (@rmap_ok _ _ _ (fun i => nth i l 0%Z)).
  - f_equal. apply nth_ext with (d := 0%Z) (d' := 0%Z); [now rewrite map_length, seq_length|]. intros i Hi. rewrite map_length, seq_length in Hi.
    rewrite nth_indep with (d' := nth 0 l 0%Z) by (now rewrite map_length, seq_length). rewrite (map_nth (fun i => nth i l 0%Z)), seq_nth; auto.
  - intros i I. apply in_seq in I. apply vget_nth. lia.
Qed.

Lemma init_ok exch g cap : bk_graph g -> length cap = length g ->
  exists st, bk_init g cap = Ok st /\
    ginv g exch (arc_cap g) (fun p => nth p cap 0%Z) (neg cap + total (length g) (fun p => Z.max (nth p cap 0%Z) 0))%Z st /\
    pos g (k_vs st) = fold_left (fun m c => m + Z.max c 0)%Z cap 0%Z.
Proof.
  intros (Sym & Loop & ND & NN) LC. unfold bk_init. rewrite <- LC, rmap_vget. cbn [bind]. eexists. split; [reflexivity|].
  assert (NI : forall v, N (map bk_init_node cap) v = bk_init_node (nth v cap 0%Z)).
  { intros v. unfold N. change dn with (bk_init_node 0). apply (map_nth bk_init_node). }
  assert (CP : forall v, x_cap (N (map bk_init_node cap) v) = nth v cap 0%Z).
  { intros v. rewrite NI. unfold bk_init_node. destruct (0 <? nth v cap 0)%Z; auto. destruct (nth v cap 0 <? 0)%Z; auto. }
  assert (PS : pos g (map bk_init_node cap) = total (length g) (fun p => Z.max (nth p cap 0%Z) 0)).
  { unfold pos. apply total_ext. intros i _. now rewrite CP. }
  assert (RC : forall p q, match find (fun a => fst a =? q) (nth p g []) with Some a => snd a | None => 0%Z end = arc_cap g p q).
  { intros p q. symmetry. apply entry_find. apply ND. }
  split; [|cbn [k_vs]; rewrite PS, fold_total, LC; lia].
  constructor; cbn [k_vs k_r k_act k_orp k_mf k_gt]; auto.
  - constructor; try (rewrite map_length; auto; fail); try (now intros o []); try apply NoDup_nil; intros v; rewrite NI; unfold bk_init_node;
      destruct (Z.ltb_spec 0 (nth v cap 0%Z)); cbn; try discriminate; auto; try lia;
      destruct (Z.ltb_spec (nth v cap 0%Z) 0); cbn; try discriminate; auto; try lia; congruence.
  - intros u I. apply filter_In in I as [I _]. apply in_seq in I. lia.
  - intros x y. destruct (find (fun a => fst a =? y) (nth x g [])) as [a|] eqn:E; [|lia]. apply find_some in E as [I _]. now apply (NN x).
  - intros x y. rewrite !RC. reflexivity.
  - intros u. rewrite CP. lia.
  - intros p Lp. unfold dif. cbn [k_vs]. rewrite CP. f_equal. apply total_ext. intros i _. apply RC.
  - rewrite PS, <- LC. f_equal. unfold neg.
    transitivity (fold_left (fun m c => m + Z.min c 0)%Z cap 0%Z); [|rewrite (fold_total (fun c => Z.min c 0%Z)); lia].
    clear. generalize 0%Z at 2 4. induction cap as [|c cap IH]; cbn [fold_left]; auto. intros z. destruct (Z.ltb_spec c 0); [rewrite Z.min_l by lia|rewrite Z.min_r, Z.add_0_r by lia]; apply IH.
  - intros _ v w [I|[]] NA. exfalso. rewrite NI in I. apply NA. apply filter_In. unfold bk_init_node in I.
    destruct (Z.ltb_spec 0 (nth v cap 0%Z)), (Z.ltb_spec (nth v cap 0%Z) 0); cbn in I; try congruence; (split; [|apply negb_true_iff, Z.eqb_neq; lia]);
    apply in_seq; destruct (Nat.lt_ge_cases v (length cap)) as [|L]; try lia; rewrite nth_overflow in * by auto; lia.
Qed.

Lemma bk_ok exch infd g cap : bk_graph g -> length cap = length g ->
  let b p := nth p cap 0%Z in
  exists v labels, bk_gen exch infd g cap = Ok (v, labels) /\ length labels = length g /\
    exists f x, is_flow (length g) (arc_cap g) b f x /\ flow_value (length g) x = (v - neg cap)%Z /\
      (exch = true -> flow_value (length g) x = cut_value (length g) (arc_cap g) b (fun p => nth p labels true)).
Proof.
  intros G LC b. destruct (init_ok exch g cap G LC) as (st & E & J & PS). destruct G as (Sym & Loop & ND & NN).
  unfold bk_gen. rewrite E. cbn [bind]. destruct (rounds_ok g Sym Loop exch infd _ _ _ (S (Z.to_nat (fold_left (fun m c => m + Z.max c 0)%Z cap 0%Z))) st J) as (st' & E' & J' & EA).
  { rewrite PS. lia. }
  rewrite E'. cbn [bind]. eexists _, _. split; [reflexivity|]. destruct (final_flow _ _ _ _ _ _ J') as (F & V).
  assert (LL : length (k_vs st') = length g) by (exact (t_len _ _ _ _ _ _ (j_t _ _ _ _ _ _ J'))).
  split; [now rewrite map_length|]. eexists _, _. split; [exact F|]. split; [rewrite V; lia|]. intros ->.
  assert (C0 : forall p q, ~ In q (nbr g p) -> arc_cap g p q = 0%Z) by (intros p q NI; apply entry_out; exact NI).
  unfold b. etransitivity; [exact (final_cut g _ _ _ _ Sym C0 J' EA)|].
  unfold cut_value. assert (LB : forall p, p < length g -> nth p (map bk_label (k_vs st')) true = bk_label (N (k_vs st') p)).
    { intros p Lp. change true with (bk_label dn). rewrite (map_nth bk_label). reflexivity. }
    f_equal; apply total_ext; intros p Lp; [apply total_ext; intros q Lq; now rewrite !LB|now rewrite LB].
Qed.
