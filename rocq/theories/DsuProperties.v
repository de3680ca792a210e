(** C24, C25: union-find. *)
From Coq Require Import List Arith ZArith Lia Bool.
From Verif Require Import Base ConnLib DsuModel DsuProofs DsuClassProofs.
Import ListNotations.
Set Implicit Arguments.

(** The pairs joined by the union calls of a sequence, and validity of the ids. *)
Definition joined (ops : list dsu_op) : list (nat * nat) :=
  flat_map (fun o => match o with OpFind _ => [] | OpUnion u v => [(u, v)] | OpUnionFind u v => [(u, v)] end) ops.
Definition ids_below (n : nat) (ops : list dsu_op) : Prop :=
  forall o, In o ops -> match o with OpFind u => u < n | OpUnion u v => u < n /\ v < n | OpUnionFind u v => u < n /\ v < n end.

Lemma joined_edges ops : joined ops = concat (map op_edges ops).
Proof. unfold joined. now rewrite flat_map_concat_map. Qed.

(** * C24 *)
(** Every sequence of calls terminates within bounds, and afterwards the roots are exactly the connected
    components of the unions made, each root being a member of its class. *)
Theorem C24_partition_is_exact : forall n ops, ids_below n ops ->
  exists outs s, dsu_run (dsu_init n) ops = Ok (outs, s) /\
    (forall u, u < n -> exists r s', disjoint_find s u = Ok (r, s') /\ r < n /\ conn (joined ops) u r) /\
    forall u v ru rv su sv, u < n -> v < n ->
      disjoint_find s u = Ok (ru, su) -> disjoint_find s v = Ok (rv, sv) ->
      (ru = rv <-> conn (joined ops) u v).
Proof.
  intros n ops H. destruct (dsu_init_represents n) as [L0 R0].
  destruct (@dsu_run_ok n ops (dsu_init n) [] L0 R0) as (outs & s & E & L & R & _).
  { apply Forall_forall. intros o I. exact (H o I). }
  simpl in R. rewrite <- joined_edges in R. exists outs, s. split; auto. split.
  - intros u Hu. destruct (disjoint_find_ok L R Hu) as (r & s' & E' & _ & [k U] & _). exists r, s'. split; auto. split.
    + eapply up_end_lt; [apply R|exact U|auto].
    + eapply root_conn; eauto.
  - intros u v ru rv su sv Hu Hv Eu Ev.
    destruct (disjoint_find_ok L R Hu) as (a & s1 & E1 & _ & [k1 U] & _).
    destruct (disjoint_find_ok L R Hv) as (b & s2 & E2 & _ & [k2 V] & _).
    rewrite E1 in Eu. rewrite E2 in Ev. injection Eu as <- <-. injection Ev as <- <-.
    exact (proj2 R u v _ _ _ _ Hu Hv U V).
Qed.

(** disjoint_union_find answers true exactly when the classes were different before the call; find answers a member. *)
Theorem C24_outputs : forall n before o after outs s, ids_below n (before ++ o :: after) ->
  dsu_run (dsu_init n) (before ++ o :: after) = Ok (outs, s) ->
  exists out, nth_error outs (length before) = Some out /\
    match o with
    | OpFind u => exists r, out = OutRoot r /\ conn (joined before) u r
    | OpUnion _ _ => out = OutUnit
    | OpUnionFind u v => exists b, out = OutBool b /\ (b = true <-> ~ conn (joined before) u v)
    end.
Proof.
  intros n before o after outs s H E. destruct (dsu_init_represents n) as [L0 R0].
  destruct (@dsu_run_ok n (before ++ o :: after) (dsu_init n) [] L0 R0) as (outs' & s' & E' & _ & _ & O).
  { apply Forall_forall. intros x I. exact (H x I). }
  rewrite E in E'. injection E' as <- <-. rewrite joined_edges. clear E H R0 L0.
  assert (G : forall before es outs, outs_ok es (before ++ o :: after) outs ->
     exists out, nth_error outs (length before) = Some out /\ out_ok (es ++ concat (map op_edges before)) o out).
  { clear. induction before as [|x before IH]; intros es outs O; destruct outs as [|out outs]; simpl in O; try contradiction.
    - exists out. simpl. rewrite app_nil_r. tauto.
    - destruct O as [_ O]. destruct (IH _ _ O) as (out' & N & K). exists out'. split; auto. simpl. now rewrite app_assoc. }
  destruct (G _ _ _ O) as (out & N & K). exists out. split; auto. simpl app in K.
  destruct o, out; simpl in K; try contradiction; eauto.
Qed.

(** A chain 0-1-2 and 4-3 on 6 elements, asking whether 2 and 0 are joined. *)
Definition ex_ops := [OpUnionFind 0 1; OpUnion 1 2; OpUnionFind 4 3; OpUnionFind 2 0; OpFind 2].
Example C24_ex : ids_below 6 ex_ops /\
  exists s, dsu_run (dsu_init 6) ex_ops = Ok ([OutBool true; OutUnit; OutBool true; OutBool false; OutRoot 0], s).
Proof.
  split; [intros o I; simpl in I; repeat (destruct I as [<-|I]; [lia|]); contradiction|].
  eexists. vm_compute. reflexivity.
Qed.

(** * C25 *)
(** The simple find starts at element 0 whatever it is asked. *)
Theorem C25_find_ignores_argument : forall (s : list Z) (i j : Z),
  (0 <= i <= Z.of_nat (length s))%Z -> (0 <= j <= Z.of_nat (length s))%Z -> ds_find s i = ds_find s j.
Proof.
  intros s i j Hi Hj. apply ds_find_const; unfold ds_check;
    apply orb_false_iff; split; apply Z.ltb_ge; lia.
Qed.
(** A client-visible state: any sequence of unions through the class's own interface leaves everything a singleton. *)
Inductive ds_call : Type := CallBySize (u v : Z) | CallByHeight (u v : Z) | CallJoin (u v : Z).
Definition ds_exec (s : list Z) (c : ds_call) : ds_res (list Z) :=
  match c with
  | CallBySize u v => ds_union_by_size s u v
  | CallByHeight u v => ds_union_by_height s u v
  | CallJoin u v => ds_join s u v
  end.
Fixpoint ds_run (s : list Z) (cs : list ds_call) : ds_res (list Z) :=
  match cs with [] => DsOk s | c :: r => ds_bind (ds_exec s c) (fun s' => ds_run s' r) end.
Definition ds_valid (n : nat) (c : ds_call) : Prop :=
  match c with CallBySize u v | CallByHeight u v | CallJoin u v => (0 <= u < Z.of_nat n)%Z /\ (0 <= v < Z.of_nat n)%Z end.

Lemma ds_find_new n i : 0 < n -> (0 <= i < Z.of_nat n)%Z -> ds_find (ds_new n) i = DsOk 0.
Proof.
  intros Hn Hi. unfold ds_find, ds_check, ds_new. rewrite repeat_length.
  destruct (Z.ltb_spec (Z.of_nat n) i); [lia|]. destruct (Z.ltb_spec i 0); [lia|]. cbn [orb].
  destruct n as [|n]; [lia|]. reflexivity.
Qed.
Theorem C25_unions_never_merge : forall n cs, (forall c, In c cs -> ds_valid n c) -> ds_run (ds_new n) cs = DsOk (ds_new n).
Proof.
  intros n cs. induction cs as [|c cs IH]; intros H; auto.
  assert (V : ds_valid n c) by (apply H; now left).
  assert (Hn : 0 < n) by (destruct c; simpl in V; lia).
  assert (E : ds_exec (ds_new n) c = DsOk (ds_new n)).
  { destruct c as [u v|u v|u v]; simpl in V; destruct V as [V1 V2]; simpl;
      unfold ds_union_by_size, ds_union_by_height, ds_join; rewrite ?(ds_find_new Hn V1), ?(ds_find_new Hn V2); cbn; auto.
    now destruct (u =? v)%Z. }
  cbn [ds_run]. rewrite E. cbn [ds_bind]. apply IH. intros; apply H; now right.
Qed.
(** The range check lets index = size through, which then reads past the array. *)
Theorem C25_check_off_by_one : forall s, ds_find_pc s (Z.of_nat (length s)) = DsUb.
Proof.
  intros s. unfold ds_find_pc, ds_check. rewrite Z.ltb_irrefl. destruct (Z.ltb_spec (Z.of_nat (length s)) 0); [lia|]. cbn [orb].
  rewrite Nat2Z.id. assert (E : vget s (length s) = Ub) by (apply vget_ge; lia).
  destruct (length s) eqn:L; cbn [ds_climb]; unfold ds_get; rewrite E; reflexivity.
Qed.

(** find_with_pathcompression and combineBySize on the roots found do maintain the exact partition, and the
    roots hold minus the size of their class. *)
Fixpoint ds_run_pc (s : list Z) (us : list (nat * nat)) : ds_res (list Z) :=
  match us with
  | [] => DsOk s
  | (u, v) :: r => ds_bind (ds_union_pc s (Z.of_nat u) (Z.of_nat v)) (fun s' => ds_run_pc s' r)
  end.
Definition pairs_below (n : nat) (us : list (nat * nat)) : Prop := forall u v, In (u, v) us -> u < n /\ v < n.

Lemma ds_run_pc_ok n us : forall s es, zinv n s es -> pairs_below n us ->
  exists s', ds_run_pc s us = DsOk s' /\ zinv n s' (es ++ us).
Proof.
  induction us as [|[u v] us IH]; intros s es I H.
  - exists s. rewrite app_nil_r. auto.
  - destruct (H u v (or_introl eq_refl)) as [Hu Hv]. destruct (ds_union_pc_ok I Hu Hv) as (s1 & E1 & I1).
    cbn [ds_run_pc]. rewrite E1. cbn [ds_bind]. destruct (IH s1 _ I1) as (s2 & E2 & I2); [intros a b J; apply H; now right|].
    exists s2. split; auto. now rewrite <- app_assoc in I2.
Qed.

Theorem C25_pathcompression_is_correct : forall n us, pairs_below n us ->
  exists s, ds_run_pc (ds_new n) us = DsOk s /\
    (forall u, u < n -> exists r s', ds_find_pc s (Z.of_nat u) = DsOk (r, s') /\ r < n /\ conn us u r) /\
    (forall u v ru rv su sv, u < n -> v < n ->
      ds_find_pc s (Z.of_nat u) = DsOk (ru, su) -> ds_find_pc s (Z.of_nat v) = DsOk (rv, sv) ->
      (ru = rv <-> conn us u v)).
Proof.
  intros n us H. destruct (ds_run_pc_ok (zinv_new n) H) as (s & E & I). simpl in I. exists s. split; auto. split.
  - intros u Hu. destruct (ds_find_pc_ok I Hu) as (r & s' & E' & [k U] & _). exists r, s'. split; auto.
    destruct I as (L & N & R & _). split; [eapply up_end_lt; [apply R|exact U|auto]|eapply root_conn; eauto].
  - intros u v ru rv su sv Hu Hv Eu Ev.
    destruct (ds_find_pc_ok I Hu) as (a & s1 & E1 & [k1 U] & _). destruct (ds_find_pc_ok I Hv) as (b & s2 & E2 & [k2 V] & _).
    rewrite E1 in Eu. rewrite E2 in Ev. injection Eu as <- <-. injection Ev as <- <-.
    destruct I as (L & N & R & _). exact (proj2 R u v _ _ _ _ Hu Hv U V).
Qed.

(** The value at a root is minus the number of elements connected to it. *)
Theorem C25_root_holds_size : forall n us s u r s', pairs_below n us -> ds_run_pc (ds_new n) us = DsOk s -> u < n ->
  ds_find_pc s (Z.of_nat u) = DsOk (r, s') ->
  exists members, (forall x, In x members <-> x < n /\ conn us u x) /\ NoDup members /\
    nth r s 0%Z = (- Z.of_nat (length members))%Z.
Proof.
  intros n us s u r s' H E Hu Ef. destruct (ds_run_pc_ok (zinv_new n) H) as (s0 & E0 & I). rewrite E in E0. injection E0 as <-. simpl in I.
  destruct (ds_find_pc_ok I Hu) as (a & s1 & E1 & [k1 U] & _). rewrite Ef in E1. injection E1 as <- <-.
  destruct I as (L & N & R & SZ). assert (R' := R). destruct R' as [F RC].
  destruct (root_fun_exists F) as [rt HR].
  assert (Hr : r < n) by (eapply up_end_lt; [apply F|exact U|auto]).
  assert (Pr : zp s r = r) by (eapply up_end; eauto).
  assert (RU : rt u = r) by (destruct (HR u Hu) as [k K]; now destruct (up_fun K U)).
  exists (filter (fun x => rt x =? r) (seq 0 n)). split; [|split].
  - intros x. rewrite filter_In, in_seq, Nat.eqb_eq. split.
    + intros [Hx Ex]. split; [lia|]. assert (Hx' : x < n) by lia. destruct (HR x Hx') as [k K].
      apply (RC u x _ _ _ _ Hu Hx' U K). congruence.
    + intros [Hx Cx]. split; [lia|]. destruct (HR x Hx) as [k K]. symmetry. now apply (RC u x _ _ _ _ Hu Hx U K).
  - apply NoDup_filter, seq_NoDup.
  - rewrite (nth_indep _ 0%Z (-1)%Z) by lia. apply SZ; auto.
Qed.

(** combineByHeight on the roots found by find_with_pathcompression: the exact partition again; at a root r the value is
    -(h + 1) where no path to r has more than h steps and the class has at least 2^h elements, so every find is logarithmic. *)
Fixpoint ds_run_height (s : list Z) (us : list (nat * nat)) : ds_res (list Z) :=
  match us with
  | [] => DsOk s
  | (u, v) :: r => ds_bind (ds_union_pc_height s (Z.of_nat u) (Z.of_nat v)) (fun s' => ds_run_height s' r)
  end.
Lemma ds_run_height_ok n us : forall s es, hinv n s es -> pairs_below n us ->
  exists s', ds_run_height s us = DsOk s' /\ hinv n s' (es ++ us).
Proof.
  induction us as [|[u v] us IH]; intros s es I H.
  - exists s. rewrite app_nil_r. auto.
  - destruct (H u v (or_introl eq_refl)) as [Hu Hv]. destruct (union_height I Hu Hv) as (s1 & E1 & I1).
    cbn [ds_run_height]. rewrite E1. cbn [ds_bind]. destruct (IH s1 _ I1) as (s2 & E2 & I2); [intros a b J; apply H; now right|].
    exists s2. split; auto. now rewrite <- app_assoc in I2.
Qed.
(** [ds_steps s k u r]: k steps along the stored parents lead from u to r, which has none. *)
Inductive ds_steps (s : list Z) : nat -> nat -> nat -> Prop :=
| ds_steps_root r : r < length s -> (nth r s 0 < 0)%Z -> ds_steps s 0 r r
| ds_steps_next k u w r : u < length s -> nth u s 0%Z = Z.of_nat w -> ds_steps s k w r -> ds_steps s (S k) u r.
Lemma ds_steps_up s k u r : noself s -> ds_steps s k u r -> up (zp s) k u r.
Proof.
  intros N. induction 1 as [r Hr Z0|k u w r Hu E _ IH].
  - constructor. apply zp_neg. now rewrite (nth_indep _ _ 0%Z) by lia.
  - assert (P : nth u s (-1)%Z = Z.of_nat w) by (now rewrite (nth_indep _ _ 0%Z) by lia).
    assert (Q : zp s u = w) by (unfold zp; rewrite P; destruct (Z.leb_spec 0 (Z.of_nat w)); lia).
    constructor; rewrite Q; auto. specialize (N u Hu). rewrite P in N. rewrite Nat2Z.id in N. intros ->. apply N; lia.
Qed.
Theorem C25_by_height : forall n us, pairs_below n us ->
  exists s, ds_run_height (ds_new n) us = DsOk s /\
    (forall u, u < n -> exists r s', ds_find_pc s (Z.of_nat u) = DsOk (r, s') /\ r < n /\ conn us u r /\
      exists h members, nth r s 0%Z = (- Z.of_nat (S h))%Z /\ (forall x, In x members <-> x < n /\ conn us u x) /\ NoDup members /\
        2 ^ h <= length members /\ forall k x, x < n -> ds_steps s k x r -> k <= h) /\
    (forall u v ru rv su sv, u < n -> v < n ->
      ds_find_pc s (Z.of_nat u) = DsOk (ru, su) -> ds_find_pc s (Z.of_nat v) = DsOk (rv, sv) ->
      (ru = rv <-> conn us u v)).
Proof.
  intros n us H. destruct (ds_run_height_ok (hinv_new n) H) as (s & E & I). simpl in I. exists s. split; auto. split.
  - intros u Hu. destruct (find_height I Hu) as (r & s' & E' & [k U] & _). exists r, s'. split; auto.
    destruct I as (L & N & R & SZ). assert (R' := R). destruct R' as [F RC]. assert (Hr : r < n) by (eapply up_end_lt; [apply F|exact U|auto]).
    split; auto. split; [eapply root_conn; eauto|].
    destruct (root_fun_exists F) as [rt HR].
    assert (Pr : zp s r = r) by (eapply up_end; eauto).
    assert (RU : rt u = r) by (destruct (HR u Hu) as [j K]; now destruct (up_fun K U)).
    destruct (SZ rt HR r Hr Pr) as (h & Eh & Ch & Dh).
    exists h, (filter (fun x => rt x =? r) (seq 0 n)). split; [now rewrite (nth_indep _ _ (-1)%Z) by lia|]. split; [|split; [|split]].
    + intros x. rewrite filter_In, in_seq, Nat.eqb_eq. split.
      * intros [Hx Ex]. split; [lia|]. assert (Hx' : x < n) by lia. destruct (HR x Hx') as [j K].
        apply (RC u x _ _ _ _ Hu Hx' U K). congruence.
      * intros [Hx Cx]. split; [lia|]. destruct (HR x Hx) as [j K]. symmetry. now apply (RC u x _ _ _ _ Hu Hx U K).
    + apply NoDup_filter, seq_NoDup.
    + exact Ch.
    + intros j x Hx X. apply (Dh j x Hx). now apply ds_steps_up.
  - intros u v ru rv su sv Hu Hv Eu Ev.
    destruct (find_height I Hu) as (a & s1 & E1 & [k1 U] & _). destruct (find_height I Hv) as (b & s2 & E2 & [k2 V] & _).
    rewrite E1 in Eu. rewrite E2 in Ev. injection Eu as <- <-. injection Ev as <- <-.
    destruct I as (L & N & R & _). exact (proj2 R u v _ _ _ _ Hu Hv U V).
Qed.
(** Two pairs, then the pairs with each other, then a single element under the tree of height 2. *)
Example C25_ex_height : pairs_below 6 [(0, 1); (2, 3); (1, 3); (4, 0)] /\
  ds_run_height (ds_new 6) [(0, 1); (2, 3); (1, 3); (4, 0)] = DsOk [-3; 0; 0; 2; 0; -1]%Z /\
  ds_steps [-3; 0; 0; 2; 0; -1]%Z 2 3 0.
Proof.
  split; [intros u v I; simpl in I; repeat (destruct I as [I|I]; [injection I as <- <-; lia|]); contradiction|]. split; [vm_compute; reflexivity|].
  apply ds_steps_next with 2; [cbn; lia|reflexivity|]. apply ds_steps_next with 0; [cbn; lia|reflexivity|]. constructor; cbn; lia.
Qed.

Example C25_ex_wrong : ds_run (ds_new 4) [CallBySize 1 2; CallJoin 2 3] = DsOk (ds_new 4) /\ ds_find (ds_new 4) 3 = DsOk 0.
Proof. now vm_compute. Qed.
Example C25_ex_right : ds_run_pc (ds_new 4) [(1, 2); (3, 2)] = DsOk [-1; -3; 1; 1]%Z /\
  ds_find_pc [-1; -3; 1; 1]%Z 3 = DsOk (1, [-1; -3; 1; 1]%Z).
Proof. now vm_compute. Qed.

Print Assumptions C24_partition_is_exact.
Print Assumptions C24_outputs.
Print Assumptions C25_find_ignores_argument.
Print Assumptions C25_unions_never_merge.
Print Assumptions C25_check_off_by_one.
Print Assumptions C25_pathcompression_is_correct.
Print Assumptions C25_root_holds_size.
Print Assumptions C25_by_height.
