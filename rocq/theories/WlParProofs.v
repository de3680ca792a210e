(** Lemmas about the parallel worklist betweenness (WlParModel.v). *)
From Coq Require Import List Arith Qcanon Bool Lia.
From Verif Require Import Base GraphLib SumLib QcLib Pool BcModel WlModel WlParModel.
Import ListNotations.
Local Open Scope nat_scope.

(** A run that ends preserves what every action that succeeds preserves. *)
Lemma run_ok_inv (T St : Type) (step : T -> St -> res (option T * St)) (I : list T -> St -> Prop) :
  (forall l1 t l2 s o s', I (l1 ++ t :: l2) s -> step t s = Ok (o, s') -> I (l1 ++ opt_list o ++ l2) s') ->
  forall fuel sched now ts s s', I ts s -> run step fuel sched now ts s = Ok s' -> I [] s'.
Proof.
  intros ST. induction fuel; intros sched now ts s s' H R.
  - destruct ts; [|discriminate]. inversion R; subst; auto.
  - destruct ts as [|t0 ts0]; [inversion R; subst; auto|]. remember (t0 :: ts0) as ts eqn:Q. assert (R' := R). rewrite Q in R'. cbn [run] in R'. rewrite <- Q in R'.
    set (i := sched now mod length ts) in R'. destruct (vget ts i) as [t| |] eqn:E; try discriminate. cbn [bind] in R'.
    destruct (step t s) as [[o s1]| |] eqn:E1; try discriminate. cbn [bind fst snd] in R'.
    apply vget_Ok in E. destruct (nth_error_split _ _ E) as (l1 & l2 & SP & LL).
    replace (firstn i ts) with l1 in R' by (rewrite SP, <- LL, firstn_app, firstn_all, Nat.sub_diag; simpl; now rewrite app_nil_r).
    replace (skipn (S i) ts) with l2 in R' by (rewrite SP, <- LL, skipn_app, skipn_all2 by lia; now replace (S (length l1) - length l1) with 1 by lia).
    rewrite SP in H. eapply IHfuel; [|exact R']. eapply ST; eauto.
Qed.

(** ** The forward phase with at most one item *)
Definition held (t : wtask) : nat := match t with WTest it _ => if (fst it =? 0) && (snd it =? 0) then 0 else 1 | _ => 0 end.
Definition calm (t : wtask) : Prop := match t with WRun it => it = dummy | WTest it k => True | WTake _ => True end.
Definition items (bk : list (list (nat * nat))) : nat := sum (map (@length (nat * nat)) bk).
Definition one_item (vs0 : list node) (ts : list wtask) (st : wshared) : Prop :=
  fst st = vs0 /\ (forall t, In t ts -> calm t) /\ sum (map held ts) + items (snd st) <= 1.

Lemma items_upd bk k it b : nth_error bk k = Some (it :: b) -> items bk = S (items (upd bk k b)).
Proof.
  revert k. induction bk as [|x bk IH]; intros [|k] H; try discriminate; cbn in H |- *.
  - inversion H; subst. reflexivity.
  - unfold items in *. cbn. rewrite (IH _ H). lia.
Qed.
Lemma items_pos bk k x b : nth_error bk k = Some (x :: b) -> 1 <= items bk.
Proof. intros H. rewrite (items_upd _ _ _ _ H). lia. Qed.

Lemma one_item_step g vmax M DELTA ord locked vs0 l1 t l2 st o st' :
  one_item vs0 (l1 ++ t :: l2) st -> w_step g vmax M DELTA ord locked t st = Ok (o, st') -> one_item vs0 (l1 ++ opt_list o ++ l2) st'.
Proof.
  intros (V & C & N) E. destruct st as [vs bk]. cbn [fst snd] in *. rewrite map_app, sum_app in N. cbn [map sum] in N.
  assert (Ct : calm t) by (apply C, in_or_app; simpl; auto).
  assert (FIN : forall o' bk', (match o' with Some t' => calm t' | None => True end) ->
     sum (map held (opt_list o')) + items bk' <= held t + items bk -> one_item vs0 (l1 ++ opt_list o' ++ l2) (vs, bk')).
  { intros o' bk' A B. split; [exact V|]. split.
    - intros x H. rewrite !in_app_iff in H. destruct H as [H|[H|H]].
      + apply C, in_or_app; auto.
      + destruct o'; [destruct H as [<-|[]]; auto | destruct H].
      + apply C, in_or_app; simpl; auto.
    - cbn [snd]. rewrite !map_app, !sum_app. lia. }
  destruct t as [k|it k|it]; cbn [w_step] in E.
  - destruct (nth_error bk k) as [[|it b]|] eqn:K; inversion E; subst; clear E.
    + apply FIN; simpl; auto. 
    + apply FIN; simpl; auto. rewrite (items_upd _ _ _ _ K). destruct (_ && _); lia.
    + apply FIN; simpl; auto.
  - destruct (nth_error bk k) as [[|x b]|] eqn:K; inversion E; subst; clear E.
    + apply FIN; simpl; auto; lia.
    + apply FIN; cbn [opt_list map sum held calm]; [|lia].
      assert (P : 1 <= items bk) by (eapply items_pos; eauto). cbn [held] in N. destruct it as [a c]. cbn [fst snd] in N.
      destruct (Nat.eqb_spec a 0); [destruct (Nat.eqb_spec c 0)|]; cbn in N; try lia. subst; reflexivity.
    + apply FIN; simpl; auto. lia.
  - cbn [calm] in Ct. subst it. cbn in E. inversion E; subst; clear E. apply FIN; simpl; auto.
Qed.

Lemma held_0 threads : sum (map held (repeat (WTake 0) threads)) = 0.
Proof. induction threads; simpl; auto. Qed.

Lemma one_item_run g vmax M DELTA ord locked fuel sched now threads vs0 bk st' :
  items bk <= 1 ->
  run (w_step g vmax M DELTA ord locked) fuel sched now (repeat (WTake 0) threads) (vs0, bk) = Ok st' ->
  fst st' = vs0 /\ items (snd st') <= 1.
Proof.
  intros B R. assert (H : one_item vs0 [] st').
  { eapply (run_ok_inv _ _ _ (one_item vs0)); [|  | exact R]; [intros; eapply one_item_step; eauto|]. split; [reflexivity|]. split.
    - intros t H. apply repeat_spec in H. subst; simpl; auto.
    - cbn [snd]. rewrite held_0. lia. }
  destruct H as (V & _ & N). simpl in N. split; auto.
Qed.

(** ** The way back when no vertex has a predecessor *)
Definition no_pull (t : btask) : Prop := match t with BPull _ (_ :: _) => False | _ => True end.
Definition quiet (n : nat) (ts : list btask) (st : bshared) : Prop :=
  (forall t, In t ts -> no_pull t) /\ w_delta (fst st) = repeat 0%Qc n /\ snd st = repeat 0%Qc n.

Lemma vget_repeat (A : Type) (x y : A) n i : vget (repeat x n) i = Ok y -> y = x.
Proof. intros H. apply vget_Ok in H. apply nth_error_In, repeat_spec in H. auto. Qed.
Lemma upd_repeat (A : Type) (x : A) n i : upd (repeat x n) i x = repeat x n.
Proof. revert i. induction n; intros [|i]; simpl; auto. f_equal; auto. Qed.

Lemma quiet_step n s ord vs l1 t l2 st o st' :
  (forall v nd, nth_error vs v = Some nd -> ord v (n_preds nd) = []) ->
  quiet n (l1 ++ t :: l2) st -> b_step s ord vs t st = Ok (o, st') -> quiet n (l1 ++ opt_list o ++ l2) st'.
Proof.
  intros HP (C & D & E) R. destruct st as [b cent]. cbn [fst snd] in *.
  assert (FIN : forall o' b' cent', (match o' with Some t' => no_pull t' | None => True end) -> w_delta b' = repeat 0%Qc n -> cent' = repeat 0%Qc n ->
     quiet n (l1 ++ opt_list o' ++ l2) (b', cent')).
  { intros o' b' cent' A B B'. split; [|split; auto]. intros x H. rewrite !in_app_iff in H. destruct H as [H|[H|H]].
    - apply C, in_or_app; auto.
    - destruct o'; [destruct H as [<-|[]]; auto | destruct H].
    - apply C, in_or_app; simpl; auto. }
  destruct t as [|o0|v [|u todo]]; cbn [b_step] in R.
  - destruct (w_W b); inversion R; subst; apply FIN; simpl; auto.
  - destruct (w_W b); [inversion R; subst; apply FIN; simpl; auto|]. destruct o0 as [v|]; [|inversion R; subst; apply FIN; simpl; auto].
    destruct (vget vs v) as [vd| |] eqn:V; try discriminate. cbn [bind] in R. inversion R; subst. apply vget_Ok in V. rewrite (HP _ _ V). apply FIN; simpl; auto.
  - subst cent. rewrite D in R. destruct (vget (repeat 0%Qc n) v) as [c| |] eqn:V; try discriminate. cbn [bind] in R.
    assert (c = 0%Qc) by (eapply vget_repeat; eauto). subst c.
    destruct (vset (repeat 0%Qc n) v (0 + 0)%Qc) as [cent'| |] eqn:W; try discriminate. cbn [bind] in R. inversion R; subst.
    apply vset_Ok in W. destruct W as (_ & ->). apply FIN; simpl; auto. rewrite Qcplus_0_l. apply upd_repeat.
  - exfalso. apply (C (BPull v (u :: todo))), in_or_app; simpl; auto.
Qed.

Lemma quiet_run n s ord vs fuel sched now threads b st' :
  (forall v nd, nth_error vs v = Some nd -> ord v (n_preds nd) = []) -> w_delta b = repeat 0%Qc n ->
  run (b_step s ord vs) fuel sched now (repeat BTake threads) (b, repeat 0%Qc n) = Ok st' -> snd st' = repeat 0%Qc n.
Proof.
  intros HP D R. assert (H : quiet n [] st').
  { eapply (run_ok_inv _ _ _ (quiet n)); [| | exact R]; [intros; eapply quiet_step; eauto|]. split; [|split; auto].
    intros t H. apply repeat_spec in H. subst; simpl; auto. }
  apply H.
Qed.

(** ** One source *)
Lemma items_repeat nb : items (repeat [] nb) = 0.
Proof. induction nb; simpl; auto. Qed.
Lemma items_push bk k it : items (bk_push bk k it) <= S (items bk).
Proof.
  unfold bk_push. set (bk' := bk ++ _). assert (E : items bk' = items bk).
  { unfold bk', items. rewrite map_app, sum_app. fold (items (repeat [] (k + 1 - length bk))). rewrite items_repeat. lia. }
  rewrite <- E. generalize bk'. clear. intros l. revert k. induction l as [|x l IH]; intros [|k]; cbn; try lia.
  - rewrite app_length; simpl. lia.
  - unfold items in *. cbn. specialize (IH k). lia.
Qed.
Lemma few_items s row nb : length row <= 1 -> items (fold_left (fun bk v => bk_push bk 0 (s, v)) row (repeat [] nb)) <= 1.
Proof.
  destruct row as [|v [|]]; simpl; try lia; intros _.
  - rewrite items_repeat. lia.
  - eapply Nat.le_trans; [apply items_push|]. rewrite items_repeat. lia.
Qed.

Lemma wlp_source_zero g vmax M nb DELTA threads fuel r c :
  (forall v, r_ord r v [] = []) -> (forall row, nth_error g (r_s r) = Some row -> length row <= 1) ->
  wlp_source g vmax M nb DELTA threads fuel (repeat 0%Qc (length g)) r = Ok c -> c = repeat 0%Qc (length g).
Proof.
  intros HO HR E. unfold wlp_source in E.
  match type of E with bind ?x _ = _ => destruct x as [vs0| |] eqn:V; try discriminate end. cbn [bind] in E.
  destruct (vget g (r_s r)) as [row| |] eqn:G; try discriminate. cbn [bind] in E. apply vget_Ok in G.
  match type of E with bind ?x _ = _ => destruct x as [st1| |] eqn:R1; try discriminate end. cbn [bind] in E.
  match type of E with bind ?x _ = _ => destruct x as [st2| |] eqn:R2; try discriminate end. cbn [bind] in E.
  match type of E with bind ?x _ = _ => destruct x as [r2| |] eqn:R3; try discriminate end. cbn [bind] in E.
  apply one_item_run in R1; [|apply few_items; auto]. destruct R1 as (F1 & N1).
  change [WTake 0] with (repeat (WTake 0) 1) in R2. destruct st1 as [vs1 bk1]. cbn [fst snd] in F1, N1. subst vs1.
  apply one_item_run in R2; auto. destruct R2 as (F2 & _). rewrite F2 in R3.
  inversion E; subst. eapply quiet_run; [| |exact R3]; [|reflexivity].
  intros v nd H. replace (n_preds nd) with (@nil nat); auto. apply vset_Ok in V. destruct V as (_ & V). rewrite V in H.
  assert (L : v < length (upd (repeat (node0 vmax) (length g)) (r_s r) {| n_l := 0; n_pc := 1 mod M; n_preds := []; n_succs := []; n_els := fun _ => (0, 0) |})) by (apply nth_error_Some; congruence).
  rewrite upd_length, repeat_length in L. apply (nth_error_nth _ _ (node0 vmax)) in H. subst nd. 
  destruct (Nat.eq_dec v (r_s r)) as [->|N].
  - rewrite nth_upd_eq; auto. rewrite repeat_length; auto.
  - rewrite nth_upd_neq by auto. rewrite nth_repeat. reflexivity.
Qed.

Lemma wlp_source_no_threads g vmax M nb DELTA fuel cent r c :
  wlp_source g vmax M nb DELTA 0 fuel cent r = Ok c -> c = cent.
Proof.
  intros E. unfold wlp_source in E.
  match type of E with bind ?x _ = _ => destruct x as [vs0| |]; try discriminate end. cbn [bind] in E.
  destruct (vget g (r_s r)) as [row| |]; try discriminate. cbn [bind] in E.
  match type of E with bind ?x _ = _ => destruct x as [st1| |]; try discriminate end. cbn [bind] in E.
  match type of E with bind ?x _ = _ => destruct x as [st2| |]; try discriminate end. cbn [bind] in E.
  destruct fuel; cbn in E; inversion E; auto.
Qed.

Lemma wlp_rounds g vmax M nb DELTA threads fuel rounds :
  forall cent c,
  (forall r cent c, In r rounds -> cent = repeat 0%Qc (length g) -> wlp_source g vmax M nb DELTA threads fuel cent r = Ok c -> c = cent) ->
  cent = repeat 0%Qc (length g) ->
  rfold (wlp_source g vmax M nb DELTA threads fuel) rounds cent = Ok c -> c = repeat 0%Qc (length g).
Proof.
  induction rounds as [|r rounds IH]; intros cent c H E R; cbn [rfold] in R.
  - inversion R; subst; auto.
  - match type of R with bind ?x _ = _ => destruct x as [c1| |] eqn:S1; try discriminate end. cbn [bind] in R.
    assert (c1 = cent) by (eapply (H r); simpl; eauto). subst c1. eapply IH; eauto. intros; eapply H; simpl; eauto.
Qed.

(** ** A self-loop *)
Lemma run_one (T St : Type) (step : T -> St -> res (option T * St)) t s fuel sched now :
  run step (S fuel) sched now [t] s = (do r <- step t s ; run step fuel sched (S now) (opt_list (fst r)) (snd r)).
Proof.
  cbn [run]. change (length [t]) with 1. rewrite Nat.mod_1_r. cbn [vget nth_error bind firstn skipn app].
  destruct (step t s) as [[o s']| |]; cbn; auto. now rewrite app_nil_r.
Qed.
Lemma stuck_run (T St : Type) (step : T -> St -> res (option T * St)) t s fuel sched now :
  step t s = Ok (Some t, s) -> run step fuel sched now [t] s = OutOfFuel.
Proof.
  intros H. revert now. induction fuel; intros now; [reflexivity|]. rewrite run_one, H. cbn [bind fst snd opt_list]. apply IHfuel.
Qed.
Lemma push_0_app bk b it : bk_push (b :: bk) 0 it = (b ++ [it]) :: bk.
Proof. unfold bk_push. cbn. now rewrite app_nil_r. Qed.
Lemma pushes_0 s row : forall b bk, fold_left (fun bk v => bk_push bk 0 (s, v)) row (b :: bk) = (b ++ map (pair s) row) :: bk.
Proof.
  induction row as [|v row IH]; intros b bk; cbn [fold_left map]; [now rewrite app_nil_r|]. rewrite push_0_app, IH, <- app_assoc. reflexivity.
Qed.
Lemma pushes_start s v row nb : exists bk, fold_left (fun bk v => bk_push bk 0 (s, v)) (v :: row) (repeat [] nb) = map (pair s) (v :: row) :: bk.
Proof.
  destruct nb as [|nb]; cbn [repeat].
  - exists []. cbn [fold_left]. change (bk_push [] 0 (s, v)) with [[(s, v)]]. rewrite pushes_0. reflexivity.
  - exists (repeat [] nb). rewrite pushes_0. reflexivity.
Qed.

Lemma self_loop_stuck g vmax M nb DELTA fuel cent r v row :
  r_s r <> 0 -> nth_error g (r_s r) = Some (r_s r :: v :: row) ->
  wlp_source g vmax M nb DELTA 1 fuel cent r = OutOfFuel.
Proof.
  intros N G. unfold wlp_source.
  assert (L : r_s r < length g) by (apply nth_error_Some; congruence).
  rewrite vset_lt by (rewrite repeat_length; auto). cbn [bind].
  rewrite (proj2 (vget_Ok g (r_s r) _) G). cbn [bind].
  destruct (pushes_start (r_s r) (r_s r) (v :: row) nb) as (bk & ->).
  match goal with |- context[run ?st fuel (r_sched r) 0 _ ?s0] => assert (E : run st fuel (r_sched r) 0 (repeat (WTake 0) 1) s0 = OutOfFuel) end.
  { cbn [repeat]. destruct fuel as [|fuel]; [reflexivity|]. rewrite run_one. cbn [w_step nth_error map bind fst snd opt_list].
    destruct fuel as [|fuel]; [reflexivity|]. rewrite run_one. cbn [w_step nth_error map upd bind fst snd opt_list].
    apply stuck_run. cbn [w_step]. rewrite Nat.eqb_refl. destruct (Nat.eqb_spec (r_s r) 0); [contradiction|]. reflexivity. }
  rewrite E. reflexivity.
Qed.

(** ** The forward loop without the worklist class *)
Lemma na_skip_lt fuel : forall bk top t, na_skip fuel bk top = Ok t -> t < length bk.
Proof.
  induction fuel; intros bk top t H; [discriminate|]. cbn [na_skip] in H.
  destruct (vget bk top) as [b| |] eqn:V; try discriminate. cbn [bind] in H.
  apply vget_Ok in V. assert (L : top < length bk) by (apply nth_error_Some; congruence).
  destruct b; [|inversion H; subst; auto]. destruct (top <? length bk); [eauto | inversion H; subst; auto].
Qed.
Lemma na_loop_never level fuel : forall st top r, top < length (snd st) -> na_loop level fuel st top <> Ok r.
Proof.
  induction fuel; intros st top r L; [discriminate|]. cbn [na_loop]. destruct (Nat.ltb_spec top (length (snd st))); [|lia].
  destruct (vget (snd st) top) as [cur| |]; try discriminate. cbn [bind].
  destruct (level cur (fst st, upd (snd st) top [])) as [st'| |]; try discriminate. cbn [bind].
  destruct (na_skip (S (length (snd st'))) (snd st') top) as [top'| |] eqn:K; try discriminate. cbn [bind].
  apply IHfuel. eapply na_skip_lt; eauto.
Qed.
