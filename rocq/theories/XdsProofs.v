(** Proofs for C68. *)
From Coq Require Import List Arith Lia Bool.
From Verif Require Import Base SsspModel SsspLib SsspProofs ParDsModel ParDsProofs XdsModel.
Import ListNotations.
Set Implicit Arguments.

(** * Trees against pools *)
Section Tree.
Variable T : Type.
Lemma leaves_seq (l : list T) : leaves (seq_of l) = l.
Proof. induction l; simpl; congruence. Qed.
Lemma leaves_par (l : list T) : leaves (par_of l) = l.
Proof. induction l; simpl; congruence. Qed.
Lemma leaves_blocks t : forall l : list T, leaves (blocks_of t l) = l.
Proof. induction t as [|a IHa b IHb]; intros l; cbn [blocks_of leaves]; [apply leaves_seq|]. rewrite IHa, IHb. apply firstn_skipn. Qed.
Lemma nready_0 (t : sp T) : nready t = 0 <-> leaves t = [].
Proof.
  induction t as [|x|a IHa b IHb|a IHa b IHb]; simpl; [intuition|split; discriminate| |].
  - destruct (Nat.eqb_spec (nready a) 0) as [E|N].
    + rewrite IHb. apply IHa in E. now rewrite E.
    + split; [lia|]. intros E. apply app_eq_nil in E. tauto.
  - split; [|intros E; apply app_eq_nil in E; destruct E as [E1 E2]; apply IHa in E1; apply IHb in E2; lia].
    intros E. assert (X : nready a = 0) by lia. assert (Y : nready b = 0) by lia. apply IHa in X. apply IHb in Y. now rewrite X, Y.
Qed.

Variables (S : Type) (step : T -> S -> res (list T * S)) (shape : nat -> list T -> sp T).
Hypothesis SH : forall now l, leaves (shape now l) = l.

(** What one move does to the leaves; with choice 0 it is the first leaf that moves. *)
Lemma fire_leaf now s : forall t i, i < nready t -> exists l1 x l2, leaves t = l1 ++ x :: l2 /\ (i = 0 -> l1 = []) /\
  match step x s with
  | Ok (o, s') => exists t', fire step shape now i t s = Ok (t', s') /\ leaves t' = l1 ++ o ++ l2
  | Ub => fire step shape now i t s = Ub
  | OutOfFuel => fire step shape now i t s = OutOfFuel
  end.
Proof.
  induction t as [|x|a IHa b IHb|a IHa b IHb]; intros i Hi; cbn [nready] in Hi; [lia| | |].
  - exists [], x, []. split; auto. split; auto. cbn [fire]. destruct (step x s) as [[o s']| |]; cbn [bind fst snd]; auto.
    eexists. split; [reflexivity|]. rewrite SH, app_nil_r. reflexivity.
  - cbn [fire leaves]. destruct (Nat.eqb_spec (nready a) 0) as [E|N].
    + destruct (IHb i Hi) as (l1 & x & l2 & EL & Z & ST). apply nready_0 in E. exists l1, x, l2. rewrite E. split; auto. split; auto.
      destruct (step x s) as [[o s']| |]; [|now rewrite ST|now rewrite ST]. destruct ST as (t' & -> & L). eexists. split; [reflexivity|]. simpl. now rewrite E.
    + destruct (IHa i Hi) as (l1 & x & l2 & EL & Z & ST). exists l1, x, (l2 ++ leaves b). rewrite EL, <- app_assoc. split; auto. split; auto.
      destruct (step x s) as [[o s']| |]; [|now rewrite ST|now rewrite ST]. destruct ST as (t' & -> & L). eexists. split; [reflexivity|]. simpl. now rewrite L, <- !app_assoc.
  - cbn [fire leaves]. destruct (Nat.ltb_spec i (nready a)) as [LT|GE].
    + destruct (IHa i LT) as (l1 & x & l2 & EL & Z & ST). exists l1, x, (l2 ++ leaves b). rewrite EL, <- app_assoc. split; auto. split; auto.
      destruct (step x s) as [[o s']| |]; [|now rewrite ST|now rewrite ST]. destruct ST as (t' & -> & L). eexists. split; [reflexivity|]. simpl. now rewrite L, <- !app_assoc.
    + destruct (IHb (i - nready a) ltac:(lia)) as (l1 & x & l2 & EL & Z & ST). exists (leaves a ++ l1), x, l2. rewrite EL, <- app_assoc. split; auto.
      split; [intros ->; assert (X : nready a = 0) by lia; apply nready_0 in X; rewrite X, Z by lia; auto|].
      destruct (step x s) as [[o s']| |]; [|now rewrite ST|now rewrite ST]. destruct ST as (t' & -> & L). eexists. split; [reflexivity|]. simpl. now rewrite L, <- !app_assoc.
Qed.

Lemma frun_ext sched sched' : forall fuel now ts s, (forall n, now <= n -> sched n = sched' n) -> frun step fuel sched now ts s = frun step fuel sched' now ts s.
Proof.
  induction fuel; intros now ts s H; simpl; auto. destruct ts as [|t ts]; auto. rewrite <- H by lia. destruct (vget _ _); simpl; auto.
  destruct (step a s); simpl; auto. apply IHfuel. intros n Hn. apply H. lia.
Qed.
Lemma frun_at l1 x l2 fuel sched now s : sched now = length l1 ->
  frun step (Datatypes.S fuel) sched now (l1 ++ x :: l2) s = do r <- step x s ; frun step fuel sched (Datatypes.S now) (l1 ++ fst r ++ l2) (snd r).
Proof.
  intros E. assert (NN : l1 ++ x :: l2 <> []) by (destruct l1; discriminate). remember (l1 ++ x :: l2) as ts eqn:Ets. cbn [frun].
  destruct ts as [|t0 ts0]; [congruence|]. rewrite Ets, E, app_length. cbn [length]. rewrite Nat.mod_small by lia.
  rewrite (proj2 (vget_Ok (l1 ++ x :: l2) (length l1) x)) by (rewrite nth_error_app2, Nat.sub_diag by lia; reflexivity). cbn [bind].
  replace (firstn (length l1) (l1 ++ x :: l2)) with l1 by (rewrite firstn_app, firstn_all, Nat.sub_diag; simpl; now rewrite app_nil_r).
  replace (skipn (Datatypes.S (length l1)) (l1 ++ x :: l2)) with l2 by (rewrite skipn_app, skipn_all2 by lia; now replace (Datatypes.S (length l1) - length l1) with 1 by lia).
  reflexivity.
Qed.

(** Every run of a tree is a run of the pool of its leaves. *)
Lemma sprun_frun sched : forall fuel now t s, exists sched', sprun step shape fuel sched now t s = frun step fuel sched' now (leaves t) s.
Proof.
  induction fuel; intros now t s; cbn [sprun].
  - exists (fun _ => 0). destruct (Nat.eqb_spec (nready t) 0) as [E|N]; [apply nready_0 in E; now rewrite E|].
    destruct (leaves t) eqn:E; auto. apply nready_0 in E. lia.
  - destruct (Nat.eqb_spec (nready t) 0) as [E|N]; [exists (fun _ => 0); apply nready_0 in E; now rewrite E|].
    destruct (@fire_leaf now s t (sched now mod nready t) (Nat.mod_upper_bound _ _ N)) as (l1 & x & l2 & EL & _ & ST). rewrite EL.
    destruct (step x s) as [[o s']| |] eqn:EX.
    + destruct ST as (t' & -> & L). cbn [bind fst snd]. destruct (IHfuel (Datatypes.S now) t' s') as (sc & ->).
      exists (fun n => if n =? now then length l1 else sc n). rewrite frun_at by now rewrite Nat.eqb_refl. rewrite EX. cbn [bind fst snd]. rewrite L.
      apply frun_ext. intros n Hn. destruct (Nat.eqb_spec n now); auto. lia.
    + exists (fun _ => length l1). rewrite frun_at by auto. now rewrite ST, EX.
    + exists (fun _ => length l1). rewrite frun_at by auto. now rewrite ST, EX.
Qed.
(** With choice 0 always, the first leaf moves. *)
Lemma sprun_first : forall fuel now t s, sprun step shape fuel (fun _ => 0) now t s = frun step fuel (fun _ => 0) now (leaves t) s.
Proof.
  induction fuel; intros now t s; cbn [sprun].
  - destruct (Nat.eqb_spec (nready t) 0) as [E|N]; [apply nready_0 in E; now rewrite E|].
    destruct (leaves t) eqn:E; auto. apply nready_0 in E. lia.
  - destruct (Nat.eqb_spec (nready t) 0) as [E|N]; [apply nready_0 in E; now rewrite E|].
    rewrite Nat.mod_0_l by auto. destruct (@fire_leaf now s t 0 ltac:(lia)) as (l1 & x & l2 & EL & Z & ST). rewrite (Z eq_refl) in *. rewrite EL.
    rewrite (@frun_at [] x l2) by auto. destruct (step x s) as [[o s']| |] eqn:EX; [|now rewrite ST|now rewrite ST].
    destruct ST as (t' & -> & L). cbn [bind fst snd]. rewrite IHfuel, L. reflexivity.
Qed.
End Tree.

(** * v9, v10, v11: some schedule of the version in algorithms/ *)
Section Xds.
Variables (D inf delta : nat) (g : wgraph) (ind : nat -> option bool) (split : nat -> list ptask -> sp ptask) (shape : nat -> nat -> list ptask -> sp ptask) (sched : nat -> nat -> nat).
Hypothesis SPL : forall k l, leaves (split k l) = l.
Hypothesis SHP : forall k now l, leaves (shape k now l) = l.
Lemma pds_loop_ext sc sc' : forall fuel k top st, (forall n, k <= n -> sc n = sc' n) -> pds_loop fuel D inf delta g ind sc k top st = pds_loop fuel D inf delta g ind sc' k top st.
Proof.
  induction fuel; intros k top st H; cbn [pds_loop]; auto. destruct (top <? length (pb st)); auto. destruct (vget _ _); cbn [bind]; auto. destruct (vset _ _ _); cbn [bind]; auto.
  rewrite <- H by lia. destruct (frun _ _ _ _ _ _); cbn [bind]; auto. apply IHfuel. intros n Hn. apply H. lia.
Qed.
Lemma xds_loop_pds : forall fuel k top st, exists sc, xds_loop fuel D inf delta g ind split shape sched k top st = pds_loop fuel D inf delta g ind sc k top st.
Proof.
  induction fuel; intros k top st; cbn [xds_loop pds_loop]; [exists sched; auto|]. destruct (top <? length (pb st)); [|exists sched; auto].
  destruct (vget (pb st) top) as [fr| |]; cbn [bind]; [|exists sched; auto|exists sched; auto]. destruct (vset (pb st) top []) as [bins| |]; cbn [bind]; [|exists sched; auto|exists sched; auto].
  destruct (@sprun_frun _ _ (pstep D delta g ind top) (shape k) (SHP k) (sched k) (sum (map (psize g inf) (map PV fr))) 0 (split k (map PV fr)) (mkP (pd st) bins (pr st))) as (s0 & E).
  rewrite E, SPL. destruct (frun (pstep D delta g ind top) _ s0 0 (map PV fr) _) as [st'| |] eqn:ER; cbn [bind].
  - destruct (IHfuel (S k) (ds_next (length (pb st')) top (pb st')) st') as (sc & ->).
    exists (fun n => if n =? k then s0 else sc n). rewrite Nat.eqb_refl, ER. cbn [bind]. apply pds_loop_ext. intros n Hn. destruct (Nat.eqb_spec n k); auto. lia.
  - exists (fun _ => s0). now rewrite ER.
  - exists (fun _ => s0). now rewrite ER.
Qed.
Lemma xds_pds fuel s : exists sc, xds fuel D inf g s delta ind split shape sched = pdelta_stepping fuel D inf g s delta ind sc.
Proof.
  unfold xds, pdelta_stepping. destruct (vset _ _ _); cbn [bind]; [|exists sched; auto|exists sched; auto]. apply xds_loop_pds.
Qed.
End Xds.

(** * v8: the tasks of ParDsModel.v with an initialised flag *)
Definition esim (e : etask) (p : ptask) : Prop :=
  match e, p with
  | EV u, PV u' => u = u'
  | ES u v w, PS u' v' w' => u = u' /\ v = v' /\ w = w'
  | ET v n, PT _ v' _ n' => v = v' /\ n = n'
  | EC v n o, PC _ v' _ n' o' => v = v' /\ n = n' /\ o = o'
  | EG v n, PG v' n' => v = v' /\ n = n'
  | EP v b, PP v' b' => v = v' /\ b = b'
  | _, _ => False
  end.
Definition ssim (a : ds_state) (b : pstate) : Prop := fst a = pd b /\ snd a = pb b.
Definition rsim (a : res ds_state) (b : res pstate) : Prop :=
  match a, b with Ok x, Ok y => ssim x y | Ub, Ub => True | OutOfFuel, OutOfFuel => True | _, _ => False end.
Section V8.
Variables (D inf delta : nat) (g : wgraph).
Lemma estep_sim top e p a b : esim e p -> ssim a b ->
  match estep D delta g top e a, pstep D delta g (fun _ => Some false) top p b with
  | Ok (o, a'), Ok (o', b') => Forall2 esim o o' /\ ssim a' b'
  | Ub, Ub => True
  | OutOfFuel, OutOfFuel => True
  | _, _ => False
  end.
Proof.
  intros E [S1 S2]. destruct a as [d bs]. cbn [fst snd] in *. subst. destruct e, p; simpl in E; try tauto; cbn [estep pstep fst snd].
  - subst. destruct (vget (pd b) u0) as [x| |] eqn:EV1; cbn [bind]; auto. destruct (delta * top <=? x); [|repeat split; auto].
    destruct (vget g u0) as [row| |]; cbn [bind]; auto. split; [|split; auto]. clear. induction row; simpl; constructor; simpl; auto.
  - destruct E as (-> & -> & ->). destruct (vget (pd b) u0) as [x| |]; cbn [bind]; auto. split; [|split; auto]. repeat constructor.
  - destruct E as (-> & ->). destruct (vget (pd b) v0) as [x| |]; cbn [bind]; auto. destruct (next0 <? x); split; repeat constructor.
  - destruct E as (-> & -> & ->). destruct (vget (pd b) v0) as [x| |]; cbn [bind]; auto. destruct (x =? prev).
    + destruct (vset (pd b) v0 next0) as [y| |]; cbn [bind]; auto. split; repeat constructor.
    + destruct (Nat.leb_spec x next0), (Nat.ltb_spec next0 x); try lia; split; repeat constructor.
  - destruct E as (-> & ->). destruct (delta =? 0); auto. split; [repeat constructor|]. split; auto. cbn [fst snd pd pb]. unfold grow.
    destruct (Nat.ltb_spec (length (pb b)) (next0 / delta + 1)); auto. replace (next0 / delta + 1 - length (pb b)) with 0 by lia. apply app_nil_r.
  - destruct E as (-> & ->). destruct (vget (pb b) bin0) as [x| |]; cbn [bind]; auto. destruct (vset (pb b) bin0 (x ++ [v0])) as [y| |]; cbn [bind]; auto. split; repeat constructor.
Qed.
Lemma F2_split A B (R : A -> B -> Prop) l1 x l2 m : Forall2 R (l1 ++ x :: l2) m -> exists m1 y m2, m = m1 ++ y :: m2 /\ Forall2 R l1 m1 /\ R x y /\ Forall2 R l2 m2.
Proof. intros F. apply Forall2_app_inv_l in F. destruct F as (m1 & mm & F1 & F2 & ->). inversion F2; subst. eexists m1, _, _. eauto. Qed.
Lemma F2_len A B (R : A -> B -> Prop) l m : Forall2 R l m -> length l = length m.
Proof. induction 1; simpl; auto. Qed.
Lemma v8_frun top sched : forall fuel now es ps a b, Forall2 esim es ps -> ssim a b ->
  rsim (frun (estep D delta g top) fuel sched now es a) (frun (pstep D delta g (fun _ => Some false) top) fuel sched now ps b).
Proof.
  induction fuel; intros now es ps a b F SS.
  - inversion F; simpl; auto.
  - destruct es as [|e0 es0]; [inversion F; simpl; auto|].
    destruct (@frun_pick _ _ (estep D delta g top) fuel sched now (e0 :: es0) a) as (l1 & e & l2 & SP & _); [discriminate|].
    assert (LE := F2_len F). cbn [frun]. destruct ps as [|p0 ps0] eqn:EP; [discriminate|]. rewrite <- EP in *. clear EP p0 ps0.
    remember (e0 :: es0) as es eqn:EE. clear EE e0 es0 SP l1 e l2. rewrite <- LE.
    destruct (Nat.eq_dec (length es) 0) as [Z|NZ].
    + unfold vget. destruct es; [|discriminate]. destruct ps; [|discriminate]. simpl. destruct (sched now); simpl; auto.
    + assert (Hi : sched now mod length es < length es) by (apply Nat.mod_upper_bound; auto). remember (sched now mod length es) as i eqn:Ei. clear Ei.
      destruct (nth_error es i) as [e|] eqn:E; [|apply nth_error_None in E; lia]. rewrite (proj2 (vget_Ok es i e) E). cbn [bind].
      destruct (nth_error_split _ _ E) as (l1 & l2 & SP & LL). rewrite SP in F. destruct (F2_split _ _ _ F) as (m1 & p & m2 & EP & F1 & R & F2).
      assert (LM := F2_len F1). rewrite (proj2 (vget_Ok ps i p)) by (rewrite EP, nth_error_app2, <- LM, LL, Nat.sub_diag by lia; reflexivity). cbn [bind].
      assert (ST := estep_sim top _ _ R SS). destruct (estep D delta g top e a) as [[o a']| |], (pstep D delta g (fun _ => Some false) top p b) as [[o' b']| |]; try tauto; cbn [bind fst snd]; auto.
      apply IHfuel; [|tauto]. rewrite SP, EP.
      replace (firstn i (l1 ++ e :: l2)) with l1 by (rewrite <- LL, firstn_app, firstn_all, Nat.sub_diag; simpl; now rewrite app_nil_r).
      replace (firstn i (m1 ++ p :: m2)) with m1 by (rewrite <- LL, LM, firstn_app, firstn_all, Nat.sub_diag; simpl; now rewrite app_nil_r).
      replace (skipn (S i) (l1 ++ e :: l2)) with l2 by (rewrite <- LL, skipn_app, skipn_all2 by lia; now replace (S (length l1) - length l1) with 1 by lia).
      replace (skipn (S i) (m1 ++ p :: m2)) with m2 by (rewrite <- LL, LM, skipn_app, skipn_all2 by lia; now replace (S (length m1) - length m1) with 1 by lia).
      apply Forall2_app; auto. apply Forall2_app; tauto.
Qed.

Variables (split : nat -> list etask -> sp etask) (shape : nat -> nat -> list etask -> sp etask) (sched : nat -> nat -> nat).
Hypothesis SPL : forall k l, leaves (split k l) = l.
Hypothesis SHP : forall k now l, leaves (shape k now l) = l.
Lemma v8_loop_pds : forall fuel k top a b, ssim a b -> exists sc, v8_loop fuel D inf delta g split shape sched k top a = pds_loop fuel D inf delta g (fun _ => Some false) sc k top b.
Proof.
  induction fuel; intros k top a b [S1 S2]; cbn [v8_loop pds_loop]; rewrite S1, S2; [exists sched; auto|]. destruct (top <? length (pb b)); [|exists sched; auto].
  destruct (vget (pb b) top) as [fr| |]; cbn [bind]; [|exists sched; auto|exists sched; auto]. destruct (vset (pb b) top []) as [bins| |]; cbn [bind]; [|exists sched; auto|exists sched; auto].
  destruct (@sprun_frun _ _ (estep D delta g top) (shape k) (SHP k) (sched k) (sum (map (esize g inf) (map EV fr))) 0 (split k (map EV fr)) (pd b, bins)) as (s0 & E).
  rewrite E, SPL.
  assert (F : Forall2 esim (map EV fr) (map PV fr)) by (clear; induction fr; simpl; constructor; simpl; auto).
  assert (FU : sum (map (esize g inf) (map EV fr)) = sum (map (psize g inf) (map PV fr))) by (clear; induction fr; simpl; auto).
  assert (R := @v8_frun top s0 (sum (map (psize g inf) (map PV fr))) 0 _ _ (pd b, bins) (mkP (pd b) bins (pr b)) F (conj eq_refl eq_refl)). rewrite FU.
  destruct (frun (estep D delta g top) _ s0 0 (map EV fr) _) as [st'| |], (frun (pstep D delta g _ top) _ s0 0 (map PV fr) _) as [st''| |] eqn:ER; simpl in R; try tauto; cbn [bind].
  - assert (RR := R). destruct R as [R1 R2]. rewrite R2. destruct (IHfuel (S k) (ds_next (length (pb st'')) top (pb st'')) st' st'' RR) as (sc & ->).
    exists (fun n => if n =? k then s0 else sc n). rewrite Nat.eqb_refl, ER. cbn [bind]. apply pds_loop_ext. intros n Hn. destruct (Nat.eqb_spec n k); auto. lia.
  - exists (fun _ => s0). now rewrite ER.
  - exists (fun _ => s0). now rewrite ER.
Qed.
Lemma v8_pds fuel s : exists sc, delta_stepping_v8 fuel D inf g s delta split shape sched = pdelta_stepping fuel D inf g s delta (fun _ => Some false) sc.
Proof.
  unfold delta_stepping_v8, pdelta_stepping. destruct (vset _ _ _); cbn [bind]; [|exists sched; auto|exists sched; auto]. apply v8_loop_pds. split; auto.
Qed.
End V8.

(** * v6 *)
Section V6.
Variables (D delta : nat) (g : wgraph).
(** ** One thread *)
Section Seq.
Variable top : nat.
Let run0 := frun (rstep D delta g top).
Lemma run0_cons fuel now t l st : run0 (S fuel) (fun _ => 0) now (t :: l) st = do r <- rstep D delta g top t st ; run0 fuel (fun _ => 0) (S now) (fst r ++ l) (snd r).
Proof. exact (@frun_at _ _ (rstep D delta g top) [] t l fuel (fun _ => 0) now st eq_refl). Qed.
Lemma relax0 u v w l fuel now st : 6 <= fuel -> exists k fuel' now', fuel' + k = fuel /\ k <= 6 /\
  run0 fuel (fun _ => 0) now (RS u v w :: l) st = do st' <- ds_relax D delta u st (v, w) ; run0 fuel' (fun _ => 0) now' l st'.
Proof.
  intros HF. do 6 (destruct fuel as [|fuel]; [lia|]). destruct st as [d bins]. rewrite run0_cons. cbn [rstep ds_relax fst snd]. destruct (vget d u) as [x| |]; cbn [bind fst snd app].
  2,3: exists 0, (6 + fuel), 0; repeat split; lia.
  rewrite run0_cons. cbn [rstep fst snd]. destruct (vget d v) as [y| |]; cbn [bind fst snd app].
  2,3: exists 0, (6 + fuel), 0; repeat split; lia.
  destruct ((x + w) mod D <? y); cbn [bind fst snd app].
  2: exists 2, (4 + fuel), (2 + now); repeat split; lia.
  rewrite run0_cons. cbn [rstep fst snd]. destruct (vset d v ((x + w) mod D)) as [d'| |]; cbn [bind fst snd app].
  2,3: exists 0, (6 + fuel), 0; repeat split; lia.
  rewrite run0_cons. cbn [rstep fst snd]. destruct (delta =? 0); cbn [bind fst snd app].
  { exists 0, (6 + fuel), 0; repeat split; lia. }
  set (bin := (x + w) mod D / delta). destruct (Nat.leb_spec (length bins) bin) as [L|L].
  - rewrite run0_cons. cbn [rstep fst snd bind app]. rewrite run0_cons. cbn [rstep fst snd bind app]. unfold resize. destruct (Nat.leb_spec (length bins) (bin + 1)); [|lia].
    destruct (vget (bins ++ repeat [] (bin + 1 - length bins)) bin) as [b| |]; cbn [bind]. 2,3: exists 0, (6 + fuel), 0; repeat split; lia.
    destruct (vset (bins ++ repeat [] (bin + 1 - length bins)) bin (b ++ [v])) as [bins'| |]; cbn [bind fst snd app]. 2,3: exists 0, (6 + fuel), 0; repeat split; lia.
    exists 6, fuel, (6 + now). repeat split; lia.
  - rewrite run0_cons. cbn [rstep fst snd bind app].
    destruct (vget bins bin) as [b| |]; cbn [bind]. 2,3: exists 0, (6 + fuel), 0; repeat split; lia.
    destruct (vset bins bin (b ++ [v])) as [bins'| |]; cbn [bind fst snd app]. 2,3: exists 0, (6 + fuel), 0; repeat split; lia.
    exists 5, (1 + fuel), (5 + now). repeat split; lia.
Qed.
Lemma row0 u : forall row l fuel now st, length row * 6 <= fuel -> exists k fuel' now', fuel' + k = fuel /\ k <= length row * 6 /\
  run0 fuel (fun _ => 0) now (map (fun e => RS u (fst e) (snd e)) row ++ l) st = do st' <- rfold (ds_relax D delta u) row st ; run0 fuel' (fun _ => 0) now' l st'.
Proof.
  induction row as [|[v w] row IH]; intros l fuel now st HF; cbn [map app rfold fst snd length] in *.
  - exists 0, fuel, now. repeat split; auto; lia.
  - destruct (@relax0 u v w (map (fun e => RS u (fst e) (snd e)) row ++ l) fuel now st ltac:(lia)) as (k & f1 & n1 & K1 & K2 & ->).
    destruct (ds_relax D delta u st (v, w)) as [st'| |]; cbn [bind]. 2,3: exists 0, fuel, 0; repeat split; lia.
    destruct (IH l f1 n1 st' ltac:(lia)) as (k' & f2 & n2 & K3 & K4 & ->). exists (k + k'), f2, n2. repeat split; auto; lia.
Qed.
Lemma front0 : forall fr fuel now st, sum (map (rsize g) (map RV fr)) <= fuel -> run0 fuel (fun _ => 0) now (map RV fr) st = rfold (ds_vertex D delta g top) fr st.
Proof.
  induction fr as [|u fr IH]; intros fuel now st HF; cbn [map sum rsize rfold] in *.
  - destruct fuel; reflexivity.
  - destruct fuel as [|fuel]; [lia|]. rewrite run0_cons. cbn [rstep]. unfold ds_vertex at 1. destruct (vget (fst st) u) as [x| |]; cbn [bind]; auto.
    destruct (delta * top <=? x); cbn [bind fst snd app]; [|apply IH; lia].
    destruct (vget g u) as [row| |] eqn:EG; cbn [bind fst snd]; auto.
    assert (ER : nth u g [] = row) by (apply vget_Ok in EG; now apply nth_error_nth). rewrite ER in HF.
    destruct (@row0 u row (map RV fr) fuel (S now) st ltac:(lia)) as (k & f1 & n1 & K1 & K2 & ->).
    destruct (rfold (ds_relax D delta u) row st) as [st'| |]; cbn [bind]; auto. apply IH. lia.
Qed.
End Seq.
Lemma v6_loop_seq : forall fuel k top st, v6_loop fuel D delta g (fun _ _ => 0) k top st = ds_loop fuel D delta g top st.
Proof.
  induction fuel; intros k top st; cbn [v6_loop ds_loop]; auto. destruct (top <? length (snd st)); auto.
  destruct (vget (snd st) top) as [fr| |]; cbn [bind]; auto. destruct (vset (snd st) top []) as [bins| |]; cbn [bind]; auto.
  rewrite sprun_first by (intros; apply leaves_seq). rewrite leaves_par, front0 by auto.
  destruct (rfold (ds_vertex D delta g top) fr (fst st, bins)); cbn [bind]; auto.
Qed.

(** ** Any schedule: labels are lengths of walks *)
Variables (s inf : nat).
Hypothesis HT : wtargets_ok g.
Hypothesis HS : s < length g.
Hypothesis HI : 0 < inf.
Hypothesis HID : inf <= D.
Hypothesis NOV : no_overflow g s inf.

Definition lbl (d : list nat) (x : nat) : Prop := dst inf d x < inf.
(** [l] is at most the length of a simple path to v, whose other vertices are labelled. *)
Definition under (d : list nat) (v l : nat) : Prop := exists l' p, spath g s ((v, l') :: p) /\ l <= l' /\ forall x, In x (map fst p) -> lbl d x.
Record base (st : ds_state) : Prop := {
  bs_len : length (fst st) = length g;
  bs_src : dst inf (fst st) s = 0;
  bs_le : forall v, dst inf (fst st) v <= inf;
  bs_walk : forall v, lbl (fst st) v -> wwalk g s v (dst inf (fst st) v);
  bs_und : forall v, lbl (fst st) v -> under (fst st) v (dst inf (fst st) v);
  bs_bin : forall b x, In x (nth b (snd st) []) -> lbl (fst st) x }.
Definition tk6 (d : list nat) (t : rtask) : Prop :=
  match t with
  | RV u => lbl d u
  | RS u v w => lbl d u /\ warc g u v w
  | RT v n => wwalk g s v n /\ n < inf /\ exists u w l p, spath g s ((u, l) :: p) /\ warc g u v w /\ n <= l + w /\ (forall x, In x (map fst ((u, l) :: p)) -> lbl d x)
  | RW v n => wwalk g s v n /\ n < inf /\ v <> s /\ under d v n
  | RB v _ | RR v _ | RP v _ => lbl d v
  end.
Definition inv6 (ts : list rtask) (st : ds_state) : Prop := base st /\ forall t, In t ts -> tk6 (fst st) t.
Lemma under_mono d d' v l : (forall x, lbl d x -> lbl d' x) -> under d v l -> under d' v l.
Proof. intros M (l' & p & P & LE & H). exists l', p. auto. Qed.
Lemma tk6_mono d d' t : (forall x, lbl d x -> lbl d' x) -> tk6 d t -> tk6 d' t.
Proof.
  intros M. destruct t; simpl; auto.
  - intros [? ?]; auto.
  - intros (? & ? & u & w & l & p & ? & ? & ? & ?). repeat split; auto. exists u, w, l, p. repeat split; auto.
  - intros (? & ? & ? & ?). repeat split; auto. eapply under_mono; eauto.
Qed.
Lemma lbl_lt d x : length d = length g -> lbl d x -> x < length g.
Proof. unfold lbl, dst. intros L H. destruct (Nat.lt_ge_cases x (length g)) as [X|X]; auto. rewrite nth_overflow in H by lia. lia. Qed.

Lemma rstep_inv top l1 t l2 st o st' : inv6 (l1 ++ t :: l2) st -> rstep D delta g top t st = Ok (o, st') -> inv6 (l1 ++ o ++ l2) st'.
Proof.
  intros [B TK] E. assert (Ht : tk6 (fst st) t) by (apply TK; apply in_or_app; simpl; auto).
  assert (KEY : base st' /\ (forall x, lbl (fst st) x -> lbl (fst st') x) /\ forall t', In t' o -> tk6 (fst st') t').
  { destruct t as [u|u v w|v n|v n|v n|v b|v b]; cbn [rstep] in E.
    - apply bind_Ok in E. destruct E as (x & E1 & E). destruct (delta * top <=? x).
      + apply bind_Ok in E. destruct E as (row & E2 & E). injection E as <- <-. split; auto. split; auto. intros t' I. apply in_map_iff in I. destruct I as ([v w] & <- & I).
        simpl. split; auto. unfold warc. apply vget_Ok in E2. now rewrite (nth_error_nth _ _ _ E2).
      + injection E as <- <-. split; auto. split; auto. intros t' [].
    - apply bind_Ok in E. destruct E as (x & E1 & E). injection E as <- <-. split; auto. split; auto. intros t' [<-|[]]. destruct Ht as [LU A].
      assert (X : x = dst inf (fst st) u) by (unfold dst; apply vget_Ok in E1; now rewrite (nth_error_nth _ _ _ E1)). subst x.
      destruct (bs_und B LU) as (l' & p & P & LE & PL). assert (NO := @NOV _ _ _ _ _ P A). rewrite Nat.mod_small by lia. simpl. split.
      + econstructor; eauto. apply (bs_walk B); auto.
      + split; [lia|]. exists u, w, l', p. repeat split; auto; [lia|]. intros x [<-|I]; auto.
    - apply bind_Ok in E. destruct E as (x & E1 & E). assert (X : x = dst inf (fst st) v) by (unfold dst; apply vget_Ok in E1; now rewrite (nth_error_nth _ _ _ E1)). subst x.
      destruct (Nat.ltb_spec n (dst inf (fst st) v)) as [LT|GE]; injection E as <- <-; split; auto; split; auto; [|intros t' []]. intros t' [<-|[]].
      destruct Ht as (W & NI & u & w & l & p & P & A & LE & PL). simpl. split; auto. split; auto. split; [intros ->; rewrite (bs_src B) in LT; lia|].
      destruct (Nat.lt_ge_cases (dst inf (fst st) v) inf) as [LV|UV].
      + destruct (bs_und B LV) as (l' & p' & P' & LE' & PL'). exists l', p'. split; auto. split; [lia|auto].
      + exists (l + w), ((u, l) :: p). split; [constructor; auto|split; auto]. intros I. specialize (PL _ I). unfold lbl in PL. lia.
    - apply bind_Ok in E. destruct E as (d' & E1 & E). injection E as <- <-. apply vset_Ok in E1. destruct E1 as [LV ->]. destruct Ht as (W & NI & NS & U). cbn [fst snd].
      assert (DU : forall x, dst inf (upd (fst st) v n) x = if x =? v then n else dst inf (fst st) x).
      { intros x. unfold dst. destruct (Nat.eqb_spec x v) as [->|N]; [apply nth_upd_eq; auto|apply nth_upd_neq; auto]. }
      assert (MO : forall x, lbl (fst st) x -> lbl (upd (fst st) v n) x) by (intros x H; unfold lbl in *; rewrite DU; destruct (x =? v); auto).
      split; [|split; auto].
      + destruct B as [B1 B2 B3 B4 B5 B6]. split; cbn [fst snd]; auto.
        * now rewrite upd_length.
        * rewrite DU. destruct (Nat.eqb_spec s v); auto. congruence.
        * intros x. rewrite DU. destruct (x =? v); auto. lia.
        * intros x H. unfold lbl in H. rewrite DU in *. destruct (Nat.eqb_spec x v) as [EX|N]; [now rewrite EX|]. now apply B4.
        * intros x H. unfold lbl in H. rewrite DU in *. apply (under_mono MO). destruct (Nat.eqb_spec x v) as [EX|N]; [now rewrite EX|]. now apply B5.
        * intros b x I. apply MO. eapply B6; eauto.
      + intros t' [<-|[]]. simpl. unfold lbl. rewrite DU, Nat.eqb_refl. auto.
    - destruct (delta =? 0); [discriminate|]. injection E as <- <-. split; auto. split; auto. intros t' [<-|[]]. destruct (length (snd st) <=? n / delta); simpl; auto.
    - injection E as <- <-. cbn [fst snd]. split; [|split; auto; intros t' [<-|[]]; auto]. destruct B as [B1 B2 B3 B4 B5 B6]. split; cbn [fst snd]; auto.
      intros c x I. unfold resize in I. destruct (length (snd st) <=? b + 1).
      + destruct (Nat.lt_ge_cases c (length (snd st))) as [L|L]; [rewrite app_nth1 in I by auto; eapply B6; eauto|].
        rewrite app_nth2 in I by auto. rewrite nth_repeat in I. destruct I.
      + destruct (Nat.lt_ge_cases c (b + 1)) as [L|L].
        * rewrite <- (firstn_skipn (b + 1) (snd st)) in B6. destruct (Nat.lt_ge_cases c (length (firstn (b + 1) (snd st)))) as [L'|L'].
          -- apply (B6 c). rewrite app_nth1; auto.
          -- rewrite nth_overflow in I by auto. destruct I.
        * rewrite nth_overflow in I by (rewrite firstn_length; lia). destruct I.
    - apply bind_Ok in E. destruct E as (c & E1 & E). apply bind_Ok in E. destruct E as (bins' & E2 & E). injection E as <- <-. apply vset_Ok in E2. destruct E2 as [LB ->]. cbn [fst snd].
      split; [|split; auto; intros t' []]. destruct B as [B1 B2 B3 B4 B5 B6]. split; cbn [fst snd]; auto.
      intros c' x I. destruct (Nat.eq_dec c' b) as [->|N].
      + rewrite nth_upd_eq in I by auto. apply in_app_or in I. destruct I as [I|[<-|[]]]; auto. apply (B6 b). apply vget_Ok in E1. now rewrite (nth_error_nth _ _ _ E1).
      + rewrite nth_upd_neq in I by auto. eauto. }
  destruct KEY as (B' & MO & NEW). split; auto. intros t' I. apply in_app_or in I. destruct I as [I|I].
  - eapply tk6_mono; eauto. apply TK. apply in_or_app. auto.
  - apply in_app_or in I. destruct I as [I|I]; auto. eapply tk6_mono; eauto. apply TK. apply in_or_app. simpl. auto.
Qed.
Lemma v6_loop_base sched : forall fuel k top st d, base st -> v6_loop fuel D delta g sched k top st = Ok d -> exists bs, base (d, bs).
Proof.
  induction fuel; intros k top st d B E; cbn [v6_loop] in E.
  - destruct (top <? length (snd st)); [discriminate|]. injection E as <-. exists (snd st). now rewrite <- surjective_pairing.
  - destruct (top <? length (snd st)); [|injection E as <-; exists (snd st); now rewrite <- surjective_pairing].
    apply bind_Ok in E. destruct E as (fr & E1 & E). apply bind_Ok in E. destruct E as (bins & E2 & E). apply bind_Ok in E. destruct E as (st' & E3 & E).
    eapply IHfuel; [|exact E].
    destruct (@sprun_frun _ _ (rstep D delta g top) (fun _ => @seq_of _) (fun _ l => leaves_seq l) (sched k) (sum (map (rsize g) (map RV fr))) 0 (par_of (map RV fr)) (fst st, bins)) as (sc & X).
    rewrite X, leaves_par in E3. apply vset_Ok in E2. destruct E2 as [LB ->]. destruct B as [B1 B2 B3 B4 B5 B6].
    eapply (@frun_post _ _ (rstep D delta g top) inv6) in E3; [exact (proj1 E3)|intros; eapply rstep_inv; eauto|].
    split.
    + split; cbn [fst snd]; auto. intros b x I. destruct (Nat.eq_dec b top) as [->|N]; [rewrite nth_upd_eq in I by auto; destruct I|rewrite nth_upd_neq in I by auto; eauto].
    + intros t I. apply in_map_iff in I. destruct I as (x & <- & I). simpl. apply (B6 top). apply vget_Ok in E1. now rewrite (nth_error_nth _ _ _ E1).
Qed.
Lemma v6_base fuel sched d : delta_stepping_v6 fuel D inf g s delta sched = Ok d -> exists bs, base (d, bs).
Proof.
  unfold delta_stepping_v6. rewrite vset_lt by now rewrite repeat_length. cbn [bind]. apply v6_loop_base.
  assert (DU : forall x, dst inf (upd (repeat inf (length g)) s 0) x = if x =? s then 0 else inf).
  { intros x. unfold dst. destruct (Nat.eqb_spec x s) as [->|N]; [apply nth_upd_eq; now rewrite repeat_length|rewrite nth_upd_neq by auto; apply nth_repeat]. }
  assert (LS : forall x, lbl (upd (repeat inf (length g)) s 0) x -> x = s).
  { intros x H. unfold lbl in H. rewrite DU in H. destruct (Nat.eqb_spec x s); auto. lia. }
  assert (SS : lbl (upd (repeat inf (length g)) s 0) s) by (unfold lbl; rewrite DU, Nat.eqb_refl; auto).
  split; cbn [fst snd].
  - now rewrite upd_length, repeat_length.
  - rewrite DU, Nat.eqb_refl. auto.
  - intros x. rewrite DU. destruct (x =? s); lia.
  - intros x H. rewrite (LS _ H), DU, Nat.eqb_refl. constructor.
  - intros x H. rewrite (LS _ H), DU, Nat.eqb_refl. exists 0, []. split; [constructor|split; auto; intros y []].
  - intros [|b] x I; [destruct I as [<-|[]]; auto|]. destruct b; destruct I.
Qed.
End V6.
