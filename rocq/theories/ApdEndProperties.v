(** C90: the loops stay in bounds with any weights, so with a negative cycle they run for ever. *)
From Coq Require Import List Arith ZArith Lia Bool Permutation.
From Verif Require Import EdgeListModel EdgeListProofs CsrModel CsrProofs CsrProofs2 CsrProofs4 CbProofs ApbProofs ApdModel ApdProofs ApdProperties Base.
Import ListNotations.
Set Implicit Arguments.

(** Not undefined behaviour, and a list of length [n] if it ends. *)
Definition safe {A} (n : nat) (r : res (list A)) : Prop := r <> Ub /\ forall d, r = Ok d -> length d = n.
Lemma in_firstn A (x : A) l : forall k, In x (firstn k l) -> In x l.
Proof. intros k I. rewrite <- (firstn_skipn k l). apply in_app_iff. now left. Qed.
Lemma in_skipn A (x : A) l : forall k, In x (skipn k l) -> In x l.
Proof. intros k I. rewrite <- (firstn_skipn k l). apply in_app_iff. now right. Qed.
Section Safe.
Variables D V : Type.
Variable ltb : D -> D -> bool.
Variable add : D -> V -> D.
Variables zero top : D.
Variable best : list (nat * D) -> nat.
Variable g : csr V.
Variable rows : list (list (nat * V)).
Hypothesis HR : forall u, u < length rows -> csr_row g u = Ok (nth u rows []).
Hypothesis HT : forall u e, In e (nth u rows []) -> fst e < length rows.
Hypothesis HB : forall Q, Q <> [] -> best Q < length Q.
Let inb (Q : list (nat * D)) : Prop := forall x, In x Q -> fst x < length rows.
Lemma safe_relax wt u : u < length rows -> forall todo dist Q, (forall e, In e todo -> fst e < length rows) -> length dist = length rows -> inb Q ->
  exists dist' Q', rfold (apd_relax ltb add wt u) todo (dist, Q) = Ok (dist', Q') /\ length dist' = length rows /\ inb Q'.
Proof.
  intros Hu. induction todo as [|e todo IH]; intros dist Q HE HL HQ; cbn [rfold]; [exists dist, Q; auto|].
  assert (He : fst e < length rows) by (apply HE; now left). unfold apd_relax at 1. cbn [fst snd]. destruct dist as [|d0 dr] eqn:ED; [cbn in HL; lia|]. rewrite <- ED in *.
  rewrite (@vget_nth _ dist u d0), (@vget_nth _ dist (fst e) d0) by lia. cbn [bind]. destruct (ltb _ _).
  - rewrite vset_lt by lia. cbn [bind]. apply IH; [intros; apply HE; now right|now rewrite upd_length|]. intros x [<-|I]; auto.
  - cbn [bind]. apply IH; auto. intros; apply HE; now right.
Qed.
Lemma safe_loop wt : forall fuel dist Q, length dist = length rows -> inb Q -> safe (length rows) (apd_loop ltb add best wt g fuel (dist, Q)).
Proof.
  induction fuel as [|f IH]; intros dist Q HL HQ.
  - destruct Q; cbn; split; try discriminate; intros d [= <-]; auto.
  - destruct Q as [|q0 Q0]; [cbn; split; [discriminate|intros d [= <-]; auto]|]. cbn [apd_loop]. change (snd (dist, q0 :: Q0)) with (q0 :: Q0). cbn iota. set (Q := q0 :: Q0) in *.
    assert (B : best Q < length Q) by (apply HB; discriminate). unfold apd_pop. rewrite (@vget_nth _ Q (best Q) q0) by auto. cbn [bind fst snd].
    assert (I : In (nth (best Q) Q q0) Q) by (now apply nth_In). rewrite HR by now apply HQ. cbn [bind].
    destruct (@safe_relax wt (fst (nth (best Q) Q q0)) (HQ _ I) (nth (fst (nth (best Q) Q q0)) rows []) dist (firstn (best Q) Q ++ skipn (S (best Q)) Q)) as (d' & Q' & E & L' & I'); auto.
    + intros e J. now apply HT with (fst (nth (best Q) Q q0)).
    + intros x J. apply HQ. apply in_app_iff in J. destruct J as [J|J]; [now apply in_firstn in J|now apply in_skipn in J].
    + rewrite E. cbn [bind]. now apply IH.
Qed.
Lemma safe_trials wt fuel source : source < length rows -> forall k dist, length dist = length rows -> safe (length rows) (apd_trials ltb add zero top best wt g fuel source k dist).
Proof.
  intros So k. unfold apd_trials. generalize (seq 0 k). intros l. induction l as [|a l IH]; intros dist L; cbn [rfold]; [split; [discriminate|intros d [= <-]; auto]|].
  assert (T : safe (length rows) (apd_trial ltb add zero top best wt g fuel source dist)).
  { unfold apd_trial. rewrite vset_lt by (rewrite repeat_length; lia). cbn [bind]. apply safe_loop; [now rewrite upd_length, repeat_length|]. intros x [<-|[]]. exact So. }
  destruct T as [T1 T2]. destruct (apd_trial ltb add zero top best wt g fuel source dist) as [d| |]; cbn [bind]; [apply IH; auto|congruence|split; discriminate].
Qed.
Lemma safe_run fn W fuel source k : length rows = csr_size g -> csr_size g < W -> source < length rows -> apd_run ltb add zero top best fn W g fuel source k <> Ub.
Proof.
  intros L HW So. unfold apd_run. rewrite Nat.mod_small by auto. 
  assert (R : forall wts d out, length d = length rows -> rfold (fun (st : list D * list (list D)) wt => do d <- apd_trials ltb add zero top best wt g fuel source k (fst st) ; Ok (d, snd st ++ [d])) wts (d, out) <> Ub).
  { induction wts as [|wt wts IH]; intros d out Ld; cbn [rfold]; [discriminate|]. cbn [fst snd]. destruct (@safe_trials wt fuel source So k d Ld) as [S1 S2].
    destruct (apd_trials ltb add zero top best wt g fuel source k d) as [d'| |]; cbn [bind]; [apply IH; auto|congruence|discriminate]. }
  specialize (R [snd; fn; snd; snd; fn; snd] (repeat top (csr_size g)) [] ltac:(rewrite repeat_length; auto)). intros E. apply R. clear R. revert E.
  match goal with |- bind ?x _ = Ub -> _ => destruct x as [r| |] end; cbn [bind]; [discriminate|reflexivity|discriminate].
Qed.
End Safe.

(** Any weights, any number type, any queue that hands out one of its elements: nothing is read or written out of bounds, however long
    it runs. *)
Theorem C90_in_bounds D V (ltb : D -> D -> bool) (add : D -> V -> D) zero top best W srt srt1 n (es : list (edge V)) g fuel source ntrial :
  is_sort_by fst srt -> n < W -> ids_ok W es -> length es < W -> apd_graph_of W srt srt1 n es g -> (forall Q, Q <> [] -> best Q < length Q) -> source < csr_size g ->
  apd_run ltb add zero top best snd W g fuel source ntrial <> Ub.
Proof.
  intros Hs Hn He HW Eg HB So. destruct (@apd_rows V W srt srt1 n es g Hs Hn He HW Eg) as (rows & L & SW & R & _ & T & _). rewrite <- L in So. apply safe_run with rows; auto.
Qed.
(** With a negative sum back to the start it runs for ever: no number of steps is enough. *)
Theorem C90_runs_forever best W srt srt1 n (es : list (edge Z)) g fuel source ntrial top d :
  is_sort_by fst srt -> n < W -> ids_ok W es -> length es < W -> apd_graph_of W srt srt1 n es g -> source < csr_size g -> 0 < ntrial ->
  below es source top source d -> (d < 0 < top)%Z -> (forall Q, Q <> [] -> best Q < length Q) ->
  apd_run Z.ltb Z.add 0%Z top best snd W g fuel source ntrial = OutOfFuel.
Proof.
  intros Hs Hn He HW Eg So Nt Wd Hd HB.
  assert (U := @C90_in_bounds Z Z Z.ltb Z.add 0%Z top best W srt srt1 n es g fuel source ntrial Hs Hn He HW Eg HB So).
  destruct (apd_run Z.ltb Z.add 0%Z top best snd W g fuel source ntrial) as [ds| |] eqn:E; [|congruence|reflexivity].
  now destruct (@C90_negative_cycle best W srt srt1 n es g fuel source ntrial top d ds Hs Hn He HW Eg So Nt Wd Hd).
Qed.

(** ** Example: the cycle of ex_negative; from every element the queue may choose. *)
Definition last_one (Q : list (nat * Z)) : nat := length Q - 1.
Example ex_forever fuel : (do g <- ex_g ex_neg ; apd_run Z.ltb Z.add 0%Z 1000%Z last_one snd 100 g fuel 0 2) = OutOfFuel.
Proof.
  assert (X : exists g, ex_g ex_neg = Ok g /\ csr_size g = 2) by (eexists; split; vm_compute; reflexivity). destruct X as (g & E & L). rewrite E. cbn [bind].
  apply C90_runs_forever with (isort_by fst) (isort_by (fun x => x)) 0 ex_neg (0 + 3 + -4)%Z; try lia; try exact E.
  - apply isort_by_is_sort.
  - intros e [<-|[<-|[]]]; cbn; lia.
  - cbn. lia.
  - apply ex_negative.
  - intros Q N. unfold last_one. destruct Q; [congruence|]. cbn [length]. lia.
Qed.
Print Assumptions C90_in_bounds.
Print Assumptions C90_runs_forever.
