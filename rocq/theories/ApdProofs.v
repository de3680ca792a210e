(** Proofs about the Dijkstra benchmark. *)
From Coq Require Import List Arith Lia Bool Permutation.
From Verif Require Import CsrModel ApdModel Base.
Import ListNotations.
Set Implicit Arguments.

Section Spec.
Variables D V : Type.
Variable add : D -> V -> D.
Variable zero : D.
(** [wsum arc s v d]: some walk from s to v has the sum d, added up from the start. *)
Inductive wsum (arc : nat -> nat -> V -> Prop) (s : nat) : nat -> D -> Prop :=
| ws_0 : wsum arc s s zero
| ws_S : forall u v d w, wsum arc s u d -> arc u v w -> wsum arc s v (add d w).
End Spec.

Section Dij.
Variables D V : Type.
Variable ltb : D -> D -> bool.
Variable add : D -> V -> D.
Variables zero top : D.
Variable best : list (nat * D) -> nat.
Variable wt : nat * V -> V.
Variable g : csr V.
Variable rows : list (list (nat * V)).
Variable s : nat.
Notation le a b := (ltb b a = false).
Notation lt a b := (ltb a b = true).
Hypothesis LR : forall a, le a a.
Hypothesis LT : forall a b c, le a b -> le b c -> le a c.
Hypothesis LA : forall a b, lt a b -> le a b.
Hypothesis MO : forall a b w, le a b -> le (add a w) (add b w).
Hypothesis ZT : lt zero top.
Hypothesis BE : forall Q, Q <> [] -> best Q < length Q /\ forall x y, nth_error Q (best Q) = Some x -> In y Q -> le (snd x) (snd y).
Hypothesis RO : forall u, u < length rows -> csr_row g u = Ok (nth u rows []).
Hypothesis TG : forall u e, In e (nth u rows []) -> fst e < length rows.
Hypothesis HS : s < length rows.
Definition arc (u v : nat) (w : V) : Prop := exists e, In e (nth u rows []) /\ fst e = v /\ wt e = w.
Hypothesis IN : forall u v w, arc u v w -> forall a, le a (add a w).
Notation ws := (wsum add zero arc s).
Notation N := (length rows).
Definition dv (dist : list D) v := nth v dist top.

Lemma lt_le a b c : lt a b -> le b c -> lt a c.
Proof. intros H1 H2. destruct (ltb a c) eqn:E; auto. rewrite (LT H2 E) in H1. discriminate. Qed.
Lemma le_lt a b c : le a b -> lt b c -> lt a c.
Proof. intros H1 H2. destruct (ltb a c) eqn:E; auto. rewrite (LT E H1) in H2. discriminate. Qed.
Lemma dv_upd dist i x v : i < length dist -> dv (upd dist i x) v = if v =? i then x else dv dist v.
Proof. intros L. unfold dv. destruct (Nat.eqb_spec v i) as [->|H]; [now rewrite nth_upd_eq|rewrite nth_upd_neq; auto]. Qed.

(** The scan of one row. *)
Record scan (u : nat) (d0 : list D) (Q0 : list (nat * D)) (done : list (nat * V)) (st : list D * list (nat * D)) : Prop := {
  sc_len : length (fst st) = N;
  sc_le : forall v, le (dv (fst st) v) (dv d0 v);
  sc_u : dv (fst st) u = dv d0 u;
  sc_alt : forall v, dv (fst st) v = dv d0 v \/ (v < N /\ lt (dv (fst st) v) (dv d0 v) /\ In (v, dv (fst st) v) (snd st) /\ exists w, arc u v w /\ dv (fst st) v = add (dv d0 u) w);
  sc_old : forall x, In x Q0 -> In x (snd st);
  sc_new : forall y k, In (y, k) (snd st) -> In (y, k) Q0 \/ (y < N /\ le (dv (fst st) y) k /\ le (dv d0 u) k /\ lt k (dv d0 y));
  sc_cnt : length (snd st) <= length Q0 + length done;
  sc_rel : forall e, In e done -> le (dv (fst st) (fst e)) (add (dv d0 u) (wt e)) }.

Lemma scan_row u d0 Q0 : u < N -> length d0 = N -> exists st, rfold (apd_relax ltb add wt u) (nth u rows []) (d0, Q0) = Ok st /\ scan u d0 Q0 (nth u rows []) st.
Proof.
  intros Hu L0. apply rfold_ind with (P := scan u d0 Q0).
  - constructor; cbn [fst snd length]; auto; try lia; intros e [].
  - intros done e [dist Q] [S1 S2 S3 S4 S5 S6 S7 S8] (rest & ER). cbn [fst snd] in *.
    assert (Ie : In e (nth u rows [])) by (rewrite ER; apply in_or_app; right; now left).
    assert (He : fst e < N) by (eapply TG; eauto). assert (Ar : arc u (fst e) (wt e)) by (exists e; auto).
    unfold apd_relax. cbn [fst snd]. rewrite (@vget_nth _ dist u top), (@vget_nth _ dist (fst e) top) by lia. cbn [bind].
    fold (dv dist u) (dv dist (fst e)). rewrite S3. set (nd := add (dv d0 u) (wt e)).
    assert (Hnd : le (dv d0 u) nd) by (apply (IN Ar)).
    destruct (ltb nd (dv dist (fst e))) eqn:C.
    + rewrite vset_lt by lia. cbn [bind]. eexists. split; [reflexivity|].
      assert (NE : fst e <> u) by (intros E; rewrite E, S3 in C; rewrite Hnd in C; discriminate).
      assert (U : forall v, dv (upd dist (fst e) nd) v = if v =? fst e then nd else dv dist v) by (intros v; apply dv_upd; lia).
      assert (DE : forall v, le (dv (upd dist (fst e) nd) v) (dv dist v)).
      { intros v. rewrite U. destruct (Nat.eqb_spec v (fst e)) as [->|]; auto. }
      constructor; cbn [fst snd].
      * now rewrite upd_length.
      * intros v. eapply LT; [apply DE|apply S2].
      * rewrite U. destruct (Nat.eqb_spec u (fst e)); [congruence|auto].
      * intros v. rewrite U. destruct (Nat.eqb_spec v (fst e)) as [->|Nv].
        -- right. split; auto. split; [eapply lt_le; eauto|]. split; [now left|]. exists (wt e). auto.
        -- destruct (S4 v) as [E|(A & B & E & F)]; [now left|right]. repeat split; auto. now right.
      * intros x I. right. auto.
      * intros y k [I|I].
        -- injection I as <- <-. right. split; auto. split; [rewrite U, Nat.eqb_refl; apply LR|]. split; auto. eapply lt_le; eauto.
        -- destruct (S6 y k I) as [I0|(A & B & E & F)]; [now left|right]. repeat split; auto. eapply LT; [apply DE|auto].
      * rewrite app_length. cbn [length]. lia.
      * intros e' I. apply in_app_or in I. destruct I as [I|[<-|[]]]; [eapply LT; [apply DE|auto]|]. rewrite U, Nat.eqb_refl. apply LR.
    + eexists. split; [reflexivity|]. constructor; cbn [fst snd]; auto.
      * rewrite app_length. cbn [length]. lia.
      * intros e' I. apply in_app_or in I. destruct I as [I|[<-|[]]]; auto.
Qed.
Lemma scan_idle u d0 Q0 : u < N -> length d0 = N -> (forall y w, arc u y w -> le (dv d0 y) (add (dv d0 u) w)) ->
  rfold (apd_relax ltb add wt u) (nth u rows []) (d0, Q0) = Ok (d0, Q0).
Proof.
  intros Hu L0 R. assert (H : forall e, In e (nth u rows []) -> fst e < N /\ le (dv d0 (fst e)) (add (dv d0 u) (wt e))) by (intros e I; split; [eapply TG; eauto|apply R; exists e; auto]).
  induction (nth u rows []) as [|e r IH]; auto. cbn [rfold]. destruct (H e (or_introl eq_refl)) as [He Re].
  unfold apd_relax at 1. cbn [fst snd]. rewrite (@vget_nth _ d0 u top), (@vget_nth _ d0 (fst e) top) by lia. cbn [bind]. fold (dv d0 u) (dv d0 (fst e)). rewrite Re.
  apply IH. intros e' I. apply H. now right.
Qed.

Lemma pop_ok Q : Q <> [] -> exists u k Q', apd_pop best Q = Ok ((u, k), Q') /\ Permutation Q ((u, k) :: Q') /\ forall y k', In (y, k') Q -> le k k'.
Proof.
  intros NE. destruct (BE NE) as [B M]. destruct (nth_error Q (best Q)) as [[u k]|] eqn:E; [|apply nth_error_None in E; lia].
  exists u, k, (firstn (best Q) Q ++ skipn (S (best Q)) Q). split; [|split].
  - unfold apd_pop, vget. now rewrite E.
  - rewrite <- (firstn_skipn (best Q) Q) at 1. rewrite Permutation_middle. apply Permutation_app_head.
    assert (H : forall (l : list (nat * D)) i x, nth_error l i = Some x -> skipn i l = x :: skipn (S i) l).
    { induction l as [|a l IH]; intros [|i] x Hx; try discriminate; cbn in *; [now injection Hx as ->|auto]. }
    now rewrite (H _ _ _ E).
  - intros y k' I. exact (M (u, k) (y, k') eq_refl I).
Qed.

(** Vertices outside [S] labelled wait in the queue; those in [S] are finished. *)
Record minv (S : nat -> bool) (dist : list D) (Q : list (nat * D)) : Prop := {
  mi_len : length dist = N;
  mi_lab : forall v, dv dist v = top \/ (lt (dv dist v) top /\ ws v (dv dist v));
  mi_src : le (dv dist s) zero;
  mi_rel : forall x, S x = true -> forall y w, arc x y w -> le (dv dist y) (add (dv dist x) w);
  mi_key : forall x, S x = true -> forall y k, In (y, k) Q -> le (dv dist x) k;
  mi_wait : forall x, S x = false -> lt (dv dist x) top -> In (x, dv dist x) Q;
  mi_q : forall y k, In (y, k) Q -> y < N /\ le (dv dist y) k /\ lt k top }.
Definition left_over (S : nat -> bool) : nat := sum (map (fun x => if S x then 0 else length (nth x rows [])) (seq 0 N)).

Lemma le_top dist S Q v : minv S dist Q -> le (dv dist v) top.
Proof. intros M. destruct (mi_lab M v) as [E|[E _]]; [rewrite E; apply LR|auto]. Qed.

Lemma left_add S u : u < N -> S u = false -> left_over S = left_over (fun x => (x =? u) || S x) + length (nth u rows []).
Proof.
  intros Hu Su. unfold left_over. assert (H : forall l, NoDup l -> sum (map (fun x => if S x then 0 else length (nth x rows [])) l) =
    sum (map (fun x => if (x =? u) || S x then 0 else length (nth x rows [])) l) + (if existsb (Nat.eqb u) l then length (nth u rows []) else 0)).
  { induction l as [|a l IH]; intros ND; auto. inversion_clear ND as [|? ? NI ND']. cbn [map sum existsb]. rewrite (IH ND'). rewrite (Nat.eqb_sym u a). destruct (Nat.eqb_spec a u) as [->|Na]; cbn [orb].
    - rewrite Su. destruct (existsb (Nat.eqb u) l) eqn:X; [|lia]. apply existsb_exists in X as (b & Hb & Eb). apply Nat.eqb_eq in Eb. subst b. contradiction.
    - lia. }
  rewrite H by apply seq_NoDup. replace (existsb (Nat.eqb u) (seq 0 N)) with true; auto. symmetry. apply existsb_exists. exists u. split; [apply in_seq; lia|apply Nat.eqb_refl].
Qed.

Lemma final_ok S dist : minv S dist [] -> length dist = N /\ forall v, (dv dist v = top \/ (lt (dv dist v) top /\ ws v (dv dist v))) /\ forall d, ws v d -> le (dv dist v) d.
Proof.
  intros M. split; [apply (mi_len M)|]. intros v. split; [apply (mi_lab M)|]. intros d W. induction W as [|u v d w W IH A].
  - apply (mi_src M).
  - destruct (mi_lab M u) as [E|[E _]].
    + apply LT with top; [eapply le_top; eauto|]. rewrite E in IH. eapply LT; [exact IH|apply (IN A)].
    + destruct (S u) eqn:Su; [|destruct (mi_wait M _ Su E)]. eapply LT; [apply (mi_rel M Su A)|]. now apply MO.
Qed.

Lemma loop_ok : forall fuel S dist Q, minv S dist Q -> length Q + left_over S <= fuel ->
  exists S' dist', apd_loop ltb add best wt g fuel (dist, Q) = Ok dist' /\ minv S' dist' [].
Proof.
  induction fuel as [|fuel IH]; intros S dist Q M F.
  - destruct Q; [|cbn in F; lia]. exists S, dist. auto.
  - destruct Q as [|q0 Q0]; [exists S, dist; auto|]. set (Q := q0 :: Q0) in *.
    destruct (@pop_ok Q) as (u & k & Q' & Ep & Pm & Mk); [discriminate|].
    assert (Iu : In (u, k) Q) by (apply (Permutation_in _ (Permutation_sym Pm)); now left).
    destruct (mi_q M _ _ Iu) as (Hu & Hk & Kt). assert (LQ : length Q = Datatypes.S (length Q')) by (now rewrite (Permutation_length Pm)).
    assert (SUB : forall x, In x Q' -> In x Q) by (intros x I; apply (Permutation_in _ (Permutation_sym Pm)); now right).
    assert (STEP : forall st', rfold (apd_relax ltb add wt u) (nth u rows []) (dist, Q') = Ok st' ->
      apd_loop ltb add best wt g (Datatypes.S fuel) (dist, Q) = apd_loop ltb add best wt g fuel st').
    { intros st' E. cbn [apd_loop]. change (snd (dist, Q)) with (q0 :: Q0). cbn iota. fold Q. rewrite Ep. cbn [bind fst snd]. rewrite (RO Hu). cbn [bind]. rewrite E. reflexivity. }
    destruct (S u) eqn:Su.
    + rewrite (STEP _ (@scan_idle u dist Q' Hu (mi_len M) (mi_rel M Su))). apply IH with (S := S); [|lia].
      destruct M as [M1 M2 M3 M4 M5 M6 M7]. constructor; auto.
      * intros x Sx y k' I. eapply M5; eauto.
      * intros x Sx Lx. specialize (M6 x Sx Lx). apply (Permutation_in _ Pm) in M6. destruct M6 as [E|]; auto. injection E as E _. congruence.
    + destruct (@scan_row u dist Q' Hu (mi_len M)) as ([dist' Q2] & E & SC). rewrite (STEP _ E).
      assert (Lu : lt (dv dist u) top) by (eapply le_lt; eauto).
      assert (Ku : le k (dv dist u)) by (apply (Mk u); apply (mi_wait M _ Su Lu)).
      destruct SC as [S1 S2 S3 S4 S5 S6 S7 S8]. cbn [fst snd] in *.
      apply IH with (S := fun x => (x =? u) || S x); [|rewrite (left_add S Hu Su) in F; lia].
      assert (OLD : forall x, S x = true -> dv dist' x = dv dist x).
      { intros x Sx. destruct (S4 x) as [Ex|(_ & Lx & _ & w & A & Ex)]; auto. exfalso.
        assert (Kx := mi_key M _ Sx _ _ Iu). rewrite Ex in Lx. assert (le (dv dist x) (add (dv dist u) w)) as Q3; [|rewrite Q3 in Lx; discriminate].
        eapply LT; [exact Kx|]. eapply LT; [exact Ku|]. apply (IN A). }
      constructor; auto.
      * intros v. destruct (S4 v) as [Ev|(Hv & Lv & _ & w & A & Ev)]; [rewrite Ev; apply (mi_lab M)|]. right. split; [eapply lt_le; [exact Lv|eapply le_top; eauto]|].
        rewrite Ev. destruct (mi_lab M u) as [X|[_ X]]; [rewrite X, LR in Lu; discriminate|]. econstructor; eauto.
      * eapply LT; [apply S2|apply (mi_src M)].
      * intros x Sx y w A. apply orb_true_iff in Sx. destruct (Nat.eq_dec x u) as [Eq|Nx]; [subst x|apply Nat.eqb_neq in Nx; rewrite Nx in Sx].
        -- rewrite S3. destruct A as (e & Ie & <- & <-). now apply S8.
        -- destruct Sx as [Sx|Sx]; [discriminate|]. rewrite (OLD x Sx). eapply LT; [apply S2|]. now apply (mi_rel M Sx).
      * intros x Sx y k' I. apply orb_true_iff in Sx. destruct (Nat.eq_dec x u) as [Eq|Nx]; [subst x|apply Nat.eqb_neq in Nx; rewrite Nx in Sx].
        -- rewrite S3. destruct (S6 y k' I) as [I0|(_ & _ & G & _)]; auto. eapply LT; [exact Hk|]. apply (Mk y). auto.
        -- destruct Sx as [Sx|Sx]; [discriminate|]. rewrite (OLD x Sx). destruct (S6 y k' I) as [I0|(_ & _ & G & _)]; [eapply (mi_key M _ Sx); eauto|].
           eapply LT; [exact (mi_key M _ Sx _ _ Iu)|]. eapply LT; eauto.
      * intros x Sx Lx. apply orb_false_iff in Sx. destruct Sx as [Nx Sx]. apply Nat.eqb_neq in Nx.
        destruct (S4 x) as [Ex|(_ & _ & I & _)]; auto. rewrite Ex in *. apply S5. assert (I := mi_wait M _ Sx Lx). apply (Permutation_in _ Pm) in I. destruct I as [Eq|]; auto. injection Eq as Eq _. congruence.
      * intros y k' I. destruct (S6 y k' I) as [I0|(Hy & G1 & G2 & G3)].
        -- destruct (mi_q M _ _ (SUB _ I0)) as (A1 & A2 & A3). repeat split; auto. eapply LT; [apply S2|auto].
        -- repeat split; auto. eapply lt_le; [exact G3|]. eapply le_top; eauto.
Qed.

Lemma left_init : left_over (fun _ => false) = sum (map (@length _) rows).
Proof. unfold left_over. rewrite <- (map_map (fun x => nth x rows []) (@length _)). f_equal. f_equal. apply nth_ext with (d := []) (d' := []); [now rewrite map_length, seq_length|]. intros i Hi. rewrite map_length, seq_length in Hi. now rewrite nth_map_seq. Qed.
Lemma trial_ok fuel d0 : length d0 = N -> 1 + sum (map (@length _) rows) <= fuel ->
  exists dist, apd_trial ltb add zero top best wt g fuel s d0 = Ok dist /\ length dist = N /\
    forall v, (dv dist v = top \/ (lt (dv dist v) top /\ ws v (dv dist v))) /\ forall d, ws v d -> le (dv dist v) d.
Proof.
  intros L F. unfold apd_trial. rewrite vset_lt by (rewrite repeat_length; lia). cbn [bind].
  assert (U : forall v, dv (upd (repeat top (length d0)) s zero) v = if v =? s then zero else top).
  { intros v. rewrite dv_upd by (rewrite repeat_length; lia). destruct (v =? s); auto. apply nth_repeat. }
  destruct (@loop_ok fuel (fun _ => false) (upd (repeat top (length d0)) s zero) [(s, zero)]) as (S' & dist & E & M).
  - constructor; try discriminate.
    + rewrite upd_length, repeat_length. auto.
    + intros v. rewrite U. destruct (Nat.eqb_spec v s) as [->|]; [right; split; auto; constructor|now left].
    + rewrite U, Nat.eqb_refl. apply LR.
    + intros x _. rewrite U. destruct (Nat.eqb_spec x s) as [->|]; [intros _; now left|]. intros H. rewrite LR in H. discriminate.
    + intros y k [I|[]]. injection I as <- <-. repeat split; auto. rewrite U, Nat.eqb_refl. apply LR.
  - rewrite left_init. cbn [length]. lia.
  - exists dist. split; auto. now apply final_ok in M.
Qed.
End Dij.

(** ** Any weights: what an end of the loop means *)
Section Any.
Variables D V : Type.
Variable ltb : D -> D -> bool.
Variable add : D -> V -> D.
Variables zero top : D.
Variable best : list (nat * D) -> nat.
Variable wt : nat * V -> V.
Variable g : csr V.
Variable rows : list (list (nat * V)).
Variable s : nat.
Notation le a b := (ltb b a = false).
Notation lt a b := (ltb a b = true).
Hypothesis LR : forall a, le a a.
Hypothesis LT : forall a b c, le a b -> le b c -> le a c.
Hypothesis LA : forall a b, lt a b -> le a b.
Hypothesis RO : forall u row, csr_row g u = Ok row -> u < length rows /\ row = nth u rows [].
Notation N := (length rows).
Notation dw := (dv top).
Definition pinv (dist : list D) (Q : list (nat * D)) (u : nat) (todo : list (nat * V)) : Prop :=
  length dist = N /\ le (dw dist s) zero /\
  forall x, lt (dw dist x) top -> In x (map fst Q) \/ forall e, In e (nth x rows []) -> (x = u /\ In e todo) \/ le (dw dist (fst e)) (add (dw dist x) (wt e)).
Lemma p_scan u : forall todo dist Q st, rfold (apd_relax ltb add wt u) todo (dist, Q) = Ok st -> pinv dist Q u todo -> pinv (fst st) (snd st) u [].
Proof.
  induction todo as [|e todo IH]; intros dist Q st E P; cbn [rfold] in E; [injection E as <-; exact P|].
  apply bind_Ok in E. destruct E as ([d1 Q1] & E1 & E2). apply (IH d1 Q1 st E2). clear IH E2 st. destruct P as (L & P0 & P).
  unfold apd_relax in E1. cbn [fst snd] in E1. apply bind_Ok in E1. destruct E1 as (du & Eu & E1). apply bind_Ok in E1. destruct E1 as (dv0 & Ev & E1).
  apply vget_Ok in Eu. apply vget_Ok in Ev. assert (Du : dw dist u = du) by (now apply nth_error_nth). assert (Dv : dw dist (fst e) = dv0) by (now apply nth_error_nth).
  assert (He : fst e < length dist) by (apply nth_error_Some; congruence).
  destruct (ltb (add du (wt e)) dv0) eqn:C.
  - rewrite vset_lt in E1 by auto. cbn [bind] in E1. injection E1 as <- <-.
    assert (U : forall v, dw (upd dist (fst e) (add du (wt e))) v = if v =? fst e then add du (wt e) else dw dist v) by (intros v; now apply dv_upd).
    assert (DE : forall v, le (dw (upd dist (fst e) (add du (wt e))) v) (dw dist v)).
    { intros v. rewrite U. destruct (Nat.eqb_spec v (fst e)) as [->|]; auto. rewrite Dv. auto. }
    split; [now rewrite upd_length|]. split; [eapply LT; [apply DE|auto]|]. intros x Hx. destruct (Nat.eq_dec x (fst e)) as [->|Nx]; [left; now left|].
    assert (Ux : dw (upd dist (fst e) (add du (wt e))) x = dw dist x) by (rewrite U; apply Nat.eqb_neq in Nx; now rewrite Nx). rewrite Ux in Hx. rewrite Ux.
    destruct (P x Hx) as [I|R]; [left; now right|right]. intros e' I'. destruct (R e' I') as [[-> [Ee|I2]]|R'].
    + subst e'. right. rewrite U, Nat.eqb_refl, Du. apply LR.
    + now left.
    + right. eapply LT; [apply DE|auto].
  - injection E1 as <- <-. split; auto. split; auto. intros x Hx. destruct (P x Hx) as [I|R]; [now left|right]. intros e' I'. destruct (R e' I') as [[-> [Ee|I2]]|R']; auto.
    subst e'. right. now rewrite Du, Dv.
Qed.
Lemma p_loop : forall fuel dist Q u dist', apd_loop ltb add best wt g fuel (dist, Q) = Ok dist' -> pinv dist Q u [] -> pinv dist' [] u [].
Proof.
  induction fuel as [|fuel IH]; intros dist Q u dist' E P.
  - destruct Q; [|discriminate]. now injection E as <-.
  - destruct Q as [|q0 Q0]; [now injection E as <-|]. set (Q := q0 :: Q0) in *. cbn [apd_loop] in E. change (snd (dist, Q)) with (q0 :: Q0) in E. cbn iota in E. fold Q in E.
    apply bind_Ok in E. destruct E as ([[x k] Q'] & Ep & E). apply bind_Ok in E. destruct E as (row & Er & E). apply bind_Ok in E. destruct E as ([d2 Q2] & Es & E). cbn [fst snd] in *.
    destruct (RO _ Er) as [Hx ->]. unfold apd_pop in Ep. apply bind_Ok in Ep. destruct Ep as (q & Eq & Ep). injection Ep as Eqq <-. subst q. apply vget_Ok in Eq.
    assert (P2 : pinv d2 Q2 x []).
    { apply (p_scan Es). destruct P as (L & P0 & P). split; auto. split; auto. intros y Hy. destruct (P y Hy) as [I|R].
      - apply in_map_iff in I. destruct I as ((y' & k') & Ey & I). cbn in Ey. subst y'. apply In_nth_error in I. destruct I as (i & Ei).
        destruct (Nat.eq_dec i (best Q)) as [->|Ni]; [rewrite Eq in Ei; injection Ei as -> ->; right; intros; now left|]. left.
        apply in_map_iff. exists (y, k'). split; auto. apply in_or_app. destruct (Nat.lt_ge_cases i (best Q)) as [Hi|Hi].
        + left. rewrite <- (firstn_skipn (best Q) Q) in Ei. rewrite nth_error_app1 in Ei; [eapply nth_error_In; eauto|]. rewrite firstn_length. apply Nat.min_glb_lt; auto.
          assert (best Q < length Q) by (apply nth_error_Some; congruence). lia.
        + right. rewrite <- (firstn_skipn (S (best Q)) Q) in Ei. assert (best Q < length Q) by (apply nth_error_Some; congruence).
          rewrite nth_error_app2 in Ei; [eapply nth_error_In; eauto|]. rewrite firstn_length. lia.
      - right. intros e I. destruct (R e I) as [[_ []]|]; auto. }
    assert (P3 : pinv d2 Q2 u []).
    { destruct P2 as (A & B & C). split; auto. split; auto. intros y Hy. destruct (C y Hy) as [I|R]; auto. right. intros e I. destruct (R e I) as [[_ []]|]; auto. }
    eapply IH; eauto.
Qed.
Lemma p_trial fuel d0 dist : length d0 = N -> s < N -> lt zero top -> apd_trial ltb add zero top best wt g fuel s d0 = Ok dist ->
  length dist = N /\ le (dw dist s) zero /\ forall x, lt (dw dist x) top -> forall e, In e (nth x rows []) -> le (dw dist (fst e)) (add (dw dist x) (wt e)).
Proof.
  intros L Hs Z E. unfold apd_trial in E. rewrite vset_lt in E by (rewrite repeat_length; lia). cbn [bind] in E.
  assert (U : forall v, dw (upd (repeat top (length d0)) s zero) v = if v =? s then zero else top).
  { intros v. rewrite dv_upd by (rewrite repeat_length; lia). destruct (v =? s); auto. apply nth_repeat. }
  apply (@p_loop _ _ _ 0) in E.
  - destruct E as (A & B & C). split; auto. split; auto. intros x Hx e I. destruct (C x Hx) as [[]|R]. destruct (R e I) as [[_ []]|]; auto.
  - split; [rewrite upd_length, repeat_length; auto|]. rewrite U, Nat.eqb_refl. split; auto. intros x. rewrite U. destruct (Nat.eqb_spec x s) as [->|]; [intros _; left; now left|]. rewrite LR. discriminate.
Qed.
End Any.
