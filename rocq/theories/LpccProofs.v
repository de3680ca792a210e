(** Lemmas for LpccModel: label propagation under every interleaving. *)
From Coq Require Import List Arith Lia Bool Permutation.
From Verif Require Import Base ConnLib GraphLib Pool CcModel CcProofs CcxModel LpccModel.
Import ListNotations.
Set Implicit Arguments.

Definition lb (l : list nat) (x : nat) : nat := nth x l 0.
Definition bt (l : list bool) (x : nat) : Prop := nth x l false = true.

Lemma sum_le_lt (l l' : list nat) : length l = length l' -> (forall x, x < length l -> lb l x <= lb l' x) ->
  sum l <= sum l' /\ ((exists x, x < length l /\ lb l x < lb l' x) -> sum l < sum l').
Proof.
  revert l'. induction l as [|a l IH]; intros [|b l'] L H; try discriminate; cbn [sum length] in *.
  - split; auto. intros (x & Hx & _). lia.
  - destruct (IH l') as [A B]; [congruence|intros x Hx; apply (H (S x)); lia|]. assert (H0 := H 0 ltac:(lia)). unfold lb in H0. cbn [nth] in H0. split; [lia|].
    intros ([|x] & Hx & Q); [unfold lb in Q; cbn [nth] in Q; lia|]. enough (sum l < sum l') by lia. apply B. exists x. split; [lia|exact Q].
Qed.
Lemma concat_upd (A : Type) (l : list (list A)) w b y : w < length l -> nth w l [] = b -> Permutation (concat (upd l w (b ++ [y]))) (y :: concat l).
Proof.
  revert w. induction l as [|a l IH]; intros w Hw E; cbn [length] in Hw; [lia|]. destruct w as [|w]; cbn [upd nth concat] in *.
  - subst b. rewrite <- app_assoc. cbn [app]. symmetry. apply Permutation_middle.
  - transitivity (a ++ y :: concat l); [apply Permutation_app_head, IH; auto; lia|]. symmetry. apply Permutation_middle.
Qed.

Section Round.
Variables (g : list (list nat)) (nb : nat).
Notation n := (length g).
Hypothesis HT : targets_ok g.
Variable l0 : list nat.
Hypothesis L0 : length l0 = n.
Hypothesis LE0 : forall x, x < n -> lb l0 x <= x.
Variable C : list nat.

Definition tw (t : lp) : nat := match t with LpX w _ _ | LpT w _ _ _ _ | LpRead w _ _ _ _ | LpCas w _ _ _ _ _ | LpGet w _ _ _ _ | LpSet w _ _ _ _ | LpPush w _ _ _ _ => w end.
Definition txs (t : lp) : list nat :=
  match t with LpX _ x xs => x :: xs | LpT _ _ _ _ xs | LpRead _ _ _ _ xs | LpCas _ _ _ _ _ xs | LpGet _ _ _ _ xs | LpSet _ _ _ _ xs | LpPush _ _ _ _ xs => xs end.
Definition tlx (t : lp) : option nat :=
  match t with LpX _ _ _ => None | LpT _ lx _ _ _ | LpRead _ lx _ _ _ | LpCas _ lx _ _ _ _ | LpGet _ lx _ _ _ | LpSet _ lx _ _ _ | LpPush _ lx _ _ _ => Some lx end.
Definition tpend (t : lp) : list nat :=
  match t with LpX _ _ _ => [] | LpT _ _ y ys _ | LpRead _ _ y ys _ | LpCas _ _ y _ ys _ => y :: ys | LpGet _ _ _ ys _ | LpSet _ _ _ ys _ | LpPush _ _ _ ys _ => ys end.
Definition tdirty (t : lp) : option nat := match t with LpGet _ _ y _ _ | LpSet _ _ y _ _ => Some y | _ => None end.
Definition tpush (t : lp) : option nat := match t with LpPush _ _ y _ _ => Some y | _ => None end.
Definition pushes (ts : list lp) : list nat := concat (map (fun t => opt_list (tpush t)) ts).
Definition covers (t : lp) (x v : nat) : Prop := In x (txs t) \/ exists lx, tlx t = Some lx /\ lx <= lb l0 x /\ In v (tpend t).
Definition tok (L : list nat) (B : list bool) (t : lp) : Prop :=
  tw t < nb /\ (forall x, In x (txs t) -> x < n) /\
  (forall lx, tlx t = Some lx -> exists x, reachable g lx x /\ forall v, In v (tpend t) -> edge g x v) /\
  (forall y, tdirty t = Some y -> y < n /\ lb L y < lb l0 y) /\
  (forall y, tpush t = Some y -> y < n /\ lb L y < lb l0 y /\ bt B y) /\
  match t with LpCas _ lx y prev _ _ => lx < prev /\ lb L y <= prev | _ => True end.
Record inv (ts : list lp) (s : lst) : Prop := {
  i_ll : length (fst (fst s)) = n;
  i_lb : length (snd (fst s)) = n;
  i_ln : length (snd s) = nb;
  i_le : forall x, x < n -> lb (fst (fst s)) x <= lb l0 x;
  i_snd : forall x, x < n -> reachable g (lb (fst (fst s)) x) x;
  i_ok : Forall (tok (fst (fst s)) (snd (fst s))) ts;
  i_chg : forall y, y < n -> lb (fst (fst s)) y < lb l0 y -> bt (snd (fst s)) y \/ exists t, In t ts /\ tdirty t = Some y;
  i_bit : forall y, y < n -> bt (snd (fst s)) y -> In y (concat (snd s)) \/ In y (pushes ts);
  i_bin : forall y, In y (concat (snd s)) -> y < n /\ bt (snd (fst s)) y /\ lb (fst (fst s)) y < lb l0 y;
  i_nd : NoDup (concat (snd s) ++ pushes ts);
  i_arcs : forall x v, In x C -> edge g x v -> lb (fst (fst s)) v <= lb l0 x \/ exists t, In t ts /\ covers t x v }.

(** Measure. *)
Definition rcost (ys xs : list nat) : nat := sum (map (fun y => 2 * y + 10) ys) + lp_cost g xs.
Definition mz (L : list nat) (t : lp) : nat :=
  match t with
  | LpX _ x xs => lp_cost g (x :: xs)
  | LpT _ _ y ys xs => 2 * y + 9 + rcost ys xs
  | LpRead _ _ y ys xs => 2 * lb L y + 7 + rcost ys xs
  | LpCas _ _ y prev ys xs => 2 * prev + 6 + rcost ys xs
  | LpGet _ _ _ ys xs => 5 + rcost ys xs
  | LpSet _ _ _ ys xs => 4 + rcost ys xs
  | LpPush _ _ _ ys xs => 3 + rcost ys xs
  end.
Definition M (ts : list lp) (s : lst) : nat := sum (map (mz (fst (fst s))) ts).
Lemma next_cost L w lx ys xs : match lp_next w lx ys xs with Some t => mz L t <= rcost ys xs | None => True end.
Proof. clear HT L0 LE0. destruct ys as [|y ys]; [destruct xs as [|x xs]|]; cbn [lp_next lp_start mz]; auto; unfold rcost; cbn [map sum]; lia. Qed.
Lemma next_pos w lx ys xs : lp_next w lx ys xs = None -> ys = [] /\ xs = [].
Proof. destruct ys; [destruct xs|]; cbn; try discriminate; auto. Qed.
Lemma M_replace l1 t l2 o L B N L' B' N' : (forall y, lb L' y <= lb L y) ->
  match o with Some t' => mz L' t' < mz L t | None => 0 < mz L t end ->
  M (l1 ++ opt_list o ++ l2) (L', B', N') < M (l1 ++ t :: l2) (L, B, N).
Proof.
  clear HT L0 LE0. intros HL HO. unfold M. cbn [fst]. rewrite !map_app, !sum_app. cbn [map sum].
  assert (G : forall l, sum (map (mz L') l) <= sum (map (mz L) l)).
  { induction l as [|t' l IH]; cbn [map sum]; auto. enough (mz L' t' <= mz L t') by lia. destruct t'; cbn [mz] in *; try lia. assert (Q := HL y). lia. }
  assert (G1 := G l1). assert (G2 := G l2). destruct o; cbn [opt_list map sum]; lia.
Qed.
Lemma M_next l1 t l2 L B N w lx ys xs B' N' : rcost ys xs < mz L t ->
  M (l1 ++ opt_list (lp_next w lx ys xs) ++ l2) (L, B', N') < M (l1 ++ t :: l2) (L, B, N).
Proof. clear HT L0 LE0. intros H. apply M_replace; auto. assert (X := next_cost L w lx ys xs). destruct (lp_next w lx ys xs); lia. Qed.

Lemma pushes_app a b : pushes (a ++ b) = pushes a ++ pushes b.
Proof. unfold pushes. now rewrite map_app, concat_app. Qed.
Lemma pushes_mid l1 t l2 : pushes (l1 ++ t :: l2) = pushes l1 ++ opt_list (tpush t) ++ pushes l2.
Proof. rewrite pushes_app. reflexivity. Qed.
Lemma pushes_opt l1 o l2 : pushes (l1 ++ opt_list o ++ l2) = pushes l1 ++ (match o with Some t => opt_list (tpush t) | None => [] end) ++ pushes l2.
Proof. rewrite !pushes_app. destruct o; cbn [opt_list]; auto. unfold pushes at 2. cbn [map concat]. now rewrite app_nil_r. Qed.
Lemma tok_mono L B L' B' t : (forall y, lb L' y <= lb L y) -> (forall y, bt B y -> bt B' y) -> tok L B t -> tok L' B' t.
Proof.
  intros HL HB (A1 & A2 & A3 & A4 & A5 & A6). split; auto. split; auto. split; auto. split; [|split].
  - intros y E. destruct (A4 y E). split; auto. specialize (HL y). lia.
  - intros y E. destruct (A5 y E) as (X & Y & Z). split; auto. split; auto. specialize (HL y). lia.
  - destruct t; auto. specialize (HL y). lia.
Qed.
(** A task that goes on to the next neighbour or vertex. *)
Lemma next_tok L B w lx ys xs x : w < nb -> (forall z, In z xs -> z < n) -> reachable g lx x -> (forall v, In v ys -> edge g x v) ->
  forall t', lp_next w lx ys xs = Some t' -> tok L B t' /\ tpush t' = None /\ tdirty t' = None.
Proof.
  intros Hw Hx HR HE t' E. destruct ys as [|y ys]; [destruct xs as [|z xs]|]; cbn [lp_next lp_start] in E; try discriminate; injection E as <-; (split; [|split; reflexivity]);
    (split; [exact Hw|split; [exact Hx|split; [|split; [|split; [|exact Logic.I]]]]]); cbn [tlx tdirty tpush tpend]; try discriminate.
  intros lx' E. injection E as <-. exists x. split; auto.
Qed.
Lemma next_covers w lx ys xs x v : (In x xs \/ (lx <= lb l0 x /\ In v ys)) -> exists t', lp_next w lx ys xs = Some t' /\ covers t' x v.
Proof.
  intros H. destruct ys as [|y ys]; [destruct xs as [|z xs]|]; cbn [lp_next lp_start].
  - destruct H as [[]|[_ []]].
  - exists (LpX w z xs). split; auto. left. destruct H as [H|[_ []]]. exact H.
  - exists (LpT w lx y ys xs). split; auto. destruct H as [H|[H1 H2]]; [left; exact H|right]. exists lx. auto.
Qed.

(** The shared state stays; t becomes o. *)
Lemma rebuild l1 t l2 s o : inv (l1 ++ t :: l2) s ->
  (forall t', o = Some t' -> tok (fst (fst s)) (snd (fst s)) t' /\ tpush t' = None) -> tpush t = None ->
  (forall y, tdirty t = Some y -> bt (snd (fst s)) y \/ exists t', o = Some t' /\ tdirty t' = Some y) ->
  (forall x v, In x C -> edge g x v -> covers t x v -> lb (fst (fst s)) v <= lb l0 x \/ exists t', o = Some t' /\ covers t' x v) ->
  inv (l1 ++ opt_list o ++ l2) s.
Proof.
  intros [A1 A2 A3 A4 A5 A6 A7 A8 A9 A10 A11] HO HP HD HC.
  assert (PE : pushes (l1 ++ opt_list o ++ l2) = pushes (l1 ++ t :: l2)).
  { rewrite pushes_opt, pushes_mid, HP. cbn [opt_list]. destruct o as [t'|]; auto. now rewrite (proj2 (HO t' eq_refl)). }
  constructor; auto; rewrite ?PE; auto.
  - apply Forall_app in A6. destruct A6 as [F1 F2]. inversion F2; subst. rewrite !Forall_app. repeat split; auto. destruct o as [t'|]; constructor; auto. now apply HO.
  - intros y Hy Q. destruct (A7 y Hy Q) as [X|(t1 & I & E)]; auto. apply in_app_or in I. destruct I as [I|[I|I]].
    + right. exists t1. rewrite !in_app_iff. auto.
    + subst t1. destruct (HD y E) as [X|(t' & -> & X)]; auto. right. exists t'. rewrite !in_app_iff. cbn [opt_list]. split; auto. right. left. now left.
    + right. exists t1. rewrite !in_app_iff. auto.
  - intros x v Hx E. destruct (A11 x v Hx E) as [X|(t1 & I & Q)]; auto. apply in_app_or in I. destruct I as [I|[I|I]].
    + right. exists t1. rewrite !in_app_iff. auto.
    + subst t1. destruct (HC x v Hx E Q) as [X|(t' & -> & X)]; auto. right. exists t'. rewrite !in_app_iff. cbn [opt_list]. split; auto. right. left. now left.
    + right. exists t1. rewrite !in_app_iff. auto.
Qed.
Lemma lb_upd L y x z : y < length L -> lb (upd L y x) z = if z =? y then x else lb L z.
Proof. intros H. unfold lb. destruct (Nat.eqb_spec z y) as [->|N]; [now apply nth_upd_eq|rewrite nth_upd_neq by auto; auto]. Qed.
Lemma vget_lb L y : y < length L -> vget L y = Ok (lb L y).
Proof. intros H. now apply vget_nth. Qed.

Lemma lp_step_ok l1 t l2 s : inv (l1 ++ t :: l2) s ->
  exists o s', lp_step g t s = Ok (o, s') /\ inv (l1 ++ opt_list o ++ l2) s' /\ M (l1 ++ opt_list o ++ l2) s' < M (l1 ++ t :: l2) s.
Proof.
  intros I. destruct s as [[L B] N]. assert (TK : tok L B t) by (assert (F := i_ok I); apply Forall_app in F; destruct F as [_ F]; now inversion F).
  assert (LL : length L = n) by apply I. assert (LB : length B = n) by apply (i_lb I). assert (LN : length N = nb) by apply (i_ln I).
  destruct TK as (Hw & Hxs & Hlx & Hd & Hp & Hc). cbn [fst snd] in *.
  destruct t as [w x xs|w lx y ys xs|w lx y ys xs|w lx y prev ys xs|w lx y ys xs|w lx y ys xs|w lx y ys xs]; cbn [lp_step tw txs tlx tpend tdirty tpush] in *.
  - assert (Hx : x < n) by (apply Hxs; now left). rewrite vget_lb by lia. cbn [bind]. rewrite (@vget_nth _ g x []) by auto. cbn [bind]. eexists _, _. split; [reflexivity|].
    split; [|apply M_next; cbn [mz]; unfold lp_cost; cbn [map sum]; unfold rcost, lp_cost; lia].
    apply (@rebuild l1 (LpX w x xs)); auto.
    + intros t' E. destruct (@next_tok L B w (lb L x) (nth x g []) xs x Hw (fun z J => Hxs z (or_intror J)) (i_snd I Hx) (fun v J => J) t' E) as (X & Y & _). auto.
    + cbn [tdirty]. discriminate.
    + intros x' v Hx' E [Q|(? & Q & _)]; [|discriminate]. right. apply next_covers. cbn [txs] in Q. destruct Q as [->|Q]; auto. right. split; [now apply (i_le I)|exact E].
  - destruct (Hlx lx eq_refl) as (x & R & HE). assert (Hy : y < n) by (eapply HT, HE; now left). rewrite vget_lb by lia. cbn [bind]. eexists _, _. split; [reflexivity|].
    destruct (Nat.ltb_spec lx (lb L y)) as [Q|Q].
    + split; [|apply M_replace; auto; cbn [mz]; assert (X := i_le I Hy); assert (Z := LE0 Hy); cbn [fst] in *; lia].
      apply (@rebuild l1 (LpT w lx y ys xs)); auto; try discriminate.
      * intros t' E. injection E as <-. split; auto. repeat split; auto; discriminate.
      * intros x' v _ _ CV. right. eexists. split; [reflexivity|]. exact CV.
    + split; [|apply M_next; cbn [mz]; lia]. apply (@rebuild l1 (LpT w lx y ys xs)); auto; try discriminate.
      * intros t' E. destruct (@next_tok L B w lx ys xs x Hw Hxs R (fun v J => HE v (or_intror J)) t' E) as (X & Y & _). auto.
      * intros x' v _ _ [CV|(lx' & E & LE & CV)]; [right; apply next_covers; auto|]. injection E as <-. destruct CV as [<-|CV]; [left; cbn [fst]; lia|right; apply next_covers; auto].
  - destruct (Hlx lx eq_refl) as (x & R & HE). assert (Hy : y < n) by (eapply HT, HE; now left). rewrite vget_lb by lia. cbn [bind]. eexists _, _. split; [reflexivity|].
    destruct (Nat.ltb_spec lx (lb L y)) as [Q|Q].
    + split; [|apply M_replace; auto; cbn [mz]; lia].
      apply (@rebuild l1 (LpRead w lx y ys xs)); auto; try discriminate.
      * intros t' E. injection E as <-. split; auto. repeat split; auto; discriminate.
      * intros x' v _ _ CV. right. eexists. split; [reflexivity|]. exact CV.
    + split; [|apply M_next; cbn [mz]; lia]. apply (@rebuild l1 (LpRead w lx y ys xs)); auto; try discriminate.
      * intros t' E. destruct (@next_tok L B w lx ys xs x Hw Hxs R (fun v J => HE v (or_intror J)) t' E) as (X & Y & _). auto.
      * intros x' v _ _ [CV|(lx' & E & LE & CV)]; [right; apply next_covers; auto|]. injection E as <-. destruct CV as [<-|CV]; [left; cbn [fst]; lia|right; apply next_covers; auto].
  - destruct (Hlx lx eq_refl) as (x & R & HE). assert (Hy : y < n) by (eapply HT, HE; now left). destruct Hc as [Hc1 Hc2]. rewrite vget_lb by lia. cbn [bind].
    destruct (Nat.eqb_spec (lb L y) prev) as [Q|Q].
    + rewrite vset_lt by lia. cbn [bind]. eexists _, _. split; [reflexivity|].
      assert (LU : forall z, lb (upd L y lx) z = if z =? y then lx else lb L z) by (intros; apply lb_upd; lia).
      assert (LM : forall z, lb (upd L y lx) z <= lb L z) by (intros z; rewrite LU; destruct (Nat.eqb_spec z y) as [->|]; lia).
      split; [|apply M_replace; auto; cbn [mz]; lia].
      destruct I as [A1 A2 A3 A4 A5 A6 A7 A8 A9 A10 A11]. cbn [fst snd] in *. assert (LY := A4 y Hy).
      constructor; cbn [fst snd]; auto.
      * now rewrite upd_length.
      * intros z Hz. specialize (LM z). specialize (A4 z Hz). lia.
      * intros z Hz. rewrite LU. destruct (Nat.eqb_spec z y) as [->|]; auto. destruct R as (k & R). exists (S k). econstructor; eauto. apply HE. now left.
      * apply Forall_app in A6. destruct A6 as [F1 F2]. inversion F2; subst.
        assert (FM : forall l, Forall (tok L B) l -> Forall (tok (upd L y lx) B) l) by (intros l; apply Forall_impl; intros a; apply tok_mono; auto).
        rewrite !Forall_app. split; auto. split; auto. constructor; auto. split; auto. split; auto. split; [|split; [|split; auto; discriminate]].
        -- cbn [tlx tpend]. intros lx' E. injection E as <-. exists x. split; auto. intros v J. apply HE. now right.
        -- cbn [tdirty]. intros z E. injection E as <-. split; auto. rewrite LU, Nat.eqb_refl. lia.
      * intros z Hz Q'. rewrite LU in Q'. destruct (Nat.eqb_spec z y) as [->|NE].
        -- right. exists (LpGet w lx y ys xs). split; auto. rewrite !in_app_iff. right. left. now left.
        -- destruct (A7 z Hz Q') as [X|(t1 & J & E)]; auto. right. exists t1. split; auto. rewrite in_app_iff in J. rewrite !in_app_iff. destruct J as [J|[J|J]]; auto. subst t1. discriminate.
      * rewrite pushes_opt. rewrite pushes_mid in A8. exact A8.
      * intros z J. destruct (A9 z J) as (X & Y & Z). split; auto. split; auto. specialize (LM z). lia.
      * rewrite pushes_opt. rewrite pushes_mid in A10. exact A10.
      * intros x' v Hx' E. destruct (A11 x' v Hx' E) as [X|(t1 & J & CV)]; [left; specialize (LM v); lia|]. rewrite in_app_iff in J. destruct J as [J|[J|J]].
        -- right. exists t1. rewrite !in_app_iff. auto.
        -- subst t1. destruct CV as [CV|(lx' & E' & LE & CV)].
           ++ right. exists (LpGet w lx y ys xs). split; [rewrite !in_app_iff; right; left; now left|left; exact CV].
           ++ injection E' as <-. destruct CV as [<-|CV]; [left; rewrite LU, Nat.eqb_refl; auto|].
              right. exists (LpGet w lx y ys xs). split; [rewrite !in_app_iff; right; left; now left|right; exists lx; auto].
        -- right. exists t1. rewrite !in_app_iff. auto.
    + eexists _, _. split; [reflexivity|]. split; [|apply M_replace; auto; cbn [mz]; lia]. apply (@rebuild l1 (LpCas w lx y prev ys xs)); auto; try discriminate.
      * intros t' E. injection E as <-. split; auto. repeat split; auto; discriminate.
      * intros x' v _ _ CV. right. eexists. split; [reflexivity|]. exact CV.
  - destruct (Hlx lx eq_refl) as (x & R & HE). destruct (Hd y eq_refl) as [Hy LY]. rewrite (@vget_nth _ B y false) by lia. cbn [bind]. eexists _, _. split; [reflexivity|].
    destruct (nth y B false) eqn:Q.
    + split; [|apply M_next; cbn [mz]; lia]. apply (@rebuild l1 (LpGet w lx y ys xs)); auto.
      * intros t' E. destruct (@next_tok L B w lx ys xs x Hw Hxs R HE t' E) as (X & Y & _). auto.
      * cbn [tdirty]. intros z E. injection E as <-. left. exact Q.
      * intros x' v _ _ [CV|(lx' & E & LE & CV)]; right; apply next_covers; auto. injection E as <-. auto.
    + split; [|apply M_replace; auto; cbn [mz]; lia]. apply (@rebuild l1 (LpGet w lx y ys xs)); auto.
      * intros t' E. injection E as <-. split; auto. repeat split; auto; try discriminate; now apply Hd.
      * cbn [tdirty]. intros z E. right. eexists. split; [reflexivity|]. exact E.
      * intros x' v _ _ CV. right. eexists. split; [reflexivity|]. exact CV.
  - destruct (Hlx lx eq_refl) as (x & R & HE). destruct (Hd y eq_refl) as [Hy LY]. rewrite (@vget_nth _ B y false) by lia. cbn [bind]. rewrite vset_lt by lia. cbn [bind]. eexists _, _. split; [reflexivity|].
    assert (BU : forall z, bt (upd B y true) z <-> z = y \/ bt B z).
    { intros z. unfold bt. destruct (Nat.eq_dec z y) as [->|NE]; [rewrite nth_upd_eq by lia; tauto|rewrite nth_upd_neq by auto; tauto]. }
    assert (BM : forall z, bt B z -> bt (upd B y true) z) by (intros z J; apply BU; auto).
    destruct (nth y B false) eqn:Q.
    + assert (EB : upd B y true = B).
      { apply nth_ext with false false; [now rewrite upd_length|]. intros z _. destruct (Nat.eq_dec z y) as [->|NE]; [rewrite nth_upd_eq by lia; auto|now rewrite nth_upd_neq by auto]. }
      rewrite EB. split; [|apply M_next; cbn [mz]; lia]. apply (@rebuild l1 (LpSet w lx y ys xs)); auto.
      * intros t' E. destruct (@next_tok L B w lx ys xs x Hw Hxs R HE t' E) as (X & Y & _). auto.
      * cbn [tdirty]. intros z E. injection E as <-. left. exact Q.
      * intros x' v _ _ [CV|(lx' & E & LE & CV)]; right; apply next_covers; auto. injection E as <-. auto.
    + split; [|apply M_replace; auto; cbn [mz]; lia]. destruct I as [A1 A2 A3 A4 A5 A6 A7 A8 A9 A10 A11]. cbn [fst snd] in *.
      assert (NB : ~ bt B y) by (unfold bt; congruence).
      assert (PM : forall z, In z (pushes (l1 ++ LpSet w lx y ys xs :: l2)) -> bt B z).
      { intros z J. unfold pushes in J. apply in_concat in J. destruct J as (l & J & K). apply in_map_iff in J. destruct J as (t1 & <- & J). rewrite Forall_forall in A6. destruct (A6 t1 J) as (_ & _ & _ & _ & X & _).
        destruct (tpush t1) as [z'|]; [|destruct K]. destruct K as [<-|[]]. now apply X. }
      constructor; cbn [fst snd]; auto.
      * now rewrite upd_length.
      * apply Forall_app in A6. destruct A6 as [F1 F2]. inversion F2; subst.
        assert (FM : forall l, Forall (tok L B) l -> Forall (tok L (upd B y true)) l) by (intros l; apply Forall_impl; intros a; apply tok_mono; auto).
        rewrite !Forall_app. split; auto. split; auto. constructor; auto. split; auto. split; auto. split; auto. split; [discriminate|]. split; auto.
        cbn [tpush]. intros z E. injection E as <-. split; auto. split; auto. apply BU. auto.
      * intros z Hz Q'. destruct (A7 z Hz Q') as [X|(t1 & J & E)]; auto. rewrite in_app_iff in J. destruct J as [J|[J|J]].
        -- right. exists t1. rewrite !in_app_iff. auto.
        -- subst t1. cbn [tdirty] in E. injection E as <-. left. apply BU. auto.
        -- right. exists t1. rewrite !in_app_iff. auto.
      * intros z Hz J. rewrite pushes_opt. cbn [tpush opt_list]. rewrite pushes_mid in A8. cbn [tpush opt_list app] in A8. apply BU in J. destruct J as [->|J]; [right; rewrite !in_app_iff; right; left; now left|].
        destruct (A8 z Hz J) as [X|X]; auto. right. rewrite !in_app_iff in *. tauto.
      * intros z J. destruct (A9 z J) as (X & Y & Z). auto.
      * rewrite pushes_opt. cbn [tpush opt_list]. rewrite pushes_mid in A10, PM. cbn [tpush opt_list app] in A10, PM. rewrite app_assoc in *. apply Permutation_NoDup with (y :: (concat N ++ pushes l1) ++ pushes l2); [apply Permutation_middle|].
        constructor; auto. rewrite <- app_assoc, in_app_iff. intros [J|J]; [apply NB; now apply A9|apply NB, PM; auto].
      * intros x' v Hx' E. destruct (A11 x' v Hx' E) as [X|(t1 & J & CV)]; auto. right. rewrite in_app_iff in J. destruct J as [J|[J|J]].
        -- exists t1. rewrite !in_app_iff. auto.
        -- subst t1. exists (LpPush w lx y ys xs). split; [rewrite !in_app_iff; right; left; now left|exact CV].
        -- exists t1. rewrite !in_app_iff. auto.
  - destruct (Hlx lx eq_refl) as (x & R & HE). destruct (Hp y eq_refl) as (Hy & LY & BY). rewrite (@vget_nth _ N w []) by lia. cbn [bind]. rewrite vset_lt by lia. cbn [bind]. eexists _, _. split; [reflexivity|].
    split; [|apply M_next; cbn [mz]; lia]. destruct I as [A1 A2 A3 A4 A5 A6 A7 A8 A9 A10 A11]. cbn [fst snd] in *.
    assert (PC := @concat_upd nat N w (nth w N []) y ltac:(lia) eq_refl).
    assert (NX := fun t' E => @next_tok L B w lx ys xs x Hw Hxs R HE t' E).
    assert (PE : pushes (l1 ++ opt_list (lp_next w lx ys xs) ++ l2) = pushes l1 ++ pushes l2).
    { rewrite pushes_opt. destruct (lp_next w lx ys xs) as [t'|]; auto. now rewrite (proj1 (proj2 (NX t' eq_refl))). }
    rewrite pushes_mid in A8, A10. cbn [tpush opt_list app] in A8, A10.
    constructor; cbn [fst snd]; rewrite ?PE; auto.
    + now rewrite upd_length.
    + apply Forall_app in A6. destruct A6 as [F1 F2]. inversion F2; subst. rewrite !Forall_app. split; auto. split; auto. destruct (lp_next w lx ys xs) as [t'|]; constructor; auto. now apply NX.
    + intros z Hz Q'. destruct (A7 z Hz Q') as [X|(t1 & J & E)]; auto. right. exists t1. split; auto. rewrite in_app_iff in J. rewrite !in_app_iff. destruct J as [J|[J|J]]; auto. subst t1. discriminate.
    + intros z Hz J. destruct (A8 z Hz J) as [X|X].
      * left. apply (Permutation_in _ (Permutation_sym PC)). now right.
      * rewrite in_app_iff in *. destruct X as [X|[X|X]]; auto. subst z. left. apply (Permutation_in _ (Permutation_sym PC)). now left.
    + intros z J. apply (Permutation_in _ PC) in J. destruct J as [<-|J]; auto.
    + apply Permutation_NoDup with (concat N ++ pushes l1 ++ y :: pushes l2); auto. rewrite app_assoc. etransitivity; [symmetry; apply Permutation_middle|]. rewrite <- app_assoc.
      change (Permutation ((y :: concat N) ++ pushes l1 ++ pushes l2) (concat (upd N w (nth w N [] ++ [y])) ++ pushes l1 ++ pushes l2)). apply Permutation_app_tail. now symmetry.
    + intros x' v Hx' E. destruct (A11 x' v Hx' E) as [X|(t1 & J & CV)]; auto. right. rewrite in_app_iff in J. destruct J as [J|[J|J]].
      * exists t1. rewrite !in_app_iff. auto.
      * subst t1. destruct (@next_covers w lx ys xs x' v) as (t' & E' & CV').
        { destruct CV as [CV|(lx' & E' & LE & CV)]; auto. injection E' as <-. auto. }
        exists t'. split; auto. rewrite E'. rewrite !in_app_iff. right. left. now left.
      * exists t1. rewrite !in_app_iff. auto.
Qed.
End Round.

Lemma lp_round_ok g nb sched chunks l0 : targets_ok g -> length l0 = length g -> (forall x, x < length g -> lb l0 x <= x /\ reachable g (lb l0 x) x) ->
  Forall (fun c => fst c < nb) chunks -> (forall x, In x (concat (map snd chunks)) -> x < length g) ->
  exists L next, lp_round nb sched g chunks l0 = Ok (L, next) /\ length L = length g /\
    (forall x, x < length g -> lb L x <= lb l0 x /\ reachable g (lb L x) x) /\
    NoDup next /\ (forall x, In x next <-> x < length g /\ lb L x < lb l0 x) /\
    forall x v, In x (concat (map snd chunks)) -> edge g x v -> lb L v <= lb l0 x.
Proof.
  intros HT HL H0 HW HX. unfold lp_round.
  destruct (@run_inv_m _ _ (lp_step g) (M g) (inv g nb l0 (concat (map snd chunks))) (@lp_step_ok g nb HT l0 HL (fun x Hx => proj1 (H0 x Hx)) (concat (map snd chunks))))
    with (fuel := sum (map (fun c => lp_cost g (snd c)) chunks)) (sched := sched) (now := 0)
         (ts := concat (map (fun c => opt_list (lp_start (fst c) (snd c))) chunks)) (s := (l0, repeat false (length l0), repeat (@nil nat) nb)) as ([[L B] N] & E & I).
  - assert (TS : forall t, In t (concat (map (fun c => opt_list (lp_start (fst c) (snd c))) chunks)) -> exists w x xs, t = LpX w x xs /\ In (w, x :: xs) chunks).
    { intros t J. apply in_concat in J. destruct J as (l & J & K). apply in_map_iff in J. destruct J as ([w [|x xs]] & <- & J); cbn in K; [destruct K|]. destruct K as [<-|[]]. eauto. }
    assert (PS : pushes (concat (map (fun c => opt_list (lp_start (fst c) (snd c))) chunks)) = []).
    { unfold pushes. revert TS. generalize (concat (map (fun c => opt_list (lp_start (fst c) (snd c))) chunks)) as ts. induction ts as [|t ts IH]; intros TS; auto. cbn [map concat].
      destruct (TS t (or_introl eq_refl)) as (w & x & xs & -> & _). cbn [tpush opt_list app]. apply IH. intros t' J. apply TS. now right. }
    assert (NC : concat (repeat (@nil nat) nb) = []) by (clear; induction nb; auto).
    assert (RF : forall y k, ~ bt (repeat false k) y).
    { clear. unfold bt. intros y k. revert y. induction k; intros [|y]; cbn [repeat nth]; try discriminate. apply IHk. }
    constructor; cbn [fst snd]; rewrite ?PS, ?NC; auto.
    + rewrite repeat_length. auto.
    + apply repeat_length.
    + intros x Hx. now apply H0.
    + apply Forall_forall. intros t J. destruct (TS t J) as (w & x & xs & -> & K). rewrite Forall_forall in HW. split; [exact (HW _ K)|]. split; [|repeat split; discriminate].
      intros z Z. apply HX, in_concat. exists (x :: xs). split; auto. apply in_map_iff. exists (w, x :: xs). auto.
    + intros y _ Q. lia.
    + intros y _ Q. now apply RF in Q.
    + intros y [].
    + constructor.
    + intros x v Hx Ed. right. apply in_concat in Hx. destruct Hx as (l & J & K). apply in_map_iff in J. destruct J as ([w l'] & E & J). cbn [snd] in E. subst l'.
      destruct l as [|z xs]; [destruct K|]. exists (LpX w z xs). split; [|left; exact K]. apply in_concat. exists [LpX w z xs]. split; [|now left]. apply in_map_iff. exists (w, z :: xs). auto.
  - unfold M. cbn [fst]. clear. induction chunks as [|[w [|x xs]] chunks IH]; cbn [map concat]; auto; rewrite ?map_app, ?sum_app; cbn [lp_start opt_list fst snd map app sum mz]; lia.
  - rewrite E. cbn [bind fst snd]. exists L, (concat N). split; auto. destruct I as [A1 A2 A3 A4 A5 A6 A7 A8 A9 A10 A11]. cbn [fst snd] in *. split; auto. split; [auto|]. split.
    + cbn in A10. now rewrite app_nil_r in A10.
    + split.
      * intros x. split; [intros J; destruct (A9 x J) as (X & _ & Z); auto|]. intros [Hx Q]. destruct (A7 x Hx Q) as [X|(t & [] & _)]. destruct (A8 x Hx X) as [Y|[]]. exact Y.
      * intros x v Hx Ed. destruct (A11 x v Hx Ed) as [X|(t & [] & _)]. exact X.
Qed.

(** The loop. *)
Section Loop.
Variables (cyclic : bool) (W nb : nat) (sched : nat -> nat -> nat) (split : nat -> list nat -> list (nat * list nat)) (g : list (list nat)).
Hypothesis HT : targets_ok g.
Hypothesis HW : length g < W.
Hypothesis HS : forall i l, Forall (fun c => fst c < nb) (split i l) /\ forall x, In x (concat (map snd (split i l))) <-> In x l.
Lemma lp_loop_ok : forall fuel i cur L, length L = length g -> (forall x, x < length g -> lb L x <= x /\ reachable g (lb L x) x) ->
  NoDup cur -> (forall x, In x cur -> x < length g) -> (forall x v, edge g x v -> lb L v <= lb L x \/ In x cur) -> sum L + (if cur then 0 else 1) <= fuel ->
  exists L', lp_loop fuel cyclic W nb sched split i g cur L = Ok L' /\ length L' = length g /\ (forall x, x < length g -> lb L' x <= x /\ reachable g (lb L' x) x) /\
    forall x v, edge g x v -> lb L' v <= lb L' x.
Proof.
  induction fuel; intros i cur L HL HG ND HC HA HF.
  - destruct cur as [|c cur]; [|lia]. exists L. split; auto. split; auto. split; auto. intros x v E. destruct (HA x v E) as [Q|[]]; auto.
  - destruct cur as [|c0 cur0].
    { exists L. split; auto. split; auto. split; auto. intros x v E. destruct (HA x v E) as [Q|[]]; auto. }
    cbn [lp_loop]. remember (c0 :: cur0) as cur. assert (HF' : sum L <= fuel) by (subst; lia). clear HF.
    assert (LC : length cur <= length g).
    { rewrite <- (seq_length (length g) 0). apply NoDup_incl_length; auto. intros x J. apply in_seq. specialize (HC x J). lia. }
    rewrite Nat.mod_small by lia. rewrite firstn_all. set (l := if cyclic then seq 0 (length g) else cur).
    assert (IL : forall x, In x l -> x < length g) by (intros x; unfold l; destruct cyclic; auto; intros J; apply in_seq in J; lia).
    assert (CL : forall x, In x cur -> In x l) by (intros x J; unfold l; destruct cyclic; auto; apply in_seq; specialize (HC x J); lia).
    destruct (HS i l) as [S1 S2].
    destruct (@lp_round_ok g nb (sched i) (split i l) L HT HL HG S1 (fun x J => IL x (proj1 (S2 x) J))) as (L' & next & E & HL' & HG' & ND' & HN & HA').
    rewrite E. cbn [bind fst snd].
    destruct (@sum_le_lt L' L) as [SL ST]; [congruence|intros x Hx; rewrite HL' in Hx; now apply HG'|]. apply IHfuel; auto.
    + intros x Hx. destruct (HG x Hx), (HG' x Hx). split; auto. lia.
    + intros x J. now apply HN.
    + intros x v Ed. assert (Hx := edge_lt _ _ _ Ed). assert (Hv := HT _ _ Ed). destruct (HG' x Hx) as [Q1 _]. destruct (HG' v Hv) as [Q2 _].
      destruct (Nat.eq_dec (lb L' x) (lb L x)) as [EQ|NE]; [|right; apply HN; lia]. left. rewrite EQ. destruct (HA x v Ed) as [Q|Q]; [lia|]. apply HA'; auto. apply S2. auto.
    + destruct next as [|x next]; [lia|]. enough (sum L' < sum L) by lia. apply ST. exists x. destruct (proj1 (HN x) (or_introl eq_refl)). split; auto. lia.
Qed.
End Loop.

Lemma lpcc_ok cyclic W nb sched split g : length g < W -> targets_ok g ->
  (forall i l, Forall (fun c => fst c < nb) (split i l) /\ forall x, In x (concat (map snd (split i l))) <-> In x l) ->
  exists comp, lp_loop (sum (x_init W (length g)) + 2) cyclic W nb sched split 0 g (x_init W (length g)) (x_init W (length g)) = Ok comp /\ length comp = length g /\
    forall v, v < length g -> reachable g (nth v comp 0) v /\ forall u, reachable g u v -> nth v comp 0 <= u.
Proof.
  intros HW HT HS. assert (EI : x_init W (length g) = seq 0 (length g)) by (unfold x_init; rewrite Nat.mod_small, Nat.sub_diag by auto; apply app_nil_r). rewrite EI.
  assert (LI : forall x, x < length g -> lb (seq 0 (length g)) x = x) by (intros x Hx; unfold lb; now rewrite seq_nth).
  destruct (@lp_loop_ok cyclic W nb sched split g HT HW HS (sum (seq 0 (length g)) + 2) 0 (seq 0 (length g)) (seq 0 (length g))) as (L & E & HL & HG & HA).
  - apply seq_length.
  - intros x Hx. rewrite LI by auto. split; auto. exists 0. constructor.
  - apply seq_NoDup.
  - intros x J. apply in_seq in J. lia.
  - intros x v Ed. right. apply in_seq. assert (X := edge_lt _ _ _ Ed). lia.
  - destruct (seq 0 (length g)); lia.
  - exists L. split; auto. split; auto. intros v Hv. split; [now apply HG|]. intros u (k & R). assert (Hu : u < length g).
    { clear - R HT Hv. induction R; auto. apply IHR. eapply edge_lt; eauto. }
    assert (Q : lb L v <= lb L u). { clear - R HA. induction R; auto. specialize (HA _ _ H). lia. }
    destruct (HG u Hu) as [Q1 _]. unfold lb in *. lia.
Qed.
(** Labels that are all 0 stay so. *)
Definition calm (n : nat) (t : lp) : Prop :=
  match t with LpX _ x xs => forall z, In z (x :: xs) -> z < n | LpT _ lx y ys xs => lx = 0 /\ (forall z, In z (y :: ys) -> z < n) /\ forall z, In z xs -> z < n | _ => False end.
Lemma calm_next n w ys xs : (forall z, In z ys -> z < n) -> (forall z, In z xs -> z < n) -> forall t', lp_next w 0 ys xs = Some t' -> calm n t'.
Proof. intros A B t' E. destruct ys as [|y ys]; [destruct xs as [|x xs]|]; cbn [lp_next lp_start] in E; try discriminate; injection E as <-; cbn [calm]; auto. Qed.
Lemma get_zero n y : y < n -> vget (repeat 0 n) y = Ok 0.
Proof. intros H. rewrite (@vget_nth _ _ y 0) by now rewrite repeat_length. f_equal. apply nth_repeat. Qed.
Lemma zero_round g nb sched chunks : targets_ok g -> (forall x, In x (concat (map snd chunks)) -> x < length g) ->
  lp_round nb sched g chunks (repeat 0 (length g)) = Ok (repeat 0 (length g), []).
Proof.
  intros HT HX. unfold lp_round. set (n := length g) in *. set (s0 := (repeat 0 n, repeat false (length (repeat 0 n)), repeat (@nil nat) nb)).
  destruct (@run_inv_m _ _ (lp_step g) (M g) (fun ts s => s = s0 /\ Forall (calm n) ts))
    with (fuel := sum (map (fun c => lp_cost g (snd c)) chunks)) (sched := sched) (now := 0)
         (ts := concat (map (fun c => opt_list (lp_start (fst c) (snd c))) chunks)) (s := s0) as (s & E & -> & _).
  - intros l1 t l2 s [-> F]. apply Forall_app in F. destruct F as [F1 F2]. inversion F2 as [|t' l' Ht F3]; subst. unfold s0 at 1. cbn [lp_step].
    assert (FO : forall o : option lp, (forall t', o = Some t' -> calm n t') -> Forall (calm n) (l1 ++ opt_list o ++ l2)).
    { intros o H. rewrite !Forall_app. repeat split; auto. destruct o; constructor; auto. }
    destruct t as [w x xs|w lx y ys xs| | | | |]; cbn [calm] in Ht; try contradiction.
    + assert (Hx : x < n) by (apply Ht; now left). rewrite get_zero by auto. cbn [bind]. rewrite (@vget_nth _ g x []) by auto. cbn [bind]. eexists _, _. split; [reflexivity|]. split; [split; auto|].
      * apply FO. apply calm_next; [intros z J; eapply HT; exact J|intros z J; apply Ht; now right].
      * unfold s0. apply M_next. cbn [mz]. unfold lp_cost; cbn [map sum]; unfold rcost, lp_cost. lia.
    + destruct Ht as (-> & Hy & Hx). rewrite get_zero by (apply Hy; now left). cbn [bind]. cbn [Nat.ltb Nat.leb]. eexists _, _. split; [reflexivity|]. split; [split; auto|].
      * apply FO. apply calm_next; auto. intros z J. apply Hy. now right.
      * unfold s0. apply M_next. cbn [mz]. lia.
  - split; auto. apply Forall_forall. intros t J. apply in_concat in J. destruct J as (l & J & K). apply in_map_iff in J. destruct J as ([w [|x xs]] & <- & J); cbn in K; [destruct K|]. destruct K as [<-|[]].
    intros z Z. apply HX, in_concat. exists (x :: xs). split; auto. apply in_map_iff. exists (w, x :: xs). auto.
  - unfold M, s0. cbn [fst]. clear. induction chunks as [|[w [|x xs]] chunks IH]; cbn [map concat]; auto; rewrite ?map_app, ?sum_app; cbn [lp_start opt_list fst snd map app sum mz]; lia.
  - unfold s0 in *. rewrite E. cbn [bind fst snd]. replace (concat (repeat (@nil nat) nb)) with (@nil nat); auto. clear. induction nb; auto.
Qed.
Lemma lpcc_full cyclic W nb sched split g : 0 < W -> length g = W -> targets_ok g ->
  (forall i l, forall x, In x (concat (map snd (split i l))) <-> In x l) ->
  lp_loop (sum (x_init W (length g)) + 2) cyclic W nb sched split 0 g (x_init W (length g)) (x_init W (length g)) = Ok (repeat 0 W).
Proof.
  intros HW HL HT HS. rewrite HL at 1 2 3. assert (EI : x_init W W = repeat 0 W) by (unfold x_init; rewrite Nat.mod_same by lia; cbn [seq app]; now rewrite Nat.sub_0_r). rewrite EI.
  remember (sum (repeat 0 W) + 2) as fuel. destruct fuel as [|fuel]; [lia|]. cbn [lp_loop]. destruct (repeat 0 W) as [|a r] eqn:E; [destruct W; [lia|discriminate]|]. rewrite <- E. rewrite repeat_length, Nat.mod_same by lia. cbn [firstn].
  rewrite <- HL. rewrite zero_round; auto.
  - cbn [bind fst snd]. destruct fuel; reflexivity.
  - intros x J. apply HS in J. destruct cyclic; [apply in_seq in J; lia|destruct J].
Qed.
