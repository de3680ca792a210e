(** Lemmas for CcxModel: hooking under every interleaving. *)
From Coq Require Import List Arith Lia Bool Relations.
From Verif Require Import Base ConnLib GraphLib SsspLib Pool ParBfsModel ParBfsProofs CcModel CcProofs CcProofs2 CcxModel.
Import ListNotations.
Set Implicit Arguments.

(** * hook *)
Section Hook.
Variables (n W : nat).
Hypothesis HW : n <= W.

(** The edge a hook still has to realise. *)
Definition hk_pend (t : hk) : nat * nat :=
  match t with HkP1 u v => (u, v) | HkP2 p1 x => (p1, x) | HkHigh p1 p2 => (p1, p2) | HkCas h l => (h, l) | HkA h l => (h, l) | HkB a l => (a, l) end.
Definition hk_ok (comp : list nat) (t : hk) : Prop :=
  fst (hk_pend t) < n /\ snd (hk_pend t) < n /\
  match t with
  | HkHigh p1 p2 => p1 <> p2
  | HkCas h l => l < h
  | HkA h l => lab comp h < h
  | _ => True
  end.
Definition hopend (o : option hk) : list (nat * nat) := match o with Some t => [hk_pend t] | None => [] end.

Lemma hk_low_min p1 p2 : p1 < n -> p2 < n -> hk_low W p1 p2 = Nat.min p1 p2.
Proof.
  intros H1 H2. unfold hk_low. assert (D := Nat.div_mod (p1 + p2) W ltac:(lia)).
  assert (Q : (p1 + p2) / W <= 1) by (apply Nat.lt_succ_r, Nat.div_lt_upper_bound; lia).
  destruct ((p1 + p2) / W) as [|[|q]]; [| |lia].
  - rewrite Nat.mul_0_r, Nat.add_0_l in D. rewrite <- D. replace (p1 + p2 + W - Nat.max p1 p2) with (Nat.min p1 p2 + 1 * W) by lia.
    rewrite Nat.mod_add, Nat.mod_small; lia.
  - replace ((p1 + p2) mod W + W - Nat.max p1 p2) with (Nat.min p1 p2) by lia. rewrite Nat.mod_small; lia.
Qed.
Lemma hk_ok_below comp comp' t : below comp' comp -> hk_ok comp t -> hk_ok comp' t.
Proof. intros B (H1 & H2 & H3). split; auto. split; auto. destruct t; auto. specialize (B high). lia. Qed.

Lemma hk_step_ok comp t : comp_ok n comp -> hk_ok comp t ->
  exists o comp', hk_step W t comp = Ok (o, comp') /\ comp_ok n comp' /\ below comp' comp /\
    (match o with Some t' => hk_ok comp' t' /\ hk_size t' < hk_size t | None => True end) /\
    forall X u v, conn ((cedges comp' ++ hopend o) ++ X) u v <-> conn ((cedges comp ++ [hk_pend t]) ++ X) u v.
Proof.
  intros C (H1 & H2 & H3). assert (C' := C). destruct C' as [LC LE]. assert (BR : below comp comp) by (intros x; auto).
  assert (CE : forall A X x, x < n -> conn ((cedges comp ++ A) ++ X) x (lab comp x)).
  { intros A X x Hx. apply conn_app1, conn_app1, conn_edge. apply in_cedges. split; [lia|auto]. }
  assert (CP : forall A e X, conn ((A ++ [e]) ++ X) (fst e) (snd e)).
  { intros A [a b] X. apply conn_app1, conn_app2, conn_edge. now left. }
  assert (RE : forall e o X u v, (forall X, conn ((cedges comp ++ hopend o) ++ X) (fst e) (snd e)) ->
     (forall t', o = Some t' -> forall X, conn ((cedges comp ++ [e]) ++ X) (fst (hk_pend t')) (snd (hk_pend t'))) ->
     (conn ((cedges comp ++ hopend o) ++ X) u v <-> conn ((cedges comp ++ [e]) ++ X) u v)).
  { intros e o X u v A1 A2. apply conn_swap; intros a b I; apply in_app_or in I; destruct I as [I|I].
    - apply conn_app1, conn_app1, conn_edge; auto.
    - destruct o as [t'|]; [|destruct I]. destruct I as [I|[]]. specialize (A2 t' eq_refl X). rewrite I in A2. exact A2.
    - apply conn_app1, conn_app1, conn_edge; auto.
    - destruct I as [I|[]]. specialize (A1 X). rewrite I in A1. exact A1. }
  destruct t as [a b|p1 x|p1 p2|h l|h l|a l]; cbn [hk_pend fst snd] in *; cbn [hk_step].
  - rewrite (lab_get C H1). cbn [bind]. eexists _, _. split; [reflexivity|]. assert (LA := LE a H1). split; auto. split; auto. split.
    + repeat split; auto; cbn [hk_pend fst snd hk_size]; try lia.
    + intros X u v. apply RE; [intros Y|intros t' E Y; injection E as <-]; cbn [fst snd hopend hk_pend].
      * eapply conn_trans; [apply CE; auto|apply (CP (cedges comp) (lab comp a, b))].
      * eapply conn_trans; [apply conn_sym, CE; auto|apply (CP (cedges comp) (a, b))].
  - rewrite (lab_get C H2). cbn [bind]. eexists _, _. split; [reflexivity|]. assert (LA := LE x H2). split; auto. split; auto. split.
    + destruct (Nat.eqb_spec p1 (lab comp x)); auto. repeat split; cbn [hk_pend fst snd hk_size]; auto; lia.
    + intros X u v. destruct (Nat.eqb_spec p1 (lab comp x)) as [->|N].
      * apply RE; [|discriminate]. intros Y. cbn [fst snd]. apply conn_sym, CE; auto.
      * apply RE; [intros Y|intros t' E Y; injection E as <-]; cbn [fst snd hopend hk_pend].
        -- eapply conn_trans; [apply (CP (cedges comp) (p1, lab comp x))|apply conn_sym, CE; auto].
        -- eapply conn_trans; [apply (CP (cedges comp) (p1, x))|apply CE; auto].
  - rewrite (hk_low_min H1 H2). set (high := Nat.max p1 p2). set (low := Nat.min p1 p2).
    assert (HH : high < n) by (unfold high; lia). assert (HL : low < high) by (unfold high, low; lia). assert (SUM : high + low = p1 + p2) by (unfold high, low; lia).
    assert (PE : forall Y, conn ((cedges comp ++ [(p1, p2)]) ++ Y) high low).
    { intros Y. unfold high, low. destruct (Nat.le_ge_cases p1 p2); [rewrite Nat.max_r, Nat.min_l by auto; apply conn_sym|rewrite Nat.max_l, Nat.min_r by auto]; apply (CP (cedges comp) (p1, p2)). }
    assert (EP : forall A Y, conn (A ++ Y) high low -> conn (A ++ Y) p1 p2).
    { intros A Y. unfold high, low. destruct (Nat.le_ge_cases p1 p2); [rewrite Nat.max_r, Nat.min_l by auto; apply conn_sym|rewrite Nat.max_l, Nat.min_r by auto; auto]. }
    rewrite (lab_get C HH). cbn [bind]. eexists _, _. split; [reflexivity|]. assert (LA := LE high HH). split; auto. split; auto. split.
    + destruct (Nat.eqb_spec (lab comp high) low); auto. repeat split; cbn [hk_pend fst snd hk_size]; auto; try lia.
    + intros X u v. destruct (Nat.eqb_spec (lab comp high) low) as [E|N].
      * apply RE; [|discriminate]. intros Y. cbn [fst snd]. apply EP. rewrite <- E. apply CE; auto.
      * apply RE; [intros Y|intros t' E2 Y; injection E2 as <-]; cbn [fst snd hopend hk_pend]; auto. apply EP. apply (CP (cedges comp) (high, low)).
  - rewrite (lab_get C H1). cbn [bind]. assert (LA := LE h H1). destruct (Nat.eqb_spec (lab comp h) h) as [E|N].
    + rewrite vset_lt by lia. cbn [bind]. eexists _, _. split; [reflexivity|]. assert (LU : forall z, lab (upd comp h l) z = if z =? h then l else lab comp z) by (intros; apply lab_upd; lia).
      split; [|split; [|split; auto]].
      * split; [now rewrite upd_length|]. intros z Hz. rewrite LU. destruct (Nat.eqb_spec z h); auto. lia.
      * intros z. rewrite LU. destruct (Nat.eqb_spec z h) as [->|]; auto. lia.
      * intros X u v. cbn [hopend]. apply conn_swap; intros a b I; apply in_app_or in I; destruct I as [I|I]; try (destruct I; fail).
        -- apply in_cedges in I. rewrite upd_length in I. destruct I as [I ->]. rewrite LU. destruct (Nat.eqb_spec a h) as [->|]; [apply (CP (cedges comp) (h, l))|apply CE; lia].
        -- apply in_cedges in I. destruct I as [I ->]. destruct (Nat.eq_dec a h) as [->|NE]; [rewrite E; apply conn_refl|].
           apply conn_app1, conn_app1, conn_edge, in_cedges. rewrite upd_length, LU. destruct (Nat.eqb_spec a h); [congruence|auto].
        -- destruct I as [I|[]]. injection I as <- <-. apply conn_app1, conn_app1, conn_edge, in_cedges. rewrite upd_length, LU, Nat.eqb_refl. split; auto; lia.
    + eexists _, _. split; [reflexivity|]. split; auto. split; auto. split.
      * repeat split; cbn [hk_pend fst snd hk_size]; auto; lia.
      * intros X u v. apply RE; [intros Y|intros t' E2 Y; injection E2 as <-]; cbn [fst snd hopend hk_pend]; apply (CP (cedges comp) (h, l)).
  - rewrite (lab_get C H1). cbn [bind]. eexists _, _. split; [reflexivity|]. split; auto. split; auto. split.
    + repeat split; cbn [hk_pend fst snd hk_size]; auto; lia.
    + intros X u v. apply RE; [intros Y|intros t' E2 Y; injection E2 as <-]; cbn [fst snd hopend hk_pend].
      * eapply conn_trans; [apply CE; auto|apply (CP (cedges comp) (lab comp h, l))].
      * eapply conn_trans; [apply conn_sym, CE; auto|apply (CP (cedges comp) (h, l))].
  - rewrite (lab_get C H1). cbn [bind]. assert (LA := LE a H1). eexists _, _. split; [reflexivity|]. split; auto. split; auto. split.
    + repeat split; cbn [hk_pend fst snd hk_size]; auto; try lia.
    + intros X u v. apply RE; [intros Y|intros t' E2 Y; injection E2 as <-]; cbn [fst snd hopend hk_pend].
      * eapply conn_trans; [apply CE; auto|apply (CP (cedges comp) (lab comp a, l))].
      * eapply conn_trans; [apply conn_sym, CE; auto|apply (CP (cedges comp) (a, l))].
Qed.
End Hook.

(** * The loops *)
Section Loops.
Variables (W : nat) (g tg : list (list nat)) (bound dom : option nat).
Notation n := (length g).
Hypothesis HW : n <= W.
Hypothesis HT : targets_ok g.
Hypothesis HTG : tg = [] \/ transpose_of g tg.
Notation G := (gedges g).
Variable comp0 : list nat.
Variable need : Prop.              (* whether the loop is one that pushes *)

Definition xarcs (u : nat) : list nat := match bound with Some b => firstn b (nth u g []) | None => nth u g [] end ++ nth u tg [].
Definition xpend (t : xt) : list (nat * nat) := match t with XHook t rest => hk_pend t :: rest | _ => [] end.
Definition x_ok (comp : list nat) (t : xt) : Prop :=
  match t with
  | XPush u | XPull u => u < n
  | XHook t rest => hk_ok n comp t /\ forall a b, In (a, b) rest -> a < n /\ b < n
  | XMin u m rest => u < n /\ m <= u /\ conn G u m /\ forall v, In v rest -> edge g u v
  | XP1 u m => u < n /\ m <= u /\ conn G u m
  end.
Definition Qx (comp : list nat) (ts : list xt) : nat -> nat -> Prop := conn (cedges comp ++ concat (map xpend ts)).
Record x_inv (ts : list xt) (comp : list nat) : Prop := {
  xi_comp : comp_ok n comp;
  xi_ok : Forall (x_ok comp) ts;
  xi_sound : forall u v, Qx comp ts u v -> conn G u v;
  xi_grow : forall u v, conn (cedges comp0) u v -> Qx comp ts u v;
  xi_arcs : need -> forall u v, u < n -> In v (xarcs u) -> In (XPush u) ts \/ Qx comp ts u v \/ exists c, dom = Some c /\ Qx comp ts u c }.

Lemma xarcs_edge u v : u < n -> In v (xarcs u) -> conn G u v /\ v < n.
Proof.
  intros Hu I. unfold xarcs in I. apply in_app_or in I. destruct I as [I|I].
  - assert (E : edge g u v). { unfold edge. destruct bound as [b|]; auto. rewrite <- (firstn_skipn b (nth u g [])). apply in_or_app. auto. }
    split; [apply conn_edge, in_gedges; auto|eapply HT; eauto].
  - destruct HTG as [->|[L TR]]; [destruct u; destruct I|]. assert (E : edge g v u) by (apply TR; exact I).
    split; [apply conn_sym, conn_edge, in_gedges; auto|eapply edge_lt; eauto].
Qed.
Lemma x_arcs_ok u : u < n -> x_arcs bound g tg u = Ok (map (fun v => (u, v)) (xarcs u)).
Proof.
  intros Hu. unfold x_arcs. rewrite (@vget_nth _ g u []) by auto. cbn [bind]. unfold xarcs. destruct HTG as [->|[L TR]].
  - cbn [length Nat.eqb bind]. now destruct u.
  - destruct (Nat.eqb_spec (length tg) 0); [lia|]. rewrite (@vget_nth _ tg u []) by lia. reflexivity.
Qed.
Lemma x_ok_below comp comp' t : below comp' comp -> x_ok comp t -> x_ok comp' t.
Proof. intros B. destruct t; cbn [x_ok]; auto. intros [A D]. split; auto. eapply hk_ok_below; eauto. Qed.
Definition oxpend (o : option xt) : list (nat * nat) := match o with Some t => xpend t | None => [] end.
Lemma oxpend_start es : oxpend (x_start es) = es.
Proof. destruct es as [|[a b] es]; reflexivity. Qed.
Lemma Qx_mid comp l1 o l2 u v : Qx comp (l1 ++ opt_list o ++ l2) u v <-> conn ((cedges comp ++ oxpend o) ++ concat (map xpend (l1 ++ l2))) u v.
Proof.
  unfold Qx. split; apply conn_incl; intros x I; repeat rewrite ?map_app, ?concat_app, ?in_app_iff in *; destruct o; cbn [opt_list map concat oxpend app] in *; repeat rewrite ?app_nil_r, ?in_app_iff in *; tauto.
Qed.
Lemma Qx_mid1 comp l1 t l2 u v : Qx comp (l1 ++ t :: l2) u v <-> conn ((cedges comp ++ xpend t) ++ concat (map xpend (l1 ++ l2))) u v.
Proof. apply (Qx_mid comp l1 (Some t) l2). Qed.
Lemma in_mid_push u l1 t l2 o : In (XPush u) (l1 ++ t :: l2) -> t <> XPush u -> In (XPush u) (l1 ++ opt_list o ++ l2).
Proof. intros I N. rewrite !in_app_iff in *. destruct I as [I|[I|I]]; auto. congruence. Qed.

(** A step that only replaces a task without pending edges. *)
Lemma x_inv_quiet l1 t o l2 comp : x_inv (l1 ++ t :: l2) comp -> (forall u, t <> XPush u) -> xpend t = [] -> oxpend o = [] ->
  (forall t', o = Some t' -> x_ok comp t') -> x_inv (l1 ++ opt_list o ++ l2) comp.
Proof.
  intros I NP P1 P2 OK. assert (F := xi_ok I). apply Forall_app in F. destruct F as [F1 F2]. inversion F2 as [|t' l' Ht F3]; subst. clear F2.
  assert (QE : forall a b, Qx comp (l1 ++ opt_list o ++ l2) a b <-> Qx comp (l1 ++ t :: l2) a b) by (intros a b; rewrite Qx_mid, Qx_mid1, P1, P2; tauto).
  destruct I. constructor; auto; try (intros a b; rewrite QE; auto; fail).
  - apply Forall_app. split; auto. apply Forall_app. split; auto. destruct o; constructor; auto.
  - intros ND a b Ha Hb. rewrite QE. destruct (xi_arcs0 ND a b Ha Hb) as [Q|[Q|(c & E & Q)]]; auto.
    + left. eapply in_mid_push; eauto.
    + right. right. exists c. rewrite QE. auto.
Qed.

Lemma x_step_ok l1 t l2 comp : x_inv (l1 ++ t :: l2) comp ->
  exists o comp', x_step W dom bound g tg t comp = Ok (o, comp') /\ x_inv (l1 ++ opt_list o ++ l2) comp' /\
    match o with Some t' => x_size bound g tg t' < x_size bound g tg t | None => True end.
Proof.
  intros I. assert (C := xi_comp I). assert (F := xi_ok I). apply Forall_app in F. destruct F as [F1 F2]. inversion F2 as [|t' l' Ht F3]; subst. clear F2.
  assert (SL : forall u, u < n -> conn G u (lab comp u)).
  { intros u Hu. apply (xi_sound I). unfold Qx. apply conn_app1, conn_edge, in_cedges. split; auto. rewrite (proj1 C). auto. }
  destruct t as [u|t rest|u|u m rest|u m]; cbn [x_step].
  - cbn [x_ok] in Ht. rewrite (lab_get C Ht). cbn [bind].
    assert (CU : forall X, conn (cedges comp ++ X) u (lab comp u)) by (intros X; apply conn_app1, conn_edge, in_cedges; split; auto; rewrite (proj1 C); auto).
    assert (SKIP : (exists c, dom = Some c /\ c = lab comp u) \/ match dom with Some c => c =? lab comp u | None => false end = false).
    { destruct dom as [c|]; auto. destruct (Nat.eqb_spec c (lab comp u)); auto. left. eauto. }
    destruct SKIP as [(c & E1 & E2)|E].
    + assert (EB : match dom with Some c => c =? lab comp u | None => false end = true) by (rewrite E1, E2; apply Nat.eqb_refl). rewrite EB. exists None, comp. split; auto. split; auto.
      assert (QE : forall a b, Qx comp (l1 ++ opt_list None ++ l2) a b <-> Qx comp (l1 ++ XPush u :: l2) a b) by (intros a b; rewrite Qx_mid, Qx_mid1; tauto).
      destruct I. constructor; auto; try (intros a b; rewrite QE; auto; fail).
      * apply Forall_app. auto.
      * intros ND a b Ha Hb. rewrite !QE. destruct (Nat.eq_dec a u) as [->|NE].
        -- right. right. exists c. split; auto. rewrite QE, E2. apply CU.
        -- destruct (xi_arcs0 ND a b Ha Hb) as [Q|[Q|(c' & Ec & Q)]]; auto.
           ++ left. apply in_mid_push with (t := XPush u); auto. congruence.
           ++ right. right. exists c'. rewrite QE. auto.
    + rewrite E, (x_arcs_ok Ht). cbn [bind]. set (es := map (fun v => (u, v)) (xarcs u)). exists (x_start es), comp. split; auto.
      assert (RE : forall a b, In (a, b) es -> a = u /\ In b (xarcs u)) by (unfold es; intros a b J; apply in_map_iff in J; destruct J as (y & E' & J); injection E' as <- <-; auto).
      assert (QE : forall a b, Qx comp (l1 ++ opt_list (x_start es) ++ l2) a b <-> conn ((cedges comp ++ es) ++ concat (map xpend (l1 ++ l2))) a b) by (intros a b; now rewrite Qx_mid, oxpend_start).
      assert (QM : forall a b, Qx comp (l1 ++ XPush u :: l2) a b -> Qx comp (l1 ++ opt_list (x_start es) ++ l2) a b).
      { intros a b. rewrite QE, Qx_mid1. cbn [xpend]. apply conn_incl. intros x. rewrite !in_app_iff. simpl (In x []). tauto. }
      split.
      * destruct I. constructor; auto.
        -- apply Forall_app. split; auto. apply Forall_app. split; auto. destruct es as [|[a b] es'] eqn:EE; cbn [x_start opt_list]; constructor; auto.
           assert (R : forall x y, In (x, y) ((a, b) :: es') -> x < n /\ y < n). { intros x y J. destruct (RE x y J) as [-> K]. split; auto. now apply (xarcs_edge _ Ht). }
           destruct (R a b (or_introl eq_refl)). repeat split; auto; apply (R a0 b0); now right.
        -- intros a b. rewrite QE. apply conn_mono. intros x y J. rewrite !in_app_iff in J. destruct J as [[J|J]|J].
           ++ apply xi_sound0. apply conn_app1, conn_edge; auto.
           ++ destruct (RE x y J) as [-> K]. now apply (xarcs_edge _ Ht).
           ++ apply xi_sound0. rewrite Qx_mid1. apply conn_app2, conn_edge; auto.
        -- intros ND a b Ha Hb. destruct (Nat.eq_dec a u) as [->|NE].
           ++ right. left. rewrite QE. apply conn_app1, conn_app2, conn_edge. unfold es. apply in_map_iff. exists b; auto.
           ++ destruct (xi_arcs0 ND a b Ha Hb) as [Q|[Q|(c & Ec & Q)]]; auto; [|right; right; exists c; auto]. left. apply in_mid_push with (t := XPush u); auto. congruence.
      * assert (AZ : x_size bound g tg (XPush u) = 1 + x_rest_size es) by reflexivity. destruct es as [|[a b] es']; cbn [x_start]; auto. rewrite AZ. unfold x_rest_size. cbn [x_size hk_size map sum fst snd]. unfold x_rest_size. lia.
  - destruct Ht as [Ht HR]. destruct (@hk_step_ok n W HW comp t C Ht) as (o & comp' & E & C' & B & OK & Q). rewrite E. cbn [bind fst snd].
    set (o' := match o with Some t' => Some (XHook t' rest) | None => x_start rest end). exists o', comp'. split; auto.
    assert (PO : oxpend o' = hopend o ++ rest) by (unfold o'; destruct o; cbn [oxpend xpend hopend app]; auto; apply oxpend_start).
    assert (QE : forall a b, Qx comp' (l1 ++ opt_list o' ++ l2) a b <-> Qx comp (l1 ++ XHook t rest :: l2) a b).
    { intros a b. rewrite Qx_mid, Qx_mid1, PO. cbn [xpend].
      assert (X1 : (cedges comp' ++ hopend o ++ rest) ++ concat (map xpend (l1 ++ l2)) = (cedges comp' ++ hopend o) ++ rest ++ concat (map xpend (l1 ++ l2))) by now rewrite !app_assoc.
      assert (X2 : (cedges comp ++ hk_pend t :: rest) ++ concat (map xpend (l1 ++ l2)) = (cedges comp ++ [hk_pend t]) ++ rest ++ concat (map xpend (l1 ++ l2))) by (rewrite <- !app_assoc; reflexivity).
      rewrite X1, X2. apply Q. }
    split.
    + destruct I. constructor; auto.
      * apply Forall_app. split; [eapply Forall_impl; [|exact F1]; intros x; now apply x_ok_below|]. apply Forall_app. split; [|eapply Forall_impl; [|exact F3]; intros x; now apply x_ok_below].
        unfold o'. destruct o as [t'|]; [constructor; [split; tauto|constructor]|]. destruct rest as [|[a b] rest']; cbn [x_start opt_list]; constructor; auto.
        assert (R := HR a b (or_introl eq_refl)). repeat split; try tauto; apply (HR a0 b0); now right.
      * intros a b. rewrite QE. auto.
      * intros a b. rewrite QE. auto.
      * intros ND a b Ha Hb. rewrite !QE. destruct (xi_arcs0 ND a b Ha Hb) as [K|[K|(c & Ec & K)]]; auto.
        -- left. apply in_mid_push with (t := XHook t rest); auto. discriminate.
        -- right. right. exists c. rewrite QE. auto.
    + unfold o'. destruct o as [t'|]; cbn [x_size]; [lia|]. destruct rest as [|[a b] rest']; cbn [x_start]; auto. unfold x_rest_size. cbn [x_size hk_size map sum fst snd]. unfold x_rest_size. lia.
  - cbn [x_ok] in Ht. rewrite (lab_get C Ht), (@vget_nth _ g u []) by auto. cbn [bind]. exists (x_min u (lab comp u) (nth u g [])), comp. split; auto.
    assert (LU := proj2 C u Ht). assert (CU := SL u Ht). split.
    + apply x_inv_quiet with (t := XPull u); auto; try discriminate; unfold x_min; destruct (nth u g []) as [|v r] eqn:ER; auto; intros t' E; injection E as <-; repeat split; auto.
      intros y J. unfold edge. now rewrite ER.
    + unfold x_min. cbn [x_size]. destruct (nth u g []); cbn [x_size length]; lia.
  - destruct Ht as (Hu & Hm & CU & HR). destruct rest as [|v r].
    + exists (Some (XP1 u m)), comp. split; auto. split; [|cbn [x_size length]; lia].
      apply x_inv_quiet with (t := XMin u m []); auto; try discriminate. intros t' E. injection E as <-. repeat split; auto.
    + assert (Ev := HR v (or_introl eq_refl)). assert (Hv := HT _ _ Ev). rewrite (lab_get C Hv). cbn [bind]. eexists _, comp. split; [reflexivity|].
      assert (CM : conn G u (Nat.min m (lab comp v))).
      { destruct (Nat.min_spec m (lab comp v)) as [[_ ->]|[_ ->]]; auto. eapply conn_trans; [apply conn_edge, in_gedges; eauto|auto]. }
      split.
      * apply x_inv_quiet with (t := XMin u m (v :: r)); auto; try discriminate; unfold x_min; destruct r as [|y r]; auto; intros t' E; injection E as <-; repeat split; auto; try lia.
        intros z J. apply HR. now right.
      * unfold x_min. cbn [x_size length]. destruct r; cbn [x_size length]; lia.
  - destruct Ht as (Hu & Hm & CU). rewrite (lab_get C Hu). cbn [bind]. assert (LU := proj2 C u Hu). destruct (Nat.eqb_spec (lab comp u) m) as [E|N].
    + exists None, comp. split; auto. split; auto. apply x_inv_quiet with (t := XP1 u m); auto; discriminate.
    + exists (Some (XHook (HkHigh (lab comp u) m) [])), comp. split; auto. split.
      2:{ unfold x_rest_size. cbn [x_size hk_size]. unfold x_rest_size. cbn [map sum]. lia. }
      assert (QM : forall a b, Qx comp (l1 ++ XP1 u m :: l2) a b -> Qx comp (l1 ++ opt_list (Some (XHook (HkHigh (lab comp u) m) [])) ++ l2) a b).
      { intros a b. rewrite Qx_mid, Qx_mid1. cbn [oxpend xpend]. apply conn_incl. intros x. rewrite !in_app_iff. simpl (In x []). tauto. }
      destruct I. constructor; auto.
      * apply Forall_app. split; auto. constructor; auto. split; [|intros a b []]. repeat split; cbn [hk_pend fst snd]; auto; lia.
      * intros a b. rewrite Qx_mid. cbn [oxpend xpend hk_pend]. apply conn_mono. intros x y J. rewrite !in_app_iff in J. destruct J as [[J|[J|[]]]|J].
        -- apply xi_sound0. apply conn_app1, conn_edge; auto.
        -- injection J as <- <-. eapply conn_trans; [apply conn_sym, SL; auto|auto].
        -- apply xi_sound0. rewrite Qx_mid1. apply conn_app2, conn_edge; auto.
      * intros ND a b Ha Hb. destruct (xi_arcs0 ND a b Ha Hb) as [K|[K|(c & Ec & K)]]; auto; [|right; right; exists c; auto].
        left. apply in_mid_push with (t := XP1 u m); auto. discriminate.
Qed.

Lemma Qx_nil comp u v : Qx comp [] u v <-> conn (cedges comp) u v.
Proof. unfold Qx. simpl. now rewrite app_nil_r. Qed.
Lemma Qx_none comp ts u v : (forall t, In t ts -> xpend t = []) -> (Qx comp ts u v <-> conn (cedges comp) u v).
Proof.
  intros H. unfold Qx. replace (concat (map xpend ts)) with (@nil (nat * nat)); [now rewrite app_nil_r|].
  induction ts as [|t ts IH]; auto. cbn [map concat]. rewrite (H t (or_introl eq_refl)). apply IH. intros t' I. apply H. now right.
Qed.
End Loops.

Section Algorithms.
Variables (W : nat) (g : list (list nat)).
Notation n := (length g).
Hypothesis HW : n < W.
Lemma x_init_small : x_init W n = seq 0 n.
Proof. unfold x_init. rewrite Nat.mod_small, Nat.sub_diag by auto. apply app_nil_r. Qed.
Lemma x_compress_small sched comp : length comp < W -> x_compress W sched comp = compress sched comp.
Proof. intros H. unfold x_compress. now rewrite Nat.mod_small by auto. Qed.
Hypothesis HT : targets_ok g.
Notation G := (gedges g).
(** Labels that only join what is connected. *)
Definition sound (comp : list nat) : Prop := comp_ok n comp /\ forall u v, conn (cedges comp) u v -> conn G u v.
Lemma sound_seq : sound (seq 0 n).
Proof. split; [apply comp_ok_seq|]. intros u v H. apply cedges_seq in H. subst. apply conn_refl. Qed.

Lemma x_pull_ok sched comp : sound comp -> exists comp', x_pull W sched g comp = Ok comp' /\ sound comp'.
Proof.
  intros [C S]. unfold x_pull. rewrite Nat.mod_small by auto.
  destruct (@run_all_inv _ _ (x_size None g []) (x_step W None None g []) (x_inv g [] None None comp False)
     (@x_step_ok W g [] None None (Nat.lt_le_incl _ _ HW) HT (or_introl eq_refl) comp False) sched (map XPull (seq 0 n)) comp) as (comp' & E & I).
  - assert (Q0 : forall u v, Qx comp (map XPull (seq 0 n)) u v <-> conn (cedges comp) u v).
    { intros u v. apply Qx_none. intros t J. apply in_map_iff in J. now destruct J as (x & <- & J). }
    constructor; auto; try tauto.
    + apply Forall_forall. intros t J. apply in_map_iff in J. destruct J as (x & <- & J). apply in_seq in J. cbn [x_ok]. lia.
    + intros u v. rewrite Q0. auto.
    + intros u v. rewrite Q0. auto.
  - exists comp'. split; auto. destruct I. split; auto. intros u v H. apply xi_sound0. now apply Qx_nil.
Qed.
Lemma x_push_ok sched dom bound tg comp : sound comp -> tg = [] \/ transpose_of g tg ->
  exists comp', x_push W sched dom bound g tg comp = Ok comp' /\ sound comp' /\
    (forall u v, conn (cedges comp) u v -> conn (cedges comp') u v) /\
    forall u v, u < n -> In v (xarcs g tg bound u) -> conn (cedges comp') u v \/ exists c, dom = Some c /\ conn (cedges comp') u c.
Proof.
  intros [C S] HTG. unfold x_push. rewrite Nat.mod_small by auto.
  destruct (@run_all_inv _ _ (x_size bound g tg) (x_step W dom bound g tg) (x_inv g tg bound dom comp True)
     (@x_step_ok W g tg bound dom (Nat.lt_le_incl _ _ HW) HT HTG comp True) sched (map XPush (seq 0 n)) comp) as (comp' & E & I).
  - assert (Q0 : forall u v, Qx comp (map XPush (seq 0 n)) u v <-> conn (cedges comp) u v).
    { intros u v. apply Qx_none. intros t J. apply in_map_iff in J. now destruct J as (x & <- & J). }
    constructor; auto; try tauto.
    + apply Forall_forall. intros t J. apply in_map_iff in J. destruct J as (x & <- & J). apply in_seq in J. cbn [x_ok]. lia.
    + intros u v. rewrite Q0. auto.
    + intros u v. rewrite Q0. auto.
    + intros _ u v Hu _. left. apply in_map, in_seq. lia.
  - exists comp'. split; auto. destruct I. split; [split; auto|split].
    + intros u v H. apply xi_sound0. now apply Qx_nil.
    + intros u v H. apply Qx_nil. auto.
    + intros u v Hu Hv. destruct (xi_arcs0 Logic.I u v Hu Hv) as [[]|[Q|(c & Ec & Q)]]; [left; now apply Qx_nil|right; exists c; split; auto; now apply Qx_nil].
Qed.
(** The label of every vertex is the least vertex of its component. *)
Definition least (comp : list nat) : Prop := length comp = n /\
  forall v, v < n -> conn G v (nth v comp v) /\ forall w, w < n -> conn G v w -> nth v comp v <= w.
Lemma finish sched comp : sound comp -> (forall u v, edge g u v -> conn (cedges comp) u v) ->
  exists comp', x_compress W sched comp = Ok comp' /\ least comp'.
Proof.
  intros [C S] H. rewrite x_compress_small by (destruct C; lia). destruct (compress_ok sched C) as (comp' & E & L & R). exists comp'. split; auto. split; auto.
  intros v Hv. rewrite R by auto. split; [apply S, (climb_conn C); auto|].
  intros w Hw K. apply (root_least C Hv Hw). revert K. apply conn_mono. intros a b I. apply in_gedges in I. auto.
Qed.
Lemma sound_compress sched comp : sound comp -> exists comp', x_compress W sched comp = Ok comp' /\ sound comp'.
Proof.
  intros [C S]. rewrite x_compress_small by (destruct C; lia). destruct (compress_ok sched C) as (comp' & E & L & R). exists comp'. split; auto.
  destruct (compress_conn _ C L R) as [C' Q]. split; auto. intros u v. rewrite Q. auto.
Qed.
Lemma push_all_arcs sched comp : sound comp -> exists comp', x_push W sched None None g [] comp = Ok comp' /\ sound comp' /\
  forall u v, edge g u v -> conn (cedges comp') u v.
Proof.
  intros S. destruct (@x_push_ok sched None None [] comp S (or_introl eq_refl)) as (comp' & E & S' & _ & A). exists comp'. split; auto. split; auto.
  intros u v Ed. destruct (A u v (edge_lt _ _ _ Ed)) as [Q|(c & Ec & _)]; auto; [|discriminate]. unfold xarcs. apply in_or_app. auto.
Qed.
(** The second loop of Afforest and ccv5: the vertices labelled [c] are skipped. *)
Lemma push_rest sched c tg comp : sound comp -> (tg = [] /\ forall u v, edge g u v -> edge g v u) \/ transpose_of g tg ->
  exists comp', x_push W sched (Some c) None g tg comp = Ok comp' /\ sound comp' /\ forall u v, edge g u v -> conn (cedges comp') u v.
Proof.
  intros S HC. assert (HTG : tg = [] \/ transpose_of g tg) by tauto.
  destruct (@x_push_ok sched (Some c) None tg comp S HTG) as (comp' & E & S' & _ & A). exists comp'. split; auto. split; auto.
  assert (A' : forall u v, u < n -> In v (nth u g [] ++ nth u tg []) -> conn (cedges comp') u v \/ conn (cedges comp') u c).
  { intros u v Hu Hv. destruct (A u v Hu Hv) as [Q|(c' & Ec & Q)]; auto. injection Ec as <-. auto. }
  intros u v Ed. assert (Hu := edge_lt _ _ _ Ed). assert (Hv := HT _ _ Ed).
  destruct (A' u v Hu (in_or_app _ _ _ (or_introl Ed))) as [Q|Q]; auto.
  assert (B : conn (cedges comp') v u \/ conn (cedges comp') v c).
  { apply A'; auto. destruct HC as [[_ SY]|[LT TR]]; apply in_or_app; [left; apply SY; auto|right; apply TR; auto]. }
  destruct B as [B|B]; [now apply conn_sym|]. eapply conn_trans; [exact Q|now apply conn_sym].
Qed.
Lemma ccv1_ok sched : exists comp, ccv1 W sched g = Ok comp /\ least comp.
Proof.
  unfold ccv1. rewrite x_init_small. destruct (push_all_arcs (sched 0) sound_seq) as (c1 & E & S & A). rewrite E. cbn [bind]. now apply finish.
Qed.
Lemma cc_v2_ok sched : exists comp, cc_v2 W sched g = Ok comp /\ least comp.
Proof.
  unfold cc_v2. rewrite x_init_small. destruct (x_pull_ok (sched 0) sound_seq) as (c0 & E0 & S0). rewrite E0. cbn [bind].
  destruct (push_all_arcs (sched 1) S0) as (c1 & E & S & A). rewrite E. cbn [bind]. now apply finish.
Qed.
Lemma ccv5_ok sched pick : (forall u v, edge g u v -> edge g v u) -> exists comp, ccv5 W sched pick g = Ok comp /\ least comp.
Proof.
  intros SY. unfold ccv5. rewrite x_init_small. destruct (x_pull_ok (sched 0) sound_seq) as (c0 & E0 & S0). rewrite E0. cbn [bind].
  destruct (@push_rest (sched 1) (pick c0) [] c0 S0 (or_introl (conj eq_refl SY))) as (c1 & E & S & A). rewrite E. cbn [bind]. now apply finish.
Qed.
Lemma afforest_x_ok sched pick tg bound : (tg = [] /\ forall u v, edge g u v -> edge g v u) \/ transpose_of g tg ->
  exists comp, afforest_x W sched pick g tg bound = Ok comp /\ least comp.
Proof.
  intros HC. unfold afforest_x. rewrite x_init_small. destruct (@x_push_ok (sched 0) None (Some bound) [] _ sound_seq (or_introl eq_refl)) as (c0 & E0 & S0 & _). rewrite E0. cbn [bind].
  destruct (sound_compress (sched 1) S0) as (c1 & E1 & S1). rewrite E1. cbn [bind].
  destruct (@push_rest (sched 2) (pick c1) tg c1 S1 HC) as (c2 & E & S & A). rewrite E. cbn [bind]. now apply finish.
Qed.
End Algorithms.

(** * ccv5 when only vertex 0 has arcs *)
Section Star.
Variables (W : nat) (g : list (list nat)).
Hypothesis HT : targets_ok g.
Hypothesis HW : length g < W.
Hypothesis H0 : forall u v, edge g u v -> u = 0.
Let n := length g.
Definition idle (t : xt) : Prop :=
  match t with
  | XPush u | XPull u => u < n
  | XMin u m rest => u < n /\ m = u /\ forall v, In v rest -> u <= v /\ v < n
  | XP1 u m => u < n /\ m = u
  | XHook _ _ => False
  end.
Lemma get_seq u : u < n -> vget (seq 0 n) u = Ok u.
Proof. intros H. rewrite (@vget_nth _ _ u 0) by now rewrite seq_length. f_equal. now apply seq_nth. Qed.
Lemma idle_run dom sched ts : (dom = Some 0 \/ (dom = None /\ forall t, In t ts -> match t with XPush _ => False | _ => True end)) -> Forall idle ts ->
  run_all (x_size None g []) (x_step W dom None g []) sched ts (seq 0 n) = Ok (seq 0 n).
Proof.
  intros HD HF.
  destruct (@run_all_inv _ _ (x_size None g []) (x_step W dom None g [])
    (fun ts s => s = seq 0 n /\ Forall idle ts /\ (dom = Some 0 \/ (dom = None /\ forall t, In t ts -> match t with XPush _ => False | _ => True end))))
    with (sched := sched) (ts := ts) (s := seq 0 n) as (s' & E & -> & _); auto.
  clear HF HD. intros l1 t l2 s (-> & HF & HD). apply Forall_app in HF. destruct HF as [F1 F2]. inversion F2 as [|t' l' Ht F3]; subst.
  assert (RE : forall o : option xt, match o with Some t' => idle t' /\ match t' with XPush _ => False | _ => True end | None => True end ->
     seq 0 n = seq 0 n /\ Forall idle (l1 ++ opt_list o ++ l2) /\ (dom = Some 0 \/ (dom = None /\ forall t, In t (l1 ++ opt_list o ++ l2) -> match t with XPush _ => False | _ => True end))).
  { intros o Ho. split; auto. split; [rewrite !Forall_app; repeat split; auto; destruct o; constructor; tauto || constructor|]. destruct HD as [HD|[HD HP]]; auto. right. split; auto.
    intros t' I. rewrite !in_app_iff in I. destruct I as [I|[I|I]].
    - apply HP. rewrite in_app_iff. auto.
    - destruct o as [x|]; [destruct I as [<-|[]]; tauto|destruct I].
    - apply HP. rewrite in_app_iff. right. now right. }
  destruct t as [u|t rest|u|u m rest|u m]; cbn [idle x_step] in *.
  - rewrite (get_seq Ht). cbn [bind]. destruct HD as [->|[_ HP]].
    + destruct (Nat.eqb_spec 0 u) as [E|N].
      * eexists _, _. split; [reflexivity|]. split; auto; apply RE; auto.
      * unfold x_arcs. rewrite (@vget_nth _ g u []) by auto. cbn [bind length Nat.eqb]. assert (X : nth u g [] = []).
        { destruct (nth u g []) as [|v r] eqn:E; auto. exfalso. apply N. symmetry. apply (@H0 u v). unfold edge. rewrite E. now left. }
        rewrite X. cbn [app map x_start bind]. eexists _, _. split; [reflexivity|]. split; auto; apply RE; auto.
    + destruct (HP (XPush u)). apply in_or_app. right. now left.
  - destruct Ht.
  - rewrite (get_seq Ht). cbn [bind]. rewrite (@vget_nth _ g u []) by auto. cbn [bind].
    assert (RW : forall v, In v (nth u g []) -> u <= v /\ v < n).
    { intros v I. rewrite (@H0 u v I) at 1. split; [lia|]. eapply HT; exact I. }
    eexists _, _. split; [reflexivity|]. unfold x_min. destruct (nth u g []) as [|v r] eqn:E.
    + split; [apply RE; cbn [idle]; auto|]. cbn [x_size]. lia.
    + split; [apply RE; cbn [idle]; auto|]. cbn [x_size]. rewrite E. lia.
  - destruct Ht as (Hu & -> & HR). destruct rest as [|v r].
    + eexists _, _. split; [reflexivity|]. split; [apply RE; cbn [idle]; auto|]. cbn [x_size length]. lia.
    + destruct (HR v (or_introl eq_refl)) as [LE LT]. rewrite (get_seq LT). cbn [bind]. rewrite Nat.min_l by auto. eexists _, _. split; [reflexivity|]. unfold x_min. destruct r as [|v' r'].
      * split; [apply RE; cbn [idle]; auto|]. cbn [x_size length]. lia.
      * split; [apply RE; cbn [idle]; split; auto; split; auto; split; auto; intros z I; apply HR; now right|]. cbn [x_size length]. lia.
  - destruct Ht as (Hu & ->). rewrite (get_seq Hu). cbn [bind]. rewrite Nat.eqb_refl. eexists _, _. split; [reflexivity|]. split; auto; apply RE; auto.
Qed.
Lemma ccv5_star sched : ccv5 W sched (fun _ => 0) g = Ok (seq 0 n).
Proof.
  unfold ccv5, x_pull, x_push. rewrite x_init_small by auto. rewrite Nat.mod_small by auto. fold n. rewrite idle_run.
  2: right; split; auto; intros t I; apply in_map_iff in I; destruct I as (u & <- & _); exact I.
  2: apply Forall_forall; intros t I; apply in_map_iff in I; destruct I as (u & <- & I); apply in_seq in I; cbn [idle]; lia.
  cbn [bind]. rewrite idle_run; auto.
  2: apply Forall_forall; intros t I; apply in_map_iff in I; destruct I as (u & <- & I); apply in_seq in I; cbn [idle]; lia.
  cbn [bind]. rewrite x_compress_small by now rewrite seq_length. destruct (@compress_ok n (sched 2) (seq 0 n) (comp_ok_seq n)) as (comp & E & L & H). rewrite E. f_equal. apply nth_ext with 0 0; [now rewrite seq_length|].
  intros x Hx. rewrite L in Hx. rewrite (nth_indep _ 0 x) by lia. rewrite H by auto. rewrite root_fix; [|unfold lab]; rewrite ?seq_nth; auto.
Qed.
End Star.

(** * As many vertices as the id type has values *)
Lemma full_init W : 0 < W -> x_init W W = repeat 0 W.
Proof. intros H. unfold x_init. rewrite Nat.mod_same by lia. cbn [seq app]. now rewrite Nat.sub_0_r. Qed.
Lemma full_compress W sched comp : 0 < W -> length comp = W -> x_compress W sched comp = Ok comp.
Proof. intros H L. unfold x_compress. rewrite L, Nat.mod_same by lia. cbn [seq map]. now destruct (6 * sum comp + 7 * W). Qed.
Lemma run_all_nil (T S : Type) (size : T -> nat) step sched (s : S) : run_all size step sched [] s = Ok s.
Proof. unfold run_all. cbn [map sum length]. reflexivity. Qed.
Lemma full_push W sched dom bound g tg comp : 0 < W -> length g = W -> x_push W sched dom bound g tg comp = Ok comp.
Proof. intros H L. unfold x_push. rewrite L, Nat.mod_same by lia. apply run_all_nil. Qed.
Lemma full_pull W sched g comp : 0 < W -> length g = W -> x_pull W sched g comp = Ok comp.
Proof. intros H L. unfold x_pull. rewrite L, Nat.mod_same by lia. apply run_all_nil. Qed.
Lemma full_x W sched pick g tg bound : 0 < W -> length g = W ->
  ccv1 W sched g = Ok (repeat 0 W) /\ cc_v2 W sched g = Ok (repeat 0 W) /\ ccv5 W sched pick g = Ok (repeat 0 W) /\
  afforest_x W sched pick g tg bound = Ok (repeat 0 W).
Proof.
  intros H L. unfold ccv1, cc_v2, ccv5, afforest_x. rewrite L, full_init, !full_push, !full_pull by auto. cbn [bind]. rewrite !full_push by auto. cbn [bind].
  rewrite !full_compress by (auto; apply repeat_length). cbn [bind]. rewrite !full_push by auto. cbn [bind]. rewrite !full_compress by (auto; apply repeat_length). auto.
Qed.
