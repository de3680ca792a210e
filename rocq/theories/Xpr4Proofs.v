(** More lemmas for C69: v12 with any threshold. *)
From Coq Require Import List Arith ZArith QArith Qabs Lqa Lia Bool Permutation.
From Verif Require Import Base Pool RangeModel PforModel PageRankModel PageRankLib PageRankProofs PageRankProperties XprModel XprProofs Xpr2Proofs Xpr3Proofs.
Import ListNotations.
Set Implicit Arguments.
Local Open Scope nat_scope.

(** One sweep from a to y: as [async], but contributions of at most the threshold may be left out.  An entry is a neighbour,
    the value it had, and whether its contribution was added. *)
Definition ent : Type := nat * Q * bool.
Definition e_id (p : ent) : nat := fst (fst p).
Definition e_val (p : ent) : Q := snd (fst p).
Definition dropping (g : list (list nat)) (deg : nat -> nat) (d thr : Q) (a y : nat -> Q) : Prop := forall i, i < length g -> exists bs : list ent,
  map e_id bs = nth i g [] /\
  (forall p, In p bs -> ((0 <= e_val p) /\ (e_val p == a (e_id p) \/ e_val p == y (e_id p)) /\ (snd p = false -> e_val p / qn (deg (e_id p)) <= thr))%Q) /\
  (y i == (1 - d) / qn (length g) + d * qsum (map (fun p : ent => if snd p then e_val p / qn (deg (e_id p)) else 0) bs))%Q.

Section Drop.
Variables (g : list (list nat)) (deg : list nat) (d thr : Q).
Notation n := (length g).
Notation degf := (fun j => nth j deg 0).
Notation base := ((1 - d) / qn n)%Q.
Notation dist y a := (qs n (fun i => Qabs (y i - a i))%Q).
Hypothesis IN : pr_input g degf d.
Hypothesis LD : n <= length deg.
Variables (a : nat -> Q) (L : nat).
Hypothesis HL : n <= L.
Hypothesis A0 : forall i, i < n -> (0 <= a i)%Q.

Definition owes (t : ftask) (k : nat) : Prop := match t with FT i _ _ => i = k | FA i _ _ _ => i = k | FW _ => False end.
Definition fin (ts : list ftask) (k : nat) : Prop := forall t, In t ts -> ~ owes t k.
Definition seen (y : nat -> Q) (ts : list ftask) (bs : list ent) : Prop :=
  forall p, In p bs -> ((0 <= e_val p) /\ (e_val p == a (e_id p) \/ (e_val p == y (e_id p) /\ fin ts (e_id p))) /\ (snd p = false -> e_val p / qn (degf (e_id p)) <= thr))%Q.
Definition ksum (bs : list ent) : Q := qsum (map (fun p : ent => if snd p then e_val p / qn (degf (e_id p)) else 0)%Q bs).
Definition partial (y : nat -> Q) (ts : list ftask) (i : nat) (l : list nat) (z : num) : Prop :=
  y i = a i /\ exists bs z', nth i g [] = map e_id bs ++ l /\ z = Some z' /\ (z' == ksum bs)%Q /\ seen y ts bs.
Definition ftask_ok (y : nat -> Q) (ts : list ftask) (t : ftask) : Prop :=
  match t with FT i l z => partial y ts i l z | FA i j l z => partial y ts i (j :: l) z | FW i => True end.
Record dw (ts : list ftask) (st : prst) (y : nat -> Q) : Prop := {
  d_len : length (pr_rank st) = L;
  d_olen : length (pr_out st) = n;
  d_rank : forall i, i < n -> nth_error (pr_rank st) i = Some (Some (y i));
  d_nn : forall i, i < n -> (0 <= y i)%Q;
  d_nd : NoDup (map fid ts);
  d_task : forall t, In t ts -> fid t < n /\ ftask_ok y ts t;
  d_out : forall j, j < n -> exists v, nth_error (pr_out st) j = Some (odivn (Some v) (degf j)) /\ (v = a j \/ (v = y j /\ fin ts j)) /\ (~ In j (map fid ts) -> v = y j);
  d_done : forall i, i < n -> fin ts i -> exists bs, nth i g [] = map e_id bs /\ seen y ts bs /\ (y i == base + d * ksum bs)%Q;
  d_err : exists e, pr_err st = Some e /\ (e == dist y a)%Q
}.
Lemma ksum_app l l' : (ksum (l ++ l') == ksum l + ksum l')%Q.
Proof. unfold ksum. rewrite map_app. apply qsum_app. Qed.
Lemma ksum_nn y ts bs : seen y ts bs -> (0 <= ksum bs)%Q.
Proof. intros H. apply qsum_map_nn. intros p I. destruct (snd p); [|lra]. apply div_nn. now apply H. Qed.
Lemma seen_mono y y' ts ts' bs : seen y ts bs -> (forall k, fin ts k -> fin ts' k /\ y' k = y k) -> seen y' ts' bs.
Proof. intros H F p I. destruct (H p I) as (A & B & C). split; auto. split; auto. destruct B as [B|[B F1]]; auto. right. destruct (F _ F1) as [F2 ->]. auto. Qed.
Lemma partial_mono y y' ts ts' i l z : partial y ts i l z -> y' i = y i -> (forall k, fin ts k -> fin ts' k /\ y' k = y k) -> partial y' ts' i l z.
Proof. intros (A & bs & z' & R & E & Z & SE) Y F. split; [congruence|]. exists bs, z'. repeat split; auto; try (eapply seen_mono; eauto). Qed.

Lemma fin_same l1 t t' l2 : (forall k, owes t' k -> owes t k) -> forall k, fin (l1 ++ t :: l2) k -> fin (l1 ++ t' :: l2) k.
Proof. intros H k F x I O. apply in_app_or in I. destruct I as [I|[<-|I]]; [eapply F; eauto; apply in_or_app; auto|apply (F t); auto; apply in_or_app; right; now left|apply (F x); auto; apply in_or_app; right; now right]. Qed.

(** A step that only moves its own task on. *)
Lemma move l1 t t' l2 st y : dw (l1 ++ t :: l2) st y -> fid t' = fid t -> (forall k, owes t' k <-> owes t k) -> ftask_ok y (l1 ++ t' :: l2) t' -> dw (l1 ++ [t'] ++ l2) st y.
Proof.
  intros W EF EO TK. cbn [app]. assert (IDS : map fid (l1 ++ t' :: l2) = map fid (l1 ++ t :: l2)) by (rewrite !map_app; cbn [map]; now rewrite EF).
  assert (F1 := @fin_same l1 t t' l2 (fun k => proj1 (EO k))). assert (F2 := @fin_same l1 t' t l2 (fun k => proj2 (EO k))).
  assert (FM : forall k, fin (l1 ++ t :: l2) k -> fin (l1 ++ t' :: l2) k /\ y k = y k) by auto.
  constructor; try apply W.
  - rewrite IDS. apply W.
  - intros x I. apply in_app_or in I. destruct I as [I|[<-|I]].
    + destruct (d_task W x) as [A B]; [apply in_or_app; auto|]. split; auto. destruct x; cbn [ftask_ok] in *; auto; eapply partial_mono; eauto.
    + split; auto. rewrite EF. apply (d_task W t). apply in_or_app. right. now left.
    + destruct (d_task W x) as [A B]; [apply in_or_app; right; now right|]. split; auto. destruct x; cbn [ftask_ok] in *; auto; eapply partial_mono; eauto.
  - intros j Hj. destruct (d_out W Hj) as (v & E & V & T). exists v. split; auto. split; [|now rewrite IDS]. destruct V as [V|[V F]]; auto.
  - intros i Hi F. destruct (d_done W Hi (F2 i F)) as (bs & R & SE & E). exists bs. split; auto. split; auto. eapply seen_mono; eauto.
Qed.

Lemma drop_step_ok l1 t l2 st : (exists y, dw (l1 ++ t :: l2) st y) ->
  exists o st', v12_step deg base d thr t st = Ok (o, st') /\ (exists y, dw (l1 ++ opt_list o ++ l2) st' y) /\ match o with Some t' => v12_size t' < v12_size t | None => True end.
Proof.
  intros (y & W). assert (IT : In t (l1 ++ t :: l2)) by (apply in_or_app; right; now left). destruct (d_task W t IT) as [Lt TK].
  assert (ND := d_nd W). rewrite map_app in ND. cbn [map] in ND.
  assert (NI : forall t', In t' (l1 ++ l2) -> fid t' <> fid t).
  { intros t' I E. apply NoDup_remove_2 in ND. apply ND. rewrite <- E, <- map_app. now apply in_map. }
  assert (SUB : forall x, In x (l1 ++ l2) -> In x (l1 ++ t :: l2)) by (intros x X; apply in_app_or in X; apply in_or_app; destruct X; [left|right; right]; auto).
  assert (OW : forall x k, owes x k -> fid x = k) by (intros [| |] k; cbn; tauto).
  assert (RD : forall i j, In j (nth i g []) -> exists v, vget (pr_out st) j = Ok (Some (v / qn (degf j))%Q) /\ (0 <= v)%Q /\ (v = a j \/ (v = y j /\ fin (l1 ++ t :: l2) j))).
  { intros i j IJ. assert (Lj := pi_tgt IN i j IJ). assert (DJ := @occ_in g deg d IN LD n (le_n _) i j IJ). cbn beta in DJ. destruct (d_out W Lj) as (v & E & V & _). exists v. split.
    - apply vget_Ok. rewrite E. unfold odivn. destruct (Nat.eqb_spec (nth j deg 0) 0); [lia|reflexivity].
    - split; auto. destruct V as [->|[-> _]]; [now apply A0|now apply (d_nn W)]. }
  destruct t as [i [|j l] z|i j l z|i]; cbn [fid] in *; cbn [v12_step].
  - (* the score *)
    destruct TK as (YA & bs & z' & ER & -> & EZ & SE). rewrite app_nil_r in ER. rewrite (proj2 (vget_Ok _ _ _) (d_rank W Lt)). cbn [bind]. assert (LR := d_len W). rewrite vset_lt by lia. cbn [bind].
    eexists _, _. split; [reflexivity|]. split; [|cbn [v12_size length]; lia]. cbn [opt_list app]. unfold new_rank, oplus, gap. cbn [olift2].
    set (new := (base + d * z')%Q). exists (fun k => if k =? i then new else y k).
    assert (NF : forall k, fin (l1 ++ FT i [] (Some z') :: l2) k -> k <> i) by (intros k F ->; apply (F _ IT); reflexivity).
    assert (FM : forall k, fin (l1 ++ FT i [] (Some z') :: l2) k -> fin (l1 ++ FW i :: l2) k /\ (if k =? i then new else y k) = y k).
    { intros k F. split; [revert F; apply fin_same; intros k' []|]. destruct (Nat.eqb_spec k i); auto. now destruct (NF k F). }
    assert (IDS : map fid (l1 ++ FW i :: l2) = map fid (l1 ++ FT i [] (Some z') :: l2)) by (rewrite !map_app; reflexivity).
    assert (D0 := pi_d0 IN). assert (B0 : (0 <= base)%Q) by (apply base_1 with (deg := deg); auto).
    constructor; cbn [pr_rank pr_out pr_err].
    + now rewrite upd_length.
    + apply W.
    + intros k Hk. destruct (Nat.eqb_spec k i) as [->|N]; [apply vget_Ok, vget_upd_eq; lia|]. apply vget_Ok. rewrite vget_upd_neq by auto. apply vget_Ok. now apply W.
    + intros k Hk. destruct (Nat.eqb_spec k i); [|now apply (d_nn W)]. unfold new. assert (X := ksum_nn SE). rewrite <- EZ in X. assert (Y : (0 <= d * z')%Q) by (apply Qmult_le_0_compat; auto). lra.
    + rewrite IDS. apply W.
    + intros x I. assert (C : x = FW i \/ In x (l1 ++ l2)) by (rewrite in_app_iff in *; cbn [In] in I; intuition auto). destruct C as [->|I']; [split; auto; exact Logic.I|].
      destruct (d_task W x (SUB _ I')) as [A B]. split; auto. assert (NE := NI _ I'). destruct x as [k l z|k j l z|k]; cbn [ftask_ok fid] in *; auto; (eapply partial_mono; [exact B| |exact FM]); destruct (Nat.eqb_spec k i); auto; contradiction.
    + intros k Hk. destruct (d_out W Hk) as (v & E & V & T). exists v. split; auto. split.
      * destruct V as [V|[V F]]; auto. right. destruct (FM k F) as [F' ->]. auto.
      * rewrite IDS. intros NK. destruct (Nat.eqb_spec k i) as [->|]; auto. exfalso. apply NK. rewrite map_app. apply in_or_app. right. now left.
    + intros k Hk F. destruct (Nat.eqb_spec k i) as [->|N].
      * exists bs. split; auto. split; [eapply seen_mono; eauto|]. unfold new. rewrite EZ. reflexivity.
      * destruct (d_done W Hk) as (bs1 & R1 & S1 & E1); [|exists bs1; split; auto; split; auto; eapply seen_mono; eauto].
        intros x I O. apply in_app_or in I. destruct I as [I|[<-|I]]; [apply (F x); auto; apply in_or_app; auto|cbn in O; congruence|apply (F x); auto; apply in_or_app; right; now right].
    + destruct (d_err W) as (e & EE & EQ). rewrite EE. cbn [olift2]. eexists. split; [reflexivity|]. rewrite EQ, YA.
      assert (DL := @qs_delta n i (Qabs (new - a i)) Lt). rewrite <- DL. rewrite <- qs_add. apply qs_ext. intros k Hk.
      destruct (Nat.eq_dec i k) as [<-|N].
      * rewrite Nat.eqb_refl, YA. setoid_replace (a i - a i)%Q with 0%Q by lra. change (Qabs 0) with 0%Q. lra.
      * destruct (Nat.eqb_spec k i); [congruence|]. lra.
  - (* the test *)
    destruct TK as (YA & bs & z' & ER & -> & EZ & SE). assert (IJ : In j (nth i g [])) by (rewrite ER; apply in_or_app; right; now left).
    destruct (RD i j IJ) as (v & EV & V0 & V). rewrite EV. cbn [bind ogtb]. destruct (Qle_bool (v / qn (degf j)) thr) eqn:B; cbn [negb].
    + eexists _, st. split; [reflexivity|]. split; [|cbn [v12_size length]; lia]. cbn [opt_list]. exists y. eapply move; [exact W|reflexivity|intros k; reflexivity|]. cbn [ftask_ok].
      split; auto. exists (bs ++ [(j, v, false)]), z'. split; [rewrite map_app, <- app_assoc; exact ER|]. split; auto. split; [rewrite ksum_app; unfold ksum at 2; cbn [map qsum snd]; lra|].
      intros p I. apply in_app_or in I. destruct I as [I|[<-|[]]].
      * eapply seen_mono; eauto. intros k F. split; auto. revert F. apply fin_same. auto.
      * unfold e_val, e_id. cbn [fst snd]. split; auto. split; [|intros _; now apply Qle_bool_iff]. destruct V as [->|[-> F]]; [left; reflexivity|right; split; [reflexivity|]]. revert F. apply fin_same. auto.
    + eexists _, st. split; [reflexivity|]. split; [|cbn [v12_size length]; lia]. cbn [opt_list]. exists y. eapply move; [exact W|reflexivity|intros k; reflexivity|]. cbn [ftask_ok].
      split; auto. exists bs, z'. repeat split; auto; eapply seen_mono; eauto; intros k F; split; auto; revert F; apply fin_same; auto.
  - (* the addition *)
    destruct TK as (YA & bs & z' & ER & -> & EZ & SE). assert (IJ : In j (nth i g [])) by (rewrite ER; apply in_or_app; right; now left).
    destruct (RD i j IJ) as (v & EV & V0 & V). rewrite EV. cbn [bind]. unfold oplus. cbn [olift2].
    eexists _, st. split; [reflexivity|]. split; [|cbn [v12_size length]; lia]. cbn [opt_list]. exists y. eapply move; [exact W|reflexivity|intros k; reflexivity|]. cbn [ftask_ok].
    split; auto. exists (bs ++ [(j, v, true)]), (z' + v / qn (degf j))%Q. split; [rewrite map_app, <- app_assoc; exact ER|]. split; auto. split; [rewrite ksum_app, EZ; unfold ksum at 3; cbn [map qsum snd]; unfold e_val, e_id; cbn [fst snd]; lra|].
    intros p I. apply in_app_or in I. destruct I as [I|[<-|[]]].
    + eapply seen_mono; eauto. intros k F. split; auto. revert F. apply fin_same. auto.
    + unfold e_val, e_id. cbn [fst snd]. split; auto. split; [|discriminate]. destruct V as [->|[-> F]]; [left; reflexivity|right; split; [reflexivity|]]. revert F. apply fin_same. auto.
  - (* the contribution *)
    rewrite (proj2 (vget_Ok _ _ _) (d_rank W Lt)). cbn [bind]. rewrite (@vget_nth _ deg i 0) by lia. cbn [bind]. assert (LO := d_olen W). rewrite vset_lt by lia. cbn [bind].
    eexists _, _. split; [reflexivity|]. split; auto. cbn [opt_list app]. exists y.
    assert (FIN : forall k, fin (l1 ++ FW i :: l2) k <-> fin (l1 ++ l2) k).
    { intros k. split; intros F x I; [apply F; auto|]. apply in_app_or in I. destruct I as [I|[<-|I]]; [apply F, in_or_app; auto|intros []|apply F, in_or_app; auto]. }
    assert (FM : forall k, fin (l1 ++ FW i :: l2) k -> fin (l1 ++ l2) k /\ y k = y k) by (intros k F; split; auto; now apply FIN).
    constructor; cbn [pr_rank pr_out pr_err]; try apply W.
    + rewrite upd_length. apply W.
    + rewrite map_app. now apply NoDup_remove_1 in ND.
    + intros x I. destruct (d_task W x (SUB _ I)) as [A B]. split; auto. destruct x; cbn [ftask_ok] in *; auto; eapply partial_mono; eauto.
    + intros k Hk. destruct (Nat.eq_dec k i) as [->|N].
      * exists (y i). split; [apply vget_Ok, vget_upd_eq; lia|]. split; auto. right. split; auto. intros x I O. apply (NI x I). apply (OW x i O).
      * destruct (d_out W Hk) as (v & E & V & T). exists v. split; [apply vget_Ok; rewrite vget_upd_neq by auto; now apply vget_Ok|]. split.
        -- destruct V as [V|[V F]]; auto. right. split; auto. now apply FIN.
        -- intros NK. apply T. rewrite map_app in *. cbn [map fid]. rewrite in_app_iff in *. cbn [In]. intuition auto.
    + intros k Hk F. destruct (d_done W Hk (proj2 (FIN k) F)) as (bs1 & R1 & S1 & E1). exists bs1. split; auto. split; auto. eapply seen_mono; eauto.
Qed.

Lemma drop_sweep_ok sched st : between g deg L st a -> exists st' y e, v12_sweep g deg base d thr sched st = Ok st' /\ between g deg L st' y /\ (forall i, i < n -> (0 <= y i)%Q) /\ dropping g degf d thr a y /\
  pr_err st' = Some e /\ (e == dist y a)%Q.
Proof.
  intros B. unfold v12_sweep. rewrite (@rmap_ok _ _ _ (fun i => FT i (nth i g []) (Some 0%Q))).
  2:{ intros i I. apply in_seq in I. now rewrite (@vget_nth _ g i []) by lia. }
  cbn [bind]. set (ts := map (fun i => FT i (nth i g []) (Some 0%Q)) (seq 0 n)).
  assert (ID : map fid ts = seq 0 n) by (unfold ts; rewrite map_map; cbn [fid]; apply map_id).
  destruct (@run_inv _ _ (v12_step deg base d thr) v12_size (fun ts st => exists y, dw ts st y) drop_step_ok) with
    (fuel := sum (map v12_size ts) + length ts) (sched := sched) (now := 0) (ts := ts) (s := mkPr (pr_rank st) (pr_out st) (Some 0%Q)) as (st' & E & y & W); auto.
  - exists a. constructor; cbn [pr_rank pr_out pr_err]; try apply B; auto.
    + rewrite ID. apply seq_NoDup.
    + intros t I. apply in_map_iff in I. destruct I as (i & <- & I). apply in_seq in I. cbn [fid]. split; [lia|]. split; auto. exists [], 0%Q. split; auto. split; auto. split; [reflexivity|]. intros p [].
    + intros j Hj. exists (a j). split; [now apply B|auto].
    + intros i Hi F. exfalso. apply (F (FT i (nth i g []) (Some 0%Q))); [|reflexivity]. apply in_map_iff. exists i. split; auto. apply in_seq. lia.
    + exists 0%Q. split; auto. rewrite (@qs_ext n _ (fun _ => 0%Q)); [rewrite qs_const; lra|]. intros i _. setoid_replace (a i - a i)%Q with 0%Q by lra. reflexivity.
  - destruct (d_err W) as (e & EE & EQ). exists st', y, e. split; auto. split; [|split; [apply W|split; [|auto]]].
    + constructor; try apply W. intros j Hj. destruct (d_out W Hj) as (v & EV & _ & T). rewrite T in EV by (intros []). auto.
    + intros i Hi. destruct (d_done W Hi) as (bs & R & SE & EB); [intros t []|]. exists bs. split; auto. split; [|exact EB].
      intros p I. destruct (SE p I) as (X & [Y|[Y _]] & Z); auto.
Qed.
End Drop.

Section DropRes.
Variables (g : list (list nat)) (deg : nat -> nat) (d thr : Q).
Notation n := (length g).
Notation dist y a := (qs n (fun i => Qabs (y i - a i))%Q).
Hypothesis IN : pr_input g deg d.
Hypothesis T0 : (0 <= thr)%Q.
Definition arcs : nat := sum (map (@length nat) g).

Lemma drop_res a y : dropping g deg d thr a y -> forall i, i < n ->
  (Qabs (y i - pr_rhs g deg d y i) <= d * qsum (map (share (fun j => Qabs (y j - a j)) deg) (nth i g [])) + d * thr * qn (length (nth i g [])))%Q.
Proof.
  intros DR i Hi. destruct (DR i Hi) as (bs & E & HB & ->). unfold pr_rhs. rewrite <- E, map_length.
  assert (X : (Qabs (qsum (map (fun p : ent => if snd p then e_val p / qn (deg (e_id p)) else 0) bs) - qsum (map (share y deg) (map e_id bs))) <= qsum (map (share (fun j => Qabs (y j - a j)) deg) (map e_id bs)) + thr * qn (length bs))%Q).
  { clear E. induction bs as [|p bs IH]; cbn [map qsum length]; [change (qn 0) with 0%Q; change (Qabs (0 - 0)) with 0%Q; lra|].
    assert (IH' := IH (fun p I => HB p (or_intror I))). clear IH. rewrite qn_S.
    match goal with |- (Qabs (?p + ?q - (?r + ?t)) <= _)%Q => setoid_replace (p + q - (r + t))%Q with ((p - r) + (q - t))%Q by lra end.
    eapply Qle_trans; [apply Qabs_triangle|]. destruct (HB p (or_introl eq_refl)) as (V0 & VV & VD).
    assert (Y : (Qabs ((if snd p then e_val p / qn (deg (e_id p)) else 0) - share y deg (e_id p)) <= share (fun j => Qabs (y j - a j)) deg (e_id p) + thr)%Q); [|lra].
    assert (Z : (Qabs (e_val p / qn (deg (e_id p)) - share y deg (e_id p)) <= share (fun j => Qabs (y j - a j)) deg (e_id p))%Q).
    { unfold share. setoid_replace (e_val p / qn (deg (e_id p)) - y (e_id p) / qn (deg (e_id p)))%Q with ((e_val p - y (e_id p)) / qn (deg (e_id p)))%Q by (unfold Qdiv; lra).
      unfold Qdiv. rewrite Qabs_Qmult, (Qabs_pos (/ qn (deg (e_id p)))) by apply Qinv_le_0_compat, qn_nn. apply Qmult_le_compat_r; [|apply Qinv_le_0_compat, qn_nn]. destruct VV as [-> | ->].
      - rewrite Qabs_Qminus. apply Qle_refl.
      - setoid_replace (y (e_id p) - y (e_id p))%Q with 0%Q by lra. apply Qabs_nonneg. }
    destruct (snd p); [lra|]. assert (VD' := VD eq_refl). assert (VN := @div_nn (e_val p) (deg (e_id p)) V0).
    set (u := (e_val p / qn (deg (e_id p)))%Q) in *. set (w := share y deg (e_id p)) in *. set (b := share _ deg (e_id p)) in *. apply Qabs_Qle_condition in Z. apply Qabs_Qle_condition. lra. }
  match goal with |- (Qabs (?b + d * ?p - (?b + d * ?q)) <= _)%Q => setoid_replace (b + d * p - (b + d * q))%Q with (d * (p - q))%Q by lra end.
  rewrite Qabs_Qmult, (Qabs_pos d) by apply (pi_d0 IN). apply (dmul IN) in X. lra.
Qed.
Lemma qs_lengths : (qs n (fun i => qn (length (nth i g []))) == qn arcs)%Q.
Proof.
  unfold arcs. assert (X : forall h : list (list nat), (qs (length h) (fun i => qn (length (nth i h []))) == qn (sum (map (@length nat) h)))%Q).
  { intros h. induction h as [|row h IH] using rev_ind; [reflexivity|]. rewrite app_length, Nat.add_1_r, qs_S. rewrite map_app, sum_app. cbn [map sum]. rewrite Nat.add_0_r, qn_add.
    rewrite app_nth2, Nat.sub_diag by lia. cbn [nth]. rewrite <- IH. apply Qplus_comp; [|reflexivity]. apply qs_ext. intros i Hi. rewrite app_nth1 by auto. reflexivity. }
  apply X.
Qed.
Lemma drop_dist a y x : dropping g deg d thr a y -> pagerank g deg d x -> ((1 - d) * dist y x <= d * dist y a + d * thr * qn arcs)%Q.
Proof.
  intros DR P. eapply Qle_trans; [exact (res_dist IN y P)|]. eapply Qle_trans; [apply qs_le; intros i Hi; exact (drop_res DR Hi)|]. rewrite qs_add, !qs_mul, qs_lengths.
  assert (X := qs_share IN (fun j => Qabs (y j - a j)) (fun j _ => Qabs_nonneg _)). apply (dmul IN) in X. lra.
Qed.
End DropRes.

(** The loop. *)
Lemma drop_loop_ok g deg d thr L sched : pr_input g (fun j => nth j deg 0) d -> length g <= length deg -> length g <= L ->
  forall todo k st b, between g deg L st b -> (forall i, i < length g -> (0 <= b i)%Q) ->
  exists out y, xpr_loop (fun k => v12_sweep g deg ((1 - d) / qn (length g)) d thr (sched k)) thr todo k st = Ok out /\ length (o_rank out) = L /\ scores (length g) out y /\
    (forall i, i < length g -> (0 <= y i)%Q) /\ k <= o_sweeps out <= k + todo /\ (o_conv out = false -> o_sweeps out = k + todo) /\
    (o_conv out = true -> exists a, dropping g (fun j => nth j deg 0) d thr a y /\ (qs (length g) (fun i => Qabs (y i - a i)) < thr)%Q) /\
    (o_conv out = false -> 0 < todo -> exists a, dropping g (fun j => nth j deg 0) d thr a y).
Proof.
  intros IN LD HL. induction todo as [|m IH]; intros k st b B B0; cbn [xpr_loop].
  - eexists _, b. split; [reflexivity|]. cbn [o_rank o_sweeps o_conv]. split; [apply B|]. split; [exact (b_rank B)|]. split; auto. split; [lia|]. split; [lia|]. split; [discriminate|lia].
  - destruct (@drop_sweep_ok g deg d thr IN LD b L HL B0 (sched k) st B) as (st' & y & e & E & B' & Y0 & DR & EE & EQ). rewrite E. cbn [bind]. rewrite EE. cbn [oltb].
    destruct (Qle_bool thr e) eqn:TB; cbn [negb].
    + destruct (IH (S k) st' y B' Y0) as (out & y' & E' & L' & SC & N' & CT & F & T & G). exists out, y'. split; auto. split; auto. split; auto. split; auto. split; [lia|]. split; [intros X; rewrite F by auto; lia|]. split; auto.
      intros CV _. destruct m as [|m]; [|apply G; auto; lia]. cbn [xpr_loop] in E'. injection E' as <-. exists b. intros i Hi. destruct (DR i Hi) as (bs & R & HB & EY). exists bs. split; auto.
      assert (YE : forall j, j < length g -> y j = y' j) by (intros j Hj; assert (X := SC j Hj); cbn [o_rank] in X; rewrite (b_rank B' Hj) in X; congruence). split.
      * intros p I. destruct (HB p I) as (X1 & X2 & X3). split; auto. split; auto. rewrite <- YE; auto. apply (pi_tgt IN i). rewrite <- R. now apply in_map.
      * rewrite <- YE; auto.
    + eexists _, y. split; [reflexivity|]. cbn [o_rank o_sweeps o_conv]. split; [apply B'|]. split; [exact (b_rank B')|]. split; auto. split; [lia|]. split; [discriminate|]. split; [|discriminate].
      intros _. exists b. split; auto. rewrite <- EQ. apply Qnot_le_lt. intros X. apply Qle_bool_iff in X. congruence.
Qed.
Lemma v12_ok g deg d thr max sched ranks : pr_input g (fun j => nth j deg 0) d -> length g <= length deg -> length g <= length ranks ->
  exists out y, page_rank_v12 g deg ranks d thr max sched = Ok out /\ length (o_rank out) = length ranks /\ scores (length g) out y /\
    (forall i, i < length g -> (0 <= y i)%Q) /\ o_sweeps out <= max /\ (o_conv out = false -> o_sweeps out = max) /\
    (o_conv out = true -> exists a, dropping g (fun j => nth j deg 0) d thr a y /\ (qs (length g) (fun i => Qabs (y i - a i)) < thr)%Q) /\
    (o_conv out = false -> 0 < max -> exists a, dropping g (fun j => nth j deg 0) d thr a y).
Proof.
  intros IN LD LR. unfold page_rank_v12. destruct (@init_ranks (odivn (Some 1%Q) (length g)) (length g) 0 ranks) as (r0 & E0 & L0 & R0); [lia|]. rewrite E0. cbn [bind].
  assert (RV : forall i, i < length g -> nth_error r0 i = Some (Some (1 / qn (length g))%Q)).
  { intros i Hi. rewrite R0. replace (i <? 0 + length g) with true by (symmetry; apply Nat.ltb_lt; lia). cbn [Nat.leb andb]. unfold odivn. destruct (Nat.eqb_spec (length g) 0); [lia|]. reflexivity. }
  destruct (@contribs_ok g deg LD (length ranks) (start r0) (fun _ => 1 / qn (length g))%Q LR) as (o0 & EO & CO); [split; auto|]. cbn [start pr_rank] in EO. rewrite EO. cbn [bind].
  destruct (@drop_loop_ok g deg d thr (length ranks) sched IN LD LR max 0 (mkPr r0 o0 (Some 0%Q)) (fun _ => 1 / qn (length g))%Q) as (out & y & E & H).
  - constructor; cbn [pr_rank pr_out]; auto; apply CO.
  - intros i Hi. apply div_nn. lra.
  - exists out, y. split; [exact E|]. destruct H as (A & B & C & D & F). split; auto. split; auto. split; auto. split; [lia|]. exact F.
Qed.
