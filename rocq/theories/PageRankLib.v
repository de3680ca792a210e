(** Specification of PageRank over the rationals and the mathematics of asynchronous sweeps. *)
From Coq Require Import List Arith ZArith QArith Qabs Lqa Lia Bool.
From Verif Require Import Base.
Import ListNotations.
Set Implicit Arguments.
Local Open Scope Q_scope.

Definition qn (n : nat) : Q := inject_Z (Z.of_nat n).
Fixpoint qsum (l : list Q) : Q := match l with [] => 0 | x :: t => x + qsum t end.
(** sums of f over 0, ..., n-1 *)
Definition qs (n : nat) (f : nat -> Q) : Q := qsum (map f (seq 0 n)).

(** Number of entries j in all rows. *)
Definition occ (g : list (list nat)) (j : nat) : nat := list_sum (map (fun row => count_occ Nat.eq_dec row j) g).
(** The PageRank equations: vertex i receives from each entry j of its row the share x_j / deg_j. *)
Definition share (x : nat -> Q) (deg : nat -> nat) (j : nat) : Q := x j / qn (deg j).
Definition pr_rhs (g : list (list nat)) (deg : nat -> nat) (d : Q) (x : nat -> Q) (i : nat) : Q :=
  (1 - d) / qn (length g) + d * qsum (map (share x deg) (nth i g [])).
Definition pagerank (g : list (list nat)) (deg : nat -> nat) (d : Q) (x : nat -> Q) : Prop :=
  forall i, (i < length g)%nat -> x i == pr_rhs g deg d x i.
(** Inputs that make sense: targets in range, and deg_j at least the number of arcs to which j contributes (equal to it
    when the rows are those of the transposed graph and deg the out-degrees). *)
Record pr_input (g : list (list nat)) (deg : nat -> nat) (d : Q) : Prop := {
  pi_tgt : forall i j, In j (nth i g []) -> (j < length g)%nat;
  pi_deg : forall j, (j < length g)%nat -> (occ g j <= deg j)%nat;
  pi_d0 : 0 <= d; pi_d1 : d < 1
}.

(** ** Sums *)
Lemma qsum_app l l' : qsum (l ++ l') == qsum l + qsum l'.
Proof. induction l; simpl; [lra|]. rewrite IHl. lra. Qed.
Lemma qsum_map_ext (A : Type) (f h : A -> Q) l : (forall x, In x l -> f x == h x) -> qsum (map f l) == qsum (map h l).
Proof. induction l as [|a l IH]; intros H; simpl; [lra|]. rewrite (H a) by now left. rewrite IH; [lra|]. intros x I. apply H. now right. Qed.
Lemma qsum_map_le (A : Type) (f h : A -> Q) l : (forall x, In x l -> f x <= h x) -> qsum (map f l) <= qsum (map h l).
Proof. induction l as [|a l IH]; intros H; simpl; [lra|]. assert (X := H a (or_introl eq_refl)). assert (Y := IH (fun x I => H x (or_intror I))). lra. Qed.
Lemma qsum_map_mul (A : Type) c (f : A -> Q) l : qsum (map (fun x => c * f x) l) == c * qsum (map f l).
Proof. induction l; simpl; [lra|]. rewrite IHl. lra. Qed.
Lemma qsum_map_add (A : Type) (f h : A -> Q) l : qsum (map (fun x => f x + h x) l) == qsum (map f l) + qsum (map h l).
Proof. induction l; simpl; [lra|]. rewrite IHl. lra. Qed.
Lemma qsum_map_abs (A : Type) (f : A -> Q) l : Qabs (qsum (map f l)) <= qsum (map (fun x => Qabs (f x)) l).
Proof. induction l; cbn [map qsum]; [apply Qle_refl|]. assert (X := Qabs_triangle (f a) (qsum (map f l))). lra. Qed.
Lemma qsum_map_nn (A : Type) (f : A -> Q) l : (forall x, In x l -> 0 <= f x) -> 0 <= qsum (map f l).
Proof. induction l as [|a l IH]; intros H; simpl; [lra|]. assert (X := H a (or_introl eq_refl)). assert (Y := IH (fun x I => H x (or_intror I))). lra. Qed.
Lemma qsum_in_le (A : Type) (f : A -> Q) l x : (forall x, In x l -> 0 <= f x) -> In x l -> f x <= qsum (map f l).
Proof.
  induction l as [|a l IH]; intros H I; [destruct I|]. simpl. assert (X := H a (or_introl eq_refl)).
  assert (Y := qsum_map_nn f l (fun x I => H x (or_intror I))). destruct I as [<-|I]; [lra|]. assert (Z := IH (fun x I => H x (or_intror I)) I). lra.
Qed.
Lemma qsum_const (A : Type) c (l : list A) : qsum (map (fun _ => c) l) == qn (length l) * c.
Proof.
  induction l; [reflexivity|]. cbn [map qsum length]. rewrite IHl. unfold qn. rewrite Nat2Z.inj_succ, <- Z.add_1_r, inject_Z_plus. change (inject_Z 1) with 1. lra.
Qed.
Lemma qn_S n : qn (S n) == 1 + qn n.
Proof. unfold qn. rewrite Nat2Z.inj_succ, <- Z.add_1_l, inject_Z_plus. reflexivity. Qed.
Lemma qn_add a b : qn (a + b) == qn a + qn b.
Proof. unfold qn. rewrite Nat2Z.inj_add, inject_Z_plus. reflexivity. Qed.
Lemma qn_nn n : 0 <= qn n.
Proof. unfold qn. change 0 with (inject_Z 0). rewrite <- Zle_Qle. lia. Qed.
Lemma qn_le a b : (a <= b)%nat -> qn a <= qn b.
Proof. intros H. unfold qn. rewrite <- Zle_Qle. lia. Qed.
Lemma qn_pos n : (0 < n)%nat -> 0 < qn n.
Proof. intros H. unfold qn. change 0 with (inject_Z 0). rewrite <- Zlt_Qlt. lia. Qed.
Lemma qs_S n f : qs (S n) f == qs n f + f n.
Proof. unfold qs. rewrite seq_S, map_app, qsum_app. simpl. lra. Qed.
Lemma qs_ext n f h : (forall i, (i < n)%nat -> f i == h i) -> qs n f == qs n h.
Proof. intros H. apply qsum_map_ext. intros x I. apply in_seq in I. apply H. lia. Qed.
Lemma qs_le n f h : (forall i, (i < n)%nat -> f i <= h i) -> qs n f <= qs n h.
Proof. intros H. apply qsum_map_le. intros x I. apply in_seq in I. apply H. lia. Qed.
Lemma qs_nn n f : (forall i, (i < n)%nat -> 0 <= f i) -> 0 <= qs n f.
Proof. intros H. apply qsum_map_nn. intros x I. apply in_seq in I. apply H. lia. Qed.
Lemma qs_mul n c f : qs n (fun i => c * f i) == c * qs n f.
Proof. apply qsum_map_mul. Qed.
Lemma qs_add n f h : qs n (fun i => f i + h i) == qs n f + qs n h.
Proof. apply qsum_map_add. Qed.
Lemma qs_const n c : qs n (fun _ => c) == qn n * c.
Proof. unfold qs. rewrite qsum_const, seq_length. reflexivity. Qed.
Lemma qs_in_le n f i : (forall i, (i < n)%nat -> 0 <= f i) -> (i < n)%nat -> f i <= qs n f.
Proof. intros H L. unfold qs. apply (@qsum_in_le nat f). - intros x I. apply in_seq in I. apply H. lia. - apply in_seq. lia. Qed.
Lemma qs_delta n j c : (j < n)%nat -> qs n (fun i => if Nat.eq_dec j i then c else 0) == c.
Proof.
  induction n; intros L; [lia|]. rewrite qs_S. destruct (Nat.eq_dec j n) as [->|N].
  - rewrite (@qs_ext n _ (fun _ => 0)); [rewrite qs_const; lra|]. intros i Hi. destruct (Nat.eq_dec n i); [lia|reflexivity].
  - rewrite IHn by lia. lra.
Qed.
(** A sum over the entries of a row, by vertex. *)
Lemma qsum_count n f l : (forall j, In j l -> (j < n)%nat) -> qsum (map f l) == qs n (fun j => qn (count_occ Nat.eq_dec l j) * f j).
Proof.
  induction l as [|a l IH]; intros H.
  - simpl. rewrite (@qs_ext n _ (fun _ => 0)); [rewrite qs_const; lra|]. intros i _. unfold qn. simpl. change (inject_Z 0) with 0. lra.
  - cbn [map qsum]. rewrite IH by (intros j I; apply H; now right). rewrite <- (@qs_delta n a (f a)) at 1 by (apply H; now left). rewrite <- qs_add. apply qs_ext.
    intros i _. cbn [count_occ]. destruct (Nat.eq_dec a i) as [->|N]; [rewrite qn_S; lra|lra].
Qed.
Lemma qs_rows g f : (forall i j, In j (nth i g []) -> (j < length g)%nat) ->
  qs (length g) (fun i => qsum (map f (nth i g []))) == qs (length g) (fun j => qn (occ g j) * f j).
Proof.
  intros HT. set (n := length g). assert (X : forall l : list (list nat), (forall row j, In row l -> In j row -> (j < n)%nat) ->
    qsum (map (fun row => qsum (map f row)) l) == qs n (fun j => qn (occ l j) * f j)).
  { induction l as [|row l IH]; intros H.
    - simpl. rewrite (@qs_ext n _ (fun _ => 0)); [rewrite qs_const; lra|]. intros i _. unfold qn, occ. simpl. change (inject_Z 0) with 0. lra.
    - cbn [map qsum]. rewrite IH by (intros r j I; apply H; now right). rewrite (@qsum_count n f row) by (intros j; apply H; now left). rewrite <- qs_add. apply qs_ext.
      intros i _. unfold occ. cbn [map list_sum fold_right]. rewrite qn_add. unfold list_sum. lra. }
  rewrite <- X.
  - unfold qs. rewrite <- (map_map (fun i => nth i g []) (fun row => qsum (map f row))). unfold n. replace (map (fun i => nth i g []) (seq 0 (length g))) with g; [reflexivity|]. apply nth_ext with (d := []) (d' := []).
    + now rewrite map_length, seq_length.
    + intros k Hk. now rewrite nth_map_seq.
  - intros row j I J. destruct (In_nth _ _ [] I) as (i & Hi & <-). eapply HT; eauto.
Qed.

(** ** Mathematics of one asynchronous sweep *)
Section Math.
Variables (g : list (list nat)) (deg : nat -> nat) (d : Q).
Hypothesis IN : pr_input g deg d.
Notation n := (length g).
Notation base := ((1 - d) / qn n).

Lemma div_nn a m : 0 <= a -> 0 <= a / qn m.
Proof. intros H. unfold Qdiv. apply Qmult_le_0_compat; auto. apply Qinv_le_0_compat, qn_nn. Qed.
(** Each vertex hands on at most what it has. *)
Lemma share_occ x j : (j < n)%nat -> 0 <= x -> qn (occ g j) * (x / qn (deg j)) <= x.
Proof.
  intros L H. assert (D := pi_deg IN L). destruct (Nat.eq_dec (deg j) 0) as [E|N].
  - rewrite E in D. replace (occ g j) with 0%nat by lia. unfold qn at 1. simpl. change (inject_Z 0) with 0. lra.
  - assert (P := qn_pos (n := deg j) ltac:(lia)). assert (LE := qn_le D).
    assert (E : x / qn (deg j) * qn (deg j) == x) by (field; lra).
    assert (NN := div_nn (deg j) H). nra.
Qed.
Lemma qs_share f : (forall j, (j < n)%nat -> 0 <= f j) -> qs n (fun i => qsum (map (share f deg) (nth i g []))) <= qs n f.
Proof. intros H. rewrite qs_rows by apply (pi_tgt IN). apply qs_le. intros j L. apply share_occ; auto. Qed.

(** One sweep from a to y: every vertex is updated once, from values of its neighbours before or after their own update. *)
Definition async (a y : nat -> Q) : Prop := forall i, (i < n)%nat -> exists bs : list (nat * Q),
  map fst bs = nth i g [] /\ (forall j b, In (j, b) bs -> b == a j \/ b == y j) /\
  y i == base + d * qsum (map (fun p => snd p / qn (deg (fst p))) bs).

Lemma share_sub f h l : qsum (map (share f deg) l) - qsum (map (share h deg) l) == qsum (map (share (fun j => f j - h j) deg) l).
Proof. induction l as [|j l IH]; cbn [map qsum]; [lra|]. rewrite <- IH. unfold share. unfold Qdiv. lra. Qed.
Lemma share_abs f l : Qabs (qsum (map (share f deg) l)) <= qsum (map (share (fun j => Qabs (f j)) deg) l).
Proof.
  eapply Qle_trans; [apply qsum_map_abs|]. apply qsum_map_le. intros j _. unfold share, Qdiv. rewrite Qabs_Qmult. rewrite (Qabs_pos (/ qn (deg j))); [apply Qle_refl|apply Qinv_le_0_compat, qn_nn].
Qed.
Lemma share_le f h l : (forall j, In j l -> f j <= h j) -> qsum (map (share f deg) l) <= qsum (map (share h deg) l).
Proof.
  intros H. apply qsum_map_le. intros j I. unfold share, Qdiv. apply Qmult_le_compat_r; auto. apply Qinv_le_0_compat, qn_nn.
Qed.
Lemma dmul a b : a <= b -> d * a <= d * b.
Proof. intros H. assert (X := pi_d0 IN). nra. Qed.

(** The residual of the new values. *)
Lemma async_res a y : async a y -> forall i, (i < n)%nat ->
  Qabs (y i - pr_rhs g deg d y i) <= d * qsum (map (share (fun j => Qabs (y j - a j)) deg) (nth i g [])).
Proof.
  intros AS i L. destruct (AS i L) as (bs & E & HB & ->). unfold pr_rhs. rewrite <- E.
  assert (X : Qabs (qsum (map (fun p => snd p / qn (deg (fst p))) bs) - qsum (map (share y deg) (map fst bs))) <= qsum (map (share (fun j => Qabs (y j - a j)) deg) (map fst bs))).
  { clear E. induction bs as [|[j b] bs IH]; cbn [map qsum fst snd]; [apply Qle_refl|].
    assert (IH' := IH (fun j b I => HB j b (or_intror I))). clear IH.
    match goal with |- Qabs (?p + ?q - (?r + ?t)) <= _ => setoid_replace (p + q - (r + t)) with ((p - r) + (q - t)) by lra end.
    eapply Qle_trans; [apply Qabs_triangle|]. apply Qplus_le_compat; auto. unfold share.
    setoid_replace (b / qn (deg j) - y j / qn (deg j)) with ((b - y j) / qn (deg j)) by (unfold Qdiv; lra).
    unfold Qdiv. rewrite Qabs_Qmult, (Qabs_pos (/ qn (deg j))) by apply Qinv_le_0_compat, qn_nn.
    apply Qmult_le_compat_r; [|apply Qinv_le_0_compat, qn_nn]. destruct (HB j b (or_introl eq_refl)) as [-> | ->].
    - rewrite Qabs_Qminus. apply Qle_refl.
    - setoid_replace (y j - y j) with 0 by lra. apply Qabs_nonneg. }
  match goal with |- Qabs (?b + d * ?p - (?b + d * ?q)) <= _ => setoid_replace (b + d * p - (b + d * q)) with (d * (p - q)) by lra end.
  rewrite Qabs_Qmult, (Qabs_pos d) by apply (pi_d0 IN). now apply dmul.
Qed.
Lemma async_res_sum a y : async a y -> qs n (fun i => Qabs (y i - pr_rhs g deg d y i)) <= d * qs n (fun j => Qabs (y j - a j)).
Proof.
  intros AS. eapply Qle_trans; [apply qs_le; intros i L; now apply async_res with (a := a)|]. rewrite qs_mul. apply dmul. apply qs_share. intros j _. apply Qabs_nonneg.
Qed.
(** A small residual is a small distance to the solution. *)
Lemma res_dist x y : pagerank g deg d x -> (1 - d) * qs n (fun i => Qabs (y i - x i)) <= qs n (fun i => Qabs (y i - pr_rhs g deg d y i)).
Proof.
  intros PX. set (e := fun i => Qabs (y i - x i)). assert (X : qs n e <= qs n (fun i => Qabs (y i - pr_rhs g deg d y i) + d * qsum (map (share e deg) (nth i g [])))).
  { apply qs_le. intros i L. unfold e at 1. rewrite (PX i L) at 1.
    setoid_replace (y i - pr_rhs g deg d x i) with ((y i - pr_rhs g deg d y i) + (pr_rhs g deg d y i - pr_rhs g deg d x i)) by lra.
    eapply Qle_trans; [apply Qabs_triangle|]. apply Qplus_le_compat; [apply Qle_refl|]. unfold pr_rhs.
    match goal with |- Qabs (?b + d * ?p - (?b + d * ?q)) <= _ => setoid_replace (b + d * p - (b + d * q)) with (d * (p - q)) by lra end.
    rewrite Qabs_Qmult, (Qabs_pos d) by apply (pi_d0 IN). apply dmul. rewrite share_sub. apply share_abs. }
  rewrite qs_add, qs_mul in X. assert (Y : qs n (fun i => qsum (map (share e deg) (nth i g []))) <= qs n e) by (apply qs_share; intros j _; apply Qabs_nonneg).
  apply dmul in Y. lra.
Qed.
Lemma async_dist a y x : async a y -> pagerank g deg d x -> (1 - d) * qs n (fun i => Qabs (y i - x i)) <= d * qs n (fun j => Qabs (y j - a j)).
Proof. intros AS PX. eapply Qle_trans; [now apply res_dist|]. now apply async_res_sum. Qed.

(** ** Facts about the solution *)
Lemma pagerank_unique x x' : pagerank g deg d x -> pagerank g deg d x' -> forall i, (i < n)%nat -> x i == x' i.
Proof.
  intros P P' i L. assert (X := @res_dist x x' P). assert (Y : qs n (fun i => Qabs (x' i - pr_rhs g deg d x' i)) == 0).
  { rewrite (@qs_ext n _ (fun _ => 0)); [rewrite qs_const; lra|]. intros k Lk. rewrite <- (P' k Lk). setoid_replace (x' k - x' k) with 0 by lra. reflexivity. }
  assert (Z := @qs_in_le n (fun i => Qabs (x' i - x i)) i (fun i _ => Qabs_nonneg _) L). cbn beta in Z. assert (D := pi_d1 IN).
  assert (W : qs n (fun i => Qabs (x' i - x i)) <= 0) by nra.
  assert (V : Qabs (x' i - x i) <= 0) by lra. apply Qabs_Qle_condition in V. lra.
Qed.
Lemma base_nn : 0 <= base.
Proof. apply div_nn. assert (D := pi_d1 IN). lra. Qed.
Lemma pagerank_nn x : pagerank g deg d x -> forall i, (i < n)%nat -> 0 <= x i.
Proof.
  intros P. set (neg := fun i => Qabs (x i) - x i).
  assert (NN : forall i, 0 <= neg i) by (intros i; unfold neg; assert (X := Qle_Qabs (x i)); lra).
  assert (X : qs n neg <= d * qs n neg).
  { eapply Qle_trans; [|apply dmul, qs_share; auto]. rewrite <- qs_mul. apply qs_le. intros i L.
    assert (S2 : qsum (map (share neg deg) (nth i g [])) == qsum (map (share (fun j => Qabs (x j)) deg) (nth i g [])) - qsum (map (share x deg) (nth i g []))).
    { rewrite share_sub. reflexivity. }
    assert (A := share_abs x (nth i g [])). assert (B := base_nn). assert (E := P i L). unfold pr_rhs in E.
    set (sx := qsum (map (share x deg) (nth i g []))) in *. set (sa := qsum (map (share (fun j => Qabs (x j)) deg) (nth i g []))) in *.
    assert (C : sx <= sa) by (assert (Q := Qle_Qabs sx); lra). assert (D := pi_d0 IN).
    rewrite S2. unfold neg. apply Qabs_Qle_condition in A. destruct A as [A _].
    assert (F1 : 0 <= d * (sa - sx)) by (apply Qmult_le_0_compat; lra). assert (F2 : 0 <= d * (sa + sx)) by (apply Qmult_le_0_compat; lra).
    apply Qabs_case; intros H; lra. }
  assert (D := pi_d1 IN). assert (Z := @qs_nn n neg (fun i _ => NN i)). assert (W : qs n neg <= 0) by nra.
  intros i L. assert (Y := @qs_in_le n neg i (fun i _ => NN i) L). unfold neg in Y at 1. assert (V := Qabs_nonneg (x i)). lra.
Qed.
Lemma pagerank_base x i : pagerank g deg d x -> (i < n)%nat -> base <= x i.
Proof.
  intros P L. rewrite (P i L). unfold pr_rhs. assert (X : 0 <= qsum (map (share x deg) (nth i g []))).
  { apply qsum_map_nn. intros j I. apply div_nn. apply (pagerank_nn P). eapply (pi_tgt IN); eauto. }
  apply dmul in X. lra.
Qed.
Lemma qs_base : (0 < n)%nat -> qs n (fun _ => base) == 1 - d.
Proof. intros H. rewrite qs_const. assert (P := qn_pos H). field. lra. Qed.
Lemma pagerank_sum x : pagerank g deg d x -> (0 < n)%nat -> qs n x <= 1.
Proof.
  intros P L. assert (X : qs n x == (1 - d) + d * qs n (fun i => qsum (map (share x deg) (nth i g [])))).
  { rewrite <- qs_base, <- qs_mul, <- qs_add by auto. apply qs_ext. intros i Li. rewrite (P i Li) at 1. reflexivity. }
  assert (Y := qs_share x (pagerank_nn P)). apply dmul in Y. assert (D := pi_d1 IN). nra.
Qed.
Lemma pagerank_le1 x i : pagerank g deg d x -> (i < n)%nat -> x i <= 1.
Proof. intros P L. eapply Qle_trans; [apply (@qs_in_le n x i (pagerank_nn P) L)|]. apply pagerank_sum; auto. lia. Qed.

(** ** Convergence: relative errors shrink by 1 - base in each sweep *)
Lemma q_max (f : nat -> Q) m : (0 < m)%nat -> exists k, (k < m)%nat /\ forall i, (i < m)%nat -> f i <= f k.
Proof.
  induction m as [|m IH]; intros L; [lia|]. destruct (Nat.eq_dec m 0) as [->|N].
  - exists 0%nat. split; auto. intros i Li. replace i with 0%nat by lia. apply Qle_refl.
  - destruct IH as (k & Lk & H); [lia|]. destruct (Qlt_le_dec (f k) (f m)) as [LT|GE].
    + exists m. split; auto. intros i Li. destruct (Nat.eq_dec i m) as [->|]; [apply Qle_refl|]. assert (X := H i ltac:(lia)). lra.
    + exists k. split; [lia|]. intros i Li. destruct (Nat.eq_dec i m) as [->|]; auto. apply H. lia.
Qed.
(** If all values read are within relative error c, the values written are within c (1 - base). *)
Lemma async_contract_aux a y x c : d < 1 -> pagerank g deg d x -> async a y -> 0 <= c ->
  (forall j, (j < n)%nat -> Qabs (a j - x j) <= c * x j) -> (forall j, (j < n)%nat -> Qabs (y j - x j) <= c * x j) ->
  forall i, (i < n)%nat -> Qabs (y i - x i) <= c * (1 - base) * x i.
Proof.
  intros _ P AS C0 HA HY i L. destruct (AS i L) as (bs & E & HB & EY).
  assert (TG : forall j b, In (j, b) bs -> (j < n)%nat).
  { intros j b I. apply (pi_tgt IN i). rewrite <- E. apply in_map_iff. exists (j, b). auto. }
  assert (X : Qabs (qsum (map (fun p => snd p / qn (deg (fst p))) bs) - qsum (map (share x deg) (map fst bs))) <= c * qsum (map (share x deg) (map fst bs))).
  { clear E EY. induction bs as [|[j b] bs IH]; cbn [map qsum fst snd]; [change (Qabs (0 - 0)) with 0; lra|].
    assert (IH' := IH (fun j b I => HB j b (or_intror I)) (fun j b I => TG j b (or_intror I))). clear IH.
    match goal with |- Qabs (?p + ?q - (?r + ?t)) <= _ => setoid_replace (p + q - (r + t)) with ((p - r) + (q - t)) by lra end.
    eapply Qle_trans; [apply Qabs_triangle|]. rewrite Qmult_plus_distr_r. apply Qplus_le_compat; auto. unfold share.
    setoid_replace (b / qn (deg j) - x j / qn (deg j)) with ((b - x j) / qn (deg j)) by (unfold Qdiv; lra).
    unfold Qdiv. rewrite Qabs_Qmult, (Qabs_pos (/ qn (deg j))) by apply Qinv_le_0_compat, qn_nn. rewrite Qmult_assoc.
    apply Qmult_le_compat_r; [|apply Qinv_le_0_compat, qn_nn]. assert (Lj := TG j b (or_introl eq_refl)). destruct (HB j b (or_introl eq_refl)) as [-> | ->]; auto. }
  rewrite E in X. assert (PX := P i L). unfold pr_rhs in PX. set (sx := qsum (map (share x deg) (nth i g []))) in *.
  assert (Y : Qabs (y i - x i) <= d * (c * sx)).
  { rewrite EY, PX. match goal with |- Qabs (?b + d * ?p - (?b + d * ?q)) <= _ => setoid_replace (b + d * p - (b + d * q)) with (d * (p - q)) by lra end.
    rewrite Qabs_Qmult, (Qabs_pos d) by apply (pi_d0 IN). now apply dmul. }
  assert (B := base_nn). assert (L1 := pagerank_le1 P L). assert (N0 := pagerank_nn P L).
  assert (W : d * sx <= (1 - base) * x i) by nra.
  assert (V : c * (d * sx) <= c * ((1 - base) * x i)) by nra. lra.
Qed.
Lemma async_contract a y x c : d < 1 -> pagerank g deg d x -> async a y -> 0 <= c -> (forall j, (j < n)%nat -> Qabs (a j - x j) <= c * x j) ->
  forall i, (i < n)%nat -> Qabs (y i - x i) <= c * (1 - base) * x i.
Proof.
  intros D1 P AS C0 HA i L. apply async_contract_aux with (a := a); auto. assert (LN : (0 < n)%nat) by lia.
  assert (BP : 0 < base) by (unfold Qdiv; apply Qmult_lt_0_compat; [lra|apply Qinv_lt_0_compat, qn_pos; auto]).
  assert (XP : forall j, (j < n)%nat -> 0 < x j) by (intros j Lj; assert (X := pagerank_base P Lj); lra).
  destruct (q_max (fun j => Qabs (y j - x j) / x j) LN) as (k & Lk & MX). set (c2 := Qabs (y k - x k) / x k) in *.
  assert (HY : forall j, (j < n)%nat -> Qabs (y j - x j) <= c2 * x j).
  { intros j Lj. assert (X := MX j Lj). cbn beta in X. assert (Z := XP j Lj). assert (E : Qabs (y j - x j) == Qabs (y j - x j) / x j * x j) by (field; lra). rewrite E. nra. }
  destruct (Qlt_le_dec c c2) as [LT|GE].
  - exfalso. assert (X : Qabs (y k - x k) <= c2 * (1 - base) * x k).
    { apply async_contract_aux with (a := a); auto; [lra|]. intros j Lj. eapply Qle_trans; [apply HA; auto|]. assert (Z := XP j Lj). nra. }
    assert (Z := XP k Lk). assert (E : Qabs (y k - x k) == c2 * x k) by (unfold c2; field; lra).
    assert (F : 0 < c2 * base) by (apply Qmult_lt_0_compat; lra). assert (F2 : 0 < c2 * base * x k) by (apply Qmult_lt_0_compat; auto). lra.
  - intros j Lj. eapply Qle_trans; [apply HY; auto|]. assert (Z := XP j Lj). nra.
Qed.
(** The start: 1/n is within relative error 1 / (1 - d) of any value between base and 1. *)
Lemma init_error x i : d < 1 -> pagerank g deg d x -> (i < n)%nat -> Qabs (1 / qn n - x i) <= (1 / (1 - d)) * x i.
Proof.
  intros D1 P L. assert (B := pagerank_base P L). assert (Q := qn_pos (n := n) ltac:(lia)). assert (D0 := pi_d0 IN).
  set (u := 1 / qn n). assert (EB : base == (1 - d) * u) by (unfold u; field; lra). rewrite EB in B.
  assert (UP : 0 < u) by (unfold u, Qdiv; apply Qmult_lt_0_compat; [lra|now apply Qinv_lt_0_compat]).
  set (c := 1 / (1 - d)). assert (EC : c * (1 - d) == 1) by (unfold c; field; lra).
  assert (CP : 0 < c) by (unfold c, Qdiv; apply Qmult_lt_0_compat; [lra|apply Qinv_lt_0_compat; lra]).
  assert (F1 : u <= c * x i).
  { setoid_replace u with (c * ((1 - d) * u)) by (rewrite Qmult_assoc, EC; lra). nra. }
  assert (C1 : 1 <= c) by nra.
  assert (XP : 0 < x i) by nra. assert (F2 : x i <= c * x i) by nra. apply Qabs_Qle_condition. lra.
Qed.
End Math.

(** ** Existence: a system x = c + M x with M nonnegative and column sums at most d < 1 has a solution (elimination) *)
Lemma lin_exists d m : 0 <= d -> d < 1 -> forall (c : nat -> Q) (M : nat -> nat -> Q), (forall i j, 0 <= M i j) ->
  (forall j, (j < m)%nat -> qs m (fun i => M i j) <= d) -> exists x, forall i, (i < m)%nat -> x i == c i + qs m (fun j => M i j * x j).
Proof.
  intros D0 D1. induction m as [|m IH]; intros c M NN CS; [exists (fun _ => 0); intros; lia|].
  assert (MM : M m m <= d).
  { eapply Qle_trans; [|apply (CS m); lia]. apply (@qs_in_le (S m) (fun i => M i m) m); auto. }
  set (p := 1 - M m m). assert (PP : 0 < p) by (unfold p; lra).
  set (M' := fun i j => M i j + M i m * M m j / p). set (c' := fun i => c i + M i m * c m / p).
  assert (NN2 : forall i j, 0 <= M' i j).
  { intros i j. unfold M'. assert (X : 0 <= M i m * M m j / p).
    { unfold Qdiv. apply Qmult_le_0_compat; [apply Qmult_le_0_compat; auto|apply Qinv_le_0_compat; lra]. }
    assert (Y := NN i j). lra. }
  destruct (IH c' M' NN2) as (x & HX).
  { intros j Lj. assert (CJ := CS j ltac:(lia)). rewrite qs_S in CJ. assert (CM := CS m ltac:(lia)). rewrite qs_S in CM.
    assert (E : qs m (fun i => M' i j) == qs m (fun i => M i j) + (M m j / p) * qs m (fun i => M i m)).
    { rewrite <- qs_mul, <- qs_add. apply qs_ext. intros i _. unfold M', Qdiv. lra. }
    rewrite E. assert (Z : 0 <= M m j / p) by (unfold Qdiv; apply Qmult_le_0_compat; [auto|apply Qinv_le_0_compat; lra]).
    assert (F : M m j / p * p == M m j) by (field; lra). assert (T : qs m (fun i => M i m) <= p) by (unfold p; lra).
    assert (U : M m j / p * qs m (fun i => M i m) <= M m j / p * p) by (set (z := M m j / p) in *; nra). lra. }
  set (xm := (c m + qs m (fun j => M m j * x j)) / p).
  assert (EX : xm * p == c m + qs m (fun j => M m j * x j)) by (unfold xm; field; lra).
  set (y := fun i => if Nat.eq_dec i m then xm else x i).
  assert (Ym : y m = xm) by (unfold y; destruct (Nat.eq_dec m m); [auto|congruence]).
  assert (Yj : forall j, (j < m)%nat -> y j = x j) by (intros j Lj; unfold y; destruct (Nat.eq_dec j m); [lia|auto]).
  assert (SY : forall i, qs m (fun j => M i j * y j) == qs m (fun j => M i j * x j)) by (intros i; apply qs_ext; intros j Lj; rewrite Yj by auto; lra).
  exists y. intros i Li. rewrite qs_S, Ym, SY. destruct (Nat.eq_dec i m) as [->|N].
  - rewrite Ym. unfold p in EX. lra.
  - rewrite Yj by lia. rewrite (HX i) at 1 by lia. unfold c', M'.
    assert (E : qs m (fun j => (M i j + M i m * M m j / p) * x j) == qs m (fun j => M i j * x j) + M i m / p * qs m (fun j => M m j * x j)).
    { rewrite <- qs_mul, <- qs_add. apply qs_ext. intros j _. unfold Qdiv. lra. }
    rewrite E. unfold xm. field. lra.
Qed.
Lemma list_sum_rows (g : list (list nat)) j : qn (occ g j) == qs (length g) (fun i => qn (count_occ Nat.eq_dec (nth i g []) j)).
Proof.
  unfold occ. induction g as [|row g IH]; [reflexivity|]. cbn [length map list_sum fold_right]. rewrite qn_add. unfold qs. rewrite <- cons_seq. cbn [map qsum nth].
  rewrite <- seq_shift, map_map. apply Qplus_inj_l. exact IH.
Qed.
Lemma pagerank_exists g deg d : pr_input g deg d -> exists x, pagerank g deg d x.
Proof.
  intros IN. assert (D0 := pi_d0 IN). assert (D1 := pi_d1 IN). set (n := length g).
  destruct (@lin_exists d n D0 D1 (fun _ => (1 - d) / qn n) (fun i j => d * (qn (count_occ Nat.eq_dec (nth i g []) j) * / qn (deg j)))) as (x & HX).
  - intros i j. apply Qmult_le_0_compat; auto. apply Qmult_le_0_compat; [apply qn_nn|apply Qinv_le_0_compat, qn_nn].
  - intros j L. rewrite qs_mul. assert (X : qs n (fun i => qn (count_occ Nat.eq_dec (nth i g []) j) * / qn (deg j)) <= 1).
    { assert (E : qs n (fun i => qn (count_occ Nat.eq_dec (nth i g []) j) * / qn (deg j)) == qn (occ g j) * (1 / qn (deg j))).
      { rewrite list_sum_rows. fold n. rewrite Qmult_comm, <- qs_mul. apply qs_ext. intros i _. unfold Qdiv. lra. }
      rewrite E. apply (share_occ IN L). lra. }
    nra.
  - exists x. intros i L. rewrite (HX i L) at 1. unfold pr_rhs. fold n. apply Qplus_inj_l. rewrite (@qsum_count n (share x deg)).
    + rewrite <- qs_mul. apply qs_ext. intros j _. unfold share, Qdiv. lra.
    + apply (pi_tgt IN).
Qed.
