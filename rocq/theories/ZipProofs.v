(** Proofs about containers/zip.hpp (ZipModel.v). *)
From Coq Require Import List Arith ZArith Lia Bool Permutation.
From Verif Require Import Base ZipModel.
Import ListNotations.
Set Implicit Arguments.
Local Open Scope nat_scope.

(** ** Specification: the same algorithm on an array of rows of width w *)
Fixpoint run_rows (w : nat) (p : prog) (R : list (list Z)) : res (list (list Z)) :=
  match p with
  | Done => Ok R
  | Get i k => do row <- vget R i ; run_rows w (k row) R
  | Put i row k => if length row =? w then do R' <- vset R i row ; run_rows w k R' else Ub
  | Move i j k => do row <- vget R i ; do R' <- vset R j row ; run_rows w k R'
  | Swap i j k => do x <- vget R i ; do y <- vget R j ; do R1 <- vset R i y ; do R2 <- vset R1 j x ; run_rows w k R2
  end.
(** The i-th elements of the columns, for i < n. *)
Definition column (h : heap) (a : nat) : list Z := nth a h [].
Definition row_of (h : heap) (z : zip) (i : nat) : list Z := map (fun a => nth i (column h a) 0%Z) z.
Definition rows_of (n : nat) (h : heap) (z : zip) : list (list Z) := map (row_of h z) (seq 0 n).

Definition moved (i j : nat) (c : list Z) : list Z := upd c j (nth i c 0%Z).
Definition swapped (i j : nat) (c : list Z) : list Z := upd (upd c i (nth j c 0%Z)) j (nth i c 0%Z).
Lemma column_upd h a c b : a < length h -> column (upd h a c) b = if b =? a then c else column h b.
Proof.
  intros L. unfold column. destruct (b =? a) eqn:E.
  - apply Nat.eqb_eq in E. subst b. rewrite nth_upd by auto. rewrite Nat.eqb_refl. reflexivity.
  - destruct (Nat.lt_ge_cases b (length h)) as [Lb|Lb]; [|rewrite !nth_overflow by (rewrite ?upd_length; lia); reflexivity]. rewrite nth_upd by auto. rewrite Nat.eqb_sym, E || rewrite E. reflexivity.
Qed.
Lemma cell_put_ok h a i x : a < length h -> i < length (column h a) -> cell_put h a i x = Ok (upd h a (upd (column h a) i x)).
Proof. intros La Li. unfold cell_put. rewrite (@vget_nth _ h a []) by auto. cbn [bind]. rewrite vset_lt by auto. cbn [bind]. now rewrite vset_lt. Qed.
Lemma cell_move_ok h a i j : a < length h -> i < length (column h a) -> j < length (column h a) -> cell_move h a i j = Ok (upd h a (moved i j (column h a))).
Proof. intros La Li Lj. unfold cell_move. rewrite (@vget_nth _ h a []) by auto. cbn [bind]. rewrite (@vget_nth _ _ i 0%Z) by auto. cbn [bind]. now apply cell_put_ok. Qed.
Lemma upd_upd A (l : list A) i x y : upd (upd l i x) i y = upd l i y.
Proof. revert i. induction l; destruct i; simpl; auto. now rewrite IHl. Qed.
Lemma cell_swap_ok h a i j : a < length h -> i < length (column h a) -> j < length (column h a) -> cell_swap h a i j = Ok (upd h a (swapped i j (column h a))).
Proof.
  intros La Li Lj. unfold cell_swap. rewrite (@vget_nth _ h a []) by auto. cbn [bind]. rewrite (@vget_nth _ _ i 0%Z), (@vget_nth _ _ j 0%Z) by auto. cbn [bind].
  rewrite cell_put_ok by auto. cbn [bind]. assert (C : column (upd h a (upd (column h a) i (nth j (column h a) 0%Z))) a = upd (column h a) i (nth j (column h a) 0%Z)) by (rewrite column_upd, Nat.eqb_refl by auto; reflexivity).
  fold (column h a). rewrite cell_put_ok; rewrite ?C, ?upd_length; auto. now rewrite upd_upd.
Qed.
Fixpoint iterate (F : list Z -> list Z) (n : nat) (c : list Z) : list Z := match n with 0 => c | S m => iterate F m (F c) end.
Lemma fold_columns F step n z : (forall c, length (F c) = length c) ->
  (forall h a, In a z -> a < length h -> n <= length (column h a) -> step h a = Ok (upd h a (F (column h a)))) ->
  forall h, (forall a, In a z -> a < length h /\ n <= length (column h a)) ->
  exists h', rfold step z h = Ok h' /\ length h' = length h /\ forall b, column h' b = iterate F (count_occ Nat.eq_dec z b) (column h b).
Proof.
  intros FL. induction z as [|a z IH]; intros ST h H.
  - exists h. auto.
  - destruct (H a (or_introl eq_refl)) as [La Ln]. cbn [rfold]. rewrite ST by (auto; now left). cbn [bind].
    destruct (IH (fun h b I => ST h b (or_intror I)) (upd h a (F (column h a)))) as (h' & E & L & C).
    { intros b I. rewrite upd_length, column_upd by auto. destruct (H b (or_intror I)) as [Lb Lc]. split; auto. destruct (b =? a); auto. now rewrite FL. }
    exists h'. split; auto. rewrite upd_length in L. split; auto. intros b. rewrite C, column_upd by auto. cbn [count_occ].
    destruct (Nat.eq_dec a b) as [<-|N]; [now rewrite Nat.eqb_refl|]. destruct (b =? a) eqn:E'; [apply Nat.eqb_eq in E'; congruence|]. reflexivity.
Qed.
Lemma count_once z (a : nat) : NoDup z -> count_occ Nat.eq_dec z a = if in_dec Nat.eq_dec a z then 1 else 0.
Proof.
  intros ND. destruct (in_dec Nat.eq_dec a z) as [I|I].
  - apply (count_occ_In Nat.eq_dec) in I. assert (X := proj1 (NoDup_count_occ Nat.eq_dec z) ND a). lia.
  - now apply count_occ_not_In.
Qed.
(** What a program may rely on: the columns are different containers, the first has n elements, the others at least n. *)
Definition fits (n : nat) (h : heap) (z : zip) : Prop :=
  NoDup z /\ (forall a, In a z -> a < length h /\ n <= length (column h a)) /\ exists a z', z = a :: z' /\ length (column h a) = n.
(** h' differs from h in the first n elements of the columns only. *)
Definition same_beyond (n : nat) (z : zip) (h h' : heap) : Prop :=
  length h' = length h /\ (forall a, ~ In a z -> column h' a = column h a) /\ forall a, In a z -> length (column h' a) = length (column h a) /\ forall k, n <= k -> nth k (column h' a) 0%Z = nth k (column h a) 0%Z.
Lemma same_beyond_refl n z h : same_beyond n z h h.
Proof. repeat split; auto. Qed.
Lemma same_beyond_trans n z h1 h2 h3 : same_beyond n z h1 h2 -> same_beyond n z h2 h3 -> same_beyond n z h1 h3.
Proof.
  intros (A1 & B1 & C1) (A2 & B2 & C2). split; [congruence|]. split.
  - intros a N. rewrite B2, B1; auto.
  - intros a I. destruct (C1 a I) as [D1 E1]. destruct (C2 a I) as [D2 E2]. split; [congruence|]. intros k L. rewrite E2, E1; auto.
Qed.
Lemma fits_same n z h h' : fits n h z -> same_beyond n z h h' -> fits n h' z.
Proof.
  intros (ND & B & a & z' & E & L) (A1 & B1 & C1). split; auto. split.
  - intros b I. destruct (B b I) as [X Y]. destruct (C1 b I) as [Z _]. lia.
  - exists a, z'. split; auto. destruct (C1 a) as [Z _]; [rewrite E; now left|]. lia.
Qed.
Lemma rows_of_length n h z : length (rows_of n h z) = n.
Proof. unfold rows_of. now rewrite map_length, seq_length. Qed.
Lemma rows_of_nth n h z i d : i < n -> nth i (rows_of n h z) d = row_of h z i.
Proof. intros L. unfold rows_of. now rewrite nth_map_seq. Qed.
Lemma rows_ext n h z R : length R = n -> (forall k, k < n -> row_of h z k = nth k R []) -> rows_of n h z = R.
Proof. intros L H. apply (nth_ext _ _ [] []); rewrite rows_of_length; auto. intros k Lk. now rewrite rows_of_nth, H. Qed.
Lemma fits_in n h z a : fits n h z -> In a z -> a < length h /\ n <= length (column h a).
Proof. intros (_ & B & _). apply B. Qed.

Lemma rmap_map A C (f : A -> res C) (g : A -> C) l : (forall a, In a l -> f a = Ok (g a)) -> rmap f l = Ok (map g l).
Proof. induction l as [|a l IH]; intros H; [reflexivity|]. cbn [rmap map]. rewrite H by (now left). cbn [bind]. rewrite IH; [reflexivity|]. intros b I. apply H. now right. Qed.
Lemma zip_get_ok n h z i : fits n h z -> i < n -> zip_get h z i = Ok (row_of h z i).
Proof. intros F L. unfold zip_get, row_of. apply rmap_map. intros a I. destruct (fits_in _ F I) as [La Ln]. rewrite (@vget_nth _ h a []) by auto. cbn [bind]. apply vget_nth. unfold column in *. lia. Qed.
Lemma zip_get_ub n h z i : fits n h z -> n <= i -> zip_get h z i = Ub.
Proof.
  intros (_ & B & a & z' & -> & L) Li. unfold zip_get. cbn [rmap]. destruct (B a (or_introl eq_refl)) as [La _]. rewrite (@vget_nth _ h a []) by auto. cbn [bind].
  rewrite vget_ge; [reflexivity|]. unfold column in L. lia.
Qed.
Lemma columnwise n z F step : (forall c, length (F c) = length c) -> (forall c k, n <= k -> n <= length c -> nth k (F c) 0%Z = nth k c 0%Z) ->
  (forall h a, In a z -> a < length h -> n <= length (column h a) -> step h a = Ok (upd h a (F (column h a)))) ->
  forall h, fits n h z -> exists h', rfold step z h = Ok h' /\ same_beyond n z h h' /\ forall a, In a z -> column h' a = F (column h a).
Proof.
  intros FL FK ST h FT. destruct (@fold_columns F step n z FL ST h (fun a => fits_in a FT)) as (h' & E & L & C). exists h'. split; auto. destruct FT as (ND & B & _).
  assert (CI : forall a, In a z -> column h' a = F (column h a)). { intros a I. rewrite C, count_once by auto. destruct (in_dec Nat.eq_dec a z); [reflexivity|easy]. }
  split; auto. split; auto. split.
  - intros a N. rewrite C, count_once by auto. destruct (in_dec Nat.eq_dec a z); [easy|reflexivity].
  - intros a I. rewrite (CI a I). split; auto. intros k Lk. apply FK; auto. now apply B.
Qed.
Lemma zip_move_ok n h z i j : fits n h z -> i < n -> j < n ->
  exists h', zip_move h z i j = Ok h' /\ same_beyond n z h h' /\ rows_of n h' z = upd (rows_of n h z) j (row_of h z i).
Proof.
  intros FT Li Lj. destruct (@columnwise n z (moved i j) (fun h a => cell_move h a i j)) with (h := h) as (h' & E & S' & C); auto.
  - intros c. unfold moved. apply upd_length.
  - intros c k Lk Lc. unfold moved. rewrite nth_upd_neq by lia. reflexivity.
  - intros h0 a I La Ln. apply cell_move_ok; lia.
  - exists h'. split; auto. split; auto. apply rows_ext; [rewrite upd_length; apply rows_of_length|]. intros k Lk. rewrite nth_upd by (rewrite rows_of_length; auto). rewrite rows_of_nth by auto.
    destruct (k =? j) eqn:EK; unfold row_of; apply map_ext_in; intros a I; rewrite (C a I); unfold moved; destruct (fits_in _ FT I); rewrite nth_upd, EK by lia; reflexivity.
Qed.
Lemma zip_swap_ok n h z i j : fits n h z -> i < n -> j < n ->
  exists h', zip_swap h z i j = Ok h' /\ same_beyond n z h h' /\ rows_of n h' z = upd (upd (rows_of n h z) i (row_of h z j)) j (row_of h z i).
Proof.
  intros FT Li Lj. destruct (@columnwise n z (swapped i j) (fun h a => cell_swap h a i j)) with (h := h) as (h' & E & S' & C); auto.
  - intros c. unfold swapped. now rewrite !upd_length.
  - intros c k Lk Lc. unfold swapped. rewrite !nth_upd_neq by lia. reflexivity.
  - intros h0 a I La Ln. apply cell_swap_ok; lia.
  - exists h'. split; auto. split; auto. apply rows_ext; [rewrite !upd_length; apply rows_of_length|]. intros k Lk. rewrite !nth_upd by (rewrite ?upd_length, ?rows_of_length; auto). rewrite rows_of_nth by auto.
    destruct (k =? j) eqn:EK; [|destruct (k =? i) eqn:EI]; unfold row_of; apply map_ext_in; intros a I; rewrite (C a I); unfold swapped; destruct (fits_in _ FT I); rewrite !nth_upd, EK by (rewrite ?upd_length; lia);
      rewrite ?EI; reflexivity.
Qed.
Lemma zip_put_cols i : forall z row h, NoDup z -> length row = length z -> (forall a, In a z -> a < length h /\ i < length (column h a)) ->
  exists h', zip_put h z i row = Ok h' /\ length h' = length h /\ (forall a, ~ In a z -> column h' a = column h a) /\
    forall m, m < length z -> column h' (nth m z 0) = upd (column h (nth m z 0)) i (nth m row 0%Z).
Proof.
  induction z as [|a z IH]; intros row h ND L H; destruct row as [|x row]; cbn [length] in L; try lia.
  - exists h. split; auto. split; auto. split; auto. cbn. lia.
  - inversion ND as [|? ? NI ND']; subst. destruct (H a (or_introl eq_refl)) as [La Li]. cbn [zip_put]. rewrite cell_put_ok by auto. cbn [bind].
    destruct (IH row (upd h a (upd (column h a) i x)) ND' ltac:(lia)) as (h' & E & L' & N' & C').
    { intros b I. rewrite upd_length, column_upd by auto. destruct (H b (or_intror I)) as [Lb Lc]. split; auto. destruct (b =? a) eqn:Eb; auto. now rewrite upd_length. }
    rewrite upd_length in L'. exists h'. split; auto. split; auto. split.
    + intros b NB. rewrite N' by (intros I; apply NB; now right). rewrite column_upd by auto. destruct (b =? a) eqn:Eb; auto. apply Nat.eqb_eq in Eb. destruct NB. now left.
    + intros m Lm. destruct m as [|m]; cbn [nth].
      * rewrite N' by auto. rewrite column_upd, Nat.eqb_refl by auto. reflexivity.
      * cbn [length] in Lm. rewrite C' by lia. rewrite column_upd by auto. destruct (nth m z 0 =? a) eqn:Em; auto. apply Nat.eqb_eq in Em. destruct NI. rewrite <- Em. apply nth_In. lia.
Qed.
Lemma zip_put_ok n h z i row : fits n h z -> i < n -> length row = length z ->
  exists h', zip_put h z i row = Ok h' /\ same_beyond n z h h' /\ rows_of n h' z = upd (rows_of n h z) i row.
Proof.
  intros FT Li LR. destruct (@zip_put_cols i z row h) as (h' & E & L & N & C); auto; [apply FT|intros a I; destruct (fits_in _ FT I); lia|]. exists h'. split; auto. split.
  - split; auto. split; auto. intros a I. destruct (In_nth _ _ 0 I) as (m & Lm & <-). rewrite C by auto. split; [apply upd_length|]. intros k Lk. apply nth_upd_neq. lia.
  - apply rows_ext; [rewrite upd_length; apply rows_of_length|]. intros k Lk. rewrite nth_upd by (rewrite rows_of_length; auto). rewrite rows_of_nth by auto. unfold row_of.
    assert (P : forall m, m < length z -> nth k (column h' (nth m z 0)) 0%Z = if k =? i then nth m row 0%Z else nth k (column h (nth m z 0)) 0%Z).
    { intros m Lm. rewrite C by auto. destruct (fits_in _ FT (nth_In z 0 Lm)) as [_ X]. rewrite nth_upd by lia. reflexivity. }
    destruct (k =? i).
    + apply (nth_ext _ _ 0%Z 0%Z); [rewrite map_length; auto|]. intros m Lm. rewrite map_length in Lm. rewrite (nth_indep _ 0%Z (nth k (column h' 0) 0%Z)) by (rewrite map_length; auto).
      rewrite map_nth with (f := fun a => nth k (column h' a) 0%Z). auto.
    + apply map_ext_in. intros a I. destruct (In_nth _ _ 0 I) as (m & Lm & <-). now apply P.
Qed.
Lemma zip_out n h z i j : fits n h z -> n <= i -> zip_move h z i j = Ub /\ zip_move h z j i = Ub /\ zip_swap h z i j = Ub /\ zip_swap h z j i = Ub /\ forall row, zip_put h z i row = Ub.
Proof.
  intros (_ & B & a & z' & -> & L) Li. destruct (B a (or_introl eq_refl)) as [La _]. unfold column in L.
  unfold zip_move, zip_swap. cbn [rfold zip_put]. unfold cell_move, cell_swap, cell_put. rewrite (@vget_nth _ h a []) by auto. cbn [bind].
  assert (G : forall i, length (nth a h []) <= i -> vget (nth a h []) i = Ub) by (intros; now apply vget_ge). rewrite !(G i) by lia. cbn [bind].
  assert (V : forall x, vset (nth a h []) i x = Ub) by (intros; apply vset_ge; lia).
  repeat split; auto.
  - destruct (vget (nth a h []) j) eqn:E; cbn [bind]; auto. { now rewrite V. } unfold vget in E. destruct (nth_error _ _); discriminate.
  - destruct (vget (nth a h []) j) eqn:E; cbn [bind]; auto. unfold vget in E. destruct (nth_error _ _); discriminate.
  - intros [|x row]; auto. rewrite V. reflexivity.
Qed.
Lemma zip_put_width i : forall z row h, length row <> length z -> forall h', zip_put h z i row <> Ok h'.
Proof.
  induction z as [|a z IH]; intros row h N h'; destruct row as [|x row]; cbn [zip_put length] in *; try discriminate; [congruence|].
  destruct (cell_put h a i x); cbn [bind]; try discriminate. apply IH. lia.
Qed.
Lemma cell_put_no_fuel h a i x : cell_put h a i x <> OutOfFuel.
Proof. unfold cell_put, vget, vset. destruct (nth_error h a); cbn [bind]; [|discriminate]. destruct (i <? length l); cbn [bind]; [|discriminate]. destruct (a <? length h); discriminate. Qed.
Lemma zip_put_no_fuel i : forall z row h, zip_put h z i row <> OutOfFuel.
Proof.
  induction z as [|a z IH]; intros row h; destruct row as [|x row]; cbn [zip_put]; try discriminate.
  destruct (cell_put h a i x) eqn:E; cbn [bind]; auto; [discriminate|]. now apply cell_put_no_fuel in E.
Qed.
Lemma run_zip_rows n z p : forall h, fits n h z ->
  match run_rows (length z) p (rows_of n h z) with
  | Ok R => exists h', run_zip z p h = Ok h' /\ same_beyond n z h h' /\ rows_of n h' z = R
  | Ub => run_zip z p h = Ub
  | OutOfFuel => False
  end.
Proof.
  assert (G : forall h i, i < n -> vget (rows_of n h z) i = Ok (row_of h z i)).
  { intros h i L. rewrite (@vget_nth _ _ i []) by (now rewrite rows_of_length). now rewrite rows_of_nth. }
  assert (GU : forall h i, n <= i -> vget (rows_of n h z) i = Ub) by (intros; apply vget_ge; now rewrite rows_of_length).
  assert (NEXT : forall p, (forall h, fits n h z -> match run_rows (length z) p (rows_of n h z) with Ok R => exists h', run_zip z p h = Ok h' /\ same_beyond n z h h' /\ rows_of n h' z = R | Ub => run_zip z p h = Ub | OutOfFuel => False end) ->
    forall h h1 R1, fits n h z -> same_beyond n z h h1 -> rows_of n h1 z = R1 ->
    match run_rows (length z) p R1 with Ok R => exists h', run_zip z p h1 = Ok h' /\ same_beyond n z h h' /\ rows_of n h' z = R | Ub => run_zip z p h1 = Ub | OutOfFuel => False end).
  { intros q IH h h1 R1 F S' <-. specialize (IH h1 (fits_same F S')). destruct (run_rows _ _ _); auto. destruct IH as (h' & E & S2 & ER). exists h'. split; auto. split; auto. eapply same_beyond_trans; eauto. }
  induction p as [|i k IH|i row k IH|i j k IH|i j k IH]; intros h F; cbn [run_rows run_zip].
  - exists h. split; auto. split; auto. apply same_beyond_refl.
  - destruct (Nat.lt_ge_cases i n) as [L|L].
    + rewrite (G h i L), (zip_get_ok F L). cbn [bind]. now apply IH.
    + rewrite (GU h i L), (zip_get_ub F L). reflexivity.
  - destruct (length row =? length z) eqn:EL.
    + apply Nat.eqb_eq in EL. destruct (Nat.lt_ge_cases i n) as [L|L].
      * destruct (zip_put_ok row F L EL) as (h1 & -> & S' & ER). rewrite vset_lt by (now rewrite rows_of_length). cbn [bind]. now apply (NEXT k IH h).
      * destruct (zip_out i F L) as (_ & _ & _ & _ & ->). rewrite vset_ge by (now rewrite rows_of_length). reflexivity.
    + apply Nat.eqb_neq in EL. destruct (zip_put h z i row) eqn:E; cbn [bind]; auto. { now apply zip_put_width in E. } now apply zip_put_no_fuel in E.
  - destruct (Nat.lt_ge_cases i n) as [L|L].
    + rewrite (G h i L). cbn [bind]. destruct (Nat.lt_ge_cases j n) as [Lj|Lj].
      * destruct (zip_move_ok F L Lj) as (h1 & -> & S' & ER). rewrite vset_lt by (now rewrite rows_of_length). cbn [bind]. now apply (NEXT k IH h).
      * destruct (zip_out i F Lj) as (_ & -> & _). rewrite vset_ge by (now rewrite rows_of_length). reflexivity.
    + rewrite (GU h i L). destruct (zip_out j F L) as (-> & _). reflexivity.
  - destruct (Nat.lt_ge_cases i n) as [L|L].
    + rewrite (G h i L). cbn [bind]. destruct (Nat.lt_ge_cases j n) as [Lj|Lj].
      * destruct (zip_swap_ok F L Lj) as (h1 & -> & S' & ER). rewrite (G h j Lj). cbn [bind]. rewrite vset_lt by (now rewrite rows_of_length). cbn [bind]. rewrite vset_lt by (now rewrite upd_length, rows_of_length). cbn [bind]. now apply (NEXT k IH h).
      * destruct (zip_out i F Lj) as (_ & _ & _ & -> & _). rewrite (GU h j Lj). reflexivity.
    + rewrite (GU h i L). destruct (zip_out j F L) as (_ & _ & -> & _). reflexivity.
Qed.

(** ** The rows from begin() to end() *)
Definition long_enough (h : heap) (z : zip) : Prop := forall a b, hd_error z = Some a -> In b z -> length (column h a) <= length (column h b).
Lemma rmap_hit_ub A C (f : A -> res C) l : (forall a, In a l -> f a <> OutOfFuel) -> (exists a, In a l /\ f a = Ub) -> rmap f l = Ub.
Proof.
  induction l as [|x l IH]; intros NF (a & I & E); [destruct I|]. cbn [rmap]. destruct (f x) eqn:EX; cbn [bind]; auto.
  - destruct I as [<-|I]; [congruence|]. rewrite IH; [reflexivity| |eauto]. intros b Ib. apply NF. now right.
  - destruct (NF x (or_introl eq_refl) EX).
Qed.
Lemma zip_get_cell h a i : a < length h -> (do v <- vget h a ; vget v i) = vget (column h a) i.
Proof. intros L. rewrite (@vget_nth _ h a []) by auto. reflexivity. Qed.
Lemma zip_rows_ok a z h : (forall b, In b (a :: z) -> b < length h) -> (forall b, In b z -> length (column h a) <= length (column h b)) ->
  zip_rows h (a :: z) = Ok (rows_of (length (column h a)) h (a :: z)).
Proof.
  intros V L. unfold zip_rows, zip_size. cbn [vget nth_error bind]. rewrite (@vget_nth _ h a []) by (apply V; now left). cbn [bind]. fold (column h a). unfold rows_of.
  apply rmap_map. intros i I. apply in_seq in I. apply rmap_map. intros b Ib. rewrite zip_get_cell by auto. apply vget_nth. destruct Ib as [<-|Ib]; [lia|]. specialize (L b Ib). lia.
Qed.
Lemma vget_no_fuel A (l : list A) i : vget l i <> OutOfFuel.
Proof. unfold vget. destruct (nth_error l i); discriminate. Qed.
Lemma zip_rows_ub a z h b : (forall b, In b (a :: z) -> b < length h) -> In b z -> length (column h b) < length (column h a) -> zip_rows h (a :: z) = Ub.
Proof.
  intros V I L. unfold zip_rows, zip_size. cbn [vget nth_error bind]. rewrite (@vget_nth _ h a []) by (apply V; now left). cbn [bind]. fold (column h a).
  assert (NF : forall i, zip_get h (a :: z) i <> OutOfFuel).
  { intros i. unfold zip_get. generalize (a :: z) V. intros l. induction l as [|c l IH]; intros W; [discriminate|]. cbn [rmap]. rewrite zip_get_cell by (apply W; now left).
    destruct (vget (column h c) i) eqn:E; cbn [bind]; try discriminate; [|now apply vget_no_fuel in E]. destruct (rmap _ l) eqn:E2; cbn [bind]; try discriminate. exact (IH (fun b Ib => W b (or_intror Ib))) || (destruct (IH (fun b Ib => W b (or_intror Ib))); auto). }
  apply rmap_hit_ub; auto. exists (length (column h b)). split; [apply in_seq; lia|]. unfold zip_get. apply rmap_hit_ub.
  - intros c Ic. rewrite zip_get_cell by auto. apply vget_no_fuel.
  - exists b. split; [now right|]. rewrite zip_get_cell by (apply V; now right). apply vget_ge. lia.
Qed.

(** ** The same container twice *)
Lemma swapped_length i j c : length (swapped i j c) = length c.
Proof. unfold swapped. now rewrite !upd_length. Qed.
Lemma swapped_twice i j c : i < length c -> j < length c -> swapped i j (swapped i j c) = c.
Proof.
  intros Li Lj. apply (nth_ext _ _ 0%Z 0%Z); [now rewrite !swapped_length|]. rewrite !swapped_length. intros k Lk. unfold swapped.
  rewrite !nth_upd by (rewrite ?upd_length; auto). rewrite !Nat.eqb_refl. destruct (k =? j) eqn:Ej; [apply Nat.eqb_eq in Ej; subst k|].
  - destruct (i =? j) eqn:E; [apply Nat.eqb_eq in E; now subst|reflexivity].
  - destruct (k =? i) eqn:Ei; [apply Nat.eqb_eq in Ei; now subst k|reflexivity].
Qed.
Lemma iterate_swapped i j n : forall c, i < length c -> j < length c -> iterate (swapped i j) n c = if Nat.even n then c else swapped i j c.
Proof.
  induction n as [|n IH]; intros c Li Lj; [reflexivity|]. cbn [iterate]. rewrite IH by (rewrite swapped_length; auto). rewrite Nat.even_succ, <- Nat.negb_even. destruct (Nat.even n); cbn [negb]; auto. now apply swapped_twice.
Qed.
Fixpoint swaps (l : list (nat * nat)) : prog := match l with [] => Done | (i, j) :: t => Swap i j (swaps t) end.
Definition swap_all (l : list (nat * nat)) (c : list Z) : list Z := fold_left (fun c ij => swapped (fst ij) (snd ij) c) l c.
Lemma run_swaps n z l : forall h, (forall a, In a z -> a < length h /\ n <= length (column h a)) -> (forall ij, In ij l -> fst ij < n /\ snd ij < n) ->
  exists h', run_zip z (swaps l) h = Ok h' /\ length h' = length h /\ forall a, column h' a = if Nat.even (count_occ Nat.eq_dec z a) then column h a else swap_all l (column h a).
Proof.
  induction l as [|[i j] l IH]; intros h V B.
  - exists h. split; auto. split; auto. intros a. now destruct (Nat.even _).
  - cbn [swaps run_zip]. destruct (B (i, j) (or_introl eq_refl)) as [Li Lj]. cbn [fst snd] in *.
    destruct (@fold_columns (swapped i j) (fun h a => cell_swap h a i j) n z) with (h := h) as (h1 & E & L1 & C1); auto.
    { intros c. apply swapped_length. } { intros h0 a I La Ln. apply cell_swap_ok; lia. }
    assert (E0 : zip_swap h z i j = Ok h1) by exact E. rewrite E0. cbn [bind].
    assert (D : forall a, column h1 a = if Nat.even (count_occ Nat.eq_dec z a) then column h a else swapped i j (column h a)).
    { intros a. rewrite C1. destruct (in_dec Nat.eq_dec a z) as [I|NI]; [destruct (V a I); apply iterate_swapped; lia|]. apply count_occ_not_In with (eq_dec := Nat.eq_dec) in NI. now rewrite NI. }
    destruct (IH h1) as (h' & E' & L' & C'); [|intros; apply B; now right|].
    { intros a I. destruct (V a I). rewrite D, L1. split; auto. destruct (Nat.even _); auto. now rewrite swapped_length. }
    exists h'. split; auto. split; [lia|]. intros a. rewrite C', D. now destruct (Nat.even _).
Qed.

(** ** Sorting *)
Lemma permuted_columns n h h' z : fits n h z -> same_beyond n z h h' -> Permutation (rows_of n h z) (rows_of n h' z) ->
  exists q, Permutation q (seq 0 n) /\ forall a, In a z -> column h' a = map (fun i => nth i (column h a) 0%Z) q ++ skipn n (column h a).
Proof.
  intros FT (LH & _ & SB) P. apply Permutation_sym in P. unfold rows_of at 2 in P. apply Permutation_map_inv in P. destruct P as (q & E & P). exists q. split; [now apply Permutation_sym|].
  assert (Lq : length q = n) by (rewrite <- (Permutation_length P); apply seq_length).
  intros a I. destruct (In_nth _ _ 0 I) as (m & Lm & <-). set (a := nth m z 0) in *. destruct (fits_in _ FT I) as [La Ln]. destruct (SB a I) as [LC BC].
  apply (nth_ext _ _ 0%Z 0%Z); [rewrite app_length, map_length, skipn_length; lia|]. intros k Lk. destruct (Nat.lt_ge_cases k n) as [L|L].
  - rewrite app_nth1 by (rewrite map_length; lia). assert (R : row_of h' z k = row_of h z (nth k q 0)).
    { rewrite <- (@rows_of_nth n h' z k []) by auto. rewrite E. rewrite (nth_indep _ [] (row_of h z 0)) by (rewrite map_length; lia). apply map_nth. }
    apply (f_equal (fun r => nth m r 0%Z)) in R. unfold row_of in R.
    rewrite (nth_indep (map _ z) 0%Z ((fun b => nth k (column h' b) 0%Z) 0)) in R by (rewrite map_length; auto). rewrite (map_nth (fun b => nth k (column h' b) 0%Z)) in R.
    rewrite (nth_indep (map _ z) 0%Z ((fun b => nth (nth k q 0) (column h b) 0%Z) 0)) in R by (rewrite map_length; auto). rewrite (map_nth (fun b => nth (nth k q 0) (column h b) 0%Z)) in R.
    fold a in R. rewrite R. rewrite (nth_indep (map _ q) 0%Z ((fun i => nth i (column h a) 0%Z) 0)) by (rewrite map_length; lia). now rewrite (map_nth (fun i => nth i (column h a) 0%Z)).
  - rewrite app_nth2 by (rewrite map_length; lia). rewrite map_length, Lq, BC by auto. rewrite <- (firstn_skipn n (column h a)) at 1. rewrite app_nth2 by (rewrite firstn_length; lia). f_equal. rewrite firstn_length. lia.
Qed.

(** ** resize, clear *)
Lemma resized_length N v : length (resized N v) = N.
Proof. unfold resized. rewrite app_length, firstn_length, repeat_length. lia. Qed.
Lemma nth_repeat0 k m : nth k (repeat 0%Z m) 0%Z = 0%Z.
Proof. revert k. induction m; destruct k; simpl; auto. Qed.
Lemma nth_firstn_lt A (l : list A) d : forall N k, k < N -> nth k (firstn N l) d = nth k l d.
Proof. induction l as [|x l IH]; intros N k L; [now rewrite firstn_nil|]. destruct N; [lia|]. destruct k; cbn [firstn nth]; auto. apply IH. lia. Qed.
Lemma resized_nth N v k : k < N -> nth k (resized N v) 0%Z = nth k v 0%Z.
Proof.
  intros L. unfold resized. destruct (Nat.lt_ge_cases k (length v)) as [Lv|Lv].
  - rewrite app_nth1 by (rewrite firstn_length; lia). now apply nth_firstn_lt.
  - rewrite app_nth2 by (rewrite firstn_length; lia). rewrite nth_repeat0. now rewrite nth_overflow.
Qed.
Lemma zip_resize_ok N z : forall h, (forall a, In a z -> a < length h) ->
  exists h', zip_resize h z N = Ok h' /\ length h' = length h /\ (forall a, ~ In a z -> column h' a = column h a) /\
    forall a, In a z -> length (column h' a) = N /\ forall k, k < N -> nth k (column h' a) 0%Z = nth k (column h a) 0%Z.
Proof.
  unfold zip_resize. induction z as [|a z IH]; intros h V.
  - exists h. split; auto. split; auto. split; auto. intros a [].
  - cbn [rfold]. assert (La : a < length h) by (apply V; now left). rewrite (@vget_nth _ h a []) by auto. cbn [bind]. fold (column h a). rewrite vset_lt by auto. cbn [bind].
    destruct (IH (upd h a (resized N (column h a)))) as (h' & E & L & NI & C). { intros b I. rewrite upd_length. apply V. now right. }
    rewrite upd_length in L. exists h'. split; auto. split; auto. split.
    + intros b NB. rewrite NI by (intros I; apply NB; now right). rewrite column_upd by auto. destruct (b =? a) eqn:Eb; auto. apply Nat.eqb_eq in Eb. destruct NB. now left.
    + intros b I. destruct (in_dec Nat.eq_dec b z) as [Ib|Nb].
      * destruct (C b Ib) as [D1 D2]. split; auto. intros k Lk. rewrite D2, column_upd by auto. destruct (b =? a) eqn:Eb; auto. apply Nat.eqb_eq in Eb. subst b. now apply resized_nth.
      * destruct I as [<-|I]; [|easy]. rewrite NI, column_upd, Nat.eqb_refl by auto. split; [apply resized_length|]. intros k Lk. now apply resized_nth.
Qed.
Lemma zip_clear_resize h z : zip_clear h z = zip_resize h z 0.
Proof. unfold zip_clear, zip_resize. revert h. induction z as [|a z IH]; intros h; [reflexivity|]. cbn [rfold]. destruct (vget h a) as [v| |]; cbn [bind]; auto. Qed.

(** ** Iterator arithmetic *)
Local Open Scope Z_scope.
Lemma it_add_sub M i n : 0 <= i < M -> it_sub M (it_add M i n) n = i.
Proof. intros L. unfold it_sub, it_add. rewrite Zminus_mod_idemp_l. replace (i + n - n) with i by lia. now apply Z.mod_small. Qed.
Lemma it_diff_add M i n : 0 <= i < M -> - (M / 2) <= n < M / 2 -> it_diff M (it_add M i n) i = n.
Proof.
  intros L B. unfold it_diff, it_add. rewrite Zminus_mod_idemp_l. replace (i + n - i) with n by lia.
  assert (H := Z.div_mod M 2 ltac:(lia)). assert (HB := Z.mod_pos_bound M 2 ltac:(lia)).
  destruct (Z.lt_ge_cases n 0) as [N|N].
  - replace (n mod M) with (n + M). { destruct (n + M <? M / 2) eqn:E; [apply Z.ltb_lt in E; lia|lia]. }
    rewrite <- (Z.mod_small (n + M) M) by lia. replace (n + M) with (n + 1 * M) by lia. now rewrite Z.mod_add by lia.
  - rewrite Z.mod_small by lia. destruct (n <? M / 2) eqn:E; auto. apply Z.ltb_ge in E. lia.
Qed.
Lemma it_diff_small M i j : 0 <= i < M / 2 -> 0 <= j < M / 2 -> it_diff M i j = i - j.
Proof.
  intros Li Lj. assert (H := Z.div_mod M 2 ltac:(lia)). assert (HB := Z.mod_pos_bound M 2 ltac:(lia)).
  rewrite <- (@it_diff_add M j (i - j)) by lia. unfold it_add. replace (j + (i - j)) with i by lia. now rewrite Z.mod_small by lia.
Qed.
