(** Proofs about SpModel. *)
From Coq Require Import List Arith Lia Bool Sorting.Sorted ZArith.
From Verif Require Import Base SpModel.
Import ListNotations.
Set Implicit Arguments.

Section Sp.
Variable S : Type.
Variables (mapop redop : S -> S -> S).
Notation keys m := (map fst m).

(** Left-to-right reduction of a non-empty list. *)
Definition reduce1 (l : list S) : option S := match l with [] => None | x :: r => Some (fold_left redop r x) end.
Lemma reduce1_snoc l x : reduce1 (l ++ [x]) = Some (match reduce1 l with None => x | Some y => redop y x end).
Proof. destruct l as [|y l]; simpl; auto. now rewrite fold_left_app. Qed.

Lemma reduce1_iff l x : reduce1 l = Some x <-> exists p ps, l = p :: ps /\ x = fold_left redop ps p.
Proof.
  split.
  - destruct l as [|p ps]; [discriminate|]. intros X. injection X as <-. eauto.
  - intros (p & ps & -> & ->). reflexivity.
Qed.
(** The std::map as a partial function. *)
Fixpoint look (m : list (nat * S)) (j : nat) : option S :=
  match m with [] => None | (k, x) :: m' => if j =? k then Some x else look m' j end.
Lemma look_in m j x : StronglySorted lt (keys m) -> (In (j, x) m <-> look m j = Some x).
Proof.
  induction m as [|(k, y) m IH]; simpl; intros SS; [split; [tauto|discriminate]|]. inversion SS; subst. rewrite Forall_forall in H2.
  destruct (Nat.eqb_spec j k) as [->|N].
  - split.
    + intros [E|I]; [injection E as ->; auto|]. apply (in_map fst) in I. specialize (H2 _ I). simpl in H2. lia.
    + intros E. injection E as ->. auto.
  - rewrite <- IH by auto. split; [intros [E|I]; [injection E as -> ->; congruence|auto]|auto].
Qed.
Lemma look_none m j : (forall k, In k (keys m) -> k <> j) -> look m j = None.
Proof.
  induction m as [|(k, y) m IH]; simpl; intros H; auto. destruct (Nat.eqb_spec j k) as [->|N]; [exfalso; eapply H; eauto|apply IH; auto].
Qed.
Lemma map_acc_keys m j t k : In k (keys (map_acc redop m j t)) <-> k = j \/ In k (keys m).
Proof.
  induction m as [|(k', x) m IH]; simpl; [intuition|]. destruct (Nat.ltb_spec j k'); simpl; [intuition|].
  destruct (Nat.eqb_spec j k') as [->|N]; simpl; [intuition|]. rewrite IH. intuition.
Qed.
Lemma map_acc_ok m j t : StronglySorted lt (keys m) ->
  StronglySorted lt (keys (map_acc redop m j t)) /\
  forall k, look (map_acc redop m j t) k = if k =? j then Some (match look m j with None => t | Some y => redop y t end) else look m k.
Proof.
  induction m as [|(k', x) m IH]; intros SS.
  - split; [repeat constructor|]. intros k. simpl. reflexivity.
  - simpl in SS. inversion SS as [|? ? S1 F]; subst. rewrite Forall_forall in F. cbn [map_acc]. destruct (Nat.ltb_spec j k') as [L|L].
    + split.
      * simpl. constructor; auto. apply Forall_forall. intros y [<-|I]; [auto|specialize (F _ I); lia].
      * intros k. cbn [look]. destruct (Nat.eqb_spec k j) as [->|N]; auto. destruct (Nat.eqb_spec j k'); [lia|]. rewrite look_none; auto.
        intros y I. specialize (F _ I). lia.
    + destruct (Nat.eqb_spec j k') as [->|N].
      * split; [exact SS|]. intros k. cbn [look]. rewrite Nat.eqb_refl. destruct (k =? k'); auto.
      * destruct (IH S1) as (A & B). split.
        -- simpl. constructor; auto. apply Forall_forall. intros y I. apply map_acc_keys in I. destruct I as [->|I]; [lia|auto].
        -- intros k. cbn [look]. rewrite B. destruct (Nat.eqb_spec k k') as [->|N']; [destruct (Nat.eqb_spec k' j); [congruence|auto]|].
           destruct (Nat.eqb_spec j k'); [congruence|]. auto.
Qed.

(** The partial products for cell (i, j), in the order they arise. *)
Definition row_prods (B : list (srow S)) (row : srow S) (j : nat) : list S :=
  flat_map (fun e => map (fun f => mapop (snd e) (snd f)) (filter (fun f => fst f =? j) (nth (fst e) B []))) row.
Lemma inner_ok a (brow : srow S) : forall m (P : nat -> list S), StronglySorted lt (keys m) -> (forall j, look m j = reduce1 (P j)) ->
  StronglySorted lt (keys (fold_left (fun m f => map_acc redop m (fst f) (mapop a (snd f))) brow m)) /\
  forall j, look (fold_left (fun m f => map_acc redop m (fst f) (mapop a (snd f))) brow m) j =
    reduce1 (P j ++ map (fun f => mapop a (snd f)) (filter (fun f => fst f =? j) brow)).
Proof.
  induction brow as [|(j0, b) brow IH]; intros m P SS L; cbn [fold_left filter].
  - split; auto. intros j. simpl. now rewrite app_nil_r.
  - cbn [fst snd]. destruct (@map_acc_ok m j0 (mapop a b) SS) as (A & B).
    destruct (IH (map_acc redop m j0 (mapop a b)) (fun j => if j0 =? j then P j ++ [mapop a b] else P j) A) as (C & D).
    + intros j. rewrite B. destruct (Nat.eqb_spec j j0) as [->|N].
      * rewrite Nat.eqb_refl, reduce1_snoc, L. auto.
      * destruct (Nat.eqb_spec j0 j); [congruence|]. apply L.
    + split; auto. intros j. rewrite D. destruct (j0 =? j); auto. cbn [map snd]. now rewrite <- app_assoc.
Qed.
Lemma sp_row_ok B row : (forall e, In e row -> fst e < length B) ->
  exists m, sp_row mapop redop B row = Ok m /\ StronglySorted lt (keys m) /\ forall j, look m j = reduce1 (row_prods B row j).
Proof.
  intros H. unfold sp_row.
  assert (K : forall m (P : nat -> list S), StronglySorted lt (keys m) -> (forall j, look m j = reduce1 (P j)) ->
    exists m', rfold (fun m e => do brow <- vget B (fst e) ; Ok (fold_left (fun m f => map_acc redop m (fst f) (mapop (snd e) (snd f))) brow m)) row m = Ok m' /\
      StronglySorted lt (keys m') /\ forall j, look m' j = reduce1 (P j ++ row_prods B row j)).
  { induction row as [|(k, a) row IH]; intros m P SS L; cbn [rfold].
    - exists m. split; auto. split; auto. intros j. simpl. now rewrite app_nil_r.
    - cbn [fst snd]. rewrite (@vget_nth _ B k []) by (apply (H (k, a)); simpl; auto). cbn [bind].
      destruct (@inner_ok a (nth k B []) m P SS L) as (C & D). destruct (IH (fun e I => H e (or_intror I)) _ _ C D) as (m' & E & F & G).
      exists m'. split; auto. split; auto. intros j. rewrite G. cbn [row_prods flat_map fst snd]. now rewrite <- app_assoc. }
  destruct (K [] (fun _ => [])) as (m & E & F & G); [constructor|auto|]. exists m. auto.
Qed.

Definition lex (e f : nat * nat * S) : Prop := fst (fst e) < fst (fst f) \/ (fst (fst e) = fst (fst f) /\ snd (fst e) < snd (fst f)).
Lemma ssorted_app (X : Type) (R : X -> X -> Prop) l1 l2 : StronglySorted R l1 -> StronglySorted R l2 -> (forall x y, In x l1 -> In y l2 -> R x y) -> StronglySorted R (l1 ++ l2).
Proof.
  intros S1 S2 H. induction S1 as [|x l1 S1 IH F]; simpl; auto. constructor; [apply IH; intros; apply H; simpl; auto|].
  apply Forall_forall. intros y I. apply in_app_or in I. rewrite Forall_forall in F. destruct I as [I|I]; [auto|apply H; simpl; auto].
Qed.
Lemma sp_ok A B : (forall i e, In e (nth i A []) -> fst e < length B) ->
  exists es, spMatspMat mapop redop A B = Ok es /\ StronglySorted lex es /\
    forall i j x, In (i, j, x) es <-> i < length A /\ reduce1 (row_prods B (nth i A []) j) = Some x.
Proof.
  intros H. unfold spMatspMat.
  assert (K : forall n, n <= length A -> exists es, rfold (fun es i => do row <- vget A i ; do ci <- sp_row mapop redop B row ; Ok (es ++ map (fun e => (i, fst e, snd e)) ci)) (seq 0 n) [] = Ok es /\ StronglySorted lex es /\
    forall i j x, In (i, j, x) es <-> i < n /\ reduce1 (row_prods B (nth i A []) j) = Some x).
  { induction n as [|n IH]; intros Hn.
    - exists []. split; auto. split; [constructor|]. simpl. intros; lia.
    - destruct IH as (es & E & SS & C); [lia|]. rewrite seq_S, rfold_app, E. cbn [bind rfold plus]. rewrite (@vget_nth _ A n []) by lia. cbn [bind].
      destruct (@sp_row_ok B (nth n A [])) as (m & Em & Sm & Lm); [intros e I; eapply H; eauto|]. rewrite Em. cbn [bind].
      eexists. split; [reflexivity|]. split.
      + apply ssorted_app; auto.
        * clear - Sm. induction m as [|(k, x) m IH]; simpl; constructor; inversion Sm; subst; auto.
          apply Forall_forall. intros e I. apply in_map_iff in I. destruct I as (f & <- & I). rewrite Forall_forall in H2. right. simpl. split; auto. apply H2. now apply in_map.
        * intros ((i, j), x) e I J. apply in_map_iff in J. destruct J as (f & <- & J). apply C in I. left. simpl. lia.
      + intros i j x. rewrite in_app_iff, C, in_map_iff. split.
        * intros [(X & Y)|((k, y) & EE & I)]; [split; auto; lia|]. cbn [fst snd] in EE. injection EE as <- -> ->. split; [lia|]. rewrite <- Lm. now apply look_in.
        * intros (X & Y). destruct (Nat.eq_dec i n) as [->|N]; [|left; split; auto; lia]. right. exists (j, x). split; auto. apply look_in; auto. now rewrite Lm. }
  apply K. auto.
Qed.

Variable zero : S.
(** ** A * B^T *)
Definition dot_prods (row col : srow S) : list S :=
  flat_map (fun e => map (fun f => mapop (snd e) (snd f)) (filter (fun f => fst f =? fst e) col)) row.
Lemma filter_lt_nil (col : srow S) k : (forall f, In f col -> k < fst f) -> filter (fun f => fst f =? k) col = [].
Proof. intros H. apply filter_none. intros f I. apply Nat.eqb_neq. specialize (H f I). lia. Qed.
Lemma dot_skip row b y (col : srow S) : (forall e, In e row -> b < fst e) -> dot_prods row ((b, y) :: col) = dot_prods row col.
Proof.
  intros H. unfold dot_prods. induction row as [|(k, a) row IH]; auto. cbn [flat_map filter fst snd].
  destruct (Nat.eqb_spec b k) as [->|N]; [specialize (H (k, a) (or_introl eq_refl)); simpl in H; lia|]. f_equal. apply IH. intros; apply H; simpl; auto.
Qed.
Lemma ewise_ok : forall fuel row col, length row + length col <= fuel -> StronglySorted lt (keys row) -> StronglySorted lt (keys col) ->
  ewise mapop fuel row col = Ok (dot_prods row col).
Proof.
  induction fuel as [|f IH]; intros row col F SR SC.
  - destruct row, col; simpl in F; try lia. reflexivity.
  - destruct row as [|(a, x) r1]; [reflexivity|]. destruct col as [|(b, y) r2].
    + cbn [ewise]. f_equal. symmetry. unfold dot_prods. clear. induction ((a, x) :: r1) as [|e l IHl]; auto.
    + pose proof SR as SR0. pose proof SC as SC0. simpl in SR, SC, F. inversion SR as [|? ? S1 F1]; subst. inversion SC as [|? ? S2 F2]; subst.
      rewrite Forall_forall in F1, F2. cbn [ewise]. destruct (Nat.ltb_spec a b) as [L|L].
      * rewrite IH by (auto; simpl; lia). f_equal. unfold dot_prods at 2. cbn [flat_map fst].
        rewrite filter_lt_nil; [reflexivity|]. intros g [<-|I]; [auto|]. apply (in_map fst) in I. specialize (F2 _ I). lia.
      * destruct (Nat.ltb_spec b a) as [L2|L2]; cbn [negb].
        -- rewrite IH by (auto; simpl; lia). f_equal. symmetry. apply dot_skip. intros e [<-|I]; [auto|]. apply (in_map fst) in I. specialize (F1 _ I). lia.
        -- assert (a = b) by lia. subst b. rewrite IH by (auto; lia). cbn [bind]. f_equal. unfold dot_prods at 2. cbn [flat_map filter fst snd].
           rewrite Nat.eqb_refl, filter_lt_nil by (intros g I; apply (in_map fst) in I; now apply F2). cbn [map app snd]. f_equal.
           symmetry. apply (@dot_skip r1 a y r2). intros e I. apply (in_map fst) in I. now apply F1.
Qed.
Definition sorted_rows (A : list (srow S)) : Prop := forall i, StronglySorted lt (keys (nth i A [])).
Lemma spt_ok A BT : sorted_rows A -> sorted_rows BT ->
  exists es, spMatspMatT zero mapop redop A BT = Ok es /\ StronglySorted lex es /\
    forall i j x, In (i, j, x) es <-> i < length A /\ j < length BT /\ dot_prods (nth i A []) (nth j BT []) <> [] /\ x = fold_left redop (dot_prods (nth i A []) (nth j BT [])) zero.
Proof.
  intros HA HB. unfold spMatspMatT.
  assert (K1 : forall i es0, i < length A -> StronglySorted lex es0 -> (forall e, In e es0 -> fst (fst e) < i) -> forall n, n <= length BT ->
    exists es, rfold (fun es j => do col <- vget BT j ; spt_cell zero mapop redop i j (nth i A []) col es) (seq 0 n) es0 = Ok es /\ StronglySorted lex es /\
      forall i' j x, In (i', j, x) es <-> In (i', j, x) es0 \/ (i' = i /\ j < n /\ dot_prods (nth i A []) (nth j BT []) <> [] /\ x = fold_left redop (dot_prods (nth i A []) (nth j BT [])) zero)).
  { intros i es0 Hi S0 B0. induction n as [|n IH]; intros Hn.
    - exists es0. split; auto. split; auto. intros i' j x. split; [auto|]. intros [|(_ & X & _)]; [auto|lia].
    - destruct IH as (es & E & SS & C); [lia|]. rewrite seq_S, rfold_app, E. cbn [bind rfold plus]. rewrite (@vget_nth _ BT n []) by lia. cbn [bind].
      unfold spt_cell, set_ewise_intersection. rewrite ewise_ok by auto. cbn [bind].
      destruct (dot_prods (nth i A []) (nth n BT [])) as [|p ps] eqn:Ep.
      + exists es. split; auto. split; auto. intros i' j x. rewrite C. split; intros [|(X & Y & Z)]; auto; right; split; auto; split; try tauto; try lia.
        assert (j <> n); [|lia]. intros ->. rewrite Ep in Z. destruct Z as (Z & _). congruence.
      + eexists. split; [reflexivity|]. split.
        * apply ssorted_app; auto; [repeat constructor|]. intros ((i', j), x) e I [<-|[]]. apply C in I. unfold lex. simpl. destruct I as [I|(-> & X & _)]; [|lia]. apply B0 in I. simpl in I. lia.
        * intros i' j x. rewrite in_app_iff, C. split.
          -- intros [[I|(X & Y & Z)]|[E'|[]]]; [auto|right; repeat split; try tauto; lia|]. injection E' as <- <- <-. right. rewrite Ep. repeat split; auto. discriminate.
          -- intros [I|(-> & Y & Z & ->)]; [auto|]. destruct (Nat.eq_dec j n) as [->|N]; [right; left; now rewrite Ep|]. left. right. repeat split; auto; lia. }
  assert (K : forall n, n <= length A -> exists es, rfold (fun es i => do row <- vget A i ; rfold (fun es j => do col <- vget BT j ; spt_cell zero mapop redop i j row col es) (seq 0 (length BT)) es) (seq 0 n) [] = Ok es /\ StronglySorted lex es /\
    forall i j x, In (i, j, x) es <-> i < n /\ j < length BT /\ dot_prods (nth i A []) (nth j BT []) <> [] /\ x = fold_left redop (dot_prods (nth i A []) (nth j BT [])) zero).
  { induction n as [|n IH]; intros Hn.
    - exists []. split; auto. split; [constructor|]. simpl. intros; lia.
    - destruct IH as (es & E & SS & C); [lia|]. rewrite seq_S, rfold_app, E. cbn [bind rfold plus]. rewrite (@vget_nth _ A n []) by lia. cbn [bind].
      destruct (@K1 n es) with (n := length BT) as (es' & E' & S' & C'); auto.
      { intros ((i, j), x) I. apply C in I. simpl. tauto. }
      rewrite E'. exists es'. split; auto. split; auto. intros i j x. rewrite C', C. split.
      + intros [(X & Y)|(-> & Y)]; split; auto; lia.
      + intros (X & Y). destruct (Nat.eq_dec i n) as [->|N]; [auto|left; split; auto; lia]. }
  apply K. auto.
Qed.
Lemma lex_ext l l' : StronglySorted lex l -> StronglySorted lex l' -> (forall e, In e l <-> In e l') -> l = l'.
Proof.
  intros SS. revert l'. induction SS as [|x l SS IH F]; intros l' S' H.
  - destruct l' as [|y l']; auto. destruct (proj2 (H y)); simpl; auto.
  - destruct S' as [|y l' S' F']; [destruct (proj1 (H x)); simpl; auto|]. rewrite Forall_forall in F, F'.
    assert (x = y).
    { destruct (proj1 (H x)) as [|I]; [simpl; auto|auto|]. destruct (proj2 (H y)) as [|J]; [simpl; auto|auto|]. specialize (F _ J). specialize (F' _ I). unfold lex in *. lia. }
    subst y. f_equal. apply IH; auto. intros v. split; intros I.
    + destruct (proj1 (H v)) as [->|]; simpl; auto. specialize (F _ I). unfold lex in F. lia.
    + destruct (proj2 (H v)) as [->|]; simpl; auto. specialize (F' _ I). unfold lex in F'. lia.
Qed.
End Sp.

(** ** Integer matrices *)
Local Open Scope Z_scope.
Definition zsum (l : list Z) : Z := fold_right Z.add 0 l.
(** The dense entry: the sum of the values stored for the column. *)
Definition entry (A : list (srow Z)) (i k : nat) : Z := zsum (map snd (filter (fun e => Nat.eqb (fst e) k) (nth i A []))).
Lemma zsum_app a b : zsum (a ++ b) = zsum a + zsum b.
Proof. unfold zsum. induction a; simpl; lia. Qed.
Lemma fold_left_zsum l x : fold_left Z.add l x = x + zsum l.
Proof. revert x. induction l as [|y l IH]; intros x; simpl; [lia|]. rewrite IH. lia. Qed.
Lemma reduce1_zsum l x : reduce1 Z.add l = Some x <-> l <> [] /\ x = zsum l.
Proof.
  destruct l as [|y l]; simpl; [split; [discriminate|tauto]|]. rewrite fold_left_zsum. split.
  - intros E. injection E as <-. split; [discriminate|auto].
  - intros (_ & ->). reflexivity.
Qed.
Lemma zsum_scale a (l : srow Z) : zsum (map (fun f => a * snd f) l) = a * zsum (map snd l).
Proof. induction l; simpl; [lia|]. rewrite IHl. lia. Qed.
Lemma zsum_0 (X : Type) (f : X -> Z) l : (forall x, In x l -> f x = 0) -> zsum (map f l) = 0.
Proof. induction l; simpl; intros H; auto. rewrite H, IHl; auto. Qed.
Lemma zsum_ext (X : Type) (f g : X -> Z) l : (forall x, In x l -> f x = g x) -> zsum (map f l) = zsum (map g l).
Proof. induction l; simpl; intros H; auto. rewrite H, IHl; auto. Qed.
Lemma zsum_add (X : Type) (f g : X -> Z) l : zsum (map (fun x => f x + g x) l) = zsum (map f l) + zsum (map g l).
Proof. induction l; simpl; auto. rewrite IHl. lia. Qed.
(** A sum over stored elements is the sum over columns of the column sums. *)
Lemma zsum_by_column (row : srow Z) (c : nat -> Z) K : (forall e, In e row -> (fst e < K)%nat) ->
  zsum (map (fun e => snd e * c (fst e)) row) = zsum (map (fun k => zsum (map snd (filter (fun e => Nat.eqb (fst e) k) row)) * c k) (seq 0 K)).
Proof.
  induction row as [|(k0, a) row IH]; intros H.
  - simpl. symmetry. apply zsum_0. intros k _. simpl. lia.
  - cbn [map]. change (zsum ((snd (k0, a) * c (fst (k0, a))) :: map (fun e => snd e * c (fst e)) row)) with (a * c k0 + zsum (map (fun e => snd e * c (fst e)) row)).
    rewrite IH by (intros; apply H; simpl; auto).
    transitivity (zsum (map (fun k => (if Nat.eqb k0 k then a * c k else 0) + zsum (map snd (filter (fun e => Nat.eqb (fst e) k) row)) * c k) (seq 0 K))).
    + rewrite zsum_add. f_equal. assert (Hk : (k0 < K)%nat) by (apply (H (k0, a)); simpl; auto). clear - Hk.
      assert (G : forall s m, zsum (map (fun k => if Nat.eqb k0 k then a * c k else 0) (seq s m)) = if (s <=? k0)%nat && (k0 <? s + m)%nat then a * c k0 else 0).
      { intros s m. revert s. induction m as [|m IH]; intros s.
        - simpl. destruct (Nat.leb_spec s k0), (Nat.ltb_spec k0 (s + 0)); simpl; auto; lia.
        - simpl. change (fold_right Z.add 0 (map (fun k => if (k0 =? k)%nat then a * c k else 0) (seq (S s) m))) with (zsum (map (fun k => if Nat.eqb k0 k then a * c k else 0) (seq (S s) m))). rewrite IH. destruct (Nat.eqb_spec k0 s) as [->|N].
          + destruct (Nat.leb_spec (S s) s), (Nat.leb_spec s s), (Nat.ltb_spec s (s + S m)); simpl; try lia.
          + destruct (Nat.leb_spec (S s) k0), (Nat.leb_spec s k0), (Nat.ltb_spec k0 (s + S m)), (Nat.ltb_spec k0 (S s + m)); simpl; try lia. }
      rewrite G. destruct (Nat.ltb_spec k0 (0 + K)); simpl; [auto|lia].
    + apply zsum_ext. intros k _. cbn [filter fst]. destruct (Nat.eqb_spec k0 k) as [->|N]; simpl; [|lia].
      change (fold_right Z.add 0 (map snd (filter (fun e => (fst e =? k)%nat) row))) with (zsum (map snd (filter (fun e => Nat.eqb (fst e) k) row))). lia.
Qed.
Lemma zsum_flat_map (X : Type) (f : X -> list Z) l : zsum (flat_map f l) = zsum (map (fun x => zsum (f x)) l).
Proof. induction l; simpl; auto. now rewrite zsum_app, IHl. Qed.
Lemma prods_dense A B i j : (forall e, In e (nth i A []) -> (fst e < length B)%nat) ->
  zsum (row_prods Z.mul B (nth i A []) j) = zsum (map (fun k => entry A i k * entry B k j) (seq 0 (length B))).
Proof.
  intros H. unfold row_prods. rewrite zsum_flat_map. rewrite (@zsum_ext _ _ (fun e => snd e * entry B (fst e) j)) by (intros e _; apply zsum_scale).
  now apply (@zsum_by_column (nth i A []) (fun k => entry B k j)).
Qed.
Lemma dot_dense A BT i j K : (forall e, In e (nth i A []) -> (fst e < K)%nat) ->
  zsum (dot_prods Z.mul (nth i A []) (nth j BT [])) = zsum (map (fun k => entry A i k * entry BT j k) (seq 0 K)).
Proof.
  intros H. unfold dot_prods. rewrite zsum_flat_map. rewrite (@zsum_ext _ _ (fun e => snd e * entry BT j (fst e))) by (intros e _; apply zsum_scale).
  now apply (@zsum_by_column (nth i A []) (fun k => entry BT j k)).
Qed.
