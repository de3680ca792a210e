From Coq Require Import List Arith Bool ZArith Lia.
From Verif Require Import Base GraphLib SumLib WalkModel WalkProofs KcoreModel KcoreTermProofs.
Import ListNotations.
Set Implicit Arguments.
Local Open Scope nat_scope.

(** ** Specification *)
(** arcs into a vertex; ends of pairs at a vertex *)
Definition in_degree (g : list (list nat)) (v : nat) : nat := count_occ Nat.eq_dec (concat g) v.
Definition touches (f : list (nat * nat)) (v : nat) : nat := count_occ Nat.eq_dec (map fst f ++ map snd f) v.
(** a vertex is counted unless as many removed pairs as it has arcs touch it *)
Definition counted (g : list (list nat)) (f : list (nat * nat)) (v : nat) : bool := (in_degree g v =? 0) || (touches f v <? in_degree g v).
(** The k-core: the vertices of the sets in which every member has at least k neighbours *)
Definition dense (g : list (list nat)) (k : nat) (C : list nat) : Prop :=
  forall u, In u C -> u < length g /\ k <= length (filter (fun w => mem w C) (nth u g [])).
Definition in_core (g : list (list nat)) (k : nat) (v : nat) : Prop := exists C, dense g k C /\ In v C.
(** simple undirected graphs, as the function wants them *)
Definition simple_graph (g : list (list nat)) : Prop :=
  targets_ok g /\ (forall u v, edge g u v -> edge g v u) /\ (forall v, ~ edge g v v) /\ forall v, NoDup (nth v g []).

(** ** Accounting *)
Lemma touches_snoc f e v : touches (f ++ [e]) v = touches f v + (if fst e =? v then 1 else 0) + (if snd e =? v then 1 else 0).
Proof.
  unfold touches. rewrite !map_app, !count_occ_app. cbn [map count_occ]. 
  destruct (Nat.eq_dec (fst e) v) as [E|E], (Nat.eq_dec (snd e) v) as [F|F]; rewrite ?(proj2 (Nat.eqb_eq _ _) E), ?(proj2 (Nat.eqb_eq _ _) F), ?(proj2 (Nat.eqb_neq _ _) E), ?(proj2 (Nat.eqb_neq _ _) F); lia.
Qed.
Lemma touches_pair f v w x : touches (f ++ [my_pair v w]) x = touches f x + (if w =? x then 1 else 0) + (if v =? x then 1 else 0).
Proof. rewrite touches_snoc. unfold my_pair. destruct (v <? w); cbn [fst snd]; lia. Qed.
Lemma sum_bump (f f' : nat -> nat) x c : forall n s, s <= x < s + n -> (forall y, y <> x -> f' y = f y) -> f' x + c = f x ->
  sum (map f' (seq s n)) + c = sum (map f (seq s n)).
Proof.
  induction n as [|n IH]; intros s X E H; [lia|]. cbn [seq map sum]. destruct (Nat.eq_dec s x) as [->|N].
  - rewrite (@sum_map_ext _ f' f (seq (S x) n)); [lia|]. intros y Y. apply in_seq in Y. apply E. lia.
  - rewrite (E s) by auto. rewrite <- (IH (S s)); auto; lia.
Qed.
(** the state when vertex x has lost t x *)
Definition acct (g : list (list nat)) (t : nat -> nat) (st : list Z * Z) : Prop :=
  length (fst st) = length g /\ (forall x, x < length g -> nth x (fst st) 0%Z = (Z.of_nat (in_degree g x) - Z.of_nat (t x))%Z) /\
  snd st = Z.of_nat (sum (map (fun x => b2n ((in_degree g x =? 0) || (t x <? in_degree g x))) (seq 0 (length g)))).
Lemma acct_ext g t t' st : (forall x, x < length g -> t x = t' x) -> acct g t st -> acct g t' st.
Proof.
  intros E (A & B & C). split; auto. split.
  - intros x X. now rewrite <- E, B.
  - rewrite C. f_equal. apply sum_map_ext. intros x X. apply in_seq in X. rewrite E by lia. reflexivity.
Qed.
Lemma lose_acct g t st x st' : acct g t st -> lose x st = Ok st' -> x < length g /\ acct g (fun y => t y + (if x =? y then 1 else 0)) st'.
Proof.
  intros (A & B & C) H. destruct st as [deg n]. cbn [fst snd] in *. unfold lose in H. binv H. binv H. inversion H; subst st'; clear H.
  apply vset_Ok in E0. destruct E0 as [L ->]. rewrite (@vget_nth _ _ _ 0%Z L) in E. inversion E as [Ex]. clear E. rewrite A in L. split; [exact L|].
  unfold acct. cbn [fst snd]. rewrite upd_length. split; [exact A|]. split.
  - intros y Y. rewrite nth_upd by lia. destruct (y =? x) eqn:YX.
    + apply Nat.eqb_eq in YX. subst y. rewrite Nat.eqb_refl, B by auto. lia.
    + rewrite Nat.eqb_sym, YX, B by auto. lia.
  - rewrite B by auto. subst n.
    set (f' := fun x0 => b2n ((in_degree g x0 =? 0) || (t x0 + (if x =? x0 then 1 else 0) <? in_degree g x0))). set (f := fun x0 => b2n ((in_degree g x0 =? 0) || (t x0 <? in_degree g x0))).
    assert (OTH : forall y, y <> x -> f' y = f y) by (intros y Y; unfold f', f; rewrite (proj2 (Nat.eqb_neq x y)) by auto; now rewrite Nat.add_0_r).
    assert (AT : f' x + (if (Z.of_nat (in_degree g x) - Z.of_nat (t x) - 1 =? 0)%Z then 1 else 0) = f x).
    { unfold f', f. rewrite Nat.eqb_refl. destruct (Z.eqb_spec (Z.of_nat (in_degree g x) - Z.of_nat (t x) - 1)%Z 0) as [Z|Z].
      - rewrite (proj2 (Nat.eqb_neq (in_degree g x) 0)) by lia. rewrite (proj2 (Nat.ltb_ge (t x + 1) _)), (proj2 (Nat.ltb_lt (t x) _)) by lia. reflexivity.
      - destruct (Nat.eqb_spec (in_degree g x) 0) as [D|D]; [reflexivity|]. destruct (Nat.ltb_spec (t x + 1) (in_degree g x)), (Nat.ltb_spec (t x) (in_degree g x)); cbn; lia. }
    assert (SB := @sum_bump f f' x _ (length g) 0 ltac:(lia) OTH AT).
    destruct (Z.of_nat (in_degree g x) - Z.of_nat (t x) - 1 =? 0)%Z; lia.
Qed.
Record kinv (g : list (list nat)) (k : Z) (st : kstate) : Prop := {
  ki_acct : acct g (touches (fst (fst st))) (snd (fst st), snd st);
  ki_nodup : NoDup (fst (fst st));
  ki_pair : forall e, In e (fst (fst st)) -> fst e <= snd e < length g }.
Lemma has_pair_spec f e : has_pair f e = true <-> In e f.
Proof.
  unfold has_pair. rewrite existsb_exists. split.
  - intros ([a b] & I & H). destruct e as [c d]. cbn in H. apply andb_true_iff in H. destruct H as [H1 H2]. apply Nat.eqb_eq in H1, H2. now subst.
  - intros I. exists e. now rewrite !Nat.eqb_refl.
Qed.
Lemma edge_inv g k st v w st' : kinv g k st -> kc_edge k st (v, w) = Ok st' ->
  kinv g k st' /\ (st' = st \/ (v < length g /\ fst (fst st') = fst (fst st) ++ [my_pair v w] /\ (nth v (snd (fst st)) 0 < k)%Z)).
Proof.
  intros [A N P] H. destruct st as [[f deg] n]. cbn [fst snd] in *. unfold kc_edge in H. destruct (has_pair f (my_pair v w)) eqn:HP.
  { inversion H; subst. split; [constructor; auto|]. now left. }
  binv H. destruct (Z.ltb_spec x k) as [LT|GE].
  2:{ inversion H; subst. split; [constructor; auto|]. now left. }
  binv H. binv H. inversion H; subst; clear H. assert (VL := @vget_Ok_lt _ _ _ _ E). rewrite (@vget_nth _ _ _ 0%Z VL) in E. inversion E as [Ex].
  destruct (@lose_acct g _ _ _ _ A E0) as [W1 A1]. destruct (@lose_acct g _ _ _ _ A1 E1) as [V1 A2]. split.
  - constructor; cbn [fst snd].
    + rewrite <- surjective_pairing. eapply acct_ext; [|exact A2]. intros y _. cbn. now rewrite touches_pair.
    + apply NoDup_snoc; auto. intros I. apply has_pair_spec in I. congruence.
    + intros e I. apply in_app_iff in I. destruct I as [I|[<-|[]]]; auto. unfold my_pair. destruct (Nat.ltb_spec v w); cbn; lia.
  - right. cbn. split; auto. split; auto. lia.
Qed.
(** the loop, with an invariant of the user *)
Lemma loop_inv debug k g (P : kstate -> Prop) :
  (forall st v w st', kinv g k st -> P st -> kc_edge k st (v, w) = Ok st' -> P st') ->
  forall fuel s st st', kinv g k st -> P st -> kc_loop fuel debug k g s st = Ok st' -> kinv g k st' /\ P st'.
Proof.
  intros STEP. induction fuel as [|f IH]; intros s st st' I PS H; cbn [kc_loop] in H; destruct (Q s); try discriminate; try (inversion H; subst; auto; fail).
  binv H. binv H. binv H. destruct x as [v w]. assert (PS' := @STEP _ _ _ _ I PS E0). apply (IH x1 x0 st'); auto. now apply (@edge_inv g k st v w x0).
Qed.
Lemma count_snoc l (x v : nat) : count_occ Nat.eq_dec (l ++ [x]) v = count_occ Nat.eq_dec l v + (if x =? v then 1 else 0).
Proof. rewrite count_occ_app. cbn. destruct (Nat.eq_dec x v) as [E|E]; [rewrite (proj2 (Nat.eqb_eq _ _) E)|rewrite (proj2 (Nat.eqb_neq _ _) E)]; lia. Qed.
Lemma in_degrees_Ok g deg : in_degrees g = Ok deg -> length deg = length g /\ forall x, x < length g -> nth x deg 0%Z = Z.of_nat (in_degree g x).
Proof.
  unfold in_degrees, in_degree. assert (G : forall l (d0 d : list Z), rfold (fun deg v => do d <- vget deg v ; vset deg v (d + 1)%Z) l d0 = Ok d -> length d = length d0 /\ forall x, x < length d0 -> nth x d 0%Z = (nth x d0 0 + Z.of_nat (count_occ Nat.eq_dec l x))%Z).
  { induction l as [|y l IH]; intros d0 d H; cbn [rfold] in H.
    - inversion H; subst. split; auto. intros x X. cbn. lia.
    - binv H. binv E. apply vset_Ok in E. destruct E as [L ->]. apply IH in H. rewrite upd_length in H. destruct H as [H1 H2]. split; auto. intros x X. rewrite H2 by auto.
      rewrite (@vget_nth _ _ _ 0%Z L) in E0. inversion E0. rewrite nth_upd by auto. cbn [count_occ]. destruct (Nat.eqb_spec x y) as [->|NE].
      + destruct (Nat.eq_dec y y); [lia|congruence].
      + destruct (Nat.eq_dec y x); [congruence|lia]. }
  intros H. apply G in H. rewrite repeat_length in H. destruct H as [H1 H2]. split; auto. intros x X. rewrite H2 by auto. rewrite nth_repeat. lia.
Qed.
Lemma in_degrees_ok g : targets_ok g -> exists deg, in_degrees g = Ok deg.
Proof.
  intros T. assert (TC : forall x, In x (concat g) -> x < length g).
  { intros x X. apply in_concat in X. destruct X as (r & R & X). destruct (In_nth _ _ [] R) as (u & U & E). apply (T u). unfold edge. now rewrite E. }
  unfold in_degrees. assert (L0 : length (repeat 0%Z (length g)) = length g) by apply repeat_length. revert L0 TC. generalize (repeat 0%Z (length g)).
  induction (concat g) as [|y l IH]; intros d L0 TC; cbn [rfold]; eauto. assert (Y : y < length d) by (rewrite L0; apply TC; now left).
  rewrite (@vget_nth _ _ _ 0%Z Y). cbn [bind]. rewrite vset_lt by auto. cbn [bind]. apply IH; [now rewrite upd_length|]. intros; apply TC; now right.
Qed.
Lemma kinv_init g k deg : in_degrees g = Ok deg -> kinv g k ([], deg, Z.of_nat (length g)).
Proof.
  intros H. apply in_degrees_Ok in H. destruct H as [H1 H2]. constructor; cbn [fst snd].
  - split; auto. split.
    + intros x X. cbn [fst]. rewrite H2 by auto. cbn. lia.
    + cbn [snd touches map app count_occ]. f_equal. rewrite (@sum_map_ext _ _ (fun _ => 1)).
      * clear. induction (length g) as [|n IH]; auto. rewrite seq_S_app, map_app, sum_app, <- IH. cbn. lia.
      * intros x X. destruct (in_degree g x); reflexivity.
  - constructor.
  - intros e [].
Qed.
Lemma k_core_inv debug g k f n (P : kstate -> Prop) :
  (forall deg, in_degrees g = Ok deg -> P ([], deg, Z.of_nat (length g))) ->
  (forall st v w st', kinv g k st -> P st -> kc_edge k st (v, w) = Ok st' -> P st') ->
  k_core debug g k = Ok (f, n) -> exists deg, kinv g k (f, deg, n) /\ P (f, deg, n).
Proof.
  intros P0 STEP H. unfold k_core in H. binv H. binv H. binv H. inversion H; subst; clear H. destruct x1 as [[f deg] n]. cbn [fst snd].
  exists deg. eapply loop_inv; [exact STEP|apply kinv_init; exact E|apply P0; exact E|exact E1].
Qed.
(** ** Pairs that are edges *)
Definition other (v : nat) (e : nat * nat) : nat := if fst e =? v then snd e else fst e.
Definition at_v (v : nat) (e : nat * nat) : bool := (fst e =? v) || (snd e =? v).
Lemma touches_cons e f v : touches (e :: f) v = touches f v + (if fst e =? v then 1 else 0) + (if snd e =? v then 1 else 0).
Proof.
  unfold touches. cbn [map app count_occ]. rewrite !count_occ_app. cbn [count_occ].
  destruct (Nat.eq_dec (fst e) v) as [E|E], (Nat.eq_dec (snd e) v) as [F|F]; rewrite ?(proj2 (Nat.eqb_eq _ _) E), ?(proj2 (Nat.eqb_eq _ _) F), ?(proj2 (Nat.eqb_neq _ _) E), ?(proj2 (Nat.eqb_neq _ _) F); lia.
Qed.
Lemma touches_filter f v : (forall e, In e f -> fst e <> snd e) -> touches f v = length (filter (at_v v) f).
Proof.
  induction f as [|e f IH]; intros N; [reflexivity|]. rewrite touches_cons, IH by (intros; apply N; now right). cbn [filter]. unfold at_v at 2.
  assert (NE := N e (or_introl eq_refl)). destruct (Nat.eqb_spec (fst e) v), (Nat.eqb_spec (snd e) v); cbn; lia.
Qed.
Lemma row_in_degree g v : simple_graph g -> length (nth v g []) <= in_degree g v.
Proof.
  intros (T & SY & NL & ND). unfold in_degree.
  assert (IND : forall h : list (list nat), count_occ Nat.eq_dec (concat h) v >= length (filter (fun r => mem v r) h)).
  { induction h as [|r h IH]; cbn [concat filter]; [cbn; lia|]. rewrite count_occ_app. destruct (mem v r) eqn:M; cbn [length]; [|lia].
    apply mem_In in M. apply (count_occ_In Nat.eq_dec) in M. lia. }
  eapply Nat.le_trans; [|apply IND].
  assert (RE : length (filter (fun r => mem v r) g) = length (filter (fun u => mem v (nth u g [])) (seq 0 (length g)))).
  { clear. assert (H : g = map (fun u => nth u g []) (seq 0 (length g))).
    { apply nth_ext_default with (d := []); [now rewrite map_length, seq_length|]. intros i I. now rewrite nth_map_seq. }
    rewrite H at 1. generalize (seq 0 (length g)). intros l. induction l as [|x l IH]; auto. cbn [map filter]. destruct (mem v (nth x g [])); cbn [length]; auto. }
  rewrite RE. apply NoDup_incl_length; [apply ND|]. intros u U. apply filter_In. split.
  - apply in_seq. assert (X := T v u U). lia.
  - apply mem_In. now apply SY.
Qed.
Lemma filter_split A (p : A -> bool) l : length l = length (filter p l) + length (filter (fun x => negb (p x)) l).
Proof. induction l as [|x l IH]; auto. cbn. destruct (p x); cbn; lia. Qed.
Lemma core_degree g k C f v : simple_graph g -> dense g k C -> NoDup f -> (forall e, In e f -> fst e <= snd e /\ edge g (fst e) (snd e)) ->
  (forall e, In e f -> In (fst e) C -> In (snd e) C -> False) -> In v C -> touches f v + k <= in_degree g v.
Proof.
  intros SG D N P NC V. destruct (D v V) as [VL K]. assert (RD := @row_in_degree g v SG). destruct SG as (T & SY & NL & ND).
  assert (NE : forall e, In e f -> fst e <> snd e) by (intros e I Q; destruct (P e I) as [_ E]; rewrite Q in E; now apply NL in E).
  rewrite touches_filter by auto. rewrite (filter_split (fun w => mem w C) (nth v g [])) in RD.
  assert (TL : length (filter (at_v v) f) <= length (filter (fun w => negb (mem w C)) (nth v g []))); [|lia].
  rewrite <- (map_length (other v)). apply NoDup_incl_length.
  - assert (NF : NoDup (filter (at_v v) f)) by (now apply NoDup_filter).
    assert (INJ : forall e e', In e (filter (at_v v) f) -> In e' (filter (at_v v) f) -> other v e = other v e' -> e = e').
    { intros [a b] [c d] I J H. apply filter_In in I, J. destruct I as [I I2], J as [J J2]. unfold at_v, other in *. cbn in *.
      assert (A1 := P _ I). assert (A2 := P _ J). assert (B1 := NE _ I). assert (B2 := NE _ J). cbn in *.
      destruct (Nat.eqb_spec a v), (Nat.eqb_spec c v), (Nat.eqb_spec b v), (Nat.eqb_spec d v); cbn in *; try discriminate; f_equal; lia. }
    clear - NF INJ. induction (filter (at_v v) f) as [|e l IH]; cbn; [constructor|]. inversion NF as [|? ? NI NF']; subst. constructor.
    + intros X. apply in_map_iff in X. destruct X as (e' & E & I). apply INJ in E; [subst; auto|now right|now left].
    + apply IH; auto. intros x y X Y. apply INJ; now right.
  - intros w W. apply in_map_iff in W. destruct W as ([a b] & E & I). apply filter_In in I. destruct I as [I A]. destruct (P _ I) as [LE EG]. unfold at_v, other in *. cbn in *.
    apply filter_In. destruct (Nat.eqb_spec a v) as [Ea|Ea].
    + subst. split; [exact EG|]. apply negb_true_iff, mem_false. intros X. exact (NC _ I V X).
    + cbn in A. apply Nat.eqb_eq in A. subst. split; [apply SY; exact EG|]. apply negb_true_iff, mem_false. intros X. exact (NC _ I X V).
Qed.
Lemma core_kept debug g k f n C : simple_graph g -> dense g k C -> k_core debug g (Z.of_nat k) = Ok (f, n) ->
  (forall e, In e f -> edge g (fst e) (snd e)) -> forall e, In e f -> In (fst e) C -> In (snd e) C -> False.
Proof.
  intros SG D H ALL.
  destruct (@k_core_inv debug g (Z.of_nat k) f n (fun st => (forall e, In e (fst (fst st)) -> edge g (fst e) (snd e)) -> forall e, In e (fst (fst st)) -> In (fst e) C -> In (snd e) C -> False)) as (deg & _ & R); auto.
  - clear H ALL. intros st v w st' I P H ALL. destruct (@edge_inv g _ _ _ _ _ I H) as [I' [->|(VL & F & LT)]]; [now apply P|]. rewrite F in *.
    assert (PO : forall e, In e (fst (fst st)) -> edge g (fst e) (snd e)) by (intros e X; apply ALL; apply in_or_app; now left). specialize (P PO).
    intros e X C1 C2. apply in_app_or in X. destruct X as [X|[<-|[]]]; [exact (P e X C1 C2)|].
    assert (VC : In v C) by (unfold my_pair in C1, C2; destruct (v <? w); assumption).
    assert (CD : touches (fst (fst st)) v + k <= in_degree g v).
    { apply core_degree with C; auto; [apply (ki_nodup I)|]. intros e X. split; [apply (ki_pair I)|]; auto. }
    destruct (ki_acct I) as (_ & A & _). cbn [fst snd] in A. rewrite A in LT by auto. lia.
  - exact (R ALL).
Qed.
