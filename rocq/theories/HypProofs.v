(** Proofs about the s-overlap graph. *)
From Coq Require Import List Arith Lia Bool Permutation Sorted.
From Verif Require Import EdgeListModel EdgeListProofs CsrModel CsrProofs CsrProofs2 CsrProofs4 CsrProperties CbProofs HypModel SumLib Base.
Import ListNotations.
Set Implicit Arguments.
Local Open Scope nat_scope.
Notation uedge := (EdgeListModel.edge unit) (only parsing).

(** ** Specification *)
(** The pairs of incidences of i and of j with the same other end. *)
Definition common_pairs (es : list uedge) (i j : nat) : list (uedge * uedge) :=
  filter (fun p => (esrc (fst p) =? i) && (esrc (snd p) =? j) && (etgt (fst p) =? etgt (snd p))) (list_prod es es).
Definition common (es : list uedge) (i j : nat) : nat := length (common_pairs es i j).
(** All pairs of incidences with the same other end. *)
Definition sharing (es : list uedge) : list (uedge * uedge) := filter (fun p => (esrc (fst p) <? esrc (snd p)) && (etgt (fst p) =? etgt (snd p))) (list_prod es es).

(** ** The map *)
Fixpoint kval (K : list (nat * nat)) (x : nat) : nat := match K with [] => 0 | (y, c) :: r => if y =? x then c else kval r x end.
Definition kok (K : list (nat * nat)) : Prop := StronglySorted lt (map fst K) /\ Forall (fun kv => 0 < snd kv) K.
Lemma kinc_keys j K x : In x (map fst (kinc j K)) <-> x = j \/ In x (map fst K).
Proof.
  induction K as [|[y c] r IH]; cbn [kinc map In fst]; [intuition|]. destruct (Nat.ltb_spec y j); cbn [map In fst]; [rewrite IH; intuition|].
  destruct (Nat.eqb_spec y j); cbn [map In fst]; [|intuition]. subst. intuition.
Qed.
Lemma kinc_ok j K : kok K -> kok (kinc j K) /\ forall x, kval (kinc j K) x = kval K x + (if x =? j then 1 else 0).
Proof.
  induction K as [|[y c] r IH]; intros [S F]; cbn [kinc].
  - split; [repeat constructor|]. intros x. cbn. rewrite (Nat.eqb_sym j x). destruct (x =? j); auto.
  - inversion S as [|? ? S' A]; subst. inversion F as [|? ? P F']; subst. cbn [fst snd] in *. destruct (IH (conj S' F')) as [[S2 F2] V].
    destruct (Nat.ltb_spec y j) as [L|L].
    + split.
      * split; cbn [map fst]; constructor; auto. rewrite Forall_forall in *. intros x I. apply kinc_keys in I. destruct I as [->|I]; auto.
      * intros x. cbn [kval]. destruct (Nat.eqb_spec y x) as [Q|Q]; [|apply V]. destruct (Nat.eqb_spec x j); lia.
    + destruct (Nat.eqb_spec y j) as [Q|Q].
      * subst y. split; [split; cbn [map fst snd]; constructor; auto; cbn; lia|]. intros x. cbn [kval]. rewrite (Nat.eqb_sym x j). destruct (Nat.eqb_spec j x); lia.
      * split.
        -- split; cbn [map fst snd]; [|repeat constructor; auto; cbn; lia]. constructor; [constructor; auto|]. constructor; [lia|]. eapply Forall_impl; [|exact A]. cbn. lia.
        -- intros x. cbn [kval]. rewrite (Nat.eqb_sym x j). destruct (Nat.eqb_spec j x) as [<-|N]; [|lia]. replace (y =? j) with false by (symmetry; apply Nat.eqb_neq; lia).
           assert (Z : kval r j = 0); [|lia]. clear - A L. rewrite Forall_forall in A. induction r as [|[z d] r IH]; auto. cbn [kval]. destruct (Nat.eqb_spec z j) as [->|N].
           ++ specialize (A j (or_introl eq_refl)). lia.
           ++ apply IH. intros x I. apply A. now right.
Qed.
Lemma kval_in K x c : kok K -> (In (x, c) K <-> kval K x = c /\ 0 < c).
Proof.
  induction K as [|[y d] r IH]; intros [S F]; cbn [kval In]; [split; [intros []|lia]|]. inversion S as [|? ? S' A]; subst. inversion F as [|? ? P F']; subst. cbn [fst snd] in *.
  specialize (IH (conj S' F')). destruct (Nat.eqb_spec y x) as [->|N].
  - split.
    + intros [[= ->]|I]; [auto|]. rewrite Forall_forall in A. apply (in_map fst) in I. specialize (A _ I). cbn in A. lia.
    + intros [-> _]. now left.
  - rewrite <- IH. split; [intros [[= ? ?]|I]; auto; congruence|auto].
Qed.
Lemma k_list_ok i : forall js K, kok K ->
  kok (k_list i K js) /\ forall x, kval (k_list i K js) x = kval K x + (if i <? x then count_occ Nat.eq_dec (map fst js) x else 0).
Proof.
  unfold k_list. induction js as [|[j []] js IH]; intros K HK; cbn [fold_left map count_occ fst].
  - split; auto. intros x. destruct (i <? x); lia.
  - destruct (Nat.ltb_spec i j) as [L|L].
    + destruct (kinc_ok j HK) as [HK' V]. destruct (IH _ HK') as [A B]. split; auto. intros x. rewrite B, V.
      destruct (Nat.eq_dec j x) as [->|N]; [rewrite Nat.eqb_refl; replace (i <? x) with true by (symmetry; now apply Nat.ltb_lt); lia|].
      replace (x =? j) with false by (symmetry; apply Nat.eqb_neq; auto). lia.
    + destruct (IH _ HK) as [A B]. split; auto. intros x. rewrite B. destruct (Nat.ltb_spec i x); auto. destruct (Nat.eq_dec j x); lia.
Qed.

(** ** Counting *)
Definition cnt2 (es : list uedge) (k x : nat) : nat := length (filter (fun e => (etgt e =? k) && (esrc e =? x)) es).
Lemma filter_and A (p q : A -> bool) l : filter p (filter q l) = filter (fun x => q x && p x) l.
Proof. induction l as [|x l IH]; auto. cbn [filter]. destruct (q x); cbn [filter andb]; [destruct (p x)|]; now rewrite IH. Qed.
Lemma prod_count (P : uedge * uedge -> bool) es : forall l, length (filter P (list_prod l es)) = sum (map (fun e => length (filter (fun e' => P (e, e')) es)) l).
Proof.
  induction l as [|e l IH]; auto. cbn [list_prod map sum]. rewrite filter_app, app_length, IH. f_equal.
  rewrite filter_map, map_length. reflexivity.
Qed.
Lemma common_sum es i x : common es i x = sum (map (fun e => cnt2 es (etgt e) x) (filter (fun e => esrc e =? i) es)).
Proof.
  unfold common, common_pairs. rewrite prod_count. cbn [fst snd]. generalize es at 2 4. intros l. induction l as [|e l IH]; auto. cbn [map sum filter]. rewrite IH.
  destruct (esrc e =? i); cbn [andb map sum].
  - f_equal. unfold cnt2. f_equal. apply filter_ext. intros e'. rewrite (Nat.eqb_sym (etgt e)). apply andb_comm.
  - rewrite filter_none by auto. reflexivity.
Qed.
Lemma common_sym es i j : common es i j = common es j i.
Proof.
  rewrite !common_sum. unfold cnt2.
  assert (G : forall (f : uedge -> bool) (h : uedge -> bool) (l1 l2 : list uedge), sum (map (fun e => length (filter (fun e' => (etgt e' =? etgt e) && h e') l2)) (filter f l1)) =
    sum (map (fun e' => length (filter (fun e => (etgt e =? etgt e') && f e) l1)) (filter h l2))).
  { intros f h l1 l2. induction l1 as [|a l1 IH]; cbn [filter map sum length].
    - induction (filter h l2); cbn; auto.
    - transitivity (sum (map (fun e' => (if (etgt a =? etgt e') && f a then 1 else 0) + length (filter (fun e => (etgt e =? etgt e') && f e) l1)) (filter h l2))).
      2:{ f_equal. apply map_ext. intros e'. destruct ((etgt a =? etgt e') && f a); reflexivity. }
      assert (AD : forall (u w : uedge -> nat) l, sum (map (fun x => u x + w x) l) = sum (map u l) + sum (map w l)) by (intros u w l; induction l as [|x l IHl]; cbn; auto; rewrite IHl; lia).
      rewrite AD, <- IH. destruct (f a); cbn [map sum].
      + f_equal. clear. induction l2 as [|b l2 IH]; auto. cbn [filter]. destruct (h b); cbn [map sum]; [|rewrite andb_false_r; auto]. rewrite andb_true_r, andb_true_r, (Nat.eqb_sym (etgt a)). destruct (etgt b =? etgt a); cbn [length]; rewrite IH; reflexivity.
      + replace (sum (map (fun e' => if (etgt a =? etgt e') && false then 1 else 0) (filter h l2))) with 0; auto. symmetry. clear. induction (filter h l2) as [|x l IHl]; auto. cbn [map sum]. now rewrite IHl, andb_false_r. }
  exact (G (fun e => esrc e =? i) (fun e => esrc e =? j) es es).
Qed.
Lemma common_pos es i j : 0 < common es i j <-> exists k, In ((i, k), tt) es /\ In ((j, k), tt) es.
Proof.
  unfold common. split.
  - intros P. destruct (common_pairs es i j) as [|[e e'] l] eqn:E; [cbn in P; lia|]. assert (I : In (e, e') (common_pairs es i j)) by (rewrite E; now left).
    unfold common_pairs in I. apply filter_In in I. destruct I as [I Q]. apply in_prod_iff in I. apply andb_true_iff in Q as [Q Q3]. apply andb_true_iff in Q as [Q1 Q2]. apply Nat.eqb_eq in Q1, Q2, Q3.
    destruct e as [[a b] []], e' as [[c d] []]. unfold esrc, etgt in *. cbn [fst snd] in *. subst. exists d. tauto.
  - intros (k & I & J). assert (X : In ((((i, k), tt) : uedge), (((j, k), tt) : uedge)) (common_pairs es i j)).
    { apply filter_In. split; [now apply in_prod|]. unfold esrc, etgt. cbn [fst snd]. now rewrite !Nat.eqb_refl. }
    destruct (common_pairs es i j); [destruct X|cbn; lia].
Qed.

(** ** The loop *)
Lemma hyp_row_ok W srt srt1 n (es : list uedge) : is_sort_by fst srt -> n < W -> ids_ok W es -> length es < W ->
  exists G H, adjacency_of W srt srt1 true S0 (el_build W n es) false = Ok H /\ adjacency_of W srt srt1 true S1 (el_build W n es) false = Ok G /\
    (forall e, In e es -> esrc e < csr_size H) /\
    forall i, i < csr_size H -> exists K, hyp_row G H i = Ok K /\ kok K /\ forall x, kval K x = if i <? x then common es i x else 0.
Proof.
  intros HS Hn He HL. destruct (@C02_directed_csr_exact unit W srt srt1 S0 n 0 es HS Hn He HL) as ((H & EH & SH & _ & RH) & _).
  destruct (@C02_directed_csr_exact unit W srt srt1 S1 n 0 es HS Hn He HL) as ((G & EG & SG & _ & RG) & _). exists G, H.
  assert (BK := fun s => @build_key_lt unit W n es s Hn He).
  split; auto. split; auto. split; [intros e I; rewrite SH; exact (BK S0 e I)|].
  intros i Li. destruct (RH i Li) as (row & ER & P). unfold hyp_row. rewrite ER. cbn [bind].
  assert (BR : forall k, In k row -> fst k < csr_size G).
  { intros k I. apply (Permutation_in _ P) in I. unfold spec_row in I. apply in_map_iff in I. destruct I as (e & <- & I). apply filter_In in I. destruct I as [I _]. cbn [fst]. rewrite SG. exact (BK S1 e I). }
  assert (LO : forall ks K, (forall k, In k ks -> fst k < csr_size G) -> kok K ->
    exists K', rfold (fun K k => do js <- csr_row G (fst k) ; Ok (k_list i K js)) ks K = Ok K' /\ kok K' /\
      forall x, kval K' x = kval K x + (if i <? x then sum (map (fun k : nat * unit => cnt2 es (fst k) x) ks) else 0)).
  { induction ks as [|k ks IH]; intros K BB HK; cbn [rfold].
    - exists K. split; auto. split; auto. intros x. cbn [map sum]. destruct (i <? x); lia.
    - destruct (RG (fst k)) as (r & E & Q); [apply BB; now left|]. rewrite E. cbn [bind]. destruct (k_list_ok i r HK) as [HK' V].
      destruct (IH (k_list i K r)) as (K' & E' & HK2 & V2); auto; [intros y I; apply BB; now right|]. exists K'. split; auto. split; auto.
      intros x. rewrite V2, V. cbn [map sum]. destruct (i <? x); [|lia]. rewrite <- Nat.add_assoc. f_equal. f_equal.
      clear - Q. assert (C : count_occ Nat.eq_dec (map fst r) x = count_occ Nat.eq_dec (map fst (spec_row S1 es (fst k))) x).
      { apply (Permutation_map fst) in Q. rewrite (Permutation_count_occ Nat.eq_dec) in Q. apply Q. }
      rewrite C. unfold cnt2, spec_row. rewrite map_map. cbn [ekey other_side fst]. clear. induction es as [|e l IH]; auto. cbn [filter].
      destruct (etgt e =? fst k); cbn [map count_occ andb]; auto. destruct (Nat.eqb_spec (esrc e) x); destruct (Nat.eq_dec (esrc e) x); try congruence; cbn [length]; auto. }
  destruct (LO row [] BR) as (K & E & HK & V). { split; constructor. }
  exists K. split; auto. split; auto. intros x. rewrite V. cbn [kval plus]. destruct (i <? x); auto.
  rewrite (sum_perm (Permutation_map _ P)). unfold spec_row. rewrite map_map. cbn [ekey other_side fst]. now rewrite common_sum.
Qed.
Lemma kok_nodup K : kok K -> NoDup (map fst K).
Proof. intros [S _]. induction S as [|x l _ IH A]; constructor; auto. intros I. rewrite Forall_forall in A. specialize (A x I). lia. Qed.
Lemma nodup_filter_map A B (f : A -> B) p l : NoDup (map f l) -> NoDup (map f (filter p l)).
Proof.
  induction l as [|x l IH]; intros N; auto. cbn [map filter] in *. inversion N; subst. destruct (p x); cbn [map]; auto. constructor; auto.
  intros I. apply H1. apply in_map_iff in I. destruct I as (y & <- & I). apply filter_In in I. apply in_map. tauto.
Qed.
Lemma nodup_app A (l1 l2 : list A) : NoDup l1 -> NoDup l2 -> (forall x, In x l1 -> ~ In x l2) -> NoDup (l1 ++ l2).
Proof.
  induction 1 as [|x l N _ IH]; intros N2 D; auto. cbn [app]. constructor; [|apply IH; auto; intros y Y; apply D; now right].
  intros I. apply in_app_or in I. destruct I as [I|I]; auto. exact (D x (or_introl eq_refl) I).
Qed.
(** What iteration [i] appends. *)
Lemma push_ok s es i K : kok K -> (forall x, kval K x = if i <? x then common es i x else 0) ->
  (forall a j, In ((a, j), tt) (hyp_push s i K) <-> a = i /\ i < j /\ 0 < common es i j /\ s <= common es i j) /\ NoDup (hyp_push s i K) /\
  StronglySorted lt (map etgt (hyp_push s i K)).
Proof.
  intros HK V. unfold hyp_push. split; [|split].
  - intros a j. rewrite in_map_iff. split.
    + intros ([x c] & [= <- <-] & I). apply filter_In in I. destruct I as [I Q]. cbn [fst snd] in *. apply Nat.leb_le in Q. apply (kval_in x c HK) in I. destruct I as [E P]. rewrite V in E.
      destruct (Nat.ltb_spec i x); [|lia]. subst c. auto.
    + intros (-> & L & P & Q). exists (j, common es i j). split; auto. apply filter_In. split; [|now apply Nat.leb_le]. apply (kval_in j _ HK). split; auto. rewrite V.
      now replace (i <? j) with true by (symmetry; now apply Nat.ltb_lt).
  - apply (NoDup_map_inv etgt). rewrite map_map. change (fun x : nat * nat => etgt ((i, fst x), tt)) with (fun x : nat * nat => fst x). apply nodup_filter_map. now apply kok_nodup.
  - rewrite map_map. change (fun x : nat * nat => etgt ((i, fst x), tt)) with (fun x : nat * nat => fst x). destruct HK as [S _]. clear -S.
    induction K as [|x l IH]; [constructor|]. cbn [map filter] in *. inversion S as [|? ? S' A]; subst. destruct (s <=? snd x); auto. cbn [map]. constructor; auto.
    rewrite Forall_forall in *. intros y I. apply A. apply in_map_iff in I. destruct I as (z & <- & I). apply filter_In in I. apply in_map. tauto.
Qed.
Lemma hyp_overlap_ok W srt srt1 n s (es : list uedge) order : is_sort_by fst srt -> n < W -> ids_ok W es -> length es < W -> (forall m, Permutation (order m) (seq 0 m)) ->
  exists G H parts, adjacency_of W srt srt1 true S0 (el_build W n es) false = Ok H /\ adjacency_of W srt srt1 true S1 (el_build W n es) false = Ok G /\
    hyp_overlap s G H order = Ok (concat parts) /\
    Forall2 (fun i l => (forall a j, In ((a, j), tt) l <-> a = i /\ i < j /\ 0 < common es i j /\ s <= common es i j) /\ NoDup l /\ StronglySorted lt (map etgt l)) (order (csr_size H)) parts /\
    (forall i j, In ((i, j), tt) (concat parts) <-> i < j /\ 0 < common es i j /\ s <= common es i j) /\ NoDup (concat parts) /\ length (concat parts) <= length (sharing es).
Proof.
  intros HS Hn He HL HO. destruct (@hyp_row_ok W srt srt1 n es HS Hn He HL) as (G & H & EH & EG & BS & R). exists G, H.
  destruct (@rmap_ex _ _ (fun i => do K <- hyp_row G H i ; Ok (hyp_push s i K))
    (fun i l => (forall a j, In ((a, j), tt) l <-> a = i /\ i < j /\ 0 < common es i j /\ s <= common es i j) /\ NoDup l /\ StronglySorted lt (map etgt l)) (order (csr_size H))) as (parts & E & F).
  { intros i I. apply (Permutation_in _ (HO (csr_size H))) in I. apply in_seq in I. destruct (R i) as (K & EK & HK & V); [lia|]. rewrite EK. cbn [bind]. eexists. split; [reflexivity|]. now apply push_ok. }
  exists parts. split; auto. split; auto. split; [unfold hyp_overlap; rewrite E; reflexivity|]. split; auto.
  assert (IN : forall i j, In ((i, j), tt) (concat parts) <-> i < j /\ 0 < common es i j /\ s <= common es i j).
  { intros i j. split.
    - intros I. apply in_concat in I. destruct I as (l & Il & I). revert Il. clear - F I. induction F as [|a l' la lp Q _ IH]; [intros []|intros [<-|Il]].
      + apply Q in I. now destruct I as (-> & I).
      + auto.
    - intros (L & P & Q). assert (J : In i (order (csr_size H))).
      { apply (Permutation_in _ (Permutation_sym (HO (csr_size H)))). apply in_seq. split; [lia|]. apply common_pos in P. destruct P as (k & I & _). exact (BS _ I). }
      apply in_concat. revert J. clear - F L P Q. induction F as [|a l' la lp X _ IH]; [intros []|intros [<-|J]].
      + exists l'. split; [now left|]. apply X. auto.
      + destruct (IH J) as (l & A & B). exists l. split; [now right|auto]. }
  assert (ND : NoDup (concat parts)).
  { assert (NO : NoDup (order (csr_size H))) by (eapply Permutation_NoDup; [apply Permutation_sym, HO|apply seq_NoDup]).
    clear - F NO. induction F as [|a l la lp X F IH]; cbn [concat]; [constructor|]. inversion NO as [|? ? NA NO']; subst. destruct X as (X & NX & _).
    apply nodup_app; auto. intros [[i j] []] I J. apply X in I. destruct I as (-> & _). apply NA. clear - F J.
    induction F as [|b l' la lp Y F IH]; [destruct J|]. cbn [concat] in J. apply in_app_or in J. destruct J as [J|J]; [apply Y in J; destruct J as (-> & _); now left|right; auto]. }
  split; auto. split; auto.
  rewrite <- (map_length (fun p : uedge * uedge => ((esrc (fst p), esrc (snd p)), tt) : uedge) (sharing es)). apply NoDup_incl_length; auto.
  intros [[i j] []] I. apply IN in I. destruct I as (L & P & _). apply common_pos in P. destruct P as (k & I & J). apply in_map_iff.
  exists ((((i, k), tt) : uedge), (((j, k), tt) : uedge)). split; auto. unfold sharing. apply filter_In. split; [now apply in_prod|]. unfold esrc, etgt. cbn [fst snd].
  rewrite Nat.eqb_refl, andb_true_r. now apply Nat.ltb_lt.
Qed.
