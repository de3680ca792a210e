(** Proofs about bench/pr.cpp (PrbModel.v): PageRank of the file, and the ten lines of print_n_ranks. *)
From Coq Require Import List Arith ZArith QArith Qabs Lqa Lia Bool Permutation Sorted.
From Verif Require Import Base Pool EdgeListModel EdgeListProofs CsrModel CsrProofs CsrProofs2 CsrProofs4 CbModel CbProofs BbModel BbProofs RangeModel SrcModel SrcProofs SrcProperties
  GraphLib PageRankModel PageRankLib PageRankProofs PageRankProperties XprModel XprProofs Xpr2Proofs Xpr3Proofs Xpr4Proofs XprProperties PrbModel.
Import ListNotations.
Set Implicit Arguments.
Local Open Scope nat_scope.

(** ** PageRank of the file *)
(** Number of arcs of the file that leave u. *)
Definition file_outdeg (es : list uedge) (u : nat) : nat := length (filter (fun e => esrc e =? u) es).
(** The arcs of the file into v, and the PageRank equations in terms of them. *)
Definition arcs_into (es : list uedge) (v : nat) : list uedge := filter (fun e => etgt e =? v) es.
Definition file_pagerank (d : Q) (N : nat) (es : list uedge) (x : nat -> Q) : Prop :=
  forall v, v < N -> (x v == (1 - d) / qn N + d * qsum (map (fun e => x (esrc e) / qn (file_outdeg es (esrc e))) (arcs_into es v)))%Q.

Lemma qsum_ext A (f h : A -> Q) l : (forall a, In a l -> (f a == h a)%Q) -> (qsum (map f l) == qsum (map h l))%Q.
Proof. induction l as [|a l IH]; intros H; cbn [map qsum]; [reflexivity|]. rewrite (H a), IH; [reflexivity| |now left]. intros b I. apply H. now right. Qed.

Section Rows.
Variables (es : list uedge) (rows : list (list nat)) (N : nat).
Hypothesis LR : length rows = N.
Hypothesis B : forall e, In e es -> esrc e < N /\ etgt e < N.
Hypothesis K : forall u, u < N -> Permutation (nth u rows []) (map (@esrc unit) (arcs_into es u)).

Lemma rows_in i j : In j (nth i rows []) -> j < N.
Proof.
  intros I. destruct (Nat.lt_ge_cases i N) as [L|L]; [|rewrite nth_overflow in I by lia; destruct I].
  apply (Permutation_in _ (K L)), in_map_iff in I. destruct I as (e & <- & I). apply filter_In in I. now apply B.
Qed.
Lemma count_into u v : count_occ Nat.eq_dec (map (@esrc unit) (arcs_into es u)) v = length (filter (fun e => esrc e =? v) (arcs_into es u)).
Proof.
  unfold arcs_into. induction (filter _ es) as [|e l IH]; [reflexivity|]. cbn [map count_occ filter]. rewrite IH.
  destruct (Nat.eq_dec (esrc e) v) as [E|E]; [apply Nat.eqb_eq in E|apply Nat.eqb_neq in E]; rewrite E; reflexivity.
Qed.
Lemma rows_seq : rows = map (fun u => nth u rows []) (seq 0 N).
Proof.
  apply (nth_ext _ _ [] []). { now rewrite map_length, seq_length. }
  intros u L. rewrite nth_map_seq by lia. reflexivity.
Qed.
Lemma rows_total l v : incl l es -> list_sum (map (fun u => length (filter (fun e => esrc e =? v) (filter (fun e => etgt e =? u) l))) (seq 0 N)) = length (filter (fun e => esrc e =? v) l).
Proof.
  induction l as [|e l IH]; intros I.
  - cbn [filter length]. induction (seq 0 N) as [|u m IHm]; [reflexivity|]. exact IHm.
  - specialize (IH (fun x H => I x (or_intror H))). assert (L : etgt e < N) by (apply B, I; now left).
    assert (X : forall m, NoDup m -> list_sum (map (fun u => length (filter (fun e => esrc e =? v) (filter (fun e => etgt e =? u) (e :: l)))) m)
      = (if in_dec Nat.eq_dec (etgt e) m then if esrc e =? v then 1 else 0 else 0) + list_sum (map (fun u => length (filter (fun e => esrc e =? v) (filter (fun e => etgt e =? u) l))) m)).
    { induction m as [|u m IHm]; intros ND; [reflexivity|]. inversion ND as [|? ? NI ND']; subst. specialize (IHm ND'). cbn [map list_sum]. unfold list_sum in *. cbn [fold_right]. rewrite IHm. cbn [filter].
      destruct (in_dec Nat.eq_dec (etgt e) (u :: m)) as [J|J], (in_dec Nat.eq_dec (etgt e) m) as [J'|J'].
      - assert (etgt e =? u = false) as -> by (apply Nat.eqb_neq; intros Q; subst u; auto). lia.
      - destruct J as [J|J]; [|easy]. subst u. rewrite Nat.eqb_refl. cbn [filter]. destruct (esrc e =? v); cbn [length]; lia.
      - destruct J. now right.
      - assert (etgt e =? u = false) as -> by (apply Nat.eqb_neq; intros Q; apply J; now left). lia. }
    rewrite (X _ (seq_NoDup N 0)), IH. destruct (in_dec Nat.eq_dec (etgt e) (seq 0 N)) as [J|J]; [|destruct J; apply in_seq; lia].
    cbn [filter]. destruct (esrc e =? v); cbn [length]; lia.
Qed.
Lemma occ_outdeg v : occ rows v = file_outdeg es v.
Proof.
  unfold occ, file_outdeg. rewrite rows_seq, map_map. rewrite <- (@rows_total es v (incl_refl _)). f_equal. apply map_ext_in. intros u I. apply in_seq in I.
  rewrite (proj1 (Permutation_count_occ Nat.eq_dec _ _) (K (u := u) ltac:(lia))), count_into. reflexivity.
Qed.
Lemma count_concat (l : list (list nat)) v : count_occ Nat.eq_dec (concat l) v = list_sum (map (fun row => count_occ Nat.eq_dec row v) l).
Proof. induction l as [|r l IH]; [reflexivity|]. cbn [concat map]. rewrite count_occ_app, IH. reflexivity. Qed.
Lemma rows_indegree v : indegree rows v = file_outdeg es v.
Proof. rewrite <- occ_outdeg. unfold indegree. rewrite count_concat. reflexivity. Qed.
Lemma file_eq deg d x : (forall u, u < N -> deg u = file_outdeg es u) -> pagerank rows deg d x <-> file_pagerank d N es x.
Proof.
  intros D. unfold pagerank, file_pagerank, pr_rhs. rewrite LR.
  assert (X : forall v, v < N -> (qsum (map (share x deg) (nth v rows [])) == qsum (map (fun e => x (esrc e) / qn (file_outdeg es (esrc e))) (arcs_into es v)))%Q).
  { intros v L. rewrite (qsum_perm (Permutation_map _ (K L))), map_map. apply qsum_ext. intros e I. unfold share. apply filter_In in I. destruct I as [I _].
    rewrite D by (now apply B). reflexivity. }
  split; intros H v L; rewrite (H v L); [rewrite X by auto|rewrite <- X by auto]; reflexivity.
Qed.
Lemma file_input deg d : (forall u, u < N -> deg u = file_outdeg es u) -> (0 <= d)%Q -> (d < 1)%Q -> pr_input rows deg d.
Proof. intros D D0 D1. split; auto; rewrite LR. - apply rows_in. - intros j L. rewrite D, occ_outdeg; auto. Qed.
End Rows.

Lemma prb_rows W zsrt srt1 n (es : list uedge) : is_sort_by fst zsrt -> n < W -> ids_ok W es -> 2 * length es < W ->
  let el := el_build W n es in let N := el_num_vertices el in
  exists g rows, prb_graph W zsrt srt1 el = Ok g /\ csr_size g = N /\ csr_iterate g = Ub /\ csr_rows g = Ok rows /\ length rows = N /\ (forall e, In e es -> esrc e < N /\ etgt e < N) /\
    forall u, u < N -> Permutation (nth u rows []) (map (@esrc unit) (arcs_into es u)).
Proof.
  intros HS Hn He HL el N. destruct (@dir_graph_ok W zsrt srt1 S1 n es HS Hn He HL) as (g & rows & EG & SZ & _ & IT & ER & LR & K). fold el N in EG, SZ, LR, K.
  destruct (build_card es Hn He) as (_ & B & _). exists g, rows. repeat (split; [assumption|]). exact K.
Qed.

(** ** The ten lines *)
Lemma rank_gt_sorted x srt : is_sort_lt (rank_gt x) srt -> let p := srt (seq 0 (length x)) in
  Permutation (seq 0 (length x)) p /\ StronglySorted (fun a b => (nth b x 0 <= nth a x 0)%Q) p.
Proof.
  intros H p. destruct (H (seq 0 (length x))) as [P S']. split; auto. fold p in S'. clearbody p. clear P. induction S' as [|a l S' IH F]; constructor; auto.
  revert F. apply Forall_impl. intros b E. unfold rank_gt in E. apply negb_false_iff in E. now apply Qle_bool_iff.
Qed.
Lemma rank_gt_legal x : is_sort_lt (rank_gt x) (BuildProperties.sort_cmp (rank_gt x)).
Proof.
  apply BuildProperties.sort_cmp_is_sort; unfold rank_gt.
  - intros a b H. apply negb_true_iff in H. apply negb_false_iff. apply Qle_bool_iff. apply Qnot_lt_le. intros L. apply Qlt_le_weak, Qle_bool_iff in L. congruence.
  - intros a b c H1 H2. apply negb_false_iff in H1. apply negb_false_iff in H2. apply negb_false_iff. apply Qle_bool_iff in H1. apply Qle_bool_iff in H2. apply Qle_bool_iff. lra.
Qed.
(** What the ten lines say of the scores: ten different vertices with their scores, no score below a later one, and no vertex left
    out with a score above one of them. *)
Definition ten_best (x : list Q) (l : list (nat * Q)) : Prop :=
  length l = 10 /\ NoDup (map fst l) /\ (forall v q, In (v, q) l -> nth_error x v = Some q) /\
  StronglySorted (fun a b => (snd b <= snd a)%Q) l /\
  forall v q, nth_error x v = Some q -> ~ In v (map fst l) -> forall a, In a l -> (q <= snd a)%Q.
Lemma sorted_app A (R : A -> A -> Prop) l l' : StronglySorted R (l ++ l') -> StronglySorted R l /\ forall a b, In a l -> In b l' -> R a b.
Proof.
  induction l as [|x l IH]; cbn [app]; intros S'.
  - split; [constructor|]. intros a b [].
  - inversion S' as [|? ? S1 F]; subst. destruct (IH S1) as [S2 H]. rewrite Forall_app in F. destruct F as [F1 F2]. split; [now constructor|].
    intros a b [<-|I] J; [|now apply H]. now apply (proj1 (Forall_forall _ _) F2).
Qed.
Lemma rmap_firstn A C (f : A -> res C) (h : A -> C) (p : list A) k : k <= length p -> (forall a, In a p -> f a = Ok (h a)) ->
  rmap (fun i => do a <- vget p i ; f a) (seq 0 k) = Ok (map h (firstn k p)).
Proof.
  intros L H. assert (X : forall pre m, p = pre ++ m -> forall k, k <= length m -> rmap (fun i => do a <- vget p i ; f a) (seq (length pre) k) = Ok (map h (firstn k m))).
  { intros pre m. revert pre. induction m as [|a m IH]; intros pre E j J; destruct j as [|j]; cbn [length] in J; try reflexivity; [lia|].
    cbn [seq rmap firstn map]. assert (V : vget p (length pre) = Ok a). { rewrite E. unfold vget. rewrite nth_error_app2, Nat.sub_diag by lia. reflexivity. }
    rewrite V. cbn [bind]. rewrite H by (rewrite E; apply in_or_app; right; now left). cbn [bind].
    specialize (IH (pre ++ [a]) ltac:(rewrite <- app_assoc; exact E) j ltac:(lia)). rewrite app_length, Nat.add_1_r in IH. rewrite IH. reflexivity. }
  exact (X [] p eq_refl k L).
Qed.
Lemma finite_all x : rmap (fun r : num => match r with Some q => Ok q | None => Ub end) (map Some x) = Ok x.
Proof. induction x as [|q x IH]; [reflexivity|]. cbn [map rmap bind]. rewrite IH. reflexivity. Qed.
Lemma print_ok x srt : (forall lt, lt = rank_gt x -> is_sort_lt lt (srt lt)) -> 10 <= length x -> exists l, print_n_ranks srt (map Some x) = Ok l /\ ten_best x l.
Proof.
  intros H L. unfold print_n_ranks. rewrite finite_all. cbn [bind]. unfold proxysort_greater. destruct (@rank_gt_sorted x (srt (rank_gt x)) (H _ eq_refl)) as [P S']. set (p := srt (rank_gt x) (seq 0 (length x))) in *.
  assert (LP : length p = length x) by (rewrite <- (Permutation_length P); apply seq_length).
  assert (IP : forall v, In v p <-> v < length x). { intros v. split; intros I; [apply (Permutation_in _ (Permutation_sym P)), in_seq in I; lia|apply (Permutation_in _ P), in_seq; lia]. }
  rewrite (@rmap_firstn _ _ (fun v => do q <- vget x v ; Ok (v, q)) (fun v => (v, nth v x 0%Q))); [|lia|].
  2:{ intros a I. apply IP in I. rewrite (@vget_nth _ x a 0%Q) by auto. reflexivity. }
  eexists. split; [reflexivity|]. assert (F : map fst (map (fun v => (v, nth v x 0%Q)) (firstn 10 p)) = firstn 10 p) by (rewrite map_map; cbn [fst]; apply map_id).
  assert (ND : NoDup p) by (apply (Permutation_NoDup P), seq_NoDup). rewrite <- (firstn_skipn 10 p) in ND, S', IP. unfold ten_best. rewrite F.
  destruct (sorted_app _ _ S') as [S1 S2]. split; [|split; [|split; [|split]]].
  - rewrite map_length, firstn_length. lia.
  - revert ND. generalize (firstn 10 p) (skipn 10 p). intros a b ND. induction a as [|y a IH]; [constructor|]. inversion ND; subst. constructor; auto. intros I. apply H2. apply in_or_app. now left.
  - intros v q I. apply in_map_iff in I. destruct I as (w & E & I). injection E as -> <-. apply nth_error_nth'. apply IP. apply in_or_app. now left.
  - revert S1. generalize (firstn 10 p). intros l. induction l as [|y l IH]; intros S1; [constructor|]. inversion S1 as [|? ? S3 F3]; subst. cbn [map]. constructor; auto.
    apply Forall_forall. intros b I. apply in_map_iff in I. destruct I as (w & <- & I). exact (proj1 (Forall_forall _ _) F3 w I).
  - intros v q E NI a I. apply in_map_iff in I. destruct I as (w & <- & I). cbn [snd]. assert (J : In v (skipn 10 p)).
    { assert (J : In v (firstn 10 p ++ skipn 10 p)) by (apply IP; apply nth_error_Some; congruence). apply in_app_or in J. now destruct J. }
    rewrite <- (nth_error_nth x v 0%Q E). exact (S2 w v I J).
Qed.
Lemma rmap_ub A C (f : A -> res C) l a : In a l -> f a = Ub -> (forall b, In b l -> f b <> OutOfFuel) -> rmap f l = Ub.
Proof.
  intros I E H. induction l as [|b l IH]; [destruct I|]. cbn [rmap]. destruct (f b) eqn:EB; cbn [bind]; auto.
  - destruct I as [->|I]; [congruence|]. rewrite IH; auto. intros c J. apply H. now right.
  - exfalso. apply (H b); auto. now left.
Qed.
Lemma print_few x srt : is_sort_lt (rank_gt x) (srt (rank_gt x)) -> length x < 10 -> print_n_ranks srt (map Some x) = Ub.
Proof.
  intros H L. unfold print_n_ranks. rewrite finite_all. cbn [bind]. unfold proxysort_greater. destruct (@rank_gt_sorted x (srt (rank_gt x)) H) as [P _]. set (p := srt (rank_gt x) (seq 0 (length x))) in *.
  assert (LP : length p = length x) by (rewrite <- (Permutation_length P); apply seq_length).
  apply (@rmap_ub _ _ _ _ (length x)).
  - apply in_seq. lia.
  - rewrite vget_ge by lia. reflexivity.
  - intros b _. unfold vget. destruct (nth_error p b); cbn [bind]; [|discriminate]. destruct (nth_error x n); discriminate.
Qed.
