(** C91: the s-overlap graph of a hypergraph (examples/imdb/dns.cpp, main.cpp). *)
From Coq Require Import List Arith Lia Bool Permutation Sorted.
From Verif Require Import EdgeListModel EdgeListProofs CsrModel CsrProofs CsrProofs2 CsrProofs4 CsrProperties CbProofs HypModel OrcProofs HypProofs Base.
Import ListNotations.
Set Implicit Arguments.
Local Open Scope nat_scope.
Notation uedge := (EdgeListModel.edge unit) (only parsing).

(** Under every order of the iterations: s_overlap holds (i, j) once for i < j with at least s pairs of incidences in common, and nothing
    else; the row of u in L holds v once when u and v differ and have at least s in common, and nothing else; L has as many rows as its
    largest vertex with a neighbour needs. *)
Theorem C91_overlap W s srt srt1 n es order : is_sort_by fst srt -> n < W -> ids_ok W es -> length es < W -> 2 * length (sharing es) < W -> 1 <= s ->
  (forall m, Permutation (order m) (seq 0 m)) ->
  exists o L, hyp_main W s srt srt1 n es order = Ok (o, L) /\ NoDup o /\
    (forall i j, In ((i, j), tt) o <-> i < j /\ s <= common es i j) /\
    (forall u, u < csr_size L -> exists row, csr_row L u = Ok row /\ NoDup row /\ forall v, In (v, tt) row <-> u <> v /\ s <= common es u v) /\
    (forall u v, u <> v -> s <= common es u v -> u < csr_size L) /\
    (forall x, x < csr_size L -> exists u v, x <= u /\ u <> v /\ s <= common es u v).
Proof.
  intros HS Hn He HL HC Hs HO. assert (HW : 0 < W) by lia. destruct (@hyp_overlap_ok W srt srt1 n s es order HS Hn He HL HO) as (G & H & parts & EH & EG & E & _ & IN & ND & LE).
  set (o := concat parts) in *. clearbody o.
  assert (IN' : forall i j, In ((i, j), tt) o <-> i < j /\ s <= common es i j) by (intros i j; rewrite IN; intuition lia).
  assert (Ho : ids_ok W o).
  { intros [[i j] []] I. apply IN in I. destruct I as (_ & P & _). apply common_pos in P. destruct P as (k & I & J). split; [exact (proj1 (He _ I))|exact (proj1 (He _ J))]. }
  destruct (@C03_undirected_csr_exact unit W srt srt1 S0 0 o HS HW Ho) as (L & EL & SL & _ & R); [lia|]. exists o, L.
  split; [unfold hyp_main; rewrite EH; cbn [bind]; rewrite EG; cbn [bind]; rewrite E; cbn [bind]; rewrite EL; reflexivity|].
  split; auto. split; auto. destruct (build_card (W := W) o HW Ho) as (_ & B1 & B2). rewrite <- SL in B1, B2.
  assert (KI : forall u v, In (v, tt) (spec_row_undirected o u) <-> u <> v /\ s <= common es u v).
  { intros u v. unfold spec_row_undirected. rewrite in_flat_map. split.
    - intros ([[i j] []] & I & J). apply IN' in I. destruct I as (L' & Q). unfold esrc, etgt, eatt in J. cbn [fst snd] in J. apply in_app_or in J. destruct J as [J|J].
      + destruct (Nat.eqb_spec i u) as [X|X]; [|easy]. destruct J as [[= <-]|[]]. subst u. split; auto. lia.
      + destruct (Nat.eqb_spec j u) as [X|X]; [|easy]. destruct J as [[= <-]|[]]. subst u. rewrite common_sym. split; auto. lia.
    - intros (N & Q). destruct (Nat.lt_ge_cases u v) as [L'|L'].
      + exists ((u, v), tt). split; [apply IN'; auto|]. unfold esrc, etgt, eatt. cbn [fst snd]. rewrite Nat.eqb_refl. now left.
      + exists ((v, u), tt). split; [apply IN'; rewrite common_sym; split; auto; lia|]. unfold esrc, etgt, eatt. cbn [fst snd]. rewrite Nat.eqb_refl. apply in_or_app. right. now left. }
  assert (KN : forall u, NoDup (spec_row_undirected o u)).
  { intros u. unfold spec_row_undirected.
    assert (U : forall e, In e o -> esrc e < etgt e) by (intros [[i j] []] I; apply IN in I; unfold esrc, etgt; cbn [fst snd]; tauto).
    clear - ND U. induction ND as [|[[i j] []] l N _ IH]; cbn [flat_map]; [constructor|]. assert (Uij := U _ (or_introl eq_refl)). unfold esrc, etgt in Uij. cbn [fst snd] in Uij.
    assert (IH' := IH (fun e I => U e (or_intror I))). unfold esrc at 1 2, etgt at 1 2, eatt at 1 2. cbn [fst snd].
    assert (X : forall a b, In (b, tt) (flat_map (fun e : uedge => (if esrc e =? a then [(etgt e, eatt e)] else []) ++ (if etgt e =? a then [(esrc e, eatt e)] else [])) l) -> In ((a, b), tt) l \/ In ((b, a), tt) l).
    { intros a b I. apply in_flat_map in I. destruct I as ([[x y] []] & I & J). unfold esrc, etgt, eatt in J. cbn [fst snd] in J. apply in_app_or in J.
      destruct J as [J|J]; [destruct (Nat.eqb_spec x a) as [<-|]|destruct (Nat.eqb_spec y a) as [<-|]]; try easy; destruct J as [[= <-]|[]]; auto. }
    assert (OR : forall a b, In ((a, b), tt) l -> a < b) by (intros a b I; exact (U _ (or_intror I))).
    destruct (Nat.eqb_spec i u) as [Q1|Q1]; destruct (Nat.eqb_spec j u) as [Q2|Q2]; cbn [app]; auto; [lia| |]; constructor; auto; intros I; apply X in I; destruct I as [I|I]; subst; try (now apply N); apply OR in I; lia. }
  split; [|split].
  - intros u Lu. destruct (R u Lu) as (row & ER & P). exists row. split; auto. split; [eapply Permutation_NoDup; [apply Permutation_sym, P|auto]|].
    intros v. rewrite <- KI. split; apply Permutation_in; auto. now apply Permutation_sym.
  - intros u v N Q. destruct (Nat.lt_ge_cases u v) as [L'|L'].
    + apply (B1 ((u, v), tt)). apply IN'. auto.
    + apply (B1 ((v, u), tt)). apply IN'. rewrite common_sym. split; auto. lia.
  - intros x Lx. destruct (Exists_dec (fun e : uedge => x <= esrc e \/ x <= etgt e) o) as [X|X].
    { intros e. destruct (le_dec x (esrc e)); [left; auto|]. destruct (le_dec x (etgt e)); [left; auto|right]. lia. }
    + apply Exists_exists in X. destruct X as ([[i j] []] & I & X). apply IN' in I. destruct I as (L' & Q). unfold esrc, etgt in X. cbn [fst snd] in X.
      exists j, i. rewrite common_sym. repeat split; auto; lia.
    + assert (csr_size L <= x); [|lia]. apply B2; [lia|]. intros e I. rewrite <- Forall_Exists_neg in X. rewrite Forall_forall in X. specialize (X e I). lia.
Qed.

(** In the sequential order s_overlap is sorted. *)
Theorem C91_sequential W s srt srt1 n es o L : is_sort_by fst srt -> n < W -> ids_ok W es -> length es < W ->
  hyp_main W s srt srt1 n es (seq 0) = Ok (o, L) -> StronglySorted (fun e f => esrc e < esrc f \/ (esrc e = esrc f /\ etgt e < etgt f)) o.
Proof.
  intros HS Hn He HL E. destruct (@hyp_overlap_ok W srt srt1 n s es (seq 0) HS Hn He HL) as (G & H & parts & EH & EG & EO & F & _); auto.
  unfold hyp_main in E. rewrite EH in E. cbn [bind] in E. rewrite EG in E. cbn [bind] in E. rewrite EO in E. cbn [bind] in E.
  destruct (adjacency_of W srt srt1 false S0 (el_build W 0 (concat parts)) false); cbn [bind] in E; try discriminate. injection E as <- _.
  assert (F1 : Forall2 (fun i (l : list uedge) => (forall a j, In ((a, j), tt) l -> a = i) /\ StronglySorted lt (map etgt l)) (seq 0 (csr_size H)) parts).
  { eapply f2_impl; [|exact F]. cbn beta. intros i l (A & _ & B). split; auto. intros x j I. apply A in I. tauto. }
  clear - F1. rename F1 into F. revert F. generalize 0. generalize (csr_size H). intros m. revert parts. induction m as [|m IH]; intros parts a F; cbn [seq] in F; inversion F as [|? l ? lp X F']; subst; cbn [concat]; [constructor|].
  destruct X as (X & S). specialize (IH _ _ F').
  assert (U : forall e, In e (concat lp) -> a < esrc e).
  { intros e I. clear - F' I. revert F'. assert (L : forall b, In b (seq (S a) m) -> a < b) by (intros b J; apply in_seq in J; lia). revert L. generalize (seq (S a) m). intros q L F.
    induction F as [|b l' la lp Y F IH]; [destruct I|]. cbn [concat] in I. apply in_app_or in I. destruct I as [I|I]; [|apply IH; auto; intros c J; apply L; now right].
    destruct e as [[i j] []]. apply Y in I. subst i. apply L. now left. }
  assert (A : forall e, In e l -> esrc e = a) by (intros [[i j] []] I; exact (X i j I)).
  clear X F F'. induction l as [|e l IHl]; auto. cbn [app]. cbn [map] in S. inversion S as [|? ? S' B]; subst. constructor.
  - apply IHl; auto. intros f I. apply A. now right.
  - apply Forall_app. split; rewrite Forall_forall; intros f I.
    + right. rewrite (A e), (A f) by (cbn; auto). split; auto. rewrite Forall_forall in B. apply B. now apply in_map.
    + left. rewrite (A e) by (now left). auto.
Qed.

(** Without repeated incidences, having s in common means s different common members; in general repetitions multiply: if i is incident to k
    a times and j is b times, that alone counts a * b. *)
Definition occurrences (es : list uedge) (i k : nat) : nat := length (filter (fun e => (esrc e =? i) && (etgt e =? k)) es).
Lemma prod_nodup (A : Type) (l m : list A) : NoDup l -> NoDup m -> NoDup (list_prod l m).
Proof.
  intros N M. induction N as [|x l H _ IH]; cbn [list_prod]; [constructor|]. apply nodup_app; auto.
  - clear -M. induction M as [|y m H _ IH]; cbn [map]; constructor; auto. intros I. apply in_map_iff in I. destruct I as (z & [= <-] & I). auto.
  - intros [a b] I J. apply in_map_iff in I. destruct I as (z & [= <- <-] & _). apply in_prod_iff in J. tauto.
Qed.
Theorem C91_members es s i j : NoDup es ->
  (s <= common es i j <-> exists ks, NoDup ks /\ length ks = s /\ forall k, In k ks -> In ((i, k), tt) es /\ In ((j, k), tt) es).
Proof.
  intros ND. assert (CP : forall e e', In (e, e') (common_pairs es i j) -> e = ((i, etgt e), tt) /\ e' = ((j, etgt e), tt) /\ In e es /\ In e' es).
  { intros e e' I. apply filter_In in I. destruct I as [I Q]. apply in_prod_iff in I. apply andb_true_iff in Q as [Q Q3]. apply andb_true_iff in Q as [Q1 Q2]. apply Nat.eqb_eq in Q1, Q2, Q3.
    destruct e as [[a b] []], e' as [[c d] []]. unfold esrc, etgt in *. cbn [fst snd] in *. subst. tauto. }
  split.
  - intros L. exists (firstn s (map (fun p => etgt (fst p)) (common_pairs es i j))).
    assert (N : NoDup (map (fun p => etgt (fst p)) (common_pairs es i j))).
    { assert (NP : NoDup (common_pairs es i j)) by (apply NoDup_filter; now apply prod_nodup). revert NP CP. generalize (common_pairs es i j). intros l NP CP.
      induction NP as [|[e e'] l H _ IH]; cbn [map]; constructor; [|apply IH; intros x y I; apply CP; now right].
      intros I. apply in_map_iff in I. destruct I as ([f f'] & Q & I). cbn [fst] in Q. destruct (CP e e' (or_introl eq_refl)) as (E1 & E2 & _). destruct (CP f f' (or_intror I)) as (E3 & E4 & _).
      rewrite Q in E3, E4. rewrite <- E1 in E3. rewrite <- E2 in E4. subst. auto. }
    split; [|split].
    + rewrite <- (firstn_skipn s) in N. revert N. generalize (skipn s (map (fun p => etgt (fst p)) (common_pairs es i j))). intros t N. induction (firstn s _) as [|x l IH]; [constructor|].
      inversion N; subst. constructor; auto. intros I. apply H1. apply in_or_app. now left.
    + rewrite firstn_length, map_length. unfold common in L. lia.
    + intros k I. assert (I' : In k (map (fun p => etgt (fst p)) (common_pairs es i j))) by (rewrite <- (firstn_skipn s); apply in_or_app; now left).
      apply in_map_iff in I'. destruct I' as ([e e'] & <- & J). cbn [fst]. destruct (CP e e' J) as (E1 & E2 & J1 & J2). rewrite <- E1, <- E2. auto.
  - intros (ks & N & <- & H). unfold common. rewrite <- (map_length (fun k => ((((i, k), tt) : uedge), (((j, k), tt) : uedge))) ks). apply NoDup_incl_length.
    + clear H. induction N as [|x l H _ IH]; cbn [map]; constructor; auto. intros I. apply in_map_iff in I. destruct I as (y & [= <-] & I). auto.
    + intros p I. apply in_map_iff in I. destruct I as (k & <- & I). destruct (H k I). apply filter_In. split; [now apply in_prod|]. unfold esrc, etgt. cbn [fst snd]. now rewrite !Nat.eqb_refl.
Qed.
Lemma sum_part (A : Type) (f : A -> nat) (p : A -> bool) c l : (forall x, In x l -> p x = true -> c <= f x) -> length (filter p l) * c <= sum (map f l).
Proof.
  induction l as [|x l IH]; intros H; cbn [filter map sum length]; [lia|]. assert (IH' := IH (fun y I => H y (or_intror I))).
  destruct (p x) eqn:E; cbn [length]; [|lia]. specialize (H x (or_introl eq_refl) E). cbn. lia.
Qed.
Theorem C91_repeats es i j k : occurrences es i k * occurrences es j k <= common es i j.
Proof.
  rewrite common_sum. unfold occurrences at 1.
  replace (filter (fun e => (esrc e =? i) && (etgt e =? k)) es) with (filter (fun e : uedge => etgt e =? k) (filter (fun e : uedge => esrc e =? i) es)) by (rewrite filter_and; reflexivity).
  apply sum_part. intros e _ Q. apply Nat.eqb_eq in Q. rewrite Q. unfold cnt2, occurrences. apply Nat.eq_le_incl. f_equal. apply filter_ext. intros x. apply andb_comm.
Qed.

(** Three names and their addresses: 0 and 1 share 5 and 6, 0 and 2 share 6, 1 and 2 share 6. *)
Definition ex_hyp : list uedge := [((0, 5), tt); ((0, 6), tt); ((1, 5), tt); ((1, 6), tt); ((1, 7), tt); ((2, 6), tt); ((3, 8), tt)].
Definition ex_srt := isort_by (fst (A := nat) (B := nat * unit)).
Example C91_ex : ids_ok 100 ex_hyp /\ 2 * length (sharing ex_hyp) < 100 /\ NoDup ex_hyp /\ common ex_hyp 0 1 = 2 /\ common ex_hyp 0 2 = 1 /\
  (exists L, hyp_main 100 2 ex_srt (isort_by (fun x => x)) 0 ex_hyp (fun m => rev (seq 0 m)) = Ok ([((0, 1), tt)], L)) /\
  (exists L, hyp_main 100 1 ex_srt (isort_by (fun x => x)) 0 ex_hyp (seq 0) = Ok ([((0, 1), tt); ((0, 2), tt); ((1, 2), tt)], L) /\ csr_size L = 3) /\
  (exists L, hyp_main 100 1 ex_srt (isort_by (fun x => x)) 0 ex_hyp (fun m => rev (seq 0 m)) = Ok ([((1, 2), tt); ((0, 1), tt); ((0, 2), tt)], L)).
Proof.
  split; [|split; [vm_compute; lia|split; [|split; [reflexivity|split; [reflexivity|]]]]].
  - intros e I. cbn in I. repeat (destruct I as [<-|I]; [cbn; lia|]). destruct I.
  - repeat constructor; cbn; intuition discriminate.
  - split; [|split]; eexists; [|split|]; vm_compute; reflexivity.
Qed.
(** The incidence of 2 and 6 listed twice: 0 and 2, 1 and 2 are taken to share two addresses. *)
Example C91_repeats_ex : occurrences (((2, 6), tt) :: ex_hyp) 2 6 = 2 /\
  exists L, hyp_main 100 2 ex_srt (isort_by (fun x => x)) 0 (((2, 6), tt) :: ex_hyp) (seq 0) = Ok ([((0, 1), tt); ((0, 2), tt); ((1, 2), tt)], L).
Proof. split; [reflexivity|]. eexists. vm_compute. reflexivity. Qed.
Print Assumptions C91_overlap.
Print Assumptions C91_sequential.
Print Assumptions C91_members.
Print Assumptions C91_repeats.
