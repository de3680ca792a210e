(** C38: kruskal returns a minimum spanning forest, when its vertex ids are below the number of edges. *)
From Coq Require Import List Arith ZArith Lia Bool Permutation Sorted.
From Verif Require Import Base ConnLib DsuModel DsuProofs KruskalModel KruskalProofs.
Import ListNotations.
Set Implicit Arguments.

(** Specification.  An edge is ((source, target), weight). *)
Definition weight (F : list (nat * nat * Z)) : Z := fold_right Z.add 0%Z (map snd F).
Definition connects (F : list (nat * nat * Z)) (u v : nat) : Prop := conn (map fst F) u v.
(** No edge joins vertices that the other edges connect already (in particular no self loop, no double edge). *)
Definition is_forest (F : list (nat * nat * Z)) : Prop :=
  forall A u v w B, F = A ++ (u, v, w) :: B -> ~ connects (A ++ B) u v.
Definition ids_lt (n : nat) (E : list (nat * nat * Z)) : Prop := forall u v w, In (u, v, w) E -> u < n /\ v < n.
Definition by_weight (a b : nat * nat * Z) : bool := (snd a <? snd b)%Z.

Lemma ids_lt_wbelow n E : ids_lt n E -> wbelow n E.
Proof. intros H [[u v] w] I. apply (H u v w I). Qed.
Lemma is_forest_acyclic F : is_forest F <-> acyclic (ends F).
Proof.
  split.
  - intros H A u v B E. apply map_split in E. destruct E as (A0 & [[a b] w] & B0 & -> & -> & E & ->). simpl in E. injection E as -> ->.
    unfold ends. rewrite <- map_app. apply (H A0 a b w B0). reflexivity.
  - intros H A u v w B -> C. apply (H (ends A) u v (ends B)).
    + unfold ends. now rewrite map_app.
    + unfold ends. now rewrite <- map_app.
Qed.

(** * C38 *)
(** Result: a sub-multiset of the edges, acyclic, connecting exactly what the input connects, and of least
    weight among all such sets of edges; E is left sorted. *)
Theorem C38_minimum_spanning_forest : forall srt E,
  is_sort_lt by_weight srt -> ids_lt (length E) E ->
  exists E' T, kruskal srt E = Ok (E', T) /\
    Permutation E E' /\ StronglySorted (fun a b => (snd a <= snd b)%Z) E' /\
    (exists R, Permutation (T ++ R) E) /\
    is_forest T /\
    (forall u v, connects T u v <-> connects E u v) /\
    forall F, incl F E -> is_forest F -> (forall u v, connects E u v -> connects F u v) ->
      (weight T <= weight F)%Z.
Proof.
  intros srt E HS HB. apply ids_lt_wbelow in HB. destruct (kruskal_ok HS HB) as (T & s & EQ & K & TH).
  destruct (HS E) as [P S]. exists (srt E), T. split; auto. split; auto. split.
  { clear - S. induction S as [|x l S IH F]; constructor; auto. rewrite Forall_forall in *. intros y I. specialize (F y I).
    apply Z.ltb_ge in F. exact F. }
  assert (HB' : wbelow (length E) (srt E)) by (intros e I; apply HB; apply Permutation_in with (srt E); auto; now symmetry).
  assert (CE : forall u v, connects (srt E) u v <-> connects E u v).
  { intros u v. split; apply conn_incl; intros x I; apply Permutation_in with (2 := I); apply Permutation_map; auto; now symmetry. }
  assert (SUB := k_sub K). destruct SUB as [R PR]. split; [exists R; now rewrite PR; symmetry|]. split.
  { apply is_forest_acyclic. apply grows_acyclic with (length E); [|apply K]. apply wbelow_ends. intros e I. apply HB'.
    apply Permutation_in with (T ++ R); auto. apply in_or_app. now left. }
  split. { intros u v. rewrite <- CE. apply K. }
  intros F IF AF CF. apply (@kruskal_min (length E) (srt E) T F s); auto.
  - intros e I. apply Permutation_in with E; auto.
  - now apply is_forest_acyclic.
  - intros u v C. apply CF. now apply CE.
Qed.

(** With non-negative weights the bound holds against every connecting subset, acyclic or not. *)
Theorem C38_minimum_connecting_set : forall srt E E' T F,
  is_sort_lt by_weight srt -> ids_lt (length E) E -> kruskal srt E = Ok (E', T) ->
  (forall e, In e F -> (0 <= snd e)%Z) -> incl F E -> (forall u v, connects E u v -> connects F u v) ->
  (weight T <= weight F)%Z.
Proof.
  intros srt E E' T F HS HB EQ NN IF CF.
  destruct (C38_minimum_spanning_forest HS HB) as (E2 & T2 & EQ2 & _ & _ & _ & _ & _ & M).
  rewrite EQ in EQ2. injection EQ2 as <- <-.
  destruct (@spanning_subset (length E) F) as (H & R & P & AH & CH).
  { intros e I. apply (ids_lt_wbelow HB). auto. }
  assert (IH : incl H F) by (intros e I; apply Permutation_in with (H ++ R); auto; apply in_or_app; now left).
  assert (L : (weight T <= weight H)%Z).
  { apply M.
    - intros e I. auto.
    - now apply is_forest_acyclic.
    - intros u v C. apply CH, CF, C. }
  assert (W : forall a b, weight (a ++ b) = (weight a + weight b)%Z).
  { intros a b. unfold weight. induction a; simpl; auto. rewrite IHa. lia. }
  assert (WP : weight F = weight (H ++ R)).
  { unfold weight. apply (@zsum_perm (map snd F)). apply Permutation_map. now symmetry. }
  rewrite WP, W. assert (0 <= weight R)%Z; [|lia].
  assert (NR : forall e, In e R -> (0 <= snd e)%Z).
  { intros e I. apply NN. apply Permutation_in with (H ++ R); auto. apply in_or_app. now right. }
  clear - NR. induction R as [|x R IHR]; unfold weight in *; simpl; [lia|].
  assert (0 <= snd x)%Z by (apply NR; now left). assert (forall e, In e R -> (0 <= snd e)%Z) by (intros; apply NR; now right).
  specialize (IHR H0). lia.
Qed.

(** An id that is not below the number of edges makes kruskal index outside its vector, whatever the order. *)
Theorem C38_large_id_out_of_bounds : forall srt E u v w,
  is_sort_lt by_weight srt -> In (u, v, w) E -> length E <= u \/ length E <= v -> kruskal srt E = Ub.
Proof. intros srt E u v w HS I H. apply kruskal_oob; auto. exists (u, v, w). auto. Qed.

(** In particular for every forest on the vertices 0..m touching all of them: it has at most m edges. *)
Theorem C38_every_spanning_tree_out_of_bounds : forall srt E m,
  is_sort_lt by_weight srt -> ids_lt (S m) E -> is_forest E ->
  (forall x, x <= m -> exists u v w, In (u, v, w) E /\ (u = x \/ v = x)) ->
  kruskal srt E = Ub.
Proof.
  intros srt E m HS HB HF COV. apply kruskal_oob; auto.
  assert (L : length E <= m).
  { apply ids_lt_wbelow, wbelow_ends in HB. destruct (forest_of HB) as (p & RP & _ & K).
    apply is_forest_acyclic, acyclic_grows in HF. specialize (K HF).
    assert (R : 0 < length (roots (S m) p)).
    { destruct RP as [[C Fo] _]. destruct (Fo 0) as (k & r & U); [lia|].
      assert (I : In r (roots (S m) p)).
      { apply in_roots. split; [eapply up_end_lt; eauto; lia|eapply up_end; eauto]. }
      destruct (roots (S m) p); [destruct I|simpl; lia]. }
    unfold ends in K. rewrite map_length in K. unfold wedge in K. lia. }
  destruct (COV m (le_n m)) as (u & v & w & I & H). exists (u, v, w). split; auto. unfold w_src, w_tgt. simpl. destruct H; subst; [now left|now right].
Qed.

(** ** Non-vacuity *)
Fixpoint winsert (x : wedge) (l : list wedge) : list wedge :=
  match l with [] => [x] | y :: r => if (snd x <=? snd y)%Z then x :: l else y :: winsert x r end.
Definition wsort (l : list wedge) : list wedge := fold_right winsert [] l.
Lemma winsert_perm x l : Permutation (x :: l) (winsert x l).
Proof.
  induction l as [|y l IH]; simpl; auto. destruct (_ <=? _)%Z; auto.
  transitivity (y :: x :: l); [apply perm_swap|now constructor].
Qed.
Example wsort_is_sort : is_sort_lt by_weight wsort.
Proof.
  intros l. induction l as [|x l [P S]]; simpl; [split; constructor|]. split.
  - transitivity (x :: wsort l); [now constructor|apply winsert_perm].
  - generalize S. generalize (wsort l). clear. induction l as [|y l IH]; intros S; simpl.
    + repeat constructor.
    + inversion S as [|? ? S' F]; subst. destruct (Z.leb_spec (snd x) (snd y)).
      * constructor; auto. constructor; [apply Z.ltb_ge; lia|]. rewrite Forall_forall in *. intros z I.
        specialize (F z I). apply Z.ltb_ge in F. apply Z.ltb_ge. lia.
      * constructor; auto. rewrite Forall_forall in *. intros z I. apply (Permutation_in z (Permutation_sym (winsert_perm x l))) in I. destruct I as [<-|I]; auto. apply Z.ltb_ge. lia.
Qed.
(** A 4-cycle with a chord and a negative edge: 5 edges, ids below 5. *)
Definition ex_E : list wedge := [(0, 1, 4%Z); (1, 2, (-2)%Z); (2, 3, 7%Z); (3, 0, 1%Z); (0, 2, 3%Z)].
Example ex_E_ids : ids_lt (length ex_E) ex_E.
Proof. intros u v w I. simpl in *. repeat (destruct I as [I|I]; [injection I as <- <- <-; lia|]). destruct I. Qed.
Example ex_kruskal : kruskal wsort ex_E = Ok (wsort ex_E, [(1, 2, (-2)%Z); (3, 0, 1%Z); (0, 2, 3%Z)]).
Proof. reflexivity. Qed.
(** A path on three vertices is out of bounds. *)
Example ex_tree : kruskal wsort [(0, 1, 1%Z); (1, 2, 1%Z)] = Ub.
Proof. reflexivity. Qed.
Print Assumptions C38_minimum_spanning_forest.
Print Assumptions C38_minimum_connecting_set.
Print Assumptions C38_large_id_out_of_bounds.
Print Assumptions C38_every_spanning_tree_out_of_bounds.
