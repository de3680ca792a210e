(** C38, continued: kruskal with a comparison of the caller's. *)
From Coq Require Import List Arith ZArith Lia Bool Permutation Sorted.
From Verif Require Import Base ConnLib DsuModel DsuProofs KruskalModel KruskalProofs KruskalProperties.
Import ListNotations.
Set Implicit Arguments.

(** What the edges of a set cost together, by any measure [f] of an edge. *)
Definition cost (f : nat * nat * Z -> Z) (F : list (nat * nat * Z)) : Z := fold_right Z.add 0%Z (map f F).

Definition tag (f : wedge -> Z) (e : wedge) : wedge := (fst e, f e).
Lemma tag_ends f F : map fst (map (tag f) F) = map fst F.
Proof. rewrite map_map. reflexivity. Qed.
Lemma tag_cost f F : weight (map (tag f) F) = cost f F.
Proof. unfold weight, cost. rewrite map_map. reflexivity. Qed.
Lemma tag_forest f F : is_forest (map (tag f) F) <-> is_forest F.
Proof. rewrite !is_forest_acyclic. unfold ends. rewrite tag_ends. reflexivity. Qed.
Lemma tag_connects f F u v : connects (map (tag f) F) u v <-> connects F u v.
Proof. unfold connects. rewrite tag_ends. reflexivity. Qed.
Lemma wedge_dec (a b : wedge) : {a = b} + {a <> b}.
Proof. decide equality; [apply Z.eq_dec|decide equality; apply Nat.eq_dec]. Qed.
(** The sort of the tagged edges that does to [E] what [srt] does. *)
Definition tsort (f : wedge -> Z) (srt : list wedge -> list wedge) (E l : list wedge) : list wedge :=
  if list_eq_dec wedge_dec l (map (tag f) E) then map (tag f) (srt E) else wsort l.
Lemma tsort_ok f srt E : is_sort_lt (fun a b => (f a <? f b)%Z) srt -> is_sort_lt by_weight (tsort f srt E).
Proof.
  intros HS l. unfold tsort. destruct (list_eq_dec wedge_dec l (map (tag f) E)) as [->|N]; [|apply wsort_is_sort].
  destruct (HS E) as [P S]. clear HS. split; [now apply Permutation_map|]. clear P. induction S as [|x r S IH F]; cbn [map]; constructor; auto.
  rewrite Forall_forall in *. intros y I. apply in_map_iff in I. destruct I as (z & <- & I). exact (F z I).
Qed.
Lemma steps_tag f : forall l d T, rfold kruskal_step (map (tag f) l) (d, map (tag f) T) = (do st <- rfold kruskal_step l (d, T) ; Ok (fst st, map (tag f) (snd st))).
Proof.
  induction l as [|y l IH]; intros d T; cbn [map rfold]; [reflexivity|]. unfold kruskal_step at 1 3. cbn [fst snd]. change (w_src (tag f y)) with (w_src y). change (w_tgt (tag f y)) with (w_tgt y).
  destruct (disjoint_union_find d (w_src y) (w_tgt y)) as [[b d']| |]; cbn [bind fst snd]; auto.
  rewrite <- IH. f_equal. destruct b; [|reflexivity]. now rewrite map_app.
Qed.
Lemma kruskal_tag f srt E : kruskal (tsort f srt E) (map (tag f) E) = (do r <- kruskal srt E ; Ok (map (tag f) (fst r), map (tag f) (snd r))).
Proof.
  unfold kruskal. rewrite map_length. unfold tsort. destruct (list_eq_dec wedge_dec (map (tag f) E) (map (tag f) E)); [|congruence].
  assert (Q := steps_tag f (srt E) (dsu_init (length E)) []). change (map (tag f) []) with (@nil wedge) in Q. rewrite Q. destruct (rfold kruskal_step (srt E) (dsu_init (length E), [])) as [[d T]| |]; reflexivity.
Qed.

(** If [comp a b] is [f a < f b] for some measure f, the result is a spanning forest of least total measure (with f the negated weight:
    of greatest weight), and E is left in the order of f. *)
Theorem C38_any_comparison f srt E : is_sort_lt (fun a b => (f a <? f b)%Z) srt -> ids_lt (length E) E ->
  exists E' T, kruskal srt E = Ok (E', T) /\ Permutation E E' /\ StronglySorted (fun a b => (f a <= f b)%Z) E' /\
    (exists R, Permutation (T ++ R) E) /\ is_forest T /\ (forall u v, connects T u v <-> connects E u v) /\
    forall F, incl F E -> is_forest F -> (forall u v, connects E u v -> connects F u v) -> (cost f T <= cost f F)%Z.
Proof.
  intros HS HB.
  assert (HB' : ids_lt (length (map (tag f) E)) (map (tag f) E)).
  { intros u v w I. rewrite map_length. apply in_map_iff in I. destruct I as ([[a b] c] & Q & I). unfold tag in Q. cbn in Q. injection Q as <- <- _. exact (HB a b c I). }
  destruct (C38_minimum_spanning_forest (@tsort_ok f srt E HS) HB') as (E2 & T2 & EQ & _ & _ & _ & AF & CT & M).
  rewrite kruskal_tag in EQ. destruct (kruskal srt E) as [[E' T]| |] eqn:K; cbn [bind fst snd] in EQ; try discriminate. injection EQ as <- <-.
  assert (EE : E' = srt E /\ exists d, rfold kruskal_step (srt E) (dsu_init (length E), []) = Ok (d, T)).
  { unfold kruskal in K. cbv zeta in K. match type of K with bind ?x _ = _ => destruct x as [[d T']| |] eqn:ED end; cbn [bind snd] in K; try discriminate.
    assert (A1 : srt E = E') by congruence. assert (A2 : T' = T) by congruence. subst. split; auto. exists d. exact ED. }
  destruct EE as [-> [d ED]]. destruct (HS E) as [P S]. exists (srt E), T. split; auto. split; auto. split.
  { clear - S. induction S as [|x l S IH F]; constructor; auto. rewrite Forall_forall in *. intros y I. specialize (F y I). apply Z.ltb_ge in F. exact F. }
  split.
  { assert (G : forall l d0 T0 d1 T1, rfold kruskal_step l (d0, T0) = Ok (d1, T1) -> exists R, Permutation (T1 ++ R) (T0 ++ l)).
    { clear. induction l as [|y l IH]; intros d0 T0 d1 T1 H; cbn [rfold] in H.
      - injection H as _ <-. exists []. reflexivity.
      - unfold kruskal_step at 1 in H. cbn [fst snd] in H. destruct (disjoint_union_find d0 (w_src y) (w_tgt y)) as [[b d']| |]; cbn [bind fst snd] in H; try discriminate.
        destruct b; destruct (IH _ _ _ _ H) as (R & PR).
        + exists R. rewrite PR, <- app_assoc. reflexivity.
        + exists (R ++ [y]). rewrite app_assoc, PR, <- app_assoc. apply Permutation_app_head. symmetry. apply Permutation_cons_append. }
    destruct (G _ _ _ _ _ ED) as (R & PR). exists R. rewrite PR. cbn [app]. now symmetry. }
  split; [now apply tag_forest in AF|]. split; [intros u v; rewrite <- (tag_connects f T), <- (tag_connects f E); apply CT|].
  intros F IF FF CF. rewrite <- !tag_cost. apply M; [|now apply tag_forest|].
  - intros e I. apply in_map_iff in I. destruct I as (z & <- & I). apply in_map. auto.
  - intros u v C. apply tag_connects. apply CF. now apply tag_connects in C.
Qed.
(** With the default comparison of kruskal.hpp:40 the measure is the weight. *)
Theorem C38_default_comparison srt E : is_sort_lt w_lt srt -> ids_lt (length E) E ->
  exists E' T, kruskal srt E = Ok (E', T) /\ is_forest T /\ (forall u v, connects T u v <-> connects E u v) /\
    forall F, incl F E -> is_forest F -> (forall u v, connects E u v -> connects F u v) -> (weight T <= weight F)%Z.
Proof.
  intros HS HB. destruct (@C38_any_comparison snd srt E HS HB) as (E' & T & A & _ & _ & _ & B & C & D). exists E', T. auto.
Qed.

(** ** Non-vacuity: greatest weight first *)
Definition heavy (e : wedge) : Z := (- snd e)%Z.
Definition rsort (l : list wedge) : list wedge := map (tag heavy) (wsort (map (tag heavy) l)).
Lemma tag_tag e : tag heavy (tag heavy e) = e.
Proof. destruct e as [p w]. unfold tag, heavy. cbn. f_equal. lia. Qed.
Example rsort_ok : is_sort_lt (fun a b => (heavy a <? heavy b)%Z) rsort.
Proof.
  intros l. unfold rsort. destruct (wsort_is_sort (map (tag heavy) l)) as [P S]. split.
  - rewrite <- P, map_map. rewrite (map_ext _ (fun e => e)) by apply tag_tag. now rewrite map_id.
  - revert S. generalize (wsort (map (tag heavy) l)). clear. intros r0 S. induction S as [|x r S IH F]; cbn [map]; constructor; auto.
    rewrite Forall_forall in *. intros y I. apply in_map_iff in I. destruct I as (z & <- & I). specialize (F z I). unfold by_weight, heavy, tag in *. cbn [snd] in *. rewrite !Z.opp_involutive. exact F.
Qed.
Example C38_any_ex : kruskal rsort ex_E = Ok (rsort ex_E, [(2, 3, 7%Z); (0, 1, 4%Z); (0, 2, 3%Z)]) /\ cost heavy [(2, 3, 7%Z); (0, 1, 4%Z); (0, 2, 3%Z)] = (-14)%Z.
Proof. split; vm_compute; reflexivity. Qed.
Print Assumptions C38_any_comparison.
Print Assumptions C38_default_comparison.
