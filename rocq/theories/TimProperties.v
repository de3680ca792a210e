(** C98: the table of times has one row per configuration, in order, with least, mean and greatest time; numbers on the command line. *)
From Coq Require Import String Ascii List Arith ZArith Lia Bool Sorting.Sorted Permutation.
From Verif Require Import MmModel MmProofs TimModel Base.
Import ListNotations.
Set Implicit Arguments.
Local Open Scope Z_scope.
Local Open Scope list_scope.

(** Alphabetical order of the characters' codes, a prefix first. *)
Inductive before : string -> string -> Prop :=
| b_nil x s : before EmptyString (String x s)
| b_head x y s t : (nat_of_ascii x < nat_of_ascii y)%nat -> before (String x s) (String y t)
| b_tail x s t : before s t -> before (String x s) (String x t).
(** By file, then version, then threads. *)
Definition k_before (a b : key) : Prop :=
  before (fst (fst a)) (fst (fst b)) \/ fst (fst a) = fst (fst b) /\ (snd (fst a) < snd (fst b) \/ snd (fst a) = snd (fst b) /\ snd a < snd b).
(** The times recorded for [k], in order. *)
Definition trials (k : key) (recs : list (key * Z)) : list Z -> Prop :=
  fun l => exists hit, (forall x, hit x = true <-> x = k) /\ l = map snd (filter (fun r => hit (fst r)) recs).

Lemma ascii_lt a b : Ascii.compare a b = Lt <-> (nat_of_ascii a < nat_of_ascii b)%nat.
Proof. unfold Ascii.compare, nat_of_ascii. rewrite N.compare_lt_iff. lia. Qed.
Lemma before_compare a : forall b, String.compare a b = Lt <-> before a b.
Proof.
  induction a as [|x a IH]; intros [|y b]; cbn [String.compare].
  - split; [discriminate|intros H; inversion H].
  - split; [constructor|reflexivity].
  - split; [discriminate|intros H; inversion H].
  - destruct (Ascii.compare x y) eqn:C.
    + assert (x = y) as <- by (apply Ascii.compare_eq_iff; exact C). rewrite IH. split; [now constructor|]. intros H. inversion H; subst; [lia|assumption].
    + split; [|reflexivity]. intros _. apply b_head. now apply ascii_lt.
    + split; [discriminate|]. intros H. inversion H as [|? ? ? ? L|? ? ? L]; subst; [apply ascii_lt in L; congruence|]. unfold Ascii.compare in C. rewrite N.compare_refl in C. discriminate.
Qed.
Lemma before_trans a : forall b c, before a b -> before b c -> before a c.
Proof.
  induction a as [|x a IH]; intros b c H K.
  - inversion H; subst. inversion K; subst; constructor.
  - inversion H as [|? y ? t L|? ? t L]; subst; inversion K as [|? z ? u L'|? ? u L']; subst; try (apply b_head; lia); try (now apply b_head). apply b_tail. eauto.
Qed.
Lemma before_irrefl a : ~ before a a.
Proof. induction a as [|x a IH]; intros H; inversion H; subst; [lia|auto]. Qed.
Lemma compare_refl a : String.compare a a = Eq.
Proof. induction a as [|x a IH]; [reflexivity|]. cbn [String.compare]. unfold Ascii.compare. rewrite N.compare_refl. exact IH. Qed.
Lemma k_lt a b : k_compare a b = Lt <-> k_before a b.
Proof.
  destruct a as [[f i] t], b as [[f' i'] t']. unfold k_before. cbn [k_compare fst snd]. rewrite <- before_compare. destruct (String.compare f f') eqn:C.
  - apply String.compare_eq_iff in C. subst f'. destruct (Z.compare_spec i i') as [->|L|L].
    + rewrite Z.compare_lt_iff. split; [auto|]. intros [H|[_ [H|[_ H]]]]; auto; [discriminate|lia].
    + split; [auto|reflexivity].
    + split; [discriminate|]. intros [H|[_ [H|[E H]]]]; [discriminate|lia|lia].
  - split; auto.
  - split; [discriminate|]. intros [H|[-> _]]; [discriminate|]. rewrite compare_refl in C. discriminate.
Qed.
Lemma k_eq a b : k_compare a b = Eq <-> a = b.
Proof.
  destruct a as [[f i] t], b as [[f' i'] t']. cbn [k_compare]. destruct (String.compare f f') eqn:C.
  - apply String.compare_eq_iff in C. subst f'. destruct (Z.compare_spec i i') as [->|L|L]; [rewrite Z.compare_eq_iff| |]; split; try congruence; intros [= ?]; lia.
  - split; [discriminate|]. intros [= <- _ _]. rewrite compare_refl in C. discriminate.
  - split; [discriminate|]. intros [= <- _ _]. rewrite compare_refl in C. discriminate.
Qed.
Lemma k_gt a b : k_compare a b = Gt -> k_before b a.
Proof.
  intros H. apply k_lt. destruct a as [[f i] t], b as [[f' i'] t']. cbn [k_compare] in *. rewrite String.compare_antisym. destruct (String.compare f f'); cbn [CompOpp]; try discriminate; auto.
  rewrite Z.compare_antisym. destruct (Z.compare i i'); cbn [CompOpp]; try discriminate; auto. rewrite Z.compare_antisym, H. reflexivity.
Qed.
Lemma k_trans a b c : k_before a b -> k_before b c -> k_before a c.
Proof.
  unfold k_before. intros [H|[E H]] [K|[E' K]].
  - left. eapply before_trans; eauto.
  - left. now rewrite <- E'.
  - left. now rewrite E.
  - right. split; [congruence|]. lia.
Qed.
Lemma k_irrefl a : ~ k_before a a.
Proof. intros [H|[_ H]]; [now apply before_irrefl in H|lia]. Qed.

Definition k_is (k x : key) : bool := match k_compare x k with Eq => true | _ => false end.
Lemma k_is_eq k x : k_is k x = true <-> x = k.
Proof. unfold k_is. rewrite <- k_eq. destruct (k_compare x k); split; congruence. Qed.
Lemma k_is_neq k x : x <> k -> k_is k x = false.
Proof. intros N. destruct (k_is k x) eqn:E; auto. now apply k_is_eq in E. Qed.
Definition got (recs : list (key * Z)) (k : key) : list Z := map snd (filter (fun r => k_is k (fst r)) recs).
Record tab (recs : list (key * Z)) (m : times) : Prop := {
  tb_sorted : StronglySorted k_before (map fst m);
  tb_keys : forall k, In k (map fst m) <-> In k (map fst recs);
  tb_vals : forall k l, In (k, l) m -> l = got recs k }.
Lemma append_keys k x m : forall k', In k' (map fst (t_append m k x)) <-> k' = k \/ In k' (map fst m).
Proof.
  induction m as [|[k0 l] m IH]; intros k'; cbn [t_append]; [cbn; intuition|]. destruct (k_compare k k0) eqn:C; cbn [map fst In]; [|intuition|rewrite IH; intuition].
  apply k_eq in C. subst. intuition.
Qed.
Lemma append_sorted k x m : StronglySorted k_before (map fst m) -> StronglySorted k_before (map fst (t_append m k x)).
Proof.
  induction m as [|[k0 l] m IH]; intros H; cbn [t_append]; [repeat constructor|]. cbn [map fst] in H. inversion H as [|? ? Hs Hf]; subst. destruct (k_compare k k0) eqn:C; cbn [map fst]; [exact H| |].
  - apply k_lt in C. constructor; [exact H|]. constructor; [exact C|]. eapply Forall_impl; [|exact Hf]. intros a A. eapply k_trans; eauto.
  - constructor; [auto|]. apply Forall_forall. intros a A. apply append_keys in A. rewrite Forall_forall in Hf. destruct A as [->|A]; [now apply k_gt|auto].
Qed.
Lemma append_vals k x m : StronglySorted k_before (map fst m) -> forall k' l', In (k', l') (t_append m k x) ->
  (k' = k /\ (exists l, In (k, l) m /\ l' = l ++ [x])) \/ (k' = k /\ ~ In k (map fst m) /\ l' = [x]) \/ (k' <> k /\ In (k', l') m).
Proof.
  induction m as [|[k0 l] m IH]; intros H k' l' I; cbn [t_append] in I.
  - destruct I as [[= <- <-]|[]]. right. left. auto.
  - cbn [map fst] in H. inversion H as [|? ? Hs Hf]; subst. rewrite Forall_forall in Hf. destruct (k_compare k k0) eqn:C.
    + apply k_eq in C. subst k0. destruct I as [[= <- <-]|I]; [left; split; auto; exists l; split; [now left|reflexivity]|]. right. right. split; [|now right]. intros ->. apply (@k_irrefl k). apply Hf. change k with (fst (k, l')). now apply in_map.
    + apply k_lt in C. destruct I as [[= <- <-]|I].
      * right. left. split; auto. split; auto. intros [E|J]; [cbn in E; subst; now apply k_irrefl in C|]. apply (@k_irrefl k). eapply k_trans; [exact C|]. now apply Hf.
      * right. right. split; auto. intros ->. destruct I as [[= -> ->]|I]; [now apply k_irrefl in C|]. apply (@k_irrefl k). eapply k_trans; [exact C|]. apply Hf. change k with (fst (k, l')). now apply in_map.
    + apply k_gt in C. assert (N : k0 <> k) by (intros ->; now apply k_irrefl in C). destruct I as [[= <- <-]|I]; [right; right; split; auto; now left|].
      destruct (IH Hs k' l' I) as [(E & l1 & J & E')|[(E & J & E')|(E & J)]].
      * left. split; auto. exists l1. split; [now right|exact E'].
      * right. left. split; auto. split; auto. intros [X|X]; [cbn in X; congruence|contradiction].
      * right. right. split; auto. now right.
Qed.
Lemma got_app recs k x k' : got (recs ++ [(k, x)]) k' = got recs k' ++ (if k_is k' k then [x] else []).
Proof. unfold got. rewrite filter_app, map_app. cbn [filter fst]. destruct (k_is k' k); reflexivity. Qed.
Lemma got_none recs k : ~ In k (map fst recs) -> got recs k = [].
Proof.
  unfold got. induction recs as [|[k0 x] recs IH]; intros N; [reflexivity|]. cbn [filter fst]. rewrite k_is_neq by (intros ->; apply N; now left). apply IH. intros J. apply N. now right.
Qed.
Lemma tab_append recs m k x : tab recs m -> tab (recs ++ [(k, x)]) (t_append m k x).
Proof.
  intros [S0 K V]. constructor.
  - now apply append_sorted.
  - intros k'. rewrite append_keys, map_app, in_app_iff, K. cbn. intuition.
  - intros k' l' I. rewrite got_app. destruct (@append_vals k x m S0 k' l' I) as [(-> & l & J & ->)|[(-> & J & ->)|(N & J)]].
    + rewrite (proj2 (k_is_eq k k)) by reflexivity. now rewrite (V k l J).
    + rewrite (proj2 (k_is_eq k k)) by reflexivity. rewrite K in J. now rewrite got_none.
    + rewrite k_is_neq by congruence. rewrite app_nil_r. auto.
Qed.
Lemma tab_all recs : tab recs (fold_left (fun m r => t_append m (fst r) (snd r)) recs []).
Proof.
  rewrite <- (app_nil_l recs) at 1. assert (G : forall l pre m, tab pre m -> tab (pre ++ l) (fold_left (fun m r => t_append m (fst r) (snd r)) l m)).
  { induction l as [|[k x] l IH]; intros pre m T; cbn [fold_left]; [now rewrite app_nil_r|]. change ((k, x) :: l) with ([(k, x)] ++ l). rewrite app_assoc. apply IH. now apply tab_append. }
  apply G. constructor; [constructor|reflexivity|intros k l []].
Qed.
Lemma least_ok l : forall x, In (least x l) (x :: l) /\ forall y, In y (x :: l) -> least x l <= y.
Proof.
  induction l as [|z l IH]; intros x; cbn [least]; [split; [now left|intros y [->|[]]; lia]|]. destruct (IH (if z <? x then z else x)) as [A B]. destruct (Z.ltb_spec z x).
  - split; [right; exact A|]. intros y [->|[->|I]]; [specialize (B z (or_introl eq_refl)); lia|apply B; now left|apply B; now right].
  - split; [destruct A as [A|A]; [left; exact A|right; right; exact A]|]. intros y [->|[->|I]]; [apply B; now left|specialize (B x (or_introl eq_refl)); lia|apply B; now right].
Qed.
Lemma most_ok l : forall x, In (most x l) (x :: l) /\ forall y, In y (x :: l) -> y <= most x l.
Proof.
  induction l as [|z l IH]; intros x; cbn [most]; [split; [now left|intros y [->|[]]; lia]|]. destruct (IH (if z <? x then x else z)) as [A B]. destruct (Z.ltb_spec z x).
  - split; [destruct A as [A|A]; [left; exact A|right; right; exact A]|]. intros y [->|[->|I]]; [apply B; now left|specialize (B x (or_introl eq_refl)); lia|apply B; now right].
  - split; [right; exact A|]. intros y [->|[->|I]]; [specialize (B z (or_introl eq_refl)); lia|apply B; now left|apply B; now right].
Qed.
Lemma width_ok m : forall n, (n <= fold_left (fun n kv => Nat.max n (String.length (fst (fst (fst (kv : key * list Z)))))) m n)%nat /\
  (forall k l, In (k, l) m -> String.length (fst (fst k)) <= fold_left (fun n kv => Nat.max n (String.length (fst (fst (fst (kv : key * list Z)))))) m n)%nat.
Proof.
  induction m as [|[k l] m IH]; intros n; cbn [fold_left]; [split; [lia|intros ? ? []]|]. destruct (IH (Nat.max n (String.length (fst (fst (fst (k, l))))))) as [A B]. split; [lia|]. intros k' l' [[= <- <-]|I]; [cbn [fst] in *; lia|eauto].
Qed.
Lemma width_hit m : forall n, let w := fold_left (fun n kv => Nat.max n (String.length (fst (fst (fst (kv : key * list Z)))))) m n in
  w = n \/ exists k l, In (k, l) m /\ w = String.length (fst (fst k)).
Proof.
  induction m as [|[k l] m IH]; intros n; cbn [fold_left]; [now left|]. destruct (IH (Nat.max n (String.length (fst (fst (fst (k, l))))))) as [E|(k' & l' & I & E)].
  - rewrite E. cbn [fst]. destruct (Nat.max_spec n (String.length (fst (fst k)))) as [[_ ->]|[_ ->]]; [right|now left]. exists k, l. split; [now left|reflexivity].
  - right. exists k', l'. split; [now right|exact E].
Qed.
Definition sum (l : list Z) : Z := fold_right Z.add 0 l.
Lemma sum_left l : forall a, fold_left Z.add l a = a + sum l.
Proof. induction l as [|x l IH]; intros a; cbn [fold_left sum fold_right]; [lia|]. rewrite IH. unfold sum. lia. Qed.

(** For every sequence of recordings: the rows come in the order of file, version and threads, each configuration that was recorded has
    exactly one, and it shows the least and the greatest of its times and the sum and number its mean is made of; the file's column is
    two wider than the longest name, and no narrower than six. *)
Theorem C98_table recs : exists width rows, t_print (fold_left (fun m r => t_append m (fst r) (snd r)) recs []) = Ok (width, rows) /\
  StronglySorted k_before (map r_key rows) /\ (forall k, In k (map r_key rows) <-> In k (map fst recs)) /\
  (6 <= width)%nat /\ (width = 6%nat \/ exists k, In k (map fst recs) /\ width = (String.length (fst (fst k)) + 2)%nat) /\
  forall r, In r rows -> (String.length (fst (fst (r_key r))) + 2 <= width)%nat /\
    exists l, trials (r_key r) recs l /\ In (r_min r) l /\ In (r_max r) l /\ (forall x, In x l -> r_min r <= x <= r_max r) /\ fst (r_avg r) = sum l /\ snd (r_avg r) = List.length l.
Proof.
  destruct (tab_all recs) as [S0 K V]. set (m := fold_left (fun m r => t_append m (fst r) (snd r)) recs []) in *. unfold t_print.
  assert (NE : forall k l, In (k, l) m -> l <> []).
  { intros k l I. rewrite (V k l I). assert (J : In k (map fst recs)) by (apply K; change k with (fst (k, l)); now apply in_map). apply in_map_iff in J. destruct J as ([k' x] & E & J). cbn in E. subst k'.
    intros E. assert (X : In x (got recs k)) by (unfold got; apply in_map_iff; exists (k, x); split; [reflexivity|]; apply filter_In; split; auto; now apply k_is_eq). rewrite E in X. destruct X. }
  assert (G : forall m', (forall k l, In (k, l) m' -> l <> []) -> exists rows, rmap (fun kv => do mm <- minmax (snd kv) ; Ok (mkRow (fst kv) (fst mm) (average (snd kv)) (snd mm))) m' = Ok rows /\ map r_key rows = map fst m' /\
     forall r, In r rows -> exists x l, In (r_key r, x :: l) m' /\ r_min r = least x l /\ r_max r = most x l /\ r_avg r = average (x :: l)).
  { induction m' as [|[k [|x l]] m' IH]; intros N; [exists []; split; [reflexivity|split; [reflexivity|intros ? []]]|destruct (N k []); [now left|reflexivity]|].
    destruct IH as (rows & E & KE & R); [intros; eapply N; now right; eauto|]. cbn [rmap minmax fst snd bind]. rewrite E. cbn [bind]. eexists. split; [reflexivity|]. split; [cbn [map r_key fst]; now rewrite KE|].
    intros r [<-|I]; [exists x, l; split; [now left|auto]|]. destruct (R r I) as (x' & l' & J & Q). exists x', l'. split; [now right|exact Q]. }
  destruct (G m NE) as (rows & E & KE & R). exists (file_width m), rows. split; [now rewrite E|]. rewrite KE. split; [exact S0|]. split; [exact K|]. destruct (width_ok m 4) as [W1 W2]. assert (W3 := width_hit m 4). cbv zeta in W3. split; [exact (proj1 (Nat.add_le_mono_r _ _ 2) W1)|].
  split; [destruct W3 as [W3|(k & l & I & W3)]; apply (f_equal (fun n => n + 2)%nat) in W3; [left; exact W3|right; exists k; split; [apply K; change k with (fst (k, l)); now apply in_map|exact W3]]|].
  intros r I. destruct (R r I) as (x & l & J & Emin & Emax & Eavg). split; [exact (proj1 (Nat.add_le_mono_r _ _ 2) (W2 _ _ J))|]. exists (x :: l). destruct (least_ok l x) as [A B]. destruct (most_ok l x) as [C D].
  split; [exists (k_is (r_key r)); split; [intros; apply k_is_eq|exact (V _ _ J)]|]. rewrite Emin, Emax, Eavg. split; [exact A|]. split; [exact C|]. split; [intros y Y; split; auto|]. split; [|reflexivity]. unfold average. cbn [fst]. rewrite sum_left. lia.
Qed.

(** A number on the command line: every long is read as it is written, whatever stands behind it that is not a digit; one out of range
    ends the program. *)
Theorem C98_number z rest : ends rest ->
  (- 2 ^ 63 <= z <= 2 ^ 63 - 1 -> stol (print_int z ++ rest) = Some z) /\ (z < - 2 ^ 63 \/ 2 ^ 63 - 1 < z -> stol (print_int z ++ rest) = None).
Proof.
  intros Hr. assert (G : stol (print_int z ++ rest) = if (z <? - 2 ^ 63) || (2 ^ 63 - 1 <? z) then None else Some z).
  { unfold stol, print_int. destruct (Z.ltb_spec z 0) as [N|N].
    - assert (Pos : 0 <= - z) by lia. cbn [app]. change (skip_ws ("-"%char :: print_nat (- z) ++ rest)) with ("-"%char :: print_nat (- z) ++ rest). change (read_sign ("-"%char :: print_nat (- z) ++ rest)) with (true, print_nat (- z) ++ rest). cbn iota beta.
      assert (RP := read_print Pos Hr). destruct (print_nat_head Pos) as (c & r & E & D). rewrite E in *. cbn [app starts_digit] in *. rewrite D, RP. cbn [fst]. now rewrite Z.opp_involutive.
    - assert (RP := read_print N Hr). destruct (print_nat_head N) as (c & r & E & D). rewrite E in *. cbn [app] in *. assert (SK : skip_ws (c :: r ++ rest) = c :: r ++ rest) by (cbn [skip_ws]; apply digit_plain in D; destruct D as (-> & _); reflexivity).
      rewrite SK. assert (RS : read_sign (c :: r ++ rest) = (false, c :: r ++ rest)) by (cbn [read_sign]; apply digit_plain in D; destruct D as (_ & _ & -> & -> & _); reflexivity). rewrite RS. cbn [starts_digit]. rewrite D, RP. reflexivity. }
  rewrite G. split; intros H; [replace ((z <? - 2 ^ 63) || (2 ^ 63 - 1 <? z)) with false; auto; symmetry; apply orb_false_iff; rewrite !Z.ltb_ge; lia|]. replace ((z <? - 2 ^ 63) || (2 ^ 63 - 1 <? z)) with true; auto. symmetry. apply orb_true_iff. rewrite !Z.ltb_lt. lia.
Qed.
(** A text whose first character is neither a blank, a sign nor a digit ends it too, wherever it stands in the list. *)
Theorem C98_no_number c rest before after : is_space c = false -> is_digit c = false -> c <> "+"%char -> c <> "-"%char ->
  stol (c :: rest) = None /\ parse_ids (before ++ (c :: rest) :: after) = None.
Proof.
  intros W D P M. assert (E : stol (c :: rest) = None).
  { unfold stol. cbn [skip_ws]. rewrite W. cbn [read_sign]. apply Ascii.eqb_neq in P. apply Ascii.eqb_neq in M. rewrite ?P, ?M. cbn [starts_digit]. now rewrite D. }
  split; [exact E|]. induction before as [|b l IH]; cbn [app parse_ids]; [now rewrite E|]. rewrite IH. destruct (stol b); reflexivity.
Qed.
Theorem C98_ids zs : Forall (fun z => - 2 ^ 63 <= z <= 2 ^ 63 - 1) zs ->
  parse_ids (map print_int zs) = Some zs /\ (forall allowed, parse_n_threads allowed (map print_int zs) = Some (match zs with [] => [allowed] | _ => zs end)).
Proof.
  intros F. assert (G : parse_ids (map print_int zs) = Some zs).
  { induction F as [|z zs H F IH]; [reflexivity|]. cbn [map parse_ids]. rewrite <- (app_nil_r (print_int z)). rewrite (proj1 (@C98_number z [] eq_refl) H), IH. reflexivity. }
  split; [exact G|]. intros allowed. unfold parse_n_threads. destruct zs; [reflexivity|]. exact G.
Qed.

(** ** Examples *)
Definition ex_recs : list (key * Z) := [(("b", 1, 4), 30); (("a", 2, 4), 7); (("b", 1, 4), 10); (("a", 2, 1), 5); (("b", 1, 4), 20)]%string.
Example C98_run : t_print (fold_left (fun m r => t_append m (fst r) (snd r)) ex_recs []) =
  Ok (6%nat, [mkRow ("a", 2, 1) 5 (5, 1%nat) 5; mkRow ("a", 2, 4) 7 (7, 1%nat) 7; mkRow ("b", 1, 4) 10 (60, 3%nat) 30])%string.
Proof. reflexivity. Qed.
(** "1,2" is version 1 alone, "v1" ends the program. *)
Example C98_stol : stol (txt "1,2") = Some 1 /\ stol (txt " +7x") = Some 7 /\ stol (txt "v1") = None /\ stol (txt "9223372036854775808") = None.
Proof. repeat split. Qed.
Print Assumptions C98_table.
Print Assumptions C98_number.
Print Assumptions C98_ids.
Print Assumptions C98_no_number.
