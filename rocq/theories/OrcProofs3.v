(** Proofs about examples/imdb/oracle.cpp, continued: from ids to names. *)
From Coq Require Import String List Arith Lia Bool Permutation Sorted.
From Verif Require Import EdgeListModel EdgeListProofs CsrModel CsrProofs2 CbProofs OrcModel OrcProofs OrcProofs2 Base GraphLib FifoLib.
Import ListNotations.
Set Implicit Arguments.
Local Open Scope nat_scope.

(** ** Specification *)
(** Two different people in the cast of one title (or of two entries with the same title). *)
Definition together (M : nat) (data : list (string * list string)) (t a b : string) : Prop :=
  a <> b /\ In (t, a) (credits M data) /\ In (t, b) (credits M data).
(** x is n steps away from b. *)
Inductive linked (M : nat) (data : list (string * list string)) (b : string) : nat -> string -> Prop :=
| linked_0 : linked M data b 0 b
| linked_S n y x t : linked M data b n y -> together M data t y x -> linked M data b (S n) x.
Definition bacon_number (M : nat) (data : list (string * list string)) (b x : string) (d : nat) : Prop :=
  linked M data b d x /\ forall k, linked M data b k x -> d <= k.
(** The lines lead from a to b, each naming a title in which the two of the line acted together. *)
Fixpoint trail (M : nat) (data : list (string * list string)) (lines : list (string * string * string)) (a b : string) : Prop :=
  match lines with
  | [] => a = b
  | ((x, y), t) :: r => x = a /\ together M data t x y /\ trail M data r y b
  end.
(** Pairs of credits for the same title. *)
Definition shared (M : nat) (data : list (string * list string)) : list ((string * string) * (string * string)) :=
  filter (fun p => String.eqb (fst (fst p)) (fst (snd p))) (list_prod (credits M data) (credits M data)).
(** The file fits the type of vertex ids. *)
Definition fits_ids (W M : nat) (data : list (string * list string)) : Prop :=
  length (all_titles data) < W /\ length (all_names M data) < W /\ 2 * length (shared M data) < W.
(** What the reports about a say: the Bacon number and a shortest trail, or, for somebody who is not linked at all, 0 and that they starred with
    whoever comes first in the file in the first title of the file. *)
Definition tells (M : nat) (data : list (string * list string)) (b a : string) (r : report) : Prop :=
  r_actor r = a /\
  ((exists d, bacon_number M data b a d /\ r_number r = d /\ length (r_lines r) = d /\ trail M data (r_lines r) a b) \/
   ((forall d, ~ linked M data b d a) /\ r_number r = 0 /\ r_lines r = [((a, hd ""%string (all_names M data)), hd ""%string (all_titles data))])).
(** A name that is not in the file stands for the first one that is. *)
Definition subject (M : nat) (data : list (string * list string)) (q : string) : string :=
  if existsb (String.eqb q) (all_names M data) then q else hd ""%string (all_names M data).

(** ** Ids and names *)
Section Data.
Variables (W M : nat) (data : list (string * list string)).
Hypothesis FITS : fits_ids W M data.
Let s := orc_build W M data.
Let TI := all_titles data.
Let NM := all_names M data.
Let B := built_data W M data.
Lemma s_titles : o_titles s = TI. Proof. apply (b_titles B). Qed.
Lemma s_names : o_names s = NM. Proof. apply (b_names B). Qed.
Lemma mism_n : orc_mismatches (o_nmap s) (o_names s) = Ok []. Proof. exact (no_mismatches (b_nmap B)). Qed.
Lemma mism_t : orc_mismatches (o_tmap s) (o_titles s) = Ok []. Proof. exact (no_mismatches (b_tmap B)). Qed.
Lemma TI_inj i j t : nth_error TI i = Some t -> nth_error TI j = Some t -> i = j.
Proof. intros A C. apply (proj1 (NoDup_nth_error TI)); [apply first_seen_nodup| |congruence]. apply nth_error_Some. congruence. Qed.
Lemma NM_inj i j t : nth_error NM i = Some t -> nth_error NM j = Some t -> i = j.
Proof. intros A C. apply (proj1 (NoDup_nth_error NM)); [apply first_seen_nodup| |congruence]. apply nth_error_Some. congruence. Qed.
Lemma s_edges : Forall2 (fun c e => nth_error TI (esrc e) = Some (fst c) /\ nth_error NM (etgt e) = Some (snd c) /\ e = ((esrc e, etgt e), tt)) (credits M data) (o_edges s).
Proof.
  eapply f2_impl; [|exact (b_edges B)]. fold s. rewrite s_titles, s_names. cbn beta. intros c e (i & j & A1 & A2 & ->). destruct FITS as (F1 & F2 & _). fold TI in F1. fold NM in F2.
  assert (i < length TI) by (apply nth_error_Some; congruence). assert (j < length NM) by (apply nth_error_Some; congruence). rewrite !Nat.mod_small by lia. unfold esrc, etgt. cbn [fst snd]. auto.
Qed.
Lemma f2_in_l A C (P : A -> C -> Prop) l l' a : Forall2 P l l' -> In a l -> exists c, In c l' /\ P a c.
Proof. induction 1 as [|x y l l' H F IH]; intros I; [easy|]. destruct I as [->|I]; [exists y; split; auto; now left|]. destruct (IH I) as (c & J & K). exists c. split; auto. now right. Qed.
Lemma f2_in_r A C (P : A -> C -> Prop) l l' c : Forall2 P l l' -> In c l' -> exists a, In a l /\ P a c.
Proof. induction 1 as [|x y l l' H F IH]; intros I; [easy|]. destruct I as [->|I]; [exists x; split; auto; now left|]. destruct (IH I) as (a & J & K). exists a. split; auto. now right. Qed.
Lemma acted_iff k u : acted (o_edges s) k u <-> exists t a, nth_error TI k = Some t /\ nth_error NM u = Some a /\ In (t, a) (credits M data).
Proof.
  unfold acted. split.
  - intros I. destruct (f2_in_r _ s_edges I) as ([t a] & J & X & Y & _). unfold esrc, etgt in X, Y. cbn [fst snd] in *. exists t, a. auto.
  - intros (t & a & X & Y & I). destruct (f2_in_l _ s_edges I) as (e & J & X' & Y' & Q). cbn [fst snd] in X', Y'. rewrite (TI_inj _ _ X X'), (NM_inj _ _ Y Y'), <- Q. exact J.
Qed.
Lemma costars_iff u v : costars (o_edges s) u v <-> exists t a c, nth_error NM u = Some a /\ nth_error NM v = Some c /\ together M data t a c.
Proof.
  unfold costars. split.
  - intros (k & X & Y & N). apply acted_iff in X, Y. destruct X as (t & a & X1 & X2 & X3). destruct Y as (t' & c & Y1 & Y2 & Y3). assert (t' = t) by congruence. subst t'.
    exists t, a, c. split; auto. split; auto. split; auto. intros ->. apply N. eapply NM_inj; eauto.
  - intros (t & a & c & X & Y & N & I1 & I2). assert (IT : In t TI). { apply first_seen_in. unfold credits in I1. apply in_concat in I1. destruct I1 as (l & J & K). apply in_map_iff in J. destruct J as (m & <- & J). apply in_map_iff in K. destruct K as (x & [= <- _] & _). now apply in_map. }
    apply In_nth_error in IT. destruct IT as [k K]. exists k. split; [apply acted_iff; eauto|]. split; [apply acted_iff; eauto|]. intros ->. congruence.
Qed.
Lemma ids : ids_ok W (o_edges s).
Proof.
  intros e I. destruct (f2_in_r _ s_edges I) as (c & _ & X & Y & _). destruct FITS as (F1 & F2 & _). fold TI in F1. fold NM in F2.
  assert (esrc e < length TI) by (apply nth_error_Some; congruence). assert (etgt e < length NM) by (apply nth_error_Some; congruence). lia.
Qed.
Lemma f2_prod A C (P : A -> C -> Prop) l l' : Forall2 P l l' -> forall m m', Forall2 P m m' -> Forall2 (fun p q => P (fst p) (fst q) /\ P (snd p) (snd q)) (list_prod l m) (list_prod l' m').
Proof.
  induction 1 as [|x y l l' H F IH]; intros m m' G; [constructor|]. cbn [list_prod]. apply Forall2_app; auto. clear IH. induction G; constructor; auto.
Qed.
Lemma f2_filter A C (R : A -> C -> Prop) (p : A -> bool) (q : C -> bool) l l' : (forall a c, R a c -> p a = q c) -> Forall2 R l l' -> length (filter p l) = length (filter q l').
Proof. intros H F. induction F as [|a c l l' X F IH]; auto. cbn [filter]. rewrite (H a c X). destruct (q c); cbn [length]; auto. Qed.
Lemma shared_length : length (same_src (o_edges s)) = length (shared M data).
Proof.
  unfold same_src, shared. symmetry. apply (f2_filter (R := fun p q => (nth_error TI (esrc (fst q)) = Some (fst (fst p)) /\ nth_error NM (etgt (fst q)) = Some (snd (fst p)) /\ fst q = ((esrc (fst q), etgt (fst q)), tt)) /\
    nth_error TI (esrc (snd q)) = Some (fst (snd p)) /\ nth_error NM (etgt (snd q)) = Some (snd (snd p)) /\ snd q = ((esrc (snd q), etgt (snd q)), tt))).
  - intros [c c'] [e e'] ((X & _) & (Y & _)). cbn [fst snd] in *. destruct (Nat.eqb_spec (esrc e) (esrc e')) as [Q|Q].
    + rewrite <- Q in Y. rewrite X in Y. injection Y as ->. apply String.eqb_refl.
    + apply String.eqb_neq. intros Z. rewrite Z in X. apply Q. eapply TI_inj; eauto.
  - exact (f2_prod s_edges s_edges).
Qed.
Lemma W_pos : 0 < W. Proof. destruct FITS. lia. Qed.

(** Walks and links. *)
Lemma walk_linked g b0 b : (forall u v, edge g u v <-> costars (o_edges s) u v) -> nth_error NM b0 = Some b ->
  (forall n v, walk g b0 n v -> exists a, nth_error NM v = Some a /\ linked M data b n a) /\ (forall n a, linked M data b n a -> exists v, nth_error NM v = Some a /\ walk g b0 n v).
Proof.
  intros E EB. split.
  - induction 1 as [|n u v WK IH ED].
    + exists b. split; auto. constructor.
    + destruct IH as (a & EA & LK). apply E, costars_iff in ED. destruct ED as (t & a' & c & X & Y & T). assert (a' = a) by congruence. subst a'. exists c. split; auto. econstructor; eauto.
  - induction 1 as [|n y x t LK IH T].
    + exists b0. split; auto. constructor.
    + destruct IH as (u & EU & WK). assert (IX : In x NM). { apply first_seen_in. destruct T as (_ & _ & T). apply in_map_iff. exists (t, x). auto. }
      apply In_nth_error in IX. destruct IX as [v EV]. exists v. split; auto. econstructor; eauto. apply E, costars_iff. eauto 10.
Qed.
Lemma dist_bacon g b0 b v a d : (forall u v, edge g u v <-> costars (o_edges s) u v) -> nth_error NM b0 = Some b -> nth_error NM v = Some a ->
  (dist g b0 v d <-> bacon_number M data b a d) /\ (reachable g b0 v <-> exists n, linked M data b n a).
Proof.
  intros E EB EV. destruct (@walk_linked g b0 b E EB) as [F1 F2].
  assert (G1 : forall n, walk g b0 n v -> linked M data b n a). { intros n WK. destruct (F1 n v WK) as (a' & X & Y). assert (a' = a) by congruence. now subst. }
  assert (G2 : forall n, linked M data b n a -> walk g b0 n v). { intros n LK. destruct (F2 n a LK) as (v' & X & Y). assert (v' = v) by (eapply NM_inj; eauto). now subst. }
  split; split.
  - intros [D1 D2]. split; auto.
  - intros [D1 D2]. split; auto.
  - intros [n WK]. eauto.
  - intros [n LK]. exists n. auto.
Qed.

(** ** The reports *)
Section Tables.
Variables (g : list (list nat)) (b0 : nat) (b : string) (T : list (nat * nat * nat)) (t : tables).
Hypothesis K : tabs_ok g b0 T t.
Hypothesis TR : tree_order g b0 (map fst T).
Hypothesis E : forall u v, edge g u v <-> costars (o_edges s) u v.
Hypothesis EB : nth_error NM b0 = Some b.
Hypothesis TO : targets_ok g.
Hypothesis IT : forall u v k, In ((u, v), k) T -> acted (o_edges s) k u /\ acted (o_edges s) k v /\ u <> v.
Lemma path_ok : forall d v a, dist g b0 v d -> nth_error NM v = Some a ->
  exists lines, orc_path s t b0 d v = Ok lines /\ length lines = d /\ trail M data lines a b.
Proof.
  induction d as [|d IH]; intros v a D EV; cbn [orc_path].
  - apply dist_0 in D. subst v. rewrite Nat.eqb_refl. exists []. split; auto. split; auto. cbn. congruence.
  - destruct (Nat.eqb_spec v b0) as [->|N]. { assert (X := proj2 (dist_0 g b0 b0) eq_refl). assert (Y := dist_fun D X). lia. }
    assert (R : In v (b0 :: map snd (map fst T))) by (apply (proj1 (proj2 (proj1 TR))), dist_reach; eauto).
    destruct R as [->|R]; [easy|]. apply in_map_iff in R. destruct R as ([p c] & Q & R). cbn in Q. subst c. apply in_map_iff in R. destruct R as ([[p' c'] k] & Q & R). cbn in Q. injection Q as -> ->.
    destruct (k_tree K _ _ _ R) as [KP KT]. destruct (IT _ _ _ R) as (A1 & A2 & N').
    assert (ED : edge g p v) by (apply E; exists k; auto). assert (Lv : v < length g) by (eapply TO; eauto).
    assert (DP : dist g b0 p d).
    { apply in_split in R. destruct R as (T1 & T2 & ET). destruct (proj2 TR (map fst T1) p v (map fst T2)) as (_ & DP & IP); [rewrite ET, map_app; reflexivity|].
      assert (RP : reachable g b0 p) by (apply (proj1 (proj2 (proj1 TR))); rewrite ET, !map_app; destruct IP as [->|IP]; [now left|right; apply in_or_app; now left]).
      apply dist_reach in RP. destruct RP as [dp Dp]. assert (X := dist_fun (DP dp Dp) D). injection X as ->. exact Dp. }
    apply acted_iff in A1, A2. destruct A1 as (ti & ap & X1 & X2 & X3). destruct A2 as (ti' & av & Y1 & Y2 & Y3). assert (ti' = ti) by congruence. assert (av = a) by congruence. subst ti' av.
    destruct (IH p ap DP X2) as (lines & EP & LL & TL).
    rewrite (@vget_nth _ _ v 0) by (rewrite (k_lp K); auto). cbn [bind]. rewrite KP. rewrite (@vget_nth _ _ v 0) by (rewrite (k_lt K); auto). cbn [bind]. rewrite KT, s_names, s_titles. unfold vget. rewrite EV. cbn [bind]. rewrite X2. cbn [bind]. rewrite X1. cbn [bind]. rewrite EP. cbn [bind].
    eexists. split; [reflexivity|]. split; [cbn [length]; now rewrite LL|]. cbn [trail]. split; auto. split; auto. split; auto. intros Q. apply N'. subst a. symmetry. eapply NM_inj; eauto.
Qed.
Lemma first_exist v a : nth_error NM v = Some a -> exists n0 t0, nth_error NM 0 = Some n0 /\ nth_error TI 0 = Some t0.
Proof.
  intros EV. assert (I : In a NM) by (eapply nth_error_In; eauto). apply (proj1 (first_seen_in _ _)) in I. apply in_map_iff in I. destruct I as ([ti a'] & _ & I). 
  destruct NM as [|n0 r] eqn:EN; [destruct v; discriminate|]. exists n0. assert (IT' : In ti TI). { apply first_seen_in. unfold credits in I. apply in_concat in I. destruct I as (l & J & X). apply in_map_iff in J. destruct J as (m & <- & J). apply in_map_iff in X. destruct X as (x & [= <- _] & _). now apply in_map. }
  destruct TI as [|t0 r'] eqn:ET; [easy|]. exists t0. auto.
Qed.
Lemma report_ok c v a : v < length g -> nth_error NM v = Some a -> exists r, orc_report s t b0 c v = Ok r /\ r_complaint r = c /\ tells M data b a r /\ r_number r = nth v (t_distance t) 0.
Proof.
  intros Lv EV. unfold orc_report. rewrite s_names. unfold vget at 1. rewrite EV. cbn [bind]. rewrite (@vget_nth _ _ v 0) by (rewrite (k_ld K); auto). cbn [bind].
  destruct (in_dec Nat.eq_dec v (b0 :: map snd (map fst T))) as [I|I].
  - assert (R : reachable g b0 v) by (now apply (proj1 (proj2 (proj1 TR)))). apply dist_reach in R. destruct R as [d D]. rewrite (k_dist K (x := v) (d := d)); auto; [|destruct I; auto].
    destruct (path_ok D EV) as (lines & EP & LL & TL). rewrite EP. cbn [bind]. eexists. split; [reflexivity|]. cbn [r_complaint r_number]. split; auto. split; auto. split; auto. left. exists d. cbn [r_number r_lines]. split; auto. now apply (@dist_bacon g b0 b v a d E EB EV).
  - destruct (k_none K (x := v)) as (Z1 & Z2 & Z3); [intros ->; apply I; now left|intros J; apply I; now right|]. rewrite Z1. cbn [orc_path]. destruct (Nat.eqb_spec v b0) as [->|N]; [destruct I; now left|].
    destruct (first_exist _ EV) as (n0 & t0 & X & Y). rewrite (@vget_nth _ _ v 0) by (rewrite (k_lp K); auto). cbn [bind]. rewrite (@vget_nth _ _ v 0) by (rewrite (k_lt K); auto). cbn [bind]. rewrite Z2, Z3, s_names, s_titles. unfold vget. rewrite EV. cbn [bind]. rewrite X. cbn [bind]. rewrite Y. cbn [bind].
    eexists. split; [reflexivity|]. cbn [r_complaint r_number]. split; auto. split; auto. split; auto. right. split.
    + intros d LK. apply I. apply (proj1 (proj2 (proj1 TR))). apply (@dist_bacon g b0 b v a 0 E EB EV). eauto.
    + cbn [r_number r_lines]. split; auto. fold NM TI. destruct NM; [discriminate|]. destruct TI; [discriminate|]. cbn in X, Y |- *. congruence.
Qed.
Lemma report_ub c v : length g <= v -> orc_report s t b0 c v = Ub.
Proof. intros Lv. unfold orc_report. unfold vget at 1. destruct (nth_error (o_names s) v); cbn [bind]; auto. rewrite vget_ge; [reflexivity|]. now rewrite (k_ld K). Qed.
End Tables.
(** The id the program uses for a name. *)
Lemma id_of q : NM <> [] -> nth_error NM (dat (o_nmap s) q) = Some (subject M data q) /\ (~ In q NM -> dat (o_nmap s) q = 0).
Proof.
  intros NE. assert (D := b_nmap B). fold s in D. rewrite s_names in D. unfold subject. fold NM. destruct (existsb (String.eqb q) NM) eqn:X.
  - apply existsb_string in X. split; [now apply dat_ok|easy].
  - assert (Z : dat (o_nmap s) q = 0). { unfold dat. assert (Y : dfind (o_nmap s) q = None) by (apply (dfind_none q D); intros I; apply existsb_string in I; congruence). now rewrite Y. }
    rewrite Z. split; auto. destruct NM; [easy|]. reflexivity.
Qed.

(** ** The whole program *)
Definition known (q : string) : bool := existsb (String.eqb q) NM.
(** Somebody listed with [a] or after them acted together with somebody. *)
Definition in_range (a : string) : Prop := exists l1 l2, NM = l1 ++ a :: l2 /\ exists c t x, In c (a :: l2) /\ together M data t c x.
Definition out_of_range (a : string) : Prop := exists l1 l2, NM = l1 ++ a :: l2 /\ forall c t x, In c (a :: l2) -> ~ together M data t c x.
Lemma max_of_ok l : l <> [] -> exists d, max_of l = Ok d /\ (forall x, In x l -> x <= d) /\ In d l.
Proof.
  destruct l as [|x l]; [easy|]. intros _. exists (fold_left Nat.max l x). split; auto. revert x. induction l as [|y l IH]; intros x; cbn [fold_left].
  - split; [intros z [->|[]]; auto|now left].
  - destruct (IH (Nat.max x y)) as [A C]. split.
    + intros z [->|[->|I]]; [|apply Nat.le_trans with (Nat.max x z); [lia|apply A; now left]|apply A; now right]. apply Nat.le_trans with (Nat.max z y); [lia|]. apply A. now left.
    + destruct C as [C|C]; [|right; now right]. rewrite <- C. destruct (Nat.max_spec x y) as [[_ ->]|[_ ->]]; [right; now left|now left].
Qed.
Lemma filter_map A C (f : A -> C) p l : filter p (map f l) = map f (filter (fun x => p (f x)) l).
Proof. induction l as [|x l IH]; auto. cbn. destruct (p (f x)); cbn; now rewrite IH. Qed.
Lemma list_as_map (l : list string) : l = map (fun i => nth i l ""%string) (seq 0 (length l)).
Proof. apply nth_ext with (d := ""%string) (d' := ""%string); [now rewrite map_length, seq_length|]. intros n Ln. rewrite nth_map_seq by auto. reflexivity. Qed.
Lemma f2_map_l A A' C (P : A' -> C -> Prop) (f : A -> A') l l' : Forall2 (fun a c => P (f a) c) l l' -> Forall2 P (map f l) l'.
Proof. induction 1; constructor; auto. Qed.
Lemma nth_err i : i < length NM -> nth_error NM i = Some (nth i NM ""%string).
Proof. intros L. now apply nth_error_nth'. Qed.
Lemma split_at i a : nth_error NM i = Some a -> exists l1 l2, NM = l1 ++ a :: l2 /\ length l1 = i.
Proof. apply nth_error_split. Qed.
Lemma in_suffix l1 l2 a c j : NM = l1 ++ a :: l2 -> nth_error NM j = Some c -> length l1 <= j -> In c (a :: l2).
Proof. intros Q X L. rewrite Q, nth_error_app2 in X by auto. now apply nth_error_In in X. Qed.
Lemma nth_mid l1 l2 a : NM = l1 ++ a :: l2 -> nth_error NM (length l1) = Some a.
Proof. intros Q. rewrite Q, nth_error_app2 by lia. now rewrite Nat.sub_diag. Qed.
Lemma suffix_index l1 l2 a c : NM = l1 ++ a :: l2 -> In c (a :: l2) -> exists j, length l1 <= j /\ nth_error NM j = Some c.
Proof. intros Q I. apply In_nth_error in I. destruct I as [j J]. exists (length l1 + j). split; [lia|]. rewrite Q, nth_error_app2 by lia. rewrite <- J. f_equal. lia. Qed.
Section Program.
Variables (srt : list (nat * (nat * unit)) -> list (nat * (nat * unit))) (srt2 : list (nat * (nat * nat)) -> list (nat * (nat * nat))).
Hypothesis HS : is_sort_by fst srt.
Hypothesis HS2 : is_sort_by fst srt2.
Let KB := subject M data "Kevin Bacon".
Lemma NM_ne a : In a NM -> NM <> []. Proof. intros I Q. rewrite Q in I. easy. Qed.
Lemma together_in t x y : together M data t x y -> In x NM /\ In y NM.
Proof. intros (_ & I & J). split; apply first_seen_in; [change x with (snd (t, x))|change y with (snd (t, y))]; now apply in_map. Qed.
Lemma together_sym t x y : together M data t x y -> together M data t y x.
Proof. intros (N & I & J). split; auto. Qed.
Lemma program srt1 asked : (exists t x, together M data t KB x) ->
  exists d far (p : string -> bool), 1 <= d /\ (forall x n, bacon_number M data KB x n -> n <= d) /\ (exists x, bacon_number M data KB x d) /\
    (forall x, p x = true <-> bacon_number M data KB x d) /\
    Forall2 (fun x r => r_complaint r = None /\ tells M data KB x r) (filter p NM) far /\
    (forall r, In r far -> r_number r = d) /\
    ((forall q, In q asked -> in_range (subject M data q)) ->
      exists answers, oracle W M srt srt2 srt1 data asked = Ok ([], d, far, answers) /\
        Forall2 (fun q r => r_complaint r = (if known q then None else Some ((subject M data q, q), 0)) /\ tells M data KB (subject M data q) r) asked answers) /\
    ((exists q, In q asked /\ out_of_range (subject M data q)) -> oracle W M srt srt2 srt1 data asked = Ub).
Proof.
  intros (t0 & x0 & T0). assert (NE : NM <> []) by (eapply NM_ne; apply (together_in T0)).
  destruct (id_of "Kevin Bacon" NE) as [EB _]. fold KB in EB. set (b0 := dat (o_nmap s) "Kevin Bacon") in *.
  assert (CB : exists v, costars (o_edges s) b0 v). { destruct (In_nth_error _ _ (proj2 (together_in T0))) as [v EV]. exists v. apply costars_iff. eauto 10. }
  assert (HL : 2 * length (same_src (o_edges s)) < W) by (rewrite shared_length; apply FITS).
  destruct (@search_ok W srt srt2 srt1 (o_edges s) b0 HS HS2 W_pos ids HL CB) as (t & g & T & ES & K & TR & TO & Lb & E & BC & BX & IT).
  assert (LgN : length g <= length NM). { destruct (Nat.le_gt_cases (length g) (length NM)) as [|X]; auto. destruct (BX (length NM)) as (u & v & L & C); [lia|]. apply costars_iff in C. destruct C as (_ & a & _ & Y & _). assert (u < length NM) by (apply nth_error_Some; congruence). lia. }
  assert (RO := fun c v a => @report_ok g b0 KB T t K TR E EB TO IT c v a).
  destruct (@max_of_ok (t_distance t)) as (d & EM & M1 & M2). { intros Q. assert (X := k_ld K). rewrite Q in X. cbn in X. lia. }
  assert (NT : forall v n, v < length g -> 1 <= n -> (nth v (t_distance t) 0 = n <-> dist g b0 v n)).
  { intros v n Lv Ln. split.
    - intros Q. destruct (in_dec Nat.eq_dec v (b0 :: map snd (map fst T))) as [I|I].
      + assert (R : reachable g b0 v) by (now apply (proj1 (proj2 (proj1 TR)))). apply dist_reach in R. destruct R as [d' D]. rewrite (k_dist K (x := v) (d := d')) in Q; [now subst|destruct I; auto|auto].
      + destruct (k_none K (x := v)) as (Z1 & _ & _); [intros ->; apply I; now left|intros J; apply I; now right|]. lia.
    - intros D. apply (k_dist K); auto. assert (R : reachable g b0 v) by (apply dist_reach; eauto). apply (proj1 (proj2 (proj1 TR))) in R. destruct R; auto. }
  assert (DI : forall v n, dist g b0 v n -> 1 <= n -> v < length g). { intros v n [WK _] Ln. destruct WK as [|n u v _ ED]; [lia|]. eapply TO; eauto. }
  assert (DB : forall v a n, nth_error NM v = Some a -> (dist g b0 v n <-> bacon_number M data KB a n)) by (intros v a n EV; apply (@dist_bacon g b0 KB v a n E EB EV)).
  assert (GE : forall x n, bacon_number M data KB x n -> n <= d).
  { intros x n BN. destruct n as [|n]; [lia|]. assert (IX : In x NM). { destruct BN as [LK _]. inversion LK; subst. eapply together_in; eauto. }
    destruct (In_nth_error _ _ IX) as [v EV]. apply (DB v x _ EV) in BN. assert (Lv := DI _ _ BN ltac:(lia)). apply (NT v _ Lv) in BN; [|lia]. apply M1. rewrite <- BN. apply nth_In. now rewrite (k_ld K). }
  assert (D1 : 1 <= d).
  { apply (GE x0). split; [apply linked_S with (y := KB) (t := t0); auto; constructor|]. intros [|k] LK; [|lia]. inversion LK. subst. now destruct T0. }
  destruct (In_nth _ _ 0 M2) as (vm & Lm & EMx). rewrite (k_ld K) in Lm.
  assert (NV : forall v, v < length g -> nth_error NM v = Some (nth v NM ""%string)) by (intros v Lv; apply nth_err; lia).
  set (sel := filter (fun i => nth i (t_distance t) 0 =? d) (seq 0 (length (t_distance t)))).
  assert (IS : forall v, In v sel <-> v < length g /\ dist g b0 v d).
  { intros v. unfold sel. rewrite filter_In, in_seq, (k_ld K), Nat.eqb_eq. split; intros [L Q]; split; try lia; apply NT; auto; lia. }
  destruct (@rmap_ex _ _ (orc_report s t b0 None) (fun v r => (r_complaint r = None /\ tells M data KB (nth v NM ""%string) r) /\ r_number r = d) sel) as (far & EF & FF).
  { intros v I. assert (I' := I). apply IS in I. destruct I as [Lv D]. destruct (RO None v (nth v NM ""%string) Lv (NV v Lv)) as (r & X & Y & Z & U). exists r. repeat split; auto; try apply Z. rewrite U. now apply NT. }
  set (p := fun x => existsb (String.eqb x) (map (fun v => nth v NM ""%string) sel)).
  assert (PS : forall x, p x = true <-> bacon_number M data KB x d).
  { intros x. unfold p. rewrite existsb_string, in_map_iff. split.
    - intros (v & <- & I). apply IS in I. destruct I as [Lv D]. now apply (DB v _ d (NV v Lv)).
    - intros BN. assert (IX : In x NM). { destruct BN as [LK _]. inversion LK; subst; [lia|]. eapply together_in; eauto. }
      destruct (In_nth_error _ _ IX) as [v EV]. exists v. split; [now apply nth_error_nth|]. apply IS. apply (DB v x _ EV) in BN. split; auto. eapply DI; eauto. }
  exists d, far, p. split; auto. split; auto. split. { exists (nth vm NM ""%string). apply (DB vm _ d (NV vm Lm)). now apply NT. } split; auto.
  split. { assert (Q : filter p NM = map (fun v => nth v NM ""%string) sel).
    { rewrite (list_as_map NM) at 1. rewrite filter_map. f_equal. unfold sel. rewrite (k_ld K). replace (length NM) with (length g + (length NM - length g)) by lia. rewrite seq_app, filter_app.
      assert (Q1 : filter (fun x => p (nth x NM ""%string)) (seq (0 + length g) (length NM - length g)) = []).
      { destruct (filter _ (seq (0 + length g) _)) as [|v r] eqn:Q; auto. exfalso. assert (I : In v (v :: r)) by (now left). rewrite <- Q in I. apply filter_In in I. destruct I as [I1 I2]. apply in_seq in I1. apply PS in I2. apply (DB v _ d) in I2; [|apply nth_err; lia]. assert (X := DI _ _ I2 D1). lia. }
      rewrite Q1, app_nil_r. apply filter_ext_in. intros v I. apply in_seq in I. assert (Lv : v < length g) by lia. destruct (p (nth v NM ""%string)) eqn:P.
      - symmetry. apply Nat.eqb_eq. apply NT; auto. apply (DB v _ d (NV v Lv)). now apply PS.
      - symmetry. apply Nat.eqb_neq. intros Q2. apply NT in Q2; auto. apply (DB v _ d (NV v Lv)) in Q2. apply PS in Q2. congruence. }
    rewrite Q. apply f2_map_l. eapply f2_impl; [|exact FF]. cbn beta. intros a c [X _]. exact X. }
  split. { intros r I. destruct (f2_in_r _ FF I) as (v & _ & _ & X). exact X. }
  assert (EP : oracle W M srt srt2 srt1 data asked = do answers <- rmap (orc_ask s t b0) asked ; Ok ([], d, far, answers)).
  { unfold oracle. fold s. fold b0. rewrite mism_n. cbn [bind]. rewrite mism_t. cbn [bind]. rewrite ES. cbn [bind]. rewrite EM. cbn [bind]. fold sel. rewrite EF. reflexivity. }
  assert (AN : forall q, exists c, orc_ask s t b0 q = orc_report s t b0 c (dat (o_nmap s) q) /\ nth_error NM (dat (o_nmap s) q) = Some (subject M data q) /\ c = (if known q then None else Some ((subject M data q, q), 0))).
  { intros q. destruct (id_of q NE) as [EQ Z]. unfold orc_ask. rewrite s_names. unfold vget at 1. rewrite EQ. cbn [bind]. eexists. split; [reflexivity|]. split; auto. unfold subject, known in *. fold NM in EQ |- *. destruct (existsb (String.eqb q) NM) eqn:X.
    - now rewrite String.eqb_refl.
    - destruct (String.eqb_spec (hd ""%string NM) q) as [Q|Q].
      + exfalso. assert (In q NM) by (rewrite <- Q; destruct NM; [easy|now left]). apply existsb_string in H. congruence.
      + rewrite Z; auto. intros I. apply existsb_string in I. congruence. }
  assert (LT : forall v a, nth_error NM v = Some a -> in_range a -> v < length g).
  { intros v a EV (l1 & l2 & Q & c & ti & x & I & TG). assert (v = length l1) by (eapply NM_inj; eauto; eapply nth_mid; eauto). subst v. destruct (@suffix_index l1 l2 a c Q I) as (j & Lj & EJ). destruct (In_nth_error _ _ (proj2 (together_in TG))) as [k EK].
    apply Nat.le_lt_trans with j; auto. apply (BC j k). apply costars_iff. eauto 10. }
  assert (GT : forall v a, nth_error NM v = Some a -> out_of_range a -> length g <= v).
  { intros v a EV (l1 & l2 & Q & NO). assert (v = length l1) by (eapply NM_inj; eauto; eapply nth_mid; eauto). subst v. destruct (Nat.le_gt_cases (length g) (length l1)) as [|X]; auto. exfalso. destruct (BX _ X) as (u & v & L & C). apply costars_iff in C. destruct C as (ti & a' & c & Y1 & Y2 & TG).
    apply (NO a' ti c); auto. eapply in_suffix; eauto. }
  split.
  - intros IR. destruct (@rmap_ex _ _ (orc_ask s t b0) (fun q r => r_complaint r = (if known q then None else Some ((subject M data q, q), 0)) /\ tells M data KB (subject M data q) r) asked) as (answers & EA & FA).
    { intros q I. destruct (AN q) as (c & EQ & EV & Q). rewrite EQ. destruct (RO c _ _ (LT _ _ EV (IR q I)) EV) as (r & X & Y & Z & _). exists r. rewrite Y. auto. }
    exists answers. rewrite EP, EA. auto.
  - intros (q & I & OR). rewrite EP. assert (X : rmap (orc_ask s t b0) asked = Ub); [|now rewrite X]. clear EP. induction asked as [|q' l IH]; [easy|]. cbn [rmap].
    destruct (AN q') as (c & EQ & EV & _). rewrite EQ. destruct (Nat.lt_ge_cases (dat (o_nmap s) q') (length g)) as [Lq|Lq].
    + destruct (RO c _ _ Lq EV) as (r & X & _). rewrite X. cbn [bind]. destruct I as [->|I]; [assert (Y := GT _ _ EV OR); lia|]. now rewrite IH.
    + rewrite (report_ub K c Lq). reflexivity.
Qed.
Lemma program_ub srt1 asked : (forall t x, ~ together M data t KB x) -> oracle W M srt srt2 srt1 data asked = Ub.
Proof.
  intros NC. set (b0 := dat (o_nmap s) "Kevin Bacon") in *.
  unfold oracle. fold s. fold b0. rewrite mism_n. cbn [bind]. rewrite mism_t. cbn [bind].
  rewrite (@search_ub W srt srt2 srt1 (o_edges s) b0 HS HS2 W_pos ids); auto; [rewrite shared_length; apply FITS|].
  intros v C. apply costars_iff in C. destruct C as (t & a & c & X & Y & TG). assert (NE : NM <> []) by (intros Q; rewrite Q in X; destruct b0; discriminate).
  destruct (id_of "Kevin Bacon" NE) as [EB _]. fold KB b0 in EB. assert (a = KB) by congruence. subst a. eapply NC; eauto.
Qed.
End Program.
End Data.
