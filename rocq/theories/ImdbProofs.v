(** Proofs about examples/imdb/imdb.cpp. *)
From Coq Require Import String List Arith Lia Bool Permutation Sorted.
From Verif Require Import EdgeListModel EdgeListProofs CsrModel CsrProofs2 CbProofs BfsRangeModel BfsRangeProofs BfsRangeProperties OrcModel OrcProofs OrcProofs2 ImdbModel Base GraphLib FifoLib.
Import ListNotations.
Set Implicit Arguments.
Local Open Scope string_scope.
Local Open Scope list_scope.
Local Open Scope nat_scope.

(** ** Specification *)
(** The row of a film is the last one of type "movie" with its id, and that of a person the last one with their id; 0 if there is none. *)
Definition is_film (titles : table) (t : string) (k : nat) : bool :=
  match nth k titles [] with id :: ty :: _ => String.eqb id t && String.eqb ty "movie" | _ => false end.
Definition film_no (titles : table) (t : string) : nat := last (filter (is_film titles t) (seq 0 (length titles))) 0.
Definition is_person (names : table) (p : string) (u : nat) : bool := match nth u names [] with id :: _ => String.eqb id p | _ => false end.
Definition person_no (names : table) (p : string) : nat := last (filter (is_person names p) (seq 0 (length names))) 0.
(** The credits: title and name of the rows, from the second one on, of an actor or actress. *)
Definition credit_of (row : list string) : list (string * string) :=
  match row with t :: _ :: p :: r :: _ => if String.eqb r "actor" || String.eqb r "actress" then [(t, p)] else [] | _ => [] end.
Definition credits (principals : table) : list (string * string) := flat_map credit_of (tl principals).
(** The person in row u plays in the film in row k. *)
Definition plays (titles names principals : table) (k u : nat) : Prop := exists t p, In (t, p) (credits principals) /\ k = film_no titles t /\ u = person_no names p.
Definition wide (n : nat) (t : table) : Prop := Forall (fun r => n <= length r) t.
(** Pairs of credits for the same film row. *)
Definition same_film (titles principals : table) : list ((string * string) * (string * string)) :=
  filter (fun q => film_no titles (fst (fst q)) =? film_no titles (fst (snd q))) (list_prod (credits principals) (credits principals)).

(** People at rows, films at rows: how far apart, and the lines that show it. *)
Section Rows.
  Variable acts : nat -> nat -> Prop.
  Definition co (u v : nat) : Prop := exists k, acts k u /\ acts k v /\ u <> v.
  Inductive apart (b : nat) : nat -> nat -> Prop :=
  | apart_0 : apart b 0 b
  | apart_S n v u : apart b n v -> co v u -> apart b (S n) u.
  Definition number (b u d : nat) : Prop := apart b d u /\ forall n, apart b n u -> d <= n.
  (** A line (x, y, k): x and y are different and both in k. *)
  Fixpoint trail (lines : list (nat * nat * nat)) (a b : nat) : Prop :=
    match lines with
    | [] => a = b
    | ((x, y), k) :: r => x = a /\ acts k x /\ acts k y /\ x <> y /\ trail r y b
    end.
End Rows.

(** ** Reading *)
Lemma dat_cons k v m q : dat ((k, v) :: m) q = if String.eqb q k then v else dat m q.
Proof. unfold dat. cbn [dfind]. destruct (String.eqb q k); auto. Qed.
Lemma last_snoc (A : Type) (l : list A) x d : last (l ++ [x]) d = x.
Proof. induction l as [|y l IH]; auto. cbn [app last]. destruct (l ++ [x]) eqn:E; [destruct l; discriminate|auto]. Qed.
Lemma cell_ok n (t : table) i j : wide n t -> i < length t -> j < n -> cell t i j = Ok (nth j (nth i t []) "").
Proof.
  intros Wd Li Lj. unfold cell. rewrite (@vget_nth _ t i []) by auto. cbn [bind]. apply vget_nth. unfold wide in Wd. rewrite Forall_forall in Wd. specialize (Wd (nth i t []) (nth_In t [] Li)). lia.
Qed.
Lemma film_map_ok titles : wide 3 titles -> exists tm, film_map titles = Ok tm /\ forall t, dat tm t = film_no titles t.
Proof.
  intros Wd. unfold film_map, film_no. assert (G : forall m, m <= length titles -> exists tm,
    rfold (fun m i => do ty <- cell titles i 1 ; if String.eqb ty "movie" then do id <- cell titles i 0 ; Ok ((id, i) :: m) else Ok m) (seq 0 m) [] = Ok tm /\
    forall t, dat tm t = last (filter (is_film titles t) (seq 0 m)) 0); [|apply G; auto].
  induction m as [|m IH]; intros L; [exists []; auto|]. destruct IH as (tm & E & H); [lia|]. rewrite seq_S, rfold_app, E. cbn [bind rfold plus].
  rewrite !(@cell_ok 3) by (auto; lia). cbn [bind].
  assert (LR : 3 <= length (nth m titles [])) by (unfold wide in Wd; rewrite Forall_forall in Wd; apply Wd, nth_In; lia).
  destruct (nth m titles []) as [|id [|ty r]] eqn:EN; cbn in LR; try lia. cbn [nth].
  destruct (String.eqb ty "movie") eqn:ET; (eexists; split; [reflexivity|]); intros t; rewrite filter_app; cbn [filter]; unfold is_film at 2; rewrite EN, ET, ?andb_true_r, ?andb_false_r.
  - rewrite dat_cons, String.eqb_sym. destruct (String.eqb id t); [now rewrite last_snoc|now rewrite app_nil_r].
  - now rewrite app_nil_r.
Qed.
Lemma name_map_ok names : wide 2 names -> exists nm, name_map names = Ok nm /\ forall p, dat nm p = person_no names p.
Proof.
  intros Wd. unfold name_map, person_no. assert (G : forall m, m <= length names -> exists nm,
    rfold (fun m i => do id <- cell names i 0 ; Ok ((id, i) :: m)) (seq 0 m) [] = Ok nm /\ forall p, dat nm p = last (filter (is_person names p) (seq 0 m)) 0); [|apply G; auto].
  induction m as [|m IH]; intros L; [exists []; auto|]. destruct IH as (nm & E & H); [lia|]. rewrite seq_S, rfold_app, E. cbn [bind rfold plus].
  rewrite !(@cell_ok 2) by (auto; lia). cbn [bind].
  assert (LR : 2 <= length (nth m names [])) by (unfold wide in Wd; rewrite Forall_forall in Wd; apply Wd, nth_In; lia).
  destruct (nth m names []) as [|id r] eqn:EN; cbn in LR; try lia. cbn [nth]. eexists; split; [reflexivity|]. intros p. rewrite filter_app. cbn [filter]. unfold is_person at 2. rewrite EN.
  rewrite dat_cons, String.eqb_sym. destruct (String.eqb id p); [now rewrite last_snoc|now rewrite app_nil_r].
Qed.
Lemma last_in (A : Type) (l : list A) d : last l d = d \/ In (last l d) l.
Proof. induction l as [|x l IH]; auto. destruct l as [|y l]; [right; now left|]. change (last (x :: y :: l) d) with (last (y :: l) d). destruct IH as [IH|IH]; auto. right. now right. Qed.
Lemma film_no_lt titles t : titles <> [] -> film_no titles t < length titles.
Proof.
  intros N. unfold film_no. destruct (last_in (filter (is_film titles t) (seq 0 (length titles))) 0) as [->|I]; [destruct titles; [congruence|cbn; lia]|].
  apply filter_In in I. destruct I as [I _]. apply in_seq in I. lia.
Qed.
Lemma person_no_lt names p : names <> [] -> person_no names p < length names.
Proof.
  intros N. unfold person_no. destruct (last_in (filter (is_person names p) (seq 0 (length names))) 0) as [->|I]; [destruct names; [congruence|cbn; lia]|].
  apply filter_In in I. destruct I as [I _]. apply in_seq in I. lia.
Qed.
Definition shown_line (titles : table) (c : string * string) : string * string := (fst c, nth 2 (nth (film_no titles (fst c)) titles []) "").
Definition edge_of (titles names : table) (c : string * string) : uedge := ((film_no titles (fst c), person_no names (snd c)), tt).
Lemma imdb_edges_ok W titles names principals tm nm : wide 3 titles -> wide 4 principals -> titles <> [] -> names <> [] -> length titles < W -> length names < W ->
  (forall t, dat tm t = film_no titles t) -> (forall p, dat nm p = person_no names p) ->
  imdb_edges W titles tm nm principals =
    Ok (map (shown_line titles) (filter (fun c => String.eqb (snd c) "nm0837064") (credits principals)), map (edge_of titles names) (credits principals)).
Proof.
  intros WT WP NT NN LT LN HT HN. unfold imdb_edges, credits. destruct principals as [|h rows]; [reflexivity|]. cbn [tl length]. rewrite Nat.sub_succ, Nat.sub_0_r.
  assert (G : forall m, m <= length rows -> rfold (imdb_record W titles tm nm (h :: rows)) (seq 1 m) ([], []) =
    Ok (map (shown_line titles) (filter (fun c => String.eqb (snd c) "nm0837064") (flat_map credit_of (firstn m rows))), map (edge_of titles names) (flat_map credit_of (firstn m rows)))).
  2:{ rewrite G by auto. now rewrite firstn_all. }
  induction m as [|m IH]; intros L; [reflexivity|]. rewrite seq_S, rfold_app, IH by lia. cbn [bind rfold plus].
  assert (FS : firstn (S m) rows = firstn m rows ++ [nth m rows []]).
  { clear - L. revert rows L. induction m as [|m IH]; intros [|x rows] L; cbn [length] in L; try lia; auto. cbn [firstn app nth]. f_equal. rewrite <- IH by lia. reflexivity. }
  rewrite FS, flat_map_app, filter_app, !map_app. cbn [flat_map]. rewrite app_nil_r.
  assert (Lm : S m < length (h :: rows)) by (cbn; lia).
  unfold imdb_record. rewrite !(@cell_ok 4) by (auto; lia). change (nth (S m) (h :: rows) []) with (nth m rows []). cbn [bind fst snd].
  assert (LR : 4 <= length (nth m rows [])) by (unfold wide in WP; rewrite Forall_forall in WP; apply WP; right; apply nth_In; lia).
  destruct (nth m rows []) as [|t [|x [|p [|r rest]]]]; cbn in LR; try lia. cbn [nth credit_of].
  destruct (String.eqb r "actor" || String.eqb r "actress"); [|now rewrite !app_nil_r]. cbn [map filter snd fst].
  rewrite HT, HN. assert (F1 := film_no_lt t NT). assert (F2 := person_no_lt p NN). rewrite !Nat.mod_small by lia.
  destruct (String.eqb p "nm0837064").
  - rewrite (@cell_ok 3) by (auto; now apply film_no_lt). reflexivity.
  - cbn [bind map]. now rewrite app_nil_r.
Qed.

(** ** The path *)
Section Path.
  Variables (g : list (list nat)) (b0 : nat) (T : list (nat * nat * nat)) (t : tables) (who what : nat -> res string) (whos whats : nat -> string) (acts : nat -> nat -> Prop).
  Hypothesis LP : length (t_parents t) = length g.
  Hypothesis LT : length (t_together t) = length g.
  Hypothesis KT : forall p c k, In ((p, c), k) T -> nth c (t_parents t) 0 = p /\ nth c (t_together t) 0 = k.
  Hypothesis TR : tree_order g b0 (map fst T).
  Hypothesis TO : targets_ok g.
  Hypothesis IT : forall u v k, In ((u, v), k) T -> acts k u /\ acts k v /\ u <> v /\ edge g u v /\ who u = Ok (whos u) /\ who v = Ok (whos v) /\ what k = Ok (whats k).
  Definition words (l : nat * nat * nat) : string * string * string := let '((u, v), k) := l in ((whos u, whos v), whats k).
  Lemma tab_path_ok : forall d d' v, dist g b0 v d -> d <= d' ->
    exists lines, tab_path who what t b0 d' v = Ok (map words lines) /\ length lines = d /\ trail acts lines v b0.
  Proof.
    induction d as [|d IH]; intros d' v D LD.
    - apply dist_0 in D. subst v. exists []. split; [destruct d'; cbn [tab_path]; now rewrite Nat.eqb_refl|]. cbn. auto.
    - destruct d' as [|d']; [lia|]. cbn [tab_path]. destruct (Nat.eqb_spec v b0) as [->|N]. { assert (X := proj2 (dist_0 g b0 b0) eq_refl). assert (Y := dist_fun D X). lia. }
      assert (R : In v (b0 :: map snd (map fst T))) by (apply (proj1 (proj2 (proj1 TR))), dist_reach; eauto).
      destruct R as [->|R]; [easy|]. apply in_map_iff in R. destruct R as ([p c] & Q & R). cbn in Q. subst c. apply in_map_iff in R. destruct R as ([[p' c'] k] & Q & R). cbn in Q. injection Q as -> ->.
      destruct (KT _ _ _ R) as [KP KK]. destruct (IT _ _ _ R) as (A1 & A2 & N' & ED & W1 & W2 & W3). assert (Lv : v < length g) by (eapply TO; eauto).
      assert (DP : dist g b0 p d).
      { apply in_split in R. destruct R as (T1 & T2 & ET). destruct (proj2 TR (map fst T1) p v (map fst T2)) as (_ & DP & IP); [rewrite ET, map_app; reflexivity|].
        assert (RP : reachable g b0 p) by (apply (proj1 (proj2 (proj1 TR))); rewrite ET, !map_app; destruct IP as [->|IP]; [now left|right; apply in_or_app; now left]).
        apply dist_reach in RP. destruct RP as [dp Dp]. assert (X := dist_fun (DP dp Dp) D). injection X as ->. exact Dp. }
      destruct (IH d' p DP) as (lines & EP & LL & TL); [lia|]. rewrite W2. cbn [bind]. rewrite (@vget_nth _ _ v 0) by (rewrite LP; auto). cbn [bind]. rewrite KP, W1. cbn [bind].
      rewrite (@vget_nth _ _ v 0) by (rewrite LT; auto). cbn [bind]. rewrite KK, W3. cbn [bind]. rewrite EP. cbn [bind].
      exists (((v, p), k) :: lines). split; [reflexivity|]. cbn [length trail]. repeat split; auto.
  Qed.
End Path.

(** ** Walks *)
Lemma walk_apart g b (acts : nat -> nat -> Prop) : (forall u v, edge g u v <-> co acts u v) -> forall n u, walk g b n u <-> apart acts b n u.
Proof. intros E. intros n u. split; induction 1; try constructor; econstructor; eauto; now apply E. Qed.
Lemma dist_number g b (acts : nat -> nat -> Prop) u d : (forall u v, edge g u v <-> co acts u v) -> (dist g b u d <-> number acts b u d).
Proof. intros E. assert (X := @walk_apart g b acts E). unfold dist, number. split; intros [A B]; (split; [now apply X|]); intros n Y; apply B; now apply X. Qed.

(** ** The program *)
(** The line a to 0 in film 0, printed about one with no path. *)
Definition told (acts : nat -> nat -> Prop) (b a d : nat) (rows : list (nat * nat * nat)) : Prop :=
  (number acts b a d /\ length rows = d /\ trail acts rows a b) \/ ((forall n, ~ apart acts b n a) /\ d = 0 /\ rows = [((a, 0), 0)]).
Section Main.
  Variables (W : nat) (titles names principals : table).
  Hypothesis WT : wide 3 titles.
  Hypothesis WN : wide 2 names.
  Hypothesis WP : wide 4 principals.
  Hypothesis NT : titles <> [].
  Hypothesis NN : names <> [].
  Hypothesis LT : length titles < W.
  Hypothesis LN : length names < W.
  Hypothesis SM : 2 * length (same_film titles principals) < W.
  Let es := map (edge_of titles names) (credits principals).
  Let acts := plays titles names principals.
  Lemma es_acted k u : acted es k u <-> acts k u.
  Proof.
    unfold acted, es, acts, plays. rewrite in_map_iff. split.
    - intros ([t p] & [= <- <-] & I). eauto.
    - intros (t & p & I & -> & ->). exists (t, p). auto.
  Qed.
  Lemma es_co u v : costars es u v <-> co acts u v.
  Proof. unfold costars, co. split; intros (k & A & B & C); exists k; (split; [now apply es_acted|split; [now apply es_acted|auto]]). Qed.
  Lemma es_ids : ids_ok W es.
  Proof.
    intros e I. unfold es in I. apply in_map_iff in I. destruct I as ([t p] & <- & I). unfold edge_of, esrc, etgt. cbn [fst snd].
    assert (X := film_no_lt t NT). assert (Y := person_no_lt p NN). lia.
  Qed.
  Lemma es_same : length (same_src es) = length (same_film titles principals).
  Proof.
    unfold same_src, same_film, es. assert (G : forall c' c, length (filter (fun p : uedge * uedge => esrc (fst p) =? esrc (snd p)) (list_prod (map (edge_of titles names) c) (map (edge_of titles names) c'))) =
      length (filter (fun q : (string * string) * (string * string) => film_no titles (fst (fst q)) =? film_no titles (fst (snd q))) (list_prod c c'))); [|apply G].
    intros c'. induction c as [|x c IH]; [reflexivity|]. cbn [map list_prod].
    rewrite !filter_app, !app_length. rewrite IH. f_equal. clear. induction c' as [|y c' IH]; [reflexivity|]. cbn [map filter fst snd].
    change (esrc (edge_of titles names x) =? esrc (edge_of titles names y)) with (film_no titles (fst x) =? film_no titles (fst y)).
    destruct (film_no titles (fst x) =? film_no titles (fst y)); cbn [length]; now rewrite IH.
  Qed.
  Definition who_of (i : nat) := nth 1 (nth i names []) "".
  Definition what_of (i : nat) := nth 2 (nth i titles []) "".
  Lemma who_ok i : i < length names -> cell names i 1 = Ok (who_of i).
  Proof. intros. apply (@cell_ok 2); auto. Qed.
  Lemma what_ok i : i < length titles -> cell titles i 2 = Ok (what_of i).
  Proof. intros. apply (@cell_ok 3); auto. Qed.
  Lemma acts_lt k u : acts k u -> k < length titles /\ u < length names.
  Proof. intros (t & p & _ & -> & ->). split; [now apply film_no_lt|now apply person_no_lt]. Qed.
  Lemma report_ok g T t b a : tabs_ok g b T t -> tree_order g b (map fst T) -> targets_ok g -> b < length g -> (forall u v, edge g u v <-> co acts u v) ->
    (forall u v k, In ((u, v), k) T -> acts k u /\ acts k v /\ u <> v) -> a < length g -> a < length names ->
    exists d rows, tab_report (fun i => cell names i 1) (fun i => cell titles i 2) t b a = Ok (d, map (words who_of what_of) rows) /\ told acts b a d rows.
  Proof.
    intros K TR TO Lb E IT La LaN. unfold tab_report. rewrite (@vget_nth _ _ a 0) by (rewrite (k_ld K); auto). cbn [bind].
    destruct (in_dec Nat.eq_dec a (b :: map snd (map fst T))) as [I|I].
    - assert (R : reachable g b a) by (now apply (proj1 (proj2 (proj1 TR)))). apply dist_reach in R. destruct R as [d D]. rewrite (k_dist K (x := a) (d := d)); auto; [|destruct I; auto].
      destruct (@tab_path_ok g b T t (fun i => cell names i 1) (fun i => cell titles i 2) who_of what_of acts (k_lp K) (k_lt K) (k_tree K) TR TO) with (d := d) (d' := d) (v := a) as (rows & EP & LL & TL); auto.
      { intros u v k J. destruct (IT _ _ _ J) as (A1 & A2 & A3). destruct (acts_lt A1) as [B1 B2]. destruct (acts_lt A2) as [_ B3]. split; auto. split; auto. split; auto. split; [apply E; exists k; auto|]. split; [now apply who_ok|]. split; [now apply who_ok|now apply what_ok]. }
      rewrite EP. cbn [bind]. exists d, rows. split; auto. left. split; auto. now apply (@dist_number g b acts a d E).
    - destruct (k_none K (x := a)) as (Z1 & Z2 & Z3); [intros ->; apply I; now left|intros J; apply I; now right|]. rewrite Z1. cbn [tab_path]. destruct (Nat.eqb_spec a b) as [->|N]; [destruct I; now left|].
      rewrite who_ok by auto. cbn [bind]. rewrite (@vget_nth _ _ a 0) by (rewrite (k_lp K); auto). cbn [bind]. rewrite Z2, who_ok by (destruct names; [congruence|cbn; lia]). cbn [bind].
      rewrite (@vget_nth _ _ a 0) by (rewrite (k_lt K); auto). cbn [bind]. rewrite Z3, what_ok by (destruct titles; [congruence|cbn; lia]). cbn [bind].
      exists 0, [((a, 0), 0)]. split; auto. right. split; auto. intros n X. apply I. apply (proj1 (proj2 (proj1 TR))). exists n. now apply (@walk_apart g b acts E).
  Qed.
  Lemma imdb_open srt srt2 srt1 : exists tm nm, film_map titles = Ok tm /\ name_map names = Ok nm /\ (forall p, dat nm p = person_no names p) /\
    imdb W srt srt2 srt1 titles names principals =
      (let b := person_no names "nm0000102" in
       do t <- orc_search W srt srt2 srt1 es b ;
       do d <- vget (t_distance t) b ;
       do r1 <- tab_report (fun i => cell names i 1) (fun i => cell titles i 2) t b (person_no names "nm0001718") ;
       do r2 <- tab_report (fun i => cell names i 1) (fun i => cell titles i 2) t b (person_no names "nm0837064") ;
       Ok (map (shown_line titles) (filter (fun c => String.eqb (snd c) "nm0837064") (credits principals)), d, r1, r2)).
  Proof.
    destruct (film_map_ok WT) as (tm & ET & HT). destruct (name_map_ok WN) as (nm & EN & HN). exists tm, nm. split; auto. split; auto. split; auto.
    unfold imdb. rewrite ET. cbn [bind]. rewrite EN. cbn [bind]. rewrite (@imdb_edges_ok W titles names principals tm nm) by auto. cbn [bind fst snd]. now rewrite !HN.
  Qed.
  Definition in_range (a : nat) : Prop := exists u v, a <= u /\ co acts u v.
  Lemma imdb_ok srt srt2 srt1 : is_sort_by fst srt -> is_sort_by fst srt2 ->
    let b := person_no names "nm0000102" in let a1 := person_no names "nm0001718" in let a2 := person_no names "nm0837064" in
    (exists v, co acts b v) -> in_range a1 -> in_range a2 ->
    exists d1 rows1 d2 rows2, imdb W srt srt2 srt1 titles names principals =
      Ok (map (shown_line titles) (filter (fun c => String.eqb (snd c) "nm0837064") (credits principals)), 0, (d1, map (words who_of what_of) rows1), (d2, map (words who_of what_of) rows2)) /\
      told acts b a1 d1 rows1 /\ told acts b a2 d2 rows2.
  Proof.
    intros HS HS2 b a1 a2 (v & C) R1 R2. destruct (imdb_open srt srt2 srt1) as (tm & nm & _ & _ & _ & E). rewrite E. cbv zeta. fold b a1 a2.
    destruct (@search_ok W srt srt2 srt1 es b) as (t & g & T & ES & K & TR & TO & Lb & EE & CL & CR & IT); auto; [lia|apply es_ids|now rewrite es_same|exists v; now apply es_co|].
    assert (E' : forall u v, edge g u v <-> co acts u v) by (intros; rewrite EE; apply es_co).
    assert (IT' : forall u v k, In ((u, v), k) T -> acts k u /\ acts k v /\ u <> v). { intros u w k I. destruct (IT _ _ _ I) as (X & Y & Z). split; [now apply es_acted|]. split; [now apply es_acted|auto]. }
    assert (RL : forall a, in_range a -> a < length g). { intros a (u & w & L & X). apply es_co in X. assert (Y := CL _ _ X). lia. }
    rewrite ES. cbn [bind]. rewrite (@vget_nth _ _ b 0) by (rewrite (k_ld K); auto). cbn [bind]. rewrite (k_dist K (x := b) (d := 0)) by (auto; now apply dist_0).
    destruct (@report_ok g T t b a1 K TR TO Lb E' IT') as (d1 & rows1 & X1 & Y1); [auto|now apply person_no_lt|].
    destruct (@report_ok g T t b a2 K TR TO Lb E' IT') as (d2 & rows2 & X2 & Y2); [auto|now apply person_no_lt|].
    rewrite X1. cbn [bind]. rewrite X2. cbn [bind]. exists d1, rows1, d2, rows2. auto.
  Qed.
  Lemma imdb_alone srt srt2 srt1 : is_sort_by fst srt -> is_sort_by fst srt2 -> (forall v, ~ co acts (person_no names "nm0000102") v) ->
    imdb W srt srt2 srt1 titles names principals = Ub.
  Proof.
    intros HS HS2 NC. destruct (imdb_open srt srt2 srt1) as (tm & nm & _ & _ & _ & E). rewrite E. cbv zeta. rewrite search_ub; auto; [lia|apply es_ids|now rewrite es_same|].
    intros v C. apply (NC v). now apply es_co.
  Qed.
  Lemma imdb_out srt srt2 srt1 a : is_sort_by fst srt -> is_sort_by fst srt2 -> a = person_no names "nm0001718" \/ a = person_no names "nm0837064" ->
    (exists v, co acts (person_no names "nm0000102") v) -> ~ in_range a -> imdb W srt srt2 srt1 titles names principals = Ub.
  Proof.
    intros HS HS2 A (v & C) NR. set (b := person_no names "nm0000102") in *.
    destruct (imdb_open srt srt2 srt1) as (tm & nm & _ & _ & _ & E). rewrite E. cbv zeta. fold b.
    destruct (@search_ok W srt srt2 srt1 es b) as (t & g & T & ES & K & TR & TO & Lb & EE & CL & CR & IT); auto; [lia|apply es_ids|now rewrite es_same|exists v; now apply es_co|].
    rewrite ES. cbn [bind]. rewrite (@vget_nth _ _ b 0) by (rewrite (k_ld K); auto). cbn [bind].
    assert (La : length g <= a). { destruct (Nat.lt_ge_cases a (length g)) as [L|L]; auto. destruct NR. destruct (CR a L) as (u & w & X & Y). exists u, w. split; auto. now apply es_co. }
    assert (IT' : forall u v k, In ((u, v), k) T -> acts k u /\ acts k v /\ u <> v). { intros u w k I. destruct (IT _ _ _ I) as (X & Y & Z). split; [now apply es_acted|]. split; [now apply es_acted|auto]. }
    assert (UB : forall x, length g <= x -> tab_report (fun i => cell names i 1) (fun i => cell titles i 2) t b x = Ub) by (intros x L; unfold tab_report; rewrite vget_ge by (rewrite (k_ld K); auto); reflexivity).
    destruct A as [A|A]; rewrite <- A; [now rewrite (UB _ La)|]. rewrite (UB _ La).
    destruct (Nat.lt_ge_cases (person_no names "nm0001718") (length g)) as [L|L]; [|now rewrite (UB _ L)].
    destruct (@report_ok g T t b (person_no names "nm0001718") K TR TO Lb) as (d1 & rows1 & X1 & Y1); auto; [intros; rewrite EE; apply es_co|now apply person_no_lt|]. rewrite X1. reflexivity.
  Qed.
End Main.
