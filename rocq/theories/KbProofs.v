(** Proofs about examples/bgl-book/ch4_kevin_bacon.cpp. *)
From Coq Require Import String Ascii List Arith Lia Bool Permutation Sorted.
From Verif Require Import EdgeListModel EdgeListProofs CsrModel CsrProofs CsrProofs2 CsrProperties CbProofs
  BfsRangeModel BfsRangeProofs BfsRangeProperties OrcModel OrcProofs OrcProofs2 DblpProofs KbModel Base GraphLib FifoLib.
Import ListNotations.
Set Implicit Arguments.
Local Open Scope nat_scope.

(** ** Specification *)
(** A credit: an actor, a movie, an actor.  A line says one: its fields are separated by the first two semicolons, those missing are empty. *)
Definition credit := (string * string * string)%type.
Definition lacks (c : ascii) (s : string) : Prop := ~ In c (list_ascii_of_string s).
Inductive says : string -> credit -> Prop :=
| says_3 a m b : lacks semi a -> lacks semi m -> says (a ++ String semi (m ++ String semi b)) ((a, m), b)
| says_2 a m : lacks semi a -> lacks semi m -> says (a ++ String semi m) ((a, m), EmptyString)
| says_1 a : lacks semi a -> says a ((a, EmptyString), EmptyString).
(** A file of lines, the last one with or without an end. *)
Fixpoint file_text (ls : list string) : string := match ls with [] => EmptyString | l :: r => (l ++ String LF (file_text r))%string end.
Definition file_of (file : string) (ls : list string) : Prop :=
  Forall (lacks LF) ls /\ (file = file_text ls \/ exists ls' l, ls = ls' ++ [l] /\ l <> EmptyString /\ file = (file_text ls' ++ l)%string).
Definition appears (cs : list credit) (a : string) : Prop := exists c, In c cs /\ (a = fst (fst c) \/ a = snd c).
(** Different actors of one line. *)
Definition together (cs : list credit) (a b : string) : Prop := a <> b /\ exists m, In ((a, m), b) cs \/ In ((b, m), a) cs.
Inductive steps (cs : list credit) (b : string) : nat -> string -> Prop :=
| steps_0 : steps cs b 0 b
| steps_S n a a' : steps cs b n a -> together cs a a' -> steps cs b (S n) a'.
Definition bacon (cs : list credit) (b a : string) (d : nat) : Prop := steps cs b d a /\ forall n, steps cs b n a -> d <= n.
Definition slt (a b : string) : Prop := String.compare a b = Lt.
Definition people (cs : list credit) : list string := first_seen (flat_map (fun c => [fst (fst c); snd c]) cs).

(** ** Text *)
Lemma app_str a b : list_ascii_of_string (a ++ b)%string = list_ascii_of_string a ++ list_ascii_of_string b.
Proof. induction a; cbn; congruence. Qed.
Lemma str_app_assoc (a b c : string) : ((a ++ b) ++ c = a ++ (b ++ c))%string.
Proof. induction a; cbn; congruence. Qed.
Lemma str_app_nil (a : string) : (a ++ "" = a)%string.
Proof. induction a; cbn; congruence. Qed.
Lemma cut_app c a r : lacks c a -> cut_at c (a ++ String c r)%string = (a, Some r).
Proof.
  unfold lacks. induction a as [|x a IH]; intros N; cbn [append cut_at list_ascii_of_string] in *.
  - now rewrite Ascii.eqb_refl.
  - destruct (Ascii.eqb_spec x c) as [->|NE]; [destruct N; now left|]. rewrite IH; auto. intros I. apply N. now right.
Qed.
Lemma cut_end c a : lacks c a -> cut_at c a = (a, None).
Proof.
  unfold lacks. induction a as [|x a IH]; intros N; cbn [cut_at list_ascii_of_string] in *; auto.
  destruct (Ascii.eqb_spec x c) as [->|NE]; [destruct N; now left|]. rewrite IH; auto. intros I. apply N. now right.
Qed.
Lemma parse_line l c : lacks LF l -> says l c -> parse_buffer l = c.
Proof.
  intros N H. unfold parse_buffer. destruct H as [a m b H1 H2|a m H1 H2|a H1].
  - rewrite cut_app by auto. rewrite cut_app by auto. rewrite cut_end; [reflexivity|]. intros I. apply N. rewrite app_str. apply in_or_app. right. cbn [list_ascii_of_string]. right. rewrite app_str. apply in_or_app. right. now right.
  - rewrite cut_app by auto. rewrite cut_end by auto. reflexivity.
  - rewrite cut_end by auto. reflexivity.
Qed.
Lemma cut_split c s : (lacks c s) \/ exists a b, lacks c a /\ s = (a ++ String c b)%string.
Proof.
  induction s as [|x s IH]; [left; intros []|]. destruct (Ascii.eqb_spec x c) as [->|N]; [right; exists EmptyString, s; split; auto; intros []|].
  destruct IH as [H|(a & b & H & ->)]; [left; intros [I|I]; auto|]. right. exists (String x a), b. split; auto. intros [I|I]; auto.
Qed.
Lemma says_some l : exists c, says l c.
Proof.
  destruct (cut_split semi l) as [H|(a & r & H & ->)]; [eexists; apply says_1; auto|]. destruct (cut_split semi r) as [H'|(m & b & H' & ->)]; eexists; [apply says_2|apply says_3]; auto.
Qed.
Lemma line_some l c r : exists x y, (l ++ String c r)%string = String x y.
Proof. destruct l; cbn; eauto. Qed.
Lemma str_length_app (a b : string) : String.length (a ++ b) = String.length a + String.length b.
Proof. induction a; cbn; auto. Qed.
Lemma read_text W : forall ls fuel st t, Forall (lacks LF) ls -> lacks LF t -> String.length (file_text ls ++ t) <= fuel ->
  kb_read fuel W st (file_text ls ++ t) = Ok (fold_left (kb_line W) (ls ++ match t with EmptyString => [] | _ => [t] end) st).
Proof.
  induction ls as [|c ls IH]; intros fuel st t F T L.
  - cbn [file_text append app]. destruct t as [|x y]; [destruct fuel; reflexivity|].
    cbn [file_text append] in L. assert (X := cut_end T). cbn [String.length] in L. destruct fuel as [|f]; [lia|]. cbn [kb_read]. rewrite X. reflexivity.
  - inversion F as [|? ? Cc F']. subst. cbn [file_text] in *. rewrite str_app_assoc in *. cbn [append] in *. destruct (line_some c LF (file_text ls ++ t)) as (x & y & E).
    assert (X := @cut_app LF c (file_text ls ++ t)%string Cc). rewrite str_length_app in L. cbn [String.length] in L.
    destruct fuel as [|f]; [lia|]. rewrite E in *. cbn [kb_read]. rewrite X. rewrite IH by (auto; lia). reflexivity.
Qed.
Lemma read_file W file ls st : file_of file ls -> kb_read (String.length file) W st file = Ok (fold_left (kb_line W) ls st).
Proof.
  intros [F [->|(ls' & l & -> & N & ->)]].
  - assert (X := @read_text W ls (String.length (file_text ls)) st EmptyString F ltac:(intros [])). rewrite str_app_nil, app_nil_r in X. now apply X.
  - apply Forall_app in F. destruct F as [F1 F2]. inversion F2. subst. rewrite read_text; auto. destruct l; [congruence|reflexivity].
Qed.
Lemma file_some file : exists ls, file_of file ls.
Proof.
  assert (G : forall n s, String.length s <= n -> exists ls, file_of s ls).
  2:{ apply (G _ file (le_n _)). }
  induction n as [|n IH]; intros s L.
  - destruct s; [|cbn in L; lia]. exists []. split; [constructor|now left].
  - destruct (cut_split LF s) as [H|(a & r & H & ->)].
    + destruct s as [|x s]; [exists []; split; [constructor|now left]|]. exists [String x s]. split; [repeat constructor; auto|]. right. exists [], (String x s). split; auto. split; [discriminate|reflexivity].
    + rewrite str_length_app in L. cbn in L. destruct (IH r ltac:(lia)) as (ls & F & E). exists (a :: ls). split; [now constructor|]. destruct E as [->|(ls' & l & -> & N & ->)]; [now left|]. right. exists (a :: ls'), l. split; auto. split; auto. cbn. now rewrite str_app_assoc.
Qed.

(** ** Numbering *)
Lemma dfind_place k v : forall m q, dfind m k = None -> dfind (m_place k v m) q = if String.eqb q k then Some v else dfind m q.
Proof.
  induction m as [|[x w] m IH]; intros q N; [reflexivity|]. cbn [m_place dfind] in *. destruct (String.eqb_spec k x) as [|NE]; [discriminate|].
  destruct (String.compare k x); cbn [dfind]; auto. rewrite IH by auto. destruct (String.eqb_spec q x) as [->|]; auto. destruct (String.eqb_spec x k); auto. congruence.
Qed.
Lemma place_in k v : forall m kv, In kv (m_place k v m) -> kv = (k, v) \/ In kv m.
Proof. induction m as [|[x w] m IH]; intros kv I; cbn [m_place] in I; [destruct I as [<-|[]]; auto|]. destruct (String.compare k x); cbn [In] in *; try tauto; destruct I as [I|I]; auto. apply IH in I. tauto. Qed.
Lemma place_sorted k v : forall m, dfind m k = None -> Sorted slt (map fst m) -> Sorted slt (map fst (m_place k v m)).
Proof.
  induction m as [|[x w] m IH]; intros N H; cbn [m_place dfind map fst] in *; [repeat constructor|]. destruct (String.eqb_spec k x) as [|NE]; [discriminate|]. destruct (String.compare k x) eqn:C; cbn [map fst].
  - apply String.compare_eq_iff in C. easy.
  - constructor; [exact H|]. constructor. exact C.
  - inversion H as [|? ? Hs Hh]. subst. constructor; [auto|]. assert (Q : slt x k) by (unfold slt; rewrite String.compare_antisym, C; reflexivity).
    destruct m as [|[y z] m]; cbn [m_place map fst]; [now constructor|]. inversion Hh. subst. destruct (String.compare k y); cbn [map fst]; now constructor.
Qed.
Lemma number_ok W m v k : dict_ok m v -> Sorted slt (map fst m) -> length (see v k) < W ->
  exists m', m_number W m (length v) k = (m', length (see v k)) /\ dict_ok m' (see v k) /\ Sorted slt (map fst m').
Proof.
  intros D H L. unfold m_number, see in *. assert (FI := dfind_none k D). destruct (dfind m k) as [i|] eqn:E.
  - assert (I : In k v) by (apply (do_find D), nth_error_In in E; auto). rewrite (proj2 (existsb_string k v) I) in *. eauto.
  - assert (N : ~ In k v) by now apply FI. destruct (existsb (String.eqb k) v) eqn:X; [now apply existsb_string in X|]. rewrite app_length in *. cbn [List.length] in *. rewrite Nat.mod_small by lia.
    eexists. split; [reflexivity|]. split; [|now apply place_sorted]. assert (DA := @dict_add m v k D N). constructor.
    + intros q i. rewrite dfind_place by auto. assert (Z := do_find DA q i). cbn [dfind] in Z. exact Z.
    + rewrite Forall_forall. intros kv I. assert (Z := do_all DA). rewrite Forall_forall in Z. apply Z. apply place_in in I. destruct I as [->|I]; [now left|now right].
Qed.
Record kbuilt (st : dict * nat * list (EdgeListModel.edge string)) (cs : list credit) : Prop := {
  kb_dict : dict_ok (fst (fst st)) (people cs);
  kb_sorted : Sorted slt (map fst (fst (fst st)));
  kb_count : snd (fst st) = length (people cs);
  kb_edges : Forall2 (fun c e => exists i j, nth_error (people cs) i = Some (fst (fst c)) /\ nth_error (people cs) j = Some (snd c) /\ e = ((i, j), snd (fst c))) cs (snd st) }.
Lemma see_grow v x : length v <= length (see v x).
Proof. unfold see. destruct (existsb _ _); [auto|]. rewrite app_length. lia. Qed.
Lemma people_snoc cs c : people (cs ++ [c]) = see (see (people cs) (fst (fst c))) (snd c).
Proof. unfold people. rewrite flat_map_app. cbn [flat_map app]. change [fst (fst c); snd c] with ([fst (fst c)] ++ [snd c]). rewrite app_assoc, !first_seen_app. reflexivity. Qed.
Lemma kb_built W ls cs : Forall (lacks LF) ls -> Forall2 says ls cs -> length (people cs) < W -> kbuilt (fold_left (kb_line W) ls (([], 0), [])) cs.
Proof.
  revert ls. induction cs as [|c cs IH] using rev_ind; intros ls0 F0 F2 L.
  - inversion F2. subst. constructor; cbn; try constructor; auto. intros k [|i]; cbn; split; discriminate.
  - apply Forall2_app_inv_r in F2. destruct F2 as (ls & lc & F & Fc & ->). inversion Fc as [|l ? ? ? Cc Fn]. subst. inversion Fn. subst. apply Forall_app in F0. destruct F0 as [F0 Fl]. inversion Fl as [|? ? Nl _]. subst. rewrite people_snoc in L. assert (G1 := see_grow (people cs) (fst (fst c))). assert (G2 := see_grow (see (people cs) (fst (fst c))) (snd c)).
    destruct (IH ls F0 F ltac:(lia)) as [K1 K2 K3 K4]. rewrite fold_left_app. cbn [fold_left]. destruct (fold_left (kb_line W) ls ([], 0, [])) as [[m counter] es]. cbn [fst snd] in *. subst counter.
    unfold kb_line. rewrite (parse_line Nl Cc). destruct c as [[a mv] b]. cbn [fst snd] in *.
    destruct (@number_ok W m (people cs) a K1 K2 ltac:(lia)) as (m1 & E1 & D1 & S1). rewrite E1. destruct (@number_ok W m1 (see (people cs) a) b D1 S1 ltac:(lia)) as (m2 & E2 & D2 & S2). rewrite E2.
    constructor; cbn [fst snd]; rewrite ?people_snoc; auto. apply Forall2_app.
    + eapply OrcProofs.f2_impl; [|exact K4]. cbn beta. intros c e (i & j & X & Y & Z). exists i, j. split; [now apply see_nth, see_nth|]. split; [now apply see_nth, see_nth|auto].
    + constructor; [|constructor]. exists (dat m2 a), (dat m2 b). cbn [fst snd]. split; [|split; auto]; apply dat_ok; auto.
      * apply see_in. left. apply see_in. now right.
      * apply see_in. now right.
Qed.

(** ** The search *)
Record dist_at (g : list (list nat)) (s : nat) (T : list (nat * nat * string)) (c : nat) (l : list nat) : Prop := {
  z_len : length l = length g;
  z_dist : forall x d, x = s \/ In x (map snd (map fst T)) -> dist g s x d -> nth x l 0 = d + c;
  z_none : forall x, x <> s -> ~ In x (map snd (map fst T)) -> nth x l 0 = 0 }.
Lemma dist_run g s T c l0 : tree_order g s (map fst T) -> targets_ok g -> s < length g -> dist_at g s [] c l0 -> exists l, rfold kb_visit T l0 = Ok l /\ dist_at g s T c l.
Proof.
  intros (LO & TR) TO Ls K0.
  assert (G : forall T1 T2, T = T1 ++ T2 -> exists l, rfold kb_visit T1 l0 = Ok l /\ dist_at g s T1 c l).
  2:{ destruct (G T []) as (t & E & H); [now rewrite app_nil_r|]. eauto. }
  induction T1 as [|[[p q] k] T1 IH] using rev_ind; intros T2 ET.
  - exists l0. split; [reflexivity|exact K0].
  - rewrite <- app_assoc in ET. cbn [app] in ET. destruct (IH _ ET) as (l & E & K). rewrite rfold_app, E. cbn [bind rfold kb_visit].
    destruct (TR (map fst T1) p q (map fst T2)) as (EP & DP & IP). { rewrite ET, map_app. reflexivity. }
    assert (Lq : q < length g) by (eapply TO; eauto).
    assert (Lp : p < length g). { unfold edge in EP. destruct (Nat.lt_ge_cases p (length g)); auto. rewrite nth_overflow in EP by auto. easy. }
    rewrite (@vget_nth _ _ p 0) by (rewrite (z_len K); auto). cbn [bind]. rewrite vset_lt by (rewrite (z_len K); auto). cbn [bind].
    eexists. split; [reflexivity|]. constructor.
    + rewrite upd_length. apply K.
    + intros x d X D. rewrite map_app, map_app in X. cbn [map fst snd] in X. rewrite nth_upd by (rewrite (z_len K); auto). destruct (Nat.eqb_spec x q) as [->|NE].
      * assert (exists dp, dist g s p dp) as [dp Dp]. { assert (R : reachable g s p) by (apply (proj1 (proj2 LO)); rewrite ET, !map_app; destruct IP as [->|IP]; [now left|right; apply in_or_app; now left]). now apply dist_reach. }
        rewrite (z_dist K (x := p) (d := dp)); auto. { rewrite (dist_fun D (DP dp Dp)). lia. } destruct IP as [->|IP]; auto.
      * apply (z_dist K); auto. destruct X as [X|X]; auto. apply in_app_or in X. destruct X as [X|[X|[]]]; auto. congruence.
    + intros x NS NI. rewrite map_app, map_app in NI. cbn [map fst snd] in NI. assert (x <> q) by (intros ->; apply NI; apply in_or_app; right; now left). rewrite !nth_upd_neq by auto. apply (z_none K); auto. intros I. apply NI. apply in_or_app. now left.
Qed.
Lemma people_nodup cs : NoDup (people cs). Proof. apply first_seen_nodup. Qed.
Lemma people_in cs a : In a (people cs) <-> appears cs a.
Proof.
  unfold people, appears. rewrite (first_seen_in (flat_map (fun c => [fst (fst c); snd c]) cs) a), in_flat_map. split; intros (c & I & J); exists c; (split; [exact I|]); cbn [In] in *; intuition auto.
Qed.
Section Search.
  Variables (W : nat) (srt : list (nat * (nat * string)) -> list (nat * (nat * string))) (srt1 : list nat -> list nat) (cs : list credit) (kb : string).
  Hypothesis HS : is_sort_by fst srt.
  Hypothesis LP : length (people cs) < W.
  Hypothesis LC : 2 * length cs < W.
  Variable es : list (EdgeListModel.edge string).
  Hypothesis ES : Forall2 (fun c e => exists i j, nth_error (people cs) i = Some (fst (fst c)) /\ nth_error (people cs) j = Some (snd c) /\ e = ((i, j), snd (fst c))) cs es.
  Lemma es_iff i j m : In ((i, j), m) es <-> exists a b, In ((a, m), b) cs /\ nth_error (people cs) i = Some a /\ nth_error (people cs) j = Some b.
  Proof.
    revert ES. generalize (people cs) (people_nodup cs). intros v ND F. clear - ND F. induction F as [|c e l l' (x & y & X & Y & ->) _ IH].
    - split; [intros []|intros (a & b & [] & _)].
    - cbn [In]. rewrite IH. destruct c as [[a m'] b]. cbn [fst snd] in *. split.
      + intros [[= <- <- <-]|(a' & b' & I & P & Q)]; [exists a, b; auto|exists a', b'; auto].
      + intros (a' & b' & [[= <- <- <-]|I] & P & Q); [|right; exists a', b'; auto]. left.
        rewrite NoDup_nth_error in ND. assert (x = i) by (apply ND; [apply nth_error_Some; congruence|congruence]). assert (y = j) by (apply ND; [apply nth_error_Some; congruence|congruence]). now subst.
  Qed.
  Lemma kb_ids : ids_ok W es.
  Proof.
    intros [[i j] m] I. apply es_iff in I. destruct I as (a & b & _ & X & Y). unfold esrc, etgt. cbn [fst snd].
    assert (i < length (people cs)) by (apply nth_error_Some; congruence). assert (j < length (people cs)) by (apply nth_error_Some; congruence). lia.
  Qed.
  Definition meet (u v : nat) : Prop := exists m, In ((u, v), m) es \/ In ((v, u), m) es.
  Lemma kb_graph : exists A rows, adjacency_of W srt srt1 false S0 (el_build W 0 es) false = Ok A /\ att_rows A = Ok rows /\ length rows = csr_size A /\
    (forall u v, In v (nth u (map (map fst) rows) []) <-> meet u v) /\ (forall u v, meet u v -> u < csr_size A).
  Proof.
    assert (LE : length es = length cs) by (assert (G2 : forall A B (P : A -> B -> Prop) l l', Forall2 P l l' -> length l' = length l) by (clear; induction 1; cbn; auto); eauto). assert (He := kb_ids).
    destruct (@C03_undirected_csr_exact string W srt srt1 S0 0 es HS ltac:(lia) He ltac:(lia)) as (L & EL & SL & _ & R).
    destruct (@rmap_ex _ _ (csr_row L) (fun u row => Permutation row (spec_row_undirected es u)) (seq 0 (csr_size L))) as (rows & E & F). { intros u I. apply in_seq in I. apply R. lia. }
    destruct (forall2_nth 0 [] F) as [LR K]. rewrite seq_length in LR, K. assert (HW : 0 < W) by lia. destruct (build_card (W := W) es HW He) as (_ & B1 & _). rewrite <- SL in B1.
    assert (BU : forall u v, meet u v -> u < csr_size L) by (intros u v (m & [I|I]); apply B1 in I; unfold esrc, etgt in I; cbn in I; lia).
    exists L, rows. split; auto. split; auto. split; auto. split; auto. intros u v. rewrite nth_map_map. destruct (Nat.lt_ge_cases u (csr_size L)) as [Lu|Lu].
    - specialize (K u Lu). rewrite seq_nth in K by auto. cbn [plus] in K. rewrite in_map_iff. split.
      + intros ([v' m] & Q & I). cbn in Q. subst v'. apply (Permutation_in _ K) in I. unfold spec_row_undirected in I. apply in_flat_map in I. destruct I as ([[i j] m'] & I & J). unfold esrc, etgt, eatt in J. cbn [fst snd] in J.
        apply in_app_or in J. destruct J as [J|J].
        * destruct (Nat.eqb_spec i u) as [Q|Q]; [|easy]. destruct J as [[= <- <-]|[]]. subst u. exists m'. auto.
        * destruct (Nat.eqb_spec j u) as [Q|Q]; [|easy]. destruct J as [[= <- <-]|[]]. subst u. exists m'. auto.
      + intros (m & I). exists (v, m). split; auto. apply (Permutation_in _ (Permutation_sym K)). unfold spec_row_undirected. apply in_flat_map. destruct I as [I|I]; eexists; (split; [exact I|]); unfold esrc, etgt, eatt; cbn [fst snd]; rewrite Nat.eqb_refl; apply in_or_app; [left|right]; now left.
    - rewrite nth_overflow by lia. split; [intros []|]. intros M. specialize (BU _ _ M). lia.
  Qed.
  Lemma meet_names u v : meet u v <-> exists a b m, nth_error (people cs) u = Some a /\ nth_error (people cs) v = Some b /\ (In ((a, m), b) cs \/ In ((b, m), a) cs).
  Proof.
    unfold meet. split.
    - intros (m & [I|I]); apply es_iff in I; destruct I as (a & b & I & X & Y); [exists a, b, m; auto|exists b, a, m; auto].
    - intros (a & b & m & X & Y & [I|I]); exists m; [left|right]; apply es_iff; [exists a, b; auto|exists b, a; auto].
  Qed.
  Lemma steps_walk g b0 : nth_error (people cs) b0 = Some kb -> (forall u v, edge g u v <-> meet u v) ->
    (forall n a u, steps cs kb n a -> nth_error (people cs) u = Some a -> walk g b0 n u) /\
    (forall n u, walk g b0 n u -> exists m a, m <= n /\ nth_error (people cs) u = Some a /\ steps cs kb m a) /\
    (forall u a d, nth_error (people cs) u = Some a -> (dist g b0 u d <-> bacon cs kb a d)).
  Proof.
    intros B E. assert (ND := people_nodup cs). rewrite NoDup_nth_error in ND.
    assert (A1 : forall n a u, steps cs kb n a -> nth_error (people cs) u = Some a -> walk g b0 n u).
    { intros n a u H. revert u. induction H as [|n a a' _ IH (N & m & T)]; intros u U.
      - assert (b0 = u) by (apply ND; [apply nth_error_Some; congruence|congruence]). subst. constructor.
      - assert (IA : In a (people cs)). { apply people_in. destruct T as [T|T]; eexists; (split; [exact T|]); cbn; auto. } apply In_nth_error in IA. destruct IA as [w Ew].
        econstructor; [apply (IH w Ew)|]. apply E, meet_names. exists a, a', m. auto. }
    assert (A2 : forall n u, walk g b0 n u -> exists m a, m <= n /\ nth_error (people cs) u = Some a /\ steps cs kb m a).
    { induction 1 as [|n v u _ IH ED]; [exists 0, kb; split; auto; split; auto; constructor|]. destruct IH as (m & a & L & Ev & ST). apply E, meet_names in ED. destruct ED as (a1 & b1 & mv & X & Y & T).
      assert (a1 = a) by congruence. subst a1. destruct (string_dec a b1) as [->|N]; [exists m, b1; auto|]. exists (S m), b1. split; [lia|]. split; auto. econstructor; [exact ST|]. split; auto. exists mv. exact T. }
    split; auto. split; auto. intros u a d U. split.
    - intros [X Y]. destruct (A2 _ _ X) as (m & a1 & L & U1 & Z). assert (a1 = a) by congruence. subst a1. assert (d <= m) by (apply Y; eauto). replace d with m by lia. split; auto. intros n Q. assert (d <= n) by (apply Y; eauto). lia.
    - intros [X Y]. split; [eauto|]. intros n Q. destruct (A2 _ _ Q) as (m & a1 & L & U1 & Z). assert (a1 = a) by congruence. subst a1. specialize (Y _ Z). lia.
  Qed.
  Lemma kb_search b0 : nth_error (people cs) b0 = Some kb ->
    exists A rows T l c, adjacency_of W srt srt1 false S0 (el_build W 0 es) false = Ok A /\ att_rows A = Ok rows /\ bfs_att_edges rows b0 = Ok T /\
      rfold kb_visit T (repeat 0 (csr_size A)) = Ok l /\ c <= 1 /\ (c = 1 -> exists m, In ((kb, m), kb) cs) /\
      forall u a, nth_error (people cs) u = Some a -> exists d, vget l u = Ok d /\ ((bacon cs kb a (d - c) /\ c <= d) \/ ((forall n, ~ steps cs kb n a) /\ d = 0)).
  Proof.
    intros B. destruct kb_graph as (A & rows & EA & ER & LR & EE & BU). set (g := map (map fst) rows) in *. assert (LG : length g = csr_size A) by (unfold g; rewrite map_length; auto).
    assert (ML : forall u a, nth_error (people cs) u = Some a -> exists v, meet u v).
    { intros u a U. assert (I := nth_error_In _ _ U). apply people_in in I. destruct I as ([[x m] y] & I & Q). cbn [fst snd] in Q.
      assert (IX : In x (people cs)) by (apply people_in; eexists; split; [exact I|]; cbn; auto). assert (IY : In y (people cs)) by (apply people_in; eexists; split; [exact I|]; cbn; auto).
      apply In_nth_error in IX, IY. destruct IX as [i IX], IY as [j IY]. destruct Q as [->| ->]; [exists j|exists i]; apply meet_names; [exists x, y, m|exists y, x, m]; auto. }
    assert (TO : targets_ok g). { intros u v E. apply EE in E. destruct E as (m & E). rewrite LG. apply (BU v u). exists m. tauto. }
    destruct (ML _ _ B) as [v0 M0]. assert (Lb : b0 < length g) by (rewrite LG; eapply BU; eauto).
    assert (IB : In v0 (nth b0 g [])) by (apply EE; auto). destruct (nth b0 g []) as [|w row] eqn:NB; [easy|].
    destruct (@C44_bfs_edge_range g b0 w row TO Lb NB) as (T0 & TR & EB).
    assert (X := bfs_att rows b0). fold g in X. rewrite EB in X. destruct X as (T & ET & MT & IT).
    destruct (@steps_walk g b0 B EE) as (SW & WS & DB).
    assert (FIN : forall T1 l c, tree_order g b0 (map fst T1) -> dist_at g b0 T1 c l -> forall u a, nth_error (people cs) u = Some a -> exists d, vget l u = Ok d /\ ((bacon cs kb a (d - c) /\ c <= d) \/ ((forall n, ~ steps cs kb n a) /\ d = 0))).
    { intros T1 l c TR1 K u a U. destruct (ML _ _ U) as [v M]. assert (Lu : u < length g) by (rewrite LG; eapply BU; eauto). exists (nth u l 0). split; [apply vget_nth; rewrite (z_len K); auto|].
      destruct (in_dec Nat.eq_dec u (b0 :: map snd (map fst T1))) as [I|I].
      - left. assert (R : reachable g b0 u) by (now apply (proj1 (proj2 (proj1 TR1)))). apply dist_reach in R. destruct R as [d D]. rewrite (z_dist K (x := u) (d := d)); auto; [|destruct I; auto]. rewrite Nat.add_sub. split; [now apply (DB u a d U)|lia].
      - right. split. 2:{ apply (z_none K); [intros ->; apply I; now left|intros J; apply I; now right]. } intros n Q. apply I. apply (proj1 (proj2 (proj1 TR1))). exists n. eauto. }
    exists A, rows, T. rewrite <- LG. destruct (Nat.eqb_spec w b0) as [->|NW].
    - destruct T as [|[[x y] k] T]; [discriminate|]. cbn [map fst] in MT. injection MT as -> -> MT. rewrite <- MT in TR. cbn [rfold kb_visit].
      rewrite (@vget_nth _ _ b0 0) by (rewrite repeat_length; auto). cbn [bind]. rewrite nth_zeros. rewrite vset_lt by (rewrite repeat_length; auto). cbn [bind plus].
      destruct (@dist_run g b0 T 1 (upd (repeat 0 (length g)) b0 1)) as (l & E & K); auto.
      { constructor; rewrite ?upd_length, ?repeat_length; auto.
        - intros x d [->|[]] D. rewrite nth_upd_eq by (rewrite repeat_length; auto). assert (d = 0) by (apply (@dist_fun g b0 b0); auto; now apply dist_0). lia.
        - intros x N _. rewrite !nth_upd_neq by auto. now rewrite !nth_zeros. }
      exists l, 1. split; auto. split; auto. split; auto. split; auto. split; auto. split; [|eapply FIN; eauto]. intros _.
      assert (M1 : meet b0 b0) by (apply EE; rewrite NB; now left). apply meet_names in M1. destruct M1 as (a & b & m & P & Q & R). assert (a = kb) by congruence. assert (b = kb) by congruence. subst. exists m. tauto.
    - rewrite <- MT in TR. destruct (@dist_run g b0 T 0 (repeat 0 (length g))) as (l & E & K); auto.
      { constructor; rewrite ?repeat_length; auto.
        - intros x d [->|[]] D. rewrite nth_zeros. assert (d = 0) by (apply (@dist_fun g b0 b0); auto; now apply dist_0). lia.
        - intros. now rewrite !nth_zeros. }
      exists l, 0. split; auto. split; auto. split; auto. split; auto. split; auto. split; [discriminate|eapply FIN; eauto].
  Qed.
End Search.
Lemma kb_main_ok W srt srt1 file ls cs : is_sort_by fst srt -> file_of file ls -> Forall2 says ls cs -> length (people cs) < W -> 2 * length cs < W -> appears cs "Kevin Bacon" ->
  exists out c, kb_main W srt srt1 file = Ok out /\ c <= 1 /\ (c = 1 -> exists m, In (("Kevin Bacon"%string, m), "Kevin Bacon"%string) cs) /\ Sorted slt (map fst out) /\ (forall a, In a (map fst out) <-> appears cs a) /\
    forall a d, In (a, d) out -> (bacon cs "Kevin Bacon" a (d - c) /\ c <= d) \/ ((forall n, ~ steps cs "Kevin Bacon" n a) /\ d = 0).
Proof.
  intros HS FO FS LP LC AP. unfold kb_main. rewrite (read_file W _ FO). cbn [bind]. destruct (kb_built (proj1 FO) FS LP) as [K1 K2 K3 K4]. destruct (fold_left (kb_line W) ls ([], 0, [])) as [[m counter] es]. cbn [fst snd] in *.
  apply people_in in AP. apply In_nth_error in AP. destruct AP as [b0 B].
  destruct (@kb_search W srt srt1 cs "Kevin Bacon" HS LP LC es K4 b0 B) as (A & rows & T & l & c & EA & ER & ET & EV & C1 & CS & FN).
  rewrite EA. cbn [bind]. rewrite (proj2 (do_find K1 _ _) B). rewrite ER. cbn [bind]. rewrite ET. cbn [bind]. rewrite EV. cbn [bind].
  assert (MA := do_all K1). rewrite Forall_forall in MA.
  destruct (@rmap_ex _ _ (fun kv : string * nat => do d <- vget l (snd kv); Ok (fst kv, d)) (fun kv r => fst r = fst kv /\ ((bacon cs "Kevin Bacon" (fst kv) (snd r - c) /\ c <= snd r) \/ ((forall n, ~ steps cs "Kevin Bacon" n (fst kv)) /\ snd r = 0))) m) as (out & EO & FO2).
  { intros kv I. destruct (FN _ _ (MA _ I)) as (d & Ed & H). rewrite Ed. cbn [bind]. eexists. split; [reflexivity|]. cbn [fst snd]. auto. }
  exists out, c. split; auto. split; auto. split; auto. assert (EF : map fst out = map fst m) by (clear - FO2; induction FO2 as [|kv r ? ? [Q _] _ IH]; cbn; congruence).
  rewrite EF. split; auto. split.
  - intros a. rewrite <- people_in, in_map_iff. split.
    + intros (kv & <- & I). apply MA in I. now apply nth_error_In in I.
    + intros I. apply In_nth_error in I. destruct I as [i I]. apply (do_find K1) in I. clear - I. induction m as [|[x w] m IH]; [discriminate|]. cbn [dfind] in I. destruct (String.eqb_spec a x) as [->|]; [exists (x, w); split; auto; now left|]. destruct (IH I) as (kv & Q & J). exists kv. split; auto. now right.
  - intros a d I. clear - FO2 I. induction FO2 as [|kv r ? ? [Q H] _ IH]; [easy|]. destruct I as [->|I]; auto. cbn [fst snd] in *. now subst a.
Qed.
Lemma kb_main_absent W srt srt1 file ls cs : is_sort_by fst srt -> file_of file ls -> Forall2 says ls cs -> length (people cs) < W -> 2 * length cs < W -> ~ appears cs "Kevin Bacon" -> kb_main W srt srt1 file = Ub.
Proof.
  intros HS FO FS LP LC AP. unfold kb_main. rewrite (read_file W _ FO). cbn [bind]. destruct (kb_built (proj1 FO) FS LP) as [K1 K2 K3 K4]. destruct (fold_left (kb_line W) ls ([], 0, [])) as [[m counter] es]. cbn [fst snd] in *.
  destruct (@kb_graph W srt srt1 cs HS LP LC es K4) as (A & rows & EA & _). rewrite EA. cbn [bind]. destruct (dfind m "Kevin Bacon") as [i|] eqn:D; auto. apply (do_find K1) in D. apply nth_error_In in D. now apply people_in in D.
Qed.
