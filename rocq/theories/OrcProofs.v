(** Proofs about examples/imdb/oracle.cpp (OrcModel.v). *)
From Coq Require Import String List Arith Lia Bool Permutation Sorted.
From Verif Require Import Base GraphLib FifoLib SumLib EdgeListModel EdgeListProofs CsrModel CsrProofs CsrProofs2 CsrProofs4 CsrProperties CbProofs
  BfsRangeModel BfsRangeProofs BfsRangeProperties OrcModel.
Import ListNotations.
Set Implicit Arguments.
Local Open Scope nat_scope.

(** ** Specification *)
(** The strings of a list in the order in which they are first seen. *)
Definition see (acc : list string) (x : string) : list string := if existsb (String.eqb x) acc then acc else acc ++ [x].
Definition first_seen (l : list string) : list string := fold_left see l [].
(** Who acts in what, with the links resolved. *)
Definition credits (M : nat) (data : list (string * list string)) : list (string * string) :=
  concat (map (fun m => map (fun link => (fst m, delink M link)) (snd m)) data).
Definition all_titles (data : list (string * list string)) : list string := first_seen (map fst data).
Definition all_names (M : nat) (data : list (string * list string)) : list string := first_seen (map snd (credits M data)).

(** ** The tables of titles and names *)
Lemma existsb_string x l : existsb (String.eqb x) l = true <-> In x l.
Proof. rewrite existsb_exists. split; [intros (y & I & E); apply String.eqb_eq in E; now subst|]. intros I. exists x. split; auto. apply String.eqb_refl. Qed.
Lemma see_in acc x y : In y (see acc x) <-> In y acc \/ y = x.
Proof.
  unfold see. destruct (existsb (String.eqb x) acc) eqn:E.
  - apply existsb_string in E. split; [auto|]. intros [I| ->]; auto.
  - rewrite in_app_iff. simpl. intuition.
Qed.
Lemma see_nodup acc x : NoDup acc -> NoDup (see acc x).
Proof.
  intros ND. unfold see. destruct (existsb (String.eqb x) acc) eqn:E; auto.
  assert (NI : ~ In x acc) by (intros I; apply existsb_string in I; congruence). apply (Permutation_NoDup (l := x :: acc)); [apply Permutation_cons_append|]. now constructor.
Qed.
Lemma first_seen_app l x : first_seen (l ++ [x]) = see (first_seen l) x.
Proof. unfold first_seen. now rewrite fold_left_app. Qed.
Lemma first_seen_in l : forall x, In x (first_seen l) <-> In x l.
Proof. induction l as [|y l IH] using rev_ind; intros x; [reflexivity|]. rewrite first_seen_app, see_in, IH, in_app_iff. simpl. intuition. Qed.
Lemma first_seen_nodup l : NoDup (first_seen l).
Proof. induction l as [|y l IH] using rev_ind; [constructor|]. rewrite first_seen_app. now apply see_nodup. Qed.
Lemma first_seen_hd l : hd_error (first_seen l) = hd_error l.
Proof.
  destruct l as [|x l]; [reflexivity|]. unfold first_seen. cbn [fold_left]. change (see [] x) with [x]. generalize (@nil string) at 1. 
  assert (G : forall l a, hd_error (fold_left see l (x :: a)) = Some x); [|intros l0; apply (G l l0)].
  clear. induction l as [|y l IH]; intros a; [reflexivity|]. cbn [fold_left]. unfold see at 2. destruct (existsb _ _); [apply IH|]. cbn [app]. apply IH.
Qed.

Record dict_ok (m : dict) (v : list string) : Prop := {
  do_find : forall k i, dfind m k = Some i <-> nth_error v i = Some k;
  do_all : Forall (fun kv => nth_error v (snd kv) = Some (fst kv)) m }.
Lemma dfind_none m v k : dict_ok m v -> (dfind m k = None <-> ~ In k v).
Proof.
  intros D. split.
  - intros E I. apply In_nth_error in I. destruct I as [i I]. apply (do_find D) in I. congruence.
  - intros N. destruct (dfind m k) as [i|] eqn:E; auto. apply (do_find D) in E. apply nth_error_In in E. easy.
Qed.
Lemma nth_error_snoc A (v : list A) x i k : nth_error (v ++ [x]) i = Some k <-> nth_error v i = Some k \/ (i = length v /\ k = x).
Proof.
  destruct (Nat.lt_ge_cases i (length v)) as [L|L].
  - rewrite nth_error_app1 by auto. split; [auto|]. intros [H|[-> _]]; auto. lia.
  - rewrite nth_error_app2 by auto. split.
    + intros H. right. destruct (i - length v) as [|n] eqn:E; [|destruct n; discriminate]. cbn in H. injection H as ->. split; auto. lia.
    + intros [H|[-> ->]]; [apply nth_error_None in L; congruence|]. now rewrite Nat.sub_diag.
Qed.
Lemma dict_add m v k : dict_ok m v -> ~ In k v -> dict_ok ((k, length v) :: m) (v ++ [k]).
Proof.
  intros D N. constructor.
  - intros k' i. cbn [dfind]. rewrite nth_error_snoc. destruct (String.eqb_spec k' k) as [->|NE].
    + split; [intros [= <-]; auto|]. intros [H|[-> _]]; auto. apply nth_error_In in H. easy.
    + rewrite (do_find D). split; [auto|]. intros [H|[_ H]]; auto. easy.
  - constructor; [cbn [fst snd]; apply nth_error_snoc; auto|]. eapply Forall_impl; [|apply (do_all D)]. intros kv H. apply nth_error_snoc. auto.
Qed.
Lemma dat_ok m v k : dict_ok m v -> In k v -> nth_error v (dat m k) = Some k.
Proof. intros D I. unfold dat. destruct (dfind m k) as [i|] eqn:E; [now apply (do_find D)|]. now apply (dfind_none k D) in E. Qed.

Record built (W : nat) (s : orc) (ts : list string) (cs : list (string * string)) : Prop := {
  b_titles : o_titles s = first_seen ts;
  b_names : o_names s = first_seen (map snd cs);
  b_tc : o_tc s = length (o_titles s);
  b_nc : o_nc s = length (o_names s);
  b_tmap : dict_ok (o_tmap s) (o_titles s);
  b_nmap : dict_ok (o_nmap s) (o_names s);
  b_edges : Forall2 (fun c e => exists i j, nth_error (o_titles s) i = Some (fst c) /\ nth_error (o_names s) j = Some (snd c) /\ e = ((i mod W, j mod W), tt)) cs (o_edges s) }.
Lemma built_init W : built W orc_init [] [].
Proof.
  assert (D : dict_ok [] []) by (constructor; [intros k [|i]; cbn; split; discriminate|constructor]).
  constructor; auto. constructor.
Qed.
Lemma f2_impl A B (P Q : A -> B -> Prop) l l' : (forall a b, P a b -> Q a b) -> Forall2 P l l' -> Forall2 Q l l'.
Proof. intros H F. induction F; constructor; auto. Qed.
Lemma built_title W s ts cs t : built W s ts cs -> built W (orc_title s t) (ts ++ [t]) cs.
Proof.
  intros [B1 B2 B3 B4 B5 B6 B7]. unfold orc_title. assert (FI := dfind_none t B5). destruct (dfind (o_tmap s) t) as [i|] eqn:E.
  - assert (I : In t (o_titles s)) by (apply (do_find B5), nth_error_In in E; auto).
    constructor; auto. rewrite first_seen_app, <- B1. unfold see. now rewrite (proj2 (existsb_string t (o_titles s)) I).
  - assert (N : ~ In t (o_titles s)) by now apply FI. constructor; cbn [o_titles o_names o_tc o_nc o_tmap o_nmap o_edges]; auto.
    + rewrite first_seen_app, <- B1. unfold see. destruct (existsb _ _) eqn:X; auto. now apply existsb_string in X.
    + rewrite app_length. cbn. lia.
    + rewrite B3. now apply dict_add.
    + eapply f2_impl; [|exact B7]. cbn beta. intros c e (i & j & X & Y & Z). exists i, j. split; [apply nth_error_snoc; auto|auto].
Qed.
Lemma built_cast W M s ts cs t l : built W s ts cs -> In t ts -> built W (orc_cast W M t s l) ts (cs ++ [(t, delink M l)]).
Proof.
  intros [B1 B2 B3 B4 B5 B6 B7] IT. unfold orc_cast. set (n := delink M l). assert (FI := dfind_none n B6).
  assert (IT' : In t (o_titles s)) by (rewrite B1; now apply first_seen_in).
  destruct (dfind (o_nmap s) n) as [i|] eqn:E.
  - assert (I : In n (o_names s)) by (apply (do_find B6), nth_error_In in E; auto).
    constructor; cbn [o_titles o_names o_tc o_nc o_tmap o_nmap o_edges]; auto.
    + rewrite map_app. cbn [map snd]. rewrite first_seen_app, <- B2. unfold see. now rewrite (proj2 (existsb_string n (o_names s)) I).
    + apply Forall2_app; auto. constructor; [|constructor]. exists (dat (o_tmap s) t), (dat (o_nmap s) n). cbn [fst snd]. split; [now apply dat_ok|]. split; [now apply dat_ok|reflexivity].
  - assert (N : ~ In n (o_names s)) by now apply FI. assert (D := dict_add n B6 N). rewrite <- B4 in D.
    constructor; cbn [o_titles o_names o_tc o_nc o_tmap o_nmap o_edges]; auto.
    + rewrite map_app. cbn [map snd]. rewrite first_seen_app, <- B2. unfold see. destruct (existsb _ _) eqn:X; auto. now apply existsb_string in X.
    + rewrite app_length. cbn. lia.
    + apply Forall2_app.
      * eapply f2_impl; [|exact B7]. cbn beta. intros c e (i & j & X & Y & Z). exists i, j. split; auto. split; auto. apply nth_error_snoc. auto.
      * constructor; [|constructor]. exists (dat (o_tmap s) t), (dat ((n, o_nc s) :: o_nmap s) n). cbn [fst snd]. split; [now apply dat_ok|]. split; [|reflexivity].
        apply dat_ok; auto. apply in_or_app. right. now left.
Qed.
Lemma built_movie W M m s ts cs : built W s ts cs -> built W (orc_movie W M s m) (ts ++ [fst m]) (cs ++ map (fun l => (fst m, delink M l)) (snd m)).
Proof.
  intros B. unfold orc_movie. apply (@built_title W s ts cs (fst m)) in B. assert (IT : In (fst m) (ts ++ [fst m])) by (apply in_or_app; right; now left).
  revert B. generalize (orc_title s (fst m)) (ts ++ [fst m]) IT cs. clear. induction (snd m) as [|l ls IH]; intros s ts IT cs B; cbn [fold_left map].
  - now rewrite app_nil_r.
  - replace (cs ++ (fst m, delink M l) :: map (fun l => (fst m, delink M l)) ls) with ((cs ++ [(fst m, delink M l)]) ++ map (fun l => (fst m, delink M l)) ls) by (rewrite <- app_assoc; reflexivity).
    apply IH; auto. now apply built_cast.
Qed.
Lemma built_data W M data : built W (orc_build W M data) (map fst data) (credits M data).
Proof.
  unfold orc_build. assert (G : forall data s ts cs, built W s ts cs -> built W (fold_left (orc_movie W M) data s) (ts ++ map fst data) (cs ++ credits M data)).
  { induction data0 as [|m d IH]; intros s ts cs B; cbn [fold_left map].
    - unfold credits. cbn. now rewrite !app_nil_r.
    - unfold credits. cbn [map concat]. fold (credits M d). replace (ts ++ fst m :: map fst d) with ((ts ++ [fst m]) ++ map fst d) by (rewrite <- app_assoc; reflexivity). rewrite app_assoc.
      apply IH. now apply built_movie. }
  apply (G data orc_init [] []). apply built_init.
Qed.
Lemma no_mismatches m v : dict_ok m v -> orc_mismatches m v = Ok [].
Proof.
  intros D. assert (F := do_all D). unfold orc_mismatches. assert (E : rmap (fun kv : string * nat => do n <- vget v (snd kv); Ok (if String.eqb n (fst kv) then [] else [((n, fst kv), snd kv)])) m = Ok (map (fun _ => []) m)).
  { clear D. induction F as [|kv m H F IH]; [reflexivity|]. cbn [rmap map]. unfold vget at 1. rewrite H. cbn [bind]. rewrite String.eqb_refl. rewrite IH. reflexivity. }
  rewrite E. cbn [bind]. f_equal. clear. induction m; auto.
Qed.
