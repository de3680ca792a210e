From Coq Require Import Ascii String.
From Coq Require Import List Arith ZArith Bool Lia.
From Verif Require Import Base MmModel MmProofs MmfModel.
Import ListNotations.
Set Implicit Arguments.
Local Open Scope char_scope.
Local Open Scope Z_scope.
Local Open Scope list_scope.

(** ** Specification of the text *)
Definition no_nl (t : text) : Prop := Forall (fun c => c <> NL) t.
Definition gap (g : text) : Prop := Forall (fun c => is_space c = true /\ c <> NL) g.
Definition int_ok (z : Z) : Prop := INT_MIN < z <= INT_MAX.
(** A line of the body, two numbers or three, and anything behind that does not go on with a digit. *)
Inductive line_of : bool -> text -> (Z * Z * list Z) -> Prop :=
| line_pair g0 g1 u v rest : gap g0 -> gap g1 -> g1 <> [] -> int_ok u -> int_ok v -> starts_digit rest = false -> no_nl rest ->
    line_of false (g0 ++ print_int u ++ g1 ++ print_int v ++ rest) (u - 1, v - 1, [])
| line_val g0 g1 g2 u v w rest : gap g0 -> gap g1 -> g1 <> [] -> gap g2 -> g2 <> [] -> int_ok u -> int_ok v -> int_ok w ->
    starts_digit rest = false -> no_nl rest ->
    line_of true (g0 ++ print_int u ++ g1 ++ print_int v ++ g2 ++ print_int w ++ rest) (u - 1, v - 1, [w]).
(** [None] is a blank line. *)
Definition body_line (attr : bool) (l : text) (o : option (Z * Z * list Z)) : Prop :=
  match o with Some x => line_of attr l x | None => gap l end.
Definition unlines (ls : list text) : text := concat (map (fun l => l ++ [NL]) ls).

(** What is read from the lines: a blank line is read as the next line that is not. *)
Fixpoint next_entry (attr : bool) (os : list (option (Z * Z * list Z))) : Z * Z * list Z :=
  match os with [] => (-1, -1, if attr then [0] else []) | Some x :: _ => x | None :: os' => next_entry attr os' end.
Fixpoint reading (attr : bool) (os : list (option (Z * Z * list Z))) : list (Z * Z * list Z) :=
  match os with [] => [] | o :: os' => next_entry attr (o :: os') :: reading attr os' end.
Lemma reading_some attr xs : reading attr (map Some xs) = xs.
Proof. induction xs; cbn; congruence. Qed.

Lemma F2_len A B (R : A -> B -> Prop) l k : Forall2 R l k -> List.length l = List.length k.
Proof. induction 1; cbn; auto. Qed.

Lemma skipn_add (A : Type) a b : forall l : list A, skipn a (skipn b l) = skipn (a + b) l.
Proof. induction b as [|b IH]; intros l; [now rewrite Nat.add_0_r|]. rewrite Nat.add_succ_r. destruct l; [now rewrite !skipn_nil|apply IH]. Qed.

(** ** Numbers *)
Lemma eqb_nl c : Ascii.eqb c NL = false <-> c <> NL.
Proof. apply Ascii.eqb_neq. Qed.
Lemma gap_no_nl g : gap g -> no_nl g.
Proof. intros H. eapply Forall_impl; [|exact H]. now intros a [_ Q]. Qed.
Lemma skip_gap g t : gap g -> skip_ws (g ++ t) = skip_ws t.
Proof. induction 1 as [|c g [H _] _ IH]; cbn [app skip_ws]; auto. now rewrite H. Qed.
Lemma gap_ends g t : gap g -> g <> [] -> ends (g ++ t).
Proof.
  intros H N. destruct g as [|c g]; [contradiction|]. inversion H as [|? ? [Q _] _]; subst. unfold ends. cbn.
  destruct (is_digit c) eqn:D; auto. apply digit_plain in D as (D & _). congruence.
Qed.
Lemma print_int_head z t : skip_ws (print_int z ++ t) = print_int z ++ t.
Proof.
  unfold print_int. destruct (Z.ltb_spec z 0); [reflexivity|]. destruct (print_nat_head H) as (c & r & -> & D).
  cbn [app skip_ws]. apply digit_plain in D as (D & _). now rewrite D.
Qed.
(** sign and digits of a printed number *)
Lemma read_print_int z t : ends t -> exists neg t1 v, read_sign (print_int z ++ t) = (neg, t1) /\ starts_digit t1 = true /\ read_digits 0 t1 = (v, t) /\
  z = if neg : bool then - v else v.
Proof.
  intros E. unfold print_int. destruct (Z.ltb_spec z 0) as [N|N].
  - exists true, (print_nat (- z) ++ t), (- z). cbn [app read_sign]. change (Ascii.eqb "-" "-") with true. cbn iota.
    split; auto. destruct (@print_nat_head (- z) ltac:(lia)) as (c & r & Q & D). split; [rewrite Q; cbn; exact D|].
    split; [apply read_print; auto; lia|lia].
  - exists false, (print_nat z ++ t), z. destruct (@print_nat_head z N) as (c & r & Q & D). split; [|split; [|split]]; auto.
    + rewrite Q. cbn [app read_sign]. apply digit_plain in D as (_ & _ & A & B & _). now rewrite A, B.
    + rewrite Q. exact D.
    + apply read_print; auto.
Qed.
Lemma print_int_nonempty z : print_int z <> [].
Proof. unfold print_int. destruct (z <? 0) eqn:E; [discriminate|]. apply Z.ltb_ge in E. destruct (print_nat_head E) as (c & r & -> & _). discriminate. Qed.
Lemma get_int_print g z t : gap g -> int_ok z -> ends t -> get_int (g ++ print_int z ++ t) = (z, t).
Proof.
  intros G [Z1 Z2] E. unfold get_int, strtol. rewrite skip_gap, print_int_head by auto.
  destruct (read_print_int z E) as (neg & t1 & v & R & S & D & Q). rewrite R, S, D, <- Q. f_equal.
  unfold to_int, LONG_MAX, LONG_MIN, INT_MIN, INT_MAX in *. rewrite Z.min_r, Z.max_r by lia. rewrite Z.mod_small by lia. lia.
Qed.
Lemma scan_d_print g z t : Forall (fun c => is_space c = true) g -> int_ok z -> ends t -> scan_d (g ++ print_int z ++ t) = Ok (ScanInt z t).
Proof.
  intros G [Z1 Z2] E. unfold scan_d. assert (K : skip_ws (g ++ print_int z ++ t) = print_int z ++ t).
  { induction G as [|c g H _ IH]; cbn [app skip_ws]; [apply print_int_head|]. now rewrite H. }
  rewrite K. destruct (print_int z ++ t) eqn:Q.
  { destruct (print_int z) eqn:P; [now apply print_int_nonempty in P|discriminate]. }
  rewrite <- Q. destruct (read_print_int z E) as (neg & t1 & v & R & S & D & V). rewrite R, S, D, <- V.
  replace (INT_MIN <=? z) with true by (symmetry; apply Z.leb_le; lia). replace (z <=? INT_MAX) with true by (symmetry; apply Z.leb_le; lia). reflexivity.
Qed.
Lemma dec_int_ok z : int_ok z -> dec_int z = Ok (z - 1).
Proof. intros [H _]. unfold dec_int. destruct (Z.eqb_spec z INT_MIN); [lia|auto]. Qed.

(** ** One line *)
Definition deref_text (attr : bool) (t : text) : res (Z * Z * list Z) :=
  let (a, t1) := get_int t in do u <- dec_int a ; let (b, t2) := get_int t1 in do v <- dec_int b ;
  Ok (u, v, if attr then [fst (get_int t2)] else []).
Lemma deref_text_eq attr base o : (o <= List.length base)%nat -> mm_deref attr base o = deref_text attr (skipn o base).
Proof. intros H. unfold mm_deref. now replace (List.length base <? o)%nat with false by (symmetry; apply Nat.ltb_ge; auto). Qed.
Lemma starts_app_nl rest t : starts_digit rest = false -> ends (rest ++ NL :: t).
Proof. destruct rest; [reflexivity|auto]. Qed.
Lemma deref_line attr l x t : line_of attr l x -> deref_text attr (l ++ NL :: t) = Ok x.
Proof.
  intros H. destruct H; unfold deref_text; repeat rewrite <- app_assoc.
  - rewrite get_int_print; auto; [|now apply gap_ends]. rewrite dec_int_ok by auto. cbn [bind].
    rewrite get_int_print; auto; [|now apply starts_app_nl]. rewrite dec_int_ok by auto. reflexivity.
  - rewrite get_int_print; auto; [|now apply gap_ends]. rewrite dec_int_ok by auto. cbn [bind].
    rewrite get_int_print; auto; [|now apply gap_ends]. rewrite dec_int_ok by auto. cbn [bind].
    rewrite get_int_print by (auto using starts_app_nl). reflexivity.
Qed.
Lemma deref_ws attr t t' : skip_ws t = skip_ws t' -> deref_text attr t = deref_text attr t'.
Proof.
  intros E. unfold deref_text, get_int, strtol. rewrite E. destruct (read_sign (skip_ws t')) as [neg t1] eqn:R.
  destruct (starts_digit t1) eqn:S.
  - destruct (read_digits 0 t1) as [v t2]. reflexivity.
  - rewrite E, R, S. destruct (dec_int (to_int 0)); cbn [bind]; auto. destruct attr; auto. do 3 f_equal. cbn. rewrite E, R, S. reflexivity.
Qed.
Lemma deref_lines attr : forall ls os, Forall2 (body_line attr) ls os -> deref_text attr (unlines ls) = Ok (next_entry attr os).
Proof.
  induction 1 as [|l o ls os H _ IH].
  - destruct attr; reflexivity.
  - unfold unlines. cbn [map concat]. fold (unlines ls). rewrite <- app_assoc. cbn [app]. destruct o as [x|]; cbn [next_entry body_line] in *.
    + now apply deref_line.
    + rewrite <- IH. apply deref_ws. rewrite skip_gap by auto. reflexivity.
Qed.
Lemma line_no_nl attr l x : line_of attr l x -> no_nl l.
Proof.
  assert (P : forall z, no_nl (print_int z)) by (intros z; eapply Forall_impl; [|apply print_no_nl]; intros c; apply eqb_nl).
  destruct 1; repeat (apply Forall_app; split); auto; try apply P; now apply gap_no_nl.
Qed.
Lemma body_no_nl attr ls os : Forall2 (body_line attr) ls os -> Forall no_nl ls.
Proof. induction 1 as [|l [x|] ls os H _ IH]; constructor; auto; [eapply line_no_nl; eauto|now apply gap_no_nl]. Qed.

(** ** Places where a line starts *)
Lemma find_nl_app l t : no_nl l -> find_nl (l ++ NL :: t) = Some (List.length l).
Proof.
  induction 1 as [|c l H _ IH]; cbn [app find_nl List.length]; [reflexivity|].
  apply eqb_nl in H. rewrite H, IH. reflexivity.
Qed.
Section Body.
  Variable hdr : text.
  Variable ls : list text.
  Hypothesis NN : Forall no_nl ls.
  Let base := hdr ++ unlines ls.
  Definition off (k : nat) : nat := (List.length hdr + List.length (unlines (firstn k ls)))%nat.

  Lemma unlines_app a b : unlines (a ++ b) = unlines a ++ unlines b.
  Proof. clear. unfold unlines. now rewrite map_app, concat_app. Qed.
  Lemma base_split k : base = (hdr ++ unlines (firstn k ls)) ++ unlines (skipn k ls).
  Proof. unfold base. rewrite <- app_assoc, <- unlines_app, firstn_skipn. reflexivity. Qed.
  Lemma off_len k : (off k <= List.length base)%nat.
  Proof. rewrite (base_split k). unfold off. rewrite !app_length. lia. Qed.
  Lemma skipn_off k : skipn (off k) base = unlines (skipn k ls).
  Proof. rewrite (base_split k). replace (off k) with (List.length (hdr ++ unlines (firstn k ls))) by (unfold off; now rewrite app_length).
    rewrite skipn_app, Nat.sub_diag, skipn_all2 by lia. reflexivity. Qed.
  Lemma off_0 : off 0 = List.length hdr.
  Proof. unfold off. cbn. lia. Qed.
  Lemma off_end k : (List.length ls <= k)%nat -> off k = List.length base.
  Proof. intros H. unfold off. rewrite firstn_all2 by auto. unfold base. rewrite app_length. reflexivity. Qed.
  Lemma off_S k l : nth_error ls k = Some l -> off (S k) = (off k + List.length l + 1)%nat.
  Proof.
    intros H. unfold off. assert (E : firstn (S k) ls = firstn k ls ++ [l]).
    { clear -H. revert k H. induction ls as [|x xs IH]; intros [|k] H; cbn in *; try discriminate; [congruence|]. f_equal. now apply IH. }
    rewrite E, unlines_app, app_length. unfold unlines at 2. cbn [map concat]. rewrite app_nil_r, app_length. cbn [List.length]. lia.
  Qed.
  Lemma off_mono a b : (a <= b)%nat -> (off a <= off b)%nat.
  Proof.
    induction 1 as [|b H IH]; auto. destruct (nth_error ls b) as [l|] eqn:E; [rewrite (off_S b E); lia|].
    apply nth_error_None in E. rewrite (off_end E) in IH. rewrite (off_end (k := S b)) by lia. auto.
  Qed.
  Lemma off_lt a b : (a < b)%nat -> (b <= List.length ls)%nat -> (off a < off b)%nat.
  Proof.
    intros H Hb. destruct (nth_error ls a) as [l|] eqn:E; [|apply nth_error_None in E; lia].
    assert (Q := off_S a E). assert (M := @off_mono (S a) b H). lia.
  Qed.
  Lemma skipn_cons k l : nth_error ls k = Some l -> skipn k ls = l :: skipn (S k) ls.
  Proof. clear. revert k. induction ls as [|x xs IH]; intros [|k] H; cbn in *; try discriminate; [congruence|now apply IH]. Qed.
  Lemma next_off k : (k < List.length ls)%nat -> mm_next base (off k) = Ok (off (S k)).
  Proof.
    intros H. destruct (nth_error ls k) as [l|] eqn:E; [|apply nth_error_None in E; lia].
    unfold mm_next. replace (List.length base <? off k)%nat with false by (symmetry; apply Nat.ltb_ge, off_len).
    rewrite skipn_off, (skipn_cons k E). unfold unlines. cbn [map concat]. rewrite <- app_assoc. cbn [app].
    rewrite find_nl_app by (eapply Forall_forall in NN; [exact NN|eapply nth_error_In; eauto]). now rewrite (off_S k E).
  Qed.

  (** reading a range *)
  Lemma run_off attr os : Forall2 (body_line attr) ls os -> forall d fuel a b, b = (a + d)%nat -> (b <= List.length ls)%nat -> (d <= fuel)%nat ->
    mm_run fuel attr base (off a) (off b) = Ok (firstn d (skipn a (reading attr os))).
  Proof.
    intros F. induction d as [|d IH]; intros fuel a b -> Hb Hf.
    - rewrite Nat.add_0_r. destruct fuel; cbn [mm_run]; rewrite Nat.eqb_refl; auto.
    - destruct fuel as [|fuel]; [lia|]. cbn [mm_run]. assert (L := @off_lt a (a + S d) ltac:(lia) Hb).
      replace (off a =? off (a + S d))%nat with false by (symmetry; apply Nat.eqb_neq; lia).
      rewrite deref_text_eq by apply off_len. rewrite skipn_off.
      assert (F' : Forall2 (body_line attr) (skipn a ls) (skipn a os)).
      { clear -F. revert a. induction F; intros [|a]; cbn; auto. }
      rewrite (deref_lines F'). cbn [bind]. rewrite next_off by lia. cbn [bind].
      rewrite (IH fuel (S a) (a + S d)%nat) by lia. cbn [bind].
      assert (La : (a < List.length os)%nat) by (apply F2_len in F; lia).
      assert (R : skipn a (reading attr os) = next_entry attr (skipn a os) :: skipn (S a) (reading attr os)).
      { clear -La. revert a La. induction os as [|o os IH]; intros [|a] La; cbn [List.length] in La; try lia; [reflexivity|].
        cbn [reading skipn]. rewrite IH by lia. destruct os; [cbn in *; lia|reflexivity]. }
      rewrite R. reflexivity.
  Qed.

  (** a place in the body right behind a newline *)
  Definition is_start (r : nat) : Prop := (List.length hdr <= r <= List.length base)%nat /\ (r = List.length hdr \/ nth_error base (r - 1) = Some NL).
  Lemma nth_line k l i : nth_error ls k = Some l -> (i <= List.length l)%nat -> nth_error base (off k + i) = Some (nth i (l ++ [NL]) NL).
  Proof.
    intros H Hi. rewrite (base_split k). rewrite nth_error_app2 by (unfold off; rewrite app_length; lia).
    replace (off k + i - List.length (hdr ++ unlines (firstn k ls)))%nat with i by (unfold off; rewrite app_length; lia).
    rewrite (skipn_cons k H). unfold unlines. cbn [map concat]. rewrite nth_error_app1 by (rewrite app_length; cbn; lia).
    apply nth_error_nth'. rewrite app_length; cbn; lia.
  Qed.
  Lemma start_off r : is_start r -> exists k, (k <= List.length ls)%nat /\ r = off k.
  Proof.
    intros [[H1 H2] H3]. destruct H3 as [->|H3]; [exists 0%nat; split; [lia|now rewrite off_0]|].
    assert (G : forall m k, (k + m = List.length ls)%nat -> (off k <= r)%nat -> exists k', (k' <= List.length ls)%nat /\ r = off k').
    { induction m as [|m IH]; intros k E Hk.
      - exists k. split; [lia|]. assert (Q := @off_end k ltac:(lia)). lia.
      - destruct (nth_error ls k) as [l|] eqn:N; [|apply nth_error_None in N; lia].
        destruct (Nat.eq_dec r (off k)) as [->|D]; [exists k; split; [lia|auto]|].
        apply (IH (S k)); [lia|]. rewrite (off_S k N). destruct (le_lt_dec (off k + List.length l + 1) r); auto. exfalso.
        assert (Q := @nth_line k l (r - 1 - off k) N ltac:(lia)). replace (off k + (r - 1 - off k))%nat with (r - 1)%nat in Q by lia.
        rewrite H3 in Q. inversion Q as [Q']. rewrite app_nth1 in Q' by lia.
        eapply Forall_forall in NN; [|eapply nth_error_In; eauto]. unfold no_nl in NN. rewrite Forall_forall in NN.
        apply (NN NL); auto. rewrite Q' at 1. apply nth_In. lia. }
    apply (G (List.length ls) 0%nat); [lia|rewrite off_0; lia].
  Qed.

  Lemma at_back_ok i a : i = List.length hdr -> (0 < i)%nat -> (i <= S a)%nat -> (a < List.length base)%nat ->
    exists r, at_back base i a = Ok r /\ is_start r /\ (r <= S a)%nat /\ forall p, (r <= p <= a)%nat -> nth_error base p <> Some NL.
  Proof.
    intros -> Hi. induction a as [|a IH]; intros Ha Hl; cbn [at_back].
    - replace (List.length hdr <=? 0)%nat with false by (symmetry; apply Nat.leb_gt; lia). exists 1%nat. split; auto.
      split; [|split; [lia|intros; lia]]. split; [lia|left; lia].
    - destruct (Nat.leb_spec (List.length hdr) (S a)) as [L|L].
      + destruct (nth_error base (S a)) as [c|] eqn:N; [|apply nth_error_None in N; lia].
        assert (V : vget base (S a) = Ok c) by (unfold vget; now rewrite N). rewrite V. cbn [bind].
        destruct (Ascii.eqb_spec c NL) as [->|D].
        * exists (S (S a)). split; auto. split; [split; [lia|right; now rewrite Nat.sub_succ, Nat.sub_0_r]|]. split; [lia|]. intros; lia.
        * destruct (IH L ltac:(lia)) as (r & E & S & B & P). exists r. split; auto. split; auto. split; [lia|].
          intros p Hp. destruct (Nat.eq_dec p (Datatypes.S a)) as [->|]; [congruence|apply P; lia].
      + exists (S (S a)). split; auto. split; [|split; [lia|intros; lia]]. split; [lia|left; lia].
  Qed.
End Body.

(** ** at and edges *)
Definition good_apx (apx : nat -> nat -> nat -> nat -> nat) (nnz i e : nat) : Prop :=
  (forall j, (0 < j < nnz)%nat -> (i <= apx j nnz i e < e)%nat) /\
  (forall j k, (0 < j)%nat -> (j <= k < nnz)%nat -> (apx j nnz i e <= apx k nnz i e)%nat).

Record file_is (f : mmfile) (hdr : text) (ls : list text) (nnz : nat) : Prop := {
  fi_base : mf_base f = hdr ++ unlines ls;
  fi_i : mf_i f = List.length hdr;
  fi_pos : (0 < List.length hdr)%nat;
  fi_nnz : mf_nnz f = Z.of_nat nnz }.

Section At.
  Variable apx : nat -> nat -> nat -> nat -> nat.
  Variable f : mmfile.
  Variable hdr : text.
  Variable ls : list text.
  Variable nnz : nat.
  Hypothesis FI : file_is f hdr ls nnz.
  Hypothesis NN : Forall no_nl ls.
  Hypothesis GA : good_apx apx nnz (mf_i f) (mf_e f).

  Lemma mf_e_eq : mf_e f = List.length (hdr ++ unlines ls).
  Proof. unfold mf_e. now rewrite (fi_base FI). Qed.
  Lemma at_0 : mm_at apx f 0 = Ok (off hdr ls 0).
  Proof. unfold mm_at. cbn. rewrite off_0. now rewrite (fi_i FI). Qed.
  Lemma at_nnz : (0 < nnz)%nat -> mm_at apx f nnz = Ok (off hdr ls (List.length ls)).
  Proof.
    intros H. unfold mm_at. replace (nnz =? 0)%nat with false by (symmetry; apply Nat.eqb_neq; lia). rewrite (fi_nnz FI), Z.eqb_refl.
    rewrite (@off_end hdr ls (List.length ls)) by lia. unfold mf_e. now rewrite (fi_base FI).
  Qed.
  Lemma at_ok j : (j <= nnz)%nat -> exists k, (k <= List.length ls)%nat /\ mm_at apx f j = Ok (off hdr ls k).
  Proof.
    intros H. destruct (Nat.eq_dec j 0) as [->|J]; [exists 0%nat; split; [lia|apply at_0]|].
    destruct (Nat.eq_dec j nnz) as [->|J']; [exists (List.length ls); split; [lia|apply at_nnz; lia]|].
    destruct GA as [G1 G2]. destruct (G1 j ltac:(lia)) as [L U]. rewrite mf_e_eq in U at 2.
    destruct (@at_back_ok hdr ls (mf_i f) _ (fi_i FI) ltac:(rewrite (fi_i FI); apply (fi_pos FI)) ltac:(apply le_S, L) U) as (r & E & S & _).
    destruct (@start_off hdr ls NN r S) as (k & Hk & ->). exists k. split; auto. unfold mm_at.
    replace (j =? 0)%nat with false by (symmetry; apply Nat.eqb_neq; lia). rewrite (fi_nnz FI).
    replace (Z.of_nat j =? Z.of_nat nnz) with false by (symmetry; apply Z.eqb_neq; lia). rewrite Nat2Z.id, (fi_base FI). exact E.
  Qed.
  Lemma at_mono j k a b : (j <= k <= nnz)%nat -> (a <= List.length ls)%nat -> (b <= List.length ls)%nat ->
    mm_at apx f j = Ok (off hdr ls a) -> mm_at apx f k = Ok (off hdr ls b) -> (a <= b)%nat.
  Proof.
    intros H Ha Hb Ej Ek. destruct (le_lt_dec a b) as [|L]; auto. exfalso. assert (Q := @off_lt hdr ls b (a) L Ha).
    destruct (Nat.eq_dec k nnz) as [->|K].
    { destruct (Nat.eq_dec nnz 0) as [Z|Z]; [|rewrite at_nnz in Ek by lia; inversion Ek; assert (M := @off_mono hdr ls _ _ Ha); lia].
      assert (j = 0)%nat by lia. subst. rewrite Ej in Ek. inversion Ek. lia. }
    destruct (Nat.eq_dec j 0) as [->|J].
    { rewrite at_0 in Ej. inversion Ej as [M]. assert (M' := @off_mono hdr ls 0 (b) ltac:(lia)). lia. }
    destruct GA as [G1 G2]. destruct (G1 j ltac:(lia)) as [Lj Uj], (G1 k ltac:(lia)) as [Lk Uk]. assert (M := G2 j k ltac:(lia) ltac:(lia)).
    rewrite mf_e_eq in Uj at 2. rewrite mf_e_eq in Uk at 2. unfold mm_at in Ej, Ek.
    replace (j =? 0)%nat with false in Ej by (symmetry; apply Nat.eqb_neq; lia). replace (k =? 0)%nat with false in Ek by (symmetry; apply Nat.eqb_neq; lia).
    rewrite (fi_nnz FI) in Ej, Ek.
    replace (Z.of_nat j =? Z.of_nat nnz) with false in Ej by (symmetry; apply Z.eqb_neq; lia).
    replace (Z.of_nat k =? Z.of_nat nnz) with false in Ek by (symmetry; apply Z.eqb_neq; lia). rewrite Nat2Z.id, (fi_base FI) in Ej, Ek.
    assert (P := fi_pos FI). assert (I := fi_i FI).
    destruct (@at_back_ok hdr ls (mf_i f) _ I ltac:(lia) ltac:(apply le_S, Lj) Uj) as (r & E & [S1 S2] & B & _).
    destruct (@at_back_ok hdr ls (mf_i f) _ I ltac:(lia) ltac:(apply le_S, Lk) Uk) as (r' & E' & [S1' _] & B' & N').
    rewrite Ej in E. rewrite Ek in E'. inversion E; inversion E'; subst r r'.
    destruct S2 as [S2|S2]; [lia|]. apply (N' (off hdr ls a - 1)%nat); auto. lia.
  Qed.

  Lemma edges_ok attr os : Forall2 (body_line attr) ls os -> forall j k a b, (j <= k <= nnz)%nat -> (a <= List.length ls)%nat -> (b <= List.length ls)%nat ->
    mm_at apx f j = Ok (off hdr ls a) -> mm_at apx f k = Ok (off hdr ls b) -> mm_edges apx attr f j k = Ok (firstn (b - a) (skipn a (reading attr os))).
  Proof.
    intros F j k a b H Ha Hb Ej Ek. assert (L := at_mono H Ha Hb Ej Ek). unfold mm_edges. rewrite Ej, Ek. cbn [bind].
    rewrite (fi_base FI). apply run_off; auto; [lia|]. unfold mf_e. rewrite (fi_base FI), app_length.
    assert (Q : (List.length ls <= List.length (unlines ls))%nat).
    { clear. unfold unlines. induction ls as [|l r IH]; cbn; auto. rewrite !app_length. cbn. lia. }
    lia.
  Qed.

  (** [bounds]: the ends of consecutive pieces. *)
  Inductive bounds : nat -> list nat -> Prop :=
  | bounds_last j : j = nnz -> bounds j []
  | bounds_cons j k js : (j <= k)%nat -> bounds k js -> bounds j (k :: js).
  Lemma bounds_le j js : bounds j js -> (j <= nnz)%nat.
  Proof. induction 1; lia. Qed.
  Lemma pieces_ok attr os : Forall2 (body_line attr) ls os -> (0 < nnz)%nat -> forall j js, bounds j js -> forall a, (a <= List.length ls)%nat ->
    mm_at apx f j = Ok (off hdr ls a) ->
    exists parts, rmap (fun p => mm_edges apx attr f (fst p) (snd p)) (combine (j :: js) js) = Ok parts /\
      concat parts = skipn a (reading attr os).
  Proof.
    intros F P. induction 1 as [j E|j k js L B IH]; intros a Ha Ej.
    - subst j. rewrite at_nnz in Ej by auto. inversion Ej as [Q]. exists []. split; [reflexivity|]. cbn.
      assert (A : a = List.length ls).
      { destruct (Nat.eq_dec a (List.length ls)); auto. assert (M := @off_lt hdr ls a (List.length ls) ltac:(lia) ltac:(lia)). lia. }
      symmetry. apply skipn_all2. assert (R : List.length (reading attr os) = List.length os) by (clear; induction os; cbn; auto).
      rewrite R. apply F2_len in F. lia.
    - assert (K := bounds_le B). destruct (at_ok K) as (b & Hb & Ek). destruct (IH b Hb Ek) as (parts & E & C).
      assert (M := at_mono (conj L K) Ha Hb Ej Ek).
      exists (firstn (b - a) (skipn a (reading attr os)) :: parts). change (combine (j :: k :: js) (k :: js)) with ((j, k) :: combine (k :: js) js). cbn [rmap fst snd].
      rewrite (edges_ok F (conj L K) Ha Hb Ej Ek). cbn [bind]. rewrite E. cbn [bind].
      split; auto. cbn [concat]. rewrite C. rewrite <- (firstn_skipn (b - a) (skipn a (reading attr os))) at 2. f_equal.
      rewrite skipn_add. f_equal. lia.
  Qed.
End At.

(** ** The header *)
Definition word (w : text) : Prop := w <> [] /\ Forall (fun c => is_space c = false) w.
Definition data_codes : list (text * ascii) := [(txt "real", "R"); (txt "complex", "C"); (txt "pattern", "P"); (txt "integer", "I")].
Definition sym_codes : list (text * ascii) := [(txt "general", "G"); (txt "symmetric", "S"); (txt "hermitian", "H"); (txt "skew-symmetric", "K")].
Definition crd_codes : list (text * ascii) := [(txt "coordinate", "C"); (txt "array", "A")].
(** Five words; the first only has to start with the magic string, the others may be in any case. *)
Inductive banner_of : text -> typecode -> Prop :=
| banner_intro w0 g1 w1 g2 w2 g3 w3 g4 w4 tail a b c :
    Forall word [w0; w1; w2; w3; w4] -> Forall (fun g => gap g /\ g <> []) [g1; g2; g3; g4] ->
    firstn 14 w0 = txt "%%MatrixMarket" -> (List.length w0 < TOKEN)%nat -> map tolower w1 = txt "matrix" ->
    In (map tolower w2, a) crd_codes -> In (map tolower w3, b) data_codes -> In (map tolower w4, c) sym_codes ->
    no_nl tail -> (tail = [] \/ exists x r, tail = x :: r /\ is_space x = true) ->
    banner_of (w0 ++ g1 ++ w1 ++ g2 ++ w2 ++ g3 ++ w3 ++ g4 ++ w4 ++ tail) {| tc_crd := a; tc_data := b; tc_sym := c |}.
Definition comment_ok (c : text) : Prop := no_nl c /\ (S (List.length c) < LINE)%nat.
(** The line with the sizes, [rest] behind them. *)
Inductive sizes_of : text -> Z -> Z -> Z -> text -> Prop :=
| sizes_intro g0 n g1 m g2 nnz rest : gap g0 -> gap g1 -> g1 <> [] -> gap g2 -> g2 <> [] -> int_ok n -> int_ok m -> int_ok nnz ->
    starts_digit rest = false -> no_nl rest ->
    sizes_of (g0 ++ print_int n ++ g1 ++ print_int m ++ g2 ++ print_int nnz ++ rest) n m nnz rest.

Lemma take_word_app w t : Forall (fun c => is_space c = false) w -> (t = [] \/ exists x r, t = x :: r /\ is_space x = true) -> take_word (w ++ t) = (w, t).
Proof.
  induction 1 as [|c w H _ IH]; intros T; cbn [app take_word].
  - destruct T as [->|(x & r & -> & Hx)]; cbn [take_word]; [auto|now rewrite Hx].
  - rewrite H, IH by auto. reflexivity.
Qed.
Lemma skip_word g w t : gap g -> word w -> skip_ws (g ++ w ++ t) = w ++ t.
Proof.
  intros G [N F]. rewrite skip_gap by auto. destruct w as [|c w]; [contradiction|]. inversion F; subst. cbn [app skip_ws]. now rewrite H1.
Qed.
Lemma gap_space g t : gap g -> g <> [] -> g ++ t = [] \/ exists x r, g ++ t = x :: r /\ is_space x = true.
Proof. intros G N. destruct g as [|c g]; [contradiction|]. inversion G as [|? ? [Q _] _]; subst. right. cbn. eauto. Qed.
Lemma words_step k g w t : gap g -> word w -> (t = [] \/ exists x r, t = x :: r /\ is_space x = true) -> words (S k) (g ++ w ++ t) = w :: words k t.
Proof. intros G Hw T. cbn [words]. rewrite skip_word by auto. destruct Hw as [_ F]. now rewrite take_word_app. Qed.

Lemma text_eqb_eq a b : text_eqb a b = true <-> a = b.
Proof.
  revert b. induction a as [|x a IH]; intros [|y b]; cbn [text_eqb]; split; intros H; try discriminate; auto.
  - apply andb_true_iff in H as [H1 H2]. apply Ascii.eqb_eq in H1. apply IH in H2. congruence.
  - inversion H; subst. apply andb_true_iff. split; [apply Ascii.eqb_refl|now apply IH].
Qed.
Lemma code2_ok w a : In (w, a) crd_codes -> code2 w = Some a.
Proof. intros H. cbn [crd_codes In] in H. repeat (destruct H as [H|H]; [inversion H; subst; reflexivity|]). contradiction. Qed.
Lemma code3_ok w a : In (w, a) data_codes -> code3 w = Some a.
Proof. intros H. cbn [data_codes In] in H. repeat (destruct H as [H|H]; [inversion H; subst; reflexivity|]). contradiction. Qed.
Lemma code4_ok w a : In (w, a) sym_codes -> code4 w = Some a.
Proof. intros H. cbn [sym_codes In] in H. repeat (destruct H as [H|H]; [inversion H; subst; reflexivity|]). contradiction. Qed.
Lemma code_len l w (a : ascii) : In (map tolower w, a) l -> Forall (fun p => (List.length (fst p) < TOKEN)%nat) l -> (List.length w < TOKEN)%nat.
Proof. intros H F. eapply Forall_forall in F; eauto. cbn [fst] in F. now rewrite map_length in F. Qed.

Lemma fgets_app : forall n l t, no_nl l -> (List.length l < n)%nat -> fgets n (l ++ NL :: t) = (l ++ [NL], t).
Proof.
  induction n as [|n IH]; intros l t N L; [lia|]. destruct l as [|c l]; cbn [app fgets]; [reflexivity|].
  inversion N; subst. apply eqb_nl in H1. rewrite H1. rewrite IH; auto. cbn in L. lia.
Qed.
Lemma fgets_full : forall n l t, no_nl l -> List.length l = n -> fgets n (l ++ t) = (l, t).
Proof.
  induction n as [|n IH]; intros l t N L; destruct l as [|c l]; try discriminate; [destruct t; reflexivity|]. cbn [app fgets].
  inversion N; subst. apply eqb_nl in H1. rewrite H1. rewrite IH; auto.
Qed.
Lemma fgets_LINE l t : no_nl l -> (List.length l < LINE)%nat -> fgets LINE (l ++ NL :: t) = (l ++ [NL], t).
Proof. apply fgets_app. Qed.
Opaque LINE.

Lemma banner_ok ban tc t : banner_of ban tc -> (List.length ban < LINE)%nat -> mm_read_banner (ban ++ NL :: t) = Ok (Some (tc, t)).
Proof.
  intros B HL. assert (NB : no_nl ban).
  { destruct B. repeat match goal with H : Forall _ (_ :: _) |- _ => inversion H; clear H; subst end.
    assert (WN : forall w, word w -> no_nl w).
    { intros w [_ F]. eapply Forall_impl; [|exact F]. intros x Hx ->. discriminate. }
    repeat match goal with H : gap _ /\ _ |- _ => destruct H end.
    repeat (apply Forall_app; split); first [now apply WN|now apply gap_no_nl|exact H7]. }
  unfold mm_read_banner. destruct (ban ++ NL :: t) as [|x0 l0] eqn:Q; [destruct ban; discriminate|]. rewrite <- Q. clear Q x0 l0.
  rewrite fgets_LINE by auto. destruct B as [w0 g1 w1 g2 w2 g3 w3 g4 w4 tail a b c W G H0 HL0 H1 H2 H3 H4 NT T].
  inversion W as [|? ? W0 Wa]; subst. inversion Wa as [|? ? W1 Wb]; subst. inversion Wb as [|? ? W2 Wc]; subst. inversion Wc as [|? ? W3 Wd]; subst. inversion Wd as [|? ? W4 _]; subst. clear W Wa Wb Wc Wd.
  inversion G as [|? ? [G1 G1'] Ga]; subst. inversion Ga as [|? ? [G2 G2'] Gb]; subst. inversion Gb as [|? ? [G3 G3'] Gc]; subst. inversion Gc as [|? ? [G4 G4'] _]; subst. clear G Ga Gb Gc.
  assert (E : words 5 ((w0 ++ g1 ++ w1 ++ g2 ++ w2 ++ g3 ++ w3 ++ g4 ++ w4 ++ tail) ++ [NL]) = [w0; w1; w2; w3; w4]).
  { repeat rewrite <- app_assoc. change (w0 ++ ?x) with ([] ++ w0 ++ x).
    rewrite (@words_step 4 [] w0) by (auto using gap_space; constructor).
    rewrite (@words_step 3 g1 w1) by (auto using gap_space). rewrite (@words_step 2 g2 w2) by (auto using gap_space).
    rewrite (@words_step 1 g3 w3) by (auto using gap_space). rewrite (@words_step 0 g4 w4); auto.
    right. destruct T as [->|(x & r & -> & Hx)]; cbn [app]; eauto. }
  rewrite E.
  assert (L1 : (List.length w1 < TOKEN)%nat) by (rewrite <- (map_length tolower), H1; unfold TOKEN; cbn; lia).
  assert (L2 := @code_len _ _ _ H2 ltac:(repeat constructor; unfold TOKEN; cbn; lia)). assert (L3 := @code_len _ _ _ H3 ltac:(repeat constructor; unfold TOKEN; cbn; lia)).
  assert (L4 := @code_len _ _ _ H4 ltac:(repeat constructor; unfold TOKEN; cbn; lia)).
  cbn [existsb]. rewrite (proj2 (Nat.leb_gt TOKEN (List.length w0)) HL0), (proj2 (Nat.leb_gt TOKEN (List.length w1)) L1), (proj2 (Nat.leb_gt TOKEN (List.length w2)) L2),
    (proj2 (Nat.leb_gt TOKEN (List.length w3)) L3), (proj2 (Nat.leb_gt TOKEN (List.length w4)) L4). cbn [orb].
  assert (P : forall w, word w -> (List.length w =? 0)%nat = false) by (intros w [N _]; destruct w; [contradiction|reflexivity]).
  rewrite !P by auto. cbn [orb]. rewrite H0, H1. rewrite (proj2 (text_eqb_eq _ _) eq_refl), (proj2 (text_eqb_eq _ _) eq_refl). cbn [negb].
  now rewrite (@code2_ok _ _ H2), (@code3_ok _ _ H3), (@code4_ok _ _ H4).
Qed.

Definition not_pct (l : text) : Prop := match l with c :: _ => c <> "%" | [] => True end.
Lemma comments_ok : forall cs fuel l t, Forall comment_ok cs -> (List.length cs < fuel)%nat -> no_nl l -> (List.length l < LINE)%nat -> not_pct l ->
  mm_comments fuel (unlines (map (cons "%") cs) ++ l ++ NL :: t) = Ok (Some (l ++ [NL], t)).
Proof.
  induction cs as [|c cs IH]; intros [|fuel] l t F L N Hl P; cbn [List.length] in L; try lia.
  - cbn [map unlines concat app]. unfold mm_comments. destruct (l ++ NL :: t) eqn:Q; [destruct l; discriminate|]. rewrite <- Q. rewrite fgets_LINE by auto.
    destruct l as [|x l]; [reflexivity|]. cbn [app]. cbn in P. apply Ascii.eqb_neq in P. now rewrite P.
  - inversion F as [|? ? [C1 C2] F']; subst. unfold unlines. cbn [map concat]. fold (unlines (map (cons "%") cs)). rewrite <- !app_assoc. cbn [app].
    cbn [mm_comments]. change ("%" :: c ++ NL :: unlines (map (cons "%") cs) ++ l ++ NL :: t) with (("%" :: c) ++ NL :: unlines (map (cons "%") cs) ++ l ++ NL :: t).
    rewrite fgets_LINE; [|constructor; [discriminate|auto]|auto]. cbn [app]. change (Ascii.eqb "%" "%") with true. cbn iota. apply IH; auto. lia.
Qed.

Lemma sizes_scan sl n m nnz rest t : sizes_of sl n m nnz rest -> scan_ds 3 (sl ++ NL :: t) = Ok ([n; m; nnz], false, rest ++ NL :: t).
Proof.
  intros H. destruct H. repeat rewrite <- app_assoc. cbn [scan_ds].
  assert (GS : forall g, gap g -> Forall (fun c => is_space c = true) g) by (intros g G; eapply Forall_impl; [|exact G]; now intros c [Q _]).
  rewrite scan_d_print by (auto using gap_ends). cbn [bind].
  rewrite scan_d_print by (auto using gap_ends). cbn [bind].
  rewrite scan_d_print by (auto using starts_app_nl). reflexivity.
Qed.
Lemma sizes_no_nl sl n m nnz rest : sizes_of sl n m nnz rest -> no_nl sl.
Proof.
  assert (P : forall z, no_nl (print_int z)) by (intros z; eapply Forall_impl; [|apply print_no_nl]; intros c; apply eqb_nl).
  destruct 1; repeat (apply Forall_app; split); auto; try apply P; now apply gap_no_nl.
Qed.
Lemma sizes_not_pct sl n m nnz rest : sizes_of sl n m nnz rest -> not_pct sl.
Proof.
  destruct 1. destruct g0 as [|c g0]; cbn [app].
  - unfold print_int. destruct (n <? 0) eqn:E; [cbn; discriminate|]. apply Z.ltb_ge in E. destruct (print_nat_head E) as (c & r & -> & D). cbn.
    intros ->. discriminate.
  - cbn. inversion H as [|? ? [Q _] _]; subst. intros ->. discriminate.
Qed.
Lemma unlines_len ls : (List.length ls <= List.length (unlines ls))%nat.
Proof. unfold unlines. induction ls as [|l r IH]; cbn; auto. rewrite !app_length. cbn. lia. Qed.

(** the text up to the sizes *)
Definition head_text (ban : text) (cs : list text) : text := ban ++ NL :: unlines (map (cons "%") cs).
Lemma open_ok fuel ban tc cs sl n m nnz rest body : banner_of ban tc -> (List.length ban < LINE)%nat -> tc_crd tc = "C" -> Forall comment_ok cs ->
  sizes_of sl n m nnz rest -> (List.length sl < LINE)%nat ->
  mm_open fuel (head_text ban cs ++ sl ++ NL :: body) =
    Ok (Some {| mf_type := tc; mf_n := n; mf_m := m; mf_nnz := nnz; mf_base := head_text ban cs ++ sl ++ NL :: body; mf_i := List.length (head_text ban cs ++ sl ++ [NL]) |}).
Proof.
  intros B LB C F S LS. unfold mm_open, head_text. rewrite <- !app_assoc. cbn [app]. rewrite (banner_ok _ B LB). cbn [bind].
  rewrite C. change (negb (Ascii.eqb "C" "C")) with false. cbn iota. unfold mm_read_mtx_crd_size.
  rewrite comments_ok; eauto using sizes_no_nl, sizes_not_pct.
  2: { rewrite app_length. assert (U := unlines_len (map (cons "%") cs)). rewrite map_length in U. lia. }
  cbn [bind]. rewrite (sizes_scan _ S). cbn [bind]. do 3 f_equal. repeat (rewrite app_length || cbn [List.length]). lia.
Qed.

(** ** A line that is neither a comment nor the sizes *)
Definition junk (x : text) : Prop :=
  gap x \/ exists g c r, x = g ++ c :: r /\ gap g /\ is_space c = false /\ is_digit c = false /\ c <> "-" /\ c <> "+".
(** [spoil s]: such a line, or a comment of more than LINE - 1 characters with such a rest. *)
Definition spoil (s : text) : Prop :=
  exists pre x, s = pre ++ x /\ junk x /\ not_pct x /\ no_nl x /\ (List.length x < LINE)%nat /\
    (pre = [] \/ exists p, pre = "%" :: p /\ no_nl p /\ List.length pre = LINE).
Lemma spoil_comments s t fuel : spoil s -> (1 < fuel)%nat -> exists x, junk x /\ mm_comments fuel (s ++ NL :: t) = Ok (Some (x ++ [NL], t)).
Proof.
  intros (pre & x & -> & J & P & N & L & Q) Hf. exists x. split; auto.
  destruct Q as [->|(p & -> & Np & Lp)].
  - apply (@comments_ok [] fuel x t); auto. cbn. lia.
  - destruct fuel as [|fuel]; [lia|]. rewrite <- app_assoc. cbn [app mm_comments]. change ("%" :: p ++ x ++ NL :: t) with (("%" :: p) ++ x ++ NL :: t).
    rewrite fgets_full; auto. 2: { constructor; [discriminate|auto]. }
    change (Ascii.eqb "%" "%") with true. cbn iota. apply (@comments_ok [] fuel x t); auto. cbn. lia.
Qed.
Lemma comments_skip : forall cs fuel t, Forall comment_ok cs -> t <> [] -> mm_comments (List.length cs + fuel) (unlines (map (cons "%") cs) ++ t) = mm_comments fuel t.
Proof.
  induction cs as [|c cs IH]; intros fuel t F T; [reflexivity|]. inversion F as [|? ? [C1 C2] F']; subst.
  cbn [List.length Nat.add]. unfold unlines. cbn [map concat]. fold (unlines (map (cons "%") cs)). rewrite <- !app_assoc. cbn [app].
  cbn [mm_comments]. change ("%" :: c ++ NL :: unlines (map (cons "%") cs) ++ t) with (("%" :: c) ++ NL :: unlines (map (cons "%") cs) ++ t).
  rewrite fgets_LINE; [|constructor; [discriminate|auto]|auto]. cbn [app]. change (Ascii.eqb "%" "%") with true. cbn iota. apply IH; auto.
Qed.
Lemma junk_scan x : junk x -> exists e t, scan_ds 3 (x ++ [NL]) = Ok ([], e, t).
Proof.
  intros [G|(g & c & r & -> & G & S & D & M & P)]; cbn [scan_ds]; unfold scan_d.
  - rewrite skip_gap by auto. exists true, []. reflexivity.
  - rewrite <- app_assoc, skip_gap by auto. cbn [app skip_ws]. rewrite S. cbn [read_sign].
    apply Ascii.eqb_neq in M, P. rewrite M, P. cbn [starts_digit]. rewrite D. cbn. eauto.
Qed.
Lemma spoil_open fuel ban tc cs s t : banner_of ban tc -> (List.length ban < LINE)%nat -> tc_crd tc = "C" -> Forall comment_ok cs -> spoil s ->
  mm_open fuel (head_text ban cs ++ s ++ NL :: t) =
    do q <- mm_scan_sizes fuel t ;
    match q with
    | None => Ok None
    | Some (n, m, nnz, r2) => Ok (Some {| mf_type := tc; mf_n := n; mf_m := m; mf_nnz := nnz; mf_base := head_text ban cs ++ s ++ NL :: t;
        mf_i := List.length (head_text ban cs ++ s ++ NL :: t) - List.length r2 |})
    end.
Proof.
  intros B LB C F S. unfold mm_open. unfold head_text at 1. rewrite <- app_assoc. cbn [app]. rewrite (banner_ok _ B LB). cbn [bind].
  rewrite C. change (negb (Ascii.eqb "C" "C")) with false. cbn iota. unfold mm_read_mtx_crd_size.
  set (T := unlines (map (cons "%") cs) ++ s ++ NL :: t).
  assert (L : exists k, Datatypes.S (List.length T) = (List.length cs + Datatypes.S (Datatypes.S k))%nat).
  { exists (List.length T - List.length cs - 1)%nat. unfold T. rewrite !app_length. cbn [List.length].
    assert (U := unlines_len (map (cons "%") cs)). rewrite map_length in U. lia. }
  destruct L as (k & ->). unfold T. rewrite comments_skip; auto. 2: destruct s; discriminate.
  destruct (@spoil_comments s t (Datatypes.S (Datatypes.S k)) S ltac:(lia)) as (x & J & ->). cbn [bind].
  destruct (junk_scan J) as (e & r & ->). cbn [bind]. reflexivity.
Qed.

(** the loop that never ends *)
Lemma scan_stuck ws c r : Forall (fun c => is_space c = true) ws -> is_space c = false -> is_digit c = false -> c <> "-" -> c <> "+" ->
  forall fuel, mm_scan_sizes fuel (ws ++ c :: r) = OutOfFuel.
Proof.
  intros W S D M P. apply Ascii.eqb_neq in M, P.
  assert (K : forall ws, Forall (fun c => is_space c = true) ws -> scan_ds 3 (ws ++ c :: r) = Ok ([], false, c :: r)).
  { clear ws W. intros ws W. cbn [scan_ds]. unfold scan_d. assert (E : skip_ws (ws ++ c :: r) = c :: r).
    { induction W as [|b ws Hb _ IH]; cbn [app skip_ws]; [now rewrite S|now rewrite Hb]. }
    rewrite E. cbn [read_sign]. rewrite M, P. cbn [starts_digit]. rewrite D. reflexivity. }
  intros fuel. revert ws W. induction fuel as [|f IH]; intros ws W; cbn [mm_scan_sizes]; auto. rewrite K by auto. cbn [bind].
  apply (IH [] ltac:(constructor)).
Qed.

(** ** No newline at the end *)
Lemma find_nl_nth : forall t k, find_nl t = Some k -> (k < List.length t)%nat /\ nth_error t k = Some NL.
Proof.
  induction t as [|c t IH]; intros k H; cbn [find_nl] in H; [discriminate|]. destruct (Ascii.eqb_spec c NL).
  - inversion H; subst. cbn. split; [lia|auto].
  - destruct (find_nl t) as [k'|] eqn:E; [|discriminate]. inversion H; subst. destruct (IH k' eq_refl). cbn. split; [lia|auto].
Qed.
Lemma run_no_newline attr t c : c <> NL -> forall fuel a r, (a < List.length (t ++ [c]))%nat -> mm_run fuel attr (t ++ [c]) a (List.length (t ++ [c])) <> Ok r.
Proof.
  intros Hc. induction fuel as [|fuel IH]; intros a r L E; cbn [mm_run] in E; destruct (Nat.eqb_spec a (List.length (t ++ [c]))); try lia; [discriminate|].
  apply bind_Ok in E as (x & E1 & E). apply bind_Ok in E as (a' & E2 & E). apply bind_Ok in E as (l & E3 & E).
  unfold mm_next in E2. destruct (Nat.ltb_spec (List.length (t ++ [c])) a); [lia|].
  destruct (find_nl (skipn a (t ++ [c]))) as [k|] eqn:Q; [|discriminate]. inversion E2; subst a'. apply find_nl_nth in Q as [Q1 Q2].
  rewrite skipn_length in Q1.
  assert (N : nth_error (t ++ [c]) (a + k) = Some NL).
  { rewrite <- Q2. clear. generalize (t ++ [c]). intros l. revert l. induction a as [|a IH]; intros l; [reflexivity|]. destruct l; cbn; [now destruct k|apply IH]. }
  eapply IH; [|exact E3]. destruct (Nat.eq_dec (a + k + 1) (List.length (t ++ [c]))) as [Z|Z]; [|lia].
  exfalso. apply Hc. rewrite app_length in Z. cbn in Z. replace (a + k)%nat with (List.length t) in N by lia.
  rewrite nth_error_app2, Nat.sub_diag in N by lia. cbn in N. congruence.
Qed.
