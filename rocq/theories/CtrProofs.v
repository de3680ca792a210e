(** Proofs about the container benchmark. *)
From Coq Require Import List Arith ZArith Lia Bool Permutation.
From Verif Require Import EdgeListModel EdgeListProofs CsrModel CsrProofs CsrProofs2 CsrProofs3 CsrProofs4 BuildModel BuildProofs BuildProofs2 TcModel SpmModel SpmProofs CtrModel Base.
Import ListNotations.
Set Implicit Arguments.

(** ** The containers *)
Lemma vov_fill A n (es : list (edge A)) : (forall e, In e es -> esrc e < n) ->
  exists g, vov_push_back_fill es (repeat [] n) = Ok g /\ g = map (spec_row S0 es) (seq 0 n).
Proof.
  intros B. unfold vov_push_back_fill.
  destruct (@rfold_ind _ _ (fun g e => vov_push_back g (esrc e) (etgt e, eatt e))
    (fun done g => length g = n /\ forall u, nth u g [] = spec_row S0 done u) es (repeat [] n)) as (g & E & L & N).
  - split; [apply repeat_length|]. intros u. now rewrite nth_repeat.
  - intros done e g (L & N) (rest & ER). destruct (vov_push_ok g (esrc e) (etgt e, eatt e)) as (g' & E & L' & N'). exists g'. split; auto.
    assert (H : esrc e < n) by (apply B; rewrite ER; apply in_or_app; right; now left). split; [lia|].
    intros u. rewrite N', N. unfold spec_row. rewrite filter_app, map_app. f_equal. cbn [filter ekey]. destruct (esrc e =? u); auto.
  - exists g. split; auto. apply nth_ext with (d := []) (d' := []).
    + now rewrite map_length, seq_length.
    + intros u Hu. rewrite L in Hu. rewrite nth_map_seq by auto. apply N.
Qed.
Lemma flist_push_ok A (g : alist A) i x : exists g', flist_push_back g i x = Ok g' /\ length g' = Nat.max (length g) (i + 1) /\
  forall u, nth u g' [] = if u =? i then x :: nth u g [] else nth u g [].
Proof.
  unfold flist_push_back. assert (L : length (g ++ repeat [] (i + 1 - length g)) = Nat.max (length g) (i + 1)) by (rewrite app_length, repeat_length; lia).
  assert (N : forall u, nth u (g ++ repeat [] (i + 1 - length g)) [] = nth u g []).
  { intros u. destruct (Nat.lt_ge_cases u (length g)); [now rewrite app_nth1|]. rewrite app_nth2, nth_repeat by auto. now rewrite nth_overflow. }
  rewrite (@vget_nth _ _ _ []) by lia. cbn [bind]. rewrite vset_lt by lia. eexists. split; [reflexivity|]. rewrite upd_length. split; auto.
  intros u. rewrite nth_upd by lia. rewrite !N. destruct (Nat.eqb_spec u i) as [->|]; auto.
Qed.
Lemma flist_fill A n (es : list (edge A)) : 
  exists g, flist_push_back_fill es (repeat [] n) = Ok g /\ length g = fold_left (fun m e => Nat.max m (esrc e + 1)) es n /\
    forall u, nth u g [] = rev (spec_row S0 es u).
Proof.
  unfold flist_push_back_fill.
  destruct (@rfold_ind _ _ (fun g e => flist_push_back g (esrc e) (etgt e, eatt e))
    (fun done g => length g = fold_left (fun m e => Nat.max m (esrc e + 1)) done n /\ forall u, nth u g [] = rev (spec_row S0 done u)) es (repeat [] n)) as (g & E & L & N).
  - split; [apply repeat_length|]. intros u. now rewrite nth_repeat.
  - intros done e g (L & N) _. destruct (flist_push_ok g (esrc e) (etgt e, eatt e)) as (g' & E & L' & N'). exists g'. split; auto. split.
    + rewrite L', L, fold_left_app. reflexivity.
    + intros u. rewrite N', N. unfold spec_row. rewrite filter_app, map_app, rev_app_distr. cbn [filter ekey].
      rewrite (Nat.eqb_sym u). destruct (esrc e =? u); auto.
  - eauto.
Qed.
Lemma grow_none A n (es : list (edge A)) : (forall e, In e es -> esrc e < n) -> fold_left (fun m e => Nat.max m (esrc e + 1)) es n = n.
Proof.
  induction es as [|e es IH]; intros B; auto. cbn [fold_left]. specialize (B e (or_introl eq_refl)) as Be. rewrite Nat.max_l by lia. apply IH. intros; apply B; now right.
Qed.

(** ** Rows of a CSR filled in any order *)
Fixpoint cut {B} (lens : list nat) (l : list B) : list (list B) :=
  match lens with [] => [] | k :: r => firstn k l :: cut r (skipn k l) end.
Lemma cut_length B : forall lens (l : list B), length (cut lens l) = length lens.
Proof. induction lens; intros l; cbn; auto. Qed.
Lemma cut_ok B : forall lens (l : list B), sum lens = length l -> concat (cut lens l) = l /\ map (@length B) (cut lens l) = lens.
Proof.
  induction lens as [|k lens IH]; intros l H; cbn [sum] in H; cbn [cut concat map].
  - destruct l; [auto|discriminate].
  - destruct (IH (skipn k l)) as [C L]; [rewrite skipn_length; lia|]. rewrite C, L, firstn_skipn, firstn_length. split; auto. f_equal. lia.
Qed.
Lemma csr_fill_any A W n (es : list (edge A)) : length es < W -> (forall e, In e es -> esrc e < n) ->
  exists g rows, csr_push_back_fill W es (csr_new n) = Ok g /\ csr_size g = n /\ csr_iterate g = Ok rows /\ length rows = n /\
    concat rows = map (fun e => (etgt e, eatt e)) es /\ forall u, u < n -> length (nth u rows []) = length (filter (fun e => esrc e =? u) es).
Proof.
  intros HW HB. unfold csr_push_back_fill.
  destruct (@push_back_loop A W n es HW) as (g & E & HN & HI & HT & HA). rewrite E. cbn [bind].
  assert (M : Nat.max n (src_max es) = n).
  { apply Nat.max_l. unfold src_max. apply list_max_le. apply Forall_forall. intros x Hx. apply in_map_iff in Hx as (e & <- & He). specialize (HB e He). lia. }
  rewrite M in *. set (lens := map (CsrProofs.cnt (map esrc es)) (seq 0 (n + 1))) in *.
  assert (SL : sum lens = length es).
  { unfold lens. rewrite sum_cnt, map_length; auto. intros k Hk. apply in_map_iff in Hk as (e & <- & He). specialize (HB e He). lia. }
  set (ts := map (fun e : edge A => (etgt e, eatt e)) es). destruct (@cut_ok _ lens ts) as [Cr Ln]; [unfold ts; now rewrite map_length|].
  set (rows := cut lens ts) in *. assert (Lr : length rows = n + 1) by (unfold rows, lens; rewrite cut_length, map_length, seq_length; lia).
  unfold csr_close. rewrite HT, map_length.
  assert (IND : exists g', (if length es =? 0 then g else mkCsr (csr_N g) (exclusive_scan W 0 (vresize (csr_ind g) (csr_N g + 1))) (map etgt es) (csr_att g)) = g' /\
     csr_N g' = n /\ csr_ind g' = map (psum rows) (seq 0 (n + 1)) /\ csr_tgt g' = map fst (concat rows) /\ csr_att g' = map snd (concat rows)).
  { destruct (Nat.eqb_spec (length es) 0) as [Z|Z].
    - eexists; split; [reflexivity|]. rewrite HN, HI, HT, HA, Cr. unfold ts. rewrite !map_map. repeat split.
      apply map_ext_in. intros u Hu. apply in_seq in Hu.
      assert (es = []) by (destruct es; simpl in Z; [auto|discriminate]). subst es.
      unfold CsrProofs.cnt. simpl. pose proof (psum_le rows u) as Q. rewrite Cr in Q. simpl in Q. lia.
    - eexists; split; [reflexivity|]. simpl. rewrite Cr. unfold ts. rewrite !map_map, HA, HN. repeat split.
      rewrite HI. unfold vresize. unfold lens. rewrite map_length, seq_length, Nat.sub_diag. simpl. rewrite app_nil_r.
      rewrite firstn_all2 by (rewrite map_length, seq_length; lia). fold lens.
      rewrite exclusive_scan_spec by lia. replace (length lens) with (n + 1) by (unfold lens; now rewrite map_length, seq_length). apply map_ext. intros u.
      unfold psum. rewrite <- firstn_map, Ln. reflexivity. }
  destruct IND as (g' & E' & HN' & HI' & HT' & HA'). rewrite E'.
  assert (SZ : csr_size g' = n) by (unfold csr_size; rewrite HI', map_length, seq_length; lia).
  exists g', (firstn n rows).
  assert (RW : forall u, u < n -> csr_row g' u = Ok (nth u rows [])).
  { intros u Hu. apply row_gen; auto; try lia.
    - rewrite HI'. rewrite nth_error_map, nth_error_nth' with (d := 0) by (rewrite seq_length; lia). now rewrite seq_nth by lia.
    - rewrite HI'. rewrite nth_error_map, nth_error_nth' with (d := 0) by (rewrite seq_length; lia). rewrite seq_nth by lia. replace (0 + (u + 1)) with (S u) by lia. reflexivity. }
  assert (NL : forall u, length (nth u rows []) = nth u lens 0) by (intros u; rewrite <- Ln; change 0 with (length (@nil (nat * A))); now rewrite map_nth).
  assert (CN : forall u, u < n + 1 -> nth u lens 0 = length (filter (fun e => esrc e =? u) es)).
  { intros u Hu. unfold lens. rewrite nth_map_seq by auto. unfold CsrProofs.cnt. now rewrite filter_map, map_length. }
  assert (LF : length (firstn n rows) = n) by (rewrite firstn_length; lia).
  split; auto. split; auto. split; [|split; [|split]]; auto.
  - unfold csr_iterate. rewrite HN'. rewrite (@rmap_ok _ _ _ (fun u => nth u rows [])) by (intros u I; apply in_seq in I; apply RW; lia).
    f_equal. apply nth_ext with (d := []) (d' := []); [now rewrite map_length, seq_length, LF|]. intros u Hu. rewrite map_length, seq_length in Hu. rewrite nth_map_seq by auto.
    rewrite <- (firstn_skipn n rows) at 1. rewrite app_nth1 by lia. reflexivity.
  - rewrite <- Cr. rewrite <- (firstn_skipn n rows) at 2. rewrite concat_app.
    assert (Z : length (nth n rows []) = 0).
    { rewrite NL, CN by lia. rewrite filter_none; auto. intros e He. apply Nat.eqb_neq. specialize (HB e He). lia. }
    destruct (skipn n rows) as [|r [|r2 t]] eqn:Q.
    + apply (f_equal (@length _)) in Q. rewrite skipn_length in Q. cbn in Q. lia.
    + rewrite <- (firstn_skipn n rows), Q, app_nth2, LF, Nat.sub_diag in Z by lia. cbn in Z. destruct r; [|discriminate]. cbn. now rewrite app_nil_r.
    + apply (f_equal (@length _)) in Q. rewrite skipn_length in Q. cbn in Q. lia.
  - intros u Hu. rewrite <- CN by lia. rewrite <- NL. rewrite <- (firstn_skipn n rows) at 2. rewrite app_nth1 by lia. reflexivity.
Qed.

(** ** The loops *)
Section Loops.
Variables F V : Type.
Variable mac : F -> F -> V -> F.
Variable ofn : nat -> F.
Definition rsum (row : list (nat * V)) : F := fold_left (fun a e => mac a (ofn (fst e)) (snd e)) row (ofn 0).

Lemma rowval_iota N row a : (forall e, In e row -> fst e < N) ->
  rowval mac (ofn 0) (map ofn (seq 0 N)) row a = fold_left (fun a e => mac a (ofn (fst e)) (snd e)) row a.
Proof.
  revert a. induction row as [|e row IH]; intros a B; auto. unfold rowval in *. cbn [fold_left]. rewrite IH by (intros; apply B; now right).
  rewrite nth_map_seq by (apply B; now left). reflexivity.
Qed.
Lemma upd_at (pre : list F) z t v : upd (pre ++ z :: t) (length pre) v = pre ++ v :: t.
Proof. induction pre; cbn; auto. now f_equal. Qed.
Lemma row_step N row pre m : (forall e, In e row -> fst e < N) ->
  rfold (fun y e => madd mac (map ofn (seq 0 N)) y (length pre) (fst e) (snd e)) row (pre ++ repeat (ofn 0) (S m)) = Ok ((pre ++ [rsum row]) ++ repeat (ofn 0) m).
Proof.
  intros B. rewrite (@madd_row F F V mac (ofn 0) (ofn 0)).
  - f_equal. cbn [repeat]. rewrite upd_at. rewrite app_nth2, Nat.sub_diag by auto. cbn [nth]. rewrite rowval_iota by auto. now rewrite <- app_assoc.
  - intros e I. rewrite map_length, seq_length. auto.
  - rewrite app_length, repeat_length. lia.
Qed.
Lemma count_loop W N : N < W -> forall rows pre, (forall row e, In row rows -> In e row -> fst e < N) -> length pre + length rows = N ->
  rfold (fun st row => do y' <- rfold (fun y e => madd mac (map ofn (seq 0 N)) y (snd st) (fst e) (snd e)) row (fst st) ; Ok (y', (snd st + 1) mod W)) rows
    (pre ++ repeat (ofn 0) (length rows), length pre) = Ok (pre ++ map rsum rows, N).
Proof.
  intros HW. induction rows as [|row rows IH]; intros pre B L; cbn [rfold length map].
  - cbn [repeat length] in *. f_equal. f_equal. lia.
  - cbn [fst snd]. rewrite row_step by (intros e I; apply (B row); auto; now left). cbn [bind]. cbn [length] in L. rewrite Nat.mod_small by lia.
    replace (length pre + 1) with (length (pre ++ [rsum row])) by (rewrite app_length; reflexivity).
    rewrite IH; [now rewrite <- app_assoc|intros; eapply B; eauto; now right|rewrite app_length; cbn; lia].
Qed.
Lemma nbr_loop N : forall rows pre, (forall row e, In row rows -> In e row -> fst e < N) ->
  rfold (fun y kr => rfold (fun y e => madd mac (map ofn (seq 0 N)) y (fst kr) (fst e) (snd e)) (snd kr) y) (combine (seq (length pre) (length rows)) rows)
    (pre ++ repeat (ofn 0) (length rows)) = Ok (pre ++ map rsum rows).
Proof.
  induction rows as [|row rows IH]; intros pre B; cbn [rfold length map seq combine]; auto.
  cbn [fst snd]. rewrite row_step by (intros e I; apply (B row); auto; now left). cbn [bind].
  replace (S (length pre)) with (length (pre ++ [rsum row])) by (rewrite app_length; cbn; lia).
  rewrite IH; [now rewrite <- app_assoc|intros; eapply B; eauto; now right].
Qed.
Lemma trials_ok loop N v : loop (repeat (ofn 0) N) = Ok v -> length v = N -> forall nt y, 0 < nt -> length y = N -> ctr_trials ofn loop nt y = Ok v.
Proof.
  intros H Lv nt. unfold ctr_trials. destruct nt as [|nt]; intros y P L; [lia|]. cbn [seq rfold]. rewrite L, H. cbn [bind].
  assert (G : forall l, rfold (fun y (_ : nat) => loop (repeat (ofn 0) (length y))) l v = Ok v) by (induction l as [|a l IH]; auto; cbn [rfold]; rewrite Lv, H; auto).
  apply G.
Qed.
Lemma run_ok W f nt (el : edge_list V) N rows : ctr_compress W f el = Ok (N, rows) -> N < W -> length rows = N -> (forall row e, In row rows -> In e row -> fst e < N) ->
  ctr_run mac ofn W f nt el = Ok (repeat (map rsum rows) 4).
Proof.
  intros E HW L B. unfold ctr_run. rewrite E. cbn [bind fst snd]. rewrite Nat.mod_small by auto.
  set (k := if nt =? 0 then 1 else nt). assert (K : 0 < k) by (unfold k; destruct (Nat.eqb_spec nt 0); lia).
  assert (C : ctr_count mac W (map ofn (seq 0 N)) rows (repeat (ofn 0) N) = Ok (map rsum rows)).
  { unfold ctr_count. assert (Q := @count_loop W N HW rows [] B L). cbn [app length] in Q. rewrite L in Q. rewrite Q. reflexivity. }
  assert (D : ctr_nbrs mac (map ofn (seq 0 N)) rows (repeat (ofn 0) N) = Ok (map rsum rows)).
  { unfold ctr_nbrs. assert (Q := @nbr_loop N rows [] B). cbn [app length] in Q. rewrite L in Q. rewrite L. exact Q. }
  assert (LR : length (map rsum rows) = N) by (now rewrite map_length).
  rewrite (@trials_ok _ N _ C LR k _ K) by apply repeat_length. cbn [bind].
  rewrite (@trials_ok _ N _ C LR k _ K) by auto. cbn [bind]. rewrite (@trials_ok _ N _ C LR k _ K) by auto. cbn [bind].
  rewrite (@trials_ok _ N _ D LR k _ K) by auto. reflexivity.
Qed.
End Loops.

(** ** Sorted sources *)
Definition arcs {A} (es : list (edge A)) u : list (nat * A) := map (fun e => (etgt e, eatt e)) (filter (fun e => esrc e =? u) es).
Lemma sorted_concat A (es : list (edge A)) : forall n a, (forall e, In e es -> a <= esrc e < a + n) -> Sorted.StronglySorted (fun e f => esrc e <= esrc f) es ->
  concat (map (arcs es) (seq a n)) = map (fun e => (etgt e, eatt e)) es.
Proof.
  induction es as [|e es IH]; intros n a B H.
  - cbn. generalize (seq a n). induction l; auto.
  - revert a B. induction n as [|n IHn]; intros a B; [specialize (B e (or_introl eq_refl)); lia|].
    inversion_clear H as [|? ? Hs Hf]. cbn [seq map concat]. destruct (Nat.eq_dec (esrc e) a) as [Ea|Ea].
    + unfold arcs at 1. cbn [filter]. rewrite Ea, Nat.eqb_refl. cbn [map app]. f_equal.
      rewrite <- (IH (S n) a) by (auto; intros; apply B; now right). cbn [seq map concat]. f_equal. f_equal. apply map_ext_in. intros u Hu. apply in_seq in Hu.
      unfold arcs. cbn [filter]. destruct (Nat.eqb_spec (esrc e) u); auto; lia.
    + assert (Z : arcs (e :: es) a = []).
      { unfold arcs. rewrite filter_none; auto. intros x Hx. apply Nat.eqb_neq. specialize (B e (or_introl eq_refl)). destruct Hx as [<-|Hx]; [auto|]. rewrite Forall_forall in Hf. specialize (Hf x Hx). lia. }
      rewrite Z. cbn [app]. apply IHn. intros x Hx. specialize (B x Hx) as Bx. specialize (B e (or_introl eq_refl)). destruct Hx as [<-|Hx]; [lia|]. rewrite Forall_forall in Hf. specialize (Hf x Hx). lia.
Qed.
Lemma concat_lens B : forall (r1 r2 : list (list B)), concat r1 = concat r2 -> length r1 = length r2 -> (forall u, u < length r1 -> length (nth u r1 []) = length (nth u r2 [])) -> r1 = r2.
Proof.
  induction r1 as [|a r1 IH]; intros [|b r2] C L H; try discriminate; auto. cbn [concat] in C. cbn [length] in *.
  assert (L0 := H 0 ltac:(lia)). cbn [nth] in L0.
  assert (a = b) by (apply (f_equal (firstn (length a))) in C; rewrite firstn_app, Nat.sub_diag, firstn_all in C; rewrite L0, firstn_app, Nat.sub_diag, firstn_all in C; cbn in C; now rewrite !app_nil_r in C).
  subst b. f_equal. apply IH; [now apply app_inv_head in C|lia|]. intros u Hu. apply (H (S u)). lia.
Qed.
Lemma csr_sorted_rows A (es : list (edge A)) n rows : (forall e, In e es -> esrc e < n) -> Sorted.StronglySorted (fun e f => esrc e <= esrc f) es ->
  length rows = n -> concat rows = map (fun e => (etgt e, eatt e)) es -> (forall u, u < n -> length (nth u rows []) = length (filter (fun e => esrc e =? u) es)) ->
  rows = map (arcs es) (seq 0 n).
Proof.
  intros B H L C E. apply concat_lens.
  - rewrite sorted_concat; auto. intros e I. specialize (B e I). lia.
  - now rewrite map_length, seq_length.
  - intros u Hu. rewrite L in Hu. rewrite nth_map_seq by auto. rewrite E by auto. unfold arcs. now rewrite map_length.
Qed.

(** ** Integers *)
Definition zsum (l : list Z) : Z := fold_right Z.add 0%Z l.
Lemma zsum_app l1 l2 : zsum (l1 ++ l2) = (zsum l1 + zsum l2)%Z.
Proof. induction l1 as [|a l1 IH]; [reflexivity|]. cbn [app zsum fold_right] in *. unfold zsum in *. rewrite IH. ring. Qed.
Definition zmac (a x v : Z) : Z := (a + x * v)%Z.
Definition zprod (e : nat * Z) : Z := (Z.of_nat (fst e) * snd e)%Z.
Lemma rsum_z row : rsum zmac Z.of_nat row = zsum (map zprod row).
Proof.
  unfold rsum. change (Z.of_nat 0) with 0%Z. rewrite <- (Z.add_0_l (zsum _)). generalize 0%Z. induction row as [|e row IH]; intros a; cbn [fold_left map].
  - unfold zsum. cbn. ring.
  - rewrite IH. unfold zmac, zprod, zsum. cbn [map fold_right]. ring.
Qed.
Lemma zsum_rev l : zsum (rev l) = zsum l.
Proof. induction l as [|a l IH]; auto. cbn [rev]. rewrite zsum_app, IH. unfold zsum. cbn. ring. Qed.
Lemma zsum_concat (rows : list (list (nat * Z))) : zsum (map (rsum zmac Z.of_nat) rows) = zsum (map zprod (concat rows)).
Proof. induction rows as [|r rows IH]; auto. cbn [map concat]. rewrite map_app, zsum_app. unfold zsum at 1. cbn [fold_right]. fold (zsum (map (rsum zmac Z.of_nat) rows)). now rewrite IH, rsum_z. Qed.
