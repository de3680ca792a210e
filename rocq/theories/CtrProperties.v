(** C89: the container benchmark (apb/containers.cpp) and the vector of forward lists (vofos.hpp). *)
From Coq Require Import List Arith ZArith Lia Bool Permutation Sorting.Sorted.
From Verif Require Import EdgeListModel EdgeListProofs CsrModel CsrProofs CsrProofs2 BuildModel BuildProofs TcModel SpmModel ApbProofs CtrModel CtrProofs Base.
Import ListNotations.

(** What a list of edges says about vertex u: the targets and attributes of the edges whose first end is u, in list order. *)
Definition out_of {A} (es : list (edge A)) (u : nat) : list (nat * A) := map (fun e => (etgt e, eatt e)) (filter (fun e => esrc e =? u) es).
(** One entry of the result: the products added up from the left, starting from 0. *)
Definition entry {F V} (mac : F -> F -> V -> F) (ofn : nat -> F) (row : list (nat * V)) : F := fold_left (fun a e => mac a (ofn (fst e)) (snd e)) row (ofn 0).
Definition by_source {A} (es : list (edge A)) : Prop := StronglySorted (fun e f => esrc e <= esrc f) es.

(** Filling a vector of forward lists never fails, grows it as needed, and leaves each list in the reverse of the order of arrival. *)
Theorem C89_flist A (es : list (edge A)) n : exists g, flist_push_back_fill es (repeat [] n) = Ok g /\
  length g = fold_right (fun e m => Nat.max (esrc e + 1) m) n es /\ forall u, nth u g [] = rev (out_of es u).
Proof.
  destruct (flist_fill n es) as (g & E & L & N). exists g. split; auto. split; [|exact N]. rewrite L. clear.
  revert n. induction es as [|e es IH]; intros n; auto. cbn [fold_left fold_right]. rewrite <- IH.
  assert (G : forall l m k, fold_left (fun m (e : edge A) => Nat.max m (esrc e + 1)) l (Nat.max m k) = Nat.max k (fold_left (fun m e => Nat.max m (esrc e + 1)) l m)).
  { induction l as [|x l IHl]; intros m k; cbn [fold_left]; [lia|]. rewrite <- IHl. f_equal. lia. }
  apply G.
Qed.

Lemma out_lt A W n (es : list (edge A)) u e : n < W -> ids_ok W es -> In e (out_of es u) -> fst e < el_num_vertices (el_build W n es).
Proof. intros Hn He I. apply in_map_iff in I as (x & <- & Hx). apply filter_In in Hx as [Hx _]. apply (build_key_lt S1 Hn He x Hx). Qed.

(** The vectors of vectors, lists and forward lists: the four loops all leave the same y, one entry per vertex, and the entry of u is made of the
    edges whose first end is u alone, whatever the order of the list and however many trials. An edge is not used for its second end. *)
Theorem C89_lists F V (mac : F -> F -> V -> F) ofn W f ntrial n (es : list (edge V)) : n < W -> ids_ok W es -> f <> FCsr ->
  ctr_run mac ofn W f ntrial (el_build W n es) = Ok (repeat (map (fun u => entry mac ofn (match f with FVof => rev (out_of es u) | _ => out_of es u end))
    (seq 0 (el_num_vertices (el_build W n es)))) 4).
Proof.
  intros Hn He Hf. set (N := el_num_vertices (el_build W n es)).
  assert (NW : N < W) by (now apply size_le). assert (B : forall e, In e es -> esrc e < N) by (intros e I; apply (build_key_lt S0 Hn He e I)).
  set (rw := fun u => match f with FVof => rev (out_of es u) | _ => out_of es u end).
  assert (K : ctr_compress W f (el_build W n es) = Ok (N, map rw (seq 0 N))).
  { unfold ctr_compress. rewrite build_view. fold N.
    destruct (@vov_fill _ N es B) as (g & E & G). destruct (flist_fill N es) as (g2 & E2 & L2 & G2). rewrite grow_none in L2 by auto.
    destruct f; [now destruct Hf| | |]; unfold rw.
    - rewrite E. cbn [bind]. subst g. rewrite map_length, seq_length. reflexivity.
    - rewrite E. cbn [bind]. subst g. rewrite map_length, seq_length. reflexivity.
    - rewrite E2. cbn [bind]. rewrite L2. do 2 f_equal. apply nth_ext with (d := []) (d' := []); [now rewrite map_length, seq_length|].
      intros u Hu. rewrite L2 in Hu. rewrite nth_map_seq by auto. apply G2. }
  rewrite (@run_ok F V mac ofn W f ntrial _ N _ K NW).
  - rewrite map_map. reflexivity.
  - now rewrite map_length, seq_length.
  - intros row e I J. apply in_map_iff in I as (u & <- & _). apply (@out_lt V W n es u e Hn He). unfold rw in J. destruct f; auto. now apply in_rev.
Qed.

(** The compressed container: as many rows as vertices, each as long as there are edges with that source, but the edges are dealt to the rows in list
    order; when the list is sorted by source these are the rows of the list containers. *)
Theorem C89_csr F V (mac : F -> F -> V -> F) ofn W ntrial n (es : list (edge V)) : n < W -> ids_ok W es -> length es < W ->
  exists rows, length rows = el_num_vertices (el_build W n es) /\ concat rows = map (fun e => (etgt e, eatt e)) es /\
    (forall u, u < length rows -> length (nth u rows []) = length (out_of es u)) /\
    (by_source es -> forall u, nth u rows [] = out_of es u) /\
    ctr_run mac ofn W FCsr ntrial (el_build W n es) = Ok (repeat (map (entry mac ofn) rows) 4).
Proof.
  intros Hn He HW. set (N := el_num_vertices (el_build W n es)).
  assert (NW : N < W) by (now apply size_le). assert (B : forall e, In e es -> esrc e < N) by (intros e I; apply (build_key_lt S0 Hn He e I)).
  destruct (@csr_fill_any V W N es HW B) as (g & rows & E & Sz & It & L & C & LN). exists rows.
  split; auto. split; auto. split; [|split].
  - intros u Hu. unfold out_of. rewrite map_length. apply LN. lia.
  - intros Hs u. rewrite (@csr_sorted_rows V es N rows B Hs L C LN). destruct (Nat.lt_ge_cases u N) as [Hu|Hu]; [now rewrite nth_map_seq|].
    rewrite nth_overflow by (rewrite map_length, seq_length; lia). unfold out_of. rewrite filter_none; auto. intros e I. apply Nat.eqb_neq. specialize (B e I). lia.
  - apply (@run_ok F V mac ofn W FCsr ntrial _ N rows); auto.
    + unfold ctr_compress. rewrite build_view. fold N. rewrite E. cbn [bind]. rewrite It. cbn [bind]. now rewrite Sz.
    + intros row e I J. assert (Ie : In e (concat rows)) by (apply in_concat; eauto). rewrite C in Ie. apply in_map_iff in Ie as (x & <- & Hx). apply (build_key_lt S1 Hn He x Hx).
Qed.

(** With exact arithmetic every container gives, for each u, the sum of target times weight over the edges with first end u, provided the list is sorted
    by source if the container is the compressed one; and the total over all u is right in any case. *)
Definition weigh (e : edge Z) : Z := (Z.of_nat (etgt e) * eatt e)%Z.
Definition total (es : list (edge Z)) : Z := fold_right Z.add 0%Z (map weigh es).
Theorem C89_integers W f ntrial n (es : list (edge Z)) : n < W -> ids_ok W es -> length es < W ->
  exists y, ctr_run (fun a x v => a + x * v)%Z Z.of_nat W f ntrial (el_build W n es) = Ok (repeat y 4) /\
    length y = el_num_vertices (el_build W n es) /\
    fold_right Z.add 0%Z y = total es /\
    (f <> FCsr \/ by_source es -> forall u, nth u y 0%Z = total (filter (fun e => esrc e =? u) es)).
Proof.
  intros Hn He HW. destruct (@C89_csr Z Z zmac Z.of_nat W ntrial n es Hn He HW) as (rows & L & C & _ & So & R).
  set (N := el_num_vertices (el_build W n es)) in *. assert (B : forall e, In e es -> esrc e < N) by (intros e I; apply (build_key_lt S0 Hn He e I)).
  assert (Z1 : forall u, entry zmac Z.of_nat (out_of es u) = total (filter (fun e => esrc e =? u) es)).
  { intros u. change (entry zmac Z.of_nat (out_of es u)) with (rsum zmac Z.of_nat (out_of es u)). rewrite rsum_z. unfold out_of. rewrite map_map. reflexivity. }
  assert (Zr : forall u, entry zmac Z.of_nat (rev (out_of es u)) = total (filter (fun e => esrc e =? u) es)).
  { intros u. rewrite <- Z1. change (rsum zmac Z.of_nat (rev (out_of es u)) = rsum zmac Z.of_nat (out_of es u)). rewrite !rsum_z, map_rev. apply zsum_rev. }
  assert (Zo : forall u, N <= u -> total (filter (fun e => esrc e =? u) es) = 0%Z).
  { intros u Hu. rewrite filter_none; auto. intros e I. apply Nat.eqb_neq. specialize (B e I). lia. }
  assert (TL : fold_right Z.add 0%Z (map (fun u => total (filter (fun e => esrc e =? u) es)) (seq 0 N)) = total es).
  { clearbody N. clear - B. unfold total. induction es as [|e es IH].
    - cbn. induction (seq 0 N) as [|a l IHl]; auto.
    - cbn [map fold_right]. rewrite <- IH by (intros; apply B; now right).
      assert (Be : esrc e < N) by (apply B; now left). assert (Q : forall l, NoDup l -> fold_right Z.add 0%Z (map (fun u => fold_right Z.add 0%Z (map weigh (filter (fun e0 => esrc e0 =? u) (e :: es)))) l) =
        ((if existsb (Nat.eqb (esrc e)) l then weigh e else 0) + fold_right Z.add 0%Z (map (fun u => fold_right Z.add 0%Z (map weigh (filter (fun e0 => (esrc e0 =? u)%nat) es))) l))%Z).
      { induction l as [|a l IHl]; intros ND; [reflexivity|]. inversion_clear ND as [|? ? NI ND']. cbn [map fold_right existsb]. rewrite (IHl ND'). cbn [filter].
        destruct (Nat.eqb_spec (esrc e) a) as [->|]; cbn [orb map fold_right]; [|ring].
        destruct (existsb (Nat.eqb a) l) eqn:X; [|ring]. apply existsb_exists in X as (b & Hb & Eb). apply Nat.eqb_eq in Eb. subst b. contradiction. }
      rewrite Q by apply seq_NoDup. replace (existsb (Nat.eqb (esrc e)) (seq 0 N)) with true; auto. symmetry. apply existsb_exists. exists (esrc e). split; [apply in_seq; lia|apply Nat.eqb_refl]. }
  destruct f.
  - eexists. split; [exact R|]. split; [now rewrite map_length|]. split.
    + change (zsum (map (rsum zmac Z.of_nat) rows) = total es). rewrite zsum_concat, C, map_map. reflexivity.
    + intros [H|H] u; [now destruct H|]. specialize (So H). destruct (Nat.lt_ge_cases u N) as [Hu|Hu].
      * rewrite nth_indep with (d' := entry zmac Z.of_nat []) by (rewrite map_length; lia). rewrite map_nth, So. apply Z1.
      * rewrite nth_overflow by (rewrite map_length; lia). now rewrite Zo.
  - eexists. split; [apply C89_lists; auto; discriminate|]. fold N. rewrite map_length, seq_length. split; auto. split.
    + rewrite <- TL. f_equal. apply map_ext. apply Z1.
    + intros _ u. destruct (Nat.lt_ge_cases u N) as [Hu|Hu]; [rewrite nth_map_seq by auto; apply Z1|rewrite nth_overflow by (rewrite map_length, seq_length; lia); now rewrite Zo].
  - eexists. split; [apply C89_lists; auto; discriminate|]. fold N. rewrite map_length, seq_length. split; auto. split.
    + rewrite <- TL. f_equal. apply map_ext. apply Z1.
    + intros _ u. destruct (Nat.lt_ge_cases u N) as [Hu|Hu]; [rewrite nth_map_seq by auto; apply Z1|rewrite nth_overflow by (rewrite map_length, seq_length; lia); now rewrite Zo].
  - eexists. split; [apply C89_lists; auto; discriminate|]. fold N. rewrite map_length, seq_length. split; auto. split.
    + rewrite <- TL. f_equal. apply map_ext. apply Zr.
    + intros _ u. destruct (Nat.lt_ge_cases u N) as [Hu|Hu]; [rewrite nth_map_seq by auto; apply Zr|rewrite nth_overflow by (rewrite map_length, seq_length; lia); now rewrite Zo].
Qed.

(** ** Examples *)
Definition ex_es : list (edge Z) := [(1, 2, 10%Z); (0, 1, 3%Z); (1, 0, 7%Z); (2, 1, 5%Z)].
Example ex_hyp : 0 < 100 /\ ids_ok 100 ex_es /\ length ex_es < 100.
Proof. split; [lia|]. split; [|cbn; lia]. unfold ids_ok, ex_es. intros e [<-|[<-|[<-|[<-|[]]]]]; cbn; lia. Qed.
Example ex_list : ctr_run (fun a x v => a + x * v)%Z Z.of_nat 100 FVol 3 (el_build 100 0 ex_es) = Ok (repeat [3; 20; 5]%Z 4).
Proof. reflexivity. Qed.
(** The list is not sorted by source: vertex 0 is given the first edge, which is of vertex 1. *)
Example ex_csr_mixed : ctr_run (fun a x v => a + x * v)%Z Z.of_nat 100 FCsr 3 (el_build 100 0 ex_es) = Ok (repeat [20; 3; 5]%Z 4).
Proof. reflexivity. Qed.
Example ex_flist : flist_push_back_fill ex_es (repeat [] 1) = Ok [[(1, 3%Z)]; [(0, 7%Z); (2, 10%Z)]; [(1, 5%Z)]].
Proof. reflexivity. Qed.
(** Arithmetic where the order matters: the forward lists add from the other end. *)
Example ex_order : let mac := fun a x v => (2 * a + x * v)%Z in
  ctr_run mac Z.of_nat 100 FVol 1 (el_build 100 0 ex_es) = Ok (repeat [3; 40; 5]%Z 4) /\
  ctr_run mac Z.of_nat 100 FVof 1 (el_build 100 0 ex_es) = Ok (repeat [3; 20; 5]%Z 4).
Proof. split; reflexivity. Qed.
Example ex_sorted : by_source [(0, 1, 3%Z); (1, 2, 10%Z); (1, 0, 7%Z); (2, 1, 5%Z)] /\
  ctr_run (fun a x v => a + x * v)%Z Z.of_nat 100 FCsr 0 (el_build 100 0 [(0, 1, 3%Z); (1, 2, 10%Z); (1, 0, 7%Z); (2, 1, 5%Z)]) = Ok (repeat [3; 20; 5]%Z 4).
Proof. split; [unfold by_source; repeat constructor|reflexivity]. Qed.

Print Assumptions C89_flist.
Print Assumptions C89_lists.
Print Assumptions C89_csr.
Print Assumptions C89_integers.
