(** Property C84: containers/zip.hpp. *)
From Coq Require Import List Arith ZArith Lia Bool Permutation Sorted.
From Verif Require Import Base ZipModel ZipProofs.
Import ListNotations.
Set Implicit Arguments.
Local Open Scope nat_scope.

(** Any algorithm that works on a zipped through its iterators does to the rows what the same algorithm does to an array of rows, reading the same
    values, being undefined in the same cases, and touching nothing but the first n elements of the columns. [fits]: the columns are different
    containers, the first has n elements, the others at least n. *)
Theorem C84_program : forall n z p h, fits n h z ->
  (forall R, run_rows (length z) p (rows_of n h z) = Ok R ->
     exists h', run_zip z p h = Ok h' /\ rows_of n h' z = R /\ length h' = length h /\ (forall a, ~ In a z -> column h' a = column h a) /\
       forall a, In a z -> length (column h' a) = length (column h a) /\ forall k, n <= k -> nth k (column h' a) 0%Z = nth k (column h a) 0%Z) /\
  (run_zip z p h = Ub <-> run_rows (length z) p (rows_of n h z) = Ub) /\ run_zip z p h <> OutOfFuel.
Proof.
  intros n z p h F. assert (X := run_zip_rows p F). destruct (run_rows (length z) p (rows_of n h z)) as [R0| |] eqn:E; [|split; [discriminate|rewrite X; split; [tauto|discriminate]]|easy].
  destruct X as (h' & E' & (L & N & C) & ER). split; [|rewrite E'; split; [split; discriminate|discriminate]]. intros R [= <-]. exists h'. auto 10.
Qed.

(** Sorting a zipped permutes every column by one and the same permutation. [srt] is any algorithm that sorts arrays of rows. *)
Theorem C84_sort : forall n z srt h (le : list Z -> list Z -> Prop), fits n h z ->
  (exists R, run_rows (length z) srt (rows_of n h z) = Ok R /\ Permutation (rows_of n h z) R /\ StronglySorted le R) ->
  exists h' q, run_zip z srt h = Ok h' /\ Permutation q (seq 0 n) /\ StronglySorted le (rows_of n h' z) /\
    (forall a, In a z -> column h' a = map (fun i => nth i (column h a) 0%Z) q ++ skipn n (column h a)) /\ forall a, ~ In a z -> column h' a = column h a.
Proof.
  intros n z srt h le F (R & E & P & ST). assert (X := run_zip_rows srt F). rewrite E in X. destruct X as (h' & E' & SB & ER). rewrite <- ER in P, ST.
  destruct (permuted_columns F SB P) as (q & PQ & C). exists h', q. split; auto. split; auto. split; auto. split; auto. apply SB.
Qed.

(** The rows from begin() to end(): as many as the first column has elements; undefined as soon as another column is shorter. *)
Theorem C84_rows : forall a z h, (forall b, In b (a :: z) -> b < length h) ->
  ((forall b, In b z -> length (column h a) <= length (column h b)) -> zip_rows h (a :: z) = Ok (rows_of (length (column h a)) h (a :: z))) /\
  (forall b, In b z -> length (column h b) < length (column h a) -> zip_rows h (a :: z) = Ub).
Proof. intros a z h V. split; [now apply zip_rows_ok|]. intros b. now apply zip_rows_ub. Qed.

(** A container that occurs an even number of times is not changed by exchanging rows, whichever and however many; one that occurs an odd number of
    times is changed as if it occurred once. *)
Theorem C84_same_container : forall n z l h, (forall a, In a z -> a < length h /\ n <= length (column h a)) -> (forall ij, In ij l -> fst ij < n /\ snd ij < n) ->
  exists h', run_zip z (swaps l) h = Ok h' /\
    forall a, column h' a = if Nat.even (count_occ Nat.eq_dec z a) then column h a else fold_left (fun c ij => upd (upd c (fst ij) (nth (snd ij) c 0%Z)) (snd ij) (nth (fst ij) c 0%Z)) l (column h a).
Proof. intros n z l h V B. destruct (@run_swaps n z l h V B) as (h' & E & _ & C). exists h'. split; auto. Qed.

(** resize(N) leaves every column with N elements, the old ones first and zeroes after them, and no other container changed; clear() empties them. *)
Theorem C84_resize : forall h z N, (forall a, In a z -> a < length h) ->
  exists h', zip_resize h z N = Ok h' /\ length h' = length h /\ (forall a, ~ In a z -> column h' a = column h a) /\
    forall a, In a z -> length (column h' a) = N /\ forall k, k < N -> nth k (column h' a) 0%Z = if k <? length (column h a) then nth k (column h a) 0%Z else 0%Z.
Proof.
  intros h z N V. destruct (@zip_resize_ok N z h V) as (h' & E & L & NI & C). exists h'. split; auto. split; auto. split; auto. intros a I. destruct (C a I) as [D1 D2]. split; auto.
  intros k Lk. rewrite D2 by auto. destruct (k <? length (column h a)) eqn:EK; auto. apply Nat.ltb_ge in EK. now rewrite nth_overflow.
Qed.
Theorem C84_clear : forall h z, (forall a, In a z -> a < length h) ->
  exists h', zip_clear h z = Ok h' /\ length h' = length h /\ forall a, column h' a = if in_dec Nat.eq_dec a z then [] else column h a.
Proof.
  intros h z V. rewrite zip_clear_resize. destruct (@zip_resize_ok 0 z h V) as (h' & E & L & NI & C). exists h'. split; auto. split; auto. intros a.
  destruct (in_dec Nat.eq_dec a z) as [I|I]; auto. destruct (C a I) as [D _]. now apply length_zero_iff_nil.
Qed.

(** Iterator arithmetic is that of integers as long as distances fit in a signed number, also where an index runs below zero in between;
    n - it, which the code defines, is it - n. *)
Theorem C84_iterators : forall M i n, (0 <= i < M)%Z ->
  it_sub M (it_add M i n) n = i /\ it_add M (it_sub M i n) n = i /\ (0 <= it_add M i n < M)%Z /\
  (forall m, it_add M (it_add M i n) m = it_add M i (n + m)) /\
  ((- (M / 2) <= n < M / 2)%Z -> it_diff M (it_add M i n) i = n) /\
  (forall j, (i < M / 2)%Z -> (0 <= j < M / 2)%Z -> it_diff M i j = (i - j)%Z) /\
  it_rsub M n i = it_sub M i n.
Proof.
  intros M i n L. split; [now apply it_add_sub|]. split.
  { unfold it_add, it_sub. rewrite Zplus_mod_idemp_l. replace (i - n + n)%Z with i by lia. now apply Z.mod_small. }
  split; [apply Z.mod_pos_bound; lia|]. split; [intros m; unfold it_add; rewrite Zplus_mod_idemp_l; f_equal; lia|]. split; [now apply it_diff_add|]. split; [|reflexivity].
  intros j Li Lj. apply it_diff_small; lia.
Qed.

(** ** Examples *)
(** test/zip_eg.cpp: four columns, here with a fifth container that is not one of them and a third column that is longer. *)
Definition ex_zip_heap : heap := [[3; 1; 2]; [10; 20; 30]; [7; 8; 9; 99]; [5; 5]]%Z.
Definition ex_zip : zip := [2; 0; 1].
Example C84_ex_fits : ~ fits 3 ex_zip_heap ex_zip /\ fits 3 ex_zip_heap [0; 2; 1].
Proof.
  split.
  - intros (_ & _ & a & z & E & L). injection E as <- <-. discriminate L.
  - split; [repeat constructor; simpl; intuition discriminate|]. split; [intros a I; simpl in I; intuition subst; cbn; lia|]. exists 0, [2; 1]. auto.
Qed.
(** An insertion by exchanges that looks at what it reads: one pass of bubble sort on the first column. *)
Definition ex_pass (i : nat) (k : prog) : prog := Get i (fun x => Get (S i) (fun y => if (hd 0 x <=? hd 0 y)%Z then k else Swap i (S i) k)).
Definition ex_sort : prog := ex_pass 0 (ex_pass 1 (ex_pass 0 Done)).
Example C84_ex_sort : run_zip [0; 2; 1] ex_sort ex_zip_heap = Ok [[1; 2; 3]; [20; 30; 10]; [8; 9; 7; 99]; [5; 5]]%Z /\
  run_rows 3 ex_sort (rows_of 3 ex_zip_heap [0; 2; 1]) = Ok [[1; 8; 20]; [2; 9; 30]; [3; 7; 10]]%Z.
Proof. vm_compute. auto. Qed.
Example C84_ex_sort_hyp : exists R, run_rows 3 ex_sort (rows_of 3 ex_zip_heap [0; 2; 1]) = Ok R /\ Permutation (rows_of 3 ex_zip_heap [0; 2; 1]) R /\
  StronglySorted (fun x y => (hd 0 x <= hd 0 y)%Z) R.
Proof.
  eexists. split; [vm_compute; reflexivity|]. split.
  - vm_compute. apply perm_trans with [[1; 8; 20]; [3; 7; 10]; [2; 9; 30]]%Z; [apply perm_swap|apply perm_skip, perm_swap].
  - repeat constructor; simpl; lia.
Qed.
Example C84_ex_program : run_zip [0; 1] (Put 0 [4; 40]%Z (Move 0 2 Done)) ex_zip_heap = Ok [[4; 1; 4]; [40; 20; 40]; [7; 8; 9; 99]; [5; 5]]%Z /\
  run_zip [0; 1] (Move 3 0 Done) ex_zip_heap = Ub.
Proof. vm_compute. auto. Qed.
Example C84_ex_rows : zip_rows ex_zip_heap [0; 2] = Ok [[3; 7]; [1; 8]; [2; 9]]%Z /\ zip_rows ex_zip_heap [2; 0] = Ub /\ zip_rows ex_zip_heap [3; 0] = Ok [[5; 3]; [5; 1]]%Z.
Proof. vm_compute. auto. Qed.
(** make_zipped(v, v): reversing it by exchanges does nothing to v; make_zipped(v, w, v) reverses w alone. *)
Example C84_ex_same : run_zip [0; 0] (swaps [(0, 2)]) ex_zip_heap = Ok ex_zip_heap /\ run_zip [0; 1; 0] (swaps [(0, 2)]) ex_zip_heap = Ok [[3; 1; 2]; [30; 20; 10]; [7; 8; 9; 99]; [5; 5]]%Z.
Proof. vm_compute. auto. Qed.
Example C84_ex_resize : zip_resize ex_zip_heap [0; 2] 2 = Ok [[3; 1]; [10; 20; 30]; [7; 8]; [5; 5]]%Z /\ zip_resize ex_zip_heap [3] 4 = Ok [[3; 1; 2]; [10; 20; 30]; [7; 8; 9; 99]; [5; 5; 0; 0]]%Z /\
  zip_clear ex_zip_heap [0; 1] = Ok [[]; []; [7; 8; 9; 99]; [5; 5]]%Z.
Proof. vm_compute. auto. Qed.
Example C84_ex_iterators : it_sub (2 ^ 64) 3 5 = (2 ^ 64 - 2)%Z /\ it_add (2 ^ 64) (it_sub (2 ^ 64) 3 5) 5 = 3%Z /\ it_diff (2 ^ 64) (it_sub (2 ^ 64) 3 5) 3 = (-5)%Z /\ it_rsub (2 ^ 64) 2 7 = 5%Z.
Proof. vm_compute. auto. Qed.

Print Assumptions C84_program.
Print Assumptions C84_sort.
Print Assumptions C84_rows.
Print Assumptions C84_same_container.
Print Assumptions C84_resize.
Print Assumptions C84_clear.
Print Assumptions C84_iterators.
