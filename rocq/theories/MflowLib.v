(** Flows in a network with capacities on its arcs: the specification for C74, and the max-flow min-cut argument. *)
From Coq Require Import List Arith ZArith Bool Lia.
From Verif Require Import BkLib.
Import ListNotations.
Set Implicit Arguments.
Local Open Scope Z_scope.

(** ** Specification.  A network is a list of rows of arcs (target, (capacity, flow)). *)
(** the sum of [sel] over the arcs of a row that lead to [u] *)
Fixpoint amount (sel : Z * Z -> Z) (row : list (nat * (Z * Z))) (u : nat) : Z :=
  match row with [] => 0 | a :: row' => (if Nat.eqb (fst a) u then sel (snd a) else 0) + amount sel row' u end.
Definition capacity (G : list (list (nat * (Z * Z)))) (v u : nat) : Z := amount fst (nth v G []) u.
Definition flow (G : list (list (nat * (Z * Z)))) (v u : nat) : Z := amount snd (nth v G []) u.
(** what flows out of [v] minus what flows in *)
Definition outflow (G : list (list (nat * (Z * Z)))) (v : nat) : Z :=
  total (length G) (fun u => flow G v u) - total (length G) (fun u => flow G u v).
(** arcs between vertices, no loops, no repeated arcs *)
Definition simple_net (G : list (list (nat * (Z * Z)))) : Prop :=
  forall v, NoDup (map fst (nth v G [])) /\ ~ In v (map fst (nth v G [])) /\ forall u, In u (map fst (nth v G [])) -> (u < length G)%nat.
(** a flow from [s] to [t] within the capacities *)
Definition feasible (G : list (list (nat * (Z * Z)))) (s t : nat) : Prop :=
  (forall v a, In a (nth v G []) -> 0 <= snd (snd a) <= fst (snd a)) /\
  (forall v, (v < length G)%nat -> v <> s -> v <> t -> outflow G v = 0).
(** the two networks differ in their flows only *)
Definition same_net (G H : list (list (nat * (Z * Z)))) : Prop :=
  map (map (fun a => (fst a, fst (snd a)))) G = map (map (fun a => (fst a, fst (snd a)))) H.
(** the capacity of the arcs that leave the side [side] *)
Definition cut (G : list (list (nat * (Z * Z)))) (side : nat -> bool) : Z :=
  total (length G) (fun p => total (length G) (fun q => if side p && negb (side q) then capacity G p q else 0)).

(** ** Flows as functions *)
Section F.
Variables (n : nat) (c : nat -> nat -> Z).
Definition nt (f : nat -> nat -> Z) (a b : nat) : Z := f a b - f b a.
Definition exc (f : nat -> nat -> Z) (a : nat) : Z := total n (nt f a).
Definition bounded (f : nat -> nat -> Z) : Prop := forall a b, 0 <= f a b <= c a b.
(** residual capacity *)
Definition rc (f : nat -> nat -> Z) (a b : nat) : Z := c a b - f a b + f b a.
(** sending [m] from [v] to [u] *)
Definition push (m : Z) (v u : nat) (f : nat -> nat -> Z) (a b : nat) : Z :=
  if Nat.eqb a v && Nat.eqb b u then Z.min (f v u + m) (c v u)
  else if Nat.eqb a u && Nat.eqb b v then f u v - Z.max 0 (f v u + m - c v u) else f a b.
Lemma push_bounded m v u f : bounded f -> v <> u -> 0 <= m <= rc f v u -> bounded (push m v u f).
Proof.
  unfold bounded, push, rc. intros B N M a b. assert (B1 := B v u). assert (B2 := B u v). specialize (B a b).
  destruct (Nat.eqb_spec a v), (Nat.eqb_spec b u), (Nat.eqb_spec a u), (Nat.eqb_spec b v); cbn [andb]; subst; lia.
Qed.
Lemma push_nt m v u f a b : v <> u ->
  nt (push m v u f) a b = nt f a b + (if Nat.eqb a v && Nat.eqb b u then m else if Nat.eqb a u && Nat.eqb b v then - m else 0).
Proof.
  unfold nt, push. intros N. destruct (Nat.eqb_spec a v), (Nat.eqb_spec b u), (Nat.eqb_spec a u), (Nat.eqb_spec b v); cbn [andb]; subst; try congruence; lia.
Qed.
Lemma push_exc m v u f a : v <> u -> (v < n)%nat -> (u < n)%nat ->
  exc (push m v u f) a = exc f a + (if Nat.eqb a v then m else 0) - (if Nat.eqb a u then m else 0).
Proof.
  intros N V U. unfold exc. rewrite (@total_ext n _ (fun b => nt f a b + (if Nat.eqb a v && Nat.eqb b u then m else if Nat.eqb a u && Nat.eqb b v then - m else 0))) by (intros; now apply push_nt).
  rewrite total_add. destruct (Nat.eqb_spec a v) as [->|A].
  - cbn [andb]. destruct (Nat.eqb_spec v u); [congruence|]. cbn [andb]. rewrite total_one by auto. lia.
  - cbn [andb]. destruct (Nat.eqb_spec a u) as [->|A2]; cbn [andb].
    + rewrite total_one by auto. lia.
    + rewrite total_0. lia.
Qed.
Lemma push_rc m v u f a b : a <> u -> b <> u -> rc (push m v u f) a b = rc f a b.
Proof. intros A B. unfold rc, push. destruct (Nat.eqb_spec a u); [congruence|]. destruct (Nat.eqb_spec b u); [congruence|]. now rewrite !andb_false_r. Qed.

(** [chain s x l]: the arcs [l], backwards, lead from [s] to [x]. *)
Fixpoint chain (s x : nat) (l : list (nat * nat)) : Prop :=
  match l with [] => x = s | e :: l' => snd e = x /\ chain s (fst e) l' end.
Definition pushes (m : Z) (l : list (nat * nat)) (f : nat -> nat -> Z) : nat -> nat -> Z := fold_left (fun f e => push m (fst e) (snd e) f) l f.
Lemma chain_in s : forall l x e, chain s x l -> In e l -> In (snd e) (x :: map fst l).
Proof. induction l as [|e l IH]; intros x e' C E; [destruct E|]. destruct C as [<- C]. destruct E as [<-|E]; [now left|]. right. cbn [map]. eapply IH; eauto. Qed.
Lemma pushes_ok m s : 0 <= m -> forall l x f, chain s x l -> NoDup (x :: map fst l) -> (x < n)%nat -> (forall e, In e l -> (fst e < n)%nat) -> bounded f ->
  (forall e, In e l -> m <= rc f (fst e) (snd e)) ->
  bounded (pushes m l f) /\ forall a, exc (pushes m l f) a = exc f a + (if Nat.eqb a s then m else 0) - (if Nat.eqb a x then m else 0).
Proof.
  intros M. induction l as [|[v u] l IH]; intros x f C ND X L B R.
  - cbn in C. subst x. split; auto. intros a. cbn [pushes fold_left]. lia.
  - cbn [chain fst snd] in C. destruct C as [-> C]. cbn [map fst] in ND. apply NoDup_cons_iff in ND. destruct ND as [NX ND].
    assert (NV : v <> x) by (intros ->; apply NX; now left). assert (Lv : (v < n)%nat) by (apply (L (v, x)); now left). unfold pushes. cbn [fold_left fst snd]. fold (pushes m l (push m v x f)).
    assert (R0 : m <= rc f v x) by (apply (R (v, x)); now left).
    destruct (IH v (push m v x f)) as [B' E']; auto.
    + intros e E. apply L. now right.
    + apply push_bounded; auto.
    + intros e E. rewrite push_rc; [apply R; now right| |].
      * intros Z. apply NX. right. rewrite <- Z. now apply in_map.
      * intros Z. apply NX. rewrite <- Z. eapply chain_in; eauto.
    + split; auto. intros a. rewrite E', push_exc by auto. destruct (Nat.eqb a s), (Nat.eqb a v), (Nat.eqb a x); lia.
Qed.

(** ** Cuts *)
Definition across (f : nat -> nat -> Z) (side : nat -> bool) : Z := total n (fun p => total n (fun q => if side p && negb (side q) then f p q else 0)).
Lemma exc_across f s t side : (forall v, (v < n)%nat -> v <> s -> v <> t -> exc f v = 0) -> (s < n)%nat -> side s = true -> side t = false -> exc f s = across (nt f) side.
Proof.
  intros C S1 S2 S3.
  assert (E1 : total n (fun p => if side p then exc f p else 0) = exc f s).
  { rewrite <- (@total_one n s (exc f s) S1). apply total_ext. intros p P. destruct (Nat.eqb_spec p s) as [->|N]; [now rewrite S2|]. destruct (side p) eqn:Sp; auto. apply C; auto. congruence. }
  assert (E2 : total n (fun p => total n (fun q => if side p && side q then nt f p q else 0)) = 0).
  { set (z := total n _). assert (z = - z); [|lia]. unfold z at 1. rewrite total_swap. unfold z. rewrite <- total_opp. apply total_ext. intros q _. rewrite <- total_opp. apply total_ext. intros p _. unfold nt. destruct (side p), (side q); cbn [andb]; lia. }
  rewrite <- E1. unfold across.
  transitivity (total n (fun p => total n (fun q => if side p && negb (side q) then nt f p q else 0)) + total n (fun p => total n (fun q => if side p && side q then nt f p q else 0))); [|lia].
  rewrite <- total_add. apply total_ext. intros p _. rewrite <- total_add. destruct (side p); cbn [andb].
  - unfold exc. apply total_ext. intros q _. destruct (side q); cbn [negb]; lia.
  - symmetry. apply total_0.
Qed.
Lemma across_le f h side : (forall p q, (p < n)%nat -> (q < n)%nat -> side p = true -> side q = false -> f p q <= h p q) -> across f side <= across h side.
Proof. intros H. unfold across. apply total_le. intros p P. apply total_le. intros q Q. destruct (side p) eqn:A, (side q) eqn:B; cbn [andb negb]; try lia. auto. Qed.
Lemma exc_le f s t side : bounded f -> (forall v, (v < n)%nat -> v <> s -> v <> t -> exc f v = 0) -> (s < n)%nat -> side s = true -> side t = false -> exc f s <= across c side.
Proof. intros B C S1 S2 S3. rewrite (@exc_across f s t side) by auto. apply across_le. intros p q _ _ _ _. unfold nt. assert (X := B p q). assert (Y := B q p). lia. Qed.
Lemma exc_tight f s t side : bounded f -> (forall v, (v < n)%nat -> v <> s -> v <> t -> exc f v = 0) -> (s < n)%nat -> side s = true -> side t = false ->
  (forall p q, (p < n)%nat -> (q < n)%nat -> side p = true -> side q = false -> rc f p q <= 0) -> exc f s = across c side.
Proof.
  intros B C S1 S2 S3 T. apply Z.le_antisymm; [eapply exc_le; eauto|]. rewrite (@exc_across f s t side) by auto. apply across_le. intros p q P Q A D. specialize (T p q P Q A D). unfold rc in T. unfold nt. lia.
Qed.
End F.

(** ** Networks and functions *)
Lemma amount_notin sel row u : ~ In u (map fst row) -> amount sel row u = 0.
Proof. induction row as [|a row IH]; cbn [amount map]; intros H; auto. destruct (Nat.eqb_spec (fst a) u) as [E|]; [exfalso; apply H; now left|]. rewrite IH; auto. intros X. apply H. now right. Qed.
Lemma amount_in sel row a : NoDup (map fst row) -> In a row -> amount sel row (fst a) = sel (snd a).
Proof.
  induction row as [|b row IH]; intros ND H; [destruct H|]. cbn [map amount] in *. apply NoDup_cons_iff in ND. destruct ND as [N ND]. destruct H as [->|H].
  - rewrite Nat.eqb_refl, amount_notin by auto. lia.
  - destruct (Nat.eqb_spec (fst b) (fst a)) as [E|]; [exfalso; apply N; rewrite E; now apply in_map|]. rewrite IH; auto.
Qed.
Lemma outflow_exc G v : outflow G v = exc (length G) (flow G) v.
Proof. unfold outflow, exc, nt. now rewrite <- total_sub. Qed.
Lemma feasible_bounded G s t : simple_net G -> feasible G s t -> bounded (capacity G) (flow G).
Proof.
  intros S [F _] v u. unfold capacity, flow. destruct (S v) as (ND & _). destruct (in_dec Nat.eq_dec u (map fst (nth v G []))) as [H|H].
  - apply in_map_iff in H. destruct H as (a & <- & H). rewrite !amount_in by auto. eapply F; eauto.
  - rewrite !amount_notin by auto. lia.
Qed.
Lemma bounded_feasible G s t : simple_net G -> bounded (capacity G) (flow G) -> (forall v, (v < length G)%nat -> v <> s -> v <> t -> exc (length G) (flow G) v = 0) -> feasible G s t.
Proof.
  intros S B E. split; [|intros v V A D; rewrite outflow_exc; auto]. intros v a A. destruct (S v) as (ND & _). specialize (B v (fst a)). unfold capacity, flow in B. now rewrite !amount_in in B by auto.
Qed.
Lemma amount_map row row' : map (fun a => (fst a, fst (snd a))) row = map (fun a => (fst a, fst (snd a))) row' -> forall u, amount fst row u = amount fst row' u.
Proof.
  revert row'. induction row as [|a row IH]; intros [|b row'] E u; try discriminate; auto. cbn [map] in E. injection E as E1 E2 E3. cbn [amount]. now rewrite E1, E2, (IH row').
Qed.
Lemma same_row G H : same_net G H -> forall v, map (fun a : nat * (Z * Z) => (fst a, fst (snd a))) (nth v G []) = map (fun a => (fst a, fst (snd a))) (nth v H []).
Proof. unfold same_net. intros E v. change (@nil (nat * (Z * Z))) with (@nil (nat * (Z * Z))). rewrite <- !(map_nth (map (fun a : nat * (Z * Z) => (fst a, fst (snd a))))), E. reflexivity. Qed.
Lemma same_length G H : same_net G H -> length G = length H.
Proof. unfold same_net. intros E. rewrite <- (map_length (map (fun a : nat * (Z * Z) => (fst a, fst (snd a)))) G), E. apply map_length. Qed.
Lemma same_cap G H v u : same_net G H -> capacity G v u = capacity H v u.
Proof. intros E. unfold capacity. apply amount_map. now apply same_row. Qed.
Lemma same_targets G H v : same_net G H -> map fst (nth v G []) = map fst (nth v H []).
Proof.
  intros E. assert (X := f_equal (map fst) (same_row E v)). rewrite !map_map in X. exact X.
Qed.
Lemma same_simple G H : same_net G H -> simple_net G -> simple_net H.
Proof. intros E S v. rewrite <- (same_targets v E), <- (same_length E). apply S. Qed.
Lemma same_cut G H side : same_net G H -> cut G side = cut H side.
Proof. intros E. unfold cut. rewrite <- (same_length E). apply total_ext. intros p _. apply total_ext. intros q _. now rewrite (same_cap p q E). Qed.
Lemma cut_across G side : cut G side = across (length G) (capacity G) side.
Proof. reflexivity. Qed.

(** Weak duality: no flow exceeds a cut. *)
Lemma below_cut G s t side : simple_net G -> feasible G s t -> (s < length G)%nat -> side s = true -> side t = false -> outflow G s <= cut G side.
Proof. intros S F L A B. rewrite outflow_exc, cut_across. apply exc_le with (t := t); auto; [eapply feasible_bounded; eauto|]. intros v V N1 N2. rewrite <- outflow_exc. apply F; auto. Qed.
