(** C58: page_rank writes the scores of its vertices and nothing else. *)
From Coq Require Import List Arith ZArith QArith Qabs Lia Bool.
From Verif Require Import Base Pool PageRankModel PageRankLib PageRankProofs PageRankProperties.
Import ListNotations.
Set Implicit Arguments.
Local Open Scope nat_scope.

Lemma run_all T S (step : T -> S -> res (option T * S)) (It : T -> Prop) (Is : S -> Prop) :
  (forall t s o s', It t -> Is s -> step t s = Ok (o, s') -> Is s' /\ match o with Some t' => It t' | None => True end) ->
  forall fuel sched now ts s s', (forall t, In t ts -> It t) -> Is s -> run step fuel sched now ts s = Ok s' -> Is s'.
Proof.
  intros ST. induction fuel as [|f IH]; intros sched now ts s s' HT HS E.
  - destruct ts; [cbn in E; congruence|discriminate].
  - destruct ts as [|t0 ts0]; [cbn in E; congruence|]. set (ts := t0 :: ts0) in *. cbn [run] in E. unfold ts in E. fold ts in E.
    set (k := sched now mod length ts) in *. cbv zeta in E. fold k in E. apply bind_Ok in E. destruct E as (t & N & E). apply bind_Ok in E. destruct E as ([o s1] & E1 & E2). unfold vget in N. destruct (nth_error ts k) as [t'|] eqn:N'; [|discriminate N]. injection N as ->. rename N' into N. cbn [fst snd] in E2.
    assert (I : In t ts) by (eapply nth_error_In; eauto). destruct (ST t s o s1 (HT t I) HS E1) as [A B]. refine (IH _ _ _ _ _ _ A E2).
    intros x J. rewrite !in_app_iff in J. destruct J as [J|[J|J]].
    + apply HT. rewrite <- (firstn_skipn k ts). apply in_app_iff. now left.
    + destruct o as [t'|]; [destruct J as [<-|[]]; exact B|destruct J].
    + apply HT. rewrite <- (firstn_skipn (Datatypes.S k) ts). apply in_app_iff. now right.
Qed.
Definition kept (N : nat) (ranks r : list (option Q)) : Prop := length r = length ranks /\ forall i, N <= i -> nth_error r i = nth_error ranks i.
Lemma kept_set N ranks r i x r' : kept N ranks r -> i < N -> vset r i x = Ok r' -> kept N ranks r'.
Proof.
  intros [L K] Hi E. destruct (Nat.lt_ge_cases i (length r)) as [H|H]; [|rewrite vset_ge in E by auto; discriminate]. rewrite vset_lt in E by auto. injection E as <-. split; [now rewrite upd_length|].
  intros j Hj. rewrite <- K by auto. destruct (Nat.lt_ge_cases j (length r)) as [B|B].
  - rewrite (nth_error_nth' (upd r i x) None) by (now rewrite upd_length). rewrite (nth_error_nth' r None B). rewrite nth_upd by auto. destruct (Nat.eqb_spec j i); [lia|reflexivity].
  - transitivity (@None (option Q)); [|symmetry]; apply nth_error_None; rewrite ?upd_length; auto.
Qed.

(** Whatever the graph, the degrees and the schedule: when page_rank ends, the caller's vector has its old length and every element
    behind the last vertex still holds its old value. *)
Theorem C58_rest_untouched g deg ranks d thr max sched out : page_rank g deg ranks d thr max sched = Ok out ->
  length (o_rank out) = length ranks /\ forall i, length g <= i -> nth_error (o_rank out) i = nth_error ranks i.
Proof.
  unfold page_rank. intros E. apply bind_Ok in E. destruct E as (r0 & E0 & E). apply bind_Ok in E. destruct E as (o0 & _ & E).
  assert (K0 : kept (length g) ranks r0).
  { assert (G : forall l r, (forall i, In i l -> i < length g) -> kept (length g) ranks r -> rfold (fun r i => vset r i (odivn (Some 1%Q) (length g))) l r = Ok r0 -> kept (length g) ranks r0).
    { induction l as [|i l IH]; intros r HI K F; cbn [rfold] in F; [congruence|]. apply bind_Ok in F. destruct F as (r1 & F1 & F2). apply (IH r1); auto; [intros; apply HI; now right|]. eapply kept_set; eauto. apply HI. now left. }
    apply (G (seq 0 (length g)) ranks); [intros i I; apply in_seq in I; lia|split; auto|exact E0]. }
  change (kept (length g) ranks (o_rank out)).
  assert (G : forall todo k st, kept (length g) ranks (pr_rank st) -> forall base, pr_loop todo g deg base d thr sched k st = Ok out -> kept (length g) ranks (o_rank out)).
  { induction todo as [|m IH]; intros k st K base F; cbn [pr_loop] in F; [injection F as <-; exact K|]. apply bind_Ok in F. destruct F as (st' & F1 & F2).
    assert (K' : kept (length g) ranks (pr_rank st')).
    { unfold pr_sweep in F1. apply bind_Ok in F1. destruct F1 as (ts & T & F1).
      refine (@run_all _ _ (pr_step deg base d) (fun t => match t with RD i _ _ => i < length g | WC i => i < length g end) (fun s => kept (length g) ranks (pr_rank s)) _ _ _ _ ts _ st' _ _ F1); [|..].
      - intros t s o s' It Is ES. destruct t as [i [|j l] z|i]; cbn [pr_step] in ES.
        + apply bind_Ok in ES. destruct ES as (old & _ & ES). apply bind_Ok in ES. destruct ES as (r & Er & ES). injection ES as <- <-. split; [|exact It]. cbn [pr_rank]. eapply kept_set; eauto.
        + apply bind_Ok in ES. destruct ES as (c & _ & ES). injection ES as <- <-. auto.
        + apply bind_Ok in ES. destruct ES as (p & _ & ES). apply bind_Ok in ES. destruct ES as (n & _ & ES). apply bind_Ok in ES. destruct ES as (o1 & _ & ES). injection ES as <- <-. auto.
      - intros t I. assert (M : forall l ts, rmap (fun i => do row <- vget g i ; Ok (RD i row (Some 0%Q))) l = Ok ts -> forall t, In t ts -> exists i row, In i l /\ t = RD i row (Some 0%Q)).
        { induction l as [|i l IHl]; intros ts0 R t0 J; cbn [rmap] in R; [injection R as <-; destruct J|]. apply bind_Ok in R. destruct R as (y & Y & R). apply bind_Ok in R. destruct R as (ys & Ys & R). injection R as <-.
          apply bind_Ok in Y. destruct Y as (row & _ & Y). injection Y as <-. destruct J as [<-|J]; [exists i, row; split; [now left|reflexivity]|]. destruct (IHl _ Ys t0 J) as (i' & row' & A & B). exists i', row'. split; [now right|exact B]. }
        destruct (M _ _ T t I) as (i & row & A & ->). apply in_seq in A. lia.
      - exact K. }
    destruct (oltb (pr_err st') thr); [injection F2 as <-; exact K'|eapply IH; eauto]. }
  eapply G; [|exact E]. exact K0.
Qed.

(** ** Example: a vector of five scores for the three vertices of PageRankProperties.v. *)
Example C58_rest_untouched_ex : match page_rank ex_g ex_deg [None; None; None; Some 7%Q; None] (1 # 2) (1 # 10) 1 (fun _ _ => 0) with Ok o => skipn 3 (o_rank o) = [Some 7%Q; None] /\ o_sweeps o = 1 | _ => False end.
Proof. vm_compute. split; reflexivity. Qed.
Print Assumptions C58_rest_untouched.
