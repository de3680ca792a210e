(** The backward phases of bc2_v2, bc2_v3 and bc2_v4, and all the roots. *)
From Coq Require Import List Arith ZArith Qcanon Field Lia Bool Permutation.
From Verif Require Import Base GraphLib FifoLib SumLib QcLib BcLib Pool ParBfsModel ParBfsProofs BcModel BcProofs BcParProofs BcParProofs2 CcProofs XbcModel XbcProofs XbcParProofs.
Import ListNotations.
Set Implicit Arguments.
Local Open Scope nat_scope.

(** ** v3 and v4 *)
Section S.
  Variables (g : list (list nat)) (s M vmax nb : nat) (vr : ver).
  Hypothesis (T : targets_ok g) (Hs : s < length g) (HM : forall t, sg g s t < M) (HV : length g <= vmax) (HB : 0 < nb) (NV : vr <> V2).
  Notation n := (length g).
  Notation sg := (sg g s).
  Notation dist := (dist g s).
  Lemma end_of st k : PCb g s (S k) (x_pc st) -> recb g s vr (S k) st -> all_below g s (S k) ->
    fwd_end g s {| p_lv := x_lv st; p_pc := x_pc st; p_succ := x_sc st; p_q2 := x_q2 st |}.
  Proof.
    intros [C1 C2 C3] R AB. assert (R' : SCb g s (S k) (x_sc st)) by (unfold recb in R; destruct vr; [congruence|auto|auto]). destruct R' as [S1 S2 S3].
    constructor; cbn [p_pc p_succ]; auto.
    - intros x R'. destruct (proj1 (AB x) R') as (a & La & D). apply (C2 x a D). lia.
    - intros e u v A R'. destruct (nxt g s u v) eqn:Nx.
      + apply (nxt_dist T Hs) in Nx. destruct Nx as (a & D1 & D2). apply (S3 e u v a A); auto. destruct (proj1 (AB u) R') as (b & Lb & Db). now rewrite (dist_fun D1 Db).
      + destruct (nth e (x_sc st) false) eqn:Ee; auto. destruct (S2 e u v A Ee) as (a & _ & D1 & D2). rewrite <- Nx. symmetry. apply (nxt_dist T Hs). exists a. auto.
  Qed.
  Lemma xsource_ok (integral : bool) (D : nat -> Qc) (sched : nat -> nat -> nat) : (forall u, reachable g s u -> D u = qsum (map (fun v =>
        if nxt g s u v then (if integral then qn (sg u / sg v) else qn (sg u) / qn (sg v)) * (1 + D v) else 0) (nth u g [])))%Qc ->
    exists adds, xb_source vr vmax M nb integral g sched s = Ok adds /\ (forall p, In p adds -> fst p < n) /\
      (forall x, reachable g s x -> addsum x adds = D x) /\ (forall x, ~ reachable g s x -> addsum x adds = 0%Qc).
  Proof.
    intros HD. unfold xb_source. destruct (@xforward g s M vmax nb vr T Hs HM HV HB sched) as (st & ret & k & -> & C1 & C2 & LO & HA).
    { intros l _ E. congruence. }
    cbn [bind]. assert (FE := @end_of st k C1 C2 HA).
    destruct (@back_ok g s vmax nb T Hs HV HB integral D HD _ FE (fun l => sched (n + 1 + length l)) ret (S k) (repeat 0%Qc n, [])) as (sh & E1 & G1 & U1 & V1); auto.
    - apply repeat_length.
    - cbn [fst]. intros x a D' La. exfalso. destruct (proj1 (HA x)) as (b & Lb & Db); [exists a; apply D'|]. assert (X := dist_fun D' Db). lia.
    - intros p [].
    - cbn beta in E1. cbn [p_pc p_succ] in E1. rewrite E1. cbn [bind]. exists (snd sh). split; auto. split; auto. split.
      + intros x R. destruct (proj1 (HA x) R) as (a & La & D'). rewrite (V1 x a) by auto. unfold addsum. cbn. ring.
      + intros x R. rewrite U1; [reflexivity|]. intros a D'. exfalso. apply R. exists a. apply D'.
  Qed.
End S.
Lemma adds_ok n : forall adds bc, length bc = n -> (forall p, In p adds -> fst p < n) ->
  exists bc', rfold add_one adds bc = Ok bc' /\ length bc' = n /\ forall x, nth x bc' 0%Qc = (nth x bc 0 + addsum x adds)%Qc.
Proof.
  induction adds as [|[u y] adds IH]; intros bc L H.
  - exists bc. split; auto. split; auto. intros x. unfold addsum. cbn. ring.
  - assert (Lu : u < n) by (apply (H (u, y)); now left). cbn [rfold]. unfold add_one at 1. cbn [fst snd]. rewrite (@vget_nth _ bc u 0%Qc) by lia. cbn [bind].
    rewrite vset_lt by lia. cbn [bind]. destruct (IH (upd bc u (nth u bc 0 + y)%Qc)) as (bc' & E & L' & H'); [now rewrite upd_length|intros p P; apply H; now right|].
    exists bc'. split; auto. split; auto. intros x. rewrite H', nth_upd by lia. unfold addsum. cbn [filter fst]. rewrite (Nat.eqb_sym u x).
    destruct (Nat.eqb_spec x u) as [->|]; cbn [map snd qsum]; ring.
Qed.
Lemma xb_roots_ok vr (vmax M nb : nat) (integral : bool) g : vr <> V2 -> targets_ok g -> length g <= vmax -> 0 < nb -> (forall s t, s < length g -> sg g s t < M) ->
  forall (sched : nat -> nat -> nat -> nat) srcs k bc, (forall s, In s srcs -> s < length g) -> length bc = length g ->
  exists bc', rfold (fun bc ks => do adds <- xb_source vr vmax M nb integral g (sched (fst ks)) (snd ks) ; rfold add_one adds bc) (combine (seq k (length srcs)) srcs) bc = Ok bc' /\
    length bc' = length g /\
    forall x, nth x bc' 0%Qc = (nth x bc 0 + qsum (map (fun s => if integral then qn (funnels g s x) else dependency g s x) srcs))%Qc.
Proof.
  intros NV T HV HB HM sched. induction srcs as [|s srcs IH]; intros k bc HS Lb.
  - exists bc. split; [reflexivity|]. split; auto. intros x. cbn. ring.
  - assert (Ls : s < length g) by (apply HS; now left).
    destruct (@xsource_ok g s M vmax nb vr T Ls (fun t => HM s t Ls) HV HB NV integral (fun x => if integral then qn (funnels g s x) else dependency g s x) (sched k)) as (a & Ea & A1 & A2 & A3).
    { intros u R. destruct integral; [now apply funnels_rec|]. now apply (dep_rec T Ls). }
    destruct (@adds_ok (length g) a bc Lb A1) as (b1 & E1 & L1 & H1).
    destruct (IH (S k) b1) as (bc' & E & L & H); [intros x X; apply HS; now right|auto|].
    exists bc'. cbn [length seq combine rfold fst snd]. rewrite Ea. cbn [bind]. rewrite E1. cbn [bind]. rewrite E. split; auto. split; auto.
    intros x. rewrite H, H1. cbn [map qsum]. rewrite Qcplus_assoc. f_equal. f_equal. destruct (distf g s x) as [d|] eqn:Ed.
    + apply (distf_Some _ T Ls) in Ed. apply A2. exists d. apply Ed.
    + apply (distf_None _ T Ls) in Ed. rewrite A3 by auto. destruct integral.
      * rewrite funnels_unreach, qn_0 by auto. reflexivity.
      * symmetry. now apply dep_unreach.
Qed.

(** ** v2 *)
Section B.
  Variables (g : list (list nat)) (s M vmax : nat).
  Hypothesis (T : targets_ok g) (Hs : s < length g) (HM : forall t, sg g s t < M) (HV : length g <= vmax).
  Notation n := (length g).
  Notation sg := (sg g s).
  Notation dist := (dist g s).
  Notation dep := (dep g s).
  Local Open Scope Qc_scope.
  Section BK.
    Variables (pc : list nat) (P : list (list nat)).
    Hypothesis (F : fin g s pc P).
    Definition wv (t : wtask) : nat := match t with WScan w _ | WAdd w _ _ _ | WEnd w => w end.
    Definition wrest (t : wtask) : list nat := match t with WScan _ r => r | WAdd _ v _ r => v :: r | WEnd _ => [] end.
    Definition due (x : nat) (t : wtask) : Qc := qn (cocc (wrest t) x) * share g s x (wv t).
    Record winv (j : nat) (tot : nat -> Qc) (ts : list wtask) (st : list Qc * list Qc) : Prop := {
      w_tk : forall t, In t ts -> dist (wv t) j /\ (forall v, In v (wrest t) -> nxt g s v (wv t) = true) /\
               match t with WAdd w v x _ => x = share g s v w | _ => True end;
      w_d : DL g s j (fun x => qsum (map (due x) ts)) (fst st);
      w_len : length (snd st) = n;
      w_bc : forall x, nth x (snd st) 0 + qsum (map (fun t => if (wv t =? x)%nat then dep x else 0) ts) = tot x }.
    Lemma wstep_ok j tot l1 t l2 st : winv j tot (l1 ++ t :: l2) st ->
      exists o st', w_step pc t st = Ok (o, st') /\ winv j tot (l1 ++ opt_list o ++ l2) st' /\ match o with Some t' => (w_size t' < w_size t)%nat | None => True end.
    Proof.
      intros I. assert (It : In t (l1 ++ t :: l2)) by (apply in_or_app; right; now left). destruct (w_tk I _ It) as (Dw & Nx & K).
      assert (Lw := walk_lt T Hs (proj1 Dw)). assert (Rw : reachable g s (wv t)) by (exists j; apply Dw). assert (Ld := d_len (w_d I)). assert (Lb := w_len I).
      assert (REP : forall t', wv t' = wv t -> (forall x, due x t' = due x t) -> (forall v, In v (wrest t') -> In v (wrest t)) ->
        match t' with WAdd w v x _ => x = share g s v w | _ => True end -> winv j tot (l1 ++ [t'] ++ l2) st).
      { intros t' Ew Ed Sr K'. destruct I as [A B C D']. constructor; auto.
        - intros t'' J. apply (in_mid _ t) in J. destruct J as [[<-|[]]|J]; auto. rewrite Ew. auto.
        - eapply DL_ext; [exact T|exact Hs|exact HV|exact B|]. intros x _. rewrite !map_app, !qsum_app. cbn [map qsum]. rewrite Ed. ring.
        - intros x. rewrite <- D', !map_app, !qsum_app. cbn [map qsum]. rewrite Ew. ring. }
      destruct t as [w [|v r]|w v x r|w]; cbn [w_step wv wrest] in *.
      - exists (Some (WEnd w)), st. split; auto. split; [|cbn; lia]. apply REP; auto.
      - assert (Nv := Nx v (or_introl eq_refl)). assert (Y := Nv). apply (nxt_dist T Hs) in Y. destruct Y as (a & D1 & D2). assert (Lv := walk_lt T Hs (proj1 D1)).
        assert (Rv : reachable g s v) by (exists a; apply D1).
        rewrite (@vget_nth _ pc v 0%nat), (@vget_nth _ pc w 0%nat) by (rewrite (f_lc F); auto). cbn [bind]. rewrite (@vget_nth _ (fst st) w 0) by lia. cbn [bind].
        unfold qdiv. assert (Nz := pc_nz T Hs HV F Rw). replace (nth w pc 0 =? 0)%nat with false by (symmetry; now apply Nat.eqb_neq). cbn [bind].
        eexists. eexists. split; [reflexivity|]. split; [|cbn; lia]. apply REP; auto.
        unfold share. rewrite (f_pc F Rw), (f_pc F Rv), (d_ge (w_d I) Dw) by lia. ring.
      - assert (Nv := Nx v (or_introl eq_refl)). assert (Y := Nv). apply (nxt_dist T Hs) in Y. destruct Y as (a & D1 & D2). assert (Lv := walk_lt T Hs (proj1 D1)).
        rewrite (@vget_nth _ (fst st) v 0) by lia. cbn [bind]. rewrite vset_lt by lia. cbn [bind]. eexists. eexists. split; [reflexivity|]. split; [|cbn; lia].
        destruct I as [A B C D']. constructor; cbn [fst snd]; auto.
        + intros t'' J. apply (in_mid _ (WAdd w v x r)) in J. destruct J as [[<-|[]]|J]; auto. cbn [wv wrest]. split; auto. split; auto. intros v' V. apply Nx. now right.
        + eapply DL_put; [exact T|exact Hs|exact HV|exact B|now rewrite upd_length| |].
          * intros y b Dy Nb. rewrite nth_upd by lia. destruct (Nat.eqb_spec y v) as [->|]; auto. exfalso. apply Nb. rewrite (dist_fun Dy D1). exact (dist_fun D2 Dw).
          * intros y Ly. rewrite nth_upd by lia. cbn [opt_list]. rewrite !map_app, !qsum_app. cbn [map qsum]. unfold due at 2 5. cbn [wv wrest].
            destruct (Nat.eqb_spec y v) as [->|N].
            -- rewrite count_occ_cons_eq, qn_S, K by auto. ring.
            -- rewrite count_occ_cons_neq by auto. ring.
        + intros y. rewrite <- D', !map_app, !qsum_app. cbn [opt_list map qsum wv]. ring.
      - rewrite (@vget_nth _ (fst st) w 0), (@vget_nth _ (snd st) w 0) by lia. cbn [bind]. rewrite vset_lt by lia. cbn [bind]. eexists. eexists. split; [reflexivity|]. split; [|exact Logic.I].
        assert (Ew := d_ge (w_d I) Dw (le_n _)). destruct I as [A B C D']. constructor; cbn [fst snd opt_list app]; rewrite ?upd_length; auto.
        + intros t' J. apply A. apply in_app_or in J. apply in_or_app. destruct J; auto. right. now right.
        + eapply DL_ext; [exact T|exact Hs|exact HV|exact B|]. intros y _. rewrite !map_app, !qsum_app. cbn [map qsum]. unfold due at 4. cbn [wrest count_occ]. rewrite qn_0. ring.
        + intros y. rewrite <- D', nth_upd by lia. rewrite !map_app, !qsum_app. cbn [map qsum wv]. rewrite (Nat.eqb_sym w y). destruct (Nat.eqb_spec y w) as [->|]; [|ring]. rewrite Ew. ring.
    Qed.
    Definition v2_level (sched : nat -> nat) (l : list nat) (st : list Qc * list Qc) : res (list Qc * list Qc) :=
      do ts <- rmap (fun w => do Pw <- vget P w ; Ok (WScan w Pw)) l ; run_all w_size (w_step pc) sched ts st.
    Lemma v2_level_ok sched j l d bc : lev g s j l -> DLb g s j d -> length bc = n ->
      exists d' bc', v2_level sched l (d, bc) = Ok (d', bc') /\ DL g s j (fun _ => 0) d' /\ length bc' = n /\
        forall x, nth x bc' 0 = nth x bc 0 + (if mem x l then dep x else 0).
    Proof.
      intros HL A Lb. assert (SA := DL_start T Hs HV F HL A). destruct HL as [ND HL]. unfold v2_level.
      assert (LL : forall w, In w l -> (w < n)%nat) by (intros w W; apply HL in W; exact (walk_lt T Hs (proj1 W))).
      rewrite (@rmap_ok _ _ _ (fun w => WScan w (nth w P []))).
      2:{ intros w W. rewrite (@vget_nth _ P w []) by (rewrite (f_lP F); auto). reflexivity. }
      cbn [bind]. set (tot := fun x => nth x bc 0 + (if mem x l then dep x else 0)).
      destruct (@run_all_inv _ _ w_size (w_step pc) (winv j tot) (@wstep_ok j tot) sched (map (fun w => WScan w (nth w P [])) l) (d, bc)) as ([d' bc'] & E & I).
      - constructor; cbn [fst snd]; auto.
        + intros t I. apply in_map_iff in I. destruct I as (w & <- & W). cbn [wv wrest]. assert (Dw := proj1 (HL w) W). split; auto. split; auto. intros v V.
          apply (P_in Hs HV F (w := w)); auto. exists j. apply Dw.
        + eapply DL_ext; [exact T|exact Hs|exact HV|exact SA|]. intros x _. rewrite map_map. reflexivity.
        + intros x. unfold tot. f_equal. rewrite map_map. cbn [wv]. clear - ND. induction l as [|w l IH]; auto. inversion ND; subst. cbn [map qsum mem existsb]. fold (mem x l). rewrite IH by auto.
          rewrite (Nat.eqb_sym w x). destruct (Nat.eqb_spec x w) as [->|]; cbn [orb]; [|ring]. rewrite (proj2 (mem_false _ _)) by auto. ring.
      - exists d', bc'. split; auto. destruct I as [I1 I2 I3 I4]. cbn [fst snd map qsum] in *. split; auto. split; auto. intros x. assert (X := I4 x). unfold tot in X. rewrite <- X. ring.
    Qed.
    Lemma v2_back_all (sched : nat -> nat -> nat) : forall ret i k d bc, levels_ok g s (S k) ret -> DLb g s k d -> length bc = n ->
      exists d' bc', rfold (fun st kl => v2_level (sched (fst kl)) (concat (snd kl)) st) (combine (seq i (length ret)) (removelast ret)) (d, bc) = Ok (d', bc') /\ length bc' = n /\
        forall x, nth x bc' 0 = nth x bc 0 + (if existsb (fun j => match distf g s x with Some a => (a =? j)%nat | None => false end && (false || negb (j =? 0)%nat)) (seq 0 (S k)) then dep x else 0).
    Proof.
      induction ret as [|l ret IH]; intros i k d bc HR A Lb; [discriminate|]. destruct HR as (j & E & HL & HR). injection E as <-.
      destruct (@v2_level_ok (sched i) k (concat l) d bc) as (d1 & b1 & E1 & A1 & L1 & H1); auto.
      assert (HM1 : forall x, mem x (concat l) = match distf g s x with Some a => (a =? k)%nat | None => false end).
      { intros x. destruct (mem x (concat l)) eqn:Mx.
        - apply mem_In in Mx. apply HL in Mx. rewrite (proj2 (distf_Some x T Hs) Mx). now rewrite Nat.eqb_refl.
        - destruct (distf g s x) as [a|] eqn:Ed; auto. apply (distf_Some x T Hs) in Ed. symmetry. apply Nat.eqb_neq. intros ->. apply mem_false in Mx. apply Mx. now apply HL. }
      destruct k as [|k].
      - destruct ret as [|l2 r]; [|destruct HR as (j & X & _); discriminate]. exists d, bc. split; auto. split; auto. intros x. cbn [seq existsb Nat.eqb negb orb]. rewrite andb_false_r. cbn [orb]. ring.
      - destruct ret as [|l2 r]; [discriminate|]. destruct (IH (S i) k d1 b1) as (d2 & b2 & E2 & L2 & H2); auto.
        { eapply DL_end; [exact Hs|exact HV|exact A1|reflexivity]. }
        exists d2, b2. split.
        { change (removelast (l :: l2 :: r)) with (l :: removelast (l2 :: r)). cbn [length seq combine rfold fst snd] in *. rewrite E1. cbn [bind]. exact E2. }
        split; auto. intros x. rewrite H2, H1, HM1.
        replace (seq 0 (S (S k))) with (seq 0 (S k) ++ [S k])%nat by (symmetry; apply (seq_S (S k) 0)). rewrite existsb_app. cbn [existsb Nat.add Nat.eqb negb].
        rewrite orb_true_r, andb_true_r, orb_false_r.
        destruct (distf g s x) as [a|]; [|rewrite orb_false_r; destruct (existsb _ _); ring].
        destruct (Nat.eqb_spec a (S k)) as [->|]; [|rewrite orb_false_r; ring]. rewrite orb_true_r.
        destruct (existsb (fun j => (S k =? j)%nat && (false || negb (j =? 0)%nat)) (seq 0 (S k))) eqn:Ex; [|ring]. exfalso.
        apply existsb_exists in Ex. destruct Ex as (q & I & J). apply andb_prop in J. destruct J as [J _]. apply Nat.eqb_eq in J. apply in_seq in I. lia.
    Qed.
  End BK.
  Lemma v2_root_ok sched bc : (forall l, (l <= n)%nat -> good g s V2 (sched l)) -> length bc = n -> exists bc', v2_root vmax M g sched bc s = Ok bc' /\ length bc' = n /\
    forall x, nth x bc' 0 = nth x bc 0 + (if negb (x =? s)%nat then dep x else 0).
  Proof.
    intros G Lb. unfold v2_root. destruct (@xforward g s M vmax 1 V2 T Hs HM HV (le_n _) sched G) as (st & ret & k & -> & C1 & C2 & LO & HA).
    cbn [bind]. cbn [recb] in C2.
    assert (F : fin g s (x_pc st) (x_P st)).
    { apply (@fin_of g s vmax Hs HV (S k)); auto. intros x. rewrite (HA x). split; intros (a & La & D); exists a; split; auto; try lia.
      destruct (proj1 (HA x)) as (b & Lb' & Db); [exists a; apply D|]. rewrite (dist_fun D Db). auto. }
    destruct (@v2_back_all _ _ F (fun i => sched (n + 1 + i)%nat) ret 0 k (repeat 0 n) bc LO (DLb_first T Hs HV HA) Lb) as (d & b & E & L & H).
    unfold v2_level in E. rewrite E. cbn [bind snd]. exists b. split; auto. split; auto.
    intros x. rewrite H. f_equal. now apply (back_total T Hs HV false).
  Qed.
End B.
