(** Runs of the augmented-Lagrangian solver: statuses, limits, feasibility. *)
From Coq Require Import ZArith String List Bool Lia.
From Verif Require Import Base Lin RLin ConModel LogModel StatsModel StatsSpec StatsProofs TrajModel IlqrModel IlqrSpec IlqrFrame IlqrProofs IlqrProofs2 IlqrProofs3 IlqrProofs4 IlqrProofs5 IlqrProofs6 CostInst AlModel AlProofs.
Import ListNotations.
Local Open Scope Z_scope.

Section Run.
Context {F : Scalar} (n m : nat).
Notation IL := (ILQR F (ALCost F)).

(** what no part of the outer loop changes *)
Record same_problem (s s' : IL) : Prop := mkSameP {
  sp_opts : il_opts s' = il_opts s; sp_N : il_N s' = il_N s; sp_x0 : il_x0 s' = il_x0 s;
  sp_dyn : map kp_dyn (il_kps s') = map kp_dyn (il_kps s) }.
Lemma sp_refl s : same_problem s s. Proof. split; reflexivity. Qed.
Lemma sp_trans a b c : same_problem a b -> same_problem b c -> same_problem a c.
Proof. intros [] []. split; congruence. Qed.
Lemma solve_problem debug fuel (s s1 : IL) : il_solve al_ops n m als_max_violation debug fuel s = Ok s1 -> same_problem s s1.
Proof.
  intros H.
  destruct (solve_ready (@al_ops F) n m als_max_violation (fun _ _ => True) (fun _ => I)) with (debug:=debug) (fuel:=fuel) (s:=s) (s':=s1) as [_ Hfr]; try (intros; exact I); auto.
  destruct Hfr. split; auto. eapply kps_dyns; eauto.
Qed.

Lemma recost_spec debug (s s' : IL) : il_recost debug s = Ok s' ->
  same_problem s s' /\ il_Z s' = il_Z s /\ il_Zb s' = il_Zb s /\ il_stats s' = il_stats s /\ il_status s' = il_status s /\
  exists Z, il_Z s = Some Z /\ length Z = S (il_N s) /\ length (il_kps s) = S (il_N s) /\ il_kps s' = snd (calc_costs al_ops (il_kps s) Z).
Proof.
  unfold il_recost, il_get_Z. destruct (altro_assert debug _); try discriminate. cbn [bind].
  destruct (il_Z s) as [Z|] eqn:EZ; try discriminate. cbn [bind].
  destruct (Nat.eqb_spec (length Z) (S (il_N s))); [|discriminate].
  destruct (Nat.eqb_spec (length (il_kps s)) (S (il_N s))); [|discriminate]. cbn [andb bind].
  intros H. apply (f_equal (fun r => match r with Ok x => x | _ => s' end)) in H. subst s'.
  unfold il_cost. destruct (calc_costs al_ops (il_kps s) Z) as [Js ks] eqn:E. cbn.
  assert (Hd : map kp_dyn ks = map kp_dyn (il_kps s)).
  { pose proof (sim_calc_costs (@al_ops F) (fun _ _ => True) (fun _ => I) (fun _ _ _ => I) (il_kps s) Z) as A.
    rewrite E in A. eapply kps_dyns; exact A. }
  split; [split; auto|]. repeat (split; [auto|]). exists Z. rewrite E. auto.
Qed.

Lemma init_spec debug (s b : IL) : as_init debug s = Ok b -> 
  same_problem s b /\ il_Z b = il_Z s /\ il_Zb b = il_Zb s /\ il_status b = il_status s /\
  st_outer (il_stats b) = 0 /\ st_total (il_stats b) = 0 /\ 0 <= o_max_total (il_opts s) /\
  (map fst (st_ser (il_stats s)) = series_titles -> stats_ok (il_stats b)).
Proof.
  unfold as_init. set (s1 := if o_reset_duals (il_opts s) then il_map_costobjs al_reset_duals s else s). cbv zeta.
  assert (Hk : forall f (t : IL), same_problem t (il_set_costobjs f t)).
  { intros f t. split; try reflexivity. apply (proj1 (set_costs_dyn f (il_kps t))). }
  assert (H1 : same_problem s s1 /\ il_Z s1 = il_Z s /\ il_Zb s1 = il_Zb s /\ il_status s1 = il_status s /\ il_stats s1 = il_stats s).
  { unfold s1. destruct (o_reset_duals (il_opts s)); [split; [apply Hk|auto]|split; [apply sp_refl|auto]]. }
  destruct H1 as (P1 & Z1 & Zb1 & S1 & T1). clearbody s1.
  destruct (if ltb zero (o_init_pen (il_opts s)) then do cs <- als_set_penalty debug (o_init_pen (il_opts s)) (il_costobjs s1) ; Ok (il_set_costobjs cs s1) else Ok s1)
    as [s2| | | | |] eqn:E2; try discriminate. cbn [bind].
  assert (H2 : same_problem s1 s2 /\ il_Z s2 = il_Z s1 /\ il_Zb s2 = il_Zb s1 /\ il_status s2 = il_status s1 /\ il_stats s2 = il_stats s1).
  { destruct (ltb zero (o_init_pen (il_opts s))).
    - destruct (als_set_penalty debug (o_init_pen (il_opts s)) (il_costobjs s1)); try discriminate. cbn [bind] in E2.
      apply (f_equal (fun r => match r with Ok x => x | _ => s2 end)) in E2. subst s2. split; [apply Hk|auto].
    - inversion E2; subst. split; [apply sp_refl|auto]. }
  destruct H2 as (P2 & Z2 & Zb2 & S2 & T2). clear E2.
  destruct (st_reset debug (il_opts s) (il_stats s2)) as [st| | | | |] eqn:E3; try discriminate. cbn [bind].
  unfold st_reset in E3. destruct (Z.ltb_spec (o_max_total (il_opts s)) 0); [discriminate|].
  destruct (lg_set_frequency debug _ _) as [g'| | | | |]; try discriminate. cbn [bind] in E3.
  apply (f_equal (fun r => match r with Ok x => x | _ => st end)) in E3.
  destruct (il_recost debug (il_set_stats s2 (st_logZ "iter_al" 0 st))) as [s3| | | | |] eqn:E4; try discriminate. cbn [bind].
  intros Hb. apply (f_equal (fun r => match r with Ok x => x | _ => b end)) in Hb.
  destruct (recost_spec _ _ _ E4) as (P3 & Z3 & Zb3 & T3 & S3 & _). cbn [il_set_stats il_Z il_Zb il_stats il_status] in *.
  assert (Pb : same_problem s3 b) by (subst b; split; reflexivity).
  split. { eapply sp_trans; [exact P1|]. eapply sp_trans; [exact P2|]. eapply sp_trans; [|exact Pb]. destruct P3. split; auto. }
  assert (Eb : il_stats b = st_logF "pen" (als_max_penalty (il_costobjs s3)) (st_logF "viol" (als_max_violation (il_costobjs s3)) (st_logZ "iter_al" 0 st)))
    by (rewrite <- T3; subst b; reflexivity).
  split; [subst b; cbn; congruence|]. split; [subst b; cbn; congruence|]. split; [subst b; cbn; congruence|].
  split; [|split; [|split; [lia|]]].
  - rewrite Eb. unfold st_logZ, st_logF. rewrite !(fun st t v => proj1 (proj2 (log_counts st t v))). subst st. reflexivity.
  - rewrite Eb. unfold st_logZ, st_logF. rewrite !(fun st t v => proj2 (proj2 (log_counts st t v))). subst st. reflexivity.
  - intros Ht. rewrite Eb. unfold st_logZ, st_logF.
    apply stats_ok_log, stats_ok_log, stats_ok_log. subst st. split; cbn.
    + rewrite map_map. cbn. rewrite T2, T1. exact Ht.
    + intros p Hp. apply in_map_iff in Hp. destruct Hp as (q & <- & _). reflexivity.
Qed.

(** one outer iteration *)
Lemma done_cases (s4 : IL) d V P : as_is_done s4 = Ok d -> st_back "viol" (il_stats s4) = Ok V -> st_back "pen" (il_stats s4) = Ok P ->
  d = if negb (status_eqb (il_status s4) kSolved) then Some (il_status s4)
      else if ltb V (o_con_tol (il_opts s4)) then Some kSolved
      else if ltb (o_max_pen (il_opts s4)) P then Some kMaxPenalty
      else if o_max_outer (il_opts s4) <=? st_outer (il_stats s4) then Some kMaxOuterIterations
      else if o_max_total (il_opts s4) <=? st_total (il_stats s4) then Some kMaxIterations
      else None.
Proof. unfold as_is_done. intros H H1 H2. rewrite H1, H2 in H. cbn [bind] in H. injection H as H. symmetry. exact H. Qed.
Lemma as_done_false (s4 : IL) : as_is_done s4 = Ok None -> il_status s4 = kSolved /\
  st_outer (il_stats s4) < o_max_outer (il_opts s4) /\ st_total (il_stats s4) < o_max_total (il_opts s4).
Proof.
  unfold as_is_done. destruct (st_back "viol" (il_stats s4)); try discriminate. cbn [bind].
  destruct (st_back "pen" (il_stats s4)); try discriminate. cbn [bind].
  destruct (il_status s4); try discriminate. cbn [status_eqb negb].
  destruct (ltb a _); try discriminate. destruct (ltb _ a0); try discriminate.
  destruct (Z.leb_spec (o_max_outer (il_opts s4)) (st_outer (il_stats s4))); try discriminate.
  destruct (Z.leb_spec (o_max_total (il_opts s4)) (st_total (il_stats s4))); try discriminate. auto.
Qed.

Lemma outer_problem debug fuel (s : IL) d s' s1 s4 : outer_step n m debug fuel s d s' s1 s4 -> same_problem s s1 /\ same_problem s1 s4 /\ same_problem s4 s'.
Proof.
  intros []. split; [eapply solve_problem; eauto|]. split; [split; auto|].
  destruct d; [subst s'; apply sp_refl|]. destruct ou_end as (A & B & C & _ & _ & _ & D & _). split; auto.
Qed.
(** invariant at the start of outer iteration j+1 *)
Lemma reach_outer debug fuel (b : IL) j s : as_reach n m debug fuel b j s -> st_outer (il_stats b) = 0 -> st_total (il_stats b) = 0 -> stats_ok (il_stats b) ->
  same_problem b s /\ st_outer (il_stats s) = Z.of_nat j /\ stats_ok (il_stats s) /\ 
  ((j = 0%nat /\ s = b) \/ ((1 <= j)%nat /\ st_total (il_stats s) < o_max_total (il_opts b) /\ Z.of_nat j < o_max_outer (il_opts b))) /\
  (1 <= o_max_total (il_opts b) -> st_total (il_stats s) < o_max_total (il_opts b)) /\ 0 <= st_total (il_stats s).
Proof.
  intros H H1 H2 H3. induction H as [|j s s' H IH Hi].
  - split; [apply sp_refl|]. split; [lia|]. split; [exact H3|]. split; [auto|]. split; lia.
  - destruct IH as (P & O & K & _ & L & T0). destruct (as_iter_spec n m debug fuel s None s' Hi) as (s1 & s4 & S4).
    destruct (outer_problem _ _ _ _ _ _ _ S4) as (P1 & P4 & P').
    pose proof (solve_stats_ok al_ops n m als_max_violation debug fuel s s1 (ou_solve _ _ _ _ _ _ _ _ _ S4) K) as K1.
    destruct (solve_bounds al_ops n m als_max_violation debug fuel s s1 (ou_solve _ _ _ _ _ _ _ _ _ S4)) as (B1 & B2 & B3 & B4 & _).
    destruct S4. destruct ou_end as (E1 & E2 & E3 & E4 & E5 & E6 & E7 & E8 & E9 & E10 & E11 & E12 & E13).
    destruct (as_done_false _ ou_done) as (D1 & D2 & D3). destruct (ou_stats K1) as (K4 & _).
    assert (Ho : il_opts s4 = il_opts b) by (destruct P, P1, P4; congruence).
    rewrite Ho in D2, D3.
    split; [eauto using sp_trans|]. split; [lia|]. split; [eapply stats_ok_ext; eauto|].
    split; [right; lia|]. lia.
Qed.
Lemma as_loop_run debug fuel : forall iters (a a' : ALS F), as_loop n m debug fuel iters a = Ok a' -> (0 < iters)%nat ->
  exists j s d, as_reach n m debug fuel (as_il a) j s /\ (j < iters)%nat /\ as_iteration n m debug fuel s = Ok (d, as_il a') /\
    match d with Some e => as_status a' = e | None => S j = iters /\ as_status a' = as_status a end.
Proof.
  assert (G : forall iters j b (a a' : ALS F), as_reach n m debug fuel b j (as_il a) -> as_loop n m debug fuel iters a = Ok a' -> (0 < iters)%nat ->
   exists i s d, as_reach n m debug fuel b i s /\ (i < j + iters)%nat /\ as_iteration n m debug fuel s = Ok (d, as_il a') /\
    match d with Some e => as_status a' = e | None => S i = (j + iters)%nat /\ as_status a' = as_status a end).
  { induction iters as [|it IH]; intros j b a a' Hr H Hp; [lia|]. cbn [as_loop] in H.
    destruct (as_iteration n m debug fuel (as_il a)) as [[d s1]| | | | |] eqn:E; try discriminate. cbn [bind] in H.
    destruct d as [e|].
    - inversion H; subst. exists j, (as_il a), (Some e). cbn. split; [exact Hr|]. split; [lia|]. split; [exact E|reflexivity].
    - destruct it as [|it].
      + cbn in H. inversion H; subst. exists j, (as_il a), None. cbn. split; [exact Hr|]. split; [lia|]. split; [exact E|split; [lia|reflexivity]].
      + destruct (IH (S j) b (mkALS s1 (as_status a)) a') as (i & s & d & A & B & C & D); [eapply as_reachS; eauto|exact H|lia|].
        exists i, s, d. split; [exact A|]. split; [lia|]. split; [exact C|]. destruct d; [exact D|]. cbn in D. split; [lia|apply D]. }
  intros iters a a' H Hp. destruct (G iters 0%nat (as_il a) a a' (as_reach0 _ _ _ _ _) H Hp) as (j & s & d & A & B & C & D). exists j, s, d. auto.
Qed.

(** everything about the end of an outer solve *)
Theorem as_run debug fuel (a a' : ALS F) : as_solve n m debug fuel a = Ok a' -> 1 <= o_max_outer (il_opts (as_il a)) ->
  map fst (st_ser (il_stats (as_il a))) = series_titles ->
  exists b j s s1, as_init debug (as_il a) = Ok b /\ as_reach n m debug fuel b j s /\
    il_solve al_ops n m als_max_violation debug fuel s = Ok s1 /\
    outer_step n m debug fuel s (Some (as_status a')) (as_il a') s1 (as_il a') /\
    same_problem (as_il a) s /\ same_problem (as_il a) (as_il a') /\
    stats_ok (il_stats s) /\ stats_ok (il_stats (as_il a')) /\
    st_outer (il_stats s) = Z.of_nat j /\ st_outer (il_stats (as_il a')) = Z.of_nat j + 1 /\ Z.of_nat j < o_max_outer (il_opts (as_il a)) /\
    (1 <= o_max_total (il_opts (as_il a)) -> st_total (il_stats s) < o_max_total (il_opts (as_il a))) /\ 0 <= st_total (il_stats s).
Proof.
  intros H Hm Ht. unfold as_solve in H. destruct (as_init debug (as_il a)) as [b| | | | |] eqn:Eb; try discriminate. cbn [bind] in H.
  destruct (init_spec _ _ _ Eb) as (P & HZ & HZb & Hs & Ho & Hto & Hmt & Hok). specialize (Hok Ht).
  assert (Hopt : il_opts b = il_opts (as_il a)) by apply P.
  destruct (as_loop_run debug fuel _ _ _ H) as (j & s & d & A & B & C & D); [rewrite Hopt; lia|]. cbn [as_il as_status] in A, D. rewrite Hopt in B, D.
  destruct (reach_outer _ _ _ _ _ A Ho Hto Hok) as (R1 & R2 & R3 & R4 & R5 & R6). rewrite Hopt in R4, R5.
  destruct (as_iter_spec n m debug fuel s d (as_il a') C) as (s1 & s4 & S4).
  destruct (outer_problem _ _ _ _ _ _ _ S4) as (P1 & P4 & P').
  pose proof (ou_solve _ _ _ _ _ _ _ _ _ S4) as Hsol.
  pose proof (solve_stats_ok al_ops n m als_max_violation debug fuel s s1 Hsol R3) as K1.
  destruct (solve_bounds al_ops n m als_max_violation debug fuel s s1 Hsol) as (B1 & B2 & B3 & B4 & _).
  destruct d as [e|].
  - pose proof (ou_end _ _ _ _ _ _ _ _ _ S4) as E. cbn in E. subst s4. subst e.
    pose proof (ou_outer _ _ _ _ _ _ _ _ _ S4) as E.
    destruct (ou_stats _ _ _ _ _ _ _ _ _ S4 K1) as (K4 & _).
    exists b, j, s, s1. split; [reflexivity|]. split; [exact A|]. split; [exact Hsol|]. split; [exact S4|].
    split; [eauto using sp_trans|]. split; [eauto using sp_trans|]. split; [exact R3|]. split; [exact K4|].
    split; [exact R2|]. split; [lia|]. split; [lia|]. auto.
  - exfalso. destruct (as_done_false _ (ou_done _ _ _ _ _ _ _ _ _ S4)) as (D1 & D2 & D3).
    pose proof (ou_outer _ _ _ _ _ _ _ _ _ S4) as E.
    assert (il_opts s4 = il_opts (as_il a)) by (destruct P, R1, P1, P4; congruence). rewrite H0 in D2. lia.
Qed.

(** feasibility with respect to the dynamics *)
Theorem as_feasible debug fuel (a a' : ALS F) : as_solve n m debug fuel a = Ok a' -> 1 <= o_max_outer (il_opts (as_il a)) ->
  map fst (st_ser (il_stats (as_il a))) = series_titles ->
  exists Z Z', il_Z (as_il a) = Some Z /\ il_Z (as_il a') = Some Z' /\ length Z' = S (il_N (as_il a)) /\
    dyn_feasible n (il_x0 (as_il a)) (map kp_dyn (il_kps (as_il a))) Z' /\
    map z_t Z' = map z_t Z /\ removelast (map z_h Z') = removelast (map z_h Z).
Proof.
  intros H Hm Ht. destruct (as_run debug fuel a a' H Hm Ht) as (b & j & s & s1 & Hb & Hr & Hs & S4 & P & _).
  destruct (init_spec _ _ _ Hb) as (Pb & HZ & _).
  assert (G : exists Z Zs, il_Z (as_il a) = Some Z /\ il_Z s = Some Zs /\ map z_t Zs = map z_t Z /\ removelast (map z_h Zs) = removelast (map z_h Z)).
  { clear Hs S4 P. induction Hr as [|i t t' Hr IH Hi].
    - destruct (as_run debug fuel a a' H Hm Ht) as (b' & j' & s' & s1' & Hb' & Hr' & Hs' & S4' & P' & _).
      assert (b' = b) by congruence. subst b'.
      assert (exists Z, il_Z b = Some Z) as [Z EZ].
      { clear - Hb. unfold as_init in Hb. cbv zeta in Hb.
        destruct (if ltb zero (o_init_pen (il_opts (as_il a))) then _ else _); try discriminate. cbn [bind] in Hb.
        destruct (st_reset _ _ _); try discriminate. cbn [bind] in Hb.
        destruct (il_recost _ _) as [s3| | | | |] eqn:E; try discriminate. cbn [bind] in Hb.
        destruct (recost_spec _ _ _ E) as (_ & E1 & _ & _ & _ & Z & E2 & _).
        apply (f_equal (fun r => match r with Ok x => x | _ => b end)) in Hb. subst b. cbn. exists Z. congruence. }
      exists Z, Z. rewrite <- HZ. auto.
    - destruct IH as (Z & Zt & E1 & E2 & E3 & E4). destruct (as_iter_spec n m debug fuel t None t' Hi) as (t1 & t4 & S4).
      destruct (solve_dyn_feasible al_ops n m als_max_violation debug fuel t t1 (ou_solve _ _ _ _ _ _ _ _ _ S4)) as (Z0 & Z1 & A1 & A2 & A3 & A4 & A5 & A6).
      destruct S4. destruct ou_end as (_ & _ & _ & E & _). exists Z, Z1. split; [exact E1|]. split; [congruence|].
      assert (Z0 = Zt) by congruence. subst. split; congruence. }
  destruct G as (Z & Zs & E1 & E2 & E3 & E4).
  destruct (solve_dyn_feasible al_ops n m als_max_violation debug fuel s s1 Hs) as (Z0 & Z1 & A1 & A2 & A3 & A4 & A5 & A6).
  assert (Z0 = Zs) by congruence. subst Z0. destruct P as [Q1 Q2 Q3 Q4]. exists Z, Z1.
  split; [exact E1|]. split; [rewrite (ou_Z _ _ _ _ _ _ _ _ _ S4); exact A2|]. split; [congruence|].
  split; [rewrite <- Q3, <- Q4; exact A4|]. split; congruence.
Qed.

(** C14 *)
Theorem as_limits debug fuel (a a' : ALS F) : as_solve n m debug fuel a = Ok a' ->
  map fst (st_ser (il_stats (as_il a))) = series_titles ->
  let o := il_opts (as_il a) in let st := il_stats (as_il a') in
  0 <= st_outer st <= Z.max 0 (o_max_outer o) /\
  (1 <= o_max_outer o -> 1 <= st_outer st) /\
  (1 <= o_max_total o -> 0 <= st_total st <= o_max_total o).
Proof.
  intros H Ht. cbv zeta. destruct (Z_le_gt_dec 1 (o_max_outer (il_opts (as_il a)))) as [Hm|Hm].
  - destruct (as_run debug fuel a a' H Hm Ht) as (b & j & s & s1 & Hb & Hr & Hs & S4 & P & P' & K & K' & O1 & O2 & O3 & T & T0).
    split; [lia|]. split; [lia|]. intros Hmt. specialize (T Hmt).
    destruct (solve_bounds al_ops n m als_max_violation debug fuel s s1 Hs) as (B1 & B2 & B3 & B4 & _).
    rewrite (ou_total _ _ _ _ _ _ _ _ _ S4). destruct P as [Q _ _ _]. rewrite Q in B4. lia.
  - unfold as_solve in H. destruct (as_init debug (as_il a)) as [b| | | | |] eqn:Eb; try discriminate. cbn [bind] in H.
    destruct (init_spec _ _ _ Eb) as (P & HZ & HZb & Hs & Ho & Hto & Hmt & Hok). destruct P as [Q _ _ _]. rewrite Q in H.
    replace (Z.to_nat (o_max_outer (il_opts (as_il a)))) with 0%nat in H by lia. inversion H; subst. cbn. lia.
Qed.
(** every inner solve started by the outer loop *)
Theorem as_inner_limit debug fuel (a : ALS F) b j s s1 : as_init debug (as_il a) = Ok b ->
  map fst (st_ser (il_stats (as_il a))) = series_titles -> as_reach n m debug fuel b j s ->
  il_solve al_ops n m als_max_violation debug fuel s = Ok s1 ->
  let o := il_opts (as_il a) in
  0 <= st_inner (il_stats s1) <= Z.max 0 (o_max_inner o) /\ st_total (il_stats s1) = st_total (il_stats s) + st_inner (il_stats s1).
Proof.
  intros Hb Ht Hr Hs. destruct (init_spec _ _ _ Hb) as (P & HZ & HZb & Hst & Ho & Hto & Hmt & Hok).
  destruct (reach_outer _ _ _ _ _ Hr Ho Hto (Hok Ht)) as (R1 & _).
  destruct (solve_bounds al_ops n m als_max_violation debug fuel s s1 Hs) as (B1 & B2 & _).
  assert (E : il_opts s = il_opts (as_il a)) by (destruct P, R1; congruence). rewrite E in B1. auto.
Qed.
End Run.
