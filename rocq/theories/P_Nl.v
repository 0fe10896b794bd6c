(** Property theorems: nonlinear problems, exact reals (C82). *)
From Coq Require Import Reals Lra Lia List Bool ZArith Psatz Arith.
From Coquelicot Require Import Coquelicot.
Import List ListNotations.
From Verif Require Import Base Lin LogModel StatsModel TrajModel IlqrModel IlqrSpec LsSpec RLin RDer LqSpec LltProofs LqProofs LqProofs2 LqProofs3 LqProbSpec NlSpec NlProofs NlProofs2 NlProofs3 NlProofs4 NlExamples.
Local Open Scope R_scope.

(** ** C82 *)
(** Differentiability ([slopes], the chain rule along curves) follows from differentiability in the sense of Frechet. *)
Theorem C82_frechet : forall n m g gx gu x u, frechet n m g gx gu x u -> slopes n m g gx gu x u.
Proof. exact frechet_slopes. Qed.
(** Dynamics and costs are arbitrary differentiable functions with correct user gradients and Jacobians; the Hessians are only required to be
    symmetric.  [s] holds the trajectory [Z], which obeys the dynamics; the expansions at [Z] and then the backward pass run, the pass without a
    restart (fuel 1) and without regularisation.  Then the recorded expected change deltaV[0] is the slope, at step size 0, of the true cost of the
    closed-loop simulation as a function of the step size; it is never positive, and zero only if all feedforward gains are zero. *)
Theorem C82_slope : forall CS n m (ops : CostOps RS CS) Inv V s Z Zb s2 fam, nl_setting n m ops Inv V s Z Zb -> il_rho s = 0 ->
  il_backward_pass n m 1 (il_update_expansions ops n m Z s) = Ok s2 -> il_status s2 <> kBackwardPassRegularizationFailed -> line n m s2 Z Zb fam ->
  is_derive (fun a => total_cost V s (fam a)) 0 (il_dV0 s2) /\ il_dV0 s2 <= 0 /\ (il_dV0 s2 = 0 -> no_step m s2).
Proof. intros CS n m ops Inv V s Z Zb s2 fam NS R0 EB ST LF. exact (slope n m ops Inv V s Z Zb NS 1 s2 EB ST fam LF eq_refl R0). Qed.
(** such a family of simulations exists, for every number of restarts *)
Theorem C82_line : forall CS n m (ops : CostOps RS CS) Inv V s Z Zb fuel s2, nl_setting n m ops Inv V s Z Zb ->
  il_backward_pass n m fuel (il_update_expansions ops n m Z s) = Ok s2 -> il_status s2 <> kBackwardPassRegularizationFailed -> exists fam, line n m s2 Z Zb fam.
Proof. intros CS n m ops Inv V s Z Zb fuel s2 NS EB ST. exact (line_exists n m ops Inv V s Z Zb NS fuel s2 EB ST). Qed.
(** with any regularisation, if the stored quadratic model is convex, the slope is at most deltaV[0] + deltaV[1] *)
Theorem C82_descent : forall CS n m (ops : CostOps RS CS) Inv V s Z Zb s2 fam, nl_setting n m ops Inv V s Z Zb -> 0 <= il_rho s -> convex_model n m (il_update_expansions ops n m Z s) ->
  il_backward_pass n m 1 (il_update_expansions ops n m Z s) = Ok s2 -> il_status s2 <> kBackwardPassRegularizationFailed -> line n m s2 Z Zb fam ->
  exists sl, is_derive (fun a => total_cost V s (fam a)) 0 sl /\ sl <= il_dV0 s2 + il_dV1 s2 /\ il_dV0 s2 + il_dV1 s2 <= 0 /\ (il_dV0 s2 + il_dV1 s2 = 0 -> no_step m s2).
Proof. intros CS n m ops Inv V s Z Zb s2 fam NS R0 CM EB ST LF. exact (descent n m ops Inv V s Z Zb NS 1 s2 EB ST fam LF eq_refl R0 CM). Qed.
(** the gains are zero exactly at the stationary points of the true cost: every variation of the controls, followed through the dynamics, leaves the
    cost unchanged to first order; for every regularisation and number of restarts *)
Theorem C82_stationary : forall CS n m (ops : CostOps RS CS) Inv V s Z Zb fuel s2, nl_setting n m ops Inv V s Z Zb ->
  il_backward_pass n m fuel (il_update_expansions ops n m Z s) = Ok s2 -> il_status s2 <> kBackwardPassRegularizationFailed ->
  (no_step m s2 <-> forall du fam, (forall a, varied n m s Z du a (fam a)) -> is_derive (fun a => total_cost V s (fam a)) 0 0).
Proof. intros CS n m ops Inv V s Z Zb fuel s2 NS EB ST. exact (stationary n m ops Inv V s Z Zb NS fuel s2 EB ST). Qed.
(** away from stationary points the line search does not turn down small enough steps, and ends with a lower cost if its list of steps
    1, 1/factor, 1/factor^2, ... reaches them; with a factor above 1 such a step exists *)
Theorem C82_accept : forall CS n m (ops : CostOps RS CS) Inv V s Z Zb s2, nl_setting n m ops Inv V s Z Zb -> il_rho s = 0 ->
  il_backward_pass n m 1 (il_update_expansions ops n m Z s) = Ok s2 -> il_status s2 <> kBackwardPassRegularizationFailed ->
  ~ no_step m s2 -> o_ls_lb (il_opts s) < 1 < o_ls_ub (il_opts s) -> inside_limits n m (il_opts s) Z ->
  exists a0, 0 < a0 /\ (forall a, 0 < a < a0 -> ~ turned_down n m V s2 (times Zb) Z (total_cost V s Z) a) /\
  (1 < o_ls_factor (il_opts s) -> exists j, 0 < step_size (F:=RS) (o_ls_factor (il_opts s)) j < a0) /\
  forall j, (j < Z.to_nat (o_ls_iters (il_opts s)))%nat -> 0 < step_size (F:=RS) (o_ls_factor (il_opts s)) j < a0 -> exists Z', il_Z (il_forward_pass ops n m Z s2) = Some Z' /\ total_cost V s Z' < total_cost V s Z.
Proof.
  intros CS n m ops Inv V s Z Zb s2 NS R0 EB ST NN LB IL. destruct (accept n m ops Inv V s Z Zb NS 1 s2 EB ST eq_refl R0 NN LB IL) as (a0 & A0 & A1 & A2).
  exists a0. split; [exact A0|]. split; [exact A1|]. split; [intros G; exact (steps_small _ a0 G A0)|exact A2].
Qed.

(** Finding: with regularisation and without convexity, the line of simulations may lead uphill although deltaV[0] is negative: here
    x' = x + u twice, costs u, then 9 x^2 + 3 x u - 6 x - u, from x = 0, u = 0, 0; regularisation 1.  Every step size small enough raises the cost. *)
Definition up_costs : list SQ := [mkSQ 0 0 0 0 1; mkSQ 18 3 0 (-6) (-1); mkSQ 0 0 0 0 0].
Definition up_traj : Traj RS := [mkKP (F:=RS) (fun _ => 0) (fun _ => 0) 0 1; mkKP (F:=RS) (fun _ => 0) (fun _ => 0) 1 1; mkKP (F:=RS) (fun _ => 0) (fun _ => 0) 2 0].
Definition up_solver : ILQR RS SQ := sq_solver 0 0 1 2 up_costs up_traj.
Lemma up_setting : nl_setting 1 1 sq_ops (fun _ => True) sq_val up_solver up_traj up_traj.
Proof.
  apply sq_setting; try reflexivity.
  - intros q H. inversion H. cbn. auto.
  - split; [intros z i H _; inversion H; reflexivity|]. intros k f z z' Hf Hz Hz'. exists vzero. intros i _.
    destruct k as [|[|k]]; cbn in Hf, Hz, Hz'; [..|destruct k; discriminate]; inversion Hf; inversion Hz; inversion Hz'; cbn; lra.
Qed.
Definition up_1 := il_update_expansions sq_ops 1 1 up_traj up_solver.
Definition up_k (q : SQ) (t h : R) : KPF RS SQ := snd (expand_kp sq_ops 1 1 (mkKP (F:=RS) (fun _ => 0) (fun _ => 0) t h) (kpf_make (F:=RS) (sq_dyn 0) q)).
Lemma up_kps : il_kps up_1 = [up_k (mkSQ 0 0 0 0 1) 0 1; up_k (mkSQ 18 3 0 (-6) (-1)) 1 1; up_k (mkSQ 0 0 0 0 0) 2 0].
Proof. reflexivity. Qed.
Lemma up_sweep : let k0 := up_k (mkSQ 0 0 0 0 0) 2 0 in exists a b SW sW, kp_d a 0%nat = -1 /\ kp_K a 0%nat 0%nat = 0 /\ kp_d b 0%nat = 1 /\ kp_K b 0%nat 0%nat = -3 /\ stage_of 1 a = stage_of 1 (up_k (mkSQ 0 0 0 0 1) 0 1) /\ stage_of 1 b = stage_of 1 (up_k (mkSQ 18 3 0 (-6) (-1)) 1 1) /\
  bp_sweep 1 1 (1 : RS) [up_k (mkSQ 0 0 0 0 1) 0 1; up_k (mkSQ 18 3 0 (-6) (-1)) 1 1] (e_xx (kp_ce k0)) (e_x (kp_ce k0)) 0 0 = mkSweep true [a; b] SW sW (-2) 0.
Proof.
  cbv zeta. set (k0 := up_k (mkSQ 0 0 0 0 0) 2 0).
  assert (S0 : e_xx (kp_ce k0) 0%nat 0%nat = 0) by reflexivity. assert (s0 : e_x (kp_ce k0) 0%nat = 0) by (cbn; lra).
  set (SN := e_xx (kp_ce k0)) in *. set (sN := e_x (kp_ce k0)) in *. clearbody SN sN. clear k0.
  destruct (sq_stage 0 (mkSQ 18 3 0 (-6) (-1)) (mkKP (F:=RS) (fun _ => 0) (fun _ => 0) 1 1)) as (A1 & A2 & A3 & A4 & A5 & A6 & A7). fold (up_k (mkSQ 18 3 0 (-6) (-1)) 1 1) in A1, A2, A3, A4, A5, A6, A7.
  destruct (sq_stage 0 (mkSQ 0 0 0 0 1) (mkKP (F:=RS) (fun _ => 0) (fun _ => 0) 0 1)) as (B1 & B2 & B3 & B4 & B5 & B6 & B7). fold (up_k (mkSQ 0 0 0 0 1) 0 1) in B1, B2, B3, B4, B5, B6, B7.
  set (k2 := up_k (mkSQ 18 3 0 (-6) (-1)) 1 1) in *. set (k1 := up_k (mkSQ 0 0 0 0 1) 0 1) in *. clearbody k1 k2. cbn [z_x z_u q_xx q_xu q_uu q_x q_u] in *.
  pose proof (one_step SQ 1 0 0 k2 SN sN S0 s0) as T. cbv zeta in T. rewrite A1, A2, A3, A4, A5, A6, A7 in T. destruct T as (b & G & T1 & T2 & T3 & T4 & T5 & T6 & T7); [lra|].
  pose proof (sweep_snoc SQ 1 k2 b [] SN sN 0 0 eq_refl G) as W. cbv zeta in W. set (w := bp_sweep 1 1 (1 : RS) [k2] SN sN 0 0) in *. set (b3 := kpf_ctg 1 1 b) in *. clearbody b3.
  assert (WS : sw_S w 0%nat 0%nat = 0) by (rewrite W; cbn [sw_S]; rewrite T3; lra). assert (Ws : sw_s w 0%nat = 0) by (rewrite W; cbn [sw_s]; rewrite T4; lra).
  pose proof (one_step SQ 1 0 0 k1 (sw_S w) (sw_s w) WS Ws) as U. cbv zeta in U. rewrite B1, B2, B3, B4, B5, B6, B7 in U. destruct U as (a & G' & U1 & U2 & U3 & U4 & U5 & U6 & U7); [lra|].
  assert (OK : sw_ok w = true) by (rewrite W; reflexivity).
  pose proof (sweep_snoc SQ 1 k1 a [k2] SN sN 0 0 OK G') as W'. cbv zeta in W'. set (a3 := kpf_ctg 1 1 a) in *. clearbody a3.
  exists a3, b3, (kp_S a3), (kp_s a3). rewrite U1, U2, T1, T2. repeat (split; [lra|]). split; [exact U7|]. split; [exact T7|]. rewrite W'. fold w. rewrite W. cbn [sw_kps sw_v0 sw_v1]. rs. rewrite U5, U6, T5, T6. f_equal; cbn; lra.
Qed.
Theorem C82_regularised_refuted : exists CS (ops : CostOps RS CS) Inv V s Z Zb s2, nl_setting 1 1 ops Inv V s Z Zb /\ 0 < il_rho s /\
  il_backward_pass 1 1 1 (il_update_expansions ops 1 1 Z s) = Ok s2 /\ il_status s2 <> kBackwardPassRegularizationFailed /\ il_dV0 s2 = -2 /\ il_dV1 s2 = 0 /\
  (exists fam, line 1 1 s2 Z Zb fam) /\ forall fam, line 1 1 s2 Z Zb fam -> is_derive (fun a => total_cost V s (fam a)) 0 1.
Proof.
  exists SQ, sq_ops, (fun _ => True), sq_val, up_solver, up_traj, up_traj. destruct up_sweep as (a & b & SW & sW & A1 & A2 & B1 & B2 & A3 & B3 & W).
  set (k0 := up_k (mkSQ 0 0 0 0 0) 2 0) in *.
  assert (OK : sw_ok (bp_sweep 1 1 (il_rho up_1) (firstn (il_N up_1) (il_kps up_1)) (e_xx (kp_ce k0)) (e_x (kp_ce k0)) 0 0) = true) by (rewrite up_kps; change (il_rho up_1) with (1 : RS); change (firstn (il_N up_1)) with (@firstn (KPF RS SQ) 2); cbn [firstn]; rewrite W; reflexivity).
  destruct (pass_one SQ 1 1 up_1 k0) as (s2 & EB & ST & EN & K2 & V0 & V1 & O2); [rewrite up_kps; reflexivity|cbn; lia|exact OK|].
  rewrite up_kps in K2, V0, V1. change (il_rho up_1) with (1 : RS) in *. change (firstn (il_N up_1)) with (@firstn (KPF RS SQ) 2) in *. cbn [firstn] in K2, V0, V1. rewrite W in K2, V0, V1. cbn [sw_kps sw_v0 sw_v1] in K2, V0, V1.
  assert (ST' : il_status s2 <> kBackwardPassRegularizationFailed) by (rewrite ST; discriminate).
  exists s2. split; [exact up_setting|]. split; [cbn; lra|]. split; [exact EB|]. split; [exact ST'|]. split; [exact V0|]. split; [exact V1|].
  split; [exact (C82_line _ _ _ _ _ _ _ _ _ _ _ up_setting EB ST')|]. intros fam LF.
  eapply d_eq; [apply (line_derive 1 1 sq_ops _ _ _ _ _ up_setting 1 s2 EB fam LF [a; b] k0 K2)|].
  - reflexivity.
  - cbn [map]. rewrite A3, B3. reflexivity.
  - cbn [map lin_along]. unfold lincost, next, polK. rewrite !one_inner, !one_app. rewrite A1, A2, B1, B2, A3, B3.
    cbn. lra.
Qed.

(** The hypotheses of the theorems hold together for x' = x + u + u^2 with costs (x^2 + u^2) / 2 and x^2 / 2, from x = 1, u = 0 (default options,
    no regularisation): the pass succeeds and the trajectory is not stationary. *)
Definition nl_costs : list SQ := [mkSQ 1 0 1 0 0; mkSQ 1 0 0 0 0].
Definition nl_traj : Traj RS := [mkKP (F:=RS) (fun _ => 1) (fun _ => 0) 0 1; mkKP (F:=RS) (fun _ => 1) (fun _ => 0) 1 0].
Definition nl_solver : ILQR RS SQ := sq_solver 1 1 0 1 nl_costs nl_traj.
Definition nl_1 := il_update_expansions sq_ops 1 1 nl_traj nl_solver.
Definition nl_k (q : SQ) (t h : R) : KPF RS SQ := snd (expand_kp sq_ops 1 1 (mkKP (F:=RS) (fun _ => 1) (fun _ => 0) t h) (kpf_make (F:=RS) (sq_dyn 1) q)).
Example C82_example : nl_setting 1 1 sq_ops (fun _ => True) sq_val nl_solver nl_traj nl_traj /\ il_rho nl_solver = 0 /\ convex_model 1 1 nl_1 /\
  inside_limits 1 1 (il_opts nl_solver) nl_traj /\ o_ls_lb (il_opts nl_solver) < 1 < o_ls_ub (il_opts nl_solver) /\ 1 < o_ls_factor (il_opts nl_solver) /\
  exists s2, il_backward_pass 1 1 1 nl_1 = Ok s2 /\ il_status s2 <> kBackwardPassRegularizationFailed /\ il_dV0 s2 = - (1 / 2) /\ ~ no_step 1 s2 /\ exists fam, line 1 1 s2 nl_traj nl_traj fam.
Proof.
  assert (NS : nl_setting 1 1 sq_ops (fun _ => True) sq_val nl_solver nl_traj nl_traj).
  { apply sq_setting; try reflexivity.
    - intros q H. inversion H. cbn. auto.
    - split; [intros z i H _; inversion H; reflexivity|]. intros k f z z' Hf Hz Hz'. exists vzero. intros i _.
      destruct k as [|k]; cbn in Hf, Hz, Hz'; [|destruct k; discriminate]; inversion Hf; inversion Hz; inversion Hz'; cbn; lra. }
  assert (KE : il_kps nl_1 = [nl_k (mkSQ 1 0 1 0 0) 0 1; nl_k (mkSQ 1 0 0 0 0) 1 0]) by reflexivity.
  split; [exact NS|]. split; [reflexivity|]. split.
  { split.
    - intros k kp Hk Hkp dx du. rewrite KE in Hkp. assert (k = 0)%nat as -> by (cbn in Hk; lia). inversion Hkp. rewrite !one_form. cbn. pose proof (Rle_0_sqr (dx 0%nat)). pose proof (Rle_0_sqr (du 0%nat)). unfold Rsqr in *. lra.
    - intros kp Hkp dx. rewrite KE in Hkp. inversion Hkp. rewrite one_form. cbn. pose proof (Rle_0_sqr (dx 0%nat)). unfold Rsqr in *. lra. }
  split.
  { intros _ k z z' Hz Hz'. destruct k as [|k]; [|destruct k; discriminate]. inversion Hz. inversion Hz'. cbn. rewrite !Rplus_0_l, !Rmult_1_r, Rmult_0_r, sqrt_0, sqrt_1. split; lra. }
  split; [cbn; lra|]. split; [cbn; lra|].
  set (k0 := nl_k (mkSQ 1 0 0 0 0) 1 0) in *. set (k1 := nl_k (mkSQ 1 0 1 0 0) 0 1) in *.
  assert (S0 : e_xx (kp_ce k0) 0%nat 0%nat = 1) by reflexivity. assert (s0 : e_x (kp_ce k0) 0%nat = 1) by (cbn; lra).
  destruct (sq_stage 1 (mkSQ 1 0 1 0 0) (mkKP (F:=RS) (fun _ => 1) (fun _ => 0) 0 1)) as (B1 & B2 & B3 & B4 & B5 & B6 & B7). fold (nl_k (mkSQ 1 0 1 0 0) 0 1) in B1, B2, B3, B4, B5, B6, B7. fold k1 in B1, B2, B3, B4, B5, B6, B7. cbn [z_x z_u q_xx q_xu q_uu q_x q_u] in *.
  pose proof (one_step SQ 0 1 1 k1 _ _ S0 s0) as T. cbv zeta in T. rewrite B1, B2, B3, B4, B5, B6, B7 in T. destruct T as (b & G & T1 & T2 & T3 & T4 & T5 & T6 & T7); [lra|].
  pose proof (sweep_snoc SQ 0 k1 b [] (e_xx (kp_ce k0)) (e_x (kp_ce k0)) 0 0 eq_refl G) as W. cbv zeta in W.
  set (b3 := kpf_ctg 1 1 b) in *. clearbody b3.
  destruct (pass_one SQ 1 1 nl_1 k0) as (s2 & EB & ST & EN & K2 & V0 & V1 & O2); [rewrite KE; reflexivity|cbn; lia| |].
  { rewrite KE. change (il_rho nl_1) with (0 : RS). change (firstn (il_N nl_1)) with (@firstn (KPF RS SQ) 1). cbn [firstn]. rewrite W. reflexivity. }
  rewrite KE in K2, V0, V1. change (il_rho nl_1) with (0 : RS) in *. change (firstn (il_N nl_1)) with (@firstn (KPF RS SQ) 1) in *. cbn [firstn] in K2, V0, V1. rewrite W in K2, V0, V1. cbn [sw_kps sw_v0 sw_v1 bp_sweep] in K2, V0, V1.
  assert (ST' : il_status s2 <> kBackwardPassRegularizationFailed) by (rewrite ST; discriminate).
  exists s2. split; [exact EB|]. split; [exact ST'|]. split; [rewrite V0; rs; rewrite T5; lra|]. split; [|exact (C82_line _ _ _ _ _ _ _ _ _ _ _ NS EB ST')].
  intros NO. assert (D : kp_d b3 0%nat = 0) by (apply (NO 0%nat b3 0%nat); [rewrite EN; cbn; lia|rewrite K2; reflexivity|lia]). rewrite T2 in D. lra.
Qed.
Print Assumptions C82_frechet.
Print Assumptions C82_slope.
Print Assumptions C82_line.
Print Assumptions C82_descent.
Print Assumptions C82_stationary.
Print Assumptions C82_accept.
Print Assumptions C82_regularised_refuted.
Print Assumptions C82_example.
