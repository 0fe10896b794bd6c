(** C83: constrained nonlinear problems: augmented-Lagrangian objects are smooth costs; a backward pass finds no step exactly at stationary points of
    the Lagrangian with the updated multipliers; fixed points of the iteration are exactly the KKT points. *)
From Coq Require Import Reals Lra Lia List Bool ZArith Psatz Arith String.
From Coquelicot Require Import Coquelicot.
Import List ListNotations.
From Verif Require Import Base Lin LogModel StatsModel TrajModel ConModel ConSpec IlqrModel IlqrSpec CostInst AlModel LsSpec RLin RDer LqSpec LltProofs LqProofs LqProbSpec NlSpec NlAlSpec NlProofs NlProofs2 NlProofs3 NlProofs4 NlExamples NlAlProofs NlAlProofs2 ConProofs.
Local Open Scope R_scope.

(** An object built from a differentiable cost and differentiable constraints with correct user derivatives is, after any history of public
    operations that leaves its penalties positive, a smooth cost in the sense of C82 (its value: cost plus augmented-Lagrangian terms). *)
Theorem C83_smooth n m : smooth_costs n m al_ops (smooth_al n m) al_value.
Proof. apply al_smooth. Qed.
(** So C82 (slope, line, descent, stationarity, acceptance) applies to the inner solver of a constrained nonlinear problem. *)
Theorem C83_setting n m s Z Zb : al_setting n m s Z Zb -> nl_setting n m al_ops (smooth_al n m) al_value s Z Zb.
Proof. apply al_nl. Qed.
(** The backward pass (any number of restarts, any regularisation) computes zero feedforward gains exactly when no variation of the controls changes
    the Lagrangian to first order, with the multipliers that UpdateDuals would set. *)
Theorem C83_multipliers n m s Z Zb fuel s2 : al_setting n m s Z Zb ->
  il_backward_pass n m fuel (il_update_expansions al_ops n m Z s) = Ok s2 -> il_status s2 <> kBackwardPassRegularizationFailed ->
  (no_step m s2 <-> lagr_stationary n m s Z (map al_update_duals (il_costobjs s2))).
Proof. intros AS EB ST. exact (multipliers n m s Z Zb AS fuel s2 EB ST). Qed.
(** Nothing to change, neither in the controls nor in the multipliers, exactly at the KKT points of the constrained problem. *)
Theorem C83_kkt n m s Z Zb fuel s2 : al_setting n m s Z Zb ->
  il_backward_pass n m fuel (il_update_expansions al_ops n m Z s) = Ok s2 -> il_status s2 <> kBackwardPassRegularizationFailed ->
  ((no_step m s2 /\ duals_kept (il_costobjs s2)) <-> kkt_point n m s Z).
Proof. intros AS EB ST. exact (kkt_fixed n m s Z Zb AS fuel s2 EB ST). Qed.

(** x' = x + u + u^2 from x = 1; cost u^2 / 2 and u <= 0 at the first point, x = 3 at the second: u = -2 is a KKT point with multiplier 2/3. *)
Definition ex_cost (w : R) : UCost RS := mkUCost (F:=RS) (fun _ u => w / 2 * (u 0%nat * u 0%nat)) (fun _ u _ => (fun _ => 0, fun _ => w * u 0%nat)) (fun _ _ _ => (fun _ _ => 0, fun _ _ => 0, fun _ _ => w)).
Definition ex_goal : Con RS := mkCon (F:=RS) 1 (fun x _ _ _ => x 0%nat - 3) (fun _ _ _ _ j => match j with O => 1 | _ => 0 end) "goal".
Definition ex_bound : Con RS := mkCon (F:=RS) 1 (fun _ u _ _ => u 0%nat) (fun _ _ _ _ j => match j with O => 0 | _ => 1 end) "bound".
Definition ex_first : ALCost RS := al_make 1 1 (ex_cost 1) [] [ex_bound].
Definition ex_last : ALCost RS := al_update_duals (snd (al_eval (al_make 1 1 (ex_cost 0) [ex_goal] []) (fun _ => 7 / 3 : RS) vzero)).
Definition ex_Z : Traj RS := [mkKP (F:=RS) (fun _ => 1) (fun _ => - 2) 0 1; mkKP (F:=RS) (fun _ => 3) (fun _ => 0) 1 0].
Definition ex_solver : ILQR RS (ALCost RS) :=
  mkILQR (F:=RS) 1 (fun _ => 1) true (map (kpf_make (F:=RS) (sq_dyn 1)) [ex_first; ex_last]) (Some ex_Z) (Some ex_Z) kUnsolved [] [] 0 0 0 0 st_new opts_default.
Definition ex_1 := il_update_expansions al_ops 1 1 ex_Z ex_solver.
Lemma one_fsum f : fsum 1 f = f 0%nat. Proof. unfold fsum. cbn. lra. Qed.
Lemma ex_cost_true w : cost_true 1 1 (ex_cost w).
Proof.
  split. intros X U v u CX CU old. cbn [ex_cost uc_eval uc_grad fst snd]. rewrite !one_fsum. eapply d_eq; [apply (d_scal (w / 2) (fun s => U s 0%nat * U s 0%nat)); apply d_mult; apply CU|lra].
Qed.
Lemma ex_goal_smooth : con_smooth 1 1 ex_goal.
Proof.
  exists (fun x _ _ => x 0%nat - 3), (fun _ _ _ j => match j with O => 1 | _ => 0 end), (fun _ _ => true). split; try (cbn; reflexivity); try discriminate.
  intros X U v w CX CU i Hi. rewrite !one_fsum. eapply d_eq; [apply d_minus; [apply CX|apply d_const]|cbn; lra].
Qed.
Lemma ex_bound_smooth : con_smooth 1 1 ex_bound.
Proof.
  exists (fun _ u _ => u 0%nat), (fun _ _ _ j => match j with O => 0 | _ => 1 end), (fun _ _ => true). split; try (cbn; reflexivity); try discriminate.
  intros X U v w CX CU i Hi. rewrite !one_fsum. eapply d_eq; [apply CU|cbn; lra].
Qed.
Lemma one_msym A : msym 1 A.
Proof. intros i j Hi Hj. assert (i = 0)%nat as -> by lia. assert (j = 0)%nat as -> by lia. reflexivity. Qed.
Lemma ex_setting : al_setting 1 1 ex_solver ex_Z ex_Z.
Proof.
  split; try reflexivity.
  - repeat (apply Forall_cons || apply Forall_nil).
    + exists false, (ex_cost 1), [], [ex_bound], []. split; [apply ex_cost_true|]. split; [intros; split; apply one_msym|]. split; [intros c [<-|[]]; split; [apply ex_bound_smooth|cbn; lia]|]. split; [apply reach_nil|]. intros v [<-|[]]. cbn. lra.
    + exists false, (ex_cost 0), [ex_goal], [], [OpEval (fun _ => 7 / 3 : RS) vzero; OpUpdateDuals]. split; [apply ex_cost_true|]. split; [intros; split; apply one_msym|]. split; [intros c [<-|[]]; split; [apply ex_goal_smooth|cbn; lia]|].
      split; [eapply (reach_step _ _ [OpEval (fun _ => 7 / 3 : RS) vzero]); [eapply (reach_step _ _ []); [apply reach_nil|reflexivity]|reflexivity]|]. intros v [<-|[]]. cbn. lra.
  - intros k kp _ Hk. cbn in Hk. destruct k as [|[|k]]; cbn in Hk; [| |destruct k; discriminate]; inversion Hk; apply sq_dyn_smooth.
  - intros c Hc x u u'. cbn in Hc. inversion Hc; subst c. cbn. split; [lra|]. intros v i [<-|[]] Hi. reflexivity.
  - split; [intros z i H _; inversion H; reflexivity|]. intros k f z z' Hf Hz Hz'. exists vzero. intros i _. destruct k as [|k]; cbn in Hf, Hz, Hz'; [|destruct k; discriminate]; inversion Hf; inversion Hz; inversion Hz'; cbn; lra.
  - intros k z y _ Hz Hy. rewrite Hz in Hy. inversion Hy. auto.
Qed.
Definition ex_k0 : KPF RS (ALCost RS) := snd (expand_kp al_ops 1 1 (mkKP (F:=RS) (fun _ => 1) (fun _ => - 2) 0 1) (kpf_make (F:=RS) (sq_dyn 1) ex_first)).
Definition ex_k1 : KPF RS (ALCost RS) := snd (expand_kp al_ops 1 1 (mkKP (F:=RS) (fun _ => 3) (fun _ => 0) 1 0) (kpf_make (F:=RS) (sq_dyn 1) ex_last)).
Lemma ex_stage : let g := stage_of 1 ex_k0 in sg_A g 0%nat 0%nat = 1 /\ sg_B g 0%nat 0%nat = - 3 /\ sg_x g 0%nat = 0 /\ sg_u g 0%nat = - 2 /\ sg_xx g 0%nat 0%nat = 0 /\ sg_xu g 0%nat 0%nat = 0 /\ sg_uu g 0%nat 0%nat = 1.
Proof. cbn. unfold Rltb. destruct (Rlt_dec 0 (0 - 1 * -2)); [|exfalso; lra]. repeat split; lra. Qed.
Lemma ex_end : e_xx (kp_ce ex_k1) 0%nat 0%nat = 1 /\ e_x (kp_ce ex_k1) 0%nat = - (2 / 3).
Proof. cbn. split; lra. Qed.
Example C83_example : al_setting 1 1 ex_solver ex_Z ex_Z /\
  exists s2, il_backward_pass 1 1 1 ex_1 = Ok s2 /\ il_status s2 <> kBackwardPassRegularizationFailed /\ no_step 1 s2 /\ duals_kept (il_costobjs s2) /\ kkt_point 1 1 ex_solver ex_Z /\
  (exists v, In v (al_cvs ex_last) /\ cv_lam v 0%nat = 2 / 3).
Proof.
  split; [exact ex_setting|]. assert (KE : il_kps ex_1 = [ex_k0; ex_k1]) by reflexivity. destruct ex_end as [S0 s0]. destruct ex_stage as (B1 & B2 & B3 & B4 & B5 & B6 & B7).
  assert (KKT : forall k c z v i, nth_error (il_costobjs ex_solver) k = Some c -> nth_error ex_Z k = Some z -> In v (al_cvs c) -> (i < cv_p v)%nat -> kkt (cv_type v) (con_eval (cv_con v) (z_x z) (z_u z) vzero i) (cv_lam v i)).
  { intros k c z v i Hc Hz Hv Hi. destruct k as [|[|k]]; [| |destruct k; discriminate].
    - injection Hc as <-. injection Hz as <-. destruct Hv as [<-|[]]. assert (i = 0)%nat as -> by (cbn in Hi; lia). cbn. lra.
    - injection Hc as <-. injection Hz as <-. destruct Hv as [<-|[]]. cbn. lra. }
  pose proof (one_step (ALCost RS) 0 1 (- (2 / 3)) ex_k0 _ _ S0 s0) as T. cbv zeta in T. rewrite B1, B2, B3, B4, B5, B6, B7 in T. destruct T as (b & G & T1 & T2 & T3 & T4 & T5 & T6 & T7); [lra|].
  pose proof (sweep_snoc (ALCost RS) 0 ex_k0 b [] (e_xx (kp_ce ex_k1)) (e_x (kp_ce ex_k1)) 0 0 eq_refl G) as W. cbv zeta in W. set (b3 := kpf_ctg 1 1 b) in *. clearbody b3.
  destruct (pass_one (ALCost RS) 1 1 ex_1 ex_k1) as (s2 & EB & ST & EN & K2 & V0 & V1 & O2); [rewrite KE; reflexivity|cbn; lia| |].
  { rewrite KE. change (il_rho ex_1) with (0 : RS). change (firstn (il_N ex_1)) with (@firstn (KPF RS (ALCost RS)) 1). cbn [firstn]. rewrite W. reflexivity. }
  rewrite KE in K2. change (il_rho ex_1) with (0 : RS) in *. change (firstn (il_N ex_1)) with (@firstn (KPF RS (ALCost RS)) 1) in *. cbn [firstn] in K2. rewrite W in K2. cbn [sw_kps bp_sweep] in K2.
  assert (ST' : il_status s2 <> kBackwardPassRegularizationFailed) by (rewrite ST; discriminate).
  assert (NO : no_step 1 s2).
  { intros k kp i Hk Hkp Hi. rewrite EN in Hk. assert (k = 0)%nat as -> by (cbn in Hk; lia). assert (i = 0)%nat as -> by lia. rewrite K2 in Hkp. injection Hkp as <-. rewrite T2. field_simplify; lra. }
  assert (KP : duals_kept (il_costobjs s2)) by (apply (kept_kkt 1 1 ex_solver ex_Z ex_Z ex_setting 1 s2 EB); exact KKT).
  exists s2. split; [exact EB|]. split; [exact ST'|]. split; [exact NO|]. split; [exact KP|]. split; [apply (C83_kkt 1 1 ex_solver ex_Z ex_Z 1 s2 ex_setting EB ST'); split; assumption|].
  eexists. split; [left; reflexivity|]. cbn. lra.
Qed.
Print Assumptions C83_smooth.
Print Assumptions C83_setting.
Print Assumptions C83_multipliers.
Print Assumptions C83_kkt.
Print Assumptions C83_example.
