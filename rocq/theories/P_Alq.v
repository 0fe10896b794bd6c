(** Property theorems: equality-constrained linear-quadratic problems (C67-C70) and completion of an augmented-Lagrangian solve (C69). *)
From Coq Require Import ZArith Reals String List Bool Lia Lra Psatz.
From Verif Require Import Base Lin RLin ConModel ConSpec LogModel StatsModel TrajModel IlqrModel IlqrSpec IlqrProofs5 IlqrProofs6 CostInst AlModel ConProofs4 AlProofs AlProofs2 AlProofs3
  DynModel ExampleModel LqSpec LltProofs LqProofs LqProbSpec LqInst AlqSpec AlqProofs AlqProofs3 AlqProofs4 AlTotal IlqrProofs4 P_Al P_Lqr.
Import List ListNotations LqSpec.
Local Open Scope R_scope.

(** * What the theorems assume of the solver object *)
(** An equality-constrained linear-quadratic problem with a trajectory of N+1 >= 2 knot points; initial penalty positive, every
    penalty scaling at least phi > 0; no initial regularisation; the line search admits a full step.  If the rollout checks the
    limits, the minimiser of every inner problem met is inside them ([as_reach]: states at the start of an outer iteration). *)
Record eq_solver (debug : bool) (n m : nat) (phi : R) (Z0 : Traj RS) (s : ILQR RS (ALCost RS)) : Prop := {
  es_prob : eq_lq debug n m s;
  es_Z : il_Z s = Some Z0 /\ length Z0 = S (il_N s);
  es_N : (1 <= il_N s)%nat;
  es_titles : map fst (st_ser (il_stats s)) = series_titles;
  es_reg : o_reg_initial (il_opts s) = 0 /\ reg_ok (il_opts s) /\ 0 <= o_reg_min (il_opts s);
  es_ls : o_ls_lb (il_opts s) <= 1 <= o_ls_ub (il_opts s) /\ (1 <= o_ls_iters (il_opts s))%Z;
  es_iters : (1 <= o_max_inner (il_opts s))%Z /\ (1 <= o_max_outer (il_opts s))%Z;
  es_pen : 0 < o_init_pen (il_opts s);
  es_phi : 0 < phi /\ forall c v, In c (il_costobjs s) -> In v (al_eq c) -> phi <= cv_scal v;
  es_lim : o_check_bounds (il_opts s) = true -> forall fuel b j s' Z Y, as_init debug s = Ok b -> as_reach n m debug fuel b j s' -> il_Z s' = Some Z -> candidate n s' Z Y ->
    (forall Y', candidate n s' Z Y' -> al_objective (il_costobjs s') Y <= al_objective (il_costobjs s') Y') -> within_limits n m (il_opts s') Y }.

(** * Concrete data: x' = x + u from x = 0, one step, cost (x^2 + u^2)/2 and x^2/2, required end state g.  So f = u^2, c = u - g, and the
      saddle point is u = g with multiplier 2g. *)
Section Data.
Context (g : R).
Definition e_opts : Opts RS := mkOpts (F:=RS) 300 30 100 (1 / 10000) (1 / 100) (16 / 10) 0 100000000 (1 / 100000000) 100
  false 100000000 100000000 20 (1 / 100000000) 10 2 (1 / 10000) 100000000 1 true 10 kSilent 1 1.
Definition e_end : ALCost RS := al_make 1 1 (r_cost 0) [goal_con (F:=RS) 1 (fun _ => g)] [].
Definition e_stage : ALCost RS := al_make 1 1 (r_cost 1) [] [].
Definition e_guess : Traj RS := [mkKP (F:=RS) (fun _ => 0) (fun _ => 3) 0 1; mkKP (F:=RS) (fun _ => 0) (fun _ => 0) 1 0].
Definition e_als : ALS RS := as_make 1 1 1 (fun _ => 0) [(r_dyn, (r_cost 1, [], [])); (r_dyn, (r_cost 0, [goal_con (F:=RS) 1 (fun _ => g)], []))].
Definition e_il : ILQR RS (ALCost RS) := il_set_opts (il_set_trajectory e_guess (as_il e_als)) e_opts.
Definition e_start : ALS RS := mkALS e_il kUnsolved.
Definition e_opt : Traj RS := [mkKP (F:=RS) (fun _ => 0) (fun _ => g) 0 1; mkKP (F:=RS) (fun _ => g) (fun _ => 0) 1 0].
Definition e_mu (k j i : nat) : R := 2 * g.

Lemma goal_state_con n m xf : (1 <= n)%nat -> state_con n m (goal_con (F:=RS) n xf).
Proof.
  intros N1. split; [exact N1|]. exists (fun i j => if (i =? j)%nat then 1 else 0), (fun i => - xf i), (fun _ _ => true). cbn [goal_con con_dim con_eval con_jac]. split; [|split; [|split; [|split]]].
  - intros x u b i Hi. assert (E : app n (fun i0 j : nat => if (i0 =? j)%nat then 1 else 0) x i = x i).
    { unfold app. rewrite tot_rsum, (rsum_single n i); [|exact Hi|intros k Hk NE; destruct (Nat.eqb_spec i k); [congruence|lra]]. rewrite Nat.eqb_refl. lra. }
    rewrite E, (app_0 m u i). rs. lra.
  - intros x u b i j Hi Hj. reflexivity.
  - intros x u b i j Hi Hj. unfold mident. cbn. destruct (Nat.eqb_spec i (n + j)); [lia|reflexivity].
  - intros; discriminate.
  - intros; discriminate.
Qed.

Lemma e_is_quad r : is_quad 1 1 (r_cost r) (uquad (r_cost r)).
Proof.
  assert (Q : is_qc 1 1 (r_cost r)) by (eexists; split; [|split; [|reflexivity]]; reflexivity). pose proof (qc_quad_costs 1 1) as H.
  split; intros c x u; intros; subst c; try (split; reflexivity).
  - apply (qc_value _ _ _ _ _ H); exact Q.
  - apply (qc_gx _ _ _ _ _ H); auto.
  - apply (qc_gu _ _ _ _ _ H); auto.
Qed.
Lemma e_problem debug : eq_lq debug 1 1 e_il.
Proof.
  split.
  - reflexivity.
  - intros k kp Hk Hn. change (il_N e_il) with 1%nat in Hk. assert (k = 0)%nat as -> by lia. cbn in Hn. inversion Hn; subst kp; clear Hn. cbn [kpf_make kp_dyn kp_cost]. split.
    + exists (fun _ _ _ _ => 1), (fun _ _ _ _ => 1), (fun _ _ _ => 0). intros x u t h. split; [|split]; intros; cbn; [|reflexivity|reflexivity]. assert (i = 0)%nat as -> by lia. unfold app, tot. cbn. lra.
    + exists (r_cost 1), [], [], (uquad (r_cost 1)). split; [apply reach_nil|]. split; [apply Forall_nil|]. split; [apply e_is_quad|].
      split; [apply one_sym|]. split; [apply one_sym|]. split; [apply one_posdef; cbn; lra|]. intros x u. rewrite !one_form. cbn. pose proof (pow2_ge_0 (x 0%nat)). pose proof (pow2_ge_0 (u 0%nat)). nra.
  - intros kp Hn. cbn in Hn. inversion Hn; subst kp; clear Hn. cbn [kpf_make kp_dyn kp_cost]. exists (r_cost 0), [goal_con (F:=RS) 1 (fun _ => g)], [], (uquad (r_cost 0)).
    split; [apply reach_nil|]. split; [apply Forall_cons; [apply goal_state_con; lia|apply Forall_nil]|]. split; [apply e_is_quad|].
    split; [apply one_sym|]. split; [apply one_possemi; cbn; lra|]. intros i j Hj. assert (j = 0)%nat as -> by lia. cbn. unfold vopp. rs. split; [reflexivity|]. split; [reflexivity|]. unfold vstore. cbn. unfold mv, dot. cbn. rs. lra.
Qed.
Lemma e_titles : map fst (st_ser (il_stats e_il)) = series_titles.
Proof. reflexivity. Qed.
Definition e_cv : CV RS := cv_make (F:=RS) 1 1 ZeroCone (goal_con (F:=RS) 1 (fun _ => g)).
Lemma e_cvs c v : In c (il_costobjs e_il) -> In v (al_eq c) -> v = e_cv.
Proof. intros [<-|[<-|[]]] Hv; cbn in Hv; [destruct Hv|destruct Hv as [<-|[]]]. reflexivity. Qed.
Lemma e_solver debug : eq_solver debug 1 1 10 e_guess e_il.
Proof.
  split.
  - apply e_problem.
  - split; reflexivity.
  - cbn. lia.
  - reflexivity.
  - cbn. unfold reg_ok. cbn. lra.
  - cbn. split; [lra|lia].
  - cbn. lia.
  - cbn. lra.
  - split; [lra|]. intros c v Hc Hv. rewrite (e_cvs c v Hc Hv). cbn. lra.
  - discriminate.
Qed.
Lemma e_value r x u : uc_eval (r_cost r) x u = / 2 * (x 0%nat * x 0%nat) + / 2 * (r * (u 0%nat * u 0%nat)).
Proof. rewrite <- quad1. apply (qc_value _ _ _ _ _ (e_is_quad r) (r_cost r) x u eq_refl). Qed.
(** the candidates: any control u, and the state it leads to *)
Lemma e_cand Y : candidate 1 e_il e_guess Y -> exists y0 y1, Y = [y0; y1] /\ z_x y0 0%nat = 0 /\ z_x y1 0%nat = z_u y0 0%nat.
Proof.
  intros (LY & _ & FX & FD). change (il_N e_il) with 1%nat in LY. destruct Y as [|y0 [|y1 [|]]]; try discriminate. exists y0, y1. split; [reflexivity|].
  assert (X0 : z_x y0 0%nat = 0) by (apply (FX y0 0%nat); [reflexivity|lia]). split; [exact X0|].
  destruct (FD 0%nat r_dyn y0 y1) as [b H]; [reflexivity..|]. rewrite H by lia. cbn. rewrite X0. lra.
Qed.
Lemma e_sums Y y0 y1 mu : Y = [y0; y1] -> lagrangian mu (il_costobjs e_il) Y = / 2 * (z_x y0 0%nat * z_x y0 0%nat) + / 2 * (z_u y0 0%nat * z_u y0 0%nat) + / 2 * (z_x y1 0%nat * z_x y1 0%nat) - mu 1%nat 0%nat 0%nat * (z_x y1 0%nat - g).
Proof.
  intros ->. unfold lagrangian, user_cost, pairing, tsum. change (il_costobjs e_il) with [e_stage; e_end]. cbn [isum nth_error e_stage e_end al_make al_cost al_eq map]. rewrite !e_value. cbn [cv_p cv_con cv_make goal_con con_dim fsum isum cval nth_error con_eval].
  unfold fsum, cval. cbn. lra.
Qed.
Lemma e_saddle : saddle 1 e_il e_guess e_opt e_mu.
Proof.
  assert (CD : candidate 1 e_il e_guess e_opt).
  { split; [reflexivity|]. split; [intros k z y Hk Hz Hy; change (il_N e_il) with 1%nat in Hk; assert (k = 0)%nat as -> by lia; cbn in Hz, Hy; inversion Hz; inversion Hy; auto|]. split.
    - intros z i Hz Hi. inversion Hz; subst. reflexivity.
    - intros k f z z' Hf Hz Hz'. destruct k as [|[|k]]; [|discriminate|destruct k; discriminate]. cbn in Hf, Hz, Hz'. inversion Hf; inversion Hz; inversion Hz'; subst. exists vzero. intros i Hi. cbn. lra. }
  split; [exact CD|]. split.
  - intros k c v i Hc Hv Hi. rewrite (e_cvs c v (nth_error_In _ _ Hc) Hv) in *. change (il_costobjs e_il) with [e_stage; e_end] in Hc. destruct k as [|[|k]]; [|unfold cval; cbn; lra|destruct k; discriminate]. cbn in Hc. inversion Hc; subst c. destruct Hv.
  - intros Y CY. destruct (e_cand Y CY) as (y0 & y1 & EY & X0 & X1). rewrite (e_sums Y y0 y1 e_mu EY), (e_sums e_opt _ _ e_mu eq_refl), X0, X1. cbn. unfold e_mu. pose proof (pow2_ge_0 (z_u y0 0%nat - g)). nra.
Qed.
Lemma e_dist : mdist2 (start_duals e_il) e_mu (il_costobjs e_il) = 4 * g ^ 2.
Proof. unfold mdist2, tsum, start_duals. change (il_costobjs e_il) with [e_stage; e_end]. cbn. unfold fsum. cbn. unfold e_mu. lra. Qed.
End Data.

(** ** results of the development, for such a solver *)
Lemma es_result debug n m phi Z0 fuel (a a' : ALS RS) : eq_solver debug n m phi Z0 (as_il a) -> as_solve n m debug fuel a = Ok a' ->
  exists b j s s1 Z', as_init debug (as_il a) = Ok b /\ as_reach n m debug fuel b j s /\ outer_inv n (as_il a) phi Z0 j s /\
    outer_step n m debug fuel s (Some (as_status a')) (as_il a') s1 (as_il a') /\ st_outer (il_stats (as_il a')) = (Z.of_nat j + 1)%Z /\ il_Z (as_il a') = Some Z'.
Proof.
  intros [PB [HZ0 LZ0] N1 ST (RI & RO & RM) [LB LI] [MI MO] IP [PP SC] LIM] H.
  destruct (finish n m debug fuel (as_il a) PB N1 RI RO RM LB LI MI IP phi PP SC ST (fun C => LIM C fuel) Z0 HZ0 LZ0 a a' eq_refl H MO) as (b & j & s & s1 & Hb & Hr & I & S4 & EO).
  destruct (outer_stepped n m debug fuel (as_il a)) with (phi := phi) (Z0 := Z0) (j := j) (b := b) (s := s) (d := Some (as_status a')) (s' := as_il a') (s1 := s1) (s4 := as_il a') as (Z & Z' & _ & HZ' & _); auto.
  { intros C. exact (LIM C fuel). }
  exists b, j, s, s1, Z'. auto 10.
Qed.
Lemma pairing_zero mu cs Y : satisfies cs Y -> pairing mu cs Y = 0.
Proof.
  intros S. unfold pairing. rewrite (tsum_ext cs _ (fun _ _ _ _ => 0 * 0)); [rewrite tsum_scal; lra|]. intros k j i v (c & A & B & C). rewrite (S k c v i A (nth_error_In _ _ B) C). lra.
Qed.
Ltac es_args ES fuel := destruct ES as [PB [HZ0 LZ0] N1 ST (RI & RO & RM) [LB LI] [MI MO] IP [PP SC] LIM']; pose proof (fun C => LIM' C fuel) as LIM.

(** ** C67 *)
(** The trajectory returned and the multipliers stored in the constraints at that moment: the trajectory is dynamically feasible and
    minimises f - lambda.c over all trajectories from the same initial state on the same time grid, however the solve ended. *)
Theorem C67_stationary : forall debug n m phi Z0 fuel (a a' : ALS RS), eq_solver debug n m phi Z0 (as_il a) -> as_solve n m debug fuel a = Ok a' ->
  exists Z', il_Z (as_il a') = Some Z' /\ candidate n (as_il a) Z0 Z' /\
  forall Y, candidate n (as_il a) Z0 Y -> lagrangian (duals (as_costs a')) (as_costs a) Z' <= lagrangian (duals (as_costs a')) (as_costs a) Y.
Proof.
  intros debug n m phi Z0 fuel a a' ES H. destruct (es_result debug n m phi Z0 fuel a a' ES H) as (b & j & s & s1 & Z' & Hb & Hr & I & S4 & _ & HZ'). es_args ES fuel.
  exists Z'. split; [exact HZ'|].
  assert (ST' : forall Y, candidate n (as_il a) Z0 Y -> candidate n (as_il a) Z0 Z' /\ lagrangian (duals (as_costs a')) (as_costs a) Z' <= lagrangian (duals (as_costs a')) (as_costs a) Y).
  { intros Y CY. eapply (stationary n m debug fuel (as_il a)); eauto. }
  split; [|intros Y CY; apply ST'; exact CY].
  destruct (outer_stepped n m debug fuel (as_il a)) with (phi := phi) (Z0 := Z0) (j := j) (b := b) (s := s) (d := Some (as_status a')) (s' := as_il a') (s1 := s1) (s4 := as_il a') as (Z & Z1 & HZ & HZ1 & BZ & _); auto.
  rewrite HZ' in HZ1. inversion HZ1; subst Z1. apply (inv_cand n (as_il a) phi Z0 LZ0 j s Z Z' I HZ). apply BZ.
Qed.
(** against trajectories meeting the constraints, the cost is off by at most lambda.c; and with a saddle point (Zs, mu) the cost lies between
    f(Zs) + mu.c and f(Zs) + lambda.c *)
Theorem C67_cost : forall debug n m phi Z0 fuel (a a' : ALS RS) Z', eq_solver debug n m phi Z0 (as_il a) -> as_solve n m debug fuel a = Ok a' -> il_Z (as_il a') = Some Z' ->
  (forall Y, candidate n (as_il a) Z0 Y -> satisfies (as_costs a) Y -> user_cost (as_costs a) Z' <= user_cost (as_costs a) Y + pairing (duals (as_costs a')) (as_costs a) Z') /\
  (forall Zs mu, saddle n (as_il a) Z0 Zs mu -> user_cost (as_costs a) Zs + pairing mu (as_costs a) Z' <= user_cost (as_costs a) Z' <= user_cost (as_costs a) Zs + pairing (duals (as_costs a')) (as_costs a) Z').
Proof.
  intros debug n m phi Z0 fuel a a' Z' ES H HZ'. destruct (C67_stationary debug n m phi Z0 fuel a a' ES H) as (Z1 & E & CZ & ST). rewrite HZ' in E. inversion E; subst Z1.
  assert (G : forall Y, candidate n (as_il a) Z0 Y -> satisfies (as_costs a) Y -> user_cost (as_costs a) Z' <= user_cost (as_costs a) Y + pairing (duals (as_costs a')) (as_costs a) Z').
  { intros Y CY SY. specialize (ST Y CY). unfold lagrangian in ST. rewrite (pairing_zero _ _ Y SY) in ST. lra. }
  split; [exact G|]. intros Zs mu (CS & SS & OP). split; [|apply G; assumption]. specialize (OP Z' CZ). change (il_costobjs (as_il a)) with (as_costs a) in OP. unfold lagrangian in OP. rewrite (pairing_zero _ _ Zs SS) in OP. lra.
Qed.
(** so a returned trajectory that meets the constraints is optimal, with the stored multipliers as certificate *)
Theorem C67_optimal : forall debug n m phi Z0 fuel (a a' : ALS RS) Z', eq_solver debug n m phi Z0 (as_il a) -> as_solve n m debug fuel a = Ok a' -> il_Z (as_il a') = Some Z' ->
  satisfies (as_costs a) Z' -> saddle n (as_il a) Z0 Z' (duals (as_costs a')) /\ forall Y, candidate n (as_il a) Z0 Y -> satisfies (as_costs a) Y -> user_cost (as_costs a) Z' <= user_cost (as_costs a) Y.
Proof.
  intros debug n m phi Z0 fuel a a' Z' ES H HZ' SZ. destruct (C67_stationary debug n m phi Z0 fuel a a' ES H) as (Z1 & E & CZ & ST). rewrite HZ' in E. inversion E; subst Z1.
  split; [split; [exact CZ|]; split; [exact SZ|exact ST]|]. intros Y CY SY. destruct (C67_cost debug n m phi Z0 fuel a a' Z' ES H HZ') as [G _]. specialize (G Y CY SY). rewrite (pairing_zero _ _ Z' SZ) in G. lra.
Qed.

(** ** C68 *)
Lemma inner_not_outer n m debug fuel (s s1 : ILQR RS (ALCost RS)) : (1 <= o_max_inner (il_opts s))%Z -> il_solve al_ops n m als_max_violation debug fuel s = Ok s1 ->
  il_status s1 <> kMaxOuterIterations /\ il_status s1 <> kMaxPenalty.
Proof.
  intros MI H. destruct (solve_status al_ops n m als_max_violation debug fuel s s1) as (_ & _ & dJ & g & _ & _ & D); auto.
  - intros x. cbn. unfold Rltb. destruct (Rlt_dec x x); [lra|reflexivity].
  - intros x y. cbn. unfold Rltb. destruct (Rlt_dec x y), (Rlt_dec y x); try lra; auto; discriminate.
  - cbv zeta in D. split; decompose [and or] D; congruence.
Qed.
(** after j outer iterations: the last logged violation V is that of the returned trajectory, and decreases like 1/(rho0 phi^(j-1)) *)
Theorem C68_violation : forall debug n m phi Z0 fuel (a a' : ALS RS), eq_solver debug n m phi Z0 (as_il a) -> as_solve n m debug fuel a = Ok a' ->
  exists V Z', st_back "viol" (il_stats (as_il a')) = Ok V /\ il_Z (as_il a') = Some Z' /\ 0 <= V /\
  (forall k c v i, nth_error (as_costs a) k = Some c -> In v (al_eq c) -> (i < cv_p v)%nat -> Rabs (cval Z' k v i) <= V) /\
  forall Zs mu, saddle n (as_il a) Z0 Zs mu ->
  let rho := o_init_pen (il_opts (as_il a)) * phi ^ Z.to_nat (st_outer (il_stats (as_il a')) - 1) in
  (rho * V) ^ 2 <= rho ^ 2 * viol2 (as_costs a) Z' <= mdist2 (start_duals (as_il a)) mu (as_costs a).
Proof.
  intros debug n m phi Z0 fuel a a' ES H. destruct (es_result debug n m phi Z0 fuel a a' ES H) as (b & j & s & s1 & Z' & Hb & Hr & I & S4 & EO & HZ'). es_args ES fuel.
  exists (als_max_violation (as_costs a')), Z'. pose proof (solve_stats_ok al_ops n m als_max_violation debug fuel s s1 (ou_solve _ _ _ _ _ _ _ _ _ S4) (oi_stats _ _ _ _ j s I)) as SK. destruct (ou_stats _ _ _ _ _ _ _ _ _ S4 SK) as (_ & B1 & _).
  split; [exact B1|]. split; [exact HZ'|]. assert (LV : let V := als_max_violation (il_costobjs (as_il a')) in 0 <= V /\ (forall k j0 i v, comp (il_costobjs (as_il a)) k j0 i v -> Rabs (cval Z' k v i) <= V) /\ V ^ 2 <= viol2 (il_costobjs (as_il a)) Z').
  { eapply (logged_violation n m debug fuel (as_il a)); eauto. }
  destruct LV as (V0 & VC & V2). split; [exact V0|]. split.
  - intros k c v i Hc Hv Hi. destruct (In_nth_error _ _ Hv) as [j0 Hj]. apply (VC k j0 i v). exists c. auto.
  - intros Zs mu SD. rewrite EO. replace (Z.to_nat (Z.of_nat j + 1 - 1)) with j by lia. cbv zeta. split.
    + rewrite Rpow_mult_distr. apply Rmult_le_compat_l; [apply pow2_ge_0|exact V2].
    + eapply (violation_bound n m debug fuel (as_il a)); eauto.
Qed.
(** giving up: a problem with a saddle point close enough to the starting multipliers cannot end with kMaxOuterIterations *)
Theorem C68_max_outer : forall debug n m phi Z0 fuel (a a' : ALS RS) Zs mu, eq_solver debug n m phi Z0 (as_il a) -> as_solve n m debug fuel a = Ok a' ->
  saddle n (as_il a) Z0 Zs mu -> 0 <= o_con_tol (il_opts (as_il a)) ->
  mdist2 (start_duals (as_il a)) mu (as_costs a) < (o_con_tol (il_opts (as_il a)) * (o_init_pen (il_opts (as_il a)) * phi ^ Z.to_nat (o_max_outer (il_opts (as_il a)) - 1))) ^ 2 ->
  as_status a' <> kMaxOuterIterations.
Proof.
  intros debug n m phi Z0 fuel a a' Zs mu ES H SD TC BD EK. apply Rlt_not_le in BD. apply BD; clear BD. destruct (C68_violation debug n m phi Z0 fuel a a' ES H) as (V & Z' & BV & _ & V0 & _ & VB). specialize (VB Zs mu SD). cbv zeta in VB.
  destruct (es_result debug n m phi Z0 fuel a a' ES H) as (b & j & s & s1 & Z1 & Hb & Hr & I & S4 & EO & _). es_args ES fuel.
  pose proof (solve_stats_ok al_ops n m als_max_violation debug fuel s s1 (ou_solve _ _ _ _ _ _ _ _ _ S4) (oi_stats _ _ _ _ j s I)) as SK. destruct (ou_stats _ _ _ _ _ _ _ _ _ S4 SK) as (_ & _ & B2).
  pose proof (done_cases _ _ _ _ (ou_done _ _ _ _ _ _ _ _ _ S4) BV B2) as DC. destruct (outer_problem n m debug fuel s _ _ s1 _ S4) as (P1 & P4 & _). pose proof (sp_trans _ _ _ (oi_prob _ _ _ _ j s I) (sp_trans _ _ _ P1 P4)) as PP4. rewrite (sp_opts _ _ PP4), EK in DC.
  destruct (as_run n m debug fuel a a' H MO ST) as (b' & j' & s' & s1' & _ & _ & _ & _ & _ & _ & _ & _ & _ & EO' & JM & _).
  assert (JE : Z.to_nat (st_outer (il_stats (as_il a')) - 1) = Z.to_nat (o_max_outer (il_opts (as_il a)) - 1) /\ o_con_tol (il_opts (as_il a)) <= V).
  { destruct (negb (status_eqb (il_status (as_il a')) kSolved)) eqn:EN.
    - (* the inner solve never returns that status *) exfalso. assert (EI : il_status (as_il a') = kMaxOuterIterations) by congruence. rewrite (ou_status _ _ _ _ _ _ _ _ _ S4) in EI.
      revert EI. eapply inner_not_outer; [|exact (ou_solve _ _ _ _ _ _ _ _ _ S4)]. rewrite (sp_opts _ _ (oi_prob _ _ _ _ j s I)). exact MI.
    - cbn in DC. unfold Rltb in DC. destruct (Rlt_dec V (o_con_tol (il_opts (as_il a)))) as [|NV]; [discriminate|]. destruct (Rlt_dec _ _); [discriminate|]. destruct (Z.leb_spec (o_max_outer (il_opts (as_il a))) (st_outer (il_stats (as_il a')))); [|destruct (_ <=? _)%Z; discriminate]. split; [f_equal; lia|lra]. }
  destruct JE as [<- TV]. eapply Rle_trans; [|exact (Rle_trans _ _ _ (proj1 VB) (proj2 VB))]. rewrite (Rmult_comm (o_con_tol _)).
  apply pow_incr. assert (0 <= o_init_pen (il_opts (as_il a)) * phi ^ Z.to_nat (st_outer (il_stats (as_il a')) - 1)) by (apply Rmult_le_pos; [lra|apply pow_le; lra]). split; [apply Rmult_le_pos; lra|]. apply Rmult_le_compat_l; lra.
Qed.
(** if every constraint uses the same scaling phi: the multipliers never move away from those of a saddle point, and giving up because of
    the penalty limit is excluded in the same way *)
Definition uniform (phi : R) (cs : list (ALCost RS)) : Prop := forall c v, In c cs -> In v (al_eq c) -> cv_scal v = phi.
Theorem C68_multipliers : forall debug n m phi Z0 fuel (a a' : ALS RS) Zs mu Z', eq_solver debug n m phi Z0 (as_il a) -> uniform phi (as_costs a) -> as_solve n m debug fuel a = Ok a' ->
  saddle n (as_il a) Z0 Zs mu -> il_Z (as_il a') = Some Z' ->
  let rho := o_init_pen (il_opts (as_il a)) * phi ^ Z.to_nat (st_outer (il_stats (as_il a')) - 1) in
  mdist2 (duals (as_costs a')) mu (as_costs a) + rho ^ 2 * viol2 (as_costs a) Z' <= mdist2 (start_duals (as_il a)) mu (as_costs a).
Proof.
  intros debug n m phi Z0 fuel a a' Zs mu Z' ES UN H SD HZ'. destruct (es_result debug n m phi Z0 fuel a a' ES H) as (b & j & s & s1 & Z1 & Hb & Hr & I & S4 & EO & _). es_args ES fuel.
  rewrite EO. replace (Z.to_nat (Z.of_nat j + 1 - 1)) with j by lia. cbv zeta.
  assert (MB : mdist2 (duals (as_costs a')) mu (as_costs a) + (o_init_pen (il_opts (as_il a)) * phi ^ j) ^ 2 * viol2 (as_costs a) Z' <= mdist2 (duals (il_costobjs s)) mu (as_costs a) /\
    mdist2 (duals (il_costobjs s)) mu (as_costs a) <= mdist2 (start_duals (as_il a)) mu (as_costs a)).
  { eapply (multiplier_bound n m debug fuel (as_il a)); eauto. }
  lra.
Qed.
Theorem C68_max_penalty : forall debug n m phi Z0 fuel (a a' : ALS RS) Zs mu, eq_solver debug n m phi Z0 (as_il a) -> uniform phi (as_costs a) -> as_solve n m debug fuel a = Ok a' ->
  saddle n (as_il a) Z0 Zs mu -> 0 <= o_con_tol (il_opts (as_il a)) -> 0 <= o_max_pen (il_opts (as_il a)) ->
  mdist2 (start_duals (as_il a)) mu (as_costs a) < (o_con_tol (il_opts (as_il a)) * o_max_pen (il_opts (as_il a))) ^ 2 -> as_status a' <> kMaxPenalty.
Proof.
  intros debug n m phi Z0 fuel a a' Zs mu ES UN H SD TC MP BD EK. apply Rlt_not_le in BD. apply BD; clear BD. destruct (C68_violation debug n m phi Z0 fuel a a' ES H) as (V & Z' & BV & _ & V0 & _ & VB). specialize (VB Zs mu SD). cbv zeta in VB.
  destruct (es_result debug n m phi Z0 fuel a a' ES H) as (b & j & s & s1 & Z1 & Hb & Hr & I & S4 & EO & _). es_args ES fuel.
  pose proof (solve_stats_ok al_ops n m als_max_violation debug fuel s s1 (ou_solve _ _ _ _ _ _ _ _ _ S4) (oi_stats _ _ _ _ j s I)) as SK. destruct (ou_stats _ _ _ _ _ _ _ _ _ S4 SK) as (_ & _ & B2).
  pose proof (done_cases _ _ _ _ (ou_done _ _ _ _ _ _ _ _ _ S4) BV B2) as DC. destruct (outer_problem n m debug fuel s _ _ s1 _ S4) as (P1 & P4 & _). pose proof (sp_trans _ _ _ (oi_prob _ _ _ _ j s I) (sp_trans _ _ _ P1 P4)) as PP4. rewrite (sp_opts _ _ PP4), EK in DC.
  rewrite EO in VB. replace (Z.to_nat (Z.of_nat j + 1 - 1)) with j in VB by lia.
  assert (PJ : 0 <= o_init_pen (il_opts (as_il a)) * phi ^ j) by (apply Rmult_le_pos; [lra|apply pow_le; lra]).
  assert (LP : als_max_penalty (il_costobjs (as_il a')) <= o_init_pen (il_opts (as_il a)) * phi ^ j).
  { eapply (logged_penalty n m debug fuel (as_il a)) with (j := j); eauto. intros c v Hc Hv. rewrite (UN c v Hc Hv). lra. }
  assert (JE : o_max_pen (il_opts (as_il a)) < als_max_penalty (il_costobjs (as_il a')) /\ o_con_tol (il_opts (as_il a)) <= V).
  { destruct (negb (status_eqb (il_status (as_il a')) kSolved)) eqn:EN.
    - exfalso. assert (EI : il_status (as_il a') = kMaxPenalty) by congruence. rewrite (ou_status _ _ _ _ _ _ _ _ _ S4) in EI.
      revert EI. eapply inner_not_outer; [|exact (ou_solve _ _ _ _ _ _ _ _ _ S4)]. rewrite (sp_opts _ _ (oi_prob _ _ _ _ j s I)). exact MI.
    - cbn in DC. unfold Rltb in DC. destruct (Rlt_dec V (o_con_tol (il_opts (as_il a)))) as [|NV]; [discriminate|]. destruct (Rlt_dec _ _); [|destruct (_ <=? _)%Z; [discriminate|destruct (_ <=? _)%Z; discriminate]]. split; [assumption|lra]. }
  eapply Rle_trans; [|exact (Rle_trans _ _ _ (proj1 VB) (proj2 VB))]. apply pow_incr. split; [apply Rmult_le_pos; lra|]. rewrite Rmult_comm. apply Rmult_le_compat; lra.
Qed.

(** with uniform scaling the cost of the returned trajectory approaches the optimal cost at the rate 1/(rho0 phi^(j-1)) as well *)
Lemma tsum_cs (f g : nat -> nat -> nat -> CV RS -> R) cs :
  (tsum (fun k j i v => f k j i v * g k j i v) cs) ^ 2 <= tsum (fun k j i v => f k j i v ^ 2) cs * tsum (fun k j i v => g k j i v ^ 2) cs.
Proof.
  set (A := tsum (fun k j i v => f k j i v ^ 2) cs). set (B := tsum (fun k j i v => g k j i v ^ 2) cs). set (C := tsum (fun k j i v => f k j i v * g k j i v) cs).
  assert (Q : forall t, 0 <= A + (-2 * t) * C + t ^ 2 * B).
  { intros t. replace (A + -2 * t * C + t ^ 2 * B) with (tsum (fun k j i v => (f k j i v - t * g k j i v) ^ 2) cs); [apply tsum_nonneg; intros; apply pow2_ge_0|].
    unfold A, B, C. rewrite <- !tsum_scal, <- !tsum_plus. apply tsum_ext. intros. ring. }
  assert (HB : 0 <= B) by (apply tsum_nonneg; intros; apply pow2_ge_0). destruct (Rle_lt_or_eq_dec 0 B HB) as [P|E].
  - specialize (Q (C / B)). assert (EQ : A + -2 * (C / B) * C + (C / B) ^ 2 * B = A - C ^ 2 / B) by (field; lra). rewrite EQ in Q.
    apply Rmult_le_reg_r with (/ B); [apply Rinv_0_lt_compat; exact P|]. replace (A * B * / B) with A by (field; lra). unfold Rdiv in Q. lra.
  - rewrite <- E in *. destruct (Req_dec C 0) as [->|NE]; [lra|]. specialize (Q ((A + 1) / (2 * C))). replace (A + -2 * ((A + 1) / (2 * C)) * C + ((A + 1) / (2 * C)) ^ 2 * 0) with (-1) in Q by (field; exact NE). lra.
Qed.
Lemma pairing_bound mu cs Z : Rabs (pairing mu cs Z) <= sqrt (mdist2 mu (fun _ _ _ => 0) cs) * sqrt (viol2 cs Z).
Proof.
  rewrite <- sqrt_mult_alt by (apply tsum_nonneg; intros; apply pow2_ge_0). rewrite <- sqrt_Rsqr_abs. apply sqrt_le_1_alt. unfold Rsqr. replace (pairing mu cs Z * pairing mu cs Z) with (pairing mu cs Z ^ 2) by ring.
  eapply Rle_trans; [apply tsum_cs|]. apply Req_le. f_equal. apply tsum_ext. intros. ring.
Qed.
Lemma mdist_tri la mu cs : sqrt (mdist2 la (fun _ _ _ => 0) cs) <= sqrt (mdist2 la mu cs) + sqrt (mdist2 mu (fun _ _ _ => 0) cs).
Proof.
  assert (P : forall a b, 0 <= mdist2 a b cs) by (intros; apply tsum_nonneg; intros; apply pow2_ge_0). set (A := mdist2 la mu cs). set (B := mdist2 mu (fun _ _ _ => 0) cs).
  set (C := tsum (fun k j i v => (la k j i - mu k j i) * (mu k j i - 0)) cs).
  assert (E : mdist2 la (fun _ _ _ => 0) cs = A + 2 * C + B). { unfold A, B, C, mdist2. rewrite <- tsum_scal, <- !tsum_plus. apply tsum_ext. intros. ring. }
  assert (HC : C <= sqrt A * sqrt B).
  { rewrite <- sqrt_mult_alt by apply P. eapply Rle_trans; [apply Rle_abs|]. rewrite <- sqrt_Rsqr_abs. apply sqrt_le_1_alt. unfold Rsqr. replace (C * C) with (C ^ 2) by ring. apply tsum_cs. }
  apply Rsqr_incr_0_var; [|apply Rplus_le_le_0_compat; apply sqrt_pos]. rewrite Rsqr_sqrt by apply P. rewrite E. unfold Rsqr.
  pose proof (sqrt_sqrt A (P _ _)). pose proof (sqrt_sqrt B (P _ _)). generalize dependent (sqrt A). generalize dependent (sqrt B). intros. lra.
Qed.
Theorem C68_cost_rate : forall debug n m phi Z0 fuel (a a' : ALS RS) Zs mu Z', eq_solver debug n m phi Z0 (as_il a) -> uniform phi (as_costs a) -> as_solve n m debug fuel a = Ok a' ->
  saddle n (as_il a) Z0 Zs mu -> il_Z (as_il a') = Some Z' ->
  let rho := o_init_pen (il_opts (as_il a)) * phi ^ Z.to_nat (st_outer (il_stats (as_il a')) - 1) in
  let D := sqrt (mdist2 (start_duals (as_il a)) mu (as_costs a)) in let M := sqrt (mdist2 mu (fun _ _ _ => 0) (as_costs a)) in
  Rabs (user_cost (as_costs a) Z' - user_cost (as_costs a) Zs) <= (D + M) * D / rho.
Proof.
  intros debug n m phi Z0 fuel a a' Zs mu Z' ES UN H SD HZ' rho D M. pose proof (C68_multipliers debug n m phi Z0 fuel a a' Zs mu Z' ES UN H SD HZ') as B. cbv zeta in B. fold rho in B.
  destruct (C67_cost debug n m phi Z0 fuel a a' Z' ES H HZ') as [_ BR]. specialize (BR Zs mu SD).
  assert (P : forall x y, 0 <= mdist2 x y (as_costs a)) by (intros; apply tsum_nonneg; intros; apply pow2_ge_0). assert (PV : 0 <= viol2 (as_costs a) Z') by (apply tsum_nonneg; intros; apply pow2_ge_0).
  assert (RP : 0 < rho). { destruct ES. apply Rmult_lt_0_compat; [assumption|apply pow_lt; tauto]. }
  set (W := sqrt (viol2 (as_costs a) Z')). assert (W0 : 0 <= W) by apply sqrt_pos.
  assert (WD : rho * W <= D). { unfold W, D. rewrite <- (sqrt_pow2 rho) at 1 by lra. rewrite <- sqrt_mult_alt by apply pow2_ge_0. apply sqrt_le_1_alt. pose proof (P (duals (as_costs a')) mu). lra. }
  assert (WR : W <= D / rho). { apply Rmult_le_reg_l with rho; [exact RP|]. replace (rho * (D / rho)) with D by (field; lra). exact WD. }
  assert (LD : sqrt (mdist2 (duals (as_costs a')) mu (as_costs a)) <= D). { apply sqrt_le_1_alt. pose proof (Rmult_le_pos _ _ (pow2_ge_0 rho) PV). lra. }
  pose proof (pairing_bound mu (as_costs a) Z') as B1. pose proof (pairing_bound (duals (as_costs a')) (as_costs a) Z') as B2. fold W M in B1. fold W in B2.
  pose proof (mdist_tri (duals (as_costs a')) mu (as_costs a)) as TR. fold M in TR.
  assert (D0 : 0 <= D) by apply sqrt_pos. assert (M0 : 0 <= M) by apply sqrt_pos.
  assert (E1 : M * W <= (D + M) * (D / rho)) by (apply Rmult_le_compat; lra). assert (E2 : sqrt (mdist2 (duals (as_costs a')) (fun _ _ _ => 0) (as_costs a)) * W <= (D + M) * (D / rho)) by (apply Rmult_le_compat; try lra; apply sqrt_pos).
  replace ((D + M) * D / rho) with ((D + M) * (D / rho)) by (field; lra). pose proof (Rle_abs (pairing (duals (as_costs a')) (as_costs a) Z')) as A2. pose proof (Rle_abs (- pairing mu (as_costs a) Z')) as A1. rewrite Rabs_Ropp in A1. apply Rabs_le. lra.
Qed.

(** ** C69 *)
(** An augmented-Lagrangian solve of an initialised solver completes, whatever the costs, dynamics and constraints: from some amount of
    fuel on, the result is the same and it is a state (no abort, no exception, no endless loop). *)
Theorem C69_solve_completes : forall n m debug (a : ALS RS), let s := as_il a in
  il_ready s -> il_x0_set s = true -> (1 <= il_N s)%nat ->
  map fst (st_ser (il_stats s)) = series_titles -> reg_ok (il_opts s) -> 0 < o_reg_min (il_opts s) -> (0 <= o_max_total (il_opts s))%Z -> (1 <= o_header_freq (il_opts s))%Z ->
  exists fuel a', forall fuel', (fuel <= fuel')%nat -> as_solve n m debug fuel' a = Ok a'.
Proof. exact al_solve_total. Qed.

(** ** C70 *)
(** Total correctness.  With a saddle point whose multipliers are at distance less than con_tol * rho0 * phi^J from the starting ones,
    limits leaving room for J+1 outer iterations of at most two inner iterations, and tolerances positive: the solve completes, ends
    solved after at most J+1 outer iterations, and the trajectory found is feasible, meets every constraint to the tolerance and minimises
    f - lambda.c, with cost between f* + mu.c and f* + lambda.c. *)
Record room (J : nat) (phi : R) (o : Opts RS) (cs : list (ALCost RS)) : Prop := {
  rm_tol : 0 < o_con_tol o /\ 0 < o_cost_tol o /\ 0 < o_grad_tol o;
  rm_iters : (2 <= o_max_inner o)%Z /\ (Z.of_nat J < o_max_outer o)%Z /\ (2 * Z.of_nat J + 1 < o_max_total o)%Z /\ (1 <= o_header_freq o)%Z;
  rm_reg : 0 < o_reg_min o;
  rm_pen : 0 <= o_max_pen o /\ forall j c v, (j < J)%nat -> In c cs -> In v (al_eq c) -> o_init_pen o * cv_scal v ^ j <= o_max_pen o }.
Theorem C70_solved : forall debug n m phi J Z0 (a : ALS RS) Zs mu, (1 <= m)%nat -> eq_solver debug n m phi Z0 (as_il a) -> il_ready (as_il a) -> il_x0_set (as_il a) = true ->
  room J phi (il_opts (as_il a)) (as_costs a) -> saddle n (as_il a) Z0 Zs mu ->
  mdist2 (start_duals (as_il a)) mu (as_costs a) < (o_con_tol (il_opts (as_il a)) * (o_init_pen (il_opts (as_il a)) * phi ^ J)) ^ 2 ->
  exists fuel a' Z', (forall fuel', (fuel <= fuel')%nat -> as_solve n m debug fuel' a = Ok a') /\ as_status a' = kSolved /\
  (1 <= st_outer (il_stats (as_il a')) <= Z.of_nat J + 1)%Z /\ (1 <= st_total (il_stats (as_il a')) <= 2 * st_outer (il_stats (as_il a')))%Z /\
  il_Z (as_il a') = Some Z' /\ candidate n (as_il a) Z0 Z' /\
  (forall k c v i, nth_error (as_costs a) k = Some c -> In v (al_eq c) -> (i < cv_p v)%nat -> Rabs (cval Z' k v i) < o_con_tol (il_opts (as_il a))) /\
  (forall Y, candidate n (as_il a) Z0 Y -> lagrangian (duals (as_costs a')) (as_costs a) Z' <= lagrangian (duals (as_costs a')) (as_costs a) Y) /\
  user_cost (as_costs a) Zs + pairing mu (as_costs a) Z' <= user_cost (as_costs a) Z' <= user_cost (as_costs a) Zs + pairing (duals (as_costs a')) (as_costs a) Z'.
Proof.
  intros debug n m phi J Z0 a Zs mu M1 ES RD X0 [(TC & CT & GT) (MI2 & MO2 & MT & HF) RM2 [P0 MP]] SD BD.
  destruct (C69_solve_completes n m debug a RD X0 (es_N _ _ _ _ _ _ ES) (es_titles _ _ _ _ _ _ ES) (proj1 (proj2 (es_reg _ _ _ _ _ _ ES))) RM2 ltac:(lia) HF) as (fuel & a' & HT).
  pose proof (HT fuel (Nat.le_refl _)) as H. destruct (C67_stationary debug n m phi Z0 fuel a a' ES H) as (Z' & HZ' & CZ & OP). destruct (C67_cost debug n m phi Z0 fuel a a' Z' ES H HZ') as [_ BR]. specialize (BR Zs mu SD).
  destruct (C68_violation debug n m phi Z0 fuel a a' ES H) as (V & Z1 & BV & HZ1 & _ & VC & _). rewrite HZ' in HZ1. inversion HZ1; subst Z1.
  assert (SB : as_status a' = kSolved /\ (1 <= st_outer (il_stats (as_il a')) <= Z.of_nat J + 1)%Z /\ (1 <= st_total (il_stats (as_il a')) <= 2 * st_outer (il_stats (as_il a')))%Z).
  { es_args ES fuel. eapply (solved_by n m debug fuel (as_il a)) with (phi := phi); eauto. }
  destruct SB as (S1 & S2 & S3). exists fuel, a', Z'. split; [exact HT|]. split; [exact S1|]. split; [exact S2|]. split; [exact S3|]. split; [exact HZ'|]. split; [exact CZ|]. split; [|split; [exact OP|exact BR]].
  intros k c v i Hc Hv Hi. eapply Rle_lt_trans; [exact (VC k c v i Hc Hv Hi)|].
  destruct (P_Al.C13_status RS n m debug fuel a a' H) as (s & s1 & V' & P & _ & B' & _ & _ & _ & D); [apply (es_iters _ _ _ _ _ _ ES)|exact (es_titles _ _ _ _ _ _ ES)|]. rewrite BV in B'. inversion B'; subst V'.
  assert (LV : ltb V (o_con_tol (il_opts (as_il a))) = true) by (decompose [and or] D; congruence). revert LV. cbn. unfold Rltb. destruct (Rlt_dec V _); [intros; assumption|discriminate].
Qed.
(** for phi > 1 such a J exists *)
Theorem C70_enough : forall phi tol pen d, 1 < phi -> 0 < tol -> 0 < pen -> exists J, d < (tol * (pen * phi ^ J)) ^ 2.
Proof.
  intros phi tol pen d H1 H2 H3. destruct (Pow_x_infinity phi ltac:(rewrite Rabs_right; lra) ((Rabs d + 1) / (tol * pen))) as [J HJ]. specialize (HJ J (le_n _)). exists J.
  assert (TP : 0 < tol * pen) by (apply Rmult_lt_0_compat; lra). assert (PJ : 0 < phi ^ J) by (apply pow_lt; lra). rewrite Rabs_right in HJ by lra. apply Rge_le in HJ. apply (Rmult_le_compat_l (tol * pen)) in HJ; [|lra].
  replace (tol * pen * ((Rabs d + 1) / (tol * pen))) with (Rabs d + 1) in HJ by (field; split; lra). rewrite Rmult_assoc in HJ. set (y := tol * (pen * phi ^ J)) in *. pose proof (Rle_abs d). pose proof (Rabs_pos d). nra.
Qed.

(** ** the example *)
Lemma e_ready g : il_ready (e_il g).
Proof. split; [reflexivity|]. split; eexists; split; reflexivity. Qed.
Lemma e_room g : room 5 10 e_opts (as_costs (e_start g)).
Proof.
  split; cbn; try lra; try lia. split; [lra|]. intros j c v Hj Hc Hv. rewrite (e_cvs _ c v Hc Hv). cbn. rewrite Rmult_1_l. assert (E : 10 ^ j <= 10 ^ 5) by (apply Rle_pow; [lra|lia]). lra.
Qed.
Example C67_C68_C70_example : exists fuel a' Z' z0 z1, as_solve 1 1 false fuel (e_start 1) = Ok a' /\ as_status a' = kSolved /\ (st_outer (il_stats (as_il a')) <= 6)%Z /\ (st_total (il_stats (as_il a')) <= 12)%Z /\
  il_Z (as_il a') = Some Z' /\ Z' = [z0; z1] /\ Rabs (z_x z1 0%nat - 1) < 1 / 10000.
Proof.
  destruct (C70_solved false 1 1 10 5 e_guess (e_start 1) (e_opt 1) (e_mu 1)) as (fuel & a' & Z' & H1 & H2 & H3 & H4 & H5 & H6 & H7 & _); auto.
  - apply e_solver.
  - apply e_ready.
  - apply e_room.
  - apply e_saddle.
  - cbn [e_start as_il]. change (as_costs (e_start 1)) with (il_costobjs (e_il 1)). rewrite e_dist. cbn. lra.
  - destruct H6 as [LZ _]. destruct Z' as [|z0 [|z1 [|]]]; try discriminate LZ. exists fuel, a', [z0; z1], z0, z1. split; [apply H1; lia|]. split; [exact H2|]. split; [lia|]. split; [lia|]. split; [exact H5|]. split; [reflexivity|].
    specialize (H7 1%nat _ (e_cv 1) 0%nat eq_refl ltac:(left; reflexivity) ltac:(cbn; lia)). cbn in H7. exact H7.
Qed.
Lemma e_uniform g : uniform 10 (as_costs (e_start g)).
Proof. intros c v Hc Hv. rewrite (e_cvs _ c v Hc Hv). cbn. reflexivity. Qed.
(** for this problem the saddle multiplier is at distance 2 from the starting one (0); no run gives up, and the end cost f = u^2 is within 8/rho of 1 *)
Example C68_example : forall debug fuel a', as_solve 1 1 debug fuel (e_start 1) = Ok a' -> as_status a' <> kMaxOuterIterations /\ as_status a' <> kMaxPenalty /\
  forall Z', il_Z (as_il a') = Some Z' -> mdist2 (duals (as_costs a')) (e_mu 1) (as_costs (e_start 1)) <= 4 /\
    Rabs (user_cost (as_costs (e_start 1)) Z' - 1) <= 8 / 10 ^ Z.to_nat (st_outer (il_stats (as_il a')) - 1).
Proof.
  intros debug fuel a' H. pose proof (e_solver 1 debug) as ES. pose proof (e_saddle 1) as SD. pose proof (e_uniform 1) as UN. pose proof (e_dist 1) as ED. replace (4 * 1 ^ 2) with 4 in ED by lra. change (il_costobjs (e_il 1)) with (as_costs (e_start 1)) in ED.
  split; [|split].
  - apply (C68_max_outer debug 1 1 10 e_guess fuel (e_start 1) a' (e_opt 1) (e_mu 1) ES H SD); cbn [e_start as_il]; [cbn; lra|]. rewrite ED. cbn [e_il il_set_opts il_opts e_opts o_con_tol o_init_pen o_max_outer]. change (Z.to_nat (30 - 1)) with (5 + 24)%nat. rewrite pow_add.
    pose proof (pow_R1_Rle 10 24 ltac:(lra)) as P. generalize dependent (10 ^ 24). intros p Hp. cbn [Nat.add pow]. rs. nra.
  - apply (C68_max_penalty debug 1 1 10 e_guess fuel (e_start 1) a' (e_opt 1) (e_mu 1) ES UN H SD); cbn [e_start as_il]; [cbn; lra|cbn; lra|]. rewrite ED. cbn. lra.
  - intros Z' HZ'. pose proof (C68_multipliers debug 1 1 10 e_guess fuel (e_start 1) a' (e_opt 1) (e_mu 1) Z' ES UN H SD HZ') as M. pose proof (C68_cost_rate debug 1 1 10 e_guess fuel (e_start 1) a' (e_opt 1) (e_mu 1) Z' ES UN H SD HZ') as C. cbv zeta in M, C.
    cbn [e_start as_il] in M, C. change (as_costs (mkALS (e_il 1) kUnsolved)) with (as_costs (e_start 1)) in M, C. rewrite ED in M, C.
    assert (V0 : 0 <= viol2 (as_costs (e_start 1)) Z') by (apply tsum_nonneg; intros; apply pow2_ge_0). match type of M with _ + ?r ^ 2 * _ <= _ => pose proof (pow2_ge_0 r) as R0; pose proof (Rmult_le_pos _ _ R0 V0) end. split; [lra|].
    assert (E2 : mdist2 (e_mu 1) (fun _ _ _ => 0) (as_costs (e_start 1)) = 4). { rewrite <- ED. unfold mdist2, tsum. cbn. unfold start_duals. cbn. rs. lra. }
    assert (E1 : user_cost (as_costs (e_start 1)) (e_opt 1) = 1) by (unfold user_cost; cbn; rs; lra).
    rewrite E2, E1 in C. replace (sqrt 4) with 2 in C by (replace 4 with (2 ^ 2) by lra; symmetry; apply sqrt_pow2; lra). change (o_init_pen (il_opts (e_il 1))) with 1 in C. rewrite Rmult_1_l in C. replace ((2 + 2) * 2) with 8 in C by lra. exact C.
Qed.
(** with the end state 0 required the multipliers start at the right value (0): the trajectory returned meets the constraint and is optimal *)
Lemma viol_zero cs Z : viol2 cs Z <= 0 -> satisfies cs Z.
Proof.
  intros H k c v i Hc Hv Hi. destruct (In_nth_error _ _ Hv) as [j Hj]. pose proof (tsum_one cs (fun k _ i v => cval Z k v i ^ 2) k j i v (fun _ _ _ _ _ => pow2_ge_0 _) (ex_intro _ c (conj Hc (conj Hj Hi)))) as T. fold (viol2 cs Z) in T.
  cbv beta in T. pose proof (pow2_ge_0 (cval Z k v i)) as P. assert (E : cval Z k v i ^ 2 = 0) by lra. apply Rsqr_0_uniq. unfold Rsqr. lra.
Qed.
Example C67_example : forall debug fuel a' Z', as_solve 1 1 debug fuel (e_start 0) = Ok a' -> il_Z (as_il a') = Some Z' -> satisfies (as_costs (e_start 0)) Z' /\ user_cost (as_costs (e_start 0)) Z' <= 0.
Proof.
  intros debug fuel a' Z' H HZ'. destruct (C68_violation debug 1 1 10 e_guess fuel (e_start 0) a' (e_solver 0 debug) H) as (V & Z1 & _ & HZ1 & _ & _ & B). rewrite HZ' in HZ1. inversion HZ1; subst Z1.
  specialize (B _ _ (e_saddle 0)). cbv zeta in B. destruct B as [_ B]. change (as_costs (e_start 0)) with (il_costobjs (e_il 0)) in B at 2. cbn [e_start as_il] in B. rewrite e_dist in B. change (o_init_pen (il_opts (e_il 0))) with 1 in B.
  set (p := 10 ^ Z.to_nat (st_outer (il_stats (as_il a')) - 1)) in *. assert (P : 0 < p) by (apply pow_lt; lra).
  assert (S : satisfies (as_costs (e_start 0)) Z').
  { apply viol_zero. apply Rmult_le_reg_l with ((1 * p) ^ 2); [apply pow_lt; lra|]. change (as_costs (mkALS (e_il 0) kUnsolved)) with (as_costs (e_start 0)) in B. rewrite Rmult_0_r. lra. }
  split; [exact S|]. destruct (C67_optimal debug 1 1 10 e_guess fuel (e_start 0) a' Z' (e_solver 0 debug) H HZ' S) as [_ O]. destruct (e_saddle 0) as (CO & SO & _).
  eapply Rle_trans; [apply (O _ CO SO)|]. apply Req_le. unfold user_cost. cbn. rs. lra.
Qed.
(** A solver without a trajectory does not start: Solve stops with an assertion in a debug build and is undefined otherwise, whatever
    was set before; it never returns. *)
Theorem C69_needs_trajectory : forall (F : Scalar) n m debug fuel (a : ALS F), il_Z (as_il a) = None ->
  (forall a', as_solve n m debug fuel a <> Ok a') /\
  (forall Z s', as_init debug (il_set_Z (as_il a) (Some Z)) = Ok s' -> as_solve n m debug fuel a = if debug then Abort else UB).
Proof.
  intros F n m debug fuel a HZ. unfold as_solve, as_init. set (s := as_il a) in *. cbn [il_set_Z il_opts].
  assert (M : forall f : ALCost F -> ALCost F, il_Z (il_map_costobjs f s) = None) by (intros f; exact HZ).
  set (s1 := if o_reset_duals (il_opts s) then il_map_costobjs al_reset_duals s else s).
  assert (H1 : il_Z s1 = None) by (unfold s1; destruct (o_reset_duals (il_opts s)); auto).
  assert (R : forall s2 : ILQR F (ALCost F), il_Z s2 = None -> il_recost debug s2 = if debug then Abort else UB).
  { intros s2 E. unfold il_recost, il_get_Z. rewrite E. destruct debug; reflexivity. }
  split.
  - intros a'.
    match goal with |- context [do s2 <- ?e ; _] => destruct e as [s2| | | | |] eqn:E2 end; cbn [bind]; try discriminate.
    assert (H2 : il_Z s2 = None).
    { destruct (ltb zero (o_init_pen (il_opts s))); [|inversion E2; subst; exact H1]. destruct (als_set_penalty debug _ _); cbn [bind] in E2; try discriminate. inversion E2; subst. exact H1. }
    destruct (st_reset debug (il_opts s) (il_stats s2)); cbn [bind]; try discriminate. rewrite R by exact H2. destruct debug; discriminate.
  - intros Z s'.
    replace (if o_reset_duals (il_opts s) then il_map_costobjs al_reset_duals (il_set_Z s (Some Z)) else il_set_Z s (Some Z)) with (il_set_Z s1 (Some Z)) by (unfold s1; destruct (o_reset_duals (il_opts s)); reflexivity).
    change (il_costobjs (il_set_Z s1 (Some Z))) with (il_costobjs s1).
    destruct (ltb zero (o_init_pen (il_opts s))).
    + destruct (als_set_penalty debug _ _) as [cs| | | | |]; cbn [bind]; try discriminate. change (il_stats (il_set_costobjs cs (il_set_Z s1 (Some Z)))) with (il_stats (il_set_costobjs cs s1)).
      destruct (st_reset debug (il_opts s) (il_stats (il_set_costobjs cs s1))); cbn [bind]; try discriminate. intros _. rewrite R by exact H1. destruct debug; reflexivity.
    + cbn [bind]. change (il_stats (il_set_Z s1 (Some Z))) with (il_stats s1). destruct (st_reset debug (il_opts s) (il_stats s1)); cbn [bind]; try discriminate. intros _. rewrite R by exact H1. destruct debug; reflexivity.
Qed.
Example C69_example : exists fuel a', forall fuel', (fuel <= fuel')%nat -> as_solve 1 1 true fuel' (e_start 1) = Ok a'.
Proof. apply C69_solve_completes; try reflexivity; try (cbn; lia); [apply e_ready|cbn; unfold reg_ok; cbn; lra|cbn; lra]. Qed.
Print Assumptions C67_stationary.
Print Assumptions C67_cost.
Print Assumptions C67_optimal.
Print Assumptions C68_violation.
Print Assumptions C68_max_outer.
Print Assumptions C68_multipliers.
Print Assumptions C68_max_penalty.
Print Assumptions C68_cost_rate.
Print Assumptions C69_solve_completes. Print Assumptions C69_needs_trajectory.
Print Assumptions C70_solved.
Print Assumptions C70_enough.
