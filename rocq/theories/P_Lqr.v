(** Property theorems: the linear-quadratic subproblem (C26-C31), completion of a solve (C60) and its iteration count (C71). *)
From Coq Require Import ZArith QArith Reals String List Bool Lia Lra Psatz.
From Verif Require Import Base Lin RLin ConModel LogModel StatsModel TrajModel IlqrModel IlqrSpec IlqrProofs5 IlqrProofs6 CostInst IlqrExamples LsSpec
  DynModel ExampleModel LqSpec LltProofs LltLow LqProofs LqProofs2 LqProofs3 LqProbSpec LqProofs8 LqProofs6 TotalProofs LqInst.
Import ListNotations.
Local Open Scope R_scope.

(** * Concrete data for the examples: one state, one control, x' = x + u, cost (x^2 + u^2) / 2, last cost x^2 / 2, exact reals *)
Definition r_dyn : Dyn RS := mkDyn (F:=RS) (fun x u _ _ b i => x i + u i) (fun _ _ _ _ _ => fun i j => 1).
Definition r_cost (r : R) : UCost RS := qc_ucost (mkQC (F:=RS) 1 1 (fun _ _ => 1) (fun _ _ => r) (fun _ _ => 0) (fun _ => 0) (fun _ => 0) 0 false).
Definition r_no_viol (_ : list (UCost RS)) : RS := 0.
Definition r_kps : list (Dyn RS * UCost RS) := [(r_dyn, r_cost 1); (r_dyn, r_cost 1); (r_dyn, r_cost 0)].
Definition r_guess : Traj RS := [mkKP (F:=RS) (fun _ => 0) (fun _ => 3) 0 1; mkKP (F:=RS) (fun _ => 0) (fun _ => 5) 1 1; mkKP (F:=RS) (fun _ => 0) (fun _ => 0) 2 0].
(** default options *)
Definition r_solver : ILQR RS (UCost RS) := il_set_trajectory r_guess (il_make 2 (fun _ => 1) r_kps).
(** a knot point with these expansions, and an indefinite control block -1 *)
Definition r_exp (r : R) : Exp RS := mkExp (F:=RS) (fun _ _ => 1) (fun _ _ => 0) (fun _ _ => r) (fun _ => 2) (fun _ => 1).
Definition r_kp (r : R) : KPF RS unit := mkKPF (F:=RS) r_dyn tt (r_exp r) (fun _ _ => 1) exp_zero exp_zero mzero vzero mzero vzero 0 0.
Lemma one_form (A : nat -> nat -> R) x y : form 1 1 A x y = x 0%nat * (A 0%nat 0%nat * y 0%nat).
Proof. unfold form, tot. cbn. lra. Qed.
Lemma one_inner x y : inner 1 x y = x 0%nat * y 0%nat.
Proof. unfold inner, tot. cbn. lra. Qed.
Lemma one_sym A : sym 1 A.
Proof. intros i j Hi Hj. assert (i = 0)%nat as -> by lia. assert (j = 0)%nat as -> by lia. reflexivity. Qed.
Lemma one_posdef A : 0 < A 0%nat 0%nat -> posdef 1 A.
Proof. intros H x (i & Hi & N). assert (i = 0)%nat as -> by lia. rewrite one_form. pose proof (Rsqr_pos_lt _ N). unfold Rsqr in *. nra. Qed.
Lemma one_possemi A : 0 <= A 0%nat 0%nat -> possemi 1 A.
Proof. intros H x. rewrite one_form. pose proof (Rle_0_sqr (x 0%nat)). unfold Rsqr in *. nra. Qed.
Lemma r_convex : convex_stage 1 1 (stage_of 1 (r_kp 1)) /\ sym_stage 1 1 (stage_of 1 (r_kp 1)).
Proof.
  split; split; try apply one_sym; [|apply one_posdef; cbn; lra]. intros dx du. unfold quadcost. rewrite !one_form. cbn.
  pose proof (Rle_0_sqr (dx 0%nat)). pose proof (Rle_0_sqr (du 0%nat)). unfold Rsqr in *. nra.
Qed.
(** ** C26 *)
(** Action value at a knot point: stage model plus the cost-to-go (s, S) of the next knot point.  With rho = 0, the control
    K dx + d is the only minimiser, for every deviation dx. *)
Theorem C26_minimiser : forall CS n m (S : mat RS) (s : vec RS) (k k2 : KPF RS CS),
  kpf_gains n m (kpf_regularize m (0 : RS) (kpf_action_value n m S s k)) = Some k2 -> sym_stage n m (stage_of n k) -> sym n S ->
  forall dx du, let value := fun v => stage_cost n m (stage_of n k) dx v + quadratic n s S (next n m (stage_of n k) dx v) in
  let u := fun i => app n (kp_K k2) dx i + kp_d k2 i in
  value u <= value du /\ (value du <= value u -> forall i, (i < m)%nat -> du i = u i).
Proof.
  intros CS n m S s k k2 G SY SS dx du value u.
  pose proof (st_min n m 0 S s k k2 G SY SS eq_refl dx (fun i => du i - u i)) as M. pose proof (st_pd n m 0 S s k k2 G SY SS eq_refl) as P.
  change (kp_K (kpf_ctg n m k2)) with (kp_K k2) in M. change (kp_d (kpf_ctg n m k2)) with (kp_d k2) in M.
  rewrite !(av_cost n m k S s) in M by exact SS.
  assert (E : stage_cost n m (stage_of n k) dx (fun i => app n (kp_K k2) dx i + kp_d k2 i + (du i - u i)) + quadratic n s S (next n m (stage_of n k) dx (fun i => app n (kp_K k2) dx i + kp_d k2 i + (du i - u i))) = value du).
  { unfold value. f_equal; [apply stage_cost_ext; auto; intros; unfold u; lra|]. apply quadratic_ext. intros. apply next_ext. intros; unfold u; lra. }
  rewrite E in M. fold u in M. change (value du = value u + 1 / 2 * form m m (e_uu (kp_q (kpf_action_value n m S s k))) (fun i => du i - u i) (fun i => du i - u i)) in M.
  pose proof (posdef_nonneg m _ (fun i => du i - u i) P). split; [lra|]. intros L i Hi. pose proof (posdef_zero m _ (fun i => du i - u i) P ltac:(lra) i Hi). cbn in *. lra.
Qed.
(** and the gains exist exactly when the control block R + B'SB is positive definite *)
Theorem C26_exists : forall CS n m (S : mat RS) (s : vec RS) (k : KPF RS CS), sym_stage n m (stage_of n k) -> sym n S ->
  ((exists k2, kpf_gains n m (kpf_regularize m (0 : RS) (kpf_action_value n m S s k)) = Some k2) <->
   forall w, nonzero m w -> 0 < form m m (sg_uu (stage_of n k)) w w + form n n S (app m (sg_B (stage_of n k)) w) (app m (sg_B (stage_of n k)) w)).
Proof.
  intros CS n m S s k SY SS.
  assert (E : forall w, form m m (e_uu (kp_q (kpf_action_value n m S s k))) w w = form m m (sg_uu (stage_of n k)) w w + form n n S (app m (sg_B (stage_of n k)) w) (app m (sg_B (stage_of n k)) w)).
  { intros w. pose proof (av_quad n m k S s (fun _ => 0) w SS) as Q. unfold quadcost in Q. rewrite !form_zero_l in Q.
    rewrite (form_ext n n S _ _ S (app m (sg_B (stage_of n k)) w) (app m (sg_B (stage_of n k)) w)) in Q by (auto; intros; unfold next; rewrite app_zero; lra).
    cbn [q_stage sg_uu] in Q. lra. }
  split.
  - intros [k2 G] w W. rewrite <- E. apply (st_pd n m 0 S s k k2 G SY SS eq_refl). exact W.
  - intros P. destruct (av_sym n m k S s SY SS) as [_ SU]. apply gains_ok; [apply reg_sym; exact SU|]. intros w W. rewrite reg_form, E. specialize (P w W). lra.
Qed.
(** over the whole horizon: no controls at all do better on the quadratic model than the value the sweep computed, and
    (C27) the policy attains it *)
Theorem C26_horizon : forall CS n m (kps : list (KPF RS CS)) SN sN, Forall (fun k => sym_stage n m (stage_of n k)) kps -> sym n SN ->
  let w := bp_sweep n m (0 : RS) kps SN sN 0 0 in sw_ok w = true -> forall us dx, length us = length kps ->
  model_cost n m (map (stage_of n) kps) sN SN dx (policy n m 1 (map (stage_of n) kps) (map (fun k => (kp_K k, kp_d k)) (sw_kps w)) dx)
    <= model_cost n m (map (stage_of n) kps) sN SN dx us.
Proof.
  intros CS n m kps SN sN F HS w OK us dx L. pose proof (sweep_best n m kps SN sN 0 0 F HS OK us dx L) as B. pose proof (sweep_alpha n m kps SN sN 0 0 F HS OK 1 dx) as A.
  fold w in A, B. rewrite A. lra.
Qed.
Lemma r_gains r : 0 < r + 1 -> exists k2, kpf_gains 1 1 (kpf_regularize 1 (0 : RS) (kpf_action_value 1 1 (fun _ _ => 1 : RS) (fun _ => 0 : RS) (r_kp r))) = Some k2.
Proof.
  intros H. apply C26_exists; [split; apply one_sym|apply one_sym|]. intros w (i & Hi & N). assert (i = 0)%nat as -> by lia. rewrite !one_form. unfold app, tot. cbn.
  pose proof (Rsqr_pos_lt _ N). unfold Rsqr in *. nra.
Qed.
(** a concrete gain: R = 1, S = 1, A = B = 1, gradient 1 gives K = -1/2, d = -1/2; an indefinite block R = -1/2 still works
    because R + B'SB = 1/2 *)
Example C26_example : (exists k2, kpf_gains 1 1 (kpf_regularize 1 (0 : RS) (kpf_action_value 1 1 (fun _ _ => 1 : RS) (fun _ => 0 : RS) (r_kp 1))) = Some k2 /\ kp_K k2 0%nat 0%nat = - (1 / 2) /\ kp_d k2 0%nat = - (1 / 2)) /\
  sym_stage 1 1 (stage_of 1 (r_kp 1)) /\ sym 1 (fun _ _ => 1) /\
  exists k2, kpf_gains 1 1 (kpf_regularize 1 (0 : RS) (kpf_action_value 1 1 (fun _ _ => 1 : RS) (fun _ => 0 : RS) (r_kp (- (1 / 2))))) = Some k2.
Proof.
  split; [|split; [apply r_convex|split; [apply one_sym|apply r_gains; lra]]].
  destruct (r_gains 1 ltac:(lra)) as [k2 G]. exists k2. split; [exact G|].
  assert (E : forall x, kp_K k2 0%nat 0%nat * x + kp_d k2 0%nat = - (1 + x) / 2).
  { intros x. pose proof (proj2 (C26_minimiser _ _ _ _ _ _ _ G (proj2 r_convex) (one_sym _) (fun _ => x) (fun _ => - (1 + x) / 2))) as M. cbv zeta in M.
    unfold stage_cost, lincost, quadcost, quadratic, next in M. rewrite !one_form, !one_inner in M. unfold app, tot in M. cbn in M. rewrite Rplus_0_r in M.
    set (K := kp_K k2 0%nat 0%nat) in *. set (d := kp_d k2 0%nat) in *. set (u := K * x + 0 + d) in *.
    assert (X : - (1 + x) / 2 = u); [|unfold u in X; lra]. apply M; [|lia]. pose proof (Rle_0_sqr (u + (1 + x) / 2)) as Q. unfold Rsqr in Q. nra. }
  pose proof (E 0). pose proof (E 1). split; lra.
Qed.
Print Assumptions C26_minimiser.
Print Assumptions C26_exists.
Print Assumptions C26_horizon.

(** ** C27 *)
(** After a backward pass that did not give up, whatever regularisation and restarts it took: the cost-to-go (s, S) stored at
    knot point i is the model cost of following the stored gains from i on, minus the stored expected changes of the knot
    points from i on. *)
Theorem C27_cost_to_go : forall CS n m fuel (s s' : ILQR RS CS), il_backward_pass n m fuel s = Ok s' -> length (il_kps s) = S (il_N s) -> sym_data n m s ->
  il_status s' <> kBackwardPassRegularizationFailed ->
  exists kN kN', nth_error (il_kps s) (il_N s) = Some kN /\ nth_error (il_kps s') (il_N s) = Some kN' /\ kp_S kN' = e_xx (kp_ce kN) /\ kp_s kN' = e_x (kp_ce kN) /\
  forall i ki, (i < il_N s)%nat -> nth_error (il_kps s') i = Some ki -> forall dx,
  let gs := skipn i (map (stage_of n) (firstn (il_N s) (il_kps s))) in let after := skipn i (firstn (il_N s) (il_kps s')) in
  model_cost n m gs (e_x (kp_ce kN)) (e_xx (kp_ce kN)) dx (policy n m 1 gs (map (fun k => (kp_K k, kp_d k)) after) dx)
    = quadratic n (kp_s ki) (kp_S ki) dx + fold_right (fun k a => kp_dv0 k + kp_dv1 k + a) 0 after.
Proof. exact @pass_stored. Qed.
(** without regularisation the expected change is also exact for every step length: alpha deltaV_0 + alpha^2 deltaV_1 *)
Theorem C27_step_length : forall CS n m (kps : list (KPF RS CS)) SN sN, Forall (fun k => sym_stage n m (stage_of n k)) kps -> sym n SN ->
  let w := bp_sweep n m (0 : RS) kps SN sN 0 0 in sw_ok w = true -> forall a dx,
  model_cost n m (map (stage_of n) kps) sN SN dx (policy n m a (map (stage_of n) kps) (map (fun k => (kp_K k, kp_d k)) (sw_kps w)) dx)
    = quadratic n (sw_s w) (sw_S w) dx + a * sw_v0 w + a * a * sw_v1 w.
Proof. intros CS n m kps SN sN F HS w OK a dx. pose proof (sweep_alpha n m kps SN sN 0 0 F HS OK a dx) as A. fold w in A. rewrite A. lra. Qed.
(** three knot points; the pass succeeds with rho = 2 *)
Definition r_pass (rho r : R) : ILQR RS unit := il_set_reg (mkILQR (F:=RS) 2 vzero true [r_kp r; r_kp r; r_kp r] None None kUnsolved [] [] 0 0 0 0 st_new opts_default) (rho : RS) 0.
Lemma r_pass_data rho r : length (il_kps (r_pass rho r)) = S (il_N (r_pass rho r)) /\ sym_data 1 1 (r_pass rho r).
Proof. split; [reflexivity|]. split; [|intros; apply one_sym]. apply Forall_forall. intros k _. split; apply one_sym. Qed.
Lemma r_pass_convex rho : Forall (fun k => convex_stage 1 1 (stage_of 1 k)) (firstn 2 (il_kps (r_pass rho 1))).
Proof. apply Forall_cons; [apply r_convex|]. apply Forall_cons; [apply r_convex|]. apply Forall_nil. Qed.
Lemma r_pass_ok rho : 0 <= rho -> exists s', il_backward_pass 1 1 1 (r_pass rho 1) = Ok s' /\ il_status s' = kUnsolved.
Proof.
  intros H. destruct (r_pass_data rho 1) as [L D].
  destruct (pass_convex 1 1 0 (r_pass rho 1) L ltac:(cbn; lia) D H) as (k0 & _ & _ & st & E).
  - apply r_pass_convex.
  - intros kN E. apply one_possemi. apply nth_error_In in E. cbn in E. destruct E as [<- | [<- | [<- | []]]]; cbn; lra.
  - eexists. split; [exact E|reflexivity].
Qed.
Example C27_example : (exists s', il_backward_pass 1 1 1 (r_pass 2 1) = Ok s' /\ il_status s' <> kBackwardPassRegularizationFailed) /\ length (il_kps (r_pass 2 1)) = S (il_N (r_pass 2 1)) /\ sym_data 1 1 (r_pass 2 1).
Proof. destruct (r_pass_ok 2 ltac:(lra)) as (s' & E & ST). split; [|apply r_pass_data]. exists s'. split; [exact E|]. rewrite ST. discriminate. Qed.
Print Assumptions C27_cost_to_go.
Print Assumptions C27_step_length.

(** ** C28 *)
(** - alpha (deltaV_0 + alpha deltaV_1) is the expected decrease of the forward pass *)
Theorem C28_descent : forall CS n m fuel (s s' : ILQR RS CS), il_backward_pass n m fuel s = Ok s' -> length (il_kps s) = S (il_N s) -> sym_data n m s ->
  reg_ok (il_opts s) -> 0 <= o_reg_min (il_opts s) -> 0 <= il_rho s -> forall a, 0 < a <= 1 ->
  0 <= - a * (il_dV0 s' + a * il_dV1 s') /\
  (il_status s' <> kBackwardPassRegularizationFailed -> - a * (il_dV0 s' + a * il_dV1 s') = 0 ->
   Forall (fun k => forall i, (i < m)%nat -> kp_d k i = 0) (firstn (il_N s') (il_kps s'))).
Proof. exact @pass_descent. Qed.
Example C28_example : (exists s', il_backward_pass 1 1 1 (r_pass 2 1) = Ok s') /\ length (il_kps (r_pass 2 1)) = S (il_N (r_pass 2 1)) /\ sym_data 1 1 (r_pass 2 1) /\
  reg_ok (il_opts (r_pass 2 1)) /\ 0 <= o_reg_min (il_opts (r_pass 2 1)) /\ 0 <= il_rho (r_pass 2 1).
Proof.
  destruct (r_pass_ok 2 ltac:(lra)) as (s' & E & _). split; [exists s'; exact E|]. destruct (r_pass_data 2 1) as [A B]. split; [exact A|]. split; [exact B|].
  unfold reg_ok, lit. cbn. unfold lit. simpl. split; [split; lra|]. lra.
Qed.
Print Assumptions C28_descent.

(** ** C29 *)
Theorem C29_symmetric : forall CS n m fuel (s s' : ILQR RS CS), il_backward_pass n m fuel s = Ok s' -> length (il_kps s) = S (il_N s) -> sym_data n m s ->
  Forall (fun k => sym n (kp_S k)) (il_kps s) -> Forall (fun k => sym n (kp_S k)) (il_kps s').
Proof. exact @pass_sym. Qed.
(** convex stages: one sweep is enough (fuel 1), no failure is reported, and every cost-to-go is positive semidefinite *)
Theorem C29_convex : forall CS n m (s : ILQR RS CS), length (il_kps s) = S (il_N s) -> (1 <= il_N s)%nat -> sym_data n m s -> 0 <= il_rho s ->
  Forall (fun k => convex_stage n m (stage_of n k)) (firstn (il_N s) (il_kps s)) -> (forall kN, nth_error (il_kps s) (il_N s) = Some kN -> possemi n (e_xx (kp_ce kN))) ->
  exists s', il_backward_pass n m 1 s = Ok s' /\ il_status s' = il_status s /\ Forall (fun k => possemi n (kp_S k)) (il_kps s').
Proof. exact @pass_convex_psd. Qed.
Example C29_example : length (il_kps (r_pass 2 1)) = S (il_N (r_pass 2 1)) /\ sym_data 1 1 (r_pass 2 1) /\ Forall (fun k => convex_stage 1 1 (stage_of 1 k)) (firstn 2 (il_kps (r_pass 2 1))) /\
  (forall kN, nth_error (il_kps (r_pass 2 1)) 2 = Some kN -> possemi 1 (e_xx (kp_ce kN))) /\ Forall (fun k => sym 1 (kp_S k)) (il_kps (r_pass 2 1)).
Proof.
  destruct (r_pass_data 2 1) as [A B]. split; [exact A|]. split; [exact B|]. split; [apply r_pass_convex|]. split; [|apply Forall_forall; intros; apply one_sym].
  intros kN E. inversion E. apply one_possemi. cbn. lra.
Qed.
Print Assumptions C29_symmetric.
Print Assumptions C29_convex.

(** ** C30 *)
Theorem C30_accepts : forall m (A : mat RS), sym m A -> ((exists L, llt m A = Some L) <-> posdef m A).
Proof. intros m A S. split; [intros [L E]; exact (llt_posdef m A L S E)|apply posdef_llt; exact S]. Qed.
Theorem C30_solves : forall m (A L : mat RS) b, sym m A -> llt m A = Some L -> forall i, (i < m)%nat -> app m A (llt_solve m L b) i = b i.
Proof. intros m A L b S E i Hi. rewrite app_r. exact (llt_solves m A L b S E i Hi). Qed.
(** any arithmetic, floating point included: only the lower triangle matters *)
Theorem C30_lower_triangle : forall (F : Scalar) m (A B : mat F), (forall i j, (j <= i)%nat -> (i < m)%nat -> A i j = B i j) ->
  match llt m A, llt m B with
  | Some L, Some M => forall b i, llt_solve m L b i = llt_solve m M b i
  | None, None => True
  | _, _ => False
  end.
Proof. exact @low_only. Qed.
(** the symmetric matrix (4 2; 2 3) factors, (1 2; 2 1) does not; with junk above the diagonal nothing changes *)
Example C30_example :
  (match llt 2 (fun i j => match i, j with 0%nat, 0%nat => (4 : R) : RS | 1%nat, 1%nat => 3 : RS | _, _ => 2 : RS end) with Some L => True | None => False end) /\
  ~ posdef 2 (fun i j => match i, j with 0%nat, 0%nat => 1 | 1%nat, 1%nat => 1 | _, _ => 2 end).
Proof.
  split.
  - destruct (posdef_llt 2 (fun i j => match i, j with 0%nat, 0%nat => 4 | 1%nat, 1%nat => 3 | _, _ => 2 end)) as [L E].
    + intros i j Hi Hj. destruct i as [|[|]], j as [|[|]]; reflexivity.
    + intros x (i & Hi & N). unfold form, tot. cbn. pose proof (Rle_0_sqr (2 * x 0%nat + x 1%nat)) as Q. unfold Rsqr in Q. pose proof (Rle_0_sqr (x 1%nat)) as Q1. pose proof (Rle_0_sqr (x 0%nat)) as Q0. unfold Rsqr in Q0, Q1.
      assert (C : i = 0%nat \/ i = 1%nat) by lia. destruct C as [-> | ->]; pose proof (Rsqr_pos_lt _ N) as P; unfold Rsqr in P; nra.
    + change (llt 2 (fun i j => match i, j with 0%nat, 0%nat => (4 : R) : RS | 1%nat, 1%nat => 3 : RS | _, _ => 2 : RS end) = Some L) in E. rewrite E. exact I.
  - intros P. specialize (P (fun i => match i with 0%nat => 1 | _ => -1 end)). unfold form, tot in P. cbn in P. assert (0 < -2); [|lra]. assert (X := P ltac:(exists 0%nat; split; [lia|lra])). lra.
Qed.
Print Assumptions C30_accepts.
Print Assumptions C30_solves.
Print Assumptions C30_lower_triangle.

(** ** C31 *)
(** [best n m D s Z Z']: Z' obeys the dynamics from x0 on the time grid of Z and no trajectory that does has a lower cost.
    The first iteration reaches it: either the rollout was already optimal, or the line search accepted the step alpha = 1. *)
Theorem C31_first_iteration : forall CS n m (ops : CostOps RS CS) cb Inv D, quad_costs n m ops Inv D ->
  forall (s0 b : ILQR RS CS) debug, lq_problem n m Inv D s0 -> (1 <= il_N s0)%nat -> o_reg_initial (il_opts s0) = 0 ->
  o_ls_lb (il_opts s0) <= 1 <= o_ls_ub (il_opts s0) -> (1 <= o_ls_iters (il_opts s0))%Z ->
  (o_check_bounds (il_opts s0) = true -> forall Z Y, il_Z s0 = Some Z -> best n m D s0 Z Y -> within_limits n m (il_opts s0) Y) ->
  il_begin ops n debug s0 = Ok b -> forall fuel fin s', il_iteration ops n m cb fuel b = Ok (fin, s') ->
  exists Z Z', il_Z s0 = Some Z /\ il_Z s' = Some Z' /\ best n m D s0 Z Z' /\ let Z1 := il_rollout n Z s0 in
   (Z' = Z1 \/ lq_cost n m D s0 Z' < lq_cost n m D s0 Z1 /\
     exists f s2 ts, il_backward_pass n m f (il_update_expansions ops n m Z1 b) = Ok s2 /\ simulates n m s2 ts Z1 1 Z').
Proof. exact @first_iteration_lq. Qed.
(** no later iteration spoils it *)
Theorem C31_iterations : forall CS n m (ops : CostOps RS CS) cb Inv D, quad_costs n m ops Inv D ->
  forall (s0 b : ILQR RS CS) debug, lq_problem n m Inv D s0 -> (1 <= il_N s0)%nat -> o_reg_initial (il_opts s0) = 0 ->
  o_ls_lb (il_opts s0) <= 1 <= o_ls_ub (il_opts s0) -> (1 <= o_ls_iters (il_opts s0))%Z ->
  (o_check_bounds (il_opts s0) = true -> forall Z Y, il_Z s0 = Some Z -> best n m D s0 Z Y -> within_limits n m (il_opts s0) Y) ->
  il_begin ops n debug s0 = Ok b -> forall fuel j s fin s', stats_ok (il_stats s0) -> reach ops n m cb fuel b j s -> il_iteration ops n m cb fuel s = Ok (fin, s') ->
  exists Z Z', il_Z s0 = Some Z /\ il_Z s' = Some Z' /\ best n m D s0 Z Z'.
Proof. exact @every_iteration_lq. Qed.
(** a whole solve completes and returns an optimal trajectory *)
Theorem C31_solve : forall CS n m (ops : CostOps RS CS) cb Inv D, quad_costs n m ops Inv D -> forall debug (s0 : ILQR RS CS),
  lq_problem n m Inv D s0 -> il_ready s0 -> il_x0_set s0 = true -> (1 <= il_N s0)%nat -> stats_ok (il_stats s0) -> lg_freq (st_log (il_stats s0)) <> 0%Z ->
  reg_ok (il_opts s0) -> 0 < o_reg_min (il_opts s0) -> o_reg_initial (il_opts s0) = 0 -> o_ls_lb (il_opts s0) <= 1 <= o_ls_ub (il_opts s0) ->
  (1 <= o_ls_iters (il_opts s0))%Z -> (1 <= o_max_inner (il_opts s0))%Z ->
  (o_check_bounds (il_opts s0) = true -> forall Z Y, il_Z s0 = Some Z -> best n m D s0 Z Y -> within_limits n m (il_opts s0) Y) ->
  exists fuel, forall fuel', (fuel <= fuel')%nat -> exists s' Z Z', il_solve ops n m cb debug fuel' s0 = Ok s' /\ il_Z s0 = Some Z /\ il_Z s' = Some Z' /\ best n m D s0 Z Z'.
Proof.
  intros CS n m ops cb Inv D HQ debug s0 LP RD X0 N1 SO FR RO RM RI HLB HIT HMI HLIM.
  destruct (solve_total ops n m cb debug s0 RD X0 N1 SO FR RO RM) as [fuel T]. exists fuel. intros f Hf. destruct (T f Hf) as [s' E]. exists s'.
  destruct (solve_lq n m ops cb Inv D HQ debug f s0 s' LP N1 RI HLB HIT HLIM SO HMI E) as (Z & Z' & A & B & C). exists Z, Z'. auto.
Qed.
Lemma freq_new (F : Scalar) : lg_freq (st_log (@st_new F)) <> 0%Z.
Proof. vm_compute. discriminate. Qed.
(** the classes of the repository: QuadraticCost built by LQRCost and Runge-Kutta steps of linear systems *)
Definition lqr_stage (n m : nat) (p : Dyn RS * UCost RS) : Prop :=
  (exists cd A B c W st, linear_system n m cd A B c W /\ fst p = disc_rk4 n m cd st) /\
  exists debug ok Q R xref uref term q, qc_lqr debug ok n m Q R xref uref term = Ok q /\ snd p = qc_ucost q /\ sym n Q /\ possemi n Q /\ sym m R /\ posdef m R.
Definition lqr_end (n m : nat) (p : Dyn RS * UCost RS) : Prop :=
  exists debug ok Q xref uref term q, qc_lqr debug ok n m Q (fun _ _ => 0 : RS) xref uref term = Ok q /\ snd p = qc_ucost q /\ sym n Q /\ possemi n Q.
Theorem C31_lqr_rk4 : forall n m N (x0 : vec RS) ks last Z o cb debug,
  length ks = N -> Forall (lqr_stage n m) ks -> lqr_end n m last -> length Z = S N -> (1 <= N)%nat ->
  reg_ok o -> 0 < o_reg_min o -> o_reg_initial o = 0 -> o_ls_lb o <= 1 <= o_ls_ub o -> (1 <= o_ls_iters o)%Z -> (1 <= o_max_inner o)%Z -> o_check_bounds o = false ->
  let s0 := il_set_opts (il_set_trajectory Z (il_make N x0 (ks ++ [last]))) o in
  exists fuel, forall fuel', (fuel <= fuel')%nat -> exists s' Z', il_solve (@ucost_ops RS) n m cb debug fuel' s0 = Ok s' /\ il_Z s' = Some Z' /\ best n m uquad s0 Z Z'.
Proof.
  intros n m N x0 ks last Z o cb debug LK FK HE LZ N1 RO RM RI HLB HIT HMI HCB s0.
  assert (LS : Forall (fun p => is_qc n m (snd p)) (ks ++ [last])).
  { apply Forall_app. split.
    - eapply Forall_impl; [|exact FK]. intros p (_ & d & ok & Q & R & xr & ur & tm & q & E & -> & SQ & PQ & SR & PR). eapply lqr_convex; eauto.
    - constructor; [|constructor]. destruct HE as (d & ok & Q & xr & ur & tm & q & E & -> & SQ & PQ). eapply lqr_terminal; eauto. }
  assert (KP : il_kps s0 = map (fun p => kpf_make (fst p) (snd p)) (ks ++ [last])) by reflexivity.
  assert (LP : lq_problem n m (is_qc n m) uquad s0).
  { split.
    - rewrite KP, map_length, app_length, LK. cbn. lia.
    - rewrite KP. apply Forall_map. exact LS.
    - intros k kp Hk Hn. change (il_N s0) with N in Hk. rewrite KP in Hn. rewrite nth_error_map in Hn. rewrite nth_error_app1 in Hn by lia. destruct (nth_error ks k) as [p|] eqn:Ep; [|discriminate]. cbn in Hn. inversion Hn; subst kp; clear Hn.
      rewrite Forall_forall in FK. destruct (FK p (nth_error_In _ _ Ep)) as [(cd & A & B & c & W & st & L & E) (d & ok & Q & R & xr & ur & tm & q & Eq & Ec & SQ & PQ & SR & PR)].
      cbn [kpf_make kp_dyn kp_cost]. rewrite E, Ec. split; [eapply rk4_linear; exact L|eapply lqr_convex; eauto].
    - intros kp Hn. change (il_N s0) with N in Hn. rewrite KP in Hn. rewrite nth_error_map in Hn. rewrite nth_error_app2 in Hn by lia. rewrite LK, Nat.sub_diag in Hn. inversion Hn; subst kp.
      destruct HE as (d & ok & Q & xr & ur & tm & q & E & Ec & SQ & PQ). cbn [kpf_make kp_cost]. rewrite Ec. eapply lqr_terminal; eauto. }
  destruct (C31_solve _ n m (@ucost_ops RS) cb (is_qc n m) uquad (qc_quad_costs n m) debug s0 LP) as [fuel T]; auto.
  - split; [apply (lp_len _ _ _ _ _ LP)|]. split; [exists Z; auto|]. eexists. split; [reflexivity|]. unfold traj_set_zero. rewrite map_length. exact LZ.
  - apply stats_ok_new.
  - apply freq_new.
  - change (o_check_bounds (il_opts s0)) with (o_check_bounds o). rewrite HCB. discriminate.
  - exists fuel. intros f Hf. destruct (T f Hf) as (s' & Za & Z' & A & B & C & E). exists s', Z'. change (il_Z s0) with (Some Z) in B. inversion B; subst Za. auto.
Qed.

(** the 1-D example with the default options: its optimum is far inside the limits *)
Lemma r_problem : lq_problem 1 1 (is_qc 1 1) uquad r_solver.
Proof.
  assert (IQ : forall r, is_qc 1 1 (r_cost r)) by (intros r; eexists; split; [|split; [|reflexivity]]; reflexivity).
  assert (AF : affine 1 1 r_dyn).
  { exists (fun _ _ _ _ => 1), (fun _ _ _ _ => 1), (fun _ _ _ => 0). intros x u t h. split; [|split]; intros; cbn; [|reflexivity|reflexivity].
    assert (i = 0)%nat as -> by lia. unfold app, tot. cbn. lra. }
  split.
  - reflexivity.
  - repeat (apply Forall_cons; [apply IQ|]). apply Forall_nil.
  - intros k kp Hk Hn. change (il_N r_solver) with 2%nat in Hk. assert (E : kp_dyn kp = r_dyn /\ kp_cost kp = r_cost 1).
    { destruct k as [|[|k]]; [| |lia]; cbn in Hn; inversion Hn; auto. }
    destruct E as [-> ->]. split; [exact AF|]. split; [apply one_sym|]. split; [apply one_sym|]. split; [apply one_posdef; cbn; lra|]. intros x u. rewrite !one_form. cbn. pose proof (pow2_ge_0 (x 0%nat)). pose proof (pow2_ge_0 (u 0%nat)). nra.
  - intros kp Hn. cbn in Hn. inversion Hn. cbn [kpf_make kp_cost]. split; [apply one_sym|]. split; [apply one_possemi; cbn; lra|]. intros i j Hj. assert (j = 0)%nat as -> by lia. cbn. unfold vopp. rs. split; [reflexivity|]. split; [reflexivity|]. unfold vstore. cbn. unfold mv, dot. cbn. rs. lra.
Qed.
Lemma quad1 r x u : quad_val 1 1 (uquad (r_cost r)) x u = / 2 * (x 0%nat * x 0%nat) + / 2 * (r * (u 0%nat * u 0%nat)).
Proof.
  assert (Q : is_qc 1 1 (r_cost r)) by (eexists; split; [|split; [|reflexivity]]; reflexivity).
  rewrite <- (qc_value _ _ _ _ _ (qc_quad_costs 1 1) (r_cost r) x u Q). cbn [ucost_ops co_eval fst r_cost qc_ucost uc_eval]. unfold ExampleModel.qc_eval. cbn. unfold half, mv, dot. cbn. lra.
Qed.
Lemma r_candidate : candidate 1 r_solver r_guess [mkKP (F:=RS) (fun _ => 1) (fun _ => 0) 0 1; mkKP (F:=RS) (fun _ => 1) (fun _ => 0) 1 1; mkKP (F:=RS) (fun _ => 1) (fun _ => 0) 2 0].
Proof.
  split; [reflexivity|]. split.
  - intros k z y Hk Hz Hy. change (il_N r_solver) with 2%nat in Hk. destruct k as [|[|k]]; [| |lia]; cbn in Hz, Hy; inversion Hz; inversion Hy; auto.
  - split; [intros z i Hz Hi; cbn in Hz; inversion Hz; reflexivity|]. intros k f z z' Hf Hz Hz'. exists (fun _ => 0). intros i Hi.
    destruct k as [|[|[|k]]]; cbn in Hf, Hz, Hz'; inversion Hf; inversion Hz; inversion Hz'; cbn; try lra.
Qed.
Lemma r_limits : forall Z Y, il_Z r_solver = Some Z -> best 1 1 uquad r_solver Z Y -> within_limits 1 1 (il_opts r_solver) Y.
Proof.
  intros Z Y HZ [(LY & _ & _) B]. cbn in HZ. inversion HZ; subst Z. specialize (B _ r_candidate). change (il_N r_solver) with 2%nat in LY.
  destruct Y as [|y0 [|y1 [|y2 [|]]]]; cbn in LY; try discriminate. unfold lq_cost in B. change (il_kps r_solver) with (map (fun p => kpf_make (fst p) (snd p)) r_kps) in B. cbn [map r_kps combine fst snd kpf_make kp_cost fold_right] in B. rewrite !quad1 in B. cbn [z_x z_u] in B.
  set (x0 := z_x y0 0%nat) in *. set (x1 := z_x y1 0%nat) in *. set (x2 := z_x y2 0%nat) in *. set (u0 := z_u y0 0%nat) in *. set (u1 := z_u y1 0%nat) in *.
  pose proof (pow2_ge_0 x0). pose proof (pow2_ge_0 x1). pose proof (pow2_ge_0 x2). pose proof (pow2_ge_0 u0). pose proof (pow2_ge_0 u1).
  assert (NB : forall v : vec RS, v 0%nat * v 0%nat <= 3 -> ltb (s:=RS) (100000000 : R) (norm 1 v) = false).
  { intros v Hv. cbn [ltb RS]. apply Rltb_false. change (norm 1 v) with (sqrt (0 + v 0%nat * v 0%nat)).
    assert (SQ : sqrt (0 + v 0%nat * v 0%nat) <= sqrt (10 * 10)) by (apply sqrt_le_1_alt; lra). rewrite sqrt_square in SQ by lra. lra. }
  assert (SM : o_state_max (il_opts r_solver) = 100000000) by (cbn; lra). assert (CM : o_control_max (il_opts r_solver) = 100000000) by (cbn; lra).
  intros k z z' Hz Hz'. rewrite SM, CM. destruct k as [|[|[|k]]]; cbn in Hz, Hz'; inversion Hz; inversion Hz'; subst; split; apply NB; [fold x1|fold u0|fold x2|fold u1]; nra.
Qed.
Lemma r_ready : il_ready r_solver /\ il_x0_set r_solver = true /\ (1 <= il_N r_solver)%nat /\ stats_ok (il_stats r_solver) /\ lg_freq (st_log (il_stats r_solver)) <> 0%Z.
Proof.
  split; [split; [reflexivity|]; split; eexists; split; reflexivity|]. split; [reflexivity|]. split; [cbn; lia|]. split; [apply stats_ok_new|apply freq_new].
Qed.
Lemma r_opts : let o := il_opts r_solver in reg_ok o /\ 0 < o_reg_min o /\ o_reg_initial o = 0 /\ o_ls_lb o <= 1 <= o_ls_ub o /\ (1 <= o_ls_iters o)%Z /\ (1 <= o_max_inner o)%Z /\ o_check_bounds o = true.
Proof. cbn. unfold reg_ok. cbn. repeat (match goal with |- _ /\ _ => split end); try lra; try lia. Qed.
(** with the default options, from the initial controls (3, 5), the solve of the example completes with an optimal trajectory *)
Example C31_example : exists fuel s' Z', il_solve (@ucost_ops RS) 1 1 r_no_viol true fuel r_solver = Ok s' /\ il_Z s' = Some Z' /\ best 1 1 uquad r_solver r_guess Z'.
Proof.
  destruct r_ready as (A & B & C & D & E). destruct r_opts as (O1 & O2 & O3 & O4 & O5 & O6 & _).
  destruct (C31_solve _ 1 1 (@ucost_ops RS) r_no_viol _ _ (qc_quad_costs 1 1) true r_solver r_problem A B C D E O1 O2 O3 O4 O5 O6 (fun _ => r_limits)) as [f T].
  destruct (T f (le_n f)) as (s' & Z & Z' & E1 & E2 & E3 & E4). exists f, s', Z'. change (il_Z r_solver) with (Some r_guess) in E2. inversion E2; subst Z. auto.
Qed.
(** a triple integrator integrated by Runge-Kutta steps, with identity weights, meets the hypotheses of C31_lqr_rk4 *)
Definition eye (i j : nat) : R := if (i =? j)%nat then 1 else 0.
Definition tri_stage : Dyn RS * UCost RS :=
  (disc_rk4 3 1 (triple (F:=RS) 1) rk_init, match qc_lqr (F:=RS) false true 3 1 eye eye (fun _ => 1) (fun _ => 0) false with Ok q => qc_ucost q | _ => r_cost 1 end).
Definition tri_end : Dyn RS * UCost RS :=
  (disc_rk4 3 1 (triple (F:=RS) 1) rk_init, match qc_lqr (F:=RS) false true 3 1 eye (fun _ _ => 0 : RS) (fun _ => 1) (fun _ => 0) true with Ok q => qc_ucost q | _ => r_cost 1 end).
Lemma eye3 : sym 3 eye /\ possemi 3 eye.
Proof.
  split; [intros i j _ _; unfold eye; now rewrite Nat.eqb_sym|]. intros x. unfold form, tot, eye. cbn.
  pose proof (pow2_ge_0 (x 0%nat)). pose proof (pow2_ge_0 (x 1%nat)). pose proof (pow2_ge_0 (x 2%nat)). nra.
Qed.
Example C31_lqr_example : Forall (lqr_stage 3 1) [tri_stage; tri_stage] /\ lqr_end 3 1 tri_end.
Proof.
  assert (T : lqr_stage 3 1 tri_stage).
  { split.
    - exists (triple (F:=RS) 1), (tri_A 1), (tri_B 1), (fun _ => 0), (fun _ _ => true), rk_init. split; [apply (triple_linear 1)|reflexivity].
    - exists false, true, eye, eye, (fun _ => 1), (fun _ => 0), false. eexists. split; [reflexivity|]. split; [reflexivity|].
      split; [apply eye3|]. split; [apply eye3|]. split; [apply one_sym|apply one_posdef; cbn; lra]. }
  split; [apply Forall_cons; [exact T|apply Forall_cons; [exact T|apply Forall_nil]]|].
  exists false, true, eye, (fun _ => 1), (fun _ => 0), true. eexists. split; [reflexivity|]. split; [reflexivity|apply eye3].
Qed.
Print Assumptions C31_first_iteration.
Print Assumptions C31_iterations.
Print Assumptions C31_solve.
Print Assumptions C31_lqr_rk4.

(** ** C60 *)
Theorem C60_completes : forall CS n m (ops : CostOps RS CS) cb debug (s : ILQR RS CS),
  il_ready s -> il_x0_set s = true -> (1 <= il_N s)%nat -> stats_ok (il_stats s) -> lg_freq (st_log (il_stats s)) <> 0%Z ->
  reg_ok (il_opts s) -> 0 < o_reg_min (il_opts s) ->
  exists fuel, forall fuel', (fuel <= fuel')%nat -> exists s', il_solve ops n m cb debug fuel' s = Ok s'.
Proof. intros CS n m ops cb debug s. apply solve_total. Qed.
Example C60_example : exists fuel, forall fuel', (fuel <= fuel')%nat -> exists s', il_solve (@ucost_ops RS) 1 1 r_no_viol true fuel' r_solver = Ok s'.
Proof. destruct r_ready as (A & B & C & D & E). destruct r_opts as (O1 & O2 & _). apply C60_completes; auto. Qed.
Print Assumptions C60_completes.

(** ** C71 *)
Theorem C71_solved : forall CS n m (ops : CostOps RS CS) cb Inv D, quad_costs n m ops Inv D -> forall debug (s0 : ILQR RS CS),
  lq_problem n m Inv D s0 -> il_ready s0 -> il_x0_set s0 = true -> (1 <= il_N s0)%nat -> (1 <= m)%nat -> stats_ok (il_stats s0) -> lg_freq (st_log (il_stats s0)) <> 0%Z ->
  reg_ok (il_opts s0) -> 0 < o_reg_min (il_opts s0) -> o_reg_initial (il_opts s0) = 0 -> o_ls_lb (il_opts s0) <= 1 <= o_ls_ub (il_opts s0) -> (1 <= o_ls_iters (il_opts s0))%Z ->
  0 < o_cost_tol (il_opts s0) -> 0 < o_grad_tol (il_opts s0) -> (2 <= o_max_inner (il_opts s0))%Z -> (st_total (il_stats s0) + 1 < o_max_total (il_opts s0))%Z ->
  (o_check_bounds (il_opts s0) = true -> forall Z Y, il_Z s0 = Some Z -> best n m D s0 Z Y -> within_limits n m (il_opts s0) Y) ->
  exists fuel, forall fuel', (fuel <= fuel')%nat -> exists s' Z Z', il_solve ops n m cb debug fuel' s0 = Ok s' /\ il_Z s0 = Some Z /\ il_Z s' = Some Z' /\ best n m D s0 Z Z' /\
  il_status s' = kSolved /\ (1 <= st_inner (il_stats s') <= 2)%Z /\ st_total (il_stats s') = (st_total (il_stats s0) + st_inner (il_stats s'))%Z.
Proof.
  intros CS n m ops cb Inv D HQ debug s0 LP RD X0 N1 M1 ST FQ RO RM RI LB LI CT GT MI MT LIM.
  destruct (C31_solve CS n m ops cb Inv D HQ debug s0 LP RD X0 N1 ST FQ RO RM RI LB LI ltac:(lia) LIM) as [f T]. exists f. intros f' L. destruct (T f' L) as (s' & Z & Z' & E1 & E2 & E3 & E4).
  exists s', Z, Z'. split; [exact E1|]. split; [exact E2|]. split; [exact E3|]. split; [exact E4|]. eapply solve_solved; eauto. lra.
Qed.
Example C71_example : exists fuel s' Z', il_solve (@ucost_ops RS) 1 1 r_no_viol true fuel r_solver = Ok s' /\ il_Z s' = Some Z' /\ best 1 1 uquad r_solver r_guess Z' /\ il_status s' = kSolved /\ (st_total (il_stats s') <= 2)%Z.
Proof.
  destruct r_ready as (A & B & C & D & E). destruct r_opts as (O1 & O2 & O3 & O4 & O5 & O6 & _).
  destruct (C71_solved _ 1 1 (@ucost_ops RS) r_no_viol _ _ (qc_quad_costs 1 1) true r_solver r_problem A B C ltac:(lia) D E O1 O2 O3 O4 O5) as [f T]; try (cbn; lra); try (cbn; lia).
  { intros _. exact r_limits. }
  destruct (T f (le_n f)) as (s' & Z & Z' & E1 & E2 & E3 & E4 & E5 & E6 & E7). exists f, s', Z'. change (il_Z r_solver) with (Some r_guess) in E2. inversion E2; subst Z. change (st_total (il_stats r_solver)) with 0%Z in E7. split; [exact E1|]. split; [exact E3|]. split; [exact E4|]. split; [exact E5|lia].
Qed.
Print Assumptions C71_solved.
