(** Property theorems: iLQR solver (C17-C25, C32, C33). *)
From Coq Require Import ZArith QArith Reals String List Bool Lia Lra.
From Verif Require Import Base Lin RLin ConModel LogModel StatsModel StatsSpec StatsProofs TrajModel IlqrModel IlqrSpec
  IlqrFrame IlqrProofs IlqrProofs2 IlqrProofs3 IlqrProofs4 IlqrProofs5 IlqrProofs6 CostInst IlqrExamples.
Import ListNotations.
Local Open Scope Z_scope.

(** ** C17 *)
Theorem C17_rollout : forall (F : Scalar) CS n (s : ILQR F CS) Z,
  length (il_kps s) = S (il_N s) -> length Z = S (il_N s) ->
  let Z1 := il_rollout n Z s in
  dyn_feasible n (il_x0 s) (map kp_dyn (il_kps s)) Z1 /\ times Z1 = times Z /\ map z_u Z1 = map z_u Z.
Proof. exact @rollout_feasible. Qed.
(** after a whole solve, whatever the costs, gains, options and number of iterations *)
Theorem C17_solve : forall (F : Scalar) CS (ops : CostOps F CS) n m cb debug fuel (s s' : ILQR F CS),
  il_solve ops n m cb debug fuel s = Ok s' ->
  exists Z Z', il_Z s = Some Z /\ il_Z s' = Some Z' /\ length Z' = S (il_N s) /\
    dyn_feasible n (il_x0 s) (map kp_dyn (il_kps s)) Z' /\
    map z_t Z' = map z_t Z /\ removelast (map z_h Z') = removelast (map z_h Z).
Proof. exact @solve_dyn_feasible. Qed.
(** and after every number [j] of iterations inside a solve *)
Theorem C17_iterations : forall (F : Scalar) CS (ops : CostOps F CS) n m cb debug fuel (s0 b s : ILQR F CS) j,
  il_begin ops n debug s0 = Ok b -> reach ops n m cb fuel b j s ->
  exists Z Z', il_Z s0 = Some Z /\ il_Z s = Some Z' /\ length Z' = S (il_N s0) /\
    dyn_feasible n (il_x0 s0) (map kp_dyn (il_kps s0)) Z' /\
    map z_t Z' = map z_t Z /\ removelast (map z_h Z') = removelast (map z_h Z).
Proof. exact @reach_dyn_feasible. Qed.
(** for dynamics that write their whole output, the previous content of the buffer does not matter *)
Theorem C17_no_buffer : forall (F : Scalar) n (x0 : vec F) dyns Z, Forall (writes_all n) dyns ->
  dyn_feasible n x0 dyns Z ->
  forall k f z z' buf i, nth_error dyns k = Some f -> nth_error Z k = Some z -> nth_error Z (S k) = Some z' ->
    (i < n)%nat -> z_x z' i = dy_eval f (z_x z) (z_u z) (z_t z) (z_h z) buf i.
Proof.
  intros F n x0 dyns Z Hw [_ H] k f z z' buf i Hf Hz Hz' Hi.
  destruct (H k f z z' Hf Hz Hz') as [b E]. rewrite (E i Hi).
  rewrite Forall_forall in Hw. apply (Hw f (nth_error_In _ _ Hf)). exact Hi.
Qed.
Example C17_example : il_solve ucost_ops 1 1 no_viol true 3 ex_lq = Ok ex_lq_result /\ il_status ex_lq_result = kSolved /\
  (x_at ex_lq_result 0, u_at ex_lq_result 0, x_at ex_lq_result 1) = (1, -3 # 4, 1 # 4)%Q /\ writes_all 1 ex_dyn.
Proof.
  split; [apply ex_lq_solves|]. split; [vm_compute; reflexivity|]. split; [vm_compute; reflexivity|].
  intros x u t h b b' i Hi. assert (i = 0)%nat as -> by lia. reflexivity.
Qed.
Print Assumptions C17_rollout.
Print Assumptions C17_solve.
Print Assumptions C17_iterations.
Print Assumptions C17_no_buffer.

(** ** C18 *)
(** [V c] is the cost function represented by the cost object [c]; every iteration leaves the trajectory as it
    was or strictly lowers its cost *)
Theorem C18_iteration : forall (F : Scalar) CS (ops : CostOps F CS) n m cb Inv V,
  faithful_cost ops Inv V -> lt_order F -> forall debug fuel (s0 b s s' : ILQR F CS) j fin,
  Forall (fun k => Inv (kp_cost k)) (il_kps s0) -> stats_ok (il_stats s0) ->
  il_begin ops n debug s0 = Ok b -> reach ops n m cb fuel b j s -> il_iteration ops n m cb fuel s = Ok (fin, s') ->
  exists Z Z', il_Z s = Some Z /\ il_Z s' = Some Z' /\
    (Z' = Z \/ ltb (total_cost V s0 Z') (total_cost V s0 Z) = true).
Proof. exact @step_total_cost. Qed.
Theorem C18_solve : forall (F : Scalar) CS (ops : CostOps F CS) n m cb Inv V,
  faithful_cost ops Inv V -> lt_order F -> forall debug fuel (s0 s' : ILQR F CS),
  Forall (fun k => Inv (kp_cost k)) (il_kps s0) -> stats_ok (il_stats s0) ->
  il_solve ops n m cb debug fuel s0 = Ok s' ->
  exists Z Z', il_Z s0 = Some Z /\ il_Z s' = Some Z' /\
    st_initial_cost (il_stats s') = total_cost V s0 (il_rollout n Z s0) /\
    (Z' = il_rollout n Z s0 \/ ltb (total_cost V s0 Z') (total_cost V s0 (il_rollout n Z s0)) = true).
Proof. exact @solve_total_cost. Qed.
(** the order hypotheses hold for exact and for IEEE arithmetic (including NaN and infinities) *)
Theorem C18_orders : lt_order RS /\ lt_order FS.
Proof. split; [exact RS_lt_order|exact FS_lt_order]. Qed.
(** the cost hypothesis holds for user costs and for the augmented Lagrangian of constraints that write their
    whole output *)
Theorem C18_costs : forall F : Scalar,
  faithful_cost (@ucost_ops F) (fun _ => True) (fun c => uc_eval c) /\ faithful_cost (@al_ops F) al_writes al_value.
Proof. intros F. split; [apply ucost_faithful|apply al_faithful]. Qed.
(** IEEE arithmetic: a trajectory whose cost is NaN is never accepted *)
Theorem C18_nan : forall CS (ops : CostOps FS CS) n m cb Inv V,
  faithful_cost ops Inv V -> forall debug fuel (s0 b s s' : ILQR FS CS) j fin,
  Forall (fun k => Inv (kp_cost k)) (il_kps s0) -> stats_ok (il_stats s0) ->
  il_begin ops n debug s0 = Ok b -> reach ops n m cb fuel b j s -> il_iteration ops n m cb fuel s = Ok (fin, s') ->
  exists Z Z', il_Z s = Some Z /\ il_Z s' = Some Z' /\
    (Z' = Z \/ (is_nan (total_cost V s0 Z') = false /\ is_nan (total_cost V s0 Z) = false)).
Proof.
  intros CS ops n m cb Inv V HV debug fuel s0 b s s' j fin H1 H2 H3 H4 H5.
  destruct (step_total_cost ops n m cb Inv V HV FS_lt_order debug fuel s0 b s s' j fin H1 H2 H3 H4 H5) as (Z & Z' & A & B & C).
  exists Z, Z'. split; [exact A|]. split; [exact B|]. destruct C as [C|C]; [left; exact C|right; apply FS_lt_not_nan; exact C].
Qed.
(** in exact arithmetic: the returned trajectory costs at most as much as the initial rollout *)
Theorem C18_real : forall CS (ops : CostOps RS CS) n m cb Inv V,
  faithful_cost ops Inv V -> forall debug fuel (s0 s' : ILQR RS CS),
  Forall (fun k => Inv (kp_cost k)) (il_kps s0) -> stats_ok (il_stats s0) ->
  il_solve ops n m cb debug fuel s0 = Ok s' ->
  exists Z Z', il_Z s0 = Some Z /\ il_Z s' = Some Z' /\
    (total_cost V s0 Z' <= total_cost V s0 (il_rollout n Z s0))%R.
Proof.
  intros CS ops n m cb Inv V HV debug fuel s0 s' H1 H2 H3.
  destruct (solve_total_cost ops n m cb Inv V HV RS_lt_order debug fuel s0 s' H1 H2 H3) as (Z & Z' & A & B & _ & D).
  exists Z, Z'. split; [exact A|]. split; [exact B|]. destruct D as [->|D]; [apply Rle_refl|].
  apply Rltb_true in D. now apply Rlt_le.
Qed.
Example C18_example : stats_ok (il_stats ex_lq) /\ Forall (fun k => (fun _ : UCost QS => True) (kp_cost k)) (il_kps ex_lq) /\
  lt_order QS /\
  total_cost (fun c => uc_eval c) ex_lq (match il_Z ex_lq_result with Some Z => Z | None => [] end) = (3 # 8)%Q /\
  total_cost (fun c => uc_eval c) ex_lq (il_rollout 1 ex_lq_guess ex_lq) = (3 # 2)%Q.
Proof.
  split; [apply stats_ok_new|]. split; [repeat constructor|]. split; [apply QS_lt_order|].
  split; vm_compute; reflexivity.
Qed.
Print Assumptions C18_iteration.
Print Assumptions C18_solve.
Print Assumptions C18_orders.
Print Assumptions C18_costs.
Print Assumptions C18_nan.
Print Assumptions C18_real.

(** ** C19 *)
(** A forward pass either leaves the trajectory and everything recorded as it was, or replaces the trajectory
    by a feasible one whose cost [J] is strictly lower, and records [J]. *)
Theorem C19_forward_pass : forall (F : Scalar) CS (ops : CostOps F CS) n m Z (s : ILQR F CS) Zb,
  il_Z s = Some Z -> il_Zb s = Some Zb -> length (il_kps s) = S (il_N s) ->
  length Z = S (il_N s) -> length Zb = S (il_N s) ->
  let s3 := il_forward_pass ops n m Z s in
  (il_Z s3 = il_Z s /\ il_stats s3 = il_stats s) \/
  (exists Z' J alpha z, il_Z s3 = Some Z' /\ length Z' = S (il_N s) /\
     dyn_feasible n (il_x0 s) (map kp_dyn (il_kps s)) Z' /\
     ltb J (lsum (il_costs s)) = true /\ J = lsum (il_costs s3) /\
     il_stats s3 = st_logF "z" z (st_logF "alpha" alpha (st_logF "cost" J (il_stats s))) /\
     (o_check_bounds (il_opts s) = true -> within_limits n m (il_opts s) Z')).
Proof. exact @forward_outcome. Qed.
(** the first line search of [ex_stale] fails, the second succeeds *)
Example C19_example : u_at ex_stale_1 0 = 1%Q /\ st_back "cost" (il_stats ex_stale_1) = Ok 0%Q /\
  u_at ex_stale_2 0 = (1 # 9)%Q /\ st_back "cost" (il_stats ex_stale_2) = Ok (1 # 81)%Q.
Proof. vm_compute. repeat split. Qed.
Print Assumptions C19_forward_pass.

(** ** C20 *)
Theorem C20_status : forall (F : Scalar) CS (ops : CostOps F CS) n m cb debug fuel (s0 s' : ILQR F CS),
  lt_order F -> il_solve ops n m cb debug fuel s0 = Ok s' ->
  0 <= st_inner (il_stats s') <= Z.max 0 (o_max_inner (il_opts s0)) /\
  il_status s' <> kCostIncrease /\
  (1 <= o_max_inner (il_opts s0) -> 1 <= st_inner (il_stats s') /\ il_status s' <> kUnsolved) /\
  (o_max_inner (il_opts s0) <= 0 -> st_inner (il_stats s') = 0 /\ il_status s' = kUnsolved).
Proof.
  intros F CS ops n m cb debug fuel s0 s' (H1 & H2 & H3) H.
  destruct (Z_le_gt_dec 1 (o_max_inner (il_opts s0))) as [Hm|Hm].
  - destruct (solve_status ops n m cb debug fuel s0 s' H1 H2 H Hm) as (A & B & dJ & g & C & D & E). cbv zeta in E.
    split; [lia|].
    assert (G : il_status s' <> kCostIncrease /\ il_status s' <> kUnsolved)
      by (destruct E as [[-> _]|(_ & [[-> _]|[[-> _]|[->|[->|[-> _]]]]])]; split; discriminate).
    split; [apply G|]. split; [|lia]. intros _. split; [lia|apply G].
  - unfold il_solve in H. destruct (il_begin ops n debug s0) as [b| | | | |] eqn:Eb; try discriminate. simpl in H.
    destruct (begin_spec ops n (fun _ _ : CS => True)) with (1:=fun _:CS=>I) (debug:=debug) (s:=s0) (s':=b) as (Z & Z1 & S4); try (intros; exact I); auto.
    rewrite (fr_opts _ _ _ (so_frame _ _ _ _ _ _ _ _ S4)) in H.
    replace (Z.to_nat (o_max_inner (il_opts s0))) with 0%nat in H by lia. simpl in H. inversion H; subst.
    rewrite (so_inner _ _ _ _ _ _ _ _ S4), (so_status _ _ _ _ _ _ _ _ S4).
    split; [lia|]. split; [discriminate|]. split; [lia|auto].
Qed.
(** every way a solve can end, with the meaning of each status *)
Theorem C20_statuses : forall (F : Scalar) CS (ops : CostOps F CS) n m cb debug fuel (s0 s' : ILQR F CS),
  lt_order F -> il_solve ops n m cb debug fuel s0 = Ok s' -> 1 <= o_max_inner (il_opts s0) ->
  st_total (il_stats s') = st_total (il_stats s0) + st_inner (il_stats s') /\
  exists dJ g, st_back "dJ" (il_stats s') = Ok dJ /\ st_back "grad" (il_stats s') = Ok g /\
  let o := il_opts s0 in let st := il_stats s' in
  let conv := ltb dJ (o_cost_tol o) && ltb g (o_grad_tol o) in
    (il_status s' = kSolved /\ conv = true) \/
    (conv = false /\
     ((il_status s' = kMaxInnerIterations /\ st_inner st = o_max_inner o) \/
      (il_status s' = kMaxIterations /\ st_inner st < o_max_inner o /\ o_max_total o <= st_total st) \/
      il_status s' = kStateLimit \/ il_status s' = kControlLimit \/
      (il_status s' = kBackwardPassRegularizationFailed /\ o_ls_iters o <= 0))).
Proof.
  intros F CS ops n m cb debug fuel s0 s' (H1 & H2 & _) H Hm.
  destruct (solve_status ops n m cb debug fuel s0 s' H1 H2 H Hm) as (_ & A & B). auto.
Qed.
(** A solver that has been built and not yet run is unsolved, has no trajectory, no costs or gains, new statistics and the default options. *)
Theorem C20_new_solver : forall (F : Scalar) CS N (x0 : vec F) (ks : list (Dyn F * CS)), let s := il_make N x0 ks in
  il_status s = kUnsolved /\ il_N s = N /\ il_x0 s = x0 /\ il_Z s = None /\ il_Zb s = None /\ il_opts s = opts_default /\ il_stats s = st_new /\
  map kp_dyn (il_kps s) = map fst ks /\ map kp_cost (il_kps s) = map snd ks /\ il_dV0 s = zero /\ il_dV1 s = zero /\ il_drho s = zero /\ il_rho s = o_reg_initial opts_default.
Proof.
  intros F CS N x0 ks s. repeat (split; [reflexivity|]). unfold s, il_make, il_reset_internal. cbn [il_kps il_set_reg il_set_dV il_set_status]. 
  repeat split; cbn; rewrite map_map; apply map_ext; reflexivity.
Qed.
(** The default options, as documented in solver_options.hpp. *)
Theorem C20_defaults : let o := @opts_default RS in
  o_max_total o = 300 /\ o_max_outer o = 30 /\ o_max_inner o = 100 /\ o_cost_tol o = (1 / 10000)%R /\ o_grad_tol o = (1 / 100)%R /\
  o_reg_factor o = (8 / 5)%R /\ o_reg_initial o = 0%R /\ o_reg_max o = 100000000%R /\ o_reg_min o = (1 / 100000000)%R /\ o_reg_fail o = 100 /\
  o_check_bounds o = true /\ o_state_max o = 100000000%R /\ o_control_max o = 100000000%R /\
  o_ls_iters o = 20 /\ o_ls_lb o = (1 / 100000000)%R /\ o_ls_ub o = 10%R /\ o_ls_factor o = 2%R /\
  o_con_tol o = (1 / 10000)%R /\ o_max_pen o = 100000000%R /\ o_init_pen o = 1%R /\ o_reset_duals o = true /\
  o_header_freq o = 10 /\ o_verbose o = 0 /\ o_nthreads o = 1 /\ o_tasks_per_thread o = 1.
Proof.
  cbn [opts_default o_max_total o_max_outer o_max_inner o_cost_tol o_grad_tol o_reg_factor o_reg_initial o_reg_max o_reg_min o_reg_fail o_check_bounds o_state_max o_control_max o_ls_iters
    o_ls_lb o_ls_ub o_ls_factor o_con_tol o_max_pen o_init_pen o_reset_duals o_header_freq o_verbose o_nthreads o_tasks_per_thread]. unfold lit. simpl.
  repeat match goal with |- _ /\ _ => split end; try reflexivity; try lra.
Qed.
Example C20_example : st_inner (il_stats ex_lq_result) = 2 /\ o_max_inner (il_opts ex_lq) = 10 /\ il_status ex_lq_result = kSolved.
Proof. vm_compute. auto. Qed.
Print Assumptions C20_status.
Print Assumptions C20_statuses.

(** ** C21 *)
(** Solved: both recorded quantities of the last iteration are below their tolerances; the recorded gain is
    the average over the segments of max_i |d_i| / (|u_i| + 1) for the final gains and trajectory. *)
Theorem C21_solved : forall (F : Scalar) CS (ops : CostOps F CS) n m cb debug fuel (s0 s' : ILQR F CS),
  lt_order F -> stats_ok (il_stats s0) ->
  il_solve ops n m cb debug fuel s0 = Ok s' -> 1 <= o_max_inner (il_opts s0) -> il_status s' = kSolved ->
  exists dJ g Z, st_back "dJ" (il_stats s') = Ok dJ /\ st_back "grad" (il_stats s') = Ok g /\
    ltb dJ (o_cost_tol (il_opts s0)) = true /\ ltb g (o_grad_tol (il_opts s0)) = true /\
    il_Z s' = Some Z /\ g = avg_gain m (il_N s') (gain_at s') (ctrl_at Z).
Proof.
  intros F CS ops n m cb debug fuel s0 s' (H1 & H2 & H3) Hs H Hm Hst.
  destruct (solve_status ops n m cb debug fuel s0 s' H1 H2 H Hm) as (_ & _ & dJ & g & C & D & E). cbv zeta in E.
  assert (E' : ltb dJ (o_cost_tol (il_opts s0)) && ltb g (o_grad_tol (il_opts s0)) = true).
  { destruct E as [[_ E]|(_ & [[E _]|[[E _]|[E|[E|[E _]]]]])]; [exact E|congruence..]. }
  apply andb_prop in E'. destruct E' as [E1 E2].
  destruct (solve_gain ops n m cb debug fuel s0 s' Hs H Hm) as (Z & A & B & _).
  exists dJ, g, Z. repeat (split; [assumption|]). congruence.
Qed.
(** If the last line search changed the trajectory, and it was the first iteration or the trajectory had been
    changed before, the recorded decrease is the difference of the last two trajectory costs. *)
Theorem C21_recorded_decrease_partial : forall (F : Scalar) CS (ops : CostOps F CS) n m cb Inv V,
  faithful_cost ops Inv V -> lt_order F -> forall debug fuel (s0 b s s' : ILQR F CS) j fin Z Z',
  Forall (fun k => Inv (kp_cost k)) (il_kps s0) -> stats_ok (il_stats s0) ->
  il_begin ops n debug s0 = Ok b -> reach ops n m cb fuel b j s -> il_iteration ops n m cb fuel s = Ok (fin, s') ->
  il_Z s = Some Z -> il_Z s' = Some Z' -> Z' <> Z -> j = 0%nat \/ il_Z s <> il_Z b ->
  st_back "dJ" (il_stats s') = Ok (sub (total_cost V s0 Z) (total_cost V s0 Z')).
Proof.
  intros F CS ops n m cb Inv V HV (H1 & H2 & H3) debug fuel s0 b s s' j fin Z Z' Hi Hs Hb Hr Hit HZ HZ' Hne Hj.
  apply stats_ok_series in Hs. destruct Hs as [g Hg].
  apply (run_decrease ops n m cb Inv V HV debug fuel s0 b g j s fin s' Z Z' H1 H3 Hi Hg Hb Hr Hit HZ HZ' Hne Hj).
Qed.
(** Without that proviso it is false: after a failed first line search nothing was recorded, and the decrease of
    the next iteration is taken from the zero (or the previous solve's cost) found in the record.  Here the cost
    falls from 1 to 1/81, the recorded decrease is -1/81, and the solver reports solved (finding). *)
Theorem C21_recorded_decrease_refuted : exists (s0 b s s' : ILQR QS (UCost QS)) Z Z',
  stats_ok (il_stats s0) /\ il_begin ucost_ops 1 true s0 = Ok b /\ reach ucost_ops 1 1 no_viol 2 b 1 s /\
  il_iteration ucost_ops 1 1 no_viol 2 s = Ok (true, s') /\ il_solve ucost_ops 1 1 no_viol true 2 s0 = Ok s' /\
  il_Z s = Some Z /\ il_Z s' = Some Z' /\ il_status s' = kSolved /\
  total_cost (fun c => uc_eval c) s0 Z = 1%Q /\ total_cost (fun c => uc_eval c) s0 Z' = (1 # 81)%Q /\
  st_back "dJ" (il_stats s') = Ok (-1 # 81)%Q.
Proof.
  assert (Eb : il_begin ucost_ops 1 true ex_stale = Ok ex_stale_b) by (apply is_ok_get; vm_compute; reflexivity).
  assert (E1 : il_iteration ucost_ops 1 1 no_viol 2 ex_stale_b = Ok (false, ex_stale_1)).
  { apply is_ok_pair; vm_compute; reflexivity. }
  assert (E2 : il_iteration ucost_ops 1 1 no_viol 2 ex_stale_1 = Ok (true, ex_stale_2)).
  { apply is_ok_pair; vm_compute; reflexivity. }
  exists ex_stale, ex_stale_b, ex_stale_1, ex_stale_2,
    (match il_Z ex_stale_1 with Some Z => Z | None => [] end), (match il_Z ex_stale_2 with Some Z => Z | None => [] end).
  split; [apply stats_ok_new|]. split; [exact Eb|]. split; [econstructor; [constructor|exact E1]|]. split; [exact E2|].
  split.
  { apply (solve_two ucost_ops 1 1 no_viol true 2 ex_stale ex_stale_b ex_stale_1 ex_stale_2 8 Eb); [vm_compute; reflexivity|exact E1|exact E2]. }
  split; [apply get_traj; vm_compute; reflexivity|]. split; [apply get_traj; vm_compute; reflexivity|].
  split; [vm_compute; reflexivity|]. split; [vm_compute; reflexivity|]. split; vm_compute; reflexivity.
Qed.
Example C21_example : lt_order QS /\ stats_ok (il_stats ex_lq) /\ il_status ex_lq_result = kSolved /\
  st_back "dJ" (il_stats ex_lq_result) = Ok 0%Q /\ st_back "grad" (il_stats ex_lq_result) = Ok 0%Q.
Proof. split; [apply QS_lt_order|]. split; [apply stats_ok_new|]. vm_compute. auto. Qed.
Print Assumptions C21_solved.
Print Assumptions C21_recorded_decrease_partial.
Print Assumptions C21_recorded_decrease_refuted.

(** ** C22 *)
(** [reg_history h s]: the increases (true) and decreases (false) of [h] applied in order *)
Theorem C22_range : forall CS h (s : ILQR RS CS), reg_ok (il_opts s) -> h <> [] ->
  (o_reg_min (il_opts s) <= il_rho (reg_history h s) <= o_reg_max (il_opts s))%R.
Proof. exact @history_range. Qed.
Theorem C22_increase : forall CS (s : ILQR RS CS), reg_ok (il_opts s) -> (0 <= il_rho s <= o_reg_max (il_opts s))%R ->
  (il_rho s <= il_rho (il_increase_reg s))%R /\
  (Rmin (il_rho s * o_reg_factor (il_opts s)) (o_reg_max (il_opts s)) <= il_rho (il_increase_reg s))%R.
Proof. exact @increase_mono. Qed.
Theorem C22_decrease : forall CS (s : ILQR RS CS), reg_ok (il_opts s) -> (0 <= il_rho s)%R ->
  (il_rho (il_decrease_reg s) <= Rmax (il_rho s) (o_reg_min (il_opts s)))%R.
Proof. exact @decrease_mono. Qed.
(** the default options satisfy the hypotheses *)
(** Regularising adds rho to the diagonal of the control block of a copy of the action value and changes nothing else. *)
Theorem C22_regularise : forall (F : Scalar) CS m (rho : F) (k : KPF F CS), let k' := kpf_regularize m rho k in
  (forall i j, (i < m)%nat -> (j < m)%nat -> e_uu (kp_qr k') i j = add (e_uu (kp_q k) i j) (mul rho (if Nat.eqb i j then one else zero))) /\
  e_xx (kp_qr k') = e_xx (kp_q k) /\ e_xu (kp_qr k') = e_xu (kp_q k) /\ e_x (kp_qr k') = e_x (kp_q k) /\ e_u (kp_qr k') = e_u (kp_q k) /\
  kp_q k' = kp_q k /\ kp_ce k' = kp_ce k /\ kp_jac k' = kp_jac k /\ kp_K k' = kp_K k /\ kp_d k' = kp_d k /\ kp_S k' = kp_S k /\ kp_s k' = kp_s k /\
  kp_dv0 k' = kp_dv0 k /\ kp_dv1 k' = kp_dv1 k /\ kp_dyn k' = kp_dyn k /\ kp_cost k' = kp_cost k.
Proof.
  intros F CS m rho k k'. split; [|repeat split]. intros i j Hi Hj. unfold k', kpf_regularize. cbn [kp_qr e_uu]. rewrite mstore_lt by assumption. reflexivity.
Qed.
Example C22_example : reg_ok (@opts_default RS) /\ (0 < o_reg_min (@opts_default RS))%R /\
  (0 <= o_reg_initial (@opts_default RS) <= o_reg_max (@opts_default RS))%R.
Proof. unfold reg_ok, opts_default, lit. simpl. repeat split; lra. Qed.
Print Assumptions C22_range.
Print Assumptions C22_increase.
Print Assumptions C22_decrease.

(** ** C23 *)
(** For all expansions: with enough fuel the loop ends, so the C++ loop ends. *)
Theorem C23_terminates : forall CS n m (s : ILQR RS CS), reg_ok (il_opts s) -> (0 < o_reg_min (il_opts s))%R ->
  (1 <= il_N s)%nat -> length (il_kps s) = S (il_N s) ->
  exists fuel, forall fuel', (fuel <= fuel')%nat -> exists s', il_backward_pass n m fuel' s = Ok s'.
Proof. exact @backward_terminates. Qed.
(** With no segments (N = 0) the loop never ends (finding). *)
Theorem C23_empty_horizon_refuted : forall (F : Scalar) CS n m fuel (s : ILQR F CS), il_N s = 0%nat ->
  length (il_kps s) = 1%nat -> il_backward_pass n m fuel s = Fuel.
Proof. exact @backward_empty. Qed.
Example C23_example : il_N ex_lq = 1%nat /\ length (il_kps ex_lq) = 2%nat /\
  is_ok (il_backward_pass 1 1 1 ex_restart_e) = false /\ is_ok (il_backward_pass 1 1 2 ex_restart_e) = true.
Proof. vm_compute. auto. Qed.
Print Assumptions C23_terminates.
Print Assumptions C23_empty_horizon_refuted.

(** ** C24 *)
(** The opposite of the property holds: as soon as the line search is allowed one step, no solve ever ends with
    the backward-pass-failed status, because the rollout of the line search overwrites it (finding). *)
Theorem C24_never_reported_refuted : forall (F : Scalar) CS (ops : CostOps F CS) n m cb debug fuel (s0 s' : ILQR F CS),
  lt_order F -> il_solve ops n m cb debug fuel s0 = Ok s' -> 1 <= o_max_inner (il_opts s0) -> 1 <= o_ls_iters (il_opts s0) ->
  il_status s' <> kBackwardPassRegularizationFailed.
Proof.
  intros F CS ops n m cb debug fuel s0 s' (H1 & H2 & _) H Hm Hl.
  destruct (solve_status ops n m cb debug fuel s0 s' H1 H2 H Hm) as (_ & _ & dJ & g & C & D & E). cbv zeta in E.
  destruct E as [[-> _]|(_ & [[-> _]|[[-> _]|[->|[->|[-> E]]]]])]; try discriminate. lia.
Qed.
(** a solve whose only backward pass gives up, reported as solved *)
Theorem C24_reported_solved_refuted : exists (s0 b s2 s' : ILQR QS (UCost QS)) Z,
  il_begin ucost_ops 1 true s0 = Ok b /\ il_Z b = Some Z /\
  il_backward_pass 1 1 5 (il_update_expansions ucost_ops 1 1 Z b) = Ok s2 /\
  il_status s2 = kBackwardPassRegularizationFailed /\
  il_solve ucost_ops 1 1 no_viol true 5 s0 = Ok s' /\ il_status s' = kSolved /\ st_inner (il_stats s') = 1.
Proof.
  set (Z := match il_Z ex_regfail_b with Some Z => Z | None => [] end).
  exists ex_regfail, ex_regfail_b,
    (get_ok ex_regfail (il_backward_pass 1 1 5 (il_update_expansions ucost_ops 1 1 Z ex_regfail_b))),
    (get_ok ex_regfail (il_solve ucost_ops 1 1 no_viol true 5 ex_regfail)), Z.
  split; [apply is_ok_get; vm_compute; reflexivity|]. split; [reflexivity|].
  split; [apply is_ok_get; vm_compute; reflexivity|]. split; [vm_compute; reflexivity|].
  split; [apply is_ok_get; vm_compute; reflexivity|]. split; vm_compute; reflexivity.
Qed.
Print Assumptions C24_never_reported_refuted.
Print Assumptions C24_reported_solved_refuted.

(** ** C25 *)
(** fuel 1: the first attempt succeeds, no restart *)
Theorem C25_no_restart_partial : forall (F : Scalar) CS n m (s s' : ILQR F CS), length (il_kps s) = S (il_N s) ->
  il_backward_pass n m 1 s = Ok s' -> il_status s' <> kBackwardPassRegularizationFailed ->
  let ks := firstn (il_N s') (il_kps s') in
  il_dV0 s' = fold_right (fun k a => add a (kp_dv0 k)) zero ks /\
  il_dV1 s' = fold_right (fun k a => add a (kp_dv1 k)) zero ks.
Proof. exact @expected_no_restart. Qed.
(** After a restart the terms of the abandoned attempt are still in the sums (finding). *)
Theorem C25_restart_refuted : exists s s' : ILQR QS (UCost QS), length (il_kps s) = S (il_N s) /\
  il_backward_pass 1 1 2 s = Ok s' /\ il_status s' = kUnsolved /\
  let ks := firstn (il_N s') (il_kps s') in
  fold_right (fun k a => add a (kp_dv0 k)) zero ks = (-40 # 9)%Q /\ il_dV0 s' = (-49 # 9)%Q.
Proof.
  exists ex_restart_e, (get_ok ex_restart (il_backward_pass 1 1 2 ex_restart_e)).
  split; [vm_compute; reflexivity|]. split; [apply is_ok_get; vm_compute; reflexivity|].
  split; [vm_compute; reflexivity|]. split; vm_compute; reflexivity.
Qed.
Example C25_example : exists s', il_backward_pass 1 1 1 (il_update_expansions ucost_ops 1 1 (il_rollout 1 ex_lq_guess ex_lq) ex_lq) = Ok s' /\
  il_status s' = kUnsolved /\ il_dV0 s' = (-9 # 4)%Q /\ il_dV1 s' = (9 # 8)%Q.
Proof.
  exists (get_ok ex_lq (il_backward_pass 1 1 1 (il_update_expansions ucost_ops 1 1 (il_rollout 1 ex_lq_guess ex_lq) ex_lq))).
  split; [apply is_ok_get; vm_compute; reflexivity|]. split; [vm_compute; reflexivity|]. split; vm_compute; reflexivity.
Qed.
Print Assumptions C25_no_restart_partial.
Print Assumptions C25_restart_refuted.

(** ** C32 *)
(** accepted trajectories: see also C19_forward_pass; a solve returns the initial rollout (never checked) or a
    trajectory within the limits *)
Theorem C32_solve : forall (F : Scalar) CS (ops : CostOps F CS) n m cb debug fuel (s s' : ILQR F CS),
  il_solve ops n m cb debug fuel s = Ok s' -> o_check_bounds (il_opts s) = true ->
  exists Z Z', il_Z s = Some Z /\ il_Z s' = Some Z' /\
    (Z' = il_rollout n Z s \/ within_limits n m (il_opts s) Z').
Proof. exact @solve_limits. Qed.
Theorem C32_accepted_real : forall n m (o : Opts RS) Z, within_limits n m o Z ->
  forall k z z', nth_error Z k = Some z -> nth_error Z (S k) = Some z' ->
  (norm n (z_x z') <= o_state_max o)%R /\ (norm m (z_u z) <= o_control_max o)%R.
Proof.
  intros n m o Z H k z z' H1 H2. destruct (H k z z' H1 H2) as [A B]. split; [apply Rltb_false; exact A|apply Rltb_false; exact B].
Qed.
Theorem C32_rejected : forall (F : Scalar) CS n m alpha Z Zb (s s' : ILQR F CS),
  il_rollout_closed n m alpha Z Zb s = (false, s') ->
  exists Zc, il_Zb s' = Some Zc /\ il_Z s' = il_Z s /\ o_check_bounds (il_opts s) = true /\
  ((il_status s' = kStateLimit /\ exists k z, nth_error Zc (S k) = Some z /\ ltb (o_state_max (il_opts s)) (norm n (z_x z)) = true) \/
   (il_status s' = kControlLimit /\ exists k z, nth_error Zc k = Some z /\ ltb (o_control_max (il_opts s)) (norm m (z_u z)) = true)).
Proof. exact @closed_rejected. Qed.
Theorem C32_completed : forall (F : Scalar) CS n m alpha Z Zb (s s' : ILQR F CS),
  length (il_kps s) = S (il_N s) -> length Z = S (il_N s) -> length Zb = S (il_N s) ->
  il_rollout_closed n m alpha Z Zb s = (true, s') -> o_check_bounds (il_opts s) = true ->
  exists Zc, il_Zb s' = Some Zc /\ within_limits n m (il_opts s) Zc.
Proof. exact @closed_completed. Qed.
(** a candidate step of [ex_lq] to x = 1 + 10^9 is rejected *)
Example C32_example : o_check_bounds (il_opts ex_lq) = true /\
  let big := il_set_trajectory [ex_kp zero (1000000000%Q : T QS); mkKP (cst zero) (cst zero) one zero] ex_lq in
  match il_Z big, il_Zb big with
  | Some Z, Some Zb => fst (il_rollout_closed 1 1 one Z Zb big) = false /\
                       il_status (snd (il_rollout_closed 1 1 one Z Zb big)) = kStateLimit
  | _, _ => False
  end.
Proof. vm_compute. auto. Qed.
Print Assumptions C32_solve.
Print Assumptions C32_accepted_real.
Print Assumptions C32_rejected.
Print Assumptions C32_completed.

(** ** C33 *)
(** Solve does not reset the total iteration count (nor the recorded costs): the same problem, options and guess
    give 'solved' the first time and 'max iterations' the second time (finding). *)
Theorem C33_second_solve_refuted : exists (s s1 s2 : ILQR QS (UCost QS)) Z,
  il_Z s = Some Z /\ il_solve ucost_ops 1 1 no_viol true 3 s = Ok s1 /\
  il_opts (il_set_trajectory Z s1) = il_opts s /\
  il_solve ucost_ops 1 1 no_viol true 3 (il_set_trajectory Z s1) = Ok s2 /\
  il_status s1 = kSolved /\ il_status s2 = kMaxIterations.
Proof.
  exists ex_lq, ex_lq_result, ex_lq_result2, ex_lq_guess.
  split; [reflexivity|]. split; [apply ex_lq_solves|]. split; [vm_compute; reflexivity|].
  split; [apply is_ok_get; vm_compute; reflexivity|]. split; vm_compute; reflexivity.
Qed.
Print Assumptions C33_second_solve_refuted.
Print Assumptions C20_new_solver.
Print Assumptions C20_defaults.
Print Assumptions C22_regularise.
