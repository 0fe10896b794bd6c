(** Property theorems: solving again (C33). *)
From Coq Require Import ZArith QArith String List Bool Lia.
From Verif Require Import Base Lin ConModel LogModel StatsModel StatsSpec StatsProofs TrajModel IlqrModel IlqrSpec CostInst IlqrExamples AlProofs ResolveSpec ResolveProofs ResolveProofs2.
Import ListNotations.
Local Open Scope Z_scope.

(** ** C33 *)
(** Whatever earlier solves left behind in a solver (expansions, gains, cost-to-go, regularisation, costs, status, recorded statistics), the solve of a
    task gives the same result, when the total iteration budget suffices for both solves, the first backward pass does not give up, and the first
    line search accepts a step (or the last recorded costs agree).  The witnesses below show that each of the three conditions is needed. *)
Theorem C33_same_result : forall (F : Scalar) CS (ops : CostOps F CS) n m cb debug fuel (s s' r r' : ILQR F CS),
  same_task s s' -> stats_ok (il_stats s) -> stats_ok (il_stats s') -> 0 < o_max_inner (il_opts s) ->
  st_total (il_stats s) + o_max_inner (il_opts s) <= o_max_total (il_opts s) ->
  st_total (il_stats s') + o_max_inner (il_opts s) <= o_max_total (il_opts s) ->
  first_step ops n m debug fuel s (st_back "cost" (il_stats s) = st_back "cost" (il_stats s')) ->
  il_solve ops n m cb debug fuel s = Ok r -> il_solve ops n m cb debug fuel s' = Ok r' -> same_result r r'.
Proof. exact @resolve. Qed.
(** in particular solving twice with the same solver from the same guess, for cost functions without state of their own *)
Theorem C33_solve_again : forall (F : Scalar) CS (ops : CostOps F CS) n m cb,
  (forall c x u, snd (co_eval ops c x u) = c) -> (forall c x u b, snd (co_grad ops c x u b) = c) -> (forall c x u b, snd (co_hess ops c x u b) = c) ->
  forall debug fuel Z (s r r' : ILQR F CS), il_Z s = Some Z -> il_Zb s = Some (traj_set_zero Z) -> stats_ok (il_stats s) -> 0 < o_max_inner (il_opts s) ->
  st_total (il_stats s) + o_max_inner (il_opts s) <= o_max_total (il_opts s) -> st_total (il_stats r) + o_max_inner (il_opts s) <= o_max_total (il_opts s) ->
  first_step ops n m debug fuel s (st_back "cost" (il_stats s) = st_back "cost" (il_stats r)) ->
  il_solve ops n m cb debug fuel s = Ok r -> il_solve ops n m cb debug fuel (il_set_trajectory Z r) = Ok r' -> same_result r r'.
Proof. exact @solve_again. Qed.

(** the linear-quadratic example with a budget for three solves *)
Definition again_lq : ILQR QS (UCost QS) := il_set_opts ex_lq (ex_opts 30 10 (lit 1 1000) (lit 1 1000) (lit 16 10) (ofZ 100) zero 5 3).
Definition again_r := get_ok again_lq (il_solve ucost_ops 1 1 no_viol true 3 again_lq).
Definition again_r2 := get_ok again_lq (il_solve ucost_ops 1 1 no_viol true 3 (il_set_trajectory ex_lq_guess again_r)).
Definition again_b := get_ok again_lq (il_begin ucost_ops 1 true again_lq).
Definition again_Z := match il_Z again_b with Some Z => Z | None => [] end.
Definition again_s2 := get_ok again_lq (il_backward_pass 1 1 3 (il_update_expansions ucost_ops 1 1 again_Z again_b)).
Lemma again_ok : stats_ok (il_stats again_lq).
Proof. split; [reflexivity|]. intros p H. cbn in H. intuition (subst; reflexivity). Qed.
Example C33_example : same_result again_r again_r2 /\ st_total (il_stats again_r) = 2 /\ st_total (il_stats again_r2) = 4 /\ il_status again_r = kSolved.
Proof.
  split; [|vm_compute; auto].
  apply (C33_solve_again QS (UCost QS) ucost_ops 1 1 no_viol) with (debug := true) (fuel := 3%nat) (Z := ex_lq_guess) (s := again_lq).
  - reflexivity.
  - reflexivity.
  - reflexivity.
  - vm_compute. reflexivity.
  - vm_compute. reflexivity.
  - exact again_ok.
  - vm_compute. reflexivity.
  - vm_compute. discriminate.
  - vm_compute. discriminate.
  - exists again_b, again_Z, again_s2. split; [apply is_ok_get; vm_compute; reflexivity|]. split; [vm_compute; reflexivity|].
    split; [apply is_ok_get; vm_compute; reflexivity|]. split; [vm_compute; discriminate|]. left. vm_compute. reflexivity.
  - apply is_ok_get. vm_compute. reflexivity.
  - apply is_ok_get. vm_compute. reflexivity.
Qed.

(** Finding: when the first line search of a solve accepts no step, the decrease tested for convergence is taken from the cost recorded last by an
    EARLIER solve (or 0 in a solver that never solved).  Started from its optimum, the linear-quadratic problem ends after one iteration with a solver
    that has already solved it, after two with a fresh one. *)
Definition opt_Z : Traj QS := match il_Z again_r with Some Z => Z | None => [] end.
Definition opt_fresh := il_set_trajectory opt_Z again_lq.
Definition opt_used := il_set_trajectory opt_Z again_r.
Lemma traj_stats {F : Scalar} {CS} Z (s : ILQR F CS) : il_stats (il_set_trajectory Z s) = il_stats s.
Proof. reflexivity. Qed.
Theorem C33_stale_cost_refuted : exists s s' r r' : ILQR QS (UCost QS), same_task s s' /\ stats_ok (il_stats s) /\ stats_ok (il_stats s') /\
  first_step ucost_ops 1 1 true 3 s True /\ st_total (il_stats s') + o_max_inner (il_opts s) <= o_max_total (il_opts s) /\
  il_solve ucost_ops 1 1 no_viol true 3 s = Ok r /\ il_solve ucost_ops 1 1 no_viol true 3 s' = Ok r' /\
  st_inner (il_stats r) = 2 /\ st_inner (il_stats r') = 1.
Proof.
  set (b := get_ok again_lq (il_begin ucost_ops 1 true opt_fresh)). set (Z := match il_Z b with Some Z => Z | None => [] end).
  exists opt_fresh, opt_used, (get_ok again_lq (il_solve ucost_ops 1 1 no_viol true 3 opt_fresh)), (get_ok again_lq (il_solve ucost_ops 1 1 no_viol true 3 opt_used)).
  split; [apply (again_task ucost_ops 1 1 no_viol) with (debug := true) (fuel := 3%nat); [reflexivity|reflexivity|reflexivity|apply is_ok_get; vm_compute; reflexivity]|].
  split; [unfold opt_fresh; rewrite traj_stats; exact again_ok|].
  split; [unfold opt_used; rewrite traj_stats; apply (solve_stats_ok ucost_ops 1 1 no_viol true 3 again_lq again_r); [apply is_ok_get; vm_compute; reflexivity|exact again_ok]|].
  split.
  { exists b, Z, (get_ok again_lq (il_backward_pass 1 1 3 (il_update_expansions ucost_ops 1 1 Z b))). split; [apply is_ok_get; vm_compute; reflexivity|]. split; [vm_compute; reflexivity|].
    split; [apply is_ok_get; vm_compute; reflexivity|]. split; [vm_compute; discriminate|]. now right. }
  split; [vm_compute; discriminate|]. split; [apply is_ok_get; vm_compute; reflexivity|]. split; [apply is_ok_get; vm_compute; reflexivity|]. split; vm_compute; reflexivity.
Qed.
(** Finding: when the first backward pass gives up, the gains of an earlier solve are used for the step.  A stage cost u^2/2 whose second derivative is
    reported as -1 for u >= 5: the solver that has solved from another guess before ends with another control than the fresh one. *)
Definition gg_cost : UCost QS := mkUCost (F:=QS)
  (fun x u => mul half (mul (u 0%nat) (u 0%nat))) (fun x u _ => (fun _ => zero, fun _ => u 0%nat))
  (fun x u _ => (fun _ _ => zero, fun _ _ => zero, fun _ _ => if ltb (u 0%nat) (ofZ 5) then one else opp one)).
Definition gg_new : ILQR QS (UCost QS) :=
  ex_solver (ex_opts 300 1 (lit 1 1000) (lit 1 1000) (ofZ 2) (1 # 2)%Q (1 # 4)%Q 1 3) zero [(1 # 4)%Q : q; 1%Q : q]
    [(ex_dyn0, gg_cost); (ex_dyn0, gg_cost); (ex_dyn0, ex_quad zero zero zero)].
Definition gg_used := get_ok gg_new (il_solve ucost_ops 1 1 no_viol true 3 gg_new).
Definition gg_Z : Traj QS := map (ex_kp zero) [6%Q : q; 1%Q : q] ++ [mkKP (cst zero) (cst zero) one zero].
Definition gg_r := get_ok gg_new (il_solve ucost_ops 1 1 no_viol true 3 (il_set_trajectory gg_Z gg_new)).
Definition gg_r' := get_ok gg_new (il_solve ucost_ops 1 1 no_viol true 3 (il_set_trajectory gg_Z gg_used)).
Theorem C33_stale_gains_refuted : exists (s s' r r' : ILQR QS (UCost QS)) b Z s2, same_task s s' /\ stats_ok (il_stats s) /\ stats_ok (il_stats s') /\
  st_total (il_stats s') + o_max_inner (il_opts s) <= o_max_total (il_opts s) /\ il_begin ucost_ops 1 true s = Ok b /\ il_Z b = Some Z /\
  il_backward_pass 1 1 3 (il_update_expansions ucost_ops 1 1 Z b) = Ok s2 /\ accepts ucost_ops 1 1 Z s2 /\
  il_solve ucost_ops 1 1 no_viol true 3 s = Ok r /\ il_solve ucost_ops 1 1 no_viol true 3 s' = Ok r' /\
  u_at r 0 = 6%Q /\ u_at r' 0 = (23 # 4)%Q.
Proof.
  set (b := get_ok gg_new (il_begin ucost_ops 1 true (il_set_trajectory gg_Z gg_new))). set (Z := match il_Z b with Some Z => Z | None => [] end).
  exists (il_set_trajectory gg_Z gg_new), (il_set_trajectory gg_Z gg_used), gg_r, gg_r', b, Z, (get_ok gg_new (il_backward_pass 1 1 3 (il_update_expansions ucost_ops 1 1 Z b))).
  assert (G : stats_ok (il_stats gg_new)). { split; [reflexivity|]. intros p H. cbn in H. intuition (subst; reflexivity). }
  split; [apply (again_task ucost_ops 1 1 no_viol) with (debug := true) (fuel := 3%nat); [reflexivity|reflexivity|reflexivity|apply is_ok_get; vm_compute; reflexivity]|].
  split; [rewrite traj_stats; exact G|].
  split; [rewrite traj_stats; apply (solve_stats_ok ucost_ops 1 1 no_viol true 3 gg_new gg_used); [apply is_ok_get; vm_compute; reflexivity|exact G]|].
  split; [vm_compute; discriminate|]. split; [apply is_ok_get; vm_compute; reflexivity|]. split; [vm_compute; reflexivity|]. split; [apply is_ok_get; vm_compute; reflexivity|].
  split; [vm_compute; reflexivity|]. split; [apply is_ok_get; vm_compute; reflexivity|]. split; [apply is_ok_get; vm_compute; reflexivity|]. split; vm_compute; reflexivity.
Qed.
Print Assumptions C33_same_result.
Print Assumptions C33_solve_again.
Print Assumptions C33_stale_cost_refuted.
Print Assumptions C33_stale_gains_refuted.
