(** Property theorems: what the solvers log and print (C78). *)
From Coq Require Import ZArith QArith String List Bool Lia.
From Verif Require Import Base Lin ConModel LogModel StatsModel StatsSpec TrajModel IlqrModel CostInst AlModel IlqrExamples AlExamples SolveLogSpec SolveLogProofs SolveLogProofs2 SolveLogProofs3.
Import ListNotations.
Local Open Scope Z_scope.

(** ** C78 *)
(** A solve makes exactly these calls on the statistics object: it puts the verbosity of the options in force, and each iteration logs the
    regularisation of its backward pass, the cost, step length and ratio of the accepted candidate if there was one, then decrease, violation,
    total iteration count and gradient, and prints a row at verbosity kInner or above.  The counts are consecutive. *)
Theorem C78_inner : forall (F : Scalar) CS (ops : CostOps F CS) n m cb debug fuel (s s' : ILQR F CS) h,
  history debug h (il_stats s) -> il_solve ops n m cb debug fuel s = Ok s' ->
  exists b rs, il_begin ops n debug s = Ok b /\ iterations ops n m cb fuel b rs s' /\
    history debug (h ++ solve_calls (o_verbose (il_opts s)) rs) (il_stats s') /\
    st_inner (il_stats s') = Z.of_nat (length rs) /\ st_total (il_stats s') = st_total (il_stats s) + Z.of_nat (length rs) /\
    map ir_total rs = map (fun i => st_total (il_stats s) + Z.of_nat i) (seq 1 (length rs)).
Proof.
  intros F CS ops n m cb debug fuel s s' h H E. destruct (solve_log ops n m cb debug fuel s s' (history_ok debug h _ H) E) as (b & rs & A & B & C & D & G & K & _).
  exists b, rs. split; [exact A|]. split; [exact C|]. split; [eapply history_app; eauto|]. auto.
Qed.
(** The outer solver: after a reset it logs outer iteration 0 with the initial violation and penalty; each outer iteration makes the calls of its inner
    solve, then logs violation, penalty and its number (1, 2, ...), and prints a row below kInner, and at or above it a new header unless it was the last.
    The inner iterations of all outer iterations are counted through. *)
Theorem C78_outer : forall (F : Scalar) n m debug fuel (a a' : ALS F) h,
  history debug h (il_stats (as_il a)) -> as_solve n m debug fuel a = Ok a' -> 
  exists b rs, as_init debug (as_il a) = Ok b /\ outers n m debug fuel b rs (as_il a') /\
    history debug (h ++ al_calls (il_opts (as_il a)) (als_max_violation (il_costobjs b)) (als_max_penalty (il_costobjs b)) rs) (il_stats (as_il a')) /\
    map or_number rs = map Z.of_nat (seq 1 (length rs)) /\ map ir_total (flat_map or_inner rs) = map Z.of_nat (seq 1 (length (flat_map or_inner rs))) /\
    st_outer (il_stats (as_il a')) = Z.of_nat (length rs) /\ st_total (il_stats (as_il a')) = Z.of_nat (length (flat_map or_inner rs)) /\
    (1 <= o_max_outer (il_opts (as_il a)) -> exists rs0 r, rs = rs0 ++ [r] /\ or_last r = true /\ Forall (fun r => or_last r = false) rs0).
Proof.
  intros F n m debug fuel a a' h H E. destruct (al_log n m debug fuel a a' h H E) as (b & rs & A & B & C & D & G & I & J & K).
  exists b, rs. repeat (split; [assumption|]). exact K.
Qed.
(** Rows on the console.  A stand-alone inner solve prints one row per iteration from verbosity kInner = 3 on and none below; the outer solver prints one
    row per inner iteration from kInner on, one row per outer iteration at verbosity 1 and 2, and none at 0 (or below). *)
Theorem C78_inner_rows : forall (F : Scalar) CS (ops : CostOps F CS) n m cb debug fuel (s s' : ILQR F CS) h,
  history debug h (il_stats s) -> il_solve ops n m cb debug fuel s = Ok s' ->
  Z.of_nat (rows (st_out (il_stats s'))) = Z.of_nat (rows (st_out (il_stats s))) + (if 3 <=? o_verbose (il_opts s) then st_inner (il_stats s') else 0).
Proof.
  intros F CS ops n m cb debug fuel s s' h H E. destruct (C78_inner F CS ops n m cb debug fuel s s' h H E) as (b & rs & _ & _ & A & B & _).
  rewrite (history_rows debug _ _ A), (history_rows debug _ _ H), row_count_app, solve_rows, B. destruct (3 <=? _); lia.
Qed.
Theorem C78_outer_rows : forall (F : Scalar) n m debug fuel (a a' : ALS F) h,
  history debug h (il_stats (as_il a)) -> as_solve n m debug fuel a = Ok a' -> let v := o_verbose (il_opts (as_il a)) in
  Z.of_nat (rows (st_out (il_stats (as_il a')))) = Z.of_nat (rows (st_out (il_stats (as_il a)))) +
    (if 3 <=? v then st_total (il_stats (as_il a')) else if 1 <=? v then st_outer (il_stats (as_il a')) else 0).
Proof.
  intros F n m debug fuel a a' h H E v. destruct (C78_outer F n m debug fuel a a' h H E) as (b & rs & _ & _ & A & _ & _ & B & C & _).
  rewrite (history_rows debug _ _ A), (history_rows debug _ _ H), row_count_app, al_rows, B, C. fold v. destruct (3 <=? v); [lia|]. destruct (1 <=? v); lia.
Qed.

(** the examples of the solvers at different verbosities *)
Definition loud (v : Z) (o : Opts QS) : Opts QS :=
  mkOpts (o_max_total o) (o_max_outer o) (o_max_inner o) (o_cost_tol o) (o_grad_tol o) (o_reg_factor o) (o_reg_initial o) (o_reg_max o) (o_reg_min o) (o_reg_fail o)
    (o_check_bounds o) (o_state_max o) (o_control_max o) (o_ls_iters o) (o_ls_lb o) (o_ls_ub o) (o_ls_factor o) (o_con_tol o) (o_max_pen o) (o_init_pen o) (o_reset_duals o)
    (o_header_freq o) v (o_nthreads o) (o_tasks_per_thread o).
Definition loud_lq (v : Z) : ILQR QS (UCost QS) := il_set_opts ex_lq (loud v (il_opts ex_lq)).
Definition loud_al (v : Z) : ALS QS := mkALS (il_set_opts (as_il ex_al) (loud v (il_opts (as_il ex_al)))) (as_status ex_al).
Definition lq_rows v := match il_solve ucost_ops 1 1 no_viol true 3 (loud_lq v) with Ok r => Some (rows (st_out (il_stats r))) | _ => None end.
Definition all_rows v := match as_solve 1 1 true 3 (loud_al v) with Ok r => Some (rows (st_out (il_stats (as_il r)))) | _ => None end.
Example C78_example : history true [] (il_stats (loud_lq 3)) /\ history true [] (il_stats (as_il (loud_al 1))) /\
  lq_rows 3 = Some 2%nat /\ lq_rows 2 = Some 0%nat /\ all_rows 4 = Some 17%nat /\ all_rows 1 = Some 4%nat /\ all_rows 0 = Some 0%nat.
Proof.
  split; [eexists; split; [reflexivity|repeat split]|]. split; [eexists; split; [reflexivity|repeat split]|]. vm_compute. repeat split.
Qed.
Print Assumptions C78_inner.
Print Assumptions C78_outer.
Print Assumptions C78_inner_rows.
Print Assumptions C78_outer_rows.
