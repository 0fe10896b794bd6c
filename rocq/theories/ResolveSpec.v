(** Vocabulary for comparing two solves. *)
From Coq Require Import ZArith String List Bool.
From Verif Require Import Base Lin LogModel StatsModel TrajModel IlqrModel IlqrSpec.
Import ListNotations.
Local Open Scope Z_scope.

(** two recordings whose newest [j] entries are the same *)
Definition same_tail {A} (j : nat) (l l' : list A) : Prop := exists a a' c, l = a ++ c /\ l' = a' ++ c /\ length c = j.

Section Spec.
Context {F : Scalar} {CS : Type}.
(** the same problem, options, initial state, initial guess and trial trajectory; nothing is said of what earlier solves left behind: expansions, gains,
    cost-to-go, regularisation, status, statistics *)
Record same_task (s s' : ILQR F CS) : Prop := {
  stk_N : il_N s' = il_N s; stk_x0 : il_x0 s' = il_x0 s; stk_set : il_x0_set s' = il_x0_set s;
  stk_dyn : map kp_dyn (il_kps s') = map kp_dyn (il_kps s); stk_cost : map kp_cost (il_kps s') = map kp_cost (il_kps s);
  stk_Z : il_Z s' = il_Z s; stk_Zb : il_Zb s' = il_Zb s; stk_opts : il_opts s' = il_opts s }.
(** what the caller sees of a finished solve *)
Record same_result (r r' : ILQR F CS) : Prop := {
  sr_Z : il_Z r' = il_Z r; sr_status : il_status r' = il_status r; sr_costs : il_costs r' = il_costs r; sr_grad : il_grad r' = il_grad r;
  sr_rho : il_rho r' = il_rho r; sr_dV0 : il_dV0 r' = il_dV0 r; sr_dV1 : il_dV1 r' = il_dV1 r;
  sr_K : map kp_K (firstn (il_N r) (il_kps r')) = map kp_K (firstn (il_N r) (il_kps r));
  sr_d : map kp_d (firstn (il_N r) (il_kps r')) = map kp_d (firstn (il_N r) (il_kps r));
  sr_S : map kp_S (il_kps r') = map kp_S (il_kps r); sr_s : map kp_s (il_kps r') = map kp_s (il_kps r);
  sr_cost : map kp_cost (il_kps r') = map kp_cost (il_kps r);
  sr_inner : st_inner (il_stats r') = st_inner (il_stats r); sr_initial : st_initial_cost (il_stats r') = st_initial_cost (il_stats r);
  (** every iteration of this solve has recorded the same cost, decrease, gradient and regularisation *)
  sr_series : forall t, In t ["cost"; "dJ"; "grad"; "reg"]%string ->
    exists l l', st_get t (il_stats r) = Some l /\ st_get t (il_stats r') = Some l' /\ same_tail (S (Z.to_nat (st_inner (il_stats r)))) l l' }.
(** the line search from state [s] (after a backward pass) accepts a step *)
Definition accepts (ops : CostOps F CS) (n m : nat) (Z : Traj F) (s : ILQR F CS) : Prop :=
  fst (fst (line_search ops n m (Z.to_nat (o_ls_iters (il_opts s))) (lsum (il_costs s)) one Z s)) = true.
(** the first iteration of a solve: its backward pass ends without exhausting the regularisation, and its line search accepts a step, or else
    [c] holds *)
Definition first_step (ops : CostOps F CS) (n m : nat) (debug : bool) (fuel : nat) (s : ILQR F CS) (c : Prop) : Prop :=
  exists b Z s2, il_begin ops n debug s = Ok b /\ il_Z b = Some Z /\ il_backward_pass n m fuel (il_update_expansions ops n m Z b) = Ok s2 /\
    il_status s2 <> kBackwardPassRegularizationFailed /\ (accepts ops n m Z s2 \/ c).
End Spec.
