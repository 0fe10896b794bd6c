(** Specification of the backtracking line search. *)
From Coq Require Import ZArith String List Bool.
From Verif Require Import Base Lin StatsModel TrajModel IlqrModel IlqrSpec.
Import ListNotations.

Section Spec.
Context {F : Scalar} {CS : Type} (n m : nat).

(** the steps that are tried: 1, 1/g, 1/g/g, ... *)
Fixpoint step_size (g : F) (i : nat) : F := match i with O => one | S j => div (step_size g j) g end.
(** every control but the last follows u' = u + K (x' - x) + d alpha *)
Definition obeys_law (alpha : F) (kps : list (KPF F CS)) (Z Z' : Traj F) : Prop :=
  forall k kp z z' z'', nth_error kps k = Some kp -> nth_error Z k = Some z -> nth_error Z' k = Some z' -> nth_error Z' (S k) = Some z'' ->
  forall i, i < m -> z_u z' i = add (add (z_u z i) (dot n (kp_K kp i) (fun j => sub (z_x z' j) (z_x z j)))) (mul (kp_d kp i) alpha).
(** [Z'] is (the first [length Z'] knot points of) the closed-loop simulation around [Z] with step [alpha] *)
Record simulates (s : ILQR F CS) (ts : list (F * F)) (Z : Traj F) (alpha : F) (Z' : Traj F) : Prop := {
  sim_times : times Z' = firstn (length Z') ts;
  sim_dyn : dyn_feasible n (il_x0 s) (map kp_dyn (il_kps s)) Z';
  sim_law : obeys_law alpha (il_kps s) Z Z' }.
(** the acceptance test: the actual decrease is in proportion to the predicted one *)
Definition acceptable (o : Opts F) (dV0 dV1 J0 J alpha z : F) : Prop :=
  let e := mul (opp alpha) (add dV0 (mul alpha dV1)) in
  (ltb zero e = true -> z = div (sub J0 J) e) /\ (ltb zero e = false -> z = opp one) /\
  leb (o_ls_lb o) z = true /\ leb z (o_ls_ub o) = true /\ ltb J J0 = true.
(** the step [alpha] was rightly turned down: the simulation leaves the limits, or the test fails *)
Definition turned_down (V : CS -> vec F -> vec F -> F) (s : ILQR F CS) (ts : list (F * F)) (Z : Traj F) (J0 alpha : F) : Prop :=
  (exists Z', simulates s ts Z alpha Z' /\ length Z' = length Z /\
     forall z, ~ acceptable (il_opts s) (il_dV0 s) (il_dV1 s) J0 (total_cost V s Z') alpha z) \/
  (o_check_bounds (il_opts s) = true /\ exists Z' z z', simulates s ts Z alpha (Z' ++ [z; z']) /\ length (Z' ++ [z; z']) <= length Z /\
     (ltb (o_state_max (il_opts s)) (norm n (z_x z')) = true \/ ltb (o_control_max (il_opts s)) (norm m (z_u z)) = true)).
End Spec.
