(** Specifications for nonlinear problems over the reals: derivatives, problems with differentiable functions and correct
    user derivatives, variations of the controls. *)
From Coq Require Import Reals List ZArith.
From Coquelicot Require Import Coquelicot.
Import List ListNotations.
From Verif Require Import Base Lin StatsModel TrajModel IlqrModel IlqrSpec LsSpec LqSpec LqProbSpec.
Local Open Scope R_scope.

(** [g], a function of the first n entries of x and m entries of u, is differentiable at (x, u) with gradient (gx, gu) *)
Definition frechet (n m : nat) (g : (nat -> R) -> (nat -> R) -> R) (gx gu x u : nat -> R) : Prop :=
  forall eps, 0 < eps -> exists del, 0 < del /\ forall y v, (forall i, (i < n)%nat -> Rabs (y i - x i) <= del) -> (forall i, (i < m)%nat -> Rabs (v i - u i) <= del) ->
  Rabs (g y v - g x u - (inner n gx (fun i => y i - x i) + inner m gu (fun i => v i - u i))) <= eps * (tot n (fun i => Rabs (y i - x i)) + tot m (fun i => Rabs (v i - u i))).
(** the curve [c] of points passes through [x] at 0, with velocity [dx] (p entries) *)
Definition passes (c : R -> nat -> R) (p : nat) (x dx : nat -> R) : Prop := (forall i, (i < p)%nat -> c 0 i = x i) /\ forall i, (i < p)%nat -> is_derive (fun t => c t i) 0 (dx i).
(** what is needed of derivatives: the chain rule along every such curve (it follows from [frechet]: C82_frechet) *)
Definition slopes (n m : nat) (g : (nat -> R) -> (nat -> R) -> R) (gx gu x u : nat -> R) : Prop :=
  forall X U dx du, passes X n x dx -> passes U m u du -> is_derive (fun t => g (X t) (U t)) 0 (inner n gx dx + inner m gu du).
(** cost objects with values [V c], whose gradient function returns the derivative and whose Hessian function returns symmetric blocks (nothing is
    asked about the Hessian being the second derivative) *)
Record smooth_costs {CS} (n m : nat) (ops : CostOps RS CS) (Inv : CS -> Prop) (V : CS -> vec RS -> vec RS -> R) : Prop := {
  sc_faithful : faithful_cost ops Inv V;
  sc_grad : forall c x u, Inv c -> slopes n m (V c) (fst (fst (co_grad ops c x u (vzero, vzero)))) (snd (fst (co_grad ops c x u (vzero, vzero)))) x u;
  sc_hess : forall c x u, Inv c -> sym n (fst (fst (fst (co_hess ops c x u (mzero, mzero, mzero))))) /\ sym m (snd (fst (co_hess ops c x u (mzero, mzero, mzero)))) }.
(** dynamics with the right Jacobian, written into zeroed storage as CalcDynamicsExpansion does *)
Definition smooth_dyn (n m : nat) (f : Dyn RS) : Prop := writes_all n f /\ forall x u t h b i, (i < n)%nat ->
  slopes n m (fun x u => dy_eval f x u t h b i) (dy_jac f x u t h mzero i) (fun j => dy_jac f x u t h mzero i (n + j)%nat) x u.
(** the problem data of a solver object; the last cost does not look at the controls *)
Record smooth_problem {CS} (n m : nat) (Inv : CS -> Prop) (V : CS -> vec RS -> vec RS -> R) (s : ILQR RS CS) : Prop := {
  sp_len : length (il_kps s) = S (il_N s);
  sp_inv : Forall (fun k => Inv (kp_cost k)) (il_kps s);
  sp_dyn : forall k kp, (k < il_N s)%nat -> nth_error (il_kps s) k = Some kp -> smooth_dyn n m (kp_dyn kp);
  sp_end : forall kp, nth_error (il_kps s) (il_N s) = Some kp -> forall x u u', V (kp_cost kp) x u = V (kp_cost kp) x u' }.
(** [Y] obeys the dynamics on the time grid of [Z], with the controls of [Z] changed by [a] times [du] *)
Definition varied {CS} (n m : nat) (s : ILQR RS CS) (Z : Traj RS) (du : nat -> nat -> R) (a : R) (Y : Traj RS) : Prop :=
  length Y = length Z /\ dyn_feasible n (il_x0 s) (map kp_dyn (il_kps s)) Y /\
  forall k z y, (k < il_N s)%nat -> nth_error Z k = Some z -> nth_error Y k = Some y -> z_t y = z_t z /\ z_h y = z_h z /\ forall i, (i < m)%nat -> z_u y i = z_u z i + a * du k i.
(** all feedforward gains are zero *)
Definition no_step {CS} (m : nat) (s : ILQR RS CS) : Prop := forall k kp i, (k < il_N s)%nat -> nth_error (il_kps s) k = Some kp -> (i < m)%nat -> kp_d kp i = 0.
(** strictly within the state and control limits, where they are checked *)
Definition inside_limits (n m : nat) (o : Opts RS) (Z : Traj RS) : Prop := o_check_bounds o = true ->
  forall k z z', nth_error Z k = Some z -> nth_error Z (S k) = Some z' -> norm n (z_x z') < o_state_max o /\ norm m (z_u z) < o_control_max o.
(** a solver object whose trajectory [Z] obeys the dynamics, with scratch trajectory [Zb] on the same time grid *)
Record nl_setting {CS} (n m : nat) (ops : CostOps RS CS) (Inv : CS -> Prop) (V : CS -> vec RS -> vec RS -> R) (s : ILQR RS CS) (Z Zb : Traj RS) : Prop := {
  ns_costs : smooth_costs n m ops Inv V; ns_prob : smooth_problem n m Inv V s;
  ns_Z : il_Z s = Some Z; ns_len : length Z = S (il_N s); ns_dyn : dyn_feasible n (il_x0 s) (map kp_dyn (il_kps s)) Z;
  ns_Zb : il_Zb s = Some Zb; ns_lenb : length Zb = S (il_N s); ns_steps : same_steps (il_N s) Z Zb }.
(** the closed-loop simulations around [Z] with all step sizes *)
Definition line {CS} (n m : nat) (s : ILQR RS CS) (Z Zb : Traj RS) (fam : R -> Traj RS) : Prop := forall a, simulates n m s (times Zb) Z a (fam a) /\ length (fam a) = length Z.
(** the quadratic model stored by the expansions is convex *)
Definition convex_model {CS} (n m : nat) (s : ILQR RS CS) : Prop :=
  (forall k kp, (k < il_N s)%nat -> nth_error (il_kps s) k = Some kp -> forall dx du,
     0 <= 1 / 2 * form n n (e_xx (kp_ce kp)) dx dx + form n m (e_xu (kp_ce kp)) dx du + 1 / 2 * form m m (e_uu (kp_ce kp)) du du) /\
  (forall kp, nth_error (il_kps s) (il_N s) = Some kp -> forall dx, 0 <= form n n (e_xx (kp_ce kp)) dx dx).
