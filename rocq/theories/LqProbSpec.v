(** Linear-quadratic problems: affine dynamics, quadratic costs, with the right derivatives. *)
From Coq Require Import Reals List ZArith.
From Verif Require Import Base Lin TrajModel IlqrModel IlqrSpec LqSpec.
Import ListNotations.
Local Open Scope R_scope.

(** 1/2 x'Qx + x'Hu + 1/2 u'Ru + q'x + r'u + c *)
Record Quad := mkQuad { qd_Q : nat -> nat -> R; qd_H : nat -> nat -> R; qd_R : nat -> nat -> R; qd_q : nat -> R; qd_r : nat -> R; qd_c : R }.
Definition quad_val (n m : nat) (d : Quad) (x u : nat -> R) : R :=
  1 / 2 * form n n (qd_Q d) x x + form n m (qd_H d) x u + 1 / 2 * form m m (qd_R d) u u + inner n (qd_q d) x + inner m (qd_r d) u + qd_c d.
(** cost objects that are quadratics: values, gradients and Hessians are those of [D c], and no call changes [D c] *)
Record quad_costs {CS} (n m : nat) (ops : CostOps RS CS) (Inv : CS -> Prop) (D : CS -> Quad) : Prop := {
  qc_value : forall c x u, Inv c -> fst (co_eval ops c x u) = quad_val n m (D c) x u;
  qc_eval : forall c x u, Inv c -> Inv (snd (co_eval ops c x u)) /\ D (snd (co_eval ops c x u)) = D c;
  qc_grad : forall c x u b, Inv c -> Inv (snd (co_grad ops c x u b)) /\ D (snd (co_grad ops c x u b)) = D c;
  qc_hess : forall c x u b, Inv c -> Inv (snd (co_hess ops c x u b)) /\ D (snd (co_hess ops c x u b)) = D c;
  qc_gx : forall c x u b i, Inv c -> (i < n)%nat -> fst (fst (co_grad ops c x u b)) i = app n (qd_Q (D c)) x i + app m (qd_H (D c)) u i + qd_q (D c) i;
  qc_gu : forall c x u b i, Inv c -> (i < m)%nat -> snd (fst (co_grad ops c x u b)) i = app n (fun i j => qd_H (D c) j i) x i + app m (qd_R (D c)) u i + qd_r (D c) i;
  qc_hxx : forall c x u b i j, Inv c -> (i < n)%nat -> (j < n)%nat -> fst (fst (fst (co_hess ops c x u b))) i j = qd_Q (D c) i j;
  qc_hxu : forall c x u b i j, Inv c -> (i < n)%nat -> (j < m)%nat -> snd (fst (fst (co_hess ops c x u b))) i j = qd_H (D c) i j;
  qc_huu : forall c x u b i j, Inv c -> (i < m)%nat -> (j < m)%nat -> snd (fst (co_hess ops c x u b)) i j = qd_R (D c) i j }.
(** x' = A x + B u + c with coefficients that may depend on time and step; the Jacobian is written into zeroed storage, as
    CalcDynamicsExpansion does *)
Definition affine (n m : nat) (f : Dyn RS) : Prop := exists (A B : R -> R -> nat -> nat -> R) (c : R -> R -> nat -> R), forall x u t h,
  (forall b i, (i < n)%nat -> dy_eval f x u t h b i = app n (A t h) x i + app m (B t h) u i + c t h i) /\
  (forall i j, (i < n)%nat -> (j < n)%nat -> dy_jac f x u t h mzero i j = A t h i j) /\
  (forall i j, (i < n)%nat -> (j < m)%nat -> dy_jac f x u t h mzero i (n + j)%nat = B t h i j).
(** convex in (x,u), strictly in u *)
Definition convex_quad (n m : nat) (d : Quad) : Prop := sym n (qd_Q d) /\ sym m (qd_R d) /\ posdef m (qd_R d) /\
  forall x u, 0 <= 1 / 2 * form n n (qd_Q d) x x + form n m (qd_H d) x u + 1 / 2 * form m m (qd_R d) u u.
(** convex in x, independent of u *)
Definition terminal_quad (n m : nat) (d : Quad) : Prop := sym n (qd_Q d) /\ possemi n (qd_Q d) /\
  forall i j, (j < m)%nat -> qd_H d i j = 0 /\ qd_R d i j = 0 /\ qd_r d j = 0.
(** same times, and same steps on all segments *)
Definition same_steps (N : nat) (Z Y : Traj RS) : Prop := forall k z y, (k < N)%nat -> nth_error Z k = Some z -> nth_error Y k = Some y -> z_t y = z_t z /\ z_h y = z_h z.
(** the problem data of a solver object *)
Record lq_problem {CS} (n m : nat) (Inv : CS -> Prop) (D : CS -> Quad) (s : ILQR RS CS) : Prop := {
  lp_len : length (il_kps s) = S (il_N s);
  lp_inv : Forall (fun k => Inv (kp_cost k)) (il_kps s);
  lp_seg : forall k kp, (k < il_N s)%nat -> nth_error (il_kps s) k = Some kp -> affine n m (kp_dyn kp) /\ convex_quad n m (D (kp_cost kp));
  lp_end : forall kp, nth_error (il_kps s) (il_N s) = Some kp -> terminal_quad n m (D (kp_cost kp)) }.
(** [Y] is one of the trajectories the solver may choose from: N+1 knot points on the time grid of [Z], obeying the dynamics from x0 *)
Definition candidate {CS} (n : nat) (s : ILQR RS CS) (Z Y : Traj RS) : Prop :=
  length Y = S (il_N s) /\ same_steps (il_N s) Z Y /\ dyn_feasible n (il_x0 s) (map kp_dyn (il_kps s)) Y.
(** cost of a trajectory *)
Definition lq_cost {CS} (n m : nat) (D : CS -> Quad) (s : ILQR RS CS) (Y : Traj RS) : R :=
  fold_right Rplus 0 (map (fun p => quad_val n m (D (kp_cost (fst p))) (z_x (snd p)) (z_u (snd p))) (combine (il_kps s) Y)).
Definition best {CS} (n m : nat) (D : CS -> Quad) (s : ILQR RS CS) (Z Y : Traj RS) : Prop :=
  candidate n s Z Y /\ forall Y', candidate n s Z Y' -> lq_cost n m D s Y <= lq_cost n m D s Y'.
