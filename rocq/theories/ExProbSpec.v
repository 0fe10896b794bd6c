(** What it means for a problem object to hold given data, independent of the calls that built it. *)
From Coq Require Import Reals ZArith List Bool.
From Verif Require Import Base Lin ConModel ConSpec ExampleSpec IlqrModel ProblemModel.
Import List ListNotations.
Local Open Scope Z_scope.

Section Spec.
Context {F : Scalar}.
(** N segments, the initial state x0, dynamics [md] on every segment (and the identity at the end), cost k = [cost k], and the lists of
    equality and inequality constraints [eqs k], [ineqs k] at every knot point *)
Record holds (N : Z) (h : heap F) (p : Prob F (UCost F)) (x0 : list F) (md : Model F) (cost : Z -> UCost F) (eqs ineqs : Z -> list (Con F)) : Prop := {
  ho_N : pr_segments p = Ok N;
  ho_init : h_get (pr_init p) h = x0;
  ho_dyn : forall k, 0 <= k < N -> nth_error (pr_models p) (Z.to_nat k) = Some (Some md);
  ho_end : nth_error (pr_models p) (Z.to_nat N) = Some (Some (mkModel (md_n md) (md_m md) identity_dyn));
  ho_cost : forall k, 0 <= k <= N -> nth_error (pr_costs p) (Z.to_nat k) = Some (Some (cost k));
  ho_eq : forall k, 0 <= k <= N -> nth_error (pr_eq p) (Z.to_nat k) = Some (eqs k);
  ho_ineq : forall k, 0 <= k <= N -> nth_error (pr_ineq p) (Z.to_nat k) = Some (ineqs k) }.
End Spec.

(** * The triple integrator as a control problem, without reference to the code *)
Section Tri.
Local Open Scope R_scope.
(** the motion of a triple integrator (position, velocity, acceleration, each with [dof] components) over a time [h] under the constant jerk [u] *)
Definition tri_motion (dof : nat) (h : R) (x u x' : nat -> R) : Prop := forall i, (i < dof)%nat ->
  x' i = x i + h * x (dof + i)%nat + h ^ 2 / 2 * x (2 * dof + i)%nat + h ^ 3 / 6 * u i /\
  x' (dof + i)%nat = x (dof + i)%nat + h * x (2 * dof + i)%nat + h ^ 2 / 2 * u i /\
  x' (2 * dof + i)%nat = x (2 * dof + i)%nat + h * u i.
Definition tri_path (dof N : nat) (h : R) (x0 : nat -> R) (X U : nat -> nat -> R) : Prop :=
  (forall i, (i < 3 * dof)%nat -> X 0%nat i = x0 i) /\ forall k, (k < N)%nat -> tri_motion dof h (X k) (U k) (X (S k)).
(** half the squared distance of x from y in the weight Q *)
Definition weighted (n : nat) (Q : nat -> nat -> R) (x y : nat -> R) : R := / 2 * qform n n Q (fun i => x i - y i) (fun i => x i - y i).
Definition tri_cost (dof N : nat) (Q Ru Qf : nat -> nat -> R) (xf uref : nat -> R) (X U : nat -> nat -> R) : R :=
  fsum N (fun k => weighted (3 * dof) Q (X k) xf + weighted dof Ru (U k) uref) + weighted (3 * dof) Qf (X N) xf.
End Tri.

(** * Costs and constraints of a problem at one knot point *)
Section Readings.
(** the cost at knot point k is [v] *)
Definition cost_at {F : Scalar} (p : Prob F (UCost F)) (k : nat) (x u : vec F) (v : F) : Prop :=
  exists c, nth_error (pr_costs p) k = Some (Some c) /\ uc_eval c x u = v.
(** all constraints at knot point k are satisfied: equalities vanish, inequalities are not positive; [buf] is what the output held *)
Definition feasible_at (p : Prob RS (UCost RS)) (k : nat) (x u : vec RS) : Prop :=
  (forall l con buf, nth_error (pr_eq p) k = Some l -> In con l -> forall i, (i < con_dim con)%nat -> con_eval con x u buf i = 0%R) /\
  (forall l con buf, nth_error (pr_ineq p) k = Some l -> In con l -> forall i, (i < con_dim con)%nat -> (con_eval con x u buf i <= 0)%R).
End Readings.
