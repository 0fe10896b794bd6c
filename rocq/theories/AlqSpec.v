(** Equality-constrained linear-quadratic problems, their Lagrangian and their saddle points.  Only data types of the model are
    used, except for the problem classes of LqProbSpec. *)
From Coq Require Import Reals List ZArith.
From Verif Require Import Base Lin ConModel ConSpec LogModel StatsModel TrajModel IlqrModel IlqrSpec CostInst AlModel LqSpec LqProbSpec.
Import ListNotations.
Local Open Scope R_scope.

(** a constraint c(x,u) = G x + H u + g with Jacobian (G H); entries of the Jacobian that the user code does not write are zero *)
Definition lin_con (n m : nat) (con : Con RS) (G H : nat -> nat -> R) (g : nat -> R) : Prop := exists W : nat -> nat -> bool,
  (forall x u b i, (i < con_dim con)%nat -> con_eval con x u b i = app n G x i + app m H u i + g i) /\
  (forall x u b i j, (i < con_dim con)%nat -> (j < n)%nat -> con_jac con x u b i j = if W i j then G i j else b i j) /\
  (forall x u b i j, (i < con_dim con)%nat -> (j < m)%nat -> con_jac con x u b i (n + j)%nat = if W i (n + j)%nat then H i j else b i (n + j)%nat) /\
  (forall i j, (i < con_dim con)%nat -> (j < n)%nat -> W i j = false -> G i j = 0) /\
  (forall i j, (i < con_dim con)%nat -> (j < m)%nat -> W i (n + j)%nat = false -> H i j = 0).
Definition affine_con n m con : Prop := (1 <= con_dim con)%nat /\ exists G H g, lin_con n m con G H g.
(** one on the state alone *)
Definition state_con n m con : Prop := (1 <= con_dim con)%nat /\ exists G g, lin_con n m con G (fun _ _ => 0) g.
(** a user cost that is the quadratic [d], with its gradient and Hessian *)
Definition is_quad (n m : nat) (c : UCost RS) (d : Quad) : Prop := quad_costs n m (@ucost_ops RS) (fun c' => c' = c) (fun _ => d).

(** problem of a solver object: affine dynamics, convex quadratic costs, affine equality constraints, no inequality constraints.  The
    objects may have any history of public operations *)
Record eq_lq (debug : bool) (n m : nat) (s : ILQR RS (ALCost RS)) : Prop := {
  el_len : length (il_kps s) = S (il_N s);
  el_seg : forall k kp, (k < il_N s)%nat -> nth_error (il_kps s) k = Some kp -> affine n m (kp_dyn kp) /\
    exists cost eqs os d, al_reach debug (al_make n m cost eqs []) os (kp_cost kp) /\ Forall (affine_con n m) eqs /\ is_quad n m cost d /\ convex_quad n m d;
  el_end : forall kp, nth_error (il_kps s) (il_N s) = Some kp ->
    exists cost eqs os d, al_reach debug (al_make n m cost eqs []) os (kp_cost kp) /\ Forall (state_con n m) eqs /\ is_quad n m cost d /\ terminal_quad n m d }.

(** sum of f k a over the elements a of a list, with their positions k, k+1, ... *)
Fixpoint isum {A} (f : nat -> A -> R) (k : nat) (l : list A) : R := match l with [] => 0 | a :: r => f k a + isum f (S k) r end.
(** sum over the components i of the constraints j of the knot points k *)
Definition tsum (f : nat -> nat -> nat -> CV RS -> R) (cs : list (ALCost RS)) : R :=
  isum (fun k c => isum (fun j v => fsum (cv_p v) (fun i => f k j i v)) 0%nat (al_eq c)) 0%nat cs.
(** value of component i of a constraint at knot point k of Y *)
Definition cval (Y : Traj RS) (k : nat) (v : CV RS) (i : nat) : R :=
  match nth_error Y k with Some z => con_eval (cv_con v) (z_x z) (z_u z) vzero i | None => 0 end.
(** total user cost, without constraint terms *)
Definition user_cost (cs : list (ALCost RS)) (Y : Traj RS) : R :=
  isum (fun k c => match nth_error Y k with Some z => uc_eval (al_cost c) (z_x z) (z_u z) | None => 0 end) 0%nat cs.
(** multipliers are indexed by knot point, constraint and component *)
Definition duals (cs : list (ALCost RS)) (k j i : nat) : R :=
  match nth_error cs k with Some c => match nth_error (al_eq c) j with Some v => cv_lam v i | None => 0 end | None => 0 end.
(** mu . c(Y) *)
Definition pairing (mu : nat -> nat -> nat -> R) cs Y : R := tsum (fun k j i v => mu k j i * cval Y k v i) cs.
Definition lagrangian (mu : nat -> nat -> nat -> R) cs Y : R := user_cost cs Y - pairing mu cs Y.
(** |mu - nu|^2 and |c(Y)|^2 *)
Definition mdist2 (mu nu : nat -> nat -> nat -> R) cs : R := tsum (fun k j i _ => (mu k j i - nu k j i) ^ 2) cs.
Definition viol2 cs Y : R := tsum (fun k _ i v => cval Y k v i ^ 2) cs.
Definition satisfies (cs : list (ALCost RS)) (Y : Traj RS) : Prop :=
  forall k c v i, nth_error cs k = Some c -> In v (al_eq c) -> (i < cv_p v)%nat -> cval Y k v i = 0.
(** (Zs, mu) is a saddle point of the Lagrangian: Zs satisfies the constraints and minimises f - mu.c over all candidates *)
Definition saddle (n : nat) (s : ILQR RS (ALCost RS)) (Z Zs : Traj RS) (mu : nat -> nat -> nat -> R) : Prop :=
  candidate n s Z Zs /\ satisfies (il_costobjs s) Zs /\ forall Y, candidate n s Z Y -> lagrangian mu (il_costobjs s) Zs <= lagrangian mu (il_costobjs s) Y.
(** multipliers a solve starts from (al_solver.hpp:288-303: zero if reset_duals, else those left by earlier use) *)
Definition start_duals (s : ILQR RS (ALCost RS)) : nat -> nat -> nat -> R :=
  if o_reset_duals (il_opts s) then fun _ _ _ => 0 else duals (il_costobjs s).
(** objective of the inner problem at the current multipliers and penalties: the textbook augmented Lagrangian *)
Definition al_objective (cs : list (ALCost RS)) (Y : Traj RS) : R :=
  user_cost cs Y + tsum (fun k _ i v => phr ZeroCone (cv_pen v 0%nat) (cv_lam v i) (cval Y k v i)) cs.
