(** Specifications for integrators: Butcher schemes and derivatives along curves. *)
From Coq Require Import Reals List Bool ZArith.
From Coquelicot Require Import Coquelicot.
From Verif Require Import Base Lin ConModel ConSpec DynModel.
Local Open Scope R_scope.

(** [cd] computes the vector field [f]: it fills the n entries of its output, and reads the first n entries of the state *)
Record computes (n : nat) (cd : CDyn RS) (f : vec RS -> vec RS -> R -> nat -> R) : Prop := {
  cp_eval : forall x u t buf i, (i < n)%nat -> cd_eval cd x u t buf i = f x u t i;
  cp_local : forall x y u t, (forall i, (i < n)%nat -> x i = y i) -> forall i, (i < n)%nat -> f x u t i = f y u t i }.
(** the classical Runge-Kutta scheme *)
Definition rk4_scheme (n : nat) (f : vec RS -> vec RS -> R -> nat -> R) (x u : vec RS) (t h : R) (y : nat -> R) : Prop :=
  exists k1 k2 k3 k4 : nat -> R,
    (forall i, (i < n)%nat -> k1 i = f x u t i) /\
    (forall i, (i < n)%nat -> k2 i = f (fun j => x j + h / 2 * k1 j) u (t + h / 2) i) /\
    (forall i, (i < n)%nat -> k3 i = f (fun j => x j + h / 2 * k2 j) u (t + h / 2) i) /\
    (forall i, (i < n)%nat -> k4 i = f (fun j => x j + h * k3 j) u (t + h) i) /\
    (forall i, (i < n)%nat -> y i = x i + h / 6 * (k1 i + 2 * k2 i + 2 * k3 i + k4 i)).

(** [J] is the derivative of [f] at every time; the code writes the entries [W] of the buffer, the others are
    structurally zero *)
Record jac_true (n m : nat) (cd : CDyn RS) (f : vec RS -> vec RS -> R -> nat -> R)
       (J : vec RS -> vec RS -> R -> nat -> nat -> R) (W : nat -> nat -> bool) : Prop := {
  jt_jac : forall x u t buf i j, (i < n)%nat -> (j < n + m)%nat -> cd_jac cd x u t buf i j = if W i j then J x u t i j else buf i j;
  jt_mask : forall x u t i j, W i j = false -> J x u t i j = 0;
  jt_local : forall x y u t i j, (forall k, (k < n)%nat -> x k = y k) -> J x u t i j = J y u t i j;
  jt_deriv : forall X U v w t, curve X v -> curve U w -> forall i, (i < n)%nat ->
      is_derive (fun s => f (X s) (U s) t i) 0
        (fsum n (fun j => J (X 0) (U 0) t i j * v j) + fsum m (fun j => J (X 0) (U 0) t i (n + j)%nat * w j)) }.
(** [M x u] (n x (n+m)) is the derivative of [g] at (x, u), for every (x, u) *)
Definition is_jacobian (n m : nat) (g : vec RS -> vec RS -> nat -> R) (M : vec RS -> vec RS -> nat -> nat -> R) : Prop :=
  forall X U v w, curve X v -> curve U w -> forall i, (i < n)%nat ->
    is_derive (fun s => g (X s) (U s) i) 0 (fsum n (fun j => M (X 0) (U 0) i j * v j) + fsum m (fun j => M (X 0) (U 0) i (n + j)%nat * w j)).
(** buffer entries the user's Jacobian does not write must start at zero *)
Definition zeroed (n m : nat) (W : nat -> nat -> bool) (buf : nat -> nat -> R) : Prop :=
  forall i j, (i < n)%nat -> (j < n + m)%nat -> W i j = false -> buf i j = 0.
