(** Model of altro/problem/dynamics.hpp, integration.hpp and discretized_model.hpp. *)
From Coq Require Import ZArith List Bool.
From Verif Require Import Base Lin IlqrModel.

Section Integrators.
Context {F : Scalar}.
(** dynamics.hpp:59-72 ContinuousDynamics.  Evaluate and Jacobian receive the caller's buffer (last argument) and may leave
    parts of it unwritten.  The time argument is a C++ [float]. *)
Record CDyn := mkCDyn {
  cd_eval : vec F -> vec F -> F -> vec F -> vec F;
  cd_jac : vec F -> vec F -> F -> mat F -> mat F }.

(** integration.hpp:90-94 ExplicitEuler::Integrate: dynamics->Evaluate(x, u, t, xnext); xnext = x + xnext * h *)
Definition euler_step (n : nat) (cd : CDyn) (x u : vec F) (t h : F) (xnext : vec F) : vec F :=
  let f := vstore n (cd_eval cd x u t xnext) in
  vstore n (fun i => add (x i) (mul (f i) h)).
(** integration.hpp:95-101 ExplicitEuler::Jacobian: jac = MatrixXd::Identity(n, n + m) + jac * h *)
Definition euler_jac (n m : nat) (cd : CDyn) (x u : vec F) (t h : F) (jac : mat F) : mat F :=
  let J := mstore n (n + m) (cd_jac cd x u t jac) in
  mstore n (n + m) (fun i j => add (mident i j) (mul (J i j) h)).

(** integration.hpp:190-193: k1_ .. k4_ live in the integrator and keep their contents between calls.
    A_, B_, dA_, dB_ (194-197) are always overwritten before they are read. *)
Record RK4 := mkRK4 { rk_k1 : vec F; rk_k2 : vec F; rk_k3 : vec F; rk_k4 : vec F }.
(** integration.hpp:172-185 Init *)
Definition rk_init : RK4 := mkRK4 vzero vzero vzero vzero.

(** t + 0.5 * h is computed in double and narrowed; t + h and 0.5 * t likewise end as float *)
Definition t_half (t h : F) : F := tof32 (add t (mul half h)).
Definition t_full (t h : F) : F := tof32 (add t h).

(** integration.hpp:126-128, also 137-139 *)
Definition rk_stages (n : nat) (cd : CDyn) (s : RK4) (x u : vec F) (t h : F) : RK4 :=
  let k1 := vstore n (cd_eval cd x u t (rk_k1 s)) in
  let k2 := vstore n (cd_eval cd (vstore n (fun i => add (x i) (mul (mul (k1 i) half) h))) u (t_half t h) (rk_k2 s)) in
  let k3 := vstore n (cd_eval cd (vstore n (fun i => add (x i) (mul (mul (k2 i) half) h))) u (t_half t h) (rk_k3 s)) in
  mkRK4 k1 k2 k3 (rk_k4 s).
(** integration.hpp:123-131 RungeKutta4::Integrate: the new integrator state and xnext *)
Definition rk4_step (n : nat) (cd : CDyn) (s : RK4) (x u : vec F) (t h : F) : RK4 * vec F :=
  let s1 := rk_stages n cd s x u t h in
  let k1 := rk_k1 s1 in let k2 := rk_k2 s1 in let k3 := rk_k3 s1 in
  let k4 := vstore n (cd_eval cd (vstore n (fun i => add (x i) (mul (k3 i) h))) u (t_full t h) (rk_k4 s)) in
  (mkRK4 k1 k2 k3 k4,
   vstore n (fun i => add (x i) (div (mul h (add (add (add (k1 i) (mul two (k2 i))) (mul two (k3 i))) (k4 i))) (ofZ 6)))).

(** the blocks jac.topLeftCorner(n, n) and jac.topRightCorner(n, m) of an n x (n+m) matrix *)
Definition blkA (n : nat) (J : mat F) : mat F := mstore n n J.
Definition blkB (n m : nat) (J : mat F) : mat F := mstore n m (fun i j => J i (n + j)).
(** integration.hpp:132-169 RungeKutta4::Jacobian.  Lines 144, 147, 150: the times handed to the continuous Jacobian are
    0.5*t, 0.5*t and t. *)
Definition rk4_jac (n m : nat) (cd : CDyn) (s : RK4) (x u : vec F) (t h : F) (jac : mat F) : RK4 * mat F :=
  let s1 := rk_stages n cd s x u t h in
  let k1 := rk_k1 s1 in let k2 := rk_k2 s1 in let k3 := rk_k3 s1 in
  let J0 := mstore n (n + m) (cd_jac cd x u t jac) in
  let J1 := mstore n (n + m) (cd_jac cd (vstore n (fun i => add (x i) (mul (mul half (k1 i)) h))) u (tof32 (mul half t)) J0) in
  let J2 := mstore n (n + m) (cd_jac cd (vstore n (fun i => add (x i) (mul (mul half (k2 i)) h))) u (tof32 (mul half t)) J1) in
  let J3 := mstore n (n + m) (cd_jac cd (vstore n (fun i => add (x i) (mul (k3 i) h))) u t J2) in
  let dA0 := mstore n n (fun i j => mul (blkA n J0 i j) h) in
  let dA1 := mstore n n (fun i j => mul (mm n (blkA n J1) (fun k l => add (mident k l) (mul half (dA0 k l))) i j) h) in
  let dA2 := mstore n n (fun i j => mul (mm n (blkA n J2) (fun k l => add (mident k l) (mul half (dA1 k l))) i j) h) in
  let dA3 := mstore n n (fun i j => mul (mm n (blkA n J3) (fun k l => add (mident k l) (dA2 k l)) i j) h) in
  let dB0 := mstore n m (fun i j => mul (blkB n m J0 i j) h) in
  let dB1 := mstore n m (fun i j => add (mul (blkB n m J1 i j) h) (mul (mm n (mscale half (blkA n J1)) dB0 i j) h)) in
  let dB2 := mstore n m (fun i j => add (mul (blkB n m J2 i j) h) (mul (mm n (mscale half (blkA n J2)) dB1 i j) h)) in
  let dB3 := mstore n m (fun i j => add (mul (blkB n m J3 i j) h) (mul (mm n (blkA n J3) dB2 i j) h)) in
  (s1,
   mstore n (n + m) (fun i j =>
     if Nat.ltb j n
     then add (mident i j) (div (add (add (add (dA0 i j) (mul two (dA1 i j))) (mul two (dA2 i j))) (dA3 i j)) (ofZ 6))
     else div (add (add (add (dB0 i (j - n)) (mul two (dB1 i (j - n)))) (mul two (dB2 i (j - n)))) (dB3 i (j - n))) (ofZ 6))).

(** discretized_model.hpp:33-44 DiscretizedModel: a discrete dynamics object.  Its integrator's buffers [s] change from call
    to call; the theorems hold for every content. *)
Definition disc_rk4 (n m : nat) (cd : CDyn) (s : RK4) : Dyn F :=
  mkDyn (fun x u t h _ => snd (rk4_step n cd s x u t h)) (fun x u t h jac => snd (rk4_jac n m cd s x u t h jac)).
Definition disc_euler (n m : nat) (cd : CDyn) : Dyn F :=
  mkDyn (fun x u t h xnext => euler_step n cd x u t h xnext) (fun x u t h jac => euler_jac n m cd x u t h jac).
(** discretized_model.hpp:46-54 Hessian: the output is left untouched; 56 HasHessian is the model's *)
Definition disc_hess (x u : vec F) (t h : F) (b : vec F) (hess : mat F) : mat F := hess.
Definition disc_has_hess (model_has_hess : bool) : bool := model_has_hess.
End Integrators.
Arguments CDyn F : clear implicits. Arguments RK4 F : clear implicits.
