(** Property C75: what the derivative checks establish for arbitrary differentiable constraints and costs. *)
From Coq Require Import Reals Lra Lia List Bool ZArith Psatz.
From Coquelicot Require Import Coquelicot.
From Verif Require Import Base Lin RLin RDer ConModel ConSpec ConProofs IlqrModel ExampleModel UtilModel UtilProofs UtilProofs2 FdSpec FdProofs.
Import List ListNotations.
Local Open Scope R_scope.

(** * C75 *)
(** FiniteDiffJacobian of a function with partial derivatives: every entry is the partial derivative at a point between the two
    points of the quotient. *)
Theorem C75_jacobian n m (f : vec RS -> vec RS) (D : nat -> nat -> (nat -> R) -> R) x eps central : n <> 0%nat -> 0 < eps ->
  (forall a, (a < m)%nat -> local n (fun z => f z a) /\ partials n (fun z => f z a) (D a)) ->
  exists J, fd_jac (F:=RS) n m f x eps central = Ok J /\
    forall a b, (a < m)%nat -> (b < n)%nat -> exists t, (if central then - eps else 0) <= t <= eps /\ J a b = D a b (along x b t).
Proof. exact (fd_jac_mvt n m f D x eps central). Qed.
(** FiniteDiffHessian with central differences: every entry is the second partial derivative at a point within eps in each of
    the two directions. *)
Theorem C75_hessian n (f : vec RS -> R) G H x eps : n <> 0%nat -> 0 < eps -> local n f -> partials n f G -> second n G H ->
  exists A, fd_hess (F:=RS) n f x eps true = Ok A /\
    forall a b, (a < n)%nat -> (b < n)%nat -> exists s t, - eps <= s <= eps /\ - eps <= t <= eps /\ A a b = H a b (along (along x b s) a t).
Proof. exact (fd_hess_mvt n f G H x eps). Qed.
(** CheckJacobian: it always answers.  True means that every supplied entry is within eps of the true partial derivative at a point
    at most 1e-6 further along its own coordinate; it is true whenever the supplied entries are, there, close enough. *)
Theorem C75_check_jacobian n m con junk D x u eps : (n + m <> 0)%nat -> con_has n m con junk D ->
  exists b, check_jacobian (F:=RS) n m con junk x u eps = Ok b /\
    (b = true -> forall i j, (i < con_dim con)%nat -> (j < n + m)%nat -> exists t, 0 <= t <= / 1000000 /\ Rabs (D i j (along (both n x u) j t) - con_jac con x u mzero i j) < eps) /\
    (forall d, 0 <= d -> d * sqrt (INR (con_dim con) * INR (n + m)) < eps ->
       (forall i j t, (i < con_dim con)%nat -> (j < n + m)%nat -> 0 <= t <= / 1000000 -> Rabs (D i j (along (both n x u) j t) - con_jac con x u mzero i j) <= d) -> b = true).
Proof. exact (check_jacobian_mvt n m con junk D x u eps). Qed.
(** CheckGradient, likewise. *)
Theorem C75_check_gradient n m c G x u eps : (n + m <> 0)%nat -> cost_has n m c G ->
  exists b, check_gradient (F:=RS) n m c x u eps = Ok b /\
    (b = true -> forall j, (j < n + m)%nat -> exists t, 0 <= t <= / 1000000 /\ Rabs (G j (along (both n x u) j t) - joint_grad n m c x u vzero j) < eps) /\
    (forall d, 0 <= d -> d * sqrt (INR (n + m)) < eps ->
       (forall j t, (j < n + m)%nat -> 0 <= t <= / 1000000 -> Rabs (G j (along (both n x u) j t) - joint_grad n m c x u vzero j) <= d) -> b = true).
Proof. exact (check_gradient_mvt n m c G x u eps). Qed.
(** CheckHessian: the entries of the three blocks it is given; in the bottom-left block it compares the true mixed derivative
    with zero. *)
Theorem C75_check_hessian n m c G H x u eps : (n + m <> 0)%nat -> cost_has n m c G -> second (n + m) G H ->
  exists b, check_hessian (F:=RS) n m c x u eps = Ok b /\
    (b = true -> forall i j, (i < n + m)%nat -> (j < n + m)%nat -> exists s t, Rabs s <= / 10000 /\ Rabs t <= / 10000 /\
       Rabs (H i j (along (along (both n x u) j s) i t) - (if Nat.leb n i && Nat.ltb j n then 0 else joint_hess n m c x u mzero i j)) < eps) /\
    (forall d, 0 <= d -> d * INR (n + m) < eps ->
       (forall i j s t, (i < n + m)%nat -> (j < n + m)%nat -> Rabs s <= / 10000 -> Rabs t <= / 10000 ->
          Rabs (H i j (along (along (both n x u) j s) i t) - (if Nat.leb n i && Nat.ltb j n then 0 else joint_hess n m c x u mzero i j)) <= d) -> b = true).
Proof. exact (check_hessian_mvt n m c G H x u eps). Qed.
(** FINDING.  So CheckHessian rejects every cost, whatever Hessian blocks it supplies, one of whose mixed control-state derivatives
    is at least eps around the point. *)
Theorem C75_mixed_rejected n m c G H x u eps i j : cost_has n m c G -> second (n + m) G H -> (n <= i < n + m)%nat -> (j < n)%nat ->
  (forall s t, Rabs s <= / 10000 -> Rabs t <= / 10000 -> eps <= Rabs (H i j (along (along (both n x u) j s) i t))) ->
  check_hessian (F:=RS) n m c x u eps = Ok false.
Proof.
  intros Hc HS Hi Hj Hbig. destruct (C75_check_hessian n m c G H x u eps ltac:(lia) Hc HS) as (b & E & V & _). rewrite E. destruct b; [exfalso|reflexivity].
  destruct (V eq_refl i j ltac:(lia) ltac:(lia)) as (s & t & Hs & Ht & X). specialize (Hbig s t Hs Ht).
  replace (Nat.leb n i && Nat.ltb j n) with true in X by (symmetry; apply andb_true_iff; split; [apply Nat.leb_le|apply Nat.ltb_lt]; lia). rewrite Rminus_0_r in X. lra.
Qed.

(** x0^2 + u0 with its Jacobian [2 x0, 1] *)
Definition ex_con : Con RS := mkCon (F:=RS) 1 (fun x u _ _ => x 0%nat * x 0%nat + u 0%nat) (fun x u _ _ j => if Nat.eqb j 0 then 2 * x 0%nat else 1) String.EmptyString.
Definition ex_D (i j : nat) (z : nat -> R) : R := if Nat.eqb j 0 then 2 * z 0%nat else 1.
Lemma ex_con_has junk : con_has 1 1 ex_con junk ex_D.
Proof.
  constructor.
  - intros x x' u u' i _ Hx Hu. cbn. rewrite Hx, Hu by lia. reflexivity.
  - intros i _ b z Hb. cbn. unfold control, ex_D. destruct b as [|[|b]]; [| |lia]; cbn; unfold along; cbn; auto_derive; auto; ring.
Qed.
Example C75_example_accepts junk x u : check_jacobian (F:=RS) 1 1 ex_con junk x u (/ 100000) = Ok true.
Proof.
  destruct (C75_check_jacobian 1 1 ex_con junk ex_D x u (/ 100000) ltac:(lia) (ex_con_has junk)) as (b & E & _ & A). rewrite E. f_equal.
  apply (A (2 / 1000000)); [lra| |].
  - cbn [ex_con con_dim Nat.add]. change (INR 1) with 1. replace (INR 2) with 2 by (cbn; lra). rewrite Rmult_1_l.
    pose proof sqrt_pos 2. pose proof (sqrt_sqrt 2 ltac:(lra)). assert (sqrt 2 < 2) by nra. lra.
  - intros i j t _ Hj Ht. unfold ex_D. cbn. destruct j as [|[|j]]; [| |lia]; cbn; unfold along, both; cbn.
    + replace (2 * (x 0%nat + t) - 2 * x 0%nat) with (2 * t) by ring. rewrite Rabs_right by lra. lra.
    + rewrite Rminus_eq_0, Rabs_R0. lra.
Qed.
(** x0^2 u0 with its exact derivatives *)
Definition ex_cost : UCost RS := mkUCost (F:=RS) (fun x u => x 0%nat * x 0%nat * u 0%nat)
  (fun x u _ => (fun _ => 2 * x 0%nat * u 0%nat, fun _ => x 0%nat * x 0%nat)) (fun x u _ => (fun _ _ => 2 * u 0%nat, fun _ _ => 2 * x 0%nat, fun _ _ => 0)).
Definition ex_G (j : nat) (z : nat -> R) : R := if Nat.eqb j 0 then 2 * z 0%nat * z 1%nat else z 0%nat * z 0%nat.
Definition ex_H (i j : nat) (z : nat -> R) : R := match i, j with O, O => 2 * z 1%nat | O, _ => 2 * z 0%nat | _, O => 2 * z 0%nat | _, _ => 0 end.
Lemma ex_cost_has : cost_has 1 1 ex_cost ex_G.
Proof.
  constructor.
  - intros x x' u u' Hx Hu. cbn. rewrite Hx, Hu by lia. reflexivity.
  - intros b z Hb. cbn. unfold control, ex_G. destruct b as [|[|b]]; [| |lia]; cbn; unfold along; cbn; auto_derive; auto; ring.
Qed.
Lemma ex_second : second 2 ex_G ex_H.
Proof.
  intros b Hb. split.
  - intros z z' Hz. unfold ex_G. rewrite !Hz by lia. reflexivity.
  - intros a z Ha. destruct a as [|[|a]]; [| |lia]; (destruct b as [|[|b]]; [| |lia]); unfold ex_G, ex_H, along; cbn; auto_derive; auto; ring.
Qed.
(** FINDING.  Every derivative this cost supplies is exact, and CheckHessian rejects it at (1, 0), at any tolerance up to 1. *)
Theorem C75_hessian_check_refuted : exists n m (c : UCost RS) G H x u, cost_has n m c G /\ second (n + m) G H /\
  (forall i j, (i < n)%nat -> (j < n + m)%nat -> joint_hess n m c x u mzero i j = H i j (both n x u)) /\
  (forall i j, (n <= i < n + m)%nat -> (n <= j < n + m)%nat -> joint_hess n m c x u mzero i j = H i j (both n x u)) /\
  forall eps, eps <= 1 -> check_hessian (F:=RS) n m c x u eps = Ok false.
Proof.
  exists 1%nat, 1%nat, ex_cost, ex_G, ex_H, (fun _ => 1), (fun _ => 0). split; [exact ex_cost_has|]. split; [exact ex_second|]. split; [|split].
  - intros i j Hi Hj. destruct i as [|i]; [|lia]. destruct j as [|[|j]]; [| |lia]; reflexivity.
  - intros i j Hi Hj. destruct i as [|[|i]]; [lia| |lia]. destruct j as [|[|j]]; [lia| |lia]. reflexivity.
  - intros eps He. apply (C75_mixed_rejected 1 1 ex_cost ex_G ex_H _ _ eps 1 0 ex_cost_has ex_second ltac:(lia) ltac:(lia)).
    intros s t Hs Ht. cbn. unfold along, both. cbn. apply Rabs_le_between in Hs. rewrite Rabs_right; lra.
Qed.

Print Assumptions C75_jacobian.
Print Assumptions C75_hessian.
Print Assumptions C75_check_jacobian.
Print Assumptions C75_check_gradient.
Print Assumptions C75_check_hessian.
Print Assumptions C75_mixed_rejected.
Print Assumptions C75_hessian_check_refuted.
