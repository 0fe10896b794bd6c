(** Properties C50, C51, C55 and C58: integrators, their Jacobians, and the example dynamics. *)
From Coq Require Import Reals Lra Lia List Bool ZArith QArith.
From Coquelicot Require Import Coquelicot.
From Verif Require Import Base Lin RLin RDer ConModel ConSpec ConProofs IlqrModel DynModel DynSpec DynProofs ExampleModel ExampleProofs.
Import List ListNotations.
Local Open Scope R_scope.

Ltac rfield := match goal with |- @eq _ ?a ?b => change (@eq R a b) end; field.
(** * C50 *)
(** Exact arithmetic: ExplicitEuler::Integrate is the Euler step. *)
Theorem C50_euler : forall n m (cd : CDyn RS) f, computes n cd f -> forall x u t h xnext i, (i < n)%nat ->
  dy_eval (disc_euler n m cd) x u t h xnext i = x i + h * f x u t i.
Proof. intros n m cd f H x u t h b i Hi. apply (euler_scheme n cd f H); auto. Qed.
(** Exact arithmetic: RungeKutta4::Integrate is the classical fourth-order scheme, whatever the integrator's buffers hold. *)
Theorem C50_rk4 : forall n m (cd : CDyn RS) f, computes n cd f -> forall s x u t h xnext,
  rk4_scheme n f x u t h (dy_eval (disc_rk4 n m cd s) x u t h xnext).
Proof. intros n m cd f H s x u t h b. apply (rk4_scheme_ok n cd f H). Qed.
(** Right-hand sides that are polynomials of degree at most 3 in time: the step is the exact integral. *)
Theorem C50_rk4_quadrature : forall n m (cd : CDyn RS) f, computes n cd f -> forall s x u t h xnext i (a b c d : R) (P : R -> R), (i < n)%nat ->
  (forall z r, f z u r i = a + b * r + c * r ^ 2 + d * r ^ 3) -> (forall r, is_derive P r (a + b * r + c * r ^ 2 + d * r ^ 3)) ->
  dy_eval (disc_rk4 n m cd s) x u t h xnext i = x i + (P (t + h) - P t).
Proof.
  intros n m cd f H s x u t h b0 i a b c d P Hi Hf HP.
  pose proof (C50_rk4 n m cd f H s x u t h b0) as Hs. rewrite (rk4_cubic n f x u t h _ a b c d i Hs Hi Hf).
  rewrite (same_deriv P (fun r => a * r + b * r ^ 2 / 2 + c * r ^ 3 / 3 + d * r ^ 4 / 4) _ t (t + h) HP); [rfield|].
  intros r. auto_derive; auto. rfield.
Qed.
(** The triple integrator, control held constant: one step lands on every exact solution of the differential equation. *)
Theorem C50_triple_exact : forall dof s (X : R -> nat -> R) (u : vec RS) t h xnext,
  (forall r k, (k < 3 * dof)%nat -> is_derive (fun r => X r k) r (if Nat.ltb k (2 * dof) then X r (k + dof)%nat else u (k - 2 * dof)%nat)) ->
  forall k, (k < 3 * dof)%nat -> dy_eval (disc_rk4 (3 * dof) dof (triple dof) s) (X t) u t h xnext k = X (t + h) k.
Proof.
  intros dof s X u t h b HX k Hk. destruct (tri_split dof k Hk) as (i & Hi & Ek).
  pose proof (C50_rk4 _ dof _ _ (triple_computes dof) s (X t) u t h b) as Hs.
  destruct (triple_step dof _ _ _ _ _ Hs i Hi) as (E1 & E2 & E3).
  destruct (triple_flow dof X u t h HX i Hi) as (G1 & G2 & G3).
  destruct Ek as [->|[->| ->]]; [rewrite E1, G1|rewrite E2, G2|rewrite E3, G3]; reflexivity.
Qed.
(** such solutions exist from every initial state *)
Theorem C50_triple_solvable : forall dof (x0 u : vec RS) t, exists X : R -> nat -> R,
  (forall k, (k < 3 * dof)%nat -> X t k = x0 k) /\
  (forall r k, (k < 3 * dof)%nat -> is_derive (fun r => X r k) r (if Nat.ltb k (2 * dof) then X r (k + dof)%nat else u (k - 2 * dof)%nat)).
Proof.
  intros dof x0 u t.
  exists (fun r k => if Nat.ltb k dof then x0 k + ((r - t) * x0 (k + dof)%nat + (r - t) ^ 2 / 2 * x0 (k + 2 * dof)%nat + (r - t) ^ 3 / 6 * u k)
            else if Nat.ltb k (2 * dof) then x0 k + ((r - t) * x0 (k + dof)%nat + (r - t) ^ 2 / 2 * u (k - dof)%nat)
            else x0 k + (r - t) * u (k - 2 * dof)%nat).
  split.
  - intros k Hk. replace (t - t) with 0 by lra. destruct (Nat.ltb k dof), (Nat.ltb k (2 * dof)); rfield.
  - intros r k Hk. destruct (Nat.ltb_spec k dof), (Nat.ltb_spec k (2 * dof)); try lia.
    + replace (Nat.ltb (k + dof) dof) with false by (symmetry; apply Nat.ltb_ge; lia). replace (Nat.ltb (k + dof) (2 * dof)) with true by (symmetry; apply Nat.ltb_lt; lia).
      replace (k + dof + dof)%nat with (k + 2 * dof)%nat by lia. replace (k + dof - dof)%nat with k by lia.
      eapply d_eq; [apply d_plus; [apply d_const|apply d_cubic]|]. rfield.
    + replace (Nat.ltb (k + dof) dof) with false by (symmetry; apply Nat.ltb_ge; lia). replace (Nat.ltb (k + dof) (2 * dof)) with false by (symmetry; apply Nat.ltb_ge; lia).
      replace (k + dof - 2 * dof)%nat with (k - dof)%nat by lia.
      eapply d_eq; [apply d_plus; [apply d_const|apply d_quad]|]. rfield.
    + eapply d_eq; [apply d_plus; [apply d_const|apply d_scal_r; apply d_minus; [apply d_id|apply d_const]]|]. rfield.
Qed.
(** Linear dynamics x' = A x: the step is the degree-4 Taylor polynomial of exp(h A) applied to x; affine dynamics likewise. *)
Theorem C50_linear : forall n m (cd : CDyn RS) f, computes n cd f -> forall s x u t h xnext (A : nat -> nat -> R),
  (forall z r i, (i < n)%nat -> f z u r i = fsum n (fun j => A i j * z j)) -> forall i, (i < n)%nat ->
  let pw := fun k => Nat.iter k (fun (v : nat -> R) j => fsum n (fun l => A j l * v l)) x in
  dy_eval (disc_rk4 n m cd s) x u t h xnext i = fsum 5 (fun k => h ^ k / INR (fact k) * pw k i).
Proof.
  intros n m cd f H s x u t h b A Hf i Hi pw.
  pose proof (C50_rk4 n m cd f H s x u t h b) as Hs.
  rewrite (rk4_affine n A (fun _ => 0) f x u t h _ Hs); auto.
  2: { intros z r j Hj. rewrite Hf by auto. unfold rmv. lra. }
  rewrite fsum_rsum, !rsum_S, rsum_0.
  assert (E1 : forall j, rmv n A x j + 0 = pw 1%nat j) by (intros; unfold pw, rmv; simpl; lra).
  assert (E2 : forall j, rmv n A (fun i => rmv n A x i + 0) j = pw 2%nat j).
  { intros j. rewrite (rmv_ext n A _ (pw 1%nat)) by (intros; apply E1). reflexivity. }
  assert (E3 : forall j, rmv n A (rmv n A (fun i => rmv n A x i + 0)) j = pw 3%nat j).
  { intros j. rewrite (rmv_ext n A _ (pw 2%nat)) by (intros; apply E2). reflexivity. }
  assert (E4 : forall j, rmv n A (rmv n A (rmv n A (fun i => rmv n A x i + 0))) j = pw 4%nat j).
  { intros j. rewrite (rmv_ext n A _ (pw 3%nat)) by (intros; apply E3). reflexivity. }
  rewrite E1, E2, E3, E4. change (pw 0%nat i) with (x i). simpl fact. simpl INR. rfield.
Qed.
(** a concrete step of the 1-dof triple integrator from (1, 2, 3) with u = 6, h = 1/2 *)
Example C50_example : map (dy_eval (disc_rk4 3 1 (triple (F:=QS) 1) rk_init) (fun i => nth i [1; 2; 3]%Q 0%Q) (fun _ => 6%Q) 0%Q (1 # 2)%Q vzero) [0; 1; 2]%nat
  = [5 # 2; 17 # 4; 6]%Q /\ computes 3 (triple 1) (tri_field 1).
Proof. split; [vm_compute; reflexivity|apply (triple_computes 1)]. Qed.

(** * C51 *)
(** ExplicitEuler::Jacobian is the derivative of the step, also for time-varying dynamics. *)
Theorem C51_euler : forall n m (cd : CDyn RS) f J W, computes n cd f -> jac_true n m cd f J W -> forall t h xnext (buf : vec RS -> vec RS -> mat RS),
  (forall x u, zeroed n m W (buf x u)) ->
  is_jacobian n m (fun x u => dy_eval (disc_euler n m cd) x u t h (xnext x u)) (fun x u => dy_jac (disc_euler n m cd) x u t h (buf x u)).
Proof. intros n m cd f J W H HJ t h b buf Hz. apply (euler_jac_true n m cd f J W H HJ t h buf Hz). Qed.
(** RungeKutta4::Jacobian is the derivative of the step when the continuous Jacobian does not depend on time. *)
Theorem C51_rk4_partial : forall n m (cd : CDyn RS) f J W, computes n cd f -> jac_true n m cd f J W ->
  (forall x u t t' i j, J x u t i j = J x u t' i j) -> forall s t h xnext (buf : vec RS -> vec RS -> mat RS),
  (forall x u, zeroed n m W (buf x u)) ->
  is_jacobian n m (fun x u => dy_eval (disc_rk4 n m cd s) x u t h (xnext x u)) (fun x u => dy_jac (disc_rk4 n m cd s) x u t h (buf x u)).
Proof. intros n m cd f J W H HJ Hti s t h b buf Hz. apply (rk4_jac_true n m cd f J W H HJ Hti s t h buf Hz). Qed.
(** The solver stores the derivative: CalcDynamicsExpansion zeroes the storage before calling the model. *)
Theorem C51_expansion : forall n m (dyn : Dyn RS) W t h xnext (ops_state : Type) (k : KPF RS ops_state), kp_dyn k = dyn ->
  (forall buf, (forall x u, zeroed n m W (buf x u)) ->
     is_jacobian n m (fun x u => dy_eval dyn x u t h (xnext x u)) (fun x u => dy_jac dyn x u t h (buf x u))) ->
  is_jacobian n m (fun x u => dy_eval dyn x u t h (xnext x u))
    (fun x u i j => if Nat.ltb j n then kpf_A (kpf_dyn_expansion n m x u t h k) i j else kpf_B n (kpf_dyn_expansion n m x u t h k) i (j - n)%nat).
Proof.
  intros n m dyn W t h b CS k <- H X U v w HX HU i Hi.
  eapply d_eq; [apply (H (fun _ _ => mzero)); [intros x u a c _ _ _; reflexivity|exact HX|exact HU|exact Hi]|].
  rewrite !fsum_rsum. f_equal; apply rsum_ext; intros j Hj.
  - replace (Nat.ltb j n) with true by (symmetry; apply Nat.ltb_lt; lia). unfold kpf_A, kpf_dyn_expansion. cbn [kp_jac]. rewrite mstore_lt by lia. reflexivity.
  - replace (Nat.ltb (n + j) n) with false by (symmetry; apply Nat.ltb_ge; lia). unfold kpf_B, kpf_dyn_expansion. cbn [kp_jac].
    rewrite mstore_lt by lia. replace (n + (n + j - n))%nat with (n + j)%nat by lia. reflexivity.
Qed.
(** Finding: for time-varying dynamics RungeKutta4::Jacobian evaluates the continuous Jacobian at the times t/2, t/2 and t
    instead of t + h/2, t + h/2 and t + h.  Witness: x' = t x at t = 0, h = 1. *)
Definition tv : CDyn RS := mkCDyn (F:=RS) (fun x u t b => fun i => t * x i) (fun x u t b => fun i j => if Nat.eqb i j then t else 0).
Theorem C51_time_varying_refuted : exists n m (cd : CDyn RS) f J W s t h, computes n cd f /\ jac_true n m cd f J W /\
  ~ is_jacobian n m (fun x u => dy_eval (disc_rk4 n m cd s) x u t h vzero) (fun x u => dy_jac (disc_rk4 n m cd s) x u t h mzero).
Proof.
  exists 1%nat, 0%nat, tv, (fun x u t i => t * x i), (fun x u t i j => if Nat.eqb i j then t else 0), (fun _ _ => true), (rk_init (F:=RS)), 0, 1.
  split; [split; [reflexivity|]; intros x y u t H i Hi; rewrite H; auto|].
  split.
  { split; [reflexivity|discriminate|reflexivity|]. intros X U v w t HX HU i Hi. destruct i; [|lia].
    rewrite !fsum_rsum, !rsum_S, !rsum_0. cbn [Nat.eqb]. eapply d_eq; [apply d_scal; apply HX|]. lra. }
  intros H. specialize (H (fun s _ => s) (fun _ _ => 0) (fun _ => 1) (fun _ => 0)).
  assert (H1 : is_derive (fun s : R => s * (1 + (1 + 5 / 4 + 13 / 8) / 6)) 0 1).
  { eapply d_eq; [apply (fun E => d_ext _ (fun s : R => s * (1 + (1 + 5 / 4 + 13 / 8) / 6)) _ 0 E (H (fun i => d_id 0) (fun i => d_const 0 0) 0%nat ltac:(lia)))|].
    - intros s. destruct (rk4_scheme_ok 1 tv (fun x u t i => t * x i) ltac:(split; [reflexivity|intros x y u t E i Hi; rewrite E; auto]) (rk_init (F:=RS)) (fun _ => s) (fun _ => 0) 0 1)
        as (k1 & k2 & k3 & k4 & E1 & E2 & E3 & E4 & E5).
      unfold disc_rk4. cbn [dy_eval]. rewrite E5, E1, E2, E3, E4 by lia. rewrite E3 by lia. rewrite E2 by lia. rewrite E1 by lia. rfield.
    - rewrite !fsum_rsum, !rsum_S, !rsum_0. unfold disc_rk4. cbn [dy_jac]. unfold rk4_jac. cbn [snd]. rewrite mstore_lt by lia. cbn [Nat.ltb Nat.leb].
      unfold mident. cbn [Nat.eqb]. repeat rewrite mstore_lt by lia. unfold mm, blkA. rewrite !rdot_eq, !rsum_S, !rsum_0. repeat rewrite mstore_lt by lia.
      cbn [tv cd_jac Nat.eqb]. rs. rewrite half_RS. rfield. }
  pose proof (is_derive_unique _ _ _ H1) as E1.
  assert (H2 : is_derive (fun s : R => s * (1 + (1 + 5 / 4 + 13 / 8) / 6)) 0 (1 * (1 + (1 + 5 / 4 + 13 / 8) / 6))) by (apply d_scal_r; apply d_id).
  pose proof (is_derive_unique _ _ _ H2) as E2. rewrite E1 in E2. lra.
Qed.
(** non-trivial instances: the unicycle and the triple integrator, with their real buffers *)
Example C51_example : forall s t h,
  is_jacobian 3 2 (fun x u => dy_eval (disc_rk4 3 2 ru s) x u t h vzero) (fun x u => dy_jac (disc_rk4 3 2 ru s) x u t h mzero) /\
  is_jacobian 6 2 (fun x u => dy_eval (disc_rk4 6 2 (triple 2) s) x u t h vzero) (fun x u => dy_jac (disc_rk4 6 2 (triple 2) s) x u t h mzero).
Proof.
  intros s t h. split.
  - apply (C51_rk4_partial 3 2 ru uni_field uni_J uni_W unicycle_computes unicycle_jac_true uni_J_ti). intros x u i j _ _ _. reflexivity.
  - apply (C51_rk4_partial 6 2 (triple 2) (tri_field 2) (tri_J 2) (fun _ _ => true) (triple_computes 2) (triple_jac_true 2) (triple_J_ti 2)). intros x u i j _ _ _. reflexivity.
Qed.

(** * C55 *)
(** Unicycle::Jacobian written into zeroed storage is the derivative of Unicycle::Evaluate. *)
Theorem C55_unicycle_jacobian : forall t buf xdot, (forall x u i j, (i < 3)%nat -> (j < 5)%nat -> buf x u i j = 0) ->
  (forall x u k, (k < 3)%nat -> cd_eval ru x u t (xdot x u) k = nth k [u 0%nat * cos (x 2%nat); u 0%nat * sin (x 2%nat); u 1%nat] 0) /\
  is_jacobian 3 2 (fun x u => cd_eval ru x u t (xdot x u)) (fun x u => cd_jac ru x u t (buf x u)).
Proof.
  intros t buf xdot Hb. split; [intros x u k Hk; destruct k as [|[|[|k]]]; try lia; reflexivity|].
  intros X U v w HX HU i Hi.
  apply (d_ext (fun s => uni_field (X s) (U s) t i)); [intros s; symmetry; apply (cp_eval _ _ _ unicycle_computes); auto|].
  eapply d_eq; [apply (jt_deriv _ _ _ _ _ _ unicycle_jac_true _ _ _ _ t HX HU i Hi)|].
  assert (E : forall j, (j < 5)%nat -> uni_J (X 0) (U 0) t i j = cd_jac ru (X 0) (U 0) t (buf (X 0) (U 0)) i j).
  { intros j Hj. rewrite (jt_jac _ _ _ _ _ _ unicycle_jac_true) by auto. destruct (uni_W i j) eqn:Ew; auto.
    rewrite Hb by auto. apply (jt_mask _ _ _ _ _ _ unicycle_jac_true); auto. }
  rewrite !fsum_rsum. f_equal; apply rsum_ext; intros j Hj; rewrite E by lia; reflexivity.
Qed.
(** Unicycle::Hessian written into zeroed storage is the derivative of J(x,u)' b, for every b. *)
Theorem C55_unicycle_hessian : forall t b jbuf hbuf X U v w, (forall i j, (i < 3)%nat -> (j < 5)%nat -> jbuf i j = 0) -> (forall i j, (i < 5)%nat -> (j < 5)%nat -> hbuf i j = 0) ->
  curve X v -> curve U w -> forall i, (i < 5)%nat ->
  is_derive (fun s => fsum 3 (fun r => cd_jac ru (X s) (U s) t jbuf r i * b r)) 0
    (fsum 3 (fun j => uni_hess (F:=RS) cos sin (X 0) (U 0) t b hbuf i j * v j)
     + fsum 2 (fun j => uni_hess (F:=RS) cos sin (X 0) (U 0) t b hbuf i (3 + j)%nat * w j)).
Proof.
  intros t b jbuf hbuf X U v w Hj Hh HX HU i Hi.
  apply (d_ext (fun s => fsum 3 (fun r => uni_J (X s) (U s) t r i * b r))); [|apply unicycle_hess_true; auto].
  intros s. rewrite !fsum_rsum. apply rsum_ext. intros r Hr. f_equal. rewrite (jt_jac _ _ _ _ _ _ unicycle_jac_true) by auto. destruct (uni_W r i) eqn:Ew; auto.
  rewrite Hj by auto. apply (jt_mask _ _ _ _ _ _ unicycle_jac_true); auto.
Qed.
(** TripleIntegrator: Evaluate is the chain of integrators, Jacobian its derivative (whatever the storage held), Hessian zero. *)
Theorem C55_triple : forall dof t buf xdot,
  (forall x u k, (k < dof)%nat -> let xd := cd_eval (triple (F:=RS) dof) x u t (xdot x u) in
     xd k = x (k + dof)%nat /\ xd (k + dof)%nat = x (k + 2 * dof)%nat /\ xd (k + 2 * dof)%nat = u k) /\
  is_jacobian (3 * dof) dof (fun x u => cd_eval (triple dof) x u t (xdot x u)) (fun x u => cd_jac (triple dof) x u t (buf x u)) /\
  (forall X U v w b hbuf, curve X v -> curve U w -> forall i,
     is_derive (fun s => fsum (3 * dof) (fun r => cd_jac (triple dof) (X s) (U s) t (buf (X s) (U s)) r i * b r)) 0
       (fsum (3 * dof) (fun j => tri_hess (F:=RS) (X 0) (U 0) t b hbuf i j * v j) + fsum dof (fun j => tri_hess (F:=RS) (X 0) (U 0) t b hbuf i (3 * dof + j)%nat * w j))).
Proof.
  intros dof t buf xdot. split; [|split].
  - intros x u k Hk xd. subst xd. rewrite !triple_eval by lia.
    replace (Nat.ltb k (2 * dof)) with true by (symmetry; apply Nat.ltb_lt; lia). replace (Nat.ltb (k + dof) (2 * dof)) with true by (symmetry; apply Nat.ltb_lt; lia).
    replace (Nat.ltb (k + 2 * dof) (2 * dof)) with false by (symmetry; apply Nat.ltb_ge; lia). repeat split; f_equal; lia.
  - intros X U v w HX HU i Hi.
    apply (d_ext (fun s => tri_field dof (X s) (U s) t i)); [intros s; symmetry; apply (cp_eval _ _ _ (triple_computes dof)); auto|].
    eapply d_eq; [apply (jt_deriv _ _ _ _ _ _ (triple_jac_true dof) _ _ _ _ t HX HU i Hi)|].
    rewrite !fsum_rsum. f_equal; apply rsum_ext; intros j Hj; rewrite (jt_jac _ _ _ _ _ _ (triple_jac_true dof)) by lia; reflexivity.
  - intros X U v w b hbuf HX HU i.
    apply (d_ext (fun s => fsum (3 * dof) (fun r => (if Nat.eqb i (r + dof) then 1 else 0) * b r))).
    { intros s. rewrite !fsum_rsum. apply rsum_ext. intros r Hr. rewrite triple_jac by auto. reflexivity. }
    eapply d_eq; [apply d_const|]. rewrite !fsum_rsum, !rsum_zero'; [lra|intros j Hj; unfold tri_hess, mzero; rs; lra..].
Qed.
Example C55_example : map (fun k => cd_eval (triple (F:=QS) 2) (fun i => inject_Z (Z.of_nat i)) (fun i => inject_Z (Z.of_nat (10 + i))) 0%Q vzero k) (seq 0 6) = [2; 3; 4; 5; 10; 11]%Q.
Proof. vm_compute. reflexivity. Qed.

(** * C58 *)
(** Finding: DiscretizedModel::HasHessian forwards the continuous model's answer, but DiscretizedModel::Hessian leaves its
    output untouched.  Witness: the Euler-discretised unicycle. *)
Theorem C58_discretised_hessian_refuted : exists (t h : R) (b : vec RS) (X U : R -> nat -> R) v w i, curve X v /\ curve U w /\ (i < 5)%nat /\
  disc_has_hess true = true /\
  ~ is_derive (fun s => fsum 3 (fun r => dy_jac (disc_euler 3 2 ru) (X s) (U s) t h mzero r i * b r)) 0
      (fsum 3 (fun j => disc_hess (F:=RS) (X 0) (U 0) t h b mzero i j * v j) + fsum 2 (fun j => disc_hess (F:=RS) (X 0) (U 0) t h b mzero i (3 + j)%nat * w j)).
Proof.
  exists 0, 1, (fun i => if Nat.eqb i 1 then 1 else 0), (fun s i => if Nat.eqb i 2 then s else 0), (fun _ _ => 0), (fun i => if Nat.eqb i 2 then 1 else 0), (fun _ => 0), 3%nat.
  split; [intros i; destruct (Nat.eqb i 2); [apply d_id|apply d_const]|]. split; [intros i; apply d_const|]. split; [lia|]. split; [reflexivity|].
  intros H.
  assert (H1 : is_derive (fun s => sin s) 0 0).
  { eapply d_eq; [apply (fun E => d_ext _ (fun s => sin s) _ 0 E H)|].
    - intros s. rewrite fsum_rsum, !rsum_S, rsum_0. unfold disc_euler. cbn [dy_jac]. unfold euler_jac. repeat rewrite mstore_lt by lia. unfold mident. cbn [Nat.eqb].
      unfold ru, unicycle. cbn [cd_jac]. unfold mset. cbn [Nat.eqb andb]. rs. ring.
    - rewrite !fsum_rsum, !rsum_S, !rsum_0. unfold disc_hess, mzero. rs. lra. }
  assert (E1 : Derive sin 0 = 0) by exact (is_derive_unique _ _ _ H1). pose proof (is_derive_unique _ _ _ (is_derive_sin 0)) as E2. rewrite E1 in E2. rewrite cos_0 in E2. lra.
Qed.

Print Assumptions C50_rk4.
Print Assumptions C50_triple_exact.
Print Assumptions C51_rk4_partial.
Print Assumptions C51_time_varying_refuted.
Print Assumptions C55_unicycle_hessian.
