(** Properties C56 and C57: the derivative checker and the benchmark statistics. *)
From Coq Require Import Reals Lra Lia List Bool ZArith QArith Permutation.
From Verif Require Import Base Lin RLin ConModel ConSpec ConProofs IlqrModel ExampleModel ExampleSpec ExampleProofs3 UtilModel UtilSpec UtilProofs UtilProofs2.
Import List ListNotations.
Local Open Scope R_scope.

(** * C56 finite differences *)
(** In every arithmetic, for every function and step: column b is the difference quotient of two points that differ from x
    in coordinate b only (x + eps e_b against x, or against x - eps e_b). *)
Theorem C56_columns (F : Scalar) n m (f : vec F -> vec F) x eps central : n <> 0%nat ->
  exists J, fd_jac n m f x eps central = Ok J /\
    forall a b, (a < m)%nat -> (b < n)%nat -> exists zp zm,
      (forall k, (k < n)%nat -> zp k = add (x k) (if Nat.eqb k b then eps else zero)) /\
      (forall k, (k < n)%nat -> zm k = if central then sub (x k) (if Nat.eqb k b then eps else zero) else x k) /\
      J a b = div (sub (f zp a) (f zm a)) (if central then mul two eps else eps).
Proof.
  intros Hn. destruct (fd_jac_spec n m f x eps central Hn) as (J & E & V). exists J. split; [exact E|]. intros a b Ha Hb.
  exists (moved n add x b eps), (if central then moved n sub x b eps else vstore n x). repeat split.
  - intros k Hk. unfold moved. rewrite vstore_lt by auto. reflexivity.
  - intros k Hk. destruct central; [unfold moved|]; rewrite vstore_lt by auto; reflexivity.
  - apply V; auto.
Qed.
(** A function of no variables makes the code write outside its perturbation vector. *)
Theorem C56_no_variables (F : Scalar) m (f : vec F -> vec F) (g : vec F -> F) x eps central :
  fd_jac 0 m f x eps central = UB /\ fd_grad 0 g x eps central = UB /\ fd_hess 0 g x eps central = UB.
Proof. repeat split. Qed.
(** Forward and central differences of an affine map give its matrix, for every non-zero step. *)
Theorem C56_affine n m c A (f : vec RS -> vec RS) x eps central : n <> 0%nat -> eps <> 0 -> affine_fun n m c A f ->
  exists J, fd_jac (F:=RS) n m f x eps central = Ok J /\ forall a b, (a < m)%nat -> (b < n)%nat -> J a b = A a b.
Proof.
  intros Hn He Hf. destruct (fd_jac_spec (F:=RS) n m f x eps central Hn) as (J & E & V). exists J. split; [exact E|]. intros a b Ha Hb. rewrite V by auto.
  assert (Q : quad_fun n (c a) (A a) (fun _ _ => 0) (fun z => f z a)).
  { intros z. rewrite (Hf z a Ha). rewrite qform_qf. replace (qf n n (fun _ _ => 0) z z) with 0; [lra|]. symmetry. unfold qf. apply rsum_zero'. intros k Hk. rewrite rsum_zero'; [lra|]. intros; lra. }
  destruct central.
  - pose proof (quad_central n _ _ _ _ x b eps Q Hb He) as K. rewrite slope_affine in K. rewrite DynProofs.two_RS. exact K.
  - pose proof (quad_forward n _ _ _ _ x b eps Q Hb He) as K. rewrite slope_affine in K. rs. rewrite K. lra.
Qed.
(** Central differences of a quadratic give its exact gradient; forward differences are off by exactly eps times the
    diagonal of the quadratic form. *)
Theorem C56_quadratic n c l A (f : vec RS -> R) x eps central : n <> 0%nat -> eps <> 0 -> quad_fun n c l A f ->
  exists g, fd_grad (F:=RS) n f x eps central = Ok g /\
    forall b, (b < n)%nat -> g b = quad_partial n l A x b + (if central then 0 else eps * A b b).
Proof.
  intros Hn He Hf. destruct (fd_grad_spec (F:=RS) n f x eps central Hn) as (g & E & V). exists g. split; [exact E|]. intros b Hb. rewrite V by auto. unfold quad_partial. rewrite fsum_rsum.
  destruct central.
  - pose proof (quad_central n _ _ _ _ x b eps Hf Hb He) as K. rewrite DynProofs.two_RS. rs. rewrite K. unfold quad_slope. lra.
  - pose proof (quad_forward n _ _ _ _ x b eps Hf Hb He) as K. rs. rewrite K. unfold quad_slope. lra.
Qed.
(** The difference-of-differences Hessian of a quadratic is its exact Hessian A + A', for both schemes. *)
Theorem C56_hessian n c l A (f : vec RS -> R) x eps central : n <> 0%nat -> eps <> 0 -> quad_fun n c l A f ->
  exists H, fd_hess (F:=RS) n f x eps central = Ok H /\ forall a b, (a < n)%nat -> (b < n)%nat -> H a b = A a b + A b a.
Proof. intros Hn He Hf. exact (fd_hess_quad n c l A f x eps central Hn Hf He). Qed.
(** CheckJacobian of an affine constraint accepts exactly when the supplied Jacobian is closer to the true matrix than eps in
    Frobenius norm, whatever the point and whatever is in the uninitialised output vector. *)
Theorem C56_check_jacobian n m con c A junk x u eps : (n + m <> 0)%nat -> affine_con n m con c A ->
  exists b, check_jacobian (F:=RS) n m con junk x u eps = Ok b /\
    (b = true <-> sqrt (fsum (con_dim con) (fun i => fsum (n + m) (fun j => (A i j - con_jac con x u mzero i j) ^ 2))) < eps).
Proof.
  intros Hn H. destruct (check_jacobian_affine n m con c A junk x u eps H Hn) as (b & E & V). exists b. split; [exact E|]. rewrite V, fsum_rsum.
  rewrite (rsum_ext _ (fun i => fsum (n + m) _) (fun i => rsum (n + m) (fun j => (A i j - con_jac con x u mzero i j) ^ 2))) by (intros i Hi; apply fsum_rsum). reflexivity.
Qed.
(** FINDING.  CheckGradient uses forward differences with step 1e-6, so on a quadratic cost with the exact gradient it
    measures 1e-6 times half the diagonal of the weights: it rejects correct gradients of stiff enough costs. *)
Theorem C56_check_gradient (s : QC RS) x u eps : (qc_n s + qc_m s <> 0)%nat -> symmetric (qc_n s) (qc_Q s) -> symmetric (qc_m s) (qc_R s) ->
  exists b, check_gradient (F:=RS) (qc_n s) (qc_m s) (qc_ucost s) x u eps = Ok b /\
    (b = true <-> sqrt (fsum (qc_n s) (fun i => (/ 2 * qc_Q s i i) ^ 2) + fsum (qc_m s) (fun i => (/ 2 * qc_R s i i) ^ 2)) / 1000000 < eps).
Proof. intros Hn HQ HR. rewrite !fsum_rsum. exact (check_gradient_quad s x u eps Hn HQ HR). Qed.
(** FINDING.  CheckHessian of a quadratic cost, whose Hessian blocks are right, accepts exactly when the cross weight H is
    smaller than eps: the bottom-left block is never written (see C54_joint_hessian_refuted). *)
Theorem C56_check_hessian (s : QC RS) x u eps : (qc_n s + qc_m s <> 0)%nat -> symmetric (qc_n s) (qc_Q s) -> symmetric (qc_m s) (qc_R s) ->
  exists b, check_hessian (F:=RS) (qc_n s) (qc_m s) (qc_ucost s) x u eps = Ok b /\
    (b = true <-> sqrt (fsum (qc_m s) (fun i => fsum (qc_n s) (fun j => (qc_H s j i) ^ 2))) < eps).
Proof.
  intros Hn HQ HR. destruct (check_hessian_quad s x u eps Hn HQ HR) as (b & E & V). exists b. split; [exact E|]. rewrite V, fsum_rsum.
  rewrite (rsum_ext _ (fun i => fsum (qc_n s) _) (fun i => rsum (qc_n s) (fun j => (qc_H s j i) ^ 2))) by (intros i Hi; apply fsum_rsum). reflexivity.
Qed.
Definition ex_quad (z : vec QS) : QS := add (add ((3 # 1)%Q : QS) (mul (z 0%nat) (z 1%nat))) (mul ((5 # 1)%Q : QS) (mul (z 1%nat) (z 1%nat))).
Example C56_example : exists J g H,
  fd_jac (F:=QS) 2 2 (fun z i => if Nat.eqb i 0 then ex_quad z else z 0%nat) (fun i => (Z.of_nat (S i) # 1)%Q) ((1 # 10)%Q) false = Ok J /\
  fd_grad (F:=QS) 2 ex_quad (fun i => (Z.of_nat (S i) # 1)%Q) ((1 # 10)%Q) true = Ok g /\
  fd_hess (F:=QS) 2 ex_quad (fun i => (Z.of_nat (S i) # 1)%Q) ((1 # 10)%Q) true = Ok H /\
  J 0%nat 1%nat = (43 # 2)%Q /\ J 1%nat 0%nat = (1 # 1)%Q /\ g 0%nat = (2 # 1)%Q /\ g 1%nat = (21 # 1)%Q /\ H 0%nat 1%nat = (1 # 1)%Q /\ H 1%nat 1%nat = (10 # 1)%Q.
Proof. do 3 eexists. split; [reflexivity|]. split; [reflexivity|]. split; [reflexivity|]. vm_compute. repeat split. Qed.

(** * C57 BenchmarkResults::Calculate *)
Theorem C57_statistics (l : list R) : l <> [] -> exists b, bench_calculate (F:=RS) l = Ok b /\
  least l (bn_min b) /\ greatest l (bn_max b) /\ is_median l (bn_median b) /\ average l (bn_mean b) /\ is_std l (bn_mean b) (bn_std b) /\
  bn_samples b = Z.of_nat (length l).
Proof. exact (bench_ok l). Qed.
Theorem C57_order (l l' : list R) : Permutation l l' -> bench_calculate (F:=RS) l = bench_calculate (F:=RS) l'.
Proof. exact (bench_perm l l'). Qed.
(** FINDING.  Without samples the code reads times[0] of an empty vector. *)
Theorem C57_empty (F : Scalar) : bench_calculate (F:=F) [] = UB.
Proof. reflexivity. Qed.
Example C57_example : exists b, bench_calculate (F:=QS) [5 # 1; 1 # 1; 4 # 1; 2 # 1]%Q = Ok b /\
  bn_min b = (1 # 1)%Q /\ bn_max b = (5 # 1)%Q /\ bn_median b = (3 # 1)%Q /\ bn_mean b = (3 # 1)%Q /\ bn_samples b = 4%Z.
Proof. eexists. split; [reflexivity|]. vm_compute. repeat split. Qed.

Print Assumptions C56_columns.
Print Assumptions C56_affine.
Print Assumptions C56_quadratic.
Print Assumptions C56_hessian.
Print Assumptions C56_check_jacobian.
Print Assumptions C56_check_gradient.
Print Assumptions C56_check_hessian.
Print Assumptions C57_statistics.
Print Assumptions C57_order.
