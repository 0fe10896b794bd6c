(** Model of the scalar-function interface of altro/common/functionbase.hpp at the level of memory: a matrix reference is a window with a column stride.
    Definitions only. *)
From Coq Require Import ZArith List Arith Bool String.
From Verif Require Import Base Lin ConModel ExampleModel UtilModel.
Import ListNotations.
Local Open Scope nat_scope.

Section Func.
Context {F : Scalar}.
(** an allocation of [m_cap] doubles *)
Record Mem := mkMem { m_cap : nat; m_cell : nat -> F }.
(** Eigen::Ref<MatrixXd>: column-major, inner stride 1, outer stride [v_ld] (the number of rows of the matrix the reference is part of);
    a matrix with storage of its own has v_ld = v_rows *)
Record View := mkView { v_off : nat; v_rows : nat; v_cols : nat; v_ld : nat }.
Definition v_at (v : View) (i j : nat) : nat := v_off v + i + j * v_ld v.
Definition v_read (v : View) (m : Mem) : mat F := fun i j => m_cell m (v_at v i j).
(** what the user implements (functionbase.hpp:137-139): the buffers hold old values on entry *)
Record SFun := mkSFun { sf_eval : vec F -> vec F -> F; sf_grad : vec F -> vec F -> vec F -> vec F; sf_hess : vec F -> vec F -> mat F -> mat F }.
(** functionbase.hpp:142-145 Evaluate(x, u, out); out is a contiguous vector of [len] cells from [off]; out(0) of an empty vector is out of range *)
Definition pf_eval (debug : bool) (f : SFun) (x u : vec F) (off len : nat) (m : Mem) : res Mem :=
  do _ <- altro_assert debug (Nat.eqb len 1) ;
  if Nat.eqb len 0 then UB else Ok (mkMem (m_cap m) (fun c => if Nat.eqb c off then sf_eval f x u else m_cell m c)).
(** functionbase.hpp:147-152 Jacobian(x, u, jac): the gradient is written to jac.cols() consecutive cells from jac.data() *)
Definition pf_jac (debug : bool) (f : SFun) (x u : vec F) (v : View) (m : Mem) : res Mem :=
  do _ <- altro_assert debug (Nat.eqb (v_rows v) 1) ;
  if Nat.ltb (m_cap m) (v_off v + v_cols v) then UB
  else let g := sf_grad f x u (fun k => m_cell m (v_off v + k)) in
       Ok (mkMem (m_cap m) (fun c => if Nat.leb (v_off v) c && Nat.ltb c (v_off v + v_cols v) then g (c - v_off v) else m_cell m c)).
(** Eigen isApproxToConstant(1) with the default precision 1e-12 *)
Definition approx_one (a : F) : bool := leb (sabs (sub a one)) (mul (smin (sabs a) one) (lit 1%Z 1000000000000%Z)).
(** functionbase.hpp:154-160 Hessian(x, u, b, hess): hess is passed on as it is *)
Definition pf_hess (debug : bool) (f : SFun) (x u : vec F) (blen : nat) (b : vec F) (h : mat F) : res (mat F) :=
  do _ <- altro_assert debug (Nat.eqb blen 1 && approx_one (b 0)) ; Ok (sf_hess f x u h).
(** costfunction.hpp:62-72: a cost function as a scalar function *)
Definition sf_cost (n m : nat) (c : UCost F) : SFun := mkSFun (uc_eval c) (fun x u g => joint_grad n m c x u g) (fun x u h => joint_hess n m c x u h).
(** functionbase.cpp:43-68 CheckJacobian run on a scalar function: both buffers are matrices and vectors of their own *)
Definition own_row (k : nat) : View := mkView 0 1 k 1.
Definition sf_con (debug : bool) (k : nat) (f : SFun) : Con F := mkCon 1
  (fun x u old => match pf_eval debug f x u 0 1 (mkMem 1 old) with Ok m => m_cell m | _ => old end)
  (fun x u old => match pf_jac debug f x u (own_row k) (mkMem k (fun c => old 0 c)) with Ok m => v_read (own_row k) m | _ => old end) "scalar".
Definition check_jacobian_scalar (debug : bool) (n m : nat) (f : SFun) (junk : vec F) (x u : vec F) (eps : F) : res bool :=
  check_jacobian n m (sf_con debug (n + m) f) junk x u eps.
(** functionbase.cpp:84-102 CheckHessian(x, u, b, eps) run on a cost function, for any b *)
Definition check_hessian_b (debug : bool) (n m : nat) (c : UCost F) (x u : vec F) (blen : nat) (b : vec F) (eps : F) : res bool :=
  do h <- pf_hess debug (sf_cost n m c) x u blen b mzero ;
  let jvp := fun z => mul (uc_eval c (zhead n z) (ztail n m z)) (b 0) in
  do fd <- fd_hess (n + m) jvp (joint n x u) fd_eps2 true ;
  Ok (mat_compare (n + m) (n + m) fd (mstore (n + m) (n + m) h) eps).
End Func.
Arguments Mem F : clear implicits. Arguments SFun F : clear implicits.
