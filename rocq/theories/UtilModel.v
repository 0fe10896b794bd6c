(** Model of altro/utils/derivative_checker.hpp, the derivative checks of altro/common/functionbase.cpp, and
    altro/utils/benchmarking.hpp.  Definitions only. *)
From Coq Require Import ZArith List Bool.
From Verif Require Import Base Lin ConModel ExampleModel.
Import ListNotations.

Section Util.
Context {F : Scalar}.

(** * derivative_checker.hpp *)
(** lines 27-38, the loop over columns i = i .. i+cnt-1 with perturbation e, base value y and Jacobian so far *)
Fixpoint fd_loop (n m : nat) (f : vec F -> vec F) (x : vec F) (eps : F) (central : bool) (i cnt : nat) (e y : vec F) (jac : mat F) : mat F :=
  match cnt with
  | O => jac
  | S c =>
      let y' := if central then vstore m (f (vstore n (fun k => sub (x k) (e k)))) else y in
      let step := if central then mul two eps else eps in
      let fp := f (vstore n (fun k => add (x k) (e k))) in
      let jac' := mstore m n (fun a b => if Nat.eqb b i then div (sub (fp a) (y' a)) step else jac a b) in
      let e' := if Nat.ltb i (n - 1) then vset (vset e (S i) (e i)) i zero else e in
      fd_loop n m f x eps central (S i) c e' y' jac'
  end.
(** 10-40 FiniteDiffJacobian of f : R^n -> R^m.  Line 26, e(0) = eps, writes out of bounds when n = 0. *)
Definition fd_jac (n m : nat) (f : vec F -> vec F) (x : vec F) (eps : F) (central : bool) : res (mat F) :=
  if Nat.eqb n 0 then UB
  else
    let y := vstore m (f (vstore n x)) in
    let jac := mstore m n mzero in
    let e := vset (vstore n vzero) 0 eps in
    Ok (fd_loop n m f x eps central 0 n e y jac).
(** 71-80 ScalarToVec, 94-101 FiniteDiffGradient *)
Definition fd_grad (n : nat) (f : vec F -> F) (x : vec F) (eps : F) (central : bool) : res (vec F) :=
  do J <- fd_jac n 1 (fun z _ => f z) x eps central ; Ok (fun i => J 0 i).
(** 111-120 FiniteDiffGradientFunc, 131-138 FiniteDiffHessian: the same eps and scheme for both levels *)
Definition fd_hess (n : nat) (f : vec F -> F) (x : vec F) (eps : F) (central : bool) : res (mat F) :=
  if Nat.eqb n 0 then UB
  else fd_jac n n (fun z => match fd_grad n f z eps central with Ok g => g | _ => vzero end) x eps central.

(** * functionbase.cpp *)
(** 15-29 MatrixComparison: Frobenius norm of the difference < eps (printing not modelled) *)
Definition mat_compare (r c : nat) (A B : mat F) (eps : F) : bool := ltb (ssqrt (fro2 r c (fun i j => sub (A i j) (B i j)))) eps.
(** the default FD steps: derivative_checker.hpp:13, 134 *)
Definition fd_eps1 : F := lit 1 1000000.
Definition fd_eps2 : F := lit 1 10000.
(** z << x, u; z.head(n), z.tail(m) *)
Definition joint (n : nat) (x u : vec F) : vec F := fun i => if Nat.ltb i n then x i else u (i - n).
Definition zhead (n : nat) (z : vec F) : vec F := vstore n z.
Definition ztail (n m : nat) (z : vec F) : vec F := vstore m (fun i => z (n + i)).
(** 43-68 CheckJacobian(x, u, eps): jac starts at zero; [out] of line 60 is uninitialised ([junk]) *)
Definition check_jacobian (n m : nat) (con : Con F) (junk : vec F) (x u : vec F) (eps : F) : res bool :=
  let p := con_dim con in
  let jac := mstore p (n + m) (con_jac con x u mzero) in
  let fz := fun z => vstore p (con_eval con (zhead n z) (ztail n m z) junk) in
  do fd <- fd_jac (n + m) p fz (joint n x u) fd_eps1 false ;
  Ok (mat_compare p (n + m) fd jac eps).
(** 112-126 CheckGradient(x, u, eps) of a cost function *)
Definition check_gradient (n m : nat) (c : UCost F) (x u : vec F) (eps : F) : res bool :=
  let g := joint_grad n m c x u vzero in
  let fz := fun z => uc_eval c (zhead n z) (ztail n m z) in
  do fd <- fd_grad (n + m) fz (joint n x u) fd_eps1 false ;
  Ok (mat_compare (n + m) 1 (fun i _ => fd i) (fun i _ => g i) eps).
(** 84-102 CheckHessian(x, u, b, eps) of a cost function with b = [1] *)
Definition check_hessian (n m : nat) (c : UCost F) (x u : vec F) (eps : F) : res bool :=
  let h := mstore (n + m) (n + m) (joint_hess n m c x u mzero) in
  let jvp := fun z => mul (uc_eval c (zhead n z) (ztail n m z)) one in
  do fd <- fd_hess (n + m) jvp (joint n x u) fd_eps2 true ;
  Ok (mat_compare (n + m) (n + m) fd h eps).

(** * benchmarking.hpp *)
Record Bench := mkBench { bn_mean : F; bn_median : F; bn_std : F; bn_max : F; bn_min : F; bn_samples : Z }.
(** std::sort with operator<, as insertion sort *)
Fixpoint t_insert (a : F) (l : list F) : list F :=
  match l with
  | [] => [a]
  | b :: r => if ltb b a then b :: t_insert a r else a :: l
  end.
Definition t_sort (l : list F) : list F := fold_right t_insert [] l.
(** 46-73 Calculate; times[0] (line 57) and times[-1] (line 55) are out of range for an empty vector *)
Definition bench_calculate (times : list F) : res Bench :=
  match t_sort times with
  | [] => UB
  | t0 :: r =>
      let ts := t0 :: r in
      let samples := length ts in
      let median := if Nat.odd samples then nth (samples / 2) ts zero
                    else div (add (nth (samples / 2) ts zero) (nth (samples / 2 - 1) ts zero)) two in
      let sum := fold_left (fun s t => add s t) r t0 in
      let mx := fold_left (fun s t => smax t s) r t0 in
      let mn := fold_left (fun s t => smin t s) r t0 in
      let mean := div sum (ofZ (Z.of_nat samples)) in
      let var := fold_left (fun s t => add s (sq (sub t mean))) r (sq (sub t0 mean)) in
      Ok (mkBench mean median (ssqrt (div var (ofZ (Z.of_nat samples)))) mx mn (Z.of_nat samples))
  end.
End Util.
Arguments Bench F : clear implicits.
