(** Model of examples/basic_constraints.hpp, obstacle_constraints.hpp, quadratic_cost.{hpp,cpp}, triple_integrator.cpp,
    unicycle.cpp and of the joint cost derivatives of altro/problem/costfunction.hpp.  Definitions only. *)
From Coq Require Import String ZArith List Bool.
From Verif Require Import Base Lin ConModel IlqrModel DynModel.
Import ListNotations.
Local Open Scope list_scope.

Section Examples.
Context {F : Scalar}.

(** element assignment v(i) = a, A(i,j) = a *)
Definition vset (v : vec F) (i : nat) (a : F) : vec F := fun k => if Nat.eqb k i then a else v k.
Definition mset (A : mat F) (i j : nat) (a : F) : mat F := fun k l => if Nat.eqb k i && Nat.eqb l j then a else A k l.

(** * GoalConstraint, basic_constraints.hpp:15-40.  [n] is the size of xf_; 27-30 Evaluate: c = x - xf_;
      31-36 Jacobian: jac.setIdentity() *)
Definition goal_con (n : nat) (xf : vec F) : Con F :=
  mkCon n (fun x u c => fun i => sub (x i) (xf i)) (fun x u jac => mident) "Goal Constraint".

(** * ControlBound, basic_constraints.hpp:42-151.  Simplification: the control dimension [m] given to the first
      constructor is not negative.  [dmax] is std::numeric_limits<double>::max(), [inf] is infinity(). *)
Context (dmax inf : F).
Record CB := mkCB { cb_m : nat; cb_lo : list F; cb_hi : list F; cb_il : list nat; cb_iu : list nat }.
(** 138-145 GetFiniteIndices: std::abs(bound[i]) < max() *)
Fixpoint finite_from (i : nat) (b : list F) : list nat :=
  match b with
  | [] => []
  | v :: r => if ltb (sabs v) dmax then i :: finite_from (S i) r else finite_from (S i) r
  end.
Definition finite_indices (b : list F) : list nat := finite_from 0 b.
(** 132-137 ValidateBounds: lower_bound_[i] <= upper_bound_[i] for i < m_ (debug builds only) *)
Definition cb_validate (debug : bool) (m : nat) (lo hi : list F) : res unit :=
  altro_assert debug (forallb (fun i => leb (nth i lo zero) (nth i hi zero)) (seq 0 m)).
(** 44-47 ControlBound(m): infinite bounds, empty index lists *)
Definition cb_free (m : nat) : CB := mkCB m (repeat (opp inf) m) (repeat inf m) [] [].
(** 49-56 ControlBound(lb, ub) *)
Definition cb_make (debug : bool) (lb ub : list F) : res CB :=
  do _ <- altro_assert debug (Nat.eqb (List.length lb) (List.length ub)) ;
  do _ <- altro_assert debug (Nat.ltb 0 (List.length lb)) ;
  do _ <- cb_validate debug (List.length lb) lb ub ;
  Ok (mkCB (List.length lb) lb ub (finite_indices lb) (finite_indices ub)).
(** 58-72 SetUpperBound (copy and move overloads) *)
Definition cb_set_upper (debug : bool) (ub : list F) (s : CB) : res CB :=
  do _ <- altro_assert debug (Nat.eqb (List.length ub) (cb_m s)) ;
  do _ <- cb_validate debug (cb_m s) (cb_lo s) ub ;
  Ok (mkCB (cb_m s) (cb_lo s) ub (cb_il s) (finite_indices ub)).
(** 74-88 SetLowerBound *)
Definition cb_set_lower (debug : bool) (lb : list F) (s : CB) : res CB :=
  do _ <- altro_assert debug (Nat.eqb (List.length lb) (cb_m s)) ;
  do _ <- cb_validate debug (cb_m s) lb (cb_hi s) ;
  Ok (mkCB (cb_m s) lb (cb_hi s) (finite_indices lb) (cb_iu s)).
(** 94-96 OutputDimension *)
Definition cb_dim (s : CB) : nat := List.length (cb_il s) + List.length (cb_iu s).
(** the loops of 102-105 and 107-110; [at(j)] throws when j is out of range *)
Fixpoint cb_eval_lo (lo : list F) (u : vec F) (i : nat) (idx : list nat) (c : vec F) : res (vec F) :=
  match idx with
  | [] => Ok c
  | j :: r => match nth_error lo j with
              | Some l => cb_eval_lo lo u (S i) r (vset c i (sub l (u j)))
              | None => Throw
              end
  end.
Fixpoint cb_eval_hi (hi : list F) (u : vec F) (i : nat) (idx : list nat) (c : vec F) : res (vec F) :=
  match idx with
  | [] => Ok c
  | j :: r => match nth_error hi j with
              | Some h => cb_eval_hi hi u (S i) r (vset c i (sub (u j) h))
              | None => Throw
              end
  end.
(** 98-111 Evaluate, control of the right size *)
Definition cb_eval (s : CB) (u c : vec F) : res (vec F) :=
  do c1 <- cb_eval_lo (cb_lo s) u 0 (cb_il s) c ;
  cb_eval_hi (cb_hi s) u (List.length (cb_il s)) (cb_iu s) c1.
(** 113-129 Jacobian *)
Fixpoint cb_jac_rows (n : nat) (a : F) (i : nat) (idx : list nat) (jac : mat F) : mat F :=
  match idx with
  | [] => jac
  | j :: r => cb_jac_rows n a (S i) r (mset jac i (n + j) a)
  end.
Definition cb_jac (n : nat) (s : CB) (jac : mat F) : mat F :=
  let j1 := cb_jac_rows n (opp one) 0 (cb_il s) mzero in
  cb_jac_rows n one (List.length (cb_il s)) (cb_iu s) j1.
(** the constraint object as the solver sees it (a throwing Evaluate leaves the buffer; C52 shows it never throws) *)
Definition cb_con (n : nat) (s : CB) : Con F :=
  mkCon (cb_dim s) (fun x u c => match cb_eval s u c with Ok c' => c' | _ => c end) (fun x u jac => cb_jac n s jac) "Control Bound".

(** * Circle and CircleConstraint, obstacle_constraints.hpp.  Simplification: std::pow(a, 2) is a * a. *)
Record Circle := mkCircle { ci_x : F; ci_y : F; ci_r : F }.
Definition sq (a : F) : F := mul a a.
(** 39-41 Distance2 *)
Definition circle_dist2 (o : Circle) (px py : F) : F := sub (add (sq (sub px (ci_x o))) (sq (sub py (ci_y o)))) (sq (ci_r o)).
(** 124-126 members; index defaults 0 and 1 *)
Record CC := mkCC { cc_xi : nat; cc_yi : nat; cc_obs : list Circle }.
Definition cc_new : CC := mkCC 0 1 [].
(** 76-79 AddObstacle *)
Definition cc_add (o : Circle) (s : CC) : CC := mkCC (cc_xi s) (cc_yi s) (cc_obs s ++ [o]).
(** 90-95 SetXYIndices(int, int); a negative index passes in release builds and later reads out of range: UB here *)
Definition cc_set_xy (debug : bool) (xi yi : Z) (s : CC) : res CC :=
  do _ <- altro_assert debug (Z.leb 0 xi) ;
  do _ <- altro_assert debug (Z.leb 0 yi) ;
  if (Z.ltb xi 0 || Z.ltb yi 0)%bool then UB else Ok (mkCC (Z.to_nat xi) (Z.to_nat yi) (cc_obs s)).
(** 99-107 Evaluate *)
Fixpoint cc_eval_loop (px py : F) (i : nat) (obs : list Circle) (c : vec F) : vec F :=
  match obs with
  | [] => c
  | o :: r => cc_eval_loop px py (S i) r (vset c i (opp (circle_dist2 o px py)))
  end.
Definition cc_eval (s : CC) (x c : vec F) : vec F := cc_eval_loop (x (cc_xi s)) (x (cc_yi s)) 0 (cc_obs s) c.
(** 109-121 Jacobian: columns 0 and 1, whatever the indices *)
Fixpoint cc_jac_loop (px py : F) (i : nat) (obs : list Circle) (jac : mat F) : mat F :=
  match obs with
  | [] => jac
  | o :: r => cc_jac_loop px py (S i) r
      (mset (mset jac i 0 (mul two (sub (ci_x o) px))) i 1 (mul two (sub (ci_y o) py)))
  end.
Definition cc_jac (s : CC) (x : vec F) (jac : mat F) : mat F := cc_jac_loop (x (cc_xi s)) (x (cc_yi s)) 0 (cc_obs s) jac.
Definition cc_con (s : CC) : Con F :=
  mkCon (List.length (cc_obs s)) (fun x u c => cc_eval s x c) (fun x u jac => cc_jac s x jac) "".

(** * QuadraticCost *)
Record QC := mkQC { qc_n : nat; qc_m : nat; qc_Q : mat F; qc_R : mat F; qc_H : mat F; qc_q : vec F; qc_r : vec F; qc_c : F;
                    qc_term : bool }.
(** quadratic_cost.cpp:30-63 Validate, on matrices of consistent sizes (39-40: isApprox with Eigen's default precision
    1e-12: |A - A'|^2 <= 1e-24 min(|A|^2, |A'|^2); 43-46: LLT of R unless terminal; 49-62: LDLT of Q is not modelled, its
    verdict is [ldlt_ok]).  Debug builds only. *)
Definition fro2 (r c : nat) (A : mat F) : F := sumn r (fun i => sumn c (fun j => mul (A i j) (A i j))).
Definition is_approx_tr (n : nat) (A : mat F) : bool :=
  leb (fro2 n n (fun i j => sub (A i j) (A j i)))
      (mul (mul (lit 1 1000000000000) (lit 1 1000000000000)) (smin (fro2 n n A) (fro2 n n (mtr A)))).
Definition qc_validate (debug ldlt_ok : bool) (s : QC) : res QC :=
  do _ <- altro_assert debug (is_approx_tr (qc_n s) (qc_Q s)) ;
  do _ <- altro_assert debug (is_approx_tr (qc_m s) (qc_R s)) ;
  do _ <- altro_assert debug (qc_term s || match llt (qc_m s) (qc_R s) with Some _ => true | None => false end) ;
  do _ <- altro_assert debug ldlt_ok ;
  Ok s.
(** quadratic_cost.hpp:14-27 *)
Definition qc_make (debug ldlt_ok : bool) (n m : nat) (Q R H : mat F) (q r : vec F) (c : F) (term : bool) : res QC :=
  qc_validate debug ldlt_ok (mkQC n m (mstore n n Q) (mstore m m R) (mstore n m H) (vstore n q) (vstore m r) c term).
(** quadratic_cost.hpp:29-39 LQRCost *)
Definition qc_lqr (debug ldlt_ok : bool) (n m : nat) (Q R : mat F) (xref uref : vec F) (term : bool) : res QC :=
  let H := mstore n m mzero in
  let q := vstore n (vopp (mv n Q xref)) in
  let r := vstore m (vopp (mv m R uref)) in
  let c := add (mul half (dot n xref (mv n Q xref))) (mul half (dot m uref (mv m R uref))) in
  qc_make debug ldlt_ok n m Q R H q r c term.
(** quadratic_cost.cpp:8-11 *)
Definition qc_eval (s : QC) (x u : vec F) : F :=
  let n := qc_n s in let m := qc_m s in
  add (add (add (add (add (mul half (dot n x (mv n (qc_Q s) x))) (dot n x (mv m (qc_H s) u)))
     (mul half (dot m u (mv m (qc_R s) u)))) (dot n (qc_q s) x)) (dot m (qc_r s) u)) (qc_c s).
(** quadratic_cost.cpp:13-18 *)
Definition qc_grad (s : QC) (x u : vec F) : vec F * vec F :=
  let n := qc_n s in let m := qc_m s in
  (vstore n (fun i => add (add (mv n (qc_Q s) x i) (qc_q s i)) (mv m (qc_H s) u i)),
   vstore m (fun i => add (add (mv m (qc_R s) u i) (qc_r s i)) (mv n (mtr (qc_H s)) x i))).
(** quadratic_cost.cpp:20-28: dxdx, dxdu, dudu *)
Definition qc_hess (s : QC) (x u : vec F) : mat F * mat F * mat F := (qc_Q s, qc_H s, qc_R s).
Definition qc_ucost (s : QC) : UCost F :=
  mkUCost (qc_eval s) (fun x u old => qc_grad s x u) (fun x u old => qc_hess s x u).

(** * Joint derivatives of a cost function, costfunction.hpp *)
(** 62-64 Gradient(x, u, grad) *)
Definition joint_grad (n m : nat) (c : UCost F) (x u g : vec F) : vec F :=
  let '(gx, gu) := uc_grad c x u (vstore n g, vstore m (fun i => g (n + i))) in
  fun i => if Nat.ltb i n then gx i else gu (i - n).
(** 65-72 Hessian(x, u, hess): the blocks topLeft, topRight, bottomRight are passed on; bottomLeft is not touched *)
Definition joint_hess (n m : nat) (c : UCost F) (x u : vec F) (h : mat F) : mat F :=
  let '(hxx, hxu, huu) := uc_hess c x u (mstore n n h, mstore n m (fun i j => h i (n + j)), mstore m m (fun i j => h (n + i) (n + j))) in
  fun i j => if Nat.ltb i n then (if Nat.ltb j n then hxx i j else hxu i (j - n))
             else (if Nat.ltb j n then h i j else huu (i - n) (j - n)).

(** * TripleIntegrator *)
(** triple_integrator.cpp:9-19 *)
Fixpoint tri_eval_loop (dof : nat) (x u : vec F) (i cnt : nat) (xd : vec F) : vec F :=
  match cnt with
  | O => xd
  | S c => tri_eval_loop dof x u (S i) c
             (vset (vset (vset xd i (x (i + dof))) (i + dof) (x (i + 2 * dof))) (i + 2 * dof) (u i))
  end.
(** 21-33 *)
Fixpoint tri_jac_loop (dof i cnt : nat) (jac : mat F) : mat F :=
  match cnt with
  | O => jac
  | S c => tri_jac_loop dof (S i) c
             (mset (mset (mset jac i (i + dof) one) (i + dof) (i + 2 * dof) one) (i + 2 * dof) (i + 3 * dof) one)
  end.
Definition triple (dof : nat) : CDyn F :=
  mkCDyn (fun x u t xd => tri_eval_loop dof x u 0 dof xd) (fun x u t jac => tri_jac_loop dof 0 dof mzero).
(** 35-45 Hessian *)
Definition tri_hess (x u : vec F) (t : F) (b : vec F) (hess : mat F) : mat F := mzero.

(** * Unicycle; [scos], [ssin] are the C library's cos and sin *)
Context (scos ssin : F -> F).
(** unicycle.cpp:12-21, 23-33: only five Jacobian entries are written *)
Definition unicycle : CDyn F :=
  mkCDyn
    (fun x u t xd =>
       let theta := x 2 in let v := u 0 in let omega := u 1 in
       vset (vset (vset xd 0 (mul v (scos theta))) 1 (mul v (ssin theta))) 2 omega)
    (fun x u t jac =>
       let theta := x 2 in let v := u 0 in
       mset (mset (mset (mset (mset jac 0 2 (mul (opp v) (ssin theta))) 0 3 (scos theta)) 1 2 (mul v (scos theta)))
         1 3 (ssin theta)) 2 4 one).
(** unicycle.cpp:35-43: three Hessian entries are written *)
Definition uni_hess (x u : vec F) (t : F) (b : vec F) (hess : mat F) : mat F :=
  let theta := x 2 in let v := u 0 in
  let h1 := mset hess 2 2 (sub (mul (mul (opp (b 0)) v) (scos theta)) (mul (mul (b 1) v) (ssin theta))) in
  let h2 := mset h1 2 3 (add (mul (opp (b 0)) (ssin theta)) (mul (b 1) (scos theta))) in
  mset h2 3 2 (h2 2 3).
End Examples.
Arguments CB F : clear implicits. Arguments Circle F : clear implicits. Arguments CC F : clear implicits. Arguments QC F : clear implicits.
