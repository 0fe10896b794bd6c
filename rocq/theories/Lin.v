(** Vectors and matrices (Eigen) over an arbitrary [Scalar].  Definitions only.

    A vector is a function from indices; dimensions are explicit arguments of the operations that
    need them.  [vstore]/[mstore] model assignment into Eigen storage of the given size: they
    evaluate the expression and forget anything outside the storage. *)
From Coq Require Import ZArith List Bool.
From Verif Require Import Base.
Import ListNotations.

Section Lin.
Context {F : Scalar}.

Definition vec := nat -> F.
Definition mat := nat -> nat -> F.

Definition vzero : vec := fun _ => zero.
Definition mzero : mat := fun _ _ => zero.
Definition mident : mat := fun i j => if Nat.eqb i j then one else zero.

Definition vstore (n : nat) (v : vec) : vec :=
  let l := map v (seq 0 n) in fun i => nth i l zero.
Definition mstore (r c : nat) (A : mat) : mat :=
  let l := map (fun i => map (A i) (seq 0 c)) (seq 0 r) in
  fun i j => nth j (nth i l []) zero.

(** left-to-right sum of [f 0 .. f (n-1)]; Eigen's redux may use another order *)
Fixpoint sumn (n : nat) (f : nat -> F) : F :=
  match n with
  | O => zero
  | S k => add (sumn k f) (f k)
  end.

Definition dot (n : nat) (a b : vec) : F := sumn n (fun i => mul (a i) (b i)).
Definition vadd (a b : vec) : vec := fun i => add (a i) (b i).
Definition vsub (a b : vec) : vec := fun i => sub (a i) (b i).
Definition vopp (a : vec) : vec := fun i => opp (a i).
Definition vscale (k : F) (a : vec) : vec := fun i => mul k (a i).
Definition madd (A B : mat) : mat := fun i j => add (A i j) (B i j).
Definition mscale (k : F) (A : mat) : mat := fun i j => mul k (A i j).
Definition mtr (A : mat) : mat := fun i j => A j i.
(** A (r x n) times x *)
Definition mv (n : nat) (A : mat) (x : vec) : vec := fun i => dot n (A i) x.
(** A (r x n) times B (n x c) *)
Definition mm (n : nat) (A B : mat) : mat := fun i j => dot n (A i) (fun k => B k j).

Definition sqnorm (n : nat) (a : vec) : F := dot n a a.
Definition norm (n : nat) (a : vec) : F := ssqrt (sqnorm n a).
(** lpNorm<Infinity>: 0 for an empty vector, otherwise the maximum of |a_i|.  (With NaN entries Eigen's
    maxCoeff is implementation defined; this fold drops NaN.) *)
Fixpoint linf (n : nat) (a : vec) : F :=
  match n with
  | O => zero
  | S k => smax (linf k a) (sabs (a k))
  end.
(** maxCoeff: defined for n >= 1 (Eigen asserts non-emptiness). *)
Fixpoint maxcoeff1 (n : nat) (a : vec) : F :=
  match n with
  | O => a O
  | S k => smax (maxcoeff1 k a) (a (S k))
  end.
Definition maxcoeff (n : nat) (a : vec) : F := maxcoeff1 (n - 1) a.

(** std::vector<double> reductions (VectorXd stored as a list) *)
Fixpoint lsum (l : list F) : F :=
  match l with
  | [] => zero
  | x :: r => add x (lsum r)
  end.
Fixpoint llinf (l : list F) : F :=
  match l with
  | [] => zero
  | x :: r => smax (sabs x) (llinf r)
  end.

(** * Cholesky factorisation: Eigen/src/Cholesky/LLT.h, llt_inplace<Scalar, Lower>::unblocked, as used by
      knot_point_function_type.hpp:199-208.  One column [k]:
        x = A(k,k) - |A(k,0..k-1)|^2;  if (x <= 0) fail;  A(k,k) = sqrt x;
        A(k+1..,k) = (A(k+1..,k) - A(k+1..,0..k-1) * A(k,0..k-1)') / A(k,k).
      Only entries of the lower triangle are read. (Eigen uses a blocked variant for m >= 32; same result
      in exact arithmetic.) *)
Definition llt_col (m k : nat) (A : mat) : option mat :=
  let x := sub (A k k) (sumn k (fun l => mul (A k l) (A k l))) in
  if leb x zero then None
  else
    let d := ssqrt x in
    Some (mstore m m (fun i j =>
      if Nat.eqb j k then
        (if Nat.eqb i k then d
         else if Nat.ltb k i then
           div (sub (A i k) (sumn k (fun l => mul (A i l) (A k l)))) d
         else A i j)
      else A i j)).

Fixpoint llt_cols (m k : nat) (A : mat) : option mat :=
  match k with
  | O => Some A
  | S k' => match llt_cols m k' A with
            | None => None
            | Some A' => llt_col m k' A'
            end
  end.
(** LLT::compute: copies the matrix, then factorises in place. [None] is info() == NumericalIssue. *)
Definition llt (m : nat) (A : mat) : option mat := llt_cols m m (mstore m m A).

(** LLT::solve (one right-hand side): matrixL().solveInPlace, then matrixU() = L'. *)
Fixpoint fwd_subst (m k : nat) (L : mat) (b : vec) : vec :=
  match k with
  | O => vzero
  | S k' =>
      let y := fwd_subst m k' L b in
      let v := div (sub (b k') (sumn k' (fun l => mul (L k' l) (y l)))) (L k' k') in
      vstore m (fun i => if Nat.eqb i k' then v else y i)
  end.
(** rows m-1 down to m-k *)
Fixpoint bwd_subst (m k : nat) (L : mat) (y : vec) : vec :=
  match k with
  | O => vzero
  | S k' =>
      let x := bwd_subst m k' L y in
      let r := m - k in
      let v := div (sub (y r) (sumn k' (fun l => mul (L (r + 1 + l) r) (x (r + 1 + l))))) (L r r) in
      vstore m (fun i => if Nat.eqb i r then v else x i)
  end.
Definition llt_solve (m : nat) (L : mat) (b : vec) : vec :=
  bwd_subst m m L (fwd_subst m m L b).

End Lin.
Arguments vec F : clear implicits.
Arguments mat F : clear implicits.
