(** What a solver should work on, in terms of what the user gave to the problem (ProblemSpec.v). *)
From Coq Require Import ZArith List Bool.
From Verif Require Import Base Lin ConModel IlqrModel ProblemModel ProblemSpec.
Import ListNotations.
Local Open Scope Z_scope.

Section Spec.
Context {F : Scalar} {C : Type}.
(** a problem with N segments to which the calls [os] gave the dynamics [dyn] and the costs [c], complete and of the dimensions the solver was
    compiled for (None: any) *)
Record given (on om : option nat) (N : Z) (os : list (pop F C)) (dyn : Z -> Model F) (c : Z -> C) : Prop := mkGiven {
  gv_N : 1 <= N;
  gv_complete : complete N os;
  gv_dyn : forall k, 0 <= k < N -> dyn_given os k = Some (dyn k);
  gv_cost : forall k, 0 <= k <= N -> cost_given os k = Some (c k);
  gv_dim : forall k, 0 <= k < N ->
    match on with Some n => md_n (dyn k) = Z.of_nat n | None => True end /\ match om with Some m => md_m (dyn k) = Z.of_nat m | None => True end }.
(** knot points 0..N: the given dynamics and costs, identity dynamics at the last *)
Definition knots {D} (N : Z) (dyn : Z -> Model F) (c : Z -> D) : list (Dyn F * D) :=
  map (fun i => (if Nat.eqb i (Z.to_nat N) then identity_dyn else md_dyn (dyn (Z.of_nat i)), c (Z.of_nat i))) (seq 0 (S (Z.to_nat N))).
(** strictly increasing indices starting at a and ending at b *)
Fixpoint cut_at (a b : Z) (l : list Z) : Prop :=
  match l with [] => False | [x] => x = a /\ x = b | x :: ((y :: _) as r) => x = a /\ a < y /\ cut_at y b r end.
End Spec.
(** the augmented-Lagrangian cost of knot point k made of what the user gave *)
Definition al_given {F : Scalar} (N : Z) (os : list (pop F (UCost F))) (dyn : Z -> Model F) (c : Z -> UCost F) (k : Z) : ALCost F :=
  let md := dyn (if k =? N then N - 1 else k) in
  al_make (Z.to_nat (md_n md)) (Z.to_nat (md_m md)) (c k) (con_given false os k) (con_given true os k).
