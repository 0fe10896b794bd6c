(** Specifications for the example constraints and costs. *)
From Coq Require Import Reals List Bool ZArith.
From Coquelicot Require Import Coquelicot.
From Verif Require Import Base Lin ConModel ConSpec DynModel ExampleModel.
Import List ListNotations.
Local Open Scope R_scope.

(** objects reachable through ControlBound's public interface; in release builds the caller passes vectors of the right size *)
Section Reach.
Context {F : Scalar} (dmax inf : F) (debug : bool).
Inductive cb_reach : CB F -> Prop :=
| R_free m : cb_reach (cb_free inf m)
| R_make lb ub s : (debug = true \/ length lb = length ub) -> cb_make dmax debug lb ub = Ok s -> cb_reach s
| R_upper ub s s' : cb_reach s -> (debug = true \/ length ub = cb_m s) -> cb_set_upper dmax debug ub s = Ok s' -> cb_reach s'
| R_lower lb s s' : cb_reach s -> (debug = true \/ length lb = cb_m s) -> cb_set_lower dmax debug lb s = Ok s' -> cb_reach s'.
(** the bounds that count: those the code regards as finite *)
Definition counts (b : list F) (j : nat) (v : F) : Prop := nth_error b j = Some v /\ ltb (sabs v) dmax = true.
End Reach.
(** every control within its finite bounds *)
Definition within (dmax : R) (lo hi : list R) (u : nat -> R) : Prop :=
  (forall j v, nth_error lo j = Some v -> Rabs v < dmax -> v <= u j) /\
  (forall j v, nth_error hi j = Some v -> Rabs v < dmax -> u j <= v).
(** distance in the plane *)
Definition dist (px py cx cy : R) : R := sqrt ((px - cx) ^ 2 + (py - cy) ^ 2).

(** quadratic forms *)
Definition qform (n m : nat) (A : nat -> nat -> R) (x y : nat -> R) : R := fsum n (fun i => x i * fsum m (fun j => A i j * y j)).
Definition symmetric (n : nat) (A : nat -> nat -> R) : Prop := forall i j, (i < n)%nat -> (j < n)%nat -> A i j = A j i.
(** [hxx hxu huu] are the second derivatives: the derivatives of the gradient along every curve *)
Definition is_hessian (n m : nat) (gx gu : vec RS -> vec RS -> nat -> R) (hxx hxu huu : vec RS -> vec RS -> nat -> nat -> R) : Prop :=
  forall X U v w, curve X v -> curve U w ->
    (forall i, (i < n)%nat -> is_derive (fun s => gx (X s) (U s) i) 0
       (fsum n (fun j => hxx (X 0) (U 0) i j * v j) + fsum m (fun j => hxu (X 0) (U 0) i j * w j))) /\
    (forall i, (i < m)%nat -> is_derive (fun s => gu (X s) (U s) i) 0
       (fsum n (fun j => hxu (X 0) (U 0) j i * v j) + fsum m (fun j => huu (X 0) (U 0) i j * w j))).
