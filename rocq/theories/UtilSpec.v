(** What the derivative checker and the benchmark statistics are measured against.  Nothing here mentions the model. *)
From Coq Require Import Reals List Permutation.
From Verif Require Import Base RLin ConSpec ExampleSpec.
Import ListNotations.
Local Open Scope R_scope.

(** f is the quadratic c + l.z + z'Az of the first n coordinates *)
Definition quad_fun (n : nat) (c : R) (l : nat -> R) (A : nat -> nat -> R) (f : (nat -> R) -> R) : Prop :=
  forall z, f z = c + fsum n (fun j => l j * z j) + qform n n A z z.
(** f is the affine map c + Az : R^n -> R^m *)
Definition affine_fun (n m : nat) (c : nat -> R) (A : nat -> nat -> R) (f : (nat -> R) -> nat -> R) : Prop :=
  forall z i, (i < m)%nat -> f z i = c i + fsum n (fun j => A i j * z j).
(** the b-th partial derivative at x of c + l.z + z'Az *)
Definition quad_partial (n : nat) (l : nat -> R) (A : nat -> nat -> R) (x : nat -> R) (b : nat) : R :=
  l b + fsum n (fun j => (A b j + A j b) * x j).

(** statistics of a list of samples *)
Definition least (l : list R) (m : R) : Prop := In m l /\ forall t, In t l -> m <= t.
Definition greatest (l : list R) (m : R) : Prop := In m l /\ forall t, In t l -> t <= m.
(** m is the sample median: the middle sample, or the mean of the two middle samples *)
Definition is_median (l : list R) (m : R) : Prop :=
  exists lo a b hi, length lo = length hi /\ (forall t, In t lo -> t <= a) /\ (forall t, In t hi -> b <= t) /\ a <= b /\ m = (a + b) / 2 /\
    (Permutation l (lo ++ a :: b :: hi) \/ (a = b /\ Permutation l (lo ++ a :: hi))).
Definition total (l : list R) : R := fold_right Rplus 0 l.
Definition average (l : list R) (m : R) : Prop := m * INR (length l) = total l.
(** population standard deviation around mu *)
Definition is_std (l : list R) (mu s : R) : Prop := 0 <= s /\ s ^ 2 * INR (length l) = total (map (fun t => (t - mu) ^ 2) l).
