(** What the derivative checks are measured against: partial derivatives of functions of a joint vector (x, u).  Nothing here mentions
    the model of the checks. *)
From Coq Require Import Reals.
From Coquelicot Require Import Coquelicot.
From Verif Require Import Base Lin ConModel.
Local Open Scope R_scope.

(** z with coordinate b moved by t *)
Definition along (z : nat -> R) (b : nat) (t : R) : nat -> R := fun k => if Nat.eqb k b then z k + t else z k.
(** the joint vector (x, u), and its control part *)
Definition both (n : nat) (x u : nat -> R) : nat -> R := fun i => if Nat.ltb i n then x i else u (i - n)%nat.
Definition control (n : nat) (z : nat -> R) : nat -> R := fun i => z (n + i)%nat.
(** f depends on the first n coordinates only *)
Definition local (n : nat) (f : (nat -> R) -> R) : Prop := forall z z', (forall k, (k < n)%nat -> z k = z' k) -> f z = f z'.
(** D b is the partial derivative of f in coordinate b, everywhere *)
Definition partials (n : nat) (f : (nat -> R) -> R) (D : nat -> (nat -> R) -> R) : Prop :=
  forall b z, (b < n)%nat -> is_derive (fun t => f (along z b t)) 0 (D b z).

(** a constraint whose value depends on its n states and m controls only and has the partial derivatives D *)
Record con_has (n m : nat) (con : Con RS) (junk : nat -> R) (D : nat -> nat -> (nat -> R) -> R) : Prop := {
  ch_local : forall x x' u u' i, (i < con_dim con)%nat -> (forall k, (k < n)%nat -> x k = x' k) -> (forall k, (k < m)%nat -> u k = u' k) ->
    con_eval con x u junk i = con_eval con x' u' junk i;
  ch_partial : forall i, (i < con_dim con)%nat -> partials (n + m) (fun z => con_eval con z (control n z) junk i) (D i)
}.
(** a cost whose value depends on its n states and m controls only and has the partial derivatives G, which have the partial
    derivatives H *)
Record cost_has (n m : nat) (c : UCost RS) (G : nat -> (nat -> R) -> R) : Prop := {
  cs_local : forall x x' u u', (forall k, (k < n)%nat -> x k = x' k) -> (forall k, (k < m)%nat -> u k = u' k) -> uc_eval c x u = uc_eval c x' u';
  cs_partial : partials (n + m) (fun z => uc_eval c z (control n z)) G
}.
Definition second (n : nat) (G : nat -> (nat -> R) -> R) (H : nat -> nat -> (nat -> R) -> R) : Prop :=
  forall b, (b < n)%nat -> local n (G b) /\ partials n (G b) (fun a => H a b).
