(** Specifications for the factorisation and for the linear-quadratic subproblem, over the reals; none of the model's functions. *)
From Coq Require Import Reals List.
Import ListNotations.
Local Open Scope R_scope.

(** sum of f 0 .. f (n-1) *)
Definition tot (n : nat) (f : nat -> R) : R := fold_right (fun i s => f i + s) 0 (seq 0 n).
(** x' A y for A with r rows and c columns *)
Definition form (r c : nat) (A : nat -> nat -> R) (x y : nat -> R) : R := tot r (fun i => x i * tot c (fun j => A i j * y j)).
Definition inner (n : nat) (x y : nat -> R) : R := tot n (fun i => x i * y i).
(** A x for A with c columns *)
Definition app (c : nat) (A : nat -> nat -> R) (x : nat -> R) (i : nat) : R := tot c (fun j => A i j * x j).
Definition sym (n : nat) (A : nat -> nat -> R) : Prop := forall i j, (i < n)%nat -> (j < n)%nat -> A i j = A j i.
Definition nonzero (n : nat) (x : nat -> R) : Prop := exists i, (i < n)%nat /\ x i <> 0.
Definition posdef (n : nat) (A : nat -> nat -> R) : Prop := forall x, nonzero n x -> 0 < form n n A x x.
Definition possemi (n : nat) (A : nat -> nat -> R) : Prop := forall x, 0 <= form n n A x x.

(** A stage of the quadratic model: linear dynamics (fx, fu) and the second-order expansion of the cost *)
Record Stage := mkStage { sg_A : nat -> nat -> R; sg_B : nat -> nat -> R; sg_x : nat -> R; sg_u : nat -> R;
  sg_xx : nat -> nat -> R; sg_xu : nat -> nat -> R; sg_uu : nat -> nat -> R }.
Definition lincost (n m : nat) (g : Stage) (dx du : nat -> R) : R := inner n (sg_x g) dx + inner m (sg_u g) du.
Definition quadcost (n m : nat) (g : Stage) (dx du : nat -> R) : R :=
  1 / 2 * form n n (sg_xx g) dx dx + form n m (sg_xu g) dx du + 1 / 2 * form m m (sg_uu g) du du.
(** change of the stage cost, to second order *)
Definition stage_cost n m g dx du : R := lincost n m g dx du + quadcost n m g dx du.
(** deviation one step later *)
Definition next (n m : nat) (g : Stage) (dx du : nat -> R) (i : nat) : R := app n (sg_A g) dx i + app m (sg_B g) du i.
(** a quadratic without constant term *)
Definition quadratic (n : nat) (s : nat -> R) (S : nat -> nat -> R) (dx : nat -> R) : R := inner n s dx + 1 / 2 * form n n S dx dx.

(** total model cost from deviation [dx] when the control deviations are [us], with terminal quadratic (sN, SN) *)
Fixpoint model_cost (n m : nat) (gs : list Stage) (sN : nat -> R) (SN : nat -> nat -> R) (dx : nat -> R) (us : list (nat -> R)) : R :=
  match gs, us with
  | g :: gs', du :: us' => stage_cost n m g dx du + model_cost n m gs' sN SN (next n m g dx du) us'
  | _, _ => quadratic n sN SN dx
  end.
(** an affine policy: feedback and feedforward gains of each stage; the controls it chooses from [dx] with feedforward scaled by [a] *)
Fixpoint policy (n m : nat) (a : R) (gs : list Stage) (Kd : list ((nat -> nat -> R) * (nat -> R))) (dx : nat -> R) : list (nat -> R) :=
  match gs, Kd with
  | g :: gs', (K, d) :: Kd' => let du := fun i => app n K dx i + a * d i in du :: policy n m a gs' Kd' (next n m g dx du)
  | _, _ => []
  end.
(** convex stage model with positive definite control block *)
Definition convex_stage n m (g : Stage) : Prop := (forall dx du, 0 <= quadcost n m g dx du) /\ posdef m (sg_uu g).
Definition sym_stage n m (g : Stage) : Prop := sym n (sg_xx g) /\ sym m (sg_uu g).
