(** Specifications for cones, constraint values and the augmented Lagrangian, written without the
    model's own functions (only its data types appear). *)
From Coq Require Import Reals List Bool ZArith.
From Coquelicot Require Import Coquelicot.
From Verif Require Import Base Lin ConModel.
Import List ListNotations.
Local Open Scope R_scope.

(** ** Cones as sets *)
Definition in_cone (K : cone) (p : nat) (x : nat -> R) : Prop :=
  match K with
  | ZeroCone => forall i, (i < p)%nat -> x i = 0
  | IdentityCone => True
  | NegativeOrthant => forall i, (i < p)%nat -> x i <= 0
  end.
(** finite sum over the reals, independent of the model's [sumn] *)
Definition fsum (n : nat) (f : nat -> R) : R := fold_right (fun i s => f i + s) 0 (seq 0 n).
Definition dist2 (p : nat) (x y : nat -> R) : R := fsum p (fun i => (x i - y i) ^ 2).
Definition is_projection (K : cone) (p : nat) (x y : nat -> R) : Prop :=
  in_cone K p y /\
  (forall z, in_cone K p z -> dist2 p x y <= dist2 p x z) /\
  (forall z, in_cone K p z -> dist2 p x z <= dist2 p x y -> forall i, (i < p)%nat -> z i = y i).
Definition in_dual (K : cone) (p : nat) (y : nat -> R) : Prop :=
  forall x, in_cone K p x -> 0 <= fsum p (fun i => x i * y i).

(** ** Curves: differentiability of vector functions is expressed along differentiable curves. *)
Definition curve (X : R -> nat -> R) (v : nat -> R) : Prop :=
  forall i, is_derive (fun s => X s i) 0 (v i).

(** a constraint whose value is [g] and whose Jacobian is [J]; [W] is the set of Jacobian entries the
    user code writes (the others are structurally zero and may be left untouched). *)
Record con_true (n m : nat) (con : Con RS) (g : vec RS -> vec RS -> nat -> R)
       (J : vec RS -> vec RS -> nat -> nat -> R) (W : nat -> nat -> bool) : Prop := {
  ct_eval : forall x u buf i, (i < con_dim con)%nat -> con_eval con x u buf i = g x u i;
  ct_jac : forall x u buf i j, (i < con_dim con)%nat -> (j < n + m)%nat ->
      con_jac con x u buf i j = if W i j then J x u i j else buf i j;
  ct_mask : forall x u i j, W i j = false -> J x u i j = 0;
  ct_deriv : forall X U v w, curve X v -> curve U w -> forall i, (i < con_dim con)%nat ->
      is_derive (fun s => g (X s) (U s) i) 0
        (fsum n (fun j => J (X 0) (U 0) i j * v j) + fsum m (fun j => J (X 0) (U 0) i (n + j)%nat * w j))
}.
Definition con_smooth (n m : nat) (con : Con RS) : Prop := exists g J W, con_true n m con g J W.

Record cost_true (n m : nat) (c : UCost RS) : Prop := {
  cst_grad : forall X U v w, curve X v -> curve U w -> forall old,
      is_derive (fun s => uc_eval c (X s) (U s)) 0
        (fsum n (fun j => fst (uc_grad c (X 0) (U 0) old) j * v j)
         + fsum m (fun j => snd (uc_grad c (X 0) (U 0) old) j * w j))
}.

(** ** Textbook augmented Lagrangian (Powell-Hestenes-Rockafellar), with this code base's sign
      convention: Lagrangian f - lambda'c, lambda <= 0 for c <= 0. *)
Definition phr (K : cone) (rho lam c : R) : R :=
  match K with
  | ZeroCone => - lam * c + rho / 2 * c ^ 2
  | NegativeOrthant =>
      if Rle_dec (lam - rho * c) 0 then - lam * c + rho / 2 * c ^ 2 else - lam ^ 2 / (2 * rho)
  | IdentityCone => - lam ^ 2 / (2 * rho)
  end.
(** slack form: value of the equality-constrained AL after introducing a slack s in K for c = s *)
Definition slack_al (rho lam c s : R) : R := - lam * (c - s) + rho / 2 * (c - s) ^ 2.

(** KKT conditions of one constraint component: primal feasibility, dual feasibility, complementarity. *)
Definition kkt (K : cone) (c lam : R) : Prop :=
  match K with
  | ZeroCone => c = 0
  | NegativeOrthant => c <= 0 /\ lam <= 0 /\ lam * c = 0
  | IdentityCone => lam = 0
  end.

(** constraint violation of one component *)
Definition viol (K : cone) (c : R) : R :=
  match K with ZeroCone => Rabs c | NegativeOrthant => Rmax 0 c | IdentityCone => 0 end.

(** active set of the Gauss-Newton Hessian *)
Definition active (K : cone) (rho lam c : R) : bool :=
  match K with
  | ZeroCone => true
  | NegativeOrthant => if Rle_dec (lam - rho * c) 0 then true else false
  | IdentityCone => false
  end.

(** ** Histories: the public operations of one ALCost, in any order *)
Inductive alop (F : Scalar) :=
| OpEval (x u : vec F)
| OpGrad (x u : vec F) (old : vec F * vec F)
| OpHess (x u : vec F) (old : mat F * mat F * mat F)
| OpUpdateDuals | OpUpdatePenalties | OpResetDuals
| OpSetPenalty (K : cone) (rho : F)
| OpSetPenaltyAt (K : cone) (rho : F) (i : Z)
| OpSetScaling (K : cone) (phi : F)
| OpSetScalingAt (K : cone) (phi : F) (i : Z).
Arguments OpEval {F}. Arguments OpGrad {F}. Arguments OpHess {F}.
Arguments OpUpdateDuals {F}. Arguments OpUpdatePenalties {F}. Arguments OpResetDuals {F}.
Arguments OpSetPenalty {F}. Arguments OpSetPenaltyAt {F}. Arguments OpSetScaling {F}. Arguments OpSetScalingAt {F}.

Definition al_step {F : Scalar} (debug : bool) (o : alop F) (a : ALCost F) : res (ALCost F) :=
  match o with
  | OpEval x u => Ok (snd (al_eval a x u))
  | OpGrad x u old => Ok (snd (al_gradient a x u old))
  | OpHess x u old => Ok (snd (al_hessian a x u old))
  | OpUpdateDuals => Ok (al_update_duals a)
  | OpUpdatePenalties => Ok (al_update_penalties a)
  | OpResetDuals => Ok (al_reset_duals a)
  | OpSetPenalty K rho => al_set_penalty debug K rho a
  | OpSetPenaltyAt K rho i => al_set_penalty_at debug K rho i a
  | OpSetScaling K phi => al_set_scaling debug K phi a
  | OpSetScalingAt K phi i => al_set_scaling_at debug K phi i a
  end.
(** all states reachable from a freshly built ALCost *)
Inductive al_reach {F : Scalar} (debug : bool) (a0 : ALCost F) : list (alop F) -> ALCost F -> Prop :=
| reach_nil : al_reach debug a0 [] a0
| reach_step os o a a' : al_reach debug a0 os a -> al_step debug o a = Ok a' -> al_reach debug a0 (os ++ [o]) a'.

(** quadratic form of a block Hessian at (v,w) *)
Definition qform (n m : nat) (H : mat RS * mat RS * mat RS) (v w : nat -> R) : R :=
  let '(Hxx, Hxu, Huu) := H in
  fsum n (fun i => fsum n (fun j => v i * Hxx i j * v j))
  + 2 * fsum n (fun i => fsum m (fun j => v i * Hxu i j * w j))
  + fsum m (fun i => fsum m (fun j => w i * Huu i j * w j)).
Definition msym (n : nat) (A : mat RS) : Prop := forall i j, (i < n)%nat -> (j < n)%nat -> A i j = A j i.
(** finite sum over a list *)
Definition lfsum {A} (f : A -> R) (l : list A) : R := fold_right (fun v s => f v + s) 0 l.

(** signed violation of one component (what the user sees in ConstraintInfo::violation) *)
Definition sviol (K : cone) (c : R) : R :=
  match K with ZeroCone => c | NegativeOrthant => Rmax 0 c | IdentityCone => 0 end.
(** the constraints of a solver in documented order: by knot point, equalities before inequalities *)
Definition listed {F : Scalar} (l : list (ALCost F)) : list (nat * CV F) :=
  concat (map (fun ka => map (pair (fst ka)) (al_eq (snd ka) ++ al_ineq (snd ka))) (combine (seq 0 (length l)) l)).
Definition info_matches (kv : nat * CV RS) (i : CInfo RS) : Prop :=
  ci_index i = fst kv /\ ci_label i = con_label (cv_con (snd kv)) /\
  ci_type i = constraint_type_name (cv_type (snd kv)) /\ ci_dim i = con_dim (cv_con (snd kv)) /\
  forall j, (j < con_dim (cv_con (snd kv)))%nat -> ci_viol i j = sviol (cv_type (snd kv)) (cv_c (snd kv) j).
(** largest absolute entry, independent of the model's norm *)
Definition is_max_abs (n : nat) (f : nat -> R) (M : R) : Prop :=
  0 <= M /\ (forall i, (i < n)%nat -> Rabs (f i) <= M) /\ (M = 0 \/ exists i, (i < n)%nat /\ M = Rabs (f i)).
(** number of penalty updates in a history *)
Definition is_pen_update {F} (o : alop F) : bool := match o with OpUpdatePenalties => true | _ => false end.
Definition is_pen_set {F} (o : alop F) : bool :=
  match o with OpSetPenalty _ _ | OpSetPenaltyAt _ _ _ | OpSetScaling _ _ | OpSetScalingAt _ _ _ => true | _ => false end.
