(** Specifications for convex constrained problems over the reals: convexity, optimality, multipliers and their weighted distance. *)
From Coq Require Import Reals List ZArith.
From Coquelicot Require Import Coquelicot.
Import List ListNotations.
From Verif Require Import Base Lin StatsModel TrajModel ConModel ConSpec IlqrModel IlqrSpec CostInst AlModel LsSpec LqSpec LqProbSpec NlSpec NlAlSpec.
Local Open Scope R_scope.

(** the point a of the way from x to y *)
Definition mix (a : R) (x y : nat -> R) : nat -> R := fun i => x i + a * (y i - x i).
Definition affine_dyn (n : nat) (f : Dyn RS) : Prop := forall x u y v t h b a i, (i < n)%nat ->
  dy_eval f (mix a x y) (mix a u v) t h b i = mix a (dy_eval f x u t h b) (dy_eval f y v t h b) i.
Definition convex_fun (g : vec RS -> vec RS -> R) : Prop := forall x u y v a, 0 <= a <= 1 -> g (mix a x y) (mix a u v) <= g x u + a * (g y v - g x u).
Definition affine_fun (g : vec RS -> vec RS -> R) : Prop := forall x u y v a, 0 <= a <= 1 -> g (mix a x y) (mix a u v) = g x u + a * (g y v - g x u).
(** equality constraints affine, inequality constraints (value at most 0) convex *)
Definition convex_con (K : cone) (c : Con RS) : Prop := forall i, (i < con_dim c)%nat ->
  match K with ZeroCone => affine_fun (fun x u => con_eval c x u vzero i) | NegativeOrthant => convex_fun (fun x u => con_eval c x u vzero i) | IdentityCone => True end.
Record convex_problem (n : nat) (s : ILQR RS (ALCost RS)) : Prop := {
  cp_dyn : forall k kp, (k < il_N s)%nat -> nth_error (il_kps s) k = Some kp -> affine_dyn n (kp_dyn kp);
  cp_cost : forall c, In c (il_costobjs s) -> convex_fun (uc_eval (al_cost c));
  cp_con : forall c v, In c (il_costobjs s) -> In v (al_cvs c) -> convex_con (cv_type v) (cv_con v) }.
(** [Y] obeys the dynamics on the time grid of [Z] *)
Definition admissible (n : nat) (s : ILQR RS (ALCost RS)) (Z Y : Traj RS) : Prop :=
  length Y = length Z /\ dyn_feasible n (il_x0 s) (map kp_dyn (il_kps s)) Y /\ same_steps (il_N s) Z Y.
(** [Y] satisfies the constraints of the problem *)
Definition holds (K : cone) (c : R) : Prop := match K with ZeroCone => c = 0 | NegativeOrthant => c <= 0 | IdentityCone => True end.
Definition satisfies (s : ILQR RS (ALCost RS)) (Y : Traj RS) : Prop := forall k c y v i, nth_error (il_costobjs s) k = Some c -> nth_error Y k = Some y -> In v (al_cvs c) -> (i < cv_p v)%nat ->
  holds (cv_type v) (con_eval (cv_con v) (z_x y) (z_u y) vzero i).
Definition user_cost (s : ILQR RS (ALCost RS)) (Y : Traj RS) : R := traj_cost (F:=RS) (map (fun c => uc_eval (al_cost c)) (il_costobjs s)) Y.
(** [Z] is a global solution of the constrained problem *)
Definition optimal (n : nat) (s : ILQR RS (ALCost RS)) (Z : Traj RS) : Prop :=
  admissible n s Z Z /\ satisfies s Z /\ forall Y, admissible n s Z Y -> satisfies s Y -> user_cost s Z <= user_cost s Y.

(** ** multipliers: a vector for every constraint of every knot point *)
Definition Mult : Type := list (list (nat -> R)).
Definition fits (cs : list (ALCost RS)) (mus : Mult) : Prop := Forall2 (fun c mu => length mu = length (al_cvs c)) cs mus.
Definition pay (c : ALCost RS) (mu : list (nat -> R)) (x u : vec RS) : R :=
  lfsum (fun p => fsum (cv_p (fst p)) (fun i => snd p i * con_eval (cv_con (fst p)) x u vzero i)) (combine (al_cvs c) mu).
Definition lagr_with (c : ALCost RS) (mu : list (nat -> R)) (x u : vec RS) : R := uc_eval (al_cost c) x u - pay c mu x u.
Definition lagr_mult (cs : list (ALCost RS)) (mus : Mult) (Y : Traj RS) : R := traj_cost (F:=RS) (map (fun p => lagr_with (fst p) (snd p)) (combine cs mus)) Y.
(** the multipliers stored in the objects *)
Definition own (cs : list (ALCost RS)) : Mult := map (fun c => map (@cv_lam RS) (al_cvs c)) cs.
(** a trajectory and multipliers with feasibility, sign and complementarity, and such that the trajectory minimises the Lagrangian *)
Record saddle (n : nat) (s : ILQR RS (ALCost RS)) (Z Y : Traj RS) (mus : Mult) : Prop := {
  sd_fits : fits (il_costobjs s) mus;
  sd_adm : admissible n s Z Y;
  sd_kkt : forall k c mu y j v l i, nth_error (il_costobjs s) k = Some c -> nth_error mus k = Some mu -> nth_error Y k = Some y -> nth_error (al_cvs c) j = Some v -> nth_error mu j = Some l ->
    (i < cv_p v)%nat -> kkt (cv_type v) (con_eval (cv_con v) (z_x y) (z_u y) vzero i) (l i);
  sd_min : forall X, admissible n s Z X -> lagr_mult (il_costobjs s) mus Y <= lagr_mult (il_costobjs s) mus X }.
(** squared distance of two families of multipliers, weighted with the penalties of the objects *)
Definition kdist (c : ALCost RS) (A B : list (nat -> R)) : R :=
  lfsum (fun p => fsum (cv_p (fst p)) (fun i => (fst (snd p) i - snd (snd p) i) ^ 2 / cv_pen (fst p) i)) (combine (al_cvs c) (combine A B)).
Definition wdist (cs : list (ALCost RS)) (A B : Mult) : R := lfsum (fun p => kdist (fst p) (fst (snd p)) (snd (snd p))) (combine cs (combine A B)).
