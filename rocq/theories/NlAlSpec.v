(** Specifications for constrained nonlinear problems over the reals: smooth augmented-Lagrangian cost objects, the Lagrangian and its stationary points. *)
From Coq Require Import Reals List ZArith.
From Coquelicot Require Import Coquelicot.
Import List ListNotations.
From Verif Require Import Base Lin StatsModel TrajModel ConModel ConSpec IlqrModel IlqrSpec CostInst AlModel LsSpec LqSpec LqProbSpec NlSpec.
Local Open Scope R_scope.

(** an object built from a cost and constraints that are differentiable with correct user derivatives, after any history of public operations, with
    positive penalties *)
Definition smooth_al (n m : nat) (a : ALCost RS) : Prop := exists debug cost eqs ineqs os,
  cost_true n m cost /\ (forall x u old, msym n (fst (fst (uc_hess cost x u old))) /\ msym m (snd (uc_hess cost x u old))) /\
  (forall c, In c (eqs ++ ineqs) -> con_smooth n m c /\ (1 <= con_dim c)%nat) /\
  al_reach debug (al_make n m cost eqs ineqs) os a /\ (forall v, In v (al_cvs a) -> 0 < cv_pen v 0%nat).
(** a solver object on such a problem, with a trajectory that obeys the dynamics; the last cost and its constraints do not look at the controls *)
Record al_setting (n m : nat) (s : ILQR RS (ALCost RS)) (Z Zb : Traj RS) : Prop := {
  al_len : length (il_kps s) = S (il_N s);
  al_objs : Forall (smooth_al n m) (il_costobjs s);
  al_dyn : forall k kp, (k < il_N s)%nat -> nth_error (il_kps s) k = Some kp -> smooth_dyn n m (kp_dyn kp);
  al_end : forall c, nth_error (il_costobjs s) (il_N s) = Some c -> forall x u u', uc_eval (al_cost c) x u = uc_eval (al_cost c) x u' /\
    forall v i, In v (al_cvs c) -> (i < cv_p v)%nat -> con_eval (cv_con v) x u vzero i = con_eval (cv_con v) x u' vzero i;
  al_Z : il_Z s = Some Z; al_lenZ : length Z = S (il_N s); al_feas : dyn_feasible n (il_x0 s) (map kp_dyn (il_kps s)) Z;
  al_Zb : il_Zb s = Some Zb; al_lenZb : length Zb = S (il_N s); al_steps : same_steps (il_N s) Z Zb }.
(** user cost minus multipliers times constraint values, one knot point and whole trajectory *)
Definition lagr (c : ALCost RS) (x u : vec RS) : R :=
  uc_eval (al_cost c) x u - lfsum (fun v => fsum (cv_p v) (fun i => cv_lam v i * con_eval (cv_con v) x u vzero i)) (al_cvs c).
Definition lagr_total (cs : list (ALCost RS)) (Y : Traj RS) : R := traj_cost (F:=RS) (map lagr cs) Y.
(** no variation of the controls changes the Lagrangian to first order *)
Definition lagr_stationary (n m : nat) (s : ILQR RS (ALCost RS)) (Z : Traj RS) (cs : list (ALCost RS)) : Prop :=
  forall du fam, (forall a, varied n m s Z du a (fam a)) -> is_derive (fun a => lagr_total cs (fam a)) 0 0.
(** first-order necessary conditions at [Z] with the multipliers stored in the cost objects of [s]; [kkt]: feasibility, sign and complementarity *)
Definition kkt_point (n m : nat) (s : ILQR RS (ALCost RS)) (Z : Traj RS) : Prop :=
  dyn_feasible n (il_x0 s) (map kp_dyn (il_kps s)) Z /\
  (forall k c z v i, nth_error (il_costobjs s) k = Some c -> nth_error Z k = Some z -> In v (al_cvs c) -> (i < cv_p v)%nat ->
     kkt (cv_type v) (con_eval (cv_con v) (z_x z) (z_u z) vzero i) (cv_lam v i)) /\
  lagr_stationary n m s Z (il_costobjs s).
(** UpdateDuals would leave every multiplier as it is *)
Definition duals_kept (cs : list (ALCost RS)) : Prop := forall c v i, In c cs -> In v (al_cvs c) -> (i < cv_p v)%nat -> cv_lam (cv_update_duals v) i = cv_lam v i.
