(** Model of examples/problems/triple_integrator.hpp (TripleIntegratorProblem) and of examples/problems/unicycle.{hpp,cpp}
    (UnicycleProblem).  Definitions only.

    The member vectors and matrices have the sizes of their initialisers.  [ldlt Q] is the verdict of Eigen's LDLT in
    QuadraticCost::Validate (see ExampleModel); [dmax] is numeric_limits<double>::max(), [pi] is M_PI.  The members
    qcost and qterm of UnicycleProblem, which MakeProblem leaves pointing to the last costs, are not modelled. *)
From Coq Require Import String ZArith List Bool.
From Verif Require Import Base Lin ConModel TrajModel IlqrModel CostInst DynModel ProblemModel ExampleModel.
Import ListNotations.
Local Open Scope Z_scope.

Section Problems.
Context {F : Scalar} (debug : bool) (ldlt : mat F -> bool) (dmax : F).

(** what make_shared<QuadraticCost>(LQRCost(Q, R, xref, uref, term)) points to *)
Definition lqr_cost (n m : nat) (Q R : mat F) (xref uref : vec F) (term : bool) : res (UCost F) :=
  do q <- qc_lqr debug (ldlt Q) n m Q R xref uref term ; Ok (qc_ucost q).
(** VectorXd::Constant(n, c).asDiagonal() *)
Definition mdiag (c : F) : mat F := fun i j => if Nat.eqb i j then c else zero.
(** A.diagonal().setConstant(c) *)
Definition set_diag (c : F) (A : mat F) : mat F := fun i j => if Nat.eqb i j then c else A i j.
(** a stored vector as an Eigen vector *)
Definition lvec (l : list F) : vec F := fun i => nth i l zero.

(** ilqr.hpp:51-54 iLQR(prob) and 124-131 InitializeFromProblem.  The solver shares the problem's initial state; its contents are
    recorded at construction. *)
Definition il_of_problem (on om : option nat) (h : heap F) (p : Prob F (UCost F)) : res (ILQR F (UCost F)) :=
  do N <- pr_segments p ;
  do ks <- il_copy_problem debug on om N h p 0 (N + 1) ;
  Ok (il_make (Z.to_nat N) (fun i => nth i (h_get (pr_init p) h) zero) ks).

(** * TripleIntegratorProblem<dof> *)
(** triple_integrator.hpp:28-35 *)
Record TIP := mkTIP { ti_N : Z; ti_h : F; ti_Q : mat F; ti_R : mat F; ti_Qf : mat F; ti_xf : list F; ti_x0 : list F; ti_ubnd : list F }.
(** 28-43: default member initialisers and constructor; [h] is a float *)
Definition ti_new (dof : nat) : TIP :=
  mkTIP 10 (tof32 (lit 1 10)) (mdiag one) (mdiag (lit 1 1000)) (mdiag (ofZ 100000))
    (map (fun i => if Nat.ltb i dof then ofZ (Z.of_nat i + 1) else zero) (seq 0 (3 * dof)))
    (map (fun i => if Nat.ltb i dof then ofZ (- (Z.of_nat i + 1)) else zero) (seq 0 (3 * dof)))
    (map (fun i => ofZ (100 * (Z.of_nat i + 1))) (seq 0 dof)).
(** 65: TripleIntegrator(dof) under an integrator; the object copied into every segment has buffers [st] *)
Definition ti_model (dof : nat) (st : RK4 F) : Model F :=
  mkModel (Z.of_nat (3 * dof)) (Z.of_nat dof) (disc_rk4 (3 * dof) dof (triple dof) st).
(** 78-83: the bounds -ubnd[i], +ubnd[i] for i < dof; ubnd[i] reads out of range when the user shortened the vector *)
Fixpoint ti_bounds (ubnd : list F) (i cnt : nat) : res (list F * list F) :=
  match cnt with
  | O => Ok ([], [])
  | S c => match nth_error ubnd i with
           | None => UB
           | Some b => do (lb, ub) <- ti_bounds ubnd (S i) c ; Ok (opp b :: lb, b :: ub)
           end
  end.
(** 45-96 MakeProblem<RungeKutta4>(add_constraints) with the returned local elided.  51: [uref] is constructed with its size
    only, so its m numbers are whatever the memory holds. *)
Definition ti_make (dof : nat) (uref : vec F) (st : RK4 F) (add_constraints : bool) (t : TIP) (h : heap F) : res (heap F * Prob F (UCost F)) :=
  let n := (3 * dof)%nat in let m := dof in let N := ti_N t in
  do s0 <- pr_new N h ;
  let xref := lvec (ti_xf t) in
  do qterm <- lqr_cost n m (ti_Qf t) (mscale zero (ti_R t)) xref uref true ;
  do s1 <- for_z (zseq 0 (Z.to_nat N)) (fun k s => do qcost <- lqr_cost n m (ti_Q t) (ti_R t) xref uref false ; pr_step debug (PCost (Some qcost) k) s) s0 ;
  do s2 <- pr_step debug (PCost (Some qterm) N) s1 ;
  do s3 <- for_z (zseq 0 (Z.to_nat N)) (fun k s => pr_step debug (PDyn (Some (ti_model dof st)) k) s) s2 ;
  do s4 <- pr_step debug (PInit (ti_x0 t)) s3 ;
  if add_constraints then
    do (lb, ub) <- ti_bounds (ti_ubnd t) 0 dof ;
    do s5 <- for_z (zseq 0 (Z.to_nat N)) (fun k s => do bnd <- cb_make dmax debug lb ub ; pr_step debug (PCon Inequality (cb_con n bnd) k) s) s4 ;
    pr_step debug (PCon Equality (goal_con n (lvec (ti_xf t))) N) s5
  else Ok s4.
(** 98-103 InitialTrajectory (N not negative) *)
Definition ti_trajectory (t : TIP) : Traj F := traj_set_uniform_step (ti_h t) (traj_zero (Z.to_nat (ti_N t))).

(** * UnicycleProblem *)
Context (pi : F) (scos ssin : F -> F).
(** unicycle.hpp:38-60, 79-80; scenario_ is a bool, true for kThreeObstacles *)
Record UNP := mkUNP { un_N : Z; un_Q : mat F; un_R : mat F; un_Qf : mat F; un_xf : list F; un_x0 : list F; un_u0 : list F; un_uref : list F;
                      un_v : F; un_w : F; un_lb : list F; un_ub : list F; un_obs : CC F; un_three : bool; un_tf : F; un_st : RK4 F }.
Definition un_new : UNP :=
  mkUNP 100 (mdiag (lit 1 100)) (mdiag (lit 1 100)) (mdiag (ofZ 100)) [lit 15 10; lit 15 10; div pi (ofZ 2)] [zero; zero; zero]
    [lit 1 10; lit 1 10] [zero; zero] (lit 15 10) (lit 15 10) [] [] cc_new false (tof32 (ofZ 3)) rk_init.
(** 74 SetScenario *)
Definition un_set_scenario (three : bool) (s : UNP) : UNP :=
  mkUNP (un_N s) (un_Q s) (un_R s) (un_Qf s) (un_xf s) (un_x0 s) (un_u0 s) (un_uref s) (un_v s) (un_w s) (un_lb s) (un_ub s) (un_obs s) three (un_tf s) (un_st s).
(** 76 GetTimeStep: a float division *)
Definition un_step (N : Z) (tf : F) : F := tof32 (div tf (tof32 (ofZ N))).
Definition un_time_step (s : UNP) : F := un_step (un_N s) (un_tf s).
(** unicycle.cpp:16-30: the turn scenario *)
Definition un_turn (s : UNP) : UNP :=
  let tf := tof32 (ofZ 3) in let h := un_step (un_N s) tf in
  mkUNP (un_N s) (set_diag (mul (lit 1 100) h) (un_Q s)) (set_diag (mul (lit 1 100) h) (un_R s)) (set_diag (ofZ 100) (un_Qf s))
    (un_xf s) (un_x0 s) (un_u0 s) (un_uref s) (un_v s) (un_w s) [opp (un_v s); opp (un_w s)] [un_v s; un_w s] (un_obs s) (un_three s) tf (un_st s).
(** 43-52: the obstacles, scaled by 3 *)
Definition un_circles : CC F :=
  fold_left (fun c p => cc_add (mkCircle (mul (fst p) (ofZ 3)) (mul (snd p) (ofZ 3)) (lit 425 1000)) c)
    [(lit 25 100, lit 25 100); (lit 50 100, lit 50 100); (lit 75 100, lit 75 100)] cc_new.
(** 31-56: the obstacle scenario *)
Definition un_avoid (s : UNP) : UNP :=
  let tf := tof32 (ofZ 5) in let h := un_step (un_N s) tf in
  mkUNP (un_N s) (set_diag (mul one h) (un_Q s)) (set_diag (mul half h) (un_R s)) (set_diag (ofZ 10) (un_Qf s))
    [ofZ 3; ofZ 3; zero] [zero; zero; zero] [lit 1 100; lit 1 100] (un_uref s) (un_v s) (un_w s) [zero; ofZ (-3)] [ofZ 3; ofZ 3] un_circles (un_three s) tf (un_st s).
Definition un_model (s : UNP) : Model F := mkModel 3 2 (disc_rk4 3 2 (unicycle scos ssin) (un_st s)).
(** 11-89 MakeProblem(add_constraints); returns the changed object as well *)
Definition un_make (add_constraints : bool) (s : UNP) (h : heap F) : res (heap F * Prob F (UCost F) * UNP) :=
  let N := un_N s in
  do s0 <- pr_new N h ;
  let u := if un_three s then un_avoid s else un_turn s in
  (** 57-61 *)
  do s1 <- (if un_three s
            then for_z (zseq 1 (Z.to_nat (N - 1))) (fun k p => pr_step debug (PCon Inequality (cc_con (un_obs u)) k) p) s0
            else Ok s0) ;
  (** 64-72 *)
  let xf := lvec (un_xf u) in let uref := lvec (un_uref u) in
  do s2 <- for_z (zseq 0 (Z.to_nat N)) (fun k p => do qcost <- lqr_cost 3 2 (un_Q u) (un_R u) xf uref false ; pr_step debug (PCost (Some qcost) k) p) s1 ;
  do qterm <- lqr_cost 3 2 (un_Qf u) (mscale zero (un_R u)) xf uref true ;
  do s3 <- pr_step debug (PCost (Some qterm) N) s2 ;
  (** 74-77 *)
  do s4 <- for_z (zseq 0 (Z.to_nat N)) (fun k p => pr_step debug (PDyn (Some (un_model u)) k) p) s3 ;
  (** 79-85 *)
  do s5 <- (if add_constraints
            then do p <- for_z (zseq 0 (Z.to_nat N)) (fun k p => do bnd <- cb_make dmax debug (un_lb u) (un_ub u) ; pr_step debug (PCon Inequality (cb_con 3 bnd) k) p) s4 ;
                 pr_step debug (PCon Equality (goal_con 3 xf) N) p
            else Ok s4) ;
  (** 87-88 *)
  do s6 <- pr_step debug (PInit (un_x0 u)) s5 ;
  Ok (s6, u).
(** unicycle.hpp:83-92 InitialTrajectory (N not negative) *)
Definition un_trajectory (s : UNP) : Traj F :=
  traj_set_uniform_step (un_time_step s) (map (kp_set_u (lvec (un_u0 s))) (repeat kp_zero (Z.to_nat (un_N s))) ++ [kp_zero]).
(** 94-109 MakeSolver<n_size, m_size>(false): on = Some 3 or None, om = Some 2 or None for fixed and dynamic sizes *)
Definition un_solver (on om : option nat) (s : UNP) (h : heap F) : res (ILQR F (UCost F) * UNP) :=
  do ((h1, p), u) <- un_make true s h ;
  do sol <- il_of_problem on om h1 p ;
  let Z := un_trajectory u in
  let sol := il_set_trajectory Z sol in
  Ok (il_set_Z sol (Some (il_rollout 3 Z sol)), u).
(** 111-121 MakeALSolver *)
Definition un_al_solver (elide : bool) (on om : option nat) (s : UNP) (h : heap F) : res (AlModel.ALS F * UNP) :=
  do ((h1, p), u) <- un_make true s h ;
  do (a, _) <- as_of_problem debug elide on om h1 p ;
  let Z := un_trajectory u in
  let sol := il_set_trajectory Z (AlModel.as_il a) in
  Ok (AlModel.mkALS (il_set_Z sol (Some (il_rollout 3 Z sol))) (AlModel.as_status a), u).
End Problems.
Arguments TIP F : clear implicits. Arguments UNP F : clear implicits.
