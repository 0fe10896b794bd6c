(** Model of altro/augmented_lagrangian/al_solver.hpp (class AugmentedLagrangianiLQR).

    costs_[k] and the cost object of knot point k of the iLQR solver are the same shared object
    (al_problem.hpp:42-47, ilqr.hpp:119-121), so the model keeps only the latter.  Stopwatches and the profiler
    are omitted.  InitializeFromProblem is assumed to have been called once on an empty solver (a second call
    appends to costs_ and knotpoints_). *)
From Coq Require Import ZArith String List Bool.
From Verif Require Import Base Lin ConModel LogModel StatsModel TrajModel IlqrModel CostInst.
Import ListNotations.
Local Open Scope Z_scope.

Section Al.
Context {F : Scalar} (n m : nat).

(** al_solver.hpp:224-227 *)
Record ALS := mkALS { as_il : ILQR F (ALCost F); as_status : status }.
(** costs_ *)
Definition il_costobjs (s : ILQR F (ALCost F)) : list (ALCost F) := map kp_cost (il_kps s).
Definition as_costs (a : ALS) : list (ALCost F) := il_costobjs (as_il a).
Fixpoint kps_set_costs (cs : list (ALCost F)) (kps : list (KPF F (ALCost F))) : list (KPF F (ALCost F)) :=
  match cs, kps with c :: cs', k :: ks => kpf_set_cost c k :: kps_set_costs cs' ks | _, _ => kps end.
Definition il_set_costobjs (cs : list (ALCost F)) (s : ILQR F (ALCost F)) : ILQR F (ALCost F) :=
  il_set_kps s (kps_set_costs cs (il_kps s)).
Definition il_map_costobjs (f : ALCost F -> ALCost F) (s : ILQR F (ALCost F)) : ILQR F (ALCost F) :=
  il_set_costobjs (map f (il_costobjs s)) s.

(** al_solver.hpp:234-257: construction from the data of BuildAugLagProblem: per knot point its dynamics, user
    cost, equality and inequality constraints *)
Definition as_make (N : nat) (x0 : vec F) (ks : list (Dyn F * (UCost F * list (Con F) * list (Con F)))) : ALS :=
  mkALS (il_make N x0 (map (fun p => (fst p, al_make n m (fst (fst (snd p))) (snd (fst (snd p))) (snd (snd p)))) ks)) kUnsolved.

(** al_solver.hpp:403-407 MaxViolation(); ilqr.hpp:326-334.  Null or wrongly sized trajectories are UB. *)
Definition il_recost (debug : bool) (s : ILQR F (ALCost F)) : res (ILQR F (ALCost F)) :=
  do _ <- altro_assert debug (match il_Z s with Some _ => true | None => false end) ;
  do Z <- il_get_Z s ;
  do _ <- (if Nat.eqb (length Z) (S (il_N s)) && Nat.eqb (length (il_kps s)) (S (il_N s)) then Ok tt else UB) ;
  Ok (snd (il_cost al_ops Z s)).

(** al_solver.hpp:288-303 Init *)
Definition as_init (debug : bool) (s : ILQR F (ALCost F)) : res (ILQR F (ALCost F)) :=
  let o := il_opts s in
  let s1 := if o_reset_duals o then il_map_costobjs al_reset_duals s else s in
  do s2 <- (if ltb zero (o_init_pen o)
            then do cs <- als_set_penalty debug (o_init_pen o) (il_costobjs s1) ; Ok (il_set_costobjs cs s1)
            else Ok s1) ;
  do st <- st_reset debug o (il_stats s2) ;
  let st1 := st_logZ "iter_al" 0 st in
  do s3 <- il_recost debug (il_set_stats s2 st1) ;
  let st2 := st_logF "viol" (als_max_violation (il_costobjs s3)) (il_stats s3) in
  let st3 := st_logF "pen" (als_max_penalty (il_costobjs s3)) st2 in
  Ok (il_set_stats s3 st3).

(** al_solver.hpp:360-369 UpdateConvergenceStatistics *)
Definition as_update_stats (s : ILQR F (ALCost F)) : ILQR F (ALCost F) :=
  let st := il_stats s in
  let st1 := st_set_counts st (st_initial_cost st) (st_inner st) (st_outer st + 1) (st_total st) in
  let st2 := st_logF "viol" (als_max_violation (il_costobjs s)) st1 in
  let st3 := st_logF "pen" (als_max_penalty (il_costobjs s)) st2 in
  il_set_stats s (st_logZ "iter_al" (st_outer st3) st3).

(** al_solver.hpp:371-401 IsDone: [None] = continue, status_ unchanged *)
Definition as_is_done (s : ILQR F (ALCost F)) : res (option status) :=
  let st := il_stats s in let o := il_opts s in
  do v <- st_back "viol" st ;
  do p <- st_back "pen" st ;
  Ok (if negb (status_eqb (il_status s) kSolved) then Some (il_status s)
      else if ltb v (o_con_tol o) then Some kSolved
      else if ltb (o_max_pen o) p then Some kMaxPenalty
      else if o_max_outer o <=? st_outer st then Some kMaxOuterIterations
      else if o_max_total o <=? st_total st then Some kMaxIterations
      else None).

(** al_solver.hpp:314-336: one pass of the loop *)
Definition as_iteration (debug : bool) (fuel : nat) (s : ILQR F (ALCost F)) : res (option status * ILQR F (ALCost F)) :=
  do s1 <- il_solve al_ops n m als_max_violation debug fuel s ;
  let s2 := il_map_costobjs al_update_duals s1 in
  let s3 := as_update_stats s2 in
  let logging := kInner <=? lg_level (st_log (il_stats s3)) in
  do s4 <- (if logging then Ok s3 else do st <- st_print_last (il_stats s3) ; Ok (il_set_stats s3 st)) ;
  do d <- as_is_done s4 ;
  match d with
  | Some e => Ok (Some e, s4)
  | None =>
      let s5 := if logging then il_set_stats s4 (st_print_header (il_stats s4)) else s4 in
      Ok (None, il_map_costobjs al_update_penalties s5)
  end.
Fixpoint as_loop (debug : bool) (fuel : nat) (iters : nat) (a : ALS) : res ALS :=
  match iters with
  | O => Ok a
  | S it =>
      do (d, s) <- as_iteration debug fuel (as_il a) ;
      match d with
      | Some e => Ok (mkALS s e)
      | None => as_loop debug fuel it (mkALS s (as_status a))
      end
  end.
(** al_solver.hpp:305-337 Solve *)
Definition as_solve (debug : bool) (fuel : nat) (a : ALS) : res ALS :=
  do s <- as_init debug (as_il a) ;
  as_loop debug fuel (Z.to_nat (o_max_outer (il_opts s))) (mkALS s (as_status a)).
End Al.
Arguments ALS F : clear implicits.
