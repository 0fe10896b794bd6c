(** iLQR::Solve and AugmentedLagrangianiLQR::Solve with the expansions computed by the thread pool (ilqr.hpp:284-316, 350-366, 679-738;
    al_solver.hpp:305-334).  The pool is PoolModel.v, the task data TaskModel.v; everything the solving thread does between two uses of the
    pool is IlqrModel.v, AlModel.v.  A solve is a relation: it holds for every schedule of the solving thread and the workers.
    Not in the relation: launches that throw (the exception leaves Solve) and waits that give up on a task (C34_timeout_refuted). *)
From Coq Require Import List ZArith Bool.
From Verif Require Import Base Lin StatsModel LogModel TrajModel IlqrModel CostInst ConModel AlModel PoolSpec PoolModel TaskModel.
Import ListNotations.
Local Open Scope Z_scope.

(** the calls a thread makes on a pool *)
Inductive ask {M : Type} := AAdd (b : body M) | AWait | ALaunch (k : nat) | AStop | ANum | ADestroy.
Arguments ask M : clear implicits.
Definition asked {M} (H : list (pev M)) : list (ask M) :=
  flat_map (fun e => match e with
                     | EAdd _ b => [AAdd b] | EWait => [AWait] | ELaunch k => [ALaunch k] | EStop => [AStop]
                     | ENumTasks => [ANum] | EDestroy => [ADestroy] | _ => []
                     end) H.

Section Par.
Context {F : Scalar} {CS : Type} (ops : CostOps F CS) (n m : nat) (cb : list CS -> F) (rnd : F -> Z).
Notation ILQR := (ILQR F CS). Notation mem := (@mem F CS).
(** the pool of a solver: what has happened to it and its state *)
Definition Pool : Type := list (pev mem) * pst mem.

(** ilqr.hpp:707-738 LaunchThreads: what it asks of the pool (the task data is TaskModel.launch) *)
Definition launch_asks (N nt tpt : Z) (t : Tasks) : list (ask mem) :=
  if (t_pool t =? 0) && (nt =? 1) then []
  else match (if 0 <? N then if negb (nt =? t_pool t) then Ok true else should_redo nt tpt t else Ok false) with
       | Ok true => (if 0 <? t_pool t then [AStop] else []) ++ (if 1 <? nt then [ALaunch (Z.to_nat nt)] else [])
       | _ => []
       end.
(** the solving thread makes these calls and they return, in any schedule *)
Definition pool_does (debug : bool) (asks : list (ask mem)) (p p' : Pool) : Prop :=
  exists sched H, p_exec debug sched (snd p) = Ok (H, snd p') /\ fst p' = fst p ++ H /\ asked H = asks /\
    calling (fst p') = None /\ no_timeout H /\ ~ In EThrown H.

(** ilqr.hpp:350-366 UpdateExpansions; Zt: the trajectory; the result is what is then stored in knotpoints_ and costs_.
    The run is cut at the return of Wait: idle turns of the workers after it belong to the next use of the pool. *)
Inductive par_update (debug : bool) (N : Z) (t : Tasks) (Zt : Traj F) (s : ILQR) : Pool -> mem -> Pool -> Prop :=
| PU_serial p : t_pool t <= 1 -> par_update debug N t Zt s p (update_serial ops n m N Zt (Ok (il_kps s, il_costs s))) p
| PU_pool H q sched H' q' : 1 < t_pool t ->
    p_exec debug sched (set_mem q (Ok (il_kps s, il_costs s))) = Ok (H' ++ [EWaited], q') ->
    asked H' = map AAdd (update_tasks ops n m t Zt) ++ [AWait] -> no_timeout H' ->
    par_update debug N t Zt s (H, q) (p_mem q') (H ++ H' ++ [EWaited], q').

(** ilqr.hpp:302-312: the rest of an iteration, after UpdateExpansions *)
Definition il_rest (fuel : nat) (Z : Traj F) (s1 : ILQR) : res (bool * ILQR) :=
  do s2 <- il_backward_pass n m fuel s1 ;
  let s3 := il_forward_pass ops n m Z s2 in
  do Z' <- il_get_Z s3 ;
  do s4 <- il_update_stats m cb Z' s3 ;
  do s5 <- (if kInner <=? lg_level (st_log (il_stats s4))
            then do st <- st_print_last (il_stats s4) ; Ok (il_set_stats s4 st)
            else Ok s4) ;
  il_is_done s5.
(** an iteration either ends the loop (with a result or a failure) or is followed by another one *)
Definition outcome (r : res (bool * ILQR)) : res ILQR + ILQR :=
  match r with
  | Ok (true, s) => inl (Ok s) | Ok (false, s) => inr s
  | Abort => inl Abort | UB => inl UB | Throw => inl Throw | Deadlock => inl Deadlock | Fuel => inl Fuel
  end.
(** ilqr.hpp:300-313 *)
Inductive par_loop (debug : bool) (fuel : nat) (t : Tasks) : nat -> ILQR -> Pool -> res ILQR -> Pool -> Prop :=
| PL_end s p : par_loop debug fuel t 0 s p (Ok s) p
| PL_stop it s p Z r p1 q : il_Z s = Some Z -> par_update debug (Z.of_nat (il_N s)) t Z s p r p1 ->
    outcome (do (ks, cs) <- r ; il_rest fuel Z (il_set_costs s cs ks)) = inl q -> par_loop debug fuel t (S it) s p q p1
| PL_next it s p Z r p1 s1 q p2 : il_Z s = Some Z -> par_update debug (Z.of_nat (il_N s)) t Z s p r p1 ->
    outcome (do (ks, cs) <- r ; il_rest fuel Z (il_set_costs s cs ks)) = inr s1 -> par_loop debug fuel t it s1 p1 q p2 ->
    par_loop debug fuel t (S it) s p q p2.
(** a failure of one kind of call is the failure of the caller *)
Definition failed {A B} (e : res A) : res B := do _ <- e ; Abort.
(** ilqr.hpp:284-316 Solve with the thread options nt, tpt.  LaunchThreads is called by SolveSetup (il_begin); the rollout after it does not use
    the pool; what can fail in il_begin comes before LaunchThreads.  [tf]: fuel of the loop in DefaultTaskAssignment. *)
Inductive par_solve (debug : bool) (fuel tf : nat) (nt tpt : Z) (s : ILQR) (t : Tasks) (p : Pool) : res ILQR -> Tasks -> Pool -> Prop :=
| PS_begin e : il_begin ops n debug s = e -> (forall s1, e <> Ok s1) -> par_solve debug fuel tf nt tpt s t p e t p
| PS_launch s1 e : il_begin ops n debug s = Ok s1 -> launch rnd tf debug (Z.of_nat (il_N s)) nt tpt t = e -> (forall t1, e <> Ok t1) ->
    par_solve debug fuel tf nt tpt s t p (failed e) t p
| PS_run s1 t1 p1 q p2 : il_begin ops n debug s = Ok s1 -> launch rnd tf debug (Z.of_nat (il_N s)) nt tpt t = Ok t1 ->
    pool_does debug (launch_asks (Z.of_nat (il_N s)) nt tpt t) p p1 ->
    par_loop debug fuel t1 (Z.to_nat (o_max_inner (il_opts s1))) s1 p1 q p2 -> par_solve debug fuel tf nt tpt s t p q t1 p2.

(** a user of one solver: changes it (options, trajectory, cost objects, initial state, ...), reads or sets the task assignment, solves with the
    thread options then in force *)
Inductive uop := UEdit (f : ILQR -> ILQR) | UGetTasks (nt tpt : Z) | USetTasks (inds : list Z) | USolve (nt tpt : Z).
Inductive par_run (debug : bool) (fuel tf : nat) : list uop -> ILQR -> Tasks -> Pool -> res ILQR -> Tasks -> Pool -> Prop :=
| PR_nil s t p : par_run debug fuel tf [] s t p (Ok s) t p
| PR_edit f os s t p q t' p' : par_run debug fuel tf os (f s) t p q t' p' -> par_run debug fuel tf (UEdit f :: os) s t p q t' p'
| PR_get nt tpt os s t t1 p q t' p' : get_tasks rnd tf debug (Z.of_nat (il_N s)) nt tpt t = Ok t1 ->
    par_run debug fuel tf os s t1 p q t' p' -> par_run debug fuel tf (UGetTasks nt tpt :: os) s t p q t' p'
| PR_get_fail nt tpt os s t p e : get_tasks rnd tf debug (Z.of_nat (il_N s)) nt tpt t = e -> (forall t1, e <> Ok t1) ->
    par_run debug fuel tf (UGetTasks nt tpt :: os) s t p (failed e) t p
| PR_set_fail inds os s t p e : set_tasks debug (Z.of_nat (il_N s)) inds t = e -> (forall t1, e <> Ok t1) ->
    par_run debug fuel tf (USetTasks inds :: os) s t p (failed e) t p
| PR_set inds os s t t1 p q t' p' : set_tasks debug (Z.of_nat (il_N s)) inds t = Ok t1 ->
    par_run debug fuel tf os s t1 p q t' p' -> par_run debug fuel tf (USetTasks inds :: os) s t p q t' p'
| PR_solve nt tpt os s t p s1 t1 p1 q t' p' : par_solve debug fuel tf nt tpt s t p (Ok s1) t1 p1 ->
    par_run debug fuel tf os s1 t1 p1 q t' p' -> par_run debug fuel tf (USolve nt tpt :: os) s t p q t' p'
| PR_fail nt tpt os s t p e t1 p1 : par_solve debug fuel tf nt tpt s t p e t1 p1 -> (forall s1, e <> Ok s1) ->
    par_run debug fuel tf (USolve nt tpt :: os) s t p e t1 p1.
End Par.
Arguments Pool F CS : clear implicits. Arguments uop F CS : clear implicits.

(** al_solver.hpp:305-334 on top of the inner solve above *)
Section ParAl.
Context {F : Scalar} (n m : nat) (rnd : F -> Z).
Notation IL := (ILQR F (ALCost F)). Notation Pool := (Pool F (ALCost F)).
(** al_solver.hpp:316-332: the rest of an outer iteration, after the inner solve *)
Definition as_rest (s1 : IL) : res (option status * IL) :=
  let s2 := il_map_costobjs al_update_duals s1 in
  let s3 := as_update_stats s2 in
  let logging := kInner <=? lg_level (st_log (il_stats s3)) in
  do s4 <- (if logging then Ok s3 else do st <- st_print_last (il_stats s3) ; Ok (il_set_stats s3 st)) ;
  do d <- as_is_done s4 ;
  match d with
  | Some e => Ok (Some e, s4)
  | None =>
      let s5 := if logging then il_set_stats s4 (st_print_header (il_stats s4)) else s4 in
      Ok (None, il_map_costobjs al_update_penalties s5)
  end.
Definition as_outcome (a : ALS F) (r : res (option status * IL)) : res (ALS F) + ALS F :=
  match r with
  | Ok (Some e, s) => inl (Ok (mkALS s e)) | Ok (None, s) => inr (mkALS s (as_status a))
  | Abort => inl Abort | UB => inl UB | Throw => inl Throw | Deadlock => inl Deadlock | Fuel => inl Fuel
  end.
Inductive par_al_loop (debug : bool) (fuel tf : nat) (nt tpt : Z) : nat -> ALS F -> Tasks -> Pool -> res (ALS F) -> Tasks -> Pool -> Prop :=
| PAL_end a t p : par_al_loop debug fuel tf nt tpt 0 a t p (Ok a) t p
| PAL_stop it a t p r t1 p1 q : par_solve al_ops n m als_max_violation rnd debug fuel tf nt tpt (as_il a) t p r t1 p1 ->
    as_outcome a (do s1 <- r ; as_rest s1) = inl q -> par_al_loop debug fuel tf nt tpt (S it) a t p q t1 p1
| PAL_next it a t p r t1 p1 a1 q t2 p2 : par_solve al_ops n m als_max_violation rnd debug fuel tf nt tpt (as_il a) t p r t1 p1 ->
    as_outcome a (do s1 <- r ; as_rest s1) = inr a1 -> par_al_loop debug fuel tf nt tpt it a1 t1 p1 q t2 p2 ->
    par_al_loop debug fuel tf nt tpt (S it) a t p q t2 p2.
Inductive par_al_solve (debug : bool) (fuel tf : nat) (nt tpt : Z) (a : ALS F) (t : Tasks) (p : Pool) : res (ALS F) -> Tasks -> Pool -> Prop :=
| PAS_init e : as_init debug (as_il a) = e -> (forall s, e <> Ok s) -> par_al_solve debug fuel tf nt tpt a t p (do s <- e ; Ok (mkALS s (as_status a))) t p
| PAS_run s q t1 p1 : as_init debug (as_il a) = Ok s ->
    par_al_loop debug fuel tf nt tpt (Z.to_nat (o_max_outer (il_opts s))) (mkALS s (as_status a)) t p q t1 p1 ->
    par_al_solve debug fuel tf nt tpt a t p q t1 p1.
End ParAl.
