(** Model of solver objects and their relation to the problems they are built from: constructors, CopyFromProblem, InitializeFromProblem and
    the move constructor of iLQR (ilqr.hpp:50-71, 97-133), constructors, InitializeFromProblem and the implicit move constructor of
    AugmentedLagrangianiLQR (al_solver.hpp:35-38, 230-249).  Only what ties a solver to a problem is kept: N_, initial_state_,
    is_initial_state_set, knotpoints_, costs_ and the callback.  Statistics of moved solvers are StatsMoveModel.v, threads TaskModel.v. *)
From Coq Require Import ZArith List Bool.
From Verif Require Import Base Lin ConModel LogModel StatsModel TrajModel IlqrModel CostInst AlModel ProblemModel TaskModel.
Import ListNotations.
Local Open Scope Z_scope.

Section Obj.
Context {F : Scalar} {C : Type}.
(** ilqr.hpp:788-812; [so_cell]: the vector initial_state_ points to (None: null) *)
Record Sol := mkSol { so_N : Z; so_cell : option nat; so_set : bool; so_kps : list (Dyn F * C) }.
(** ilqr.hpp:50 iLQR(N); ResetInternalVariables does not touch these members *)
Definition so_new (N : Z) : Sol := mkSol N None false [].
(** ilqr.hpp:97-123 CopyFromProblem appends the knot points and captures the pointer to the initial state *)
Definition so_copy (debug : bool) (on om : option nat) (h : heap F) (p : Prob F C) (k_start k_stop : Z) (s : Sol) : res Sol :=
  do l <- il_copy_problem debug on om (so_N s) h p k_start k_stop ;
  Ok (mkSol (so_N s) (Some (pr_init p)) true (so_kps s ++ l)).
(** ilqr.hpp:125-133 InitializeFromProblem *)
Definition so_init (debug : bool) (on om : option nat) (h : heap F) (p : Prob F C) (s : Sol) : res Sol :=
  do _ <- assert_N debug p (fun N => N =? so_N s) ;
  so_copy debug on om h p 0 (so_N s + 1) s.
(** ilqr.hpp:51-54 iLQR(prob) *)
Definition so_of (debug : bool) (on om : option nat) (h : heap F) (p : Prob F C) : res Sol :=
  do N <- pr_segments p ;
  so_init debug on om h p (mkSol N (Some (pr_init p)) false []).
(** ilqr.hpp:58-71 move constructor: the new object and what is left of the source *)
Definition so_move (s : Sol) : Sol * Sol := (s, mkSol (so_N s) None (so_set s) []).
(** CopyFromProblem called for the ranges [c0, c1), [c1, c2), ... *)
Fixpoint so_ranges (debug : bool) (on om : option nat) (h : heap F) (p : Prob F C) (cuts : list Z) (s : Sol) : res Sol :=
  match cuts with
  | a :: ((b :: _) as r) => do s' <- so_copy debug on om h p a b s ; so_ranges debug on om h p r s'
  | _ => Ok s
  end.
(** what Solve works on (ilqr.hpp:285, 453-459 and the loops over 0..N_): the contents of *initial_state_ and the first N_+1 entries of
    knotpoints_ *)
Definition so_data (debug : bool) (h : heap F) (s : Sol) : res (list F * list (Dyn F * C)) :=
  do _ <- altro_assert debug (so_set s) ;
  match so_cell s with
  | None => UB
  | Some l =>
      let K := Z.to_nat (so_N s + 1) in
      if Nat.leb K (length (so_kps s)) then Ok (h_get l h, firstn K (so_kps s)) else UB
  end.

(** A program with several problems and iLQR solvers. *)
Record World := mkW { w_heap : heap F; w_probs : list (Prob F C); w_sols : nat -> option Sol }.
Inductive wop :=
| WNew (N : Z)                             (* Problem(N) *)
| WSet (i : nat) (o : pop F C)             (* a setter of problem i *)
| WAssign (i j : nat)                      (* problem i = problem j *)
| WSolver (a : nat) (N : Z)                (* iLQR(N) at address a *)
| WSolverOf (a i : nat)                    (* iLQR(problem i) at address a *)
| WCopy (a i : nat) (k_start k_stop : Z)
| WInit (a i : nat)
| WMove (a b : nat)                        (* iLQR at address b move-constructed from a *)
| WFree (a : nat).
Definition sput (a : nat) (s : option Sol) (m : nat -> option Sol) : nat -> option Sol := fun b => if Nat.eqb b a then s else m b.
Definition w_prob (w : World) (i : nat) : res (Prob F C) := match nth_error (w_probs w) i with Some p => Ok p | None => UB end.
Definition w_sol (w : World) (a : nat) : res Sol := match w_sols w a with Some s => Ok s | None => UB end.
Definition w_fresh (w : World) (a : nat) : res unit := match w_sols w a with Some _ => UB | None => Ok tt end.
Definition w_step (debug : bool) (on om : option nat) (o : wop) (w : World) : res World :=
  match o with
  | WNew N => do (h, p) <- pr_new N (w_heap w) ; Ok (mkW h (w_probs w ++ [p]) (w_sols w))
  | WSet i o => do p <- w_prob w i ; do (h, p') <- pr_step debug o (w_heap w, p) ;
                Ok (mkW h (upd i (fun _ => p') (w_probs w)) (w_sols w))
  | WAssign i j => do p <- w_prob w i ; do q <- w_prob w j ; let (h, p') := pr_assign (w_heap w) p q in
                   Ok (mkW h (upd i (fun _ => p') (w_probs w)) (w_sols w))
  | WSolver a N => do _ <- w_fresh w a ; Ok (mkW (w_heap w) (w_probs w) (sput a (Some (so_new N)) (w_sols w)))
  | WSolverOf a i => do _ <- w_fresh w a ; do p <- w_prob w i ; do s <- so_of debug on om (w_heap w) p ;
                     Ok (mkW (w_heap w) (w_probs w) (sput a (Some s) (w_sols w)))
  | WCopy a i k0 k1 => do s <- w_sol w a ; do p <- w_prob w i ; do s' <- so_copy debug on om (w_heap w) p k0 k1 s ;
                       Ok (mkW (w_heap w) (w_probs w) (sput a (Some s') (w_sols w)))
  | WInit a i => do s <- w_sol w a ; do p <- w_prob w i ; do s' <- so_init debug on om (w_heap w) p s ;
                 Ok (mkW (w_heap w) (w_probs w) (sput a (Some s') (w_sols w)))
  | WMove a b => do s <- w_sol w a ; do _ <- w_fresh w b ;
                 Ok (mkW (w_heap w) (w_probs w) (sput b (Some (fst (so_move s))) (sput a (Some (snd (so_move s))) (w_sols w))))
  | WFree a => do _ <- w_sol w a ; Ok (mkW (w_heap w) (w_probs w) (sput a None (w_sols w)))
  end.
Fixpoint w_run (debug : bool) (on om : option nat) (os : list wop) (w : World) : res World :=
  match os with [] => Ok w | o :: r => do w' <- w_step debug on om o w ; w_run debug on om r w' end.
End Obj.
Arguments Sol F C : clear implicits. Arguments World F C : clear implicits. Arguments wop F C : clear implicits.

(** Augmented-Lagrangian solver objects *)
Section AlObj.
Context {F : Scalar}.
(** al_solver.hpp:220-223: ilqr_solver_, costs_, and the object captured by the callback ([None]: the default callback, which returns 0) *)
Record AlObj := mkAl { ao_sol : Sol F (ALCost F); ao_costs : list (ALCost F); ao_cb : option nat }.
(** al_solver.hpp:35 *)
Definition ao_new (N : Z) : AlObj := mkAl (so_new N) [] None.
(** al_solver.hpp:238-249 InitializeFromProblem of the object at address a; BuildAugLagProblem appends to costs_; the callback captures this *)
Definition ao_init (debug elide : bool) (on om : option nat) (a : nat) (h : heap F) (p : Prob F (UCost F)) (o : AlObj) : res (heap F * AlObj) :=
  do N <- pr_segments p ;
  do (h1, q, cs) <- build_al debug elide h p (ao_costs o) ;
  do _ <- altro_assert debug (Z.of_nat (length cs) =? N + 1) ;
  do s <- so_copy debug on om h1 q 0 (N + 1) (ao_sol o) ;
  Ok (h1, mkAl s cs (Some a)).
(** al_solver.hpp:230-236 AugmentedLagrangianiLQR(prob) *)
Definition ao_of (debug elide : bool) (on om : option nat) (a : nat) (h : heap F) (p : Prob F (UCost F)) : res (heap F * AlObj) :=
  do N <- pr_segments p ; ao_init debug elide on om a h p (ao_new N).
(** the implicit move constructor: members are moved one by one, the callback with its captured pointer *)
Definition ao_move (o : AlObj) : AlObj * AlObj := (o, mkAl (snd (so_move (ao_sol o))) [] None).
Definition AlMem := nat -> option AlObj.
Definition aput (a : nat) (o : option AlObj) (m : AlMem) : AlMem := fun b => if Nat.eqb b a then o else m b.
(** the cost objects GetMaxViolation (al_solver.hpp:417-424) reads when the callback of o is called (ilqr.hpp:583): those of the captured object *)
Definition cb_reads (m : AlMem) (o : AlObj) : res (list (ALCost F)) :=
  match ao_cb o with
  | None => Ok []
  | Some b =>
      match m b with
      | None => UB
      | Some t => let K := Z.to_nat (so_N (ao_sol t) + 1) in
                  if Nat.leb K (length (ao_costs t)) then Ok (firstn K (ao_costs t)) else UB
      end
  end.
(** the cost objects whose multipliers and penalties the outer loop updates (al_solver.hpp:336-355) *)
Definition ao_updates (o : AlObj) : res (list (ALCost F)) :=
  let K := Z.to_nat (so_N (ao_sol o) + 1) in
  if Nat.leb K (length (ao_costs o)) then Ok (firstn K (ao_costs o)) else UB.
End AlObj.
Arguments AlObj F : clear implicits. Arguments AlMem F : clear implicits.

(** ilqr.hpp:58-71: custom_work_assignment_, tasks_, work_inds_ and pool_ are not in the initialiser list of the move constructor *)
Definition tasks_move (t : Tasks) : Tasks := t_new.
