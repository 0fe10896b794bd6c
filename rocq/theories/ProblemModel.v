(** Model of altro/problem/problem.hpp and problem.cpp (class Problem), of
    altro/augmented_lagrangian/al_problem.hpp (BuildAugLagProblem), of ilqr.hpp CopyFromProblem and of
    al_solver.hpp InitializeFromProblem.

    Pointers to cost functions, models and constraints are modelled by the pointed-to (immutable) object, null
    by [None].  Constraint pointers are assumed non-null (a null one is rejected by an assertion; release builds
    would store it).  The initial state is a heap cell, because problems share it through a shared_ptr. *)
From Coq Require Import ZArith List Bool.
From Verif Require Import Base Lin ConModel LogModel StatsModel TrajModel IlqrModel CostInst AlModel.
Import ListNotations.
Local Open Scope Z_scope.

Section Problem.
Context {F : Scalar}.

(** problem/dynamics.hpp DiscreteDynamics: dimensions and behaviour *)
Record Model := mkModel { md_n : Z; md_m : Z; md_dyn : Dyn F }.
(** problem.hpp:25-53 IdentityDynamics: xnext = x; jac.setIdentity() *)
Definition identity_dyn : Dyn F := mkDyn (fun x _ _ _ _ => x) (fun _ _ _ _ _ => mident).
(** problem.hpp:28-31 constructor with its assertions *)
Definition identity_model (debug : bool) (n m : Z) : res Model :=
  do _ <- altro_assert debug (0 <? n) ;
  do _ <- altro_assert debug (0 <? m) ;
  Ok (mkModel n m identity_dyn).

(** The heap of shared initial-state vectors (std::shared_ptr<VectorXd>). *)
Definition heap := list (list F).
Definition h_get (l : nat) (h : heap) : list F := nth l h [].
Definition h_set (l : nat) (x : list F) (h : heap) : heap := upd l (fun _ => x) h.
Definition h_new (x : list F) (h : heap) : nat * heap := (length h, h ++ [x]).

(** problem.hpp:299-306 data members.  [pr_N = None]: N_ has an indeterminate value. *)
Record Prob (C : Type) := mkProb {
  pr_N : option Z; pr_init : nat;
  pr_costs : list (option C); pr_models : list (option Model);
  pr_eq : list (list (Con F)); pr_ineq : list (list (Con F)) }.
Arguments mkProb {C}. Arguments pr_N {C}. Arguments pr_init {C}. Arguments pr_costs {C}. Arguments pr_models {C}.
Arguments pr_eq {C}. Arguments pr_ineq {C}.

Context {C : Type}.
(** problem.hpp:76-77 Problem(N, initial_state); std::vector(N+1) throws length_error when N+1 < 0 *)
Definition pr_make (N : Z) (l : nat) : res (Prob C) :=
  if N + 1 <? 0 then Throw
  else let k := Z.to_nat (N + 1) in
       Ok (mkProb (Some N) l (repeat None k) (repeat None k) (repeat [] k) (repeat [] k)).
(** ... with the default argument: a fresh empty vector *)
Definition pr_new (N : Z) (h : heap) : res (heap * Prob C) :=
  let (l, h') := h_new [] h in do p <- pr_make N l ; Ok (h', p).

(** reading N_ *)
Definition pr_segments (p : Prob C) : res Z := match pr_N p with Some N => Ok N | None => UB end.
(** vector::operator[] *)
Definition vget {A} (l : list A) (k : Z) : res A :=
  if k <? 0 then UB else match nth_error l (Z.to_nat k) with Some a => Ok a | None => UB end.
Definition vset {A} (l : list A) (k : Z) (f : A -> A) : res (list A) :=
  do _ <- vget l k ; Ok (upd (Z.to_nat k) f l).
(** vector::at *)
Definition vat {A} (l : list A) (k : Z) : res A :=
  if k <? 0 then Throw else match nth_error l (Z.to_nat k) with Some a => Ok a | None => Throw end.
(** an assertion on an expression that reads N_ (not evaluated in release builds) *)
Definition assert_N (debug : bool) (p : Prob C) (c : Z -> bool) : res unit :=
  if debug then do N <- pr_segments p ; altro_assert debug (c N) else Ok tt.

(** problem.hpp:113 SetInitialState *)
Definition pr_set_init (x0 : list F) (h : heap) (p : Prob C) : heap := h_set (pr_init p) x0 h.
(** problem.hpp:121-124 SetCostFunction *)
Definition pr_set_cost (debug : bool) (c : option C) (k : Z) (p : Prob C) : res (Prob C) :=
  do _ <- assert_N debug p (fun N => (0 <=? k) && (k <=? N)) ;
  do cs <- vset (pr_costs p) k (fun _ => c) ;
  Ok (mkProb (pr_N p) (pr_init p) cs (pr_models p) (pr_eq p) (pr_ineq p)).
(** problem.hpp:141-147 the vector overload *)
Fixpoint pr_set_costs (debug : bool) (cs : list (option C)) (k : Z) (p : Prob C) : res (Prob C) :=
  match cs with [] => Ok p | c :: r => do p' <- pr_set_cost debug c k p ; pr_set_costs debug r (k + 1) p' end.
(** problem.hpp:155-166 SetDynamics *)
Definition pr_set_dynamics (debug : bool) (m : option Model) (k : Z) (p : Prob C) : res (Prob C) :=
  do _ <- altro_assert debug (match m with Some _ => true | None => false end) ;
  do _ <- assert_N debug p (fun N => (0 <=? k) && (k <? N)) ;
  do N <- pr_segments p ;
  do ms <- (if k =? N - 1
            then match m with
                 | None => UB
                 | Some md => do idm <- identity_model debug (md_n md) (md_m md) ;
                              do _ <- vat (pr_models p) N ;
                              Ok (upd (Z.to_nat N) (fun _ => Some idm) (pr_models p))
                 end
            else Ok (pr_models p)) ;
  do ms' <- vset ms k (fun _ => m) ;
  Ok (mkProb (pr_N p) (pr_init p) (pr_costs p) ms' (pr_eq p) (pr_ineq p)).
(** problem.hpp:186-192 the vector overload *)
Fixpoint pr_set_dyns (debug : bool) (ms : list (option Model)) (k : Z) (p : Prob C) : res (Prob C) :=
  match ms with [] => Ok p | m :: r => do p' <- pr_set_dynamics debug m k p ; pr_set_dyns debug r (k + 1) p' end.
(** problem.cpp:43-57 SetConstraint<Equality>, SetConstraint<Inequality>: no range check on k *)
Definition pr_set_constraint (debug : bool) (K : cone) (con : Con F) (k : Z) (p : Prob C) : res (Prob C) :=
  do _ <- altro_assert debug (Nat.ltb 0 (con_dim con)) ;
  match K with
  | NegativeOrthant => do l <- vset (pr_ineq p) k (fun cs => cs ++ [con]) ;
                       Ok (mkProb (pr_N p) (pr_init p) (pr_costs p) (pr_models p) (pr_eq p) l)
  | _ => do l <- vset (pr_eq p) k (fun cs => cs ++ [con]) ;
         Ok (mkProb (pr_N p) (pr_init p) (pr_costs p) (pr_models p) l (pr_ineq p))
  end.

(** problem.hpp:213-223 NumConstraints(k) *)
Definition pr_num_constraints_at (debug : bool) (p : Prob C) (k : Z) : res nat :=
  do _ <- assert_N debug p (fun N => (0 <=? k) && (k <=? N)) ;
  do e <- vat (pr_eq p) k ;
  do i <- vat (pr_ineq p) k ;
  Ok (fold_left (fun c con => (c + con_dim con)%nat) i (fold_left (fun c con => (c + con_dim con)%nat) e 0%nat)).
(** a loop  for (int k = a; ...; ++k)  over the indices [is] *)
Fixpoint for_z {A} (is : list Z) (f : Z -> A -> res A) (a : A) : res A :=
  match is with [] => Ok a | i :: r => do a' <- f i a ; for_z r f a' end.
Definition zseq (a : Z) (n : nat) : list Z := map (fun i => a + Z.of_nat i) (seq 0 n).
(** problem.hpp:230-236 NumConstraints() *)
Definition pr_num_constraints (debug : bool) (p : Prob C) : res nat :=
  do N <- pr_segments p ;
  for_z (zseq 0 (Z.to_nat (N + 1))) (fun k c => do x <- pr_num_constraints_at debug p k ; Ok (c + x)%nat) 0%nat.
(** problem.hpp:252-255 GetCostFunction *)
Definition pr_get_cost (debug : bool) (p : Prob C) (k : Z) : res (option C) :=
  do _ <- assert_N debug p (fun N => (0 <=? k) && (k <=? N)) ; vget (pr_costs p) k.
(** problem.hpp:271-275 GetDynamics *)
Definition pr_get_dynamics (debug : bool) (p : Prob C) (k : Z) : res (option Model) :=
  do _ <- assert_N debug p (fun N => (0 <=? k) && (k <=? N)) ;
  do m <- vget (pr_models p) k ;
  do _ <- altro_assert debug (match m with Some _ => true | None => false end) ;
  Ok m.

(** problem.cpp:12-40 IsFullyDefined (verbose output not modelled) *)
Definition pr_check_k (h : heap) (p : Prob C) (N k : Z) (valid : bool) : res bool :=
  do c <- vget (pr_costs p) k ;
  let has_costfun := match c with Some _ => true | None => false end in
  do has_dynamics <- (if k <? N then do m <- vget (pr_models p) k ; Ok (match m with Some _ => true | None => false end)
                      else Ok true) ;
  let valid_k := has_costfun && has_dynamics in
  do valid_k' <- (if k =? 0 then
                    let size := Z.of_nat (length (h_get (pr_init p) h)) in
                    let has_initial_state := 0 <? size in
                    do good <- (if has_initial_state
                                then do m <- vget (pr_models p) k ;
                                     match m with Some md => Ok (md_n md =? size) | None => UB end
                                else Ok false) ;
                    Ok (valid_k && has_initial_state && good)
                  else Ok valid_k) ;
  Ok (valid && valid_k').
Definition pr_is_fully_defined (h : heap) (p : Prob C) : res bool :=
  do N <- pr_segments p ;
  for_z (zseq 0 (Z.to_nat (N + 1))) (pr_check_k h p N) true.

(** problem.hpp:88-91 copy constructor: N_ not initialised; a fresh vector for the initial state *)
Definition pr_copy (h : heap) (q : Prob C) : heap * Prob C :=
  let (l, h') := h_new [] h in
  (h_set l (h_get (pr_init q) h') h', mkProb None l (pr_costs q) (pr_models q) (pr_eq q) (pr_ineq q)).
(** problem.hpp:102-107 move constructor; the source keeps its pointer and is left with empty vectors.
    Returns (new problem, source). *)
Definition pr_move (q : Prob C) : Prob C * Prob C :=
  (mkProb None (pr_init q) (pr_costs q) (pr_models q) (pr_eq q) (pr_ineq q),
   mkProb (pr_N q) (pr_init q) [] [] [] []).
(** problem.hpp:79-86 copy assignment  p = q *)
Definition pr_assign (h : heap) (p q : Prob C) : heap * Prob C :=
  (h_set (pr_init p) (h_get (pr_init q) h) h,
   mkProb (pr_N p) (pr_init p) (pr_costs q) (pr_models q) (pr_eq q) (pr_ineq q)).
(** problem.hpp:93-100 move assignment; returns the heap, the target and the source *)
Definition pr_assign_move (h : heap) (p q : Prob C) : heap * Prob C * Prob C :=
  (h_set (pr_init p) (h_get (pr_init q) h) h,
   mkProb (pr_N p) (pr_init p) (pr_costs q) (pr_models q) (pr_eq q) (pr_ineq q),
   mkProb (pr_N q) (pr_init q) [] [] [] []).

(** the setters as one step function *)
Inductive pop :=
| PInit (x0 : list F) | PCost (c : option C) (k : Z) | PCosts (cs : list (option C)) (k : Z)
| PDyn (m : option Model) (k : Z) | PDyns (ms : list (option Model)) (k : Z)
| PCon (K : cone) (con : Con F) (k : Z).
Definition pr_step (debug : bool) (o : pop) (s : heap * Prob C) : res (heap * Prob C) :=
  let (h, p) := s in
  match o with
  | PInit x0 => Ok (pr_set_init x0 h p, p)
  | PCost c k => do p' <- pr_set_cost debug c k p ; Ok (h, p')
  | PCosts cs k => do p' <- pr_set_costs debug cs k p ; Ok (h, p')
  | PDyn m k => do p' <- pr_set_dynamics debug m k p ; Ok (h, p')
  | PDyns ms k => do p' <- pr_set_dyns debug ms k p ; Ok (h, p')
  | PCon K con k => do p' <- pr_set_constraint debug K con k p ; Ok (h, p')
  end.
Fixpoint pr_run (debug : bool) (os : list pop) (s : heap * Prob C) : res (heap * Prob C) :=
  match os with [] => Ok s | o :: r => do s' <- pr_step debug o s ; pr_run debug r s' end.
End Problem.
Arguments Model F : clear implicits. Arguments Prob F C : clear implicits. Arguments heap F : clear implicits.
Arguments mkProb {F C}. Arguments pr_N {F C}. Arguments pr_init {F C}. Arguments pr_costs {F C}. Arguments pr_models {F C}.
Arguments pr_eq {F C}. Arguments pr_ineq {F C}. Arguments pop F C : clear implicits.

Section Build.
Context {F : Scalar}.
(** al_cost.hpp:53-61 ALCost(prob, k).  A null cost function is rejected by the assertion at line 115; in release
    builds the resulting ALCost without user cost is not modelled (UB). *)
Definition alcost_of (debug : bool) (p : Prob F (UCost F)) (k : Z) : res (ALCost F) :=
  do m <- pr_get_dynamics debug p k ;
  match m with
  | None => UB
  | Some md =>
      do c <- pr_get_cost debug p k ;
      do _ <- altro_assert debug (match c with Some _ => true | None => false end) ;
      do e <- vat (pr_eq p) k ;
      do i <- vat (pr_ineq p) k ;
      match c with
      | None => UB
      | Some uc => Ok (al_make (Z.to_nat (md_n md)) (Z.to_nat (md_m md)) uc e i)
      end
  end.
(** al_problem.hpp:30-51 BuildAugLagProblem: the heap, the new problem and the costs appended to *costs.
    [elide]: whether the compiler elides the move of the returned local variable (the standard allows but does
    not require it); without elision the result is move-constructed. *)
Definition build_al (debug elide : bool) (h : heap F) (p : Prob F (UCost F)) (costs : list (ALCost F))
  : res (heap F * Prob F (ALCost F) * list (ALCost F)) :=
  do N <- pr_segments p ;
  do q <- pr_make (C:=ALCost F) N (pr_init p) ;
  let h1 := pr_set_init (h_get (pr_init p) h) h q in
  do q1 <- for_z (zseq 0 (Z.to_nat N)) (fun k q => do m <- pr_get_dynamics debug p k ; pr_set_dynamics debug m k q) q ;
  do (q2, cs) <- for_z (zseq 0 (Z.to_nat (N + 1)))
                   (fun k (s : Prob F (ALCost F) * list (ALCost F)) =>
                      do a <- alcost_of debug p k ;
                      do q' <- pr_set_cost debug (Some a) k (fst s) ;
                      Ok (q', snd s ++ [a])) (q1, costs) ;
  Ok (h1, (if elide then q2 else fst (pr_move q2)), cs).

(** ilqr.hpp:99-122 CopyFromProblem(prob, 0, N+1) into a solver with N segments: the appended knot points.
    [n], [m]: the compile-time dimensions (None = Eigen::Dynamic). *)
Definition dim_ok (n : option nat) (d : Z) : bool := match n with None => true | Some k => d =? Z.of_nat k end.
Definition il_copy_problem {C} (debug : bool) (n m : option nat) (N : Z) (h : heap F) (p : Prob F C) (k_start k_stop : Z)
  : res (list (Dyn F * C)) :=
  do _ <- altro_assert debug ((0 <=? k_start) && (k_start <=? N)) ;
  do _ <- altro_assert debug ((0 <=? k_stop) && (k_stop <=? N + 1)) ;
  do _ <- (if debug then do b <- pr_is_fully_defined h p ; altro_assert debug b else Ok tt) ;
  for_z (zseq k_start (Z.to_nat (k_stop - k_start)))
    (fun k l =>
       do _ <- (if debug then
                  do md <- pr_get_dynamics debug p k ;
                  match md with
                  | None => UB
                  | Some md => do _ <- altro_assert debug (dim_ok n (md_n md)) ; altro_assert debug (dim_ok m (md_m md))
                  end
                else Ok tt) ;
       do md <- pr_get_dynamics debug p k ;
       do c <- pr_get_cost debug p k ;
       match md, c with Some md, Some c => Ok (l ++ [(md_dyn md, c)]) | _, _ => UB end) [].
(** al_solver.hpp:234-257 AugmentedLagrangianiLQR(prob): solver with prob.NumSegments() segments.  The AL problem's
    initial state is the user's heap cell (shared): the solver state records its contents at construction. *)
Definition as_of_problem (debug elide : bool) (n m : option nat) (h : heap F) (p : Prob F (UCost F)) : res (ALS F * list (ALCost F)) :=
  do N <- pr_segments p ;
  do (h1, q, cs) <- build_al debug elide h p [] ;
  do _ <- altro_assert debug (Z.of_nat (length cs) =? N + 1) ;
  do ks <- il_copy_problem debug n m N h1 q 0 (N + 1) ;
  Ok (mkALS (il_make (Z.to_nat N) (fun i => nth i (h_get (pr_init q) h1) zero) ks) kUnsolved, cs).
End Build.
