(** Model of altro/common/solver_stats.hpp/.cpp and solver_options.hpp. *)
From Coq Require Import ZArith String List Bool.
From Verif Require Import Base LogModel.
Import ListNotations.
Local Open Scope Z_scope.

(** solver_stats.hpp:20-31 SolverStatus *)
Inductive status :=
| kSolved | kUnsolved | kStateLimit | kControlLimit | kCostIncrease | kMaxIterations
| kMaxOuterIterations | kMaxInnerIterations | kMaxPenalty | kBackwardPassRegularizationFailed.
Definition status_eqb (a b : status) : bool :=
  match a, b with
  | kSolved, kSolved | kUnsolved, kUnsolved | kStateLimit, kStateLimit | kControlLimit, kControlLimit
  | kCostIncrease, kCostIncrease | kMaxIterations, kMaxIterations
  | kMaxOuterIterations, kMaxOuterIterations | kMaxInnerIterations, kMaxInnerIterations
  | kMaxPenalty, kMaxPenalty | kBackwardPassRegularizationFailed, kBackwardPassRegularizationFailed => true
  | _, _ => false
  end.

Section Stats.
Context {F : Scalar}.

(** solver_options.hpp:19-57 SolverOptions.  bp_reg_enable is read nowhere in the code base.  The profiler
    and file options are not modelled here. *)
Record Opts := mkOpts {
  o_max_total : Z; o_max_outer : Z; o_max_inner : Z;
  o_cost_tol : F; o_grad_tol : F;
  o_reg_factor : F; o_reg_initial : F; o_reg_max : F; o_reg_min : F; o_reg_fail : Z;
  o_check_bounds : bool; o_state_max : F; o_control_max : F;
  o_ls_iters : Z; o_ls_lb : F; o_ls_ub : F; o_ls_factor : F;
  o_con_tol : F; o_max_pen : F; o_init_pen : F; o_reset_duals : bool;
  o_header_freq : Z; o_verbose : Z; o_nthreads : Z; o_tasks_per_thread : Z }.
(** solver_options.hpp:23-56 default values *)
Definition opts_default : Opts :=
  mkOpts 300 30 100 (lit 1 10000) (lit 1 100) (lit 16 10) zero (ofZ 100000000) (lit 1 100000000) 100
    true (ofZ 100000000) (ofZ 100000000) 20 (lit 1 100000000) (ofZ 10) (ofZ 2)
    (lit 1 10000) (ofZ 100000000) one true 10 kSilent 1 1.

(** solver_stats.hpp:44-63, 182-187.  The eight registered std::vector<double> are the association list
    [st_ser] (floats_), keyed by column title; each series is in push order (back() is its last element).
    [st_out] is everything printed so far. *)
Record Stats := mkStats {
  st_initial_cost : F; st_inner : Z; st_outer : Z; st_total : Z;
  st_ser : list (string * list F); st_len : nat; st_log : Logger F; st_out : list (line F) }.

Definition st_set_ser (s : Stats) (ser : list (string * list F)) (len : nat) : Stats :=
  mkStats (st_initial_cost s) (st_inner s) (st_outer s) (st_total s) ser len (st_log s) (st_out s).
Definition st_set_log (s : Stats) (g : Logger F) : Stats :=
  mkStats (st_initial_cost s) (st_inner s) (st_outer s) (st_total s) (st_ser s) (st_len s) g (st_out s).
Definition st_set_counts (s : Stats) (ic : F) (inner outer total : Z) : Stats :=
  mkStats ic inner outer total (st_ser s) (st_len s) (st_log s) (st_out s).

(** floats_.find(title) *)
Definition st_get (t : string) (s : Stats) : option (list F) :=
  option_map snd (find (fun p => String.eqb (fst p) t) (st_ser s)).
(** vector::back() as a read; UB on an empty or unregistered vector *)
Definition last_opt (l : list F) : option F := match rev l with [] => None | x :: _ => Some x end.
Definition st_back (t : string) (s : Stats) : res F :=
  match st_get t s with
  | Some l => match last_opt l with Some x => Ok x | None => UB end
  | None => UB
  end.
(** vector::rbegin()[1] *)
Definition st_back2 (t : string) (s : Stats) : res F :=
  match st_get t s with
  | Some l => match rev l with _ :: y :: _ => Ok y | _ => UB end
  | None => UB
  end.
(** vector::resize(n) value-initialises new elements *)
Definition vresize (n : nat) (l : list F) : list F := firstn n l ++ repeat zero (n - length l).
(** *back() = v*  *)
Definition set_back (v : F) (l : list F) : list F := removelast l ++ match l with [] => [] | _ => [v] end.

(** solver_stats.cpp:54-66 NewIteration *)
Definition st_new_iteration (s : Stats) : Stats :=
  let len := S (st_len s) in
  st_set_ser s
    (map (fun p =>
       let l := vresize len (snd p) in
       (fst p, set_back (if Nat.ltb 1 len then nth 1 (rev l) zero else zero) l)) (st_ser s)) len.
(** solver_stats.hpp:192-203 SetData *)
Definition st_set_data (t : string) (v : F) (s : Stats) : Stats :=
  let s := if Nat.eqb (st_len s) 0 then st_new_iteration s else s in
  st_set_ser s (map (fun p => if String.eqb (fst p) t then (fst p, set_back v (snd p)) else p) (st_ser s)) (st_len s).
(** solver_stats.hpp:132-136 Log *)
Definition st_log_val (t : string) (v : lval F) (s : Stats) : Stats :=
  st_set_data t (lval_num v) (st_set_log s (lg_log t v (st_log s))).
Definition st_logF (t : string) (x : F) (s : Stats) : Stats := st_log_val t (VFlt x) s.
Definition st_logZ (t : string) (z : Z) (s : Stats) : Stats := st_log_val t (VInt z) s.
(** solver_stats.hpp:113 PrintLast *)
Definition st_print_last (s : Stats) : res Stats :=
  do (out, g) <- lg_print (st_log s) ;
  Ok (mkStats (st_initial_cost s) (st_inner s) (st_outer s) (st_total s) (st_ser s) (st_len s) g (st_out s ++ out)).
(** SolverLogger::PrintHeader through GetLogger() *)
Definition st_print_header (s : Stats) : Stats :=
  mkStats (st_initial_cost s) (st_inner s) (st_outer s) (st_total s) (st_ser s) (st_len s) (st_log s)
    (st_out s ++ lg_print_header (st_log s)).
(** solver_stats.hpp:94 SetVerbosity *)
Definition st_set_verbosity (l : Z) (s : Stats) : Stats := st_set_log s (lg_set_level l (st_log s)).
(** std::numeric_limits<int>::max() *)
Definition int_max : Z := 2147483647.
(** solver_stats.cpp:31-52 Reset.  vector::reserve(n) with a negative int converted to size_t throws
    std::length_error.  The profiler output redirection is not modelled. *)
Definition st_reset (debug : bool) (o : Opts) (s : Stats) : res Stats :=
  let s1 := mkStats zero 0 0 0 (map (fun p => (fst p, [])) (st_ser s)) 0 (lg_clear (st_log s)) (st_out s) in
  if o_max_total o <? 0 then Throw
  else
    let g := lg_set_level (o_verbose o) (st_log s1) in
    do g' <- lg_set_frequency debug (if o_verbose o <? kInner then o_header_freq o else int_max) g ;
    Ok (st_set_log s1 g').

(** solver_stats.cpp:80-114 DefaultLogger: columns in order, and the registered series *)
Definition lg_add_ok (debug : bool) (col : Z) (t : string) (level width : Z) (g : Logger F) : Logger F :=
  match lg_add debug col t (fun e => le_set_width width (le_set_level level e)) g with Ok g' => g' | _ => g end.
Definition default_logger : Logger F :=
  let g := lg_new kSilent in
  let g := lg_add_ok true 0 "iters" kOuterDebug 6 g in
  let g := lg_add_ok true 1 "iter_al" kOuter 8 g in
  let g := lg_add_ok true (-1) "cost" kInner 10 g in
  let g := lg_add_ok true (-1) "viol" kInner 10 g in
  let g := lg_add_ok true (-1) "dJ" kInner 10 g in
  let g := lg_add_ok true (-1) "grad" kOuterDebug 10 g in
  let g := lg_add_ok true (-1) "alpha" kInner 6 g in
  let g := lg_add_ok true (-1) "reg" kInnerDebug 7 g in
  let g := lg_add_ok true (-1) "z" kInnerDebug 5 g in
  lg_add_ok true (-1) "pen" kDebug 7 g.
Definition series_titles : list string := ["cost"; "viol"; "dJ"; "grad"; "alpha"; "reg"; "z"; "pen"]%string.
(** solver_stats.hpp:46-48 constructor *)
Definition st_new : Stats :=
  mkStats zero 0 0 0 (map (fun t => (t, [])) series_titles) 0 default_logger [].

(** solver_options.hpp:59-64 NumThreads; [hw] is std::thread::hardware_concurrency() *)
Definition num_threads (hw : Z) (o : Opts) : Z :=
  if o_nthreads o =? -1 then hw else Z.max (o_nthreads o) 1.

(** solver_stats.cpp:16-23 SetTolerances *)
Definition st_set_tolerances (debug : bool) (c v g : F) (s : Stats) : res Stats :=
  do g1 <- lg_bound debug false "dJ" c (st_log s) ;
  do g2 <- lg_bound debug false "viol" v g1 ;
  do g3 <- lg_bound debug false "grad" g g2 ;
  Ok (st_set_log s g3).

(** public operations on the statistics *)
Inductive stop := StLogF (t : string) (x : F) | StLogZ (t : string) (z : Z) | StNew | StReset (o : Opts).
Definition st_step (debug : bool) (op : stop) (s : Stats) : res Stats :=
  match op with
  | StLogF t x => Ok (st_logF t x s)
  | StLogZ t z => Ok (st_logZ t z s)
  | StNew => Ok (st_new_iteration s)
  | StReset o => st_reset debug o s
  end.
Fixpoint st_run (debug : bool) (ops : list stop) (s : Stats) : res Stats :=
  match ops with [] => Ok s | o :: r => do s' <- st_step debug o s ; st_run debug r s' end.
(** ... with the calls that concern the console *)
Inductive slop := SlOp (o : stop) | SlTol (c v g : F) | SlVerb (l : Z) | SlPrint | SlHeader.
Definition sl_step (debug : bool) (op : slop) (s : Stats) : res Stats :=
  match op with
  | SlOp o => st_step debug o s
  | SlTol c v g => st_set_tolerances debug c v g s
  | SlVerb l => Ok (st_set_verbosity l s)
  | SlPrint => st_print_last s
  | SlHeader => Ok (st_print_header s)
  end.
Fixpoint sl_run (debug : bool) (ops : list slop) (s : Stats) : res Stats :=
  match ops with [] => Ok s | o :: r => do s' <- sl_step debug o s ; sl_run debug r s' end.
End Stats.
Arguments slop F : clear implicits.
Arguments Opts F : clear implicits. Arguments Stats F : clear implicits. Arguments stop F : clear implicits.
