(** Model of the output side of Timer: timer.hpp:52-68, timer.cpp:10-22, 87-93, 108-118, of SolverStats::ProfilerOutputToFile
    (solver_stats.cpp:45, 68-78) and of where the solvers call it (al_solver.hpp:298, 307-308; ilqr.hpp:293).  fopen's answer is an input.  The
    contents of the files (truncation by fopen, buffering) and streams closed by the user are not modelled: a stream is only closed by the timer. *)
From Coq Require Import ZArith List Bool String.
From Verif Require Import Base TimerModel TimerIoSpec.
Import ListNotations.

(** timer.hpp:64-68: times_, active_, printed_summary_, using_file_, io_; and the number of files opened so far, which names the next one *)
Record Tio := mkTio { ti_times : tmap; ti_active : bool; ti_printed : bool; ti_file : bool; ti_io : stream; ti_next : nat }.
(** timer.hpp:62-68 *)
Definition ti_new : Tio := mkTio [] false false false SOut 0.
(** timer.cpp:24-94 PrintSummary(times): writes to io_ (87-92), sets printed_summary_ (93) *)
Definition ti_print (l : tmap) (t : Tio) : res (Tio * list ev) :=
  do r <- print_summary l ;
  Ok (mkTio (ti_times t) (ti_active t) true (ti_file t) (ti_io t) (ti_next t), [EPage (ti_io t) r]).
Definition ti_step (c : call) (t : Tio) : res (Tio * list ev) :=
  match c with
  | CStream s => Ok (mkTio (ti_times t) (ti_active t) (ti_printed t) (ti_file t) s (ti_next t), [])                      (** timer.hpp:57 *)
  | CFile name ok =>                                                                                                  (** timer.cpp:108-118 *)
      if ok then Ok (mkTio (ti_times t) (ti_active t) (ti_printed t) true (SFile (ti_next t)) (S (ti_next t)), [EOpen (ti_next t) name])
      else Ok (t, [EThrow name])
  | CAct b => Ok (mkTio (ti_times t) b (ti_printed t) (ti_file t) (ti_io t) (ti_next t), [])                             (** timer.hpp:54-55 *)
  | CRec k v => Ok (mkTio (tadd k v (ti_times t)) (ti_active t) (ti_printed t) (ti_file t) (ti_io t) (ti_next t), [])    (** timer.cpp:132 *)
  | CPrint => ti_print (ti_times t) t                                                                                  (** timer.cpp:20-22 *)
  | CPrintMap l => ti_print l t
  end.
Fixpoint ti_run (cs : list call) (t : Tio) : res (Tio * list ev) :=
  match cs with
  | [] => Ok (t, [])
  | c :: r => do (t1, e1) <- ti_step c t ; do (t2, e2) <- ti_run r t1 ; Ok (t2, e1 ++ e2)
  end.
(** timer.cpp:10-18 *)
Definition ti_destroy (t : Tio) : res (list ev) :=
  do (t1, e) <- (if negb (ti_printed t) && ti_active t then ti_print (ti_times t) t else Ok (t, [])) ;
  Ok (e ++ if ti_file t1 then [EClose (ti_io t1)] else []).
Definition ti_life (cs : list call) : res (list ev) :=
  do (t, e) <- ti_run cs ti_new ; do e' <- ti_destroy t ; Ok (e ++ e').

(** solver_stats.cpp:72-78 ProfilerOutputToFile, fopen succeeding *)
Definition profiler_output (p : psolve) : list call := if ps_tofile p then [CFile (ps_path p) true] else [CStream SOut].
(** al_solver.hpp:305-: Solve activates or deactivates the timer (307-308), Init resets the statistics (298), which redirects the output
    (solver_stats.cpp:45); the stopwatches record their times after that *)
Definition al_solve_calls (p : psolve) : list call := CAct (ps_enable p) :: profiler_output p ++ map (fun kv => CRec (fst kv) (snd kv)) (ps_recs p).
(** ilqr.hpp:283-317: Solve (293) and SolveSetup (630-647), which does not reset the statistics *)
Definition ilqr_solve_calls (p : psolve) : list call := CAct (ps_enable p) :: map (fun kv => CRec (fst kv) (snd kv)) (ps_recs p).
