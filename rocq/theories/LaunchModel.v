(** perf/task_launcher.hpp: the work and the tasks with which the tests and the benchmark exercise the thread pool. *)
From Coq Require Import List ZArith Bool.
From Verif Require Import Base Lin StatsModel TrajModel IlqrModel PoolSpec PoolModel TaskModel ParModel.
Import ListNotations.
Local Open Scope Z_scope.

(** task_launcher.hpp:10-19 class Work: count_, and the value read by a [count_ += 1] that has not yet been written back.
    Work items as list elements; std::unique_ptr<Work> of workset_ (71) is never null and never shared. *)
Definition WorkItem : Type := (Z * Z)%type.
(** [UB] once an index has been out of range *)
Definition wmem : Type := res (list WorkItem).
(** task_launcher.hpp:35 workset_[i]->...; operator[] out of range is undefined *)
Definition on_work (i : Z) (f : WorkItem -> WorkItem) (s : wmem) : wmem :=
  do ws <- s ;
  if i <? 0 then UB else
  match nth_error ws (Z.to_nat i) with
  | Some w => Ok (upd (Z.to_nat i) (fun _ => f w) ws)
  | None => UB
  end.
(** task_launcher.hpp:12-15 Kernel: count_ += 1 is a load and a store; usleep(1000) touches no memory.
    count_ as an integer: its overflow shows in [sum_counts] *)
Definition kernel : list (WorkItem -> WorkItem) := [ (fun w => (fst w, fst w)); (fun w => (snd w + 1, snd w)) ].
(** task_launcher.hpp:33-37 WorkBlock(start, stop) as a list of atomic actions *)
Definition work_block (b : Z * Z) : body wmem := flat_map (fun i => map (on_work i) kernel) (zrange (fst b) (snd b)).

Section Launcher.
Context {F : Scalar} (rnd : F -> Z).
Record Launcher := mkLauncher { la_work : list WorkItem; la_inds : list Z }.
(** task_launcher.hpp:23-31 Launcher(N, nthreads); N is converted to double in the division and in the comparison *)
Definition la_new (fuel : nat) (N nthreads : Z) : res Launcher :=
  do inds <- task_loop rnd fuel (ofZ N) (div (ofZ N) (ofZ nthreads)) zero ;
  Ok (mkLauncher (repeat (0, 0) (Z.to_nat N)) inds).
End Launcher.
(** task_launcher.hpp:54 NumThreads: size_t arithmetic converted to int, so -1 for an empty vector *)
Definition la_threads (l : Launcher) : Z := Z.of_nat (length (la_inds l)) - 1.
(** task_launcher.hpp:45-52 CreateTasks(pool): the bodies handed to AddTask, in order; inds_[i] and inds_[i + 1] are in range for i < NumThreads().
    CreateTasks() without a pool (39-43) binds the same blocks and is not used *)
Definition la_tasks (l : Launcher) : list (body wmem) := map work_block (blocks (la_inds l)).
(** task_launcher.hpp:63-69 SumCounts, with int arithmetic *)
Fixpoint sum_from (acc : Z) (ws : list WorkItem) : res Z :=
  match ws with
  | [] => Ok acc
  | w :: r => if int_ok (fst w) && int_ok (acc + fst w) then sum_from (acc + fst w) r else UB
  end.
Definition sum_counts (s : wmem) : res Z := do ws <- s ; sum_from 0 ws.

(** test/common/threadpool_test.cpp:90-113 and 130-148, perf/benchmark_threadpool.cpp:32-37: CreateTasks and Wait, any number of times on one pool that starts
    with no threads; the pool may be launched before or after the tasks are added, and stopped and launched again in between *)
Inductive rounds (debug : bool) (W : nat) (l : Launcher) : nat -> list (pev wmem) -> pst wmem -> Prop :=
| RO_init : rounds debug W l 0 [] (p_init W (Ok (la_work l)))
| RO_round k H s sched H' s' : rounds debug W l k H s -> p_exec debug sched s = Ok (H' ++ [EWaited], s') -> added H' = la_tasks l -> no_timeout H' ->
    rounds debug W l (S k) (H ++ H' ++ [EWaited]) s'.
