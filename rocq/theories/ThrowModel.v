(** Exceptions thrown by user functions while the expansions are updated (altro/ilqr/ilqr.hpp, altro/common/threadpool.{hpp,cpp}). *)
From Coq Require Import List ZArith Bool.
From Verif Require Import Base Lin StatsModel TrajModel IlqrModel PoolSpec PoolModel TaskModel.
Import ListNotations.
Local Open Scope Z_scope.

Section Throw.
Context {F : Scalar} {CS : Type} (ops : CostOps F CS) (n m : nat).
Notation KPF := (KPF F CS). Notation C := (KPF * F)%type. Notation mem := (@mem F CS).
(** Which of the three statements (0, 1, 2) of ilqr.hpp:672-675 throw at knot point k, and what the throwing one leaves behind.
    They read the trajectory, which no task writes, and the objects of their own knot point, which only their own task writes; so for one update this is
    fixed beforehand. *)
Context (thr : Z -> nat -> bool) (part : Z -> nat -> C -> C).
(** the statements performed at one knot point, from statement j on, and whether an exception left it *)
Fixpoint kp_cut (k : Z) (j : nat) (fs : list (C -> C)) : list (C -> C) * bool :=
  match fs with
  | [] => ([], false)
  | f :: r => if thr k j then ([part k j], true) else let (l, t) := kp_cut k (S j) r in (f :: l, t)
  end.
(** ilqr.hpp:670-677: the loop over the knot points [l] of a block; an exception leaves it *)
Fixpoint cut_acts (Zt : Traj F) (l : list Z) : body mem * bool :=
  match l with
  | [] => ([], false)
  | k :: r =>
      match nth_error Zt (Z.to_nat k) with
      | Some z => if k <? 0 then ([fun _ => UB], false) else
                  let (a, t) := kp_cut k 0 (kp_actions ops n m z) in
                  if t then (map (on k) a, true) else let (a', t') := cut_acts Zt r in (map (on k) a ++ a', t')
      | None => ([fun _ => UB], false)
      end
  end.
Definition cut_block (Zt : Traj F) (b : Z * Z) : body mem * bool := cut_acts Zt (zrange (fst b) (snd b)).
(** ilqr.hpp:354-356, single-threaded: the memory, and whether the exception leaves UpdateExpansions (there is no handler on its way to the caller of Solve) *)
Definition update_serial_t (N : Z) (Zt : Traj F) (s : mem) : mem * bool :=
  let (a, t) := cut_block Zt (0, N + 1) in (run_body a s, t).
(** ilqr.hpp:358-363 with threadpool.hpp:69-74 and threadpool.cpp:70-80: the work of the tasks; std::packaged_task catches the exception
    and puts it into the future, of which Wait (threadpool.cpp:31-39) calls wait_for only *)
Definition update_tasks_t (tasks : list (Z * Z)) (Zt : Traj F) : list (body mem) := map (fun b => fst (cut_block Zt b)) tasks.
End Throw.
