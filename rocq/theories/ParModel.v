(** A pool used by a thread that also changes the shared memory itself while it is inside no pool call: the iLQR solver, which does
    its backward and forward passes between the parallel updates of the expansions (ilqr.hpp:286-312).  Such changes are modelled
    between two runs of the pool. *)
From Coq Require Import List.
From Verif Require Import Base PoolSpec PoolModel.
Import ListNotations.

Section Par.
Context {M : Type}.
Inductive solver_run (debug : bool) (W : nat) : list (pev M) -> pst M -> Prop :=
| SR_init m : solver_run debug W [] (p_init W m)
| SR_pool H s sched H' s' : solver_run debug W H s -> p_exec debug sched s = Ok (H', s') -> solver_run debug W (H ++ H') s'
| SR_own H s m : solver_run debug W H s -> calling H = None -> solver_run debug W H (set_mem s m).
End Par.
