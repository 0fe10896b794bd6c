(** Model of the task handling of ilqr.hpp: the division of the knot points into tasks, the (re)launch of the pool and the two
    branches of UpdateExpansions.  The pool itself is PoolModel.v; here only its number of threads is recorded (launches that throw
    and tasks left over by a failed launch are not modelled, see C41).  int arithmetic is exact; a product of two ints outside
    the int range is undefined behaviour. *)
From Coq Require Import List ZArith QArith Reals Bool.
From Coq Require Import Floats.SpecFloat.
From Verif Require Import Base Lin StatsModel TrajModel IlqrModel PoolSpec.
Import ListNotations.
Local Open Scope Z_scope.

Definition int_ok (z : Z) : bool := (- 2 ^ 31 <=? z) && (z <? 2 ^ 31).
Definition imul (a b : Z) : res Z := if int_ok (a * b) then Ok (a * b) else UB.
(** the indices a, a+1, ..., b-1 *)
Definition zrange (a b : Z) : list Z := map (fun i => a + Z.of_nat i) (seq 0 (Z.to_nat (b - a))).

Section Tasks.
(** [rnd] is static_cast<int>(round(.)): to nearest, halves away from zero *)
Context {F : Scalar} (rnd : F -> Z).

(** ilqr.hpp:811-814: custom_work_assignment_, tasks_, work_inds_, number of threads of pool_ (0: not running) *)
Record Tasks := mkTasks { t_custom : bool; t_tasks : list (Z * Z); t_inds : list Z; t_pool : Z }.
Definition t_new : Tasks := mkTasks false [] [] 0.
(** ilqr.hpp:203 NumTasks: size() - 1 is a size_t; converted to int an empty vector gives -1 *)
Definition t_num (t : Tasks) : Z := Z.of_nat (length (t_inds t)) - 1.

(** ilqr.hpp:744-747: the loop, val <= N, one entry per turn; it may go on for ever (fuel) *)
Fixpoint task_loop (fuel : nat) (N step val : F) : res (list Z) :=
  match fuel with
  | O => Fuel
  | S f => if leb val N then do r <- task_loop f N step (add val step) ; Ok (rnd val :: r) else Ok []
  end.
(** ilqr.hpp:740-751 DefaultTaskAssignment; nt = GetOptions().NumThreads(), tpt = GetOptions().tasks_per_thread;
    back() of an empty vector (negative N) is undefined *)
Definition default_inds (fuel : nat) (debug : bool) (N nt tpt : Z) : res (list Z) :=
  do p <- imul nt tpt ;
  do l <- task_loop fuel (ofZ N) (div (ofZ N) (ofZ p)) zero ;
  match l with
  | [] => UB
  | _ => do _ <- altro_assert debug (last l 0 =? N) ; Ok (removelast l ++ [last l 0 + 1])
  end.
(** ilqr.hpp:699-705 ShouldRedoTaskAssignment *)
Definition should_redo (nt tpt : Z) (t : Tasks) : res bool :=
  do p <- imul nt tpt ; Ok (negb (t_custom t || (t_num t =? p))).
(** ilqr.hpp:183-188 GetTaskAssignment *)
Definition get_tasks (fuel : nat) (debug : bool) (N nt tpt : Z) (t : Tasks) : res Tasks :=
  do r <- should_redo nt tpt t ;
  if r then do l <- default_inds fuel debug N nt tpt ; Ok (mkTasks (t_custom t) (t_tasks t) l (t_pool t)) else Ok t.
(** ilqr.hpp:258-272 SetTaskAssignment.  The first three assertions look at work_inds_, the previous assignment; with an empty
    vector the very evaluation of work_inds_.back() is undefined.  Under NDEBUG nothing is evaluated. *)
Fixpoint increasing (l : list Z) : bool :=
  match l with a :: ((b :: _) as r) => (a <? b) && increasing r | _ => true end.
Definition set_tasks (debug : bool) (N : Z) (inds : list Z) (t : Tasks) : res Tasks :=
  do _ <- (if debug then
             match t_inds t with
             | [] => UB
             | a :: _ => do _ <- altro_assert true (last (t_inds t) 0 =? N + 1) ;
                         do _ <- altro_assert true (a =? 0) ;
                         altro_assert true (2 <=? Z.of_nat (length (t_inds t)))
             end
           else Ok tt) ;
  do _ <- altro_assert debug (increasing inds) ;
  Ok (mkTasks true (t_tasks t) inds (t_pool t)).
(** ilqr.hpp:727-732: one task per pair of neighbouring indices *)
Fixpoint blocks (inds : list Z) : list (Z * Z) :=
  match inds with a :: ((b :: _) as r) => (a, b) :: blocks r | _ => [] end.
(** ilqr.hpp:707-738 LaunchThreads *)
Definition launch (fuel : nat) (debug : bool) (N nt tpt : Z) (t : Tasks) : res Tasks :=
  if (t_pool t =? 0) && (nt =? 1) then Ok t
  else
    (* 717-718: the right operand of || is evaluated only if needed *)
    do go <- (if 0 <? N then if negb (nt =? t_pool t) then Ok true else should_redo nt tpt t else Ok false) ;
    if go then
      do t1 <- get_tasks fuel debug N nt tpt (mkTasks (t_custom t) [] (t_inds t) 0) ;
      Ok (mkTasks (t_custom t1) (blocks (t_inds t1)) (t_inds t1) (if 1 <? nt then nt else 0))
    else Ok t.

(** what can happen to the task data of a solver: the options are changed by the user at any time ([nt], [tpt]: the values in force) *)
Inductive top := TGet (nt tpt : Z) | TSet (inds : list Z) | TLaunch (nt tpt : Z).
Definition t_step (fuel : nat) (debug : bool) (N : Z) (o : top) (t : Tasks) : res Tasks :=
  match o with
  | TGet nt tpt => get_tasks fuel debug N nt tpt t
  | TSet inds => set_tasks debug N inds t
  | TLaunch nt tpt => launch fuel debug N nt tpt t
  end.
Fixpoint t_run (fuel : nat) (debug : bool) (N : Z) (os : list top) (t : Tasks) : res Tasks :=
  match os with [] => Ok t | o :: r => do t' <- t_step fuel debug N o t ; t_run fuel debug N r t' end.
End Tasks.
Arguments mkTasks _%bool _ _ _.

(** the rounding functions for real numbers and doubles *)
Definition r_round (x : R) : Z := if Rlt_dec x 0 then - (Int_part (- x + / 2)%R) else Int_part (x + / 2)%R.
(** doubles: exact, on the mantissa and exponent; conversion of NaN and infinities to int is undefined and does not occur *)
Definition f_round (x : spec_float) : Z :=
  match x with
  | S754_finite s m e =>
      let a := if 0 <=? e then Zpos m * 2 ^ e else (Zpos m + 2 ^ (- e - 1)) / 2 ^ (- e) in
      if s then - a else a
  | _ => 0
  end.

(** * the memory the tasks work on: knotpoints_ and costs_; the trajectory is only read *)
Section Update.
Context {F : Scalar} {CS : Type} (ops : CostOps F CS) (n m : nat).
Notation KPF := (KPF F CS).
(** [UB] once an index has been out of range *)
Definition mem : Type := res (list KPF * list F).
(** an action on the k-th knot point and the k-th cost *)
Definition on (k : Z) (f : KPF * F -> KPF * F) (s : mem) : mem :=
  do (ks, cs) <- s ;
  if (k <? 0) then UB else
  match nth_error ks (Z.to_nat k), nth_error cs (Z.to_nat k) with
  | Some a, Some c => let (a', c') := f (a, c) in Ok (upd (Z.to_nat k) (fun _ => a') ks, upd (Z.to_nat k) (fun _ => c') cs)
  | _, _ => UB
  end.
(** ilqr.hpp:672-675: the three statements of the loop body *)
Definition kp_actions (z : KP F) : list (KPF * F -> KPF * F) :=
  [ (fun c => (kpf_cost_expansion ops n m (z_x z) (z_u z) (fst c), snd c));
    (fun c => (kpf_dyn_expansion n m (z_x z) (z_u z) (z_t z) (z_h z) (fst c), snd c));
    (fun c => let (J, k) := kpf_cost ops (fst c) (z_x z) (z_u z) in (k, J)) ].
(** ilqr.hpp:670-677 UpdateExpansionsBlock(start, stop) as a list of atomic actions *)
Definition block_acts (Zt : Traj F) (b : Z * Z) : body mem :=
  flat_map (fun k => match nth_error Zt (Z.to_nat k) with
                     | Some z => if k <? 0 then [fun _ => UB] else map (on k) (kp_actions z)
                     | None => [fun _ => UB]
                     end) (zrange (fst b) (snd b)).
Definition run_body (b : body mem) (s : mem) : mem := fold_left (fun s a => a s) b s.
(** ilqr.hpp:354-356: the single-threaded branch *)
Definition update_serial (N : Z) (Zt : Traj F) (s : mem) : mem := run_body (block_acts Zt (0, N + 1)) s.
(** ilqr.hpp:358-363: the work handed to the pool by the multi-threaded branch, in order *)
Definition update_tasks (t : Tasks) (Zt : Traj F) : list (body mem) := map (block_acts Zt) (t_tasks t).
End Update.
