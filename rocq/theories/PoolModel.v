(** Model of altro/common/threadpool.hpp and threadpool.cpp on top of the queue model: one step per access to shared data.
    Thread 0 is the one that uses the pool (the class is not meant for concurrent callers: futures_ and threads_ are unprotected);
    thread S w is worker number w.  At most [length (p_w s)] workers can exist at a time: creating one more makes std::thread throw.
    A task is a packaged_task around a list of atomic actions; an exception inside it ends up in its future, which is then ready, so
    it counts as a finished task.  Moving pools: PoolMoveModel.v. *)
From Coq Require Import List ZArith Bool.
From Verif Require Import Base QueueSpec QueueModel PoolSpec.
Import ListNotations.

Section Pool.
Context {M : Type}.
(** a call by the user *)
Inductive pop := PAdd (b : body M) | PWait | PLaunch (nthreads : Z) | PStop | PNum | PDestroy.
(** where the user's thread is *)
Inductive mpc :=
| MIdle
| MPush (id : nat)       (* inside queue_.Push *)
| MNum                   (* inside queue_.Size *)
| MWait (l : list nat)   (* futures still to be waited for *)
| MSpawn (k i : nat)     (* i of k threads created *)
| MJoin (i : nat) (d : bool) (* i threads joined; d: called by the destructor *)
| MGone.
(** where a worker is *)
Inductive wpc :=
| WOff                   (* no such thread *)
| WCheck                 (* about to read is_running_ *)
| WPop                   (* inside queue_.TryPop *)
| WRun (id j : nat)      (* inside task(), j actions done *)
| WOver.                 (* function returned, not joined *)
(** threadpool.hpp:140-145; [p_done]: tasks whose future is ready *)
Record pst := mkP {
  p_q : qst nat; p_run : bool; p_nthr : nat; p_fut : list nat; p_bodies : list (body M); p_done : list nat;
  p_main : mpc; p_w : list wpc; p_mem : M }.
(** threadpool.hpp:47, [W] potential workers *)
Definition p_init (W : nat) (m : M) : pst := mkP (q_init (S W)) false 0 [] [] [] MIdle (repeat WOff W) m.

Definition set_main (s : pst) (p : mpc) : pst := mkP (p_q s) (p_run s) (p_nthr s) (p_fut s) (p_bodies s) (p_done s) p (p_w s) (p_mem s).
Definition set_q (s : pst) (q : qst nat) : pst := mkP q (p_run s) (p_nthr s) (p_fut s) (p_bodies s) (p_done s) (p_main s) (p_w s) (p_mem s).
Definition set_w (s : pst) (w : nat) (p : wpc) : pst := mkP (p_q s) (p_run s) (p_nthr s) (p_fut s) (p_bodies s) (p_done s) (p_main s) (upd w (fun _ => p) (p_w s)) (p_mem s).
Definition set_run (s : pst) (b : bool) : pst := mkP (p_q s) b (p_nthr s) (p_fut s) (p_bodies s) (p_done s) (p_main s) (p_w s) (p_mem s).
Definition set_nthr (s : pst) (n : nat) : pst := mkP (p_q s) (p_run s) n (p_fut s) (p_bodies s) (p_done s) (p_main s) (p_w s) (p_mem s).
Definition set_fut (s : pst) (l : list nat) : pst := mkP (p_q s) (p_run s) (p_nthr s) l (p_bodies s) (p_done s) (p_main s) (p_w s) (p_mem s).
Definition add_body (s : pst) (b : body M) : pst := mkP (p_q s) (p_run s) (p_nthr s) (p_fut s) (p_bodies s ++ [b]) (p_done s) (p_main s) (p_w s) (p_mem s).
Definition add_done (s : pst) (id : nat) : pst := mkP (p_q s) (p_run s) (p_nthr s) (p_fut s) (p_bodies s) (id :: p_done s) (p_main s) (p_w s) (p_mem s).
Definition set_mem (s : pst) (m : M) : pst := mkP (p_q s) (p_run s) (p_nthr s) (p_fut s) (p_bodies s) (p_done s) (p_main s) (p_w s) m.

(** [PDie]: std::terminate or a failed assertion *)
Inductive pres := PBlock | PBad | PDie | PStep (s : pst) (e : list (pev M)).
Definition isdone (s : pst) (id : nat) : bool := existsb (Nat.eqb id) (p_done s).

(** one step of the user's thread: it starts the call [o] when idle; [tmo]: the current future.wait_for runs out of time *)
Definition main_step (debug : bool) (o : pop) (tmo : bool) (s : pst) : pres :=
  match p_main s with
  | MIdle =>
      match o with
      (* threadpool.hpp:69-74: create the packaged task, keep its future, then push *)
      | PAdd b => let id := length (p_bodies s) in PStep (set_main (set_fut (add_body s b) (p_fut s ++ [id])) (MPush id)) [EAdd id b]
      (* threadpool.cpp:31-32 *)
      | PWait => PStep (set_main s (MWait (p_fut s))) [EWait]
      (* threadpool.cpp:42-48; threads_.clear() (line 48) destroys the std::thread objects: std::terminate if any is joinable *)
      | PLaunch k =>
          if p_run s then if debug then PDie else PStep s [ELaunch (Z.to_nat k); ELaunched]
          else match p_nthr s with
               | O => PStep (set_main (set_run s true) (MSpawn (Z.to_nat k) 0)) [ELaunch (Z.to_nat k)]
               | _ => PDie
               end
      (* threadpool.cpp:61 *)
      | PStop => PStep (set_main (set_run s false) (MJoin 0 false)) [EStop]
      (* threadpool.hpp:81 *)
      | PNum => PStep (set_main s MNum) [ENumTasks]
      (* threadpool.hpp:57-61; the members are destroyed afterwards: std::terminate if a thread is joinable *)
      | PDestroy =>
          if p_run s then PStep (set_main (set_run s false) (MJoin 0 true)) [EDestroy]
          else match p_nthr s with O => PStep (set_main s MGone) [EDestroy; EGone] | _ => PDie end
      end
  (* the call queue_.Push(std::move(ptask)) *)
  | MPush id =>
      match q_step 0 (QPush id) (p_q s) with
      | QBlock => PBlock | QBad => PBad
      | QStep q (Some (ERet _ _)) => PStep (set_main (set_q s q) MIdle) [EAdded id]
      | QStep q _ => PStep (set_q s q) []
      end
  | MNum =>
      match q_step 0 QSize (p_q s) with
      | QBlock => PBlock | QBad => PBad
      | QStep q (Some (ERet _ (RSize z))) => PStep (set_main (set_q s q) MIdle) [ENum z]
      | QStep q _ => PStep (set_q s q) []
      end
  (* threadpool.cpp:32-38 *)
  | MWait [] => PStep (set_main (set_fut s []) MIdle) [EWaited]
  | MWait (f :: r) => if isdone s f then PStep (set_main s (MWait r)) [] else if tmo then PStep (set_main s (MWait r)) [ETimeout f] else PBlock
  (* threadpool.cpp:49-57 *)
  | MSpawn k i =>
      if Nat.ltb i k then
        if Nat.ltb i (length (p_w s)) then PStep (set_main (set_nthr (set_w s i WCheck) (S i)) (MSpawn k (S i))) []
        else PStep (set_main (set_run s false) MIdle) [EThrown]
      else PStep (set_main s MIdle) [ELaunched]
  (* threadpool.cpp:62-67 *)
  | MJoin i d =>
      if Nat.ltb i (p_nthr s) then
        match nth_error (p_w s) i with
        | Some WOver => PStep (set_main (set_w s i WOff) (MJoin (S i) d)) []
        | _ => PBlock
        end
      else if d then PStep (set_main (set_nthr s 0) MGone) [EGone] else PStep (set_main (set_nthr s 0) MIdle) [EStopped]
  | MGone => PBlock
  end.

(** one step of worker [w]: threadpool.cpp:70-80 *)
Definition work_step (w : nat) (s : pst) : pres :=
  match nth_error (p_w s) w with
  | None | Some WOff | Some WOver => PBlock
  | Some WCheck => PStep (set_w s w (if p_run s then WPop else WOver)) []
  | Some WPop =>
      match q_step (S w) QPop (p_q s) with
      | QBlock => PBlock | QBad => PBad
      | QStep q (Some (ERet _ (RPop (Some id)))) => PStep (set_w (set_q s q) w (WRun id 0)) [EStart id]
      | QStep q (Some (ERet _ _)) => PStep (set_w (set_q s q) w WCheck) []
      | QStep q _ => PStep (set_q s q) []
      end
  | Some (WRun id j) =>
      match nth_error (p_bodies s) id with
      | None => PBad
      | Some b => match nth_error b j with
                  | Some a => PStep (set_mem (set_w s w (WRun id (S j))) (a (p_mem s))) [EAct id j]
                  | None => PStep (add_done (set_w s w WCheck) id) [EFin id]
                  end
      end
  end.

(** who moves next; for the user's thread also which call it makes when idle and whether the current wait times out *)
Inductive move := Main (o : pop) (tmo : bool) | Work (w : nat).
Definition p_step (debug : bool) (x : move) (s : pst) : pres := match x with Main o tmo => main_step debug o tmo s | Work w => work_step w s end.
(** a schedule; a blocked thread does nothing *)
Fixpoint p_exec (debug : bool) (sched : list move) (s : pst) : res (list (pev M) * pst) :=
  match sched with
  | [] => Ok ([], s)
  | x :: r =>
      match p_step debug x s with
      | PBlock => p_exec debug r s
      | PBad => UB
      | PDie => Abort
      | PStep s' e => do (H, s'') <- p_exec debug r s' ; Ok (e ++ H, s'')
      end
  end.
End Pool.
Arguments pop M : clear implicits. Arguments pst M : clear implicits. Arguments pres M : clear implicits. Arguments move M : clear implicits.
