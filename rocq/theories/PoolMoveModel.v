(** Thread pools that are constructed, used, moved and destroyed by one thread (threadpool.hpp:47-61, threadpool.cpp:11-29,
    threadsafe_queue.hpp:77-98).  The pools themselves are PoolModel.v.  The work of a pool's tasks is on memory of its own, which goes with the tasks
    when the pool is moved.  The limit on the number of threads is per pool. *)
From Coq Require Import List ZArith Bool.
From Verif Require Import Base QueueSpec QueueModel PoolSpec PoolModel.
Import ListNotations.

Section Moves.
Context {M : Type} (W : nat).
(** a pool object: as PoolModel.v, or moved from: threads_ and futures_ are empty, the pointers of queue_ are null, is_running_ keeps its value
    (threadpool.cpp:12 reads it only) *)
Inductive pcell := Live (s : pst M) | Left (run : bool).
(** [ob_hist]: what has happened to the tasks and threads it holds, wherever they were held before.  Objects are numbered in order of construction;
    None: destroyed after having been moved from *)
Record pobj := mkPobj { ob_hist : list (pev M); ob_cell : pcell }.
Definition world := list (option pobj).
Definition wset (i : nat) (o : option pobj) (w : world) : world := upd i (fun _ => o) w.
(** no call to this pool is in progress *)
Definition quiet_cell (c : pcell) : bool := match c with Live s => match p_main s with MIdle | MGone => true | _ => false end | Left _ => true end.
Fixpoint others_quiet (i : nat) (w : world) : bool :=
  match w with
  | [] => true
  | o :: r => (match i with O => true | S _ => match o with Some b => quiet_cell (ob_cell b) | None => true end end) &&
              match i with O => forallb (fun o => match o with Some b => quiet_cell (ob_cell b) | None => true end) r | S k => others_quiet k r end
  end.
Definition all_quiet (w : world) : bool := forallb (fun o => match o with Some b => quiet_cell (ob_cell b) | None => true end) w.
Definition no_worker (s : pst M) : bool := forallb (fun p => match p with WOff => true | _ => false end) (p_w s).
Definition working (s : pst M) : bool := existsb (fun p => match p with WOff | WOver => false | _ => true end) (p_w s).

(** threadpool.cpp:11-18, the move constructor.  The workers run on the object they were launched from: with is_running_ set they go on to pop from
    its queue, whose pointers are null then.  Workers left over from a failed launch (is_running_ false) refer to the object moved from as well; what
    becomes of them depends on how long it lives, which is not followed: counted as undefined. *)
Definition move_from (debug : bool) (s : pst M) : res unit :=
  match p_main s with
  | MIdle =>
      if p_run s then if debug then Abort else if no_worker s then Ok tt else UB
      else if working s then UB else Ok tt
  | _ => UB
  end.
(** threadpool.cpp:20-29, the move assignment.  Line 21: assertion.  Line 23 destroys the threads held so far: std::terminate if there are any.
    Line 25: threadsafe_queue.hpp:88-98 calls Clear on the queue held so far: null pointer in a moved-from pool; otherwise Clear, which
    never returns (C40, C81_assign_blocks). *)
Definition assign_to (debug : bool) (src dst : pcell) : res unit :=
  let run := match src with Live s => p_run s | Left b => b end in
  if debug && run then Abort
  else match dst with
       | Left _ => UB
       | Live s => match p_nthr s with O => Deadlock | _ => Abort end
       end.
(** calls to a moved-from pool (threadpool.hpp:57-81, threadpool.cpp:31-68) *)
Definition left_call (debug : bool) (o : pop M) (run : bool) : res (option pcell) :=
  match o with
  | PAdd _ => UB                                     (* Push locks *tail_mutex_ *)
  | PWait => Ok (Some (Left run))                    (* no futures *)
  | PLaunch k => if run then if debug then Abort else Ok (Some (Left run))
                 else if (0 <? k)%Z then UB          (* the workers lock *head_mutex_ *)
                 else Ok (Some (Left true))
  | PStop => Ok (Some (Left false))
  | PNum => UB                                       (* *size_ *)
  | PDestroy => Ok None
  end.

Inductive wop := WNew (m : M) | WMove (i : nat) | WAssign (dst src : nat) | WStep (i : nat) (x : move M).
(** a thread that cannot move does nothing; calls to objects that do not exist are left out *)
Definition w_step (debug : bool) (o : wop) (w : world) : res world :=
  match o with
  | WNew m => if all_quiet w then Ok (w ++ [Some (mkPobj [] (Live (p_init W m)))]) else Ok w
  | WMove i =>
      if all_quiet w then
        match nth_error w i with
        | Some (Some b) =>
            match ob_cell b with
            | Live s => do _ <- move_from debug s ; Ok (wset i (Some (mkPobj [] (Left (p_run s)))) w ++ [Some (mkPobj (ob_hist b) (Live s))])
            | Left run => if debug && run then Abort else Ok (w ++ [Some (mkPobj [] (Left run))])
            end
        | _ => Ok w
        end
      else Ok w
  | WAssign d i =>
      if all_quiet w then
        match nth_error w d, nth_error w i with
        | Some (Some b), Some (Some c) => do _ <- assign_to debug (ob_cell c) (ob_cell b) ; Ok w
        | _, _ => Ok w
        end
      else Ok w
  | WStep i x =>
      match nth_error w i with
      | Some (Some b) =>
          if match x with Main _ _ => others_quiet i w | Work _ => true end then
          match ob_cell b with
          | Live s => match p_step debug x s with
                      | PBlock => Ok w | PBad => UB | PDie => Abort
                      | PStep s' e => Ok (wset i (Some (mkPobj (ob_hist b ++ e) (Live s'))) w)
                      end
          | Left run => match x with
                        | Main o _ => do c <- left_call debug o run ; Ok (wset i (match c with Some c => Some (mkPobj [] c) | None => None end) w)
                        | Work _ => Ok w
                        end
          end
          else Ok w
      | _ => Ok w
      end
  end.
Fixpoint w_exec (debug : bool) (ops : list wop) (w : world) : res world :=
  match ops with [] => Ok w | o :: r => do w1 <- w_step debug o w ; w_exec debug r w1 end.
End Moves.
Arguments pcell M : clear implicits. Arguments pobj M : clear implicits. Arguments world M : clear implicits. Arguments wop M : clear implicits.
