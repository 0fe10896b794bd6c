(** Model of altro/common/threadsafe_queue.hpp: small steps, one per lock operation, memory access or call boundary; any number
    of threads, any interleaving (sequentially consistent, as the code uses mutexes and a seq_cst atomic).

    A mutex that is held blocks every thread that wants it, including the thread that holds it (std::mutex is not recursive:
    locking it twice from one thread is undefined in the standard and blocks in practice).  Waking waiters
    (data_cond_->notify_one, line 113) has no effect: nobody waits on the condition variable. *)
From Coq Require Import List ZArith Bool.
From Verif Require Import Base QueueSpec.
Import ListNotations.

Section Queue.
Context {V : Type}.
(** the shared_ptr<T> of a node: null, pointing to a value, pointing to a moved-from value *)
Inductive dat := DNull | DMoved | DVal (v : V).
(** lines 21-24 *)
Record node := mkNode { nd_data : dat; nd_next : option nat }.
(** the nodes ever allocated; [None]: destroyed *)
Definition nheap := list (option node).
Definition hget (h : nheap) (a : nat) : option node := match nth_error h a with Some (Some n) => Some n | _ => None end.
Definition hset (h : nheap) (a : nat) (n : option node) : nheap := upd a (fun _ => n) h.

(** where a thread is *)
Inductive pc :=
| Idle
  (* Push *)
| PuAlloc (v : V) | PuLock (v : V) (nn : nat) | PuData (v : V) (nn : nat) | PuNext (v : V) (nn : nat) | PuTail (v : V) (nn : nat)
| PuUnlock | PuInc | PuRet
  (* TryPop / TryPopHead / PopHead *)
| PoLock | PoHead | PoTLock (h : option nat) | PoTRead (h : option nat) | PoTUnlock (h : option nat) (t : nat)
| PoDec | PoMove | PoTake (v : V) | PoNext (v : V) (old : option nat)
| PoUnlock (r : option V) (old : option nat) | PoFree (r : option V) (old : option nat)
  (* IsEmpty; [c]: called by the user (None), by Clear (Some false) or by the move assignment's Clear (Some true) *)
| EmLock (c : option bool) | EmHead (c : option bool) | EmTLock (c : option bool) (h : option nat) | EmTRead (c : option bool) (h : option nat)
| EmTUnlock (c : option bool) (h : option nat) (t : nat) | EmUnlock (c : option bool) (b : bool)
  (* Clear, [mv]: inside the move assignment *)
| ClLock (mv : bool) | ClTake (mv : bool) | ClNext (mv : bool) (old : option nat) | ClFree (mv : bool) (old : option nat) | ClUnlock (mv : bool)
| SzRead.

(** lines 69-74 *)
Record qst := mkQ { q_heap : nheap; q_head : option nat; q_tail : nat; q_hm : option nat; q_tm : option nat; q_size : Z; q_pcs : list pc }.
Definition size_max : Z := 18446744073709551616. (* 2^64 *)
(** 27-32 constructor: one dummy node; [n] threads *)
Definition q_init (n : nat) : qst := mkQ [Some (mkNode DNull None)] (Some 0) 0 None None 0 (repeat Idle n).

Inductive qres := QBlock | QBad | QStep (s : qst) (e : option (qev V)).
(** thread [t] moves to [p] *)
Definition goto (s : qst) (t : nat) (p : pc) : qst :=
  mkQ (q_heap s) (q_head s) (q_tail s) (q_hm s) (q_tm s) (q_size s) (upd t (fun _ => p) (q_pcs s)).
Definition set_heap (s : qst) (h : nheap) : qst := mkQ h (q_head s) (q_tail s) (q_hm s) (q_tm s) (q_size s) (q_pcs s).
Definition set_head (s : qst) (a : option nat) : qst := mkQ (q_heap s) a (q_tail s) (q_hm s) (q_tm s) (q_size s) (q_pcs s).
Definition set_tail (s : qst) (a : nat) : qst := mkQ (q_heap s) (q_head s) a (q_hm s) (q_tm s) (q_size s) (q_pcs s).
Definition set_size (s : qst) (z : Z) : qst := mkQ (q_heap s) (q_head s) (q_tail s) (q_hm s) (q_tm s) (z mod size_max) (q_pcs s).
Definition tau (s : qst) (t : nat) (p : pc) : qres := QStep (goto s t p) None.
Definition ret (s : qst) (t : nat) (r : qret V) : qres := QStep (goto s t Idle) (Some (ERet t r)).
(** std::lock_guard construction and destruction *)
Definition lock_head (s : qst) (t : nat) (p : pc) : qres :=
  match q_hm s with
  | None => tau (mkQ (q_heap s) (q_head s) (q_tail s) (Some t) (q_tm s) (q_size s) (q_pcs s)) t p
  | Some _ => QBlock
  end.
Definition unlocked_head (s : qst) : qst := mkQ (q_heap s) (q_head s) (q_tail s) None (q_tm s) (q_size s) (q_pcs s).
Definition lock_tail (s : qst) (t : nat) (p : pc) : qres :=
  match q_tm s with
  | None => tau (mkQ (q_heap s) (q_head s) (q_tail s) (q_hm s) (Some t) (q_size s) (q_pcs s)) t p
  | Some _ => QBlock
  end.
Definition unlocked_tail (s : qst) : qst := mkQ (q_heap s) (q_head s) (q_tail s) (q_hm s) None (q_size s) (q_pcs s).
Definition eqo (h : option nat) (t : nat) : bool := match h with Some a => Nat.eqb a t | None => false end.
(** unique_ptr destructor; destroying a node that still owns a successor would destroy the list behind it: reported as bad *)
Definition q_free (s : qst) (old : option nat) (k : qst -> qres) : qres :=
  match old with
  | None => k s
  | Some a => match hget (q_heap s) a with
              | Some (mkNode _ None) => k (set_heap s (hset (q_heap s) a None))
              | _ => QBad
              end
  end.

(** One step of thread [t]; an idle thread starts the call [o]. *)
Definition q_step (t : nat) (o : qop V) (s : qst) : qres :=
  match nth_error (q_pcs s) t with
  | None => QBlock
  | Some p =>
    match p with
    | Idle =>
        let p' := match o with QPush v => PuAlloc v | QPop => PoLock | QIsEmpty => EmLock None | QClear => ClLock false
                             | QAssign => ClLock true | QSize => SzRead end in
        QStep (goto s t p') (Some (EInv t o))
    (* Push 100-114 *)
    | PuAlloc v => tau (set_heap s (q_heap s ++ [Some (mkNode DNull None)])) t (PuLock v (length (q_heap s)))
    | PuLock v nn => lock_tail s t (PuData v nn)
    | PuData v nn => match hget (q_heap s) (q_tail s) with
                     | Some n => tau (set_heap s (hset (q_heap s) (q_tail s) (Some (mkNode (DVal v) (nd_next n))))) t (PuNext v nn)
                     | None => QBad
                     end
    | PuNext v nn => match hget (q_heap s) (q_tail s) with
                     | Some (mkNode d None) => tau (set_heap s (hset (q_heap s) (q_tail s) (Some (mkNode d (Some nn))))) t (PuTail v nn)
                     | _ => QBad
                     end
    | PuTail v nn => tau (set_tail s nn) t PuUnlock
    | PuUnlock => tau (unlocked_tail s) t PuInc
    | PuInc => tau (set_size s (q_size s + 1)) t PuRet
    | PuRet => ret s t RUnit
    (* TryPop 116-120, TryPopHead 59-67, GetTail 48-51, PopHead 53-58 *)
    | PoLock => lock_head s t PoHead
    | PoHead => tau s t (PoTLock (q_head s))
    | PoTLock h => lock_tail s t (PoTRead h)
    | PoTRead h => tau s t (PoTUnlock h (q_tail s))
    | PoTUnlock h tl => tau (unlocked_tail s) t (if eqo h tl then PoUnlock None None else PoDec)
    | PoDec => tau (set_size s (q_size s - 1)) t PoMove
    | PoMove => match q_head s with
                | Some a => match hget (q_heap s) a with
                            | Some (mkNode (DVal v) nx) => tau (set_heap s (hset (q_heap s) a (Some (mkNode DMoved nx)))) t (PoTake v)
                            | _ => QBad
                            end
                | None => QBad
                end
    | PoTake v => tau (set_head s None) t (PoNext v (q_head s))
    | PoNext v old => match old with
                      | Some a => match hget (q_heap s) a with
                                  | Some (mkNode d nx) => tau (set_head (set_heap s (hset (q_heap s) a (Some (mkNode d None)))) nx) t (PoUnlock (Some v) old)
                                  | None => QBad
                                  end
                      | None => QBad
                      end
    | PoUnlock r old => tau (unlocked_head s) t (PoFree r old)
    | PoFree r old => q_free s old (fun s' => ret s' t (RPop r))
    (* IsEmpty 122-126 *)
    | EmLock c => lock_head s t (EmHead c)
    | EmHead c => tau s t (EmTLock c (q_head s))
    | EmTLock c h => lock_tail s t (EmTRead c h)
    | EmTRead c h => tau s t (EmTUnlock c h (q_tail s))
    | EmTUnlock c h tl => tau (unlocked_tail s) t (EmUnlock c (eqo h tl))
    | EmUnlock c b => match c with
                      | None => QStep (goto (unlocked_head s) t Idle) (Some (ERet t (RBool b)))
                      | Some mv => tau (unlocked_head s) t (if b then ClUnlock mv else ClTake mv)
                      end
    (* Clear 128-134; the move assignment 88-98 calls it first *)
    | ClLock mv => lock_head s t (EmLock (Some mv))
    | ClTake mv => tau (set_head s None) t (ClNext mv (q_head s))
    | ClNext mv old => match old with
                       | Some a => match hget (q_heap s) a with
                                   | Some (mkNode d nx) => tau (set_head (set_heap s (hset (q_heap s) a (Some (mkNode d None)))) nx) t (ClFree mv old)
                                   | None => QBad
                                   end
                       | None => QBad
                       end
    | ClFree mv old => q_free s old (fun s' => tau s' t (EmLock (Some mv)))
    | ClUnlock mv => QStep (goto (unlocked_head s) t Idle) (Some (ERet t RUnit))
    (* Size 46 *)
    | SzRead => ret s t (RSize (q_size s))
    end
  end.

(** A schedule says which thread moves next (and which call an idle thread starts); a blocked thread does nothing. *)
Fixpoint q_exec (sched : list (nat * qop V)) (s : qst) : res (list (qev V) * qst) :=
  match sched with
  | [] => Ok ([], s)
  | (t, o) :: r =>
      match q_step t o s with
      | QBlock => q_exec r s
      | QBad => UB
      | QStep s' e => do (H, s'') <- q_exec r s' ; Ok (match e with Some x => x :: H | None => H end, s'')
      end
  end.
End Queue.
Arguments dat V : clear implicits. Arguments node V : clear implicits. Arguments nheap V : clear implicits. Arguments pc V : clear implicits.
Arguments qst V : clear implicits. Arguments qres V : clear implicits.
