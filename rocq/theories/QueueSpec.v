(** Linearizability with respect to a sequential FIFO queue, for any number of threads.  Nothing here mentions the model of the
    code; the model uses the vocabulary (operations, results, events) of this file. *)
From Coq Require Import List ZArith Bool.
Import ListNotations.

Section Spec.
Context {V : Type}.
Inductive qop := QPush (v : V) | QPop | QIsEmpty | QClear | QSize | QAssign.
Inductive qret := RUnit | RPop (r : option V) | RBool (b : bool) | RSize (z : Z).
(** what an observer sees: calls and returns of each thread, in real-time order *)
Inductive qev := EInv (t : nat) (o : qop) | ERet (t : nat) (r : qret).

(** the sequential queue: [seq_q o q r q'] says that [o] may take effect on contents [q], giving [r] and contents [q'].
    The result of Size is left free here (C39 is about it). *)
Inductive seq_q : qop -> list V -> qret -> list V -> Prop :=
| sq_push v q : seq_q (QPush v) q RUnit (q ++ [v])
| sq_pop_empty : seq_q QPop [] (RPop None) []
| sq_pop v q : seq_q QPop (v :: q) (RPop (Some v)) q
| sq_empty q : seq_q QIsEmpty q (RBool (match q with [] => true | _ => false end)) q
| sq_clear q : seq_q QClear q RUnit []
| sq_assign q : seq_q QAssign q RUnit []
| sq_size q z : seq_q QSize q (RSize z) q.

(** a history with, for some of the calls, the instant at which the call takes effect *)
Inductive aev := AInv (t : nat) (o : qop) | ALin (t : nat) (o : qop) (r : qret) | ARet (t : nat) (r : qret).
Inductive status := SIdle | SCalled (o : qop) | SDid (r : qret).
Definition sset (st : nat -> status) (t : nat) (x : status) : nat -> status := fun k => if Nat.eqb k t then x else st k.
(** every call takes effect exactly once between its invocation and its return, atomically on the sequential queue, and
    returns the result obtained then *)
Inductive lrun : list aev -> (nat -> status) -> list V -> Prop :=
| lr_nil : lrun [] (fun _ => SIdle) []
| lr_inv A st q t o : lrun A st q -> st t = SIdle -> lrun (A ++ [AInv t o]) (sset st t (SCalled o)) q
| lr_lin A st q t o r q' : lrun A st q -> st t = SCalled o -> seq_q o q r q' -> lrun (A ++ [ALin t o r]) (sset st t (SDid r)) q'
| lr_ret A st q t r : lrun A st q -> st t = SDid r -> lrun (A ++ [ARet t r]) (sset st t SIdle) q.
Fixpoint erase (A : list aev) : list qev :=
  match A with
  | [] => []
  | AInv t o :: r => EInv t o :: erase r
  | ALin _ _ _ :: r => erase r
  | ARet t x :: r => ERet t x :: erase r
  end.
(** the history [H] is linearizable, ending with queue contents [q] and threads in status [st] *)
Definition linearizable (H : list qev) (st : nat -> status) (q : list V) : Prop := exists A st', lrun A st' q /\ (forall t, st' t = st t) /\ erase A = H.

(** values pushed / popped, in the order in which the calls take effect *)
Definition eff_push (A : list aev) : list V := flat_map (fun e => match e with ALin _ (QPush v) _ => [v] | _ => [] end) A.
Definition eff_pop (A : list aev) : list V := flat_map (fun e => match e with ALin _ _ (RPop (Some v)) => [v] | _ => [] end) A.
(** values returned by completed pops / handed to started pushes, in the order of the history *)
Definition popped (H : list qev) : list V := flat_map (fun e => match e with ERet _ (RPop (Some v)) => [v] | _ => [] end) H.
Definition pushed (H : list qev) : list V := flat_map (fun e => match e with EInv _ (QPush v) => [v] | _ => [] end) H.
(** values held by unfinished calls of the threads below [n]: pushes that have not taken effect, pops that have not returned *)
Definition inflight (n : nat) (st : nat -> status) : list V :=
  flat_map (fun t => match st t with SCalled (QPush v) => [v] | SDid (RPop (Some v)) => [v] | _ => [] end) (seq 0 n).
End Spec.
Arguments qop V : clear implicits. Arguments qret V : clear implicits. Arguments qev V : clear implicits. Arguments aev V : clear implicits.
Arguments status V : clear implicits.
