(** What can be observed of a thread pool, and the life of a task.  Nothing here mentions the model of the code. *)
From Coq Require Import List ZArith Bool.
Import ListNotations.

Section Spec.
Context {M : Type}.
(** the work of a task: atomic actions on the shared memory, in order *)
Definition body := list (M -> M).
(** tasks are numbered in the order in which they are added *)
Inductive pev :=
| EAdd (id : nat) (b : body)    (* AddTask is called *)
| EStart (id : nat)             (* a worker starts the task *)
| EAct (id j : nat)             (* it performs its action number j *)
| EFin (id : nat)               (* it finishes *)
| EAdded (id : nat)             (* AddTask returns *)
| EWait                         (* Wait is called *)
| ETimeout (id : nat)           (* Wait gives up on a task *)
| EWaited                       (* Wait returns *)
| ELaunch (k : nat) | ELaunched (* LaunchThreads is called, returns *)
| EThrown                       (* LaunchThreads throws *)
| EStop | EStopped              (* StopThreads is called, returns *)
| ENumTasks | ENum (z : Z)      (* NumTasks is called, returns *)
| EDestroy | EGone.             (* the destructor is called, returns *)

Definition about (id : nat) (e : pev) : bool :=
  match e with EAdd i _ | EStart i | EAct i _ | EFin i => Nat.eqb i id | _ => false end.
(** the whole life of task [id] with work [b] *)
Definition life (id : nat) (b : body) : list pev := EAdd id b :: EStart id :: map (EAct id) (seq 0 (length b)) ++ [EFin id].
Definition prefix {A} (l l' : list A) : Prop := exists r, l' = l ++ r.
(** the work added so far, in order *)
Definition added (H : list pev) : list body := flat_map (fun e => match e with EAdd _ b => [b] | _ => [] end) H.
(** the memory after the actions of a history *)
Definition act (bs : list body) (e : pev) (m : M) : M :=
  match e with
  | EAct id j => match nth_error bs id with Some b => match nth_error b j with Some a => a m | None => m end | None => m end
  | _ => m
  end.
Definition replay (bs : list body) (H : list pev) (m : M) : M := fold_left (fun m e => act bs e m) H m.
(** the call that has not returned yet *)
Inductive call := CAdd (id : nat) | CWait | CLaunch | CStop | CNum | CDestroy.
Definition calls (c : option call) (e : pev) : option call :=
  match e with
  | EAdd id _ => Some (CAdd id) | EWait => Some CWait | ELaunch _ => Some CLaunch | EStop => Some CStop | ENumTasks => Some CNum | EDestroy => Some CDestroy
  | EAdded _ | EWaited | ELaunched | EThrown | EStopped | ENum _ | EGone => None
  | _ => c
  end.
Definition calling (H : list pev) : option call := fold_left calls H None.
(** the pool has no threads, has been launched with [k] threads, has failed to create all its threads *)
Inductive phase := Down | Up (k : nat) | Broken.
Definition phases (p : phase) (e : pev) : phase :=
  match e with
  | ELaunch k => match p with Up _ => p | _ => Up k end
  | EThrown => Broken
  | EStopped | EGone => Down
  | _ => p
  end.
Definition phase_of (H : list pev) : phase := fold_left phases H Down.
Definition no_timeout (H : list pev) : Prop := forall id, ~ In (ETimeout id) H.
(** number of tasks added but not started *)
Definition waiting (H : list pev) : nat :=
  length (filter (fun id => negb (existsb (fun e => match e with EStart i => Nat.eqb i id | _ => false end) H)) (seq 0 (length (added H)))).
End Spec.
Arguments body M : clear implicits. Arguments pev M : clear implicits.
