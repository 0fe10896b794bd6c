(** Who owns the profiler's output stream, and what is written where: vocabulary for the calls a program makes on a Timer and for what
    the outside world sees.  Nothing here mentions the state of the model. *)
From Coq Require Import ZArith List Bool String.
Import ListNotations.

(** a FILE*: stdout, one of the user's own, or the i-th file the timer opened *)
Inductive stream := SOut | SUser (i : nat) | SFile (i : nat).
Definition stream_eqb (a b : stream) : bool :=
  match a, b with SOut, SOut => true | SUser i, SUser j => Nat.eqb i j | SFile i, SFile j => Nat.eqb i j | _, _ => false end.
(** calls on a timer: SetOutput(FILE* ) with stdout or a user's file, SetOutput(filename) with the answer of fopen, Activate and Deactivate,
    a stopwatch recording a time, PrintSummary(), PrintSummary(&map) *)
Inductive call :=
| CStream (s : stream) | CFile (name : string) (ok : bool) | CAct (b : bool) | CRec (k : string) (v : Z) | CPrint | CPrintMap (l : list (string * Z)).
Definition row := (list string * Z * Z * Z)%type.
(** what the outside world sees: fopen, a printed summary, fclose, an exception *)
Inductive ev := EOpen (i : nat) (name : string) | EPage (s : stream) (rows : list row) | EClose (s : stream) | EThrow (name : string).

(** the program never hands the timer a pointer it got from the timer (there is no way to get one) *)
Definition user_call (c : call) : Prop := match c with CStream (SFile _) => False | _ => True end.
Definition opens (c : call) : bool := match c with CFile _ ok => ok | _ => false end.
Definition prints (c : call) : bool := match c with CPrint | CPrintMap _ => true | _ => false end.
Definition redirects (c : call) : bool := match c with CStream _ => true | _ => false end.
(** how many files were opened *)
Definition n_open (cs : list call) : nat := List.length (filter opens cs).
(** cs is what came before the last successful redirection, which set stream s *)
Inductive last_out : list call -> stream -> Prop :=
| LoNone cs : (forall c, In c cs -> opens c = false /\ redirects c = false) -> last_out cs SOut
| LoStream cs s rest : (forall c, In c rest -> opens c = false /\ redirects c = false) -> last_out (cs ++ CStream s :: rest) s
| LoFile cs name rest : (forall c, In c rest -> opens c = false /\ redirects c = false) -> last_out (cs ++ CFile name true :: rest) (SFile (n_open cs)).
(** active at the end *)
Inductive last_act : list call -> bool -> Prop :=
| LaNone cs : (forall b, ~ In (CAct b) cs) -> last_act cs false
| LaSome cs b rest : (forall b', ~ In (CAct b') rest) -> last_act (cs ++ CAct b :: rest) b.
(** every file the timer opened is closed, and nothing else is *)
Definition clean (log : list ev) : Prop := forall s, In (EClose s) log <-> exists i name, s = SFile i /\ In (EOpen i name) log.
(** streams open at the end *)
Definition leaked (log : list ev) (i : nat) : Prop := (exists name, In (EOpen i name) log) /\ ~ In (EClose (SFile i)) log.

(** one solve as far as the timer is concerned: profiler_enable, profiler_output_to_file, the file's path, and the times recorded before and
    after the redirection *)
Record psolve := mkPS { ps_enable : bool; ps_tofile : bool; ps_path : string; ps_recs : list (string * Z) }.
(** the microseconds recorded under a key by the calls, if any were *)
Definition recs_of (cs : list call) (k : string) : list Z := flat_map (fun c => match c with CRec k' v => if String.eqb k k' then [v] else [] | _ => [] end) cs.
Definition rec_sum (cs : list call) (k : string) : option Z := match recs_of cs k with [] => None | l => Some (fold_right Z.add 0%Z l) end.
(** how many of the solves asked for a file *)
Definition files_asked (ps : list psolve) : nat := List.length (filter ps_tofile ps).
