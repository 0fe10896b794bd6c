(** Scoped stopwatches and their time tables, described without the timer's data structures. *)
From Coq Require Import ZArith List Bool Ascii String.
Import ListNotations.
Local Open Scope Z_scope.

(** A program that uses stopwatches in nested scopes: [Scope nm t0 t1 body rest] opens a stopwatch named nm when the clock shows t0
    (nanoseconds), runs body, lets it go out of scope when the clock shows t1, and continues with rest.  [Act b] switches the timer. *)
Inductive prog := Done | Scope (nm : string) (t0 t1 : Z) (body rest : prog) | Act (b : bool) (rest : prog).
(** what is to be recorded: for each stopwatch opened while the timer is active the names of the enclosing recorded stopwatches
    and its own, outermost first, and the whole microseconds measured; and whether the timer is active in the end *)
Fixpoint recs (p : prog) (pre : list string) (active : bool) : list (list string * Z) * bool :=
  match p with
  | Done => ([], active)
  | Scope nm t0 t1 body rest =>
      if active then
        let (rb, a1) := recs body (pre ++ [nm]) true in
        let (rr, a2) := recs rest pre a1 in (rb ++ (pre ++ [nm], Z.quot (t1 - t0) 1000) :: rr, a2)
      else
        let (rb, a1) := recs body pre false in
        let (rr, a2) := recs rest pre a1 in (rb ++ rr, a2)
  | Act b rest => recs rest pre b
  end.
Definition sum (l : list Z) : Z := fold_right Z.add 0 l.
(** the time recorded under a key *)
Definition spent (rs : list (list string * Z)) (key : string) : Z := sum (map snd (filter (fun r => String.eqb (String.concat "/" (fst r)) key) rs)).
(** a clock that does not run backwards, from a to b *)
Fixpoint timed (a : Z) (p : prog) (b : Z) : Prop :=
  match p with
  | Done => a <= b
  | Scope _ t0 t1 body rest => a <= t0 /\ timed t0 body t1 /\ timed t1 rest b
  | Act _ rest => timed a rest b
  end.
(** names made of characters after '/' in the byte order: digits, letters, '_', ... but not space, '-', '.', '/' *)
Fixpoint plain (s : string) : Prop := match s with EmptyString => True | String c r => (N_of_ascii "/" < N_of_ascii c)%N /\ plain r end.
Fixpoint names (p : prog) : list string :=
  match p with Done => [] | Scope nm _ _ body rest => nm :: names body ++ names rest | Act _ rest => names rest end.
Fixpoint no_slash (s : string) : Prop := match s with EmptyString => True | String c r => c <> "/"%char /\ no_slash r end.
(** a component path *)
Definition parent_path (l : list string) : list string := removelast l.
(** the microseconds recorded for a path and for all outermost stopwatches *)
Definition time_of (rs : list (list string * Z)) (q : list string) : Z :=
  sum (map snd (filter (fun r => if list_eq_dec string_dec (fst r) q then true else false) rs)).
Definition top_total (rs : list (list string * Z)) : Z := sum (map snd (filter (fun r => Nat.eqb (List.length (fst r)) 1) rs)).
(** a whole percentage, -1 if there is nothing to compare with *)
Definition pct (t T : Z) : Z := if T =? 0 then -1 else 100 * t / T.
(** the timer is never switched on *)
Fixpoint never_on (p : prog) : Prop := match p with Done => True | Scope _ _ _ body rest => never_on body /\ never_on rest | Act b rest => b = false /\ never_on rest end.
(** the number of '/' *)
Fixpoint slashes (s : string) : nat := match s with EmptyString => O | String c r => (if Ascii.eqb c "/" then 1 else 0) + slashes r end.
