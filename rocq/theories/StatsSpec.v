(** Independent specifications for the logger and the statistics (C42, C43). *)
From Coq Require Import ZArith String List Bool.
From Verif Require Import Base LogModel StatsModel.
Import ListNotations.
Local Open Scope Z_scope.

Section Spec.
Context {F : Scalar}.

(** ** Statistics.  The history of calls since the last Reset is cut into iterations: a NewIteration call
    starts a new one, the first Log call starts the first one. *)
Fixpoint since_reset (ops : list (stop F)) : list (stop F) :=
  match ops with
  | [] => []
  | o :: r => if existsb (fun o => match o with StReset _ => true | _ => false end) r then since_reset r
              else match o with StReset _ => r | _ => o :: r end
  end.
Definition is_new (o : stop F) : bool := match o with StNew => true | _ => false end.
(** number of iterations: one per NewIteration call, plus one if the history starts with a Log *)
Definition iterations (ops : list (stop F)) : nat :=
  length (filter is_new ops) + match ops with (StLogF _ _ | StLogZ _ _) :: _ => 1 | _ => 0 end.
(** the calls made before the end of iteration [i] (before the call that starts iteration i+1) *)
Fixpoint upto (i : nat) (started : nat) (ops : list (stop F)) : list (stop F) :=
  match ops with
  | [] => []
  | o :: r =>
      let st := if is_new o then S started else Nat.max started 1 in
      if Nat.ltb (S i) st then [] else o :: upto i st r
  end.
(** the last value logged under title [t], 0 if none *)
Definition logged (t : string) (o : stop F) : list F :=
  match o with
  | StLogF t' x => if String.eqb t' t then [x] else []
  | StLogZ t' z => if String.eqb t' t then [ofZ z] else []
  | _ => []
  end.
Definition last_logged (t : string) (ops : list (stop F)) : F := last (flat_map (logged t) ops) zero.
(** the whole recorded series *)
Definition series_of (t : string) (ops : list (stop F)) : list F :=
  map (fun i => last_logged t (upto i 0 ops)) (seq 0 (iterations ops)).

(** ** Logger.  Columns are registered once, in order, with distinct titles. *)
Record column := mkCol { c_title : string; c_level : Z; c_width : Z }.
Definition add_col (c : column) : lgop F := LgAdd (-1) (c_title c) (c_level c) (c_width c).
Definition no_add (o : lgop F) : bool := match o with LgAdd _ _ _ _ => false | _ => true end.
(** verbosity after a history *)
Definition level_after (l0 : Z) (ops : list (lgop F)) : Z :=
  fold_left (fun l o => match o with LgSetLevel l' => l' | _ => l end) ops l0.
(** colour of a value between two optional bounds: below the lower bound, above the upper bound, or neither *)
Definition tint (lo up : option F) (x : F) : color :=
  match lo with
  | Some l => if ltb x l then CLower else match up with Some u => if ltb u x then CUpper else CDefault | None => CDefault end
  | None => match up with Some u => if ltb u x then CUpper else CDefault | None => CDefault end
  end.
(** content of a column's cell: the last value logged under its title while the column was active, since the last Clear, in the colour
    given by the bounds set before it was logged (a Clear keeps the colour) *)
Fixpoint cell (c : column) (l : Z) (lo up : option F) (v : option (lval F) * color) (ops : list (lgop F)) : option (lval F) * color :=
  match ops with
  | [] => v
  | LgLog t x :: r =>
      cell c l lo up (if String.eqb t (c_title c) && (kSilent <? l) && (c_level c <=? l) then (Some x, tint lo up (lval_num x)) else v) r
  | LgBound u t b :: r => if String.eqb t (c_title c) then (if u then cell c l lo (Some b) v r else cell c l (Some b) up v r) else cell c l lo up v r
  | LgClear :: r => cell c l lo up (None, snd v) r
  | LgSetLevel l' :: r => cell c l' lo up v r
  | _ :: r => cell c l lo up v r
  end.
Definition active (l : Z) (cs : list column) : list column := filter (fun c => c_level c <=? l) cs.
Definition expected_header (l : Z) (cs : list column) : list (line F) :=
  if l =? kSilent then []
  else match active l cs with [] => [] | _ => [LHeader (map (fun c => (c_title c, c_width c)) (active l cs))] end.
Definition expected_data (l0 : Z) (ops : list (lgop F)) (cs : list column) : list (line F) :=
  let l := level_after l0 ops in
  if l =? kSilent then []
  else match active l cs with
       | [] => []
       | _ => [LData (map (fun c => (cell c l0 None None (None, CDefault) ops, c_width c)) (active l cs))]
       end.
Definition is_print (o : lgop F) : bool := match o with LgPrint => true | _ => false end.
Definition prints (ops : list (lgop F)) : Z := Z.of_nat (length (filter is_print ops)).
(** nothing that resets the header counter *)
Definition keeps_count (o : lgop F) : bool := match o with LgClear | LgSetFreq _ => false | _ => true end.

(** ** The solvers' log: ten columns, and what each call on the statistics does to the console log *)
Definition solver_columns : list column :=
  [mkCol "iters" 2 6; mkCol "iter_al" 1 8; mkCol "cost" 3 10; mkCol "viol" 3 10; mkCol "dJ" 3 10; mkCol "grad" 2 10;
   mkCol "alpha" 3 6; mkCol "reg" 4 7; mkCol "z" 4 5; mkCol "pen" 5 7]%string.
(** header frequency put in force by a Reset: the option below verbosity 3, otherwise "never again" *)
Definition reset_freq (o : Opts F) : Z := if o_verbose o <? 3 then o_header_freq o else 2 ^ 31 - 1.
Definition console (o : slop F) : list (lgop F) :=
  match o with
  | SlOp (StLogF t x) => [LgLog t (VFlt x)]
  | SlOp (StLogZ t z) => [LgLog t (VInt z)]
  | SlOp StNew => []
  | SlOp (StReset o) => [LgClear; LgSetLevel (o_verbose o); LgSetFreq (reset_freq o)]
  | SlTol c v g => [LgBound false "dJ" c; LgBound false "viol" v; LgBound false "grad" g]%string
  | SlVerb l => [LgSetLevel l]
  | SlPrint => [LgPrint]
  | SlHeader => [LgPrintHeader]
  end.
Definition no_reset (o : slop F) : bool := match o with SlOp (StReset _) => false | _ => true end.
Definition sl_prints (ops : list (slop F)) : Z := Z.of_nat (length (filter (fun o => match o with SlPrint => true | _ => false end) ops)).
(** calls that neither log under [t] nor reset *)
Definition keeps_cell (t : string) (o : slop F) : bool :=
  match o with SlOp (StLogF t' _) | SlOp (StLogZ t' _) => negb (String.eqb t' t) | SlOp (StReset _) => false | _ => true end.
Definition no_tol (o : slop F) : bool := match o with SlTol _ _ _ => false | _ => true end.
End Spec.
Arguments column : clear implicits.
