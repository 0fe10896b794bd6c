(** Model of altro/common/log_entry.hpp, solver_logger.hpp/.cpp: the tabular console logger.
    A printed line is recorded as structured data; text formatting (fmt format strings, padding, escape
    codes) is not modelled. *)
From Coq Require Import ZArith String List Bool.
From Verif Require Import Base.
Import ListNotations.
Local Open Scope Z_scope.

(** log_entry.hpp:28-35 LogLevel *)
Definition kSilent : Z := 0.
Definition kOuter : Z := 1.
Definition kOuterDebug : Z := 2.
Definition kInner : Z := 3.
Definition kInnerDebug : Z := 4.
Definition kDebug : Z := 5.

Section Log.
Context {F : Scalar}.

(** a logged value: template parameter T of LogEntry::Log is int or double in this code base *)
Inductive lval := VInt (z : Z) | VFlt (x : F).
Definition lval_num (v : lval) : F := match v with VInt z => ofZ z | VFlt x => x end.
(** log_entry.hpp:225-227: color_default_, color_lower_, color_upper_ *)
Inductive color := CDefault | CLower | CUpper.

(** log_entry.hpp:213-228 data members.  lower_/upper_ = None stand for -inf/+inf.  name_, format_, type_
    are not observable in the structured output and are omitted. *)
Record LogEntry := mkLE {
  le_title : string; le_data : option lval; le_level : Z; le_width : Z;
  le_bounded : bool; le_lower : option F; le_upper : option F; le_color : color }.
(** log_entry.hpp:48, 61-62 and the default member initialisers 213-228 *)
Definition le_new (title : string) : LogEntry := mkLE title None kInner 10 false None None CDefault.
(** log_entry.hpp:68 IsActive *)
Definition le_active (level : Z) (e : LogEntry) : bool := le_level e <=? level.
(** log_entry.hpp:201-211 GetColor *)
Definition le_get_color (e : LogEntry) (v : lval) : color :=
  if le_bounded e then
    if match le_lower e with Some l => ltb (lval_num v) l | None => false end then CLower
    else if match le_upper e with Some u => ltb u (lval_num v) | None => false end then CUpper
    else CDefault
  else CDefault.
(** log_entry.hpp:142-146 Log *)
Definition le_log (v : lval) (e : LogEntry) : LogEntry :=
  mkLE (le_title e) (Some v) (le_level e) (le_width e) (le_bounded e) (le_lower e) (le_upper e) (le_get_color e v).
(** log_entry.hpp:189 Clear *)
Definition le_clear (e : LogEntry) : LogEntry :=
  mkLE (le_title e) None (le_level e) (le_width e) (le_bounded e) (le_lower e) (le_upper e) (le_color e).
(** log_entry.cpp:29-37 SetWidth, SetLevel *)
Definition le_set_width (w : Z) (e : LogEntry) : LogEntry :=
  mkLE (le_title e) (le_data e) (le_level e) w (le_bounded e) (le_lower e) (le_upper e) (le_color e).
Definition le_set_level (l : Z) (e : LogEntry) : LogEntry :=
  mkLE (le_title e) (le_data e) l (le_width e) (le_bounded e) (le_lower e) (le_upper e) (le_color e).
(** log_entry.cpp:9-15, 17-23 SetLowerBound, SetUpperBound.  Not reset to unbounded by anything.  Comparing with an
    infinite bound fails exactly for a NaN, like [leb lb lb]. *)
Definition le_set_lower (debug : bool) (lb : F) (e : LogEntry) : res LogEntry :=
  do _ <- altro_assert debug (match le_upper e with Some u => leb lb u | None => leb lb lb end) ;
  Ok (mkLE (le_title e) (le_data e) (le_level e) (le_width e) true (Some lb) (le_upper e) (le_color e)).
Definition le_set_upper (debug : bool) (ub : F) (e : LogEntry) : res LogEntry :=
  do _ <- altro_assert debug (match le_lower e with Some l => leb l ub | None => leb ub ub end) ;
  Ok (mkLE (le_title e) (le_data e) (le_level e) (le_width e) true (le_lower e) (Some ub) (le_color e)).

(** One line on stdout. *)
Inductive line :=
| LHeader (cols : list (string * Z))                     (** titles with widths, then a rule *)
| LData (cols : list (option lval * color * Z)).          (** values with colour and width *)

(** solver_logger.hpp:163-172 data members; entries_ is an association list with unique keys. *)
Record Logger := mkLogger {
  lg_level : Z; lg_freq : Z; lg_count : Z;
  lg_entries : list (string * LogEntry); lg_order : list string }.
(** solver_logger.hpp:61, 164-170 *)
Definition lg_new (level : Z) : Logger := mkLogger level 10 0 [] [].

Definition lg_find (t : string) (l : list (string * LogEntry)) : option LogEntry :=
  option_map snd (find (fun p => String.eqb (fst p) t) l).
Definition lg_upd (t : string) (f : LogEntry -> LogEntry) (l : list (string * LogEntry)) : list (string * LogEntry) :=
  map (fun p => if String.eqb (fst p) t then (fst p, f (snd p)) else p) l.
(** unordered_map::operator[]: inserts a default-constructed LogEntry (title_ empty) when the key is absent *)
Definition lg_touch (t : string) (l : list (string * LogEntry)) : list (string * LogEntry) :=
  match lg_find t l with Some _ => l | None => l ++ [(t, le_new "")] end.
Definition lg_set (g : Logger) (count : Z) (es : list (string * LogEntry)) : Logger :=
  mkLogger (lg_level g) (lg_freq g) count es (lg_order g).
(** solver_logger.hpp:89 SetLevel, 106-109 SetFrequency *)
Definition lg_set_level (l : Z) (g : Logger) : Logger := mkLogger l (lg_freq g) (lg_count g) (lg_entries g) (lg_order g).
Definition lg_set_frequency (debug : bool) (f : Z) (g : Logger) : res Logger :=
  do _ <- altro_assert debug (0 <=? f) ;
  Ok (mkLogger (lg_level g) f (lg_count g) (lg_entries g) (lg_order g)).

(** position of an insertion iterator: order_.begin() + col, or order_.end() + col + 1 for col < 0 *)
Definition lg_pos (col : Z) (len : nat) : Z := if col <? 0 then Z.of_nat len + col + 1 else col.
Definition insert_at {A} (i : nat) (x : A) (l : list A) : list A := firstn i l ++ x :: skipn i l.
(** solver_logger.hpp:174-206 AddEntry; [mk] is the chain of setters applied to the new entry's reference
    (which is the already stored entry if the title exists: emplace does not replace). *)
Definition lg_add (debug : bool) (col : Z) (title : string) (mk : LogEntry -> LogEntry) (g : Logger) : res Logger :=
  let n := Z.of_nat (length (lg_entries g)) in
  do _ <- altro_assert debug (col <=? n) ;
  do _ <- altro_assert debug (- n - 1 <=? col) ;
  let es := match lg_find title (lg_entries g) with
            | Some _ => lg_entries g
            | None => lg_entries g ++ [(title, le_new title)]
            end in
  let pos := lg_pos col (length (lg_order g)) in
  if (0 <=? pos) && (pos <=? Z.of_nat (length (lg_order g))) then
    Ok (mkLogger (lg_level g) (lg_freq g) (lg_count g) (lg_upd title mk es)
          (insert_at (Z.to_nat pos) title (lg_order g)))
  else UB.
(** solver_logger.hpp:209-215 Log *)
Definition lg_log (t : string) (v : lval) (g : Logger) : Logger :=
  if kSilent <? lg_level g then
    let es := lg_touch t (lg_entries g) in
    match lg_find t es with
    | Some e => if le_active (lg_level g) e then lg_set g (lg_count g) (lg_upd t (le_log v) es)
                else lg_set g (lg_count g) es
    | None => lg_set g (lg_count g) es
    end
  else g.
(** the active columns, in order_ order (solver_logger.cpp:14-22, 34-41) *)
Definition lg_cols (g : Logger) : list LogEntry :=
  flat_map (fun t => match lg_find t (lg_entries g) with
                     | Some e => if le_active (lg_level g) e then [e] else []
                     | None => []
                     end) (lg_order g).
(** solver_logger.cpp:8-27 PrintHeader *)
Definition lg_print_header (g : Logger) : list line :=
  if lg_level g =? kSilent then []
  else match lg_cols g with
       | [] => []
       | cs => [LHeader (map (fun e => (le_title e, le_width e)) cs)]
       end.
(** solver_logger.cpp:29-45 PrintData *)
Definition lg_print_data (g : Logger) : list line :=
  if lg_level g =? kSilent then []
  else match lg_cols g with
       | [] => []
       | cs => [LData (map (fun e => (le_data e, le_color e, le_width e)) cs)]
       end.
(** solver_logger.cpp:47-54 Print.  count_ % 0 is undefined behaviour.  Overflow of count_ (2^31 prints) is
    not modelled.  C++ % truncates like Z.rem. *)
Definition lg_print (g : Logger) : res (list line * Logger) :=
  if lg_freq g =? 0 then UB
  else if Z.rem (lg_count g) (lg_freq g) =? 0 then
    Ok (lg_print_header g ++ lg_print_data g, lg_set g 1 (lg_entries g))
  else Ok (lg_print_data g, lg_set g (lg_count g + 1) (lg_entries g)).
(** solver_logger.cpp:57-62 Clear *)
Definition lg_clear (g : Logger) : Logger :=
  lg_set g 0 (map (fun p => (fst p, le_clear (snd p))) (lg_entries g)).

(** GetEntry(t) (solver_logger.hpp:63, unordered_map::operator[]) followed by SetUpperBound (up) or SetLowerBound; the colour
    arguments default to green and red and stand for [CLower] and [CUpper] *)
Definition lg_bound (debug : bool) (up : bool) (t : string) (b : F) (g : Logger) : res Logger :=
  let es := lg_touch t (lg_entries g) in
  match lg_find t es with
  | Some e => do e' <- (if up then le_set_upper debug b e else le_set_lower debug b e) ;
              Ok (lg_set g (lg_count g) (lg_upd t (fun _ => e') es))
  | None => Ok (lg_set g (lg_count g) es)
  end.

(** the public operations of SolverLogger as one step function with output *)
Inductive lgop :=
| LgLog (t : string) (v : lval) | LgPrint | LgPrintHeader | LgPrintData | LgClear
| LgSetLevel (l : Z) | LgSetFreq (f : Z) | LgAdd (col : Z) (t : string) (level width : Z) | LgBound (up : bool) (t : string) (b : F).
Definition lg_step (debug : bool) (o : lgop) (g : Logger) : res (list line * Logger) :=
  match o with
  | LgLog t v => Ok ([], lg_log t v g)
  | LgPrint => lg_print g
  | LgPrintHeader => Ok (lg_print_header g, g)
  | LgPrintData => Ok (lg_print_data g, g)
  | LgClear => Ok ([], lg_clear g)
  | LgSetLevel l => Ok ([], lg_set_level l g)
  | LgSetFreq f => do g' <- lg_set_frequency debug f g ; Ok ([], g')
  | LgAdd col t level width =>
      do g' <- lg_add debug col t (fun e => le_set_width width (le_set_level level e)) g ; Ok ([], g')
  | LgBound up t b => do g' <- lg_bound debug up t b g ; Ok ([], g')
  end.
Fixpoint lg_run (debug : bool) (os : list lgop) (g : Logger) : res (list line * Logger) :=
  match os with
  | [] => Ok ([], g)
  | o :: r => do (out, g') <- lg_step debug o g ; do (out', g'') <- lg_run debug r g' ; Ok (out ++ out', g'')
  end.
End Log.
Arguments lval F : clear implicits. Arguments LogEntry F : clear implicits. Arguments line F : clear implicits.
Arguments Logger F : clear implicits. Arguments lgop F : clear implicits.
