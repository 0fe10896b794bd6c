(** Model of timer.hpp/.cpp and profile_entry.hpp/.cpp.  The clock readings are inputs (nanoseconds).  Counts of microseconds are
    64-bit integers; their sums are exact (no overflow of 2^63 microseconds). *)
From Coq Require Import ZArith List Bool Ascii String.
From Verif Require Import Base TaskModel TimerSpec.
Import ListNotations.
Local Open Scope Z_scope.

(** std::map<std::string, microseconds>: sorted by the byte order *)
Definition tmap := list (string * Z).
Fixpoint tget (k : string) (l : tmap) : option Z :=
  match l with [] => None | (k', v) :: r => if String.eqb k k' then Some v else tget k r end.
(** times_[k] += v; operator[] inserts a zero *)
Fixpoint tadd (k : string) (v : Z) (l : tmap) : tmap :=
  match l with
  | [] => [(k, v)]
  | (k', v') :: r => match String.compare k k' with Eq => (k', v' + v) :: r | Lt => (k, v) :: l | Gt => (k', v') :: tadd k v r end
  end.
(** timer.hpp:64-66 *)
Record Tm := mkTm { tm_stack : list string; tm_times : tmap; tm_active : bool }.
Definition tm_new : Tm := mkTm [] [] false.
(** timer.hpp:94-96: name_, start_, parent_ (a timer or null) *)
Record Sw := mkSw { sw_name : string; sw_start : Z; sw_parent : bool }.
(** timer.cpp:99-102: fullname *)
Definition fullname (st : list string) : res string :=
  match st with [] => UB | s :: r => Ok (fold_left (fun a b => (a ++ ("/" ++ b))%string) r s) end.
(** timer.cpp:96-106 Start; the returned object is not copied (elision) *)
Definition tm_start (nm : string) (now : Z) (t : Tm) : res (Sw * Tm) :=
  if tm_active t then
    let st := tm_stack t ++ [nm] in
    do f <- fullname st ; Ok (mkSw f now true, mkTm st (tm_times t) (tm_active t))
  else Ok (mkSw EmptyString 0 false, t).
(** timer.cpp:125-134 ~Stopwatch; pop_back of an empty vector is undefined; duration_cast truncates *)
Definition sw_stop (w : Sw) (now : Z) (t : Tm) : res Tm :=
  if sw_parent w then
    match tm_stack t with
    | [] => UB
    | st => Ok (mkTm (removelast st) (tadd (sw_name w) (Z.quot (now - sw_start w) 1000) (tm_times t)) (tm_active t))
    end
  else Ok t.
(** timer.hpp:55-56 Activate, Deactivate *)
Definition tm_act (b : bool) (t : Tm) : Tm := mkTm (tm_stack t) (tm_times t) b.
(** a C++ program with scoped stopwatches *)
Fixpoint tm_exec (p : prog) (t : Tm) : res Tm :=
  match p with
  | Done => Ok t
  | Scope nm t0 t1 body rest =>
      do (w, ta) <- tm_start nm t0 t ; do tb <- tm_exec body ta ; do tc <- sw_stop w t1 tb ; tm_exec rest tc
  | Act b rest => tm_exec rest (tm_act b t)
  end.

(** profile_entry.cpp:9-21 split *)
Fixpoint psplit (s : string) : list string :=
  match s with
  | EmptyString => [EmptyString]
  | String c r =>
      if Ascii.eqb c "/" then EmptyString :: psplit r
      else match psplit r with h :: t => String c h :: t | [] => [String c EmptyString] end
  end.
(** profile_entry.hpp:26-31; the parent is given by its position in [entries] *)
Record PE := mkPE { pe_name : list string; pe_time : Z; pe_parent : option nat }.
(** timer.cpp:33-71: entries and parents after the loop over the map *)
Definition pe_add (es : list PE) (ps : list (option nat)) (kv : string * Z) : list PE * list (option nat) :=
  let nm := psplit (fst kv) in
  let lv := List.length nm in
  let i := List.length es in
  let ps1 := if Nat.leb (List.length ps) lv then ps ++ repeat None (S lv - List.length ps) else ps in
  let ps2 := upd lv (fun _ => Some i) ps1 in
  let par := nth (lv - 1) ps2 None in
  let es1 := es ++ [mkPE nm (snd kv) par] in
  let es2 := if Nat.eqb lv 1 then upd 0 (fun e => mkPE (pe_name e) (pe_time e + snd kv) (pe_parent e)) es1 else es1 in
  (es2, ps2).
Definition summary_entries (l : tmap) : list PE :=
  fst (fold_left (fun s kv => pe_add (fst s) (snd s) kv) l ([mkPE (psplit "top") 0 None], [Some 0%nat])).
(** profile_entry.cpp:28-34 GetRoot *)
Fixpoint get_root (fuel : nat) (es : list PE) (i : nat) : res nat :=
  match fuel with
  | O => Fuel
  | S f => match nth_error es i with None => UB | Some e => match pe_parent e with None => Ok i | Some j => get_root f es j end end
  end.
(** conversion to int: modulo 2^32 *)
Definition to_int (z : Z) : Z := let r := z mod 2 ^ 32 in if r <? 2 ^ 31 then r else r - 2 ^ 32.
Definition long_ok (z : Z) : bool := (- 2 ^ 63 <=? z) && (z <? 2 ^ 63).
(** profile_entry.cpp:36-53 CalcStats: percent_total, percent_parent.  int / int also overflows for INT_MIN / -1 *)
Definition calc_stats (time total : Z) (parent : option Z) : res (Z * Z) :=
  let parent_time := match parent with Some p => p | None => time end in
  let time_us := to_int time in
  let total_us := to_int total in
  do pt <- (if total_us =? 0 then Ok (-1)
            else do x <- imul 100 time_us ; let q := Z.quot x total_us in if int_ok q then Ok q else UB) ;
  do pp <- (if parent_time =? 0 then Ok (-1)
            else if long_ok (100 * time) then let q := Z.quot (100 * time) parent_time in if long_ok q then Ok (to_int q) else UB else UB) ;
  Ok (pt, pp).
Definition entry_stats (es : list PE) (i : nat) : res (Z * Z) :=
  match nth_error es i with
  | None => UB
  | Some e =>
      do r <- get_root (List.length es) es i ;
      match nth_error es r with
      | None => UB
      | Some root => calc_stats (pe_time e) (pe_time root) (match pe_parent e with Some j => option_map pe_time (nth_error es j) | None => None end)
      end
  end.
(** timer.cpp:89-92: the printed rows, path, time and the two percentages (layout not modelled) *)
Fixpoint rows (es : list PE) (is : list nat) : res (list (list string * Z * Z * Z)) :=
  match is with
  | [] => Ok []
  | i :: r =>
      match nth_error es i with
      | None => UB
      | Some e => do s <- entry_stats es i ; do t <- rows es r ; Ok ((pe_name e, pe_time e, fst s, snd s) :: t)
      end
  end.
Definition print_summary (l : tmap) : res (list (list string * Z * Z * Z)) :=
  let es := summary_entries l in rows es (seq 1 (List.length es - 1)).
