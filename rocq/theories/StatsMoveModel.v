(** Model of several SolverStats objects with their implicitly defined copies and moves (solver_stats.hpp:44-187; solver_logger.hpp:155-162).
    floats_ (solver_stats.hpp:182) maps a title to a pointer to one of the vectors of the object that registered it (solver_stats.cpp:12-14, 80-114),
    order_ of the logger (solver_logger.hpp:160) points to the key strings in the nodes of entries_; copying an object copies these pointers.  A
    move takes over the nodes of entries_ (std::unordered_map keeps its nodes) and leaves empty vectors and maps behind. *)
From Coq Require Import ZArith String List Bool.
From Verif Require Import Base LogModel StatsModel.
Import ListNotations.
Local Open Scope Z_scope.

Section Move.
Context {F : Scalar}.
(** One object.  [ob_st]: all data members, where st_ser are the object's own eight vectors; [ob_ptr]: the object whose vectors floats_ points to, None
    if floats_ is empty; [ob_ord]: the object whose map nodes order_ points to; [ob_gone]: moved from *)
Record Obj := mkObj { ob_st : Stats F; ob_ptr : option nat; ob_ord : nat; ob_gone : bool }.
(** memory: None = never constructed or destroyed *)
Definition Mem := nat -> option Obj.
Definition mput (a : nat) (o : option Obj) (h : Mem) : Mem := fun b => if Nat.eqb b a then o else h b.
(** solver_stats.hpp:46-48 the constructor at address a *)
Definition ob_new (a : nat) : Obj := mkObj st_new (Some a) a false.
(** the object with empty vectors and maps that a move leaves behind *)
Definition ob_left (o : Obj) : Obj :=
  mkObj (st_set_ser (ob_st o) (map (fun p => (fst p, [])) (st_ser (ob_st o))) (st_len (ob_st o))) None (ob_ord o) true.
(** the key strings owned by a are owned by b after the move of a to b *)
Definition re_ord (a b : nat) (h : Mem) : Mem :=
  fun c => option_map (fun o => mkObj (ob_st o) (ob_ptr o) (if Nat.eqb (ob_ord o) a then b else ob_ord o) (ob_gone o)) (h c).
Inductive mop := MNew (a : nat) | MCopy (a b : nat) | MMove (a b : nat) | MDestroy (a : nat) | MCall (a : nat) (op : slop F).
(** the vectors reached through floats_ *)
Definition reach (h : Mem) (o : Obj) : res (list (string * list F)) :=
  match ob_ptr o with
  | None => Ok []
  | Some p => match h p with Some t => Ok (st_ser (ob_st t)) | None => UB end
  end.
(** solver_stats.hpp:201 back() = value on an empty vector *)
Definition back_ok (t : string) (len : nat) (ser : list (string * list F)) : bool :=
  Nat.eqb len 0 || forallb (fun p => negb (String.eqb (fst p) t) || match snd p with [] => false | _ => true end) ser.
Definition call_ok (op : slop F) (s : Stats F) : bool :=
  match op with
  | SlOp (StLogF t _) | SlOp (StLogZ t _) => back_ok t (st_len s) (st_ser s)
  | _ => true
  end.
(** does the call follow the pointers of floats_ / of order_? *)
Definition uses_floats (op : slop F) : bool := match op with SlOp _ => true | _ => false end.
Definition uses_order (op : slop F) (s : Stats F) : bool := match op with SlPrint | SlHeader => negb (lg_level (st_log s) =? kSilent) | _ => false end.
(** a call on the object at a *)
Definition m_call (debug : bool) (a : nat) (op : slop F) (h : Mem) : res Mem :=
  match h a with
  | None => UB
  | Some o =>
      if ob_gone o then UB
      else if uses_order op (ob_st o) && (match h (ob_ord o) with Some _ => false | None => true end) then UB
      else if uses_floats op then
        do ser <- reach h o ;
        let v := st_set_ser (ob_st o) ser (st_len (ob_st o)) in
        if call_ok op v then
          do v' <- sl_step debug op v ;
          let own := st_set_ser v' (st_ser (ob_st o)) (st_len v') in
          let h1 := mput a (Some (mkObj own (ob_ptr o) (ob_ord o) false)) h in
          match ob_ptr o with
          | None => Ok h1
          | Some p => match h1 p with
                      | Some t => Ok (mput p (Some (mkObj (st_set_ser (ob_st t) (st_ser v') (st_len (ob_st t))) (ob_ptr t) (ob_ord t) (ob_gone t))) h1)
                      | None => UB
                      end
          end
        else UB
      else
        do v' <- sl_step debug op (ob_st o) ;
        Ok (mput a (Some (mkObj v' (ob_ptr o) (ob_ord o) false)) h)
  end.
Definition m_step (debug : bool) (op : mop) (h : Mem) : res Mem :=
  match op with
  | MNew a => match h a with None => Ok (mput a (Some (ob_new a)) h) | Some _ => UB end
  | MCopy a b =>
      match h a, h b with
      | Some o, None => if ob_gone o then UB else Ok (mput b (Some (mkObj (ob_st o) (ob_ptr o) (ob_ord o) false)) h)
      | _, _ => UB
      end
  | MMove a b =>
      match h a, h b with
      | Some o, None =>
          if ob_gone o then UB
          else Ok (re_ord a b (mput a (Some (ob_left o)) (mput b (Some (mkObj (ob_st o) (ob_ptr o) (ob_ord o) false)) h)))
      | _, _ => UB
      end
  | MDestroy a => match h a with None => UB | Some _ => Ok (mput a None h) end
  | MCall a op => m_call debug a op h
  end.
Fixpoint m_run (debug : bool) (ops : list mop) (h : Mem) : res Mem :=
  match ops with [] => Ok h | o :: r => do h' <- m_step debug o h ; m_run debug r h' end.
Definition m_empty : Mem := fun _ => None.
(** what the program reads: stats.cost, stats.violations, ... are the object's own vectors *)
Definition own_series (h : Mem) (a : nat) (t : string) : option (list F) :=
  match h a with Some o => st_get t (ob_st o) | None => None end.
(** stats_.cost.back(), ilqr.hpp:574 *)
Definition own_back (h : Mem) (a : nat) (t : string) : res F := match h a with Some o => st_back t (ob_st o) | None => UB end.
End Move.
Arguments Obj F : clear implicits. Arguments Mem F : clear implicits. Arguments mop F : clear implicits.
