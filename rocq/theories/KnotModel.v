(** Model of altro/common/state_control_sized.hpp and knotpoint.hpp with sizes: compile-time sizes (template arguments, -1 =
    Eigen::Dynamic), the stored dimensions n_, m_, and the actual lengths of the two Eigen vectors.  [TrajModel.KP] is the content. *)
From Coq Require Import ZArith List Bool.
From Verif Require Import Base Lin TrajModel.
Import ListNotations.
Local Open Scope Z_scope.

Section Knot.
Context {F : Scalar}.

(** state_control_sized.hpp:53-61 (the template arguments are ns, ms) *)
Definition scs (debug : bool) (ns ms n m : Z) : res (Z * Z) :=
  do _ <- altro_assert (debug && (0 <? ns)) (ns =? n) ;
  do _ <- altro_assert (debug && (0 <? ms)) (ms =? m) ;
  Ok (n, m).
(** state_control_sized.hpp:62-65 *)
Definition scs_default (debug : bool) (ns ms : Z) : res (Z * Z) :=
  do _ <- altro_assert debug (0 <? ns) ;
  do _ <- altro_assert debug (0 <? ms) ;
  Ok (ns, ms).
(** state_control_sized.hpp:24-29 AddSizes *)
Definition add_sizes (n m : Z) : Z := if (n =? -1) || (m =? -1) then -1 else n + m.

(** knotpoint.hpp:177-180 and the base class members; [k_xs], [k_us] are x_.size() and u_.size() *)
Record Knot := mkKnot { k_ns : Z; k_ms : Z; k_n : Z; k_m : Z; k_xs : Z; k_us : Z; k_z : KP F }.
Definition k_set_z (k : Knot) (z : KP F) : Knot := mkKnot (k_ns k) (k_ms k) (k_n k) (k_m k) (k_xs k) (k_us k) z.
(** length of VectorN<s> built with run-time length r *)
Definition vsize (s r : Z) : Z := if s =? -1 then r else s.

(** knotpoint.hpp:37-40 default constructor, for fixed sizes only (VectorN<-1>::Zero() does not compile) *)
Definition knot_default (debug : bool) (ns ms : Z) : res Knot :=
  do (n, m) <- scs debug ns ms ns ms ; Ok (mkKnot ns ms n m ns ms kp_zero).
(** knotpoint.hpp:41-47; the arguments have type VectorN<ns>, VectorN<ms> and run-time lengths xs, us *)
Definition knot_make (debug : bool) (ns ms xs us : Z) (x u : vec F) (t h : F) : res Knot :=
  do (n, m) <- scs debug ns ms xs us ; Ok (mkKnot ns ms n m xs us (kp_make x u t h)).
(** knotpoint.hpp:48-51.  Eigen checks in debug builds that a run-time length is not negative; a negative length without checks is
    undefined behaviour.  For a fixed size, Zero(_n) fills the whole vector whatever _n is. *)
Definition knot_sized (debug : bool) (ns ms n m : Z) : res Knot :=
  do (n, m) <- scs debug ns ms n m ;
  if (n <? 0) || (m <? 0) then (if debug then Abort else UB)
  else Ok (mkKnot ns ms n m (vsize ns n) (vsize ms m) kp_zero).
(** knotpoint.hpp:53-60 conversion from other template sizes.  Copying into a fixed-size vector of another length: checked by Eigen in
    debug builds, undefined otherwise. *)
Definition knot_convert (debug : bool) (ns ms : Z) (k : Knot) : res Knot :=
  do (n, m) <- scs debug ns ms (k_n k) (k_m k) ;
  if ((ns =? -1) || (ns =? k_xs k)) && ((ms =? -1) || (ms =? k_us k))
  then Ok (mkKnot ns ms n m (k_xs k) (k_us k) (kp_make (z_x (k_z k)) (z_u (k_z k)) (z_t (k_z k)) (z_h (k_z k))))
  else (if debug then Abort else UB).
(** knotpoint.hpp:63-68 copy constructor, 69-77 copy assignment (same template sizes) *)
Definition knot_copy (debug : bool) (k : Knot) : res Knot :=
  do (n, m) <- scs debug (k_ns k) (k_ms k) (k_n k) (k_m k) ; Ok (mkKnot (k_ns k) (k_ms k) n m (k_xs k) (k_us k) (k_z k)).
Definition knot_assign (dst src : Knot) : Knot :=
  mkKnot (k_ns dst) (k_ms dst) (k_n src) (k_m src) (k_xs src) (k_us src) (k_z src).
(** knotpoint.hpp:80-85 move constructor: result and source afterwards.  Moving a run-time sized Eigen vector leaves an empty one,
    moving a fixed-size vector copies it. *)
Definition knot_move (debug : bool) (k : Knot) : res (Knot * Knot) :=
  do (n, m) <- scs debug (k_ns k) (k_ms k) (k_n k) (k_m k) ;
  Ok (mkKnot (k_ns k) (k_ms k) n m (k_xs k) (k_us k) (k_z k),
      mkKnot (k_ns k) (k_ms k) (k_n k) (k_m k) (vsize (k_ns k) 0) (vsize (k_ms k) 0) (k_z k)).
(** knotpoint.hpp:86-94 move assignment: Eigen swaps the storage of run-time sized vectors and copies fixed-size ones *)
Definition knot_move_assign (dst src : Knot) : Knot * Knot :=
  (knot_assign dst src,
   mkKnot (k_ns src) (k_ms src) (k_n src) (k_m src)
     (if k_ns src =? -1 then k_xs dst else k_xs src) (if k_ms src =? -1 then k_us dst else k_us src)
     (mkKP (if k_ns src =? -1 then z_x (k_z dst) else z_x (k_z src)) (if k_ms src =? -1 then z_u (k_z dst) else z_u (k_z src))
        (z_t (k_z src)) (z_h (k_z src)))).
(** knotpoint.hpp:118-122 GetStateControl.  With run-time sizes the result vector is default-constructed, hence empty, and the comma
    initialiser writes past its end: stopped by Eigen in debug builds, undefined otherwise. *)
Definition knot_state_control (debug : bool) (k : Knot) : res (list F) :=
  let l := map (z_x (k_z k)) (seq 0 (Z.to_nat (k_xs k))) ++ map (z_u (k_z k)) (seq 0 (Z.to_nat (k_us k))) in
  if add_sizes (k_ns k) (k_ms k) =? -1
  then (match l with [] => Ok [] | _ => if debug then Abort else UB end)
  else Ok l.
(** setters: SetTime, SetStep, SetTerminal, and assignment through the references State(), Control() of a vector with the same length
    (a run-time sized vector takes the length of the assigned one) *)
Inductive kop := KTime (t : F) | KStep (h : F) | KTerminal | KState (xs : Z) (x : vec F) | KControl (us : Z) (u : vec F).
Definition knot_op (debug : bool) (o : kop) (k : Knot) : res Knot :=
  match o with
  | KTime t => Ok (k_set_z k (kp_set_t t (k_z k)))
  | KStep h => Ok (k_set_z k (kp_set_h h (k_z k)))
  | KTerminal => Ok (k_set_z k (kp_set_terminal (k_z k)))
  | KState xs x =>
      if (k_ns k =? -1) || (xs =? k_xs k) then Ok (mkKnot (k_ns k) (k_ms k) (k_n k) (k_m k) xs (k_us k) (kp_set_x x (k_z k)))
      else if debug then Abort else UB
  | KControl us u =>
      if (k_ms k =? -1) || (us =? k_us k) then Ok (mkKnot (k_ns k) (k_ms k) (k_n k) (k_m k) (k_xs k) us (kp_set_u u (k_z k)))
      else if debug then Abort else UB
  end.
Fixpoint knot_run (debug : bool) (os : list kop) (k : Knot) : res Knot :=
  match os with [] => Ok k | o :: r => do k' <- knot_op debug o k ; knot_run debug r k' end.
End Knot.
Arguments Knot F : clear implicits. Arguments kop F : clear implicits.
