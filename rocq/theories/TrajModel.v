(** Model of altro/common/knotpoint.hpp and trajectory.hpp. *)
From Coq Require Import ZArith List Bool.
From Verif Require Import Base Lin.
Import ListNotations.

Section Traj.
Context {F : Scalar}.

(** knotpoint.hpp:177-180.  Times and steps are C++ [float]: they are only ever written through [tof32]. *)
Record KP := mkKP { z_x : vec F; z_u : vec F; z_t : F; z_h : F }.
Definition kp_set_x (x : vec F) (z : KP) : KP := mkKP x (z_u z) (z_t z) (z_h z).
Definition kp_set_u (u : vec F) (z : KP) : KP := mkKP (z_x z) u (z_t z) (z_h z).
(** knotpoint.hpp:125-126 SetTime, SetStep (float parameters) *)
Definition kp_set_t (t : F) (z : KP) : KP := mkKP (z_x z) (z_u z) (tof32 t) (z_h z).
Definition kp_set_h (h : F) (z : KP) : KP := mkKP (z_x z) (z_u z) (z_t z) (tof32 h).
(** knotpoint.hpp:48-51 *)
Definition kp_zero : KP := mkKP vzero vzero zero zero.
(** knotpoint.hpp:134 IsTerminal, 141-144 SetTerminal *)
Definition kp_is_terminal (z : KP) : bool := eqb (z_h z) zero.
Definition kp_set_terminal (z : KP) : KP := mkKP (z_x z) vzero (z_t z) zero.
(** knotpoint.hpp:41-47 constructor *)
Definition kp_make (x u : vec F) (t h : F) : KP := mkKP x u (tof32 t) (tof32 h).

(** trajectory.hpp:156: traj_ has N+1 elements *)
Definition Traj := list KP.
(** trajectory.hpp:36-38: Trajectory(N), Trajectory(n,m,N) zero-initialised *)
Definition traj_zero (N : nat) : Traj := repeat kp_zero (S N).
(** trajectory.hpp:89 NumSegments (size() - 1; an empty vector gives -1) *)
Definition traj_N (tr : Traj) : Z := (Z.of_nat (length tr) - 1)%Z.
(** trajectory.hpp:112-117 SetZero: states and controls only *)
Definition traj_set_zero (Z : Traj) : Traj := map (fun z => mkKP vzero vzero (z_t z) (z_h z)) Z.
(** float arithmetic: each operation rounds to binary32 (exact for RS) *)
Definition f32sub (a b : F) : F := tof32 (sub a b).
Definition f32mul (a b : F) : F := tof32 (mul a b).

(** trajectory.hpp:48-63 Trajectory(X, U, times).  [debug]: the two length assertions.  Without assertions
    mismatching lengths index out of range; U empty (N = 0) always reads U[-1]. *)
Fixpoint traj_build (X U : list (vec F)) (times : list F) : list KP :=
  match X, U, times with
  | x :: X', u :: U', t :: ((t' :: _) as times') => mkKP x u t (f32sub t' t) :: traj_build X' U' times'
  | x :: _, [], t :: _ => []
  | _, _, _ => []
  end.
Definition traj_make (debug : bool) (X U : list (vec F)) (times : list F) : res Traj :=
  do _ <- altro_assert debug (Nat.eqb (length X) (S (length U))) ;
  do _ <- altro_assert debug (Nat.eqb (length X) (length times)) ;
  if Nat.eqb (length U) 0 then UB
  else if negb (Nat.leb (S (length U)) (length X) && Nat.leb (S (length U)) (length times)) then UB
  else Ok (traj_build X U times
           ++ [mkKP (nth (length U) X vzero) (vscale zero (nth (length U - 1) U vzero)) (nth (length U) times zero) zero]).

(** trajectory.hpp:122-130 SetUniformStep(float h).  static_cast<float>(k)*h and h*N are float products. *)
Fixpoint set_uniform (h : F) (k : nat) (Z : Traj) : Traj :=
  match Z with
  | [] => []
  | [z] => [mkKP (z_x z) (z_u z) (f32mul h (tof32 (ofZ (Z.of_nat k)))) zero]
  | z :: r => mkKP (z_x z) (z_u z) (f32mul (tof32 (ofZ (Z.of_nat k))) h) h :: set_uniform h (S k) r
  end.
Definition traj_set_uniform_step (h : F) (Z : Traj) : Traj := set_uniform (tof32 h) 0 Z.

(** trajectory.hpp:138-153 CheckTimeConsistency(eps).  T = double: GetTime returns double, so the difference
    is computed in double and then narrowed; h_stored - h_calc is a float subtraction. *)
Fixpoint traj_check_times (eps : F) (Z : Traj) : bool :=
  match Z with
  | z :: ((z' :: _) as r) =>
      let h_calc := tof32 (sub (z_t z') (z_t z)) in
      if ltb eps (sabs (f32sub (z_h z) h_calc)) then false else traj_check_times eps r
  | _ => true
  end.
End Traj.
Arguments KP F : clear implicits. Arguments Traj F : clear implicits.
