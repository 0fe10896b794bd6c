(** Temporary storage of the integrators when knot points are expanded in parallel
    (altro/problem/integration.hpp, discretized_model.hpp, problem.hpp; altro/ilqr/ilqr.hpp). *)
From Coq Require Import List ZArith Bool.
From Verif Require Import Base Lin TrajModel IlqrModel DynModel PoolSpec TaskModel.
Import ListNotations.
Local Open Scope Z_scope.

Section Share.
Context {F : Scalar} (n m : nat).
(** integration.hpp:187-197: all members of RungeKutta4.  ExplicitEuler has none. *)
Record Scr := mkScr { sc_k : RK4 F; sc_A : nat -> mat F; sc_B : nat -> mat F; sc_dA : nat -> mat F; sc_dB : nat -> mat F }.
(** integration.hpp:172-185 Init *)
Definition scr_init : Scr := mkScr rk_init (fun _ => mzero) (fun _ => mzero) (fun _ => mzero) (fun _ => mzero).
Definition put {A} (f : nat -> A) (i : nat) (a : A) : nat -> A := fun j => if Nat.eqb j i then a else f j.
(** what one call works on: the members of the integrator and the caller's Jacobian *)
Notation W := (Scr * mat F)%type.
Definition wk (f : RK4 F -> RK4 F) (c : W) : W := let s := fst c in (mkScr (f (sc_k s)) (sc_A s) (sc_B s) (sc_dA s) (sc_dB s), snd c).
Definition wj (f : Scr -> mat F -> mat F) (c : W) : W := (fst c, mstore n (n + m) (f (fst c) (snd c))).
(** A_[i] = jac.topLeftCorner(n, n); B_[i] = jac.topRightCorner(n, m) *)
Definition wA (i : nat) (c : W) : W := let s := fst c in (mkScr (sc_k s) (put (sc_A s) i (blkA n (snd c))) (sc_B s) (sc_dA s) (sc_dB s), snd c).
Definition wB (i : nat) (c : W) : W := let s := fst c in (mkScr (sc_k s) (sc_A s) (put (sc_B s) i (blkB n m (snd c))) (sc_dA s) (sc_dB s), snd c).
Definition wdA (i : nat) (f : Scr -> mat F) (c : W) : W := let s := fst c in (mkScr (sc_k s) (sc_A s) (sc_B s) (put (sc_dA s) i (mstore n n (f s))) (sc_dB s), snd c).
Definition wdB (i : nat) (f : Scr -> mat F) (c : W) : W := let s := fst c in (mkScr (sc_k s) (sc_A s) (sc_B s) (sc_dA s) (put (sc_dB s) i (mstore n m (f s))), snd c).

(** integration.hpp:132-169 RungeKutta4::Jacobian, statement by statement.  A statement is one atomic action here. *)
Definition rk_stmts (cd : CDyn F) (x u : vec F) (t h : F) : list (W -> W) :=
  [ wk (fun k => mkRK4 (vstore n (cd_eval cd x u t (rk_k1 k))) (rk_k2 k) (rk_k3 k) (rk_k4 k));
    wk (fun k => mkRK4 (rk_k1 k) (vstore n (cd_eval cd (vstore n (fun i => add (x i) (mul (mul (rk_k1 k i) half) h))) u (t_half t h) (rk_k2 k))) (rk_k3 k) (rk_k4 k));
    wk (fun k => mkRK4 (rk_k1 k) (rk_k2 k) (vstore n (cd_eval cd (vstore n (fun i => add (x i) (mul (mul (rk_k2 k i) half) h))) u (t_half t h) (rk_k3 k))) (rk_k4 k));
    wj (fun _ J => cd_jac cd x u t J); wA 0; wB 0;
    wj (fun s J => cd_jac cd (vstore n (fun i => add (x i) (mul (mul half (rk_k1 (sc_k s) i)) h))) u (tof32 (mul half t)) J); wA 1; wB 1;
    wj (fun s J => cd_jac cd (vstore n (fun i => add (x i) (mul (mul half (rk_k2 (sc_k s) i)) h))) u (tof32 (mul half t)) J); wA 2; wB 2;
    wj (fun s J => cd_jac cd (vstore n (fun i => add (x i) (mul (rk_k3 (sc_k s) i) h))) u t J); wA 3; wB 3;
    wdA 0 (fun s i j => mul (sc_A s 0%nat i j) h);
    wdA 1 (fun s i j => mul (mm n (sc_A s 1%nat) (fun k l => add (mident k l) (mul half (sc_dA s 0%nat k l))) i j) h);
    wdA 2 (fun s i j => mul (mm n (sc_A s 2%nat) (fun k l => add (mident k l) (mul half (sc_dA s 1%nat k l))) i j) h);
    wdA 3 (fun s i j => mul (mm n (sc_A s 3%nat) (fun k l => add (mident k l) (sc_dA s 2%nat k l)) i j) h);
    wdB 0 (fun s i j => mul (sc_B s 0%nat i j) h);
    wdB 1 (fun s i j => add (mul (sc_B s 1%nat i j) h) (mul (mm n (mscale half (sc_A s 1%nat)) (sc_dB s 0%nat) i j) h));
    wdB 2 (fun s i j => add (mul (sc_B s 2%nat i j) h) (mul (mm n (mscale half (sc_A s 2%nat)) (sc_dB s 1%nat) i j) h));
    wdB 3 (fun s i j => add (mul (sc_B s 3%nat i j) h) (mul (mm n (sc_A s 3%nat) (sc_dB s 2%nat) i j) h));
    wj (fun s J i j => if Nat.ltb j n then add (mident i j) (div (add (add (add (sc_dA s 0%nat i j) (mul two (sc_dA s 1%nat i j))) (mul two (sc_dA s 2%nat i j))) (sc_dA s 3%nat i j)) (ofZ 6)) else J i j);
    wj (fun s J i j => if Nat.ltb j n then J i j else div (add (add (add (sc_dB s 0%nat i (j - n)%nat) (mul two (sc_dB s 1%nat i (j - n)%nat))) (mul two (sc_dB s 2%nat i (j - n)%nat))) (sc_dB s 3%nat i (j - n)%nat)) (ofZ 6)) ].
(** integration.hpp:95-101 ExplicitEuler::Jacobian *)
Definition eu_stmts (cd : CDyn F) (x u : vec F) (t h : F) : list (W -> W) :=
  [ wj (fun _ J => cd_jac cd x u t J); wj (fun _ J i j => add (mident i j) (mul (J i j) h)) ].

(** the shared memory: the integrators of all DiscretizedModels by object number, and the Jacobian of every knot point *)
Record SMem := mkSMem { sm_scr : nat -> Scr; sm_jac : Z -> mat F }.
(** discretized_model.hpp:26-67: an object is a continuous model and an integrator: RungeKutta4 or ExplicitEuler *)
Record DM := mkDM { dm_cd : CDyn F; dm_rk : bool }.
(** [ob k]: the object stored at knot point k (problem.hpp:155-166: the pointer itself is stored, nothing is copied) *)
Context (dm : nat -> DM) (ob : Z -> nat) (N : Z).
(** a statement executed for knot point k *)
Definition at_kp (k : Z) (f : W -> W) (s : SMem) : SMem :=
  let c := f (sm_scr s (ob k), sm_jac s k) in
  mkSMem (put (sm_scr s) (ob k) (fst c)) (fun j => if j =? k then snd c else sm_jac s j).
(** discretized_model.hpp:41-44 *)
Definition stmts (d : DM) (z : KP F) : list (W -> W) :=
  (if dm_rk d then rk_stmts else eu_stmts) (dm_cd d) (z_x z) (z_u z) (z_t z) (z_h z).
(** the dynamics part of ilqr.hpp:670-677 for one knot point.  The last one has IdentityDynamics (problem.hpp:161-164), which uses no storage of an integrator. *)
Definition kp_stmts (Zt : Z -> KP F) (k : Z) : body SMem :=
  if (0 <=? k) && (k <? N) then map (at_kp k) (stmts (dm (ob k)) (Zt k)) else [].
Definition sh_block (Zt : Z -> KP F) (b : Z * Z) : body SMem := flat_map (kp_stmts Zt) (zrange (fst b) (snd b)).
(** ilqr.hpp:354-356, one thread *)
Definition sh_serial (Zt : Z -> KP F) (s : SMem) : SMem := fold_left (fun s a => a s) (sh_block Zt (0, N + 1)) s.
(** ilqr.hpp:358-363, several threads *)
Definition sh_tasks (tasks : list (Z * Z)) (Zt : Z -> KP F) : list (body SMem) := map (sh_block Zt) tasks.
End Share.
Arguments Scr F : clear implicits. Arguments SMem F : clear implicits. Arguments DM F : clear implicits.
