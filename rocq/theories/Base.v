(** Scalars, outcomes and small helpers shared by all model files.

    All numeric code of the model is written over [Scalar], a record of OPERATIONS ONLY (no laws).
    [RS]: exact real arithmetic.  [QS]: computable rationals, used for executable examples.
    [FS]: IEEE-754 binary64 (C++ [double]) from the standard library's [SpecFloat]. *)
From Coq Require Import ZArith QArith Qabs Reals List Bool Lia.
From Coq Require Import Floats.SpecFloat.
Import ListNotations.

(** Observable outcome of a piece of C++ code. *)
Inductive res (A : Type) : Type :=
| Ok (a : A)        (** returned normally *)
| Abort             (** ALTRO_ASSERT failed: altro/utils/assert.cpp, abort() (debug builds only) *)
| UB                (** undefined behaviour: null / out-of-range access, division by zero, overflow *)
| Throw             (** a C++ exception leaves the function *)
| Deadlock          (** self-deadlock on a non-recursive mutex *)
| Fuel.             (** the model's fuel ran out: the C++ loop has not finished *)
Arguments Ok {A} _. Arguments Abort {A}. Arguments UB {A}. Arguments Throw {A}.
Arguments Deadlock {A}. Arguments Fuel {A}.

Definition bind {A B} (r : res A) (f : A -> res B) : res B :=
  match r with
  | Ok a => f a | Abort => Abort | UB => UB | Throw => Throw | Deadlock => Deadlock | Fuel => Fuel
  end.
Notation "'do' x <- r ; k" := (bind r (fun x => k)) (at level 200, x pattern, right associativity).

(** ALTRO_ASSERT, altro/utils/assert.hpp: aborts in debug builds, expands to nothing under NDEBUG. *)
Definition altro_assert (debug cond : bool) : res unit :=
  if debug && negb cond then Abort else Ok tt.

Record Scalar : Type := mkScalar {
  T :> Type;
  zero : T; one : T;
  add : T -> T -> T; sub : T -> T -> T; mul : T -> T -> T; div : T -> T -> T;
  opp : T -> T; sabs : T -> T; ssqrt : T -> T;
  ltb : T -> T -> bool;      (** C++ [<]  *)
  leb : T -> T -> bool;      (** C++ [<=] *)
  eqb : T -> T -> bool;      (** C++ [==] *)
  ofZ : Z -> T;              (** conversion from int *)
  tof32 : T -> T             (** narrowing to C++ [float] (then exactly widened back) *)
}.
Arguments zero {s}. Arguments one {s}.
Arguments add {s} _ _. Arguments sub {s} _ _. Arguments mul {s} _ _. Arguments div {s} _ _.
Arguments opp {s} _. Arguments sabs {s} _. Arguments ssqrt {s} _.
Arguments ltb {s} _ _. Arguments leb {s} _ _. Arguments eqb {s} _ _.
Arguments ofZ {s} _. Arguments tof32 {s} _.

(** std::max(a,b) = (a < b) ? b : a     std::min(a,b) = (b < a) ? b : a  ([alg.min.max]) *)
Definition smax {F : Scalar} (a b : F) : F := if ltb a b then b else a.
Definition smin {F : Scalar} (a b : F) : F := if ltb b a then b else a.
Definition two {F : Scalar} : F := ofZ 2.
Definition half {F : Scalar} : F := div one (ofZ 2).   (** the literal 0.5: exact in every instance *)

(** * Instance: real numbers *)
Definition Rltb (a b : R) : bool := if Rlt_dec a b then true else false.
Definition Rleb (a b : R) : bool := if Rle_dec a b then true else false.
Definition Reqb (a b : R) : bool := if Req_EM_T a b then true else false.
Definition RS : Scalar :=
  mkScalar R 0%R 1%R Rplus Rminus Rmult Rdiv Ropp Rabs sqrt Rltb Rleb Reqb IZR (fun x => x).

Canonical Structure RS.

Lemma Rltb_true a b : Rltb a b = true <-> (a < b)%R.
Proof. unfold Rltb; destruct (Rlt_dec a b); split; try easy. Qed.
Lemma Rltb_false a b : Rltb a b = false <-> (b <= a)%R.
Proof.
  unfold Rltb; destruct (Rlt_dec a b); split; try easy; intros; try (now apply Rnot_lt_le).
  exfalso. apply (Rlt_not_le _ _ r). assumption.
Qed.
Lemma Rleb_true a b : Rleb a b = true <-> (a <= b)%R.
Proof. unfold Rleb; destruct (Rle_dec a b); split; try easy. Qed.
Lemma Rleb_false a b : Rleb a b = false <-> (b < a)%R.
Proof.
  unfold Rleb; destruct (Rle_dec a b); split; try easy; intros; try (now apply Rnot_le_lt).
  exfalso. apply (Rle_not_lt _ _ r). assumption.
Qed.
Lemma Reqb_true a b : Reqb a b = true <-> a = b.
Proof. unfold Reqb; destruct (Req_EM_T a b); split; try easy. Qed.

(** * Instance: rationals (for executable examples).  [Qsqrt] is exact on squares of rationals and
      rounds down otherwise; no theorem is stated for [QS] about inexact square roots. *)
Definition Qltb (a b : Q) : bool := match Qcompare a b with Lt => true | _ => false end.
Definition Qsqrt (x : Q) : Q :=
  let r := Qred x in Qred (Z.sqrt (Qnum r * Zpos (Qden r)) # (Qden r)).
Definition QS : Scalar :=
  mkScalar Q 0%Q 1%Q (fun a b => Qred (a + b)) (fun a b => Qred (a - b)) (fun a b => Qred (a * b))
    (fun a b => Qred (a / b)) (fun a => Qred (- a)) (fun a => Qred (Qabs a)) Qsqrt
    Qltb Qle_bool Qeq_bool (fun z => inject_Z z) (fun x => x).

(** * Instance: IEEE binary64 with NaN, infinities and signed zeros, round to nearest even. *)
Definition prec64 : Z := 53. Definition emax64 : Z := 1024.
Definition prec32 : Z := 24. Definition emax32 : Z := 128.
Definition f64_ofZ (z : Z) : spec_float := binary_normalize prec64 emax64 z 0 false.
(** double -> float narrowing conversion (round to nearest even), widened back to a canonical double (SpecFloat's
    comparison is only meaningful on canonical mantissas). *)
Definition f64_to_f32 (x : spec_float) : spec_float :=
  match x with
  | S754_finite s m e =>
      match binary_normalize prec32 emax32 (if s then Zneg m else Zpos m) e s with
      | S754_finite s' m' e' => binary_normalize prec64 emax64 (if s' then Zneg m' else Zpos m') e' s'
      | y => y
      end
  | _ => x
  end.
Definition FS : Scalar :=
  mkScalar spec_float (S754_zero false) (f64_ofZ 1)
    (SFadd prec64 emax64) (SFsub prec64 emax64) (SFmul prec64 emax64) (SFdiv prec64 emax64)
    SFopp SFabs (SFsqrt prec64 emax64) SFltb SFleb SFeqb f64_ofZ f64_to_f32.

Definition is_nan (x : spec_float) : bool := match x with S754_nan => true | _ => false end.

(** A decimal literal p/q, correctly rounded when |p|,|q| < 2^53 (as the C++ compiler does). *)
Definition lit {F : Scalar} (p q : Z) : F := div (ofZ p) (ofZ q).

(** Update of position [i] of a list (std::vector element assignment); no effect out of range. *)
Fixpoint upd {A} (i : nat) (f : A -> A) (l : list A) : list A :=
  match l, i with
  | [], _ => []
  | x :: r, O => f x :: r
  | x :: r, S j => x :: upd j f r
  end.

Lemma upd_length {A} i (f : A -> A) l : length (upd i f l) = length l.
Proof. revert i; induction l; intros [|i]; simpl; auto. Qed.
Lemma nth_error_upd_same {A} i (f : A -> A) l :
  nth_error (upd i f l) i = option_map f (nth_error l i).
Proof. revert i; induction l; intros [|i]; simpl; auto. Qed.
Lemma nth_error_upd_other {A} i j (f : A -> A) l :
  i <> j -> nth_error (upd i f l) j = nth_error l j.
Proof. revert i j; induction l; intros [|i] [|j] H; simpl; auto; try congruence. Qed.
