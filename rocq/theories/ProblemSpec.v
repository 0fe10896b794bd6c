(** Independent specification of what a problem contains: a function of the history of setter calls. *)
From Coq Require Import ZArith List Bool.
From Verif Require Import Base Lin ConModel IlqrModel ProblemModel.
Import ListNotations.
Local Open Scope Z_scope.

Section Spec.
Context {F : Scalar} {C : Type}.

(** "the last call wins": the value of the last event for index k *)
Definition last_at {A} (evs : list (Z * option A)) (k : Z) : option A :=
  fold_left (fun acc e => if fst e =? k then snd e else acc) evs None.

Definition cost_calls (os : list (pop F C)) : list (Z * option C) :=
  flat_map (fun o => match o with PCost c k => [(k, c)] | PCosts cs k => combine (zseq k (length cs)) cs | _ => [] end) os.
Definition dyn_calls (os : list (pop F C)) : list (Z * option (Model F)) :=
  flat_map (fun o => match o with PDyn m k => [(k, m)] | PDyns ms k => combine (zseq k (length ms)) ms | _ => [] end) os.
(** cost function, dynamics, initial state and constraints given by the user *)
Definition cost_given (os : list (pop F C)) (k : Z) : option C := last_at (cost_calls os) k.
Definition dyn_given (os : list (pop F C)) (k : Z) : option (Model F) := last_at (dyn_calls os) k.
Definition init_given (os : list (pop F C)) : list F :=
  fold_left (fun acc o => match o with PInit x0 => x0 | _ => acc end) os [].
Definition con_given (ineq : bool) (os : list (pop F C)) (k : Z) : list (Con F) :=
  flat_map (fun o => match o with
                     | PCon K con k' =>
                         if (k' =? k) && Bool.eqb ineq (match K with NegativeOrthant => true | _ => false end) then [con] else []
                     | _ => [] end) os.

(** every segment has dynamics, every knot point a cost, the initial state is set and its dimension is that of the
    first model *)
Definition complete (N : Z) (os : list (pop F C)) : Prop :=
  (forall k, 0 <= k < N -> dyn_given os k <> None) /\
  (forall k, 0 <= k <= N -> cost_given os k <> None) /\
  init_given os <> [] /\
  (forall md, dyn_given os 0 = Some md -> md_n md = Z.of_nat (length (init_given os))).
End Spec.
