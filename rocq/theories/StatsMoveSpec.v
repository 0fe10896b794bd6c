(** Vocabulary of the statements about copied and moved statistics. *)
From Coq Require Import ZArith String List Bool.
From Verif Require Import Base StatsModel StatsMoveModel.
Import ListNotations.

Section Spec.
Context {F : Scalar}.
(** a program that neither copies nor moves *)
Definition plain_op (o : mop F) : Prop := match o with MCopy _ _ | MMove _ _ => False | _ => True end.
(** the calls made on the object at [a] since its construction; None: there is no object *)
Definition call_on (a : nat) (cs : option (list (slop F))) (o : mop F) : option (list (slop F)) :=
  match o with
  | MNew b => if Nat.eqb b a then Some [] else cs
  | MDestroy b => if Nat.eqb b a then None else cs
  | MCall b op => if Nat.eqb b a then option_map (fun l => l ++ [op]) cs else cs
  | _ => cs
  end.
Definition calls_of (a : nat) (ops : list (mop F)) : option (list (slop F)) := fold_left (call_on a) ops None.
(** an object in use whose map points to its own vectors, with all its series of the same length *)
Definition own_obj (h : Mem F) (a : nat) (s : Stats F) : Prop :=
  h a = Some (mkObj s (Some a) a false) /\ (forall p, In p (st_ser s) -> length (snd p) = st_len s).
(** the calls that write to the recorded series *)
Definition records (op : slop F) : Prop := match op with SlOp _ => True | _ => False end.
Definition shows (op : slop F) : Prop := match op with SlPrint | SlHeader => True | _ => False end.
(** writing [v] as the newest entry of a series (the first entry if the series is empty) *)
Definition newest (v : F) (l : list F) : list F := removelast l ++ [v].
End Spec.
