(** Independent specifications used by the iLQR properties. *)
From Coq Require Import ZArith String List Bool.
From Verif Require Import Base Lin StatsModel TrajModel IlqrModel.
Import ListNotations.

Section Spec.
Context {F : Scalar}.

(** A trajectory obeys the dynamics from [x0]: the first state is [x0], and every next state is the discrete
    dynamics of that segment applied to the state, control, time and step before it.  [buf] is the content of
    the output argument before the call; it is irrelevant for dynamics that write every entry. *)
Definition dyn_feasible (n : nat) (x0 : vec F) (dyns : list (Dyn F)) (Z : Traj F) : Prop :=
  (forall z i, nth_error Z 0 = Some z -> i < n -> z_x z i = x0 i) /\
  (forall k f z z', nth_error dyns k = Some f -> nth_error Z k = Some z -> nth_error Z (S k) = Some z' ->
     exists buf, forall i, i < n -> z_x z' i = dy_eval f (z_x z) (z_u z) (z_t z) (z_h z) buf i).
(** dynamics that overwrite their whole output *)
Definition writes_all (n : nat) (f : Dyn F) : Prop :=
  forall x u t h b b' i, i < n -> dy_eval f x u t h b i = dy_eval f x u t h b' i.

(** total cost of a trajectory when knot point k has cost function [nth k vs] *)
Fixpoint traj_cost (vs : list (vec F -> vec F -> F)) (Z : Traj F) : F :=
  match vs, Z with
  | v :: vs', z :: Z' => add (v (z_x z) (z_u z)) (traj_cost vs' Z')
  | _, _ => zero
  end.

(** A cost object behaves like the mathematical function [V c] as long as [Inv c] holds: evaluations return
    its value, and no evaluation or expansion changes that function. *)
Record faithful_cost {CS} (ops : CostOps F CS) (Inv : CS -> Prop) (V : CS -> vec F -> vec F -> F) : Prop := {
  fc_value : forall c x u, Inv c -> fst (co_eval ops c x u) = V c x u;
  fc_eval : forall c x u, Inv c -> Inv (snd (co_eval ops c x u)) /\ V (snd (co_eval ops c x u)) = V c;
  fc_grad : forall c x u b, Inv c -> Inv (snd (co_grad ops c x u b)) /\ V (snd (co_grad ops c x u b)) = V c;
  fc_hess : forall c x u b, Inv c -> Inv (snd (co_hess ops c x u b)) /\ V (snd (co_hess ops c x u b)) = V c }.

(** sizes needed for the solver to be usable: N+1 knot points in every list *)
Definition il_ready {CS} (s : ILQR F CS) : Prop :=
  length (il_kps s) = S (il_N s) /\
  (exists Z, il_Z s = Some Z /\ length Z = S (il_N s)) /\
  (exists Zb, il_Zb s = Some Zb /\ length Zb = S (il_N s)).
Definition times (Z : Traj F) : list (F * F) := map (fun z => (z_t z, z_h z)) Z.

(** total cost of [Z] under the cost objects of solver [s] *)
Definition total_cost {CS} (V : CS -> vec F -> vec F -> F) (s : ILQR F CS) (Z : Traj F) : F :=
  traj_cost (map (fun k => V (kp_cost k)) (il_kps s)) Z.
(** well-formed statistics: the eight series, all of the recorded length (true of a new solver, kept by all
    operations) *)
Definition stats_ok (st : Stats F) : Prop :=
  map fst (st_ser st) = series_titles /\ forall p, In p (st_ser st) -> length (snd p) = st_len st.
(** state and control limits; the first state and the terminal control are not limited *)
Definition within_limits (n m : nat) (o : Opts F) (Z : Traj F) : Prop :=
  forall k z z', nth_error Z k = Some z -> nth_error Z (S k) = Some z' ->
    ltb (o_state_max o) (norm n (z_x z')) = false /\ ltb (o_control_max o) (norm m (z_u z)) = false.
End Spec.

(** states of a solve: [reach b j s] = [s] is the state after [j] iterations that did not end the solve begun
    in state [b] *)
Inductive reach {F : Scalar} {CS} (ops : CostOps F CS) n m cb fuel (b : ILQR F CS) : nat -> ILQR F CS -> Prop :=
| reach0 : reach ops n m cb fuel b 0 b
| reachS j s s' : reach ops n m cb fuel b j s -> il_iteration ops n m cb fuel s = Ok (false, s') ->
    reach ops n m cb fuel b (S j) s'.
(** average over segments of max_i |d_i| / (|u_i| + 1) *)
Definition avg_gain {F : Scalar} (m N : nat) (d u : nat -> vec F) : F :=
  div (lsum (map (fun k => maxcoeff m (fun i => div (sabs (d k i)) (add (sabs (u k i)) one))) (seq 0 N))) (ofZ (Z.of_nat N)).
