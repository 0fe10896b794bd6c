(** Property theorems: the problems of the library meet the hypotheses of C82 and C83, before and after solves (C84). *)
From Coq Require Import Reals Lra ZArith List Bool Lia.
From Coquelicot Require Import Coquelicot.
Import List ListNotations.
From Verif Require Import Base Lin RLin ConModel ConSpec ConProofs LogModel StatsModel TrajModel IlqrModel IlqrSpec CostInst AlModel AlProofs2 AlTotal LsSpec RDer DynModel DynSpec DynProofs ExampleModel ExampleSpec ExampleProofs P_Dyn P_Examples ProblemModel ProblemSpec IlqrProofs5 LqSpec LqProbSpec LltProofs P_Lqr ExProbModel ExProbSpec ExProbProofs ExProbProofs2 ExProbProofs3 ExProbProofs4 ExProbProofs5 ExProbProofs6 ExProbProofs7 P_ExProb NlSpec NlAlSpec NlAlProofs P_NlAl NlLibProofs NlLibProofs2 NlKeepProofs.
Import List ListNotations LqSpec.
Local Open Scope R_scope.

(** ** Components *)
(** A model discretised with ExplicitEuler (any dynamics with a correct Jacobian) or RungeKutta4 (Jacobian independent of time). *)
Theorem C84_euler : forall n m (cd : CDyn RS) f J W, computes n cd f -> jac_true n m cd f J W -> smooth_dyn n m (disc_euler n m cd).
Proof. intros n m cd f J W HC HJ. exact (euler_smooth n m cd f J W HC HJ). Qed.
Theorem C84_rk4 : forall n m (cd : CDyn RS) f J W, computes n cd f -> jac_true n m cd f J W -> (forall x u t t' i j, J x u t i j = J x u t' i j) -> forall s, smooth_dyn n m (disc_rk4 n m cd s).
Proof. intros n m cd f J W HC HJ TI s. exact (rk4_smooth n m cd f J W HC HJ s TI). Qed.
(** LQRCost with symmetric weights *)
Theorem C84_cost : forall debug ok n m (Q R : mat RS) xref uref term q, qc_lqr (F:=RS) debug ok n m Q R xref uref term = Ok q -> sym n Q -> sym m R ->
  cost_true n m (qc_ucost q) /\ forall x u old, msym n (fst (fst (uc_hess (qc_ucost q) x u old))) /\ msym m (snd (uc_hess (qc_ucost q) x u old)).
Proof. exact lqr_smooth. Qed.
(** GoalConstraint and ControlBound *)
Theorem C84_goal : forall n m xf, con_smooth n m (goal_con n xf).
Proof. exact goal_smooth. Qed.
Theorem C84_bound : forall dmax debug lb ub (b : CB RS) n, length lb = length ub -> cb_make (F:=RS) dmax debug lb ub = Ok b -> con_smooth n (length lb) (cb_con n b).
Proof. exact bound_smooth. Qed.
(** a new ALCost made of such components *)
Theorem C84_object : forall n m cost eqs ineqs, cost_true n m cost -> (forall x u old, msym n (fst (fst (uc_hess cost x u old))) /\ msym m (snd (uc_hess cost x u old))) ->
  (forall c, In c (eqs ++ ineqs) -> con_smooth n m c /\ (1 <= con_dim c)%nat) -> smooth_al n m (al_make n m cost eqs ineqs).
Proof. exact fresh_smooth. Qed.

(** ** Solves *)
(** Penalty scalings are positive. *)
Definition scaled (s : ILQR RS (ALCost RS)) : Prop := forall c v, In c (il_costobjs s) -> In v (al_cvs c) -> 0 < cv_scal v.
(** costs and constraints, with their cones, of every knot point *)
Definition data (s : ILQR RS (ALCost RS)) : list (UCost RS * list (cone * Con RS)) := map (fun c => (al_cost c, map (fun v => (cv_type v, cv_con v)) (al_cvs c))) (il_costobjs s).
(** A whole solve, whatever the options and however it ends, leaves the object in the setting of C83, on the same problem. *)
Theorem C84_solve_keeps : forall n m debug fuel (a a' : ALS RS) Z Zb, al_setting n m (as_il a) Z Zb -> scaled (as_il a) -> as_solve n m debug fuel a = Ok a' ->
  (exists Z' Zb', al_setting n m (as_il a') Z' Zb') /\ scaled (as_il a') /\ data (as_il a') = data (as_il a) /\
  il_N (as_il a') = il_N (as_il a) /\ il_x0 (as_il a') = il_x0 (as_il a) /\ map kp_dyn (il_kps (as_il a')) = map kp_dyn (il_kps (as_il a)).
Proof.
  intros n m debug fuel a a' Z Zb AS SC E. assert (I : al_inv n m (as_il a)) by (split; [exists Z, Zb; exact AS|exact SC]).
  destruct (inv_as_solve n m debug fuel a a' E I) as [S1 S2]. split; [exact S1|]. split; [exact S2|]. destruct (problem_as_solve n m debug fuel a a' E) as [_ P1 P2 P3].
  split; [|auto]. destruct (same_data n m _ _ (R_as_solve n m debug fuel a a' E) (inv_costs n m _ I)) as [D1 D2].
  unfold data. clear - D1 D2. revert D1 D2. generalize (il_costobjs (as_il a')). induction (il_costobjs (as_il a)) as [|c l IH]; intros [|c' l'] D1 D2; try discriminate; [reflexivity|].
  cbn [map] in *. injection D1 as E1 D1. injection D2 as E2 D2. rewrite (IH l' D1 D2). unfold sig in E2. rewrite E1, E2. reflexivity.
Qed.
(** So after any number of solves, with options changed in between, the next backward pass leaves controls and multipliers alone exactly at a KKT point. *)
Inductive solves (n m : nat) : ALS RS -> ALS RS -> Prop :=
| solves_nil a : solves n m a a
| solves_cons debug fuel o a b c : as_solve n m debug fuel (mkALS (il_set_opts (as_il a) o) (as_status a)) = Ok b -> solves n m b c -> solves n m a c.
Lemma set_opts_setting n m s o Z Zb : al_setting n m s Z Zb -> al_setting n m (il_set_opts s o) Z Zb.
Proof. intros []. split; assumption. Qed.
Theorem C84_after_solves : forall n m (a a' : ALS RS) Z Zb, al_setting n m (as_il a) Z Zb -> scaled (as_il a) -> solves n m a a' ->
  data (as_il a') = data (as_il a) /\ exists Z' Zb', al_setting n m (as_il a') Z' Zb' /\ dyn_feasible n (il_x0 (as_il a)) (map kp_dyn (il_kps (as_il a))) Z' /\
  forall fuel s2, il_backward_pass n m fuel (il_update_expansions al_ops n m Z' (as_il a')) = Ok s2 -> il_status s2 <> kBackwardPassRegularizationFailed ->
    ((no_step m s2 /\ duals_kept (il_costobjs s2)) <-> kkt_point n m (as_il a') Z').
Proof.
  intros n m a a' Z Zb AS SC H. revert Z Zb AS SC. induction H as [a|debug fuel o a b c E _ IH]; intros Z Zb AS SC.
  - split; [reflexivity|]. exists Z, Zb. split; [exact AS|]. split; [apply AS|]. intros fuel s2 EB ST. exact (C83_kkt n m _ Z Zb fuel s2 AS EB ST).
  - apply (C84_solve_keeps n m debug fuel _ b Z Zb) in E; [|exact (set_opts_setting n m _ o Z Zb AS)|exact SC]. destruct E as ((Z1 & Zb1 & AS1) & SC1 & ED & _ & EX & EK). cbn [as_il] in ED, EX, EK.
    destruct (IH Z1 Zb1 AS1 SC1) as (D2 & Z' & Zb' & A & B & C). split; [rewrite D2; exact ED|]. exists Z', Zb'. split; [exact A|]. split; [|exact C]. rewrite EX, EK in B. exact B.
Qed.

(** ** UnicycleProblem (exact sine and cosine), both scenarios *)
Theorem C84_unicycle : forall debug ldlt dmax, ldlt_diag ldlt -> 3 < dmax -> forall (s : UNP RS) h on om, un_ok dmax s -> (on = None \/ on = Some 3%nat) -> (om = None \/ om = Some 2%nat) ->
  exists a Z Zb, un_al_solver debug ldlt dmax cos sin true on om s h = Ok (a, un_prep s) /\ al_setting 3 2 (as_il a) Z Zb /\ scaled (as_il a).
Proof. intros debug ldlt dmax LD DM s h on om OK H1 H2. destruct (un_setting debug ldlt dmax LD DM s h on om OK H1 H2) as (a & Z & Zb & E & A & B & _). exists a, Z, Zb. auto. Qed.
(** Its augmented-Lagrangian solve completes for all sensible options; the trajectory found obeys the unicycle dynamics, and the object can be solved again
    or checked for optimality by one more backward pass. *)
Theorem C84_unicycle_solve : forall debug ldlt dmax, ldlt_diag ldlt -> 3 < dmax -> forall (s : UNP RS) h on om, un_ok dmax s -> (on = None \/ on = Some 3%nat) -> (om = None \/ om = Some 2%nat) ->
  forall o debug', reg_ok o -> 0 < o_reg_min o -> (0 <= o_max_total o)%Z -> (1 <= o_header_freq o)%Z ->
  exists a fuel a', un_al_solver debug ldlt dmax cos sin true on om s h = Ok (a, un_prep s) /\
    (forall fuel', (fuel <= fuel')%nat -> as_solve 3 2 debug' fuel' (mkALS (il_set_opts (as_il a) o) (as_status a)) = Ok a') /\
    data (as_il a') = data (as_il a) /\ exists Z' Zb', al_setting 3 2 (as_il a') Z' Zb' /\ dyn_feasible 3 (il_x0 (as_il a)) (map kp_dyn (il_kps (as_il a))) Z' /\
    forall fuel s2, il_backward_pass 3 2 fuel (il_update_expansions al_ops 3 2 Z' (as_il a')) = Ok s2 -> il_status s2 <> kBackwardPassRegularizationFailed ->
      ((no_step 2 s2 /\ duals_kept (il_costobjs s2)) <-> kkt_point 3 2 (as_il a') Z').
Proof.
  intros debug ldlt dmax LD DM s h on om OK H1 H2 o debug' RO RM HT HF. destruct (un_setting debug ldlt dmax LD DM s h on om OK H1 H2) as (a & Z & Zb & E & A & B & EN & EX & ES).
  destruct (al_solve_total 3 2 debug' (mkALS (il_set_opts (as_il a) o) (as_status a))) as (fuel & a' & T); try assumption.
  - cbn [as_il]. split; [apply A|]. split; [exists Z; split; apply A|exists Zb; split; apply A].
  - cbn [as_il]. change (il_N (il_set_opts (as_il a) o)) with (il_N (as_il a)). rewrite EN. destruct OK as (HN & _). lia.
  - exists a, fuel, a'. split; [exact E|]. split; [exact T|]. apply (C84_after_solves 3 2 a a' Z Zb A B). eapply solves_cons; [apply (T fuel (le_n _))|apply solves_nil].
Qed.

(** the problem as constructed and the one with obstacles, with default options *)
Example C84_example : forall three, let s := un_set_scenario three (un_new (F:=RS) PI) in exists a fuel a', un_al_solver (F:=RS) true (fun _ => true) 10 cos sin true None None s [] = Ok (a, un_prep s) /\
  as_solve 3 2 true fuel (mkALS (il_set_opts (as_il a) ti_opts) (as_status a)) = Ok a' /\ exists Z' Zb', al_setting 3 2 (as_il a') Z' Zb' /\ length Z' = 101%nat.
Proof.
  intros three s. destruct (un_new_ok 10 ltac:(lra)) as (A & B & C). assert (OK : un_ok 10 s) by (apply (C63_reuse 10 (un_new (F:=RS) PI) [UScenario three]); auto; lra).
  destruct (un_setting true (fun _ => true) 10 ltac:(intros M _ _; reflexivity) ltac:(lra) s [] None None OK (or_introl eq_refl) (or_introl eq_refl)) as (a & Z & Zb & E & AS & SC & EN & EX & ES).
  destruct (al_solve_total 3 2 true (mkALS (il_set_opts (as_il a) ti_opts) (as_status a))) as (fuel & a' & T); try assumption.
  - cbn [as_il]. split; [apply AS|]. split; [exists Z; split; apply AS|exists Zb; split; apply AS].
  - cbn [as_il]. change (il_N (il_set_opts (as_il a) ti_opts)) with (il_N (as_il a)). rewrite EN. cbn. lia.
  - cbn. unfold reg_ok. cbn. lra.
  - cbn. lra.
  - cbn. lia.
  - cbn. lia.
  - exists a, fuel, a'. split; [exact E|]. split; [apply T; apply le_n|]. destruct (C84_solve_keeps 3 2 true fuel (mkALS (il_set_opts (as_il a) ti_opts) (as_status a)) a' Z Zb (set_opts_setting 3 2 _ ti_opts Z Zb AS) SC (T fuel (le_n _))) as ((Z' & Zb' & A') & _ & _ & EN' & _).
    exists Z', Zb'. split; [exact A'|]. rewrite (al_lenZ _ _ _ _ _ A'), EN'. cbn [as_il]. change (il_N (il_set_opts (as_il a) ti_opts)) with (il_N (as_il a)). rewrite EN. reflexivity.
Qed.
Print Assumptions C84_euler.
Print Assumptions C84_rk4.
Print Assumptions C84_cost.
Print Assumptions C84_goal.
Print Assumptions C84_bound.
Print Assumptions C84_object.
Print Assumptions C84_solve_keeps.
Print Assumptions C84_after_solves.
Print Assumptions C84_unicycle.
Print Assumptions C84_unicycle_solve.
Print Assumptions C84_example.
