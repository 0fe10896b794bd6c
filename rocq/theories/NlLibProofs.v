(** The library's integrators, costs and constraints meet the hypotheses of the theorems on nonlinear problems (C82, C83). *)
From Coq Require Import Reals Lra Lia List Bool ZArith Psatz Arith FunctionalExtensionality.
From Coquelicot Require Import Coquelicot.
Import List ListNotations.
From Verif Require Import Base Lin LogModel StatsModel TrajModel ConModel ConSpec IlqrModel IlqrSpec CostInst AlModel LsSpec RLin RDer ConProofs DynModel DynSpec DynProofs ExampleModel ExampleSpec ExampleProofs2 ExampleProofs3 P_Dyn P_Examples LqSpec LltProofs LqProofs LqProbSpec NlSpec NlAlSpec NlAlProofs.
Local Open Scope R_scope.

Section Dyn.
Context (n m : nat).
Lemma smooth_of_jacobian (d : Dyn RS) : writes_all n d ->
  (forall t h b, is_jacobian n m (fun x u => dy_eval d x u t h b) (fun x u => dy_jac d x u t h mzero)) -> smooth_dyn n m d.
Proof.
  intros W J. split; [exact W|]. intros x u t h b i Hi.
  apply (curves_slopes n m (fun x u => dy_eval d x u t h b i) (fun x u => dy_jac d x u t h mzero i) (fun x u j => dy_jac d x u t h mzero i (n + j)%nat)).
  intros X U v w CX CU. exact (J t h b X U v w CX CU i Hi).
Qed.
Context (cd : CDyn RS) (f : vec RS -> vec RS -> R -> nat -> R) (J : vec RS -> vec RS -> R -> nat -> nat -> R) (W : nat -> nat -> bool).
Context (HC : computes n cd f) (HJ : jac_true n m cd f J W).
Lemma euler_smooth : smooth_dyn n m (disc_euler n m cd).
Proof.
  apply smooth_of_jacobian.
  - intros x u t h b b' i Hi. cbn [disc_euler dy_eval]. rewrite !(euler_scheme n cd f HC) by exact Hi. reflexivity.
  - intros t h b. apply (C51_euler n m cd f J W HC HJ t h (fun _ _ => b) (fun _ _ => mzero)). intros x u i j _ _ _. reflexivity.
Qed.
Lemma rk4_smooth s : (forall x u t t' i j, J x u t i j = J x u t' i j) -> smooth_dyn n m (disc_rk4 n m cd s).
Proof.
  intros TI. apply smooth_of_jacobian; [intros x u t h b b' i Hi; reflexivity|]. intros t h b. apply (C51_rk4_partial n m cd f J W HC HJ TI s t h (fun _ _ => b) (fun _ _ => mzero)). intros x u i j _ _ _. reflexivity.
Qed.
End Dyn.

(** ** costs and constraints *)
Lemma qc_smooth (q : QC RS) : symmetric (qc_n q) (qc_Q q) -> symmetric (qc_m q) (qc_R q) ->
  cost_true (qc_n q) (qc_m q) (qc_ucost q) /\ forall x u old, msym (qc_n q) (fst (fst (uc_hess (qc_ucost q) x u old))) /\ msym (qc_m q) (snd (uc_hess (qc_ucost q) x u old)).
Proof. intros SQ SR. split; [apply qc_cost_true; assumption|]. intros x u old. split; [exact SQ|exact SR]. Qed.
Lemma fresh_smooth n m cost eqs ineqs : cost_true n m cost -> (forall x u old, msym n (fst (fst (uc_hess cost x u old))) /\ msym m (snd (uc_hess cost x u old))) ->
  (forall c, In c (eqs ++ ineqs) -> con_smooth n m c /\ (1 <= con_dim c)%nat) -> smooth_al n m (al_make n m cost eqs ineqs).
Proof.
  intros C H G. exists false, cost, eqs, ineqs, []. split; [exact C|]. split; [exact H|]. split; [exact G|]. split; [apply reach_nil|].
  intros v Hv. assert (E : exists K c, v = cv_make n m K c /\ In c (eqs ++ ineqs)).
  { unfold al_cvs, al_make in Hv. cbn [al_eq al_ineq] in Hv. apply in_app_or in Hv. destruct Hv as [Hv|Hv]; apply in_map_iff in Hv; destruct Hv as (c & <- & Hc); eexists _, _; (split; [reflexivity|]); apply in_or_app; auto. }
  destruct E as (K & c & -> & Hc). destruct (G c Hc) as [_ D]. cbn [cv_make cv_pen]. rewrite vstore_lt by exact D. cbn. lra.
Qed.
Lemma mstore_sym n (A : mat RS) : sym n A -> sym n (mstore n n A).
Proof. intros H i j Hi Hj. rewrite !mstore_lt by assumption. apply H; assumption. Qed.
(** LQRCost with symmetric weights *)
Lemma lqr_smooth d ok n m (Q R : mat RS) xref uref term q : qc_lqr (F:=RS) d ok n m Q R xref uref term = Ok q -> sym n Q -> sym m R ->
  cost_true n m (qc_ucost q) /\ forall x u old, msym n (fst (fst (uc_hess (qc_ucost q) x u old))) /\ msym m (snd (uc_hess (qc_ucost q) x u old)).
Proof.
  unfold qc_lqr. intros E SQ SR. apply qc_make_ok in E. destruct (qc_smooth q) as [A B].
  - subst q. cbn [qc_n qc_Q]. exact (mstore_sym n Q SQ).
  - subst q. cbn [qc_m qc_R]. exact (mstore_sym m R SR).
  - subst q. cbn [qc_n qc_m] in A, B. auto.
Qed.
(** with zero control weights it does not look at the controls *)
Lemma lqr_blind d ok n m (Q : mat RS) xref uref term q : qc_lqr (F:=RS) d ok n m Q (fun _ _ => 0 : RS) xref uref term = Ok q -> sym n Q -> forall x u u', uc_eval (qc_ucost q) x u = uc_eval (qc_ucost q) x u'.
Proof.
  intros E SQ x u u'. cbn [qc_ucost uc_eval]. rewrite !(C54_lqr d ok n m Q (fun _ _ => 0) xref uref term q E SQ) by (intros i j _ _; reflexivity).
  assert (Z : forall v, qform m m (fun _ _ => 0) v v = 0). { intros v. unfold qform. rewrite fsum_rsum. apply rsum_zero'. intros i Hi. rewrite fsum_rsum, rsum_zero' by (intros j Hj; lra). lra. }
  rewrite !Z. reflexivity.
Qed.
(** GoalConstraint, ControlBound and CircleConstraint (at the default indices) *)
Lemma goal_smooth n m xf : con_smooth n m (goal_con n xf).
Proof. destruct (C53_goal n m xf) as (_ & _ & g & J & T). exists g, J, (fun _ _ => true). exact T. Qed.
Lemma bound_smooth (dmax : R) debug lb ub (b : CB RS) n : length lb = length ub -> cb_make (F:=RS) dmax debug lb ub = Ok b -> con_smooth n (length lb) (cb_con n b).
Proof.
  intros L E. assert (R : cb_reach (F:=RS) dmax dmax debug b) by (eapply R_make; [right; exact L|exact E]).
  destruct (C52_jacobian dmax dmax (Rle_refl _) debug b R n) as (g & J & T).
  assert (EM : cb_m b = length lb). { unfold cb_make in E. destruct (altro_assert _ _); try discriminate. cbn [bind] in E. destruct (altro_assert _ _); try discriminate. cbn [bind] in E. destruct (cb_validate _ _ _ _); try discriminate. cbn [bind] in E. inversion E. reflexivity. }
  rewrite EM in T. exists g, J, (fun _ _ => true). exact T.
Qed.
