(** QuadraticCost. *)
From Coq Require Import Reals Lra Lia List Bool ZArith.
From Coquelicot Require Import Coquelicot.
From Verif Require Import Base Lin RLin RDer ConModel ConSpec ConProofs IlqrModel DynModel DynSpec DynProofs ExampleModel ExampleSpec.
Import List ListNotations.
Local Open Scope R_scope.

(** x' A y *)
Definition qf (n m : nat) (A : nat -> nat -> R) (x y : nat -> R) : R := rsum n (fun i => x i * rsum m (fun j => A i j * y j)).
Lemma qform_qf n m A x y : qform n m A x y = qf n m A x y.
Proof. unfold qform, qf. rewrite fsum_rsum. apply rsum_ext. intros i Hi. rewrite fsum_rsum. reflexivity. Qed.
Lemma dot_mv n m (A : nat -> nat -> R) (x y : nat -> R) : dot (F:=RS) n x (mv (F:=RS) m A y) = qf n m A x y.
Proof. rewrite rdot_eq. unfold qf. apply rsum_ext. intros i Hi. unfold mv. rewrite rdot_eq. reflexivity. Qed.
Lemma qf_swap n m A x y : qf n m A x y = rsum m (fun j => rsum n (fun i => A i j * x i) * y j).
Proof.
  unfold qf. rewrite (rsum_ext n _ (fun i => rsum m (fun j => A i j * x i * y j))).
  - rewrite rsum_swap. apply rsum_ext. intros j Hj. rewrite rsum_scal_r. reflexivity.
  - intros i Hi. rewrite <- rsum_scal. apply rsum_ext. intros; lra.
Qed.
Lemma qf_sym n A x y : symmetric n A -> qf n n A x y = qf n n A y x.
Proof.
  intros H. rewrite qf_swap. unfold qf. apply rsum_ext. intros i Hi. rewrite Rmult_comm. f_equal. apply rsum_ext. intros j Hj. rewrite (H j i Hj Hi). reflexivity.
Qed.
Lemma qf_ext n m A B x x' y y' : (forall i j, (i < n)%nat -> (j < m)%nat -> A i j = B i j) -> (forall i, (i < n)%nat -> x i = x' i) -> (forall j, (j < m)%nat -> y j = y' j) ->
  qf n m A x y = qf n m B x' y'.
Proof. intros HA Hx Hy. unfold qf. apply rsum_ext. intros i Hi. rewrite Hx by auto. f_equal. apply rsum_ext. intros j Hj. rewrite HA, Hy by auto. reflexivity. Qed.
Lemma qf_minus n A x y : symmetric n A -> qf n n A (fun i => x i - y i) (fun i => x i - y i) = qf n n A x x - 2 * qf n n A x y + qf n n A y y.
Proof.
  intros H. unfold qf at 1.
  rewrite (rsum_ext n _ (fun i => (x i * rsum n (fun j => A i j * x j) - x i * rsum n (fun j => A i j * y j)) - (y i * rsum n (fun j => A i j * x j) - y i * rsum n (fun j => A i j * y j)))).
  - rewrite !rsum_minus. fold (qf n n A x x) (qf n n A x y) (qf n n A y x) (qf n n A y y). rewrite (qf_sym n A y x H). lra.
  - intros i Hi. rewrite (rsum_ext n (fun j => A i j * (x j - y j)) (fun j => A i j * x j - A i j * y j)) by (intros; lra). rewrite rsum_minus. lra.
Qed.
Lemma d_qf n m A (X Y : R -> nat -> R) v w : curve X v -> curve Y w -> is_derive (fun s => qf n m A (X s) (Y s)) 0 (qf n m A v (Y 0) + qf n m A (X 0) w).
Proof.
  intros HX HY. unfold qf. rewrite <- rsum_plus.
  apply (d_rsum n (fun i s => X s i * rsum m (fun j => A i j * Y s j))). intros i Hi.
  apply (d_mult (fun s => X s i) (fun s => rsum m (fun j => A i j * Y s j))); [apply HX|].
  apply (d_rsum m (fun j s => A i j * Y s j)). intros j Hj. apply d_scal. apply HY.
Qed.
Lemma d_lin n (a : nat -> R) (X : R -> nat -> R) v : curve X v -> is_derive (fun s => rsum n (fun i => a i * X s i)) 0 (rsum n (fun i => a i * v i)).
Proof. intros HX. apply (d_rsum n (fun i s => a i * X s i)). intros i Hi. apply d_scal. apply HX. Qed.

Lemma qc_eval_eq (s : QC RS) x u : let n := qc_n s in let m := qc_m s in
  qc_eval s x u = / 2 * qf n n (qc_Q s) x x + qf n m (qc_H s) x u + / 2 * qf m m (qc_R s) u u + rsum n (fun i => qc_q s i * x i) + rsum m (fun i => qc_r s i * u i) + qc_c s.
Proof. intros n m. unfold qc_eval. rewrite !dot_mv, !rdot_eq, half_RS. rs. reflexivity. Qed.
Lemma qc_grad_x (s : QC RS) x u i : (i < qc_n s)%nat ->
  fst (qc_grad s x u) i = rsum (qc_n s) (fun j => qc_Q s i j * x j) + qc_q s i + rsum (qc_m s) (fun j => qc_H s i j * u j).
Proof. intros H. unfold qc_grad. cbn [fst]. rewrite vstore_lt by auto. unfold mv. rewrite !rdot_eq. reflexivity. Qed.
Lemma qc_grad_u (s : QC RS) x u i : (i < qc_m s)%nat ->
  snd (qc_grad s x u) i = rsum (qc_m s) (fun j => qc_R s i j * u j) + qc_r s i + rsum (qc_n s) (fun j => qc_H s j i * x j).
Proof. intros H. unfold qc_grad. cbn [snd]. rewrite vstore_lt by auto. unfold mv, mtr. rewrite !rdot_eq. reflexivity. Qed.
Lemma qc_cost_true (s : QC RS) : symmetric (qc_n s) (qc_Q s) -> symmetric (qc_m s) (qc_R s) -> cost_true (qc_n s) (qc_m s) (qc_ucost s).
Proof.
  intros HQ HR. split. intros X U v w HX HU old. cbn [qc_ucost uc_eval uc_grad].
  eapply d_ext; [intros t; symmetry; apply qc_eval_eq|].
  eapply d_eq.
  { apply d_plus; [|apply d_const]. apply d_plus; [apply d_plus; [apply d_plus; [apply d_plus; [apply d_scal; apply d_qf; eauto|apply d_qf; eauto]|apply d_scal; apply d_qf; eauto]|apply d_lin; eauto]|apply d_lin; eauto]. }
  rewrite !fsum_rsum.
  rewrite (rsum_ext (qc_n s) (fun j => fst (qc_grad s (X 0) (U 0)) j * v j)
    (fun j => v j * rsum (qc_n s) (fun k => qc_Q s j k * X 0 k) + qc_q s j * v j + v j * rsum (qc_m s) (fun k => qc_H s j k * U 0 k)))
    by (intros j Hj; rewrite qc_grad_x by auto; lra).
  rewrite (rsum_ext (qc_m s) (fun j => snd (qc_grad s (X 0) (U 0)) j * w j)
    (fun j => w j * rsum (qc_m s) (fun k => qc_R s j k * U 0 k) + qc_r s j * w j + rsum (qc_n s) (fun k => qc_H s k j * X 0 k) * w j))
    by (intros j Hj; rewrite qc_grad_u by auto; lra).
  rewrite !rsum_plus. fold (qf (qc_n s) (qc_n s) (qc_Q s) v (X 0)) (qf (qc_n s) (qc_m s) (qc_H s) v (U 0)) (qf (qc_m s) (qc_m s) (qc_R s) w (U 0)).
  rewrite <- (qf_swap (qc_n s) (qc_m s) (qc_H s) (X 0) w).
  rewrite (qf_sym (qc_n s) (qc_Q s) (X 0) v HQ), (qf_sym (qc_m s) (qc_R s) (U 0) w HR). lra.
Qed.
Lemma qc_is_hessian (s : QC RS) : symmetric (qc_n s) (qc_Q s) -> symmetric (qc_m s) (qc_R s) ->
  is_hessian (qc_n s) (qc_m s) (fun x u => fst (qc_grad s x u)) (fun x u => snd (qc_grad s x u))
    (fun x u => fst (fst (qc_hess s x u))) (fun x u => snd (fst (qc_hess s x u))) (fun x u => snd (qc_hess s x u)).
Proof.
  intros HQ HR X U v w HX HU. cbn [qc_hess fst snd]. split; intros i Hi.
  - eapply d_ext; [intros t; symmetry; apply qc_grad_x; auto|].
    eapply d_eq; [apply d_plus; [apply d_plus; [apply d_lin; eauto|apply d_const]|apply d_lin; eauto]|]. rewrite !fsum_rsum. lra.
  - eapply d_ext; [intros t; symmetry; apply qc_grad_u; auto|].
    eapply d_eq; [apply d_plus; [apply d_plus; [apply d_lin; eauto|apply d_const]|apply d_lin; eauto]|]. rewrite !fsum_rsum. lra.
Qed.
(** constructors *)
Lemma qc_make_ok debug ok n m Q R H q r c term (s : QC RS) : qc_make debug ok n m Q R H q r c term = Ok s ->
  s = mkQC n m (mstore n n Q) (mstore m m R) (mstore n m H) (vstore n q) (vstore m r) c term.
Proof.
  unfold qc_make, qc_validate. set (s0 := mkQC n m (mstore n n Q) (mstore m m R) (mstore n m H) (vstore n q) (vstore m r) c term). clearbody s0.
  unfold altro_assert. intros E. repeat match type of E with context [if ?b then _ else _] => destruct b; cbn [bind] in E; try discriminate E end.
  injection E as <-. reflexivity.
Qed.
Lemma qc_lqr_value debug ok n m Q R xref uref term (s : QC RS) x u : qc_lqr debug ok n m Q R xref uref term = Ok s -> symmetric n Q -> symmetric m R ->
  qc_eval s x u = / 2 * qf n n Q (fun i => x i - xref i) (fun i => x i - xref i) + / 2 * qf m m R (fun i => u i - uref i) (fun i => u i - uref i).
Proof.
  unfold qc_lqr. intros E HQ HR. apply qc_make_ok in E. subst s. rewrite qc_eval_eq. cbn [qc_n qc_m qc_Q qc_R qc_H qc_q qc_r qc_c].
  rewrite !dot_mv, half_RS.
  rewrite (qf_ext n n (mstore n n Q) Q x x x x) by (auto; intros; apply mstore_lt; auto).
  rewrite (qf_ext m m (mstore m m R) R u u u u) by (auto; intros; apply mstore_lt; auto).
  assert (EH : qf n m (mstore n m (mstore n m mzero)) x u = 0).
  { unfold qf. apply rsum_zero'. intros i Hi. rewrite (rsum_zero' m); [lra|]. intros j Hj. rewrite !mstore_lt by auto. unfold mzero. rs. lra. }
  rewrite EH.
  assert (Eq : rsum n (fun i => vstore n (vstore n (vopp (mv n Q xref))) i * x i) = - qf n n Q x xref).
  { unfold qf. rewrite <- rsum_opp. apply rsum_ext. intros i Hi. rewrite !vstore_lt by auto. unfold vopp, mv. rewrite rdot_eq. rs. lra. }
  assert (Er : rsum m (fun i => vstore m (vstore m (vopp (mv m R uref))) i * u i) = - qf m m R u uref).
  { unfold qf. rewrite <- rsum_opp. apply rsum_ext. intros i Hi. rewrite !vstore_lt by auto. unfold vopp, mv. rewrite rdot_eq. rs. lra. }
  rewrite Eq, Er. rewrite (qf_minus n Q x xref HQ), (qf_minus m R u uref HR). rs. lra.
Qed.
