(** The repository's own classes as linear-quadratic problems: QuadraticCost, and Runge-Kutta or Euler steps of linear systems. *)
From Coq Require Import Reals Lra Lia List Bool ZArith Arith.
From Coquelicot Require Import Coquelicot.
From Verif Require Import Base Lin RLin RDer ConModel ConSpec ConProofs TrajModel IlqrModel IlqrSpec CostInst DynModel DynSpec DynProofs ExampleModel ExampleSpec ExampleProofs ExampleProofs3 LqSpec LltProofs LqProofs LqProbSpec.
Import List ListNotations LqSpec.
From Coq Require Import FunctionalExtensionality.
Local Open Scope R_scope.

(** * linear systems *)
Definition mprod (n : nat) (A B : nat -> nat -> R) (i j : nat) : R := tot n (fun l => A i l * B l j).
Lemma app_mprod n c A B x i : app n A (app c B x) i = app c (mprod n A B) x i.
Proof.
  rewrite !app_r. unfold mprod. rewrite (rsum_ext n _ (fun l => rsum c (fun j => A i l * B l j * x j))) by (intros l _; rewrite app_r, <- rsum_scal; apply rsum_ext; intros; lra).
  rewrite rsum_swap. apply rsum_ext. intros j _. rewrite tot_rsum, <- rsum_scal_r. reflexivity.
Qed.
Lemma app_plus c A B x i : app c (fun i j => A i j + B i j) x i = app c A x i + app c B x i.
Proof. rewrite !app_r, <- rsum_plus. apply rsum_ext. intros; lra. Qed.
Lemma app_mscal c a A x i : app c (fun i j => a * A i j) x i = a * app c A x i.
Proof. rewrite !app_r, <- rsum_scal. apply rsum_ext. intros; lra. Qed.
Lemma app_id n x i : (i < n)%nat -> app n (fun i j => if Nat.eqb i j then 1 else 0) x i = x i.
Proof. intros Hi. rewrite app_r. rewrite (rsum_single n i) by (auto; intros j Hj N; rewrite (proj2 (Nat.eqb_neq i j)) by lia; lra). rewrite Nat.eqb_refl. lra. Qed.
(** a continuous system x' = A x + B u + c whose Jacobian function returns (A B) *)
Record linear_system (n m : nat) (cd : CDyn RS) (A B : nat -> nat -> R) (c : nat -> R) (W : nat -> nat -> bool) : Prop := {
  ls_eval : computes n cd (fun x u t i => app n A x i + app m B u i + c i);
  ls_jac : forall x u t buf i j, (i < n)%nat -> (j < n + m)%nat -> cd_jac cd x u t buf i j = if W i j then (if Nat.ltb j n then A i j else B i (j - n)%nat) else buf i j;
  ls_mask : forall i j, W i j = false -> (if Nat.ltb j n then A i j else B i (j - n)%nat) = 0 }.
Definition e_at (j : nat) : nat -> R := fun i => if Nat.eqb j i then 1 else 0.
Lemma app_e c A j i : (j < c)%nat -> app c A (e_at j) i = A i j.
Proof. intros H. rewrite app_r. rewrite (rsum_single c j); auto. - unfold e_at. rewrite Nat.eqb_refl. lra. - intros k Hk N. unfold e_at. rewrite (proj2 (Nat.eqb_neq j k)) by lia. lra. Qed.
Lemma curve_line x v : curve (fun s i => x i + s * v i) v.
Proof. intros i. eapply d_eq; [apply d_plus; [apply d_const|apply (d_scal_r (v i) (fun s => s) 1); apply d_id]|]. lra. Qed.
(** the derivative of an affine map *)
Lemma affine_jacobian n m (g : vec RS -> vec RS -> nat -> R) M A B c : (forall x u i, (i < n)%nat -> g x u i = app n A x i + app m B u i + c i) -> is_jacobian n m g M ->
  forall x u i, (i < n)%nat -> (forall j, (j < n)%nat -> M x u i j = A i j) /\ (forall j, (j < m)%nat -> M x u i (n + j)%nat = B i j).
Proof.
  intros HG HJ x u i Hi.
  assert (E : forall v w, fsum n (fun j => M x u i j * v j) + fsum m (fun j => M x u i (n + j)%nat * w j) = app n A v i + app m B w i).
  { intros v w. pose proof (HJ _ _ _ _ (curve_line x v) (curve_line u w) i Hi) as D. cbv beta in D.
    assert (X0 : forall x v : nat -> R, (fun i => x i + 0 * v i) = x) by (intros; apply functional_extensionality; intros; lra). rewrite !X0 in D.
    assert (D2 : is_derive (fun s => g (fun i => x i + s * v i) (fun i => u i + s * w i) i) 0 (app n A v i + app m B w i)).
    { apply (d_ext (fun s => (app n A x i + app m B u i + c i) + s * (app n A v i + app m B w i))).
      - intros s. rewrite HG by auto. rewrite !app_add, !app_scal. lra.
      - eapply d_eq; [apply d_plus; [apply d_const|apply (d_scal_r _ (fun s => s) 1); apply d_id]|]. lra. }
    exact (eq_trans (eq_sym (is_derive_unique _ _ _ D)) (is_derive_unique _ _ _ D2)). }
  change (forall v w, app n (fun i j => M x u i j) v i + app m (fun i j => M x u i (n + j)%nat) w i = app n A v i + app m B w i) in E.
  split; intros j Hj.
  - specialize (E (e_at j) (fun _ => 0)). rewrite !app_e, !app_zero in E by auto. lra.
  - specialize (E (fun _ => 0) (e_at j)). rewrite !app_e, !app_zero in E by auto. lra.
Qed.
Lemma linear_jac_true n m cd A B c W : linear_system n m cd A B c W ->
  jac_true n m cd (fun x u t i => app n A x i + app m B u i + c i) (fun _ _ _ i j => if Nat.ltb j n then A i j else B i (j - n)%nat) W.
Proof.
  intros [E J M]. split; auto. intros X U v w t HX HU i Hi. rewrite !fsum_rsum.
  rewrite (rsum_ext n _ (fun j => A i j * v j)) by (intros j Hj; rewrite (proj2 (Nat.ltb_lt j n) Hj); reflexivity).
  rewrite (rsum_ext m _ (fun j => B i j * w j)) by (intros j Hj; replace (Nat.ltb (n + j) n) with false by (symmetry; apply Nat.ltb_ge; lia); replace (n + j - n)%nat with j by lia; reflexivity).
  apply (d_ext (fun s => rsum n (fun j => A i j * X s j) + rsum m (fun j => B i j * U s j) + c i)); [intros s; rewrite !app_r; reflexivity|].
  eapply d_eq; [apply d_plus; [apply d_plus; [apply (d_rsum n (fun j s => A i j * X s j) (fun j => A i j * v j)); intros; apply d_scal; apply HX|apply (d_rsum m (fun j s => B i j * U s j) (fun j => B i j * w j)); intros; apply d_scal; apply HU]|apply d_const]|]. lra.
Qed.
Theorem rk4_linear n m cd A B c W s : linear_system n m cd A B c W -> affine n m (disc_rk4 n m cd s).
Proof.
  intros H. pose proof (linear_jac_true n m cd A B c W H) as HJ. destruct H as [HE HJ' HM].
  set (Id := fun i j : nat => if Nat.eqb i j then 1 else 0). set (A2 := mprod n A A). set (A3 := mprod n A2 A).
  set (M := fun (h : R) i j => h * Id i j + h ^ 2 / 2 * A i j + h ^ 3 / 6 * A2 i j + h ^ 4 / 24 * A3 i j).
  exists (fun _ h i j => Id i j + mprod n (M h) A i j), (fun _ h => mprod n (M h) B), (fun _ h => app n (M h) c). intros x u t h.
  assert (EV : forall x u b i, (i < n)%nat -> dy_eval (disc_rk4 n m cd s) x u t h b i = app n (fun i j => Id i j + mprod n (M h) A i j) x i + app m (mprod n (M h) B) u i + app n (M h) c i).
  { clear x u. intros x u b i Hi. pose proof (rk4_scheme_ok n cd _ HE s x u t h) as Hs. change (snd (rk4_step n cd s x u t h)) with (dy_eval (disc_rk4 n m cd s) x u t h b) in Hs.
    pose proof (rk4_affine n A (fun i => app m B u i + c i) _ x u t h _ Hs) as R. cbv zeta in R. rewrite R; auto; [|intros; change (rmv n A z i0) with (app n A z i0); lra]. clear R.
    rewrite app_plus, app_id by auto. rewrite <- !app_mprod. set (g := fun i => rmv n A x i + (app m B u i + c i)).
    assert (G : app n (M h) (app n A x) i + app n (M h) (app m B u) i + app n (M h) c i = app n (M h) g i).
    { rewrite <- !app_add. apply app_ext; auto. intros; unfold g; change (rmv n A x i0) with (app n A x i0); lra. }
    assert (G2 : app n (M h) g i = h * g i + h ^ 2 / 2 * rmv n A g i + h ^ 3 / 6 * rmv n A (rmv n A g) i + h ^ 4 / 24 * rmv n A (rmv n A (rmv n A g)) i).
    { unfold M. rewrite (app_plus n (fun i j => h * Id i j + h ^ 2 / 2 * A i j + h ^ 3 / 6 * A2 i j) (fun i j => h ^ 4 / 24 * A3 i j)), (app_plus n (fun i j => h * Id i j + h ^ 2 / 2 * A i j) (fun i j => h ^ 3 / 6 * A2 i j)), (app_plus n (fun i j => h * Id i j) (fun i j => h ^ 2 / 2 * A i j)), !app_mscal.
      unfold Id. rewrite app_id by auto. unfold A3, A2. rewrite <- !app_mprod. reflexivity. }
    fold g. change (rmv n A x i + (app m B u i + c i)) with (g i). lra. }
  split; [intros b i Hi; apply EV; auto|].
  assert (JT : is_jacobian n m (fun x u => dy_eval (disc_rk4 n m cd s) x u t h (fun _ => 0)) (fun x u => dy_jac (disc_rk4 n m cd s) x u t h mzero)).
  { apply (rk4_jac_true n m cd _ _ W HE HJ (fun _ _ _ _ _ _ => eq_refl) s t h (fun _ _ => mzero)). intros x0 u0 i j _ _ _. reflexivity. }
  split; intros i j Hi Hj; destruct (affine_jacobian n m _ _ _ _ _ (fun x u i Hi => EV x u (fun _ => 0) i Hi) JT x u i Hi) as [P Q]; [apply P|apply Q]; auto.
Qed.

Theorem euler_linear n m cd A B c W : linear_system n m cd A B c W -> affine n m (disc_euler n m cd).
Proof.
  intros H. pose proof (linear_jac_true n m cd A B c W H) as HJ. destruct H as [HE HJ' HM].
  set (Id := fun i j : nat => if Nat.eqb i j then 1 else 0).
  exists (fun _ h i j => Id i j + h * A i j), (fun _ h i j => h * B i j), (fun _ h i => h * c i). intros x u t h.
  assert (EV : forall x u b i, (i < n)%nat -> dy_eval (disc_euler n m cd) x u t h b i = app n (fun i j => Id i j + h * A i j) x i + app m (fun i j => h * B i j) u i + h * c i).
  { clear x u. intros x u b i Hi. cbn [disc_euler dy_eval]. rewrite (euler_scheme n cd _ HE) by auto.
    rewrite (app_plus n Id (fun i j => h * A i j)), !app_mscal. unfold Id. rewrite app_id by auto. lra. }
  split; [intros b i Hi; apply EV; auto|].
  assert (JT : is_jacobian n m (fun x u => dy_eval (disc_euler n m cd) x u t h (fun _ => 0)) (fun x u => dy_jac (disc_euler n m cd) x u t h mzero)).
  { apply (euler_jac_true n m cd _ _ W HE HJ t h (fun _ _ => mzero)). intros x0 u0 i j _ _ _. reflexivity. }
  split; intros i j Hi Hj; destruct (affine_jacobian n m _ _ _ _ _ (fun x u i Hi => EV x u (fun _ => 0) i Hi) JT x u i Hi) as [P Q]; [apply P|apply Q]; auto.
Qed.
(** the triple integrator *)
Definition tri_A (dof i j : nat) : R := if Nat.eqb j (i + dof) then 1 else 0.
Definition tri_B (dof i j : nat) : R := if Nat.eqb (3 * dof + j) (i + dof) then 1 else 0.
Lemma triple_linear dof : linear_system (3 * dof) dof (triple dof) (tri_A dof) (tri_B dof) (fun _ => 0) (fun _ _ => true).
Proof.
  assert (EV : forall x u t i, (i < 3 * dof)%nat -> tri_field dof x u t i = app (3 * dof) (tri_A dof) x i + app dof (tri_B dof) u i + 0).
  { intros x u t i Hi. rewrite !app_r. unfold tri_field. destruct (Nat.ltb_spec i (2 * dof)).
    - rewrite (rsum_single (3 * dof) (i + dof)) by (try lia; intros j Hj N; unfold tri_A; rewrite (proj2 (Nat.eqb_neq j (i + dof))) by lia; lra).
      rewrite rsum_zero' by (intros j Hj; unfold tri_B; rewrite (proj2 (Nat.eqb_neq (3 * dof + j) (i + dof))) by lia; lra). unfold tri_A. rewrite Nat.eqb_refl. lra.
    - rewrite (rsum_zero' (3 * dof)) by (intros j Hj; unfold tri_A; rewrite (proj2 (Nat.eqb_neq j (i + dof))) by lia; lra).
      rewrite (rsum_single dof (i - 2 * dof)) by (try lia; intros j Hj N; unfold tri_B; rewrite (proj2 (Nat.eqb_neq (3 * dof + j) (i + dof))) by lia; lra).
      unfold tri_B. rewrite (proj2 (Nat.eqb_eq (3 * dof + (i - 2 * dof)) (i + dof))) by lia. lra. }
  destruct (triple_computes dof) as [CE CL]. split.
  - split.
    + intros x u t buf i Hi. rewrite CE by auto. apply EV; auto.
    + intros x y u t H i Hi. f_equal. f_equal. apply app_ext; auto.
  - intros x u t buf i j Hi Hj. destruct (triple_jac_true dof) as [J _ _ _]. rewrite (J x u t buf i j Hi Hj). unfold tri_J, tri_A, tri_B. destruct (Nat.ltb_spec j (3 * dof)); [reflexivity|].
    replace (3 * dof + (j - 3 * dof))%nat with j by lia. reflexivity.
  - intros i j H. discriminate.
Qed.

(** * QuadraticCost *)
(** the quadratic a cost object represents, read off at the origin *)
Definition uquad (c : UCost RS) : Quad :=
  let h := uc_hess c vzero vzero (mzero, mzero, mzero) in let g := uc_grad c vzero vzero (vzero, vzero) in
  mkQuad (fst (fst h)) (snd (fst h)) (snd h) (fst g) (snd g) (uc_eval c vzero vzero).
(** a QuadraticCost with the dimensions of the problem and symmetric weights *)
Definition is_qc (n m : nat) (c : UCost RS) : Prop := exists s : QC RS, qc_n s = n /\ qc_m s = m /\ c = qc_ucost s.
Lemma uquad_lin n m s : qc_n s = n -> qc_m s = m -> (forall i, (i < n)%nat -> qd_q (uquad (qc_ucost s)) i = qc_q s i) /\ (forall i, (i < m)%nat -> qd_r (uquad (qc_ucost s)) i = qc_r s i) /\ qd_c (uquad (qc_ucost s)) = qc_c s.
Proof.
  intros <- <-. unfold uquad. cbn [qc_ucost uc_grad ExampleModel.qc_grad qd_q qd_r qd_c fst snd uc_eval].
  assert (Z : forall p (M : mat RS) i, mv p M vzero i = 0). { intros p M i. unfold mv. rewrite rdot_eq. apply rsum_zero'. intros j Hj. unfold vzero. rs. lra. }
  split; [|split].
  - intros i Hi. rewrite vstore_lt by auto. rewrite !Z. rs. lra.
  - intros i Hi. rewrite vstore_lt by auto. rewrite !Z. rs. lra.
  - unfold ExampleModel.qc_eval. rewrite !rdot_eq. rewrite !rsum_zero' by (intros j Hj; rewrite ?Z; unfold vzero; rs; lra). rs. lra.
Qed.
Theorem qc_quad_costs n m : quad_costs n m (@ucost_ops RS) (is_qc n m) uquad.
Proof.
  assert (MV : forall p (M : mat RS) x i, mv p M x i = app p M x i) by (intros; unfold mv; rewrite rdot_eq, app_r; reflexivity).
  split; intros c x u; intros; match goal with H : is_qc _ _ _ |- _ => pose proof H as Hc; destruct H as (s & Hn & Hm & ->) end; try (cbn [ucost_ops co_eval co_grad co_hess snd]; split; [exact Hc|reflexivity]).
  - destruct (uquad_lin n m s Hn Hm) as (Lq & Lr & Lc). unfold quad_val. rewrite (inner_ext n _ x (qc_q s) x), (inner_ext m _ u (qc_r s) u), Lc by auto.
    cbn [ucost_ops co_eval fst qc_ucost uc_eval uquad qd_Q qd_H qd_R uc_hess ExampleModel.qc_hess snd]. unfold ExampleModel.qc_eval. rewrite !rdot_eq, Hn, Hm. rewrite !inner_r, !form_rsum. unfold half. rs.
    rewrite (rsum_ext n (fun i => x i * mv n (qc_Q s) x i) (fun i => x i * rsum n (fun j => qc_Q s i j * x j))) by (intros; rewrite MV, app_r; reflexivity).
    rewrite (rsum_ext n (fun i => x i * mv m (qc_H s) u i) (fun i => x i * rsum m (fun j => qc_H s i j * u j))) by (intros; rewrite MV, app_r; reflexivity).
    rewrite (rsum_ext m (fun i => u i * mv m (qc_R s) u i) (fun i => u i * rsum m (fun j => qc_R s i j * u j))) by (intros; rewrite MV, app_r; reflexivity). lra.
  - destruct (uquad_lin n m s Hn Hm) as (Lq & _). rewrite Lq by auto. cbn [ucost_ops co_grad fst snd qc_ucost uc_grad ExampleModel.qc_grad]. rewrite vstore_lt by lia. rewrite !MV, Hn, Hm. unfold uquad; cbn [qc_ucost uc_hess ExampleModel.qc_hess qd_Q qd_H fst snd]. rs. lra.
  - destruct (uquad_lin n m s Hn Hm) as (_ & Lr & _). rewrite Lr by auto. cbn [ucost_ops co_grad fst snd qc_ucost uc_grad ExampleModel.qc_grad]. rewrite vstore_lt by lia. rewrite !MV, Hn, Hm. unfold uquad; cbn [qc_ucost uc_hess ExampleModel.qc_hess qd_R qd_H fst snd]. unfold mtr. rs. lra.
  - reflexivity.
  - reflexivity.
  - reflexivity.
Qed.
(** the costs of LQRCost: running costs and final costs with R = 0 *)
Lemma lqr_convex debug ok n m Q R xref uref term (s : QC RS) : qc_lqr debug ok n m Q R xref uref term = Ok s -> sym n Q -> possemi n Q -> sym m R -> posdef m R ->
  is_qc n m (qc_ucost s) /\ convex_quad n m (uquad (qc_ucost s)).
Proof.
  intros E SQ PQ SR PR. unfold qc_lqr, qc_make, qc_validate in E.
  do 4 (match type of E with context [altro_assert ?d ?b] => destruct (altro_assert d b) as [[]| | | | |]; cbn [bind] in E; try discriminate end).
  inversion E; subst s; clear E. split; [eexists; split; [|split; [|reflexivity]]; reflexivity|].
  split; [|split; [|split]]; unfold uquad; cbn [qc_ucost uc_hess ExampleModel.qc_hess qd_Q qd_R qd_H qc_Q qc_R qc_H fst snd].
  - intros i j Hi Hj. rewrite !mstore_lt by auto. apply SQ; auto.
  - intros i j Hi Hj. rewrite !mstore_lt by auto. apply SR; auto.
  - intros x X. rewrite (form_ext m m _ x x R x x) by (auto; intros; rewrite mstore_lt by auto; reflexivity). apply PR; auto.
  - intros x u. rewrite (form_ext n n _ x x Q x x) by (auto; intros; rewrite mstore_lt by auto; reflexivity). rewrite (form_ext m m _ u u R u u) by (auto; intros; rewrite mstore_lt by auto; reflexivity).
    rewrite (form_ext n m _ x u (fun _ _ => 0) x u) by (auto; intros; rewrite !mstore_lt by auto; reflexivity).
    assert (Z : form n m (fun _ _ => 0) x u = 0) by (rewrite form_rsum; apply rsum_zero'; intros; rewrite rsum_zero' by (intros; lra); lra). rewrite Z.
    pose proof (PQ x). pose proof (posdef_nonneg m R u PR). lra.
Qed.
Lemma mstore_out r c (A : mat RS) i j : (r <= i)%nat \/ (c <= j)%nat -> mstore r c A i j = 0.
Proof.
  intros H. unfold mstore. destruct (Nat.lt_ge_cases i r).
  - destruct H as [H|H]; [lia|]. rewrite (nth_map_seq (fun i => map (A i) (seq 0 c))) by auto. apply nth_overflow. rewrite map_length, seq_length. lia.
  - rewrite (nth_overflow _ (n:=i)) by (rewrite map_length, seq_length; lia). destruct j; reflexivity.
Qed.
Lemma lqr_terminal debug ok n m Q xref uref term (s : QC RS) : qc_lqr debug ok n m Q (fun _ _ => 0) xref uref term = Ok s -> sym n Q -> possemi n Q ->
  is_qc n m (qc_ucost s) /\ terminal_quad n m (uquad (qc_ucost s)).
Proof.
  intros E SQ PQ. unfold qc_lqr, qc_make, qc_validate in E.
  do 4 (match type of E with context [altro_assert ?d ?b] => destruct (altro_assert d b) as [[]| | | | |]; cbn [bind] in E; try discriminate end).
  inversion E; subst s; clear E. split; [eexists; split; [|split; [|reflexivity]]; reflexivity|].
  set (s := mkQC _ _ _ _ _ _ _ _ _). destruct (uquad_lin n m s eq_refl eq_refl) as (_ & Lr & _).
  split; [|split].
  - unfold uquad; cbn [qc_ucost uc_hess ExampleModel.qc_hess qd_Q fst]. intros i j Hi Hj. cbn [s qc_Q]. rewrite !mstore_lt by auto. apply SQ; auto.
  - intros x. unfold uquad; cbn [qc_ucost uc_hess ExampleModel.qc_hess qd_Q fst]. rewrite (form_ext n n _ x x Q x x) by (auto; intros; cbn [s qc_Q]; rewrite mstore_lt by auto; reflexivity). apply PQ.
  - intros i j Hj. rewrite (Lr j Hj). unfold uquad; cbn [qc_ucost uc_hess ExampleModel.qc_hess qd_H qd_R fst snd s qc_H qc_R qc_r]. split; [|split].
    + destruct (Nat.lt_ge_cases i n); [rewrite !mstore_lt by auto; reflexivity|apply mstore_out; auto].
    + destruct (Nat.lt_ge_cases i m); [rewrite !mstore_lt by auto; reflexivity|apply mstore_out; auto].
    + rewrite !vstore_lt by auto. unfold vopp, mv. rewrite rdot_eq, rsum_zero' by (intros; lra). rs. lra.
Qed.
