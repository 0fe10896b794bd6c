(** Corollaries used by the property file. *)
From Coq Require Import Reals Lra Lia List Bool ZArith.
From Coquelicot Require Import Coquelicot.
From Verif Require Import Base Lin RLin RDer ConModel ConSpec ConProofs ConProofs2 ConProofs3 ConProofs4.
Import List ListNotations.
Local Open Scope R_scope.

Lemma dist2_self p x : dist2 p x x = 0.
Proof. unfold dist2. rewrite fsum_rsum. apply rsum_zero'. intros; ring. Qed.
Lemma dist2_nonneg p x y : 0 <= dist2 p x y.
Proof. unfold dist2. rewrite fsum_rsum. apply rsum_nonneg. intros; apply pow2_ge_0. Qed.
Lemma proj_member K p (x : vec RS) : in_cone K p x -> forall i, (i < p)%nat -> cone_proj K p x i = x i.
Proof.
  intros H i Hi. destruct (cone_proj_is_projection K p x) as (A & B & C).
  symmetry. apply (C x); auto. rewrite dist2_self. apply dist2_nonneg.
Qed.

Lemma phr_feasible_eq rho lam c : c = 0 -> phr ZeroCone rho lam c = 0.
Proof. intros ->. unfold phr. ring. Qed.
Lemma phr_feasible_ineq rho lam c : 0 < rho -> c <= 0 -> lam <= 0 -> phr NegativeOrthant rho lam c <= 0.
Proof.
  intros Hr Hc Hl. unfold phr. destruct (Rle_dec _ _) as [H|H].
  - assert (H1 : lam <= rho * c) by lra. nra.
  - assert (0 <= lam ^ 2 / (2 * rho)); [|unfold Rdiv in *; lra].
    apply Rmult_le_pos; [apply pow2_ge_0|]. left. apply Rinv_0_lt_compat. lra.
Qed.

Lemma al_hess_loop_entries n m h l x u :
  let e := fun (H : mat RS * mat RS * mat RS) => H in
  let r := fst (al_hess_loop n m h l x u) in
  (forall i j, (i < n)%nat -> (j < n)%nat ->
     fst (fst r) i j = fst (fst h) i j + lfsum (fun v => fst (fst (fst (cv_hessian_core v x u))) i j) l) /\
  (forall i j, (i < n)%nat -> (j < m)%nat ->
     snd (fst r) i j = snd (fst h) i j + lfsum (fun v => snd (fst (fst (cv_hessian_core v x u))) i j) l) /\
  (forall i j, (i < m)%nat -> (j < m)%nat ->
     snd r i j = snd h i j + lfsum (fun v => snd (fst (cv_hessian_core v x u)) i j) l).
Proof.
  intros _. revert h; induction l as [|v l IH]; intros [[h1 h2] h3].
  - cbn. repeat split; intros; lra.
  - cbn [al_hess_loop]. destruct (cv_hessian_core v x u) as [[[k1 k2] k3] v'] eqn:E.
    match goal with |- context [al_hess_loop n m ?g' l x u] => specialize (IH g') end.
    destruct (al_hess_loop _ _ _ l x u) as [g2 r']. cbn [fst snd] in *.
    destruct IH as (I1 & I2 & I3).
    repeat split; intros i j Hi Hj; [rewrite I1 by auto|rewrite I2 by auto|rewrite I3 by auto];
      rewrite mstore_lt by auto; unfold madd, lfsum; rs; cbn [fold_right]; rewrite E; cbn [fst snd]; lra.
Qed.
Lemma al_hessian_entries (a : ALCost RS) x u old :
  let h := uc_hess (al_cost a) x u old in
  let r := fst (al_hessian a x u old) in
  let n := al_n a in let m := al_m a in
  (forall i j, (i < n)%nat -> (j < n)%nat ->
     fst (fst r) i j = fst (fst h) i j + lfsum (fun v => fst (fst (fst (cv_hessian_core v x u))) i j) (al_cvs a)) /\
  (forall i j, (i < n)%nat -> (j < m)%nat ->
     snd (fst r) i j = snd (fst h) i j + lfsum (fun v => snd (fst (fst (cv_hessian_core v x u))) i j) (al_cvs a)) /\
  (forall i j, (i < m)%nat -> (j < m)%nat ->
     snd r i j = snd h i j + lfsum (fun v => snd (fst (cv_hessian_core v x u)) i j) (al_cvs a)).
Proof. intros h r n m. unfold r. rewrite al_hessian_fst. apply al_hess_loop_entries. Qed.
Lemma al_gradient_entries (a : ALCost RS) x u old :
  let g := uc_grad (al_cost a) x u old in
  let r := fst (al_gradient a x u old) in
  (forall j, (j < al_n a)%nat -> fst r j = fst g j + lfsum (fun v => fst (fst (cv_gradient v x u)) j) (al_cvs a)) /\
  (forall j, (j < al_m a)%nat -> snd r j = snd g j + lfsum (fun v => snd (fst (cv_gradient v x u)) j) (al_cvs a)).
Proof. intros g r. unfold r. rewrite al_gradient_fst. apply al_grad_loop_comp. Qed.

(** feasibility of one component: the value lies in the constraint's cone *)
Definition comp_within (K : cone) (tol c : R) : Prop :=
  match K with ZeroCone => - tol < c < tol | NegativeOrthant => c < tol | IdentityCone => True end.
Definition comp_feasible (K : cone) (c : R) : Prop :=
  match K with ZeroCone => c = 0 | NegativeOrthant => c <= 0 | IdentityCone => True end.
Lemma viol_zero K c : viol K c = 0 <-> comp_feasible K c.
Proof.
  destruct K; simpl; [|split; auto|].
  - split; intros H; [|subst; apply Rabs_R0]. destruct (Req_dec c 0); auto. exfalso. now apply (Rabs_no_R0 c).
  - unfold Rmax. destruct (Rle_dec 0 c); split; intros; lra.
Qed.
Lemma viol_lt K tol c : 0 < tol -> (viol K c < tol <-> comp_within K tol c).
Proof.
  intros Ht. destruct K; simpl.
  - split; intros H. + apply Rabs_def2 in H. lra. + apply Rabs_def1; lra.
  - tauto.
  - unfold Rmax. destruct (Rle_dec 0 c); lra.
Qed.
Lemma max_violation_cor (l : list (ALCost RS)) :
  (als_max_violation l = 0 <->
     forall a v i, In a l -> In v (al_cvs a) -> (i < cv_p v)%nat -> comp_feasible (cv_type v) (cv_c v i)) /\
  (forall tol, 0 < tol -> (als_max_violation l < tol <->
     forall a v i, In a l -> In v (al_cvs a) -> (i < cv_p v)%nat -> comp_within (cv_type v) tol (cv_c v i))).
Proof.
  destruct (als_max_violation_spec l) as (A & B & C).
  assert (B' : forall a v i, In a l -> In v (al_cvs a) -> (i < cv_p v)%nat -> viol (cv_type v) (cv_c v i) <= als_max_violation l).
  { intros a v i Ha Hv Hi. apply B. exists a. split; auto. exists v. eauto. }
  split; [|intros tol Ht]; split; intros H.
  - intros a v i Ha Hv Hi. apply viol_zero. pose proof (B' a v i Ha Hv Hi) as P. pose proof (viol_nonneg (cv_type v) (cv_c v i)) as Q.
    lra.
  - destruct C as [C|(K & c & (a & Ha & v & Hv & -> & i & Hi & ->) & C)]; [exact C|].
    assert (Hz : viol (cv_type v) (cv_c v i) = 0) by (apply viol_zero; eauto). lra.
  - intros a v i Ha Hv Hi. apply viol_lt; auto. pose proof (B' a v i Ha Hv Hi). lra.
  - destruct C as [C|(K & c & (a & Ha & v & Hv & -> & i & Hi & ->) & C)]; [lra|].
    assert (Hz : viol (cv_type v) (cv_c v i) < tol) by (apply viol_lt; eauto). lra.
Qed.

Lemma penalties_monotone debug (a0 a : ALCost RS) os :
  al_reach debug a0 os a -> (forall o, In o os -> is_pen_set o = false) ->
  Forall2 (fun v w => cv_p w = cv_p v /\ (1 <= cv_scal v -> forall i, (i < cv_p v)%nat -> 0 <= cv_pen v i -> cv_pen v i <= cv_pen w i))
    (al_cvs a0) (al_cvs a).
Proof.
  intros Hr Ho. eapply Forall2_impl; [|apply (penalties_geometric debug a0 a os Hr Ho)].
  intros v w (H1 & H2 & H3). split; auto. intros Hs i Hi Hp. rewrite H3 by auto.
  rewrite <- (Rmult_1_r (cv_pen v i)) at 1. apply Rmult_le_compat_l; auto. apply pow_R1_Rle; auto.
Qed.
