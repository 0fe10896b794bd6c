(** Proofs about cones, constraint values and the augmented Lagrangian cost. *)
From Coq Require Import Reals Lra Lia List Bool ZArith Psatz Relations FunctionalExtensionality.
From Coquelicot Require Import Coquelicot.
From Verif Require Import Base Lin RLin ConModel ConSpec.
Import List ListNotations.
Local Open Scope R_scope.

(** * fsum *)
Lemma fold_right_acc (f : nat -> R) l a :
  fold_right (fun i s => f i + s) a l = fold_right (fun i s => f i + s) 0 l + a.
Proof. induction l; simpl; [lra|]. rewrite IHl. lra. Qed.
Lemma fsum_S n f : fsum (S n) f = fsum n f + f n.
Proof. unfold fsum. rewrite seq_S, fold_right_app, fold_right_acc. simpl. lra. Qed.
Lemma fsum_rsum n f : fsum n f = rsum n f.
Proof. induction n; [reflexivity|]. now rewrite fsum_S, IHn. Qed.

(** * Projections *)
Lemma proj_neg p (x : vec RS) i : (i < p)%nat -> cone_proj (F:=RS) NegativeOrthant p x i = Rmin 0 (x i).
Proof. intros H. simpl. rewrite vstore_lt by auto. apply smin_RS. Qed.
Lemma proj_id {F : Scalar} p (x : vec F) i : (i < p)%nat -> cone_proj IdentityCone p x i = x i.
Proof. intros H. simpl. now rewrite vstore_lt. Qed.
Lemma proj_zero {F : Scalar} p (x : vec F) i : (i < p)%nat -> cone_proj ZeroCone p x i = zero.
Proof. intros H. simpl. now rewrite vstore_lt. Qed.

Lemma cone_proj_in K p (x : vec RS) : in_cone K p (cone_proj (F:=RS) K p x).
Proof.
  destruct K; [|exact I|]; intros i Hi.
  - rewrite (proj_zero (F:=RS)); auto.
  - rewrite proj_neg by auto. apply Rmin_l.
Qed.

(** each component of the projection is the nearest point, and strictly so *)
Lemma cone_proj_comp K p (x z : vec RS) i :
  (i < p)%nat -> in_cone K p z ->
  (x i - cone_proj (F:=RS) K p x i)^2 + (z i - cone_proj (F:=RS) K p x i)^2 <= (x i - z i)^2.
Proof.
  intros Hi Hz. destruct K.
  - rewrite (proj_zero (F:=RS)) by auto. rewrite (Hz i Hi). rs. nra.
  - rewrite (proj_id (F:=RS)) by auto. rs. nra.
  - rewrite proj_neg by auto. specialize (Hz i Hi). unfold Rmin.
    destruct (Rle_dec 0 (x i)); rs; nra.
Qed.

Lemma cone_proj_is_projection K p (x : vec RS) : is_projection K p x (cone_proj (F:=RS) K p x).
Proof.
  set (y := cone_proj K p x).
  assert (key : forall z, in_cone K p z -> dist2 p x y + dist2 p z y <= dist2 p x z).
  { intros z Hz. unfold dist2. rewrite !fsum_rsum, <- rsum_plus. apply rsum_le.
    intros i Hi. apply cone_proj_comp; auto. }
  assert (nn : forall z, 0 <= dist2 p z y).
  { intros z. unfold dist2. rewrite fsum_rsum. apply rsum_nonneg. intros. apply pow2_ge_0. }
  split; [apply cone_proj_in|]. split.
  - intros z Hz. specialize (key z Hz). specialize (nn z). lra.
  - intros z Hz Hle i Hi. specialize (key z Hz). specialize (nn z).
    assert (H0 : dist2 p z y = 0) by lra. unfold dist2 in H0. rewrite fsum_rsum in H0.
    apply (rsum_all_zero p (fun i => (z i - y i)^2)) with (i := i) in H0; auto.
    + cbv beta in H0. nra.
    + intros. apply pow2_ge_0.
Qed.

Lemma dual_cone_correct K p y : in_cone (dual_cone K) p y <-> in_dual K p y.
Proof.
  unfold in_dual. destruct K; simpl; split; intros H.
  - intros x Hx. rewrite fsum_rsum, rsum_zero'; [lra|]. intros i Hi. rewrite Hx by auto. lra.
  - exact I.
  - intros x _. rewrite fsum_rsum, rsum_zero'; [lra|]. intros i Hi. rewrite H by auto. lra.
  - intros i Hi.
    assert (Hs : forall c, 0 <= fsum p (fun j => (if Nat.eqb j i then c else 0) * y j)) by (intros; now apply H).
    assert (E : forall c, fsum p (fun j => (if Nat.eqb j i then c else 0) * y j) = c * y i).
    { intros c. rewrite fsum_rsum, (rsum_single p i); auto.
      - rewrite Nat.eqb_refl. reflexivity.
      - intros j _ Hj. apply Nat.eqb_neq in Hj. rewrite Hj. lra. }
    pose proof (Hs 1) as H1. pose proof (Hs (-1)) as H2. rewrite E in H1, H2. lra.
  - intros x Hx. rewrite fsum_rsum. apply rsum_nonneg. intros i Hi.
    specialize (H i Hi); specialize (Hx i Hi); nra.
  - intros i Hi.
    assert (E : fsum p (fun j => (if Nat.eqb j i then -1 else 0) * y j) = - y i).
    { rewrite fsum_rsum, (rsum_single p i); auto.
      - rewrite Nat.eqb_refl. lra.
      - intros j _ Hj. apply Nat.eqb_neq in Hj. rewrite Hj. lra. }
    assert (0 <= - y i); [|lra]. rewrite <- E. apply H. intros j Hj. destruct (Nat.eqb j i); lra.
Qed.

(** locally constant / identity near a nonzero point *)
Lemma is_derive_min0 (f : R -> R) (d : R) :
  is_derive f 0 d -> f 0 <> 0 -> is_derive (fun s => Rmin 0 (f s)) 0 (if Rlt_dec 0 (f 0) then 0 else d).
Proof.
  intros Hd Hne.
  assert (Hc : continuous f 0).
  { apply (@ex_derive_continuous R_AbsRing R_NormedModule f 0). now exists d. }
  destruct (Rlt_dec 0 (f 0)) as [Hp|Hn].
  - apply (is_derive_ext_loc (fun _ => 0)).
    + assert (Hloc : locally 0 (fun s => 0 < f s)).
      { apply (Hc (fun y => 0 < y)). apply open_gt. exact Hp. }
      revert Hloc; apply filter_imp. intros s Hs. rewrite Rmin_left; lra.
    + apply (@is_derive_const R_AbsRing R_NormedModule).
  - apply (is_derive_ext_loc f); auto.
    assert (Hloc : locally 0 (fun s => f s < 0)).
    { apply (Hc (fun y => y < 0)). apply open_lt. lra. }
    revert Hloc; apply filter_imp. intros s Hs. rewrite Rmin_right; lra.
Qed.

(** Jacobian-vector product of a stored p x p matrix *)
Lemma cone_jac_mv K p (x : vec RS) old v i :
  (i < p)%nat -> (forall i j, i <> j -> old i j = 0) ->
  fsum p (fun j => cone_jac (F:=RS) K p x old i j * v j)
  = match K with
    | ZeroCone => 0
    | IdentityCone => v i
    | NegativeOrthant => if Rlt_dec 0 (x i) then 0 else v i
    end.
Proof.
  intros Hi Hold. rewrite fsum_rsum.
  rewrite (rsum_single p i); auto.
  - destruct K; simpl; rewrite mstore_lt by auto; unfold mzero, mident; rewrite ?Nat.eqb_refl; rs; try lra.
    unfold Rltb. destruct (Rlt_dec 0 (x i)); lra.
  - intros j Hj Hne. destruct K; simpl; rewrite mstore_lt by auto; unfold mzero, mident; rs; try lra.
    + destruct (Nat.eqb_spec i j); [congruence|]. lra.
    + destruct (Nat.eqb_spec i j); [congruence|]. rewrite Hold by auto. lra.
Qed.

Lemma cone_jac_is_derivative K p (X : R -> nat -> R) v old i :
  curve X v -> (i < p)%nat -> (forall i j, i <> j -> old i j = 0) ->
  (K = NegativeOrthant -> X 0 i <> 0) ->
  is_derive (fun s => cone_proj (F:=RS) K p (X s) i) 0
            (fsum p (fun j => cone_jac (F:=RS) K p (X 0) old i j * v j)).
Proof.
  intros HX Hi Hold Hne. rewrite cone_jac_mv by auto. destruct K.
  - apply (is_derive_ext (fun _ => 0)); [|apply (@is_derive_const R_AbsRing R_NormedModule)].
    intros s. symmetry. now apply (proj_zero (F:=RS)).
  - apply (is_derive_ext (fun s => X s i)); [|apply HX].
    intros s. symmetry. now apply (proj_id (F:=RS)).
  - apply (is_derive_ext (fun s => Rmin 0 (X s i))).
    + intros s. symmetry. now apply proj_neg.
    + apply is_derive_min0; [apply HX|]. now apply Hne.
Qed.

(** square of the negative part is differentiable everywhere *)
Lemma Rmin0_sq_bound a b : Rabs ((Rmin 0 b)^2 - (Rmin 0 a)^2 - 2 * Rmin 0 a * (b - a)) <= (b - a)^2.
Proof.
  pose proof (pow2_ge_0 (b - a)). pose proof (pow2_ge_0 b). pose proof (pow2_ge_0 a).
  unfold Rmin. apply Rabs_le. destruct (Rle_dec 0 a) as [Ha|Ha], (Rle_dec 0 b) as [Hb|Hb].
  - split; nra.
  - assert (0 <= a * - b) by (apply Rmult_le_pos; lra). split; nra.
  - assert (0 <= - a * b) by (apply Rmult_le_pos; lra). split; nra.
  - split; nra.
Qed.

Lemma is_derive_sqmin0 : forall a, is_derive (fun y => (Rmin 0 y)^2) a (2 * Rmin 0 a).
Proof.
  intros a. apply is_derive_Reals. intros eps Heps.
  exists (mkposreal eps Heps). intros h Hh0 Hh. simpl in Hh.
  replace ((Rmin 0 (a + h) ^ 2 - Rmin 0 a ^ 2) / h - 2 * Rmin 0 a)
    with ((Rmin 0 (a + h) ^ 2 - Rmin 0 a ^ 2 - 2 * Rmin 0 a * (a + h - a)) / h) by (field; auto).
  unfold Rdiv. rewrite Rabs_mult, Rabs_inv.
  pose proof (Rmin0_sq_bound a (a + h)) as B. replace (a + h - a) with h in * by lra.
  apply Rle_lt_trans with (h^2 * / Rabs h).
  - apply Rmult_le_compat_r; auto. left. apply Rinv_0_lt_compat. now apply Rabs_pos_lt.
  - replace (h^2) with (Rabs h * Rabs h); [|rewrite <- Rabs_mult, Rabs_pos_eq; nra].
    rewrite Rmult_assoc, Rinv_r, Rmult_1_r; auto. now apply Rabs_no_R0.
Qed.

(** * Elementary steps of one ConstraintValues *)
Section Steps.
Context {F : Scalar}.
Inductive cv_step1 : CV F -> CV F -> Prop :=
| st_eval v x u : cv_step1 v (cv_eval_c v x u)
| st_grad v x u : cv_step1 v (cv_grad_core v x u)
| st_duals v : cv_step1 v (cv_update_duals v)
| st_pens v : cv_step1 v (cv_update_penalties v)
| st_reset v : cv_step1 v (cv_reset_duals v)
| st_setpen v rho : cv_step1 v (set_pen v (vstore (cv_p v) (fun _ => rho)))
| st_setscal v phi : cv_step1 v (set_scal v phi).
Definition cv_steps := clos_refl_trans (CV F) cv_step1.

Lemma al_eval_loop_snd J l x u : snd (al_eval_loop (F:=F) J l x u) = map (fun v => cv_eval_c v x u) l.
Proof.
  revert J; induction l; intros J; simpl; auto.
  match goal with |- context [al_eval_loop ?g' l x u] => specialize (IHl g'); destruct (al_eval_loop g' l x u) end.
  simpl in *. now rewrite IHl.
Qed.
Lemma al_grad_loop_snd n m g l x u : snd (al_grad_loop (F:=F) n m g l x u) = map (fun v => cv_grad_core v x u) l.
Proof.
  revert g; induction l; intros g; simpl; auto.
  match goal with |- context [al_grad_loop n m ?g' l x u] => specialize (IHl g'); destruct (al_grad_loop n m g' l x u) end.
  simpl in *. now rewrite IHl.
Qed.
Lemma al_hess_loop_snd n m g l x u : snd (al_hess_loop (F:=F) n m g l x u) = map (fun v => cv_grad_core v x u) l.
Proof.
  revert g; induction l; intros g; simpl; auto. destruct g as [[g1 g2] g3].
  match goal with |- context [al_hess_loop n m ?g' l x u] => specialize (IHl g'); destruct (al_hess_loop n m g' l x u) end.
  simpl in *. now rewrite IHl.
Qed.
Lemma al_eval_snd a x u : snd (al_eval (F:=F) a x u) = al_map (fun v => cv_eval_c v x u) a.
Proof.
  unfold al_eval, al_map. pose proof (al_eval_loop_snd (uc_eval (al_cost a) x u) (al_eq a) x u) as H1.
  destruct (al_eval_loop _ (al_eq a) x u) as [J1 e]. simpl in H1.
  pose proof (al_eval_loop_snd J1 (al_ineq a) x u) as H2. destruct (al_eval_loop J1 _ x u). simpl in *. now subst.
Qed.
Lemma al_gradient_snd a x u old : snd (al_gradient (F:=F) a x u old) = al_map (fun v => cv_grad_core v x u) a.
Proof.
  unfold al_gradient, al_map.
  pose proof (al_grad_loop_snd (al_n a) (al_m a) (uc_grad (al_cost a) x u old) (al_eq a) x u) as H1.
  destruct (al_grad_loop _ _ _ (al_eq a) x u) as [J1 e]. simpl in H1.
  pose proof (al_grad_loop_snd (al_n a) (al_m a) J1 (al_ineq a) x u) as H2.
  destruct (al_grad_loop _ _ J1 _ x u). simpl in *. now subst.
Qed.
Lemma al_hessian_snd a x u old : snd (al_hessian (F:=F) a x u old) = al_map (fun v => cv_grad_core v x u) a.
Proof.
  unfold al_hessian, al_map.
  pose proof (al_hess_loop_snd (al_n a) (al_m a) (uc_hess (al_cost a) x u old) (al_eq a) x u) as H1.
  destruct (al_hess_loop _ _ _ (al_eq a) x u) as [J1 e]. simpl in H1.
  pose proof (al_hess_loop_snd (al_n a) (al_m a) J1 (al_ineq a) x u) as H2.
  destruct (al_hess_loop _ _ J1 _ x u). simpl in *. now subst.
Qed.

(** relation between two ALCosts: same user cost, constraint values related pointwise *)
Definition al_rel (Rv : CV F -> CV F -> Prop) (a b : ALCost F) : Prop :=
  al_n b = al_n a /\ al_m b = al_m a /\ al_cost b = al_cost a /\
  Forall2 Rv (al_eq a) (al_eq b) /\ Forall2 Rv (al_ineq a) (al_ineq b).

Lemma Forall2_map_r (Rv : CV F -> CV F -> Prop) f l : (forall v, Rv v (f v)) -> Forall2 Rv l (map f l).
Proof. intros H. induction l; simpl; auto. Qed.
Lemma Forall2_refl (Rv : CV F -> CV F -> Prop) l : (forall v, Rv v v) -> Forall2 Rv l l.
Proof. intros H. induction l; auto. Qed.
Lemma al_rel_map f a : (forall v, cv_step1 v (f v)) -> al_rel cv_steps a (al_map f a).
Proof.
  intros H. repeat split; simpl; auto; apply Forall2_map_r; intros v; apply rt_step; auto.
Qed.

Lemma Forall2_upd (Rv : CV F -> CV F -> Prop) l i v v' :
  (forall w, Rv w w) -> nth_error l i = Some v -> Rv v v' -> Forall2 Rv l (upd i (fun _ => v') l).
Proof.
  intros Hr. revert i; induction l; intros [|i] H1 H2; simpl in *; try easy.
  - inversion H1; subst. constructor; auto. now apply Forall2_refl.
  - constructor; auto.
Qed.
Lemma al_upd_at_rel debug f K i a a' :
  (forall v v', f v = Ok v' -> cv_step1 v v') -> al_upd_at debug f K i a = Ok a' -> al_rel cv_steps a a'.
Proof.
  intros Hf H. unfold al_upd_at in H.
  destruct (altro_assert _ _); simpl in H; try discriminate.
  destruct (i <? 0)%Z; try discriminate.
  destruct (nth_error (al_list K a) (Z.to_nat i)) as [v|] eqn:En; try discriminate.
  destruct (f v) as [v'| | | | |] eqn:Ef; simpl in H; try discriminate. inversion H; subst; clear H.
  assert (HF : Forall2 cv_steps (al_list K a) (upd (Z.to_nat i) (fun _ => v') (al_list K a))).
  { eapply Forall2_upd; eauto; intros; [apply rt_refl|apply rt_step; auto]. }
  assert (Hrf : forall l, Forall2 cv_steps l l) by (intros; apply Forall2_refl; intros; apply rt_refl).
  destruct K; repeat split; simpl; auto.
Qed.
Lemma Forall2_trans (l1 l2 l3 : list (CV F)) :
  Forall2 cv_steps l1 l2 -> Forall2 cv_steps l2 l3 -> Forall2 cv_steps l1 l3.
Proof.
  intros H; revert l3; induction H; intros l3 H'; inversion H'; subst; constructor; auto.
  eapply rt_trans; eauto.
Qed.
Lemma al_rel_trans a b c : al_rel cv_steps a b -> al_rel cv_steps b c -> al_rel cv_steps a c.
Proof.
  intros (H1 & H2 & H3 & H4 & H5) (G1 & G2 & G3 & G4 & G5). repeat split; try congruence.
  - eapply Forall2_trans; eauto.
  - eapply Forall2_trans; eauto.
Qed.
Lemma al_rel_refl a : al_rel cv_steps a a.
Proof. repeat split; auto; apply Forall2_refl; intros; apply rt_refl. Qed.
Lemma for_res_rel is f a a' :
  (forall i b b', f i b = Ok b' -> al_rel cv_steps b b') -> for_res is f a = Ok a' -> al_rel cv_steps a a'.
Proof.
  intros Hf. revert a; induction is; intros a0 H; simpl in H.
  - inversion H; subst. apply al_rel_refl.
  - destruct (f a a0) eqn:E; simpl in H; try discriminate.
    eapply al_rel_trans; [eapply Hf; eauto|auto].
Qed.
Lemma cv_set_penalty_step debug rho v v' : cv_set_penalty (F:=F) debug rho v = Ok v' -> cv_step1 v v'.
Proof.
  unfold cv_set_penalty. destruct (altro_assert _ _); simpl; intros H; inversion H; subst. constructor.
Qed.
Lemma cv_set_scaling_step debug rho v v' : cv_set_scaling (F:=F) debug rho v = Ok v' -> cv_step1 v v'.
Proof.
  unfold cv_set_scaling. destruct (altro_assert _ _); simpl; intros H; inversion H; subst. constructor.
Qed.
Lemma al_step_rel debug o a a' : al_step debug o a = Ok a' -> al_rel cv_steps a a'.
Proof.
  destruct o; simpl; intros H.
  - inversion H; subst. rewrite al_eval_snd. apply al_rel_map. intros; constructor.
  - inversion H; subst. rewrite al_gradient_snd. apply al_rel_map. intros; constructor.
  - inversion H; subst. rewrite al_hessian_snd. apply al_rel_map. intros; constructor.
  - inversion H; subst. apply al_rel_map. intros; constructor.
  - inversion H; subst. apply al_rel_map. intros; constructor.
  - inversion H; subst. apply al_rel_map. intros; constructor.
  - eapply for_res_rel; [|apply H]. intros i b b' Hb. eapply al_upd_at_rel; [|apply Hb]. apply cv_set_penalty_step.
  - eapply al_upd_at_rel; [|apply H]. apply cv_set_penalty_step.
  - eapply for_res_rel; [|apply H]. intros j b b' Hb. eapply al_upd_at_rel; [|apply Hb]. apply cv_set_scaling_step.
  - eapply al_upd_at_rel; [|apply H]. apply cv_set_scaling_step.
Qed.
Lemma al_reach_rel debug a0 os a : al_reach debug a0 os a -> al_rel cv_steps a0 a.
Proof.
  induction 1; [apply al_rel_refl|]. eapply al_rel_trans; eauto. eapply al_step_rel; eauto.
Qed.

(** transfer of an invariant of single constraint values *)
Lemma cv_steps_inv (P : CV F -> Prop) :
  (forall v v', cv_step1 v v' -> P v -> P v') -> forall v v', cv_steps v v' -> P v -> P v'.
Proof. intros H v v' Hs. induction Hs; eauto. Qed.
Lemma Forall2_Forall (P Q : CV F -> Prop) (Rv : CV F -> CV F -> Prop) l l' :
  (forall v v', Rv v v' -> P v -> Q v') -> Forall2 Rv l l' -> Forall P l -> Forall Q l'.
Proof. intros H H2. induction H2; intros HF; auto. inversion HF; subst. constructor; eauto. Qed.

(** ** static part *)
Definition same_static (v v' : CV F) : Prop :=
  cv_n v' = cv_n v /\ cv_m v' = cv_m v /\ cv_type v' = cv_type v /\ cv_con v' = cv_con v.
Lemma cv_step1_static v v' : cv_step1 v v' -> same_static v v'.
Proof. destruct 1; repeat split. Qed.
Lemma cv_steps_static v v' : cv_steps v v' -> same_static v v'.
Proof.
  induction 1; try (now apply cv_step1_static); unfold same_static in *; intuition congruence.
Qed.

(** ** C02: inequality duals stay non-positive, in any arithmetic *)
Definition duals_nonpos (v : CV F) : Prop :=
  cv_type v = NegativeOrthant -> forall i, (i < cv_p v)%nat -> leb (cv_lam v i) zero = true.
Context (leb00 : leb (@zero F) zero = true).
Context (lt_le0 : forall x : F, ltb x zero = true -> leb x zero = true).
Lemma duals_nonpos_step v v' : cv_step1 v v' -> duals_nonpos v -> duals_nonpos v'.
Proof.
  destruct 1; unfold duals_nonpos; intros H Ht i Hi; try (now apply H).
  - simpl in Ht. unfold cv_update_duals, set_lam in *. unfold cv_p in *. simpl in *. rewrite Ht. simpl.
    rewrite vstore_lt by auto. unfold smin. destruct (ltb _ zero) eqn:E; auto.
  - unfold cv_p in *; simpl in *. rewrite vstore_lt by auto. exact leb00.
Qed.
Lemma duals_nonpos_make n m K con : duals_nonpos (cv_make n m K con).
Proof. intros _ i Hi. unfold cv_p in Hi; simpl in *. rewrite vstore_lt by auto. exact leb00. Qed.
Lemma al_duals_nonpos debug n m (cost : UCost F) eqs ineqs os a :
  al_reach debug (al_make n m cost eqs ineqs) os a ->
  forall v, In v (al_ineq a) -> forall i, (i < cv_p v)%nat -> leb (cv_lam v i) zero = true.
Proof.
  intros Hr. apply al_reach_rel in Hr. destruct Hr as (_ & _ & _ & _ & Hi).
  assert (HF : Forall (fun v => duals_nonpos v /\ cv_type v = NegativeOrthant) (al_ineq a)).
  { eapply Forall2_Forall; [|apply Hi|].
    - intros v v' Hs. apply (cv_steps_inv (fun v => duals_nonpos v /\ cv_type v = NegativeOrthant)) with (v:=v); auto.
      intros w w' Hw [A B]. split; [eapply duals_nonpos_step; eauto|]. apply cv_step1_static in Hw.
      destruct Hw as (_ & _ & Hw & _). now rewrite Hw.
    - simpl. apply Forall_forall. intros v Hv. apply in_map_iff in Hv. destruct Hv as (c & <- & _).
      split; [apply duals_nonpos_make|reflexivity]. }
  intros v Hv. rewrite Forall_forall in HF. destruct (HF v Hv) as [A B]. now apply A.
Qed.
End Steps.
