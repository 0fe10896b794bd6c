(** Augmented-Lagrangian value, gradient, Hessian, duals and penalties. *)
From Coq Require Import Reals Lra Lia List Bool ZArith Psatz Relations.
From Coquelicot Require Import Coquelicot.
From Verif Require Import Base Lin RLin ConModel ConSpec ConProofs.
Import List ListNotations.
Local Open Scope R_scope.

(** * C03 *)
Lemma update_duals_comp (v : CV RS) i : (i < cv_p v)%nat ->
  cv_lam (cv_update_duals v) i =
  match cv_type v with
  | ZeroCone => cv_lam v i - cv_pen v i * cv_c v i
  | NegativeOrthant => Rmin 0 (cv_lam v i - cv_pen v i * cv_c v i)
  | IdentityCone => 0
  end.
Proof.
  intros Hi. unfold cv_update_duals. simpl cv_lam. destruct (cv_type v); simpl dual_cone.
  - rewrite (proj_id (F:=RS)) by auto. rewrite vstore_lt; auto.
  - now rewrite (proj_zero (F:=RS)) by auto.
  - rewrite proj_neg by auto. rewrite vstore_lt; auto.
Qed.
Lemma dual_fixed_point_kkt (v : CV RS) i : (i < cv_p v)%nat -> 0 < cv_pen v i ->
  (cv_lam (cv_update_duals v) i = cv_lam v i <-> kkt (cv_type v) (cv_c v i) (cv_lam v i)).
Proof.
  intros Hi Hp. rewrite update_duals_comp by auto. destruct (cv_type v); unfold kkt.
  - split; intros H.
    + assert (cv_pen v i * cv_c v i = 0) by lra. destruct (Rmult_integral _ _ H0); lra.
    + rewrite H. lra.
  - split; intros; lra.
  - unfold Rmin. destruct (Rle_dec 0 _) as [Hd|Hd]; split.
    + intros H. rewrite <- H in *. split; [|split]; try lra.
      apply Rmult_le_reg_l with (cv_pen v i); auto. lra.
    + intros (Hc & Hl & H0). destruct (Rmult_integral _ _ H0) as [E|E]; [lra|]. rewrite E in Hd. lra.
    + intros H. assert (cv_pen v i * cv_c v i = 0) by lra.
      destruct (Rmult_integral _ _ H0) as [E|E]; [lra|]. rewrite E in *. lra.
    + intros (Hc & Hl & H0). destruct (Rmult_integral _ _ H0) as [E|E].
      * rewrite E in *. nra.
      * rewrite E in *. lra.
Qed.

(** * C04 *)
Lemma shift_comp (v : CV RS) i : (i < cv_p v)%nat -> cv_shift v i = cv_lam v i - cv_pen v 0%nat * cv_c v i.
Proof. intros. unfold cv_shift. now rewrite vstore_lt. Qed.
Lemma auglag_phr (v : CV RS) x u : cv_pen v 0%nat <> 0 ->
  fst (cv_auglag v x u)
  = fsum (cv_p v) (fun i => phr (cv_type v) (cv_pen v 0%nat) (cv_lam v i) (con_eval (cv_con v) x u (cv_c v) i)).
Proof.
  intros Hr. rewrite fsum_rsum. unfold cv_auglag. simpl fst. unfold sqnorm, dot.
  rs. rewrite <- rsum_minus. unfold two; rs. unfold Rdiv. rewrite <- rsum_scal_r.
  apply rsum_ext. intros i Hi.
  assert (Hs : cv_shift (cv_eval_c v x u) i = cv_lam v i - cv_pen v 0%nat * con_eval (cv_con v) x u (cv_c v) i).
  { rewrite shift_comp by exact Hi. simpl. now rewrite vstore_lt. }
  set (c := con_eval _ _ _ _ i) in *.
  unfold phr. destruct (cv_type v); simpl dual_cone.
  - rewrite (proj_id (F:=RS)) by auto. rewrite Hs. field. auto.
  - rewrite (proj_zero (F:=RS)) by auto. rs. field. auto.
  - rewrite proj_neg by auto. rewrite Hs. unfold Rmin.
    destruct (Rle_dec 0 _), (Rle_dec _ 0); try (field; auto); try lra.
    assert (E : cv_lam v i - cv_pen v 0%nat * c = 0) by lra.
    assert (E' : cv_lam v i = cv_pen v 0%nat * c) by lra. rewrite E'. field; auto.
Qed.
Lemma phr_slack rho lam c : 0 < rho ->
  (forall s, s <= 0 -> phr NegativeOrthant rho lam c <= slack_al rho lam c s) /\
  (exists s, s <= 0 /\ phr NegativeOrthant rho lam c = slack_al rho lam c s) /\
  phr ZeroCone rho lam c = slack_al rho lam c 0.
Proof.
  intros Hr. unfold phr, slack_al. destruct (Rle_dec (lam - rho * c) 0) as [H|H].
  - split; [|split].
    + intros s Hs. assert (0 <= - s * (rho * c - lam)) by (apply Rmult_le_pos; lra).
      assert (0 <= rho / 2 * s^2) by (apply Rmult_le_pos; [lra|apply pow2_ge_0]).
      replace (- lam * (c - s) + rho / 2 * (c - s) ^ 2)
        with (- lam * c + rho / 2 * c^2 + (- s * (rho * c - lam)) + rho / 2 * s^2) by field. lra.
    + exists 0. split; [lra|]. field.
    + field.
  - split; [|split].
    + intros s Hs.
      assert (E : - lam * (c - s) + rho / 2 * (c - s) ^ 2 = - lam ^ 2 / (2 * rho) + rho / 2 * (c - s - lam / rho)^2)
        by (field; lra).
      rewrite E. assert (0 <= rho / 2 * (c - s - lam/rho)^2) by (apply Rmult_le_pos; [lra|apply pow2_ge_0]). lra.
    + exists (c - lam / rho). split.
      * assert (c * rho < lam) by lra. apply Rle_minus. apply Rlt_le. apply Rmult_lt_reg_r with rho; auto.
        unfold Rdiv. rewrite Rmult_assoc, Rinv_l; lra.
      * field; lra.
    + field.
Qed.

(** * C11: the AL cost is the cost plus the AL terms *)
Lemma al_eval_loop_fst {F : Scalar} (J : F) l x u :
  fst (al_eval_loop J l x u) = fold_left (fun J v => add J (fst (cv_auglag v x u))) l J.
Proof.
  revert J; induction l; intros J; simpl; auto.
  match goal with |- context [al_eval_loop ?g' l x u] => specialize (IHl g'); destruct (al_eval_loop g' l x u) end.
  simpl in *. auto.
Qed.
Lemma al_eval_fst {F : Scalar} (a : ALCost F) x u :
  fst (al_eval a x u) =
  fold_left (fun J v => add J (fst (cv_auglag v x u))) (al_eq a ++ al_ineq a) (uc_eval (al_cost a) x u).
Proof.
  unfold al_eval. rewrite fold_left_app.
  pose proof (al_eval_loop_fst (uc_eval (al_cost a) x u) (al_eq a) x u) as H1.
  destruct (al_eval_loop _ (al_eq a) x u) as [J1 e]. simpl in H1.
  pose proof (al_eval_loop_fst J1 (al_ineq a) x u) as H2. destruct (al_eval_loop J1 _ x u). simpl in *. now subst.
Qed.
Lemma fold_left_add_RS {A} (f : A -> R) l (J : R) : fold_left (fun J v => @add RS J (f v)) l J = J + lfsum f l.
Proof. revert J; induction l; intros J; simpl; [lra|]. rewrite IHl. unfold lfsum; simpl. rs. lra. Qed.
Lemma lfsum_app {A} (f : A -> R) l r : lfsum f (l ++ r) = lfsum f l + lfsum f r.
Proof. induction l; simpl; [lra|]. rewrite IHl. lra. Qed.
Lemma lfsum_ext_in {A} (f g : A -> R) l : (forall v, In v l -> f v = g v) -> lfsum f l = lfsum g l.
Proof. induction l; simpl; intros H; auto. rewrite H, IHl; auto. Qed.
Lemma al_eval_RS (a : ALCost RS) x u :
  fst (al_eval a x u) = uc_eval (al_cost a) x u + lfsum (fun v => fst (cv_auglag v x u)) (al_cvs a).
Proof. rewrite al_eval_fst. unfold al_cvs. apply (fold_left_add_RS (fun v => fst (cv_auglag v x u))). Qed.

(** * Invariant of the stored Jacobians *)
Section Fresh.
Context {F : Scalar}.
(** the user Jacobian writes exactly the entries in [W], independently of the buffer; the user
    evaluation overwrites its buffer *)
Record con_masked (n m : nat) (con : Con F) (V : vec F -> vec F -> mat F) (W : nat -> nat -> bool) : Prop := {
  cm_eval : forall x u b b' i, (i < con_dim con)%nat -> con_eval con x u b i = con_eval con x u b' i;
  cm_jac : forall x u b i j, (i < con_dim con)%nat -> (j < n + m)%nat ->
     con_jac con x u b i j = if W i j then V x u i j else b i j
}.
Definition con_pure (n m : nat) (con : Con F) : Prop := exists V W, con_masked n m con V W.

Definition cv_fresh (W : nat -> nat -> bool) (v : CV F) : Prop :=
  (forall i j, (i < cv_p v)%nat -> (j < cv_n v + cv_m v)%nat -> W i j = false -> cv_jac v i j = zero) /\
  (cv_type v = NegativeOrthant -> forall i j, (i < cv_p v)%nat -> (j < cv_p v)%nat -> i <> j -> cv_pjac v i j = zero).

Lemma cv_fresh_make n m K con W : cv_fresh W (cv_make n m K con).
Proof.
  split; unfold cv_p; simpl.
  - intros. now rewrite mstore_lt.
  - intros. now rewrite mstore_lt.
Qed.
Lemma cv_fresh_step n m con V W v v' :
  con_masked n m con V W -> cv_con v = con -> cv_n v = n -> cv_m v = m ->
  cv_step1 v v' -> cv_fresh W v -> cv_fresh W v'.
Proof.
  intros Hm Hc Hn Hmm Hs [H1 H2]. destruct Hs; try (split; assumption).
  split.
  - intros i j Hi Hj HW. unfold cv_grad_core. unfold cv_p in *. simpl in *. rewrite mstore_lt by auto.
    rewrite Hc in *. rewrite (cm_jac _ _ _ _ _ Hm) by (rewrite ?Hn, ?Hmm in *; auto). rewrite HW. auto.
  - intros Ht i j Hi Hj Hne. unfold cv_grad_core. unfold cv_p in *. simpl in *. rewrite Ht. simpl.
    rewrite mstore_lt by auto. destruct (Nat.eqb_spec i j); [congruence|]. auto.
Qed.

(** everything the expansions read, after evaluation at (x,u) *)
Definition cv_pteq (v w : CV F) : Prop :=
  same_static v w /\ (0 < cv_p v)%nat /\
  (forall i, (i < cv_p v)%nat -> cv_lam w i = cv_lam v i) /\ (forall i, (i < cv_p v)%nat -> cv_pen w i = cv_pen v i).

Lemma cv_eval_c_eq (v w : CV F) n m V W x u :
  con_masked n m (cv_con v) V W -> cv_pteq v w -> cv_c (cv_eval_c v x u) = cv_c (cv_eval_c w x u).
Proof.
  intros Hm ((_ & _ & _ & Hc) & _). simpl. unfold cv_p. rewrite Hc. apply vstore_ext. intros i Hi.
  now apply (cm_eval _ _ _ _ _ Hm).
Qed.
Lemma cv_eval_jac_eq (v w : CV F) V W x u :
  con_masked (cv_n v) (cv_m v) (cv_con v) V W -> cv_fresh W v -> cv_fresh W w -> cv_pteq v w ->
  cv_jac (cv_eval_jac v x u) = cv_jac (cv_eval_jac w x u).
Proof.
  intros Hm [F1 _] [F2 _] ((Hn & Hmm & Ht & Hc) & _). simpl. unfold cv_p in *. rewrite Hc, Hn, Hmm in *.
  apply mstore_ext. intros i j Hi Hj. rewrite !(cm_jac _ _ _ _ _ Hm) by auto.
  destruct (W i j) eqn:E; auto. now rewrite F1, F2.
Qed.
Lemma cv_shift_eq (v w : CV F) : cv_pteq v w -> cv_c v = cv_c w -> cv_shift v = cv_shift w.
Proof.
  intros ((Hn & Hmm & Ht & Hc) & H0 & Hl & Hp) E. unfold cv_shift, cv_p in *. rewrite Hc. apply vstore_ext.
  intros i Hi. now rewrite Hl, Hp, E.
Qed.
Lemma sqnorm_ext n (a b : vec F) : (forall i, (i < n)%nat -> a i = b i) -> sqnorm n a = sqnorm n b.
Proof. intros H. unfold sqnorm. now apply dot_ext. Qed.
Lemma auglag_eq (v w : CV F) V W x u :
  con_masked (cv_n v) (cv_m v) (cv_con v) V W -> cv_pteq v w -> fst (cv_auglag v x u) = fst (cv_auglag w x u).
Proof.
  intros Hm He. pose proof He as ((Hn & Hmm & Ht & Hc) & H0 & Hl & Hp).
  unfold cv_auglag. simpl fst.
  assert (Es : cv_shift (cv_eval_c v x u) = cv_shift (cv_eval_c w x u)).
  { apply cv_shift_eq; [exact He|]. eapply cv_eval_c_eq; eauto. }
  rewrite Es, Ht. unfold cv_p in *. rewrite Hc, (Hp 0%nat) by auto.
  f_equal. f_equal. apply sqnorm_ext. intros. now rewrite Hl.
Qed.
Lemma grad_core_eq (v w : CV F) V W x u :
  con_masked (cv_n v) (cv_m v) (cv_con v) V W -> cv_fresh W v -> cv_fresh W w -> cv_pteq v w ->
  cv_shift (cv_grad_core v x u) = cv_shift (cv_grad_core w x u) /\
  cv_jac (cv_grad_core v x u) = cv_jac (cv_grad_core w x u) /\
  cv_pjac (cv_grad_core v x u) = cv_pjac (cv_grad_core w x u).
Proof.
  intros Hm F1 F2 He. pose proof He as ((Hn & Hmm & Ht & Hc) & H0 & Hl & Hp).
  assert (Ec : cv_c (cv_eval_c v x u) = cv_c (cv_eval_c w x u)) by (eapply cv_eval_c_eq; eauto).
  assert (Ej : cv_jac (cv_eval_jac v x u) = cv_jac (cv_eval_jac w x u)) by (eapply cv_eval_jac_eq; eauto).
  assert (Es : cv_shift (cv_grad_core v x u) = cv_shift (cv_grad_core w x u)) by (apply cv_shift_eq; [exact He|exact Ec]).
  split; [exact Es|]. split; [exact Ej|].
  unfold cv_grad_core. simpl.
  assert (Es' : cv_shift (cv_eval_jac (cv_eval_c v x u) x u) = cv_shift (cv_eval_jac (cv_eval_c w x u) x u)) by exact Es.
  rewrite Es', Ht. change (cv_p (cv_eval_jac (cv_eval_c w x u) x u)) with (cv_p w).
  change (cv_p (cv_eval_jac (cv_eval_c v x u) x u)) with (cv_p v).
  assert (Ep : cv_p w = cv_p v) by (unfold cv_p; now rewrite Hc). rewrite Ep.
  destruct (cv_type v) eqn:Etv; simpl; auto.
  apply mstore_ext. intros i j Hi Hj. destruct (Nat.eqb_spec i j); auto.
  destruct F1 as [_ F1], F2 as [_ F2]. rewrite F1, F2; auto; rewrite ?Ep, ?Ht; auto.
Qed.
Lemma gradient_eq (v w : CV F) V W x u :
  con_masked (cv_n v) (cv_m v) (cv_con v) V W -> cv_fresh W v -> cv_fresh W w -> cv_pteq v w ->
  fst (cv_gradient v x u) = fst (cv_gradient w x u).
Proof.
  intros Hm F1 F2 He. destruct (grad_core_eq v w V W x u Hm F1 F2 He) as (E1 & E2 & E3).
  pose proof He as ((Hn & Hmm & Ht & Hc) & H0 & Hl & Hp).
  unfold cv_gradient. simpl fst. unfold cv_pj. rewrite E1, E2, E3.
  change (cv_type (cv_grad_core w x u)) with (cv_type w).
  change (cv_type (cv_grad_core v x u)) with (cv_type v). rewrite Ht.
  change (cv_p (cv_grad_core w x u)) with (cv_p w). change (cv_p (cv_grad_core v x u)) with (cv_p v).
  change (cv_n (cv_grad_core w x u)) with (cv_n w). change (cv_n (cv_grad_core v x u)) with (cv_n v).
  change (cv_m (cv_grad_core w x u)) with (cv_m w). change (cv_m (cv_grad_core v x u)) with (cv_m v).
  unfold cv_p. now rewrite Hc, Hn, Hmm.
Qed.
Lemma hessian_eq (v w : CV F) V W x u :
  con_masked (cv_n v) (cv_m v) (cv_con v) V W -> cv_fresh W v -> cv_fresh W w -> cv_pteq v w ->
  fst (cv_hessian_core v x u) = fst (cv_hessian_core w x u).
Proof.
  intros Hm F1 F2 He. destruct (grad_core_eq v w V W x u Hm F1 F2 He) as (E1 & E2 & E3).
  pose proof He as ((Hn & Hmm & Ht & Hc) & H0 & Hl & Hp).
  unfold cv_hessian_core. simpl fst. unfold cv_pj. rewrite E2, E3.
  change (cv_p (cv_grad_core w x u)) with (cv_p w). change (cv_p (cv_grad_core v x u)) with (cv_p v).
  change (cv_n (cv_grad_core w x u)) with (cv_n w). change (cv_n (cv_grad_core v x u)) with (cv_n v).
  change (cv_m (cv_grad_core w x u)) with (cv_m w). change (cv_m (cv_grad_core v x u)) with (cv_m v).
  rewrite (Hp 0%nat) by auto. unfold cv_p. now rewrite Hc, Hn, Hmm.
Qed.

(** lifting to ALCost *)
Lemma al_grad_loop_eq n m g l l' x u :
  Forall2 (fun v w => fst (cv_gradient v x u) = fst (cv_gradient (F:=F) w x u)) l l' ->
  fst (al_grad_loop n m g l x u) = fst (al_grad_loop n m g l' x u).
Proof.
  intros H; revert g; induction H; intros g; auto.
  cbn [al_grad_loop]. destruct (cv_gradient x0 x u) as [gv v1], (cv_gradient y x u) as [gw w1].
  cbn [fst] in H. subst gw. specialize (IHForall2 (vstore n (vadd (fst g) (fst gv)), vstore m (vadd (snd g) (snd gv)))).
  destruct (al_grad_loop _ _ _ l x u), (al_grad_loop _ _ _ l' x u). exact IHForall2.
Qed.
Lemma al_hess_loop_eq n m g l l' x u :
  Forall2 (fun v w => fst (cv_hessian_core v x u) = fst (cv_hessian_core (F:=F) w x u)) l l' ->
  fst (al_hess_loop n m g l x u) = fst (al_hess_loop n m g l' x u).
Proof.
  intros H; revert g; induction H; intros [[g1 g2] g3]; auto.
  cbn [al_hess_loop]. destruct (cv_hessian_core x0 x u) as [[[a1 a2] a3] v1] eqn:E1, (cv_hessian_core y x u) as [gw w1] eqn:E2.
  cbn [fst] in H. subst gw.
  match goal with |- context [al_hess_loop n m ?g' l x u] => specialize (IHForall2 g') end.
  destruct (al_hess_loop _ _ _ l x u), (al_hess_loop _ _ _ l' x u). exact IHForall2.
Qed.
Lemma al_gradient_fst (a : ALCost F) x u old :
  fst (al_gradient a x u old) = fst (al_grad_loop (al_n a) (al_m a) (uc_grad (al_cost a) x u old) (al_cvs a) x u).
Proof.
  unfold al_gradient, al_cvs. generalize (uc_grad (al_cost a) x u old) as g. generalize (al_eq a) as l.
  induction l; intros g; simpl.
  - destruct (al_grad_loop _ _ g (al_ineq a) x u). reflexivity.
  - match goal with |- context [al_grad_loop _ _ ?g' l x u] => specialize (IHl g') end.
    destruct (al_grad_loop _ _ _ l x u) as [g1 e]. 
    destruct (al_grad_loop _ _ g1 (al_ineq a) x u). simpl in *. rewrite IHl.
    destruct (al_grad_loop _ _ _ (l ++ _) x u). reflexivity.
Qed.
Lemma al_hessian_fst (a : ALCost F) x u old :
  fst (al_hessian a x u old) = fst (al_hess_loop (al_n a) (al_m a) (uc_hess (al_cost a) x u old) (al_cvs a) x u).
Proof.
  unfold al_hessian, al_cvs. generalize (uc_hess (al_cost a) x u old) as g. generalize (al_eq a) as l.
  induction l; intros g; simpl.
  - destruct (al_hess_loop _ _ g (al_ineq a) x u). reflexivity.
  - destruct g as [[g1 g2] g3].
    match goal with |- context [al_hess_loop _ _ ?g' l x u] => specialize (IHl g') end.
    destruct (al_hess_loop _ _ _ l x u) as [h1 e]. 
    destruct (al_hess_loop _ _ h1 (al_ineq a) x u). simpl in *. rewrite IHl.
    destruct (al_hess_loop _ _ _ (l ++ _) x u). reflexivity.
Qed.

(** states reachable from a fresh ALCost: every constraint value is fresh for its own mask *)
Definition cv_ok (n m : nat) (v : CV F) : Prop :=
  cv_n v = n /\ cv_m v = m /\ exists V W, con_masked n m (cv_con v) V W /\ cv_fresh W v.
Lemma cv_ok_steps n m v v' : cv_steps v v' -> cv_ok n m v -> cv_ok n m v'.
Proof.
  apply cv_steps_inv. clear. intros v v' Hs (Hn & Hm & V & W & H1 & H2).
  pose proof (cv_step1_static _ _ Hs) as (S1 & S2 & S3 & S4).
  split; [congruence|]. split; [congruence|]. exists V, W. rewrite S4. split; auto.
  apply (cv_fresh_step n m (cv_con v) V W v v'); auto.
Qed.
Lemma al_reach_ok debug n m (cost : UCost F) eqs ineqs os a :
  (forall c, In c (eqs ++ ineqs) -> con_pure n m c) ->
  al_reach debug (al_make n m cost eqs ineqs) os a ->
  al_n a = n /\ al_m a = m /\ al_cost a = cost /\ Forall (cv_ok n m) (al_cvs a) /\
  Forall (fun v => cv_type v = Equality) (al_eq a) /\ Forall (fun v => cv_type v = Inequality) (al_ineq a).
Proof.
  intros Hp Hr. apply al_reach_rel in Hr. destruct Hr as (H1 & H2 & H3 & H4 & H5). simpl in *.
  assert (Hty : forall K l l', Forall2 cv_steps (map (cv_make (F:=F) n m K) l) l' -> Forall (fun v => cv_type v = K) l').
  { intros K l l' H. eapply (Forall2_Forall (fun v => cv_type v = K)); [|apply H|].
    - intros v v' Hs. apply cv_steps_static in Hs. destruct Hs as (_ & _ & -> & _). auto.
    - apply Forall_forall. intros v Hv. apply in_map_iff in Hv. destruct Hv as (c & <- & _). reflexivity. }
  repeat split; auto.
  - unfold al_cvs. apply Forall_app. split.
    + eapply Forall2_Forall; [|apply H4|]; [apply cv_ok_steps|].
      apply Forall_forall. intros v Hv. apply in_map_iff in Hv. destruct Hv as (c & <- & Hc).
      destruct (Hp c) as (V & W & HVW); [apply in_or_app; auto|].
      split; [reflexivity|]. split; [reflexivity|]. exists V, W. split; auto. apply cv_fresh_make.
    + eapply Forall2_Forall; [|apply H5|]; [apply cv_ok_steps|].
      apply Forall_forall. intros v Hv. apply in_map_iff in Hv. destruct Hv as (c & <- & Hc).
      destruct (Hp c) as (V & W & HVW); [apply in_or_app; auto|].
      split; [reflexivity|]. split; [reflexivity|]. exists V, W. split; auto. apply cv_fresh_make.
  - eapply Hty; eauto.
  - eapply Hty; eauto.
Qed.

(** * C07 *)
Lemma Forall2_static_of_reach debug n m (cost : UCost F) eqs ineqs os1 a1 os2 a2 :
  al_reach debug (al_make n m cost eqs ineqs) os1 a1 -> al_reach debug (al_make n m cost eqs ineqs) os2 a2 ->
  Forall2 same_static (al_cvs a1) (al_cvs a2).
Proof.
  intros H1 H2. apply al_reach_rel in H1, H2. destruct H1 as (_ & _ & _ & A4 & A5), H2 as (_ & _ & _ & B4 & B5).
  assert (G : forall l l1 l2 : list (CV F), Forall2 cv_steps l l1 -> Forall2 cv_steps l l2 -> Forall2 same_static l1 l2).
  { intros l l1 l2 H. revert l2. induction H; intros l2 H'; inversion H'; subst; constructor; auto.
    apply cv_steps_static in H, H3. unfold same_static in *. intuition congruence. }
  unfold al_cvs. apply Forall2_app; eapply G; eauto.
Qed.
(** same multipliers and penalties, position by position *)
Definition al_same_params (a b : ALCost F) : Prop :=
  Forall2 (fun v w => forall i, (i < cv_p v)%nat -> cv_lam w i = cv_lam v i /\ cv_pen w i = cv_pen v i) (al_cvs a) (al_cvs b).
Lemma Forall2_and4 (P : CV F -> CV F -> Prop) (Q : CV F -> CV F -> Prop) (A B : CV F -> Prop) l l' :
  Forall2 P l l' -> Forall2 Q l l' -> Forall A l -> Forall B l' ->
  Forall2 (fun v w => P v w /\ Q v w /\ A v /\ B w) l l'.
Proof.
  intros H; induction H; intros HQ HA HB; auto.
  inversion HQ; inversion HA; inversion HB; subst. constructor; auto.
Qed.
Lemma Forall2_impl (P Q : CV F -> CV F -> Prop) l l' :
  (forall v w, P v w -> Q v w) -> Forall2 P l l' -> Forall2 Q l l'.
Proof. intros H; induction 1; auto. Qed.

(** a common mask for both states: masks are determined by the constraint, so use the invariant twice *)
Lemma expansions_history debug n m (cost : UCost F) eqs ineqs os1 a1 os2 a2 :
  (forall c, In c (eqs ++ ineqs) -> con_pure n m c) ->
  (forall c, In c (eqs ++ ineqs) -> (0 < con_dim c)%nat) ->
  al_reach debug (al_make n m cost eqs ineqs) os1 a1 -> al_reach debug (al_make n m cost eqs ineqs) os2 a2 ->
  al_same_params a1 a2 ->
  forall x u, fst (al_eval a1 x u) = fst (al_eval a2 x u) /\
  (forall old, fst (al_gradient a1 x u old) = fst (al_gradient a2 x u old)) /\
  (forall old, fst (al_hessian a1 x u old) = fst (al_hessian a2 x u old)).
Proof.
  intros Hp Hd R1 R2 Hsp x u.
  (* choose masks once, per constraint, starting from the common initial state *)
  assert (HF : Forall2 (fun v w => exists V W, con_masked n m (cv_con v) V W /\ cv_fresh W v /\ cv_fresh W w /\
                 cv_n v = n /\ cv_m v = m /\ (0 < cv_p v)%nat /\ same_static v w) (al_cvs a1) (al_cvs a2)).
  { apply al_reach_rel in R1, R2. destruct R1 as (_ & _ & _ & A4 & A5), R2 as (_ & _ & _ & B4 & B5).
    assert (G : forall K l l1 l2, (forall c, In c l -> con_pure n m c /\ (0 < con_dim c)%nat) ->
       Forall2 cv_steps (map (cv_make (F:=F) n m K) l) l1 -> Forall2 cv_steps (map (cv_make n m K) l) l2 ->
       Forall2 (fun v w => exists V W, con_masked n m (cv_con v) V W /\ cv_fresh W v /\ cv_fresh W w /\
                 cv_n v = n /\ cv_m v = m /\ (0 < cv_p v)%nat /\ same_static v w) l1 l2).
    { intros K l. induction l; intros l1 l2 Hl G1 G2; simpl in *; inversion G1; inversion G2; subst; constructor.
      - destruct (Hl a (or_introl eq_refl)) as [(V & W & HVW) Hdim]. exists V, W.
        assert (Hok : forall z, cv_steps (cv_make n m K a) z -> cv_fresh W z /\ same_static (cv_make n m K a) z).
        { intros z Hz. split; [|now apply cv_steps_static].
          assert (Hq : same_static (cv_make n m K a) z /\ cv_fresh W z).
          { eapply (cv_steps_inv (fun z => same_static (cv_make n m K a) z /\ cv_fresh W z)); [|apply Hz|].
            - intros z1 z2 Hz12 [Hst Hfr]. pose proof (cv_step1_static _ _ Hz12) as Hs2.
              split; [unfold same_static in *; intuition congruence|].
              destruct Hst as (T1 & T2 & T3 & T4).
              apply (cv_fresh_step n m (cv_con z1) V W z1 z2); auto. now rewrite T4.
            - split; [repeat split|apply cv_fresh_make]. }
          apply Hq. }
        destruct (Hok _ H1) as [Q1 Q2], (Hok _ H6) as [Q3 Q4].
        unfold same_static in *. destruct Q2 as (T1 & T2 & T3 & T4), Q4 as (U1 & U2 & U3 & U4).
        rewrite T4. unfold cv_p. rewrite T4. simpl in *. intuition congruence.
      - apply IHl; auto. }
    unfold al_cvs. apply Forall2_app.
    - eapply (G ZeroCone eqs); eauto. intros c Hc. split; [apply Hp|apply Hd]; apply in_or_app; auto.
    - eapply (G NegativeOrthant ineqs); eauto. intros c Hc. split; [apply Hp|apply Hd]; apply in_or_app; auto. }
  assert (HE : Forall2 (fun v w => (fst (cv_auglag v x u) = fst (cv_auglag w x u)) /\
     fst (cv_gradient v x u) = fst (cv_gradient w x u) /\ fst (cv_hessian_core v x u) = fst (cv_hessian_core w x u)) (al_cvs a1) (al_cvs a2)).
  { clear - HF Hsp. unfold al_same_params in Hsp. induction HF; inversion Hsp; subst; constructor; auto.
    destruct H as (V & W & Q1 & Q2 & Q3 & Q4 & Q5 & Q6 & Q7).
    assert (He : cv_pteq x0 y) by (repeat split; try apply Q7; auto; intros; now apply H3).
    subst n m. repeat split; [eapply auglag_eq|eapply gradient_eq|eapply hessian_eq]; eauto. }
  destruct (al_reach_ok _ _ _ _ _ _ _ _ Hp R1) as (N1 & M1 & C1 & _).
  destruct (al_reach_ok _ _ _ _ _ _ _ _ Hp R2) as (N2 & M2 & C2 & _).
  split; [|split].
  - rewrite !al_eval_fst. rewrite C1, C2. fold (al_cvs a1) (al_cvs a2).
    generalize (uc_eval cost x u) as J. clear - HE. induction HE; intros J; simpl; auto.
    destruct H as [H _]. unfold cv_auglag in H; simpl in H. rewrite H. apply IHHE.
  - intros old. rewrite !al_gradient_fst. rewrite N1, N2, M1, M2, C1, C2. apply al_grad_loop_eq.
    eapply Forall2_impl; [|apply HE]. intros v w H; apply H.
  - intros old. rewrite !al_hessian_fst. rewrite N1, N2, M1, M2, C1, C2. apply al_hess_loop_eq.
    eapply Forall2_impl; [|apply HE]. intros v w H; apply H.
Qed.
End Fresh.
