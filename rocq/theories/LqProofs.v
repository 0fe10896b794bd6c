(** Linear algebra of the backward pass over the reals. *)
From Coq Require Import Reals Lra Lia List Bool ZArith Psatz Arith.
From Verif Require Import Base Lin TrajModel IlqrModel RLin LqSpec LltProofs DynProofs.
Import ListNotations.
Local Open Scope R_scope.

(** * sums, bilinear forms *)
Lemma inner_r n x y : inner n x y = rsum n (fun i => x i * y i).
Proof. apply tot_rsum. Qed.
Lemma app_r c A x i : app c A x i = rsum c (fun j => A i j * x j).
Proof. apply tot_rsum. Qed.
Lemma form_app r c A x y : form r c A x y = inner r x (app c A y).
Proof. reflexivity. Qed.
Lemma inner_ext n x y x' y' : (forall i, (i < n)%nat -> x i = x' i) -> (forall i, (i < n)%nat -> y i = y' i) -> inner n x y = inner n x' y'.
Proof. intros A B. rewrite !inner_r. apply rsum_ext. intros i Hi. rewrite A, B by auto. reflexivity. Qed.
Lemma inner_comm n x y : inner n x y = inner n y x.
Proof. rewrite !inner_r. apply rsum_ext. intros; lra. Qed.
Lemma inner_add_r n x y z : inner n x (fun i => y i + z i) = inner n x y + inner n x z.
Proof. rewrite !inner_r, <- rsum_plus. apply rsum_ext. intros; lra. Qed.
Lemma inner_scal_r n x a y : inner n x (fun i => a * y i) = a * inner n x y.
Proof. rewrite !inner_r, <- rsum_scal. apply rsum_ext. intros; lra. Qed.
Lemma inner_add_l n x y z : inner n (fun i => x i + y i) z = inner n x z + inner n y z.
Proof. rewrite !inner_r, <- rsum_plus. apply rsum_ext. intros; lra. Qed.
Lemma inner_scal_l n x a y : inner n (fun i => a * x i) y = a * inner n x y.
Proof. rewrite !inner_r, <- rsum_scal. apply rsum_ext. intros; lra. Qed.
Lemma inner_self n x : 0 <= inner n x x.
Proof. rewrite inner_r. apply rsum_nonneg. intros; nra. Qed.
Lemma inner_zero_l n x : inner n (fun _ => 0) x = 0.
Proof. rewrite inner_r. apply rsum_zero'. intros; lra. Qed.
Lemma inner_zero_r n x : inner n x (fun _ => 0) = 0.
Proof. rewrite inner_r. apply rsum_zero'. intros; lra. Qed.
Lemma app_ext c A x A' x' i : (forall j, (j < c)%nat -> A i j = A' i j) -> (forall i, (i < c)%nat -> x i = x' i) -> app c A x i = app c A' x' i.
Proof. intros H1 H2. rewrite !app_r. apply rsum_ext. intros j Hj. rewrite H1, H2 by auto. reflexivity. Qed.
Lemma app_add c A x y i : app c A (fun i => x i + y i) i = app c A x i + app c A y i.
Proof. rewrite !app_r, <- rsum_plus. apply rsum_ext. intros; lra. Qed.
Lemma app_scal c A a x i : app c A (fun i => a * x i) i = a * app c A x i.
Proof. rewrite !app_r, <- rsum_scal. apply rsum_ext. intros; lra. Qed.
Lemma app_zero c A i : app c A (fun _ => 0) i = 0.
Proof. rewrite app_r. apply rsum_zero'. intros; lra. Qed.
Lemma form_ext r c A x y A' x' y' : (forall i j, (i < r)%nat -> (j < c)%nat -> A i j = A' i j) -> (forall i, (i < r)%nat -> x i = x' i) -> (forall i, (i < c)%nat -> y i = y' i) ->
  form r c A x y = form r c A' x' y'.
Proof. intros H1 H2 H3. rewrite !form_app. apply inner_ext; auto. intros i Hi. apply app_ext; auto. Qed.
Lemma form_add_l r c A x y z : form r c A (fun i => x i + y i) z = form r c A x z + form r c A y z.
Proof. rewrite !form_app. apply inner_add_l. Qed.
Lemma form_add_r r c A x y z : form r c A x (fun i => y i + z i) = form r c A x y + form r c A x z.
Proof. rewrite !form_app. rewrite <- inner_add_r. apply inner_ext; auto. intros. apply app_add. Qed.
Lemma form_scal_l r c A a x y : form r c A (fun i => a * x i) y = a * form r c A x y.
Proof. rewrite !form_app. apply inner_scal_l. Qed.
Lemma form_scal_r r c A a x y : form r c A x (fun i => a * y i) = a * form r c A x y.
Proof. rewrite !form_app. rewrite <- inner_scal_r. apply inner_ext; auto. intros. apply app_scal. Qed.
Lemma form_zero_l r c A y : form r c A (fun _ => 0) y = 0.
Proof. rewrite form_app. apply inner_zero_l. Qed.
Lemma form_zero_r r c A x : form r c A x (fun _ => 0) = 0.
Proof. rewrite form_app. rewrite (inner_ext r x _ x (fun _ => 0)); auto using inner_zero_r. intros. apply app_zero. Qed.
Lemma form_plus r c A B x y : form r c (fun i j => A i j + B i j) x y = form r c A x y + form r c B x y.
Proof. rewrite !form_app. rewrite <- inner_add_r. apply inner_ext; auto. intros i _. rewrite !app_r, <- rsum_plus. apply rsum_ext. intros; lra. Qed.
Lemma form_tr r c A x y : form r c A x y = form c r (fun i j => A j i) y x.
Proof.
  rewrite !form_rsum. rewrite (rsum_ext r _ (fun i => rsum c (fun j => x i * (A i j * y j)))) by (intros; rewrite rsum_scal; reflexivity).
  rewrite rsum_swap. apply rsum_ext. intros j Hj. rewrite <- rsum_scal. apply rsum_ext. intros; lra.
Qed.
Lemma form_sym n A x y : sym n A -> form n n A x y = form n n A y x.
Proof. intros S. rewrite form_tr. apply form_ext; auto. Qed.
Lemma form_scal_id n rho x y : form n n (fun i j => rho * (if Nat.eqb i j then 1 else 0)) x y = rho * inner n x y.
Proof.
  rewrite form_app. rewrite <- inner_scal_r. apply inner_ext; auto. intros i Hi. rewrite app_r. rewrite (rsum_single n i) by (try lia; intros j Hj N; rewrite (proj2 (Nat.eqb_neq i j)) by lia; lra).
  rewrite Nat.eqb_refl. lra.
Qed.
(** A' s *)
Lemma inner_trmv p r A s x : inner r (fun i => rsum p (fun k => A k i * s k)) x = inner p s (app r A x).
Proof.
  rewrite !inner_r. rewrite (rsum_ext r _ (fun i => rsum p (fun k => s k * (A k i * x i)))) by (intros; rewrite <- rsum_scal_r; apply rsum_ext; intros; lra).
  rewrite rsum_swap. apply rsum_ext. intros k Hk. rewrite app_r, <- rsum_scal. reflexivity.
Qed.
(** A B and A' B *)
Lemma form_right r c q A B x y : form r c (fun i j => rsum q (fun l => A i l * B l j)) x y = form r q A x (app c B y).
Proof.
  rewrite !form_app. apply inner_ext; auto. intros i Hi. rewrite !app_r.
  rewrite (rsum_ext c _ (fun j => rsum q (fun l => A i l * (B l j * y j)))) by (intros; rewrite <- rsum_scal_r; apply rsum_ext; intros; lra).
  rewrite rsum_swap. apply rsum_ext. intros l Hl. rewrite rsum_scal, app_r. reflexivity.
Qed.
Lemma form_left r c p A M x y : form r c (fun i j => rsum p (fun k => A k i * M k j)) x y = form p c M (app r A x) y.
Proof.
  rewrite form_tr. rewrite (form_ext c r _ y x (fun i j => rsum p (fun k => M k i * A k j)) y x) by (auto; intros; apply rsum_ext; intros; lra).
  rewrite (form_right c r p (fun i k => M k i) A y x). rewrite form_tr. reflexivity.
Qed.
Lemma form_triple r c p q A M B x y : form r c (fun i j => rsum q (fun l => rsum p (fun k => A k i * M k l) * B l j)) x y = form p q M (app r A x) (app c B y).
Proof. rewrite (form_right r c q (fun i l => rsum p (fun k => A k i * M k l)) B x y). apply form_left. Qed.
Lemma posdef_zero n A x : posdef n A -> form n n A x x <= 0 -> forall i, (i < n)%nat -> x i = 0.
Proof.
  intros P H i Hi. destruct (Req_dec (x i) 0) as [|N]; [assumption|]. assert (0 < form n n A x x) by (apply P; exists i; auto). lra.
Qed.
Lemma posdef_nonneg n A x : posdef n A -> 0 <= form n n A x x.
Proof.
  intros P. destruct (Rle_lt_dec 0 (form n n A x x)) as [|N]; [assumption|]. exfalso.
  assert (Z : forall i, (i < n)%nat -> x i = 0) by (intros; apply (posdef_zero n A x P); [lra|auto]).
  rewrite (form_ext n n A x x A (fun _ => 0) x) in N by auto. rewrite form_zero_l in N. lra.
Qed.

(** * one stage *)
Section S.
Context {CS : Type} (n m : nat).
Notation K := (KPF RS CS).
Definition stage_of (k : K) : Stage := mkStage (kp_jac k) (fun i j => kp_jac k i (n + j)%nat) (e_x (kp_ce k)) (e_u (kp_ce k)) (e_xx (kp_ce k)) (e_xu (kp_ce k)) (e_uu (kp_ce k)).
(** a stage carrying an action-value expansion *)
Definition q_stage (q : Exp RS) : Stage := mkStage (fun _ _ => 0) (fun _ _ => 0) (e_x q) (e_u q) (e_xx q) (e_xu q) (e_uu q).

Lemma av_sym (k : K) S s : sym_stage n m (stage_of k) -> sym n S -> sym_stage n m (q_stage (kp_q (kpf_action_value n m S s k))).
Proof.
  intros [Hx Hu] HS. unfold kpf_action_value. cbn. cbn in Hx, Hu. split; cbn; intros i j Hi Hj; rewrite !mstore_lt by auto; unfold madd, mm, dot; rs.
  - rewrite (Hx i j) by auto. cbn. f_equal.
    rewrite (rsum_ext n _ (fun l => rsum n (fun p => kp_jac k p i * S p l * kp_jac k l j))) by (intros; rewrite mstore_lt by auto; rewrite <- rsum_scal_r; reflexivity).
    rewrite rsum_swap. apply rsum_ext. intros l Hl. rewrite mstore_lt by auto. rewrite <- rsum_scal_r. apply rsum_ext. intros p Hp. unfold mtr. rs. rewrite (HS l p) by auto. unfold kpf_A. lra.
  - rewrite (Hu i j) by auto. cbn. f_equal.
    rewrite (rsum_ext n _ (fun l => rsum n (fun p => kpf_B n k p i * S p l * kpf_B n k l j))) by (intros; rewrite mstore_lt by auto; rewrite <- rsum_scal_r; reflexivity).
    rewrite rsum_swap. apply rsum_ext. intros l Hl. rewrite mstore_lt by auto. rewrite <- rsum_scal_r. apply rsum_ext. intros p Hp. unfold mtr. rs. rewrite (HS l p) by auto. lra.
Qed.
(** the action-value expansion is stage cost plus cost-to-go of the successor *)
Lemma av_lin (k : K) S s dx du : lincost n m (q_stage (kp_q (kpf_action_value n m S s k))) dx du = lincost n m (stage_of k) dx du + inner n s (next n m (stage_of k) dx du).
Proof.
  unfold lincost, kpf_action_value, next. cbn.
  rewrite (inner_ext n _ dx (fun i => e_x (kp_ce k) i + rsum n (fun l => kp_jac k l i * s l)) dx) by (auto; intros; rewrite vstore_lt by auto; reflexivity).
  rewrite (inner_ext m _ du (fun i => e_u (kp_ce k) i + rsum n (fun l => kpf_B n k l i * s l)) du) by (auto; intros; rewrite vstore_lt by auto; reflexivity).
  rewrite !inner_add_l, !inner_trmv, inner_add_r. change (fun i j => kp_jac k i (n + j)%nat) with (kpf_B n k). lra.
Qed.
Lemma av_quad (k : K) S s dx du : sym n S ->
  quadcost n m (q_stage (kp_q (kpf_action_value n m S s k))) dx du = quadcost n m (stage_of k) dx du + 1 / 2 * form n n S (next n m (stage_of k) dx du) (next n m (stage_of k) dx du).
Proof.
  intros HS. unfold quadcost, kpf_action_value, next. cbn.
  rewrite (form_ext n n _ dx dx (fun i j => e_xx (kp_ce k) i j + rsum n (fun l => rsum n (fun p => kp_jac k p i * S p l) * kp_jac k l j)) dx dx).
  2:{ intros i j Hi Hj. rewrite mstore_lt by auto. unfold madd, mm, dot. rs. f_equal. apply rsum_ext. intros l Hl. rewrite mstore_lt by auto. reflexivity. }
  2,3: auto.
  rewrite (form_ext n m _ dx du (fun i j => e_xu (kp_ce k) i j + rsum n (fun l => rsum n (fun p => kp_jac k p i * S p l) * kpf_B n k l j)) dx du).
  2:{ intros i j Hi Hj. rewrite mstore_lt by auto. unfold madd, mm, dot. rs. f_equal. apply rsum_ext. intros l Hl. rewrite mstore_lt by auto. reflexivity. }
  2,3: auto.
  rewrite (form_ext m m _ du du (fun i j => e_uu (kp_ce k) i j + rsum n (fun l => rsum n (fun p => kpf_B n k p i * S p l) * kpf_B n k l j)) du du).
  2:{ intros i j Hi Hj. rewrite mstore_lt by auto. unfold madd, mm, dot. rs. f_equal. apply rsum_ext. intros l Hl. rewrite mstore_lt by auto. reflexivity. }
  2,3: auto.
  rewrite !form_plus, !form_triple, !form_add_l, !form_add_r. change (fun i j => kp_jac k i (n + j)%nat) with (kpf_B n k).
  rewrite (form_sym n S (app m (kpf_B n k) du) (app n (kp_jac k) dx)) by auto. lra.
Qed.
Lemma av_cost (k : K) S s dx du : sym n S ->
  stage_cost n m (q_stage (kp_q (kpf_action_value n m S s k))) dx du = stage_cost n m (stage_of k) dx du + quadratic n s S (next n m (stage_of k) dx du).
Proof. intros. unfold stage_cost, quadratic. rewrite av_lin, av_quad by auto. lra. Qed.

Lemma reg_form rho (k : K) x y : form m m (e_uu (kp_qr (kpf_regularize m rho k))) x y = form m m (e_uu (kp_q k)) x y + rho * inner m x y.
Proof.
  rewrite <- form_scal_id, <- form_plus. apply form_ext; auto. intros i j Hi Hj. cbn. rewrite mstore_lt by auto. reflexivity.
Qed.
Lemma reg_sym rho (k : K) : sym m (e_uu (kp_q k)) -> sym m (e_uu (kp_qr (kpf_regularize m rho k))).
Proof. intros H i j Hi Hj. cbn. rewrite !mstore_lt by auto. unfold madd, mscale, mident. rs. rewrite (H i j) by auto. rewrite (Nat.eqb_sym i j). reflexivity. Qed.

(** the gains solve the regularised normal equations *)
Lemma gains_eq (k k' : K) : kpf_gains n m k = Some k' -> sym m (e_uu (kp_qr k)) ->
  (forall w dx, form m m (e_uu (kp_qr k)) w (app n (kp_K k') dx) = - form n m (e_xu (kp_qr k)) dx w) /\
  (forall w, form m m (e_uu (kp_qr k)) w (kp_d k') = - inner m (e_u (kp_qr k)) w) /\ posdef m (e_uu (kp_qr k)).
Proof.
  unfold kpf_gains. intros H SY. destruct (llt m (e_uu (kp_qr k))) as [L|] eqn:E; [|discriminate]. inversion H; subst k'; clear H. cbn [kp_K kp_d].
  assert (KE : forall i j, (i < m)%nat -> (j < n)%nat -> mstore m n (fun i j => opp (nth j (map (fun j => llt_solve m L (fun i => e_xu (kp_qr k) j i)) (seq 0 n)) vzero i)) i j = - llt_solve m L (e_xu (kp_qr k) j) i).
  { intros i j Hi Hj. rewrite mstore_lt by auto. rs. f_equal. rewrite (nth_indep _ _ (llt_solve m L (fun i => e_xu (kp_qr k) 0%nat i))) by (rewrite map_length, seq_length; auto).
    rewrite (map_nth (fun j => llt_solve m L (fun i => e_xu (kp_qr k) j i))). rewrite seq_nth by auto. reflexivity. }
  split; [|split].
  - intros w dx. rewrite form_app. rewrite (form_tr n m). rewrite form_app.
    rewrite (inner_ext m w _ w (fun i => (-1) * app n (fun i j => e_xu (kp_qr k) j i) dx i)); auto.
    + rewrite inner_scal_r. lra.
    + intros i Hi. rewrite app_r. rewrite (rsum_ext m _ (fun j => rsum n (fun l => - (e_uu (kp_qr k) i j * llt_solve m L (e_xu (kp_qr k) l) j) * dx l))).
      2:{ intros j Hj. rewrite app_r, <- rsum_scal. apply rsum_ext. intros l Hl. rewrite KE by auto. lra. }
      rewrite rsum_swap, app_r. rewrite <- rsum_scal. apply rsum_ext. intros l Hl. rewrite rsum_scal_r, rsum_opp. rewrite (llt_solves m _ L (e_xu (kp_qr k) l) SY E i Hi). lra.
  - intros w. rewrite form_app. rewrite (inner_comm m (e_u _)). rewrite (inner_ext m w _ w (fun i => (-1) * e_u (kp_qr k) i)); auto; [rewrite inner_scal_r; lra|].
    intros i Hi. rewrite app_r. rewrite (rsum_ext m _ (fun j => - (e_uu (kp_qr k) i j * llt_solve m L (e_u (kp_qr k)) j))) by (intros j Hj; rewrite vstore_lt by auto; rs; lra).
    rewrite rsum_opp. rewrite (llt_solves m _ L (e_u (kp_qr k)) SY E i Hi). lra.
  - exact (llt_posdef m _ L SY E).
Qed.
Lemma gains_ok (k : K) : sym m (e_uu (kp_qr k)) -> posdef m (e_uu (kp_qr k)) -> exists k', kpf_gains n m k = Some k'.
Proof. intros SY P. destruct (posdef_llt m _ SY P) as [L E]. unfold kpf_gains. rewrite E. eauto. Qed.

(** the cost-to-go is the action value of the policy *)
Lemma ctg_quad (k : K) dx : 1 / 2 * form n n (kp_S (kpf_ctg n m k)) dx dx = quadcost n m (q_stage (kp_q k)) dx (app n (kp_K k) dx).
Proof.
  unfold quadcost, kpf_ctg. cbn.
  rewrite (form_ext n n _ dx dx (fun i j => e_xx (kp_q k) i j + rsum m (fun l => rsum m (fun p => kp_K k p i * e_uu (kp_q k) p l) * kp_K k l j) + rsum m (fun l => kp_K k l i * e_xu (kp_q k) j l) + rsum m (fun l => e_xu (kp_q k) i l * kp_K k l j)) dx dx).
  2:{ intros i j Hi Hj. rewrite mstore_lt by auto. unfold madd, mm, dot, mtr. rs. f_equal. f_equal. f_equal. apply rsum_ext. intros l Hl. rewrite mstore_lt by auto. reflexivity. }
  2,3: auto.
  rewrite !form_plus, form_triple, (form_right n n m (e_xu (kp_q k)) (kp_K k)).
  rewrite (form_left n n m (kp_K k) (fun l j => e_xu (kp_q k) j l)). rewrite (form_tr m n). change (fun i j => e_xu (kp_q k) i j) with (e_xu (kp_q k)). lra.
Qed.
Lemma ctg_lin (k : K) dx : inner n (kp_s (kpf_ctg n m k)) dx = inner n (e_x (kp_q k)) dx + form m m (e_uu (kp_q k)) (app n (kp_K k) dx) (kp_d k) + inner m (e_u (kp_q k)) (app n (kp_K k) dx) + form n m (e_xu (kp_q k)) dx (kp_d k).
Proof.
  unfold kpf_ctg. cbn.
  rewrite (inner_ext n _ dx (fun i => e_x (kp_q k) i + rsum m (fun l => rsum m (fun p => kp_K k p i * e_uu (kp_q k) p l) * kp_d k l) + rsum m (fun l => kp_K k l i * e_u (kp_q k) l) + rsum m (fun l => e_xu (kp_q k) i l * kp_d k l)) dx).
  2:{ intros i Hi. rewrite vstore_lt by auto. unfold vadd, mv, dot, mtr. rs. f_equal. f_equal. f_equal. apply rsum_ext. intros l Hl. rewrite mstore_lt by auto. reflexivity. }
  2: auto.
  rewrite !inner_add_l. rewrite (inner_trmv m n (kp_K k)). f_equal; [f_equal; f_equal|].
  - rewrite (inner_ext n _ dx (fun i => rsum m (fun p => kp_K k p i * app m (e_uu (kp_q k)) (kp_d k) p)) dx).
    + rewrite (inner_trmv m n (kp_K k)). rewrite inner_comm. reflexivity.
    + intros i Hi. rewrite (rsum_ext m _ (fun l => rsum m (fun p => kp_K k p i * (e_uu (kp_q k) p l * kp_d k l)))) by (intros; rewrite <- rsum_scal_r; apply rsum_ext; intros; lra).
      rewrite rsum_swap. apply rsum_ext. intros p Hp. rewrite rsum_scal, app_r. reflexivity.
    + auto.
  - rewrite form_app, inner_comm. apply inner_ext; auto. intros. rewrite app_r. reflexivity.
Qed.
Lemma ctg_dv (k : K) : kp_dv0 (kpf_ctg n m k) = inner m (e_u (kp_q k)) (kp_d k) /\ kp_dv1 (kpf_ctg n m k) = 1 / 2 * form m m (e_uu (kp_q k)) (kp_d k) (kp_d k).
Proof.
  unfold kpf_ctg. cbn [kp_dv0 kp_dv1]. split.
  - rewrite inner_r. unfold dot. rs. apply rsum_ext. intros; lra.
  - rewrite half_RS. rewrite form_app, inner_r. unfold dot. rs. f_equal; [lra|]. apply rsum_ext. intros i Hi. rewrite vstore_lt by auto. rewrite app_r. reflexivity.
Qed.
Lemma ctg_cost (k : K) dx : sym m (e_uu (kp_q k)) ->
  stage_cost n m (q_stage (kp_q k)) dx (fun i => app n (kp_K k) dx i + kp_d k i)
  = quadratic n (kp_s (kpf_ctg n m k)) (kp_S (kpf_ctg n m k)) dx + kp_dv0 (kpf_ctg n m k) + kp_dv1 (kpf_ctg n m k).
Proof.
  intros SY. unfold quadratic. rewrite ctg_lin, ctg_quad. destruct (ctg_dv k) as [-> ->].
  unfold stage_cost, lincost, quadcost, q_stage. cbn [sg_x sg_u sg_xx sg_xu sg_uu].
  rewrite inner_add_r, !form_add_r, !form_add_l. rewrite (form_sym m _ (kp_d k) (app n (kp_K k) dx)) by auto. lra.
Qed.
Lemma ctg_sym (k : K) : sym_stage n m (q_stage (kp_q k)) -> sym n (kp_S (kpf_ctg n m k)).
Proof.
  intros [Hx Hu] i j Hi Hj. cbn in Hx, Hu. unfold kpf_ctg. cbn. rewrite !mstore_lt by auto. unfold madd, mm, dot, mtr. rs.
  rewrite (Hx i j) by auto.
  assert (E : rsum m (fun l => mstore n m (fun i j => rsum m (fun p => kp_K k p i * e_uu (kp_q k) p j)) i l * kp_K k l j) = rsum m (fun l => mstore n m (fun i j => rsum m (fun p => kp_K k p i * e_uu (kp_q k) p j)) j l * kp_K k l i)).
  { rewrite (rsum_ext m _ (fun l => rsum m (fun p => kp_K k p i * e_uu (kp_q k) p l * kp_K k l j))) by (intros; rewrite (mstore_lt (F:=RS)) by auto; rewrite <- rsum_scal_r; reflexivity).
    rewrite rsum_swap. apply rsum_ext. intros l Hl. rewrite (mstore_lt (F:=RS)) by auto. rewrite <- rsum_scal_r. apply rsum_ext. intros p Hp. rewrite (Hu l p) by auto. lra. }
  rewrite E. rewrite (rsum_ext m (fun l => kp_K k l i * e_xu (kp_q k) j l) (fun l => e_xu (kp_q k) j l * kp_K k l i)) by (intros; lra).
  rewrite (rsum_ext m (fun l => e_xu (kp_q k) i l * kp_K k l j) (fun l => kp_K k l j * e_xu (kp_q k) i l)) by (intros; lra). lra.
Qed.
End S.
