(** Linear-quadratic problems: the quadratic model is exact. *)
From Coq Require Import Reals Lra Lia List Bool ZArith Psatz Arith.
From Verif Require Import Base Lin LogModel StatsModel TrajModel IlqrModel IlqrSpec IlqrFrame IlqrProofs IlqrProofs2 IlqrProofs4 IlqrProofs5 IlqrProofs7 LsSpec RLin LqSpec LltProofs DynProofs LqProofs LqProofs2 LqProofs3 LqProbSpec.
Import ListNotations.
Local Open Scope R_scope.

Section S.
Context {CS : Type} (n m : nat) (ops : CostOps RS CS) (Inv : CS -> Prop) (D : CS -> Quad) (HQ : quad_costs n m ops Inv D).
Notation K := (KPF RS CS).
Notation stage_of := (@stage_of CS n).
Notation ILQR := (ILQR RS CS).
Notation qv c := (quad_val n m (D c)).
Lemma faithful : faithful_cost ops Inv (fun c => qv c).
Proof.
  split; intros.
  - apply (qc_value _ _ _ _ _ HQ); auto.
  - destruct (qc_eval _ _ _ _ _ HQ c x u H) as [A B]. split; [exact A|]. rewrite B. reflexivity.
  - destruct (qc_grad _ _ _ _ _ HQ c x u b H) as [A B]. split; [exact A|]. rewrite B. reflexivity.
  - destruct (qc_hess _ _ _ _ _ HQ c x u b H) as [A B]. split; [exact A|]. rewrite B. reflexivity.
Qed.
Lemma lq_cost_total (s : ILQR) Y : lq_cost n m D s Y = total_cost (fun c => qv c) s Y.
Proof. unfold lq_cost, total_cost. generalize (il_kps s). intros l; revert Y. induction l as [|k l IH]; intros [|y Y]; try reflexivity. cbn [combine map fold_right traj_cost]. rewrite IH. reflexivity. Qed.

(** ** expansion of one knot point *)
Lemma quad_exact d x u (g : Stage) x0 u0 : sym n (qd_Q d) -> sym m (qd_R d) ->
  (forall i j, (i < n)%nat -> (j < n)%nat -> sg_xx g i j = qd_Q d i j) -> (forall i j, (i < n)%nat -> (j < m)%nat -> sg_xu g i j = qd_H d i j) ->
  (forall i j, (i < m)%nat -> (j < m)%nat -> sg_uu g i j = qd_R d i j) ->
  (forall i, (i < n)%nat -> sg_x g i = app n (qd_Q d) x0 i + app m (qd_H d) u0 i + qd_q d i) ->
  (forall i, (i < m)%nat -> sg_u g i = app n (fun i j => qd_H d j i) x0 i + app m (qd_R d) u0 i + qd_r d i) ->
  quad_val n m d x u - quad_val n m d x0 u0 = stage_cost n m g (fun i => x i - x0 i) (fun i => u i - u0 i).
Proof.
  intros SQ SR Hxx Hxu Huu Hx Hu. unfold stage_cost, lincost, quadcost.
  set (dx := fun i => x i - x0 i). set (du := fun i => u i - u0 i).
  rewrite (form_ext n n _ dx dx (qd_Q d) dx dx), (form_ext n m _ dx du (qd_H d) dx du), (form_ext m m _ du du (qd_R d) du du) by auto.
  rewrite (inner_ext n (sg_x g) dx (fun i => app n (qd_Q d) x0 i + app m (qd_H d) u0 i + qd_q d i) dx) by auto.
  rewrite (inner_ext m (sg_u g) du (fun i => app n (fun i j => qd_H d j i) x0 i + app m (qd_R d) u0 i + qd_r d i) du) by auto.
  rewrite !inner_add_l. rewrite (inner_comm n (app n (qd_Q d) x0)), (inner_comm n (app m (qd_H d) u0)), (inner_comm m (app n _ x0)), (inner_comm m (app m (qd_R d) u0)).
  change (inner n dx (app n (qd_Q d) x0)) with (form n n (qd_Q d) dx x0). change (inner n dx (app m (qd_H d) u0)) with (form n m (qd_H d) dx u0).
  change (inner m du (app n (fun i j => qd_H d j i) x0)) with (form m n (fun i j => qd_H d j i) du x0). change (inner m du (app m (qd_R d) u0)) with (form m m (qd_R d) du u0).
  rewrite (form_tr m n). change (fun i j => qd_H d i j) with (qd_H d).
  unfold quad_val.
  rewrite (form_ext n n (qd_Q d) x x (qd_Q d) (fun i => x0 i + dx i) (fun i => x0 i + dx i)) by (auto; intros; unfold dx; lra).
  rewrite (form_ext m m (qd_R d) u u (qd_R d) (fun i => u0 i + du i) (fun i => u0 i + du i)) by (auto; intros; unfold du; lra).
  rewrite (form_ext n m (qd_H d) x u (qd_H d) (fun i => x0 i + dx i) (fun i => u0 i + du i)) by (auto; intros; unfold du, dx; lra).
  rewrite (inner_ext n (qd_q d) x (qd_q d) (fun i => x0 i + dx i)) by (auto; intros; unfold dx; lra).
  rewrite (inner_ext m (qd_r d) u (qd_r d) (fun i => u0 i + du i)) by (auto; intros; unfold du; lra).
  rewrite !inner_add_r, !form_add_l, !form_add_r. rewrite (form_sym n (qd_Q d) x0 dx), (form_sym m (qd_R d) u0 du) by auto. lra.
Qed.
(** what the expansion of a knot point stores *)
Lemma expand_kp_ok (k : K) z J k' : Inv (kp_cost k) -> expand_kp ops n m z k = (J, k') ->
  Inv (kp_cost k') /\ D (kp_cost k') = D (kp_cost k) /\ kp_dyn k' = kp_dyn k /\ J = qv (kp_cost k) (z_x z) (z_u z) /\
  (forall i j, (i < n)%nat -> (j < n)%nat -> sg_xx (stage_of k') i j = qd_Q (D (kp_cost k)) i j) /\
  (forall i j, (i < n)%nat -> (j < m)%nat -> sg_xu (stage_of k') i j = qd_H (D (kp_cost k)) i j) /\
  (forall i j, (i < m)%nat -> (j < m)%nat -> sg_uu (stage_of k') i j = qd_R (D (kp_cost k)) i j) /\
  (forall i, (i < n)%nat -> sg_x (stage_of k') i = app n (qd_Q (D (kp_cost k))) (z_x z) i + app m (qd_H (D (kp_cost k))) (z_u z) i + qd_q (D (kp_cost k)) i) /\
  (forall i, (i < m)%nat -> sg_u (stage_of k') i = app n (fun i j => qd_H (D (kp_cost k)) j i) (z_x z) i + app m (qd_R (D (kp_cost k))) (z_u z) i + qd_r (D (kp_cost k)) i) /\
  (forall i j, (i < n)%nat -> (j < n + m)%nat -> kp_jac k' i j = dy_jac (kp_dyn k) (z_x z) (z_u z) (z_t z) (z_h z) mzero i j).
Proof.
  intros HI E. unfold expand_kp, kpf_cost, kpf_dyn_expansion, kpf_cost_expansion in E.
  pose proof (qc_gx _ _ _ _ _ HQ (kp_cost k) (z_x z) (z_u z) (vzero, vzero)) as GX. pose proof (qc_gu _ _ _ _ _ HQ (kp_cost k) (z_x z) (z_u z) (vzero, vzero)) as GU.
  destruct (qc_grad _ _ _ _ _ HQ (kp_cost k) (z_x z) (z_u z) (vzero, vzero) HI) as [I1 D1].
  destruct (co_grad ops (kp_cost k) (z_x z) (z_u z) (vzero, vzero)) as [g c1]. cbn [fst snd] in *.
  pose proof (qc_hxx _ _ _ _ _ HQ c1 (z_x z) (z_u z) (mzero, mzero, mzero)) as HX. pose proof (qc_hxu _ _ _ _ _ HQ c1 (z_x z) (z_u z) (mzero, mzero, mzero)) as HXU.
  pose proof (qc_huu _ _ _ _ _ HQ c1 (z_x z) (z_u z) (mzero, mzero, mzero)) as HU. destruct (qc_hess _ _ _ _ _ HQ c1 (z_x z) (z_u z) (mzero, mzero, mzero) I1) as [I2 D2].
  destruct (co_hess ops c1 (z_x z) (z_u z) (mzero, mzero, mzero)) as [[[hxx hxu] huu] c2]. cbn [fst snd kp_cost kp_ce kp_dyn] in *.
  destruct (qc_eval _ _ _ _ _ HQ c2 (z_x z) (z_u z) I2) as [I3 D3]. pose proof (qc_value _ _ _ _ _ HQ c2 (z_x z) (z_u z) I2) as V3.
  destruct (co_eval ops c2 (z_x z) (z_u z)) as [J' c3]. cbn [fst snd] in *. inversion E; subst J k'; clear E.
  cbn [kpf_set_cost kp_cost kp_dyn kp_jac kp_ce LqProofs.stage_of sg_xx sg_xu sg_uu sg_x sg_u e_xx e_xu e_uu e_x e_u].
  split; [exact I3|]. split; [congruence|]. split; [reflexivity|]. split; [rewrite V3, D2, D1; reflexivity|].
  split; [intros; rewrite mstore_lt by auto; rewrite HX by auto; rewrite D1; reflexivity|].
  split; [intros; rewrite mstore_lt by auto; rewrite HXU by auto; rewrite D1; reflexivity|].
  split; [intros; rewrite mstore_lt by auto; rewrite HU by auto; rewrite D1; reflexivity|].
  split; [intros; rewrite vstore_lt by auto; apply GX; auto|]. split; [intros; rewrite vstore_lt by auto; apply GU; auto|].
  intros; rewrite mstore_lt by auto; reflexivity.
Qed.
Lemma expand_all_nth (kps : list K) : forall Z, length Z = length kps -> Forall (fun k => Inv (kp_cost k)) kps ->
  length (snd (expand_all ops n m kps Z)) = length kps /\
  forall i k z, nth_error kps i = Some k -> nth_error Z i = Some z -> exists J k', expand_kp ops n m z k = (J, k') /\ nth_error (snd (expand_all ops n m kps Z)) i = Some k'.
Proof.
  induction kps as [|k kps IH]; intros [|z Z] L F; try discriminate; [split; [reflexivity|intros [|] ? ? H; discriminate]|]. inversion F; subst. cbn [expand_all].
  destruct (IH Z ltac:(cbn in L; lia) H2) as [IL IN]. destruct (expand_kp ops n m z k) as [J k'] eqn:E. destruct (expand_all ops n m kps Z) as [Js ks]. cbn [snd] in *. split; [cbn; lia|].
  intros [|i] k0 z0 A B; [inversion A; inversion B; subst; exists J, k'; auto|]. apply (IN i k0 z0 A B).
Qed.

(** ** difference of the costs of two candidates *)
Lemma model_ext (gs : list Stage) sN SN : forall dx dx' us us', (forall i, (i < n)%nat -> dx i = dx' i) -> Forall2 (fun u u' : nat -> R => forall i, (i < m)%nat -> u i = u' i) us us' ->
  model_cost n m gs sN SN dx us = model_cost n m gs sN SN dx' us'.
Proof.
  induction gs as [|g gs IH]; intros dx dx' us us' X U; [apply quadratic_ext; exact X|].
  inversion U; subst; [apply quadratic_ext; exact X|]. cbn [model_cost]. f_equal; [apply stage_cost_ext; auto|]. apply IH; [|exact H0].
  intros i Hi. unfold next. f_equal; apply app_ext; auto.
Qed.
Definition diff_u (Z Y : Traj RS) : list (nat -> R) := map (fun p => fun i => z_u (fst p) i - z_u (snd p) i) (combine Y Z).
(** the cost model around Z is exact along Y *)
Lemma diff_cost (kps : list K) kN : forall (Z Y : Traj RS) z0 y0, nth_error Z 0 = Some z0 -> nth_error Y 0 = Some y0 ->
  length Z = S (length kps) -> length Y = S (length kps) ->
  (forall i k z y, nth_error kps i = Some k -> nth_error Z i = Some z -> nth_error Y i = Some y -> qv (kp_cost k) (z_x y) (z_u y) - qv (kp_cost k) (z_x z) (z_u z) = stage_cost n m (stage_of k) (fun j => z_x y j - z_x z j) (fun j => z_u y j - z_u z j)) ->
  (forall z y, nth_error Z (length kps) = Some z -> nth_error Y (length kps) = Some y -> qv (kp_cost kN) (z_x y) (z_u y) - qv (kp_cost kN) (z_x z) (z_u z) = quadratic n (e_x (kp_ce kN)) (e_xx (kp_ce kN)) (fun j => z_x y j - z_x z j)) ->
  (forall i k z y z' y', nth_error kps i = Some k -> nth_error Z i = Some z -> nth_error Y i = Some y -> nth_error Z (S i) = Some z' -> nth_error Y (S i) = Some y' ->
     forall j, (j < n)%nat -> z_x y' j - z_x z' j = next n m (stage_of k) (fun j => z_x y j - z_x z j) (fun j => z_u y j - z_u z j) j) ->
  traj_cost (map (fun k => qv (kp_cost k)) (kps ++ [kN])) Y - traj_cost (map (fun k => qv (kp_cost k)) (kps ++ [kN])) Z
  = model_cost n m (map stage_of kps) (e_x (kp_ce kN)) (e_xx (kp_ce kN)) (fun j => z_x y0 j - z_x z0 j) (diff_u Z (firstn (length kps) Y)).
Proof.
  induction kps as [|k kps IH]; intros Z Y z0 y0 Z0 Y0 LZ LY HC HN HD; cbn [length] in *.
  - destruct Z as [|z [|]]; try discriminate. destruct Y as [|y [|]]; try discriminate. inversion Z0; inversion Y0; subst. specialize (HN z0 y0 eq_refl eq_refl). cbn. rs. unfold quad_val in *. lra.
  - destruct Z as [|z [|z' Z]]; try discriminate. destruct Y as [|y [|y' Y]]; try discriminate. inversion Z0; inversion Y0; subst.
    specialize (IH (z' :: Z) (y' :: Y) z' y' eq_refl eq_refl ltac:(cbn in *; lia) ltac:(cbn in *; lia) (fun i => HC (S i)) HN (fun i => HD (S i))).
    pose proof (HC 0%nat k z0 y0 eq_refl eq_refl eq_refl) as C0. pose proof (HD 0%nat k z0 y0 z' y' eq_refl eq_refl eq_refl eq_refl eq_refl) as D0.
    change (map (fun k0 => qv (kp_cost k0)) ((k :: kps) ++ [kN])) with (qv (kp_cost k) :: map (fun k0 => qv (kp_cost k0)) (kps ++ [kN])). cbn [traj_cost map]. set (V' := map (fun k0 => qv (kp_cost k0)) (kps ++ [kN])) in *.
    change (diff_u (z0 :: z' :: Z) (firstn (S (length kps)) (y0 :: y' :: Y))) with ((fun i => z_u y0 i - z_u z0 i) :: diff_u (z' :: Z) (firstn (length kps) (y' :: Y))).
    rewrite model_cost_cons. rewrite <- C0.
    rewrite (model_ext (map stage_of kps) _ _ (next n m (stage_of k) (fun j => z_x y0 j - z_x z0 j) (fun i => z_u y0 i - z_u z0 i)) (fun j => z_x y' j - z_x z' j) _ (diff_u (z' :: Z) (firstn (length kps) (y' :: Y)))).
    + rewrite <- IH. rs. lra.
    + intros i Hi. symmetry. apply D0. exact Hi.
    + generalize (diff_u (z' :: Z) (firstn (length kps) (y' :: Y))). intros l; induction l; constructor; auto.
Qed.
(** along a closed-loop simulation the controls are those of the policy *)
Lemma sim_policy a (kps : list K) : forall (Z Y : Traj RS) z0 y0 dx, nth_error Z 0 = Some z0 -> nth_error Y 0 = Some y0 -> (forall j, (j < n)%nat -> dx j = z_x y0 j - z_x z0 j) ->
  length Z = S (length kps) -> length Y = S (length kps) ->
  obeys_law n m (a : RS) kps Z Y ->
  (forall i k z y z' y', nth_error kps i = Some k -> nth_error Z i = Some z -> nth_error Y i = Some y -> nth_error Z (S i) = Some z' -> nth_error Y (S i) = Some y' ->
     forall j, (j < n)%nat -> z_x y' j - z_x z' j = next n m (stage_of k) (fun j => z_x y j - z_x z j) (fun j => z_u y j - z_u z j) j) ->
  Forall2 (fun u u' : nat -> R => forall i, (i < m)%nat -> u i = u' i) (diff_u Z (firstn (length kps) Y)) (policy n m a (map stage_of kps) (map (fun k => (kp_K k, kp_d k)) kps) dx).
Proof.
  induction kps as [|k kps IH]; intros Z Y z0 y0 dx Z0 Y0 DX LZ LY HL HD; cbn [length] in *; [constructor|].
  destruct Z as [|z [|z' Z]]; try discriminate. destruct Y as [|y [|y' Y]]; try discriminate. inversion Z0; inversion Y0; subst.
  pose proof (HL 0%nat k z0 y0 y' eq_refl eq_refl eq_refl eq_refl) as L0. pose proof (HD 0%nat k z0 y0 z' y' eq_refl eq_refl eq_refl eq_refl eq_refl) as D0.
  change (diff_u (z0 :: z' :: Z) (firstn (S (length kps)) (y0 :: y' :: Y))) with ((fun i => z_u y0 i - z_u z0 i) :: diff_u (z' :: Z) (firstn (length kps) (y' :: Y))).
  cbn [map policy].
  assert (U0 : forall i, (i < m)%nat -> z_u y0 i - z_u z0 i = app n (kp_K k) dx i + a * kp_d k i).
  { intros i Hi. rewrite (L0 i Hi). rewrite app_r. rs. unfold dot. rs. rewrite (rsum_ext n _ (fun j => kp_K k i j * dx j)) by (intros j Hj; rewrite DX by auto; reflexivity). lra. }
  constructor; [exact U0|]. apply (IH (z' :: Z) (y' :: Y) z' y'); auto; try (cbn in *; lia).
  - intros j Hj. rewrite (D0 j Hj). unfold next. f_equal; apply app_ext; auto. intros i Hi. symmetry. apply U0. exact Hi.
  - exact (fun i kp u u' u'' => HL (S i) kp u u' u'').
  - exact (fun i => HD (S i)).
Qed.
End S.
