(** Solving the triple integrator problem: the solver object, the motion and the cost in terms of the problem data. *)
From Coq Require Import Reals Lra ZArith List Bool Lia.
From Verif Require Import Base Lin RLin ConModel ConSpec ConProofs LogModel StatsModel TrajModel IlqrModel IlqrSpec CostInst AlModel DynModel DynSpec DynProofs ExampleModel ExampleSpec ExampleProofs ExampleProofs2 ExampleProofs3 P_Examples ProblemModel ProblemSpec ProblemProofs ProblemProofs2 ProblemProofs3 ProblemProofs4 LqSpec LqProbSpec LltProofs LqInst P_Lqr ExProbModel ExProbSpec ExProbProofs ExProbProofs2 ExProbProofs3.
From Coq Require Import FunctionalExtensionality.
Import List ListNotations LqSpec.
Local Open Scope R_scope.

(** * the solver made from a problem that holds given data, in any arithmetic *)
Section Copy.
Context {F : Scalar}.
Local Open Scope Z_scope.
Theorem holds_copy debug on om N h (p : Prob F (UCost F)) x0 md cost eqs ineqs : 1 <= N -> holds N h p x0 md cost eqs ineqs -> pr_is_fully_defined h p = Ok true ->
  dim_ok on (md_n md) = true -> dim_ok om (md_m md) = true ->
  il_of_problem debug on om h p = Ok (il_make (Z.to_nat N) (fun i => nth i x0 zero) (map (fun k => (if k =? N then identity_dyn else md_dyn md, cost k)) (zseq 0 (Z.to_nat (N + 1))))).
Proof.
  intros HN [H1 H2 H3 H4 H5 _ _] FD D1 D2. unfold il_of_problem. rewrite H1. cbn [bind]. unfold il_copy_problem.
  replace ((0 <=? 0) && (0 <=? N)) with true by (symmetry; zb). rewrite assert_true. cbn [bind].
  replace ((0 <=? N + 1) && (N + 1 <=? N + 1)) with true by (symmetry; zb). rewrite assert_true. cbn [bind].
  rewrite FD. cbn [bind]. rewrite assert_true. assert (A2 : (if debug then Ok tt else Ok tt) = Ok tt) by (destruct debug; reflexivity). rewrite A2. cbn [bind].
  rewrite Z.sub_0_r. rewrite (for_z_app _ (fun k => (if k =? N then identity_dyn else md_dyn md, cost k))).
  - cbn [bind List.app]. now rewrite H2.
  - intros k acc Hk. apply in_zseq in Hk.
    assert (AN : assert_N debug p (fun N => (0 <=? k) && (k <=? N)) = Ok tt).
    { unfold assert_N. rewrite H1. cbn [bind]. destruct debug; [|reflexivity]. replace ((0 <=? k) && (k <=? N)) with true by (symmetry; zb). reflexivity. }
    assert (GD : pr_get_dynamics debug p k = Ok (Some (if k =? N then mkModel (md_n md) (md_m md) identity_dyn else md))).
    { unfold pr_get_dynamics. rewrite AN. cbn [bind]. destruct (Z.eqb_spec k N) as [->|Hne].
      - rewrite (vget_z _ _ _ (proj1 Hk) H4). cbn [bind]. rewrite assert_true. reflexivity.
      - rewrite (vget_z _ _ _ (proj1 Hk) (H3 k ltac:(lia))). cbn [bind]. rewrite assert_true. reflexivity. }
    rewrite GD. cbn [bind].
    replace (md_n (if k =? N then mkModel (md_n md) (md_m md) identity_dyn else md)) with (md_n md) by (destruct (k =? N); reflexivity).
    replace (md_m (if k =? N then mkModel (md_n md) (md_m md) identity_dyn else md)) with (md_m md) by (destruct (k =? N); reflexivity).
    rewrite D1, D2, assert_true. cbn [bind]. rewrite A2. cbn [bind].
    unfold pr_get_cost. rewrite AN. cbn [bind]. rewrite (vget_z _ _ _ (proj1 Hk) (H5 k ltac:(lia))). cbn [bind].
    destruct (k =? N); reflexivity.
Qed.
End Copy.

(** * one Runge-Kutta step of the triple integrator is its exact motion *)
Theorem tri_step dof st x u t h buf : tri_motion dof h x u (dy_eval (disc_rk4 (3 * dof) dof (triple (F:=RS) dof) st) x u t h buf).
Proof.
  cbn [disc_rk4 dy_eval]. pose proof (rk4_scheme_ok (3 * dof) (triple dof) (tri_field dof) (triple_computes dof) st x u t h) as (k1 & k2 & k3 & k4 & E1 & E2 & E3 & E4 & E5).
  intros i Hi.
  assert (P : forall k, (k < 2 * dof)%nat -> Nat.ltb k (2 * dof) = true) by (intros; apply Nat.ltb_lt; auto).
  assert (Q : Nat.ltb (2 * dof + i) (2 * dof) = false) by (apply Nat.ltb_ge; lia).
  assert (J1 : k1 (2 * dof + i)%nat = u i) by (rewrite E1 by lia; unfold tri_field; rewrite Q; f_equal; lia).
  assert (J2 : k2 (2 * dof + i)%nat = u i) by (rewrite E2 by lia; unfold tri_field; rewrite Q; f_equal; lia).
  assert (J3 : k3 (2 * dof + i)%nat = u i) by (rewrite E3 by lia; unfold tri_field; rewrite Q; f_equal; lia).
  assert (J4 : k4 (2 * dof + i)%nat = u i) by (rewrite E4 by lia; unfold tri_field; rewrite Q; f_equal; lia).
  assert (S1 : forall j, (j < 2 * dof)%nat -> k1 j = x (j + dof)%nat) by (intros j Hj; rewrite E1 by lia; unfold tri_field; rewrite P by auto; reflexivity).
  assert (S2 : forall j, (j < 2 * dof)%nat -> k2 j = x (j + dof)%nat + h / 2 * k1 (j + dof)%nat) by (intros j Hj; rewrite E2 by lia; unfold tri_field; rewrite P by auto; reflexivity).
  assert (S3 : forall j, (j < 2 * dof)%nat -> k3 j = x (j + dof)%nat + h / 2 * k2 (j + dof)%nat) by (intros j Hj; rewrite E3 by lia; unfold tri_field; rewrite P by auto; reflexivity).
  assert (S4 : forall j, (j < 2 * dof)%nat -> k4 j = x (j + dof)%nat + h * k3 (j + dof)%nat) by (intros j Hj; rewrite E4 by lia; unfold tri_field; rewrite P by auto; reflexivity).
  rewrite !E5 by lia.
  assert (V : (dof + i + dof = 2 * dof + i)%nat) by lia. assert (W : (i + dof = dof + i)%nat) by lia.
  split; [|split].
  - rewrite S4, S3, S2, S1 by lia. rewrite !W, !(S3 (dof + i)%nat), !(S2 (dof + i)%nat), !(S1 (dof + i)%nat) by lia. rewrite !V, J1, J2. lra.
  - rewrite S4, S3, S2, S1 by lia. rewrite !V, J1, J2, J3. lra.
  - rewrite J1, J2, J3, J4. lra.
Qed.

(** * sums over knot points *)
Lemma combine_nth_seq {A B} (a : list A) (b : list B) da db : length a = length b -> combine a b = map (fun k => (nth k a da, nth k b db)) (seq 0 (length a)).
Proof.
  intros H. apply (nth_ext _ _ (da, db) (da, db)).
  - rewrite combine_length, map_length, seq_length. lia.
  - intros k Hk. rewrite combine_length in Hk. rewrite combine_nth by auto. set (f := fun k => _). rewrite (nth_indep (map f _) _ (f 0%nat)) by (rewrite map_length, seq_length; lia). rewrite map_nth. unfold f. rewrite seq_nth by lia. reflexivity.
Qed.
Lemma fold_fsum n (f : nat -> R) : fold_right Rplus 0 (map f (seq 0 n)) = fsum n f.
Proof. unfold fsum. induction (seq 0 n) as [|k l IH]; [reflexivity|]. cbn. now rewrite IH. Qed.
Lemma fsum_S n f : fsum (S n) f = fsum n f + f n.
Proof. rewrite !fsum_rsum. reflexivity. Qed.
Lemma fsum_ext n f g : (forall k, (k < n)%nat -> f k = g k) -> fsum n f = fsum n g.
Proof. intros H. rewrite !fsum_rsum. apply rsum_ext. exact H. Qed.

(** states and controls of a trajectory *)
Definition zX (Y : Traj RS) (k : nat) : nat -> R := z_x (nth k Y kp_zero).
Definition zU (Y : Traj RS) (k : nat) : nat -> R := z_u (nth k Y kp_zero).
Lemma nth_zseq k n : (k < n)%nat -> nth k (zseq 0 n) 0%Z = Z.of_nat k.
Proof. intros H. unfold zseq. set (f := fun i => _). rewrite (nth_indep (map f _) _ (f 0%nat)) by (rewrite map_length, seq_length; auto). rewrite map_nth, seq_nth by auto. unfold f. lia. Qed.
Lemma len_zseq a n : length (zseq a n) = n.
Proof. unfold zseq. now rewrite map_length, seq_length. Qed.

Section Tri.
Context (debug : bool) (dof : nat) (Q Ru Qf : mat RS) (xf uref : vec RS) (okQ okQf : bool) (q qT : QC RS) (N : nat) (st : RK4 RS) (x0 : vec RS).
Context (SQ : sym (3 * dof) Q) (PQ : possemi (3 * dof) Q) (SF : sym (3 * dof) Qf) (PF : possemi (3 * dof) Qf) (SR : sym dof Ru) (PR : posdef dof Ru).
Context (Eq : qc_lqr debug okQ (3 * dof) dof Q Ru xf uref false = Ok q) (EqT : qc_lqr debug okQf (3 * dof) dof Qf (fun _ _ => 0 : RS) xf uref true = Ok qT).
Let n := (3 * dof)%nat.
Let dyn := disc_rk4 n dof (triple (F:=RS) dof) st.
Definition tri_ks : list (Dyn RS * UCost RS) := map (fun k => (if (k =? Z.of_nat N)%Z then identity_dyn else dyn, if (k =? Z.of_nat N)%Z then qc_ucost qT else qc_ucost q)) (zseq 0 (S N)).
Lemma tri_ks_split : tri_ks = repeat (dyn, qc_ucost q) N ++ [(identity_dyn, qc_ucost qT)].
Proof.
  apply (nth_ext _ _ (dyn, qc_ucost q) (dyn, qc_ucost q)).
  - unfold tri_ks. rewrite map_length, len_zseq, app_length, repeat_length. cbn. lia.
  - intros k Hk. unfold tri_ks in *. rewrite map_length, len_zseq in Hk.
    match goal with |- context [map ?g (zseq 0 (S N))] => set (f := g) end. rewrite (nth_indep _ _ (f 0%Z)) by (rewrite map_length, len_zseq; auto). rewrite map_nth, nth_zseq by auto. unfold f. destruct (Z.eqb_spec (Z.of_nat k) (Z.of_nat N)) as [E|E].
    + assert (k = N) as -> by lia. rewrite app_nth2 by (rewrite repeat_length; lia). rewrite repeat_length, Nat.sub_diag. reflexivity.
    + rewrite app_nth1 by (rewrite repeat_length; lia). symmetry. apply (repeat_spec N). apply nth_In. rewrite repeat_length. lia.
Qed.
Lemma tri_val : forall x u, quad_val n dof (uquad (qc_ucost q)) x u = weighted n Q x xf + weighted dof Ru u uref.
Proof.
  intros x u. destruct (lqr_convex debug okQ n dof Q Ru xf uref false q Eq SQ PQ SR PR) as [I _]. rewrite <- (qc_value n dof (@ucost_ops RS) (is_qc n dof) uquad (qc_quad_costs n dof) _ x u I).
  cbn [ucost_ops co_eval fst qc_ucost uc_eval]. apply (C54_lqr debug okQ n dof Q Ru xf uref false q Eq SQ SR).
Qed.
Lemma tri_valT : forall x u, quad_val n dof (uquad (qc_ucost qT)) x u = weighted n Qf x xf.
Proof.
  intros x u. destruct (lqr_terminal debug okQf n dof Qf xf uref true qT EqT SF PF) as [I _]. rewrite <- (qc_value n dof (@ucost_ops RS) (is_qc n dof) uquad (qc_quad_costs n dof) _ x u I).
  cbn [ucost_ops co_eval fst qc_ucost uc_eval]. rewrite (C54_lqr debug okQf n dof Qf (fun _ _ => 0) xf uref true qT EqT SF) by (intros i j _ _; reflexivity). rewrite qform_zero. unfold weighted. lra.
Qed.
Lemma tri_lq_cost (s : ILQR RS (UCost RS)) Y : map (fun k => kp_cost k) (il_kps s) = map snd tri_ks -> length Y = S N ->
  lq_cost n dof uquad s Y = tri_cost dof N Q Ru Qf xf uref (zX Y) (zU Y).
Proof.
  intros EK LY. unfold lq_cost, tri_cost.
  assert (E : map (fun p => quad_val n dof (uquad (kp_cost (fst p))) (z_x (snd p)) (z_u (snd p))) (combine (il_kps s) Y) =
    map (fun p => quad_val n dof (uquad (fst p)) (z_x (snd p)) (z_u (snd p))) (combine (map snd tri_ks) Y)).
  { rewrite <- EK. clear. generalize (il_kps s). intros l. revert Y. induction l as [|k l IH]; intros [|y Y]; try reflexivity. cbn. f_equal. apply IH. }
  rewrite E, tri_ks_split, map_app. cbn [map snd].
  assert (ER : map snd (repeat (dyn, qc_ucost q) N) = repeat (qc_ucost q) N) by (clear; induction N as [|k IH]; [reflexivity|]; cbn; now rewrite IH). rewrite ER.
  rewrite (combine_nth_seq _ _ (qc_ucost q) kp_zero) by (rewrite app_length, repeat_length, LY; cbn; lia). rewrite map_map, fold_fsum. cbn [fst snd]. rewrite app_length, repeat_length. cbn [length]. rewrite Nat.add_1_r, fsum_S. f_equal.
  - apply fsum_ext. intros k Hk. rewrite app_nth1 by (rewrite repeat_length; auto). rewrite nth_repeat. apply tri_val.
  - rewrite app_nth2 by (rewrite repeat_length; lia). rewrite repeat_length, Nat.sub_diag. cbn [nth]. apply tri_valT.
Qed.
(** candidates of the solver and paths of the triple integrator *)
Context (h : R) (Z : Traj RS) (HZ : length Z = S N) (HH : forall k z, (k < N)%nat -> nth_error Z k = Some z -> z_h z = h).
Context (s : ILQR RS (UCost RS)) (EN : il_N s = N) (EX : il_x0 s = x0) (EK : map kp_dyn (il_kps s) = map fst tri_ks).
Lemma kdyn k : (k < N)%nat -> nth_error (map kp_dyn (il_kps s)) k = Some dyn.
Proof.
  intros Hk. rewrite EK, tri_ks_split, map_app, nth_error_app1 by (rewrite map_length, repeat_length; auto). rewrite nth_error_map, nth_error_repeat by auto. reflexivity.
Qed.
Lemma motion_det x u x' x'' i : tri_motion dof h x u x' -> tri_motion dof h x u x'' -> (i < n)%nat -> x' i = x'' i.
Proof.
  intros A B Hi. destruct (Nat.lt_ge_cases i dof) as [H|H].
  - destruct (A i H) as [-> _]. destruct (B i H) as [-> _]. reflexivity.
  - destruct (Nat.lt_ge_cases i (2 * dof)) as [H'|H'].
    + destruct (A (i - dof)%nat ltac:(lia)) as (_ & E & _). destruct (B (i - dof)%nat ltac:(lia)) as (_ & E' & _). replace (dof + (i - dof))%nat with i in * by lia. congruence.
    + destruct (A (i - 2 * dof)%nat ltac:(unfold n in Hi; lia)) as (_ & _ & E). destruct (B (i - 2 * dof)%nat ltac:(unfold n in Hi; lia)) as (_ & _ & E'). replace (2 * dof + (i - 2 * dof))%nat with i in * by lia. congruence.
Qed.
Lemma motion_ext x u x' x'' : tri_motion dof h x u x' -> (forall i, (i < n)%nat -> x'' i = x' i) -> tri_motion dof h x u x''.
Proof. intros A E i Hi. rewrite !E by (unfold n; lia). apply A; auto. Qed.
Lemma candidate_path Y : candidate n s Z Y -> tri_path dof N h x0 (zX Y) (zU Y).
Proof.
  intros (LY & SS & [D0 DS]). rewrite EN in LY, SS. rewrite EX in D0. split.
  - intros i Hi. unfold zX. apply (D0 _ i (nth_error_nth' Y kp_zero (n:=0%nat) ltac:(lia)) Hi).
  - intros k Hk. pose proof (nth_error_nth' Y kp_zero (n:=k) ltac:(lia)) as E1. pose proof (nth_error_nth' Y kp_zero (n:=S k) ltac:(lia)) as E2.
    destruct (DS k dyn _ _ (kdyn k Hk) E1 E2) as [b HB]. fold (zX Y k) (zU Y k) (zX Y (S k)) in HB. eapply motion_ext; [|exact HB].
    pose proof (nth_error_nth' Z kp_zero (n:=k) ltac:(lia)) as E3. destruct (SS k _ _ Hk E3 E1) as [_ EH]. rewrite EH, (HH k _ Hk E3). apply tri_step.
Qed.
Lemma path_candidate X U : tri_path dof N h x0 X U -> exists Y, candidate n s Z Y /\ length Y = S N /\ (forall k, (k <= N)%nat -> zX Y k = X k /\ zU Y k = U k).
Proof.
  intros [P0 PS]. set (Y := map (fun k => mkKP (F:=RS) (X k) (U k) (z_t (nth k Z kp_zero)) (z_h (nth k Z kp_zero))) (seq 0 (S N))).
  assert (LY : length Y = S N) by (unfold Y; rewrite map_length, seq_length; reflexivity).
  assert (NY : forall k, (k <= N)%nat -> nth_error Y k = Some (mkKP (F:=RS) (X k) (U k) (z_t (nth k Z kp_zero)) (z_h (nth k Z kp_zero)))).
  { intros k Hk. unfold Y. rewrite nth_error_map, (nth_error_nth' _ 0%nat) by (rewrite seq_length; lia). rewrite seq_nth by lia. reflexivity. }
  exists Y. split; [|split; [exact LY|]].
  - split; [rewrite EN; exact LY|]. rewrite EN, EX. split; [|split].
    + intros k z y Hk Ez Ey. rewrite NY in Ey by lia. inversion Ey; subst y. cbn [z_t z_h]. rewrite (nth_error_nth _ _ kp_zero Ez). auto.
    + intros z i Ez Hi. rewrite NY in Ez by lia. inversion Ez; subst z. cbn [z_x]. apply P0. exact Hi.
    + intros k f z z' Ef Ez Ez'. assert (Hk : (k < N)%nat). { assert (S k < length Y)%nat by (apply nth_error_Some; congruence). lia. }
      rewrite kdyn in Ef by auto. inversion Ef; subst f. rewrite NY in Ez by lia. rewrite NY in Ez' by lia. inversion Ez; inversion Ez'. exists vzero. intros i Hi. cbn [z_x z_u z_t z_h].
      rewrite (HH k _ Hk (nth_error_nth' Z kp_zero (n:=k) ltac:(lia))). apply (motion_det (X k) (U k)); auto. apply tri_step.
  - intros k Hk. unfold zX, zU. rewrite (nth_error_nth _ _ kp_zero (NY k Hk)). auto.
Qed.
End Tri.
