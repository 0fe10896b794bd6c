(** The problems made by TripleIntegratorProblem and UnicycleProblem. *)
From Coq Require Import Reals Lra ZArith List Bool Lia.
From Verif Require Import Base Lin RLin ConModel ConSpec LogModel StatsModel TrajModel IlqrModel CostInst AlModel DynModel ExampleModel ExampleSpec ExampleProofs3 ProblemModel ProblemSpec ProblemProofs ProblemProofs2 ProblemProofs3 ProblemProofs4 LqSpec LltProofs LqInst ExProbModel ExProbSpec ExProbProofs.
From Coq Require Import FunctionalExtensionality.
Import List ListNotations LqSpec.
Local Open Scope Z_scope.

(** * any arithmetic *)
Section Gen.
Context {F : Scalar} (debug : bool) (ldlt : mat F -> bool) (dmax : F).
Lemma sum_zseq (f : Z -> nat) a n : list_sum (map f (zseq a (S n))) = (f a + list_sum (map f (zseq (a + 1) n)))%nat.
Proof. rewrite zseq_S. reflexivity. Qed.
Lemma sum_const (f : Z -> nat) v n : forall a, (forall k, a <= k < a + Z.of_nat n -> f k = v) -> list_sum (map f (zseq a n)) = (n * v)%nat.
Proof. induction n as [|n IH]; intros a H; [reflexivity|]. rewrite sum_zseq, (H a) by lia. rewrite IH by (intros; apply H; lia). reflexivity. Qed.
Definition odim (o : option (Con F)) : nat := match o with Some c => con_dim c | None => 0%nat end.
Theorem sh_num debug' N obs c cT md bg x0 late h p loc : 1 <= N -> contents N loc (shape N obs c cT md bg x0 late) h p ->
  pr_num_constraints debug' p = Ok (Z.to_nat (N - 1) * odim obs + (match bg with Some (b, g) => Z.to_nat N * con_dim b + con_dim g | None => 0 end))%nat.
Proof.
  intros HN Hc. rewrite (num_ok debug' N loc _ h p Hc). f_equal.
  set (f := fun k => _). replace (Z.to_nat (N + 1)) with (S (Z.to_nat (N - 1) + 1)) by lia.
  assert (HF : forall k, 0 <= k <= N -> f k = (con_dims (sh_eq N bg k) + con_dims (sh_ineq N obs bg k))%nat).
  { intros k Hk. unfold f. rewrite !sh_con_given by lia. reflexivity. }
  set (db := match bg with Some (b, _) => con_dim b | None => 0%nat end). set (dg := match bg with Some (_, g) => con_dim g | None => 0%nat end).
  rewrite sum_zseq. rewrite HF by lia.
  assert (E0 : (con_dims (sh_eq N bg 0) + con_dims (sh_ineq N obs bg 0))%nat = db).
  { unfold sh_eq, sh_ineq, db. replace (0 =? N) with false by (symmetry; apply Z.eqb_neq; lia). replace (0 <? N) with true by (symmetry; apply Z.ltb_lt; lia).
    destruct obs, bg as [[b g]|]; cbn; lia. }
  rewrite E0. unfold zseq. rewrite seq_app, map_app, map_app. unfold list_sum. rewrite fold_right_app. fold (list_sum).
  assert (EN : list_sum (map f (map (fun i => 0 + 1 + Z.of_nat i) (seq (0 + Z.to_nat (N - 1)) 1))) = dg).
  { cbn [seq map list_sum fold_right]. replace (0 + 1 + Z.of_nat (0 + Z.to_nat (N - 1))) with N by lia. rewrite HF by lia. unfold sh_eq, sh_ineq, dg. rewrite Z.eqb_refl, Z.ltb_irrefl, andb_false_r.
    destruct obs, bg as [[b g]|]; cbn; lia. }
  change (fold_right Nat.add 0%nat) with list_sum. rewrite EN.
  assert (EA : forall l a, fold_right Nat.add a l = (list_sum l + a)%nat). { induction l as [|x l IH]; intros a; cbn; [lia|]. rewrite IH. unfold list_sum. lia. }
  rewrite EA. change (map (fun i => 0 + 1 + Z.of_nat i) (seq 0 (Z.to_nat (N - 1)))) with (zseq 1 (Z.to_nat (N - 1))).
  rewrite (sum_const f (odim obs + db)).
  - unfold db, dg. replace (Z.to_nat N) with (S (Z.to_nat (N - 1))) by lia. destruct bg as [[b g]|]; lia.
  - intros k Hk. rewrite HF by lia. unfold sh_eq, sh_ineq, db, odim. replace (k =? N) with false by (symmetry; apply Z.eqb_neq; lia). replace (1 <=? k) with true by (symmetry; apply Z.leb_le; lia).
    replace (k <? N) with true by (symmetry; apply Z.ltb_lt; lia). destruct obs, bg as [[b g]|]; cbn; lia.
Qed.

(** MakeProblem of the triple integrator as a history of calls *)
Lemma for_cost l (r : res (UCost F)) c (s : heap F * Prob F (UCost F)) : r = Ok c ->
  for_z l (fun k s => do q <- r ; pr_step debug (PCost (Some q) k) s) s = pr_run debug (map (fun k => PCost (Some c) k) l) s.
Proof. intros ->. cbn [bind]. apply (for_z_run debug (fun k => PCost (Some c) k)). Qed.
Lemma for_con l n (r : res (CB F)) b (s : heap F * Prob F (UCost F)) : r = Ok b ->
  for_z l (fun k s => do q <- r ; pr_step debug (PCon (C:=UCost F) Inequality (cb_con n q) k) s) s = pr_run debug (map (fun k => PCon Inequality (cb_con n b) k) l) s.
Proof. intros ->. cbn [bind]. apply (for_z_run debug (fun k => PCon Inequality (cb_con n b) k)). Qed.
Theorem ti_make_run dof uref st add t h s0 c cT lb ub b :
  pr_new (ti_N t) h = Ok s0 ->
  lqr_cost debug ldlt (3 * dof) dof (ti_Q t) (ti_R t) (lvec (ti_xf t)) uref false = Ok c ->
  lqr_cost debug ldlt (3 * dof) dof (ti_Qf t) (mscale zero (ti_R t)) (lvec (ti_xf t)) uref true = Ok cT ->
  (add = true -> ti_bounds (ti_ubnd t) 0 dof = Ok (lb, ub) /\ cb_make dmax debug lb ub = Ok b) ->
  ti_make debug ldlt dmax dof uref st add t h =
    pr_run debug (shape (ti_N t) None c cT (ti_model dof st) (if add then Some (cb_con (3 * dof) b, goal_con (3 * dof) (lvec (ti_xf t))) else None) (ti_x0 t) false) s0.
Proof.
  intros E0 E1 E2 E3. unfold ti_make. rewrite E0. cbn [bind]. rewrite E2. cbn [bind]. rewrite (for_cost _ _ c _ E1).
  unfold shape. cbn [List.app]. rewrite run_app.
  destruct (pr_run debug (map (fun k => PCost (Some c) k) (zseq 0 (Z.to_nat (ti_N t)))) s0) as [s1| | | | |]; cbn [bind]; try reflexivity.
  cbn [List.app pr_run]. destruct (pr_step debug (PCost (Some cT) (ti_N t)) s1) as [s2| | | | |]; cbn [bind]; try reflexivity.
  rewrite run_app, (for_z_run debug (fun k => PDyn (Some (ti_model dof st)) k)).
  destruct (pr_run debug (map (fun k => PDyn (Some (ti_model dof st)) k) (zseq 0 (Z.to_nat (ti_N t)))) s2) as [s3| | | | |]; cbn [bind]; try reflexivity.
  cbn [List.app pr_run]. destruct (pr_step debug (PInit (ti_x0 t)) s3) as [s4| | | | |]; cbn [bind]; try reflexivity. rewrite app_nil_r.
  destruct add; [|reflexivity]. destruct (E3 eq_refl) as [-> E4]. cbn [bind]. rewrite (for_con _ _ _ b _ E4). rewrite run_app.
  match goal with |- context [bind ?x] => destruct x; cbn [bind]; try reflexivity end. apply step_run.
Qed.

(** MakeProblem of the unicycle *)
Context (scos ssin : F -> F).
Definition un_prep (s : UNP F) : UNP F := if un_three s then un_avoid s else un_turn s.
Theorem un_make_run add s h s0 c cT b :
  pr_new (un_N s) h = Ok s0 -> let u := un_prep s in
  lqr_cost debug ldlt 3 2 (un_Q u) (un_R u) (lvec (un_xf u)) (lvec (un_uref u)) false = Ok c ->
  lqr_cost debug ldlt 3 2 (un_Qf u) (mscale zero (un_R u)) (lvec (un_xf u)) (lvec (un_uref u)) true = Ok cT ->
  (add = true -> cb_make dmax debug (un_lb u) (un_ub u) = Ok b) ->
  un_make debug ldlt dmax scos ssin add s h =
    do p <- pr_run debug (shape (un_N s) (if un_three s then Some (cc_con (un_obs u)) else None) c cT (un_model scos ssin u)
              (if add then Some (cb_con 3 b, goal_con 3 (lvec (un_xf u))) else None) (un_x0 u) true) s0 ; Ok (p, u).
Proof.
  intros E0 u E1 E2 E3. unfold un_make. rewrite E0. cbn [bind]. fold (un_prep s). fold u.
  unfold shape. rewrite !run_app.
  assert (EO : (if un_three s then for_z (zseq 1 (Z.to_nat (un_N s - 1))) (fun k p => pr_step debug (PCon Inequality (cc_con (un_obs u)) k) p) s0 else Ok s0) =
    pr_run debug (match (if un_three s then Some (cc_con (un_obs u)) else None) with Some o => map (fun k => PCon (C:=UCost F) Inequality o k) (zseq 1 (Z.to_nat (un_N s - 1))) | None => [] end) s0).
  { destruct (un_three s); [apply (for_z_run debug (fun k => PCon Inequality (cc_con (un_obs u)) k))|reflexivity]. }
  rewrite EO. clear EO. match goal with |- context [bind (pr_run debug ?l s0)] => destruct (pr_run debug l s0) as [s1| | | | |] end; cbn [bind]; try reflexivity.
  rewrite (for_cost _ _ c _ E1), run_app. destruct (pr_run debug (map (fun k => PCost (Some c) k) (zseq 0 (Z.to_nat (un_N s)))) s1) as [s2| | | | |]; cbn [bind]; try reflexivity.
  rewrite E2. cbn [bind List.app pr_run]. destruct (pr_step debug (PCost (Some cT) (un_N s)) s2) as [s3| | | | |]; cbn [bind]; try reflexivity.
  rewrite run_app, (for_z_run debug (fun k => PDyn (Some (un_model scos ssin u)) k)).
  destruct (pr_run debug (map (fun k => PDyn (Some (un_model scos ssin u)) k) (zseq 0 (Z.to_nat (un_N s)))) s3) as [s4| | | | |]; cbn [bind]; try reflexivity.
  cbn [List.app]. rewrite run_app.
  assert (EB : (if add then do p <- for_z (zseq 0 (Z.to_nat (un_N s))) (fun k p => do bnd <- cb_make dmax debug (un_lb u) (un_ub u) ; pr_step debug (PCon (C:=UCost F) Inequality (cb_con 3 bnd) k) p) s4 ;
                 pr_step debug (PCon Equality (goal_con 3 (lvec (un_xf u))) (un_N s)) p else Ok s4) =
    pr_run debug (match (if add then Some (cb_con 3 b, goal_con 3 (lvec (un_xf u))) else None) with Some (b, g) => map (fun k => PCon (C:=UCost F) Inequality b k) (zseq 0 (Z.to_nat (un_N s))) ++ [PCon Equality g (un_N s)] | None => [] end) s4).
  { destruct add; [|reflexivity]. rewrite (for_con _ _ _ b _ (E3 eq_refl)), run_app. match goal with |- context [bind ?x] => destruct x; cbn [bind]; try reflexivity end. apply step_run. }
  rewrite EB. match goal with |- context [bind (pr_run debug ?l s4)] => destruct (pr_run debug l s4) as [s5| | | | |] end; cbn [bind]; try reflexivity. now rewrite step_run.
Qed.
End Gen.

(** * exact arithmetic *)
Local Open Scope R_scope.
Lemma approx_sym n (A : mat RS) : sym n A -> is_approx_tr n A = true.
Proof.
  intros H. unfold is_approx_tr. apply Rleb_true.
  assert (Z : fro2 n n (fun i j => sub (A i j) (A j i)) = 0).
  { unfold fro2. apply rsum_zero'. intros i Hi. apply rsum_zero'. intros j Hj. rewrite (H i j Hi Hj). rs. lra. }
  assert (P : forall B : mat RS, 0 <= fro2 n n B).
  { intros B. unfold fro2. apply rsum_nonneg. intros i Hi. apply rsum_nonneg. intros j Hj. rs. nra. }
  rewrite Z. pose proof (P A). pose proof (P (mtr A)). unfold smin, lit. rs.
  assert (0 <= if Rltb (fro2 n n (mtr A)) (fro2 n n A) then fro2 n n (mtr A) else fro2 n n A) by (destruct (Rltb _ _); lra).
  assert (0 < 1 / 1000000000000 * (1 / 1000000000000)) by lra. nra.
Qed.
Lemma sym_store n (A : mat RS) : sym n A -> sym n (mstore n n A).
Proof. intros H i j Hi Hj. rewrite !mstore_lt by auto. auto. Qed.
(** a quadratic cost with symmetric weights passes the validation *)
Lemma lqr_ok debug ldlt n m (Q R : mat RS) xref uref term : sym n Q -> sym m R -> (term = true \/ posdef m R) -> ldlt Q = true ->
  exists q, qc_lqr debug (ldlt Q) n m Q R xref uref term = Ok q /\ lqr_cost debug ldlt n m Q R xref uref term = Ok (qc_ucost q).
Proof.
  intros SQ SR PR EL. unfold lqr_cost, qc_lqr, qc_make, qc_validate. cbn [qc_n qc_m qc_Q qc_R qc_term].
  rewrite (approx_sym n _ (sym_store n Q SQ)), (approx_sym m _ (sym_store m R SR)), EL.
  assert (EP : term || match llt m (mstore m m R) with Some _ => true | None => false end = true).
  { destruct PR as [->|PR]; [reflexivity|]. destruct (posdef_llt m (mstore m m R)) as [L E].
    - apply sym_store; auto.
    - intros x Hx. specialize (PR x Hx). rewrite form_rsum in *. erewrite rsum_ext; [exact PR|]. intros i Hi. cbv beta. f_equal. apply rsum_ext. intros j Hj. now rewrite mstore_lt by auto.
    - rewrite E. apply orb_true_r. }
  rewrite EP, !assert_true. cbn [bind]. eauto.
Qed.
