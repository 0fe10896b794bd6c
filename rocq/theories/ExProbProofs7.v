(** The unicycle problem read through its costs and constraints; its initial trajectory and its solvers. *)
From Coq Require Import Reals Lra ZArith List Bool Lia.
From Verif Require Import Base Lin RLin ConModel ConSpec ConProofs LogModel StatsModel TrajModel IlqrModel IlqrSpec CostInst AlModel DynModel DynSpec DynProofs ExampleModel ExampleSpec ExampleProofs ExampleProofs2 ExampleProofs3 P_Examples P_Traj P_Ilqr ProblemModel ProblemSpec ProblemProofs ProblemProofs2 ProblemProofs3 ProblemProofs4 IlqrProofs5 LqSpec LqProbSpec LltProofs LqInst P_Lqr ExProbModel ExProbSpec ExProbProofs ExProbProofs2 ExProbProofs3 ExProbProofs4 ExProbProofs5 ExProbProofs6.
From Coq Require Import FunctionalExtensionality.
Import List ListNotations LqSpec.
Local Open Scope R_scope.

Section Un.
Context (debug : bool) (ldlt : mat RS -> bool) (dmax : R) (scos ssin : R -> R) (LD : ldlt_diag ldlt) (DM : 3 < dmax).
(** squared distance, and being outside the three discs *)
Definition sq (n : nat) (x y : nat -> R) : R := fsum n (fun i => (x i - y i) * (x i - y i)).
Definition outside (x : nat -> R) : Prop := forall c, In c [3 / 4; 3 / 2; 9 / 4] -> 425 / 1000 <= dist (x 0%nat) (x 1%nat) c c.
Lemma circles_outside (x u buf : vec RS) : in_cone NegativeOrthant (con_dim (cc_con (un_circles (F:=RS)))) (con_eval (cc_con (un_circles (F:=RS))) x u buf) <-> outside x.
Proof.
  rewrite C53_circle.
  - cbn [un_circles fold_left cc_add cc_obs cc_xi cc_yi cc_new List.app fst snd]. unfold outside. unfold lit. rs.
    split.
    + intros H c [<-|[<-|[<-|[]]]].
      * specialize (H _ (or_introl eq_refl)). cbn [ci_x ci_y ci_r] in H. replace (3 / 4) with (25 / 100 * 3) by lra. exact H.
      * specialize (H _ (or_intror (or_introl eq_refl))). cbn [ci_x ci_y ci_r] in H. replace (3 / 2) with (50 / 100 * 3) by lra. exact H.
      * specialize (H _ (or_intror (or_intror (or_introl eq_refl)))). cbn [ci_x ci_y ci_r] in H. replace (9 / 4) with (75 / 100 * 3) by lra. exact H.
    + intros H o [<-|[<-|[<-|[]]]]; cbn [ci_x ci_y ci_r].
      * replace (25 / 100 * 3) with (3 / 4) by lra. apply H. left. reflexivity.
      * replace (50 / 100 * 3) with (3 / 2) by lra. apply H. right. left. reflexivity.
      * replace (75 / 100 * 3) with (9 / 4) by lra. apply H. right. right. left. reflexivity.
  - cbn [un_circles fold_left cc_add cc_obs cc_new List.app]. intros o [<-|[<-|[<-|[]]]]; cbn [ci_r]; unfold lit; rs; lra.
Qed.
Theorem un_contents add s h : un_ok dmax s -> let N := Z.to_nat (un_N s) in let three := un_three s in let st := sc_tf three / IZR (un_N s) in let uref := (fun i => nth (A:=R) i (un_uref s) 0) in
  exists h' p u, un_make debug ldlt dmax scos ssin add s h = Ok ((h', p), u) /\ pr_is_fully_defined h' p = Ok true /\ pr_segments p = Ok (un_N s) /\
    pr_num_constraints debug p = Ok ((if three then 3 * (N - 1) else 0) + (if add then 4 * N + 3 else 0))%nat /\ h_get (pr_init p) h' = sc_x0 s /\
    (forall k, (k < N)%nat -> nth_error (pr_models p) k = Some (Some (mkModel 3 2 (disc_rk4 3 2 (unicycle (F:=RS) scos ssin) (un_st s))))) /\
    (forall k x v, (k < N)%nat -> cost_at p k x v (/ 2 * (sc_wx three * st * sq 3 x (sc_xf s) + sc_wu three * st * sq 2 v uref))) /\
    (forall x v, cost_at p N x v (/ 2 * (sc_wf three * sq 3 x (sc_xf s)))) /\
    (forall k x v, (k < N)%nat -> (feasible_at p k x v <-> (three = true -> (1 <= k)%nat -> outside x) /\ (add = true -> forall i, (i < 2)%nat -> sc_lo s i <= v i <= sc_hi s i))) /\
    (forall x v, feasible_at p N x v <-> (add = true -> forall i, (i < 3)%nat -> x i = sc_xf s i)) /\
    u = un_prep s.
Proof.
  intros OK N three st uref. destruct (un_shape debug ldlt dmax scos ssin LD DM add s h OK) as (h' & p & s0 & b & q & qT & E0 & (RUN & CT) & EM & FD & Eq & EqT & BD & BX & _).
  pose proof OK as (HN & LX & DQ & DR & DF & _). destruct (prep_Q dmax s OK) as (EQ & ER & EF & EX & EU & _ & _ & _ & ES). fold three in EQ, ER, EF. fold st in EQ, ER.
  set (u := un_prep s) in *. exists h', p, u.
  pose proof (sh_holds (un_N s) HN _ _ _ _ _ _ _ h h' p CT) as HO.
  assert (XF : lvec (un_xf u) = sc_xf s) by (unfold u, un_prep, sc_xf; destruct (un_three s); reflexivity).
  assert (UF : lvec (un_uref u) = uref) by (rewrite EU; reflexivity).
  assert (ZN : forall k : nat, (k < N)%nat -> (0 <= Z.of_nat k <= un_N s)%Z /\ (Z.of_nat k < un_N s)%Z) by (unfold N; intros; lia).
  split; [exact EM|]. split; [exact FD|]. split; [apply (ho_N _ _ _ _ _ _ _ _ HO)|]. split.
  { rewrite (sh_num debug _ _ _ _ _ _ _ _ _ _ _ HN CT). f_equal. unfold three, N, u, un_prep. destruct (un_three s), add; cbn [odim]; rewrite ?BD; cbn [con_dim cc_con goal_con un_circles fold_left cc_add cc_obs cc_new List.app length un_obs un_avoid]; lia. }
  split; [rewrite (ho_init _ _ _ _ _ _ _ _ HO); exact EX|].
  assert (W3 : forall c A x y, diagonal 3 A -> qform 3 3 (set_diag (F:=RS) c A) (fun i => x i - y i) (fun i => x i - y i) = c * sq 3 x y) by (intros; apply form_diag; auto).
  assert (W2 : forall c A x y, diagonal 2 A -> qform 2 2 (set_diag (F:=RS) c A) (fun i => x i - y i) (fun i => x i - y i) = c * sq 2 x y) by (intros; apply form_diag; auto).
  split; [|split; [|split; [|split; [|split]]]].
  - intros k Hk. destruct (ZN k Hk). rewrite <- (Nat2Z.id k) at 1. rewrite (ho_dyn _ _ _ _ _ _ _ _ HO) by lia. unfold un_model. rewrite ES. reflexivity.
  - intros k x v Hk. destruct (ZN k Hk) as [A B]. pose proof (cost_of _ _ _ _ _ _ _ _ _ x v HO A) as CO. rewrite Nat2Z.id in CO. unfold sh_cost in CO. replace (Z.of_nat k =? un_N s)%Z with false in CO by (symmetry; apply Z.eqb_neq; lia).
    cbn [qc_ucost uc_eval] in CO. rewrite (C54_lqr _ _ _ _ _ _ _ _ _ _ Eq) in CO by (rewrite ?EQ, ?ER; apply set_diag_sym; auto).
    rewrite EQ, ER, XF, UF in CO. rewrite (W3 _ _ x (sc_xf s) DQ), (W2 _ _ v uref DR) in CO.
    match type of CO with cost_at _ _ _ _ ?a => match goal with |- cost_at _ _ _ _ ?b => replace b with a by lra end end. exact CO.
  - intros x v. pose proof (cost_of _ _ _ _ _ _ _ _ (un_N s) x v HO ltac:(lia)) as CO. unfold sh_cost in CO. rewrite Z.eqb_refl in CO.
    cbn [qc_ucost uc_eval] in CO. rewrite (C54_lqr _ _ _ _ _ _ _ _ _ _ EqT) in CO; [|rewrite ?EF; apply set_diag_sym; auto|intros i j _ _; reflexivity]. rewrite qform_zero in CO.
    rewrite EF, XF in CO. rewrite (W3 _ _ x (sc_xf s) DF) in CO.
    match type of CO with cost_at _ _ _ _ ?a => match goal with |- cost_at _ _ _ _ ?b => replace b with a by lra end end. exact CO.
  - intros k x v Hk. destruct (ZN k Hk) as [A B]. pose proof (feasible_of _ _ _ _ _ _ _ _ _ x v HO A) as FO. rewrite Nat2Z.id in FO. rewrite FO. clear FO. unfold sh_eq, sh_ineq.
    replace (Z.of_nat k =? un_N s)%Z with false by (symmetry; apply Z.eqb_neq; lia). replace (Z.of_nat k <? un_N s)%Z with true by (symmetry; apply Z.ltb_lt; lia). rewrite andb_true_r.
    split.
    + intros [_ G]. split.
      * intros H3 Hk1. apply (circles_outside x v vzero). apply (G (cc_con (un_circles (F:=RS))) vzero). apply in_or_app. left. unfold u, un_prep. unfold three in H3. rewrite H3. cbn [un_obs un_avoid]. replace (1 <=? Z.of_nat k)%Z with true by (symmetry; apply Z.leb_le; lia). left. reflexivity.
      * intros HA. rewrite HA in G. apply (BX x v vzero). apply (G (cb_con 3 b) vzero). apply in_or_app. right. left. reflexivity.
    + intros [G1 G2]. split.
      * intros con buf HI. exfalso. destruct add; exact HI.
      * intros con buf HI. apply in_app_or in HI. destruct HI as [HI|HI].
        -- unfold u, un_prep in HI. fold three in HI. destruct three eqn:E3; [|contradiction]. destruct (Z.leb_spec 1 (Z.of_nat k)); [|contradiction]. destruct HI as [<-|[]]. cbn [un_obs un_avoid]. apply circles_outside. apply G1; auto. lia.
        -- destruct add; [|contradiction]. destruct HI as [<-|[]]. apply BX. apply G2. reflexivity.
  - intros x v. unfold N. rewrite (feasible_of _ _ _ _ _ _ _ _ (un_N s) x v HO ltac:(lia)). unfold sh_eq, sh_ineq. rewrite Z.eqb_refl, Z.ltb_irrefl, andb_false_r. destruct (C53_goal 3 2 (sc_xf s)) as [CG _]. rewrite XF. destruct add.
    + split.
      * intros [G _] _. apply (CG x v vzero). apply (G (goal_con (F:=RS) 3 (sc_xf s)) vzero). left. reflexivity.
      * intros G. split; [|intros con buf HI; exfalso; destruct (un_three s); exact HI]. intros con buf [<-|[]]. apply (CG x v buf). apply G. reflexivity.
    + split; [discriminate|]. intros _. split; [intros con buf []|]. intros con buf HI. exfalso. destruct (un_three s); exact HI.
  - reflexivity.
Qed.

(** * InitialTrajectory *)
Theorem un_traj (s : UNP RS) : (1 <= un_N s)%Z -> let N := Z.to_nat (un_N s) in length (un_trajectory s) = S N /\
  (forall k, (k < N)%nat -> exists z, nth_error (un_trajectory s) k = Some z /\ (forall i, z_u z i = nth (A:=R) i (un_u0 s) 0) /\ (forall i, z_x z i = 0) /\ z_h z = un_tf s / IZR (un_N s) /\ z_t z = INR k * (un_tf s / IZR (un_N s))) /\
  exists z, nth_error (un_trajectory s) N = Some z /\ (forall i, z_u z i = 0) /\ (forall i, z_x z i = 0) /\ z_h z = 0 /\ z_t z = un_tf s.
Proof.
  intros HN N. unfold un_trajectory. fold N. set (Z := map _ _ ++ _). set (h := un_time_step s).
  assert (EH : h = un_tf s / IZR (un_N s)) by reflexivity.
  assert (LZ : length Z = S N) by (unfold Z; rewrite app_length, map_length, repeat_length; cbn; lia).
  destruct (C47_uniform_step RS h Z) as [HL HK].
  assert (NK : forall k, (k < N)%nat -> nth_error Z k = Some (kp_set_u (lvec (un_u0 s)) kp_zero)).
  { intros k Hk. unfold Z. rewrite nth_error_app1 by (rewrite map_length, repeat_length; auto). rewrite nth_error_map, nth_error_repeat by auto. reflexivity. }
  assert (NN : nth_error Z N = Some kp_zero). { unfold Z. rewrite nth_error_app2; rewrite map_length, repeat_length; [|lia]. rewrite Nat.sub_diag. reflexivity. }
  split; [rewrite HL; exact LZ|]. split.
  - intros k Hk. destruct (HK k _ (NK k Hk)) as (z' & E1 & E2 & E3 & E4 & _). exists z'. split; [exact E1|]. rewrite E3, E2. destruct (E4 ltac:(lia)) as [-> ->].
    split; [reflexivity|]. split; [reflexivity|]. split; [exact EH|]. cbn [f32mul]. rewrite INR_IZR_INZ. unfold f32mul. rs. rewrite <- EH. reflexivity.
  - destruct (HK N _ NN) as (z' & E1 & E2 & E3 & _ & E5). exists z'. split; [exact E1|]. rewrite E3, E2. destruct (E5 ltac:(lia)) as [-> ->].
    split; [reflexivity|]. split; [reflexivity|]. split; [reflexivity|]. unfold f32mul. rs. rewrite EH. unfold N. rewrite Z2Nat.id by lia. field. apply not_0_IZR. lia.
Qed.

(** * MakeSolver and MakeALSolver *)
(** a solver over N segments that starts at x0, with dynamics [f] on every segment and a trajectory that obeys them, uses the control
    [u0] and the step [st] on every segment; Zbar has the right length *)
Record ready_with {CS} (N : nat) (x0 : nat -> R) (f : Dyn RS) (u0 : nat -> R) (st : R) (sol : ILQR RS CS) : Prop := {
  rw_N : il_N sol = N; rw_kps : length (il_kps sol) = S N; rw_x0 : il_x0 sol = x0;
  rw_dyn : forall k, (k < N)%nat -> nth_error (map kp_dyn (il_kps sol)) k = Some f;
  rw_Z : exists Z Zb, il_Z sol = Some Z /\ length Z = S N /\ dyn_feasible 3 x0 (map kp_dyn (il_kps sol)) Z /\ il_Zb sol = Some Zb /\ length Zb = S N /\
    forall k z, (k < N)%nat -> nth_error Z k = Some z -> (forall i, (i < 2)%nat -> z_u z i = u0 i) /\ z_h z = st }.
Lemma rollout_ready {CS} (s : UNP RS) (x0 : vec RS) f (ks : list (Dyn RS * CS)) : (1 <= un_N s)%Z -> let N := Z.to_nat (un_N s) in length ks = S N -> (forall k, (k < N)%nat -> nth_error (map fst ks) k = Some f) ->
  let sol := il_set_trajectory (un_trajectory s) (il_make N x0 ks) in
  ready_with N x0 f (fun i => nth (A:=R) i (un_u0 s) 0) (un_tf s / IZR (un_N s)) (il_set_Z sol (Some (il_rollout 3 (un_trajectory s) sol))).
Proof.
  intros HN N LK HF sol. destruct (un_traj s HN) as (L & HK & _). fold N in L, HK.
  assert (K1 : il_kps sol = map (fun p => kpf_make (fst p) (snd p)) ks) by reflexivity.
  assert (K2 : length (il_kps sol) = S (il_N sol)) by (rewrite K1, map_length; exact LK).
  destruct (C17_rollout RS CS 3 sol (un_trajectory s) K2 L) as (A & B & C). set (Z1 := il_rollout 3 (un_trajectory s) sol) in *.
  assert (LZ : length Z1 = S N). { rewrite <- L. apply (f_equal (@length _)) in C. rewrite !map_length in C. exact C. }
  split.
  - reflexivity.
  - change (il_kps (il_set_Z sol (Some Z1))) with (il_kps sol). rewrite K2. reflexivity.
  - reflexivity.
  - intros k Hk. change (il_kps (il_set_Z sol (Some Z1))) with (il_kps sol). rewrite K1, map_map. apply HF. exact Hk.
  - exists Z1, (traj_set_zero (un_trajectory s)). split; [reflexivity|]. split; [exact LZ|]. split; [exact A|]. split; [reflexivity|]. split; [unfold traj_set_zero; rewrite map_length; exact L|].
    intros k z Hk Ez. destruct (HK k Hk) as (z0 & E0 & EU & _ & EH & _).
    assert (EC : nth_error (map z_u Z1) k = nth_error (map z_u (un_trajectory s)) k) by (now rewrite C).
    rewrite !nth_error_map, Ez, E0 in EC. cbn in EC. inversion EC as [EC'].
    assert (ET : nth_error (times Z1) k = nth_error (times (un_trajectory s)) k) by (now rewrite B).
    unfold times in ET. rewrite !nth_error_map, Ez, E0 in ET. cbn in ET. inversion ET as [[ET1 ET2]].
    split; [intros i _; rewrite EC'; apply EU|]. rewrite ET2. exact EH.
Qed.
Theorem un_solvers (s : UNP RS) h on om : un_ok dmax s -> (on = None \/ on = Some 3%nat) -> (om = None \/ om = Some 2%nat) ->
  let N := Z.to_nat (un_N s) in let x0 := (fun i => nth (A:=R) i (sc_x0 s) 0) in let f := disc_rk4 3 2 (unicycle (F:=RS) scos ssin) (un_st s) in let st := sc_tf (un_three s) / IZR (un_N s) in
  (exists sol, un_solver debug ldlt dmax scos ssin on om s h = Ok (sol, un_prep s) /\ ready_with N x0 f (sc_u0 s) st sol) /\
  (exists a, un_al_solver debug ldlt dmax scos ssin true on om s h = Ok (a, un_prep s) /\ ready_with N x0 f (sc_u0 s) st (as_il a)).
Proof.
  intros OK Hon Hom N x0 f st.
  destruct (un_shape debug ldlt dmax scos ssin LD DM true s h OK) as (h' & p & s0 & b & q & qT & E0 & (RUN & CT) & EM & FD & Eq & EqT & BD & BX & _).
  pose proof OK as (HN & LX & _). destruct (prep_Q dmax s OK) as (_ & _ & _ & EX & _ & EN & _ & ET & ES).
  set (u := un_prep s) in *.
  assert (EU : forall i, nth (A:=R) i (un_u0 u) 0 = sc_u0 s i) by (intros i; unfold u, un_prep, sc_u0; destruct (un_three s); reflexivity).
  assert (FU : (fun i => nth (A:=R) i (un_u0 u) 0) = sc_u0 s) by (apply functional_extensionality; exact EU).
  pose proof (sh_holds (un_N s) HN _ _ _ _ _ _ _ h h' p CT) as HO.
  assert (EMD : md_dyn (un_model scos ssin u) = f) by (unfold un_model; rewrite ES; reflexivity).
  assert (FIN : forall CS (ks : list (Dyn RS * CS)), length ks = S N -> (forall k, (k < N)%nat -> nth_error (map fst ks) k = Some f) ->
    ready_with N x0 f (sc_u0 s) st (il_set_Z (il_set_trajectory (un_trajectory u) (il_make N x0 ks)) (Some (il_rollout 3 (un_trajectory u) (il_set_trajectory (un_trajectory u) (il_make N x0 ks)))))).
  { intros CS ks LK HF. pose proof (rollout_ready u x0 f ks) as RR. rewrite EN, FU, ET in RR. apply RR; auto. }
  assert (NTH : forall CS (g : Z -> Dyn RS * CS) k, (forall j, (0 <= j < un_N s)%Z -> fst (g j) = f) -> (k < N)%nat -> nth_error (map fst (map g (zseq 0 (Z.to_nat (un_N s + 1))))) k = Some f).
  { intros CS g k HG Hk. rewrite map_map. unfold zseq. rewrite map_map. rewrite nth_error_map. rewrite (nth_error_nth' _ 0%nat) by (rewrite seq_length; unfold N in Hk; lia). rewrite seq_nth by (unfold N in Hk; lia). cbn [option_map]. rewrite HG by (unfold N in Hk; lia). reflexivity. }
  split.
  - unfold un_solver. rewrite EM. cbn [bind].
    rewrite (holds_copy debug on om _ _ _ _ _ _ _ _ HN HO FD); [|cbn; destruct Hon as [->| ->]; reflexivity|cbn; destruct Hom as [->| ->]; reflexivity].
    cbn [bind]. rewrite EX. change (fun i => nth i (sc_x0 s) zero) with x0. fold N. eexists. split; [reflexivity|]. apply FIN.
    + rewrite map_length, len_zseq. unfold N. lia.
    + intros k Hk. apply NTH; auto. intros j Hj. cbn [fst]. rewrite (proj2 (Z.eqb_neq j (un_N s))) by lia. exact EMD.
  - unfold un_al_solver. rewrite EM. cbn [bind].
    match type of CT with contents _ _ ?o _ _ => set (os := o) in * end.
    rewrite (solver_of_problem debug 3 2 on om (un_N s) h s0 os h' p (fun _ => un_model scos ssin u) (sh_cost (un_N s) (qc_ucost q) (qc_ucost qT))); auto.
    + cbn [bind]. unfold as_make. cbn [as_il as_status].
      assert (EI : init_given os = sc_x0 s) by (unfold os; rewrite sh_init_given; exact EX). rewrite EI. change (fun i => nth i (sc_x0 s) zero) with x0. fold N. eexists. split; [reflexivity|]. cbn [as_il]. apply FIN.
      * rewrite !map_length, len_zseq. unfold N. lia.
      * intros k Hk. rewrite map_map. apply NTH; auto. intros j Hj. cbn [fst]. rewrite (proj2 (Z.eqb_neq j (un_N s))) by lia. exact EMD.
    + apply sh_complete; auto; [cbn; lia|]. cbn [un_model md_n]. rewrite EX. unfold sc_x0. destruct (un_three s); [reflexivity|]. change (@length (T RS)) with (@length R). rewrite LX. reflexivity.
    + intros k Hk. apply sh_dyn_given; auto.
    + intros k Hk. apply sh_cost_given; auto.
Qed.
End Un.
