(** The augmented-Lagrangian solver made by UnicycleProblem works on a problem with the hypotheses of C83. *)
From Coq Require Import Reals Lra Lia List Bool ZArith Psatz Arith.
From Coquelicot Require Import Coquelicot.
Import List ListNotations.
From Verif Require Import Base Lin RLin ConModel ConSpec ConProofs LogModel StatsModel TrajModel IlqrModel IlqrSpec CostInst AlModel DynModel DynSpec DynProofs ExampleModel ExampleSpec ExampleProofs ExampleProofs2 ExampleProofs3 P_Dyn P_Examples P_Traj P_Ilqr ProblemModel ProblemSpec ProblemProofs ProblemProofs2 ProblemProofs3 ProblemProofs4 IlqrProofs5 LqSpec LqProbSpec LltProofs LqInst P_Lqr ExProbModel ExProbSpec ExProbProofs ExProbProofs2 ExProbProofs3 ExProbProofs4 ExProbProofs5 ExProbProofs6 ExProbProofs7 NlSpec NlAlSpec NlAlProofs NlLibProofs.
From Coq Require Import FunctionalExtensionality.
Import List ListNotations LqSpec.
Local Open Scope R_scope.

Section Un.
Context (debug : bool) (ldlt : mat RS -> bool) (dmax : R) (LD : ldlt_diag ldlt) (DM : 3 < dmax).
Lemma rolled_steps {CS} (I : ILQR RS CS) (Z1 : Traj RS) : length (il_kps I) = S (il_N I) -> length Z1 = S (il_N I) -> same_steps (il_N I) (il_rollout 3 Z1 I) (traj_set_zero Z1).
Proof.
  intros L1 L2 k z y Hk Hz Hy. destruct (C17_rollout RS CS 3 I Z1 L1 L2) as (_ & T & _).
  assert (E : nth_error (times (il_rollout 3 Z1 I)) k = nth_error (times Z1) k) by (rewrite T; reflexivity).
  unfold times in E. rewrite !nth_error_map, Hz in E. unfold traj_set_zero in Hy. rewrite nth_error_map in Hy. destruct (nth_error Z1 k) as [z1|]; [|discriminate]. cbn in Hy, E. inversion Hy; inversion E. auto.
Qed.
Lemma fresh_scal n m cost eqs ineqs v : In v (al_cvs (al_make (F:=RS) n m cost eqs ineqs)) -> 0 < cv_scal v.
Proof.
  unfold al_cvs. cbn [al_make al_eq al_ineq]. intros H. apply in_app_or in H. destruct H as [H|H]; apply in_map_iff in H; destruct H as (c & <- & _); cbn; lra.
Qed.
Theorem un_setting (s : UNP RS) h on om : un_ok dmax s -> (on = None \/ on = Some 3%nat) -> (om = None \/ om = Some 2%nat) ->
  exists a Z Zb, un_al_solver debug ldlt dmax cos sin true on om s h = Ok (a, un_prep s) /\ al_setting 3 2 (as_il a) Z Zb /\
    (forall c v, In c (il_costobjs (as_il a)) -> In v (al_cvs c) -> 0 < cv_scal v) /\
    il_N (as_il a) = Z.to_nat (un_N s) /\ il_x0_set (as_il a) = true /\ map fst (st_ser (il_stats (as_il a))) = series_titles.
Proof.
  intros OK Hon Hom.
  destruct (proj2 (un_solvers debug ldlt dmax cos sin LD DM s h on om OK Hon Hom)) as (a0 & EA0 & [R1 R2 R3 R4 (Z0 & Zb0 & RZ & RL & RF & RZb & RLb & RU)]).
  destruct (un_shape debug ldlt dmax cos sin LD DM true s h OK) as (h' & p & s0 & b & q & qT & E0 & (RUN & CT) & EM & FD & Eq & EqT & BD & BX & BM).
  pose proof OK as (HN & LX & DQ & DR & DF & HB). destruct (prep_Q dmax s OK) as (EQ & ER & EF & EX & EUR & EN & E3 & ET & ES).
  set (u := un_prep s) in *. set (N := Z.to_nat (un_N s)) in *.
  match type of CT with contents _ _ ?o _ _ => set (os := o) in * end.
  pose proof EA0 as EA. unfold un_al_solver in EA. rewrite EM in EA. cbn [bind] in EA.
  rewrite (solver_of_problem debug 3 2 on om (un_N s) h s0 os h' p (fun _ => un_model cos sin u) (sh_cost (un_N s) (qc_ucost q) (qc_ucost qT))) in EA; auto.
  2: { apply sh_complete; auto; [cbn; lia|]. cbn [un_model md_n]. rewrite EX. unfold sc_x0. destruct (un_three s); [reflexivity|]. change (@length (T RS)) with (@length R). rewrite LX. reflexivity. }
  2: { intros k Hk. apply sh_dyn_given; auto. }
  2: { intros k Hk. apply sh_cost_given; auto. }
  cbn [bind] in EA. unfold as_make in EA. cbn [as_il as_status] in EA.
  set (cs := sh_cost (un_N s) (qc_ucost q) (qc_ucost qT)) in *.
  inversion EA as [EA1]. clear EA. set (Z1 := un_trajectory u) in *.
  match type of EA1 with context [il_set_trajectory Z1 ?x] => set (I0 := x) in * end.
  assert (KP : il_kps (as_il a0) = il_kps I0) by (rewrite <- EA1; reflexivity).
  assert (NI : il_N I0 = N) by reflexivity.
  assert (EZ : Z0 = il_rollout 3 Z1 (il_set_trajectory Z1 I0)) by (rewrite <- EA1 in RZ; cbn [as_il il_set_Z il_Z] in RZ; inversion RZ; reflexivity).
  assert (EZb : Zb0 = traj_set_zero Z1) by (rewrite <- EA1 in RZb; cbn in RZb; inversion RZb; reflexivity).
  assert (XS : il_x0_set (as_il a0) = true /\ map fst (st_ser (il_stats (as_il a0))) = series_titles) by (rewrite <- EA1; split; reflexivity).
  clear EA1. set (ks := zseq 0 (Z.to_nat (un_N s + 1))) in *.
  assert (KC : map kp_cost (il_kps I0) = map (fun k => al_make 3 2 (cs k) (con_given false os k) (con_given true os k)) ks).
  { unfold I0, il_make, il_reset_internal. cbn [il_kps]. rewrite !map_map. reflexivity. }
  clearbody I0.
  (** components *)
  assert (SQ : sym 3 (un_Q u)) by (rewrite EQ; apply set_diag_sym; exact DQ).
  assert (SR : sym 2 (un_R u)) by (rewrite ER; apply set_diag_sym; exact DR).
  assert (SF : sym 3 (un_Qf u)) by (rewrite EF; apply set_diag_sym; exact DF).
  destruct (lqr_smooth _ _ _ _ _ _ _ _ _ _ Eq SQ SR) as [C1 C2].
  destruct (lqr_smooth _ _ _ _ _ _ _ _ _ _ EqT SF (fun _ _ _ _ => eq_refl)) as [T1 T2].
  assert (LB : length (un_lb u) = 2%nat /\ length (un_lb u) = length (un_ub u)) by (unfold u, un_prep; destruct (un_three s); split; reflexivity).
  pose proof (bound_smooth dmax debug (un_lb u) (un_ub u) b 3 (proj2 LB) BM) as SB. rewrite (proj1 LB) in SB.
  assert (SO : un_three s = true -> con_smooth 3 2 (cc_con (un_obs u)) /\ (1 <= con_dim (cc_con (un_obs u)))%nat).
  { intros E. unfold u, un_prep. rewrite E. cbn [un_avoid un_obs]. split; [apply C53_circle_jacobian_partial; [lia|reflexivity|reflexivity]|cbn; lia]. }
  assert (CG : forall w k, (0 <= k <= un_N s)%Z -> con_given w os k = if w then sh_ineq (un_N s) (if un_three s then Some (cc_con (un_obs u)) else None) (Some (cb_con 3 b, goal_con 3 (lvec (un_xf u)))) k
      else sh_eq (un_N s) (Some (cb_con 3 b, goal_con 3 (lvec (un_xf u)))) k) by (intros w k Hk; unfold os; apply sh_con_given; auto).
  exists a0, Z0, Zb0. split; [exact EA0|]. split; [|split; [unfold il_costobjs; rewrite KP, KC; intros c v Hc Hv; apply in_map_iff in Hc; destruct Hc as (k & <- & _); apply (fresh_scal _ _ _ _ _ _ Hv)|split; [exact R1|exact XS]]].
  split.
  - rewrite R1. exact R2.
  - unfold il_costobjs. rewrite KP, KC. apply Forall_forall. intros c Hc. apply in_map_iff in Hc. destruct Hc as (k & <- & Hk). apply in_zseq in Hk.
    apply fresh_smooth.
    + unfold cs, sh_cost. destruct (k =? un_N s)%Z; assumption.
    + unfold cs, sh_cost. destruct (k =? un_N s)%Z; assumption.
    + intros c Hc. rewrite !CG in Hc by lia. unfold sh_eq, sh_ineq in Hc. apply in_app_or in Hc. destruct Hc as [Hc|Hc]; [|apply in_app_or in Hc; destruct Hc as [Hc|Hc]].
      * destruct (k =? un_N s)%Z; [|destruct Hc]. destruct Hc as [<-|[]]. split; [apply goal_smooth|cbn; lia].
      * destruct (un_three s) eqn:E; [|destruct Hc]. destruct ((1 <=? k) && (k <? un_N s))%Z; [|destruct Hc]. destruct Hc as [<-|[]]. apply SO. reflexivity.
      * destruct (k <? un_N s)%Z; [|destruct Hc]. destruct Hc as [<-|[]]. split; [exact SB|rewrite BD; lia].
  - intros k kp Hk Ek. rewrite R1 in Hk. assert (E : nth_error (map kp_dyn (il_kps (as_il a0))) k = Some (kp_dyn kp)) by (rewrite nth_error_map, Ek; reflexivity).
    rewrite R4 in E by exact Hk. inversion E as [E']. exact (rk4_smooth 3 2 ru uni_field uni_J uni_W unicycle_computes unicycle_jac_true (un_st s) uni_J_ti).
  - intros c Hc x v v'. unfold il_costobjs in Hc. rewrite KP, KC, R1, nth_error_map in Hc. unfold ks, zseq in Hc. rewrite nth_error_map, (nth_error_nth' _ 0%nat) in Hc by (rewrite seq_length; unfold N; lia). rewrite seq_nth in Hc by (unfold N; lia).
    cbn [option_map] in Hc. replace (0 + Z.of_nat (0 + N))%Z with (un_N s) in Hc by (unfold N; lia). rewrite !CG in Hc by lia. unfold cs, sh_cost, sh_eq, sh_ineq in Hc. rewrite Z.eqb_refl, Z.ltb_irrefl, andb_false_r in Hc. inversion Hc. cbn [al_make al_cost].
    split; [exact (lqr_blind _ _ _ _ _ _ _ _ _ EqT SF x v v')|]. intros w i Hw Hi. unfold al_cvs in Hw. cbn [al_make al_eq al_ineq map app] in Hw.
    destruct (un_three s); cbn in Hw; (destruct Hw as [<-|[]]; reflexivity).
  - exact RZ.
  - rewrite R1. exact RL.
  - rewrite R3. exact RF.
  - exact RZb.
  - rewrite R1. exact RLb.
  - rewrite EZ, EZb, R1. assert (LK : length (il_kps I0) = S N) by (rewrite <- KP; exact R2).
    pose proof (rolled_steps (il_set_trajectory Z1 I0) Z1) as S. cbn [il_set_trajectory il_set_Zb il_set_Z il_kps il_N] in S. rewrite NI in S. apply S; [exact LK|].
    rewrite EZb in RLb. unfold traj_set_zero in RLb. rewrite map_length in RLb. exact RLb.
Qed.
End Un.
