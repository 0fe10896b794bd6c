(** C85: convex constrained problems: fixed points of the iteration are global solutions, every inner solution bounds the optimal cost from below,
    and every dual update after an exact inner solve brings the multipliers closer to every optimal choice of them. *)
From Coq Require Import Reals Lra Lia List Bool ZArith Psatz Arith String.
From Coquelicot Require Import Coquelicot.
Import List ListNotations.
From Verif Require Import Base Lin LogModel StatsModel TrajModel ConModel ConSpec IlqrModel IlqrSpec CostInst AlModel LsSpec RLin RDer LqSpec LltProofs LqProofs LqProbSpec NlSpec NlAlSpec NlProofs NlProofs2 NlProofs3 NlProofs4 NlExamples NlAlProofs NlAlProofs2 NlConvexSpec NlConvexProofs ConProofs P_NlAl.
Local Open Scope R_scope.

(** Affine dynamics, convex costs, affine equality and convex inequality constraints: a KKT point satisfies the constraints and costs no more than
    any other trajectory that obeys the dynamics and the constraints. *)
Theorem C85_optimal n m s Z Zb : al_setting n m s Z Zb -> convex_problem n s -> kkt_point n m s Z -> optimal n s Z.
Proof. intros AS CP. exact (kkt_optimal n m s Z Zb AS CP). Qed.
(** Where neither the backward pass nor the dual update changes anything, the solver holds a global solution. *)
Theorem C85_fixed n m s Z Zb fuel s2 : al_setting n m s Z Zb -> convex_problem n s ->
  il_backward_pass n m fuel (il_update_expansions al_ops n m Z s) = Ok s2 -> il_status s2 <> kBackwardPassRegularizationFailed ->
  no_step m s2 -> duals_kept (il_costobjs s2) -> optimal n s Z.
Proof. intros AS CP EB ST NS DK. apply (kkt_optimal n m s Z Zb AS CP). apply (C83_kkt n m s Z Zb fuel s2 AS EB ST). split; assumption. Qed.
(** The multipliers stored at a KKT point are optimal ones. *)
Theorem C85_saddle n m s Z Zb : al_setting n m s Z Zb -> convex_problem n s -> kkt_point n m s Z -> saddle n s Z Z (own (il_costobjs s)).
Proof. intros AS CP. exact (kkt_saddle n m s Z Zb AS CP). Qed.
(** Where the backward pass finds nothing to change, the Lagrangian with the updated multipliers bounds the cost of every feasible trajectory. *)
Theorem C85_bound n m s Z Zb fuel s2 : al_setting n m s Z Zb -> convex_problem n s ->
  il_backward_pass n m fuel (il_update_expansions al_ops n m Z s) = Ok s2 -> il_status s2 <> kBackwardPassRegularizationFailed -> no_step m s2 ->
  forall Y, admissible n s Z Y -> satisfies s Y -> lagr_total (map al_update_duals (il_costobjs s2)) Z <= user_cost s Y.
Proof. intros AS CP EB ST NS. exact (dual_bound n m s Z Zb AS CP fuel s2 EB ST NS). Qed.
(** There, UpdateDuals brings the multipliers closer (weighted with the penalties) to every optimal choice of multipliers, by at least the change. *)
Theorem C85_closer n m s Z Zb fuel s2 : al_setting n m s Z Zb -> convex_problem n s ->
  il_backward_pass n m fuel (il_update_expansions al_ops n m Z s) = Ok s2 -> il_status s2 <> kBackwardPassRegularizationFailed -> no_step m s2 ->
  forall Y mus, saddle n s Z Y mus -> let cs := il_costobjs s2 in let new := own (map al_update_duals cs) in
  wdist cs new mus + wdist cs new (own cs) <= wdist cs (own cs) mus.
Proof. intros AS CP EB ST NS Y mus SD. exact (fejer n m s Z Zb AS CP fuel s2 EB ST NS Y mus SD). Qed.

(** x' = x + u from x = 1; cost u^2 / 2 and u <= 0 at the first point, x = -1 at the second. Solution u = -2 with multipliers 0 and -2; with the
    initial multipliers 0 and penalty 1 the inner solution is u = -1 and the new multiplier -1. *)
Definition cx_goal : Con RS := mkCon (F:=RS) 1 (fun x _ _ _ => x 0%nat + 1) (fun _ _ _ _ j => match j with O => 1 | _ => 0 end) "goal".
Definition cx_last0 : ALCost RS := al_make 1 1 (ex_cost 0) [cx_goal] [].
Definition cx_last : ALCost RS := al_update_duals (snd (al_eval cx_last0 (fun _ => 1 : RS) vzero)).
Definition cx_Z (u : R) : Traj RS := [mkKP (F:=RS) (fun _ => 1) (fun _ => u) 0 1; mkKP (F:=RS) (fun _ => 1 + u) (fun _ => 0) 1 0].
Definition cx_solver (last : ALCost RS) (u : R) : ILQR RS (ALCost RS) :=
  mkILQR (F:=RS) 1 (fun _ => 1) true (map (kpf_make (F:=RS) (sq_dyn 0)) [ex_first; last]) (Some (cx_Z u)) (Some (cx_Z u)) kUnsolved [] [] 0 0 0 0 st_new opts_default.
Lemma cx_goal_smooth : con_smooth 1 1 cx_goal.
Proof.
  exists (fun x _ _ => x 0%nat + 1), (fun _ _ _ j => match j with O => 1 | _ => 0 end), (fun _ _ => true). split; try (cbn; reflexivity); try discriminate.
  intros X U v w CX CU i Hi. rewrite !one_fsum. eapply d_eq; [apply d_plus; [apply CX|apply d_const]|cbn; lra].
Qed.
Lemma cx_setting last u : last = cx_last \/ last = cx_last0 -> al_setting 1 1 (cx_solver last u) (cx_Z u) (cx_Z u).
Proof.
  intros L. split; try reflexivity.
  - repeat (apply Forall_cons || apply Forall_nil).
    + exists false, (ex_cost 1), [], [ex_bound], []. split; [apply ex_cost_true|]. split; [intros; split; apply one_msym|]. split; [intros c [<-|[]]; split; [apply ex_bound_smooth|cbn; lia]|]. split; [apply reach_nil|]. intros v [<-|[]]. cbn. lra.
    + destruct L as [-> | ->].
      * exists false, (ex_cost 0), [cx_goal], [], [OpEval (fun _ => 1 : RS) vzero; OpUpdateDuals]. split; [apply ex_cost_true|]. split; [intros; split; apply one_msym|]. split; [intros c [<-|[]]; split; [apply cx_goal_smooth|cbn; lia]|].
        split; [eapply (reach_step _ _ [OpEval (fun _ => 1 : RS) vzero]); [eapply (reach_step _ _ []); [apply reach_nil|reflexivity]|reflexivity]|]. intros v [<-|[]]. cbn. lra.
      * exists false, (ex_cost 0), [cx_goal], [], []. split; [apply ex_cost_true|]. split; [intros; split; apply one_msym|]. split; [intros c [<-|[]]; split; [apply cx_goal_smooth|cbn; lia]|]. split; [apply reach_nil|]. intros v [<-|[]]. cbn. lra.
  - intros k kp _ Hk. cbn in Hk. destruct k as [|[|k]]; cbn in Hk; [| |destruct k; discriminate]; inversion Hk; apply sq_dyn_smooth.
  - intros c Hc x w w'. cbn in Hc. inversion Hc; subst c. destruct L as [-> | ->]; cbn; (split; [lra|]); intros v i [<-|[]] Hi; reflexivity.
  - split; [intros z i H _; inversion H; reflexivity|]. intros k f z z' Hf Hz Hz'. exists vzero. intros i _. destruct k as [|k]; cbn in Hf, Hz, Hz'; [|destruct k; discriminate]; inversion Hf; inversion Hz; inversion Hz'; cbn; lra.
  - intros k z y _ Hz Hy. rewrite Hz in Hy. inversion Hy. auto.
Qed.
Lemma cx_convex last u : last = cx_last \/ last = cx_last0 -> convex_problem 1 (cx_solver last u).
Proof.
  intros L. split.
  - intros k kp _ Hk. cbn in Hk. assert (E : kp_dyn kp = sq_dyn 0) by (destruct k as [|[|k]]; cbn in Hk; [| |destruct k; discriminate]; inversion Hk; reflexivity). rewrite E. intros x w y v t h b a i _. cbn. unfold mix. lra.
  - intros c Hc. assert (E : exists w, 0 <= w /\ al_cost c = ex_cost w) by (destruct Hc as [<-|[<-|[]]]; [exists 1; split; [lra|reflexivity]|exists 0; split; [lra|destruct L as [-> | ->]; reflexivity]]).
    destruct E as (w & Hw & ->). intros x v y v' a Ha. cbn. unfold mix. set (p := v 0%nat). set (q := v' 0%nat). clearbody p q.
    assert (P : 0 <= w * (a * (1 - a)) * (q - p) ^ 2) by (apply Rmult_le_pos; [apply Rmult_le_pos; [lra|apply Rmult_le_pos; lra]|apply pow2_ge_0]). nra.
  - intros c v Hc Hv. destruct Hc as [<-|[<-|[]]].
    + destruct Hv as [<-|[]]. intros i Hi x w y w' a Ha. cbn. unfold mix. lra.
    + destruct L as [-> | ->]; destruct Hv as [<-|[]]; intros i Hi x w y w' a Ha; cbn; unfold mix; lra.
Qed.
(** what trajectories that obey the dynamics look like *)
Lemma cx_shape last u (X : Traj RS) : List.length X = 2%nat -> dyn_feasible 1 (fun _ => 1 : RS) (map kp_dyn (il_kps (cx_solver last u))) X -> exists y y', X = [y; y'] /\ z_x y' 0%nat = 1 + z_u y 0%nat.
Proof.
  intros L (D0 & D). destruct X as [|y [|y' [|]]]; try discriminate. exists y, y'. split; [reflexivity|]. destruct (D 0%nat (sq_dyn 0) y y' eq_refl eq_refl eq_refl) as [b E]. specialize (E 0%nat ltac:(lia)). specialize (D0 y 0%nat eq_refl ltac:(lia)). cbn in E. lra.
Qed.
Lemma cx_kkt : kkt_point 1 1 (cx_solver cx_last (- 2)) (cx_Z (- 2)).
Proof.
  split; [apply (al_feas _ _ _ _ _ (cx_setting cx_last (- 2) (or_introl eq_refl)))|]. split.
  - intros k c z v i Hc Hz Hv Hi. destruct k as [|[|k]]; [| |destruct k; discriminate].
    + injection Hc as <-. injection Hz as <-. destruct Hv as [<-|[]]. assert (i = 0)%nat as -> by (cbn in Hi; lia). cbn. lra.
    + injection Hc as <-. injection Hz as <-. destruct Hv as [<-|[]]. cbn. lra.
  - intros du fam HV. apply (d_ext (fun a => 1 / 2 * ((- 2 + a * du 0%nat 0%nat) * (- 2 + a * du 0%nat 0%nat)) + 2 * (a * du 0%nat 0%nat))).
    + intros a. destruct (HV a) as (L & D & U). destruct (cx_shape cx_last (- 2) (fam a) L D) as (y & y' & E & X). destruct (U 0%nat (mkKP (F:=RS) (fun _ => 1) (fun _ => - 2) 0 1) y) as (_ & _ & V); [cbn; lia|reflexivity|rewrite E; reflexivity|]. specialize (V 0%nat ltac:(lia)). cbn in V. rewrite E.
      unfold lagr_total. cbn. unfold lagr. cbn. rewrite X, V. lra.
    + auto_derive; [exact I|lra].
Qed.
Lemma cx_saddle : saddle 1 (cx_solver cx_last0 (- 1)) (cx_Z (- 1)) (cx_Z (- 2)) [[fun _ => 0]; [fun _ => - 2]].
Proof.
  split.
  - repeat constructor.
  - split; [reflexivity|]. split.
    + apply (al_feas _ _ _ _ _ (cx_setting cx_last0 (- 2) (or_intror eq_refl))).
    + intros k z y Hk Hz Hy. cbn in Hk. assert (k = 0)%nat as -> by lia. injection Hz as <-. injection Hy as <-. auto.
  - intros k c mu y j v l i Hc Hm Hy Hv Hl Hi. destruct k as [|[|k]]; [| |destruct k; discriminate]; injection Hc as <-; injection Hm as <-; injection Hy as <-; (destruct j as [|j]; [|destruct j; discriminate]); injection Hv as <-; injection Hl as <-; cbn; lra.
  - intros X (L & D & _). destruct (cx_shape cx_last0 (- 1) X L D) as (y & y' & -> & E). unfold lagr_mult. cbn. unfold lagr_with, pay. cbn. rewrite E. set (w := z_u y 0%nat). clearbody w. assert (0 <= (w + 2) ^ 2) by apply pow2_ge_0. lra.
Qed.
Definition cx_1 := il_update_expansions al_ops 1 1 (cx_Z (- 1)) (cx_solver cx_last0 (- 1)).
Definition cx_k0 : KPF RS (ALCost RS) := snd (expand_kp al_ops 1 1 (mkKP (F:=RS) (fun _ => 1) (fun _ => - 1) 0 1) (kpf_make (F:=RS) (sq_dyn 0) ex_first)).
Definition cx_k1 : KPF RS (ALCost RS) := snd (expand_kp al_ops 1 1 (mkKP (F:=RS) (fun _ => 1 + - 1) (fun _ => 0) 1 0) (kpf_make (F:=RS) (sq_dyn 0) cx_last0)).
Lemma cx_stage : let g := stage_of 1 cx_k0 in sg_A g 0%nat 0%nat = 1 /\ sg_B g 0%nat 0%nat = 1 /\ sg_x g 0%nat = 0 /\ sg_u g 0%nat = - 1 /\ sg_xx g 0%nat 0%nat = 0 /\ sg_xu g 0%nat 0%nat = 0 /\ sg_uu g 0%nat 0%nat = 1.
Proof. cbn. unfold Rltb. destruct (Rlt_dec 0 (0 - 1 * -1)); [|exfalso; lra]. repeat split; lra. Qed.
Lemma cx_end : e_xx (kp_ce cx_k1) 0%nat 0%nat = 1 /\ e_x (kp_ce cx_k1) 0%nat = 1.
Proof. cbn. split; lra. Qed.
Example C85_example :
  (al_setting 1 1 (cx_solver cx_last (- 2)) (cx_Z (- 2)) (cx_Z (- 2)) /\ convex_problem 1 (cx_solver cx_last (- 2)) /\ kkt_point 1 1 (cx_solver cx_last (- 2)) (cx_Z (- 2))) /\
  (al_setting 1 1 (cx_solver cx_last0 (- 1)) (cx_Z (- 1)) (cx_Z (- 1)) /\ convex_problem 1 (cx_solver cx_last0 (- 1)) /\
   saddle 1 (cx_solver cx_last0 (- 1)) (cx_Z (- 1)) (cx_Z (- 2)) [[fun _ => 0]; [fun _ => - 2]] /\
   exists s2, il_backward_pass 1 1 1 cx_1 = Ok s2 /\ il_status s2 <> kBackwardPassRegularizationFailed /\ no_step 1 s2).
Proof.
  split; [split; [apply cx_setting; now left|split; [apply cx_convex; now left|exact cx_kkt]]|]. split; [apply cx_setting; now right|]. split; [apply cx_convex; now right|]. split; [exact cx_saddle|].
  assert (KE : il_kps cx_1 = [cx_k0; cx_k1]) by reflexivity. destruct cx_end as [S0 s0]. destruct cx_stage as (B1 & B2 & B3 & B4 & B5 & B6 & B7).
  pose proof (one_step (ALCost RS) 0 1 1 cx_k0 _ _ S0 s0) as T. cbv zeta in T. rewrite B1, B2, B3, B4, B5, B6, B7 in T. destruct T as (b & G & T1 & T2 & T3 & T4 & T5 & T6 & T7); [lra|].
  pose proof (sweep_snoc (ALCost RS) 0 cx_k0 b [] (e_xx (kp_ce cx_k1)) (e_x (kp_ce cx_k1)) 0 0 eq_refl G) as W. cbv zeta in W. set (b3 := kpf_ctg 1 1 b) in *. clearbody b3.
  destruct (pass_one (ALCost RS) 1 1 cx_1 cx_k1) as (s2 & EB & ST & EN & K2 & V0 & V1 & O2); [rewrite KE; reflexivity|cbn; lia| |].
  { rewrite KE. change (il_rho cx_1) with (0 : RS). change (firstn (il_N cx_1)) with (@firstn (KPF RS (ALCost RS)) 1). cbn [firstn]. rewrite W. reflexivity. }
  rewrite KE in K2. change (il_rho cx_1) with (0 : RS) in *. change (firstn (il_N cx_1)) with (@firstn (KPF RS (ALCost RS)) 1) in *. cbn [firstn] in K2. rewrite W in K2. cbn [sw_kps bp_sweep] in K2.
  exists s2. split; [exact EB|]. split; [rewrite ST; discriminate|].
  intros k kp i Hk Hkp Hi. rewrite EN in Hk. assert (k = 0)%nat as -> by (cbn in Hk; lia). assert (i = 0)%nat as -> by lia. rewrite K2 in Hkp. injection Hkp as <-. rewrite T2. field_simplify; lra.
Qed.
Print Assumptions C85_optimal.
Print Assumptions C85_fixed.
Print Assumptions C85_saddle.
Print Assumptions C85_bound.
Print Assumptions C85_closer.
Print Assumptions C85_example.
