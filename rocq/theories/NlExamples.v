(** Scalar examples of nonlinear problems. *)
From Coq Require Import Reals Lra Lia List Bool ZArith Psatz Arith.
From Coquelicot Require Import Coquelicot.
Import List ListNotations.
From Verif Require Import Base Lin LogModel StatsModel TrajModel IlqrModel IlqrSpec LsSpec RLin RDer LqSpec LltProofs LqProofs LqProofs2 LqProofs3 LqProbSpec NlSpec NlProofs NlProofs2 NlProofs3 NlProofs4.
Local Open Scope R_scope.

Lemma one_form A x y : form 1 1 A x y = A 0%nat 0%nat * x 0%nat * y 0%nat.
Proof. unfold form, tot. cbn. lra. Qed.
Lemma one_inner x y : inner 1 x y = x 0%nat * y 0%nat.
Proof. unfold inner, tot. cbn. lra. Qed.
Lemma one_app A x i : app 1 A x i = A i 0%nat * x 0%nat.
Proof. unfold app, tot. cbn. lra. Qed.
Lemma one_sym A : sym 1 A.
Proof. intros i j Hi Hj. assert (i = 0)%nat as -> by lia. assert (j = 0)%nat as -> by lia. reflexivity. Qed.
Lemma one_posdef A : 0 < A 0%nat 0%nat -> posdef 1 A.
Proof. intros H x (i & Hi & N). assert (i = 0)%nat as -> by lia. rewrite one_form. pose proof (Rsqr_pos_lt _ N). unfold Rsqr in *. nra. Qed.
Lemma one_tot f : tot 1 f = f 0%nat. Proof. unfold tot. cbn. lra. Qed.

(** functions whose error is of second order *)
Lemma second_order g gx gu x u C : 0 <= C -> (forall y v, Rabs (g y v - g x u - (gx 0%nat * (y 0%nat - x 0%nat) + gu 0%nat * (v 0%nat - u 0%nat))) <= C * ((Rabs (y 0%nat - x 0%nat) + Rabs (v 0%nat - u 0%nat)) * (Rabs (y 0%nat - x 0%nat) + Rabs (v 0%nat - u 0%nat)))) -> slopes 1 1 g gx gu x u.
Proof.
  intros HC H. apply frechet_slopes. intros eps He. exists (eps / (2 * C + 1)). assert (D0 : 0 < eps / (2 * C + 1)) by (apply Rdiv_lt_0_compat; lra). split; [exact D0|]. intros y v Hy Hv. specialize (Hy 0%nat ltac:(lia)). specialize (Hv 0%nat ltac:(lia)).
  rewrite !one_inner, !one_tot. eapply Rle_trans; [apply H|]. set (q := Rabs (y 0%nat - x 0%nat) + Rabs (v 0%nat - u 0%nat)).
  assert (Q0 : 0 <= q) by (unfold q; pose proof (Rabs_pos (y 0%nat - x 0%nat)); pose proof (Rabs_pos (v 0%nat - u 0%nat)); lra). rewrite <- Rmult_assoc. apply Rmult_le_compat_r; [exact Q0|].
  apply Rle_trans with (C * (2 * (eps / (2 * C + 1)))); [apply Rmult_le_compat_l; [exact HC|]; unfold q; lra|].
  apply Rle_trans with ((2 * C + 1) * (eps / (2 * C + 1))); [nra|right; field; lra].
Qed.
(** costs 1/2 xx x^2 + xu x u + 1/2 uu u^2 + lx x + lu u *)
Record SQ := mkSQ { q_xx : R; q_xu : R; q_uu : R; q_x : R; q_u : R }.
Definition sq_val (c : SQ) (x u : vec RS) : R := 1 / 2 * q_xx c * x 0%nat * x 0%nat + q_xu c * x 0%nat * u 0%nat + 1 / 2 * q_uu c * u 0%nat * u 0%nat + q_x c * x 0%nat + q_u c * u 0%nat.
Definition sq_ops : CostOps RS SQ := mkCostOps (F:=RS) (CS:=SQ)
  (fun c x u => (sq_val c x u, c))
  (fun c x u _ => (((fun _ => q_xx c * x 0%nat + q_xu c * u 0%nat + q_x c), (fun _ => q_xu c * x 0%nat + q_uu c * u 0%nat + q_u c)), c))
  (fun c x u _ => (((fun _ _ => q_xx c), (fun _ _ => q_xu c), (fun _ _ => q_uu c)), c)).
Lemma sq_smooth : smooth_costs 1 1 sq_ops (fun _ => True) sq_val.
Proof.
  split; [split; intros; cbn; auto| |intros; cbn; split; apply one_sym]. intros c x u _. cbn [sq_ops co_grad fst snd].
  apply (second_order _ _ _ _ _ (Rabs (q_xx c) + Rabs (q_xu c) + Rabs (q_uu c))); [pose proof (Rabs_pos (q_xx c)); pose proof (Rabs_pos (q_xu c)); pose proof (Rabs_pos (q_uu c)); lra|].
  intros y v. set (dx := y 0%nat - x 0%nat). set (du := v 0%nat - u 0%nat).
  replace (sq_val c y v - sq_val c x u - ((q_xx c * x 0%nat + q_xu c * u 0%nat + q_x c) * dx + (q_xu c * x 0%nat + q_uu c * u 0%nat + q_u c) * du)) with (1 / 2 * q_xx c * (dx * dx) + q_xu c * (dx * du) + 1 / 2 * q_uu c * (du * du)) by (unfold sq_val, dx, du; field).
  set (p := Rabs dx). set (q := Rabs du). assert (P : 0 <= p) by apply Rabs_pos. assert (Q : 0 <= q) by apply Rabs_pos.
  eapply Rle_trans; [apply Rabs_triang|]. eapply Rle_trans; [apply Rplus_le_compat_r, Rabs_triang|]. rewrite !Rabs_mult. fold p q. rewrite (Rabs_pos_eq (1 / 2)) by lra.
  pose proof (Rabs_pos (q_xx c)). pose proof (Rabs_pos (q_xu c)). pose proof (Rabs_pos (q_uu c)).
  assert (A1 : p * p <= (p + q) * (p + q)) by nra. assert (A2 : p * q <= (p + q) * (p + q)) by nra. assert (A3 : q * q <= (p + q) * (p + q)) by nra.
  assert (0 <= (p + q) * (p + q)) by nra. set (r := (p + q) * (p + q)) in *.
  pose proof (Rmult_le_compat_l _ _ _ H A1). pose proof (Rmult_le_compat_l _ _ _ H0 A2). pose proof (Rmult_le_compat_l _ _ _ H1 A3). pose proof (Rmult_le_pos _ _ H H2). pose proof (Rmult_le_pos _ _ H1 H2). assert (0 <= p * p) by nra. assert (0 <= q * q) by nra. pose proof (Rmult_le_pos _ _ H H8). pose proof (Rmult_le_pos _ _ H1 H9). lra.
Qed.
(** x' = x + u + c u^2 *)
Definition sq_dyn (c : R) : Dyn RS := mkDyn (F:=RS) (fun x u _ _ _ _ => x 0%nat + u 0%nat + c * u 0%nat * u 0%nat) (fun x u _ _ _ => fun _ j => match j with O => 1 | _ => 1 + 2 * c * u 0%nat end).
Lemma sq_dyn_smooth c : smooth_dyn 1 1 (sq_dyn c).
Proof.
  split; [intros x u t h b b' i Hi; reflexivity|]. intros x u t h b i Hi. apply (second_order _ _ _ _ _ (Rabs c)); [apply Rabs_pos|]. intros y v. cbn. set (dx := y 0%nat - x 0%nat). set (du := v 0%nat - u 0%nat).
  replace (y 0%nat + v 0%nat + c * v 0%nat * v 0%nat - (x 0%nat + u 0%nat + c * u 0%nat * u 0%nat) - (1 * dx + (1 + 2 * c * u 0%nat) * du)) with (c * (du * du)) by (unfold dx, du; ring).
  rewrite !Rabs_mult. apply Rmult_le_compat_l; [apply Rabs_pos|]. pose proof (Rabs_pos dx). pose proof (Rabs_pos du). nra.
Qed.
(** a solver object *)
Definition sq_solver (x0 c rho : R) (N : nat) (costs : list SQ) (Z : Traj RS) : ILQR RS SQ :=
  mkILQR (F:=RS) N (fun _ => x0) true (map (kpf_make (F:=RS) (sq_dyn c)) costs) (Some Z) (Some Z) kUnsolved [] [] rho 0 0 0 st_new opts_default.
Lemma sq_setting x0 c rho N costs Z : length costs = S N -> length Z = S N -> (forall q, nth_error costs N = Some q -> q_xu q = 0 /\ q_uu q = 0 /\ q_u q = 0) ->
  dyn_feasible 1 (fun _ => x0) (map (fun _ => sq_dyn c) costs) Z -> nl_setting 1 1 sq_ops (fun _ => True) sq_val (sq_solver x0 c rho N costs Z) Z Z.
Proof.
  intros LC LZ HE FZ. split; try reflexivity; try exact LZ; try exact sq_smooth.
  - split.
    + cbn. rewrite map_length. exact LC.
    + apply Forall_forall. auto.
    + intros k kp _ Hk. cbn in Hk. rewrite nth_error_map in Hk. destruct (nth_error costs k); [|discriminate]. inversion Hk; subst. apply sq_dyn_smooth.
    + intros kp Hk x u u'. cbn in Hk. rewrite nth_error_map in Hk. destruct (nth_error costs N) as [q|] eqn:E; [|discriminate]. inversion Hk; subst. cbn. destruct (HE q eq_refl) as (A & B & C). unfold sq_val. rewrite A, B, C. lra.
  - cbn. rewrite map_map. exact FZ.
  - intros k z y _ Hz Hy. rewrite Hz in Hy. inversion Hy. auto.
Qed.

(** one knot point of the backward pass, one state and one control *)
Lemma one_step CS (rho S0 s0 : R) (k : KPF RS CS) (Sm : mat RS) (sv : vec RS) : Sm 0%nat 0%nat = S0 -> sv 0%nat = s0 ->
  let g := stage_of 1 k in let a := sg_A g 0%nat 0%nat in let b := sg_B g 0%nat 0%nat in
  let Qx := sg_x g 0%nat + a * s0 in let Qu := sg_u g 0%nat + b * s0 in
  let Qxx := sg_xx g 0%nat 0%nat + a * a * S0 in let Qxu := sg_xu g 0%nat 0%nat + a * b * S0 in let Quu := sg_uu g 0%nat 0%nat + b * b * S0 in
  0 < Quu + rho -> exists k2, kpf_gains 1 1 (kpf_regularize 1 (rho : RS) (kpf_action_value 1 1 Sm sv k)) = Some k2 /\
  let K := - Qxu / (Quu + rho) in let d := - Qu / (Quu + rho) in let k3 := kpf_ctg 1 1 k2 in
  kp_K k3 0%nat 0%nat = K /\ kp_d k3 0%nat = d /\ kp_S k3 0%nat 0%nat = Qxx + K * Quu * K + 2 * K * Qxu /\ kp_s k3 0%nat = Qx + K * Quu * d + K * Qu + Qxu * d /\ kp_dv0 k3 = Qu * d /\ kp_dv1 k3 = 1 / 2 * Quu * d * d /\ stage_of 1 k3 = g.
Proof.
  intros HS Hs g a b Qx Qu Qxx Qxu Quu PD. set (q := kp_q (kpf_action_value 1 1 Sm sv k)).
  assert (L : forall x u, e_x q 0%nat * x + e_u q 0%nat * u = Qx * x + Qu * u).
  { intros x u. pose proof (av_lin 1 1 k Sm sv (fun _ => x) (fun _ => u)) as A. unfold lincost, next in A. rewrite !one_inner, !one_app in A. cbn [q_stage sg_x sg_u] in A. fold q g a b in A. rewrite Hs in A. unfold Qx, Qu. lra. }
  assert (QQ : forall x u, 1 / 2 * (e_xx q 0%nat 0%nat * x * x) + e_xu q 0%nat 0%nat * x * u + 1 / 2 * (e_uu q 0%nat 0%nat * u * u) = 1 / 2 * (Qxx * x * x) + Qxu * x * u + 1 / 2 * (Quu * u * u)).
  { intros x u. pose proof (av_quad 1 1 k Sm sv (fun _ => x) (fun _ => u) (one_sym _)) as A. unfold quadcost, next in A. rewrite !one_form, !one_app in A. cbn [q_stage sg_xx sg_xu sg_uu] in A. fold q g a b in A. rewrite HS in A. unfold Qxx, Qxu, Quu. rewrite A. field. }
  pose proof (L 1 0) as Ex. pose proof (L 0 1) as Eu. pose proof (QQ 1 0) as Exx. pose proof (QQ 0 1) as Euu. pose proof (QQ 1 1) as Exu.
  assert (E1 : e_x q 0%nat = Qx) by lra. assert (E2 : e_u q 0%nat = Qu) by lra. assert (E3 : e_xx q 0%nat 0%nat = Qxx) by lra. assert (E4 : e_uu q 0%nat 0%nat = Quu) by lra. assert (E5 : e_xu q 0%nat 0%nat = Qxu) by lra. clear Ex Eu Exx Euu Exu L QQ.
  destruct (gains_ok 1 1 (kpf_regularize 1 (rho : RS) (kpf_action_value 1 1 Sm sv k)) (one_sym _)) as [k2 G].
  { apply one_posdef. pose proof (reg_form 1 rho (kpf_action_value 1 1 Sm sv k) (fun _ => 1) (fun _ => 1)) as R. rewrite !one_form, one_inner in R. fold q in R. rewrite E4 in R. lra. }
  exists k2. split; [exact G|]. pose proof (st_q 1 1 rho Sm sv k k2 G) as Q. fold q in Q. destruct (st_gain 1 1 rho Sm sv k k2 G (conj (one_sym _) (one_sym _)) (one_sym _)) as (A & B & _ & _).
  specialize (A (fun _ => 1) (fun _ => 1)). specialize (B (fun _ => 1)). rewrite !one_form, !one_inner, !one_app in A. rewrite !one_form, !one_inner in B. rewrite Q in A, B. rewrite E2, E4 in *. rewrite E5 in A.
  cbv zeta. set (k3 := kpf_ctg 1 1 k2). assert (K3 : kp_K k3 0%nat 0%nat = - Qxu / (Quu + rho)) by (change (kp_K k3) with (kp_K k2); apply (Rmult_eq_reg_r (Quu + rho)); [|lra]; replace (- Qxu / (Quu + rho) * (Quu + rho)) with (- Qxu) by (field; lra); lra).
  assert (D3 : kp_d k3 0%nat = - Qu / (Quu + rho)) by (change (kp_d k3) with (kp_d k2); apply (Rmult_eq_reg_r (Quu + rho)); [|lra]; replace (- Qu / (Quu + rho) * (Quu + rho)) with (- Qu) by (field; lra); lra).
  split; [exact K3|]. split; [exact D3|]. change (kp_K k3) with (kp_K k2) in K3. change (kp_d k3) with (kp_d k2) in D3. rewrite <- K3, <- D3.
  pose proof (ctg_quad 1 1 k2 (fun _ => 1)) as CQ. pose proof (ctg_lin 1 1 k2 (fun _ => 1)) as CL. destruct (ctg_dv 1 1 k2) as [V0 V1]. fold k3 in CQ, CL, V0, V1. unfold quadcost in CQ. rewrite !one_form, !one_app in CQ. rewrite !one_form, !one_inner, !one_app in CL. rewrite one_inner in V0. rewrite one_form in V1.
  cbn [q_stage sg_xx sg_xu sg_uu] in CQ. rewrite Q in CQ, CL, V0, V1. rewrite E3, E4, E5 in CQ. rewrite E1, E2, E4, E5 in CL. rewrite E2 in V0. rewrite E4 in V1.
  split; [lra|]. split; [lra|]. split; [exact V0|]. split; [lra|].
  destruct (gains_fields 1 1 _ _ G) as (_ & _ & F1 & F2 & _). unfold g, stage_of. change (kp_ce k3) with (kp_ce k2). change (kp_jac k3) with (kp_jac k2). rewrite F1, F2. reflexivity.
Qed.
Lemma sweep_snoc CS (rho : R) (k k2 : KPF RS CS) r SN sN v0 v1 : let w := bp_sweep 1 1 (rho : RS) r SN sN v0 v1 in sw_ok w = true -> kpf_gains 1 1 (kpf_regularize 1 (rho : RS) (kpf_action_value 1 1 (sw_S w) (sw_s w) k)) = Some k2 ->
  bp_sweep 1 1 (rho : RS) (k :: r) SN sN v0 v1 = let k3 := kpf_ctg 1 1 k2 in mkSweep true (k3 :: sw_kps w) (kp_S k3) (kp_s k3) (sw_v0 w + kp_dv0 k3) (sw_v1 w + kp_dv1 k3).
Proof. intros w OK G. cbn [bp_sweep]. fold w. rewrite OK, G. reflexivity. Qed.

(** a pass that needs no restart *)
Lemma pass_one CS n m (s : ILQR RS CS) k0 : let w := bp_sweep n m (il_rho s) (firstn (il_N s) (il_kps s)) (e_xx (kp_ce k0)) (e_x (kp_ce k0)) 0 0 in
  nth_error (il_kps s) (il_N s) = Some k0 -> (0 < il_N s)%nat -> sw_ok w = true ->
  exists s2, il_backward_pass n m 1 s = Ok s2 /\ il_status s2 = il_status s /\ il_N s2 = il_N s /\ il_kps s2 = sw_kps w ++ [kpf_terminal k0] /\ il_dV0 s2 = sw_v0 w /\ il_dV1 s2 = sw_v1 w /\ il_opts s2 = il_opts s.
Proof.
  intros w E0 HN OK. unfold il_backward_pass. rewrite E0. cbv zeta. set (sa := il_set_dV _ _ _).
  assert (L : (il_N s < length (il_kps s))%nat) by (apply nth_error_Some; congruence).
  assert (FL : length (firstn (il_N s) (il_kps s)) = il_N s) by (apply firstn_length_le; lia).
  assert (FN : firstn (il_N sa) (il_kps sa) = firstn (il_N s) (il_kps s)).
  { change (il_kps sa) with (firstn (il_N s) (il_kps s) ++ [kpf_terminal k0]). change (il_N sa) with (il_N s). rewrite firstn_app, FL, Nat.sub_diag, firstn_all2 by lia. apply app_nil_r. }
  cbn [bp_loop]. rewrite FN. change (il_rho sa) with (il_rho s). change (il_dV0 sa) with (0 : RS). change (il_dV1 sa) with (0 : RS). change (kp_S (kpf_terminal k0)) with (e_xx (kp_ce k0)). change (kp_s (kpf_terminal k0)) with (e_x (kp_ce k0)).
  fold w. rewrite OK. change (il_N sa) with (il_N s). destruct (il_N s) as [|N'] eqn:EN; [lia|]. cbn [bind]. eexists. split; [reflexivity|]. cbn. auto 10.
Qed.
Lemma sq_stage c q z : let k := snd (expand_kp sq_ops 1 1 z (kpf_make (F:=RS) (sq_dyn c) q)) in let g := stage_of 1 k in
  sg_A g 0%nat 0%nat = 1 /\ sg_B g 0%nat 0%nat = 1 + 2 * c * z_u z 0%nat /\ sg_x g 0%nat = q_xx q * z_x z 0%nat + q_xu q * z_u z 0%nat + q_x q /\ sg_u g 0%nat = q_xu q * z_x z 0%nat + q_uu q * z_u z 0%nat + q_u q /\
  sg_xx g 0%nat 0%nat = q_xx q /\ sg_xu g 0%nat 0%nat = q_xu q /\ sg_uu g 0%nat 0%nat = q_uu q.
Proof. cbn. repeat split; reflexivity. Qed.
