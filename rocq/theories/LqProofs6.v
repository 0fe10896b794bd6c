(** Linear-quadratic problems: a whole iteration and a whole solve. *)
From Coq Require Import Reals Lra Lia List Bool ZArith Psatz Arith.
From Verif Require Import Base Lin LogModel StatsModel TrajModel IlqrModel IlqrSpec IlqrFrame IlqrProofs IlqrProofs2 IlqrProofs4 IlqrProofs5 IlqrProofs6 IlqrProofs7 LsSpec RLin LqSpec LltProofs DynProofs LqProofs LqProofs2 LqProofs3 LqProbSpec LqProofs4 LqProofs5.
Import ListNotations.
Local Open Scope R_scope.

Section S.
Context {CS : Type} (n m : nat) (ops : CostOps RS CS) (cb : list CS -> RS) (Inv : CS -> Prop) (D : CS -> Quad) (HQ : quad_costs n m ops Inv D).
Notation K := (KPF RS CS).
Notation ILQR := (ILQR RS CS).
Notation qv c := (quad_val n m (D c)).
Lemma steps_refl N Z : same_steps N Z Z.
Proof. intros k z y _ H H'. rewrite H in H'. inversion H'. auto. Qed.
Lemma steps_sym N Z Y : same_steps N Z Y -> same_steps N Y Z.
Proof. intros H k z y Hk Hz Hy. destruct (H k y z Hk Hy Hz). auto. Qed.
Lemma steps_trans N A B C : length B = S N -> same_steps N A B -> same_steps N B C -> same_steps N A C.
Proof. intros L H1 H2 k a c Hk Ha Hc. destruct (nth_error_ex B k) as [b Hb]; [lia|]. destruct (H1 k a b Hk Ha Hb). destruct (H2 k b c Hk Hb Hc). split; congruence. Qed.
Lemma grid_steps N (Z Y : Traj RS) : length Z = S N -> same_grid Z Y -> same_steps N Z Y.
Proof.
  intros L [T H] k z y Hk Hz Hy. split.
  - apply (map_nth_error z_t) in Hz, Hy. rewrite T in Hy. congruence.
  - assert (R : forall (l : list RS) i, (S i < length l)%nat -> nth_error (removelast l) i = nth_error l i).
    { induction l as [|a l IH]; intros i Hi; [cbn in Hi; lia|]. destruct l as [|b l]; [cbn in Hi; lia|]. destruct i; [reflexivity|]. apply (IH i). cbn in *; lia. }
    apply (f_equal (fun l => nth_error l k)) in H. assert (LT : length Y = length Z) by (rewrite <- (map_length z_t Y), T; apply map_length).
    rewrite !R in H by (rewrite map_length; lia). apply (map_nth_error z_h) in Hz, Hy. rewrite Hz, Hy in H. inversion H. reflexivity.
Qed.
(** ** the first iteration *)
Section It.
Context (s : ILQR) (Z Zb : Traj RS).
Context (LP : lq_problem n m Inv D s) (HZ : il_Z s = Some Z) (CZ : candidate n s Z Z) (HZb : il_Zb s = Some Zb) (LZb : length Zb = S (il_N s)) (GZb : same_steps (il_N s) Z Zb).
Context (N1 : (1 <= il_N s)%nat) (R0 : il_rho s = 0).
Context (HLB : o_ls_lb (il_opts s) <= 1 <= o_ls_ub (il_opts s)) (HIT : (1 <= o_ls_iters (il_opts s))%Z).
Context (HLIM : o_check_bounds (il_opts s) = true -> forall Y, best n m D s Z Y -> within_limits n m (il_opts s) Y).
Theorem iteration_lq fuel fin s' : il_iteration ops n m cb fuel s = Ok (fin, s') ->
  exists Z' s2, il_Z s' = Some Z' /\ best n m D s Z Z' /\ (exists f, il_backward_pass n m f (il_update_expansions ops n m Z s) = Ok s2) /\
  (Z' = Z \/ (simulates n m s2 (times Zb) Z 1 Z' /\ lq_cost n m D s Z' < lq_cost n m D s Z)).
Proof.
  intros E. assert (RD : il_ready s). { split; [apply LP|]. split; [exists Z; split; [exact HZ|apply CZ]|exists Zb; auto]. }
  destruct (iteration_spec ops n m cb (fun _ _ => True) (fun _ => I) (fun _ _ _ _ _ => I) (fun _ _ _ => I) (fun _ _ _ _ => I) (fun _ _ _ _ => I) fuel s fin s' RD E) as (Z0 & s2 & s3 & IO & _).
  destruct IO. rewrite HZ in it_Z. inversion it_Z; subst Z0. pose proof it_back as EB0. destruct it_back as [f EB].
  set (s1 := il_update_expansions ops n m Z s) in *.
  assert (E1 : s1 = il_set_costs s (fst (expand_all ops n m (il_kps s) Z)) (snd (expand_all ops n m (il_kps s) Z))) by (unfold s1, il_update_expansions; destruct (expand_all ops n m (il_kps s) Z); reflexivity).
  assert (K1 : il_kps s1 = snd (expand_all ops n m (il_kps s) Z)) by (rewrite E1; reflexivity). assert (NN : il_N s1 = il_N s) by (rewrite E1; reflexivity).
  assert (L1 : length (il_kps s1) = S (il_N s1)) by (rewrite K1, NN; apply (len1 n m ops Inv D s Z LP CZ)).
  assert (R1 : il_rho s1 = 0) by (rewrite E1; exact R0).
  destruct f as [|g]; [exfalso; unfold il_backward_pass in EB; destruct (nth_error (il_kps s1) (il_N s1)); discriminate|].
  destruct (pass_convex n m g s1 L1 ltac:(rewrite NN; exact N1) (sym1 n m ops Inv D HQ s Z Zb LP CZ LZb N1) ltac:(rewrite R1; lra) (convex1 n m ops Inv D HQ s Z Zb LP CZ LZb N1) (semi1 n m ops Inv D HQ s Z LP CZ)) as (k0 & Ek & OK & st & EP).
  cbv zeta in OK, EP. rewrite EP in EB. rewrite R1, K1, NN in *.
  assert (B2 : il_kps s2 = sw_kps (bp_sweep n m (0:RS) (firstn (il_N s) (snd (expand_all ops n m (il_kps s) Z))) (e_xx (kp_ce k0)) (e_x (kp_ce k0)) 0 0) ++ [kpf_terminal k0]) by (inversion EB; reflexivity).
  assert (B3 : il_dV0 s2 = sw_v0 (bp_sweep n m (0:RS) (firstn (il_N s) (snd (expand_all ops n m (il_kps s) Z))) (e_xx (kp_ce k0)) (e_x (kp_ce k0)) 0 0)) by (inversion EB; reflexivity).
  assert (B4 : il_dV1 s2 = sw_v1 (bp_sweep n m (0:RS) (firstn (il_N s) (snd (expand_all ops n m (il_kps s) Z))) (e_xx (kp_ce k0)) (e_x (kp_ce k0)) 0 0)) by (inversion EB; reflexivity).
  destruct it_frame2. destruct (forward_lq n m ops Inv D HQ s Z Zb LP CZ LZb GZb N1 k0 Ek 0 OK s2 B2 B3 B4 fr_opts fr_x0 fr_N ltac:(congruence) ltac:(congruence) it_costs2 eq_refl HLB HIT HLIM) as (Z' & A & B & C).
  exists Z', s2. split; [rewrite it_Z', it_fwd; exact A|]. split; [exact B|]. split; [exact EB0|exact C].
Qed.
End It.

(** ** starting from a solver object *)
Definition Rd (c c' : CS) : Prop := Inv c -> Inv c' /\ D c' = D c.
Lemma Rd_refl c : Rd c c. Proof. intros H; auto. Qed.
Lemma Rd_trans a b c : Rd a b -> Rd b c -> Rd a c.
Proof. intros H1 H2 H. destruct (H1 H) as [A B]. destruct (H2 A) as [C E]. split; auto; congruence. Qed.
Lemma Rd_e c x u : Rd c (snd (co_eval ops c x u)). Proof. intros H. now apply (qc_eval _ _ _ _ _ HQ). Qed.
Lemma Rd_g c x u b : Rd c (snd (co_grad ops c x u b)). Proof. intros H. now apply (qc_grad _ _ _ _ _ HQ). Qed.
Lemma Rd_h c x u b : Rd c (snd (co_hess ops c x u b)). Proof. intros H. now apply (qc_hess _ _ _ _ _ HQ). Qed.
Lemma sim_data (a b : list K) : kps_sim Rd a b -> Forall (fun k => Inv (kp_cost k)) a -> Forall (fun k => Inv (kp_cost k)) b /\ map (fun k => (D (kp_cost k), kp_dyn k)) b = map (fun k => (D (kp_cost k), kp_dyn k)) a.
Proof.
  induction 1 as [|k k' l l' [H1 H2] H IH]; intros Hi; [split; [constructor|auto]|].
  inversion Hi; subst. destruct (H2 H4) as [A B]. destruct (IH H5) as [C E]. split; [constructor; auto|]. cbn [map]. rewrite B, H1, E. reflexivity.
Qed.
(** two solver objects with the same problem data *)
Definition same_data (s s' : ILQR) : Prop := il_N s' = il_N s /\ il_x0 s' = il_x0 s /\ il_opts s' = il_opts s /\ Forall (fun k => Inv (kp_cost k)) (il_kps s') /\
  map (fun k => (D (kp_cost k), kp_dyn k)) (il_kps s') = map (fun k => (D (kp_cost k), kp_dyn k)) (il_kps s).
Lemma frame_data s s' : frame Rd s s' -> Forall (fun k => Inv (kp_cost k)) (il_kps s) -> same_data s s'.
Proof. intros [A B C E] F. destruct (sim_data _ _ E F). unfold same_data. auto. Qed.
Lemma data_dyn s s' : same_data s s' -> map kp_dyn (il_kps s') = map kp_dyn (il_kps s).
Proof. intros (_ & _ & _ & _ & E). apply (f_equal (map snd)) in E. rewrite !map_map in E. exact E. Qed.
Lemma data_cost s s' Y : same_data s s' -> lq_cost n m D s' Y = lq_cost n m D s Y.
Proof. intros (_ & _ & _ & _ & E). rewrite !lq_cost_total. unfold total_cost. f_equal. apply (f_equal (map (fun p => quad_val n m (fst p)))) in E. rewrite !map_map in E. exact E. Qed.
Lemma data_problem s s' : same_data s s' -> lq_problem n m Inv D s -> lq_problem n m Inv D s'.
Proof.
  intros (EN & _ & _ & FI & E) LP. assert (L : length (il_kps s') = length (il_kps s)) by (rewrite <- (map_length (fun k => (D (kp_cost k), kp_dyn k))), E; apply map_length).
  assert (G : forall k kp', nth_error (il_kps s') k = Some kp' -> exists kp, nth_error (il_kps s) k = Some kp /\ D (kp_cost kp') = D (kp_cost kp) /\ kp_dyn kp' = kp_dyn kp).
  { intros k kp' H. destruct (nth_error_ex (il_kps s) k) as [kp Hk]; [rewrite <- L; apply nth_error_Some; congruence|]. exists kp. split; [exact Hk|]. pose proof (nth_map_eq _ _ _ k kp' kp E H Hk) as P. inversion P. auto. }
  split.
  - rewrite L, EN. apply LP.
  - exact FI.
  - intros k kp' Hk H. destruct (G k kp' H) as (kp & A & B & C). rewrite B, C. apply (lp_seg _ _ _ _ _ LP k); [lia|exact A].
  - intros kp' H. destruct (G _ kp' H) as (kp & A & B & C). rewrite B. apply (lp_end _ _ _ _ _ LP). rewrite <- EN. exact A.
Qed.
Lemma data_candidate s s' Z Z1 Y : same_data s s' -> length Z = S (il_N s) -> length Z1 = S (il_N s) -> same_steps (il_N s) Z Z1 -> candidate n s' Z1 Y <-> candidate n s Z Y.
Proof.
  intros H LZ LZ1 G. pose proof (data_dyn _ _ H) as ED. destruct H as (EN & EX & _). unfold candidate. rewrite EN, EX, ED.
  split; intros (A & B & C); (split; [exact A|]; split; [|exact C]).
  - eapply steps_trans; [exact LZ1|exact G|exact B].
  - eapply steps_trans; [exact LZ|apply steps_sym; exact G|exact B].
Qed.
Lemma data_best s s' Z Z1 Y : same_data s s' -> length Z = S (il_N s) -> length Z1 = S (il_N s) -> same_steps (il_N s) Z Z1 -> best n m D s' Z1 Y <-> best n m D s Z Y.
Proof.
  intros H LZ LZ1 G. unfold best. rewrite (data_candidate s s' Z Z1 Y H LZ LZ1 G). split; intros [A B]; (split; [exact A|]); intros Y' C'; specialize (B Y').
  - rewrite !(data_cost s s' _ H) in B. apply B. apply (data_candidate s s' Z Z1 Y' H LZ LZ1 G). exact C'.
  - rewrite !(data_cost s s' _ H). apply B. apply (data_candidate s s' Z Z1 Y' H LZ LZ1 G). exact C'.
Qed.
Section Solve.
Context (s0 b : ILQR) (debug : bool) (LP : lq_problem n m Inv D s0) (N1 : (1 <= il_N s0)%nat) (RI : o_reg_initial (il_opts s0) = 0)
  (HLB : o_ls_lb (il_opts s0) <= 1 <= o_ls_ub (il_opts s0)) (HIT : (1 <= o_ls_iters (il_opts s0))%Z)
  (HLIM : o_check_bounds (il_opts s0) = true -> forall Z Y, il_Z s0 = Some Z -> best n m D s0 Z Y -> within_limits n m (il_opts s0) Y)
  (Hb : il_begin ops n debug s0 = Ok b).
Theorem first_iteration_lq fuel fin s' : il_iteration ops n m cb fuel b = Ok (fin, s') ->
  exists Z Z', il_Z s0 = Some Z /\ il_Z s' = Some Z' /\ best n m D s0 Z Z' /\
  (let Z1 := il_rollout n Z s0 in Z' = Z1 \/ (lq_cost n m D s0 Z' < lq_cost n m D s0 Z1 /\
    exists f s2 ts, il_backward_pass n m f (il_update_expansions ops n m Z1 b) = Ok s2 /\ simulates n m s2 ts Z1 1 Z')).
Proof.
  intros E. destruct (begin_spec ops n Rd Rd_refl Rd_e debug s0 b Hb) as (Z & Z1 & S4). pose proof (frame_data s0 b (so_frame _ _ _ _ _ _ _ _ S4) (lp_inv _ _ _ _ _ LP)) as SD. destruct S4.
  destruct so_Z1 as [Zb1 ER]. destruct so_kps as [_ LZ]. destruct so_grid as (Zb & HZb & GZb).
  assert (LZ1 : length Z1 = S (il_N s0)) by (rewrite <- LZ, <- (map_length z_u Z1), so_u; apply map_length).
  assert (LZb : length Zb = S (il_N s0)) by (destruct GZb as [T _]; rewrite <- LZ1, <- (map_length z_t Zb), T; apply map_length).
  assert (GZ : same_steps (il_N s0) Z Z1) by (apply grid_steps; [exact LZ|]; apply grid_times; auto).
  destruct so_rho as [RH _]. pose proof SD as (EN & EX & EO & _).
  assert (CZ : candidate n b Z1 Z1). { split; [congruence|]. split; [apply steps_refl|]. rewrite EX, (data_dyn _ _ SD). apply follows_feasible; assumption. }
  destruct (iteration_lq b Z1 Zb (data_problem _ _ SD LP) Zb1 CZ HZb ltac:(congruence) ltac:(rewrite EN; apply grid_steps; assumption) ltac:(lia) ltac:(congruence) ltac:(rewrite EO; exact HLB) ltac:(rewrite EO; exact HIT)
     ltac:(rewrite EO; intros CB Y BY; apply (HLIM CB Z Y so_Z); apply (data_best s0 b Z Z1 Y SD LZ LZ1 GZ); exact BY) fuel fin s' E) as (Z' & s2 & A & B & C & F).
  exists Z, Z'. split; [exact so_Z|]. split; [exact A|]. split; [apply (data_best s0 b Z Z1 Z' SD LZ LZ1 GZ); exact B|]. cbv zeta.
  assert (ER' : il_rollout n Z s0 = Z1) by (symmetry; exact ER). rewrite ER'. destruct F as [F|[F1 F2]]; [left; exact F|right]. split; [rewrite !(data_cost s0 b _ SD) in F2; exact F2|]. destruct C as [f C]. exists f, s2, (times Zb). auto.
Qed.
(** every later iteration keeps it *)
Theorem every_iteration_lq fuel j s fin s' : stats_ok (il_stats s0) -> reach ops n m cb fuel b j s -> il_iteration ops n m cb fuel s = Ok (fin, s') ->
  exists Z Z', il_Z s0 = Some Z /\ il_Z s' = Some Z' /\ best n m D s0 Z Z'.
Proof.
  intros ST RC E. revert fin s' E. induction RC as [|j s s1 RC IH Ei]; intros fin s' E.
  - destruct (first_iteration_lq fuel fin s' E) as (Z & Z' & A & B & C & _). exists Z, Z'. auto.
  - destruct (IH false s1 Ei) as (Z & Z1 & HZ & HZ1 & B1). pose proof (reachS ops n m cb fuel b j s s1 RC Ei) as RC1.
    destruct (step_total_cost ops n m cb Inv (fun c => qv c) (faithful n m ops Inv D HQ) RS_lt_order debug fuel s0 b s1 s' (S j) fin (lp_inv _ _ _ _ _ LP) ST Hb RC1 E) as (Za & Z' & HZa & HZ' & DC).
    rewrite HZ1 in HZa. inversion HZa; subst Za. exists Z, Z'. split; [exact HZ|]. split; [exact HZ'|].
    destruct DC as [->|DC]; [exact B1|]. apply Rltb_true in DC. rewrite <- !lq_cost_total in DC.
    destruct (reach_feas ops n m cb debug fuel s0 b s1 (S j) Hb RC1) as (Zc & HZc & FE & RD). rewrite HZ in HZc. inversion HZc; subst Zc.
    pose proof (feas_iter ops n m cb (fun _ _ => True) (fun _ => I) (fun _ _ _ _ _ => I) (fun _ _ _ => I) (fun _ _ _ _ => I) (fun _ _ _ _ => I) (il_x0 s0) (map kp_dyn (il_kps s0)) Z fuel s1 fin s' RD FE E) as FE'. destruct FE' as (_ & _ & Zq & Zbq & HZq & _ & HH & HF & HG & _). rewrite HZ' in HZq. inversion HZq; subst Zq.
    assert (LZ : length Z = S (il_N s0)). { destruct (begin_spec ops n Rd Rd_refl Rd_e debug s0 b Hb) as (Zx & Z1x & S4). destruct S4. rewrite HZ in so_Z. inversion so_Z; subst. apply so_kps. }
    assert (CZ : candidate n s0 Z Z'). { split; [destruct HG as [T _]; rewrite <- LZ, <- (map_length z_t Z'), T; apply map_length|]. split; [apply grid_steps; assumption|]. apply follows_feasible; assumption. }
    pose proof (proj2 B1 Z' CZ). lra.
Qed.
End Solve.
Theorem solve_lq debug fuel s0 s' : lq_problem n m Inv D s0 -> (1 <= il_N s0)%nat -> o_reg_initial (il_opts s0) = 0 -> o_ls_lb (il_opts s0) <= 1 <= o_ls_ub (il_opts s0) -> (1 <= o_ls_iters (il_opts s0))%Z ->
  (o_check_bounds (il_opts s0) = true -> forall Z Y, il_Z s0 = Some Z -> best n m D s0 Z Y -> within_limits n m (il_opts s0) Y) ->
  stats_ok (il_stats s0) -> (1 <= o_max_inner (il_opts s0))%Z ->
  il_solve ops n m cb debug fuel s0 = Ok s' -> exists Z Z', il_Z s0 = Some Z /\ il_Z s' = Some Z' /\ best n m D s0 Z Z'.
Proof.
  intros LP N1 RI HLB HIT HLIM ST MI E. destruct (solve_run ops n m cb debug fuel s0 s' E MI) as (b & j & s & Hb & RC & Ei & _).
  exact (every_iteration_lq s0 b debug LP N1 RI HLB HIT HLIM Hb fuel j s true s' ST RC Ei).
Qed.
End S.
