(** What each iLQR function may change (any arithmetic). *)
From Coq Require Import ZArith String List Bool Lia.
From Verif Require Import Base Lin RLin LogModel StatsModel TrajModel IlqrModel IlqrSpec.
Import ListNotations.

Section Frame.
Context {F : Scalar} {CS : Type} (ops : CostOps F CS) (n m : nat) (cb : list CS -> F).
(** a preorder on cost objects containing the effect of every evaluation *)
Context (R : CS -> CS -> Prop)
  (Rrefl : forall c, R c c) (Rtrans : forall a b c, R a b -> R b c -> R a c)
  (Re : forall c x u, R c (snd (co_eval ops c x u)))
  (Rg : forall c x u b, R c (snd (co_grad ops c x u b)))
  (Rh : forall c x u b, R c (snd (co_hess ops c x u b))).

Definition kp_sim (k k' : KPF F CS) : Prop := kp_dyn k' = kp_dyn k /\ R (kp_cost k) (kp_cost k').
Definition kps_sim := Forall2 kp_sim.

Lemma kp_sim_refl k : kp_sim k k.
Proof. split; auto. Qed.
Lemma kp_sim_trans a b c : kp_sim a b -> kp_sim b c -> kp_sim a c.
Proof. intros [H1 H2] [H3 H4]. split; [congruence|eauto]. Qed.
Lemma kps_refl l : kps_sim l l.
Proof. induction l; constructor; auto using kp_sim_refl. Qed.
Lemma kps_trans a : forall b c, kps_sim a b -> kps_sim b c -> kps_sim a c.
Proof.
  induction a; intros b c H1 H2; inversion H1; subst; inversion H2; subst; constructor; eauto using kp_sim_trans.
  eapply IHa; eauto.
Qed.
Lemma kps_len a b : kps_sim a b -> length a = length b.
Proof. induction 1; simpl; auto. Qed.
Lemma kps_dyns a b : kps_sim a b -> map kp_dyn b = map kp_dyn a.
Proof. induction 1; simpl; auto. destruct H. congruence. Qed.

Lemma sim_cost k x u : kp_sim k (snd (kpf_cost ops k x u)).
Proof.
  unfold kpf_cost. pose proof (Re (kp_cost k) x u) as H. destruct (co_eval ops (kp_cost k) x u). split; auto.
Qed.
Lemma sim_cost_exp x u k : kp_sim k (kpf_cost_expansion ops n m x u k).
Proof.
  unfold kpf_cost_expansion.
  pose proof (Rg (kp_cost k) x u (vzero, vzero)) as H. destruct (co_grad ops (kp_cost k) x u (vzero, vzero)) as [g c1].
  pose proof (Rh c1 x u (mzero, mzero, mzero)) as H'. destruct (co_hess ops c1 x u (mzero, mzero, mzero)) as [[[h1 h2] h3] c2].
  split; simpl; eauto.
Qed.
Lemma sim_expand z k : kp_sim k (snd (expand_kp ops n m z k)).
Proof.
  unfold expand_kp. eapply kp_sim_trans; [|apply sim_cost].
  eapply kp_sim_trans; [apply sim_cost_exp|]. split; simpl; auto.
Qed.
Lemma sim_calc_costs kps : forall Z, kps_sim kps (snd (calc_costs ops kps Z)).
Proof.
  induction kps as [|k kps IH]; intros [|z Z]; simpl; try apply kps_refl.
  pose proof (sim_cost k (z_x z) (z_u z)) as H. destruct (kpf_cost ops k (z_x z) (z_u z)) as [J k'].
  specialize (IH Z). destruct (calc_costs ops kps Z) as [Js ks]. constructor; auto.
Qed.
Lemma sim_expand_all kps : forall Z, kps_sim kps (snd (expand_all ops n m kps Z)).
Proof.
  induction kps as [|k kps IH]; intros [|z Z]; simpl; try apply kps_refl.
  pose proof (sim_expand z k) as H. destruct (expand_kp ops n m z k) as [J k'].
  specialize (IH Z). destruct (expand_all ops n m kps Z) as [Js ks]. constructor; auto.
Qed.
Lemma sim_gains k k' : kpf_gains n m k = Some k' -> kp_sim k k'.
Proof. unfold kpf_gains. destruct (llt m _); [|discriminate]. intros E; inversion E; subst. split; simpl; auto. Qed.
Lemma sim_sweep rho kps : forall S s v0 v1, kps_sim kps (sw_kps (bp_sweep n m rho kps S s v0 v1)).
Proof.
  induction kps as [|k kps IH]; intros S s v0 v1; simpl; [constructor|].
  specialize (IH S s v0 v1). destruct (bp_sweep n m rho kps S s v0 v1) as [ok ks S' s' w0 w1]; simpl in *.
  destruct ok; simpl.
  - set (k1 := kpf_regularize _ _ _).
    destruct (kpf_gains n m k1) as [k2|] eqn:E; simpl; constructor; auto.
    + apply sim_gains in E. eapply kp_sim_trans; [|eapply kp_sim_trans; [exact E|]]; split; simpl; auto.
    + split; simpl; auto.
  - constructor; auto using kp_sim_refl.
Qed.

(** ** the solver state *)
Record frame (s s' : ILQR F CS) : Prop := mkFrame {
  fr_N : il_N s' = il_N s; fr_x0 : il_x0 s' = il_x0 s; fr_opts : il_opts s' = il_opts s;
  fr_kps : kps_sim (il_kps s) (il_kps s') }.
Lemma frame_refl s : frame s s.
Proof. split; auto using kps_refl. Qed.
Lemma frame_trans a b c : frame a b -> frame b c -> frame a c.
Proof. intros [] []. split; try congruence. eauto using kps_trans. Qed.
(** trajectories untouched *)
Definition same_traj (s s' : ILQR F CS) : Prop := il_Z s' = il_Z s /\ il_Zb s' = il_Zb s.
Definition same_counts (s s' : ILQR F CS) : Prop :=
  st_inner (il_stats s') = st_inner (il_stats s) /\ st_total (il_stats s') = st_total (il_stats s) /\
  st_outer (il_stats s') = st_outer (il_stats s) /\ st_initial_cost (il_stats s') = st_initial_cost (il_stats s).

Lemma st_log_counts t v (st : Stats F) : let st' := st_log_val t v st in
  st_inner st' = st_inner st /\ st_total st' = st_total st /\ st_outer st' = st_outer st /\
  st_initial_cost st' = st_initial_cost st.
Proof. unfold st_log_val, st_set_data. simpl. destruct (Nat.eqb (st_len st) 0); simpl; auto. Qed.

Lemma frame_update_expansions Z s : let s' := il_update_expansions ops n m Z s in
  frame s s' /\ same_traj s s' /\ il_stats s' = il_stats s /\ il_status s' = il_status s.
Proof.
  unfold il_update_expansions. pose proof (sim_expand_all (il_kps s) Z) as H.
  destruct (expand_all ops n m (il_kps s) Z) as [Js ks]. simpl in *. repeat split; auto.
Qed.

Lemma nth_error_split_sim (l : list (KPF F CS)) N k0 kN : nth_error l N = Some k0 -> length l = S N -> kp_sim k0 kN ->
  kps_sim l (firstn N l ++ [kN]).
Proof.
  revert N. induction l as [|a l IH]; intros N H1 H2 H3; [destruct N; discriminate|].
  destruct N as [|N]; simpl in *.
  - inversion H1; subst. destruct l; [|discriminate]. constructor; [auto|constructor].
  - constructor; [apply kp_sim_refl|]. apply IH; auto.
Qed.

Lemma sim_set_kps (l : list (KPF F CS)) N kN rho S s v0 v1 : length l = Datatypes.S N -> nth_error l N = Some kN ->
  kps_sim l (sw_kps (bp_sweep n m rho (firstn N l) S s v0 v1) ++ [kN]).
Proof.
  intros H1 H2.
  assert (El : l = firstn N l ++ [kN]).
  { rewrite <- (firstn_skipn N l) at 1. f_equal. clear - H1 H2. revert N H1 H2. induction l; intros [|N] H1 H2; simpl in *; try discriminate.
    - inversion H2; subst. destruct l; [auto|discriminate].
    - apply IHl; auto. }
  rewrite El at 1. apply Forall2_app; [|constructor; [apply kp_sim_refl|constructor]].
  apply sim_sweep.
Qed.

Lemma bp_loop_frame fuel kN : forall cnt s s', length (il_kps s) = S (il_N s) -> nth_error (il_kps s) (il_N s) = Some kN ->
  bp_loop n m fuel kN cnt s = Ok s' ->
  frame s s' /\ same_traj s s' /\ il_stats s' = il_stats s /\ nth_error (il_kps s') (il_N s') = Some kN /\
  il_costs s' = il_costs s /\
  (il_status s' = il_status s \/ il_status s' = kBackwardPassRegularizationFailed).
Proof.
  induction fuel as [|f IH]; intros cnt s s' Hlen Hnth E; [discriminate|].
  cbn [bp_loop] in E.
  pose proof (sim_set_kps (il_kps s) (il_N s) kN (il_rho s) (kp_S kN) (kp_s kN) (il_dV0 s) (il_dV1 s) Hlen Hnth) as Hsim.
  set (w := bp_sweep n m (il_rho s) (firstn (il_N s) (il_kps s)) (kp_S kN) (kp_s kN) (il_dV0 s) (il_dV1 s)) in *.
  assert (Hlen' : length (sw_kps w ++ [kN]) = S (il_N s)) by (rewrite <- (kps_len _ _ Hsim); exact Hlen).
  assert (Hnth' : nth_error (sw_kps w ++ [kN]) (il_N s) = Some kN).
  { rewrite app_length in Hlen'; simpl in Hlen'. rewrite nth_error_app2 by lia.
    replace (il_N s - length (sw_kps w))%nat with 0%nat by lia. reflexivity. }
  destruct (sw_ok w).
  - destruct (il_N s) eqn:EN.
    + apply IH in E; simpl; rewrite ?EN; auto. destruct E as (E1 & E2 & E3 & E4 & E5 & E6).
      split; [|auto]. eapply frame_trans; [|exact E1]. split; simpl; auto.
    + inversion E; subst. split; [split; simpl; auto|]. repeat split; simpl; auto. now rewrite EN.
  - destruct (o_reg_fail _ <=? _)%Z.
    + inversion E; subst. split; [split; simpl; auto|]. repeat split; simpl; auto.
    + apply IH in E; simpl; auto. destruct E as (E1 & E2 & E3 & E4 & E5 & E6).
      split; [|auto]. eapply frame_trans; [|exact E1]. split; simpl; auto.
Qed.

Lemma frame_backward fuel s s' : length (il_kps s) = S (il_N s) -> il_backward_pass n m fuel s = Ok s' ->
  frame s s' /\ same_traj s s' /\ same_counts s s' /\ il_costs s' = il_costs s /\
  (exists rho, il_stats s' = st_logF "reg" rho (il_stats s)) /\
  (il_status s' = il_status s \/ il_status s' = kBackwardPassRegularizationFailed).
Proof.
  intros Hlen E. unfold il_backward_pass in E.
  destruct (nth_error (il_kps s) (il_N s)) as [k0|] eqn:Hk; [|discriminate].
  set (kN := kpf_terminal k0) in *.
  set (s1 := il_set_dV _ _ _) in E.
  assert (Hsim : kps_sim (il_kps s) (firstn (il_N s) (il_kps s) ++ [kN])).
  { eapply nth_error_split_sim; eauto. split; simpl; auto. }
  destruct (bp_loop n m fuel kN 0 s1) as [s2| | | | |] eqn:E2; simpl in E; try discriminate.
  inversion E; subst; clear E.
  apply bp_loop_frame in E2; simpl.
  - destruct E2 as (E1 & [E2 E2'] & E3 & E4 & E5 & E6).
    assert (Hf : frame s s2). { eapply frame_trans; [|exact E1]. split; simpl; auto. }
    split; [destruct Hf; split; simpl; auto|]. split; [split; simpl; auto|]. split.
    + unfold same_counts, il_decrease_reg, il_set_reg, il_set_stats; cbn [il_stats].
      destruct (st_log_counts "reg" (VFlt (il_rho s2)) (il_stats s2)) as (A & B & C & D).
      unfold st_logF. rewrite A, B, C, D, E3. auto.
    + split; [exact E5|]. split; [|exact E6]. exists (il_rho s2). cbn [il_stats il_decrease_reg il_set_reg il_set_stats]. now rewrite E3.
  - rewrite <- (kps_len _ _ Hsim). exact Hlen.
  - rewrite nth_error_app2; rewrite firstn_length_le by lia; [|lia]. rewrite Nat.sub_diag. reflexivity.
Qed.

(** ** rollouts *)
Fixpoint follows (dyns : list (Dyn F)) (Z : Traj F) : Prop :=
  match dyns, Z with
  | f :: ds, z :: ((z' :: _) as r) =>
      (exists buf, z_x z' = vstore n (dy_eval f (z_x z) (z_u z) (z_t z) (z_h z) buf)) /\ follows ds r
  | _, _ => True
  end.
Definition head_x (x : vec F) (Z : Traj F) : Prop := match Z with [] => True | z :: _ => z_x z = x end.
(** the limits checked by the closed-loop rollout, per segment *)
Fixpoint limits (o : Opts F) (Z : Traj F) : Prop :=
  match Z with
  | z :: ((z' :: _) as r) =>
      ltb (o_state_max o) (norm n (z_x z')) = false /\ ltb (o_control_max o) (norm m (z_u z)) = false /\ limits o r
  | _ => True
  end.

Lemma follows_feasible x0 dyns Z : head_x (vstore n x0) Z -> follows dyns Z -> dyn_feasible n x0 dyns Z.
Proof.
  intros H1 H2. split.
  - intros z i Hz Hi. destruct Z as [|z0 Z]; [discriminate|]. inversion Hz; subst. simpl in H1. rewrite H1. now apply vstore_lt.
  - clear H1 x0. revert Z H2. induction dyns as [|f ds IH]; intros Z H2 k f' z z' Hf Hz Hz'; [destruct k; discriminate|].
    destruct Z as [|a [|b r]]; try (destruct k; [discriminate|destruct k; discriminate]).
    destruct H2 as [[buf Hb] H2]. destruct k as [|k].
    + inversion Hf; inversion Hz; inversion Hz'; subst. exists buf. intros i Hi. rewrite Hb. now apply vstore_lt.
    + eapply (IH (b :: r)); eauto.
Qed.

Lemma roll_spec (kps : list (KPF F CS)) : forall x Z, (length Z <= S (length kps))%nat ->
  head_x x (roll n x kps Z) /\ follows (map kp_dyn kps) (roll n x kps Z) /\
  length (roll n x kps Z) = length Z /\ times (roll n x kps Z) = times Z /\
  map z_u (roll n x kps Z) = map z_u Z.
Proof.
  induction kps as [|k kps IH]; intros x Z HL.
  - destruct Z as [|z [|z' Z]]; simpl in *; try lia; repeat split; auto.
  - destruct Z as [|z [|z' Z]]; simpl roll; try (simpl; repeat split; auto; fail).
    specialize (IH (kpf_dynamics n k x (z_u (kp_set_x x z)) (z_t (kp_set_x x z)) (z_h (kp_set_x x z)) (z_x z')) (z' :: Z)).
    simpl in HL. specialize (IH ltac:(simpl; lia)). destruct IH as (I1 & I2 & I3 & I4 & I5).
    set (r := roll n _ kps (z' :: Z)) in *.
    split; [reflexivity|]. split.
    + simpl map. destruct r as [|a r]; [discriminate|]. split; [|exact I2]. simpl in I1.
      exists (z_x z'). simpl. rewrite I1. reflexivity.
    + simpl in *. repeat split; congruence.
Qed.

Lemma roll_closed_len o alpha (kps : list (KPF F CS)) : forall x Z Zb,
  length (snd (roll_closed n m o alpha x kps Z Zb)) = length Zb /\
  times (snd (roll_closed n m o alpha x kps Z Zb)) = times Zb.
Proof.
  induction kps as [|k kps IH]; intros x Z Zb.
  - destruct Zb as [|zb [|zb' Zb]]; simpl; auto.
  - destruct Zb as [|zb Zb]; [auto|]. destruct Z as [|z Z]; [simpl; auto|]. destruct Zb as [|zb' Zb]; [simpl; auto|].
    cbn [roll_closed].
    set (u := vstore m _). set (xn := kpf_dynamics n k x u _ _ _).
    destruct (o_check_bounds o && ltb (o_state_max o) (norm n xn)); [simpl; auto|].
    destruct (o_check_bounds o && ltb (o_control_max o) (norm m u)); [simpl; auto|].
    specialize (IH xn Z (zb' :: Zb)). destruct (roll_closed n m o alpha xn kps Z (zb' :: Zb)) as [st r]. simpl in *.
    destruct IH as [-> ->]. auto.
Qed.
Lemma roll_closed_spec o alpha (kps : list (KPF F CS)) : forall x Z Zb r, (length Zb <= S (length kps))%nat -> length Z = length Zb ->
  roll_closed n m o alpha x kps Z Zb = (None, r) ->
  head_x x r /\ follows (map kp_dyn kps) r /\ (o_check_bounds o = true -> limits o r).
Proof.
  induction kps as [|k kps IH]; intros x Z Zb r HL HZ E.
  - destruct Zb as [|zb [|zb' Zb]]; simpl in *; try lia; inversion E; subst; simpl; auto.
  - destruct Zb as [|zb Zb]; [inversion E; subst; simpl; auto|].
    destruct Z as [|z Z]; [discriminate|]. simpl in HZ.
    destruct Zb as [|zb' Zb]; [inversion E; subst; simpl; auto|].
    cbn [roll_closed] in E.
    set (u := vstore m _) in *. set (zb2 := kp_set_u u (kp_set_x x zb)) in *.
    set (xn := kpf_dynamics n k x u _ _ _) in *.
    destruct (o_check_bounds o && ltb (o_state_max o) (norm n xn)) eqn:Eb1; [discriminate|].
    destruct (o_check_bounds o && ltb (o_control_max o) (norm m u)) eqn:Eb2; [discriminate|].
    destruct (roll_closed n m o alpha xn kps Z (zb' :: Zb)) as [st rr] eqn:Er. inversion E; subst; clear E.
    pose proof (proj1 (roll_closed_len o alpha kps xn Z (zb' :: Zb))) as Hlen. rewrite Er in Hlen. simpl in Hlen.
    simpl in HL, HZ. destruct (IH xn Z (zb' :: Zb) rr ltac:(simpl; lia) ltac:(simpl; lia) Er) as (I1 & I2 & I3).
    destruct rr as [|a rr]; [discriminate|]. simpl in I1.
    split; [reflexivity|]. split.
    + simpl map. split; [|exact I2]. exists (z_x zb'). rewrite I1. reflexivity.
    + intros Hc. rewrite Hc in Eb1, Eb2. simpl in Eb1, Eb2. split; [|split]; auto. rewrite I1. exact Eb1.
Qed.
(** a stopped rollout violates the corresponding limit *)
Lemma roll_closed_stop o alpha (kps : list (KPF F CS)) : forall x Z Zb r e, roll_closed n m o alpha x kps Z Zb = (Some e, r) ->
  o_check_bounds o = true /\
  ((e = kStateLimit /\ exists k z, nth_error r (S k) = Some z /\ ltb (o_state_max o) (norm n (z_x z)) = true) \/
   (e = kControlLimit /\ exists k z, nth_error r k = Some z /\ ltb (o_control_max o) (norm m (z_u z)) = true)).
Proof.
  induction kps as [|k kps IH]; intros x Z Zb r e E.
  - destruct Zb as [|zb [|zb' Zb]]; simpl in *; inversion E.
  - destruct Zb as [|zb Zb]; [discriminate|]. destruct Z as [|z Z]; [discriminate|].
    destruct Zb as [|zb' Zb]; [discriminate|]. cbn [roll_closed] in E.
    set (u := vstore m _) in *. set (zb2 := kp_set_u u (kp_set_x x zb)) in *.
    set (xn := kpf_dynamics n k x u _ _ _) in *.
    destruct (o_check_bounds o && ltb (o_state_max o) (norm n xn)) eqn:Eb1.
    { apply andb_prop in Eb1. inversion E; subst. split; [apply Eb1|]. left. split; auto.
      exists 0%nat. eexists. split; [reflexivity|]. apply Eb1. }
    destruct (o_check_bounds o && ltb (o_control_max o) (norm m u)) eqn:Eb2.
    { apply andb_prop in Eb2. inversion E; subst. split; [apply Eb2|]. right. split; auto.
      exists 0%nat. eexists. split; [reflexivity|]. apply Eb2. }
    destruct (roll_closed n m o alpha xn kps Z (zb' :: Zb)) as [st rr] eqn:Er. inversion E; subst; clear E.
    destruct (IH _ _ _ _ _ Er) as [H1 [[H2 (j & w & H3 & H4)]|[H2 (j & w & H3 & H4)]]]; split; auto.
    + left. split; auto. exists (S j), w. auto.
    + right. split; auto. exists (S j), w. auto.
Qed.

(** ** line search *)
Definition accepted (o : Opts F) (dV0 dV1 J0 J alpha : F) : bool :=
  let expected := mul (opp alpha) (add dV0 (mul alpha dV1)) in
  let z := if ltb zero expected then div (sub J0 J) expected else opp one in
  leb (o_ls_lb o) z && leb z (o_ls_ub o) && ltb J J0.

Definition same_stats_core (st st' : Stats F) : Prop :=
  st_inner st' = st_inner st /\ st_total st' = st_total st /\ st_outer st' = st_outer st /\
  st_initial_cost st' = st_initial_cost st.
Lemma same_core_refl st : same_stats_core st st.
Proof. repeat split. Qed.
Lemma same_core_trans a b c : same_stats_core a b -> same_stats_core b c -> same_stats_core a c.
Proof. intros (A & B & C & D) (A' & B' & C' & D'). repeat split; congruence. Qed.

(** outcome of the loop *)
Record ls_out (Z : Traj F) (s : ILQR F CS) (ok : bool) (J : F) (s1 : ILQR F CS) : Prop := mkLS {
  ls_frame : frame s s1;
  ls_Z : il_Z s1 = il_Z s;
  ls_dV : il_dV0 s1 = il_dV0 s /\ il_dV1 s1 = il_dV1 s;
  ls_Zb : exists Zb Zb1, il_Zb s = Some Zb /\ il_Zb s1 = Some Zb1 /\ length Zb1 = length Zb /\ times Zb1 = times Zb;
  ls_core : same_stats_core (il_stats s) (il_stats s1);
  ls_reg : il_rho s1 = il_rho s /\ il_drho s1 = il_drho s;
  ls_fail : ok = false -> il_stats s1 = il_stats s }.

Lemma ls_out_trans Z a b c ok J ok' J' : ls_out Z a ok J b -> il_stats b = il_stats a -> ls_out Z b ok' J' c -> ls_out Z a ok' J' c.
Proof.
  intros [A1 A2 A3 A4 A5 A6 A7] Hs [B1 B2 B3 B4 B5 B6 B7]. split.
  - eapply frame_trans; eauto.
  - congruence.
  - destruct A3, B3; split; congruence.
  - destruct A4 as (Za & Zb & H1 & H2 & H3 & H4). destruct B4 as (Zc & Zd & G1 & G2 & G3 & G4).
    rewrite H2 in G1. inversion G1; subst. exists Za, Zd. repeat split; auto; congruence.
  - eapply same_core_trans; eauto.
  - destruct A6, B6; split; congruence.
  - intros E. rewrite (B7 E). exact Hs.
Qed.

Lemma rollout_closed_out alpha Z Zb s : il_Zb s = Some Zb ->
  let (ok, s1) := il_rollout_closed n m alpha Z Zb s in
  ls_out Z s false (lsum (il_costs s)) s1 /\ il_stats s1 = il_stats s /\ il_costs s1 = il_costs s /\ il_kps s1 = il_kps s /\
  exists st Zb1, roll_closed n m (il_opts s) alpha (vstore n (il_x0 s)) (il_kps s) Z Zb = (st, Zb1) /\
    il_Zb s1 = Some Zb1 /\ (ok = true -> st = None /\ il_status s1 = kUnsolved) /\
    (ok = false -> st = Some (il_status s1)).
Proof.
  intros HZb. unfold il_rollout_closed.
  destruct (roll_closed_len (il_opts s) alpha (il_kps s) (vstore n (il_x0 s)) Z Zb) as [Hl Ht].
  destruct (roll_closed n m (il_opts s) alpha (vstore n (il_x0 s)) (il_kps s) Z Zb) as [[e|] Zb1]; simpl in *.
  - split; [|repeat split; auto].
    + split; simpl; auto using same_core_refl. { split; simpl; auto using kps_refl. } exists Zb, Zb1. auto.
    + exists (Some e), Zb1. repeat split; auto; discriminate.
  - split; [|repeat split; auto].
    + split; simpl; auto using same_core_refl. { split; simpl; auto using kps_refl. } exists Zb, Zb1. auto.
    + exists None, Zb1. repeat split; auto; discriminate.
Qed.

Lemma cost_out Zb Z s J s2 : il_Zb s = Some Zb -> il_cost ops Z s = (J, s2) ->
  ls_out Z s false (lsum (il_costs s)) s2 /\ il_stats s2 = il_stats s /\ J = lsum (il_costs s2) /\
  il_costs s2 = fst (calc_costs ops (il_kps s) Z) /\ il_kps s2 = snd (calc_costs ops (il_kps s) Z) /\
  il_Zb s2 = Some Zb /\ il_status s2 = il_status s.
Proof.
  intros HZb E. unfold il_cost in E. pose proof (sim_calc_costs (il_kps s) Z) as Hs.
  destruct (calc_costs ops (il_kps s) Z) as [Js ks]. inversion E; subst; clear E. simpl in *.
  split; [|repeat split; auto].
  split; simpl; auto using same_core_refl. { split; simpl; auto. } exists Zb, Zb. auto.
Qed.

Definition st_log3 (J alpha z : F) (st : Stats F) : Stats F :=
  st_logF "z" z (st_logF "alpha" alpha (st_logF "cost" J st)).

Lemma st_log3_core J alpha z st : same_stats_core st (st_log3 J alpha z st).
Proof.
  unfold st_log3, st_logF.
  eapply same_core_trans; [|eapply same_core_trans]; apply st_log_counts.
Qed.

(** what is known when a candidate was accepted *)
Definition ls_success (Z : Traj F) (s s1 : ILQR F CS) (J0 J : F) : Prop :=
  exists alpha ks Zb Zb1 z,
    kps_sim (il_kps s) ks /\ length Zb = length (match il_Zb s with Some Zb => Zb | None => [] end) /\
    map kp_K ks = map kp_K (il_kps s) /\ map kp_d ks = map kp_d (il_kps s) /\
    roll_closed n m (il_opts s) alpha (vstore n (il_x0 s)) ks Z Zb = (None, Zb1) /\
    il_Zb s1 = Some Zb1 /\
    il_costs s1 = fst (calc_costs ops ks Zb1) /\ il_kps s1 = snd (calc_costs ops ks Zb1) /\ J = lsum (il_costs s1) /\
    accepted (il_opts s) (il_dV0 s) (il_dV1 s) J0 J alpha = true /\
    ltb J J0 = true /\ il_status s1 = kUnsolved /\ il_stats s1 = st_log3 J alpha z (il_stats s).

Lemma calc_costs_gains kps : forall Z, map kp_K (snd (calc_costs ops kps Z)) = map kp_K kps /\
  map kp_d (snd (calc_costs ops kps Z)) = map kp_d kps.
Proof.
  induction kps as [|k kps IH]; intros [|z Z]; simpl; auto.
  unfold kpf_cost. destruct (co_eval ops (kp_cost k) (z_x z) (z_u z)) as [J c].
  specialize (IH Z). destruct (calc_costs ops kps Z) as [Js ks]. simpl in *. destruct IH as [-> ->]. auto.
Qed.

Lemma line_search_spec iters : forall J0 alpha Z s ok J s1 Zb, il_Zb s = Some Zb ->
  line_search ops n m iters J0 alpha Z s = (ok, J, s1) ->
  ls_out Z s ok J s1 /\ (ok = true -> ls_success Z s s1 J0 J) /\ (ok = false -> J = J0) /\
  (il_status s1 = il_status s \/ il_status s1 = kUnsolved \/ il_status s1 = kStateLimit \/ il_status s1 = kControlLimit) /\
  (iters <> 0%nat -> il_status s1 = kUnsolved \/ il_status s1 = kStateLimit \/ il_status s1 = kControlLimit) /\
  map kp_K (il_kps s1) = map kp_K (il_kps s) /\ map kp_d (il_kps s1) = map kp_d (il_kps s).
Proof.
  induction iters as [|it IH]; intros J0 alpha Z s ok J s1 Zb HZb E.
  - cbn [line_search] in E. inversion E; subst. split; [|split; [discriminate|]; split; [auto|split; [auto|split; [easy|auto]]]].
    split; auto using frame_refl, same_core_refl. exists Zb, Zb; auto.
  - cbn [line_search] in E. rewrite HZb in E.
    pose proof (rollout_closed_out alpha Z Zb s HZb) as HR.
    destruct (il_rollout_closed n m alpha Z Zb s) as [rok sr].
    destruct HR as (R1 & R2 & R3 & R3k & st & Zb1 & R4 & R5 & R6 & R7).
    destruct rok.
    + rewrite R5 in E. destruct (il_cost ops Zb1 sr) as [Jc s2] eqn:EC.
      destruct (cost_out _ _ _ _ _ R5 EC) as (C1 & C2 & C3 & C4 & C4k & C5 & C6).
      assert (H2 : ls_out Z s false J0 s2).
      { assert (G : ls_out Z sr false (lsum (il_costs sr)) s2) by (destruct C1; split; auto).
        pose proof (ls_out_trans _ _ _ _ _ _ _ _ R1 R2 G) as G'. destruct G'; split; auto. }
      pose proof (R6 eq_refl) as [Hst Hunsolved].
      set (expected := mul (opp alpha) (add (il_dV0 s2) (mul alpha (il_dV1 s2)))) in *.
      set (z := if ltb zero expected then div (sub J0 Jc) expected else opp one) in *.
      destruct (leb (o_ls_lb (il_opts s)) z && leb z (o_ls_ub (il_opts s)) && ltb Jc J0) eqn:EA.
      * inversion E; subst ok J s1; clear E. split; [|split; [|split; [discriminate|split; [|split]]]].
        -- destruct H2 as [B1 B2 B3 B4 B5 B6 B7]. split; simpl; auto.
           ++ destruct B1; split; simpl; auto.
           ++ eapply same_core_trans; [exact B5|]. apply (st_log3_core Jc alpha z (il_stats s2)).
           ++ discriminate.
        -- intros _. assert (Hd : il_dV0 s2 = il_dV0 s /\ il_dV1 s2 = il_dV1 s) by apply H2.
           destruct Hd as [Hd0 Hd1].
           exists alpha, (il_kps s), Zb, Zb1, z. split; [apply kps_refl|]. split; [now rewrite HZb|].
           split; [reflexivity|]. split; [reflexivity|].
           split; [now rewrite R4, Hst|]. split; [exact C5|].
           split; [cbn; rewrite C4, R3k; reflexivity|].
           split; [cbn; rewrite C4k, R3k; reflexivity|].
           split; [exact C3|].
           split; [unfold accepted; rewrite <- Hd0, <- Hd1; exact EA|].
           split; [apply andb_prop in EA; apply EA|]. split; [cbn; now rewrite C6|].
           unfold st_log3. cbn. rewrite C2, R2. reflexivity.
        -- right; left. cbn. now rewrite C6.
        -- intros _. left. cbn. now rewrite C6.
        -- cbn. rewrite C4k, R3k. apply calc_costs_gains.
      * apply IH with (Zb := Zb1) in E; [|exact C5].
        destruct E as (E1 & E2 & E3 & E4 & E4' & E5).
        assert (HK : map kp_K (il_kps s2) = map kp_K (il_kps s) /\ map kp_d (il_kps s2) = map kp_d (il_kps s)).
        { rewrite C4k, R3k. apply calc_costs_gains. }
        destruct HK as [HK Hd].
        assert (Hst2 : il_stats s2 = il_stats s) by congruence.
        split; [eapply ls_out_trans; [exact H2|exact Hst2|exact E1]|]. split; [|split; [exact E3|split; [|split]]].
        -- intros ->. specialize (E2 eq_refl). destruct E2 as (al & ks & Zc & Zd & zz & P1 & P2 & P2a & P2b & P3 & P4 & P5 & P5b & P6 & P7 & P8 & P9 & P10).
           destruct H2 as [B1 B2 B3 B4 B5 B6 B7]. destruct B1 as [F1 F2 F3 F4].
           exists al, ks, Zc, Zd, zz. split; [eapply kps_trans; eauto|]. split.
           { rewrite P2, C5, HZb. destruct B4 as (Za & Zb' & G1 & G2 & G3 & G4). rewrite HZb in G1. inversion G1; subst.
             rewrite C5 in G2. inversion G2; subst. exact G3. }
           split; [congruence|]. split; [congruence|].
           rewrite F2, F3 in P3. rewrite F3 in P7. destruct B3 as [B3a B3b]. rewrite B3a, B3b in P7. rewrite Hst2 in P10.
           repeat split; auto.
        -- destruct E4 as [E4|[E4|[E4|E4]]]; auto. rewrite E4, C6, Hunsolved. auto.
        -- intros _. destruct it as [|it']; [|apply E4'; easy].
           destruct E4 as [E4|[E4|[E4|E4]]]; auto. rewrite E4, C6, Hunsolved. auto.
        -- destruct E5 as [-> ->]. auto.
    + apply IH with (Zb := Zb1) in E; [|exact R5].
      destruct E as (E1 & E2 & E3 & E4 & E4' & E5). pose proof (R7 eq_refl) as Hst.
      assert (Hlim : il_status sr = kStateLimit \/ il_status sr = kControlLimit).
      { rewrite Hst in R4. apply roll_closed_stop in R4. destruct R4 as [_ [[H _]|[H _]]]; auto. }
      split; [eapply ls_out_trans; [exact R1|exact R2|exact E1]|]. split; [|split; [exact E3|split; [|split]]].
      * intros ->. specialize (E2 eq_refl). destruct E2 as (al & ks & Zc & Zd & zz & P1 & P2 & P2a & P2b & P3 & P4 & P5 & P5b & P6 & P7 & P8 & P9 & P10).
        destruct R1 as [B1 B2 B3 B4 B5 B6 B7]. destruct B1 as [F1 F2 F3 F4].
        exists al, ks, Zc, Zd, zz. rewrite R3k in P1, P2a, P2b. split; [exact P1|]. split.
        { rewrite P2, R5, HZb. destruct B4 as (Za & Zb' & G1 & G2 & G3 & G4). rewrite HZb in G1. inversion G1; subst.
          rewrite R5 in G2. inversion G2; subst. exact G3. }
        split; [exact P2a|]. split; [exact P2b|].
        rewrite F2, F3 in P3. rewrite F3 in P7. destruct B3 as [B3a B3b]. rewrite B3a, B3b in P7. rewrite R2 in P10.
        repeat split; auto.
      * destruct E4 as [E4|[E4|[E4|E4]]]; auto. rewrite E4. destruct Hlim as [->| ->]; auto.
      * intros _. destruct it as [|it']; [|apply E4'; easy].
        destruct E4 as [E4|[E4|[E4|E4]]]; auto. rewrite E4. destruct Hlim as [->| ->]; auto.
      * destruct E5 as [-> ->]. rewrite R3k. auto.
Qed.
End Frame.
