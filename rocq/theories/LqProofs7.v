(** The constraint and cost values stored after a forward pass, and the backward pass at an optimum. *)
From Coq Require Import Reals Lra Lia List Bool ZArith Psatz Arith.
From Verif Require Import Base Lin LogModel StatsModel TrajModel IlqrModel IlqrSpec IlqrFrame IlqrProofs IlqrProofs2 IlqrProofs3 IlqrProofs4 IlqrProofs5 IlqrProofs6 IlqrProofs7 LsSpec RLin LqSpec LltProofs DynProofs LqProofs LqProofs2 LqProofs3 LqProbSpec LqProofs4 LqProofs5 LqProofs6.
Import ListNotations.

Section Stored.
Context {F : Scalar} {CS : Type} (ops : CostOps F CS) (n m : nat) (Inv : CS -> Prop) (V : CS -> vec F -> vec F -> F) (HV : faithful_cost ops Inv V).
Notation ILQR := (ILQR F CS).
(** no simulation with any step leaves the limits *)
Definition never_stops (s0 : ILQR) (ts : list (F * F)) (Z : Traj F) : Prop := forall a P p p', o_check_bounds (il_opts s0) = true ->
  simulates n m s0 ts Z a (P ++ [p; p']) -> length (P ++ [p; p']) <= length Z ->
  ~ (ltb (o_state_max (il_opts s0)) (norm n (z_x p')) = true \/ ltb (o_control_max (il_opts s0)) (norm m (z_u p)) = true).
(** then the objects hold the values of the last trajectory simulated *)
Lemma line_search_stored iters : forall J0 alpha Z s0 s ts ok J s1,
  ls_same Inv V s0 s ts -> length (il_kps s0) = S (il_N s0) -> length Z = S (il_N s0) -> length ts = S (il_N s0) -> never_stops s0 ts Z -> iters <> 0 ->
  line_search ops n m iters J0 alpha Z s = (ok, J, s1) ->
  exists a Y ks, simulates n m s0 ts Z a Y /\ length Y = length Z /\ il_kps s1 = snd (calc_costs ops ks Y) /\ il_Zb s1 = Some Y /\ il_Z s1 = il_Z s0 /\ il_status s1 = kUnsolved.
Proof.
  induction iters as [|it IH]; intros J0 alpha Z s0 s ts ok J s1 HS Hk HZ Hts NS Hit E; [congruence|].
  cbn [line_search] in E. pose proof HS as [A1 A2 [A3 A3'] A4 A5 A6 A7 A8 (Zb & A9 & A9') A10 A11]. rewrite A9 in E.
  assert (HlZb : length Zb = S (il_N s0)). { rewrite <- A9' in Hts. unfold times in Hts. rewrite map_length in Hts. exact Hts. }
  assert (Hlk : length (il_kps s) = S (il_N s0)). { rewrite <- (map_length kp_dyn), A4, map_length. exact Hk. }
  unfold il_rollout_closed in E.
  pose proof (roll_closed_len n m (il_opts s) alpha (il_kps s) (vstore n (il_x0 s)) Z Zb) as HL.
  destruct (roll_closed n m (il_opts s) alpha (vstore n (il_x0 s)) (il_kps s) Z Zb) as [[e|] Zb1] eqn:ER.
  - exfalso. destruct (roll_closed_prefix n m (il_opts s) alpha (il_kps s) (vstore n (il_x0 s)) Z Zb Zb1 e ER ltac:(lia)) as (H1 & p & a & b & H2 & H3 & H4 & H5 & H6 & H7).
    rewrite A1 in H1, H7. apply (NS alpha p a b H1); [|exact H2|exact H7].
    apply (simulates_same n m Inv V s0 s ts Z alpha _ HS). split; [rewrite <- A9'; exact H3| |exact H6]. apply follows_feasible; [exact H4|exact H5].
  - cbn [il_Zb il_set_status il_set_Zb] in E.
    assert (Hsim : simulates n m s0 ts Z alpha Zb1).
    { apply (simulates_same n m Inv V s0 s ts Z alpha Zb1 HS).
      destruct (roll_closed_spec n m (il_opts s) alpha (il_kps s) (vstore n (il_x0 s)) Z Zb Zb1 ltac:(lia) ltac:(lia) ER) as (H1 & H2 & _).
      split; [|apply follows_feasible; [exact H1|exact H2]|exact (roll_closed_law n m (il_opts s) alpha (il_kps s) (vstore n (il_x0 s)) Z Zb Zb1 ER ltac:(lia) ltac:(lia))].
      destruct HL as [HL1 HL2]. cbn [snd] in HL1, HL2. rewrite HL1, HL2, A9', HlZb, <- Hts. symmetry. apply firstn_all. }
    assert (HlZ1 : length Zb1 = length Z). { destruct HL as [HL1 _]. cbn [snd] in HL1. lia. }
    unfold il_cost in E. cbn [il_kps il_set_status il_set_Zb] in E.
    destruct (calc_costs_gains ops (il_kps s) Zb1) as [HK Hd].
    pose proof (sim_calc_costs ops (Rv Inv V) (Rv_refl Inv V) (Rv_e ops Inv V HV) (il_kps s) Zb1) as Hks.
    destruct (sim_vals Inv V _ _ Hks A7) as [HI HVs]. pose proof (kps_dyns _ _ _ Hks) as Hdy.
    destruct (calc_costs ops (il_kps s) Zb1) as [Js ks] eqn:EC. cbn [fst snd] in *.
    match type of E with (if leb _ (if _ then div (sub _ _) ?e else _) && _ && _ then (_, _, il_set_stats ?ss _) else _) = _ => set (s2 := ss) in * end.
    assert (K2 : il_kps s2 = snd (calc_costs ops (il_kps s) Zb1)) by (rewrite EC; reflexivity).
    assert (HS' : ls_same Inv V s0 s2 ts).
    { unfold s2. split; cbn; auto; try congruence; [unfold vals in *; congruence|]. exists Zb1. split; [reflexivity|]. destruct HL as [_ HL2]. cbn [snd] in HL2. congruence. }
    match type of E with (if ?c then _ else _) = _ => destruct c eqn:Ec end.
    + inversion E; subst ok J s1; clear E. exists alpha, Zb1, (il_kps s). split; [exact Hsim|]. split; [exact HlZ1|]. split; [exact K2|]. split; [reflexivity|]. split; [exact A10|reflexivity].
    + destruct it as [|it].
      * inversion E; subst ok J s1; clear E. exists alpha, Zb1, (il_kps s). split; [exact Hsim|]. split; [exact HlZ1|]. split; [exact K2|]. split; [reflexivity|]. split; [exact A10|reflexivity].
      * exact (IH J0 _ Z s0 s2 ts ok J s1 HS' Hk HZ Hts NS ltac:(discriminate) E).
Qed.
Lemma forward_stored Z s Zb : il_Z s = Some Z -> il_Zb s = Some Zb -> length (il_kps s) = S (il_N s) -> length Z = S (il_N s) -> length Zb = S (il_N s) ->
  inv_kps Inv (il_kps s) -> never_stops s (times Zb) Z -> (1 <= o_ls_iters (il_opts s))%Z ->
  let s3 := il_forward_pass ops n m Z s in exists a Y ks, simulates n m s (times Zb) Z a Y /\ length Y = length Z /\ il_kps s3 = snd (calc_costs ops ks Y) /\ (il_Z s3 = Some Y \/ il_Z s3 = Some Z) /\ (il_status s3 = kUnsolved \/ il_status s3 = kCostIncrease).
Proof.
  intros HZ HZb Hk HlZ HlZb Hi NS HIT. cbv zeta. unfold il_forward_pass.
  destruct (line_search ops n m (Z.to_nat (o_ls_iters (il_opts s))) (lsum (il_costs s)) one Z s) as [[ok J] s1] eqn:E.
  assert (HS : ls_same Inv V s s (times Zb)) by (split; auto; exists Zb; auto).
  assert (IT : Z.to_nat (o_ls_iters (il_opts s)) <> 0) by lia.
  destruct (line_search_stored _ _ _ Z s s (times Zb) ok J s1 HS Hk HlZ ltac:(unfold times; rewrite map_length; auto) NS IT E) as (a & Y & ks & A & B & C & D & G & U).
  exists a, Y, ks. split; [exact A|]. split; [exact B|]. destruct ok.
  - destruct (ltb _ _); cbn; split; auto.
  - destruct (ltb _ _); cbn; (split; [exact C|]); (split; [right; congruence|auto]).
Qed.
(** in general: without a simulation that stopped, see above; when the last trial was accepted *)
Lemma accept_stored Z s s3 R : fp_accept ops n m R Z s s3 -> exists Y ks, il_Z s3 = Some Y /\ il_kps s3 = snd (calc_costs ops ks Y).
Proof.
  intros (s1 & J & (a & ks & Zb & Zb1 & z & _ & _ & _ & _ & _ & P1 & _ & P2 & _) & A & _ & B & _). exists Zb1, ks. split; congruence.
Qed.
End Stored.
Local Open Scope R_scope.
Section Lq.
Context {CS : Type} (n m : nat) (ops : CostOps RS CS) (cb : list CS -> RS) (Inv : CS -> Prop) (D : CS -> Quad) (HQ : quad_costs n m ops Inv D).
Notation K := (KPF RS CS).
Notation ILQR := (ILQR RS CS).
Notation qv c := (quad_val n m (D c)).
Notation Rd := (Rd Inv D).
Notation same_data := (same_data Inv D).
(** ** the regularisation parameter stays non-negative *)
Lemma iteration_rho fuel (s s' : ILQR) fin : il_ready s -> il_iteration ops n m cb fuel s = Ok (fin, s') -> reg_ok (il_opts s) -> o_reg_min (il_opts s) <= il_rho s'.
Proof.
  intros RD E RO.
  destruct (iteration_spec ops n m cb (fun _ _ => True) (fun _ => I) (fun _ _ _ _ _ => I) (fun _ _ _ => I) (fun _ _ _ _ => I) (fun _ _ _ _ => I) fuel s fin s' RD E) as (Z & s2 & s3 & IO & _ & _ & Z' & s4 & s5 & b & _ & US & PR & DN).
  destruct IO. destruct it_back as [f EB]. assert (R2 : o_reg_min (il_opts s) <= il_rho s2).
  { destruct it_frame2. rewrite <- fr_opts. unfold il_backward_pass in EB. destruct (nth_error _ _) as [k0|]; [|discriminate]. destruct (bp_loop _ _ _ _ _ _) as [t| | | | |]; try discriminate. cbn [bind] in EB.
    match type of EB with Ok (il_decrease_reg ?x) = Ok s2 => set (t' := x) in EB end. assert (ET : il_decrease_reg t' = s2) by congruence.
    assert (EO : il_opts t' = il_opts s2) by (rewrite <- ET; reflexivity). destruct (decrease_range t') as [[A _] _]; [rewrite EO, fr_opts; exact RO|]. rewrite EO in A. rewrite <- ET at 2. exact A. }
  assert (R3 : o_reg_min (il_opts s) <= il_rho s3).
  { destruct it_frame2. destruct it_acc as [(s1 & J & _ & _ & _ & _ & _ & _ & A & _)|(_ & _ & A & _)]; rewrite A; [exact R2|]. rewrite <- fr_opts. destruct (increase_range s2) as [[B _] _]; [rewrite fr_opts; exact RO|]. exact B. }
  assert (R4 : il_rho s4 = il_rho s3). { unfold il_update_stats, il_ff_gain in US. destruct (if (_ =? 0)%Z then _ else _) as [dJ| | | | |]; try discriminate. cbn [bind] in US. inversion US. reflexivity. }
  assert (R5 : il_rho s5 = il_rho s4). { destruct b; [destruct (st_print_last (il_stats s4)); try discriminate; cbn [bind] in PR|]; inversion PR; reflexivity. }
  assert (R6 : il_rho s' = il_rho s5). { unfold il_is_done in DN. destruct (st_back _ _); try discriminate. destruct (st_back _ _); try discriminate. cbn [bind] in DN. repeat match type of DN with (if ?c then _ else _) = _ => destruct c end; inversion DN; reflexivity. }
  rewrite R6, R5, R4. exact R3.
Qed.
Lemma reach_rho debug fuel (s0 b s : ILQR) j : il_begin ops n debug s0 = Ok b -> reach ops n m cb fuel b j s -> reg_ok (il_opts s0) -> 0 <= o_reg_min (il_opts s0) -> 0 <= o_reg_initial (il_opts s0) -> 0 <= il_rho s.
Proof.
  intros Hb RC RO RM RI. destruct (begin_spec ops n (fun _ _ : CS => True) (fun _ => I) (fun _ _ _ => I) debug s0 b Hb) as (Z & Z1 & S4). destruct S4.
  destruct so_rho as [RH _]. destruct so_frame as [_ _ FO _]. induction RC as [|j s s1 RC IH Ei]; [rewrite RH; exact RI|].
  destruct (reach_ready ops n m cb fuel b j s so_ready RC) as (RD & _ & _ & _ & _ & EO & _).
  pose proof (iteration_rho fuel s s1 false RD Ei ltac:(rewrite EO, FO; exact RO)) as A. rewrite EO, FO in A. lra.
Qed.
Lemma reach_data debug fuel (s0 b s : ILQR) j : il_begin ops n debug s0 = Ok b -> reach ops n m cb fuel b j s -> Forall (fun k => Inv (kp_cost k)) (il_kps s0) -> same_data s0 s.
Proof.
  intros Hb RC FI. destruct (begin_spec ops n Rd (Rd_refl Inv D) (Rd_e n m ops Inv D HQ) debug s0 b Hb) as (Z & Z1 & S4). destruct S4. apply (frame_data Inv D); [|exact FI].
  induction RC as [|j s s1 RC IH Ei]; [exact so_frame|]. eapply (frame_trans Rd (Rd_trans Inv D)); [exact IH|].
  destruct (reach_ready ops n m cb fuel b j s so_ready RC) as (RD & _).
  destruct (iteration_spec ops n m cb Rd (Rd_refl Inv D) (Rd_trans Inv D) (Rd_e n m ops Inv D HQ) (Rd_g n m ops Inv D HQ) (Rd_h n m ops Inv D HQ) fuel s false s1 RD Ei) as (Za & s2 & s3 & IO & _).
  destruct IO. eapply (frame_trans Rd (Rd_trans Inv D)); [exact it_frame2|]. eapply (frame_trans Rd (Rd_trans Inv D)); eassumption.
Qed.
(** agreement of two trajectories on everything the problem can see: states, and controls except the last *)
Definition agrees (N : nat) (Z Y : Traj RS) : Prop := length Y = length Z /\ forall k z y, nth_error Z k = Some z -> nth_error Y k = Some y ->
  (forall i, (i < n)%nat -> z_x y i = z_x z i) /\ ((k < N)%nat -> forall i, (i < m)%nat -> z_u y i = z_u z i).
Lemma agrees_refl N Z : agrees N Z Z.
Proof. split; [reflexivity|]. intros k z y A B. rewrite A in B. inversion B. auto. Qed.
(** the two passes of an iteration from an optimum: no feedforward, no rollout is stopped, and the objects keep the values of that optimum *)
Lemma optimum_pass f (s s2 : ILQR) (Z Zb : Traj RS) : lq_problem n m Inv D s -> il_Z s = Some Z -> best n m D s Z Z -> il_Zb s = Some Zb -> length Zb = S (il_N s) -> same_steps (il_N s) Z Zb ->
  (1 <= il_N s)%nat -> 0 <= il_rho s -> (1 <= o_ls_iters (il_opts s))%Z -> (o_check_bounds (il_opts s) = true -> within_limits n m (il_opts s) Z) ->
  il_backward_pass n m f (il_update_expansions ops n m Z s) = Ok s2 ->
  (forall k kp, nth_error (il_kps s2) k = Some kp -> (k < il_N s)%nat -> forall i, (i < m)%nat -> kp_d kp i = 0) /\
  let s3 := il_forward_pass ops n m Z s2 in (exists Y ks, agrees (il_N s) Z Y /\ il_kps s3 = snd (calc_costs ops ks Y)) /\ (il_status s3 = kUnsolved \/ il_status s3 = kCostIncrease).
Proof.
  intros LP HZ BZ HZb LZb GZb N1 R0 HIT HLIM EB. pose proof (proj1 BZ) as CZ.
  set (s1 := il_update_expansions ops n m Z s) in *.
  assert (E1 : s1 = il_set_costs s (fst (expand_all ops n m (il_kps s) Z)) (snd (expand_all ops n m (il_kps s) Z))) by (unfold s1, il_update_expansions; destruct (expand_all ops n m (il_kps s) Z); reflexivity).
  assert (K1 : il_kps s1 = snd (expand_all ops n m (il_kps s) Z)) by (rewrite E1; reflexivity). assert (NN : il_N s1 = il_N s) by (rewrite E1; reflexivity).
  assert (L1 : length (il_kps s1) = S (il_N s1)) by (rewrite K1, NN; apply (len1 n m ops Inv D s Z LP CZ)).
  assert (R1 : il_rho s1 = il_rho s) by (rewrite E1; reflexivity).
  assert (FR : frame (fun _ _ : CS => True) s s2 /\ il_Z s2 = il_Z s /\ il_Zb s2 = il_Zb s /\ length (il_kps s2) = S (il_N s2)).
  { destruct (frame_update_expansions ops n m (fun _ _ : CS => True) (fun _ => I) (fun _ _ _ _ _ => I) (fun _ _ _ => I) (fun _ _ _ _ => I) (fun _ _ _ _ => I) Z s) as (U1 & [U2 U3] & _). fold s1 in U1, U2, U3.
    destruct (frame_backward n m (fun _ _ : CS => True) (fun _ => I) (fun _ _ _ _ _ => I) f s1 s2 L1 EB) as (B1 & [B2 B3] & _). split; [eapply (frame_trans _ (fun _ _ _ _ _ => I)); eassumption|]. split; [congruence|]. split; [congruence|].
    destruct B1 as [H1 _ _ H4]. rewrite H1, <- (kps_len _ _ _ H4). exact L1. }
  destruct FR as (FR & it_Z2 & it_Zb2 & LK2).
  destruct f as [|g]; [exfalso; unfold il_backward_pass in EB; destruct (nth_error (il_kps s1) (il_N s1)); discriminate|].
  destruct (pass_convex n m g s1 L1 ltac:(rewrite NN; exact N1) (sym1 n m ops Inv D HQ s Z Zb LP CZ LZb N1) ltac:(rewrite R1; exact R0) (convex1 n m ops Inv D HQ s Z Zb LP CZ LZb N1) (semi1 n m ops Inv D HQ s Z LP CZ)) as (k0 & Ek & OK & st & EP).
  cbv zeta in OK, EP. rewrite EP in EB. rewrite R1, K1, NN in *. set (rho := il_rho s) in *.
  assert (B2 : il_kps s2 = sw_kps (bp_sweep n m rho (firstn (il_N s) (snd (expand_all ops n m (il_kps s) Z))) (e_xx (kp_ce k0)) (e_x (kp_ce k0)) 0 0) ++ [kpf_terminal k0]) by (inversion EB; reflexivity).
  destruct FR.
  pose proof (opt_still n m ops Inv D HQ s Z Zb LP CZ LZb GZb N1 k0 Ek rho OK s2 B2 fr_x0 fr_N R0 BZ) as ST.
  pose proof (fun a Y => opt_sim n m ops Inv D HQ s Z Zb LP CZ LZb GZb N1 k0 Ek rho s2 B2 fr_x0 fr_N a Y ST) as SIM.
  assert (LZ : length Z = S (il_N s)) by apply CZ.
  assert (NS : never_stops n m s2 (times Zb) Z).
  { intros a P p p' CB SP LPp LIM. rewrite fr_opts in CB, LIM. specialize (HLIM CB). rewrite LZ in LPp. pose proof (SIM a _ SP LPp) as A. set (i := length P) in *.
    assert (Ep : nth_error (P ++ [p; p']) i = Some p) by (rewrite nth_error_app2 by (unfold i; lia); unfold i; rewrite Nat.sub_diag; reflexivity).
    assert (Ep' : nth_error (P ++ [p; p']) (S i) = Some p') by (rewrite nth_error_app2 by (unfold i; lia); unfold i; replace (S (length P) - length P)%nat with 1%nat by lia; reflexivity).
    assert (LL : length (P ++ [p; p']) = S (S i)) by (rewrite app_length; cbn; unfold i; lia). rewrite LL in LPp.
    destruct (nth_error_ex Z i) as [y Ey]; [lia|]. destruct (nth_error_ex Z (S i)) as [y' Ey']; [lia|].
    destruct (HLIM i y y' Ey Ey') as [W1 W2]. destruct (A i y p Ey Ep) as [_ EU]. destruct (A (S i) y' p' Ey' Ep') as [EX _]. specialize (EU p' Ep').
    assert (NX : norm n (z_x p') = norm n (z_x y')) by (unfold norm, sqnorm; f_equal; apply dot_ext; auto).
    assert (NU : norm m (z_u p) = norm m (z_u y)) by (unfold norm, sqnorm; f_equal; apply dot_ext; auto).
    rewrite NX, NU in LIM. destruct LIM as [L'|L']; congruence. }
  assert (I2 : inv_kps Inv (il_kps s2)) by exact (inv2 n m ops Inv D HQ s Z Zb LP CZ LZb N1 k0 Ek rho s2 B2 fr_N).
  destruct (forward_stored ops n m Inv (fun c => qv c) (faithful n m ops Inv D HQ) Z s2 Zb ltac:(congruence) ltac:(congruence) LK2 ltac:(rewrite fr_N; exact LZ) ltac:(rewrite fr_N; exact LZb) I2 NS ltac:(rewrite fr_opts; exact HIT)) as (a & Y & ks & SI & LY & KY & _ & US).
  split.
  - intros k kp Hk Hkn i Hi. rewrite B2 in Hk. rewrite Forall_forall in ST. rewrite fr_N, B2, app_length in LK2. change (length [kpf_terminal k0]) with 1%nat in LK2.
    rewrite nth_error_app1 in Hk by lia. apply (ST kp); [eapply nth_error_In; exact Hk|exact Hi].
  - split; [|exact US]. exists Y, ks. split; [|exact KY]. split; [exact LY|]. intros k z y Hz Hy. destruct (SIM a Y SI ltac:(lia) k z y Hz Hy) as [A B]. split; [exact A|].
    intros Hk. destruct (nth_error_ex Y (S k)) as [y' Hy']; [lia|]. exact (B y' Hy').
Qed.
(** one iteration from an optimum leaves the objects with the values of that optimum *)
Lemma optimum_stored fuel (s s' : ILQR) fin (Z Zb : Traj RS) : lq_problem n m Inv D s -> il_Z s = Some Z -> best n m D s Z Z -> il_Zb s = Some Zb -> length Zb = S (il_N s) -> same_steps (il_N s) Z Zb ->
  (1 <= il_N s)%nat -> 0 <= il_rho s -> (1 <= o_ls_iters (il_opts s))%Z -> (o_check_bounds (il_opts s) = true -> within_limits n m (il_opts s) Z) ->
  il_iteration ops n m cb fuel s = Ok (fin, s') -> (exists Y ks, agrees (il_N s) Z Y /\ il_kps s' = snd (calc_costs ops ks Y)) /\
  (forall k kp, nth_error (il_kps s') k = Some kp -> (k < il_N s)%nat -> forall i, (i < m)%nat -> kp_d kp i = 0).
Proof.
  intros LP HZ BZ HZb LZb GZb N1 R0 HIT HLIM E. pose proof (proj1 BZ) as CZ. assert (RD : il_ready s). { split; [apply LP|]. split; [exists Z; split; [exact HZ|apply CZ]|exists Zb; auto]. }
  destruct (iteration_spec ops n m cb (fun _ _ => True) (fun _ => I) (fun _ _ _ _ _ => I) (fun _ _ _ => I) (fun _ _ _ _ => I) (fun _ _ _ _ => I) fuel s fin s' RD E) as (Z0 & s2 & s3 & IO & RD2 & _).
  destruct IO. rewrite HZ in it_Z. inversion it_Z; subst Z0. destruct it_back as [f EB].
  destruct (optimum_pass f s s2 Z Zb LP HZ BZ HZb LZb GZb N1 R0 HIT HLIM EB) as (ST & (Y & ks & A & B) & _). rewrite it_kps', it_fwd. split; [eauto|].
  destruct (forward_spec ops n m (fun _ _ => True) (fun _ => I) (fun _ _ _ _ _ => I) (fun _ _ _ => I) Z s2 Zb) as (_ & _ & _ & _ & _ & ED); [congruence|].
  intros k kp Hk Hkn i Hi. pose proof (map_nth_error kp_d _ _ Hk) as Hd. rewrite ED in Hd. rewrite nth_error_map in Hd. destruct (nth_error (il_kps s2) k) as [kp2|] eqn:E2; [|discriminate]. injection Hd as <-. apply (ST k kp2 E2 Hkn i Hi).
Qed.
Theorem solve_stored debug fuel (s0 s' : ILQR) : lq_problem n m Inv D s0 -> (1 <= il_N s0)%nat -> o_reg_initial (il_opts s0) = 0 -> reg_ok (il_opts s0) -> 0 <= o_reg_min (il_opts s0) ->
  o_ls_lb (il_opts s0) <= 1 <= o_ls_ub (il_opts s0) -> (1 <= o_ls_iters (il_opts s0))%Z ->
  (o_check_bounds (il_opts s0) = true -> forall Z Y, il_Z s0 = Some Z -> best n m D s0 Z Y -> within_limits n m (il_opts s0) Y) ->
  stats_ok (il_stats s0) -> (1 <= o_max_inner (il_opts s0))%Z ->
  il_solve ops n m cb debug fuel s0 = Ok s' -> exists Z Z' Y ks, il_Z s0 = Some Z /\ il_Z s' = Some Z' /\ best n m D s0 Z Z' /\ agrees (il_N s0) Z' Y /\ il_kps s' = snd (calc_costs ops ks Y).
Proof.
  intros LP N1 RI RO RM HLB HIT HLIM ST MI E. destruct (solve_run ops n m cb debug fuel s0 s' E MI) as (b & j & s & Hb & RC & Ei & _ & _ & RB & RS' & _ & _ & _ & EO).
  destruct (every_iteration_lq n m ops cb Inv D HQ s0 b debug LP N1 RI HLB HIT HLIM Hb fuel j s true s' ST RC Ei) as (Z & Z' & HZ & HZ' & BZ).
  exists Z, Z'. 
  destruct (iteration_spec ops n m cb (fun _ _ => True) (fun _ => I) (fun _ _ _ _ _ => I) (fun _ _ _ => I) (fun _ _ _ _ => I) (fun _ _ _ _ => I) fuel s true s' RS' Ei) as (Za & s2 & s3 & IO & _ & _ & _).
  destruct IO. destruct it_acc as [AC|(RJ & _)].
  - destruct (accept_stored ops n m Za s2 s3 _ AC) as (Y & ks & A & B). assert (Z' = Y) by congruence. subst Z'. exists Y, ks. repeat (split; [assumption|]). split; [apply agrees_refl|congruence].
  - assert (HZs : il_Z s = Some Z') by congruence. pose proof (reach_data debug fuel s0 b s j Hb RC (lp_inv _ _ _ _ _ LP)) as SD. pose proof SD as (EN & _).
    destruct (reach_feas ops n m cb debug fuel s0 b s j Hb RC) as (Zx & HZx & FE & _). rewrite HZ in HZx. inversion HZx; subst Zx. destruct FE as (_ & _ & Zq & Zb & HZq & HZb & _ & _ & GQ & GB). rewrite HZs in HZq. inversion HZq; subst Zq.
    assert (LZ : length Z = S (il_N s0)). { destruct (begin_spec ops n Rd (Rd_refl Inv D) (Rd_e n m ops Inv D HQ) debug s0 b Hb) as (Zx & Z1x & S4). destruct S4. rewrite HZ in so_Z. inversion so_Z; subst. apply so_kps. }
    assert (LZ' : length Z' = S (il_N s0)) by apply BZ.
    assert (LZb : length Zb = S (il_N s0)) by (destruct GB as [T _]; rewrite <- LZ, <- (map_length z_t Zb), T; apply map_length).
    assert (GZ : same_steps (il_N s0) Z Z') by (apply grid_steps; assumption). assert (GZb : same_steps (il_N s0) Z' Zb) by (eapply steps_trans; [exact LZ|apply steps_sym; exact GZ|apply grid_steps; assumption]).
    destruct (optimum_stored fuel s s' true Z' Zb (data_problem n m Inv D s0 s SD LP) HZs ltac:(apply (data_best n m Inv D s0 s Z Z' Z' SD LZ LZ' GZ); exact BZ) HZb ltac:(congruence) ltac:(rewrite EN; exact GZb) ltac:(lia)
      (reach_rho debug fuel s0 b s j Hb RC RO RM ltac:(lra)) ltac:(rewrite EO; exact HIT) ltac:(rewrite EO; intros CB; exact (HLIM CB Z Z' HZ BZ)) Ei) as ((Y & ks & A & B) & _).
    rewrite EN in A. exists Y, ks. auto.
Qed.
End Lq.
