(** A solve of a linear-quadratic problem ends after at most two iterations, with status kSolved. *)
From Coq Require Import Reals Lra Lia List Bool ZArith Psatz Arith String.
From Verif Require Import Base Lin LogModel StatsModel TrajModel IlqrModel IlqrSpec IlqrFrame IlqrProofs IlqrProofs2 IlqrProofs3 IlqrProofs4 IlqrProofs5 IlqrProofs6 IlqrProofs7 LsSpec RLin LqSpec LltProofs DynProofs LqProofs LqProofs2 LqProofs3 LqProbSpec LqProofs4 LqProofs5 LqProofs6 LqProofs7.
Import List ListNotations.
Local Open Scope R_scope.
Section Lq.
Context {CS : Type} (n m : nat) (ops : CostOps RS CS) (cb : list CS -> RS) (Inv : CS -> Prop) (D : CS -> Quad) (HQ : quad_costs n m ops Inv D).
Notation ILQR := (ILQR RS CS).
Notation qv c := (quad_val n m (D c)).
Notation Rd := (Rd Inv D).
Notation same_data := (same_data Inv D).
(** ** how an iteration ends *)
Lemma iter_done fuel (s : ILQR) fin s' dJ g : il_ready s -> il_iteration ops n m cb fuel s = Ok (fin, s') -> st_back "dJ" (il_stats s') = Ok dJ -> st_back "grad" (il_stats s') = Ok g ->
  dJ < o_cost_tol (il_opts s) -> g < o_grad_tol (il_opts s) -> fin = true /\ il_status s' = kSolved.
Proof.
  intros RD E HJ HG L1 L2. destruct (iteration_spec ops n m cb (fun _ _ => True) (fun _ => I) (fun _ _ _ _ _ => I) (fun _ _ _ => I) (fun _ _ _ _ => I) (fun _ _ _ _ => I) fuel s fin s' RD E) as (Z & s2 & s3 & IO & _ & _ & Z' & s4 & s5 & bb & _ & _ & _ & ED).
  destruct (is_done_spec s5 fin s' ED) as (D1 & dJ' & g' & D2 & D3 & C).
  assert (E5 : il_stats s5 = il_stats s' /\ il_opts s5 = il_opts s).
  { assert (il_stats s5 = il_stats s' /\ il_opts s5 = il_opts s') as [-> ->] by (rewrite D1; split; reflexivity). split; [reflexivity|]. destruct IO. destruct it_frame, it_frame2, it_frame23. congruence. }
  destruct E5 as [E5 E6]. rewrite E5 in D2, D3. rewrite HJ in D2. inversion D2; subst dJ'. rewrite HG in D3. inversion D3; subst g'. cbv zeta in C. rewrite E6 in C.
  assert (CV : @ltb RS dJ (o_cost_tol (il_opts s)) && @ltb RS g (o_grad_tol (il_opts s)) = true).
  { cbn. unfold Rltb. destruct (Rlt_dec dJ _); [|contradiction]. destruct (Rlt_dec g _); [reflexivity|contradiction]. }
  rewrite CV in C. decompose [and or] C; try discriminate. auto.
Qed.
Lemma zero_max (a : vec RS) : (forall i, (i < m)%nat -> a i = 0) -> (1 <= m)%nat -> maxcoeff m a = 0.
Proof.
  intros H M. unfold maxcoeff. assert (G : forall k, (k < m)%nat -> maxcoeff1 k a = 0).
  { induction k as [|k IH]; intros Hk; cbn [maxcoeff1]; [apply H; exact Hk|]. rewrite IH by lia. rewrite (H (S k) Hk). rewrite smax_RS. apply Rmax_left. lra. }
  apply G. lia.
Qed.
Lemma zero_gain (s : ILQR) Z : il_ready s -> il_Z s = Some Z -> (1 <= m)%nat -> (forall k kp, nth_error (il_kps s) k = Some kp -> (k < il_N s)%nat -> forall i, (i < m)%nat -> kp_d kp i = 0) ->
  fst (il_ff_gain m Z s) = 0.
Proof.
  intros (LK & (Z1 & HZ & LZ) & _) HZ' M H. assert (Z1 = Z) by congruence. subst Z1. unfold il_ff_gain. cbn [fst].
  assert (G : forall N kps Z, (forall k kp, nth_error kps k = Some kp -> (k < N)%nat -> forall i, (i < m)%nat -> kp_d kp i = 0) -> lsum (ff_gains m N (kps : list (KPF RS CS)) Z) = 0).
  { clear - M. induction N as [|N IH]; intros [|k kps] [|z Z] H; try reflexivity. cbn [ff_gains lsum]. rewrite (IH kps Z); [|intros j kp Hj Hn; apply (H (S j) kp Hj); lia].
    rewrite zero_max; [rs; lra| |exact M]. intros i Hi. rewrite (H 0%nat k eq_refl ltac:(lia) i Hi). rs. rewrite Rabs_R0. unfold Rdiv. apply Rmult_0_l. }
  rewrite G by (intros; eapply H; eauto). rs. unfold Rdiv. apply Rmult_0_l.
Qed.
Section Solve.
Context (s0 b : ILQR) (debug : bool) (LP : lq_problem n m Inv D s0) (N1 : (1 <= il_N s0)%nat) (M1 : (1 <= m)%nat) (RI : o_reg_initial (il_opts s0) = 0) (RO : reg_ok (il_opts s0)) (RM : 0 <= o_reg_min (il_opts s0))
  (HLB : o_ls_lb (il_opts s0) <= 1 <= o_ls_ub (il_opts s0)) (HIT : (1 <= o_ls_iters (il_opts s0))%Z)
  (HLIM : o_check_bounds (il_opts s0) = true -> forall Z Y, il_Z s0 = Some Z -> best n m D s0 Z Y -> within_limits n m (il_opts s0) Y)
  (CT : 0 < o_cost_tol (il_opts s0)) (GT : 0 < o_grad_tol (il_opts s0)) (ST : stats_ok (il_stats s0))
  (Hb : il_begin ops n debug s0 = Ok b).
(** everything known about a reached state whose trajectory is optimal *)
Lemma optimal_state fuel j s Z Zs : reach ops n m cb fuel b j s -> il_Z s0 = Some Z -> il_Z s = Some Zs -> best n m D s0 Z Zs ->
  exists Zb, lq_problem n m Inv D s /\ best n m D s Zs Zs /\ il_Zb s = Some Zb /\ length Zb = S (il_N s) /\ same_steps (il_N s) Zs Zb /\ (1 <= il_N s)%nat /\ 0 <= il_rho s /\
  il_opts s = il_opts s0 /\ (o_check_bounds (il_opts s) = true -> within_limits n m (il_opts s) Zs) /\ il_ready s.
Proof.
  intros RC HZ HZs BZ. pose proof (reach_data n m ops cb Inv D HQ debug fuel s0 b s j Hb RC (lp_inv _ _ _ _ _ LP)) as SD. pose proof SD as (EN & _ & EO & _).
  destruct (reach_feas ops n m cb debug fuel s0 b s j Hb RC) as (Zx & HZx & FE & RD). rewrite HZ in HZx. inversion HZx; subst Zx. destruct FE as (_ & _ & Zq & Zb & HZq & HZb & _ & _ & GQ & GB). rewrite HZs in HZq. inversion HZq; subst Zq.
  assert (LZ : length Z = S (il_N s0)). { destruct (begin_spec ops n Rd (Rd_refl Inv D) (Rd_e n m ops Inv D HQ) debug s0 b Hb) as (Zx & Z1x & S4). destruct S4. rewrite HZ in so_Z. inversion so_Z; subst. apply so_kps. }
  assert (LZs : length Zs = S (il_N s0)) by apply BZ.
  assert (LZb : length Zb = S (il_N s0)) by (destruct GB as [T _]; rewrite <- LZ, <- (map_length z_t Zb), T; apply map_length).
  assert (GZ : same_steps (il_N s0) Z Zs) by (apply grid_steps; assumption). assert (GZb : same_steps (il_N s0) Zs Zb) by (eapply steps_trans; [exact LZ|apply steps_sym; exact GZ|apply grid_steps; assumption]).
  exists Zb. split; [exact (data_problem n m Inv D s0 s SD LP)|]. split; [apply (data_best n m Inv D s0 s Z Zs Zs SD LZ LZs GZ); exact BZ|]. split; [exact HZb|]. split; [congruence|]. split; [rewrite EN; exact GZb|]. split; [lia|].
  split; [apply (reach_rho n m ops cb debug fuel s0 b s j Hb RC RO RM); lra|]. split; [exact EO|]. split; [|exact RD]. rewrite EO. intros CB. exact (HLIM CB Z Zs HZ BZ).
Qed.
(** every iteration after the first ends the solve *)
Lemma later_solved fuel j s fin s' : reach ops n m cb fuel b (S j) s -> il_iteration ops n m cb fuel s = Ok (fin, s') -> fin = true /\ il_status s' = kSolved.
Proof.
  intros RC E. inversion RC as [|j' t s1 RCt Et]; subst.
  destruct (every_iteration_lq n m ops cb Inv D HQ s0 b debug LP N1 RI HLB HIT HLIM Hb fuel j t false s ST RCt Et) as (Z & Zs & HZ & HZs & BZ).
  destruct (optimal_state fuel (S j) s Z Zs RC HZ HZs BZ) as (Zb & LPs & BZs & HZb & LZb & GZb & N1s & R0 & EO & LIM & RD).
  destruct (optimum_stored n m ops cb Inv D HQ fuel s s' fin Zs Zb LPs HZs BZs HZb LZb GZb N1s R0 ltac:(rewrite EO; exact HIT) LIM E) as (_ & DZ).
  (* series *)
  pose proof ST as ST'. apply stats_ok_series in ST'. destruct ST' as [g0 Hg0]. apply (begin_series ops n debug s0 b g0 Hb) in Hg0.
  destruct (begin_spec ops n Rd (Rd_refl Inv D) (Rd_e n m ops Inv D HQ) debug s0 b Hb) as (Zx & Z1x & S4).
  destruct (reach_series ops n m cb fuel b g0 (S j) s (so_ready _ _ _ _ _ _ _ _ S4) Hg0 (so_inner _ _ _ _ _ _ _ _ S4) RC) as (g & Hg & Bg & _).
  destruct (reach_ready ops n m cb fuel b (S j) s (so_ready _ _ _ _ _ _ _ _ S4) RC) as (_ & IN & _). rewrite (so_inner _ _ _ _ _ _ _ _ S4) in IN.
  destruct (iter_cost ops n m cb Inv (fun c => qv c) (faithful n m ops Inv D HQ) fuel s fin s' g RD (lp_inv _ _ _ _ _ LPs) E Hg Bg) as (Z3 & Z' & g' & K1 & K2 & _ & _ & K5 & K6 & _ & K8 & _ & K10 & K11).
  rewrite HZs in K1. inversion K1; subst Z3.
  assert (RD' : il_ready s') by (eapply (iter_ready ops n m cb); eassumption).
  destruct (In_titles) as (_ & Td & Tg & _).
  assert (CST : last_of g' "cost" = last_of g "cost" /\ Z' = Zs).
  { destruct K11 as [[A _]|[-> A]]; [exfalso|auto]. apply Rltb_true in A.
    pose proof (reachS ops n m cb fuel b) as _.
    destruct (every_iteration_lq n m ops cb Inv D HQ s0 b debug LP N1 RI HLB HIT HLIM Hb fuel (S j) s fin s' ST RC E) as (Zy & Z'' & HZy & HZ'' & BZ''). rewrite HZ in HZy. inversion HZy; subst Zy. rewrite K2 in HZ''. inversion HZ''; subst Z''.
    pose proof (proj2 BZ Z' (proj1 BZ'')) as LE. pose proof (reach_data n m ops cb Inv D HQ debug fuel s0 b s (S j) Hb RC (lp_inv _ _ _ _ _ LP)) as SD.
    rewrite <- !(data_cost n m Inv D s0 s _ SD), !lq_cost_total in LE. unfold total_cost in LE. unfold J_of in A. unfold vals in A. rs. lra. }
  destruct CST as [CST ->].
  assert (EJ : st_back "dJ" (il_stats s') = Ok (0 : RS)).
  { rewrite (ser_back _ _ _ K5 Td) by lia. f_equal. change (last (g' "dJ"%string) zero) with (last_of g' "dJ"%string). rewrite K10, CST, IN. destruct (Z.eqb_spec (0 + Z.of_nat (S j)) 0); [lia|]. rs. lra. }
  assert (EG : st_back "grad" (il_stats s') = Ok (0 : RS)).
  { rewrite (ser_back _ _ _ K5 Tg) by lia. f_equal. change (last (g' "grad"%string) zero) with (last_of g' "grad"%string). rewrite K8. apply zero_gain; auto.
    destruct (iter_counts ops n m cb fuel s fin s' RD E) as (_ & _ & _ & _ & _ & EN). rewrite EN. exact DZ. }
  apply (iter_done fuel s fin s' 0 0 RD E EJ EG); rewrite EO; assumption.
Qed.
(** the first one ends it only as solved, or because a limit on iterations is reached *)
Lemma first_status fuel s' : il_iteration ops n m cb fuel b = Ok (true, s') -> (2 <= o_max_inner (il_opts s0))%Z -> (st_total (il_stats s0) + 1 < o_max_total (il_opts s0))%Z -> il_status s' = kSolved.
Proof.
  intros E MI MT. destruct (begin_spec ops n Rd (Rd_refl Inv D) (Rd_e n m ops Inv D HQ) debug s0 b Hb) as (Z & Z1 & S4).
  pose proof (so_ready _ _ _ _ _ _ _ _ S4) as RB. assert (RC : reach ops n m cb fuel b 0 b) by constructor.
  assert (UB' : il_status b = kUnsolved) by apply (so_status _ _ _ _ _ _ _ _ S4).
  destruct (iter_status ops n m cb fuel b true s' RB UB' E) as (dJ & g & _ & _ & _ & C). cbv zeta in C. specialize (C eq_refl).
  destruct (iter_counts ops n m cb fuel b true s' RB E) as (I1 & I2 & _ & _ & EO & _).
  assert (EOb : il_opts b = il_opts s0) by apply (fr_opts _ _ _ (so_frame _ _ _ _ _ _ _ _ S4)).
  pose proof (so_inner _ _ _ _ _ _ _ _ S4) as IN. 
  destruct C as [[A _]|[(_ & _ & A)|[(_ & _ & _ & A)|(Zp & s2 & HZp & EB & A & B & _)]]]; [exact A|exfalso; rewrite EOb in A; lia| |].
  - exfalso. rewrite EOb in A. assert (st_total (il_stats b) = st_total (il_stats s0)) by apply (so_total _ _ _ _ _ _ _ _ S4). lia.
  - exfalso. assert (EZ : il_Z b = Some Z1) by apply (so_Z1 _ _ _ _ _ _ _ _ S4). rewrite EZ in HZp. inversion HZp; subst Zp. destruct RB as (LKb & (Zr & HZr & LZr) & (Zb & HZb & LZb)). rewrite EZ in HZr. inversion HZr; subst Zr.
    assert (L1 : length (il_kps (il_update_expansions ops n m Z1 b)) = S (il_N (il_update_expansions ops n m Z1 b))).
    { destruct (frame_update_expansions ops n m (fun _ _ : CS => True) (fun _ => I) (fun _ _ _ _ _ => I) (fun _ _ _ => I) (fun _ _ _ _ => I) (fun _ _ _ _ => I) Z1 b) as ([H1 _ _ H4] & _). rewrite H1, <- (kps_len _ _ _ H4). exact LKb. }
    destruct (frame_update_expansions ops n m (fun _ _ : CS => True) (fun _ => I) (fun _ _ _ _ _ => I) (fun _ _ _ => I) (fun _ _ _ _ => I) (fun _ _ _ _ => I) Z1 b) as (U1 & [U2 U3] & _).
    destruct (frame_backward n m (fun _ _ : CS => True) (fun _ => I) (fun _ _ _ _ _ => I) fuel _ s2 L1 EB) as (B1 & [B2 B3] & _).
    assert (HZb2 : il_Zb s2 = Some Zb) by congruence.
    assert (EO2 : il_opts s2 = il_opts s0) by (rewrite (fr_opts _ _ _ B1), (fr_opts _ _ _ U1); exact EOb).
    assert (E3 : il_Z (il_forward_pass ops n m Z1 s2) = il_Z s').
    { destruct (iteration_spec ops n m cb (fun _ _ => True) (fun _ => I) (fun _ _ _ _ _ => I) (fun _ _ _ => I) (fun _ _ _ _ => I) (fun _ _ _ _ => I) fuel b true s' (so_ready _ _ _ _ _ _ _ _ S4) E) as (Za & t2 & t3 & IO & _).
      unfold il_iteration, il_get_Z in E. rewrite EZ in E. cbn [bind] in E. rewrite EB in E. cbn [bind] in E. destruct (il_Z (il_forward_pass ops n m Z1 s2)) as [Zf|] eqn:EF; [|discriminate]. cbn [bind] in E.
      destruct (il_update_stats m cb Zf (il_forward_pass ops n m Z1 s2)) as [s4| | | | |] eqn:EU; try discriminate. cbn [bind] in E.
      destruct (update_stats_spec m cb (fun _ _ : CS => True) (fun _ => I) Zf _ s4 EU) as (_ & Q2 & _).
      set (bb := (kInner <=? lg_level (st_log (il_stats s4)))%Z) in E.
      destruct (if bb then do st <- st_print_last (il_stats s4); Ok (il_set_stats s4 st) else Ok s4) as [s5| | | | |] eqn:EP; try discriminate. cbn [bind] in E.
      destruct (print_spec (fun _ _ : CS => True) (fun _ => I) bb s4 s5 EP) as (_ & P2 & _). destruct (is_done_spec s5 true s' E) as (D1 & _).
      assert (il_Z s' = il_Z s5) by (rewrite D1; reflexivity). congruence. }
    destruct (forward_status ops n m (fun _ _ : CS => True) (fun _ => I) (fun _ _ _ _ _ => I) (fun _ _ _ => I) Z1 s2 Zb HZb2) as [[_ F1]|[F1|F1]].
    { intros x. cbn. unfold Rltb. destruct (Rlt_dec x x); [lra|reflexivity]. }
    { intros x y. cbn. unfold Rltb. destruct (Rlt_dec x y), (Rlt_dec y x); try reflexivity; try discriminate; lra. }
    { rewrite EO2 in F1. lia. }
    { congruence. }
    destruct (forward_spec ops n m (fun _ _ : CS => True) (fun _ => I) (fun _ _ _ _ _ => I) (fun _ _ _ => I) Z1 s2 Zb HZb2) as (_ & _ & _ & [AC|RJ] & _).
    + destruct AC as (t1 & J & (al & ks & Zc & Zd & zz & P) & _ & _ & _ & _ & _ & _ & _ & Q). decompose [and] P. rewrite Q in F1; [destruct F1; discriminate|].
      cbn. unfold Rltb. match goal with H : ltb J _ = true |- _ => cbn in H; unfold Rltb in H; destruct (Rlt_dec J (lsum (il_costs s2))); [|discriminate] end. destruct (Rlt_dec _ J); [|reflexivity]. cbn in *. lra.
    + destruct RJ as (EZ3 & _). destruct (first_iteration_lq n m ops cb Inv D HQ s0 b debug LP N1 RI HLB HIT HLIM Hb fuel true s' E) as (Zo & Z' & HZo & HZ' & BZ' & _).
      assert (Z' = Z1) by congruence. subst Z'.
      destruct (optimal_state fuel 0 b Zo Z1 RC HZo EZ BZ') as (Zb' & LPs & BZs & HZb' & LZb' & GZb & N1s & R0 & _ & LIM & _).
      destruct (optimum_pass n m ops Inv D HQ fuel b s2 Z1 Zb' LPs EZ BZs HZb' LZb' GZb N1s R0 ltac:(rewrite EOb; exact HIT) LIM EB) as (_ & _ & [US|US]); rewrite US in F1; destruct F1; discriminate.
Qed.
End Solve.
Theorem solve_solved debug fuel (s0 s' : ILQR) : lq_problem n m Inv D s0 -> (1 <= il_N s0)%nat -> (1 <= m)%nat -> o_reg_initial (il_opts s0) = 0 -> reg_ok (il_opts s0) -> 0 <= o_reg_min (il_opts s0) ->
  o_ls_lb (il_opts s0) <= 1 <= o_ls_ub (il_opts s0) -> (1 <= o_ls_iters (il_opts s0))%Z ->
  (o_check_bounds (il_opts s0) = true -> forall Z Y, il_Z s0 = Some Z -> best n m D s0 Z Y -> within_limits n m (il_opts s0) Y) ->
  0 < o_cost_tol (il_opts s0) -> 0 < o_grad_tol (il_opts s0) -> stats_ok (il_stats s0) -> (2 <= o_max_inner (il_opts s0))%Z -> (st_total (il_stats s0) + 1 < o_max_total (il_opts s0))%Z ->
  il_solve ops n m cb debug fuel s0 = Ok s' -> il_status s' = kSolved /\ (1 <= st_inner (il_stats s') <= 2)%Z /\ st_total (il_stats s') = (st_total (il_stats s0) + st_inner (il_stats s'))%Z.
Proof.
  intros LP N1 M1 RI RO RM HLB HIT HLIM CT GT ST MI MT E. destruct (solve_run ops n m cb debug fuel s0 s' E ltac:(lia)) as (b & j & s & Hb & RC & Ei & _ & IN & RB & RS' & IB & TB & _ & _).
  assert (T' : st_total (il_stats s') = (st_total (il_stats s0) + Z.of_nat j + 1)%Z).
  { destruct (reach_ready ops n m cb fuel b j s RB RC) as (_ & _ & T1 & _). destruct (iter_counts ops n m cb fuel s true s' RS' Ei) as (_ & T2 & _). lia. }
  destruct j as [|j].
  - inversion RC; subst. split; [eapply first_status; eassumption|]. lia.
  - assert (j = 0%nat).
    { destruct j as [|j]; [reflexivity|exfalso]. inversion RC as [|j' t s1 RCt Et]; subst. destruct (later_solved s0 b debug LP N1 M1 RI RO RM HLB HIT HLIM CT GT ST Hb fuel j t false s RCt Et) as [A _]. discriminate. }
    subst j. split; [apply (later_solved s0 b debug LP N1 M1 RI RO RM HLB HIT HLIM CT GT ST Hb fuel 0 s true s' RC Ei)|]. lia.
Qed.
End Lq.
