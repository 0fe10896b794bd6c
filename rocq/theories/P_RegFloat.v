(** C90: the regularisation, the backward pass and whole solves in IEEE doubles. *)
From Coq Require Import ZArith Reals Lra Lia Bool List.
From Coq Require Import Floats.SpecFloat.
From Flocq Require Import Core IEEE754.BinarySingleNaN.
From Verif Require Import Base Lin ConModel LogModel StatsModel StatsSpec StatsProofs TrajModel IlqrModel IlqrSpec IlqrFrame IlqrProofs IlqrProofs2 IlqrProofs5 IlqrProofs6 CostInst AlModel IlqrExamples FloatBridge TotalProofs RegFloat RegFloat2 RegTotal.
Import ListNotations.
Local Open Scope R_scope.

(** * Concrete data: one step of x' = x + u from x = 0, cost h u^2 / 2, no terminal cost *)
Section Data.
Context (F : Scalar) (rmin : F).
Definition g_dyn : Dyn F := mkDyn (F:=F) (fun x u _ _ b i => match i with O => add (x 0%nat) (u 0%nat) | _ => b i end) (fun _ _ _ _ _ => fun i j => one).
Definition g_cost (h : F) : UCost F := mkUCost (F:=F) (fun x u => mul half (mul h (mul (u 0%nat) (u 0%nat))))
  (fun x u _ => (fun _ => zero, fun _ => mul h (u 0%nat))) (fun x u _ => (fun _ _ => zero, fun _ _ => zero, fun _ _ => h)).
(** the default options with another bp_reg_min *)
Definition g_opts : Opts F := mkOpts (F:=F) 300 30 100 (lit 1 10000) (lit 1 100) (lit 16 10) zero (ofZ 100000000) rmin 100
    true (ofZ 100000000) (ofZ 100000000) 20 (lit 1 100000000) (ofZ 10) (ofZ 2) (lit 1 10000) (ofZ 100000000) one true 10 kSilent 1 1.
Definition g_guess : Traj F := [mkKP (F:=F) (fun _ => zero) (fun _ => one) zero one; mkKP (F:=F) (fun _ => zero) (fun _ => zero) one zero].
Definition g_kps : list (Dyn F * UCost F) := [(g_dyn, g_cost (opp one)); (g_dyn, g_cost zero)].
Definition g_solver : ILQR F (UCost F) := il_set_opts (il_set_trajectory g_guess (il_make 1 (fun _ => zero) g_kps)) g_opts.
(** the state at the start of the first backward pass *)
Definition g_exp : ILQR F (UCost F) := il_update_expansions ucost_ops 1 1 g_guess (il_reset_internal g_solver).
Definition g_viol (_ : list (UCost F)) : F := zero.
Definition g_als : ALS F := mkALS (il_set_opts (il_set_trajectory g_guess (as_il (as_make 1 1 1 (fun _ => zero) (map (fun p => (fst p, (snd p, [], []))) g_kps)))) g_opts) kUnsolved.
End Data.

(** * The regularisation *)
(** Whatever the increases (true) and decreases (false), from a solve's start on: a finite double within the bounds *)
Fixpoint freg_history {CS} (h : list bool) (s : ILQR FS CS) : ILQR FS CS :=
  match h with [] => s | b :: r => freg_history r (if b then il_increase_reg s else il_decrease_reg s) end.
Lemma fhistory_opts {CS} h : forall s : ILQR FS CS, il_opts (freg_history h s) = il_opts s.
Proof. induction h as [|b h IH]; intros s; [reflexivity|]. cbn [freg_history]. rewrite IH. destruct b; reflexivity. Qed.
Lemma fhistory_snoc {CS} h b : forall s : ILQR FS CS, freg_history (h ++ [b]) s = (if b then il_increase_reg (freg_history h s) else il_decrease_reg (freg_history h s)).
Proof. induction h as [|c h IH]; intros s; [reflexivity|]. cbn [app freg_history]. apply IH. Qed.
Theorem C90_range : forall CS h (s : ILQR FS CS), freg_ok (il_opts s) -> fin (il_rho s) -> 0 <= fval (il_rho s) -> il_drho s = zero -> h <> [] ->
  let r := il_rho (freg_history h s) in fin r /\ fval (o_reg_min (il_opts s)) <= fval r <= fval (o_reg_max (il_opts s)).
Proof.
  intros CS h s RO R1 R2 D H. assert (RI : freg_inv (il_rho s) (il_drho s)). { rewrite D. split; [exact R1|]. split; [exact R2|]. split; [right; split; [apply fin_zero|rewrite fval_zero; lra]|]. right. split; [apply fin_zero|rewrite fval_zero; lra]. }
  clear D R1 R2. destruct (exists_last H) as (h' & b & ->). rewrite fhistory_snoc. clear H. assert (G : freg_ok (il_opts (freg_history h' s)) /\ freg_inv (il_rho (freg_history h' s)) (il_drho (freg_history h' s))).
  { clear b. revert s RO RI. induction h' as [|b h' IH]; intros s RO RI; [split; assumption|]. cbn [freg_history]. destruct b; apply IH; try exact RO; [apply inv_inc|apply inv_dec]; assumption. }
  destruct G as [G1 G2]. rewrite <- (fhistory_opts h' s). set (t := freg_history h' s) in *. cbv zeta. destruct b; [destruct (inc_spec t G1 G2) as (A & B & _)|destruct (dec_spec t G1 G2) as (A & B & _)]; split; assumption.
Qed.
(** An increase never lowers it, a decrease never raises it above the lower bound.  [pos]: non-negative or +infinity, which the rate drho
    reaches by overflow. *)
Theorem C90_increase : forall CS (s : ILQR FS CS), freg_ok (il_opts s) -> fin (il_rho s) -> 0 < fval (il_rho s) <= fval (o_reg_max (il_opts s)) -> pos (il_drho s) ->
  fval (il_rho s) <= fval (il_rho (il_increase_reg s)).
Proof. intros CS s RO R1 [R2 R3] D. apply inc_spec; [exact RO| |exact R3]. split; [exact R1|]. split; [lra|]. auto. Qed.
Theorem C90_decrease : forall CS (s : ILQR FS CS), freg_ok (il_opts s) -> fin (il_rho s) -> 0 < fval (il_rho s) -> pos (il_drho s) ->
  fval (il_rho (il_decrease_reg s)) <= Rmax (fval (il_rho s)) (fval (o_reg_min (il_opts s))).
Proof. intros CS s RO R1 R2 D. apply dec_spec; [exact RO|]. split; [exact R1|]. split; [lra|]. auto. Qed.

(** * Termination *)
(** The number of sweeps of a backward pass has a bound given by the options alone: whatever the expansions (NaN and infinities
    included), the dimensions and the regularisation the pass starts with. *)
Theorem C90_backward : forall (o : Opts FS), freg_ok o -> exists sweeps, forall CS n m (s : ILQR FS CS), il_opts s = o -> (1 <= il_N s)%nat -> length (il_kps s) = S (il_N s) ->
  freg_inv (il_rho s) (il_drho s) -> forall fuel, (sweeps <= fuel)%nat -> exists s', il_backward_pass n m fuel s = Ok s'.
Proof.
  intros o RO. destruct (grow_enough o RO) as [k K]. exists (Z.to_nat (o_reg_fail o) + k + 2)%nat. intros CS n m s <- HN HL RI fuel HF. apply (fbackward n m k); assumption.
Qed.
(** A bound that is small in practice: [grow o] is the factor (less one rounding error), [tiny] the smallest normal double.  With k
    increases enough to get from the lower to the upper bound, at most bp_reg_fail_threshold + k + 2 sweeps. *)
Theorem C90_sweeps : forall CS n m k (s : ILQR FS CS), let o := il_opts s in freg_ok o -> tiny <= fval (o_reg_min o) -> fval (o_reg_max o) <= fval (o_reg_min o) * (fval (o_reg_factor o) * (1 - / 2 ^ 53)) ^ k ->
  (1 <= il_N s)%nat -> length (il_kps s) = S (il_N s) -> freg_inv (il_rho s) (il_drho s) ->
  exists s', il_backward_pass n m (Z.to_nat (o_reg_fail o) + k + 2) s = Ok s'.
Proof. intros CS n m k s o RO T M HN HL RI. apply (fsweeps n m k s); assumption. Qed.
(** what is asked of the options *)
Definition fopts_ok (o : Opts FS) : Prop := freg_ok o /\ fin (o_reg_initial o) /\ 0 <= fval (o_reg_initial o).
Lemma fopts_init o : fopts_ok o -> freg_inv (o_reg_initial o) (zero (s:=FS)).
Proof. intros (_ & A & B). split; [exact A|]. split; [exact B|]. split; [right|right]; (split; [apply fin_zero|rewrite fval_zero; lra]). Qed.
Lemma fopts_inc CS (s : ILQR FS CS) : fopts_ok (il_opts s) -> freg_inv (il_rho s) (il_drho s) -> freg_inv (il_rho (il_increase_reg s)) (il_drho (il_increase_reg s)).
Proof. intros (A & _). apply inv_inc. exact A. Qed.
Lemma fopts_dec CS (s : ILQR FS CS) : fopts_ok (il_opts s) -> freg_inv (il_rho s) (il_drho s) -> freg_inv (il_rho (il_decrease_reg s)) (il_drho (il_decrease_reg s)).
Proof. intros (A & _). apply inv_dec. exact A. Qed.
Lemma fopts_back n m CS (s : ILQR FS CS) : fopts_ok (il_opts s) -> (1 <= il_N s)%nat -> freg_inv (il_rho s) (il_drho s) -> length (il_kps s) = S (il_N s) -> exists fuel s', il_backward_pass n m fuel s = Ok s'.
Proof. intros (A & _) HN RI HL. destruct (C90_backward (il_opts s) A) as [f H]. exists f. apply (H CS n m s); auto. Qed.
(** Whole solves: no failed assertion, undefined behaviour or endless loop, for all costs and dynamics. *)
Theorem C90_solve : forall CS n m (ops : CostOps FS CS) cb debug (s : ILQR FS CS),
  il_ready s -> il_x0_set s = true -> (1 <= il_N s)%nat -> stats_ok (il_stats s) -> lg_freq (st_log (il_stats s)) <> 0%Z -> fopts_ok (il_opts s) ->
  exists fuel, forall fuel', (fuel <= fuel')%nat -> exists s', il_solve ops n m cb debug fuel' s = Ok s' /\ fin (il_rho s') /\ 0 <= fval (il_rho s') /\
    ((1 <= o_max_inner (il_opts s))%Z -> fval (o_reg_min (il_opts s')) <= fval (il_rho s') <= fval (o_reg_max (il_opts s'))).
Proof.
  intros CS n m ops cb debug s Hr HX HN HS HF RO. destruct (solve_any ops n m cb fopts_ok freg_inv fopts_init (fopts_inc CS) (fopts_dec CS) (fopts_back n m CS) debug s Hr HX HN HS HF RO) as [fuel H].
  exists fuel. intros f' L. destruct (H f' L) as [s' E]. exists s'. split; [exact E|]. destruct (rinv_solve ops n m cb fopts_ok freg_inv fopts_init (fopts_inc CS) (fopts_dec CS) debug f' s s' E RO) as (_ & A & B & _).
  split; [exact A|]. split; [exact B|]. intros HM. refine (solve_range ops n m cb fopts_ok freg_inv fopts_init (fopts_inc CS) (fopts_dec CS) (fun o r => fval (o_reg_min o) <= fval r <= fval (o_reg_max o)) _ _ debug f' s s' E RO HM).
  - intros t ((T1 & _) & T2). apply inc_spec; assumption.
  - intros t ((T1 & _) & T2). apply dec_spec; assumption.
Qed.
Theorem C90_al_solve : forall n m debug (a : ALS FS), let s := as_il a in
  il_ready s -> il_x0_set s = true -> (1 <= il_N s)%nat -> map fst (st_ser (il_stats s)) = series_titles -> fopts_ok (il_opts s) -> (0 <= o_max_total (il_opts s))%Z -> (1 <= o_header_freq (il_opts s))%Z ->
  exists fuel a', (forall fuel', (fuel <= fuel')%nat -> as_solve n m debug fuel' a = Ok a') /\
    ((1 <= o_max_outer (il_opts s))%Z -> (1 <= o_max_inner (il_opts s))%Z -> fin (il_rho (as_il a')) /\ fval (o_reg_min (il_opts s)) <= fval (il_rho (as_il a')) <= fval (o_reg_max (il_opts s))).
Proof.
  intros n m debug a s Hr HX HN HS RO HM HH. assert (T : exists fuel a', forall fuel', (fuel <= fuel')%nat -> as_solve n m debug fuel' a = Ok a').
  { revert Hr HX HN HS RO HM HH. apply (al_solve_any n m fopts_ok freg_inv fopts_init (fopts_inc _) (fopts_dec _) (fopts_back n m _)).
    intros x. cbn. unfold SFltb, SFleb. destruct (SFcompare _ x) as [[]|]; congruence. }
  destruct T as (fuel & a' & T). exists fuel, a'. split; [exact T|]. intros HO HI.
  destruct (al_solve_range n m fopts_ok freg_inv fopts_init (fopts_inc _) (fopts_dec _) (fun o r => fval (o_reg_min o) <= fval r <= fval (o_reg_max o))) with (debug := debug) (fuel := fuel) (a := a) (a' := a') as (_ & (A & _) & B); auto.
  - intros t ((T1 & _) & T2). apply inc_spec; assumption.
  - intros t ((T1 & _) & T2). apply dec_spec; assumption.
Qed.

(** * Without a positive lower bound *)
(** bp_reg_min = 0 and bp_reg_initial = 0 (its default): 0 times the growing rate stays 0, so in exact arithmetic the solve never ends,
    since the regularisation never reaches its maximum (finding) *)
Lemma g_freq (F : Scalar) : lg_freq (st_log (@st_new F)) <> 0%Z.
Proof. vm_compute. discriminate. Qed.
Lemma zero_stays (s : ILQR RS (UCost RS)) kN k : forall fuel cnt, (cnt < 100)%Z -> il_opts s = g_opts RS 0 -> il_N s = 1%nat -> il_kps s = [k; kN] -> e_uu (kp_ce k) 0%nat 0%nat = -1 -> kp_S kN 0%nat 0%nat = 0 -> il_rho s = 0 ->
  bp_loop 1 1 fuel kN cnt s = Fuel.
Proof.
  intros fuel. revert s k. induction fuel as [|f IH]; intros s k cnt HC HO HN HK HE HS HR; [reflexivity|]. cbn [bp_loop]. rewrite HN, HK. cbn [firstn bp_sweep sw_ok sw_S sw_s].
  assert (EG : kpf_gains 1 1 (kpf_regularize 1 (il_rho s) (kpf_action_value 1 1 (kp_S kN) (kp_s kN) k)) = None).
  { unfold kpf_gains, kpf_regularize, kpf_action_value, llt, llt_cols, llt_col. cbn. rewrite HR, HE, HS. unfold Rleb. destruct (Rle_dec _ _) as [|N]; [reflexivity|exfalso; apply N; clear; lra]. }
  rewrite EG. cbn [sw_ok sw_kps]. match goal with |- context [il_increase_reg ?x] => set (s1 := x) end. assert (O1 : il_opts s1 = g_opts RS 0) by exact HO. assert (R1 : il_rho s1 = 0) by exact HR.
  assert (R2 : il_rho (il_increase_reg s1) = 0).
  { unfold il_increase_reg. cbv zeta. cbn [il_set_reg il_rho]. rewrite O1, R1. unfold smin, smax. cbn. unfold Rltb. repeat destruct (Rlt_dec _ _); lra. }
  change (il_opts (il_increase_reg s1)) with (il_opts s1). rewrite O1, R2. assert (L : leb (o_reg_max (g_opts RS 0)) (0 : RS) = false) by (cbn; unfold Rleb; destruct (Rle_dec _ _); [lra|reflexivity]). rewrite L.
  assert (L2 : (o_reg_fail (g_opts RS 0%R) <=? cnt)%Z = false) by (apply Z.leb_gt; exact HC). rewrite L2. cbn [app].
  eapply (IH (il_increase_reg s1)); [exact HC|exact O1|exact HN|reflexivity|exact HE|exact HS|exact R2].
Qed.
Theorem C90_zero_minimum_endless_refuted : exists s : ILQR RS (UCost RS),
  il_opts s = g_opts RS 0 /\ reg_ok (il_opts s) /\ o_reg_initial (il_opts s) = 0 /\ il_ready s /\ il_x0_set s = true /\ stats_ok (il_stats s) /\ lg_freq (st_log (il_stats s)) <> 0%Z /\
  (forall fuel, il_backward_pass 1 1 fuel (g_exp RS 0) = Fuel) /\ (forall cb debug fuel, il_solve ucost_ops 1 1 cb debug fuel s = Fuel).
Proof.
  exists (g_solver RS 0). split; [reflexivity|]. split; [unfold reg_ok; cbn; lra|]. split; [reflexivity|].
  assert (RD : il_ready (g_solver RS 0)). { split; [reflexivity|]. split; [exists (g_guess RS); split; reflexivity|]. eexists. split; reflexivity. }
  split; [exact RD|]. split; [reflexivity|]. split; [apply stats_ok_new|]. split; [apply g_freq|].
  assert (BP : forall fuel (s : ILQR RS (UCost RS)) k k0, il_opts s = g_opts RS 0 -> il_N s = 1%nat -> il_kps s = [k; k0] -> e_uu (kp_ce k) 0%nat 0%nat = -1 -> e_xx (kp_ce k0) 0%nat 0%nat = 0 -> il_rho s = 0 -> il_backward_pass 1 1 fuel s = Fuel).
  { intros fuel s k k0 HO HN HK HE HS HR. unfold il_backward_pass. rewrite HN, HK. cbn [nth_error firstn app]. rewrite (zero_stays _ _ k); [reflexivity|lia|exact HO|exact HN|reflexivity|exact HE|exact HS|exact HR]. }
  assert (UP : forall fuel (s : ILQR RS (UCost RS)) k k0 z z0, il_opts s = g_opts RS 0 -> il_N s = 1%nat -> il_kps s = [k; k0] -> kp_cost k = g_cost RS (-1) -> kp_cost k0 = g_cost RS 0 -> il_rho s = 0 -> il_backward_pass 1 1 fuel (il_update_expansions ucost_ops 1 1 [z; z0] s) = Fuel).
  { intros fuel s k k0 z z0 HO HN HK HC HC0 HR. unfold il_update_expansions. rewrite HK. cbn [expand_all].
    unfold expand_kp, kpf_cost, kpf_cost_expansion. rewrite HC, HC0. eapply BP; [exact HO|exact HN|reflexivity|reflexivity|reflexivity|exact HR]. }
  split; [intros fuel; unfold g_exp; unfold g_guess at 1; eapply UP; reflexivity|].
  intros cb debug fuel. unfold il_solve. destruct (begin_total ucost_ops 1 debug (g_solver RS 0) RD eq_refl) as (b & Eb & _). rewrite Eb. cbn [bind].
  destruct (begin_spec ucost_ops 1 (fun _ _ => True) (fun _ => I) (fun _ _ _ => I) debug (g_solver RS 0) b Eb) as (Z & Z1 & S4).
  pose proof (so_ready _ _ _ _ _ _ _ _ S4) as (rb1 & (Zb & rb2 & rb3) & _). pose proof (so_frame _ _ _ _ _ _ _ _ S4) as [f1 f2 f3 f4]. pose proof (so_rho _ _ _ _ _ _ _ _ S4) as [q1 q2]. pose proof (so_kps4 _ _ _ _ _ _ _ _ S4) as KK. destruct (so_Z1 _ _ _ _ _ _ _ _ S4) as [ZZ _].
  change (il_N (g_solver RS 0)) with 1%nat in f1. change (il_opts (g_solver RS 0)) with (g_opts RS 0) in *. rewrite f1 in rb3. rewrite rb2 in ZZ. assert (ZE : Zb = Z1) by congruence. subst Z1. destruct Zb as [|z [|z0 [|]]]; try discriminate.
  assert (KB : exists k k0, il_kps b = [k; k0] /\ kp_cost k = g_cost RS (-1) /\ kp_cost k0 = g_cost RS 0) by (rewrite KK; do 2 eexists; split; [reflexivity|split; reflexivity]). destruct KB as (k & k0 & KB1 & KB2 & KB3).
  assert (IT : il_iteration ucost_ops 1 1 cb fuel b = Fuel). { unfold il_iteration, il_get_Z. rewrite rb2. cbn [bind]. erewrite UP; [reflexivity|exact f3|exact f1|exact KB1|exact KB2|exact KB3|exact q1]. }
  rewrite f3. change (Z.to_nat (o_max_inner (g_opts RS 0%R))) with 100%nat. cbn [il_loop]. rewrite IT. reflexivity.
Qed.

(** ... and in doubles the rate overflows, 0 times infinity is NaN, and the factorisation accepts it: the backward pass ends with a
    regularisation that is not a number, and so are the gains (finding) *)
Theorem C90_zero_minimum_nan_refuted : exists (s s' : ILQR FS (UCost FS)) k,
  il_opts s = g_opts FS zero /\ s = g_exp FS zero /\ il_backward_pass 1 1 2000 s = Ok s' /\ il_rho s' = S754_nan /\ il_status s' = kUnsolved /\ nth_error (il_kps s') 0 = Some k /\ kp_d k 0%nat = S754_nan.
Proof.
  exists (g_exp FS zero), (get_ok (g_exp FS zero) (il_backward_pass 1 1 2000 (g_exp FS zero))).
  exists (match il_kps (get_ok (g_exp FS zero) (il_backward_pass 1 1 2000 (g_exp FS zero))) with k :: _ => k | [] => kpf_make (g_dyn FS) (g_cost FS zero) end).
  split; [reflexivity|]. split; [reflexivity|]. split; [apply is_ok_get; vm_compute; reflexivity|]. split; [vm_compute; reflexivity|]. split; [vm_compute; reflexivity|].
  assert (H : forall l : list (KPF FS (UCost FS)), forall d, length l = 2%nat -> nth_error l 0 = Some (match l with k :: _ => k | [] => d end)) by (intros [|? ?] d E; [discriminate|reflexivity]).
  split; [apply H; vm_compute; reflexivity|vm_compute; reflexivity].
Qed.

(** a whole solve then spends all its iterations without moving *)
Theorem C90_zero_minimum_solve_refuted : exists s s' : ILQR FS (UCost FS),
  il_opts s = g_opts FS zero /\ il_ready s /\ il_x0_set s = true /\ stats_ok (il_stats s) /\ il_solve ucost_ops 1 1 (g_viol FS) true 2000 s = Ok s' /\
  il_rho s' = S754_nan /\ il_status s' = kMaxInnerIterations /\ st_inner (il_stats s') = 100%Z.
Proof.
  exists (g_solver FS zero), (get_ok (g_solver FS zero) (il_solve ucost_ops 1 1 (g_viol FS) true 2000 (g_solver FS zero))).
  split; [reflexivity|]. split; [split; [reflexivity|]; split; eexists; split; reflexivity|]. split; [reflexivity|]. split; [apply stats_ok_new|]. split; [apply is_ok_get; vm_compute; reflexivity|].
  split; [vm_compute; reflexivity|]. split; vm_compute; reflexivity.
Qed.

(** * Examples: the default options; a concave cost, whose first sweeps fail *)
Lemma fin_of (x : FS) : valid_binary 53 1024 x = true -> is_finite_SF x = true -> fin x.
Proof. intros V X. exists (SF2B x V). split; [apply B2SF_SF2B|]. rewrite <- X. destruct x; reflexivity. Qed.
Lemma default_ok : fopts_ok (@opts_default FS).
Proof.
  destruct one_fin as [O1 O2]. assert (F1 : fin (o_reg_factor (@opts_default FS))) by (apply fin_of; vm_compute; reflexivity). assert (F2 : fin (o_reg_min (@opts_default FS))) by (apply fin_of; vm_compute; reflexivity). assert (F3 : fin (o_reg_max (@opts_default FS))) by (apply fin_of; vm_compute; reflexivity).
  split; [|split; [apply fin_of; vm_compute; reflexivity|cbn [opts_default o_reg_initial]; rewrite fval_zero; lra]].
  split; [exact F1|]. split; [rewrite <- O2; apply fin_ltb; [exact O1|exact F1|vm_compute; reflexivity]|]. split; [exact F2|]. split; [rewrite <- fval_zero; apply fin_ltb; [apply fin_zero|exact F2|vm_compute; reflexivity]|]. split; [exact F3|]. apply fin_leb; [exact F2|exact F3|vm_compute; reflexivity].
Qed.
(** with the default options no backward pass takes more than 182 sweeps *)
Lemma default_values : fval (o_reg_max (@opts_default FS)) = 100000000 /\ 999 / 100000000000 <= fval (o_reg_min (@opts_default FS)) /\ 1599 / 1000 <= fval (o_reg_factor (@opts_default FS)).
Proof.
  split; [apply (fin_ofZ 100000000); lia|]. split.
  - assert (E : o_reg_min (@opts_default FS) = S754_finite false 6044629098073146 (-79)) by (vm_compute; reflexivity). rewrite E. unfold fval, SF2R, F2R. cbn [Fnum Fexp cond_Zopp]. change (bpow radix2 (-79)) with (/ IZR (2 ^ 79)). change (2 ^ 79)%Z with 604462909807314587353088%Z. lra.
  - assert (E : o_reg_factor (@opts_default FS) = S754_finite false 7205759403792794 (-52)) by (vm_compute; reflexivity). rewrite E. unfold fval, SF2R, F2R. cbn [Fnum Fexp cond_Zopp]. change (bpow radix2 (-52)) with (/ IZR (2 ^ 52)). change (2 ^ 52)%Z with 4503599627370496%Z. lra.
Qed.
Example C90_default_sweeps : forall CS n m (s : ILQR FS CS), il_opts s = opts_default -> (1 <= il_N s)%nat -> length (il_kps s) = S (il_N s) -> freg_inv (il_rho s) (il_drho s) ->
  exists s', il_backward_pass n m 182 s = Ok s'.
Proof.
  intros CS n m s HO HN HL RI. destruct default_values as (V1 & V2 & V3). pose proof (C90_sweeps CS n m 80 s) as X. cbv zeta in X. rewrite HO in X. change (Z.to_nat (o_reg_fail (@opts_default FS)) + 80 + 2)%nat with 182%nat in X. apply X; [| | |exact HN|exact HL|exact RI].
  - apply default_ok.
  - apply Rle_trans with (999 / 100000000000); [|exact V2]. unfold tiny. apply Rle_trans with (bpow radix2 (-30)); [apply bpow_le; lia|]. change (bpow radix2 (-30)) with (/ IZR (2 ^ 30)). change (2 ^ 30)%Z with 1073741824%Z. lra.
  - rewrite V1. change 80%nat with (5 * 16)%nat. rewrite pow_mult.
    assert (G : 159 / 100 <= fval (o_reg_factor (@opts_default FS)) * (1 - / 2 ^ 53)). { pose proof eps_small as [E1 _]. assert (E2 : / 2 ^ 53 <= / 1000000) by (apply Rinv_le_contravar; [lra|simpl; lra]). nra. }
    assert (G5 : 1016 / 100 <= (fval (o_reg_factor (@opts_default FS)) * (1 - / 2 ^ 53)) ^ 5) by (eapply Rle_trans; [|apply pow_incr; split; [|exact G]]; [simpl; lra|lra]).
    assert (G80 : 12 * 1000000000000000 <= ((fval (o_reg_factor (@opts_default FS)) * (1 - / 2 ^ 53)) ^ 5) ^ 16) by (eapply Rle_trans; [|apply pow_incr; split; [|exact G5]]; [simpl; lra|lra]). nra.
Qed.
Notation ex_min := (lit (F:=FS) 1 100000000).
Example C90_example : g_opts FS ex_min = opts_default /\ fopts_ok (il_opts (g_solver FS ex_min)) /\
  is_ok (il_backward_pass 1 1 9 (g_exp FS ex_min)) = false /\ is_ok (il_backward_pass 1 1 10 (g_exp FS ex_min)) = true /\
  (exists fuel, forall fuel', (fuel <= fuel')%nat -> exists s', il_solve ucost_ops 1 1 (g_viol FS) true fuel' (g_solver FS ex_min) = Ok s' /\ fin (il_rho s') /\ 0 <= fval (il_rho s') /\
    ((1 <= o_max_inner (il_opts (g_solver FS ex_min)))%Z -> fval (o_reg_min (il_opts s')) <= fval (il_rho s') <= fval (o_reg_max (il_opts s')))) /\
  (exists fuel a', (forall fuel', (fuel <= fuel')%nat -> as_solve 1 1 true fuel' (g_als FS ex_min) = Ok a') /\ fin (il_rho (as_il a')) /\ fval (o_reg_min (@opts_default FS)) <= fval (il_rho (as_il a')) <= fval (o_reg_max (@opts_default FS))).
Proof.
  split; [reflexivity|]. split; [exact default_ok|]. split; [vm_compute; reflexivity|]. split; [vm_compute; reflexivity|]. split.
  - apply C90_solve; [|reflexivity|cbn; lia|apply stats_ok_new|apply g_freq|exact default_ok]. split; [reflexivity|]. split; eexists; split; reflexivity.
  - destruct (C90_al_solve 1 1 true (g_als FS ex_min)) as (f & a' & T & R); [|reflexivity|cbn; lia|reflexivity|exact default_ok|cbn; lia|cbn; lia|].
    + split; [reflexivity|]. split; eexists; split; reflexivity.
    + exists f, a'. split; [exact T|]. apply R; cbn; lia.
Qed.
Print Assumptions C90_range.
Print Assumptions C90_increase.
Print Assumptions C90_decrease.
Print Assumptions C90_backward.
Print Assumptions C90_sweeps.
Print Assumptions C90_solve.
Print Assumptions C90_al_solve.
Print Assumptions C90_zero_minimum_endless_refuted.
Print Assumptions C90_zero_minimum_nan_refuted.
Print Assumptions C90_zero_minimum_solve_refuted.
