(** Property theorems: the example problems (C61-C66). *)
From Coq Require Import Reals Lra ZArith List Bool Lia SpecFloat.
From Verif Require Import Base Lin RLin ConModel ConSpec ConProofs LogModel StatsModel TrajModel IlqrModel IlqrSpec CostInst AlModel DynModel DynSpec DynProofs ExampleModel ExampleSpec P_Traj ProblemModel ProblemSpec ProblemProofs ProblemProofs2 ProblemProofs3 IlqrProofs5 LqSpec ExProbModel ExProbSpec ExProbProofs ExProbProofs2 ExProbProofs3 ExProbProofs4 ExProbProofs5 ExProbProofs6 ExProbProofs7.
Import List ListNotations LqSpec.
Local Open Scope R_scope.

(** ** C61: TripleIntegratorProblem::MakeProblem *)
Theorem C61_contents : forall debug ldlt dmax dof uref st add (t : TIP RS) h, ti_ok ldlt dmax dof add t ->
  let n := (3 * dof)%nat in let N := Z.to_nat (ti_N t) in let xf := (fun i => nth (A:=R) i (ti_xf t) 0) in
  exists h' p, ti_make debug ldlt dmax dof uref st add t h = Ok (h', p) /\ pr_is_fully_defined h' p = Ok true /\ pr_segments p = Ok (ti_N t) /\
    pr_num_constraints debug p = Ok (if add then N * (2 * dof) + n else 0)%nat /\ h_get (pr_init p) h' = ti_x0 t /\
    (forall k, (k < N)%nat -> exists md, nth_error (pr_models p) k = Some (Some md) /\ md_n md = Z.of_nat n /\ md_m md = Z.of_nat dof /\ forall x u tm s buf, tri_motion dof s x u (dy_eval (md_dyn md) x u tm s buf)) /\
    (forall k x u, (k < N)%nat -> cost_at p k x u (weighted n (ti_Q t) x xf + weighted dof (ti_R t) u uref)) /\
    (forall x u, cost_at p N x u (weighted n (ti_Qf t) x xf)) /\
    (forall k x u, (k < N)%nat -> (feasible_at p k x u <-> (add = true -> forall i, (i < dof)%nat -> Rabs (u i) <= nth i (ti_ubnd t) 0))) /\
    (forall x u, feasible_at p N x u <-> (add = true -> forall i, (i < n)%nat -> x i = xf i)).
Proof. exact ti_contents. Qed.
(** the object as constructed, for every number of degrees of freedom *)
Lemma mdiag_set c : mdiag (F:=RS) c = set_diag (F:=RS) c (fun _ _ => 0).
Proof. reflexivity. Qed.
Lemma zero_diag n : diagonal n (fun _ _ => 0).
Proof. intros i j _ _ _. reflexivity. Qed.
Lemma nth_map_nat (f : nat -> R) n i d : (i < n)%nat -> nth i (map f (seq 0 n)) d = f i.
Proof. intros H. rewrite (nth_indep _ d (f 0%nat)) by (rewrite map_length, seq_length; auto). rewrite map_nth, seq_nth by auto. reflexivity. Qed.
Theorem C61_default : forall ldlt dmax dof add, (1 <= dof)%nat -> ldlt (mdiag (F:=RS) 1) = true -> ldlt (mdiag (F:=RS) 100000) = true -> 100 * INR dof < dmax ->
  ti_ok ldlt dmax dof add (ti_new (F:=RS) dof) /\
  (forall i, (i < 3 * dof)%nat -> nth (A:=R) i (ti_x0 (ti_new (F:=RS) dof)) 0 = (if (i <? dof)%nat then - INR (i + 1) else 0) /\ nth (A:=R) i (ti_xf (ti_new (F:=RS) dof)) 0 = (if (i <? dof)%nat then INR (i + 1) else 0)).
Proof.
  intros ldlt dmax dof add HD L1 L2 HM. split.
  - split; cbn [ti_new ti_N ti_Q ti_R ti_Qf ti_x0 ti_ubnd].
    + exact HD.
    + lia.
    + rewrite map_length, seq_length. reflexivity.
    + rewrite mdiag_set. apply set_diag_sym, zero_diag.
    + rewrite mdiag_set. apply set_diag_sym, zero_diag.
    + rewrite mdiag_set. apply set_diag_sym, zero_diag.
    + rewrite mdiag_set. apply set_diag_pos; [apply zero_diag|]. unfold lit. rs. lra.
    + exact L1.
    + exact L2.
    + intros _. split; [rewrite map_length, seq_length; lia|]. intros i Hi. change (T RS) with R. rewrite nth_map_nat by auto. rs. rewrite mult_IZR, plus_IZR, <- INR_IZR_INZ.
      assert (INR i + 1 <= INR dof) by (rewrite <- S_INR; apply le_INR; lia). pose proof (pos_INR i). lra.
  - intros i Hi. cbn [ti_new ti_x0 ti_xf]. change (T RS) with R. rewrite !nth_map_nat by auto. destruct (i <? dof)%nat; [|split; reflexivity]. rs.
    rewrite opp_IZR, plus_IZR, plus_INR, <- INR_IZR_INZ. cbn [INR]. split; lra.
Qed.
Example C61_example : ti_ok (fun _ => true) 1000 2 true (ti_new (F:=RS) 2).
Proof. apply C61_default; auto; cbn; lra. Qed.

(** ** C62: the reference control is never initialised *)
(** Everything but the running costs is independent of what the memory holds; the running costs differ by the terms in the reference control. *)
Theorem C62_memory_partial : forall debug ldlt dmax dof u1 u2 st add (t : TIP RS) h, ti_ok ldlt dmax dof add t -> let N := Z.to_nat (ti_N t) in
  exists h1 p1 h2 p2, ti_make debug ldlt dmax dof u1 st add t h = Ok (h1, p1) /\ ti_make debug ldlt dmax dof u2 st add t h = Ok (h2, p2) /\
    h_get (pr_init p1) h1 = h_get (pr_init p2) h2 /\ pr_num_constraints debug p1 = pr_num_constraints debug p2 /\
    (forall k x u, (k <= N)%nat -> (feasible_at p1 k x u <-> feasible_at p2 k x u)) /\
    (forall x u v, cost_at p1 N x u v <-> cost_at p2 N x u v) /\
    (forall k x u v, (k < N)%nat -> cost_at p1 k x u v -> cost_at p2 k x u (v - weighted dof (ti_R t) u u1 + weighted dof (ti_R t) u u2)).
Proof.
  intros debug ldlt dmax dof u1 u2 st add t h OK N.
  destruct (ti_contents debug ldlt dmax dof u1 st add t h OK) as (h1 & p1 & A1 & _ & _ & A4 & A5 & _ & A7 & A8 & A9 & A10).
  destruct (ti_contents debug ldlt dmax dof u2 st add t h OK) as (h2 & p2 & B1 & _ & _ & B4 & B5 & _ & B7 & B8 & B9 & B10). fold N in A7, A8, A9, A10, B7, B8, B9, B10.
  assert (DET : forall p k x u v w, cost_at (F:=RS) p k x u v -> cost_at p k x u w -> v = w) by (intros p k x u v w (c & E & <-) (c' & E' & <-); congruence).
  exists h1, p1, h2, p2. split; [exact A1|]. split; [exact B1|]. split; [congruence|]. split; [congruence|]. split; [|split].
  - intros k x u Hk. destruct (Nat.eq_dec k N) as [->|Hne]; [rewrite A10, B10; reflexivity|]. rewrite A9, B9 by lia. reflexivity.
  - intros x u v. split; intros H; [rewrite (DET _ _ _ _ _ _ H (A8 x u)); apply B8|rewrite (DET _ _ _ _ _ _ H (B8 x u)); apply A8].
  - intros k x u v Hk H. rewrite (DET _ _ _ _ _ _ H (A7 k x u Hk)).
    match goal with |- cost_at _ _ _ _ ?a => match type of (B7 k x u Hk) with cost_at _ _ _ _ ?b => replace a with b by lra end end. apply B7; auto.
Qed.
(** Finding: the running cost depends on uninitialised memory (triple_integrator.hpp:51). *)
Theorem C62_uninitialised_refuted : exists u1 u2 : vec RS, exists h1 p1 h2 p2 x u v1 v2,
  ti_make (F:=RS) true (fun _ => true) 1000 1 u1 rk_init false (ti_new 1) [] = Ok (h1, p1) /\ ti_make (F:=RS) true (fun _ => true) 1000 1 u2 rk_init false (ti_new 1) [] = Ok (h2, p2) /\
  cost_at p1 0 x u v1 /\ cost_at p2 0 x u v2 /\ v1 <> v2.
Proof.
  exists (fun _ => 0), (fun _ => 1).
  assert (OK : ti_ok (fun _ => true) 1000 1 false (ti_new (F:=RS) 1)) by (apply C61_default; auto; cbn; lra).
  destruct (ti_contents true (fun _ => true) 1000 1 (fun _ => 0) rk_init false (ti_new 1) [] OK) as (h1 & p1 & A1 & _ & _ & _ & _ & _ & A7 & _).
  destruct (ti_contents true (fun _ => true) 1000 1 (fun _ => 1) rk_init false (ti_new 1) [] OK) as (h2 & p2 & B1 & _ & _ & _ & _ & _ & B7 & _).
  assert (H0 : (0 < Z.to_nat (ti_N (ti_new (F:=RS) 1)))%nat) by (cbn; lia).
  specialize (A7 0%nat (fun _ => 0) (fun _ => 0) H0). specialize (B7 0%nat (fun _ => 0) (fun _ => 0) H0).
  exists h1, p1, h2, p2, (fun _ => 0), (fun _ => 0). eexists. eexists. split; [exact A1|]. split; [exact B1|]. split; [exact A7|]. split; [exact B7|].
  intros E. apply Rplus_eq_reg_l in E. unfold weighted, qform, fsum in E. cbn in E. lra.
Qed.
(** Finding, in IEEE arithmetic: if the memory holds NaN, every cost of the problem is NaN at every state and control; the terminal cost
    too, because R * 0 does not remove a NaN. *)
Lemma nan_add (a : FS) : add a (S754_nan : FS) = S754_nan.
Proof. destruct a as [[]|[]| |]; reflexivity. Qed.
Lemma nan_sum n (f : nat -> FS) : (1 <= n)%nat -> (forall i, f i = S754_nan) -> sumn n f = S754_nan.
Proof. intros Hn H. destruct n as [|n]; [lia|]. cbn [sumn]. rewrite H. apply nan_add. Qed.
Lemma nan_mul (a : FS) : mul (S754_nan : FS) a = S754_nan.
Proof. destruct a; reflexivity. Qed.
Lemma nan_mul' (a : FS) : mul a (S754_nan : FS) = S754_nan.
Proof. destruct a; reflexivity. Qed.
Lemma nan_cost ldlt n m (Q R : mat FS) xref term : (1 <= m)%nat -> exists c, lqr_cost (F:=FS) false ldlt n m Q R xref (fun _ => S754_nan : FS) term = Ok c /\ forall x u, uc_eval c x u = S754_nan.
Proof.
  intros Hm. unfold lqr_cost, qc_lqr, qc_make, qc_validate. cbn [altro_assert bind]. eexists. split; [reflexivity|]. intros x u. cbn [qc_ucost uc_eval]. unfold qc_eval. cbn [qc_c].
  assert (E : dot (F:=FS) m (fun _ => S754_nan : FS) (mv m R (fun _ => S754_nan : FS)) = S754_nan) by (apply nan_sum; [exact Hm|intros; apply nan_mul]).
  rewrite E, nan_mul', nan_add. apply nan_add.
Qed.
Theorem C62_nan_everywhere : forall dof ldlt dmax st (t : TIP FS) h, (1 <= dof)%nat -> (1 <= ti_N t)%Z -> length (ti_x0 t) = (3 * dof)%nat ->
  exists h' p, ti_make (F:=FS) false ldlt dmax dof (fun _ => S754_nan : FS) st false t h = Ok (h', p) /\ pr_is_fully_defined h' p = Ok true /\
    forall k x u, (k <= Z.to_nat (ti_N t))%nat -> cost_at p k x u (S754_nan : FS).
Proof.
  intros dof ldlt dmax st t h HD HN LX.
  destruct (nan_cost ldlt (3 * dof) dof (ti_Q t) (ti_R t) (lvec (ti_xf t)) false HD) as (c & Ec & Nc).
  destruct (nan_cost ldlt (3 * dof) dof (ti_Qf t) (mscale zero (ti_R t)) (lvec (ti_xf t)) true HD) as (cT & EcT & NcT).
  destruct (new_ok (F:=FS) (C:=UCost FS) (ti_N t) h ltac:(lia)) as [p0 E0].
  destruct (sh_run (ti_N t) HN None c cT (ti_model dof st) None (ti_x0 t) false) with (h0 := h) (s0 := (h ++ [[]], p0)) as (h' & p & RUN & FD & CT); auto.
  { unfold ti_model. cbn [md_n md_m]. lia. } { unfold ti_model. cbn [md_n]. now rewrite LX. }
  exists h', p. split.
  { rewrite (ti_make_run false ldlt dmax dof (fun _ => S754_nan : FS) st false t h _ c cT [] [] (mkCB 0 [] [] [] []) E0 Ec EcT) by discriminate. apply RUN. }
  split; [exact FD|]. intros k x u Hk. pose proof (sh_holds (ti_N t) HN None c cT (ti_model dof st) None (ti_x0 t) false h h' p CT) as HO.
  pose proof (ho_cost _ _ _ _ _ _ _ _ HO (Z.of_nat k) ltac:(lia)) as HC. rewrite Nat2Z.id in HC. eexists. split; [exact HC|]. unfold sh_cost. destruct (Z.of_nat k =? ti_N t)%Z; auto.
Qed.
Example C62_nan_example : length (ti_x0 (ti_new (F:=FS) 2)) = 6%nat /\ ti_N (ti_new (F:=FS) 2) = 10%Z.
Proof. split; reflexivity. Qed.

(** ** C65: iLQR solves the triple integrator problem to global optimality *)
Theorem C65_optimal : forall debug ldlt dmax dof uref st add (t : TIP RS) h on om Z o cb, ti_ok ldlt dmax dof add t ->
  let n := (3 * dof)%nat in let N := Z.to_nat (ti_N t) in let xf := (fun i => nth (A:=R) i (ti_xf t) 0) in
  possemi n (ti_Q t) -> possemi n (ti_Qf t) -> (on = None \/ on = Some n) -> (om = None \/ om = Some dof) ->
  length Z = S N -> (forall k z, (k < N)%nat -> nth_error Z k = Some z -> z_h z = ti_h t) ->
  reg_ok o -> 0 < o_reg_min o -> o_reg_initial o = 0 -> o_ls_lb o <= 1 <= o_ls_ub o -> (1 <= o_ls_iters o)%Z -> (1 <= o_max_inner o)%Z -> o_check_bounds o = false ->
  exists h' p s, ti_make debug ldlt dmax dof uref st add t h = Ok (h', p) /\ il_of_problem debug on om h' p = Ok s /\
  exists fuel, forall fuel', (fuel <= fuel')%nat -> exists s' Z', il_solve (@ucost_ops RS) n dof cb debug fuel' (il_set_opts (il_set_trajectory Z s) o) = Ok s' /\ il_Z s' = Some Z' /\ length Z' = S N /\
    tri_path dof N (ti_h t) (fun i => nth (A:=R) i (ti_x0 t) 0) (zX Z') (zU Z') /\
    forall X U, tri_path dof N (ti_h t) (fun i => nth (A:=R) i (ti_x0 t) 0) X U ->
      tri_cost dof N (ti_Q t) (ti_R t) (ti_Qf t) xf uref (zX Z') (zU Z') <= tri_cost dof N (ti_Q t) (ti_R t) (ti_Qf t) xf uref X U.
Proof. exact ti_solved. Qed.
(** InitialTrajectory has the steps C65 asks for *)
Theorem C65_trajectory : forall t : TIP RS, (1 <= ti_N t)%Z -> let N := Z.to_nat (ti_N t) in length (ti_trajectory t) = S N /\
  (forall k z, (k < N)%nat -> nth_error (ti_trajectory t) k = Some z -> z_h z = ti_h t) /\
  (forall k z, nth_error (ti_trajectory t) k = Some z -> z_t z = INR k * ti_h t /\ forall i, z_x z i = 0 /\ z_u z i = 0).
Proof.
  intros t HN N. unfold ti_trajectory. fold N. set (Z0 := traj_zero (F:=RS) N). assert (LZ : length Z0 = S N) by (unfold Z0, traj_zero; now rewrite repeat_length).
  destruct (C47_uniform_step RS (ti_h t) Z0) as [HL HK].
  assert (NK : forall k, (k <= N)%nat -> nth_error Z0 k = Some kp_zero) by (intros k Hk; unfold Z0, traj_zero; apply nth_error_repeat; lia).
  split; [congruence|]. split.
  - intros k z Hk Ez. destruct (HK k _ (NK k ltac:(lia))) as (z' & E1 & _ & _ & E4 & _). assert (z = z') as -> by congruence. apply E4. lia.
  - intros k z Ez. assert (Hk : (k <= N)%nat). { assert (k < length (traj_set_uniform_step (F:=RS) (ti_h t) Z0))%nat by (apply nth_error_Some; congruence). lia. }
    destruct (HK k _ (NK k Hk)) as (z' & E1 & EX & EU & _). assert (z = z') as -> by congruence. split.
    + apply (C47_exact_consistent (ti_h t) 0 Z0 (Rle_refl 0)); auto.
    + intros i. rewrite EX, EU. split; reflexivity.
Qed.
(** the problem as constructed, from its initial trajectory, with default options except for the bound check *)
Definition ti_opts : Opts RS := mkOpts 300 30 100 (lit (F:=RS) 1 10000) (lit (F:=RS) 1 100) (16 / 10) 0 100000000 (1 / 100000000) 100
    false (100000000 : RS) (100000000 : RS) 20 (1 / 100000000) 10 2 (lit (F:=RS) 1 10000) (100000000 : RS) 1 true 10 kSilent 1 1.
Example C65_example : forall dof uref h cb, (1 <= dof)%nat ->
  exists h' p s, ti_make true (fun _ => true) (1 + 100 * INR dof) dof uref rk_init false (ti_new (F:=RS) dof) h = Ok (h', p) /\ il_of_problem true None None h' p = Ok s /\
  exists fuel s' Z', il_solve (@ucost_ops RS) (3 * dof) dof cb true fuel (il_set_opts (il_set_trajectory (ti_trajectory (ti_new (F:=RS) dof)) s) ti_opts) = Ok s' /\ il_Z s' = Some Z' /\
    tri_path dof 10 (1 / 10) (fun i => nth (A:=R) i (ti_x0 (ti_new (F:=RS) dof)) 0) (zX Z') (zU Z').
Proof.
  intros dof uref h cb HD. destruct (C61_default (fun _ => true) (1 + 100 * INR dof) dof false HD eq_refl eq_refl ltac:(lra)) as [OK _].
  destruct (C65_trajectory (ti_new (F:=RS) dof)) as (L & HS & _); [cbn; lia|].
  assert (PS : forall n c, 0 < c -> possemi n (mdiag (F:=RS) c)).
  { intros n c Hc x. change (0 <= qform n n (mdiag (F:=RS) c) x x). rewrite mdiag_set, form_diag by apply zero_diag. apply Rmult_le_pos; [lra|]. rewrite fsum_rsum. apply rsum_nonneg. intros i _. apply Rle_0_sqr. }
  destruct (C65_optimal true (fun _ => true) (1 + 100 * INR dof) dof uref rk_init false (ti_new dof) h None None (ti_trajectory (ti_new dof)) ti_opts cb OK) as (h' & p & s & E1 & E2 & fuel & T); auto.
  - apply PS. rs. lra.
  - apply PS. rs. lra.
  - unfold reg_ok. cbn. lra.
  - cbn. lra.
  - cbn. lra.
  - cbn. lia.
  - cbn. lia.
  - exists h', p, s. split; [exact E1|]. split; [exact E2|]. destruct (T fuel (le_n _)) as (s' & Z' & A & B & _ & C & _). exists fuel, s', Z'. split; [exact A|]. split; [exact B|]. exact C.
Qed.

(** ** C63: UnicycleProblem::MakeProblem *)
Theorem C63_contents : forall debug ldlt dmax scos ssin, ldlt_diag ldlt -> 3 < dmax -> forall add s h, un_ok dmax s ->
  let N := Z.to_nat (un_N s) in let three := un_three s in let st := sc_tf three / IZR (un_N s) in let uref := (fun i => nth (A:=R) i (un_uref s) 0) in
  exists h' p u, un_make debug ldlt dmax scos ssin add s h = Ok ((h', p), u) /\ pr_is_fully_defined h' p = Ok true /\ pr_segments p = Ok (un_N s) /\
    pr_num_constraints debug p = Ok ((if three then 3 * (N - 1) else 0) + (if add then 4 * N + 3 else 0))%nat /\ h_get (pr_init p) h' = sc_x0 s /\
    (forall k, (k < N)%nat -> nth_error (pr_models p) k = Some (Some (mkModel 3 2 (disc_rk4 3 2 (unicycle (F:=RS) scos ssin) (un_st s))))) /\
    (forall k x v, (k < N)%nat -> cost_at p k x v (/ 2 * (sc_wx three * st * sq 3 x (sc_xf s) + sc_wu three * st * sq 2 v uref))) /\
    (forall x v, cost_at p N x v (/ 2 * (sc_wf three * sq 3 x (sc_xf s)))) /\
    (forall k x v, (k < N)%nat -> (feasible_at p k x v <-> (three = true -> (1 <= k)%nat -> outside x) /\ (add = true -> forall i, (i < 2)%nat -> sc_lo s i <= v i <= sc_hi s i))) /\
    (forall x v, feasible_at p N x v <-> (add = true -> forall i, (i < 3)%nat -> x i = sc_xf s i)) /\
    u = un_prep s.
Proof. exact un_contents. Qed.
(** the hypotheses hold for the object as constructed and are kept by every sequence of SetScenario and MakeProblem calls *)
Inductive un_call := UScenario (three : bool) | UMake.
Definition un_apply (c : un_call) (s : UNP RS) : UNP RS := match c with UScenario b => un_set_scenario b s | UMake => un_prep s end.
Theorem C63_reuse : forall dmax (s : UNP RS) cs, 3 < dmax -> un_ok dmax s -> 0 <= un_v s < dmax -> 0 <= un_w s < dmax -> un_ok dmax (fold_left (fun s c => un_apply c s) cs s).
Proof.
  intros dmax s cs HD. revert s. induction cs as [|c cs IH]; intros s OK HV HW; [exact OK|]. cbn [fold_left]. apply IH.
  - destruct OK as (O1 & O2 & O3 & O4 & O5 & O6). destruct c as [b|]; cbn [un_apply].
    + unfold un_set_scenario, un_ok. cbn. auto 10.
    + unfold un_prep. destruct (un_three s) eqn:E; unfold un_ok, un_avoid, un_turn; cbn; rewrite ?E.
      * split; [exact O1|]. split; [reflexivity|]. split; [apply set_diag_diag; auto|]. split; [apply set_diag_diag; auto|]. split; [apply set_diag_diag; auto|discriminate].
      * split; [exact O1|]. split; [exact O2|]. split; [apply set_diag_diag; auto|]. split; [apply set_diag_diag; auto|]. split; [apply set_diag_diag; auto|auto].
  - destruct c; cbn [un_apply]; unfold un_set_scenario, un_prep; [exact HV|]. destruct (un_three s); exact HV.
  - destruct c; cbn [un_apply]; unfold un_set_scenario, un_prep; [exact HW|]. destruct (un_three s); exact HW.
Qed.
Lemma un_new_ok dmax : 3 < dmax -> un_ok dmax (un_new (F:=RS) PI) /\ 0 <= un_v (un_new (F:=RS) PI) < dmax /\ 0 <= un_w (un_new (F:=RS) PI) < dmax.
Proof.
  intros H. assert (V : un_v (un_new (F:=RS) PI) = 15 / 10) by reflexivity. assert (W : un_w (un_new (F:=RS) PI) = 15 / 10) by reflexivity.
  assert (B : 0 <= 15 / 10 < dmax) by lra. rewrite V, W. split; [|auto]. unfold un_ok. rewrite V, W. cbn [un_new un_N un_x0 un_Q un_R un_Qf un_three].
  split; [lia|]. split; [reflexivity|]. split; [rewrite mdiag_set; apply set_diag_diag, zero_diag|]. split; [rewrite mdiag_set; apply set_diag_diag, zero_diag|]. split; [rewrite mdiag_set; apply set_diag_diag, zero_diag|auto].
Qed.
Example C63_example : un_ok 10 (un_new (F:=RS) PI) /\ un_ok 10 (un_set_scenario true (un_new (F:=RS) PI)) /\ ldlt_diag (fun _ => true).
Proof.
  destruct (un_new_ok 10 ltac:(lra)) as (A & B & C). split; [exact A|]. split; [|intros M _ _; reflexivity].
  apply (C63_reuse 10 (un_new (F:=RS) PI) [UScenario true]); auto. lra.
Qed.
(** start and goal of the obstacle scenario are outside the discs; the middle of the straight line between them is not *)
Theorem C63_start_goal : outside (fun i => nth i [0; 0; 0] 0) /\ outside (fun i => nth i [3; 3; 0] 0) /\ ~ outside (fun i => nth i [3 / 2; 3 / 2; 0] 0).
Proof.
  assert (G : forall a c, 425 / 1000 <= Rabs (a - c) -> 425 / 1000 <= dist a a c c).
  { intros a c H. unfold dist. rewrite <- (sqrt_square (425 / 1000)) by lra. apply sqrt_le_1_alt. unfold Rabs in H. destruct (Rcase_abs (a - c)); nra. }
  split; [|split].
  - intros c Hc. apply G. cbn [nth]. destruct Hc as [<-|[<-|[<-|[]]]]; unfold Rabs; destruct (Rcase_abs _); lra.
  - intros c Hc. apply G. cbn [nth]. destruct Hc as [<-|[<-|[<-|[]]]]; unfold Rabs; destruct (Rcase_abs _); lra.
  - intros H. specialize (H (3 / 2) (or_intror (or_introl eq_refl))). cbn [nth] in H. unfold dist in H. replace ((3 / 2 - 3 / 2) ^ 2 + (3 / 2 - 3 / 2) ^ 2) with 0 in H by lra. rewrite sqrt_0 in H. lra.
Qed.
(** Finding: MakeProblem(false) does not make an unconstrained problem in the obstacle scenario (unicycle.cpp:57-61). *)
Theorem C63_unconstrained_refuted : exists s : UNP RS, exists h p u n, un_make (F:=RS) true (fun _ => true) 10 cos sin false s [] = Ok ((h, p), u) /\ pr_num_constraints true p = Ok n /\ n <> 0%nat.
Proof.
  exists (un_set_scenario true (un_new (F:=RS) PI)). destruct C63_example as (_ & OK & LD).
  destruct (C63_contents true (fun _ => true) 10 cos sin LD ltac:(lra) false _ [] OK) as (h & p & u & A & _ & _ & B & _).
  exists h, p, u. eexists. split; [exact A|]. split; [exact B|]. cbn. lia.
Qed.

(** ** C64: UnicycleProblem::InitialTrajectory *)
Theorem C64_trajectory : forall debug ldlt dmax scos ssin, ldlt_diag ldlt -> 3 < dmax -> forall add s h h' p u, un_ok dmax s -> un_make debug ldlt dmax scos ssin add s h = Ok ((h', p), u) ->
  let N := Z.to_nat (un_N s) in let tf := sc_tf (un_three s) in let Z := un_trajectory u in length Z = S N /\
  (forall k, (k < N)%nat -> exists z, nth_error Z k = Some z /\ (forall i, z_u z i = sc_u0 s i) /\ (forall i, z_x z i = 0) /\ z_h z = tf / IZR (un_N s) /\ z_t z = INR k * (tf / IZR (un_N s))) /\
  exists z, nth_error Z N = Some z /\ (forall i, z_u z i = 0) /\ (forall i, z_x z i = 0) /\ z_h z = 0 /\ z_t z = tf.
Proof.
  intros debug ldlt dmax scos ssin LD DM add s h h' p u OK E N tf Z.
  destruct (C63_contents debug ldlt dmax scos ssin LD DM add s h OK) as (h2 & p2 & u2 & E2 & _ & _ & _ & _ & _ & _ & _ & _ & _ & EU). rewrite E in E2. inversion E2; subst u2; subst u. subst Z.
  destruct (prep_Q dmax s OK) as (_ & _ & _ & _ & _ & EN & _ & ET & _). pose proof OK as (HN & _).
  destruct (un_traj (un_prep s)) as (T1 & T2 & T3); [rewrite EN; exact HN|]. rewrite EN, ET in *. fold N in T1, T2, T3.
  split; [exact T1|]. split; [|exact T3]. intros k Hk. destruct (T2 k Hk) as (z & A & B & C). exists z. split; [exact A|]. split; [|exact C].
  intros i. rewrite B. unfold un_prep, sc_u0. destruct (un_three s); reflexivity.
Qed.
Example C64_example : exists h p u, un_make (F:=RS) true (fun _ => true) 10 cos sin true (un_set_scenario true (un_new PI)) [] = Ok ((h, p), u) /\ un_tf u = 5.
Proof.
  destruct C63_example as (_ & OK & LD). destruct (C63_contents true (fun _ => true) 10 cos sin LD ltac:(lra) true _ [] OK) as (h & p & u & A & _ & _ & _ & _ & _ & _ & _ & _ & _ & EU).
  exists h, p, u. split; [exact A|]. rewrite EU. reflexivity.
Qed.
(** Finding: before MakeProblem the trajectory of the obstacle scenario ends at 3, the final time of the other scenario. *)
Theorem C64_before_make_refuted : exists s : UNP RS, un_three s = true /\ un_ok 10 s /\ exists z, nth_error (un_trajectory s) (Z.to_nat (un_N s)) = Some z /\ z_t z <> sc_tf (un_three s).
Proof.
  exists (un_set_scenario true (un_new (F:=RS) PI)). destruct C63_example as (_ & OK & _). split; [reflexivity|]. split; [exact OK|].
  destruct (un_traj (un_set_scenario true (un_new (F:=RS) PI))) as (_ & _ & z & E & _ & _ & _ & ET); [cbn; lia|]. exists z. split; [exact E|]. rewrite ET.
  change (un_tf (un_set_scenario true (un_new (F:=RS) PI))) with 3. change (sc_tf (un_three (un_set_scenario true (un_new (F:=RS) PI)))) with 5. lra.
Qed.
(** A new object is the turn of 100 segments from the origin to (3/2, 3/2, pi/2) in 3 s, controls within 3/2 and 1/10 to start with;
    choosing a scenario changes nothing else. *)
Theorem C64_defaults : let s := un_new (F:=RS) PI in un_three s = false /\ un_N s = 100%Z /\ un_tf s = 3 /\ un_x0 s = [0; 0; 0] /\ un_xf s = [1.5; 1.5; PI / 2] /\ un_u0 s = [0.1; 0.1] /\
  un_uref s = [0; 0] /\ un_v s = 1.5 /\ un_w s = 1.5 /\ un_lb s = [] /\ un_ub s = [] /\ cc_obs (un_obs s) = [] /\
  (forall i j, un_Q s i j = if Nat.eqb i j then 0.01 else 0) /\ (forall i j, un_R s i j = if Nat.eqb i j then 0.01 else 0) /\ (forall i j, un_Qf s i j = if Nat.eqb i j then 100 else 0).
Proof.
  cbn [un_new un_three un_N un_tf un_x0 un_xf un_u0 un_uref un_v un_w un_lb un_ub un_obs un_Q un_R un_Qf]. unfold lit. rs.
  repeat match goal with |- _ /\ _ => split end; try reflexivity; try (repeat f_equal; lra).
  all: intros i j; unfold mdiag; destruct (Nat.eqb i j); rs; lra.
Qed.
Theorem C64_scenario : forall (F : Scalar) b (s : UNP F), let s' := un_set_scenario b s in un_three s' = b /\ un_N s' = un_N s /\ un_Q s' = un_Q s /\ un_R s' = un_R s /\ un_Qf s' = un_Qf s /\
  un_xf s' = un_xf s /\ un_x0 s' = un_x0 s /\ un_u0 s' = un_u0 s /\ un_uref s' = un_uref s /\ un_v s' = un_v s /\ un_w s' = un_w s /\ un_lb s' = un_lb s /\ un_ub s' = un_ub s /\
  un_obs s' = un_obs s /\ un_tf s' = un_tf s /\ un_st s' = un_st s.
Proof. intros F b s s'. repeat split. Qed.
(** Finding: an object that has made the obstacle problem and is switched back to the turn keeps the other scenario's goal and controls. *)
Theorem C64_switch_back_refuted : exists s : UNP RS, un_three s = false /\ un_ok 10 s /\
  let s' := un_prep (un_set_scenario false (un_prep (un_set_scenario true s))) in
  un_three s' = false /\ un_tf s' = un_tf (un_prep s) /\ un_xf s' <> un_xf (un_prep s) /\ un_u0 s' <> un_u0 (un_prep s).
Proof.
  exists (un_new (F:=RS) PI). destruct (un_new_ok 10 ltac:(lra)) as (OK & _). split; [reflexivity|]. split; [exact OK|]. cbn -[PI]. unfold lit. rs.
  split; [reflexivity|]. split; [reflexivity|]. split; intros E; inversion E; lra.
Qed.

(** ** C66: MakeSolver and MakeALSolver *)
Theorem C66_solvers : forall debug ldlt dmax scos ssin, ldlt_diag ldlt -> 3 < dmax -> forall (s : UNP RS) h on om, un_ok dmax s -> (on = None \/ on = Some 3%nat) -> (om = None \/ om = Some 2%nat) ->
  let N := Z.to_nat (un_N s) in let x0 := (fun i => nth (A:=R) i (sc_x0 s) 0) in let f := disc_rk4 3 2 (unicycle (F:=RS) scos ssin) (un_st s) in let st := sc_tf (un_three s) / IZR (un_N s) in
  (exists sol, un_solver debug ldlt dmax scos ssin on om s h = Ok (sol, un_prep s) /\ ready_with N x0 f (sc_u0 s) st sol) /\
  (exists a, un_al_solver debug ldlt dmax scos ssin true on om s h = Ok (a, un_prep s) /\ ready_with N x0 f (sc_u0 s) st (as_il a)).
Proof. exact un_solvers. Qed.
Example C66_example : exists sol, un_solver (F:=RS) true (fun _ => true) 10 cos sin (Some 3%nat) (Some 2%nat) (un_new PI) [] = Ok sol.
Proof.
  destruct (un_new_ok 10 ltac:(lra)) as (OK & _). destruct (C66_solvers true (fun _ => true) 10 cos sin ltac:(intros M _ _; reflexivity) ltac:(lra) (un_new PI) [] (Some 3%nat) (Some 2%nat) OK) as [(sol & E & _) _]; auto. eauto.
Qed.
Print Assumptions C61_contents.
Print Assumptions C61_default.
Print Assumptions C62_memory_partial.
Print Assumptions C62_uninitialised_refuted.
Print Assumptions C62_nan_everywhere.
Print Assumptions C63_contents.
Print Assumptions C63_reuse.
Print Assumptions C64_trajectory. Print Assumptions C64_defaults. Print Assumptions C64_scenario.
Print Assumptions C65_optimal.
Print Assumptions C65_trajectory.
Print Assumptions C66_solvers.
