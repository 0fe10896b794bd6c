(** Nonlinear problems: slope, descent, stationarity and acceptance of small steps. *)
From Coq Require Import Reals Lra Lia List Bool ZArith Psatz Arith.
From Coquelicot Require Import Coquelicot.
Import List ListNotations.
From Verif Require Import Base Lin LogModel StatsModel TrajModel IlqrModel IlqrSpec IlqrFrame IlqrProofs IlqrProofs2 IlqrProofs4 IlqrProofs5 IlqrProofs7 LsSpec RLin RDer LqSpec LltProofs DynProofs LqProofs LqProofs2 LqProofs3 LqProbSpec LqProofs4 LqProofs5 NlSpec NlProofs NlProofs2 NlProofs3.
Local Open Scope R_scope.

Section S.
Context {CS : Type} (n m : nat) (ops : CostOps RS CS) (Inv : CS -> Prop) (V : CS -> vec RS -> vec RS -> R).
Notation K := (KPF RS CS).
Notation stage_of := (@stage_of CS n).
Notation ILQR := (ILQR RS CS).
Notation still l := (Forall (fun k : K => forall i, (i < m)%nat -> kp_d k i = 0) l).
Lemma v0_neg rho (kps : list K) SN sN v0 v1 : Forall (fun k => sym_stage n m (stage_of k)) kps -> sym n SN ->
  let w := bp_sweep n m rho kps SN sN v0 v1 in sw_ok w = true -> sw_v0 w <= v0 /\ (sw_v0 w = v0 -> still (sw_kps w)).
Proof.
  cbv zeta. intros F HS. induction F as [|k r Hk F IH]; intros OK; [cbn; split; [lra|constructor]|].
  destruct (sweep_cons n m rho k r SN sN v0 v1 OK) as (OKr & k2 & G & E). cbv zeta in *. rewrite E. set (w := bp_sweep n m rho r SN sN v0 v1) in *.
  destruct (sweep_sym n m rho r SN sN v0 v1 F HS) as [SW _]. fold w in SW. destruct (IH OKr) as [I1 I2]. destruct (st_descent n m rho (sw_S w) (sw_s w) k k2 G Hk SW) as (D0 & D1 & P).
  set (k3 := kpf_ctg n m k2) in *. cbn [sw_kps sw_v0]. pose proof (posdef_nonneg m _ (kp_d k3) P) as PN.
  split; [lra|]. intros Q. assert (Z0 : form m m (e_uu (kp_qr k3)) (kp_d k3) (kp_d k3) <= 0) by lra. constructor; [apply (posdef_zero m _ _ P Z0)|apply I2; lra].
Qed.
Context (s : ILQR) (Z Zb : Traj RS) (NS : nl_setting n m ops Inv V s Z Zb).
Let HC := ns_costs _ _ _ _ _ _ _ _ NS. Let SP := ns_prob _ _ _ _ _ _ _ _ NS. Let LZ := ns_len _ _ _ _ _ _ _ _ NS. Let FZ := ns_dyn _ _ _ _ _ _ _ _ NS. Let LZb := ns_lenb _ _ _ _ _ _ _ _ NS. Let GZb := ns_steps _ _ _ _ _ _ _ _ NS.
Let N := il_N s.
Let kps1 := snd (expand_all ops n m (il_kps s) Z).
Lemma symF : Forall (fun k => sym_stage n m (stage_of k)) (firstn N kps1).
Proof. destruct (NlProofs3.sym1 n m ops Inv V HC s Z Zb SP LZ LZb) as [A _]. rewrite NlProofs3.s1_kps, NlProofs3.s1_N in A. exact A. Qed.
Lemma symN k0 : nth_error kps1 N = Some k0 -> sym n (e_xx (kp_ce k0)).
Proof. destruct (NlProofs3.sym1 n m ops Inv V HC s Z Zb SP LZ LZb) as [_ A]. rewrite NlProofs3.s1_kps, NlProofs3.s1_N in A. apply A. Qed.
Context (fuel : nat) (s2 : ILQR) (EB : il_backward_pass n m fuel (il_update_expansions ops n m Z s) = Ok s2) (ST : il_status s2 <> kBackwardPassRegularizationFailed).
Lemma no_step_still (kps2 : list K) k0 : il_kps s2 = kps2 ++ [kpf_terminal k0] -> map stage_of kps2 = map stage_of (firstn N kps1) -> (no_step m s2 <-> still kps2).
Proof.
  intros K2 SG. pose proof (NlProofs3.len2 n m ops Inv V s Z Zb SP LZ LZb kps2 SG) as L2. fold N in L2. pose proof (NlProofs3.N2 n m ops Inv V s Z SP LZ fuel s2 EB) as EN. fold N in EN. split.
  - intros H. apply Forall_forall. intros k Hin i Hi. apply In_nth_error in Hin. destruct Hin as [j Hj]. assert (Hl : (j < length kps2)%nat) by (apply nth_error_Some; congruence).
    apply (H j k i); [rewrite EN; lia|rewrite K2, nth_error_app1 by exact Hl; exact Hj|exact Hi].
  - intros H j k i Hj Hk Hi. rewrite K2, nth_error_app1 in Hk by (rewrite L2; rewrite EN in Hj; exact Hj). rewrite Forall_forall in H. apply (H k); [eapply nth_error_In; eauto|exact Hi].
Qed.
Section Line.
Context (fam : R -> Traj RS) (LF : line n m s2 Z Zb fam).
Lemma line_len a : length (fam a) = S (il_N s). Proof. rewrite (proj2 (LF a)). exact LZ. Qed.
Lemma line_derive (kps2 : list K) k0 : il_kps s2 = kps2 ++ [kpf_terminal k0] -> nth_error kps1 N = Some k0 -> map stage_of kps2 = map stage_of (firstn N kps1) ->
  is_derive (fun a => total_cost V s (fam a)) 0 (lin_along n m (map stage_of kps2) (map (polK n) kps2) (e_x (kp_ce k0)) (fun _ => 0)).
Proof. intros K2 E0 SG. exact (sim_derive n m ops Inv V HC s Z Zb SP LZ FZ LZb GZb fuel s2 EB kps2 k0 K2 E0 SG fam line_len (fun a => proj1 (LF a))). Qed.
Theorem slope : fuel = 1%nat -> il_rho s = 0 -> is_derive (fun a => total_cost V s (fam a)) 0 (il_dV0 s2) /\ il_dV0 s2 <= 0 /\ (il_dV0 s2 = 0 -> no_step m s2).
Proof.
  intros F1 R0. destruct (once n m ops Inv V s Z Zb SP LZ LZb fuel s2 EB ST F1) as (k0 & E0 & OK & K2 & V0 & V1). fold kps1 N in E0, OK, K2, V0, V1. rewrite R0 in *.
  pose proof (sweep_stages n m 0 (firstn N kps1) (e_xx (kp_ce k0)) (e_x (kp_ce k0)) 0 0) as SG.
  pose proof (sweep_slope n m (firstn N kps1) (e_xx (kp_ce k0)) (e_x (kp_ce k0)) 0 0 symF (symN k0 E0)) as SS. cbv zeta in SS. pose proof (v0_neg 0 (firstn N kps1) (e_xx (kp_ce k0)) (e_x (kp_ce k0)) 0 0 symF (symN k0 E0)) as VN. cbv zeta in VN.
  set (w := bp_sweep n m 0 (firstn N kps1) (e_xx (kp_ce k0)) (e_x (kp_ce k0)) 0 0) in *.
  destruct (VN OK) as [N1 N2]. split; [|rewrite V0; split; [exact N1|]].
  - eapply d_eq; [apply (line_derive (sw_kps w) k0 K2 E0 SG)|]. rewrite SG, (SS OK), V0, inner_zero_r. lra.
  - intros Q. apply (proj2 (no_step_still (sw_kps w) k0 K2 SG)). apply N2. exact Q.
Qed.
Theorem descent : fuel = 1%nat -> 0 <= il_rho s -> convex_model n m (il_update_expansions ops n m Z s) ->
  exists sl, is_derive (fun a => total_cost V s (fam a)) 0 sl /\ sl <= il_dV0 s2 + il_dV1 s2 /\ il_dV0 s2 + il_dV1 s2 <= 0 /\ (il_dV0 s2 + il_dV1 s2 = 0 -> no_step m s2).
Proof.
  intros F1 R0 [CM CN]. destruct (once n m ops Inv V s Z Zb SP LZ LZb fuel s2 EB ST F1) as (k0 & E0 & OK & K2 & V0 & V1). fold kps1 N in E0, OK, K2, V0, V1. set (rho := il_rho s) in *.
  pose proof (sweep_stages n m rho (firstn N kps1) (e_xx (kp_ce k0)) (e_x (kp_ce k0)) 0 0) as SG.
  pose proof (sweep_front n m rho (firstn N kps1) (e_xx (kp_ce k0)) (e_x (kp_ce k0)) 0 0 symF (symN k0 E0) OK (fun _ => 0)) as SF. pose proof (changes_neg n m rho (firstn N kps1) (e_xx (kp_ce k0)) (e_x (kp_ce k0)) 0 0 symF (symN k0 E0) R0 OK) as [C1 C2].
  pose proof (sweep_total n m rho (firstn N kps1) (e_xx (kp_ce k0)) (e_x (kp_ce k0)) 0 0 OK) as [T0 T1]. pose proof (LqProofs2.sweep_len n m rho (firstn N kps1) (e_xx (kp_ce k0)) (e_x (kp_ce k0)) 0 0) as SL.
  set (w := bp_sweep n m rho (firstn N kps1) (e_xx (kp_ce k0)) (e_x (kp_ce k0)) 0 0) in *.
  assert (CH : forall l : list K, fold_right (fun (k : K) a => kp_dv0 k + kp_dv1 k + a) 0 l = fold_right (fun (k : K) a => kp_dv0 k + a) 0 l + fold_right (fun (k : K) a => kp_dv1 k + a) 0 l) by (induction l as [|k l IH]; cbn [fold_right]; [lra|rewrite IH; lra]).
  assert (VV : il_dV0 s2 + il_dV1 s2 = fold_right (fun (k : K) a => kp_dv0 k + kp_dv1 k + a) 0 (sw_kps w)) by (rewrite CH, V0, V1; rs; lra). rewrite VV.
  exists (lin_along n m (map stage_of (sw_kps w)) (map (polK n) (sw_kps w)) (e_x (kp_ce k0)) (fun _ => 0)). split; [apply (line_derive (sw_kps w) k0 K2 E0 SG)|].
  split; [|split; [exact C1|intros Q; apply (proj2 (no_step_still (sw_kps w) k0 K2 SG)); apply C2; exact Q]].
  rewrite SG. eapply Rle_trans; [apply (lin_le_model n m (map stage_of (firstn N kps1)) (e_x (kp_ce k0)) (e_xx (kp_ce k0)))|].
  - apply Forall_forall. intros g Hg. apply in_map_iff in Hg. destruct Hg as (k & <- & Hk). apply In_nth_error in Hk. destruct Hk as [i Hi]. destruct (NlProofs3.in1 n m ops s Z Zb LZ LZb i k Hi) as [Hl Hk]. rewrite NlProofs3.s1_kps, NlProofs3.s1_N in CM. intros dx du. exact (CM i k Hl Hk dx du).
  - rewrite NlProofs3.s1_kps, NlProofs3.s1_N in CN. exact (CN k0 E0).
  - rewrite map_length. exact SL.
  - rewrite SF. unfold quadratic. rewrite inner_zero_r, form_zero_r. lra.
Qed.
End Line.
Lemma line_exists : exists fam, line n m s2 Z Zb fam.
Proof.
  destruct (shape n m ops Inv V s Z Zb SP LZ LZb fuel s2 EB ST) as (rho & kps & v0 & v1 & k0 & E0 & SG & OK & K2).
  exists (closed n m s Z Zb s2). intros a. rewrite LZ. apply (closed_sim n m ops Inv V s Z Zb SP LZ LZb fuel s2 EB _ k0 K2). rewrite sweep_stages. exact SG.
Qed.
(** stationarity *)
Lemma sym_stages (P : Stage -> Prop) (l l' : list K) : map stage_of l' = map stage_of l -> Forall (fun k => P (stage_of k)) l -> Forall (fun k => P (stage_of k)) l'.
Proof. apply Forall_stages. Qed.
Theorem stationary : no_step m s2 <-> forall du fam, (forall a, varied n m s Z du a (fam a)) -> is_derive (fun a => total_cost V s (fam a)) 0 0.
Proof.
  destruct (shape n m ops Inv V s Z Zb SP LZ LZb fuel s2 EB ST) as (rho & kps & v0 & v1 & k0 & E0 & SG & OK & K2). fold kps1 N in E0, SG. set (w := bp_sweep n m rho kps (e_xx (kp_ce k0)) (e_x (kp_ce k0)) v0 v1) in *.
  assert (SG2 : map stage_of (sw_kps w) = map stage_of (firstn N kps1)) by (unfold w; rewrite sweep_stages; exact SG).
  assert (SY : Forall (fun k => sym_stage n m (stage_of k)) kps) by (apply (Forall_stages n (sym_stage n m) _ _ SG symF)).
  assert (LK : length kps = N). { apply (f_equal (@length _)) in SG. rewrite !map_length in SG. rewrite SG. apply firstn_length_le. unfold kps1. rewrite (NlProofs3.len1 n m ops Inv V s Z SP LZ). fold N. lia. }
  rewrite (no_step_still (sw_kps w) k0 K2 SG2). split.
  - intros FD du fam GV. eapply d_eq; [apply (var_derive n m ops Inv V HC s Z Zb SP LZ FZ LZb fuel s2 EB (sw_kps w) k0 K2 E0 SG2 fam du GV)|].
    rewrite SG2, <- SG. unfold vps. rewrite (sweep_still n m rho kps (e_xx (kp_ce k0)) (e_x (kp_ce k0)) v0 v1 SY (symN k0 E0) OK FD); [apply inner_zero_r|]. rewrite map_length, seq_length. symmetry. exact LK.
  - intros H. apply (sweep_stationary n m rho kps (e_xx (kp_ce k0)) (e_x (kp_ce k0)) v0 v1 SY (symN k0 E0) OK). intros us LU. set (du := fun i => nth i us (fun _ => 0)).
    assert (EU : map du (seq 0 N) = us).
    { apply list_eq_nth; [rewrite map_length, seq_length, LU; symmetry; exact LK|]. intros i x y Hx Hy. rewrite nth_error_map in Hx. destruct (nth_error (seq 0 N) i) as [j|] eqn:Ej; [|discriminate]. cbn in Hx. inversion Hx; subst x.
      assert (Hi : (i < N)%nat) by (rewrite <- LK, <- LU; apply nth_error_Some; congruence). rewrite (nth_error_nth' _ 0%nat), seq_nth in Ej by (rewrite ?seq_length; exact Hi). inversion Ej; subst j. unfold du. cbn. apply nth_error_nth. exact Hy. }
    pose proof (opened_var n m Inv V s Z Zb SP LZ LZb GZb du) as GV. specialize (H du _ GV). pose proof (var_derive n m ops Inv V HC s Z Zb SP LZ FZ LZb fuel s2 EB (sw_kps w) k0 K2 E0 SG2 _ du GV) as D. rewrite SG2, <- SG in D. unfold vps in D. fold N in D. rewrite EU in D.
    rewrite <- (is_derive_unique _ _ _ D). apply is_derive_unique. exact H.
Qed.
(** small steps are accepted *)
Theorem accept : fuel = 1%nat -> il_rho s = 0 -> ~ no_step m s2 -> o_ls_lb (il_opts s) < 1 < o_ls_ub (il_opts s) -> inside_limits n m (il_opts s) Z ->
  exists a0, 0 < a0 /\ (forall a, 0 < a < a0 -> ~ turned_down n m V s2 (times Zb) Z (total_cost V s Z) a) /\
  forall j, (j < Z.to_nat (o_ls_iters (il_opts s)))%nat -> 0 < step_size (F:=RS) (o_ls_factor (il_opts s)) j < a0 -> exists Z', il_Z (il_forward_pass ops n m Z s2) = Some Z' /\ total_cost V s Z' < total_cost V s Z.
Proof.
  intros F1 R0 NST HLB IL. destruct (once n m ops Inv V s Z Zb SP LZ LZb fuel s2 EB ST F1) as (k0 & E0 & OK & K2 & V0 & V1). fold kps1 N in E0, OK, K2.
  pose proof (sweep_stages n m (il_rho s) (firstn N kps1) (e_xx (kp_ce k0)) (e_x (kp_ce k0)) 0 0) as SG.
  assert (LF : line n m s2 Z Zb (closed n m s Z Zb s2)). { intros a. rewrite LZ. exact (closed_sim n m ops Inv V s Z Zb SP LZ LZb fuel s2 EB _ k0 K2 SG a). }
  destruct (slope _ LF F1 R0) as (D & D1 & D2). assert (NEG : il_dV0 s2 < 0) by (destruct D1 as [D1|D1]; [exact D1|exfalso; apply NST, D2, D1]).
  destruct (small_steps n m ops Inv V HC s Z Zb SP LZ FZ LZb GZb fuel s2 EB _ k0 K2 SG IL HLB NEG D) as (a0 & A0 & A1). exists a0. split; [exact A0|]. split; [exact A1|].
  intros j Hj Ha. pose proof (opts2 n m ops Inv V s Z SP LZ fuel s2 EB) as O2. pose proof (NlProofs3.N2 n m ops Inv V s Z SP LZ fuel s2 EB) as EN.
  assert (IV : inv_kps Inv (il_kps s2)).
  { unfold inv_kps. apply Forall_forall. intros k Hk. apply In_nth_error in Hk. destruct Hk as [i Hi]. pose proof (NlProofs3.same2 n m ops Inv V s Z SP LZ fuel s2 EB) as SM.
    destruct (nth_error_ex kps1 i) as [k1 E1]. { apply (f_equal (@length _)) in SM. rewrite !map_length in SM. unfold kps1. rewrite <- SM. apply nth_error_Some. congruence. }
    pose proof (nth_map_eq _ _ _ i k k1 SM Hi E1) as E. apply (f_equal fst) in E. cbn [fst] in E. rewrite E. destruct (NlProofs3.nth1 n m ops Inv V HC s Z SP LZ i k1 E1) as (ka & z & _ & _ & X). apply X. }
  assert (J0 : lsum (il_costs s2) = total_cost V s Z).
  { rewrite (costs2 n m ops Inv V s Z SP LZ fuel s2 EB). exact (expand_all_val ops n m Inv V (sc_faithful _ _ _ _ _ HC) (il_kps s) Z (sp_inv _ _ _ _ _ SP)). }
  pose proof (forward_search ops n m Inv V (sc_faithful _ _ _ _ _ HC) Z s2 Zb) as FS. cbv zeta in FS. rewrite EN, (Z2 n m ops Inv V s Z SP LZ fuel s2 EB), (Zb2 n m ops Inv V s Z SP LZ fuel s2 EB), O2, J0 in FS.
  specialize (FS (ns_Z _ _ _ _ _ _ _ _ NS) (ns_Zb _ _ _ _ _ _ _ _ NS)). rewrite (len_s2 n m ops Inv V s Z Zb SP LZ LZb s2 _ k0 K2 SG) in FS. specialize (FS eq_refl LZ LZb IV).
  destruct FS as [(_ & _ & TD)|(k & Z' & z & Hk & TD & EZ & SI & LZ' & AC & _)]; [exfalso; exact (A1 _ Ha (TD j Hj))|].
  exists Z'. split; [exact EZ|]. destruct AC as (_ & _ & _ & _ & AC). apply Rltb_true in AC. rewrite (total2 n m ops Inv V HC s Z SP LZ fuel s2 EB) in AC. exact AC.
Qed.
End S.
(** the steps 1, 1/g, 1/g^2, ... become arbitrarily small *)
Lemma step_pow g j : 1 < g -> step_size (F:=RS) g j = (/ g) ^ j.
Proof. intros G. induction j as [|j IH]; [reflexivity|]. cbn [step_size pow]. rs. rewrite IH. field. lra. Qed.
Lemma steps_small g a0 : 1 < g -> 0 < a0 -> exists j, 0 < step_size (F:=RS) g j < a0.
Proof.
  intros G A. assert (G0 : 0 < / g) by (apply Rinv_0_lt_compat; lra). assert (G1 : / g < 1) by (rewrite <- Rinv_1; apply Rinv_lt_contravar; lra).
  destruct (pow_lt_1_zero (/ g) ltac:(rewrite Rabs_pos_eq; lra) a0 A) as [j H]. exists j. specialize (H j (le_n j)). rewrite (step_pow g j G). pose proof (pow_lt (/ g) j G0). rewrite Rabs_pos_eq in H by lra. lra.
Qed.
