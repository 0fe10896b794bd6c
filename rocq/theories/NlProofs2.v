(** Nonlinear problems: the cost along a curve of trajectories, and what the backward sweep says about it. *)
From Coq Require Import Reals Lra Lia List Bool ZArith Psatz Arith.
From Coquelicot Require Import Coquelicot.
Import List ListNotations.
From Verif Require Import Base Lin LogModel StatsModel TrajModel IlqrModel IlqrSpec RLin RDer LqSpec LltProofs LqProofs LqProofs2 LqProofs3 NlSpec NlProofs.
Local Open Scope R_scope.

Section S.
Context {CS : Type} (n m : nat) (V : CS -> vec RS -> vec RS -> R).
Notation K := (KPF RS CS).
Notation stage_of := (@stage_of CS n).
Notation curve := ((R -> nat -> R) * (R -> nat -> R))%type.
(** the stored expansions are the derivatives at [z] *)
Definition tight (k : K) (z : KP RS) : Prop :=
  slopes n m (V (kp_cost k)) (e_x (kp_ce k)) (e_u (kp_ce k)) (z_x z) (z_u z) /\
  forall b i, (i < n)%nat -> slopes n m (fun x u => dy_eval (kp_dyn k) x u (z_t z) (z_h z) b i) (sg_A (stage_of k) i) (sg_B (stage_of k) i) (z_x z) (z_u z).
(** derivative of the cost when the controls react to a first-order change of the state by [ps] *)
Fixpoint lin_along (gs : list Stage) (ps : list ((nat -> R) -> nat -> R)) (sN dx : nat -> R) : R :=
  match gs, ps with g :: gs', p :: ps' => lincost n m g dx (p dx) + lin_along gs' ps' sN (next n m g dx (p dx)) | _, _ => inner n sN dx end.
Fixpoint ccost (vs : list (vec RS -> vec RS -> R)) (C : list curve) (t : R) : R :=
  match vs, C with v :: vs', (X, U) :: C' => v (X t) (U t) + ccost vs' C' t | _, _ => 0 end.
Lemma along kN : forall (kps : list K) (Z : Traj RS) (C : list curve) ps z X U dx, nth_error Z 0 = Some z -> nth_error C 0 = Some (X, U) ->
  length Z = S (length kps) -> length C = S (length kps) -> length ps = length kps ->
  (forall i k z, nth_error kps i = Some k -> nth_error Z i = Some z -> tight k z) ->
  (forall z X U, nth_error Z (length kps) = Some z -> nth_error C (length kps) = Some (X, U) -> forall dx, passes X n (z_x z) dx -> is_derive (fun t => V (kp_cost kN) (X t) (U t)) 0 (inner n (e_x (kp_ce kN)) dx)) ->
  (forall i p z X U, nth_error ps i = Some p -> nth_error Z i = Some z -> nth_error C i = Some (X, U) -> forall dx, passes X n (z_x z) dx -> passes U m (z_u z) (p dx)) ->
  (forall i k z z' X U X' U', nth_error kps i = Some k -> nth_error Z i = Some z -> nth_error Z (S i) = Some z' -> nth_error C i = Some (X, U) -> nth_error C (S i) = Some (X', U') ->
     (forall j, (j < n)%nat -> z_x z' j = dy_eval (kp_dyn k) (z_x z) (z_u z) (z_t z) (z_h z) vzero j) /\
     forall t j, (j < n)%nat -> X' t j = dy_eval (kp_dyn k) (X t) (U t) (z_t z) (z_h z) vzero j) ->
  passes X n (z_x z) dx ->
  is_derive (ccost (map (fun k => V (kp_cost k)) (kps ++ [kN])) C) 0 (lin_along (map stage_of kps) ps (e_x (kp_ce kN)) dx).
Proof.
  induction kps as [|k kps IH]; intros Z C ps z X U dx Z0 C0 LZ LC LP HT HN HL HD PX; cbn [length] in *.
  - destruct C as [|[X1 U1] [|]]; try discriminate. inversion C0; subst. destruct ps; [|discriminate]. cbn [app map lin_along].
    apply (d_ext (fun t => V (kp_cost kN) (X t) (U t))); [intros t; cbn; lra|]. exact (HN z X U Z0 eq_refl dx PX).
  - destruct C as [|[X1 U1] [|[X' U'] C]]; try discriminate. inversion C0; subst X1 U1. destruct ps as [|p ps]; [discriminate|]. destruct Z as [|z1 [|z' Z]]; try discriminate. inversion Z0; subst z1.
    pose proof (HL 0%nat p z X U eq_refl eq_refl eq_refl dx PX) as PU. destruct (HT 0%nat k z eq_refl eq_refl) as [TV TD]. destruct (HD 0%nat k z z' X U X' U' eq_refl eq_refl eq_refl eq_refl eq_refl) as [HZ' HX'].
    assert (PX' : passes X' n (z_x z') (next n m (stage_of k) dx (p dx))).
    { split; intros j Hj.
      - rewrite HX', HZ' by exact Hj. apply (slopes_same n m _ _ _ _ _ (TD vzero j Hj)); [apply PX|apply PU].
      - apply (d_ext (fun t => dy_eval (kp_dyn k) (X t) (U t) (z_t z) (z_h z) vzero j)); [intros t; symmetry; apply HX'; exact Hj|].
        exact (slopes_chain n m _ _ _ _ _ (TD vzero j Hj) X U dx (p dx) (proj1 PX) (proj1 PU) (proj2 PX) (proj2 PU)). }
    cbn [map app lin_along].
    apply (d_ext (fun t => V (kp_cost k) (X t) (U t) + ccost (map (fun k => V (kp_cost k)) (kps ++ [kN])) ((X', U') :: C) t)); [reflexivity|].
    apply d_plus.
    + exact (slopes_chain n m _ _ _ _ _ TV X U dx (p dx) (proj1 PX) (proj1 PU) (proj2 PX) (proj2 PU)).
    + apply (IH (z' :: Z) ((X', U') :: C) ps z' X' U'); auto; try (cbn in *; lia).
      * exact (fun i => HT (S i)).
      * exact (fun i => HL (S i)).
      * exact (fun i => HD (S i)).
Qed.
(** the states and controls on the way *)
Lemma along_pts (kps : list K) (Z : Traj RS) (C : list curve) ps z0 X0 U0 dx0 : nth_error Z 0 = Some z0 -> nth_error C 0 = Some (X0, U0) ->
  length Z = S (length kps) -> length C = S (length kps) -> length ps = length kps ->
  (forall i k z, nth_error kps i = Some k -> nth_error Z i = Some z -> tight k z) ->
  (forall i p z X U, nth_error ps i = Some p -> nth_error Z i = Some z -> nth_error C i = Some (X, U) -> forall dx, passes X n (z_x z) dx -> passes U m (z_u z) (p dx)) ->
  (forall i k z z' X U X' U', nth_error kps i = Some k -> nth_error Z i = Some z -> nth_error Z (S i) = Some z' -> nth_error C i = Some (X, U) -> nth_error C (S i) = Some (X', U') ->
     (forall j, (j < n)%nat -> z_x z' j = dy_eval (kp_dyn k) (z_x z) (z_u z) (z_t z) (z_h z) vzero j) /\
     forall t j, (j < n)%nat -> X' t j = dy_eval (kp_dyn k) (X t) (U t) (z_t z) (z_h z) vzero j) ->
  passes X0 n (z_x z0) dx0 ->
  forall i z X U, nth_error Z i = Some z -> nth_error C i = Some (X, U) -> (exists dx, passes X n (z_x z) dx) /\ ((i < length kps)%nat -> exists du, passes U m (z_u z) du).
Proof.
  intros Z0 C0 LZ LC LP HT HL HD PX.
  assert (UU : forall i z X U dx, nth_error Z i = Some z -> nth_error C i = Some (X, U) -> passes X n (z_x z) dx -> (i < length kps)%nat -> exists p, nth_error ps i = Some p /\ passes U m (z_u z) (p dx)).
  { intros i z X U dx Hz HC P Hi. destruct (nth_error ps i) as [p|] eqn:Ep; [|apply nth_error_None in Ep; lia]. exists p. split; [reflexivity|]. exact (HL i p z X U Ep Hz HC dx P). }
  induction i as [|i IH]; intros z X U Hz HC.
  - rewrite Z0 in Hz. rewrite C0 in HC. inversion Hz; inversion HC; subst. split; [exists dx0; exact PX|]. intros Hi. destruct (UU 0%nat z X U dx0 Z0 C0 PX Hi) as (p & _ & Q). eauto.
  - assert (Hi : (S i < S (length kps))%nat) by (rewrite <- LZ; apply nth_error_Some; congruence).
    destruct (nth_error Z i) as [z1|] eqn:Ez; [|apply nth_error_None in Ez; lia]. destruct (nth_error C i) as [[X1 U1]|] eqn:EC; [|apply nth_error_None in EC; lia].
    destruct (nth_error kps i) as [k|] eqn:Ek; [|apply nth_error_None in Ek; lia]. destruct (IH z1 X1 U1 eq_refl eq_refl) as [[dx P] _].
    destruct (UU i z1 X1 U1 dx Ez EC P ltac:(lia)) as (p & _ & Q). destruct (HD i k z1 z X1 U1 X U Ek Ez Hz EC HC) as [HZ' HX']. destruct (HT i k z1 Ek Ez) as [_ TD].
    assert (PX' : passes X n (z_x z) (next n m (stage_of k) dx (p dx))).
    { split; intros j Hj.
      - rewrite HX', HZ' by exact Hj. apply (slopes_same n m _ _ _ _ _ (TD vzero j Hj)); [apply P|apply Q].
      - apply (d_ext (fun t => dy_eval (kp_dyn k) (X1 t) (U1 t) (z_t z1) (z_h z1) vzero j)); [intros t; symmetry; apply HX'; exact Hj|].
        exact (slopes_chain n m _ _ _ _ _ (TD vzero j Hj) X1 U1 dx (p dx) (proj1 P) (proj1 Q) (proj2 P) (proj2 Q)). }
    split; [eauto|]. intros Hi'. destruct (UU (S i) z X U _ Hz HC PX' Hi') as (q & _ & Q'). eauto.
Qed.
(** a family of trajectories as a list of curves *)
Definition z00 : KP RS := mkKP (F:=RS) vzero vzero 0 0.
Definition curve_of (fam : R -> Traj RS) (k : nat) : curve := (fun t => z_x (nth k (fam t) z00), fun t => z_u (nth k (fam t) z00)).
Definition curves (fam : R -> Traj RS) (N : nat) : list curve := map (curve_of fam) (seq 0 (S N)).
Lemma curves_nth fam N i : (i <= N)%nat -> nth_error (curves fam N) i = Some (curve_of fam i).
Proof. intros H. unfold curves. rewrite nth_error_map, (nth_error_nth' _ 0%nat) by (rewrite seq_length; lia). rewrite seq_nth by lia. reflexivity. Qed.
Lemma curves_len fam N : length (curves fam N) = S N. Proof. unfold curves. rewrite map_length, seq_length. reflexivity. Qed.
Lemma ccost_traj fam t : forall vs Y off, length Y = length vs -> (forall k, nth k Y z00 = nth (off + k) (fam t) z00) -> traj_cost (F:=RS) vs Y = ccost vs (map (curve_of fam) (seq off (length vs))) t.
Proof.
  induction vs as [|v vs IH]; intros [|y Y] off L H; try discriminate; [reflexivity|]. cbn [length seq map traj_cost ccost curve_of fst snd]. pose proof (H 0%nat) as H0. cbn [nth] in H0. rewrite Nat.add_0_r in H0.
  rewrite <- H0. rs. f_equal. apply IH; [cbn in L; lia|]. intros k. specialize (H (S k)). cbn [nth] in H. rewrite H. f_equal. lia.
Qed.

(** * the sweep *)
Definition polK (k : K) (dx : nat -> R) (i : nat) : R := app n (kp_K k) dx i + kp_d k i.
(** without regularisation the running deltaV[0] is the slope along the policy *)
Lemma sweep_slope (kps : list K) SN sN v0 v1 : Forall (fun k => sym_stage n m (stage_of k)) kps -> sym n SN ->
  let w := bp_sweep n m (0 : RS) kps SN sN v0 v1 in sw_ok w = true ->
  forall dx, lin_along (map stage_of kps) (map polK (sw_kps w)) sN dx = inner n (sw_s w) dx + (sw_v0 w - v0).
Proof.
  cbv zeta. intros F HS. induction F as [|k r Hk F IH]; intros OK dx; [cbn; lra|].
  destruct (sweep_cons n m 0 k r SN sN v0 v1 OK) as (OKr & k2 & G & E). cbv zeta in *. change (bp_sweep n m (0 : RS) (k :: r) SN sN v0 v1) with (bp_sweep n m 0 (k :: r) SN sN v0 v1). rewrite E. set (w := bp_sweep n m 0 r SN sN v0 v1) in *.
  destruct (sweep_sym n m 0 r SN sN v0 v1 F HS) as [SW _]. fold w in SW. specialize (IH OKr). change (bp_sweep n m (0 : RS) r SN sN v0 v1) with w in IH. set (k3 := kpf_ctg n m k2) in *. cbn [map sw_kps sw_s sw_v0 lin_along]. rewrite IH. clear IH.
  rewrite <- Rplus_assoc, <- (av_lin n m k (sw_S w) (sw_s w)).
  destruct (st_gain n m 0 (sw_S w) (sw_s w) k k2 G Hk SW) as (A & B & _). destruct (st_qsym n m (sw_S w) (sw_s w) k Hk SW) as [_ SU]. pose proof (st_q n m 0 (sw_S w) (sw_s w) k k2 G) as Q.
  cbn [q_stage sg_uu] in SU. rewrite <- Q in SU |- *. unfold k3. rewrite (ctg_lin n m k2 dx). destruct (ctg_dv n m k2) as [-> _].
  unfold lincost, polK. cbn [q_stage sg_x sg_u]. change (kp_K (kpf_ctg n m k2)) with (kp_K k2). change (kp_d (kpf_ctg n m k2)) with (kp_d k2). rewrite inner_add_r.
  specialize (A (kp_d k2) dx). rewrite (form_sym m (e_uu (kp_q k2)) (kp_d k2) _ SU) in A. change (fun i => app n (kp_K k2) dx i) with (app n (kp_K k2) dx). lra.
Qed.
(** convex model, any regularisation *)
Lemma lin_le_model (gs : list Stage) sN SN : Forall (fun g => forall dx du, 0 <= quadcost n m g dx du) gs -> possemi n SN -> forall (l : list K) dx, length l = length gs ->
  lin_along gs (map polK l) sN dx <= model_cost n m gs sN SN dx (policy n m 1 gs (map (fun k => (kp_K k, kp_d k)) l) dx).
Proof.
  intros F PS. induction F as [|g gs Hg F IH]; intros [|k l] dx L; try discriminate; [cbn; unfold quadratic; pose proof (PS dx); lra|].
  cbn [map lin_along policy]. rewrite model_cost_cons. set (du := fun i => app n (kp_K k) dx i + 1 * kp_d k i).
  assert (ED : forall i, (i < m)%nat -> polK k dx i = du i) by (intros; unfold polK, du; lra).
  specialize (IH l (next n m g dx du) ltac:(cbn in L; lia)). specialize (Hg dx du). unfold stage_cost.
  assert (EL : lincost n m g dx (polK k dx) = lincost n m g dx du) by (unfold lincost; f_equal; apply inner_ext; auto).
  assert (EN : forall ps x x', (forall i, (i < n)%nat -> x i = x' i) -> lin_along gs ps sN x = lin_along gs ps sN x' \/ True) by auto. clear EN.
  assert (EQ : polK k dx = du \/ True) by auto. clear EQ. rewrite EL.
  assert (X : lin_along gs (map polK l) sN (next n m g dx (polK k dx)) = lin_along gs (map polK l) sN (next n m g dx du)).
  { assert (EX : forall i, (i < n)%nat -> next n m g dx (polK k dx) i = next n m g dx du i) by (intros; apply next_ext; exact ED). clear - EX. revert EX. generalize (next n m g dx (polK k dx)) as x, (next n m g dx du) as x'. revert l.
    induction gs as [|g' gs IHg]; intros l x x' EX; [cbn; apply inner_ext; auto|]. destruct l as [|k' l]; [cbn; apply inner_ext; auto|]. cbn [map lin_along].
    assert (EP : forall i, (i < m)%nat -> polK k' x i = polK k' x' i) by (intros; unfold polK; f_equal; apply app_ext; auto).
    f_equal; [unfold lincost; f_equal; apply inner_ext; auto|]. apply IHg. intros i Hi. unfold next. f_equal; apply app_ext; auto. }
  rewrite X. lra.
Qed.
Lemma changes_neg rho (kps : list K) SN sN v0 v1 : Forall (fun k => sym_stage n m (stage_of k)) kps -> sym n SN -> 0 <= rho ->
  let w := bp_sweep n m rho kps SN sN v0 v1 in sw_ok w = true ->
  fold_right (fun (k : K) a => kp_dv0 k + kp_dv1 k + a) 0 (sw_kps w) <= 0 /\
  (fold_right (fun (k : K) a => kp_dv0 k + kp_dv1 k + a) 0 (sw_kps w) = 0 -> Forall (fun k : K => forall i, (i < m)%nat -> kp_d k i = 0) (sw_kps w)).
Proof.
  cbv zeta. intros F HS HR. induction F as [|k r Hk F IH]; intros OK; [cbn; split; [lra|constructor]|].
  destruct (sweep_cons n m rho k r SN sN v0 v1 OK) as (OKr & k2 & G & E). cbv zeta in *. rewrite E. set (w := bp_sweep n m rho r SN sN v0 v1) in *.
  destruct (sweep_sym n m rho r SN sN v0 v1 F HS) as [SW _]. fold w in SW. destruct (IH OKr) as [I1 I2]. destruct (st_descent n m rho (sw_S w) (sw_s w) k k2 G Hk SW) as (D0 & D1 & P).
  set (k3 := kpf_ctg n m k2) in *. cbn [sw_kps fold_right]. pose proof (posdef_nonneg m _ (kp_d k3) P) as PN. pose proof (inner_self m (kp_d k3)) as IS. pose proof (Rmult_le_pos _ _ HR IS).
  split; [lra|]. intros Q. assert (Z0 : form m m (e_uu (kp_qr k3)) (kp_d k3) (kp_d k3) <= 0) by lra. constructor; [apply (posdef_zero m _ _ P Z0)|apply I2; lra].
Qed.
(** stationarity, any regularisation *)
Lemma lin_ext (gs : list Stage) : forall (us : list (nat -> R)) sN x x', (forall i, (i < n)%nat -> x i = x' i) -> lin_along gs (map (fun u _ => u) us) sN x = lin_along gs (map (fun u _ => u) us) sN x'.
Proof.
  induction gs as [|g gs IH]; intros [|u us] sN x x' EX; try (cbn; apply inner_ext; auto). cbn [map lin_along]. f_equal; [unfold lincost; f_equal; apply inner_ext; auto|].
  apply IH. intros i Hi. unfold next. f_equal; apply app_ext; auto.
Qed.
Lemma zero_qu rho S s (k k2 : K) : kpf_gains n m (kpf_regularize m rho (kpf_action_value n m S s k)) = Some k2 -> sym_stage n m (stage_of k) -> sym n S ->
  ((forall i, (i < m)%nat -> kp_d k2 i = 0) <-> (forall w, inner m (e_u (kp_q k2)) w = 0)).
Proof.
  intros G SY SS. destruct (st_gain n m rho S s k k2 G SY SS) as (_ & B & P & E). split.
  - intros Z w. specialize (B w). rewrite (form_ext m m _ w (kp_d k2) (e_uu (kp_q k2)) w (fun _ => 0)), form_zero_r, (inner_ext m w (kp_d k2) w (fun _ => 0)), inner_zero_r in B by auto. lra.
  - intros Z. apply (posdef_zero m _ _ P). rewrite E, (B (kp_d k2)), Z. lra.
Qed.
Lemma sweep_still rho (kps : list K) SN sN v0 v1 : Forall (fun k => sym_stage n m (stage_of k)) kps -> sym n SN ->
  let w := bp_sweep n m rho kps SN sN v0 v1 in sw_ok w = true ->
  Forall (fun k : K => forall i, (i < m)%nat -> kp_d k i = 0) (sw_kps w) ->
  forall us dx, length us = length kps -> lin_along (map stage_of kps) (map (fun u _ => u) us) sN dx = inner n (sw_s w) dx.
Proof.
  cbv zeta. intros F HS. induction F as [|k r Hk F IH]; intros OK FD us dx L; [cbn; reflexivity|].
  destruct (sweep_cons n m rho k r SN sN v0 v1 OK) as (OKr & k2 & G & E). cbv zeta in *. rewrite E in *. set (w := bp_sweep n m rho r SN sN v0 v1) in *.
  destruct (sweep_sym n m rho r SN sN v0 v1 F HS) as [SW _]. fold w in SW. set (k3 := kpf_ctg n m k2) in *. cbn [sw_kps sw_s] in *. inversion FD as [|? ? D0 FD' EQ]; subst. destruct us as [|u us]; [discriminate|].
  cbn [map lin_along]. rewrite (IH OKr FD') by (cbn in L; lia). rewrite <- (av_lin n m k (sw_S w) (sw_s w)).
  pose proof (st_q n m rho (sw_S w) (sw_s w) k k2 G) as Q. rewrite <- Q. change (kp_d k3) with (kp_d k2) in D0.
  pose proof (proj1 (zero_qu rho (sw_S w) (sw_s w) k k2 G Hk SW) D0) as ZQ. unfold k3. rewrite (ctg_lin n m k2 dx). unfold lincost. cbn [q_stage sg_x sg_u]. rewrite !ZQ.
  rewrite (form_ext m m (e_uu (kp_q k2)) (app n (kp_K k2) dx) (kp_d k2) (e_uu (kp_q k2)) (app n (kp_K k2) dx) (fun _ => 0)), form_zero_r, (form_ext n m (e_xu (kp_q k2)) dx (kp_d k2) (e_xu (kp_q k2)) dx (fun _ => 0)), form_zero_r by auto. lra.
Qed.
Lemma lin_zero (gs : list Stage) sN : lin_along gs (map (fun u _ => u) (map (fun _ => fun _ : nat => 0) gs)) sN (fun _ => 0) = 0.
Proof.
  induction gs as [|g gs IH]; [cbn; apply inner_zero_r|]. cbn [map lin_along]. rewrite (lin_ext gs (map (fun _ => fun _ : nat => 0) gs) sN _ (fun _ => 0)); [rewrite IH; unfold lincost; rewrite !inner_zero_r; lra|].
  intros i Hi. unfold next. rewrite !app_zero. lra.
Qed.
Lemma sweep_stationary rho (kps : list K) SN sN v0 v1 : Forall (fun k => sym_stage n m (stage_of k)) kps -> sym n SN ->
  let w := bp_sweep n m rho kps SN sN v0 v1 in sw_ok w = true ->
  (forall us, length us = length kps -> lin_along (map stage_of kps) (map (fun u _ => u) us) sN (fun _ => 0) = 0) -> Forall (fun k : K => forall i, (i < m)%nat -> kp_d k i = 0) (sw_kps w).
Proof.
  cbv zeta. intros F HS. induction F as [|k r Hk F IH]; intros OK ST; [constructor|].
  destruct (sweep_cons n m rho k r SN sN v0 v1 OK) as (OKr & k2 & G & E). cbv zeta in *. rewrite E in *. set (w := bp_sweep n m rho r SN sN v0 v1) in *.
  destruct (sweep_sym n m rho r SN sN v0 v1 F HS) as [SW _]. fold w in SW. set (k3 := kpf_ctg n m k2) in *. cbn [sw_kps] in *.
  assert (FD : Forall (fun k : K => forall i, (i < m)%nat -> kp_d k i = 0) (sw_kps w)).
  { apply IH; [exact OKr|]. intros us L. specialize (ST ((fun _ => 0) :: us) ltac:(cbn; lia)). cbn [map lin_along] in ST.
    rewrite (lin_ext (map stage_of r) us sN _ (fun _ => 0)) in ST by (intros i Hi; unfold next; rewrite !app_zero; lra). unfold lincost in ST. rewrite !inner_zero_r in ST. lra. }
  constructor; [|exact FD]. change (kp_d k3) with (kp_d k2). apply (proj2 (zero_qu rho (sw_S w) (sw_s w) k k2 G Hk SW)). intros u.
  specialize (ST (u :: map (fun _ => fun _ => 0) r) ltac:(cbn; rewrite map_length; reflexivity)). cbn [map lin_along] in ST.
  pose proof (sweep_still rho r SN sN v0 v1 F HS OKr FD (map (fun _ => fun _ => 0) r) (next n m (stage_of k) (fun _ => 0) u) ltac:(rewrite map_length; reflexivity)) as SL. fold w in SL. rewrite SL in ST.
  rewrite <- (av_lin n m k (sw_S w) (sw_s w)) in ST. pose proof (st_q n m rho (sw_S w) (sw_s w) k k2 G) as Q. rewrite <- Q in ST. unfold lincost in ST. cbn [q_stage sg_x sg_u] in ST. rewrite inner_zero_r in ST. lra.
Qed.
End S.
