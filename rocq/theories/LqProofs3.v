(** The whole backward pass: descent and convexity. *)
From Coq Require Import Reals Lra Lia List Bool ZArith Psatz Arith.
From Verif Require Import Base Lin LogModel StatsModel TrajModel IlqrModel IlqrSpec IlqrProofs5 RLin LqSpec LltProofs DynProofs LqProofs LqProofs2.
Import ListNotations.
Local Open Scope R_scope.

Section S.
Context {CS : Type} (n m : nat).
Notation K := (KPF RS CS).
Notation stage_of := (@stage_of CS n).
Notation ILQR := (ILQR RS CS).
Lemma sweep_stages rho (kps : list K) SN sN v0 v1 : map stage_of (sw_kps (bp_sweep n m rho kps SN sN v0 v1)) = map stage_of kps.
Proof.
  induction kps as [|k r IH]; [reflexivity|]. cbn [bp_sweep]. destruct (sw_ok _); [|cbn [sw_kps map]; rewrite IH; reflexivity].
  destruct (kpf_gains n m _) as [k2|] eqn:G; cbn [sw_kps map]; rewrite IH; [|reflexivity]. f_equal.
  destruct (gains_fields n m _ _ G) as (_ & _ & A & B & _). unfold LqProofs.stage_of. change (kp_jac (kpf_ctg n m k2)) with (kp_jac k2). change (kp_ce (kpf_ctg n m k2)) with (kp_ce k2). rewrite A, B. reflexivity.
Qed.
Lemma Forall_stages (P : Stage -> Prop) (l l' : list K) : map stage_of l' = map stage_of l -> Forall (fun k => P (stage_of k)) l -> Forall (fun k => P (stage_of k)) l'.
Proof. intros E H. apply Forall_map. rewrite E. apply Forall_map. exact H. Qed.

(** every segment has symmetric Hessian blocks, and so has the terminal cost *)
Definition sym_data (s : ILQR) : Prop := Forall (fun k => sym_stage n m (stage_of k)) (firstn (il_N s) (il_kps s)) /\
  forall kN, nth_error (il_kps s) (il_N s) = Some kN -> sym n (e_xx (kp_ce kN)).

Lemma loop_descent fuel kN : forall cnt (s s' : ILQR), bp_loop n m fuel kN cnt s = Ok s' -> length (il_kps s) = S (il_N s) ->
  Forall (fun k => sym_stage n m (stage_of k)) (firstn (il_N s) (il_kps s)) -> sym n (kp_S kN) -> reg_ok (il_opts s) -> 0 <= o_reg_min (il_opts s) -> 0 <= il_rho s ->
  forall a, 0 < a <= 1 -> - a * (il_dV0 s + a * il_dV1 s) <= - a * (il_dV0 s' + a * il_dV1 s') /\
   (il_status s' <> kBackwardPassRegularizationFailed -> - a * (il_dV0 s + a * il_dV1 s) = - a * (il_dV0 s' + a * il_dV1 s') ->
     Forall (fun k => forall i, (i < m)%nat -> kp_d k i = 0) (firstn (il_N s') (il_kps s'))).
Proof.
  induction fuel as [|f IH]; intros cnt s s' E L F HS RO RM R0 a Ha; [discriminate|]. cbn [bp_loop] in E.
  pose proof (sweep_descent n m (il_rho s) (firstn (il_N s) (il_kps s)) (kp_S kN) (kp_s kN) (il_dV0 s) (il_dV1 s) F HS R0 a Ha) as [D1 D2].
  pose proof (sweep_stages (il_rho s) (firstn (il_N s) (il_kps s)) (kp_S kN) (kp_s kN) (il_dV0 s) (il_dV1 s)) as ST.
  pose proof (LqProofs2.sweep_len n m (il_rho s) (firstn (il_N s) (il_kps s)) (kp_S kN) (kp_s kN) (il_dV0 s) (il_dV1 s)) as SL. rewrite firstn_length_le in SL by lia.
  cbv zeta in D1, D2. set (w := bp_sweep n m (il_rho s) _ _ _ _ _) in *.
  assert (FN : firstn (il_N s) (sw_kps w ++ [kN]) = sw_kps w) by (rewrite firstn_app, SL, Nat.sub_diag, firstn_all2 by lia; apply app_nil_r).
  assert (F' : Forall (fun k => sym_stage n m (stage_of k)) (sw_kps w)) by (eapply Forall_stages; [exact ST|exact F]).
  set (s1 := il_set_dV (il_set_kps s (sw_kps w ++ [kN])) (sw_v0 w) (sw_v1 w)) in *.
  destruct (sw_ok w) eqn:OK.
  - assert (N1 : il_N s1 = il_N s) by reflexivity. destruct (il_N s) as [|N'] eqn:EN.
    + specialize (IH cnt s1 s' E). assert (X : forall a, 0 < a <= 1 -> - a * (il_dV0 s1 + a * il_dV1 s1) <= - a * (il_dV0 s' + a * il_dV1 s') /\ (il_status s' <> kBackwardPassRegularizationFailed -> - a * (il_dV0 s1 + a * il_dV1 s1) = - a * (il_dV0 s' + a * il_dV1 s') -> Forall (fun k => forall i, (i < m)%nat -> kp_d k i = 0) (firstn (il_N s') (il_kps s')))).
      { apply IH; auto. - change (il_N s1) with (il_N s). change (il_kps s1) with (sw_kps w ++ [kN]). rewrite app_length, SL. cbn. lia. - change (il_N s1) with (il_N s). change (il_kps s1) with (sw_kps w ++ [kN]). rewrite EN. exact (Forall_nil _). }
      specialize (X a Ha). destruct X as [X1 X2]. cbn [s1 il_dV0 il_dV1 il_set_dV] in X1, X2. split; [lra|]. intros H Q. apply X2; [exact H|]. lra.
    + inversion E; subst s'; clear E. split; [exact D1|]. intros _ Q. rewrite N1. change (il_kps s1) with (sw_kps w ++ [kN]). rewrite FN. apply D2; auto.
  - destruct (o_reg_fail _ <=? _)%Z.
    + inversion E; subst s'; clear E. split; [exact D1|]. intros H. exfalso. apply H. reflexivity.
    + destruct (increase_range s1 RO) as (I1 & I2 & I3).
      specialize (IH _ (il_increase_reg s1) s' E). assert (X : forall a, 0 < a <= 1 -> - a * (il_dV0 (il_increase_reg s1) + a * il_dV1 (il_increase_reg s1)) <= - a * (il_dV0 s' + a * il_dV1 s') /\ (il_status s' <> kBackwardPassRegularizationFailed -> - a * (il_dV0 (il_increase_reg s1) + a * il_dV1 (il_increase_reg s1)) = - a * (il_dV0 s' + a * il_dV1 s') -> Forall (fun k => forall i, (i < m)%nat -> kp_d k i = 0) (firstn (il_N s') (il_kps s')))).
      { apply IH; auto.
        - change (il_kps (il_increase_reg s1)) with (sw_kps w ++ [kN]). change (il_N (il_increase_reg s1)) with (il_N s). rewrite app_length, SL. cbn. lia.
        - change (il_kps (il_increase_reg s1)) with (sw_kps w ++ [kN]). change (il_N (il_increase_reg s1)) with (il_N s). rewrite FN. exact F'.
        - change (il_opts s1) with (il_opts s) in I1. lra. }
      specialize (X a Ha). destruct X as [X1 X2]. change (il_dV0 (il_increase_reg s1)) with (sw_v0 w) in X1, X2. change (il_dV1 (il_increase_reg s1)) with (sw_v1 w) in X1, X2.
      split; [lra|]. intros H Q. apply X2; [exact H|]. lra.
Qed.
Theorem pass_descent fuel (s s' : ILQR) : il_backward_pass n m fuel s = Ok s' -> length (il_kps s) = S (il_N s) -> sym_data s ->
  reg_ok (il_opts s) -> 0 <= o_reg_min (il_opts s) -> 0 <= il_rho s -> forall a, 0 < a <= 1 ->
  0 <= - a * (il_dV0 s' + a * il_dV1 s') /\
  (il_status s' <> kBackwardPassRegularizationFailed -> - a * (il_dV0 s' + a * il_dV1 s') = 0 -> Forall (fun k => forall i, (i < m)%nat -> kp_d k i = 0) (firstn (il_N s') (il_kps s'))).
Proof.
  unfold il_backward_pass. intros E L [F HN] RO RM R0 a Ha. destruct (nth_error (il_kps s) (il_N s)) as [k0|] eqn:E0; [|discriminate]. specialize (HN k0 eq_refl).
  set (s1 := il_set_dV _ _ _) in E. destruct (bp_loop n m fuel (kpf_terminal k0) 0 s1) as [s2| | | | |] eqn:EL; cbn [bind] in E; try discriminate. inversion E; subst s'; clear E.
  assert (FL : length (firstn (il_N s) (il_kps s)) = il_N s) by (apply firstn_length_le; lia).
  destruct (loop_descent fuel (kpf_terminal k0) 0 s1 s2 EL) with (a := a) as [A B]; auto.
  - change (il_N s1) with (il_N s). change (il_kps s1) with (firstn (il_N s) (il_kps s) ++ [kpf_terminal k0]). rewrite app_length, FL. cbn. lia.
  - change (il_N s1) with (il_N s). change (il_kps s1) with (firstn (il_N s) (il_kps s) ++ [kpf_terminal k0]). rewrite firstn_app, FL, Nat.sub_diag, firstn_all2 by lia. rewrite app_nil_r. exact F.
  - change (il_dV0 s1) with 0 in A, B. change (il_dV1 s1) with 0 in A, B. cbn [il_decrease_reg il_set_reg il_set_stats il_dV0 il_dV1 il_kps il_N il_status]. rs. split; [lra|]. intros H Q. apply B; [exact H|]. lra.
Qed.
(** convex stages: the first attempt succeeds *)
Theorem pass_convex fuel (s : ILQR) : length (il_kps s) = S (il_N s) -> (1 <= il_N s)%nat -> sym_data s -> 0 <= il_rho s ->
  Forall (fun k => convex_stage n m (stage_of k)) (firstn (il_N s) (il_kps s)) -> (forall kN, nth_error (il_kps s) (il_N s) = Some kN -> possemi n (e_xx (kp_ce kN))) ->
  exists k0, nth_error (il_kps s) (il_N s) = Some k0 /\
  let w := bp_sweep n m (il_rho s) (firstn (il_N s) (il_kps s)) (e_xx (kp_ce k0)) (e_x (kp_ce k0)) zero zero in sw_ok w = true /\
  exists st, il_backward_pass n m (S fuel) s = Ok (il_decrease_reg (il_set_stats (il_set_dV (il_set_kps s (sw_kps w ++ [kpf_terminal k0])) (sw_v0 w) (sw_v1 w)) st)).
Proof.
  intros L N1 [F HN] R0 C PN. destruct (nth_error (il_kps s) (il_N s)) as [k0|] eqn:E0; [|apply nth_error_None in E0; lia]. exists k0. split; [reflexivity|]. cbv zeta.
  destruct (sweep_convex n m (il_rho s) (firstn (il_N s) (il_kps s)) (e_xx (kp_ce k0)) (e_x (kp_ce k0)) 0 0 F (HN k0 eq_refl) R0 C (PN k0 eq_refl)) as (OK & _ & _). split; [exact OK|].
  unfold il_backward_pass. rewrite E0. set (s1 := il_set_dV _ _ _).
  assert (FL : length (firstn (il_N s) (il_kps s)) = il_N s) by (apply firstn_length_le; lia).
  assert (FN : firstn (il_N s1) (il_kps s1) = firstn (il_N s) (il_kps s)).
  { change (il_N s1) with (il_N s). change (il_kps s1) with (firstn (il_N s) (il_kps s) ++ [kpf_terminal k0]). rewrite firstn_app, FL, Nat.sub_diag, firstn_all2 by lia. apply app_nil_r. }
  cbn [bp_loop]. rewrite FN. change (il_rho s1) with (il_rho s). change (il_dV0 s1) with (0 : RS). change (il_dV1 s1) with (0 : RS). change (kp_S (kpf_terminal k0)) with (e_xx (kp_ce k0)). change (kp_s (kpf_terminal k0)) with (e_x (kp_ce k0)).
  set (w := bp_sweep n m (il_rho s) _ _ _ _ _) in *. change (sw_ok w = true) in OK. rewrite OK. change (il_N s1) with (il_N s). destruct (il_N s) as [|N'] eqn:EN; [lia|]. cbn [bind]. eexists. reflexivity.
Qed.
(** a pass that did not give up ends with a successful sweep over the same stages *)
Lemma loop_sweep fuel kN : forall cnt (s s' : ILQR), bp_loop n m fuel kN cnt s = Ok s' -> length (il_kps s) = S (il_N s) -> il_status s' <> kBackwardPassRegularizationFailed ->
  exists rho kps v0 v1, let w := bp_sweep n m rho kps (kp_S kN) (kp_s kN) v0 v1 in map stage_of kps = map stage_of (firstn (il_N s) (il_kps s)) /\ sw_ok w = true /\ il_kps s' = sw_kps w ++ [kN] /\ il_N s' = il_N s.
Proof.
  induction fuel as [|f IH]; intros cnt s s' E L ST; [discriminate|]. cbn [bp_loop] in E.
  pose proof (sweep_stages (il_rho s) (firstn (il_N s) (il_kps s)) (kp_S kN) (kp_s kN) (il_dV0 s) (il_dV1 s)) as SG.
  pose proof (LqProofs2.sweep_len n m (il_rho s) (firstn (il_N s) (il_kps s)) (kp_S kN) (kp_s kN) (il_dV0 s) (il_dV1 s)) as SL. rewrite firstn_length_le in SL by lia.
  set (w := bp_sweep n m (il_rho s) _ _ _ _ _) in *.
  assert (FN : firstn (il_N s) (sw_kps w ++ [kN]) = sw_kps w) by (rewrite firstn_app, SL, Nat.sub_diag, firstn_all2 by lia; apply app_nil_r).
  set (s1 := il_set_dV (il_set_kps s (sw_kps w ++ [kN])) (sw_v0 w) (sw_v1 w)) in *.
  assert (REC : forall c x, il_kps x = il_kps s1 -> il_N x = il_N s -> bp_loop n m f kN c x = Ok s' -> exists rho kps v0 v1, let w := bp_sweep n m rho kps (kp_S kN) (kp_s kN) v0 v1 in map stage_of kps = map stage_of (firstn (il_N s) (il_kps s)) /\ sw_ok w = true /\ il_kps s' = sw_kps w ++ [kN] /\ il_N s' = il_N s).
  { intros c x Ek En Ex. destruct (IH c x s' Ex) as (rho & kps & v0 & v1 & A & B & C & D); [rewrite Ek, En; change (il_kps s1) with (sw_kps w ++ [kN]); rewrite app_length, SL; cbn; lia|exact ST|].
    exists rho, kps, v0, v1. cbv zeta. rewrite Ek, En in A. change (il_kps s1) with (sw_kps w ++ [kN]) in A. rewrite FN, SG in A. split; [exact A|]. split; [exact B|]. split; [exact C|]. congruence. }
  destruct (sw_ok w) eqn:OK.
  - destruct (il_N s) as [|N'] eqn:EN.
    + apply (REC cnt s1); auto.
    + inversion E; subst s'; clear E. exists (il_rho s), (firstn (S N') (il_kps s)), (il_dV0 s), (il_dV1 s). cbv zeta. split; [reflexivity|]. split; [exact OK|]. split; [reflexivity|exact EN].
  - destruct (o_reg_fail _ <=? _)%Z.
    + inversion E; subst s'. exfalso. apply ST. reflexivity.
    + eapply REC; [| |exact E]; reflexivity.
Qed.
Notation gains l := (map (fun k : K => (kp_K k, kp_d k)) l).
Notation changes l := (fold_right (fun (k : K) a => kp_dv0 k + kp_dv1 k + a) 0 l).
Theorem pass_stored fuel (s s' : ILQR) : il_backward_pass n m fuel s = Ok s' -> length (il_kps s) = S (il_N s) -> sym_data s -> il_status s' <> kBackwardPassRegularizationFailed ->
  exists kN kN', nth_error (il_kps s) (il_N s) = Some kN /\ nth_error (il_kps s') (il_N s) = Some kN' /\ kp_S kN' = e_xx (kp_ce kN) /\ kp_s kN' = e_x (kp_ce kN) /\
  forall i ki, (i < il_N s)%nat -> nth_error (il_kps s') i = Some ki -> forall dx,
  let gs := skipn i (map stage_of (firstn (il_N s) (il_kps s))) in let after := skipn i (firstn (il_N s) (il_kps s')) in
  model_cost n m gs (e_x (kp_ce kN)) (e_xx (kp_ce kN)) dx (policy n m 1 gs (gains after) dx) = quadratic n (kp_s ki) (kp_S ki) dx + changes after.
Proof.
  unfold il_backward_pass. intros E L [F HN] ST. destruct (nth_error (il_kps s) (il_N s)) as [k0|] eqn:E0; [|discriminate]. specialize (HN k0 eq_refl).
  set (s1 := il_set_dV _ _ _) in E. destruct (bp_loop n m fuel (kpf_terminal k0) 0 s1) as [s2| | | | |] eqn:EL; cbn [bind] in E; try discriminate. inversion E; subst s'; clear E.
  assert (FL : length (firstn (il_N s) (il_kps s)) = il_N s) by (apply firstn_length_le; lia).
  destruct (loop_sweep fuel (kpf_terminal k0) 0 s1 s2 EL) as (rho & kps & v0 & v1 & A & B & C & D).
  { change (il_N s1) with (il_N s). change (il_kps s1) with (firstn (il_N s) (il_kps s) ++ [kpf_terminal k0]). rewrite app_length, FL. cbn. lia. }
  { exact ST. }
  change (il_N s1) with (il_N s) in A, D. change (il_kps s1) with (firstn (il_N s) (il_kps s) ++ [kpf_terminal k0]) in A. rewrite firstn_app, FL, Nat.sub_diag, firstn_all2, app_nil_r in A by lia.
  set (w := bp_sweep n m rho kps (kp_S (kpf_terminal k0)) (kp_s (kpf_terminal k0)) v0 v1) in *.
  assert (LW : length (sw_kps w) = il_N s) by (unfold w; rewrite (LqProofs2.sweep_len n m), <- (map_length stage_of kps), A, map_length; exact FL).
  cbn [il_decrease_reg il_set_reg il_set_stats il_kps il_N]. rewrite C.
  exists k0, (kpf_terminal k0). split; [reflexivity|]. split; [rewrite nth_error_app2 by lia; rewrite LW, Nat.sub_diag; reflexivity|]. split; [reflexivity|]. split; [reflexivity|].
  intros i ki Hi Hk dx. cbv zeta.
  assert (FN : firstn (il_N s) (sw_kps w ++ [kpf_terminal k0]) = sw_kps w) by (rewrite firstn_app, LW, Nat.sub_diag, firstn_all2 by lia; apply app_nil_r).
  rewrite FN. rewrite nth_error_app1 in Hk by lia. rewrite <- A. rewrite <- skipn_map.
  apply (sweep_stored n m rho kps (e_xx (kp_ce k0)) (e_x (kp_ce k0)) v0 v1); auto. eapply Forall_stages; [exact A|exact F].
Qed.
(** symmetric cost-to-go at every knot point, also when the pass gives up *)
Notation symS := (fun k : K => sym n (kp_S k)).
Lemma sweep_sym_all rho (kps : list K) SN sN v0 v1 : Forall (fun k => sym_stage n m (stage_of k)) kps -> Forall symS kps -> sym n SN -> Forall symS (sw_kps (bp_sweep n m rho kps SN sN v0 v1)).
Proof.
  intros F G HS. induction F as [|k r Hk F IH]; [constructor|]. inversion G as [|? ? G1 G2]; subst. specialize (IH G2).
  pose proof (sweep_sym n m rho r SN sN v0 v1 F HS) as [SW _]. cbn [bp_sweep]. set (w := bp_sweep n m rho r SN sN v0 v1) in *.
  destruct (sw_ok w); [|cbn [sw_kps]; constructor; auto]. destruct (kpf_gains n m _) as [k2|] eqn:E; cbn [sw_kps]; constructor; auto.
  apply (st_S n m rho (sw_S w) (sw_s w) k k2 E Hk SW).
Qed.
Lemma loop_sym fuel kN : forall cnt (s s' : ILQR), bp_loop n m fuel kN cnt s = Ok s' -> length (il_kps s) = S (il_N s) ->
  Forall (fun k => sym_stage n m (stage_of k)) (firstn (il_N s) (il_kps s)) -> Forall symS (firstn (il_N s) (il_kps s)) -> sym n (kp_S kN) -> Forall symS (il_kps s').
Proof.
  induction fuel as [|f IH]; intros cnt s s' E L F G HS; [discriminate|]. cbn [bp_loop] in E.
  pose proof (sweep_stages (il_rho s) (firstn (il_N s) (il_kps s)) (kp_S kN) (kp_s kN) (il_dV0 s) (il_dV1 s)) as SG.
  pose proof (LqProofs2.sweep_len n m (il_rho s) (firstn (il_N s) (il_kps s)) (kp_S kN) (kp_s kN) (il_dV0 s) (il_dV1 s)) as SL. rewrite firstn_length_le in SL by lia.
  pose proof (sweep_sym_all (il_rho s) (firstn (il_N s) (il_kps s)) (kp_S kN) (kp_s kN) (il_dV0 s) (il_dV1 s) F G HS) as SS.
  set (w := bp_sweep n m (il_rho s) _ _ _ _ _) in *.
  assert (FN : firstn (il_N s) (sw_kps w ++ [kN]) = sw_kps w) by (rewrite firstn_app, SL, Nat.sub_diag, firstn_all2 by lia; apply app_nil_r).
  set (s1 := il_set_dV (il_set_kps s (sw_kps w ++ [kN])) (sw_v0 w) (sw_v1 w)) in *.
  assert (ALL : Forall symS (sw_kps w ++ [kN])) by (apply Forall_app; split; [exact SS|constructor; [exact HS|constructor]]).
  assert (F' : Forall (fun k => sym_stage n m (stage_of k)) (sw_kps w)) by (eapply Forall_stages; [exact SG|exact F]).
  assert (REC : forall c x, il_kps x = il_kps s1 -> il_N x = il_N s -> bp_loop n m f kN c x = Ok s' -> Forall symS (il_kps s')).
  { intros c x Ek En Ex. assert (Fk : firstn (il_N x) (il_kps x) = sw_kps w) by (rewrite Ek, En; exact FN). apply (IH c x s' Ex); rewrite ?Fk; auto. rewrite Ek, En. change (il_kps s1) with (sw_kps w ++ [kN]). rewrite app_length, SL. cbn. lia. }
  destruct (sw_ok w) eqn:OK.
  - destruct (il_N s) as [|N'] eqn:EN.
    + apply (REC cnt s1); auto.
    + inversion E; subst s'. exact ALL.
  - destruct (o_reg_fail _ <=? _)%Z.
    + inversion E; subst s'. exact ALL.
    + eapply REC; [| |exact E]; reflexivity.
Qed.
Theorem pass_sym fuel (s s' : ILQR) : il_backward_pass n m fuel s = Ok s' -> length (il_kps s) = S (il_N s) -> sym_data s -> Forall symS (il_kps s) -> Forall symS (il_kps s').
Proof.
  unfold il_backward_pass. intros E L [F HN] G. destruct (nth_error (il_kps s) (il_N s)) as [k0|] eqn:E0; [|discriminate]. specialize (HN k0 eq_refl).
  set (s1 := il_set_dV _ _ _) in E. destruct (bp_loop n m fuel (kpf_terminal k0) 0 s1) as [s2| | | | |] eqn:EL; cbn [bind] in E; try discriminate. inversion E; subst s'; clear E.
  assert (FL : length (firstn (il_N s) (il_kps s)) = il_N s) by (apply firstn_length_le; lia).
  assert (FN : firstn (il_N s1) (il_kps s1) = firstn (il_N s) (il_kps s)).
  { change (il_N s1) with (il_N s). change (il_kps s1) with (firstn (il_N s) (il_kps s) ++ [kpf_terminal k0]). rewrite firstn_app, FL, Nat.sub_diag, firstn_all2 by lia. apply app_nil_r. }
  apply (loop_sym fuel (kpf_terminal k0) 0 s1 s2 EL); rewrite ?FN; auto.
  - change (il_N s1) with (il_N s). change (il_kps s1) with (firstn (il_N s) (il_kps s) ++ [kpf_terminal k0]). rewrite app_length, FL. cbn. lia.
  - rewrite Forall_forall in *. intros k Hk. apply G. rewrite <- (firstn_skipn (il_N s)). apply in_or_app. left. exact Hk.
Qed.
Theorem pass_convex_psd (s : ILQR) : length (il_kps s) = S (il_N s) -> (1 <= il_N s)%nat -> sym_data s -> 0 <= il_rho s ->
  Forall (fun k => convex_stage n m (stage_of k)) (firstn (il_N s) (il_kps s)) -> (forall kN, nth_error (il_kps s) (il_N s) = Some kN -> possemi n (e_xx (kp_ce kN))) ->
  exists s', il_backward_pass n m 1 s = Ok s' /\ il_status s' = il_status s /\ Forall (fun k => possemi n (kp_S k)) (il_kps s').
Proof.
  intros L N1 D R0 C PN. destruct (pass_convex 0 s L N1 D R0 C PN) as (k0 & E0 & OK & st & E). eexists. split; [exact E|]. split; [reflexivity|].
  cbn [il_decrease_reg il_set_reg il_set_stats il_kps il_set_dV il_set_kps]. destruct D as [F HN].
  destruct (sweep_convex n m (il_rho s) (firstn (il_N s) (il_kps s)) (e_xx (kp_ce k0)) (e_x (kp_ce k0)) zero zero F (HN k0 E0) R0 C (PN k0 E0)) as (_ & _ & P).
  apply Forall_app. split; [exact P|]. constructor; [exact (PN k0 E0)|constructor].
Qed.
End S.
