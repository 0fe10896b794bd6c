(** Convex problems: stationary trajectories minimise, KKT points are global solutions, the multipliers approach every optimal choice. *)
From Coq Require Import Reals Lra Lia List Bool ZArith Psatz Arith FunctionalExtensionality.
From Coquelicot Require Import Coquelicot.
Import List ListNotations.
From Verif Require Import Base Lin LogModel StatsModel TrajModel ConModel ConSpec IlqrModel IlqrSpec CostInst AlModel LsSpec RLin RDer ConProofs ConProofs2 ConProofs3 ConProofs4 ConProofs5 LqSpec LltProofs LqProofs LqProbSpec LqProofs2 LqProofs3 LqProofs4 LqProofs5 NlSpec NlAlSpec NlProofs NlProofs2 NlProofs3 NlProofs4 NlAlProofs NlAlProofs2 NlConvexSpec.
Local Open Scope R_scope.

(** ** one component *)
Lemma prox1 K lam rho c cs mu : 0 < rho -> kkt K cs mu -> let l := dproj K (lam - rho * c) in
  (l - mu) ^ 2 / rho + (l - lam) ^ 2 / rho - (lam - mu) ^ 2 / rho <= 2 * (- (l * c) + l * cs - mu * cs + mu * c).
Proof.
  intros Hr HK l. assert (E : (l - mu) ^ 2 / rho + (l - lam) ^ 2 / rho - (lam - mu) ^ 2 / rho = (2 * ((l - mu) * (l - lam))) / rho) by (field; lra). rewrite E. clear E.
  apply (Rmult_le_reg_r rho); [exact Hr|]. unfold Rdiv. rewrite Rmult_assoc, Rinv_l, Rmult_1_r by lra. unfold l, dproj. clear l.
  destruct K; cbn in HK.
  - subst cs. nra.
  - subst mu. nra.
  - destruct HK as (H1 & H2 & H3). unfold Rmin. destruct (Rle_dec 0 (lam - rho * c)) as [H|H].
    + assert (P : mu * (lam - rho * c) <= 0) by nra. nra.
    + assert (P : 0 <= (lam - rho * c) * cs) by nra. assert (Q : 0 <= rho * ((lam - rho * c) * cs)) by nra. replace (mu * cs) with 0 by lra. nra.
Qed.
Lemma dual_sign K s : match K with ZeroCone => True | NegativeOrthant => dproj K s <= 0 | IdentityCone => dproj K s = 0 end.
Proof. destruct K; cbn; [exact I|reflexivity|apply Rmin_l]. Qed.

(** ** one constraint, one knot point *)
Lemma prox_fsum p (a b c d e f g : nat -> R) : (forall i, (i < p)%nat -> a i + b i - c i <= 2 * (- d i + e i - f i + g i)) ->
  fsum p a + fsum p b - fsum p c <= 2 * (- fsum p d + fsum p e - fsum p f + fsum p g).
Proof.
  rewrite !fsum_rsum. induction p as [|p IH]; intros H; [cbn; lra|]. rewrite !rsum_S. assert (A := H p ltac:(lia)). assert (B := IH (fun i Hi => H i ltac:(lia))). lra.
Qed.
Lemma lam_map c : map (@cv_lam RS) (al_cvs (al_update_duals c)) = map (fun v => cv_lam (cv_update_duals v)) (al_cvs c).
Proof. unfold al_update_duals. rewrite NlAlProofs2.cvs_map, map_map. reflexivity. Qed.
Lemma lagr_own c x u : lagr c x u = lagr_with c (map (@cv_lam RS) (al_cvs c)) x u.
Proof.
  unfold lagr, lagr_with, pay. f_equal. induction (al_cvs c) as [|v l IH]; [reflexivity|]. cbn. unfold lfsum in IH. cbn in IH. rewrite IH. reflexivity.
Qed.
Lemma pay_upd c mu x u : pay (al_update_duals c) mu x u = pay c mu x u.
Proof. unfold pay, al_update_duals. rewrite NlAlProofs2.cvs_map. revert mu. induction (al_cvs c) as [|v l IH]; intros [|l0 mu]; try reflexivity. cbn. unfold lfsum in IH. cbn in IH. rewrite IH. reflexivity. Qed.
Lemma lagr_upd c x u : lagr (al_update_duals c) x u = lagr_with c (map (fun v => cv_lam (cv_update_duals v)) (al_cvs c)) x u.
Proof. rewrite lagr_own. unfold lagr_with. rewrite pay_upd, lam_map. reflexivity. Qed.
Lemma prox_knot n m c mu x u y w : smooth_al n m c -> evaluated c x u -> length mu = length (al_cvs c) ->
  (forall j v l i, nth_error (al_cvs c) j = Some v -> nth_error mu j = Some l -> (i < cv_p v)%nat -> kkt (cv_type v) (con_eval (cv_con v) y w vzero i) (l i)) ->
  let new := map (fun v => cv_lam (cv_update_duals v)) (al_cvs c) in let old := map (@cv_lam RS) (al_cvs c) in
  kdist c new mu + kdist c new old - kdist c old mu <= 2 * (lagr_with c new x u - lagr_with c new y w + lagr_with c mu y w - lagr_with c mu x u).
Proof.
  intros SA EV HL HK new old. destruct (smooth_facts n m c SA) as (_ & _ & _ & F). unfold lagr_with.
  assert (G : kdist c new mu + kdist c new old - kdist c old mu <= 2 * (- pay c new x u + pay c new y w - pay c mu y w + pay c mu x u)); [|lra].
  unfold kdist, pay, new, old. clear new old. unfold evaluated in EV. clear SA. revert mu HL F EV HK. generalize (al_cvs c). intros l. induction l as [|v l IH]; intros [|l0 mu] HL F EV HK; try discriminate; [cbn; lra|].
  assert (I := IH mu ltac:(now injection HL) (fun w Hw => F w (or_intror Hw)) (fun w i Hw => EV w i (or_intror Hw)) (fun j => HK (S j))). clear IH.
  cbn [map combine lfsum fold_right fst snd]. unfold lfsum in I.
  assert (P := prox_fsum (cv_p v) (fun i => (cv_lam (cv_update_duals v) i - l0 i) ^ 2 / cv_pen v i) (fun i => (cv_lam (cv_update_duals v) i - cv_lam v i) ^ 2 / cv_pen v i) (fun i => (cv_lam v i - l0 i) ^ 2 / cv_pen v i)
    (fun i => cv_lam (cv_update_duals v) i * con_eval (cv_con v) x u vzero i) (fun i => cv_lam (cv_update_duals v) i * con_eval (cv_con v) y w vzero i) (fun i => l0 i * con_eval (cv_con v) y w vzero i) (fun i => l0 i * con_eval (cv_con v) x u vzero i)).
  cbv beta in P. match type of P with ?A -> _ => assert (Q : A) end.
  - intros i Hi. destruct (F v (or_introl eq_refl)) as (P0 & _ & U & _). rewrite (lam_upd v x u i Hi (U i Hi) (EV v i (or_introl eq_refl) Hi)). rewrite (U i Hi). unfold lam_new.
    apply (prox1 (cv_type v) (cv_lam v i) (cv_pen v 0%nat) (con_eval (cv_con v) x u vzero i) (con_eval (cv_con v) y w vzero i) (l0 i) P0). exact (HK 0%nat v l0 i eq_refl eq_refl Hi).
  - apply P in Q. clear P. lra.
Qed.

(** ** whole trajectories *)
Lemma prox_traj (cs : list (ALCost RS)) : forall (mus : Mult) (news olds : Mult) (Z Y : Traj RS), length mus = length cs -> length news = length cs -> length olds = length cs -> length Z = length cs -> length Y = length cs ->
  (forall k c mu new old z y, nth_error cs k = Some c -> nth_error mus k = Some mu -> nth_error news k = Some new -> nth_error olds k = Some old -> nth_error Z k = Some z -> nth_error Y k = Some y ->
    kdist c new mu + kdist c new old - kdist c old mu <= 2 * (lagr_with c new (z_x z) (z_u z) - lagr_with c new (z_x y) (z_u y) + lagr_with c mu (z_x y) (z_u y) - lagr_with c mu (z_x z) (z_u z))) ->
  wdist cs news mus + wdist cs news olds - wdist cs olds mus <= 2 * (lagr_mult cs news Z - lagr_mult cs news Y + lagr_mult cs mus Y - lagr_mult cs mus Z).
Proof.
  induction cs as [|c cs IH]; intros [|mu mus] [|new news] [|old olds] [|z Z] [|y Y] L1 L2 L3 L4 L5 H; try discriminate; [cbn; lra|].
  assert (I := IH mus news olds Z Y ltac:(now injection L1) ltac:(now injection L2) ltac:(now injection L3) ltac:(now injection L4) ltac:(now injection L5) (fun k => H (S k))).
  assert (P := H 0%nat c mu new old z y eq_refl eq_refl eq_refl eq_refl eq_refl eq_refl). unfold wdist, lagr_mult in *. cbn [combine map lfsum fold_right traj_cost fst snd]. unfold lfsum in I. rs. lra.
Qed.

(** ** convexity *)
Lemma convex_sum p (h : nat -> vec RS -> vec RS -> R) : (forall i, (i < p)%nat -> convex_fun (fun x u => - h i x u)) -> convex_fun (fun x u => - fsum p (fun i => h i x u)).
Proof.
  intros H x u y v a Ha. rewrite !fsum_rsum. induction p as [|p IH]; [cbn; lra|]. rewrite !rsum_S. assert (A := H p ltac:(lia) x u y v a Ha). cbv beta in A. assert (B := IH (fun i Hi => H i ltac:(lia))). lra.
Qed.
(** multipliers of the right sign *)
Definition signed (K : cone) (l : R) : Prop := match K with ZeroCone => True | NegativeOrthant => l <= 0 | IdentityCone => l = 0 end.
Lemma lagr_convex c : convex_fun (uc_eval (al_cost c)) -> (forall v, In v (al_cvs c) -> convex_con (cv_type v) (cv_con v)) -> (forall v i, In v (al_cvs c) -> (i < cv_p v)%nat -> signed (cv_type v) (cv_lam v i)) -> convex_fun (lagr c).
Proof.
  intros CU CC SG. assert (G : convex_fun (fun x u => - lfsum (fun v => fsum (cv_p v) (fun i => cv_lam v i * con_eval (cv_con v) x u vzero i)) (al_cvs c))).
  { revert CC SG. generalize (al_cvs c). intros l. induction l as [|v l IH]; intros CC SG; [intros x u y w a Ha; cbn; lra|].
    assert (I := IH (fun w Hw => CC w (or_intror Hw)) (fun w i Hw => SG w i (or_intror Hw))). clear IH.
    assert (V : convex_fun (fun x u => - fsum (cv_p v) (fun i => cv_lam v i * con_eval (cv_con v) x u vzero i))).
    { apply convex_sum. intros i Hi x u y w a Ha. assert (C := CC v (or_introl eq_refl) i Hi). assert (S := SG v i (or_introl eq_refl) Hi). destruct (cv_type v); cbn in S.
      - rewrite (C x u y w a Ha). lra.
      - rewrite S. lra.
      - assert (D := C x u y w a Ha). cbv beta in D. nra. }
    intros x u y w a Ha. assert (I1 := I x u y w a Ha). assert (V1 := V x u y w a Ha). cbv beta in I1, V1. cbn [lfsum fold_right]. unfold lfsum in I1. lra. }
  intros x u y w a Ha. assert (A := CU x u y w a Ha). assert (B := G x u y w a Ha). cbv beta in B. unfold lagr. lra.
Qed.
Lemma slope_min (g : R -> R) : is_derive g 0 0 -> (forall a, 0 <= a <= 1 -> g a <= g 0 + a * (g 1 - g 0)) -> g 0 <= g 1.
Proof.
  intros D C. apply Rnot_lt_le. intros H. apply is_derive_Reals in D. destruct (D ((g 0 - g 1) / 2) ltac:(lra)) as [[del Hd] Q]. cbn in Q.
  set (a := Rmin (del / 2) 1). assert (Ha : 0 < a /\ a <= 1 /\ a < del) by (unfold a; pose proof (Rmin_l (del / 2) 1); pose proof (Rmin_r (del / 2) 1); split; [apply Rmin_glb_lt; lra|lra]).
  specialize (Q a ltac:(lra)). rewrite Rabs_right in Q by lra. specialize (Q ltac:(lra)). rewrite Rplus_0_l, Rminus_0_r in Q. apply Rabs_def2 in Q. specialize (C a ltac:(lra)).
  assert (E : (g a - g 0) / a <= g 1 - g 0). { apply (Rmult_le_reg_r a); [lra|]. unfold Rdiv. rewrite Rmult_assoc, Rinv_l, Rmult_1_r by lra. lra. }
  lra.
Qed.

Section Problem.
Context (n m : nat) (s : ILQR RS (ALCost RS)) (Z Zb : Traj RS) (AS : al_setting n m s Z Zb) (CP : convex_problem n s).
Let N := il_N s.
(** the trajectory a of the way from Z to Y *)
Fixpoint tmix (a : R) (Z Y : Traj RS) : Traj RS :=
  match Z, Y with z :: Z', y :: Y' => mkKP (F:=RS) (mix a (z_x z) (z_x y)) (mix a (z_u z) (z_u y)) (z_t z) (z_h z) :: tmix a Z' Y' | _, _ => [] end.
Lemma tmix_len a : forall Z Y : Traj RS, length Y = length Z -> length (tmix a Z Y) = length Z.
Proof. induction Z0 as [|z Z0 IH]; intros [|y Y] L; try discriminate; [reflexivity|]. cbn. rewrite IH; [reflexivity|now injection L]. Qed.
Lemma tmix_nth a : forall (Z Y : Traj RS) k w, nth_error (tmix a Z Y) k = Some w -> exists z y, nth_error Z k = Some z /\ nth_error Y k = Some y /\ w = mkKP (F:=RS) (mix a (z_x z) (z_x y)) (mix a (z_u z) (z_u y)) (z_t z) (z_h z).
Proof. induction Z0 as [|z Z0 IH]; intros [|y Y] [|k] w E; try discriminate; [inversion E; exists z, y; auto|]. exact (IH Y k w E). Qed.
Lemma tmix_varied Y a : admissible n s Z Y -> varied n m s Z (fun k i => match nth_error Z k, nth_error Y k with Some z, Some y => z_u y i - z_u z i | _, _ => 0 end) a (tmix a Z Y).
Proof.
  intros (LY & (Y0 & YD) & YS). destruct (al_feas _ _ _ _ _ AS) as [Z0 ZD]. split; [apply tmix_len; exact LY|]. split; [split|].
  - intros w i Hw Hi. destruct (tmix_nth _ _ _ _ _ Hw) as (z & y & Ez & Ey & ->). cbn [z_x]. unfold mix. rewrite (Z0 z i Ez Hi), (Y0 y i Ey Hi). lra.
  - intros k f w w' Hf Hw Hw'. destruct (tmix_nth _ _ _ _ _ Hw) as (z & y & Ez & Ey & ->). destruct (tmix_nth _ _ _ _ _ Hw') as (z' & y' & Ez' & Ey' & ->).
    assert (Hk : (k < N)%nat). { assert (S k < length Z)%nat by (apply nth_error_Some; congruence). rewrite (al_lenZ _ _ _ _ _ AS) in H. unfold N. lia. }
    destruct (ZD k f z z' Hf Ez Ez') as [b1 E1]. destruct (YD k f y y' Hf Ey Ey') as [b2 E2]. destruct (YS k z y Hk Ez Ey) as [T1 T2]. rewrite T1, T2 in E2.
    rewrite nth_error_map in Hf. destruct (nth_error (il_kps s) k) as [kp|] eqn:Ek; [|discriminate]. cbn in Hf. inversion Hf; subst f. clear Hf.
    assert (W := proj1 (al_dyn _ _ _ _ _ AS k kp Hk Ek)). assert (A := cp_dyn _ _ CP k kp Hk Ek). exists vzero. intros i Hi. cbn [z_x z_u z_t z_h]. rewrite (A _ _ _ _ _ _ _ _ i Hi). unfold mix.
    rewrite (E1 i Hi), (E2 i Hi). rewrite (W _ _ _ _ b1 vzero i Hi), (W _ _ _ _ b2 vzero i Hi). reflexivity.
  - intros k z w Hk Hz Hw. destruct (tmix_nth _ _ _ _ _ Hw) as (z' & y & Ez & Ey & ->). rewrite Hz in Ez. inversion Ez; subst z'. cbn [z_t z_h z_u]. split; [reflexivity|]. split; [reflexivity|]. intros i Hi. rewrite Hz, Ey. unfold mix. reflexivity.
Qed.
Lemma mix_cost (fs : list (vec RS -> vec RS -> R)) : Forall convex_fun fs -> forall (Z Y : Traj RS) a, length Y = length Z -> 0 <= a <= 1 ->
  traj_cost (F:=RS) fs (tmix a Z Y) <= traj_cost (F:=RS) fs Z + a * (traj_cost (F:=RS) fs Y - traj_cost (F:=RS) fs Z).
Proof.
  induction 1 as [|f fs Hf _ IH]; intros [|z Z0] [|y Y] a L Ha; try discriminate; try (cbn; lra). assert (I := IH Z0 Y a ltac:(now injection L) Ha). assert (C := Hf (z_x z) (z_u z) (z_x y) (z_u y) a Ha). cbn [tmix traj_cost z_x z_u]. rs. lra.
Qed.
Lemma mix_zero x y : mix 0 x y = x. Proof. apply functional_extensionality. intros i. unfold mix. lra. Qed.
Lemma mix_one x y : mix 1 x y = y. Proof. apply functional_extensionality. intros i. unfold mix. lra. Qed.
Lemma cost_zero (fs : list (vec RS -> vec RS -> R)) : forall (Z Y : Traj RS), length Y = length Z -> traj_cost (F:=RS) fs (tmix 0 Z Y) = traj_cost (F:=RS) fs Z.
Proof. induction fs as [|f fs IH]; intros [|z Z0] [|y Y] L; try discriminate; try reflexivity. cbn [tmix traj_cost z_x z_u]. rewrite !mix_zero, IH by (now injection L). reflexivity. Qed.
Lemma cost_one (fs : list (vec RS -> vec RS -> R)) : forall (Z Y : Traj RS), length Y = length Z -> traj_cost (F:=RS) fs (tmix 1 Z Y) = traj_cost (F:=RS) fs Y.
Proof. induction fs as [|f fs IH]; intros [|z Z0] [|y Y] L; try discriminate; try reflexivity. cbn [tmix traj_cost z_x z_u]. rewrite !mix_one, IH by (now injection L). reflexivity. Qed.
Theorem stationary_min cs : Forall (fun c => convex_fun (lagr c)) cs -> lagr_stationary n m s Z cs -> forall Y, admissible n s Z Y -> lagr_total cs Z <= lagr_total cs Y.
Proof.
  intros CV ST Y HY. assert (LY := proj1 HY). assert (CF : Forall convex_fun (map lagr cs)) by (apply Forall_map; exact CV). unfold lagr_total.
  rewrite <- (cost_zero (map lagr cs) Z Y LY), <- (cost_one (map lagr cs) Z Y LY). apply (slope_min (fun a => traj_cost (F:=RS) (map lagr cs) (tmix a Z Y))).
  - eapply ST. intros a. apply tmix_varied. exact HY.
  - intros a Ha. rewrite (cost_zero _ Z Y LY), (cost_one _ Z Y LY). apply mix_cost; assumption.
Qed.
Lemma self_adm : admissible n s Z Z.
Proof. split; [reflexivity|]. split; [apply AS|]. intros k z y _ Hz Hy. rewrite Hz in Hy. inversion Hy. auto. Qed.

(** ** KKT points *)
Lemma pay_le cs : forall Y : Traj RS, (forall k c y v i, nth_error cs k = Some c -> nth_error Y k = Some y -> In v (al_cvs c) -> (i < cv_p v)%nat -> 0 <= cv_lam v i * con_eval (cv_con v) (z_x y) (z_u y) vzero i) ->
  lagr_total cs Y <= traj_cost (F:=RS) (map (fun c => uc_eval (al_cost c)) cs) Y.
Proof.
  induction cs as [|c cs IH]; intros [|y Y] H; try (cbn; lra). assert (I := IH Y (fun k => H (S k))). unfold lagr_total in *. cbn [map traj_cost]. rs.
  assert (P : 0 <= lfsum (fun v => fsum (cv_p v) (fun i => cv_lam v i * con_eval (cv_con v) (z_x y) (z_u y) vzero i)) (al_cvs c)).
  { assert (G := fun v i => H 0%nat c y v i eq_refl eq_refl). clear - G. revert G. generalize (al_cvs c). intros l. induction l as [|v l IH]; intros G; [cbn; lra|]. cbn [lfsum fold_right]. assert (I := IH (fun w i Hw => G w i (or_intror Hw))). unfold lfsum in I.
    assert (0 <= fsum (cv_p v) (fun i => cv_lam v i * con_eval (cv_con v) (z_x y) (z_u y) vzero i)); [|lra]. assert (Q := fun i => G v i (or_introl eq_refl)). clear - Q. rewrite fsum_rsum. induction (cv_p v) as [|p IH]; [cbn; lra|]. rewrite rsum_S. assert (A := Q p ltac:(lia)). assert (B := IH (fun i Hi => Q i ltac:(lia))). lra. }
  unfold lagr at 1. lra.
Qed.
Lemma pay_eq cs : forall Y : Traj RS, (forall k c y v i, nth_error cs k = Some c -> nth_error Y k = Some y -> In v (al_cvs c) -> (i < cv_p v)%nat -> cv_lam v i * con_eval (cv_con v) (z_x y) (z_u y) vzero i = 0) ->
  lagr_total cs Y = traj_cost (F:=RS) (map (fun c => uc_eval (al_cost c)) cs) Y.
Proof.
  induction cs as [|c cs IH]; intros [|y Y] H; try reflexivity. assert (I := IH Y (fun k => H (S k))). unfold lagr_total in *. cbn [map traj_cost]. rs. rewrite I. f_equal. unfold lagr.
  assert (P : lfsum (fun v => fsum (cv_p v) (fun i => cv_lam v i * con_eval (cv_con v) (z_x y) (z_u y) vzero i)) (al_cvs c) = 0); [|lra].
  assert (G := fun v i => H 0%nat c y v i eq_refl eq_refl). clear - G. revert G. generalize (al_cvs c). intros l. induction l as [|v l IH]; intros G; [reflexivity|]. cbn [lfsum fold_right]. assert (I := IH (fun w i Hw => G w i (or_intror Hw))). unfold lfsum in I. rewrite I, fsum_rsum, rsum_zero'; [lra|]. intros i Hi. apply G; [left; reflexivity|exact Hi].
Qed.
Lemma kkt_signed K c l : kkt K c l -> signed K l.
Proof. destruct K; cbn; tauto. Qed.
Lemma kkt_min : kkt_point n m s Z -> forall Y, admissible n s Z Y -> lagr_total (il_costobjs s) Z <= lagr_total (il_costobjs s) Y.
Proof.
  intros (_ & KK & ST). apply stationary_min; [|exact ST]. apply Forall_forall. intros c Hc. apply lagr_convex; [apply (cp_cost _ _ CP c Hc)|intros v; apply (cp_con _ _ CP c v Hc)|].
  intros v i Hv Hi. destruct (In_nth_error _ _ Hc) as [k Ek]. destruct (nth_error_ex Z k) as [z Ez]; [|exact (kkt_signed _ _ _ (KK k c z v i Ek Ez Hv Hi))].
  rewrite (al_lenZ _ _ _ _ _ AS), <- (al_len _ _ _ _ _ AS). replace (length (il_kps s)) with (length (il_costobjs s)) by (unfold il_costobjs; apply map_length). apply nth_error_Some. congruence.
Qed.
Theorem kkt_optimal : kkt_point n m s Z -> optimal n s Z.
Proof.
  intros KP. pose proof KP as (_ & KK & _). split; [apply self_adm|]. split.
  - intros k c z v i Hc Hz Hv Hi. assert (H := KK k c z v i Hc Hz Hv Hi). destruct (cv_type v); cbn in *; tauto.
  - intros Y HY SY. unfold user_cost. eapply Rle_trans; [|eapply Rle_trans; [apply (kkt_min KP Y HY)|]].
    + right. symmetry. apply pay_eq. intros k c z v i Hc Hz Hv Hi. assert (H := KK k c z v i Hc Hz Hv Hi). destruct (cv_type v); cbn in H; [rewrite H; lra|rewrite H; lra|tauto].
    + apply pay_le. intros k c y v i Hc Hy Hv Hi. assert (S := SY k c y v i Hc Hy Hv Hi).
      destruct (nth_error_ex Z k) as [z Ez]; [rewrite <- (proj1 HY); apply nth_error_Some; congruence|]. assert (H := KK k c z v i Hc Ez Hv Hi). destruct (cv_type v); cbn in S, H; [rewrite S; lra|rewrite H; lra|nra].
Qed.
(** a KKT point with its own multipliers is a saddle point *)
Lemma total_own cs : forall Y, lagr_total cs Y = lagr_mult cs (own cs) Y.
Proof.
  unfold lagr_total, lagr_mult, own. intros Y. f_equal. induction cs as [|c cs IH]; [reflexivity|]. cbn [map combine fst snd]. rewrite IH. f_equal. apply functional_extensionality. intros x. apply functional_extensionality. intros u. apply lagr_own.
Qed.
Lemma own_fits cs : fits cs (own cs).
Proof. unfold fits, own. induction cs as [|c cs IH]; constructor; [apply map_length|exact IH]. Qed.
Theorem kkt_saddle : kkt_point n m s Z -> saddle n s Z Z (own (il_costobjs s)).
Proof.
  intros KP. split; [apply own_fits|apply self_adm| |].
  - intros k c mu z j v l i Hc Hm Hz Hv Hl Hi. unfold own in Hm. rewrite nth_error_map, Hc in Hm. cbn in Hm. inversion Hm; subst mu. rewrite nth_error_map, Hv in Hl. cbn in Hl. inversion Hl; subst l. destruct KP as (_ & KK & _). exact (KK k c z v i Hc Hz (nth_error_In _ _ Hv) Hi).
  - intros Y HY. rewrite <- !total_own. apply kkt_min; assumption.
Qed.

(** ** one outer iteration *)
Context (fuel : nat) (s2 : ILQR RS (ALCost RS)) (EB : il_backward_pass n m fuel (il_update_expansions al_ops n m Z s) = Ok s2) (ST : il_status s2 <> kBackwardPassRegularizationFailed) (NS : no_step m s2).
Let cs2 := il_costobjs s2.
Lemma pay_fresh (c c2 : ALCost RS) mu x u : al_fresh c2 = al_fresh c -> pay c2 mu x u = pay c mu x u.
Proof.
  intros E. destruct (fresh_cvs c2 c E) as [_ B]. assert (H : forall vs mu, lfsum (fun p : CV RS * (nat -> R) => fsum (cv_p (fst p)) (fun i => snd p i * con_eval (cv_con (fst p)) x u vzero i)) (combine (map CostInst.cv_fresh vs) mu) = lfsum (fun p => fsum (cv_p (fst p)) (fun i => snd p i * con_eval (cv_con (fst p)) x u vzero i)) (combine vs mu)).
  { induction vs as [|v vs IH]; intros [|l mu0]; try reflexivity. cbn [map combine lfsum fold_right]. unfold lfsum in IH. rewrite IH. reflexivity. }
  unfold pay. rewrite <- (H (al_cvs c2)), <- (H (al_cvs c)). rewrite B. reflexivity.
Qed.
Lemma cs2_len : length cs2 = length (il_costobjs s).
Proof. unfold cs2. rewrite (objs2_len n m s Z Zb AS fuel s2 EB). unfold il_costobjs. rewrite map_length. symmetry. apply AS. Qed.
Lemma mult2 mus Y : lagr_mult cs2 mus Y = lagr_mult (il_costobjs s) mus Y.
Proof.
  unfold lagr_mult. f_equal. apply list_eq_nth; [rewrite !map_length, !combine_length, cs2_len; reflexivity|]. intros k a b Ha Hb. rewrite nth_error_map in Ha, Hb.
  assert (C : forall (l : list (ALCost RS)) (l' : Mult) k p, nth_error (combine l l') k = Some p -> nth_error l k = Some (fst p) /\ nth_error l' k = Some (snd p)).
  { induction l as [|x l IH]; intros [|y l'] [|j] p E; try discriminate; [inversion E; auto|]. exact (IH l' j p E). }
  destruct (nth_error (combine cs2 mus) k) as [p|] eqn:E1; [|discriminate]. destruct (nth_error (combine (il_costobjs s) mus) k) as [q|] eqn:E2; [|discriminate]. cbn in Ha, Hb. inversion Ha; inversion Hb; subst a b.
  destruct (C _ _ _ _ E1) as [A1 A2]. destruct (C _ _ _ _ E2) as [B1 B2]. rewrite A2 in B2. inversion B2 as [B3]. destruct (objs2 n m s Z Zb AS fuel s2 EB k (fst p) A1) as (c & z & Ec & _ & _ & FR & _). rewrite B1 in Ec. inversion Ec as [Ec']. 
  apply functional_extensionality. intros x. apply functional_extensionality. intros u. unfold lagr_with. try rewrite <- B3. rewrite Ec'. rewrite (pay_fresh c (fst p) _ x u FR). rewrite (proj1 (fresh_cvs _ _ FR)). reflexivity.
Qed.
Lemma upd_convex : Forall (fun c => convex_fun (lagr c)) (map al_update_duals cs2).
Proof.
  apply Forall_map. apply Forall_forall. intros c2 H2. destruct (In_nth_error _ _ H2) as [k Ek]. destruct (objs2 n m s Z Zb AS fuel s2 EB k c2 Ek) as (c & z & Ec & Ez & SA & FR & EV). assert (Hc := nth_error_In _ _ Ec).
  apply lagr_convex.
  - change (al_cost (al_update_duals c2)) with (al_cost c2). rewrite (proj1 (fresh_cvs _ _ FR)). apply (cp_cost _ _ CP c Hc).
  - intros v Hv. unfold al_update_duals in Hv. rewrite NlAlProofs2.cvs_map in Hv. apply in_map_iff in Hv. destruct Hv as (w & <- & Hw). destruct (fresh_in c2 c w FR Hw) as (w0 & H0 & C1 & C2 & _). cbn [cv_update_duals set_lam cv_type cv_con]. rewrite <- C1, <- C2. apply (cp_con _ _ CP c w0 Hc H0).
  - intros v i Hv Hi. unfold al_update_duals in Hv. rewrite NlAlProofs2.cvs_map in Hv. apply in_map_iff in Hv. destruct Hv as (w & <- & Hw). change (cv_p (cv_update_duals w)) with (cv_p w) in Hi. change (cv_type (cv_update_duals w)) with (cv_type w).
    destruct (smooth_facts n m c2 SA) as (_ & _ & _ & F). destruct (F w Hw) as (_ & _ & U & _). rewrite (lam_upd w (z_x z) (z_u z) i Hi (U i Hi) (EV w i Hw Hi)). unfold lam_new. exact (dual_sign (cv_type w) _).
Qed.
Theorem fejer Y mus : saddle n s Z Y mus -> let new := own (map al_update_duals cs2) in let old := own cs2 in wdist cs2 new mus + wdist cs2 new old <= wdist cs2 old mus.
Proof.
  intros [FT AD KK MN] new old. assert (LC := cs2_len). assert (LO : length (il_costobjs s) = length Z) by (rewrite (al_lenZ _ _ _ _ _ AS), <- (al_len _ _ _ _ _ AS); unfold il_costobjs; apply map_length).
  assert (LM : length mus = length (il_costobjs s)) by (clear - FT; induction FT; cbn; congruence).
  assert (NE : new = map (fun c => map (fun v => cv_lam (cv_update_duals v)) (al_cvs c)) cs2) by (unfold new, own; rewrite map_map; apply map_ext; intros c; apply lam_map).
  assert (P := prox_traj cs2 mus new old Z Y). match type of P with ?A -> ?B -> ?C -> ?D -> ?E -> ?G -> _ => assert (HG : G) end.
  { intros k c2 mu nw od z y E1 E2 E3 E4 E5 E6. rewrite NE in E3. rewrite nth_error_map, E1 in E3. cbn in E3. inversion E3; subst nw. unfold old, own in E4. rewrite nth_error_map, E1 in E4. cbn in E4. inversion E4; subst od.
    destruct (objs2 n m s Z Zb AS fuel s2 EB k c2 E1) as (c & z0 & Ec & Ez & SA & FR & EV). rewrite E5 in Ez. inversion Ez; subst z0. destruct (fresh_cvs _ _ FR) as [_ MF].
    assert (LF : length mu = length (al_cvs c)). { clear - FT Ec E2. revert k Ec E2. induction FT as [|c0 m0 l l' H _ IH]; intros [|k] Ec E2; try discriminate; [inversion Ec; inversion E2; subst; exact H|]. exact (IH k Ec E2). }
    apply (prox_knot n m c2 mu _ _ _ _ SA EV).
    - rewrite LF. apply (f_equal (@length _)) in MF. rewrite !map_length in MF. symmetry. exact MF.
    - intros j v l i Hv Hl Hi. assert (H : nth_error (map CostInst.cv_fresh (al_cvs c)) j = Some (CostInst.cv_fresh v)) by (rewrite <- MF, nth_error_map, Hv; reflexivity).
      rewrite nth_error_map in H. destruct (nth_error (al_cvs c) j) as [v0|] eqn:E0; [|discriminate]. cbn in H. injection H as _ _ T0 C0 _ _ _. unfold cv_p in Hi. rewrite <- T0, <- C0. rewrite <- C0 in Hi. exact (KK k c mu y j v0 l i Ec E2 E6 E0 Hl Hi). }
  assert (A1 : length mus = length cs2) by congruence. assert (A2 : length new = length cs2) by (rewrite NE; apply map_length). assert (A3 : length old = length cs2) by (unfold old, own; apply map_length). assert (A4 : length Z = length cs2) by congruence. assert (A5 : length Y = length cs2) by (rewrite (proj1 AD); congruence).
  specialize (P A1 A2 A3 A4 A5 HG). clear HG.
  assert (L1 : lagr_mult cs2 new Z <= lagr_mult cs2 new Y).
  { assert (H := stationary_min _ upd_convex (proj1 (multipliers n m s Z Zb AS fuel s2 EB ST) NS) Y AD). assert (Q : forall X, lagr_total (map al_update_duals cs2) X = lagr_mult cs2 new X).
    { intros X. unfold lagr_total, lagr_mult. f_equal. rewrite NE, map_map. clear. induction cs2 as [|c l IH]; [reflexivity|]. cbn [map combine fst snd]. rewrite IH. f_equal. apply functional_extensionality. intros x. apply functional_extensionality. intros u. apply lagr_upd. }
    rewrite <- !Q. exact H. }
  assert (L2 : lagr_mult cs2 mus Y <= lagr_mult cs2 mus Z) by (rewrite !mult2; apply MN; apply self_adm).
  lra.
Qed.
(** the Lagrangian at an inner solution is a lower bound of the cost of every admissible trajectory that satisfies the constraints *)
Theorem dual_bound Y : admissible n s Z Y -> satisfies s Y -> lagr_total (map al_update_duals cs2) Z <= user_cost s Y.
Proof.
  intros HY SY. eapply Rle_trans; [apply (stationary_min _ upd_convex (proj1 (multipliers n m s Z Zb AS fuel s2 EB ST) NS) Y HY)|].
  eapply Rle_trans; [apply pay_le|].
  - intros k c' y v i Hc Hy Hv Hi. rewrite nth_error_map in Hc. destruct (nth_error cs2 k) as [c2|] eqn:E1; [|discriminate]. cbn in Hc. inversion Hc; subst c'. clear Hc.
    destruct (objs2 n m s Z Zb AS fuel s2 EB k c2 E1) as (c & z & Ec & Ez & SA & FR & EV). unfold al_update_duals in Hv. rewrite NlAlProofs2.cvs_map in Hv. apply in_map_iff in Hv. destruct Hv as (w & <- & Hw).
    change (cv_p (cv_update_duals w)) with (cv_p w) in Hi. change (cv_con (cv_update_duals w)) with (cv_con w).
    destruct (smooth_facts n m c2 SA) as (_ & _ & _ & F). destruct (F w Hw) as (_ & _ & U & _). rewrite (lam_upd w (z_x z) (z_u z) i Hi (U i Hi) (EV w i Hw Hi)). unfold lam_new.
    destruct (fresh_in c2 c w FR Hw) as (w0 & H0 & C1 & C2 & _). assert (H := SY k c y w0 i Ec Hy H0). unfold cv_p in H, Hi. rewrite C1, C2 in H. specialize (H Hi).
    match goal with |- 0 <= dproj ?K ?e * _ => assert (D := dual_sign K e); generalize dependent (dproj K e) end. intros l D. destruct (cv_type w); cbn in H; [rewrite H; lra|rewrite D; lra|nra].
  - right. unfold user_cost. f_equal. rewrite map_map. apply list_eq_nth; [rewrite !map_length; apply cs2_len|]. intros k a b Ha Hb. rewrite nth_error_map in Ha, Hb. destruct (nth_error cs2 k) as [c2|] eqn:E1; [|discriminate].
    destruct (objs2 n m s Z Zb AS fuel s2 EB k c2 E1) as (c & z & Ec & Ez & SA & FR & EV). rewrite Ec in Hb. cbn in Ha, Hb. inversion Ha; inversion Hb. rewrite (proj1 (fresh_cvs _ _ FR)). reflexivity.
Qed.
End Problem.
