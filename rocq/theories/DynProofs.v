From Coq Require Import Reals Lra Lia List Bool ZArith.
From Coquelicot Require Import Coquelicot.
From Verif Require Import Base Lin RLin RDer ConModel ConSpec ConProofs IlqrModel DynModel DynSpec.
Import List ListNotations.
Local Open Scope R_scope.

Lemma half_RS : (half : RS) = / 2. Proof. unfold half. rs. lra. Qed.
Lemma two_RS : (two : RS) = 2. Proof. reflexivity. Qed.

(** ** the schemes *)
Section Scheme.
Context (n : nat) (cd : CDyn RS) (f : vec RS -> vec RS -> R -> nat -> R).
Hypothesis Hcd : computes n cd f.
Lemma euler_scheme x u t h buf i : (i < n)%nat -> euler_step n cd x u t h buf i = x i + h * f x u t i.
Proof.
  intros Hi. unfold euler_step. rewrite !vstore_lt by auto. rs. rewrite (cp_eval n cd f Hcd) by auto. lra.
Qed.
Lemma f_loc x y u t t' i : (i < n)%nat -> (forall j, (j < n)%nat -> x j = y j) -> t = t' -> f x u t i = f y u t' i.
Proof. intros Hi H ->. apply (cp_local n cd f Hcd); auto. Qed.
Lemma rk_k1_eq s x u t h i : (i < n)%nat -> rk_k1 (rk_stages n cd s x u t h) i = f x u t i.
Proof. intros Hi. unfold rk_stages. cbn [rk_k1]. rewrite vstore_lt by auto. apply (cp_eval n cd f Hcd); auto. Qed.
Lemma rk_k2_eq s x u t h i : (i < n)%nat -> let s1 := rk_stages n cd s x u t h in
  rk_k2 s1 i = f (fun j => x j + h / 2 * rk_k1 s1 j) u (t + h / 2) i.
Proof.
  intros Hi s1. subst s1. unfold rk_stages. cbn [rk_k1 rk_k2]. rewrite vstore_lt by auto. rewrite (cp_eval n cd f Hcd) by auto.
  apply f_loc; auto.
  - intros j Hj. rewrite vstore_lt by auto. rewrite half_RS. rs. lra.
  - unfold t_half. rewrite half_RS. rs. lra.
Qed.
Lemma rk_k3_eq s x u t h i : (i < n)%nat -> let s1 := rk_stages n cd s x u t h in
  rk_k3 s1 i = f (fun j => x j + h / 2 * rk_k2 s1 j) u (t + h / 2) i.
Proof.
  intros Hi s1. subst s1. unfold rk_stages. cbn [rk_k2 rk_k3]. rewrite vstore_lt by auto. rewrite (cp_eval n cd f Hcd) by auto.
  apply f_loc; auto.
  - intros j Hj. rewrite vstore_lt by auto. rewrite half_RS. rs. lra.
  - unfold t_half. rewrite half_RS. rs. lra.
Qed.
Lemma rk4_scheme_ok s x u t h : rk4_scheme n f x u t h (snd (rk4_step n cd s x u t h)).
Proof.
  set (s1 := rk_stages n cd s x u t h).
  exists (rk_k1 s1), (rk_k2 s1), (rk_k3 s1), (fun i => f (fun j => x j + h * rk_k3 s1 j) u (t + h) i).
  split; [intros i Hi; apply rk_k1_eq; auto|]. split; [intros i Hi; apply rk_k2_eq; auto|]. split; [intros i Hi; apply rk_k3_eq; auto|].
  split; [reflexivity|]. intros i Hi. unfold rk4_step. fold s1. cbn [snd]. rewrite !vstore_lt by auto. rewrite (cp_eval n cd f Hcd) by auto.
  rewrite two_RS. rs.
  rewrite (f_loc _ (fun j => x j + h * rk_k3 s1 j) u _ (t + h) i Hi).
  - lra.
  - intros j Hj. rewrite vstore_lt by auto. rs. lra.
  - unfold t_full. reflexivity.
Qed.
End Scheme.
(** the scheme determines the step *)
Lemma rk4_scheme_unique n f x u t h y y' :
  (forall x y u t, (forall i, (i < n)%nat -> x i = y i) -> forall i, (i < n)%nat -> f x u t i = f y u t i) ->
  rk4_scheme n f x u t h y -> rk4_scheme n f x u t h y' -> forall i, (i < n)%nat -> y i = y' i.
Proof.
  intros HL (k1 & k2 & k3 & k4 & H1 & H2 & H3 & H4 & H5) (l1 & l2 & l3 & l4 & G1 & G2 & G3 & G4 & G5).
  assert (E1 : forall i, (i < n)%nat -> k1 i = l1 i) by (intros i Hi; rewrite H1, G1; auto).
  assert (E2 : forall i, (i < n)%nat -> k2 i = l2 i).
  { intros i Hi. rewrite H2, G2 by auto. apply HL; auto. intros j Hj. rewrite E1; auto. }
  assert (E3 : forall i, (i < n)%nat -> k3 i = l3 i).
  { intros i Hi. rewrite H3, G3 by auto. apply HL; auto. intros j Hj. rewrite E2; auto. }
  assert (E4 : forall i, (i < n)%nat -> k4 i = l4 i).
  { intros i Hi. rewrite H4, G4 by auto. apply HL; auto. intros j Hj. rewrite E3; auto. }
  intros i Hi. rewrite H5, G5, E1, E2, E3, E4; auto.
Qed.

(** ** linear dynamics *)
Definition rmv (n : nat) (A : nat -> nat -> R) (x : nat -> R) (i : nat) : R := fsum n (fun j => A i j * x j).
Section Linear.
Context (n : nat).
Lemma rmv_ext A x y i : (forall j, (j < n)%nat -> x j = y j) -> rmv n A x i = rmv n A y i.
Proof. intros H. unfold rmv. rewrite !fsum_rsum. apply rsum_ext. intros j Hj. rewrite H; auto. Qed.
Lemma rmv_lin A c x d y i : rmv n A (fun j => c * x j + d * y j) i = c * rmv n A x i + d * rmv n A y i.
Proof. unfold rmv. rewrite !fsum_rsum. rewrite <- !rsum_scal, <- rsum_plus. apply rsum_ext. intros; lra. Qed.
(** an affine field g(x) = A x + b *)
Lemma rk4_affine (A : nat -> nat -> R) (b : nat -> R) f x u t h y : rk4_scheme n f x u t h y ->
  (forall z s i, (i < n)%nat -> f z u s i = rmv n A z i + b i) -> forall i, (i < n)%nat ->
  let g := fun i => rmv n A x i + b i in
  y i = x i + h * g i + h ^ 2 / 2 * rmv n A g i + h ^ 3 / 6 * rmv n A (rmv n A g) i + h ^ 4 / 24 * rmv n A (rmv n A (rmv n A g)) i.
Proof.
  intros (k1 & k2 & k3 & k4 & H1 & H2 & H3 & H4 & H5) Hf i Hi g.
  assert (E1 : forall i, (i < n)%nat -> k1 i = g i) by (intros j Hj; rewrite H1, Hf; auto).
  assert (Hl : forall k c (w : nat -> R) j, (forall i, (i < n)%nat -> k i = w i) -> rmv n A (fun l => x l + c * k l) j = rmv n A x j + c * rmv n A w j).
  { intros k c w j Hk. rewrite (rmv_ext _ _ (fun l => 1 * x l + c * w l)) by (intros l Hl; rewrite (Hk l Hl); lra). rewrite rmv_lin. lra. }
  assert (E2 : forall i, (i < n)%nat -> k2 i = g i + h / 2 * rmv n A g i).
  { intros j Hj. rewrite H2, Hf by auto. rewrite (Hl k1 _ g j E1). unfold g. lra. }
  assert (E2A : forall j, rmv n A (fun l => g l + h / 2 * rmv n A g l) j = rmv n A g j + h / 2 * rmv n A (rmv n A g) j).
  { intros j. rewrite (rmv_ext _ _ (fun l => 1 * g l + h / 2 * rmv n A g l)) by (intros; lra). rewrite rmv_lin. lra. }
  assert (E3 : forall i, (i < n)%nat -> k3 i = g i + h / 2 * rmv n A g i + h ^ 2 / 4 * rmv n A (rmv n A g) i).
  { intros j Hj. rewrite H3, Hf by auto. rewrite (Hl k2 _ (fun l => g l + h / 2 * rmv n A g l) j E2). rewrite E2A. unfold g. lra. }
  assert (E3A : forall j, rmv n A (fun l => g l + h / 2 * rmv n A g l + h ^ 2 / 4 * rmv n A (rmv n A g) l) j
    = rmv n A g j + h / 2 * rmv n A (rmv n A g) j + h ^ 2 / 4 * rmv n A (rmv n A (rmv n A g)) j).
  { intros j. rewrite (rmv_ext _ _ (fun l => 1 * (g l + h / 2 * rmv n A g l) + h ^ 2 / 4 * rmv n A (rmv n A g) l)) by (intros; lra).
    rewrite (rmv_lin A 1 (fun l => g l + h / 2 * rmv n A g l)). rewrite E2A. lra. }
  assert (E4 : k4 i = g i + h * rmv n A g i + h ^ 2 / 2 * rmv n A (rmv n A g) i + h ^ 3 / 4 * rmv n A (rmv n A (rmv n A g)) i).
  { rewrite H4, Hf by auto. rewrite (Hl k3 _ _ i E3). rewrite E3A. unfold g. lra. }
  rewrite H5, E1, E2, E3, E4 by auto. unfold g. lra.
Qed.
End Linear.

(** ** quadrature: right-hand sides depending on time only *)
Lemma rk4_cubic n f x u t h y a b c d i : rk4_scheme n f x u t h y -> (i < n)%nat ->
  (forall z s, f z u s i = a + b * s + c * s ^ 2 + d * s ^ 3) ->
  y i = x i + (a * h + b * ((t + h) ^ 2 - t ^ 2) / 2 + c * ((t + h) ^ 3 - t ^ 3) / 3 + d * ((t + h) ^ 4 - t ^ 4) / 4).
Proof.
  intros (k1 & k2 & k3 & k4 & H1 & H2 & H3 & H4 & H5) Hi Hf. rewrite H5, H1, H2, H3, H4, !Hf by auto. field.
Qed.

(** ** Jacobians *)
Section Jac.
Context (n m : nat) (cd : CDyn RS) (f : vec RS -> vec RS -> R -> nat -> R) (J : vec RS -> vec RS -> R -> nat -> nat -> R) (W : nat -> nat -> bool).
Hypothesis Hcd : computes n cd f.
Hypothesis HJ : jac_true n m cd f J W.
(** one call of the continuous Jacobian on a zeroed buffer gives J and keeps the buffer zeroed *)
Lemma jac_call x u t buf : zeroed n m W buf ->
  (forall i j, (i < n)%nat -> (j < n + m)%nat -> mstore n (n + m) (cd_jac cd x u t buf) i j = J x u t i j) /\
  zeroed n m W (mstore n (n + m) (cd_jac cd x u t buf)).
Proof.
  intros Hz.
  assert (E : forall i j, (i < n)%nat -> (j < n + m)%nat -> mstore n (n + m) (cd_jac cd x u t buf) i j = J x u t i j).
  { intros i j Hi Hj. rewrite mstore_lt by auto. rewrite (jt_jac n m cd f J W HJ) by auto. destruct (W i j) eqn:Ew; [reflexivity|].
    rewrite (Hz i j Hi Hj Ew). symmetry. apply (jt_mask n m cd f J W HJ). exact Ew. }
  split; [exact E|]. intros i j Hi Hj Ew. rewrite E by auto. apply (jt_mask n m cd f J W HJ). exact Ew.
Qed.
Lemma euler_jac_true t h buf0 : (forall x u, zeroed n m W (buf0 x u)) ->
  forall xn0, is_jacobian n m (fun x u => euler_step n cd x u t h (xn0 x u)) (fun x u => euler_jac n m cd x u t h (buf0 x u)).
Proof.
  intros Hz xn0 X U v w HX HU i Hi.
  apply (d_ext (fun s => X s i + h * f (X s) (U s) t i)); [intros s; symmetry; apply (euler_scheme n cd f Hcd); auto|].
  destruct (jac_call (X 0) (U 0) t _ (Hz (X 0) (U 0))) as [E _].
  eapply d_eq; [apply d_plus; [apply HX|apply d_scal; apply (jt_deriv n m cd f J W HJ _ _ _ _ t HX HU i Hi)]|].
  rewrite !fsum_rsum. unfold euler_jac.
  rewrite (rsum_ext n (fun j => mstore n (n + m) _ i j * v j) (fun j => mident (F:=RS) i j * v j + h * (J (X 0) (U 0) t i j * v j))).
  2: { intros j Hj. rewrite mstore_lt by lia. rewrite E by lia. rs. lra. }
  rewrite (rsum_ext m (fun j => mstore n (n + m) _ i (n + j)%nat * w j) (fun j => h * (J (X 0) (U 0) t i (n + j)%nat * w j))).
  2: { intros j Hj. rewrite mstore_lt by lia. rewrite E by lia. unfold mident. replace (Nat.eqb i (n + j)) with false by (symmetry; apply Nat.eqb_neq; lia).
       rs. lra. }
  rewrite rsum_plus, !rsum_scal.
  assert (Hd : rsum n (fun j => mident (F:=RS) i j * v j) = v i).
  { rewrite (rsum_single n i); auto; [unfold mident; rewrite Nat.eqb_refl; rs; lra|].
    intros j Hj Hne. unfold mident. replace (Nat.eqb i j) with false by (symmetry; apply Nat.eqb_neq; lia). rs. lra. }
  rewrite Hd. lra.
Qed.

(** linear map (D v + E w) *)
Let lin (D E : nat -> nat -> R) (v w : nat -> R) (i : nat) : R := rsum n (fun j => D i j * v j) + rsum m (fun j => E i j * w j).
Lemma lin_stage (A B D E : nat -> nat -> R) c h v w i :
  h * (rsum n (fun j => A i j * (v j + c * lin D E v w j)) + rsum m (fun j => B i j * w j)) =
  rsum n (fun l => (rsum n (fun j => A i j * ((if Nat.eqb j l then 1 else 0) + c * D j l))) * h * v l)
  + rsum m (fun l => (B i l * h + rsum n (fun j => c * A i j * E j l) * h) * w l).
Proof.
  unfold lin.
  rewrite (rsum_ext n (fun j => A i j * (v j + c * (rsum n (fun l => D j l * v l) + rsum m (fun l => E j l * w l))))
    (fun j => rsum n (fun l => A i j * ((if Nat.eqb j l then 1 else 0) + c * D j l) * v l) + rsum m (fun l => c * A i j * E j l * w l))).
  2: { intros j Hj. rewrite (rsum_ext n (fun l => A i j * ((if Nat.eqb j l then 1 else 0) + c * D j l) * v l)
         (fun l => A i j * ((if Nat.eqb j l then 1 else 0) * v l) + A i j * c * (D j l * v l))) by (intros; lra).
       assert (Hd : rsum n (fun l => (if Nat.eqb j l then 1 else 0) * v l) = v j).
       { rewrite (rsum_single n j); auto; [rewrite Nat.eqb_refl; lra|]. intros l Hl Hne. replace (Nat.eqb j l) with false by (symmetry; apply Nat.eqb_neq; lia). lra. }
       rewrite rsum_plus, !rsum_scal, Hd.
       rewrite (rsum_ext m (fun l => c * A i j * E j l * w l) (fun l => c * A i j * (E j l * w l))) by (intros; lra).
       rewrite rsum_scal. lra. }
  rewrite rsum_plus. rewrite (rsum_swap n n), (rsum_swap n m). rewrite Rplus_assoc, <- rsum_plus.
  rewrite Rmult_plus_distr_l, <- !rsum_scal. f_equal.
  - apply rsum_ext. intros l Hl. rewrite rsum_scal_r. lra.
  - apply rsum_ext. intros l Hl. rewrite rsum_scal_r. lra.
Qed.

(** one Runge-Kutta stage: the stage point moves with velocity v + c (D v + E w) *)
Lemma stage X U v w K D E c h t : curve X v -> curve U w ->
  (forall i, (i < n)%nat -> is_derive (fun s => h * K s i) 0 (lin D E v w i)) ->
  forall i, (i < n)%nat -> let Y s := vstore (F:=RS) n (fun j => X s j + c * (h * K s j)) in
  is_derive (fun s => h * f (Y s) (U s) t i) 0
    (lin (fun i l => rsum n (fun j => J (Y 0) (U 0) t i j * ((if Nat.eqb j l then 1 else 0) + c * D j l)) * h)
         (fun i l => J (Y 0) (U 0) t i (n + l)%nat * h + rsum n (fun j => c * J (Y 0) (U 0) t i j * E j l) * h) v w i).
Proof.
  intros HX HU HK i Hi Y.
  assert (HY : curve Y (vstore (F:=RS) n (fun j => v j + c * lin D E v w j))).
  { intros j. unfold Y. destruct (Nat.lt_ge_cases j n) as [Hj|Hj].
    - apply (d_ext (fun s => X s j + c * (h * K s j))); [intros s; rewrite vstore_lt by auto; reflexivity|].
      rewrite vstore_lt by auto. apply d_plus; [apply HX|]. apply d_scal. apply HK; auto.
    - apply (d_ext (fun s => 0)); [intros s; rewrite vstore_ge by auto; reflexivity|]. rewrite vstore_ge by auto. apply d_const. }
  eapply d_eq; [apply d_scal; apply (jt_deriv n m cd f J W HJ _ _ _ _ t HY HU i Hi)|].
  rewrite !fsum_rsum. etransitivity; [|apply (lin_stage (J (Y 0) (U 0) t) (fun i l => J (Y 0) (U 0) t i (n + l)%nat) D E c h v w i)].
  f_equal. f_equal. apply rsum_ext. intros j Hj. rewrite vstore_lt by auto. reflexivity.
Qed.
Lemma lin_ext D E D' E' v w i : (forall j, (j < n)%nat -> D i j = D' i j) -> (forall j, (j < m)%nat -> E i j = E' i j) -> lin D E v w i = lin D' E' v w i.
Proof. intros HD HE. unfold lin. f_equal; apply rsum_ext; intros j Hj; [rewrite HD|rewrite HE]; auto. Qed.

(** the continuous Jacobian does not depend on time *)
Hypothesis Hti : forall x u t t' i j, J x u t i j = J x u t' i j.
Lemma rk4_jac_true s t h buf0 : (forall x u, zeroed n m W (buf0 x u)) ->
  is_jacobian n m (fun x u => snd (rk4_step n cd s x u t h)) (fun x u => snd (rk4_jac n m cd s x u t h (buf0 x u))).
Proof.
  intros Hz X U v w HX HU i Hi.
  set (S1 := fun q => rk_stages n cd s (X q) (U q) t h).
  set (K1 := fun q => rk_k1 (S1 q)). set (K2 := fun q => rk_k2 (S1 q)). set (K3 := fun q => rk_k3 (S1 q)).
  set (Y1 := fun q => vstore (F:=RS) n (fun j => X q j + / 2 * (h * K1 q j))).
  set (Y2 := fun q => vstore (F:=RS) n (fun j => X q j + / 2 * (h * K2 q j))).
  set (Y3 := fun q => vstore (F:=RS) n (fun j => X q j + 1 * (h * K3 q j))).
  set (x := X 0). set (u := U 0).
  set (J0 := mstore n (n + m) (cd_jac cd x u t (buf0 x u))).
  set (J1 := mstore n (n + m) (cd_jac cd (vstore n (fun i => add (x i) (mul (mul half (rk_k1 (S1 0) i)) h))) u (tof32 (mul half t)) J0)).
  set (J2 := mstore n (n + m) (cd_jac cd (vstore n (fun i => add (x i) (mul (mul half (rk_k2 (S1 0) i)) h))) u (tof32 (mul half t)) J1)).
  set (J3 := mstore n (n + m) (cd_jac cd (vstore n (fun i => add (x i) (mul (rk_k3 (S1 0) i) h))) u t J2)).
  destruct (jac_call x u t _ (Hz x u)) as [F0 Z0]. fold J0 in F0, Z0.
  destruct (jac_call (vstore n (fun i => add (x i) (mul (mul half (rk_k1 (S1 0) i)) h))) u (tof32 (mul half t)) J0 Z0) as [F1 Z1]. fold J1 in F1, Z1.
  destruct (jac_call (vstore n (fun i => add (x i) (mul (mul half (rk_k2 (S1 0) i)) h))) u (tof32 (mul half t)) J1 Z1) as [F2 Z2]. fold J2 in F2, Z2.
  destruct (jac_call (vstore n (fun i => add (x i) (mul (rk_k3 (S1 0) i) h))) u t J2 Z2) as [F3 _]. fold J3 in F3.
  assert (G1 : forall i j t', (i < n)%nat -> (j < n + m)%nat -> J1 i j = J (Y1 0) u t' i j).
  { intros a b t' Ha Hb. rewrite F1 by auto. rewrite (Hti _ _ _ t'). apply (jt_local n m cd f J W HJ). intros k Hk. unfold Y1. rewrite !vstore_lt by auto. rewrite half_RS. rs. unfold K1, x. lra. }
  assert (G2 : forall i j t', (i < n)%nat -> (j < n + m)%nat -> J2 i j = J (Y2 0) u t' i j).
  { intros a b t' Ha Hb. rewrite F2 by auto. rewrite (Hti _ _ _ t'). apply (jt_local n m cd f J W HJ). intros k Hk. unfold Y2. rewrite !vstore_lt by auto. rewrite half_RS. rs. unfold K2, x. lra. }
  assert (G3 : forall i j t', (i < n)%nat -> (j < n + m)%nat -> J3 i j = J (Y3 0) u t' i j).
  { intros a b t' Ha Hb. rewrite F3 by auto. rewrite (Hti _ _ _ t'). apply (jt_local n m cd f J W HJ). intros k Hk. unfold Y3. rewrite !vstore_lt by auto. rs. unfold K3, x. lra. }
  set (dA0 := mstore n n (fun i j => mul (blkA n J0 i j) h)).
  set (dA1 := mstore n n (fun i j => mul (mm n (blkA n J1) (fun k l => add (mident k l) (mul half (dA0 k l))) i j) h)).
  set (dA2 := mstore n n (fun i j => mul (mm n (blkA n J2) (fun k l => add (mident k l) (mul half (dA1 k l))) i j) h)).
  set (dA3 := mstore n n (fun i j => mul (mm n (blkA n J3) (fun k l => add (mident k l) (dA2 k l)) i j) h)).
  set (dB0 := mstore n m (fun i j => mul (blkB n m J0 i j) h)).
  set (dB1 := mstore n m (fun i j => add (mul (blkB n m J1 i j) h) (mul (mm n (mscale half (blkA n J1)) dB0 i j) h))).
  set (dB2 := mstore n m (fun i j => add (mul (blkB n m J2 i j) h) (mul (mm n (mscale half (blkA n J2)) dB1 i j) h))).
  set (dB3 := mstore n m (fun i j => add (mul (blkB n m J3 i j) h) (mul (mm n (blkA n J3) dB2 i j) h))).
  (* the four stage velocities *)
  assert (D1 : forall i, (i < n)%nat -> is_derive (fun q => h * K1 q i) 0 (lin dA0 dB0 v w i)).
  { intros a Ha. apply (d_ext (fun q => h * f (X q) (U q) t a)); [intros q; unfold K1, S1; rewrite (rk_k1_eq n cd f Hcd) by auto; reflexivity|].
    eapply d_eq; [apply d_scal; apply (jt_deriv n m cd f J W HJ _ _ _ _ t HX HU a Ha)|].
    rewrite !fsum_rsum, Rmult_plus_distr_l, <- !rsum_scal. unfold lin. f_equal; apply rsum_ext; intros j Hj.
    - unfold dA0, blkA. rewrite !mstore_lt by lia. rewrite F0 by lia. rs. unfold x, u. lra.
    - unfold dB0, blkB. rewrite !mstore_lt by lia. rewrite F0 by lia. rs. unfold x, u. lra. }
  assert (D2 : forall i, (i < n)%nat -> is_derive (fun q => h * K2 q i) 0 (lin dA1 dB1 v w i)).
  { intros a Ha. apply (d_ext (fun q => h * f (Y1 q) (U q) (t + h / 2) a)).
    - intros q. unfold K2, S1. rewrite (rk_k2_eq n cd f Hcd) by auto. f_equal. apply (cp_local n cd f Hcd); auto.
      intros j Hj. unfold Y1. rewrite vstore_lt by auto. unfold K1, S1. rs. lra.
    - eapply d_eq; [apply (stage X U v w K1 dA0 dB0 (/ 2) h (t + h / 2) HX HU D1 a Ha)|]. fold (Y1 0). fold u.
      apply lin_ext; intros j Hj.
      + unfold dA1. rewrite mstore_lt by lia. unfold mm, blkA. rewrite rdot_eq. rs. f_equal. apply rsum_ext. intros k Hk.
        rewrite mstore_lt by lia. rewrite (G1 _ _ (t + h / 2)) by lia. rewrite half_RS. reflexivity.
      + unfold dB1. rewrite mstore_lt by lia. unfold blkB. rewrite mstore_lt by lia. rewrite (G1 _ _ (t + h / 2)) by lia. unfold mm. rewrite rdot_eq. rs. f_equal. f_equal.
        apply rsum_ext. intros k Hk. unfold mscale, blkA. rewrite mstore_lt by lia. rewrite (G1 _ _ (t + h / 2)) by lia. rewrite half_RS. rs. reflexivity. }
  assert (D3 : forall i, (i < n)%nat -> is_derive (fun q => h * K3 q i) 0 (lin dA2 dB2 v w i)).
  { intros a Ha. apply (d_ext (fun q => h * f (Y2 q) (U q) (t + h / 2) a)).
    - intros q. unfold K3, S1. rewrite (rk_k3_eq n cd f Hcd) by auto. f_equal. apply (cp_local n cd f Hcd); auto.
      intros j Hj. unfold Y2. rewrite vstore_lt by auto. unfold K2, S1. rs. lra.
    - eapply d_eq; [apply (stage X U v w K2 dA1 dB1 (/ 2) h (t + h / 2) HX HU D2 a Ha)|]. fold (Y2 0). fold u.
      apply lin_ext; intros j Hj.
      + unfold dA2. rewrite mstore_lt by lia. unfold mm, blkA. rewrite rdot_eq. rs. f_equal. apply rsum_ext. intros k Hk.
        rewrite mstore_lt by lia. rewrite (G2 _ _ (t + h / 2)) by lia. rewrite half_RS. reflexivity.
      + unfold dB2. rewrite mstore_lt by lia. unfold blkB. rewrite mstore_lt by lia. rewrite (G2 _ _ (t + h / 2)) by lia. unfold mm. rewrite rdot_eq. rs. f_equal. f_equal.
        apply rsum_ext. intros k Hk. unfold mscale, blkA. rewrite mstore_lt by lia. rewrite (G2 _ _ (t + h / 2)) by lia. rewrite half_RS. rs. reflexivity. }
  assert (D4 : is_derive (fun q => h * f (Y3 q) (U q) (t + h) i) 0 (lin dA3 dB3 v w i)).
  { eapply d_eq; [apply (stage X U v w K3 dA2 dB2 1 h (t + h) HX HU D3 i Hi)|]. fold (Y3 0). fold u.
    apply lin_ext; intros j Hj.
    + unfold dA3. rewrite mstore_lt by lia. unfold mm, blkA. rewrite rdot_eq. rs. f_equal. apply rsum_ext. intros k Hk.
      rewrite mstore_lt by lia. rewrite (G3 _ _ (t + h)) by lia. rewrite Rmult_1_l. reflexivity.
    + unfold dB3. rewrite mstore_lt by lia. unfold blkB. rewrite mstore_lt by lia. rewrite (G3 _ _ (t + h)) by lia. unfold mm. rewrite rdot_eq. rs. f_equal. f_equal.
      apply rsum_ext. intros k Hk. unfold blkA. rewrite mstore_lt by lia. rewrite (G3 _ _ (t + h)) by lia. rewrite Rmult_1_l. reflexivity. }
  apply (d_ext (fun q => X q i + / 6 * (h * K1 q i + 2 * (h * K2 q i) + 2 * (h * K3 q i) + h * f (Y3 q) (U q) (t + h) i))).
  { intros q. unfold rk4_step. cbn [snd]. fold (S1 q). rewrite !vstore_lt by auto. rewrite (cp_eval n cd f Hcd) by auto. rewrite two_RS. rs.
    rewrite <- (f_loc n cd f Hcd (vstore (F:=RS) n (fun i => X q i + rk_k3 (S1 q) i * h)) (Y3 q) (U q) (t_full t h) (t + h) i Hi).
    - unfold K1, K2, K3. field.
    - intros j Hj. unfold Y3. rewrite !vstore_lt by auto. rs. unfold K3. lra.
    - reflexivity. }
  eapply d_eq; [apply d_plus; [apply HX|]; apply d_scal; apply d_plus; [apply d_plus; [apply d_plus; [apply D1; auto|apply d_scal; apply D2; auto]|apply d_scal; apply D3; auto]|apply D4]|].
  rewrite !fsum_rsum.
  pose (RJ := mstore (F:=RS) n (n + m) (fun i j => if Nat.ltb j n
      then add (mident i j) (div (add (add (add (dA0 i j) (mul two (dA1 i j))) (mul two (dA2 i j))) (dA3 i j)) (ofZ 6))
      else div (add (add (add (dB0 i (j - n)%nat) (mul two (dB1 i (j - n)%nat))) (mul two (dB2 i (j - n)%nat))) (dB3 i (j - n)%nat)) (ofZ 6))).
  change (snd (rk4_jac n m cd s x u t h (buf0 x u))) with RJ.
  assert (RA : forall j, (j < n)%nat -> RJ i j = mident (F:=RS) i j + / 6 * (dA0 i j + 2 * dA1 i j + 2 * dA2 i j + dA3 i j)).
  { intros j Hj. unfold RJ. rewrite mstore_lt by lia. replace (Nat.ltb j n) with true by (symmetry; apply Nat.ltb_lt; auto).
    clearbody dA0 dA1 dA2 dA3. rewrite two_RS. rs. field. }
  assert (RB : forall j, (j < m)%nat -> RJ i (n + j)%nat = / 6 * (dB0 i j + 2 * dB1 i j + 2 * dB2 i j + dB3 i j)).
  { intros j Hj. unfold RJ. rewrite mstore_lt by lia. replace (Nat.ltb (n + j) n) with false by (symmetry; apply Nat.ltb_ge; lia).
    replace (n + j - n)%nat with j by lia. clearbody dB0 dB1 dB2 dB3. rewrite two_RS. rs. field. }
  clearbody RJ. clearbody dA0 dA1 dA2 dA3 dB0 dB1 dB2 dB3.
  rewrite (rsum_ext n (fun j => RJ i j * v j)
    (fun j => mident (F:=RS) i j * v j + / 6 * (dA0 i j * v j + 2 * (dA1 i j * v j) + 2 * (dA2 i j * v j) + dA3 i j * v j)))
    by (intros j Hj; rewrite RA by auto; field).
  rewrite (rsum_ext m (fun j => RJ i (n + j)%nat * w j)
    (fun j => / 6 * (dB0 i j * w j + 2 * (dB1 i j * w j) + 2 * (dB2 i j * w j) + dB3 i j * w j)))
    by (intros j Hj; rewrite RB by auto; field).
  rewrite rsum_plus, !rsum_scal, !rsum_plus, !rsum_scal.
  assert (Hd : rsum n (fun j => mident (F:=RS) i j * v j) = v i).
  { rewrite (rsum_single n i); auto; [unfold mident; rewrite Nat.eqb_refl; rs; lra|].
    intros j Hj Hne. unfold mident. replace (Nat.eqb i j) with false by (symmetry; apply Nat.eqb_neq; lia). rs. lra. }
  rewrite Hd. unfold lin. lra.
Qed.
End Jac.
