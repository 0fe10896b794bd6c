(** The task boundaries in IEEE doubles: at most one of them is lost, the last. *)
From Coq Require Import List ZArith Reals Lra Lia Bool Arith.
From Coq Require Import Floats.SpecFloat.
From Flocq Require Import Core IEEE754.BinarySingleNaN Relative.
From Verif Require Import Base Lin StatsModel TrajModel IlqrModel PoolSpec TaskModel TaskSpec TaskProofs FloatBridge.
Import ListNotations.
Local Open Scope R_scope.

Lemma f_round_eq x : fin x -> f_round x = r_round (fval x).
Proof.
  intros (b & <- & Fb). destruct b as [s|s| |s m e B]; try discriminate; cbn [B2SF].
  - cbn. symmetry. change 0 with (IZR 0). apply r_round_int. lia.
  - assert (P : forall m e, (if 0 <=? e then Zpos m * 2 ^ e else (Zpos m + 2 ^ (- e - 1)) / 2 ^ (- e))%Z = Int_part (IZR (Zpos m) * bpow radix2 e + / 2)).
    { clear. intros m e. symmetry. destruct (Z.leb_spec 0 e) as [E|E].
      - replace (bpow radix2 e) with (IZR (2 ^ e)) by (rewrite <- (IZR_Zpower radix2 e E); reflexivity). rewrite <- mult_IZR. apply int_part_unique; lra.
      - set (q := (2 ^ (- e - 1))%Z). assert (Q : (0 < q)%Z) by (apply Z.pow_pos_nonneg; lia). assert (D : (2 ^ (- e) = 2 * q)%Z) by (unfold q; rewrite <- Z.pow_succ_r by lia; f_equal; lia). rewrite D.
        assert (V : bpow radix2 e = / (2 * IZR q)). { replace e with (- (- e))%Z by lia. rewrite bpow_opp. f_equal. rewrite <- (IZR_Zpower radix2 (- e)) by lia. change (radix2 ^ - e)%Z with (2 ^ - e)%Z. rewrite D. apply mult_IZR. }
        rewrite V. assert (QR : 0 < IZR q) by (apply IZR_lt; exact Q). replace (IZR (Z.pos m) * / (2 * IZR q) + / 2) with ((IZR (Z.pos m) + IZR q) / (2 * IZR q)) by (field; lra).
        pose proof (Z.div_mod (Zpos m + q) (2 * q) ltac:(lia)) as DM. pose proof (Z.mod_pos_bound (Zpos m + q) (2 * q) ltac:(lia)) as MB. set (z := ((Zpos m + q) / (2 * q))%Z) in *.
        apply int_part_unique.
        + apply Rmult_le_reg_r with (2 * IZR q); [lra|]. unfold Rdiv. rewrite Rmult_assoc, Rinv_l, Rmult_1_r by lra. rewrite <- (mult_IZR 2 q), <- plus_IZR, <- mult_IZR. apply IZR_le. lia.
        + apply Rmult_lt_reg_r with (2 * IZR q); [lra|]. unfold Rdiv. rewrite Rmult_assoc, Rinv_l, Rmult_1_r by lra. rewrite <- (mult_IZR 2 q), <- !plus_IZR, <- mult_IZR. apply IZR_lt. lia. }
    unfold f_round. rewrite P. unfold fval, SF2R, F2R. cbn [Fnum Fexp]. unfold r_round. pose proof (bpow_gt_0 radix2 e) as BP. assert (MP : 0 < IZR (Zpos m)) by (apply IZR_lt; lia). pose proof (Rmult_lt_0_compat _ _ MP BP) as PP. destruct s; cbn [cond_Zopp Z.opp].
    + change (Z.neg m) with (- Z.pos m)%Z. rewrite opp_IZR. destruct (Rlt_dec (- IZR (Z.pos m) * bpow radix2 e) 0) as [L|L]; [|exfalso; apply L; lra]. f_equal. f_equal. ring.
    + destruct (Rlt_dec (IZR (Z.pos m) * bpow radix2 e) 0) as [L|L]; [lra|reflexivity].
Qed.

(** unit roundoff *)
Definition eps : R := / IZR (2 ^ 53).
Lemma r64_err x : bpow radix2 (- 1022) <= Rabs x -> Rabs (r64 x - x) <= eps * Rabs x.
Proof.
  intros L. pose proof (relative_error_N_FLT radix2 (emin 53 1024) 53 Hp (fun x => negb (Z.even x)) x) as E. change (bpow radix2 (emin 53 1024 + 53 - 1)) with (bpow radix2 (-1022)) in E. specialize (E L).
  replace (/ 2 * bpow radix2 (- (53) + 1)) with eps in E; [exact E|]. unfold eps. change (bpow radix2 (- (53) + 1)) with (/ IZR (2 ^ 52)). change (2 ^ 53)%Z with (2 * 2 ^ 52)%Z. rewrite mult_IZR. field. apply not_0_IZR. lia.
Qed.
Lemma tiny : bpow radix2 (- 1022) <= / IZR (2 ^ 60).
Proof. change (/ IZR (2 ^ 60)) with (bpow radix2 (- 60)). apply bpow_le. lia. Qed.
Lemma r64_err' x : / IZR (2 ^ 60) <= x -> Rabs (r64 x - x) <= eps * x.
Proof.
  intros L. assert (P : 0 < / IZR (2 ^ 60)) by (apply Rinv_0_lt_compat; apply IZR_lt; lia). pose proof (r64_err x) as E. rewrite Rabs_pos_eq in E by lra. apply E. pose proof tiny. lra.
Qed.
Lemma eps_pos : 0 < eps.
Proof. apply Rinv_0_lt_compat. apply IZR_lt. lia. Qed.
Lemma eps_val k z : (2 ^ k * z = 2 ^ 53)%Z -> (0 <= k)%Z -> eps * IZR (2 ^ k) = / IZR z.
Proof.
  intros E K. unfold eps. rewrite <- E, mult_IZR. assert (2 ^ k <> 0)%Z by (intros X; rewrite X in E; lia). assert (z <> 0)%Z by (intros ->; lia). field. split; apply not_0_IZR; assumption.
Qed.
Lemma r64_bound x : 0 <= x -> x <= IZR (2 ^ 53) -> Rabs (r64 x) < big.
Proof.
  intros P L. assert (A : 0 <= r64 x) by (rewrite <- r64_0; apply r64_le; exact P). assert (B : r64 x <= IZR (2 ^ 53)) by (rewrite <- (r64_int (2 ^ 53)) by lia; apply r64_le; exact L).
  rewrite Rabs_pos_eq by exact A. apply Rle_lt_trans with (1 := B). rewrite <- (Rabs_pos_eq (IZR (2 ^ 53))) by (apply IZR_le; lia). apply int_big. lia.
Qed.

Section Float.
Context (N p : Z) (HN : (1 <= N < 2 ^ 31)%Z) (HP : (1 <= p <= 2 ^ 18)%Z).
Let D : R := IZR N / IZR p.
Definition fstep : FS := div (ofZ (s:=FS) N) (ofZ p).
Fixpoint fvals (i : nat) : FS := match i with O => zero | S j => add (fvals j) fstep end.
Let s := fval fstep.
Lemma pp : 0 < IZR p. Proof. apply IZR_lt. lia. Qed.
Lemma nn : 0 < IZR N. Proof. apply IZR_lt. lia. Qed.
Lemma D_lo : / IZR (2 ^ 18) <= D.
Proof.
  pose proof pp. pose proof nn. unfold D. assert (1 <= IZR N) by (apply IZR_le; lia). assert (IZR p <= IZR (2 ^ 18)) by (apply IZR_le; lia). apply Rle_trans with (/ IZR p).
  - apply Rinv_le_contravar; lra.
  - unfold Rdiv. rewrite <- (Rmult_1_l (/ IZR p)) at 1. apply Rmult_le_compat_r; [left; apply Rinv_0_lt_compat; lra|lra].
Qed.
Lemma D_hi : D <= IZR (2 ^ 31).
Proof.
  pose proof pp. pose proof nn. unfold D. assert (IZR N <= IZR (2 ^ 31)) by (apply IZR_le; lia). assert (1 <= IZR p) by (apply IZR_le; lia). apply Rmult_le_reg_r with (IZR p); [lra|]. unfold Rdiv. rewrite Rmult_assoc, Rinv_l, Rmult_1_r by lra. nra.
Qed.
Lemma fN : fin (ofZ (s:=FS) N) /\ fval (ofZ (s:=FS) N) = IZR N. Proof. apply fin_ofZ. lia. Qed.
Lemma fP : fin (ofZ (s:=FS) p) /\ fval (ofZ (s:=FS) p) = IZR p. Proof. apply fin_ofZ. lia. Qed.
Lemma fstep_ok : fin fstep /\ fval fstep = r64 D.
Proof.
  destruct fN as [A1 A2]. destruct fP as [B1 B2]. pose proof pp. unfold fstep, D. rewrite <- A2, <- B2. apply fin_div; auto; rewrite ?A2, ?B2; [lra|]. fold D. apply r64_bound; [pose proof D_lo; assert (0 < / IZR (2 ^ 18)) by (apply Rinv_0_lt_compat; apply IZR_lt; lia); lra|]. pose proof D_hi. assert (IZR (2 ^ 31) <= IZR (2 ^ 53)) by (apply IZR_le; lia). lra.
Qed.
Lemma s_err : Rabs (s - D) <= eps * D.
Proof.
  unfold s. rewrite (proj2 fstep_ok). apply r64_err'. pose proof D_lo. assert (/ IZR (2 ^ 60) <= / IZR (2 ^ 18)) by (apply Rinv_le_contravar; [apply IZR_lt; lia|apply IZR_le; lia]). lra.
Qed.
Lemma D_pos : 0 < D.
Proof. pose proof D_lo. assert (0 < / IZR (2 ^ 18)) by (apply Rinv_0_lt_compat; apply IZR_lt; lia). lra. Qed.
Lemma eps_small : eps <= / 8.
Proof. unfold eps. apply Rinv_le_contravar; [lra|]. apply (IZR_le 8). lia. Qed.
Lemma s_bounds : D / 2 <= s <= 2 * D.
Proof. pose proof s_err as E. pose proof D_pos. pose proof eps_pos. pose proof eps_small. apply Rabs_le_inv in E. assert (eps * D <= / 8 * D) by (apply Rmult_le_compat_r; lra). lra. Qed.
Lemma s_lo : / IZR (2 ^ 60) <= s.
Proof. pose proof D_lo. pose proof s_bounds. assert (2 * / IZR (2 ^ 60) <= / IZR (2 ^ 18)); [|lra]. replace (2 * / IZR (2 ^ 60)) with (/ IZR (2 ^ 59)). - apply Rinv_le_contravar; [apply IZR_lt; lia|apply IZR_le; lia]. - change (2 ^ 60)%Z with (2 * 2 ^ 59)%Z. rewrite mult_IZR. field. apply not_0_IZR. lia. Qed.
(** accumulated error *)
Lemma vals_err i : (i <= S (Z.to_nat p))%nat -> fin (fvals i) /\ 0 <= fval (fvals i) /\ Rabs (fval (fvals i) - INR i * s) <= 2 * eps * s * (INR i * INR i).
Proof.
  pose proof s_lo as SL. assert (SP : 0 < s) by (assert (0 < / IZR (2 ^ 60)) by (apply Rinv_0_lt_compat; apply IZR_lt; lia); lra).
  induction i as [|i IH]; intros L.
  - cbn [fvals INR]. split; [exact fin_zero|]. rewrite fval_zero. split; [lra|]. rewrite !Rmult_0_l, Rminus_0_r, Rabs_R0. lra.
  - destruct (IH ltac:(lia)) as (F & P & E). clear IH. set (v := fval (fvals i)) in *. cbn [fvals].
    assert (I0 : 0 <= INR i) by apply pos_INR. assert (IL : INR i <= IZR (2 ^ 18)) by (rewrite INR_IZR_INZ; apply IZR_le; lia).
    assert (Q : 2 * eps * INR i <= 1).
    { assert (X : eps * IZR (2 ^ 18) = / IZR (2 ^ 35)) by (apply eps_val; lia). assert (/ IZR (2 ^ 35) <= / 2) by (apply Rinv_le_contravar; [lra|apply (IZR_le 2); lia]). pose proof eps_pos. assert (eps * INR i <= eps * IZR (2 ^ 18)) by (apply Rmult_le_compat_l; lra). lra. }
    assert (E2 : Rabs (v - INR i * s) <= INR i * s). { apply Rle_trans with (1 := E). replace (2 * eps * s * (INR i * INR i)) with (2 * eps * INR i * (INR i * s)) by ring. rewrite <- (Rmult_1_l (INR i * s)) at 2. apply Rmult_le_compat_r; [apply Rmult_le_pos; lra|exact Q]. }
    assert (VU : v <= 2 * INR i * s) by (apply Rabs_le_inv in E2; lra).
    assert (VB : v + s <= IZR (2 ^ 53)).
    { pose proof s_bounds. pose proof D_hi. assert (S2 : s <= IZR (2 ^ 32)) by (change (2 ^ 32)%Z with (2 * 2 ^ 31)%Z; rewrite mult_IZR; lra). apply Rle_trans with ((2 * IZR (2 ^ 18) + 1) * IZR (2 ^ 32)).
      - apply Rle_trans with ((2 * INR i + 1) * s); [lra|]. apply Rmult_le_compat; lra.
      - rewrite <- mult_IZR, <- plus_IZR, <- mult_IZR. apply IZR_le. lia. }
    assert (RB : Rabs (r64 (v + fval fstep)) < big) by (fold s; apply r64_bound; lra). destruct (fin_add (fvals i) fstep F (proj1 fstep_ok) RB) as [F' V']. fold v s in V'.
    split; [exact F'|]. rewrite V'. split; [rewrite <- r64_0; apply r64_le; lra|].
    assert (R : Rabs (r64 (v + s) - (v + s)) <= eps * (v + s)) by (apply r64_err'; lra).
    rewrite S_INR. replace (r64 (v + s) - (INR i + 1) * s) with ((r64 (v + s) - (v + s)) + (v - INR i * s)) by ring. apply Rle_trans with (1 := Rabs_triang _ _).
    assert (eps * (v + s) <= eps * ((2 * INR i + 1) * s)) by (apply Rmult_le_compat_l; [pose proof eps_pos; lra|lra]).
    assert (0 <= eps * s) by (apply Rmult_le_pos; [pose proof eps_pos|]; lra). nra.
Qed.
Lemma vals_exact i : (i <= S (Z.to_nat p))%nat -> Rabs (fval (fvals i) - INR i * D) <= 4 * eps * D * (INR i * INR i).
Proof.
  intros L. destruct (vals_err i L) as (_ & _ & E). pose proof s_err as SE. pose proof D_pos. pose proof eps_pos. pose proof eps_small. destruct i as [|i]; [cbn [INR fvals]; rewrite fval_zero, !Rmult_0_l, Rminus_0_r, Rabs_R0; lra|].
  set (r := INR (S i)) in *. assert (R1 : 1 <= r) by (unfold r; rewrite S_INR; pose proof (pos_INR i); lra).
  replace (fval (fvals (S i)) - r * D) with ((fval (fvals (S i)) - r * s) + r * (s - D)) by ring. apply Rle_trans with (1 := Rabs_triang _ _). rewrite Rabs_mult, (Rabs_pos_eq r) by lra.
  assert (SU : s <= (1 + eps) * D) by (apply Rabs_le_inv in SE; lra). assert (X : r * Rabs (s - D) <= r * (eps * D)) by (apply Rmult_le_compat_l; lra).
  assert (Y : 2 * eps * s * (r * r) <= 2 * eps * ((1 + eps) * D) * (r * r)) by (apply Rmult_le_compat_r; [nra|]; apply Rmult_le_compat_l; lra).
  assert (Z1 : r * (eps * D) <= (eps * D) * (r * r)) by (rewrite (Rmult_comm r); apply Rmult_le_compat_l; [apply Rmult_le_pos; lra|nra]).
  assert (Z2 : 2 * eps * ((1 + eps) * D) * (r * r) <= 3 * eps * D * (r * r)). { replace (2 * eps * ((1 + eps) * D) * (r * r)) with ((2 + 2 * eps) * (eps * D * (r * r))) by ring. replace (3 * eps * D * (r * r)) with (3 * (eps * D * (r * r))) by ring. apply Rmult_le_compat_r; [|lra]. apply Rmult_le_pos; [apply Rmult_le_pos; lra|nra]. }
  lra.
Qed.
Lemma vals_mono i : (S i <= S (Z.to_nat p))%nat -> fval (fvals i) <= fval (fvals (S i)).
Proof.
  intros L. destruct (vals_err i ltac:(lia)) as (F & P & _). destruct (vals_err (S i) L) as (F' & P' & _). 
  rewrite <- (r64_fin _ F).
  assert (V : fval (fvals (S i)) = r64 (fval (fvals i) + s)).
  { cbn [fvals]. apply fin_add; [exact F|apply fstep_ok|]. fold s. pose proof s_lo. assert (0 < / IZR (2 ^ 60)) by (apply Rinv_0_lt_compat; apply IZR_lt; lia).
    apply r64_bound; [lra|]. pose proof (vals_err i ltac:(lia)) as (_ & _ & E). assert (I0 : 0 <= INR i) by apply pos_INR. assert (IL : INR i <= IZR (2 ^ 18)) by (rewrite INR_IZR_INZ; apply IZR_le; lia).
    assert (Q : 2 * eps * INR i <= 1).
    { assert (X : eps * IZR (2 ^ 18) = / IZR (2 ^ 35)) by (apply eps_val; lia). assert (/ IZR (2 ^ 35) <= / 2) by (apply Rinv_le_contravar; [lra|apply (IZR_le 2); lia]). pose proof eps_pos. assert (eps * INR i <= eps * IZR (2 ^ 18)) by (apply Rmult_le_compat_l; lra). lra. }
    assert (E2 : Rabs (fval (fvals i) - INR i * s) <= INR i * s). { apply Rle_trans with (1 := E). replace (2 * eps * s * (INR i * INR i)) with (2 * eps * INR i * (INR i * s)) by ring. rewrite <- (Rmult_1_l (INR i * s)) at 2. apply Rmult_le_compat_r; [apply Rmult_le_pos; lra|exact Q]. }
    pose proof s_bounds. pose proof D_hi. assert (S2 : s <= IZR (2 ^ 32)) by (change (2 ^ 32)%Z with (2 * 2 ^ 31)%Z; rewrite mult_IZR; lra). apply Rle_trans with ((2 * IZR (2 ^ 18) + 1) * IZR (2 ^ 32)).
      - apply Rle_trans with ((2 * INR i + 1) * s); [apply Rabs_le_inv in E2; lra|]. apply Rmult_le_compat; lra.
      - rewrite <- mult_IZR, <- plus_IZR, <- mult_IZR. apply IZR_le. lia. }
  rewrite V. apply r64_le. pose proof s_lo. assert (0 < / IZR (2 ^ 60)) by (apply Rinv_0_lt_compat; apply IZR_lt; lia). lra.
Qed.

(** small quantities *)
Lemma four_eps_pp : 4 * eps * (IZR p * IZR p) <= / 4.
Proof.
  assert (X : eps * IZR (2 ^ 40) = / IZR (2 ^ 13)) by (apply eps_val; lia). assert (Y : IZR p * IZR p <= IZR (2 ^ 36)) by (rewrite <- mult_IZR; apply IZR_le; nia). pose proof eps_pos. assert (eps * (IZR p * IZR p) <= eps * IZR (2 ^ 40)).
  { apply Rmult_le_compat_l; [lra|]. apply Rle_trans with (1 := Y). apply IZR_le. lia. }
  assert (/ IZR (2 ^ 13) <= / 16) by (apply Rinv_le_contravar; [lra|apply (IZR_le 16); lia]). lra.
Qed.
Lemma last_err : 4 * eps * D * (IZR p * IZR p) <= / 4.
Proof.
  unfold D. pose proof pp. pose proof nn. replace (4 * eps * (IZR N / IZR p) * (IZR p * IZR p)) with (4 * (eps * (IZR N * IZR p))) by (field; lra). assert (X : eps * IZR (2 ^ 49) = / IZR (2 ^ 4)) by (apply eps_val; lia). pose proof eps_pos.
  assert (eps * (IZR N * IZR p) <= eps * IZR (2 ^ 49)). { apply Rmult_le_compat_l; [lra|]. rewrite <- mult_IZR. apply IZR_le. change (2 ^ 49)%Z with (2 ^ 31 * 2 ^ 18)%Z. nia. }
  replace (IZR (2 ^ 4)) with 16 in X by reflexivity. lra.
Qed.
Lemma ip : INR (Z.to_nat p) = IZR p.
Proof. rewrite INR_IZR_INZ, Z2Nat.id by lia. reflexivity. Qed.
Lemma pD : IZR p * D = IZR N.
Proof. unfold D. pose proof pp. field. lra. Qed.
Lemma vals_below i : (i < Z.to_nat p)%nat -> fval (fvals i) <= IZR N - D / 2.
Proof.
  intros L. pose proof (vals_exact i ltac:(lia)) as E. apply Rabs_le_inv in E. pose proof D_pos. pose proof eps_pos. pose proof four_eps_pp as Q. pose proof pD.
  assert (I1 : INR i <= IZR p - 1) by (rewrite <- ip; replace (Z.to_nat p) with (S (Z.to_nat p - 1)) by lia; rewrite S_INR; assert (INR i <= INR (Z.to_nat p - 1)) by (apply le_INR; lia); lra). assert (I0 : 0 <= INR i) by apply pos_INR.
  assert (X1 : INR i * D <= (IZR p - 1) * D) by (apply Rmult_le_compat_r; lra). assert (X2 : 4 * eps * D * (INR i * INR i) <= / 4 * D).
  { replace (4 * eps * D * (INR i * INR i)) with (4 * eps * (INR i * INR i) * D) by ring. apply Rmult_le_compat_r; [lra|]. apply Rle_trans with (2 := Q). apply Rmult_le_compat_l; [lra|]. apply Rmult_le_compat; lra. }
  lra.
Qed.
Lemma vals_above : IZR N + D / 2 <= fval (fvals (S (Z.to_nat p))).
Proof.
  pose proof (vals_exact (S (Z.to_nat p)) ltac:(lia)) as E. apply Rabs_le_inv in E. rewrite S_INR, ip in E. pose proof D_pos. pose proof eps_pos. pose proof four_eps_pp as Q. pose proof pD. pose proof eps_small.
  assert (X : 4 * eps * D * ((IZR p + 1) * (IZR p + 1)) <= / 2 * D); [|lra]. replace (4 * eps * D * ((IZR p + 1) * (IZR p + 1))) with ((4 * eps * ((IZR p + 1) * (IZR p + 1))) * D) by ring. apply Rmult_le_compat_r; [lra|].
  assert (P1 : IZR p + 1 <= IZR (2 ^ 19)) by (rewrite <- (plus_IZR p 1); apply IZR_le; lia). pose proof pp. assert (Y : eps * IZR (2 ^ 40) = / IZR (2 ^ 13)) by (apply eps_val; lia). assert (/ IZR (2 ^ 13) <= / 16) by (apply Rinv_le_contravar; [lra|apply (IZR_le 16); lia]).
  assert (eps * ((IZR p + 1) * (IZR p + 1)) <= eps * IZR (2 ^ 40)); [|lra]. apply Rmult_le_compat_l; [lra|]. apply Rle_trans with (IZR (2 ^ 19) * IZR (2 ^ 19)); [apply Rmult_le_compat; lra|]. rewrite <- mult_IZR. apply IZR_le. lia.
Qed.
Lemma vals_last : Rabs (fval (fvals (Z.to_nat p)) - IZR N) <= / 4.
Proof. pose proof (vals_exact (Z.to_nat p) ltac:(lia)) as E. rewrite ip, pD in E. pose proof last_err. lra. Qed.

(** whether the last boundary is reached *)
Definition reached : bool := leb (s:=FS) (fvals (Z.to_nat p)) (ofZ N).
Lemma loop_float k : forall fuel i, (k + i = if reached then S (Z.to_nat p) else Z.to_nat p)%nat -> (k < fuel)%nat -> 
  task_loop (F:=FS) f_round fuel (ofZ N) fstep (fvals i) = Ok (map (fun i => f_round (fvals i)) (seq i k)).
Proof.
  induction k as [|k IH]; intros fuel i E L; (destruct fuel as [|f]; [lia|]); cbn [task_loop].
  - assert (X : leb (s:=FS) (fvals i) (ofZ N) = false); [|rewrite X; reflexivity]. destruct reached eqn:R; cbn [Nat.add] in E; subst i; [|exact R].
    destruct (leb (s:=FS) (fvals (S (Z.to_nat p))) (ofZ N)) eqn:X; [|reflexivity]. apply (proj1 (fin_leb _ _ (proj1 (vals_err _ (le_n _))) (proj1 fN))) in X. rewrite (proj2 fN) in X. pose proof vals_above. pose proof D_pos. lra.
  - assert (X : leb (s:=FS) (fvals i) (ofZ N) = true).
    { destruct (Nat.lt_ge_cases i (Z.to_nat p)) as [J|J].
      - apply fin_leb; [apply vals_err; lia|apply fN|]. rewrite (proj2 fN). pose proof (vals_below i J). pose proof D_pos. lra.
      - destruct reached eqn:R; [|lia]. replace i with (Z.to_nat p) by lia. exact R. }
    rewrite X. change (add (fvals i) fstep) with (fvals (S i)). rewrite (IH f (S i)) by lia. reflexivity.
Qed.
Definition nvals : nat := if reached then S (Z.to_nat p) else Z.to_nat p.
Definition finds : list Z := map (fun i => f_round (fvals i)) (seq 0 nvals).
Lemma nvals_le : (nvals <= S (Z.to_nat p))%nat.
Proof. unfold nvals. destruct reached; lia. Qed.
Lemma fr i : (i <= S (Z.to_nat p))%nat -> f_round (fvals i) = r_round (fval (fvals i)).
Proof. intros L. apply f_round_eq. apply vals_err. exact L. Qed.
Lemma finds_chain : chain finds.
Proof.
  intros i a b A B. unfold finds in *. pose proof nvals_le. rewrite nth_error_map in A, B.
  destruct (nth_error (seq 0 nvals) i) as [x|] eqn:X; [|discriminate]. destruct (nth_error (seq 0 nvals) (S i)) as [y|] eqn:Y; [|discriminate]. cbn [option_map] in A, B. injection A as <-. injection B as <-.
  apply nth_error_nth with (d := 0%nat) in X as X'. apply nth_error_nth with (d := 0%nat) in Y as Y'. assert (S i < nvals)%nat by (pose proof (proj1 (nth_error_Some (seq 0 nvals) (S i)) ltac:(congruence)) as Q; rewrite seq_length in Q; exact Q). rewrite seq_nth in X', Y' by lia. cbn [Nat.add] in X', Y'. subst x y. rewrite !fr by lia. apply r_round_le; [apply vals_err; lia|]. apply vals_mono. lia.
Qed.
Lemma finds_hd : hd_error finds = Some 0%Z.
Proof. unfold finds. destruct nvals as [|k] eqn:K; [unfold nvals in K; destruct reached; lia|]. cbn [seq map hd_error]. f_equal. Qed.
Lemma finds_last : last finds 0%Z = f_round (fvals (nvals - 1)).
Proof.
  unfold finds. destruct nvals as [|k] eqn:K; [unfold nvals in K; destruct reached; lia|]. rewrite seq_S, map_app. cbn [map]. rewrite last_snoc. f_equal. f_equal. lia.
Qed.
Lemma last_reached : reached = true -> last finds 0%Z = N.
Proof.
  intros R. rewrite finds_last. unfold nvals. rewrite R. replace (S (Z.to_nat p) - 1)%nat with (Z.to_nat p) by lia. rewrite fr by lia. pose proof vals_last as V. apply Rabs_le_inv in V. apply r_round_near; [lra|lra|]. apply vals_err. lia.
Qed.
Lemma last_bounds : (last finds 0 <= N)%Z /\ IZR N - D - 1 < IZR (last finds 0%Z).
Proof.
  pose proof D_pos as DP. destruct reached eqn:R; [rewrite last_reached by exact R; split; [lia|lra]|]. rewrite finds_last. unfold nvals. rewrite R. assert (P1 : (Z.to_nat p - 1 < Z.to_nat p)%nat) by lia. rewrite fr by lia.
  destruct (vals_err (Z.to_nat p - 1) ltac:(lia)) as (_ & P & _). pose proof (vals_below _ P1) as B. rewrite r_round_pos by exact P. destruct (base_Int_part (fval (fvals (Z.to_nat p - 1)) + / 2)) as [A1 A2]. split.
  - apply Z.lt_succ_r. apply lt_IZR. rewrite succ_IZR. lra.
  - pose proof (vals_exact (Z.to_nat p - 1) ltac:(lia)) as E. apply Rabs_le_inv in E. rewrite minus_INR, ip in E by lia. cbn [INR] in E. pose proof pD. pose proof last_err as Q. pose proof eps_pos.
    assert (X : 4 * eps * D * ((IZR p - 1) * (IZR p - 1)) <= / 4). { apply Rle_trans with (2 := Q). apply Rmult_le_compat_l; [apply Rmult_le_pos; lra|]. assert (1 <= IZR p) by (apply IZR_le; lia). apply Rmult_le_compat; lra. }
    lra.
Qed.
(** with one task the step is N itself *)
Lemma one_reached : p = 1%Z -> reached = true.
Proof.
  intros P1. unfold reached. rewrite P1. change (Z.to_nat 1) with 1%nat. cbn [fvals].
  assert (S1 : fval fstep = IZR N) by (rewrite (proj2 fstep_ok); unfold D; rewrite P1; replace (IZR N / 1) with (IZR N) by field; apply r64_int; lia).
  destruct (fin_add (zero (s:=FS)) fstep fin_zero (proj1 fstep_ok)) as [A B]; [rewrite fval_zero, S1, Rplus_0_l; apply r64_bound; [left; apply nn|apply IZR_le; lia]|].
  apply fin_leb; [exact A|apply fN|]. rewrite B, fval_zero, S1, Rplus_0_l, (proj2 fN), r64_int by lia. lra.
Qed.
Lemma finds_valid : valid_inds (last finds 0%Z) (removelast finds ++ [(last finds 0 + 1)%Z]).
Proof.
  pose proof finds_hd as H. pose proof finds_chain as C. assert (LL : (2 <= length finds)%nat).
  { unfold finds. rewrite map_length, seq_length. unfold nvals. destruct reached eqn:R; [lia|]. destruct (Z.eq_dec p 1) as [P1|P1]; [rewrite (one_reached P1) in R; discriminate|lia]. }
  destruct finds as [|x [|y l]] eqn:E; [discriminate|cbn in LL; lia|]. rewrite <- E in *. cbn in H. rewrite E in H. injection H as ->. split; [|split; [rewrite E; reflexivity|split]].
  - rewrite E, app_length. cbn. lia.
  - rewrite last_snoc. lia.
  - apply chain_app_last; [rewrite E; discriminate|exact C].
Qed.
End Float.

Lemma float_default fuel debug N nt tpt : (1 <= N < 2 ^ 31)%Z -> (1 <= nt * tpt <= 2 ^ 18)%Z -> (S (Z.to_nat (nt * tpt)) < fuel)%nat ->
  default_inds (F:=FS) f_round fuel debug N nt tpt =
  if debug && negb (last (finds N (nt * tpt)) 0 =? N)%Z then Abort else Ok (removelast (finds N (nt * tpt)) ++ [(last (finds N (nt * tpt)) 0 + 1)%Z]).
Proof.
  intros HN HP FU. unfold default_inds, imul. replace (int_ok (nt * tpt)) with true by (symmetry; unfold int_ok; apply andb_true_iff; split; [apply Z.leb_le; lia|apply Z.ltb_lt; lia]). cbn [bind].
  change (div (ofZ N) (ofZ (nt * tpt))) with (fstep N (nt * tpt)). change (zero (s:=FS)) with (fvals N (nt * tpt) 0). rewrite (loop_float N (nt * tpt) HN HP (nvals N (nt * tpt))); [| unfold nvals; lia| pose proof (nvals_le N (nt * tpt)); lia].
  cbn [bind]. fold (finds N (nt * tpt)). pose proof (finds_hd N (nt * tpt) HP) as H. destruct (finds N (nt * tpt)) as [|x l] eqn:E; [discriminate|]. rewrite <- E. unfold altro_assert. destruct (debug && negb (last (finds N (nt * tpt)) 0 =? N)%Z); reflexivity.
Qed.
(** * when N / p is dyadic nothing is rounded *)
Lemma dyadic_format z j : (Z.abs z < 2 ^ 53)%Z -> (0 <= j <= 1000)%Z -> generic_format radix2 (fexp 53 1024) (IZR z / IZR (2 ^ j)).
Proof.
  intros L J. apply generic_format_FLT. exists (Float radix2 z (- j)); cbn [Fnum Fexp]; [|exact L|unfold emin; lia].
  unfold F2R. cbn [Fnum Fexp]. unfold Rdiv. f_equal. rewrite bpow_opp. f_equal. rewrite <- (IZR_Zpower radix2 j) by lia. reflexivity.
Qed.
Section Dyadic.
Context (N p c j : Z) (HN : (1 <= N < 2 ^ 31)%Z) (HP : (1 <= p <= 2 ^ 18)%Z) (HJ : (0 <= j)%Z) (HC : (N * 2 ^ j = p * c)%Z) (HB : (N * 2 ^ j < 2 ^ 52)%Z).
Lemma j_small : (j <= 1000)%Z.
Proof. destruct (Z.le_gt_cases j 52) as [L|L]; [lia|]. exfalso. assert (2 ^ 52 < 2 ^ j)%Z by (apply Z.pow_lt_mono_r; lia). nia. Qed.
Lemma c_eq : IZR N / IZR p = IZR c / IZR (2 ^ j).
Proof.
  assert (0 < 2 ^ j)%Z by (apply Z.pow_pos_nonneg; lia). assert (X : IZR N * IZR (2 ^ j) = IZR p * IZR c) by (rewrite <- !mult_IZR, HC; reflexivity). assert (IZR p <> 0) by (apply not_0_IZR; lia). assert (IZR (2 ^ j) <> 0) by (apply not_0_IZR; lia).
  apply Rmult_eq_reg_r with (IZR p); [|assumption]. unfold Rdiv. rewrite Rmult_assoc, Rinv_l, Rmult_1_r by assumption. apply Rmult_eq_reg_r with (IZR (2 ^ j)); [|assumption]. rewrite X. field. assumption.
Qed.
Lemma vals_dyadic i : (i <= Z.to_nat p)%nat -> fval (fvals N p i) = INR i * (IZR N / IZR p).
Proof.
  assert (C0 : (0 < c)%Z) by (assert (0 < 2 ^ j)%Z by (apply Z.pow_pos_nonneg; lia); nia). pose proof j_small.
  assert (SE : fval (fstep N p) = IZR N / IZR p). { rewrite (proj2 (fstep_ok N p HN HP)), c_eq. apply round_generic; auto with typeclass_instances. apply dyadic_format; [nia|lia]. }
  induction i as [|i IH]; intros L; [cbn [fvals INR]; rewrite fval_zero; ring|]. specialize (IH ltac:(lia)). destruct (vals_err N p HN HP i ltac:(lia)) as (F & P & _). destruct (vals_err N p HN HP (S i) ltac:(lia)) as (F' & P' & _).
  assert (SUM : fval (fvals N p i) + fval (fstep N p) = IZR (Z.of_nat (S i) * c) / IZR (2 ^ j)).
  { rewrite IH, SE, c_eq, mult_IZR, <- INR_IZR_INZ, S_INR. unfold Rdiv. ring. }
  assert (FMT : r64 (fval (fvals N p i) + fval (fstep N p)) = fval (fvals N p i) + fval (fstep N p)). { rewrite SUM. apply round_generic; auto with typeclass_instances. apply dyadic_format; [nia|lia]. }
  cbn [fvals]. destruct (fin_add (fvals N p i) (fstep N p) F (proj1 (fstep_ok N p HN HP))) as [_ V].
  - rewrite FMT. rewrite <- FMT. apply r64_bound.
    + rewrite IH, SE. pose proof (D_pos N p HN HP). assert (0 <= INR i) by apply pos_INR. assert (0 <= INR i * (IZR N / IZR p)) by (apply Rmult_le_pos; lra). lra.
    + rewrite SUM. assert (J1 : 1 <= IZR (2 ^ j)) by (apply IZR_le; assert (0 < 2 ^ j)%Z by (apply Z.pow_pos_nonneg; lia); lia). apply Rmult_le_reg_r with (IZR (2 ^ j)); [lra|]. unfold Rdiv. rewrite Rmult_assoc, Rinv_l, Rmult_1_r by lra. rewrite <- mult_IZR. apply IZR_le. assert (1 <= 2 ^ j)%Z by (apply le_IZR; exact J1). nia.
  - change (fval (add (s:=FS) (fvals N p i) (fstep N p)) = INR (S i) * (IZR N / IZR p)). rewrite V, FMT, IH, SE, S_INR. ring.
Qed.
Lemma dyadic_reached : reached N p = true.
Proof.
  unfold reached. apply fin_leb; [apply (vals_err N p HN HP); lia|apply fN; exact HN|]. rewrite vals_dyadic by lia. rewrite (proj2 (fN N HN)), (ip p HP), (pD N p HP). lra.
Qed.
Lemma dyadic_finds : finds N p = exact_inds N p.
Proof.
  unfold finds, exact_inds, nvals. rewrite dyadic_reached. apply map_ext_in. intros i J. apply in_seq in J. rewrite (fr N p HN HP) by lia. rewrite vals_dyadic by lia. reflexivity.
Qed.
End Dyadic.
