(** A bound for the sweeps of a backward pass in IEEE doubles from the range of the regularisation. *)
From Coq Require Import ZArith Reals Lra Lia Bool List Psatz.
From Coq Require Import Floats.SpecFloat.
From Flocq Require Import Core IEEE754.BinarySingleNaN.
From Flocq Require Import Relative.
From Verif Require Import Base Lin StatsModel TrajModel IlqrModel FloatBridge RegFloat.
Import ListNotations.
Local Open Scope R_scope.
#[local] Existing Instance FloatBridge.Hp.
#[local] Existing Instance FloatBridge.Hm.

(** the smallest normal double *)
Definition tiny : R := bpow radix2 (-1022).
Lemma r64_norm x : tiny <= x -> x * (1 - eps) <= r64 x.
Proof.
  intros X. assert (TP : 0 < tiny) by apply bpow_gt_0. pose proof (relative_error_N_FLT radix2 (-1074) 53 eq_refl (fun x => negb (Z.even x)) x) as E.
  assert (B : bpow radix2 (-1074 + 53 - 1) <= Rabs x) by (rewrite Rabs_pos_eq by lra; exact X).
  specialize (E B). change (round radix2 (FLT_exp (-1074) 53) (Znearest (fun x => negb (Z.even x))) x) with (r64 x) in E.
  assert (EE : / 2 * bpow radix2 (Z.opp 53 + 1) = eps). { unfold eps. change (bpow radix2 (Z.opp 53 + 1)) with (/ IZR (2 ^ 52)). replace (2 ^ 53) with (2 * 2 ^ 52) by (simpl; lra). rewrite (pow_IZR 2 52). change (2 ^ Z.of_nat 52)%Z with (2 ^ 52)%Z. rewrite Rinv_mult; reflexivity. }
  rewrite EE, (Rabs_pos_eq x) in E by lra. apply Rabs_le_inv in E. nra.
Qed.
Section Reg.
Context {CS : Type} (n m : nat).
Notation ILQR := (ILQR FS CS).
Lemma inc_grow (s : ILQR) : freg_ok (il_opts s) -> freg_inv (il_rho s) (il_drho s) -> tiny <= fval (il_rho s) ->
  Rmin (fval (il_rho s) * grow (il_opts s)) (fval (o_reg_max (il_opts s))) <= fval (il_rho (il_increase_reg s)).
Proof.
  intros RO (R1 & R2 & D1 & D2) T. set (s' := il_increase_reg s). set (o := il_opts s) in *. destruct (inc_drho o (il_drho s) RO D1) as (A & _ & _).
  assert (ER : il_rho s' = smin (F:=FS) (smax (F:=FS) (mul (il_rho s) (smax (F:=FS) (mul (il_drho s) (o_reg_factor o)) (o_reg_factor o))) (o_reg_min o)) (o_reg_max o)) by reflexivity.
  rewrite ER. clear ER. clearbody s'. cbv zeta in *. set (d' := smax (F:=FS) (mul (il_drho s) (o_reg_factor o)) (o_reg_factor o)) in *. clearbody d'. change (freg_ok o) in RO. clearbody o. pose proof RO as (F1 & F2 & _).
  assert (TP : 0 < tiny) by apply bpow_gt_0. assert (PI : forall x : FS, x = pinf -> Rmin (fval (il_rho s) * grow o) (fval (o_reg_max o)) <= fval (smin (F:=FS) (smax (F:=FS) x (o_reg_min o)) (o_reg_max o))).
  { intros x ->. destruct (clamp o pinf RO (or_introl eq_refl)) as (_ & _ & K & _). rewrite K by reflexivity. apply Rmin_r. }
  destruct A as [A|(A & A' & _)]; [apply PI; rewrite A; apply mul_inf_r; [exact R1|lra]|].
  destruct (mul_fin (il_rho s) d' R1 A R2 ltac:(lra)) as [[E _]|[E V]]; [apply PI; exact E|].
  assert (PM : 0 <= fval (mul (s:=FS) (il_rho s) d')) by (rewrite V, <- r64_0; apply r64_le; nra).
  destruct (clamp o _ RO (or_intror (conj E PM))) as (_ & _ & _ & K & _). specialize (K E). eapply Rle_trans; [|exact K]. apply Rle_min_compat_r. rewrite V.
  apply Rle_trans with (r64 (fval (il_rho s) * fval (o_reg_factor o))); [|apply r64_le; nra]. unfold grow. rewrite <- Rmult_assoc. apply r64_norm. nra.
Qed.
(** at most k more increases until the maximum is reached *)
Definition below (k : nat) (s : ILQR) : Prop := freg_inv (il_rho s) (il_drho s) /\ fval (o_reg_min (il_opts s)) <= fval (il_rho s) <= fval (o_reg_max (il_opts s)) /\ fval (o_reg_max (il_opts s)) <= fval (il_rho s) * grow (il_opts s) ^ k.
Lemma below_inc k (s : ILQR) : freg_ok (il_opts s) -> tiny <= fval (o_reg_min (il_opts s)) -> below (S k) s -> below k (il_increase_reg s).
Proof.
  intros RO T (RI & B & M). destruct (inc_spec s RO RI) as (A1 & A2 & _). split; [apply inv_inc; assumption|]. split; [exact A2|]. change (il_opts (il_increase_reg s)) with (il_opts s) in *.
  pose proof (inc_grow s RO RI ltac:(lra)) as G. pose proof (grow_gt _ RO) as GG. assert (P : 1 <= grow (il_opts s) ^ k) by (apply pow_R1_Rle; lra). simpl in M. assert (TP : 0 < tiny) by apply bpow_gt_0.
  unfold Rmin in G. destruct (Rle_dec _ _) in G.
  - eapply Rle_trans; [exact M|]. rewrite <- Rmult_assoc. apply Rmult_le_compat_r; lra.
  - assert (fval (il_rho (il_increase_reg s)) = fval (o_reg_max (il_opts s))) by lra. rewrite H. nra.
Qed.
Lemma below_more k (s : ILQR) : freg_ok (il_opts s) -> below k s -> below (S k) s.
Proof.
  intros RO ((A1 & A2 & A3) & B & M). split; [split; auto|]. split; [exact B|]. pose proof (grow_gt _ RO) as GG. assert (P : 0 < grow (il_opts s) ^ k) by (apply pow_lt; lra). simpl. eapply Rle_trans; [exact M|]. apply Rmult_le_compat_l; [exact A2|]. nra.
Qed.
Lemma at_max (s : ILQR) : freg_ok (il_opts s) -> below 0 s -> leb (s:=FS) (o_reg_max (il_opts s)) (il_rho s) = true.
Proof. intros RO ((A1 & _) & _ & M). simpl in M. apply fin_leb; [apply RO|exact A1|lra]. Qed.
Lemma floop2 kN : forall k c fuel cnt (s : ILQR), freg_ok (il_opts s) -> tiny <= fval (o_reg_min (il_opts s)) -> (1 <= il_N s)%nat -> below k s -> (o_reg_fail (il_opts s) - cnt <= Z.of_nat c)%Z -> (c + k < fuel)%nat ->
  exists s', bp_loop n m fuel kN cnt s = Ok s'.
Proof.
  assert (L0 : forall c fuel cnt (s : ILQR), freg_ok (il_opts s) -> tiny <= fval (o_reg_min (il_opts s)) -> (1 <= il_N s)%nat -> below 0 s -> (o_reg_fail (il_opts s) - cnt <= Z.of_nat c)%Z -> (c < fuel)%nat -> exists s', bp_loop n m fuel kN cnt s = Ok s').
  { induction c as [|c IH]; intros fuel cnt s RO T HN NR Hc Hf; destruct fuel as [|fuel]; try lia; cbn [bp_loop]; set (w := bp_sweep _ _ _ _ _ _ _ _); (destruct (sw_ok w); [destruct (il_N s); [lia|eauto]|]);
      set (s1 := il_set_dV _ _ _); (assert (N1 : below 0 (il_increase_reg s1)) by (apply below_inc; [exact RO|exact T|apply below_more; [exact RO|exact NR]])); pose proof (at_max (il_increase_reg s1) RO N1) as LL; rewrite LL; change (il_opts (il_increase_reg s1)) with (il_opts s);
      (destruct (Z.leb_spec (o_reg_fail (il_opts s)) (cnt + 1)); [eauto|]); [lia|].
    apply IH; auto; try lia. change (il_opts (il_increase_reg s1)) with (il_opts s). lia. }
  induction k as [|k IH]; intros c fuel cnt s RO T HN NR Hc Hf; [apply (L0 c); auto; lia|].
  destruct fuel as [|fuel]; [lia|]. cbn [bp_loop]. set (w := bp_sweep _ _ _ _ _ _ _ _). destruct (sw_ok w); [destruct (il_N s); [lia|eauto]|].
  set (s1 := il_set_dV _ _ _). pose proof (below_inc k s1 RO T NR) as N1. change (il_opts (il_increase_reg s1)) with (il_opts s).
  set (cnt' := if leb _ _ then _ else _). assert (Hcnt : (cnt <= cnt')%Z) by (unfold cnt'; destruct (leb _ _); lia). destruct (Z.leb_spec (o_reg_fail (il_opts s)) cnt'); [eauto|].
  apply (IH c); auto; try lia. change (il_opts (il_increase_reg s1)) with (il_opts s). lia.
Qed.
Theorem fsweeps k (s : ILQR) : freg_ok (il_opts s) -> tiny <= fval (o_reg_min (il_opts s)) -> (1 <= il_N s)%nat -> freg_inv (il_rho s) (il_drho s) -> length (il_kps s) = S (il_N s) ->
  fval (o_reg_max (il_opts s)) <= fval (o_reg_min (il_opts s)) * grow (il_opts s) ^ k ->
  exists s', il_backward_pass n m (Z.to_nat (o_reg_fail (il_opts s)) + k + 2) s = Ok s'.
Proof.
  intros RO T HN RI Hl BG. unfold il_backward_pass. destruct (nth_error (il_kps s) (il_N s)) as [k0|] eqn:E; [|apply nth_error_None in E; lia].
  set (s1 := il_set_dV _ _ _). set (kN := kpf_terminal k0). assert (X : exists s2, bp_loop n m (Z.to_nat (o_reg_fail (il_opts s)) + k + 2) kN 0 s1 = Ok s2); [|destruct X as [s2 ->]; cbn [bind]; eauto].
  replace (Z.to_nat (o_reg_fail (il_opts s)) + k + 2)%nat with (S (Z.to_nat (o_reg_fail (il_opts s)) + k + 1)) by lia. cbn [bp_loop]. change (il_N s1) with (il_N s). set (w := bp_sweep _ _ _ _ _ _ _ _). destruct (sw_ok w); [destruct (il_N s); [lia|eauto]|].
  set (s2 := il_set_dV _ _ _). assert (RI2 : freg_inv (il_rho s2) (il_drho s2)) by exact RI. assert (RO2 : freg_ok (il_opts s2)) by exact RO. destruct (inc_spec s2 RO2 RI2) as (A & B & C & _). change (il_opts (il_increase_reg s2)) with (il_opts s).
  set (cnt' := if leb _ _ then _ else _). assert (Hcnt : (0 <= cnt')%Z) by (unfold cnt'; destruct (leb _ _); lia). destruct (Z.leb_spec (o_reg_fail (il_opts s)) cnt'); [eauto|].
  apply (floop2 kN k (Z.to_nat (o_reg_fail (il_opts s)))); auto; try lia; [|change (il_opts (il_increase_reg s2)) with (il_opts s); lia].
  split; [apply inv_inc; assumption|]. split; [exact B|]. change (il_opts (il_increase_reg s2)) with (il_opts s). eapply Rle_trans; [exact BG|]. apply Rmult_le_compat_r; [|apply B]. apply pow_le. pose proof (grow_gt _ RO). lra.
Qed.
End Reg.
