(** The operations of [FS] (the standard library's SpecFloat at binary64 precision) are the correctly rounded ones: a bridge to the
    Flocq library, whose theorems carry no axioms besides those of the standard library's real numbers. *)
From Coq Require Import ZArith Reals Lra Lia Bool.
From Coq Require Import Floats.SpecFloat.
From Flocq Require Import Core IEEE754.BinarySingleNaN.
From Verif Require Import Base.
Local Open Scope R_scope.

#[local] Instance Hp : Prec_gt_0 53 := eq_refl.
#[local] Instance Hm : Prec_lt_emax 53 1024 := eq_refl.
Notation B64 := (binary_float 53 1024).
(** finite doubles, their values, rounding to the nearest double *)
Definition fin (x : spec_float) : Prop := exists b : B64, B2SF b = x /\ is_finite b = true.
Definition fval (x : spec_float) : R := SF2R radix2 x.
Definition r64 (x : R) : R := round radix2 (fexp 53 1024) ZnearestE x.
Definition big : R := bpow radix2 1024.

Lemma rne_eq s m l : SpecFloat.round_nearest_even m l = choice_mode mode_NE s m l.
Proof. destruct l as [|[]]; try reflexivity. cbn. unfold Round.cond_incr. destruct (Z.even m); reflexivity. Qed.
Lemma bra_eq sx mx ex lx : SpecFloat.binary_round_aux 53 1024 sx mx ex lx = binary_round_aux 53 1024 mode_NE sx mx ex lx.
Proof. unfold SpecFloat.binary_round_aux, binary_round_aux. destruct (shr_fexp 53 1024 mx ex lx) as [mrs' e']. rewrite (rne_eq sx). reflexivity. Qed.
Lemma br_eq s m e : SpecFloat.binary_round 53 1024 s m e = binary_round 53 1024 mode_NE s m e.
Proof. unfold SpecFloat.binary_round, binary_round, shl_align_fexp. destruct (shl_align _ _ _) as [mz ez]. apply bra_eq. Qed.
Lemma bn_eq m e sz : SpecFloat.binary_normalize 53 1024 m e sz = B2SF (binary_normalize 53 1024 Hp Hm mode_NE m e sz).
Proof. destruct m; [reflexivity| |]; cbn; rewrite B2SF_SF2B; apply br_eq. Qed.
Lemma add_eq (x y : B64) : SFadd 53 1024 (B2SF x) (B2SF y) = B2SF (Bplus mode_NE x y).
Proof.
  destruct x as [sx|sx| |sx mx ex Bx]; destruct y as [sy|sy| |sy my ey By]; try reflexivity; try (cbn; destruct (Bool.eqb sx sy); reflexivity). apply bn_eq.
Qed.
Lemma sub_eq (x y : B64) : SFsub 53 1024 (B2SF x) (B2SF y) = B2SF (Bminus mode_NE x y).
Proof.
  destruct x as [sx|sx| |sx mx ex Bx]; destruct y as [sy|sy| |sy my ey By]; try reflexivity; try (cbn; destruct (Bool.eqb sx (negb sy)); reflexivity).
  cbn. unfold Zminus. rewrite <- cond_Zopp_negb. apply bn_eq.
Qed.
Lemma mul_eq (x y : B64) : SFmul 53 1024 (B2SF x) (B2SF y) = B2SF (Bmult mode_NE x y).
Proof. destruct x as [sx|sx| |sx mx ex Bx]; destruct y as [sy|sy| |sy my ey By]; try reflexivity. cbn. rewrite B2SF_SF2B. apply bra_eq. Qed.
Lemma div_eq (x y : B64) : SFdiv 53 1024 (B2SF x) (B2SF y) = B2SF (Bdiv mode_NE x y).
Proof. destruct x as [sx|sx| |sx mx ex Bx]; destruct y as [sy|sy| |sy my ey By]; try reflexivity. cbn. rewrite B2SF_SF2B. destruct (SFdiv_core_binary _ _ _ _ _ _) as [[mz ez] lz]. apply bra_eq. Qed.

Lemma fval_B (b : B64) : fval (B2SF b) = B2R b.
Proof. apply SF2R_B2SF. Qed.
Lemma fin_add x y : fin x -> fin y -> Rabs (r64 (fval x + fval y)) < big -> fin (add (s:=FS) x y) /\ fval (add (s:=FS) x y) = r64 (fval x + fval y).
Proof.
  intros (bx & <- & Fx) (by_ & <- & Fy). rewrite !fval_B. intros L. pose proof (Bplus_correct 53 1024 Hp Hm mode_NE bx by_ Fx Fy) as C. rewrite Rlt_bool_true in C by exact L. destruct C as (C1 & C2 & _).
  change (add (s:=FS) (B2SF bx) (B2SF by_)) with (SFadd 53 1024 (B2SF bx) (B2SF by_)). rewrite add_eq. split; [eexists; split; [reflexivity|exact C2]|]. rewrite fval_B. exact C1.
Qed.
Lemma fin_sub x y : fin x -> fin y -> Rabs (r64 (fval x - fval y)) < big -> fin (sub (s:=FS) x y) /\ fval (sub (s:=FS) x y) = r64 (fval x - fval y).
Proof.
  intros (bx & <- & Fx) (by_ & <- & Fy). rewrite !fval_B. intros L. pose proof (Bminus_correct 53 1024 Hp Hm mode_NE bx by_ Fx Fy) as C. rewrite Rlt_bool_true in C by exact L. destruct C as (C1 & C2 & _).
  change (sub (s:=FS) (B2SF bx) (B2SF by_)) with (SFsub 53 1024 (B2SF bx) (B2SF by_)). rewrite sub_eq. split; [eexists; split; [reflexivity|exact C2]|]. rewrite fval_B. exact C1.
Qed.
Lemma fin_mul x y : fin x -> fin y -> Rabs (r64 (fval x * fval y)) < big -> fin (mul (s:=FS) x y) /\ fval (mul (s:=FS) x y) = r64 (fval x * fval y).
Proof.
  intros (bx & <- & Fx) (by_ & <- & Fy). rewrite !fval_B. intros L. pose proof (Bmult_correct 53 1024 Hp Hm mode_NE bx by_) as C. rewrite Rlt_bool_true in C by exact L. destruct C as (C1 & C2 & _).
  change (mul (s:=FS) (B2SF bx) (B2SF by_)) with (SFmul 53 1024 (B2SF bx) (B2SF by_)). rewrite mul_eq. split; [eexists; split; [reflexivity|rewrite C2, Fx, Fy; reflexivity]|]. rewrite fval_B. exact C1.
Qed.
Lemma fin_div x y : fin x -> fin y -> fval y <> 0 -> Rabs (r64 (fval x / fval y)) < big -> fin (div (s:=FS) x y) /\ fval (div (s:=FS) x y) = r64 (fval x / fval y).
Proof.
  intros (bx & <- & Fx) (by_ & <- & Fy). rewrite !fval_B. intros NZ L. pose proof (Bdiv_correct 53 1024 Hp Hm mode_NE bx by_ NZ) as C. rewrite Rlt_bool_true in C by exact L. destruct C as (C1 & C2 & _).
  change (div (s:=FS) (B2SF bx) (B2SF by_)) with (SFdiv 53 1024 (B2SF bx) (B2SF by_)). rewrite div_eq. split; [eexists; split; [reflexivity|congruence]|]. rewrite fval_B. exact C1.
Qed.
Lemma fin_leb x y : fin x -> fin y -> (leb (s:=FS) x y = true <-> fval x <= fval y).
Proof.
  intros (bx & <- & Fx) (by_ & <- & Fy). rewrite !fval_B. change (leb (s:=FS) (B2SF bx) (B2SF by_)) with (Bleb bx by_). rewrite Bleb_correct by assumption. destruct (Rle_bool_spec (B2R bx) (B2R by_)); split; intros; auto; try discriminate; lra.
Qed.
Lemma fin_ltb x y : fin x -> fin y -> (ltb (s:=FS) x y = true <-> fval x < fval y).
Proof.
  intros (bx & <- & Fx) (by_ & <- & Fy). rewrite !fval_B. change (ltb (s:=FS) (B2SF bx) (B2SF by_)) with (Bltb bx by_). rewrite Bltb_correct by assumption. destruct (Rlt_bool_spec (B2R bx) (B2R by_)); split; intros; auto; try discriminate; lra.
Qed.
Lemma fin_zero : fin (zero (s:=FS)).
Proof. exists (B754_zero false). split; reflexivity. Qed.
Lemma fval_zero : fval (zero (s:=FS)) = 0.
Proof. reflexivity. Qed.

(** rounding *)
#[local] Instance Vexp : Valid_exp (fexp 53 1024) := fexp_correct 53 1024 Hp.
Lemma r64_le x y : x <= y -> r64 x <= r64 y.
Proof. intros L. apply round_le; auto with typeclass_instances. Qed.
Lemma r64_fin x : fin x -> r64 (fval x) = fval x.
Proof. intros (b & <- & Fb). rewrite fval_B. apply round_generic; auto with typeclass_instances. apply generic_format_B2R. Qed.
Lemma r64_0 : r64 0 = 0.
Proof. apply round_0; auto with typeclass_instances. Qed.
(** integers up to 2^53 are doubles *)
Lemma int_format z : (Z.abs z <= 2 ^ 53)%Z -> generic_format radix2 (fexp 53 1024) (IZR z).
Proof.
  intros L. apply generic_format_FLT. destruct (Z.eq_dec (Z.abs z) (2 ^ 53)) as [E|E].
  - assert (X : IZR z = F2R (Float radix2 (z / 2) 1)).
    { unfold F2R. cbn [Fnum Fexp]. replace (bpow radix2 1) with 2 by reflexivity. rewrite <- mult_IZR. f_equal. assert (z = 2 ^ 53 \/ z = - 2 ^ 53)%Z as [-> | ->] by lia; reflexivity. }
    exists (Float radix2 (z / 2) 1); [exact X| |]; cbn [Fnum Fexp].
    + assert (z = 2 ^ 53 \/ z = - 2 ^ 53)%Z as [-> | ->] by lia; reflexivity.
    + unfold emin. lia.
  - exists (Float radix2 z 0); cbn [Fnum Fexp]; [unfold F2R; cbn; lra| |unfold emin; lia]. change (radix2 ^ 53)%Z with (2 ^ 53)%Z. lia.
Qed.
Lemma r64_int z : (Z.abs z <= 2 ^ 53)%Z -> r64 (IZR z) = IZR z.
Proof. intros L. apply round_generic; auto with typeclass_instances. apply int_format. exact L. Qed.
Lemma int_big z : (Z.abs z <= 2 ^ 53)%Z -> Rabs (IZR z) < big.
Proof.
  intros L. rewrite <- abs_IZR. apply Rle_lt_trans with (IZR (2 ^ 53)); [apply IZR_le; exact L|]. unfold big. replace (IZR (2 ^ 53)) with (bpow radix2 53) by (cbn; reflexivity). apply bpow_lt. lia.
Qed.
Lemma fin_ofZ z : (Z.abs z <= 2 ^ 53)%Z -> fin (ofZ (s:=FS) z) /\ fval (ofZ (s:=FS) z) = IZR z.
Proof.
  intros L. change (ofZ (s:=FS) z) with (SpecFloat.binary_normalize 53 1024 z 0 false). rewrite bn_eq.
  pose proof (binary_normalize_correct 53 1024 Hp Hm mode_NE z 0 false) as C. cbv zeta in C. replace (F2R (Float radix2 z 0)) with (IZR z) in C by (unfold F2R; cbn; lra).
  change (round radix2 (fexp 53 1024) (round_mode mode_NE) (IZR z)) with (r64 (IZR z)) in C. rewrite r64_int in C by exact L. rewrite Rlt_bool_true in C by (apply int_big; exact L).
  destruct C as (C1 & C2 & _). split; [eexists; split; [reflexivity|exact C2]|]. rewrite fval_B. exact C1.
Qed.
