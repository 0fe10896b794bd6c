(** The regularisation of the backward pass in IEEE doubles. *)
From Coq Require Import ZArith Reals Lra Lia Bool List Psatz.
From Coq Require Import Floats.SpecFloat.
From Flocq Require Import Core IEEE754.BinarySingleNaN.
From Flocq Require Import Relative.
From Verif Require Import Base Lin StatsModel TrajModel IlqrModel IlqrProofs5 FloatBridge.
Import ListNotations.
Local Open Scope R_scope.

#[local] Existing Instance FloatBridge.Hp.
#[local] Existing Instance FloatBridge.Hm.
Definition pinf : FS := S754_infinity false.
(** non-negative doubles, +infinity included *)
Definition pos (x : FS) : Prop := x = pinf \/ fin x /\ 0 <= fval x.

Lemma fin_big x : fin x -> Rabs (fval x) < big.
Proof. intros (b & <- & Fb). rewrite fval_B. apply abs_B2R_lt_emax. Qed.
Lemma B_pos (b : B64) : 0 < B2R b -> exists m e H, b = B754_finite false m e H.
Proof.
  destruct b as [s|s| |[] m e H]; cbn; try lra; eauto. intros X. exfalso. revert X. apply Rle_not_lt. apply F2R_le_0. cbn. lia.
Qed.
Lemma fin_pos x : fin x -> 0 < fval x -> exists m e, x = S754_finite false m e.
Proof. intros (b & <- & Fb) P. rewrite fval_B in P. destruct (B_pos b P) as (m & e & H & ->). exists m, e. reflexivity. Qed.
Lemma mul_fin x y : fin x -> fin y -> 0 <= fval x -> 0 <= fval y ->
  (mul (s:=FS) x y = pinf /\ big <= r64 (fval x * fval y)) \/ (fin (mul (s:=FS) x y) /\ fval (mul (s:=FS) x y) = r64 (fval x * fval y)).
Proof.
  intros X Y PX PY. destruct (Rlt_or_le (Rabs (r64 (fval x * fval y))) big) as [L|L]; [right; apply fin_mul; assumption|left].
  assert (NN : 0 <= r64 (fval x * fval y)) by (rewrite <- r64_0; apply r64_le; apply Rmult_le_pos; assumption). rewrite Rabs_pos_eq in L by exact NN. split; [|exact L].
  assert (BP : 0 < big) by (unfold big; apply bpow_gt_0).
  assert (PXY : 0 < fval x * fval y). { destruct (Rle_lt_or_eq_dec _ _ (Rmult_le_pos _ _ PX PY)) as [A|A]; [exact A|]. rewrite <- A, r64_0 in L. lra. }
  assert (QX : 0 < fval x) by (destruct (Rle_lt_or_eq_dec _ _ PX) as [A|A]; [exact A|rewrite <- A, Rmult_0_l in PXY; lra]). assert (QY : 0 < fval y) by (destruct (Rle_lt_or_eq_dec _ _ PY) as [A|A]; [exact A|rewrite <- A, Rmult_0_r in PXY; lra]).
  destruct X as (bx & <- & Fx), Y as (by_ & <- & Fy). rewrite !fval_B in *. change (mul (s:=FS) (B2SF bx) (B2SF by_)) with (SFmul 53 1024 (B2SF bx) (B2SF by_)). rewrite mul_eq.
  pose proof (Bmult_correct 53 1024 Hp Hm mode_NE bx by_) as C. rewrite Rlt_bool_false in C by (rewrite Rabs_pos_eq; [exact L|exact NN]). rewrite C.
  destruct (B_pos bx QX) as (m1 & e1 & h1 & ->). destruct (B_pos by_ QY) as (m2 & e2 & h2 & ->). reflexivity.
Qed.
Lemma mul_inf_r x : fin x -> 0 < fval x -> mul (s:=FS) x pinf = pinf.
Proof. intros X P. destruct (fin_pos x X P) as (m & e & ->). reflexivity. Qed.
Lemma mul_inf_l x : fin x -> 0 < fval x -> mul (s:=FS) pinf x = pinf.
Proof. intros X P. destruct (fin_pos x X P) as (m & e & ->). reflexivity. Qed.
Lemma div_inf x : fin x -> 0 < fval x -> div (s:=FS) pinf x = pinf.
Proof. intros X P. destruct (fin_pos x X P) as (m & e & ->). reflexivity. Qed.
Lemma ltb_inf_l x : fin x -> ltb (s:=FS) pinf x = false.
Proof. intros (b & <- & Fb). destruct b as [s|s| |s m e H]; try discriminate; reflexivity. Qed.
Lemma ltb_inf_r x : fin x -> ltb (s:=FS) x pinf = true.
Proof. intros (b & <- & Fb). destruct b as [s|s| |[] m e H]; try discriminate; reflexivity. Qed.
Lemma smax_fin a b : fin a -> fin b -> fin (smax (F:=FS) a b) /\ fval (smax (F:=FS) a b) = Rmax (fval a) (fval b).
Proof.
  intros A B. unfold smax. pose proof (fin_ltb a b A B) as E. destruct (ltb (s:=FS) a b).
  - split; [exact B|]. rewrite Rmax_right; [reflexivity|]. destruct E as [E _]. specialize (E eq_refl). lra.
  - split; [exact A|]. rewrite Rmax_left; [reflexivity|]. destruct (Rlt_or_le (fval a) (fval b)) as [L|L]; [apply E in L; discriminate|exact L].
Qed.
Lemma smin_fin a b : fin a -> fin b -> fin (smin (F:=FS) a b) /\ fval (smin (F:=FS) a b) = Rmin (fval a) (fval b).
Proof.
  intros A B. unfold smin. pose proof (fin_ltb b a B A) as E. destruct (ltb (s:=FS) b a).
  - split; [exact B|]. rewrite Rmin_right; [reflexivity|]. destruct E as [E _]. specialize (E eq_refl). lra.
  - split; [exact A|]. rewrite Rmin_left; [reflexivity|]. destruct (Rlt_or_le (fval b) (fval a)) as [L|L]; [apply E in L; discriminate|exact L].
Qed.
Lemma smax_inf b : fin b -> smax (F:=FS) pinf b = pinf.
Proof. intros B. unfold smax. rewrite ltb_inf_l by exact B. reflexivity. Qed.
Lemma smin_inf b : fin b -> smin (F:=FS) pinf b = b.
Proof. intros B. unfold smin. rewrite ltb_inf_r by exact B. reflexivity. Qed.

(** rounding a product with a factor above 1 *)
Definition eps : R := / 2 ^ 53.
Lemma r64_rel x : 1 <= x -> x * (1 - eps) <= r64 x.
Proof.
  intros X. pose proof (relative_error_N_FLT radix2 (-1074) 53 eq_refl (fun x => negb (Z.even x)) x) as E.
  assert (B : bpow radix2 (-1074 + 53 - 1) <= Rabs x). { rewrite Rabs_pos_eq by lra. apply Rle_trans with (bpow radix2 0); [apply bpow_le; lia|cbn; lra]. }
  specialize (E B). change (round radix2 (FLT_exp (-1074) 53) (Znearest (fun x => negb (Z.even x))) x) with (r64 x) in E.
  assert (EE : / 2 * bpow radix2 (Z.opp 53 + 1) = eps). { unfold eps. change (bpow radix2 (Z.opp 53 + 1)) with (/ IZR (2 ^ 52)). replace (2 ^ 53) with (2 * 2 ^ 52) by (simpl; lra). rewrite (pow_IZR 2 52). change (2 ^ Z.of_nat 52)%Z with (2 ^ 52)%Z. rewrite Rinv_mult; reflexivity. }
  rewrite EE, (Rabs_pos_eq x) in E by lra. apply Rabs_le_inv in E. nra.
Qed.
Lemma one_fin : fin (one (s:=FS)) /\ fval (one (s:=FS)) = 1.
Proof. apply (fin_ofZ 1). lia. Qed.
(** the doubles above 1 are at least 1 + 2 eps *)
Lemma above_one x : fin x -> 1 < fval x -> 1 + 2 * eps <= fval x.
Proof.
  intros (b & <- & Fb). rewrite fval_B. intros L. pose proof (generic_format_B2R 53 1024 b) as G.
  assert (G1 : generic_format radix2 (fexp 53 1024) 1) by (apply (int_format 1); lia).
  pose proof (succ_le_lt radix2 (fexp 53 1024) 1 (B2R b) G1 G L) as S. rewrite succ_eq_pos in S by lra. rewrite ulp_neq_0 in S by lra. unfold cexp in S. rewrite (mag_unique_pos radix2 1 1) in S by (cbn; lra).
  change (fexp 53 1024 1) with (-52)%Z in S. replace (bpow radix2 (-52)) with (2 * eps) in S; [exact S|]. unfold eps. change (bpow radix2 (-52)) with (/ IZR (2 ^ 52)). replace (2 ^ 53) with (2 * 2 ^ 52) by (simpl; lra). rewrite (pow_IZR 2 52). change (2 ^ Z.of_nat 52)%Z with (2 ^ 52)%Z. rewrite Rinv_mult. field. apply IZR_neq. lia.
Qed.
Lemma eps_small : 0 < eps <= / 4.
Proof. unfold eps. split; [apply Rinv_0_lt_compat; apply pow_lt; lra|]. apply Rinv_le_contravar; [lra|]. simpl. lra. Qed.

(** * the options *)
Definition freg_ok (o : Opts FS) : Prop := fin (o_reg_factor o) /\ 1 < fval (o_reg_factor o) /\ fin (o_reg_min o) /\ 0 < fval (o_reg_min o) /\ fin (o_reg_max o) /\ fval (o_reg_min o) <= fval (o_reg_max o).
(** what rho and drho can be *)
Definition freg_inv (r d : FS) : Prop := fin r /\ 0 <= fval r /\ pos d /\ (0 < fval r \/ fin d /\ fval d <= 1).
(** how much drho grows at least in one increase *)
Definition grow (o : Opts FS) : R := fval (o_reg_factor o) * (1 - eps).
Lemma grow_gt o : freg_ok o -> 1 < grow o.
Proof. intros (A & B & _). pose proof (above_one _ A B) as C. pose proof eps_small. unfold grow. nra. Qed.

Section Reg.
Context {CS : Type}.
Notation ILQR := (ILQR FS CS).
Lemma clamp o x : freg_ok o -> pos x -> let y := smin (F:=FS) (smax (F:=FS) x (o_reg_min o)) (o_reg_max o) in
  fin y /\ fval (o_reg_min o) <= fval y <= fval (o_reg_max o) /\ (x = pinf -> y = o_reg_max o) /\ (fin x -> Rmin (fval x) (fval (o_reg_max o)) <= fval y) /\ (fin x -> fval y <= Rmax (fval x) (fval (o_reg_min o))).
Proof.
  intros (F1 & F2 & M1 & M2 & X1 & X2) [->|[FX PX]]; cbv zeta.
  - rewrite smax_inf, smin_inf by assumption. split; [exact X1|]. split; [lra|]. split; [reflexivity|]. split; intros (b & E & Fb); destruct b; discriminate.
  - destruct (smax_fin x (o_reg_min o) FX M1) as [A B]. destruct (smin_fin _ (o_reg_max o) A X1) as [C D]. split; [exact C|]. rewrite D, B. split; [|split; [|split]].
    + unfold Rmin, Rmax. repeat destruct (Rle_dec _ _); lra.
    + intros ->. destruct FX as (b & E & Fb). destruct b; discriminate.
    + intros _. unfold Rmin, Rmax. repeat destruct (Rle_dec _ _); lra.
    + intros _. unfold Rmin, Rmax. repeat destruct (Rle_dec _ _); lra.
Qed.
Lemma inc_drho o d : freg_ok o -> pos d -> let d' := smax (F:=FS) (mul d (o_reg_factor o)) (o_reg_factor o) in
  (d' = pinf \/ fin d' /\ fval (o_reg_factor o) <= fval d' /\ (1 <= fval d -> fval d * grow o <= fval d')) /\ (d = pinf -> d' = pinf) /\ (fin d -> fval d <= 1 -> fin d').
Proof.
  intros (F1 & F2 & _) P. cbv zeta. destruct P as [->|[FD PD]].
  - rewrite mul_inf_l, smax_inf by (try assumption; lra). split; [left; reflexivity|]. split; [reflexivity|]. intros (b & E & Fb). destruct b; discriminate.
  - destruct (mul_fin d (o_reg_factor o) FD F1 PD ltac:(lra)) as [[E L]|[E V]].
    + rewrite E, smax_inf by assumption. split; [left; reflexivity|]. split; [reflexivity|]. intros _ L1. exfalso.
      assert (r64 (fval d * fval (o_reg_factor o)) <= r64 (fval (o_reg_factor o))) by (apply r64_le; nra). rewrite r64_fin in H by exact F1. pose proof (fin_big _ F1) as B. rewrite Rabs_pos_eq in B by lra. lra.
    + destruct (smax_fin _ _ E F1) as [A B]. split; [right|split]; [|intros ->; destruct FD as (b & X & Fb); destruct b; discriminate|auto].
      split; [exact A|]. rewrite B. split; [apply Rmax_r|]. intros D1. eapply Rle_trans; [|apply Rmax_l]. rewrite V. unfold grow. rewrite <- Rmult_assoc. apply r64_rel. nra.
Qed.
Lemma inc_spec (s : ILQR) : freg_ok (il_opts s) -> freg_inv (il_rho s) (il_drho s) ->
  let s' := il_increase_reg s in let o := il_opts s in
  fin (il_rho s') /\ fval (o_reg_min o) <= fval (il_rho s') <= fval (o_reg_max o) /\ pos (il_drho s') /\ (fval (il_rho s) <= fval (o_reg_max o) -> fval (il_rho s) <= fval (il_rho s')) /\
  (il_drho s' = pinf \/ fin (il_drho s') /\ 1 <= fval (il_drho s') /\ (1 <= fval (il_drho s) -> fval (il_drho s) * grow o <= fval (il_drho s'))) /\
  (0 < fval (il_rho s) -> il_drho s' = pinf -> il_rho s' = o_reg_max o) /\ (il_drho s = pinf -> il_drho s' = pinf).
Proof.
  intros RO (R1 & R2 & D1 & D2) s' o. destruct (inc_drho o (il_drho s) RO D1) as (A & B & C).
  assert (ED : il_drho s' = smax (F:=FS) (mul (il_drho s) (o_reg_factor o)) (o_reg_factor o)) by reflexivity.
  assert (ER : il_rho s' = smin (F:=FS) (smax (F:=FS) (mul (il_rho s) (smax (F:=FS) (mul (il_drho s) (o_reg_factor o)) (o_reg_factor o))) (o_reg_min o)) (o_reg_max o)) by reflexivity.
  rewrite ED, ER. clear ED ER. clearbody s'. cbv zeta in *. set (d' := smax (F:=FS) (mul (il_drho s) (o_reg_factor o)) (o_reg_factor o)) in *. clearbody d'. change (freg_ok o) in RO. clearbody o. pose proof RO as (F1 & F2 & _).
  assert (PD : pos d') by (destruct A as [A|(A & A' & _)]; [left; exact A|right; split; [exact A|lra]]).
  assert (PM : pos (mul (s:=FS) (il_rho s) d') /\ (0 < fval (il_rho s) -> d' = pinf -> mul (s:=FS) (il_rho s) d' = pinf) /\ (fin (mul (s:=FS) (il_rho s) d') -> fval (il_rho s) <= fval (mul (s:=FS) (il_rho s) d'))).
  { destruct A as [A|(A & A' & _)].
    - assert (R3 : 0 < fval (il_rho s)). { destruct D2 as [D2|[D2 D3]]; [exact D2|]. specialize (C D2 D3). rewrite A in C. destruct C as (b & E & Fb). destruct b; discriminate. }
      rewrite A, mul_inf_r by assumption. split; [left; reflexivity|]. split; [reflexivity|]. intros (b & E & Fb). destruct b; discriminate.
    - destruct (mul_fin (il_rho s) d' R1 A R2 ltac:(lra)) as [[E L]|[E V]].
      + rewrite E. split; [left; reflexivity|]. split; [reflexivity|]. intros (b & X & Fb). destruct b; discriminate.
      + split; [right; split; [exact E|]|split].
        * rewrite V, <- r64_0. apply r64_le. nra.
        * intros _ ->. destruct A as (b & X & Fb). destruct b; discriminate.
        * intros _. rewrite V. rewrite <- (r64_fin (il_rho s)) at 1 by exact R1. apply r64_le. nra. }
  destruct PM as (PM & PI & PL). destruct (clamp o _ RO PM) as (K1 & K2 & K3 & K4 & K5). cbv zeta in *.
  split; [exact K1|]. split; [exact K2|]. split; [exact PD|]. split; [|split; [|split]].
  - intros L. destruct PM as [PM|[PM _]]; [rewrite (K3 PM); exact L|]. specialize (K4 PM). specialize (PL PM). unfold Rmin in K4. destruct (Rle_dec _ _) in K4; lra.
  - destruct A as [A|(A & A' & A'')]; [left; exact A|right]. split; [exact A|]. split; [lra|exact A''].
  - intros R3 E. apply K3. apply PI; assumption.
  - exact B.
Qed.
Lemma dec_spec (s : ILQR) : freg_ok (il_opts s) -> freg_inv (il_rho s) (il_drho s) ->
  let s' := il_decrease_reg s in let o := il_opts s in
  fin (il_rho s') /\ fval (o_reg_min o) <= fval (il_rho s') <= fval (o_reg_max o) /\ pos (il_drho s') /\ fval (il_rho s') <= Rmax (fval (il_rho s)) (fval (o_reg_min o)).
Proof.
  intros RO (R1 & R2 & D1 & _) s' o.
  assert (ED : il_drho s' = smin (F:=FS) (div (il_drho s) (o_reg_factor o)) (div one (o_reg_factor o))) by reflexivity.
  assert (ER : il_rho s' = smin (F:=FS) (smax (F:=FS) (mul (il_rho s) (smin (F:=FS) (div (il_drho s) (o_reg_factor o)) (div one (o_reg_factor o)))) (o_reg_min o)) (o_reg_max o)) by reflexivity.
  rewrite ED, ER. clear ED ER. clearbody s'. change (freg_ok o) in RO. clearbody o. pose proof RO as (F1 & F2 & _). destruct one_fin as [O1 O2].
  assert (BP : 1 < big) by (unfold big; change 1 with (bpow radix2 0); apply bpow_lt; lia).
  assert (I1 : 0 <= 1 / fval (o_reg_factor o) <= 1) by (unfold Rdiv; rewrite Rmult_1_l; split; [apply Rlt_le, Rinv_0_lt_compat; lra|rewrite <- Rinv_1; apply Rinv_le_contravar; lra]).
  assert (RI : 0 <= r64 (1 / fval (o_reg_factor o)) <= 1). { split; [rewrite <- r64_0; apply r64_le; lra|]. apply Rle_trans with (r64 1); [apply r64_le; lra|]. change 1 with (IZR 1). rewrite r64_int by lia. lra. }
  assert (IV : fin (div (s:=FS) one (o_reg_factor o)) /\ fval (div (s:=FS) one (o_reg_factor o)) = r64 (1 / fval (o_reg_factor o))) by (rewrite <- O2; apply fin_div; try assumption; [lra|]; rewrite O2, Rabs_pos_eq by lra; lra).
  destruct IV as [IV1 IV2].
  set (d' := smin (F:=FS) (div (il_drho s) (o_reg_factor o)) (div one (o_reg_factor o))) in *.
  assert (D' : fin d' /\ 0 <= fval d' <= 1).
  { unfold d'. destruct D1 as [->|[FD PD]]; [rewrite div_inf, smin_inf by (try assumption; lra); split; [exact IV1|rewrite IV2; exact RI]|].
    assert (Q : 0 <= fval (il_drho s) / fval (o_reg_factor o) <= fval (il_drho s)). { unfold Rdiv. pose proof (Rinv_0_lt_compat (fval (o_reg_factor o)) ltac:(lra)). split; [apply Rmult_le_pos; lra|]. unfold Rdiv in I1. nra. }
    assert (QR : 0 <= r64 (fval (il_drho s) / fval (o_reg_factor o)) <= fval (il_drho s)). { split; [rewrite <- r64_0; apply r64_le; lra|]. rewrite <- (r64_fin (il_drho s)) at 2 by exact FD. apply r64_le. lra. }
    pose proof (fin_big _ FD) as BD. rewrite Rabs_pos_eq in BD by exact PD.
    destruct (fin_div (il_drho s) (o_reg_factor o) FD F1 ltac:(lra)) as [G1 G2]; [rewrite Rabs_pos_eq; lra|].
    destruct (smin_fin _ _ G1 IV1) as [H1 H2]. split; [exact H1|]. rewrite H2, G2, IV2. unfold Rmin. destruct (Rle_dec _ _); lra. }
  clearbody d'. destruct D' as [D1' D2'].
  assert (PM : fin (mul (s:=FS) (il_rho s) d') /\ 0 <= fval (mul (s:=FS) (il_rho s) d') <= fval (il_rho s)).
  { assert (QR : 0 <= r64 (fval (il_rho s) * fval d') <= fval (il_rho s)). { split; [rewrite <- r64_0; apply r64_le; nra|]. rewrite <- (r64_fin (il_rho s)) at 2 by exact R1. apply r64_le. nra. }
    pose proof (fin_big _ R1) as BD. rewrite Rabs_pos_eq in BD by exact R2. destruct (fin_mul (il_rho s) d' R1 D1') as [G1 G2]; [rewrite Rabs_pos_eq; lra|]. split; [exact G1|]. rewrite G2. exact QR. }
  destruct PM as [P1 P2]. destruct (clamp o _ RO (or_intror (conj P1 (proj1 P2)))) as (K1 & K2 & K3 & K4 & K5). cbv zeta in *.
  split; [exact K1|]. split; [exact K2|]. split; [right; split; [exact D1'|lra]|]. specialize (K5 P1). unfold Rmax in *. repeat destruct (Rle_dec _ _); lra.
Qed.
Lemma inv_inc (s : ILQR) : freg_ok (il_opts s) -> freg_inv (il_rho s) (il_drho s) -> freg_inv (il_rho (il_increase_reg s)) (il_drho (il_increase_reg s)).
Proof. intros RO RI. destruct (inc_spec s RO RI) as (A & B & C & _). destruct RO as (_ & _ & _ & M & _). split; [exact A|]. split; [lra|]. split; [exact C|]. left. lra. Qed.
Lemma inv_dec (s : ILQR) : freg_ok (il_opts s) -> freg_inv (il_rho s) (il_drho s) -> freg_inv (il_rho (il_decrease_reg s)) (il_drho (il_decrease_reg s)).
Proof. intros RO RI. destruct (dec_spec s RO RI) as (A & B & C & _). destruct RO as (_ & _ & _ & M & _). split; [exact A|]. split; [lra|]. split; [exact C|]. left. lra. Qed.

(** * the backward pass *)
Context (n m : nat).
(** at most k more increases until drho is infinite *)
Definition near (k : nat) (s : ILQR) : Prop := freg_inv (il_rho s) (il_drho s) /\ 0 < fval (il_rho s) /\ (il_drho s = pinf \/ 1 <= fval (il_drho s) /\ big <= fval (il_drho s) * grow (il_opts s) ^ k).
Lemma near_inc k (s : ILQR) : freg_ok (il_opts s) -> near (S k) s -> near k (il_increase_reg s).
Proof.
  intros RO (RI & RP & D). destruct (inc_spec s RO RI) as (A & B & C & _ & E & _ & G). split; [apply inv_inc; assumption|]. split; [destruct RO as (_ & _ & _ & M & _); lra|].
  destruct D as [D|[D1 D2]]; [left; apply G; exact D|]. destruct E as [E|(E1 & E2 & E3)]; [left; exact E|right]. split; [exact E2|]. specialize (E3 D1). change (il_opts (il_increase_reg s)) with (il_opts s).
  pose proof (grow_gt _ RO) as GG. assert (0 < grow (il_opts s) ^ k) by (apply pow_lt; lra). simpl in D2. eapply Rle_trans; [exact D2|]. rewrite <- Rmult_assoc. apply Rmult_le_compat_r; lra.
Qed.
Lemma near_zero (s : ILQR) : freg_ok (il_opts s) -> near 0 s -> il_drho s = pinf.
Proof.
  intros RO ((_ & _ & PD & _) & _ & [D|[D1 D2]]); [exact D|]. destruct PD as [PD|[PD _]]; [exact PD|]. apply fin_big in PD. rewrite Rabs_pos_eq in PD by lra. simpl in D2. lra.
Qed.
Lemma near_more k (s : ILQR) : freg_ok (il_opts s) -> near k s -> near (S k) s.
Proof.
  intros RO (A & B & D). split; [exact A|]. split; [exact B|]. destruct D as [D|[D1 D2]]; [left; exact D|right]. split; [exact D1|]. pose proof (grow_gt _ RO). assert (0 < grow (il_opts s) ^ k) by (apply pow_lt; lra). simpl. eapply Rle_trans; [exact D2|]. apply Rmult_le_compat_l; [lra|]. nra.
Qed.
Lemma inf_inc (s : ILQR) : freg_ok (il_opts s) -> near 0 s -> il_rho (il_increase_reg s) = o_reg_max (il_opts s) /\ near 0 (il_increase_reg s).
Proof.
  intros RO N0. pose proof (near_zero s RO N0) as D. pose proof (near_inc 0 s RO (near_more 0 s RO N0)) as N1. destruct N0 as (RI & RP & _). destruct (inc_spec s RO RI) as (_ & _ & _ & _ & _ & E & G). split; [|exact N1]. apply E; [exact RP|]. apply G. exact D.
Qed.
Lemma floop kN : forall k c fuel cnt (s : ILQR), freg_ok (il_opts s) -> (1 <= il_N s)%nat -> near k s -> (o_reg_fail (il_opts s) - cnt <= Z.of_nat c)%Z -> (c + k < fuel)%nat ->
  exists s', bp_loop n m fuel kN cnt s = Ok s'.
Proof.
  assert (L0 : forall c fuel cnt (s : ILQR), freg_ok (il_opts s) -> (1 <= il_N s)%nat -> near 0 s -> (o_reg_fail (il_opts s) - cnt <= Z.of_nat c)%Z -> (c < fuel)%nat -> exists s', bp_loop n m fuel kN cnt s = Ok s').
  { induction c as [|c IH]; intros fuel cnt s RO HN NR Hc Hf; destruct fuel as [|fuel]; try lia; cbn [bp_loop]; set (w := bp_sweep _ _ _ _ _ _ _ _); (destruct (sw_ok w); [destruct (il_N s); [lia|eauto]|]);
      set (s1 := il_set_dV _ _ _); (assert (Ho1 : il_opts s1 = il_opts s) by reflexivity); destruct (inf_inc s1 RO NR) as [E N1]; rewrite E; change (il_opts (il_increase_reg s1)) with (il_opts s1); rewrite Ho1;
      (assert (LL : leb (s:=FS) (o_reg_max (il_opts s)) (o_reg_max (il_opts s)) = true) by (apply fin_leb; [apply RO|apply RO|lra])); rewrite LL; (destruct (Z.leb_spec (o_reg_fail (il_opts s)) (cnt + 1)); [eauto|]); [lia|].
    apply IH; auto; try lia. change (il_opts (il_increase_reg s1)) with (il_opts s). lia. }
  induction k as [|k IH]; intros c fuel cnt s RO HN NR Hc Hf; [apply (L0 c); auto; lia|].
  destruct fuel as [|fuel]; [lia|]. cbn [bp_loop]. set (w := bp_sweep _ _ _ _ _ _ _ _). destruct (sw_ok w); [destruct (il_N s); [lia|eauto]|].
  set (s1 := il_set_dV _ _ _). assert (Ho1 : il_opts s1 = il_opts s) by reflexivity. pose proof (near_inc k s1 RO NR) as N1. change (il_opts (il_increase_reg s1)) with (il_opts s).
  set (cnt' := if leb _ _ then _ else _). assert (Hcnt : (cnt <= cnt')%Z) by (unfold cnt'; destruct (leb _ _); lia). destruct (Z.leb_spec (o_reg_fail (il_opts s)) cnt'); [eauto|].
  apply (IH c); auto; try lia. change (il_opts (il_increase_reg s1)) with (il_opts s). lia.
Qed.
(** number of sweeps *)
Lemma floop_first kN k (s : ILQR) : freg_ok (il_opts s) -> (1 <= il_N s)%nat -> freg_inv (il_rho s) (il_drho s) -> big <= grow (il_opts s) ^ k -> forall fuel, (Z.to_nat (o_reg_fail (il_opts s)) + k + 2 <= fuel)%nat ->
  exists s', bp_loop n m fuel kN 0 s = Ok s'.
Proof.
  intros RO HN RI BG [|fuel] Hf; [lia|]. cbn [bp_loop]. set (w := bp_sweep _ _ _ _ _ _ _ _). destruct (sw_ok w); [destruct (il_N s); [lia|eauto]|].
  set (s1 := il_set_dV _ _ _). assert (Ho1 : il_opts s1 = il_opts s) by reflexivity. destruct (inc_spec s1 RO RI) as (A & B & C & _ & E & _). change (il_opts (il_increase_reg s1)) with (il_opts s).
  set (cnt' := if leb _ _ then _ else _). assert (Hcnt : (0 <= cnt')%Z) by (unfold cnt'; destruct (leb _ _); lia). destruct (Z.leb_spec (o_reg_fail (il_opts s)) cnt'); [eauto|].
  apply (floop kN k (Z.to_nat (o_reg_fail (il_opts s)))); auto; try lia; [|change (il_opts (il_increase_reg s1)) with (il_opts s); lia].
  split; [apply inv_inc; assumption|]. split; [destruct RO as (_ & _ & _ & M & _); rewrite Ho1 in B; lra|]. destruct E as [E|(E1 & E2 & _)]; [left; exact E|right]. split; [exact E2|]. change (il_opts (il_increase_reg s1)) with (il_opts s).
  pose proof (grow_gt _ RO). assert (0 < grow (il_opts s) ^ k) by (apply pow_lt; lra). nra.
Qed.
Theorem fbackward k (s : ILQR) : freg_ok (il_opts s) -> (1 <= il_N s)%nat -> freg_inv (il_rho s) (il_drho s) -> length (il_kps s) = S (il_N s) -> big <= grow (il_opts s) ^ k ->
  forall fuel, (Z.to_nat (o_reg_fail (il_opts s)) + k + 2 <= fuel)%nat -> exists s', il_backward_pass n m fuel s = Ok s'.
Proof.
  intros RO HN RI Hl BG fuel Hf. unfold il_backward_pass. destruct (nth_error (il_kps s) (il_N s)) as [k0|] eqn:E; [|apply nth_error_None in E; lia].
  set (s1 := il_set_dV _ _ _). destruct (floop_first (kpf_terminal k0) k s1 RO HN RI BG fuel Hf) as [s2 E2]. rewrite E2. cbn [bind]. eauto.
Qed.
Lemma grow_enough o : freg_ok o -> exists k, big <= grow o ^ k.
Proof.
  intros RO. pose proof (grow_gt o RO) as G. destruct (Pow_x_infinity (grow o) ltac:(rewrite Rabs_right; lra) big) as [k K]. exists k. specialize (K k (le_n _)). rewrite Rabs_right in K by (apply Rle_ge, pow_le; lra). lra.
Qed.
End Reg.
