(** Nonlinear problems: derivatives along curves. *)
From Coq Require Import Reals Lra Lia List Bool ZArith Psatz Arith.
From Coquelicot Require Import Coquelicot.
From Verif Require Import Base Lin LogModel StatsModel TrajModel IlqrModel IlqrSpec RLin RDer LqSpec LltProofs LqProofs NlSpec.
Import List ListNotations.
Local Open Scope R_scope.

Lemma small_o (f : R -> R) l : is_derive f 0 l <-> forall eps, 0 < eps -> exists del, 0 < del /\ forall t, Rabs t <= del -> Rabs (f t - f 0 - l * t) <= eps * Rabs t.
Proof.
  split.
  - intros H eps He. apply is_derive_Reals in H. destruct (H eps He) as [del D]. exists (del / 2). pose proof (cond_pos del). split; [lra|]. intros t Ht.
    destruct (Req_dec t 0) as [->|NZ]; [rewrite Rabs_R0; replace (f 0 - f 0 - l * 0) with 0 by ring; rewrite Rabs_R0; lra|].
    assert (LT : Rabs t < del) by lra. specialize (D t NZ LT). rewrite Rplus_0_l in D.
    replace (f t - f 0 - l * t) with (((f t - f 0) / t - l) * t) by (field; exact NZ). rewrite Rabs_mult. apply Rmult_le_compat_r; [apply Rabs_pos|lra].
  - intros H. apply is_derive_Reals. intros eps He. destruct (H (eps / 2) ltac:(lra)) as (del & Dp & D). exists (mkposreal del Dp). intros h NZ Hh. cbn in Hh. rewrite Rplus_0_l.
    specialize (D h ltac:(lra)). assert (P : 0 < Rabs h) by (apply Rabs_pos_lt; exact NZ).
    replace ((f h - f 0) / h - l) with ((f h - f 0 - l * h) / h) by (field; exact NZ). unfold Rdiv. rewrite Rabs_mult, Rabs_inv.
    apply (Rle_lt_trans _ (eps / 2)); [|lra]. apply (Rmult_le_reg_r (Rabs h)); [exact P|]. rewrite Rmult_assoc, Rinv_l by lra. rewrite Rmult_1_r. exact D.
Qed.
Lemma fin_del p (P : nat -> R -> Prop) : (forall i, (i < p)%nat -> exists del, 0 < del /\ forall t, Rabs t <= del -> P i t) ->
  exists del, 0 < del /\ forall t, Rabs t <= del -> forall i, (i < p)%nat -> P i t.
Proof.
  induction p as [|p IH]; intros H; [exists 1; split; [lra|intros; lia]|]. destruct IH as (d1 & P1 & D1); [intros; apply H; lia|]. destruct (H p ltac:(lia)) as (d2 & P2 & D2).
  exists (Rmin d1 d2). split; [apply Rmin_pos; lra|]. intros t Ht i Hi. pose proof (Rmin_l d1 d2). pose proof (Rmin_r d1 d2).
  destruct (Nat.eq_dec i p) as [->|]; [apply D2; lra|apply D1; [lra|lia]].
Qed.
Lemma lip (f : R -> R) l : is_derive f 0 l -> exists del, 0 < del /\ forall t, Rabs t <= del -> Rabs (f t - f 0) <= (Rabs l + 1) * Rabs t.
Proof.
  intros H. destruct (proj1 (small_o f l) H 1 ltac:(lra)) as (del & P & D). exists del. split; [exact P|]. intros t Ht. specialize (D t Ht).
  replace (f t - f 0) with ((f t - f 0 - l * t) + l * t) by ring. eapply Rle_trans; [apply Rabs_triang|]. rewrite Rabs_mult. lra.
Qed.
Lemma single_le p (f : nat -> R) i : (i < p)%nat -> (forall j, (j < p)%nat -> 0 <= f j) -> f i <= rsum p f.
Proof.
  induction p as [|p IH]; intros Hi P; [lia|]. rewrite rsum_S. destruct (Nat.eq_dec i p) as [->|]; [pose proof (rsum_nonneg p f ltac:(intros; apply P; lia)); lra|].
  specialize (IH ltac:(lia) ltac:(intros; apply P; lia)). pose proof (P p ltac:(lia)). lra.
Qed.
Section Chain.
Context (n m : nat) (g : (nat -> R) -> (nat -> R) -> R) (gx gu x u : nat -> R) (HF : frechet n m g gx gu x u).
Lemma frechet_same y v : (forall i, (i < n)%nat -> y i = x i) -> (forall i, (i < m)%nat -> v i = u i) -> g y v = g x u.
Proof.
  intros HY HV. destruct (HF 1 ltac:(lra)) as (del & P & D). specialize (D y v).
  assert (A : forall i, (i < n)%nat -> y i - x i = 0) by (intros; rewrite HY by auto; lra). assert (B : forall i, (i < m)%nat -> v i - u i = 0) by (intros; rewrite HV by auto; lra).
  rewrite (inner_ext n gx _ gx (fun _ => 0)), (inner_ext m gu _ gu (fun _ => 0)), !inner_zero_r, !tot_rsum in D by auto.
  rewrite (rsum_zero' n), (rsum_zero' m) in D by (intros; rewrite ?A, ?B, Rabs_R0 by auto; reflexivity).
  specialize (D ltac:(intros; rewrite A, Rabs_R0 by auto; lra) ltac:(intros; rewrite B, Rabs_R0 by auto; lra)).
  assert (E : Rabs (g y v - g x u - (0 + 0)) = 0) by (pose proof (Rabs_pos (g y v - g x u - (0 + 0))); lra). apply Rabs_eq_0 in E. lra.
Qed.
Context (X U : R -> nat -> R) (dx du : nat -> R).
Context (X0 : forall i, (i < n)%nat -> X 0 i = x i) (U0 : forall i, (i < m)%nat -> U 0 i = u i).
Context (DX : forall i, (i < n)%nat -> is_derive (fun t => X t i) 0 (dx i)) (DU : forall i, (i < m)%nat -> is_derive (fun t => U t i) 0 (du i)).
Lemma chain : is_derive (fun t => g (X t) (U t)) 0 (inner n gx dx + inner m gu du).
Proof.
  set (L := fun t => rsum n (fun i => gx i * (X t i - x i)) + rsum m (fun i => gu i * (U t i - u i))).
  assert (DL : is_derive L 0 (inner n gx dx + inner m gu du)).
  { rewrite !inner_r. unfold L. apply d_plus.
    - apply (d_rsum n (fun i t => gx i * (X t i - x i))). intros i Hi. apply d_scal. apply (d_eq _ (dx i - 0)); [|lra]. apply d_minus; [apply DX; exact Hi|apply d_const].
    - apply (d_rsum m (fun i t => gu i * (U t i - u i))). intros i Hi. apply d_scal. apply (d_eq _ (du i - 0)); [|lra]. apply d_minus; [apply DU; exact Hi|apply d_const]. }
  assert (L0 : L 0 = 0). { unfold L. rewrite !rsum_zero'; [lra| |]; intros i Hi; [rewrite U0 by auto|rewrite X0 by auto]; lra. }
  set (rem := fun t => g (X t) (U t) - g x u - L t).
  assert (R0 : rem 0 = 0) by (unfold rem; rewrite L0, (frechet_same (X 0) (U 0)) by auto; lra).
  assert (DR : is_derive rem 0 0).
  { apply small_o. intros eps He. set (Cx := rsum n (fun i => Rabs (dx i) + 1)). set (Cu := rsum m (fun i => Rabs (du i) + 1)).
    assert (Px : 0 <= Cx) by (apply rsum_nonneg; intros; pose proof (Rabs_pos (dx i)); lra). assert (Pu : 0 <= Cu) by (apply rsum_nonneg; intros; pose proof (Rabs_pos (du i)); lra).
    set (C := Cx + Cu + 1). assert (PC : 0 < C) by (unfold C; lra).
    destruct (HF (eps / C)) as (del & Pd & D); [apply Rdiv_lt_0_compat; lra|].
    destruct (fin_del n (fun i t => Rabs (X t i - x i) <= (Rabs (dx i) + 1) * Rabs t)) as (d1 & P1 & D1).
    { intros i Hi. destruct (lip _ _ (DX i Hi)) as (d & Q & E). exists d. split; [exact Q|]. intros t Ht. rewrite <- (X0 i Hi). apply E. exact Ht. }
    destruct (fin_del m (fun i t => Rabs (U t i - u i) <= (Rabs (du i) + 1) * Rabs t)) as (d2 & P2 & D2).
    { intros i Hi. destruct (lip _ _ (DU i Hi)) as (d & Q & E). exists d. split; [exact Q|]. intros t Ht. rewrite <- (U0 i Hi). apply E. exact Ht. }
    assert (Pdc : 0 < del / C) by (apply Rdiv_lt_0_compat; lra). exists (Rmin (del / C) (Rmin d1 d2)). split; [repeat apply Rmin_pos; assumption|].
    intros t Ht. pose proof (Rmin_l (del / C) (Rmin d1 d2)). pose proof (Rmin_r (del / C) (Rmin d1 d2)). pose proof (Rmin_l d1 d2). pose proof (Rmin_r d1 d2).
    specialize (D1 t ltac:(lra)). specialize (D2 t ltac:(lra)). pose proof (Rabs_pos t) as Pt.
    assert (TC : C * Rabs t <= del). { apply (Rle_trans _ (C * (del / C))); [apply Rmult_le_compat_l; lra|]. right. field. lra. }
    assert (BX : forall i, (i < n)%nat -> Rabs (X t i - x i) <= del).
    { intros i Hi. eapply Rle_trans; [apply D1; exact Hi|]. apply (Rle_trans _ (C * Rabs t)); [|exact TC]. apply Rmult_le_compat_r; [exact Pt|].
      pose proof (single_le n (fun i => Rabs (dx i) + 1) i Hi ltac:(intros; pose proof (Rabs_pos (dx j)); lra)). fold Cx in H3. cbn beta in H3. unfold C. lra. }
    assert (BU : forall i, (i < m)%nat -> Rabs (U t i - u i) <= del).
    { intros i Hi. eapply Rle_trans; [apply D2; exact Hi|]. apply (Rle_trans _ (C * Rabs t)); [|exact TC]. apply Rmult_le_compat_r; [exact Pt|].
      pose proof (single_le m (fun i => Rabs (du i) + 1) i Hi ltac:(intros; pose proof (Rabs_pos (du j)); lra)). fold Cu in H3. cbn beta in H3. unfold C. lra. }
    specialize (D (X t) (U t) BX BU). rewrite R0, !inner_r, !tot_rsum in *. fold (L t) in D. unfold rem.
    replace (g (X t) (U t) - g x u - L t - 0 - 0 * t) with (g (X t) (U t) - g x u - L t) by ring. eapply Rle_trans; [exact D|].
    assert (SX : rsum n (fun i => Rabs (X t i - x i)) <= Cx * Rabs t) by (unfold Cx; rewrite <- rsum_scal_r; apply rsum_le; intros i Hi; apply D1; exact Hi).
    assert (SU : rsum m (fun i => Rabs (U t i - u i)) <= Cu * Rabs t) by (unfold Cu; rewrite <- rsum_scal_r; apply rsum_le; intros i Hi; apply D2; exact Hi).
    apply (Rle_trans _ (eps / C * (C * Rabs t))); [|right; field; lra]. apply Rmult_le_compat_l; [apply Rlt_le, Rdiv_lt_0_compat; lra|]. unfold C. lra. }
  apply (d_ext (fun t => L t + rem t + g x u)); [intros t; unfold rem; lra|].
  apply (d_eq _ (inner n gx dx + inner m gu du + 0 + 0)); [|lra]. apply d_plus; [apply d_plus; assumption|apply d_const].
Qed.
End Chain.
Lemma frechet_slopes n m g gx gu x u : frechet n m g gx gu x u -> slopes n m g gx gu x u.
Proof. intros H X U dx du [X0 DX] [U0 DU]. exact (chain n m g gx gu x u H X U dx du X0 U0 DX DU). Qed.
Section Slopes.
Context (n m : nat) (g : (nat -> R) -> (nat -> R) -> R) (gx gu x u : nat -> R) (HF : slopes n m g gx gu x u).
(** only the first entries matter *)
Lemma slopes_same y v : (forall i, (i < n)%nat -> y i = x i) -> (forall i, (i < m)%nat -> v i = u i) -> g y v = g x u.
Proof.
  intros HY HV. set (X := fun t : R => if Req_EM_T t 0 then x else y). set (U := fun t : R => if Req_EM_T t 0 then u else v).
  assert (PX : passes X n x (fun _ => 0)).
  { split; intros i Hi; unfold X; [destruct (Req_EM_T 0 0); [reflexivity|lra]|]. apply (d_ext (fun _ => x i)); [|apply d_const]. intros t. destruct (Req_EM_T t 0); [reflexivity|symmetry; apply HY; exact Hi]. }
  assert (PU : passes U m u (fun _ => 0)).
  { split; intros i Hi; unfold U; [destruct (Req_EM_T 0 0); [reflexivity|lra]|]. apply (d_ext (fun _ => u i)); [|apply d_const]. intros t. destruct (Req_EM_T t 0); [reflexivity|symmetry; apply HV; exact Hi]. }
  pose proof (HF X U _ _ PX PU) as D. rewrite !inner_zero_r in D. destruct (Req_dec (g y v) (g x u)) as [E|NE]; [exact E|exfalso].
  destruct (proj1 (small_o _ _) D 1 ltac:(lra)) as (del & P & B). set (e := Rabs (g y v - g x u)). assert (E0 : 0 < e) by (apply Rabs_pos_lt; lra).
  set (t := Rmin del (e / 2)). assert (T0 : 0 < t) by (apply Rmin_pos; lra). pose proof (Rmin_l del (e / 2)). pose proof (Rmin_r del (e / 2)). fold t in H, H0.
  specialize (B t). rewrite (Rabs_pos_eq t) in B by lra. specialize (B H). unfold X, U in B. destruct (Req_EM_T t 0); [lra|]. destruct (Req_EM_T 0 0); [|lra].
  replace (g y v - g x u - (0 + 0) * t) with (g y v - g x u) in B by ring. fold e in B. lra.
Qed.
Context (X U : R -> nat -> R) (dx du : nat -> R).
Context (X0 : forall i, (i < n)%nat -> X 0 i = x i) (U0 : forall i, (i < m)%nat -> U 0 i = u i).
Context (DX : forall i, (i < n)%nat -> is_derive (fun t => X t i) 0 (dx i)) (DU : forall i, (i < m)%nat -> is_derive (fun t => U t i) 0 (du i)).
Lemma slopes_chain : is_derive (fun t => g (X t) (U t)) 0 (inner n gx dx + inner m gu du).
Proof. apply HF; split; assumption. Qed.
End Slopes.
