(** The Cholesky factorisation and the triangular solves, over the reals. *)
From Coq Require Import Reals Lra Lia List Bool ZArith Psatz Arith.
From Verif Require Import Base Lin RLin LqSpec.
Import ListNotations.
Local Open Scope R_scope.

Lemma fold_acc l (f : nat -> R) a : fold_right (fun i s => f i + s) a l = fold_right (fun i s => f i + s) 0 l + a.
Proof. induction l; cbn; [lra|]. rewrite IHl. lra. Qed.
Lemma tot_S n f : tot (S n) f = tot n f + f n.
Proof. unfold tot. rewrite seq_S, fold_right_app, fold_acc. cbn. lra. Qed.
Lemma tot_rsum n f : tot n f = rsum n f.
Proof. induction n; [reflexivity|]. rewrite tot_S, IHn. reflexivity. Qed.

Lemma rsum_prefix n k (f : nat -> R) : (k <= n)%nat -> (forall i, (k <= i < n)%nat -> f i = 0) -> rsum n f = rsum k f.
Proof. intros H Z. replace n with (k + (n - k))%nat by lia. rewrite rsum_split, (rsum_zero' (n - k)); [lra|]. intros; apply Z; lia. Qed.
Lemma rsum_suffix n k (f : nat -> R) : (k <= n)%nat -> (forall i, (i < k)%nat -> f i = 0) -> rsum n f = rsum (n - k) (fun l => f (k + l)%nat).
Proof. intros H Z. replace n with (k + (n - k))%nat at 1 by lia. rewrite rsum_split, (rsum_zero' k); [lra|]. intros; apply Z; lia. Qed.

Lemma piv1 (a s q : R) : q <> 0 -> a = s + (a - s) / q * q.
Proof. intros. field. auto. Qed.
Lemma piv2 (a s q : R) : q <> 0 -> s + q * ((a - s) / q) = a.
Proof. intros. field. auto. Qed.
Lemma piv3 (a s q : R) : q <> 0 -> 0 + q * ((a - s) / q) + s = a.
Proof. intros. field. auto. Qed.
(** * the factor *)
Notation rllt := (@llt RS).
Lemma llt_col_ok m k (A A' : mat RS) : (k < m)%nat -> llt_col m k A = Some A' ->
  let x := A k k - rsum k (fun l => A k l * A k l) in 0 < x /\ A' k k = sqrt x /\
  (forall i, (k < i < m)%nat -> A' i k = (A i k - rsum k (fun l => A i l * A k l)) / sqrt x) /\
  (forall i j, (i < m)%nat -> (j < m)%nat -> j <> k -> A' i j = A i j) /\
  (forall i, (i < k)%nat -> A' i k = A i k).
Proof.
  intros Hk H. unfold llt_col in H. rs. destruct (Rleb _ 0) eqn:E; [discriminate|]. apply Rleb_false in E. inversion H; subst A'; clear H.
  cbv zeta. split; [exact E|]. split; [|split; [|split]].
  - rewrite mstore_lt by auto. rewrite !Nat.eqb_refl. reflexivity.
  - intros i Hi. rewrite mstore_lt by lia. rewrite Nat.eqb_refl. rewrite (proj2 (Nat.eqb_neq i k)) by lia. rewrite (proj2 (Nat.ltb_lt k i)) by lia. reflexivity.
  - intros i j Hi Hj N. rewrite mstore_lt by auto. rewrite (proj2 (Nat.eqb_neq j k) N). reflexivity.
  - intros i Hi. rewrite mstore_lt by lia. rewrite Nat.eqb_refl. rewrite (proj2 (Nat.eqb_neq i k)) by lia. rewrite (proj2 (Nat.ltb_ge k i)) by lia. reflexivity.
Qed.
(** after k columns *)
Lemma cols_inv m (A : mat RS) : forall k A', (k <= m)%nat -> llt_cols m k A = Some A' ->
  (forall i j, (i < m)%nat -> (k <= j < m)%nat -> A' i j = A i j) /\ (forall j, (j < k)%nat -> 0 < A' j j) /\
  (forall i j, (j < k)%nat -> (j <= i < m)%nat -> A i j = rsum (S j) (fun l => A' i l * A' j l)).
Proof.
  induction k as [|k IH]; intros A' Hk H; cbn [llt_cols] in H.
  - inversion H; subst. repeat split; auto; intros; lia.
  - destruct (llt_cols m k A) as [B|] eqn:E; [|discriminate]. destruct (IH B ltac:(lia) eq_refl) as (U & P & S0).
    destruct (llt_col_ok m k B A' ltac:(lia) H) as (X & D & C & O & _). cbv zeta in *. set (x := B k k - rsum k (fun l => B k l * B k l)) in *.
    assert (SQ : 0 < sqrt x) by (apply sqrt_lt_R0; exact X). assert (SS : sqrt x * sqrt x = x) by (apply sqrt_sqrt; lra).
    split; [|split].
    + intros i j Hi Hj. rewrite O by lia. apply U; lia.
    + intros j Hj. destruct (Nat.eq_dec j k) as [->|N]; [rewrite D; exact SQ|]. rewrite O by lia. apply P. lia.
    + intros i j Hj Hi. destruct (Nat.eq_dec j k) as [->|N].
      * rewrite rsum_S. rewrite (rsum_ext k _ (fun l => B i l * B k l)) by (intros l Hl; rewrite !O by lia; reflexivity).
        destruct (Nat.eq_dec i k) as [->|Ni].
        -- rewrite D, SS. unfold x. rewrite U by lia. lra.
        -- rewrite (C i) by lia. rewrite D. rewrite (U i k) by lia. apply piv1. lra.
      * rewrite (S0 i j) by lia. apply rsum_ext. intros l Hl. rewrite !O by lia. reflexivity.
Qed.
(** the factor with its upper triangle cleared *)
Definition low (L : nat -> nat -> R) (i l : nat) : R := if Nat.leb l i then L i l else 0.
Lemma low_in L i l : (l <= i)%nat -> low L i l = L i l.
Proof. intros H. unfold low. rewrite (proj2 (Nat.leb_le l i) H). reflexivity. Qed.
Lemma low_out L i l : (i < l)%nat -> low L i l = 0.
Proof. intros H. unfold low. rewrite (proj2 (Nat.leb_gt l i) H). reflexivity. Qed.
Lemma llt_factor m (A : mat RS) L : rllt m A = Some L ->
  (forall j, (j < m)%nat -> 0 < L j j) /\ (forall i j, (j <= i)%nat -> (i < m)%nat -> A i j = rsum m (fun l => low L i l * low L j l)).
Proof.
  unfold llt. intros H. destruct (cols_inv m (mstore m m A) m L (le_n _) H) as (_ & P & S0). split; [exact P|].
  intros i j Hj Hi. rewrite <- (mstore_lt (F:=RS) m m A i j) by lia. rewrite (S0 i j) by lia. rewrite (rsum_prefix m (S j)) by (try lia; intros l Hl; rewrite (low_out L j l) by lia; lra).
  apply rsum_ext. intros l Hl. rewrite !low_in by lia. reflexivity.
Qed.
Lemma llt_factor_sym m (A : mat RS) L : sym m A -> rllt m A = Some L -> forall i j, (i < m)%nat -> (j < m)%nat -> A i j = rsum m (fun l => low L i l * low L j l).
Proof.
  intros SY H i j Hi Hj. destruct (llt_factor m A L H) as [_ F]. destruct (Nat.le_ge_cases j i) as [J|J]; [apply F; auto|].
  rewrite SY by auto. rewrite (F j i) by auto. apply rsum_ext. intros; lra.
Qed.

(** * the triangular solves *)
Lemma fwd_ok m (L : mat RS) b : (forall j, (j < m)%nat -> L j j <> 0) -> forall k, (k <= m)%nat -> forall i, (i < k)%nat -> rsum (S i) (fun l => L i l * fwd_subst m k L b l) = b i.
Proof.
  intros NZ. induction k as [|k IH]; intros Hk i Hi; [lia|]. cbn [fwd_subst].
  set (y := fwd_subst m k L b) in *. set (v := div _ _).
  assert (E : forall l, (l < k)%nat -> vstore m (fun i0 => if Nat.eqb i0 k then v else y i0) l = y l).
  { intros l Hl. rewrite vstore_lt by lia. rewrite (proj2 (Nat.eqb_neq l k)) by lia. reflexivity. }
  destruct (Nat.eq_dec i k) as [->|N].
  - rewrite rsum_S. rewrite (rsum_ext k _ (fun l => L k l * y l)) by (intros l Hl; rewrite E by lia; reflexivity).
    rewrite vstore_lt by lia. rewrite Nat.eqb_refl. subst v. rs. apply piv2. apply NZ. lia.
  - rewrite <- (IH ltac:(lia) i ltac:(lia)). apply rsum_ext. intros l Hl. rewrite E by lia. reflexivity.
Qed.
Lemma bwd_ok m (L : mat RS) y : (forall j, (j < m)%nat -> L j j <> 0) -> forall k, (k <= m)%nat -> forall r, (m - k <= r < m)%nat ->
  rsum (m - r) (fun l => L (r + l)%nat r * bwd_subst m k L y (r + l)%nat) = y r.
Proof.
  intros NZ. induction k as [|k IH]; intros Hk r Hr; [lia|]. cbn [bwd_subst].
  set (x := bwd_subst m k L y) in *. set (r0 := (m - S k)%nat). set (v := div _ _).
  assert (E : forall i, (i < m)%nat -> i <> r0 -> vstore m (fun i0 => if Nat.eqb i0 r0 then v else x i0) i = x i).
  { intros i Hi Hn. rewrite vstore_lt by lia. rewrite (proj2 (Nat.eqb_neq i r0) Hn). reflexivity. }
  destruct (Nat.eq_dec r r0) as [->|N].
  - replace (m - r0)%nat with (1 + k)%nat by (unfold r0; lia). rewrite rsum_split. rewrite rsum_S, rsum_0.
    replace (r0 + 0)%nat with r0 by lia. rewrite vstore_lt by (unfold r0; lia). rewrite Nat.eqb_refl.
    rewrite (rsum_ext k _ (fun l => L (r0 + 1 + l)%nat r0 * x (r0 + 1 + l)%nat)).
    + unfold v. rs. apply piv3. apply NZ. unfold r0; lia.
    + intros l Hl. rewrite Nat.add_assoc. rewrite E by (unfold r0; lia). reflexivity.
  - rewrite <- (IH ltac:(lia) r) by (unfold r0 in N; lia). apply rsum_ext. intros l Hl. rewrite E by (unfold r0 in *; lia). reflexivity.
Qed.
Lemma fwd_low m (L : mat RS) b i : (forall j, (j < m)%nat -> L j j <> 0) -> (i < m)%nat -> rsum m (fun l => low L i l * fwd_subst m m L b l) = b i.
Proof.
  intros NZ Hi. rewrite <- (fwd_ok m L b NZ m (le_n _) i Hi). rewrite (rsum_prefix m (S i)) by (try lia; intros l Hl; rewrite low_out by lia; lra).
  apply rsum_ext. intros l Hl. rewrite low_in by lia. reflexivity.
Qed.
Lemma bwd_low m (L : mat RS) y r : (forall j, (j < m)%nat -> L j j <> 0) -> (r < m)%nat -> rsum m (fun i => low L i r * bwd_subst m m L y i) = y r.
Proof.
  intros NZ Hr. rewrite <- (bwd_ok m L y NZ m (le_n _) r) by lia. rewrite (rsum_suffix m r) by (try lia; intros l Hl; rewrite low_out by lia; lra).
  apply rsum_ext. intros l Hl. rewrite low_in by lia. reflexivity.
Qed.
Theorem llt_solves m (A : mat RS) L b : sym m A -> rllt m A = Some L -> forall i, (i < m)%nat -> rsum m (fun j => A i j * llt_solve m L b j) = b i.
Proof.
  intros SY H i Hi. destruct (llt_factor m A L H) as [P _]. assert (NZ : forall j, (j < m)%nat -> L j j <> 0) by (intros j Hj; specialize (P j Hj); lra).
  pose proof (llt_factor_sym m A L SY H) as F.
  rewrite (rsum_ext m _ (fun j => rsum m (fun l => low L i l * (low L j l * llt_solve m L b j)))).
  2:{ intros j Hj. rewrite F by auto. rewrite <- rsum_scal_r. apply rsum_ext. intros; lra. }
  rewrite rsum_swap. rewrite (rsum_ext m _ (fun l => low L i l * fwd_subst m m L b l)).
  - apply fwd_low; auto.
  - intros l Hl. rewrite rsum_scal. f_equal. unfold llt_solve. apply bwd_low; auto.
Qed.

(** * positive definiteness *)
Lemma form_rsum r c A x y : form r c A x y = rsum r (fun i => x i * rsum c (fun j => A i j * y j)).
Proof. unfold form. rewrite tot_rsum. apply rsum_ext. intros i Hi. rewrite tot_rsum. reflexivity. Qed.
Lemma form_factor m (A L : nat -> nat -> R) x : (forall i j, (i < m)%nat -> (j < m)%nat -> A i j = rsum m (fun l => low L i l * low L j l)) ->
  form m m A x x = rsum m (fun l => rsum m (fun i => low L i l * x i) * rsum m (fun i => low L i l * x i)).
Proof.
  intros F. rewrite form_rsum.
  rewrite (rsum_ext m _ (fun i => rsum m (fun l => low L i l * x i * rsum m (fun j => low L j l * x j)))).
  2:{ intros i Hi. rewrite (rsum_ext m (fun j => A i j * x j) (fun j => rsum m (fun l => low L i l * (low L j l * x j)))).
      - rewrite rsum_swap. rewrite <- rsum_scal. apply rsum_ext. intros l Hl. rewrite rsum_scal. lra.
      - intros j Hj. rewrite F by auto. rewrite <- rsum_scal_r. apply rsum_ext. intros; lra. }
  rewrite rsum_swap. apply rsum_ext. intros l Hl. rewrite <- rsum_scal_r. reflexivity.
Qed.
Theorem llt_posdef m (A : mat RS) L : sym m A -> rllt m A = Some L -> posdef m A.
Proof.
  intros SY H x (i & Hi & Nz). rewrite (form_factor m A L x (llt_factor_sym m A L SY H)).
  destruct (llt_factor m A L H) as [P _].
  set (y := fun l => rsum m (fun i => low L i l * x i)).
  assert (NN : forall l, (l < m)%nat -> 0 <= y l * y l) by (intros; nra).
  destruct (Rle_lt_or_eq_dec 0 (rsum m (fun l => y l * y l)) (rsum_nonneg m _ NN)) as [G|G]; [exact G|]. exfalso.
  assert (Z : forall l, (l < m)%nat -> y l = 0) by (intros l Hl; pose proof (rsum_all_zero m _ NN (eq_sym G) l Hl) as Q; nra).
  (* back substitution: x is zero from the end *)
  assert (X0 : forall k j, (k <= m)%nat -> (m - k <= j < m)%nat -> x j = 0).
  { induction k as [|k IH]; intros j Hk Hj; [lia|]. destruct (Nat.eq_dec j (m - S k)) as [->|N]; [|apply IH; lia].
    pose proof (Z (m - S k)%nat ltac:(lia)) as E. unfold y in E. rewrite (rsum_single m (m - S k)) in E by (try lia; intros i0 H0 N0; (destruct (Nat.lt_ge_cases i0 (m - S k)); [rewrite low_out by lia; lra|rewrite (IH i0) by lia; lra])).
    rewrite low_in in E by lia. specialize (P (m - S k)%nat ltac:(lia)). nra. }
  apply Nz. apply (X0 m); lia.
Qed.
(** a failing pivot exhibits a direction of non-positive curvature *)
Lemma pivot_fails m (A : mat RS) k B : (k < m)%nat -> sym m A -> llt_cols m k (mstore m m A) = Some B -> B k k - rsum k (fun l => B k l * B k l) <= 0 ->
  exists x, x k = 1 /\ form m m A x x <= 0.
Proof.
  intros Hk SY H X. destruct (cols_inv m (mstore m m A) k B ltac:(lia) H) as (U & P & S0).
  assert (NZ : forall j, (j < k)%nat -> B j j <> 0) by (intros j Hj; specialize (P j Hj); lra).
  set (w := bwd_subst k k B (fun l => - B k l)). pose proof (fun r Hr => bwd_low k B (fun l => - B k l) r NZ Hr) as W. fold w in W.
  set (x := fun i => if Nat.ltb i k then w i else if Nat.eqb i k then 1 else 0).
  assert (Xk : x k = 1) by (unfold x; rewrite Nat.ltb_irrefl, Nat.eqb_refl; reflexivity).
  assert (Xl : forall i, (i < k)%nat -> x i = w i) by (intros i Hi; unfold x; rewrite (proj2 (Nat.ltb_lt i k) Hi); reflexivity).
  assert (Xg : forall i, (k < i)%nat -> x i = 0) by (intros i Hi; unfold x; rewrite (proj2 (Nat.ltb_ge i k)) by lia; rewrite (proj2 (Nat.eqb_neq i k)) by lia; reflexivity).
  exists x. split; [exact Xk|].
  set (pv := B k k - rsum k (fun l => B k l * B k l)) in *.
  (* entries of A in the leading block of size k+1 *)
  assert (F : forall i j, (i < S k)%nat -> (j < S k)%nat -> A i j = rsum k (fun l => low B i l * low B j l) + (if Nat.eqb i k then if Nat.eqb j k then pv else 0 else 0)).
  { assert (F1 : forall i j, (j <= i)%nat -> (i < S k)%nat -> (j < k)%nat -> A i j = rsum k (fun l => low B i l * low B j l)).
    { intros i j Hj Hi Hj'. rewrite <- (mstore_lt (F:=RS) m m A i j) by lia. rewrite (S0 i j) by lia. rewrite (rsum_prefix k (S j)) by (try lia; intros l Hl; rewrite (low_out B j l) by lia; lra).
      apply rsum_ext. intros l Hl. rewrite !low_in by lia. reflexivity. }
    intros i j Hi Hj. destruct (Nat.eqb_spec i k) as [->|Ni]; [destruct (Nat.eqb_spec j k) as [->|Nj]|].
    - unfold pv. rewrite (U k k) by lia. rewrite mstore_lt by lia. rewrite (rsum_ext k (fun l => low B k l * low B k l) (fun l => B k l * B k l)); [lra|]. intros l Hl. rewrite !low_in by lia. reflexivity.
    - rewrite F1 by lia. lra.
    - destruct (Nat.le_ge_cases j i) as [J|J].
      + rewrite F1 by lia. lra.
      + rewrite SY by lia. rewrite F1 by lia. rewrite Rplus_0_r. apply rsum_ext. intros; lra. }
  (* restrict the form to the block *)
  rewrite form_rsum. rewrite (rsum_prefix m (S k)) by (try lia; intros i Hi; rewrite (Xg i) by lia; lra).
  rewrite (rsum_ext (S k) _ (fun i => rsum k (fun l => low B i l * x i * rsum (S k) (fun j => low B j l * x j)) + (if Nat.eqb i k then pv else 0))).
  2:{ intros i Hi. rewrite (rsum_prefix m (S k)) by (try lia; intros j Hj; rewrite (Xg j) by lia; lra).
      rewrite (rsum_ext (S k) (fun j => A i j * x j) (fun j => rsum k (fun l => low B i l * (low B j l * x j)) + (if Nat.eqb i k then if Nat.eqb j k then pv else 0 else 0) * x j)).
      2:{ intros j Hj. rewrite F by auto. rewrite Rmult_plus_distr_r, <- rsum_scal_r. f_equal. apply rsum_ext. intros; lra. }
      rewrite rsum_plus, Rmult_plus_distr_l. f_equal.
      - rewrite rsum_swap, <- rsum_scal. apply rsum_ext. intros l Hl. rewrite rsum_scal. lra.
      - destruct (Nat.eqb_spec i k) as [->|Ni].
        + rewrite (rsum_single (S k) k) by (try lia; intros j Hj Nj; rewrite (proj2 (Nat.eqb_neq j k) Nj); lra). rewrite Nat.eqb_refl, Xk. lra.
        + rewrite rsum_zero'; [lra|]. intros; lra. }
  rewrite rsum_plus, rsum_swap.
  rewrite (rsum_zero' k).
  - rewrite (rsum_single (S k) k) by (try lia; intros j Hj Nj; rewrite (proj2 (Nat.eqb_neq j k) Nj); lra). rewrite Nat.eqb_refl. lra.
  - intros l Hl. rewrite rsum_zero'; [reflexivity|]. intros i Hi.
    replace (rsum (S k) (fun j => low B j l * x j)) with 0; [lra|]. rewrite rsum_S, Xk. rewrite (rsum_ext k _ (fun j => low B j l * w j)) by (intros j Hj; rewrite Xl by auto; reflexivity).
    rewrite W by auto. rewrite low_in by lia. lra.
Qed.
Theorem posdef_llt m (A : mat RS) : sym m A -> posdef m A -> exists L, rllt m A = Some L.
Proof.
  intros SY PD. unfold llt. assert (G : forall k, (k <= m)%nat -> exists L, llt_cols m k (mstore m m A) = Some L).
  { induction k as [|k IH]; intros Hk; cbn [llt_cols]; [eauto|]. destruct (IH ltac:(lia)) as [B E]. rewrite E. unfold llt_col. rs.
    destruct (Rleb _ 0) eqn:X; [|eauto]. exfalso. apply Rleb_true in X. destruct (pivot_fails m A k B ltac:(lia) SY E X) as (x & X1 & X2).
    assert (0 < form m m A x x) by (apply PD; exists k; split; [lia|rewrite X1; lra]). lra. }
  apply G. lia.
Qed.
