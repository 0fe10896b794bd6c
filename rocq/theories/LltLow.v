(** The factorisation and the solve never read the upper triangle (any arithmetic). *)
From Coq Require Import Lia List Bool Arith.
From Verif Require Import Base Lin RLin.
Import ListNotations.

Section S.
Context {F : Scalar}.
(** same lower triangle *)
Definition same_low (m : nat) (A B : mat F) : Prop := forall i j, j <= i -> i < m -> A i j = B i j.
Lemma sumn_ext' n (f g : nat -> F) : (forall i, i < n -> f i = g i) -> sumn n f = sumn n g.
Proof. induction n; intros H; [reflexivity|]. cbn [sumn]. rewrite IHn, H by auto. reflexivity. Qed.
Lemma mstore_at r c (A : mat F) i j : i < r -> j < c -> mstore r c A i j = A i j.
Proof. apply mstore_lt. Qed.
Lemma col_low m k (A B : mat F) : k < m -> same_low m A B -> match llt_col m k A, llt_col m k B with Some A', Some B' => same_low m A' B' | None, None => True | _, _ => False end.
Proof.
  intros Hk H. unfold llt_col. rewrite (H k k) by lia. rewrite (sumn_ext' k (fun l => mul (A k l) (A k l)) (fun l => mul (B k l) (B k l))) by (intros l Hl; rewrite (H k l) by lia; reflexivity).
  destruct (leb _ _); [exact I|]. intros i j Hij Hi. rewrite !mstore_at by lia. destruct (Nat.eqb_spec j k) as [->|]; [|apply H; lia].
  destruct (Nat.eqb i k); [reflexivity|]. destruct (Nat.ltb_spec k i); [|apply H; lia]. rewrite (H i k) by lia.
  rewrite (sumn_ext' k (fun l => mul (A i l) (A k l)) (fun l => mul (B i l) (B k l))) by (intros l Hl; rewrite (H k l), (H i l) by lia; reflexivity). reflexivity.
Qed.
Lemma cols_low m (A B : mat F) : same_low m A B -> forall k, k <= m -> match llt_cols m k A, llt_cols m k B with Some A', Some B' => same_low m A' B' | None, None => True | _, _ => False end.
Proof.
  intros H. induction k as [|k IH]; intros Hk; [exact H|]. cbn [llt_cols]. specialize (IH ltac:(lia)). destruct (llt_cols m k A) as [A'|], (llt_cols m k B) as [B'|]; try contradiction; auto. apply col_low; [lia|exact IH].
Qed.
Lemma llt_low m (A B : mat F) : same_low m A B -> match llt m A, llt m B with Some A', Some B' => same_low m A' B' | None, None => True | _, _ => False end.
Proof. intros H. apply cols_low; [|lia]. intros i j Hj Hi. rewrite !mstore_at by lia. apply H; auto. Qed.
Lemma vstore_at n (v : vec F) i : vstore n v i = if Nat.ltb i n then v i else zero.
Proof.
  unfold vstore. destruct (Nat.ltb_spec i n).
  - rewrite (nth_indep _ zero (v 0)) by (rewrite map_length, seq_length; lia). rewrite map_nth, seq_nth by lia. reflexivity.
  - apply nth_overflow. rewrite map_length, seq_length. lia.
Qed.
Lemma fwd_same m (L M : mat F) b : same_low m L M -> forall k, k <= m -> forall i, fwd_subst m k L b i = fwd_subst m k M b i.
Proof.
  intros H. induction k as [|k IH]; intros Hk i; [reflexivity|]. cbn [fwd_subst]. rewrite !vstore_at. destruct (Nat.ltb i m); [|reflexivity]. destruct (Nat.eqb i k); [|apply IH; lia].
  rewrite (H k k) by lia. rewrite (sumn_ext' k (fun l => mul (L k l) (fwd_subst m k L b l)) (fun l => mul (M k l) (fwd_subst m k M b l))) by (intros l Hl; rewrite (H k l), IH by lia; reflexivity). reflexivity.
Qed.
Lemma bwd_same m (L M : mat F) y y' : same_low m L M -> (forall i, y i = y' i) -> forall k, k <= m -> forall i, bwd_subst m k L y i = bwd_subst m k M y' i.
Proof.
  intros H Y. induction k as [|k IH]; intros Hk i; [reflexivity|]. cbn [bwd_subst]. rewrite !vstore_at. destruct (Nat.ltb i m); [|reflexivity]. destruct (Nat.eqb i (m - S k)); [|apply IH; lia].
  rewrite (H (m - S k) (m - S k)), (Y (m - S k)) by lia.
  rewrite (sumn_ext' k (fun l => mul (L (m - S k + 1 + l) (m - S k)) (bwd_subst m k L y (m - S k + 1 + l))) (fun l => mul (M (m - S k + 1 + l) (m - S k)) (bwd_subst m k M y' (m - S k + 1 + l)))) by (intros l Hl; rewrite H, IH by lia; reflexivity). reflexivity.
Qed.
Theorem low_only m (A B : mat F) : (forall i j, j <= i -> i < m -> A i j = B i j) ->
  match llt m A, llt m B with Some L, Some M => forall b i, llt_solve m L b i = llt_solve m M b i | None, None => True | _, _ => False end.
Proof.
  intros H. pose proof (llt_low m A B H) as X. destruct (llt m A) as [L|], (llt m B) as [M|]; auto. intros b i. unfold llt_solve. apply bwd_same; auto. apply fwd_same; auto.
Qed.
End S.
