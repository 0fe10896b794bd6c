(** Facts about the linear algebra of [Lin] over the real numbers, and storage facts for all scalars. *)
From Coq Require Import Reals Lra Lia List Bool ZArith Psatz.
From Verif Require Import Base Lin.
Import ListNotations.

Section Generic.
Context {F : Scalar}.
Lemma nth_map_seq {A} (f : nat -> A) n i d : i < n -> nth i (map f (seq 0 n)) d = f i.
Proof.
  intros H. rewrite nth_indep with (d' := f 0).
  2: now rewrite map_length, seq_length.
  rewrite map_nth, seq_nth; auto.
Qed.
Lemma vstore_lt n (v : vec F) i : i < n -> vstore n v i = v i.
Proof. intros H. unfold vstore. now apply nth_map_seq. Qed.
Lemma vstore_ge n (v : vec F) i : n <= i -> vstore n v i = zero.
Proof. intros H. unfold vstore. apply nth_overflow. now rewrite map_length, seq_length. Qed.
Lemma mstore_lt r c (A : mat F) i j : i < r -> j < c -> mstore r c A i j = A i j.
Proof.
  intros Hi Hj. unfold mstore. rewrite nth_map_seq by auto. now apply nth_map_seq.
Qed.
Lemma sumn_ext n (f g : nat -> F) : (forall i, i < n -> f i = g i) -> sumn n f = sumn n g.
Proof.
  induction n; simpl; intros H; auto. rewrite IHn by (intros; apply H; lia). now rewrite H by lia.
Qed.
Lemma dot_ext n (a b c d : vec F) :
  (forall i, i < n -> a i = c i) -> (forall i, i < n -> b i = d i) -> dot n a b = dot n c d.
Proof. intros H1 H2. apply sumn_ext. intros i Hi. now rewrite H1, H2. Qed.
Lemma linf_ext n (a b : vec F) : (forall i, i < n -> a i = b i) -> linf n a = linf n b.
Proof.
  induction n; simpl; intros H; auto. rewrite IHn by (intros; apply H; lia). now rewrite H by lia.
Qed.
Lemma vstore_ext n (v w : vec F) : (forall i, i < n -> v i = w i) -> vstore n v = vstore n w.
Proof.
  intros H. unfold vstore. replace (map v (seq 0 n)) with (map w (seq 0 n)); auto.
  apply map_ext_in. intros a Ha. apply in_seq in Ha. symmetry. apply H. lia.
Qed.
Lemma mstore_ext r c (A B : mat F) :
  (forall i j, i < r -> j < c -> A i j = B i j) -> mstore r c A = mstore r c B.
Proof.
  intros H. unfold mstore.
  replace (map (fun i => map (A i) (seq 0 c)) (seq 0 r)) with (map (fun i => map (B i) (seq 0 c)) (seq 0 r)); auto.
  apply map_ext_in. intros a Ha. apply in_seq in Ha. apply map_ext_in. intros b Hb. apply in_seq in Hb.
  symmetry. apply H; lia.
Qed.
End Generic.

(** Turn record projections of [RS] into the real operations. *)
Ltac rs := cbn [T add sub mul div opp sabs ssqrt ltb leb eqb ofZ zero one tof32 RS] in *.

Local Open Scope R_scope.
Notation rsum := (@sumn RS).
Notation rdot := (@dot RS).

Lemma rsum_S n (f : nat -> R) : rsum (S n) f = rsum n f + f n.
Proof. reflexivity. Qed.
Lemma rsum_0 (f : nat -> R) : rsum 0 f = 0.
Proof. reflexivity. Qed.
Lemma rsum_ext n (f g : nat -> R) : (forall i, (i < n)%nat -> f i = g i) -> rsum n f = rsum n g.
Proof. exact (sumn_ext (F:=RS) n f g). Qed.
Lemma rsum_plus n (f g : nat -> R) : rsum n (fun i => f i + g i) = rsum n f + rsum n g.
Proof. induction n; rewrite ?rsum_S, ?rsum_0; [lra|]. rewrite IHn; lra. Qed.
Lemma rsum_minus n (f g : nat -> R) : rsum n (fun i => f i - g i) = rsum n f - rsum n g.
Proof. induction n; rewrite ?rsum_S, ?rsum_0; [lra|]. rewrite IHn; lra. Qed.
Lemma rsum_opp n (f : nat -> R) : rsum n (fun i => - f i) = - rsum n f.
Proof. induction n; rewrite ?rsum_S, ?rsum_0; [lra|]. rewrite IHn; lra. Qed.
Lemma rsum_scal n k (f : nat -> R) : rsum n (fun i => k * f i) = k * rsum n f.
Proof. induction n; rewrite ?rsum_S, ?rsum_0; [lra|]. rewrite IHn; lra. Qed.
Lemma rsum_scal_r n k (f : nat -> R) : rsum n (fun i => f i * k) = rsum n f * k.
Proof. induction n; rewrite ?rsum_S, ?rsum_0; [lra|]. rewrite IHn; lra. Qed.
Lemma rsum_zero n : rsum n (fun _ => 0) = 0.
Proof. induction n; rewrite ?rsum_S, ?rsum_0; lra. Qed.
Lemma rsum_zero' n (f : nat -> R) : (forall i, (i < n)%nat -> f i = 0) -> rsum n f = 0.
Proof. intros H. rewrite (sumn_ext (F:=RS) n f (fun _ => 0)); auto. apply rsum_zero. Qed.
Lemma rsum_nonneg n (f : nat -> R) : (forall i, (i < n)%nat -> 0 <= f i) -> 0 <= rsum n f.
Proof.
  induction n; rewrite ?rsum_S, ?rsum_0; intros H; [lra|].
  assert (0 <= rsum n f) by (apply IHn; intros; apply H; lia). specialize (H n (Nat.lt_succ_diag_r n)). lra.
Qed.
Lemma rsum_le n (f g : nat -> R) : (forall i, (i < n)%nat -> f i <= g i) -> rsum n f <= rsum n g.
Proof.
  induction n; rewrite ?rsum_S, ?rsum_0; intros H; [lra|].
  assert (rsum n f <= rsum n g) by (apply IHn; intros; apply H; lia).
  specialize (H n (Nat.lt_succ_diag_r n)). lra.
Qed.
Lemma rsum_swap n m (f : nat -> nat -> R) :
  rsum n (fun i => rsum m (fun j => f i j)) = rsum m (fun j => rsum n (fun i => f i j)).
Proof.
  induction n; intros.
  - rewrite rsum_0. symmetry. apply rsum_zero.
  - rewrite rsum_S, IHn, <- rsum_plus. apply sumn_ext. intros. now rewrite rsum_S.
Qed.
Lemma rsum_single n k (f : nat -> R) :
  (k < n)%nat -> (forall i, (i < n)%nat -> i <> k -> f i = 0) -> rsum n f = f k.
Proof.
  induction n; intros Hk H; [lia|]. rewrite rsum_S.
  destruct (Nat.eq_dec k n) as [->|Hne].
  - rewrite rsum_zero'; [lra|]. intros; apply H; lia.
  - rewrite IHn by (try lia; intros; apply H; lia). rewrite (H n) by lia. lra.
Qed.
Lemma rsum_split n m (f : nat -> R) : rsum (n + m) f = rsum n f + rsum m (fun j => f (n + j)%nat).
Proof.
  induction m; rewrite ?Nat.add_0_r, ?rsum_0; [lra|].
  rewrite Nat.add_succ_r, !rsum_S, IHm. lra.
Qed.
Lemma rsum_all_zero n (f : nat -> R) :
  (forall i, (i < n)%nat -> 0 <= f i) -> rsum n f = 0 -> forall i, (i < n)%nat -> f i = 0.
Proof.
  induction n; rewrite ?rsum_S; intros H H0 i Hi; [lia|].
  assert (0 <= rsum n f) by (apply rsum_nonneg; intros; apply H; lia).
  assert (0 <= f n) by (apply H; lia).
  destruct (Nat.eq_dec i n) as [->|]; [lra|]. apply IHn; [intros; apply H; lia | lra | lia].
Qed.

Lemma rdot_eq n (a b : nat -> R) : rdot n a b = rsum n (fun i => a i * b i).
Proof. reflexivity. Qed.
Lemma rdot_comm n (a b : nat -> R) : rdot n a b = rdot n b a.
Proof. apply sumn_ext. intros; rs; lra. Qed.
Lemma rdot_self_nonneg n (a : nat -> R) : 0 <= rdot n a a.
Proof. apply rsum_nonneg. intros; rs; nra. Qed.

Lemma smax_RS (a b : R) : @smax RS a b = Rmax a b.
Proof. unfold smax; rs. destruct (Rltb a b) eqn:E.
  - apply Rltb_true in E. rewrite Rmax_right; lra.
  - apply Rltb_false in E. rewrite Rmax_left; lra. Qed.
Lemma smin_RS (a b : R) : @smin RS a b = Rmin a b.
Proof. unfold smin; rs. destruct (Rltb b a) eqn:E.
  - apply Rltb_true in E. rewrite Rmin_right; lra.
  - apply Rltb_false in E. rewrite Rmin_left; lra. Qed.

Notation rlinf := (@linf RS).
Lemma rlinf_S n (a : nat -> R) : rlinf (S n) a = Rmax (rlinf n a) (Rabs (a n)).
Proof. simpl. rewrite smax_RS. reflexivity. Qed.
Lemma rlinf_nonneg n (a : nat -> R) : 0 <= rlinf n a.
Proof. induction n; [simpl; lra|]. rewrite rlinf_S. eapply Rle_trans; [apply IHn|apply Rmax_l]. Qed.
Lemma rlinf_ub n (a : nat -> R) i : (i < n)%nat -> Rabs (a i) <= rlinf n a.
Proof.
  induction n; intros H; [lia|]. rewrite rlinf_S. destruct (Nat.eq_dec i n) as [->|].
  - apply Rmax_r.
  - eapply Rle_trans; [apply IHn; lia|apply Rmax_l].
Qed.
Lemma rlinf_attained n (a : nat -> R) : rlinf n a = 0 \/ exists i, (i < n)%nat /\ rlinf n a = Rabs (a i).
Proof.
  induction n; [left; reflexivity|]. rewrite rlinf_S. unfold Rmax. destruct (Rle_dec _ _).
  - right; exists n; split; auto.
  - destruct IHn as [->|(i & Hi & ->)]; [left; auto|right; exists i; split; auto; lia].
Qed.

Notation rlsum := (@lsum RS).
Notation rllinf := (@llinf RS).
Lemma rllinf_cons (x : R) l : rllinf (x :: l) = Rmax (Rabs x) (rllinf l).
Proof. simpl. rewrite smax_RS. reflexivity. Qed.
Lemma rllinf_nonneg (l : list R) : 0 <= rllinf l.
Proof. induction l; [simpl; lra|]. rewrite rllinf_cons. eapply Rle_trans; [apply IHl|apply Rmax_r]. Qed.
Lemma rllinf_ub (l : list R) x : In x l -> Rabs x <= rllinf l.
Proof.
  induction l; intros H; [easy|]. rewrite rllinf_cons. destruct H as [->|H].
  - apply Rmax_l.
  - eapply Rle_trans; [apply IHl; auto|apply Rmax_r].
Qed.
Lemma rllinf_attained (l : list R) : rllinf l = 0 \/ exists x, In x l /\ rllinf l = Rabs x.
Proof.
  induction l; [left; reflexivity|]. rewrite rllinf_cons. unfold Rmax. destruct (Rle_dec _ _).
  - destruct IHl as [->|(x & Hx & ->)]; [left; auto|right; exists x; split; simpl; auto].
  - right; exists a; split; simpl; auto.
Qed.
