(** Example dynamics: triple integrator and unicycle. *)
From Coq Require Import Reals Lra Lia List Bool ZArith.
From Coquelicot Require Import Coquelicot.
From Verif Require Import Base Lin RLin RDer ConModel ConSpec ConProofs IlqrModel DynModel DynSpec DynProofs ExampleModel.
Import List ListNotations.
Local Open Scope R_scope.

Section Tri.
Context {F : Scalar}.
Lemma tri_eval_loop_spec dof (x u : vec F) : forall cnt i xd k, (i + cnt <= dof)%nat ->
  tri_eval_loop dof x u i cnt xd k =
    if (Nat.leb i k && Nat.ltb k (i + cnt))%bool then x (k + dof)%nat
    else if (Nat.leb (i + dof) k && Nat.ltb k (i + cnt + dof))%bool then x (k + dof)%nat
    else if (Nat.leb (i + 2 * dof) k && Nat.ltb k (i + cnt + 2 * dof))%bool then u (k - 2 * dof)%nat
    else xd k.
Proof.
  induction cnt as [|c IH]; intros i xd k H.
  - cbn [tri_eval_loop].
    repeat match goal with |- context [(Nat.leb ?a ?b && Nat.ltb ?c ?d)%bool] =>
      replace (Nat.leb a b && Nat.ltb c d)%bool with false by (symmetry; apply andb_false_iff; destruct (Nat.leb_spec a b); auto; right; apply Nat.ltb_ge; lia) end.
    reflexivity.
  - cbn [tri_eval_loop]. rewrite IH by lia. unfold vset.
    destruct (Nat.leb_spec (S i) k), (Nat.ltb_spec k (S i + c)), (Nat.leb_spec i k), (Nat.ltb_spec k (i + S c)); try lia; cbn [andb]; try reflexivity;
    destruct (Nat.leb_spec (S i + dof) k), (Nat.ltb_spec k (S i + c + dof)), (Nat.leb_spec (i + dof) k), (Nat.ltb_spec k (i + S c + dof)); try lia; cbn [andb]; try reflexivity;
    destruct (Nat.leb_spec (S i + 2 * dof) k), (Nat.ltb_spec k (S i + c + 2 * dof)), (Nat.leb_spec (i + 2 * dof) k), (Nat.ltb_spec k (i + S c + 2 * dof)); try lia; cbn [andb]; try reflexivity;
    destruct (Nat.eqb_spec k (i + 2 * dof)), (Nat.eqb_spec k (i + dof)), (Nat.eqb_spec k i); try lia; subst; try reflexivity; try (f_equal; lia).
Qed.
Lemma tri_jac_loop_spec dof : forall cnt i (jac : mat F) r c, (i + cnt <= dof)%nat ->
  tri_jac_loop dof i cnt jac r c =
    if ((Nat.eqb c (r + dof)) && ((Nat.leb i r && Nat.ltb r (i + cnt)) || (Nat.leb (i + dof) r && Nat.ltb r (i + cnt + dof))
        || (Nat.leb (i + 2 * dof) r && Nat.ltb r (i + cnt + 2 * dof))))%bool then one else jac r c.
Proof.
  induction cnt as [|n IH]; intros i jac r c H.
  - cbn [tri_jac_loop].
    repeat match goal with |- context [(Nat.leb ?a ?b && Nat.ltb ?c ?d)%bool] =>
      replace (Nat.leb a b && Nat.ltb c d)%bool with false by (symmetry; apply andb_false_iff; destruct (Nat.leb_spec a b); auto; right; apply Nat.ltb_ge; lia) end.
    rewrite andb_false_r. reflexivity.
  - cbn [tri_jac_loop]. rewrite IH by lia. unfold mset.
    destruct (Nat.eqb_spec c (r + dof)); cbn [andb].
    2: { replace (Nat.eqb r (i + 2 * dof) && Nat.eqb c (i + 3 * dof))%bool with false
           by (symmetry; apply andb_false_iff; destruct (Nat.eqb_spec r (i + 2 * dof)); auto; right; apply Nat.eqb_neq; lia).
         replace (Nat.eqb r (i + dof) && Nat.eqb c (i + 2 * dof))%bool with false
           by (symmetry; apply andb_false_iff; destruct (Nat.eqb_spec r (i + dof)); auto; right; apply Nat.eqb_neq; lia).
         replace (Nat.eqb r i && Nat.eqb c (i + dof))%bool with false
           by (symmetry; apply andb_false_iff; destruct (Nat.eqb_spec r i); auto; right; apply Nat.eqb_neq; lia).
         reflexivity. }
    subst c.
    destruct (Nat.leb_spec (S i) r), (Nat.ltb_spec r (S i + n)), (Nat.leb_spec i r), (Nat.ltb_spec r (i + S n)); try lia; cbn [andb orb]; try reflexivity;
    destruct (Nat.leb_spec (S i + dof) r), (Nat.ltb_spec r (S i + n + dof)), (Nat.leb_spec (i + dof) r), (Nat.ltb_spec r (i + S n + dof)); try lia; cbn [andb orb]; try reflexivity;
    destruct (Nat.leb_spec (S i + 2 * dof) r), (Nat.ltb_spec r (S i + n + 2 * dof)), (Nat.leb_spec (i + 2 * dof) r), (Nat.ltb_spec r (i + S n + 2 * dof)); try lia; cbn [andb orb]; try reflexivity;
    destruct (Nat.eqb_spec r (i + 2 * dof)), (Nat.eqb_spec r (i + dof)), (Nat.eqb_spec r i),
      (Nat.eqb_spec (r + dof) (i + 3 * dof)), (Nat.eqb_spec (r + dof) (i + 2 * dof)), (Nat.eqb_spec (r + dof) (i + dof)); try lia; reflexivity.
Qed.
Lemma triple_eval dof (x u : vec F) t xd k : (k < 3 * dof)%nat ->
  cd_eval (triple dof) x u t xd k = if Nat.ltb k (2 * dof) then x (k + dof)%nat else u (k - 2 * dof)%nat.
Proof.
  intros H. cbn [triple cd_eval]. rewrite tri_eval_loop_spec by lia.
  destruct (Nat.leb_spec 0 k), (Nat.ltb_spec k (0 + dof)), (Nat.ltb_spec k (2 * dof)); try lia; cbn [andb]; try reflexivity;
  destruct (Nat.leb_spec (0 + dof) k), (Nat.ltb_spec k (0 + dof + dof)); try lia; cbn [andb]; try reflexivity;
  destruct (Nat.leb_spec (0 + 2 * dof) k), (Nat.ltb_spec k (0 + dof + 2 * dof)); try lia; reflexivity.
Qed.
Lemma triple_jac dof (x u : vec F) t (jac : mat F) r c : (r < 3 * dof)%nat ->
  cd_jac (triple dof) x u t jac r c = if Nat.eqb c (r + dof) then one else zero.
Proof.
  intros H. cbn [triple cd_jac]. rewrite tri_jac_loop_spec by lia.
  destruct (Nat.eqb_spec c (r + dof)); cbn [andb]; [|reflexivity].
  destruct (Nat.leb_spec 0 r), (Nat.ltb_spec r (0 + dof)); try lia; cbn [andb orb]; try reflexivity;
  destruct (Nat.leb_spec (0 + dof) r), (Nat.ltb_spec r (0 + dof + dof)); try lia; cbn [andb orb]; try reflexivity;
  destruct (Nat.leb_spec (0 + 2 * dof) r), (Nat.ltb_spec r (0 + dof + 2 * dof)); try lia; reflexivity.
Qed.
End Tri.

(** the triple integrator's vector field: position' = velocity, velocity' = acceleration, acceleration' = u *)
Definition tri_field (dof : nat) (x u : vec RS) (t : R) (k : nat) : R :=
  if Nat.ltb k (2 * dof) then x (k + dof)%nat else u (k - 2 * dof)%nat.
Lemma triple_computes dof : computes (3 * dof) (triple dof) (tri_field dof).
Proof.
  split.
  - intros. apply triple_eval. auto.
  - intros x y u t H i Hi. unfold tri_field. destruct (Nat.ltb_spec i (2 * dof)); auto. apply H. lia.
Qed.
Definition tri_J (dof : nat) (x u : vec RS) (t : R) (i j : nat) : R := if Nat.eqb j (i + dof) then 1 else 0.
Lemma triple_jac_true dof : jac_true (3 * dof) dof (triple dof) (tri_field dof) (tri_J dof) (fun _ _ => true).
Proof.
  split.
  - intros. apply triple_jac. auto.
  - discriminate.
  - reflexivity.
  - intros X U v w t HX HU i Hi. unfold tri_field, tri_J. rewrite !fsum_rsum.
    destruct (Nat.ltb_spec i (2 * dof)) as [Hl|Hl].
    + eapply d_eq; [apply HX|].
      rewrite (rsum_zero' dof) by (intros j Hj; replace (Nat.eqb (3 * dof + j) (i + dof)) with false by (symmetry; apply Nat.eqb_neq; lia); lra).
      rewrite (rsum_single (3 * dof) (i + dof)) by (try lia; intros j Hj Hne; replace (Nat.eqb j (i + dof)) with false by (symmetry; apply Nat.eqb_neq; lia); lra).
      rewrite Nat.eqb_refl. lra.
    + eapply d_eq; [apply HU|].
      rewrite (rsum_zero' (3 * dof)) by (intros j Hj; replace (Nat.eqb j (i + dof)) with false by (symmetry; apply Nat.eqb_neq; lia); lra).
      rewrite (rsum_single dof (i - 2 * dof)) by (try lia; intros j Hj Hne; replace (Nat.eqb (3 * dof + j) (i + dof)) with false by (symmetry; apply Nat.eqb_neq; lia); lra).
      replace (Nat.eqb (3 * dof + (i - 2 * dof)) (i + dof)) with true by (symmetry; apply Nat.eqb_eq; lia). lra.
Qed.
Lemma triple_J_ti dof x u t t' i j : tri_J dof x u t i j = tri_J dof x u t' i j. Proof. reflexivity. Qed.

(** two functions with the same derivative differ by a constant *)
Lemma same_deriv (f g : R -> R) (d : R -> R) (a b : R) :
  (forall s, is_derive f s (d s)) -> (forall s, is_derive g s (d s)) -> f b - f a = g b - g a.
Proof.
  intros Hf Hg.
  assert (H : forall s, is_derive (fun s => f s - g s) s 0).
  { intros s. eapply d_eq; [apply d_minus; [apply Hf|apply Hg]|lra]. }
  assert (E : f b - g b = f a - g a).
  { destruct (Rtotal_order a b) as [L|[->|L]]; auto.
    - symmetry. apply (eq_is_derive (fun s => f s - g s) a b); auto.
    - apply (eq_is_derive (fun s => f s - g s) b a); auto. }
  lra.
Qed.
(** the Runge-Kutta step of the triple integrator *)
Lemma triple_step dof x u t h y : rk4_scheme (3 * dof) (tri_field dof) x u t h y -> forall i, (i < dof)%nat ->
  y i = x i + h * x (i + dof)%nat + h ^ 2 / 2 * x (i + 2 * dof)%nat + h ^ 3 / 6 * u i /\
  y (i + dof)%nat = x (i + dof)%nat + h * x (i + 2 * dof)%nat + h ^ 2 / 2 * u i /\
  y (i + 2 * dof)%nat = x (i + 2 * dof)%nat + h * u i.
Proof.
  intros (k1 & k2 & k3 & k4 & H1 & H2 & H3 & H4 & H5) i Hi.
  assert (P : forall z s, tri_field dof z u s i = z (i + dof)%nat).
  { intros. unfold tri_field. replace (Nat.ltb i (2 * dof)) with true by (symmetry; apply Nat.ltb_lt; lia). reflexivity. }
  assert (V : forall z s, tri_field dof z u s (i + dof)%nat = z (i + 2 * dof)%nat).
  { intros. unfold tri_field. replace (Nat.ltb (i + dof) (2 * dof)) with true by (symmetry; apply Nat.ltb_lt; lia). f_equal. lia. }
  assert (A : forall z s, tri_field dof z u s (i + 2 * dof)%nat = u i).
  { intros. unfold tri_field. replace (Nat.ltb (i + 2 * dof) (2 * dof)) with false by (symmetry; apply Nat.ltb_ge; lia). f_equal. lia. }
  repeat split; rewrite H5, H1, H2, H3, H4 by lia; rewrite ?P, ?V, ?A; rewrite ?H1, ?H2, ?H3 by lia; rewrite ?P, ?V, ?A;
    rewrite ?H1, ?H2 by lia; rewrite ?P, ?V, ?A; rewrite ?H1 by lia; rewrite ?P, ?V, ?A; field.
Qed.
Lemma d_quad (a b t r : R) : is_derive (fun s => (s - t) * a + (s - t) ^ 2 / 2 * b) r (a + (r - t) * b).
Proof. auto_derive; auto. field. Qed.
Lemma d_cubic (a b c t r : R) : is_derive (fun s => (s - t) * a + (s - t) ^ 2 / 2 * b + (s - t) ^ 3 / 6 * c) r (a + (r - t) * b + (r - t) ^ 2 / 2 * c).
Proof. auto_derive; auto. field. Qed.
(** every solution of the triple integrator's equation with constant control *)
Lemma triple_flow dof (X : R -> nat -> R) (u : vec RS) t h :
  (forall s k, (k < 3 * dof)%nat -> is_derive (fun s => X s k) s (tri_field dof (X s) u s k)) -> forall i, (i < dof)%nat ->
  X (t + h) i = X t i + h * X t (i + dof)%nat + h ^ 2 / 2 * X t (i + 2 * dof)%nat + h ^ 3 / 6 * u i /\
  X (t + h) (i + dof)%nat = X t (i + dof)%nat + h * X t (i + 2 * dof)%nat + h ^ 2 / 2 * u i /\
  X (t + h) (i + 2 * dof)%nat = X t (i + 2 * dof)%nat + h * u i.
Proof.
  intros HX i Hi.
  assert (DP : forall s, is_derive (fun s => X s i) s (X s (i + dof)%nat)).
  { intros s. eapply d_eq; [apply HX; lia|]. unfold tri_field. replace (Nat.ltb i (2 * dof)) with true by (symmetry; apply Nat.ltb_lt; lia). reflexivity. }
  assert (DV : forall s, is_derive (fun s => X s (i + dof)%nat) s (X s (i + 2 * dof)%nat)).
  { intros s. eapply d_eq; [apply HX; lia|]. unfold tri_field. replace (Nat.ltb (i + dof) (2 * dof)) with true by (symmetry; apply Nat.ltb_lt; lia). f_equal. lia. }
  assert (DA : forall s, is_derive (fun s => X s (i + 2 * dof)%nat) s (u i)).
  { intros s. eapply d_eq; [apply HX; lia|]. unfold tri_field. replace (Nat.ltb (i + 2 * dof) (2 * dof)) with false by (symmetry; apply Nat.ltb_ge; lia). f_equal. lia. }
  assert (EA : forall s, X s (i + 2 * dof)%nat = X t (i + 2 * dof)%nat + (s - t) * u i).
  { intros s. pose proof (same_deriv _ (fun s => s * u i) (fun _ => u i) t s DA) as E. cbv beta in E.
    enough (X s (i + 2 * dof)%nat - X t (i + 2 * dof)%nat = s * u i - t * u i) by lra.
    apply E. intros r. eapply d_eq; [apply d_scal_r; apply d_id|lra]. }
  assert (EV : forall s, X s (i + dof)%nat = X t (i + dof)%nat + (s - t) * X t (i + 2 * dof)%nat + (s - t) ^ 2 / 2 * u i).
  { intros s. pose proof (same_deriv _ (fun s => (s - t) * X t (i + 2 * dof)%nat + (s - t) ^ 2 / 2 * u i) (fun s => X s (i + 2 * dof)%nat) t s DV) as E.
    cbv beta in E. enough (X s (i + dof)%nat - X t (i + dof)%nat = (s - t) * X t (i + 2 * dof)%nat + (s - t) ^ 2 / 2 * u i - ((t - t) * X t (i + 2 * dof)%nat + (t - t) ^ 2 / 2 * u i)) by nra.
    apply E. intros r. rewrite (EA r). apply d_quad. }
  assert (EP : forall s, X s i = X t i + (s - t) * X t (i + dof)%nat + (s - t) ^ 2 / 2 * X t (i + 2 * dof)%nat + (s - t) ^ 3 / 6 * u i).
  { intros s. pose proof (same_deriv _ (fun s => (s - t) * X t (i + dof)%nat + (s - t) ^ 2 / 2 * X t (i + 2 * dof)%nat + (s - t) ^ 3 / 6 * u i) (fun s => X s (i + dof)%nat) t s DP) as E.
    cbv beta in E. enough (Q : X s i - X t i = (s - t) * X t (i + dof)%nat + (s - t) ^ 2 / 2 * X t (i + 2 * dof)%nat + (s - t) ^ 3 / 6 * u i
      - ((t - t) * X t (i + dof)%nat + (t - t) ^ 2 / 2 * X t (i + 2 * dof)%nat + (t - t) ^ 3 / 6 * u i)).
    { replace (t - t) with 0 in Q by lra. replace (0 ^ 2) with 0 in Q by ring. replace (0 ^ 3) with 0 in Q by ring. lra. }
    apply E. intros r. rewrite (EV r). apply d_cubic. }
  rewrite (EP (t + h)), (EV (t + h)), (EA (t + h)). replace (t + h - t) with h by lra. repeat split; lra.
Qed.
Lemma tri_split dof k : (k < 3 * dof)%nat -> exists i, (i < dof)%nat /\ (k = i \/ k = (i + dof)%nat \/ k = (i + 2 * dof)%nat).
Proof.
  intros H. destruct (Nat.lt_ge_cases k dof); [exists k; lia|]. destruct (Nat.lt_ge_cases k (2 * dof)); [exists (k - dof)%nat; lia|].
  exists (k - 2 * dof)%nat. lia.
Qed.

(** ** unicycle *)
Definition ru : CDyn RS := unicycle (F:=RS) cos sin.
Definition uni_field (x u : vec RS) (t : R) (k : nat) : R :=
  match k with 0%nat => u 0%nat * cos (x 2%nat) | 1%nat => u 0%nat * sin (x 2%nat) | _ => u 1%nat end.
Definition uni_W (i j : nat) : bool :=
  ((Nat.eqb i 0 && (Nat.eqb j 2 || Nat.eqb j 3)) || (Nat.eqb i 1 && (Nat.eqb j 2 || Nat.eqb j 3)) || (Nat.eqb i 2 && Nat.eqb j 4))%bool.
Definition uni_J (x u : vec RS) (t : R) (i j : nat) : R :=
  match i, j with
  | 0%nat, 2%nat => - u 0%nat * sin (x 2%nat) | 0%nat, 3%nat => cos (x 2%nat)
  | 1%nat, 2%nat => u 0%nat * cos (x 2%nat) | 1%nat, 3%nat => sin (x 2%nat)
  | 2%nat, 4%nat => 1 | _, _ => 0
  end.
Lemma unicycle_computes : computes 3 ru uni_field.
Proof.
  split.
  - intros x u t buf i Hi. destruct i as [|[|[|i]]]; try lia; reflexivity.
  - intros x y u t H i Hi. destruct i as [|[|[|i]]]; try lia; cbn [uni_field]; rewrite ?(H 2%nat) by lia; reflexivity.
Qed.
Lemma uni_J_loc x y u t i j : (forall k, (k < 3)%nat -> x k = y k) -> uni_J x u t i j = uni_J y u t i j.
Proof. intros H. destruct i as [|[|[|i]]]; destruct j as [|[|[|[|[|j]]]]]; cbn [uni_J]; rewrite ?(H 2%nat) by lia; reflexivity. Qed.
Lemma d_cos (f : R -> R) a x : is_derive f x a -> is_derive (fun s => cos (f s)) x (a * - sin (f x)).
Proof. intros H. apply (d_comp cos f); auto. apply is_derive_cos. Qed.
Lemma d_sin (f : R -> R) a x : is_derive f x a -> is_derive (fun s => sin (f s)) x (a * cos (f x)).
Proof. intros H. apply (d_comp sin f); auto. apply is_derive_sin. Qed.
Lemma unicycle_jac_true : jac_true 3 2 ru uni_field uni_J uni_W.
Proof.
  split.
  - intros x u t buf i j Hi Hj. destruct i as [|[|[|i]]]; try lia; destruct j as [|[|[|[|[|j]]]]]; try lia; reflexivity.
  - intros x u t i j. destruct i as [|[|[|i]]]; destruct j as [|[|[|[|[|j]]]]]; intros H; try reflexivity; discriminate H.
  - intros x y u t i j. apply uni_J_loc.
  - intros X U v w t HX HU i Hi. rewrite !fsum_rsum, !rsum_S, !rsum_0. destruct i as [|[|[|i]]]; try lia; cbn [uni_field uni_J Nat.add].
    + eapply d_eq; [apply d_mult; [apply HU|apply d_cos; apply HX]|]. cbv beta. ring.
    + eapply d_eq; [apply d_mult; [apply HU|apply d_sin; apply HX]|]. cbv beta. ring.
    + eapply d_eq; [apply HU|]. cbv beta. ring.
Qed.
Lemma uni_J_ti x u t t' i j : uni_J x u t i j = uni_J x u t' i j. Proof. reflexivity. Qed.
(** the Hessian is the derivative of J' b, row by row *)
Lemma unicycle_hess_true b t buf (X U : R -> nat -> R) v w : (forall i j, (i < 5)%nat -> (j < 5)%nat -> buf i j = 0) ->
  curve X v -> curve U w -> forall i, (i < 5)%nat ->
  is_derive (fun s => fsum 3 (fun r => uni_J (X s) (U s) t r i * b r)) 0
    (fsum 3 (fun j => uni_hess (F:=RS) cos sin (X 0) (U 0) t b buf i j * v j)
     + fsum 2 (fun j => uni_hess (F:=RS) cos sin (X 0) (U 0) t b buf i (3 + j)%nat * w j)).
Proof.
  intros Hb HX HU i Hi.
  apply (d_ext (fun s => rsum 3 (fun r => uni_J (X s) (U s) t r i * b r))); [intros; symmetry; apply fsum_rsum|].
  rewrite !fsum_rsum. rewrite !rsum_S, !rsum_0. cbn [Nat.add].
  destruct i as [|[|[|[|[|i]]]]]; try lia; unfold uni_hess, mset; cbn [Nat.eqb andb uni_J]; rewrite ?Hb by lia; rs.
  - apply (d_ext (fun _ => 0)); [intros; rewrite !rsum_S, !rsum_0; cbn [uni_J]; lra|]. eapply d_eq; [apply d_const|]. cbv beta. ring.
  - apply (d_ext (fun _ => 0)); [intros; rewrite !rsum_S, !rsum_0; cbn [uni_J]; lra|]. eapply d_eq; [apply d_const|]. cbv beta. ring.
  - apply (d_ext (fun s => - b 0%nat * (U s 0%nat * sin (X s 2%nat)) + b 1%nat * (U s 0%nat * cos (X s 2%nat))));
      [intros; rewrite !rsum_S, !rsum_0; cbn [uni_J]; lra|].
    eapply d_eq; [apply d_plus; apply d_scal; apply d_mult; [apply HU|apply d_sin; apply HX|apply HU|apply d_cos; apply HX]|]. cbv beta. ring.
  - apply (d_ext (fun s => b 0%nat * cos (X s 2%nat) + b 1%nat * sin (X s 2%nat))); [intros; rewrite !rsum_S, !rsum_0; cbn [uni_J]; lra|].
    eapply d_eq; [apply d_plus; apply d_scal; [apply d_cos; apply HX|apply d_sin; apply HX]|]. cbv beta. ring.
  - apply (d_ext (fun _ => b 2%nat)); [intros; rewrite !rsum_S, !rsum_0; cbn [uni_J]; lra|]. eapply d_eq; [apply d_const|]. cbv beta. ring.
Qed.
