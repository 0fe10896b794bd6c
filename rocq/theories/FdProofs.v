(** Difference quotients are derivatives at nearby points. *)
From Coq Require Import Reals Lra Lia List Bool ZArith Psatz.
From Coquelicot Require Import Coquelicot.
From Verif Require Import Base Lin RLin RDer ConModel ConSpec ConProofs ExampleModel DynProofs UtilModel UtilProofs UtilProofs2 FdSpec.
Import List ListNotations.
Local Open Scope R_scope.

Lemma along_same z b t : along z b t b = z b + t.
Proof. unfold along. rewrite Nat.eqb_refl. reflexivity. Qed.
Lemma along_other z b t k : k <> b -> along z b t k = z k.
Proof. intros H. unfold along. apply Nat.eqb_neq in H. rewrite H. reflexivity. Qed.
Lemma along_along z b s t k : along (along z b s) b t k = along z b (s + t) k.
Proof. unfold along. destruct (Nat.eqb k b); lra. Qed.
Lemma along_zero z b k : along z b 0 k = z k.
Proof. unfold along. destruct (Nat.eqb k b); lra. Qed.
Lemma along_swap z a b s t k : along (along z a s) b t k = along (along z b t) a s k.
Proof. unfold along. destruct (Nat.eqb k a), (Nat.eqb k b); lra. Qed.

Section G.
Context (n : nat) (f : (nat -> R) -> R) (D : nat -> (nat -> R) -> R).
Context (L : local n f) (P : partials n f D).
Lemma derive_along z b t : (b < n)%nat -> is_derive (fun s => f (along z b s)) t (D b (along z b t)).
Proof.
  intros Hb. pose proof (P b (along z b t) Hb) as H.
  assert (H1 : is_derive (fun s => f (along z b (t + s))) 0 (D b (along z b t))).
  { eapply is_derive_ext; [|exact H]. intros s. apply L. intros k _. apply along_along. }
  assert (H2 : is_derive (fun s => (fun r => f (along z b (t + r))) (s - t)) t (D b (along z b t))).
  { eapply d_eq; [apply (is_derive_comp (fun r => f (along z b (t + r))) (fun s => s - t) t (D b (along z b t)) 1)|].
    - replace (t - t) with 0 by lra. exact H1.
    - auto_derive; auto.
    - unfold scal. cbn. unfold mult. cbn. ring. }
  eapply is_derive_ext; [|exact H2]. intros s. cbv beta. apply L. intros k _. unfold along. destruct (Nat.eqb k b); lra.
Qed.
Lemma mvt_along z b s t : (b < n)%nat -> s <= t -> exists r, s <= r <= t /\ f (along z b t) - f (along z b s) = D b (along z b r) * (t - s).
Proof.
  intros Hb Hst. destruct (MVT_gen (fun r => f (along z b r)) s t (fun r => D b (along z b r))) as (r & Hr & E).
  - intros r _. apply derive_along. exact Hb.
  - intros r _. apply derivable_continuous_pt. exists (D b (along z b r)). apply is_derive_Reals. apply derive_along. exact Hb.
  - rewrite Rmin_left, Rmax_right in Hr by lra. eauto.
Qed.
(** forward and central quotients *)
Lemma forward_mvt z zp zm b eps : (b < n)%nat -> 0 < eps -> (forall k, (k < n)%nat -> zp k = along z b eps k) -> (forall k, (k < n)%nat -> zm k = z k) ->
  exists r, 0 <= r <= eps /\ (f zp - f zm) / eps = D b (along z b r).
Proof.
  intros Hb He Hp Hm. destruct (mvt_along z b 0 eps Hb ltac:(lra)) as (r & Hr & E). exists r. split; [exact Hr|].
  rewrite (L zp (along z b eps)) by exact Hp. rewrite (L zm (along z b 0)) by (intros k Hk; rewrite along_zero; auto). rewrite E. field. lra.
Qed.
Lemma central_mvt z zp zm b eps : (b < n)%nat -> 0 < eps -> (forall k, (k < n)%nat -> zp k = along z b eps k) -> (forall k, (k < n)%nat -> zm k = along z b (- eps) k) ->
  exists r, - eps <= r <= eps /\ (f zp - f zm) / (2 * eps) = D b (along z b r).
Proof.
  intros Hb He Hp Hm. destruct (mvt_along z b (- eps) eps Hb ltac:(lra)) as (r & Hr & E). exists r. split; [exact Hr|].
  rewrite (L zp (along z b eps)) by exact Hp. rewrite (L zm (along z b (- eps))) by exact Hm. rewrite E. field. lra.
Qed.
End G.
(** the second central difference *)
Lemma second_mvt n f G H z a b eps : local n f -> partials n f G -> second n G H -> (a < n)%nat -> (b < n)%nat -> 0 < eps ->
  exists s t, - eps <= s <= eps /\ - eps <= t <= eps /\
    ((f (along (along z b eps) a eps) - f (along (along z b eps) a (- eps))) / (2 * eps) - (f (along (along z b (- eps)) a eps) - f (along (along z b (- eps)) a (- eps))) / (2 * eps)) / (2 * eps)
    = H a b (along (along z b s) a t).
Proof.
  intros L P S Ha Hb He. destruct (S b Hb) as [LG PG].
  set (phi := fun s => f (along (along z a eps) b s) - f (along (along z a (- eps)) b s)).
  destruct (MVT_gen phi (- eps) eps (fun s => G b (along (along z a eps) b s) - G b (along (along z a (- eps)) b s))) as (s & Hs & E).
  - intros s _. unfold phi. apply (is_derive_minus (fun s => f (along (along z a eps) b s)) (fun s => f (along (along z a (- eps)) b s))); apply (derive_along n); auto.
  - intros s _. apply derivable_continuous_pt. exists (G b (along (along z a eps) b s) - G b (along (along z a (- eps)) b s)). apply is_derive_Reals. unfold phi.
    apply (is_derive_minus (fun s => f (along (along z a eps) b s)) (fun s => f (along (along z a (- eps)) b s))); apply (derive_along n); auto.
  - rewrite Rmin_left, Rmax_right in Hs by lra.
    destruct (mvt_along n (G b) (fun a => H a b) LG PG (along z b s) a (- eps) eps Ha ltac:(lra)) as (t & Ht & E2).
    exists s, t. split; [exact Hs|]. split; [exact Ht|].
    assert (SW : forall g, local n g -> forall p q, g (along (along z a p) b q) = g (along (along z b q) a p)) by (intros g Lg p q; apply Lg; intros k _; apply along_swap).
    unfold phi in E. rewrite !(SW f L) in E. rewrite !(SW (G b) LG) in E. rewrite E2 in E.
    assert (X : f (along (along z b eps) a eps) - f (along (along z b eps) a (- eps)) - (f (along (along z b (- eps)) a eps) - f (along (along z b (- eps)) a (- eps))) = H a b (along (along z b s) a t) * (2 * eps) * (2 * eps)) by lra.
    apply (Rmult_eq_reg_r (2 * eps * (2 * eps))); [|nra]. field_simplify; [|lra]. lra.
Qed.

(** * matrix comparison *)
Lemma rsum_bound r (f : nat -> R) B : (forall i, (i < r)%nat -> f i <= B) -> rsum r f <= INR r * B.
Proof.
  induction r as [|r IH]; intros H; [rewrite rsum_0; cbn; lra|]. rewrite rsum_S, S_INR. specialize (IH ltac:(intros; apply H; lia)). specialize (H r ltac:(lia)). lra.
Qed.
Lemma rsum_term r (f : nat -> R) i : (i < r)%nat -> (forall k, (k < r)%nat -> 0 <= f k) -> f i <= rsum r f.
Proof.
  induction r as [|r IH]; intros Hi H; [lia|]. rewrite rsum_S. assert (0 <= rsum r f) by (apply rsum_nonneg; intros; apply H; lia). pose proof (H r ltac:(lia)).
  destruct (Nat.eq_dec i r) as [->|N]; [lra|]. specialize (IH ltac:(lia) ltac:(intros; apply H; lia)). lra.
Qed.
Lemma compare_entries r c A B eps : mat_compare (F:=RS) r c A B eps = true -> forall i j, (i < r)%nat -> (j < c)%nat -> Rabs (A i j - B i j) < eps.
Proof.
  intros H i j Hi Hj. apply compare_RS in H.
  assert (Q : forall k l, 0 <= (A k l - B k l) ^ 2) by (intros; apply pow2_ge_0).
  assert (X : (A i j - B i j) ^ 2 <= rsum r (fun i => rsum c (fun j => (A i j - B i j) ^ 2))).
  { eapply Rle_trans; [apply (rsum_term c (fun j => (A i j - B i j) ^ 2) j Hj); intros; apply Q|].
    apply (rsum_term r (fun i => rsum c (fun j => (A i j - B i j) ^ 2)) i Hi). intros k Hk. apply rsum_nonneg. intros; apply Q. }
  eapply Rle_lt_trans; [|exact H]. rewrite <- sqrt_Rsqr_abs. apply sqrt_le_1_alt. unfold Rsqr. replace ((A i j - B i j) * (A i j - B i j)) with ((A i j - B i j) ^ 2) by ring. exact X.
Qed.
Lemma compare_within r c A B eps d : 0 <= d -> (forall i j, (i < r)%nat -> (j < c)%nat -> Rabs (A i j - B i j) <= d) -> d * sqrt (INR r * INR c) < eps -> mat_compare (F:=RS) r c A B eps = true.
Proof.
  intros Hd H He. apply compare_RS. eapply Rle_lt_trans; [|exact He].
  assert (X : rsum r (fun i => rsum c (fun j => (A i j - B i j) ^ 2)) <= INR r * (INR c * (d * d))).
  { apply rsum_bound. intros i Hi. apply rsum_bound. intros j Hj. specialize (H i j Hi Hj). pose proof (Rabs_pos (A i j - B i j)). replace ((A i j - B i j) ^ 2) with (Rabs (A i j - B i j) * Rabs (A i j - B i j)) by (rewrite <- Rabs_mult; rewrite Rabs_right; [ring|apply Rle_ge, Rle_0_sqr]). nra. }
  eapply Rle_trans; [apply sqrt_le_1_alt; exact X|]. replace (INR r * (INR c * (d * d))) with (d * d * (INR r * INR c)) by ring.
  rewrite sqrt_mult_alt by nra. rewrite sqrt_square by exact Hd. lra.
Qed.

(** * the model's difference quotients *)
Lemma moved_along n (x : nat -> R) b eps k : (k < n)%nat -> moved (F:=RS) n add x b eps k = along x b eps k.
Proof. intros H. rewrite moved_add by exact H. unfold along, unit_at. destruct (Nat.eqb k b); lra. Qed.
Lemma moved_along_sub n (x : nat -> R) b eps k : (k < n)%nat -> moved (F:=RS) n sub x b eps k = along x b (- eps) k.
Proof. intros H. rewrite moved_sub by exact H. unfold along, unit_at. destruct (Nat.eqb k b); lra. Qed.
Lemma along_ext n (x y : nat -> R) b t : (forall k, (k < n)%nat -> x k = y k) -> forall k, (k < n)%nat -> along x b t k = along y b t k.
Proof. intros H k Hk. unfold along. rewrite H by exact Hk. reflexivity. Qed.

Lemma fd_jac_mvt n m (f : vec RS -> vec RS) (D : nat -> nat -> (nat -> R) -> R) x eps central : n <> 0%nat -> 0 < eps ->
  (forall a, (a < m)%nat -> local n (fun z => f z a) /\ partials n (fun z => f z a) (D a)) ->
  exists J, fd_jac (F:=RS) n m f x eps central = Ok J /\
    forall a b, (a < m)%nat -> (b < n)%nat -> exists t, (if central then - eps else 0) <= t <= eps /\ J a b = D a b (along x b t).
Proof.
  intros Hn He HD. destruct (fd_jac_spec (F:=RS) n m f x eps central Hn) as (J & E & V). exists J. split; [exact E|]. intros a b Ha Hb.
  destruct (HD a Ha) as [L P]. rewrite V by auto. destruct central.
  - destruct (central_mvt n (fun z => f z a) (D a) L P x (moved (F:=RS) n add x b eps) (moved (F:=RS) n sub x b eps) b eps Hb He) as (t & Ht & Q).
    + intros k Hk. apply moved_along. exact Hk.
    + intros k Hk. apply moved_along_sub. exact Hk.
    + exists t. split; [exact Ht|]. rewrite DynProofs.two_RS. exact Q.
  - destruct (forward_mvt n (fun z => f z a) (D a) L P x (moved (F:=RS) n add x b eps) (vstore (F:=RS) n x) b eps Hb He) as (t & Ht & Q).
    + intros k Hk. apply moved_along. exact Hk.
    + intros k Hk. apply (vstore_lt (F:=RS)). exact Hk.
    + exists t. split; [exact Ht|]. exact Q.
Qed.
Lemma fd_grad_mvt n (f : vec RS -> R) (D : nat -> (nat -> R) -> R) x eps : n <> 0%nat -> 0 < eps -> local n f -> partials n f D ->
  exists g, fd_grad (F:=RS) n f x eps false = Ok g /\ forall b, (b < n)%nat -> exists t, 0 <= t <= eps /\ g b = D b (along x b t).
Proof.
  intros Hn He L P. destruct (fd_grad_spec (F:=RS) n f x eps false Hn) as (g & E & V). exists g. split; [exact E|]. intros b Hb. rewrite V by auto.
  destruct (forward_mvt n f D L P x (moved (F:=RS) n add x b eps) (vstore (F:=RS) n x) b eps Hb He) as (t & Ht & Q).
  + intros k Hk. apply moved_along. exact Hk.
  + intros k Hk. apply (vstore_lt (F:=RS)). exact Hk.
  + exists t. split; [exact Ht|]. exact Q.
Qed.
Lemma fd_hess_mvt n (f : vec RS -> R) G H x eps : n <> 0%nat -> 0 < eps -> local n f -> partials n f G -> second n G H ->
  exists A, fd_hess (F:=RS) n f x eps true = Ok A /\
    forall a b, (a < n)%nat -> (b < n)%nat -> exists s t, - eps <= s <= eps /\ - eps <= t <= eps /\ A a b = H a b (along (along x b s) a t).
Proof.
  intros Hn He L P S. destruct (fd_hess_spec (F:=RS) n f x eps true Hn) as (A & g & E & Vg & VA). exists A. split; [exact E|]. intros a b Ha Hb.
  destruct (second_mvt n f G H x a b eps L P S Ha Hb He) as (s & t & Hs & Ht & Q). exists s, t. split; [exact Hs|]. split; [exact Ht|].
  rewrite VA by auto. rewrite !Vg by auto. rewrite <- Q. rewrite DynProofs.two_RS.
  rewrite (L (moved (F:=RS) n add (moved (F:=RS) n add x b eps) a eps) (along (along x b eps) a eps)) by (intros k Hk; rewrite moved_along by exact Hk; apply (along_ext n); [intros; apply moved_along; auto|exact Hk]).
  rewrite (L (moved (F:=RS) n sub (moved (F:=RS) n add x b eps) a eps) (along (along x b eps) a (- eps))) by (intros k Hk; rewrite moved_along_sub by exact Hk; apply (along_ext n); [intros; apply moved_along; auto|exact Hk]).
  rewrite (L (moved (F:=RS) n add (moved (F:=RS) n sub x b eps) a eps) (along (along x b (- eps)) a eps)) by (intros k Hk; rewrite moved_along by exact Hk; apply (along_ext n); [intros; apply moved_along_sub; auto|exact Hk]).
  rewrite (L (moved (F:=RS) n sub (moved (F:=RS) n sub x b eps) a eps) (along (along x b (- eps)) a (- eps))) by (intros k Hk; rewrite moved_along_sub by exact Hk; apply (along_ext n); [intros; apply moved_along_sub; auto|exact Hk]).
  reflexivity.
Qed.

(** * the checks *)
Lemma eps1_RS : (fd_eps1 : RS) = / 1000000. Proof. unfold fd_eps1. cbn. lra. Qed.
Lemma eps2_RS : (fd_eps2 : RS) = / 10000. Proof. unfold fd_eps2. cbn. lra. Qed.
Lemma con_joint n m con junk D : con_has n m con junk D -> forall i, (i < con_dim con)%nat ->
  let f := fun z : nat -> R => vstore (F:=RS) (con_dim con) (con_eval con (zhead (F:=RS) n z) (ztail (F:=RS) n m z) junk) i in
  local (n + m) f /\ partials (n + m) f (D i).
Proof.
  intros C i Hi f.
  assert (X : forall z, f z = con_eval con z (control n z) junk i).
  { intros z. unfold f. rewrite (vstore_lt (F:=RS)) by exact Hi. apply (ch_local _ _ _ _ _ C); [exact Hi| |].
    - intros k Hk. unfold zhead. apply (vstore_lt (F:=RS)). exact Hk.
    - intros k Hk. unfold ztail. rewrite (vstore_lt (F:=RS)) by exact Hk. reflexivity. }
  split.
  - intros z z' H. rewrite !X. apply (ch_local _ _ _ _ _ C); [exact Hi|intros; apply H; lia|]. intros k Hk. unfold control. apply H. lia.
  - intros b z Hb. eapply is_derive_ext; [|apply (ch_partial _ _ _ _ _ C i Hi b z Hb)]. intros t. cbv beta. symmetry. apply X.
Qed.
Lemma cost_joint n m c G : cost_has n m c G -> let f := fun z : nat -> R => uc_eval c (zhead (F:=RS) n z) (ztail (F:=RS) n m z) in
  local (n + m) f /\ partials (n + m) f G.
Proof.
  intros C f.
  assert (X : forall z, f z = uc_eval c z (control n z)).
  { intros z. unfold f. apply (cs_local _ _ _ _ C).
    - intros k Hk. unfold zhead. apply (vstore_lt (F:=RS)). exact Hk.
    - intros k Hk. unfold ztail. rewrite (vstore_lt (F:=RS)) by exact Hk. reflexivity. }
  split.
  - intros z z' H. rewrite !X. apply (cs_local _ _ _ _ C); [intros; apply H; lia|]. intros k Hk. unfold control. apply H. lia.
  - intros b z Hb. eapply is_derive_ext; [|apply (cs_partial _ _ _ _ C b z Hb)]. intros t. cbv beta. symmetry. apply X.
Qed.
Lemma check_jacobian_mvt n m con junk D x u eps : (n + m <> 0)%nat -> con_has n m con junk D ->
  exists b, check_jacobian (F:=RS) n m con junk x u eps = Ok b /\
    (b = true -> forall i j, (i < con_dim con)%nat -> (j < n + m)%nat -> exists t, 0 <= t <= / 1000000 /\ Rabs (D i j (along (both n x u) j t) - con_jac con x u mzero i j) < eps) /\
    (forall d, 0 <= d -> d * sqrt (INR (con_dim con) * INR (n + m)) < eps ->
       (forall i j t, (i < con_dim con)%nat -> (j < n + m)%nat -> 0 <= t <= / 1000000 -> Rabs (D i j (along (both n x u) j t) - con_jac con x u mzero i j) <= d) -> b = true).
Proof.
  intros Hn C. unfold check_jacobian. cbv zeta.
  match goal with |- context [fd_jac ?a ?b ?f ?z ?e ?cc] => destruct (fd_jac_mvt a b f D z e cc Hn) as (J & E & V) end.
  { rewrite eps1_RS. lra. }
  { intros a Ha. exact (con_joint n m con junk D C a Ha). }
  rewrite E. cbn [bind]. eexists. split; [reflexivity|]. rewrite eps1_RS in V. split.
  - intros Hb i j Hi Hj. destruct (V i j Hi Hj) as (t & Ht & Q). exists t. split; [exact Ht|]. pose proof (compare_entries _ _ _ _ _ Hb i j Hi Hj) as K.
    rewrite Q in K. rewrite (mstore_lt (F:=RS)) in K by auto. exact K.
  - intros d Hd He H. apply (compare_within _ _ _ _ _ d Hd); [|exact He]. intros i j Hi Hj. destruct (V i j Hi Hj) as (t & Ht & Q). rewrite Q, (mstore_lt (F:=RS)) by auto. apply H; auto.
Qed.
Lemma check_gradient_mvt n m c G x u eps : (n + m <> 0)%nat -> cost_has n m c G ->
  exists b, check_gradient (F:=RS) n m c x u eps = Ok b /\
    (b = true -> forall j, (j < n + m)%nat -> exists t, 0 <= t <= / 1000000 /\ Rabs (G j (along (both n x u) j t) - joint_grad n m c x u vzero j) < eps) /\
    (forall d, 0 <= d -> d * sqrt (INR (n + m)) < eps ->
       (forall j t, (j < n + m)%nat -> 0 <= t <= / 1000000 -> Rabs (G j (along (both n x u) j t) - joint_grad n m c x u vzero j) <= d) -> b = true).
Proof.
  intros Hn C. unfold check_gradient. cbv zeta. destruct (cost_joint n m c G C) as [L P]. cbv zeta in L, P.
  match goal with |- context [fd_grad ?a ?f ?z ?e ?cc] => destruct (fd_grad_mvt a f G z e Hn) as (g & E & V); [rewrite eps1_RS; lra|exact L|exact P|] end.
  rewrite E. cbn [bind]. eexists. split; [reflexivity|]. rewrite eps1_RS in V. split.
  - intros Hb j Hj. destruct (V j Hj) as (t & Ht & Q). exists t. split; [exact Ht|]. pose proof (compare_entries _ _ _ _ _ Hb j 0%nat Hj ltac:(lia)) as K. cbv beta in K. rewrite Q in K. exact K.
  - intros d Hd He H. apply (compare_within _ _ _ _ _ d Hd).
    + intros j k Hj _. destruct (V j Hj) as (t & Ht & Q). rewrite Q. apply H; auto.
    + change (INR 1) with 1. rewrite Rmult_1_r. exact He.
Qed.
Lemma joint_hess_low n m (c : UCost RS) x u i j : (n <= i)%nat -> (j < n)%nat -> joint_hess n m c x u mzero i j = 0.
Proof.
  intros Hi Hj. unfold joint_hess. destruct (uc_hess _ _ _ _) as [[hxx hxu] huu]. replace (Nat.ltb i n) with false by (symmetry; apply Nat.ltb_ge; exact Hi).
  replace (Nat.ltb j n) with true by (symmetry; apply Nat.ltb_lt; exact Hj). reflexivity.
Qed.
Lemma check_hessian_mvt n m c G H x u eps : (n + m <> 0)%nat -> cost_has n m c G -> second (n + m) G H ->
  exists b, check_hessian (F:=RS) n m c x u eps = Ok b /\
    (b = true -> forall i j, (i < n + m)%nat -> (j < n + m)%nat -> exists s t, Rabs s <= / 10000 /\ Rabs t <= / 10000 /\
       Rabs (H i j (along (along (both n x u) j s) i t) - (if Nat.leb n i && Nat.ltb j n then 0 else joint_hess n m c x u mzero i j)) < eps) /\
    (forall d, 0 <= d -> d * INR (n + m) < eps ->
       (forall i j s t, (i < n + m)%nat -> (j < n + m)%nat -> Rabs s <= / 10000 -> Rabs t <= / 10000 ->
          Rabs (H i j (along (along (both n x u) j s) i t) - (if Nat.leb n i && Nat.ltb j n then 0 else joint_hess n m c x u mzero i j)) <= d) -> b = true).
Proof.
  intros Hn C S. unfold check_hessian. cbv zeta. destruct (cost_joint n m c G C) as [L P]. cbv zeta in L, P.
  assert (M : forall z, mul (uc_eval c (zhead (F:=RS) n z) (ztail (F:=RS) n m z)) one = uc_eval c (zhead (F:=RS) n z) (ztail (F:=RS) n m z)) by (intros z; rs; lra).
  match goal with |- context [fd_hess ?a ?f ?z ?e ?cc] => destruct (fd_hess_mvt a f G H z e Hn) as (A & E & V) end.
  { rewrite eps2_RS. lra. }
  { intros z z' Hz. rewrite !M. apply (L z z' Hz). }
  { intros b z Hb. eapply is_derive_ext; [|apply (P b z Hb)]. intros t. cbv beta. rewrite M. reflexivity. }
  { exact S. }
  rewrite E. cbn [bind]. eexists. split; [reflexivity|]. rewrite eps2_RS in V.
  assert (Z : forall i j, (i < n + m)%nat -> (j < n + m)%nat -> mstore (F:=RS) (n + m) (n + m) (joint_hess n m c x u mzero) i j = if Nat.leb n i && Nat.ltb j n then 0 else joint_hess n m c x u mzero i j).
  { intros i j Hi Hj. rewrite (mstore_lt (F:=RS)) by auto. destruct (Nat.leb n i) eqn:Ei, (Nat.ltb j n) eqn:Ej; try reflexivity. apply Nat.leb_le in Ei. apply Nat.ltb_lt in Ej. apply joint_hess_low; auto. }
  split.
  - intros Hb i j Hi Hj. destruct (V i j Hi Hj) as (s & t & Hs & Ht & Q). exists s, t. split; [apply Rabs_le; exact Hs|]. split; [apply Rabs_le; exact Ht|].
    pose proof (compare_entries _ _ _ _ _ Hb i j Hi Hj) as K. rewrite Q, Z in K by auto. exact K.
  - intros d Hd He HB. apply (compare_within _ _ _ _ _ d Hd).
    + intros i j Hi Hj. destruct (V i j Hi Hj) as (s & t & Hs & Ht & Q). rewrite Q, Z by auto. apply HB; auto; apply Rabs_le; assumption.
    + rewrite sqrt_square by apply pos_INR. exact He.
Qed.
