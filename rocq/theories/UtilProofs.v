(** Finite differences. *)
From Coq Require Import Reals Lra Lia List Bool ZArith.
From Coquelicot Require Import Coquelicot.
From Verif Require Import Base Lin RLin RDer ConModel ConSpec ConProofs IlqrModel DynModel DynSpec DynProofs ExampleModel ExampleSpec ExampleProofs3 UtilModel UtilSpec.
Import List ListNotations.

Local Open Scope nat_scope.
Section FD.
Context {F : Scalar}.
(** x with coordinate b moved by eps (op = add or sub); the other coordinates have zero added or subtracted *)
Definition moved (n : nat) (op : F -> F -> F) (x : vec F) (b : nat) (eps : F) : vec F := vstore n (fun k => op (x k) (if Nat.eqb k b then eps else zero)).
Lemma fd_loop_spec n m f x eps central : forall cnt i e y jac, i + cnt = n -> (i < n -> forall k, k < n -> e k = if Nat.eqb k i then eps else zero) ->
  forall a b, a < m -> b < n -> fd_loop (F:=F) n m f x eps central i cnt e y jac a b =
    if Nat.ltb b i then jac a b
    else div (sub (f (moved n add x b eps) a) (if central then f (moved n sub x b eps) a else y a)) (if central then mul two eps else eps).
Proof.
  induction cnt as [|c IH]; intros i e y jac Hn He a b Ha Hb.
  - cbn [fd_loop]. replace (Nat.ltb b i) with true by (symmetry; apply Nat.ltb_lt; lia). reflexivity.
  - cbn [fd_loop]. assert (Hi : i < n) by lia. specialize (He Hi).
    assert (Ep : vstore n (fun k => add (x k) (e k)) = moved n add x i eps) by (apply vstore_ext; intros k Hk; rewrite He by auto; reflexivity).
    assert (Em : vstore n (fun k => sub (x k) (e k)) = moved n sub x i eps) by (apply vstore_ext; intros k Hk; rewrite He by auto; reflexivity).
    rewrite IH; [|lia| |exact Ha|exact Hb].
    + destruct (Nat.ltb b i) eqn:L1.
      * apply Nat.ltb_lt in L1. replace (Nat.ltb b (S i)) with true by (symmetry; apply Nat.ltb_lt; lia). rewrite mstore_lt by auto.
        replace (Nat.eqb b i) with false by (symmetry; apply Nat.eqb_neq; lia). reflexivity.
      * apply Nat.ltb_ge in L1. destruct (Nat.eq_dec b i) as [->|Hne].
        -- replace (Nat.ltb i (S i)) with true by (symmetry; apply Nat.ltb_lt; lia). rewrite mstore_lt by auto. rewrite Nat.eqb_refl, Ep, Em.
           destruct central; [rewrite vstore_lt by auto|]; reflexivity.
        -- replace (Nat.ltb b (S i)) with false by (symmetry; apply Nat.ltb_ge; lia). destruct central; reflexivity.
    + intros HSi k Hk. replace (Nat.ltb i (n - 1)) with true by (symmetry; apply Nat.ltb_lt; lia). unfold vset.
      destruct (Nat.eqb k i) eqn:E1.
      * apply Nat.eqb_eq in E1. subst k. replace (Nat.eqb i (S i)) with false by (symmetry; apply Nat.eqb_neq; lia). reflexivity.
      * destruct (Nat.eqb k (S i)); [rewrite He by lia; rewrite Nat.eqb_refl; reflexivity|]. rewrite He by lia. rewrite E1. reflexivity.
Qed.
Lemma fd_jac_spec n m f x eps central : n <> 0 -> exists J, fd_jac (F:=F) n m f x eps central = Ok J /\ forall a b, a < m -> b < n ->
  J a b = div (sub (f (moved n add x b eps) a) (f (if central then moved n sub x b eps else vstore n x) a)) (if central then mul two eps else eps).
Proof.
  intros Hn. unfold fd_jac. replace (Nat.eqb n 0) with false by (symmetry; apply Nat.eqb_neq; exact Hn). eexists. split; [reflexivity|].
  intros a b Ha Hb. rewrite fd_loop_spec; auto.
  - cbn [Nat.ltb Nat.leb]. destruct central; [reflexivity|]. rewrite vstore_lt by auto. reflexivity.
  - intros _ k Hk. unfold vset. destruct (Nat.eqb k 0); [reflexivity|]. rewrite vstore_lt by auto. reflexivity.
Qed.
Lemma fd_grad_spec n f x eps central : n <> 0 -> exists g, fd_grad (F:=F) n f x eps central = Ok g /\ forall b, b < n ->
  g b = div (sub (f (moved n add x b eps)) (f (if central then moved n sub x b eps else vstore n x))) (if central then mul two eps else eps).
Proof.
  intros Hn. unfold fd_grad. destruct (fd_jac_spec n 1 (fun z _ => f z) x eps central Hn) as (J & E & V). rewrite E. cbn [bind]. eexists. split; [reflexivity|].
  intros b Hb. cbv beta. rewrite V by lia. reflexivity.
Qed.
Lemma fd_hess_spec n f x eps central : n <> 0 -> exists H (g : vec F -> vec F), fd_hess (F:=F) n f x eps central = Ok H /\
  (forall z b, b < n -> g z b = div (sub (f (moved n add z b eps)) (f (if central then moved n sub z b eps else vstore n z))) (if central then mul two eps else eps)) /\
  (forall a b, a < n -> b < n ->
     H a b = div (sub (g (moved n add x b eps) a) (g (if central then moved n sub x b eps else vstore n x) a)) (if central then mul two eps else eps)).
Proof.
  intros Hn. unfold fd_hess. replace (Nat.eqb n 0) with false by (symmetry; apply Nat.eqb_neq; exact Hn).
  set (g := fun z => match fd_grad n f z eps central with Ok g => g | _ => vzero end).
  destruct (fd_jac_spec n n g x eps central Hn) as (J & E & V). exists J, g. split; [exact E|]. split; [|exact V].
  intros z b Hb. unfold g. destruct (fd_grad_spec n f z eps central Hn) as (gg & Eg & Vg). rewrite Eg. apply Vg. exact Hb.
Qed.
End FD.

Local Open Scope R_scope.
Definition unit_at (b : nat) : nat -> R := fun k => if Nat.eqb k b then 1 else 0.
Lemma moved_add n (x : nat -> R) b eps k : (k < n)%nat -> moved (F:=RS) n add x b eps k = x k + eps * unit_at b k.
Proof. intros H. unfold moved, unit_at. rewrite vstore_lt by auto. destruct (Nat.eqb k b); rs; lra. Qed.
Lemma moved_sub n (x : nat -> R) b eps k : (k < n)%nat -> moved (F:=RS) n sub x b eps k = x k + (- eps) * unit_at b k.
Proof. intros H. unfold moved, unit_at. rewrite vstore_lt by auto. destruct (Nat.eqb k b); rs; lra. Qed.
Lemma rsum_unit n b (a : nat -> R) : (b < n)%nat -> rsum n (fun j => a j * unit_at b j) = a b.
Proof. intros H. rewrite (rsum_single n b); auto; unfold unit_at. - rewrite Nat.eqb_refl. lra. - intros i Hi Hne. apply Nat.eqb_neq in Hne. rewrite Hne. lra. Qed.
Lemma qf_line n A x e s : qf n n A (fun i => x i + s * e i) (fun i => x i + s * e i) = qf n n A x x + s * (qf n n A x e + qf n n A e x) + s * s * qf n n A e e.
Proof.
  assert (H : forall i, rsum n (fun j => A i j * (x j + s * e j)) = rsum n (fun j => A i j * x j) + s * rsum n (fun j => A i j * e j)).
  { intros i. rewrite <- rsum_scal, <- rsum_plus. apply rsum_ext. intros; lra. }
  unfold qf. rewrite (rsum_ext n _ (fun i => x i * rsum n (fun j => A i j * x j) + (s * (x i * rsum n (fun j => A i j * e j) + e i * rsum n (fun j => A i j * x j)) + s * s * (e i * rsum n (fun j => A i j * e j))))) by (intros i Hi; rewrite H; ring).
  rewrite !rsum_plus, !rsum_scal, rsum_plus. lra.
Qed.
Lemma qf_unit_r n A x b : (b < n)%nat -> qf n n A x (unit_at b) = rsum n (fun i => A i b * x i).
Proof. intros H. unfold qf. apply rsum_ext. intros i Hi. rewrite rsum_unit by auto. lra. Qed.
Lemma qf_unit_l n A x b : (b < n)%nat -> qf n n A (unit_at b) x = rsum n (fun j => A b j * x j).
Proof. intros H. rewrite qf_swap. apply rsum_ext. intros j Hj. rewrite rsum_unit by auto. lra. Qed.

Lemma quad_qf n c l A f : quad_fun n c l A f -> forall z, f z = c + rsum n (fun j => l j * z j) + qf n n A z z.
Proof. intros H z. rewrite H, fsum_rsum, qform_qf. reflexivity. Qed.
Lemma quad_line n c l A f : quad_fun n c l A f -> forall z z' x e s, (forall k, (k < n)%nat -> z' k = x k) -> (forall k, (k < n)%nat -> z k = x k + s * e k) ->
  f z = f z' + s * (rsum n (fun j => l j * e j) + qf n n A x e + qf n n A e x) + s * s * qf n n A e e.
Proof.
  intros H z z' x e s Hz' Hz. rewrite !(quad_qf _ _ _ _ _ H).
  rewrite (qf_ext n n A A z (fun i => x i + s * e i) z (fun i => x i + s * e i)) by auto.
  rewrite (qf_ext n n A A z' x z' x) by auto. rewrite qf_line.
  rewrite (rsum_ext n (fun j => l j * z j) (fun j => l j * x j + s * (l j * e j))) by (intros j Hj; rewrite Hz by auto; ring).
  rewrite (rsum_ext n (fun j => l j * z' j) (fun j => l j * x j)) by (intros j Hj; rewrite Hz' by auto; ring).
  rewrite rsum_plus, rsum_scal. ring.
Qed.
Definition quad_slope (n : nat) (l : nat -> R) (A : nat -> nat -> R) (x : nat -> R) (b : nat) : R := l b + rsum n (fun j => (A b j + A j b) * x j).
Lemma quad_slope_eq n l A x b : (b < n)%nat -> rsum n (fun j => l j * unit_at b j) + qf n n A x (unit_at b) + qf n n A (unit_at b) x = quad_slope n l A x b.
Proof.
  intros H. unfold quad_slope. rewrite rsum_unit, qf_unit_r, qf_unit_l by auto. rewrite (rsum_ext n (fun j => (A b j + A j b) * x j) (fun j => A b j * x j + A j b * x j)) by (intros; lra). rewrite rsum_plus. lra.
Qed.
Lemma quad_unit_eq n A b : (b < n)%nat -> qf n n A (unit_at b) (unit_at b) = A b b.
Proof. intros H. rewrite qf_unit_l by auto. apply rsum_unit. auto. Qed.
Lemma quad_central n c l A f x b eps : quad_fun n c l A f -> (b < n)%nat -> eps <> 0 ->
  (f (moved (F:=RS) n add x b eps) - f (moved (F:=RS) n sub x b eps)) / (2 * eps) = quad_slope n l A x b.
Proof.
  intros H Hb He.
  rewrite (quad_line n c l A f H (moved (F:=RS) n add x b eps) (vstore (F:=RS) n x) x (unit_at b) eps) by (intros k Hk; try (apply moved_add; auto); apply (vstore_lt (F:=RS)); auto).
  rewrite (quad_line n c l A f H (moved (F:=RS) n sub x b eps) (vstore (F:=RS) n x) x (unit_at b) (- eps)) by (intros k Hk; try (apply moved_sub; auto); apply (vstore_lt (F:=RS)); auto).
  rewrite quad_slope_eq by auto. field. exact He.
Qed.
Lemma quad_forward n c l A f x b eps : quad_fun n c l A f -> (b < n)%nat -> eps <> 0 ->
  (f (moved (F:=RS) n add x b eps) - f (vstore (F:=RS) n x)) / eps = quad_slope n l A x b + eps * A b b.
Proof.
  intros H Hb He.
  rewrite (quad_line n c l A f H (moved (F:=RS) n add x b eps) (vstore (F:=RS) n x) x (unit_at b) eps) by (intros k Hk; try (apply moved_add; auto); apply (vstore_lt (F:=RS)); auto).
  rewrite quad_slope_eq, quad_unit_eq by auto. field. exact He.
Qed.
Lemma slope_move n l A x b a eps z : (a < n)%nat -> (b < n)%nat -> (forall k, (k < n)%nat -> z k = x k + eps * unit_at b k) ->
  quad_slope n l A z a = quad_slope n l A x a + eps * (A a b + A b a).
Proof.
  intros Ha Hb Hz. unfold quad_slope. rewrite (rsum_ext n (fun j => (A a j + A j a) * z j) (fun j => (A a j + A j a) * x j + eps * ((A a j + A j a) * unit_at b j))) by (intros j Hj; rewrite Hz by auto; ring).
  rewrite rsum_plus, rsum_scal, (rsum_unit n b (fun j => A a j + A j a)) by auto. lra.
Qed.
Lemma fd_hess_quad n c l A f x eps central : n <> 0%nat -> quad_fun n c l A f -> eps <> 0 -> exists H, fd_hess (F:=RS) n f x eps central = Ok H /\
  forall a b, (a < n)%nat -> (b < n)%nat -> H a b = A a b + A b a.
Proof.
  intros Hn Hf He. destruct (fd_hess_spec (F:=RS) n f x eps central Hn) as (H & g & E & Vg & VH). exists H. split; [exact E|]. intros a b Ha Hb. rewrite VH by auto.
  assert (Hg : forall z, g z a = quad_slope n l A z a + (if central then 0 else eps * A a a)).
  { intros z. rewrite Vg by auto. destruct central.
    - rewrite two_RS. transitivity (quad_slope n l A z a); [|lra]. apply (quad_central n c l A f z a eps Hf Ha He).
    - apply (quad_forward n c l A f z a eps Hf Ha He). }
  rewrite !Hg. destruct central.
  - rewrite (slope_move n l A x b a eps _ Ha Hb (fun k Hk => moved_add n x b eps k Hk)), (slope_move n l A x b a (- eps) _ Ha Hb (fun k Hk => moved_sub n x b eps k Hk)).
    rewrite two_RS. rs. field. exact He.
  - rewrite (slope_move n l A x b a eps _ Ha Hb (fun k Hk => moved_add n x b eps k Hk)).
    rewrite (slope_move n l A x b a 0 (vstore (F:=RS) n x) Ha Hb) by (intros k Hk; rewrite (vstore_lt (F:=RS)) by auto; lra).
    rs. field. exact He.
Qed.
