(** Derivative rules for real functions, specialised from Coquelicot to plain R. *)
From Coq Require Import Reals Lra Lia List.
From Coquelicot Require Import Coquelicot.
From Verif Require Import Base Lin RLin.
Import List ListNotations.
Local Open Scope R_scope.

Lemma d_const (c x : R) : is_derive (fun _ : R => c) x 0.
Proof. apply (@is_derive_const R_AbsRing R_NormedModule). Qed.
Lemma d_id (x : R) : is_derive (fun s : R => s) x 1.
Proof. apply (@is_derive_id R_AbsRing). Qed.
Lemma d_plus (f g : R -> R) (a b x : R) :
  is_derive f x a -> is_derive g x b -> is_derive (fun s => f s + g s) x (a + b).
Proof. apply (@is_derive_plus R_AbsRing R_NormedModule). Qed.
Lemma d_minus (f g : R -> R) (a b x : R) :
  is_derive f x a -> is_derive g x b -> is_derive (fun s => f s - g s) x (a - b).
Proof. apply (@is_derive_minus R_AbsRing R_NormedModule). Qed.
Lemma d_opp (f : R -> R) (a x : R) : is_derive f x a -> is_derive (fun s => - f s) x (- a).
Proof. apply (@is_derive_opp R_AbsRing R_NormedModule). Qed.
Lemma d_scal (k : R) (f : R -> R) (a x : R) : is_derive f x a -> is_derive (fun s => k * f s) x (k * a).
Proof. apply (is_derive_scal f). Qed.
Lemma d_scal_r (k : R) (f : R -> R) (a x : R) : is_derive f x a -> is_derive (fun s => f s * k) x (a * k).
Proof.
  intros H. replace (a * k) with (k * a) by ring.
  apply (is_derive_ext (fun s => k * f s)); [intros; apply Rmult_comm|]. now apply d_scal.
Qed.
Lemma d_mult (f g : R -> R) (a b x : R) :
  is_derive f x a -> is_derive g x b -> is_derive (fun s => f s * g s) x (a * g x + f x * b).
Proof. intros Hf Hg. apply (is_derive_mult f g x a b Hf Hg). intros; apply Rmult_comm. Qed.
Lemma d_eq (f : R -> R) (a b x : R) : is_derive f x a -> a = b -> is_derive f x b.
Proof. now intros H <-. Qed.
Lemma d_ext (f g : R -> R) (a x : R) : (forall s, f s = g s) -> is_derive f x a -> is_derive g x a.
Proof. intros H. apply is_derive_ext. auto. Qed.
Lemma d_comp (h f : R -> R) (d a x : R) :
  is_derive f x a -> is_derive h (f x) d -> is_derive (fun s => h (f s)) x (a * d).
Proof. intros Hf Hh. apply (is_derive_comp h f x d a Hh Hf). Qed.
Lemma d_rsum p (f : nat -> R -> R) (d : nat -> R) s0 :
  (forall i, (i < p)%nat -> is_derive (f i) s0 (d i)) ->
  is_derive (fun s => rsum p (fun i => f i s)) s0 (rsum p d).
Proof.
  induction p; intros H; [exact (d_const 0 s0)|].
  rewrite rsum_S. apply (d_ext (fun s => rsum p (fun i => f i s) + f p s)).
  - intros s. now rewrite rsum_S.
  - apply d_plus; [apply IHp; intros; apply H; lia|apply H; lia].
Qed.
