(** Concrete constraints and costs used in the examples beside the theorems. *)
From Coq Require Import Reals Lra Lia List Bool ZArith String.
From Coquelicot Require Import Coquelicot.
From Verif Require Import Base Lin RLin RDer ConModel ConSpec ConProofs.
Import List ListNotations.
Local Open Scope R_scope.

(** c(x,u) = (x0^2 - u0, x1 - 1), n = 2, m = 1.  Its Jacobian code writes only the three structurally
    nonzero entries, so it relies on the zero-initialised buffer. *)
Definition ex_W (i j : nat) : bool :=
  match i, j with 0%nat, 0%nat => true | 0%nat, 2%nat => true | 1%nat, 1%nat => true | _, _ => false end.
Definition ex_g (x u : vec RS) (i : nat) : R :=
  match i with 0%nat => x 0%nat * x 0%nat - u 0%nat | _ => x 1%nat - 1 end.
Definition ex_J (x u : vec RS) (i j : nat) : R :=
  match i, j with 0%nat, 0%nat => 2 * x 0%nat | 0%nat, 2%nat => -1 | 1%nat, 1%nat => 1 | _, _ => 0 end.
Definition ex_con : Con RS :=
  mkCon 2 (fun x u _ => ex_g x u)
        (fun x u b i j => if ex_W i j then ex_J x u i j else b i j) "ex"%string.
Lemma ex_con_true : con_true 2 1 ex_con ex_g ex_J ex_W.
Proof.
  constructor.
  - reflexivity.
  - reflexivity.
  - intros x u [|[|i]] [|[|[|j]]]; simpl; congruence.
  - intros X U v w HX HU i Hi. simpl in Hi. unfold fsum; simpl.
    destruct i as [|[|i]]; [| |lia]; simpl.
    + eapply d_eq; [apply d_minus; [apply d_mult|]; [apply HX|apply HX|apply HU]|]. cbv beta. ring.
    + eapply d_eq; [apply d_minus; [apply HX|apply d_const]|]. cbv beta. ring.
Qed.
Lemma ex_con_smooth : con_smooth 2 1 ex_con.
Proof. exists ex_g, ex_J, ex_W. apply ex_con_true. Qed.

(** f(x,u) = x0^2 + x0 u0 + u0^2 *)
Definition ex_cost : UCost RS :=
  mkUCost (fun x u => x 0%nat * x 0%nat + x 0%nat * u 0%nat + u 0%nat * u 0%nat)
    (fun x u _ => (fun i => match i with 0%nat => 2 * x 0%nat + u 0%nat | _ => 0 end,
                   fun i => match i with 0%nat => x 0%nat + 2 * u 0%nat | _ => 0 end))
    (fun x u _ => (fun i j => match i, j with 0%nat, 0%nat => 2 | _, _ => 0 end,
                   fun i j => match i, j with 0%nat, 0%nat => 1 | _, _ => 0 end,
                   fun i j => match i, j with 0%nat, 0%nat => 2 | _, _ => 0 end)).
Lemma ex_cost_true : cost_true 2 1 ex_cost.
Proof.
  constructor. intros X U v w HX HU old. unfold fsum; simpl.
  eapply d_eq; [apply d_plus; [apply d_plus|]; apply d_mult; [apply HX|apply HX|apply HX|apply HU|apply HU|apply HU]|]. cbv beta. simpl. ring.
Qed.
Definition ex_al : ALCost RS := al_make 2 1 ex_cost [ex_con] [ex_con].

(** a one-dimensional constraint c = x0 in any arithmetic, and a zero cost *)
Definition one_con (F : Scalar) : Con F :=
  mkCon 1 (fun x u _ => x) (fun x u _ i j => if Nat.eqb j 0 then one else zero) "x0"%string.
Definition zero_cost (F : Scalar) : UCost F :=
  mkUCost (fun _ _ => zero) (fun _ _ _ => (vzero, vzero)) (fun _ _ _ => (mzero, mzero, mzero)).
