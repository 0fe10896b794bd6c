(** The two kinds of cost objects used by the iLQR solver: plain user costs, and ALCost. *)
From Coq Require Import ZArith List Bool Lia.
From Verif Require Import Base Lin RLin ConModel IlqrModel IlqrSpec.
Import ListNotations.

Section Inst.
Context {F : Scalar}.

(** problem/costfunction.hpp: a user cost (stateless) *)
Definition ucost_ops : CostOps F (UCost F) :=
  mkCostOps (fun c x u => (uc_eval c x u, c)) (fun c x u b => (uc_grad c x u b, c)) (fun c x u b => (uc_hess c x u b, c)).
(** augmented_lagrangian/al_cost.hpp: ALCost *)
Definition al_ops : CostOps F (ALCost F) :=
  mkCostOps (fun c x u => al_eval c x u) (fun c x u b => al_gradient c x u b) (fun c x u b => al_hessian c x u b).

Lemma ucost_faithful : faithful_cost ucost_ops (fun _ => True) (fun c => uc_eval c).
Proof. split; intros; simpl; auto. Qed.

(** A constraint whose Evaluate writes its whole output *)
Definition con_writes (c : Con F) : Prop := forall x u b b' i, i < con_dim c -> con_eval c x u b i = con_eval c x u b' i.
Definition al_writes (a : ALCost F) : Prop := Forall (fun v => con_writes (cv_con v)) (al_cvs a).
(** forget the evaluation caches: constraint values, Jacobians, projection Jacobians *)
Definition cv_fresh (v : CV F) : CV F := set_pjac (set_jac (set_c v vzero) mzero) mzero.
Definition al_fresh (a : ALCost F) : ALCost F := al_map cv_fresh a.
(** the augmented Lagrangian as a function of (x,u) for the current multipliers and penalties *)
Definition al_value (a : ALCost F) (x u : vec F) : F := fst (al_eval (al_fresh a) x u).

Lemma auglag_fresh (v : CV F) x u : con_writes (cv_con v) ->
  fst (cv_auglag (cv_fresh v) x u) = fst (cv_auglag v x u).
Proof.
  intros H. unfold cv_auglag. cbn [fst].
  assert (E : cv_shift (cv_eval_c (cv_fresh v) x u) = cv_shift (cv_eval_c v x u)).
  { unfold cv_shift. apply vstore_ext. intros i Hi. cbn. unfold cv_p in *. cbn in Hi |- *. rewrite !vstore_lt by exact Hi.
    rewrite (H x u vzero (cv_c v) i Hi). reflexivity. }
  rewrite E. reflexivity.
Qed.
Lemma eval_loop_fresh l x u : forall J, Forall (fun v => con_writes (cv_con v)) l ->
  fst (al_eval_loop J (map cv_fresh l) x u) = fst (al_eval_loop J l x u).
Proof.
  induction l as [|v l IH]; intros J H; [reflexivity|]. inversion H; subst. cbn [map al_eval_loop].
  pose proof (auglag_fresh v x u H2) as E.
  destruct (cv_auglag (cv_fresh v) x u) as [j1 v1]. destruct (cv_auglag v x u) as [j2 v2]. simpl in E. subst j2.
  specialize (IH (add J j1) H3).
  destruct (al_eval_loop (add J j1) (map cv_fresh l) x u), (al_eval_loop (add J j1) l x u). exact IH.
Qed.
Lemma al_value_eval a x u : al_writes a -> fst (al_eval a x u) = al_value a x u.
Proof.
  intros H. unfold al_writes, al_cvs in H. apply Forall_app in H. destruct H as [H1 H2].
  unfold al_value, al_eval, al_fresh, al_map. cbn [al_set al_cost al_eq al_ineq].
  pose proof (eval_loop_fresh (al_eq a) x u (uc_eval (al_cost a) x u) H1) as E1.
  destruct (al_eval_loop (uc_eval (al_cost a) x u) (map cv_fresh (al_eq a)) x u) as [J1 l1].
  destruct (al_eval_loop (uc_eval (al_cost a) x u) (al_eq a) x u) as [J1' l1']. simpl in E1. subst J1'.
  pose proof (eval_loop_fresh (al_ineq a) x u J1 H2) as E2.
  destruct (al_eval_loop J1 (map cv_fresh (al_ineq a)) x u), (al_eval_loop J1 (al_ineq a) x u). simpl in *. auto.
Qed.

(** every evaluation only changes the caches *)
Lemma eval_loop_cache l x u : forall J, map cv_fresh (snd (al_eval_loop J l x u)) = map cv_fresh l.
Proof.
  induction l as [|v l IH]; intros J; [reflexivity|]. cbn [al_eval_loop].
  destruct (cv_auglag v x u) as [j v'] eqn:E. specialize (IH (add J j)). destruct (al_eval_loop (add J j) l x u) as [J' r'].
  simpl in *. rewrite IH. f_equal. unfold cv_auglag in E. inversion E; subst. reflexivity.
Qed.
Lemma grad_loop_cache n m l x u : forall g, map cv_fresh (snd (al_grad_loop n m g l x u)) = map cv_fresh l.
Proof.
  induction l as [|v l IH]; intros g; [reflexivity|]. cbn [al_grad_loop].
  destruct (cv_gradient v x u) as [gv v'] eqn:E. set (g' := (_, _)). specialize (IH g'). destruct (al_grad_loop n m g' l x u) as [g'' r'].
  simpl in *. rewrite IH. f_equal. unfold cv_gradient in E. inversion E; subst. reflexivity.
Qed.
Lemma hess_loop_cache n m l x u : forall h, map cv_fresh (snd (al_hess_loop n m h l x u)) = map cv_fresh l.
Proof.
  induction l as [|v l IH]; intros [[hxx hxu] huu]; [reflexivity|]. cbn [al_hess_loop].
  destruct (cv_hessian_core v x u) as [[[a b] c] v'] eqn:E. set (h' := (_, _, _)). specialize (IH h').
  destruct (al_hess_loop n m h' l x u) as [h'' r'].
  simpl in *. rewrite IH. f_equal. unfold cv_hessian_core in E. inversion E; subst. reflexivity.
Qed.
Lemma al_eval_fresh a x u : al_fresh (snd (al_eval a x u)) = al_fresh a.
Proof.
  unfold al_eval, al_fresh, al_map.
  pose proof (eval_loop_cache (al_eq a) x u (uc_eval (al_cost a) x u)) as E1.
  destruct (al_eval_loop (uc_eval (al_cost a) x u) (al_eq a) x u) as [J1 l1].
  pose proof (eval_loop_cache (al_ineq a) x u J1) as E2.
  destruct (al_eval_loop J1 (al_ineq a) x u). simpl in *. unfold al_set. simpl. now rewrite E1, E2.
Qed.
Lemma al_grad_fresh a x u b : al_fresh (snd (al_gradient a x u b)) = al_fresh a.
Proof.
  unfold al_gradient, al_fresh, al_map.
  pose proof (grad_loop_cache (al_n a) (al_m a) (al_eq a) x u (uc_grad (al_cost a) x u b)) as E1.
  destruct (al_grad_loop (al_n a) (al_m a) (uc_grad (al_cost a) x u b) (al_eq a) x u) as [J1 l1].
  pose proof (grad_loop_cache (al_n a) (al_m a) (al_ineq a) x u J1) as E2.
  destruct (al_grad_loop (al_n a) (al_m a) J1 (al_ineq a) x u). simpl in *. unfold al_set. simpl. now rewrite E1, E2.
Qed.
Lemma al_hess_fresh a x u b : al_fresh (snd (al_hessian a x u b)) = al_fresh a.
Proof.
  unfold al_hessian, al_fresh, al_map.
  pose proof (hess_loop_cache (al_n a) (al_m a) (al_eq a) x u (uc_hess (al_cost a) x u b)) as E1.
  destruct (al_hess_loop (al_n a) (al_m a) (uc_hess (al_cost a) x u b) (al_eq a) x u) as [J1 l1].
  pose proof (hess_loop_cache (al_n a) (al_m a) (al_ineq a) x u J1) as E2.
  destruct (al_hess_loop (al_n a) (al_m a) J1 (al_ineq a) x u). simpl in *. unfold al_set. simpl. now rewrite E1, E2.
Qed.
Lemma al_writes_fresh a b : al_fresh a = al_fresh b -> al_writes a -> al_writes b.
Proof.
  intros E H. unfold al_writes in *.
  assert (Hm : forall a, map (@cv_con F) (al_cvs a) = map (@cv_con F) (al_cvs (al_fresh a))).
  { intros c. unfold al_cvs, al_fresh, al_map. cbn. rewrite <- map_app, map_map. apply map_ext. reflexivity. }
  assert (Hc : map (@cv_con F) (al_cvs a) = map (@cv_con F) (al_cvs b)) by (rewrite (Hm a), (Hm b), E; reflexivity).
  clear E Hm. revert Hc H. generalize (al_cvs a) (al_cvs b). intros l. induction l as [|x l IH]; intros [|y l'] Hc H; try discriminate; constructor.
  - inversion H; subst. inversion Hc. assumption.
  - inversion H; subst. inversion Hc. apply IH; auto.
Qed.
(** the augmented Lagrangian is unchanged by evaluations and expansions *)
Theorem al_faithful : faithful_cost al_ops al_writes al_value.
Proof.
  assert (H : forall a b, al_fresh b = al_fresh a -> al_writes a -> al_writes b /\ al_value b = al_value a).
  { intros a b E Hw. split; [eapply al_writes_fresh; [symmetry; exact E|exact Hw]|]. unfold al_value. now rewrite E. }
  split; intros; simpl.
  - now apply al_value_eval.
  - apply H; auto using al_eval_fresh.
  - apply H; auto using al_grad_fresh.
  - apply H; auto using al_hess_fresh.
Qed.
End Inst.
