(** Property C74: what UpdateExpansions stores (ilqr.hpp, knot_point_function_type.hpp, cost_expansion.hpp, dynamics_expansion.hpp). *)
From Coq Require Import ZArith QArith List Bool Lia.
From Verif Require Import Base Lin RLin LogModel StatsModel TrajModel ConModel ConSpec ConProofs2 ConExamples IlqrModel IlqrSpec CostInst.
Import ListNotations.
Local Open Scope nat_scope.

Section Any.
Context {F : Scalar} {CS : Type} (ops : CostOps F CS) (n m : nat).
Lemma expand_all_nth kps : forall Z k kf z, nth_error kps k = Some kf -> nth_error Z k = Some z ->
  nth_error (snd (expand_all ops n m kps Z)) k = Some (snd (expand_kp ops n m z kf)) /\
  nth_error (fst (expand_all ops n m kps Z)) k = Some (fst (expand_kp ops n m z kf)).
Proof.
  induction kps as [|a kps IH]; intros Z k kf z H1 H2; [destruct k; discriminate|].
  destruct Z as [|b Z]; [destruct k; discriminate|]. cbn [expand_all].
  destruct (expand_kp ops n m b a) as [J a'] eqn:E. destruct k as [|k].
  - inversion H1; inversion H2; subst. rewrite E. destruct (expand_all ops n m kps Z). split; reflexivity.
  - specialize (IH Z k kf z H1 H2). destruct (expand_all ops n m kps Z). exact IH.
Qed.
Lemma expand_all_length kps : forall Z, length kps = length Z -> length (snd (expand_all ops n m kps Z)) = length kps /\ length (fst (expand_all ops n m kps Z)) = length kps.
Proof.
  induction kps as [|a kps IH]; intros [|b Z] H; try discriminate; [split; reflexivity|]. cbn [expand_all]. injection H as H.
  destruct (expand_kp ops n m b a). specialize (IH Z H). destruct (expand_all ops n m kps Z). cbn in *. lia.
Qed.
End Any.

(** the data of a knot point that an expansion must leave alone *)
Definition same_rest {F : Scalar} {CS} (k k' : KPF F CS) : Prop :=
  kp_dyn k' = kp_dyn k /\ kp_q k' = kp_q k /\ kp_qr k' = kp_qr k /\ kp_K k' = kp_K k /\ kp_d k' = kp_d k /\
  kp_S k' = kp_S k /\ kp_s k' = kp_s k /\ kp_dv0 k' = kp_dv0 k /\ kp_dv1 k' = kp_dv1 k.
(** the expansion stored at a knot point is (gx, gu; hxx, hxu, huu), its Jacobian is D *)
Definition holds {F : Scalar} {CS} (n m : nat) (k : KPF F CS) (g : vec F * vec F) (h : mat F * mat F * mat F) (D : mat F) : Prop :=
  let '(hxx, hxu, huu) := h in
  (forall i, i < n -> e_x (kp_ce k) i = fst g i) /\ (forall i, i < m -> e_u (kp_ce k) i = snd g i) /\
  (forall i j, i < n -> j < n -> e_xx (kp_ce k) i j = hxx i j) /\ (forall i j, i < n -> j < m -> e_xu (kp_ce k) i j = hxu i j) /\
  (forall i j, i < m -> j < m -> e_uu (kp_ce k) i j = huu i j) /\
  (forall i j, i < n -> j < n -> kpf_A k i j = D i j) /\ (forall i j, i < n -> j < m -> kpf_B n k i j = D i (n + j)).

(** Plain costs, every arithmetic: knot point k gets the cost, gradient and Hessian of its own cost and the Jacobian of its own
    dynamics at (x_k, u_k, t_k, h_k), written into zeroed buffers; everything else is kept, and so is the rest of the solver. *)
Theorem C74_expansions : forall (F : Scalar) (n m : nat) (s : ILQR F (UCost F)) (Z : Traj F), length (il_kps s) = length Z ->
  let s' := il_update_expansions ucost_ops n m Z s in
  length (il_kps s') = length (il_kps s) /\ length (il_costs s') = length (il_kps s) /\
  (forall k kf z, nth_error (il_kps s) k = Some kf -> nth_error Z k = Some z -> exists kf',
     nth_error (il_kps s') k = Some kf' /\ nth_error (il_costs s') k = Some (uc_eval (kp_cost kf) (z_x z) (z_u z)) /\
     kp_cost kf' = kp_cost kf /\ same_rest kf kf' /\
     holds n m kf' (uc_grad (kp_cost kf) (z_x z) (z_u z) (vzero, vzero)) (uc_hess (kp_cost kf) (z_x z) (z_u z) (mzero, mzero, mzero))
       (dy_jac (kp_dyn kf) (z_x z) (z_u z) (z_t z) (z_h z) mzero)) /\
  il_N s' = il_N s /\ il_x0 s' = il_x0 s /\ il_x0_set s' = il_x0_set s /\ il_Z s' = il_Z s /\ il_Zb s' = il_Zb s /\ il_status s' = il_status s /\
  il_grad s' = il_grad s /\ il_rho s' = il_rho s /\ il_drho s' = il_drho s /\ il_dV0 s' = il_dV0 s /\ il_dV1 s' = il_dV1 s /\
  il_stats s' = il_stats s /\ il_opts s' = il_opts s.
Proof.
  intros F n m s Z L s'. pose proof (expand_all_length ucost_ops n m (il_kps s) Z L) as [L1 L2].
  assert (E1 : il_kps s' = snd (expand_all ucost_ops n m (il_kps s) Z)) by (unfold s', il_update_expansions; destruct (expand_all _ _ _ _ _); reflexivity).
  assert (E2 : il_costs s' = fst (expand_all ucost_ops n m (il_kps s) Z)) by (unfold s', il_update_expansions; destruct (expand_all _ _ _ _ _); reflexivity).
  rewrite E1, E2. split; [exact L1|]. split; [exact L2|]. split.
  - intros k kf z H1 H2. destruct (expand_all_nth ucost_ops n m _ _ _ _ _ H1 H2) as [P1 P2]. rewrite P1, P2.
    unfold expand_kp, kpf_cost, kpf_dyn_expansion, kpf_cost_expansion. cbn [ucost_ops co_grad co_hess co_eval].
    destruct (uc_hess (kp_cost kf) (z_x z) (z_u z) (mzero, mzero, mzero)) as [[hxx hxu] huu] eqn:Eh. cbn [kp_cost fst snd].
    eexists. split; [reflexivity|]. split; [reflexivity|]. split; [reflexivity|]. split; [repeat split|].
    unfold holds, kpf_A, kpf_B, kpf_set_cost. cbn [kp_ce kp_jac e_x e_u e_xx e_xu e_uu].
    repeat split; intros; rewrite ?vstore_lt, ?mstore_lt by lia; reflexivity.
  - unfold s', il_update_expansions. destruct (expand_all _ _ _ _ _). repeat split.
Qed.
(** a cost object as the solver holds it: built from pure constraints of positive dimension, after any history of operations *)
Definition al_live {F : Scalar} (a : ALCost F) : Prop := exists debug n m cost eqs ineqs os,
  (forall c, In c (eqs ++ ineqs) -> con_pure n m c /\ 0 < con_dim c) /\ al_reach debug (al_make n m cost eqs ineqs) os a.
Lemma fresh_params {F : Scalar} (a b : ALCost F) : al_fresh a = al_fresh b -> al_same_params a b.
Proof.
  intros E. assert (H : map CostInst.cv_fresh (al_cvs a) = map CostInst.cv_fresh (al_cvs b)).
  { assert (G : forall c : ALCost F, map CostInst.cv_fresh (al_cvs c) = al_cvs (al_fresh c)) by (intros c; unfold al_cvs, al_fresh, al_map; cbn; apply map_app).
    rewrite !G, E. reflexivity. }
  unfold al_same_params. revert H. generalize (al_cvs a) (al_cvs b). intros l. induction l as [|v l IH]; intros [|w l'] H; try discriminate; constructor.
  - pose proof (f_equal (fun l => option_map (@cv_lam F) (hd_error l)) H) as H1. pose proof (f_equal (fun l => option_map (@cv_pen F) (hd_error l)) H) as H2.
    cbn in H1, H2. inversion H1 as [H1']. inversion H2 as [H2']. intros i _. rewrite H1', H2'. split; reflexivity.
  - apply IH. exact (f_equal (@tl _) H).
Qed.
(** Augmented-Lagrangian costs: the same with the value, gradient and Hessian of the augmented Lagrangian before the call; the cost
    object keeps its multipliers, penalties and constraints, only its evaluation caches change. *)
Theorem C74_al_expansions : forall (F : Scalar) (n m : nat) (s : ILQR F (ALCost F)) (Z : Traj F), length (il_kps s) = length Z ->
  (forall kf, In kf (il_kps s) -> al_live (kp_cost kf)) ->
  let s' := il_update_expansions al_ops n m Z s in
  forall k kf z, nth_error (il_kps s) k = Some kf -> nth_error Z k = Some z ->
  let a := kp_cost kf in let x := z_x z in let u := z_u z in
  exists kf', nth_error (il_kps s') k = Some kf' /\ nth_error (il_costs s') k = Some (fst (al_eval a x u)) /\
     al_fresh (kp_cost kf') = al_fresh a /\ same_rest kf kf' /\
     holds n m kf' (fst (al_gradient a x u (vzero, vzero))) (fst (al_hessian a x u (mzero, mzero, mzero)))
       (dy_jac (kp_dyn kf) x u (z_t z) (z_h z) mzero).
Proof.
  intros F n m s Z L W s' k kf z H1 H2 a x u. pose proof (W kf (nth_error_In _ _ H1)) as Wk. fold a in Wk.
  destruct Wk as (debug & n0 & m0 & cost & eqs & ineqs & os & Hc & Hr).
  assert (E1 : il_kps s' = snd (expand_all al_ops n m (il_kps s) Z)) by (unfold s', il_update_expansions; destruct (expand_all _ _ _ _ _); reflexivity).
  assert (E2 : il_costs s' = fst (expand_all al_ops n m (il_kps s) Z)) by (unfold s', il_update_expansions; destruct (expand_all _ _ _ _ _); reflexivity).
  destruct (expand_all_nth al_ops n m _ _ _ _ _ H1 H2) as [P1 P2]. rewrite E1, E2, P1, P2.
  unfold expand_kp, kpf_cost, kpf_dyn_expansion, kpf_cost_expansion. cbn [al_ops co_grad co_hess co_eval]. fold a x u.
  pose proof (al_grad_fresh a x u (vzero, vzero)) as F1. pose proof (reach_step debug _ os (OpGrad x u (vzero, vzero)) a _ Hr eq_refl) as R1.
  destruct (al_gradient a x u (vzero, vzero)) as [g a1] eqn:Eg. cbn [fst snd] in F1, R1 |- *.
  pose proof (al_hess_fresh a1 x u (mzero, mzero, mzero)) as F2. pose proof (reach_step debug _ _ (OpHess x u (mzero, mzero, mzero)) a1 _ R1 eq_refl) as R2.
  assert (HH : fst (al_hessian a x u (mzero, mzero, mzero)) = fst (al_hessian a1 x u (mzero, mzero, mzero))).
  { apply (expansions_history debug n0 m0 cost eqs ineqs os a (os ++ [OpGrad x u (vzero, vzero)]) a1); auto; try (intros; now apply Hc). apply fresh_params. congruence. }
  rewrite HH. destruct (al_hessian a1 x u (mzero, mzero, mzero)) as [[[hxx hxu] huu] a2] eqn:Eh. cbn [fst snd] in F2, R2 |- *.
  cbn [kp_cost]. pose proof (al_eval_fresh a2 x u) as F3.
  assert (V : fst (al_eval a x u) = fst (al_eval a2 x u)).
  { apply (expansions_history debug n0 m0 cost eqs ineqs os a _ a2 ltac:(intros; now apply Hc) ltac:(intros; now apply Hc) Hr R2). apply fresh_params. congruence. }
  rewrite V. destruct (al_eval a2 x u) as [J a3] eqn:Ee. cbn [fst snd] in F3, V |- *.
  eexists. split; [reflexivity|]. split; [reflexivity|]. split; [cbn; congruence|]. split; [repeat split|].
  unfold holds, kpf_A, kpf_B, kpf_set_cost. cbn [kp_ce kp_jac e_x e_u e_xx e_xu e_uu].
  repeat split; intros; rewrite ?vstore_lt, ?mstore_lt by lia; reflexivity.
Qed.
(** CalcExpansion of one constraint stores its values and Jacobian and keeps its multipliers, penalties and penalty scaling. *)
Theorem C74_constraint_expansion : forall (F : Scalar) (v : CV F) x u, let v' := cv_calc_expansion v x u in
  (forall i, i < cv_p v -> cv_c v' i = con_eval (cv_con v) x u (cv_c v) i) /\
  (forall i j, i < cv_p v -> j < cv_n v + cv_m v -> cv_jac v' i j = con_jac (cv_con v) x u (cv_jac v) i j) /\
  cv_lam v' = cv_lam v /\ cv_pen v' = cv_pen v /\ cv_scal v' = cv_scal v /\ cv_con v' = cv_con v /\ cv_pjac v' = cv_pjac v.
Proof.
  intros F v x u v'. unfold v', cv_calc_expansion. repeat split; intros.
  - cbn. rewrite vstore_lt by exact H. reflexivity.
  - cbn. rewrite mstore_lt by (try exact H; exact H0). reflexivity.
Qed.

(** a cost whose gradient and Hessian blocks are all different, and dynamics with a non-symmetric Jacobian *)
Definition C74_cost : UCost QS :=
  mkUCost (F:=QS) (fun x u => add (mul (x 0) (x 0)) (mul (x 0) (u 0))) (fun x u _ => (fun _ => add (mul (ofZ 2) (x 0)) (u 0), fun _ => x 0))
    (fun x u _ => (fun _ _ => ofZ 2, fun _ _ => one, mzero)).
Definition C74_dyn : Dyn QS := mkDyn (F:=QS) (fun x u t h _ => fun _ => add (x 0) (mul h (u 0))) (fun x u t h _ => fun _ j => match j with O => one | _ => h end).
Definition C74_solver : ILQR QS (UCost QS) := il_make 1 (fun _ => (1%Q : T QS)) [(C74_dyn, C74_cost); (C74_dyn, C74_cost)].
Example C74_example : let Z := [mkKP (F:=QS) (fun _ => 3%Q) (fun _ => 5%Q) 0%Q (1#2)%Q; mkKP (F:=QS) (fun _ => 7%Q) (fun _ => 0%Q) (1#2)%Q 0%Q] in
  let s' := il_update_expansions ucost_ops 1 1 Z C74_solver in
  length (il_kps C74_solver) = length Z /\ il_costs s' = [24%Q; 49%Q] /\
  match il_kps s' with k :: _ => e_x (kp_ce k) 0 = (11%Q : T QS) /\ e_u (kp_ce k) 0 = (3%Q : T QS) /\ kpf_B 1 k 0 0 = ((1#2)%Q : T QS) | [] => False end.
Proof. vm_compute. repeat split. Qed.
(** the hypothesis of [C74_al_expansions]: a cost object with a constraint, before any operation *)
Example C74_al_example : al_live (al_make 1 1 C74_cost [one_con QS] []) /\ al_cvs (al_make 1 1 C74_cost [one_con QS] []) <> [].
Proof.
  split; [|discriminate]. exists true, 1, 1, C74_cost, [one_con QS], [], []. split; [|constructor].
  intros c [<-|[]]. split; [|cbn; lia]. exists (fun x u i j => if Nat.eqb j 0 then one else zero), (fun _ _ => true). constructor; intros; try reflexivity; cbn in *.
Qed.
Print Assumptions C74_expansions.
Print Assumptions C74_al_expansions.
Print Assumptions C74_constraint_expansion.
