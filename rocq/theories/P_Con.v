(** Property theorems: cones, constraint values, augmented-Lagrangian cost (C01-C11, C16). *)
From Coq Require Import Reals Lra Lia String List Bool ZArith QArith Permutation Sorted Floats.SpecFloat.
From Coquelicot Require Import Coquelicot.
From Verif Require Import Base Lin RLin RDer ConModel ConSpec ConProofs ConProofs2 ConProofs3 ConProofs4 ConProofs5 ConExamples.
Import List ListNotations.
Local Open Scope R_scope.

(** ** C01 *)
(** The projection onto each cone is the unique nearest point of that cone, for all inputs. *)
Theorem C01_projection : forall K p (x : vec RS), is_projection K p x (cone_proj K p x).
Proof. exact cone_proj_is_projection. Qed.
(** Members of the cone are left unchanged. *)
Theorem C01_members_fixed : forall K p (x : vec RS), in_cone K p x -> forall i, (i < p)%nat -> cone_proj K p x i = x i.
Proof. exact proj_member. Qed.
(** The declared dual cone is the mathematical dual cone. *)
Theorem C01_dual_cone : forall K p y, in_cone (dual_cone K) p y <-> in_dual K p y.
Proof. exact dual_cone_correct. Qed.
(** The projection's Jacobian is the derivative of the projection along every differentiable curve,
    wherever the projection is differentiable, provided the buffer's off-diagonal entries were zero. *)
Theorem C01_jacobian : forall K p (X : R -> nat -> R) v old i,
  curve X v -> (i < p)%nat -> (forall i j, i <> j -> old i j = 0) ->
  (K = NegativeOrthant -> X 0 i <> 0) ->
  is_derive (fun s => cone_proj K p (X s) i) 0 (fsum p (fun j => cone_jac K p (X 0) old i j * v j)).
Proof. exact cone_jac_is_derivative. Qed.
Example C01_example :
  cone_proj (F:=RS) NegativeOrthant 2 (fun i => match i with O => 3 | _ => -4 end) 0%nat = 0 /\
  cone_proj (F:=RS) NegativeOrthant 2 (fun i => match i with O => 3 | _ => -4 end) 1%nat = -4 /\
  curve (fun s i => match i with O => 3 + s | _ => -4 end) (fun i => match i with O => 1 | _ => 0 end).
Proof.
  split; [|split].
  - rewrite proj_neg by lia. rewrite Rmin_left; lra.
  - rewrite proj_neg by lia. rewrite Rmin_right; lra.
  - intros [|i]; [|apply d_const]. eapply d_eq; [apply d_plus; [apply d_const|apply d_id]|]. lra.
Qed.
Print Assumptions C01_projection.
Print Assumptions C01_members_fixed.
Print Assumptions C01_dual_cone.
Print Assumptions C01_jacobian.

(** ** C02 *)
(** After any sequence of public operations on a freshly built ALCost, every inequality multiplier is
    <= 0: in exact arithmetic and in IEEE double arithmetic (in particular it is never NaN). *)
Theorem C02_duals_nonpositive_real : forall debug n m (cost : UCost RS) eqs ineqs os a,
  al_reach debug (al_make n m cost eqs ineqs) os a ->
  forall v, In v (al_ineq a) -> forall i, (i < cv_p v)%nat -> cv_lam v i <= 0.
Proof.
  intros debug n m cost eqs ineqs os a H v Hv i Hi. apply Rleb_true.
  refine (al_duals_nonpos (F:=RS) _ _ debug n m cost eqs ineqs os a H v Hv i Hi).
  - apply Rleb_true. apply Rle_refl.
  - intros x Hx. apply Rleb_true. apply Rltb_true in Hx. now left.
Qed.
Theorem C02_duals_nonpositive_float : forall debug n m (cost : UCost FS) eqs ineqs os a,
  al_reach debug (al_make n m cost eqs ineqs) os a ->
  forall v, In v (al_ineq a) -> forall i, (i < cv_p v)%nat -> SFleb (cv_lam v i) (S754_zero false) = true.
Proof.
  refine (al_duals_nonpos (F:=FS) _ _); [reflexivity|].
  intros x H. unfold FS, leb, ltb, SFltb, SFleb in *. destruct (SFcompare x _) as [[]|]; congruence.
Qed.
(** a float history with NaN and infinite constraint values *)
Definition c02_hist : list (alop FS) :=
  [OpEval (F:=FS) (fun _ => S754_nan) (fun _ => S754_zero false); OpUpdateDuals;
   OpEval (F:=FS) (fun _ => S754_infinity false) (fun _ => S754_zero false); OpUpdateDuals; OpUpdatePenalties].
Example C02_example : exists a,
  al_reach true (al_make 1 1 (zero_cost FS) [] [one_con FS]) c02_hist a /\
  exists v, In v (al_ineq a) /\ cv_lam v 0%nat = S754_infinity true.
Proof.
  eexists. split.
  - change c02_hist with (((((([] ++ [OpEval (F:=FS) (fun _ => S754_nan) (fun _ => S754_zero false)]) ++ [OpUpdateDuals]) ++
      [OpEval (F:=FS) (fun _ => S754_infinity false) (fun _ => S754_zero false)]) ++ [OpUpdateDuals])) ++ [OpUpdatePenalties] : list (alop FS)).
    do 5 (eapply reach_step; [|reflexivity]). constructor.
  - eexists. split; [left; reflexivity|]. vm_compute. reflexivity.
Qed.
Print Assumptions C02_duals_nonpositive_real.
Print Assumptions C02_duals_nonpositive_float.

(** ** C03 *)
Theorem C03_dual_fixed_point_iff_kkt : forall (v : CV RS),
  (forall i, (i < cv_p v)%nat -> 0 < cv_pen v i) ->
  ((forall i, (i < cv_p v)%nat -> cv_lam (cv_update_duals v) i = cv_lam v i) <->
   (forall i, (i < cv_p v)%nat -> kkt (cv_type v) (cv_c v i) (cv_lam v i))).
Proof.
  intros v Hp. split; intros H i Hi; [apply (dual_fixed_point_kkt v i Hi (Hp i Hi))|
    apply (dual_fixed_point_kkt v i Hi (Hp i Hi))]; auto.
Qed.
(** an active and an inactive inequality with multiplier -3 and 0 *)
Example C03_example :
  let v := mkCV 1 1 NegativeOrthant ex_con (fun i => match i with O => 0 | _ => -1 end)
             (fun i => match i with O => -3 | _ => 0 end) (fun _ => 10) mzero mzero 10 in
  (forall i, (i < cv_p v)%nat -> 0 < cv_pen v i) /\
  (forall i, (i < cv_p v)%nat -> kkt (cv_type v) (cv_c v i) (cv_lam v i)).
Proof.
  split; intros i Hi; simpl; [lra|]. destruct i as [|i]; repeat split; lra.
Qed.
Print Assumptions C03_dual_fixed_point_iff_kkt.

(** ** C04 *)
Theorem C04_auglag_value : forall (v : CV RS) x u, cv_pen v 0%nat <> 0 ->
  fst (cv_auglag v x u)
  = fsum (cv_p v) (fun i => phr (cv_type v) (cv_pen v 0%nat) (cv_lam v i) (con_eval (cv_con v) x u (cv_c v) i)).
Proof. exact auglag_phr. Qed.
(** The textbook term is the minimum over admissible slacks of the equality AL. *)
Theorem C04_slack_form : forall rho lam c, 0 < rho ->
  (forall s, s <= 0 -> phr NegativeOrthant rho lam c <= slack_al rho lam c s) /\
  (exists s, s <= 0 /\ phr NegativeOrthant rho lam c = slack_al rho lam c s) /\
  phr ZeroCone rho lam c = slack_al rho lam c 0.
Proof. exact phr_slack. Qed.
(** On feasible values the term is 0 (equality) and at most 0 (inequality, admissible multiplier). *)
Theorem C04_feasible_values : forall rho lam c, 0 < rho ->
  (c = 0 -> phr ZeroCone rho lam c = 0) /\ (c <= 0 -> lam <= 0 -> phr NegativeOrthant rho lam c <= 0).
Proof. intros rho lam c H. split; [apply phr_feasible_eq|intros; now apply phr_feasible_ineq]. Qed.
Example C04_example :
  let v := cv_make 2 1 NegativeOrthant ex_con in
  cv_pen v 0%nat <> 0 /\ fst (cv_auglag v (fun _ => 3) (fun _ => 1)) = 34.
Proof.
  intros v. assert (Hp : cv_pen v 0%nat = 1) by reflexivity.
  split; [rewrite Hp; lra|]. rewrite C04_auglag_value; [|rewrite Hp; lra]. rewrite Hp.
  unfold fsum, phr; simpl; unfold ex_g, vstore, vzero; simpl; rs; simpl. repeat (destruct (Rle_dec _ _)); lra.
Qed.
Print Assumptions C04_auglag_value.
Print Assumptions C04_slack_form.
Print Assumptions C04_feasible_values.

(** ** C05 *)
(** Reachable ALCosts: the gradient returned is the true derivative of the evaluated cost along every
    differentiable curve through the point. *)
Theorem C05_gradient_true : forall debug n m (cost : UCost RS) eqs ineqs os a X U dv dw old,
  cost_true n m cost -> (forall c, In c (eqs ++ ineqs) -> con_smooth n m c) ->
  al_reach debug (al_make n m cost eqs ineqs) os a ->
  (forall v, In v (al_cvs a) -> cv_pen v 0%nat <> 0) ->
  curve X dv -> curve U dw ->
  is_derive (fun s => fst (al_eval a (X s) (U s))) 0
    (fsum n (fun j => fst (fst (al_gradient a (X 0) (U 0) old)) j * dv j)
     + fsum m (fun j => snd (fst (al_gradient a (X 0) (U 0) old)) j * dw j)).
Proof.
  intros debug n m cost eqs ineqs os a X U dv dw old Hc Hs Hr Hp HX HU.
  destruct (reach_good debug n m cost eqs ineqs os a Hs Hr) as (Hn & Hm & Ec & Hv).
  apply al_gradient_true; auto; [now rewrite Ec|]. intros v Hin. split; [auto|]. apply (Hv v Hin).
Qed.
Example C05_example : exists os a,
  cost_true 2 1 ex_cost /\ (forall c, In c ([ex_con] ++ [ex_con]) -> con_smooth 2 1 c) /\
  al_reach true (al_make 2 1 ex_cost [ex_con] [ex_con]) os a /\ length os = 2%nat /\
  (forall v, In v (al_cvs a) -> cv_pen v 0%nat <> 0).
Proof.
  exists ([OpEval (fun _ => 2) (fun _ => 1)] ++ [OpUpdateDuals]). eexists.
  split; [apply ex_cost_true|]. split; [intros c [<-|[<-|[]]]; apply ex_con_smooth|].
  split; [|split; [reflexivity|]].
  - eapply reach_step; [|reflexivity]. change [OpEval (fun _ => 2) (fun _ => 1)] with ([] ++ [OpEval (F:=RS) (fun _ => 2) (fun _ => 1)]).
    eapply reach_step; [|reflexivity]. constructor.
  - intros v [<-|[<-|[]]]; simpl; rewrite vstore_lt by lia; lra.
Qed.
Print Assumptions C05_gradient_true.

(** ** C06 *)
(** The Hessian is the user's Hessian plus the Gauss-Newton term of the active constraints. *)
Theorem C06_hessian_gauss_newton : forall n m g J W debug (cost : UCost RS) eqs ineqs os a x u old dv dw,
  (forall c, In c (eqs ++ ineqs) -> con_true n m c (g c) (J c) (W c)) ->
  al_reach debug (al_make n m cost eqs ineqs) os a ->
  qform n m (fst (al_hessian a x u old)) dv dw
  = qform n m (uc_hess cost x u old) dv dw
    + lfsum (fun v => cv_pen v 0%nat * fsum (cv_p v) (fun l =>
          if active (cv_type v) (cv_pen v 0%nat) (cv_lam v l) (g (cv_con v) x u l)
          then (fsum n (fun j => J (cv_con v) x u l j * dv j) + fsum m (fun j => J (cv_con v) x u l (n + j)%nat * dw j))^2
          else 0)) (al_cvs a).
Proof. exact al_hessian_gn. Qed.
Theorem C06_hessian_symmetric : forall n m debug (cost : UCost RS) eqs ineqs os a x u old,
  (forall c, In c (eqs ++ ineqs) -> con_smooth n m c) ->
  al_reach debug (al_make n m cost eqs ineqs) os a ->
  (let '(hxx, hxu, huu) := uc_hess cost x u old in msym n hxx /\ msym m huu) ->
  let '(hxx, hxu, huu) := fst (al_hessian a x u old) in msym n hxx /\ msym m huu.
Proof. exact al_hessian_sym. Qed.
(** Non-negative penalties: constraints never remove curvature. *)
Theorem C06_hessian_psd : forall n m debug (cost : UCost RS) eqs ineqs os a x u old dv dw,
  (forall c, In c (eqs ++ ineqs) -> con_smooth n m c) ->
  al_reach debug (al_make n m cost eqs ineqs) os a ->
  (forall v, In v (al_cvs a) -> 0 <= cv_pen v 0%nat) ->
  qform n m (uc_hess cost x u old) dv dw <= qform n m (fst (al_hessian a x u old)) dv dw.
Proof. exact al_hessian_psd. Qed.
Theorem C06_full_newton_throws : forall (F : Scalar) (v : CV F) x u,
  cv_hessian true v x u = Throw /\ cv_hessian false v x u = Ok (cv_hessian_core v x u).
Proof. intros; split; reflexivity. Qed.
Example C06_example :
  (forall c, In c ([ex_con] ++ [ex_con]) -> con_true 2 1 c ((fun _ => ex_g) c) ((fun _ => ex_J) c) ((fun _ => ex_W) c)) /\
  al_reach true (al_make 2 1 ex_cost [ex_con] [ex_con]) [] ex_al /\
  (forall v, In v (al_cvs ex_al) -> 0 <= cv_pen v 0%nat) /\
  (let '(hxx, hxu, huu) := uc_hess ex_cost (fun _ => 1) (fun _ => 1) (mzero, mzero, mzero) in msym 2 hxx /\ msym 1 huu).
Proof.
  split; [intros c [<-|[<-|[]]]; apply ex_con_true|]. split; [constructor|]. split.
  - intros v [<-|[<-|[]]]; simpl; rewrite vstore_lt by lia; lra.
  - split; intros [|[|i]] [|[|j]]; intros; try reflexivity; lia.
Qed.
Print Assumptions C06_hessian_gauss_newton.
Print Assumptions C06_hessian_symmetric.
Print Assumptions C06_hessian_psd.
Print Assumptions C06_full_newton_throws.

(** ** C07 *)
(** For any arithmetic: two ALCosts built alike, after arbitrary different histories, give the same
    value, gradient and Hessian whenever their multipliers and penalties agree. *)
Theorem C07_expansions_history_independent : forall (F : Scalar) debug n m (cost : UCost F) eqs ineqs os1 a1 os2 a2,
  (forall c, In c (eqs ++ ineqs) -> con_pure n m c) ->
  (forall c, In c (eqs ++ ineqs) -> (0 < con_dim c)%nat) ->
  al_reach debug (al_make n m cost eqs ineqs) os1 a1 -> al_reach debug (al_make n m cost eqs ineqs) os2 a2 ->
  al_same_params a1 a2 ->
  forall x u, fst (al_eval a1 x u) = fst (al_eval a2 x u) /\
  (forall old, fst (al_gradient a1 x u old) = fst (al_gradient a2 x u old)) /\
  (forall old, fst (al_hessian a1 x u old) = fst (al_hessian a2 x u old)).
Proof. exact @expansions_history. Qed.
Example C07_example : exists a2,
  (forall c, In c ([] ++ [ex_con]) -> con_pure (F:=RS) 2 1 c) /\
  al_reach true (al_make 2 1 ex_cost [] [ex_con]) [OpGrad (fun _ => 5) (fun _ => 6) (vzero, vzero)] a2 /\
  al_same_params (al_make 2 1 ex_cost [] [ex_con]) a2 /\
  (exists v, In v (al_cvs a2) /\ cv_c v 0%nat = 19).
Proof.
  eexists. split; [|split; [|split]].
  - intros c [<-|[]]. exists ex_J, ex_W. apply con_true_masked with (g := ex_g). apply ex_con_true.
  - change [OpGrad (F:=RS) (fun _ => 5) (fun _ => 6) (vzero, vzero)] with ([] ++ [OpGrad (F:=RS) (fun _ => 5) (fun _ => 6) (vzero, vzero)]).
    eapply reach_step; [constructor|reflexivity].
  - constructor; [|constructor]. intros i Hi. split; reflexivity.
  - eexists. split; [left; reflexivity|]. simpl. unfold vstore, ex_g; cbn. lra.
Qed.
Print Assumptions C07_expansions_history_independent.

(** ** C08 *)
(** The reported maximum violation is >= 0, bounds the violation of every component of every
    constraint at every knot point (|c_i| for equalities, max(0,c_i) for inequalities), and is attained
    unless it is 0. *)
Theorem C08_max_violation : forall (l : list (ALCost RS)),
  let M := als_max_violation l in
  0 <= M /\
  (forall a v i, In a l -> In v (al_cvs a) -> (i < cv_p v)%nat -> viol (cv_type v) (cv_c v i) <= M) /\
  (M = 0 \/ exists a v i, In a l /\ In v (al_cvs a) /\ (i < cv_p v)%nat /\ M = viol (cv_type v) (cv_c v i)).
Proof.
  intros l M. destruct (als_max_violation_spec l) as (A & B & C). split; [exact A|]. split.
  - intros a v i Ha Hv Hi. apply B. exists a. split; auto. exists v. eauto.
  - destruct C as [C|(K & c & (a & Ha & v & Hv & -> & i & Hi & ->) & C)]; [left; exact C|].
    right. exists a, v, i. auto.
Qed.
(** Zero exactly when everything stored is feasible; below tol exactly when every equality component is in
    (-tol, tol) and every inequality component below tol. *)
Theorem C08_max_violation_decides : forall (l : list (ALCost RS)),
  (als_max_violation l = 0 <->
     forall a v i, In a l -> In v (al_cvs a) -> (i < cv_p v)%nat -> comp_feasible (cv_type v) (cv_c v i)) /\
  (forall tol, 0 < tol -> (als_max_violation l < tol <->
     forall a v i, In a l -> In v (al_cvs a) -> (i < cv_p v)%nat -> comp_within (cv_type v) tol (cv_c v i))).
Proof. exact max_violation_cor. Qed.
(** Evaluating the cost at (x,u) makes the stored values those of (x,u). *)
Theorem C08_evaluate_stores_values : forall (F : Scalar) (a : ALCost F) x u,
  let a' := snd (al_eval a x u) in
  al_cost a' = al_cost a /\
  Forall2 (fun v w => same_static v w /\ cv_lam w = cv_lam v /\ cv_pen w = cv_pen v /\ cv_scal w = cv_scal v /\
             forall i, (i < cv_p v)%nat -> cv_c w i = con_eval (cv_con v) x u (cv_c v) i) (al_cvs a) (al_cvs a').
Proof. exact @al_eval_stores. Qed.
Example C08_example :
  als_max_violation (F:=QS) [snd (al_eval (al_make 1 1 (zero_cost QS) [one_con QS] [one_con QS]) (fun _ => (-3)%Q : T QS) vzero);
                        snd (al_eval (al_make 1 1 (zero_cost QS) [] [one_con QS]) (fun _ => 2%Q : T QS) vzero)] = 3%Q.
Proof. vm_compute. reflexivity. Qed.
Print Assumptions C08_max_violation.
Print Assumptions C08_max_violation_decides.
Print Assumptions C08_evaluate_stores_values.

(** ** C09 *)
Theorem C09_set_penalty_uniform : forall (F : Scalar) debug rho (l : list (ALCost F)),
  (debug = true -> leb zero rho = true) ->
  exists l', als_set_penalty debug rho l = Ok l' /\
  Forall2 (fun a a' => al_cost a' = al_cost a /\
     Forall2 (fun v v' => same_static v v' /\ cv_lam v' = cv_lam v /\ cv_c v' = cv_c v /\ cv_scal v' = cv_scal v /\
        forall i, (i < cv_p v)%nat -> cv_pen v' i = rho) (al_cvs a) (al_cvs a')) l l'.
Proof.
  intros F debug rho l H. exists (map (al_map (const_pen rho)) l). split; [now apply als_set_penalty_ok|].
  induction l as [|a l IH]; simpl; constructor; auto. split; [reflexivity|].
  unfold al_cvs, al_map, al_set. simpl. rewrite <- map_app. apply Forall2_map_r.
  intros v. repeat split; auto. intros i Hi. simpl. now rewrite vstore_lt.
Qed.
Theorem C09_negative_penalty_rejected : forall (F : Scalar) K rho (a : ALCost F),
  leb zero rho = false -> al_list K a <> [] -> al_set_penalty true K rho a = Abort.
Proof. exact @al_set_penalty_abort. Qed.
(** Between explicit settings, every penalty is its starting value times scaling^(number of updates). *)
Theorem C09_penalties_geometric : forall debug (a0 a : ALCost RS) os,
  al_reach debug a0 os a -> (forall o, In o os -> is_pen_set o = false) ->
  Forall2 (fun v w => cv_p w = cv_p v /\ cv_scal w = cv_scal v /\
     forall i, (i < cv_p v)%nat -> cv_pen w i = cv_pen v i * cv_scal v ^ length (filter is_pen_update os))
    (al_cvs a0) (al_cvs a).
Proof. exact penalties_geometric. Qed.
(** so with scaling >= 1 no penalty ever decreases *)
Theorem C09_penalties_monotone : forall debug (a0 a : ALCost RS) os,
  al_reach debug a0 os a -> (forall o, In o os -> is_pen_set o = false) ->
  Forall2 (fun v w => cv_p w = cv_p v /\ (1 <= cv_scal v -> forall i, (i < cv_p v)%nat -> 0 <= cv_pen v i -> cv_pen v i <= cv_pen w i))
    (al_cvs a0) (al_cvs a).
Proof. exact penalties_monotone. Qed.
(** All components of one constraint share one penalty, so using component 0 in the AL value is sound. *)
Theorem C09_penalty_vector_uniform : forall (F : Scalar) debug n m (cost : UCost F) eqs ineqs os a,
  al_reach debug (al_make n m cost eqs ineqs) os a -> forall v, In v (al_cvs a) ->
  forall i j, (i < cv_p v)%nat -> (j < cv_p v)%nat -> cv_pen v i = cv_pen v j.
Proof. exact @penalties_uniform. Qed.
Theorem C09_max_penalty : forall (l : list (ALCost RS)),
  (forall a v, In a l -> In v (al_cvs a) -> (0 < cv_p v)%nat) ->
  let M := als_max_penalty l in
  0 <= M /\ (forall a v i, In a l -> In v (al_cvs a) -> (i < cv_p v)%nat -> cv_pen v i <= M) /\
  (M = 0 \/ exists a v i, In a l /\ In v (al_cvs a) /\ (i < cv_p v)%nat /\ M = cv_pen v i).
Proof. exact als_max_penalty_spec. Qed.
Example C09_example :
  als_max_penalty (F:=QS) [al_update_penalties (al_update_penalties (al_make 1 1 (zero_cost QS) [] [one_con QS]))] = 100%Q /\
  exists a, al_reach true ex_al ([] ++ [OpUpdatePenalties] ++ []) a /\
  (forall o : alop RS, In o [OpUpdatePenalties] -> is_pen_set o = false).
Proof.
  split; [vm_compute; reflexivity|]. eexists. split; [eapply (reach_step true ex_al [] OpUpdatePenalties); [constructor|reflexivity]|].
  intros o [<-|[]]. reflexivity.
Qed.
Print Assumptions C09_set_penalty_uniform.
Print Assumptions C09_negative_penalty_rejected.
Print Assumptions C09_penalties_geometric.
Print Assumptions C09_penalties_monotone.
Print Assumptions C09_penalty_vector_uniform.
Print Assumptions C09_max_penalty.

(** ** C10 (finding): SetPenalty accepts rho = 0, and then the AL value is 0/0 = NaN in IEEE arithmetic. *)
Theorem C10_zero_penalty_refuted : exists (l : list (ALCost FS)) l' a' x u,
  als_set_penalty (F:=FS) true (S754_zero false) l = Ok l' /\ In a' l' /\ is_nan (fst (al_eval a' x u)) = true.
Proof.
  exists [al_make 1 1 (zero_cost FS) [] [one_con FS]].
  exists (map (al_map (const_pen (S754_zero false : T FS))) [al_make 1 1 (zero_cost FS) [] [one_con FS]]).
  eexists. exists (fun _ => f64_ofZ 1), (fun _ => f64_ofZ 1).
  split; [apply als_set_penalty_ok; reflexivity|]. split; [left; reflexivity|]. vm_compute. reflexivity.
Qed.
(** A constraint of dimension 0 makes AugLag read penalty_(0) of an empty vector. *)
Theorem C10_empty_constraint_refuted : forall (F : Scalar) (v : CV F) x u,
  con_dim (cv_con v) = 0%nat -> cv_auglag_checked v x u = UB.
Proof. intros F v x u H. unfold cv_auglag_checked, cv_p. now rewrite H. Qed.
(** no other constraint reads outside its vectors *)
Theorem C10_defined : forall (F : Scalar) (v : CV F) x u, con_dim (cv_con v) <> 0%nat -> cv_auglag_checked v x u = Ok (cv_auglag v x u).
Proof. intros F v x u H. unfold cv_auglag_checked, cv_p. apply Nat.eqb_neq in H. now rewrite H. Qed.
Example C10_empty_example : con_dim (cv_con (cv_make 1 1 NegativeOrthant (mkCon (F:=RS) 0 (fun x _ _ => x) (fun _ _ b => b) ""%string))) = 0%nat.
Proof. reflexivity. Qed.
Print Assumptions C10_zero_penalty_refuted.
Print Assumptions C10_empty_constraint_refuted. Print Assumptions C10_defined.

(** ** C11 *)
Theorem C11_alcost_value : forall (a : ALCost RS) x u,
  fst (al_eval a x u) = uc_eval (al_cost a) x u + lfsum (fun v => fst (cv_auglag v x u)) (al_cvs a).
Proof. exact al_eval_RS. Qed.
(** in floating point: exactly the left-to-right accumulation of the same terms *)
Theorem C11_alcost_value_any_arithmetic : forall (F : Scalar) (a : ALCost F) x u,
  fst (al_eval a x u) =
  fold_left (fun J v => add J (fst (cv_auglag v x u))) (al_eq a ++ al_ineq a) (uc_eval (al_cost a) x u).
Proof. exact @al_eval_fst. Qed.
(** gradient and Hessian: entry by entry the user's plus the sum of the constraint terms *)
Theorem C11_alcost_gradient : forall (a : ALCost RS) x u old,
  let g := uc_grad (al_cost a) x u old in
  let r := fst (al_gradient a x u old) in
  (forall j, (j < al_n a)%nat -> fst r j = fst g j + lfsum (fun v => fst (fst (cv_gradient v x u)) j) (al_cvs a)) /\
  (forall j, (j < al_m a)%nat -> snd r j = snd g j + lfsum (fun v => snd (fst (cv_gradient v x u)) j) (al_cvs a)).
Proof. exact al_gradient_entries. Qed.
Theorem C11_alcost_hessian : forall (a : ALCost RS) x u old,
  let h := uc_hess (al_cost a) x u old in
  let r := fst (al_hessian a x u old) in
  let n := al_n a in let m := al_m a in
  (forall i j, (i < n)%nat -> (j < n)%nat ->
     fst (fst r) i j = fst (fst h) i j + lfsum (fun v => fst (fst (fst (cv_hessian_core v x u))) i j) (al_cvs a)) /\
  (forall i j, (i < n)%nat -> (j < m)%nat ->
     snd (fst r) i j = snd (fst h) i j + lfsum (fun v => snd (fst (fst (cv_hessian_core v x u))) i j) (al_cvs a)) /\
  (forall i j, (i < m)%nat -> (j < m)%nat ->
     snd r i j = snd h i j + lfsum (fun v => snd (fst (cv_hessian_core v x u)) i j) (al_cvs a)).
Proof. exact al_hessian_entries. Qed.
(** without constraints the AL cost, gradient and Hessian are the user's *)
Theorem C11_unconstrained : forall (F : Scalar) n m (cost : UCost F) x u,
  fst (al_eval (al_make n m cost [] []) x u) = uc_eval cost x u /\
  (forall old, fst (al_gradient (al_make n m cost [] []) x u old) = uc_grad cost x u old) /\
  (forall old, fst (al_hessian (al_make n m cost [] []) x u old) = uc_hess cost x u old).
Proof. repeat split; reflexivity. Qed.
Example C11_example :
  fst (al_eval (F:=QS) (al_make 1 1 (mkUCost (F:=QS) (fun x u => 5%Q : T QS) (fun _ _ b => b) (fun _ _ b => b)) [one_con QS] [one_con QS]) (fun _ => 2%Q : T QS) vzero) = 9%Q.
Proof. vm_compute. reflexivity. Qed.
Print Assumptions C11_alcost_value.
Print Assumptions C11_alcost_value_any_arithmetic.
Print Assumptions C11_alcost_gradient.
Print Assumptions C11_alcost_hessian.
Print Assumptions C11_unconstrained.

(** ** C16 *)
(** GetConstraintInfo(false): exactly one entry per constraint, in knot-point order, equalities first,
    with label, index, type and violation of that constraint. *)
Theorem C16_info_complete : forall (l : list (ALCost RS)), Forall2 info_matches (listed l) (als_info false l).
Proof. exact als_info_complete. Qed.
(** GetConstraintInfo(true): the same entries, ordered by decreasing infinity norm of the violation. *)
Theorem C16_info_sorted : forall (l : list (ALCost RS)),
  Permutation (als_info false l) (als_info true l) /\
  exists M : CInfo RS -> R, (forall i, is_max_abs (ci_dim i) (ci_viol i) (M i)) /\
     Sorted (fun a b => M b <= M a) (als_info true l).
Proof.
  intros l. split; [apply als_info_sorted_perm|]. exists (fun i => rlinf (ci_dim i) (ci_viol i)).
  split; [intros; apply rlinf_is_max|]. exact (als_info_sorted l).
Qed.
(** NumConstraints counts the components of the listed constraints. *)
Theorem C16_num_constraints : forall (F : Scalar) (l : list (ALCost F)),
  als_num_constraints l = list_sum (map (fun a => list_sum (map (fun v => con_dim (cv_con v)) (al_cvs a))) l).
Proof. exact @als_num_constraints_eq. Qed.
Example C16_example :
  map (fun i => (ci_index i, linf (ci_dim i) (ci_viol i)))
    (als_info (F:=QS) true [snd (al_eval (al_make 1 1 (zero_cost QS) [] [one_con QS]) (fun _ => 1%Q : T QS) vzero);
                        snd (al_eval (al_make 1 1 (zero_cost QS) [one_con QS] [one_con QS]) (fun _ => (-2)%Q : T QS) vzero)])
  = [(1%nat, 2%Q); (0%nat, 1%Q); (1%nat, 0%Q)].
Proof. vm_compute. reflexivity. Qed.
Print Assumptions C16_info_complete.
Print Assumptions C16_info_sorted.
Print Assumptions C16_num_constraints.
